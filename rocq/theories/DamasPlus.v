(** BeamformerDamasPlus (/repo/acoular/fbeamform.py:1244-1360): the problems
    that are handed to the solvers.  The solvers themselves (scipy nnls and
    linprog, scikit-learn LassoLars) are taken to return a solution of the
    problem they are documented to solve; which one is left open.  The method
    'OMPCV' is not modelled. *)
From Coq Require Import List Arith Lia ZArith Bool Reals Lra.
From Verif Require Import Stream Cplx Beamform Deconv.
Import ListNotations.
Local Open Scope R_scope.

Section Problems.
  Variables (g : nat) (A : nat -> nat -> R).
  Definition positive_part (x : nat -> R) : Prop := forall t, (t < g)%nat -> 0 <= x t.
  Definition mul (x : nat -> R) (t : nat) : R := rsumn g (fun s => A t s * x s).

  (** scipy.optimize.nnls(psf, y)[0] *)
  Definition residual (y x : nat -> R) : R := rsumn g (fun t => (mul x t - y t) * (mul x t - y t)).
  Definition nnls (y x : nat -> R) : Prop :=
    positive_part x /\ forall z, positive_part z -> residual y x <= residual y z.

  (** linprog(c=-psf.sum(1), A_ub=psf, b_ub=y).x with the default bounds
      (0, None), fbeamform.py:1331-1332 *)
  Definition row_sum (t : nat) : R := rsumn g (fun s => A t s).
  Definition feasible (y x : nat -> R) : Prop := positive_part x /\ forall t, (t < g)%nat -> mul x t <= y t.
  Definition linprog (y x : nat -> R) : Prop :=
    feasible y x /\ forall z, feasible y z -> rsumn g (fun t => - row_sum t * x t) <= rsumn g (fun t => - row_sum t * z t).

  (** norm(psf, axis=0), 1349 *)
  Definition column_norm (s : nat) : R := sqrt (rsumn g (fun t => A t s * A t s)).
End Problems.

(** LassoLars(alpha, positive=True).fit(X, y).coef_; fit_intercept is left at
    its default True, so an intercept [b] is fitted and dropped.  Objective of
    scikit-learn: |y - X w - b|^2 / (2 g) + alpha |w|_1. *)
Definition lasso_cost (g : nat) (X : nat -> nat -> R) (y : nat -> R) (alpha : R) (w : nat -> R) (b : R) : R :=
  rsumn g (fun t => (y t - mul g X w t - b) * (y t - mul g X w t - b)) / (2 * INR g) + alpha * rsumn g w.
Definition lasso_coef (g : nat) (X : nat -> nat -> R) (y : nat -> R) (alpha : R) (w : nat -> R) : Prop :=
  positive_part g w /\ exists b, forall w' b', positive_part g w' -> lasso_cost g X y alpha w b <= lasso_cost g X y alpha w' b'.

(** BeamformerDamasPlus._calc for one frequency, 1318-1357: [y] the map,
    multiplied by [unit] before and divided after. *)
Definition plus_nnls (g : nat) (A : nat -> nat -> R) (y : nat -> R) (unit : R) (v : nat -> R) : Prop :=
  exists x, nnls g A (fun t => unit * y t) x /\ forall t, (t < g)%nat -> v t = x t / unit.
Definition plus_lp (g : nat) (A : nat -> nat -> R) (y : nat -> R) (unit : R) (v : nat -> R) : Prop :=
  exists x, linprog g A (fun t => unit * y t) x /\ forall t, (t < g)%nat -> v t = x t / unit.
Definition plus_lasso (g : nat) (A : nat -> nat -> R) (y : nat -> R) (alpha unit : R) (v : nat -> R) : Prop :=
  exists w, lasso_coef g (fun t s => A t s / column_norm g A s) (fun t => unit * y t) (alpha * unit) w
    /\ forall t, (t < g)%nat -> v t = w t / column_norm g A t / unit.

(** * The unit *)
Section Unit.
  Variables (g : nat) (A : nat -> nat -> R).
  Lemma mul_ext x z t : (forall s, (s < g)%nat -> x s = z s) -> mul g A x t = mul g A z t.
  Proof. intros H. apply rsumn_ext. intros s Hs. now rewrite H. Qed.
  Lemma mul_scal u x t : mul g A (fun s => u * x s) t = u * mul g A x t.
  Proof. unfold mul. rewrite <- rsumn_scal. apply rsumn_ext. intros; ring. Qed.
  Lemma residual_ext y x z : (forall s, (s < g)%nat -> x s = z s) -> residual g A y x = residual g A y z.
  Proof. intros H. apply rsumn_ext. intros t _. now rewrite (mul_ext x z t H). Qed.
  Lemma residual_scal u y x : residual g A (fun t => u * y t) (fun t => u * x t) = u * u * residual g A y x.
  Proof. unfold residual. rewrite <- rsumn_scal. apply rsumn_ext. intros t _. rewrite mul_scal. ring. Qed.
  Lemma residual_nonneg y x : 0 <= residual g A y x.
  Proof. apply rsumn_nonneg. intros. apply Rle_0_sqr. Qed.
  Lemma scal_back u (x : nat -> R) s : 0 < u -> x s = u * (x s / u).
  Proof. intros. field. lra. Qed.
  Lemma pos_scal u x : 0 < u -> positive_part g x -> positive_part g (fun t => u * x t).
  Proof. intros Hu H t Ht. apply Rmult_le_pos; [lra|auto]. Qed.
  Lemma pos_div u x : 0 < u -> positive_part g x -> positive_part g (fun t => x t / u).
  Proof. intros Hu H t Ht. apply Rmult_le_pos; [auto|]. apply Rlt_le, Rinv_0_lt_compat, Hu. Qed.

  Theorem nnls_unit y u v : 0 < u -> (plus_nnls g A y u v <-> nnls g A y v).
  Proof.
    intros Hu. assert (0 < u * u) as U2 by now apply Rmult_lt_0_compat. split.
    - intros [x [[P M] V]]. split.
      + intros t Ht. rewrite V by exact Ht. now apply (pos_div u x Hu P).
      + intros z Hz. specialize (M (fun t => u * z t) (pos_scal u z Hu Hz)). rewrite residual_scal in M.
        rewrite (residual_ext _ x (fun t => u * v t)) in M by (intros s Hs; rewrite V by exact Hs; now apply scal_back).
        rewrite residual_scal in M. now apply Rmult_le_reg_l in M.
    - intros [P M]. exists (fun t => u * v t). split; [split|].
      + now apply pos_scal.
      + intros z Hz. rewrite residual_scal. rewrite (residual_ext _ z (fun t => u * (z t / u))) by (intros; now apply scal_back).
        rewrite residual_scal. apply Rmult_le_compat_l; [lra|]. apply M. now apply pos_div.
      + intros t _. field. lra.
  Qed.

  Lemma feasible_scal u y x : 0 < u -> feasible g A y x -> feasible g A (fun t => u * y t) (fun t => u * x t).
  Proof. intros Hu [P M]. split; [now apply pos_scal|]. intros t Ht. rewrite mul_scal. apply Rmult_le_compat_l; [lra|auto]. Qed.
  Lemma feasible_div u y x : 0 < u -> feasible g A (fun t => u * y t) x -> feasible g A y (fun t => x t / u).
  Proof.
    intros Hu [P M]. split; [now apply pos_div|]. intros t Ht. specialize (M t Ht).
    rewrite (mul_ext x (fun t => u * (x t / u))) in M by (intros; now apply scal_back).
    rewrite mul_scal in M. now apply Rmult_le_reg_l in M.
  Qed.
  Lemma feasible_ext y x z : (forall s, (s < g)%nat -> x s = z s) -> feasible g A y x -> feasible g A y z.
  Proof.
    intros H [P M]. split; [intros t Ht; rewrite <- H by exact Ht; auto|]. intros t Ht. rewrite <- (mul_ext x z t H). auto.
  Qed.
  Lemma obj_scal u x : rsumn g (fun t => - row_sum g A t * (u * x t)) = u * rsumn g (fun t => - row_sum g A t * x t).
  Proof. rewrite <- rsumn_scal. apply rsumn_ext. intros; ring. Qed.
  Theorem lp_unit y u v : 0 < u -> (plus_lp g A y u v <-> linprog g A y v).
  Proof.
    intros Hu. split.
    - intros [x [[P M] V]]. split.
      + apply (feasible_ext y (fun t => x t / u)); [intros; symmetry; auto|]. now apply feasible_div.
      + intros z Hz. specialize (M (fun t => u * z t) (feasible_scal u y z Hu Hz)). cbv beta in M. rewrite (obj_scal u z) in M.
        rewrite (rsumn_ext g (fun t => - row_sum g A t * x t) (fun t => - row_sum g A t * (u * v t))) in M
          by (intros s Hs; rewrite V by exact Hs; f_equal; now apply scal_back).
        rewrite obj_scal in M. now apply Rmult_le_reg_l in M.
    - intros [P M]. exists (fun t => u * v t). split; [split|].
      + now apply feasible_scal.
      + intros z Hz. rewrite obj_scal.
        rewrite (rsumn_ext g (fun t => - row_sum g A t * z t) (fun t => - row_sum g A t * (u * (z t / u))))
          by (intros; f_equal; now apply scal_back).
        rewrite obj_scal. apply Rmult_le_compat_l; [lra|]. apply M. now apply feasible_div.
      + intros t _. field. lra.
  Qed.
End Unit.

Section LassoUnit.
  Variables (g : nat) (X : nat -> nat -> R).
  Lemma lasso_scal y alpha u w b : lasso_cost g X (fun t => u * y t) (alpha * u) (fun t => u * w t) (u * b)
    = u * u * lasso_cost g X y alpha w b.
  Proof.
    unfold lasso_cost. rewrite rsumn_scal.
    rewrite (rsumn_ext g _ (fun t => u * u * ((y t - mul g X w t - b) * (y t - mul g X w t - b)))) by (intros t _; rewrite mul_scal; ring).
    rewrite rsumn_scal. unfold Rdiv. ring.
  Qed.
  Lemma lasso_ext y alpha w z b : (forall s, (s < g)%nat -> w s = z s) -> lasso_cost g X y alpha w b = lasso_cost g X y alpha z b.
  Proof.
    intros H. unfold lasso_cost. rewrite (rsumn_ext g w z) by exact H. f_equal. f_equal. apply rsumn_ext. intros t _. now rewrite (mul_ext g X w z t H).
  Qed.
  Lemma coef_unit y alpha u w : 0 < u -> lasso_coef g X y alpha w -> lasso_coef g X (fun t => u * y t) (alpha * u) (fun t => u * w t).
  Proof.
    intros Hu [P [b M]]. assert (0 < u * u) as U2 by now apply Rmult_lt_0_compat. split; [now apply pos_scal|]. exists (u * b). intros w' b' P'.
    rewrite lasso_scal. rewrite (lasso_ext _ _ w' (fun t => u * (w' t / u))) by (intros; now apply scal_back).
    replace b' with (u * (b' / u)) by (field; lra). rewrite lasso_scal. apply Rmult_le_compat_l; [lra|]. apply M. now apply pos_div.
  Qed.
  Lemma coef_ext y y' alpha w z : (forall s, (s < g)%nat -> w s = z s) -> (forall s, (s < g)%nat -> y s = y' s) ->
    lasso_coef g X y alpha w -> lasso_coef g X y' alpha z.
  Proof.
    intros H Y [P [b M]]. assert (forall w b, lasso_cost g X y' alpha w b = lasso_cost g X y alpha w b) as E.
    { intros w' b'. unfold lasso_cost. f_equal. f_equal. apply rsumn_ext. intros t Ht. now rewrite Y by exact Ht. }
    split; [intros t Ht; rewrite <- H by exact Ht; auto|]. exists b. intros w' b' P'. rewrite !E, <- (lasso_ext y alpha w z b H). now apply M.
  Qed.
End LassoUnit.

Theorem lasso_unit g A y alpha u v : 0 < u -> (plus_lasso g A y alpha u v <-> plus_lasso g A y alpha 1 v).
Proof.
  intros Hu. split.
  - intros [w [C V]]. exists (fun t => / u * w t). split.
    + apply (coef_unit g _ _ _ (/ u)) in C; [|now apply Rinv_0_lt_compat].
      replace (alpha * u * / u) with (alpha * 1) in C by (field; lra).
      revert C. apply coef_ext; [reflexivity|]. intros s _. field. lra.
    + intros t Ht. rewrite V by exact Ht. unfold Rdiv. rewrite Rinv_1. ring.
  - intros [w [C V]]. exists (fun t => u * w t). split.
    + apply (coef_unit g _ _ _ u) in C; [|exact Hu]. replace (alpha * 1 * u) with (alpha * u) in C by ring.
      revert C. apply coef_ext; [reflexivity|]. intros s _. ring.
    + intros t Ht. rewrite V by exact Ht. unfold Rdiv. rewrite Rinv_1.
      replace (u * w t * / column_norm g A t * / u) with (w t * / column_norm g A t * (u * / u)) by ring. rewrite Rinv_r by lra. ring.
Qed.

(** * Exact data *)
Lemma sum_zero n (f : nat -> R) : (forall t, (t < n)%nat -> 0 <= f t) -> rsumn n f <= 0 -> forall t, (t < n)%nat -> f t = 0.
Proof.
  induction n as [|n IH]; intros P H t Ht; [lia|]. cbn [rsumn] in H.
  assert (0 <= rsumn n f) as Q by (apply rsumn_nonneg; intros; apply P; lia). pose proof (P n ltac:(lia)) as Pn.
  destruct (Nat.eq_dec t n) as [->|N]; [lra|]. apply IH; [intros; apply P; lia|lra|lia].
Qed.
Section Exact.
  Variables (g : nat) (A : nat -> nat -> R) (y q : nat -> R).
  Hypothesis Hq : positive_part g q.
  Hypothesis Hy : forall t, (t < g)%nat -> mul g A q t = y t.

  Lemma residual_q : residual g A y q = 0.
  Proof. apply rsumn_0. intros t Ht. rewrite Hy by exact Ht. ring. Qed.
  Theorem nnls_exact x : nnls g A y x <-> positive_part g x /\ forall t, (t < g)%nat -> mul g A x t = y t.
  Proof.
    split.
    - intros [P M]. split; [exact P|]. specialize (M q Hq). rewrite residual_q in M.
      intros t Ht. pose proof (sum_zero g _ (fun t _ => Rle_0_sqr (mul g A x t - y t)) M t Ht) as E. apply Rsqr_0_uniq in E. lra.
    - intros [P E]. split; [exact P|]. intros z _. replace (residual g A y x) with 0; [apply residual_nonneg|].
      symmetry. apply rsumn_0. intros t Ht. rewrite E by exact Ht. ring.
  Qed.

  (** Rows and columns with the same sums: the objective is minus the sum of
      the modelled map. *)
  Hypothesis Hs : forall t, (t < g)%nat -> row_sum g A t = rsumn g (fun s => A s t).
  Lemma objective x : rsumn g (fun t => - row_sum g A t * x t) = - rsumn g (mul g A x).
  Proof.
    rewrite (rsumn_ext g _ (fun t => -1 * rsumn g (fun s => A s t * x t))).
    2:{ intros t Ht. rewrite Hs by exact Ht. rewrite (rsumn_ext g (fun s => A s t * x t) (fun s => x t * A s t)) by (intros; ring). rewrite rsumn_scal. ring. }
    rewrite rsumn_scal, rsumn_swap. unfold mul. ring.
  Qed.
  Theorem lp_exact x : linprog g A y x <-> positive_part g x /\ forall t, (t < g)%nat -> mul g A x t = y t.
  Proof.
    split.
    - intros [[P M] O]. split; [exact P|]. assert (feasible g A y q) as F by (split; [exact Hq|intros t Ht; rewrite Hy by exact Ht; lra]).
      specialize (O q F). rewrite !objective in O.
      assert (rsumn g (fun t => y t - mul g A x t) <= 0) as L.
      { rewrite (rsumn_ext g _ (fun t => mul g A q t + -1 * mul g A x t)) by (intros t Ht; rewrite Hy by exact Ht; ring).
        rewrite rsumn_add, rsumn_scal. change (rsumn g (fun t => mul g A q t)) with (rsumn g (mul g A q)). change (rsumn g (fun t => mul g A x t)) with (rsumn g (mul g A x)). lra. }
      intros t Ht. pose proof (sum_zero g (fun t => y t - mul g A x t) (fun t Ht => ltac:(specialize (M t Ht); lra)) L t Ht) as E. cbv beta in E. lra.
    - intros [P E]. split; [split; [exact P|intros t Ht; rewrite E by exact Ht; lra]|]. intros z [_ Z]. rewrite !objective.
      apply Ropp_le_contravar. apply rsumn_le. intros t Ht. rewrite E by exact Ht. auto.
  Qed.
End Exact.

(** * The intercept of the Lasso *)
Lemma step_size g (w e : nat -> R) : (forall s, (s < g)%nat -> 0 < w s) -> exists d, 0 < d /\ forall s, (s < g)%nat -> d * Rabs (e s) <= w s.
Proof.
  induction g as [|g IH]; intros H; [exists 1; split; [lra|intros; lia]|].
  destruct IH as [d [D1 D2]]; [intros; apply H; lia|]. pose proof (H g ltac:(lia)) as W. pose proof (Rabs_pos (e g)) as E.
  assert (0 < w g / (Rabs (e g) + 1)) as Q by (apply Rdiv_lt_0_compat; lra).
  exists (Rmin d (w g / (Rabs (e g) + 1))). split; [now apply Rmin_glb_lt|]. intros s Hs.
  destruct (Nat.eq_dec s g) as [->|N].
  - apply Rle_trans with (w g / (Rabs (e g) + 1) * Rabs (e g)); [apply Rmult_le_compat_r; [exact E|apply Rmin_r]|].
    apply Rle_trans with (w g / (Rabs (e g) + 1) * (Rabs (e g) + 1)); [apply Rmult_le_compat_l; lra|]. right. field. lra.
  - apply Rle_trans with (d * Rabs (e s)); [apply Rmult_le_compat_r; [apply Rabs_pos|apply Rmin_l]|]. apply D2. lia.
Qed.
Lemma some_zero g (w : nat -> R) : positive_part g w -> ~ (forall s, (s < g)%nat -> 0 < w s) -> exists s, (s < g)%nat /\ w s = 0.
Proof.
  induction g as [|g IH]; intros P N; [exfalso; apply N; intros; lia|].
  destruct (Rlt_le_dec 0 (w g)) as [L|L].
  - destruct IH as [s [H1 H2]].
    + intros t Ht. apply P. lia.
    + intros Q. apply N. intros s Hs. destruct (Nat.eq_dec s g) as [->|Ne]; [exact L|apply Q; lia].
    + exists s. split; [lia|exact H2].
  - exists g. split; [lia|]. pose proof (P g ltac:(lia)). lra.
Qed.

(** If some combination of the columns is constant, the penalty drives at
    least one coefficient to zero. *)
Theorem lasso_zero g X y alpha w e : 0 < alpha -> lasso_coef g X y alpha w ->
  (forall t, (t < g)%nat -> mul g X e t = 1) -> rsumn g e <> 0 -> exists s, (s < g)%nat /\ w s = 0.
Proof.
  intros Ha [P [b M]] He Hs. apply some_zero; [exact P|]. intros Q. destruct (step_size g w e Q) as [d [D1 D2]].
  set (d' := if Rlt_dec 0 (rsumn g e) then d else - d).
  assert (forall s, (s < g)%nat -> Rabs (d' * e s) <= w s) as B.
  { intros s Ht. rewrite Rabs_mult. replace (Rabs d') with d; [auto|]. unfold d'. destruct (Rlt_dec 0 _); [rewrite Rabs_right; lra|rewrite Rabs_left; lra]. }
  assert (0 < d' * rsumn g e) as Gn.
  { unfold d'. destruct (Rlt_dec 0 (rsumn g e)) as [L|L]; [now apply Rmult_lt_0_compat|].
    replace (- d * rsumn g e) with (d * - rsumn g e) by ring. apply Rmult_lt_0_compat; lra. }
  assert (positive_part g (fun s => w s + - d' * e s)) as P'.
  { intros s Ht. specialize (B s Ht). pose proof (Rle_abs (d' * e s)). lra. }
  specialize (M _ (b + d') P'). unfold lasso_cost in M.
  rewrite (rsumn_ext g (fun t => (y t - mul g X (fun s => w s + - d' * e s) t - (b + d')) * (y t - mul g X (fun s => w s + - d' * e s) t - (b + d')))
             (fun t => (y t - mul g X w t - b) * (y t - mul g X w t - b))) in M.
  2:{ intros t Ht. assert (mul g X (fun s => w s + - d' * e s) t = mul g X w t - d') as ->; [|ring].
      unfold mul. rewrite (rsumn_ext g _ (fun s => X t s * w s + - d' * (X t s * e s))) by (intros; ring). rewrite rsumn_add, rsumn_scal.
      specialize (He t Ht). unfold mul in He. rewrite He. ring. }
  rewrite (rsumn_add g w (fun s => - d' * e s)), rsumn_scal in M.
  assert (alpha * (d' * rsumn g e) <= 0) as L by lra.
  assert (0 < alpha * (d' * rsumn g e)) by now apply Rmult_lt_0_compat. lra.
Qed.

(** * The map of incoherent monopoles *)
Lemma normalize_lin n st r0 r loss p q d : fst (normalize n st r0 r loss (p - d * q)) = fst (normalize n st r0 r loss p) - d * fst (normalize n st r0 r loss q).
Proof. destruct st; cbn [normalize fst]; unfold Rdiv; ring. Qed.
Lemma map_sub n a b d r0 k r loss rd st : fst (freq_full n (fun i j => a i j - RtoC d * b i j)%C r0 k r loss rd st)
  = fst (freq_full n a r0 k r loss rd st) - d * fst (freq_full n b r0 k r loss rd st).
Proof. unfold freq_full. rewrite scalar_prod_sub. apply normalize_lin. Qed.
Lemma scalar_prod_csm n rd a b v : (forall i j, a i j = b i j) -> scalar_prod n rd a v = scalar_prod n rd b v.
Proof.
  intros H. unfold scalar_prod. f_equal.
  - apply rsumn_ext. intros i _. do 2 f_equal. f_equal. apply csum_ext. intros j _. now rewrite H.
  - destruct rd; [reflexivity|]. apply rsumn_ext. intros i _. now rewrite H.
Qed.
Lemma map_csm n a b r0 k r loss rd st : (forall i j, a i j = b i j) -> freq_full n a r0 k r loss rd st = freq_full n b r0 k r loss rd st.
Proof. intros H. unfold freq_full. now rewrite (scalar_prod_csm n rd a b _ H). Qed.

Lemma map_sources n m k (r0 : nat -> R) (r : nat -> nat -> R) (q : nat -> R) st t : (0 < n)%nat ->
  0 < r0 t -> (forall i, (i < n)%nat -> 0 < r t i) ->
  (forall s, (s < m)%nat -> 0 < r0 s) -> (forall s i, (s < m)%nat -> (i < n)%nat -> 0 < r s i) ->
  fst (freq_full n (fun i j => csum m (fun s => RtoC (q s) * (transfer (r0 s) k (r s) i * Conj (transfer (r0 s) k (r s) j)))%C) (r0 t) k (r t) 1 false st)
  = rsumn m (fun s => psf_core n st (r0 t) (r t) (r0 s) (r s) k * q s).
Proof.
  intros Hn T0 Tr. induction m as [|m IH]; intros H0 Hr.
  - cbn [csum rsumn]. unfold freq_full.
    replace (scalar_prod n false (fun _ _ : nat => C0) (steer_raw st k (r t))) with 0; [destruct st; cbn [normalize fst]; unfold Rdiv; ring|].
    unfold scalar_prod. rewrite !rsumn_0; [ring| |].
    + intros i _. replace (C0 * Conj (steer_raw st k (r t) i) * steer_raw st k (r t) i)%C with C0 by ring. reflexivity.
    + intros i _. rewrite csum_0 by (intros; ring). replace (C0 * steer_raw st k (r t) i)%C with C0 by ring. cbn [re fst C0]. ring.
  - rewrite (map_csm n _ (fun i j => csum m (fun s => RtoC (q s) * (transfer (r0 s) k (r s) i * Conj (transfer (r0 s) k (r s) j)))%C
               - RtoC (- q m) * monopole_csm 1 (transfer (r0 m) k (r m)) i j)%C).
    2:{ intros i j. cbn [csum]. unfold monopole_csm. rewrite RtoC_opp. change (RtoC 1) with C1. ring. }
    rewrite map_sub, IH by (intros; auto). cbn [rsumn]. rewrite <- psf_is_map by auto. ring.
Qed.
