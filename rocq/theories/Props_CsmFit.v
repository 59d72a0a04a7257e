(* Properties C76 (covariance matrix fitting) and C77 (SODIX). *)
From Coq Require Import List Arith Lia ZArith Bool Reals Lra.
From Verif Require Import Stream Cplx Beamform CsmFit.
Import ListNotations.
Local Open Scope R_scope.
Local Open Scope C_scope.

(* ------------------------------------------------------------------ *)
(* C76, equations: the real reduced system A x = R that is handed to the
   solvers holds exactly if the sources x reproduce the scaled cross spectral
   matrix, off the main diagonal if it is removed and everywhere otherwise. *)
Theorem C76_equations : forall nc G h csm unit rdiag, hermitian nc csm -> forall x : nat -> R,
  (forall row, In row (cmf_rows nc rdiag) ->
     rsumn G (fun g => Amat h row g * x g)%R = Rvec csm unit row) <->
  (forall j k, (j < nc)%nat -> (k < nc)%nat -> (rdiag = true -> j <> k) ->
     csum G (fun g => RtoC (x g) * h j g * Conj (h k g)) = RtoC unit * csm j k).
Proof. intros nc G h csm unit rdiag Hh x. exact (cmf_system nc G h csm unit rdiag Hh x). Qed.
Print Assumptions C76_equations.

(* C76, cost: the function that the method 'fmin_l_bfgs_b' minimises. *)
Theorem C76_cost : forall nc G h csm unit rdiag, hermitian nc csm -> forall x,
  cmf_func nc G h csm unit rdiag x
  = rsumn nc (fun k => rsumn nc (fun j =>
      (if (j =? k)%nat then (if rdiag then 0 else 1) else 1 / 2)
      * norm2 (csum G (fun g => (RtoC (x g) * h j g * Conj (h k g))%C) - RtoC unit * csm j k)%C))%R.
Proof. intros nc G h csm unit rdiag Hh x. exact (cmf_cost nc G h csm unit rdiag Hh x). Qed.
Print Assumptions C76_cost.

(* C76, gradient: the second value returned is the derivative of the first. *)
Theorem C76_gradient : forall nc G h csm unit rdiag x d,
  derivable_pt_lim (fun t => cmf_func nc G h csm unit rdiag (fun g => x g + t * d g)%R) 0
    (rsumn G (fun g => cmf_der nc G h csm unit rdiag x g * d g)%R).
Proof.
  intros nc G h csm unit rdiag x d.
  apply (poly_derivative _ _ (lsum (fun row => Amul G h d row * Amul G h d row)%R (cmf_rows nc rdiag)) 0 0).
  intros t. 
  rewrite (cmf_gradient nc G h csm unit rdiag x (fun g => t * d g)%R).
  assert (E0 : cmf_func nc G h csm unit rdiag (fun g => x g + 0 * d g)%R = cmf_func nc G h csm unit rdiag x).
  { rewrite (cmf_gradient nc G h csm unit rdiag x (fun g => 0 * d g)%R).
    rewrite (rsumn_ext G (fun g => cmf_der nc G h csm unit rdiag x g * (0 * d g))%R (fun _ => 0%R)) by (intros; ring).
    rewrite rsumn_zero.
    rewrite (lsum_ext _ (fun _ => 0 * 0)%R).
    2:{ intros row _. unfold Amul. rewrite (rsumn_ext G (fun g => Amat h row g * (0 * d g))%R (fun _ => 0%R)) by (intros; ring).
        rewrite rsumn_zero. ring. }
    rewrite lsum_scal. ring. }
  rewrite E0.
  rewrite (rsumn_ext G (fun g => cmf_der nc G h csm unit rdiag x g * (t * d g))%R
             (fun g => t * (cmf_der nc G h csm unit rdiag x g * d g))%R) by (intros; ring).
  rewrite rsumn_scal.
  rewrite (lsum_ext (fun row => Amul G h (fun g => t * d g) row * Amul G h (fun g => t * d g) row)%R
             (fun row => (t * t) * (Amul G h d row * Amul G h d row))%R).
  2:{ intros row _. assert (E : Amul G h (fun g => t * d g)%R row = (t * Amul G h d row)%R).
      { unfold Amul. rewrite <- rsumn_scal. apply rsumn_ext. intros; ring. }
      rewrite E. ring. }
  rewrite lsum_scal. ring.
Qed.
Print Assumptions C76_gradient.

(* C76, optimum: a non-negative point whose gradient is non-negative, and zero
   wherever the strength is positive, is a global minimum over all
   non-negative source strengths: there are no other local minima. *)
Theorem C76_optimum : forall nc G h csm unit rdiag x,
  (forall g, (g < G)%nat -> (0 <= x g /\ 0 <= cmf_der nc G h csm unit rdiag x g
                             /\ cmf_der nc G h csm unit rdiag x g * x g = 0)%R) ->
  forall y, (forall g, (g < G)%nat -> (0 <= y g)%R) ->
  (cmf_func nc G h csm unit rdiag x <= cmf_func nc G h csm unit rdiag y)%R.
Proof.
  intros nc G h csm unit rdiag x H y Hy. apply cmf_kkt; auto; intros g Hg; destruct (H g Hg) as (A & B & D); auto.
Qed.
Print Assumptions C76_optimum.

(* C76, exact model: strengths that reproduce the matrix have zero cost and
   are a result of the method 'NNLS' too. *)
Theorem C76_exact_partial : forall nc G h csm unit rdiag q, (0 < unit)%R ->
  (forall g, (g < G)%nat -> (0 <= q g)%R) ->
  (forall g, (g < G)%nat -> exists row, In row (cmf_rows nc rdiag) /\ Amat h row g <> 0%R) ->
  (forall j k, (j < nc)%nat -> (k < nc)%nat -> csm j k = csum G (fun g => RtoC (q g) * h j g * Conj (h k g))) ->
  cmf_func nc G h csm unit rdiag (fun g => unit * q g)%R = 0%R /\ cmf_nnls nc G h csm unit rdiag q.
Proof.
  intros nc G h csm unit rdiag q Hu Hq Hn Hm. split.
  2:{ apply cmf_nnls_exact; auto. intros g Hg. destruct (Hn g Hg) as (row & R1 & R2).
      unfold norms. apply sqrt_lt_R0. revert R1. generalize (cmf_rows nc rdiag).
      induction l as [|x l IH]; [intros []|]. intros [->|R1]; cbn [lsum].
      - assert (0 <= lsum (fun row => Amat h row g * Amat h row g) l)%R by (apply lsum_nonneg; intros; apply Rle_0_sqr).
        assert (0 < Amat h row g * Amat h row g)%R by nra. lra.
      - specialize (IH R1). pose proof (Rle_0_sqr (Amat h x g)) as Q. unfold Rsqr in Q. lra. }
  assert (Hh : hermitian nc csm).
  { intros i j Hi Hj. rewrite (Hm i j), (Hm j i), csum_conj by assumption. apply csum_ext. intros g _.
    rewrite !Conj_mul, Conj_RtoC, Conj_invol. ring. }
  rewrite cmf_func_squares.
  rewrite (lsum_ext _ (fun _ => 0 * 0)%R); [rewrite lsum_scal; ring|]. intros row Hr.
  assert (E : Amul G h (fun g => unit * q g)%R row = Rvec csm unit row).
  { refine (proj2 (cmf_system nc G h csm unit rdiag Hh (fun g => unit * q g)%R) _ row Hr).
    intros j k Hj Hk _. rewrite (Hm j k Hj Hk).
    rewrite <- csum_scal. apply csum_ext. intros g _. rewrite RtoC_mul. ring. }
  rewrite E. f_equal; ring.
Qed.
Print Assumptions C76_exact_partial.

Example C76_exact_example : let h := fun m _ : nat => RtoC (INR (S m)) in
  let csm := fun j k : nat => csum 1 (fun g => RtoC 3 * h j g * Conj (h k g)) in
  (exists row, In row (cmf_rows 2 true) /\ Amat h row 0%nat <> 0%R) /\ csm 1%nat 0%nat = RtoC 6 /\ hermitian 2 csm.
Proof.
  cbv zeta. split; [|split].
  - exists (false, (1, 0))%nat. split; [left; reflexivity|]. cbn. lra.
  - cbn. unfold RtoC, Conj, Cadd, Cmul, C0; cbn. f_equal; lra.
  - intros i j _ _. cbn. unfold RtoC, Conj, Cadd, Cmul, C0; cbn. f_equal; ring.
Qed.

(* Refuted, NNLS: the method 'NNLS' does not return the non-negative least
   squares solution, some other non-negative strengths fit better. *)
Theorem C76_nnls_refuted : exists nc G h csm, hermitian nc csm /\
  exists x y : nat -> R, cmf_nnls nc G h csm 1 false x /\ (forall g, (g < G)%nat -> (0 <= x g)%R) /\
    (forall g, (g < G)%nat -> (0 <= y g)%R) /\
    (cmf_func nc G h csm 1 false y < cmf_func nc G h csm 1 false x)%R.
Proof. exact cmf_nnls_biased. Qed.
Print Assumptions C76_nnls_refuted.

(* Refuted, distance: without diagonal removal the minimum of the cost is not
   the minimum of the Frobenius distance between model and measurement. *)
Definition frobenius nc G h csm (x : nat -> R) : R :=
  rsumn nc (fun k => rsumn nc (fun j => norm2 (csum G (fun g => (RtoC (x g) * h j g * Conj (h k g))%C) - csm j k)%C)).
Theorem C76_distance_refuted : exists nc G h csm, hermitian nc csm /\ exists x y : nat -> R,
  (forall z, (forall g, (g < G)%nat -> (0 <= z g)%R) ->
     (cmf_func nc G h csm 1 false x <= cmf_func nc G h csm 1 false z)%R) /\
  (forall g, (g < G)%nat -> (0 <= x g /\ 0 <= y g)%R) /\
  (frobenius nc G h csm y < frobenius nc G h csm x)%R.
Proof.
  exists 2%nat, 1%nat, (fun m _ => RtoC (INR (S m))), (fun i j => if (i =? j)%nat then C1 else C0). split.
  { intros i j _ _. rewrite Nat.eqb_sym. destruct (i =? j)%nat; unfold C1, C0, RtoC, Conj; cbn; f_equal; lra. }
  exists (fun _ => 5 / 21)%R, (fun _ => 1 / 5)%R. split; [|split].
  - intros z Hz. rewrite !cmf_func_squares. 
    change (cmf_rows 2 false) with [(false, (0, 0)); (false, (1, 0)); (false, (1, 1)); (true, (1, 0))]%nat.
    unfold Rvec, Rc. cbn. set (u := z 0%nat). pose proof (Rle_0_sqr (u - 5 / 21)). unfold Rsqr in *. lra.
  - intros g _. lra.
  - unfold frobenius, norm2. cbn. lra.
Qed.
Print Assumptions C76_distance_refuted.

(* ------------------------------------------------------------------ *)
(* C77, gradient: the gradient of the SODIX cost function, in every direction
   of the directivities. *)
Theorem C77_gradient : forall n G h csm, hermitian n csm -> forall D E,
  derivable_pt_lim (fun t => sodix_func n G h csm (fun r l => D r l + t * E r l)%R) 0
    (rsumn G (fun r => rsumn n (fun l => sodix_der n G h csm D r l * E r l))%R).
Proof. intros n G h csm Hh D E. now apply sodix_gradient. Qed.
Print Assumptions C77_gradient.

Lemma rsumn_zero_terms n (f : nat -> R) : (forall i, (i < n)%nat -> (0 <= f i)%R) -> rsumn n f = 0%R ->
  forall i, (i < n)%nat -> f i = 0%R.
Proof.
  induction n as [|n IH]; intros H E i Hi; [lia|]. cbn [rsumn] in E.
  assert (0 <= rsumn n f)%R by (apply rsumn_nonneg; intros; apply H; lia). pose proof (H n ltac:(lia)).
  destruct (Nat.eq_dec i n) as [->|N]; [lra|]. apply IH; [intros; apply H; lia|lra|lia].
Qed.

(* C77, cost: it is non-negative, and zero exactly if the directivities
   reproduce the cross spectral matrix, main diagonal included. *)
Theorem C77_cost : forall n G h csm D,
  (0 <= sodix_func n G h csm D)%R /\
  (sodix_func n G h csm D = 0%R <->
   forall l m, (l < n)%nat -> (m < n)%nat ->
     csm l m = csum G (fun r => h l r * Conj (h m r) * RtoC (D r l * D r m))).
Proof.
  intros n G h csm D.
  assert (P : forall l m, (0 <= norm2 (sodix_Q G h csm D l m))%R) by (intros; apply norm2_nonneg).
  assert (Em : forall l m, sodix_mod G h D l m = csum G (fun r => h l r * Conj (h m r) * RtoC (D r l * D r m))).
  { intros l m. unfold sodix_mod, sodix_p. apply csum_ext. intros r _. rewrite Conj_mul, Conj_RtoC, RtoC_mul. ring. }
  split; [apply rsumn_nonneg; intros; now apply rsumn_nonneg|]. split.
  - intros H l m Hl Hm. rewrite <- Em. apply Cplx_add_0. fold (sodix_Q G h csm D l m).
    apply norm2_0.
    assert (H1 : rsumn n (fun m => norm2 (sodix_Q G h csm D l m)) = 0%R).
    { apply (rsumn_zero_terms n (fun l => rsumn n (fun m => norm2 (sodix_Q G h csm D l m)))); auto.
      intros; now apply rsumn_nonneg. }
    now apply (rsumn_zero_terms n (fun m => norm2 (sodix_Q G h csm D l m)) (fun i _ => P l i)).
  - intros H. unfold sodix_func. transitivity (rsumn n (fun _ => 0%R)); [|apply rsumn_zero].
    apply rsumn_ext. intros l Hl. transitivity (rsumn n (fun _ => 0%R)); [|apply rsumn_zero].
    apply rsumn_ext. intros m Hm. unfold sodix_Q. rewrite Em, (H l m Hl Hm).
    match goal with |- norm2 (?a - ?a) = _ => replace (a - a) with C0 by ring end. unfold norm2, C0; cbn; ring.
Qed.
Print Assumptions C77_cost.

Example C77_example : let h := fun _ _ : nat => C1 in
  sodix_func 2 1 h (fun _ _ => RtoC 4) (fun _ _ => 2%R) = 0%R.
Proof. cbv zeta. apply C77_cost. intros l m _ _. cbn. unfold RtoC, Conj, Cadd, Cmul, C0, C1; cbn. f_equal; lra. Qed.

(* C77, order: the result of a frequency does not depend on which frequencies
   were asked for before: it is the chain of optimisations that starts at
   index 1, each from the result below.  [tops] are the highest indices of the
   requests so far, [covered] says that one of them reaches the index. *)
Definition covered (tops : list nat) (i : nat) : Prop := exists t, In t tops /\ (1 <= i <= t)%nat.

Lemma fold_max_ge : forall tops m t, In t tops \/ (t <= m)%nat -> (t <= fold_left Nat.max tops m)%nat.
Proof.
  induction tops as [|u tops IH]; intros m t H; cbn [fold_left].
  - destruct H as [[]|H]; exact H.
  - apply IH. destruct H as [[->|H]|H]; [right; lia|now left|right; lia].
Qed.
Lemma covered_state {V} (solve : nat -> option V -> V) tops i : covered tops i ->
  sodix_requests solve tops i = Some (chain solve (i - 1)).
Proof.
  intros (t & Ht & Hi). rewrite requests_chain. unfold chain_state.
  pose proof (fold_max_ge tops 0 t (or_introl Ht)).
  destruct (Nat.leb_spec 1 i); [|lia]. destruct (Nat.leb_spec i (fold_left Nat.max tops 0%nat)); [reflexivity|lia].
Qed.

Theorem C77_order : forall {V} (solve : nat -> option V -> V) tops tops' i,
  covered tops i -> covered tops' i ->
  sodix_requests solve tops i = sodix_requests solve tops' i /\
  sodix_requests solve tops i
  = Some (solve i (if (i =? 1)%nat then None else sodix_requests solve tops (i - 1)%nat)).
Proof.
  intros V solve tops tops' i H H'. rewrite !covered_state by assumption. split; [reflexivity|]. f_equal.
  destruct H as (t & Ht & Hi). destruct (Nat.eqb_spec i 1) as [->|N]; [reflexivity|].
  rewrite covered_state by (exists t; split; [exact Ht|lia]).
  destruct i as [|[|i]]; [lia|lia|]. replace (S (S i) - 1)%nat with (S i) by lia.
  replace (S i - 1)%nat with i by lia. reflexivity.
Qed.
Print Assumptions C77_order.

Example C77_order_example : covered [3; 5; 2]%nat 4 /\
  sodix_requests (fun i d => match d with None => [i] | Some l => i :: l end) [2; 3]%nat 3%nat = Some [3; 2; 1]%nat.
Proof. split; [exists 5%nat; split; [now right; left|lia]|reflexivity]. Qed.

(* Refuted, index 0: the lowest frequency is never calculated, whatever is
   asked for; its map stays zero. *)
Theorem C77_index0_refuted : forall {V} (solve : nat -> option V -> V) tops,
  sodix_requests solve tops 0%nat = None.
Proof. intros V solve tops. rewrite requests_chain. reflexivity. Qed.
Print Assumptions C77_index0_refuted.
