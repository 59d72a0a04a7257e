(** What the iteration of DAMAS converges to: the sweeps of
    damasSolverGaussSeidel (/repo/acoular/fastFuncs.py:791-824, Deconv.v) with
    the point spread function of the 'true level' formulation
    (/repo/acoular/fastFuncs.py:636-735, Beamform.v) as the descent of a
    convex function. *)
From Coq Require Import List Arith Lia ZArith Bool Reals Lra.
From Verif Require Import Stream Cplx Beamform Deconv.
Import ListNotations.
Local Open Scope R_scope.

(** * Projected descent for a symmetric matrix *)
Section Descent.
  Variables (g : nat) (S : nat -> nat -> R) (y : nat -> R) (w : R) (A : nat -> nat -> R).
  Hypothesis Hsym : forall i j, (i < g)%nat -> (j < g)%nat -> S i j = S j i.
  Hypothesis Hent : forall i j, (i < g)%nat -> (j < g)%nat -> 0 <= S i j.
  Hypothesis Hdia : forall i, (i < g)%nat -> 0 < S i i.
  Hypothesis Hpsd : forall x, 0 <= rsumn g (fun i => rsumn g (fun j => x i * S i j * x j)).
  Hypothesis HA : forall i j, (i < g)%nat -> (j < g)%nat -> A i j = S i j / S i i.
  Hypothesis Hw : 0 < w <= 1.

  Let b (i : nat) : R := y i * S i i.
  Definition grad (x : nat -> R) (i : nat) : R := rsumn g (fun j => S i j * x j) - b i.
  Definition cost (x : nat -> R) : R := / 2 * rsumn g (fun i => rsumn g (fun j => x i * S i j * x j)) - rsumn g (fun i => b i * x i).
  Definition nn (x : nat -> R) : Prop := forall i, (i < g)%nat -> 0 <= x i.

  Lemma cost_expand x d : cost (fun i => x i + d i) = cost x + rsumn g (fun i => d i * grad x i) + / 2 * rsumn g (fun i => rsumn g (fun j => d i * S i j * d j)).
  Proof.
    unfold cost, grad.
    assert (rsumn g (fun i => rsumn g (fun j => (x i + d i) * S i j * (x j + d j)))
            = rsumn g (fun i => rsumn g (fun j => x i * S i j * x j)) + 2 * rsumn g (fun i => d i * rsumn g (fun j => S i j * x j))
              + rsumn g (fun i => rsumn g (fun j => d i * S i j * d j))) as E.
    { rewrite (rsumn_ext g (fun i => rsumn g (fun j => (x i + d i) * S i j * (x j + d j)))
        (fun i => rsumn g (fun j => x i * S i j * x j) + (rsumn g (fun j => x i * S i j * d j)
                  + (d i * rsumn g (fun j => S i j * x j) + rsumn g (fun j => d i * S i j * d j))))).
      2:{ intros i Hi. rewrite <- rsumn_scal, <- !rsumn_add. apply rsumn_ext. intros j Hj. ring. }
      rewrite !rsumn_add. rewrite (rsumn_swap g g (fun i j => x i * S i j * d j)).
      rewrite (rsumn_ext g (fun j => rsumn g (fun i => x i * S i j * d j)) (fun i => d i * rsumn g (fun j => S i j * x j))).
      2:{ intros i Hi. rewrite <- rsumn_scal. apply rsumn_ext. intros j Hj. rewrite (Hsym j i Hj Hi). ring. }
      ring. }
    rewrite E.
    rewrite (rsumn_ext g (fun i => b i * (x i + d i)) (fun i => b i * x i + b i * d i)) by (intros; ring). rewrite rsumn_add.
    rewrite (rsumn_ext g (fun i => d i * (rsumn g (fun j => S i j * x j) - b i)) (fun i => d i * rsumn g (fun j => S i j * x j) + (-1) * (b i * d i))) by (intros; ring).
    rewrite rsumn_add, rsumn_scal. lra.
  Qed.

  (** convexity *)
  Lemma cost_convex x z : cost x - cost z <= rsumn g (fun i => grad x i * (x i - z i)).
  Proof.
    pose proof (cost_expand x (fun i => z i - x i)) as E. cbv beta in E.
    assert (cost (fun i => x i + (z i - x i)) = cost z) as Ez.
    { unfold cost. f_equal; [f_equal; apply rsumn_ext; intros; apply rsumn_ext; intros; ring|apply rsumn_ext; intros; ring]. }
    rewrite Ez in E. pose proof (Hpsd (fun i => z i - x i)) as P.
    rewrite (rsumn_ext g (fun i => grad x i * (x i - z i)) (fun i => (-1) * ((z i - x i) * grad x i))) by (intros; ring).
    rewrite rsumn_scal. lra.
  Qed.

  Lemma cost_ext x x' : (forall i, (i < g)%nat -> x i = x' i) -> cost x = cost x'.
  Proof.
    intros H. unfold cost. f_equal.
    - f_equal. apply rsumn_ext. intros i Hi. apply rsumn_ext. intros j Hj. now rewrite !H by assumption.
    - apply rsumn_ext. intros i Hi. now rewrite H by assumption.
  Qed.
  Lemma grad_ext x x' i : (forall j, (j < g)%nat -> x j = x' j) -> grad x i = grad x' i.
  Proof. intros H. unfold grad. f_equal. apply rsumn_ext. intros j Hj. now rewrite H by assumption. Qed.

  Lemma cost_upd x i v : (i < g)%nat -> cost (upd x i v) = cost x + (v - x i) * grad x i + / 2 * S i i * ((v - x i) * (v - x i)).
  Proof.
    intros Hi. set (d := fun j => if (j =? i)%nat then v - x i else 0).
    rewrite (cost_ext (upd x i v) (fun j => x j + d j)).
    2:{ intros j _. unfold upd, d. destruct (Nat.eqb_spec j i) as [->|]; ring. }
    rewrite cost_expand. f_equal; [f_equal|].
    - rewrite (rsumn_single g i _ Hi); [unfold d; now rewrite Nat.eqb_refl|]. intros j _ N. unfold d. rewrite (proj2 (Nat.eqb_neq j i) N). ring.
    - rewrite (rsumn_single g i _ Hi).
      + rewrite (rsumn_single g i _ Hi); [unfold d; rewrite Nat.eqb_refl; ring|].
        intros j _ N. unfold d at 2. rewrite (proj2 (Nat.eqb_neq j i) N). ring.
      + intros j _ N. apply rsumn_0. intros l _. unfold d at 1. rewrite (proj2 (Nat.eqb_neq j i) N). ring.
  Qed.

  Lemma point_value x i : (i < g)%nat ->
    gs_point g A y w x i i = (if Rlt_dec 0 (x i - w * (grad x i / S i i)) then x i - w * (grad x i / S i i) else 0).
  Proof.
    intros Hi. unfold gs_point, upd. rewrite Nat.eqb_refl. pose proof (Hdia i Hi) as D.
    replace ((1 - w) * x i + w * (y i - (rsumn g (fun j => A i j * x j) - A i i * x i))) with (x i - w * (grad x i / S i i)); [reflexivity|].
    rewrite (rsumn_ext g (fun j => A i j * x j) (fun j => / S i i * (S i j * x j))) by (intros j Hj; rewrite (HA i j Hi Hj); field; lra).
    rewrite rsumn_scal, (HA i i Hi Hi). unfold grad, b. field. lra.
  Qed.
  Lemma point_upd x i : gs_point g A y w x i = upd x i (gs_point g A y w x i i).
  Proof. unfold gs_point at 1, upd at 1. unfold upd at 1. unfold gs_point at 1, upd. rewrite Nat.eqb_refl. reflexivity. Qed.
  Lemma point_nn x i : nn x -> nn (gs_point g A y w x i).
  Proof.
    intros H j Hj. destruct (Nat.eq_dec j i) as [->|N]; [apply gs_point_nonneg|]. rewrite gs_point_other by exact N. now apply H.
  Qed.

  (** one point decreases the cost by at least the square of its step *)
  Lemma point_descent x i : nn x -> (i < g)%nat ->
    let d := gs_point g A y w x i i - x i in
    cost (gs_point g A y w x i) <= cost x - / 2 * S i i * (d * d)
    /\ - (S i i * (Rabs d / w)) <= grad x i
    /\ grad x i * x i <= Rabs (grad x i) * Rabs d + S i i * (Rabs d / w) * x i.
  Proof.
    intros HX Hi d. pose proof (Hdia i Hi) as D. pose proof (HX i Hi) as Xi. destruct Hw as [W0 W1].
    rewrite point_upd, cost_upd by exact Hi. fold d.
    assert (0 < / w) as IW by now apply Rinv_0_lt_compat. assert (1 <= / w) as IW1 by (rewrite <- Rinv_1; apply Rinv_le_contravar; lra).
    assert (d = (if Rlt_dec 0 (x i - w * (grad x i / S i i)) then - (w * (grad x i / S i i)) else - x i)) as E.
    { unfold d. rewrite point_value by exact Hi. destruct (Rlt_dec _ _); ring. }
    set (G := grad x i) in *. set (s := S i i) in *.
    assert (0 <= d * d) as DD by apply Rle_0_sqr.
    destruct (Rlt_dec 0 (x i - w * (G / s))) as [L|L].
    - assert (G = - (s * (d / w))) as EG by (rewrite E; field; lra).
      assert (d * G <= - (s * (d * d))) as K.
      { rewrite EG. replace (d * - (s * (d / w))) with (- (s * (d * d) * / w)) by (field; lra).
        assert (s * (d * d) * 1 <= s * (d * d) * / w) by (apply Rmult_le_compat_l; [apply Rmult_le_pos; lra|lra]). lra. }
      repeat split.
      + lra.
      + rewrite EG. apply Ropp_le_contravar. apply Rmult_le_compat_l; [lra|]. unfold Rdiv. apply Rmult_le_compat_r; [lra|apply Rle_abs].
      + assert (G * x i <= s * (Rabs d / w) * x i) as K2.
        { apply Rmult_le_compat_r; [exact Xi|]. rewrite EG. replace (- (s * (d / w))) with (s * (- d * / w)) by (field; lra).
          apply Rmult_le_compat_l; [lra|]. unfold Rdiv. apply Rmult_le_compat_r; [lra|]. rewrite <- Rabs_Ropp. apply Rle_abs. }
        pose proof (Rmult_le_pos _ _ (Rabs_pos G) (Rabs_pos d)). lra.
    - assert (s * x i <= w * G) as K0.
      { apply Rnot_lt_le in L. assert (s * x i <= s * (w * (G / s))) as Q by (apply Rmult_le_compat_l; lra).
        replace (s * (w * (G / s))) with (w * G) in Q by (field; lra). exact Q. }
      assert (0 <= s * x i) as K1 by (apply Rmult_le_pos; lra).
      assert (0 <= G) as G0 by (destruct (Rlt_le_dec G 0) as [N|N]; [|exact N]; assert (w * G < w * 0) by (apply Rmult_lt_compat_l; lra); lra).
      assert (s * x i <= G) as K2 by (assert (w * G <= 1 * G) by (apply Rmult_le_compat_r; lra); lra).
      assert (Rabs d = x i) as AD by (rewrite E, Rabs_Ropp, Rabs_right; lra).
      repeat split.
      + assert (x i * (s * x i) <= x i * G) as K3 by (apply Rmult_le_compat_l; lra). rewrite E. lra.
      + assert (0 <= s * (Rabs d / w)) by (apply Rmult_le_pos; [lra|]; apply Rmult_le_pos; [apply Rabs_pos|lra]). lra.
      + rewrite AD, (Rabs_right G) by lra. assert (0 <= s * (x i / w) * x i); [|lra].
        apply Rmult_le_pos; [|exact Xi]. apply Rmult_le_pos; [lra|]. apply Rmult_le_pos; lra.
  Qed.

  Lemma point_cost x i : nn x -> (i < g)%nat -> cost (gs_point g A y w x i) <= cost x.
  Proof.
    intros H Hi. destruct (point_descent x i H Hi) as [K _]. pose proof (Hdia i Hi) as D.
    set (d := gs_point g A y w x i i - x i) in *. pose proof (Rle_0_sqr d) as Q. unfold Rsqr in Q.
    assert (0 <= / 2 * S i i * (d * d)) by (apply Rmult_le_pos; lra). lra.
  Qed.
  Lemma fold_cost l : forall x, nn x -> (forall i, In i l -> (i < g)%nat) ->
    nn (fold_left (gs_point g A y w) l x) /\ cost (fold_left (gs_point g A y w) l x) <= cost x.
  Proof.
    induction l as [|i l IH]; intros x HX HL; cbn [fold_left]; [split; [exact HX|lra]|].
    assert (i < g)%nat as Hi by (apply HL; now left).
    destruct (IH (gs_point g A y w x i)) as [K1 K2]; [now apply point_nn|intros; apply HL; now right|].
    split; [exact K1|]. pose proof (point_cost x i HX Hi). lra.
  Qed.
  Lemma sweep_cost x : nn x -> nn (gs_sweep g A y w x) /\ cost (gs_sweep g A y w x) <= cost x.
  Proof. intros H. apply fold_cost; [exact H|]. intros i Hi. apply in_seq in Hi. lia. Qed.

  (** if a sweep gains little, every point was moved little *)
  Lemma fold_steps eps s0 x0 l : 0 <= eps -> 0 < s0 -> (forall i, (i < g)%nat -> s0 <= S i i) ->
    forall x, nn x -> NoDup l -> (forall i, In i l -> (i < g)%nat /\ x i = x0 i) ->
    (forall j, (j < g)%nat -> Rabs (x j - x0 j) <= eps) -> cost x <= cost x0 ->
    cost x - cost (fold_left (gs_point g A y w) l x) <= / 2 * s0 * (eps * eps) ->
    forall i, In i l -> exists x', nn x' /\ cost x' <= cost x0 /\ x' i = x0 i /\ (forall j, (j < g)%nat -> Rabs (x' j - x0 j) <= eps)
      /\ Rabs (gs_point g A y w x' i i - x' i) <= eps.
  Proof.
    intros He Hs HS. induction l as [|a l IH]; intros x HX ND HL HC HM HG i Hi; [destruct Hi|].
    assert (a < g)%nat as Ha by (apply HL; now left). inversion ND as [|? ? NA ND']; subst.
    cbn [fold_left] in HG. destruct (point_descent x a HX Ha) as [PD _].
    assert (nn (gs_point g A y w x a)) as N1 by now apply point_nn.
    destruct (fold_cost l (gs_point g A y w x a) N1) as [_ FC]; [intros; apply HL; now right|].
    set (d := gs_point g A y w x a a - x a) in *.
    assert (Rabs d <= eps) as DE.
    { assert (s0 * (d * d) <= S a a * (d * d)) as Q by (apply Rmult_le_compat_r; [apply Rle_0_sqr|now apply HS]).
      assert (s0 * (d * d) <= s0 * (eps * eps)) as Q2 by lra. apply Rmult_le_reg_l in Q2; [|exact Hs].
      rewrite <- (Rabs_right eps) by lra. apply Rsqr_le_abs_0. exact Q2. }
    destruct Hi as [<-|Hi].
    - exists x. repeat split; auto. apply HL. now left.
    - apply (IH (gs_point g A y w x a)); auto.
      + intros j Hj. split; [apply HL; now right|]. rewrite gs_point_other; [apply HL; now right|]. intros ->. contradiction.
      + intros j Hj. destruct (Nat.eq_dec j a) as [->|N].
        * replace (x0 a) with (x a) by (apply HL; now left). exact DE.
        * rewrite gs_point_other by exact N. now apply HC.
      + pose proof (point_cost x a HX Ha). lra.
      + pose proof (Hdia a Ha) as D. assert (0 <= / 2 * S a a * (d * d)) by (apply Rmult_le_pos; [lra|apply Rle_0_sqr]). lra.
  Qed.

  Lemma sweep_steps eps s0 x : 0 <= eps -> 0 < s0 -> (forall i, (i < g)%nat -> s0 <= S i i) -> nn x ->
    cost x - cost (gs_sweep g A y w x) <= / 2 * s0 * (eps * eps) ->
    forall i, (i < g)%nat -> exists x', nn x' /\ cost x' <= cost x /\ x' i = x i /\ (forall j, (j < g)%nat -> Rabs (x' j - x j) <= eps)
      /\ Rabs (gs_point g A y w x' i i - x' i) <= eps.
  Proof.
    intros He Hs HS HX HG i Hi. apply (fold_steps eps s0 x (seq 0 g) He Hs HS x HX (seq_NoDup g 0)).
    - intros j Hj. apply in_seq in Hj. split; [lia|reflexivity].
    - intros j _. replace (x j - x j) with 0 by ring. rewrite Rabs_R0. exact He.
    - lra.
    - exact HG.
    - apply in_seq. lia.
  Qed.

  (** ** Bounds *)
  Lemma finite_min : exists s0, 0 < s0 /\ forall i, (i < g)%nat -> s0 <= S i i.
  Proof.
    assert (forall m, (m <= g)%nat -> exists s0, 0 < s0 /\ forall i, (i < m)%nat -> s0 <= S i i) as H.
    { induction m as [|m IH]; intros Hm; [exists 1; split; [lra|lia]|].
      destruct IH as [s [P Q]]; [lia|]. exists (Rmin s (S m m)). split; [apply Rmin_pos; auto|].
      intros i Hi. destruct (Nat.eq_dec i m) as [->|N]; [apply Rmin_r|]. apply Rle_trans with s; [apply Rmin_l|apply Q; lia]. }
    now apply H.
  Qed.

  Let K := rsumn g (fun i => / 2 * (b i * b i / S i i)).
  (** coercive: the entries of the matrix are not negative *)
  Lemma cost_lower x i : nn x -> (i < g)%nat ->
    / 2 * S i i * ((x i - b i / S i i) * (x i - b i / S i i)) <= cost x + K.
  Proof.
    intros HX Hi. set (F := fun i => / 2 * S i i * ((x i - b i / S i i) * (x i - b i / S i i))).
    assert (rsumn g F <= cost x + K) as T.
    { unfold cost, K. rewrite <- rsumn_scal.
      replace (rsumn g (fun k => / 2 * rsumn g (fun j => x k * S k j * x j)) - rsumn g (fun i => b i * x i) + rsumn g (fun i => / 2 * (b i * b i / S i i)))
        with (rsumn g (fun k => / 2 * rsumn g (fun j => x k * S k j * x j)) + (-1) * rsumn g (fun i => b i * x i) + rsumn g (fun i => / 2 * (b i * b i / S i i))) by ring.
      rewrite <- rsumn_scal, <- !rsumn_add. apply rsumn_le. intros l Hl. pose proof (Hdia l Hl) as D. unfold F.
      assert (x l * S l l * x l <= rsumn g (fun j => x l * S l j * x j)) as Q.
      { assert (forall m, (m <= g)%nat -> (l < m)%nat -> x l * S l l * x l <= rsumn m (fun j => x l * S l j * x j)) as Z.
        { induction m as [|m IH]; intros M1 M2; [lia|]. cbn [rsumn].
          assert (0 <= x l * S l m * x m) as P by (apply Rmult_le_pos; [apply Rmult_le_pos; [now apply HX|apply Hent; lia]|apply HX; lia]).
          destruct (Nat.eq_dec l m) as [<-|N]; [|assert (l < m)%nat as LM by lia; specialize (IH ltac:(lia) LM); lra].
          assert (0 <= rsumn l (fun j => x l * S l j * x j)); [|lra].
          apply rsumn_nonneg. intros j Hj. apply Rmult_le_pos; [apply Rmult_le_pos; [now apply HX|apply Hent; lia]|apply HX; lia]. }
        apply Z; [lia|exact Hl]. }
      replace (/ 2 * S l l * ((x l - b l / S l l) * (x l - b l / S l l)))
        with (/ 2 * (x l * S l l * x l) + -1 * (b l * x l) + / 2 * (b l * b l / S l l)) by (field; lra). lra. }
    apply Rle_trans with (2 := T).
    assert (forall j, (j < g)%nat -> 0 <= F j) as FP by (intros j Hj; unfold F; pose proof (Hdia j Hj); apply Rmult_le_pos; [lra|apply Rle_0_sqr]).
    assert (forall m, (m <= g)%nat -> (i < m)%nat -> F i <= rsumn m F) as Z.
    { induction m as [|m IH]; intros M1 M2; [lia|]. cbn [rsumn]. destruct (Nat.eq_dec i m) as [<-|N].
      - assert (0 <= rsumn i F) by (apply rsumn_nonneg; intros; apply FP; lia). lra.
      - specialize (IH ltac:(lia) ltac:(lia)). pose proof (FP m ltac:(lia)). lra. }
    apply Z; [lia|exact Hi].
  Qed.

  Lemma cost_bounded x : nn x -> - K <= cost x.
  Proof.
    intros HX. destruct (Nat.eq_dec g 0) as [Eg|Eg].
    - unfold K, cost. rewrite Eg. cbn [rsumn]. lra.
    - assert (0 < g)%nat as H0 by lia. pose proof (cost_lower x 0 HX H0) as H. pose proof (Hdia 0%nat H0) as D.
      assert (0 <= / 2 * S 0%nat 0%nat * ((x 0%nat - b 0%nat / S 0%nat 0%nat) * (x 0%nat - b 0%nat / S 0%nat 0%nat))) by (apply Rmult_le_pos; [lra|apply Rle_0_sqr]). lra.
  Qed.

  Lemma level_bounded c : exists B, 0 <= B /\ forall x i, nn x -> cost x <= c -> (i < g)%nat -> x i <= B.
  Proof.
    assert (forall m, (m <= g)%nat -> exists B, 0 <= B /\ forall x i, nn x -> cost x <= c -> (i < m)%nat -> x i <= B) as H.
    { induction m as [|m IH]; intros Hm; [exists 0; split; [lra|intros; lia]|].
      destruct IH as [B [B0 HB]]; [lia|]. assert (m < g)%nat as Hm' by lia. pose proof (Hdia m Hm') as D.
      set (T := Rabs (b m / S m m) + (1 + Rabs (2 * (c + K) / S m m))).
      exists (B + T). assert (0 <= T) as T0 by (unfold T; pose proof (Rabs_pos (b m / S m m)); pose proof (Rabs_pos (2 * (c + K) / S m m)); lra).
      split; [lra|]. intros x i HX HC Hi. destruct (Nat.eq_dec i m) as [->|N]; [|specialize (HB x i HX HC ltac:(lia)); lra].
      pose proof (cost_lower x m HX Hm') as L. set (u := x m - b m / S m m) in *.
      assert (u * u <= 2 * (c + K) / S m m) as U.
      { apply (Rmult_le_reg_l (/ 2 * S m m)); [apply Rmult_lt_0_compat; lra|].
        replace (/ 2 * S m m * (2 * (c + K) / S m m)) with (c + K) by (field; lra). lra. }
      assert (u <= 1 + Rabs (2 * (c + K) / S m m)) as U1.
      { pose proof (Rle_abs (2 * (c + K) / S m m)) as V. pose proof (Rle_0_sqr (u - 1)) as V1. unfold Rsqr in V1.
        assert (0 <= u * u) by apply Rle_0_sqr. destruct (Rle_lt_dec u 1); [lra|]. assert (1 * u <= u * u) by (apply Rmult_le_compat_r; lra). lra. }
      pose proof (Rle_abs (b m / S m m)) as V. unfold T. unfold u in U1. lra. }
    now apply H.
  Qed.

  Let T := rsumn g (fun i => rsumn g (fun j => S i j)).
  Let Sb := rsumn g (fun i => Rabs (b i)).
  Lemma row_le i : (i < g)%nat -> rsumn g (fun j => S i j) <= T.
  Proof.
    intros Hi. unfold T. assert (forall m, (m <= g)%nat -> (i < m)%nat -> rsumn g (fun j => S i j) <= rsumn m (fun i => rsumn g (fun j => S i j))) as Z.
    { assert (forall l, (l < g)%nat -> 0 <= rsumn g (fun j => S l j)) as P by (intros l Hl; apply rsumn_nonneg; intros; now apply Hent).
      induction m as [|m IH]; intros M1 M2; [lia|]. cbn [rsumn]. destruct (Nat.eq_dec i m) as [<-|N].
      - assert (0 <= rsumn i (fun i => rsumn g (fun j => S i j))) by (apply rsumn_nonneg; intros; apply P; lia). lra.
      - specialize (IH ltac:(lia) ltac:(lia)). pose proof (P m ltac:(lia)). lra. }
    apply Z; [lia|exact Hi].
  Qed.
  Lemma entry_le i j : (i < g)%nat -> (j < g)%nat -> S i j <= T.
  Proof.
    intros Hi Hj. apply Rle_trans with (2 := row_le i Hi).
    assert (forall m, (m <= g)%nat -> (j < m)%nat -> S i j <= rsumn m (fun j => S i j)) as Z.
    { induction m as [|m IH]; intros M1 M2; [lia|]. cbn [rsumn]. destruct (Nat.eq_dec j m) as [<-|N].
      - assert (0 <= rsumn j (fun j => S i j)) by (apply rsumn_nonneg; intros; apply Hent; lia). lra.
      - specialize (IH ltac:(lia) ltac:(lia)). pose proof (Hent i m Hi ltac:(lia)). lra. }
    apply Z; [lia|exact Hj].
  Qed.
  Lemma b_le i : (i < g)%nat -> Rabs (b i) <= Sb.
  Proof.
    intros Hi. unfold Sb. assert (forall m, (m <= g)%nat -> (i < m)%nat -> Rabs (b i) <= rsumn m (fun i => Rabs (b i))) as Z.
    { induction m as [|m IH]; intros M1 M2; [lia|]. cbn [rsumn]. destruct (Nat.eq_dec i m) as [<-|N].
      - assert (0 <= rsumn i (fun i => Rabs (b i))) by (apply rsumn_nonneg; intros; apply Rabs_pos). lra.
      - specialize (IH ltac:(lia) ltac:(lia)). pose proof (Rabs_pos (b m)). lra. }
    apply Z; [lia|exact Hi].
  Qed.
  Lemma T_pos : 0 <= T.
  Proof. unfold T. apply rsumn_nonneg. intros i Hi. apply rsumn_nonneg. intros j Hj. now apply Hent. Qed.

  Lemma grad_bound x B i : nn x -> (forall j, (j < g)%nat -> x j <= B) -> 0 <= B -> (i < g)%nat -> Rabs (grad x i) <= T * B + Sb.
  Proof.
    intros HX HB B0 Hi. unfold grad, Rminus. apply Rle_trans with (1 := Rabs_triang _ _). rewrite Rabs_Ropp.
    apply Rplus_le_compat; [|now apply b_le].
    rewrite Rabs_right by (apply Rle_ge, rsumn_nonneg; intros; apply Rmult_le_pos; [now apply Hent|now apply HX]).
    apply Rle_trans with (rsumn g (fun j => B * S i j)).
    - apply rsumn_le. intros j Hj. rewrite Rmult_comm. apply Rmult_le_compat_r; [now apply Hent|now apply HB].
    - rewrite rsumn_scal, Rmult_comm. apply Rmult_le_compat_r; [exact B0|now apply row_le].
  Qed.
  Lemma grad_close x x' eps i : 0 <= eps -> (forall j, (j < g)%nat -> Rabs (x' j - x j) <= eps) -> (i < g)%nat ->
    Rabs (grad x' i - grad x i) <= T * eps.
  Proof.
    intros He HE Hi. unfold grad.
    replace (rsumn g (fun j => S i j * x' j) - b i - (rsumn g (fun j => S i j * x j) - b i))
      with (rsumn g (fun j => S i j * x' j) + (-1) * rsumn g (fun j => S i j * x j)) by ring.
    rewrite <- rsumn_scal, <- rsumn_add. apply Rle_trans with (1 := rsumn_abs g _).
    apply Rle_trans with (rsumn g (fun j => eps * S i j)).
    - apply rsumn_le. intros j Hj. replace (S i j * x' j + -1 * (S i j * x j)) with (S i j * (x' j - x j)) by ring.
      rewrite Rabs_mult, (Rabs_right (S i j)) by (apply Rle_ge; now apply Hent). rewrite Rmult_comm.
      apply Rmult_le_compat_r; [now apply Hent|now apply HE].
    - rewrite rsumn_scal, Rmult_comm. apply Rmult_le_compat_r; [exact He|now apply row_le].
  Qed.

  (** a sweep with small gain starts near the minimum *)
  Lemma near_minimum eps s0 B x z : 0 <= eps -> 0 < s0 -> (forall i, (i < g)%nat -> s0 <= S i i) -> nn x -> nn z -> 0 <= B ->
    (forall x', nn x' -> cost x' <= cost x -> forall i, (i < g)%nat -> x' i <= B) ->
    cost x - cost (gs_sweep g A y w x) <= / 2 * s0 * (eps * eps) ->
    cost x <= cost z + eps * (INR g * (T * B + Sb + 2 * (T / w * B)) + 2 * (T / w) * rsumn g z).
  Proof.
    intros He Hs HS HX HZ B0 HB HG. destruct Hw as [W0 W1].
    assert (1 <= / w) as IW1 by (rewrite <- Rinv_1; apply Rinv_le_contravar; lra). pose proof T_pos as T0.
    assert (0 <= T / w) as TW by (apply Rmult_le_pos; lra).
    assert (T <= T / w) as TW1 by (unfold Rdiv; rewrite <- (Rmult_1_r T) at 1; apply Rmult_le_compat_l; lra).
    assert (forall j, (j < g)%nat -> x j <= B) as XB by (apply HB; [exact HX|lra]).
    pose proof (cost_convex x z) as CV.
    assert (rsumn g (fun i => grad x i * (x i - z i))
            <= rsumn g (fun i => eps * (T * B + Sb + 2 * (T / w * B)) + (eps * (2 * (T / w))) * z i)) as Q.
    { apply rsumn_le. intros i Hi.
      destruct (sweep_steps eps s0 x He Hs HS HX HG i Hi) as [x' [N' [C' [E' [D' P']]]]].
      destruct (point_descent x' i N' Hi) as [_ [G1 G2]]. set (d := Rabs (gs_point g A y w x' i i - x' i)) in *.
      pose proof (grad_close x x' eps i He D' Hi) as GC.
      pose proof (grad_bound x' B i N' (HB x' N' C') B0 Hi) as GB.
      assert (0 <= d) as D0 by apply Rabs_pos.
      assert (- (T * eps) <= grad x' i - grad x i <= T * eps) as [GC1 GC2].
      { split; [|apply Rle_trans with (1 := Rle_abs _); exact GC].
        pose proof (Rle_abs (- (grad x' i - grad x i))) as V. rewrite Rabs_Ropp in V. lra. }
      assert (S i i * (d / w) <= eps * (T / w)) as SD.
      { unfold Rdiv. replace (eps * (T * / w)) with (T * (eps * / w)) by ring. apply Rmult_le_compat.
        - pose proof (Hdia i Hi). lra.
        - apply Rmult_le_pos; lra.
        - now apply entry_le.
        - apply Rmult_le_compat_r; lra. }
      assert (T * eps <= eps * (T / w)) as TE by (rewrite Rmult_comm; apply Rmult_le_compat_l; lra).
      pose proof (HX i Hi) as Xi. pose proof (HZ i Hi) as Zi. pose proof (XB i Hi) as Bi. rewrite E' in G2.
      assert (Rabs (grad x' i) * d <= (T * B + Sb) * eps) as Q1 by (apply Rmult_le_compat; auto; apply Rabs_pos).
      assert (S i i * (d / w) * x i <= eps * (T / w) * B) as Q2.
      { apply Rmult_le_compat; auto. apply Rmult_le_pos; [pose proof (Hdia i Hi); lra|]. apply Rmult_le_pos; lra. }
      assert ((grad x i - grad x' i) * x i <= eps * (T / w) * B) as Q3.
      { apply Rle_trans with (eps * (T / w) * x i); [apply Rmult_le_compat_r; lra|]. apply Rmult_le_compat_l; [apply Rmult_le_pos; lra|exact Bi]. }
      assert (- grad x i * z i <= (eps * (2 * (T / w))) * z i) as Q4 by (apply Rmult_le_compat_r; lra).
      lra. }
    rewrite rsumn_add, rsumn_const, rsumn_scal in Q. lra.
  Qed.

  (** ** The limit *)
  Definition iter (n : nat) (x : nat -> R) : nat -> R := gs_solve g A y w n x.
  Lemma iter_nn n x : nn x -> nn (iter n x).
  Proof. intros H. induction n as [|n IH]; [exact H|]. exact (proj1 (sweep_cost _ IH)). Qed.
  Lemma iter_dec n x : nn x -> cost (iter (Datatypes.S n) x) <= cost (iter n x).
  Proof. intros H. exact (proj2 (sweep_cost _ (iter_nn n x H))). Qed.
  Lemma iter_le n x : nn x -> cost (iter n x) <= cost x.
  Proof. intros H. induction n as [|n IH]; [apply Rle_refl|]. pose proof (iter_dec n x H). lra. Qed.

  Lemma limit_exists x : nn x -> exists m, Un_cv (fun n => cost (iter n x)) m.
  Proof.
    intros H. destruct (decreasing_cv (fun n => cost (iter n x))) as [m Hm].
    - intros n. now apply iter_dec.
    - exists K. intros r [n ->]. unfold opp_seq. pose proof (cost_bounded (iter n x) (iter_nn n x H)). lra.
    - now exists m.
  Qed.
  Lemma limit_below x m n : nn x -> Un_cv (fun n => cost (iter n x)) m -> m <= cost (iter n x).
  Proof.
    intros H Hm. apply (decreasing_ineq (fun n => cost (iter n x))); [|exact Hm]. intros k. now apply iter_dec.
  Qed.

  Lemma limit_minimum x m z : nn x -> nn z -> Un_cv (fun n => cost (iter n x)) m -> m <= cost z.
  Proof.
    intros HX HZ Hm. destruct finite_min as [s0 [P0 HS]]. destruct (level_bounded (cost x)) as [B [B0 HB]].
    set (M := INR g * (T * B + Sb + 2 * (T / w * B)) + 2 * (T / w) * rsumn g z).
    assert (forall eps, 0 < eps -> m <= cost z + eps * M) as Q.
    { intros eps He. assert (0 < / 2 * s0 * (eps * eps)) as H by (repeat apply Rmult_lt_0_compat; lra).
      destruct (Hm _ H) as [N HN]. specialize (HN N (Nat.le_refl N)). unfold R_dist in HN.
      pose proof (limit_below x m N HX Hm) as L1. pose proof (limit_below x m (Datatypes.S N) HX Hm) as L2. rewrite Rabs_right in HN by lra.
      apply Rle_trans with (1 := L1). apply (near_minimum eps s0 B); auto; [lra|now apply iter_nn| |].
      - intros x' N' C' i Hi. apply (HB x' i N'); [|exact Hi]. pose proof (iter_le N x HX). lra.
      - change (gs_sweep g A y w (iter N x)) with (iter (Datatypes.S N) x). lra. }
    destruct (Rle_lt_dec m (cost z)) as [L|L]; [exact L|exfalso].
    pose proof (Rabs_pos M) as AM. pose proof (Rle_abs M) as AM1.
    assert (0 < (m - cost z) / 2 / (Rabs M + 1)) as E by (apply Rdiv_lt_0_compat; lra).
    specialize (Q _ E). set (e := (m - cost z) / 2 / (Rabs M + 1)) in *.
    assert (e * M <= e * (Rabs M + 1)) as E1 by (apply Rmult_le_compat_l; lra).
    replace (e * (Rabs M + 1)) with ((m - cost z) / 2) in E1 by (unfold e; field; lra). lra.
  Qed.

  (** ** Maps left unchanged *)
  Lemma stationary_minimum x : nn x -> (forall i, (i < g)%nat -> gs_sweep g A y w x i = x i) -> forall z, nn z -> cost x <= cost z.
  Proof.
    intros HX HF z HZ. destruct finite_min as [s0 [P0 HS]]. destruct (level_bounded (cost x)) as [B [B0 HB]].
    pose proof (near_minimum 0 s0 B x z (Rle_refl 0) P0 HS HX HZ B0) as Q.
    assert (cost (gs_sweep g A y w x) = cost x) as E by now apply cost_ext.
    specialize (Q (fun x' N' C' i Hi => HB x' i N' C' Hi)). rewrite E in Q. specialize (Q ltac:(lra)). lra.
  Qed.

  Lemma minimum_point x : nn x -> (forall z, nn z -> cost x <= cost z) -> forall i, (i < g)%nat -> gs_point g A y w x i i = x i.
  Proof.
    intros HX HM i Hi. destruct (point_descent x i HX Hi) as [PD _]. set (d := gs_point g A y w x i i - x i) in *.
    pose proof (HM _ (point_nn x i HX)) as L. pose proof (Hdia i Hi) as D.
    assert (S i i * (d * d) <= S i i * 0) as Q by lra. apply Rmult_le_reg_l in Q; [|exact D].
    assert (d = 0); [|unfold d in *; lra]. destruct (Req_dec d 0) as [Z|Z]; [exact Z|]. pose proof (Rsqr_pos_lt d Z) as V. unfold Rsqr in V. lra.
  Qed.

  Lemma minimum_fold x l : nn x -> (forall z, nn z -> cost x <= cost z) -> (forall i, In i l -> (i < g)%nat) ->
    forall x', (forall j, (j < g)%nat -> x' j = x j) -> forall j, (j < g)%nat -> fold_left (gs_point g A y w) l x' j = x j.
  Proof.
    intros HX HM. induction l as [|a l IH]; intros HL x' HE j Hj; cbn [fold_left]; [now apply HE|].
    apply IH; [intros; apply HL; now right| |exact Hj]. intros i Hi. destruct (Nat.eq_dec i a) as [->|N].
    - rewrite minimum_point; [now apply HE| | |exact Hi].
      + intros l' Hl. rewrite HE by exact Hl. now apply HX.
      + intros z Hz. rewrite (cost_ext x' x) by exact HE. now apply HM.
    - rewrite gs_point_other by exact N. now apply HE.
  Qed.
  Lemma minimum_stationary x : nn x -> (forall z, nn z -> cost x <= cost z) -> forall i, (i < g)%nat -> gs_sweep g A y w x i = x i.
  Proof.
    intros HX HM i Hi. apply (minimum_fold x (seq 0 g) HX HM); auto. intros l Hl. apply in_seq in Hl. lia.
  Qed.
End Descent.

(** * The cross spectral matrix *)
Definition cdot (a b : C) : R := fst a * fst b + snd a * snd b.

Lemma cdot_re a b : cdot a b = re (Conj a * b)%C.
Proof. unfold cdot, re. cbn [fst snd Cmul Conj]. ring. Qed.
Lemma cdot_sym a b : cdot a b = cdot b a.
Proof. unfold cdot. ring. Qed.
Lemma cdot_csum c g (x : nat -> R) (p : nat -> C) : cdot c (csum g (fun t => RtoC (x t) * p t)%C) = rsumn g (fun t => x t * cdot c (p t)).
Proof.
  induction g as [|g IH]; cbn [csum rsumn]; [unfold cdot; cbn; ring|]. rewrite <- IH. unfold cdot. cbn [fst snd Cadd Cmul RtoC]. ring.
Qed.
Lemma norm2_diff c m : norm2 (c - m)%C = norm2 c - 2 * cdot c m + cdot m m.
Proof. unfold norm2, cdot. cbn [fst snd Csub]. ring. Qed.

Lemma sum_swap3 n g (f : nat -> nat -> nat -> R) :
  rsumn n (fun i => rsumn n (fun j => rsumn g (fun t => f i j t))) = rsumn g (fun t => rsumn n (fun i => rsumn n (fun j => f i j t))).
Proof.
  rewrite (rsumn_ext n _ (fun i => rsumn g (fun t => rsumn n (fun j => f i j t)))) by (intros; apply rsumn_swap).
  apply rsumn_swap.
Qed.

Section Matrix.
  Variables (n g : nat) (a : nat -> nat -> C).
  Definition gram (t s : nat) : R := norm2 (inner n (a t) (a s)).
  Definition modelled (x : nat -> R) (i j : nat) : C := csum g (fun t => RtoC (x t) * (a t i * Conj (a t j)))%C.
  Definition distance (c : nat -> nat -> C) (x : nat -> R) : R := rsumn n (fun i => rsumn n (fun j => norm2 (c i j - modelled x i j)%C)).

  Lemma gram_sym t s : gram t s = gram s t.
  Proof. unfold gram. now rewrite <- (norm2_Conj (inner n (a t) (a s))), inner_conj. Qed.

  Lemma gram_dot t s : rsumn n (fun i => rsumn n (fun j => cdot (a t i * Conj (a t j))%C (a s i * Conj (a s j))%C)) = gram t s.
  Proof.
    unfold gram. assert (norm2 (inner n (a t) (a s)) = re (inner n (a t) (a s) * Conj (inner n (a t) (a s)))%C) as -> by now rewrite mul_Conj.
    unfold inner. rewrite csum_conj. rewrite <- csum_scal_r, re_csum. apply rsumn_ext. intros i _.
    rewrite <- csum_scal, re_csum. apply rsumn_ext. intros j _. rewrite cdot_re. f_equal. rewrite !Conj_mul, !Conj_invol. ring.
  Qed.
  Lemma csm_dot (c : nat -> nat -> C) t : rsumn n (fun i => rsumn n (fun j => cdot (c i j) (a t i * Conj (a t j))%C)) = re (qform n c (a t)).
  Proof.
    rewrite <- re_Conj. unfold qform. rewrite csum_conj, re_csum. apply rsumn_ext. intros i _. rewrite csum_conj, re_csum. apply rsumn_ext.
    intros j _. rewrite cdot_re. f_equal. rewrite !Conj_mul, Conj_invol. ring.
  Qed.

  Lemma model_norm x : rsumn n (fun i => rsumn n (fun j => cdot (modelled x i j) (modelled x i j)))
    = rsumn g (fun t => rsumn g (fun s => x t * gram t s * x s)).
  Proof.
    rewrite (rsumn_ext n _ (fun i => rsumn n (fun j => rsumn g (fun t => rsumn g (fun s => x t * x s * cdot (a t i * Conj (a t j))%C (a s i * Conj (a s j))%C))))).
    - rewrite sum_swap3. apply rsumn_ext. intros t _. rewrite sum_swap3. apply rsumn_ext. intros s _.
      rewrite (rsumn_ext n _ (fun i => (x t * x s) * rsumn n (fun j => cdot (a t i * Conj (a t j))%C (a s i * Conj (a s j))%C))) by (intros; apply rsumn_scal).
      rewrite rsumn_scal, gram_dot. ring.
    - intros i _. apply rsumn_ext. intros j _. unfold modelled at 2. rewrite cdot_csum. apply rsumn_ext. intros t _.
      rewrite cdot_sym. unfold modelled. rewrite cdot_csum, <- rsumn_scal. apply rsumn_ext. intros s _. ring.
  Qed.

  Lemma gram_psd x : 0 <= rsumn g (fun t => rsumn g (fun s => x t * gram t s * x s)).
  Proof.
    rewrite <- model_norm. apply rsumn_nonneg. intros i _. apply rsumn_nonneg. intros j _. unfold cdot.
    pose proof (Rle_0_sqr (fst (modelled x i j))) as P. pose proof (Rle_0_sqr (snd (modelled x i j))) as Q. unfold Rsqr in *. lra.
  Qed.

  (** the distance is the cost up to a constant *)
  Lemma distance_cost c y x : (forall t, (t < g)%nat -> y t * gram t t = re (qform n c (a t))) ->
    distance c x = 2 * cost g gram y x + rsumn n (fun i => rsumn n (fun j => norm2 (c i j))).
  Proof.
    intros HY. unfold distance.
    rewrite (rsumn_ext n _ (fun i => rsumn n (fun j => norm2 (c i j)) + ((-2) * rsumn n (fun j => cdot (c i j) (modelled x i j))
                              + rsumn n (fun j => cdot (modelled x i j) (modelled x i j))))).
    2:{ intros i _. rewrite <- rsumn_scal, <- !rsumn_add. apply rsumn_ext. intros j _. rewrite norm2_diff. ring. }
    rewrite !rsumn_add, model_norm, rsumn_scal.
    rewrite (rsumn_ext n (fun i => rsumn n (fun j => cdot (c i j) (modelled x i j)))
               (fun i => rsumn n (fun j => rsumn g (fun t => x t * cdot (c i j) (a t i * Conj (a t j))%C)))).
    2:{ intros i _. apply rsumn_ext. intros j _. unfold modelled. apply cdot_csum. }
    rewrite sum_swap3. unfold cost.
    rewrite (rsumn_ext g (fun t => rsumn n (fun i => rsumn n (fun j => x t * cdot (c i j) (a t i * Conj (a t j))%C))) (fun i => y i * gram i i * x i)).
    2:{ intros t Ht. rewrite HY by exact Ht. rewrite <- csm_dot.
        rewrite (rsumn_ext n _ (fun i => x t * rsumn n (fun j => cdot (c i j) (a t i * Conj (a t j))%C))) by (intros; apply rsumn_scal).
        rewrite rsumn_scal. ring. }
    lra.
  Qed.
End Matrix.

(** * The array *)
Section Array.
  Variables (n g : nat) (k : R) (r0 : nat -> R) (r : nat -> nat -> R).
  Hypothesis Hn : (0 < n)%nat.
  Hypothesis H0 : forall t, (t < g)%nat -> 0 < r0 t.
  Hypothesis Hr : forall t m, (t < g)%nat -> (m < n)%nat -> 0 < r t m.

  Definition a_of (t : nat) : nat -> C := transfer (r0 t) k (r t).
  (** the matrix and the map handed to the solver, fbeamform.py:1220-1233,
      for the formulation 'true level' *)
  Definition psf_matrix (t s : nat) : R := psf_core n TrueLevel (r0 t) (r t) (r0 s) (r s) k.
  Definition dirty (c : nat -> nat -> C) (t : nat) : R := fst (freq_full n c (r0 t) k (r t) 1 false TrueLevel).

  Let N (t : nat) : R := rsumn n (fun m => norm2 (a_of t m)).
  Lemma N_pos t : (t < g)%nat -> 0 < N t.
  Proof. intros Ht. apply sum_norm2_a; auto. Qed.
  Lemma gram_diag t : gram n a_of t t = N t * N t.
  Proof. unfold gram. rewrite inner_self, norm2_RtoC. reflexivity. Qed.
  Lemma level_steer t m : (t < g)%nat -> (m < n)%nat -> steer_vector n TrueLevel (a_of t) m = (RtoC (/ N t) * a_of t m)%C.
  Proof.
    intros Ht Hm. pose proof (N_pos t Ht) as P. unfold steer_vector, a_of. rewrite ss_a. fold (a_of t). fold (N t). rewrite RtoC_inv by lra. unfold Cdiv. ring.
  Qed.
  Lemma psf_gram t s : (t < g)%nat -> (s < g)%nat -> psf_matrix t s = gram n a_of t s / gram n a_of t t.
  Proof.
    intros Ht Hs. pose proof (N_pos t Ht) as P. unfold psf_matrix. rewrite (psf_is_map n k (r0 t) (r0 s) (r t) (r s)) by auto.
    rewrite bf_monopole by auto. rewrite gram_diag. fold (a_of t) (a_of s).
    rewrite (inner_ext n _ (fun m => RtoC (/ N t) * a_of t m)%C _ (a_of s)) by (intros m Hm; split; [now apply level_steer|reflexivity]).
    rewrite inner_scal_l, norm2_mul, norm2_Conj, norm2_RtoC. unfold gram. field. lra.
  Qed.
  Lemma dirty_form c t : hermitian n c -> (t < g)%nat -> dirty c t * gram n a_of t t = re (qform n c (a_of t)).
  Proof.
    intros HC Ht. pose proof (N_pos t Ht) as P. unfold dirty.
    pose proof (bf_quadratic n (r0 t) k (r t) Hn (H0 t Ht) (fun m Hm => Hr t m Ht Hm) c 1 false TrueLevel HC) as E. fold (a_of t) in E.
    rewrite (qform_ext n c _ (fun m => RtoC (/ N t) * a_of t m)%C) in E by (intros; now apply level_steer).
    rewrite qform_scale in E. apply (f_equal re) in E. cbn [re RtoC fst] in E.
    assert (re (RtoC 1 * (RtoC (norm2 (RtoC (/ N t))) * qform n c (a_of t)))%C = norm2 (RtoC (/ N t)) * re (qform n c (a_of t))) as E2
      by (rewrite !re_RtoC_mul; ring).
    change (fst (RtoC 1 * (RtoC (norm2 (RtoC (/ N t))) * qform n c (a_of t)))%C) with (re (RtoC 1 * (RtoC (norm2 (RtoC (/ N t))) * qform n c (a_of t)))%C) in E.
    rewrite E2, norm2_RtoC in E. rewrite E, gram_diag. field. lra.
  Qed.
  Lemma gram_pos t : (t < g)%nat -> 0 < gram n a_of t t.
  Proof. intros Ht. rewrite gram_diag. pose proof (N_pos t Ht). now apply Rmult_lt_0_compat. Qed.
End Array.
