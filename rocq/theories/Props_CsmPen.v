(** Property C130: unit multiplier, penalty and sign of the results of BeamformerCMF. *)
From Coq Require Import List Arith Lia ZArith Bool Reals Lra.
From Verif Require Import Stream Cplx Beamform CsmFit CsmPen Props_CsmFit.
Import ListNotations.
Local Open Scope R_scope.

(** Methods 'LassoLars' and 'fmin_l_bfgs_b': the unit multiplier has no influence
    and the strengths are not negative. *)
Theorem C130_unit nc G h csm rdiag alpha u v : 0 < u ->
  (cmf_lars nc G h csm rdiag alpha u v <-> cmf_lars nc G h csm rdiag alpha 1 v)
  /\ (cmf_bfgs nc G h csm rdiag u v <-> cmf_bfgs nc G h csm rdiag 1 v)
  /\ (cmf_lars nc G h csm rdiag alpha u v \/ cmf_bfgs nc G h csm rdiag u v -> forall g, (g < G)%nat -> 0 <= v g).
Proof.
  intros Hu. split; [now apply lars_unit|]. split.
  - rewrite (bfgs_unit _ _ _ _ _ u v Hu). symmetry. apply bfgs_unit. lra.
  - intros [(w & b & P & _ & E)|H] g Hg.
    + rewrite E by exact Hg. unfold Rdiv. pose proof (Rinv_0_lt_compat u Hu). apply Rmult_le_pos; [|lra]. apply Rmult_le_pos; [now apply P|].
      unfold norms. set (s := sqrt _). assert (0 <= s) as [S|S] by apply sqrt_pos; [apply Rlt_le, Rinv_0_lt_compat, S|].
      rewrite <- S. rewrite Rinv_0. lra.
    + apply bfgs_unit in H; [|exact Hu]. now apply H.
Qed.

(** Methods 'FISTA' and 'Split_Bregman': multiplying the unit is dividing the penalty. *)
Theorem C130_penalty nc G h csm rdiag kappa alpha u c v : 0 < u -> 0 < c ->
  cmf_l1 nc G h csm rdiag kappa alpha (c * u) v <-> cmf_l1 nc G h csm rdiag kappa (alpha / c) u v.
Proof.
  intros Hu Hc. rewrite (l1_unit _ _ _ _ _ kappa alpha (c * u) v) by now apply Rmult_lt_0_compat.
  rewrite (l1_unit _ _ _ _ _ kappa (alpha / c) u v Hu). replace (alpha / (c * u)) with (alpha / c / u) by (field; lra). reflexivity.
Qed.

(** The matrix of the result, for incoherent sources at the grid points. *)
Theorem C130_misfit nc G h csm rdiag kappa alpha u q v : 0 < u -> 0 < kappa -> 0 <= alpha -> hermitian nc csm ->
  (forall g, (g < G)%nat -> 0 <= q g) ->
  (forall j k, (j < nc)%nat -> (k < nc)%nat -> csm j k = csum G (fun g => RtoC (q g) * h j g * Conj (h k g))%C) ->
  cmf_l1 nc G h csm rdiag kappa alpha u v ->
  rsumn nc (fun k => rsumn nc (fun j =>
      (if (j =? k)%nat then (if rdiag then 0 else 1) else 1 / 2)
      * norm2 (csum G (fun g => (RtoC (v g) * h j g * Conj (h k g))%C) - csm j k)%C))
  <= alpha / (kappa * u) * rsumn G q.
Proof.
  intros Hu Hk Ha Hh Hq Hm H. pose proof (proj1 (l1_unit nc G h csm rdiag kappa alpha u v Hu) H q) as H'. clear H. rename H' into H.
  assert (cmf_func nc G h csm 1 rdiag q = 0) as Z.
  { rewrite (C76_cost nc G h csm 1 rdiag Hh q).
    rewrite (rsumn_ext nc _ (fun _ => 0)); [apply rsumn_zero|]. intros k Hkk. rewrite (rsumn_ext nc _ (fun _ => 0)); [apply rsumn_zero|].
    intros j Hj. rewrite (Hm j k Hj Hkk). match goal with |- _ * norm2 ?z = _ => replace z with C0 end.
    - unfold norm2, C0; cbn. ring.
    - change (RtoC 1) with C1. ring. }
  pose proof (C76_cost nc G h csm 1 rdiag Hh v) as Cv.
  match goal with |- ?l <= _ => replace l with (cmf_func nc G h csm 1 rdiag v) end.
  2:{ rewrite Cv. apply rsumn_ext. intros k Hkk. apply rsumn_ext. intros j Hj. f_equal. f_equal. change (RtoC 1) with C1. ring. }
  clear Cv. unfold l1_cost in H. rewrite <- !cmf_func_squares in H. rewrite Z in H.
  rewrite (rsumn_ext G (fun g => Rabs (q g)) q) in H by (intros g Hg; apply Rabs_right, Rle_ge, Hq, Hg).
  assert (0 <= alpha / u * rsumn G (fun g => Rabs (v g))) as P.
  { apply Rmult_le_pos; [apply Rmult_le_pos; [lra|apply Rlt_le, Rinv_0_lt_compat, Hu]|apply rsumn_nonneg; intros; apply Rabs_pos]. }
  apply (Rmult_le_reg_l kappa); [exact Hk|].
  replace (kappa * (alpha / (kappa * u) * rsumn G q)) with (alpha / u * rsumn G q) by (field; lra). lra.
Qed.

(** One microphone, one point. *)
Lemma one_cost kappa alpha u x :
  l1_cost 1 1 (fun _ _ => C1) (fun _ _ => C1) false kappa alpha u x = kappa * ((x 0%nat - u) * (x 0%nat - u)) + alpha * Rabs (x 0%nat).
Proof. unfold l1_cost, cmf_rows, Amul, Rvec, Amat, Ac, Rc. cbn. ring. Qed.

(** The result depends on the unit, whatever the weight of the residual. *)
Theorem C130_unit_refuted kappa : 0 < kappa ->
  ~ (forall nc G h csm rdiag alpha u u' v v', 0 < u -> 0 < u' -> 0 <= alpha <= 1 -> hermitian nc csm ->
     cmf_l1 nc G h csm rdiag kappa alpha u v -> cmf_l1 nc G h csm rdiag kappa alpha u' v' ->
     forall g, (g < G)%nat -> v g = v' g).
Proof.
  intros Hk H. pose proof (Rinv_0_lt_compat _ Hk) as Hi. assert (kappa * / kappa = 1) as E by (apply Rinv_r; lra).
  assert (forall u c, u = c * / kappa -> 1 / 2 < c -> cmf_l1 1 1 (fun _ _ => C1) (fun _ _ => C1) false kappa 1 u (fun _ => 1 - / (2 * c))) as S.
  { intros u c -> Hc. exists (fun _ => (c - 1 / 2) * / kappa). split.
    - intros z. rewrite !one_cost. pose proof (Rmult_lt_0_compat (c - 1 / 2) (/ kappa) ltac:(lra) Hi) as P. rewrite (Rabs_right ((c - 1 / 2) * / kappa)) by lra.
      pose proof (Rle_abs (z 0%nat)) as Q. set (y := z 0%nat) in *. pose proof (Rle_0_sqr (y - (c - 1 / 2) * / kappa)) as D. unfold Rsqr in D.
      apply (Rmult_le_compat_l kappa) in D; [|lra].
      apply Rle_trans with (kappa * ((y - c * / kappa) * (y - c * / kappa)) + y); [|lra].
      assert (kappa * ((y - c * / kappa) * (y - c * / kappa)) + y - (kappa * (((c - 1 / 2) * / kappa - c * / kappa) * ((c - 1 / 2) * / kappa - c * / kappa)) + 1 * ((c - 1 / 2) * / kappa))
              = kappa * ((y - (c - 1 / 2) * / kappa) * (y - (c - 1 / 2) * / kappa))) by (field; lra). lra.
    - intros g _. field. lra. }
  specialize (H 1%nat 1%nat (fun _ _ => C1) (fun _ _ => C1) false 1 (1 * / kappa) (2 * / kappa) (fun _ => 1 - / (2 * 1)) (fun _ => 1 - / (2 * 2)) ltac:(lra) ltac:(lra) ltac:(lra)).
  specialize (H ltac:(intros i j _ _; unfold Conj, C1; cbn; f_equal; lra) (S _ 1 eq_refl ltac:(lra)) (S _ 2 eq_refl ltac:(lra)) 0%nat ltac:(lia)).
  cbv beta in H. lra.
Qed.

(** Two microphones without the diagonal, one point, a source that is heard with
    opposite signs: the only result is negative. *)
Definition opposite (m : nat) : C := if (m =? 0)%nat then C1 else Copp C1.
Lemma opposite_cost kappa alpha u x :
  l1_cost 2 1 (fun _ _ => C1) (fun j k => opposite j * Conj (opposite k))%C true kappa alpha u x
  = kappa * ((x 0%nat + u) * (x 0%nat + u)) + alpha * Rabs (x 0%nat).
Proof. unfold l1_cost, cmf_rows, Amul, Rvec, Amat, Ac, Rc, opposite. cbn. ring. Qed.
Theorem C130_sign_refuted kappa alpha u : 0 < kappa -> 0 <= alpha -> 0 < u -> alpha < 2 * kappa * u ->
  exists nc G h (s : nat -> C), let csm := fun j k => (s j * Conj (s k))%C in
  (exists v, cmf_l1 nc G h csm true kappa alpha u v) /\
  (forall v, cmf_l1 nc G h csm true kappa alpha u v -> exists g, (g < G)%nat /\ v g < 0).
Proof.
  intros Hk Ha Hu Hl. exists 2%nat, 1%nat, (fun _ _ => C1), opposite. cbv zeta.
  set (t := u - alpha / (2 * kappa)). assert (0 < t) as T.
  { unfold t. apply (Rmult_lt_reg_l (2 * kappa)); [lra|]. replace (2 * kappa * (u - alpha / (2 * kappa))) with (2 * kappa * u - alpha) by (field; lra). lra. }
  assert (forall y, kappa * ((y + u) * (y + u)) + alpha * (- y) = kappa * ((y + t) * (y + t)) + (kappa * ((- t + u) * (- t + u)) + alpha * t)) as Q.
  { intros y. unfold t. field. lra. }
  split.
  - exists (fun _ => - t / u). exists (fun _ => - t). split; [|intros; reflexivity]. intros z. rewrite !opposite_cost. set (y := z 0%nat).
    rewrite (Rabs_left (- t)) by lra. rewrite Ropp_involutive. pose proof (Q y) as E. pose proof (Rle_0_sqr (y + t)) as D. unfold Rsqr in D.
    apply (Rmult_le_compat_l kappa) in D; [|lra]. pose proof (Rle_abs (- y)) as L. rewrite Rabs_Ropp in L.
    apply (Rmult_le_compat_l alpha) in L; [|lra]. lra.
  - intros v (x & M & E). exists 0%nat. split; [lia|]. rewrite E by lia. specialize (M (fun _ => - t)). rewrite !opposite_cost in M.
    set (y := x 0%nat) in *. rewrite (Rabs_left (- t)) in M by lra. rewrite Ropp_involutive in M. pose proof (Q y) as Ey.
    destruct (Rlt_dec y 0) as [N|N].
    + apply (Rmult_lt_reg_r u); [exact Hu|]. unfold Rdiv. rewrite Rmult_assoc, Rinv_l by lra. lra.
    + exfalso. pose proof (Rle_abs (- y)) as L. rewrite Rabs_Ropp in L. apply (Rmult_le_compat_l alpha) in L; [|lra].
      assert (0 < kappa * ((y + t) * (y + t))) by (apply Rmult_lt_0_compat; [lra|apply Rmult_lt_0_compat; lra]). lra.
Qed.
Print Assumptions C130_unit.
Print Assumptions C130_penalty.
Print Assumptions C130_misfit.
Print Assumptions C130_unit_refuted.
Print Assumptions C130_sign_refuted.

(** The hypotheses of C130_misfit are met: a source of strength one and the
    result 3/4 for unit 2 and penalty 1. *)
Example C130_case : let csm := fun _ _ : nat => C1 in
  hermitian 1 csm /\ (forall j k, (j < 1)%nat -> (k < 1)%nat -> csm j k = csum 1 (fun g => RtoC 1 * C1 * Conj C1)%C) /\
  cmf_l1 1 1 (fun _ _ => C1) csm false 1 1 2 (fun _ => 3 / 4) /\
  cmf_bfgs 1 1 (fun _ _ => C1) csm false 2 (fun _ => 1).
Proof.
  cbv zeta. split; [intros i j _ _; unfold Conj, C1; cbn; f_equal; lra|]. split; [|split].
  - intros j k _ _. cbn. unfold C1, RtoC, Conj, Cadd, Cmul, C0; cbn. f_equal; ring.
  - exists (fun _ => 3 / 2). split; [|intros; lra]. intros z. rewrite !one_cost. rewrite (Rabs_right (3 / 2)) by lra.
    pose proof (Rle_abs (z 0%nat)). pose proof (Rle_0_sqr (z 0%nat - 3 / 2)) as D. unfold Rsqr in D. lra.
  - exists (fun _ => 2). split; [intros; lra|]. split; [|intros; lra]. intros z _. rewrite !cmf_func_squares.
    unfold cmf_rows, Amul, Rvec, Amat, Ac, Rc. cbn. pose proof (Rle_0_sqr (z 0%nat - 2)) as D. unfold Rsqr in D. lra.
Qed.
