(** Property C126: what DAMAS converges to. *)
From Coq Require Import List Arith Lia ZArith Bool Reals Lra.
From Verif Require Import Stream Cplx Beamform Deconv Damas.
Import ListNotations.
Local Open Scope R_scope.

(** Squared Frobenius distance between the cross spectral matrix and the one of
    incoherent monopoles of strengths [x] at the [g] grid points. *)
Definition misfit (n g : nat) (k : R) (r0 : nat -> R) (r : nat -> nat -> R) (csm : nat -> nat -> C) (x : nat -> R) : R :=
  rsumn n (fun i => rsumn n (fun j =>
    norm2 (csm i j - csum g (fun t => RtoC (x t) * (transfer (r0 t) k (r t) i * Conj (transfer (r0 t) k (r t) j)))%C)%C)).

(** BeamformerDamas with steer_type 'true level', all microphones: [m] sweeps. *)
Definition damas_map (n g : nat) (k : R) (r0 : nat -> R) (r : nat -> nat -> R) (csm : nat -> nat -> C) (damp : R) (m : nat) : nat -> R :=
  damas g (fun t s => psf_core n TrueLevel (r0 t) (r t) (r0 s) (r s) k)
    (fun t => fst (freq_full n csm (r0 t) k (r t) 1 false TrueLevel)) damp m.

Definition geometry (n g : nat) (r0 : nat -> R) (r : nat -> nat -> R) : Prop :=
  (0 < n)%nat /\ (forall t, (t < g)%nat -> 0 < r0 t) /\ (forall t m, (t < g)%nat -> (m < n)%nat -> 0 < r t m).
Definition nonneg (g : nat) (x : nat -> R) : Prop := forall t, (t < g)%nat -> 0 <= x t.

Section Link.
  Variables (n g : nat) (k : R) (r0 : nat -> R) (r : nat -> nat -> R) (csm : nat -> nat -> C) (damp : R).
  Hypothesis HG : geometry n g r0 r.
  Hypothesis HC : hermitian n csm.
  Hypothesis HD : 0 < damp <= 1.
  Let S := gram n (a_of k r0 r).
  Let A := psf_matrix n k r0 r.
  Let y := dirty n k r0 r csm.

  Lemma facts : (forall i j, (i < g)%nat -> (j < g)%nat -> S i j = S j i) /\ (forall i j, (i < g)%nat -> (j < g)%nat -> 0 <= S i j)
    /\ (forall i, (i < g)%nat -> 0 < S i i) /\ (forall x, 0 <= rsumn g (fun i => rsumn g (fun j => x i * S i j * x j)))
    /\ (forall i j, (i < g)%nat -> (j < g)%nat -> A i j = S i j / S i i).
  Proof.
    destruct HG as [G1 [G2 G3]]. repeat split.
    - intros. apply gram_sym.
    - intros. apply norm2_nonneg.
    - intros i Hi. now apply (gram_pos n g k r0 r G1 G2 G3).
    - intros x. apply gram_psd.
    - intros i j Hi Hj. now apply (psf_gram n g k r0 r G1 G2 G3).
  Qed.
  Lemma misfit_cost x : misfit n g k r0 r csm x = 2 * cost g S y x + rsumn n (fun i => rsumn n (fun j => norm2 (csm i j))).
  Proof.
    destruct HG as [G1 [G2 G3]]. apply (distance_cost n g (a_of k r0 r) csm y x).
    intros t Ht. now apply (dirty_form n g k r0 r G1 G2 G3).
  Qed.
End Link.

Lemma cv_shift (f : nat -> R) l : Un_cv (fun n => f (S n)) l -> Un_cv f l.
Proof.
  intros H e He. destruct (H e He) as [N HN]. exists (S N). intros m Hm. destruct m as [|m]; [lia|]. apply HN. lia.
Qed.
Lemma cv_affine (f : nat -> R) l c : Un_cv f l -> Un_cv (fun n => 2 * f n + c) (2 * l + c).
Proof.
  intros H. apply CV_plus; [apply CV_mult; [|exact H]|]; intros e He; exists 0%nat; intros; unfold R_dist; rewrite Rminus_diag_eq by reflexivity; now rewrite Rabs_R0.
Qed.
Lemma iter_swap {X : Type} (f : X -> X) m x : Nat.iter (S m) f x = Nat.iter m f (f x).
Proof. induction m as [|m IH]; [reflexivity|]. exact (f_equal f IH). Qed.
Lemma damas_first n g k r0 r csm damp m :
  damas_map n g k r0 r csm damp (S m) = iter g (dirty n k r0 r csm) damp (psf_matrix n k r0 r) m (damas_map n g k r0 r csm damp 1).
Proof.
  unfold damas_map, damas, iter, gs_solve. now rewrite iter_swap.
Qed.
Lemma damas_nn n g k r0 r csm damp m : nonneg g (damas_map n g k r0 r csm damp (S m)).
Proof. intros t Ht. apply gs_nonneg; [lia|exact Ht]. Qed.

(** Every sweep after the first brings the modelled matrix closer to the
    measured one (the first one too if the matrix is positive semidefinite). *)
Theorem C126_descent n g k r0 r csm damp m : geometry n g r0 r -> hermitian n csm -> 0 < damp <= 1 ->
  (0 < m)%nat \/ (forall z, 0 <= re (qform n csm z)) ->
  misfit n g k r0 r csm (damas_map n g k r0 r csm damp (S m)) <= misfit n g k r0 r csm (damas_map n g k r0 r csm damp m).
Proof.
  intros HG HC HD HM. destruct (facts n g k r0 r HG) as [F1 [F2 [F3 [F4 F5]]]].
  rewrite !(misfit_cost n g k r0 r csm HG HC).
  assert (nonneg g (damas_map n g k r0 r csm damp m)) as NN.
  { destruct m as [|m]; [|apply damas_nn]. destruct HM as [HM|HM]; [lia|]. intros t Ht. destruct HG as [G1 [G2 G3]].
    pose proof (dirty_form n g k r0 r G1 G2 G3 csm t HC Ht) as E. pose proof (gram_pos n g k r0 r G1 G2 G3 t Ht) as P.
    change (0 <= dirty n k r0 r csm t). destruct (Rle_lt_dec 0 (dirty n k r0 r csm t)) as [L|L]; [exact L|].
    pose proof (HM (a_of k r0 r t)) as Q. rewrite <- E in Q.
    assert (dirty n k r0 r csm t * gram n (a_of k r0 r) t t < 0 * gram n (a_of k r0 r) t t) by (apply Rmult_lt_compat_r; lra). lra. }
  pose proof (sweep_cost g _ (dirty n k r0 r csm) damp _ F1 F2 F3 F4 F5 HD _ NN) as [_ K].
  change (damas_map n g k r0 r csm damp (S m)) with (gs_sweep g (psf_matrix n k r0 r) (dirty n k r0 r csm) damp (damas_map n g k r0 r csm damp m)).
  lra.
Qed.

(** The misfit of the sweeps converges to the smallest one that non-negative
    strengths can have. *)
Theorem C126_optimal n g k r0 r csm damp : geometry n g r0 r -> hermitian n csm -> 0 < damp <= 1 ->
  exists lim, Un_cv (fun m => misfit n g k r0 r csm (damas_map n g k r0 r csm damp m)) lim
    /\ forall z, nonneg g z -> lim <= misfit n g k r0 r csm z.
Proof.
  intros HG HC HD. destruct (facts n g k r0 r HG) as [F1 [F2 [F3 [F4 F5]]]].
  destruct (limit_exists g _ (dirty n k r0 r csm) damp _ F1 F2 F3 F4 F5 HD (damas_map n g k r0 r csm damp 1) (damas_nn n g k r0 r csm damp 0)) as [l Hl].
  set (c := rsumn n (fun i => rsumn n (fun j => norm2 (csm i j)))).
  exists (2 * l + c). split.
  - apply cv_shift. apply (Un_cv_ext (fun m => 2 * cost g (gram n (a_of k r0 r)) (dirty n k r0 r csm)
        (iter g (dirty n k r0 r csm) damp (psf_matrix n k r0 r) m (damas_map n g k r0 r csm damp 1)) + c)).
    + intros m. rewrite (damas_first n g k r0 r csm damp m), (misfit_cost n g k r0 r csm HG HC). reflexivity.
    + now apply cv_affine.
  - intros z Hz. rewrite (misfit_cost n g k r0 r csm HG HC). fold c.
    pose proof (limit_minimum g _ (dirty n k r0 r csm) damp _ F1 F2 F3 F4 F5 HD _ l z (damas_nn n g k r0 r csm damp 0) Hz Hl). lra.
Qed.

(** Exactly the minima are left unchanged by a sweep. *)
Theorem C126_stationary n g k r0 r csm damp x : geometry n g r0 r -> hermitian n csm -> 0 < damp <= 1 -> nonneg g x ->
  (forall t, (t < g)%nat ->
     gs_sweep g (fun t s => psf_core n TrueLevel (r0 t) (r t) (r0 s) (r s) k)
       (fun t => fst (freq_full n csm (r0 t) k (r t) 1 false TrueLevel)) damp x t = x t)
  <-> (forall z, nonneg g z -> misfit n g k r0 r csm x <= misfit n g k r0 r csm z).
Proof.
  intros HG HC HD HX. destruct (facts n g k r0 r HG) as [F1 [F2 [F3 [F4 F5]]]]. split.
  - intros H z Hz. rewrite !(misfit_cost n g k r0 r csm HG HC).
    pose proof (stationary_minimum g _ (dirty n k r0 r csm) damp _ F1 F2 F3 F4 F5 HD x HX H z Hz). lra.
  - intros H. apply (minimum_stationary g _ (dirty n k r0 r csm) damp _ F1 F2 F3 F4 F5 HD x HX).
    intros z Hz. specialize (H z Hz). rewrite !(misfit_cost n g k r0 r csm HG HC) in H. lra.
Qed.

(** Incoherent monopoles at grid points: the modelled matrix converges to the
    measured one; if the matrices of the grid points are linearly independent
    the strengths converge to the true ones. *)
Theorem C126_recovers n g k r0 r s damp : geometry n g r0 r -> 0 < damp <= 1 -> nonneg g s ->
  let csm := fun i j => csum g (fun t => RtoC (s t) * (transfer (r0 t) k (r t) i * Conj (transfer (r0 t) k (r t) j)))%C in
  Un_cv (fun m => misfit n g k r0 r csm (damas_map n g k r0 r csm damp m)) 0
  /\ ((exists c, 0 < c /\ forall x, c * rsumn g (fun t => x t * x t) <= misfit n g k r0 r (fun _ _ => C0) x) ->
      forall t, (t < g)%nat -> Un_cv (fun m => damas_map n g k r0 r csm damp m t) (s t)).
Proof.
  intros HG HD HS csm.
  assert (hermitian n csm) as HC.
  { intros i j _ _. unfold csm. rewrite csum_conj. apply csum_ext. intros t _. rewrite !Conj_mul, Conj_RtoC, Conj_invol. ring. }
  assert (misfit n g k r0 r csm s = 0) as Z.
  { unfold misfit. apply rsumn_0. intros i _. apply rsumn_0. intros j _. fold (csm i j).
    replace (csm i j - csm i j)%C with C0 by (apply C_ext; cbn; ring). unfold norm2. cbn. ring. }
  assert (forall x, 0 <= misfit n g k r0 r csm x) as P.
  { intros x. apply rsumn_nonneg. intros i _. apply rsumn_nonneg. intros j _. apply norm2_nonneg. }
  assert (Un_cv (fun m => misfit n g k r0 r csm (damas_map n g k r0 r csm damp m)) 0) as CV.
  { destruct (C126_optimal n g k r0 r csm damp HG HC HD) as [l [L1 L2]]. specialize (L2 s HS). rewrite Z in L2.
    assert (0 <= l) as L0.
    { destruct (Rle_lt_dec 0 l) as [Q|Q]; [exact Q|]. destruct (L1 (- l / 2) ltac:(lra)) as [N HN]. specialize (HN N (Nat.le_refl N)).
      unfold R_dist in HN. pose proof (P (damas_map n g k r0 r csm damp N)) as PN. rewrite Rabs_right in HN by lra. lra. }
    replace 0 with l by lra. exact L1. }
  split; [exact CV|]. intros [c [C0' HI]] t Ht e He.
  assert (0 < c * (e * e)) as HE by (apply Rmult_lt_0_compat; [exact C0'|now apply Rmult_lt_0_compat]).
  destruct (CV _ HE) as [N HN]. exists N. intros m Hm. specialize (HN m Hm). unfold R_dist in *.
  set (x := damas_map n g k r0 r csm damp m) in *. rewrite Rminus_0_r, Rabs_right in HN by (apply Rle_ge, P).
  assert (misfit n g k r0 r csm x = misfit n g k r0 r (fun _ _ => C0) (fun t => x t - s t)) as E.
  { unfold misfit. apply rsumn_ext. intros i _. apply rsumn_ext. intros j _. unfold csm.
    rewrite (csum_ext g (fun t => RtoC (x t - s t) * (transfer (r0 t) k (r t) i * Conj (transfer (r0 t) k (r t) j)))%C
               (fun t => RtoC (x t) * (transfer (r0 t) k (r t) i * Conj (transfer (r0 t) k (r t) j))
                         - RtoC (s t) * (transfer (r0 t) k (r t) i * Conj (transfer (r0 t) k (r t) j)))%C).
    2:{ intros l _. apply C_ext; cbn [fst snd Cmul Csub RtoC]; ring. }
    rewrite csum_sub. f_equal. apply C_ext; cbn [fst snd Csub C0]; ring. }
  rewrite E in HN. pose proof (HI (fun t => x t - s t)) as HI'. cbv beta in HI'.
  assert ((x t - s t) * (x t - s t) <= rsumn g (fun t => (x t - s t) * (x t - s t))) as T.
  { assert (forall l, (l <= g)%nat -> (t < l)%nat -> (x t - s t) * (x t - s t) <= rsumn l (fun t => (x t - s t) * (x t - s t))) as Q.
    { induction l as [|l IH]; intros M1 M2; [lia|]. cbn [rsumn]. pose proof (Rle_0_sqr (x l - s l)) as V. unfold Rsqr in V.
      destruct (Nat.eq_dec t l) as [<-|Ne].
      - assert (0 <= rsumn t (fun t => (x t - s t) * (x t - s t))) by (apply rsumn_nonneg; intros; apply Rle_0_sqr). lra.
      - specialize (IH ltac:(lia) ltac:(lia)). lra. }
    apply Q; [lia|exact Ht]. }
  assert (c * ((x t - s t) * (x t - s t)) < c * (e * e)) as F.
  { apply Rle_lt_trans with (c * rsumn g (fun t => (x t - s t) * (x t - s t))); [apply Rmult_le_compat_l; lra|lra]. }
  apply Rmult_lt_reg_l in F; [|exact C0']. rewrite <- (Rabs_right e) by lra. apply Rsqr_lt_abs_0. exact F.
Qed.

(** With the diagonal removed (r_diag) the solver still gets the point spread
    function of the full matrix: the strength of a single source on its own
    grid point is not found, whatever the number of sweeps. *)
Definition damas_no_diag (n g : nat) (k : R) (r0 : nat -> R) (r : nat -> nat -> R) (csm : nat -> nat -> C) (damp : R) (m : nat) : nat -> R :=
  damas g (fun t s => psf_core n TrueLevel (r0 t) (r t) (r0 s) (r s) k)
    (fun t => match bf_base n csm (r0 t) k (r t) true 0 TrueLevel with Some v => v | None => 0 end) damp m.

Definition diagonal_free : Prop :=
  forall n g k r0 r s damp t, geometry n g r0 r -> (1 < n)%nat -> 0 < damp <= 1 -> nonneg g s -> (t < g)%nat ->
    let csm := fun i j => csum g (fun t => RtoC (s t) * (transfer (r0 t) k (r t) i * Conj (transfer (r0 t) k (r t) j)))%C in
    (exists c, 0 < c /\ forall x, c * rsumn g (fun t => x t * x t) <= misfit n g k r0 r (fun _ _ => C0) x) ->
    Un_cv (fun m => damas_no_diag n g k r0 r csm damp m t) (s t).

Theorem C126_diagonal_refuted : ~ diagonal_free.
Proof.
  intros H. set (rr := fun t m : nat => if (m =? 0)%nat then 1 else 2).
  specialize (H 2%nat 1%nat 0 (fun _ => 1) rr (fun _ => 1) 1 0%nat).
  assert (forall t m, rr t m <> 0) as R0 by (intros t m; unfold rr; destruct (m =? 0)%nat; lra).
  assert (forall t m, transfer 1 0 (rr t) m = RtoC (/ rr t m)) as TR.
  { intros t m. unfold transfer. rewrite Rmult_0_l, cos_0, sin_0, RtoC_inv by apply R0. unfold Cdiv.
    replace (1, - 0) with C1 by (unfold C1; f_equal; ring). change (RtoC 1) with C1. ring. }
  assert (geometry 2 1 (fun _ => 1) rr) as HG.
  { repeat split; [lia|intros; lra|]. intros t m _ _. unfold rr. destruct (m =? 0)%nat; lra. }
  specialize (H HG ltac:(lia) ltac:(lra) ltac:(intros t _; lra) ltac:(lia)). cbv zeta beta in H.
  set (csm := fun i j => csum 1 (fun t => RtoC 1 * (transfer 1 0 (rr t) i * Conj (transfer 1 0 (rr t) j)))%C) in *.
  assert (forall i j, csm i j = RtoC (/ rr 0%nat i * / rr 0%nat j)) as EC.
  { intros i j. unfold csm. cbn [csum]. rewrite !TR. rewrite Conj_RtoC, RtoC_mul. change (RtoC 1) with C1. ring. }
  assert (bf_base 2 csm 1 0 (rr 0%nat) true 0 TrueLevel = Some (16 / 25)) as EB.
  { unfold bf_base, sig_loss_norm. destruct (Req_EM_T 0 0) as [_|N]; [|lra]. cbn [Nat.eqb]. f_equal.
    assert (fst (freq_full 2 csm 1 0 (rr 0%nat) (INR 2 / (INR 2 - 1)) true TrueLevel) = 16 / 25) as E.
    { unfold freq_full, normalize, scalar_prod, steer_raw, help_normalize. cbn [fst rsumn csum].
      rewrite !Rmult_0_l, cos_0, sin_0, !EC. unfold rr. cbn [Nat.eqb].
      unfold re, Cdiv, Cinv, norm2. cbn [fst snd Cmul Cadd Conj RtoC C0]. replace (INR 2) with 2 by (cbn; ring). field. }
    rewrite E. unfold clip_neg. destruct (Rlt_dec (16 / 25) 0); [lra|reflexivity]. }
  assert (psf_core 2 TrueLevel 1 (rr 0%nat) 1 (rr 0%nat) 0 = 1) as EP.
  { destruct HG as [G1 [G2 G3]]. pose proof (psf_gram 2 1 0 (fun _ => 1) rr G1 G2 G3 0 0 ltac:(lia) ltac:(lia)) as E.
    unfold psf_matrix in E. rewrite E. apply Rinv_r. pose proof (gram_pos 2 1 0 (fun _ => 1) rr G1 G2 G3 0 ltac:(lia)). lra. }
  assert (forall m, damas_no_diag 2 1 0 (fun _ => 1) rr csm 1 m 0%nat = 16 / 25) as EV.
  { intros m. unfold damas_no_diag, damas, gs_solve.
    set (A := fun t s : nat => psf_core 2 TrueLevel 1 (rr t) 1 (rr s) 0).
    set (y := fun t : nat => match bf_base 2 csm 1 0 (rr t) true 0 TrueLevel with Some v => v | None => 0 end).
    assert (y 0%nat = 16 / 25) as Y by (unfold y; now rewrite EB).
    assert (A 0%nat 0%nat = 1) as AA by exact EP.
    induction m as [|m IH]; [exact Y|].
    change (gs_sweep 1 A y 1 (Nat.iter m (gs_sweep 1 A y 1) y) 0%nat = 16 / 25).
    set (x := Nat.iter m (gs_sweep 1 A y 1) y) in *. unfold gs_sweep. cbn [seq fold_left]. unfold gs_point, upd. cbn [Nat.eqb rsumn].
    rewrite AA, IH, Y. destruct (Rlt_dec 0 _); lra. }
  destruct (H) with (eps := 1 / 10) as [N HN].
  - exists 1. split; [lra|]. intros x. unfold misfit. cbn [rsumn csum]. rewrite !TR. unfold rr. cbn [Nat.eqb].
    unfold norm2. cbn [fst snd Cmul Cadd Csub Conj RtoC C0]. pose proof (Rle_0_sqr (x 0%nat)) as V. unfold Rsqr in V. lra.
  - lra.
  - specialize (HN N (Nat.le_refl N)). rewrite EV in HN. unfold R_dist in HN. rewrite Rabs_left in HN by lra. lra.
Qed.

(** ** Instances *)
(** Two microphones and two grid points with strengths 3 and 5: both are found. *)
Example C126_case : forall damp, 0 < damp <= 1 ->
  let r := fun t m : nat => if (m =? t)%nat then 1 else 2 in
  let s := fun t : nat => if (t =? 0)%nat then 3 else 5 in
  let csm := fun i j => csum 2 (fun t => RtoC (s t) * (transfer 1 0 (r t) i * Conj (transfer 1 0 (r t) j)))%C in
  Un_cv (fun m => damas_map 2 2 0 (fun _ => 1) r csm damp m 0%nat) 3
  /\ Un_cv (fun m => damas_map 2 2 0 (fun _ => 1) r csm damp m 1%nat) 5.
Proof.
  intros damp HD r s csm.
  assert (forall t m, r t m <> 0) as R0 by (intros t m; unfold r; destruct (m =? t)%nat; lra).
  assert (geometry 2 2 (fun _ => 1) r) as HG.
  { repeat split; [lia|intros; lra|]. intros t m _ _. unfold r. destruct (m =? t)%nat; lra. }
  assert (nonneg 2 s) as HS by (intros t _; unfold s; destruct (t =? 0)%nat; lra).
  assert (forall t m, transfer 1 0 (r t) m = RtoC (/ r t m)) as TR.
  { intros t m. unfold transfer. rewrite Rmult_0_l, cos_0, sin_0, RtoC_inv by apply R0. unfold Cdiv.
    replace (1, - 0) with C1 by (unfold C1; f_equal; ring). change (RtoC 1) with C1. ring. }
  destruct (C126_recovers 2 2 0 (fun _ => 1) r s damp HG HD HS) as [_ K].
  assert (exists c, 0 < c /\ forall x, c * rsumn 2 (fun t => x t * x t) <= misfit 2 2 0 (fun _ => 1) r (fun _ _ => C0) x) as HI.
  { exists (1 / 2). split; [lra|]. intros x. unfold misfit. cbn [rsumn csum]. rewrite !TR. unfold r. cbn [Nat.eqb].
    unfold norm2. cbn [fst snd Cmul Cadd Csub Conj RtoC C0].
    pose proof (Rle_0_sqr (x 0%nat + x 1%nat)) as V. pose proof (Rle_0_sqr (x 0%nat)) as V0. pose proof (Rle_0_sqr (x 1%nat)) as V1.
    unfold Rsqr in *. lra. }
  split; [exact (K HI 0%nat ltac:(lia))|exact (K HI 1%nat ltac:(lia))].
Qed.

Print Assumptions C126_descent.
Print Assumptions C126_optimal.
Print Assumptions C126_stationary.
Print Assumptions C126_recovers.
Print Assumptions C126_diagonal_refuted.
