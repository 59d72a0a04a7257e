(** Property C129: BeamformerDamas with steering vectors of type 'inverse'. *)
From Coq Require Import List Arith Lia ZArith Bool Reals Lra.
From Verif Require Import Stream Cplx Beamform Deconv Damas Props_Damas DamasPlus Props_DamasPlus Props_Results DamasInv.
Import ListNotations.
Local Open Scope R_scope.

(** Whole wavelengths between the distances of two grid points, at every microphone. *)
Definition whole_waves (n : nat) (k : R) (r : nat -> nat -> R) : Prop :=
  forall m, (m < n)%nat -> exists z : Z, k * (r 0%nat m - r 1%nat m) = IZR z * (2 * PI).

(** The mutual leakage of such grid points is never less than one. *)
Theorem C129_leakage n k r0 r : geometry n 2 r0 r -> whole_waves n k r ->
  0 < psf_of n Inverse k r0 r 0 1 /\ 0 < psf_of n Inverse k r0 r 1 0 /\
  1 <= psf_of n Inverse k r0 r 0 1 * psf_of n Inverse k r0 r 1 0.
Proof.
  intros [G1 [G2 G3]] W. unfold psf_of.
  pose proof (G2 0%nat ltac:(lia)) as P0. pose proof (G2 1%nat ltac:(lia)) as P1. pose proof (lt_0_INR n G1) as NP.
  assert (forall m, (m < n)%nat -> 0 < r 0%nat m) as R0 by (intros; apply G3; lia).
  assert (forall m, (m < n)%nat -> 0 < r 1%nat m) as R1 by (intros; apply G3; lia).
  rewrite (inverse_psf n k (r0 0%nat) (r 0%nat) (r0 1%nat) (r 1%nat) R1 W).
  rewrite (inverse_psf n k (r0 1%nat) (r 1%nat) (r0 0%nat) (r 0%nat) R0).
  2:{ intros m Hm. destruct (W m Hm) as [z Hz]. exists (- z)%Z. rewrite opp_IZR. lra. }
  pose proof (am_hm n (fun m => r 0%nat m * / r 1%nat m)) as H.
  assert (forall m, (m < n)%nat -> 0 < r 0%nat m * / r 1%nat m) as Q.
  { intros m Hm. apply Rmult_lt_0_compat; [auto|]. apply Rinv_0_lt_compat; auto. }
  specialize (H Q). cbv beta in H.
  rewrite (rsumn_ext n (fun m => / (r 0%nat m * / r 1%nat m)) (fun m => r 1%nat m * / r 0%nat m)) in H.
  2:{ intros m Hm. field. split; apply Rgt_not_eq; [apply R0|apply R1]; assumption. }
  assert (0 < rsumn n (fun m => r 0%nat m * / r 1%nat m)) as SP.
  { destruct n as [|n']; [lia|]. cbn [rsumn]. apply Rplus_le_lt_0_compat; [|apply Q; lia]. apply rsumn_nonneg. intros; apply Rlt_le, Q; lia. }
  assert (0 < rsumn n (fun m => r 1%nat m * / r 0%nat m)) as TP.
  { destruct n as [|n']; [lia|]. cbn [rsumn]. apply Rplus_le_lt_0_compat.
    - apply rsumn_nonneg. intros; apply Rlt_le, Rmult_lt_0_compat; [apply R1; lia|apply Rinv_0_lt_compat, R0; lia].
    - apply Rmult_lt_0_compat; [apply R1; lia|apply Rinv_0_lt_compat, R0; lia]. }
  set (S := rsumn n (fun m => r 0%nat m * / r 1%nat m)) in *. set (T := rsumn n (fun m => r 1%nat m * / r 0%nat m)) in *.
  assert (0 < r0 1%nat / r0 0%nat / INR n) as U by (repeat apply Rdiv_lt_0_compat; assumption).
  assert (0 < r0 0%nat / r0 1%nat / INR n) as V by (repeat apply Rdiv_lt_0_compat; assumption).
  pose proof (Rmult_lt_0_compat _ _ SP U) as SU. pose proof (Rmult_lt_0_compat _ _ TP V) as TV.
  split; [now apply Rmult_lt_0_compat|]. split; [now apply Rmult_lt_0_compat|].
  assert (1 <= S * (r0 1%nat / r0 0%nat / INR n) * (T * (r0 0%nat / r0 1%nat / INR n))) as L.
  { replace (S * (r0 1%nat / r0 0%nat / INR n) * (T * (r0 0%nat / r0 1%nat / INR n))) with (S * T / (INR n * INR n)) by (field; repeat split; apply Rgt_not_eq; assumption).
    apply Rle_trans with (INR n * INR n / (INR n * INR n)); [right; field; apply Rgt_not_eq; assumption|].
    apply Rmult_le_compat_r; [|exact H]. apply Rlt_le, Rinv_0_lt_compat. now apply Rmult_lt_0_compat. }
  set (a := S * (r0 1%nat / r0 0%nat / INR n)) in *. set (b := T * (r0 0%nat / r0 1%nat / INR n)) in *. replace (a * a * (b * b)) with (a * b * (a * b)) by ring.
  assert (0 <= (a * b - 1) * (a * b - 1 + 2)) by (apply Rmult_le_pos; lra). lra.
Qed.

(** Whatever the strengths, the first of the two sources is not found and the
    second gets the level of the map, from the first sweep on. *)
Theorem C129_inverse n k r0 r q sweeps : geometry n 2 r0 r -> whole_waves n k r -> nonneg 2 q -> (0 < sweeps)%nat ->
  let y := map_of n Inverse k r0 r (sources 2 k r0 r q) in
  damas 2 (psf_of n Inverse k r0 r) y 1 sweeps 0%nat = 0
  /\ damas 2 (psf_of n Inverse k r0 r) y 1 sweeps 1%nat = y 1%nat
  /\ (0 < q 0%nat -> q 1%nat < y 1%nat).
Proof.
  intros G W Q Hs y. destruct (C129_leakage n k r0 r G W) as [B [Cc BC]].
  pose proof (model_map n 2 Inverse k r0 r q 0 G ltac:(lia)) as Y0. pose proof (model_map n 2 Inverse k r0 r q 1 G ltac:(lia)) as Y1.
  fold y in Y0, Y1. destruct G as [G1 [G2 G3]].
  assert (psf_of n Inverse k r0 r 0 0 = 1) as D0 by (apply C37_unit_diagonal; auto; intros; apply G3; lia || lia).
  assert (psf_of n Inverse k r0 r 1 1 = 1) as D1 by (apply C37_unit_diagonal; auto; intros; apply G3; lia || lia).
  unfold mul in Y0, Y1. cbn [rsumn] in Y0, Y1. rewrite D0 in Y0. rewrite D1 in Y1.
  destruct sweeps as [|m]; [lia|].
  destruct (iterate_two (psf_of n Inverse k r0 r) y (q 0%nat) (q 1%nat) D0 D1 (Rlt_le _ _ Cc) BC
              (Q 0%nat ltac:(lia)) (Q 1%nat ltac:(lia)) ltac:(lra) ltac:(lra) m) as [E F].
  split; [exact E|]. split; [exact F|]. intros P. pose proof (Rmult_lt_0_compat _ _ Cc P). lra.
Qed.

(** Distances 1 and 2 of the first, 4 and 2 of the second point, wavelength one. *)
Lemma near_waves : whole_waves 2 (2 * PI) near.
Proof. intros [|[|m]] Hm; [exists (-3)%Z|exists 0%Z|lia]; unfold near; lra. Qed.
Lemma near_inverse : psf_of 2 Inverse (2 * PI) (fun _ => 1) near 0 0 = 1 /\ psf_of 2 Inverse (2 * PI) (fun _ => 1) near 0 1 = 25 / 64
  /\ psf_of 2 Inverse (2 * PI) (fun _ => 1) near 1 0 = 25 / 4 /\ psf_of 2 Inverse (2 * PI) (fun _ => 1) near 1 1 = 1.
Proof.
  assert (forall s t : nat, (s < 2)%nat -> (t < 2)%nat -> forall m, (m < 2)%nat -> 0 < near t m /\ exists z, 2 * PI * (near s m - near t m) = IZR z * (2 * PI)) as W.
  { intros [|[|s]] [|[|t]] Hs Ht [|[|m]] Hm; try lia; unfold near; (split; [lra|]); first [exists 0%Z; lra|exists (-3)%Z; lra|exists 3%Z; lra]. }
  unfold psf_of. repeat split; rewrite inverse_psf by (intros m Hm; first [apply (W 0%nat 0%nat ltac:(lia) ltac:(lia) m Hm)|apply (W 0%nat 1%nat ltac:(lia) ltac:(lia) m Hm)|apply (W 1%nat 0%nat ltac:(lia) ltac:(lia) m Hm)|apply (W 1%nat 1%nat ltac:(lia) ltac:(lia) m Hm)]); cbn [rsumn INR]; unfold near; field.
Qed.
Lemma near_inverse_separated : separated 2 (psf_of 2 Inverse (2 * PI) (fun _ => 1) near).
Proof.
  destruct near_inverse as [E1 [E2 [E3 E4]]]. intros x z H t Ht. pose proof (H 0%nat ltac:(lia)) as H0. pose proof (H 1%nat ltac:(lia)) as H1.
  cbn [rsumn] in H0, H1. rewrite E1, E2 in H0. rewrite E3, E4 in H1. destruct t as [|[|t]]; [lra|lra|lia].
Qed.

(** Recovery, which holds in the limit for 'true level' (C126_recovers), is not
    a property of 'inverse': two sources of strength one. *)
Theorem C129_inverse_refuted :
  ~ (forall n g k r0 r q, geometry n g r0 r -> nonneg g q -> separated g (psf_of n Inverse k r0 r) ->
     let y := map_of n Inverse k r0 r (sources g k r0 r q) in
     forall e, 0 < e -> exists N, forall sweeps, (N <= sweeps)%nat -> forall t, (t < g)%nat ->
     Rabs (damas g (psf_of n Inverse k r0 r) y 1 sweeps t - q t) < e).
Proof.
  intros H. specialize (H 2%nat 2%nat (2 * PI) (fun _ => 1) near (fun _ => 1) near_geometry ltac:(intros t _; lra) near_inverse_separated).
  cbv zeta in H. destruct (H (1 / 2) ltac:(lra)) as [N HN]. specialize (HN (S N) ltac:(lia) 0%nat ltac:(lia)).
  destruct (C129_inverse 2 (2 * PI) (fun _ => 1) near (fun _ => 1) (S N) near_geometry near_waves ltac:(intros t _; lra) ltac:(lia)) as [E _].
  rewrite E in HN. rewrite Rabs_left in HN by lra. lra.
Qed.
Print Assumptions C129_leakage.
Print Assumptions C129_inverse.
Print Assumptions C129_inverse_refuted.

(** The levels of the example: map (89/64, 29/4), result (0, 29/4) for strengths one. *)
Example C129_case : geometry 2 2 (fun _ => 1) near /\ whole_waves 2 (2 * PI) near /\
  map_of 2 Inverse (2 * PI) (fun _ => 1) near (sources 2 (2 * PI) (fun _ => 1) near (fun _ => 1)) 1%nat = 29 / 4 /\
  (forall sweeps, (0 < sweeps)%nat ->
     damas 2 (psf_of 2 Inverse (2 * PI) (fun _ => 1) near)
       (map_of 2 Inverse (2 * PI) (fun _ => 1) near (sources 2 (2 * PI) (fun _ => 1) near (fun _ => 1))) 1 sweeps 1%nat = 29 / 4).
Proof.
  assert (map_of 2 Inverse (2 * PI) (fun _ => 1) near (sources 2 (2 * PI) (fun _ => 1) near (fun _ => 1)) 1%nat = 29 / 4) as M.
  { rewrite <- (model_map 2 2 Inverse (2 * PI) (fun _ => 1) near (fun _ => 1) 1 near_geometry ltac:(lia)). unfold mul. cbn [rsumn].
    destruct near_inverse as [_ [_ [-> ->]]]. lra. }
  split; [exact near_geometry|]. split; [exact near_waves|]. split; [exact M|]. intros sweeps Hs.
  destruct (C129_inverse 2 (2 * PI) (fun _ => 1) near (fun _ => 1) sweeps near_geometry near_waves ltac:(intros t _; lra) Hs) as [_ [E _]].
  now rewrite E.
Qed.
