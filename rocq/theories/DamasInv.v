(** The iteration of DAMAS with the formulation 'inverse'
    (/repo/acoular/fastFuncs.py:659-690 and 791-824): two grid points whose
    distances to each microphone differ by whole wavelengths. *)
From Coq Require Import List Arith Lia ZArith Bool Reals Lra.
From Verif Require Import Stream Cplx Beamform Deconv.
Import ListNotations.
Local Open Scope R_scope.

(** Sum of positive numbers times sum of their inverses. *)
Lemma am_hm n (x : nat -> R) : (forall m, (m < n)%nat -> 0 < x m) -> INR n * INR n <= rsumn n x * rsumn n (fun m => / x m).
Proof.
  induction n as [|n IH]; intros H; [cbn; lra|]. cbn [rsumn]. rewrite S_INR.
  assert (forall m, (m < n)%nat -> 0 < x m) as Hm by (intros; apply H; lia). specialize (IH Hm).
  pose proof (H n ltac:(lia)) as P. pose proof (Rinv_0_lt_compat _ P) as Q.
  set (S := rsumn n x) in *. set (T := rsumn n (fun m => / x m)) in *. set (i := / x n) in *. set (v := x n) in *.
  assert (v * i = 1) as VI by (unfold i; apply Rinv_r; lra).
  assert (0 <= S) as SP by (apply rsumn_nonneg; intros; apply Rlt_le; auto).
  assert (0 <= T) as TP by (apply rsumn_nonneg; intros; apply Rlt_le, Rinv_0_lt_compat; auto).
  pose proof (pos_INR n) as N0.
  assert (0 <= S * i) as S1 by (apply Rmult_le_pos; lra). assert (0 <= T * v) as S2 by (apply Rmult_le_pos; lra).
  assert (2 * INR n <= S * i + T * v) as K.
  { apply Rsqr_incr_0; [|lra|lra]. unfold Rsqr.
    pose proof (Rle_0_sqr (S * i - T * v)) as D. unfold Rsqr in D.
    assert (S * i * (T * v) = S * T) as E by (replace (S * i * (T * v)) with (S * T * (v * i)) by ring; rewrite VI; ring). lra. }
  replace ((S + v) * (T + i)) with (S * T + (S * i + T * v) + v * i) by ring. rewrite VI. lra.
Qed.

Lemma turn (z : Z) a : a = IZR z * (2 * PI) -> cos a = 1 /\ sin a = 0.
Proof.
  intros ->. assert (forall n, cos (2 * INR n * PI) = 1 /\ sin (2 * INR n * PI) = 0) as N.
  { intros n. pose proof (cos_period 0 n) as E. pose proof (sin_period 0 n) as F. rewrite Rplus_0_l in E, F. now rewrite E, F, cos_0, sin_0. }
  destruct (Z_le_gt_dec 0 z) as [H|H].
  - replace (IZR z * (2 * PI)) with (2 * INR (Z.to_nat z) * PI); [apply N|]. rewrite INR_IZR_INZ, Z2Nat.id by lia. ring.
  - replace (IZR z * (2 * PI)) with (- (2 * INR (Z.to_nat (- z)) * PI)).
    + rewrite cos_neg, sin_neg. destruct (N (Z.to_nat (- z))) as [-> ->]. lra.
    + rewrite INR_IZR_INZ, Z2Nat.id by lia. rewrite opp_IZR. ring.
Qed.

(** The point spread function then: the mean ratio of the distances. *)
Lemma inverse_psf n k r0 (r : nat -> R) r0s (rs : nat -> R) :
  (forall m, (m < n)%nat -> 0 < rs m) -> (forall m, (m < n)%nat -> exists z, k * (r m - rs m) = IZR z * (2 * PI)) ->
  psf_core n Inverse r0 r r0s rs k = (rsumn n (fun m => r m * / rs m) * (r0s / r0 / INR n)) * (rsumn n (fun m => r m * / rs m) * (r0s / r0 / INR n)).
Proof.
  intros Hr Hk. unfold psf_core.
  rewrite (csum_ext n _ (fun m => RtoC (r m * / rs m))).
  2:{ intros m Hm. destruct (Hk m Hm) as [z Hz]. destruct (turn z _ Hz) as [-> ->]. rewrite RtoC_mul, RtoC_inv by (specialize (Hr m Hm); lra).
      replace (1, - 0) with C1 by (unfold C1; f_equal; ring). unfold Cdiv. ring. }
  assert (csum n (fun m => RtoC (r m * / rs m)) = RtoC (rsumn n (fun m => r m * / rs m))) as ->.
  { clear. induction n as [|n IH]; [reflexivity|]. cbn [csum rsumn]. now rewrite IH, RtoC_add. }
  rewrite Conj_RtoC, <- RtoC_mul. cbn [re RtoC fst]. ring.
Qed.

(** Two points: relaxation one. *)
Section Two.
  Variables (A : nat -> nat -> R) (y : nat -> R) (q0 q1 : R).
  Hypothesis D0 : A 0%nat 0%nat = 1.
  Hypothesis D1 : A 1%nat 1%nat = 1.
  Hypothesis Cc : 0 <= A 1%nat 0%nat.
  Hypothesis BC : 1 <= A 0%nat 1%nat * A 1%nat 0%nat.
  Hypothesis Q0 : 0 <= q0.
  Hypothesis Q1 : 0 <= q1.
  Hypothesis Y0 : y 0%nat = q0 + A 0%nat 1%nat * q1.
  Hypothesis Y1 : y 1%nat = A 1%nat 0%nat * q0 + q1.
  Lemma y1_pos : 0 <= y 1%nat.
  Proof. rewrite Y1. pose proof (Rmult_le_pos _ _ Cc Q0). lra. Qed.
  Lemma sweep_two x : x 1%nat = y 1%nat -> gs_sweep 2 A y 1 x 0%nat = 0 /\ gs_sweep 2 A y 1 x 1%nat = y 1%nat.
  Proof.
    intros X. pose proof y1_pos as YP. unfold gs_sweep. cbn [seq fold_left]. unfold gs_point, upd. cbn [rsumn Nat.eqb]. rewrite D0, D1, X.
    assert (y 0%nat - A 0%nat 1%nat * y 1%nat <= 0) as L.
    { rewrite Y0, Y1. replace (q0 + A 0%nat 1%nat * q1 - A 0%nat 1%nat * (A 1%nat 0%nat * q0 + q1)) with (q0 * (1 - A 0%nat 1%nat * A 1%nat 0%nat)) by ring.
      assert (0 <= q0 * (A 0%nat 1%nat * A 1%nat 0%nat - 1)) by (apply Rmult_le_pos; lra). lra. }
    destruct (Rlt_dec 0 ((1 - 1) * x 0%nat + 1 * (y 0%nat - (0 + 1 * x 0%nat + A 0%nat 1%nat * y 1%nat - 1 * x 0%nat)))) as [F|F]; [lra|].
    split; [reflexivity|]. destruct (Rlt_dec 0 _); lra.
  Qed.
  Lemma iterate_two m : damas 2 A y 1 (S m) 0%nat = 0 /\ damas 2 A y 1 (S m) 1%nat = y 1%nat.
  Proof.
    induction m as [|m IH].
    - apply (sweep_two y). reflexivity.
    - destruct IH as [_ IH]. change (damas 2 A y 1 (S (S m))) with (gs_sweep 2 A y 1 (damas 2 A y 1 (S m))). now apply sweep_two.
  Qed.
End Two.
