(** Property C71: virtual rotation of a ring array
    (SpatialInterpolatorConstantRotation with linear interpolation,
    tprocess.py:663-1018 and 1213-1263). *)
From Coq Require Import List Arith Lia ZArith Bool Reals Lra.
From Verif Require Import Stream Environ Tracker Rotation.
Import ListNotations.
Local Open Scope R_scope.

(** For every block size the output has one row per sample, and in row [n] the
    virtual microphone [u] gets the linear interpolation, along the circle,
    between the two real microphones it is between after a rotation by
    [n * w / fs]. *)
Theorem C71_rotation phis virt fs w src s :
  wf_source src s -> Forall (fun row => length row = length phis) s -> distinct phis ->
  exists out, wf_source (constant_rotation phis virt fs w src) out /\ length out = length s
    /\ forall n u i j d t, (n < length s)%nat -> (u < length virt)%nat -> next_mic phis i j d -> 0 <= t < 1 ->
         (exists k, nth u virt 0 + INR n * (w / fs) = nth i phis 0 + t * d + IZR k * (2 * PI)) ->
         nth u (nth n out []) 0 = (1 - t) * nth i (nth n s []) 0 + t * nth j (nth n s []) 0.
Proof.
  intros W HF HD. eexists. split; [apply (constant_rotation_ok phis virt fs w src s W)|].
  split; [rewrite map_length, combine_length, seq_length; lia|].
  intros n u i j d t Hn Hu Hnext Ht Hk.
  set (F := fun q : nat * list R => rotated_row phis virt fs w (fst q) (snd q)).
  rewrite (nth_indep _ [] (F (0%nat, []))) by (rewrite map_length, combine_length, seq_length; lia).
  rewrite (map_nth F). rewrite combine_nth by (now rewrite seq_length).
  rewrite seq_nth by lia. unfold F, rotated_row. cbn [fst snd]. rewrite Nat.add_0_l.
  apply core_row_spec with (d := d); auto.
  rewrite Forall_forall in HF. apply HF. apply nth_In. exact Hn.
Qed.

(** this covers every direction *)
Theorem C71_everywhere phis x : (0 < length phis)%nat ->
  exists i j d t, next_mic phis i j d /\ 0 <= t < 1
    /\ exists k, x = nth i phis 0 + t * d + IZR k * (2 * PI).
Proof. apply next_somewhere. Qed.

(** A field that is at rest in the rotating frame: whenever a virtual microphone
    passes a real one it gets the field's value at its own angle. *)
Theorem C71_steady_field phis virt fs w src (g : R -> R) N :
  (forall x, g (x + 2 * PI) = g x) -> distinct phis ->
  wf_source src (map (fun n => map (fun phi => g (phi - INR n * (w / fs))) phis) (seq 0 N)) ->
  exists out, wf_source (constant_rotation phis virt fs w src) out /\ length out = N
    /\ forall n u i k, (n < N)%nat -> (u < length virt)%nat -> (i < length phis)%nat ->
         nth u virt 0 + INR n * (w / fs) = nth i phis 0 + IZR k * (2 * PI) ->
         nth u (nth n out []) 0 = g (nth u virt 0).
Proof.
  intros Hg HD W.
  assert (forall (k : Z) x, g (x + IZR k * (2 * PI)) = g x) as Hgk.
  { assert (forall (k : nat) x, g (x + INR k * (2 * PI)) = g x) as G.
    { induction k as [|k IH]; intros x; [simpl; f_equal; ring|].
      rewrite S_INR. replace (x + (INR k + 1) * (2 * PI)) with ((x + INR k * (2 * PI)) + 2 * PI) by ring.
      now rewrite Hg. }
    intros k x. destruct (Z_le_gt_dec 0 k) as [L|L].
    - rewrite <- (Z2Nat.id k L), <- INR_IZR_INZ. apply G.
    - rewrite <- (G (Z.to_nat (- k)) (x + IZR k * (2 * PI))). f_equal.
      rewrite INR_IZR_INZ, Z2Nat.id by lia. rewrite opp_IZR. ring. }
  eexists. split; [apply (constant_rotation_ok phis virt fs w src _ W)|].
  split; [rewrite map_length, combine_length, seq_length, map_length, seq_length; lia|].
  intros n u i k Hn Hu Hi Hk.
  set (s := map (fun n => map (fun phi => g (phi - INR n * (w / fs))) phis) (seq 0 N)) in *.
  assert (length s = N) as HL by (unfold s; now rewrite map_length, seq_length).
  set (F := fun q : nat * list R => rotated_row phis virt fs w (fst q) (snd q)).
  rewrite (nth_indep _ [] (F (0%nat, []))) by (rewrite map_length, combine_length, seq_length; lia).
  rewrite (map_nth F). rewrite combine_nth by (now rewrite seq_length).
  rewrite seq_nth by lia. unfold F, rotated_row. cbn [fst snd]. rewrite Nat.add_0_l.
  assert (nth n s [] = map (fun phi => g (phi - INR n * (w / fs))) phis) as ->.
  { unfold s. set (G := fun n => map (fun phi => g (phi - INR n * (w / fs))) phis).
    rewrite (nth_indep _ [] (G 0%nat)) by (rewrite map_length, seq_length; lia).
    rewrite (map_nth G), seq_nth by lia. reflexivity. }
  rewrite (core_row_aligned phis virt _ _ u i); auto; [|now rewrite map_length|exists k; exact Hk].
  set (H := fun phi => g (phi - INR n * (w / fs))).
  rewrite (nth_indep _ 0 (H 0)) by (now rewrite map_length). rewrite (map_nth H). unfold H.
  replace (nth i phis 0 - INR n * (w / fs)) with (nth u virt 0 + IZR (- k) * (2 * PI)) by (rewrite opp_IZR; lra).
  apply Hgk.
Qed.

(** without rotation and with the virtual array equal to the real one the data
    are unchanged if [Q] is the identity ... *)
Definition identity3 : m3 := M3 (V3 1 0 0) (V3 0 1 0) (V3 0 0 1).

Theorem C71_identity_partial mpos row : length row = length mpos -> distinct (real_angles identity3 mpos) ->
  core_row (real_angles identity3 mpos) (virtual_angles mpos) row 0 = row.
Proof.
  intros HL HD.
  assert (real_angles identity3 mpos = virtual_angles mpos) as E.
  { apply map_ext. intros [x y z]. unfold mapply, identity3, vdot. cbn. do 2 f_equal; ring. }
  assert (length (virtual_angles mpos) = length mpos) as HV by (unfold virtual_angles; now rewrite map_length).
  apply (nth_ext _ _ 0 0); [unfold core_row; rewrite map_length; lia|].
  intros u Hu. unfold core_row in Hu. rewrite map_length in Hu.
  apply core_row_aligned; auto.
  - rewrite E. lia.
  - rewrite E. exact Hu.
  - exists 0%Z. rewrite E. ring.
Qed.

(** ... but not for a general [Q], which is applied to the real microphones only *)
Theorem C71_Q_refuted : exists Q mpos row,
  length row = length mpos /\ distinct (real_angles Q mpos)
  /\ mmul Q (mtrans Q) = identity3
  /\ core_row (real_angles Q mpos) (virtual_angles mpos) row 0 <> row.
Proof.
  pose proof PI_RGT_0 as HP.
  set (Q := M3 (V3 0 (-1) 0) (V3 1 0 0) (V3 0 0 1)).
  set (mpos := [V3 1 0 0; V3 0 1 0]).
  assert (real_angles Q mpos = [PI / 2; PI]) as ER.
  { unfold real_angles, mpos, mapply, Q, vdot, cartToCyl. cbn [map v3x v3y v3z row0 row1 row2].
    unfold atan2. repeat (destruct (Rlt_dec _ _); try lra); repeat (destruct (Rle_dec _ _); try lra).
    f_equal. f_equal.
    replace ((1 * 0 + 0 * 1 + 0 * 0) / (0 * 0 + -1 * 1 + 0 * 0)) with 0 by (field; lra). rewrite atan_0. ring. }
  assert (virtual_angles mpos = [0; PI / 2]) as EV.
  { unfold virtual_angles, mpos, cartToCyl. cbn [map v3x v3y v3z].
    unfold atan2. repeat (destruct (Rlt_dec _ _); try lra).
    f_equal. replace (0 / 1) with 0 by lra. apply atan_0. }
  assert (distinct (real_angles Q mpos)) as HD.
  { rewrite ER. intros i j k Hij. simpl in Hij. assert (i = 0 /\ j = 1)%nat as [-> ->] by lia. cbn [nth].
    intros E. assert (PI * (IZR k * 2 + 1 / 2) = 0) as E2 by lra.
    apply Rmult_integral in E2. destruct E2 as [E2|E2]; [lra|].
    assert (IZR (4 * k + 1) = 0) as E3 by (rewrite plus_IZR, mult_IZR; lra).
    apply eq_IZR in E3. lia. }
  exists Q, mpos, [1; 2]. split; [reflexivity|]. split; [exact HD|]. split.
  { unfold mmul, mtrans, Q, identity3, vdot. cbn. f_equal; f_equal; ring. }
  intros C.
  assert (nth 1 (core_row (real_angles Q mpos) (virtual_angles mpos) [1; 2] 0) 0 = nth 0 [1; 2] 0) as K.
  { apply core_row_aligned; auto; try (simpl; lia).
    exists 0%Z. rewrite ER, EV. cbn [nth]. ring. }
  rewrite C in K. cbn [nth] in K. lra.
Qed.

Print Assumptions C71_rotation.
Print Assumptions C71_everywhere.
Print Assumptions C71_steady_field.
Print Assumptions C71_identity_partial.
Print Assumptions C71_Q_refuted.

(** a concrete case: two microphones, half a turn apart *)
Example C71_case : distinct [0; PI] /\ next_mic [0; PI] 0 1 PI
  /\ wf_source (fun n => done (chunks n [[1; 2]; [3; 4]])) [[1; 2]; [3; 4]].
Proof.
  pose proof PI_RGT_0 as HP. split; [|split].
  - intros i j k Hij. simpl in Hij. assert (i = 0 /\ j = 1)%nat as [-> ->] by lia. cbn [nth].
    intros E. assert (PI * (IZR k * 2 + 1) = 0) as E2 by lra.
    apply Rmult_integral in E2. destruct E2 as [E2|E2]; [lra|].
    assert (IZR (2 * k + 1) = 0) as E3 by (rewrite plus_IZR, mult_IZR; lra).
    apply eq_IZR in E3. lia.
  - split; [simpl; lia|]. split; [simpl; lia|]. split; [lra|]. split; [exists 0%Z; cbn [nth]; ring|].
    intros m k Hm. simpl in Hm. cbn [nth]. destruct m as [|[|m]]; [| |lia]; cbn [nth]; intros [A B].
    + assert (0 < IZR k < 1) as [U V].
      { split; apply (Rmult_lt_reg_r (2 * PI)); lra. }
      apply lt_IZR in U. apply lt_IZR in V. lia.
    + assert (-1 < IZR k < 0) as [U V].
      { split; apply (Rmult_lt_reg_r (2 * PI)); lra. }
      apply lt_IZR in U. apply lt_IZR in V. lia.
  - intros n Hn. now apply delivers_chunks.
Qed.
