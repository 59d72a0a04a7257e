(** A point source recorded and focused: PointSource
    (/repo/acoular/sources.py:880-945) in front of BeamformerTime
    (/repo/acoular/tbeamform.py:126-232), composed from PointSources.v and
    Das.v.  Same environment and speed of sound in both. *)
From Coq Require Import List Arith Lia ZArith Bool Reals Lra.
From Verif Require Import Stream Sources Wav PointSources Buffer TimeBeam Das.
Import ListNotations.
Local Open Scope R_scope.

(** Delays in samples, tbeamform.py:141-162 ([rm] / c with c the speed of sound per sample). *)
Definition delay_of (c fs r : R) : R := r / c * fs.

(** The recording as a source of blocks; [heap] and [out0] are uninitialised memory. *)
Definition recorded (heap : Z -> R) (out0 : nat -> list (list R)) (signal : list R) (zeros : bool) (M : nat)
    (r : nat -> R) (c start fs : R) (up ns : nat) : source (list R) :=
  fun num =>
    let rm := map r (seq 0 M) in
    point_source heap signal zeros rm (first_ind c start start fs up rm) up ns (out0 num) num.

(** The stream behind it. *)
Definition rows_of (signal : list R) (zeros : bool) (M : nat) (r : nat -> R) (c start fs : R) (up ns : nat)
    : list (list R) :=
  let rm := map r (seq 0 M) in map (received signal zeros rm (first_ind c start start fs up rm) up) (seq 0 ns).

Local Ltac rs := cbn [map]; unfold rsum in *; cbn [map fold_right] in *.

Lemma rsum_map_scal {A} (f : A -> R) (a : R) l : rsum (map (fun x => a * f x) l) = a * rsum (map f l).
Proof. induction l as [|x l IH]; rs; [ring|]. rewrite IH. ring. Qed.

Lemma rsum_map_le {A} (f g : A -> R) l : (forall x, In x l -> f x <= g x) -> rsum (map f l) <= rsum (map g l).
Proof.
  induction l as [|x l IH]; intros H; rs; [lra|].
  pose proof (H x (or_introl eq_refl)). specialize (IH (fun y Hy => H y (or_intror Hy))). lra.
Qed.

Lemma rsum_map_ext {A} (f g : A -> R) l : (forall x, In x l -> f x = g x) -> rsum (map f l) = rsum (map g l).
Proof. intros H. f_equal. now apply map_ext_in. Qed.

Lemma rsum_map_sub {A} (f g : A -> R) l : rsum (map (fun x => f x - g x) l) = rsum (map f l) - rsum (map g l).
Proof. induction l as [|x l IH]; rs; [ring|]. rewrite IH. ring. Qed.

Lemma rsum_abs {A} (f : A -> R) l : Rabs (rsum (map f l)) <= rsum (map (fun x => Rabs (f x)) l).
Proof.
  induction l as [|x l IH]; rs; [rewrite Rabs_R0; lra|].
  eapply Rle_trans; [apply Rabs_triang|]. lra.
Qed.

Lemma rsum_map_pos {A} (f : A -> R) l : l <> [] -> (forall x, In x l -> 0 < f x) -> 0 < rsum (map f l).
Proof.
  destruct l as [|x l]; [easy|]. intros _ H. rs. pose proof (H x (or_introl eq_refl)).
  assert (0 <= fold_right Rplus 0 (map f l)).
  { clear -H. assert (forall y, In y l -> 0 < f y) as G by (intros; apply H; now right). clear H.
    induction l as [|y l IH]; rs; [lra|]. pose proof (G y (or_introl eq_refl)).
    specialize (IH (fun z Hz => G z (or_intror Hz))). lra. }
  lra.
Qed.

Lemma rsum_const {A} (a : R) (l : list A) : rsum (map (fun _ => a) l) = INR (length l) * a.
Proof. induction l as [|x l IH]; cbn [map rsum fold_right length]; [cbn; ring|]. unfold rsum in *. rewrite IH, S_INR. ring. Qed.

(** The amplitudes of 'inverse' and 'true level' undo the decay of the source. *)
Lemma steer_II_gain M rm r0 : (0 < M)%nat -> 0 < r0 -> (forall m, (m < M)%nat -> 0 < rm m) ->
  rsum (map (fun m => steer_II M rm r0 m / rm m) (seq 0 M)) = 1 / r0
  /\ forall m, (m < M)%nat -> 0 <= steer_II M rm r0 m / rm m.
Proof.
  intros HM H0 Hr. assert (HI : 0 < INR M) by now apply lt_0_INR. split.
  - rewrite (rsum_map_ext _ (fun _ => 1 / INR M / r0)).
    + rewrite rsum_const, seq_length. field. split; lra.
    + intros m Hm. apply in_seq in Hm. specialize (Hr m ltac:(lia)). unfold steer_II. field. repeat split; lra.
  - intros m Hm. specialize (Hr m Hm). unfold steer_II. apply Rlt_le.
    replace (rm m * (1 / INR M / r0) / rm m) with (1 / (INR M * r0)) by (field; repeat split; lra).
    apply Rdiv_lt_0_compat; nra.
Qed.

Lemma steer_III_gain M rm r0 : (0 < M)%nat -> 0 < r0 -> (forall m, (m < M)%nat -> 0 < rm m) ->
  rsum (map (fun m => steer_III M rm r0 m / rm m) (seq 0 M)) = 1 / r0
  /\ forall m, (m < M)%nat -> 0 <= steer_III M rm r0 m / rm m.
Proof.
  intros HM H0 Hr. set (Q := rsum (map (fun i => 1 / (rm i * rm i)) (seq 0 M))).
  assert (HQ : 0 < Q).
  { apply rsum_map_pos; [destruct M; [lia|discriminate]|]. intros m Hm. apply in_seq in Hm.
    specialize (Hr m ltac:(lia)). apply Rdiv_lt_0_compat; nra. }
  split.
  - rewrite (rsum_map_ext _ (fun m => 1 / (Q * r0) * (1 / (rm m * rm m)))).
    + rewrite rsum_map_scal. fold Q. field. split; lra.
    + intros m Hm. apply in_seq in Hm. specialize (Hr m ltac:(lia)). unfold steer_III. fold Q. field. repeat split; lra.
  - intros m Hm. specialize (Hr m Hm). unfold steer_III. fold Q. apply Rlt_le. apply Rdiv_lt_0_compat; [|assumption].
    apply Rdiv_lt_0_compat; [lra|]. apply Rmult_lt_0_compat; [assumption|]. nra.
Qed.

Lemma combine_map_seq {A B} (f : nat -> A) (g : nat -> B) l : combine (map f l) (map g l) = map (fun m => (f m, g m)) l.
Proof. induction l as [|x l IH]; cbn; [reflexivity|]. now rewrite IH. Qed.

(* ------------------------------------------------------------------ *)
(** ** One channel *)
Section Channel.
  Variables (signal : list R) (zeros : bool) (M : nat) (r : nat -> R) (c start fs : R) (up ns : nat).
  Hypothesis Hc : 0 < c.
  Hypothesis Hfs : 0 < fs.
  Hypothesis Hup : (0 < up)%nat.
  Hypothesis Hr : forall m, (m < M)%nat -> 0 < r m.
  Hypothesis Hlen : length signal = (up * ns)%nat.
  Let s := rows_of signal zeros M r c start fs up ns.
  Let d m := delay_of c fs (r m).

  Lemma delay_pos m : (m < M)%nat -> 0 < d m.
  Proof. intros Hm. unfold d, delay_of. specialize (Hr m Hm). apply Rmult_lt_0_compat; [|assumption]. now apply Rdiv_lt_0_compat. Qed.

  Lemma rows_length : length s = ns.
  Proof. unfold s, rows_of. now rewrite map_length, seq_length. Qed.

  (** Sample [t] of channel [m] once the signal has arrived. *)
  Lemma rows_sample t m : (t < ns)%nat -> (m < M)%nat -> d m <= INR t ->
    sample s t m = nth (Z.to_nat (rnd ((INR t - d m) * INR up))) signal 0 / r m.
  Proof.
    intros Ht Hm Hd. unfold sample, s, rows_of. cbv zeta.
    rewrite (nth_indep _ [] (received signal zeros (map r (seq 0 M)) (first_ind c start start fs up (map r (seq 0 M))) up 0))
      by (now rewrite map_length, seq_length).
    rewrite map_nth, seq_nth by assumption. cbn [plus].
    unfold received, first_ind. rewrite map_map.
    rewrite combine_map_seq.
    rewrite map_map. rewrite (nth_indep _ 0 ((fun m0 => let x := (- r m0 / c - start + start) * fs * INR up + INR t * INR up in
       if zeros && (if Rlt_dec x 0 then true else false) then 0
       else nth (Z.to_nat (rnd x mod Z.of_nat (length signal))) signal 0 / r m0) 0%nat)) by (now rewrite map_length, seq_length).
    rewrite (map_nth (fun m0 => let x := (- r m0 / c - start + start) * fs * INR up + INR t * INR up in
       if zeros && (if Rlt_dec x 0 then true else false) then 0
       else nth (Z.to_nat (rnd x mod Z.of_nat (length signal))) signal 0 / r m0)).
    rewrite seq_nth by assumption. cbn [plus]. cbv zeta.
    replace ((- r m / c - start + start) * fs * INR up + INR t * INR up) with ((INR t - d m) * INR up)
      by (unfold d, delay_of; field; lra).
    assert (U : 1 <= INR up) by (change 1 with (INR 1); apply le_INR; lia).
    pose proof (delay_pos m Hm) as Hd0.
    assert (X : 0 <= (INR t - d m) * INR up) by (apply Rmult_le_pos; lra).
    destruct (Rlt_dec _ 0); [lra|]. rewrite andb_false_r. do 2 f_equal. f_equal.
    apply Z.mod_small. unfold rnd. destruct (trunc_nonneg (1 / 2 + (INR t - d m) * INR up) ltac:(lra)) as [E P].
    rewrite E. split; [exact P|]. apply lt_IZR.
    pose proof (Int_part_bounds (1 / 2 + (INR t - d m) * INR up)).
    rewrite <- INR_IZR_INZ, Hlen, mult_INR.
    assert (INR t + 1 <= INR ns) by (rewrite <- S_INR; apply le_INR; lia). nra.
  Qed.

  Lemma rnd_nat k : rnd (INR k) = Z.of_nat k.
  Proof.
    unfold rnd. pose proof (pos_INR k). destruct (trunc_nonneg (1 / 2 + INR k) ltac:(lra)) as [E _]. rewrite E.
    apply Int_part_unique. rewrite <- INR_IZR_INZ. lra.
  Qed.

  Lemma Int_part_shift n x : Int_part (INR n + x) = (Z.of_nat n + Int_part x)%Z.
  Proof. apply Int_part_unique. rewrite plus_IZR, <- INR_IZR_INZ. pose proof (Int_part_bounds x). lra. Qed.

  (** Delays that are whole samples: the signal itself. *)
  Lemma focus_exact n m k : (m < M)%nat -> d m = INR k -> (n + k + 1 < ns)%nat ->
    lerp s m (INR n + d m) = nth (up * n) signal 0 / r m.
  Proof.
    intros Hm Hk Hn. unfold lerp. rewrite Hk, <- plus_INR.
    assert (E : Int_part (INR (n + k)) = Z.of_nat (n + k)).
    { apply Int_part_unique. rewrite <- INR_IZR_INZ. lra. }
    rewrite E, Nat2Z.id, <- INR_IZR_INZ.
    rewrite rows_sample by (try assumption; try lia; rewrite Hk, plus_INR; pose proof (pos_INR n); lra).
    rewrite Hk. replace ((INR (n + k) - INR k) * INR up) with (INR (up * n)) by (rewrite plus_INR, mult_INR; ring).
    rewrite rnd_nat, Nat2Z.id. ring.
  Qed.

  Lemma rnd_near x : 0 <= x -> (0 <= rnd x)%Z /\ Rabs (IZR (rnd x) - x) <= 1 / 2.
  Proof.
    intros Hx. unfold rnd. destruct (trunc_nonneg (1 / 2 + x) ltac:(lra)) as [E P]. rewrite E. split; [exact P|].
    pose proof (Int_part_bounds (1 / 2 + x)). apply Rabs_le. lra.
  Qed.

  (** Any delay: an error of at most (up + 1) / 2 up-sampled steps. *)
  Lemma focus_close n m Lip : (m < M)%nat -> (1 <= n)%nat -> (n + didx (d m) + 1 < ns)%nat ->
    (forall i j, (i < up * ns)%nat -> (j < up * ns)%nat ->
       Rabs (nth i signal 0 - nth j signal 0) <= Lip * Rabs (INR i - INR j)) ->
    Rabs (lerp s m (INR n + d m) * r m - nth (up * n) signal 0) <= Lip * ((INR up + 1) / 2).
  Proof.
    intros Hm Hn1 Hn HL. pose proof (delay_pos m Hm) as Hd. pose proof (Hr m Hm) as Hrm.
    unfold lerp. rewrite Int_part_shift. destruct (trunc_nonneg (d m) ltac:(lra)) as [E P].
    assert (Ei : Z.to_nat (Z.of_nat n + Int_part (d m)) = (n + didx (d m))%nat).
    { unfold didx. rewrite E, Z2Nat.inj_add by lia. now rewrite Nat2Z.id. }
    rewrite Ei, plus_IZR, <- INR_IZR_INZ.
    assert (Ed : IZR (Int_part (d m)) = INR (didx (d m))).
    { unfold didx. rewrite E, INR_IZR_INZ, Z2Nat.id by assumption. reflexivity. }
    pose proof (Int_part_bounds (d m)) as B. rewrite Ed in *.
    set (fr := d m - INR (didx (d m))).
    replace (INR n + d m - (INR n + INR (didx (d m)))) with fr by (unfold fr; ring).
    assert (Hf : 0 <= fr < 1) by (unfold fr; lra).
    assert (H1n : 1 <= INR n) by (change 1 with (INR 1); apply le_INR; lia).
    assert (U : 1 <= INR up) by (change 1 with (INR 1); apply le_INR; lia).
    rewrite !rows_sample; try assumption; try lia.
    2: rewrite !plus_INR; cbn [INR]; lra.
    2: rewrite !plus_INR; lra.
    replace ((INR (n + didx (d m)) - d m) * INR up) with ((INR n - fr) * INR up) by (unfold fr; rewrite plus_INR; ring).
    replace ((INR (n + didx (d m) + 1) - d m) * INR up) with ((INR n + 1 - fr) * INR up)
      by (unfold fr; rewrite !plus_INR; cbn [INR]; ring).
    set (x := (INR n - fr) * INR up). set (y := (INR n + 1 - fr) * INR up).
    assert (Hx : 0 <= x) by (apply Rmult_le_pos; lra). assert (Hy : 0 <= y) by (apply Rmult_le_pos; lra).
    destruct (rnd_near x Hx) as [Px Bx]. destruct (rnd_near y Hy) as [Py By].
    set (i := Z.to_nat (rnd x)). set (j := Z.to_nat (rnd y)).
    assert (Ix : INR i = IZR (rnd x)) by (unfold i; rewrite INR_IZR_INZ, Z2Nat.id by assumption; reflexivity).
    assert (Iy : INR j = IZR (rnd y)) by (unfold j; rewrite INR_IZR_INZ, Z2Nat.id by assumption; reflexivity).
    assert (Hns : INR n + INR (didx (d m)) + 2 <= INR ns).
    { replace 2 with (INR 2) by reflexivity. rewrite <- !plus_INR. apply le_INR. lia. }
    pose proof (pos_INR (didx (d m))) as Hdd.
    rewrite <- Ix in Bx. rewrite <- Iy in By.
    assert (Bx' : x - 1 / 2 <= INR i <= x + 1 / 2) by (unfold Rabs in Bx; destruct (Rcase_abs _) in Bx; lra).
    assert (By' : y - 1 / 2 <= INR j <= y + 1 / 2) by (unfold Rabs in By; destruct (Rcase_abs _) in By; lra).
    assert (Lk : forall k z, INR k <= z + 1 / 2 -> z <= (INR ns - 1) * INR up -> (k < up * ns)%nat).
    { intros k z Hk Hz. apply INR_lt. rewrite mult_INR. nra. }
    assert (Li : (i < up * ns)%nat) by (apply (Lk i x); [lra|unfold x; apply Rmult_le_compat_r; lra]).
    assert (Lj : (j < up * ns)%nat) by (apply (Lk j y); [lra|unfold y; apply Rmult_le_compat_r; lra]).
    assert (Ln : (up * n < up * ns)%nat) by (apply Nat.mul_lt_mono_pos_l; lia).
    assert (HLip : 0 <= Lip).
    { destruct (Nat.lt_ge_cases (up * n) 1).
      - lia.
      - pose proof (HL (up * n)%nat 0%nat Ln ltac:(lia)) as H0. pose proof (Rabs_pos (nth (up * n) signal 0 - nth 0 signal 0)).
        assert (1 <= INR (up * n)) by (change 1 with (INR 1); apply le_INR; lia).
        cbn [INR] in H0. rewrite Rminus_0_r, (Rabs_right (INR (up * n))) in H0 by lra. nra. }
    pose proof (HL i (up * n)%nat Li Ln) as Hi. pose proof (HL j (up * n)%nat Lj Ln) as Hj.
    rewrite mult_INR in Hi, Hj.
    assert (Di : Rabs (INR i - INR up * INR n) <= fr * INR up + 1 / 2) by (apply Rabs_le; unfold x in *; nra).
    assert (Dj : Rabs (INR j - INR up * INR n) <= (1 - fr) * INR up + 1 / 2) by (apply Rabs_le; unfold y in *; nra).
    set (a := nth i signal 0) in *. set (b := nth j signal 0) in *. set (v := nth (up * n) signal 0) in *.
    replace (((1 - fr) * (a / r m) + fr * (b / r m)) * r m - v) with ((1 - fr) * (a - v) + fr * (b - v)) by (field; lra).
    eapply Rle_trans; [apply Rabs_triang|]. rewrite !Rabs_mult, (Rabs_right (1 - fr)), (Rabs_right fr) by lra.
    assert (Ha : Rabs (a - v) <= Lip * (fr * INR up + 1 / 2))
      by (eapply Rle_trans; [exact Hi|]; apply Rmult_le_compat_l; assumption).
    assert (Hb : Rabs (b - v) <= Lip * ((1 - fr) * INR up + 1 / 2))
      by (eapply Rle_trans; [exact Hj|]; apply Rmult_le_compat_l; assumption).
    apply Rle_trans with ((1 - fr) * (Lip * (fr * INR up + 1 / 2)) + fr * (Lip * ((1 - fr) * INR up + 1 / 2))).
    - apply Rplus_le_compat; apply Rmult_le_compat_l; lra.
    - replace ((1 - fr) * (Lip * (fr * INR up + 1 / 2)) + fr * (Lip * ((1 - fr) * INR up + 1 / 2)))
        with (Lip * (2 * (fr * (1 - fr)) * INR up + 1 / 2)) by field.
      apply Rmult_le_compat_l; [assumption|].
      assert (Hq : fr * (1 - fr) <= 1 / 4) by (pose proof (Rle_0_sqr (fr - 1 / 2)) as Q; unfold Rsqr in Q; lra).
      pose proof (Rmult_le_compat_r (INR up) _ _ ltac:(lra) Hq). lra.
  Qed.
End Channel.
