(** A stream written by WriteH5 (/repo/acoular/tprocess.py:1844-1950) and read again by TimeSamples or MaskedTimeSamples
    (sources.py:421-450, 639-664).  Composed from Collect.v and Sources.v; numbers are stored as float64 (what the
    stream consists of) or, by default, as float32.  The HDF5 libraries keep what they are given; metadata are left out. *)
From Coq Require Import List Arith Lia ZArith Bool Reals Lra.
From Verif Require Import Stream Sources Collect Grids Rounding.
Import ListNotations.
Local Open Scope R_scope.

(** Conversion to IEEE binary32: 24 significant bits, ties to even; multiples of 2^-149 below 2^-126; [None] is an infinity. *)
Definition f32 (x : R) : option R :=
  if Rlt_dec (Rabs x) (pow2 (-126)) then Some (IZR (py_round (x / pow2 (-149))) * pow2 (-149))
  else let y := rne 24 x in if Rlt_dec (Rabs y) (pow2 128) then Some y else None.

(** WriteH5.precision, tprocess.py:1867-1869. *)
Inductive precision := Float32 | Float64.
Definition store (p : precision) (x : R) : option R := match p with Float32 => f32 x | Float64 => Some x end.

(** The file: the attribute sample_freq, the width and the rows of time_data (1878-1888). *)
Record h5 := H5 { h_rate : R; h_width : nat; h_rows : list (list (option R)) }.

(** WriteH5.save (1890-1896), for a source with sampling rate [rate] and [nch] channels. *)
Definition saved (p : precision) (rate : R) (nch : nat) (src : source (list R)) : h5 :=
  H5 rate nch (map (map (store p)) (fst (write_h5_save src))).
(** WriteH5.result (1908-1950), run to the end. *)
Definition passed (p : precision) (rate : R) (nch : nat) (flag : nat -> bool) (stotal : Z) (src : source (list R)) (num : nat) : h5 :=
  H5 rate nch (map (map (store p)) (file (write_h5_result flag stotal src num))).

(** What a TimeSamples object takes from the file (430-440) and delivers; [mul] is not used without calibration. *)
Definition read_freq (f : h5) : R := h_rate f.
Definition read_channels (f : h5) : nat := h_width f.
Definition read_samples (f : h5) : nat := length (h_rows f).
Definition read_result (f : h5) : source (list (option R)) := time_samples_result (fun a _ => a) (h_width f) (h_rows f) None.
(** The same for MaskedTimeSamples. *)
Definition read_masked (f : h5) (start stop : option Z) (invalid : list Z) : source (list (option R)) :=
  masked_time_samples_result (fun a _ => a) (h_width f) (h_rows f) start stop invalid None.

(* ------------------------------------------------------------------ *)

Lemma some_inj {A} (u v : A) : Some u = Some v -> u = v.
Proof. intros H. now injection H. Qed.
Lemma pow2_abs e : Rabs (pow2 e) = pow2 e.
Proof. apply Rabs_pos_eq. left. apply pow2_pos. Qed.
Lemma IZR_pow2 e : (0 <= e)%Z -> IZR (2 ^ e) = pow2 e.
Proof. intros H. symmetry. now apply pow2_Z. Qed.

Lemma py_round_abs x n : Rabs x <= IZR n -> (Z.abs (py_round x) <= n)%Z.
Proof.
  intros H. apply abs_le_inv in H. destruct H as [A B].
  apply Z.abs_le. split.
  - rewrite <- (py_round_int (- n)). apply py_round_mono. rewrite opp_IZR. exact A.
  - rewrite <- (py_round_int n). now apply py_round_mono.
Qed.

(** What can be stored: whole multiples of powers of two with at most 24 bits. *)
Definition storable (y : R) : Prop := exists z k, (Z.abs z <= 2 ^ 24)%Z /\ (-149 <= k)%Z /\ y = IZR z * pow2 k /\ Rabs y < pow2 128.

Lemma f32_exact y : storable y -> f32 y = Some y.
Proof.
  intros (z & k & Hz & Hk & E & Hy). unfold f32. destruct (Rlt_dec (Rabs y) (pow2 (-126))) as [L|L].
  - f_equal. rewrite E. replace (IZR z * pow2 k / pow2 (-149)) with (IZR (z * 2 ^ (k + 149))).
    + rewrite py_round_int, mult_IZR, IZR_pow2 by lia. rewrite Rmult_assoc, <- pow2_add. do 2 f_equal. lia.
    + rewrite mult_IZR, IZR_pow2 by lia. unfold Rdiv. rewrite Rmult_assoc. f_equal.
      rewrite <- pow2_neg, <- pow2_add. f_equal.
  - cbv zeta. rewrite E, (rne_exact 24 ltac:(lia) z k Hz). rewrite <- E. now destruct (Rlt_dec (Rabs y) (pow2 128)).
Qed.

Lemma f32_storable x y : f32 x = Some y -> storable y.
Proof.
  unfold f32. destruct (Rlt_dec (Rabs x) (pow2 (-126))) as [L|L].
  - intros H. apply some_inj in H; subst.
    assert (B : (Z.abs (py_round (x / pow2 (-149))) <= 2 ^ 23)%Z).
    { apply py_round_abs. rewrite IZR_pow2 by lia. unfold Rdiv. rewrite Rabs_mult, Rabs_inv, pow2_abs, <- pow2_neg.
      replace (pow2 23) with (pow2 (-126) * pow2 (- -149)) by (rewrite <- pow2_add; reflexivity).
      apply Rmult_le_compat_r; [left; apply pow2_pos|lra]. }
    exists (py_round (x / pow2 (-149))), (-149)%Z. split; [lia|]. split; [lia|]. split; [reflexivity|].
    rewrite Rabs_mult, pow2_abs, <- abs_IZR. apply IZR_le in B. rewrite IZR_pow2 in B by lia.
    apply Rle_lt_trans with (pow2 23 * pow2 (-149)); [apply Rmult_le_compat_r; [left; apply pow2_pos|exact B]|].
    rewrite <- pow2_add. unfold pow2. rewrite !powerRZ_Rpower by lra. apply Rpower_lt; [lra|apply IZR_lt; lia].
  - cbv zeta. destruct (Rlt_dec _ (pow2 128)) as [U|]; [|discriminate]. intros H. apply some_inj in H; subst.
    assert (N : x <> 0). { intros ->. apply L. rewrite Rabs_R0. apply pow2_pos. }
    pose proof (mag_spec x N) as M. rewrite (rne_binade 24 x (mag x) M) in U |- *.
    exists (py_round (x / pow2 (mag x - 24 + 1))), (mag x - 24 + 1)%Z. split; [|split; [|split; [reflexivity|exact U]]].
    + apply py_round_abs. rewrite IZR_pow2 by lia. unfold Rdiv. rewrite Rabs_mult, Rabs_inv, pow2_abs, <- pow2_neg.
      replace (pow2 24) with (pow2 (mag x + 1) * pow2 (- (mag x - 24 + 1))) by (rewrite <- pow2_add; f_equal; lia).
      apply Rmult_le_compat_r; [left; apply pow2_pos|lra].
    + assert (pow2 (-126) < pow2 (mag x + 1)) by lra. apply pow2_lt_inv in H. lia.
Qed.

Lemma f32_err x y : f32 x = Some y -> Rabs (y - x) <= pow2 (-24) * Rabs x + pow2 (-150).
Proof.
  pose proof (pow2_pos (-24)) as P1. pose proof (pow2_pos (-150)) as P2. pose proof (Rabs_pos x) as P3.
  unfold f32. destruct (Rlt_dec (Rabs x) (pow2 (-126))) as [L|L].
  - intros H. apply some_inj in H; subst. set (w := pow2 (-149)). pose proof (pow2_pos (-149)) as W. fold w in W.
    pose proof (py_round_bounds (x / w)) as [B1 B2].
    assert (E : x = x / w * w) by (field; apply Rgt_not_eq; exact W). rewrite E at 2.
    rewrite <- Rmult_minus_distr_r, Rabs_mult, (Rabs_pos_eq w) by lra.
    assert (Rabs (IZR (py_round (x / w)) - x / w) <= 1 / 2) by (apply Rabs_le; lra).
    assert (w = 2 * pow2 (-150)) by (unfold w; rewrite <- pow2_S; reflexivity).
    pose proof (Rabs_pos (IZR (py_round (x / w)) - x / w)). nra.
  - cbv zeta. destruct (Rlt_dec _ (pow2 128)); [|discriminate]. intros H. apply some_inj in H; subst.
    assert (R : Rabs (rne 24 x - x) <= pow2 (-24) * Rabs x) by exact (rne_err 24 x). lra.
Qed.

Lemma f32_finite x : Rabs x < pow2 127 -> exists y, f32 x = Some y.
Proof.
  intros H. unfold f32. destruct (Rlt_dec (Rabs x) (pow2 (-126))) as [L|L]; [eexists; reflexivity|].
  cbv zeta. destruct (Rlt_dec (Rabs (rne 24 x)) (pow2 128)) as [U|U]; [eexists; reflexivity|]. exfalso. apply U.
  assert (R : Rabs (rne 24 x - x) <= pow2 (-24) * Rabs x) by exact (rne_err 24 x). assert (pow2 (-24) <= 1 / 2).
  { replace (1 / 2) with (pow2 (-1)); [apply pow2_le; lia|]. change (-1)%Z with (- (1))%Z. rewrite pow2_neg, (pow2_Z 1) by lia.
    replace (2 ^ 1)%Z with 2%Z by reflexivity. lra. }
  assert (E : pow2 128 = 2 * pow2 127) by (rewrite <- pow2_S; reflexivity). pose proof (Rabs_pos x).
  assert (Rabs (rne 24 x) <= Rabs (rne 24 x - x) + Rabs x) by (replace (rne 24 x) with (rne 24 x - x + x) at 1 by ring; apply Rabs_triang).
  nra.
Qed.

Lemma py_round_nearest u n : Rabs (IZR (py_round u) - u) <= Rabs (IZR n - u).
Proof.
  pose proof (py_round_bounds u) as [B1 B2]. set (m := py_round u) in *.
  destruct (Z.lt_trichotomy n m) as [L | [-> | L]]; [|lra|].
  - assert (N : (n <= m - 1)%Z) by lia. apply IZR_le in N. rewrite minus_IZR in N.
    rewrite (Rabs_left1 (IZR n - u)) by lra. apply Rabs_le. lra.
  - assert (N : (m + 1 <= n)%Z) by lia. apply IZR_le in N. rewrite plus_IZR in N.
    rewrite (Rabs_pos_eq (IZR n - u)) by lra. apply Rabs_le. lra.
Qed.

Lemma multiple_nearest x e n : Rabs (IZR (py_round (x / pow2 e)) * pow2 e - x) <= Rabs (IZR n * pow2 e - x).
Proof.
  set (w := pow2 e). assert (W : 0 < w) by apply pow2_pos.
  assert (E : forall t, t * w - x = (t - x / w) * w) by (intros t; field; apply Rgt_not_eq; exact W).
  rewrite !E, !Rabs_mult. apply Rmult_le_compat_r; [apply Rabs_pos|]. apply py_round_nearest.
Qed.

(** No number that can be stored is nearer than the one that is. *)
Lemma f32_nearest x y y' : f32 x = Some y -> storable y' -> Rabs (y - x) <= Rabs (y' - x).
Proof.
  intros H (z & k & Hz & Hk & -> & Hy). revert H. unfold f32. destruct (Rlt_dec (Rabs x) (pow2 (-126))) as [L|L].
  - intros H. apply some_inj in H; subst. replace (IZR z * pow2 k) with (IZR (z * 2 ^ (k + 149)) * pow2 (-149)); [apply multiple_nearest|].
    rewrite mult_IZR, IZR_pow2, Rmult_assoc, <- pow2_add by lia. do 2 f_equal. lia.
  - cbv zeta. destruct (Rlt_dec _ (pow2 128)) as [U|]; [|discriminate]. intros H. apply some_inj in H; subst.
    assert (N : x <> 0). { intros ->. apply L. rewrite Rabs_R0. apply pow2_pos. }
    pose proof (mag_spec x N) as M. rewrite (rne_binade 24 x (mag x) M) in U |- *.
    destruct (Z_le_gt_dec (mag x - 24 + 1) k) as [G|G].
    + replace (IZR z * pow2 k) with (IZR (z * 2 ^ (k - (mag x - 24 + 1))) * pow2 (mag x - 24 + 1)); [apply multiple_nearest|].
      rewrite mult_IZR, IZR_pow2, Rmult_assoc, <- pow2_add by lia. do 2 f_equal. lia.
    + (* y' is not larger than the power of two below |x|, which is a multiple of the step *)
      assert (B : Rabs (IZR z * pow2 k) <= pow2 (mag x)).
      { rewrite Rabs_mult, pow2_abs, <- abs_IZR. apply IZR_le in Hz. rewrite IZR_pow2 in Hz by lia.
        apply Rle_trans with (pow2 24 * pow2 k); [apply Rmult_le_compat_r; [left; apply pow2_pos|exact Hz]|].
        rewrite <- pow2_add. apply pow2_le. lia. }
      assert (S : exists n, (n = 2 ^ 23 \/ n = - 2 ^ 23)%Z /\ Rabs (IZR n * pow2 (mag x - 24 + 1) - x) <= Rabs (IZR z * pow2 k - x)).
      { assert (Q : IZR (2 ^ 23) * pow2 (mag x - 24 + 1) = pow2 (mag x)).
        { rewrite IZR_pow2 by lia. rewrite <- pow2_add. f_equal. lia. }
        apply abs_le_inv in B. destruct M as [M1 M2]. unfold Rabs in M1. destruct (Rcase_abs x) as [X|X].
        - exists (- 2 ^ 23)%Z. split; [now right|]. rewrite opp_IZR, Ropp_mult_distr_l_reverse, Q.
          rewrite (Rabs_pos_eq (- pow2 (mag x) - x)) by lra. rewrite (Rabs_pos_eq (IZR z * pow2 k - x)) by lra. lra.
        - exists (2 ^ 23)%Z. split; [now left|]. rewrite Q.
          rewrite (Rabs_left1 (pow2 (mag x) - x)) by lra. rewrite (Rabs_left1 (IZR z * pow2 k - x)) by lra. lra. }
      destruct S as (n & _ & S). eapply Rle_trans; [apply (multiple_nearest x (mag x - 24 + 1) n)|exact S].
Qed.

Lemma f32_0 : f32 0 = Some 0.
Proof.
  apply f32_exact. exists 0%Z, 0%Z. split; [lia|]. split; [lia|]. split; [ring|]. rewrite Rabs_R0. apply pow2_pos.
Qed.

(** below 2^-126 the result is a multiple of 2^-149 between -2^-126 and 2^-126 *)
Lemma small_bounds x : Rabs x <= pow2 (-126) -> - pow2 (-126) <= IZR (py_round (x / pow2 (-149))) * pow2 (-149) <= pow2 (-126).
Proof.
  intros L. assert (B : (Z.abs (py_round (x / pow2 (-149))) <= 2 ^ 23)%Z).
  { apply py_round_abs. rewrite IZR_pow2 by lia. unfold Rdiv. rewrite Rabs_mult, Rabs_inv, pow2_abs, <- pow2_neg.
    replace (pow2 23) with (pow2 (-126) * pow2 (- -149)) by (rewrite <- pow2_add; reflexivity).
    apply Rmult_le_compat_r; [left; apply pow2_pos|lra]. }
  apply Z.abs_le in B. destruct B as [B1 B2]. apply IZR_le in B1, B2. rewrite opp_IZR in B1. rewrite IZR_pow2 in B1, B2 by lia.
  replace (pow2 (-126)) with (pow2 23 * pow2 (-149)) by (rewrite <- pow2_add; reflexivity).
  pose proof (pow2_pos (-149)). split; nra.
Qed.

Lemma f32_mono x y a b : x <= y -> f32 x = Some a -> f32 y = Some b -> a <= b.
Proof.
  intros H. unfold f32. pose proof (pow2_pos (-126)) as Pm. pose proof (pow2_pos (-149)) as W.
  destruct (Rlt_dec (Rabs x) (pow2 (-126))) as [L|L], (Rlt_dec (Rabs y) (pow2 (-126))) as [M|M]; cbv zeta.
  - intros A B. apply some_inj in A; subst. apply some_inj in B; subst. apply Rmult_le_compat_r; [lra|]. apply IZR_le, py_round_mono.
    apply Rmult_le_compat_r; [left; now apply Rinv_0_lt_compat|exact H].
  - intros A. apply some_inj in A; subst. destruct (Rlt_dec _ (pow2 128)); [|discriminate]. intros B. apply some_inj in B; subst.
    apply Rle_trans with (pow2 (-126)); [apply small_bounds; lra|].
    assert (P : pow2 (-126) <= y). { apply Rnot_lt_le in M. apply Rabs_def2 in L. unfold Rabs in M. destruct (Rcase_abs y); lra. }
    replace (pow2 (-126)) with (rne 24 (IZR 1 * pow2 (-126))) by (rewrite (rne_exact 24 ltac:(lia)) by lia; ring).
    apply rne_mono; [lia|lra].
  - destruct (Rlt_dec _ (pow2 128)); [|discriminate]. intros A B. apply some_inj in A; subst. apply some_inj in B; subst.
    apply Rle_trans with (- pow2 (-126)); [|apply small_bounds; lra].
    assert (P : x <= - pow2 (-126)). { apply Rnot_lt_le in L. apply Rabs_def2 in M. unfold Rabs in L. destruct (Rcase_abs x); lra. }
    replace (- pow2 (-126)) with (rne 24 (IZR (-1) * pow2 (-126))) by (rewrite (rne_exact 24 ltac:(lia)) by lia; ring).
    apply rne_mono; [lia|lra].
  - destruct (Rlt_dec (Rabs (rne 24 x)) (pow2 128)); [|discriminate]. destruct (Rlt_dec (Rabs (rne 24 y)) (pow2 128)); [|discriminate].
    intros A B. apply some_inj in A; subst. apply some_inj in B; subst. apply rne_mono; [lia|exact H].
Qed.

(* ------------------------------------------------------------------ *)
(** What the writer leaves and the reader delivers. *)
Lemma saved_rows p rate nch src s : wf_source src s -> h_rows (saved p rate nch src) = map (map (store p)) s.
Proof. intros W. unfold saved. cbn [h_rows]. now rewrite (write_h5_save_spec src s W). Qed.

Lemma passed_rows p rate nch flag stotal src s num : wf_source src s -> (0 < num)%nat -> (-1 <= stotal)%Z ->
  (forall j, flag j = true) -> h_rows (passed p rate nch flag stotal src num) = map (map (store p)) (limit stotal s).
Proof. intros W Hn Hs Hf. unfold passed. cbn [h_rows]. now rewrite (proj1 (write_h5_complete flag stotal src s num W Hn Hs Hf)). Qed.

Lemma passed_prefix p rate nch flag stotal src s num : wf_source src s -> (0 < num)%nat -> (-1 <= stotal)%Z ->
  exists k, h_rows (passed p rate nch flag stotal src num) = map (map (store p)) (firstn k s).
Proof.
  intros W Hn Hs. destruct (write_h5_spec flag stotal src s num W Hn Hs) as (K & _ & _ & _ & F & _).
  unfold passed. cbn [h_rows]. rewrite F. unfold limit. destruct (stotal =? -1)%Z; [now exists (K * num)%nat|].
  exists (Nat.min (Z.to_nat stotal) (K * num)). now rewrite firstn_firstn.
Qed.

Lemma read_delivers f num : (0 < num)%nat -> h_rows f <> [] -> delivers num (h_rows f) (read_result f num).
Proof. intros Hn Hr. now apply time_samples_delivers. Qed.
Lemma read_empty f num : h_rows f = [] -> read_result f num = raise OSError.
Proof. intros E. unfold read_result. rewrite E. reflexivity. Qed.

(** The numbers of a stream that was read back (only used where they are finite). *)
Definition finite (o : option R) : R := match o with Some x => x | None => 0 end.
Lemma store_again p x y : store p x = Some y -> store p y = Some y.
Proof. destruct p; cbn [store]; [intros H; apply f32_exact; exact (f32_storable x y H)|intros H; now apply some_inj in H; subst]. Qed.
