(** C107, C108, C109: counts, grid indices and spectral lines in floating-point arithmetic. *)
From Coq Require Import List Arith Lia ZArith Bool Reals Lra.
From Verif Require Import Stream Wav Grids Result Rounding.
Import ListNotations.
Local Open Scope R_scope.

(** The assumptions on the arithmetic hold of double precision (and of every precision of at
    least 10 bits): rounding to nearest, ties to even. *)
Theorem C107_binary64 : rounding (rne 53) (pow2 (Z.opp 53)).
Proof. apply rne_rounding. lia. Qed.
Print Assumptions C107_binary64.

(** C107.  Block counts computed with a floating-point division are those of integer arithmetic: the complete groups of an
    average, the complete blocks and the lines of an FFT, the parts of a kernel, the buffers of the
    time beamformers and of the inverse FFT, the channels of a cross spectral matrix. *)
Theorem C107_counts : forall rnd u, rounding rnd u -> forall a b, (0 < b)%nat -> (INR a + INR b) * u <= 1 / 8 ->
  average_rows rnd a b = Z.of_nat (a / b)
  /\ rfft_blocks rnd a b = Z.of_nat (a / b)
  /\ lines_of rnd a = Z.of_nat (a / 2 + 1)
  /\ (exists k, kernel_parts rnd a b = Z.of_nat k /\ a <= k * b < a + b)%nat
  /\ (exists k, window_buffer rnd b a = Z.of_nat (k * b) /\ b + a <= k * b < b + a + b)%nat
  /\ (exists k, irfft_buffer rnd a b = Z.of_nat (k * b) /\ a + b <= k * b < a + b + b)%nat.
Proof.
  intros rnd u RD a b Hb Hu. pose proof (unit_pos rnd u RD) as U. pose proof (pos_INR a). pose proof (pos_INR b).
  assert (Ha : INR a * u <= 1 / 8) by (apply Rle_trans with (2 := Hu); apply Rmult_le_compat_r; lra).
  assert (CEIL : forall c, (c <= (c + b - 1) / b * b < c + b)%nat).
  { intros c. pose proof (Nat.div_mod (c + b - 1) b ltac:(lia)). pose proof (Nat.mod_upper_bound (c + b - 1) b ltac:(lia)). nia. }
  destruct (floor_quot rnd u RD a b Hb ltac:(lra)) as [F F0].
  split; [unfold average_rows; rewrite int_floor_trunc by exact F0; exact F|]. split; [exact F|]. split; [now apply (lines_exact rnd u RD)|].
  split; [|split].
  - exists ((a + b - 1) / b)%nat. split; [|apply CEIL]. apply (ceil_quot rnd u RD); [exact Hb|lra].
  - exists ((b + a + b - 1) / b)%nat. split; [|apply CEIL]. unfold window_buffer.
    rewrite (ceil_quot rnd u RD) by (auto; rewrite plus_INR; lra). now rewrite Nat2Z.inj_mul.
  - exists ((a + b - 1) / b + 1)%nat. split; [|pose proof (CEIL a); lia]. unfold irfft_buffer.
    rewrite (ceil_quot rnd u RD) by (auto; lra). rewrite Nat2Z.inj_mul, Nat2Z.inj_add. reflexivity.
Qed.
Print Assumptions C107_counts.

Theorem C107_channels : forall rnd u, rounding rnd u -> forall n, INR (n * n) * u <= 1 / 8 ->
  upper_channels rnd n = Z.of_nat (n * (n + 1) / 2).
Proof. intros rnd u RD n H. now apply (channels_exact rnd u RD). Qed.
Print Assumptions C107_channels.

(** C107 (Trajectory.traj with two times and a step).  When the interval is n + 1 steps less a remainder that rounding cannot
    bridge, the number of positions is the one of exact arithmetic; when it is a whole number n of
    steps the number is n or n + 1. *)
Theorem C107_arange_partial : forall rnd u, rounding rnd u -> forall start stop delta, 0 < delta -> start <= stop ->
  (forall k, IZR k - 1 < (stop - start) / delta * (1 - 3 * u) -> (stop - start) / delta * (1 + 3 * u) <= IZR k ->
     arange_len rnd start stop delta = k)
  /\ (forall n, stop - start = INR n * delta -> INR (n + 1) * u <= 1 / 8 ->
     arange_len rnd start stop delta = Z.of_nat n \/ arange_len rnd start stop delta = Z.of_nat (n + 1)).
Proof.
  intros rnd u RD start stop delta Hd Hs. split.
  - intros k A B. now apply (arange_clear rnd u RD).
  - intros n A B. now apply (arange_multiple rnd u RD).
Qed.
Print Assumptions C107_arange_partial.

(** Evaluation of a rounding with integers: a / b units of 2^f. *)
Lemma rne_frac p a b z f : (10 <= p)%Z -> (0 < b)%Z -> (2 ^ (p - 1) * b <= a)%Z -> (a < 2 ^ p * b)%Z -> (2 * Z.abs (a - z * b) < b)%Z ->
  rne p (IZR a / IZR b * pow2 f) = IZR z * pow2 f.
Proof.
  intros Hp Hb H1 H2 H3. pose proof (pow2_pos f) as F. assert (Pb : 0 < IZR b) by now apply IZR_lt.
  assert (Q1 : IZR (2 ^ (p - 1)) <= IZR a / IZR b).
  { apply Rmult_le_reg_r with (IZR b); [lra|]. replace (IZR a / IZR b * IZR b) with (IZR a) by (field; lra). rewrite <- mult_IZR. now apply IZR_le. }
  assert (Q2 : IZR a / IZR b < IZR (2 ^ p)).
  { apply Rmult_lt_reg_r with (IZR b); [lra|]. replace (IZR a / IZR b * IZR b) with (IZR a) by (field; lra). rewrite <- mult_IZR. now apply IZR_lt. }
  assert (Q0 : 0 <= IZR a / IZR b). { apply Rle_trans with (2 := Q1). apply IZR_le. apply Z.pow_nonneg. lia. }
  rewrite (rne_binade p _ (f + p - 1)).
  - replace (f + p - 1 - p + 1)%Z with f by lia. f_equal. f_equal. replace (IZR a / IZR b * pow2 f / pow2 f) with (IZR a / IZR b) by (field; lra).
    apply py_round_near. replace (IZR a / IZR b - IZR z) with (IZR (a - z * b) / IZR b) by (rewrite minus_IZR, mult_IZR; field; lra).
    unfold Rdiv at 1. rewrite Rabs_mult, (Rabs_pos_eq (/ IZR b)) by (left; now apply Rinv_0_lt_compat).
    apply Rmult_lt_reg_r with (IZR b); [lra|]. rewrite Rmult_assoc, Rinv_l, Rmult_1_r by lra. rewrite <- abs_IZR.
    apply IZR_lt in H3. rewrite mult_IZR in H3. lra.
  - rewrite Rabs_pos_eq by (apply Rmult_le_pos; lra). replace (f + p - 1)%Z with (p - 1 + f)%Z by lia. replace (p - 1 + f + 1)%Z with (p + f)%Z by lia.
    rewrite !pow2_add, (pow2_Z (p - 1)), (pow2_Z p) by lia. split; [apply Rmult_le_compat_r; lra|apply Rmult_lt_compat_r; lra].
Qed.
Lemma rne_tie p z f : (10 <= p)%Z -> (2 ^ (p - 1) <= z)%Z -> (z < 2 ^ p)%Z -> Z.even z = false ->
  rne p (IZR (2 * z + 1) * pow2 (f - 1)) = IZR (z + 1) * pow2 f.
Proof.
  intros Hp H1 H2 H3. pose proof (pow2_pos f) as F. apply IZR_le in H1. assert (H2' : IZR z + 1 <= IZR (2 ^ p)) by (rewrite <- plus_IZR; apply IZR_le; lia).
  assert (P0 : 0 <= IZR (2 ^ (p - 1))) by (apply IZR_le, Z.pow_nonneg; lia).
  assert (E : IZR (2 * z + 1) * pow2 (f - 1) = (IZR z + 1 / 2) * pow2 f).
  { replace f with (f - 1 + 1)%Z at 2 by lia. rewrite pow2_S, plus_IZR, mult_IZR. lra. }
  rewrite E, (rne_binade p _ (f + p - 1)).
  - replace (f + p - 1 - p + 1)%Z with f by lia. f_equal. f_equal. replace ((IZR z + 1 / 2) * pow2 f / pow2 f) with (IZR z + 1 / 2) by (field; lra).
    rewrite py_round_tie, H3. reflexivity.
  - rewrite Rabs_pos_eq by (apply Rmult_le_pos; lra). replace (f + p - 1)%Z with (p - 1 + f)%Z by lia. replace (p - 1 + f + 1)%Z with (p + f)%Z by lia.
    rewrite !pow2_add, (pow2_Z (p - 1)), (pow2_Z p) by lia. split; [apply Rmult_le_compat_r; lra|apply Rmult_lt_compat_r; lra].
Qed.

Definition binary64 (x : R) : Prop := exists z f, x = IZR z * pow2 f /\ (Z.abs z <= 2 ^ 53)%Z.

(** 0.1 in double precision *)
Definition tenth : R := IZR 7205759403792794 * pow2 (Z.opp 56).
Lemma p56 : pow2 (Z.opp 56) = / IZR 72057594037927936.
Proof. rewrite pow2_neg, pow2_Z by lia. reflexivity. Qed.

(** "The number of positions is the number of steps in the interval, the end excluded": false; with the
    doubles 0.1, 0.4 and 0.1 the interval has exactly three steps but there are four positions. *)
Theorem C107_arange_refuted : exists start stop delta, binary64 start /\ binary64 stop /\ binary64 delta /\ 0 < delta
  /\ stop - start = 3 * delta /\ arange_len (rne 53) start stop delta = 4%Z.
Proof.
  exists tenth, (IZR 7205759403792794 * pow2 (Z.opp 54)), tenth.
  assert (E4 : pow2 (Z.opp 54) = 4 * pow2 (Z.opp 56)).
  { change (Z.opp 54) with (Z.opp 56 + 1 + 1)%Z. rewrite !pow2_S. ring. }
  pose proof (pow2_pos (Z.opp 56)) as P.
  assert (D0 : 0 < tenth) by (unfold tenth; apply Rmult_lt_0_compat; [lra|exact P]).
  assert (ES : IZR 7205759403792794 * pow2 (Z.opp 54) - tenth = 3 * tenth) by (unfold tenth; rewrite E4; ring).
  split; [exists 7205759403792794%Z, (Z.opp 56); split; [reflexivity|vm_compute; discriminate]|].
  split; [exists 7205759403792794%Z, (Z.opp 54); split; [reflexivity|vm_compute; discriminate]|].
  split; [exists 7205759403792794%Z, (Z.opp 56); split; [reflexivity|vm_compute; discriminate]|].
  split; [exact D0|]. split; [exact ES|].
  unfold arange_len. rewrite ES.
  assert (R1 : rne 53 (3 * tenth) = IZR 5404319552844596 * pow2 (Z.opp 54)).
  { replace (3 * tenth) with (IZR (2 * 5404319552844595 + 1) * pow2 (Z.opp 54 - 1)).
    - apply rne_tie; [lia|vm_compute; discriminate|vm_compute; reflexivity|reflexivity].
    - change (Z.opp 54 - 1)%Z with (Z.opp 56 + 1)%Z. rewrite pow2_S. unfold tenth.
      change (2 * 5404319552844595 + 1)%Z with 10808639105689191%Z. lra. }
  rewrite R1.
  assert (R2 : rne 53 (IZR 5404319552844596 * pow2 (Z.opp 54) / tenth) = IZR 6755399441055745 * pow2 (Z.opp 51)).
  { replace (IZR 5404319552844596 * pow2 (Z.opp 54) / tenth) with (IZR (21617278211378384 * 2 ^ 51) / IZR 7205759403792794 * pow2 (Z.opp 51)).
    - apply rne_frac; [lia|reflexivity|vm_compute; discriminate|vm_compute; reflexivity|vm_compute; reflexivity].
    - rewrite mult_IZR, pow2_neg, (pow2_Z 51) by lia. unfold tenth. rewrite E4.
      assert (0 < IZR (2 ^ 51)) by (apply IZR_lt; reflexivity). field. split; lra. }
  rewrite R2. rewrite (int_ceil_unique _ 4); [reflexivity|].
  rewrite pow2_neg, pow2_Z by lia. change (2 ^ 51)%Z with 2251799813685248%Z. lra.
Qed.
Print Assumptions C107_arange_refuted.

(** C108.  RectGrid in floating-point arithmetic: when the extent is within a quarter increment of a multiple of
    the increment, the number of points is that multiple plus one - the number of exact arithmetic. *)
Theorem C108_steps_partial : forall rnd u, rounding rnd u -> forall lo hi inc n, 0 < inc -> lo <= hi ->
  Rabs ((hi - lo) / inc - INR n) <= 1 / 4 -> INR (n + 2) * u <= 1 / 32 ->
  fsteps rnd lo hi inc = Z.of_nat (n + 1) /\ steps lo hi inc = Z.of_nat (n + 1).
Proof.
  intros rnd u RD lo hi inc n Hi Hl Hx Hu. split; [now apply (fsteps_near rnd u RD)|].
  unfold steps. rewrite (Rabs_pos_eq inc) by lra. destruct (Req_EM_T inc 0); [lra|]. rewrite Rabs_pos_eq by lra.
  apply py_round_near. rewrite <- INR_IZR_INZ, plus_INR. cbn [INR]. replace ((hi - lo + inc) / inc - (INR n + 1)) with ((hi - lo) / inc - INR n) by (field; lra). lra.
Qed.
Print Assumptions C108_steps_partial.

(** C108.  The points are where exact arithmetic has them, up to a few roundings of the limits. *)
Theorem C108_position : forall rnd u, rounding rnd u -> forall lo hi n k, (2 <= n)%Z -> (0 <= k <= n - 1)%Z -> lo <= hi ->
  Rabs (fpos rnd lo hi n k - axis_pos lo hi n k) <= 7 * u * (Rabs lo + Rabs hi).
Proof. intros rnd u RD lo hi n k. apply (fpos_near rnd u RD). Qed.
Print Assumptions C108_position.

(** C108.  index() of a coordinate in the range is the number of the point when the coordinate is within a quarter
    increment of it. *)
Theorem C108_index_partial : forall rnd u, rounding rnd u -> forall lo hi inc x i, 0 < inc -> lo <= x <= hi ->
  Rabs (x - (lo + INR i * inc)) <= inc / 4 -> INR (i + 2) * u <= 1 / 32 -> findex rnd lo hi inc x = inl (Z.of_nat i).
Proof.
  intros rnd u RD lo hi inc x i Hi Hx Hd Hu. apply (findex_near rnd u RD); auto. apply abs_le_inv in Hd.
  assert (E : (x - lo) / inc - INR i = (x - (lo + INR i * inc)) * / inc) by (field; lra). rewrite E.
  assert (I : 0 < / inc) by now apply Rinv_0_lt_compat. rewrite Rabs_mult, (Rabs_pos_eq (/ inc)) by lra.
  apply Rle_trans with (inc / 4 * / inc); [apply Rmult_le_compat_r; [lra|apply Rabs_le; lra]|]. right. field. lra.
Qed.
Print Assumptions C108_index_partial.

(** C108.  index() of a grid's own point is its number, except that the last point may be out of range. *)
Theorem C108_own_partial : forall rnd u, rounding rnd u -> forall lo hi inc N k, 0 < inc -> lo <= hi -> rnd lo = lo -> (1 <= N)%nat ->
  Rabs ((hi - lo) / inc - INR N) <= 1 / 8 -> INR (N + 2) * u <= 1 / 32 -> 56 * u * (Rabs lo + Rabs hi) <= inc -> (k <= N)%nat ->
  let x := fpos rnd lo hi (fsteps rnd lo hi inc) (Z.of_nat k) in
  findex rnd lo hi inc x = inl (Z.of_nat k)
  \/ (k = N /\ hi < x /\ findex rnd lo hi inc x = inr ValueError).
Proof.
  intros rnd u RD lo hi inc N k Hi Hl El HN Hx Hu Hs Hk. cbv zeta. pose proof (unit_pos rnd u RD) as U.
  assert (Hx4 : Rabs ((hi - lo) / inc - INR N) <= 1 / 4) by lra.
  rewrite (fsteps_near rnd u RD lo hi inc N Hi Hl Hx4 Hu). set (x := fpos rnd lo hi (Z.of_nat (N + 1)) (Z.of_nat k)).
  pose proof (fpos_near rnd u RD lo hi (Z.of_nat (N + 1)) (Z.of_nat k) ltac:(lia) ltac:(lia) Hl) as P. fold x in P. apply abs_le_inv in P, Hx.
  pose proof (fpos_lower rnd u RD lo hi (Z.of_nat (N + 1)) (Z.of_nat k) ltac:(lia) ltac:(lia) Hl El) as Lx. fold x in Lx.
  unfold axis_pos in P. destruct (Z.eqb_spec (Z.of_nat (N + 1)) 1); [lia|]. replace (Z.of_nat (N + 1) - 1)%Z with (Z.of_nat N) in P by lia. rewrite <- !INR_IZR_INZ in P.
  assert (PN : 1 <= INR N) by (change 1 with (INR 1); now apply le_INR). assert (Kk : 0 <= INR k <= INR N) by (split; [apply pos_INR|now apply le_INR]).
  set (q := (hi - lo) / inc) in *. assert (EQ : hi - lo = q * inc) by (unfold q; field; lra). rewrite EQ in P.
  set (r := INR k / INR N). assert (Er : INR k * (q * inc / INR N) = q * r * inc) by (unfold r; field; lra). rewrite Er in P.
  assert (IN : 0 < / INR N) by (apply Rinv_0_lt_compat; lra). assert (R0 : 0 <= r) by (unfold r, Rdiv; apply Rmult_le_pos; lra).
  assert (RN : r * INR N = INR k) by (unfold r; field; lra).
  assert (R1 : r <= 1). { apply Rmult_le_reg_r with (INR N); [lra|]. lra. }
  assert (QR : INR k - 1 / 8 <= q * r <= INR k + 1 / 8).
  { assert (q * r - INR k = (q - INR N) * r) by (rewrite <- RN; ring). assert (- (1 / 8) * r <= (q - INR N) * r) by (apply Rmult_le_compat_r; lra).
    assert ((q - INR N) * r <= 1 / 8 * r) by (apply Rmult_le_compat_r; lra). lra. }
  assert (QI : (INR k - 1 / 8) * inc <= q * r * inc <= (INR k + 1 / 8) * inc) by (split; apply Rmult_le_compat_r; lra).
  destruct (Rle_dec x hi) as [H|H].
  - left. apply (C108_index_partial rnd u RD); auto.
    + apply Rabs_le. lra.
    + apply Rle_trans with (2 := Hu). apply Rmult_le_compat_r; [lra|]. apply le_INR. lia.
  - right. assert (k = N).
    { destruct (Nat.eq_dec k N); [assumption|]. exfalso. apply H. assert (INR (k + 1) <= INR N) by (apply le_INR; lia). rewrite plus_INR in H0. cbn [INR] in H0.
      assert ((INR k + 1 - 1 / 8) * inc <= q * inc) by (apply Rmult_le_compat_r; lra). lra. }
    split; [assumption|]. split; [lra|]. unfold findex. destruct (Rlt_dec x lo); [lra|]. destruct (Rlt_dec hi x); [reflexivity|lra].
Qed.
Print Assumptions C108_own_partial.

(** "index() finds every point of the grid": false; RectGrid(x_min=-1, x_max=0.1, increment=0.1) in double precision has
    12 points, the last of which lies above x_max, and index() of it raises ValueError. *)
Theorem C108_last_refuted : exists lo hi inc, binary64 lo /\ binary64 hi /\ binary64 inc /\ 0 < inc /\ lo < hi
  /\ fsteps (rne 53) lo hi inc = 12%Z
  /\ hi < fpos (rne 53) lo hi 12 11
  /\ findex (rne 53) lo hi inc (fpos (rne 53) lo hi 12 11) = inr ValueError.
Proof.
  exists (-1), tenth, tenth. pose proof (pow2_pos (Z.opp 56)) as P.
  assert (D0 : 0 < tenth) by (unfold tenth; apply Rmult_lt_0_compat; [lra|exact P]).
  assert (BT : binary64 tenth) by (exists 7205759403792794%Z, (Z.opp 56); split; [reflexivity|vm_compute; discriminate]).
  split; [exists (Z.opp 1), 0%Z; split; [cbn; lra|vm_compute; discriminate]|]. split; [exact BT|]. split; [exact BT|]. split; [exact D0|]. split; [lra|].
  assert (E16 : pow2 (Z.opp 52) = 16 * pow2 (Z.opp 56)).
  { change (Z.opp 52) with (Z.opp 56 + 1 + 1 + 1 + 1)%Z. rewrite !pow2_S. ring. }
  assert (T : tenth = IZR 7205759403792794 * / IZR 72057594037927936) by (unfold tenth; rewrite p56; reflexivity).
  assert (X : fpos (rne 53) (-1) tenth 12 11 = IZR 450359962737050 * pow2 (Z.opp 52)).
  { unfold fpos. change (12 =? 1)%Z with false. cbv iota. change (12 - 1)%Z with 11%Z.
    assert (R1 : rne 53 (tenth - -1) = IZR 4953959590107546 * pow2 (Z.opp 52)).
    { replace (tenth - -1) with (IZR 79263353441720730 / IZR 16 * pow2 (Z.opp 52)) by (rewrite E16, T, p56; lra).
      apply rne_frac; [lia|reflexivity|vm_compute; discriminate|vm_compute; reflexivity|vm_compute; reflexivity]. }
    rewrite R1.
    assert (R2 : rne 53 (IZR 4953959590107546 * pow2 (Z.opp 52) / IZR 11) = tenth).
    { replace (IZR 4953959590107546 * pow2 (Z.opp 52) / IZR 11) with (IZR 79263353441720736 / IZR 11 * pow2 (Z.opp 56)) by (rewrite E16; lra).
      apply rne_frac; [lia|reflexivity|vm_compute; discriminate|vm_compute; reflexivity|vm_compute; reflexivity]. }
    rewrite R2.
    assert (R3 : rne 53 (IZR 11 * tenth) = IZR 4953959590107546 * pow2 (Z.opp 52)).
    { replace (IZR 11 * tenth) with (IZR 79263353441720734 / IZR 16 * pow2 (Z.opp 52)) by (rewrite E16; unfold tenth; lra).
      apply rne_frac; [lia|reflexivity|vm_compute; discriminate|vm_compute; reflexivity|vm_compute; reflexivity]. }
    rewrite R3. replace (IZR 4953959590107546 * pow2 (Z.opp 52) + -1) with (IZR 450359962737050 * pow2 (Z.opp 52)) by (rewrite E16, p56; lra).
    apply rne_exact; [lia|vm_compute; discriminate]. }
  assert (G : tenth < IZR 450359962737050 * pow2 (Z.opp 52)) by (rewrite E16, T, p56; lra).
  split; [|split].
  - apply (fsteps_near (rne 53) _ C107_binary64 (-1) tenth tenth 11 D0 ltac:(lra)).
    + replace ((tenth - -1) / tenth - INR 11) with (1 / tenth - 10) by (cbn [INR]; field; lra).
      apply Rabs_le. assert (A : 1 / tenth = IZR 72057594037927936 / IZR 7205759403792794) by (rewrite T; field; lra). rewrite A. lra.
    + rewrite pow2_neg, pow2_Z by lia. change (2 ^ 53)%Z with 9007199254740992%Z. cbn [INR Nat.add]. lra.
  - rewrite X. exact G.
  - rewrite X. unfold findex. destruct (Rlt_dec _ (-1)) as [C|_]; [lra|]. destruct (Rlt_dec tenth _) as [_|C]; [reflexivity|lra].
Qed.
Print Assumptions C108_last_refuted.

(** A grid as in the documentation: x_min = -0.5, x_max = 0.5, increment 0.125, all exact. *)
Example C108_case : fsteps (rne 53) (-1/2) (1/2) (1/8) = 9%Z /\ findex (rne 53) (-1/2) (1/2) (1/8) (1/4 + 1/100) = inl 6%Z.
Proof.
  assert (U : pow2 (Z.opp 53) = / IZR 9007199254740992) by (rewrite pow2_neg, pow2_Z by lia; reflexivity). split.
  - apply (fsteps_near (rne 53) _ C107_binary64 (-1/2) (1/2) (1/8) 8); [lra|lra| |rewrite U; cbn [INR Nat.add]; lra].
    cbn [INR]. apply Rabs_le. lra.
  - apply (C108_index_partial (rne 53) _ C107_binary64 (-1/2) (1/2) (1/8) _ 6); [lra|lra| |rewrite U; cbn [INR Nat.add]; lra].
    cbn [INR]. apply Rabs_le. lra.
Qed.

(** C109.  The spectral lines are increasing and within six roundings of k fs / n. *)
Theorem C109_lines : forall rnd u, rounding rnd u -> forall fs bs, 0 < fs -> (0 < bs)%nat -> INR bs * u <= 1 / 16 ->
  increasing (flines rnd fs bs)
  /\ length (flines rnd fs bs) = (bs / 2 + 1)%nat
  /\ forall k, (2 * k <= bs)%nat -> Rabs (nth k (flines rnd fs bs) 0 - INR k * fs / INR bs) <= 6 * u * (INR k * fs / INR bs).
Proof.
  intros rnd u RD fs bs Hf Hb Hu. split; [now apply (flines_increasing rnd u RD)|]. unfold flines. split; [now rewrite map_length, seq_length|].
  intros k Hk. assert (Lk : (k < bs / 2 + 1)%nat) by (pose proof (Nat.div_mod bs 2 ltac:(lia)); pose proof (Nat.mod_upper_bound bs 2 ltac:(lia)); lia).
  rewrite (nth_indep _ 0 (fline rnd fs bs 0)) by (rewrite map_length, seq_length; lia). rewrite map_nth, seq_nth by lia. cbn [Nat.add].
  destruct (fline_near rnd u RD fs bs k Hf Hb) as [A B]. apply Rabs_le. lra.
Qed.
Print Assumptions C109_lines.

(** C109.  synthetic(f, 0) with a line's own frequency, as fftfreq() gives it, is that line of the result; and with any
    frequency that rounding separates from the lines next to it, the line above. *)
Theorem C109_select_partial : forall rnd u, rounding rnd u -> forall fs bs res k f, 0 < fs -> (0 < bs)%nat -> INR bs * u <= 1 / 16 -> (2 * k <= bs)%nat ->
  f = nth k (flines rnd fs bs) 0
  \/ (INR k - 1) * fs / INR bs * (1 + 6 * u) < f <= INR k * fs / INR bs * (1 - 6 * u) /\ (0 < k)%nat ->
  synthetic (flines rnd fs bs) res f Line = Some (nth k res (fun _ => 0)).
Proof.
  intros rnd u RD fs bs res k f Hf Hb Hu Hk H. pose proof (unit_pos rnd u RD) as U.
  assert (Lk : (k < bs / 2 + 1)%nat) by (pose proof (Nat.div_mod bs 2 ltac:(lia)); pose proof (Nat.mod_upper_bound bs 2 ltac:(lia)); lia).
  assert (NK : nth k (flines rnd fs bs) 0 = fline rnd fs bs k).
  { unfold flines. rewrite (nth_indep _ 0 (fline rnd fs bs 0)) by (rewrite map_length, seq_length; lia). now rewrite map_nth, seq_nth by lia. }
  rewrite NK in H.
  assert (S : searchsorted (flines rnd fs bs) f = k).
  { unfold flines. rewrite (search_map _ f (bs / 2 + 1) 0 k); [lia|lia| |].
    - intros j [_ Hj]. destruct H as [->|[[H1 H2] H3]]; [now apply (fline_lt rnd u RD)|].
      apply Rle_lt_trans with (2 := H1). destruct (fline_near rnd u RD fs bs j Hf Hb) as [_ B]. apply Rle_trans with (1 := B).
      apply Rmult_le_compat_r; [lra|]. apply Rmult_le_compat_r; [left; now apply Rinv_0_lt_compat, lt_0_INR|]. apply Rmult_le_compat_r; [lra|].
      assert (INR (j + 1) <= INR k) by (apply le_INR; lia). rewrite plus_INR in H. cbn [INR] in H. lra.
    - destruct H as [->|[[H1 H2] H3]]; [lra|]. apply Rle_trans with (1 := H2). apply (fline_near rnd u RD fs bs k Hf Hb). }
  unfold synthetic. cbn [band_limits]. rewrite S. unfold flines. rewrite map_length, seq_length.
  destruct (Nat.leb_spec (bs / 2 + 1) k); [lia|]. rewrite Nat.add_1_r. reflexivity.
Qed.
Print Assumptions C109_select_partial.

(** "synthetic(k fs / n, 0) is line k": false in double precision; at 50 kHz with blocks of 64 samples the eighth line is at
    6250 Hz, but fftfreq() gives a value just below, and synthetic(6250, 0) is the ninth line. *)
Theorem C109_nominal_refuted : exists fs bs k, (2 * k <= bs)%nat /\ binary64 fs /\ binary64 (INR k * fs / INR bs)
  /\ nth k (flines (rne 53) fs bs) 0 < INR k * fs / INR bs
  /\ forall res, synthetic (flines (rne 53) fs bs) res (INR k * fs / INR bs) Line = Some (nth (k + 1) res (fun _ => 0)).
Proof.
  exists 50000, 64%nat, 8%nat.
  assert (F : INR 8 * 50000 / INR 64 = 6250) by (rewrite !INR_IZR_INZ; cbn -[Rmult]; lra). rewrite F.
  assert (U : pow2 (Z.opp 53) = / IZR 9007199254740992) by (rewrite pow2_neg, pow2_Z by lia; reflexivity).
  assert (E : fline (rne 53) 50000 64 8 = IZR 6871947673599999 * pow2 (Z.opp 40)).
  { unfold fline. rewrite !(INR_IZR_INZ 8), !(INR_IZR_INZ 64). change (Z.of_nat 8) with 8%Z. change (Z.of_nat 64) with 64%Z.
    assert (R1 : rne 53 (1 / 50000) = IZR 5902958103587057 * pow2 (Z.opp 68)).
    { replace (1 / 50000) with (IZR (2 ^ 68) / IZR 50000 * pow2 (Z.opp 68)).
      - apply rne_frac; [lia|reflexivity|vm_compute; discriminate|vm_compute; reflexivity|vm_compute; reflexivity].
      - rewrite pow2_neg, pow2_Z by lia. assert (0 < IZR (2 ^ 68)) by (apply IZR_lt; reflexivity). field. lra. }
    rewrite R1. assert (E64 : pow2 (Z.opp 62) = 64 * pow2 (Z.opp 68)).
    { change (Z.opp 62) with (Z.opp 68 + 1 + 1 + 1 + 1 + 1 + 1)%Z. rewrite !pow2_S. ring. }
    replace (64 * (IZR 5902958103587057 * pow2 (Z.opp 68))) with (IZR 5902958103587057 * pow2 (Z.opp 62)) by (rewrite E64; ring).
    rewrite (rne_exact 53 ltac:(lia)) by (vm_compute; discriminate).
    assert (R2 : rne 53 (1 / (IZR 5902958103587057 * pow2 (Z.opp 62))) = IZR 6871947673599999 * pow2 (Z.opp 43)).
    { replace (1 / (IZR 5902958103587057 * pow2 (Z.opp 62))) with (IZR (2 ^ 105) / IZR 5902958103587057 * pow2 (Z.opp 43)).
      - apply rne_frac; [lia|reflexivity|vm_compute; discriminate|vm_compute; reflexivity|vm_compute; reflexivity].
      - rewrite !pow2_neg, <- (pow2_Z 105) by lia. change 105%Z with (62 + 43)%Z. rewrite pow2_add. pose proof (pow2_pos 62). pose proof (pow2_pos 43). field. repeat split; lra. }
    rewrite R2. assert (E8 : pow2 (Z.opp 40) = 8 * pow2 (Z.opp 43)).
    { change (Z.opp 40) with (Z.opp 43 + 1 + 1 + 1)%Z. rewrite !pow2_S. ring. }
    replace (8 * (IZR 6871947673599999 * pow2 (Z.opp 43))) with (IZR 6871947673599999 * pow2 (Z.opp 40)) by (rewrite E8; ring).
    apply (rne_exact 53 ltac:(lia)). vm_compute; discriminate. }
  assert (L8 : fline (rne 53) 50000 64 8 < 6250).
  { rewrite E, pow2_neg, pow2_Z by lia. change (2 ^ 40)%Z with 1099511627776%Z. lra. }
  assert (HU : INR 64 * pow2 (Z.opp 53) <= 1 / 16) by (rewrite U, INR_IZR_INZ; cbn -[Rmult Rinv]; lra).
  split; [lia|]. split; [exists 50000%Z, 0%Z; split; [cbn; lra|vm_compute; discriminate]|].
  split; [exists 6250%Z, 0%Z; split; [cbn; lra|vm_compute; discriminate]|]. split; [exact L8|].
  intros res. unfold synthetic. cbn [band_limits].
  assert (S : searchsorted (flines (rne 53) 50000 64) 6250 = 9%nat).
  { unfold flines. rewrite (search_map _ 6250 (64 / 2 + 1) 0 9); [reflexivity|cbn; lia| |].
    - intros j [_ Hj]. destruct (Nat.eq_dec j 8) as [->|N]; [exact L8|]. apply Rlt_trans with (2 := L8).
      apply (fline_lt (rne 53) _ C107_binary64); [lra|lia|exact HU|lia|lia].
    - destruct (fline_near (rne 53) _ C107_binary64 50000 64 9 ltac:(lra) ltac:(lia)) as [A _]. apply Rle_trans with (2 := A).
      rewrite U, !INR_IZR_INZ. change (Z.of_nat 9) with 9%Z. change (Z.of_nat 64) with 64%Z. lra. }
  rewrite S. reflexivity.
Qed.
Print Assumptions C109_nominal_refuted.

Lemma unit64 : pow2 (Z.opp 53) = / IZR 9007199254740992.
Proof. rewrite pow2_neg, pow2_Z by lia. reflexivity. Qed.
(** 3000 samples in blocks of 128, kernels of 1000 taps in blocks of 300 *)
Example C107_case : rfft_blocks (rne 53) 3000 128 = 23%Z /\ kernel_parts (rne 53) 1000 300 = 4%Z /\ lines_of (rne 53) 127 = 64%Z.
Proof.
  assert (H : forall a b, (a + b <= 4000)%nat -> (INR a + INR b) * pow2 (Z.opp 53) <= 1 / 8).
  { intros a b H. rewrite <- plus_INR, unit64. apply le_INR in H. rewrite (INR_IZR_INZ 4000) in H. change (Z.of_nat 4000) with 4000%Z in H.
    apply Rle_trans with (4000 * / 9007199254740992); [apply Rmult_le_compat_r; lra|lra]. }
  split; [|split].
  - destruct (C107_counts _ _ C107_binary64 3000 128 ltac:(lia)) as (_ & E & _); [apply H; lia|exact E].
  - destruct (C107_counts _ _ C107_binary64 1000 300 ltac:(lia)) as (_ & _ & _ & (k & E & L) & _); [apply H; lia|].
    rewrite E. assert (k = 4)%nat by lia. now subst.
  - destruct (C107_counts _ _ C107_binary64 127 1 ltac:(lia)) as (_ & _ & E & _); [apply H; lia|exact E].
Qed.
(** traj(0, 1, 0.4): three positions; 51.2 kHz and 128 samples, 3000 Hz: line 8 at 3200 Hz *)
Example C107_arange_case : arange_len (rne 53) 0 1 (2/5) = 3%Z.
Proof.
  apply (C107_arange_partial _ _ C107_binary64 0 1 (2/5)); [lra|lra| |]; rewrite unit64; lra.
Qed.
Example C109_case : forall res, synthetic (flines (rne 53) 51200 128) res 3000 Line = Some (nth 8 res (fun _ => 0)).
Proof.
  assert (E : INR 128 = 128) by (rewrite INR_IZR_INZ; reflexivity).
  assert (E8 : INR 8 = 8) by (rewrite INR_IZR_INZ; reflexivity).
  intros res. apply (C109_select_partial _ _ C107_binary64); [lra|lia|rewrite unit64, E; lra|lia|]. right. split; [|lia].
  rewrite unit64, E, E8. lra.
Qed.
