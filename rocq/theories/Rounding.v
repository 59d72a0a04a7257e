(** Floating-point arithmetic where counts, indices and lines come from it.  The other
    files calculate with real numbers; here every operation is rounded. *)
From Coq Require Import List Arith Lia ZArith Bool Reals Lra.
From Verif Require Import Stream Wav Grids Result.
Import ListNotations.
Local Open Scope R_scope.

(** * Rounded arithmetic

    [rnd] rounds the exact result of an operation, [u] is the unit roundoff: the
    standard model of floating-point arithmetic without overflow and underflow, monotone
    and exact for whole numbers of at most 1/u. *)
Record rounding (rnd : R -> R) (u : R) : Prop := {
  r_unit : 0 < u <= 1 / 1024;
  r_err : forall x, Rabs (rnd x - x) <= u * Rabs x;
  r_mono : forall x y, x <= y -> rnd x <= rnd y;
  r_int : forall z, Rabs (IZR z) * u <= 1 -> rnd (IZR z) = IZR z }.

(** Rounding to the nearest number with [p] significant bits, ties to even; p = 53 is
    binary64 (double precision). *)
Definition pow2 (e : Z) : R := powerRZ 2 e.
Definition mag (x : R) : Z := Int_part (ln (Rabs x) / ln 2).
Definition rne (p : Z) (x : R) : R :=
  if Req_EM_T x 0 then 0 else let w := pow2 (mag x - p + 1) in IZR (py_round (x / w)) * w.

(** * The code *)

(** int() of a nonnegative float, int(floor()), int(ceil()) *)
Definition int_ceil (x : R) : Z := (- Int_part (- x))%Z.

Section Code.
  Variable rnd : R -> R.

  (** Average.result: int(ns / nav) (process.py:192) *)
  Definition average_rows (ns nav : nat) : Z := trunc (rnd (INR ns / INR nav)).
  (** RFFT.num_samples: int(floor(num_samples / block_size)) (fprocess.py:93-97) *)
  Definition rfft_blocks (ns bs : nat) : Z := Int_part (rnd (INR ns / INR bs)).
  (** int(block_size / 2 + 1) (fprocess.py:91, 123; spectra.py:178, 389, 497) *)
  Definition lines_of (bs : nat) : Z := trunc (rnd (rnd (INR bs / 2) + 1)).
  (** TimeConvolve._kernel_blocks: int(ceil(L / num)) (tprocess.py:2000) *)
  Definition kernel_parts (L num : nat) : Z := int_ceil (rnd (INR L / INR num)).
  (** BeamformerTime: int(ceil((num + max_sample_delay) / num)) * num (tbeamform.py:168) *)
  Definition window_buffer (num msd : nat) : Z := (int_ceil (rnd (INR (num + msd) / INR num)) * Z.of_nat num)%Z.
  (** IRFFT.result: (int(ceil(num / bs)) + 1) * bs (fprocess.py:267) *)
  Definition irfft_buffer (num bs : nat) : Z := ((int_ceil (rnd (INR num / INR bs)) + 1) * Z.of_nat bs)%Z.
  (** CrossPowerSpectra.num_channels, 'upper': int(n + n * (n - 1) / 2) (fprocess.py:402) *)
  Definition upper_channels (n : nat) : Z := trunc (rnd (INR n + rnd (INR (n * (n - 1)) / 2))).

  (** Trajectory.traj: the length of numpy.arange(t_start, t_end, delta_t) (trajectory.py:197); numpy
      divides the difference of the limits by the step and rounds up. *)
  Definition arange_len (start stop delta : R) : Z := Z.max 0 (int_ceil (rnd (rnd (stop - start) / delta))).

  (** RectGrid._get_nxsteps (grids.py:425-430) *)
  Definition fsteps (lo hi inc : R) : Z :=
    let i := Rabs inc in
    if Req_EM_T i 0 then 1%Z else py_round (rnd (rnd (Rabs (rnd (hi - lo)) + i) / i)).
  (** numpy.mgrid[lo : hi : n * 1j] (grids.py:444-450): nn * step + start, step = (stop - start) / (n - 1)
      unless n = 1 *)
  Definition fpos (lo hi : R) (n k : Z) : R :=
    let step := if (n =? 1)%Z then 1 else rnd (rnd (hi - lo) / IZR (n - 1)) in
    rnd (rnd (IZR k * step) + lo).
  (** RectGrid.index, one axis (grids.py:474-481) *)
  Definition findex (lo hi inc x : R) : Z + exn :=
    if Rlt_dec x lo then inr ValueError else if Rlt_dec hi x then inr ValueError
    else inl (trunc (rnd (rnd (rnd (x - lo) / inc) + 1 / 2))).

  (** abs(fftfreq(block_size, 1 / sample_freq)), line [k] (spectra.py:169-179, fprocess.py:114-124): numpy
      multiplies k with 1 / (n * d). *)
  Definition fline (fs : R) (bs k : nat) : R :=
    rnd (INR k * rnd (1 / rnd (INR bs * rnd (1 / fs)))).
  Definition flines (fs : R) (bs : nat) : list R := map (fline fs bs) (seq 0 (bs / 2 + 1)).
End Code.

(** * Rounding to nearest satisfies the model *)
Lemma pow2_pos e : 0 < pow2 e.
Proof. apply powerRZ_lt. lra. Qed.
Lemma pow2_add a b : pow2 (a + b) = pow2 a * pow2 b.
Proof. apply powerRZ_add. lra. Qed.
Lemma pow2_Z e : (0 <= e)%Z -> pow2 e = IZR (2 ^ e).
Proof.
  intros H. unfold pow2. rewrite <- (Z2Nat.id e) by exact H. generalize (Z.to_nat e) as n. intros n.
  rewrite <- pow_powerRZ, pow_IZR. reflexivity.
Qed.
Lemma pow2_neg e : pow2 (- e) = / pow2 e.
Proof.
  assert (pow2 (- e) * pow2 e = 1) by (rewrite <- pow2_add; replace (- e + e)%Z with 0%Z by lia; reflexivity).
  pose proof (pow2_pos e). apply Rmult_eq_reg_r with (pow2 e); [|lra]. rewrite H, Rinv_l; lra.
Qed.
Lemma pow2_ge_1 e : (0 <= e)%Z -> 1 <= pow2 e.
Proof. intros H. rewrite pow2_Z by exact H. apply IZR_le. pose proof (Z.pow_pos_nonneg 2 e). lia. Qed.
Lemma pow2_le a b : (a <= b)%Z -> pow2 a <= pow2 b.
Proof.
  intros H. replace b with (a + (b - a))%Z by lia. rewrite pow2_add. pose proof (pow2_pos a).
  pose proof (pow2_ge_1 (b - a) ltac:(lia)). rewrite <- (Rmult_1_r (pow2 a)) at 1. apply Rmult_le_compat_l; lra.
Qed.
Lemma pow2_lt_inv a b : pow2 a < pow2 b -> (a < b)%Z.
Proof. intros H. destruct (Z.lt_ge_cases a b) as [L|L]; [exact L|]. apply pow2_le in L. lra. Qed.
Lemma pow2_S e : pow2 (e + 1) = 2 * pow2 e.
Proof. rewrite pow2_add. unfold pow2 at 2. simpl. ring. Qed.

Lemma ln2_pos : 0 < ln 2.
Proof. rewrite <- ln_1. apply ln_increasing; lra. Qed.
Lemma pow2_exp e : pow2 e = exp (IZR e * ln 2).
Proof. unfold pow2. rewrite powerRZ_Rpower by lra. reflexivity. Qed.

Lemma mag_spec x : x <> 0 -> pow2 (mag x) <= Rabs x < pow2 (mag x + 1).
Proof.
  intros H. pose proof (Rabs_pos_lt x H) as P. pose proof ln2_pos as L. unfold mag.
  set (m := Int_part (ln (Rabs x) / ln 2)). pose proof (Int_part_bounds (ln (Rabs x) / ln 2)) as [B1 B2]. fold m in B1, B2.
  assert (E : ln (Rabs x) / ln 2 * ln 2 = ln (Rabs x)) by (field; lra).
  rewrite !pow2_exp, plus_IZR. split.
  - rewrite <- (exp_ln (Rabs x) P) at 1. destruct B1 as [B1|B1].
    + left. apply exp_increasing. rewrite <- E. apply Rmult_lt_compat_r; lra.
    + right. f_equal. rewrite <- E. f_equal. exact B1.
  - rewrite <- (exp_ln (Rabs x) P) at 1. apply exp_increasing. rewrite <- E at 1. apply Rmult_lt_compat_r; lra.
Qed.
Lemma mag_unique x e : pow2 e <= Rabs x < pow2 (e + 1) -> mag x = e.
Proof.
  intros [H1 H2]. assert (x <> 0).
  { intros ->. rewrite Rabs_R0 in H1. pose proof (pow2_pos e). lra. }
  destruct (mag_spec x H) as [M1 M2].
  assert (e < mag x + 1)%Z by (apply pow2_lt_inv; lra).
  assert (mag x < e + 1)%Z by (apply pow2_lt_inv; lra). lia.
Qed.

Lemma py_round_mono x y : x <= y -> (py_round x <= py_round y)%Z.
Proof.
  intros H. destruct (Z.le_gt_cases (py_round x) (py_round y)) as [L|L]; [exact L|].
  pose proof (py_round_bounds x) as [A1 A2]. pose proof (py_round_bounds y) as [B1 B2].
  assert (IZR (py_round y) + 1 <= IZR (py_round x)) by (rewrite <- plus_IZR; apply IZR_le; lia).
  assert (x = y) by lra. subst. lia.
Qed.
Lemma py_round_near y z : Rabs (y - IZR z) < 1 / 2 -> py_round y = z.
Proof.
  intros H. apply Rabs_def2 in H. pose proof (py_round_bounds y) as [A1 A2].
  assert (py_round y < z + 1)%Z by (apply lt_IZR; rewrite plus_IZR; lra).
  assert (z - 1 < py_round y)%Z by (apply lt_IZR; rewrite minus_IZR; lra). lia.
Qed.
Lemma py_round_tie z : py_round (IZR z + 1 / 2) = if Z.even z then z else (z + 1)%Z.
Proof.
  unfold py_round. rewrite (Int_part_unique _ z) by lra. replace (IZR z + 1 / 2 - IZR z) with (1 / 2) by ring.
  destruct (Rlt_dec (1 / 2) (1 / 2)); [lra|]. reflexivity.
Qed.

Section Nearest.
  Variable p : Z.
  Hypothesis Hp : (10 <= p)%Z.

  Lemma rne_binade x e : pow2 e <= Rabs x < pow2 (e + 1) ->
    rne p x = IZR (py_round (x / pow2 (e - p + 1))) * pow2 (e - p + 1).
  Proof.
    intros H. unfold rne. rewrite (mag_unique x e H). destruct (Req_EM_T x 0) as [->|_]; [|reflexivity].
    rewrite Rabs_R0 in H. pose proof (pow2_pos e). lra.
  Qed.

  (** Between two multiples of the spacing the rounded value stays between them. *)
  Lemma rne_between x e a b : pow2 e <= Rabs x < pow2 (e + 1) ->
    IZR a * pow2 (e - p + 1) <= x <= IZR b * pow2 (e - p + 1) ->
    IZR a * pow2 (e - p + 1) <= rne p x <= IZR b * pow2 (e - p + 1).
  Proof.
    intros H [A B]. rewrite (rne_binade x e H). set (w := pow2 (e - p + 1)) in *. pose proof (pow2_pos (e - p + 1)) as W. fold w in W.
    assert (Q : forall z, IZR z * w / w = IZR z) by (intros; field; lra).
    split; apply Rmult_le_compat_r; try lra; apply IZR_le.
    - rewrite <- (py_round_int a) at 1. apply py_round_mono. rewrite <- Q at 1. unfold Rdiv. apply Rmult_le_compat_r; [|exact A].
      left; apply Rinv_0_lt_compat; exact W.
    - rewrite <- (py_round_int b). apply py_round_mono. rewrite <- (Q b). unfold Rdiv. apply Rmult_le_compat_r; [|exact B].
      left; apply Rinv_0_lt_compat; exact W.
  Qed.

  Lemma half_binade e : IZR (2 ^ (p - 1)) * pow2 (e - p + 1) = pow2 e.
  Proof. rewrite <- pow2_Z by lia. rewrite <- pow2_add. f_equal. lia. Qed.
  Lemma full_binade e : IZR (2 ^ p) * pow2 (e - p + 1) = pow2 (e + 1).
  Proof. rewrite <- pow2_Z by lia. rewrite <- pow2_add. f_equal. lia. Qed.

  Lemma rne_0 : rne p 0 = 0.
  Proof. unfold rne. destruct (Req_EM_T 0 0); [reflexivity|lra]. Qed.

  Lemma rne_pos x : 0 < x -> pow2 (mag x) <= rne p x <= pow2 (mag x + 1).
  Proof.
    intros H. pose proof (mag_spec x ltac:(lra)) as M. pose proof M as [M1 M2]. rewrite Rabs_pos_eq in M1, M2 by lra.
    pose proof (rne_between x (mag x) (2 ^ (p - 1)) (2 ^ p) M) as B. rewrite half_binade, full_binade in B. lra.
  Qed.
  Lemma rne_neg x : x < 0 -> - pow2 (mag x + 1) <= rne p x <= - pow2 (mag x).
  Proof.
    intros H. pose proof (mag_spec x ltac:(lra)) as M. pose proof M as [M1 M2]. rewrite Rabs_left in M1, M2 by lra.
    pose proof (rne_between x (mag x) (- 2 ^ p) (- 2 ^ (p - 1)) M) as B. rewrite !opp_IZR, !Ropp_mult_distr_l_reverse, half_binade, full_binade in B. lra.
  Qed.

  Lemma rne_mono x y : x <= y -> rne p x <= rne p y.
  Proof.
    intros [H|H]; [|subst; lra].
    assert (SAME : mag x = mag y -> x <> 0 -> y <> 0 -> rne p x <= rne p y).
    { intros E Nx Ny. rewrite (rne_binade x (mag x) (mag_spec x Nx)), (rne_binade y (mag y) (mag_spec y Ny)), E.
      apply Rmult_le_compat_r; [left; apply pow2_pos|]. apply IZR_le, py_round_mono. unfold Rdiv. apply Rmult_le_compat_r; [|lra].
      left; apply Rinv_0_lt_compat, pow2_pos. }
    destruct (Rtotal_order x 0) as [Nx|[->|Px]], (Rtotal_order y 0) as [Ny|[->|Py]]; try lra.
    - (* both negative *)
      pose proof (mag_spec x ltac:(lra)) as [X1 X2]. pose proof (mag_spec y ltac:(lra)) as [Y1 Y2]. rewrite Rabs_left in X1, X2, Y1, Y2 by lra.
      assert (mag y < mag x + 1)%Z by (apply pow2_lt_inv; lra).
      destruct (Z.eq_dec (mag x) (mag y)) as [E|N]; [apply SAME; [exact E|lra|lra]|].
      pose proof (rne_neg x Nx). pose proof (rne_neg y Ny). pose proof (pow2_le (mag y + 1) (mag x) ltac:(lia)). lra.
    - rewrite rne_0. pose proof (rne_neg x Nx). pose proof (pow2_pos (mag x)). lra.
    - pose proof (rne_neg x Nx). pose proof (pow2_pos (mag x)). pose proof (rne_pos y Py). pose proof (pow2_pos (mag y)). lra.
    - rewrite rne_0. pose proof (rne_pos y Py). pose proof (pow2_pos (mag y)). lra.
    - pose proof (mag_spec x ltac:(lra)) as [X1 X2]. pose proof (mag_spec y ltac:(lra)) as [Y1 Y2]. rewrite Rabs_pos_eq in X1, X2, Y1, Y2 by lra.
      assert (mag x < mag y + 1)%Z by (apply pow2_lt_inv; lra).
      destruct (Z.eq_dec (mag x) (mag y)) as [E|N]; [apply SAME; [exact E|lra|lra]|].
      pose proof (rne_pos x Px). pose proof (rne_pos y Py). pose proof (pow2_le (mag x + 1) (mag y) ltac:(lia)). lra.
  Qed.

  Lemma rne_err x : Rabs (rne p x - x) <= pow2 (- p) * Rabs x.
  Proof.
    destruct (Req_dec x 0) as [->|N]; [rewrite rne_0, Rminus_0_r, Rabs_R0; lra|].
    pose proof (mag_spec x N) as M. rewrite (rne_binade x (mag x) M). set (w := pow2 (mag x - p + 1)).
    pose proof (pow2_pos (mag x - p + 1)) as W. fold w in W. pose proof (py_round_bounds (x / w)) as [B1 B2].
    assert (E : x = x / w * w) by (field; lra).
    assert (Rabs (IZR (py_round (x / w)) * w - x) <= w / 2).
    { rewrite E at 2. rewrite <- Rmult_minus_distr_r, Rabs_mult, (Rabs_pos_eq w) by lra.
      assert (Rabs (IZR (py_round (x / w)) - x / w) <= 1 / 2) by (apply Rabs_le; lra).
      apply Rle_trans with (1 / 2 * w); [apply Rmult_le_compat_r; lra|lra]. }
    apply Rle_trans with (1 := H).
    assert (W2 : w / 2 = pow2 (- p) * pow2 (mag x)).
    { unfold w. rewrite <- pow2_add. replace (mag x - p + 1)%Z with ((- p + mag x) + 1)%Z by lia. rewrite pow2_S. lra. }
    rewrite W2. apply Rmult_le_compat_l; [left; apply pow2_pos|apply M].
  Qed.

  (** Numbers with at most p bits are exact. *)
  Lemma rne_exact z f : (Z.abs z <= 2 ^ p)%Z -> rne p (IZR z * pow2 f) = IZR z * pow2 f.
  Proof.
    intros Hz. destruct (Z.eq_dec z 0) as [->|N]; [rewrite Rmult_0_l; apply rne_0|].
    set (x := IZR z * pow2 f). pose proof (pow2_pos f) as F.
    assert (Nx : x <> 0) by (unfold x; apply Rmult_integral_contrapositive; split; [now apply not_0_IZR|lra]).
    assert (AX : Rabs x = IZR (Z.abs z) * pow2 f) by (unfold x; rewrite Rabs_mult, <- abs_IZR, (Rabs_pos_eq (pow2 f)) by lra; reflexivity).
    pose proof (mag_spec x Nx) as M. rewrite (rne_binade x (mag x) M). set (e := mag x) in *.
    assert (G : exists k, x = IZR k * pow2 (e - p + 1)).
    { destruct (Z.le_gt_cases (e - p + 1) f) as [L|L].
      - exists (z * 2 ^ (f - (e - p + 1)))%Z. rewrite mult_IZR, <- pow2_Z by lia. unfold x. rewrite Rmult_assoc, <- pow2_add.
        do 2 f_equal. lia.
      - assert (PE : IZR (2 ^ p) * pow2 f = pow2 (p + f)) by (rewrite <- pow2_Z by lia; symmetry; apply pow2_add).
        assert (U : Rabs x <= pow2 (p + f)).
        { rewrite AX, <- PE. apply Rmult_le_compat_r; [lra|]. apply IZR_le. exact Hz. }
        assert (V : pow2 (p + f) <= pow2 e) by (apply pow2_le; lia).
        assert (E1 : Rabs x = pow2 e) by lra. assert (E2 : pow2 e = pow2 (e - p + 1) * IZR (2 ^ (p - 1))) by (rewrite Rmult_comm; symmetry; apply half_binade).
        destruct (Rcase_abs x) as [C|C].
        + exists (- 2 ^ (p - 1))%Z. rewrite opp_IZR. rewrite Rabs_left in E1 by lra. lra.
        + exists (2 ^ (p - 1))%Z. rewrite Rabs_pos_eq in E1 by lra. lra. }
    destruct G as (k & G). clearbody e. rewrite G. pose proof (pow2_pos (e - p + 1)). replace (IZR k * pow2 (e - p + 1) / pow2 (e - p + 1)) with (IZR k) by (field; lra).
    now rewrite py_round_int.
  Qed.

  Theorem rne_rounding : rounding (rne p) (pow2 (- p)).
  Proof.
    constructor.
    - split; [apply pow2_pos|]. apply Rle_trans with (pow2 (Z.opp 10)); [apply pow2_le; lia|].
      rewrite pow2_neg, pow2_Z by lia. change (2 ^ 10)%Z with 1024%Z. lra.
    - exact rne_err.
    - exact rne_mono.
    - intros z Hz. rewrite <- (Rmult_1_r (IZR z)). change 1 with (pow2 0). apply rne_exact.
      apply le_IZR. rewrite abs_IZR, <- pow2_Z by lia. rewrite pow2_neg in Hz. pose proof (pow2_pos p) as P.
      apply Rmult_le_reg_r with (/ pow2 p); [now apply Rinv_0_lt_compat|]. rewrite Rinv_r by lra. exact Hz.
  Qed.
End Nearest.

(** * Counts *)
Lemma abs_le_inv a b : Rabs a <= b -> - b <= a <= b.
Proof. intros H. pose proof (Rle_abs a). pose proof (Rle_abs (- a)). rewrite Rabs_Ropp in H1. lra. Qed.

Section Counts.
  Variables (rnd : R -> R) (u : R).
  Hypothesis RD : rounding rnd u.

  Lemma unit_pos : 0 < u <= 1 / 1024.
  Proof. exact (r_unit rnd u RD). Qed.
  Lemma rnd_pos x : 0 <= x -> x * (1 - u) <= rnd x <= x * (1 + u).
  Proof. intros H. pose proof (r_err rnd u RD x) as E. rewrite (Rabs_pos_eq x H) in E. apply abs_le_inv in E. lra. Qed.
  Lemma rnd_nat n : INR n * u <= 1 -> rnd (INR n) = INR n.
  Proof.
    intros H. rewrite INR_IZR_INZ. apply (r_int rnd u RD). rewrite <- INR_IZR_INZ, Rabs_pos_eq; [exact H|apply pos_INR].
  Qed.
  Lemma rnd_0 : rnd 0 = 0.
  Proof. apply (rnd_nat 0). cbn. lra. Qed.
  Lemma rnd_nonneg x : 0 <= x -> 0 <= rnd x.
  Proof. intros H. rewrite <- rnd_0. now apply (r_mono rnd u RD). Qed.

  Lemma floor_quot a b : (0 < b)%nat -> INR a * u < 1 ->
    Int_part (rnd (INR a / INR b)) = Z.of_nat (a / b) /\ 0 <= rnd (INR a / INR b).
  Proof.
    intros Hb Ha. pose proof unit_pos as U. assert (Pb : 0 < INR b) by now apply lt_0_INR.
    assert (Hab : (a = b * (a / b) + a mod b)%nat) by (apply Nat.div_mod; lia). pose proof (Nat.mod_upper_bound a b ltac:(lia)).
    set (k := (a / b)%nat) in *. pose proof (pos_INR a).
    assert (Q0 : 0 <= INR a / INR b) by (apply Rmult_le_pos; [lra|left; now apply Rinv_0_lt_compat]).
    assert (E : INR a / INR b * INR b = INR a) by (field; lra).
    assert (Lk : INR k <= INR a / INR b).
    { apply Rmult_le_reg_r with (INR b); [lra|]. rewrite E, <- mult_INR. apply le_INR. lia. }
    assert (Uk : INR a + 1 <= (INR k + 1) * INR b).
    { rewrite <- (S_INR a), <- (S_INR k), <- mult_INR. apply le_INR. lia. }
    split; [|now apply rnd_nonneg].
    apply Int_part_unique. rewrite <- INR_IZR_INZ. split.
    - rewrite <- (rnd_nat k); [now apply (r_mono rnd u RD)|].
      assert (INR k <= INR a) by (apply le_INR; nia). apply Rle_trans with (INR a * u); [|lra]. apply Rmult_le_compat_r; lra.
    - pose proof (rnd_pos _ Q0) as [_ B]. apply Rle_lt_trans with (1 := B). apply Rmult_lt_reg_r with (INR b); [lra|].
      replace (INR a / INR b * (1 + u) * INR b) with (INR a / INR b * INR b * (1 + u)) by ring. rewrite E. lra.
  Qed.

  Lemma ceil_quot a b : (0 < b)%nat -> INR a * u < 1 -> int_ceil (rnd (INR a / INR b)) = Z.of_nat ((a + b - 1) / b).
  Proof.
    intros Hb Ha. pose proof unit_pos as U. assert (Pb : 0 < INR b) by now apply lt_0_INR. unfold int_ceil.
    assert (Hab : (a + b - 1 = b * ((a + b - 1) / b) + (a + b - 1) mod b)%nat) by (apply Nat.div_mod; lia).
    pose proof (Nat.mod_upper_bound (a + b - 1) b ltac:(lia)).
    set (k := ((a + b - 1) / b)%nat) in *. pose proof (pos_INR a).
    assert (Q0 : 0 <= INR a / INR b) by (apply Rmult_le_pos; [lra|left; now apply Rinv_0_lt_compat]).
    assert (E : INR a / INR b * INR b = INR a) by (field; lra).
    rewrite (Int_part_unique _ (- Z.of_nat k)); [lia|]. rewrite opp_IZR, <- INR_IZR_INZ.
    assert (Uk : INR a / INR b <= INR k).
    { apply Rmult_le_reg_r with (INR b); [lra|]. rewrite E, <- mult_INR. apply le_INR. nia. }
    destruct (Nat.eq_dec a 0) as [->|Na].
    { assert (k = 0)%nat by nia. rewrite H1. cbn [INR]. unfold Rdiv. rewrite Rmult_0_l, rnd_0. lra. }
    assert (Lk : INR k * INR b + 1 <= INR a + INR b).
    { rewrite <- mult_INR, <- S_INR, <- plus_INR. apply le_INR. lia. }
    assert (rnd (INR a / INR b) <= INR k).
    { rewrite <- (rnd_nat k); [now apply (r_mono rnd u RD)|].
      assert (INR k <= INR a) by (apply le_INR; nia). apply Rle_trans with (INR a * u); [|lra]. apply Rmult_le_compat_r; lra. }
    assert (INR k - 1 < rnd (INR a / INR b)); [|lra].
    pose proof (rnd_pos _ Q0) as [B _]. apply Rlt_le_trans with (2 := B). apply Rmult_lt_reg_r with (INR b); [lra|].
    replace (INR a / INR b * (1 - u) * INR b) with (INR a / INR b * INR b * (1 - u)) by ring. rewrite E. lra.
  Qed.

  Lemma int_floor_trunc x : 0 <= x -> trunc x = Int_part x.
  Proof. intros H. unfold trunc. destruct (Rle_dec 0 x); [reflexivity|lra]. Qed.

  Lemma lines_exact bs : INR bs * u <= 1 / 8 -> lines_of rnd bs = Z.of_nat (bs / 2 + 1).
  Proof.
    intros H. pose proof unit_pos as U. pose proof (pos_INR bs).
    destruct (floor_quot bs 2 ltac:(lia) ltac:(lra)) as [F F0].
    set (h := (bs / 2)%nat) in *.
    assert (Hbs : (bs = 2 * h + bs mod 2)%nat) by (apply Nat.div_mod; lia). pose proof (Nat.mod_upper_bound bs 2 ltac:(lia)).
    assert (E2 : INR bs / 2 <= INR h + 1 / 2).
    { assert (INR bs <= INR (2 * h + 1)) by (apply le_INR; lia). rewrite plus_INR, mult_INR in H2. cbn [INR] in H2. lra. }
    assert (Lh : INR h <= INR bs / 2).
    { assert (INR (2 * h) <= INR bs) by (apply le_INR; lia). rewrite mult_INR in H2. cbn [INR] in H2. lra. }
    assert (Hu : INR h * u <= 1 / 16).
    { assert (INR h * u <= INR bs / 2 * u) by (apply Rmult_le_compat_r; lra). lra. }
    pose proof (rnd_pos (INR bs / 2) ltac:(lra)) as [_ B].
    assert (B1 : rnd (INR bs / 2) <= INR h + 1 / 2 + 1 / 8).
    { apply Rle_trans with (1 := B). apply Rle_trans with ((INR h + 1 / 2) * (1 + u)); [apply Rmult_le_compat_r; lra|]. lra. }
    assert (A1 : INR h <= rnd (INR bs / 2)).
    { rewrite <- (rnd_nat h) by lra. now apply (r_mono rnd u RD). }
    unfold lines_of. rewrite int_floor_trunc.
    - apply Int_part_unique. rewrite <- INR_IZR_INZ, plus_INR. cbn [INR]. split.
      + replace (INR h + 1) with (INR (S h)) by (rewrite S_INR; ring). rewrite <- (rnd_nat (S h)); [|rewrite S_INR; lra].
        apply (r_mono rnd u RD). rewrite S_INR. lra.
      + pose proof (rnd_pos (rnd (INR bs / 2) + 1) ltac:(lra)) as [_ B2]. apply Rle_lt_trans with (1 := B2).
        apply Rle_lt_trans with ((INR h + 1 / 2 + 1 / 8 + 1) * (1 + u)); [apply Rmult_le_compat_r; lra|]. lra.
    - apply rnd_nonneg. pose proof (pos_INR h). lra.
  Qed.

  Lemma channels_exact n : INR (n * n) * u <= 1 / 8 -> upper_channels rnd n = Z.of_nat (n * (n + 1) / 2).
  Proof.
    intros H. pose proof unit_pos as U. unfold upper_channels.
    assert (EV : exists h, (n * (n - 1) = 2 * h)%nat).
    { destruct n as [|n]; [exists 0%nat; reflexivity|]. replace (S n - 1)%nat with n by lia.
      destruct (Nat.Even_or_Odd n) as [[m Hm]|[m Hm]]; [exists (S n * m)%nat; nia|exists ((m + 1) * n)%nat; nia]. }
    destruct EV as (h & Eh).
    assert (E1 : INR (n * (n - 1)) / 2 = INR h) by (rewrite Eh, mult_INR; cbn [INR]; field).
    assert (E2 : (n * (n + 1) / 2 = n + h)%nat).
    { replace (n * (n + 1))%nat with ((n + h) * 2)%nat by (destruct n; nia). apply Nat.div_mul. lia. }
    assert (LE : INR (n + h) <= INR (n * n)) by (apply le_INR; destruct n; nia).
    assert (LH : INR h <= INR (n + h)) by (apply le_INR; lia).
    pose proof (pos_INR h).
    rewrite E1, (rnd_nat h), <- plus_INR, rnd_nat, E2.
    - rewrite int_floor_trunc by apply pos_INR. apply Int_part_unique. rewrite <- INR_IZR_INZ. lra.
    - apply Rle_trans with (INR (n * n) * u); [apply Rmult_le_compat_r|]; lra.
    - apply Rle_trans with (INR (n * n) * u); [apply Rmult_le_compat_r|]; lra.
  Qed.

  (** * arange *)
  Lemma arange_quot start stop delta : 0 < delta -> start <= stop ->
    let x := (stop - start) / delta in x * (1 - 3 * u) <= rnd (rnd (stop - start) / delta) <= x * (1 + 3 * u).
  Proof.
    intros Hd Hs x. pose proof unit_pos as U. pose proof (rnd_pos (stop - start) ltac:(lra)) as [A B].
    assert (I : 0 < / delta) by now apply Rinv_0_lt_compat.
    assert (X0 : 0 <= x) by (unfold x, Rdiv; apply Rmult_le_pos; lra).
    assert (A' : x * (1 - u) <= rnd (stop - start) / delta).
    { unfold x, Rdiv. rewrite Rmult_assoc, (Rmult_comm (/ delta)), <- Rmult_assoc. apply Rmult_le_compat_r; lra. }
    assert (B' : rnd (stop - start) / delta <= x * (1 + u)).
    { unfold x, Rdiv. rewrite (Rmult_assoc (stop - start)), (Rmult_comm (/ delta)), <- Rmult_assoc. apply Rmult_le_compat_r; lra. }
    assert (Q0 : 0 <= rnd (stop - start) / delta).
    { apply Rle_trans with (2 := A'). apply Rmult_le_pos; lra. }
    destruct (rnd_pos _ Q0) as [C D]. split.
    - apply Rle_trans with (2 := C). apply Rle_trans with (x * (1 - u) * (1 - u)); [|apply Rmult_le_compat_r; lra].
      rewrite Rmult_assoc. apply Rmult_le_compat_l; nra.
    - apply Rle_trans with (1 := D). apply Rle_trans with (x * (1 + u) * (1 + u)); [apply Rmult_le_compat_r; lra|].
      rewrite Rmult_assoc. apply Rmult_le_compat_l; nra.
  Qed.

  Lemma int_ceil_unique x k : IZR k - 1 < x <= IZR k -> int_ceil x = k.
  Proof. intros H. unfold int_ceil. rewrite (Int_part_unique _ (- k)); [lia|]. rewrite opp_IZR. lra. Qed.

  Lemma arange_clear start stop delta k : 0 < delta -> start <= stop ->
    IZR k - 1 < (stop - start) / delta * (1 - 3 * u) -> (stop - start) / delta * (1 + 3 * u) <= IZR k ->
    arange_len rnd start stop delta = k.
  Proof.
    intros Hd Hs A B. destruct (arange_quot start stop delta Hd Hs) as [C D]. unfold arange_len.
    rewrite (int_ceil_unique _ k) by lra.
    assert (0 <= k)%Z; [|lia]. apply le_IZR. apply Rle_trans with (2 := B). pose proof unit_pos.
    apply Rmult_le_pos; [|lra]. apply Rmult_le_pos; [lra|]. left; now apply Rinv_0_lt_compat.
  Qed.

  Lemma arange_multiple start stop delta n : 0 < delta -> stop - start = INR n * delta -> INR (n + 1) * u <= 1 / 8 ->
    arange_len rnd start stop delta = Z.of_nat n \/ arange_len rnd start stop delta = Z.of_nat (n + 1).
  Proof.
    intros Hd Hs Hu. pose proof unit_pos as U. pose proof (pos_INR n) as Pn.
    assert (Hle : start <= stop). { assert (0 <= INR n * delta) by (apply Rmult_le_pos; lra). lra. }
    destruct (arange_quot start stop delta Hd Hle) as [C D].
    replace ((stop - start) / delta) with (INR n) in C, D by (rewrite Hs; field; lra). rewrite plus_INR in Hu. cbn [INR] in Hu.
    unfold arange_len. set (y := rnd (rnd (stop - start) / delta)) in *.
    assert (INR n * u <= 1 / 8) by lra.
    destruct (Rle_dec y (INR n)) as [L|L].
    - left. rewrite (int_ceil_unique y (Z.of_nat n)); [lia|]. rewrite <- INR_IZR_INZ. lra.
    - right. rewrite (int_ceil_unique y (Z.of_nat (n + 1))); [lia|]. rewrite <- INR_IZR_INZ, plus_INR. cbn [INR]. lra.
  Qed.

  (** * Grids *)
  Lemma fsteps_near lo hi inc n : 0 < inc -> lo <= hi -> Rabs ((hi - lo) / inc - INR n) <= 1 / 4 -> INR (n + 2) * u <= 1 / 32 ->
    fsteps rnd lo hi inc = Z.of_nat (n + 1).
  Proof.
    intros Hi Hl Hx Hu. pose proof unit_pos as U. apply abs_le_inv in Hx. set (x := (hi - lo) / inc) in *. pose proof (pos_INR n) as Pn.
    assert (I : 0 < / inc) by now apply Rinv_0_lt_compat.
    assert (X0 : 0 <= x) by (unfold x, Rdiv; apply Rmult_le_pos; lra).
    assert (EX : hi - lo = x * inc) by (unfold x; field; lra).
    unfold fsteps. rewrite (Rabs_pos_eq inc) by lra. destruct (Req_EM_T inc 0); [lra|].
    destruct (rnd_pos (hi - lo) ltac:(lra)) as [A1 A2]. pose proof (rnd_nonneg (hi - lo) ltac:(lra)) as A0. rewrite (Rabs_pos_eq (rnd (hi - lo))) by lra.
    set (a := rnd (hi - lo)) in *. rewrite EX in A1, A2.
    assert (B : (x + 1) * inc * (1 - u) <= a + inc <= (x + 1) * inc * (1 + u)) by (assert (0 <= inc * u) by (apply Rmult_le_pos; lra); split; lra).
    destruct (rnd_pos (a + inc) ltac:(lra)) as [B1 B2]. set (b := rnd (a + inc)) in *.
    assert (C1 : (x + 1) * inc * (1 - u) * (1 - u) <= b) by (apply Rle_trans with (2 := B1); apply Rmult_le_compat_r; lra).
    assert (C2 : b <= (x + 1) * inc * (1 + u) * (1 + u)) by (apply Rle_trans with (1 := B2); apply Rmult_le_compat_r; lra).
    assert (D1 : (x + 1) * (1 - u) * (1 - u) <= b / inc).
    { replace ((x + 1) * (1 - u) * (1 - u)) with ((x + 1) * inc * (1 - u) * (1 - u) / inc) by (field; lra). apply Rmult_le_compat_r; lra. }
    assert (D2 : b / inc <= (x + 1) * (1 + u) * (1 + u)).
    { replace ((x + 1) * (1 + u) * (1 + u)) with ((x + 1) * inc * (1 + u) * (1 + u) / inc) by (field; lra). apply Rmult_le_compat_r; lra. }
    assert (D0 : 0 <= b / inc).
    { apply Rle_trans with (2 := D1). repeat apply Rmult_le_pos; lra. }
    destruct (rnd_pos (b / inc) D0) as [E1 E2].
    assert (F1 : (x + 1) * (1 - 4 * u) <= rnd (b / inc)).
    { apply Rle_trans with (2 := E1). apply Rle_trans with ((x + 1) * (1 - u) * (1 - u) * (1 - u)); [|apply Rmult_le_compat_r; lra].
      rewrite !Rmult_assoc. apply Rmult_le_compat_l; nra. }
    assert (F2 : rnd (b / inc) <= (x + 1) * (1 + 4 * u)).
    { apply Rle_trans with (1 := E2). apply Rle_trans with ((x + 1) * (1 + u) * (1 + u) * (1 + u)); [apply Rmult_le_compat_r; lra|].
      rewrite !Rmult_assoc. apply Rmult_le_compat_l; nra. }
    assert (XU : (x + 1) * (4 * u) <= 1 / 8).
    { rewrite plus_INR in Hu. cbn [INR] in Hu. assert ((x + 1) * u <= (INR n + (1 + 1)) * u) by (apply Rmult_le_compat_r; lra). lra. }
    apply py_round_near. rewrite <- INR_IZR_INZ, plus_INR. cbn [INR]. apply Rabs_def1; lra.
  Qed.

  Lemma findex_near lo hi inc x i : 0 < inc -> lo <= x <= hi -> Rabs ((x - lo) / inc - INR i) <= 1 / 4 -> INR (i + 2) * u <= 1 / 32 ->
    findex rnd lo hi inc x = inl (Z.of_nat i).
  Proof.
    intros Hi [Hl Hh] Hx Hu. pose proof unit_pos as U. apply abs_le_inv in Hx. set (y := (x - lo) / inc) in *. pose proof (pos_INR i) as Pi.
    assert (I : 0 < / inc) by now apply Rinv_0_lt_compat.
    assert (Y0 : 0 <= y) by (unfold y, Rdiv; apply Rmult_le_pos; lra).
    assert (EY : x - lo = y * inc) by (unfold y; field; lra).
    unfold findex. destruct (Rlt_dec x lo); [lra|]. destruct (Rlt_dec hi x); [lra|]. f_equal.
    destruct (rnd_pos (x - lo) ltac:(lra)) as [A1 A2]. set (a := rnd (x - lo)) in *. rewrite EY in A1, A2.
    assert (D1 : y * (1 - u) <= a / inc).
    { replace (y * (1 - u)) with (y * inc * (1 - u) / inc) by (field; lra). apply Rmult_le_compat_r; lra. }
    assert (D2 : a / inc <= y * (1 + u)).
    { replace (y * (1 + u)) with (y * inc * (1 + u) / inc) by (field; lra). apply Rmult_le_compat_r; lra. }
    assert (D0 : 0 <= a / inc) by (apply Rle_trans with (2 := D1); apply Rmult_le_pos; lra).
    destruct (rnd_pos (a / inc) D0) as [E1 E2]. set (b := rnd (a / inc)) in *.
    assert (F1 : y * (1 - u) * (1 - u) <= b) by (apply Rle_trans with (2 := E1); apply Rmult_le_compat_r; lra).
    assert (F2 : b <= y * (1 + u) * (1 + u)) by (apply Rle_trans with (1 := E2); apply Rmult_le_compat_r; lra).
    assert (B0 : 0 <= b) by now apply rnd_nonneg.
    destruct (rnd_pos (b + 1 / 2) ltac:(lra)) as [G1 G2]. set (c := rnd (b + 1 / 2)) in *.
    assert (YU : (y + 1) * u <= 1 / 32).
    { rewrite plus_INR in Hu. cbn [INR] in Hu. assert ((y + 1) * u <= (INR i + (1 + 1)) * u) by (apply Rmult_le_compat_r; lra). lra. }
    assert (YU2 : 0 <= y * u) by (apply Rmult_le_pos; lra).
    assert (H1 : y - 1 / 16 <= b) by nra.
    assert (H2 : b <= y + 3 / 32) by nra.
    assert (K1 : y + 1 / 2 - 1 / 8 <= c) by nra.
    assert (K2 : c <= y + 1 / 2 + 1 / 8) by nra.
    rewrite int_floor_trunc by (unfold c; apply rnd_nonneg; lra). apply Int_part_unique. rewrite <- INR_IZR_INZ. lra.
  Qed.

  Lemma fpos_near lo hi n k : (2 <= n)%Z -> (0 <= k <= n - 1)%Z -> lo <= hi ->
    Rabs (fpos rnd lo hi n k - axis_pos lo hi n k) <= 7 * u * (Rabs lo + Rabs hi).
  Proof.
    intros Hn Hk Hl. pose proof unit_pos as U. unfold fpos, axis_pos. destruct (Z.eqb_spec n 1); [lia|]. rename n0 into _n.
    assert (N1 : 1 <= IZR (n - 1)) by (apply IZR_le; lia). assert (I : 0 < / IZR (n - 1)) by (apply Rinv_0_lt_compat; lra).
    assert (K0 : 0 <= IZR k) by (apply IZR_le; lia). assert (K1 : IZR k <= IZR (n - 1)) by (apply IZR_le; lia).
    set (s := (hi - lo) / IZR (n - 1)). assert (S0 : 0 <= s) by (unfold s, Rdiv; apply Rmult_le_pos; lra).
    destruct (rnd_pos (hi - lo) ltac:(lra)) as [A1 A2]. set (a := rnd (hi - lo)) in *.
    assert (B1 : s * (1 - u) <= a / IZR (n - 1)).
    { replace (s * (1 - u)) with ((hi - lo) * (1 - u) / IZR (n - 1)) by (unfold s; field; lra). apply Rmult_le_compat_r; lra. }
    assert (B2 : a / IZR (n - 1) <= s * (1 + u)).
    { replace (s * (1 + u)) with ((hi - lo) * (1 + u) / IZR (n - 1)) by (unfold s; field; lra). apply Rmult_le_compat_r; lra. }
    assert (B0 : 0 <= a / IZR (n - 1)) by (apply Rle_trans with (2 := B1); apply Rmult_le_pos; lra).
    destruct (rnd_pos _ B0) as [C1 C2]. set (st := rnd (a / IZR (n - 1))) in *.
    assert (C0 : 0 <= st) by now apply rnd_nonneg.
    assert (D1 : s * (1 - u) * (1 - u) <= st) by (apply Rle_trans with (2 := C1); apply Rmult_le_compat_r; lra).
    assert (D2 : st <= s * (1 + u) * (1 + u)) by (apply Rle_trans with (1 := C2); apply Rmult_le_compat_r; lra).
    set (T := IZR k * s).
    assert (T0 : 0 <= T) by (apply Rmult_le_pos; lra).
    assert (T1 : T <= hi - lo).
    { unfold T. apply Rle_trans with (IZR (n - 1) * s); [apply Rmult_le_compat_r; lra|]. right. unfold s. field. lra. }
    assert (E1 : T * ((1 - u) * (1 - u)) <= IZR k * st).
    { unfold T. rewrite Rmult_assoc. apply Rmult_le_compat_l; [lra|]. lra. }
    assert (E2 : IZR k * st <= T * ((1 + u) * (1 + u))).
    { unfold T. rewrite Rmult_assoc. apply Rmult_le_compat_l; [lra|]. lra. }
    destruct (rnd_pos (IZR k * st) ltac:(apply Rmult_le_pos; lra)) as [F1 F2]. set (t := rnd (IZR k * st)) in *.
    assert (G1 : T * (1 - 4 * u) <= t).
    { apply Rle_trans with (2 := F1). apply Rle_trans with (T * ((1 - u) * (1 - u)) * (1 - u)); [|apply Rmult_le_compat_r; lra].
      rewrite Rmult_assoc. apply Rmult_le_compat_l; nra. }
    assert (G2 : t <= T * (1 + 4 * u)).
    { apply Rle_trans with (1 := F2). apply Rle_trans with (T * ((1 + u) * (1 + u)) * (1 + u)); [apply Rmult_le_compat_r; lra|].
      rewrite Rmult_assoc. apply Rmult_le_compat_l; nra. }
    assert (TU : 0 <= T * u <= (Rabs lo + Rabs hi) * u).
    { split; [apply Rmult_le_pos; lra|]. apply Rmult_le_compat_r; [lra|]. pose proof (Rle_abs hi). pose proof (Rle_abs (- lo)). rewrite Rabs_Ropp in H0. lra. }
    assert (TL : T + lo <= Rabs hi /\ - Rabs lo <= T + lo).
    { pose proof (Rle_abs hi). pose proof (Rle_abs (- lo)). rewrite Rabs_Ropp in H0. lra. }
    pose proof (r_err rnd u RD (t + lo)) as E.
    assert (AB : Rabs (t + lo) <= Rabs lo + Rabs hi + 4 * (T * u)).
    { pose proof (Rabs_pos hi). pose proof (Rabs_pos lo). apply Rabs_le. lra. }
    assert (UA : u * Rabs (t + lo) <= u * (Rabs lo + Rabs hi + 4 * (T * u))) by (apply Rmult_le_compat_l; lra).
    assert (UU : u * (T * u) <= (Rabs lo + Rabs hi) * u / 1024).
    { apply Rle_trans with (1 / 1024 * (T * u)); [apply Rmult_le_compat_r; lra|lra]. }
    apply abs_le_inv in E. apply Rabs_le. split; lra.
  Qed.

  Lemma fpos_lower lo hi n k : (1 <= n)%Z -> (0 <= k)%Z -> lo <= hi -> rnd lo = lo -> lo <= fpos rnd lo hi n k.
  Proof.
    intros Hn Hk Hl E. unfold fpos. rewrite <- E at 1. apply (r_mono rnd u RD).
    assert (0 <= rnd (IZR k * (if (n =? 1)%Z then 1 else rnd (rnd (hi - lo) / IZR (n - 1))))); [|lra].
    apply rnd_nonneg, Rmult_le_pos; [apply IZR_le; lia|]. destruct (Z.eqb_spec n 1); [lra|].
    apply rnd_nonneg, Rmult_le_pos; [apply rnd_nonneg; lra|]. left. apply Rinv_0_lt_compat, IZR_lt. lia.
  Qed.

  (** * Lines *)
  Lemma fline_near fs bs k : 0 < fs -> (0 < bs)%nat ->
    let f := INR k * fs / INR bs in f * (1 - 6 * u) <= fline rnd fs bs k <= f * (1 + 6 * u).
  Proof.
    intros Hf Hb f. pose proof unit_pos as U. assert (Pb : 0 < INR bs) by now apply lt_0_INR.
    assert (I : 0 < / fs) by now apply Rinv_0_lt_compat. pose proof (pos_INR k) as Pk.
    unfold fline. destruct (rnd_pos (1 / fs) ltac:(unfold Rdiv; lra)) as [A1 A2]. set (d := rnd (1 / fs)) in *.
    assert (D0 : 0 < d). { apply Rlt_le_trans with (2 := A1). apply Rmult_lt_0_compat; [unfold Rdiv|]; lra. }
    destruct (rnd_pos (INR bs * d) ltac:(apply Rmult_le_pos; lra)) as [B1 B2]. set (m := rnd (INR bs * d)) in *.
    set (F := fs / INR bs). assert (IB : 0 < / INR bs) by now apply Rinv_0_lt_compat.
    assert (F0 : 0 < F) by (unfold F, Rdiv; apply Rmult_lt_0_compat; lra).
    assert (E0 : F * (INR bs * (1 / fs)) = 1) by (unfold F; field; lra).
    assert (M1 : (1 - u) * (1 - u) <= m * F).
    { apply Rle_trans with (INR bs * (1 / fs * (1 - u)) * (1 - u) * F).
      - right. transitivity (F * (INR bs * (1 / fs)) * ((1 - u) * (1 - u))); [rewrite E0; ring|ring].
      - apply Rmult_le_compat_r; [lra|]. apply Rle_trans with (2 := B1). apply Rmult_le_compat_r; [lra|]. apply Rmult_le_compat_l; lra. }
    assert (M2 : m * F <= (1 + u) * (1 + u)).
    { apply Rle_trans with (INR bs * (1 / fs * (1 + u)) * (1 + u) * F).
      - apply Rmult_le_compat_r; [lra|]. apply Rle_trans with (1 := B2). apply Rmult_le_compat_r; [lra|]. apply Rmult_le_compat_l; lra.
      - right. transitivity (F * (INR bs * (1 / fs)) * ((1 + u) * (1 + u))); [ring|rewrite E0; ring]. }
    assert (M0 : 0 < m).
    { apply Rmult_lt_reg_r with F; [lra|]. rewrite Rmult_0_l. apply Rlt_le_trans with (2 := M1). apply Rmult_lt_0_compat; lra. }
    assert (IM : 0 < / m) by now apply Rinv_0_lt_compat.
    assert (V1 : F * (1 - 2 * u) <= 1 / m).
    { apply Rmult_le_reg_r with m; [lra|]. replace (1 / m * m) with 1 by (field; lra).
      apply Rle_trans with ((1 + u) * (1 + u) * (1 - 2 * u)); [|nra].
      replace (F * (1 - 2 * u) * m) with (m * F * (1 - 2 * u)) by ring. apply Rmult_le_compat_r; lra. }
    assert (V2 : 1 / m <= F * (1 + 3 * u)).
    { apply Rmult_le_reg_r with m; [lra|]. replace (1 / m * m) with 1 by (field; lra).
      apply Rle_trans with ((1 - u) * (1 - u) * (1 + 3 * u)); [nra|].
      replace (F * (1 + 3 * u) * m) with (m * F * (1 + 3 * u)) by ring. apply Rmult_le_compat_r; lra. }
    destruct (rnd_pos (1 / m) ltac:(unfold Rdiv; lra)) as [C1 C2]. set (v := rnd (1 / m)) in *.
    assert (W1 : F * ((1 - 2 * u) * (1 - u)) <= v).
    { apply Rle_trans with (2 := C1). rewrite <- Rmult_assoc. apply Rmult_le_compat_r; lra. }
    assert (W2 : v <= F * ((1 + 3 * u) * (1 + u))).
    { apply Rle_trans with (1 := C2). rewrite <- Rmult_assoc. apply Rmult_le_compat_r; lra. }
    assert (V0 : 0 <= v) by (apply rnd_nonneg; unfold Rdiv; lra).
    destruct (rnd_pos (INR k * v) ltac:(apply Rmult_le_pos; lra)) as [G1 G2].
    assert (EF : f = INR k * F) by (unfold f, F, Rdiv; ring). rewrite EF.
    assert (KF : 0 <= INR k * F) by (apply Rmult_le_pos; lra). split.
    - apply Rle_trans with (2 := G1). apply Rle_trans with (INR k * F * ((1 - 2 * u) * (1 - u) * (1 - u))).
      + apply Rmult_le_compat_l; nra.
      + replace (INR k * F * ((1 - 2 * u) * (1 - u) * (1 - u))) with (INR k * (F * ((1 - 2 * u) * (1 - u))) * (1 - u)) by ring.
        apply Rmult_le_compat_r; [lra|]. apply Rmult_le_compat_l; lra.
    - apply Rle_trans with (1 := G2). apply Rle_trans with (INR k * F * ((1 + 3 * u) * (1 + u) * (1 + u))).
      + replace (INR k * F * ((1 + 3 * u) * (1 + u) * (1 + u))) with (INR k * (F * ((1 + 3 * u) * (1 + u))) * (1 + u)) by ring.
        apply Rmult_le_compat_r; [lra|]. apply Rmult_le_compat_l; lra.
      + apply Rmult_le_compat_l; nra.
  Qed.

  Lemma fline_step fs bs k : 0 < fs -> (0 < bs)%nat -> (2 * k + 1 <= bs)%nat -> INR bs * u <= 1 / 16 ->
    fline rnd fs bs k < fline rnd fs bs (k + 1).
  Proof.
    intros Hf Hb Hk Hu. pose proof unit_pos as U. assert (Pb : 0 < INR bs) by now apply lt_0_INR.
    destruct (fline_near fs bs k Hf Hb) as [_ B]. destruct (fline_near fs bs (k + 1) Hf Hb) as [A _].
    apply Rle_lt_trans with (1 := B). apply Rlt_le_trans with (2 := A).
    assert (IB : 0 < / INR bs) by now apply Rinv_0_lt_compat. set (F := fs / INR bs).
    assert (F0 : 0 < F) by (unfold F, Rdiv; apply Rmult_lt_0_compat; lra).
    replace (INR k * fs / INR bs * (1 + 6 * u)) with (F * (INR k * (1 + 6 * u))) by (unfold F, Rdiv; ring).
    replace (INR (k + 1) * fs / INR bs * (1 - 6 * u)) with (F * (INR (k + 1) * (1 - 6 * u))) by (unfold F, Rdiv; ring).
    apply Rmult_lt_compat_l; [exact F0|]. assert (L : INR (2 * k + 1) * u <= INR bs * u) by (apply Rmult_le_compat_r; [lra|]; apply le_INR; lia).
    rewrite !plus_INR, mult_INR in *. cbn [INR] in *. lra.
  Qed.

  Lemma increasing_map (g : nat -> R) : forall n a, (forall k, (a <= k)%nat -> (k + 1 < a + n)%nat -> g k < g (k + 1)%nat) ->
    increasing (map g (seq a n)).
  Proof.
    induction n as [|n IH]; intros a H; cbn; [exact Logic.I|]. split.
    - destruct n; cbn; [exact Logic.I|]. replace (S a) with (a + 1)%nat by lia. apply H; lia.
    - apply IH. intros k H1 H2. apply H; lia.
  Qed.

  Lemma flines_increasing fs bs : 0 < fs -> (0 < bs)%nat -> INR bs * u <= 1 / 16 -> increasing (flines rnd fs bs).
  Proof.
    intros Hf Hb Hu. apply increasing_map. intros k _ H. apply fline_step; auto. pose proof (Nat.div_mod bs 2 ltac:(lia)). lia.
  Qed.

  (** searchsorted in values given by a function *)
  Lemma search_map (g : nat -> R) f : forall n a k, (a <= k < a + n)%nat -> (forall j, (a <= j < k)%nat -> g j < f) -> f <= g k ->
    searchsorted (map g (seq a n)) f = (k - a)%nat.
  Proof.
    induction n as [|n IH]; intros a k Hk H1 H2; [lia|]. cbn. destruct (Nat.eq_dec a k) as [->|N].
    - destruct (Rlt_dec (g k) f); [lra|lia].
    - destruct (Rlt_dec (g a) f) as [L|L]; [|exfalso; apply L, H1; lia].
      rewrite (IH (S a) k); [lia|lia| |exact H2]. intros j Hj. apply H1. lia.
  Qed.
  Lemma fline_lt fs bs j k : 0 < fs -> (0 < bs)%nat -> INR bs * u <= 1 / 16 -> (j < k)%nat -> (2 * k <= bs)%nat ->
    fline rnd fs bs j < fline rnd fs bs k.
  Proof.
    intros Hf Hb Hu H. induction H as [|k H IH]; intros Hk.
    - replace (S j) with (j + 1)%nat by lia. apply fline_step; auto; lia.
    - apply Rlt_trans with (fline rnd fs bs k); [apply IH; lia|]. replace (S k) with (k + 1)%nat by lia. apply fline_step; auto; lia.
  Qed.
End Counts.
