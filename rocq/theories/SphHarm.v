(** SphericalHarmonicSource (properties C82, C83; sources.py:172-317, 948-1078).

    Modelled: angles, order of the modes, real part of the filtered block, the
    loop over the samples.
    Not modelled: the Legendre functions inside scipy.special.sph_harm (any
    functions [P] here), float rounding. *)
From Coq Require Import List Arith Lia ZArith Bool Reals Lra.
From Verif Require Import Stream Cplx Convolve Fourier Wav Environ PointSources Dipole.
Import ListNotations.
Local Open Scope R_scope.

(* ------------------------------------------------------------------ *)
(** * Angles *)

(** [numpy.mod] with a positive divisor. *)
Definition np_mod (x d : R) : R := x - IZR (Int_part (x / d)) * d.

(** get_radiation_angles for one microphone, sources.py:225-245: (azi, ele). *)
Definition radiation_angles (direction m loc : v3) : R * R :=
  let d := vunit direction in
  let s := vsub m loc in
  let s := V3 (v3x s) (v3y s) (- v3z s) in
  let ele := atan2 (sqrt (v3x s * v3x s + v3z s * v3z s)) (v3y s)
             + atan2 (sqrt (v3x d * v3x d + v3z d * v3z d)) (v3y d) + PI * (1 / 2) in
  let azi := np_mod (atan2 (v3z s) (v3x s) + atan2 (v3z d) (v3x d)) (2 * PI) in
  (azi, ele).

(** scipy.special.sph_harm(m, l, azi, ele). [P l m ele]: normalised associated
    Legendre function of cos(ele), m >= 0. *)
Definition sph_harm (P : nat -> nat -> R -> R) (m : Z) (l : nat) (azi ele : R) : C :=
  let k := Z.abs_nat m in
  let y := Cmul (RtoC (P l k ele)) (cexp (INR k * azi)) in
  if (m <? 0)%Z then Cmul (RtoC ((-1) ^ k)) (Conj y) else y.

(** [range(-l, l + 1)] *)
Definition orders (l : nat) : list Z := map (fun j => (Z.of_nat j - Z.of_nat l)%Z) (seq 0 (2 * l + 1)).

(** get_modes for one microphone, sources.py:307-317. *)
Definition get_modes (P : nat -> nat -> R -> R) (order : nat) (direction m loc : v3) : list C :=
  let '(azi, ele) := radiation_angles direction m loc in
  flat_map (fun l => map (fun q =>
      let y := sph_harm P q l azi ele in
      if (q <? 0)%Z then Cmul (Conj y) Ci else y) (orders l)) (seq 0 (order + 1)).

(* ------------------------------------------------------------------ *)
(** * The source *)

(** [sh_mono]: signal, env.c, sample_freq, up, start_t, start, direction, loc. *)
Record sph := mkSph { sh_mono : dipole; sh_order : nat; sh_alpha : list C }.

Fixpoint cdot (a b : list C) : C :=
  match a, b with x :: a', y :: b' => Cadd (Cmul x y) (cdot a' b') | _, _ => C0 end.

(** [Y_lm @ self.alpha], sources.py:1029; [None] is ValueError (shapes). *)
Definition sph_gain P (o : sph) (m : v3) : option C :=
  let y := get_modes P (sh_order o) (d_dir (sh_mono o)) m (d_loc (sh_mono o)) in
  if (length y =? length (sh_alpha o))%nat then Some (cdot y (sh_alpha o)) else None.

(** [real(ifft(fft(signals, axis=0) * g, axis=0))], sources.py:1029; [g] one
    factor per channel. *)
Definition sph_transform (g : list C) (block : list (list R)) : list (list R) :=
  let n := length block in
  map (fun j => map (fun c =>
      re (idft n (fun k => Cmul (dft n (fun i => RtoC (col c block i)) k) (nth c g C0)) j))
    (seq 0 (length g))) (seq 0 n).

(** Row [k] before the transformation, sources.py:1059-1067. *)
Definition sph_row (rd : v3 -> v3 -> R) (o : sph) (mics : list v3) (k : nat) : option (list R) :=
  let d := sh_mono o in
  np_row (d_signal d) (map (fun m =>
    let r := rd (d_loc d) m in
    (((- r / d_c d - d_start_t d + d_start d) * d_fs d + PI / 30 + INR k) * INR (d_up d), r)) mics).

(** SphericalHarmonicSource.result, sources.py:1031-1078. A wrong number of
    coefficients is noticed when the first block is transformed. *)
Definition sph_source P rd (o : sph) (mics : list v3) (ns num : nat) : trace (list R) :=
  match sequence (map (sph_gain P o) mics) with
  | Some g => done (sample_loop (sph_row rd o mics) (sph_transform g) (flush_checked (sph_transform g)) num ns 0 [])
  | None => match ns, sph_row rd o mics 0 with
            | S _, Some _ => raise ValueError
            | _, _ => done []
            end
  end.

(* ------------------------------------------------------------------ *)
(** * Specification *)

(** Real spherical harmonics: cosine of m times the azimuth for m >= 0, sine
    for m < 0. *)
Definition real_harm (P : nat -> nat -> R -> R) (l : nat) (m : Z) (azi ele : R) : R :=
  let k := Z.abs_nat m in
  if (m <? 0)%Z then - (-1) ^ k * P l k ele * sin (INR k * azi) else P l k ele * cos (INR k * azi).

(** Sum over the modes (l, m), -l <= m <= l; coefficient l^2 + l + m. *)
Definition directivity P (order : nat) (a : list R) (azi ele : R) : R :=
  rsumn (order + 1) (fun l => rsumn (2 * l + 1) (fun j =>
    nth (l * l + j) a 0 * real_harm P l (Z.of_nat j - Z.of_nat l)%Z azi ele)).

(** The same source, its start later by [s] samples. *)
Definition later (s : R) (o : dipole) : dipole :=
  mkDipole (d_signal o) (d_c o) (d_fs o) (d_up o) (d_start_t o) (d_start o + s / d_fs o) (d_dir o) (d_loc o).

(** A point source (1/r, delay r/c) with a factor for each microphone. *)
Definition weighted_monopole (rd : v3 -> v3 -> R) (o : dipole) (f : v3 -> R) (k : nat) (m : v3) : R :=
  emitted o k (rd (d_loc o) m) / rd (d_loc o) m * f m.

(* ------------------------------------------------------------------ *)
(** * Lemmas *)

Lemma scaled_dft n x (g : C) j : (j < n)%nat ->
  re (idft n (fun k => Cmul (dft n (fun i => RtoC (x i)) k) g) j) = x j * re g.
Proof.
  intros Hj.
  rewrite (idft_ext n _ (dft n (fun i => Cmul g (RtoC (x i)))) j).
  2:{ intros k Hk. rewrite dft_scal. ring. }
  rewrite idft_dft by assumption. destruct g as [a b]. unfold Cmul, RtoC, re. cbn [fst snd]. ring.
Qed.

Definition scaled (g : list C) (row : list R) : list R := map (fun '(x, z) => x * re z) (combine row g).

Lemma combine_seq (f : nat -> R) (g : list C) :
  map (fun c => (f c, nth c g C0)) (seq 0 (length g)) = combine (map f (seq 0 (length g))) g.
Proof.
  revert f. induction g as [|z g IH]; intros f; [reflexivity|].
  cbn [length seq map combine nth]. f_equal.
  rewrite <- seq_shift, !map_map. apply (IH (fun c => f (S c))).
Qed.

Lemma transform_scaled g block : rect (length g) block -> sph_transform g block = map (scaled g) block.
Proof.
  intros Hr. unfold sph_transform.
  transitivity (map (scaled g) (map (fun m => map (fun c => col c block m) (seq 0 (length g))) (seq 0 (length block)))).
  2:{ f_equal. now apply rows_of_cols. }
  rewrite map_map. apply map_ext_in. intros j Hj. apply in_seq in Hj. cbn [Nat.add] in Hj.
  transitivity (map (fun c => col c block j * re (nth c g C0)) (seq 0 (length g))).
  - apply map_ext_in. intros c _. apply scaled_dft. lia.
  - unfold scaled. rewrite <- (map_map (fun c => (col c block j, nth c g C0)) (fun '(x, z) => x * re z)).
    f_equal. apply (combine_seq (fun c => col c block j)).
Qed.


Lemma sph_index o r k :
  d_fs o <> 0 ->
  ((- r / d_c o - d_start_t o + d_start o) * d_fs o + PI / 30 + INR k) * INR (d_up o)
  = (pole_ind (later (PI / 30) o) r + INR k) * INR (d_up (later (PI / 30) o)).
Proof.
  intros H. unfold pole_ind, later. cbn [d_signal d_c d_fs d_up d_start_t d_start d_dir d_loc]. unfold Rdiv.
  transitivity (((- r * / d_c o - d_start_t o + d_start o) * d_fs o + PI * / 30 * (/ d_fs o * d_fs o) + INR k) * INR (d_up o)).
  - rewrite Rinv_l by assumption. ring.
  - ring.
Qed.

Lemma sph_rows rd o mics ns k :
  let d := sh_mono o in
  length (d_signal d) = (d_up d * ns)%nat -> (0 < d_up d)%nat -> d_fs d <> 0 -> (k < ns)%nat ->
  (forall m, In m mics -> in_signal (later (PI / 30) d) ns (rd (d_loc d) m)) ->
  sph_row rd o mics k = Some (map (weighted_monopole rd (later (PI / 30) d) (fun _ => 1) k) mics).
Proof.
  intros d HL Hup Hfs Hk H. unfold sph_row, np_row. rewrite map_map. apply sequence_some. intros m Hm.
  fold d. rewrite sph_index by assumption.
  change (d_signal d) with (d_signal (later (PI / 30) d)).
  rewrite (pole_sample (later (PI / 30) d) ns _ k HL Hup Hfs Hk (H m Hm)).
  unfold weighted_monopole. now rewrite Rmult_1_r.
Qed.

Theorem sph_spec P rd o mics g ns num :
  let d := sh_mono o in
  (0 < num)%nat -> length (d_signal d) = (d_up d * ns)%nat -> (0 < d_up d)%nat -> d_fs d <> 0 ->
  (forall m, In m mics -> in_signal (later (PI / 30) d) ns (rd (d_loc d) m)) ->
  (forall m, In m mics -> sph_gain P o m = Some (g m)) ->
  delivers num (map (fun k => map (weighted_monopole rd (later (PI / 30) d) (fun m => re (g m)) k) mics) (seq 0 ns))
    (sph_source P rd o mics ns num).
Proof.
  intros d Hn HL Hup Hfs H Hg. unfold sph_source. rewrite (sequence_some _ g) by assumption.
  set (rows := map (fun k => map (weighted_monopole rd (later (PI / 30) d) (fun _ => 1) k) mics) (seq 0 ns)).
  rewrite (sample_loop_checked _ _ num ns rows Hn).
  - rewrite (map_ext_in (sph_transform (map g mics)) (map (scaled (map g mics)))).
    + rewrite chunks_map by assumption. unfold rows. rewrite map_map.
      assert (E : forall k, scaled (map g mics) (map (weighted_monopole rd (later (PI / 30) d) (fun _ => 1) k) mics)
                  = map (weighted_monopole rd (later (PI / 30) d) (fun m => re (g m)) k) mics).
      { intros k. unfold scaled, weighted_monopole. clear.
        induction mics as [|m mics IH]; [reflexivity|]. cbn [map combine]. rewrite IH. f_equal. ring. }
      rewrite (map_ext _ _ E). now apply delivers_chunks.
    + intros b Hb. apply transform_scaled. rewrite map_length. intros r Hr.
      assert (I : In r rows) by (rewrite <- (concat_chunks num rows) by assumption; apply in_concat; eauto).
      unfold rows in I. apply in_map_iff in I. destruct I as (k & <- & _). now rewrite map_length.
  - unfold allowed, rows. rewrite map_length, seq_length. split; [lia|]. split; [|lia].
    intros k Hk. rewrite (sph_rows rd o mics ns k HL Hup Hfs Hk H).
    rewrite nth_error_map, (nth_error_nth' _ 0%nat) by (now rewrite seq_length).
    cbn [option_map]. now rewrite seq_nth.
Qed.

(** ** The modes *)

Definition mode_of P (azi ele : R) (l : nat) (q : Z) : C :=
  let y := sph_harm P q l azi ele in if (q <? 0)%Z then Cmul (Conj y) Ci else y.

Lemma mode_re P azi ele l q : re (mode_of P azi ele l q) = real_harm P l q azi ele.
Proof.
  unfold mode_of, sph_harm, real_harm, cexp, Cmul, Conj, RtoC, Ci, re. cbv zeta.
  destruct (q <? 0)%Z; cbn [fst snd]; ring.
Qed.

Lemma cdot_app a1 a2 b1 b2 : length a1 = length b1 ->
  cdot (a1 ++ a2) (b1 ++ b2) = Cadd (cdot a1 b1) (cdot a2 b2).
Proof.
  revert b1. induction a1 as [|x a1 IH]; intros [|y b1] E; try discriminate; cbn [app cdot].
  - ring.
  - rewrite IH by (now injection E). ring.
Qed.

Lemma cdot_block (f : nat -> C) n a : length a = n ->
  re (cdot (map f (seq 0 n)) (map RtoC a)) = rsumn n (fun j => nth j a 0 * re (f j)).
Proof.
  intros <-. revert f. induction a as [|x a IH]; intros f; [reflexivity|].
  cbn [length]. rewrite rsumn_first. cbn [seq map cdot]. rewrite re_add. cbn [nth]. f_equal.
  - destruct (f 0%nat). unfold Cmul, RtoC, re. cbn [fst snd]. ring.
  - rewrite <- seq_shift, map_map, (IH (fun j => f (S j))). reflexivity.
Qed.

Lemma modes_length (h : nat -> Z -> C) n : length (flat_map (fun l => map (h l) (orders l)) (seq 0 n)) = (n * n)%nat.
Proof.
  induction n as [|n IH]; [reflexivity|]. rewrite seq_S, flat_map_app, app_length, IH. cbn [Nat.add flat_map].
  rewrite app_nil_r, map_length. unfold orders. rewrite map_length, seq_length. lia.
Qed.

Lemma modes_dot (h : nat -> Z -> C) n a : length a = (n * n)%nat ->
  re (cdot (flat_map (fun l => map (h l) (orders l)) (seq 0 n)) (map RtoC a))
  = rsumn n (fun l => rsumn (2 * l + 1) (fun j => nth (l * l + j) a 0 * re (h l (Z.of_nat j - Z.of_nat l)%Z))).
Proof.
  revert a. induction n as [|n IH]; intros a Ha; [reflexivity|].
  cbn [rsumn]. rewrite seq_S, flat_map_app. cbn [Nat.add flat_map]. rewrite app_nil_r.
  rewrite <- (firstn_skipn (n * n) a) at 1. rewrite map_app.
  assert (L1 : length (firstn (n * n) a) = (n * n)%nat) by (rewrite firstn_length; lia).
  assert (L2 : length (skipn (n * n) a) = (2 * n + 1)%nat) by (rewrite skipn_length; lia).
  rewrite cdot_app by (now rewrite modes_length, map_length). rewrite re_add. f_equal.
  - rewrite (IH _ L1). apply rsumn_ext. intros l Hl. apply rsumn_ext. intros j Hj.
    rewrite <- (firstn_skipn (n * n) a) at 2. rewrite app_nth1 by (rewrite L1; nia). reflexivity.
  - unfold orders. rewrite map_map. rewrite cdot_block by assumption. apply rsumn_ext. intros j Hj.
    f_equal. rewrite <- (firstn_skipn (n * n) a) at 2. rewrite app_nth2 by lia. f_equal. lia.
Qed.

Theorem gain_directivity P o m a :
  sh_alpha o = map RtoC a -> length a = ((sh_order o + 1) * (sh_order o + 1))%nat ->
  exists g, sph_gain P o m = Some g
    /\ re g = (let '(azi, ele) := radiation_angles (d_dir (sh_mono o)) m (d_loc (sh_mono o)) in
               directivity P (sh_order o) a azi ele).
Proof.
  intros Ea La. unfold sph_gain, get_modes.
  destruct (radiation_angles (d_dir (sh_mono o)) m (d_loc (sh_mono o))) as [azi ele].
  change (fun l => map (fun q => let y := sph_harm P q l azi ele in if (q <? 0)%Z then Cmul (Conj y) Ci else y) (orders l))
    with (fun l => map (mode_of P azi ele l) (orders l)).
  rewrite modes_length, Ea, map_length, La, Nat.eqb_refl. eexists. split; [reflexivity|].
  rewrite (modes_dot (mode_of P azi ele)) by assumption. unfold directivity. apply rsumn_ext. intros l Hl. apply rsumn_ext. intros j Hj.
  now rewrite mode_re.
Qed.

(** ** Angles *)

Lemma np_mod_range x d : 0 < d -> 0 <= np_mod x d < d.
Proof.
  intros Hd. unfold np_mod. destruct (base_Int_part (x / d)) as [A B].
  assert (E : x = x / d * d) by (field; lra). split; rewrite E at 1; nra.
Qed.

Lemma cexp_2PI_Z z : cexp (2 * PI * IZR z) = C1.
Proof.
  destruct z as [|p|p].
  - rewrite Rmult_0_r. apply cexp_0.
  - rewrite <- (positive_nat_Z p), <- INR_IZR_INZ. apply cexp_2PI_nat.
  - change (Z.neg p) with (- Z.pos p)%Z. rewrite opp_IZR.
    replace (2 * PI * - IZR (Z.pos p)) with (- (2 * PI * IZR (Z.pos p))) by ring.
    rewrite <- cexp_conj, <- (positive_nat_Z p), <- INR_IZR_INZ, cexp_2PI_nat. apply Conj_1.
Qed.

Lemma cexp_mod x : cexp (np_mod x (2 * PI)) = cexp x.
Proof.
  unfold np_mod. set (z := Int_part _).
  replace (x - IZR z * (2 * PI)) with (x + 2 * PI * IZR (- z)) by (rewrite opp_IZR; ring).
  rewrite cexp_add, cexp_2PI_Z. ring.
Qed.

Lemma cexp_pow k x : cexp (INR k * x) = Nat.iter k (Cmul (cexp x)) C1.
Proof.
  induction k as [|k IH].
  - change (INR 0) with 0. rewrite Rmult_0_l. apply cexp_0.
  - rewrite S_INR. change (Nat.iter (S k) (Cmul (cexp x)) C1) with (Cmul (cexp x) (Nat.iter k (Cmul (cexp x)) C1)).
    rewrite <- IH, <- cexp_add. f_equal. ring.
Qed.

(** The amplitude depends on the azimuth through its direction only. *)
Lemma mode_azi P azi azi' ele l q : cexp azi = cexp azi' -> mode_of P azi ele l q = mode_of P azi' ele l q.
Proof.
  intros E. unfold mode_of, sph_harm. cbv zeta. now rewrite !cexp_pow, E.
Qed.

Lemma sqrt_ss_pos x y : x <> 0 \/ y <> 0 -> 0 < sqrt (x * x + y * y).
Proof. intros H. apply sqrt_lt_R0. destruct H; nra. Qed.

Lemma cexp_atan2 y x : x <> 0 \/ y <> 0 ->
  cexp (atan2 y x) = (x / sqrt (x * x + y * y), y / sqrt (x * x + y * y)).
Proof.
  intros H. pose proof (sqrt_ss_pos x y H). destruct (atan2_polar x y) as [A B]. unfold cexp.
  set (r := sqrt (x * x + y * y)) in *.
  apply C_ext; cbn [fst snd]; (apply (Rmult_eq_reg_l r); [|lra]); [rewrite A|rewrite B]; field; lra.
Qed.

Lemma atan2_range s y : 0 <= s -> 0 <= atan2 s y <= PI.
Proof.
  intros Hs. pose proof PI_RGT_0. unfold atan2.
  destruct (Rlt_dec 0 y) as [Hy|Hy].
  - pose proof (atan_bound (s / y)).
    assert (0 <= s / y) by (unfold Rdiv; apply Rmult_le_pos; [assumption|left; now apply Rinv_0_lt_compat]).
    assert (0 <= atan (s / y)).
    { destruct (Req_dec (s / y) 0) as [->|]; [rewrite atan_0; lra|]. rewrite <- atan_0. left. apply atan_increasing. lra. }
    lra.
  - destruct (Rlt_dec y 0) as [Hy2|Hy2].
    + destruct (Rle_dec 0 s) as [_|]; [|lra]. pose proof (atan_bound (s / y)).
      assert (s / y <= 0).
      { replace (s / y) with (- (s * / - y)) by (field; lra).
        assert (0 < / - y) by (apply Rinv_0_lt_compat; lra). nra. }
      assert (atan (s / y) <= 0).
      { destruct (Req_dec (s / y) 0) as [->|]; [rewrite atan_0; lra|].
        pose proof (atan_increasing (s / y) 0 ltac:(lra)) as Q. rewrite atan_0 in Q. lra. }
      lra.
    + destruct (Rlt_dec 0 s); [lra|]. destruct (Rlt_dec s 0); lra.
Qed.

Theorem azi_range direction m loc : 0 <= fst (radiation_angles direction m loc) < 2 * PI.
Proof. unfold radiation_angles. cbn [fst]. apply np_mod_range. pose proof PI_RGT_0. lra. Qed.

Theorem ele_range direction m loc : PI / 2 <= snd (radiation_angles direction m loc) <= 5 * PI / 2.
Proof.
  unfold radiation_angles. cbn [snd v3x v3y v3z]. set (d := vunit direction). set (s := vsub m loc).
  pose proof (atan2_range _ (v3y s) (sqrt_pos (v3x s * v3x s + - v3z s * - v3z s))).
  pose proof (atan2_range _ (v3y d) (sqrt_pos (v3x d * v3x d + v3z d * v3z d))). lra.
Qed.

(** ** Rotations *)

(** Rotation by [b] about the y axis, and by 90 degrees about the z axis. *)
Definition rot_y (b : R) (p : v3) : v3 :=
  V3 (v3x p * cos b + v3z p * sin b) (v3y p) (v3z p * cos b - v3x p * sin b).
Definition rot_z90 (p : v3) : v3 := V3 (- v3y p) (v3x p) (v3z p).

(** The source turned by [f]. *)
Definition turned (f : v3 -> v3) (o : sph) : sph :=
  let d := sh_mono o in
  mkSph (mkDipole (d_signal d) (d_c d) (d_fs d) (d_up d) (d_start_t d) (d_start d) (f (d_dir d)) (d_loc d))
    (sh_order o) (sh_alpha o).

(** A microphone turned about the source by [f]. *)
Definition turned_mic (f : v3 -> v3) (loc m : v3) : v3 := vadd loc (f (vsub m loc)).

Lemma rot_y_ss b x z :
  (x * cos b + z * sin b) * (x * cos b + z * sin b) + (z * cos b - x * sin b) * (z * cos b - x * sin b) = x * x + z * z.
Proof.
  pose proof (sin2_cos2 b) as E. unfold Rsqr in E.
  replace (x * x + z * z) with ((x * x + z * z) * (sin b * sin b + cos b * cos b)) by (rewrite E; ring). ring.
Qed.

Lemma rot_y_norm b p : vnorm (rot_y b p) = vnorm p.
Proof.
  unfold vnorm, vdot, rot_y. cbn [v3x v3y v3z]. f_equal. pose proof (rot_y_ss b (v3x p) (v3z p)). lra.
Qed.

Lemma rot_y_unit b p : vunit (rot_y b p) = rot_y b (vunit p).
Proof. unfold vunit. rewrite rot_y_norm. apply v3_eq; unfold rot_y, vscale; cbn [v3x v3y v3z]; ring. Qed.

Lemma vunit_horizontal p : v3x p <> 0 \/ v3z p <> 0 -> v3x (vunit p) <> 0 \/ v3z (vunit p) <> 0.
Proof.
  intros H. assert (N : p <> V3 0 0 0) by (intros ->; cbn in H; destruct H; lra).
  pose proof (vnorm_pos p N) as Hp. unfold vunit, vscale. cbn [v3x v3z].
  assert (/ vnorm p <> 0) by (apply Rgt_not_eq; now apply Rinv_0_lt_compat).
  assert (1 / vnorm p <> 0) by (unfold Rdiv; rewrite Rmult_1_l; assumption).
  destruct H; [left|right]; now apply Rmult_integral_contrapositive_currified.
Qed.

Lemma rot_y_angles b direction m loc :
  v3x direction <> 0 \/ v3z direction <> 0 ->
  v3x (vsub m loc) <> 0 \/ v3z (vsub m loc) <> 0 ->
  let '(azi, ele) := radiation_angles direction m loc in
  let '(azi', ele') := radiation_angles (rot_y b direction) (turned_mic (rot_y b) loc m) loc in
  cexp azi' = cexp azi /\ ele' = ele.
Proof.
  intros Hd Hm. unfold radiation_angles.
  replace (vsub (turned_mic (rot_y b) loc m) loc) with (rot_y b (vsub m loc))
    by (apply v3_eq; unfold turned_mic, rot_y, vadd, vsub; cbn [v3x v3y v3z]; ring).
  rewrite rot_y_unit. apply vunit_horizontal in Hd.
  set (d := vunit direction) in *. set (s := vsub m loc) in *.
  destruct d as [dx dy dz]. destruct s as [sx sy sz]. unfold rot_y. cbn [v3x v3y v3z] in *.
  set (cb := cos b). set (sb := sin b).
  assert (Ed := rot_y_ss b dx dz). assert (Es := rot_y_ss b sx sz). fold cb sb in Ed, Es.
  assert (Es' : (sx * cb + sz * sb) * (sx * cb + sz * sb) + - (sz * cb - sx * sb) * - (sz * cb - sx * sb) = sx * sx + - sz * - sz)
    by lra.
  assert (U : cb * cb + sb * sb = 1) by (unfold cb, sb; pose proof (sin2_cos2 b) as E; unfold Rsqr in E; lra).
  split.
  - rewrite !cexp_mod, !cexp_add.
    assert (NZ : forall x z, x <> 0 \/ z <> 0 -> x * cb + z * sb <> 0 \/ z * cb - x * sb <> 0).
    { intros x z H. destruct (Req_dec (x * cb + z * sb) 0) as [E1|]; [|now left].
      destruct (Req_dec (z * cb - x * sb) 0) as [E2|]; [|now right]. exfalso.
      assert (X : x = 0) by (replace x with (x * (cb * cb + sb * sb)) by (rewrite U; ring); nra).
      assert (Z0 : z = 0) by (replace z with (z * (cb * cb + sb * sb)) by (rewrite U; ring); nra).
      destruct H; lra. }
    rewrite !cexp_atan2; try assumption.
    + rewrite Ed, Es'. set (rs := sqrt (sx * sx + - sz * - sz)). set (rd := sqrt (dx * dx + dz * dz)).
      unfold Cmul. cbn [fst snd]. unfold Rdiv. apply C_ext; cbn [fst snd].
      * transitivity ((sx * dx + sz * dz) * (cb * cb + sb * sb) * / rs * / rd); [ring|rewrite U; ring].
      * transitivity ((sx * dz - sz * dx) * (cb * cb + sb * sb) * / rs * / rd); [ring|rewrite U; ring].
    + destruct Hm; [now left|right; lra].
    + now apply NZ.
    + destruct (NZ sx sz Hm); [now left|right; lra].
  - now rewrite Ed, Es'.
Qed.

Theorem turned_gain P o m b :
  let d := sh_mono o in
  v3x (d_dir d) <> 0 \/ v3z (d_dir d) <> 0 ->
  v3x (vsub m (d_loc d)) <> 0 \/ v3z (vsub m (d_loc d)) <> 0 ->
  sph_gain P (turned (rot_y b) o) (turned_mic (rot_y b) (d_loc d) m) = sph_gain P o m.
Proof.
  intros d Hd Hm. unfold sph_gain, get_modes, turned. fold d. cbn [sh_order sh_mono sh_alpha d_dir d_loc].
  pose proof (rot_y_angles b (d_dir d) m (d_loc d) Hd Hm) as A.
  destruct (radiation_angles (d_dir d) m (d_loc d)) as [azi ele].
  destruct (radiation_angles (rot_y b (d_dir d)) (turned_mic (rot_y b) (d_loc d) m) (d_loc d)) as [azi' ele'].
  destruct A as [A ->].
  rewrite (flat_map_ext _ (fun l => map (fun q => let y := sph_harm P q l azi ele in
             if (q <? 0)%Z then Cmul (Conj y) Ci else y) (orders l))); [reflexivity|].
  intros l. apply map_ext. intros q. exact (mode_azi P azi' azi ele l q A).
Qed.

Lemma turned_dist b loc m : edist loc (turned_mic (rot_y b) loc m) = edist loc m.
Proof.
  unfold edist.
  replace (vsub (turned_mic (rot_y b) loc m) loc) with (rot_y b (vsub m loc))
    by (apply v3_eq; unfold turned_mic, rot_y, vadd, vsub; cbn [v3x v3y v3z]; ring).
  apply rot_y_norm.
Qed.

(** Turning source and microphones about the y axis changes nothing. *)
Theorem sph_turned P o mics b ns num :
  let d := sh_mono o in
  v3x (d_dir d) <> 0 \/ v3z (d_dir d) <> 0 ->
  (forall m, In m mics -> v3x (vsub m (d_loc d)) <> 0 \/ v3z (vsub m (d_loc d)) <> 0) ->
  sph_source P edist (turned (rot_y b) o) (map (turned_mic (rot_y b) (d_loc d)) mics) ns num
  = sph_source P edist o mics ns num.
Proof.
  intros d Hd Hm. unfold sph_source. rewrite map_map.
  rewrite (map_ext_in (fun x => sph_gain P (turned (rot_y b) o) (turned_mic (rot_y b) (d_loc d) x)) (sph_gain P o)).
  2:{ intros m Hin. apply turned_gain; [assumption|now apply Hm]. }
  assert (R : sph_row edist (turned (rot_y b) o) (map (turned_mic (rot_y b) (d_loc d)) mics) = sph_row edist o mics).
  { unfold sph_row, turned. fold d. cbn [sh_mono d_signal d_c d_fs d_up d_start_t d_start d_dir d_loc].
    apply FunctionalExtensionality.functional_extensionality. intros k. f_equal. rewrite map_map. apply map_ext.
    intros m. now rewrite turned_dist. }
  now rewrite R.
Qed.
