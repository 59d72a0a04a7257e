(** The transforms of RFFT, IRFFT and AutoPowerSpectra
    (/repo/acoular/fprocess.py), over real samples, with the FFT as the
    discrete Fourier transform of Cplx.v. *)
From Coq Require Import List Arith Lia ZArith Bool Reals Lra.
Require Import ZifyBool ZifyNat ZifyN.
From Verif Require Import Stream Cplx Buffer Frames Convolve.
Import ListNotations.
Ltac Zify.zify_post_hook ::= Z.div_mod_to_equations.
Local Open Scope nat_scope.

(** RFFT.scaling, fprocess.py:60. *)
Inductive rfft_scaling := ScaleNone | ScaleEnergy | ScaleAmplitude.

(** [svalue], fprocess.py:154-157; [wind] are the [bs] values of the window. *)
Definition svalue (sc : rfft_scaling) (wind : nat -> R) (bs : nat) : R :=
  match sc with
  | ScaleNone | ScaleEnergy => (1 / sqrt (rsumn bs (fun j => wind j * wind j) / INR bs))%R
  | ScaleAmplitude => (1 / rsumn bs wind)%R
  end.

(** RFFT._scale, fprocess.py:108-113, the factor of frequency row [b] out of [nf]. *)
Definition scale_factor (sc : rfft_scaling) (nf b : nat) (sv : R) : R :=
  match sc with
  | ScaleNone => sv
  | _ => if (1 <=? b) && (b <? nf - 1) then (2 * sv)%R else sv
  end.

(** One row of RFFT's result (fprocess.py:163-166): the scaled spectrum of one
    frame of [bs] rows and [N] channels, flattened row by row. *)
Definition rfft_frame (sc : rfft_scaling) (wind : nat -> R) (bs N : nat) (frame : list (list R)) : list C :=
  let nf := bs / 2 + 1 in
  concat (map (fun b => map (fun c =>
      Cmul (RtoC (scale_factor sc nf b (svalue sc wind bs))) (rfft bs (fun j => col c frame j * wind j)%R b))
    (seq 0 N)) (seq 0 nf)).

(** One block of IRFFT.result, fprocess.py:270-274: [reshape(num_freqs, num_channels)]
    and [irfft(..., n=bs, axis=0)], bs = 2h. *)
Definition irfft_frame (h N : nat) (flat : list C) : list (list R) :=
  map (fun m => map (fun c => irfft h (fun b => nth (b * N + c) flat C0) m) (seq 0 N)) (seq 0 (2 * h)).

(** IRFFT.result, fprocess.py:262-274, for a source with the right block size
    2h; [spectra] is what source.result(1) yields (blocks of one row).
    [fuel]: see samples_buffer_result. *)
Definition irfft_direct (h N : nat) (spectra : source (list C)) : source (list R) :=
  fun _ => map_gen (fun blk => irfft_frame h N (nth 0 blk [])) (spectra 1).

Definition irfft_result (h N : nat) (spectra : source (list C)) (fuel : nat) : source (list R) :=
  fun num =>
    let bs := 2 * h in
    if num =? bs then irfft_direct h N spectra num
    else samples_buffer_result (zrow N) false (fun _ => None) (((num + bs - 1) / bs + 1) * bs) (Some bs)
           (irfft_direct h N spectra) fuel num.

(** IRFFT.num_samples, fprocess.py:210-213, over RFFT.num_samples. *)
Definition irfft_num_samples (n bs : nat) : nat := rfft_num_samples n bs * bs.

(** AutoPowerSpectra._get_scaling_value, fprocess.py:312-318. *)
Definition power_scale (bs : nat) (single_sided psd : bool) (sample_freq : R) : R :=
  let scale := (1 / (INR bs * INR bs))%R in
  let scale := if single_sided then (scale * 2)%R else scale in
  if psd then (scale * (INR bs * sample_freq))%R else scale.

(** AutoPowerSpectra.result, fprocess.py:347-350, one row. *)
Definition auto_power (bs : nat) (single_sided psd : bool) (sample_freq : R) (row : list C) : list R :=
  map (fun z => (re (Cmul z (Conj z)) * power_scale bs single_sided psd sample_freq)%R) row.

(* ------------------------------------------------------------------ *)
(** * Proofs *)

Lemma nth_concat_rect {A} (d : A) N (rows : list (list A)) b c :
  (forall r, In r rows -> length r = N) -> c < N -> b < length rows ->
  nth (b * N + c) (concat rows) d = nth c (nth b rows []) d.
Proof.
  revert b. induction rows as [|r rows IH]; intros b Hr Hc Hb; cbn in Hb; [lia|].
  cbn [concat]. destruct b as [|b].
  - rewrite app_nth1 by (rewrite Hr by (now left); lia). reflexivity.
  - rewrite app_nth2 by (rewrite Hr by (now left); lia). rewrite (Hr r) by (now left).
    replace (S b * N + c - N) with (b * N + c) by lia. apply IH; auto; try lia.
    intros r' Hin. apply Hr. now right.
Qed.

Lemma nth_map_seq {A} (d : A) (f : nat -> A) n k : k < n -> nth k (map f (seq 0 n)) d = f k.
Proof.
  intros H. rewrite (nth_indep _ d (f 0)) by now rewrite map_length, seq_length.
  rewrite (map_nth f (seq 0 n) 0), seq_nth by assumption. reflexivity.
Qed.

Lemma rfft_frame_nth sc wind bs N frame b c : b < bs / 2 + 1 -> c < N ->
  nth (b * N + c) (rfft_frame sc wind bs N frame) C0
  = Cmul (RtoC (scale_factor sc (bs / 2 + 1) b (svalue sc wind bs))) (rfft bs (fun j => col c frame j * wind j)%R b).
Proof.
  intros Hb Hc. unfold rfft_frame. rewrite nth_concat_rect; auto.
  - rewrite nth_map_seq by assumption. now rewrite nth_map_seq.
  - intros r Hin. apply in_map_iff in Hin as (x & <- & _). now rewrite map_length, seq_length.
  - now rewrite map_length, seq_length.
Qed.

(** Every row has [N] entries. *)
Definition rect {A} (N : nat) (rows : list (list A)) : Prop := forall r, In r rows -> length r = N.

Lemma rows_of_cols N bs (frame : list (list R)) : rect N frame -> length frame = bs ->
  map (fun m => map (fun c => col c frame m) (seq 0 N)) (seq 0 bs) = frame.
Proof.
  intros Hr <-. apply nth_ext with (d := []) (d' := []); [now rewrite map_length, seq_length|].
  intros m Hm. rewrite map_length, seq_length in Hm. rewrite nth_map_seq by assumption.
  assert (Hl : length (nth m frame []) = N) by (apply Hr, nth_In; assumption).
  apply nth_ext with (d := 0%R) (d' := 0%R); [now rewrite map_length, seq_length|].
  intros c Hc. rewrite map_length, seq_length in Hc. now rewrite nth_map_seq.
Qed.

Lemma rfft_scal n a x b : Cmul (RtoC a) (rfft n x b) = rfft n (fun j => a * x j)%R b.
Proof.
  unfold rfft. rewrite <- dft_scal. apply dft_ext. intros j _. now rewrite RtoC_mul.
Qed.

(** RFFT with scaling 'none' followed by IRFFT, one frame: the window remains,
    divided by its root mean square. *)
Lemma irfft_rfft_frame wind h N frame : 0 < h ->
  irfft_frame h N (rfft_frame ScaleNone wind (2 * h) N frame)
  = map (fun m => map (fun c => (svalue ScaleNone wind (2 * h) * (col c frame m * wind m))%R) (seq 0 N))
      (seq 0 (2 * h)).
Proof.
  intros Hh. unfold irfft_frame. apply map_ext_in. intros m Hm. apply in_seq in Hm.
  apply map_ext_in. intros c Hc. apply in_seq in Hc.
  rewrite (irfft_ext h _ (rfft (2 * h) (fun j => svalue ScaleNone wind (2 * h) * (col c frame j * wind j))%R)).
  - apply irfft_rfft. lia.
  - intros k Hk. replace (2 * h) with (h * 2) by lia.
    rewrite rfft_frame_nth; [|rewrite Nat.div_mul by lia; lia|lia].
    cbn [scale_factor]. now rewrite rfft_scal.
Qed.

Lemma rsumn_one n : rsumn n (fun _ => 1 * 1)%R = INR n.
Proof.
  rewrite (rsumn_ext n _ (fun _ => 1%R)) by (intros; lra). rewrite rsumn_const. lra.
Qed.

Lemma svalue_rect bs : 0 < bs -> svalue ScaleNone (fun _ => 1%R) bs = 1%R.
Proof.
  intros Hb. unfold svalue. rewrite rsumn_one.
  assert (INR bs <> 0%R) by (apply not_0_INR; lia).
  replace (INR bs / INR bs)%R with 1%R by (field; assumption). rewrite sqrt_1. lra.
Qed.

Lemma irfft_rfft_frame_rect h N frame : 0 < h -> rect N frame -> length frame = 2 * h ->
  irfft_frame h N (rfft_frame ScaleNone (fun _ => 1%R) (2 * h) N frame) = frame.
Proof.
  intros Hh Hr Hl. rewrite irfft_rfft_frame, svalue_rect by lia.
  transitivity (map (fun m => map (fun c => col c frame m) (seq 0 N)) (seq 0 (2 * h)));
    [|now apply rows_of_cols].
  apply map_ext. intros m. apply map_ext. intros c. lra.
Qed.

(** Frames without overlap: the complete blocks of the stream. *)
Lemma frame_count_1 bs n : 0 < bs -> frame_count bs 1 n = n / bs.
Proof.
  intros Hb. unfold frame_count. destruct (Nat.ltb_spec n bs).
  - now rewrite Nat.div_small.
  - rewrite Nat.mul_1_r. replace n with (n - bs + 1 * bs) at 2 by lia.
    now rewrite Nat.div_add by lia.
Qed.

Lemma window_full {A} i n (s : list A) : i + n <= length s -> length (window i n s) = n.
Proof. intros H. unfold window. rewrite firstn_length, skipn_length. lia. Qed.

Lemma concat_frames_1 {A} bs (s : list A) : 0 < bs ->
  forall n, n * bs <= length s ->
  concat (map (fun k => window (k * bs / 1) bs s) (seq 0 n)) = firstn (n * bs) s.
Proof.
  intros Hb n. induction n as [|n IH]; intros Hl; [reflexivity|].
  rewrite seq_S, map_app, concat_app, IH by lia. cbn [map concat]. rewrite Nat.add_0_l, Nat.div_1_r, app_nil_r.
  unfold window. replace (S n * bs) with (n * bs + bs) by lia.
  rewrite <- (firstn_skipn (n * bs) s) at 3. rewrite firstn_app.
  rewrite firstn_firstn, firstn_length. rewrite Nat.min_r by lia.
  rewrite Nat.min_l by lia. f_equal. f_equal. lia.
Qed.

Lemma div_mul_le n bs : 0 < bs -> n / bs * bs <= n.
Proof. intros H. rewrite Nat.mul_comm. apply Nat.mul_div_le. lia. Qed.

Lemma frames_of_chunks {A} bs (s : list A) : 0 < bs ->
  frames_of bs 1 s = chunks bs (firstn (length s / bs * bs) s).
Proof.
  intros Hb. unfold frames_of. rewrite frame_count_1 by assumption.
  pose proof (div_mul_le (length s) bs Hb) as Hle.
  rewrite <- (concat_frames_1 bs s Hb (length s / bs) Hle).
  symmetry. apply full_blocks_chunks_concat; [assumption|].
  revert Hle. generalize (length s / bs). intros n Hn.
  assert (H : forall l, (forall k, In k l -> S k * bs <= length s) ->
      full_blocks bs (map (fun k => window (k * bs / 1) bs s) l)).
  { induction l as [|a l IHl]; intros Hl; cbn [map]; [constructor|].
    assert (La : length (window (a * bs / 1) bs s) = bs).
    { rewrite Nat.div_1_r. apply window_full. specialize (Hl a (or_introl eq_refl)). lia. }
    destruct l as [|b l]; cbn [map] in *.
    - constructor. lia.
    - constructor; [assumption|]. apply IHl. intros k Hk. apply Hl. now right. }
  apply H. intros k Hk. apply in_seq in Hk.
  apply Nat.le_trans with (n * bs); [apply Nat.mul_le_mono_r; lia|assumption].
Qed.

Lemma rect_incl {A} N (a b : list (list A)) : rect N b -> (forall r, In r a -> In r b) -> rect N a.
Proof. intros H Hi r Hr. auto. Qed.

Lemma in_window {A} i n (s : list A) x : In x (window i n s) -> In x s.
Proof.
  unfold window. intros H. rewrite <- (firstn_skipn i s). apply in_or_app. right.
  rewrite <- (firstn_skipn n (skipn i s)). apply in_or_app. now left.
Qed.

Lemma map_gen_singletons {A B} (f : list A -> list B) (l : list (list A)) :
  map_gen f (mkTrace l Finished) = done (map f l).
Proof. reflexivity. Qed.

Lemma chunks_1 {A} (l : list A) : chunks 1 l = map (fun x => [x]) l.
Proof.
  induction l as [|a l IH]; [reflexivity|].
  change (a :: l) with ([a] ++ l). rewrite chunks_app by (cbn; lia). cbn. now rewrite IH.
Qed.

(** What IRFFT's own loop yields on RFFT's spectra. *)
Lemma irfft_direct_rfft zspec garbage wind h N (src : source (list R)) s num :
  wf_source src s -> 0 < h ->
  irfft_direct h N (fun num => rfft_result (rfft_frame ScaleNone wind (2 * h) N) zspec garbage (2 * h) 1 src num) num
  = done (map (fun f => irfft_frame h N (rfft_frame ScaleNone wind (2 * h) N f)) (frames_of (2 * h) 1 s)).
Proof.
  intros Hw Hh. unfold irfft_direct.
  destruct (rfft_result_spec (rfft_frame ScaleNone wind (2 * h) N) zspec garbage (2 * h) 1 src s 1) as [H1 H2];
    try lia; auto.
  destruct (Nat.le_gt_cases (2 * h) (length s)) as [Hl|Hl].
  - specialize (H1 Hl). apply delivers_iff in H1; [|lia]. rewrite H1, chunks_1.
    unfold map_gen, done. cbn [blocks fin]. now rewrite !map_map.
  - rewrite H2 by assumption. unfold map_gen, done. cbn.
    unfold frames_of. rewrite frame_count_1, Nat.div_small by lia. reflexivity.
Qed.

(** The stream after window and transform pair. *)
Definition windowed (wind : nat -> R) (bs N : nat) (f : list (list R)) : list (list R) :=
  map (fun m => map (fun c => (col c f m * wind m / sqrt (rsumn bs (fun j => wind j * wind j) / INR bs))%R) (seq 0 N))
    (seq 0 bs).

Lemma windowed_length wind bs N f : length (windowed wind bs N f) = bs.
Proof. unfold windowed. now rewrite map_length, seq_length. Qed.

Lemma chunks_concat_map {A B} bs (f : list A -> list B) (l : list (list A)) :
  0 < bs -> (forall x, length (f x) = bs) -> chunks bs (concat (map f l)) = map f l.
Proof.
  intros Hb Hf. apply full_blocks_chunks_concat; [assumption|].
  induction l as [|a l IH]; cbn [map]; [constructor|].
  destruct l as [|b l]; cbn [map] in *; [constructor; rewrite Hf; lia|].
  constructor; [apply Hf|assumption].
Qed.

Lemma irfft_rfft_windowed wind h N f : 0 < h ->
  irfft_frame h N (rfft_frame ScaleNone wind (2 * h) N f) = windowed wind (2 * h) N f.
Proof.
  intros Hh. rewrite irfft_rfft_frame by assumption. unfold windowed, svalue.
  apply map_ext. intros m. apply map_ext. intros c. unfold Rdiv. ring.
Qed.

Theorem irfft_of_rfft zspec garbage wind h N (src : source (list R)) s fuel num :
  wf_source src s -> 0 < h -> 0 < num -> length s < fuel ->
  delivers num (concat (map (windowed wind (2 * h) N) (frames_of (2 * h) 1 s)))
    (irfft_result h N
       (fun k => rfft_result (rfft_frame ScaleNone wind (2 * h) N) zspec garbage (2 * h) 1 src k) fuel num).
Proof.
  intros Hw Hh Hn Hf. unfold irfft_result.
  set (dir := irfft_direct h N _).
  set (st := concat (map (windowed wind (2 * h) N) (frames_of (2 * h) 1 s))).
  assert (Hd : forall k, dir k = done (chunks (2 * h) st)).
  { intros k. unfold dir. rewrite (irfft_direct_rfft zspec garbage wind h N src s k Hw Hh).
    unfold st. rewrite chunks_concat_map by (try lia; intros; apply windowed_length).
    f_equal. apply map_ext. intros f. now apply irfft_rfft_windowed. }
  destruct (Nat.eqb_spec num (2 * h)) as [->|Hne].
  - rewrite Hd. now apply delivers_chunks.
  - assert (Hls : length st <= length s).
    { unfold st. rewrite frames_of_chunks by lia.
      assert (E : forall l : list (list (list R)),
          length (concat (map (windowed wind (2 * h) N) l)) = length l * (2 * h)).
      { induction l as [|a l IH]; [reflexivity|]. cbn [map concat].
        rewrite app_length, windowed_length, IH. cbn [length]. lia. }
      rewrite E, length_chunks by lia. rewrite firstn_length.
      pose proof (div_mul_le (length s) (2 * h) ltac:(lia)) as Hle.
      rewrite Nat.min_l by lia.
      replace ((length s / (2 * h) * (2 * h) + 2 * h - 1) / (2 * h)) with (length s / (2 * h)); [assumption|].
      apply Nat.div_unique with (r := 2 * h - 1); [lia|].
      generalize (length s / (2 * h)). intros q. nia. }
    pose (src' := fun k => done (chunks k st)).
    assert (Hw' : wf_source src' st) by (intros k Hk; now apply delivers_chunks).
    destruct (samples_buffer_users (zrow N) src' st fuel num Hw' Hn ltac:(lia)) as (_ & _ & H).
    specialize (H (2 * h) ltac:(lia)).
    unfold samples_buffer_result in *. rewrite Hd. exact H.
Qed.

(** With the rectangular window: the complete blocks of the input come back. *)
Theorem irfft_of_rfft_rect zspec garbage h N (src : source (list R)) s fuel num :
  wf_source src s -> rect N s -> 0 < h -> 0 < num -> length s < fuel ->
  delivers num (firstn (irfft_num_samples (length s) (2 * h)) s)
    (irfft_result h N
       (fun k => rfft_result (rfft_frame ScaleNone (fun _ => 1%R) (2 * h) N) zspec garbage (2 * h) 1 src k) fuel num).
Proof.
  intros Hw Hr Hh Hn Hf.
  pose proof (irfft_of_rfft zspec garbage (fun _ => 1%R) h N src s fuel num Hw Hh Hn Hf) as H.
  replace (firstn (irfft_num_samples (length s) (2 * h)) s)
    with (concat (map (windowed (fun _ => 1%R) (2 * h) N) (frames_of (2 * h) 1 s))); [exact H|].
  unfold irfft_num_samples, rfft_num_samples.
  rewrite <- (concat_chunks (2 * h) (firstn (length s / (2 * h) * (2 * h)) s)) by lia.
  rewrite <- frames_of_chunks by lia. f_equal.
  rewrite <- (map_id (frames_of (2 * h) 1 s)) at 2. apply map_ext_in. intros f Hin.
  rewrite <- (irfft_rfft_windowed (fun _ => 1%R) h N f Hh).
  unfold frames_of in Hin. apply in_map_iff in Hin as (k & <- & Hk). apply in_seq in Hk.
  rewrite frame_count_1 in Hk by lia.
  apply irfft_rfft_frame_rect; [assumption| |].
  - apply (rect_incl N _ s Hr). apply in_window.
  - apply window_full. rewrite Nat.div_1_r.
    pose proof (div_mul_le (length s) (2 * h) ltac:(lia)).
    assert (S k * (2 * h) <= length s / (2 * h) * (2 * h)) by (apply Nat.mul_le_mono_r; lia). lia.
Qed.

(** With doubled inner frequencies the values come back changed. *)
Lemma irfft_energy_wrong :
  exists h (wind : nat -> R) (f : list (list R)),
    0 < h /\ length f = 2 * h /\ (forall j, wind j = 1%R)
    /\ irfft_frame h 1 (rfft_frame ScaleEnergy wind (2 * h) 1 f) <> f.
Proof.
  exists 2, (fun _ => 1%R), [[1]; [0]; [0]; [0]]%R. repeat match goal with |- _ /\ _ => split end; auto.
  intros E. apply (f_equal (fun l => col 0 l 0)) in E. unfold irfft_frame in E.
  unfold col at 1 in E. rewrite nth_map_seq in E by lia. rewrite nth_map_seq in E by lia.
  set (F := fun b => nth (b * 1 + 0) (rfft_frame ScaleEnergy (fun _ => 1%R) (2 * 2) 1 [[1]; [0]; [0]; [0]]%R) C0) in E.
  assert (HF : forall b, b < 3 -> F b = RtoC (if (1 <=? b) && (b <? 2) then 2 else 1)%R).
  { intros b Hb. unfold F. rewrite rfft_frame_nth by (cbn; lia).
    change (svalue ScaleEnergy) with (svalue ScaleNone). rewrite svalue_rect by lia.
    unfold rfft, dft. rewrite (csum_single (2 * 2) 0).
    2: lia.
    2:{ intros j Hj Hj0. destruct j as [|[|[|[|j]]]]; try lia; unfold col; cbn [nth];
        rewrite Rmult_0_l; change (RtoC 0) with C0; ring. }
    rewrite Nat.mul_0_l, w_0, Conj_1. unfold col. cbn [nth]. rewrite Rmult_1_l. change (RtoC 1) with C1.
    change (2 * 2 / 2 + 1) with 3. cbn [scale_factor]. change (3 - 1) with 2.
    destruct ((1 <=? b) && (b <? 2)); [rewrite Rmult_1_r|]; ring. }
  unfold irfft, idft in E.
  rewrite (csum_ext (2 * 2) _ (fun k => RtoC (if Nat.odd k then 2 else 1)%R)) in E.
  2:{ intros k Hk. rewrite Nat.mul_0_l, w_0. unfold mirror.
      destruct k as [|[|[|[|k]]]]; try lia; cbn [Nat.eqb Nat.ltb Nat.leb Nat.odd Nat.even negb];
        rewrite HF by (cbn; lia); cbn;
        unfold Cmul, C1, RtoC, Conj, re; cbn; f_equal; ring. }
  rewrite (csum_RtoC (2 * 2)) in E. unfold rsumn in E.
  cbn in E. unfold re, Cmul, RtoC in E. cbn in E. lra.
Qed.

(* ------------------------------------------------------------------ *)
(** * Power (Parseval) *)

Lemma norm2_re z : re (Cmul z (Conj z)) = norm2 z.
Proof. destruct z as [a b]. unfold re, Cmul, Conj, norm2. cbn. ring. Qed.

Lemma Cmul_Conj_RtoC z : Cmul z (Conj z) = RtoC (norm2 z).
Proof. destruct z as [a b]. unfold Cmul, Conj, norm2, RtoC. cbn. f_equal; ring. Qed.

Lemma rfft_parseval n x :
  rsumn n (fun k => norm2 (rfft n x k)) = (INR n * rsumn n (fun j => x j * x j))%R.
Proof.
  pose proof (parseval n (fun j => RtoC (x j))) as P.
  rewrite (csum_ext n _ (fun k => RtoC (norm2 (rfft n x k)))) in P
    by (intros; apply Cmul_Conj_RtoC).
  rewrite csum_RtoC in P.
  rewrite (csum_ext n _ (fun j => RtoC (x j * x j))) in P.
  - rewrite csum_RtoC, <- RtoC_mul in P. now apply (f_equal re) in P.
  - intros j _. rewrite Conj_RtoC, RtoC_mul. reflexivity.
Qed.

Lemma norm2_Conj z : norm2 (Conj z) = norm2 z.
Proof. destruct z as [a b]. unfold norm2, Conj. cbn. ring. Qed.

(** Sum over the upper half of a symmetric sequence. *)
Lemma rsumn_mirror h (f : nat -> R) : 0 < h -> (forall k, 0 < k < 2 * h -> f (2 * h - k) = f k) ->
  (rsumn (2 * h) f = 2 * rsumn (h + 1) f - f 0%nat - f h)%R.
Proof.
  intros Hh Hs.
  assert (G : forall m, (m <= h)%nat -> (rsumn m (fun i => f (h + i)%nat)
              = rsumn m (fun i => f (h - i)%nat))%R).
  { intros m Hm. apply rsumn_ext. intros i Hi. destruct (Nat.eq_dec i 0) as [->|].
    - f_equal. lia.
    - replace (h + i) with (2 * h - (h - i)) by lia. apply Hs. lia. }
  assert (Rv : forall m (g : nat -> R), rsumn (S m) (fun i => g (m - i)) = rsumn (S m) g).
  { induction m as [|m IH]; intros g; [reflexivity|].
    rewrite rsumn_first. rewrite Nat.sub_0_r.
    rewrite (rsumn_ext (S m) _ (fun i => g (m - i))) by (intros; f_equal; lia).
    rewrite IH. change (rsumn (S (S m)) g) with (rsumn (S m) g + g (S m))%R. lra. }
  replace (2 * h) with (h + h) by lia. rewrite rsumn_split, G by lia.
  specialize (Rv h f). rewrite Nat.add_1_r.
  assert (E1 : rsumn (S h) (fun i => f (h - i)) = (rsumn h (fun i => f (h - i)%nat) + f 0%nat)%R).
  { change (rsumn (S h) (fun i => f (h - i))) with (rsumn h (fun i => f (h - i)%nat) + f (h - h)%nat)%R.
    now rewrite Nat.sub_diag. }
  assert (E2 : rsumn (S h) f = (rsumn h f + f h)%R) by reflexivity.
  lra.
Qed.

(** Sum over all frequency bins of channel [c] of a flattened row. *)
Definition total_power (nf N c : nat) (row : list R) : R := rsumn nf (fun b => nth (b * N + c) row 0%R).

Lemma rfft_mean_square h x : 0 < h ->
  (rsumn (h + 1) (fun b => norm2 (rfft (2 * h) x b)) * (2 / (INR (2 * h) * INR (2 * h)))
   = rsumn (2 * h) (fun j => x j * x j) / INR (2 * h)
     + (norm2 (rfft (2 * h) x 0) + norm2 (rfft (2 * h) x h)) / (INR (2 * h) * INR (2 * h)))%R.
Proof.
  intros Hh. pose proof (rfft_parseval (2 * h) x) as P.
  rewrite (rsumn_mirror h (fun k => norm2 (rfft (2 * h) x k))) in P.
  - assert (INR (2 * h) <> 0%R) by (apply not_0_INR; lia).
    replace (rsumn (h + 1) (fun b => norm2 (rfft (2 * h) x b)))
      with ((INR (2 * h) * rsumn (2 * h) (fun j => x j * x j) + norm2 (rfft (2 * h) x 0) + norm2 (rfft (2 * h) x h)) / 2)%R
      by lra.
    field. assumption.
  - assumption.
  - intros k Hk. rewrite <- (dft_real_mirror (2 * h) x k) by lia. apply norm2_Conj.
Qed.

Lemma nth_auto_power bs ss psd fs row k :
  nth k (auto_power bs ss psd fs row) 0%R = (norm2 (nth k row C0) * power_scale bs ss psd fs)%R.
Proof.
  unfold auto_power. destruct (Nat.lt_ge_cases k (length row)) as [Hk|Hk].
  - set (f := fun z => (re (Cmul z (Conj z)) * power_scale bs ss psd fs)%R).
    rewrite (nth_indep _ 0%R (f C0)) by (now rewrite map_length).
    rewrite map_nth. unfold f. now rewrite norm2_re.
  - rewrite nth_overflow by (now rewrite map_length). rewrite (nth_overflow row) by assumption.
    unfold norm2, C0, RtoC. cbn. ring.
Qed.

Lemma power_total h N c ss psd fs frame : 0 < h -> c < N ->
  (total_power (h + 1) N c (auto_power (2 * h) ss psd fs (rfft_frame ScaleNone (fun _ => 1) (2 * h) N frame))
   = rsumn (h + 1) (fun b => norm2 (rfft (2 * h) (col c frame) b)) * power_scale (2 * h) ss psd fs)%R.
Proof.
  intros Hh Hc. unfold total_power.
  rewrite (rsumn_ext (h + 1) _ (fun b => power_scale (2 * h) ss psd fs * norm2 (rfft (2 * h) (col c frame) b))%R).
  - rewrite rsumn_scal. ring.
  - intros b Hb. rewrite nth_auto_power. replace (2 * h) with (h * 2) by lia.
    rewrite rfft_frame_nth; [|rewrite Nat.div_mul by lia; lia|assumption].
    cbn [scale_factor]. rewrite svalue_rect by lia. rewrite rfft_scal.
    rewrite Rmult_comm. f_equal. f_equal. unfold rfft. apply dft_ext. intros j _. f_equal. ring.
Qed.

(** Sum of the alternating series x0 - x1 + x2 - ... *)
Lemma rfft_nyquist h x : 0 < h ->
  rfft (2 * h) x h = RtoC (rsumn (2 * h) (fun j => if Nat.even j then x j else - x j)%R).
Proof.
  intros Hh. unfold rfft, dft. rewrite <- csum_RtoC. apply csum_ext. intros j _.
  assert (E : w (2 * h) (j * h) = RtoC (if Nat.even j then 1 else -1)%R).
  { unfold w. rewrite mult_INR, mult_INR.
    assert (INR h <> 0%R) by (apply not_0_INR; lia).
    replace (2 * PI * (INR j * INR h) / (INR 2 * INR h))%R with (INR j * PI)%R by (cbn; field; auto).
    clear. induction j as [|j IH]; [cbn; rewrite Rmult_0_l; apply cexp_0|].
    rewrite S_INR. replace ((INR j + 1) * PI)%R with (INR j * PI + PI)%R by ring.
    rewrite cexp_add, IH. rewrite Nat.even_succ, <- Nat.negb_even.
    unfold cexp. rewrite cos_PI, sin_PI. unfold Cmul, RtoC. cbn.
    destruct (Nat.even j); cbn; f_equal; ring. }
  rewrite E, Conj_RtoC, <- RtoC_mul. f_equal. destruct (Nat.even j); ring.
Qed.

(** The sum over the bins of the single-sided power spectrum: mean square plus
    the squares of the mean and of the alternating mean. *)
Theorem auto_power_total h N c fs frame : 0 < h -> c < N ->
  let n := INR (2 * h) in let x := col c frame in
  (total_power (h + 1) N c (auto_power (2 * h) true false fs (rfft_frame ScaleNone (fun _ => 1) (2 * h) N frame))
   = rsumn (2 * h) (fun j => x j * x j) / n + Rsqr (rsumn (2 * h) x / n)
     + Rsqr (rsumn (2 * h) (fun j => if Nat.even j then x j else - x j) / n))%R.
Proof.
  intros Hh Hc n x. rewrite power_total by assumption.
  assert (n <> 0%R) by (apply not_0_INR; lia).
  replace (power_scale (2 * h) true false fs) with (2 / (INR (2 * h) * INR (2 * h)))%R
    by (unfold power_scale; fold n; field; assumption).
  rewrite rfft_mean_square by assumption. rewrite rfft_0_real, rfft_nyquist by assumption.
  unfold norm2, RtoC, Rsqr. cbn [fst snd]. fold n x. field. assumption.
Qed.

(** The 'psd' scaling: integrating over the frequency (bin width fs/bs) gives
    fs^2 times the power. *)
Theorem auto_psd_total h N c fs frame : 0 < h -> c < N -> (0 < fs)%R ->
  let bs := 2 * h in
  let X := rfft_frame ScaleNone (fun _ => 1%R) bs N frame in
  (total_power (h + 1) N c (auto_power bs true true fs X) * (fs / INR bs)
   = fs * fs * total_power (h + 1) N c (auto_power bs true false fs X))%R.
Proof.
  intros Hh Hc Hf bs X. unfold X, bs. rewrite !power_total by assumption.
  unfold power_scale. assert (INR (2 * h) <> 0%R) by (apply not_0_INR; lia). field. assumption.
Qed.
