(** C113: the level and place of tones on the map, from the recorded samples. *)
From Coq Require Import List Arith Lia ZArith Bool Reals Lra.
From Verif Require Import Stream Cplx Buffer Frames Convolve Fourier Beamform Csm Tone.
Import ListNotations.
Local Open Scope R_scope.

(** Sampled pressure at distance [d] of a source with frequency [f] and amplitude [A] at distance 1. *)
Definition pressure (fs c f A phi d : R) (t : nat) : R := A / d * cos (2 * PI * f * (INR t / fs - d / c) + phi).

(** Frequency number [b] of blocks of [bs] samples. *)
Definition frequency (fs : R) (bs b : nat) : R := INR b * fs / INR bs.

Definition mean_square (n : nat) (p : nat -> R) : R := rsumn n (fun t => p t * p t) / INR n.

(** Rows [s] of [N] channels hold the sum of the [S] sources at distances [r i m]. *)
Definition hears (fs c : R) (bs N S : nat) (q : nat -> nat) (A phi : nat -> R) (r : nat -> nat -> R)
    (s : list (list R)) : Prop :=
  forall t m, (t < length s)%nat -> (m < N)%nat ->
    nth m (nth t s []) 0 = rsumn S (fun i => pressure fs c (frequency fs bs (q i)) (A i) (phi i) (r i m) t).

(** The value on the map: PowerSpectra over the source, then BeamformerBase at
    a point with the distances [r] and [r0] to the reference, with diagonal removal or not. *)
Definition map_value (garbage : nat -> list R) (bs ov N : nat) (wind : nat -> R) (src : source (list R)) (n : nat)
    (fs c : R) (b : nat) (st : steer) (rdiag : bool) (r0 : R) (r : nat -> R) : option R :=
  bf_base N (power_spectra_csm garbage bs ov N wind n src b) r0 (2 * PI * frequency fs bs b / c) r rdiag 0 st.

Definition rectangular (j : nat) : R := 1.

(** C113, partial: sources with tones on different lines, rectangular window.
    At the place of source l and its line the types 'true level' and 'inverse'
    give the mean square of this source at the reference times the ratio of
    the frames to num_blocks; the ratio is 1 exactly if the block size divides
    overlap times length, else smaller. *)
Theorem C113_level_partial garbage fs c bs ov N S q A phi r s (src : source (list R)) l r0 st (rdiag : bool) :
  0 < fs -> 0 < c -> (0 < bs)%nat -> (0 < ov)%nat -> wf_source src s -> (bs <= length s)%nat ->
  hears fs c bs N S q A phi r s ->
  (forall i, (i < S)%nat -> (0 < 2 * q i < bs)%nat) ->
  (forall i, (i < S)%nat -> q i = q l -> i = l) -> (l < S)%nat ->
  (if rdiag then (1 < N)%nat else (0 < N)%nat) -> 0 < r0 -> (forall m, (m < N)%nat -> 0 < r l m) ->
  st = Inverse \/ st = TrueLevel /\ rdiag = false ->
  exists ratio,
    map_value garbage bs ov N rectangular src (length s) fs c (q l) st rdiag r0 (r l)
    = Some (ratio * mean_square bs (pressure fs c (frequency fs bs (q l)) (A l) (phi l) r0))
    /\ 0 < ratio <= 1 /\ (ratio = 1 <-> Nat.divide bs (length s * ov)).
Proof.
  intros Hfs Hc Hb Ho Hw Hl Hh Hq Hd Hls HN H0 Hr Hst.
  exists (block_ratio ov (length s) bs). destruct (block_ratio_iff bs ov (length s) Hb Hl) as [B1 B2].
  split; [|split; assumption].
  change (mean_square _ _) with
    (rsumn bs (fun t => tone fs c (line_freq fs bs (q l)) (A l) (phi l) r0 t * tone fs c (line_freq fs bs (q l)) (A l) (phi l) r0 t)
     / INR bs).
  rewrite tone_mean_square by auto. unfold map_value.
  rewrite (csm_ext_map N _ (monopole_csm (A l * A l / (2 * (r0 * r0)) * block_ratio ov (length s) bs)
        (transfer r0 (wave_number fs c bs (q l)) (r l)))).
  2:{ intros i j Hi Hj. exact (tones_matrix fs c bs ov N garbage src s Hfs Hc Hb Ho Hw Hl S q A phi r l r0 Hh Hq Hd Hls H0 Hr i j Hi Hj). }
  change (2 * PI * frequency fs bs (q l) / c) with (wave_number fs c bs (q l)).
  rewrite (Rmult_comm (block_ratio _ _ _)).
  assert (P : 0 <= A l * A l / (2 * (r0 * r0)) * block_ratio ov (length s) bs).
  { apply Rmult_le_pos; [|lra]. apply Rmult_le_pos; [nra|]. apply Rlt_le, Rinv_0_lt_compat. nra. }
  destruct rdiag.
  - destruct Hst as [->|[_ Hf]]; [|discriminate]. now apply monopole_rdiag_inverse.
  - apply monopole_level; try assumption. destruct Hst as [|[]]; auto.
Qed.
Print Assumptions C113_level_partial.

(** C113.  The types 'true location' and 'classic' have no larger value than
    at the source; a source is not seen at the lines of the others. *)
Theorem C113_location garbage fs c bs ov N S q A phi r s (src : source (list R)) l r0 st :
  0 < fs -> 0 < c -> (0 < bs)%nat -> (0 < ov)%nat -> wf_source src s -> (bs <= length s)%nat ->
  hears fs c bs N S q A phi r s ->
  (forall i, (i < S)%nat -> (0 < 2 * q i < bs)%nat) ->
  (forall i, (i < S)%nat -> q i = q l -> i = l) -> (l < S)%nat ->
  (0 < N)%nat -> 0 < r0 -> (forall m, (m < N)%nat -> 0 < r l m) ->
  st = TrueLocation \/ st = Classic ->
  exists top, map_value garbage bs ov N rectangular src (length s) fs c (q l) st false r0 (r l) = Some top
  /\ (A l <> 0 -> 0 < top)
  /\ forall r0' r', 0 < r0' -> (forall m, (m < N)%nat -> 0 < r' m) ->
     exists x, map_value garbage bs ov N rectangular src (length s) fs c (q l) st false r0' r' = Some x /\ x <= top.
Proof.
  intros Hfs Hc Hb Ho Hw Hl Hh Hq Hd Hls HN H0 Hr Hst.
  destruct (block_ratio_iff bs ov (length s) Hb Hl) as [B1 _].
  set (p2 := A l * A l / (2 * (r0 * r0)) * block_ratio ov (length s) bs).
  set (k := wave_number fs c bs (q l)).
  assert (V : forall r1 r', map_value garbage bs ov N rectangular src (length s) fs c (q l) st false r1 r'
     = bf_base N (monopole_csm p2 (transfer r0 k (r l))) r1 k r' false 0 st).
  { intros r1 r'. unfold map_value. apply csm_ext_map. intros i j Hi Hj.
    exact (tones_matrix fs c bs ov N garbage src s Hfs Hc Hb Ho Hw Hl S q A phi r l r0 Hh Hq Hd Hls H0 Hr i j Hi Hj). }
  assert (P : 0 <= p2).
  { apply Rmult_le_pos; [|lra]. apply Rmult_le_pos; [nra|]. apply Rlt_le, Rinv_0_lt_compat. nra. }
  destruct (monopole_max N k r0 (r l) p2 st HN H0 Hr P Hst) as (top & E & M).
  exists top. split; [now rewrite V|]. split.
  - intros HA. unfold bf_base, sig_loss_norm, clip_neg in E. injection E as E. rewrite bf_monopole in E by assumption.
    subst top.
    assert (P2 : 0 < p2).
    { apply Rmult_lt_0_compat; [|lra]. apply Rmult_lt_0_compat; [|apply Rinv_0_lt_compat; nra].
      destruct (Rtotal_order (A l) 0) as [|[|]]; nra. }
    apply Rmult_lt_0_compat; [assumption|].
    assert (T : forall m, (m < N)%nat -> 0 < norm2 (transfer r0 k (r l) m)).
    { intros m Hm. apply norm2_pos, transfer_neq0; auto. }
    assert (I0 : 0 < INR N) by now apply lt_0_INR.
    destruct Hst as [-> | ->].
    + rewrite own_true_location by assumption. apply Rdiv_lt_0_compat; [|assumption]. now apply rsumn_pos.
    + rewrite own_classic by assumption.
      assert (0 < rsumn N (fun m => Cabs (transfer r0 k (r l) m)) / INR N).
      { apply Rdiv_lt_0_compat; [|assumption]. apply rsumn_pos; [assumption|]. intros m Hm. apply sqrt_lt_R0. auto. }
      nra.
  - intros r0' r' H0' Hr'. rewrite V. now apply M.
Qed.
Print Assumptions C113_location.

Theorem C113_silent garbage fs c bs ov N S q A phi r s (src : source (list R)) b r0' r' st :
  0 < fs -> 0 < c -> (0 < bs)%nat -> (0 < ov)%nat -> wf_source src s -> (bs <= length s)%nat ->
  hears fs c bs N S q A phi r s ->
  (forall i, (i < S)%nat -> (0 < 2 * q i < bs)%nat) -> (0 < 2 * b < bs)%nat ->
  (forall i, (i < S)%nat -> q i <> b) ->
  map_value garbage bs ov N rectangular src (length s) fs c b st false r0' r' = Some 0.
Proof.
  intros Hfs Hc Hb Ho Hw Hl Hh Hq Hbb Hn. unfold map_value.
  rewrite (csm_ext_map N _ (fun _ _ => C0)).
  - unfold bf_base, sig_loss_norm, clip_neg. f_equal. unfold freq_full.
    assert (Z : forall v, scalar_prod N false (fun _ _ => C0) v = 0).
    { intros v. unfold scalar_prod. rewrite !rsumn_0; [ring| |].
      - intros i _. cbn. ring.
      - intros i _. rewrite csum_0 by (intros; Csolve). cbn. ring. }
    rewrite Z. unfold normalize. destruct st; cbn [fst]; unfold Rdiv; ring.
  - intros i j Hi Hj. exact (silent_line fs c bs ov N garbage src s Hfs Hc Hb Ho Hw Hl S q A phi r b Hh Hq Hbb Hn i j Hi Hj).
Qed.
Print Assumptions C113_silent.

(** C113 is false with the other windows: with 'Hanning', a tone at a
    quarter of the sampling frequency appears with 2 (bs-1) / (3 bs) of its mean square. *)
Theorem C113_hanning garbage fs c h ov N A phi r s (src : source (list R)) r0 :
  let bs := (4 * h)%nat in
  0 < fs -> 0 < c -> (0 < h)%nat -> (0 < ov)%nat -> wf_source src s -> (bs <= length s)%nat ->
  Nat.divide bs (length s * ov) ->
  hears fs c bs N 1 (fun _ => h) (fun _ => A) (fun _ => phi) (fun _ => r) s ->
  (0 < N)%nat -> 0 < r0 -> (forall m, (m < N)%nat -> 0 < r m) ->
  map_value garbage bs ov N (hanning bs) src (length s) fs c h TrueLevel false r0 r
  = Some (2 * (INR bs - 1) / (3 * INR bs) * mean_square bs (pressure fs c (frequency fs bs h) A phi r0)).
Proof.
  intros bs Hfs Hc Hh Ho Hw Hl Hd Hr HN H0 Hp. assert (Hb : (0 < bs)%nat) by (unfold bs; lia).
  assert (Hbr : 0 < INR bs) by now apply lt_0_INR.
  change (mean_square _ _) with
    (rsumn bs (fun t => tone fs c (line_freq fs bs h) A phi r0 t * tone fs c (line_freq fs bs h) A phi r0 t) / INR bs).
  rewrite tone_mean_square by (auto; unfold bs; lia). unfold map_value.
  destruct (hanning_sums bs ltac:(unfold bs; lia)) as [S1 S2].
  assert (Hm : INR (bs - 1) = INR bs - 1) by (rewrite minus_INR by lia; reflexivity).
  assert (Hg : 1 < INR bs) by (change 1 with (INR 1); apply lt_INR; unfold bs; lia).
  rewrite (csm_ext_map N _ (monopole_csm (A * A / (2 * (r0 * r0))
          * (rsumn bs (hanning bs) * rsumn bs (hanning bs) / (INR bs * rsumn bs (fun j => hanning bs j * hanning bs j)))
          * block_ratio ov (length s) bs) (transfer r0 (wave_number fs c bs h) r))).
  2:{ intros i j Hi Hj. apply (tone_window fs c bs ov N garbage src s Hfs Hc Hb Ho Hw Hl (hanning bs) h A phi r r0); try assumption.
      - apply symmetric_gain; [assumption|]. intros k Hk. apply hanning_symmetric; unfold bs; lia.
      - rewrite S2, Hm. lra. }
  change (2 * PI * frequency fs bs h / c) with (wave_number fs c bs h).
  rewrite monopole_level by auto. f_equal. rewrite S1, S2, Hm, (block_ratio_1 bs ov Hb (length s) Hl Hd).
  field. repeat split; lra.
Qed.
Print Assumptions C113_hanning.

(** The hypotheses are met: a recording of two sources, in blocks of any size. *)
Lemma C113_recorded fs c bs N S q A phi r n : exists s,
  length s = n /\ hears fs c bs N S q A phi r s /\ wf_source (fun num => done (chunks num s)) s.
Proof.
  exists (recording fs c bs N S q A phi r n). destruct (recording_records fs c bs N S q A phi r n) as [R L].
  split; [exact L|]. split; [exact R|]. intros n0 Hn. now apply delivers_chunks.
Qed.

(** So the Hanning window gives a wrong level at 128 samples per block. *)
Theorem C113_window_refuted : exists fs c bs ov N A phi r s (src : source (list R)) b r0 x,
  0 < fs /\ 0 < c /\ (0 < bs)%nat /\ (0 < ov)%nat /\ wf_source src s /\ (bs <= length s)%nat
  /\ Nat.divide bs (length s * ov) /\ hears fs c bs N 1 (fun _ => b) (fun _ => A) (fun _ => phi) (fun _ => r) s
  /\ (0 < N)%nat /\ 0 < r0 /\ (forall m, (m < N)%nat -> 0 < r m) /\ (0 < 2 * b < bs)%nat
  /\ map_value (fun _ => []) bs ov N (hanning bs) src (length s) fs c b TrueLevel false r0 r = Some x
  /\ x < 2 / 3 * mean_square bs (pressure fs c (frequency fs bs b) A phi r0).
Proof.
  destruct (C113_recorded 51200 343 128 2 1 (fun _ => 32%nat) (fun _ => 1) (fun _ => 0) (fun _ m => INR m + 1) 256)
    as (s & L & Hh & Hw).
  exists 51200, 343, 128%nat, 2%nat, 2%nat, 1, 0, (fun m => INR m + 1), s, (fun num => done (chunks num s)), 32%nat, 1.
  eexists. split; [lra|]. split; [lra|]. split; [lia|]. split; [lia|]. split; [exact Hw|].
  split; [lia|]. split; [rewrite L; exists 4%nat; reflexivity|]. split; [exact Hh|]. split; [lia|]. split; [lra|].
  assert (Hr : forall m : nat, (m < 2)%nat -> 0 < INR m + 1) by (intros m _; pose proof (pos_INR m); lra).
  split; [exact Hr|]. split; [lia|].
  split.
  - apply (C113_hanning (fun _ => []) 51200 343 32 2 2 1 0 (fun m => INR m + 1) s _ 1); try assumption; try lra; try lia.
    rewrite L. exists 4%nat. reflexivity.
  - change (4 * 32)%nat with 128%nat.
    change (mean_square _ _) with
      (rsumn 128 (fun t => tone 51200 343 (line_freq 51200 128 32) 1 0 1 t * tone 51200 343 (line_freq 51200 128 32) 1 0 1 t) / INR 128).
    rewrite tone_mean_square by (try lra; lia). replace (INR 128) with 128 by (rewrite INR_IZR_INZ; reflexivity). lra.
Qed.
Print Assumptions C113_window_refuted.

(** Two sources on two lines, two channels: both levels come out. *)
Example C113_case : exists s : list (list R),
  let src := fun num => done (chunks num s) in
  let q := fun i => (10 + i)%nat in
  let r := fun i m : nat => INR (i + m) + 1 in
  map_value (fun _ => []) 128 1 2 rectangular src (length s) 51200 343 10 TrueLevel false 1 (r 0%nat)
    = Some (1 * mean_square 128 (pressure 51200 343 (frequency 51200 128 10) 2 0 1))
  /\ map_value (fun _ => []) 128 1 2 rectangular src (length s) 51200 343 11 Inverse true 1 (r 1%nat)
    = Some (1 * mean_square 128 (pressure 51200 343 (frequency 51200 128 11) 3 0 1)).
Proof.
  destruct (C113_recorded 51200 343 128 2 2 (fun i => (10 + i)%nat) (fun i => INR i + 2) (fun _ => 0)
    (fun i m => INR (i + m) + 1) 384) as (s & L & Hh & Hw).
  exists s. cbv zeta.
  assert (Hr : forall i m : nat, (m < 2)%nat -> 0 < INR (i + m) + 1) by (intros i m _; pose proof (pos_INR (i + m)); lra).
  assert (D : Nat.divide 128 (length s * 1)) by (rewrite L; exists 3%nat; reflexivity).
  split.
  - destruct (C113_level_partial (fun _ => []) 51200 343 128 1 2 2 (fun i => (10 + i)%nat) (fun i => INR i + 2) (fun _ => 0)
      (fun i m => INR (i + m) + 1) s (fun num => done (chunks num s)) 0 1 TrueLevel false) as (x & E & _ & I1);
      try assumption; try lra; try lia; try (intros; lia); auto.
    rewrite (proj2 I1 D) in E. replace 2 with (INR 0 + 2) at 1 by (cbn; lra). exact E.
  - destruct (C113_level_partial (fun _ => []) 51200 343 128 1 2 2 (fun i => (10 + i)%nat) (fun i => INR i + 2) (fun _ => 0)
      (fun i m => INR (i + m) + 1) s (fun num => done (chunks num s)) 1 1 Inverse true) as (x & E & _ & I1);
      try assumption; try lra; try lia; try (intros; lia); auto.
    rewrite (proj2 I1 D) in E. replace 3 with (INR 1 + 2) by (cbn; lra). exact E.
Qed.
