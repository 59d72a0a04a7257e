(** From the recording of tones to the map: the chain PowerSpectra
    (/repo/acoular/spectra.py:295-401, fastFuncs.py:28-55) and BeamformerBase
    (/repo/acoular/fbeamform.py:485-520), composed from Frames.v, Csm.v and
    Beamform.v, for point sources that emit tones whose frequencies lie on
    spectral lines. *)
From Coq Require Import List Arith Lia ZArith Bool Reals Lra.
From Verif Require Import Stream Cplx Buffer Frames Convolve Fourier Beamform Csm.
Import ListNotations.
Local Open Scope R_scope.
Local Open Scope C_scope.

(** The frequency of line [b], spectra.py:146-178 (rfftfreq), and the wave number
    of fbeamform.py:476-483. *)
Definition line_freq (fs : R) (bs b : nat) : R := (INR b * fs / INR bs)%R.
Definition wave_number (fs c : R) (bs b : nat) : R := (2 * PI * line_freq fs bs b / c)%R.

(** numpy.hanning(n) (BaseSpectra.window, spectra.py:96-100), n > 1. *)
Definition hanning (n : nat) (j : nat) : R := (1 / 2 - 1 / 2 * cos (2 * PI * INR j / INR (n - 1)))%R.

(** ** Specification *)
(** Sound pressure at sample [t] at distance [d] from a point source with a
    tone of frequency [f] whose amplitude at distance 1 is [A]. *)
Definition tone (fs c f A phi d : R) (t : nat) : R := (A / d * cos (2 * PI * f * (INR t / fs - d / c) + phi))%R.

(** [s] records, in [N] channels, the tones of [S] sources; source [i] has the line
    [q i], amplitude [A i], phase [phi i] and distance [r i m] to channel m. *)
Definition records (fs c : R) (bs N S : nat) (q : nat -> nat) (A phi : nat -> R) (r : nat -> nat -> R)
    (s : list (list R)) : Prop :=
  forall t m, (t < length s)%nat -> (m < N)%nat ->
    nth m (nth t s []) 0%R = rsumn S (fun i => tone fs c (line_freq fs bs (q i)) (A i) (phi i) (r i m) t).

(* ------------------------------------------------------------------ *)
(** ** Spectra of tones *)
Lemma csum_scal_r_const n z : csum n (fun _ => z) = RtoC (INR n) * z.
Proof.
  induction n as [|n IH]; [cbn [csum INR]; change (RtoC 0) with C0; ring|].
  cbn [csum]. rewrite IH, S_INR, RtoC_add. change (RtoC 1) with C1. ring.
Qed.

Section Spectra.
  Variables (fs c : R) (bs : nat).
  Hypothesis Hfs : (0 < fs)%R.
  Hypothesis Hc : (0 < c)%R.
  Hypothesis Hbs : (0 < bs)%nat.

  (** The complex amplitude of a tone at distance d. *)
  Definition phasor (q : nat) (A phi d : R) : C := RtoC (A / d) * cexp (phi - wave_number fs c bs q * d).

  Lemma tone_phasor q A phi d t :
    RtoC (tone fs c (line_freq fs bs q) A phi d t)
    = RtoC (/ 2) * (phasor q A phi d * w bs (q * t) + Conj (phasor q A phi d) * Conj (w bs (q * t))).
  Proof.
    assert (Hb : INR bs <> 0%R) by (apply not_0_INR; lia).
    unfold tone, phasor.
    replace (2 * PI * line_freq fs bs q * (INR t / fs - d / c) + phi)%R
      with ((phi - wave_number fs c bs q * d) + 2 * PI * INR (q * t) / INR bs)%R
      by (unfold wave_number, line_freq; rewrite mult_INR; field; repeat split; lra).
    unfold w. set (a := (phi - _)%R). set (b := (2 * PI * _ / _)%R).
    set (x := (A / d)%R). rewrite cos_plus. unfold cexp. apply C_ext; cbn; field.
  Qed.

  Definition gain_pos (wind : nat -> R) (q b : nat) : C :=
    csum bs (fun j => RtoC (wind j) * (w bs (q * j) * Conj (w bs (j * b)))).
  Definition gain_neg (wind : nat -> R) (q b : nat) : C :=
    csum bs (fun j => RtoC (wind j) * (Conj (w bs (q * j)) * Conj (w bs (j * b)))).

  Lemma tone_spectrum wind q A phi d t0 b :
    rfft bs (fun j => tone fs c (line_freq fs bs q) A phi d (t0 + j) * wind j)%R b
    = RtoC (/ 2) * (phasor q A phi d * w bs (q * t0) * gain_pos wind q b
                    + Conj (phasor q A phi d * w bs (q * t0)) * gain_neg wind q b).
  Proof.
    unfold rfft, dft, gain_pos, gain_neg. rewrite <- !csum_scal, <- csum_add, <- csum_scal.
    apply csum_ext. intros j _. rewrite RtoC_mul, tone_phasor, Nat.mul_add_distr_l, w_add, !Conj_mul. ring.
  Qed.

  (** Rectangular window: the lines are separated. *)
  Lemma gain_pos_rect q b : (q < bs)%nat -> (b < bs)%nat ->
    gain_pos (fun _ => 1%R) q b = if (b =? q)%nat then RtoC (INR bs) else C0.
  Proof.
    intros Hq Hb. rewrite <- (characters_orthogonal bs b q Hb Hq). unfold gain_pos. apply csum_ext. intros j _.
    rewrite (Nat.mul_comm j b). change (RtoC 1) with C1. ring.
  Qed.

  Lemma gain_neg_rect q b : (0 < q + b < bs)%nat -> gain_neg (fun _ => 1%R) q b = C0.
  Proof.
    intros H. rewrite <- Conj_0, <- (w_sum_0 bs (q + b) H), csum_conj. unfold gain_neg. apply csum_ext. intros j _.
    rewrite Nat.mul_add_distr_r, w_add, Conj_mul, (Nat.mul_comm j b). change (RtoC 1) with C1. ring.
  Qed.

  (** The window's gain at the line of the tone. *)
  Lemma gain_pos_self wind q : gain_pos wind q q = RtoC (rsumn bs wind).
  Proof.
    rewrite <- csum_RtoC. apply csum_ext. intros j _. rewrite (Nat.mul_comm j q).
    replace (w bs (q * j) * Conj (w bs (q * j))) with C1 by (rewrite <- (w_conj_mul bs (q * j)); ring). ring.
  Qed.

  (** A frame of the recording. *)
  Lemma frame_of_records N S q A phi r s wind t0 m b :
    records fs c bs N S q A phi r s -> (t0 + bs <= length s)%nat -> (m < N)%nat ->
    rfft bs (fun j => col m (window t0 bs s) j * wind j)%R b
    = csum S (fun i => RtoC (/ 2) * (phasor (q i) (A i) (phi i) (r i m) * w bs (q i * t0) * gain_pos wind (q i) b
                    + Conj (phasor (q i) (A i) (phi i) (r i m) * w bs (q i * t0)) * gain_neg wind (q i) b)).
  Proof.
    intros R0 Hl Hm.
    rewrite (csum_ext S _ (fun i => rfft bs (fun j => tone fs c (line_freq fs bs (q i)) (A i) (phi i) (r i m) (t0 + j) * wind j)%R b))
      by (intros; symmetry; apply tone_spectrum).
    unfold rfft, dft. rewrite csum_swap. apply csum_ext. intros j Hj.
    rewrite csum_scal_r. f_equal. unfold col, window.
    rewrite Convolve.nth_firstn by exact Hj. rewrite Convolve.nth_skipn. rewrite R0 by lia.
    rewrite RtoC_mul, <- csum_RtoC, <- csum_scal_r. apply csum_ext. intros i _. now rewrite RtoC_mul.
  Qed.

  (** A phasor is a multiple of the transfer vector. *)
  Lemma phasor_transfer q A phi r0 r m : (0 < r0)%R -> (0 < r m)%R ->
    phasor q A phi (r m)
    = RtoC (A / r0) * cexp (phi - wave_number fs c bs q * r0) * transfer r0 (wave_number fs c bs q) r m.
  Proof.
    intros H0 Hr. unfold phasor, transfer. set (k := wave_number fs c bs q).
    replace (phi - k * r m)%R with ((phi - k * r0) + - (k * (r m - r0)))%R by ring.
    rewrite cexp_add. set (e := cexp (phi - k * r0)).
    replace (cexp (- (k * (r m - r0)))) with (cos (k * (r m - r0)), - sin (k * (r m - r0)))%R
      by (unfold cexp; rewrite cos_neg, sin_neg; reflexivity).
    set (z := (cos _, _)).
    assert (RtoC r0 <> C0) by (apply RtoC_neq0; lra). assert (RtoC (r m) <> C0) by (apply RtoC_neq0; lra).
    rewrite !RtoC_div by lra. field. auto.
  Qed.

  Lemma phasor_product q A phi r0 r i j : (0 < r0)%R -> (0 < r i)%R -> (0 < r j)%R ->
    phasor q A phi (r i) * Conj (phasor q A phi (r j))
    = RtoC (A * A / (r0 * r0)) * transfer r0 (wave_number fs c bs q) r i * Conj (transfer r0 (wave_number fs c bs q) r j).
  Proof.
    intros H0 Hi Hj. rewrite !(phasor_transfer q A phi r0) by assumption. rewrite !Conj_mul, Conj_RtoC.
    set (e := cexp _). assert (E : e * Conj e = C1) by (unfold e; rewrite mul_Conj, norm2_cexp; reflexivity).
    replace (A * A / (r0 * r0))%R with (A / r0 * (A / r0))%R by (field; lra). rewrite RtoC_mul.
    set (x := RtoC (A / r0)). set (u := transfer _ _ _ i). set (v := Conj (transfer _ _ _ j)).
    transitivity (x * x * (e * Conj e) * u * v); [ring|]. rewrite E. ring.
  Qed.
End Spectra.

(* ------------------------------------------------------------------ *)
(** ** The cross spectral matrix *)
Lemma csm_ext_map N csm csm' r0 k r rd rdn st : (forall i j, (i < N)%nat -> (j < N)%nat -> csm i j = csm' i j) ->
  bf_base N csm r0 k r rd rdn st = bf_base N csm' r0 k r rd rdn st.
Proof.
  intros E. unfold bf_base. destruct (sig_loss_norm N rd rdn) as [l|]; [|reflexivity].
  do 2 f_equal. unfold freq_full. f_equal. f_equal. unfold scalar_prod. f_equal.
  - apply rsumn_ext. intros i Hi. do 3 f_equal. apply csum_ext. intros j Hj. rewrite E by lia. reflexivity.
  - destruct rd; [reflexivity|]. apply rsumn_ext. intros i Hi. now rewrite E.
Qed.

Section Matrix.
  Variables (fs c : R) (bs ov N : nat) (garbage : nat -> list R) (src : source (list R)) (s : list (list R)).
  Hypothesis Hfs : (0 < fs)%R.
  Hypothesis Hc : (0 < c)%R.
  Hypothesis Hbs : (0 < bs)%nat.
  Hypothesis Hov : (0 < ov)%nat.
  Hypothesis Hsrc : wf_source src s.
  Hypothesis Hlen : (bs <= length s)%nat.

  (** Frames per reported block, spectra.py:287-289. *)
  Definition block_ratio (ov n bs : nat) : R := (INR (frame_count bs ov n) / num_blocks ov n bs)%R.

  Lemma block_ratio_1 n : (bs <= n)%nat -> Nat.divide bs (n * ov) -> block_ratio ov n bs = 1%R.
  Proof.
    intros Hn Hd. unfold block_ratio. pose proof (num_blocks_pos ov n bs Hbs Hn).
    rewrite <- (proj2 (num_blocks_iff ov n bs Hbs Hn) Hd). field. lra.
  Qed.

  (** If all frames have the same spectrum up to a phase, the matrix has rank one. *)
  Lemma rank_one_csm wind b (P : nat -> C) (u : nat -> C) g :
    (0 < rsumn bs (fun j => wind j * wind j))%R ->
    (forall k, norm2 (u k) = 1%R) ->
    (forall t m, (t + bs <= length s)%nat -> (m < N)%nat ->
       rfft bs (fun j => col m (window t bs s) j * wind j)%R b = RtoC g * u t * P m) ->
    forall i j, (i < N)%nat -> (j < N)%nat ->
    power_spectra_csm garbage bs ov N wind (length s) src b i j
    = RtoC (2 * (g * g) / (INR bs * rsumn bs (fun j => wind j * wind j)%R) * block_ratio ov (length s) bs) * P i * Conj (P j).
  Proof.
    intros Hw Hu HX i j Hi Hj.
    rewrite (proj1 (csm_spec garbage bs ov N wind src s b Hsrc Hbs Hov Hlen Hw) i j Hi Hj).
    pose proof (num_blocks_pos ov (length s) bs Hbs Hlen) as Hnb.
    assert (Hb : (0 < INR bs)%R) by now apply lt_0_INR.
    set (weight := rsumn bs _) in *. set (nb := num_blocks ov (length s) bs) in *.
    rewrite (csum_ext _ _ (fun _ => RtoC (g * g) * (P i * Conj (P j)))).
    2:{ intros k Hk. pose proof (frame_in_stream bs ov (length s) k Hbs Hov Hk) as F.
        rewrite !HX by assumption. rewrite !Conj_mul, Conj_RtoC, RtoC_mul.
        assert (E : u (k * bs / ov)%nat * Conj (u (k * bs / ov)%nat) = C1) by (rewrite mul_Conj, Hu; reflexivity).
        set (v := u _) in *. transitivity (RtoC g * RtoC g * (v * Conj v) * (P i * Conj (P j))); [ring|]. rewrite E. ring. }
    assert (E : csum (frame_count bs ov (length s)) (fun _ => RtoC (g * g) * (P i * Conj (P j)))
      = RtoC (INR (frame_count bs ov (length s))) * (RtoC (g * g) * (P i * Conj (P j)))).
    { rewrite csum_scal_r_const. ring. }
    rewrite E. unfold block_ratio. fold nb. set (K := INR (frame_count bs ov (length s))).
    assert (RtoC nb <> C0) by (apply RtoC_neq0; lra).
    replace (RtoC (2 * (g * g) / (INR bs * weight) * (K / nb)))
      with (RtoC (2 / (INR bs * weight)) * RtoC (g * g) * (RtoC K / RtoC nb)).
    - field. assumption.
    - rewrite <- RtoC_div by lra. rewrite <- !RtoC_mul. f_equal. field. split; [lra|]. split; lra.
  Qed.

  Lemma power_csm_hermitian wind n b i j : (i < N)%nat -> (j < N)%nat ->
    power_spectra_csm garbage bs ov N wind n src b j i = Conj (power_spectra_csm garbage bs ov N wind n src b i j).
  Proof. intros Hi Hj. exact (calc_csm_hermitian bs N wind _ _ b i j Hi Hj). Qed.

  (** Rectangular window: line [b] holds the tones of this line. *)
  Definition line_sum (S : nat) (q : nat -> nat) (A phi : nat -> R) (r : nat -> nat -> R) (b m : nat) : C :=
    csum S (fun i => if (b =? q i)%nat then phasor fs c bs (q i) (A i) (phi i) (r i m) else C0).

  Lemma tones_csm S q A phi r b : records fs c bs N S q A phi r s ->
    (forall i, (i < S)%nat -> (0 < 2 * q i < bs)%nat) -> (0 < 2 * b < bs)%nat ->
    forall i j, (i < N)%nat -> (j < N)%nat ->
    power_spectra_csm garbage bs ov N (fun _ => 1%R) (length s) src b i j
    = RtoC (block_ratio ov (length s) bs / 2) * line_sum S q A phi r b i * Conj (line_sum S q A phi r b j).
  Proof.
    intros R0 Hq Hb i j Hi Hj. assert (Hbr : (0 < INR bs)%R) by now apply lt_0_INR.
    assert (Ew : rsumn bs (fun _ => 1 * 1)%R = INR bs) by (rewrite rsumn_const; ring).
    rewrite (rank_one_csm (fun _ => 1%R) b (line_sum S q A phi r b) (fun t => w bs (b * t)) (INR bs / 2)).
    - rewrite Ew. do 2 f_equal. apply f_equal. field. lra.
    - now rewrite Ew.
    - intros k. apply norm2_cexp.
    - intros t m Ht Hm. rewrite (frame_of_records fs c bs Hfs Hc Hbs N S q A phi r s) by assumption.
      unfold line_sum. rewrite <- csum_scal. apply csum_ext. intros l Hl.
      rewrite gain_pos_rect, gain_neg_rect by (specialize (Hq l Hl); lia).
      destruct (Nat.eqb_spec b (q l)) as [->|]; [|ring].
      replace (INR bs / 2)%R with (/ 2 * INR bs)%R by field. rewrite RtoC_mul. ring.
    - assumption.
    - assumption.
  Qed.

  (** A recording of tones on different lines. *)
  Theorem tones_matrix S q A phi r l r0 : records fs c bs N S q A phi r s ->
    (forall i, (i < S)%nat -> (0 < 2 * q i < bs)%nat) ->
    (forall i, (i < S)%nat -> q i = q l -> i = l) -> (l < S)%nat ->
    (0 < r0)%R -> (forall m, (m < N)%nat -> (0 < r l m)%R) ->
    forall i j, (i < N)%nat -> (j < N)%nat ->
    power_spectra_csm garbage bs ov N (fun _ => 1%R) (length s) src (q l) i j
    = monopole_csm (A l * A l / (2 * (r0 * r0)) * block_ratio ov (length s) bs)
        (transfer r0 (wave_number fs c bs (q l)) (r l)) i j.
  Proof.
    intros R0 Hq Hd Hl H0 Hr i j Hi Hj. rewrite (tones_csm S q A phi r (q l) R0 Hq (Hq l Hl) i j Hi Hj).
    assert (E : forall m, line_sum S q A phi r (q l) m = phasor fs c bs (q l) (A l) (phi l) (r l m)).
    { intros m. unfold line_sum. rewrite (csum_single S l).
      - now rewrite Nat.eqb_refl.
      - assumption.
      - intros k Hk Hne. destruct (Nat.eqb_spec (q l) (q k)) as [Eq|]; [|reflexivity].
        exfalso. apply Hne. now apply Hd. }
    rewrite !E. unfold monopole_csm.
    replace (A l * A l / (2 * (r0 * r0)) * block_ratio ov (length s) bs)%R
      with (block_ratio ov (length s) bs / 2 * (A l * A l / (r0 * r0)))%R by (field; lra).
    rewrite RtoC_mul. set (x := RtoC (_ / 2)).
    transitivity (x * (phasor fs c bs (q l) (A l) (phi l) (r l i) * Conj (phasor fs c bs (q l) (A l) (phi l) (r l j)))); [ring|].
    rewrite (phasor_product fs c bs (q l) (A l) (phi l) r0 (r l) i j) by auto. ring.
  Qed.

  Theorem silent_line S q A phi r b : records fs c bs N S q A phi r s ->
    (forall i, (i < S)%nat -> (0 < 2 * q i < bs)%nat) -> (0 < 2 * b < bs)%nat ->
    (forall i, (i < S)%nat -> q i <> b) ->
    forall i j, (i < N)%nat -> (j < N)%nat ->
    power_spectra_csm garbage bs ov N (fun _ => 1%R) (length s) src b i j = C0.
  Proof.
    intros R0 Hq Hb Hd i j Hi Hj. rewrite (tones_csm S q A phi r b R0 Hq Hb i j Hi Hj).
    assert (E : forall m, line_sum S q A phi r b m = C0).
    { intros m. apply csum_0. intros k Hk. destruct (Nat.eqb_spec b (q k)) as [Eq|]; [|reflexivity].
      exfalso. now apply (Hd k Hk). }
    rewrite !E. ring.
  Qed.

  (** One tone seen through a window whose transform vanishes at twice its line. *)
  Theorem tone_window wind q A phi r r0 : records fs c bs N 1 (fun _ => q) (fun _ => A) (fun _ => phi) (fun _ => r) s ->
    gain_neg bs wind q q = C0 -> (0 < rsumn bs (fun j => wind j * wind j))%R ->
    (0 < r0)%R -> (forall m, (m < N)%nat -> (0 < r m)%R) ->
    forall i j, (i < N)%nat -> (j < N)%nat ->
    power_spectra_csm garbage bs ov N wind (length s) src q i j
    = monopole_csm (A * A / (2 * (r0 * r0))
          * (rsumn bs wind * rsumn bs wind / (INR bs * rsumn bs (fun j => wind j * wind j)%R)) * block_ratio ov (length s) bs)
        (transfer r0 (wave_number fs c bs q) r) i j.
  Proof.
    intros R0 Hg Hw H0 Hr i j Hi Hj. assert (Hbr : (0 < INR bs)%R) by now apply lt_0_INR.
    rewrite (rank_one_csm wind q (fun m => phasor fs c bs q A phi (r m)) (fun t => w bs (q * t)) (rsumn bs wind / 2)).
    - unfold monopole_csm. set (W := rsumn bs (fun j => wind j * wind j)%R) in *. set (V := rsumn bs wind).
      replace (A * A / (2 * (r0 * r0)) * (V * V / (INR bs * W)) * block_ratio ov (length s) bs)%R
        with (2 * (V / 2 * (V / 2)) / (INR bs * W) * block_ratio ov (length s) bs * (A * A / (r0 * r0)))%R
        by (field; repeat split; lra).
      set (y := (2 * (V / 2 * (V / 2)) / (INR bs * W) * block_ratio ov (length s) bs)%R). rewrite RtoC_mul. set (x := RtoC y).
      transitivity (x * (phasor fs c bs q A phi (r i) * Conj (phasor fs c bs q A phi (r j)))); [ring|].
      rewrite (phasor_product fs c bs q A phi r0 r i j) by auto. ring.
    - assumption.
    - intros k. apply norm2_cexp.
    - intros t m Ht Hm. rewrite (frame_of_records fs c bs Hfs Hc Hbs N 1 _ _ _ _ s wind t m q R0 Ht Hm).
      cbn [csum]. rewrite Hg, gain_pos_self.
      replace (rsumn bs wind / 2)%R with (/ 2 * rsumn bs wind)%R by field. rewrite RtoC_mul. ring.
    - assumption.
    - assumption.
  Qed.
End Matrix.

(* ------------------------------------------------------------------ *)
(** ** Windows *)
(** A symmetric window has no component at half the sampling rate. *)
Lemma csum_rev n f : csum n (fun j => f (n - 1 - j)%nat) = csum n f.
Proof.
  induction n as [|n IH]; [reflexivity|]. rewrite csum_first. cbn [csum]. rewrite Nat.sub_0_r.
  replace (S n - 1)%nat with n by lia. rewrite <- IH.
  rewrite (csum_ext n (fun k => f (n - S k)%nat) (fun j => f (n - 1 - j)%nat)) by (intros; f_equal; lia). ring.
Qed.

Lemma w_half h j : (0 < h)%nat -> w (2 * h) (h * j) = if Nat.even j then C1 else (- C1).
Proof.
  intros Hh. assert (E : w (2 * h) h = - C1).
  { unfold w. replace (2 * PI * INR h / INR (2 * h))%R with PI.
    - unfold cexp. rewrite cos_PI, sin_PI. apply C_ext; cbn; ring.
    - rewrite mult_INR. change (INR 2) with 2%R. field. apply not_0_INR. lia. }
  induction j as [|j IH]; [rewrite Nat.mul_0_r; apply w_0|].
  rewrite Nat.mul_succ_r, w_add, IH, E, Nat.even_succ, <- Nat.negb_even. destruct (Nat.even j); cbn [negb]; ring.
Qed.

Lemma symmetric_gain h wind : (0 < h)%nat ->
  (forall j, (j < 4 * h)%nat -> wind (4 * h - 1 - j)%nat = wind j) -> gain_neg (4 * h) wind h h = C0.
Proof.
  intros Hh Hs. unfold gain_neg.
  rewrite (csum_ext _ _ (fun j => RtoC (wind j) * if Nat.even j then C1 else (- C1))).
  2:{ intros j _. f_equal. rewrite (Nat.mul_comm j h), <- Conj_mul, <- w_add.
      replace (h * j + h * j)%nat with (2 * h * j)%nat by ring. replace (4 * h)%nat with (2 * (2 * h))%nat by ring.
      rewrite w_half by lia. destruct (Nat.even j); [apply Conj_1|]. now rewrite Conj_opp, Conj_1. }
  set (f := fun j => RtoC (wind j) * if Nat.even j then C1 else (- C1)).
  assert (E : csum (4 * h) f = - csum (4 * h) f).
  { rewrite <- (csum_rev (4 * h) f) at 1.
    rewrite (csum_ext _ _ (fun j => (- C1) * f j)); [rewrite csum_scal; ring|].
    intros j Hj. unfold f. rewrite Hs by assumption.
    replace (Nat.even (4 * h - 1 - j)) with (negb (Nat.even j)).
    - destruct (Nat.even j); cbn [negb]; ring.
    - rewrite Nat.negb_even. rewrite <- !Nat.negb_even.
      replace (4 * h - 1 - j)%nat with (4 * h - S j)%nat by lia.
      rewrite Nat.even_sub by lia. rewrite Nat.even_succ, <- Nat.negb_even.
      rewrite Nat.even_mul. cbn. now destruct (Nat.even j). }
  set (z := csum (4 * h) f) in *. destruct z as [x y]. apply (f_equal fst) in E as Ex. apply (f_equal snd) in E as Ey.
  cbn in Ex, Ey. apply C_ext; cbn; lra.
Qed.

Lemma hanning_symmetric n j : (1 < n)%nat -> (j < n)%nat -> hanning n (n - 1 - j)%nat = hanning n j.
Proof.
  intros Hn Hj. unfold hanning. assert (INR (n - 1) <> 0%R) by (apply not_0_INR; lia).
  rewrite (minus_INR (n - 1) j) by lia.
  replace (2 * PI * (INR (n - 1) - INR j) / INR (n - 1))%R with (2 * PI - 2 * PI * INR j / INR (n - 1))%R by (field; assumption).
  rewrite cos_minus, cos_2PI, sin_2PI. ring.
Qed.

Lemma cos_sum_0 n p : (0 < p < n)%nat -> rsumn n (fun j => cos (2 * PI * INR (p * j) / INR n)) = 0%R.
Proof. intros H. pose proof (f_equal re (w_sum_0 n p H)) as E. rewrite re_csum in E. exact E. Qed.

Lemma hanning_sums n : (3 < n)%nat ->
  rsumn n (hanning n) = (INR (n - 1) / 2)%R /\ rsumn n (fun j => hanning n j * hanning n j)%R = (3 * INR (n - 1) / 8)%R.
Proof.
  intros Hn. destruct n as [|m]; [lia|]. unfold hanning. replace (S m - 1)%nat with m by lia.
  assert (Hm : INR m <> 0%R) by (apply not_0_INR; lia).
  pose proof (cos_sum_0 m 1 ltac:(lia)) as E1. pose proof (cos_sum_0 m 2 ltac:(lia)) as E2.
  assert (L : (2 * PI * INR m / INR m)%R = (2 * PI)%R) by (field; assumption).
  cbn [rsumn]. rewrite L, cos_2PI. split.
  - rewrite (rsumn_ext m _ (fun j => 1 / 2 + (- (1 / 2)) * cos (2 * PI * INR (1 * j) / INR m))%R)
      by (intros; rewrite Nat.mul_1_l; ring).
    rewrite rsumn_add, rsumn_const, rsumn_scal, E1. field.
  - rewrite (rsumn_ext m _ (fun j => (3 / 8 + (- (1 / 2)) * cos (2 * PI * INR (1 * j) / INR m))
                              + 1 / 8 * cos (2 * PI * INR (2 * j) / INR m))%R).
    + rewrite !rsumn_add, rsumn_const, !rsumn_scal, E1, E2. field.
    + intros j _. rewrite Nat.mul_1_l, mult_INR. change (INR 2) with 2%R.
      replace (2 * PI * (2 * INR j) / INR m)%R with (2 * (2 * PI * INR j / INR m))%R by (field; assumption).
      rewrite cos_2a_cos. field.
Qed.

(* ------------------------------------------------------------------ *)
(** ** Mean square *)
Lemma tone_mean_square fs c bs q A phi d : (0 < fs)%R -> (0 < c)%R -> (0 < 2 * q < bs)%nat -> (0 < d)%R ->
  (rsumn bs (fun t => tone fs c (line_freq fs bs q) A phi d t * tone fs c (line_freq fs bs q) A phi d t) / INR bs)%R
  = (A * A / (2 * (d * d)))%R.
Proof.
  intros Hfs Hc Hq Hd. assert (Hb : (0 < INR bs)%R) by (apply lt_0_INR; lia).
  set (psi := (phi - wave_number fs c bs q * d)%R).
  rewrite (rsumn_ext bs _ (fun t => A * A / (2 * (d * d))
     + (A * A / (2 * (d * d)) * cos (2 * psi) * cos (2 * PI * INR (2 * q * t) / INR bs)
        + (- (A * A / (2 * (d * d)) * sin (2 * psi))) * sin (2 * PI * INR (2 * q * t) / INR bs)))%R).
  - rewrite !rsumn_add, rsumn_const, !rsumn_scal, cos_sum_0 by lia.
    pose proof (f_equal im (w_sum_0 bs (2 * q) Hq)) as E. rewrite im_csum in E.
    change (rsumn bs (fun k => sin (2 * PI * INR (2 * q * k) / INR bs)) = 0%R) in E. rewrite E. field. split; lra.
  - intros t _. unfold tone.
    replace (2 * PI * line_freq fs bs q * (INR t / fs - d / c) + phi)%R with (psi + 2 * PI * INR (q * t) / INR bs)%R
      by (unfold psi, wave_number, line_freq; rewrite mult_INR; field; repeat split; lra).
    replace (2 * PI * INR (2 * q * t) / INR bs)%R with (2 * (2 * PI * INR (q * t) / INR bs))%R
      by (rewrite <- Nat.mul_assoc, (mult_INR 2); change (INR 2) with 2%R; field; lra).
    set (x := (2 * PI * INR (q * t) / INR bs)%R).
    transitivity (A * A / (2 * (d * d)) * (1 + cos (2 * (psi + x))))%R.
    + rewrite cos_2a_cos. field. lra.
    + rewrite (Rmult_plus_distr_l 2 psi x), cos_plus. ring.
Qed.

(** ** A recording *)
Definition recording (fs c : R) (bs N S : nat) (q : nat -> nat) (A phi : nat -> R) (r : nat -> nat -> R) (n : nat)
    : list (list R) :=
  map (fun t => map (fun m => rsumn S (fun i => tone fs c (line_freq fs bs (q i)) (A i) (phi i) (r i m) t)) (seq 0 N))
    (seq 0 n).

Lemma recording_records fs c bs N S q A phi r n :
  records fs c bs N S q A phi r (recording fs c bs N S q A phi r n) /\ length (recording fs c bs N S q A phi r n) = n.
Proof.
  assert (L : length (recording fs c bs N S q A phi r n) = n) by (unfold recording; now rewrite map_length, seq_length).
  split; [|exact L]. intros t m Ht Hm. rewrite L in Ht. unfold recording.
  rewrite (nth_map_seq _ _ n t Ht). now rewrite (nth_map_seq _ _ N m Hm).
Qed.

Lemma block_ratio_iff bs ov n : (0 < bs)%nat -> (bs <= n)%nat ->
  (0 < block_ratio ov n bs <= 1)%R /\ (block_ratio ov n bs = 1%R <-> Nat.divide bs (n * ov)).
Proof.
  intros Hb Hn. pose proof (num_blocks_pos ov n bs Hb Hn) as P. unfold block_ratio.
  pose proof (num_blocks_iff ov n bs Hb Hn) as I0. pose proof (num_blocks_excess ov n bs Hb Hn) as E.
  assert (F : (0 < INR (frame_count bs ov n))%R).
  { apply lt_0_INR. unfold frame_count. destruct (Nat.ltb_spec n bs); [lia|]. rewrite Nat.add_1_r. apply Nat.lt_0_succ. }
  assert (X : (0 <= INR (((n - bs) * ov) mod bs) / INR bs)%R).
  { apply Rmult_le_pos; [apply pos_INR|]. apply Rlt_le, Rinv_0_lt_compat, lt_0_INR. exact Hb. }
  split; [split|].
  - apply Rdiv_lt_0_compat; assumption.
  - apply Rmult_le_reg_r with (num_blocks ov n bs); [assumption|]. unfold Rdiv. rewrite Rmult_assoc, Rinv_l by lra. lra.
  - rewrite <- I0. split; intros H.
    + apply (f_equal (fun x => x * num_blocks ov n bs)%R) in H. unfold Rdiv in H. rewrite Rmult_assoc, Rinv_l in H by lra. lra.
    + rewrite <- H. field. lra.
Qed.
