(** Time domain and frequency domain delay and sum: BeamformerTime and
    BeamformerTimeSq (/repo/acoular/tbeamform.py:126-232) against PowerSpectra and
    BeamformerBase (/repo/acoular/fbeamform.py:485-520) for periodic records. *)
From Coq Require Import List Arith Lia ZArith Bool Reals Lra.
From Verif Require Import Stream Cplx Buffer Frames Convolve Fourier Beamform Csm Tone Das TimeSteer.
Import ListNotations.
Local Open Scope R_scope.
Local Open Scope C_scope.

(** * Shifts of periodic sequences *)
Lemma csum_shift n (g : nat -> C) : g n = g O -> csum n (fun j => g (S j)) = csum n g.
Proof.
  intros E. assert (forall m, csum m (fun j => g (S j)) + g O = csum m g + g m) as H.
  { induction m as [|m IH]; [cbn; ring|]. cbn [csum].
    transitivity (csum m (fun j => g (S j)) + g O + g (S m)); [ring|]. rewrite IH. ring. }
  specialize (H n). rewrite E in H. transitivity (csum n (fun j => g (S j)) + g O - g O); [ring|]. rewrite H. ring.
Qed.
Lemma w_mul_n n b : (0 < n)%nat -> w n (n * b) = C1.
Proof.
  intros Hn. rewrite <- (w_0 n). apply w_congr; [exact Hn|]. rewrite Nat.mul_comm, Nat.mod_mul by lia. now rewrite Nat.mod_0_l by lia.
Qed.
Lemma dft_shift1 n (x : nat -> C) b : (0 < n)%nat -> (forall j, x (j + n)%nat = x j) ->
  dft n (fun j => x (S j)) b = w n b * dft n x b.
Proof.
  intros Hn Hp. unfold dft.
  rewrite (csum_ext n _ (fun j => w n b * (x (S j) * Conj (w n (S j * b))))).
  2:{ intros j _. cbn [Nat.mul]. rewrite w_add, Conj_mul.
      transitivity (x (S j) * Conj (w n (j * b)) * (w n b * Conj (w n b))); [|ring].
      replace (w n b * Conj (w n b)) with (Conj (w n b) * w n b) by ring. rewrite w_conj_mul. ring. }
  rewrite csum_scal. f_equal. apply (csum_shift n (fun j => x j * Conj (w n (j * b)))).
  rewrite (Hp O : x n = x O), w_mul_n by exact Hn. cbn [Nat.mul]. now rewrite w_0.
Qed.
Lemma dft_shift n b d : (0 < n)%nat -> forall x : nat -> C, (forall j, x (j + n)%nat = x j) ->
  dft n (fun j => x (d + j)%nat) b = w n (d * b) * dft n x b.
Proof.
  intros Hn. induction d as [|d IH]; intros x Hp.
  - change (dft n (fun j => x (0 + j)%nat) b) with (dft n x b). cbn [Nat.mul]. rewrite w_0. change (RtoC 1) with C1. ring.
  - rewrite (dft_ext n _ (fun j => (fun i => x (S i)) (d + j)%nat) b) by (intros; reflexivity).
    rewrite (IH (fun i => x (S i))) by (intros j; exact (Hp (S j))). rewrite dft_shift1 by assumption.
    cbn [Nat.mul]. rewrite w_add. ring.
Qed.

(** * Weights of both domains *)
Section Polar.
  Variables (M : nat) (r0 : R) (rm : nat -> R).
  Hypothesis HM : (0 < M)%nat.
  Hypothesis H0 : (0 < r0)%R.
  Hypothesis Hr : forall m, (m < M)%nat -> (0 < rm m)%R.
  Lemma steer_polar st k m : (m < M)%nat ->
    steer_vector M st (transfer r0 k rm) m = cexp (k * r0) * (RtoC (steer_time st M rm r0 m) * cexp (- (k * rm m))).
  Proof.
    intros Hm. pose proof (Hr m Hm) as Hrm. pose proof (S_positive M rm HM Hr) as HS. pose proof (M_positive M HM) as HN.
    rewrite (steer_vector_raw M r0 k rm HM H0 Hr) by assumption. rewrite (steer_time_eq M r0 rm HM H0 Hr) by assumption.
    unfold steer_factor, steer_raw. rewrite cexp_neg. set (T := rsumn M (fun m0 => 1 / (rm m0 * rm m0))%R) in *.
    assert (0 < sqrt (T * INR M))%R as Hq by (apply sqrt_lt_R0; now apply Rmult_lt_0_compat).
    pose proof (RtoC_neq0 (rm m) ltac:(lra)) as Z1.
    destruct st.
    - ring.
    - replace (rm m / (r0 * INR M))%R with (1 / (r0 * INR M) * rm m)%R by (field; lra). rewrite RtoC_mul. ring.
    - replace (1 / (rm m * (r0 * T)))%R with (1 / (r0 * T) * / rm m)%R by (field; lra). rewrite RtoC_mul, RtoC_inv by lra. unfold Cdiv. ring.
    - replace (1 / (rm m * sqrt (T * INR M)))%R with (1 / sqrt (T * INR M) * / rm m)%R by (field; lra). rewrite RtoC_mul, RtoC_inv by lra. unfold Cdiv. ring.
  Qed.
End Polar.

(** * One channel of a periodic record *)
Definition fold_back (bs : nat) (s : list (list R)) (m t : nat) : R := sample s (t mod bs) m.
Lemma fold_period bs s m t : (0 < bs)%nat -> fold_back bs s m (t + bs) = fold_back bs s m t.
Proof. intros Hbs. unfold fold_back. replace (t + bs)%nat with (t + 1 * bs)%nat by lia. now rewrite Nat.mod_add by lia. Qed.
Section Record.
  Variables (bs : nat) (s : list (list R)) (M : nat).
  Hypothesis Hbs : (0 < bs)%nat.
  Hypothesis Hp : forall t m, (t + bs < length s)%nat -> (m < M)%nat -> sample s (t + bs) m = sample s t m.
  Lemma fold_sample m t : (m < M)%nat -> (t < length s)%nat -> sample s t m = fold_back bs s m t.
  Proof.
    intros Hm. revert t. refine (well_founded_ind lt_wf _ _). intros t IH Ht. destruct (Nat.lt_ge_cases t bs) as [L|L].
    - unfold fold_back. now rewrite Nat.mod_small by exact L.
    - replace t with ((t - bs) + bs)%nat by lia. rewrite fold_period by exact Hbs. rewrite Hp by (try assumption; lia). apply IH; lia.
  Qed.
  Lemma frame_fold t m b : (t + bs <= length s)%nat -> (m < M)%nat ->
    rfft bs (fun j => col m (window t bs s) j * 1)%R b = RtoC 1 * w bs (t * b) * rfft bs (fold_back bs s m) b.
  Proof.
    intros Ht Hm. unfold rfft. change (RtoC 1) with C1.
    transitivity (dft bs (fun j => RtoC (fold_back bs s m (t + j))) b).
    2:{ rewrite (dft_shift bs b t Hbs (fun j => RtoC (fold_back bs s m j))) by (intros; now rewrite fold_period by exact Hbs). ring. }
    apply dft_ext. intros j Hj. f_equal. unfold col, window. rewrite Convolve.nth_firstn by exact Hj. rewrite Convolve.nth_skipn.
    rewrite Rmult_1_r. change (sample s (t + j) m = fold_back bs s m (t + j)). apply fold_sample; [exact Hm|lia].
  Qed.
End Record.

(** * One line of the map *)
Section Line.
  Variables (fs c : R) (bs ov M : nat) (garbage : nat -> list R) (src : source (list R)) (s : list (list R)).
  Hypothesis Hfs : (0 < fs)%R.
  Hypothesis Hc : (0 < c)%R.
  Hypothesis Hbs : (0 < bs)%nat.
  Hypothesis Hov : (0 < ov)%nat.
  Hypothesis Hsrc : wf_source src s.
  Hypothesis Hlen : (bs <= length s)%nat.
  Hypothesis Hp : forall t m, (t + bs < length s)%nat -> (m < M)%nat -> sample s (t + bs) m = sample s t m.
  Variables (st : steer) (r0 : R) (rm : nat -> R) (d : nat -> nat).
  Hypothesis HM : (0 < M)%nat.
  Hypothesis H0 : (0 < r0)%R.
  Hypothesis Hr : forall m, (m < M)%nat -> (0 < rm m)%R.
  Hypothesis Hd : forall m, (m < M)%nat -> (rm m / c * fs)%R = INR (d m).

  (** The delayed and summed record, periodically continued. *)
  Definition beam (t : nat) : R := rsumn M (fun m => steer_time st M rm r0 m * fold_back bs s m (t + d m))%R.

  Lemma phase_delay b m : (m < M)%nat -> cexp (wave_number fs c bs b * rm m) = w bs (d m * b).
  Proof.
    intros Hm. unfold w. f_equal. rewrite mult_INR, <- (Hd m Hm). unfold wave_number, line_freq. pose proof (lt_0_INR bs Hbs). field. lra.
  Qed.

  Lemma rsumn_dft n (f : nat -> nat -> R) b : dft bs (fun j => RtoC (rsumn n (fun m => f m j))) b = csum n (fun m => dft bs (fun j => RtoC (f m j)) b).
  Proof.
    unfold dft. rewrite csum_swap. apply csum_ext. intros j _. rewrite <- csum_RtoC. now rewrite csum_scal_r.
  Qed.

  Lemma inner_beam b :
    norm2 (inner M (steer_vector M st (transfer r0 (wave_number fs c bs b) rm)) (fun m => rfft bs (fold_back bs s m) b)) = norm2 (rfft bs beam b).
  Proof.
    set (k := wave_number fs c bs b).
    assert (inner M (steer_vector M st (transfer r0 k rm)) (fun m => rfft bs (fold_back bs s m) b) = cexp (- (k * r0)) * rfft bs beam b) as E.
    { unfold inner, rfft at 2, beam. rewrite rsumn_dft, <- csum_scal. apply csum_ext. intros m Hm.
      rewrite (steer_polar M r0 rm HM H0 Hr) by exact Hm. rewrite !Conj_mul, !Conj_cexp, Conj_RtoC.
      replace (- - (k * rm m))%R with (k * rm m)%R by ring. unfold k at 2. rewrite phase_delay by exact Hm.
      rewrite (dft_ext bs _ (fun j => RtoC (steer_time st M rm r0 m) * (fun i => RtoC (fold_back bs s m i)) (d m + j)%nat) b).
      2:{ intros j _. rewrite RtoC_mul. do 3 f_equal. lia. }
      transitivity (cexp (- (k * r0)) * (RtoC (steer_time st M rm r0 m) * dft bs (fun j => (fun i => RtoC (fold_back bs s m i)) (d m + j)%nat) b)).
      - rewrite (dft_shift bs b (d m) Hbs (fun i => RtoC (fold_back bs s m i))) by (intros; now rewrite fold_period by exact Hbs). unfold rfft. ring.
      - f_equal. unfold dft. rewrite <- csum_scal. apply csum_ext. intros j _. ring. }
    rewrite E, norm2_mul, norm2_cexp. ring.
  Qed.

  Theorem line_map b :
    bf_base M (power_spectra_csm garbage bs ov M (fun _ => 1%R) (length s) src b) r0 (wave_number fs c bs b) rm false 0 st
    = Some (block_ratio ov (length s) bs * (2 / (INR bs * INR bs)) * norm2 (rfft bs beam b))%R.
  Proof.
    assert (rsumn bs (fun _ => 1 * 1)%R = INR bs) as W by apply rsumn_one.
    pose proof (lt_0_INR bs Hbs) as B.
    set (P := fun m => rfft bs (fold_back bs s m) b).
    rewrite (csm_ext_map M _ (monopole_csm (2 / (INR bs * INR bs) * block_ratio ov (length s) bs) P)).
    2:{ intros i j Hi Hj.
        rewrite (rank_one_csm bs ov M garbage src s Hbs Hov Hsrc Hlen (fun _ => 1%R) b P (fun t => w bs (t * b)) 1); try assumption.
        - rewrite W. unfold monopole_csm. replace (2 * (1 * 1))%R with 2%R by ring. ring.
        - rewrite W. exact B.
        - intros k. apply norm2_cexp.
        - intros t m Ht Hm. now apply (frame_fold bs s M Hbs Hp). }
    unfold bf_base, sig_loss_norm, clip_neg. f_equal. apply RtoC_inj. rewrite (bf_quadratic M r0 (wave_number fs c bs b) rm HM H0 Hr) by apply monopole_hermitian.
    rewrite qform_monopole. unfold P. rewrite inner_beam. rewrite <- RtoC_mul. f_equal. ring.
  Qed.

  Lemma beam_samples t : (forall m, (m < M)%nat -> (t + d m < length s)%nat) ->
    beam t = rsumn M (fun m => steer_time st M rm r0 m * lerp s m (INR t + rm m / c * fs))%R.
  Proof.
    intros Ht. apply rsumn_ext. intros m Hm. f_equal. rewrite (Hd m Hm), lerp_INR. symmetry. apply (fold_sample bs s M Hbs Hp); auto.
  Qed.
End Line.
Lemma beam_period bs M s st r0 rm d t : (0 < bs)%nat -> beam bs M s st r0 rm d (t + bs) = beam bs M s st r0 rm d t.
Proof.
  intros Hbs. apply rsumn_ext. intros m _. f_equal. replace (t + bs + d m)%nat with (t + d m + bs)%nat by lia. now apply fold_period.
Qed.

(** Sum over one period, from anywhere. *)
Lemma rsumn_period n (f : nat -> R) t : (forall j, f (j + n)%nat = f j) -> rsumn n (fun j => f (t + j)%nat) = rsumn n f.
Proof.
  intros Hf. induction t as [|t IH]; [reflexivity|]. rewrite <- IH.
  assert (forall m, (rsumn m (fun j => f (S t + j)%nat) + f t = rsumn m (fun j => f (t + j)%nat) + f (t + m)%nat)%R) as H.
  { induction m as [|m IHm]; [cbn [rsumn]; rewrite Nat.add_0_r; ring|]. cbn [rsumn]. replace (S t + m)%nat with (t + S m)%nat by lia. lra. }
  specialize (H n). rewrite Hf in H. lra.
Qed.

(** * A monopole with a periodic signal, without the diagonal *)
Section Monopole.
  Variables (fs c : R) (bs ov M : nat) (garbage : nat -> list R) (src : source (list R)) (s : list (list R)).
  Hypothesis Hfs : (0 < fs)%R.
  Hypothesis Hc : (0 < c)%R.
  Hypothesis Hbs : (0 < bs)%nat.
  Hypothesis Hov : (0 < ov)%nat.
  Hypothesis Hsrc : wf_source src s.
  Hypothesis Hlen : (bs <= length s)%nat.
  Variables (x : Z -> R) (r0 : R) (rm : nat -> R) (d : nat -> nat).
  Hypothesis HM : (1 < M)%nat.
  Hypothesis H0 : (0 < r0)%R.
  Hypothesis Hr : forall m, (m < M)%nat -> (0 < rm m)%R.
  Hypothesis Hd : forall m, (m < M)%nat -> (rm m / c * fs)%R = INR (d m).
  Hypothesis Hx : forall z, x (z + Z.of_nat bs)%Z = x z.
  Hypothesis Hs : forall t m, (t < length s)%nat -> (m < M)%nat -> sample s t m = (r0 / rm m * x (Z.of_nat t - Z.of_nat (d m))%Z)%R.

  Lemma x_turns z q : x (z + Z.of_nat q * Z.of_nat bs)%Z = x z.
  Proof.
    induction q as [|q IH]; [f_equal; lia|].
    replace (z + Z.of_nat (S q) * Z.of_nat bs)%Z with (z + Z.of_nat q * Z.of_nat bs + Z.of_nat bs)%Z by lia. now rewrite Hx.
  Qed.
  Lemma heard_period t m : (t + bs < length s)%nat -> (m < M)%nat -> sample s (t + bs) m = sample s t m.
  Proof.
    intros Ht Hm. rewrite !Hs by (try assumption; lia). f_equal.
    replace (Z.of_nat (t + bs) - Z.of_nat (d m))%Z with (Z.of_nat t - Z.of_nat (d m) + Z.of_nat bs)%Z by lia. apply Hx.
  Qed.
  Lemma heard_fold m j : (m < M)%nat -> fold_back bs s m (d m + j) = (r0 / rm m * x (Z.of_nat j))%R.
  Proof.
    intros Hm. unfold fold_back. pose proof (Nat.mod_upper_bound (d m + j) bs ltac:(lia)) as U. rewrite Hs by (try assumption; lia). f_equal.
    rewrite <- (x_turns _ ((d m + j) / bs)). f_equal. pose proof (Nat.div_mod (d m + j) bs ltac:(lia)) as E. lia.
  Qed.
  Lemma heard_spectrum m b : (m < M)%nat ->
    rfft bs (fold_back bs s m) b = cexp (- (wave_number fs c bs b * r0)) * rfft bs (fun t => x (Z.of_nat t)) b * transfer r0 (wave_number fs c bs b) rm m.
  Proof.
    intros Hm. pose proof (Hr m Hm) as P. set (k := wave_number fs c bs b).
    assert (w bs (d m * b) * rfft bs (fold_back bs s m) b = RtoC (r0 / rm m) * rfft bs (fun t => x (Z.of_nat t)) b) as E.
    { unfold rfft at 1. rewrite <- (dft_shift bs b (d m) Hbs (fun i => RtoC (fold_back bs s m i))) by (intros; now rewrite fold_period by exact Hbs).
      rewrite (dft_ext bs _ (fun j => RtoC (r0 / rm m) * RtoC (x (Z.of_nat j))) b) by (intros j _; rewrite heard_fold by exact Hm; apply RtoC_mul).
      unfold rfft, dft. rewrite <- csum_scal. apply csum_ext. intros j _. ring. }
    rewrite transfer_split by lra.
    assert (cexp (k * rm m) = w bs (d m * b)) as W.
    { unfold w, k. f_equal. rewrite mult_INR, <- (Hd m Hm). unfold wave_number, line_freq. pose proof (lt_0_INR bs Hbs). field. lra. }
    assert (forall a, cexp (- a) * cexp a = C1) as I by (intros a; rewrite <- cexp_add, Rplus_opp_l; apply cexp_0).
    transitivity (cexp (- (k * r0)) * cexp (k * r0) * cexp (- (k * rm m)) * (RtoC (r0 / rm m) * rfft bs (fun t => x (Z.of_nat t)) b)); [|ring].
    rewrite <- E, I, <- W. transitivity (cexp (- (k * rm m)) * cexp (k * rm m) * rfft bs (fold_back bs s m) b); [|ring]. rewrite I. ring.
  Qed.

  Theorem removed_line b :
    bf_base M (power_spectra_csm garbage bs ov M (fun _ => 1%R) (length s) src b) r0 (wave_number fs c bs b) rm true 0 Inverse
    = Some (block_ratio ov (length s) bs * (2 / (INR bs * INR bs)) * norm2 (rfft bs (fun t => x (Z.of_nat t)) b))%R.
  Proof.
    assert (rsumn bs (fun _ => 1 * 1)%R = INR bs) as W by apply rsumn_one.
    pose proof (lt_0_INR bs Hbs) as B. set (X := rfft bs (fun t => x (Z.of_nat t)) b). set (k := wave_number fs c bs b).
    set (ra := block_ratio ov (length s) bs).
    rewrite (csm_ext_map M _ (monopole_csm (ra * (2 / (INR bs * INR bs)) * norm2 X) (transfer r0 k rm))).
    - apply monopole_rdiag_inverse; try assumption. apply Rmult_le_pos; [|apply norm2_nonneg]. apply Rmult_le_pos.
      + pose proof (proj1 (block_ratio_iff bs ov (length s) Hbs Hlen)). unfold ra. lra.
      + apply Rlt_le, Rdiv_lt_0_compat; [lra|now apply Rmult_lt_0_compat].
    - intros i j Hi Hj.
      rewrite (rank_one_csm bs ov M garbage src s Hbs Hov Hsrc Hlen (fun _ => 1%R) b (fun m => rfft bs (fold_back bs s m) b) (fun t => w bs (t * b)) 1); try assumption.
      + rewrite W, !heard_spectrum by assumption. fold X k ra. unfold monopole_csm. rewrite !Conj_mul, Conj_cexp.
        replace (2 * (1 * 1) / (INR bs * INR bs) * ra)%R with (ra * (2 / (INR bs * INR bs)))%R by (unfold Rdiv; ring).
        rewrite (RtoC_mul (ra * (2 / (INR bs * INR bs))) (norm2 X)), <- mul_Conj. rewrite Ropp_involutive.
        assert (cexp (- (k * r0)) * cexp (k * r0) = C1) as I by (rewrite <- cexp_add, Rplus_opp_l; apply cexp_0).
        transitivity (RtoC (ra * (2 / (INR bs * INR bs))) * (cexp (- (k * r0)) * cexp (k * r0)) * (X * Conj X) * transfer r0 k rm i * Conj (transfer r0 k rm j)); [ring|].
        rewrite I. ring.
      + rewrite W. exact B.
      + intros t. apply norm2_cexp.
      + intros t m Ht Hm. apply (frame_fold bs s M Hbs); try assumption. exact heard_period.
  Qed.
End Monopole.
