(** C103: the frequency range of PowerSpectra selects the lines inside it. *)
From Coq Require Import List Arith Lia ZArith Bool Reals Lra.
From Verif Require Import Stream Result Traits FreqRange.
Import ListNotations.
Local Open Scope R_scope.

(** Spec: line k of an FFT of n samples at fs lies at k fs / n; the lines are 0 .. n/2. *)
Definition freq_of (fs : R) (n : Z) (k : nat) : R := INR k * fs / IZR n.

(** freq_range = (lo, hi) selects, in order, the lines of [lo, hi[.
    Missing from the full statement: the last line (half the sampling
    frequency) is left out whatever hi is. *)
Theorem C103_range_partial : forall s lo hi, 0 < fr_fs s -> (0 < fr_n s)%Z ->
  let l := get_indices (set_freq_range lo (Some hi) s) in
  (exists a m, l = seq a m) /\
  forall k, In k l <-> (k < Z.to_nat (fr_n s) / 2)%nat /\ lo <= freq_of (fr_fs s) (fr_n s) k < hi.
Proof.
  intros s lo hi Hf Hn. cbv zeta. split.
  - unfold get_indices. set (s' := set_freq_range lo (Some hi) s).
    destruct (low_bounds s' eq_refl) as (a & -> & Ea). destruct (high_bounds s' hi eq_refl eq_refl) as (b & -> & Eb).
    pose proof (searchsorted_le (map (line s') (seq 0 (Z.to_nat (fr_n s') / 2))) (fr_flc s')) as Ha.
    pose proof (searchsorted_le (map (line s') (seq 0 (Z.to_nat (fr_n s') / 2))) hi) as Hb.
    rewrite <- Ea in Ha. rewrite <- Eb in Hb. rewrite map_length, seq_length in Ha, Hb.
    rewrite num_lines_eq. rewrite slice_list_any by lia. eexists _, _. reflexivity.
  - intros k. rewrite indices_range by assumption. rewrite filter_In, in_seq, andb_true_iff, Rleb_iff, Rltb_iff.
    unfold freq_of, line. intuition lia.
Qed.
Print Assumptions C103_range_partial.

(** freq_range = (lo, None) selects all lines from lo on, if there are any. *)
Theorem C103_open_partial : forall s lo, 0 < fr_fs s -> (0 < fr_n s)%Z ->
  lo <= freq_of (fr_fs s) (fr_n s) (Z.to_nat (fr_n s) / 2) ->
  let l := get_indices (set_freq_range lo None s) in
  forall k, In k l <-> (k <= Z.to_nat (fr_n s) / 2)%nat /\ lo <= freq_of (fr_fs s) (fr_n s) k.
Proof.
  intros s lo Hf Hn Hl. cbv zeta. intros k. rewrite indices_open by assumption.
  rewrite filter_In, in_seq, Rleb_iff. unfold freq_of, line. intuition lia.
Qed.
Print Assumptions C103_open_partial.

(** ind_low = a, ind_high = b (either order of assignment) select the lines a .. b-1;
    b = None all from a on.  Missing: again the last line when b is a number. *)
Theorem C103_index_partial : forall s a b, (0 <= a)%Z -> (0 <= b)%Z ->
  (forall k, In k (get_indices (set_ind_high (Some b) (set_ind_low a s)))
             <-> (k < Z.to_nat (fr_n s) / 2)%nat /\ (a <= Z.of_nat k < b)%Z)
  /\ get_indices (set_ind_low a (set_ind_high (Some b) s)) = get_indices (set_ind_high (Some b) (set_ind_low a s))
  /\ ((a <= fr_n s / 2)%Z ->
      forall k, In k (get_indices (set_ind_high None (set_ind_low a s)))
                <-> (k <= Z.to_nat (fr_n s) / 2)%nat /\ (a <= Z.of_nat k)%Z).
Proof.
  intros s a b Ha Hb. split; [|split; [reflexivity|]].
  - intros k. rewrite indices_index by assumption.
    rewrite filter_In, in_seq, andb_true_iff, Nat.leb_le, Nat.ltb_lt. lia.
  - intros Hn k. rewrite indices_index_open by lia. rewrite in_seq. lia.
Qed.
Print Assumptions C103_index_partial.

(** A new object uses all lines but the first and the last. *)
Theorem C103_default : forall fs n, (2 <= n)%Z -> forall k,
  In k (get_indices (new_spectra fs n)) <-> (1 <= k < Z.to_nat n / 2)%nat.
Proof.
  intros fs n Hn k. unfold get_indices. rewrite num_lines_eq.
  change (get_ind_low _) with (Z.min 1 (Z.of_nat (num_lines (new_spectra fs n)) - 1)).
  change (get_ind_high _) with (Some (Z.min (-1) (Z.of_nat (num_lines (new_spectra fs n)) - 1))).
  rewrite num_lines_eq. change (fr_n _) with n.
  assert (1 <= Z.to_nat n / 2)%nat by (apply (Nat.div_le_lower_bound); lia).
  generalize dependent (Z.to_nat n / 2)%nat. intros M HM.
  rewrite !Z.min_l by lia.
  replace (slice_list (S M) (Some 1%Z) (Some (-1)%Z) 1) with (slice_list (S M) (Some 1%Z) (Some (Z.of_nat M)) 1).
  - rewrite slice_list_any by lia. rewrite in_seq. lia.
  - unfold slice_list, slice_indices. change (0 <? 1)%Z with true. cbn match.
    change (-1 <? 0)%Z with true. cbn match. destruct (Z.ltb_spec (Z.of_nat M) 0); [lia|].
    rewrite Z.min_r by lia. rewrite (Z.max_r 0) by lia. do 2 f_equal. lia.
Qed.
Print Assumptions C103_default.

(** freq_range read back: the first line not below lo and the first not below hi;
    for limits beyond the lines, half the sampling frequency.
    Missing: objects for which ind_high was set to None at some time. *)
Theorem C103_read_partial : forall s lo hi i, 0 < fr_fs s -> (0 < fr_n s)%Z -> fr_ih s = Some i ->
  exists a b, get_freq_range (set_freq_range lo (Some hi) s)
              = inl (freq_of (fr_fs s) (fr_n s) a, Some (freq_of (fr_fs s) (fr_n s) b))
    /\ (a <= Z.to_nat (fr_n s) / 2)%nat /\ (b <= Z.to_nat (fr_n s) / 2)%nat
    /\ (forall k, (k < a)%nat -> freq_of (fr_fs s) (fr_n s) k < lo)
    /\ ((a < Z.to_nat (fr_n s) / 2)%nat -> lo <= freq_of (fr_fs s) (fr_n s) a)
    /\ (forall k, (k < b)%nat -> freq_of (fr_fs s) (fr_n s) k < hi)
    /\ ((b < Z.to_nat (fr_n s) / 2)%nat -> hi <= freq_of (fr_fs s) (fr_n s) b).
Proof. exact range_read. Qed.
Print Assumptions C103_read_partial.

(** integrate() without frange goes over exactly these lines (settings as a
    user reaches them: any freq_range, any index not further than the number of
    lines from the end). *)
Theorem C103_integrate : forall s lo hi a b, let m := Z.of_nat (S (Z.to_nat (fr_n s) / 2)) in
  (- m <= a)%Z -> match b with None => True | Some h => - m <= h end%Z ->
  (integrate_lines (set_freq_range lo hi s) = map Z.of_nat (get_indices (set_freq_range lo hi s)))
  /\ integrate_lines (set_ind_high b (set_ind_low a s)) = map Z.of_nat (get_indices (set_ind_high b (set_ind_low a s))).
Proof.
  intros s lo hi a b m Ha Hb. split; apply integrate_indices; rewrite num_lines_eq.
  - set (s' := set_freq_range lo hi s). destruct (low_bounds s' eq_refl) as (c & -> & Ec).
    pose proof (searchsorted_le (map (line s') (seq 0 (Z.to_nat (fr_n s') / 2))) (fr_flc s')) as H.
    rewrite <- Ec in H. rewrite map_length, seq_length in H. lia.
  - destruct hi as [hi|]; [|exact I]. set (s' := set_freq_range lo (Some hi) s).
    destruct (high_bounds s' hi eq_refl eq_refl) as (c & -> & Ec).
    pose proof (searchsorted_le (map (line s') (seq 0 (Z.to_nat (fr_n s') / 2))) hi) as H.
    rewrite <- Ec in H. rewrite map_length, seq_length in H. lia.
  - change (get_ind_low _) with (Z.min a (Z.of_nat (num_lines s) - 1)). rewrite num_lines_eq.
    change (fr_n (set_ind_high b (set_ind_low a s))) with (fr_n s). fold m. lia.
  - destruct b as [h|]; [|exact I].
    change (get_ind_high _) with (Some (Z.min h (Z.of_nat (num_lines s) - 1))). cbn match. rewrite num_lines_eq.
    change (fr_n (set_ind_high _ (set_ind_low a s))) with (fr_n s). fold m. lia.
Qed.
Print Assumptions C103_integrate.

(** "freq_range = (lo, hi) selects the lines of [lo, hi[": false for the line at
    half the sampling frequency; no upper limit, by frequency or by index, takes it in. *)
Theorem C103_last_line_refuted :
  (exists s lo hi k, 0 < fr_fs s /\ (0 < fr_n s)%Z /\ (k <= Z.to_nat (fr_n s) / 2)%nat
     /\ lo <= freq_of (fr_fs s) (fr_n s) k < hi /\ ~ In k (get_indices (set_freq_range lo (Some hi) s)))
  /\ (forall s hi lo, 0 < fr_fs s -> (0 < fr_n s)%Z ->
        ~ In (Z.to_nat (fr_n s) / 2)%nat (get_indices (set_freq_range lo (Some hi) s)))
  /\ (forall s a b, (0 <= a)%Z -> (0 <= b)%Z ->
        ~ In (Z.to_nat (fr_n s) / 2)%nat (get_indices (set_ind_high (Some b) (set_ind_low a s)))).
Proof.
  assert (G : forall s hi lo, 0 < fr_fs s -> (0 < fr_n s)%Z ->
        ~ In (Z.to_nat (fr_n s) / 2)%nat (get_indices (set_freq_range lo (Some hi) s))).
  { intros s hi lo Hf Hn H. apply (proj2 (C103_range_partial s lo hi Hf Hn)) in H. lia. }
  split; [|split; [exact G|]].
  - exists (new_spectra 51200 1024), 0, 30000, 512%nat. cbn [fr_fs fr_n new_spectra].
    split; [lra|]. split; [lia|]. change (Z.to_nat 1024 / 2)%nat with 512%nat. split; [lia|]. split.
    + unfold freq_of. rewrite INR_IZR_INZ. change (Z.of_nat 512) with 512%Z. lra.
    + apply (G (new_spectra 51200 1024)); cbn [fr_fs fr_n new_spectra]; [lra|lia].
  - intros s a b Ha Hb H. apply (proj1 (C103_index_partial s a b Ha Hb)) in H. lia.
Qed.
Print Assumptions C103_last_line_refuted.

(** "(lo, None) selects the lines from lo on": false above half the sampling
    frequency, where the last line is selected though it is below lo. *)
Theorem C103_above_refuted : exists s lo k, 0 < fr_fs s /\ (0 < fr_n s)%Z
  /\ get_indices (set_freq_range lo None s) = [k] /\ freq_of (fr_fs s) (fr_n s) k < lo.
Proof.
  exists (new_spectra 8 8), 5, 4%nat. cbn [fr_fs fr_n new_spectra]. split; [lra|]. split; [lia|]. split.
  - unfold get_indices. rewrite num_lines_eq. destruct (low_bounds (set_freq_range 5 None (new_spectra 8 8)) eq_refl) as (c & -> & Ec).
    change (Z.to_nat (fr_n (set_freq_range 5 None (new_spectra 8 8))) / 2)%nat with 4%nat in *.
    assert (Hm : forall i j, (i < j)%nat -> line (set_freq_range 5 None (new_spectra 8 8)) i < line (set_freq_range 5 None (new_spectra 8 8)) j)
      by (apply line_mono; cbn; [lra|lia]).
    destruct (search_mono _ 5 Hm 4 0) as (A1 & A2 & A3).
    change (fr_flc (set_freq_range 5 None (new_spectra 8 8))) with 5 in Ec. rewrite <- Ec in A1, A2, A3.
    assert (c = 4%nat) as ->; [|reflexivity].
    destruct (Nat.eq_dec c 4) as [|Hc]; [assumption|exfalso].
    specialize (A3 3%nat ltac:(lia)). unfold line in A3. cbn [fr_fs fr_n new_spectra set_freq_range] in A3.
    rewrite INR_IZR_INZ in A3. change (Z.of_nat 3) with 3%Z in A3. lra.
  - unfold freq_of. rewrite INR_IZR_INZ. change (Z.of_nat 4) with 4%Z. lra.
Qed.
Print Assumptions C103_above_refuted.

(** "freq_range can be read back": false.  In a new object an open upper limit
    makes the next reading raise; and once ind_high was None the upper limit
    reads None though the range set has one. *)
Theorem C103_read_refuted :
  (forall fs n lo, (0 < n)%Z -> get_freq_range (set_freq_range lo None (new_spectra fs n)) = inr IndexError)
  /\ (forall s lo hi, (0 < fr_n s)%Z -> exists f, get_freq_range (set_freq_range lo (Some hi) (set_ind_high None s)) = inl (f, None)).
Proof.
  split.
  - intros fs n lo Hn. unfold get_freq_range. set (s' := set_freq_range lo None (new_spectra fs n)).
    destruct (low_bounds s' eq_refl) as (c & -> & Ec).
    pose proof (searchsorted_le (map (line s') (seq 0 (Z.to_nat (fr_n s') / 2))) (fr_flc s')) as H.
    rewrite <- Ec in H. rewrite map_length, seq_length in H.
    rewrite py_at_in; [reflexivity|]. change (length (lines s')) with (num_lines s'). rewrite num_lines_eq. lia.
  - intros s lo hi Hn. set (s' := set_freq_range lo (Some hi) (set_ind_high None s)). unfold get_freq_range.
    destruct (low_bounds s' eq_refl) as (c & -> & Ec).
    pose proof (searchsorted_le (map (line s') (seq 0 (Z.to_nat (fr_n s') / 2))) (fr_flc s')) as H.
    rewrite <- Ec in H. rewrite map_length, seq_length in H.
    rewrite py_at_in; [eexists; reflexivity|]. change (length (lines s')) with (num_lines s'). rewrite num_lines_eq. lia.
Qed.
Print Assumptions C103_read_refuted.

(** "Setting one limit keeps the other": false.  Setting ind_low after freq_range
    brings the old ind_high back (for a new object: all lines to the one before the last). *)
Theorem C103_forget_refuted : exists s lo hi a h h', get_ind_high (set_freq_range lo (Some hi) s) = Some h
  /\ get_ind_high (set_ind_low a (set_freq_range lo (Some hi) s)) = Some h' /\ h <> h'.
Proof.
  exists (new_spectra 8 8), 1, 2, 1%Z.
  destruct (high_bounds (set_freq_range 1 (Some 2) (new_spectra 8 8)) 2 eq_refl eq_refl) as (c & -> & Ec).
  eexists _, _. split; [reflexivity|]. split; [reflexivity|].
  match goal with |- _ <> ?x => assert (x = -1)%Z as -> end; [|lia].
  change (fr_ih _) with (Some (-1)%Z). rewrite num_lines_eq. reflexivity.
Qed.
Print Assumptions C103_forget_refuted.

(** Hypotheses met: a range of four lines. *)
Example C103_case : get_indices (set_freq_range 100 (Some 260) (new_spectra 51200 1024)) = [2; 3; 4; 5]%nat
  /\ get_indices (set_ind_high (Some 5%Z) (set_ind_low 3 (new_spectra 51200 1024))) = [3; 4]%nat.
Proof.
  split; [|reflexivity]. rewrite indices_range; [|cbn; lra|cbn; lia].
  cbn [fr_n new_spectra]. change (Z.to_nat 1024 / 2)%nat with 512%nat.
  rewrite (filter_interval _ 512 2 6); [reflexivity|lia|].
  intros k Hk. rewrite andb_true_iff, Rleb_iff, Rltb_iff. unfold line. cbn [fr_fs fr_n new_spectra].
  replace (INR k * 51200 / 1024) with (INR k * 50) by lra. split.
  - intros [H1 H2]. assert (INR 1 < INR k) by (cbn; lra). assert (INR k < INR 6) by (cbn; lra).
    apply INR_lt in H, H0. lia.
  - intros [H1 H2]. apply le_INR in H1. assert (H3 : (k <= 5)%nat) by lia. apply le_INR in H3.
    rewrite (INR_IZR_INZ 2) in H1. rewrite (INR_IZR_INZ 5) in H3. cbn in H1, H3. lra.
Qed.
