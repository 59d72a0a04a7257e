(** Faulty microphones: channels marked in MaskedTimeSamples (/repo/acoular/sources.py:617-746) and in MicGeom
    (microphones.py:163-172), followed by PowerSpectra and a beamformer (spectra.py:385-401, fbeamform.py:410-520) or
    BeamformerTime (tbeamform.py:126-232).  Composed from Sources.v, Csm.v, Beamform.v and Das.v. *)
From Coq Require Import List Arith Lia ZArith Bool Reals Lra FunctionalExtensionality.
From Verif Require Import Stream Sources Cplx Buffer Frames Convolve Fourier Csm Environ Beamform TimeBeam Das Focus.
Import ListNotations.
Local Open Scope nat_scope.

(** [g_cal]: one factor per channel of the file; [g_marked]: invalid_channels of the time data, [g_off]: of the geometry. *)
Record rig := Rig {
  g_total : nat; g_data : list (list R); g_start : option Z; g_stop : option Z; g_cal : option (list R);
  g_marked : list Z; g_pos : list v3; g_off : list Z }.

Definition measured (r : rig) : source (list R) :=
  masked_time_samples_result Rmult (g_total r) (g_data r) (g_start r) (g_stop r) (g_marked r)
    (option_map (fun f => mkCalib (length f) f) (g_cal r)).
Definition num_samples_of (r : rig) : nat := Z.to_nat (masked_num_samples (g_start r) (g_stop r) (length (g_data r))).

(** The cross spectral matrix, with as many channels as remain. *)
Definition csm_of (r : rig) (garbage : nat -> list R) (bs ov : nat) (wind : nat -> R) (b : nat) : nat -> nat -> C :=
  power_spectra_csm garbage bs ov (num_channels_prop (g_total r) (g_marked r)) wind (num_samples_of r) (measured r) b.

(** BeamformerBase at the point [x]: the check of fbeamform.py:412-416, then the map. *)
Definition freq_map (r : rig) (garbage : nat -> list R) (bs ov : nat) (wind : nat -> R) (b : nat) (k : R) (st : steer)
    (rdiag : bool) (rdn : R) (ref x : v3) : option R + exn :=
  match micgeom_pos (g_pos r) (g_off r) with
  | inr e => inr e
  | inl pos =>
      let nch := num_channels_prop (g_total r) (g_marked r) in
      if negb (nch =? length pos) || (nch =? 0) then inr ValueError
      else inl (bf_base nch (csm_of r garbage bs ov wind b) (env_r x ref) k
                  (fun m => env_r x (nth m pos (V3 0 0 0))) rdiag rdn st)
  end.

(** BeamformerTime, which has no such check; [wts] are the microphone weights, a function of the positions. *)
Definition time_signal (r : rig) (G : nat) (grid : nat -> v3) (ref : v3) (post : list R -> R) (c fs : R)
    (amp : nat -> (nat -> R) -> R -> nat -> R) (wts : list v3 -> option (nat -> R)) (fuel num : nat) : trace (list R) + exn :=
  match micgeom_pos (g_pos r) (g_off r) with
  | inr e => inr e
  | inl pos =>
      let rm g m := env_r (grid g) (nth m pos (V3 0 0 0)) in
      inl (bft_result G (length pos) post (fun g m => delay_of c fs (rm g m))
             (fun g m => amp (length pos) (rm g) (env_r (grid g) ref) m) (wts pos) (measured r) fuel num)
  end.

(** ** Specification *)

(** The recording and the array without the microphones. *)
Definition without (r : rig) : rig :=
  Rig (length (keep_valid (g_marked r) (seq 0 (g_total r)))) (map (keep_valid (g_marked r)) (g_data r)) (g_start r) (g_stop r)
      (option_map (keep_valid (g_marked r)) (g_cal r)) [] (keep_valid (g_off r) (g_pos r)) [].

(** As many columns, calibration factors and positions as announced; a microphone is left. *)
Definition sound (r : rig) : Prop :=
  Forall (fun row => length row = g_total r) (g_data r) /\ (forall f, g_cal r = Some f -> length f = g_total r)
  /\ length (g_pos r) = g_total r /\ keep_valid (g_marked r) (seq 0 (g_total r)) <> []
  /\ keep_valid (g_off r) (seq 0 (g_total r)) <> [].

(** ** Proofs *)

Lemma filteri_map {A B} (f : A -> B) p l : forall k, filteri_from k p (map f l) = map f (filteri_from k p l).
Proof. induction l as [|x l IH]; intros k; cbn; [reflexivity|]. destruct (p k); cbn; now rewrite IH. Qed.
Lemma sliced_map {A B} (f : A -> B) a b l : sliced a b (map f l) = map f (sliced a b l).
Proof. unfold sliced, filteri. rewrite map_length. apply filteri_map. Qed.
Lemma keep_valid_map {A B} (f : A -> B) inv l : keep_valid inv (map f l) = map f (keep_valid inv l).
Proof. apply filteri_map. Qed.
Lemma keep_all {A} (l : list A) : keep_valid [] l = l.
Proof. unfold keep_valid, filteri. apply filteri_from_all. intros; reflexivity. Qed.
Lemma keep_valid_ne {A B} inv (a : list A) (b : list B) : length a = length b -> keep_valid inv a <> [] -> keep_valid inv b <> [].
Proof.
  intros H N E. apply N. apply length_zero_iff_nil. rewrite (keep_valid_length inv a b H), E. reflexivity.
Qed.
Lemma num_channels_seq total inv : num_channels_prop total inv = length (keep_valid inv (seq 0 total)).
Proof. rewrite <- (num_channels_valid inv (seq 0 total)), seq_length. reflexivity. Qed.

Lemma delivers_trace {A} num (s : list A) t t' : 0 < num -> delivers num s t -> delivers num s t' -> t = t'.
Proof. intros Hn H H'. apply delivers_iff in H; [|assumption]. apply delivers_iff in H'; [|assumption]. congruence. Qed.

(** The rows delivered. *)
Definition rows_of_rig (r : rig) : list (list R) :=
  map (fun row => match g_cal r with None => keep_valid (g_marked r) row
                                   | Some f => rowmul Rmult (keep_valid (g_marked r) row) (keep_valid (g_marked r) f) end)
      (sliced (g_start r) (g_stop r) (g_data r)).

Lemma measured_rows r num : sound r -> 0 < num ->
  if match sliced (g_start r) (g_stop r) (g_data r) with [] => true | _ => false end
  then measured r num = raise OSError else delivers num (rows_of_rig r) (measured r num).
Proof.
  intros (Hd & Hc & _ & Hv & _) Hn.
  destruct (masked_time_samples_spec Rmult (g_total r) (g_data r) (g_start r) (g_stop r) (g_marked r) num Hn Hd) as (E & D & _).
  unfold measured. destruct (sliced (g_start r) (g_stop r) (g_data r)) as [|x l] eqn:S; [now apply E|].
  destruct D as (D1 & D2 & _); [discriminate|right; now intros L%length_zero_iff_nil|].
  unfold rows_of_rig. rewrite S. destruct (g_cal r) as [f|] eqn:F; cbn [option_map].
  - specialize (D2 f (Hc f eq_refl)). rewrite map_map in D2. exact D2.
  - exact D1.
Qed.

Lemma measured_without r num : sound r -> 0 < num -> measured r num = measured (without r) num.
Proof.
  intros S Hn. pose proof (measured_rows r num S Hn) as A.
  destruct S as (Hd & Hc & _ & Hv & _).
  assert (Hd' : Forall (fun row => length row = g_total (without r)) (g_data (without r))).
  { cbn [without g_total g_data]. apply Forall_forall. intros row [row0 [<- I]]%in_map_iff.
    apply keep_valid_length. rewrite seq_length. rewrite Forall_forall in Hd. now apply Hd. }
  destruct (masked_time_samples_spec Rmult (g_total (without r)) (g_data (without r)) (g_start r) (g_stop r) [] num Hn Hd') as (E & D & _).
  unfold measured at 2. cbn [without g_start g_stop g_marked g_cal g_data g_total] in *.
  rewrite sliced_map in *. unfold rows_of_rig in A. destruct (sliced (g_start r) (g_stop r) (g_data r)) as [|x l].
  - rewrite A. symmetry. now apply E.
  - destruct D as (D1 & D2 & _); [discriminate|now left|]. set (rows := x :: l) in *. clearbody rows.
    destruct (g_cal r) as [f|]; cbn [option_map].
    + specialize (D2 (keep_valid (g_marked r) f)). rewrite keep_all in D2.
      rewrite (map_map (keep_valid (g_marked r))) in D2. rewrite map_map in D2. 
      eapply delivers_trace; [exact Hn|exact A|].
      assert (L : length (keep_valid (g_marked r) f) = length (keep_valid (g_marked r) (seq 0 (g_total r)))).
      { apply keep_valid_length. rewrite seq_length. now apply Hc. }
      specialize (D2 L). erewrite map_ext; [exact D2|]. intros a. cbv beta. now rewrite keep_all.
    + eapply delivers_trace; [exact Hn|exact A|]. rewrite map_map in D1. erewrite map_ext; [exact D1|]. intros a. cbv beta. now rewrite keep_all.
Qed.

Lemma csm_without r garbage bs ov wind b : sound r -> 0 < bs -> csm_of r garbage bs ov wind b = csm_of (without r) garbage bs ov wind b.
Proof.
  intros S Hb. unfold csm_of, power_spectra_csm, get_source_data. rewrite (measured_without r bs S Hb).
  unfold num_samples_of. cbn [without g_start g_stop g_data g_total g_marked]. rewrite map_length.
  rewrite (num_channels_seq (g_total r)). reflexivity.
Qed.

Lemma pos_without r : sound r ->
  micgeom_pos (g_pos r) (g_off r) = inl (keep_valid (g_off r) (g_pos r))
  /\ micgeom_pos (g_pos (without r)) (g_off (without r)) = inl (keep_valid (g_off r) (g_pos r)).
Proof.
  intros (_ & _ & Hp & _ & Hv). split.
  - apply (micgeom_spec (g_pos r) (g_off r)). right. apply (keep_valid_ne _ (seq 0 (g_total r))); [now rewrite seq_length|assumption].
  - reflexivity.
Qed.

Lemma freq_without r garbage bs ov wind b k st rdiag rdn ref x : sound r -> 0 < bs ->
  freq_map r garbage bs ov wind b k st rdiag rdn ref x = freq_map (without r) garbage bs ov wind b k st rdiag rdn ref x.
Proof.
  intros S Hb. destruct (pos_without r S) as [P1 P2]. unfold freq_map. rewrite P1, P2.
  rewrite (csm_without r garbage bs ov wind b S Hb).
  cbn [without g_total g_marked]. rewrite (num_channels_seq (g_total r)). reflexivity.
Qed.

Lemma time_without r G grid ref post c fs amp wts fuel num : sound r -> 0 < num ->
  time_signal r G grid ref post c fs amp wts fuel num = time_signal (without r) G grid ref post c fs amp wts fuel num.
Proof.
  intros S Hb. destruct (pos_without r S) as [P1 P2]. unfold time_signal. rewrite P1, P2.
  unfold bft_result, samples_buffer_mut. rewrite (measured_without r num S Hb). reflexivity.
Qed.

(** The columns kept. *)
Lemma keep_nth inv (row : list R) i : 
  nth i (keep_valid inv row) 0%R = nth (nth i (keep_valid inv (seq 0 (length row))) (length row)) row 0%R.
Proof.
  assert (E : keep_valid inv row = map (fun j => nth j row 0%R) (keep_valid inv (seq 0 (length row)))).
  { rewrite <- keep_valid_map. f_equal. symmetry. apply nth_ext with (d := 0%R) (d' := 0%R); rewrite ?map_length, ?seq_length; [reflexivity|].
    intros n Hn. rewrite (nth_indep _ 0%R (nth 0 row 0%R)) by now rewrite map_length, seq_length.
    rewrite (map_nth (fun j => nth j row 0%R)), seq_nth by assumption. reflexivity. }
  rewrite E at 1. 
  destruct (Nat.lt_ge_cases i (length (keep_valid inv (seq 0 (length row))))) as [H|H].
  - rewrite (nth_indep _ 0%R (nth (length row) row 0%R)) by now rewrite map_length.
    now rewrite (map_nth (fun j => nth j row 0%R)).
  - rewrite nth_overflow by now rewrite map_length. rewrite (nth_overflow (keep_valid _ _)) by assumption.
    symmetry. now apply nth_overflow.
Qed.

Lemma in_skipn' {A} (x : A) n l : In x (skipn n l) -> In x l.
Proof. revert l. induction n as [|n IH]; intros [|y l]; cbn; auto. Qed.
Lemma in_firstn' {A} (x : A) n l : In x (firstn n l) -> In x l.
Proof. revert l. induction n as [|n IH]; intros [|y l]; cbn; intuition. Qed.

(** Nothing marked in the recording. *)
Definition unmarked (r : rig) : rig :=
  Rig (g_total r) (g_data r) (g_start r) (g_stop r) (g_cal r) [] (g_pos r) (g_off r).

Lemma keep_rowmul p (a b : list R) : forall k, length a = length b ->
  filteri_from k p (rowmul Rmult a b) = rowmul Rmult (filteri_from k p a) (filteri_from k p b).
Proof.
  revert b. induction a as [|x a IH]; intros [|y b] k H; cbn in *; try lia; [reflexivity|].
  destruct (p k); cbn; rewrite IH by lia; reflexivity.
Qed.

Lemma sliced_in {A} a b (l : list A) x : In x (sliced a b l) -> In x l.
Proof.
  unfold sliced, filteri. generalize (fun k => in_slice (Z.of_nat (length l)) a b (Z.of_nat k)). intros p. generalize 0.
  induction l as [|y l IH]; intros k; cbn; [auto|]. destruct (p k); cbn; [intros [H|H]; eauto|eauto].
Qed.

Lemma rows_unmarked r : sound r -> rows_of_rig r = map (keep_valid (g_marked r)) (rows_of_rig (unmarked r)).
Proof.
  intros (Hd & Hc & _). unfold rows_of_rig. cbn [unmarked g_cal g_marked g_data g_start g_stop]. rewrite map_map.
  apply map_ext_in. intros row I%sliced_in. rewrite Forall_forall in Hd. specialize (Hd row I).
  destruct (g_cal r) as [f|] eqn:F; rewrite !keep_all; [|reflexivity].
  unfold keep_valid, filteri. symmetry. apply keep_rowmul. now rewrite Hd, (Hc f).
Qed.

Lemma rowmul_length (a b : list R) : length (rowmul Rmult a b) = Nat.min (length a) (length b).
Proof. revert b. induction a as [|x a IH]; intros [|y b]; cbn; auto. Qed.

Lemma rows_width r row : sound r -> In row (rows_of_rig (unmarked r)) -> length row = g_total r.
Proof.
  intros (Hd & Hc & _). unfold rows_of_rig. cbn [unmarked g_cal g_marked g_data g_start g_stop].
  intros [row0 [<- I%sliced_in]]%in_map_iff. rewrite Forall_forall in Hd. specialize (Hd row0 I).
  destruct (g_cal r) as [f|] eqn:F; rewrite !keep_all; [|exact Hd]. rewrite rowmul_length, Hd, (Hc f eq_refl). lia.
Qed.

Lemma unmarked_sound r : sound r -> sound (unmarked r).
Proof.
  intros (Hd & Hc & Hp & Hv & Ho). repeat split; try assumption. cbn [unmarked g_marked g_total].
  rewrite keep_all. intros E. rewrite E in Hv. now apply Hv.
Qed.

Lemma num_samples_rows r : sound r -> sliced (g_start r) (g_stop r) (g_data r) <> [] -> num_samples_of r = length (rows_of_rig r).
Proof.
  intros (Hd & Hc & Hp & Hv & _) Hs.
  destruct (masked_time_samples_spec Rmult (g_total r) (g_data r) (g_start r) (g_stop r) (g_marked r) 1 ltac:(lia) Hd) as (_ & D & _).
  destruct D as (_ & _ & _ & _ & D); [assumption|right; now intros L%length_zero_iff_nil|].
  unfold num_samples_of. rewrite D, Nat2Z.id. unfold rows_of_rig. now rewrite !map_length.
Qed.

Lemma measured_wf r : sound r -> sliced (g_start r) (g_stop r) (g_data r) <> [] -> wf_source (measured r) (rows_of_rig r).
Proof. intros S H num Hn. pose proof (measured_rows r num S Hn) as A. destruct (sliced _ _ _); [congruence|exact A]. Qed.

Local Open Scope C_scope.
Lemma csm_submatrix r garbage bs ov wind b i j :
  sound r -> (0 < bs)%nat -> (0 < ov)%nat -> (bs <= length (sliced (g_start r) (g_stop r) (g_data r)))%nat ->
  (0 < rsumn bs (fun j => wind j * wind j))%R ->
  let kept := keep_valid (g_marked r) (seq 0 (g_total r)) in
  (i < length kept)%nat -> (j < length kept)%nat ->
  csm_of r garbage bs ov wind b i j = csm_of (unmarked r) garbage bs ov wind b (nth i kept 0%nat) (nth j kept 0%nat).
Proof.
  intros S Hb Ho Hl Hw kept Hi Hj.
  assert (Hne : sliced (g_start r) (g_stop r) (g_data r) <> []) by (intros E; rewrite E in Hl; cbn in Hl; lia).
  pose proof (unmarked_sound r S) as S'.
  assert (L : length (rows_of_rig r) = length (sliced (g_start r) (g_stop r) (g_data r))) by (unfold rows_of_rig; apply map_length).
  assert (L' : length (rows_of_rig (unmarked r)) = length (sliced (g_start r) (g_stop r) (g_data r))) by (unfold rows_of_rig; apply map_length).
  destruct (csm_spec garbage bs ov (length kept) wind (measured r) (rows_of_rig r) b) as [E _]; try assumption; [now apply measured_wf|lia|].
  destruct (csm_spec garbage bs ov (g_total r) wind (measured (unmarked r)) (rows_of_rig (unmarked r)) b) as [E' _]; try assumption;
    [now apply measured_wf|lia|].
  assert (V : forall i, (i < length kept)%nat -> (nth i kept 0 < g_total r)%nat).
  { intros i0 H. assert (I : In (nth i0 kept 0%nat) kept) by now apply nth_In.
    assert (forall k (l : list nat) x, In x (filteri_from k (fun k => negb (existsb (Z.eqb (Z.of_nat k)) (g_marked r))) l) -> In x l) as G.
    { intros k l. revert k. induction l as [|y l IH]; intros k x; cbn; [auto|]. destruct (negb _); cbn; [intros [?|?]; eauto|eauto]. }
    apply G in I. apply in_seq in I. lia. }
  unfold csm_of. rewrite (num_samples_rows r S Hne), (num_samples_rows (unmarked r) S' Hne).
  rewrite num_channels_seq. fold kept. change (num_channels_prop (g_total (unmarked r)) (g_marked (unmarked r))) with (g_total r).
  rewrite (E i j Hi Hj), (E' (nth i kept 0%nat) (nth j kept 0%nat)) by auto. rewrite L, L'.
  assert (X : forall k c, (c < length kept)%nat ->
    rfft bs (fun m => col c (window (k * bs / ov) bs (rows_of_rig r)) m * wind m)%R b
    = rfft bs (fun m => col (nth c kept 0%nat) (window (k * bs / ov) bs (rows_of_rig (unmarked r))) m * wind m)%R b).
  { intros k c H. f_equal. extensionality m. f_equal. rewrite (rows_unmarked r S).
    unfold window. rewrite skipn_map, firstn_map. unfold col.
    set (w := firstn bs (skipn (k * bs / ov) (rows_of_rig (unmarked r)))).
    pose proof (map_nth (keep_valid (g_marked r)) w [] m) as Q. change (keep_valid (g_marked r) (@nil R)) with (@nil R) in Q.
    rewrite Q. clear Q.
    destruct (Nat.lt_ge_cases m (length w)) as [Hm|Hm].
    - assert (W : length (nth m w []) = g_total r).
      { apply rows_width; [assumption|]. eapply in_skipn', in_firstn', nth_In. exact Hm. }
      rewrite keep_nth, W. f_equal. apply nth_indep. exact H.
    - rewrite (nth_overflow w) by assumption. destruct c, (nth _ kept 0%nat); reflexivity. }
  do 2 f_equal. apply csum_ext. intros k _. now rewrite !X.
Qed.
