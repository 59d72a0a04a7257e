(** C121: microphones marked as faulty. *)
From Coq Require Import List Arith Lia ZArith Bool Reals Lra FunctionalExtensionality.
From Verif Require Import Stream Sources Cplx Buffer Frames Convolve Fourier Csm Environ Beamform TimeBeam Das DasTraj TimeSteer Focus Faulty.
Import ListNotations.
Local Open Scope nat_scope.

(** Marking channels, in the recording and in the geometry, is the same as having recorded without them: the map and the
    beamformed signals are equal to those of the smaller recording and array (with nothing marked). *)
Theorem C121_removed (r : rig) : sound r ->
  (forall garbage bs ov wind b k st rdiag rdn ref x, 0 < bs ->
     freq_map r garbage bs ov wind b k st rdiag rdn ref x = freq_map (without r) garbage bs ov wind b k st rdiag rdn ref x)
  /\ (forall G grid ref post c fs amp wts fuel num, 0 < num ->
     time_signal r G grid ref post c fs amp wts fuel num = time_signal (without r) G grid ref post c fs amp wts fuel num).
Proof. intros S. split; intros; [now apply freq_without|now apply time_without]. Qed.
Print Assumptions C121_removed.

(** So nothing a faulty microphone records, no calibration factor and no position of it has any influence. *)
Theorem C121_no_influence (r r' : rig) : sound r -> sound r' ->
  g_total r' = g_total r -> g_marked r' = g_marked r -> g_off r' = g_off r -> g_start r' = g_start r -> g_stop r' = g_stop r ->
  map (keep_valid (g_marked r)) (g_data r') = map (keep_valid (g_marked r)) (g_data r) ->
  option_map (keep_valid (g_marked r)) (g_cal r') = option_map (keep_valid (g_marked r)) (g_cal r) ->
  keep_valid (g_off r) (g_pos r') = keep_valid (g_off r) (g_pos r) ->
  (forall garbage bs ov wind b k st rdiag rdn ref x, 0 < bs ->
     freq_map r' garbage bs ov wind b k st rdiag rdn ref x = freq_map r garbage bs ov wind b k st rdiag rdn ref x)
  /\ (forall G grid ref post c fs amp wts fuel num, 0 < num ->
     time_signal r' G grid ref post c fs amp wts fuel num = time_signal r G grid ref post c fs amp wts fuel num).
Proof.
  intros S S' E1 E2 E3 E4 E5 E6 E7 E8.
  assert (E : without r' = without r) by (unfold without; rewrite E1, E2, E3, E4, E5, E6, E7, E8; reflexivity).
  split; intros.
  - now rewrite (freq_without r'), (freq_without r), E.
  - now rewrite (time_without r'), (time_without r), E.
Qed.
Print Assumptions C121_no_influence.

(** With the same channels marked in both places the check passes, and the matrix is the one of all channels without the
    rows and columns of the faulty ones. *)
Theorem C121_submatrix (r : rig) garbage bs ov wind b k st rdiag rdn ref x :
  sound r -> g_off r = g_marked r -> 0 < bs -> 0 < ov -> bs <= length (sliced (g_start r) (g_stop r) (g_data r)) ->
  (0 < rsumn bs (fun j => wind j * wind j))%R ->
  let kept := keep_valid (g_marked r) (seq 0 (g_total r)) in
  (forall i j, i < length kept -> j < length kept ->
     csm_of r garbage bs ov wind b i j = csm_of (unmarked r) garbage bs ov wind b (nth i kept 0) (nth j kept 0))
  /\ freq_map r garbage bs ov wind b k st rdiag rdn ref x
     = inl (bf_base (length kept) (csm_of r garbage bs ov wind b) (env_r x ref) k
              (fun m => env_r x (nth (nth m kept (g_total r)) (g_pos r) (V3 0 0 0)%R)) rdiag rdn st).
Proof.
  intros S Eo Hb Ho Hl Hw kept. split; [intros; now apply csm_submatrix|].
  destruct (pos_without r S) as [P _]. unfold freq_map. rewrite P, num_channels_seq, Eo. fold kept.
  destruct S as (_ & _ & Hp & Hv & _).
  assert (L : length (keep_valid (g_marked r) (g_pos r)) = length kept) by (apply keep_valid_length; now rewrite seq_length).
  rewrite L, Nat.eqb_refl. destruct (Nat.eqb_spec (length kept) 0) as [Z|_]; [apply length_zero_iff_nil in Z; contradiction|].
  cbn [negb orb]. do 2 f_equal. extensionality m. f_equal. set (o := (V3 0 0 0)%R).
  assert (E : keep_valid (g_marked r) (g_pos r) = map (fun j => nth j (g_pos r) o) kept).
  { unfold kept. rewrite <- keep_valid_map. f_equal. rewrite <- Hp.
    apply nth_ext with (d := o) (d' := o); rewrite ?map_length, ?seq_length; [reflexivity|].
    intros n Hn. rewrite (nth_indep (map _ _) _ (nth 0 (g_pos r) o)) by now rewrite map_length, seq_length.
    rewrite (map_nth (fun j => nth j (g_pos r) o)), seq_nth by assumption. reflexivity. }
  rewrite E. destruct (Nat.lt_ge_cases m (length kept)) as [H|H].
  - rewrite (nth_indep _ _ (nth (g_total r) (g_pos r) o)) by now rewrite map_length.
    now rewrite (map_nth (fun j => nth j (g_pos r) o)).
  - rewrite (nth_overflow kept) by assumption. rewrite !nth_overflow; try reflexivity; rewrite ?map_length; try assumption. lia.
Qed.
Print Assumptions C121_submatrix.

(** Different numbers of channels are refused in the frequency domain. *)
Theorem C121_count (r : rig) garbage bs ov wind b k st rdiag rdn ref x : sound r ->
  length (keep_valid (g_marked r) (seq 0 (g_total r))) <> length (keep_valid (g_off r) (seq 0 (g_total r))) ->
  freq_map r garbage bs ov wind b k st rdiag rdn ref x = inr ValueError.
Proof.
  intros S N. destruct (pos_without r S) as [P _]. unfold freq_map. rewrite P, num_channels_seq.
  destruct S as (_ & _ & Hp & _).
  rewrite (keep_valid_length (g_off r) (g_pos r) (seq 0 (g_total r))) by now rewrite seq_length.
  apply Nat.eqb_neq in N. now rewrite N.
Qed.
Print Assumptions C121_count.

(** Two microphones; the first one records ones. *)
Definition two_mics (n : nat) (marked off : list Z) : rig :=
  Rig 2 (repeat [1; 0]%R n) None None None marked [(V3 0 0 0)%R; (V3 0 0 0)%R] off.

Example C121_case : sound (two_mics 4 [1%Z] [1%Z])
  /\ without (two_mics 4 [1%Z] [1%Z]) = Rig 1 [[1];[1];[1];[1]]%R None None None [] [(V3 0 0 0)%R] []
  /\ keep_valid [1%Z] (seq 0 2) = [0].
Proof. repeat split; cbn; try discriminate; repeat constructor. Qed.

Lemma one_sample r a : sound r -> rows_of_rig r = [[a]] -> num_channels_prop (g_total r) (g_marked r) = 1 ->
  sliced (g_start r) (g_stop r) (g_data r) <> [] ->
  csm_of r (fun _ => []) 1 1 (fun _ => 1%R) 0 0 0 = RtoC (2 * (a * a)).
Proof.
  intros S E N H. unfold csm_of. rewrite N, (num_samples_rows r S H), E.
  destruct (csm_spec (fun _ => []) 1 1 1 (fun _ => 1%R) (measured r) [[a]] 0) as [F _]; try lia; try (cbn; lra).
  - rewrite <- E. now apply measured_wf.
  - cbn. lia.
  - rewrite F by lia. change (frame_count 1 1 (length [[a]])) with 1%nat. cbn [csum].
    replace (num_blocks 1 (length [[a]]) 1) with 1%R by (unfold num_blocks; cbn; lra).
    assert (X : rfft 1 (fun j => col 0 (window (0 * 1 / 1) 1 [[a]]) j * 1)%R 0 = RtoC a).
    { unfold rfft, dft. cbn [csum]. unfold w, cexp. change (0 * 0) with 0%nat.
      replace (2 * PI * INR 0 / INR 1)%R with 0%R by (cbn; lra). rewrite cos_0, sin_0.
      unfold col, window. cbn. unfold RtoC, Cadd, Cmul, Conj, C0. cbn. f_equal; ring. }
    rewrite X. cbn [rsumn INR]. unfold Cdiv, Cadd, Cmul, Cinv, norm2, RtoC, Conj, C0. cbn [fst snd]. f_equal; field; lra.
Qed.

Lemma one_map r a : sound r -> rows_of_rig r = [[a]] -> num_channels_prop (g_total r) (g_marked r) = 1 ->
  sliced (g_start r) (g_stop r) (g_data r) <> [] -> micgeom_pos (g_pos r) (g_off r) = inl [(V3 0 0 0)%R] ->
  freq_map r (fun _ => []) 1 1 (fun _ => 1%R) 0 0%R Classic false 0%R (V3 0 0 0)%R (V3 0 0 1)%R = inl (Some (2 * (a * a)))%R.
Proof.
  intros S E N H P. pose proof (one_sample r a S E N H) as V. unfold freq_map. rewrite P, N. cbn [length Nat.eqb negb orb].
  do 2 f_equal. unfold bf_base, sig_loss_norm, clip_neg, freq_full, normalize, scalar_prod, steer_raw, help_normalize. cbn [fst].
  f_equal. cbn [csum rsumn INR]. rewrite V, ?Rmult_0_l, ?cos_0, ?sin_0.
  unfold Cdiv, Cadd, Cmul, Conj, RtoC, C1, C0, re, Cinv; cbn [fst snd]. field.
Qed.

(** Only the numbers are compared: with different channels marked in the two places there is no error, but the wrong map. *)
Theorem C121_marks_refuted : exists (r : rig) garbage bs ov wind b k st ref x y z,
  sound r /\ 0 < bs /\ 0 < ov /\ bs <= length (sliced (g_start r) (g_stop r) (g_data r))
  /\ (0 < rsumn bs (fun j => wind j * wind j))%R /\ g_marked r <> g_off r
  /\ freq_map r garbage bs ov wind b k st false 0%R ref x = inl (Some y)
  /\ freq_map (Rig (g_total r) (g_data r) (g_start r) (g_stop r) (g_cal r) (g_off r) (g_pos r) (g_off r))
       garbage bs ov wind b k st false 0%R ref x = inl (Some z)
  /\ y <> z.
Proof.
  exists (two_mics 1 [0%Z] [1%Z]), (fun _ => []), 1, 1, (fun _ => 1%R), 0, 0%R, Classic, (V3 0 0 0)%R, (V3 0 0 1)%R, (2 * (0 * 0))%R, (2 * (1 * 1))%R.
  assert (S : forall m, (m = 0 \/ m = 1)%Z -> sound (two_mics 1 [m] [1%Z]))
    by (intros m [-> | ->]; repeat split; cbn; try discriminate; repeat constructor).
  split; [auto|]. do 2 (split; [lia|]). split; [cbn; lia|]. split; [cbn; lra|]. split; [cbn; discriminate|].
  split; [|split; [|lra]].
  - apply one_map; try reflexivity; [auto|cbn; discriminate].
  - apply (one_map (two_mics 1 [1%Z] [1%Z])); try reflexivity; [auto|cbn; discriminate].
Qed.
Print Assumptions C121_marks_refuted.

(** BeamformerTime does not even compare the numbers: with the first microphone marked in the geometry only, the second
    one is focused with the signal of the first, without an error. *)
Theorem C121_time_refuted : exists (r : rig) G grid ref post c fs amp wts fuel num t t',
  sound r /\ (0 < c)%R /\ (0 < fs)%R /\ 0 < num /\ length (g_data r) < fuel /\ g_marked r = [] /\ g_off r = [0%Z]
  /\ time_signal r G grid ref post c fs amp wts fuel num = inl t
  /\ time_signal (Rig (g_total r) (g_data r) (g_start r) (g_stop r) (g_cal r) (g_off r) (g_pos r) (g_off r))
       G grid ref post c fs amp wts fuel num = inl t'
  /\ fin t = Finished /\ concat (blocks t) = [[1%R]] /\ concat (blocks t') = [[0%R]].
Proof.
  exists (two_mics 3 [] [0%Z]), 1, (fun _ => V3 0 0 0)%R, (V3 0 0 0)%R, out_sum, 1%R, 1%R, steer_I, (fun _ => None), 4, 4.
  eexists. eexists.
  split; [repeat split; cbn; try discriminate; repeat constructor|].
  do 2 (split; [lra|]). do 2 (split; [cbn; lia|]). do 2 (split; [reflexivity|]). do 2 (split; [reflexivity|]).
  assert (S : forall m, m = [] \/ m = [0%Z] -> sound (two_mics 3 m [0%Z]))
    by (intros m [-> | ->]; repeat split; cbn; try discriminate; repeat constructor).
  set (o := (V3 0 0 0)%R).
  set (dly := fun g m : nat => delay_of 1 1 (env_r ((fun _ => o) g) (nth m [o] o))).
  assert (Hd : forall g m, dly g m = 0%R).
  { intros g m. unfold dly, delay_of. replace (nth m [o] o) with o by (destruct m as [|[|]]; reflexivity).
    replace (env_r o o) with 0%R; [field|]. unfold env_r, vnorm, vsub, vdot, o. cbn [v3x v3y v3z].
    replace (_ + _ + _)%R with 0%R by ring. now rewrite sqrt_0. }
  assert (H0 : forall g m, (0 <= dly g m)%R) by (intros; rewrite Hd; lra).
  assert (R2 : max_sample_delay 1 1 dly = 2).
  { apply (reach_msd 1 1 dly 2 H0). split; [intros; rewrite Hd; cbn; lra|]. exists 0, 0. rewrite Hd. cbn. split; [lia|]. split; [lia|lra]. }
  assert (K : forall m a b, m = [] \/ m = [0%Z] -> rows_of_rig (two_mics 3 m [0%Z]) = [a :: b; a :: b; a :: b] ->
    forall amp, (forall g m, amp g m = 1%R) ->
    fin (bft_result 1 1 out_sum dly amp None (measured (two_mics 3 m [0%Z])) 4 4) = Finished
    /\ concat (blocks (bft_result 1 1 out_sum dly amp None (measured (two_mics 3 m [0%Z])) 4 4)) = [[a]]).
  { intros m a b Hm Hr amp Ha.
    assert (W : wf_source (measured (two_mics 3 m [0%Z])) [a :: b; a :: b; a :: b])
      by (rewrite <- Hr; apply measured_wf; [auto|cbn; discriminate]).
    assert (C : forall r, In r [a :: b; a :: b; a :: b] -> 1 <= length r) by (intros r [<-|[<-|[<-|[]]]]; cbn; lia).
    split.
    - rewrite (bft_trace 1 1 out_sum dly amp None 4 [a :: b; a :: b; a :: b]) by (auto; cbn; lia). cbn [fin].
      unfold bft_nblocks. rewrite R2. reflexivity.
    - rewrite (bft_output 1 1 out_sum dly amp None H0 4 _ [a :: b; a :: b; a :: b]) by (auto; cbn; lia).
      rewrite R2. cbn [length Nat.sub seq map]. unfold das_row. cbn [seq map]. rewrite Ha, Hd.
      unfold out_sum, rsum. cbn [fold_right]. do 2 f_equal.
      pose proof (lerp_INR [a :: b; a :: b; a :: b] 0 0 0) as Q. change (INR 0) with 0%R in Q |- *. rewrite Q. unfold sample. cbn [Nat.add nth]. ring. }
  split; [|split].
  - apply (K [] 1%R [0%R]); auto. intros g m. unfold steer_I. cbn. field.
  - apply (K [] 1%R [0%R]); auto. intros g m. unfold steer_I. cbn. field.
  - apply (K [0%Z] 0%R []); auto. intros g m. unfold steer_I. cbn. field.
Qed.
Print Assumptions C121_time_refuted.
