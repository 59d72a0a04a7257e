(* Property C72: time-domain steering. *)
From Coq Require Import List Arith Lia ZArith Bool Reals Lra.
From Verif Require Import Stream Cplx Beamform Wav TimeBeam Das DasTraj TimeSteer Props_TimeBeam.
Import ListNotations.
Local Open Scope R_scope.

(* C72, amplitudes: for every formulation and every wave number the factor of a
   channel in the time domain is the magnitude of the steering vector. *)
Theorem C72_amplitudes : forall M r0 rm st k m,
  (0 < M)%nat -> 0 < r0 -> (forall m, (m < M)%nat -> 0 < rm m) -> (m < M)%nat ->
  steer_time st M rm r0 m = Cabs (steer_vector M st (transfer r0 k rm) m).
Proof. intros. now apply steer_time_abs. Qed.
Print Assumptions C72_amplitudes.

Example C72_amplitudes_example :
  steer_time TrueLevel 2 (fun m => INR (S m)) 1 0 = 4 / 5 /\ steer_time TrueLevel 2 (fun m => INR (S m)) 1 1 = 2 / 5.
Proof. unfold steer_time, steer_III. split; cbn -[Rdiv]; field_simplify; lra. Qed.

(* C72, level: the signal [x] of a monopole at grid point [g], arriving at
   microphone [m] after [d m] samples with amplitude r0/rm, is what
   BeamformerTime delivers for [g] with 'inverse' and 'true level'; 'classic'
   multiplies it by the mean of r0/rm, 'true location' by its root mean
   square.  BeamformerTimeSq delivers the square. *)
Theorem C72_monopole : forall G M st dly rm r0 reach num src s fuel (d : nat -> nat) (x : nat -> R) g n,
  (forall g m, 0 <= dly g m) -> is_reach G M dly reach ->
  (0 < num)%nat -> (forall r, In r s -> (M <= length r)%nat) -> wf_source src s -> (length s < fuel)%nat ->
  (0 < M)%nat -> 0 < r0 g -> (forall m, (m < M)%nat -> 0 < rm g m) -> (g < G)%nat ->
  (forall m, (m < M)%nat -> dly g m = INR (d m)) ->
  (n < length s - reach)%nat ->
  (forall m, (m < M)%nat -> nth m (nth (n + d m) s []) 0 = r0 g / rm g m * x n) ->
  let amp := fun g m => steer_time st M (rm g) (r0 g) m in
  let level := match st with
               | Inverse | TrueLevel => 1
               | Classic => rsumn M (fun m => r0 g / rm g m) / INR M
               | TrueLocation => sqrt (rsumn M (fun m => r0 g / rm g m * (r0 g / rm g m)) / INR M)
               end in
  nth g (nth n (concat (blocks (bft_result G M out_sum dly amp None src fuel num))) []) 0 = level * x n
  /\ nth g (nth n (concat (blocks (bft_result G M out_sq dly amp None src fuel num))) []) 0
     = (level * x n) * (level * x n).
Proof.
  intros G M st dly rm r0 reach num src s fuel d x g n P Hd Hn Hc Hw Hf HM H0 Hr Hg Hi Hl Hs amp level.
  assert (E : nth g (das_row G M out_sum dly amp s n) 0 = level * x n).
  { exact (das_monopole G M st dly rm r0 d x s g n HM H0 Hr Hg Hi Hs). }
  rewrite !(C50_output_partial G M _ dly amp reach num src s fuel) by assumption.
  rewrite !nth_map_seq by assumption. simpl Nat.add. split; [exact E|].
  rewrite <- E. unfold das_row. rewrite !nth_map_seq by assumption. reflexivity.
Qed.
Print Assumptions C72_monopole.

Example C72_monopole_example : exists s (x : nat -> R),
  wf_source (wsrc s) s /\ is_reach 1 1 (fun _ _ => INR 1) 3 /\ (0 < length s - 3)%nat /\
  nth 0 (nth (0 + 1) s []) 0 = 2 / 4 * x 0%nat /\ x 0%nat <> 0.
Proof.
  exists (repeat [1] 6), (fun _ => 2).
  split; [apply wsrc_ok; discriminate|]. split; [exact (const_reach 1)|]. split; [simpl; lia|].
  split; [simpl; lra|lra].
Qed.

(* C72, squares: without the diagonal BeamformerTimeSq delivers the sum over
   all pairs of different channels, or zero if that is negative. *)
Theorem C72_squares : forall G M dly amp reach num src s fuel,
  (forall g m, 0 <= dly g m) -> is_reach G M dly reach ->
  (0 < num)%nat -> (forall r, In r s -> (M <= length r)%nat) -> wf_source src s -> (length s < fuel)%nat ->
  forall g n, (g < G)%nat -> (n < length s - reach)%nat ->
  let c := fun m => amp g m * lerp s m (INR n + dly g m) in
  let out post := nth g (nth n (concat (blocks (bft_result G M post dly amp None src fuel num))) []) 0 in
  out out_sum = rsumn M c
  /\ out out_sq = rsumn M c * rsumn M c
  /\ out out_sqdiag = Rmax 0 (rsumn M (fun i => rsumn M (fun j => if (i =? j)%nat then 0 else c i * c j)))
  /\ 0 <= out out_sqdiag.
Proof.
  intros G M dly amp reach num src s fuel P Hd Hn Hc Hw Hf g n Hg Hl c out.
  assert (E : forall post, out post = post (map c (seq 0 M))).
  { intros post. unfold out. rewrite (C50_output_partial G M post dly amp reach num src s fuel) by assumption.
    rewrite nth_map_seq by assumption. unfold das_row. rewrite nth_map_seq by assumption. reflexivity. }
  rewrite !E. unfold out_sum, out_sq. rewrite rsum_seq. split; [reflexivity|]. split; [reflexivity|].
  split; [|apply Rmax_l].
  rewrite sqdiag_cross. f_equal. unfold cross_sum. rewrite map_length, seq_length.
  apply rsumn_ext. intros i Hi. apply rsumn_ext. intros j Hj. rewrite !nth_map_seq by assumption. reflexivity.
Qed.
Print Assumptions C72_squares.
