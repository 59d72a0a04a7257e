(* Properties C50, C51, C52, C67, C68: beamforming in the time domain. *)
From Coq Require Import List Arith Lia ZArith Bool Reals Lra.
Require Import ZifyBool ZifyNat ZifyN.
From Verif Require Import Stream Sources Buffer Wav TimeBeam Das DasTraj Environ MovingGrid.
Import ListNotations.
Ltac Zify.zify_post_hook ::= Z.div_mod_to_equations.
Local Open Scope nat_scope.

(* The stream used in the examples. *)
Definition wsrc (s : list (list R)) : source (list R) := time_samples_result (fun x _ => x) 1 s None.
Lemma wsrc_ok s : s <> [] -> wf_source (wsrc s) s.
Proof. intros H num Hn. apply time_samples_delivers; auto. Qed.

(* C50: [das_row] is the weighted sum of the linearly interpolated, delayed
   channels; [is_reach d] says that d is two more than the integer part of the
   largest delay.  For every block size the rows yielded are rows
   0 .. num_samples-d-1, and what happens after the last one is known.
   [fuel] only has to exceed the length of the stream. *)
Theorem C50_output_partial : forall G M post dly amp d num src s fuel,
  (forall g m, (0 <= dly g m)%R) -> is_reach G M dly d ->
  0 < num -> (forall r, In r s -> M <= length r) -> wf_source src s -> length s < fuel ->
  concat (blocks (bft_result G M post dly amp None src fuel num))
    = map (das_row G M post dly amp s) (seq 0 (length s - d)).
Proof.
  intros G M post dly amp d num src s fuel H0 Hd Hn Hc Hw Hf.
  rewrite (bft_output G M post dly amp None H0 num src s fuel) by auto.
  now rewrite (reach_msd G M dly d H0 Hd).
Qed.
Print Assumptions C50_output_partial.

(* The blocks: all of [num] rows but the last, which may be empty. *)
Theorem C50_blocks : forall G M post dly amp wts d num src s fuel k b,
  (forall g m, (0 <= dly g m)%R) -> is_reach G M dly d ->
  0 < num -> (forall r, In r s -> M <= length r) -> wf_source src s -> length s < fuel ->
  nth_error (blocks (bft_result G M post dly amp wts src fuel num)) k = Some b ->
  k * num + d <= length s /\ length b = Nat.min num (length s - d - k * num).
Proof.
  intros G M post dly amp wts d num src s fuel k b H0 Hd Hn Hc Hw Hf.
  rewrite (bft_trace G M post dly amp wts num s Hn Hc src fuel Hw Hf). cbn [blocks].
  intros H. assert (k < bft_nblocks G M dly num s) as Hk.
  { assert (nth_error (map (fun k => map (bft_row G M post dly amp wts num s k)
       (seq (k * num) (Nat.min num (length s - max_sample_delay G M dly - k * num))))
        (seq 0 (bft_nblocks G M dly num s))) k <> None) as Hne by congruence.
    apply nth_error_Some in Hne. now rewrite map_length, seq_length in Hne. }
  pose proof (reach_msd G M dly d H0 Hd) as E.
  assert (k * num + d <= length s) as HB.
  { rewrite <- E. unfold bft_nblocks in Hk. rewrite E in *.
    destruct (Nat.ltb_spec (length s) d); [lia|].
    pose proof (Nat.div_mod (length s - d) num ltac:(lia)) as E1.
    assert (k * num <= num * ((length s - d) / num)) by (rewrite Nat.mul_comm; apply Nat.mul_le_mono_l; lia).
    lia. }
  split; auto.
  apply (nth_error_nth _ _ []) in H. rewrite nth_map_seq in H by auto. simpl in H.
  rewrite <- H, map_length, seq_length, E. reflexivity.
Qed.
Print Assumptions C50_blocks.

Theorem C50_end : forall G M post dly amp wts d num src s fuel,
  (forall g m, (0 <= dly g m)%R) -> is_reach G M dly d ->
  0 < num -> (forall r, In r s -> M <= length r) -> wf_source src s -> length s < fuel ->
  let t := bft_result G M post dly amp wts src fuel num in
  (fin t = Finished \/ fin t = Raised ValueError) /\
  (fin t = Finished <->
     length s = 0 \/ (d <= num /\ (length s mod num = 0 \/ d <= length s mod num))).
Proof.
  intros G M post dly amp wts d num src s fuel H0 Hd Hn Hc Hw Hf t.
  pose proof (bft_end G M post dly amp wts num src s fuel Hn Hc Hw Hf) as H.
  rewrite (reach_msd G M dly d H0 Hd) in H. exact H.
Qed.
Print Assumptions C50_end.

(* ten samples and a delay of one sample: complete with blocks of five,
   ValueError with blocks of four *)
Theorem C50_end_refuted : exists G M dly amp s,
  (forall g m, (0 <= dly g m)%R) /\ (forall r, In r s -> length r = M) /\ wf_source (wsrc s) s /\
  fin (bft_result G M out_sum dly amp None (wsrc s) 11 5) = Finished /\
  fin (bft_result G M out_sum dly amp None (wsrc s) 11 4) = Raised ValueError.
Proof.
  exists 1, 1, (fun _ _ => INR 1), (fun _ _ => 1%R), (repeat [1%R] 10).
  assert (forall r, In r (repeat [1%R] 10) -> length r = 1) as Hr
    by (intros r H; apply repeat_spec in H; subst; reflexivity).
  assert (wf_source (wsrc (repeat [1%R] 10)) (repeat [1%R] 10)) as W by (apply wsrc_ok; discriminate).
  assert (forall g m : nat, (0 <= (fun _ _ : nat => INR 1) g m)%R) as P by (intros; apply pos_INR).
  split; [exact P|]. split; [auto|]. split; [auto|].
  assert (forall r, In r (repeat [1%R] 10) -> 1 <= length r) as Hr' by (intros r H; rewrite (Hr r H); auto).
  split.
  - destruct (C50_end 1 1 out_sum (fun _ _ => INR 1) (fun _ _ => 1%R) None 3 5 _ _ 11
       P (const_reach 1) ltac:(lia) Hr' W ltac:(simpl; lia)) as [_ H].
    apply H. right. simpl. lia.
  - destruct (C50_end 1 1 out_sum (fun _ _ => INR 1) (fun _ _ => 1%R) None 3 4 _ _ 11
       P (const_reach 1) ltac:(lia) Hr' W ltac:(simpl; lia)) as [[H|H] H']; auto.
    apply H' in H. simpl in H. lia.
Qed.
Print Assumptions C50_end_refuted.

(* spatial weights are multiplied into the buffer: the samples that two
   windows share are weighted twice *)
Theorem C50_weights_refuted : exists G M dly amp w s,
  (forall g m, (0 <= dly g m)%R) /\ (forall r, In r s -> length r = M) /\ wf_source (wsrc s) s /\
  nth 2 (concat (blocks (bft_result G M out_sum dly amp (Some w) (wsrc s) 7 4))) [] = [2%R] /\
  nth 2 (concat (blocks (bft_result G M out_sum dly amp (Some w) (wsrc s) 7 2))) [] = [4%R].
Proof.
  exists 1, 1, (fun _ _ => INR 0), (fun _ _ => 1%R), (fun _ => 2%R), (repeat [1%R] 6).
  assert (forall r, In r (repeat [1%R] 6) -> length r = 1) as Hr
    by (intros r H; apply repeat_spec in H; subst; reflexivity).
  assert (wf_source (wsrc (repeat [1%R] 6)) (repeat [1%R] 6)) as W by (apply wsrc_ok; discriminate).
  split; [intros; apply pos_INR|]. split; [auto|]. split; [auto|].
  assert (forall r, In r (repeat [1%R] 6) -> 1 <= length r) as Hr' by (intros r H; rewrite (Hr r H); auto).
  split.
  - rewrite (bft_trace 1 1 out_sum (fun _ _ => INR 0) (fun _ _ => 1%R) (Some (fun _ => 2%R)) 4
               (repeat [1%R] 6)) by (auto; simpl; lia).
    unfold bft_nblocks. rewrite (const_msd 0). cbn [blocks]. unfold bft_row.
    rewrite (const_msd 0), didx_INR, dfrac_INR.
    cbn -[Rplus Rmult Rminus IZR]. f_equal. ring.
  - rewrite (bft_trace 1 1 out_sum (fun _ _ => INR 0) (fun _ _ => 1%R) (Some (fun _ => 2%R)) 2
               (repeat [1%R] 6)) by (auto; simpl; lia).
    unfold bft_nblocks. rewrite (const_msd 0). cbn [blocks]. unfold bft_row.
    rewrite (const_msd 0), didx_INR, dfrac_INR.
    cbn -[Rplus Rmult Rminus IZR]. f_equal. ring.
Qed.
Print Assumptions C50_weights_refuted.

(* C51: [IndexError] stands for a read outside the array in the compiled
   kernel.  With as many channels as microphones it never happens in
   BeamformerTime. *)
Theorem C51_static_partial : forall G M post dly amp wts num src s fuel,
  0 < num -> (forall r, In r s -> M <= length r) -> wf_source src s -> length s < fuel ->
  fin (bft_result G M post dly amp wts src fuel num) <> Raised IndexError.
Proof.
  intros G M post dly amp wts num src s fuel Hn Hc Hw Hf.
  destruct (bft_end G M post dly amp wts num src s fuel Hn Hc Hw Hf) as [[H|H] _]; rewrite H; discriminate.
Qed.
Print Assumptions C51_static_partial.

(* The number of channels of the source is never compared with the number of
   microphones. *)
Theorem C51_channels_refuted : exists G M dly amp s,
  (forall g m, (0 <= dly g m)%R) /\ (forall r, In r s -> length r = 1) /\ wf_source (wsrc s) s /\
  fin (bft_result G M out_sum dly amp None (wsrc s) 7 4) = Raised IndexError.
Proof.
  exists 1, 2, (fun _ _ => INR 0), (fun _ _ => 1%R), (repeat [1%R] 6).
  assert (wf_source (wsrc (repeat [1%R] 6)) (repeat [1%R] 6)) as W by (apply wsrc_ok; discriminate).
  split; [intros; apply pos_INR|].
  split; [intros r H; apply repeat_spec in H; subst; reflexivity|]. split; [auto|].
  assert (max_sample_delay 1 2 (fun _ _ => INR 0) = 2) as E.
  { apply reach_msd; [intros; apply pos_INR|]. split.
    - intros. simpl. lra.
    - exists 0, 0. repeat split; auto. simpl. lra. }
  unfold bft_result. rewrite E.
  rewrite (proj1 (samples_buffer_mut_users (weight_row None) [] [] (wsrc (repeat [1%R] 6)) (repeat [1%R] 6) 7 4
            W ltac:(lia) ltac:(simpl; lia)) 2 ltac:(lia)).
  cbn [blocks fin done]. change (length (repeat [1%R] 6)) with 6. change ((6 + 4 - 1) / 4) with 2.
  cbn [seq map bft_loop]. rewrite E. unfold bft_kernel, kernel, kernel_row, contrib.
  rewrite !didx_INR, !dfrac_INR. reflexivity.
Qed.
Print Assumptions C51_channels_refuted.

(* C67: BeamformerTimeTraj.  [dl n g m] and [am n g m] are the delay and the
   amplitude with the grid at its position at sample n, [T] the number of
   positions of the trajectory; [dmax n] is the integer part of the largest
   delay.  For a grid slower than sound the rows yielded are the first rows
   of the delay-and-sum towards the moving grid, up to the first block [K]
   that with its largest delay does not fit. *)
Theorem C67_output_partial : forall G M post dl am T num src s fuel,
  (forall n g m, (0 <= dl n g m)%R) ->
  0 < num -> (forall r, In r s -> M <= length r) -> wf_source src s -> length s < fuel ->
  (forall n, n + dmax G M dl n <= n + 1 + dmax G M dl (n + 1)) -> 0 < length s ->
  exists K, K * num < length s /\
    (forall k, k < K -> (k + 1) * num + tmsd G M dl num k <= length s) /\
    length s < (K + 1) * num + tmsd G M dl num K /\
    (T < (K + 1) * num -> fin (traj_result G M post dl am None T src fuel num) = Raised RuntimeError) /\
    ((K + 1) * num <= T ->
     exists n, fin (traj_result G M post dl am None T src fuel num) = Finished /\
      concat (blocks (traj_result G M post dl am None T src fuel num)) = map (tdas_row G M post dl am s) (seq 0 n) /\
      (forall i, i < (K + 1) * num -> (i < n <-> i + dmax G M dl i + 1 < length s)) /\ n <= (K + 1) * num).
Proof.
  intros G M post dl am T num src s fuel H0 Hn Hc Hw Hf Hs HN.
  exact (traj_output G M post dl am None T H0 num src s fuel Hn Hc Hw Hf eq_refl Hs HN).
Qed.
Print Assumptions C67_output_partial.

(* C51 for the moving grid: no read outside the window when the grid is
   slower than sound ... *)
Theorem C51_traj_partial : forall G M post dl am T num src s fuel,
  (forall n g m, (0 <= dl n g m)%R) ->
  0 < num -> (forall r, In r s -> M <= length r) -> wf_source src s -> length s < fuel ->
  (forall n, n + dmax G M dl n <= n + 1 + dmax G M dl (n + 1)) -> 0 < length s ->
  fin (traj_result G M post dl am None T src fuel num) <> Raised IndexError.
Proof.
  intros G M post dl am T num src s fuel H0 Hn Hc Hw Hf Hs HN.
  destruct (C67_output_partial G M post dl am T num src s fuel H0 Hn Hc Hw Hf Hs HN)
    as (K & _ & _ & _ & A & B).
  destruct (le_lt_dec ((K + 1) * num) T) as [H|H].
  - destruct (B H) as (n & E & _). rewrite E. discriminate.
  - rewrite (A H). discriminate.
Qed.
Print Assumptions C51_traj_partial.

(* ... but not otherwise: the number of rows of the last block counts rows
   whose samples are all there, wherever they are in the block. *)
Theorem C51_supersonic_refuted : exists G M dl am T s,
  (forall n g m, (0 <= dl n g m)%R) /\ (forall r, In r s -> length r = M) /\ wf_source (wsrc s) s /\
  fin (traj_result G M out_sum dl am None T (wsrc s) 4 2) = Raised IndexError.
Proof.
  set (f := fun n => match n with 0 => 9 | _ => 0 end).
  exists 1, 1, (fun n _ _ => INR (f n)), (fun _ _ _ => 1%R), 2, (repeat [1%R] 3).
  assert (wf_source (wsrc (repeat [1%R] 3)) (repeat [1%R] 3)) as W by (apply wsrc_ok; discriminate).
  split; [intros; apply pos_INR|].
  split; [intros r H; apply repeat_spec in H; subst; reflexivity|]. split; [auto|].
  unfold traj_result.
  rewrite (proj2 (samples_buffer_mut_users (weight_row None) [] [] (wsrc (repeat [1%R] 3)) (repeat [1%R] 3) 4 2
            W ltac:(lia) ltac:(simpl; lia)) (tmsd 1 1 (fun n _ _ => INR (f n)) 2)).
  cbn [blocks fin done]. change (length (repeat [1%R] 3)) with 3. change ((3 + 2 - 1) / 2) with 2.
  cbn [seq map traj_loop].
  assert (tmsd 1 1 (fun n _ _ => INR (f n)) 2 0 = 11) as E by (rewrite tmsd_one; reflexivity).
  rewrite E. unfold mwindow at 1. rewrite E.
  unfold mwindow at 1. rewrite E. unfold mwindow at 1. rewrite E.
  change (2 <? (0 + 1) * 2) with false. cbv iota.
  rewrite map_length, seq_length. change (length (repeat [1%R] 3)) with 3.
  change (Nat.min (2 + 11) (3 - 0 * 2) <? 2 + 11) with true. cbv iota.
  unfold count. cbn [seq]. cbn [filter]. rewrite !dmax_one.
  cbn -[traj_kernel map seq].
  unfold traj_kernel, kernel. cbn [seq map]. unfold kernel_row. cbn [seq map]. unfold contrib.
  rewrite didx_INR. reflexivity.
Qed.
Print Assumptions C51_supersonic_refuted.

(* Approaching at half the speed of sound: with blocks of four samples four
   rows are yielded, with blocks of two samples six. *)
Theorem C67_blocks_refuted : exists G M dl am T s,
  (forall n g m, (0 <= dl n g m)%R) /\ (forall r, In r s -> length r = M) /\ wf_source (wsrc s) s /\
  (forall n, n + dmax G M dl n <= n + 1 + dmax G M dl (n + 1)) /\
  length (concat (blocks (traj_result G M out_sum dl am None T (wsrc s) 9 4))) = 4 /\
  length (concat (blocks (traj_result G M out_sum dl am None T (wsrc s) 9 2))) = 6.
Proof.
  set (f := fun n => (6 - n) / 2).
  exists 1, 1, (fun n _ _ => INR (f n)), (fun _ _ _ => 1%R), 100, (repeat [1%R] 8).
  assert (wf_source (wsrc (repeat [1%R] 8)) (repeat [1%R] 8)) as W by (apply wsrc_ok; discriminate).
  assert (forall r, In r (repeat [1%R] 8) -> length r = 1) as Hr
    by (intros r H; apply repeat_spec in H; subst; reflexivity).
  assert (forall n g m : nat, (0 <= (fun n _ _ : nat => INR (f n)) n g m)%R) as P by (intros; apply pos_INR).
  assert (forall n, n + dmax 1 1 (fun n _ _ => INR (f n)) n <= n + 1 + dmax 1 1 (fun n _ _ => INR (f n)) (n + 1)) as S.
  { intros n. rewrite !dmax_one. unfold f. lia. }
  split; [exact P|]. split; [auto|]. split; [auto|]. split; [exact S|].
  assert (forall r, In r (repeat [1%R] 8) -> 1 <= length r) as Hr' by (intros r H; rewrite (Hr r H); auto).
  split.
  - destruct (C67_output_partial 1 1 out_sum (fun n _ _ => INR (f n)) (fun _ _ _ => 1%R) 100 4 _ _ 9 P
       ltac:(lia) Hr' W ltac:(simpl; lia) S ltac:(simpl; lia)) as (K & H1 & H2 & H3 & _ & H4).
    change (length (repeat [1%R] 8)) with 8 in *.
    assert (K = 0) as ->.
    { destruct K as [|K]; auto. specialize (H2 0 ltac:(lia)). rewrite tmsd_one in H2. vm_compute in H2. lia. }
    destruct (H4 ltac:(lia)) as (n & _ & -> & H5 & H6). rewrite map_length, seq_length.
    assert (3 < n); [|lia]. apply H5; [lia|]. rewrite dmax_one. vm_compute. lia.
  - destruct (C67_output_partial 1 1 out_sum (fun n _ _ => INR (f n)) (fun _ _ _ => 1%R) 100 2 _ _ 9 P
       ltac:(lia) Hr' W ltac:(simpl; lia) S ltac:(simpl; lia)) as (K & H1 & H2 & H3 & _ & H4).
    change (length (repeat [1%R] 8)) with 8 in *.
    assert (K = 2) as ->.
    { destruct K as [|[|[|K]]]; auto.
      - rewrite tmsd_one in H3. vm_compute in H3. lia.
      - rewrite tmsd_one in H3. vm_compute in H3. lia.
      - specialize (H2 2 ltac:(lia)). rewrite tmsd_one in H2. vm_compute in H2. lia. }
    destruct (H4 ltac:(lia)) as (n & _ & -> & H5 & H6). rewrite map_length, seq_length.
    assert (5 < n); [|lia]. apply H5; [lia|]. rewrite dmax_one. vm_compute. lia.
Qed.
Print Assumptions C67_blocks_refuted.

(* A trajectory that covers all samples of the source, but not the whole last
   block, ends the generator with a RuntimeError. *)
Theorem C67_trajectory_refuted : exists G M dl am s,
  (forall n g m, (0 <= dl n g m)%R) /\ (forall r, In r s -> length r = M) /\ wf_source (wsrc s) s /\
  fin (traj_result G M out_sum dl am None (length s) (wsrc s) 8 4) = Raised RuntimeError /\
  fin (traj_result G M out_sum dl am None (length s) (wsrc s) 8 7) = Finished.
Proof.
  set (f := fun _ : nat => 0).
  exists 1, 1, (fun n _ _ => INR (f n)), (fun _ _ _ => 1%R), (repeat [1%R] 7).
  assert (wf_source (wsrc (repeat [1%R] 7)) (repeat [1%R] 7)) as W by (apply wsrc_ok; discriminate).
  assert (forall r, In r (repeat [1%R] 7) -> length r = 1) as Hr
    by (intros r H; apply repeat_spec in H; subst; reflexivity).
  assert (forall n g m : nat, (0 <= (fun n _ _ : nat => INR (f n)) n g m)%R) as P by (intros; apply pos_INR).
  assert (forall n, n + dmax 1 1 (fun n _ _ => INR (f n)) n <= n + 1 + dmax 1 1 (fun n _ _ => INR (f n)) (n + 1)) as S.
  { intros n. rewrite !dmax_one. unfold f. lia. }
  split; [exact P|]. split; [auto|]. split; [auto|].
  assert (forall r, In r (repeat [1%R] 7) -> 1 <= length r) as Hr' by (intros r H; rewrite (Hr r H); auto).
  change (length (repeat [1%R] 7)) with 7.
  split.
  - destruct (C67_output_partial 1 1 out_sum (fun n _ _ => INR (f n)) (fun _ _ _ => 1%R) 7 4 _ _ 8 P
       ltac:(lia) Hr' W ltac:(simpl; lia) S ltac:(simpl; lia)) as (K & H1 & H2 & H3 & H4 & _).
    change (length (repeat [1%R] 7)) with 7 in *. apply H4.
    destruct K as [|K]; [|lia]. rewrite tmsd_one in H3. vm_compute in H3. lia.
  - destruct (C67_output_partial 1 1 out_sum (fun n _ _ => INR (f n)) (fun _ _ _ => 1%R) 7 7 _ _ 8 P
       ltac:(lia) Hr' W ltac:(simpl; lia) S ltac:(simpl; lia)) as (K & H1 & H2 & H3 & _ & H4).
    change (length (repeat [1%R] 7)) with 7 in *.
    destruct K as [|K]; [|lia]. destruct (H4 ltac:(lia)) as (n & E & _). exact E.
Qed.
Print Assumptions C67_trajectory_refuted.

(* C52: if no value is clipped - every value is zero or above q times an upper
   bound of all values, q = 10^(clip/10) - the integrated time series is the
   sum over the sector for every block size. *)
Theorem C52_plain_partial : forall inds q src s num b,
  wf_source src s -> 0 < num -> (0 < q)%R ->
  (forall row, In row s -> row <> []) ->
  (forall row x, In row s -> In x row -> (x <= b)%R) ->
  (forall row x, In row s -> In x row -> x = 0%R \/ (b * q < x)%R) ->
  delivers num (map (fun row => map (fun ind => rsum (map (fun j => nth j row 0%R) ind)) inds) s)
    (ist_result inds q src num).
Proof. exact ist_plain. Qed.
Print Assumptions C52_plain_partial.

Example C52_example : exists s, length s = 3 /\ wf_source (wsrc s) s /\
  delivers 2 [[3%R]; [4%R]; [0%R]] (ist_result [[0; 1]] (1 / 10) (wsrc s) 2).
Proof.
  exists [[1;2];[4;0];[0;0]]%R.
  assert (wf_source (wsrc [[1;2];[4;0];[0;0]]%R) [[1;2];[4;0];[0;0]]%R) as W by (apply wsrc_ok; discriminate).
  split; auto. split; auto.
  pose proof (C52_plain_partial [[0;1]] (1/10) (wsrc [[1;2];[4;0];[0;0]]%R) [[1;2];[4;0];[0;0]]%R 2 4 W
    ltac:(lia) ltac:(lra)) as H.
  cbn [map rsum fold_right nth] in H.
  replace [[3%R]; [4%R]; [0%R]] with [[(1 + (2 + 0))%R]; [(4 + (0 + 0))%R]; [(0 + (0 + 0))%R]].
  - apply H.
    + intros row [<-|[<-|[<-|[]]]]; discriminate.
    + intros row x [<-|[<-|[<-|[]]]] [<-|[<-|[]]]; lra.
    + intros row x [<-|[<-|[<-|[]]]] [<-|[<-|[]]]; (left; reflexivity) || (right; lra).
  - repeat f_equal; ring.
Qed.

(* the threshold is relative to the maximum of the block *)
Theorem C52_clip_refuted : exists inds q s,
  (0 < q < 1)%R /\ wf_source (wsrc s) s /\ (forall row x, In row s -> In x row -> (0 < x)%R) /\
  blocks (ist_result inds q (wsrc s) 1) = [[[1%R]]; [[(1/100)%R]]] /\
  blocks (ist_result inds q (wsrc s) 2) = [[[1%R]; [0%R]]].
Proof.
  exists [[0]], (1/10)%R, [[1%R];[(1/100)%R]].
  assert (wf_source (wsrc [[1%R];[(1/100)%R]]) [[1%R];[(1/100)%R]]) as W by (apply wsrc_ok; discriminate).
  split; [lra|]. split; [auto|].
  split. { intros row x [<-|[<-|[]]] [<-|[]]; lra. }
  unfold ist_result. rewrite !(wf_source_eq _ _ _ W) by lia. cbn [blocks fin done].
  assert (chunks 1 [[1%R];[(1/100)%R]] = [[[1%R]];[[(1/100)%R]]]) as -> by reflexivity.
  assert (chunks 2 [[1%R];[(1/100)%R]] = [[[1%R];[(1/100)%R]]]) as -> by reflexivity.
  cbn [ist_loop concat app lmax fold_left map blocks fin].
  rewrite (Rmax_left 1 (1/100)) by lra.
  unfold clip_sum. cbn [map nth rsum fold_right].
  repeat (destruct (Rlt_dec _ _); try lra).
  rewrite !Rplus_0_r. split; reflexivity.
Qed.
Print Assumptions C52_clip_refuted.

(* the empty last block of a time domain beamformer is an error for the
   integrator *)
Theorem C52_empty_block_refuted : exists G M dly amp s inds q,
  (forall g m, (0 <= dly g m)%R) /\ (forall r, In r s -> length r = M) /\ wf_source (wsrc s) s /\ (0 < q)%R /\
  fin (bft_result G M out_sq dly amp None (wsrc s) 7 4) = Finished /\
  fin (ist_result inds q (bft_result G M out_sq dly amp None (wsrc s) 7) 4) = Raised ValueError.
Proof.
  exists 1, 1, (fun _ _ => INR 0), (fun _ _ => 1%R), (repeat [1%R] 6), [[0]], (1/10)%R.
  assert (forall r, In r (repeat [1%R] 6) -> length r = 1) as Hr
    by (intros r H; apply repeat_spec in H; subst; reflexivity).
  assert (wf_source (wsrc (repeat [1%R] 6)) (repeat [1%R] 6)) as W by (apply wsrc_ok; discriminate).
  split; [intros; apply pos_INR|]. split; [auto|]. split; [auto|]. split; [lra|].
  assert (forall r, In r (repeat [1%R] 6) -> 1 <= length r) as Hr' by (intros r H; rewrite (Hr r H); auto).
  unfold ist_result.
  rewrite (bft_trace 1 1 out_sq (fun _ _ => INR 0) (fun _ _ => 1%R) None 4
               (repeat [1%R] 6)) by (auto; simpl; lia).
  unfold bft_nblocks. rewrite (const_msd 0). split; reflexivity.
Qed.
Print Assumptions C52_empty_block_refuted.

(* C68: the moving grid keeps its shape and handedness, its x-axis points
   along the velocity and its y-axis is perpendicular to rvec. *)
Theorem C68_rigid_partial : forall rvec loc vel,
  rvec = V3 0 0 0 \/ vcross rvec vel <> V3 0 0 0 ->
  exists f, (forall p, moving_pos rvec loc vel p = Some (f p)) /\
    (forall p q, vnorm (vsub (f p) (f q)) = vnorm (vsub p q)) /\
    vdot (vcross (vsub (f (V3 1 0 0)) loc) (vsub (f (V3 0 1 0)) loc)) (vsub (f (V3 0 0 1)) loc) = 1%R /\
    f (V3 0 0 0) = loc /\
    (rvec <> V3 0 0 0 ->
       vsub (f (V3 1 0 0)) loc = vunit vel /\ vdot rvec (vsub (f (V3 0 1 0)) loc) = 0%R).
Proof.
  intros rvec loc vel H. destruct (moving_grid_rigid rvec loc vel H) as (f & A & [B1 B2] & C & D).
  exists f. cbv zeta in B2. rewrite C in B2. auto.
Qed.
Print Assumptions C68_rigid_partial.

(* rvec parallel to the velocity, or a trajectory at rest: the positions are
   not numbers *)
Theorem C68_parallel_refuted : exists rvec loc vel, rvec <> V3 0 0 0 /\ vel <> V3 0 0 0 /\
  forall p, moving_pos rvec loc vel p = None.
Proof.
  exists (V3 0 0 1), (V3 0 0 0), (V3 0 0 2).
  split; [intros H; injection H; lra|]. split; [intros H; injection H; lra|].
  intros p. apply moving_grid_degenerate.
  - intros H; injection H; lra.
  - unfold vcross, vzero. simpl. f_equal; ring.
Qed.
Print Assumptions C68_parallel_refuted.

Example C68_example : exists f, (forall p, moving_pos (V3 0 0 1) (V3 5 0 0) (V3 3 0 0) p = Some (f p)) /\
  f (V3 1 2 3) = V3 6 2 3.
Proof.
  assert (vcross (V3 0 0 1) (V3 3 0 0) = V3 0 3 0) as E by (unfold vcross; simpl; f_equal; ring).
  unfold moving_pos. destruct (v3_dec (V3 0 0 1) vzero) as [H|H]; [injection H; lra|].
  destruct (frame_ortho (V3 0 0 1) (V3 3 0 0)) as (e1 & e2 & e3 & -> & E1 & E2 & E3 & _).
  { rewrite E. intros X. injection X. lra. }
  eexists. split; [intros p; reflexivity|].
  assert (sqrt 9 = 3%R) as S9 by (replace 9%R with (3*3)%R by ring; apply sqrt_square; lra).
  rewrite E in E2. unfold vunit, vnorm, vdot, vscale in E1, E2. cbn [v3x v3y v3z] in E1, E2.
  replace (3 * 3 + 0 * 0 + 0 * 0)%R with 9%R in E1 by ring.
  replace (0 * 0 + 3 * 3 + 0 * 0)%R with 9%R in E2 by ring.
  rewrite S9 in *. rewrite E3, E1, E2. unfold lin, vadd, vscale, vcross. cbn [v3x v3y v3z].
  apply v3_eq; simpl; field.
Qed.
