(** Property theorems C90 (num_samples, num_channels) and C91 (PointSourceConvolve). *)
From Coq Require Import List Arith Lia ZArith QArith Reals Lra Bool.
From Verif Require Import Stream Sources MaskedOut Mixers BlockOps Chain Cplx Frames Convolve Csm TimeBeam Das DasTraj
  Props_TimeBeam Announce.
Import ListNotations.
Local Open Scope nat_scope.

(** C90, partial.  A pipeline that computes at all ([p_ok]), whose inputs
    announce their lengths, whose averages leave no remainder and whose mixed
    sources are not shorter than the first one announces exactly the number of
    rows and of columns it delivers, for every block size.  Missing: the
    classes and configurations of the [_refuted] theorems below, for which it
    does not. *)
Theorem C90_announced_partial p num :
  p_ok p -> honest p -> 0 < num ->
  fin (p_result p num) = Finished
  /\ p_announced p = Some (INR (length (concat (blocks (p_result p num)))))
  /\ Forall (fun row => length row = p_nch p) (concat (blocks (p_result p num))).
Proof.
  intros Hok Hh Hn. destruct (pipe_delivers p Hok) as [Hw Hr]. destruct (Hw num Hn) as (F & E & _).
  split; [exact F|]. rewrite E. split; [now apply announced_length|exact Hr].
Qed.
Print Assumptions C90_announced_partial.

(** C90, partial.  The announced number may be an int or a float: behind an
    Average it is not a natural number unless the length is divisible. *)
Theorem C90_average_partial p nav :
  p_ok p -> honest p -> 0 < nav ->
  (p_announced (PAverage nav p) = Some (INR (length (p_stream (PAverage nav p))))
   <-> length (p_stream p) mod nav = 0).
Proof.
  intros Hok Hh Hn. cbn [p_announced p_stream]. rewrite (announced_length p Hok Hh). cbn [option_map].
  rewrite map_length, groups_length by exact Hn. split.
  - intros H. injection H as H. pose proof (Nat.div_mod (length (p_stream p)) nav ltac:(lia)) as E.
    assert (INR nav <> 0%R) as Hz by (apply not_0_INR; lia).
    assert (INR (length (p_stream p)) = INR (nav * (length (p_stream p) / nav))) as G.
    { rewrite mult_INR, <- H. field. exact Hz. }
    apply INR_eq in G. lia.
  - intros Hm. pose proof (Nat.div_mod (length (p_stream p)) nav ltac:(lia)) as E.
    f_equal. rewrite E at 1. rewrite Hm, Nat.add_0_r, mult_INR. field. apply not_0_INR. lia.
Qed.
Print Assumptions C90_average_partial.

Definition const_src (n : nat) : pipe :=
  let s := repeat [1%R] n in PSource 1 1 (NInt n) (time_samples_result Rmult 1 s None) s.

Lemma const_ok n : 0 < n -> p_ok (const_src n).
Proof.
  intros H. cbn. split.
  - intros num Hn. apply time_samples_delivers; auto. destruct n; [lia|discriminate].
  - apply Forall_forall. intros r Hr. apply repeat_spec in Hr. now subst.
Qed.
Lemma const_honest n : honest (const_src n).
Proof. cbn. now rewrite repeat_length. Qed.

(** C90 is false for Mixer: the rows end with the shortest source, num_samples
    is that of the first. *)
Theorem C90_mixer_refuted : exists p q,
  p_ok (PMixer p [q]) /\ honest p /\ honest q
  /\ p_announced (PMixer p [q]) = Some (INR 5)
  /\ forall num, 0 < num -> length (concat (blocks (p_result (PMixer p [q]) num))) = 3.
Proof.
  exists (const_src 5), (const_src 3).
  assert (Hok : p_ok (PMixer (const_src 5) [const_src 3])).
  { split; [apply const_ok; lia|]. split; [|exact I]. split; [apply const_ok; lia|]. split; reflexivity. }
  split; [exact Hok|]. split; [apply const_honest|]. split; [apply const_honest|]. split; [reflexivity|].
  intros num Hn. destruct (pipe_delivers _ Hok) as [Hw _]. destruct (Hw num Hn) as (_ & E & _). rewrite E. reflexivity.
Qed.
Print Assumptions C90_mixer_refuted.

(** C90 is false for TimeConvolve: num_samples is the source's, the result is
    longer by the length of the kernel minus one. *)
Theorem C90_time_convolve_refuted N kernel (src : source (list R)) s num :
  wf_source src s -> 0 < num -> 1 < length kernel <= num -> s <> [] ->
  (length s + length kernel - 1) mod num <> 0 ->
  let delivered := length (concat (blocks (time_convolve N N kernel (length s) src num))) in
  delivered = length s + length kernel - 1
  /\ delivered <> delegated_num_samples (length s).
Proof.
  intros Hw Hn HL Hs Hm. cbv zeta.
  destruct (time_convolve_spec N kernel src s num Hw Hn ltac:(lia) Hs Hm) as (_ & E & _).
  rewrite E, linear_convolution_length. unfold delegated_num_samples. split; [reflexivity|]. lia.
Qed.
Print Assumptions C90_time_convolve_refuted.

(** C90 is false for BeamformerTime: num_samples is the source's, the result is
    shorter by the largest delay. *)
Theorem C90_beamformer_time_refuted : forall G M post dly amp d num src s fuel,
  (forall g m, (0 <= dly g m)%R) -> is_reach G M dly d -> 0 < d ->
  0 < num -> (forall r, In r s -> M <= length r) -> wf_source src s -> length s < fuel -> s <> [] ->
  let delivered := length (concat (blocks (bft_result G M post dly amp None src fuel num))) in
  delivered = length s - d /\ delivered <> delegated_num_samples (length s).
Proof.
  intros G M post dly amp d num src s fuel H0 Hr Hd Hn Hc Hw Hf Hs. cbv zeta.
  rewrite (C50_output_partial G M post dly amp d num src s fuel) by assumption.
  rewrite map_length, seq_length. unfold delegated_num_samples. split; [reflexivity|].
  destruct s; [congruence|cbn [length]; lia].
Qed.
Print Assumptions C90_beamformer_time_refuted.

(** C90.  What a wrong announcement does: the cross spectral matrix of a
    PowerSpectra object is scaled by the ratio of the block counts. *)
Theorem C90_csm_scaled garbage bs ov N wind n (src : source (list R)) s b r c :
  wf_source src s -> 0 < bs -> bs <= n -> bs <= length s ->
  (0 < num_blocks ov n bs)%R
  /\ power_spectra_csm garbage bs ov N wind n src b r c
     = Cmul (RtoC (num_blocks ov (length s) bs / num_blocks ov n bs))
            (power_spectra_csm garbage bs ov N wind (length s) src b r c).
Proof.
  intros Hw Hb Hn Hl. pose proof (num_blocks_pos ov n bs Hb Hn) as P.
  split; [exact P|]. pose proof (csm_announced garbage bs ov N wind n (length s) src b r c Hb Hn Hl) as E.
  set (x := power_spectra_csm garbage bs ov N wind n src b r c) in *.
  set (y := power_spectra_csm garbage bs ov N wind (length s) src b r c) in *.
  transitivity (Cmul (Cmul x (RtoC (num_blocks ov n bs))) (RtoC (/ num_blocks ov n bs))).
  - transitivity (Cmul x (RtoC (num_blocks ov n bs * / num_blocks ov n bs))).
    + rewrite Rinv_r by lra. unfold Cmul, RtoC, re, im. cbn [fst snd]. apply injective_projections; cbn [fst snd]; ring.
    + unfold Cmul, RtoC, re, im. cbn [fst snd]. f_equal; ring.
  - rewrite E. unfold Cmul, RtoC, Rdiv, re, im. cbn [fst snd]. f_equal; ring.
Qed.
Print Assumptions C90_csm_scaled.

Example C90_case :
  let p := PAverage 2 (PMasked (Some 1%Z) None [] (fun _ => []) (PMixer (const_src 5) [const_src 7])) in
  p_ok p /\ honest p /\ p_announced p = Some (IZR 4 / INR 2)%R /\ length (p_stream p) = 2.
Proof.
  assert (Hm : p_ok (PMixer (const_src 5) [const_src 7])).
  { split; [apply const_ok; lia|]. split; [|exact I]. split; [apply const_ok; lia|]. split; reflexivity. }
  cbv zeta. split; [|split; [|split]].
  - split; [|lia]. split; [exact Hm|]. split; [reflexivity|]. split; [congruence|]. discriminate.
  - cbn [honest]. split; [|reflexivity]. split; [apply const_honest|]. constructor; [cbn; lia|constructor].
  - reflexivity.
  - reflexivity.
Qed.

Example C90_convolve_case :
  let s := [[1%R]; [2%R]; [3%R]] in
  let kernel := [[1%R]; [10%R]] in
  let src := time_samples_result Rmult 1 s None in
  wf_source src s /\ 1 < length kernel <= 3 /\ s <> [] /\ (length s + length kernel - 1) mod 3 <> 0.
Proof.
  cbv zeta. split; [|split; [cbn; lia|split; [discriminate|cbn; lia]]].
  intros num Hn. apply time_samples_delivers; auto; discriminate.
Qed.

(* ------------------------------------------------------------------ *)

(** C91, partial.  With one kernel column per microphone, not longer than the
    block, every microphone receives the full linear convolution of the signal
    with its column of the kernel.  Missing: other block sizes (C12) and a
    single column. *)
Theorem C91_rows_partial nm kernel signal num :
  0 < num -> 0 < length kernel <= num -> signal <> [] ->
  (length signal + length kernel - 1) mod num <> 0 ->
  let h c j := nth c (nth j kernel []) 0%R in
  delivers num
    (map (fun t => map (fun c => rsumn (length kernel)
              (fun j => if t <? j then 0%R else (h c j * nth (t - j) signal 0)%R)) (seq 0 nm))
         (seq 0 (length signal + length kernel - 1)))
    (point_source_convolve nm nm kernel signal num).
Proof. exact (point_source_convolve_spec nm kernel signal num). Qed.
Print Assumptions C91_rows_partial.

(** C91 is false of the documented example: with a single kernel column all
    microphones but the first are silent. *)
Theorem C91_one_kernel_refuted nm kernel signal num :
  0 < num -> 0 < length kernel -> signal <> [] -> 1 < nm ->
  fin (point_source_convolve nm 1 kernel signal num) = Finished
  /\ forall row c, In row (concat (blocks (point_source_convolve nm 1 kernel signal num))) ->
       0 < c -> c < nm -> nth_error row c = Some 0%R.
Proof. exact (point_source_convolve_one_kernel nm kernel signal num). Qed.
Print Assumptions C91_one_kernel_refuted.

(** C91 is false of num_samples: the signal's, not that of the result. *)
Theorem C91_num_samples_refuted nm kernel signal num :
  0 < num -> 1 < length kernel <= num -> signal <> [] ->
  (length signal + length kernel - 1) mod num <> 0 ->
  let delivered := length (concat (blocks (point_source_convolve nm nm kernel signal num))) in
  delivered = length signal + length kernel - 1 /\ delivered <> delegated_num_samples (length signal).
Proof.
  intros Hn HL Hs Hm. cbv zeta.
  destruct (point_source_convolve_spec nm kernel signal num Hn ltac:(lia) Hs Hm) as (_ & E & _).
  rewrite E, map_length, seq_length. unfold delegated_num_samples. split; [reflexivity|]. lia.
Qed.
Print Assumptions C91_num_samples_refuted.

Example C91_case :
  delivers 3 [[1; 2]; [12; 5]; [23; 8]; [30; 3]]%R
    (point_source_convolve 2 2 [[1; 2]; [10; 1]] [1; 2; 3] 3)%R.
Proof.
  pose proof (C91_rows_partial 2 [[1; 2]; [10; 1]]%R [1; 2; 3]%R 3 ltac:(lia) ltac:(cbn; lia) ltac:(discriminate)
    ltac:(cbn; lia)) as H. cbv zeta in H.
  cbn [length Nat.add Nat.sub seq map rsumn Nat.ltb Nat.leb nth] in H.
  match type of H with delivers _ ?l _ => replace l with [[1; 2]; [12; 5]; [23; 8]; [30; 3]]%R in H end; [exact H|].
  repeat (f_equal; try lra).
Qed.

Example C90_beamformer_case :
  let s := [[0]; [8]; [6]; [0]; [0]]%R in
  (forall g m : nat, (0 <= (fun _ _ => INR 1) g m)%R) /\ is_reach 1 1 (fun _ _ => INR 1) 3
  /\ (forall r, In r s -> 1 <= length r) /\ wf_source (wsrc s) s /\ s <> [].
Proof.
  cbv zeta. split; [intros; cbn; lra|]. split; [exact (const_reach 1)|].
  split; [intros r [<-|[<-|[<-|[<-|[<-|[]]]]]]; cbn; lia|]. split; [apply wsrc_ok; discriminate|discriminate].
Qed.
