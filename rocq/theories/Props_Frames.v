(** Properties C09, C10, C11, C61 (buffering and FFT frames).  Only theorem
    statements; proofs are in Buffer.v and Frames.v.  Specification
    vocabulary: [delivers], [wf_source] (Stream.v); [window i n s] (Buffer.v:
    rows i..i+n-1 of [s], cut at its end); [frame_count], [frames_of]
    (Frames.v: frame k starts at row floor(k*bs/ov) and has bs rows; counted
    are the frames that fit, see [C10_frame_count]). *)
From Coq Require Import List Arith Lia ZArith Bool Reals Lra.
From Verif Require Import Stream Sources Buffer Frames.
Import ListNotations.
Local Open Scope nat_scope.

(** C09.  With the index shifted by [num], SamplesBuffer yields window k =
    rows k*num .. k*num + W k - 1 for every k with k*num inside the stream, the
    consumer being free to change the window length before every block.  The
    buffer must be longer than one source block and provide for the window:
    all indices are multiples of [g], and either the window fits in what is
    left after filling or [g] is the source block (then the buffer grows). *)
Theorem C09_windows {A} (zrow : A) (w : nat -> option nat) L source_num (src : source A) s fuel num g :
  let snum := match source_num with None => num | Some n => n end in
  let W k := match w k with None => num | Some r => r end in
  wf_source src s -> 0 < num -> 0 < snum -> (snum < L \/ (snum = 1 /\ L = 1)) ->
  (forall k, 0 < W k) ->
  0 < g -> Nat.divide g snum -> Nat.divide g L -> Nat.divide g num ->
  (forall k, W k + snum <= L + g \/ (g = snum /\ w k <> None)) ->
  length s < fuel ->
  samples_buffer_result zrow true w L source_num src fuel num
  = done (map (fun k => window (k * num) (W k) s) (seq 0 ((length s + num - 1) / num))).
Proof. exact (samples_buffer_windows zrow w L source_num src s fuel num g). Qed.
Print Assumptions C09_windows.

(** C09.  With the index shifted by the window length, it re-blocks the stream. *)
Theorem C09_reblock {A} (zrow : A) (w : option nat) L source_num (src : source A) s fuel num g :
  let snum := match source_num with None => num | Some n => n end in
  let W := match w with None => num | Some r => r end in
  wf_source src s -> 0 < num -> 0 < snum -> (snum < L \/ (snum = 1 /\ L = 1)) -> 0 < W ->
  0 < g -> Nat.divide g snum -> Nat.divide g L -> Nat.divide g W ->
  W + snum <= L + g ->
  length s < fuel ->
  delivers W s (samples_buffer_result zrow false (fun _ => w) L source_num src fuel num).
Proof. exact (samples_buffer_reblock zrow w L source_num src s fuel num g). Qed.
Print Assumptions C09_reblock.

(** C09.  The three users in the library: BeamformerTime
    (tbeamform.py:164-171), BeamformerTimeTraj (tbeamform.py:404-405, 424; the
    delay varies from block to block) and IRFFT (fprocess.py:262-267). *)
Theorem C09_library_users {A} (zrow : A) (src : source A) s fuel num :
  wf_source src s -> 0 < num -> length s < fuel ->
  (forall delay, 0 < delay ->
     samples_buffer_result zrow true (fun _ => Some (num + delay)) ((num + delay + num - 1) / num * num)
       None src fuel num
     = done (map (fun k => window (k * num) (num + delay) s) (seq 0 ((length s + num - 1) / num))))
  /\ (forall delay,
     samples_buffer_result zrow true (fun k => Some (num + delay k)) (num * 2) None src fuel num
     = done (map (fun k => window (k * num) (num + delay k) s) (seq 0 ((length s + num - 1) / num))))
  /\ (forall bs, 0 < bs ->
     delivers num s
       (samples_buffer_result zrow false (fun _ => None) (((num + bs - 1) / bs + 1) * bs) (Some bs) src fuel num)).
Proof. exact (samples_buffer_users zrow src s fuel num). Qed.
Print Assumptions C09_library_users.

(** C09, limits.  A buffer exactly as long as the source's blocks fails with
    ValueError at the first full block, and a shorter one yields nothing. *)
Theorem C09_buffer_too_short {A} (zrow : A) by_num w source_num (src : source A) s fuel num :
  let snum := match source_num with None => num | Some n => n end in
  wf_source src s -> 2 <= snum -> snum <= length s ->
  ((forall k r, w k = Some r -> r <= snum) ->
     samples_buffer_result zrow by_num w snum source_num src (S fuel) num = raise ValueError)
  /\ (forall L, L < snum ->
     samples_buffer_result zrow by_num w L source_num src (S fuel) num = done []).
Proof.
  exact (fun Hw Hs Hl => conj (samples_buffer_equal_length zrow by_num w source_num src s fuel num Hw Hs Hl)
    (fun L => samples_buffer_too_short zrow by_num w L source_num src fuel num)).
Qed.
Print Assumptions C09_buffer_too_short.

Example C09_case :
  let s := [1;2;3;4;5;6;7]%Z in
  let src := time_samples_result (fun x _ => x) 1 (map (fun x => [x]) s) None in
  wf_source src (map (fun x => [x]) s)
  /\ samples_buffer_result [0%Z] true (fun _ => Some 5) 6 None src 10 3
     = done [[[1];[2];[3];[4];[5]];[[4];[5];[6];[7]];[[7]]]%Z
  /\ samples_buffer_result [0%Z] false (fun _ => None) 6 (Some 2) src 10 3
     = done [[[1];[2];[3]];[[4];[5];[6]];[[7]]]%Z.
Proof.
  intros s src. split; [|split; reflexivity].
  intros num Hn. apply time_samples_delivers; auto; try discriminate.
Qed.

(** C10.  The frames handed to the FFT are exactly the frames of the stream,
    for every stream, frame size and overlap ([ov] = 1/(1-overlap)). *)
Theorem C10_frames {A} garbage bs ov (src : source A) s :
  wf_source src s -> 0 < bs -> 0 < ov ->
  get_source_data garbage bs ov src = done (frames_of bs ov s).
Proof. exact (get_source_data_frames garbage bs ov src s). Qed.
Print Assumptions C10_frames.

(** What [frame_count] counts, and that every frame lies in the stream. *)
Theorem C10_frame_count bs ov n k : 0 < bs -> 0 < ov ->
  (k < frame_count bs ov n <-> k * bs + bs * ov <= n * ov)
  /\ (k < frame_count bs ov n -> k * bs / ov + bs <= n).
Proof.
  exact (fun Hb Ho => conj (frame_count_fits bs ov n k Hb Ho) (frame_in_stream bs ov n k Hb Ho)).
Qed.
Print Assumptions C10_frame_count.

(** C10, partial.  PowerSpectra.num_blocks (the divisor of the averaged cross
    spectra) is the number of frames exactly when the block size divides
    n*ov; in general it exceeds it by the fraction of a hop that is left over
    (for streams of at least one block). *)
Theorem C10_num_blocks_partial ov n bs : 0 < bs -> bs <= n ->
  (num_blocks ov n bs = INR (frame_count bs ov n) <-> Nat.divide bs (n * ov))
  /\ num_blocks ov n bs = (INR (frame_count bs ov n) + INR (((n - bs) * ov) mod bs) / INR bs)%R.
Proof. exact (fun Hb Hn => conj (num_blocks_iff ov n bs Hb Hn) (num_blocks_excess ov n bs Hb Hn)). Qed.
Print Assumptions C10_num_blocks_partial.

(** C10 is false of the code: 1000 samples in blocks of 128 without overlap
    give 7 frames but num_blocks = 7.8125, so the cross spectral matrix is
    10 % too small. *)
Theorem C10_num_blocks_refuted :
  exists ov n bs, 0 < bs /\ bs <= n /\ frame_count bs ov n = 7
    /\ num_blocks ov n bs = 7.8125%R /\ num_blocks ov n bs <> INR (frame_count bs ov n).
Proof. exact num_blocks_refuted. Qed.
Print Assumptions C10_num_blocks_refuted.

Example C10_case :
  let s := [1;2;3;4;5;6;7]%Z in
  let src := time_samples_result (fun x _ => x) 1 (map (fun x => [x]) s) None in
  wf_source src (map (fun x => [x]) s)
  /\ get_source_data (fun _ => []) 4 2 src = done [[[1];[2];[3];[4]];[[3];[4];[5];[6]]]%Z
  /\ frame_count 4 2 7 = 2.
Proof.
  intros s src. split; [|split; reflexivity].
  intros num Hn. apply time_samples_delivers; auto; try discriminate.
Qed.

(** C11, partial.  With at least one complete frame, RFFT.result(num) yields
    one spectrum per frame, in order, in full blocks.  ([spec]: the windowed
    and scaled transform of one frame.)  Without a complete frame it yields
    nothing for num = 1 and one invented row of zeros otherwise. *)
Theorem C11_rfft_partial {A B} (spec : list A -> B) (zrow : B) garbage bs ov (src : source A) s num :
  wf_source src s -> 0 < bs -> 0 < ov -> 0 < num ->
  (bs <= length s ->
     delivers num (map spec (frames_of bs ov s)) (rfft_result spec zrow garbage bs ov src num))
  /\ (length s < bs ->
     rfft_result spec zrow garbage bs ov src num = done (if num =? 1 then [] else [[zrow]])).
Proof. exact (rfft_result_spec spec zrow garbage bs ov src s num). Qed.
Print Assumptions C11_rfft_partial.

Theorem C11_rfft_refuted :
  exists (s : list (list Z)) bs num (src : source (list Z)) (spec : list (list Z) -> list Z),
    wf_source src s /\ 0 < num /\ frames_of bs 1 s = []
    /\ concat (blocks (rfft_result spec [0%Z] (fun _ => []) bs 1 src num)) <> [].
Proof. exact rfft_refuted. Qed.
Print Assumptions C11_rfft_refuted.

Example C11_case :
  let s := [1;2;3;4;5;6;7]%Z in
  let src := time_samples_result (fun x _ => x) 1 (map (fun x => [x]) s) None in
  wf_source src (map (fun x => [x]) s)
  /\ rfft_result (fun f => fold_right Z.add 0 (concat f))%Z 0%Z (fun _ => []) 2 2 src 4
     = done [[3;5;7;9];[11;13]]%Z.
Proof.
  intros s src. split; [|reflexivity].
  intros num Hn. apply time_samples_delivers; auto; try discriminate.
Qed.

(** C61, partial.  RFFT.num_samples is the number of spectra when there is no
    overlap. *)
Theorem C61_rfft_num_samples_partial n bs : 0 < bs -> frame_count bs 1 n = rfft_num_samples n bs.
Proof. exact (rfft_num_samples_no_overlap n bs). Qed.
Print Assumptions C61_rfft_num_samples_partial.

(** C61 is false with overlap, for every stream of at least two blocks. *)
Theorem C61_rfft_num_samples_refuted ov n bs : 0 < bs -> 2 <= ov -> 2 * bs <= n ->
  rfft_num_samples n bs < frame_count bs ov n.
Proof. exact (rfft_num_samples_overlap ov n bs). Qed.
Print Assumptions C61_rfft_num_samples_refuted.

Example C61_case : frame_count 128 2 1024 = 15 /\ rfft_num_samples 1024 128 = 8
  /\ 0 < 128 /\ 2 <= 2 /\ 2 * 128 <= 1024.
Proof. repeat split; try reflexivity; apply Nat.leb_le; reflexivity. Qed.
