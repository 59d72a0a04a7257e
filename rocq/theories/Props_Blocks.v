(** Properties C03-C08, C13, C18 (sample-wise, causal and mixing blocks).
    Only theorem statements; proofs are in MaskedOut.v, Mixers.v, BlockOps.v
    and Chain.v.  Specification vocabulary: [delivers], [wf_source] (Stream.v),
    [sliced], [keep_valid], [rowmul] (Sources.v), [sum_streams], [weighted_sum]
    (Mixers.v), [groups], [rmean], [channel], [is_filtered], [beside]
    (BlockOps.v). *)
From Coq Require Import List Arith Lia ZArith QArith Reals Lra Bool.
From Verif Require Import Stream Sources MaskedOut Mixers BlockOps Chain.
Import ListNotations.
Local Open Scope nat_scope.

(** C03.  For every pipeline (any depth, mixers included) whose parameters fit
    ([p_ok]), all block sizes give the same concatenated output, and blocks are
    full. *)
Theorem C03_block_size_independence p num1 num2 :
  p_ok p -> 0 < num1 -> 0 < num2 ->
  concat (blocks (p_result p num1)) = concat (blocks (p_result p num2))
  /\ (fin (p_result p num1) = Finished /\ full_blocks num1 (blocks (p_result p num1)))
  /\ (fin (p_result p num2) = Finished /\ full_blocks num2 (blocks (p_result p num2))).
Proof. exact (pipe_independent p num1 num2). Qed.
Print Assumptions C03_block_size_independence.

(** ... and the stream is the composition of the stages' stream functions. *)
Theorem C03_pipeline_meaning p :
  p_ok p ->
  wf_source (p_result p) (p_stream p) /\ Forall (fun r => length r = p_nch p) (p_stream p).
Proof. exact (pipe_delivers p). Qed.
Print Assumptions C03_pipeline_meaning.

(** ChannelMixer: a number of weights that fits neither one nor the number of
    channels raises ValueError *)
Theorem C03_channel_mixer_refuses {V} (add mul : V -> V -> V) zero nch weights (src : source (list V)) num :
  length weights <> 0 -> length weights <> 1 -> length weights <> nch ->
  channel_mixer_result add mul zero nch weights src num = raise ValueError.
Proof. apply channel_mixer_refuses. Qed.
Print Assumptions C03_channel_mixer_refuses.


(** A five-stage pipeline with a mixer meets [p_ok]. *)
Definition c03_data : list (list R) := [[1;2];[3;4];[5;6];[7;8];[9;10]]%R.
Definition c03_leaf : pipe :=
  PSource 48000 2 (NInt 5) (time_samples_result Rmult 2 c03_data None) c03_data.
Definition c03_pipe : pipe :=
  PAverage 2 (PReverse (fun _ => []) (PCumAverage (PMixer
    (PMasked (Some 1%Z) None [0%Z] (fun _ => []) c03_leaf)
    [PChannelMixer [] c03_leaf]))).
Example C03_case : p_ok c03_pipe.
Proof.
  assert (p_ok c03_leaf) as Hl.
  { split.
    - intros num Hn. apply time_samples_delivers; auto. discriminate.
    - repeat constructor. }
  unfold c03_pipe. cbn [p_ok p_stream p_nsamples p_nch p_freq].
  repeat match goal with |- _ /\ _ => split end; auto; try discriminate; try lia; reflexivity.
Qed.

(** C04.  MaskedTimeOut re-blocks exactly rows start..stop-1 of the stream on
    the valid channels; an empty selection raises OSError.  [garbage] is the
    content of uninitialised memory. *)
Theorem C04_masked_time_out {V} total start stop invalid garbage (src : source (list V)) s :
  wf_source src s ->
  Forall (fun r => length r = total) s ->
  (invalid = [] \/ keep_valid invalid (seq 0 total) <> []) ->
  (sliced start stop s <> [] ->
     wf_source (masked_time_out_result total (length s) start stop invalid garbage src)
       (map (keep_valid invalid) (sliced start stop s)))
  /\ (sliced start stop s = [] -> forall num,
     masked_time_out_result total (length s) start stop invalid garbage src num = raise OSError).
Proof. exact (masked_time_out_spec total start stop invalid garbage src s). Qed.
Print Assumptions C04_masked_time_out.

Example C04_case :
  let s := [[1;2];[3;4];[5;6];[7;8];[9;10]]%Z in
  let src := time_samples_result Z.mul 2 s None in
  wf_source src s /\ Forall (fun r => length r = 2) s
  /\ sliced (Some 1%Z) (Some (-1)%Z) s = [[3;4];[5;6];[7;8]]%Z
  /\ masked_time_out_result 2 5 (Some 1%Z) (Some (-1)%Z) [0%Z] (fun _ => []) src 2
     = done [[[4];[6]];[[8]]]%Z.
Proof.
  intros s src. split; [|split; [|split]]; try reflexivity.
  - intros num Hn. apply time_samples_delivers; auto. discriminate.
  - repeat constructor.
Qed.

(** C05.  Mixer delivers the sum over the common length, or refuses sources
    with other sample rates or channel counts. *)
Theorem C05_mixer {Row} (radd : Row -> Row -> Row) (s0 : gsource Row) ss st sts :
  wf_source (g_src s0) st ->
  Forall2 (fun g s => wf_source (g_src g) s) ss sts ->
  (Forall (fun g => (g_freq g == g_freq s0)%Q /\ g_nch g = g_nch s0) ss ->
     wf_source (mixer_result radd s0 ss) (sum_streams radd st sts))
  /\ (Exists (fun g => ~ (g_freq g == g_freq s0)%Q \/ g_nch g <> g_nch s0) ss ->
     forall num, mixer_result radd s0 ss num = raise ValueError).
Proof. exact (mixer_spec radd s0 ss st sts). Qed.
Print Assumptions C05_mixer.

Example C05_case :
  let a := [[1];[2];[3];[4];[5]]%Z in let b := [[10];[20];[30]]%Z in
  let g d := mkG 1 1 (length d) (time_samples_result Z.mul 1 d None) in
  wf_source (g_src (g a)) a /\ Forall2 (fun x s => wf_source (g_src x) s) [g b; g a] [b; a]
  /\ sum_streams (rowmul Z.add) a [b; a] = [[12];[24];[36]]%Z
  /\ mixer_result (rowmul Z.add) (g a) [g b; g a] 2 = done [[[12];[24]];[[36]]]%Z.
Proof.
  intros a b g. split; [|split; [|split]]; try reflexivity.
  - intros num Hn. apply time_samples_delivers; auto. discriminate.
  - constructor; [|constructor; [|constructor]];
      intros num Hn; apply time_samples_delivers; auto; discriminate.
Qed.

(** C06.  TimeReverse delivers the reversed stream; an empty source makes it
    fail (there is no last block to look at). *)
Theorem C06_time_reverse {A} garbage (src : source A) s :
  wf_source src s ->
  (s <> [] -> wf_source (time_reverse_result garbage src) (rev s))
  /\ (s = [] -> forall num, 0 < num -> time_reverse_result garbage src num = raise IndexError).
Proof. exact (time_reverse_spec garbage src s). Qed.
Print Assumptions C06_time_reverse.

Example C06_case :
  let s := [[1];[2];[3];[4];[5]]%Z in
  let src := time_samples_result Z.mul 1 s None in
  wf_source src s /\ time_reverse_result (fun _ => []) src 2 = done [[[5];[4]];[[3];[2]];[[1]]]%Z.
Proof.
  intros s src. split; [|reflexivity].
  intros num Hn. apply time_samples_delivers; auto. discriminate.
Qed.

(** C07.  Row k of TimeCumAverage's output is the mean of rows 0..k. *)
Theorem C07_time_cum_average (src : source (list R)) nc s num :
  wf_source src s -> Forall (fun r => length r = nc) s -> 0 < num ->
  exists out, delivers num out (time_cum_average_result src num) /\
    length out = length s /\
    forall k c, k < length s -> c < nc ->
      nth c (nth k out []) 0%R = rmean (channel c (firstn (S k) s))
      /\ length (nth k out []) = nc.
Proof. exact (time_cum_average_mean src nc s num). Qed.
Print Assumptions C07_time_cum_average.

(** C07.  A Filter delivers, for every block size, the stream that satisfies
    the filter's difference equations over the whole stream; these determine
    it. *)
Theorem C07_filter sos nch (src : source (list R)) s :
  wf_source src s -> Forall (fun r => length r = nch) s ->
  exists out, wf_source (filter_result sos nch src) out /\ is_filtered sos nch s out
    /\ forall out', is_filtered sos nch s out' -> out' = out.
Proof. exact (filter_spec sos nch src s). Qed.
Print Assumptions C07_filter.

(** C07.  TimePower squares every sample. *)
Theorem C07_time_power {V} (mul : V -> V -> V) (src : source (list V)) s :
  wf_source src s -> wf_source (time_power_result mul src) (map (map (fun x => mul x x)) s).
Proof. exact (time_power_delivers mul src s). Qed.
Print Assumptions C07_time_power.

Example C07_case :
  wf_source (time_samples_result Rmult 2 c03_data None) c03_data
  /\ Forall (fun r => length r = 2) c03_data
  /\ is_filtered [mkSec 1 1 0 0 0] 1 [[1];[2];[3]]%R [[1];[3];[5]]%R.
Proof.
  split; [|split].
  - intros num Hn. apply time_samples_delivers; auto. discriminate.
  - repeat constructor.
  - split; [reflexivity|split; [repeat constructor|]].
    intros c Hc. assert (c = 0) by lia. subst c. exists [1;3;5]%R. split; [|reflexivity].
    split; [reflexivity|]. intros n Hn. simpl in Hn.
    assert (n = 0 \/ n = 1 \/ n = 2)%Z as [->|[->| ->]] by lia; unfold at_; simpl; lra.
Qed.

(** C08.  Average delivers the means of the complete consecutive groups of
    [nav] rows and nothing else.  Missing for the full property: the reported
    num_samples equals the number of rows only if [nav] divides the source's
    length; see the refutation below. *)
Theorem C08_average_partial {Row} (mean : list Row -> Row) nav (src : source Row) s :
  0 < nav -> wf_source src s ->
  exists out, wf_source (average_result mean nav src) out
  /\ length out = length s / nav
  /\ (forall k, k < length s / nav ->
        nth_error out k = Some (mean (slice (k * nav) (k * nav + nav) s)))
  /\ (average_num_samples (length s) nav = INR (length out) <-> length s mod nav = 0).
Proof. exact (average_spec mean nav src s). Qed.
Print Assumptions C08_average_partial.

(** the reported sampling frequency: output row [k] starts at the time of the
    source's row [k * nav] *)
Theorem C08_sample_rate nav p k : 0 < nav -> ~ (p_freq p == 0)%Q ->
  (inject_Z (Z.of_nat k) / p_freq (PAverage nav p) == inject_Z (Z.of_nat (k * nav)) / p_freq p)%Q.
Proof.
  intros Hn Hf. cbn [p_freq]. rewrite Nat2Z.inj_mul, inject_Z_mult. field. split; [exact Hf|].
  intros E. unfold Qeq in E. simpl in E. lia.
Qed.
Print Assumptions C08_sample_rate.

Theorem C08_num_samples_refuted :
  exists (s : list (list R)) nav (src : source (list R)), 0 < nav /\ wf_source src s
  /\ exists out, wf_source (average_result (row_mean 1) nav src) out
  /\ average_num_samples (length s) nav <> INR (length out).
Proof. exact average_num_samples_refuted. Qed.
Print Assumptions C08_num_samples_refuted.

Example C08_case :
  let s := [1;2;3;4;5;6;7]%Z in
  let src : source Z := fun num => done (chunks num s) in
  wf_source src s
  /\ average_result (fun g => fold_right Z.add 0 g / Z.of_nat (length g))%Z 2 src 2
     = done [[1;3];[5]]%Z.
Proof. split; [|reflexivity]. intros num Hn. now apply delivers_chunks. Qed.

(** C13.  FilterBank delivers all bands side by side when the block size
    divides the stream length (and see the refutation). *)
Theorem C13_filter_bank_partial bands nch (src : source (list R)) s num :
  wf_source src s -> Forall (fun r => length r = nch) s -> 0 < num ->
  exists outs, Forall2 (fun sos o => is_filtered sos nch s o) bands outs
  /\ let out := beside (length s) outs in
     let nfull := length s / num * num in
     (length s = nfull -> delivers num out (bank_result bands nch src num))
     /\ (length s = S nfull -> 1 < num ->
           bank_result bands nch src num
           = done (chunks num (firstn nfull out) ++ [repeat (nth nfull out []) num]))
     /\ (S nfull < length s ->
           bank_result bands nch src num
           = mkTrace (chunks num (firstn nfull out)) (Raised ValueError)).
Proof. exact (bank_spec bands nch src s num). Qed.
Print Assumptions C13_filter_bank_partial.

(** The full property ("for every stream and num, as many rows as the source")
    fails: five rows in blocks of four come out as eight rows, six rows raise
    ValueError. *)
Theorem C13_filter_bank_refuted :
  exists bands nch (src5 src6 : source (list R)) s5 s6 num,
    wf_source src5 s5 /\ wf_source src6 s6 /\ 0 < num
    /\ (fin (bank_result bands nch src5 num) = Finished
        /\ length (concat (blocks (bank_result bands nch src5 num))) <> length s5)
    /\ fin (bank_result bands nch src6 num) = Raised ValueError.
Proof. exact bank_refuted. Qed.
Print Assumptions C13_filter_bank_refuted.

(** C18.  SourceMixer delivers the weighted sum (all weights one when none are
    given); mismatching sources are refused before any output. *)
Theorem C18_source_mixer {V} (add mul : V -> V -> V) (one : V)
    (g0 : gsource (list V)) gs st sts weights :
  wf_source (g_src g0) st -> g_nsamples g0 = length st ->
  Forall2 (fun g s => wf_source (g_src g) s /\ g_nsamples g = length s) gs sts ->
  (Forall (fun g => (g_freq g == g_freq g0)%Q /\ g_nch g = g_nch g0 /\ g_nsamples g = g_nsamples g0) gs ->
     (length weights = S (length gs) -> forall w0 ws, weights = w0 :: ws ->
        wf_source (source_mixer_result add mul one (g0 :: gs) weights)
          (weighted_sum add mul w0 ws st sts))
     /\ wf_source (source_mixer_result add mul one (g0 :: gs) [])
          (weighted_sum add mul one (repeat one (length gs)) st sts)
     /\ (weights <> [] -> length weights <> S (length gs) -> forall num,
          source_mixer_result add mul one (g0 :: gs) weights num = raise AssertionError))
  /\ (Exists (fun g => ~ (g_freq g == g_freq g0)%Q \/ g_nch g <> g_nch g0
                       \/ g_nsamples g <> g_nsamples g0) gs ->
     forall num, source_mixer_result add mul one (g0 :: gs) weights num = raise ValueError).
Proof. exact (source_mixer_spec add mul one g0 gs st sts weights). Qed.
Print Assumptions C18_source_mixer.

Example C18_case :
  let a := [[1];[2];[3]]%Z in let b := [[10];[20];[30]]%Z in
  let g d := mkG 1 1 (length d) (time_samples_result Z.mul 1 d None) in
  wf_source (g_src (g a)) a
  /\ weighted_sum Z.add Z.mul 2%Z [3%Z] a [b] = [[32];[64];[96]]%Z
  /\ source_mixer_result Z.add Z.mul 1%Z [g a; g b] [2;3]%Z 2 = done [[[32];[64]];[[96]]]%Z.
Proof.
  intros a b g. split; [|split]; try reflexivity.
  intros num Hn. apply time_samples_delivers; auto. discriminate.
Qed.

Example C08_rate_case : 0 < 4 /\ ~ (p_freq c03_pipe == 0)%Q.
Proof. split; [lia|]. vm_compute. discriminate. Qed.
