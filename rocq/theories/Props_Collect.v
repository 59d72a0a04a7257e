(** Properties C14, C15, C23, C24 (consumers of a stream).  Only theorem
    statements; proofs are in Collect.v, GenSignal.v and Wav.v.  Specification
    vocabulary: [delivers], [wf_source], [chunks] (Stream.v: the stream cut in
    blocks), [limit] (Collect.v: at most so many rows, -1 meaning all),
    [selected], [is_peak] (Wav.v). *)
From Coq Require Import List Arith Lia ZArith Bool Reals Lra.
From Verif Require Import Stream Sources Collect GenSignal Wav.
Import ListNotations.
Local Open Scope nat_scope.

(** C14.  WriteH5.result passes on a prefix of the source's blocks unchanged;
    at every yield and at the end the file holds exactly the rows handled so
    far, up to the limit [stotal] (-1: no limit).  It handles K blocks, and
    stops only because the stream is exhausted, the flag was cleared, or the
    limit is reached. *)
Theorem C14_write_h5 {A} flag stotal (src : source A) s num :
  wf_source src s -> 0 < num -> (-1 <= stotal)%Z ->
  let r := write_h5_result flag stotal src num in
  exists K,
    stop r = Finished
    /\ map fst (yields r) = firstn K (chunks num s)
    /\ map snd (yields r) = map (fun j => limit stotal (firstn (S j * num) s)) (seq 0 K)
    /\ file r = limit stotal (firstn (K * num) s)
    /\ (forall j, j < K -> (j = 0 \/ flag j = true) /\ (stotal = -1 \/ Z.of_nat (j * num) < stotal)%Z)
    /\ (length s <= K * num \/ (0 < K /\ flag K = false)
        \/ (stotal <> -1 /\ stotal <= Z.of_nat (K * num))%Z).
Proof. exact (write_h5_spec flag stotal src s num). Qed.
Print Assumptions C14_write_h5.

(** ... hence, when the flag is not cleared, the file ends up with exactly the
    first [stotal] rows (all rows for -1), and without a limit everything is
    passed on. *)
Theorem C14_write_h5_complete {A} flag stotal (src : source A) s num :
  wf_source src s -> 0 < num -> (-1 <= stotal)%Z -> (forall j, flag j = true) ->
  let r := write_h5_result flag stotal src num in
  file r = limit stotal s
  /\ (stotal = -1 -> delivers num s (mkTrace (map fst (yields r)) (stop r)))%Z.
Proof. exact (write_h5_complete flag stotal src s num). Qed.
Print Assumptions C14_write_h5_complete.

(** WriteH5.save stores the whole stream. *)
Theorem C14_write_h5_save {A} (src : source A) s :
  wf_source src s -> write_h5_save src = (s, Finished).
Proof. exact (write_h5_save_spec src s). Qed.
Print Assumptions C14_write_h5_save.

Example C14_case :
  let s := [[1];[2];[3];[4];[5]]%Z in
  let src := time_samples_result Z.mul 1 s None in
  wf_source src s
  /\ write_h5_result (fun _ => true) 3 src 2
     = mkRun [([[1];[2]], [[1];[2]]); ([[3];[4]], [[1];[2];[3]])]%Z [[1];[2];[3]]%Z Finished
  /\ write_h5_result (fun j => j <? 1) (-1) src 2
     = mkRun [([[1];[2]], [[1];[2]])]%Z [[1];[2]]%Z Finished.
Proof.
  intros s src. split; [|split; reflexivity].
  intros num Hn. apply time_samples_delivers; auto. discriminate.
Qed.

(** C15.  For every signal that is not silent on the selected channels, the
    file holds, in order, the selected channels scaled by 29491.2/peak and
    truncated; all values are within +-29491 (int16), the peak becomes exactly
    +-29491, and the order of sample values is preserved.  A silent signal
    makes the scale infinite and the cast undefined; an empty source divides by
    zero. *)
Theorem C15_write_wav nch channels (src : source (list R)) s :
  Forall (fun c => - Z.of_nat nch <= c < Z.of_nat nch)%Z channels ->
  wf_source src s -> Forall (fun r => length r = nch) s -> channels <> [] ->
  let xs := concat (map (selected nch channels) s) in
  let value := fun m x => trunc (x * (0.9 * 2 ^ 15 / m))%R in
  (Exists (fun x => x <> 0%R) xs ->
     exists m, is_peak m xs /\ (0 < m)%R
       /\ wav_save channels src
          = Wav (map (fun row => map (value m) (selected nch channels row)) s)
       /\ (forall x, In x xs -> (Z.abs (value m x) <= 29491)%Z)
       /\ (forall x, In x xs -> Rabs x = m -> (Z.abs (value m x) = 29491)%Z)
       /\ (forall x y, (x <= y)%R -> (value m x <= value m y)%Z))
  /\ (s <> [] -> Forall (fun x => x = 0%R) xs -> wav_save channels src = WavUndefined)
  /\ (s = [] -> wav_save channels src = WavError ZeroDivisionError).
Proof. exact (fun H => wav_save_spec nch channels H src s). Qed.
Print Assumptions C15_write_wav.

(** The truncation used above loses less than one unit, toward zero. *)
Theorem C15_truncation x :
  (Rabs (IZR (trunc x)) <= Rabs x < Rabs (IZR (trunc x)) + 1)%R /\ trunc (- x) = (- trunc x)%Z.
Proof. exact (conj (trunc_spec x) (trunc_opp x)). Qed.
Print Assumptions C15_truncation.

Example C15_case :
  let s := [[1;2;0];[-4;0;1]]%R in
  let src := time_samples_result Rmult 3 s None in
  Forall (fun c => - Z.of_nat 3 <= c < Z.of_nat 3)%Z [1; -3]%Z
  /\ wf_source src s /\ Forall (fun r => length r = 3) s
  /\ concat (map (selected 3 [1; -3]%Z) s) = [2; 1; 0; -4]%R
  /\ Exists (fun x => x <> 0%R) [2; 1; 0; -4]%R.
Proof.
  intros s src. repeat match goal with |- _ /\ _ => split end; try reflexivity.
  - repeat constructor; simpl; lia.
  - intros num Hn. apply time_samples_delivers; auto; discriminate.
  - repeat constructor.
  - constructor. lra.
Qed.

(** C23.  GenericSignalGenerator.signal() has the requested length and is
    amplitude times the source's first channel, then repeated periodically or
    zero.  ([own]: the num_samples set by the user, 0 when not set.)  An empty
    source fails when looping. *)
Theorem C23_generic_signal {A} (zero : A) scale own src_samples loop (src : source (list A)) s :
  wf_source src s -> length s = src_samples ->
  let nums := if own =? 0 then src_samples else own in
  let x := map (fun row => nth 0 row zero) s in
  (s <> [] -> exists out, generic_signal zero scale own src_samples loop src = inl out
     /\ length out = nums
     /\ forall k, k < nums ->
          nth k out zero =
          scale (if k <? length s then nth k x zero
                 else if loop then nth (k mod length s) x zero else zero))
  /\ (s = [] -> loop = true -> generic_signal zero scale own src_samples loop src = inr UnboundLocalError)
  /\ (s = [] -> loop = false ->
      generic_signal zero scale own src_samples loop src = inl (map scale (repeat zero own))).
Proof. exact (generic_signal_spec zero scale own src_samples loop src s). Qed.
Print Assumptions C23_generic_signal.

Example C23_case :
  let s := [[1;9];[2;9];[3;9]]%Z in
  let src := time_samples_result Z.mul 2 s None in
  wf_source src s
  /\ generic_signal 0%Z (Z.mul 10) 8 3 true src = inl [10;20;30;10;20;30;10;20]%Z
  /\ generic_signal 0%Z (Z.mul 10) 5 3 false src = inl [10;20;30;0;0]%Z
  /\ generic_signal 0%Z (Z.mul 10) 2 3 true src = inl [10;20]%Z.
Proof.
  intros s src. split; [|repeat split].
  intros num Hn. apply time_samples_delivers; auto; discriminate.
Qed.

(** C24.  return_result gives the first [nmax] rows (all rows for nmax <= 0),
    independent of [num], and takes no block that starts after them. *)
Theorem C24_return_result {A} (src : source A) s nmax num :
  wf_source src s -> 0 < num ->
  (s = [] -> fst (return_result src nmax num) = inr ValueError)
  /\ (s <> [] -> (nmax <= 0)%Z -> fst (return_result src nmax num) = inl s)
  /\ (s <> [] -> (nmax > 0)%Z ->
        fst (return_result src nmax num) = inl (firstn (Z.to_nat nmax) s)
        /\ (Z.of_nat (snd (return_result src nmax num) - 1) * Z.of_nat num < nmax)%Z).
Proof. exact (return_result_spec src s nmax num). Qed.
Print Assumptions C24_return_result.

Example C24_case :
  let s := [[1];[2];[3];[4];[5]]%Z in
  let src := time_samples_result Z.mul 1 s None in
  wf_source src s /\ return_result src 3 2 = (inl [[1];[2];[3]]%Z, 2)
  /\ return_result src (-1) 2 = (inl s, 3).
Proof.
  intros s src. split; [|split; reflexivity].
  intros num Hn. apply time_samples_delivers; auto. discriminate.
Qed.
