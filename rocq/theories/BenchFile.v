(** Measurement files of the AIAA benchmark: CsmAIAABenchmark and MicAIAABenchmark (/repo/acoular/aiaa/aiaa.py), and the result that a
    beamformer keeps for them in a cache file. *)
From Coq Require Import List Arith Lia ZArith Bool String Reals Lra.
From Verif Require Import Stream Cplx Result FileCache FileName MicFile.
Import ListNotations.
Local Open Scope R_scope.

(** A file: csmReal and csmImaginary (channel, channel, frequency), the attribute fftSign, binCenterFrequenciesHz, microphoneCount and
    microphonePositionsM (row [k] is microphone [k]). *)
Record bench := { path : string; csm_real : nat -> nat -> nat -> R; csm_imag : nat -> nat -> nat -> R; fft_sign : R;
                  frequencies : list R; mic_count : nat; mic_positions : list (list R) }.

(** CsmAIAABenchmark._get_csm, aiaa.py:141-148: transpose((2, 0, 1)) moves the frequency to the front *)
Definition bench_csm (b : bench) (f i j : nat) : C :=
  let csmre := csm_real b i j f in
  let csmim := csm_imag b i j f in
  Cadd (csmre, 0) (Cmul (Cmul (fft_sign b, 0) (0, 1)) (csmim, 0)).
(** CsmAIAABenchmark.fftfreq, aiaa.py:150-158, _get_indices, aiaa.py:127-131 (the limits are commented out) and _get_num_channels, aiaa.py:133-139 *)
Definition bench_indices (b : bench) (ind_low : nat) (ind_high : option nat) : list nat := seq 0 (List.length (frequencies b)).
Definition bench_channels (b : bench) : nat := mic_count b.
(** MicAIAABenchmark._import_mpos, aiaa.py:172-180: swapaxes(0, 1), here coordinate [a] of microphone [k] *)
Definition bench_pos (b : bench) (a k : nat) : R := nth a (nth k (mic_positions b) []) 0.

(** digest, aiaa.py:106-112: of the class, the name of the file and _csmsum, which nothing here assigns; basename, aiaa.py:113-115 *)
Definition bench_basename (b : bench) : string := get_file_basename (path b) "void".
Definition bench_key (b : bench) : string * R := (bench_basename b, 0).
(** PowerSpectraImport: digest, spectra.py:667 *)
Definition import_key (csmsum : R) (freqs : list R) : R := csmsum.

(** A session in which object 0 requests its result for the digest [d] and reads row [i]; the cache file that it leaves. *)
Definition session (V : Type) (zero : V) (n : nat) (rowf : nat -> V -> V) (lib : h5lib) (s : store V) (d i : nat) : store V * outcome V :=
  let w := fst (step V zero n (fun _ => rowf) lib (Request 0 d true) (new_world V Individual s)) in
  let (w', r) := step V zero n (fun _ => rowf) lib (Access 0 (KInt (Z.of_nat i))) w in (file V w', r).

Lemma session_leaves V zero n rowf lib d i : (i < n)%nat ->
  let s := fst (session V zero n rowf lib (empty_store V zero) d i) in
  present V s = true /\ node V s d = Some 0%nat /\ snd (snd (data V s 0%nat)) i = true /\ fst (snd (data V s 0%nat)) i = rowf i zero.
Proof.
  intros H. cbv zeta. unfold session.
  set (s1 := create_node V zero (open_file V (empty_store V zero)) d).
  assert (R : step V zero n (fun _ => rowf) lib (Request 0 d true) (new_world V Individual (empty_store V zero))
    = ({| mode := Individual; file := s1; objs := set_obj V (fun _ => None) 0%nat (Some (d, Node V 0%nat)) |}, Nothing V)) by reflexivity.
  rewrite R. cbn [fst]. clear R.
  assert (N : node V s1 d = Some 0%nat) by (cbn; unfold set_node; now rewrite Nat.eqb_refl).
  cbn [step objs file].
  assert (O : set_obj V (fun _ => None) 0%nat (Some (d, Node V 0%nat)) 0%nat = Some (d, Node V 0%nat)) by reflexivity.
  rewrite O, N. cbn [Nat.eqb].
  replace (snd (data V s1 0%nat)) with (fresh V zero) by reflexivity.
  assert (G : let st := snd (getitem V n rowf (KInt (Z.of_nat i)) (fresh V zero)) in snd st i = true /\ fst st i = rowf i zero).
  { unfold getitem. rewrite slice_list_1 by lia. replace (Z.of_nat i + 1 - Z.of_nat i)%Z with 1%Z by lia. change (Z.to_nat 1) with 1%nat.
    rewrite Nat2Z.id. cbn [seq filter fresh snd negb]. unfold calc. cbn [fold_left fst snd]. rewrite !Nat.eqb_refl. auto. }
  cbv zeta in G. destruct (getitem V n rowf (KInt (Z.of_nat i)) (fresh V zero)) as [v st]. cbn [snd] in G. destruct G as [G1 G2].
  destruct lib; (split; [reflexivity|]); (split; [exact N|]); split; assumption.
Qed.

(** What a session sees depends on the rows of its own digest only. *)
Lemma session_rows V zero n (rows : nat -> nat -> V -> V) lib s d i :
  session V zero n (rows d) lib s d i
  = (file V (fst (run V zero n rows lib [Request 0 d true; Access 0 (KInt (Z.of_nat i))] (new_world V Individual s))),
     snd (step V zero n rows lib (Access 0 (KInt (Z.of_nat i))) (fst (run V zero n rows lib [Request 0 d true] (new_world V Individual s))))).
Proof.
  unfold session. cbn [run].
  assert (R : step V zero n (fun _ => rows d) lib (Request 0 d true) (new_world V Individual s) = step V zero n rows lib (Request 0 d true) (new_world V Individual s)) by reflexivity.
  rewrite R. clear R.
  assert (O : exists h, objs V (fst (step V zero n rows lib (Request 0 d true) (new_world V Individual s))) 0%nat = Some (d, h)).
  { cbn [step]. destruct (get_result _ _ _ _ _ _) as [s1 h]. exists h. reflexivity. }
  destruct (step V zero n rows lib (Request 0 d true) (new_world V Individual s)) as [w r]. cbn [fst] in *. destruct O as [h O].
  assert (A : step V zero n (fun _ => rows d) lib (Access 0 (KInt (Z.of_nat i))) w = step V zero n rows lib (Access 0 (KInt (Z.of_nat i))) w).
  { cbn [step]. rewrite O. reflexivity. }
  rewrite A. destruct (step V zero n rows lib (Access 0 (KInt (Z.of_nat i))) w) as [w1 r1]. reflexivity.
Qed.
