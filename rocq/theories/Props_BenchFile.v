(** Property C112: measurement files of the AIAA benchmark, and imported cross spectral matrices, behind a beamformer. *)
From Coq Require Import List Arith Lia ZArith Bool String Reals Lra.
From Verif Require Import Stream Cplx Deconv Result FileCache FileName BenchFile Props_FileCache.
Import ListNotations.
Local Open Scope R_scope.

(** The matrix is that of the file, its imaginary part in the convention that the file declares: opposite signs of the transform give
    conjugate matrices, and a Hermitian matrix stays Hermitian. *)
Theorem C112_csm b f i j :
  re (bench_csm b f i j) = csm_real b i j f /\ im (bench_csm b f i j) = fft_sign b * csm_imag b i j f /\
  (forall b', (forall i j f, csm_real b' i j f = csm_real b i j f) -> (forall i j f, csm_imag b' i j f = csm_imag b i j f) ->
     fft_sign b' = - fft_sign b -> bench_csm b' f i j = Conj (bench_csm b f i j)) /\
  (csm_real b j i f = csm_real b i j f -> csm_imag b j i f = - csm_imag b i j f -> bench_csm b f j i = Conj (bench_csm b f i j)).
Proof.
  unfold bench_csm, Cadd, Cmul, Conj, re, im. cbn [fst snd]. split; [ring|]. split; [ring|]. split.
  - intros b' R I S. rewrite R, I, S. f_equal; ring.
  - intros R I. rewrite R, I. f_equal; ring.
Qed.
Print Assumptions C112_csm.

(** All lines of the file are evaluated; limits of the frequency range are ignored. *)
Theorem C112_indices b low high k : In k (bench_indices b low high) <-> (k < List.length (frequencies b))%nat.
Proof. unfold bench_indices. rewrite in_seq. lia. Qed.
Print Assumptions C112_indices.
Theorem C112_range_refuted : exists b low high k, In k (bench_indices b low high) /\ (k < low)%nat /\
  match high with Some h => (low < h)%nat | None => True end.
Proof.
  exists {| path := ""; csm_real := fun _ _ _ => 0; csm_imag := fun _ _ _ => 0; fft_sign := 1; frequencies := [100; 200]; mic_count := 0;
            mic_positions := [] |}, 1%nat, (Some 2%nat), 0%nat. split; [now left|]. cbn. lia.
Qed.
Print Assumptions C112_range_refuted.

(** What the second of two sessions is given is decided by the digests alone: with different digests its own rows. *)
Theorem C112_sessions V zero n lib i d1 d2 (r1 r2 : nat -> V -> V) : (i < n)%nat ->
  snd (session V zero n r2 lib (fst (session V zero n r1 lib (empty_store V zero) d1 i)) d2 i)
  = Rows V (Some [if (d1 =? d2)%nat then r1 i zero else r2 i zero]).
Proof.
  intros Hi. destruct (Nat.eqb_spec d1 d2) as [->|D].
  - destruct (session_leaves V zero n r1 lib d2 i Hi) as (P & N & F & E).
    set (s := fst (session V zero n r1 lib (empty_store V zero) d2 i)) in *.
    assert (R := C101_reuse V zero n (fun _ => r2) lib Individual true s 0 d2 0 i P N Hi F (or_intror (or_intror (conj eq_refl eq_refl)))).
    rewrite E in R. unfold session at 1. destruct (step V zero n (fun _ => r2) lib (Access 0 (KInt (Z.of_nat i))) _) as [w' r]. exact R.
  - set (rows := fun d : nat => if (d =? d1)%nat then r1 else r2).
    assert (R1 : rows d1 = r1) by (unfold rows; now rewrite Nat.eqb_refl).
    assert (R2 : rows d2 = r2) by (unfold rows; destruct (Nat.eqb_spec d2 d1); [congruence|reflexivity]).
    rewrite <- R1 at 1. rewrite <- R2, !session_rows. cbn [fst snd].
    rewrite (C101_values_partial V zero n rows lib Individual _ [Request 0 d2 true] 0%nat d2 (KInt (Z.of_nat i))).
    + unfold py_index. destruct (Z.leb_spec 0 (Z.of_nat i)); [|lia]. destruct (Z.ltb_spec (Z.of_nat i) (Z.of_nat n)); [|lia]. cbn [andb].
      rewrite ?Nat2Z.id. reflexivity.
    + apply C101_file; [apply good_empty|]. repeat constructor; cbn; lia.
    + repeat constructor.
    + cbn. lia.
    + reflexivity.
    + intros _. split; [discriminate|]. repeat constructor.
Qed.
Print Assumptions C112_sessions.

(** Within one file name, the digest and the cache file are those of the first file: a beamformer for a different measurement with the
    same name (in another directory, or the file written anew) is given the rows that were calculated for the first. *)
Theorem C112_cache_refuted : exists b1 b2, path b1 <> path b2 /\ (forall f i j, bench_csm b1 f i j <> bench_csm b2 f i j) /\
  bench_basename b1 = bench_basename b2 /\
  forall V zero n (rows : bench -> nat -> V -> V) lib (dig : string * R -> nat) i, (i < n)%nat ->
    snd (session V zero n (rows b2) lib (fst (session V zero n (rows b1) lib (empty_store V zero) (dig (bench_key b1)) i)) (dig (bench_key b2)) i)
    = Rows V (Some [rows b1 i zero]).
Proof.
  exists {| path := "/monday/array.h5"; csm_real := fun _ _ _ => 1; csm_imag := fun _ _ _ => 0; fft_sign := 1; frequencies := [100]; mic_count := 1;
            mic_positions := [[0; 0; 0]] |},
         {| path := "/tuesday/array.h5"; csm_real := fun _ _ _ => 2; csm_imag := fun _ _ _ => 0; fft_sign := 1; frequencies := [100]; mic_count := 1;
            mic_positions := [[0; 0; 0]] |}.
  match goal with |- path ?x <> path ?y /\ _ => set (b1 := x); set (b2 := y) end.
  assert (K : bench_key b1 = bench_key b2) by reflexivity.
  split; [discriminate|]. split.
  - intros f i j H. apply (f_equal fst) in H. cbn in H. lra.
  - split; [reflexivity|]. intros V zero n rows lib dig i Hi. rewrite <- K. generalize (dig (bench_key b1)). intros d.
    rewrite C112_sessions by exact Hi. now rewrite Nat.eqb_refl.
Qed.
Print Assumptions C112_cache_refuted.

(** So an imported matrix, whose digest leaves out the frequencies (and is the same for all matrices that are assigned first), gives
    the rows of the frequencies that were evaluated first. *)
Theorem C112_frequencies_refuted : exists f1 f2 : list R, f1 <> f2 /\
  forall V zero n lib (rows : list R -> nat -> V -> V) (dig : R -> nat) csmsum i, (i < n)%nat ->
    snd (session V zero n (rows f2) lib (fst (session V zero n (rows f1) lib (empty_store V zero) (dig (import_key csmsum f1)) i))
           (dig (import_key csmsum f2)) i)
    = Rows V (Some [rows f1 i zero]).
Proof.
  exists [1000], [2000]. split; [intros H; injection H; lra|]. intros. rewrite C112_sessions by assumption.
  unfold import_key. now rewrite Nat.eqb_refl.
Qed.
Print Assumptions C112_frequencies_refuted.

(** A file with two channels and a frequency, transform with negative sign. *)
Example C112_case :
  let b := {| path := "/data/array.h5"; csm_real := fun i j _ => if (i =? j)%nat then 2 else 1;
              csm_imag := fun i j _ => if (i <? j)%nat then 3 else if (j <? i)%nat then -3 else 0; fft_sign := -1; frequencies := [500]; mic_count := 2;
              mic_positions := [[0; 0; 0]; [1; 0; 0]] |} in
  bench_csm b 0 0 1 = (1, -3) /\ bench_csm b 0 1 0 = Conj (bench_csm b 0 0 1) /\ bench_basename b = "array"%string /\ bench_channels b = 2%nat /\
  bench_pos b 0 1 = 1 /\
  snd (session nat 0 3 (fun i _ => 10 + i) Tables (fst (session nat 0 3 (fun i _ => 20 + i) Tables (empty_store nat 0) 7 2)) 8 2)%nat = Rows nat (Some [12%nat]).
Proof.
  cbv zeta. split; [unfold bench_csm, Cadd, Cmul; cbn; f_equal; ring|]. split; [unfold bench_csm, Cadd, Cmul, Conj; cbn; f_equal; ring|].
  repeat split.
Qed.
