(** Property C79: digests and what results depend on.  Specification
    vocabulary: [shared] (states of a cache file used by many objects), [agree]
    (same values of some attributes), [reads_only], [missing], [line_obj],
    [calib_obj] with the attributes hashed ([line_key], [calib_key]) (Cover.v). *)
From Coq Require Import List Arith Lia Bool ZArith Reals Lra String.
From Verif Require Import Stream Environ Sources PointSources Cache Digest Cover.
Import ListNotations.

(** C79.  One cache file, many objects (of any classes), read in any order, in
    any mode, with interruptions as in C16: every read delivers the stream of
    the object it was made from, whatever happened before, if and only if
    objects with equal digests have equal streams. *)
Theorem C79_cache : forall (A O : Type) (zrow : A) (lib : h5lib) (dig : O -> string)
    (src : O -> source A) (stream : O -> list A),
  (forall o, wf_source (src o) (stream o)) -> (forall o, stream o <> []) ->
  ((forall f, shared zrow lib dig src f -> forall o md num, (0 < num)%nat ->
      let evs := result_ev lib md (src o) num (f (dig o)) in
      failure evs = None /\ List.concat (yields evs) = stream o)
   <-> forall o1 o2, dig o1 = dig o2 -> stream o1 = stream o2).
Proof.
  intros A O zrow lib dig src stream Hw Hs. split.
  - intros H o1 o2 E. destruct (shared_mixed zrow lib dig src o1 o2 (stream o1) 1 (Hw o1) (Hs o1) ltac:(lia) E) as (f & Hf & Hy).
    destruct (H f Hf o2 CAll 1%nat ltac:(lia)) as [_ H2]. rewrite <- H2, Hy. symmetry. apply concat_chunks. lia.
  - intros Hd f Hf o md num Hn. cbv zeta.
    destruct (shared_yields zrow lib dig src stream Hw Hs f Hd Hf o md num Hn) as [-> ->].
    split; [reflexivity|]. apply concat_chunks. exact Hn.
Qed.
Print Assumptions C79_cache.

(** Two objects alternately read through one file, the second with another
    block size, the first interrupted. *)
Example C79_cache_case :
  let stream := fun o : bool => if o then [1; 2; 3]%nat else [7; 8]%nat in
  let src := fun o num => done (chunks num (stream o)) in
  let dig := fun o : bool => if o then "_a"%string else "_b"%string in
  (forall o, wf_source (src o) (stream o)) /\ (forall o, stream o <> [])
  /\ (forall o1 o2, dig o1 = dig o2 -> stream o1 = stream o2)
  /\ exists f, shared 0%nat Tables dig src f /\ f "_a"%string = Some ([1; 2]%nat, Some false)
     /\ f "_b"%string = Some ([7; 8]%nat, Some true).
Proof.
  cbv zeta. split; [intros o n Hn; now apply delivers_chunks|]. split; [intros []; discriminate|].
  split; [intros [] []; cbn; congruence|]. eexists. split.
  - refine (sh_read 0%nat Tables _ _ _ false (mkRead CAll 2 100) _ _ _); [|cbn; lia|now left].
    refine (sh_read 0%nat Tables _ _ _ true (mkRead CAll 2 6) _ _ _); [constructor|cbn; lia|now left].
  - split; reflexivity.
Qed.

(** C79.  The attributes of a class decide this: equal hashed attributes force
    equal results, for every result that reads only the attributes listed, iff
    none of these is missing from the digest.  (Objects that agree on the hashed
    attributes have the same digest whatever the hash function.) *)
Theorem C79_covered : forall c,
  missing c = [] <->
  forall T (result : obj -> T), reads_only c result ->
    forall o1 o2, agree (hashed c) o1 o2 -> result o1 = result o2.
Proof. exact covered_iff. Qed.
Print Assumptions C79_covered.

Theorem C79_digest : forall hash c o1 o2,
  agree (hashed c) o1 o2 -> obj_digest hash c o1 = obj_digest hash c o2.
Proof. exact agree_digest. Qed.
Print Assumptions C79_digest.

(** The classes whose digest does not decide the result, with the attributes
    left out; the other 48 of the 60 classes are covered. *)
Theorem C79_gaps :
  map (fun c => (cname c, missing c)) (filter (fun c => negb (List.length (missing c) =? 0)%nat) classes)
  = [("Calib", ["invalid_channels"]);
     ("BeamformerDamasPlus", ["psf_precision"]);
     ("BeamformerGridlessOrth", ["n"]);
     ("SphericalHarmonicSource", ["direction"]);
     ("MovingPointSource", ["up"]);
     ("MovingPointSourceDipole", ["conv_amp"; "rvec"; "trajectory"]);
     ("LineSource", ["length"; "num_sources"]);
     ("MovingLineSource", ["coherence"; "conv_amp"; "length"; "num_sources"; "rvec"; "source_strength"; "trajectory"]);
     ("AngleTracker", ["invalid_channels"; "start"; "stop"]);
     ("SpatialInterpolatorRotation", ["num_IDW"; "p_weight"]);
     ("SpatialInterpolatorConstantRotation", ["num_IDW"; "p_weight"]);
     ("WriteH5", ["num_samples_write"])]%string
  /\ List.length classes = 60%nat.
Proof. vm_compute. auto. Qed.
Print Assumptions C79_gaps.

(** C79 is false of LineSource: one and two monopoles, the same digest (for
    every hash function and every way of printing the attributes), different
    sound. *)
Local Open Scope R_scope.

Lemma line_parts :
  vunit (V3 1 0 0) = V3 1 0 0
  /\ (forall d, vnorm (vsub (vadd (V3 1 0 0) (vscale (d * INR 0) (V3 1 0 0))) (V3 0 0 0)) = 1)
  /\ vnorm (vsub (vadd (V3 1 0 0) (vscale (2 / INR 2 * INR 1) (V3 1 0 0))) (V3 0 0 0)) = 2.
Proof.
  assert (N : vnorm (V3 1 0 0) = 1).
  { unfold vnorm, vdot. cbn [v3x v3y v3z]. replace (1 * 1 + 0 * 0 + 0 * 0) with 1 by ring. apply sqrt_1. }
  split; [|split].
  - unfold vunit. rewrite N. unfold vscale. cbn [v3x v3y v3z]. f_equal; field.
  - intros d. transitivity (vnorm (V3 1 0 0)); [|exact N]. f_equal. unfold vsub, vadd, vscale.
    cbn [v3x v3y v3z]. simpl INR. f_equal; field.
  - unfold vnorm, vdot, vsub, vadd, vscale. cbn [v3x v3y v3z]. simpl INR.
    transitivity (sqrt (2 * 2)); [f_equal; field|apply sqrt_square; lra].
Qed.

Lemma line_both :
  line_result (line_example 1) 2 = done [[[1]; [1]]; []]
  /\ line_result (line_example 2) 2 = done [[[3 / 2]; [3 / 2]]; []].
Proof.
  destruct line_parts as (U & D1 & D2).
  unfold line_result, line_geom, line_example.
  cbn [lo_mics lo_signal lo_rms lo_samples lo_fs lo_c lo_loc lo_start_t lo_start lo_up lo_dir lo_strength lo_length lo_num].
  rewrite U. cbn [seq map List.length repeat]. rewrite !D1, D2.
  unfold line_source. cbn -[IZR rnd INR Rdiv Rplus]. unfold line_row. cbn -[IZR rnd INR Rdiv Rplus].
  unfold np_row. cbn -[IZR rnd INR Rdiv Rplus].
  replace (((- (1) / 1 - 0 + 1) * 1 + INR 0) * INR 1) with (IZR 0) by (simpl; field).
  replace (((- (1) / 1 - 0 + 1) * 1 + INR 1) * INR 1) with (IZR 1) by (simpl; field).
  replace (((- (2) / 1 - 0 + 1) * 1 + INR 0) * INR 1) with (IZR (-1)) by (simpl; field).
  replace (((- (2) / 1 - 0 + 1) * 1 + INR 1) * INR 1) with (IZR 0) by (simpl; field).
  rewrite (rnd_neg_int (-1)) by lia. rewrite !rnd_int by lia.
  cbn -[IZR Rdiv Rplus Rmult].
  change (Pos.to_nat 1) with 1%nat.
  unfold flush_always, add_rows. cbn -[IZR Rdiv Rplus Rmult].
  replace (0 + 1 * 1 * 1 / 1) with 1 by field. replace (1 + 1 * 1 * 1 * 1 / 2) with (3 / 2) by field.
  split; reflexivity.
Qed.

Theorem C79_line_source_refuted : exists o1 o2,
  line_key o1 = line_key o2
  /\ (forall hash (strs : _ -> list (option string)),
        digest hash "LineSource" (strs (line_key o1)) = digest hash "LineSource" (strs (line_key o2)))
  /\ line_result o1 2 = done [[[1]; [1]]; []]
  /\ line_result o2 2 = done [[[3 / 2]; [3 / 2]]; []].
Proof.
  exists (line_example 1), (line_example 2). split; [reflexivity|]. split; [reflexivity|]. apply line_both.
Qed.
Print Assumptions C79_line_source_refuted.

(** C79 is false of Calib, and the cache shows it: of two Calib objects with
    the same source and data the second, reading through a Cache, is handed the
    first one's data, calibrated with another channel's factor. *)
Definition calib_example (invalid : list Z) : calib_obj :=
  mkCalib (TimeOrigin 1) (fun num => done (chunks num [[1]; [10]]%Z)) [2; 3]%Z invalid.

Theorem C79_calib_refuted : exists o1 o2,
  calib_key o1 = calib_key o2
  /\ wf_source (calib_out o1) [[3]; [30]]%Z /\ wf_source (calib_out o2) [[2]; [20]]%Z
  /\ forall (dig : calib_obj -> string), (forall a b, calib_key a = calib_key b -> dig a = dig b) ->
     forall lib, exists f, shared [0%Z] lib dig calib_out f
       /\ yields (result_ev lib CAll (calib_out o2) 1 (f (dig o2))) = [[[3]]; [[30]]]%Z.
Proof.
  exists (calib_example [0%Z]), (calib_example [1%Z]). split; [reflexivity|].
  assert (W : forall num, (0 < num)%nat -> delivers num [[1]; [10]]%Z (done (chunks num [[1]; [10]]%Z)))
    by (intros; now apply delivers_chunks).
  assert (C : forall i f, keep_valid [i] [2; 3]%Z = [f] ->
    wf_source (calib_out (calib_example [i])) [[1 * f]; [10 * f]]%Z).
  { intros i f E. pose proof (calib_spec Z.mul [2; 3]%Z [i] (TimeOrigin 1) _ _ W) as H.
    rewrite E in H. apply H; [repeat constructor|now right|reflexivity]. }
  assert (W1 := C 0%Z 3%Z eq_refl). assert (W2 := C 1%Z 2%Z eq_refl).
  split; [exact W1|]. split; [exact W2|].
  intros dig Hd lib.
  apply (shared_mixed [0%Z] lib dig calib_out _ (calib_example [1%Z]) [[3]; [30]]%Z 1 W1); [discriminate|lia|].
  apply Hd. reflexivity.
Qed.
Print Assumptions C79_calib_refuted.
