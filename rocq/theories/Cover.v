(** Digest coverage (property C79): which attributes that decide a result are
    part of the digest, and what a shared cache file needs of the digests.

    Modelled: the list of digest attributes and the list of attributes read by
    the results of 60 classes (table [classes], taken by hand from the class
    definitions); LineSource objects (geometry in front of
    PointSources.line_source); Calib objects; one cache file used by many
    objects (process.py:265-379).
    Not modelled: attributes read inside attribute objects (they are covered by
    the attribute's own digest, property C27), private buffers, [cached], file
    handles. *)
From Coq Require Import List Arith Lia Bool ZArith Reals Lra String.
From Verif Require Import Stream Environ Sources PointSources Cache Digest.
Import ListNotations.
Local Open Scope list_scope.

(* ------------------------------------------------------------------ *)
(** * Attributes hashed and attributes read *)

(** A class: its name, the attributes in [depends_on] of its digest and the
    attributes its result is computed from. *)
Record cls := mkCls { cname : string; hashed : list string; reads : list string }.

Local Open Scope string_scope.
(** The line cited is that of the digest property.  Trait names are reduced to
    the attribute ("mics.digest" to "mics", "sources.digest" or "sdigest" to
    "sources", "_datachecksum" to "data", mapped traits "weights_" to
    "weights").  The attributes read are those in the code of [result] (for
    beamformers [_calc]) and in the methods it calls. *)
Definition classes : list cls := [
  (* calib.py:101 *)
  mkCls "Calib"
    ["source"; "data"]
    ["data"; "invalid_channels"; "source"];
  (* fbeamform.py:350 *)
  mkCls "BeamformerBase"
    ["freq_data"; "r_diag"; "r_diag_norm"; "precision"; "steer"]
    ["freq_data"; "precision"; "r_diag"; "r_diag_norm"; "steer"];
  (* fbeamform.py:720 *)
  mkCls "BeamformerFunctional"
    ["freq_data"; "r_diag"; "r_diag_norm"; "precision"; "steer"; "gamma"]
    ["freq_data"; "gamma"; "precision"; "r_diag"; "r_diag_norm"; "steer"];
  (* fbeamform.py:350 *)
  mkCls "BeamformerCapon"
    ["freq_data"; "r_diag"; "r_diag_norm"; "precision"; "steer"]
    ["freq_data"; "precision"; "r_diag"; "r_diag_norm"; "steer"];
  (* fbeamform.py:852 *)
  mkCls "BeamformerEig"
    ["freq_data"; "r_diag"; "r_diag_norm"; "precision"; "steer"; "n"]
    ["freq_data"; "n"; "precision"; "r_diag"; "r_diag_norm"; "steer"];
  (* fbeamform.py:852 *)
  mkCls "BeamformerMusic"
    ["freq_data"; "r_diag"; "r_diag_norm"; "precision"; "steer"; "n"]
    ["freq_data"; "n"; "precision"; "r_diag"; "r_diag_norm"; "steer"];
  (* fbeamform.py:1171 *)
  mkCls "BeamformerDamas"
    ["freq_data"; "r_diag"; "r_diag_norm"; "precision"; "steer"; "n_iter"; "damp"; "psf_precision"]
    ["damp"; "freq_data"; "n_iter"; "precision"; "psf_precision"; "r_diag"; "r_diag_norm"; "steer"];
  (* fbeamform.py:1275 *)
  mkCls "BeamformerDamasPlus"
    ["freq_data"; "r_diag"; "r_diag_norm"; "precision"; "steer"; "alpha"; "method"; "n_iter"; "unit_mult"]
    ["alpha"; "freq_data"; "method"; "n_iter"; "precision"; "psf_precision"; "r_diag"; "r_diag_norm"; "steer"; "unit_mult"];
  (* fbeamform.py:1385 *)
  mkCls "BeamformerOrth"
    ["freq_data"; "r_diag"; "r_diag_norm"; "precision"; "steer"; "eva_list"]
    ["eva_list"; "freq_data"; "precision"; "r_diag"; "r_diag_norm"; "steer"];
  (* fbeamform.py:1479 *)
  mkCls "BeamformerCleansc"
    ["freq_data"; "r_diag"; "r_diag_norm"; "precision"; "steer"; "n_iter"; "damp"; "stopn"]
    ["damp"; "freq_data"; "n_iter"; "precision"; "r_diag"; "r_diag_norm"; "steer"; "stopn"];
  (* fbeamform.py:1577 *)
  mkCls "BeamformerClean"
    ["freq_data"; "r_diag"; "r_diag_norm"; "precision"; "steer"; "n_iter"; "damp"; "psf_precision"]
    ["damp"; "freq_data"; "n_iter"; "precision"; "psf_precision"; "r_diag"; "r_diag_norm"; "steer"];
  (* fbeamform.py:1721 *)
  mkCls "BeamformerCMF"
    ["freq_data"; "alpha"; "method"; "n_iter"; "unit_mult"; "r_diag"; "precision"; "steer"]
    ["alpha"; "freq_data"; "method"; "n_iter"; "precision"; "r_diag"; "steer"; "unit_mult"];
  (* fbeamform.py:1932 *)
  mkCls "BeamformerSODIX"
    ["freq_data"; "alpha"; "method"; "n_iter"; "unit_mult"; "r_diag"; "precision"; "steer"]
    ["freq_data"; "method"; "n_iter"; "precision"; "steer"];
  (* fbeamform.py:2120 *)
  mkCls "BeamformerGIB"
    ["steer"; "freq_data"; "precision"; "alpha"; "method"; "n_iter"; "unit_mult"; "eps_perc"; "pnorm"; "beta"; "n"; "m"]
    ["alpha"; "beta"; "eps_perc"; "freq_data"; "m"; "method"; "n"; "n_iter"; "pnorm"; "precision"; "steer"; "unit_mult"];
  (* fbeamform.py:2376 *)
  mkCls "BeamformerGridlessOrth"
    ["freq_data"; "steer"; "precision"; "r_diag"; "eva_list"; "bounds"; "shgo"]
    ["bounds"; "eva_list"; "freq_data"; "n"; "precision"; "r_diag"; "steer"];
  (* fprocess.py:83 *)
  mkCls "RFFT"
    ["source"; "scaling"; "precision"; "block_size"; "window"; "overlap"]
    ["block_size"; "overlap"; "precision"; "scaling"; "source"; "window"];
  (* fprocess.py:208 *)
  mkCls "IRFFT"
    ["source"; "scaling"; "precision"; "block_size"; "window"; "overlap"]
    ["precision"; "source"];
  (* fprocess.py:306 *)
  mkCls "AutoPowerSpectra"
    ["source"; "precision"; "scaling"; "single_sided"]
    ["precision"; "scaling"; "single_sided"; "source"];
  (* fprocess.py:397 *)
  mkCls "CrossPowerSpectra"
    ["source"; "precision"; "scaling"; "single_sided"; "calc_mode"]
    ["calc_mode"; "precision"; "scaling"; "single_sided"; "source"];
  (* process.py:135 *)
  mkCls "Average"
    ["source"; "num_per_average"]
    ["num_per_average"; "source"];
  (* signals.py:244 *)
  mkCls "WNoiseGenerator"
    ["rms"; "seed"; "sample_freq"; "num_samples"]
    ["num_samples"; "rms"; "seed"];
  (* signals.py:297 *)
  mkCls "PNoiseGenerator"
    ["rms"; "seed"; "sample_freq"; "num_samples"; "depth"]
    ["depth"; "num_samples"; "rms"; "seed"];
  (* signals.py:409 *)
  mkCls "FiltWNoiseGenerator"
    ["rms"; "seed"; "sample_freq"; "num_samples"; "ar"; "ma"]
    ["ar"; "ma"; "num_samples"; "rms"; "seed"];
  (* signals.py:528 *)
  mkCls "SineGenerator"
    ["num_samples"; "sample_freq"; "amplitude"; "freq"; "phase"]
    ["amplitude"; "freq"; "num_samples"; "phase"; "sample_freq"];
  (* signals.py:621 *)
  mkCls "GenericSignalGenerator"
    ["source"; "loop_signal"; "num_samples"; "amplitude"]
    ["amplitude"; "loop_signal"; "num_samples"; "source"];
  (* sources.py:403 *)
  mkCls "TimeSamples"
    ["calib"; "data"; "sample_freq"; "num_channels"; "num_samples"]
    ["calib"; "data"];
  (* sources.py:612 *)
  mkCls "MaskedTimeSamples"
    ["start"; "stop"; "calib"; "invalid_channels"; "data"]
    ["calib"; "data"; "invalid_channels"; "start"; "stop"];
  (* sources.py:862 *)
  mkCls "PointSource"
    ["mics"; "signal"; "loc"; "env"; "start_t"; "start"; "up"; "prepadding"]
    ["env"; "loc"; "mics"; "prepadding"; "signal"; "start"; "start_t"; "up"];
  (* sources.py:975 *)
  mkCls "SphericalHarmonicSource"
    ["mics"; "signal"; "loc"; "env"; "start_t"; "start"; "up"; "alpha"; "lOrder"; "prepadding"]
    ["alpha"; "direction"; "env"; "lOrder"; "loc"; "mics"; "signal"; "start"; "start_t"; "up"];
  (* sources.py:1111 *)
  mkCls "MovingPointSource"
    ["mics"; "signal"; "loc"; "conv_amp"; "env"; "start_t"; "start"; "trajectory"; "prepadding"]
    ["conv_amp"; "env"; "mics"; "signal"; "start"; "start_t"; "trajectory"; "up"];
  (* sources.py:1246 *)
  mkCls "PointSourceDipole"
    ["mics"; "signal"; "loc"; "env"; "start_t"; "start"; "up"; "direction"; "prepadding"]
    ["direction"; "env"; "loc"; "mics"; "signal"; "start"; "start_t"; "up"];
  (* sources.py:1376 *)
  mkCls "MovingPointSourceDipole"
    ["mics"; "signal"; "loc"; "env"; "start_t"; "start"; "up"; "direction"]
    ["conv_amp"; "direction"; "env"; "mics"; "rvec"; "signal"; "start"; "start_t"; "trajectory"; "up"];
  (* sources.py:1621 *)
  mkCls "LineSource"
    ["mics"; "signal"; "loc"; "env"; "start_t"; "start"; "up"; "direction"; "source_strength"; "coherence"]
    ["coherence"; "direction"; "env"; "length"; "loc"; "mics"; "num_sources"; "signal"; "source_strength"; "start"; "start_t"; "up"];
  (* sources.py:1735 *)
  mkCls "MovingLineSource"
    ["mics"; "signal"; "loc"; "env"; "start_t"; "start"; "up"; "direction"]
    ["coherence"; "conv_amp"; "direction"; "env"; "length"; "mics"; "num_sources"; "rvec"; "signal"; "source_strength"; "start"; "start_t"; "trajectory"; "up"];
  (* sources.py:2040 *)
  mkCls "UncorrelatedNoiseSource"
    ["mics"; "signal"; "seed"; "loc"; "start_t"; "start"]
    ["mics"; "seed"; "signal"; "start"; "start_t"];
  (* sources.py:2240 *)
  mkCls "SourceMixer"
    ["sources"; "weights"]
    ["sources"; "weights"];
  (* sources.py:2411 *)
  mkCls "PointSourceConvolve"
    ["mics"; "signal"; "loc"; "kernel"]
    ["kernel"; "mics"; "signal"];
  (* spectra.py:280 *)
  mkCls "PowerSpectra"
    ["source"; "block_size"; "window"; "overlap"; "precision"]
    ["block_size"; "overlap"; "precision"; "source"; "window"];
  (* tbeamform.py:113 *)
  mkCls "BeamformerTime"
    ["steer"; "source"; "weights"]
    ["source"; "steer"; "weights"];
  (* tbeamform.py:245 *)
  mkCls "BeamformerTimeSq"
    ["steer"; "source"; "r_diag"; "weights"]
    ["r_diag"; "source"; "steer"; "weights"];
  (* tbeamform.py:295 *)
  mkCls "BeamformerTimeTraj"
    ["steer"; "source"; "weights"; "precision"; "rvec"; "conv_amp"; "trajectory"]
    ["conv_amp"; "precision"; "rvec"; "source"; "steer"; "trajectory"; "weights"];
  (* tbeamform.py:512 *)
  mkCls "BeamformerTimeSqTraj"
    ["steer"; "source"; "r_diag"; "weights"; "precision"; "rvec"; "conv_amp"; "trajectory"]
    ["conv_amp"; "precision"; "r_diag"; "rvec"; "source"; "steer"; "trajectory"; "weights"];
  (* tbeamform.py:570 *)
  mkCls "BeamformerCleant"
    ["steer"; "source"; "weights"; "damp"; "n_iter"]
    ["damp"; "n_iter"; "source"; "steer"; "weights"];
  (* tbeamform.py:613 *)
  mkCls "BeamformerCleantSq"
    ["steer"; "source"; "weights"; "damp"; "n_iter"; "r_diag"]
    ["damp"; "n_iter"; "r_diag"; "source"; "steer"; "weights"];
  (* tbeamform.py:656 *)
  mkCls "BeamformerCleantTraj"
    ["steer"; "source"; "weights"; "precision"; "damp"; "n_iter"; "rvec"; "conv_amp"; "trajectory"]
    ["conv_amp"; "damp"; "n_iter"; "precision"; "rvec"; "source"; "steer"; "trajectory"; "weights"];
  (* tbeamform.py:709 *)
  mkCls "BeamformerCleantSqTraj"
    ["steer"; "source"; "weights"; "precision"; "damp"; "n_iter"; "rvec"; "conv_amp"; "trajectory"; "r_diag"]
    ["conv_amp"; "damp"; "n_iter"; "precision"; "r_diag"; "rvec"; "source"; "steer"; "trajectory"; "weights"];
  (* tbeamform.py:771 *)
  mkCls "IntegratorSectorTime"
    ["sectors"; "clip"; "grid"; "source"]
    ["clip"; "grid"; "sectors"; "source"];
  (* tprocess.py:163 *)
  mkCls "MaskedTimeOut"
    ["source"; "start"; "stop"; "invalid_channels"]
    ["invalid_channels"; "source"; "start"; "stop"];
  (* tprocess.py:276 *)
  mkCls "ChannelMixer"
    ["source"; "weights"]
    ["source"; "weights"];
  (* tprocess.py:520 *)
  mkCls "AngleTracker"
    ["source"; "trigger"; "trigger_per_revo"; "rot_direction"; "interp_points"; "start_angle"]
    ["invalid_channels"; "source"; "start"; "stop"];
  (* tprocess.py:1168 *)
  mkCls "SpatialInterpolatorRotation"
    ["source"; "angle_source"; "mics"; "mics_virtual"; "method"; "array_dimension"; "Q"; "interp_at_zero"]
    ["Q"; "angle_source"; "array_dimension"; "interp_at_zero"; "method"; "mics"; "mics_virtual"; "num_IDW"; "p_weight"; "source"];
  (* tprocess.py:1224 *)
  mkCls "SpatialInterpolatorConstantRotation"
    ["source"; "mics"; "mics_virtual"; "method"; "array_dimension"; "Q"; "interp_at_zero"; "rotational_speed"]
    ["Q"; "array_dimension"; "interp_at_zero"; "method"; "mics"; "mics_virtual"; "num_IDW"; "p_weight"; "rotational_speed"; "source"];
  (* tprocess.py:1294 *)
  mkCls "Mixer"
    ["source"; "sources"]
    ["source"; "sources"];
  (* tprocess.py:1498 *)
  mkCls "FiltOctave"
    ["source"; "band"; "fraction"; "order"]
    ["band"; "fraction"; "order"; "source"];
  (* tprocess.py:1535 *)
  mkCls "FiltFiltOctave"
    ["source"; "band"; "fraction"; "order"]
    ["band"; "fraction"; "order"; "source"];
  (* tprocess.py:1607 *)
  mkCls "TimeExpAverage"
    ["source"; "weight"]
    ["source"; "weight"];
  (* tprocess.py:1630 *)
  mkCls "FiltFreqWeight"
    ["source"; "weight"]
    ["source"; "weight"];
  (* tprocess.py:1747 *)
  mkCls "OctaveFilterBank"
    ["source"; "lband"; "hband"; "fraction"; "order"]
    ["fraction"; "hband"; "lband"; "order"; "source"];
  (* tprocess.py:1863 *)
  mkCls "WriteH5"
    ["source"]
    ["num_samples_write"; "source"];
  (* tprocess.py:1975 *)
  mkCls "TimeConvolve"
    ["source"; "kernel"]
    ["kernel"; "source"]].

Local Close Scope string_scope.

Definition hashes (c : cls) (a : string) : bool := existsb (String.eqb a) (hashed c).
Definition missing (c : cls) : list string := filter (fun a => negb (hashes c a)) (reads c).

(** An object: the printed value of each attribute. *)
Definition obj := string -> string.
Definition agree (l : list string) (o1 o2 : obj) : Prop := forall a, In a l -> o1 a = o2 a.
(** [result] reads only the attributes listed. *)
Definition reads_only {T} (c : cls) (result : obj -> T) : Prop :=
  forall o1 o2, agree (reads c) o1 o2 -> result o1 = result o2.

(** The digest of an object, internal.py:8-18, for any hash function. *)
Definition obj_digest (hash : string -> string) (c : cls) (o : obj) : string :=
  digest hash (cname c) (map (fun a => Some (o a)) (hashed c)).

Lemma hashes_in c a : hashes c a = true <-> In a (hashed c).
Proof.
  unfold hashes. rewrite existsb_exists. split.
  - intros (b & Hb & E). apply String.eqb_eq in E. now subst.
  - intros H. exists a. split; [exact H|apply String.eqb_refl].
Qed.

Lemma agree_digest hash c o1 o2 : agree (hashed c) o1 o2 -> obj_digest hash c o1 = obj_digest hash c o2.
Proof.
  intros H. unfold obj_digest. f_equal. apply map_ext_in. intros a Ha. now rewrite (H a Ha).
Qed.

Lemma missing_nil c : missing c = [] <-> forall a, In a (reads c) -> In a (hashed c).
Proof.
  unfold missing. split.
  - intros H a Ha. apply hashes_in. destruct (hashes c a) eqn:E; [reflexivity|].
    assert (In a []) as []. rewrite <- H. apply filter_In. now rewrite E.
  - intros H. assert (forall l, (forall a, In a l -> In a (hashed c)) ->
      filter (fun a => negb (hashes c a)) l = []) as F; [|now apply F].
    induction l as [|a l IH]; intros Hl; [reflexivity|]. cbn [filter].
    rewrite (proj2 (hashes_in c a)) by (apply Hl; now left). cbn. apply IH. intros b Hb. apply Hl. now right.
Qed.

Lemma in_missing c a : In a (missing c) <-> In a (reads c) /\ ~ In a (hashed c).
Proof.
  unfold missing. rewrite filter_In, negb_true_iff. rewrite <- hashes_in. destruct (hashes c a); intuition congruence.
Qed.

(** A digest decides the result iff nothing read is missing from it. *)
Lemma covered_iff c :
  missing c = [] <->
  forall T (result : obj -> T), reads_only c result ->
    forall o1 o2, agree (hashed c) o1 o2 -> result o1 = result o2.
Proof.
  split.
  - intros H T result Hr o1 o2 Ha. apply Hr. intros a Hin. apply Ha. now apply missing_nil.
  - intros H. destruct (missing c) as [|a l] eqn:E; [reflexivity|exfalso].
    assert (In a (missing c)) as Ha by (rewrite E; now left). apply in_missing in Ha as [Ha1 Ha2].
    specialize (H string (fun o => o a)). cbv beta in H.
    assert (Some EmptyString = Some "x"%string) as X; [|discriminate]. f_equal.
    specialize (H ltac:(intros o1 o2 Hag; now apply Hag) (fun _ => EmptyString)
      (fun b => if String.eqb b a then "x"%string else EmptyString)).
    cbv beta in H. rewrite String.eqb_refl in H. apply H. intros b Hb.
    destruct (String.eqb_spec b a) as [->|]; [contradiction|reflexivity].
Qed.

(* ------------------------------------------------------------------ *)
(** * One cache file for many objects *)

Section File.
Context {A O : Type} (zrow : A) (lib : h5lib) (dig : O -> string) (src : O -> source A).

(** The arrays of a cache file by name ('tc_' + digest, process.py:269). *)
Definition file := string -> node (A:=A).
Definition put (k : string) (v : node) (f : file) : file :=
  fun k' => if String.eqb k' k then v else f k'.

(** The files that arise when objects are read through Cache: any objects in
    any order, each read as in [history] (Cache.v). *)
Inductive shared : file -> Prop :=
| sh_empty : shared (fun _ => None)
| sh_read f o r : shared f -> (0 < r_num r)%nat ->
    lib = Tables \/ clean (events lib (src o) r (f (dig o))) ->
    shared (put (dig o) (after zrow lib (src o) (f (dig o)) r) f).

(** Two objects with the same digest: the second one is handed the first one's
    data. *)
Lemma shared_mixed o1 o2 s1 num : wf_source (src o1) s1 -> s1 <> [] -> (0 < num)%nat -> dig o1 = dig o2 ->
  exists f, shared f /\ yields (result_ev lib CAll (src o2) num (f (dig o2))) = chunks num s1.
Proof.
  intros Hw1 Hs1 Hn Hd.
  set (evs := result_ev lib CAll (src o1) num None).
  set (r := mkRead CAll num (List.length evs)).
  assert (events lib (src o1) r None = evs) as He by (unfold events, r; cbn; apply firstn_all).
  assert (yields evs = chunks num s1) as Hy
    by (apply (result_yields (src o1) s1); auto; exact I).
  exists (put (dig o1) (after zrow lib (src o1) None r) (fun _ => None)). split.
  - apply (sh_read (fun _ => None) o1 r); [constructor|exact Hn|]. right. rewrite He.
    assert (evs = write_ev lib (src o1 num)) as E by reflexivity. rewrite E. unfold write_ev.
    rewrite (wf_source_eq (src o1) s1 num Hw1 Hn). cbn [blocks fin done].
    assert (chunks num s1 <> []) as Hne.
    { rewrite chunks_step by (try exact Hn; exact Hs1). discriminate. }
    unfold end_ev. destruct (chunks num s1); [contradiction|]. unfold clean. now rewrite last_last.
  - unfold put. rewrite <- Hd, String.eqb_refl.
    assert (after zrow lib (src o1) None r = Some (s1, Some true)) as ->.
    { unfold after. rewrite He. apply (result_complete zrow (src o1) s1); auto. exact I. }
    unfold result_ev, cached_ev. clear. induction (chunks num s1); cbn; congruence.
Qed.
Context (stream : O -> list A).
Context (Hw : forall o, wf_source (src o) (stream o)) (Hs : forall o, stream o <> []).

Lemma shared_ok f : (forall o1 o2, dig o1 = dig o2 -> stream o1 = stream o2) ->
  shared f -> forall o, node_ok (stream o) (f (dig o)).
Proof.
  intros Hd H. induction H as [|f o r H IH Hn Hc]; intros o'; [exact I|].
  unfold put. destruct (String.eqb_spec (dig o') (dig o)) as [E|E]; [|apply IH].
  rewrite (Hd o' o E). apply (after_ok zrow (src o) (stream o)); auto.
  destruct Hc as [->|Hc]; [|exact Hc]. apply tables_clean. intros e He. eapply no_resize_tables; exact He.
Qed.

Lemma shared_yields f : (forall o1 o2, dig o1 = dig o2 -> stream o1 = stream o2) ->
  shared f -> forall o md num, (0 < num)%nat ->
  yields (result_ev lib md (src o) num (f (dig o))) = chunks num (stream o)
  /\ failure (result_ev lib md (src o) num (f (dig o))) = None.
Proof.
  intros Hd H o md num Hn. apply (result_yields (src o) (stream o)); auto. apply shared_ok; auto.
Qed.

End File.
Arguments file A : clear implicits.

(* ------------------------------------------------------------------ *)
(** * LineSource objects *)
Local Open Scope R_scope.

(** LineSource with coherent monopoles: its attributes.  [lo_signal] is the
    signal's usignal(up) for rms 1. *)
Record line_obj := mkLine {
  lo_mics : list v3; lo_signal : list R; lo_rms : R; lo_samples : nat; lo_fs : R; lo_c : R;
  lo_loc : v3; lo_start_t : R; lo_start : R; lo_up : nat; lo_dir : v3; lo_strength : list R;
  lo_length : R; lo_num : nat }.

(** Distances and first indices of the monopoles, sources.py:1656-1682. *)
Definition line_geom (o : line_obj) : list (list R * list R) :=
  let dist := lo_length o / INR (lo_num o) in
  map (fun s =>
         let p := vadd (lo_loc o) (vscale (dist * INR s) (vunit (lo_dir o))) in
         let rm := map (fun m => vnorm (vsub p m)) (lo_mics o) in
         (rm, map (fun r => (- r / lo_c o - lo_start_t o + lo_start o) * lo_fs o) rm))
      (seq 0 (lo_num o)).

(** LineSource.result, sources.py:1636-1707. *)
Definition line_result (o : line_obj) (num : nat) : trace (list R) :=
  fst (line_source (List.length (lo_mics o)) (lo_up o) (repeat (lo_signal o) (lo_num o)) (lo_strength o)
         (line_geom o) (lo_samples o) num (lo_rms o)).

(** What the digest is computed from, sources.py:1621-1634: mics, signal, loc,
    env, start_t, start, up, direction, source_strength, coherence (constant
    here); [length] and [num_sources] are not among them. *)
Definition line_key (o : line_obj) :=
  (lo_mics o, (lo_signal o, lo_rms o, lo_samples o, lo_fs o), lo_loc o, lo_c o, lo_start_t o, lo_start o,
   lo_up o, lo_dir o, lo_strength o).

(** A monopole at distance 1 and, with num_sources = 2, another at distance 2. *)
Definition line_example (num : nat) : line_obj :=
  mkLine [V3 0 0 0] [1; 1] 1 2 1 1 (V3 1 0 0) 0 1 1 (V3 1 0 0) [1; 1] 2 num.

(* ------------------------------------------------------------------ *)
(** * Calib objects *)

(** Calib with a source, calib.py:23-173; [ca_data] are the factors of all
    channels of the calibration file. *)
Record calib_obj := mkCalib { ca_node : gen_node; ca_src : source (list Z); ca_data : list Z; ca_invalid : list Z }.
Definition calib_out (o : calib_obj) (num : nat) : trace (list Z) :=
  calib_result Z.mul (ca_data o) (ca_invalid o) (ca_node o) (ca_src o) num.
(** Digest attributes, calib.py:101: source.digest, data. *)
Definition calib_key (o : calib_obj) := (ca_node o, ca_src o, ca_data o).
