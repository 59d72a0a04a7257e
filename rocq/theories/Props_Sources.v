(** Properties C01, C02, C19, C54, C55 (in-memory sources, calibration,
    microphone geometry).  Only theorem statements; proofs are in Sources.v.
    Specification vocabulary: [delivers num s t] (Stream.v: the trace [t] ends
    normally, its blocks concatenate to [s], every block has [num] rows except
    the last, none is empty), [wf_source src s] (the same for every [num >= 1]),
    [sliced], [keep_valid], [rowmul] (Sources.v). *)
From Coq Require Import List Arith Lia ZArith Bool.
From Verif Require Import Stream Sources.
Import ListNotations.

(** C01.  TimeSamples.result(num) delivers the data, or the calibrated data;
    it refuses an empty array and a calibration of the wrong size. *)
Theorem C01_time_samples {V} (mul : V -> V -> V) nch (data : list (list V)) num :
  0 < num ->
  Forall (fun r => length r = nch) data ->
  (data <> [] -> delivers num data (time_samples_result mul nch data None num))
  /\ (forall fac, data <> [] -> length fac = nch ->
        delivers num (map (fun r => rowmul mul r fac) data)
          (time_samples_result mul nch data (Some (mkCalib (length fac) fac)) num))
  /\ (forall fac, data <> [] -> length fac <> nch ->
        time_samples_result mul nch data (Some (mkCalib (length fac) fac)) num = raise ValueError)
  /\ (forall cal, data = [] -> time_samples_result mul nch data cal num = raise OSError).
Proof. exact (time_samples_spec mul nch data num). Qed.
Print Assumptions C01_time_samples.

Example C01_case :
  0 < 2 /\ Forall (fun r => length r = 2) [[1;2];[3;4];[5;6]]%Z
  /\ time_samples_result Z.mul 2 [[1;2];[3;4];[5;6]]%Z (Some (mkCalib 2 [10;100]%Z)) 2
     = done [[[10;200];[30;400]];[[50;600]]]%Z.
Proof. repeat split; auto. Qed.

(** C02.  MaskedTimeSamples.result(num) delivers the rows data[start:stop] on
    the valid channels, calibrated per channel.  At least one channel must be
    valid (otherwise NumPy refuses the empty index array, last clause). *)
Theorem C02_masked_time_samples {V} (mul : V -> V -> V) total (data : list (list V))
    start stop invalid num :
  0 < num ->
  Forall (fun r => length r = total) data ->
  let rows := map (keep_valid invalid) (sliced start stop data) in
  let valid := length (keep_valid invalid (seq 0 total)) in
  let run := fun cal => masked_time_samples_result mul total data start stop invalid cal num in
  (sliced start stop data = [] -> forall cal, run cal = raise OSError)
  /\ (sliced start stop data <> [] ->
      (invalid = [] \/ valid <> 0) ->
      delivers num rows (run None)
      /\ (forall fac, length fac = total ->
            delivers num (map (fun r => rowmul mul r (keep_valid invalid fac)) rows)
              (run (Some (mkCalib (length fac) fac))))
      /\ (forall fac, length fac = valid -> length fac <> total ->
            delivers num (map (fun r => rowmul mul r fac) rows)
              (run (Some (mkCalib (length fac) fac))))
      /\ (forall fac, length fac <> valid -> length fac <> total -> fac <> [] ->
            run (Some (mkCalib (length fac) fac)) = raise ValueError)
      /\ masked_num_samples start stop (length data) = Z.of_nat (length rows))
  /\ (sliced start stop data <> [] -> invalid <> [] -> valid = 0 -> run None = raise IndexError).
Proof. exact (masked_time_samples_spec mul total data start stop invalid num). Qed.
Print Assumptions C02_masked_time_samples.

Example C02_case :
  let data := [[1;2;3];[4;5;6];[7;8;9];[10;11;12]]%Z in
  Forall (fun r => length r = 3) data
  /\ sliced (Some 1%Z) (Some (-1)%Z) data = [[4;5;6];[7;8;9]]%Z
  /\ masked_time_samples_result Z.mul 3 data (Some 1%Z) (Some (-1)%Z) [1%Z]
       (Some (mkCalib 3 [1;10;100]%Z)) 1 = done [[[4;600]];[[7;900]]]%Z.
Proof. repeat split; repeat constructor. Qed.

(** C19.  UncorrelatedNoiseSource.result(num) delivers the complete signal
    matrix; a seed array of the wrong size is refused. *)
Theorem C19_uncorrelated_noise {A} seed_size nchan (signal : list A) num :
  0 < num ->
  (seed_size = 0 \/ seed_size = nchan ->
     delivers num signal (uncorrelated_noise_result seed_size nchan signal num))
  /\ (seed_size <> 0 -> seed_size <> nchan ->
     uncorrelated_noise_result seed_size nchan signal num = raise ValueError).
Proof.
  exact (fun H => conj (uncorrelated_noise_delivers seed_size nchan signal num H)
                       (uncorrelated_noise_bad_seed seed_size nchan signal num)).
Qed.
Print Assumptions C19_uncorrelated_noise.

Example C19_case : uncorrelated_noise_result 2 2 [1;2;3;4;5]%Z 2 = done [[1;2];[3;4];[5]]%Z
  /\ uncorrelated_noise_result 0 2 [1;2;3;4]%Z 2 = done [[1;2];[3;4]]%Z.
Proof. split; reflexivity. Qed.

(** C54.  Calib multiplies every channel by its factor, or refuses before any
    output.  [node_columns g] is the number of columns of the source's blocks
    ([g]: what kind of object the source is, through any depth of InOut
    objects; num_channels for time data, num_channels*num_freqs for spectra). *)
Theorem C54_calib {V} (mul : V -> V -> V) data invalid g (src : source (list V)) s :
  wf_source src s ->
  Forall (fun r => length r = node_columns g) s ->
  (invalid = [] \/ keep_valid invalid data <> []) ->
  (length (keep_valid invalid data) = node_columns g ->
     wf_source (calib_result mul data invalid g src)
       (map (fun r => rowmul mul r (keep_valid invalid data)) s))
  /\ (length (keep_valid invalid data) <> node_columns g ->
     forall num, calib_result mul data invalid g src num = raise ValueError).
Proof. exact (calib_spec mul data invalid g src s). Qed.
Print Assumptions C54_calib.

Example C54_case :
  let s := [[1;2];[3;4];[5;6]]%Z in
  let src := time_samples_result Z.mul 2 s None in
  wf_source src s /\ Forall (fun r => length r = node_columns (InOutNode (TimeOrigin 2))) s
  /\ keep_valid [1%Z] [7;8;9]%Z = [7;9]%Z
  /\ calib_result Z.mul [7;8;9]%Z [1%Z] (InOutNode (TimeOrigin 2)) src 2
     = done [[[7;18];[21;36]];[[35;54]]]%Z.
Proof.
  intros s src. split; [|split; [|split]]; try reflexivity.
  - intros num Hn. apply time_samples_delivers; auto. discriminate.
  - repeat constructor.
Qed.

(** C55.  MicGeom.pos keeps exactly the columns that are not invalid (in order)
    and num_mics counts them; with every microphone invalid an IndexError is
    raised instead. *)
Theorem C55_micgeom {A} (pos_total : list A) invalid :
  ((invalid = [] \/ keep_valid invalid pos_total <> []) ->
     micgeom_pos pos_total invalid = inl (keep_valid invalid pos_total)
     /\ micgeom_num_mics pos_total invalid = inl (length (keep_valid invalid pos_total)))
  /\ (invalid <> [] -> keep_valid invalid pos_total = [] ->
     micgeom_pos pos_total invalid = inr IndexError).
Proof. exact (micgeom_spec pos_total invalid). Qed.
Print Assumptions C55_micgeom.

Example C55_case : micgeom_pos [10;11;12;13]%Z [2;0;7]%Z = inl [11;13]%Z
  /\ keep_valid [2;0;7]%Z [10;11;12;13]%Z <> [].
Proof. split; [reflexivity|discriminate]. Qed.
