(** C122: what is read from a file written by WriteH5. *)
From Coq Require Import List Arith Lia ZArith Bool Reals Lra.
From Verif Require Import Stream Sources MaskedOut Collect Grids Rounding Faulty Store.
Import ListNotations.
Local Open Scope R_scope.

(** Spec.  Numbers that fit into a float32: at most 24 bits times a power of two from 2^-149 on, below 2^128. *)
Definition fits_single (y : R) : Prop :=
  exists (z k : Z), (Z.abs z <= 2 ^ 24)%Z /\ (-149 <= k)%Z /\ y = IZR z * powerRZ 2 k /\ Rabs y < powerRZ 2 128.
(** Rows of [w] numbers; a number of a list of rows. *)
Definition width (w : nat) (rows : list (list R)) : Prop := Forall (fun r => length r = w) rows.
Definition number {A} (rows : list (list A)) (i c : nat) : option A :=
  match nth_error rows i with Some r => nth_error r c | None => None end.
(** A stream of finite numbers, as read. *)
Definition as_read (rows : list (list R)) : list (list (option R)) := map (map Some) rows.

Lemma number_map {A B} (f : A -> B) rows i c : number (map (map f) rows) i c = option_map f (number rows i c).
Proof.
  unfold number. rewrite nth_error_map. destruct (nth_error rows i) as [r|]; [|reflexivity]. cbn [option_map]. now rewrite nth_error_map.
Qed.
Lemma map_nil {A B} (f : A -> B) l : map f l <> [] <-> l <> [].
Proof. destruct l; cbn; split; congruence. Qed.

(** With precision 'float64' the file gives back the stream: sampling rate, channels, number of samples and every number,
    for every block size of the writer [w] and of the reader [num]; written by save() or by running result(). *)
Theorem C122_float64 : forall rate nch (src : source (list R)) s flag w num,
  wf_source src s -> s <> [] -> (0 < w)%nat -> (0 < num)%nat -> (forall j, flag j = true) ->
  forall f, f = saved Float64 rate nch src \/ f = passed Float64 rate nch flag (-1) src w ->
  read_freq f = rate /\ read_channels f = nch /\ read_samples f = length s /\ delivers num (as_read s) (read_result f num).
Proof.
  intros rate nch src s flag w num W Hs Hw Hn Hf f F.
  assert (E : h_rows f = as_read s).
  { destruct F as [-> | ->]; [now rewrite (saved_rows _ _ _ src s W)|]. rewrite (passed_rows _ _ _ _ _ src s w W) by (auto; lia). reflexivity. }
  assert (read_freq f = rate /\ read_channels f = nch) as [A B] by (destruct F as [-> | ->]; split; reflexivity).
  split; [exact A|]. split; [exact B|]. split.
  - unfold read_samples. rewrite E. apply map_length.
  - rewrite <- E. apply read_delivers; [exact Hn|]. rewrite E. unfold as_read. now apply map_nil.
Qed.

(** A run that is limited or stopped early leaves the first samples of the stream, all that the limit allows if the flag is not cleared. *)
Theorem C122_stopped : forall rate nch (src : source (list R)) s flag stotal w num,
  wf_source src s -> (0 < w)%nat -> (0 < num)%nat -> (-1 <= stotal)%Z ->
  let f := passed Float64 rate nch flag stotal src w in
  exists k, (stotal = -1 \/ Z.of_nat k <= stotal)%Z
    /\ ((forall j, flag j = true) -> (k = length s)%nat \/ (0 <= stotal /\ Z.of_nat k = Z.min stotal (Z.of_nat (length s)))%Z)
    /\ (k <= length s)%nat /\ read_samples f = k
    /\ (firstn k s <> [] -> delivers num (as_read (firstn k s)) (read_result f num))
    /\ (firstn k s = [] -> read_result f num = raise OSError).
Proof.
  intros rate nch src s flag stotal w num W Hw Hn Hs f.
  destruct (write_h5_spec flag stotal src s w W Hw Hs) as (K & _ & _ & _ & F & _ & Q).
  assert (E : h_rows f = as_read (limit stotal (firstn (K * w) s))) by (unfold f, passed; cbn [h_rows]; now rewrite F).
  set (l := limit stotal (firstn (K * w) s)) in *.
  assert (L : l = firstn (length l) s).
  { unfold l, limit. destruct (stotal =? -1)%Z.
    - rewrite firstn_length. destruct (Nat.le_gt_cases (K * w) (length s)); [now rewrite Nat.min_l by lia|].
      rewrite Nat.min_r by lia. now rewrite !firstn_all2 by lia.
    - rewrite firstn_firstn, firstn_length. destruct (Nat.le_gt_cases (Nat.min (Z.to_nat stotal) (K * w)) (length s)) as [G|G].
      + now rewrite (Nat.min_l _ (length s)) by exact G.
      + rewrite (Nat.min_r _ (length s)) by lia. now rewrite !firstn_all2 by lia. }
  exists (length l). split; [|split; [|split; [|split; [|split]]]].
  - unfold l, limit. destruct (Z.eqb_spec stotal (-1)); [now left|right]. rewrite firstn_length. lia.
  - intros Hf. unfold l, limit. destruct (Z.eqb_spec stotal (-1)) as [->|N].
    + left. rewrite firstn_length. destruct Q as [Q|[[_ Q]|[Q _]]]; [lia|rewrite Hf in Q; discriminate|lia].
    + right. rewrite !firstn_length. destruct Q as [Q|[[_ Q]|[_ Q]]]; [lia|rewrite Hf in Q; discriminate|lia].
  - rewrite L, firstn_length. lia.
  - unfold read_samples. rewrite E. apply map_length.
  - rewrite <- L. intros N. rewrite <- E. apply read_delivers; [exact Hn|]. rewrite E. unfold as_read. now apply map_nil.
  - rewrite <- L. intros N. apply read_empty. now rewrite E, N.
Qed.

(** Reading a part of the file, without some channels, gives what MaskedTimeOut makes of the stream that was written. *)
Theorem C122_masked : forall rate nch (src : source (list R)) s start stop invalid garbage num,
  wf_source src s -> width nch s -> (0 < num)%nat -> (invalid = [] \/ keep_valid invalid (seq 0 nch) <> []) ->
  let out := masked_time_out_result nch (length s) start stop invalid garbage src num in
  let inp := read_masked (saved Float64 rate nch src) start stop invalid num in
  (exists rows, rows <> [] /\ delivers num rows out /\ delivers num (as_read rows) inp)
  \/ (out = raise OSError /\ inp = raise OSError).
Proof.
  intros rate nch src s start stop invalid garbage num W Hw Hn Hv out inp.
  assert (E : h_rows (saved Float64 rate nch src) = as_read s) by (now rewrite (saved_rows _ _ _ src s W)).
  assert (Hw' : Forall (fun r => length r = nch) (as_read s)).
  { unfold as_read. apply Forall_map. eapply Forall_impl; [|exact Hw]. intros r Hr. now rewrite map_length. }
  assert (SM : sliced start stop (as_read s) = as_read (sliced start stop s)) by apply Faulty.sliced_map.
  destruct (masked_time_out_spec nch start stop invalid garbage src s W Hw Hv) as [O1 O2].
  destruct (masked_time_samples_spec (fun a _ : option R => a) nch (as_read s) start stop invalid num Hn Hw') as (I1 & I2 & _).
  rewrite SM in I1, I2. unfold inp, read_masked. change (h_width (saved Float64 rate nch src)) with nch. rewrite E.
  destruct (sliced start stop s) as [|r rs] eqn:S.
  - right. split; [now apply O2|]. now apply I1.
  - left. exists (map (keep_valid invalid) (r :: rs)). split; [discriminate|]. split; [apply O1; [discriminate|exact Hn]|].
    destruct I2 as [I2 _]; [discriminate| |].
    + destruct Hv as [-> | Hv]; [now left|right]. intros L. apply Hv. now apply length_zero_iff_nil.
    + replace (as_read (map (keep_valid invalid) (r :: rs))) with (map (keep_valid invalid) (as_read (r :: rs))); [exact I2|].
      unfold as_read. rewrite !map_map. apply map_ext. intros a. apply Faulty.keep_valid_map.
Qed.

(** With the default precision every number becomes the nearest float32: it fits, no number that fits is nearer, the difference is
    at most 2^-24 of the number (or 2^-150), order is kept, and a number that fits is not changed. *)
Theorem C122_float32_partial : forall rate nch (src : source (list R)) s num,
  wf_source src s -> s <> [] -> (0 < num)%nat -> (forall i c x, number s i c = Some x -> Rabs x < powerRZ 2 127) ->
  let f := saved Float32 rate nch src in
  exists t, delivers num (as_read t) (read_result f num)
    /\ read_freq f = rate /\ read_channels f = nch /\ read_samples f = length s /\ length t = length s
    /\ (forall i c, number s i c = None <-> number t i c = None)
    /\ (forall i c x y, number s i c = Some x -> number t i c = Some y ->
          fits_single y /\ (forall y', fits_single y' -> Rabs (y - x) <= Rabs (y' - x))
          /\ Rabs (y - x) <= powerRZ 2 (-24) * Rabs x + powerRZ 2 (-150)
          /\ (fits_single x -> y = x))
    /\ (forall i c j d x x' y y', number s i c = Some x -> number s j d = Some x' ->
          number t i c = Some y -> number t j d = Some y' -> x <= x' -> y <= y').
Proof.
  intros rate nch src s num W Hs Hn Hb f.
  assert (E : h_rows f = map (map f32) s) by (unfold f; now rewrite (saved_rows _ _ _ src s W)).
  set (t := map (map (fun x => finite (f32 x))) s).
  assert (T : as_read t = map (map f32) s).
  { unfold as_read, t. rewrite map_map. apply map_ext_in. intros r Hr. rewrite map_map. apply map_ext_in. intros x Hx.
    apply In_nth_error in Hr. destruct Hr as [i Hi]. apply In_nth_error in Hx. destruct Hx as [c Hc].
    destruct (f32_finite x) as [y Y]; [|now rewrite Y]. apply (Hb i c). unfold number. now rewrite Hi. }
  assert (V : forall i c x y, number s i c = Some x -> number t i c = Some y -> f32 x = Some y).
  { intros i c x y X Y. unfold t in Y. rewrite number_map, X in Y. cbn [option_map] in Y. apply some_inj in Y.
    destruct (f32_finite x (Hb i c x X)) as [z Z]. rewrite Z in Y |- *. cbn [finite] in Y. now rewrite Y. }
  exists t. split; [|split; [reflexivity|split; [reflexivity|split; [|split; [|split; [|split]]]]]].
  - rewrite T, <- E. apply read_delivers; [exact Hn|]. rewrite E. now apply map_nil.
  - unfold read_samples. rewrite E. apply map_length.
  - apply map_length.
  - intros i c. unfold t. rewrite number_map. destruct (number s i c); cbn; split; congruence.
  - intros i c x y X Y. specialize (V i c x y X Y). split; [exact (f32_storable x y V)|]. split; [intros y'; exact (f32_nearest x y y' V)|].
    split; [exact (f32_err x y V)|]. intros Q. rewrite (f32_exact x Q) in V. now injection V.
  - intros i c j d x x' y y' X X' Y Y' L. exact (f32_mono x x' y y' L (V i c x y X Y) (V j d x' y' X' Y')).
Qed.

(** A copy of a copy is the copy: writing once more what was read loses nothing, with either precision. *)
Theorem C122_copy : forall p rate nch (src : source (list R)) s num,
  wf_source src s -> (0 < num)%nat -> (forall i c x, number s i c = Some x -> Rabs x < powerRZ 2 127) ->
  exists t, (forall i c, number s i c = None <-> number t i c = None) /\
    h_rows (saved p rate nch src) = as_read t
    /\ forall src', wf_source src' t -> saved p rate nch src' = saved p rate nch src.
Proof.
  intros p rate nch src s num W Hn Hb.
  assert (E : h_rows (saved p rate nch src) = map (map (store p)) s) by apply (saved_rows _ _ _ src s W).
  set (t := map (map (fun x => finite (store p x))) s).
  assert (T : as_read t = map (map (store p)) s).
  { unfold as_read, t. rewrite map_map. apply map_ext_in. intros r Hr. rewrite map_map. apply map_ext_in. intros x Hx.
    apply In_nth_error in Hr. destruct Hr as [i Hi]. apply In_nth_error in Hx. destruct Hx as [c Hc].
    destruct p; [|reflexivity]. cbn [store].
    destruct (f32_finite x) as [y Y]; [|now rewrite Y]. apply (Hb i c). unfold number. now rewrite Hi. }
  exists t. split; [|split].
  - intros i c. unfold t. rewrite number_map. destruct (number s i c); cbn; split; congruence.
  - now rewrite E.
  - intros src' W'.
    assert (E' : h_rows (saved p rate nch src') = h_rows (saved p rate nch src)).
    { rewrite (saved_rows _ _ _ src' t W'), E, <- T. unfold as_read. apply map_ext_in. intros r Hr. apply map_ext_in. intros y Hy.
      unfold t in Hr. apply in_map_iff in Hr. destruct Hr as (r0 & <- & Hr0). apply in_map_iff in Hy. destruct Hy as (x & <- & Hx).
      apply In_nth_error in Hr0. destruct Hr0 as [i Hi]. apply In_nth_error in Hx. destruct Hx as [c Hc].
      assert (B : Rabs x < powerRZ 2 127) by (apply (Hb i c); unfold number; now rewrite Hi).
      destruct p; [|reflexivity]. cbn [store]. destruct (f32_finite x B) as [y Y]. rewrite Y. cbn [finite].
      exact (store_again Float32 x y Y). }
    unfold saved in *. cbn [h_rows] in E'. now rewrite E'.
Qed.

(** Samples of 16 or 24 bits, whole or scaled to one, are kept by the default precision. *)
Theorem C122_integers : forall (z b : Z), (Z.abs z <= 2 ^ 24)%Z -> (-149 <= b <= 100)%Z -> fits_single (IZR z * powerRZ 2 b).
Proof.
  intros z b Hz Hb. exists z, b. split; [exact Hz|]. split; [lia|]. split; [reflexivity|].
  fold (pow2 b). rewrite Rabs_mult, pow2_abs, <- abs_IZR. apply IZR_le in Hz. rewrite IZR_pow2 in Hz by lia.
  apply Rle_lt_trans with (pow2 24 * pow2 b); [apply Rmult_le_compat_r; [left; apply pow2_pos|exact Hz]|].
  rewrite <- pow2_add. fold (pow2 128). apply Rle_lt_trans with (pow2 124); [apply pow2_le; lia|].
  apply Rlt_le_trans with (pow2 (124 + 1)); [|apply pow2_le; lia]. rewrite pow2_S. pose proof (pow2_pos 124). lra.
Qed.

(** The default precision does not keep a stream of float64 numbers: 2^24 + 1 is read as 2^24, 2^128 as infinity. *)
Theorem C122_default_refuted :
  exists (src : source (list R)) s, wf_source src s /\ width 1 s
    /\ (forall num, (0 < num)%nat -> ~ delivers num (as_read s) (read_result (saved Float32 48000 1 src) num))
    /\ number (h_rows (saved Float32 48000 1 src)) 0 0 = Some (Some (IZR (2 ^ 24)))
    /\ number (h_rows (saved Float32 48000 1 src)) 1 0 = Some None
    /\ number s 0 0 = Some (IZR (2 ^ 24 + 1)).
Proof.
  set (s := [[IZR (2 ^ 24 + 1)]; [powerRZ 2 128]]).
  set (src := fun num => done (chunks num s)).
  assert (W : wf_source src s) by (intros num Hn; now apply delivers_iff).
  assert (A : f32 (IZR (2 ^ 24 + 1)) = Some (IZR (2 ^ 24))).
  { unfold f32. assert (Q : pow2 24 <= Rabs (IZR (2 ^ 24 + 1)) < pow2 (24 + 1)).
    { rewrite Rabs_pos_eq by (apply IZR_le; lia). rewrite !pow2_Z by lia. split; [apply IZR_le; lia|apply IZR_lt; lia]. }
    destruct (Rlt_dec _ (pow2 (-126))) as [L|_].
    { exfalso. assert (pow2 (-126) <= pow2 24) by (apply pow2_le; lia). lra. }
    cbv zeta. rewrite (rne_binade 24 _ 24 Q). change (24 - 24 + 1)%Z with 1%Z.
    replace (pow2 1) with 2 by (rewrite pow2_Z by lia; reflexivity).
    replace (IZR (2 ^ 24 + 1) / 2) with (IZR (2 ^ 23) + 1 / 2).
    2:{ rewrite plus_IZR. replace (2 ^ 24)%Z with (2 ^ 23 * 2)%Z by reflexivity. rewrite mult_IZR. lra. }
    rewrite py_round_tie. replace (Z.even (2 ^ 23)) with true by reflexivity. cbv iota.
    replace (IZR (2 ^ 23) * 2) with (IZR (2 ^ 24)) by (rewrite <- mult_IZR; reflexivity).
    destruct (Rlt_dec _ (pow2 128)) as [_|N]; [reflexivity|]. exfalso. apply N. rewrite Rabs_pos_eq by (apply IZR_le; lia).
    rewrite pow2_Z by lia. apply IZR_lt. reflexivity. }
  assert (B : f32 (powerRZ 2 128) = None).
  { fold (pow2 128). unfold f32. rewrite pow2_abs. destruct (Rlt_dec (pow2 128) (pow2 (-126))) as [L|_]; [apply pow2_lt_inv in L; lia|].
    cbv zeta. replace (rne 24 (pow2 128)) with (pow2 128).
    - rewrite pow2_abs. destruct (Rlt_dec (pow2 128) (pow2 128)); [lra|reflexivity].
    - pose proof (rne_exact 24 ltac:(lia) 1 128 ltac:(lia)) as Q. rewrite Rmult_1_l in Q. now rewrite Q. }
  assert (E : h_rows (saved Float32 48000 1 src) = [[Some (IZR (2 ^ 24))]; [None]]).
  { rewrite (saved_rows _ _ _ src s W). unfold s. cbn [map store]. now rewrite A, B. }
  exists src, s. split; [exact W|]. split; [repeat constructor|]. split; [|split; [|split]].
  - intros num Hn D. assert (D' : delivers num (h_rows (saved Float32 48000 1 src)) (read_result (saved Float32 48000 1 src) num)).
    { apply read_delivers; [exact Hn|]. now rewrite E. }
    destruct D as (_ & D & _). destruct D' as (_ & D' & _). rewrite D in D'. rewrite E in D'. unfold as_read, s in D'. cbn [map] in D'. discriminate D'.
  - now rewrite E.
  - now rewrite E.
  - reflexivity.
Qed.

(** A stream without samples can be written, but its file cannot be read. *)
Theorem C122_nothing_refuted : forall p rate nch num,
  exists src : source (list R), wf_source src [] /\ read_samples (saved p rate nch src) = 0%nat
    /\ read_result (saved p rate nch src) num = raise OSError.
Proof.
  intros p rate nch num. assert (W : wf_source (fun k : nat => done (@nil (list (list R)))) []).
  { intros k Hk. apply delivers_iff; [exact Hk|]. now rewrite chunks_nil. }
  exists (fun k => done []). split; [exact W|]. split.
  - unfold read_samples. now rewrite (saved_rows _ _ _ _ [] W).
  - apply read_empty. now rewrite (saved_rows _ _ _ _ [] W).
Qed.

(** Three samples of two channels. *)
Example C122_case :
  let s := [[IZR 1; IZR 2]; [IZR (-3); IZR 4 * powerRZ 2 (-15)]; [0; IZR 7]] in
  let src := fun num => done (chunks num s) in
  wf_source src s /\ width 2 s /\ s <> [] /\ keep_valid [0%Z] (seq 0 2) <> []
  /\ (forall i c x, number s i c = Some x -> Rabs x < powerRZ 2 127).
Proof.
  cbv zeta. split; [intros num Hn; now apply delivers_iff|]. split; [repeat constructor|]. split; [discriminate|]. split; [discriminate|].
  fold (pow2 127). assert (P : 8 < pow2 127).
  { replace 8 with (pow2 3) by (rewrite pow2_Z by lia; reflexivity). apply Rlt_le_trans with (pow2 (3 + 1)); [rewrite (pow2_S 3); pose proof (pow2_pos 3); lra|apply pow2_le; lia]. }
  assert (Q : 0 < powerRZ 2 (-15) <= 1).
  { fold (pow2 (-15)). split; [apply pow2_pos|]. replace 1 with (pow2 0) by reflexivity. apply pow2_le. lia. }
  intros i c x. unfold number. destruct i as [|[|[|i]]]; cbn [nth_error].
  4: destruct i; discriminate.
  all: destruct c as [|[|c]]; cbn [nth_error]; try (intros H; apply some_inj in H; subst x; apply Rabs_def1; lra).
  all: destruct c; discriminate.
Qed.

Print Assumptions C122_float64.
Print Assumptions C122_stopped.
Print Assumptions C122_masked.
Print Assumptions C122_float32_partial.
Print Assumptions C122_copy.
Print Assumptions C122_integers.
Print Assumptions C122_default_refuted.
Print Assumptions C122_nothing_refuted.
