(** Properties C20, C21, C22, C62, C63 (sound sources).  Only theorem
    statements; proofs are in PointSources.v.  Specification vocabulary:
    [delivers] (Stream.v); [received] (the delayed and attenuated signal),
    [rnd] (rounding of an index), [first_ind] (the delayed index of the first
    sample), [allowed] (the samples the signal has), [monopoles], [at_rest],
    [speed_below] (PointSources.v). *)
From Coq Require Import List Arith Lia ZArith Bool Reals Lra.
From Verif Require Import Stream Sources Wav PointSources.
Import ListNotations.
Local Open Scope R_scope.

(** C20, partial.  PointSource.result(num) yields exactly [ns] rows in full
    blocks, row n being the delayed, attenuated signal, if the recording starts
    before the wave front is at the microphones (index of the first sample
    below [up - 1/2]) and, when the signal is looped, at most one signal length
    before.  Nothing outside the signal array is read: the result does not
    depend on [heap]. *)
Theorem C20_point_source_partial heap signal zeros rm c start_t start fs up ns out0 num :
  (0 < num)%nat -> (0 < up)%nat -> (0 < ns)%nat -> length out0 = num ->
  length signal = (up * ns)%nat -> rm <> [] ->
  let ind0 := first_ind c start_t start fs up rm in
  (forall i, In i ind0 -> i < INR up - 1 / 2) ->
  (zeros = false -> forall i, In i ind0 -> - INR (up * ns) - 3 / 2 < i) ->
  delivers num (map (received signal zeros rm ind0 up) (seq 0 ns))
    (point_source heap signal zeros rm ind0 up ns out0 num).
Proof. exact (point_source_spec heap signal zeros rm c start_t start fs up ns out0 num). Qed.
Print Assumptions C20_point_source_partial.

(** C20.  The index is the nearest up-sampled one from the start of the signal
    on, but half to one and a half up-sampled values late before (looped
    part). *)
Theorem C20_rounding x :
  (- (1 / 2) <= x -> Rabs (IZR (rnd x) - x) <= 1 / 2)
  /\ (x < - (1 / 2) -> 1 / 2 <= IZR (rnd x) - x < 3 / 2).
Proof. exact (rnd_spec x). Qed.
Print Assumptions C20_rounding.

(** C20 is false in general.  In 'zeros' mode, a recording that starts one
    block after the wave front yields at least one block of rows too many ... *)
Theorem C20_late_start_refuted heap signal rm c start_t start fs up ns out0 num :
  (0 < num)%nat -> (0 < up)%nat -> (0 < ns)%nat -> length out0 = num -> rm <> [] ->
  (forall i, In i (first_ind c start_t start fs up rm) -> INR (up * num) <= i) ->
  exists t, point_source heap signal true rm (first_ind c start_t start fs up rm) up ns out0 num = t
    /\ fin t = Finished /\ (ns + num <= length (concat (blocks t)))%nat.
Proof. exact (point_source_late_start heap signal rm c start_t start fs up ns out0 num). Qed.
Print Assumptions C20_late_start_refuted.

(** ... and in both modes whatever lies behind the signal in memory can come
    out. *)
Theorem C20_point_source_refuted :
  (exists heap signal rm ind0 up ns num t, length signal = (up * ns)%nat /\ (0 < ns)%nat /\
     t = point_source heap signal true rm ind0 up ns (repeat [] num) num /\
     fin t = Finished /\ (ns < length (concat (blocks t)))%nat)
  /\ (exists signal rm ind0 up ns num, length signal = (up * ns)%nat /\
     forall v, exists heap,
       concat (blocks (point_source heap signal false rm ind0 up ns (repeat [] num) num)) = [[v]]).
Proof. exact point_source_refuted. Qed.
Print Assumptions C20_point_source_refuted.

Example C20_case :
  let ind0 := first_ind 343 0 0 10 2 [343; 686] in
  (forall i, In i ind0 -> i < INR 2 - 1 / 2)
  /\ (forall i, In i ind0 -> - INR (2 * 30) - 3 / 2 < i).
Proof.
  assert (Eh : INR (2 * 30) = 60) by (rewrite INR_IZR_INZ; reflexivity).
  assert (E2 : INR 2 = 2) by reflexivity.
  intros ind0. rewrite Eh. unfold ind0, first_ind. rewrite E2.
  split; intros i [<-|[<-|[]]]; lra.
Qed.

(** C21.  MovingPointSource and SphericalHarmonicSource ([post]: its transform
    of each block) yield the rows the signal allows, in full blocks. *)
Theorem C21_checked_flush {A} (f : nat -> option A) post num n s :
  (0 < num)%nat -> allowed f n s ->
  sample_loop f post (flush_checked post) num n 0 [] = map post (chunks num s)
  /\ delivers num s (done (chunks num s)).
Proof.
  exact (fun Hn Ha => conj (sample_loop_checked f post num n s Hn Ha) (delivers_chunks num s Hn)).
Qed.
Print Assumptions C21_checked_flush.

(** C21, partial.  PointSourceDipole, MovingPointSourceDipole, LineSource and
    MovingLineSource do so up to a final empty block, which comes exactly when
    [num] divides the number of rows. *)
Theorem C21_always_flush_partial {A} (f : nat -> option A) num n s :
  (0 < num)%nat -> allowed f n s ->
  sample_loop f (fun b => b) flush_always num n 0 []
  = chunks num s ++ (if (length s mod num =? 0)%nat then [[]] else []).
Proof. exact (sample_loop_always f num n s). Qed.
Print Assumptions C21_always_flush_partial.

Theorem C21_empty_block_refuted :
  exists (f : nat -> option Z) s n num, (0 < num)%nat /\ allowed f n s /\
    In [] (sample_loop f (fun b => b) flush_always num n 0 []).
Proof. exact sample_loop_refuted. Qed.
Print Assumptions C21_empty_block_refuted.

Example C21_case :
  let f k := nth_error [1;2;3;4;5]%Z k in
  allowed f 5 [1;2;3;4;5]%Z /\ allowed f 9 [1;2;3;4;5]%Z
  /\ sample_loop f (fun b => b) flush_always 2 9 0 [] = [[1;2];[3;4];[5]]%Z.
Proof.
  intros f. split; [|split; [|reflexivity]].
  - split; [cbn; lia|]. split; [reflexivity|]. cbn. lia.
  - split; [cbn; lia|]. split; [reflexivity|]. reflexivity.
Qed.

(** C22, partial.  With unit strengths every monopole of a LineSource radiates
    with the signal's rms, the user's signal object is unchanged, and so the
    next reading gives the same. *)
Theorem C22_line_source_partial nch up units strengths geom ns num rms :
  (length units <= length strengths)%nat -> (forall a, In a strengths -> a = 1) ->
  line_source nch up units strengths geom ns num rms
  = (monopoles nch up units (map (fun a => rms * a) (firstn (length units) strengths)) geom ns num, rms).
Proof. exact (line_source_unit_strengths nch up units strengths geom ns num rms). Qed.
Print Assumptions C22_line_source_partial.

(** C22 in general: monopole s radiates with the product of the first s+1
    strengths, and the product of all is left in the signal object. *)
Theorem C22_line_source_compounding nch up units strengths geom ns num rms :
  (length units <= length strengths)%nat ->
  line_source nch up units strengths geom ns num rms
  = (monopoles nch up units (map (fun s => rms * prod (firstn (S s) strengths)) (seq 0 (length units))) geom ns num,
     rms * prod (firstn (length units) strengths)).
Proof. exact (line_source_amplitudes nch up units strengths geom ns num rms). Qed.
Print Assumptions C22_line_source_compounding.

(** C22 is false of the code: the second reading of a line source with one
    monopole of strength 2 is twice the first. *)
Theorem C22_line_source_refuted :
  exists units strengths geom,
    let run := line_source 1 1 units strengths geom 1 1 in
    fst (run 1) = done [[[2]]; []]
    /\ fst (run (snd (run 1))) = done [[[4]]; []].
Proof. exact line_source_refuted. Qed.
Print Assumptions C22_line_source_refuted.

Theorem C22_strengths_refuted :
  exists nch up units strengths geom ns num rms,
    (length units <= length strengths)%nat
    /\ fst (line_source nch up units strengths geom ns num rms)
       = monopoles nch up units [rms * (1 / 2); rms * (1 / 4)] geom ns num
    /\ strengths = [1 / 2; 1 / 2] /\ rms = 1.
Proof. exact line_source_strengths_refuted. Qed.
Print Assumptions C22_strengths_refuted.

Example C22_case :
  (length [[1; 2]; [1; 2]] <= length [1; 1])%nat /\ (forall a, In a [1; 1] -> a = 1).
Proof. split; [cbn; lia|]. intros a [<-|[<-|[]]]; reflexivity. Qed.

(** C62.  For every trajectory slower than a third of the speed of sound, the
    emission time computed by the Newton iteration (at most [S iters] steps;
    100 in the code) is the retarded time x, up to q = 2 mu / (1 - mu) times
    the tolerance or what [S iters] contractions by q leave of the travel
    time; the distance used is accurate correspondingly.  (The code takes the
    radial Mach number from the direction of the source as seen from the
    origin, not from the microphone; this bound does not depend on it.) *)
Theorem C62_emission_time iters c0 epslim v mics ls :
  0 < c0 -> 0 <= v -> 3 * v < c0 -> 0 <= epslim ->
  (forall d m t, In (d, m, t) mics -> speed_below c0 v d m) ->
  emission_time (S iters) c0 epslim mics = inl ls ->
  let mu := v / c0 in
  let q := 2 * mu / (1 - mu) in
  0 <= q < 1 /\
  forall l, In l ls ->
    (exists d m t, In (d, m, t) mics /\ l_dist l = d /\ l_mach l = m /\ l_t l = t) /\
    forall x, x + l_dist l x / c0 = l_t l ->
      Rabs (l_te l - x) <= Rmax (q * epslim) (q ^ S iters * Rabs (l_dist l x / c0))
      /\ Rabs (l_rm l - l_dist l x) <= v * Rmax ((1 + q) * epslim) (q ^ iters * Rabs (l_dist l x / c0)).
Proof. exact (emission_time_spec iters c0 epslim v mics ls). Qed.
Print Assumptions C62_emission_time.

(** A source passing the microphone at 50 m/s, 2 m away at time 0. *)
Example C62_case :
  let d x := Rabs (50 * x + 2) in
  let m (_ : R) := 50 / 343 in
  speed_below 343 50 d m
  /\ (exists x, x + d x / 343 = 10)
  /\ exists ls, emission_time 100 343 (1 / 10 / 16 / 48000) [(d, m, 10)] = inl ls.
Proof.
  intros d m. split; [split|split].
  - intros a b. unfold d. apply Rle_trans with (1 := Rabs_triang_inv2 _ _).
    replace (50 * a + 2 - (50 * b + 2)) with (50 * (a - b)) by ring.
    rewrite Rabs_mult, (Rabs_right 50) by lra. lra.
  - intros a. unfold m. rewrite Rabs_right; lra.
  - exists ((10 - 2 / 343) / (1 + 50 / 343)). unfold d.
    rewrite Rabs_right; [field|].
    apply Rle_ge. apply Rplus_le_le_0_compat; [|lra]. apply Rmult_le_pos; [lra|].
    unfold Rdiv at 1. apply Rmult_le_pos; [lra|]. left. apply Rinv_0_lt_compat. lra.
  - unfold emission_time. destruct (Rlt_dec (1 / 10 / 16 / 48000) 1); [|lra]. eexists. reflexivity.
Qed.

(** C63, partial.  A MovingPointSource at rest delivers what a PointSource
    delivers whose recording starts at twice its [start], hence the same for
    [start] = 0 (compare C20_point_source_partial). *)
Theorem C63_at_rest_partial iters signal c0 fs start_t start up conv rm ns num :
  (0 < iters)%nat -> c0 <> 0 -> 0 < fs -> 1 / 10 / INR up / fs < 1 ->
  (0 < num)%nat -> (0 < up)%nat -> length signal = (up * ns)%nat -> rm <> [] ->
  let ind0 := first_ind c0 start_t (start + start) fs up rm in
  (forall i, In i ind0 -> - INR (up * ns) - 3 / 2 < i < INR up - 1 / 2) ->
  delivers num (map (received signal false rm ind0 up) (seq 0 ns))
    (moving_point_source iters signal c0 fs start_t start up conv (at_rest rm) ns num).
Proof. exact (moving_at_rest iters signal c0 fs start_t start up conv rm ns num). Qed.
Print Assumptions C63_at_rest_partial.

(** C63 is false for other start times: the first samples differ. *)
Theorem C63_start_time_refuted :
  exists signal rm c0 fs start_t start up ns,
    (forall i, In i (first_ind c0 start_t start fs up rm) -> - INR (up * ns) - 3 / 2 < i < INR up - 1 / 2)
    /\ (forall i, In i (first_ind c0 start_t (start + start) fs up rm) -> - INR (up * ns) - 3 / 2 < i < INR up - 1 / 2)
    /\ length signal = (up * ns)%nat
    /\ received signal false rm (first_ind c0 start_t start fs up rm) up 0
       <> received signal false rm (first_ind c0 start_t (start + start) fs up rm) up 0.
Proof. exact moving_at_rest_refuted. Qed.
Print Assumptions C63_start_time_refuted.

Example C63_case :
  1 / 10 / INR 2 / 10 < 1
  /\ forall i, In i (first_ind 343 0 (0 + 0) 10 2 [343; 686]) -> - INR (2 * 30) - 3 / 2 < i < INR 2 - 1 / 2.
Proof.
  assert (E : INR (2 * 30) = 60) by (rewrite INR_IZR_INZ; reflexivity).
  assert (E2 : INR 2 = 2) by reflexivity.
  rewrite E. unfold first_ind. rewrite E2. split; [lra|].
  intros i [<-|[<-|[]]]; lra.
Qed.
