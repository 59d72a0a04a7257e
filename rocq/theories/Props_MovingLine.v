(** Properties C84 (convective amplification) and C85 (MovingLineSource).
    Specification vocabulary: [mach_towards], [amplification], [line_geometry],
    [with_start] (MovingLine.v); [edist] (Dipole.v); [line_source],
    (PointSources.v, C22). *)
From Coq Require Import List Arith Lia ZArith Bool Reals Lra FunctionalExtensionality.
From Verif Require Import Stream Wav Environ PointSources Dipole MovingLine.
Import ListNotations.
Local Open Scope R_scope.

(** C84.  On any path on which the microphones are straight ahead of the source
    as seen from the origin, conv_amp multiplies the sound with 1/(1 - M)^2, [M]
    being the Mach number of the motion towards the microphone at the emission
    time (the iteration having converged). *)
Theorem C84_ahead_partial iters o traj vel mics k ls r :
  (0 < iters)%nat -> 1 / 10 / INR (d_up o) / d_fs o < 1 ->
  (forall y, 1 + mach_origin o traj vel y <> 0) ->
  (forall y m, In m mics -> vunit (vsub m (traj y)) = vunit (traj y)) ->
  moving_lanes iters (d_c o) (d_fs o) (d_start o) (d_up o) (point_lanes (d_c o) traj vel mics) k = inl ls ->
  abs_max (map l_eps ls) <= 1 / 10 / INR (d_up o) / d_fs o ->
  point_row iters o false traj vel mics k = Some r ->
  exists c, point_row iters o true traj vel mics k = Some c
    /\ amplified o traj mics k (fun m y => mach_towards (d_c o) (traj y) (vel y) m) (mach_origin o traj vel) r c.
Proof.
  intros Hi He Hnz Ha El Hc Hr.
  destruct (conv_factor iters o traj vel mics k ls r Hi He Hnz El Hc Hr) as (c & Ec & ys & L & Hm & Ht).
  exists c. split; [exact Ec|]. exists ys. split; [exact L|]. split; [|exact Ht].
  rewrite Hm. apply map_ext_in. intros [v [m y]] Hin. apply in_combine_r in Hin. apply in_combine_l in Hin.
  unfold mach_towards, mach_origin. now rewrite Ha.
Qed.
Print Assumptions C84_ahead_partial.

(** For other microphones it is the motion away from the origin that counts. *)
Theorem C84_origin iters o traj vel mics k ls r :
  (0 < iters)%nat -> 1 / 10 / INR (d_up o) / d_fs o < 1 ->
  (forall y, 1 + mach_origin o traj vel y <> 0) ->
  moving_lanes iters (d_c o) (d_fs o) (d_start o) (d_up o) (point_lanes (d_c o) traj vel mics) k = inl ls ->
  abs_max (map l_eps ls) <= 1 / 10 / INR (d_up o) / d_fs o ->
  point_row iters o false traj vel mics k = Some r ->
  exists c, point_row iters o true traj vel mics k = Some c
    /\ amplified o traj mics k (fun _ y => mach_origin o traj vel y) (mach_origin o traj vel) r c.
Proof. exact (conv_factor iters o traj vel mics k ls r). Qed.
Print Assumptions C84_origin.

(** The path of the examples: along the x axis with half the speed of sound
    (c = 1), at 1 at time 0. *)
Definition away (x : R) : v3 := V3 (1 + x / 2) 0 0.
Definition away_vel (x : R) : v3 := V3 (1 / 2) 0 0.
Definition away_src (start_t : R) : dipole := mkDipole [1] 1 1 1 start_t 0 (V3 1 0 0) (V3 0 0 0).

Lemma edist_line a b : a >= b -> edist (V3 a 0 0) (V3 b 0 0) = a - b.
Proof.
  intros H. unfold edist, vnorm, vdot, vsub. cbn [v3x v3y v3z].
  replace ((b - a) * (b - a) + (0 - 0) * (0 - 0) + (0 - 0) * (0 - 0)) with ((a - b) * (a - b)) by ring.
  apply sqrt_square. lra.
Qed.

Lemma unit_line a : 0 < a -> vunit (V3 a 0 0) = V3 1 0 0.
Proof.
  intros H. unfold vunit. replace (vnorm (V3 a 0 0)) with a.
  - apply v3_eq; unfold vscale; cbn [v3x v3y v3z]; field; lra.
  - unfold vnorm, vdot. cbn [v3x v3y v3z]. replace (a * a + 0 * 0 + 0 * 0) with (a * a) by ring. symmetry. apply sqrt_square. lra.
Qed.

(** The iteration on this path, exact after two steps. *)
Lemma away_times mics t fuel :
  0 < t + 2 -> mics <> [] -> (forall a, In a mics -> a <= 1 + t / 2 /\ 3 / 20 < 1 + t / 2 - a /\ a <= 1 + (2 * (t - 1 + a) / 3) / 2 /\ -2 < 2 * (t - 1 + a) / 3) ->
  exists ls,
    emission_time (S (S fuel)) 1 (1 / 10 / INR 1 / 1)
      (map (fun m => ((fun x => edist (away x) m), (fun x => vdot (away_vel x) (vunit (away x)) / 1), t))
         (map (fun a => V3 a 0 0) mics)) = inl ls
    /\ map (fun l => (l_te l, l_rm l, l_Mr l, l_eps l)) ls
       = map (fun a => (2 * (t - 1 + a) / 3, 1 + (2 * (t - 1 + a) / 3) / 2 - a, 1 / 2, 0)) mics.
Proof.
  intros Ht Hne Hm.
  set (ln := fun a => ((fun x => edist (away x) (V3 a 0 0)), (fun x : R => vdot (away_vel x) (vunit (away x)) / 1), t)).
  replace (map (fun m => ((fun x => edist (away x) m), (fun x => vdot (away_vel x) (vunit (away x)) / 1), t))
         (map (fun a => V3 a 0 0) mics)) with (map ln mics) by (now rewrite map_map).
  assert (E0 : emission_time (S (S fuel)) 1 (1 / 10 / INR 1 / 1) (map ln mics)
     = inl (newton (S (S fuel)) 1 (1 / 10 / INR 1 / 1) (map (fun '(d, m, t) => mkLane d m t t 0 0 1) (map ln mics)))).
  { unfold emission_time. destruct mics as [|a0 mics0]; [congruence|]. cbn [map].
    destruct (Rlt_dec (1 / 10 / INR 1 / 1) 1) as [_|N]; [reflexivity|]. change (INR 1) with 1 in N. lra. }
  rewrite E0. clear E0. change (INR 1) with 1.
  assert (Hmach : forall x, -2 < x -> vdot (away_vel x) (vunit (away x)) / 1 = 1 / 2).
  { intros x Hx. unfold away. rewrite unit_line by lra. unfold vdot, away_vel. cbn [v3x v3y v3z]. lra. }
  assert (S1 : forall a, In a mics ->
    newton_step 1 (mkLane (fun x => edist (away x) (V3 a 0 0)) (fun x => vdot (away_vel x) (vunit (away x)) / 1) t t 0 0 1)
    = mkLane (fun x => edist (away x) (V3 a 0 0)) (fun x => vdot (away_vel x) (vunit (away x)) / 1) t
        (2 * (t - 1 + a) / 3) (1 + t / 2 - a) (1 / 2) (2 / 3 * (1 + t / 2 - a))).
  { intros a Ha. destruct (Hm a Ha) as (H1 & H2 & H3 & H4). unfold newton_step. cbn [l_dist l_mach l_t l_te].
    rewrite Hmach by lra. unfold away. rewrite edist_line by lra. f_equal; field. }
  assert (S2 : forall a, In a mics ->
    newton_step 1 (mkLane (fun x => edist (away x) (V3 a 0 0)) (fun x => vdot (away_vel x) (vunit (away x)) / 1) t
        (2 * (t - 1 + a) / 3) (1 + t / 2 - a) (1 / 2) (2 / 3 * (1 + t / 2 - a)))
    = mkLane (fun x => edist (away x) (V3 a 0 0)) (fun x => vdot (away_vel x) (vunit (away x)) / 1) t
        (2 * (t - 1 + a) / 3) (1 + (2 * (t - 1 + a) / 3) / 2 - a) (1 / 2) 0).
  { intros a Ha. destruct (Hm a Ha) as (H1 & H2 & H3 & H4). unfold newton_step. cbn [l_dist l_mach l_t l_te].
    rewrite Hmach by lra. unfold away. rewrite edist_line by lra. f_equal; field. }
  eexists. split; [reflexivity|].
  assert (X : exists a0, In a0 mics) by (destruct mics as [|a0 ?]; [congruence|exists a0; now left]).
  destruct X as (a0 & Ha0).
  rewrite newton_two.
  - rewrite !map_map. apply map_ext_in. intros a Ha. unfold ln. rewrite S1, S2 by assumption. reflexivity.
  - lra.
  - apply Rlt_le_trans with (Rabs 1); [rewrite Rabs_R1; lra|]. apply abs_max_ge. rewrite !map_map. apply in_map_iff.
    exists a0. split; [reflexivity|assumption].
  - apply Rlt_le_trans with (Rabs (2 / 3 * (1 + t / 2 - a0))).
    + destruct (Hm a0 Ha0) as (H1 & H2 & H3 & H4). rewrite Rabs_right; lra.
    + apply abs_max_ge. rewrite !map_map. apply in_map_iff. exists a0. split; [|assumption].
      unfold ln. rewrite S1 by assumption. reflexivity.
  - intros l Hl. rewrite map_map in Hl. apply in_map_iff in Hl as (a & <- & Ha). unfold ln. rewrite S1, S2 by assumption. reflexivity.
Qed.

Lemma rnd_at x z : (0 <= z)%Z -> Rabs (x - IZR z) < 1 / 2 -> rnd x = z.
Proof.
  intros Hz H. apply Rabs_def2 in H. 
  pose proof (rnd_ge x z Hz ltac:(lra)). pose proof (rnd_lt x (z + 1) ltac:(lia) ltac:(rewrite plus_IZR; lra)). lia.
Qed.

(** A source that recedes from the microphone with half the speed of sound is
    made four times as loud; the amplification of a monopole that moves away
    with that speed is 4/9. *)
Theorem C84_receding_refuted :
  exists o traj vel m r c,
    point_row 100 o false traj vel [m] 0 = Some [r] /\ point_row 100 o true traj vel [m] 0 = Some [c]
    /\ (forall y, -2 < y -> mach_towards (d_c o) (traj y) (vel y) m = - (1 / 2))
    /\ 0 < r /\ c = 4 * r /\ amplification (- (1 / 2)) = 4 / 9.
Proof.
  exists (away_src (-1)), away, away_vel, (V3 0 0 0), (3 / 2), 6.
  destruct (away_times [0] 0 98) as (ls & El & M); [lra|discriminate| |].
  { intros a [<-|[]]. lra. }
  assert (R : forall cv, point_row 100 (away_src (-1)) cv away away_vel [V3 0 0 0] 0
     = Some [1 / ((1 + 2 * (0 - 1 + 0) / 3 / 2 - 0) * (if cv : bool then (1 - 1 / 2) ^ 2 else 1))]).
  { intros cv. unfold point_row, moving_row, moving_lanes, point_lanes.
    unfold away_src. cbn [d_c d_fs d_start d_up d_start_t d_signal map]. cbn [map] in El.
    replace (0 + INR 0 / 1) with 0 by (cbn [INR]; lra). rewrite El.
    destruct ls as [|l [|l' ls]]; cbn [map] in M; try discriminate. 
    assert (M0 := f_equal (fun q => nth 0 q (0, 0, 0, 0)) M). cbn [nth] in M0. injection M0 as M1 M2 M3 M4.
    unfold np_row. cbn [map sequence].
    rewrite M1, M2, M3. rewrite (rnd_at _ 0).
    - destruct cv; cbn -[pow]; rewrite ?Rmult_1_r; reflexivity.
    - lia.
    - change (INR 1) with 1. replace ((2 * (0 - 1 + 0) / 3 - -1 + 0) * 1 * 1 - 0) with (1 / 3) by field.
      rewrite Rabs_right; lra. }
  split; [rewrite R; do 2 f_equal; field|]. split; [rewrite R; do 2 f_equal; field|].
  split; [|split; [lra|split; [lra|unfold amplification; field]]].
  intros y Hy. unfold mach_towards, away, away_vel, away_src. cbn [d_c].
  assert (E : vunit (vsub (V3 0 0 0) (V3 (1 + y / 2) 0 0)) = V3 (-1) 0 0).
  { unfold vunit. replace (vnorm (vsub (V3 0 0 0) (V3 (1 + y / 2) 0 0))) with (1 + y / 2).
    - apply v3_eq; unfold vscale, vsub; cbn [v3x v3y v3z]; field; lra.
    - unfold vnorm, vdot, vsub. cbn [v3x v3y v3z].
      replace ((0 - (1 + y / 2)) * (0 - (1 + y / 2)) + (0 - 0) * (0 - 0) + (0 - 0) * (0 - 0)) with ((1 + y / 2) * (1 + y / 2)) by ring.
      symmetry. apply sqrt_square. lra. }
  rewrite E. unfold vdot. cbn [v3x v3y v3z]. lra.
Qed.
Print Assumptions C84_receding_refuted.

(** A path on which the hypotheses of [C84_ahead_partial] hold: from 1 to 2 on the
    x axis between the times 0 and 2, a microphone at 4. *)
Definition ahead (x : R) : v3 :=
  V3 (if Rle_dec x 0 then 1 else if Rle_dec 2 x then 2 else 1 + x / 2) 0 0.
Definition ahead_vel (x : R) : v3 :=
  V3 (if Rle_dec x 0 then 0 else if Rle_dec 2 x then 0 else 1 / 2) 0 0.
Definition ahead_src : dipole := mkDipole [1] 1 (1 / 5) 1 4 (13 / 4) (V3 1 0 0) (V3 0 0 0).

Lemma ahead_mach y : mach_origin ahead_src ahead ahead_vel y = if Rle_dec y 0 then 0 else if Rle_dec 2 y then 0 else 1 / 2.
Proof.
  unfold mach_origin, ahead, ahead_vel, ahead_src. cbn [d_c].
  destruct (Rle_dec y 0); [|destruct (Rle_dec 2 y)]; rewrite unit_line by lra; unfold vdot; cbn [v3x v3y v3z]; lra.
Qed.

Example C84_case :
  1 / 10 / INR (d_up ahead_src) / d_fs ahead_src < 1
  /\ (forall y, 1 + mach_origin ahead_src ahead ahead_vel y <> 0)
  /\ (forall y m, In m [V3 4 0 0] -> vunit (vsub m (ahead y)) = vunit (ahead y))
  /\ (exists ls, moving_lanes 100 (d_c ahead_src) (d_fs ahead_src) (d_start ahead_src) (d_up ahead_src)
        (point_lanes (d_c ahead_src) ahead ahead_vel [V3 4 0 0]) 0 = inl ls
       /\ abs_max (map l_eps ls) <= 1 / 10 / INR (d_up ahead_src) / d_fs ahead_src)
  /\ exists r, r <> 0 /\ point_row 100 ahead_src false ahead ahead_vel [V3 4 0 0] 0 = Some [r]
       /\ point_row 100 ahead_src true ahead ahead_vel [V3 4 0 0] 0 = Some [4 * r].
Proof.
  assert (T : 1 / 10 / INR (d_up ahead_src) / d_fs ahead_src = 1 / 2).
  { unfold ahead_src. cbn [d_up d_fs]. change (INR 1) with 1. field. }
  split; [rewrite T; lra|]. split.
  { intros y. rewrite ahead_mach. destruct (Rle_dec y 0); [lra|]. destruct (Rle_dec 2 y); lra. }
  split.
  { intros y m [<-|[]]. unfold ahead.
    destruct (Rle_dec y 0); [|destruct (Rle_dec 2 y)]; rewrite unit_line by lra;
      unfold vsub; cbn [v3x v3y v3z]; rewrite !Rminus_0_r; apply unit_line; lra. }
  set (d := fun x => edist (ahead x) (V3 4 0 0)). set (ma := mach_origin ahead_src ahead ahead_vel).
  assert (D : forall x v, (if Rle_dec x 0 then 1 else if Rle_dec 2 x then 2 else 1 + x / 2) = v -> v <= 2 -> d x = 4 - v).
  { intros x v E Hv. unfold d, ahead. rewrite E. unfold edist, vnorm, vdot, vsub. cbn [v3x v3y v3z].
    replace ((4 - v) * (4 - v) + (0 - 0) * (0 - 0) + (0 - 0) * (0 - 0)) with ((4 - v) * (4 - v)) by ring.
    apply sqrt_square. lra. }
  assert (D1 : d (13 / 4) = 2).
  { rewrite (D _ 2); [lra| |lra]. destruct (Rle_dec (13 / 4) 0); [lra|]. destruct (Rle_dec 2 (13 / 4)); lra. }
  assert (D2 : d (5 / 4) = 19 / 8).
  { rewrite (D _ (13 / 8)); [lra| |lra]. destruct (Rle_dec (5 / 4) 0); [lra|]. destruct (Rle_dec 2 (5 / 4)); lra. }
  assert (M1 : ma (13 / 4) = 0).
  { unfold ma. rewrite ahead_mach. destruct (Rle_dec (13 / 4) 0); [lra|]. destruct (Rle_dec 2 (13 / 4)); lra. }
  assert (M2 : ma (5 / 4) = 1 / 2).
  { unfold ma. rewrite ahead_mach. destruct (Rle_dec (5 / 4) 0); [lra|]. destruct (Rle_dec 2 (5 / 4)); lra. }
  assert (E : moving_lanes 100 (d_c ahead_src) (d_fs ahead_src) (d_start ahead_src) (d_up ahead_src)
        (point_lanes (d_c ahead_src) ahead ahead_vel [V3 4 0 0]) 0
     = inl [mkLane d ma (13 / 4) 1 (19 / 8) (1 / 2) (1 / 4)]).
  { unfold moving_lanes. rewrite T. unfold point_lanes, emission_time. cbn [map].
    destruct (Rlt_dec (1 / 2) 1) as [_|]; [|lra].
    change (fun x => edist (ahead x) (V3 4 0 0)) with d.
    change (fun x => vdot (ahead_vel x) (vunit (ahead x)) / d_c ahead_src) with ma.
    replace (d_start ahead_src + INR 0 / d_fs ahead_src) with (13 / 4) by (unfold ahead_src; cbn [d_start d_fs INR]; lra).
    change (d_c ahead_src) with 1.
    assert (A : forall x, 0 <= x -> abs_max [x] = x).
    { intros x Hx. unfold abs_max. cbn [map fold_right]. rewrite Rabs_right by lra. apply Rmax_left. lra. }
    assert (NS : forall f l x, l_eps l = x -> 1 / 2 < x -> newton (S f) 1 (1 / 2) [l] = newton f 1 (1 / 2) [newton_step 1 l]).
    { intros f l x Hx Hl. cbn [newton map]. rewrite Hx, A by lra. destruct (Rlt_dec (1 / 2) x); [reflexivity|lra]. }
    assert (NE : forall f l x, l_eps l = x -> 0 <= x <= 1 / 2 -> newton (S f) 1 (1 / 2) [l] = [l]).
    { intros f l x Hx Hl. cbn [newton map]. rewrite Hx, A by lra. destruct (Rlt_dec (1 / 2) x); [lra|reflexivity]. }
    f_equal. change 100%nat with (S (S (S 97))).
    rewrite (NS _ _ 1) by (cbn [l_eps]; lra).
    replace (newton_step 1 (mkLane d ma (13 / 4) (13 / 4) 0 0 1)) with (mkLane d ma (13 / 4) (5 / 4) 2 0 2).
    2: { unfold newton_step. cbn [l_dist l_mach l_t l_te l_eps]. rewrite D1, M1. f_equal; field. }
    rewrite (NS _ _ 2) by (cbn [l_eps]; lra).
    replace (newton_step 1 (mkLane d ma (13 / 4) (5 / 4) 2 0 2)) with (mkLane d ma (13 / 4) 1 (19 / 8) (1 / 2) (1 / 4)).
    2: { unfold newton_step. cbn [l_dist l_mach l_t l_te l_eps]. rewrite D2, M2. f_equal; field. }
    apply (NE _ _ (1 / 4)); [reflexivity|lra]. }
  split.
  { eexists. split; [exact E|]. rewrite T. cbn [map l_eps]. unfold abs_max. cbn [map fold_right].
    rewrite Rabs_right by lra. rewrite Rmax_left; lra. }
  assert (N : rnd ((1 - d_start_t ahead_src + d_start ahead_src) * d_fs ahead_src * INR (d_up ahead_src)) = 0%Z).
  { apply rnd_at; [lia|]. unfold ahead_src. cbn [d_start_t d_start d_fs d_up]. change (INR 1) with 1.
    rewrite Rabs_right; lra. }
  exists (8 / 19). split; [lra|]. unfold point_row, moving_row. rewrite E. cbn [map l_te l_rm l_Mr].
  unfold np_row. cbn [map sequence]. rewrite N.
  cbn [py_nth ahead_src d_signal]. cbn -[pow]. split; do 2 f_equal; field.
Qed.

(* ------------------------------------------------------------------ *)
(** * C85: MovingLineSource *)

(** C85.  On a trajectory that does not move, the source delivers for every
    [num] what a LineSource at that place delivers - one that starts at
    [2 start + 1/fs] instead of [start]. *)
Theorem C85_at_rest_partial iters o len n conv p mics units strengths ns num rms :
  d_c o <> 0 -> 0 < d_fs o -> mics <> [] -> 0 <= 1 / 10 / INR (d_up o) / d_fs o < 1 -> (0 < iters)%nat ->
  moving_line iters edist o len n conv (V3 0 0 0) (fun _ => p) (fun _ => V3 0 0 0) mics units strengths ns num rms
  = line_source (length mics) (d_up o) units strengths
      (line_geometry edist (with_start (d_start o + d_start o + 1 / d_fs o) o) p len n mics) ns num rms.
Proof. exact (moving_line_rest iters o len n conv p mics units strengths ns num rms). Qed.
Print Assumptions C85_at_rest_partial.

Definition rest_src : dipole := mkDipole [] 1 1 1 (-1) 0 (V3 1 0 0) (V3 0 0 0).

Lemma edist_one : edist (vadd (V3 1 0 0) (vscale (INR 0) (line_step rest_src 1 1))) (V3 0 0 0) = 1.
Proof.
  replace (vadd (V3 1 0 0) (vscale (INR 0) (line_step rest_src 1 1))) with (V3 1 0 0)
    by (apply v3_eq; unfold vadd, vscale; cbn [v3x v3y v3z INR]; lra).
  rewrite edist_line by lra. lra.
Qed.

Lemma rest_row s : (Z.of_nat s <= 1)%Z ->
  line_row 1 1 [[1; 2]] (line_geometry edist (with_start (INR s) rest_src) (V3 1 0 0) 1 1 [V3 0 0 0]) 0
  = Some [nth s [1; 2] 0].
Proof.
  intros Hs. unfold line_row, line_geometry. cbn [seq map].
  change (vscale (1 / INR 1) (vunit (d_dir (with_start (INR s) rest_src)))) with (line_step rest_src 1 1). rewrite edist_one.
  unfold with_start, rest_src. cbn [d_c d_start d_start_t d_fs combine fold_left map].
  unfold np_row. cbn [map sequence].
  rewrite (rnd_at _ (Z.of_nat s)).
  - destruct s as [|[|s]]; [| |lia]; cbn -[Rplus Rmult Rdiv Rinv IZR]; apply f_equal; apply (f_equal (fun x => [x])); field.
  - lia.
  - rewrite <- INR_IZR_INZ. change (INR 1) with 1. change (INR 0) with 0.
    match goal with |- Rabs ?x < _ => replace x with 0 by field end. rewrite Rabs_R0. lra.
Qed.

(** The LineSource that starts at the same time gives another signal: the
    moving one is a sample late. *)
Theorem C85_shift_refuted :
  exists o p mics sigs a b,
    d_start o = 0
    /\ moving_line_row 100 edist o 1 1 false (V3 0 0 0) (fun _ => p) (fun _ => V3 0 0 0) mics sigs 0 = Some [a]
    /\ line_row (length mics) (d_up o) sigs (line_geometry edist o p 1 1 mics) 0 = Some [b]
    /\ a <> b.
Proof.
  exists rest_src, (V3 1 0 0), [V3 0 0 0], [[1; 2]], 2, 1.
  split; [reflexivity|]. split.
  { rewrite moving_line_row_rest.
    - replace (d_start rest_src + d_start rest_src + 1 / d_fs rest_src) with (INR 1)
        by (unfold rest_src; cbn [d_start d_fs INR]; field).
      exact (rest_row 1 ltac:(lia)).
    - unfold rest_src. cbn. lra.
    - unfold rest_src. cbn. lra.
    - discriminate.
    - unfold rest_src. cbn [d_up d_fs]. change (INR 1) with 1. lra.
    - lia. }
  split; [|lra]. exact (rest_row 0 ltac:(lia)).
Qed.
Print Assumptions C85_shift_refuted.

(** conv_amp changes nothing if the last monopole of the line is silent. *)
Theorem C85_conv_amp iters rd o len n rvec traj vel mics signals k :
  (forall v, In v (nth (n - 1) signals []) -> v = 0) ->
  moving_line_row iters rd o len n true rvec traj vel mics signals k
  = moving_line_row iters rd o len n false rvec traj vel mics signals k.
Proof. exact (line_conv_amp iters rd o len n rvec traj vel mics signals k). Qed.
Print Assumptions C85_conv_amp.

Lemma vadd_0 v : vadd v (V3 0 0 0) = v.
Proof. apply v3_eq; unfold vadd; cbn [v3x v3y v3z]; lra. Qed.

Lemma vscale_zero a : vscale a (V3 0 0 0) = V3 0 0 0.
Proof. apply v3_eq; unfold vscale; cbn [v3x v3y v3z]; lra. Qed.

Lemma step_0 o n : line_step o 0 n = V3 0 0 0.
Proof. apply v3_eq; unfold line_step, vscale; cbn [v3x v3y v3z]; unfold Rdiv; ring. Qed.

(** The lines of the examples have the length 0 and fly [away]. *)
Lemma away_part o n conv mics s sig :
  d_c o = 1 -> d_fs o = 1 -> d_up o = 1%nat -> d_start o = 0 -> d_start_t o = -1 -> mics <> [] ->
  (forall a, In a mics -> -1 <= a <= 0) ->
  line_part 100 edist o 0 n conv (V3 0 0 0) away away_vel (map (fun a => V3 a 0 0) mics) 1 (V3 0 0 0) s sig
  = np_row sig (map (fun a => (2 * a / 3 + 1, (1 + (nth 0 mics 0) / 3 - a) * (if conv && (s =? n - 1)%nat then 1 / 4 else 1))) mics).
Proof.
  intros Hc Hfs Hup Hs Hst Hne Ha. unfold line_part, line_times. rewrite Hc, Hfs, Hup.
  destruct (away_times mics 1 98) as (ls & El & M); [lra|assumption| |].
  { intros a Hin. specialize (Ha a Hin). lra. }
  assert (EL : map (fun m => ((fun x => edist (vadd (away x) (vscale (INR s) (V3 0 0 0))) m),
                  (fun x => vdot (away_vel x) (vunit (vadd (away x) (vscale (INR s) (V3 0 0 0)))) / 1), 1)) (map (fun a => V3 a 0 0) mics)
     = map (fun m => ((fun x => edist (away x) m), (fun x => vdot (away_vel x) (vunit (away x)) / 1), 1)) (map (fun a => V3 a 0 0) mics)).
  { apply map_ext. intros m. f_equal. f_equal; apply functional_extensionality; intros x; now rewrite vscale_zero, vadd_0. }
  rewrite EL, El. cbv zeta. rewrite Hs, Hst. rewrite rest_axis, step_0. change (INR 1) with 1.
  assert (F : first_te ls = 2 * nth 0 mics 0 / 3).
  { destruct mics as [|a0 mics]; [congruence|]. destruct ls as [|l ls]; [discriminate|].
    assert (M0 := f_equal (fun q => nth 0 q (0, 0, 0, 0)) M). cbn [map nth] in M0. injection M0 as M1 _ _ _.
    cbn [first_te nth]. rewrite M1. field. }
  rewrite F. set (a0 := nth 0 mics 0) in *.
  assert (Ha0 : -1 <= a0 <= 0) by (apply Ha; unfold a0; destruct mics; [congruence|now left]).
  clearbody a0. clear EL El F Hne. f_equal. revert ls M Ha.
  induction mics as [|a mics IH]; intros [|l ls] M Ha; cbn [map] in M; try discriminate; [reflexivity|].
  assert (M0 := f_equal (fun q => nth 0 q (0, 0, 0, 0)) M). cbn [nth] in M0. injection M0 as M1 M2 M3 M4.
  assert (MT := f_equal (fun q => tl q) M). cbn [tl] in MT.
  cbn [map combine]. f_equal.
  - rewrite M1, M3, vscale_zero, vadd_0. unfold away.
    specialize (Ha a ltac:(now left)). rewrite edist_line by lra. f_equal; [field|].
    destruct (conv && (s =? n - 1)%nat); field.
  - apply IH; [assumption|]. intros x Hx. apply Ha. now right.
Qed.

Definition away_line : dipole := mkDipole [] 1 1 1 (-1) 0 (V3 1 0 0) (V3 0 0 0).

Lemma away_row n conv mics sigs :
  mics <> [] -> (forall a, In a mics -> -1 <= a <= 0) ->
  moving_line_row 100 edist away_line 0 n conv (V3 0 0 0) away away_vel (map (fun a => V3 a 0 0) mics) sigs 0
  = fold_left (fun acc '(s, sig) =>
      match acc, np_row sig (map (fun a => (2 * a / 3 + 1, (1 + (nth 0 mics 0) / 3 - a) * (if conv && (s =? n - 1)%nat then 1 / 4 else 1))) mics) with
      | Some row, Some c => Some (add_rows row c)
      | _, _ => None
      end) (combine (seq 0 n) sigs) (Some (repeat 0 (length mics))).
Proof.
  intros Hne Ha. unfold moving_line_row, line_times.
  change (d_c away_line) with 1. change (d_fs away_line) with 1. change (d_up away_line) with 1%nat. change (d_start away_line) with 0.
  replace (0 + INR 1 / 1) with 1 by (cbn [INR]; field).
  destruct (away_times mics 1 98) as (ls & El & M); [lra|assumption| |].
  { intros a Hin. specialize (Ha a Hin). lra. }
  assert (EL : map (fun m => ((fun x => edist (vadd (away x) (V3 0 0 0)) m),
                  (fun x => vdot (away_vel x) (vunit (vadd (away x) (V3 0 0 0))) / 1), 1)) (map (fun a => V3 a 0 0) mics)
     = map (fun m => ((fun x => edist (away x) m), (fun x => vdot (away_vel x) (vunit (away x)) / 1), 1)) (map (fun a => V3 a 0 0) mics)).
  { apply map_ext. intros m. f_equal. f_equal; apply functional_extensionality; intros x; now rewrite vadd_0. }
  rewrite EL, El. cbv zeta. rewrite rest_axis, step_0, map_length.
  generalize (Some (repeat 0 (length mics))). induction (combine (seq 0 n) sigs) as [|[s sig] l IH]; intros acc; [reflexivity|].
  cbn [fold_left]. rewrite (away_part away_line n conv mics s sig) by (reflexivity || assumption). apply IH.
Qed.

Lemma away_index a z : (0 <= z)%Z -> Rabs (2 * a / 3 + 1 - IZR z) < 1 / 2 -> rnd (2 * a / 3 + 1) = z.
Proof. apply rnd_at. Qed.

(** Two monopoles at the same place that recede with half the speed of sound:
    conv_amp acts on the second only. *)
Theorem C85_last_only_refuted :
  exists o traj vel m r,
    r <> 0
    /\ moving_line_row 100 edist o 0 2 false (V3 0 0 0) traj vel [m] [[1; 1]; [0; 0]] 0 = Some [r]
    /\ moving_line_row 100 edist o 0 2 true (V3 0 0 0) traj vel [m] [[1; 1]; [0; 0]] 0 = Some [r]
    /\ moving_line_row 100 edist o 0 2 false (V3 0 0 0) traj vel [m] [[0; 0]; [1; 1]] 0 = Some [r]
    /\ moving_line_row 100 edist o 0 2 true (V3 0 0 0) traj vel [m] [[0; 0]; [1; 1]] 0 = Some [4 * r].
Proof.
  exists away_line, away, away_vel, (V3 0 0 0), 1. split; [lra|].
  assert (W : forall conv sigs, moving_line_row 100 edist away_line 0 2 conv (V3 0 0 0) away away_vel [V3 0 0 0] sigs 0 = _)
    by (intros conv sigs; refine (away_row 2 conv [0] sigs _ _); [discriminate|intros a [<-|[]]; lra]).
  assert (I0 : rnd (2 * 0 / 3 + 1) = 1%Z) by (apply away_index; [lia|]; rewrite Rabs_right; lra).
  rewrite !W. unfold np_row. cbn [seq combine fold_left map sequence]. rewrite I0.
  cbn -[Rplus Rmult Rdiv Rinv IZR]. change (Pos.to_nat 1) with 1%nat. cbn -[Rplus Rmult Rdiv Rinv IZR]. repeat split; match goal with |- Some [?a] = Some [?b] => replace a with b by field; reflexivity | |- ?g => fail 2 g end.
Qed.
Print Assumptions C85_last_only_refuted.

(** The order of the microphones matters: all distances are taken from the
    place of the source when it emitted what the first of them receives. *)
Theorem C85_order_refuted :
  exists o traj vel m1 m2 a b a' b',
    moving_line_row 100 edist o 0 1 false (V3 0 0 0) traj vel [m1; m2] [[1; 1]] 0 = Some [a; b]
    /\ moving_line_row 100 edist o 0 1 false (V3 0 0 0) traj vel [m2; m1] [[1; 1]] 0 = Some [b'; a']
    /\ a <> a' /\ b <> b'.
Proof.
  exists away_line, away, away_vel, (V3 0 0 0), (V3 (-1) 0 0), 1, (1 / 2), (3 / 2), (3 / 5).
  assert (I0 : rnd (2 * 0 / 3 + 1) = 1%Z) by (apply away_index; [lia|]; rewrite Rabs_right; lra).
  assert (I1 : rnd (2 * (-1) / 3 + 1) = 0%Z) by (apply away_index; [lia|]; rewrite Rabs_right; lra).
  split.
  { refine (eq_trans (away_row 1 false [0; -1] [[1; 1]] _ _) _); [discriminate|intros a [<-|[<-|[]]]; lra|].
    unfold np_row. cbn [seq combine fold_left map sequence]. rewrite I0, I1. cbn -[Rplus Rmult Rdiv Rinv IZR]. change (Pos.to_nat 1) with 1%nat. cbn -[Rplus Rmult Rdiv Rinv IZR].
    f_equal. f_equal; [|f_equal]; field. }
  split; [|lra].
  refine (eq_trans (away_row 1 false [-1; 0] [[1; 1]] _ _) _); [discriminate|intros a [<-|[<-|[]]]; lra|].
  unfold np_row. cbn [seq combine fold_left map sequence]. rewrite I0, I1. cbn -[Rplus Rmult Rdiv Rinv IZR]. change (Pos.to_nat 1) with 1%nat. cbn -[Rplus Rmult Rdiv Rinv IZR].
  f_equal. f_equal; [|f_equal]; field.
Qed.
Print Assumptions C85_order_refuted.

(** A case for [C85_at_rest_partial]. *)
Example C85_case :
  d_c rest_src <> 0 /\ 0 < d_fs rest_src /\ 0 <= 1 / 10 / INR (d_up rest_src) / d_fs rest_src < 1
  /\ exists r, moving_line 100 edist rest_src 1 1 false (V3 0 0 0) (fun _ => V3 1 0 0) (fun _ => V3 0 0 0) [V3 0 0 0]
         [[1; 2]] [1] 1 1 1 = (done [[[2]]; []], r).
Proof.
  assert (H1 : d_c rest_src <> 0) by (unfold rest_src; cbn; lra).
  assert (H2 : 0 < d_fs rest_src) by (unfold rest_src; cbn; lra).
  assert (H3 : 0 <= 1 / 10 / INR (d_up rest_src) / d_fs rest_src < 1)
    by (unfold rest_src; cbn [d_up d_fs]; change (INR 1) with 1; lra).
  split; [exact H1|]. split; [exact H2|]. split; [exact H3|]. eexists.
  rewrite C85_at_rest_partial by (assumption || discriminate || lia).
  unfold line_source, line_signals.
  replace (map (Rmult (1 * 1)) [1; 2]) with [1; 2] by (cbn [map]; f_equal; [|f_equal]; ring).
  replace (d_start rest_src + d_start rest_src + 1 / d_fs rest_src) with (INR 1)
    by (unfold rest_src; cbn [d_start d_fs INR]; field).
  set (row := line_row _ _ _ _). assert (E : row 0%nat = Some [2]) by (exact (rest_row 1 ltac:(lia))).
  cbn [sample_loop]. rewrite E. reflexivity.
Qed.
