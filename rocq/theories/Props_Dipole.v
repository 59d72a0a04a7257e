(** Properties C80, C81 (dipole sources).  Specification vocabulary:
    [two_poles] (two monopoles in opposite phase at a distance [pole_dist],
    their vectors from the centre +-[half_axis]), [in_signal], [emitted] (the signal at
    the retarded time),
    [cos_angle] (angle between the dipole axis and the direction of the
    microphone), [edist] (Euclidean distance), [reversed] (Dipole.v). *)
From Coq Require Import List Arith Lia ZArith Bool Reals Lra FunctionalExtensionality.
From Verif Require Import Stream Wav Environ PointSources Dipole.
Import ListNotations.
Local Open Scope R_scope.

(** C80.  Every environment [rd]: the rows delivered are those of two monopoles
    of opposite phase, in full blocks; a last empty block is yielded when [num]
    divides the number of samples (C21). *)
Theorem C80_rows_partial rd o mics ns num :
  (0 < num)%nat -> length (d_signal o) = (d_up o * ns)%nat -> (0 < d_up o)%nat -> d_fs o <> 0 ->
  let e := half_axis 1 (d_c o) (d_fs o) (d_dir o) in
  (forall m, In m mics -> in_signal o ns (rd (vadd (d_loc o) e) m) /\ in_signal o ns (rd (vsub (d_loc o) e) m)) ->
  dipole_source rd o mics ns num
  = done (chunks num (map (fun k => map (two_poles rd o k) mics) (seq 0 ns))
          ++ (if (ns mod num =? 0)%nat then [[]] else [])).
Proof. exact (dipole_spec rd o mics ns num). Qed.
Print Assumptions C80_rows_partial.

(** Turning the dipole around reverses the sign of every sample, in every
    environment and also where the signal ends. *)
Theorem C80_reversed rd o mics k :
  dipole_row rd (reversed o) mics k = option_map neg_row (dipole_row rd o mics k).
Proof. exact (dipole_reversed rd o mics k). Qed.
Print Assumptions C80_reversed.

(** Nothing is heard in the plane between the poles. *)
Theorem C80_plane o k m : d_dir o <> V3 0 0 0 -> vdot (d_dir o) (vsub m (d_loc o)) = 0 ->
  two_poles edist o k m = 0.
Proof. exact (dipole_plane o k m). Qed.
Print Assumptions C80_plane.

(** When the delays of both poles round to the same value [s] of the signal, the
    microphone receives s cos(theta) / r up to a relative error of third order. *)
Theorem C80_directivity_partial o k m s :
  0 < d_c o -> 0 < d_fs o -> d_dir o <> V3 0 0 0 ->
  let d := pole_dist 1 (d_c o) (d_fs o) (d_dir o) in
  let e := half_axis 1 (d_c o) (d_fs o) (d_dir o) in
  let r := edist (d_loc o) m in
  let ct := cos_angle (d_dir o) (vsub m (d_loc o)) in
  let x p := emitted o k (edist p m) in
  d < 2 * r -> x (vadd (d_loc o) e) = s -> x (vsub (d_loc o) e) = s ->
  Rabs (two_poles edist o k m - s * (ct / r)) <= Rabs s * (Rabs ct / r * ((r / (r - d / 2)) ^ 3 - 1)).
Proof. exact (dipole_directivity o k m s). Qed.
Print Assumptions C80_directivity_partial.

(** In general a term is added: the difference of the two values of the signal
    over the distance of the poles, which is 1e-5 |direction| c / fs. *)
Theorem C80_jump o k m :
  0 < d_c o -> 0 < d_fs o -> d_dir o <> V3 0 0 0 ->
  let d := pole_dist 1 (d_c o) (d_fs o) (d_dir o) in
  let e := half_axis 1 (d_c o) (d_fs o) (d_dir o) in
  let r p := edist p m in
  let x p := emitted o k (r p) in
  let p1 := vadd (d_loc o) e in
  let p2 := vsub (d_loc o) e in
  two_poles edist o k m
  = x p2 * (r (d_loc o) / d * (/ r p1 - / r p2)) + (x p1 - x p2) / d * (r (d_loc o) / r p1).
Proof. exact (dipole_jump o k m). Qed.
Print Assumptions C80_jump.

Lemma vnorm_x x y z : 0 <= x -> y = 0 -> z = 0 -> vnorm (V3 x y z) = x.
Proof.
  intros H -> ->. unfold vnorm, vdot. cbn [v3x v3y v3z].
  replace (x * x + 0 * 0 + 0 * 0) with (x * x) by ring. now apply sqrt_square.
Qed.

Lemma vnorm_xm x y z : 0 <= x -> y = 0 -> z = 0 -> vnorm (V3 (- x) y z) = x.
Proof.
  intros H -> ->. unfold vnorm, vdot. cbn [v3x v3y v3z].
  replace (- x * - x + 0 * 0 + 0 * 0) with (x * x) by ring. now apply sqrt_square.
Qed.

Lemma pole_dist_x f : 0 < f -> pole_dist f 1 1 (V3 1 0 0) = f / 100000.
Proof.
  intros Hf. unfold pole_dist. unfold vscale. cbn [v3x v3y v3z]. rewrite vnorm_x by lra. field.
Qed.

Lemma half_axis_x f : 0 < f -> half_axis f 1 1 (V3 1 0 0) = V3 (f / 200000) 0 0.
Proof.
  intros Hf. unfold half_axis. rewrite pole_dist_x by assumption. unfold vunit, vscale. cbn [v3x v3y v3z].
  rewrite vnorm_x by lra. apply v3_eq; cbn [v3x v3y v3z]; field.
Qed.

(** The example: c = fs = up = 1, axis and microphone on the x axis. *)
Definition dip_example (start : R) : dipole :=
  mkDipole [0; 1] 1 1 1 0 start (V3 1 0 0) (V3 0 0 0).

Lemma dip_example_dist :
  let e := half_axis 1 1 1 (V3 1 0 0) in
  edist (V3 0 0 0) (V3 1 0 0) = 1
  /\ edist (vadd (V3 0 0 0) e) (V3 1 0 0) = 1 - 1 / 200000
  /\ edist (vsub (V3 0 0 0) e) (V3 1 0 0) = 1 + 1 / 200000.
Proof.
  cbv zeta. rewrite half_axis_x by lra. unfold edist, vsub, vadd. cbn [v3x v3y v3z].
  split; [|split]; rewrite ?vnorm_x by lra; try lra.
Qed.

(** C80 as a whole (a microphone receives s cos(theta)/r for some value s of the
    signal) is false: values of the signal between 0 and 1, microphone at
    distance 1 on the axis, sample of more than 100000. *)
Theorem C80_jump_refuted : exists o m,
  (forall s, In s (d_signal o) -> 0 <= s <= 1) /\ edist (d_loc o) m = 1 /\ cos_angle (d_dir o) (vsub m (d_loc o)) = 1
  /\ (let e := half_axis 1 (d_c o) (d_fs o) (d_dir o) in
      in_signal o 2 (edist (vadd (d_loc o) e) m) /\ in_signal o 2 (edist (vsub (d_loc o) e) m))
  /\ 100000 < two_poles edist o 1 m.
Proof.
  exists (dip_example (1 / 2)), (V3 1 0 0). unfold dip_example.
  cbn [d_signal d_c d_fs d_up d_start_t d_start d_dir d_loc].
  destruct dip_example_dist as (D0 & D1 & D2).
  split; [intros s [<-|[<-|[]]]; lra|]. split; [exact D0|]. split; [|split].
  - unfold cos_angle, vunit. rewrite vnorm_x by lra.
    unfold vdot, vscale, vsub. cbn [v3x v3y v3z]. rewrite vnorm_x by lra. field.
  - cbv zeta. rewrite D1, D2. unfold in_signal.
    cbn [d_signal d_c d_fs d_up d_start_t d_start d_dir d_loc]. simpl INR. split; lra.
  - unfold two_poles. cbn [d_signal d_c d_fs d_up d_start_t d_start d_dir d_loc].
    rewrite D0, D1, D2. rewrite pole_dist_x by lra. unfold emitted.
    cbn [d_signal d_c d_fs d_up d_start_t d_start d_dir d_loc]. unfold sample_at.
    assert (R1 : rnd ((1 / 2 + INR 1 / 1 - (1 - 1 / 200000) / 1 - 0) * 1 * INR 1) = 1%Z).
    { simpl INR. apply Z.le_antisymm.
      - apply Zlt_succ_le. apply rnd_lt; [lia|]. simpl. lra.
      - apply rnd_ge; [lia|]. simpl. lra. }
    assert (R2 : rnd ((1 / 2 + INR 1 / 1 - (1 + 1 / 200000) / 1 - 0) * 1 * INR 1) = 0%Z).
    { simpl INR. apply Z.le_antisymm.
      - apply Zlt_succ_le. apply rnd_lt; [lia|]. simpl. lra.
      - apply rnd_ge; [lia|]. simpl. lra. }
    rewrite R1, R2. cbn [length Z.of_nat]. change (Z.to_nat (1 mod Z.pos (Pos.of_succ_nat 1))) with 1%nat.
    change (Z.to_nat (0 mod Z.pos (Pos.of_succ_nat 1))) with 0%nat. cbn [nth].
    apply Rlt_le_trans with (100000 * (1 / (1 - 1 / 200000))); [|right; field; lra]. 
    apply Rmult_lt_reg_r with (1 - 1 / 200000); [lra|]. field_simplify; lra.
Qed.
Print Assumptions C80_jump_refuted.

(** The same source, half a sample later: the hypotheses of the theorems above
    are met. *)
Example C80_case :
  let o := dip_example 0 in
  let m := V3 1 0 0 in
  let e := half_axis 1 (d_c o) (d_fs o) (d_dir o) in
  let x p := emitted o 1 (edist p m) in
  in_signal o 2 (edist (vadd (d_loc o) e) m) /\ in_signal o 2 (edist (vsub (d_loc o) e) m)
  /\ x (vadd (d_loc o) e) = 0 /\ x (vsub (d_loc o) e) = 0
  /\ pole_dist 1 (d_c o) (d_fs o) (d_dir o) < 2 * edist (d_loc o) m
  /\ vdot (d_dir o) (vsub (V3 0 1 0) (d_loc o)) = 0.
Proof.
  cbv zeta. unfold dip_example. cbn [d_signal d_c d_fs d_up d_start_t d_start d_dir d_loc].
  destruct dip_example_dist as (D0 & D1 & D2). rewrite D0, D1, D2, pole_dist_x by lra.
  unfold in_signal, emitted, sample_at. cbn [d_signal d_c d_fs d_up d_start_t d_start d_dir d_loc]. simpl INR.
  split; [lra|]. split; [lra|]. split; [|split; [|split; [lra|unfold vdot, vsub; cbn [v3x v3y v3z]; ring]]].
  - replace (rnd _) with 0%Z; [reflexivity|]. symmetry. apply Z.le_antisymm.
    + apply Zlt_succ_le. apply rnd_lt; [lia|]. simpl. lra.
    + apply rnd_ge; [lia|]. simpl. lra.
  - replace (rnd _) with 0%Z; [reflexivity|]. symmetry. apply Z.le_antisymm.
    + apply Zlt_succ_le. apply rnd_lt; [lia|]. simpl. lra.
    + apply rnd_ge; [lia|]. simpl. lra.
Qed.

(** C81.  A MovingPointSourceDipole at rest ([rvec] = 0): every channel depends
    on its own microphone only and receives the delayed value of the signal
    times cos(theta)/r, up to third order in the distance of the poles.  (The
    delay contains [start] twice, see C63.) *)
Theorem C81_at_rest_partial iters o conv p mics k :
  0 < d_c o -> 0 < d_fs o -> (0 < d_up o)%nat -> 1 / 10 / INR (d_up o) / d_fs o < 1 -> (0 < iters)%nat -> mics <> [] ->
  d_dir o <> V3 0 0 0 ->
  let d := pole_dist 2 (d_c o) (d_fs o) (d_dir o) in
  exists gain : v3 -> R,
    moving_dipole_row iters o conv (V3 0 0 0) (fun _ => p) (fun _ => V3 0 0 0) mics k
    = sequence (map (fun m =>
        option_map (fun s => s * gain m)
          (py_nth (d_signal o) (rnd ((d_start o + INR k / d_fs o - edist p m / d_c o - d_start_t o + d_start o)
                                     * d_fs o * INR (d_up o))))) mics)
    /\ forall m, d < 2 * edist p m ->
       let r := edist p m in
       let ct := cos_angle (d_dir o) (vsub m p) in
       Rabs (gain m - ct / r) <= Rabs ct / r * ((r / (r - d / 2)) ^ 3 - 1).
Proof.
  intros Hc Hfs Hup He Hit Hm Hdir d.
  set (e := half_axis 2 (d_c o) (d_fs o) (d_dir o)).
  exists (fun m => edist p m / d * (/ edist (vadd p e) m - / edist (vsub p e) m)). split.
  - destruct mics as [|m0 mics]; [congruence|].
    rewrite moving_const; auto.
    2:{ intros x. unfold vdot. cbn [v3x v3y v3z]. ring. }
    f_equal. apply map_ext. intros m. unfold circ_value. cbv zeta. fold d e.
    replace (moving_axis (V3 0 0 0) (V3 0 0 0) e) with e.
    2:{ unfold moving_axis. now rewrite (proj2 (v3_zero_spec (V3 0 0 0)) eq_refl). }
    unfold pole_value. destruct (py_nth (d_signal o) _); cbn [option_map]; [|reflexivity].
    f_equal. unfold Rdiv. ring.
  - intros m Hd. apply (pole_gain 2 (d_c o) (d_fs o) (d_dir o) p m); auto. lra.
Qed.
Print Assumptions C81_at_rest_partial.

(** The rows are delivered in full blocks and a rest, after them a last empty
    block when [num] divides the number of samples (C21). *)
Theorem C81_blocks iters o conv rvec traj vel mics ns num rows :
  (0 < num)%nat ->
  (forall k, (k < ns)%nat -> moving_dipole_row iters o conv rvec traj vel mics k = Some (rows k)) ->
  moving_dipole iters o conv rvec traj vel mics ns num
  = done (chunks num (map rows (seq 0 ns)) ++ (if (ns mod num =? 0)%nat then [[]] else [])).
Proof.
  intros Hn H. unfold moving_dipole.
  rewrite (sample_loop_always _ num ns (map rows (seq 0 ns)) Hn).
  - rewrite map_length, seq_length. destruct ns as [|ns]; [reflexivity|].
    specialize (H 0%nat ltac:(lia)). unfold moving_dipole_row in H.
    destruct (dip_times iters o traj vel mics 0); [reflexivity|discriminate].
  - unfold allowed. rewrite map_length, seq_length. split; [lia|]. split; [|lia].
    intros k Hk. rewrite H by exact Hk.
    rewrite nth_error_map, (nth_error_nth' _ 0%nat) by (now rewrite seq_length).
    cbn [option_map]. now rewrite seq_nth.
Qed.
Print Assumptions C81_blocks.

(** Any trajectory, any [rvec]: the reversed dipole gives the opposite sound. *)
Theorem C81_reversed iters o conv rvec traj vel mics k :
  moving_dipole_row iters (reversed o) conv rvec traj vel mics k
  = option_map neg_row (moving_dipole_row iters o conv rvec traj vel mics k).
Proof. exact (moving_reversed iters o conv rvec traj vel mics k). Qed.
Print Assumptions C81_reversed.

(** False: that [conv_amp] scales the amplitude.  For every trajectory whose
    radial Mach number never is 1 it changes nothing at all. *)
Theorem C81_conv_amp_refuted : forall iters o rvec traj vel mics k,
  (forall x, vdot (vel x) (vunit (traj x)) / d_c o <> 1) ->
  moving_dipole_row iters o true rvec traj vel mics k = moving_dipole_row iters o false rvec traj vel mics k.
Proof. exact moving_conv_amp. Qed.
Print Assumptions C81_conv_amp_refuted.

(** False: that with [rvec] the axis of the dipole keeps its direction in the
    moving frame (x axis ahead, z axis along [rvec]).  An axis ahead is turned
    to the side, an axis along [rvec] vanishes, and with it the sound: the
    default direction (0,0,1) is silent on every path perpendicular to [rvec]. *)
Theorem C81_axis_refuted : forall rvec v h, rvec <> V3 0 0 0 -> vdot rvec v = 0 ->
  vdot (moving_axis rvec v (V3 h 0 0)) v = 0 /\ moving_axis rvec v (V3 0 0 h) = V3 0 0 0.
Proof. intros rvec v h Hr Hv. split; [now apply moving_axis_x|now apply moving_axis_z]. Qed.
Print Assumptions C81_axis_refuted.

Theorem C81_silent_refuted : forall iters o conv rvec traj vel mics k row,
  rvec <> V3 0 0 0 -> (forall x, vdot rvec (vel x) = 0) -> d_dir o = V3 0 0 1 ->
  moving_dipole_row iters o conv rvec traj vel mics k = Some row ->
  forall v, In v row -> v = 0.
Proof. exact moving_silent. Qed.
Print Assumptions C81_silent_refuted.

(** False: that a channel does not depend on the other microphones.  The source
    circles (radius 20, Mach number below 1/2) around an axis with two
    microphones; what the one in the centre receives depends on whether it is
    listed first. *)
Definition circle (x : R) : v3 := V3 (20 * cos x) (20 * sin x) 0.
Definition circle_vel (x : R) : v3 := V3 (- 20 * sin x) (20 * cos x) 0.
Definition circ_example : dipole :=
  let c := 162 / PI in
  let start := 101 / c + PI / 2 in
  mkDipole [1; 1] c 1 1 (PI + start) start (V3 1 0 0) (V3 0 0 0).

Lemma circle_dist x z r : 0 <= r -> 400 + z * z = r * r -> edist (circle x) (V3 0 0 z) = r.
Proof.
  intros Hr E. unfold edist, vnorm, vdot, vsub, circle. cbn [v3x v3y v3z].
  transitivity (sqrt (r * r)); [|now apply sqrt_square]. f_equal. rewrite <- E.
  pose proof (sin2_cos2 x) as S. unfold Rsqr in S. nra.
Qed.

Theorem C81_order_refuted : exists o traj vel m1 m2 v1 v2 w1 w2,
  (forall x, derivable_pt_lim (fun t => v3x (traj t)) x (v3x (vel x))
          /\ derivable_pt_lim (fun t => v3y (traj t)) x (v3y (vel x))
          /\ derivable_pt_lim (fun t => v3z (traj t)) x (v3z (vel x)))
  /\ (forall x, 2 * vnorm (vel x) < d_c o)
  /\ moving_dipole_row 100 o false (V3 0 0 0) traj vel [m1; m2] 0 = Some [v1; v2]
  /\ moving_dipole_row 100 o false (V3 0 0 0) traj vel [m2; m1] 0 = Some [w2; w1]
  /\ v1 <> 0 /\ w1 = 0.
Proof.
  set (c := 162 / PI). pose proof PI_RGT_0 as HP. pose proof PI_4 as HP4.
  assert (Hc : 0 < c) by (unfold c; apply Rdiv_lt_0_compat; lra).
  assert (Hc40 : 81 / 2 <= c).
  { unfold c. apply Rmult_le_reg_r with PI; [assumption|]. replace (162 / PI * PI) with 162 by (field; lra). lra. }
  set (start := 101 / c + PI / 2).
  exists circ_example, circle, circle_vel, (V3 0 0 0), (V3 0 0 99).
  set (d := pole_dist 2 c 1 (V3 1 0 0)). set (h := d / 2).
  assert (Hd : d = c * (2 / 100000)).
  { unfold d, pole_dist, vscale. cbn [v3x v3y v3z]. rewrite vnorm_x by lra. field. }
  assert (He : half_axis 2 c 1 (V3 1 0 0) = V3 h 0 0).
  { unfold half_axis. fold d. unfold vunit, vscale. cbn [v3x v3y v3z]. rewrite vnorm_x by lra.
    fold h. apply v3_eq; cbn [v3x v3y v3z]; field. }
  assert (Hh : 0 < h < 1).
  { unfold h. rewrite Hd. split; [lra|]. unfold c.
    apply Rmult_lt_reg_r with PI; [assumption|].
    replace (162 / PI * (2 / 100000) / 2 * PI) with (162 / 100000) by (field; lra).
    pose proof PI2_1. lra. }
  assert (Hvel : forall x, vdot (circle_vel x) (vunit (circle x)) = 0).
  { intros x. unfold vunit, vdot, vscale, circle, circle_vel. cbn [v3x v3y v3z]. ring. }
  assert (D0 : forall x, edist (circle x) (V3 0 0 0) = 20) by (intros; apply circle_dist; lra).
  assert (D1 : forall x, edist (circle x) (V3 0 0 99) = 101) by (intros; apply circle_dist; lra).
  assert (Hconst : forall m x y, In m [V3 0 0 0; V3 0 0 99] -> edist (circle x) m = edist (circle y) m).
  { intros m x y [<-|[<-|[]]]; [now rewrite !D0|now rewrite !D1]. }
  assert (Hconst' : forall m x y, In m [V3 0 0 99; V3 0 0 0] -> edist (circle x) m = edist (circle y) m).
  { intros m x y Hm. apply Hconst. cbn [In] in *. tauto. }
  assert (Ax : forall v e, moving_axis (V3 0 0 0) v e = e).
  { intros v e. unfold moving_axis. now rewrite (proj2 (v3_zero_spec (V3 0 0 0)) eq_refl). }
  assert (Hcs : 81 / c = PI / 2) by (unfold c; field; lra).
  assert (T0 : start + INR 0 / 1 - 20 / c = PI).
  { unfold start. simpl INR. replace (101 / c) with (81 / c + 20 / c) by (field; lra). rewrite Hcs. lra. }
  assert (T1 : start + INR 0 / 1 - 101 / c = PI / 2) by (unfold start; simpl INR; lra).
  assert (I0 : py_nth [1; 1] (rnd ((PI - (PI + start) + start) * 1 * INR 1)) = Some 1).
  { replace ((PI - (PI + start) + start) * 1 * INR 1) with (IZR 0) by (simpl; lra). rewrite rnd_int by lia. reflexivity. }
  assert (I1 : exists u, py_nth [1; 1] (rnd ((PI / 2 - (PI + start) + start) * 1 * INR 1)) = Some u).
  { set (i := (PI / 2 - (PI + start) + start) * 1 * INR 1).
    assert (Hi : i = - PI / 2) by (unfold i; simpl; lra).
    pose proof (rnd_lt i 1 ltac:(lia) ltac:(rewrite Hi; lra)).
    pose proof (rnd_gt_neg i (-1) ltac:(lia) ltac:(rewrite Hi; lra)).
    rewrite py_nth_wrap by (cbn [length]; lia). eexists. reflexivity. }
  destruct I1 as [u I1].
  do 4 eexists.
  split.
  { intros x. unfold circle, circle_vel. cbn [v3x v3y v3z]. repeat split.
    - replace (- 20 * sin x) with (20 * (- sin x)) by ring. apply derivable_pt_lim_scal, derivable_pt_lim_cos.
    - apply derivable_pt_lim_scal, derivable_pt_lim_sin.
    - apply derivable_pt_lim_const. }
  split.
  { intros x. change (d_c circ_example) with c.
    assert (vnorm (circle_vel x) = 20) as ->; [|lra].
    unfold vnorm, vdot, circle_vel. cbn [v3x v3y v3z]. transitivity (sqrt (20 * 20)); [|apply sqrt_square; lra].
    f_equal. pose proof (sin2_cos2 x) as S. unfold Rsqr in S. nra. }
  assert (Heps : 1 / 10 / INR (d_up circ_example) / d_fs circ_example < 1) by (cbn; lra).
  rewrite !moving_const; auto; try (cbn; lra); try (cbn; lia); try (apply Nat.lt_0_succ).
  cbn [map]. unfold circ_value. cbv zeta.
  change (d_start circ_example) with start. change (d_c circ_example) with c. change (d_fs circ_example) with 1.
  change (d_up circ_example) with 1%nat. change (d_dir circ_example) with (V3 1 0 0).
  change (d_start_t circ_example) with (PI + start). change (d_signal circ_example) with [1; 1].
  fold d. rewrite He, !Ax, !D0, !D1, !T0, !T1. unfold pole_value. rewrite I0, I1. cbn [sequence].
  assert (A1 : edist (vadd (circle PI) (V3 h 0 0)) (V3 0 0 0) = 20 - h).
  { unfold edist, circle, vadd, vsub. cbn [v3x v3y v3z]. rewrite cos_PI, sin_PI.
    replace (0 - (20 * -1 + h)) with (20 - h) by ring. apply vnorm_x; lra. }
  assert (A2 : edist (vsub (circle PI) (V3 h 0 0)) (V3 0 0 0) = 20 + h).
  { unfold edist, circle, vadd, vsub. cbn [v3x v3y v3z]. rewrite cos_PI, sin_PI.
    replace (0 - (20 * -1 - h)) with (20 + h) by ring. apply vnorm_x; lra. }
  assert (B : edist (vadd (circle (PI / 2)) (V3 h 0 0)) (V3 0 0 0) = edist (vsub (circle (PI / 2)) (V3 h 0 0)) (V3 0 0 0)).
  { unfold edist, circle, vadd, vsub, vnorm, vdot. cbn [v3x v3y v3z]. rewrite cos_PI2, sin_PI2. f_equal. ring. }
  split; [reflexivity|]. split; [reflexivity|]. split.
  - rewrite A1, A2. apply Rmult_integral_contrapositive_currified.
    + apply Rgt_not_eq, Rdiv_lt_0_compat; [lra|]. fold h in Hh. unfold h in Hh. lra.
    + replace (1 / (20 - h) - 1 / (20 + h)) with (2 * h / ((20 - h) * (20 + h))) by (field; lra).
      apply Rgt_not_eq, Rdiv_lt_0_compat; nra.
  - rewrite B. rewrite Rminus_diag_eq by reflexivity. ring.
Qed.
Print Assumptions C81_order_refuted.

(** Other instances: the path above is perpendicular to (0,0,1) and has radial
    Mach number 0, and the rows of a dipole on it exist. *)
Example C81_case :
  (forall x, vdot (V3 0 0 1) (circle_vel x) = 0)
  /\ (forall x, vdot (circle_vel x) (vunit (circle x)) / d_c circ_example <> 1)
  /\ 1 / 10 / INR (d_up circ_example) / d_fs circ_example < 1 /\ 0 < d_c circ_example
  /\ moving_axis (V3 0 0 1) (V3 0 1 0) (V3 1 0 0) = V3 1 0 0.
Proof.
  assert (0 < d_c circ_example) by (cbn; apply Rdiv_lt_0_compat; pose proof PI_RGT_0; lra).
  split; [|split; [|split; [cbn; lra|split; [assumption|]]]].
  - intros x. unfold vdot, circle_vel. cbn [v3x v3y v3z]. ring.
  - intros x. replace (vdot (circle_vel x) (vunit (circle x))) with 0.
    + unfold Rdiv. rewrite Rmult_0_l. lra.
    + unfold vunit, vdot, vscale, circle, circle_vel. cbn [v3x v3y v3z]. ring.
  - unfold moving_axis. rewrite v3_zero_false by (intros E; injection E; lra).
    unfold frame_axis, vunit. assert (vnorm (V3 0 1 0) = 1) as ->.
    { unfold vnorm, vdot. cbn [v3x v3y v3z]. replace (0 * 0 + 1 * 1 + 0 * 0) with 1 by ring. apply sqrt_1. }
    apply v3_eq; cbn [v3x v3y v3z vscale vadd vcross]; rewrite ?Rinv_1; ring.
Qed.
