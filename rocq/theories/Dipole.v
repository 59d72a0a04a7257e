(** Dipole sources (properties C80, C81): PointSourceDipole and
    MovingPointSourceDipole (sources.py:1210-1580).

    Modelled: geometry, delayed indices, the loops over the samples, emission
    times (PointSources.v), rotation of the dipole axis.
    Not modelled: reuse of the block buffer (C25), float rounding, splines of
    the trajectory (any functions here). *)
From Coq Require Import List Arith Lia ZArith Bool Reals Lra FunctionalExtensionality.
From Verif Require Import Stream Wav Environ PointSources.
Import ListNotations.
Local Open Scope R_scope.

(* ------------------------------------------------------------------ *)
(** * PointSourceDipole *)

(** Distance between the two monopoles, sources.py:1292-1302 ([f] = 1) and
    1516-1524 ([f] = 2, moving source). *)
Definition pole_dist (f c fs : R) (dir : v3) : R := c / fs * vnorm (vscale (1 / 100000) dir) * f.

(** [dir2 = direc_n * dist / 2.0], sources.py:1305, 1527. *)
Definition half_axis (f c fs : R) (dir : v3) : v3 :=
  vscale (pole_dist f c fs dir / 2) (vunit (vscale (1 / 100000) dir)).

(** One value, sources.py:1329-1336: [i1], [i2] the delayed indices times [up]. *)
Definition pole_value (signal : list R) (d i1 i2 r r1 r2 : R) : option R :=
  match py_nth signal (rnd i1), py_nth signal (rnd i2) with
  | Some s1, Some s2 => Some (r / d * (s1 / r1 - s2 / r2))
  | _, _ => None
  end.

(** The source: everything but the microphones. [rd]: env._r. *)
Record dipole := mkDipole {
  d_signal : list R; d_c : R; d_fs : R; d_up : nat; d_start_t : R; d_start : R; d_dir : v3; d_loc : v3 }.

(** First delayed index (in samples) for a monopole at distance [r],
    sources.py:1318-1319. *)
Definition pole_ind (o : dipole) (r : R) : R := (- r / d_c o - d_start_t o + d_start o) * d_fs o.

(** Row [k] of the output, sources.py:1311-1338. *)
Definition dipole_row (rd : v3 -> v3 -> R) (o : dipole) (mics : list v3) (k : nat) : option (list R) :=
  let d := pole_dist 1 (d_c o) (d_fs o) (d_dir o) in
  let e := half_axis 1 (d_c o) (d_fs o) (d_dir o) in
  sequence (map (fun m =>
    let r := rd (d_loc o) m in
    let r1 := rd (vadd (d_loc o) e) m in
    let r2 := rd (vsub (d_loc o) e) m in
    pole_value (d_signal o) d ((pole_ind o r1 + INR k) * INR (d_up o)) ((pole_ind o r2 + INR k) * INR (d_up o))
      r r1 r2) mics).

(** PointSourceDipole.result, sources.py:1265-1350. *)
Definition dipole_source rd o mics (ns num : nat) : trace (list R) :=
  done (sample_loop (dipole_row rd o mics) (fun b => b) flush_always num ns 0 []).

(** The distance in the quiescent environment, environments.py:Environment._r. *)
Definition edist (p m : v3) : R := vnorm (vsub m p).

(** ** Specification *)

(** The emitted signal at (up-sampled) index [x], repeated before its start. *)
Definition sample_at (signal : list R) (x : R) : R :=
  nth (Z.to_nat (rnd x mod Z.of_nat (length signal))) signal 0.

(** The value emitted at distance [r] that arrives with sample [k]: retarded
    time, relative to [start_t], in (up-sampled) samples. *)
Definition emitted (o : dipole) (k : nat) (r : R) : R :=
  sample_at (d_signal o) ((d_start o + INR k / d_fs o - r / d_c o - d_start_t o) * d_fs o * INR (d_up o)).

(** Two monopoles in opposite phase, [d] apart, scaled with r/d. *)
Definition two_poles (rd : v3 -> v3 -> R) (o : dipole) (k : nat) (m : v3) : R :=
  let d := pole_dist 1 (d_c o) (d_fs o) (d_dir o) in
  let e := half_axis 1 (d_c o) (d_fs o) (d_dir o) in
  let mono p := emitted o k (rd p m) / rd p m in
  rd (d_loc o) m / d * (mono (vadd (d_loc o) e) - mono (vsub (d_loc o) e)).

(** Both monopoles' indices stay inside the signal (once repeated) for [ns]
    samples. *)
Definition in_signal (o : dipole) (ns : nat) (r : R) : Prop :=
  - INR (d_up o * ns) - 3 / 2 < (d_start o - r / d_c o - d_start_t o) * d_fs o * INR (d_up o) < INR (d_up o) - 1 / 2.

Lemma pole_ind_eq o r : pole_ind o r = (d_start o - r / d_c o - d_start_t o) * d_fs o.
Proof. unfold pole_ind, Rdiv. ring. Qed.

Lemma pole_sample (o : dipole) ns r k :
  length (d_signal o) = (d_up o * ns)%nat -> (0 < d_up o)%nat -> d_fs o <> 0 -> (k < ns)%nat -> in_signal o ns r ->
  py_nth (d_signal o) (rnd ((pole_ind o r + INR k) * INR (d_up o))) = Some (emitted o k r).
Proof.
  intros HL Hup Hfs Hk H. unfold in_signal in H. rewrite <- pole_ind_eq in H. destruct H as [H1 H2].
  unfold emitted, sample_at.
  replace ((d_start o + INR k / d_fs o - r / d_c o - d_start_t o) * d_fs o * INR (d_up o))
    with ((pole_ind o r + INR k) * INR (d_up o)).
  2:{ rewrite pole_ind_eq. unfold Rdiv at 2.
      transitivity (((d_start o - r / d_c o - d_start_t o) * d_fs o + INR k * (/ d_fs o * d_fs o)) * INR (d_up o)); [|ring].
      rewrite Rinv_l by assumption. ring. }
  set (x := (pole_ind o r + INR k) * INR (d_up o)).
  assert (U : 0 < INR (d_up o)) by (apply lt_0_INR; assumption).
  assert (K : INR k + 1 <= INR ns) by (rewrite <- S_INR; apply le_INR; lia).
  assert (K0 : 0 <= INR k) by apply pos_INR.
  assert (P : INR (d_up o * ns) = INR (d_up o) * INR ns) by apply mult_INR.
  assert (hi : x < INR (d_up o * ns) - 1 / 2).
  { unfold x. rewrite P. nra. }
  assert (lo : - INR (d_up o * ns) - 3 / 2 < x).
  { unfold x. nra. }
  assert (Z.of_nat (d_up o * ns) > 0)%Z by nia.
  assert (A : (rnd x < Z.of_nat (d_up o * ns))%Z) by (apply rnd_lt; [lia|]; rewrite <- INR_IZR_INZ; lra).
  assert (B : (- Z.of_nat (d_up o * ns) - 1 < rnd x)%Z).
  { apply rnd_gt_neg; [lia|]. rewrite opp_IZR, <- INR_IZR_INZ. lra. }
  rewrite py_nth_wrap by (rewrite HL; lia). reflexivity.
Qed.

Lemma dipole_rows rd o mics ns k :
  length (d_signal o) = (d_up o * ns)%nat -> (0 < d_up o)%nat -> d_fs o <> 0 -> (k < ns)%nat ->
  let e := half_axis 1 (d_c o) (d_fs o) (d_dir o) in
  (forall m, In m mics -> in_signal o ns (rd (vadd (d_loc o) e) m) /\ in_signal o ns (rd (vsub (d_loc o) e) m)) ->
  dipole_row rd o mics k = Some (map (two_poles rd o k) mics).
Proof.
  intros HL Hup Hfs Hk e H. unfold dipole_row. apply sequence_some. intros m Hm.
  destruct (H m Hm) as [H1 H2]. unfold pole_value, two_poles. fold e. cbv zeta.
  rewrite (pole_sample o ns _ k HL Hup Hfs Hk H1), (pole_sample o ns _ k HL Hup Hfs Hk H2). reflexivity.
Qed.

Theorem dipole_spec rd o mics ns num :
  (0 < num)%nat -> length (d_signal o) = (d_up o * ns)%nat -> (0 < d_up o)%nat -> d_fs o <> 0 ->
  let e := half_axis 1 (d_c o) (d_fs o) (d_dir o) in
  (forall m, In m mics -> in_signal o ns (rd (vadd (d_loc o) e) m) /\ in_signal o ns (rd (vsub (d_loc o) e) m)) ->
  dipole_source rd o mics ns num
  = done (chunks num (map (fun k => map (two_poles rd o k) mics) (seq 0 ns))
          ++ (if (ns mod num =? 0)%nat then [[]] else [])).
Proof.
  intros Hn HL Hup Hfs e H. unfold dipole_source. f_equal.
  rewrite (sample_loop_always _ num ns (map (fun k => map (two_poles rd o k) mics) (seq 0 ns)) Hn).
  - now rewrite map_length, seq_length.
  - unfold allowed. rewrite map_length, seq_length. split; [lia|]. split; [|lia].
    intros k Hk. rewrite (dipole_rows rd o mics ns k HL Hup Hfs Hk H).
    rewrite nth_error_map, (nth_error_nth' _ 0%nat) by (now rewrite seq_length).
    cbn [option_map]. now rewrite seq_nth.
Qed.

(** ** Vectors *)

Lemma vnorm_opp a : vnorm (vscale (-1) a) = vnorm a.
Proof. unfold vnorm, vdot, vscale. cbn [v3x v3y v3z]. f_equal. ring. Qed.

Lemma vnorm_ge0 a : 0 <= vnorm a.
Proof. apply sqrt_pos. Qed.

Lemma cauchy a b : Rabs (vdot a b) <= vnorm a * vnorm b.
Proof.
  apply Rsqr_incr_0_var; [|apply Rmult_le_pos; apply vnorm_ge0].
  rewrite <- Rsqr_abs. unfold Rsqr.
  replace (vnorm a * vnorm b * (vnorm a * vnorm b)) with ((vnorm a * vnorm a) * (vnorm b * vnorm b)) by ring.
  rewrite !vnorm_sq. destruct a as [a1 a2 a3], b as [b1 b2 b3]. unfold vdot. cbn [v3x v3y v3z].
  pose proof (Rle_0_sqr (a1 * b2 - a2 * b1)). pose proof (Rle_0_sqr (a1 * b3 - a3 * b1)).
  pose proof (Rle_0_sqr (a2 * b3 - a3 * b2)). unfold Rsqr in *. nra.
Qed.

Lemma half_axis_opp f c fs dir : half_axis f c fs (vscale (-1) dir) = vscale (-1) (half_axis f c fs dir).
Proof.
  unfold half_axis, pole_dist, vunit.
  replace (vscale (1 / 100000) (vscale (-1) dir)) with (vscale (-1) (vscale (1 / 100000) dir))
    by (apply v3_eq; cbn [v3x v3y v3z vscale]; ring).
  rewrite vnorm_opp. apply v3_eq; cbn [v3x v3y v3z vscale]; ring.
Qed.

Lemma pole_dist_opp f c fs dir : pole_dist f c fs (vscale (-1) dir) = pole_dist f c fs dir.
Proof.
  unfold pole_dist.
  replace (vscale (1 / 100000) (vscale (-1) dir)) with (vscale (-1) (vscale (1 / 100000) dir))
    by (apply v3_eq; cbn [v3x v3y v3z vscale]; ring).
  now rewrite vnorm_opp.
Qed.

Definition reversed (o : dipole) : dipole :=
  mkDipole (d_signal o) (d_c o) (d_fs o) (d_up o) (d_start_t o) (d_start o) (vscale (-1) (d_dir o)) (d_loc o).

Definition neg_row (l : list R) : list R := map Ropp l.

Lemma sequence_neg {A} (f g : A -> option R) l :
  (forall x, g x = option_map Ropp (f x)) ->
  sequence (map g l) = option_map neg_row (sequence (map f l)).
Proof.
  intros H. induction l as [|a l IH]; cbn [map sequence]; [reflexivity|].
  rewrite H, IH. destruct (f a); cbn [option_map]; [|reflexivity]. destruct (sequence (map f l)); reflexivity.
Qed.

(** In every environment a dipole turned around gives the opposite sound. *)
Theorem dipole_reversed rd o mics k :
  dipole_row rd (reversed o) mics k = option_map neg_row (dipole_row rd o mics k).
Proof.
  unfold dipole_row. apply sequence_neg. intros m. unfold reversed.
  cbn [d_signal d_c d_fs d_up d_start_t d_start d_dir d_loc].
  rewrite half_axis_opp, pole_dist_opp.
  set (e := half_axis _ _ _ _).
  replace (vadd (d_loc o) (vscale (-1) e)) with (vsub (d_loc o) e)
    by (apply v3_eq; cbn [v3x v3y v3z vadd vsub vscale]; ring).
  replace (vsub (d_loc o) (vscale (-1) e)) with (vadd (d_loc o) e)
    by (apply v3_eq; cbn [v3x v3y v3z vadd vsub vscale]; ring).
  unfold pole_value, pole_ind. cbn [d_signal d_c d_fs d_up d_start_t d_start d_dir d_loc].
  destruct (py_nth (d_signal o) _); destruct (py_nth (d_signal o) _); cbn [option_map]; try reflexivity.
  f_equal. ring.
Qed.

(** The factor of the two monopoles, for [e] = half the axis vector. *)
Definition cos_angle (dir x : v3) : R := vdot (vunit dir) x / vnorm x.

Lemma poles_sq loc e m :
  edist (vadd loc e) m * edist (vadd loc e) m
  = edist loc m * edist loc m - 2 * vdot e (vsub m loc) + vdot e e
  /\ edist (vsub loc e) m * edist (vsub loc e) m
  = edist loc m * edist loc m + 2 * vdot e (vsub m loc) + vdot e e.
Proof.
  unfold edist. rewrite !vnorm_sq. unfold vdot, vsub, vadd. cbn [v3x v3y v3z]. split; ring.
Qed.

Lemma poles_near loc e m :
  Rabs (edist (vadd loc e) m - edist loc m) <= vnorm e /\ Rabs (edist (vsub loc e) m - edist loc m) <= vnorm e.
Proof.
  destruct (poles_sq loc e m) as [S1 S2].
  pose proof (cauchy e (vsub m loc)) as C. change (vnorm (vsub m loc)) with (edist loc m) in C.
  rewrite <- (vnorm_sq e) in S1, S2.
  pose proof (vnorm_ge0 e). pose proof (vnorm_ge0 (vsub m loc)) as G. change (vnorm (vsub m loc)) with (edist loc m) in G.
  pose proof (vnorm_ge0 (vsub m (vadd loc e))) as G1. change (vnorm (vsub m (vadd loc e))) with (edist (vadd loc e) m) in G1.
  pose proof (vnorm_ge0 (vsub m (vsub loc e))) as G2. change (vnorm (vsub m (vsub loc e))) with (edist (vsub loc e) m) in G2.
  set (a := edist (vadd loc e) m) in *. set (b := edist (vsub loc e) m) in *. set (r := edist loc m) in *.
  set (n := vnorm e) in *. set (t := vdot e (vsub m loc)) in *.
  assert (T : - (n * r) <= t <= n * r) by (split; unfold Rabs in C; destruct (Rcase_abs t); lra).
  assert (SQ : forall x y, 0 <= y -> x * x <= y * y -> x <= y) by (intros x y Hy Hxy; now apply Rsqr_incr_0_var).
  assert (r - n <= a) by (apply SQ; [assumption|]; rewrite S1; nra).
  assert (r - n <= b) by (apply SQ; [assumption|]; rewrite S2; nra).
  assert (a <= r + n) by (apply SQ; [lra|]; rewrite S1; nra).
  assert (b <= r + n) by (apply SQ; [lra|]; rewrite S2; nra).
  split; apply Rabs_le; lra.
Qed.

Lemma vunit_scale s a : 0 < s -> a <> V3 0 0 0 -> vunit (vscale s a) = vunit a.
Proof.
  intros Hs Ha. unfold vunit. pose proof (vnorm_pos a Ha).
  assert (E : vnorm (vscale s a) = s * vnorm a).
  { unfold vnorm. replace (vdot (vscale s a) (vscale s a)) with ((s * s) * vdot a a)
      by (unfold vdot, vscale; cbn [v3x v3y v3z]; ring).
    rewrite sqrt_mult by (try apply vdot_self_nonneg; nra). rewrite sqrt_square by lra. reflexivity. }
  rewrite E. apply v3_eq; cbn [v3x v3y v3z vscale]; field; lra.
Qed.

Lemma half_axis_unit f c fs dir : dir <> V3 0 0 0 ->
  half_axis f c fs dir = vscale (pole_dist f c fs dir / 2) (vunit dir).
Proof. intros H. unfold half_axis. rewrite vunit_scale by (auto; lra). reflexivity. Qed.

Lemma pole_dist_pos f c fs dir : 0 < f -> 0 < c -> 0 < fs -> dir <> V3 0 0 0 -> 0 < pole_dist f c fs dir.
Proof.
  intros Hf Hc Hfs Hd. unfold pole_dist.
  assert (0 < vnorm (vscale (1 / 100000) dir)).
  { apply vnorm_pos. intros E. apply Hd. destruct dir as [x y z]. unfold vscale in E. cbn [v3x v3y v3z] in E.
    injection E as E1 E2 E3. f_equal; lra. }
  assert (0 < c / fs) by (apply Rdiv_lt_0_compat; assumption).
  apply Rmult_lt_0_compat; [apply Rmult_lt_0_compat; assumption|assumption].
Qed.

Lemma half_axis_norm f c fs dir : 0 < f -> 0 < c -> 0 < fs -> dir <> V3 0 0 0 ->
  vnorm (half_axis f c fs dir) = pole_dist f c fs dir / 2.
Proof.
  intros Hf Hc Hfs Hd. rewrite half_axis_unit by assumption.
  pose proof (pole_dist_pos f c fs dir Hf Hc Hfs Hd). set (h := pole_dist f c fs dir / 2) in *.
  assert (0 < h) by (unfold h; lra).
  unfold vnorm. rewrite vdot_scale, vdot_comm, vdot_scale, vunit_unit by assumption.
  rewrite Rmult_1_r. apply sqrt_square. lra.
Qed.

Lemma cubes r h a b : 0 < h < r -> r - h <= a <= r + h -> r - h <= b <= r + h ->
  Rabs (2 * r ^ 3 / (a * b * (a + b)) - 1) <= (r / (r - h)) ^ 3 - 1.
Proof.
  intros Hh Ha Hb.
  set (q := 2 * r ^ 3 / (a * b * (a + b))).
  set (P := (r / (r + h)) ^ 3). set (Q := (r / (r - h)) ^ 3).
  assert (Hr3 : 0 < r ^ 3) by (apply pow_lt; lra).
  assert (L : 2 * (r - h) ^ 3 <= a * b * (a + b)).
  { replace (2 * (r - h) ^ 3) with ((r - h) * (r - h) * ((r - h) + (r - h))) by ring.
    apply Rmult_le_compat; try nra. }
  assert (L0 : 0 < (r - h) ^ 3) by (apply pow_lt; lra).
  assert (U : a * b * (a + b) <= 2 * (r + h) ^ 3).
  { replace (2 * (r + h) ^ 3) with ((r + h) * (r + h) * ((r + h) + (r + h))) by ring.
    apply Rmult_le_compat; try nra. }
  assert (U0 : 0 < (r + h) ^ 3) by (apply pow_lt; lra).
  assert (EQ : Q = 2 * r ^ 3 / (2 * (r - h) ^ 3)).
  { unfold Q. field. lra. }
  assert (EP : P = 2 * r ^ 3 / (2 * (r + h) ^ 3)).
  { unfold P. field. lra. }
  assert (q <= Q).
  { rewrite EQ. unfold q, Rdiv. apply Rmult_le_compat_l; [lra|]. apply Rinv_le_contravar; lra. }
  assert (P <= q).
  { rewrite EP. unfold q, Rdiv. apply Rmult_le_compat_l; [lra|]. apply Rinv_le_contravar; lra. }
  assert (P0 : 0 < P) by (unfold P; apply pow_lt, Rdiv_lt_0_compat; lra).
  assert (Q0 : 0 < Q) by (unfold Q; apply pow_lt, Rdiv_lt_0_compat; lra).
  assert (PQ : 1 <= P * Q).
  { unfold P, Q. rewrite <- Rpow_mult_distr. apply pow_R1_Rle.
    replace (r / (r + h) * (r / (r - h))) with (r * r / ((r + h) * (r - h))) by (field; lra).
    apply Rmult_le_reg_r with ((r + h) * (r - h)); [nra|].
    replace (r * r / ((r + h) * (r - h)) * ((r + h) * (r - h))) with (r * r) by (field; lra). nra. }
  assert (2 <= P + Q).
  { apply Rsqr_incr_0_var; [|lra]. unfold Rsqr. nra. }
  apply Rabs_le. lra.
Qed.

(** Between the poles' distances and the far field: [g] = r/d (1/r1 - 1/r2). *)
Theorem pole_gain f c fs dir loc m : 0 < f -> 0 < c -> 0 < fs -> dir <> V3 0 0 0 ->
  let d := pole_dist f c fs dir in
  let e := half_axis f c fs dir in
  let r := edist loc m in
  let ct := cos_angle dir (vsub m loc) in
  d < 2 * r ->
  Rabs (r / d * (/ edist (vadd loc e) m - / edist (vsub loc e) m) - ct / r)
  <= Rabs ct / r * ((r / (r - d / 2)) ^ 3 - 1).
Proof.
  intros Hf Hc Hfs Hdir d e r ct Hr.
  pose proof (pole_dist_pos f c fs dir Hf Hc Hfs Hdir) as Hd. fold d in Hd.
  pose proof (half_axis_norm f c fs dir Hf Hc Hfs Hdir) as He. fold d e in He.
  destruct (poles_near loc e m) as [N1 N2]. rewrite He in N1, N2. fold r in N1, N2.
  destruct (poles_sq loc e m) as [S1 S2]. fold r in S1, S2.
  set (a := edist (vadd loc e) m) in *. set (b := edist (vsub loc e) m) in *.
  assert (A : r - d / 2 <= a <= r + d / 2) by (unfold Rabs in N1; destruct (Rcase_abs (a - r)); lra).
  assert (B : r - d / 2 <= b <= r + d / 2) by (unfold Rabs in N2; destruct (Rcase_abs (b - r)); lra).
  assert (E : vdot e (vsub m loc) = d / 2 * (ct * r)).
  { unfold e. rewrite half_axis_unit by assumption. fold d. rewrite vdot_scale. f_equal.
    unfold ct, cos_angle, r, edist. field. unfold r, edist in Hr. lra. }
  assert (D : (b - a) * (a + b) = 2 * d * r * ct) by (rewrite E in S1, S2; nra).
  replace (r / d * (/ a - / b) - ct / r) with (ct / r * (2 * r ^ 3 / (a * b * (a + b)) - 1)).
  2:{ replace (/ a - / b) with ((b - a) * (a + b) / (a * b * (a + b))) by (field; lra).
      rewrite D. field. repeat split; lra. }
  rewrite Rabs_mult. unfold Rdiv at 1. rewrite Rabs_mult, (Rabs_right (/ r)).
  2:{ apply Rle_ge. left. apply Rinv_0_lt_compat. lra. }
  apply Rmult_le_compat_l.
  - apply Rmult_le_pos; [apply Rabs_pos|]. left. apply Rinv_0_lt_compat. lra.
  - apply cubes; lra.
Qed.

(** Both poles at the same sample of the signal: the directivity of a dipole. *)
Theorem dipole_directivity o k m s :
  0 < d_c o -> 0 < d_fs o -> d_dir o <> V3 0 0 0 ->
  let d := pole_dist 1 (d_c o) (d_fs o) (d_dir o) in
  let e := half_axis 1 (d_c o) (d_fs o) (d_dir o) in
  let r := edist (d_loc o) m in
  let ct := cos_angle (d_dir o) (vsub m (d_loc o)) in
  let x p := emitted o k (edist p m) in
  d < 2 * r -> x (vadd (d_loc o) e) = s -> x (vsub (d_loc o) e) = s ->
  Rabs (two_poles edist o k m - s * (ct / r)) <= Rabs s * (Rabs ct / r * ((r / (r - d / 2)) ^ 3 - 1)).
Proof.
  intros Hc Hfs Hdir d e r ct x Hr H1 H2. unfold two_poles. fold d e r.
  unfold x in H1, H2. rewrite H1, H2.
  replace (r / d * (s / edist (vadd (d_loc o) e) m - s / edist (vsub (d_loc o) e) m) - s * (ct / r))
    with (s * (r / d * (/ edist (vadd (d_loc o) e) m - / edist (vsub (d_loc o) e) m) - ct / r))
    by (unfold Rdiv; ring).
  rewrite Rabs_mult. apply Rmult_le_compat_l; [apply Rabs_pos|].
  apply (pole_gain 1 (d_c o) (d_fs o) (d_dir o) (d_loc o) m); auto. lra.
Qed.

(** The poles at different samples: the difference of the samples over the
    distance of the poles comes on top. *)
Theorem dipole_jump o k m :
  0 < d_c o -> 0 < d_fs o -> d_dir o <> V3 0 0 0 ->
  let d := pole_dist 1 (d_c o) (d_fs o) (d_dir o) in
  let e := half_axis 1 (d_c o) (d_fs o) (d_dir o) in
  let r p := edist p m in
  let x p := emitted o k (r p) in
  let p1 := vadd (d_loc o) e in
  let p2 := vsub (d_loc o) e in
  two_poles edist o k m
  = x p2 * (r (d_loc o) / d * (/ r p1 - / r p2)) + (x p1 - x p2) / d * (r (d_loc o) / r p1).
Proof.
  intros Hc Hfs Hdir d e r x p1 p2. unfold two_poles. fold d e. cbv zeta. fold p1 p2. fold (r p1) (r p2) (r (d_loc o)).
  fold (x p1) (x p2). unfold Rdiv. ring.
Qed.

(** Microphones in the plane between the poles. *)
Theorem dipole_plane o k m : d_dir o <> V3 0 0 0 -> vdot (d_dir o) (vsub m (d_loc o)) = 0 ->
  two_poles edist o k m = 0.
Proof.
  intros Hdir H0. unfold two_poles. set (e := half_axis _ _ _ _).
  assert (E : vdot e (vsub m (d_loc o)) = 0).
  { unfold e. rewrite half_axis_unit by assumption. unfold vunit. rewrite !vdot_scale, H0. ring. }
  destruct (poles_sq (d_loc o) e m) as [S1 S2]. rewrite E in S1, S2.
  assert (edist (vadd (d_loc o) e) m = edist (vsub (d_loc o) e) m) as ->.
  { assert (forall a b, 0 <= a -> 0 <= b -> a * a = b * b -> a = b) as SQ.
    { intros a b Ha Hb Hab. apply Rle_antisym; apply Rsqr_incr_0_var; unfold Rsqr; lra. }
    apply SQ; try apply vnorm_ge0. lra. }
  cbv zeta. rewrite Rminus_diag_eq by reflexivity. ring.
Qed.

(* ------------------------------------------------------------------ *)
(** * MovingPointSourceDipole *)

Definition v3_zero (a : v3) : bool :=
  (if Req_EM_T (v3x a) 0 then true else false) && (if Req_EM_T (v3y a) 0 then true else false)
  && (if Req_EM_T (v3z a) 0 then true else false).

(** get_moving_direction, sources.py:1487-1498; [v]: the velocity at the first
    emission time.  The columns of RM are the unit vectors of the velocity, of
    [rvec] x velocity and of velocity x ([rvec] x velocity). *)
Definition frame_axis (rvec v e : v3) : v3 :=
  let dy := vcross rvec v in
  let dz := vcross v dy in
  vadd (vadd (vscale (v3x e) (vunit v)) (vscale (v3y e) (vunit dy))) (vscale (v3z e) (vunit dz)).
Definition moving_axis (rvec v e : v3) : v3 :=
  if v3_zero rvec then e else vcross (frame_axis rvec v e) rvec.

(** The lanes of the Newton iteration, get_emission_time with direction 0,
    sources.py:1433-1452. *)
Definition dip_lanes (o : dipole) (traj vel : R -> v3) (mics : list v3) (k : nat) : list ((R -> R) * (R -> R) * R) :=
  map (fun m => ((fun x => edist (traj x) m), (fun x => vdot (vel x) (vunit (traj x)) / d_c o),
                 d_start o + INR k / d_fs o)) mics.

Definition dip_times iters (o : dipole) (traj vel : R -> v3) (mics : list v3) (k : nat) : list lane + exn :=
  emission_time iters (d_c o) (1 / 10 / INR (d_up o) / d_fs o) (dip_lanes o traj vel mics k).

(** Row [k], sources.py:1540-1572; [iters] = 100. *)
Definition moving_dipole_row iters (o : dipole) (conv : bool) (rvec : v3) (traj vel : R -> v3)
    (mics : list v3) (k : nat) : option (list R) :=
  match dip_times iters o traj vel mics k with
  | inr _ => None
  | inl ls =>
      let te0 := match ls with l :: _ => l_te l | [] => 0 end in
      let loc := traj te0 in
      let d := pole_dist 2 (d_c o) (d_fs o) (d_dir o) in
      let e := moving_axis rvec (vel te0) (half_axis 2 (d_c o) (d_fs o) (d_dir o)) in
      sequence (map (fun '(m, l) =>
        let w := if conv then (1 - l_Mr l) ^ 2 else 1 in
        let i := (l_te l - d_start_t o + d_start o) * d_fs o * INR (d_up o) in
        pole_value (d_signal o) d i i (l_rm l * w) (edist (vadd loc e) m * w) (edist (vsub loc e) m * w))
        (combine mics ls))
  end.

(** MovingPointSourceDipole.result, sources.py:1500-1580. *)
Definition moving_dipole iters o conv rvec traj vel mics (ns num : nat) : trace (list R) :=
  match ns, dip_times iters o traj vel mics 0 with
  | S _, inr e => raise e
  | _, _ => done (sample_loop (moving_dipole_row iters o conv rvec traj vel mics) (fun b => b) flush_always num ns 0 [])
  end.

(** ** conv_amp cancels *)

Lemma pole_value_scaled signal d i1 i2 r r1 r2 w : w <> 0 ->
  pole_value signal d i1 i2 (r * w) (r1 * w) (r2 * w) = pole_value signal d i1 i2 r r1 r2.
Proof.
  intros Hw. unfold pole_value. destruct (py_nth signal (rnd i1)) as [s1|]; [|reflexivity].
  destruct (py_nth signal (rnd i2)) as [s2|]; [|reflexivity]. f_equal.
  unfold Rdiv. rewrite !Rinv_mult.
  transitivity (w * / w * (r * / d * (s1 * / r1 - s2 * / r2))); [ring|]. rewrite Rinv_r by assumption. ring.
Qed.

Lemma newton_mach c0 epslim fuel : forall ls,
  (forall l, In l ls -> l_Mr l <> 1 /\ forall x, l_mach l x <> 1) ->
  forall l, In l (newton fuel c0 epslim ls) -> l_Mr l <> 1 /\ forall x, l_mach l x <> 1.
Proof.
  induction fuel as [|fuel IH]; intros ls H; cbn [newton]; [exact H|].
  destruct (Rlt_dec epslim (abs_max (map l_eps ls))); [|exact H].
  apply IH. intros l Hl. apply in_map_iff in Hl as (l0 & <- & Hl0). destruct (H l0 Hl0) as [_ H2].
  cbn [newton_step l_Mr l_mach]. split; auto.
Qed.

Lemma emission_time_inl iters c0 epslim mics ls : emission_time iters c0 epslim mics = inl ls ->
  ls = newton iters c0 epslim (map (fun '(d, m, t) => mkLane d m t t 0 0 1) mics).
Proof.
  unfold emission_time. destruct mics; [discriminate|]. destruct (Rlt_dec epslim 1); [|discriminate].
  intros E. now injection E as <-.
Qed.

Theorem moving_conv_amp iters o rvec traj vel mics k :
  (forall x, vdot (vel x) (vunit (traj x)) / d_c o <> 1) ->
  moving_dipole_row iters o true rvec traj vel mics k = moving_dipole_row iters o false rvec traj vel mics k.
Proof.
  intros HM. unfold moving_dipole_row. destruct (dip_times iters o traj vel mics k) as [ls|x] eqn:E; [|reflexivity].
  cbv zeta. f_equal. apply map_ext_in. intros [m l] Hin. apply in_combine_r in Hin.
  assert (l_Mr l <> 1) as Hl.
  { apply emission_time_inl in E. subst ls.
    refine (proj1 (newton_mach _ _ _ _ _ l Hin)). intros l0 H0.
    unfold dip_lanes in H0. rewrite map_map in H0. apply in_map_iff in H0 as (m0 & <- & _).
    cbn [l_Mr l_mach]. split; [lra|exact HM]. }
  rewrite pole_value_scaled by (apply pow_nonzero; lra).
  rewrite <- (pole_value_scaled (d_signal o) _ _ _ (l_rm l) _ _ 1) by lra. reflexivity.
Qed.

(** ** The axis *)

Lemma v3_zero_spec a : v3_zero a = true <-> a = V3 0 0 0.
Proof.
  destruct a as [x y z]. unfold v3_zero. cbn [v3x v3y v3z]. split.
  - destruct (Req_EM_T x 0), (Req_EM_T y 0), (Req_EM_T z 0); cbn; congruence.
  - intros E. injection E as -> -> ->. destruct (Req_EM_T 0 0); [reflexivity|congruence].
Qed.

Lemma v3_zero_false a : a <> V3 0 0 0 -> v3_zero a = false.
Proof. intros H. destruct (v3_zero a) eqn:E; [|reflexivity]. now apply v3_zero_spec in E. Qed.

Lemma moving_axis_opp rvec v e : moving_axis rvec v (vscale (-1) e) = vscale (-1) (moving_axis rvec v e).
Proof.
  unfold moving_axis. destruct (v3_zero rvec); [reflexivity|].
  apply v3_eq; unfold frame_axis; cbn [v3x v3y v3z vscale vadd vcross]; ring.
Qed.

(** A dipole along the axis of rotation. *)
Lemma moving_axis_z rvec v h : rvec <> V3 0 0 0 -> vdot rvec v = 0 ->
  moving_axis rvec v (V3 0 0 h) = V3 0 0 0.
Proof.
  intros Hr H0. unfold moving_axis. rewrite v3_zero_false by assumption.
  assert (E : vcross v (vcross rvec v) = vscale (vdot v v) rvec).
  { apply v3_eq; unfold vdot in *; cbn [v3x v3y v3z vscale vcross].
    - transitivity (v3x rvec * (v3x v * v3x v + v3y v * v3y v + v3z v * v3z v)
        - v3x v * (v3x rvec * v3x v + v3y rvec * v3y v + v3z rvec * v3z v)); [ring|]. rewrite H0. ring.
    - transitivity (v3y rvec * (v3x v * v3x v + v3y v * v3y v + v3z v * v3z v)
        - v3y v * (v3x rvec * v3x v + v3y rvec * v3y v + v3z rvec * v3z v)); [ring|]. rewrite H0. ring.
    - transitivity (v3z rvec * (v3x v * v3x v + v3y v * v3y v + v3z v * v3z v)
        - v3z v * (v3x rvec * v3x v + v3y rvec * v3y v + v3z rvec * v3z v)); [ring|]. rewrite H0. ring. }
  unfold frame_axis. rewrite E. unfold vunit at 3. set (n := / vnorm (vscale _ _)).
  apply v3_eq; cbn [v3x v3y v3z vscale vadd vcross]; ring.
Qed.

(** A dipole pointing ahead is turned to the side. *)
Lemma moving_axis_x rvec v h : rvec <> V3 0 0 0 ->
  vdot (moving_axis rvec v (V3 h 0 0)) v = 0.
Proof.
  intros Hr. unfold moving_axis. rewrite v3_zero_false by assumption.
  unfold frame_axis, vunit at 1. set (n := / vnorm v).
  unfold vdot. cbn [v3x v3y v3z vscale vadd vcross]. ring.
Qed.

(** Poles on top of each other: silence. *)
Lemma pole_value_zero signal d i r r1 : forall v, pole_value signal d i i r r1 r1 = Some v -> v = 0.
Proof.
  intros v. unfold pole_value. destruct (py_nth signal (rnd i)) as [s|]; [|discriminate].
  intros E. injection E as <-. rewrite Rminus_diag_eq by reflexivity. ring.
Qed.

Theorem moving_silent iters o conv rvec traj vel mics k row :
  rvec <> V3 0 0 0 -> (forall x, vdot rvec (vel x) = 0) ->
  d_dir o = V3 0 0 1 ->
  moving_dipole_row iters o conv rvec traj vel mics k = Some row ->
  forall v, In v row -> v = 0.
Proof.
  intros Hr Hv Hd. unfold moving_dipole_row. destruct (dip_times iters o traj vel mics k) as [ls|]; [|discriminate].
  cbv zeta. set (te0 := match ls with l :: _ => l_te l | [] => 0 end).
  assert (E : moving_axis rvec (vel te0) (half_axis 2 (d_c o) (d_fs o) (d_dir o)) = V3 0 0 0).
  { rewrite Hd. unfold half_axis, vunit. set (a := pole_dist _ _ _ _ / 2). set (b := / vnorm _).
    replace (vscale a (vscale b (vscale (1 / 100000) (V3 0 0 1)))) with (V3 0 0 (a * (b * (1 / 100000))))
      by (apply v3_eq; cbn [v3x v3y v3z vscale]; ring).
    apply moving_axis_z; auto. }
  rewrite E. clear E.
  replace (vsub (traj te0) (V3 0 0 0)) with (vadd (traj te0) (V3 0 0 0))
    by (apply v3_eq; cbn [v3x v3y v3z vadd vsub]; ring).
  generalize (combine mics ls). intros cl. revert row.
  induction cl as [|[m l] cl IH]; intros row; cbn [map sequence].
  - intros E. injection E as <-. intros v [].
  - destruct (pole_value _ _ _ _ _ _ _) as [x|] eqn:Ex; [|discriminate].
    destruct (sequence _) as [rest|]; [|discriminate]. intros E. injection E as <-.
    intros v [<-|Hin]; [eapply pole_value_zero; exact Ex|]. now apply (IH rest).
Qed.

Theorem moving_reversed iters o conv rvec traj vel mics k :
  moving_dipole_row iters (reversed o) conv rvec traj vel mics k
  = option_map neg_row (moving_dipole_row iters o conv rvec traj vel mics k).
Proof.
  unfold moving_dipole_row.
  change (dip_times iters (reversed o) traj vel mics k) with (dip_times iters o traj vel mics k).
  destruct (dip_times iters o traj vel mics k) as [ls|]; [|reflexivity]. cbv zeta.
  apply sequence_neg. intros [m l]. unfold reversed.
  cbn [d_signal d_c d_fs d_up d_start_t d_start d_dir d_loc].
  rewrite half_axis_opp, pole_dist_opp, moving_axis_opp.
  set (loc := traj _). set (e := moving_axis _ _ _).
  replace (vadd loc (vscale (-1) e)) with (vsub loc e) by (apply v3_eq; cbn [v3x v3y v3z vadd vsub vscale]; ring).
  replace (vsub loc (vscale (-1) e)) with (vadd loc e) by (apply v3_eq; cbn [v3x v3y v3z vadd vsub vscale]; ring).
  unfold pole_value. destruct (py_nth (d_signal o) _); cbn [option_map]; [|reflexivity]. f_equal. ring.
Qed.

(** ** Constant distances *)

(** Every microphone keeps its distance from the source, and the radial Mach
    number is 0 (a source at rest, or circling around an axis with the
    microphones on it). *)
Lemma dip_times_const iters o traj vel mics k :
  0 < d_c o -> 0 < d_fs o -> (0 < d_up o)%nat -> 1 / 10 / INR (d_up o) / d_fs o < 1 -> (0 < iters)%nat -> mics <> [] ->
  (forall m x y, In m mics -> edist (traj x) m = edist (traj y) m) ->
  (forall x, vdot (vel x) (vunit (traj x)) = 0) ->
  exists ls, dip_times iters o traj vel mics k = inl ls
    /\ map (fun l => (l_te l, l_rm l, l_Mr l)) ls
       = map (fun m => (d_start o + INR k / d_fs o - edist (traj 0) m / d_c o, edist (traj 0) m, 0)) mics.
Proof.
  intros Hc Hfs Hup He Hit Hm Hd Hv.
  destruct (emission_time_static iters (d_c o) (1 / 10 / INR (d_up o) / d_fs o) (map (edist (traj 0)) mics)
    (d_start o + INR k / d_fs o)) as (ls & El & Em); auto.
  - lra.
  - destruct mics; [congruence|discriminate].
  - split; [|assumption]. assert (0 < INR (d_up o)) by (apply lt_0_INR; assumption).
    unfold Rdiv. repeat apply Rmult_le_pos; try lra; left; apply Rinv_0_lt_compat; assumption.
  - exists ls. split; [|rewrite Em, map_map; reflexivity].
    unfold dip_times. rewrite <- El. f_equal. unfold dip_lanes, at_rest. rewrite !map_map. apply map_ext_in.
    intros m Hin. f_equal. f_equal; extensionality x; [now apply Hd|]. rewrite Hv. unfold Rdiv. ring.
Qed.

(** What the code computes then: all channels with the source where it was
    when the sound for the first microphone was emitted. *)
Definition circ_value (o : dipole) (rvec : v3) (traj vel : R -> v3) (m0 : v3) (k : nat) (m : v3) : option R :=
  let t := d_start o + INR k / d_fs o in
  let te0 := t - edist (traj 0) m0 / d_c o in
  let r := edist (traj 0) m in
  let d := pole_dist 2 (d_c o) (d_fs o) (d_dir o) in
  let e := moving_axis rvec (vel te0) (half_axis 2 (d_c o) (d_fs o) (d_dir o)) in
  let i := (t - r / d_c o - d_start_t o + d_start o) * d_fs o * INR (d_up o) in
  pole_value (d_signal o) d i i r (edist (vadd (traj te0) e) m) (edist (vsub (traj te0) e) m).

Lemma moving_const iters o conv rvec traj vel m0 mics k :
  0 < d_c o -> 0 < d_fs o -> (0 < d_up o)%nat -> 1 / 10 / INR (d_up o) / d_fs o < 1 -> (0 < iters)%nat ->
  (forall m x y, In m (m0 :: mics) -> edist (traj x) m = edist (traj y) m) ->
  (forall x, vdot (vel x) (vunit (traj x)) = 0) ->
  moving_dipole_row iters o conv rvec traj vel (m0 :: mics) k
  = sequence (map (circ_value o rvec traj vel m0 k) (m0 :: mics)).
Proof.
  intros Hc Hfs Hup He Hit Hd Hv.
  destruct (dip_times_const iters o traj vel (m0 :: mics) k Hc Hfs Hup He Hit ltac:(discriminate) Hd Hv) as (ls & El & Em).
  unfold moving_dipole_row. rewrite El. cbv zeta. clear El.
  destruct ls as [|l0 ls0] eqn:Els; [discriminate Em|]. rewrite <- Els in *.
  assert (T0 : l_te l0 = d_start o + INR k / d_fs o - edist (traj 0) m0 / d_c o).
  { rewrite Els in Em. cbn [map] in Em. injection Em as E1 _ _ _. exact E1. }
  rewrite T0.
  f_equal. clear T0 Els l0 ls0 Hd.
  unfold circ_value. set (te0 := _ - edist (traj 0) m0 / d_c o). cbv zeta.
  revert ls Em. generalize (m0 :: mics). intros l.
  induction l as [|m l IH]; intros [|a ls] Em; cbn [map] in Em; try discriminate; [reflexivity|].
  injection Em as E1 E2 E3 E4. cbn [combine map]. f_equal; [|now apply IH].
  rewrite E1, E2, E3.
  rewrite pole_value_scaled; [reflexivity|]. destruct conv; lra.
Qed.
