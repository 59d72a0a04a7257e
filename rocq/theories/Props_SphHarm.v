(** Properties C82, C83 (SphericalHarmonicSource).  Specification vocabulary:
    [weighted_monopole] (signal at the retarded time over the distance, times a
    factor), [directivity] (sum of real spherical harmonics), [later] (start
    moved by a number of samples), [rot_y], [rot_z180], [turned],
    [turned_mic] (SphHarm.v); [in_signal], [emitted], [edist] (Dipole.v). *)
From Coq Require Import List Arith Lia ZArith Bool Reals Lra.
From Verif Require Import Stream Cplx Wav Environ PointSources Dipole SphHarm.
Import ListNotations.
Local Open Scope R_scope.

(** The factor for a microphone. *)
Definition pattern P (o : sph) (a : list R) (m : v3) : R :=
  let '(azi, ele) := radiation_angles (d_dir (sh_mono o)) m (d_loc (sh_mono o)) in
  directivity P (sh_order o) a azi ele.

(** C82.  For every block size, every environment [rd] and real coefficients,
    the source delivers a point source weighted with its directivity; but the
    signal is read PI/30 samples ahead. *)
Theorem C82_rows_partial P rd o mics a ns num :
  let d := sh_mono o in
  (0 < num)%nat -> length (d_signal d) = (d_up d * ns)%nat -> (0 < d_up d)%nat -> d_fs d <> 0 ->
  sh_alpha o = map RtoC a -> length a = ((sh_order o + 1) * (sh_order o + 1))%nat ->
  (forall m, In m mics -> in_signal (later (PI / 30) d) ns (rd (d_loc d) m)) ->
  delivers num (map (fun k => map (weighted_monopole rd (later (PI / 30) d) (pattern P o a) k) mics) (seq 0 ns))
    (sph_source P rd o mics ns num).
Proof.
  intros d Hn HL Hu Hfs Ea La H.
  assert (G : forall m, exists g, sph_gain P o m = Some g /\ re g = pattern P o a m)
    by (intros m; exact (gain_directivity P o m a Ea La)).
  pose (f := fun m => match sph_gain P o m with Some g => g | None => C0 end).
  assert (F : forall m, sph_gain P o m = Some (f m) /\ re (f m) = pattern P o a m).
  { intros m. unfold f. destruct (G m) as (g & E & R). rewrite E. split; [reflexivity|assumption]. }
  pose proof (sph_spec P rd o mics f ns num Hn HL Hu Hfs H (fun m _ => proj1 (F m))) as D.
  erewrite map_ext; [exact D|]. intros k. apply map_ext. intros m. unfold weighted_monopole.
  now rewrite (proj2 (F m)).
Qed.
Print Assumptions C82_rows_partial.

(** A number of coefficients other than (lOrder + 1)^2 raises ValueError. *)
Theorem C82_coefficients P rd o mics ns num :
  let d := sh_mono o in
  (0 < ns)%nat -> length (d_signal d) = (d_up d * ns)%nat -> (0 < d_up d)%nat -> d_fs d <> 0 -> mics <> [] ->
  (forall m, In m mics -> in_signal (later (PI / 30) d) ns (rd (d_loc d) m)) ->
  length (sh_alpha o) <> ((sh_order o + 1) * (sh_order o + 1))%nat ->
  sph_source P rd o mics ns num = raise ValueError.
Proof.
  intros d Hns HL Hu Hfs Hm H Ha. unfold sph_source.
  assert (E : sequence (map (sph_gain P o) mics) = None).
  { destruct mics as [|m mics]; [congruence|]. cbn [map sequence].
    replace (sph_gain P o m) with (@None C); [reflexivity|]. symmetry. unfold sph_gain, get_modes.
    destruct (radiation_angles _ _ _) as [azi ele].
    change (fun l => map (fun q => let y := sph_harm P q l azi ele in if (q <? 0)%Z then Cmul (Conj y) Ci else y) (orders l))
      with (fun l => map (mode_of P azi ele l) (orders l)).
    rewrite modes_length. destruct (Nat.eqb_spec ((sh_order o + 1) * (sh_order o + 1)) (length (sh_alpha o))); congruence. }
  rewrite E. destruct ns as [|ns]; [lia|].
  rewrite (sph_rows rd o mics (S ns) 0 HL Hu Hfs) by (assumption || lia). reflexivity.
Qed.
Print Assumptions C82_coefficients.

(** The example: microphone at distance 1 on the x axis, c = fs = up = 1. *)
Definition sph_example (signal : list R) (start : R) (order : nat) (alpha : list C) : sph :=
  mkSph (mkDipole signal 1 1 1 0 start (V3 1 0 0) (V3 0 0 0)) order alpha.

Lemma edist_x1 : edist (V3 0 0 0) (V3 1 0 0) = 1.
Proof.
  unfold edist, vnorm, vdot, vsub. cbn [v3x v3y v3z].
  replace ((1 - 0) * (1 - 0) + (0 - 0) * (0 - 0) + (0 - 0) * (0 - 0)) with 1 by ring. apply sqrt_1.
Qed.

Lemma in_example signal start order alpha ns s :
  - INR ns - 3 / 2 < start + s - 1 < 1 / 2 ->
  in_signal (later s (sh_mono (sph_example signal start order alpha))) ns (edist (V3 0 0 0) (V3 1 0 0)).
Proof.
  intros H. unfold in_signal, later, sph_example. cbn [sh_mono d_signal d_c d_fs d_up d_start_t d_start d_dir d_loc].
  rewrite edist_x1, mult_INR. change (INR 1) with 1. lra.
Qed.

Lemma rnd_below z x : (z <= 0)%Z -> IZR z - 1 < 1 / 2 + x <= IZR z -> rnd x = z.
Proof.
  intros Hz H. unfold rnd. assert (IZR z <= 0) by (apply IZR_le; lia).
  pose proof (trunc_ceil (1 / 2 + x) ltac:(lra)) as T.
  assert (trunc (1 / 2 + x) - 1 < z)%Z by (apply lt_IZR; rewrite minus_IZR; lra).
  assert (z - 1 < trunc (1 / 2 + x))%Z by (apply lt_IZR; rewrite minus_IZR; lra). lia.
Qed.

Lemma PI_30 : 1 / 20 < PI / 30 <= 2 / 15.
Proof. pose proof PI_4. pose proof PI2_3_2. lra. Qed.

(** C82 as a whole (the sound of a point source weighted with the directivity)
    is false: a monopole (order 0) and a microphone for which another sample
    arrives.  [p] is Y_00. *)
Theorem C82_offset_refuted : forall P p, p <> 0 -> (forall ele, P 0%nat 0%nat ele = p) ->
  exists o m ns, let d := sh_mono o in
    length (d_signal d) = (d_up d * ns)%nat /\ in_signal d ns (edist (d_loc d) m)
    /\ in_signal (later (PI / 30) d) ns (edist (d_loc d) m) /\ sh_alpha o = map RtoC [1] /\ sh_order o = 0%nat
    /\ forall num, (0 < num)%nat ->
       ~ delivers num (map (fun k => map (weighted_monopole edist d (pattern P o [1]) k) [m]) (seq 0 ns))
           (sph_source P edist o [m] ns num).
Proof.
  intros P p Hp HP. pose proof PI_30.
  exists (sph_example [0; 1] (- (11 / 20)) 0 [C1]), (V3 1 0 0), 2%nat. cbv zeta.
  assert (I1 : in_signal (later (PI / 30) (sh_mono (sph_example [0; 1] (- (11 / 20)) 0 [C1]))) 2 (edist (V3 0 0 0) (V3 1 0 0)))
    by (apply in_example; simpl INR; lra).
  split; [reflexivity|]. split; [|split; [exact I1|]].
  { unfold in_signal, sph_example. cbn [sh_mono d_signal d_c d_fs d_up d_start_t d_start d_dir d_loc].
    rewrite edist_x1, mult_INR. change (INR 1) with 1. simpl INR. lra. }
  split; [reflexivity|]. split; [reflexivity|]. intros num Hn D.
  pose proof (C82_rows_partial P edist (sph_example [0; 1] (- (11 / 20)) 0 [C1]) [V3 1 0 0] [1] 2 num Hn
    eq_refl (le_n 1) ltac:(cbn; lra) eq_refl eq_refl) as D2.
  specialize (D2 ltac:(intros m [<-|[]]; exact I1)).
  destruct D as (_ & D & _). destruct D2 as (_ & D2 & _). rewrite D in D2. clear D. cbn [seq map] in D2.
  apply (f_equal (fun l => nth 0 (nth 0 l []) 0)) in D2. cbn [nth] in D2. unfold weighted_monopole in D2. change (d_loc (later (PI / 30) (sh_mono (sph_example [0; 1] (- (11 / 20)) 0 [C1])))) with (V3 0 0 0) in D2.
  change (d_loc (sh_mono (sph_example [0; 1] (- (11 / 20)) 0 [C1]))) with (V3 0 0 0) in D2.
  rewrite edist_x1 in D2.
  assert (E1 : emitted (sh_mono (sph_example [0; 1] (- (11 / 20)) 0 [C1])) 0 1 = 1).
  { unfold emitted, sample_at, sph_example. cbn [sh_mono d_signal d_c d_fs d_up d_start_t d_start d_dir d_loc length].
    replace (rnd _) with (-1)%Z; [reflexivity|]. symmetry. apply rnd_below; [lia|]. change (INR 0) with 0. change (INR 1) with 1. lra. }
  assert (E2 : emitted (later (PI / 30) (sh_mono (sph_example [0; 1] (- (11 / 20)) 0 [C1]))) 0 1 = 0).
  { unfold emitted, sample_at, later, sph_example. cbn [sh_mono d_signal d_c d_fs d_up d_start_t d_start d_dir d_loc length].
    replace (rnd _) with 0%Z; [reflexivity|]. symmetry.
    apply rnd_below; [lia|]. change (INR 0) with 0. change (INR 1) with 1. lra. }
  rewrite E1, E2 in D2.
  assert (Q : pattern P (sph_example [0; 1] (- (11 / 20)) 0 [C1]) [1] (V3 1 0 0) = p).
  { unfold pattern. destruct (radiation_angles _ _ _) as [azi ele].
    unfold directivity, sph_example. cbn [sh_order rsumn Nat.add Nat.mul nth]. unfold real_harm.
    change (Z.of_nat 0 - Z.of_nat 0)%Z with 0%Z. change (0 <? 0)%Z with false. cbv iota zeta.
    change (Z.abs_nat 0) with 0%nat. rewrite HP. change (INR 0) with 0. rewrite Rmult_0_l, cos_0. ring. }
  rewrite Q in D2. apply Hp. lra.
Qed.
Print Assumptions C82_offset_refuted.

(** The phase of a coefficient is lost: a monopole with coefficient i is
    silent, whatever its signal. *)
Theorem C82_silent_refuted : forall P, exists alpha, length alpha = 1%nat /\ (forall z, In z alpha -> norm2 z = 1)
  /\ forall rd d mics ns num,
     (0 < num)%nat -> length (d_signal d) = (d_up d * ns)%nat -> (0 < d_up d)%nat -> d_fs d <> 0 ->
     (forall m, In m mics -> in_signal (later (PI / 30) d) ns (rd (d_loc d) m)) ->
     delivers num (map (fun _ => map (fun _ => 0) mics) (seq 0 ns)) (sph_source P rd (mkSph d 0 alpha) mics ns num).
Proof.
  intros P. exists [Ci]. split; [reflexivity|]. split; [intros z [<-|[]]; unfold norm2, Ci; cbn [fst snd]; ring|].
  intros rd d mics ns num Hn HL Hu Hfs H.
  pose (g := fun m => Cmul (mode_of P (fst (radiation_angles (d_dir d) m (d_loc d)))
                              (snd (radiation_angles (d_dir d) m (d_loc d))) 0 0) Ci).
  assert (G : forall m, sph_gain P (mkSph d 0 [Ci]) m = Some (g m) /\ re (g m) = 0).
  { intros m. unfold sph_gain, get_modes, g. cbn [sh_order sh_mono sh_alpha].
    destruct (radiation_angles _ _ _) as [azi ele]. cbn [fst snd]. split.
    - cbn [Nat.add seq flat_map orders map Nat.mul app length Nat.eqb cdot]. f_equal.
      change (Z.of_nat 0 - Z.of_nat 0)%Z with 0%Z. unfold mode_of. rewrite <- (Radd_comm C_ring_theory).
      rewrite (Radd_0_l C_ring_theory). reflexivity.
    - unfold mode_of, sph_harm. change (0 <? 0)%Z with false. change (Z.abs_nat 0) with 0%nat. cbv iota zeta.
      change (INR 0) with 0. rewrite Rmult_0_l, cexp_0. unfold re, Cmul, RtoC, Ci, C1. cbn [fst snd]. ring. }
  pose proof (sph_spec P rd (mkSph d 0 [Ci]) mics g ns num Hn HL Hu Hfs H (fun m _ => proj1 (G m))) as D.
  erewrite map_ext; [exact D|]. intros k. apply map_ext. intros m. unfold weighted_monopole.
  rewrite (proj2 (G m)). ring.
Qed.
Print Assumptions C82_silent_refuted.

(** C83.  Turning the source and the microphones about the y axis leaves the
    sound unchanged (quiescent environment; azimuths of the direction and of the
    microphones defined). *)
Theorem C83_turned_partial P o mics b ns num :
  let d := sh_mono o in
  v3x (d_dir d) <> 0 \/ v3z (d_dir d) <> 0 ->
  (forall m, In m mics -> v3x (vsub m (d_loc d)) <> 0 \/ v3z (vsub m (d_loc d)) <> 0) ->
  sph_source P edist (turned (rot_y b) o) (map (turned_mic (rot_y b) (d_loc d)) mics) ns num
  = sph_source P edist o mics ns num.
Proof. exact (sph_turned P o mics b ns num). Qed.
Print Assumptions C83_turned_partial.

(** The length of the direction does not matter. *)
Theorem C83_length P o mics s ns num :
  0 < s -> d_dir (sh_mono o) <> V3 0 0 0 ->
  sph_source P edist (turned (vscale s) o) mics ns num = sph_source P edist o mics ns num.
Proof.
  intros Hs Hd. unfold sph_source.
  assert (E : forall m, sph_gain P (turned (vscale s) o) m = sph_gain P o m).
  { intros m. unfold sph_gain, get_modes, turned. cbn [sh_order sh_mono sh_alpha d_dir d_loc].
    unfold radiation_angles. now rewrite vunit_scale. }
  now rewrite (map_ext _ _ E).
Qed.
Print Assumptions C83_length.

(** Rotation by 180 degrees about the z axis. *)
Definition rot_z180 (p : v3) : v3 := V3 (- v3x p) (- v3y p) (v3z p).

Lemma unit_x : vunit (V3 1 0 0) = V3 1 0 0 /\ vunit (V3 (-1) 0 0) = V3 (-1) 0 0.
Proof.
  assert (E : forall x, x * x = 1 -> vnorm (V3 x 0 0) = 1).
  { intros x Hx. unfold vnorm, vdot. cbn [v3x v3y v3z]. replace (x * x + 0 * 0 + 0 * 0) with 1 by lra. apply sqrt_1. }
  split; unfold vunit; rewrite E by ring; apply v3_eq; unfold vscale; cbn [v3x v3y v3z]; field.
Qed.

Lemma ele_case : snd (radiation_angles (V3 1 0 0) (V3 1 (-1) 0) (V3 0 0 0)) = 2 * PI - PI / 4
  /\ snd (radiation_angles (V3 (-1) 0 0) (V3 (-1) 1 0) (V3 0 0 0)) = PI / 4 + PI.
Proof.
  assert (S1 : forall x z, x * x + z * z = 1 -> sqrt (x * x + z * z) = 1) by (intros x z ->; apply sqrt_1).
  assert (A : atan2 1 (-1) = PI - PI / 4).
  { unfold atan2. destruct (Rlt_dec 0 (-1)); [lra|]. destruct (Rlt_dec (-1) 0); [|lra]. destruct (Rle_dec 0 1); [|lra].
    replace (1 / -1) with (- (1)) by field. rewrite atan_opp, atan_1. lra. }
  assert (B : atan2 1 1 = PI / 4).
  { unfold atan2. destruct (Rlt_dec 0 1); [|lra]. replace (1 / 1) with 1 by field. apply atan_1. }
  assert (D : atan2 1 0 = PI / 2).
  { unfold atan2. destruct (Rlt_dec 0 0); [lra|]. destruct (Rlt_dec 0 0); [lra|]. destruct (Rlt_dec 0 1); lra. }
  destruct unit_x as [U1 U2]. unfold radiation_angles. rewrite U1, U2. unfold vsub. cbn [v3x v3y v3z snd].
  rewrite !S1 by ring. split.
  - replace (-1 - 0) with (-1) by ring. rewrite A, D. lra.
  - replace (1 - 0) with 1 by ring. rewrite B, D. lra.
Qed.

Lemma pattern_10 P k direction m : (forall e, P 1%nat 0%nat e = k * cos e) ->
  pattern P (mkSph (mkDipole [1] 1 1 1 0 (sqrt 2) direction (V3 0 0 0)) 1 (map RtoC [0; 0; 1; 0])) [0; 0; 1; 0] m
  = k * cos (snd (radiation_angles direction m (V3 0 0 0))).
Proof.
  intros HP. unfold pattern. cbn [sh_mono d_dir d_loc sh_order].
  destruct (radiation_angles direction m (V3 0 0 0)) as [azi ele]. cbn [snd].
  unfold directivity. cbn [rsumn Nat.add Nat.mul nth]. unfold real_harm at 3.
  change (Z.of_nat 1 - Z.of_nat 1)%Z with 0%Z. change (0 <? 0)%Z with false. change (Z.abs_nat 0) with 0%nat.
  cbv iota zeta. rewrite HP. change (INR 0) with 0. rewrite (Rmult_0_l azi), cos_0. ring.
Qed.

(** C83 as a whole (every common rotation) is false: half a turn about the z
    axis changes the sign of the mode l = 1, m = 0 ([k] cos(ele) is Y_10). *)
Theorem C83_turned_refuted : forall P k, k <> 0 -> (forall e, P 1%nat 0%nat e = k * cos e) ->
  exists o m, let d := sh_mono o in
    (v3x (d_dir d) <> 0 \/ v3z (d_dir d) <> 0) /\ (v3x (vsub m (d_loc d)) <> 0 \/ v3z (vsub m (d_loc d)) <> 0)
    /\ sph_source P edist (turned rot_z180 o) [turned_mic rot_z180 (d_loc d) m] 1 1
       <> sph_source P edist o [m] 1 1.
Proof.
  intros P k Hk HP. pose proof PI_30.
  set (a := [0; 0; 1; 0]).
  set (o := fun direction => mkSph (mkDipole [1] 1 1 1 0 (sqrt 2) direction (V3 0 0 0)) 1 (map RtoC a)).
  assert (D2 : edist (V3 0 0 0) (V3 1 (-1) 0) = sqrt 2 /\ edist (V3 0 0 0) (V3 (-1) 1 0) = sqrt 2).
  { unfold edist, vnorm, vdot, vsub. cbn [v3x v3y v3z]. split; f_equal; ring. }
  destruct D2 as [D2 D2'].
  assert (W : forall direction m, edist (V3 0 0 0) m = sqrt 2 ->
    exists x, x <> 0 /\ sph_source P edist (o direction) [m] 1 1
      = done [[[x * (k * cos (snd (radiation_angles direction m (V3 0 0 0))))]]] /\ x = 1 / sqrt 2).
  { intros direction m Hm.
    assert (I1 : in_signal (later (PI / 30) (sh_mono (o direction))) 1 (edist (V3 0 0 0) m)).
    { unfold in_signal, later, o. cbn [sh_mono d_signal d_c d_fs d_up d_start_t d_start d_dir d_loc].
      rewrite Hm. cbn [Nat.mul Nat.add]. change (INR 1) with 1. lra. }
    pose proof (C82_rows_partial P edist (o direction) [m] a 1 1 (le_n 1) eq_refl (le_n 1) ltac:(cbn; lra) eq_refl eq_refl) as D.
    specialize (D ltac:(intros m' [<-|[]]; exact I1)). apply delivers_iff in D; [|lia].
    exists (1 / sqrt 2). assert (0 < sqrt 2) by (apply sqrt_lt_R0; lra). split; [|split; [|reflexivity]].
    { assert (0 < 1 / sqrt 2) by (unfold Rdiv; rewrite Rmult_1_l; now apply Rinv_0_lt_compat). lra. }
    rewrite D. cbn [seq map]. unfold weighted_monopole.
    change (d_loc (later (PI / 30) (sh_mono (o direction)))) with (V3 0 0 0). rewrite Hm.
    rewrite (pattern_10 P k direction m HP : pattern P (o direction) a m = _).
    replace (emitted (later (PI / 30) (sh_mono (o direction))) 0 (sqrt 2)) with 1; [reflexivity|].
    unfold emitted, sample_at, later, o. cbn [sh_mono d_signal d_c d_fs d_up d_start_t d_start d_dir d_loc length].
    change (Z.of_nat 1) with 1%Z. rewrite Z.mod_1_r. reflexivity. }
  exists (o (V3 1 0 0)), (V3 1 (-1) 0). cbv zeta. split; [left; cbn; lra|]. split; [left; cbn; lra|].
  replace (turned rot_z180 (o (V3 1 0 0))) with (o (V3 (-1) 0 0)).
  2:{ unfold turned, o, rot_z180. cbn [sh_mono sh_order sh_alpha d_signal d_c d_fs d_up d_start_t d_start d_dir d_loc v3x v3y v3z].
      now rewrite Ropp_0. }
  change (d_loc (sh_mono (o (V3 1 0 0)))) with (V3 0 0 0).
  replace (turned_mic rot_z180 (V3 0 0 0) (V3 1 (-1) 0)) with (V3 (-1) 1 0)
    by (unfold turned_mic, rot_z180, vadd, vsub; apply v3_eq; cbn [v3x v3y v3z]; ring).
  destruct (W (V3 1 0 0) (V3 1 (-1) 0) D2) as (x & Hx & -> & Ex).
  destruct (W (V3 (-1) 0 0) (V3 (-1) 1 0) D2') as (x' & _ & -> & Ex').
  destruct ele_case as [-> ->]. rewrite <- Ex in Ex'. subst x'.
  intros E. injection E as E.
  rewrite (Rplus_comm (PI / 4)), neg_cos in E || rewrite neg_cos in E.
  replace (2 * PI - PI / 4) with (- (PI / 4) + 2 * INR 1 * PI) in E by (change (INR 1) with 1; ring).
  rewrite cos_period, cos_neg, cos_PI4 in E.
  assert (0 < sqrt 2) by (apply sqrt_lt_R0; lra).
  assert (Hc : 0 < 1 / sqrt 2) by (unfold Rdiv; rewrite Rmult_1_l; now apply Rinv_0_lt_compat).
  assert (x * k <> 0) by (now apply Rmult_integral_contrapositive_currified).
  assert (Z : x * k * (1 / sqrt 2) = 0) by lra.
  apply Rmult_integral in Z. destruct Z; lra.
Qed.
Print Assumptions C83_turned_refuted.

(** The azimuth is in the documented range [0, 2 PI). *)
Theorem C83_azimuth direction m loc : 0 <= fst (radiation_angles direction m loc) < 2 * PI.
Proof. exact (azi_range direction m loc). Qed.
Print Assumptions C83_azimuth.

(** The elevation lies between PI/2 and 5 PI/2, ... *)
Theorem C83_elevation_partial direction m loc : PI / 2 <= snd (radiation_angles direction m loc) <= 5 * PI / 2.
Proof. exact (ele_range direction m loc). Qed.
Print Assumptions C83_elevation_partial.

(** ... not in the documented range [0, PI]. *)
Theorem C83_elevation_refuted : exists direction m, vnorm direction = 1 /\ PI < snd (radiation_angles direction m (V3 0 0 0)).
Proof.
  exists (V3 1 0 0), (V3 1 (-1) 0). split.
  - unfold vnorm, vdot. cbn [v3x v3y v3z]. replace (1 * 1 + 0 * 0 + 0 * 0) with 1 by ring. apply sqrt_1.
  - destruct ele_case as [-> _]. pose proof PI_RGT_0. lra.
Qed.
Print Assumptions C83_elevation_refuted.

(** A case: three samples, blocks of two, order 1, two modes. *)
Example C82_case P :
  delivers 2 (map (fun k => map (weighted_monopole edist (later (PI / 30) (sh_mono (sph_example [1; 2; 3] 1 1 (map RtoC [1; 0; 2; 0]))))
      (pattern P (sph_example [1; 2; 3] 1 1 (map RtoC [1; 0; 2; 0])) [1; 0; 2; 0]) k) [V3 1 0 0]) (seq 0 3))
    (sph_source P edist (sph_example [1; 2; 3] 1 1 (map RtoC [1; 0; 2; 0])) [V3 1 0 0] 3 2)
  /\ length (blocks (sph_source P edist (sph_example [1; 2; 3] 1 1 (map RtoC [1; 0; 2; 0])) [V3 1 0 0] 3 2)) = 2%nat
  /\ sph_source P edist (sph_example [1; 2; 3] 1 1 []) [V3 1 0 0] 3 2 = raise ValueError.
Proof.
  pose proof PI_30.
  assert (I1 : forall alpha m, In m [V3 1 0 0] ->
    in_signal (later (PI / 30) (sh_mono (sph_example [1; 2; 3] 1 1 alpha))) 3 (edist (V3 0 0 0) m))
    by (intros alpha m [<-|[]]; apply in_example; simpl INR; lra).
  assert (D : delivers 2 (map (fun k => map (weighted_monopole edist (later (PI / 30) (sh_mono (sph_example [1; 2; 3] 1 1 (map RtoC [1; 0; 2; 0]))))
      (pattern P (sph_example [1; 2; 3] 1 1 (map RtoC [1; 0; 2; 0])) [1; 0; 2; 0]) k) [V3 1 0 0]) (seq 0 3))
    (sph_source P edist (sph_example [1; 2; 3] 1 1 (map RtoC [1; 0; 2; 0])) [V3 1 0 0] 3 2)).
  { apply C82_rows_partial; [lia|reflexivity|cbn; lia|cbn; lra|reflexivity|reflexivity|]. exact (I1 (map RtoC [1; 0; 2; 0])). }
  split; [exact D|]. split.
  - apply delivers_iff in D; [|lia]. rewrite D. reflexivity.
  - apply C82_coefficients; [lia|reflexivity|cbn; lia|cbn; lra|discriminate| |discriminate]. exact (I1 []).
Qed.

Example C83_case P : sph_source P edist (turned (rot_y 1) (sph_example [1; 2; 3] 1 1 (map RtoC [1; 0; 2; 0])))
    [turned_mic (rot_y 1) (V3 0 0 0) (V3 1 2 3)] 3 2
  = sph_source P edist (sph_example [1; 2; 3] 1 1 (map RtoC [1; 0; 2; 0])) [V3 1 2 3] 3 2.
Proof.
  apply (C83_turned_partial P (sph_example [1; 2; 3] 1 1 (map RtoC [1; 0; 2; 0])) [V3 1 2 3]).
  - left. cbn. lra.
  - intros m [<-|[]]. left. cbn. lra.
Qed.
