(* Properties C45, C46, C47, C48: environments, flow fields, coordinates and
   ray directions. *)
From Coq Require Import List Arith Lia ZArith Bool Reals Lra.
From Verif Require Import Environ.
Import ListNotations.
Local Open Scope R_scope.

(* C45: in a uniform flow the distance is the unique radius at which the wave
   front emitted at the grid point, drifting with the flow, reaches the
   microphone. *)
Theorem C45_wavefront : forall ma fdv g m,
  -1 < ma < 1 -> fdv <> V3 0 0 0 -> g <> m ->
  0 < uniform_r ma fdv g m /\
  vnorm (vsub m (vadd g (vscale (ma * uniform_r ma fdv g m) (vunit fdv))))
    = uniform_r ma fdv g m /\
  forall r, 0 < r -> vnorm (vsub m (vadd g (vscale (ma * r) (vunit fdv)))) = r ->
    r = uniform_r ma fdv g m.
Proof.
  intros ma fdv g m Hm Hf Hd.
  destruct (uniform_r_solves ma fdv g m Hm Hf Hd) as [H1 H2].
  split; [exact H1|]. split; [exact H2|].
  intros r Hr Hw. exact (on_wavefront_unique ma fdv g m r _ Hm Hf Hd Hr H1 Hw H2).
Qed.
Print Assumptions C45_wavefront.

Theorem C45_rest : forall fdv g m,
  uniform_r 0 fdv g m
  = sqrt ((v3x g - v3x m) * (v3x g - v3x m) + (v3y g - v3y m) * (v3y g - v3y m)
          + (v3z g - v3z m) * (v3z g - v3z m)).
Proof. exact uniform_r_rest. Qed.
Print Assumptions C45_rest.

Theorem C45_reversed_flow : forall ma fdv g m,
  uniform_r ma fdv g m = uniform_r (- ma) fdv m g.
Proof. exact uniform_r_reciprocal. Qed.
Print Assumptions C45_reversed_flow.

(* a source one metre upstream of the microphone at Mach 1/2: the apparent
   distance is 2/3 *)
Example C45_example :
  uniform_r (1/2) (V3 2 0 0) (V3 0 0 0) (V3 1 0 0) = 2 / 3.
Proof.
  symmetry. apply C45_wavefront; try lra.
  - intros E; injection E; lra.
  - intros E; injection E; lra.
  - unfold vunit, vnorm, vdot, vsub, vadd, vscale; simpl.
    replace (2 * 2 + 0 * 0 + 0 * 0) with (2 * 2) by ring. rewrite sqrt_square by lra.
    match goal with |- sqrt ?e = _ => replace e with (2/3 * (2/3)) by field end.
    apply sqrt_square. lra.
Qed.

(* C46 *)
Theorem C46_rotating : forall omega v0 origin xx,
  is_jacobian (fun q => fst (rotating_v omega v0 origin q)) xx
              (snd (rotating_v omega v0 origin xx)).
Proof. exact rotating_jacobian. Qed.
Print Assumptions C46_rotating.

(* wherever a Jacobian is reported, it is the derivative, except on the axis
   behind the core, where the field has none *)
Theorem C46_openjet_partial : forall j p jm,
  jet_l j <> 0 -> openjet_jac j p = Some jm ->
  (oj_r j p <> 0 \/ oj_h1 j p <= 0) ->
  is_jacobian (fun q => tot (openjet_vel j q)) p jm.
Proof. exact openjet_jacobian. Qed.
Print Assumptions C46_openjet_partial.

Theorem C46_openjet_crease : forall j p,
  oj_r j p = 0 -> 0 < oj_h1 j p -> oj_x1 j p <> 0 -> 0 < jet_v0 j ->
  ~ differentiable_at (fun q => tot (openjet_vel j q)) p.
Proof. exact openjet_crease. Qed.
Print Assumptions C46_openjet_crease.

Theorem C46_slotjet_partial : forall s p jm,
  sl_l s <> 0 -> slotjet_jac s p = Some jm ->
  (sl_y s p <> 0 \/ sl_h1 s p <= 0) ->
  is_jacobian (fun q => tot (slotjet_vel s q)) p jm.
Proof. exact slotjet_jacobian. Qed.
Print Assumptions C46_slotjet_partial.

(* in the nozzle exit plane outside the core the field is differentiable but
   the reported Jacobian is NaN *)
Theorem C46_exit_plane_refuted : exists j p,
  jet_l j <> 0 /\ 0 < jet_v0 j /\
  differentiable_at (fun q => tot (openjet_vel j q)) p /\
  openjet_jac j p = None.
Proof.
  exists (Jet 1 (V3 0 0 0) 1 1), (V3 0 1 0).
  assert (H : openjet_jac (Jet 1 (V3 0 0 0) 1 1) (V3 0 1 0) = None /\
    is_jacobian (fun q => tot (openjet_vel (Jet 1 (V3 0 0 0) 1 1) q)) (V3 0 1 0)
      (M3 (V3 0 0 0) (V3 0 0 0) (V3 0 0 0))).
  { apply openjet_exit_plane; simpl; try lra.
    - unfold oj_x1, vsub; simpl. unfold Rdiv. ring.
    - unfold oj_h1, oj_r, oj_x1, vsub; simpl.
      replace ((1 - 0) * (1 - 0) + (0 - 0) * (0 - 0)) with 1 by ring.
      rewrite sqrt_1. lra. }
  destruct H as [H1 H2]. simpl. repeat split; try lra; auto.
  exists (M3 (V3 0 0 0) (V3 0 0 0) (V3 0 0 0)). exact H2.
Qed.
Print Assumptions C46_exit_plane_refuted.

(* a point in the shear layer of a jet meets the hypotheses *)
Example C46_example : exists jm,
  openjet_jac (Jet 10 (V3 0 0 0) 1 1) (V3 1 1 0) = Some jm /\
  oj_r (Jet 10 (V3 0 0 0) 1 1) (V3 1 1 0) <> 0.
Proof.
  assert (E : oj_r (Jet 10 (V3 0 0 0) 1 1) (V3 1 1 0) = 1).
  { unfold oj_r, vsub; simpl. replace ((1 - 0) * (1 - 0) + (0 - 0) * (0 - 0)) with 1 by ring.
    apply sqrt_1. }
  assert (X : oj_x1 (Jet 10 (V3 0 0 0) 1 1) (V3 1 1 0) = 0.5022)
    by (unfold oj_x1, vsub; simpl; field).
  assert (H : oj_h1 (Jet 10 (V3 0 0 0) 1 1) (V3 1 1 0) = 1.0022)
    by (unfold oj_h1; rewrite E, X; simpl; lra).
  unfold openjet_jac. rewrite H, X.
  destruct (Rlt_dec 1.0022 0); [lra|]. destruct (Req_EM_T 0.5022 0); [lra|].
  eexists. split; [reflexivity|]. rewrite E. lra.
Qed.

(* C47 *)
Theorem C47_round_trip_refuted : exists p, cylToCart (cartToCyl p) <> p.
Proof.
  exists (V3 1 0 0). rewrite cyl_round_trip. simpl. intros E; injection E; lra.
Qed.
Print Assumptions C47_round_trip_refuted.

(* what the round trip does instead: it exchanges x and y *)
Theorem C47_round_trip_partial : forall x y z,
  cylToCart (cartToCyl (V3 x y z)) = V3 y x z.
Proof. intros x y z. exact (cyl_round_trip (V3 x y z)). Qed.
Print Assumptions C47_round_trip_partial.

Theorem C47_cyl_coordinates : forall x y z,
  let c := cartToCyl (V3 x y z) in
  0 <= v3y c /\ x = v3y c * cos (v3x c) /\ y = v3y c * sin (v3x c) /\ z = v3z c.
Proof. intros x y z. exact (cartToCyl_polar (V3 x y z)). Qed.
Print Assumptions C47_cyl_coordinates.

(* C48: for solid angles below 4 pi all rays are unit vectors inside the cap
   of that solid angle around the direction, and the first is the direction. *)
Theorem C48_rays_partial : forall N Om b k,
  (k < N)%nat -> 0 < Om < 4 * PI -> b <> V3 0 0 0 ->
  1e-10 <= vnorm (vsub (V3 0 0 (-1)) (vunit b)) ->
  exists x, spiral_sphere N Om b k = Some x /\ vdot x x = 1 /\
            in_cap Om (vunit b) x /\ (k = 0%nat -> x = vunit b).
Proof. exact spiral_sphere_spec. Qed.
Print Assumptions C48_rays_partial.

(* directions within 1e-10 of (0,0,-1) are only met up to that distance *)
Theorem C48_near_pole_partial : forall N Om b k,
  (k < N)%nat -> 0 < Om < 4 * PI ->
  vnorm (vsub (V3 0 0 (-1)) (vunit b)) < 1e-10 ->
  exists x, spiral_sphere N Om b k = Some x /\ vdot x x = 1 /\
            (k = 0%nat -> vnorm (vsub x (vunit b)) < 1e-10).
Proof. exact spiral_sphere_near. Qed.
Print Assumptions C48_near_pole_partial.

Theorem C48_full_sphere_refuted : forall N b, (0 < N)%nat ->
  exists k, (k < N)%nat /\ spiral_sphere N (4 * PI) b k = None.
Proof.
  intros N b HN. exists (N - 1)%nat. split; [lia|]. apply spiral_sphere_full; auto.
Qed.
Print Assumptions C48_full_sphere_refuted.

Example C48_example : exists x, spiral_sphere 3 PI (V3 0 0 2) 1 = Some x /\ vdot x x = 1.
Proof.
  pose proof PI_RGT_0.
  assert (N2 : vnorm (V3 0 0 2) = 2).
  { unfold vnorm, vdot; simpl. replace (0 * 0 + 0 * 0 + 2 * 2) with (2 * 2) by ring.
    apply sqrt_square; lra. }
  destruct (C48_rays_partial 3 PI (V3 0 0 2) 1) as (x & H1 & H2 & _); [lia|lra| | |].
  - intros E; injection E; lra.
  - unfold vunit. rewrite N2. unfold vnorm, vdot, vsub, vscale; simpl.
    match goal with |- _ <= sqrt ?e => replace e with (2 * 2) by field end.
    rewrite sqrt_square by lra. lra.
  - exists x; auto.
Qed.
