(** The moving grid of BeamformerTimeTraj: _get_moving_gpos
    (tbeamform.py:305-336). *)
From Coq Require Import List Reals Lra.
From Verif Require Import Environ.
Local Open Scope R_scope.

Definition vzero : v3 := V3 0 0 0.

Lemma v3_dec (a b : v3) : {a = b} + {a <> b}.
Proof.
  destruct a as [x y z], b as [x' y' z'].
  destruct (Req_EM_T x x'), (Req_EM_T y y'), (Req_EM_T z z'); subst; auto; right; congruence.
Qed.

(** The rotation matrix with columns dx = velocity, dy = rvec x dx, dz = dx x dy,
    each divided by its length (tbeamform.py:328-333), applied to [p].
    [None]: a column of length zero, 0/0 = NaN in the result. *)
Definition frame (rvec vel : v3) : option (v3 * v3 * v3) :=
  let dx := vel in
  let dy := vcross rvec dx in
  let dz := vcross dx dy in
  if v3_dec dx vzero then None
  else if v3_dec dy vzero then None
  else if v3_dec dz vzero then None
  else Some (vunit dx, vunit dy, vunit dz).

Definition lin (e : v3 * v3 * v3) (p : v3) : v3 :=
  let '(e1, e2, e3) := e in
  vadd (vadd (vscale (v3x p) e1) (vscale (v3y p) e2)) (vscale (v3z p) e3).

(** Position of grid point [p] when the trajectory is at [loc] with velocity
    [vel] (tbeamform.py:319-336). *)
Definition moving_pos (rvec loc vel p : v3) : option v3 :=
  if v3_dec rvec vzero then Some (vadd p loc)
  else option_map (fun e => vadd (lin e p) loc) (frame rvec vel).

(** ** Specification *)
Definition rigid (f : v3 -> v3) : Prop :=
  (forall p q, vnorm (vsub (f p) (f q)) = vnorm (vsub p q)) /\
  (let o := f vzero in
   let ax := vsub (f (V3 1 0 0)) o in
   let ay := vsub (f (V3 0 1 0)) o in
   let az := vsub (f (V3 0 0 1)) o in
   vdot (vcross ax ay) az = 1).

Lemma vcross_zero_iff_aux a b : vdot (vcross a b) (vcross a b) = vdot a a * vdot b b - vdot a b * vdot a b.
Proof. unfold vdot, vcross. simpl. ring. Qed.

Lemma vnorm_unique a n : 0 <= n -> n * n = vdot a a -> vnorm a = n.
Proof. intros Hn H. unfold vnorm. rewrite <- H. now apply sqrt_square. Qed.

Lemma frame_ortho rvec vel : vcross rvec vel <> vzero ->
  exists e1 e2 e3, frame rvec vel = Some (e1, e2, e3) /\ e1 = vunit vel /\
    e2 = vunit (vcross rvec vel) /\ e3 = vcross e1 e2 /\
    vdot e1 e1 = 1 /\ vdot e2 e2 = 1 /\ vdot e1 e2 = 0 /\ vdot rvec e2 = 0.
Proof.
  intros Hc. set (dy := vcross rvec vel).
  assert (vel <> vzero) as Hv.
  { intros E. apply Hc. rewrite E. unfold vcross, vzero. simpl. f_equal; ring. }
  assert (vdot vel dy = 0) as Ho by (unfold dy, vdot, vcross; simpl; ring).
  assert (vdot rvec dy = 0) as Hr by (unfold dy, vdot, vcross; simpl; ring).
  pose proof (vnorm_pos vel Hv) as P1. pose proof (vnorm_pos dy Hc) as P2.
  assert (vnorm (vcross vel dy) = vnorm vel * vnorm dy) as HN.
  { apply vnorm_unique; [apply Rmult_le_pos; lra|].
    rewrite vcross_zero_iff_aux, Ho, <- !vnorm_sq. ring. }
  assert (vcross vel dy <> vzero) as Hz.
  { intros E. rewrite E in HN. unfold vnorm at 1 in HN. unfold vdot, vzero in HN. simpl in HN.
    replace (0 * 0 + 0 * 0 + 0 * 0) with 0 in HN by ring. rewrite sqrt_0 in HN.
    pose proof (Rmult_lt_0_compat _ _ P1 P2). lra. }
  exists (vunit vel), (vunit dy), (vunit (vcross vel dy)).
  split; [|split; [|split; [|split; [|split; [|split; [|split]]]]]]; auto.
  - unfold frame. fold dy. destruct (v3_dec vel vzero); [easy|]. destruct (v3_dec dy vzero); [easy|].
    destruct (v3_dec (vcross vel dy) vzero); easy.
  - unfold vunit at 1. rewrite HN. unfold vunit, vscale, vcross. simpl.
    apply v3_eq; simpl; field; lra.
  - now apply vunit_unit.
  - now apply vunit_unit.
  - unfold vunit. rewrite vdot_scale, vdot_comm, vdot_scale, vdot_comm, Ho. ring.
  - unfold vunit. rewrite vdot_comm, vdot_scale, vdot_comm, Hr. ring.
Qed.

Lemma lin_rigid e1 e2 loc : vdot e1 e1 = 1 -> vdot e2 e2 = 1 -> vdot e1 e2 = 0 ->
  rigid (fun p => vadd (lin (e1, e2, vcross e1 e2) p) loc).
Proof.
  intros H1 H2 H3. set (e3 := vcross e1 e2).
  assert (vdot e3 e3 = 1) as H4 by (unfold e3; rewrite vcross_zero_iff_aux, H1, H2, H3; ring).
  assert (vdot e1 e3 = 0) as H5 by (unfold e3, vdot, vcross; simpl; ring).
  assert (vdot e2 e3 = 0) as H6 by (unfold e3, vdot, vcross; simpl; ring).
  split.
  - intros p q. unfold vnorm. f_equal.
    set (a := v3x p - v3x q). set (b := v3y p - v3y q). set (c := v3z p - v3z q).
    replace (vdot (vsub p q) (vsub p q)) with (a * a + b * b + c * c)
      by (unfold a, b, c, vdot, vsub; simpl; ring).
    replace (vdot (vsub (vadd (lin (e1, e2, e3) p) loc) (vadd (lin (e1, e2, e3) q) loc))
                  (vsub (vadd (lin (e1, e2, e3) p) loc) (vadd (lin (e1, e2, e3) q) loc)))
      with (a * a * vdot e1 e1 + b * b * vdot e2 e2 + c * c * vdot e3 e3
            + 2 * a * b * vdot e1 e2 + 2 * a * c * vdot e1 e3 + 2 * b * c * vdot e2 e3).
    + rewrite H1, H2, H3, H4, H5, H6. ring.
    + clearbody e3. unfold a, b, c, lin, vdot, vsub, vadd, vscale. simpl. ring.
  - cbv zeta.
    replace (vsub (vadd (lin (e1, e2, e3) (V3 1 0 0)) loc) (vadd (lin (e1, e2, e3) vzero) loc)) with e1
      by (clearbody e3; unfold lin, vsub, vadd, vscale, vzero; apply v3_eq; simpl; ring).
    replace (vsub (vadd (lin (e1, e2, e3) (V3 0 1 0)) loc) (vadd (lin (e1, e2, e3) vzero) loc)) with e2
      by (clearbody e3; unfold lin, vsub, vadd, vscale, vzero; apply v3_eq; simpl; ring).
    replace (vsub (vadd (lin (e1, e2, e3) (V3 0 0 1)) loc) (vadd (lin (e1, e2, e3) vzero) loc)) with e3
      by (clearbody e3; unfold lin, vsub, vadd, vscale, vzero; apply v3_eq; simpl; ring).
    exact H4.
Qed.

Theorem moving_grid_rigid rvec loc vel :
  rvec = vzero \/ vcross rvec vel <> vzero ->
  exists f, (forall p, moving_pos rvec loc vel p = Some (f p)) /\ rigid f /\ f vzero = loc /\
    (rvec <> vzero ->
       vsub (f (V3 1 0 0)) loc = vunit vel /\ vdot rvec (vsub (f (V3 0 1 0)) loc) = 0).
Proof.
  intros H. unfold moving_pos. destruct (v3_dec rvec vzero) as [E|E].
  - exists (fun p => vadd p loc). split; auto. split; [|split].
    + split.
      * intros p q. f_equal. unfold vsub, vadd. apply v3_eq; simpl; ring.
      * unfold vsub, vadd, vcross, vdot, vzero. simpl. ring.
    + unfold vadd, vzero. apply v3_eq; simpl; ring.
    + contradiction.
  - destruct H as [H|H]; [contradiction|].
    destruct (frame_ortho rvec vel H) as (e1 & e2 & e3 & -> & E1 & E2 & -> & U1 & U2 & O & Or).
    exists (fun p => vadd (lin (e1, e2, vcross e1 e2) p) loc). split; auto.
    split; [now apply lin_rigid|]. split.
    + unfold lin, vadd, vscale, vzero. apply v3_eq; simpl; ring.
    + intros _. rewrite <- E1. split.
      * unfold lin, vsub, vadd, vscale. apply v3_eq; simpl; ring.
      * replace (vsub (vadd (lin (e1, e2, vcross e1 e2) (V3 0 1 0)) loc) loc) with e2; auto.
        unfold lin, vsub, vadd, vscale. apply v3_eq; simpl; ring.
Qed.

Theorem moving_grid_degenerate rvec loc vel p :
  rvec <> vzero -> vcross rvec vel = vzero -> moving_pos rvec loc vel p = None.
Proof.
  intros H1 H2. unfold moving_pos. destruct (v3_dec rvec vzero); [contradiction|].
  unfold frame. rewrite H2. destruct (v3_dec vel vzero); auto. now destruct (v3_dec vzero vzero).
Qed.
