(** Property C119: the rays of GeneralFlowEnvironment are rays of sound. *)
From Coq Require Import List Arith Lia ZArith Bool Reals Lra.
From Verif Require Import Environ Rays.
Import ListNotations.
Local Open Scope R_scope.

(** C119.  Where the flow field reports its Jacobian J, the system integrated by the code is
    that of the rays for the slowness s if and only if J s = - J^T s. *)
Theorem C119_exact : forall c v x s J, is_jacobian v x J -> s <> V3 0 0 0 ->
  (ray_equations c v x s (f1 c (v x) J s) <-> mapply J s = vscale (-1) (mapply (mtrans J) s)).
Proof. exact f1_exact. Qed.
Print Assumptions C119_exact.

(** C119 holds for RotatingFlow, everywhere and for every slowness ... *)
Theorem C119_rotating_partial : forall c omega v0 origin x s, s <> V3 0 0 0 ->
  let ff := rotating_v omega v0 origin in
  ray_equations c (fun q => fst (ff q)) x s (f1 c (fst (ff x)) (snd (ff x)) s).
Proof.
  intros c omega v0 origin x s N ff.
  apply (f1_exact c (fun q => fst (ff q)) x s (snd (ff x))); [apply rotating_jacobian|exact N|].
  unfold ff, rotating_v, mtrans, mapply, vscale, vdot. cbn. apply v3_eq; cbn; ring.
Qed.
Print Assumptions C119_rotating_partial.

(** ... so that H, which the rays of a steady flow conserve, is constant along every ray. *)
Theorem C119_conserved_partial : forall c omega v0 origin x s, traced c (rotating_v omega v0 origin) x s ->
  (forall t, s t <> V3 0 0 0) ->
  forall t, ham c (fun q => fst (rotating_v omega v0 origin q)) (x t) (s t)
          = ham c (fun q => fst (rotating_v omega v0 origin q)) (x 0) (s 0).
Proof.
  intros c omega v0 origin x s H N.
  apply (const_of_deriv (fun t => ham c (fun q => fst (rotating_v omega v0 origin q)) (x t) (s t))). intros t.
  destruct (H t) as [Dx Ds]. rewrite f1_pos in Dx. rewrite f1_slow in Ds. cbn [fst snd] in Dx, Ds.
  set (J := snd (rotating_v omega v0 origin (x t))) in *.
  assert (Dv : vderiv (fun z => fst (rotating_v omega v0 origin (x z))) t
      (mapply J (vsub (vscale (c / vnorm (s t)) (s t)) (fst (rotating_v omega v0 origin (x t)))))).
  { destruct Dx as (D1 & D2 & D3). unfold vderiv, J, rotating_v, mapply, mtrans, vdot, vsub in *. cbn [fst snd v3x v3y v3z row0 row1 row2] in *.
    repeat split.
    - eapply deriv_eq; [|apply deriv_scal, derivable_pt_lim_opp, derivable_pt_lim_minus; [exact D2|apply deriv_const]]. cbv beta. ring.
    - eapply deriv_eq; [|apply deriv_scal, derivable_pt_lim_minus; [exact D1|apply deriv_const]]. cbv beta. ring.
    - eapply deriv_eq; [|apply deriv_const]. ring. }
  unfold ham. eapply deriv_eq; [|apply derivable_pt_lim_minus; [apply deriv_scal, vnorm_deriv; [exact Ds|apply N]|apply (vdot_deriv _ _ t _ _ Dv Ds)]].
  cbv beta. pose proof (vnorm_pos _ (N t)) as P.
  set (r := vnorm (s t)) in *. clearbody r. unfold J, rotating_v, mapply, mtrans, vdot, vsub, vscale. cbn. field. lra.
Qed.
Print Assumptions C119_conserved_partial.

(** The magnitude of the slowness does not matter: scaled at the start, it is scaled along
    the same ray. *)
Theorem C119_scale : forall c ff x s a, 0 < a -> traced c ff x s -> (forall t, s t <> V3 0 0 0) ->
  traced c ff x (fun t => vscale a (s t)).
Proof.
  intros c ff x s a Ha H N t. cbv zeta. destruct (H t) as [Dx Ds]. rewrite f1_pos in *. rewrite f1_slow in *. split.
  - rewrite vnorm_scale, Rabs_right by lra. pose proof (vnorm_pos _ (N t)).
    replace (vscale (c / (a * vnorm (s t))) (vscale a (s t))) with (vscale (c / vnorm (s t)) (s t)); [exact Dx|].
    unfold vscale. cbn. apply v3_eq; cbn; field; lra.
  - destruct Ds as (D1 & D2 & D3). unfold vderiv, vscale, mapply, vdot in *. cbn [v3x v3y v3z] in *.
    repeat split; (eapply deriv_eq; [|apply deriv_scal; eassumption]); ring.
Qed.
Print Assumptions C119_scale.

(** In a uniform flow below the speed of sound, every point collected along a ray carries the
    travel time of UniformFlowEnvironment, and the collection ends. *)
Theorem C119_uniform : forall c ma fdv x0 n0 x s, 0 < c -> -1 < ma < 1 -> fdv <> V3 0 0 0 -> vnorm n0 = 1 ->
  let v := vscale (ma * c) (vunit fdv) in
  traced c (fun _ => (v, M3 (V3 0 0 0) (V3 0 0 0) (V3 0 0 0))) x s -> x 0 = x0 -> s 0 = s_start c v n0 ->
  forall rmax dt, 0 < dt ->
  (exists fuel l, fr_loop x x0 rmax dt fuel 0 = Some l)
  /\ forall fuel l, fr_loop x x0 rmax dt fuel 0 = Some l ->
     forall p t, In (p, t) l -> 0 < t -> c * t = uniform_r ma fdv p x0.
Proof.
  intros c ma fdv x0 n0 x s Hc Hm Hf Hn v H X0 S0 rmax dt Hdt.
  assert (U : vnorm (vunit fdv) = 1) by (unfold vnorm; rewrite vunit_unit by exact Hf; apply sqrt_1).
  assert (V : vnorm v = Rabs ma * c).
  { unfold v. rewrite vnorm_scale, U, Rabs_mult, (Rabs_right c) by lra. ring. }
  assert (A : Rabs ma < 1) by (apply Rabs_def1; lra).
  assert (B : 0 < c + vdot v n0).
  { assert (Rabs (vdot v n0) <= vnorm v * vnorm n0).
    { rewrite <- (Rabs_right (vnorm v * vnorm n0)) by (apply Rle_ge, Rmult_le_pos; apply sqrt_pos). apply Rsqr_le_abs_0. unfold Rsqr.
      replace (vnorm v * vnorm n0 * (vnorm v * vnorm n0)) with (vnorm v * vnorm v * (vnorm n0 * vnorm n0)) by ring.
      rewrite !vnorm_sq. apply cauchy3. }
    rewrite Hn, V in H0. pose proof (Rle_abs (- vdot v n0)). rewrite Rabs_Ropp in H1. nra. }
  assert (P : forall t, x t = vadd x0 (vscale t (vsub (vscale c n0) v))).
  { intros t. destruct (traced_uniform c v _ x s eq_refl H t) as [_ E]. rewrite E, X0, S0. now rewrite start_direction. }
  split.
  - set (w := vnorm (vsub (vscale c n0) v)).
    assert (W : 0 < w).
    { unfold w. pose proof (vnorm_triangle_low (vscale c n0) v) as T.
      rewrite vnorm_scale, Hn, V, Rabs_right in T by lra. nra. }
    destruct (archimed (rmax / (w * dt))) as [K _]. set (k := Z.to_nat (up (rmax / (w * dt)))).
    exists (S k). apply fr_ends. exists k. split; [lia|].
    rewrite P. replace (vsub (vadd x0 (vscale (0 + INR k * dt) (vsub (vscale c n0) v))) x0)
      with (vscale (INR k * dt) (vsub (vscale c n0) v)) by (unfold vsub, vadd, vscale; cbn; apply v3_eq; cbn; ring).
    rewrite vnorm_scale. fold w. pose proof (pos_INR k) as Hk. rewrite Rabs_right by (apply Rle_ge, Rmult_le_pos; lra).
    assert (Q : rmax / (w * dt) < INR k).
    { unfold k. destruct (Z_le_gt_dec 0 (up (rmax / (w * dt)))) as [Z|Z].
      - rewrite INR_IZR_INZ, Z2Nat.id by exact Z. lra.
      - apply Rlt_le_trans with (IZR (up (rmax / (w * dt)))); [lra|]. apply Rle_trans with 0; [|apply pos_INR].
        apply IZR_le. lia. }
    assert (0 < w * dt) by now apply Rmult_lt_0_compat.
    apply (Rmult_lt_compat_r (w * dt)) in Q; [|assumption]. unfold Rdiv in Q. rewrite Rmult_assoc, Rinv_l in Q by lra. lra.
  - intros fuel l E p t Hin Ht. pose proof (fr_points _ _ _ _ _ _ _ E) as F. rewrite Forall_forall in F.
    destruct (F _ Hin) as (k & _ & K). cbn [fst snd] in K. subst p. rewrite P. symmetry. unfold v. now apply straight_time.
Qed.
Print Assumptions C119_uniform.

(** Such a flow: RotatingFlow that does not rotate; and a ray in it. *)
Example C119_uniform_case : rotating_v 0 (1 / 2) (V3 0 0 0) (V3 1 2 3) = (vscale (1 / 2 * 1) (vunit (V3 0 0 1)), M3 (V3 0 0 0) (V3 0 0 0) (V3 0 0 0))
  /\ vnorm (V3 1 0 0) = 1
  /\ traced 1 (fun _ => (vscale (1 / 2 * 1) (vunit (V3 0 0 1)), M3 (V3 0 0 0) (V3 0 0 0) (V3 0 0 0)))
       (fun t => vadd (V3 0 0 0) (vscale t (V3 1 0 (-1 / 2)))) (fun _ => V3 1 0 0).
Proof.
  assert (U : vunit (V3 0 0 1) = V3 0 0 1).
  { unfold vunit, vnorm, vdot. cbn. replace (0 * 0 + 0 * 0 + 1 * 1) with 1 by ring. rewrite sqrt_1.
    unfold vscale. cbn. apply v3_eq; cbn; field. }
  assert (N : vnorm (V3 1 0 0) = 1).
  { unfold vnorm, vdot. cbn. replace (1 * 1 + 0 * 0 + 0 * 0) with 1 by ring. apply sqrt_1. }
  rewrite U. split; [|split; [exact N|]].
  - unfold rotating_v, mtrans, vscale. cbn. f_equal; [apply v3_eq; cbn; ring|]. f_equal; apply v3_eq; cbn; ring.
  - intros t. cbv zeta. rewrite f1_pos, f1_slow, N. unfold vderiv, vadd, vscale, vsub, mapply, vdot. cbn [fst snd v3x v3y v3z row0 row1 row2].
    assert (L : forall a b z, derivable_pt_lim (fun t => a + t * b) z b).
    { intros a b z. eapply deriv_eq; [|apply derivable_pt_lim_plus; [apply deriv_const|
        apply (derivable_pt_lim_mult id (fct_cte b)); [apply derivable_pt_lim_id|apply derivable_pt_lim_const]]]. unfold fct_cte, id. ring. }
    repeat split; (eapply deriv_eq; [|first [apply L|apply deriv_const]]); lra.
Qed.

(** C119 holds in the core of the jets. *)
Theorem C119_core_partial : forall c j x s v J, s <> V3 0 0 0 -> jet_l j <> 0 -> oj_h1 j x < 0 ->
  openjet_vel j x = Some v -> openjet_jac j x = Some J ->
  ray_equations c (fun q => tot (openjet_vel j q)) x s (f1 c v J s).
Proof.
  intros c j x s v J N Hl Hh Hv HJ.
  assert (E : v = tot (openjet_vel j x)) by now rewrite Hv. rewrite E.
  apply (f1_exact c (fun q => tot (openjet_vel j q)) x s J); [apply openjet_jacobian; auto; right; lra|exact N|].
  unfold openjet_jac in HJ. destruct (Rlt_dec (oj_h1 j x) 0) as [_|L]; [|contradiction]. cbv zeta in HJ. inversion HJ. subst J.
  unfold mapply, mtrans, vscale, vdot. cbn. destruct (Rlt_dec 0 (oj_r j x)); apply v3_eq; cbn; unfold Rdiv; ring.
Qed.
Print Assumptions C119_core_partial.

(** C119 is false at every point of the shear layer of an OpenJet, for a ray that crosses the
    layer. *)
Theorem C119_openjet_refuted : forall c j x v J, jet_l j <> 0 -> jet_v0 j <> 0 ->
  0 < oj_h1 j x -> oj_x1 j x <> 0 -> 0 < oj_r j x -> openjet_vel j x = Some v -> openjet_jac j x = Some J ->
  exists s, s <> V3 0 0 0 /\ v3x s = 0 /\ ~ ray_equations c (fun q => tot (openjet_vel j q)) x s (f1 c v J s).
Proof.
  intros c j x v J Hl Hv0 Hh Hx Hr Hv HJ.
  assert (E : v = tot (openjet_vel j x)) by now rewrite Hv.
  set (d := vsub x (jet_origin j)).
  assert (R2 : v3y d * v3y d + v3z d * v3z d = oj_r j x * oj_r j x).
  { unfold oj_r. cbv zeta. fold d. rewrite sqrt_sqrt; [reflexivity|]. apply Rplus_le_le_0_compat; apply Rle_0_sqr. }
  exists (V3 0 (v3y d) (v3z d)). split; [|split; [reflexivity|]].
  - intros B. pose proof (f_equal v3y B) as Y. pose proof (f_equal v3z B) as Z. cbn [v3y v3z] in Y, Z. rewrite Z, Y in R2. nra.
  - rewrite E. intros H. apply (f1_exact c (fun q => tot (openjet_vel j q)) x _ J) in H.
    + unfold openjet_jac in HJ. destruct (Rlt_dec (oj_h1 j x) 0) as [L|_]; [lra|]. destruct (Req_EM_T (oj_x1 j x) 0) as [L|_]; [contradiction|].
      cbv zeta in HJ. fold d in HJ. destruct (Rlt_dec 0 (oj_r j x)) as [_|L]; [|contradiction]. inversion HJ. subst J. clear HJ.
      unfold mapply, mtrans, vscale, vdot in H. apply (f_equal v3x) in H. cbn [v3x v3y v3z row0 row1 row2] in H. rename H into K.
      set (e := exp _) in K. assert (He : 0 < e) by apply exp_pos. set (a := oj_h1 j x) in *. set (b := oj_x1 j x) in *. set (r := oj_r j x) in *.
      assert (Q : - a * (jet_v0 j * e) / (b * b) * r = 0).
      { transitivity ((- a * (jet_v0 j * e) / (b * b)) * (v3y d * v3y d + v3z d * v3z d) / r); [rewrite R2; field; split; (assumption || lra)|].
        clearbody e a b r. clear -K Hr Hx. unfold d, vsub in K. cbn [v3x v3y v3z] in K. rewrite !Rmult_0_r in K.
        match type of K with ?L = ?R => assert (K' : L = 0) by (rewrite K; ring) end. clear K.
        rewrite <- K'. unfold d, vsub. cbn [v3x v3y v3z]. field. split; (assumption || lra). }
      assert (/ (b * b) <> 0) by (apply Rinv_neq_0_compat; nra).
      unfold Rdiv in Q. apply Rmult_integral in Q. destruct Q as [Q|Q]; [|lra].
      apply Rmult_integral in Q. destruct Q as [Q|Q]; [|contradiction].
      apply Rmult_integral in Q. destruct Q as [Q|Q]; [lra|].
      apply Rmult_integral in Q. destruct Q as [Q|Q]; [contradiction|lra].
    + apply openjet_jacobian; auto. left. lra.
    + intros B. pose proof (f_equal v3y B) as Y. pose proof (f_equal v3z B) as Z. cbn [v3y v3z] in Y, Z. rewrite Z, Y in R2. nra.
Qed.
Print Assumptions C119_openjet_refuted.

(** A point in the shear layer. *)
Example C119_openjet_case : let j := Jet 10 (V3 0 0 0) 1 1 in let x := V3 1 1 0 in
  0 < oj_h1 j x /\ oj_x1 j x <> 0 /\ 0 < oj_r j x
  /\ exists v J, openjet_vel j x = Some v /\ openjet_jac j x = Some J.
Proof.
  cbv zeta.
  assert (E : oj_r (Jet 10 (V3 0 0 0) 1 1) (V3 1 1 0) = 1).
  { unfold oj_r, vsub; cbn. replace ((1 - 0) * (1 - 0) + (0 - 0) * (0 - 0)) with 1 by ring. apply sqrt_1. }
  assert (X : oj_x1 (Jet 10 (V3 0 0 0) 1 1) (V3 1 1 0) = 0.5022) by (unfold oj_x1, vsub; cbn; field).
  assert (H : oj_h1 (Jet 10 (V3 0 0 0) 1 1) (V3 1 1 0) = 1.0022) by (unfold oj_h1; rewrite E, X; cbn; lra).
  unfold openjet_jac, openjet_vel. rewrite H, X, E.
  destruct (Rlt_dec 1.0022 0); [lra|]. destruct (Req_EM_T 0.5022 0); [lra|].
  repeat split; try lra. eexists. eexists. split; reflexivity.
Qed.

(** Nor is it true in the shear layer of a SlotJet. *)
Theorem C119_slotjet_refuted : forall c j x v J, sl_l j <> 0 -> sl_v0 j <> 0 -> sl_flow j <> V3 0 0 0 ->
  sl_yy j <> V3 0 0 0 -> 0 < sl_h1 j x -> sl_x1 j x <> 0 -> sl_y j x <> 0 ->
  slotjet_vel j x = Some v -> slotjet_jac j x = Some J ->
  exists s, s <> V3 0 0 0 /\ vdot s (sl_flow j) = 0
    /\ ~ ray_equations c (fun q => tot (slotjet_vel j q)) x s (f1 c v J s).
Proof.
  intros c j x v J Hl Hv0 Hf Hy Hh Hx Hyx Hv HJ.
  assert (E : v = tot (slotjet_vel j x)) by now rewrite Hv.
  assert (O : vdot (sl_yy j) (sl_dir j) = 0).
  { unfold sl_yy, vscale, vcross, vdot. cbn. ring. }
  exists (sl_yy j). split; [exact Hy|]. split.
  - assert (F : sl_flow j = vscale (vnorm (sl_flow j)) (sl_dir j)).
    { unfold sl_dir, vunit. pose proof (vnorm_pos _ Hf). unfold vscale. cbn. destruct (sl_flow j) as [a b d] eqn:EF. cbn.
      apply v3_eq; cbn; field; lra. }
    rewrite F, vdot_comm, vdot_scale, vdot_comm, O. ring.
  - rewrite E. intros H. apply (f1_exact c (fun q => tot (slotjet_vel j q)) x _ J) in H; [|apply slotjet_jacobian; auto|exact Hy].
    unfold slotjet_jac in HJ. cbv zeta in HJ. destruct (Rlt_dec (sl_h1 j x) 0) as [L|_]; [lra|].
    destruct (Req_EM_T (sl_x1 j x) 0) as [L|_]; [contradiction|].
    set (ux := sl_v0 j * exp _) in HJ.
    assert (Hu : ux <> 0) by (unfold ux; apply Rmult_integral_contrapositive_currified; [exact Hv0|apply Rgt_not_eq, exp_pos]). clearbody ux.
    match type of HJ with context [M3 (V3 ?a 0 0) (V3 ?b 0 0) _] => set (udx := a) in HJ; set (udy := b) in HJ end.
    assert (Hd : udy <> 0).
    { unfold udy, Rdiv. repeat apply Rmult_integral_contrapositive_currified; auto; try lra.
      - unfold sgn. destruct (Rlt_dec 0 (sl_y j x)); [lra|]. destruct (Rlt_dec (sl_y j x) 0); lra.
      - apply Rinv_neq_0_compat. nra. }
    clearbody udx udy. inversion HJ as [EJ]. clear HJ. symmetry in EJ.
    pose proof (vunit_unit _ Hf) as U. fold (sl_dir j) in U.
    set (y := sl_yy j) in *. set (f := sl_dir j) in *. set (z := sl_zz j) in *.
    assert (Jy : forall w, mapply J w = vscale (udx * vdot f w + udy * vdot y w) f).
    { intros w. rewrite EJ. unfold slot_rot. fold y f z. rewrite !mapply_mmul, frame_rows, gradient_rows, frame_first. reflexivity. }
    assert (Jt : forall w, mapply (mtrans J) w = vscale (vdot f w) (vadd (vscale udx f) (vscale udy y))).
    { intros w. apply vdot_all. intros u. rewrite vdot_comm, <- mapply_trans, Jy.
      unfold vdot, vscale, vadd. cbn. ring. }
    rewrite Jy, Jt in H. rewrite (vdot_comm f y), O in H.
    assert (K : vdot (vscale (udx * 0 + udy * vdot y y) f) f = vdot (vscale (-1) (vscale 0 (vadd (vscale udx f) (vscale udy y)))) f) by now rewrite H.
    rewrite !vdot_scale, U in K.
    assert (0 < vdot y y) by (rewrite <- vnorm_sq; pose proof (vnorm_pos _ Hy); nra).
    assert (udy * vdot y y = 0) by lra. apply Rmult_integral in H1. destruct H1; lra.
Qed.
Print Assumptions C119_slotjet_refuted.

(** A point in the shear layer of the default slot. *)
Example C119_slotjet_case : let j := Slot 10 (V3 0 0 0) (V3 1 0 0) (V3 0 1 0) 1 1 in let x := V3 1 0 1 in
  sl_yy j <> V3 0 0 0 /\ 0 < sl_h1 j x /\ sl_x1 j x <> 0 /\ sl_y j x <> 0
  /\ exists v J, slotjet_vel j x = Some v /\ slotjet_jac j x = Some J.
Proof.
  cbv zeta. set (j := Slot 10 (V3 0 0 0) (V3 1 0 0) (V3 0 1 0) 1 1). set (x := V3 1 0 1).
  assert (D : sl_dir j = V3 1 0 0).
  { unfold sl_dir, vunit, vnorm, vdot, j. cbn. replace (1 * 1 + 0 * 0 + 0 * 0) with 1 by ring. rewrite sqrt_1. unfold vscale. cbn. apply v3_eq; cbn; field. }
  assert (P : vunit (sl_plane j) = V3 0 1 0).
  { unfold vunit, vnorm, vdot, j. cbn. replace (0 * 0 + 1 * 1 + 0 * 0) with 1 by ring. rewrite sqrt_1. unfold vscale. cbn. apply v3_eq; cbn; field. }
  assert (Y : sl_yy j = V3 0 0 (-1)).
  { unfold sl_yy. rewrite D, P. unfold vscale, vcross. cbn. apply v3_eq; cbn; ring. }
  assert (Yx : sl_y j x = -1) by (unfold sl_y; rewrite Y; unfold vdot, vsub, x, j; cbn; ring).
  assert (X1 : sl_x1 j x = 0.5668) by (unfold sl_x1, sl_x; rewrite D; unfold vdot, vsub, x, j; cbn; field).
  assert (H1 : 0 < sl_h1 j x).
  { unfold sl_h1. rewrite Yx, X1. rewrite (Rabs_left (-1)) by lra. pose proof (sqrt_pos PI). change (sl_B j) with 1. nra. }
  rewrite Y, Yx, X1. split; [intros B; injection B; lra|]. split; [exact H1|]. split; [lra|]. split; [lra|].
  unfold slotjet_vel, slotjet_U, slotjet_jac. rewrite X1. cbv zeta. destruct (Rlt_dec (sl_h1 j x) 0); [lra|].
  destruct (Req_EM_T 0.5668 0); [lra|]. eexists. eexists. split; reflexivity.
Qed.

(** Every ray starts in its direction as long as sound can travel against the flow there ... *)
Theorem C119_start_partial : forall c v0 n0 J, vnorm n0 = 1 -> 0 < c + vdot v0 n0 ->
  fst (f1 c v0 J (s_start c v0 n0)) = vsub (vscale c n0) v0.
Proof. intros. rewrite f1_pos. now rewrite start_direction. Qed.
Print Assumptions C119_start_partial.

(** ... but in the opposite direction in a faster flow. *)
Theorem C119_start_refuted : exists c v0 n0, 0 < c /\ vnorm n0 = 1
  /\ forall J, fst (f1 c v0 J (s_start c v0 n0)) = vsub (vscale (- c) n0) v0.
Proof.
  exists 1, (V3 (-2) 0 0), (V3 1 0 0).
  assert (N : vnorm (V3 1 0 0) = 1).
  { unfold vnorm, vdot. cbn. replace (1 * 1 + 0 * 0 + 0 * 0) with 1 by ring. apply sqrt_1. }
  split; [lra|]. split; [exact N|]. intros J. rewrite f1_pos. unfold s_start. rewrite vnorm_scale, N.
  replace (1 + vdot (V3 (-2) 0 0) (V3 1 0 0)) with (-1) by (unfold vdot; cbn; ring).
  replace (/ -1) with (-1) by field. rewrite Rabs_left by lra. unfold vsub, vscale. cbn. apply v3_eq; cbn; field.
Qed.
Print Assumptions C119_start_refuted.
