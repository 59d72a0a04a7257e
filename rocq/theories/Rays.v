(** The rays of GeneralFlowEnvironment (/repo/acoular/environments.py:857-941): the system of
    differential equations, the slowness at the start and the points collected along a ray.
    Real arithmetic stands for float64.  The integrator (scipy's vode) is replaced by a curve
    that solves its system exactly; the convex hull that ends the search and scipy's
    LinearNDInterpolator are not modelled. *)
From Coq Require Import List Arith Lia ZArith Bool Reals Lra.
From Verif Require Import Environ.
Import ListNotations.
Local Open Scope R_scope.

Definition mneg (m : m3) : m3 := M3 (vscale (-1) (row0 m)) (vscale (-1) (row1 m)) (vscale (-1) (row2 m)).
(** numpy's dot of a vector and a matrix. *)
Definition vdotm (s : v3) (m : m3) : v3 := mapply (mtrans m) s.

(** f1, environments.py:886-894; [vv], [dv] are what the flow field reports. *)
Definition f1 (c : R) (vv : v3) (dv : m3) (s : v3) : v3 * v3 :=
  let sa := sqrt (v3x s * v3x s + v3y s * v3y s + v3z s * v3z s) in
  (vsub (vscale (/ sa) (vscale c s)) vv, vdotm s (mneg (mtrans dv))).

(** The slowness at the start, environments.py:898. *)
Definition s_start (c : R) (v0 n0 : v3) : v3 := vscale (/ (c + vdot v0 n0)) n0.

(** The points and times collected along one ray, environments.py:908-913; [pos t] is the
    position reached at time [t]. *)
Fixpoint fr_loop (pos : R -> v3) (x0 : v3) (rmax dt : R) (fuel : nat) (t : R) : option (list (v3 * R)) :=
  match fuel with
  | O => None
  | S f =>
      let p := pos t in
      if Rlt_dec rmax (vnorm (vsub p x0)) then Some [(p, t)]
      else option_map (cons (p, t)) (fr_loop pos x0 rmax dt f (t + dt))
  end.

(* ------------------------------------------------------------------ *)
(** ** Specification *)

(** Sound going backwards from the microphone travels in the reversed flow.  Its rays solve
    Hamilton's equations of H = c |s| - v(x) . s, the dispersion relation of sound in a flow:
    dx/dt is the gradient of H with respect to the slowness s, ds/dt minus its gradient with
    respect to the position x. *)
Definition ham (c : R) (v : v3 -> v3) (x s : v3) : R := c * vnorm s - vdot (v x) s.
Definition ray_equations (c : R) (v : v3 -> v3) (x s : v3) (f : v3 * v3) : Prop :=
  forall u, dir_deriv (fun q => ham c v x q) s u (vdot (fst f) u)
         /\ dir_deriv (fun q => ham c v q s) x u (- vdot (snd f) u).

(** The curve has the derivative [d] at [t]. *)
Definition vderiv (f : R -> v3) (t : R) (d : v3) : Prop :=
  derivable_pt_lim (fun z => v3x (f z)) t (v3x d) /\ derivable_pt_lim (fun z => v3y (f z)) t (v3y d)
  /\ derivable_pt_lim (fun z => v3z (f z)) t (v3z d).
(** Position [x] and slowness [s] solve the system of the code. *)
Definition traced (c : R) (ff : v3 -> v3 * m3) (x s : R -> v3) : Prop :=
  forall t, let f := f1 c (fst (ff (x t))) (snd (ff (x t))) (s t) in vderiv x t (fst f) /\ vderiv s t (snd f).

(* ------------------------------------------------------------------ *)
(** ** Derivatives *)

Lemma vderiv_line p u : vderiv (fun t => vadd p (vscale t u)) 0 u.
Proof. unfold vderiv, vadd, vscale. cbn [v3x v3y v3z]. repeat split; apply deriv_affine. Qed.

Lemma vdot_deriv f g t df dg : vderiv f t df -> vderiv g t dg ->
  derivable_pt_lim (fun z => vdot (f z) (g z)) t (vdot df (g t) + vdot (f t) dg).
Proof.
  intros (A & B & C) (D & E & F). unfold vdot.
  eapply deriv_eq; [|apply derivable_pt_lim_plus; [apply derivable_pt_lim_plus|]; apply derivable_pt_lim_mult; eassumption].
  cbv beta. ring.
Qed.

Lemma vnorm_deriv f t df : vderiv f t df -> f t <> V3 0 0 0 ->
  derivable_pt_lim (fun z => vnorm (f z)) t (vdot (f t) df / vnorm (f t)).
Proof.
  intros D N. pose proof (vnorm_pos _ N) as P.
  assert (Q : 0 < vdot (f t) (f t)) by (rewrite <- vnorm_sq; apply Rmult_lt_0_compat; exact P).
  pose proof (vdot_deriv f f t df df D D) as E.
  pose proof (derivable_pt_lim_comp (fun z => vdot (f z) (f z)) sqrt t _ _ E (derivable_pt_lim_sqrt _ Q)) as G.
  eapply deriv_eq; [|exact G]. fold (vnorm (f t)). rewrite (vdot_comm df). field. lra.
Qed.

Lemma mapply_trans m u w : vdot (mapply m u) w = vdot u (mapply (mtrans m) w).
Proof. destruct m as [[a b c] [d e f] [g h i]], u, w. unfold vdot, mapply, mtrans, vdot. cbn. ring. Qed.

Lemma f1_slow c vv dv s : snd (f1 c vv dv s) = vscale (-1) (mapply dv s).
Proof.
  destruct dv as [[a b c1] [d e f] [g h i]], s. unfold f1, vdotm, mneg, mapply, mtrans, vscale, vdot. cbn.
  apply v3_eq; cbn; ring.
Qed.
Lemma f1_pos c vv dv s : fst (f1 c vv dv s) = vsub (vscale (c / vnorm s) s) vv.
Proof.
  unfold f1. cbn [fst]. change (sqrt _) with (vnorm s). f_equal. unfold vscale. cbn. unfold Rdiv.
  apply v3_eq; cbn; ring.
Qed.

Lemma vdot_sub a b u : vdot (vsub a b) u = vdot a u - vdot b u.
Proof. unfold vdot, vsub. cbn. ring. Qed.

Lemma mapply_mmul a b w : mapply (mmul a b) w = mapply a (mapply b w).
Proof. unfold mapply, mmul, mtrans, vdot. cbn [v3x v3y v3z row0 row1 row2]. f_equal; ring. Qed.
Lemma frame_rows f y z w : mapply (mtrans (mtrans (M3 f y z))) w = V3 (vdot f w) (vdot y w) (vdot z w).
Proof. destruct f, y, z. reflexivity. Qed.
Lemma frame_first f y z a : mapply (mtrans (M3 f y z)) (V3 a 0 0) = vscale a f.
Proof. unfold mapply, mtrans, vscale, vdot. cbn [v3x v3y v3z row0 row1 row2]. f_equal; ring. Qed.
Lemma gradient_rows a b w : mapply (mtrans (M3 (V3 a 0 0) (V3 b 0 0) (V3 0 0 0))) w = V3 (a * v3x w + b * v3y w) 0 0.
Proof. unfold mapply, mtrans, vdot. cbn [v3x v3y v3z row0 row1 row2]. f_equal; ring. Qed.

(** The position always moves as it should. *)
Lemma ham_slow c v x s u : s <> V3 0 0 0 ->
  dir_deriv (fun q => ham c v x q) s u (vdot (vsub (vscale (c / vnorm s) s) (v x)) u).
Proof.
  intros N. unfold dir_deriv, ham. rewrite vdot_sub, vdot_scale.
  apply derivable_pt_lim_minus.
  - eapply deriv_eq; [|apply deriv_scal, vnorm_deriv; [apply vderiv_line|cbv beta; now rewrite vadd_zero]].
    cbv beta. rewrite vadd_zero. unfold Rdiv. ring.
  - eapply deriv_eq; [|apply (vdot_deriv (fun _ => v x) (fun t => vadd s (vscale t u)) 0 (V3 0 0 0) u); [|apply vderiv_line]].
    + unfold vdot. cbn. ring.
    + unfold vderiv. cbn. repeat split; apply deriv_const.
Qed.

Lemma ham_pos c v x s u J : is_jacobian v x J ->
  dir_deriv (fun q => ham c v q s) x u (- vdot (mapply J u) s).
Proof.
  intros HJ. unfold dir_deriv, ham. destruct (HJ u) as (A & B & C).
  eapply deriv_eq; [|apply derivable_pt_lim_minus; [apply deriv_const|
    apply (vdot_deriv (fun t => v (vadd x (vscale t u))) (fun _ => s) 0 (mapply J u) (V3 0 0 0))]].
  - unfold vdot. cbn. ring.
  - repeat split; assumption.
  - unfold vderiv. cbn. repeat split; apply deriv_const.
Qed.

Lemma dir_unique f x u a b : dir_deriv f x u a -> dir_deriv f x u b -> a = b.
Proof. intros A B. exact (uniqueness_limite _ _ _ _ A B). Qed.

Lemma vdot_all a b : (forall u, vdot a u = vdot b u) -> a = b.
Proof.
  intros H. pose proof (H (V3 1 0 0)) as A. pose proof (H (V3 0 1 0)) as B. pose proof (H (V3 0 0 1)) as C.
  unfold vdot in A, B, C. cbn in A, B, C. apply v3_eq; lra.
Qed.

(** The system of the code is that of the rays exactly where the reported Jacobian,
    applied to the slowness, is minus its transpose. *)
Theorem f1_exact c v x s J : is_jacobian v x J -> s <> V3 0 0 0 ->
  (ray_equations c v x s (f1 c (v x) J s) <-> mapply J s = vscale (-1) (mapply (mtrans J) s)).
Proof.
  intros HJ N. split.
  - intros H.
    assert (E : vscale (-1) (mapply J s) = mapply (mtrans J) s).
    { apply vdot_all. intros u. destruct (H u) as [_ B]. rewrite f1_slow in B.
      pose proof (dir_unique _ _ _ _ _ B (ham_pos c v x s u J HJ)) as E.
      rewrite mapply_trans, (vdot_comm u) in E. lra. }
    rewrite <- E. destruct (mapply J s). unfold vscale. cbn. apply v3_eq; cbn; ring.
  - intros E u. rewrite f1_pos, f1_slow. split; [now apply ham_slow|].
    unfold dir_deriv. eapply deriv_eq; [|apply (ham_pos c v x s u J HJ)].
    rewrite mapply_trans, E. destruct (mapply (mtrans J) s), u. unfold vdot, vscale. cbn. ring.
Qed.

(* ------------------------------------------------------------------ *)
(** ** Constants of the motion *)

Lemma const_of_deriv (f : R -> R) : (forall t, derivable_pt_lim f t 0) -> forall t, f t = f 0.
Proof.
  intros H t.
  assert (pr : derivable f) by (intros z; exists 0; apply H).
  apply (null_derivative_1 f pr). intros z. apply derive_pt_eq_0. apply H.
Qed.

Lemma line_of_deriv (f : R -> R) a : (forall t, derivable_pt_lim f t a) -> forall t, f t = f 0 + t * a.
Proof.
  intros H t.
  assert (E : (fun t => f t - t * a) t = (fun t => f t - t * a) 0).
  { apply (const_of_deriv (fun t => f t - t * a)). intros z. eapply deriv_eq; [|apply derivable_pt_lim_minus; [apply H|]].
    2: { apply (derivable_pt_lim_mult id (fct_cte a)); [apply derivable_pt_lim_id|apply derivable_pt_lim_const]. }
    unfold fct_cte, id. ring. }
  cbv beta in E. lra.
Qed.

(** In a uniform flow the slowness stays and the ray is straight. *)
Lemma traced_uniform c v J x s : J = M3 (V3 0 0 0) (V3 0 0 0) (V3 0 0 0) -> traced c (fun _ => (v, J)) x s ->
  forall t, s t = s 0 /\ x t = vadd (x 0) (vscale t (vsub (vscale (c / vnorm (s 0)) (s 0)) v)).
Proof.
  intros -> H.
  assert (S : forall t, s t = s 0).
  { intros t.
    assert (D : forall z, vderiv s z (V3 0 0 0)).
    { intros z. destruct (H z) as [_ D]. rewrite f1_slow in D. cbn [snd] in D.
      replace (vscale (-1) (mapply (M3 (V3 0 0 0) (V3 0 0 0) (V3 0 0 0)) (s z))) with (V3 0 0 0) in D; [exact D|].
      unfold mapply, vscale, vdot. cbn. apply v3_eq; cbn; ring. }
    apply v3_eq; [apply (const_of_deriv (fun z => v3x (s z)))|apply (const_of_deriv (fun z => v3y (s z)))|
      apply (const_of_deriv (fun z => v3z (s z)))]; intros z; apply (D z). }
  intros t. split; [apply S|].
  assert (D : forall z, vderiv x z (vsub (vscale (c / vnorm (s 0)) (s 0)) v)).
  { intros z. destruct (H z) as [D _]. rewrite f1_pos in D. cbn [fst] in D. now rewrite (S z) in D. }
  unfold vadd, vscale at 1. apply v3_eq; cbn [v3x v3y v3z];
    [apply (line_of_deriv (fun z => v3x (x z)))|apply (line_of_deriv (fun z => v3y (x z)))|
     apply (line_of_deriv (fun z => v3z (x z)))]; intros z; apply (D z).
Qed.

Lemma vnorm_scale a u : vnorm (vscale a u) = Rabs a * vnorm u.
Proof.
  unfold vnorm. replace (vdot (vscale a u) (vscale a u)) with (a * a * vdot u u) by (unfold vdot, vscale; cbn; ring).
  rewrite sqrt_mult; [|apply Rle_0_sqr|apply vdot_self_nonneg]. f_equal. apply sqrt_Rsqr_abs.
Qed.

(** The direction at the start is the requested one. *)
Lemma start_direction c v0 n0 : vnorm n0 = 1 -> 0 < c + vdot v0 n0 ->
  vscale (c / vnorm (s_start c v0 n0)) (s_start c v0 n0) = vscale c n0.
Proof.
  intros N P. unfold s_start. rewrite vnorm_scale, N, Rabs_right.
  2: { apply Rle_ge, Rlt_le, Rinv_0_lt_compat, P. }
  unfold vscale. cbn. apply v3_eq; cbn; field; lra.
Qed.

Lemma vnorm_sub_comm a b : vnorm (vsub a b) = vnorm (vsub b a).
Proof. unfold vnorm. f_equal. unfold vdot, vsub. cbn. ring. Qed.

(** A point reached at time [t] is at the distance c t in the sense of
    UniformFlowEnvironment. *)
Lemma straight_time c ma fdv x0 n0 t : 0 < c -> -1 < ma < 1 -> fdv <> V3 0 0 0 -> vnorm n0 = 1 -> 0 < t ->
  let p := vadd x0 (vscale t (vsub (vscale c n0) (vscale (ma * c) (vunit fdv)))) in
  p <> x0 /\ uniform_r ma fdv p x0 = c * t.
Proof.
  intros Hc Hm Hf Hn Ht p.
  assert (Q : 0 < c * t) by now apply Rmult_lt_0_compat.
  assert (W : vnorm (vsub x0 (vadd p (vscale (ma * (c * t)) (vunit fdv)))) = c * t).
  { replace (vsub x0 (vadd p (vscale (ma * (c * t)) (vunit fdv)))) with (vscale (- (c * t)) n0).
    - rewrite vnorm_scale, Hn, Rabs_Ropp, Rabs_right by lra. ring.
    - unfold p, vsub, vadd, vscale. cbn. apply v3_eq; cbn; ring. }
  assert (NE : p <> x0).
  { intros E. rewrite E in W.
    replace (vsub x0 (vadd x0 (vscale (ma * (c * t)) (vunit fdv)))) with (vscale (- (ma * (c * t))) (vunit fdv)) in W
      by (unfold vsub, vadd, vscale; cbn; apply v3_eq; cbn; ring).
    rewrite vnorm_scale in W.
    assert (U : vnorm (vunit fdv) = 1) by (unfold vnorm; rewrite vunit_unit by exact Hf; apply sqrt_1).
    rewrite U, Rabs_Ropp, Rmult_1_r, Rabs_mult, (Rabs_right (c * t)) in W by lra.
    assert (Rabs ma < 1) by (apply Rabs_def1; lra). nra. }
  split; [exact NE|].
  destruct (uniform_r_solves ma fdv p x0 Hm Hf NE) as [H1 H2].
  symmetry. apply (on_wavefront_unique ma fdv p x0 (c * t) _ Hm Hf NE Q H1); [exact W|exact H2].
Qed.

(* ------------------------------------------------------------------ *)
(** ** The points collected *)

Lemma fr_points pos x0 rmax dt fuel : forall t l, fr_loop pos x0 rmax dt fuel t = Some l ->
  Forall (fun pt => exists k : nat, snd pt = t + INR k * dt /\ fst pt = pos (snd pt)) l.
Proof.
  induction fuel as [|f IH]; intros t l; cbn [fr_loop]; [discriminate|].
  destruct (Rlt_dec rmax (vnorm (vsub (pos t) x0))).
  - intros E. inversion E. subst l. constructor; [|constructor]. exists 0%nat. cbn [fst snd INR]. split; [ring|reflexivity].
  - destruct (fr_loop pos x0 rmax dt f (t + dt)) as [l'|] eqn:E'; cbn; [|discriminate]. intros E. inversion E. subst l.
    constructor.
    + exists 0%nat. cbn [fst snd INR]. split; [ring|reflexivity].
    + apply (Forall_impl _ (fun pt H => H)). eapply Forall_impl; [|apply (IH _ _ E')].
      intros pt (k & K1 & K2). exists (S k). rewrite S_INR. split; [rewrite K1; ring|exact K2].
Qed.

(** The last point is the only one further away than rmax. *)
Lemma fr_last pos x0 rmax dt fuel : forall t l, fr_loop pos x0 rmax dt fuel t = Some l ->
  exists l' q, l = l' ++ [q] /\ rmax < vnorm (vsub (fst q) x0) /\ Forall (fun pt => vnorm (vsub (fst pt) x0) <= rmax) l'.
Proof.
  induction fuel as [|f IH]; intros t l; cbn [fr_loop]; [discriminate|].
  destruct (Rlt_dec rmax (vnorm (vsub (pos t) x0))) as [L|L].
  - intros E. inversion E. exists [], (pos t, t). cbn [fst]. auto.
  - destruct (fr_loop pos x0 rmax dt f (t + dt)) as [l1|] eqn:E'; cbn; [|discriminate]. intros E. inversion E. subst l.
    destruct (IH _ _ E') as (l' & q & -> & A & B). exists ((pos t, t) :: l'), q. split; [reflexivity|]. split; [exact A|].
    constructor; [cbn [fst]; lra|exact B].
Qed.

Lemma fr_ends pos x0 rmax dt fuel : forall t, (exists k : nat, (k < fuel)%nat /\ rmax < vnorm (vsub (pos (t + INR k * dt)) x0)) ->
  exists l, fr_loop pos x0 rmax dt fuel t = Some l.
Proof.
  induction fuel as [|f IH]; intros t (k & K & H); [lia|]. cbn [fr_loop].
  destruct (Rlt_dec rmax (vnorm (vsub (pos t) x0))) as [L|L]; [eauto|].
  destruct k as [|k]; [cbn [INR] in H; rewrite Rmult_0_l, Rplus_0_r in H; contradiction|].
  destruct (IH (t + dt)) as (l & ->).
  - exists k. split; [lia|]. rewrite S_INR in H. replace (t + dt + INR k * dt) with (t + (INR k + 1) * dt) by ring. exact H.
  - cbn. eauto.
Qed.

Lemma vnorm_triangle_low a b : vnorm a - vnorm b <= vnorm (vsub a b).
Proof.
  assert (A : 0 <= vnorm a) by apply sqrt_pos. assert (B : 0 <= vnorm b) by apply sqrt_pos.
  destruct (Rle_dec (vnorm a - vnorm b) 0) as [L|L]; [apply Rle_trans with 0; [exact L|apply sqrt_pos]|].
  apply Rsqr_incr_0; [|lra|apply sqrt_pos]. unfold Rsqr. rewrite vnorm_sq.
  assert (C : vdot a b <= vnorm a * vnorm b).
  { apply Rsqr_incr_0_var; [|now apply Rmult_le_pos]. unfold Rsqr.
    replace (vnorm a * vnorm b * (vnorm a * vnorm b)) with (vnorm a * vnorm a * (vnorm b * vnorm b)) by ring.
    rewrite !vnorm_sq. apply cauchy3. }
  pose proof (vnorm_sq a). pose proof (vnorm_sq b).
  replace (vdot (vsub a b) (vsub a b)) with (vdot a a + vdot b b - 2 * vdot a b) by (unfold vdot, vsub; cbn; ring).
  nra.
Qed.
