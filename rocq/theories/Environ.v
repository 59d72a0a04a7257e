(* Environments: distances in a uniform flow, flow fields and their Jacobians,
   coordinate conversions and the ray directions of the ray casting
   (acoular/environments.py).

   Real numbers stand for the float64 values of the code; rounding is not
   modelled.  Where the code divides by zero and obtains NaN, the model
   returns [None]. *)
From Coq Require Import List Arith Lia ZArith Bool Reals Lra.
Import ListNotations.
Local Open Scope R_scope.

(* ------------------------------------------------------------------ *)
(* Vectors of three reals.                                              *)

Record v3 : Type := V3 { v3x : R; v3y : R; v3z : R }.

Definition vadd (a b : v3) : v3 := V3 (v3x a + v3x b) (v3y a + v3y b) (v3z a + v3z b).
Definition vsub (a b : v3) : v3 := V3 (v3x a - v3x b) (v3y a - v3y b) (v3z a - v3z b).
Definition vscale (s : R) (a : v3) : v3 := V3 (s * v3x a) (s * v3y a) (s * v3z a).
Definition vdot (a b : v3) : R := v3x a * v3x b + v3y a * v3y b + v3z a * v3z b.
Definition vnorm (a : v3) : R := sqrt (vdot a a).
Definition vcross (a b : v3) : v3 :=
  V3 (v3y a * v3z b - v3z a * v3y b)
     (v3z a * v3x b - v3x a * v3z b)
     (v3x a * v3y b - v3y a * v3x b).
(* [a / norm(a)] *)
Definition vunit (a : v3) : v3 := vscale (/ vnorm a) a.

Lemma v3_eq : forall a b : v3,
  v3x a = v3x b -> v3y a = v3y b -> v3z a = v3z b -> a = b.
Proof. intros [a b c] [d e f]; simpl; intros; subst; reflexivity. Qed.

Lemma vdot_self_nonneg : forall a, 0 <= vdot a a.
Proof.
  intros [a b c]; unfold vdot; simpl.
  pose proof (Rle_0_sqr a); pose proof (Rle_0_sqr b); pose proof (Rle_0_sqr c).
  unfold Rsqr in *; lra.
Qed.

Lemma vdot_self_zero : forall a, vdot a a = 0 -> a = V3 0 0 0.
Proof.
  intros [a b c]; unfold vdot; simpl; intros H.
  pose proof (Rle_0_sqr a); pose proof (Rle_0_sqr b); pose proof (Rle_0_sqr c).
  unfold Rsqr in *.
  assert (a * a = 0) by lra. assert (b * b = 0) by lra. assert (c * c = 0) by lra.
  apply Rmult_integral in H3; apply Rmult_integral in H4; apply Rmult_integral in H5.
  f_equal; tauto.
Qed.

Lemma vnorm_sq : forall a, vnorm a * vnorm a = vdot a a.
Proof. intros a. apply sqrt_sqrt. apply vdot_self_nonneg. Qed.

Lemma vnorm_pos : forall a, a <> V3 0 0 0 -> 0 < vnorm a.
Proof.
  intros a Ha. apply sqrt_lt_R0.
  destruct (Rle_lt_or_eq_dec _ _ (vdot_self_nonneg a)) as [H|H]; auto.
  exfalso; apply Ha, vdot_self_zero; auto.
Qed.

Lemma vdot_scale : forall s a b, vdot (vscale s a) b = s * vdot a b.
Proof. intros s [a b c] [d e f]; unfold vdot; simpl; ring. Qed.

Lemma vdot_comm : forall a b, vdot a b = vdot b a.
Proof. intros [a b c] [d e f]; unfold vdot; simpl; ring. Qed.

Lemma vunit_unit : forall a, a <> V3 0 0 0 -> vdot (vunit a) (vunit a) = 1.
Proof.
  intros a Ha. unfold vunit. rewrite vdot_scale, vdot_comm, vdot_scale, <- vnorm_sq.
  pose proof (vnorm_pos a Ha). field. lra.
Qed.

(* Cauchy-Schwarz in the form used below *)
Lemma cauchy3 : forall a b, vdot a b * vdot a b <= vdot a a * vdot b b.
Proof.
  intros [a b c] [d e f]; unfold vdot; simpl.
  pose proof (Rle_0_sqr (a * e - b * d)).
  pose proof (Rle_0_sqr (a * f - c * d)).
  pose proof (Rle_0_sqr (b * f - c * e)).
  unfold Rsqr in *. nra.
Qed.

(* ------------------------------------------------------------------ *)
(* UniformFlowEnvironment._r (environments.py:279-314) for one grid     *)
(* point and one microphone, and Environment._r (environments.py:205-242, *)
(* dist_mat 77-114).  [gpos] and [mpos] are columns of the position     *)
(* arrays, [ma] the Mach number, [fdv] the flow direction.              *)

Definition env_r (gpos mpos : v3) : R := vnorm (vsub gpos mpos).

Definition uniform_r (ma : R) (fdv gpos mpos : v3) : R :=
  let f := vunit fdv in
  let rmv := vsub gpos mpos in
  let rm := vnorm rmv in
  let macostheta := ma * vdot rmv f / rm in
  rm * (1 / (- macostheta + sqrt (macostheta * macostheta - ma * ma + 1))).

(* The wave front emitted at [gpos] has, after the time [r / c], radius [r]
   and a centre that the flow has carried from [gpos] by [M r] along the
   unit vector of the flow direction. *)
Definition on_wavefront (ma : R) (fdv gpos mpos : v3) (r : R) : Prop :=
  vnorm (vsub mpos (vadd gpos (vscale (ma * r) (vunit fdv)))) = r.

Lemma quadratic_unique : forall p q r1 r2,
  0 < p -> 0 < q -> 0 < r1 -> 0 < r2 ->
  forall b,
  p * r1 * r1 - 2 * b * r1 - q = 0 ->
  p * r2 * r2 - 2 * b * r2 - q = 0 -> r1 = r2.
Proof.
  intros p q r1 r2 Hp Hq H1 H2 b E1 E2.
  (* b = (p r1^2 - q) / (2 r1), increasing in r *)
  destruct (Rtotal_order r1 r2) as [L|[L|L]]; auto; exfalso.
  - assert (r2 * (p * r1 * r1 - q) = r1 * (p * r2 * r2 - q)) by nra.
    assert ((r2 - r1) * (p * r1 * r2 + q) = 0) by nra.
    apply Rmult_integral in H0. destruct H0; [lra|].
    assert (0 < p * r1 * r2) by (apply Rmult_lt_0_compat; [apply Rmult_lt_0_compat|]; auto).
    lra.
  - assert (r2 * (p * r1 * r1 - q) = r1 * (p * r2 * r2 - q)) by nra.
    assert ((r2 - r1) * (p * r1 * r2 + q) = 0) by nra.
    apply Rmult_integral in H0. destruct H0; [lra|].
    assert (0 < p * r1 * r2) by (apply Rmult_lt_0_compat; [apply Rmult_lt_0_compat|]; auto).
    lra.
Qed.

Lemma on_wavefront_quadratic : forall ma fdv g m r,
  fdv <> V3 0 0 0 -> 0 <= r ->
  (on_wavefront ma fdv g m r <->
   (1 - ma * ma) * r * r - 2 * (ma * vdot (vsub g m) (vunit fdv)) * r
     - vdot (vsub g m) (vsub g m) = 0).
Proof.
  intros ma fdv g m r Hf Hr. unfold on_wavefront.
  pose proof (vunit_unit fdv Hf) as U.
  set (f := vunit fdv) in *.
  set (w := vsub m (vadd g (vscale (ma * r) f))).
  assert (E : vdot w w = vdot (vsub g m) (vsub g m)
              + 2 * (ma * r) * vdot (vsub g m) f + (ma * r) * (ma * r) * vdot f f).
  { unfold w, vdot, vsub, vadd, vscale; simpl; ring. }
  rewrite U in E. split; intros H.
  - pose proof (vnorm_sq w) as N. rewrite H in N. rewrite E in N. nra.
  - unfold vnorm. rewrite E. apply sqrt_lem_1; try nra; auto.
Qed.

Lemma uniform_r_solves : forall ma fdv g m,
  -1 < ma < 1 -> fdv <> V3 0 0 0 -> g <> m ->
  0 < uniform_r ma fdv g m /\ on_wavefront ma fdv g m (uniform_r ma fdv g m).
Proof.
  intros ma fdv g m Hm Hf Hd.
  assert (Hv : vsub g m <> V3 0 0 0).
  { intros E. apply Hd. destruct g as [a b c], m as [d e f]. unfold vsub in E; simpl in E.
    injection E; intros. f_equal; lra. }
  pose proof (vnorm_pos _ Hv) as Hn.
  pose proof (vnorm_sq (vsub g m)) as Hsq.
  unfold uniform_r. set (rm := vnorm (vsub g m)) in *.
  set (d := vdot (vsub g m) (vunit fdv)).
  set (k := ma * d / rm).
  assert (Hp : 0 < 1 - ma * ma) by nra.
  set (s := sqrt (k * k - ma * ma + 1)).
  assert (Hs2 : s * s = k * k - ma * ma + 1).
  { apply sqrt_sqrt. pose proof (Rle_0_sqr k). unfold Rsqr in *. lra. }
  assert (Hs0 : 0 <= s) by apply sqrt_pos.
  assert (Hks : 0 < - k + s).
  { assert (k < s); [|lra].
    destruct (Rlt_le_dec k 0) as [L|L]; [lra|].
    apply Rnot_le_lt. intros C. assert (s * s <= k * k) by nra. lra. }
  assert (Hr : 0 < rm * (1 / (- k + s))).
  { apply Rmult_lt_0_compat; auto. apply Rdiv_lt_0_compat; lra. }
  split; auto.
  apply on_wavefront_quadratic; auto; [lra|].
  fold d. rewrite <- Hsq.
  replace (ma * d) with (k * rm) by (unfold k; field; lra).
  assert (E : (1 - ma * ma) = (- k + s) * (k + s)) by nra.
  rewrite E. field. lra.
Qed.

Lemma on_wavefront_unique : forall ma fdv g m r1 r2,
  -1 < ma < 1 -> fdv <> V3 0 0 0 -> g <> m ->
  0 < r1 -> 0 < r2 ->
  on_wavefront ma fdv g m r1 -> on_wavefront ma fdv g m r2 -> r1 = r2.
Proof.
  intros ma fdv g m r1 r2 Hm Hf Hd H1 H2 W1 W2.
  assert (Hv : vsub g m <> V3 0 0 0).
  { intros E. apply Hd. destruct g as [a b c], m as [d e f]. unfold vsub in E; simpl in E.
    injection E; intros. f_equal; lra. }
  pose proof (vnorm_pos _ Hv) as Hn. pose proof (vnorm_sq (vsub g m)) as Hsq.
  apply on_wavefront_quadratic in W1; auto; try lra.
  apply on_wavefront_quadratic in W2; auto; try lra.
  apply (quadratic_unique (1 - ma * ma) (vdot (vsub g m) (vsub g m)) r1 r2) with
    (b := ma * vdot (vsub g m) (vunit fdv)); auto; try nra.
Qed.

Lemma uniform_r_rest : forall fdv g m, uniform_r 0 fdv g m = env_r g m.
Proof.
  intros. unfold uniform_r, env_r.
  replace (0 * vdot (vsub g m) (vunit fdv) / vnorm (vsub g m)) with 0
    by (unfold Rdiv; ring).
  replace (0 * 0 - 0 * 0 + 1) with 1 by ring. rewrite sqrt_1. field.
Qed.

(* Between the upstream and the downstream travel path the travel time
   changes in opposite directions: exchanging source and microphone is the
   same as reversing the flow. *)
Lemma uniform_r_reciprocal : forall ma fdv g m,
  uniform_r ma fdv g m = uniform_r (- ma) fdv m g.
Proof.
  intros. unfold uniform_r.
  assert (E : vnorm (vsub g m) = vnorm (vsub m g)).
  { unfold vnorm. f_equal. unfold vdot, vsub; simpl; ring. }
  rewrite E.
  assert (D : vdot (vsub g m) (vunit fdv) = - vdot (vsub m g) (vunit fdv)).
  { unfold vdot, vsub; simpl; ring. }
  rewrite D.
  replace (- ma * vdot (vsub m g) (vunit fdv) / vnorm (vsub m g))
    with (ma * - vdot (vsub m g) (vunit fdv) / vnorm (vsub m g))
    by (unfold Rdiv; ring).
  replace (- ma * - ma) with (ma * ma) by ring. reflexivity.
Qed.

(* ------------------------------------------------------------------ *)
(* Derivatives.                                                         *)

(* [f] has the derivative [l] at the point [p] in the direction [u]. *)
Definition dir_deriv (f : v3 -> R) (p u : v3) (l : R) : Prop :=
  derivable_pt_lim (fun t => f (vadd p (vscale t u))) 0 l.

(* A 3x3 matrix by its rows. *)
Record m3 : Type := M3 { row0 : v3; row1 : v3; row2 : v3 }.
Definition mapply (m : m3) (u : v3) : v3 := V3 (vdot (row0 m) u) (vdot (row1 m) u) (vdot (row2 m) u).
Definition mtrans (m : m3) : m3 :=
  M3 (V3 (v3x (row0 m)) (v3x (row1 m)) (v3x (row2 m)))
     (V3 (v3y (row0 m)) (v3y (row1 m)) (v3y (row2 m)))
     (V3 (v3z (row0 m)) (v3z (row1 m)) (v3z (row2 m))).
Definition mmul (a b : m3) : m3 :=
  let bt := mtrans b in
  M3 (V3 (vdot (row0 a) (row0 bt)) (vdot (row0 a) (row1 bt)) (vdot (row0 a) (row2 bt)))
     (V3 (vdot (row1 a) (row0 bt)) (vdot (row1 a) (row1 bt)) (vdot (row1 a) (row2 bt)))
     (V3 (vdot (row2 a) (row0 bt)) (vdot (row2 a) (row1 bt)) (vdot (row2 a) (row2 bt))).

(* [j] is the Jacobian matrix of the vector field [v] at [p]: every
   directional derivative of every component is the corresponding entry of
   [j u]; the unit vectors give the partial derivatives. *)
Definition is_jacobian (v : v3 -> v3) (p : v3) (j : m3) : Prop :=
  forall u,
    dir_deriv (fun q => v3x (v q)) p u (v3x (mapply j u)) /\
    dir_deriv (fun q => v3y (v q)) p u (v3y (mapply j u)) /\
    dir_deriv (fun q => v3z (v q)) p u (v3z (mapply j u)).

(* Some directional derivative does not exist. *)
Definition differentiable_at (v : v3 -> v3) (p : v3) : Prop :=
  exists j, is_jacobian v p j.

(* ------------------------------------------------------------------ *)
(* RotatingFlow.v (environments.py:642-687).                            *)

Definition rotating_v (omega v0 : R) (origin xx : v3) : v3 * m3 :=
  let d := vsub xx origin in
  let x := v3x d in let y := v3y d in
  (V3 (omega * - y) (omega * x) v0,
   mtrans (M3 (V3 0 omega 0) (V3 (- omega) 0 0) (V3 0 0 0))).

(* The rotational speed properties (environments.py:605-610, 630-631). *)
Definition rotating_omega (rps : R) : R := 2 * PI * rps.
Definition rotating_rps_of_rpm (rpm : R) : R := - rpm / 60.

Lemma deriv_affine : forall a b, derivable_pt_lim (fun t => a + t * b) 0 b.
Proof.
  intros a b eps Heps. exists (mkposreal 1 Rlt_0_1). intros h Hh _.
  replace ((a + (0 + h) * b - (a + 0 * b)) / h - b) with 0 by (field; auto).
  rewrite Rabs_R0; auto.
Qed.

Lemma deriv_ext : forall f g x l,
  (forall t, f t = g t) -> derivable_pt_lim f x l -> derivable_pt_lim g x l.
Proof. intros f g x l E H. apply (derivable_pt_lim_ext f g); auto. Qed.

Lemma deriv_eq : forall f x l l', l = l' -> derivable_pt_lim f x l -> derivable_pt_lim f x l'.
Proof. intros; subst; auto. Qed.

Lemma deriv_const : forall c x, derivable_pt_lim (fun _ => c) x 0.
Proof. intros c x. apply (derivable_pt_lim_const c x). Qed.

Lemma deriv_scal : forall a f x l,
  derivable_pt_lim f x l -> derivable_pt_lim (fun t => a * f t) x (a * l).
Proof. intros a f x l H. apply (derivable_pt_lim_scal f a x l H). Qed.

Lemma rotating_jacobian : forall omega v0 origin xx,
  is_jacobian (fun q => fst (rotating_v omega v0 origin q)) xx
              (snd (rotating_v omega v0 origin xx)).
Proof.
  intros omega v0 origin xx u. unfold dir_deriv, rotating_v, mapply, mtrans, vdot; simpl.
  repeat split.
  - eapply deriv_ext; [|eapply deriv_eq; [|apply (deriv_affine (omega * - (v3y xx - v3y origin)) (- omega * v3y u))]];
      [intros t; simpl; ring | ring].
  - eapply deriv_ext; [|eapply deriv_eq; [|apply (deriv_affine (omega * (v3x xx - v3x origin)) (omega * v3x u))]];
      [intros t; simpl; ring | ring].
  - eapply deriv_eq; [|apply deriv_const]. ring.
Qed.

(* ------------------------------------------------------------------ *)
(* The jet profile common to both jets.                                 *)

Definition profile (h x1 : R) : R :=
  if Rlt_dec h 0 then 1 else exp (- h * h / (2 * x1 * x1)).

(* locally Lipschitz at 0 *)
Definition lip0 (h : R -> R) : Prop :=
  exists L d, 0 < L /\ 0 < d /\ forall t, Rabs t < d -> Rabs (h t - h 0) <= L * Rabs t.

Lemma deriv_lip0 : forall h l, derivable_pt_lim h 0 l -> lip0 h.
Proof.
  intros h l D. destruct (D 1 Rlt_0_1) as [d Hd].
  exists (Rabs l + 1), d. pose proof (Rabs_pos l). pose proof (cond_pos d).
  repeat split; auto; [lra|].
  intros t Ht. destruct (Req_dec t 0) as [->|Hn].
  - replace (h 0 - h 0) with 0 by ring. rewrite Rabs_R0. lra.
  - specialize (Hd t Hn Ht). rewrite Rplus_0_l in Hd.
    assert (Rabs ((h t - h 0) / t) < Rabs l + 1).
    { replace ((h t - h 0) / t) with (((h t - h 0) / t - l) + l) by ring.
      eapply Rle_lt_trans; [apply Rabs_triang|]. lra. }
    unfold Rdiv in H1. rewrite Rabs_mult, Rabs_inv in H1.
    pose proof (Rabs_pos_lt t Hn).
    apply Rmult_le_reg_r with (/ Rabs t); [apply Rinv_0_lt_compat; auto|].
    rewrite Rmult_assoc, Rinv_r, Rmult_1_r by lra. lra.
Qed.

Lemma profile_deriv_core : forall h q,
  lip0 h -> h 0 < 0 -> derivable_pt_lim (fun t => profile (h t) (q t)) 0 0.
Proof.
  intros h q (L & d & HL & Hd & HB) Hh eps Heps.
  assert (Hp : 0 < Rmin d (- h 0 / L)).
  { apply Rmin_glb_lt; auto. apply Rdiv_lt_0_compat; lra. }
  exists (mkposreal _ Hp). intros t Hn Ht. simpl in Ht.
  rewrite Rplus_0_l.
  assert (h t < 0).
  { pose proof (Rmin_l d (- h 0 / L)). pose proof (Rmin_r d (- h 0 / L)).
    specialize (HB t ltac:(lra)).
    assert (L * Rabs t < - h 0).
    { replace (- h 0) with (L * (- h 0 / L)) by (field; lra).
      apply Rmult_lt_compat_l; lra. }
    pose proof (Rle_abs (h t - h 0)). lra. }
  unfold profile. destruct (Rlt_dec (h t) 0); [|lra]. destruct (Rlt_dec (h 0) 0); [|lra].
  replace ((1 - 1) / t - 0) with 0 by (field; auto). rewrite Rabs_R0; auto.
Qed.

Lemma exp_minus_bounds : forall a, 0 <= a -> 0 <= 1 - exp (- a) <= a.
Proof.
  intros a Ha. destruct (Rle_lt_or_eq_dec _ _ Ha) as [H|H].
  - pose proof (exp_ineq1 (- a) ltac:(lra)).
    pose proof (exp_increasing (- a) 0 ltac:(lra)). rewrite exp_0 in *. lra.
  - subst. rewrite Ropp_0, exp_0. lra.
Qed.

Lemma profile_deriv_edge : forall h q,
  lip0 h -> lip0 q -> h 0 = 0 -> q 0 <> 0 ->
  derivable_pt_lim (fun t => profile (h t) (q t)) 0 0.
Proof.
  intros h q (L & d & HL & Hd & HB) (K & e & HK & He & HQ) Hh Hq eps Heps.
  set (m := Rabs (q 0)). assert (Hm : 0 < m) by (apply Rabs_pos_lt; auto).
  (* |q t| >= m/2 for |t| <= m/(2K);  1 - profile <= 2 L^2 t^2 / m^2 *)
  set (c := 2 * L * L / (m * m)).
  assert (Hc : 0 < c).
  { unfold c. apply Rdiv_lt_0_compat; nra. }
  assert (Hp : 0 < Rmin (Rmin d e) (Rmin (m / (2 * K)) (eps / c))).
  { repeat apply Rmin_glb_lt; auto; apply Rdiv_lt_0_compat; lra. }
  exists (mkposreal _ Hp). intros t Hn Ht. simpl in Ht. rewrite Rplus_0_l.
  pose proof (Rmin_l (Rmin d e) (Rmin (m / (2 * K)) (eps / c))).
  pose proof (Rmin_r (Rmin d e) (Rmin (m / (2 * K)) (eps / c))).
  pose proof (Rmin_l d e). pose proof (Rmin_r d e).
  pose proof (Rmin_l (m / (2 * K)) (eps / c)). pose proof (Rmin_r (m / (2 * K)) (eps / c)).
  specialize (HB t ltac:(lra)). specialize (HQ t ltac:(lra)).
  rewrite Hh, Rminus_0_r in HB.
  assert (P0 : profile (h 0) (q 0) = 1).
  { unfold profile. rewrite Hh. destruct (Rlt_dec 0 0); [lra|].
    replace (- 0 * 0 / (2 * q 0 * q 0)) with 0 by (field; auto). apply exp_0. }
  rewrite P0, Rminus_0_r.
  pose proof (Rabs_pos_lt t Hn) as Ht0.
  assert (HqT : m / 2 <= Rabs (q t)).
  { assert (K * Rabs t <= m / 2).
    { replace (m / 2) with (K * (m / (2 * K))) by (field; lra).
      apply Rmult_le_compat_l; lra. }
    pose proof (Rabs_triang_inv (q 0) (q 0 - q t)).
    replace (q 0 - (q 0 - q t)) with (q t) in H6 by ring.
    rewrite (Rabs_minus_sym (q 0) (q t)) in H6. fold m in H6. lra. }
  assert (B : 0 <= 1 - profile (h t) (q t) <= c * (Rabs t * Rabs t)).
  { assert (0 <= c * (Rabs t * Rabs t)).
    { apply Rmult_le_pos; [lra|]. apply Rmult_le_pos; lra. }
    unfold profile. destruct (Rlt_dec (h t) 0); [lra|].
    assert (Q2 : m * m / 4 <= q t * q t).
    { rewrite <- (Rabs_pos_eq (q t * q t)) by (pose proof (Rle_0_sqr (q t)); unfold Rsqr in *; auto).
      rewrite Rabs_mult. nra. }
    assert (Hh2 : h t * h t <= L * L * (Rabs t * Rabs t)).
    { rewrite <- (Rabs_pos_eq (h t * h t)) by (pose proof (Rle_0_sqr (h t)); unfold Rsqr in *; auto).
      rewrite Rabs_mult. pose proof (Rabs_pos (h t)). nra. }
    assert (Q0 : 0 < m * m) by nra.
    assert (A : 0 <= h t * h t / (2 * q t * q t) <= c * (Rabs t * Rabs t)).
    { split.
      - apply Rmult_le_pos; [pose proof (Rle_0_sqr (h t)); unfold Rsqr in *; auto|].
        left; apply Rinv_0_lt_compat. nra.
      - apply Rmult_le_reg_r with (2 * q t * q t); [nra|].
        unfold Rdiv. rewrite Rmult_assoc, Rinv_l, Rmult_1_r by nra.
        apply Rle_trans with (L * L * (Rabs t * Rabs t)); auto.
        replace (L * L * (Rabs t * Rabs t)) with (c * (Rabs t * Rabs t) * (m * m / 2))
          by (unfold c; field; lra).
        apply Rmult_le_compat_l; auto. nra. }
    replace (- h t * h t / (2 * q t * q t)) with (- (h t * h t / (2 * q t * q t)))
      by (unfold Rdiv; ring).
    pose proof (exp_minus_bounds _ (proj1 A)). lra. }
  unfold Rdiv. rewrite Rabs_mult, Rabs_inv.
  apply Rmult_lt_reg_r with (Rabs t); auto.
  rewrite Rmult_assoc, Rinv_l, Rmult_1_r by lra.
  replace (profile (h t) (q t) - 1) with (- (1 - profile (h t) (q t))) by ring.
  rewrite Rabs_Ropp, Rabs_pos_eq by lra.
  eapply Rle_lt_trans; [apply B|].
  rewrite <- Rmult_assoc. apply Rmult_lt_compat_r; auto.
  replace eps with (c * (eps / c)) by (field; lra).
  apply Rmult_lt_compat_l; lra.
Qed.

(* local extensionality *)
Lemma deriv_local : forall f g x l d, 0 < d ->
  (forall t, Rabs (t - x) < d -> f t = g t) ->
  derivable_pt_lim f x l -> derivable_pt_lim g x l.
Proof.
  intros f g x l d Hd E D.
  apply (derivable_pt_lim_locally_ext f g x (x - d) (x + d) l); auto; [lra|].
  intros z Hz. apply E. apply Rabs_def1; lra.
Qed.

Lemma profile_deriv_shear : forall h q h' q',
  derivable_pt_lim h 0 h' -> derivable_pt_lim q 0 q' -> 0 < h 0 -> q 0 <> 0 ->
  derivable_pt_lim (fun t => profile (h t) (q t)) 0
    (exp (- h 0 * h 0 / (2 * q 0 * q 0)) *
     (h 0 * h 0 * q' / (q 0 * q 0 * q 0) - h 0 * h' / (q 0 * q 0))).
Proof.
  intros h q h' q' Dh Dq Hh Hq.
  destruct (deriv_lip0 _ _ Dh) as (L & d & HL & Hd & HB).
  assert (Hp : 0 < Rmin d (h 0 / L)).
  { apply Rmin_glb_lt; auto. apply Rdiv_lt_0_compat; lra. }
  apply (deriv_local (fun t => exp (- h t * h t / (2 * q t * q t))) _ 0 _ _ Hp).
  { intros t Ht. rewrite Rminus_0_r in Ht. unfold profile.
    destruct (Rlt_dec (h t) 0); auto. exfalso.
    pose proof (Rmin_l d (h 0 / L)). pose proof (Rmin_r d (h 0 / L)).
    specialize (HB t ltac:(lra)).
    assert (L * Rabs t < h 0).
    { replace (h 0) with (L * (h 0 / L)) by (field; lra). apply Rmult_lt_compat_l; lra. }
    pose proof (Rle_abs (- (h t - h 0))). rewrite Rabs_Ropp in H2. lra. }
  set (N := fun t => - h t * h t). set (M := fun t => 2 * q t * q t).
  assert (DN : derivable_pt_lim N 0 (- 2 * h 0 * h')).
  { unfold N. eapply deriv_eq; [|apply (derivable_pt_lim_mult (fun t => - h t) h 0 (- h') h')];
      [simpl; ring | apply (derivable_pt_lim_opp h 0 h' Dh) | auto]. }
  assert (DM : derivable_pt_lim M 0 (4 * q 0 * q')).
  { unfold M. eapply deriv_eq; [|apply (derivable_pt_lim_mult (fun t => 2 * q t) q 0 (2 * q') q')];
      [simpl; ring | apply deriv_scal; auto | auto]. }
  assert (M0 : M 0 <> 0).
  { unfold M. intros E. apply Hq. assert (q 0 * q 0 = 0) by lra.
    apply Rmult_integral in H; tauto. }
  pose proof (derivable_pt_lim_div N M 0 _ _ DN DM M0) as DD.
  pose proof (derivable_pt_lim_comp (N / M)%F exp 0 _ _ DD
                (derivable_pt_lim_exp ((N / M)%F 0))) as DC.
  eapply deriv_eq; [|exact DC].
  unfold div_fct, N, M, Rsqr. field. auto.
Qed.

(* ------------------------------------------------------------------ *)
(* OpenJet.v (environments.py:500-555).                                 *)
(* Off the nozzle exit plane ([x1 <> 0]) nothing divides by zero except   *)
(* the guarded [r = 0].  In the exit plane the quotients are infinite:    *)
(* outside the core exp(-inf) gives the velocity 0 and the derivatives    *)
(* are inf - inf or 0/0 = NaN; on the edge itself everything is NaN.      *)

Record jet : Type := Jet { jet_v0 : R; jet_origin : v3; jet_D : R; jet_l : R }.

Definition oj_r (j : jet) (xx : v3) : R :=
  let d := vsub xx (jet_origin j) in sqrt (v3y d * v3y d + v3z d * v3z d).
Definition oj_x1 (j : jet) (xx : v3) : R :=
  0.5022 / jet_l j * v3x (vsub xx (jet_origin j)).
Definition oj_h1 (j : jet) (xx : v3) : R :=
  oj_r j xx + oj_x1 j xx - 0.5 * jet_D j.

Definition openjet_vel (j : jet) (xx : v3) : option v3 :=
  let x1 := oj_x1 j xx in
  let h1 := oj_h1 j xx in
  if Rlt_dec h1 0 then Some (V3 (jet_v0 j) 0 0)
  else if Req_EM_T x1 0 then
    if Req_EM_T h1 0 then None else Some (V3 0 0 0)
  else Some (V3 (jet_v0 j * exp (- h1 * h1 / (2 * x1 * x1))) 0 0).

Definition openjet_jac (j : jet) (xx : v3) : option m3 :=
  let d := vsub xx (jet_origin j) in
  let x := v3x d in let y := v3y d in let z := v3z d in
  let r := oj_r j xx in
  let x1 := oj_x1 j xx in
  let h1 := oj_h1 j xx in
  if Rlt_dec h1 0 then
    let Udr := 0 in
    let Udy := if Rlt_dec 0 r then y * Udr / r else 0 in
    let Udz := if Rlt_dec 0 r then z * Udr / r else 0 in
    Some (mtrans (M3 (V3 0 0 0) (V3 Udy 0 0) (V3 Udz 0 0)))
  else if Req_EM_T x1 0 then None
  else
    let U := jet_v0 j * exp (- h1 * h1 / (2 * x1 * x1)) in
    let Udr := - h1 * U / (x1 * x1) in
    let Udy := if Rlt_dec 0 r then y * Udr / r else 0 in
    let Udz := if Rlt_dec 0 r then z * Udr / r else 0 in
    let Udx := (h1 * h1 / (x * x1 * x1) - h1 / (x * x1)) * U in
    Some (mtrans (M3 (V3 Udx 0 0) (V3 Udy 0 0) (V3 Udz 0 0))).

(* The velocity as a total function for the derivatives (0 for NaN). *)
Definition tot (o : option v3) : v3 := match o with Some v => v | None => V3 0 0 0 end.

Lemma sqrt_lip : forall y z uy uz, exists L, 0 < L /\
  forall t, Rabs (sqrt ((y + t * uy) * (y + t * uy) + (z + t * uz) * (z + t * uz))
                  - sqrt (y * y + z * z)) <= L * Rabs t.
Proof.
  intros y z uy uz. exists (sqrt (uy * uy + uz * uz) + 1).
  pose proof (sqrt_pos (uy * uy + uz * uz)) as W0. split; [lra|].
  intros t.
  assert (Nn : forall a b, 0 <= a * a + b * b).
  { intros a b. pose proof (Rle_0_sqr a); pose proof (Rle_0_sqr b). unfold Rsqr in *; lra. }
  set (w := sqrt (uy * uy + uz * uz)) in *.
  assert (W2 : w * w = uy * uy + uz * uz) by (apply sqrt_sqrt; auto).
  assert (tri : forall a b c d, sqrt ((a + c) * (a + c) + (b + d) * (b + d))
                 <= sqrt (a * a + b * b) + sqrt (c * c + d * d)).
  { intros a b c d.
    set (p := sqrt (a * a + b * b)). set (q := sqrt (c * c + d * d)).
    assert (P2 : p * p = a * a + b * b) by (apply sqrt_sqrt; auto).
    assert (Q2 : q * q = c * c + d * d) by (apply sqrt_sqrt; auto).
    assert (P0 : 0 <= p) by apply sqrt_pos. assert (Q0 : 0 <= q) by apply sqrt_pos.
    assert (PQ : 0 <= p * q) by (apply Rmult_le_pos; auto).
    assert (C : a * c + b * d <= p * q).
    { apply Rnot_lt_le. intros X.
      assert ((p * q) * (p * q) < (a * c + b * d) * (a * c + b * d)) by nra.
      replace ((p * q) * (p * q)) with ((p * p) * (q * q)) in H by ring.
      rewrite P2, Q2 in H. pose proof (Rle_0_sqr (a * d - b * c)). unfold Rsqr in *. nra. }
    apply Rle_trans with (sqrt ((p + q) * (p + q))).
    - apply sqrt_le_1; auto; [apply Rmult_le_pos; lra|]. nra.
    - rewrite sqrt_square by lra. lra. }
  assert (Et : sqrt ((t * uy) * (t * uy) + (t * uz) * (t * uz)) = w * Rabs t).
  { replace ((t * uy) * (t * uy) + (t * uz) * (t * uz)) with ((uy * uy + uz * uz) * (t * t)) by ring.
    rewrite sqrt_mult; auto; [|pose proof (Rle_0_sqr t); unfold Rsqr in *; auto].
    fold w. f_equal. rewrite <- (sqrt_Rsqr_abs t). reflexivity. }
  pose proof (tri y z (t * uy) (t * uz)) as T1. rewrite Et in T1.
  pose proof (tri (y + t * uy) (z + t * uz) (- (t * uy)) (- (t * uz))) as T2.
  replace (y + t * uy + - (t * uy)) with y in T2 by ring.
  replace (z + t * uz + - (t * uz)) with z in T2 by ring.
  replace (- (t * uy) * - (t * uy) + - (t * uz) * - (t * uz))
    with ((t * uy) * (t * uy) + (t * uz) * (t * uz)) in T2 by ring.
  rewrite Et in T2. pose proof (Rabs_pos t).
  apply Rabs_le. split; nra.
Qed.

Lemma sqrt_deriv : forall y z uy uz,
  0 < sqrt (y * y + z * z) ->
  derivable_pt_lim (fun t => sqrt ((y + t * uy) * (y + t * uy) + (z + t * uz) * (z + t * uz))) 0
    ((y * uy + z * uz) / sqrt (y * y + z * z)).
Proof.
  intros y z uy uz H.
  assert (P : 0 < y * y + z * z).
  { destruct (Rle_lt_dec (y * y + z * z) 0) as [L|L]; auto.
    rewrite sqrt_neg_0 in H by auto. lra. }
  pose proof (deriv_affine y uy) as D1. pose proof (deriv_affine z uz) as D2.
  set (fy := fun t => y + t * uy) in *. set (fz := fun t => z + t * uz) in *.
  pose proof (derivable_pt_lim_plus _ _ 0 _ _ (derivable_pt_lim_mult fy fy 0 _ _ D1 D1)
                (derivable_pt_lim_mult fz fz 0 _ _ D2 D2)) as D.
  set (s := (fy * fy + fz * fz)%F) in *.
  assert (S0 : s 0 = y * y + z * z) by (unfold s, plus_fct, mult_fct, fy, fz; ring).
  assert (Dq : derivable_pt_lim sqrt (s 0) (/ (2 * sqrt (s 0)))).
  { apply derivable_pt_lim_sqrt. rewrite S0; auto. }
  pose proof (derivable_pt_lim_comp s sqrt 0 _ _ D Dq) as DC.
  eapply deriv_eq; [|exact DC].
  rewrite S0. unfold fy, fz. field. lra.
Qed.

Lemma openjet_x1_line : forall j p u t,
  oj_x1 j (vadd p (vscale t u)) = oj_x1 j p + t * (0.5022 / jet_l j * v3x u).
Proof. intros. unfold oj_x1, vsub, vadd, vscale; simpl. ring. Qed.

Lemma openjet_h1_line : forall j p u t,
  let d := vsub p (jet_origin j) in
  oj_h1 j (vadd p (vscale t u)) =
  sqrt ((v3y d + t * v3y u) * (v3y d + t * v3y u) + (v3z d + t * v3z u) * (v3z d + t * v3z u))
  + (oj_x1 j p + t * (0.5022 / jet_l j * v3x u)) - 0.5 * jet_D j.
Proof.
  intros. unfold oj_h1. rewrite openjet_x1_line. unfold oj_r.
  unfold d, vsub, vadd, vscale; simpl. f_equal. f_equal. f_equal.
  f_equal; ring.
Qed.

Lemma openjet_h1_lip : forall j p u, lip0 (fun t => oj_h1 j (vadd p (vscale t u))).
Proof.
  intros j p u. set (d := vsub p (jet_origin j)).
  destruct (sqrt_lip (v3y d) (v3z d) (v3y u) (v3z u)) as (L & HL & HB).
  set (k := 0.5022 / jet_l j * v3x u).
  exists (L + Rabs k), 1. pose proof (Rabs_pos k). repeat split; try lra.
  intros t _. rewrite !openjet_h1_line. fold d. fold k.
  specialize (HB t).
  set (s := sqrt ((v3y d + t * v3y u) * (v3y d + t * v3y u) + (v3z d + t * v3z u) * (v3z d + t * v3z u))) in *.
  replace (v3y d + 0 * v3y u) with (v3y d) by ring.
  replace (v3z d + 0 * v3z u) with (v3z d) by ring.
  set (s0 := sqrt (v3y d * v3y d + v3z d * v3z d)) in *.
  replace (s + (oj_x1 j p + t * k) - 0.5 * jet_D j - (s0 + (oj_x1 j p + 0 * k) - 0.5 * jet_D j))
    with ((s - s0) + t * k) by ring.
  eapply Rle_trans; [apply Rabs_triang|]. rewrite Rabs_mult.
  rewrite (Rmult_comm (Rabs t)). lra.
Qed.

Lemma vadd_zero : forall p u, vadd p (vscale 0 u) = p.
Proof. intros [a b c] [d e f]. unfold vadd, vscale; simpl. f_equal; ring. Qed.

(* [tot (openjet_vel j)] off the exit plane is [v0 * profile]. *)
Lemma openjet_vel_profile : forall j xx,
  oj_x1 j xx <> 0 \/ oj_h1 j xx < 0 ->
  tot (openjet_vel j xx) = V3 (jet_v0 j * profile (oj_h1 j xx) (oj_x1 j xx)) 0 0.
Proof.
  intros j xx H. unfold openjet_vel, profile.
  destruct (Rlt_dec (oj_h1 j xx) 0); simpl; [f_equal; ring|].
  destruct (Req_EM_T (oj_x1 j xx) 0); [destruct H; [tauto|lra]|]. reflexivity.
Qed.

Lemma lip0_off : forall (f : R -> R), lip0 f -> f 0 <> 0 ->
  exists d, 0 < d /\ forall t, Rabs t < d -> f t <> 0.
Proof.
  intros f (L & d & HL & Hd & HB) H.
  pose proof (Rabs_pos_lt _ H) as Hm.
  exists (Rmin d (Rabs (f 0) / L)). split.
  - apply Rmin_glb_lt; auto. apply Rdiv_lt_0_compat; auto.
  - intros t Ht E. pose proof (Rmin_l d (Rabs (f 0) / L)). pose proof (Rmin_r d (Rabs (f 0) / L)).
    specialize (HB t ltac:(lra)). rewrite E in HB.
    replace (0 - f 0) with (- f 0) in HB by ring. rewrite Rabs_Ropp in HB.
    assert (L * Rabs t < Rabs (f 0)).
    { replace (Rabs (f 0)) with (L * (Rabs (f 0) / L)) by (field; lra).
      apply Rmult_lt_compat_l; lra. }
    lra.
Qed.

Lemma lip0_neg : forall (f : R -> R), lip0 f -> f 0 < 0 ->
  exists d, 0 < d /\ forall t, Rabs t < d -> f t < 0.
Proof.
  intros f (L & d & HL & Hd & HB) H.
  exists (Rmin d (- f 0 / L)). split.
  - apply Rmin_glb_lt; auto. apply Rdiv_lt_0_compat; lra.
  - intros t Ht. pose proof (Rmin_l d (- f 0 / L)). pose proof (Rmin_r d (- f 0 / L)).
    specialize (HB t ltac:(lra)).
    assert (L * Rabs t < - f 0).
    { replace (- f 0) with (L * (- f 0 / L)) by (field; lra). apply Rmult_lt_compat_l; lra. }
    pose proof (Rle_abs (f t - f 0)). lra.
Qed.

Lemma openjet_jacobian : forall j p jm,
  jet_l j <> 0 ->
  openjet_jac j p = Some jm ->
  (oj_r j p <> 0 \/ oj_h1 j p <= 0) ->
  is_jacobian (fun q => tot (openjet_vel j q)) p jm.
Proof.
  intros j p jm Hl HJ HR u.
  set (d := vsub p (jet_origin j)).
  set (k := 0.5022 / jet_l j * v3x u).
  set (h := fun t => oj_h1 j (vadd p (vscale t u))).
  set (q := fun t => oj_x1 j (vadd p (vscale t u))).
  assert (H0 : h 0 = oj_h1 j p) by (unfold h; rewrite vadd_zero; auto).
  assert (Q0 : q 0 = oj_x1 j p) by (unfold q; rewrite vadd_zero; auto).
  pose proof (openjet_h1_lip j p u) as HLip. fold h in HLip.
  assert (Dq : derivable_pt_lim q 0 k).
  { eapply deriv_ext; [|apply (deriv_affine (oj_x1 j p) k)].
    intros t. unfold q. rewrite openjet_x1_line. reflexivity. }
  pose proof (deriv_lip0 _ _ Dq) as QLip.
  assert (HX : oj_x1 j p <> 0 \/ oj_h1 j p < 0).
  { unfold openjet_jac in HJ. destruct (Rlt_dec (oj_h1 j p) 0); auto.
    destruct (Req_EM_T (oj_x1 j p) 0); [discriminate|auto]. }
  (* near p the velocity is v0 * profile *)
  assert (Loc : exists e, 0 < e /\ forall t, Rabs (t - 0) < e ->
            V3 (jet_v0 j * profile (h t) (q t)) 0 0 = tot (openjet_vel j (vadd p (vscale t u)))).
  { destruct HX as [HX|HX].
    - rewrite <- Q0 in HX. destruct (lip0_off _ QLip HX) as (e & He & HE).
      exists e. split; auto. intros t Ht. rewrite Rminus_0_r in Ht.
      symmetry. apply openjet_vel_profile. left. apply HE; auto.
    - rewrite <- H0 in HX. destruct (lip0_neg _ HLip HX) as (e & He & HE).
      exists e. split; auto. intros t Ht. rewrite Rminus_0_r in Ht.
      symmetry. apply openjet_vel_profile. right. apply HE; auto. }
  destruct Loc as (e & He & Loc).
  assert (Goal : forall l, derivable_pt_lim (fun t => profile (h t) (q t)) 0 l ->
            v3x (mapply jm u) = jet_v0 j * l -> v3y (mapply jm u) = 0 -> v3z (mapply jm u) = 0 ->
            dir_deriv (fun q => v3x (tot (openjet_vel j q))) p u (v3x (mapply jm u)) /\
            dir_deriv (fun q => v3y (tot (openjet_vel j q))) p u (v3y (mapply jm u)) /\
            dir_deriv (fun q => v3z (tot (openjet_vel j q))) p u (v3z (mapply jm u))).
  { intros l Dl E1 E2 E3. rewrite E1, E2, E3. unfold dir_deriv. repeat split.
    - apply (deriv_local (fun t => jet_v0 j * profile (h t) (q t)) _ 0 _ e He);
        [intros t Ht; rewrite <- Loc; auto | apply deriv_scal; auto].
    - apply (deriv_local (fun t => 0) _ 0 _ e He);
        [intros t Ht; rewrite <- Loc; auto | apply deriv_const].
    - apply (deriv_local (fun t => 0) _ 0 _ e He);
        [intros t Ht; rewrite <- Loc; auto | apply deriv_const]. }
  unfold openjet_jac in HJ. fold d in HJ.
  destruct (Rlt_dec (oj_h1 j p) 0) as [C|C].
  - injection HJ as <-. apply (Goal 0).
    + apply profile_deriv_core; auto. rewrite H0; auto.
    + unfold mapply, mtrans, vdot; simpl. destruct (Rlt_dec 0 (oj_r j p)); [|ring].
      unfold Rdiv; ring.
    + unfold mapply, mtrans, vdot; simpl. ring.
    + unfold mapply, mtrans, vdot; simpl. ring.
  - destruct (Req_EM_T (oj_x1 j p) 0) as [X|X]; [discriminate|].
    injection HJ as <-.
    assert (x0 : v3x d <> 0).
    { intros E. apply X. unfold oj_x1. fold d. rewrite E. ring. }
    assert (Kx : k = oj_x1 j p / v3x d * v3x u).
    { unfold k, oj_x1. fold d. field. split; auto. }
    destruct (Rle_lt_or_eq_dec 0 (oj_h1 j p) ltac:(lra)) as [P|P].
    + (* shear layer *)
      assert (R0 : 0 < oj_r j p).
      { destruct HR as [HR|HR]; [|lra]. unfold oj_r in *.
        pose proof (sqrt_pos (v3y (vsub p (jet_origin j)) * v3y (vsub p (jet_origin j))
                    + v3z (vsub p (jet_origin j)) * v3z (vsub p (jet_origin j)))). simpl in *. lra. }
      set (r' := (v3y d * v3y u + v3z d * v3z u) / oj_r j p).
      assert (Dh : derivable_pt_lim h 0 (r' + k)).
      { pose proof (sqrt_deriv (v3y d) (v3z d) (v3y u) (v3z u) R0) as DS.
        pose proof (derivable_pt_lim_plus _ _ 0 _ _ DS
                      (deriv_affine (oj_x1 j p - 0.5 * jet_D j) k)) as DP.
        eapply deriv_ext; [|exact DP]. intros t. unfold h. rewrite openjet_h1_line.
        fold d. fold k. unfold plus_fct. ring. }
      pose proof (profile_deriv_shear h q (r' + k) k Dh Dq ltac:(rewrite H0; auto)
                    ltac:(rewrite Q0; auto)) as DP.
      apply (Goal _ DP); rewrite ?H0, ?Q0.
      * unfold mapply, mtrans, vdot; simpl. destruct (Rlt_dec 0 (oj_r j p)); [|lra].
        rewrite Kx. unfold r'.
        set (E := exp _). change (v3x p - v3x (jet_origin j)) with (v3x d). change (v3y p - v3y (jet_origin j)) with (v3y d). change (v3z p - v3z (jet_origin j)) with (v3z d). field. repeat split; auto; lra.
      * unfold mapply, mtrans, vdot; simpl. ring.
      * unfold mapply, mtrans, vdot; simpl. ring.
    + (* edge of the core *)
      apply (Goal 0).
      * apply profile_deriv_edge; auto; rewrite ?H0, ?Q0; auto.
      * unfold mapply, mtrans, vdot; simpl. rewrite <- P.
        destruct (Rlt_dec 0 (oj_r j p)); unfold Rdiv; ring.
      * unfold mapply, mtrans, vdot; simpl. ring.
      * unfold mapply, mtrans, vdot; simpl. ring.
Qed.

(* The one place off the exit plane where the Jacobian is not the derivative:
   on the axis, behind the end of the core, the field has a crease. *)
Lemma abs_not_deriv : forall a b : R, forall g : R -> R, 0 < b ->
  (exists d, 0 < d /\ forall t, Rabs t < d -> g t <= a - b * Rabs t) -> g 0 = a ->
  forall l, ~ derivable_pt_lim g 0 l.
Proof.
  intros a b g Hb (d & Hd & HG) H0 l D.
  destruct (D (b / 2) ltac:(lra)) as [e He].
  pose proof (cond_pos e) as Hp.
  set (t := Rmin d e / 2).
  assert (Ht : 0 < t /\ t < d /\ t < e).
  { unfold t. pose proof (Rmin_l d e); pose proof (Rmin_r d e).
    assert (0 < Rmin d e) by (apply Rmin_glb_lt; auto). lra. }
  destruct Ht as (T0 & T1 & T2).
  assert (A1 : Rabs t = t) by (apply Rabs_pos_eq; lra).
  assert (A2 : Rabs (- t) = t) by (rewrite Rabs_Ropp; auto).
  pose proof (He t ltac:(lra) ltac:(rewrite A1; auto)) as B1.
  pose proof (He (- t) ltac:(lra) ltac:(rewrite A2; auto)) as B2.
  pose proof (HG t ltac:(rewrite A1; auto)) as G1.
  pose proof (HG (- t) ltac:(rewrite A2; auto)) as G2.
  rewrite A1 in G1. rewrite A2 in G2. rewrite Rplus_0_l, H0 in B1, B2.
  assert (Q1 : (g t - a) / t <= - b).
  { apply Rmult_le_reg_r with t; auto. unfold Rdiv. rewrite Rmult_assoc, Rinv_l by lra. lra. }
  assert (Q2 : b <= (g (- t) - a) / - t).
  { apply Rmult_le_reg_r with t; auto.
    replace ((g (- t) - a) / - t * t) with (- (g (- t) - a)) by (field; lra). lra. }
  apply Rabs_def2 in B1. apply Rabs_def2 in B2. lra.
Qed.

Lemma exp_le_inv : forall a, 0 <= a -> exp (- a) <= / (1 + a).
Proof.
  intros a Ha. rewrite exp_Ropp. apply Rinv_le_contravar; [lra|].
  destruct (Rle_lt_or_eq_dec _ _ Ha) as [H|H]; [left; apply exp_ineq1; lra|].
  subst. rewrite exp_0. lra.
Qed.

Lemma openjet_crease : forall j p,
  oj_r j p = 0 -> 0 < oj_h1 j p -> oj_x1 j p <> 0 -> 0 < jet_v0 j ->
  ~ differentiable_at (fun q => tot (openjet_vel j q)) p.
Proof.
  intros j p HR HH HX Hv (jm & HJ).
  destruct (HJ (V3 0 1 0)) as (D & _ & _).
  unfold dir_deriv in D. revert D.
  set (d := vsub p (jet_origin j)).
  set (h := oj_h1 j p). set (q := oj_x1 j p).
  assert (Hyz : v3y d = 0 /\ v3z d = 0).
  { assert (HR' : sqrt (v3y d * v3y d + v3z d * v3z d) = 0) by exact HR.
    pose proof (Rle_0_sqr (v3y d)); pose proof (Rle_0_sqr (v3z d)). unfold Rsqr in *.
    apply sqrt_eq_0 in HR'; [|lra].
    assert (E1 : v3y d * v3y d = 0) by lra. assert (E2 : v3z d * v3z d = 0) by lra.
    apply Rmult_integral in E1; apply Rmult_integral in E2. tauto. }
  assert (Hline : forall t, oj_h1 j (vadd p (vscale t (V3 0 1 0))) = h + Rabs t
                         /\ oj_x1 j (vadd p (vscale t (V3 0 1 0))) = q).
  { intros t. rewrite openjet_h1_line, openjet_x1_line. fold d.
    change (v3x (V3 0 1 0)) with 0. change (v3y (V3 0 1 0)) with 1. change (v3z (V3 0 1 0)) with 0.
    destruct Hyz as [-> ->].
    replace ((0 + t * 1) * (0 + t * 1) + (0 + t * 0) * (0 + t * 0)) with (Rsqr t)
      by (unfold Rsqr; ring).
    rewrite sqrt_Rsqr_abs. unfold h, q, oj_h1. rewrite HR. split; ring. }
  set (E := exp (- (h * h / (2 * q * q)))).
  (* U(t) = v0 exp(-(h+|t|)^2/(2q^2)) = v0 E exp(-(2h|t|+t^2)/(2q^2)) *)
  assert (Q2 : 0 < q * q).
  { unfold q. pose proof (Rsqr_pos_lt _ HX). unfold Rsqr in H. auto. }
  assert (HU : forall t, v3x (tot (openjet_vel j (vadd p (vscale t (V3 0 1 0)))))
            = jet_v0 j * (E * exp (- ((2 * h * Rabs t + Rabs t * Rabs t) / (2 * q * q))))).
  { intros t. destruct (Hline t) as [L1 L2]. rewrite openjet_vel_profile.
    - rewrite L1, L2. unfold profile. pose proof (Rabs_pos t). fold h in HH.
      destruct (Rlt_dec (h + Rabs t) 0); [lra|]. simpl. f_equal. unfold E.
      rewrite <- exp_plus. f_equal. field. fold q in HX. auto.
    - left. rewrite L2. auto. }
  assert (E0 : 0 < E) by apply exp_pos.
  set (c := h / (q * q)). fold h in HH.
  assert (Hc : 0 < c) by (apply Rdiv_lt_0_compat; auto).
  apply (abs_not_deriv (jet_v0 j * E) (jet_v0 j * E * (c / 2))).
  - apply Rmult_lt_0_compat; [|lra]. apply Rmult_lt_0_compat; auto.
  - exists (/ c). split; [apply Rinv_0_lt_compat; auto|].
    intros t Ht. rewrite HU. pose proof (Rabs_pos t) as T0.
    set (a := c * Rabs t).
    assert (A0 : 0 <= a <= 1).
    { unfold a. split; [apply Rmult_le_pos; lra|].
      apply Rle_trans with (c * / c); [apply Rmult_le_compat_l; lra|]. rewrite Rinv_r; lra. }
    assert (EL : exp (- ((2 * h * Rabs t + Rabs t * Rabs t) / (2 * q * q))) <= / (1 + a)).
    { apply Rle_trans with (exp (- a)); [|apply exp_le_inv; lra].
      assert (X : - ((2 * h * Rabs t + Rabs t * Rabs t) / (2 * q * q)) <= - a).
      { unfold a, c. apply Ropp_le_contravar.
        replace ((2 * h * Rabs t + Rabs t * Rabs t) / (2 * q * q))
          with (h / (q * q) * Rabs t + Rabs t * Rabs t * / (2 * (q * q))) by (field; auto).
        assert (0 <= Rabs t * Rabs t * / (2 * (q * q))); [|lra].
        apply Rmult_le_pos; [apply Rmult_le_pos; auto|].
        left. apply Rinv_0_lt_compat. lra. }
      destruct X as [X|X]; [left; apply exp_increasing; auto | rewrite X; lra]. }
    assert (I : / (1 + a) <= 1 - a / 2).
    { apply Rmult_le_reg_r with (1 + a); [lra|]. rewrite Rinv_l by lra. nra. }
    replace (jet_v0 j * E - jet_v0 j * E * (c / 2) * Rabs t)
      with (jet_v0 j * (E * (1 - a / 2))) by (unfold a; field).
    apply Rmult_le_compat_l; [lra|]. apply Rmult_le_compat_l; lra.
  - rewrite HU. rewrite Rabs_R0.
    replace ((2 * h * 0 + 0 * 0) / (2 * q * q)) with 0 by (unfold Rdiv; ring).
    rewrite Ropp_0, exp_0. ring.
Qed.

(* In the exit plane, outside the core, the velocity field is smooth (it
   vanishes to all orders) but the code reports NaN. *)
Lemma openjet_exit_plane : forall j p,
  jet_l j <> 0 -> oj_x1 j p = 0 -> 0 < oj_h1 j p ->
  openjet_jac j p = None /\
  is_jacobian (fun q => tot (openjet_vel j q)) p (M3 (V3 0 0 0) (V3 0 0 0) (V3 0 0 0)).
Proof.
  intros j p Hl HX HH. split.
  { unfold openjet_jac. destruct (Rlt_dec (oj_h1 j p) 0); [lra|].
    destruct (Req_EM_T (oj_x1 j p) 0); tauto. }
  intros u.
  replace (mapply (M3 (V3 0 0 0) (V3 0 0 0) (V3 0 0 0)) u) with (V3 0 0 0)
    by (unfold mapply, vdot; simpl; f_equal; ring). simpl.
  assert (Dx : dir_deriv (fun q => v3x (tot (openjet_vel j q))) p u 0).
  { unfold dir_deriv.
    set (h := fun t => oj_h1 j (vadd p (vscale t u))).
    pose proof (openjet_h1_lip j p u) as (L & e & HL & He & HB).
    change (forall t, Rabs t < e -> Rabs (h t - h 0) <= L * Rabs t) in HB.
    assert (H0 : h 0 = oj_h1 j p) by (unfold h; rewrite vadd_zero; auto).
    set (k := 0.5022 / jet_l j * v3x u).
    set (m := oj_h1 j p) in *.
    set (c := 8 * (k * k + 1) * (Rabs (jet_v0 j) + 1) / (m * m)).
    assert (V0 : 0 <= Rabs (jet_v0 j)) by apply Rabs_pos.
    assert (K0 : 0 <= k * k) by (pose proof (Rle_0_sqr k); unfold Rsqr in *; auto).
    assert (M0 : 0 < m * m) by nra.
    assert (Hc : 0 < c).
    { unfold c. apply Rdiv_lt_0_compat; auto.
      apply Rmult_lt_0_compat; [lra|lra]. }
    intros eps Heps.
    assert (Hp : 0 < Rmin (Rmin e (m / (2 * L))) (eps / c)).
    { repeat apply Rmin_glb_lt; auto; apply Rdiv_lt_0_compat; lra. }
    exists (mkposreal _ Hp). intros t Hn Ht. simpl in Ht. rewrite Rplus_0_l.
    pose proof (Rmin_l (Rmin e (m / (2 * L))) (eps / c)).
    pose proof (Rmin_r (Rmin e (m / (2 * L))) (eps / c)).
    pose proof (Rmin_l e (m / (2 * L))). pose proof (Rmin_r e (m / (2 * L))).
    specialize (HB t ltac:(lra)). rewrite H0 in HB.
    assert (Ht2 : L * Rabs t <= m / 2).
    { replace (m / 2) with (L * (m / (2 * L))) by (field; lra). apply Rmult_le_compat_l; lra. }
    assert (Hm : m / 2 <= h t).
    { pose proof (Rle_abs (- (h t - m))). rewrite Rabs_Ropp in H4. lra. }
    assert (U0 : v3x (tot (openjet_vel j (vadd p (vscale 0 u)))) = 0).
    { rewrite vadd_zero. unfold openjet_vel. fold m.
      destruct (Rlt_dec m 0); [lra|]. destruct (Req_EM_T (oj_x1 j p) 0); [|tauto].
      destruct (Req_EM_T m 0); [lra|]. reflexivity. }
    rewrite U0, !Rminus_0_r.
    pose proof (Rabs_pos_lt t Hn) as T0.
    assert (B : Rabs (v3x (tot (openjet_vel j (vadd p (vscale t u))))) <= c * (Rabs t * Rabs t)).
    { assert (CT : 0 <= c * (Rabs t * Rabs t)).
      { apply Rmult_le_pos; [lra|]. apply Rmult_le_pos; lra. }
      unfold openjet_vel. change (oj_h1 j (vadd p (vscale t u))) with (h t). rewrite openjet_x1_line. fold k. rewrite HX, Rplus_0_l.
      destruct (Rlt_dec (h t) 0); [lra|].
      destruct (Req_EM_T (t * k) 0) as [Z|Z].
      - destruct (Req_EM_T (h t) 0); simpl; rewrite Rabs_R0; auto.
      - simpl. rewrite Rabs_mult.
        set (a := h t * h t / (2 * (t * k) * (t * k))).
        assert (K1 : k <> 0) by (intros E; apply Z; rewrite E; ring).
        assert (K2 : 0 < k * k) by (pose proof (Rsqr_pos_lt _ K1); unfold Rsqr in *; auto).
        assert (T2 : 0 < t * t) by (pose proof (Rsqr_pos_lt _ Hn); unfold Rsqr in *; auto).
        assert (TT : Rabs t * Rabs t = t * t).
        { rewrite <- Rabs_mult. apply Rabs_pos_eq; lra. }
        assert (HT : m * m / 4 <= h t * h t) by nra.
        assert (D0 : 0 < 2 * (t * k) * (t * k)).
        { replace (2 * (t * k) * (t * k)) with (2 * ((t * t) * (k * k))) by ring.
          apply Rmult_lt_0_compat; [lra|]. apply Rmult_lt_0_compat; auto. }
        assert (A0 : 0 < a) by (apply Rdiv_lt_0_compat; nra).
        replace (- h t * h t / (2 * (t * k) * (t * k))) with (- a) by (unfold a, Rdiv; ring).
        rewrite (Rabs_pos_eq (exp (- a))) by (left; apply exp_pos).
        assert (EL : exp (- a) <= 8 * (k * k) / (m * m) * (t * t)).
        { apply Rle_trans with (/ (1 + a)); [apply exp_le_inv; lra|].
          apply Rle_trans with (/ a); [apply Rinv_le_contravar; lra|].
          unfold a. rewrite Rinv_div.
          apply Rmult_le_reg_r with (h t * h t); [nra|].
          replace (2 * (t * k) * (t * k) / (h t * h t) * (h t * h t)) with (2 * (t * k) * (t * k))
            by (field; lra).
          replace (2 * (t * k) * (t * k)) with (8 * (k * k) / (m * m) * (t * t) * (m * m / 4))
            by (field; lra).
          apply Rmult_le_compat_l; auto.
          apply Rmult_le_pos; [|lra].
          apply Rmult_le_pos; [lra|]. left; apply Rinv_0_lt_compat; auto. }
        rewrite TT.
        replace (c * (t * t)) with ((Rabs (jet_v0 j) + 1) * (8 * (k * k + 1) / (m * m) * (t * t)))
          by (unfold c; field; lra).
        apply Rmult_le_compat; auto; [left; apply exp_pos | lra |].
        eapply Rle_trans; [apply EL|]. apply Rmult_le_compat_r; [lra|].
        apply Rmult_le_compat_r; [left; apply Rinv_0_lt_compat; auto|]. lra. }
    unfold Rdiv. rewrite Rabs_mult, Rabs_inv.
    apply Rmult_lt_reg_r with (Rabs t); auto.
    rewrite Rmult_assoc, Rinv_l, Rmult_1_r by lra.
    eapply Rle_lt_trans; [apply B|].
    rewrite <- Rmult_assoc. apply Rmult_lt_compat_r; auto.
    replace eps with (c * (eps / c)) by (field; lra).
    apply Rmult_lt_compat_l; lra. }
  split; [exact Dx|].
  assert (Z : forall q, v3y (tot (openjet_vel j q)) = 0 /\ v3z (tot (openjet_vel j q)) = 0).
  { intros q. unfold openjet_vel. destruct (Rlt_dec (oj_h1 j q) 0); simpl; auto.
    destruct (Req_EM_T (oj_x1 j q) 0); simpl; auto.
    destruct (Req_EM_T (oj_h1 j q) 0); simpl; auto. }
  split; unfold dir_deriv;
    (eapply deriv_ext; [|apply (deriv_const 0)]; intros t; symmetry; apply Z).
Qed.

(* ------------------------------------------------------------------ *)
(* SlotJet.v (environments.py:386-444).                                 *)

Record slot : Type := Slot { sl_v0 : R; sl_origin : v3; sl_flow : v3; sl_plane : v3; sl_B : R; sl_l : R }.

Definition sl_dir (s : slot) : v3 := vunit (sl_flow s).
Definition sl_yy (s : slot) : v3 := vscale (-1) (vcross (sl_dir s) (vunit (sl_plane s))).
Definition sl_zz (s : slot) : v3 := vcross (sl_dir s) (sl_yy s).
Definition sl_x (s : slot) (xx : v3) : R := vdot (sl_dir s) (vsub xx (sl_origin s)).
Definition sl_y (s : slot) (xx : v3) : R := vdot (sl_yy s) (vsub xx (sl_origin s)).
Definition sl_x1 (s : slot) (xx : v3) : R := 0.5668 / sl_l s * sl_x s xx.
Definition sl_h1 (s : slot) (xx : v3) : R :=
  Rabs (sl_y s xx) + sqrt PI * 0.5 * sl_x1 s xx - 0.5 * sl_B s.

Definition sgn (y : R) : R := if Rlt_dec 0 y then 1 else if Rlt_dec y 0 then -1 else 0.

(* Ux (NaN on the edge in the exit plane, 0 outside it) *)
Definition slotjet_U (s : slot) (xx : v3) : option R :=
  let x1 := sl_x1 s xx in let h1 := sl_h1 s xx in
  if Rlt_dec h1 0 then Some (sl_v0 s)
  else if Req_EM_T x1 0 then if Req_EM_T h1 0 then None else Some 0
  else Some (sl_v0 s * exp (- h1 * h1 / (2 * x1 * x1))).

Definition slot_rot (s : slot) : m3 := mtrans (M3 (sl_dir s) (sl_yy s) (sl_zz s)).

Definition slotjet_vel (s : slot) (xx : v3) : option v3 :=
  match slotjet_U s xx with
  | Some Ux => Some (mapply (slot_rot s) (V3 Ux 0 0))
  | None => None
  end.

Definition slotjet_jac (s : slot) (xx : v3) : option m3 :=
  let x := sl_x s xx in let y := sl_y s xx in
  let x1 := sl_x1 s xx in let h1 := sl_h1 s xx in
  if Rlt_dec h1 0 then
    let dU := mtrans (M3 (V3 0 0 0) (V3 0 0 0) (V3 0 0 0)) in
    Some (mmul (mmul (slot_rot s) dU) (mtrans (slot_rot s)))
  else if Req_EM_T x1 0 then None
  else
    let Ux := sl_v0 s * exp (- h1 * h1 / (2 * x1 * x1)) in
    let Udx := (h1 * h1 / (x * x1 * x1) - sqrt PI * 0.5 * h1 / (x * x1)) * Ux in
    let Udy := - sgn y * h1 * Ux / (x1 * x1) in
    let dU := mtrans (M3 (V3 Udx 0 0) (V3 Udy 0 0) (V3 0 0 0)) in
    Some (mmul (mmul (slot_rot s) dU) (mtrans (slot_rot s))).

Lemma sl_y_line : forall s p u t,
  sl_y s (vadd p (vscale t u)) = sl_y s p + t * vdot (sl_yy s) u.
Proof. intros. unfold sl_y, vdot, vsub, vadd, vscale; simpl. ring. Qed.

Lemma sl_x1_line : forall s p u t,
  sl_x1 s (vadd p (vscale t u)) = sl_x1 s p + t * (0.5668 / sl_l s * vdot (sl_dir s) u).
Proof. intros. unfold sl_x1, sl_x, vdot, vsub, vadd, vscale; simpl. ring. Qed.

Lemma sl_h1_lip : forall s p u, lip0 (fun t => sl_h1 s (vadd p (vscale t u))).
Proof.
  intros s p u. set (a := vdot (sl_yy s) u).
  set (b := sqrt PI * 0.5 * (0.5668 / sl_l s * vdot (sl_dir s) u)).
  exists (Rabs a + Rabs b + 1), 1. pose proof (Rabs_pos a); pose proof (Rabs_pos b).
  repeat split; try lra. intros t _. unfold sl_h1.
  rewrite !sl_y_line, !sl_x1_line. fold a.
  replace (Rabs (sl_y s p + t * a) + sqrt PI * 0.5 * (sl_x1 s p + t * (0.5668 / sl_l s * vdot (sl_dir s) u)) - 0.5 * sl_B s
     - (Rabs (sl_y s p + 0 * a) + sqrt PI * 0.5 * (sl_x1 s p + 0 * (0.5668 / sl_l s * vdot (sl_dir s) u)) - 0.5 * sl_B s))
    with ((Rabs (sl_y s p + t * a) - Rabs (sl_y s p + 0 * a)) + t * b) by (unfold b; ring).
  replace (sl_y s p + 0 * a) with (sl_y s p) by ring.
  eapply Rle_trans; [apply Rabs_triang|].
  pose proof (Rabs_triang_inv2 (sl_y s p + t * a) (sl_y s p)) as T.
  replace (sl_y s p + t * a - sl_y s p) with (t * a) in T by ring.
  rewrite Rabs_mult in T. rewrite (Rabs_mult t b). pose proof (Rabs_pos t).
  replace ((Rabs a + Rabs b + 1) * Rabs t) with (Rabs t * Rabs a + Rabs t * Rabs b + Rabs t) by ring.
  lra.
Qed.

Lemma slotjet_vel_profile : forall s xx,
  sl_x1 s xx <> 0 \/ sl_h1 s xx < 0 ->
  tot (slotjet_vel s xx) = vscale (sl_v0 s * profile (sl_h1 s xx) (sl_x1 s xx)) (sl_dir s).
Proof.
  intros s xx H. unfold slotjet_vel, slotjet_U, profile.
  assert (X : forall U, mapply (slot_rot s) (V3 U 0 0) = vscale U (sl_dir s)).
  { intros U. unfold mapply, slot_rot, mtrans, vdot, vscale; simpl. f_equal; ring. }
  destruct (Rlt_dec (sl_h1 s xx) 0); simpl; [rewrite X; f_equal; ring|].
  destruct (Req_EM_T (sl_x1 s xx) 0); [destruct H; [tauto|lra]|]. simpl. apply X.
Qed.

Lemma abs_line_deriv : forall y a, y <> 0 ->
  derivable_pt_lim (fun t => Rabs (y + t * a)) 0 (sgn y * a).
Proof.
  intros y a Hy.
  assert (Hd : 0 < Rabs y / (Rabs a + 1)).
  { apply Rdiv_lt_0_compat; [apply Rabs_pos_lt; auto|]. pose proof (Rabs_pos a); lra. }
  apply (deriv_local (fun t => sgn y * y + t * (sgn y * a)) _ 0 _ _ Hd);
    [|apply deriv_affine].
  intros t Ht. rewrite Rminus_0_r in Ht.
  assert (B : Rabs (t * a) < Rabs y).
  { rewrite Rabs_mult. pose proof (Rabs_pos a). pose proof (Rabs_pos t).
    apply Rle_lt_trans with (Rabs t * (Rabs a + 1)); [nra|].
    replace (Rabs y) with (Rabs y / (Rabs a + 1) * (Rabs a + 1)) by (field; lra).
    apply Rmult_lt_compat_r; lra. }
  apply Rabs_def2 in B. unfold sgn.
  destruct (Rlt_dec 0 y) as [P|P].
  - rewrite (Rabs_pos_eq y) in B by lra. rewrite Rabs_pos_eq by lra. ring.
  - destruct (Rlt_dec y 0) as [N|N]; [|exfalso; apply Hy; lra].
    rewrite (Rabs_left y) in B by lra. rewrite (Rabs_left (y + t * a)) by lra. ring.
Qed.

Lemma slotjet_jacobian : forall s p jm,
  sl_l s <> 0 ->
  slotjet_jac s p = Some jm ->
  (sl_y s p <> 0 \/ sl_h1 s p <= 0) ->
  is_jacobian (fun q => tot (slotjet_vel s q)) p jm.
Proof.
  intros s p jm Hl HJ HR u.
  set (a := vdot (sl_yy s) u). set (w := vdot (sl_dir s) u).
  set (k := 0.5668 / sl_l s * w).
  set (h := fun t => sl_h1 s (vadd p (vscale t u))).
  set (q := fun t => sl_x1 s (vadd p (vscale t u))).
  assert (H0 : h 0 = sl_h1 s p) by (unfold h; rewrite vadd_zero; auto).
  assert (Q0 : q 0 = sl_x1 s p) by (unfold q; rewrite vadd_zero; auto).
  pose proof (sl_h1_lip s p u) as HLip. fold h in HLip.
  assert (Dq : derivable_pt_lim q 0 k).
  { eapply deriv_ext; [|apply (deriv_affine (sl_x1 s p) k)].
    intros t. unfold q. rewrite sl_x1_line. reflexivity. }
  pose proof (deriv_lip0 _ _ Dq) as QLip.
  assert (HX : sl_x1 s p <> 0 \/ sl_h1 s p < 0).
  { unfold slotjet_jac in HJ. destruct (Rlt_dec (sl_h1 s p) 0); auto.
    destruct (Req_EM_T (sl_x1 s p) 0); [discriminate|auto]. }
  assert (Loc : exists e, 0 < e /\ forall t, Rabs (t - 0) < e ->
            vscale (sl_v0 s * profile (h t) (q t)) (sl_dir s) = tot (slotjet_vel s (vadd p (vscale t u)))).
  { destruct HX as [HX|HX].
    - rewrite <- Q0 in HX. destruct (lip0_off _ QLip HX) as (e & He & HE).
      exists e. split; auto. intros t Ht. rewrite Rminus_0_r in Ht.
      symmetry. apply slotjet_vel_profile. left. apply HE; auto.
    - rewrite <- H0 in HX. destruct (lip0_neg _ HLip HX) as (e & He & HE).
      exists e. split; auto. intros t Ht. rewrite Rminus_0_r in Ht.
      symmetry. apply slotjet_vel_profile. right. apply HE; auto. }
  destruct Loc as (e & He & Loc).
  assert (Goal : forall l, derivable_pt_lim (fun t => profile (h t) (q t)) 0 l ->
            mapply jm u = vscale (sl_v0 s * l) (sl_dir s) ->
            dir_deriv (fun q => v3x (tot (slotjet_vel s q))) p u (v3x (mapply jm u)) /\
            dir_deriv (fun q => v3y (tot (slotjet_vel s q))) p u (v3y (mapply jm u)) /\
            dir_deriv (fun q => v3z (tot (slotjet_vel s q))) p u (v3z (mapply jm u))).
  { intros l Dl E1. rewrite E1. unfold dir_deriv. repeat split.
    - apply (deriv_local (fun t => (v3x (sl_dir s) * sl_v0 s) * profile (h t) (q t)) _ 0 _ e He).
      + intros t Ht; rewrite <- Loc; auto. unfold vscale; simpl. ring.
      + eapply deriv_eq; [|apply deriv_scal; exact Dl]. unfold vscale; simpl. ring.
    - apply (deriv_local (fun t => (v3y (sl_dir s) * sl_v0 s) * profile (h t) (q t)) _ 0 _ e He).
      + intros t Ht; rewrite <- Loc; auto. unfold vscale; simpl. ring.
      + eapply deriv_eq; [|apply deriv_scal; exact Dl]. unfold vscale; simpl. ring.
    - apply (deriv_local (fun t => (v3z (sl_dir s) * sl_v0 s) * profile (h t) (q t)) _ 0 _ e He).
      + intros t Ht; rewrite <- Loc; auto. unfold vscale; simpl. ring.
      + eapply deriv_eq; [|apply deriv_scal; exact Dl]. unfold vscale; simpl. ring. }
  (* the matrix product applied to a direction *)
  assert (MM : forall Udx Udy,
    mapply (mmul (mmul (slot_rot s) (mtrans (M3 (V3 Udx 0 0) (V3 Udy 0 0) (V3 0 0 0))))
                 (mtrans (slot_rot s))) u
    = vscale (Udx * w + Udy * a) (sl_dir s)).
  { intros Udx Udy. unfold w, a. unfold mapply, mmul, mtrans, slot_rot, vdot, vscale; simpl.
    f_equal; ring. }
  unfold slotjet_jac in HJ.
  destruct (Rlt_dec (sl_h1 s p) 0) as [C|C].
  - injection HJ as <-. apply (Goal 0).
    + apply profile_deriv_core; auto. rewrite H0; auto.
    + rewrite MM. f_equal. ring.
  - destruct (Req_EM_T (sl_x1 s p) 0) as [X|X]; [discriminate|].
    injection HJ as <-.
    assert (x0 : sl_x s p <> 0).
    { intros E. apply X. unfold sl_x1. rewrite E. ring. }
    assert (Kx : k = sl_x1 s p / sl_x s p * w).
    { unfold k, sl_x1. field. split; auto. }
    destruct (Rle_lt_or_eq_dec 0 (sl_h1 s p) ltac:(lra)) as [P|P].
    + assert (Y0 : sl_y s p <> 0) by (destruct HR; auto; lra).
      assert (Dh : derivable_pt_lim h 0 (sgn (sl_y s p) * a + sqrt PI * 0.5 * k)).
      { pose proof (abs_line_deriv (sl_y s p) a Y0) as DS.
        pose proof (derivable_pt_lim_plus _ _ 0 _ _ DS
           (deriv_affine (sqrt PI * 0.5 * sl_x1 s p - 0.5 * sl_B s) (sqrt PI * 0.5 * k))) as DP.
        eapply deriv_ext; [|exact DP]. intros t. unfold h, sl_h1. rewrite sl_y_line, sl_x1_line.
        fold a. fold w. fold k. unfold plus_fct. ring. }
      pose proof (profile_deriv_shear h q _ k Dh Dq ltac:(rewrite H0; auto)
                    ltac:(rewrite Q0; auto)) as DP.
      apply (Goal _ DP); rewrite ?H0, ?Q0.
      rewrite MM. f_equal. rewrite Kx.
      set (E := exp _). field. split; auto.
    + apply (Goal 0).
      * apply profile_deriv_edge; auto; rewrite ?H0, ?Q0; auto.
      * rewrite MM. f_equal. rewrite <- P. unfold Rdiv. ring.
Qed.

(* ------------------------------------------------------------------ *)
(* cartToCyl and cylToCart (environments.py:117-172) without Q.         *)

(* numpy.arctan2 for finite arguments, [arctan2 (+0) (+0) = 0] *)
Definition atan2 (y x : R) : R :=
  if Rlt_dec 0 x then atan (y / x)
  else if Rlt_dec x 0 then if Rle_dec 0 y then atan (y / x) + PI else atan (y / x) - PI
  else if Rlt_dec 0 y then PI / 2
  else if Rlt_dec y 0 then - (PI / 2)
  else 0.

Definition cartToCyl (p : v3) : v3 :=
  V3 (atan2 (v3y p) (v3x p)) (sqrt (v3x p * v3x p + v3y p * v3y p)) (v3z p).
Definition cylToCart (c : v3) : v3 :=
  V3 (v3y c * sin (v3x c)) (v3y c * cos (v3x c)) (v3z c).

Lemma hyp_scale : forall x y, 0 < x ->
  sqrt (x * x + y * y) = x * sqrt (1 + (y / x) ^ 2).
Proof.
  intros x y Hx.
  replace (x * x + y * y) with ((x * x) * (1 + (y / x) ^ 2)) by (field; lra).
  assert (0 <= (y / x) ^ 2) by apply pow2_ge_0.
  rewrite sqrt_mult by nra. rewrite sqrt_square by lra. reflexivity.
Qed.

Lemma atan2_pos : forall x y, 0 < x ->
  sqrt (x * x + y * y) * cos (atan (y / x)) = x /\
  sqrt (x * x + y * y) * sin (atan (y / x)) = y.
Proof.
  intros x y Hx. rewrite hyp_scale by auto. rewrite cos_atan, sin_atan.
  replace (1 + Rsqr (y / x)) with (1 + (y / x) ^ 2) by (unfold Rsqr; simpl; ring).
  assert (0 < sqrt (1 + (y / x) ^ 2)).
  { apply sqrt_lt_R0. pose proof (pow2_ge_0 (y / x)). lra. }
  split; field; repeat split; lra.
Qed.

Lemma atan2_polar : forall x y,
  sqrt (x * x + y * y) * cos (atan2 y x) = x /\
  sqrt (x * x + y * y) * sin (atan2 y x) = y.
Proof.
  intros x y. unfold atan2.
  destruct (Rlt_dec 0 x) as [P|P]; [apply atan2_pos; auto|].
  destruct (Rlt_dec x 0) as [N|N].
  - destruct (atan2_pos (- x) (- y) ltac:(lra)) as [A B].
    replace (- y / - x) with (y / x) in A, B by (field; lra).
    replace (- x * - x + - y * - y) with (x * x + y * y) in A, B by ring.
    destruct (Rle_dec 0 y).
    + rewrite neg_cos, neg_sin. split; lra.
    + replace (atan (y / x) - PI) with (- (PI - atan (y / x))) by ring.
      rewrite cos_neg, sin_neg. rewrite <- sin_PI_x.
      replace (PI - (PI - atan (y / x))) with (atan (y / x)) by ring.
      rewrite Rtrigo_facts.cos_pi_minus. split; lra.
  - assert (x = 0) by lra. subst x.
    replace (0 * 0 + y * y) with (Rsqr y) by (unfold Rsqr; ring).
    rewrite sqrt_Rsqr_abs.
    destruct (Rlt_dec 0 y).
    + rewrite cos_PI2, sin_PI2, Rabs_pos_eq by lra. split; ring.
    + destruct (Rlt_dec y 0).
      * rewrite cos_neg, sin_neg, cos_PI2, sin_PI2, Rabs_left by lra. split; ring.
      * assert (y = 0) by lra. subst. rewrite Rabs_R0. split; ring.
Qed.

(* The round trip exchanges the first two coordinates. *)
Lemma cyl_round_trip : forall p,
  cylToCart (cartToCyl p) = V3 (v3y p) (v3x p) (v3z p).
Proof.
  intros [x y z]. unfold cylToCart, cartToCyl; simpl.
  destruct (atan2_polar x y) as [A B]. f_equal; auto.
Qed.

(* cartToCyl itself is right: its result is a polar representation of p. *)
Lemma cartToCyl_polar : forall p,
  0 <= v3y (cartToCyl p) /\
  v3x p = v3y (cartToCyl p) * cos (v3x (cartToCyl p)) /\
  v3y p = v3y (cartToCyl p) * sin (v3x (cartToCyl p)) /\
  v3z p = v3z (cartToCyl p).
Proof.
  intros [x y z]. unfold cartToCyl; simpl.
  destruct (atan2_polar x y) as [A B]. repeat split; auto. apply sqrt_pos.
Qed.

(* ------------------------------------------------------------------ *)
(* spiral_sphere (environments.py:690-775).                             *)
(* [None] stands for NaN; [b] must not be zero.  [xyz N Om k] is column k *)
(* before the mirroring.                                                *)

Definition sp_o (Om : R) : R := 4 * PI / Om.
Definition sp_h (N : nat) (Om : R) (k : nat) : R :=
  -1 + 2 * INR k / (INR N * sp_o Om - 1).

(* arccos is NaN outside [-1, 1]; 2*arange(N)/(N*o-1) is NaN or inf for N*o=1 *)
Definition sp_theta (N : nat) (Om : R) (k : nat) : option R :=
  if Req_EM_T (INR N * sp_o Om - 1) 0 then None
  else if Rle_dec (-1) (sp_h N Om k) then
    if Rle_dec (sp_h N Om k) 1 then Some (acos (sp_h N Om k)) else None
  else None.

(* floor-based remainder of floats, x % y *)
Definition rmod (x y : R) : R := x - y * IZR (Int_part (x / y)).

(* 3.6 / sqrt (N o (1 - hk^2)) is inf for hk = 1 and inf % (2 pi) is NaN;
   the square root of a negative number is NaN; NaN propagates to the
   following angles *)
Fixpoint sp_phi (N : nat) (Om : R) (k : nat) : option R :=
  match k with
  | O => Some 0
  | S i =>
    match sp_phi N Om i with
    | None => None
    | Some f =>
      let hk := sp_h N Om (S i) in
      let arg := INR N * sp_o Om * (1 - hk * hk) in
      if Rlt_dec 0 arg then Some (f + rmod (3.6 / sqrt arg) (2 * PI)) else None
    end
  end.

Definition sp_xyz (N : nat) (Om : R) (k : nat) : option v3 :=
  match sp_theta N Om k, sp_phi N Om k with
  | Some th, Some ph => Some (V3 (sin th * cos ph) (sin th * sin ph) (cos th))
  | _, _ => None
  end.

(* H x = x - ab (ab . x) / (ab . a) *)
Definition sp_mirror (a b x : v3) : v3 :=
  let ab := vsub a b in
  vsub x (vscale (vdot ab x / vdot ab a) ab).

Definition spiral_sphere (N : nat) (Om : R) (b : v3) (k : nat) : option v3 :=
  match sp_xyz N Om 0, sp_xyz N Om k with
  | Some a, Some x =>
    let b' := vunit b in
    if Rlt_dec (vnorm (vsub a b')) 1e-10 then Some x
    else Some (sp_mirror a b' x)
  | _, _ => None
  end.

(* Specification: the rays lie in the cap of solid angle [Om] around the
   direction [d], i.e. their angle [al] to [d] satisfies
   2 pi (1 - cos al) <= Om. *)
Definition in_cap (Om : R) (d x : v3) : Prop := 2 * PI * (1 - vdot d x) <= Om.

Lemma sp_o_bound : forall Om, 0 < Om < 4 * PI -> 1 < sp_o Om.
Proof.
  intros Om H. unfold sp_o.
  apply Rmult_lt_reg_r with Om; [lra|]. unfold Rdiv. rewrite Rmult_assoc, Rinv_l by lra. lra.
Qed.

Lemma sp_h_range : forall N Om k, (k < N)%nat -> 0 < Om < 4 * PI ->
  0 < INR N * sp_o Om - 1 /\ -1 <= sp_h N Om k < 1 /\ (k <> 0%nat -> -1 < sp_h N Om k)
  /\ 1 + sp_h N Om k <= Om / (2 * PI).
Proof.
  intros N Om k Hk HO. pose proof (sp_o_bound Om HO) as Ho.
  assert (HN : INR k + 1 <= INR N) by (rewrite <- S_INR; apply le_INR; lia).
  pose proof (pos_INR k) as K0. pose proof PI_RGT_0 as Pi0.
  assert (D : 0 < INR N * sp_o Om - 1) by nra.
  assert (H2 : 0 <= 2 * INR k / (INR N * sp_o Om - 1)).
  { apply Rmult_le_pos; [lra|]. left; apply Rinv_0_lt_compat; auto. }
  assert (H3 : 2 * INR k / (INR N * sp_o Om - 1) < 2).
  { apply Rmult_lt_reg_r with (INR N * sp_o Om - 1); auto.
    unfold Rdiv. rewrite Rmult_assoc, Rinv_l by lra. nra. }
  unfold sp_h. repeat split; try lra.
  - intros Hk0. assert (0 < INR k) by (apply lt_0_INR; lia).
    assert (0 < 2 * INR k / (INR N * sp_o Om - 1)); [|lra].
    apply Rdiv_lt_0_compat; lra.
  - (* 2k/(No-1) <= 2/o since (N-k) o >= 1 *)
    replace (Om / (2 * PI)) with (2 / sp_o Om)
      by (unfold sp_o; field; lra).
    replace (1 + (-1 + 2 * INR k / (INR N * sp_o Om - 1)))
      with (2 * INR k / (INR N * sp_o Om - 1)) by ring.
    apply Rmult_le_reg_r with (INR N * sp_o Om - 1); auto.
    unfold Rdiv at 1. rewrite Rmult_assoc, Rinv_l, Rmult_1_r by lra.
    apply Rmult_le_reg_r with (sp_o Om); [lra|].
    replace (2 / sp_o Om * (INR N * sp_o Om - 1) * sp_o Om) with (2 * (INR N * sp_o Om - 1))
      by (field; lra).
    nra.
Qed.

Lemma sp_phi_some : forall N Om k, (k < N)%nat -> 0 < Om < 4 * PI ->
  exists f, sp_phi N Om k = Some f.
Proof.
  intros N Om k. induction k as [|k IH]; intros Hk HO; [eexists; reflexivity|].
  destruct IH as [f Hf]; [lia|auto|]. cbn [sp_phi]. rewrite Hf.
  destruct (sp_h_range N Om (S k) Hk HO) as (D & [_ H1] & H2 & _).
  specialize (H2 ltac:(lia)).
  destruct (Rlt_dec 0 _) as [L|L]; [eexists; reflexivity|].
  exfalso. apply L. apply Rmult_lt_0_compat; [lra|]. nra.
Qed.

Lemma sp_xyz_some : forall N Om k, (k < N)%nat -> 0 < Om < 4 * PI ->
  exists x, sp_xyz N Om k = Some x /\ vdot x x = 1 /\ v3z x = sp_h N Om k.
Proof.
  intros N Om k Hk HO. unfold sp_xyz, sp_theta.
  destruct (sp_phi_some N Om k Hk HO) as [f Hf]. rewrite Hf.
  destruct (sp_h_range N Om k Hk HO) as (D & [H0 H1] & _).
  destruct (Req_EM_T _ 0); [lra|]. destruct (Rle_dec (-1) _); [|lra].
  destruct (Rle_dec _ 1); [|lra].
  eexists. split; [reflexivity|]. split.
  - unfold vdot; simpl. set (th := acos _).
    pose proof (sin2_cos2 th) as A. pose proof (sin2_cos2 f) as B. unfold Rsqr in *.
    replace (sin th * cos f * (sin th * cos f) + sin th * sin f * (sin th * sin f) + cos th * cos th)
      with (sin th * sin th * (sin f * sin f + cos f * cos f) + cos th * cos th) by ring.
    rewrite B. lra.
  - simpl. apply cos_acos. lra.
Qed.

Lemma sp_first : forall N Om, (0 < N)%nat -> 0 < Om < 4 * PI ->
  sp_xyz N Om 0 = Some (V3 0 0 (-1)).
Proof.
  intros N Om HN HO. destruct (sp_xyz_some N Om 0 HN HO) as (x & Hx & Hu & Hz).
  rewrite Hx. f_equal.
  assert (sp_h N Om 0 = -1) by (unfold sp_h; simpl; unfold Rdiv; ring).
  rewrite H in Hz. destruct x as [a b c]. unfold vdot in Hu. simpl in *. subst c.
  pose proof (Rle_0_sqr a); pose proof (Rle_0_sqr b). unfold Rsqr in *.
  assert (a * a = 0) by lra. assert (b * b = 0) by lra.
  apply Rmult_integral in H2; apply Rmult_integral in H3.
  f_equal; tauto.
Qed.

Lemma mirror_facts : forall a b x,
  vdot a a = 1 -> vdot b b = 1 -> a <> b ->
  vdot (sp_mirror a b x) (sp_mirror a b x) = vdot x x /\
  sp_mirror a b a = b /\
  vdot b (sp_mirror a b x) = vdot a x.
Proof.
  intros a b x Ha Hb Hne. unfold sp_mirror.
  set (ab := vsub a b).
  assert (N : vdot ab ab = 2 * vdot ab a).
  { unfold ab. assert (vdot (vsub a b) (vsub a b) = vdot a a - 2 * vdot a b + vdot b b)
      by (unfold vdot, vsub; simpl; ring).
    assert (vdot (vsub a b) a = vdot a a - vdot a b) by (unfold vdot, vsub; simpl; ring).
    rewrite H, H0, Ha, Hb. ring. }
  assert (Hp : vdot ab a <> 0).
  { intros E. rewrite E, Rmult_0_r in N. apply vdot_self_zero in N. apply Hne.
    unfold ab, vsub in N. injection N; intros. apply v3_eq; lra. }
  set (s := vdot ab x / vdot ab a).
  assert (Hs : s * vdot ab a = vdot ab x) by (unfold s; field; auto).
  repeat split.
  - assert (E : vdot (vsub x (vscale s ab)) (vsub x (vscale s ab))
              = vdot x x - 2 * s * vdot ab x + s * s * vdot ab ab)
      by (unfold vdot, vsub, vscale; simpl; ring).
    rewrite E, N, <- Hs. ring.
  - replace (vdot ab a / vdot ab a) with 1 by (field; auto).
    apply v3_eq; unfold ab; unfold vsub, vscale; simpl; ring.
  - assert (E : vdot b (vsub x (vscale s ab)) = vdot b x - s * vdot ab b)
      by (unfold vdot, vsub, vscale; simpl; ring).
    rewrite E.
    assert (B : vdot ab b = - vdot ab a).
    { assert (vdot ab ab = vdot ab a - vdot ab b) by (unfold ab, vdot, vsub; simpl; ring). lra. }
    rewrite B.
    replace (vdot b x - s * - vdot ab a) with (vdot b x + s * vdot ab a) by ring.
    rewrite Hs. unfold ab, vdot, vsub; simpl. ring.
Qed.

Lemma spiral_sphere_spec : forall N Om b k,
  (k < N)%nat -> 0 < Om < 4 * PI -> b <> V3 0 0 0 ->
  1e-10 <= vnorm (vsub (V3 0 0 (-1)) (vunit b)) ->
  exists x, spiral_sphere N Om b k = Some x /\ vdot x x = 1 /\
            in_cap Om (vunit b) x /\ (k = 0%nat -> x = vunit b).
Proof.
  intros N Om b k Hk HO Hb Hd. unfold spiral_sphere.
  rewrite sp_first by (auto; lia).
  destruct (sp_xyz_some N Om k Hk HO) as (x & Hx & Hu & Hz). rewrite Hx.
  destruct (Rlt_dec _ 1e-10); [lra|].
  pose proof (vunit_unit b Hb) as Ub.
  assert (Ha : vdot (V3 0 0 (-1)) (V3 0 0 (-1)) = 1) by (unfold vdot; simpl; ring).
  assert (Hne : V3 0 0 (-1) <> vunit b).
  { intros E. rewrite <- E in Hd.
    replace (vsub (V3 0 0 (-1)) (V3 0 0 (-1))) with (V3 0 0 0) in Hd
      by (unfold vsub; simpl; f_equal; ring).
    unfold vnorm, vdot in Hd; simpl in Hd.
    replace (0 * 0 + 0 * 0 + 0 * 0) with 0 in Hd by ring. rewrite sqrt_0 in Hd. lra. }
  destruct (mirror_facts _ _ x Ha Ub Hne) as (M1 & M2 & M3').
  eexists. split; [reflexivity|]. split; [rewrite M1; auto|]. split.
  - unfold in_cap. rewrite M3'.
    replace (vdot (V3 0 0 (-1)) x) with (- v3z x) by (unfold vdot; simpl; ring).
    rewrite Hz. destruct (sp_h_range N Om k Hk HO) as (_ & _ & _ & H).
    pose proof PI_RGT_0.
    apply Rmult_le_reg_r with (/ (2 * PI)); [apply Rinv_0_lt_compat; lra|].
    replace (2 * PI * (1 - - sp_h N Om k) * / (2 * PI)) with (1 + sp_h N Om k) by (field; lra).
    exact H.
  - intros ->. rewrite sp_first in Hx by (auto; lia). injection Hx as <-. exact M2.
Qed.

(* Close to (0,0,-1) nothing is mirrored: the first ray is (0,0,-1). *)
Lemma spiral_sphere_near : forall N Om b k,
  (k < N)%nat -> 0 < Om < 4 * PI ->
  vnorm (vsub (V3 0 0 (-1)) (vunit b)) < 1e-10 ->
  exists x, spiral_sphere N Om b k = Some x /\ vdot x x = 1 /\
            (k = 0%nat -> vnorm (vsub x (vunit b)) < 1e-10).
Proof.
  intros N Om b k Hk HO Hd. unfold spiral_sphere.
  rewrite sp_first by (auto; lia).
  destruct (sp_xyz_some N Om k Hk HO) as (x & Hx & Hu & Hz). rewrite Hx.
  destruct (Rlt_dec _ 1e-10); [|lra].
  exists x. repeat split; auto. intros ->.
  rewrite sp_first in Hx by (auto; lia). injection Hx as <-. exact Hd.
Qed.

(* The full sphere, Om = 4 pi: the last ray is NaN. *)
Lemma spiral_sphere_full : forall N b, (0 < N)%nat ->
  spiral_sphere N (4 * PI) b (N - 1) = None.
Proof.
  intros N b HN. pose proof PI_RGT_0 as Pi0.
  assert (O1 : sp_o (4 * PI) = 1) by (unfold sp_o; field; lra).
  assert (X : sp_xyz N (4 * PI) (N - 1) = None).
  { destruct N as [|[|n]]; [lia| |].
    - unfold sp_xyz, sp_theta. rewrite O1. simpl.
      destruct (Req_EM_T (1 * 1 - 1) 0); auto. lra.
    - unfold sp_xyz. destruct (sp_theta _ _ _); auto.
      replace (S (S n) - 1)%nat with (S n) by lia. cbn [sp_phi].
      destruct (sp_phi _ _ n); auto.
      assert (E : sp_h (S (S n)) (4 * PI) (S n) = 1).
      { unfold sp_h. rewrite O1, (S_INR (S n)).
        assert (0 < INR (S n)) by (apply lt_0_INR; lia). field. lra. }
      rewrite E. destruct (Rlt_dec 0 _) as [L|L]; auto.
      replace (INR (S (S n)) * sp_o (4 * PI) * (1 - 1 * 1)) with 0 in L by ring. lra. }
  unfold spiral_sphere. rewrite X. destruct (sp_xyz N (4 * PI) 0); auto.
Qed.
