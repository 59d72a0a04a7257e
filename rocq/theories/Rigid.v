(** Set-ups that are moved as a whole, mirrored, or measured in another unit of length:
    microphones, grid, reference position and flow (fbeamform.py:175-277, environments.py:205-315,
    386-444, 886-894).  The methods are those of Beamform.v, Deconv.v, Subspace.v, Das.v and
    PointSources.v, which know positions only through distances. *)
From Coq Require Import List Arith Lia ZArith Bool Reals Lra FunctionalExtensionality.
From Verif Require Import Stream Cplx Environ Rays Beamform Deconv Subspace Das.
Import ListNotations.
Local Open Scope R_scope.

(** ** Specification *)

(** A rotation or a reflection. *)
Definition orthogonal (q : m3) : Prop := mmul (mtrans q) q = M3 (V3 1 0 0) (V3 0 1 0) (V3 0 0 1).
Definition move (q : m3) (t p : v3) : v3 := vadd (mapply q p) t.

(** [s_env] is [None] for Environment and Mach number and direction of the flow for
    UniformFlowEnvironment. *)
Record setup := Setup { s_env : option (R * v3); s_ref : v3; s_mic : nat -> v3; s_grid : nat -> v3 }.

(** env._r, environments.py:205-242 and 279-314. *)
Definition sep (s : setup) (g m : v3) : R :=
  match s_env s with None => env_r g m | Some (ma, fdv) => uniform_r ma fdv g m end.
(** SteeringVector.r0 and rm, fbeamform.py:175-189. *)
Definition r0_of (s : setup) (p : nat) : R := sep s (s_grid s p) (s_ref s).
Definition rm_of (s : setup) (p m : nat) : R := sep s (s_grid s p) (s_mic s m).

(** Everything moved, the flow turned with it. *)
Definition moved (q : m3) (t : v3) (s : setup) : setup :=
  Setup (option_map (fun f => (fst f, mapply q (snd f))) (s_env s)) (move q t (s_ref s))
        (fun m => move q t (s_mic s m)) (fun p => move q t (s_grid s p)).
(** All lengths multiplied by [a]. *)
Definition resized (a : R) (s : setup) : setup :=
  Setup (s_env s) (vscale a (s_ref s)) (fun m => vscale a (s_mic s m)) (fun p => vscale a (s_grid s p)).

(* ------------------------------------------------------------------ *)
(** ** Distances *)

Lemma orth_dot q u w : orthogonal q -> vdot (mapply q u) (mapply q w) = vdot u w.
Proof.
  intros H. rewrite mapply_trans, <- mapply_mmul, H. unfold mapply, vdot. cbn [v3x v3y v3z row0 row1 row2]. ring.
Qed.
Lemma orth_norm q u : orthogonal q -> vnorm (mapply q u) = vnorm u.
Proof. intros H. unfold vnorm. now rewrite orth_dot. Qed.
Lemma mapply_scale q a u : mapply q (vscale a u) = vscale a (mapply q u).
Proof. unfold mapply, vscale, vdot. cbn [v3x v3y v3z]. f_equal; ring. Qed.
Lemma mapply_sub q u w : mapply q (vsub u w) = vsub (mapply q u) (mapply q w).
Proof. unfold mapply, vsub, vdot. cbn [v3x v3y v3z]. f_equal; ring. Qed.
Lemma orth_unit q u : orthogonal q -> vunit (mapply q u) = mapply q (vunit u).
Proof. intros H. unfold vunit. now rewrite orth_norm, mapply_scale. Qed.
Lemma move_sub q t p r : vsub (move q t p) (move q t r) = mapply q (vsub p r).
Proof. unfold move, mapply, vsub, vadd, vdot. cbn [v3x v3y v3z]. f_equal; ring. Qed.

Lemma env_r_moved q t g m : orthogonal q -> env_r (move q t g) (move q t m) = env_r g m.
Proof. intros H. unfold env_r. now rewrite move_sub, orth_norm. Qed.
Lemma uniform_r_moved q t ma fdv g m : orthogonal q ->
  uniform_r ma (mapply q fdv) (move q t g) (move q t m) = uniform_r ma fdv g m.
Proof. intros H. unfold uniform_r. now rewrite move_sub, orth_norm, orth_unit, orth_dot. Qed.

Lemma rm_moved q t s : orthogonal q -> rm_of (moved q t s) = rm_of s.
Proof.
  intros H. extensionality p. extensionality m. unfold rm_of, sep, moved. cbn [s_env s_grid s_mic].
  destruct (s_env s) as [[ma fdv]|]; cbn [option_map fst snd]; [now apply uniform_r_moved|now apply env_r_moved].
Qed.
Lemma r0_moved q t s : orthogonal q -> r0_of (moved q t s) = r0_of s.
Proof.
  intros H. extensionality p. unfold r0_of, sep, moved. cbn [s_env s_grid s_ref].
  destruct (s_env s) as [[ma fdv]|]; cbn [option_map fst snd]; [now apply uniform_r_moved|now apply env_r_moved].
Qed.

Lemma scale_sub a p r : vsub (vscale a p) (vscale a r) = vscale a (vsub p r).
Proof. unfold vsub, vscale. cbn [v3x v3y v3z]. f_equal; ring. Qed.
Lemma sep_resized a s g m : 0 < a -> sep s (vscale a g) (vscale a m) = a * sep s g m.
Proof.
  intros Ha. unfold sep. destruct (s_env s) as [[ma fdv]|].
  - unfold uniform_r. rewrite scale_sub, vnorm_scale, Rabs_right, vdot_scale by lra.
    replace (ma * (a * vdot (vsub g m) (vunit fdv)) / (a * vnorm (vsub g m))) with (ma * vdot (vsub g m) (vunit fdv) / vnorm (vsub g m)).
    + ring.
    + destruct (Req_EM_T (vnorm (vsub g m)) 0) as [->|N]; [unfold Rdiv; rewrite Rmult_0_r, Rinv_0; ring|field; lra].
  - unfold env_r. rewrite scale_sub, vnorm_scale, Rabs_right by lra. reflexivity.
Qed.

(* ------------------------------------------------------------------ *)
(** ** Methods in another unit of length *)

Section Unit.
  Variables (n : nat) (a : R).
  Hypothesis Ha : 0 < a.
  Local Open Scope C_scope.

  (** The factor that the vector of the kernels gets. *)
  Definition raw_gain (st : steer) : R :=
    match st with Classic => 1 | Inverse => a | TrueLevel | TrueLocation => / a end%R.

  Lemma raw_scaled st k r m : (0 < r m)%R ->
    steer_raw st (k / a) (fun m => a * r m)%R m = RtoC (raw_gain st) * steer_raw st k r m.
  Proof.
    intros Hr. unfold steer_raw.
    replace (k / a * (a * r m))%R with (k * r m)%R by (field; lra).
    generalize (cos (k * r m), - sin (k * r m))%R. intros e0. pose (e := e0 : C). change e0 with e. clearbody e. destruct st; unfold raw_gain, Cdiv.
    - change (RtoC 1) with C1. ring.
    - rewrite RtoC_mul. ring.
    - rewrite <- !RtoC_inv by (try apply Rgt_not_eq; try apply Rmult_lt_0_compat; lra).
      rewrite Rinv_mult, RtoC_mul. ring.
    - rewrite <- !RtoC_inv by (try apply Rgt_not_eq; try apply Rmult_lt_0_compat; lra).
      rewrite Rinv_mult, RtoC_mul. ring.
  Qed.

  Lemma scalar_prod_gain rd csm v v' g : (forall m, (m < n)%nat -> v' m = RtoC g * v m) ->
    scalar_prod n rd csm v' = (g * g * scalar_prod n rd csm v)%R.
  Proof.
    intros H. unfold scalar_prod. rewrite Rmult_plus_distr_l. f_equal.
    - rewrite <- rsumn_scal. apply rsumn_ext. intros i Hi.
      rewrite (csum_ext i _ (fun j => RtoC g * (csm j i * Conj (v j)))).
      + rewrite csum_scal, H by assumption.
        replace (RtoC g * csum i (fun j => csm j i * Conj (v j)) * (RtoC g * v i))
          with (RtoC (g * g) * (csum i (fun j => csm j i * Conj (v j)) * v i)) by (rewrite RtoC_mul; ring).
        rewrite re_RtoC_mul. ring.
      + intros j Hj. rewrite H by lia. rewrite Conj_mul, Conj_RtoC. ring.
    - destruct rd; [ring|]. rewrite <- rsumn_scal. apply rsumn_ext. intros i Hi. rewrite H by assumption.
      replace (csm i i * Conj (RtoC g * v i) * (RtoC g * v i)) with (RtoC (g * g) * (csm i i * Conj (v i) * v i))
        by (rewrite Conj_mul, Conj_RtoC, RtoC_mul; ring).
      apply re_RtoC_mul.
  Qed.

  Lemma scalar_prod_eig_gain rd ne eva eve v v' g : (forall m, (m < n)%nat -> v' m = RtoC g * v m) ->
    scalar_prod_eig n rd ne eva eve v' = (g * g * scalar_prod_eig n rd ne eva eve v)%R.
  Proof.
    intros H. unfold scalar_prod_eig. rewrite <- rsumn_scal. apply rsumn_ext. intros e He. cbv zeta.
    rewrite (csum_ext n (fun m => Conj (eve m e) * v' m) (fun m => RtoC g * (Conj (eve m e) * v m))) by (intros; rewrite H by assumption; ring).
    rewrite csum_scal. set (f := csum n (fun m => Conj (eve m e) * v m)).
    replace (RtoC g * f * Conj (RtoC g * f)) with (RtoC (g * g) * (f * Conj f)) by (rewrite Conj_mul, Conj_RtoC, RtoC_mul; ring).
    rewrite re_RtoC_mul. destruct rd; [|ring].
    rewrite (rsumn_ext n (fun m => re (Conj (eve m e) * v' m * Conj (Conj (eve m e) * v' m)))
      (fun m => (g * g * re (Conj (eve m e) * v m * Conj (Conj (eve m e) * v m)))%R)).
    - rewrite rsumn_scal. ring.
    - intros m Hm. rewrite H by assumption.
      replace (Conj (eve m e) * (RtoC g * v m) * Conj (Conj (eve m e) * (RtoC g * v m)))
        with (RtoC (g * g) * (Conj (eve m e) * v m * Conj (Conj (eve m e) * v m))) by (rewrite !Conj_mul, Conj_RtoC, RtoC_mul; ring).
      apply re_RtoC_mul.
  Qed.

  Lemma normalize_scaled st r0 r loss sp : (0 < r0)%R -> (forall m, (m < n)%nat -> (0 < r m)%R) ->
    normalize n st (a * r0) (fun m => a * r m)%R loss (raw_gain st * raw_gain st * sp) = normalize n st r0 r loss sp.
  Proof.
    intros H0 Hr. unfold normalize.
    assert (E2 : help_normalize n Inverse (fun m => (a * r m)%R) = (a * a * help_normalize n Inverse r)%R).
    { unfold help_normalize. rewrite <- rsumn_scal. apply rsumn_ext. intros. ring. }
    assert (E3 : rsumn n (fun m => (1 / (a * r m * (a * r m)))%R) = (/ (a * a) * rsumn n (fun m => (1 / (r m * r m))%R))%R).
    { rewrite <- rsumn_scal. apply rsumn_ext. intros m Hm. specialize (Hr m Hm). field. lra. }
    destruct st; unfold raw_gain.
    - f_equal. unfold Rdiv. ring.
    - rewrite E2. destruct (Nat.eq_dec n 0) as [->|Hn].
      + cbn. unfold Rdiv. rewrite !Rmult_0_l, Rinv_0. f_equal; ring.
      + assert (0 < INR n)%R by (apply lt_0_INR; lia). cbv zeta. f_equal; field; lra.
    - unfold help_normalize. rewrite E3. set (h := rsumn n _). destruct (Req_EM_T h 0) as [->|Hh].
      + unfold Rdiv. rewrite !Rmult_0_r, !Rinv_0. f_equal; ring.
      + f_equal; field; lra.
    - unfold help_normalize. rewrite E3. set (h := rsumn n _). f_equal.
      destruct (Nat.eq_dec n 0) as [E|Hn]; [rewrite E; cbn; unfold Rdiv; rewrite !Rmult_0_l, Rinv_0; ring|].
      assert (0 < INR n)%R by (apply lt_0_INR; lia).
      destruct (Req_EM_T h 0) as [->|Hh]; [unfold Rdiv; rewrite !Rmult_0_r, Rinv_0; ring|field; lra].
  Qed.

  Lemma freq_full_scaled csm r0 k r loss rd st : (0 < r0)%R -> (forall m, (m < n)%nat -> (0 < r m)%R) ->
    freq_full n csm (a * r0) (k / a) (fun m => a * r m)%R loss rd st = freq_full n csm r0 k r loss rd st.
  Proof.
    intros H0 Hr. unfold freq_full.
    rewrite (scalar_prod_gain rd csm (steer_raw st k r) _ (raw_gain st)) by (intros; apply raw_scaled; auto).
    now apply normalize_scaled.
  Qed.
  Lemma freq_eig_scaled ne eva eve r0 k r loss rd st : (0 < r0)%R -> (forall m, (m < n)%nat -> (0 < r m)%R) ->
    freq_eig n ne eva eve (a * r0) (k / a) (fun m => a * r m)%R loss rd st = freq_eig n ne eva eve r0 k r loss rd st.
  Proof.
    intros H0 Hr. unfold freq_eig.
    rewrite (scalar_prod_eig_gain rd ne eva eve (steer_raw st k r) _ (raw_gain st)) by (intros; apply raw_scaled; auto).
    now apply normalize_scaled.
  Qed.

  Lemma transfer_scaled r0 k r m : (0 < r0)%R -> (0 < r m)%R ->
    transfer (a * r0) (k / a) (fun m => a * r m)%R m = transfer r0 k r m.
  Proof.
    intros H0 Hr. unfold transfer. cbv zeta.
    replace (k / a * (a * r m - a * r0))%R with (k * (r m - r0))%R by (field; lra).
    generalize (cos (k * (r m - r0)), - sin (k * (r m - r0)))%R. intros e0. pose (e := e0 : C). change e0 with e. clearbody e. unfold Cdiv. rewrite <- !RtoC_inv by (try apply Rgt_not_eq; try apply Rmult_lt_0_compat; lra).
    rewrite Rinv_mult, !RtoC_mul.
    assert (Z : RtoC a * RtoC (/ a) = C1) by (rewrite <- RtoC_mul, Rinv_r by lra; reflexivity).
    transitivity (RtoC a * RtoC (/ a) * (e * RtoC r0 * RtoC (/ r m))); [ring|]. rewrite Z. ring.
  Qed.

  Lemma psf_scaled st r0 r r0s rs k : (0 < r0)%R -> (0 < r0s)%R -> (forall m, (m < n)%nat -> (0 < r m)%R) ->
    (forall m, (m < n)%nat -> (0 < rs m)%R) ->
    psf_core n st (a * r0) (fun m => a * r m)%R (a * r0s) (fun m => a * rs m)%R (k / a) = psf_core n st r0 r r0s rs k.
  Proof.
    intros H0 H0s Hr Hrs. unfold psf_core. cbv zeta.
    pose (e := (fun m => (cos (k * (r m - rs m)), (- sin (k * (r m - rs m)))%R)) : nat -> C).
    assert (Ee : forall m, (cos (k / a * (a * r m - a * rs m)), (- sin (k / a * (a * r m - a * rs m)))%R) = e m).
    { intros m. unfold e. replace (k / a * (a * r m - a * rs m))%R with (k * (r m - rs m))%R by (field; lra). reflexivity. }
    assert (E3 : rsumn n (fun m => (1 / (a * r m * (a * r m)))%R) = (/ (a * a) * rsumn n (fun m => (1 / (r m * r m))%R))%R).
    { rewrite <- rsumn_scal. apply rsumn_ext. intros m Hm. specialize (Hr m Hm). field. lra. }
    assert (I : forall x, (0 < x)%R -> C1 / RtoC (a * x) = RtoC (/ a) * (C1 / RtoC x)).
    { intros x Hx. unfold Cdiv. rewrite <- !RtoC_inv by (try apply Rgt_not_eq; try apply Rmult_lt_0_compat; lra).
      rewrite Rinv_mult, RtoC_mul. ring. }
    assert (G : forall g (s s' : C), s' = RtoC g * s -> re (s' * Conj s') = (g * g * re (s * Conj s))%R).
    { intros g s s' ->. replace (RtoC g * s * Conj (RtoC g * s)) with (RtoC (g * g) * (s * Conj s)) by (rewrite Conj_mul, Conj_RtoC, RtoC_mul; ring).
      apply re_RtoC_mul. }
    assert (D : forall x y : C, x / y = x * (C1 / y)) by (intros; unfold Cdiv; ring).
    assert (N1 : (0 < n)%nat -> (0 < INR n)%R) by (intros; apply lt_0_INR; lia).
    destruct st.
    - rewrite (G (/ a)%R (csum n (fun m => e m / RtoC (rs m)))).
      + unfold e. cbv beta. set (x := re _). destruct (Nat.eq_dec n 0) as [E|Hn]; [rewrite E; cbn; unfold Rdiv; rewrite Rinv_0; ring|]. specialize (N1 ltac:(lia)). field. lra.
      + rewrite <- csum_scal. apply csum_ext. intros m Hm. rewrite Ee, (D (e m)), I, (D (e m) (RtoC (rs m))) by auto. ring.
    - rewrite (G 1%R (csum n (fun m => e m / RtoC (rs m) * RtoC (r m)))).
      + unfold e. cbv beta. set (x := re _). destruct (Nat.eq_dec n 0) as [E|Hn]; [rewrite E; cbn; unfold Rdiv; rewrite Rinv_0; ring|]. specialize (N1 ltac:(lia)). field. lra.
      + rewrite <- csum_scal. apply csum_ext. intros m Hm. rewrite Ee, (D (e m)), I, (D (e m) (RtoC (rs m))), RtoC_mul by auto.
        assert (Z : RtoC a * RtoC (/ a) = C1) by (rewrite <- RtoC_mul, Rinv_r by lra; reflexivity).
        transitivity (RtoC a * RtoC (/ a) * (e m * (C1 / RtoC (rs m)) * RtoC (r m))); [ring|]. rewrite Z. change (RtoC 1) with C1. ring.
    - rewrite (G (/ (a * a))%R (csum n (fun m => e m / RtoC (rs m) / RtoC (r m)))).
      + unfold e. cbv beta. set (x := re _). rewrite E3. set (h := rsumn n _). destruct (Req_EM_T h 0) as [->|Hh].
        * unfold Rdiv. rewrite !Rmult_0_r, !Rinv_0. ring.
        * field. lra.
      + rewrite <- csum_scal. apply csum_ext. intros m Hm. rewrite Ee, (D (e m)), (D (e m * _)), !I, (D (_ / _)), (D (e m) (RtoC (rs m))) by auto.
        rewrite Rinv_mult, RtoC_mul. ring.
    - rewrite (G (/ (a * a))%R (csum n (fun m => e m / RtoC (rs m) / RtoC (r m)))).
      + unfold e. cbv beta. set (x := re _). rewrite E3. set (h := rsumn n _).
        destruct (Nat.eq_dec n 0) as [E|Hn]; [rewrite E; cbn; unfold Rdiv; rewrite Rinv_0; ring|]. specialize (N1 ltac:(lia)).
        destruct (Req_EM_T h 0) as [->|Hh].
        * unfold Rdiv. rewrite !Rmult_0_r, !Rinv_0. ring.
        * field. lra.
      + rewrite <- csum_scal. apply csum_ext. intros m Hm. rewrite Ee, (D (e m)), (D (e m * _)), !I, (D (_ / _)), (D (e m) (RtoC (rs m))) by auto.
        rewrite Rinv_mult, RtoC_mul. ring.
  Qed.
End Unit.

(** CLEAN-SC. *)
Section CleanscUnit.
  Variables (n g : nat) (a k : R) (r0g : nat -> R) (rg : nat -> nat -> R) (st : steer) (rd : bool) (nf damp : R).
  Hypothesis Ha : 0 < a.
  Hypothesis H0 : forall p, 0 < r0g p.
  Hypothesis Hr : forall p m, 0 < rg p m.
  Let r0g' := fun p => a * r0g p.
  Let rg' := fun p m => a * rg p m.

  Lemma bf_map_scaled csm : bf_map n (k / a) r0g' rg' st rd nf csm = bf_map n k r0g rg st rd nf csm.
  Proof.
    extensionality p. unfold bf_map, r0g', rg'. f_equal.
    apply (freq_full_scaled n a Ha csm (r0g p) k (rg p)); auto.
  Qed.
  Lemma wmax_scaled : wmax n (k / a) r0g' rg' st nf = wmax n k r0g rg st nf.
  Proof.
    extensionality xi. extensionality m. unfold wmax, r0g', rg'. do 3 f_equal.
    extensionality j. apply (transfer_scaled a Ha (r0g xi) k (rg xi)); auto.
  Qed.
  Lemma hh_of_scaled csm xi h : hh_of n (k / a) r0g' rg' st nf csm xi h = hh_of n k r0g rg st nf csm xi h.
  Proof. unfold hh_of. now rewrite wmax_scaled. Qed.
  Local Opaque hh_of.
  Lemma sc_body_scaled stopn j s : sc_body n g (k / a) r0g' rg' st rd nf damp stopn j s = sc_body n g k r0g rg st rd nf damp stopn j s.
  Proof.
    unfold sc_body. rewrite hh_of_scaled. destruct (_ && _)%bool; [reflexivity|]. f_equal. f_equal.
    extensionality p. do 2 f_equal. unfold r0g', rg'. f_equal.
    apply (freq_eig_scaled n a Ha 1 _ _ (r0g p) k (rg p)); auto.
  Qed.
  Lemma cleansc_scaled stopn J csm : cleansc n g (k / a) r0g' rg' st rd nf damp stopn J csm = cleansc n g k r0g rg st rd nf damp stopn J csm.
  Proof.
    unfold cleansc. rewrite bf_map_scaled.
    generalize {| sc_h := bf_map n k r0g rg st rd nf csm; sc_csm := csm; sc_result := fun _ => 0; sc_powers := [] |}.
    generalize 0%nat. induction J as [|J IH]; intros j s; cbn [sc_loop]; [reflexivity|].
    rewrite sc_body_scaled. destruct (sc_body n g k r0g rg st rd nf damp stopn j s) as [s' []]; auto.
  Qed.
End CleanscUnit.

(* ------------------------------------------------------------------ *)
(** ** Flow fields and rays *)

(** The flow field [ff] moved. *)
Definition moved_flow (q : m3) (t : v3) (ff : v3 -> v3 * m3) (x : v3) : v3 * m3 :=
  let p := mapply (mtrans q) (vsub x t) in
  (mapply q (fst (ff p)), mmul (mmul q (snd (ff p))) (mtrans q)).

Lemma orth_back q t x : orthogonal q -> mapply (mtrans q) (vsub (move q t x) t) = x.
Proof.
  intros H. replace (vsub (move q t x) t) with (mapply q x).
  - rewrite <- mapply_mmul, H. unfold mapply, vdot. cbn [v3x v3y v3z row0 row1 row2]. apply v3_eq; cbn; ring.
  - unfold move, vsub, vadd. cbn [v3x v3y v3z]. apply v3_eq; cbn [v3x v3y v3z]; ring.
Qed.
Lemma orth_back0 q x : orthogonal q -> mapply (mtrans q) (mapply q x) = x.
Proof.
  intros H. rewrite <- mapply_mmul, H. unfold mapply, vdot. cbn [v3x v3y v3z row0 row1 row2]. apply v3_eq; cbn; ring.
Qed.

Lemma vderiv_mapply q f t d : vderiv f t d -> vderiv (fun z => mapply q (f z)) t (mapply q d).
Proof.
  intros (A & B & C). unfold vderiv, mapply, vdot. cbn [v3x v3y v3z].
  repeat split; (apply derivable_pt_lim_plus; [apply derivable_pt_lim_plus|]; apply deriv_scal; assumption).
Qed.
Lemma vderiv_shift f t d u : vderiv f t d -> vderiv (fun z => vadd (f z) u) t d.
Proof.
  intros (A & B & C). unfold vderiv, vadd. cbn [v3x v3y v3z].
  repeat split; (eapply deriv_eq; [|apply derivable_pt_lim_plus; [eassumption|apply deriv_const]]; ring).
Qed.

Lemma traced_moved c q t ff x s : orthogonal q -> traced c ff x s ->
  traced c (moved_flow q t ff) (fun z => move q t (x z)) (fun z => mapply q (s z)).
Proof.
  intros H T z. cbv zeta. destruct (T z) as [Dx Ds]. rewrite f1_pos in *. rewrite f1_slow in *.
  unfold moved_flow. cbv zeta. cbn [fst snd]. rewrite orth_back by exact H. split.
  - unfold move. apply vderiv_shift. rewrite orth_norm by exact H. rewrite <- mapply_scale, <- mapply_sub. now apply vderiv_mapply.
  - rewrite !mapply_mmul, orth_back0, <- mapply_scale by exact H. now apply vderiv_mapply.
Qed.

Definition det (q : m3) : R := vdot (row0 q) (vcross (row1 q) (row2 q)).
Lemma det_apply q u v w : vdot (vcross (mapply q u) (mapply q v)) (mapply q w) = det q * vdot (vcross u v) w.
Proof.
  destruct q as [[a b c] [d e f] [g h i]], u as [x1 x2 x3], v as [y1 y2 y3], w as [z1 z2 z3]. unfold det, vdot, vcross, mapply, vdot. cbn [v3x v3y v3z row0 row1 row2]. ring.
Qed.
Lemma det_gram q : det (mmul (mtrans q) q) = det q * det q.
Proof.
  destruct q as [[a b c] [d e f] [g h i]]. unfold det, vdot, vcross, mmul, mtrans, vdot. cbn [v3x v3y v3z row0 row1 row2]. ring.
Qed.
Lemma det_orth q : orthogonal q -> det q * det q = 1.
Proof. intros H. rewrite <- det_gram, H. unfold det, vdot, vcross. cbn. ring. Qed.
Lemma lagrange u v : vdot (vcross u v) (vcross u v) = vdot u u * vdot v v - vdot u v * vdot u v.
Proof. unfold vdot, vcross. cbn [v3x v3y v3z]. ring. Qed.

Lemma orth_cross q u v : orthogonal q -> vcross (mapply q u) (mapply q v) = vscale (det q) (mapply q (vcross u v)).
Proof.
  intros H. pose proof (det_orth q H) as D2.
  set (w := vcross (mapply q u) (mapply q v)). set (y := vscale (det q) (mapply q (vcross u v))).
  assert (Z : vdot (vsub w y) (vsub w y) = 0).
  { replace (vdot (vsub w y) (vsub w y)) with (vdot w w - 2 * vdot w y + vdot y y) by (unfold vdot, vsub; cbn; ring).
    assert (W : vdot w w = vdot (vcross u v) (vcross u v)) by (unfold w; rewrite !lagrange, !orth_dot by exact H; reflexivity).
    assert (Y : vdot w y = det q * (det q * vdot (vcross u v) (vcross u v))).
    { unfold y. rewrite vdot_comm, vdot_scale, vdot_comm. unfold w. now rewrite det_apply. }
    assert (YY : vdot y y = det q * det q * vdot (vcross u v) (vcross u v)).
    { unfold y. rewrite vdot_scale, vdot_comm, vdot_scale, orth_dot by exact H. ring. }
    rewrite W, Y, YY. replace (det q * (det q * vdot (vcross u v) (vcross u v))) with (det q * det q * vdot (vcross u v) (vcross u v)) by ring.
    rewrite D2. ring. }
  apply vdot_self_zero in Z. clearbody w y.
  pose proof (f_equal v3x Z) as Z1. pose proof (f_equal v3y Z) as Z2. pose proof (f_equal v3z Z) as Z3.
  unfold vsub in Z1, Z2, Z3. cbn [v3x v3y v3z] in Z1, Z2, Z3. apply v3_eq; lra.
Qed.

Definition moved_slot (q : m3) (t : v3) (s : slot) : slot :=
  Slot (sl_v0 s) (move q t (sl_origin s)) (mapply q (sl_flow s)) (mapply q (sl_plane s)) (sl_B s) (sl_l s).

Lemma slot_moved q t s x : orthogonal q ->
  slotjet_vel (moved_slot q t s) (move q t x) = option_map (mapply q) (slotjet_vel s x).
Proof.
  intros H.
  assert (D : sl_dir (moved_slot q t s) = mapply q (sl_dir s)) by (unfold sl_dir, moved_slot; cbn [sl_flow]; now apply orth_unit).
  assert (X1 : sl_x1 (moved_slot q t s) (move q t x) = sl_x1 s x).
  { unfold sl_x1, sl_x. rewrite D. unfold moved_slot. cbn [sl_l sl_origin]. now rewrite move_sub, orth_dot. }
  assert (Y : sl_y (moved_slot q t s) (move q t x) = det q * sl_y s x).
  { unfold sl_y, sl_yy. rewrite D. unfold moved_slot. cbn [sl_plane sl_origin]. rewrite move_sub, orth_unit, orth_cross, !vdot_scale, orth_dot by exact H. ring. }
  assert (A : Rabs (det q) = 1).
  { pose proof (det_orth q H) as D2. destruct (Rcase_abs (det q)); [rewrite Rabs_left by assumption|rewrite Rabs_right by lra]; nra. }
  assert (H1 : sl_h1 (moved_slot q t s) (move q t x) = sl_h1 s x).
  { unfold sl_h1. rewrite X1, Y, Rabs_mult, A. unfold moved_slot. cbn [sl_B]. ring. }
  unfold slotjet_vel, slotjet_U. rewrite X1, H1. cbv zeta.
  assert (F : forall s0 u, mapply (slot_rot s0) (V3 u 0 0) = vscale u (sl_dir s0)) by (intros; unfold slot_rot; apply frame_first).
  change (sl_v0 (moved_slot q t s)) with (sl_v0 s).
  destruct (Rlt_dec (sl_h1 s x) 0); [cbn [option_map]; now rewrite !F, D, mapply_scale|].
  destruct (Req_EM_T (sl_x1 s x) 0); [destruct (Req_EM_T (sl_h1 s x) 0); [reflexivity|]|]; cbn [option_map]; now rewrite !F, D, mapply_scale.
Qed.
