(** C120: only the relative positions of microphones, grid points, reference position and flow matter. *)
From Coq Require Import List Arith Lia ZArith Bool Reals Lra FunctionalExtensionality.
From Verif Require Import Stream Cplx Environ Rays Beamform Deconv Subspace Das Focus Rigid.
Import ListNotations.
Local Open Scope R_scope.

(** Rotate or mirror everything by [q], then shift by [t]: the maps and time signals are the same,
    not merely close. *)
Theorem C120_moved (q : m3) (t : v3) (s : setup) : orthogonal q ->
  (forall n csm k p rdiag rdn st,
     bf_base n csm (r0_of (moved q t s) p) k (rm_of (moved q t s) p) rdiag rdn st
     = bf_base n csm (r0_of s p) k (rm_of s p) rdiag rdn st) /\
  (forall n na eva eve k p rdiag rdn st,
     bf_eig n na eva eve (r0_of (moved q t s) p) k (rm_of (moved q t s) p) rdiag rdn st
     = bf_eig n na eva eve (r0_of s p) k (rm_of s p) rdiag rdn st) /\
  (forall n g eva eve k p st,
     bf_functional n npow g eva eve (r0_of (moved q t s) p) k (rm_of (moved q t s) p) st
     = bf_functional n npow g eva eve (r0_of s p) k (rm_of s p) st) /\
  (forall n icsm k p st,
     capon n icsm (r0_of (moved q t s) p) k (rm_of (moved q t s) p) st = capon n icsm (r0_of s p) k (rm_of s p) st) /\
  (forall n nsrc eva eve k st grid,
     music n nsrc eva eve k st (map (fun p => (r0_of (moved q t s) p, rm_of (moved q t s) p)) grid)
     = music n nsrc eva eve k st (map (fun p => (r0_of s p, rm_of s p)) grid)) /\
  (forall n g k st rdiag nf damp stopn J csm,
     cleansc n g k (r0_of (moved q t s)) (rm_of (moved q t s)) st rdiag nf damp stopn J csm
     = cleansc n g k (r0_of s) (rm_of s) st rdiag nf damp stopn J csm) /\
  (forall n k st i j,
     psf_core n st (r0_of (moved q t s) i) (rm_of (moved q t s) i) (r0_of (moved q t s) j) (rm_of (moved q t s) j) k
     = psf_core n st (r0_of s i) (rm_of s i) (r0_of s j) (rm_of s j) k) /\
  (forall G M post c fs amp wts src fuel num,
     bft_result G M post (fun g m => delay_of c fs (rm_of (moved q t s) g m))
       (fun g m => amp M (rm_of (moved q t s) g) (r0_of (moved q t s) g) m) wts src fuel num
     = bft_result G M post (fun g m => delay_of c fs (rm_of s g m)) (fun g m => amp M (rm_of s g) (r0_of s g) m) wts src fuel num) /\
  (forall heap out0 signal zeros M p c start fs up ns num,
     recorded heap out0 signal zeros M (rm_of (moved q t s) p) c start fs up ns num
     = recorded heap out0 signal zeros M (rm_of s p) c start fs up ns num).
Proof. intros H. rewrite (r0_moved q t s H), (rm_moved q t s H). repeat split. Qed.
Print Assumptions C120_moved.

(** A quarter turn about z; and a mirror image. *)
Example C120_moved_case :
  orthogonal (M3 (V3 0 (-1) 0) (V3 1 0 0) (V3 0 0 1)) /\ orthogonal (M3 (V3 1 0 0) (V3 0 1 0) (V3 0 0 (-1))) /\
  move (M3 (V3 0 (-1) 0) (V3 1 0 0) (V3 0 0 1)) (V3 1 1 1) (V3 2 3 5) = V3 (-2) 3 6.
Proof.
  unfold orthogonal, mmul, mtrans, move, mapply, vadd, vdot. cbn [v3x v3y v3z row0 row1 row2].
  repeat split; repeat f_equal; ring.
Qed.

(** Microphones and reference position in a plane, the flow parallel to it: what lies behind the plane
    cannot be told from its mirror image in front. *)
Definition mirrored (h : R) (p : v3) : v3 := V3 (v3x p) (v3y p) (2 * h - v3z p).

Theorem C120_front_back (s : setup) (h : R) :
  v3z (s_ref s) = h -> (forall m, v3z (s_mic s m) = h) ->
  (forall ma fdv, s_env s = Some (ma, fdv) -> v3z fdv = 0) ->
  forall grid', (forall p, grid' p = mirrored h (s_grid s p)) ->
  (forall p, r0_of (Setup (s_env s) (s_ref s) (s_mic s) grid') p = r0_of s p) /\
  (forall p m, rm_of (Setup (s_env s) (s_ref s) (s_mic s) grid') p m = rm_of s p m).
Proof.
  intros Href Hmic Hflow grid' Hg.
  set (q := M3 (V3 1 0 0) (V3 0 1 0) (V3 0 0 (-1))). set (t := V3 0 0 (2 * h)).
  assert (O : orthogonal q) by (unfold orthogonal, q, mmul, mtrans, vdot; cbn [v3x v3y v3z row0 row1 row2]; repeat f_equal; ring).
  assert (M : forall p, move q t p = mirrored h p).
  { intros [x y z]. unfold move, mirrored, q, t, mapply, vadd, vdot. cbn [v3x v3y v3z row0 row1 row2]. f_equal; ring. }
  assert (F : forall p, v3z p = h -> mirrored h p = p).
  { intros [x y z] E. unfold mirrored. cbn [v3x v3y v3z] in *. f_equal. lra. }
  assert (Z : forall v, v3z v = 0 -> mapply q v = v).
  { intros [x y z] E. unfold q, mapply, vdot. cbn [v3x v3y v3z row0 row1 row2] in *. subst z. f_equal; ring. }
  assert (E : Setup (s_env s) (s_ref s) (s_mic s) grid' = moved q t s).
  { unfold moved. f_equal.
    - destruct (s_env s) as [[ma fdv]|]; [|reflexivity]. cbn [option_map fst snd]. now rewrite (Z fdv) by (eapply Hflow; reflexivity).
    - now rewrite M, F.
    - extensionality m. now rewrite M, F.
    - extensionality p. now rewrite M. }
  rewrite E, (r0_moved q t s O), (rm_moved q t s O). split; reflexivity.
Qed.
Print Assumptions C120_front_back.

Example C120_front_back_case :
  let s := Setup (Some (1 / 2, V3 1 0 0)) (V3 0 0 1) (fun m => V3 (INR m) 0 1) (fun p => V3 0 0 (3 + INR p)) in
  v3z (s_ref s) = 1 /\ (forall m, v3z (s_mic s m) = 1) /\ (forall ma fdv, s_env s = Some (ma, fdv) -> v3z fdv = 0) /\
  (forall p, mirrored 1 (s_grid s p) = V3 0 0 (-1 - INR p)).
Proof.
  cbv zeta. cbn [s_ref s_mic s_env s_grid v3z]. repeat split.
  - intros ma fdv H. injection H as _ <-. reflexivity.
  - intros p. unfold mirrored. cbn [v3x v3y v3z]. f_equal. ring.
Qed.

(** All lengths in another unit ([a] times as large), the wave number in the new unit (k/a), the speed of
    sound too (a c): the same maps and signals.  The distances must not be zero. *)
Definition amp_of (st : steer) : nat -> (nat -> R) -> R -> nat -> R :=
  match st with Classic => steer_I | Inverse => steer_II | TrueLevel => steer_III | TrueLocation => steer_IV end.

Theorem C120_unit_of_length (a : R) (s : setup) : 0 < a ->
  (forall p, 0 < r0_of s p) -> (forall p m, 0 < rm_of s p m) ->
  (forall n csm k p rdiag rdn st,
     bf_base n csm (r0_of (resized a s) p) (k / a) (rm_of (resized a s) p) rdiag rdn st
     = bf_base n csm (r0_of s p) k (rm_of s p) rdiag rdn st) /\
  (forall n na eva eve k p rdiag rdn st,
     bf_eig n na eva eve (r0_of (resized a s) p) (k / a) (rm_of (resized a s) p) rdiag rdn st
     = bf_eig n na eva eve (r0_of s p) k (rm_of s p) rdiag rdn st) /\
  (forall n g eva eve k p st,
     bf_functional n npow g eva eve (r0_of (resized a s) p) (k / a) (rm_of (resized a s) p) st
     = bf_functional n npow g eva eve (r0_of s p) k (rm_of s p) st) /\
  (forall n icsm k p st,
     capon n icsm (r0_of (resized a s) p) (k / a) (rm_of (resized a s) p) st = capon n icsm (r0_of s p) k (rm_of s p) st) /\
  (forall n nsrc eva eve k st grid,
     music n nsrc eva eve (k / a) st (map (fun p => (r0_of (resized a s) p, rm_of (resized a s) p)) grid)
     = music n nsrc eva eve k st (map (fun p => (r0_of s p, rm_of s p)) grid)) /\
  (forall n g k st rdiag nf damp stopn J csm,
     cleansc n g (k / a) (r0_of (resized a s)) (rm_of (resized a s)) st rdiag nf damp stopn J csm
     = cleansc n g k (r0_of s) (rm_of s) st rdiag nf damp stopn J csm) /\
  (forall n k st i j,
     psf_core n st (r0_of (resized a s) i) (rm_of (resized a s) i) (r0_of (resized a s) j) (rm_of (resized a s) j) (k / a)
     = psf_core n st (r0_of s i) (rm_of s i) (r0_of s j) (rm_of s j) k) /\
  (forall G M post c fs st wts src fuel num, 0 < c -> (0 < M)%nat ->
     bft_result G M post (fun g m => delay_of (a * c) fs (rm_of (resized a s) g m))
       (fun g m => amp_of st M (rm_of (resized a s) g) (r0_of (resized a s) g) m) wts src fuel num
     = bft_result G M post (fun g m => delay_of c fs (rm_of s g m)) (fun g m => amp_of st M (rm_of s g) (r0_of s g) m) wts src fuel num).
Proof.
  intros Ha H0 Hr.
  assert (E0 : r0_of (resized a s) = fun p => a * r0_of s p) by (extensionality p; exact (sep_resized a s (s_grid s p) (s_ref s) Ha)).
  assert (E1 : rm_of (resized a s) = fun p m => a * rm_of s p m) by (extensionality p; extensionality m; exact (sep_resized a s (s_grid s p) (s_mic s m) Ha)).
  rewrite E0, E1. cbv beta. repeat split.
  - intros n csm k p rdiag rdn st. unfold bf_base. destruct (sig_loss_norm n rdiag rdn); [|reflexivity]. now rewrite (freq_full_scaled n a Ha csm (r0_of s p) k (rm_of s p)) by auto.
  - intros n na eva eve k p rdiag rdn st. unfold bf_eig. destruct (sig_loss_norm n rdiag rdn); [|reflexivity]. now rewrite (freq_eig_scaled n a Ha 1 _ _ (r0_of s p) k (rm_of s p)) by auto.
  - intros n g eva eve k p st. unfold bf_functional. now rewrite (freq_eig_scaled n a Ha n _ eve (r0_of s p) k (rm_of s p)) by auto.
  - intros n icsm k p st. unfold capon. now rewrite (freq_full_scaled n a Ha icsm (r0_of s p) k (rm_of s p)) by auto.
  - intros n nsrc eva eve k st grid.
    assert (M : forall p, music_out n nsrc eva eve (k / a) st (a * r0_of s p, fun m => a * rm_of s p m) = music_out n nsrc eva eve k st (r0_of s p, rm_of s p)).
    { intros p. unfold music_out. cbn [fst snd]. now rewrite (freq_eig_scaled n a Ha _ eva eve (r0_of s p) k (rm_of s p)) by auto. }
    unfold music. rewrite !map_map. rewrite (map_ext _ _ M). apply map_ext. intros p. now rewrite M.
  - intros. apply cleansc_scaled; auto.
  - intros. apply psf_scaled; auto.
  - intros G M post c fs st wts src fuel num Hc HM. f_equal.
    + extensionality g. extensionality m. unfold delay_of. field. lra.
    + extensionality g. extensionality m. specialize (H0 g). pose proof (Hr g) as Hg. clear E0 E1 Hr.
      set (r := rm_of s g) in *. set (z := r0_of s g) in *. clearbody r z.
      assert (S : rsum (map (fun i => 1 / (a * r i * (a * r i))) (seq 0 M)) = / (a * a) * rsum (map (fun i => 1 / (r i * r i)) (seq 0 M))).
      { rewrite <- rsum_map_scal. apply rsum_map_ext. intros i _. specialize (Hg i). field. lra. }
      assert (P : 0 < rsum (map (fun i => 1 / (r i * r i)) (seq 0 M))).
      { destruct M as [|M]; [lia|]. cbn [seq map]. unfold rsum. cbn [fold_right].
        assert (forall l, 0 <= fold_right Rplus 0 (map (fun i => 1 / (r i * r i)) l)).
        { induction l as [|i l IH]; cbn [map fold_right]; [lra|]. specialize (Hg i).
          assert (0 < 1 / (r i * r i)) by (apply Rdiv_lt_0_compat; nra). lra. }
        specialize (H (seq 1 M)). pose proof (Hg 0%nat). assert (0 < 1 / (r 0%nat * r 0%nat)) by (apply Rdiv_lt_0_compat; nra). lra. }
      pose proof (Hg m) as Hm. assert (0 < INR M) by (apply lt_0_INR; lia).
      destruct st; cbn [amp_of].
      * reflexivity.
      * unfold steer_II. field. lra.
      * unfold steer_III. rewrite S. field. repeat split; lra.
      * unfold steer_IV. rewrite S. replace (/ (a * a)) with (/ a * / a) by (field; lra).
        assert (0 < / a) by (apply Rinv_0_lt_compat; assumption).
        rewrite sqrt_mult, sqrt_square by nra. pose proof (sqrt_lt_R0 _ P). field. repeat split; lra.
Qed.
Print Assumptions C120_unit_of_length.

(** Millimetres instead of metres. *)
Example C120_unit_case :
  let s := Setup None (V3 0 0 0) (fun m => V3 0 0 (INR m)) (fun p => V3 0 3 (-4)) in
  (forall p, 0 < r0_of s p) /\ (forall p m, 0 < rm_of s p m) /\ r0_of (resized 1000 s) 0 = 5000.
Proof.
  cbv zeta. unfold r0_of, rm_of, sep, resized. cbn [s_env s_ref s_mic s_grid].
  unfold env_r, vnorm, vsub, vscale, vdot. cbn [v3x v3y v3z]. repeat split.
  - intros p. apply sqrt_lt_R0. lra.
  - intros p m. apply sqrt_lt_R0. pose proof (Rle_0_sqr (-4 - INR m)) as Q. unfold Rsqr in Q. lra.
  - replace (_ + _ + _) with (5000 * 5000) by ring. apply sqrt_square. lra.
Qed.

(** Where the reference position is: steering types 1 and 4 do not use it, types 2 and 3 scale the map of
    a grid point by the squared ratio of the distances. *)
Theorem C120_reference (n : nat) (csm : nat -> nat -> C) (r0 r0' k : R) (r : nat -> R) (rdiag : bool) (rdn : R) (st : steer) :
  0 < r0 -> 0 < r0' ->
  bf_base n csm r0' k r rdiag rdn st
  = match st with
    | Classic | TrueLocation => bf_base n csm r0 k r rdiag rdn st
    | Inverse | TrueLevel => option_map (Rmult ((r0 / r0') * (r0 / r0'))) (bf_base n csm r0 k r rdiag rdn st)
    end.
Proof.
  intros H H'. unfold bf_base. destruct (sig_loss_norm n rdiag rdn) as [loss|]; [|destruct st; reflexivity].
  assert (Q : 0 < r0 / r0') by (apply Rdiv_lt_0_compat; assumption).
  assert (K : forall x, clip_neg rdiag (r0 / r0' * (r0 / r0') * x) = r0 / r0' * (r0 / r0') * clip_neg rdiag x).
  { intros x. unfold clip_neg. destruct rdiag; [|reflexivity].
    assert (0 < r0 / r0' * (r0 / r0')) by nra. set (u := r0 / r0' * (r0 / r0')) in *. clearbody u.
    destruct (Rlt_dec x 0), (Rlt_dec (u * x) 0); try reflexivity; try ring; exfalso; nra. }
  destruct st; cbn [option_map]; try reflexivity; rewrite <- K; do 2 f_equal;
    unfold freq_full, normalize; cbn [fst]; set (sp := scalar_prod _ _ _ _); clearbody sp.
  - unfold Rdiv. rewrite !Rinv_mult. generalize (/ INR n). intros i. field. lra.
  - unfold Rdiv. rewrite !Rinv_mult. generalize (/ help_normalize n TrueLevel r). intros i. field. lra.
Qed.
Print Assumptions C120_reference.

(** The reference position counts: SteeringVector.ref is the origin unless it is set.  Shifting microphones and grid
    only, by a vector [t], changes the map. *)
Theorem C120_moved_refuted : exists (s : setup) (t : v3),
  s_ref s = V3 0 0 0 /\ s_env s = None /\ t <> V3 0 0 0 /\
  exists n csm k p,
    bf_base n csm (r0_of (Setup None (s_ref s) (fun m => vadd (s_mic s m) t) (fun p => vadd (s_grid s p) t)) p) k
      (rm_of (Setup None (s_ref s) (fun m => vadd (s_mic s m) t) (fun p => vadd (s_grid s p) t)) p) false 0 Inverse
    <> bf_base n csm (r0_of s p) k (rm_of s p) false 0 Inverse.
Proof.
  exists (Setup None (V3 0 0 0) (fun _ => V3 0 0 0) (fun _ => V3 0 0 1)), (V3 0 0 1). cbn [s_ref s_env s_mic s_grid].
  repeat split.
  { intros E. pose proof (f_equal v3z E) as Z. cbn [v3z] in Z. lra. }
  exists 1%nat, (fun _ _ => C1), 0, 0%nat. unfold r0_of, rm_of, sep. cbn [s_env s_ref s_mic s_grid].
  assert (E1 : env_r (V3 0 0 1) (V3 0 0 0) = 1).
  { unfold env_r, vnorm, vsub, vdot. cbn [v3x v3y v3z]. replace (_ + _ + _) with (1 * 1) by ring. apply sqrt_square. lra. }
  assert (E2 : env_r (vadd (V3 0 0 1) (V3 0 0 1)) (V3 0 0 0) = 2).
  { unfold env_r, vnorm, vsub, vadd, vdot. cbn [v3x v3y v3z]. replace (_ + _ + _) with (2 * 2) by ring. apply sqrt_square. lra. }
  assert (E3 : env_r (vadd (V3 0 0 1) (V3 0 0 1)) (vadd (V3 0 0 0) (V3 0 0 1)) = 1).
  { unfold env_r, vnorm, vsub, vadd, vdot. cbn [v3x v3y v3z]. replace (_ + _ + _) with (1 * 1) by ring. apply sqrt_square. lra. }
  rewrite (C120_reference 1 (fun _ _ => C1) 1 (env_r (vadd (V3 0 0 1) (V3 0 0 1)) (V3 0 0 0))) by (rewrite ?E2; lra).
  assert (E4 : (fun _ : nat => env_r (vadd (V3 0 0 1) (V3 0 0 1)) (vadd (V3 0 0 0) (V3 0 0 1))) = fun _ => 1) by (extensionality m; exact E3).
  assert (E5 : (fun _ : nat => env_r (V3 0 0 1) (V3 0 0 0)) = fun _ => 1) by (extensionality m; exact E1).
  rewrite E4, E5, E1, E2.
  assert (V : bf_base 1 (fun _ _ => C1) 1 0 (fun _ => 1) false 0 Inverse = Some 1).
  { unfold bf_base, sig_loss_norm, clip_neg, freq_full, normalize, scalar_prod, steer_raw, help_normalize. cbn [fst].
    f_equal. cbn [csum rsumn INR]. rewrite ?Rmult_0_l, ?cos_0, ?sin_0. unfold Cmul, Conj, RtoC, C1, C0, re, Cadd, Cdiv, Cinv; cbn [fst snd].
    field. }
  rewrite V. cbn [option_map]. intros E. injection E. lra.
Qed.
Print Assumptions C120_moved_refuted.

(** Sound rays turn with the flow: moving a flow field moves its rays. *)
Theorem C120_rays (c : R) (q : m3) (t : v3) (ff : v3 -> v3 * m3) (x s : R -> v3) :
  orthogonal q -> traced c ff x s ->
  traced c (moved_flow q t ff) (fun z => move q t (x z)) (fun z => mapply q (s z)).
Proof. exact (traced_moved c q t ff x s). Qed.
Print Assumptions C120_rays.

(** A SlotJet with origin, flow and plane moved is the SlotJet moved. *)
Theorem C120_slotjet (q : m3) (t : v3) (s : slot) (x : v3) : orthogonal q ->
  slotjet_vel (Slot (sl_v0 s) (move q t (sl_origin s)) (mapply q (sl_flow s)) (mapply q (sl_plane s)) (sl_B s) (sl_l s)) (move q t x)
  = option_map (mapply q) (slotjet_vel s x).
Proof. exact (slot_moved q t s x). Qed.
Print Assumptions C120_slotjet.
