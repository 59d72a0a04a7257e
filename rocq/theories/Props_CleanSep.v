(** Property C135: CLEAN finds the sources. *)
From Coq Require Import List Arith Lia ZArith Bool Reals Lra.
From Verif Require Import Stream Cplx Buffer Frames Convolve Fourier Beamform Csm Deconv Subspace Spectral Rewire OrthSep Resolve CleanSep Props_OrthSep Props_Resolve.
Import ListNotations.
Local Open Scope R_scope.

(** Point spread function of the grid: column [j], row [q]. *)
Definition grid_psf (M : nat) (st : steer) (k : R) (r0g : nat -> R) (rg : nat -> nat -> R) (j q : nat) : R :=
  psf_core M st (r0g q) (rg q) (r0g j) (rg j) k.

(** 'true location', sources with orthogonal transfer vectors, no other grid point
    with a vector that is a combination of theirs, relative power [A/M] of the
    array at least [delta] and at most 1/damp: the clean map is zero at all
    other points, at the sources never above the strength, and what is missing
    decreases geometrically with the number of iterations. *)
Theorem C135_found M g K k r0g rg pos p damp n_iter delta dirty :
  (0 < M)%nat -> (0 < K)%nat -> (forall q, 0 < r0g q) -> (forall q m, 0 < rg q m) -> resolved M K k r0g rg pos p ->
  (forall s, (s < K)%nat -> (pos s < g)%nat) ->
  (forall q, (q < g)%nat -> (forall s, (s < K)%nat -> q <> pos s) -> forall z : nat -> C, exists m, (m < M)%nat /\
     transfer (r0g q) k (rg q) m <> csum K (fun t => z t * transfer (r0g (pos t)) k (rg (pos t)) m)%C) ->
  let share s := array_power M (r0g (pos s)) (rg (pos s)) / INR M in
  0 < damp -> 0 < delta -> (forall s, (s < K)%nat -> delta <= share s /\ damp * share s <= 1) ->
  (forall q, (q < g)%nat -> bf_base M (sources_csm 0 K k r0g rg pos p) (r0g q) k (rg q) false 0 TrueLocation = Some (dirty q)) ->
  exists res clean i, clean_calc g (grid_psf M TrueLocation k r0g rg) damp n_iter (Z.to_nat (Z.max 1 n_iter)) dirty = Some (res, clean, i)
    /\ (forall q, (q < g)%nat -> (forall s, (s < K)%nat -> q <> pos s) -> clean q = 0)
    /\ (forall s, (s < K)%nat -> clean (pos s) <= p s)
    /\ rsumn K (fun s => share s * (p s - clean (pos s)))
       <= (1 - damp * delta / INR K) ^ Z.to_nat (Z.max 1 n_iter) * rsumn K (fun s => share s * p s).
Proof.
  intros HM HK H0 Hr Ha Hpos Hout share Hdamp Hdelta Hd Hdirty. pose proof (lt_0_INR M HM) as PM. destruct Ha as [A1 A2].
  set (a := fun s => transfer (r0g (pos s)) k (rg (pos s))).
  assert (Hw : forall s, (s < K)%nat -> 0 < pw M a s) by (intros; now apply pw_pos).
  assert (PP : forall s, pw M a s = array_power M (r0g (pos s)) (rg (pos s))) by (intros; now apply pw_power).
  assert (Hinj : forall s t, (s < K)%nat -> (t < K)%nat -> pos s = pos t -> s = t).
  { intros s t Hs Ht E. destruct (Nat.eq_dec s t) as [|N]; [assumption|]. exfalso. pose proof (A2 s t Hs Ht N) as O. rewrite <- E in O. change (inner M (a s) (a s) = C0) in O.
    rewrite inner_self in O. change C0 with (RtoC 0) in O. apply RtoC_inj in O. pose proof (Hw s Hs) as X. unfold pw in X. lra. }
  set (h := fun q => steer_vector M TrueLocation (transfer (r0g q) k (rg q))).
  assert (SZ : forall q, rsumn M (fun m => norm2 (h q m)) = 1 / INR M).
  { intros q. exact (proj2 (own_size M k r0g rg (fun _ => q) HM H0 Hr 0%nat TrueLocation (or_intror eq_refl))). }
  assert (PS : forall j q, grid_psf M TrueLocation k r0g rg j q = norm2 (inner M (transfer (r0g j) k (rg j)) (h q))).
  { intros j q. unfold grid_psf. rewrite psf_is_map by (auto; intros; apply Rgt_not_eq, Hr). rewrite bf_monopole by auto. rewrite Rmult_1_l. fold (h q).
    rewrite <- inner_conj, norm2_Conj. reflexivity. }
  assert (Hh : forall q, exists z, z <> C0 /\ forall m, (m < M)%nat -> h q m = (z * transfer (r0g q) k (rg q) m)%C).
  { intros q. destruct (steer_parallel M (r0g q) k (rg q) HM (H0 q) (fun m _ => Hr q m) TrueLocation (or_intror eq_refl)) as (z & Hz & Nz). exists z. split; [|exact Hz].
    intros ->. pose proof (sum_norm2_a M k (r0g q) (rg q) HM (H0 q) (fun m _ => Hr q m)) as S0.
    assert (0 < 1 / (rsumn M (fun m => norm2 (transfer (r0g q) k (rg q) m)) * INR M)) by (apply Rdiv_lt_0_compat; [lra|apply Rmult_lt_0_compat; assumption]).
    unfold norm2 at 1 in Nz. cbn [fst snd C0] in Nz. lra. }
  assert (PD : forall s, (s < K)%nat -> grid_psf M TrueLocation k r0g rg (pos s) (pos s) = share s).
  { intros s Hs. rewrite PS. destruct (steer_parallel M (r0g (pos s)) k (rg (pos s)) HM (H0 _) (fun m _ => Hr _ m) TrueLocation (or_intror eq_refl)) as (z & Hz & Nz).
    fold (h (pos s)) in Hz. rewrite (inner_ext M _ (a s) _ (fun m => z * a s m)%C) by (intros m Hm; split; [reflexivity|now apply Hz]).
    rewrite inner_scal_r, norm2_mul, Nz, inner_self, norm2_RtoC. fold (a s). fold (pw M a s). unfold share. rewrite <- PP. pose proof (Hw s Hs). field. lra. }
  assert (PO : forall s t, (s < K)%nat -> (t < K)%nat -> s <> t -> grid_psf M TrueLocation k r0g rg (pos s) (pos t) = 0).
  { intros s t Hs Ht N. rewrite PS. destruct (Hh (pos t)) as (z & _ & Hz). fold (a s). rewrite (inner_ext M _ (a s) _ (fun m => z * a t m)%C) by (intros m Hm; split; [reflexivity|now apply Hz]).
    rewrite inner_scal_r, (A2 s t Hs Ht N : inner M (a s) (a t) = C0), norm2_mul. unfold norm2. cbn [fst snd C0]. ring. }
  destruct (clean_finds g K (grid_psf M TrueLocation k r0g rg) damp n_iter pos p share delta) with (dirty := dirty) as (st' & E & C1' & C2' & C3'); try assumption.
  - pose proof (Hpos 0%nat HK). lia.
  - intros s q Hs Hq. rewrite PS. apply norm2_nonneg.
  - intros w q W Pw Hq N. destruct (span_peak M K a (h q) w Hw A2) as (s & Hs & L); [|exact Pw|].
    + intros z. destruct (Hh q) as (y & Ny & Hy). destruct (Hout q Hq N (fun t => z t / y)%C) as (m & Hm & D). exists m. split; [exact Hm|]. intros X. apply D.
      transitivity (Cinv y * h q m)%C; [rewrite Hy by assumption; field; exact Ny|]. rewrite X, <- csum_scal. apply csum_ext. intros t _. unfold a. field. exact Ny.
    + exists s. split; [exact Hs|]. rewrite SZ, PP in L. rewrite (rsumn_ext K _ (fun t => w t * norm2 (inner M (a t) (h q)))) by (intros t _; now rewrite PS).
      unfold share. replace (w s * (array_power M (r0g (pos s)) (rg (pos s)) / INR M)) with (w s * array_power M (r0g (pos s)) (rg (pos s)) * (1 / INR M)) by (field; lra). exact L.
  - intros s Hs. apply Rlt_le. auto.
  - intros q Hq. specialize (Hdirty q Hq). rewrite bf_base_full in Hdirty. assert (SI : forall a b : R, Some a = Some b -> a = b) by congruence. apply SI in Hdirty. rewrite <- Hdirty.
    pose proof (bf_quadratic M (r0g q) k (rg q) HM (H0 q) (fun m _ => Hr q m) (sources_csm 0 K k r0g rg pos p) 1 false TrueLocation (noisy_hermitian M K 0 p a)) as Q.
    apply (f_equal re) in Q. rewrite re_RtoC_mul in Q. cbn [re RtoC fst] in Q. rewrite Q, Rmult_1_l. fold (h q).
    change (sources_csm 0 K k r0g rg pos p) with (noisy_csm 0 K p a). rewrite noisy_form, Rmult_0_l, Rplus_0_l. apply rsumn_ext. intros t _. now rewrite PS.
  - destruct st' as [[res clean] i]. exists res, clean, i. auto.
Qed.
Print Assumptions C135_found.

(** 'true level' (the default): one source of strength one at point 0, another
    point with distances 1 and 2.  Whatever [n_iter], the clean map has at least
    36/25 [damp] at the other point. *)
Theorem C135_level_refuted :
  exists (r0g : nat -> R) (rg : nat -> nat -> R) k dirty,
    (forall q, 0 < r0g q) /\ (forall q m, 0 < rg q m) /\ resolved 2 1 k r0g rg (fun s => s) (fun _ => 1)
    /\ (forall q, (q < 2)%nat -> bf_base 2 (sources_csm 0 1 k r0g rg (fun s => s) (fun _ => 1)) (r0g q) k (rg q) false 0 TrueLevel = Some (dirty q))
    /\ forall damp n_iter, 0 < damp -> exists res clean i,
         clean_calc 2 (grid_psf 2 TrueLevel k r0g rg) damp n_iter (Z.to_nat (Z.max 1 n_iter)) dirty = Some (res, clean, i) /\ 36 / 25 * damp <= clean 1%nat.
Proof.
  set (rg := fun q m : nat => if ((q =? 1) && (m =? 1))%nat then 2 else 1).
  assert (Rp : forall q m, 0 < rg q m) by (intros q m; unfold rg; destruct (_ && _)%bool; lra).
  set (dirty := fun q : nat => if (q =? 0)%nat then 1 else 36 / 25).
  assert (T : forall q m, transfer 1 0 (rg q) m = RtoC (1 / rg q m)).
  { intros q m. unfold transfer. cbv zeta. rewrite Rmult_0_l, cos_0, sin_0, Ropp_0. change (1, 0) with (RtoC 1). rewrite <- RtoC_mul, <- RtoC_div by (apply Rgt_not_eq, Rp). f_equal. pose proof (Rp q m). field. lra. }
  exists (fun _ => 1), rg, 0, dirty. split; [intros; lra|]. split; [exact Rp|]. split; [split; [intros; lra|intros; lia]|]. split.
  - intros q Hq. rewrite bf_base_full. f_equal.
    pose proof (bf_quadratic 2 1 0 (rg q) ltac:(lia) ltac:(lra) (fun m _ => Rp q m) (sources_csm 0 1 0 (fun _ => 1) rg (fun s => s) (fun _ => 1)) 1 false TrueLevel
      (noisy_hermitian 2 1 0 (fun _ => 1) (fun s => transfer 1 0 (rg s)))) as Q.
    apply (f_equal re) in Q. rewrite re_RtoC_mul in Q. cbn [re RtoC fst] in Q. rewrite Q, Rmult_1_l.
    change (sources_csm 0 1 0 (fun _ => 1) rg (fun s => s) (fun _ => 1)) with (noisy_csm 0 1 (fun _ => 1) (fun s => transfer 1 0 (rg s))). rewrite noisy_form. cbn [rsumn].
    assert (V : inner 2 (transfer 1 0 (rg 0%nat)) (steer_vector 2 TrueLevel (transfer 1 0 (rg q)))
      = RtoC ((1 / rg q 0%nat + 1 / rg q 1%nat) / (1 / rg q 0%nat * (1 / rg q 0%nat) + 1 / rg q 1%nat * (1 / rg q 1%nat)))).
    { unfold inner, steer_vector. cbn [csum]. rewrite !T. set (u := 1 / rg q 0%nat). set (w := 1 / rg q 1%nat).
      assert (0 < u) by (unfold u; apply Rdiv_lt_0_compat; [lra|auto]). assert (0 < w) by (unfold w; apply Rdiv_lt_0_compat; [lra|auto]).
      replace (C0 + RtoC u * Conj (RtoC u) + RtoC w * Conj (RtoC w))%C with (RtoC (u * u + w * w)) by (rewrite !Conj_RtoC, RtoC_add, !RtoC_mul; ring).
      rewrite <- !RtoC_div by nra. rewrite !Conj_RtoC, <- !RtoC_mul. change C0 with (RtoC 0). rewrite <- !RtoC_add. f_equal. unfold rg at 1 2. cbn [Nat.eqb andb]. field. nra. }
    rewrite V, norm2_RtoC. destruct q as [|[|]]; [| |lia]; unfold rg, dirty; cbn [Nat.eqb andb]; field.
  - intros damp n_iter Pd.
    destruct (clean_terminates 2 (grid_psf 2 TrueLevel 0 (fun _ => 1) rg) damp n_iter (Z.to_nat (Z.max 1 n_iter)) (dirty, fun _ => 0, 0%Z)) as (st' & E & _); [cbn [snd]; lia|lia|].
    assert (AM : argmax 2 dirty = 1%nat) by (apply argmax_unique; [lia|]; intros j Hj N; assert (j = 0%nat) as -> by lia; unfold dirty; cbn [Nat.eqb]; lra).
    assert (P0 : 0 <= maxval 2 (fst (fst (dirty, fun _ : nat => 0, 0%Z)))) by (cbn [fst]; unfold maxval; rewrite AM; unfold dirty; cbn [Nat.eqb]; lra).
    pose proof (clean_keeps 2 _ damp n_iter _ _ st' ltac:(lia) (Rlt_le _ _ Pd) P0 E 1%nat) as L.
    cbn [clean_body fst snd] in L. rewrite AM in L. unfold upd in L. rewrite Nat.eqb_refl in L. unfold dirty in L at 1. cbn [Nat.eqb] in L.
    destruct st' as [[res clean] i]. exists res, clean, i. split; [exact E|]. cbn [fst snd] in L. lra.
Qed.
Print Assumptions C135_level_refuted.

(** Microphones closer to the source than the reference: the amplitude is not
    divided by the point spread function at its maximum.  One source of strength one,
    one point, reference distance 2, microphone distance 1, default damping 0.6: 2.4 for every [n_iter]. *)
Theorem C135_near_refuted : exists (r0 r : R) k dirty, 0 < r0 /\ 0 < r
  /\ bf_base 1 (sources_csm 0 1 k (fun _ => r0) (fun _ _ => r) (fun s => s) (fun _ => 1)) r0 k (fun _ => r) false 0 TrueLocation = Some (dirty 0%nat)
  /\ forall n_iter, exists res clean i,
       clean_calc 1 (grid_psf 1 TrueLocation k (fun _ => r0) (fun _ _ => r)) (3 / 5) n_iter (Z.to_nat (Z.max 1 n_iter)) dirty = Some (res, clean, i)
       /\ clean 0%nat = 12 / 5 /\ i = 1%Z.
Proof.
  exists 2, 1, 0, (fun _ => 4). split; [lra|]. split; [lra|].
  destruct (C133_undisturbed 1 1 0 0 (fun _ => 2) (fun _ _ => 1) (fun s => s) (fun _ => 1) TrueLocation 0 ltac:(lia) ltac:(intros; lra) ltac:(intros; lra) ltac:(lra)
    ltac:(split; [intros; lra|intros; lia]) (or_intror eq_refl) ltac:(lia)) as (_ & B & _). cbv zeta in B.
  assert (SI : forall a b : R, a = b -> Some a = Some b) by congruence.
  split. { rewrite B. apply SI. unfold array_power. cbn [rsumn INR]. field. }
  intros n_iter.
  assert (P : grid_psf 1 TrueLocation 0 (fun _ => 2) (fun _ _ => 1) 0 0 = 4).
  { unfold grid_psf. rewrite psf_is_map by (try lia; intros; lra).
    assert (E : bf_base 1 (monopole_csm 1 (transfer 2 0 (fun _ => 1))) 2 0 (fun _ => 1) false 0 TrueLocation = bf_base 1 (sources_csm 0 1 0 (fun _ => 2) (fun _ _ => 1) (fun s => s) (fun _ => 1)) 2 0 (fun _ => 1) false 0 TrueLocation).
    { rewrite !bf_base_full. f_equal. rewrite (freq_full_order 1 (fun i => i) (order_id 1) 1 (sources_csm 0 1 0 (fun _ => 2) (fun _ _ => 1) (fun s => s) (fun _ => 1)) _ 2 0 (fun _ => 1) (fun _ => 1)); [ring| | |reflexivity].
      - apply (noisy_hermitian 1 1 0 (fun _ => 1) (fun s => transfer 2 0 (fun _ => 1))).
      - intros i j _ _. unfold monopole_csm, sources_csm. cbn [csum]. destruct (i =? j)%nat; change (RtoC 0) with C0; change (RtoC 1) with C1; ring. }
    rewrite bf_base_full, B in E. assert (SJ : forall a b : R, Some a = Some b -> a = b) by congruence. apply SJ in E. rewrite E. unfold array_power. cbn [rsumn INR]. field. }
  destruct (Z.to_nat (Z.max 1 n_iter)) as [|fuel] eqn:F; [lia|]. unfold clean_calc. cbn [clean_loop clean_body argmax maxval].
  set (dirty' := fun p => 4 - grid_psf 1 TrueLocation 0 (fun _ => 2) (fun _ _ => 1) 0 p * (3 / 5 * 4)).
  destruct (Rlt_dec (asum 1 dirty') (asum 1 (fun _ => 4))) as [L|_].
  - exfalso. unfold asum in L. cbn [rsumn] in L. unfold dirty' in L. rewrite P in L. rewrite Rabs_left in L by lra. rewrite (Rabs_right 4) in L by lra. lra.
  - cbn [andb]. do 3 eexists. split; [reflexivity|]. split; [|reflexivity]. unfold upd. cbn [Nat.eqb]. lra.
Qed.
Print Assumptions C135_near_refuted.

(** The hypotheses of the first theorem can be met: two sources of different
    strength on a grid of two points, or one source and another grid point, [damp] = 0.6. *)
Example C135_case :
  (0 < 2)%nat /\ (forall q, 0 < two_r0 q) /\ (forall q m, 0 < two_r q m) /\ resolved 2 2 PI two_r0 two_r (fun s => s) two_p
  /\ (forall s, (s < 2)%nat -> 1 / 2 <= array_power 2 (two_r0 s) (two_r s) / INR 2 /\ 3 / 5 * (array_power 2 (two_r0 s) (two_r s) / INR 2) <= 1)
  /\ (exists dirty, forall q, (q < 2)%nat -> bf_base 2 (sources_csm 0 2 PI two_r0 two_r (fun s => s) two_p) (two_r0 q) PI (two_r q) false 0 TrueLocation = Some (dirty q))
  /\ forall q, (q < 2)%nat -> (forall s, (s < 1)%nat -> q <> s) -> forall z : nat -> C, exists m, (m < 2)%nat /\
       transfer (two_r0 q) PI (two_r q) m <> csum 1 (fun t => z t * transfer (two_r0 t) PI (two_r t) m)%C.
Proof.
  destruct C133_case as (_ & P0 & P1 & A & _). split; [lia|]. do 3 (split; [assumption|]). split.
  - intros s Hs. unfold array_power, two_r0, two_r. change (INR 2) with 2. destruct s as [|[|]]; [| |lia]; cbn [rsumn Nat.eqb]; lra.
  - split; [eexists; intros q Hq; rewrite bf_base_full; reflexivity|].
    intros q Hq N z. assert (q = 1%nat) as -> by (specialize (N 0%nat ltac:(lia)); lia).
    destruct two_transfer as (T00 & T01 & T10 & T11). cbn [csum].
    destruct (C_dec (z 0%nat - RtoC (1 / 2))%C) as [E|D].
    + exists 1%nat. split; [lia|]. rewrite T11, T01. intros X. assert (Z : z 0%nat = RtoC (1 / 2)) by (transitivity (z 0%nat - RtoC (1 / 2) + RtoC (1 / 2))%C; [ring|rewrite E; ring]).
      rewrite Z, <- RtoC_mul in X. change C0 with (RtoC 0) in X. rewrite <- RtoC_add in X. apply RtoC_inj in X. lra.
    + exists 0%nat. split; [lia|]. rewrite T10, T00. intros X. apply D. rewrite X. change (RtoC 1) with C1. ring.
Qed.
