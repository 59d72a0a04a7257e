(** Powers with exponents between zero and one from the functions x/(x+t): if
    weighted sums of x/(x+t) are ordered for all t > 0, so are those of x^s
    (the inequality of Loewner and Heinz).  No function of the repository is modelled here. *)
From Coq Require Import List Arith Lia ZArith Bool Reals Lra Classical_Prop.
From Verif Require Import Cplx Beamform Csm Subspace.
Import ListNotations.
Local Open Scope R_scope.

Lemma rsumn_split a b f : rsumn (a + b) f = rsumn a f + rsumn b (fun i => f (a + i)%nat).
Proof. induction b as [|b IH]; [rewrite Nat.add_0_r; cbn; ring|]. rewrite Nat.add_succ_r. cbn [rsumn]. rewrite IH. ring. Qed.

Section Scale.
  Variables (q s : R).
  Hypotheses (Hq : 1 < q) (Hs0 : 0 < s) (Hs1 : s < 1).

  Definition qz (j : Z) : R := Rpower q (IZR j).
  Definition term (j : Z) (x : R) : R := Rpower q (IZR j * s) * (x / (x + qz j)).
  Definition window (lo : Z) (len : nat) (x : R) : R := rsumn len (fun i => term (lo + Z.of_nat i)%Z x).

  Lemma qz_pos j : 0 < qz j. Proof. apply exp_pos. Qed.
  Lemma term_nonneg j x : 0 <= x -> 0 <= term j x.
  Proof. intros Hx. pose proof (qz_pos j). apply Rmult_le_pos; [apply Rlt_le, exp_pos|]. apply Rle_mult_inv_pos; lra. Qed.
  Lemma term_mono j x y : 0 <= x -> x <= y -> term j x <= term j y.
  Proof.
    intros Hx Hxy. pose proof (qz_pos j) as P. apply Rmult_le_compat_l; [apply Rlt_le, exp_pos|].
    replace (x / (x + qz j)) with (1 - qz j / (x + qz j)) by (field; lra). replace (y / (y + qz j)) with (1 - qz j / (y + qz j)) by (field; lra).
    assert (qz j / (y + qz j) <= qz j / (x + qz j)); [|lra]. apply Rmult_le_compat_l; [lra|]. apply Rinv_le_contravar; lra.
  Qed.
  Lemma window_mono lo len x y : 0 <= x -> x <= y -> window lo len x <= window lo len y.
  Proof. intros. apply rsumn_le. intros. now apply term_mono. Qed.

  (** A power of [q] shifts the window. *)
  Lemma term_scale j i : term j (qz i) = Rpower q (IZR i * s) * term (j - i) 1.
  Proof.
    unfold term. pose proof (qz_pos i). pose proof (qz_pos j).
    assert (E1 : Rpower q (IZR j * s) = Rpower q (IZR i * s) * Rpower q (IZR (j - i) * s)) by (rewrite <- Rpower_plus, minus_IZR; f_equal; ring).
    assert (E2 : qz j = qz i * qz (j - i)) by (unfold qz; rewrite <- Rpower_plus, minus_IZR; f_equal; ring).
    rewrite E1, E2. pose proof (qz_pos (j - i)). assert (0 < qz i * qz (j - i)) by (apply Rmult_lt_0_compat; assumption). field. split; nra.
  Qed.
  Lemma window_scale lo len i : window lo len (qz i) = Rpower q (IZR i * s) * window (lo - i) len 1.
  Proof. unfold window. rewrite <- rsumn_scal. apply rsumn_ext. intros m _. rewrite term_scale. do 2 f_equal. lia. Qed.

  Lemma window_incl lo len lo' len' x : 0 <= x -> (lo' <= lo)%Z -> (lo + Z.of_nat len <= lo' + Z.of_nat len')%Z ->
    window lo len x <= window lo' len' x.
  Proof.
    intros Hx H1 H2. unfold window. set (a := Z.to_nat (lo - lo')). set (b := (len' - (a + len))%nat).
    replace len' with (a + len + b)%nat by lia. rewrite !rsumn_split.
    assert (0 <= rsumn a (fun i => term (lo' + Z.of_nat i) x)) by (apply rsumn_nonneg; intros; now apply term_nonneg).
    assert (0 <= rsumn b (fun i => term (lo' + Z.of_nat (a + len + i)) x)) by (apply rsumn_nonneg; intros; now apply term_nonneg).
    rewrite (rsumn_ext len (fun i => term (lo + Z.of_nat i) x) (fun i => term (lo' + Z.of_nat (a + i)) x)) by (intros; f_equal; lia). lra.
  Qed.

  Lemma geo_bound r N : 0 < r < 1 -> rsumn N (fun i => r ^ i) <= 1 / (1 - r).
  Proof.
    intros [H0 H1]. assert (E : rsumn N (fun i => r ^ i) = (1 - r ^ N) / (1 - r)).
    { induction N as [|N IH]; [cbn; field; lra|]. cbn [rsumn pow]. rewrite IH. field. lra. }
    rewrite E. apply Rmult_le_compat_r; [apply Rlt_le, Rinv_0_lt_compat; lra|]. assert (0 < r ^ N) by now apply pow_lt. lra.
  Qed.
  Lemma geo_bound_rev r N : 0 < r < 1 -> rsumn N (fun i => r ^ (N - i)) <= 1 / (1 - r).
  Proof.
    intros [H0 H1]. assert (E : rsumn N (fun i => r ^ (N - i)) = r * (1 - r ^ N) / (1 - r)).
    { induction N as [|N IH]; [cbn; field; lra|]. cbn [rsumn]. replace (S N - N)%nat with 1%nat by lia.
      rewrite (rsumn_ext N _ (fun i => r * r ^ (N - i))) by (intros i Hi; replace (S N - i)%nat with (S (N - i)) by lia; reflexivity).
      rewrite rsumn_scal, IH. cbn [pow]. field. lra. }
    rewrite E. apply Rmult_le_compat_r; [apply Rlt_le, Rinv_0_lt_compat; lra|]. assert (0 < r ^ N) by now apply pow_lt. assert (0 < r * r ^ N) by now apply Rmult_lt_0_compat. lra.
  Qed.

  Lemma Rpower_q_lt x : x < 0 -> 0 < Rpower q x < 1.
  Proof. intros H. split; [apply exp_pos|]. rewrite <- (Rpower_O q) by lra. apply Rpower_lt; assumption. Qed.

  Lemma window_bounded lo len : window lo len 1 <= 1 / (1 - Rpower q (- s)) + 1 / (1 - Rpower q (s - 1)).
  Proof.
    set (N := (Z.to_nat (Z.abs lo) + len)%nat). apply Rle_trans with (window (- Z.of_nat N) (N + N) 1); [apply window_incl; [lra| |]; lia|].
    unfold window. rewrite rsumn_split. apply Rplus_le_compat.
    - apply Rle_trans with (2 := geo_bound_rev (Rpower q (- s)) N (Rpower_q_lt (- s) ltac:(lra))). apply rsumn_le. intros i Hi. unfold term.
      rewrite <- (Rpower_pow (N - i)) by apply exp_pos. rewrite Rpower_mult. replace (- s * INR (N - i)) with (IZR (- Z.of_nat N + Z.of_nat i) * s).
      2:{ rewrite plus_IZR, opp_IZR, <- !INR_IZR_INZ, minus_INR by lia. ring. }
      set (z := (- Z.of_nat N + Z.of_nat i)%Z). pose proof (qz_pos z). rewrite <- (Rmult_1_r (Rpower q (IZR z * s))) at 2. apply Rmult_le_compat_l; [apply Rlt_le, exp_pos|].
      apply (Rmult_le_reg_r (1 + qz z)); [lra|]. unfold Rdiv. rewrite Rmult_assoc, Rinv_l by lra. lra.
    - apply Rle_trans with (2 := geo_bound (Rpower q (s - 1)) N (Rpower_q_lt (s - 1) ltac:(lra))). apply rsumn_le. intros i Hi. unfold term.
      replace (- Z.of_nat N + Z.of_nat (N + i))%Z with (Z.of_nat i) by lia.
      rewrite <- (Rpower_pow i) by apply exp_pos. rewrite Rpower_mult. rewrite <- INR_IZR_INZ. replace ((s - 1) * INR i) with (INR i * s + - INR i) by ring.
      rewrite Rpower_plus. apply Rmult_le_compat_l; [apply Rlt_le, exp_pos|]. rewrite Rpower_Ropp. unfold qz. rewrite <- INR_IZR_INZ.
      unfold Rdiv. rewrite Rmult_1_l. apply Rinv_le_contravar; [apply exp_pos|]. pose proof (exp_pos (INR i * ln q)). unfold Rpower. lra.
  Qed.

  (** The least upper bound of all windows. *)
  Lemma total : exists L, 0 < L /\ (forall lo len, window lo len 1 <= L)
    /\ forall eps, 0 < eps -> exists lo len, L - eps < window lo len 1.
  Proof.
    destruct (completeness (fun y => exists lo len, y = window lo len 1)) as [L [U M]].
    - exists (1 / (1 - Rpower q (- s)) + 1 / (1 - Rpower q (s - 1))). intros y (lo & len & ->). apply window_bounded.
    - exists (window 0 0 1), 0%Z, 0%nat. reflexivity.
    - exists L. assert (U' : forall lo len, window lo len 1 <= L) by (intros lo len; apply U; eauto). split; [|split; [exact U'|]].
      + apply Rlt_le_trans with (2 := U' 0%Z 1%nat). unfold window. cbn [rsumn]. rewrite Rplus_0_l. unfold term. apply Rmult_lt_0_compat; [apply exp_pos|]. apply Rdiv_lt_0_compat; [lra|]. pose proof (qz_pos (0 + Z.of_nat 0)). lra.
      + intros eps He. apply Classical_Prop.NNPP. intros W.
        assert (L <= L - eps); [|lra]. apply M. intros y (lo & len & ->). apply Rnot_lt_le. intros X. apply W. exists lo, len. exact X.
  Qed.
End Scale.

Lemma eventually_all n (P : nat -> nat -> Prop) : (forall e, (e < n)%nat -> exists N0, forall N, (N0 <= N)%nat -> P e N) ->
  exists N, forall e, (e < n)%nat -> P e N.
Proof.
  intros H. assert (G : exists N0, forall e N, (e < n)%nat -> (N0 <= N)%nat -> P e N).
  { induction n as [|n IH]; [exists 0%nat; intros; lia|]. destruct IH as [N1 H1]; [intros; apply H; lia|]. destruct (H n ltac:(lia)) as [N2 H2].
    exists (Nat.max N1 N2). intros e N He HN. destruct (Nat.eq_dec e n) as [->|]; [apply H2; lia|apply H1; lia]. }
  destruct G as [N0 G]. exists N0. intros e He. apply G; [exact He|lia].
Qed.

Section Bounds.
  Variables (q s : R).
  Hypotheses (Hq : 1 < q) (Hs0 : 0 < s) (Hs1 : s < 1).

  Lemma bracket x : 0 < x -> exists i, qz q i <= x <= qz q (i + 1).
  Proof.
    intros Hx. assert (Lq : 0 < ln q) by (rewrite <- ln_1; apply ln_increasing; lra). set (y := ln x / ln q). exists (Int_part y).
    destruct (base_Int_part y) as [B1 B2]. assert (E : x = exp (y * ln q)) by (unfold y, Rdiv; rewrite Rmult_assoc, Rinv_l, Rmult_1_r by lra; now rewrite exp_ln).
    assert (M : forall a b, a <= b -> exp (a * ln q) <= exp (b * ln q)).
    { intros a b [L | ->]; [|lra]. apply Rlt_le, exp_increasing. nra. }
    unfold qz, Rpower. rewrite E at 1 2. split; apply M; [lra|]. rewrite plus_IZR. lra.
  Qed.

  Lemma qz_power i : Rpower q (IZR i * s) = npow (qz q i) s.
  Proof. unfold npow. destruct (Req_EM_T (qz q i) 0) as [E|_]; [pose proof (qz_pos q i); lra|]. unfold qz. now rewrite Rpower_mult. Qed.
  Lemma qz_next i : npow (qz q (i + 1)) s = Rpower q s * npow (qz q i) s.
  Proof. rewrite <- !qz_power, <- Rpower_plus. f_equal. rewrite plus_IZR. ring. Qed.
  Lemma window_0 lo len : window q s lo len 0 = 0.
  Proof. apply rsumn_0. intros. unfold term, Rdiv. ring. Qed.

  Lemma window_upper L lo len x : (forall lo len, window q s lo len 1 <= L) -> 0 <= x -> 0 <= L ->
    window q s lo len x <= Rpower q s * L * npow x s.
  Proof.
    intros U Hx HL. destruct (Req_dec x 0) as [->|N]; [rewrite window_0, npow_0; lra|]. destruct (bracket x ltac:(lra)) as (i & B1 & B2).
    apply Rle_trans with (1 := window_mono q s lo len x _ Hx B2). rewrite window_scale by assumption. rewrite qz_power, qz_next.
    pose proof (qz_pos q i). pose proof (npow_le (qz q i) x s ltac:(lra) B1 Hs0) as P. pose proof (npow_nonneg (qz q i) s). pose proof (exp_pos (s * ln q)) as E. fold (Rpower q s) in E.
    apply Rle_trans with (Rpower q s * npow (qz q i) s * L); [apply Rmult_le_compat_l; [apply Rmult_le_pos; lra|apply U]|].
    replace (Rpower q s * L * npow x s) with (Rpower q s * npow x s * L) by ring. apply Rmult_le_compat_r; [exact HL|]. apply Rmult_le_compat_l; lra.
  Qed.

  Lemma window_lower D x : 0 <= D -> (exists lo len, D <= window q s lo len 1) -> 0 <= x ->
    exists N0, forall N, (N0 <= N)%nat -> D * npow x s <= Rpower q s * window q s (- Z.of_nat N) (N + N) x.
  Proof.
    intros HD (lo & len & HW) Hx. destruct (Req_dec x 0) as [->|N]; [exists 0%nat; intros; rewrite window_0, npow_0; lra|]. destruct (bracket x ltac:(lra)) as (i & B1 & B2).
    exists (Z.to_nat (Z.abs lo) + len + Z.to_nat (Z.abs i))%nat. intros N0 HN. pose proof (qz_pos q i) as Pi. pose proof (exp_pos (s * ln q)) as E. fold (Rpower q s) in E.
    apply Rle_trans with (Rpower q s * window q s (- Z.of_nat N0) (N0 + N0) (qz q i)).
    - rewrite window_scale by assumption. rewrite qz_power.
      pose proof (window_incl q s lo len (- Z.of_nat N0 - i) (N0 + N0) 1 ltac:(lra) ltac:(lia) ltac:(lia)) as I1.
      pose proof (npow_le x (qz q (i + 1)) s Hx B2 Hs0) as P. rewrite qz_next in P. pose proof (npow_nonneg (qz q i) s) as P2.
      apply Rle_trans with (D * (Rpower q s * npow (qz q i) s)); [now apply Rmult_le_compat_l|].
      replace (Rpower q s * (npow (qz q i) s * window q s (- Z.of_nat N0 - i) (N0 + N0) 1)) with (window q s (- Z.of_nat N0 - i) (N0 + N0) 1 * (Rpower q s * npow (qz q i) s)) by ring.
      apply Rmult_le_compat_r; [apply Rmult_le_pos; lra|lra].
    - apply Rmult_le_compat_l; [lra|]. apply window_mono; lra.
  Qed.
End Bounds.

Section Order.
  Variables (n : nat) (al la be mu : nat -> R) (s : R).
  Hypotheses (Hs0 : 0 < s) (Hs1 : s < 1)
    (Hal : forall e, (e < n)%nat -> 0 <= al e) (Hbe : forall e, (e < n)%nat -> 0 <= be e)
    (Hla : forall e, (e < n)%nat -> 0 <= la e) (Hmu : forall e, (e < n)%nat -> 0 <= mu e)
    (Hord : forall t, 0 < t -> rsumn n (fun e => al e * (la e / (la e + t))) <= rsumn n (fun e => be e * (mu e / (mu e + t)))).
  Let X := rsumn n (fun e => al e * npow (la e) s).
  Let Y := rsumn n (fun e => be e * npow (mu e) s).

  Lemma window_order q lo len : 1 < q -> rsumn n (fun e => al e * window q s lo len (la e)) <= rsumn n (fun e => be e * window q s lo len (mu e)).
  Proof.
    intros Hq.
    assert (E : forall (w v : nat -> R), rsumn n (fun e => w e * window q s lo len (v e))
      = rsumn len (fun i => Rpower q (IZR (lo + Z.of_nat i) * s) * rsumn n (fun e => w e * (v e / (v e + qz q (lo + Z.of_nat i)))))).
    { intros w v. unfold window. rewrite (rsumn_ext n _ (fun e => rsumn len (fun i => w e * term q s (lo + Z.of_nat i) (v e)))) by (intros; now rewrite rsumn_scal).
      rewrite rsumn_swap. apply rsumn_ext. intros i _. rewrite <- rsumn_scal. apply rsumn_ext. intros e _. unfold term. ring. }
    rewrite !E. apply rsumn_le. intros i _. apply Rmult_le_compat_l; [apply Rlt_le, exp_pos|]. apply Hord, qz_pos.
  Qed.

  Lemma XY_nonneg : 0 <= X /\ 0 <= Y.
  Proof. split; apply rsumn_nonneg; intros; apply Rmult_le_pos; auto using npow_nonneg. Qed.

  Lemma order_q q : 1 < q -> X <= Rpower q (2 * s) * Y.
  Proof.
    intros Hq. destruct (total q s Hq Hs0 Hs1) as (L & PL & U & A). destruct XY_nonneg as [X0 Y0]. pose proof (exp_pos (s * ln q)) as E. fold (Rpower q s) in E.
    assert (G : forall D, 0 <= D -> D < L -> D * X <= Rpower q s * (Rpower q s * L * Y)).
    { intros D HD HDL. destruct (A (L - D) ltac:(lra)) as (lo & len & W).
      destruct (eventually_all n (fun e N => D * npow (la e) s <= Rpower q s * window q s (- Z.of_nat N) (N + N) (la e))) as [N HN].
      { intros e He. apply window_lower; auto. exists lo, len. lra. }
      apply Rle_trans with (Rpower q s * rsumn n (fun e => al e * window q s (- Z.of_nat N) (N + N) (la e))).
      - unfold X. rewrite <- !rsumn_scal. apply rsumn_le. intros e He. specialize (HN e He).
        replace (D * (al e * npow (la e) s)) with (al e * (D * npow (la e) s)) by ring.
        replace (Rpower q s * (al e * window q s (- Z.of_nat N) (N + N) (la e))) with (al e * (Rpower q s * window q s (- Z.of_nat N) (N + N) (la e))) by ring.
        apply Rmult_le_compat_l; auto.
      - apply Rmult_le_compat_l; [lra|]. apply Rle_trans with (1 := window_order q _ _ Hq). unfold Y. rewrite <- rsumn_scal. apply rsumn_le. intros e He.
        replace (Rpower q s * L * (be e * npow (mu e) s)) with (be e * (Rpower q s * L * npow (mu e) s)) by ring.
        apply Rmult_le_compat_l; [auto|]. apply window_upper; auto. lra. }
    assert (G2 : L * X <= Rpower q s * (Rpower q s * L * Y)).
    { apply Rnot_lt_le. intros C. set (Z := Rpower q s * (Rpower q s * L * Y)) in *. assert (Z0 : 0 <= Z) by (unfold Z; repeat apply Rmult_le_pos; lra).
      assert (XP : 0 < X) by nra. set (D := (L + Z / X) / 2). assert (Z / X < L) by (apply (Rmult_lt_reg_r X); [exact XP|]; unfold Rdiv; rewrite Rmult_assoc, Rinv_l by lra; lra).
      assert (0 <= Z / X) by (apply Rle_mult_inv_pos; assumption). specialize (G D ltac:(unfold D; lra) ltac:(unfold D; lra)).
      assert (Z = Z / X * X) by (field; lra). unfold D in G. nra. }
    replace (2 * s) with (s + s) by ring. rewrite Rpower_plus. apply (Rmult_le_reg_l L); [exact PL|]. apply Rle_trans with (1 := G2). right. ring.
  Qed.

  Theorem heinz : X <= Y.
  Proof.
    destruct XY_nonneg as [X0 Y0]. apply le_epsilon. intros eps He.
    assert (0 < 1 + Y) by lra. set (eta := eps / (1 + Y)). assert (Pe : 0 < eta) by (apply Rdiv_lt_0_compat; lra).
    pose proof (order_q (Rpower (1 + eta) (/ (2 * s)))) as O. rewrite Rpower_mult, Rinv_l, Rpower_1 in O by lra.
    assert (1 < Rpower (1 + eta) (/ (2 * s))).
    { apply Rle_lt_trans with (Rpower (1 + eta) 0); [rewrite Rpower_O; lra|]. apply Rpower_lt; [lra|]. apply Rinv_0_lt_compat. lra. }
    specialize (O H0). assert (eta * Y <= eps); [|lra]. assert (eta * (1 + Y) = eps) by (unfold eta; field; lra). nra.
  Qed.
End Order.
