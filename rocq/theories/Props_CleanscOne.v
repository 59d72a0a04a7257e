(** C117: CLEAN-SC on the data of one source. *)
From Coq Require Import List Arith Lia ZArith Bool Reals Lra.
From Verif Require Import Cplx Beamform Deconv CleanscOne.
Import ListNotations.
Local Open Scope R_scope.

(** One source at grid point [xi]: [a] its transfer vector, [w] the steering
    vector of this point.  The cross spectra of different microphones are those
    of the source; the autospectra may contain anything (noise of the single
    microphones).  [top] is the value of the map at the source, its maximum.

    C117.  One pass finds the source and removes it: the clean map is
    damp * top at the source and zero elsewhere, and all cross spectra shrink
    by the factor 1 - damp, up to a relative error of [((3 rho + rho^2)/(1 - rho))^20],
    where rho is the largest fraction of the weights that one microphone has
    (1/n if all are at the same distance); rho must not exceed one fifth, and
    the vector the iteration starts from not twice the power of the source. *)
Theorem C117_removed_partial n g k r0g rg st nf damp p2 xi csm rho stopn :
  (0 < n)%nat -> 0 < r0g xi -> (forall m, (m < n)%nat -> 0 < rg xi m) -> 0 < nf -> 0 < p2 -> (0 <= stopn)%Z ->
  let a := transfer (r0g xi) k (rg xi) in
  let w := steer_vector n st a in
  (forall i j, (i < n)%nat -> (j < n)%nat -> i <> j -> csm i j = (RtoC p2 * a i * Conj (a j))%C) ->
  let map := bf_map n k r0g rg st true nf csm in
  let top := map xi in
  argmax g map = xi -> 0 < top ->
  0 <= rho <= 1 / 5 ->
  (forall m, (m < n)%nat -> Cabs (w m) * Cabs (a m) <= rho * rsumn n (fun j => Cabs (w j) * Cabs (a j))) ->
  (forall m, (m < n)%nat -> nf * norm2 (w m) * top <= 2 * (p2 * norm2 (a m))) ->
  let s := cleansc n g k r0g rg st true nf damp stopn 1 csm in
  (forall p, sc_result s p = if (p =? xi)%nat then damp * top else 0)
  /\ forall i j, (i < n)%nat -> (j < n)%nat -> i <> j ->
     exists e, Rabs e <= ((3 * rho + rho * rho) / (1 - rho)) ^ 20
       /\ sc_csm s i j = (RtoC (1 - damp * (1 + e)) * csm i j)%C.
Proof.
  intros Hn H0 Hr Hnf Hp Hst a w Hc map top Hx Ht Hrho Hsh H1.
  exact (first_pass n g k r0g rg st nf damp p2 xi H0 Hr Hnf Hp csm rho stopn Hn Hst Hc Hx Ht Hrho Hsh H1).
Qed.
Print Assumptions C117_removed_partial.

(** C117.  Source at the same distance from all microphones (in the middle of
    an array of rings), diagonal removed, any number [J] of passes: the clean
    map has the level of the source at its point and is zero elsewhere, but for
    the part (1 - damp)^J not yet removed and an error of the order of n^-20. *)
Theorem C117_ring n g k r0g rg st nf damp p2 xi d stopn csm :
  (1 < n)%nat -> 0 < r0g xi -> 0 < d -> (forall m, (m < n)%nat -> rg xi m = d) -> 0 < nf -> 0 < p2 -> (0 <= stopn)%Z ->
  0 < damp <= 1 ->
  let a := transfer (r0g xi) k (rg xi) in
  let w := steer_vector n st a in
  (forall i j, (i < n)%nat -> (j < n)%nat -> i <> j -> csm i j = (RtoC p2 * a i * Conj (a j))%C) ->
  let map := bf_map n k r0g rg st true nf csm in
  let top := map xi in
  argmax g map = xi ->
  (forall m, (m < n)%nat -> nf * norm2 (w m) * top < p2 * norm2 (a m)) ->
  exists y, 1 - / INR n ^ 20 <= y < 1
  /\ forall J, let s := cleansc n g k r0g rg st true nf damp stopn J csm in
       (forall p, sc_result s p = if (p =? xi)%nat then top * ((1 - (1 - damp * y) ^ J) / y) else 0)
       /\ (forall p, sc_h s p = (1 - damp * y) ^ J * map p).
Proof.
  intros Hn H0 Hd Heq Hnf Hp Hst Hda a w Hc map top Hx Hw.
  exact (ring_rdiag n g k r0g rg st nf damp p2 xi d stopn Hn H0 Hd Heq Hnf Hp Hst Hda csm Hc Hx Hw).
Qed.
Print Assumptions C117_ring.

(** C117, false without diagonal removal: the inner iteration drops the
    diagonal whatever r_diag is, so that each pass removes at most the
    fraction n/(n+1) of what it adds to the clean map.  With enough passes the
    level of the source is too large by more than 1/(2n) of it. *)
Theorem C117_full_partial n g k r0g rg st damp p2 xi d stopn csm :
  (1 < n)%nat -> 0 < r0g xi -> 0 < d -> (forall m, (m < n)%nat -> rg xi m = d) -> 0 < p2 -> (0 <= stopn)%Z ->
  0 < damp <= 1 ->
  let a := transfer (r0g xi) k (rg xi) in
  let w := steer_vector n st a in
  (forall i j, (i < n)%nat -> (j < n)%nat -> csm i j = (RtoC p2 * a i * Conj (a j))%C) ->
  let map := bf_map n k r0g rg st false 1 csm in
  let top := map xi in
  argmax g map = xi -> 0 < top ->
  (forall m, (m < n)%nat -> norm2 (w m) * top <= p2 * norm2 (a m)) ->
  exists J0, forall J, (J0 <= J)%nat ->
    let s := cleansc n g k r0g rg st false 1 damp stopn J csm in
    (1 + / (2 * INR n)) * top < sc_result s xi /\ forall p, p <> xi -> sc_result s p = 0.
Proof.
  intros Hn H0 Hd Heq Hp Hst Hda a w Hc map top Hx Ht Hw.
  destruct (ring_full n g k r0g rg st damp p2 xi d stopn Hn H0 Hd Heq Hp Hst Hda csm Hc Hx Hw) as (y & Hy & H).
  assert (HN : 1 < INR n) by (change 1 with (INR 1); apply lt_INR; lia).
  assert (Hy1 : INR n / (INR n + 1) < 1).
  { apply Rmult_lt_reg_r with (INR n + 1); [lra|]. unfold Rdiv. rewrite Rmult_assoc, Rinv_l; lra. }
  assert (Hc1 : Rabs (1 - damp * y) < 1).
  { assert (0 < damp * y) by (apply Rmult_lt_0_compat; lra). assert (damp * y < 1) by nra. rewrite Rabs_right; lra. }
  destruct (pow_lt_1_zero (1 - damp * y) Hc1 (/ (2 * (INR n + 1)))) as [J0 HJ].
  { apply Rinv_0_lt_compat. lra. }
  exists J0. intros J HJ0. destruct (H J) as [H1 _]. cbv zeta. split.
  - rewrite (H1 xi), Nat.eqb_refl. pose proof (HJ J HJ0) as HP.
    set (q := (1 - damp * y) ^ J) in *.
    assert (Hq : q < / (2 * (INR n + 1))) by (apply Rle_lt_trans with (2 := HJ J HJ0), Rle_abs).
    fold top. rewrite (Rmult_comm _ top). apply Rmult_lt_compat_l; [exact Ht|].
    assert (Hb : (INR n + 1) / INR n <= / y).
    { apply Rmult_le_reg_r with (y * INR n); [apply Rmult_lt_0_compat; lra|].
      replace ((INR n + 1) / INR n * (y * INR n)) with (y * (INR n + 1)) by (field; lra).
      replace (/ y * (y * INR n)) with (INR n) by (field; lra).
      destruct Hy as [_ Hy]. apply (Rmult_le_compat_r (INR n + 1)) in Hy; [|lra].
      unfold Rdiv in Hy. rewrite Rmult_assoc, Rinv_l, Rmult_1_r in Hy by lra. exact Hy. }
    assert (Hq1 : 1 - / (2 * (INR n + 1)) < 1 - q) by lra.
    assert (Hq0 : 0 < 1 - / (2 * (INR n + 1))).
    { assert (/ (2 * (INR n + 1)) < 1); [|lra]. rewrite <- Rinv_1. apply Rinv_lt_contravar; lra. }
    assert (Hi : 0 < / INR n) by (apply Rinv_0_lt_compat; lra).
    apply Rlt_le_trans with ((1 - q) * ((INR n + 1) / INR n)).
    + apply Rle_lt_trans with ((1 - / (2 * (INR n + 1))) * ((INR n + 1) / INR n)); [right; field; lra|].
      apply Rmult_lt_compat_r; [|exact Hq1]. unfold Rdiv. apply Rmult_lt_0_compat; lra.
    + unfold Rdiv at 2. apply Rmult_le_compat_l; lra.
  - intros p Hne. rewrite (H1 p). apply Nat.eqb_neq in Hne. now rewrite Hne.
Qed.
Print Assumptions C117_full_partial.

(** The values at one grid point with two microphones at the distance one. *)
Lemma one_value : bf_map 2 0 (fun _ => 1) (fun _ _ => 1) TrueLevel false 1 (fun _ _ => C1) 0 = 1.
Proof.
  unfold bf_map, freq_full, normalize, help_normalize, scalar_prod, steer_raw. cbn [rsumn csum INR fst].
  rewrite Rmult_0_l, cos_0, sin_0. unfold Cdiv, Cinv, re, Conj, RtoC, norm2, Cadd, Cmul, C1, C0. cbn [fst snd]. field.
Qed.

(** C117, false with r_diag = False: all other parameters with their default
    values (n_iter = 0: twice the number of channels; damp = 0.6; stopn = 3;
    steer_type 'true level'), two microphones, one source of power 1 that the
    conventional map shows with power 1: the clean map has more than 1.3. *)
Theorem C117_full_refuted : exists n k r0g rg csm,
  (forall i j, csm i j = (RtoC 1 * transfer (r0g 0%nat) k (rg 0%nat) i * Conj (transfer (r0g 0%nat) k (rg 0%nat) j))%C)
  /\ bf_base n csm (r0g 0%nat) k (rg 0%nat) false 0 TrueLevel = Some 1
  /\ 13 / 10 < sc_result (cleansc n 1 k r0g rg TrueLevel false 1 (6 / 10) 3 (n * 2) csm) 0.
Proof.
  exists 2%nat, 0, (fun _ => 1), (fun _ _ => 1), (fun _ _ => C1).
  assert (E : forall m, transfer 1 0 (fun _ => 1) m = C1).
  { intros m. unfold transfer. rewrite Rmult_0_l, cos_0, sin_0.
    unfold Cdiv, Cinv, C1, Cmul, RtoC, norm2. cbn [fst snd]. f_equal; field. }
  split; [intros i j; cbv beta; rewrite !E; unfold C1, Cmul, RtoC, Conj; cbn [fst snd]; f_equal; ring|].
  split; [unfold bf_base, sig_loss_norm, clip_neg; f_equal; exact one_value|].
  destruct (ring_full 2 1 0 (fun _ => 1) (fun _ _ => 1) TrueLevel (6/10) 1 0 1 3 ltac:(lia) ltac:(lra) ltac:(lra)
    ltac:(reflexivity) ltac:(lra) ltac:(lia) ltac:(lra) (fun _ _ => C1)) as (y & Hy & H).
  - intros i j _ _. rewrite !E. unfold C1, Cmul, RtoC, Conj. cbn [fst snd]. f_equal; ring.
  - reflexivity.
  - intros m Hm. rewrite one_value. unfold steer_vector. cbv zeta. cbn [csum]. rewrite !E.
    unfold Cdiv, Cinv, norm2, Cmul, Cadd, Conj, C1, C0. cbn [fst snd]. match goal with |- ?x * 1 <= ?y => replace x with (1 / 4) by field; replace y with 1 by ring; lra end.
  - destruct (H 4%nat) as [H1 _]. change (2 * 2)%nat with 4%nat. rewrite (H1 0%nat), one_value. cbn [Nat.eqb].
    cbn [INR] in Hy.
    replace (1 * ((1 - (1 - 6 / 10 * y) ^ 4) / y))
      with (6 / 10 * (1 + (1 - 6 / 10 * y) + (1 - 6 / 10 * y) ^ 2 + (1 - 6 / 10 * y) ^ 3)) by (field; lra).
    set (c := 1 - 6 / 10 * y). assert (Hc : 6 / 10 <= c <= 1) by (unfold c; lra).
    assert (c * c >= 36 / 100) by nra. assert (c * (c * c) >= 216 / 1000) by nra. cbn [pow]. lra.
Qed.
Print Assumptions C117_full_refuted.

(** Six microphones at distances 1, 1.1, ..., 1.5 and noise in the microphones:
    formulation 'inverse', 'true level' of the source 2. *)
Example C117_case :
  let r := fun m : nat => 1 + INR m / 10 in
  let a := transfer 1 7 r in
  let csm := fun i j => if (i =? j)%nat then RtoC 100 else (RtoC 2 * a i * Conj (a j))%C in
  let s := cleansc 6 1 7 (fun _ => 1) (fun _ => r) Inverse true (6 / 5) (6 / 10) 3 1 csm in
  sc_result s 0 = 12 / 10
  /\ forall i j, (i < 6)%nat -> (j < 6)%nat -> i <> j -> exists e, Rabs e <= 1 / 10
       /\ sc_csm s i j = (RtoC (4 / 10 + e) * csm i j)%C.
Proof.
  intros r a csm s.
  assert (Hr : forall m, (m < 6)%nat -> 1 <= r m <= 3 / 2).
  { intros m Hm. unfold r. assert (0 <= INR m <= 5); [|lra]. split; [apply pos_INR|].
    replace 5 with (INR 5) by (cbn; lra). apply le_INR. lia. }
  assert (Ha : forall m, (m < 6)%nat -> norm2 (a m) = / (r m * r m)).
  { intros m Hm. unfold a. rewrite transfer_norm2 by (pose proof (Hr m Hm); lra). pose proof (Hr m Hm). field. lra. }
  assert (Ha0 : forall m, (m < 6)%nat -> a m <> C0).
  { intros m Hm. apply transfer_neq0; [lra|pose proof (Hr m Hm); lra]. }
  assert (Hc : forall i j, (i < 6)%nat -> (j < 6)%nat -> i <> j -> csm i j = (RtoC 2 * a i * Conj (a j))%C).
  { intros i j _ _ Hij. unfold csm. apply Nat.eqb_neq in Hij. now rewrite Hij. }
  assert (Hg : forall m, (m < 6)%nat -> Cabs (steer_vector 6 Inverse a m) * Cabs (a m) = 1 / 6).
  { intros m Hm. rewrite (Cabs_gain 6 Inverse a m Hm Ha0). cbn [gain]. pose proof (norm2_pos _ (Ha0 m Hm)).
    cbn [INR]. field. lra. }
  assert (Ht : bf_map 6 7 (fun _ => 1) (fun _ => r) Inverse true (6 / 5) csm 0 = 2).
  { rewrite (value_rdiag 6 7 (fun _ => 1) (fun _ => r) Inverse (6 / 5) 2 0) by
      (try lia; try lra; try (intros m Hm; pose proof (Hr m Hm); lra); exact Hc).
    rewrite (rsumn_ext 6 _ (fun _ => sqrt (6 / 5) / 6)).
    2:{ intros m Hm. fold a. rewrite Rmult_assoc, <- (Cabs_gain 6 Inverse a m Hm Ha0), (Hg m Hm). field. }
    rewrite rsumn_const. rewrite (rsumn_ext 6 _ (fun _ => (6 / 5) / 36)).
    2:{ intros m Hm. fold a. assert (E : gain 6 Inverse a m * norm2 (a m) = 1 / 6)
          by (rewrite <- (Cabs_gain 6 Inverse a m Hm Ha0); now apply Hg).
        transitivity (sqrt (6 / 5) * sqrt (6 / 5) * ((gain 6 Inverse a m * norm2 (a m)) * (gain 6 Inverse a m * norm2 (a m)))); [ring|].
        rewrite E, sqrt_sqrt by lra. field. }
    rewrite rsumn_const. replace (INR 6) with 6 by (cbn; lra).
    replace (2 * (6 * (sqrt (6 / 5) / 6) * (6 * (sqrt (6 / 5) / 6)) - 6 * (6 / 5 / 36)))
      with (2 * (sqrt (6 / 5) * sqrt (6 / 5) - 6 * (6 / 5 / 36))) by field.
    rewrite sqrt_sqrt by lra. field. }
  destruct (C117_removed_partial 6 1 7 (fun _ => 1) (fun _ => r) Inverse (6 / 5) (6 / 10) 2 0 csm (1 / 6) 3) as [H1 H2];
    try lia; try lra.
  - intros m Hm. pose proof (Hr m Hm). lra.
  - exact Hc.
  - reflexivity.
  - intros m Hm. fold a. rewrite (Hg m Hm). rewrite (rsumn_ext 6 _ (fun _ => 1 / 6)) by (intros j Hj; now apply Hg).
    rewrite rsumn_const. replace (INR 6) with 6 by (cbn; lra). lra.
  - intros m Hm. rewrite Ht. fold a. rewrite (norm2_gain 6 Inverse a m Hm Ha0). cbn [gain].
    rewrite (Ha m Hm). pose proof (Hr m Hm). replace (INR 6) with 6 by (cbn; lra).
    assert (Hx : 1 <= r m * r m <= 9 / 4) by nra. set (x := r m * r m) in *.
    rewrite Rinv_inv. replace (6 / 5 * (x * / 6 * (x * / 6) * / x) * 2) with (x / 15) by (field; lra).
    assert (4 / 9 <= / x). { replace (4 / 9) with (/ (9 / 4)) by field. apply Rinv_le_contravar; lra. } lra.
  - fold s in H1, H2. rewrite Ht in H1. split; [rewrite (H1 0%nat); cbn [Nat.eqb]; lra|].
    intros i j Hi Hj Hij. destruct (H2 i j Hi Hj Hij) as (e & He & E). exists (- (6 / 10 * e)). split.
    + rewrite Rabs_Ropp, Rabs_mult, (Rabs_right (6 / 10)) by lra.
      assert (Hp : ((3 * (1 / 6) + 1 / 6 * (1 / 6)) / (1 - 1 / 6)) ^ 20 <= (64 / 100) ^ 20) by (apply pow_incr; lra).
      assert (Hq : (64 / 100) ^ 20 <= 1 / 10).
      { replace 20%nat with (5 + 15)%nat by lia. rewrite pow_add.
        assert ((64 / 100) ^ 15 <= 1) by (rewrite <- (pow1 15); apply pow_incr; lra).
        assert (0 <= (64 / 100) ^ 15) by (apply pow_le; lra).
        assert ((64 / 100) ^ 5 <= 11 / 100) by (cbn [pow]; lra).
        assert (Hz : (64 / 100) ^ 15 <= (64 / 100) ^ 5) by
          (replace 15%nat with (5 + 10)%nat by lia; rewrite pow_add;
           assert ((64 / 100) ^ 10 <= 1) by (rewrite <- (pow1 10); apply pow_incr; lra);
           assert (0 <= (64 / 100) ^ 10) by (apply pow_le; lra);
           assert (0 <= (64 / 100) ^ 5) by (apply pow_le; lra); nra).
        assert (0 <= (64 / 100) ^ 5) by (apply pow_le; lra). nra. }
      lra.
    + rewrite E. f_equal. f_equal. lra.
Qed.
