(** Frequency response of cascades of second-order sections (the filters of
    /repo/acoular/tprocess.py:1442-1481, sosfilt starting at rest).  Proof files
    only: nothing here models further code. *)
From Coq Require Import List Arith Lia ZArith Bool Reals Lra.
From Verif Require Import Stream Cplx BlockOps.
Import ListNotations.
Local Open Scope R_scope.

(** Transfer function, [w] is one delay. *)
Definition sec_num (c : section) (w : C) : C :=
  Cadd (RtoC (b0 c)) (Cadd (Cmul (RtoC (b1 c)) w) (Cmul (RtoC (b2 c)) (Cmul w w))).
Definition sec_den (c : section) (w : C) : C :=
  Cadd C1 (Cadd (Cmul (RtoC (a1 c)) w) (Cmul (RtoC (a2 c)) (Cmul w w))).
Fixpoint transfer (sos : list section) (w : C) : C :=
  match sos with
  | [] => C1
  | c :: r => Cmul (Cdiv (sec_num c w) (sec_den c w)) (transfer r w)
  end.
(** No pole on or outside the unit circle. *)
Definition stable (sos : list section) : Prop :=
  forall c w, In c sos -> Cabs w <= 1 -> sec_den c w <> C0.

(* ------------------------------------------------------------------ *)
(** * Recursions with one complex pole *)

Definition lag (f : nat -> C) (n : nat) : C := match n with O => C0 | S m => f m end.

Lemma one_pole_bound p K rho : Cabs p < 1 -> 0 <= K -> 0 < rho < 1 ->
  exists K' rho', 0 <= K' /\ rho <= rho' < 1 /\
    forall N (r d : nat -> C), (forall n, (n < N)%nat -> Cabs (r n) <= K * rho ^ n) ->
      (forall n, (n < N)%nat -> d n = Cadd (r n) (Cmul p (lag d n))) ->
      forall n, (n < N)%nat -> Cabs (d n) <= K' * rho' ^ n.
Proof.
  intros Hp HK Hr. set (m := Rmax (Cabs p) rho). assert (Hm : m < 1) by (apply Rmax_lub_lt; lra).
  assert (Hpm : Cabs p <= m) by apply Rmax_l. assert (Hrm : rho <= m) by apply Rmax_r.
  set (q := (m + 1) / 2). assert (Hq : m < q < 1) by (unfold q; lra). pose proof (Cabs_nonneg p) as P0.
  set (K' := K * (q / (q - Cabs p))).
  assert (Hd : 0 < q - Cabs p) by lra.
  assert (HK' : K' * (q - Cabs p) = K * q) by (unfold K'; field; lra).
  assert (Hf : 1 <= q / (q - Cabs p)).
  { apply Rmult_le_reg_r with (q - Cabs p); [exact Hd|]. replace (q / (q - Cabs p) * (q - Cabs p)) with q by (field; lra). lra. }
  assert (HKK : K <= K') by (unfold K'; nra).
  exists K', q. split; [lra|]. split; [lra|].
  intros N r d Hb Hrec. induction n as [|n IH]; intros Hn.
  - rewrite Hrec by exact Hn. cbn [lag pow].
    replace (Cadd (r 0%nat) (Cmul p C0)) with (r 0%nat) by ring.
    specialize (Hb 0%nat Hn). cbn [pow] in Hb. lra.
  - rewrite Hrec by exact Hn. cbn [lag]. specialize (IH ltac:(lia)). specialize (Hb (S n) Hn).
    eapply Rle_trans; [apply Cabs_triangle|]. rewrite Cabs_mul.
    assert (Hpow : rho ^ S n <= q ^ S n) by (apply pow_incr; lra).
    assert (Hqn : 0 < q ^ n) by (apply pow_lt; lra).
    assert (K * rho ^ S n <= K * q ^ S n) by (apply Rmult_le_compat_l; lra).
    assert (Cabs p * Cabs (d n) <= Cabs p * (K' * q ^ n)) by (apply Rmult_le_compat_l; lra).
    cbn [pow] in *. replace (K' * (q * q ^ n)) with (K * (q * q ^ n) + Cabs p * (K' * q ^ n)); [lra|].
    replace (K * (q * q ^ n)) with (K * q * q ^ n) by ring. rewrite <- HK'. ring.
Qed.

(** Both poles of a section. *)
Definition Ccsqrt (x : R) : C := if Rle_dec 0 x then RtoC (sqrt x) else (0, sqrt (- x)).
Lemma Ccsqrt_sqr x : Cmul (Ccsqrt x) (Ccsqrt x) = RtoC x.
Proof.
  unfold Ccsqrt. destruct (Rle_dec 0 x) as [H|H].
  - rewrite <- RtoC_mul, sqrt_sqrt by exact H. reflexivity.
  - apply C_ext; cbn.
    + replace (0 * 0 - sqrt (- x) * sqrt (- x)) with (- (sqrt (- x) * sqrt (- x))) by ring. rewrite sqrt_sqrt by lra. ring.
    + ring.
Qed.

Lemma poles (c : section) : exists p1 p2,
  Cadd p1 p2 = RtoC (- a1 c) /\ Cmul p1 p2 = RtoC (a2 c).
Proof.
  set (s := Ccsqrt (a1 c * a1 c - 4 * a2 c)). pose proof (Ccsqrt_sqr (a1 c * a1 c - 4 * a2 c)) as Hs. fold s in Hs.
  exists (Cmul (RtoC (/ 2)) (Cadd (RtoC (- a1 c)) s)), (Cmul (RtoC (/ 2)) (Csub (RtoC (- a1 c)) s)). split.
  - apply C_ext; cbn; lra.
  - assert (E1 := f_equal fst Hs). assert (E2 := f_equal snd Hs). destruct s as [x y]. cbn in E1, E2.
    apply C_ext; cbn; [|nra].
    replace ((/ 2 * (- a1 c + x) - 0 * (0 + y)) * (/ 2 * (- a1 c - x) - 0 * (0 - y)) - (/ 2 * (0 + y) + 0 * (- a1 c + x)) * (/ 2 * (0 - y) + 0 * (- a1 c - x)))
      with (/ 4 * (a1 c * a1 c - (x * x - y * y))) by field.
    rewrite E1. field.
Qed.

Lemma den_poles c p1 p2 w : Cadd p1 p2 = RtoC (- a1 c) -> Cmul p1 p2 = RtoC (a2 c) ->
  sec_den c w = Cmul (Csub C1 (Cmul p1 w)) (Csub C1 (Cmul p2 w)).
Proof.
  intros H1 H2. unfold sec_den. rewrite <- H2.
  assert (E : RtoC (a1 c) = Copp (Cadd p1 p2)) by (rewrite H1, RtoC_opp; ring). rewrite E. ring.
Qed.

Lemma pole_inside c p1 p2 : Cadd p1 p2 = RtoC (- a1 c) -> Cmul p1 p2 = RtoC (a2 c) ->
  (forall w, Cabs w <= 1 -> sec_den c w <> C0) -> Cabs p1 < 1.
Proof.
  intros H1 H2 Hs. destruct (Rlt_dec (Cabs p1) 1) as [|H]; [assumption|exfalso].
  assert (Hp : p1 <> C0) by (intros ->; rewrite Cabs_0 in H; lra).
  apply (Hs (Cinv p1)).
  - assert (E : Cabs p1 * Cabs (Cinv p1) = 1).
    { rewrite <- Cabs_mul. replace (Cmul p1 (Cinv p1)) with C1 by (field; exact Hp). unfold C1. fold (RtoC 1). rewrite Cabs_RtoC. apply Rabs_R1. }
    pose proof (Cabs_nonneg (Cinv p1)). nra.
  - rewrite (den_poles c p1 p2) by assumption. replace (Csub C1 (Cmul p1 (Cinv p1))) with C0 by (field; exact Hp). ring.
Qed.

(** A recursion with the denominator of a stable section. *)
Lemma two_pole_bound c K rho : (forall w, Cabs w <= 1 -> sec_den c w <> C0) -> 0 <= K -> 0 < rho < 1 ->
  exists K' rho', 0 <= K' /\ rho <= rho' < 1 /\
    forall N (r d : nat -> R), (forall n, (n < N)%nat -> Rabs (r n) <= K * rho ^ n) ->
      (forall n, (n < N)%nat -> d n + a1 c * (if (n <? 1)%nat then 0 else d (n - 1)%nat)
                                + a2 c * (if (n <? 2)%nat then 0 else d (n - 2)%nat) = r n) ->
      forall n, (n < N)%nat -> Rabs (d n) <= K' * rho' ^ n.
Proof.
  intros Hs HK Hr. destruct (poles c) as (p1 & p2 & H1 & H2).
  assert (P1 : Cabs p1 < 1) by (eapply pole_inside; eauto).
  assert (P2 : Cabs p2 < 1).
  { apply (pole_inside c p2 p1); [rewrite <- H1; ring|rewrite <- H2; ring|exact Hs]. }
  destruct (one_pole_bound p1 K rho P1 HK Hr) as (K1 & rho1 & HK1 & Hr1 & B1).
  destruct (one_pole_bound p2 K1 rho1 P2 HK1 ltac:(lra)) as (K2 & rho2 & HK2 & Hr2 & B2).
  exists K2, rho2. split; [exact HK2|]. split; [lra|].
  intros N r d Hb Hrec n Hn.
  set (v := fun n => Csub (RtoC (d n)) (Cmul p2 (lag (fun k => RtoC (d k)) n))).
  rewrite <- Cabs_RtoC. apply (B2 N v (fun k => RtoC (d k))); [|intros k Hk; unfold v; ring|exact Hn].
  apply (B1 N (fun k => RtoC (r k)) v).
  - intros k Hk. rewrite Cabs_RtoC. now apply Hb.
  - intros k Hk. rewrite <- (Hrec k Hk). unfold v.
    assert (Ea : RtoC (a1 c) = Copp (Cadd p1 p2)) by (rewrite H1, RtoC_opp; ring).
    rewrite !RtoC_add, !RtoC_mul, <- H2, Ea.
    destruct k as [|[|k]]; cbn [lag Nat.ltb Nat.leb Nat.sub]; try (fold C0; change (RtoC 0) with C0); try ring.
    rewrite !Nat.sub_0_r. ring.
Qed.

(* ------------------------------------------------------------------ *)
(** * Harmonic input *)

(** The sample [n] of the harmonic signal with complex amplitude [a]. *)
Definition harmonic (a : C) (omega : R) (n : nat) : R := re (Cmul a (cexp (omega * INR n))).

Lemma harmonic_bound a omega n : Rabs (harmonic a omega n) <= Cabs a.
Proof.
  assert (R1 : forall z, Rabs (re z) <= Cabs z).
  { intros z. apply Rabs_le. split; [|apply re_le_Cabs].
    assert (H := re_le_Cabs (Copp z)). assert (E : Cabs (Copp z) = Cabs z).
    { replace (Copp z) with (Cmul (RtoC (-1)) z) by (apply C_ext; cbn; ring). rewrite Cabs_mul, Cabs_RtoC.
      rewrite (Rabs_left (-1)) by lra. ring. }
    rewrite E in H. unfold re in *. cbn in H. lra. }
  unfold harmonic. eapply Rle_trans; [apply R1|]. rewrite Cabs_mul, Cabs_cexp. lra.
Qed.

Lemma harmonic_section c omega a n : sec_den c (cexp (- omega)) <> C0 ->
  let g := Cmul (Cdiv (sec_num c (cexp (- omega))) (sec_den c (cexp (- omega)))) a in
  harmonic g omega (S (S n)) + a1 c * harmonic g omega (S n) + a2 c * harmonic g omega n
  = b0 c * harmonic a omega (S (S n)) + b1 c * harmonic a omega (S n) + b2 c * harmonic a omega n.
Proof.
  intros Hd g. set (w := cexp (- omega)) in *.
  assert (E1 : forall k, cexp (omega * INR k) = Cmul w (cexp (omega * INR (S k)))).
  { intros k. unfold w. rewrite <- cexp_add. f_equal. rewrite S_INR. ring. }
  assert (L : forall (h : C) (x y z : R), x * harmonic h omega (S (S n)) + y * harmonic h omega (S n) + z * harmonic h omega n
              = re (Cmul (Cmul h (Cadd (RtoC x) (Cadd (Cmul (RtoC y) w) (Cmul (RtoC z) (Cmul w w))))) (cexp (omega * INR (S (S n)))))).
  { intros h x y z. unfold harmonic. rewrite <- !re_RtoC_mul, <- !re_add. f_equal.
    rewrite (E1 n), (E1 (S n)). ring. }
  replace (harmonic g omega (S (S n))) with (1 * harmonic g omega (S (S n))) by ring.
  rewrite !L. f_equal. f_equal. change (RtoC 1) with C1.
  change (Cadd C1 (Cadd (Cmul (RtoC (a1 c)) w) (Cmul (RtoC (a2 c)) (Cmul w w)))) with (sec_den c w).
  change (Cadd (RtoC (b0 c)) (Cadd (Cmul (RtoC (b1 c)) w) (Cmul (RtoC (b2 c)) (Cmul w w)))) with (sec_num c w).
  unfold g. field. exact Hd.
Qed.

Lemma section_nat c x y : section_eq c x y -> length y = length x /\ forall n, (n < length x)%nat ->
  nth n y 0 = b0 c * nth n x 0 + b1 c * (if (n <? 1)%nat then 0 else nth (n - 1) x 0) + b2 c * (if (n <? 2)%nat then 0 else nth (n - 2) x 0)
              - a1 c * (if (n <? 1)%nat then 0 else nth (n - 1) y 0) - a2 c * (if (n <? 2)%nat then 0 else nth (n - 2) y 0).
Proof.
  intros [Hl H]. split; [exact Hl|]. intros n Hn. specialize (H (Z.of_nat n) ltac:(lia)).
  assert (E : forall l (j : nat), at_ l (Z.of_nat n - Z.of_nat j) = if (n <? j)%nat then 0 else nth (n - j) l 0).
  { intros l j. unfold at_. destruct (Nat.ltb_spec n j); destruct (Z.ltb_spec (Z.of_nat n - Z.of_nat j) 0); try lia; [reflexivity|].
    f_equal. lia. }
  rewrite <- (Z.sub_0_r (Z.of_nat n)) in H at 1 2. change 0%Z with (Z.of_nat 0) in H. change 1%Z with (Z.of_nat 1) in H. change 2%Z with (Z.of_nat 2) in H.
  rewrite !E in H. cbn [Nat.ltb Nat.leb] in H. rewrite Nat.sub_0_r in H. exact H.
Qed.

Lemma steady_section c omega a K rho : (forall w, Cabs w <= 1 -> sec_den c w <> C0) -> 0 <= K -> 0 < rho < 1 ->
  exists K' rho', 0 <= K' /\ 0 < rho' < 1 /\
    forall x y, section_eq c x y ->
      (forall n, (n < length x)%nat -> Rabs (nth n x 0 - harmonic a omega n) <= K * rho ^ n) ->
      forall n, (n < length x)%nat ->
        Rabs (nth n y 0 - harmonic (Cmul (Cdiv (sec_num c (cexp (- omega))) (sec_den c (cexp (- omega)))) a) omega n) <= K' * rho' ^ n.
Proof.
  intros Hs HK Hr. set (g := Cmul (Cdiv (sec_num c (cexp (- omega))) (sec_den c (cexp (- omega)))) a).
  assert (Hd : sec_den c (cexp (- omega)) <> C0) by (apply Hs; rewrite Cabs_cexp; lra).
  set (S := Rabs (b0 c) * (K + Cabs a) + Rabs (b1 c) * (K + Cabs a) + Rabs (b2 c) * K + Cabs g + Rabs (a1 c) * Cabs g).
  pose proof (Cabs_nonneg a) as Pa. pose proof (Cabs_nonneg g) as Pg.
  pose proof (Rabs_pos (b0 c)) as P0. pose proof (Rabs_pos (b1 c)) as P1. pose proof (Rabs_pos (b2 c)) as P2. pose proof (Rabs_pos (a1 c)) as P3.
  assert (HS : 0 <= S).
  { unfold S. repeat apply Rplus_le_le_0_compat; try apply Rmult_le_pos; lra. }
  assert (Hrr : 0 < rho * rho) by nra.
  destruct (two_pole_bound c (S / (rho * rho)) rho Hs) as (K' & rho' & HK' & Hr' & B); [|exact Hr|].
  { apply Rmult_le_pos; [exact HS|]. left. now apply Rinv_0_lt_compat. }
  exists K', rho'. split; [exact HK'|]. split; [lra|].
  intros x y Hy He. apply section_nat in Hy. destruct Hy as [Hl Hy].
  set (d := fun n => nth n y 0 - harmonic g omega n).
  set (r := fun n => d n + a1 c * (if (n <? 1)%nat then 0 else d (n - 1)%nat) + a2 c * (if (n <? 2)%nat then 0 else d (n - 2)%nat)).
  apply (B (length x) r d); [|reflexivity]. intros n Hn.
  assert (Bound : Rabs (r n) <= S * rho ^ (n - 2)).
  { assert (T3 : forall p q s u v : R, Rabs (p + q + s + u + v) <= Rabs p + Rabs q + Rabs s + Rabs u + Rabs v).
    { intros. eapply Rle_trans; [apply Rabs_triang|]. apply Rplus_le_compat_r. eapply Rle_trans; [apply Rabs_triang|]. apply Rplus_le_compat_r.
      eapply Rle_trans; [apply Rabs_triang|]. apply Rplus_le_compat_r. apply Rabs_triang. }
    assert (Hx : forall k, (k < length x)%nat -> Rabs (nth k x 0) <= K + Cabs a).
    { intros k Hk. replace (nth k x 0) with ((nth k x 0 - harmonic a omega k) + harmonic a omega k) by ring.
      eapply Rle_trans; [apply Rabs_triang|]. apply Rplus_le_compat; [|apply harmonic_bound].
      eapply Rle_trans; [apply He; exact Hk|]. rewrite <- (Rmult_1_r K) at 2. apply Rmult_le_compat_l; [exact HK|].
      destruct k as [|k]; [cbn; lra|]. left. apply pow_lt_1_compat; [lra|lia]. }
    destruct n as [|[|n]].
    - replace (r 0%nat) with (b0 c * nth 0 x 0 + 0 + 0 + - harmonic g omega 0 + 0).
      2: { unfold r, d. cbn [Nat.ltb Nat.leb]. rewrite (Hy 0%nat Hn). cbn [Nat.ltb Nat.leb]. ring. }
      eapply Rle_trans; [apply T3|]. rewrite Rabs_mult, Rabs_R0, Rabs_Ropp. cbn [Nat.sub pow].
      pose proof (harmonic_bound g omega 0). pose proof (Hx 0%nat Hn). unfold S.
      assert (Rabs (b0 c) * Rabs (nth 0 x 0) <= Rabs (b0 c) * (K + Cabs a)) by (apply Rmult_le_compat_l; lra).
      assert (0 <= Rabs (b1 c) * (K + Cabs a)) by (apply Rmult_le_pos; lra).
      assert (0 <= Rabs (b2 c) * K) by (apply Rmult_le_pos; lra).
      assert (0 <= Rabs (a1 c) * Cabs g) by (apply Rmult_le_pos; lra). lra.
    - replace (r 1%nat) with (b0 c * nth 1 x 0 + b1 c * nth 0 x 0 + 0 + - harmonic g omega 1 + - (a1 c * harmonic g omega 0)).
      2: { unfold r, d. cbn [Nat.ltb Nat.leb Nat.sub]. rewrite (Hy 1%nat Hn). cbn [Nat.ltb Nat.leb Nat.sub]. ring. }
      eapply Rle_trans; [apply T3|]. rewrite !Rabs_Ropp, !Rabs_mult, Rabs_R0. cbn [Nat.sub pow].
      pose proof (harmonic_bound g omega 0). pose proof (harmonic_bound g omega 1). pose proof (Hx 0%nat ltac:(lia)). pose proof (Hx 1%nat Hn). unfold S.
      assert (Rabs (b0 c) * Rabs (nth 1 x 0) <= Rabs (b0 c) * (K + Cabs a)) by (apply Rmult_le_compat_l; lra).
      assert (Rabs (b1 c) * Rabs (nth 0 x 0) <= Rabs (b1 c) * (K + Cabs a)) by (apply Rmult_le_compat_l; lra).
      assert (0 <= Rabs (b2 c) * K) by (apply Rmult_le_pos; lra).
      assert (Rabs (a1 c) * Rabs (harmonic g omega 0) <= Rabs (a1 c) * Cabs g) by (apply Rmult_le_compat_l; lra). lra.
    - set (e := fun k => nth k x 0 - harmonic a omega k).
      replace (r (Datatypes.S (Datatypes.S n))) with (b0 c * e (Datatypes.S (Datatypes.S n)) + b1 c * e (Datatypes.S n) + b2 c * e n + 0 + 0).
      2: { unfold r, d, e. cbn [Nat.ltb Nat.leb Nat.sub]. rewrite (Hy _ Hn). cbn [Nat.ltb Nat.leb Nat.sub]. rewrite !Nat.sub_0_r.
           pose proof (harmonic_section c omega a n Hd) as Q. cbv zeta in Q. fold g in Q. lra. }
      eapply Rle_trans; [apply T3|]. rewrite !Rabs_mult, Rabs_R0. replace (Datatypes.S (Datatypes.S n) - 2)%nat with n by lia.
      pose proof (He (Datatypes.S (Datatypes.S n)) Hn) as A0. pose proof (He (Datatypes.S n) ltac:(lia)) as A1. pose proof (He n ltac:(lia)) as A2.
      fold (e (Datatypes.S (Datatypes.S n))) in A0. fold (e (Datatypes.S n)) in A1. fold (e n) in A2. cbn [pow] in A0, A1.
      assert (Q : 0 < rho ^ n) by (apply pow_lt; lra). set (q := rho ^ n) in *.
      assert (HKq : 0 <= K * q) by (apply Rmult_le_pos; lra).
      assert (K * (rho * q) <= K * q) by nra. assert (K * (rho * (rho * q)) <= K * q) by nra.
      assert (Rabs (b0 c) * Rabs (e (Datatypes.S (Datatypes.S n))) <= Rabs (b0 c) * (K * q)) by (apply Rmult_le_compat_l; lra).
      assert (Rabs (b1 c) * Rabs (e (Datatypes.S n)) <= Rabs (b1 c) * (K * q)) by (apply Rmult_le_compat_l; lra).
      assert (Rabs (b2 c) * Rabs (e n) <= Rabs (b2 c) * (K * q)) by (apply Rmult_le_compat_l; lra).
      assert ((Rabs (b0 c) * K + Rabs (b1 c) * K + Rabs (b2 c) * K) * q <= S * q).
      { apply Rmult_le_compat_r; [lra|]. unfold S.
        assert (0 <= Rabs (b0 c) * Cabs a) by (apply Rmult_le_pos; lra). assert (0 <= Rabs (b1 c) * Cabs a) by (apply Rmult_le_pos; lra).
        assert (0 <= Rabs (a1 c) * Cabs g) by (apply Rmult_le_pos; lra). lra. }
      lra. }
  eapply Rle_trans; [exact Bound|].
  assert (Hp : rho * rho * rho ^ (n - 2) <= rho ^ n).
  { destruct n as [|[|n]]; cbn [Nat.sub pow]; try nra. rewrite Nat.sub_0_r. nra. }
  apply Rmult_le_reg_l with (rho * rho); [exact Hrr|].
  replace (rho * rho * (S / (rho * rho) * rho ^ n)) with (S * rho ^ n) by (field; lra).
  replace (rho * rho * (S * rho ^ (n - 2))) with (S * (rho * rho * rho ^ (n - 2))) by ring.
  apply Rmult_le_compat_l; assumption.
Qed.

(** A cascade answers a harmonic signal with the harmonic signal of its
    transfer function, up to an exponentially decaying transient. *)
Theorem steady_cascade : forall sos omega a K rho, stable sos -> 0 <= K -> 0 < rho < 1 ->
  exists K' rho', 0 <= K' /\ 0 < rho' < 1 /\
    forall x y, cascade sos x y ->
      (forall n, (n < length x)%nat -> Rabs (nth n x 0 - harmonic a omega n) <= K * rho ^ n) ->
      length y = length x /\
      forall n, (n < length x)%nat ->
        Rabs (nth n y 0 - harmonic (Cmul (transfer sos (cexp (- omega))) a) omega n) <= K' * rho' ^ n.
Proof.
  induction sos as [|c sos IH]; intros omega a K rho Hs HK Hr.
  - exists K, rho. split; [exact HK|]. split; [exact Hr|]. intros x y -> He. split; [reflexivity|].
    intros n Hn. cbn [transfer]. replace (Cmul C1 a) with a by ring. now apply He.
  - destruct (steady_section c omega a K rho) as (K1 & r1 & HK1 & Hr1 & B1); [intros w; apply Hs; now left|exact HK|exact Hr|].
    set (g := Cmul (Cdiv (sec_num c (cexp (- omega))) (sec_den c (cexp (- omega)))) a) in *.
    destruct (IH omega g K1 r1) as (K2 & r2 & HK2 & Hr2 & B2); [intros c' w Hc; apply Hs; now right|exact HK1|exact Hr1|].
    exists K2, r2. split; [exact HK2|]. split; [exact Hr2|]. intros x y (v & Hv & Hy) He.
    specialize (B1 x v Hv He). destruct Hv as [Hlv _]. rewrite <- Hlv in B1.
    destruct (B2 v y Hy B1) as [Hl B]. split; [congruence|]. intros n Hn. rewrite <- Hlv in Hn. specialize (B n Hn).
    cbn [transfer]. replace (Cmul (Cmul (Cdiv (sec_num c (cexp (- omega))) (sec_den c (cexp (- omega)))) (transfer sos (cexp (- omega)))) a)
      with (Cmul (transfer sos (cexp (- omega))) g) by (unfold g; ring). exact B.
Qed.
