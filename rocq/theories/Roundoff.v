(** The frequency-domain kernel in floating-point arithmetic:
    _freqBeamformer_FullCSM, /repo/acoular/fastFuncs.py:213-314, every
    operation rounded, phases and their sine and cosine in single precision
    (line 252).  The kernel is compiled without fastmath, so the order of the
    operations is that of the source.  No overflow and underflow. *)
From Coq Require Import List Arith Lia ZArith Bool Reals Lra.
From Verif Require Import Stream Cplx Beamform Rounding SteerVec.
Import ListNotations.
Local Open Scope R_scope.

(** [rnd]: rounding of double precision operations with unit roundoff [u];
    [rnd32]: conversion to single precision with unit roundoff [v]; [fcos] and
    [fsin]: the single precision functions with absolute error at most [e]. *)
Record arithmetic (rnd rnd32 fcos fsin : R -> R) (u v e : R) : Prop := {
  a_u : 0 <= u < 1;
  a_v : 0 <= v;
  a_rnd : forall x, Rabs (rnd x - x) <= u * Rabs x;
  a_rnd32 : forall x, Rabs (rnd32 x - x) <= v * Rabs x;
  a_cos : forall x, Rabs (fcos x - cos x) <= e;
  a_sin : forall x, Rabs (fsin x - sin x) <= e }.

Section Code.
  Variables rnd rnd32 fcos fsin : R -> R.
  Variable n : nat.

  (** numba's complex product and sum *)
  Definition fmul (a b : C) : C :=
    (rnd (rnd (fst a * fst b) - rnd (snd a * snd b)), rnd (rnd (fst a * snd b) + rnd (snd a * fst b))).
  Definition fadd (a b : C) : C := (rnd (fst a + fst b), rnd (snd a + snd b)).

  (** accumulation in a loop, from zero and from [s] *)
  Fixpoint facc (k : nat) (t : nat -> C) : C :=
    match k with O => C0 | S j => fadd (facc j t) (t j) end.
  Fixpoint racc (s : R) (k : nat) (t : nat -> R) : R :=
    match k with O => s | S j => rnd (racc s j t + t j) end.

  (** fastFuncs.py:251-271; the products with real numbers act on both parts
      (the terms with the zero imaginary part are exact) *)
  Definition fsteer (st : steer) (k : R) (r : nat -> R) (m : nat) : C :=
    let a := rnd32 (rnd (k * r m)) in
    let c := (fcos a, - fsin a) in
    match st with
    | Classic => c
    | Inverse => (rnd (fst c * r m), rnd (snd c * r m))
    | TrueLevel | TrueLocation => (rnd (fst c / r m), rnd (snd c / r m))
    end.
  (** helpNormalize of the types 3 and 4, fastFuncs.py:265-269 *)
  Definition fhelp (r : nat -> R) : R := racc 0 n (fun m => rnd (1 / rnd (r m * r m))).

  (** fastFuncs.py:275-291 *)
  Definition fscalar (rdiag : bool) (csm : nat -> nat -> C) (v : nat -> C) : R :=
    let s := racc 0 n (fun i => rnd (2 * fst (fmul (facc i (fun j => fmul (csm j i) (Conj (v j)))) (v i)))) in
    if rdiag then s else racc s n (fun i => fst (fmul (fmul (csm i i) (Conj (v i))) (v i))).

  (** fastFuncs.py:294-314, the result; nMics is an integer, its square is exact *)
  Definition fresult (st : steer) (r0 : R) (r : nat -> R) (loss sp : R) : R :=
    let N := INR n in
    match st with
    | Classic => rnd (rnd (sp / (N * N)) * loss)
    | Inverse => let f := rnd (N * r0) in rnd (rnd (sp / rnd (f * f)) * loss)
    | TrueLevel => let f := rnd (r0 * fhelp r) in rnd (rnd (sp / rnd (f * f)) * loss)
    | TrueLocation => rnd (rnd (sp / rnd (N * fhelp r)) * loss)
    end.

  Definition ffreq_full (csm : nat -> nat -> C) (r0 k : R) (r : nat -> R) (loss : R) (rdiag : bool) (st : steer) : R :=
    fresult st r0 r loss (fscalar rdiag csm (fsteer st k r)).
End Code.

(** * Proofs *)
Definition near (g A x y : R) : Prop := Rabs x <= A /\ Rabs (y - x) <= (g - 1) * A.
Definition n1 (z : C) : R := Rabs (fst z) + Rabs (snd z).
Definition cnear (g A : R) (x y : C) : Prop := n1 x <= A /\ n1 (y - x)%C <= (g - 1) * A.
Definition rnear (h z w : R) : Prop := 0 <= z /\ z / h <= w <= z * h.

Lemma near_A g A x y : near g A x y -> 0 <= A.
Proof. intros [H _]. pose proof (Rabs_pos x). lra. Qed.
Lemma n1_pos z : 0 <= n1 z.
Proof. unfold n1. pose proof (Rabs_pos (fst z)). pose proof (Rabs_pos (snd z)). lra. Qed.
Lemma cnear_A g A x y : cnear g A x y -> 0 <= A.
Proof. intros [H _]. pose proof (n1_pos x). lra. Qed.
Lemma near_abs g A x y : near g A x y -> Rabs y <= g * A.
Proof. intros [H K]. replace y with ((y - x) + x) by ring. pose proof (Rabs_triang (y - x) x). lra. Qed.

Lemma near_weaken g h A x y : g <= h -> near g A x y -> near h A x y.
Proof. intros L N. pose proof (near_A _ _ _ _ N) as HA. destruct N as [H K]. split; auto. apply Rle_trans with (1 := K). apply Rmult_le_compat_r; lra. Qed.
Lemma near_bigger g A B x y : 1 <= g -> A <= B -> near g A x y -> near g B x y.
Proof. intros G L [H K]. split; [lra|]. apply Rle_trans with (1 := K). apply Rmult_le_compat_l; lra. Qed.
Lemma cnear_weaken g h A x y : g <= h -> cnear g A x y -> cnear h A x y.
Proof. intros L N. pose proof (cnear_A _ _ _ _ N) as HA. destruct N as [H K]. split; auto. apply Rle_trans with (1 := K). apply Rmult_le_compat_r; lra. Qed.

Lemma near_refl x : near 1 (Rabs x) x x.
Proof. split; [lra|]. replace (x - x) with 0 by ring. rewrite Rabs_R0. lra. Qed.
Lemma near_add g A B x y x' y' : near g A x y -> near g B x' y' -> near g (A + B) (x + x') (y + y').
Proof.
  intros [H1 K1] [H2 K2]. split.
  - pose proof (Rabs_triang x x'). lra.
  - replace (y + y' - (x + x')) with ((y - x) + (y' - x')) by ring. pose proof (Rabs_triang (y - x) (y' - x')). lra.
Qed.
Lemma near_opp g A x y : near g A x y -> near g A (- x) (- y).
Proof. intros [H K]. split; [now rewrite Rabs_Ropp|]. replace (- y - - x) with (- (y - x)) by ring. now rewrite Rabs_Ropp. Qed.
Lemma near_scale g A x y t : near g A x y -> near g (Rabs t * A) (t * x) (t * y).
Proof.
  intros [H K]. pose proof (Rabs_pos t). split; [rewrite Rabs_mult; now apply Rmult_le_compat_l|].
  replace (t * y - t * x) with (t * (y - x)) by ring. rewrite Rabs_mult.
  replace ((g - 1) * (Rabs t * A)) with (Rabs t * ((g - 1) * A)) by ring. now apply Rmult_le_compat_l.
Qed.

(** division by a positive number known up to a factor *)
Lemma near_div g A x y h z w : 1 <= g -> 1 <= h -> near g A x y -> 0 < z -> rnear h z w -> near (g * h) (A / z) (x / z) (y / w).
Proof.
  intros G H N Z [_ [L U]]. pose proof (near_A _ _ _ _ N) as HA. pose proof N as N0. destruct N as [N1 N2].
  assert (0 < z / h) as P by (apply Rdiv_lt_0_compat; lra). assert (0 < w) as W by lra.
  assert (0 < / z) as IZ by now apply Rinv_0_lt_compat.
  assert (/ w <= h * / z) as I1.
  { apply Rle_trans with (/ (z / h)); [apply Rinv_le_contravar; lra|]. right. field. lra. }
  assert (/ z * / h <= / w) as I2.
  { apply Rle_trans with (/ (z * h)); [right; field; lra|]. apply Rinv_le_contravar; lra. }
  assert (Rabs (/ w - / z) <= (h - 1) * / z) as I3.
  { apply Rabs_le. split; [|lra].
    assert (/ z * / h >= / z * (2 - h)) as Q.
    { apply Rle_ge. apply Rmult_le_compat_l; [lra|]. apply (Rmult_le_reg_r h); [lra|]. rewrite Rinv_l by lra.
      pose proof (Rle_0_sqr (h - 1)) as S. unfold Rsqr in S. lra. }
    lra. }
  split.
  - unfold Rdiv. rewrite Rabs_mult, (Rabs_right (/ z)) by lra. apply Rmult_le_compat_r; lra.
  - replace (y / w - x / z) with ((y - x) * / w + x * (/ w - / z)) by (unfold Rdiv; ring).
    pose proof (Rabs_triang ((y - x) * / w) (x * (/ w - / z))) as T. rewrite !Rabs_mult in T.
    rewrite (Rabs_right (/ w)) in T by (apply Rle_ge; left; now apply Rinv_0_lt_compat).
    assert (Rabs (y - x) * / w <= ((g - 1) * A) * (h * / z)) as T1.
    { apply Rmult_le_compat; [apply Rabs_pos|left; now apply Rinv_0_lt_compat|exact N2|exact I1]. }
    assert (Rabs x * Rabs (/ w - / z) <= A * ((h - 1) * / z)) as T2.
    { apply Rmult_le_compat; [apply Rabs_pos|apply Rabs_pos|exact N1|exact I3]. }
    unfold Rdiv. lra.
Qed.

Lemma n1_add a b : n1 (a + b)%C <= n1 a + n1 b.
Proof. unfold n1. cbn [fst snd Cadd]. pose proof (Rabs_triang (fst a) (fst b)). pose proof (Rabs_triang (snd a) (snd b)). lra. Qed.
Lemma n1_mul a b : n1 (a * b)%C <= n1 a * n1 b.
Proof.
  unfold n1. cbn [fst snd Cmul].
  pose proof (Rabs_triang (fst a * fst b) (- (snd a * snd b))) as T1. pose proof (Rabs_triang (fst a * snd b) (snd a * fst b)) as T2.
  rewrite Rabs_Ropp in T1. rewrite !Rabs_mult in T1, T2. unfold Rminus. lra.
Qed.
Lemma cnear_n1 g A x y : cnear g A x y -> n1 y <= g * A.
Proof.
  intros [H K]. replace y with ((y - x) + x)%C by (apply C_ext; cbn; ring). pose proof (n1_add (y - x)%C x). lra.
Qed.
Lemma cnear_refl x : cnear 1 (n1 x) x x.
Proof. split; [lra|]. replace (x - x)%C with C0 by (apply C_ext; cbn; ring). unfold n1. cbn. rewrite Rabs_R0. lra. Qed.
Lemma cnear_parts g A x y : cnear g A x y -> near g A (fst x) (fst y) /\ near g A (snd x) (snd y).
Proof.
  intros [H K]. unfold n1 in *. cbn [fst snd Csub] in *. pose proof (Rabs_pos (fst x)). pose proof (Rabs_pos (snd x)).
  pose proof (Rabs_pos (fst y - fst x)). pose proof (Rabs_pos (snd y - snd x)). repeat split; lra.
Qed.
Lemma cnear_Conj g A x y : cnear g A x y -> cnear g A (Conj x) (Conj y).
Proof.
  intros [H K]. unfold cnear, n1 in *. cbn [fst snd Conj Csub] in *. rewrite Rabs_Ropp. split; [exact H|].
  replace (- snd y - - snd x) with (- (snd y - snd x)) by ring. rewrite Rabs_Ropp. exact K.
Qed.

Section Analysis.
  Variables (rnd rnd32 fcos fsin : R -> R) (u v e : R).
  Hypothesis AR : arithmetic rnd rnd32 fcos fsin u v e.
  Definition q : R := / (1 - u).

  Lemma q_ge1 : 1 <= q.
  Proof.
    unfold q. destruct (a_u _ _ _ _ _ _ _ AR) as [A B]. rewrite <- Rinv_1. apply Rinv_le_contravar; lra.
  Qed.
  Lemma q_u : 1 + u <= q.
  Proof.
    unfold q. destruct (a_u _ _ _ _ _ _ _ AR) as [A B]. apply (Rmult_le_reg_r (1 - u)); [lra|]. rewrite Rinv_l by lra.
    pose proof (Rle_0_sqr u) as S. unfold Rsqr in S. lra.
  Qed.
  Lemma qpow_ge1 k : 1 <= q ^ k.
  Proof. apply pow_R1_Rle, q_ge1. Qed.

  Lemma near_rnd g A x y : 1 <= g -> near g A x y -> near (g * q) A x (rnd y).
  Proof.
    intros G N. pose proof (near_A _ _ _ _ N) as HA. pose proof (near_abs _ _ _ _ N) as HY. destruct N as [H K].
    split; [exact H|]. replace (rnd y - x) with ((rnd y - y) + (y - x)) by ring.
    pose proof (Rabs_triang (rnd y - y) (y - x)) as T. pose proof (a_rnd _ _ _ _ _ _ _ AR y) as E.
    destruct (a_u _ _ _ _ _ _ _ AR) as [U1 U2].
    assert (u * Rabs y <= u * (g * A)) by (apply Rmult_le_compat_l; lra).
    assert ((g * A) * (1 + u) <= (g * A) * q) by (apply Rmult_le_compat_l; [apply Rmult_le_pos; lra|apply q_u]). lra.
  Qed.

  Lemma near_prod_rnd a b : near q (Rabs a * Rabs b) (a * b) (rnd (a * b)).
  Proof. rewrite <- Rabs_mult. rewrite <- (Rmult_1_l q). apply near_rnd; [lra|apply near_refl]. Qed.

  Lemma fmul_exact y y' : n1 (fmul rnd y y' - y * y')%C <= (q * q - 1) * (n1 y * n1 y').
  Proof.
    pose proof q_ge1 as Q. unfold n1 at 1. cbn [fst snd Csub fmul Cmul].
    assert (near (q * q) (Rabs (fst y) * Rabs (fst y') + Rabs (snd y) * Rabs (snd y')) (fst y * fst y' - snd y * snd y')
              (rnd (rnd (fst y * fst y') - rnd (snd y * snd y')))) as [_ E1].
    { apply near_rnd; [exact Q|]. unfold Rminus. apply near_add; [apply near_prod_rnd|]. apply near_opp, near_prod_rnd. }
    assert (near (q * q) (Rabs (fst y) * Rabs (snd y') + Rabs (snd y) * Rabs (fst y')) (fst y * snd y' + snd y * fst y')
              (rnd (rnd (fst y * snd y') + rnd (snd y * fst y')))) as [_ E2].
    { apply near_rnd; [exact Q|]. apply near_add; apply near_prod_rnd. }
    unfold n1. lra.
  Qed.

  Lemma cnear_fmul g h A B x y x' y' : 1 <= g -> 1 <= h -> cnear g A x y -> cnear h B x' y' ->
    cnear (g * h * (q * q)) (A * B) (x * x')%C (fmul rnd y y').
  Proof.
    intros G H N M. pose proof (cnear_A _ _ _ _ N) as HA. pose proof (cnear_A _ _ _ _ M) as HB.
    pose proof (cnear_n1 _ _ _ _ N) as NY. pose proof (cnear_n1 _ _ _ _ M) as MY. destruct N as [N1 N2]. destruct M as [M1 M2].
    pose proof (n1_pos x) as P1. pose proof (n1_pos x') as P2. pose proof (n1_pos y) as P3. pose proof (n1_pos y') as P4.
    split.
    - apply Rle_trans with (1 := n1_mul x x'). apply Rmult_le_compat; lra.
    - replace (fmul rnd y y' - x * x')%C with ((fmul rnd y y' - y * y') + (y * (y' - x') + (y - x) * x'))%C
        by (apply C_ext; cbn [fst snd Cadd Csub Cmul]; ring).
      apply Rle_trans with (1 := n1_add _ _).
      pose proof (fmul_exact y y') as E.
      pose proof (n1_add (y * (y' - x'))%C ((y - x) * x')%C) as T. pose proof (n1_mul y (y' - x')%C) as T1. pose proof (n1_mul (y - x)%C x') as T2.
      assert (n1 y * n1 y' <= (g * A) * (h * B)) as K0 by (apply Rmult_le_compat; lra).
      assert (n1 y * n1 (y' - x')%C <= (g * A) * ((h - 1) * B)) as K1 by (apply Rmult_le_compat; auto; apply n1_pos).
      assert (n1 (y - x)%C * n1 x' <= ((g - 1) * A) * B) as K2 by (apply Rmult_le_compat; auto; apply n1_pos).
      assert (0 <= q * q - 1) as Q2.
      { pose proof q_ge1 as Q. assert (1 * 1 <= q * q) by (apply Rmult_le_compat; lra). lra. }
      assert ((q * q - 1) * (n1 y * n1 y') <= (q * q - 1) * ((g * A) * (h * B))) as K3 by (apply Rmult_le_compat_l; lra).
      lra.
  Qed.

  Lemma cnear_round g A x y : 1 <= g -> cnear g A x y -> cnear (g * q) A x (rnd (fst y), rnd (snd y)).
  Proof.
    intros G N. pose proof (cnear_A _ _ _ _ N) as HA. pose proof (cnear_n1 _ _ _ _ N) as HY. destruct N as [H K].
    split; [exact H|]. unfold n1 in *. cbn [fst snd Csub] in *.
    destruct (a_u _ _ _ _ _ _ _ AR) as [U1 U2].
    pose proof (a_rnd _ _ _ _ _ _ _ AR (fst y)) as E1. pose proof (a_rnd _ _ _ _ _ _ _ AR (snd y)) as E2.
    pose proof (Rabs_triang (rnd (fst y) - fst y) (fst y - fst x)) as T1.
    pose proof (Rabs_triang (rnd (snd y) - snd y) (snd y - snd x)) as T2.
    replace (rnd (fst y) - fst y + (fst y - fst x)) with (rnd (fst y) - fst x) in T1 by ring.
    replace (rnd (snd y) - snd y + (snd y - snd x)) with (rnd (snd y) - snd x) in T2 by ring.
    assert (u * (Rabs (fst y) + Rabs (snd y)) <= u * (g * A)) by (apply Rmult_le_compat_l; lra).
    assert ((g * A) * (1 + u) <= (g * A) * q) by (apply Rmult_le_compat_l; [apply Rmult_le_pos; lra|apply q_u]). lra.
  Qed.
  Lemma cnear_fadd g A B x y x' y' : 1 <= g -> cnear g A x y -> cnear g B x' y' -> cnear (g * q) (A + B) (x + x')%C (fadd rnd y y').
  Proof.
    intros G [H1 K1] [H2 K2]. unfold fadd. apply (cnear_round g (A + B) (x + x')%C (y + y')%C G). split.
    - pose proof (n1_add x x'). lra.
    - replace (y + y' - (x + x'))%C with ((y - x) + (y' - x'))%C by (apply C_ext; cbn [fst snd Cadd Csub]; ring).
      pose proof (n1_add (y - x)%C (y' - x')%C). lra.
  Qed.
  Lemma cnear_scale g A x y t : cnear g A x y -> cnear g (Rabs t * A) (t * fst x, t * snd x) (t * fst y, t * snd y).
  Proof.
    intros [H K]. unfold cnear, n1 in *. cbn [fst snd Csub] in *. pose proof (Rabs_pos t) as P.
    replace (t * fst y - t * fst x) with (t * (fst y - fst x)) by ring. replace (t * snd y - t * snd x) with (t * (snd y - snd x)) by ring.
    rewrite !Rabs_mult, <- !Rmult_plus_distr_l. split; [now apply Rmult_le_compat_l|].
    replace ((g - 1) * (Rabs t * A)) with (Rabs t * ((g - 1) * A)) by ring. now apply Rmult_le_compat_l.
  Qed.

  Lemma mul_q_le g k : 1 <= g -> g <= g * q ^ k.
  Proof. intros G. rewrite <- (Rmult_1_r g) at 1. apply Rmult_le_compat_l; [lra|apply qpow_ge1]. Qed.
  Lemma mul_q_ge1 g k : 1 <= g -> 1 <= g * q ^ k.
  Proof. intros G. pose proof (mul_q_le g k G). lra. Qed.

  Lemma cnear_facc g k x t (A : nat -> R) : 1 <= g -> (forall j, (j < k)%nat -> cnear g (A j) (x j) (t j)) ->
    cnear (g * q ^ k) (rsumn k A) (csum k x) (facc rnd k t).
  Proof.
    intros G. induction k as [|k IH]; intros H.
    - cbn [rsumn csum facc]. split; [unfold n1; cbn; rewrite Rabs_R0; lra|].
      replace (C0 - C0)%C with C0 by (apply C_ext; cbn; ring). unfold n1; cbn. rewrite Rabs_R0. lra.
    - cbn [rsumn csum facc pow]. replace (g * (q * q ^ k)) with (g * q ^ k * q) by ring.
      apply cnear_fadd; [now apply mul_q_ge1|apply IH; intros; apply H; lia|].
      apply (cnear_weaken g); [now apply mul_q_le|]. apply H. lia.
  Qed.

  Lemma near_racc g h k x t s0 s (A : nat -> R) B : 1 <= g -> h <= g -> near g B s0 s ->
    (forall j, (j < k)%nat -> near h (A j) (x j) (t j)) ->
    near (g * q ^ k) (B + rsumn k A) (s0 + rsumn k x) (racc rnd s k t).
  Proof.
    intros G L N. induction k as [|k IH]; intros H.
    - cbn [rsumn racc pow]. rewrite !Rplus_0_r, Rmult_1_r. exact N.
    - cbn [rsumn racc pow]. replace (g * (q * q ^ k)) with (g * q ^ k * q) by ring. rewrite <- !Rplus_assoc.
      apply near_rnd; [now apply mul_q_ge1|]. apply near_add; [apply IH; intros; apply H; lia|].
      apply (near_weaken h); [pose proof (mul_q_le g k G); lra|]. apply H. lia.
  Qed.

  (** positive numbers *)
  Lemma rnear_refl x : 0 <= x -> rnear 1 x x.
  Proof. intros H. unfold rnear. lra. Qed.
  Lemma rnear_weaken h h' z w : 1 <= h -> h <= h' -> rnear h z w -> rnear h' z w.
  Proof.
    intros H L [Z [A B]]. split; [exact Z|]. split.
    - apply Rle_trans with (2 := A). unfold Rdiv. apply Rmult_le_compat_l; [exact Z|]. apply Rinv_le_contravar; lra.
    - apply Rle_trans with (1 := B). apply Rmult_le_compat_l; lra.
  Qed.
  Lemma rnear_rnd h z w : 1 <= h -> rnear h z w -> rnear (h * q) z (rnd w).
  Proof.
    intros H [Z [A B]]. destruct (a_u _ _ _ _ _ _ _ AR) as [U1 U2].
    assert (0 <= w) as W. { apply Rle_trans with (2 := A). apply Rmult_le_pos; [exact Z|]. left. apply Rinv_0_lt_compat. lra. }
    pose proof (a_rnd _ _ _ _ _ _ _ AR w) as E. rewrite (Rabs_right w) in E by lra.
    assert (- (u * w) <= rnd w - w <= u * w) as [E1 E2].
    { split.
      - pose proof (Rle_abs (- (rnd w - w))) as K. rewrite Rabs_Ropp in K. lra.
      - pose proof (Rle_abs (rnd w - w)). lra. }
    split; [exact Z|]. split.
    - apply Rle_trans with (w * (1 - u)); [|lra]. apply Rle_trans with (z / h * (1 - u)).
      + right. unfold q. field. split; lra.
      + apply Rmult_le_compat_r; lra.
    - apply Rle_trans with (w * (1 + u)); [lra|]. rewrite <- Rmult_assoc. apply Rmult_le_compat; try lra. apply q_u.
  Qed.
  Lemma rnear_add h z w z' w' : rnear h z w -> rnear h z' w' -> rnear h (z + z') (w + w').
  Proof. intros [Z [A B]] [Z' [A' B']]. unfold rnear. unfold Rdiv in *. rewrite !Rmult_plus_distr_r. lra. Qed.
  Lemma rnear_mul h h' z w z' w' : 1 <= h -> 1 <= h' -> rnear h z w -> rnear h' z' w' -> rnear (h * h') (z * z') (w * w').
  Proof.
    intros H H' [Z [A B]] [Z' [A' B']].
    assert (0 <= z / h) as P by (apply Rmult_le_pos; [exact Z|left; apply Rinv_0_lt_compat; lra]).
    assert (0 <= z' / h') as P' by (apply Rmult_le_pos; [exact Z'|left; apply Rinv_0_lt_compat; lra]).
    split; [now apply Rmult_le_pos|]. split.
    - apply Rle_trans with (z / h * (z' / h')); [right; field; lra|]. now apply Rmult_le_compat.
    - apply Rle_trans with (z * h * (z' * h')); [apply Rmult_le_compat; lra|]. right. ring.
  Qed.
  Lemma rnear_inv h z w : 1 <= h -> 0 < z -> rnear h z w -> rnear h (1 / z) (1 / w).
  Proof.
    intros H Z [_ [A B]]. assert (0 < z / h) as P by (apply Rdiv_lt_0_compat; lra).
    split; [left; apply Rdiv_lt_0_compat; lra|]. unfold Rdiv. rewrite !Rmult_1_l. split.
    - apply Rle_trans with (/ (z * h)); [right; field; lra|]. apply Rinv_le_contravar; lra.
    - apply Rle_trans with (/ (z / h)); [apply Rinv_le_contravar; lra|]. right. field. lra.
  Qed.
  Lemma rnear_racc h k x t : 1 <= h -> (forall j, (j < k)%nat -> rnear h (x j) (t j)) -> rnear (h * q ^ k) (rsumn k x) (racc rnd 0 k t).
  Proof.
    intros H. induction k as [|k IH]; intros HX.
    - cbn [rsumn racc pow]. rewrite Rmult_1_r. unfold rnear, Rdiv. lra.
    - cbn [rsumn racc pow]. replace (h * (q * q ^ k)) with (h * q ^ k * q) by ring.
      apply rnear_rnd; [now apply mul_q_ge1|]. apply rnear_add; [apply IH; intros; apply HX; lia|].
      apply (rnear_weaken h); [exact H|now apply mul_q_le|]. apply HX. lia.
  Qed.

  (** ** The steering vector *)
  Definition phase_factor (Phi : R) : R := 1 + sqrt 2 * (e + ((1 + v) * (1 + u) - 1) * Phi).

  Lemma e_pos : 0 <= e.
  Proof. pose proof (a_cos _ _ _ _ _ _ _ AR 0). pose proof (Rabs_pos (fcos 0 - cos 0)). lra. Qed.
  Lemma phase_factor_ge1 Phi : 0 <= Phi -> 1 <= phase_factor Phi.
  Proof.
    intros P. unfold phase_factor. pose proof e_pos. destruct (a_u _ _ _ _ _ _ _ AR) as [U1 U2]. pose proof (a_v _ _ _ _ _ _ _ AR) as V.
    assert (0 <= v * u) by (apply Rmult_le_pos; lra).
    assert (0 <= ((1 + v) * (1 + u) - 1) * Phi) by (apply Rmult_le_pos; lra).
    assert (0 <= sqrt 2 * (e + ((1 + v) * (1 + u) - 1) * Phi)) by (apply Rmult_le_pos; [apply sqrt_pos|lra]). lra.
  Qed.

  Lemma n1_unit x : n1 (cos x, - sin x) <= sqrt 2.
  Proof.
    unfold n1. cbn [fst snd]. rewrite Rabs_Ropp. pose proof (Rabs_pos (cos x)) as A. pose proof (Rabs_pos (sin x)) as B.
    rewrite <- (sqrt_square (Rabs (cos x) + Rabs (sin x))) by lra. apply sqrt_le_1_alt.
    pose proof (sin2_cos2 x) as S. unfold Rsqr in S.
    assert (Rabs (cos x) * Rabs (cos x) = cos x * cos x) as E1 by (rewrite <- Rabs_mult; apply Rabs_right, Rle_ge, Rle_0_sqr).
    assert (Rabs (sin x) * Rabs (sin x) = sin x * sin x) as E2 by (rewrite <- Rabs_mult; apply Rabs_right, Rle_ge, Rle_0_sqr).
    pose proof (Rle_0_sqr (Rabs (cos x) - Rabs (sin x))) as Q. unfold Rsqr in Q. lra.
  Qed.

  Lemma cos_close a b : Rabs (cos a - cos b) <= Rabs (a - b) /\ Rabs (sin a - sin b) <= Rabs (a - b).
  Proof.
    pose proof (phase_diff a b) as P. unfold norm2 in P. cbn [fst snd Csub] in P.
    assert (forall t, t * t <= (a - b) * (a - b) -> Rabs t <= Rabs (a - b)) as G.
    { intros t H. apply Rsqr_le_abs_0. exact H. }
    split; apply G.
    - pose proof (Rle_0_sqr (- sin a - - sin b)) as Q. unfold Rsqr in Q. lra.
    - pose proof (Rle_0_sqr (cos a - cos b)) as Q. unfold Rsqr in Q. lra.
  Qed.

  Lemma phase_round x Phi : Rabs x <= Phi -> Rabs (rnd32 (rnd x) - x) <= ((1 + v) * (1 + u) - 1) * Phi.
  Proof.
    intros H. destruct (a_u _ _ _ _ _ _ _ AR) as [U1 U2]. pose proof (a_v _ _ _ _ _ _ _ AR) as V.
    pose proof (a_rnd _ _ _ _ _ _ _ AR x) as E1. pose proof (a_rnd32 _ _ _ _ _ _ _ AR (rnd x)) as E2.
    replace (rnd32 (rnd x) - x) with ((rnd32 (rnd x) - rnd x) + (rnd x - x)) by ring.
    pose proof (Rabs_triang (rnd32 (rnd x) - rnd x) (rnd x - x)) as T.
    assert (Rabs (rnd x) <= (1 + u) * Rabs x) as B.
    { replace (rnd x) with ((rnd x - x) + x) by ring. pose proof (Rabs_triang (rnd x - x) x). lra. }
    assert (v * Rabs (rnd x) <= v * ((1 + u) * Rabs x)) by (apply Rmult_le_compat_l; lra).
    assert (0 <= v * u) by (apply Rmult_le_pos; lra).
    assert (((1 + v) * (1 + u) - 1) * Rabs x <= ((1 + v) * (1 + u) - 1) * Phi) by (apply Rmult_le_compat_l; lra). lra.
  Qed.

  Lemma unit_near x Phi : Rabs x <= Phi ->
    cnear (phase_factor Phi) (sqrt 2) (cos x, - sin x) (fcos (rnd32 (rnd x)), - fsin (rnd32 (rnd x))).
  Proof.
    intros H. split; [apply n1_unit|]. set (a := rnd32 (rnd x)). unfold n1. cbn [fst snd Csub].
    pose proof (phase_round x Phi H) as P. fold a in P. destruct (cos_close a x) as [C1 C2].
    pose proof (a_cos _ _ _ _ _ _ _ AR a) as E1. pose proof (a_sin _ _ _ _ _ _ _ AR a) as E2.
    replace (- fsin a - - sin x) with (- ((fsin a - sin a) + (sin a - sin x))) by ring. rewrite Rabs_Ropp.
    replace (fcos a - cos x) with ((fcos a - cos a) + (cos a - cos x)) by ring.
    pose proof (Rabs_triang (fcos a - cos a) (cos a - cos x)) as T1. pose proof (Rabs_triang (fsin a - sin a) (sin a - sin x)) as T2.
    set (d := e + ((1 + v) * (1 + u) - 1) * Phi). unfold phase_factor. fold d.
    replace ((1 + sqrt 2 * d - 1) * sqrt 2) with (d * (sqrt 2 * sqrt 2)) by ring. rewrite sqrt_sqrt by lra. unfold d. lra.
  Qed.

  (** magnitude of the raw steering vector *)
  Definition raw_weight (st : steer) (r : R) : R :=
    match st with Classic => 1 | Inverse => r | TrueLevel | TrueLocation => 1 / r end.

  Lemma steer_near st k r m Phi : 0 < r m -> Rabs (k * r m) <= Phi ->
    cnear (phase_factor Phi * q) (sqrt 2 * raw_weight st (r m)) (steer_raw st k r m) (fsteer rnd rnd32 fcos fsin st k r m).
  Proof.
    intros Hr HP. assert (0 <= Phi) as P0 by (pose proof (Rabs_pos (k * r m)); lra).
    pose proof (phase_factor_ge1 Phi P0) as G. pose proof (unit_near (k * r m) Phi HP) as U.
    pose proof q_ge1 as Q.
    assert (phase_factor Phi <= phase_factor Phi * q) as W by (rewrite <- (Rmult_1_r (phase_factor Phi)) at 1; apply Rmult_le_compat_l; lra).
    unfold steer_raw, fsteer. destruct st; cbn [raw_weight fst snd].
    - rewrite Rmult_1_r. now apply (cnear_weaken (phase_factor Phi)).
    - pose proof (cnear_scale _ _ _ _ (r m) U) as S. rewrite Rabs_right in S by lra. cbn [fst snd] in S.
      apply (cnear_round _ _ _ _ G) in S. cbn [fst snd] in S.
      replace (Cmul (cos (k * r m), - sin (k * r m)) (RtoC (r m))) with (r m * cos (k * r m), r m * - sin (k * r m))
        by (apply C_ext; cbn [fst snd Cmul RtoC]; ring).
      rewrite (Rmult_comm (sqrt 2)), (Rmult_comm (fcos _)), (Rmult_comm (- fsin _)). exact S.
    - pose proof (cnear_scale _ _ _ _ (1 / r m) U) as S. rewrite Rabs_right in S by (apply Rle_ge; left; apply Rdiv_lt_0_compat; lra). cbn [fst snd] in S.
      apply (cnear_round _ _ _ _ G) in S. cbn [fst snd] in S.
      replace (Cdiv (cos (k * r m), - sin (k * r m)) (RtoC (r m))) with (1 / r m * cos (k * r m), 1 / r m * - sin (k * r m))
        by (apply C_ext; unfold Cdiv, Cinv, norm2; cbn [fst snd Cmul RtoC]; field; lra).
      rewrite (Rmult_comm (sqrt 2)). unfold Rdiv in *. rewrite !Rmult_1_l in *.
      rewrite (Rmult_comm (fcos _)), (Rmult_comm (- fsin _)). exact S.
    - pose proof (cnear_scale _ _ _ _ (1 / r m) U) as S. rewrite Rabs_right in S by (apply Rle_ge; left; apply Rdiv_lt_0_compat; lra). cbn [fst snd] in S.
      apply (cnear_round _ _ _ _ G) in S. cbn [fst snd] in S.
      replace (Cdiv (cos (k * r m), - sin (k * r m)) (RtoC (r m))) with (1 / r m * cos (k * r m), 1 / r m * - sin (k * r m))
        by (apply C_ext; unfold Cdiv, Cinv, norm2; cbn [fst snd Cmul RtoC]; field; lra).
      rewrite (Rmult_comm (sqrt 2)). unfold Rdiv in *. rewrite !Rmult_1_l in *.
      rewrite (Rmult_comm (fcos _)), (Rmult_comm (- fsin _)). exact S.
  Qed.

  (** ** The accumulated product *)
  Lemma scalar_near n (rd : bool) (csm : nat -> nat -> C) (x y : nat -> C) S (w : nat -> R) : 1 <= S -> (forall m, (m < n)%nat -> cnear S (w m) (x m) (y m)) ->
    near (S * S * q ^ (3 * n + 5))
      (rsumn n (fun i => 2 * (rsumn i (fun j => n1 (csm j i) * w j) * w i)) + (if rd then 0 else rsumn n (fun i => n1 (csm i i) * w i * w i)))
      (scalar_prod n rd csm x) (fscalar rnd n rd csm y).
  Proof.
    intros HS H. pose proof q_ge1 as Q.
    assert (1 <= S * S) as SS by (rewrite <- (Rmult_1_l 1); apply Rmult_le_compat; lra).
    set (A := fun i => 2 * (rsumn i (fun j => n1 (csm j i) * w j) * w i)).
    set (X := fun i => 2 * re (csum i (fun j => csm j i * Conj (x j)) * x i)%C).
    set (T := fun i => rnd (2 * fst (fmul rnd (facc rnd i (fun j => fmul rnd (csm j i) (Conj (y j)))) (y i)))).
    assert (forall i, (i < n)%nat -> near (S * S * q ^ (n + 5)) (A i) (X i) (T i)) as HT.
    { intros i Hi.
      assert (cnear (1 * S * (q * q) * q ^ i) (rsumn i (fun j => n1 (csm j i) * w j)) (csum i (fun j => csm j i * Conj (x j))%C)
                (facc rnd i (fun j => fmul rnd (csm j i) (Conj (y j))))) as F.
      { apply cnear_facc.
        - rewrite Rmult_1_l. rewrite <- (Rmult_1_l 1). apply Rmult_le_compat; try lra.
          rewrite <- (Rmult_1_l 1). apply Rmult_le_compat; lra.
        - intros j Hj. apply cnear_fmul; [lra|exact HS|apply cnear_refl|]. apply cnear_Conj. apply H. lia. }
      assert (1 <= 1 * S * (q * q) * q ^ i) as G1.
      { pose proof (qpow_ge1 i). replace (1 * S * (q * q) * q ^ i) with (S * q ^ (i + 2)) by (rewrite pow_add; cbn [pow]; ring). now apply mul_q_ge1. }
      pose proof (cnear_fmul _ _ _ _ _ _ _ _ G1 HS F (H i Hi)) as P.
      apply cnear_parts in P. destruct P as [P _].
      set (g := 1 * S * (q * q) * q ^ i * S * (q * q)) in *.
      assert (g = S * S * q ^ (i + 4)) as Eg by (unfold g; rewrite pow_add; cbn [pow]; ring).
      assert (1 <= g) as G2 by (rewrite Eg; now apply mul_q_ge1).
      pose proof (near_scale _ _ _ _ 2 P) as P2. rewrite (Rabs_right 2) in P2 by lra.
      apply (near_rnd _ _ _ _ G2) in P2. unfold A, X, T. unfold re.
      apply (near_weaken (g * q)); [|exact P2].
      rewrite Eg. replace (S * S * q ^ (i + 4) * q) with (S * S * q ^ (i + 5)) by (replace (i + 5)%nat with (Datatypes.S (i + 4)) by lia; cbn [pow]; ring).
      apply Rmult_le_compat_l; [lra|]. apply Rle_pow; [exact Q|lia]. }
    assert (near (S * S * q ^ (n + 5) * q ^ n) (0 + rsumn n A) (0 + rsumn n X) (racc rnd 0 n T)) as N1.
    { apply (near_racc _ (S * S * q ^ (n + 5))); [now apply mul_q_ge1|lra| |exact HT].
      split; [rewrite Rabs_R0; lra|]. replace (0 - 0) with 0 by ring. rewrite Rabs_R0. lra. }
    rewrite !Rplus_0_l in N1.
    replace (S * S * q ^ (n + 5) * q ^ n) with (S * S * q ^ (2 * n + 5)) in N1
      by (replace (2 * n + 5)%nat with (n + 5 + n)%nat by lia; rewrite (pow_add q (n + 5) n); ring).
    unfold scalar_prod, fscalar. fold T. fold A. fold X. destruct rd.
    - rewrite !Rplus_0_r. apply (near_weaken (S * S * q ^ (2 * n + 5))); [|exact N1].
      apply Rmult_le_compat_l; [lra|]. apply Rle_pow; [exact Q|lia].
    - replace (S * S * q ^ (3 * n + 5)) with (S * S * q ^ (2 * n + 5) * q ^ n)
        by (replace (3 * n + 5)%nat with (2 * n + 5 + n)%nat by lia; rewrite (pow_add q (2 * n + 5) n); ring).
      apply (near_racc _ (S * S * q ^ 4)); [now apply mul_q_ge1| |exact N1|].
      + apply Rmult_le_compat_l; [lra|]. apply Rle_pow; [exact Q|lia].
      + intros i Hi.
        assert (1 <= 1 * S * (q * q)) as G1.
        { replace (1 * S * (q * q)) with (S * q ^ 2) by (cbn [pow]; ring). now apply mul_q_ge1. }
        pose proof (cnear_fmul 1 S _ _ _ _ _ _ (Rle_refl 1) HS (cnear_refl (csm i i)) (cnear_Conj _ _ _ _ (H i Hi))) as P1.
        pose proof (cnear_fmul _ _ _ _ _ _ _ _ G1 HS P1 (H i Hi)) as P2. apply cnear_parts in P2. destruct P2 as [P2 _].
        unfold re. replace (S * S * q ^ 4) with (1 * S * (q * q) * S * (q * q)) by (cbn [pow]; ring). exact P2.
  Qed.

  (** ** The normalisation *)
  Lemma help_near n (r : nat -> R) : (forall m, (m < n)%nat -> 0 < r m) ->
    rnear (q ^ (n + 2)) (rsumn n (fun m => 1 / (r m * r m))) (fhelp rnd n r).
  Proof.
    intros Hr. pose proof q_ge1 as Q. unfold fhelp. replace (q ^ (n + 2)) with (q * q * q ^ n) by (rewrite pow_add; cbn [pow]; ring).
    apply rnear_racc; [rewrite <- (Rmult_1_l 1); apply Rmult_le_compat; lra|]. intros m Hm. specialize (Hr m Hm).
    assert (0 < r m * r m) as P by now apply Rmult_lt_0_compat.
    apply rnear_rnd; [exact Q|]. apply rnear_inv; [exact Q|exact P|]. rewrite <- (Rmult_1_l q). apply rnear_rnd; [lra|].
    apply rnear_refl. lra.
  Qed.

  (** the divisor of the result *)
  Definition divisor (n : nat) (st : steer) (r0 : R) (r : nat -> R) : R :=
    match st with
    | Classic => INR n * INR n
    | Inverse => (INR n * r0) * (INR n * r0)
    | TrueLevel => (r0 * rsumn n (fun m => 1 / (r m * r m))) * (r0 * rsumn n (fun m => 1 / (r m * r m)))
    | TrueLocation => INR n * rsumn n (fun m => 1 / (r m * r m))
    end.

  Lemma result_near n st r0 r loss g B x y : (0 < n)%nat -> 0 < r0 -> (forall m, (m < n)%nat -> 0 < r m) -> 0 <= loss -> 1 <= g ->
    near g B x y -> near (g * q ^ (2 * n + 9)) (B / divisor n st r0 r * loss) (x / divisor n st r0 r * loss) (fresult rnd n st r0 r loss y).
  Proof.
    intros Hn H0 Hr HL G N. pose proof q_ge1 as Q. assert (0 < INR n) as HN by now apply lt_0_INR.
    assert (0 < rsumn n (fun m => 1 / (r m * r m))) as HS.
    { apply rsumn_pos; [exact Hn|]. intros m Hm. specialize (Hr m Hm). apply Rdiv_lt_0_compat; [lra|now apply Rmult_lt_0_compat]. }
    assert (forall h D w, 1 <= h -> 0 < D -> rnear h D w -> h * (q * q) <= q ^ (2 * n + 9) ->
      near (g * q ^ (2 * n + 9)) (B / D * loss) (x / D * loss) (rnd (rnd (y / w) * loss))) as F.
    { intros h D w Hh HD Hw Hle.
      pose proof (near_div g B x y h D w G Hh N HD Hw) as P.
      assert (1 <= g * h) as G1 by (rewrite <- (Rmult_1_l 1); apply Rmult_le_compat; lra).
      apply (near_rnd _ _ _ _ G1) in P.
      assert (1 <= g * h * q) as G2 by (rewrite <- (Rmult_1_l 1); apply Rmult_le_compat; lra).
      apply (near_scale _ _ _ _ loss) in P. rewrite Rabs_right in P by lra. apply (near_rnd _ _ _ _ G2) in P.
      rewrite (Rmult_comm (B / D)), (Rmult_comm (x / D)), (Rmult_comm (rnd (y / w))).
      apply (near_weaken (g * h * q * q)); [|exact P].
      replace (g * h * q * q) with (g * (h * (q * q))) by ring. apply Rmult_le_compat_l; lra. }
    pose proof (help_near n r Hr) as HH. set (HS0 := rsumn n (fun m => 1 / (r m * r m))) in *. set (hf := fhelp rnd n r) in *.
    assert (forall a, q ^ a * (q * q) = q ^ (a + 2)) as PP by (intros a; rewrite pow_add; cbn [pow]; ring).
    assert (forall a b, (a <= b)%nat -> q ^ a <= q ^ b) as PM by (intros; now apply Rle_pow).
    destruct st; cbn [divisor fresult].
    - apply (F 1); [lra|now apply Rmult_lt_0_compat|apply rnear_refl; left; now apply Rmult_lt_0_compat|].
      change 1 with (q ^ 0). rewrite PP. apply PM. lia.
    - assert (rnear q (INR n * r0) (rnd (INR n * r0))) as P1.
      { rewrite <- (Rmult_1_l q). apply rnear_rnd; [lra|]. apply rnear_refl. left. now apply Rmult_lt_0_compat. }
      assert (rnear (q * q * q) (INR n * r0 * (INR n * r0)) (rnd (rnd (INR n * r0) * rnd (INR n * r0)))) as P2.
      { apply rnear_rnd; [rewrite <- (Rmult_1_l 1); apply Rmult_le_compat; lra|]. now apply rnear_mul. }
      apply (F (q * q * q)); [replace (q * q * q) with (q ^ 3) by (cbn [pow]; ring); apply qpow_ge1| |exact P2|].
      + apply Rmult_lt_0_compat; now apply Rmult_lt_0_compat.
      + replace (q * q * q) with (q ^ 3) by (cbn [pow]; ring). rewrite PP. apply PM. lia.
    - assert (rnear (q ^ (n + 3)) (r0 * HS0) (rnd (r0 * hf))) as P1.
      { replace (q ^ (n + 3)) with (1 * q ^ (n + 2) * q) by (replace (n + 3)%nat with (S (n + 2)) by lia; cbn [pow]; ring).
        apply rnear_rnd; [rewrite Rmult_1_l; apply qpow_ge1|]. apply rnear_mul; [lra|apply qpow_ge1|apply rnear_refl; lra|exact HH]. }
      apply (F (q ^ (n + 3) * q ^ (n + 3) * q)).
      + replace (q ^ (n + 3) * q ^ (n + 3) * q) with (q ^ (n + 3 + (n + 3) + 1)) by (rewrite !pow_add; cbn [pow]; ring). apply qpow_ge1.
      + apply Rmult_lt_0_compat; now apply Rmult_lt_0_compat.
      + apply rnear_rnd; [rewrite <- pow_add; apply qpow_ge1|]. apply rnear_mul; auto; apply qpow_ge1.
      + replace (q ^ (n + 3) * q ^ (n + 3) * q) with (q ^ (n + 3 + (n + 3) + 1)) by (rewrite !pow_add; cbn [pow]; ring). rewrite PP. apply PM. lia.
    - apply (F (q ^ (n + 3))); [apply qpow_ge1|now apply Rmult_lt_0_compat| |rewrite PP; apply PM; lia].
      replace (q ^ (n + 3)) with (1 * q ^ (n + 2) * q) by (replace (n + 3)%nat with (S (n + 2)) by lia; cbn [pow]; ring).
      apply rnear_rnd; [rewrite Rmult_1_l; apply qpow_ge1|]. apply rnear_mul; [lra|apply qpow_ge1|apply rnear_refl; lra|exact HH].
  Qed.
End Analysis.

(** both triangles of a symmetric array *)
Lemma triangles n (f : nat -> nat -> R) : (forall i j, (i < n)%nat -> (j < n)%nat -> f i j = f j i) ->
  rsumn n (fun i => 2 * rsumn i (f i) + f i i) = rsumn n (fun i => rsumn n (f i)).
Proof.
  induction n as [|n IH]; intros H; [reflexivity|].
  cbn [rsumn]. rewrite IH by (intros; apply H; lia).
  rewrite rsumn_add. rewrite (rsumn_ext n (fun i => f i n) (f n)) by (intros; apply H; lia). ring.
Qed.

Lemma n1_Cabs z : n1 z <= sqrt 2 * Cabs z.
Proof.
  unfold n1, Cabs. rewrite <- sqrt_mult by (try lra; apply norm2_nonneg).
  pose proof (Rabs_pos (fst z)) as A. pose proof (Rabs_pos (snd z)) as B.
  rewrite <- (sqrt_square (Rabs (fst z) + Rabs (snd z))) by lra. apply sqrt_le_1_alt. unfold norm2.
  assert (Rabs (fst z) * Rabs (fst z) = fst z * fst z) as E1 by (rewrite <- Rabs_mult; apply Rabs_right, Rle_ge, Rle_0_sqr).
  assert (Rabs (snd z) * Rabs (snd z) = snd z * snd z) as E2 by (rewrite <- Rabs_mult; apply Rabs_right, Rle_ge, Rle_0_sqr).
  pose proof (Rle_0_sqr (Rabs (fst z) - Rabs (snd z))) as Q. unfold Rsqr in Q. lra.
Qed.

Lemma n1_Conj z : n1 (Conj z) = n1 z.
Proof. unfold n1. cbn [fst snd Conj]. now rewrite Rabs_Ropp. Qed.
Lemma n1_C0 : n1 C0 = 0.
Proof. unfold n1. cbn. rewrite Rabs_R0. ring. Qed.

Section Map.
  Variables (n : nat) (r0 k : R) (r : nat -> R).
  Hypothesis Hn : (0 < n)%nat.
  Hypothesis H0 : 0 < r0.
  Hypothesis Hr : forall m, (m < n)%nat -> 0 < r m.

  Lemma divisor_factor st : norm2 (steer_factor n r0 k r st) = 1 / divisor n st r0 r.
  Proof. rewrite (steer_factor_norm2 n r0 k r Hn H0 Hr). destruct st; reflexivity. Qed.
  Lemma divisor_pos st : 0 < divisor n st r0 r.
  Proof.
    assert (0 < INR n) as HN by now apply lt_0_INR.
    assert (0 < rsumn n (fun m => 1 / (r m * r m))) as HS.
    { apply rsumn_pos; [exact Hn|]. intros m Hm. specialize (Hr m Hm). apply Rdiv_lt_0_compat; [lra|now apply Rmult_lt_0_compat]. }
    destruct st; cbn [divisor]; repeat apply Rmult_lt_0_compat; auto.
  Qed.
  Lemma raw_weight_abs st m : (m < n)%nat -> raw_weight st (r m) = Cabs (steer_raw st k r m).
  Proof.
    intros Hm. unfold Cabs. rewrite (norm2_raw n k r Hr st m Hm). specialize (Hr m Hm).
    destruct st; cbn [raw_weight].
    - now rewrite sqrt_1.
    - rewrite sqrt_square; lra.
    - replace (1 / (r m * r m)) with ((1 / r m) * (1 / r m)) by (field; lra). rewrite sqrt_square; [reflexivity|]. left. apply Rdiv_lt_0_compat; lra.
    - replace (1 / (r m * r m)) with ((1 / r m) * (1 / r m)) by (field; lra). rewrite sqrt_square; [reflexivity|]. left. apply Rdiv_lt_0_compat; lra.
  Qed.
  Lemma weight_pair st i j : (i < n)%nat -> (j < n)%nat ->
    raw_weight st (r i) * raw_weight st (r j) / divisor n st r0 r
    = Cabs (steer_vector n st (transfer r0 k r) i) * Cabs (steer_vector n st (transfer r0 k r) j).
  Proof.
    intros Hi Hj. rewrite !(steer_vector_raw n r0 k r Hn H0 Hr) by assumption. rewrite !Cabs_mul, <- !raw_weight_abs by assumption.
    replace (Cabs (steer_factor n r0 k r st) * raw_weight st (r i) * (Cabs (steer_factor n r0 k r st) * raw_weight st (r j)))
      with (Cabs (steer_factor n r0 k r st) * Cabs (steer_factor n r0 k r st) * raw_weight st (r i) * raw_weight st (r j)) by ring.
    rewrite Cabs_sqr, divisor_factor. pose proof (divisor_pos st). field. lra.
  Qed.

  Lemma normalize_divisor st loss sp : fst (normalize n st r0 r loss sp) = sp / divisor n st r0 r * loss.
  Proof.
    rewrite (normalize_factor n r0 k r Hn H0 Hr). cbn [fst]. rewrite divisor_factor. pose proof (divisor_pos st). field. lra.
  Qed.
End Map.

Lemma pair_sum n (rd : bool) (csm : nat -> nat -> C) (W : nat -> R) : hermitian n csm ->
  rsumn n (fun i => 2 * (rsumn i (fun j => n1 (csm j i) * (sqrt 2 * W j)) * (sqrt 2 * W i)))
  + (if rd then 0 else rsumn n (fun i => n1 (csm i i) * (sqrt 2 * W i) * (sqrt 2 * W i)))
  = 2 * rsumn n (fun i => rsumn n (fun j => n1 ((if rd then off_diag csm else csm) i j) * (W i * W j))).
Proof.
  intros HC. set (M := if rd then off_diag csm else csm). assert (sqrt 2 * sqrt 2 = 2) as R2 by (apply sqrt_sqrt; lra).
  assert (forall i j, (i < n)%nat -> (j < n)%nat -> n1 (M i j) = n1 (M j i)) as SY.
  { intros i j Hi Hj. unfold M. destruct rd.
    - unfold off_diag. rewrite (Nat.eqb_sym j i). destruct (i =? j)%nat; [reflexivity|]. rewrite (HC j i Hj Hi). apply n1_Conj.
    - rewrite (HC j i Hj Hi). apply n1_Conj. }
  rewrite <- (triangles n (fun i j => n1 (M i j) * (W i * W j))) by (intros i j Hi Hj; rewrite (SY i j Hi Hj); ring).
  rewrite rsumn_add, Rmult_plus_distr_l, <- !rsumn_scal. f_equal.
  - apply rsumn_ext. intros i Hi. rewrite (rsumn_ext i (fun j => n1 (csm j i) * (sqrt 2 * W j)) (fun j => sqrt 2 * (n1 (M i j) * W j))).
    + rewrite rsumn_scal.
      rewrite (rsumn_ext i (fun j => n1 (M i j) * (W i * W j)) (fun j => W i * (n1 (M i j) * W j))) by (intros; ring). rewrite rsumn_scal.
      replace (2 * (sqrt 2 * rsumn i (fun j => n1 (M i j) * W j) * (sqrt 2 * W i)))
        with (2 * (sqrt 2 * sqrt 2) * (rsumn i (fun j => n1 (M i j) * W j) * W i)) by ring. rewrite R2. ring.
    + intros j Hj. assert (n1 (csm j i) = n1 (M i j)) as ->; [|ring]. rewrite (SY i j) by lia. unfold M. destruct rd; [|reflexivity].
      unfold off_diag. destruct (Nat.eqb_spec j i); [lia|reflexivity].
  - destruct rd.
    + rewrite <- (rsumn_zero n) at 1. apply rsumn_ext. intros i Hi. unfold M, off_diag. rewrite Nat.eqb_refl, n1_C0. ring.
    + apply rsumn_ext. intros i Hi. unfold M.
      replace (n1 (csm i i) * (sqrt 2 * W i) * (sqrt 2 * W i)) with (sqrt 2 * sqrt 2 * (n1 (csm i i) * (W i * W i))) by ring. now rewrite R2.
Qed.

(** The error of the map. *)
Lemma map_error rnd rnd32 fcos fsin u v e n r0 k r (csm : nat -> nat -> C) loss (rd : bool) st Phi :
  arithmetic rnd rnd32 fcos fsin u v e ->
  (0 < n)%nat -> 0 < r0 -> (forall m, (m < n)%nat -> 0 < r m) -> (forall m, (m < n)%nat -> Rabs (k * r m) <= Phi) ->
  0 <= loss -> hermitian n csm ->
  Rabs (ffreq_full rnd rnd32 fcos fsin n csm r0 k r loss rd st - fst (freq_full n csm r0 k r loss rd st))
  <= (phase_factor u v e Phi ^ 2 * q u ^ (5 * n + 16) - 1)
     * (2 * loss * rsumn n (fun i => rsumn n (fun j => n1 ((if rd then off_diag csm else csm) i j)
                              * (Cabs (steer_vector n st (transfer r0 k r) i) * Cabs (steer_vector n st (transfer r0 k r) j))))).
Proof.
  intros AR Hn H0 Hr HP HL HC.
  assert (0 <= Phi) as P0 by (pose proof (HP O Hn); pose proof (Rabs_pos (k * r 0%nat)); lra).
  pose proof (q_ge1 _ _ _ _ _ _ _ AR) as Q. pose proof (phase_factor_ge1 _ _ _ _ _ _ _ AR Phi P0) as F.
  set (S := phase_factor u v e Phi * q u). assert (1 <= S) as HS by (unfold S; rewrite <- (Rmult_1_l 1); apply Rmult_le_compat; lra).
  pose proof (scalar_near _ _ _ _ _ _ _ AR n rd csm (steer_raw st k r) (fsteer rnd rnd32 fcos fsin st k r) S
                (fun m => sqrt 2 * raw_weight st (r m)) HS
                (fun m Hm => steer_near _ _ _ _ _ _ _ AR st k r m Phi (Hr m Hm) (HP m Hm))) as N.
  assert (1 <= S * S) as SS by (rewrite <- (Rmult_1_l 1); apply Rmult_le_compat; lra).
  assert (1 <= S * S * q u ^ (3 * n + 5)) as G by (now apply (mul_q_ge1 _ _ _ _ _ _ _ AR)).
  pose proof (result_near _ _ _ _ _ _ _ AR n st r0 r loss _ _ _ _ Hn H0 Hr HL G N) as [_ E].
  unfold freq_full. rewrite (normalize_divisor n r0 k r Hn H0 Hr).
  unfold ffreq_full. apply Rle_trans with (1 := E).
  replace (S * S * q u ^ (3 * n + 5) * q u ^ (2 * n + 9)) with (phase_factor u v e Phi ^ 2 * q u ^ (5 * n + 16)).
  2:{ unfold S. replace (5 * n + 16)%nat with (2 + (3 * n + 5) + (2 * n + 9))%nat by lia. rewrite (pow_add (q u) (2 + (3 * n + 5))), (pow_add (q u) 2). ring. }
  right. f_equal. clear E N.
  rewrite (pair_sum n rd csm (fun m => raw_weight st (r m)) HC).
  pose proof (divisor_pos n r0 r Hn H0 Hr st) as HD.
  set (M := if rd then off_diag csm else csm).
  rewrite (rsumn_ext n (fun i => rsumn n (fun j => n1 (M i j) * (Cabs (steer_vector n st (transfer r0 k r) i) * Cabs (steer_vector n st (transfer r0 k r) j))))
             (fun i => / divisor n st r0 r * rsumn n (fun j => n1 (M i j) * (raw_weight st (r i) * raw_weight st (r j))))).
  - rewrite rsumn_scal. field. lra.
  - intros i Hi. rewrite <- rsumn_scal. apply rsumn_ext. intros j Hj. rewrite <- (weight_pair n r0 k r Hn H0 Hr st i j Hi Hj). field. lra.
Qed.
