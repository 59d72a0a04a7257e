(** Complex numbers as pairs of reals, finite sums, and the discrete Fourier
    transform: the mathematics behind numpy.fft and the complex arithmetic of
    the frequency-domain code.  Nothing here is specific to acoular. *)
From Coq Require Import List Arith Lia ZArith Bool Reals Lra Ring Field.
Local Open Scope R_scope.

Definition C : Type := (R * R)%type.
Definition re (z : C) : R := fst z.
Definition im (z : C) : R := snd z.
Definition RtoC (x : R) : C := (x, 0).
Definition C0 : C := (0, 0).
Definition C1 : C := (1, 0).
Definition Ci : C := (0, 1).
Definition Cadd (a b : C) : C := (fst a + fst b, snd a + snd b).
Definition Copp (a : C) : C := (- fst a, - snd a).
Definition Csub (a b : C) : C := (fst a - fst b, snd a - snd b).
Definition Cmul (a b : C) : C := (fst a * fst b - snd a * snd b, fst a * snd b + snd a * fst b).
Definition Conj (a : C) : C := (fst a, - snd a).
Definition norm2 (a : C) : R := fst a * fst a + snd a * snd a.
Definition Cinv (a : C) : C := (fst a / norm2 a, - snd a / norm2 a).
Definition Cdiv (a b : C) : C := Cmul a (Cinv b).
Definition Cabs (a : C) : R := sqrt (norm2 a).

Declare Scope C_scope.
Delimit Scope C_scope with C.
Bind Scope C_scope with C.
Infix "+" := Cadd : C_scope.
Infix "-" := Csub : C_scope.
Infix "*" := Cmul : C_scope.
Infix "/" := Cdiv : C_scope.
Notation "- x" := (Copp x) : C_scope.
Local Open Scope C_scope.

Lemma C_ext (a b : C) : fst a = fst b -> snd a = snd b -> a = b.
Proof. destruct a, b; cbn; intros; subst; reflexivity. Qed.

Ltac Csolve := intros; apply C_ext; cbn; ring.

Lemma C_ring_theory : ring_theory C0 C1 Cadd Cmul Csub Copp (@eq C).
Proof. constructor; try (Csolve). Qed.
Add Ring C_ring : C_ring_theory.

Lemma norm2_nonneg a : (0 <= norm2 a)%R.
Proof. unfold norm2. nra. Qed.

Lemma norm2_0 a : norm2 a = 0%R -> a = C0.
Proof.
  unfold norm2. intros H. apply C_ext; cbn; nra.
Qed.

Lemma norm2_pos a : a <> C0 -> (0 < norm2 a)%R.
Proof.
  intros H. destruct (Rle_lt_or_eq_dec 0 (norm2 a) (norm2_nonneg a)) as [Hl|He]; [assumption|].
  exfalso. apply H. apply norm2_0. auto.
Qed.

Lemma C_field_theory : field_theory C0 C1 Cadd Cmul Csub Copp Cdiv Cinv (@eq C).
Proof.
  constructor.
  - apply C_ring_theory.
  - intros H. injection H as H. lra.
  - reflexivity.
  - intros p Hp. pose proof (norm2_pos p Hp) as Hn.
    apply C_ext; cbn; unfold Rdiv; unfold norm2 in *; field; lra.
Qed.
Add Field C_field : C_field_theory.

(* ------------------------------------------------------------------ *)
(** * Conjugation, real part, modulus *)

Lemma Conj_add a b : Conj (a + b) = Conj a + Conj b. Proof. Csolve. Qed.
Lemma Conj_sub a b : Conj (a - b) = Conj a - Conj b. Proof. Csolve. Qed.
Lemma Conj_mul a b : Conj (a * b) = Conj a * Conj b. Proof. Csolve. Qed.
Lemma Conj_opp a : Conj (- a) = - Conj a. Proof. Csolve. Qed.
Lemma Conj_invol a : Conj (Conj a) = a. Proof. Csolve. Qed.
Lemma Conj_RtoC x : Conj (RtoC x) = RtoC x. Proof. Csolve. Qed.
Lemma Conj_0 : Conj C0 = C0. Proof. Csolve. Qed.
Lemma Conj_1 : Conj C1 = C1. Proof. Csolve. Qed.

Lemma norm2_Conj a : norm2 (Conj a) = norm2 a.
Proof. unfold norm2. cbn. ring. Qed.

Lemma mul_Conj a : a * Conj a = RtoC (norm2 a).
Proof. unfold norm2. Csolve. Qed.

Lemma Conj_mul_self a : Conj a * a = RtoC (norm2 a).
Proof. unfold norm2. Csolve. Qed.

Lemma norm2_mul a b : norm2 (a * b) = (norm2 a * norm2 b)%R.
Proof. unfold norm2. cbn. ring. Qed.

Lemma norm2_RtoC x : norm2 (RtoC x) = (x * x)%R.
Proof. unfold norm2. cbn. ring. Qed.

Lemma RtoC_add x y : RtoC (x + y) = RtoC x + RtoC y. Proof. Csolve. Qed.
Lemma RtoC_sub x y : RtoC (x - y) = RtoC x - RtoC y. Proof. Csolve. Qed.
Lemma RtoC_mul x y : RtoC (x * y) = RtoC x * RtoC y. Proof. Csolve. Qed.
Lemma RtoC_opp x : RtoC (- x) = - RtoC x. Proof. Csolve. Qed.
Lemma RtoC_inj x y : RtoC x = RtoC y -> x = y. Proof. intros H. now injection H. Qed.
Lemma RtoC_neq0 x : x <> 0%R -> RtoC x <> C0.
Proof. intros H E. apply H. now apply RtoC_inj. Qed.
Lemma RtoC_inv x : x <> 0%R -> RtoC (/ x) = Cinv (RtoC x).
Proof.
  intros H. apply C_ext; cbn; unfold norm2; cbn; field; auto.
Qed.
Lemma RtoC_div x y : y <> 0%R -> RtoC (x / y) = RtoC x / RtoC y.
Proof. intros H. unfold Cdiv. rewrite <- RtoC_inv, <- RtoC_mul by assumption. reflexivity. Qed.

Lemma Conj_inv a : a <> C0 -> Conj (Cinv a) = Cinv (Conj a).
Proof.
  intros H. pose proof (norm2_pos a H). unfold Cinv. rewrite norm2_Conj. apply C_ext; cbn; field; lra.
Qed.

Lemma Conj_neq0 a : a <> C0 -> Conj a <> C0.
Proof. intros H E. apply H. rewrite <- (Conj_invol a), E. apply Conj_0. Qed.

Lemma Conj_div a b : b <> C0 -> Conj (a / b) = Conj a / Conj b.
Proof. intros H. unfold Cdiv. now rewrite Conj_mul, Conj_inv. Qed.

Lemma re_add a b : re (a + b) = (re a + re b)%R. Proof. reflexivity. Qed.
Lemma im_add a b : im (a + b) = (im a + im b)%R. Proof. reflexivity. Qed.
Lemma re_RtoC_mul x a : re (RtoC x * a) = (x * re a)%R. Proof. cbn. unfold re. ring. Qed.
Lemma im_RtoC_mul x a : im (RtoC x * a) = (x * im a)%R. Proof. cbn. unfold im. ring. Qed.

Lemma real_of_Conj a : Conj a = a <-> a = RtoC (re a).
Proof.
  split; intros H.
  - apply (f_equal snd) in H. cbn in H. apply C_ext; cbn; [reflexivity|]. lra.
  - rewrite H. apply Conj_RtoC.
Qed.

Lemma Cabs_nonneg a : (0 <= Cabs a)%R. Proof. apply sqrt_pos. Qed.
Lemma Cabs_sqr a : (Cabs a * Cabs a)%R = norm2 a.
Proof. apply sqrt_sqrt, norm2_nonneg. Qed.
Lemma Cabs_mul a b : Cabs (a * b) = (Cabs a * Cabs b)%R.
Proof. unfold Cabs. rewrite norm2_mul. apply sqrt_mult; apply norm2_nonneg. Qed.
Lemma Cabs_Conj a : Cabs (Conj a) = Cabs a.
Proof. unfold Cabs. now rewrite norm2_Conj. Qed.
Lemma Cabs_RtoC x : Cabs (RtoC x) = Rabs x.
Proof. unfold Cabs. rewrite norm2_RtoC. apply sqrt_Rsqr_abs. Qed.
Lemma Cabs_pos a : a <> C0 -> (0 < Cabs a)%R.
Proof. intros H. apply sqrt_lt_R0. now apply norm2_pos. Qed.
Lemma Cabs_0 : Cabs C0 = 0%R.
Proof. unfold Cabs, norm2. cbn. replace (0 * 0 + 0 * 0)%R with 0%R by ring. apply sqrt_0. Qed.

Lemma re_le_Cabs a : (re a <= Cabs a)%R.
Proof.
  pose proof (Cabs_nonneg a). pose proof (Cabs_sqr a). unfold norm2, re in *.
  destruct (Rle_lt_dec (fst a) (Cabs a)) as [|Hlt]; [assumption|]. nra.
Qed.

(** Triangle inequality. *)
Lemma Cabs_triangle a b : (Cabs (a + b) <= Cabs a + Cabs b)%R.
Proof.
  pose proof (Cabs_nonneg a) as Ha. pose proof (Cabs_nonneg b) as Hb.
  pose proof (Cabs_nonneg (a + b)) as Hab.
  pose proof (Cabs_sqr a) as Ea. pose proof (Cabs_sqr b) as Eb. pose proof (Cabs_sqr (a + b)) as Eab.
  pose proof (re_le_Cabs (a * Conj b)) as Hr. rewrite Cabs_mul, Cabs_Conj in Hr.
  assert (norm2 (a + b) = norm2 a + norm2 b + 2 * re (a * Conj b))%R as E
    by (unfold norm2, re; cbn; ring).
  destruct (Rle_lt_dec (Cabs (a + b)) (Cabs a + Cabs b)) as [|Hlt]; [assumption|]. nra.
Qed.

(* ------------------------------------------------------------------ *)
(** * Finite sums *)

Fixpoint csum (n : nat) (f : nat -> C) : C :=
  match n with O => C0 | S m => csum m f + f m end.

Fixpoint rsumn (n : nat) (f : nat -> R) : R :=
  match n with O => 0%R | S m => (rsumn m f + f m)%R end.

Lemma csum_ext n f g : (forall k, (k < n)%nat -> f k = g k) -> csum n f = csum n g.
Proof.
  induction n as [|n IH]; intros H; cbn; [reflexivity|].
  rewrite IH by (intros; apply H; lia). rewrite (H n) by lia. reflexivity.
Qed.

Lemma csum_zero n : csum n (fun _ => C0) = C0.
Proof. induction n as [|n IH]; cbn; [reflexivity|]. rewrite IH. ring. Qed.

Lemma csum_0 n f : (forall k, (k < n)%nat -> f k = C0) -> csum n f = C0.
Proof. intros H. rewrite (csum_ext n f (fun _ => C0)) by assumption. apply csum_zero. Qed.

Lemma csum_add n f g : csum n (fun k => f k + g k) = csum n f + csum n g.
Proof. induction n as [|n IH]; cbn; [ring|]. rewrite IH. ring. Qed.

Lemma csum_sub n f g : csum n (fun k => f k - g k) = csum n f - csum n g.
Proof. induction n as [|n IH]; cbn; [ring|]. rewrite IH. ring. Qed.

Lemma csum_scal n a f : csum n (fun k => a * f k) = a * csum n f.
Proof. induction n as [|n IH]; cbn; [ring|]. rewrite IH. ring. Qed.

Lemma csum_scal_r n a f : csum n (fun k => f k * a) = csum n f * a.
Proof. induction n as [|n IH]; cbn; [ring|]. rewrite IH. ring. Qed.

Lemma csum_swap n m f :
  csum n (fun i => csum m (fun j => f i j)) = csum m (fun j => csum n (fun i => f i j)).
Proof.
  induction n as [|n IH]; cbn; [symmetry; apply csum_zero|].
  rewrite IH, <- csum_add. reflexivity.
Qed.

Lemma csum_conj n f : Conj (csum n f) = csum n (fun k => Conj (f k)).
Proof. induction n as [|n IH]; cbn; [apply Conj_0|]. now rewrite Conj_add, IH. Qed.

Lemma csum_split n m f : csum (n + m) f = csum n f + csum m (fun k => f (n + k)%nat).
Proof.
  induction m as [|m IH]; cbn.
  - rewrite Nat.add_0_r. ring.
  - rewrite Nat.add_succ_r. cbn. rewrite IH. ring.
Qed.

Lemma csum_first n f : csum (S n) f = f 0%nat + csum n (fun k => f (S k)).
Proof.
  change (S n) with (1 + n)%nat. rewrite csum_split. cbn [csum Nat.add]. ring.
Qed.

Lemma csum_single n j f : (j < n)%nat -> (forall k, (k < n)%nat -> k <> j -> f k = C0) ->
  csum n f = f j.
Proof.
  intros Hj H. replace n with (j + (S (n - S j)))%nat by lia.
  rewrite csum_split, csum_first, Nat.add_0_r.
  rewrite csum_0 by (intros k Hk; apply H; lia).
  rewrite (csum_0 (n - S j)) by (intros k Hk; apply H; lia). ring.
Qed.

Lemma rsumn_ext n f g : (forall k, (k < n)%nat -> f k = g k) -> rsumn n f = rsumn n g.
Proof.
  induction n as [|n IH]; intros H; cbn; [reflexivity|].
  rewrite IH by (intros; apply H; lia). rewrite (H n) by lia. reflexivity.
Qed.

Lemma rsumn_zero n : rsumn n (fun _ => 0%R) = 0%R.
Proof. induction n as [|n IH]; cbn; [reflexivity|]. rewrite IH. ring. Qed.

Lemma rsumn_add n f g : rsumn n (fun k => f k + g k)%R = (rsumn n f + rsumn n g)%R.
Proof. induction n as [|n IH]; cbn; [ring|]. rewrite IH. ring. Qed.

Lemma rsumn_scal n a f : rsumn n (fun k => a * f k)%R = (a * rsumn n f)%R.
Proof. induction n as [|n IH]; cbn; [ring|]. rewrite IH. ring. Qed.

Lemma rsumn_swap n m f :
  rsumn n (fun i => rsumn m (fun j => f i j)) = rsumn m (fun j => rsumn n (fun i => f i j)).
Proof.
  induction n as [|n IH]; cbn; [symmetry; apply rsumn_zero|].
  rewrite IH, <- rsumn_add. reflexivity.
Qed.

Lemma rsumn_const n a : rsumn n (fun _ => a) = (INR n * a)%R.
Proof. induction n as [|n IH]; [cbn; ring|]. rewrite S_INR. cbn [rsumn]. rewrite IH. ring. Qed.

Lemma rsumn_split n m f : rsumn (n + m) f = (rsumn n f + rsumn m (fun k => f (n + k)%nat))%R.
Proof.
  induction m as [|m IH]; cbn.
  - rewrite Nat.add_0_r. ring.
  - rewrite Nat.add_succ_r. cbn. rewrite IH. ring.
Qed.

Lemma rsumn_first n f : rsumn (S n) f = (f 0%nat + rsumn n (fun k => f (S k)))%R.
Proof. change (S n) with (1 + n)%nat. rewrite rsumn_split. cbn [rsumn Nat.add]. ring. Qed.

Lemma rsumn_0 n f : (forall k, (k < n)%nat -> f k = 0%R) -> rsumn n f = 0%R.
Proof. intros H. rewrite (rsumn_ext n f (fun _ => 0%R)) by assumption. apply rsumn_zero. Qed.

Lemma rsumn_single n j f : (j < n)%nat -> (forall k, (k < n)%nat -> k <> j -> f k = 0%R) ->
  rsumn n f = f j.
Proof.
  intros Hj H. replace n with (j + (S (n - S j)))%nat by lia.
  rewrite rsumn_split, rsumn_first, Nat.add_0_r.
  rewrite rsumn_0 by (intros k Hk; apply H; lia).
  rewrite (rsumn_0 (n - S j)) by (intros k Hk; apply H; lia). ring.
Qed.

Lemma rsumn_le n f g : (forall k, (k < n)%nat -> (f k <= g k)%R) -> (rsumn n f <= rsumn n g)%R.
Proof.
  induction n as [|n IH]; intros H; cbn; [lra|].
  assert (rsumn n f <= rsumn n g)%R by (apply IH; intros; apply H; lia).
  specialize (H n ltac:(lia)). lra.
Qed.

Lemma rsumn_nonneg n f : (forall k, (k < n)%nat -> (0 <= f k)%R) -> (0 <= rsumn n f)%R.
Proof. intros H. rewrite <- (rsumn_zero n). apply rsumn_le. assumption. Qed.

Lemma rsumn_pos n f : (0 < n)%nat -> (forall k, (k < n)%nat -> (0 < f k)%R) -> (0 < rsumn n f)%R.
Proof.
  intros Hn H. destruct n as [|n]; [lia|]. cbn.
  pose proof (rsumn_nonneg n f ltac:(intros; left; apply H; lia)).
  specialize (H n ltac:(lia)). lra.
Qed.

Lemma csum_RtoC n f : csum n (fun k => RtoC (f k)) = RtoC (rsumn n f).
Proof. induction n as [|n IH]; cbn; [reflexivity|]. now rewrite IH, RtoC_add. Qed.

Lemma re_csum n f : re (csum n f) = rsumn n (fun k => re (f k)).
Proof. induction n as [|n IH]; cbn; [reflexivity|]. unfold re in *. cbn. now rewrite IH. Qed.

Lemma im_csum n f : im (csum n f) = rsumn n (fun k => im (f k)).
Proof. induction n as [|n IH]; cbn; [reflexivity|]. unfold im in *. cbn. now rewrite IH. Qed.

Lemma Cabs_csum_le n f : (Cabs (csum n f) <= rsumn n (fun k => Cabs (f k)))%R.
Proof.
  induction n as [|n IH]; cbn; [rewrite Cabs_0; lra|].
  apply Rle_trans with (1 := Cabs_triangle _ _). lra.
Qed.

(** |sum|^2 as a double sum. *)
Lemma norm2_csum n f :
  RtoC (norm2 (csum n f)) = csum n (fun i => csum n (fun j => f i * Conj (f j))).
Proof.
  rewrite <- mul_Conj, csum_conj, <- csum_scal_r. apply csum_ext. intros i _.
  rewrite csum_scal. reflexivity.
Qed.

(* ------------------------------------------------------------------ *)
(** * Roots of unity *)

Definition cexp (t : R) : C := (cos t, sin t).

Lemma cexp_add a b : cexp (a + b) = cexp a * cexp b.
Proof. unfold cexp. apply C_ext; cbn; rewrite ?cos_plus, ?sin_plus; ring. Qed.

Lemma cexp_0 : cexp 0 = C1.
Proof. unfold cexp. now rewrite cos_0, sin_0. Qed.

Lemma cexp_conj a : Conj (cexp a) = cexp (- a).
Proof. unfold cexp. apply C_ext; cbn; [now rewrite cos_neg|now rewrite sin_neg]. Qed.

Lemma norm2_cexp a : norm2 (cexp a) = 1%R.
Proof. unfold norm2, cexp. cbn. pose proof (sin2_cos2 a) as H. unfold Rsqr in H. lra. Qed.

Lemma Cabs_cexp a : Cabs (cexp a) = 1%R.
Proof. unfold Cabs. rewrite norm2_cexp. apply sqrt_1. Qed.

Lemma cexp_neq0 a : cexp a <> C0.
Proof. intros E. pose proof (norm2_cexp a) as H. rewrite E in H. unfold norm2 in H. cbn in H. lra. Qed.

Lemma cexp_2PI_nat k : cexp (2 * PI * INR k) = C1.
Proof.
  induction k as [|k IH]; [cbn [INR]; rewrite Rmult_0_r; apply cexp_0|].
  rewrite S_INR, Rmult_plus_distr_l, Rmult_1_r, cexp_add, IH.
  replace (cexp (2 * PI)) with C1; [ring|]. unfold cexp. now rewrite cos_2PI, sin_2PI.
Qed.

(** [w n p] = exp(2 pi i p / n). *)
Definition w (n : nat) (p : nat) : C := cexp (2 * PI * INR p / INR n).

Lemma w_add n p q : w n (p + q) = w n p * w n q.
Proof.
  unfold w. rewrite <- cexp_add. f_equal. rewrite plus_INR. unfold Rdiv. ring.
Qed.

Lemma w_0 n : w n 0 = C1.
Proof. unfold w. cbn [INR]. unfold Rdiv. rewrite Rmult_0_r, Rmult_0_l. apply cexp_0. Qed.

Lemma w_period n q : (0 < n)%nat -> w n (n * q) = C1.
Proof.
  intros Hn. unfold w. rewrite mult_INR.
  replace (2 * PI * (INR n * INR q) / INR n)%R with (2 * PI * INR q)%R; [apply cexp_2PI_nat|].
  field. apply not_0_INR. lia.
Qed.

Lemma w_mod n p : (0 < n)%nat -> w n (p mod n) = w n p.
Proof.
  intros Hn. rewrite (Nat.div_mod p n) at 2 by lia. rewrite w_add, w_period by assumption. ring.
Qed.

Lemma w_congr n p q : (0 < n)%nat -> (p mod n = q mod n)%nat -> w n p = w n q.
Proof. intros Hn H. rewrite <- (w_mod n p), <- (w_mod n q) by assumption. now rewrite H. Qed.

Lemma w_conj_mul n p : Conj (w n p) * w n p = C1.
Proof. rewrite Conj_mul_self. unfold w. now rewrite norm2_cexp. Qed.

Lemma w_neq0 n p : w n p <> C0.
Proof. apply cexp_neq0. Qed.

Lemma w_neq_1 n p : (0 < p < n)%nat -> w n p <> C1.
Proof.
  intros [Hp Hn] E. unfold w, cexp in E. injection E as Ec _.
  set (t := (2 * PI * INR p / INR n)%R) in *.
  assert (HnR : (0 < INR n)%R) by (apply lt_0_INR; lia).
  assert (HpR : (0 < INR p)%R) by (apply lt_0_INR; lia).
  assert (Hlt : (INR p < INR n)%R) by (apply lt_INR; lia).
  assert (Ht : (t / 2 = PI * (INR p / INR n))%R) by (unfold t; field; lra).
  assert (Hq : (0 < INR p / INR n < 1)%R).
  { split; [apply Rdiv_lt_0_compat; assumption|].
    apply Rmult_lt_reg_r with (INR n); [assumption|]. unfold Rdiv. rewrite Rmult_assoc, Rinv_l by lra. lra. }
  pose proof PI_RGT_0.
  assert (Hs : (0 < sin (t / 2))%R).
  { apply sin_gt_0; rewrite Ht; nra. }
  pose proof (cos_2a_sin (t / 2)) as H2. replace (2 * (t / 2))%R with t in H2 by field. nra.
Qed.

(** Orthogonality of the characters. *)
Lemma geometric n z : (C1 - z) * csum n (fun k => Nat.iter k (Cmul z) C1) = C1 - Nat.iter n (Cmul z) C1.
Proof.
  induction n as [|n IH]; cbn [csum].
  - cbn. ring.
  - change (Nat.iter (S n) (Cmul z) C1) with (z * Nat.iter n (Cmul z) C1).
    set (S := csum n _) in *. set (p := Nat.iter n _ _) in *.
    transitivity ((C1 - z) * S + (C1 - z) * p); [ring|].
    rewrite IH. ring.
Qed.

Lemma w_pow n p k : w n (p * k) = Nat.iter k (Cmul (w n p)) C1.
Proof.
  induction k as [|k IH].
  - rewrite Nat.mul_0_r. apply w_0.
  - rewrite Nat.mul_succ_r, Nat.add_comm, w_add, IH. reflexivity.
Qed.

Lemma w_sum_0 n p : (0 < p < n)%nat -> csum n (fun k => w n (p * k)) = C0.
Proof.
  intros Hp.
  rewrite (csum_ext n _ (fun k => Nat.iter k (Cmul (w n p)) C1)) by (intros; apply w_pow).
  pose proof (geometric n (w n p)) as G. rewrite <- (w_pow n p n) in G.
  rewrite (Nat.mul_comm p n), w_period in G by lia.
  assert (Hz : C1 - w n p <> C0).
  { intros E. apply (w_neq_1 n p Hp). transitivity (C1 - (C1 - w n p)); [ring|]. rewrite E. ring. }
  set (S := csum n _) in *.
  assert (E : S = (C1 - w n p) * S / (C1 - w n p)) by (field; assumption).
  rewrite E, G. field. assumption.
Qed.

Lemma w_sum_n n : csum n (fun k => w n (0 * k)) = RtoC (INR n).
Proof.
  rewrite (csum_ext n _ (fun _ => RtoC 1)) by (intros; rewrite Nat.mul_0_l; apply w_0).
  rewrite csum_RtoC, rsumn_const. f_equal. ring.
Qed.

(* ------------------------------------------------------------------ *)
(** * The discrete Fourier transform (numpy.fft.fft and ifft) *)

Definition dft (n : nat) (x : nat -> C) (k : nat) : C := csum n (fun j => x j * Conj (w n (j * k))).
Definition idft (n : nat) (X : nat -> C) (j : nat) : C :=
  RtoC (/ INR n) * csum n (fun k => X k * w n (j * k)).

Lemma w_diff n i j k : (0 < n)%nat -> (i < n)%nat ->
  Conj (w n (i * k)) * w n (j * k) = w n (((j + n - i) mod n) * k).
Proof.
  intros Hn Hi.
  assert (E : w n (j * k) = w n (((j + n - i) mod n) * k) * w n (i * k)).
  { rewrite <- w_add. apply w_congr; [assumption|].
    rewrite <- Nat.mul_add_distr_r.
    rewrite (Nat.mul_mod j), (Nat.mul_mod (_ + i)) by lia.
    rewrite Nat.add_mod_idemp_l by lia.
    replace (j + n - i + i)%nat with (j + 1 * n)%nat by lia.
    rewrite Nat.mod_add by lia. reflexivity. }
  rewrite E.
  transitivity (w n (((j + n - i) mod n) * k) * (Conj (w n (i * k)) * w n (i * k))); [ring|].
  rewrite w_conj_mul. ring.
Qed.

Lemma characters_orthogonal n i j : (i < n)%nat -> (j < n)%nat ->
  csum n (fun k => Conj (w n (i * k)) * w n (j * k)) = if (i =? j)%nat then RtoC (INR n) else C0.
Proof.
  intros Hi Hj. rewrite (csum_ext n _ (fun k => w n (((j + n - i) mod n) * k))) by (intros; apply w_diff; lia).
  destruct (Nat.eqb_spec i j) as [->|Hne].
  - replace (j + n - j)%nat with n by lia. rewrite Nat.mod_same by lia. apply w_sum_n.
  - apply w_sum_0. split; [|apply Nat.mod_upper_bound; lia].
    apply Nat.neq_0_lt_0. intros E0. apply Nat.mod_divides in E0; [|lia].
    destruct E0 as [[|[|q]] Eq]; nia.
Qed.

Theorem idft_dft n x j : (j < n)%nat -> idft n (dft n x) j = x j.
Proof.
  intros Hj. assert (HnR : INR n <> 0%R) by (apply not_0_INR; lia).
  unfold idft, dft.
  rewrite (csum_ext n _ (fun k => csum n (fun i => x i * (Conj (w n (i * k)) * w n (j * k))))).
  2:{ intros k _. rewrite <- csum_scal_r. apply csum_ext. intros; ring. }
  rewrite csum_swap.
  rewrite (csum_ext n _ (fun i => x i * (if (i =? j)%nat then RtoC (INR n) else C0))).
  2:{ intros i Hi. rewrite csum_scal, characters_orthogonal by assumption. reflexivity. }
  rewrite (csum_single n j); [|assumption|intros i Hi Hne; destruct (Nat.eqb_spec i j); [congruence|ring]].
  rewrite Nat.eqb_refl.
  transitivity (x j * (RtoC (/ INR n) * RtoC (INR n))); [ring|].
  rewrite <- RtoC_mul, Rinv_l by assumption. change (RtoC 1) with C1. ring.
Qed.

(** Cyclic shifts do not change a sum. *)
Lemma csum_cyclic n s g : (s <= n)%nat -> csum n (fun m => g ((m + n - s) mod n)%nat) = csum n g.
Proof.
  intros Hs. destruct (Nat.eq_dec n 0) as [->|Hn]; [reflexivity|].
  destruct (Nat.eq_dec s n) as [->|Hne].
  { apply csum_ext. intros k Hk. f_equal. replace (k + n - n)%nat with k by lia. now apply Nat.mod_small. }
  transitivity (csum (s + (n - s)) (fun m => g ((m + n - s) mod n)%nat)); [f_equal; lia|].
  transitivity (csum ((n - s) + s) g); [|f_equal; lia].
  rewrite !csum_split.
  rewrite (csum_ext s (fun m => g ((m + n - s) mod n)%nat) (fun k => g ((n - s) + k)%nat)).
  2:{ intros k Hk. f_equal. rewrite Nat.mod_small by lia. lia. }
  rewrite (csum_ext (n - s) (fun k => g ((s + k + n - s) mod n)%nat) g).
  2:{ intros k Hk. f_equal. replace (s + k + n - s)%nat with (k + 1 * n)%nat by lia.
      rewrite Nat.mod_add by lia. apply Nat.mod_small. lia. }
  ring.
Qed.

(** Cyclic convolution. *)
Definition circ (n : nat) (a b : nat -> C) (m : nat) : C :=
  csum n (fun j => a j * b ((m + n - j) mod n)%nat).

Theorem dft_circ n a b k : dft n (circ n a b) k = dft n a k * dft n b k.
Proof.
  destruct (Nat.eq_dec n 0) as [->|Hn]; [cbn; ring|].
  unfold dft, circ.
  rewrite (csum_ext n _ (fun m => csum n (fun j =>
     (a j * Conj (w n (j * k))) * (b ((m + n - j) mod n)%nat * Conj (w n (((m + n - j) mod n) * k)))))).
  2:{ intros m Hm. rewrite <- csum_scal_r. apply csum_ext. intros j Hj.
      rewrite <- (w_diff n j m k) by lia. rewrite Conj_mul, Conj_invol.
      transitivity (a j * b ((m + n - j) mod n)%nat * Conj (w n (m * k)) * (Conj (w n (j * k)) * w n (j * k))).
      - rewrite w_conj_mul. ring.
      - ring. }
  rewrite csum_swap.
  rewrite <- csum_scal_r. apply csum_ext. intros j Hj.
  rewrite csum_scal. f_equal.
  apply (csum_cyclic n j (fun p => b p * Conj (w n (p * k)))). lia.
Qed.

Lemma dft_ext n x y k : (forall j, (j < n)%nat -> x j = y j) -> dft n x k = dft n y k.
Proof. intros H. unfold dft. apply csum_ext. intros j Hj. now rewrite H. Qed.

Lemma idft_ext n x y k : (forall j, (j < n)%nat -> x j = y j) -> idft n x k = idft n y k.
Proof. intros H. unfold idft. f_equal. apply csum_ext. intros j Hj. now rewrite H. Qed.

Lemma dft_add n x y k : dft n (fun j => x j + y j) k = dft n x k + dft n y k.
Proof. unfold dft. rewrite <- csum_add. apply csum_ext. intros; ring. Qed.

Lemma dft_scal n a x k : dft n (fun j => a * x j) k = a * dft n x k.
Proof. unfold dft. rewrite <- csum_scal. apply csum_ext. intros; ring. Qed.

Lemma idft_add n x y k : idft n (fun j => x j + y j) k = idft n x k + idft n y k.
Proof.
  unfold idft. rewrite (csum_ext n _ (fun i => x i * w n (k * i) + y i * w n (k * i))) by (intros; ring).
  rewrite csum_add. ring.
Qed.

Lemma idft_zero n k : idft n (fun _ => C0) k = C0.
Proof. unfold idft. rewrite csum_0 by (intros; ring). ring. Qed.

(** Parseval's identity. *)
Theorem parseval n x :
  csum n (fun k => dft n x k * Conj (dft n x k)) = RtoC (INR n) * csum n (fun j => x j * Conj (x j)).
Proof.
  unfold dft.
  rewrite (csum_ext n _ (fun k => csum n (fun i => csum n (fun j =>
            x i * Conj (x j) * (Conj (w n (i * k)) * w n (j * k)))))).
  2:{ intros k _. rewrite csum_conj, <- csum_scal_r. apply csum_ext. intros i _.
      rewrite <- csum_scal. apply csum_ext. intros j _. rewrite Conj_mul, Conj_invol. ring. }
  rewrite csum_swap. rewrite <- csum_scal. apply csum_ext. intros i Hi.
  rewrite csum_swap.
  rewrite (csum_ext n _ (fun j => x i * Conj (x j) * (if (i =? j)%nat then RtoC (INR n) else C0))).
  2:{ intros j Hj. rewrite csum_scal, characters_orthogonal by assumption. reflexivity. }
  rewrite (csum_single n i); [|assumption|intros j Hj Hne; destruct (Nat.eqb_spec i j); [congruence|ring]].
  rewrite Nat.eqb_refl. ring.
Qed.

(* ------------------------------------------------------------------ *)
(** * Real transforms (numpy.fft.rfft and irfft of even length) *)

(** rfft keeps the values 0..n/2. *)
Definition rfft (n : nat) (x : nat -> R) (k : nat) : C := dft n (fun j => RtoC (x j)) k.

(** irfft to length n = 2h: the imaginary parts at 0 and h are ignored, the
    other half is the conjugate mirror image. *)
Definition mirror (h : nat) (Y : nat -> C) (k : nat) : C :=
  if (k =? 0)%nat then RtoC (re (Y 0%nat))
  else if (k <? h)%nat then Y k
  else if (k =? h)%nat then RtoC (re (Y h))
  else Conj (Y (2 * h - k)%nat).
Definition irfft (h : nat) (Y : nat -> C) (j : nat) : R := re (idft (2 * h) (mirror h Y) j).

(** The transform of a real sequence is its own mirror image. *)
Lemma dft_real_mirror n x k : (0 < k < n)%nat -> Conj (rfft n x k) = rfft n x (n - k).
Proof.
  intros Hk. unfold rfft, dft. rewrite csum_conj. apply csum_ext. intros j Hj.
  rewrite Conj_mul, Conj_RtoC. f_equal. f_equal.
  (* conj w^(jk) = w^(j(n-k)) *)
  assert (E : w n (j * k) * w n (j * (n - k)) = C1).
  { rewrite <- w_add. replace (j * k + j * (n - k))%nat with (n * j)%nat by nia. apply w_period. lia. }
  transitivity (Conj (w n (j * k)) * (w n (j * k) * w n (j * (n - k)))).
  - rewrite E. ring.
  - transitivity (Conj (w n (j * k)) * w n (j * k) * w n (j * (n - k))); [ring|].
    rewrite w_conj_mul. ring.
Qed.

Lemma rfft_0_real n x : rfft n x 0 = RtoC (rsumn n x).
Proof.
  unfold rfft, dft. rewrite <- csum_RtoC. apply csum_ext. intros j _.
  rewrite Nat.mul_0_r, w_0, Conj_1. ring.
Qed.

Lemma rfft_half_real h x : (0 < h)%nat -> Conj (rfft (2 * h) x h) = rfft (2 * h) x h.
Proof. intros Hh. rewrite dft_real_mirror by lia. f_equal. lia. Qed.

(** [Y] is the spectrum of a real signal of length 2h. *)
Definition hermitian_spectrum (h : nat) (F : nat -> C) : Prop :=
  Conj (F 0%nat) = F 0%nat /\ forall k, (0 < k < 2 * h)%nat -> Conj (F k) = F (2 * h - k)%nat.

Lemma rfft_hermitian h x : hermitian_spectrum h (rfft (2 * h) x).
Proof.
  split; [rewrite rfft_0_real; apply Conj_RtoC|]. intros k Hk. now apply dft_real_mirror.
Qed.

Lemma hermitian_mul h F G : hermitian_spectrum h F -> hermitian_spectrum h G ->
  hermitian_spectrum h (fun k => F k * G k).
Proof.
  intros [F0 Fk] [G0 Gk]. split; [now rewrite Conj_mul, F0, G0|].
  intros k Hk. now rewrite Conj_mul, Fk, Gk.
Qed.

Lemma hermitian_add h F G : hermitian_spectrum h F -> hermitian_spectrum h G ->
  hermitian_spectrum h (fun k => F k + G k).
Proof.
  intros [F0 Fk] [G0 Gk]. split; [now rewrite Conj_add, F0, G0|].
  intros k Hk. now rewrite Conj_add, Fk, Gk.
Qed.

Lemma hermitian_zero h : hermitian_spectrum h (fun _ => C0).
Proof. split; intros; apply Conj_0. Qed.

Lemma mirror_hermitian h F k : hermitian_spectrum h F -> (k < 2 * h)%nat -> mirror h F k = F k.
Proof.
  intros [F0 Fk] Hk. unfold mirror.
  destruct (Nat.eqb_spec k 0) as [->|H0]; [symmetry; now apply real_of_Conj|].
  destruct (Nat.ltb_spec k h) as [|H1]; [reflexivity|].
  destruct (Nat.eqb_spec k h) as [->|H2].
  - symmetry. apply real_of_Conj. rewrite Fk by lia. f_equal. lia.
  - rewrite Fk by lia. f_equal. lia.
Qed.

(** irfft inverts rfft. *)
Theorem irfft_rfft h x j : (j < 2 * h)%nat -> irfft h (rfft (2 * h) x) j = x j.
Proof.
  intros Hj. unfold irfft.
  rewrite (idft_ext _ _ (dft (2 * h) (fun j => RtoC (x j)))).
  - rewrite idft_dft by assumption. reflexivity.
  - intros k Hk. rewrite mirror_hermitian by (auto using rfft_hermitian). reflexivity.
Qed.

(** Cyclic convolution of real sequences. *)
Definition rcirc (n : nat) (a b : nat -> R) (m : nat) : R :=
  rsumn n (fun j => a j * b ((m + n - j) mod n)%nat)%R.

Theorem irfft_mul h a b j : (j < 2 * h)%nat ->
  irfft h (fun k => rfft (2 * h) a k * rfft (2 * h) b k) j = rcirc (2 * h) a b j.
Proof.
  intros Hj. unfold irfft.
  rewrite (idft_ext _ _ (dft (2 * h) (circ (2 * h) (fun j => RtoC (a j)) (fun j => RtoC (b j))))).
  - rewrite idft_dft by assumption. unfold circ, rcirc.
    rewrite (csum_ext (2 * h) _ (fun i => RtoC (a i * b ((j + 2 * h - i) mod (2 * h))%nat)))
      by (intros; now rewrite RtoC_mul).
    rewrite csum_RtoC. reflexivity.
  - intros k Hk. rewrite mirror_hermitian by (auto using hermitian_mul, rfft_hermitian).
    rewrite dft_circ. reflexivity.
Qed.

Lemma irfft_ext h F G j : (forall k, (k <= h)%nat -> F k = G k) -> irfft h F j = irfft h G j.
Proof.
  intros H. unfold irfft. f_equal. apply idft_ext. intros k Hk. unfold mirror.
  destruct (Nat.eqb_spec k 0); [now rewrite H by lia|].
  destruct (Nat.ltb_spec k h); [now rewrite H by lia|].
  destruct (Nat.eqb_spec k h); [now rewrite H by lia|]. now rewrite H by lia.
Qed.

Lemma irfft_add h F G j : hermitian_spectrum h F -> hermitian_spectrum h G ->
  irfft h (fun k => F k + G k) j = (irfft h F j + irfft h G j)%R.
Proof.
  intros HF HG. unfold irfft. rewrite <- re_add. f_equal. rewrite <- idft_add. apply idft_ext.
  intros k Hk. rewrite !mirror_hermitian by (auto using hermitian_add). reflexivity.
Qed.
