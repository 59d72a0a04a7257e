(** Coefficients of TimeExpAverage, FiltFreqWeight, FiltOctave, FiltFiltOctave and
    OctaveFilterBank (/repo/acoular/tprocess.py:1483-1770). *)
From Coq Require Import List Arith Lia ZArith Bool Reals Lra.
From Verif Require Import Traits Stream Cplx BlockOps Response.
Import ListNotations.
Local Open Scope R_scope.

(* ------------------------------------------------------------------ *)
(** * TimeExpAverage, tprocess.py:1595-1618 *)

(** The keys of [weight], tprocess.py:1602. *)
Inductive time_weight := Fast | Slow | Impulse.
Definition time_constant (t : time_weight) : R :=
  match t with Fast => 0.125 | Slow => 1.0 | Impulse => 0.035 end.

(** tprocess.py:1614-1618: [alpha], and [tf2sos([alpha], [1, alpha - 1])].
    scipy gives the numerator a zero at the origin, one section. *)
Definition exp_alpha (t : time_weight) (fs : R) : R := 1 - exp (- (1) / time_constant t / fs).
Definition exp_average_sos (t : time_weight) (fs : R) : list section :=
  let alpha := exp_alpha t fs in [mkSec alpha 0 0 (alpha - 1) 0].

Definition time_exp_average_result (t : time_weight) (fs : R) (nch : nat) (src : source (list R)) (num : nat) : trace (list R) :=
  filter_result (exp_average_sos t fs) nch src num.

Lemma one_pole c q x y : b1 c = 0 -> b2 c = 0 -> a1 c = - q -> a2 c = 0 -> section_eq c x y ->
  forall n, (n < length x)%nat -> nth n y 0 = b0 c * rsumn (S n) (fun k => q ^ (n - k) * nth k x 0).
Proof.
  intros H1 H2 H3 H4 [Hl H]. induction n as [|n IH]; intros Hn.
  - specialize (H 0%Z ltac:(lia)). unfold at_ in H. cbn in H. rewrite H1, H2, H3, H4 in H. rewrite H. cbn. ring.
  - specialize (H (Z.of_nat (S n)) ltac:(lia)). rewrite H1, H2, H3, H4 in H. unfold at_ in H.
    replace (Z.of_nat (S n) - 1)%Z with (Z.of_nat n) in H by lia.
    destruct (Z.ltb_spec (Z.of_nat (S n)) 0); [lia|]. destruct (Z.ltb_spec (Z.of_nat n) 0); [lia|].
    rewrite !Nat2Z.id in H. rewrite H. rewrite IH by lia.
    change (rsumn (S (S n)) ?f) with (rsumn (S n) f + f (S n)). cbv beta.
    rewrite (rsumn_ext (S n) (fun k => q ^ (S n - k) * nth k x 0) (fun k => q * (q ^ (n - k) * nth k x 0))).
    2: { intros k Hk. replace (S n - k)%nat with (S (n - k)) by lia. cbn [pow]. ring. }
    rewrite rsumn_scal. rewrite Nat.sub_diag. cbn [pow]. ring.
Qed.

Lemma exp_pow t fs n : 0 < fs -> (1 - exp_alpha t fs) ^ n = exp (- (INR n / (time_constant t * fs))).
Proof.
  intros Hf. assert (Ht : time_constant t <> 0) by (destruct t; cbn; lra). unfold exp_alpha.
  replace (1 - (1 - exp (- (1) / time_constant t / fs))) with (exp (- (1) / time_constant t / fs)) by ring.
  induction n as [|n IH].
  - cbn [pow INR]. rewrite <- exp_0. f_equal. field. lra.
  - cbn [pow]. rewrite IH, <- exp_plus. f_equal. rewrite S_INR. field. lra.
Qed.

(* ------------------------------------------------------------------ *)
(** * FiltFreqWeight, tprocess.py:1621-1657 *)

(** Real polynomials, ascending coefficients (numpy's and scipy's lists are
    descending in s and ascending in the delay w = 1/z). *)
Fixpoint padd (p q : list R) : list R :=
  match p, q with
  | [], _ => q
  | _, [] => p
  | a :: p', b :: q' => (a + b) :: padd p' q'
  end.
Definition pscale (x : R) (p : list R) : list R := map (Rmult x) p.
Fixpoint pmul (p q : list R) : list R :=
  match p with
  | [] => []
  | a :: p' => padd (pscale a q) (0 :: pmul p' q)
  end.
Fixpoint ppow (p : list R) (n : nat) : list R :=
  match n with O => [1] | S m => pmul p (ppow p m) end.

(** scipy.signal.bilinear before normalisation: the coefficient of s^i goes with
    (2 fs (1 - w))^i (1 + w)^(M - i), written in nested form; M is the larger
    degree of numerator and denominator. *)
Fixpoint bilin (M : nat) (fs : R) (c : list R) : list R :=
  match c with
  | [] => []
  | a :: r => padd (pscale a (ppow [1; 1] M)) (pmul [2 * fs; - (2 * fs)] (bilin (M - 1) fs r))
  end.
(** scipy.signal.bilinear: both divided by the first coefficient of the denominator. *)
Definition bilinear (b a : list R) (fs : R) : list R * list R :=
  let M := Nat.max (length b - 1) (length a - 1) in
  let a' := bilin M fs a in
  (pscale (/ hd 0 a') (bilin M fs b), pscale (/ hd 0 a') a').

Inductive freq_weight := WA | WC | WZ.

(** tprocess.py:1639-1642 *)
Definition wf1 : R := 20.598997.
Definition wf2 : R := 107.65265.
Definition wf3 : R := 737.86223.
Definition wf4 : R := 12194.217.

(** tprocess.py:1643-1656; the numerator is the leading coefficient only, i.e. a
    power of s. *)
Definition weight_coefficients (wt : freq_weight) (fs : R) : list R * list R :=
  let a := pmul (rev [1; 4 * PI * wf4; (2 * PI * wf4) ^ 2]) (rev [1; 4 * PI * wf1; (2 * PI * wf1) ^ 2]) in
  match wt with
  | WA =>
      let a := pmul (pmul a (rev [1; 2 * PI * wf3])) (rev [1; 2 * PI * wf2]) in
      let b := rev [(2 * PI * wf4) ^ 2 * Rpower 10 (1.9997 / 20); 0; 0; 0; 0] in
      bilinear b a fs
  | WC =>
      let b := rev [(2 * PI * wf4) ^ 2 * Rpower 10 (0.0619 / 20); 0; 0] in
      let (b, a) := bilinear b a fs in (b ++ [0; 0], a ++ [0; 0])
  | WZ => ([1; 0; 0; 0; 0; 0; 0], [1; 0; 0; 0; 0; 0; 0])
  end.

Fixpoint peval (p : list R) (w : C) : C :=
  match p with [] => C0 | a :: r => Cadd (RtoC a) (Cmul w (peval r w)) end.
Definition sos_num (sos : list section) (w : C) : C := fold_right (fun c z => Cmul (sec_num c w) z) C1 sos.
Definition sos_den (sos : list section) (w : C) : C := fold_right (fun c z => Cmul (sec_den c w) z) C1 sos.

(** What tf2sos guarantees (tprocess.py:1657): the sections multiply to the
    quotient b/a, the first coefficient of a being 1. *)
Definition sections_of (ba : list R * list R) (sos : list section) : Prop :=
  forall w, sos_num sos w = peval (fst ba) w /\ sos_den sos w = peval (snd ba) w.

Lemma peval_add : forall p q w, peval (padd p q) w = Cadd (peval p w) (peval q w).
Proof.
  induction p as [|a p IH]; intros [|b q] w; cbn [padd peval]; try ring. rewrite IH, RtoC_add. ring.
Qed.
Lemma peval_scale : forall p x w, peval (pscale x p) w = Cmul (RtoC x) (peval p w).
Proof. induction p as [|a p IH]; intros x w; cbn [pscale map peval]; [ring|]. unfold pscale in IH. rewrite IH, RtoC_mul. ring. Qed.
Lemma peval_mul : forall p q w, peval (pmul p q) w = Cmul (peval p w) (peval q w).
Proof.
  induction p as [|a p IH]; intros q w; cbn [pmul peval]; [ring|]. rewrite peval_add, peval_scale. cbn [peval]. rewrite IH.
  change (RtoC 0) with C0. ring.
Qed.
Lemma peval_app0 : forall p w, peval (p ++ [0; 0]) w = peval p w.
Proof. induction p as [|a p IH]; intros w; cbn [app peval]; [change (RtoC 0) with C0; ring|now rewrite IH]. Qed.

Fixpoint Cpow (z : C) (n : nat) : C := match n with O => C1 | S m => Cmul z (Cpow z m) end.
Lemma peval_pow p n w : peval (ppow p n) w = Cpow (peval p w) n.
Proof. induction n as [|n IH]; cbn [ppow Cpow]; [cbn [peval]; change (RtoC 1) with C1; ring|]. now rewrite peval_mul, IH. Qed.

(** Homogeneous evaluation. *)
Fixpoint hom (M : nat) (c : list R) (u v : C) : C :=
  match c with [] => C0 | a :: r => Cadd (Cmul (RtoC a) (Cpow v M)) (Cmul u (hom (M - 1) r u v)) end.

Lemma peval_bilin : forall c M fs w, peval (bilin M fs c) w = hom M c (Cmul (RtoC (2 * fs)) (Csub C1 w)) (Cadd C1 w).
Proof.
  induction c as [|a c IH]; intros M fs w; [reflexivity|]. cbn [bilin hom].
  rewrite peval_add, peval_scale, peval_pow, peval_mul, IH. cbn [peval]. rewrite RtoC_opp. change (RtoC 1) with C1.
  replace (Cadd C1 (Cmul w (Cadd C1 (Cmul w C0)))) with (Cadd C1 w) by ring. ring.
Qed.
Lemma hom_add : forall p q M u v, hom M (padd p q) u v = Cadd (hom M p u v) (hom M q u v).
Proof. induction p as [|a p IH]; intros [|b q] M u v; cbn [padd hom]; try ring. rewrite IH, RtoC_add. ring. Qed.
Lemma hom_scale : forall p x M u v, hom M (pscale x p) u v = Cmul (RtoC x) (hom M p u v).
Proof. induction p as [|a p IH]; intros x M u v; cbn [pscale map hom]; [ring|]. unfold pscale in IH. rewrite IH, RtoC_mul. ring. Qed.
Lemma Cpow_add z : forall n m, Cpow z (n + m) = Cmul (Cpow z n) (Cpow z m).
Proof. induction n as [|n IH]; intros m; cbn [Nat.add Cpow]; [ring|]. rewrite IH. ring. Qed.
Lemma hom_lift : forall c M k u v, (length c <= M + 1)%nat -> hom (k + M) c u v = Cmul (Cpow v k) (hom M c u v).
Proof.
  induction c as [|a c IH]; intros M k u v H; cbn [hom]; [ring|]. rewrite Cpow_add.
  destruct c as [|b c].
  - cbn [hom]. ring.
  - cbn [length] in H. destruct M as [|M]; [lia|].
    replace (k + S M - 1)%nat with (k + M)%nat by lia. replace (S M - 1)%nat with M by lia.
    rewrite (IH M k) by (cbn [length]; lia). ring.
Qed.
Lemma hom_mul : forall p q M1 M2 u v, (length p <= M1 + 1)%nat -> (length q <= M2 + 1)%nat ->
  hom (M1 + M2) (pmul p q) u v = Cmul (hom M1 p u v) (hom M2 q u v).
Proof.
  induction p as [|a p IH]; intros q M1 M2 u v Hp Hq; cbn [pmul hom]; [ring|].
  rewrite hom_add, hom_scale, hom_lift by exact Hq. cbn [hom]. change (RtoC 0) with C0.
  destruct p as [|b p].
  - cbn [pmul hom]. ring.
  - cbn [length] in Hp. destruct M1 as [|M1]; [lia|]. replace (S M1 + M2 - 1)%nat with (M1 + M2)%nat by lia.
    replace (S M1 - 1)%nat with M1 by lia. rewrite IH by (cbn [length]; lia). ring.
Qed.

(** Factors of the denominators. *)
Definition lin (fs p : R) (w : C) : C := Cadd (Cmul (RtoC (2 * fs)) (Csub C1 w)) (Cmul (RtoC p) (Cadd C1 w)).

Definition den_c : list R := pmul (rev [1; 4 * PI * wf4; (2 * PI * wf4) ^ 2]) (rev [1; 4 * PI * wf1; (2 * PI * wf1) ^ 2]).
Definition den_a : list R := pmul (pmul den_c (rev [1; 2 * PI * wf3])) (rev [1; 2 * PI * wf2]).

Lemma hom_quad p u v : hom 2 (rev [1; 2 * p; p ^ 2]) u v = Cmul (Cadd u (Cmul (RtoC p) v)) (Cadd u (Cmul (RtoC p) v)).
Proof. cbn [rev app hom Nat.sub Cpow pow]. rewrite !RtoC_mul. change (RtoC 1) with C1. replace (RtoC 2) with (Cadd C1 C1) by (apply C_ext; cbn; lra). ring. Qed.
Lemma hom_lin p u v : hom 1 (rev [1; p]) u v = Cadd u (Cmul (RtoC p) v).
Proof. cbn [rev app hom Nat.sub Cpow]. change (RtoC 1) with C1. ring. Qed.

Lemma den_c_factors fs w : peval (bilin 4 fs den_c) w
  = Cmul (Cmul (lin fs (2 * PI * wf4) w) (lin fs (2 * PI * wf4) w)) (Cmul (lin fs (2 * PI * wf1) w) (lin fs (2 * PI * wf1) w)).
Proof.
  rewrite peval_bilin. unfold den_c. change 4%nat with (2 + 2)%nat. rewrite hom_mul by (cbn; lia).
  replace (4 * PI * wf4) with (2 * (2 * PI * wf4)) by ring. replace (4 * PI * wf1) with (2 * (2 * PI * wf1)) by ring.
  rewrite !hom_quad. reflexivity.
Qed.
Lemma den_a_factors fs w : peval (bilin 6 fs den_a) w
  = Cmul (Cmul (Cmul (Cmul (lin fs (2 * PI * wf4) w) (lin fs (2 * PI * wf4) w)) (Cmul (lin fs (2 * PI * wf1) w) (lin fs (2 * PI * wf1) w)))
               (lin fs (2 * PI * wf3) w)) (lin fs (2 * PI * wf2) w).
Proof.
  rewrite peval_bilin. unfold den_a. change 6%nat with (5 + 1)%nat. rewrite hom_mul by (cbn; lia).
  change 5%nat with (4 + 1)%nat. rewrite hom_mul by (cbn; lia). rewrite <- peval_bilin, den_c_factors, !hom_lin. reflexivity.
Qed.

Lemma num_c K fs w : peval (bilin 4 fs (rev [K; 0; 0])) w
  = Cmul (RtoC K) (Cmul (Cpow (Cmul (RtoC (2 * fs)) (Csub C1 w)) 2) (Cpow (Cadd C1 w) 2)).
Proof. rewrite peval_bilin. cbn [rev app hom Nat.sub]. change (RtoC 0) with C0. cbn [Cpow]. ring. Qed.
Lemma num_a K fs w : peval (bilin 6 fs (rev [K; 0; 0; 0; 0])) w
  = Cmul (RtoC K) (Cmul (Cpow (Cmul (RtoC (2 * fs)) (Csub C1 w)) 4) (Cpow (Cadd C1 w) 2)).
Proof. rewrite peval_bilin. cbn [rev app hom Nat.sub]. change (RtoC 0) with C0. cbn [Cpow]. ring. Qed.

Lemma peval_at_0 p : peval p C0 = RtoC (hd 0 p).
Proof. destruct p as [|a p]; cbn [peval hd]; [reflexivity|ring]. Qed.

Lemma lin_at_0 fs p : lin fs p C0 = RtoC (2 * fs + p).
Proof. unfold lin. rewrite RtoC_add. ring. Qed.

Lemma lin_neq0 fs p w : 0 < fs -> 0 < p -> Cabs w <= 1 -> lin fs p w <> C0.
Proof.
  intros Hf Hp Hw E. unfold lin in E.
  assert (E' : RtoC (2 * fs + p) = Cmul (RtoC (2 * fs - p)) w).
  { rewrite RtoC_add, RtoC_sub.
    replace (Cmul (Csub (RtoC (2 * fs)) (RtoC p)) w)
      with (Csub (Cadd (RtoC (2 * fs)) (RtoC p)) (Cadd (Cmul (RtoC (2 * fs)) (Csub C1 w)) (Cmul (RtoC p) (Cadd C1 w)))) by ring.
    rewrite E. ring. }
  assert (H := f_equal Cabs E'). rewrite Cabs_mul, !Cabs_RtoC in H. rewrite Rabs_pos_eq in H by lra.
  assert (Rabs (2 * fs - p) < 2 * fs + p) by (apply Rabs_def1; lra). pose proof (Cabs_nonneg w). pose proof (Rabs_pos (2 * fs - p)). nra.
Qed.

Lemma norm2_add_i x y c d : norm2 (Cadd (Cmul (x, y) (c, d)) C0) = norm2 (x, y) * norm2 (c, d).
Proof. replace (Cadd (Cmul (x, y) (c, d)) C0) with (Cmul (x, y) (c, d)) by ring. apply norm2_mul. Qed.

Lemma lin_norm2 fs p h : norm2 (lin fs p (cexp (- (2 * h)))) = 4 * ((2 * fs * sin h) ^ 2 + (p * cos h) ^ 2).
Proof.
  assert (E : lin fs p (cexp (- (2 * h))) = Cmul (cexp (- h)) (2 * p * cos h, 2 * (2 * fs) * sin h)).
  { unfold lin. replace (- (2 * h)) with (- h + - h) by ring. rewrite cexp_add. unfold cexp. rewrite cos_neg, sin_neg.
    pose proof (sin2_cos2 h) as S. unfold Rsqr in S.
    apply C_ext; cbn.
    - replace (2 * fs * (1 - (cos h * cos h - - sin h * - sin h)) - 0 * (0 - (cos h * - sin h + - sin h * cos h)) +
        (p * (1 + (cos h * cos h - - sin h * - sin h)) - 0 * (0 + (cos h * - sin h + - sin h * cos h))))
      with (2 * fs * (1 - cos h * cos h + sin h * sin h) + p * (1 + cos h * cos h - sin h * sin h)) by ring.
      replace 1 with (sin h * sin h + cos h * cos h) by exact S. ring.
    - ring. }
  rewrite E, norm2_mul, norm2_cexp. unfold norm2. cbn [fst snd]. ring.
Qed.
Lemma minus_norm2 h : norm2 (Csub C1 (cexp (- (2 * h)))) = 4 * sin h ^ 2.
Proof.
  pose proof (lin_norm2 (1 / 2) 0 h) as H. unfold lin in H. replace (2 * (1 / 2)) with 1 in H by field. change (RtoC 1) with C1 in H. change (RtoC 0) with C0 in H.
  replace (Cadd (Cmul C1 (Csub C1 (cexp (- (2 * h))))) (Cmul C0 (Cadd C1 (cexp (- (2 * h)))))) with (Csub C1 (cexp (- (2 * h)))) in H by ring.
  rewrite H. ring.
Qed.
Lemma plus_norm2 h : norm2 (Cadd C1 (cexp (- (2 * h)))) = 4 * cos h ^ 2.
Proof.
  pose proof (lin_norm2 0 1 h) as H. unfold lin in H. replace (2 * 0) with 0 in H by ring. change (RtoC 1) with C1 in H. change (RtoC 0) with C0 in H.
  replace (Cadd (Cmul C0 (Csub C1 (cexp (- (2 * h))))) (Cmul C1 (Cadd C1 (cexp (- (2 * h)))))) with (Cadd C1 (cexp (- (2 * h)))) in H by ring.
  rewrite H. ring.
Qed.
Lemma norm2_Cpow z n : norm2 (Cpow z n) = norm2 z ^ n.
Proof. induction n as [|n IH]; cbn [Cpow pow]; [unfold norm2, C1; cbn; ring|]. now rewrite norm2_mul, IH. Qed.

Lemma sos_transfer : forall sos w, sos_den sos w <> C0 -> transfer sos w = Cdiv (sos_num sos w) (sos_den sos w).
Proof.
  induction sos as [|c sos IH]; intros w H; cbn [transfer sos_num sos_den fold_right] in *.
  - field. discriminate || (intros E; injection E; lra).
  - fold (sos_den sos w) in *. fold (sos_num sos w) in *.
    assert (H1 : sec_den c w <> C0) by (intros E; apply H; rewrite E; ring).
    assert (H2 : sos_den sos w <> C0) by (intros E; apply H; rewrite E; ring).
    rewrite IH by exact H2. field. auto.
Qed.
Lemma sos_stable sos : (forall w, Cabs w <= 1 -> sos_den sos w <> C0) -> stable sos.
Proof.
  intros H c w Hc Hw E. apply (H w Hw). clear H. induction sos as [|d sos IH]; [destruct Hc|].
  cbn [sos_den fold_right]. fold (sos_den sos w). destruct Hc as [->|Hc]; [rewrite E; ring|rewrite IH by exact Hc; ring].
Qed.

(** Nominal gains of IEC 61672-1 (A and C) as functions of the frequency. *)
Definition iec_gain (wt : freq_weight) (f : R) : R :=
  match wt with
  | WA => Rpower 10 (1.9997 / 20) * (wf4 ^ 2 * f ^ 4)
          / ((f ^ 2 + wf1 ^ 2) * (f ^ 2 + wf4 ^ 2) * sqrt (f ^ 2 + wf2 ^ 2) * sqrt (f ^ 2 + wf3 ^ 2))
  | WC => Rpower 10 (0.0619 / 20) * (wf4 ^ 2 * f ^ 2) / ((f ^ 2 + wf1 ^ 2) * (f ^ 2 + wf4 ^ 2))
  | WZ => 1
  end.

Lemma norm2_div a b : b <> C0 -> norm2 (Cdiv a b) = norm2 a / norm2 b.
Proof.
  intros H. pose proof (norm2_pos b H) as P.
  assert (E : norm2 (Cdiv a b) * norm2 b = norm2 a).
  { rewrite <- norm2_mul. f_equal. field. exact H. }
  rewrite <- E. field. lra.
Qed.

Lemma wf_pos : 0 < wf1 /\ 0 < wf2 /\ 0 < wf3 /\ 0 < wf4.
Proof. unfold wf1, wf2, wf3, wf4. lra. Qed.
Lemma poles_pos : 0 < 2 * PI * wf1 /\ 0 < 2 * PI * wf2 /\ 0 < 2 * PI * wf3 /\ 0 < 2 * PI * wf4.
Proof. pose proof PI_RGT_0. pose proof wf_pos as (? & ? & ? & ?). repeat split; apply Rmult_lt_0_compat; lra. Qed.

Lemma Cmul_neq0 a b : a <> C0 -> b <> C0 -> Cmul a b <> C0.
Proof.
  intros Ha Hb E. pose proof (norm2_pos a Ha). pose proof (norm2_pos b Hb).
  assert (N := norm2_mul a b). rewrite E in N. unfold norm2 at 1 in N. cbn [C0 fst snd] in N. nra.
Qed.

Lemma weight_num_den wt fs : 0 < fs -> wt <> WZ -> exists x, x <> 0 /\ forall w,
  let u := Cmul (RtoC (2 * fs)) (Csub C1 w) in let v := Cadd C1 w in
  peval (fst (weight_coefficients wt fs)) w
  = Cmul (RtoC x) (match wt with
      | WA => Cmul (RtoC ((2 * PI * wf4) ^ 2 * Rpower 10 (1.9997 / 20))) (Cmul (Cpow u 4) (Cpow v 2))
      | _ => Cmul (RtoC ((2 * PI * wf4) ^ 2 * Rpower 10 (0.0619 / 20))) (Cmul (Cpow u 2) (Cpow v 2)) end)
  /\ peval (snd (weight_coefficients wt fs)) w
  = Cmul (RtoC x) (let d := Cmul (Cmul (lin fs (2 * PI * wf4) w) (lin fs (2 * PI * wf4) w)) (Cmul (lin fs (2 * PI * wf1) w) (lin fs (2 * PI * wf1) w)) in
      match wt with WA => Cmul (Cmul d (lin fs (2 * PI * wf3) w)) (lin fs (2 * PI * wf2) w) | _ => d end).
Proof.
  intros Hf Hwt. pose proof poles_pos as (P1 & P2 & P3 & P4).
  assert (HR : forall a b : R, 0 < a -> 0 < b -> 0 < a * b) by (intros; now apply Rmult_lt_0_compat).
  destruct wt; [| |congruence].
  - exists (/ hd 0 (bilin 6 fs den_a)). split.
    + apply Rinv_neq_0_compat. intros E. pose proof (peval_at_0 (bilin 6 fs den_a)) as H. rewrite E, den_a_factors, !lin_at_0 in H.
      rewrite <- !RtoC_mul in H. apply RtoC_inj in H.
      assert (0 < (2 * fs + 2 * PI * wf4) * (2 * fs + 2 * PI * wf4) * ((2 * fs + 2 * PI * wf1) * (2 * fs + 2 * PI * wf1)) * (2 * fs + 2 * PI * wf3) * (2 * fs + 2 * PI * wf2)) by (repeat apply HR; lra).
      lra.
    + intros w u v. unfold weight_coefficients. fold den_c. fold den_a. unfold bilinear.
      change (Nat.max (length (rev [(2 * PI * wf4) ^ 2 * Rpower 10 (1.9997 / 20); 0; 0; 0; 0]) - 1) (length den_a - 1)) with 6%nat.
      cbn [fst snd]. rewrite !peval_scale, num_a, den_a_factors. split; reflexivity.
  - exists (/ hd 0 (bilin 4 fs den_c)). split.
    + apply Rinv_neq_0_compat. intros E. pose proof (peval_at_0 (bilin 4 fs den_c)) as H. rewrite E, den_c_factors, !lin_at_0 in H.
      rewrite <- !RtoC_mul in H. apply RtoC_inj in H.
      assert (0 < (2 * fs + 2 * PI * wf4) * (2 * fs + 2 * PI * wf4) * ((2 * fs + 2 * PI * wf1) * (2 * fs + 2 * PI * wf1))) by (repeat apply HR; lra).
      lra.
    + intros w u v. unfold weight_coefficients. fold den_c. unfold bilinear.
      change (Nat.max (length (rev [(2 * PI * wf4) ^ 2 * Rpower 10 (0.0619 / 20); 0; 0]) - 1) (length den_c - 1)) with 4%nat.
      cbn [fst snd]. rewrite !peval_app0, !peval_scale, num_c, den_c_factors. split; reflexivity.
Qed.

Lemma weight_den_neq0 wt fs w : 0 < fs -> Cabs w <= 1 -> peval (snd (weight_coefficients wt fs)) w <> C0.
Proof.
  intros Hf Hw. pose proof poles_pos as (P1 & P2 & P3 & P4).
  assert (wt = WZ \/ wt <> WZ) as [->|Hwt] by (destruct wt; (now left) || (now right)).
  - cbn [weight_coefficients snd peval]. change (RtoC 0) with C0. change (RtoC 1) with C1.
    match goal with |- ?x <> _ => replace x with C1 by ring end. intros E. injection E. lra.
  - destruct (weight_num_den wt fs Hf Hwt) as (x & Hx & H). destruct (H w) as [_ ->].
    apply Cmul_neq0; [now apply RtoC_neq0|]. cbv zeta.
    destruct wt; repeat apply Cmul_neq0; try (apply lin_neq0; assumption); congruence.
Qed.

Lemma weight_stable wt fs sos : 0 < fs -> sections_of (weight_coefficients wt fs) sos -> stable sos.
Proof. intros Hf H. apply sos_stable. intros w Hw. destruct (H w) as [_ ->]. now apply weight_den_neq0. Qed.

Lemma gain_c_algebra fs P k c s f f1 f4 : 0 < fs -> 0 < P -> 0 < c -> 0 < f1 -> 0 < f4 -> s = c * (P * f / fs) ->
  norm2 (RtoC ((2 * P * f4) ^ 2 * k)) * ((norm2 (RtoC (2 * fs)) * (4 * s ^ 2)) ^ 2 * (4 * c ^ 2) ^ 2)
  / (4 * ((2 * fs * s) ^ 2 + (2 * P * f4 * c) ^ 2) * (4 * ((2 * fs * s) ^ 2 + (2 * P * f4 * c) ^ 2))
     * (4 * ((2 * fs * s) ^ 2 + (2 * P * f1 * c) ^ 2) * (4 * ((2 * fs * s) ^ 2 + (2 * P * f1 * c) ^ 2))))
  = (k * (f4 ^ 2 * f ^ 2) / ((f ^ 2 + f1 ^ 2) * (f ^ 2 + f4 ^ 2))) ^ 2.
Proof.
  intros Hf HP Hc H1 H4 ->. rewrite !norm2_RtoC.
  assert (0 < f ^ 2 + f1 ^ 2) by nra. assert (0 < f ^ 2 + f4 ^ 2) by nra.
  replace (2 * fs * (c * (P * f / fs))) with (2 * P * c * f) by (field; lra).
  replace (2 * fs * (2 * fs) * (4 * (c * (P * f / fs)) ^ 2)) with (4 * (2 * P * c * f) ^ 2) by (field; lra).
  replace ((2 * P * c * f) ^ 2 + (2 * P * f4 * c) ^ 2) with ((2 * P * c) ^ 2 * (f ^ 2 + f4 ^ 2)) by ring.
  replace ((2 * P * c * f) ^ 2 + (2 * P * f1 * c) ^ 2) with ((2 * P * c) ^ 2 * (f ^ 2 + f1 ^ 2)) by ring.
  set (A := f ^ 2 + f1 ^ 2) in *. set (B := f ^ 2 + f4 ^ 2) in *. clearbody A B. field. repeat split; lra.
Qed.
Lemma gain_a_algebra fs P k c s f f1 f2 f3 f4 : 0 < fs -> 0 < P -> 0 < c -> 0 < f1 -> 0 < f2 -> 0 < f3 -> 0 < f4 -> s = c * (P * f / fs) ->
  norm2 (RtoC ((2 * P * f4) ^ 2 * k)) * ((norm2 (RtoC (2 * fs)) * (4 * s ^ 2)) ^ 4 * (4 * c ^ 2) ^ 2)
  / (4 * ((2 * fs * s) ^ 2 + (2 * P * f4 * c) ^ 2) * (4 * ((2 * fs * s) ^ 2 + (2 * P * f4 * c) ^ 2))
     * (4 * ((2 * fs * s) ^ 2 + (2 * P * f1 * c) ^ 2) * (4 * ((2 * fs * s) ^ 2 + (2 * P * f1 * c) ^ 2)))
     * (4 * ((2 * fs * s) ^ 2 + (2 * P * f3 * c) ^ 2)) * (4 * ((2 * fs * s) ^ 2 + (2 * P * f2 * c) ^ 2)))
  = (k * (f4 ^ 2 * f ^ 4) / ((f ^ 2 + f1 ^ 2) * (f ^ 2 + f4 ^ 2) * sqrt (f ^ 2 + f2 ^ 2) * sqrt (f ^ 2 + f3 ^ 2))) ^ 2.
Proof.
  intros Hf HP Hc H1 H2 H3 H4 ->. rewrite !norm2_RtoC.
  assert (0 < f ^ 2 + f1 ^ 2) by nra. assert (0 < f ^ 2 + f4 ^ 2) by nra.
  assert (0 < f ^ 2 + f2 ^ 2) by nra. assert (0 < f ^ 2 + f3 ^ 2) by nra.
  replace (2 * fs * (c * (P * f / fs))) with (2 * P * c * f) by (field; lra).
  replace (2 * fs * (2 * fs) * (4 * (c * (P * f / fs)) ^ 2)) with (4 * (2 * P * c * f) ^ 2) by (field; lra).
  replace ((2 * P * c * f) ^ 2 + (2 * P * f4 * c) ^ 2) with ((2 * P * c) ^ 2 * (f ^ 2 + f4 ^ 2)) by ring.
  replace ((2 * P * c * f) ^ 2 + (2 * P * f1 * c) ^ 2) with ((2 * P * c) ^ 2 * (f ^ 2 + f1 ^ 2)) by ring.
  replace ((2 * P * c * f) ^ 2 + (2 * P * f2 * c) ^ 2) with ((2 * P * c) ^ 2 * (f ^ 2 + f2 ^ 2)) by ring.
  replace ((2 * P * c * f) ^ 2 + (2 * P * f3 * c) ^ 2) with ((2 * P * c) ^ 2 * (f ^ 2 + f3 ^ 2)) by ring.
  assert (Q2 := sqrt_sqrt (f ^ 2 + f2 ^ 2) ltac:(lra)). assert (Q3 := sqrt_sqrt (f ^ 2 + f3 ^ 2) ltac:(lra)).
  assert (R2 := sqrt_lt_R0 (f ^ 2 + f2 ^ 2) ltac:(lra)). assert (R3 := sqrt_lt_R0 (f ^ 2 + f3 ^ 2) ltac:(lra)).
  set (S2 := sqrt (f ^ 2 + f2 ^ 2)) in *. set (S3 := sqrt (f ^ 2 + f3 ^ 2)) in *.
  rewrite <- Q2, <- Q3. clear Q2 Q3. clearbody S2 S3.
  set (A := f ^ 2 + f1 ^ 2) in *. set (B := f ^ 2 + f4 ^ 2) in *. clearbody A B. field. repeat split; lra.
Qed.

(** The gain of the filter at [f] is the nominal gain at the warped frequency. *)
Lemma weight_gain wt fs sos f : 0 < fs -> wt <> WZ -> sections_of (weight_coefficients wt fs) sos -> 0 <= f < fs / 2 ->
  Cabs (transfer sos (cexp (- (2 * PI * f / fs)))) = iec_gain wt (fs / PI * tan (PI * f / fs)).
Proof.
  intros Hf Hwt Hsos Hr. pose proof PI_RGT_0 as HP. pose proof wf_pos as (F1 & F2 & F3 & F4).
  set (h := PI * f / fs). replace (2 * PI * f / fs) with (2 * h) by (unfold h; field; lra).
  assert (Hh : 0 <= h < PI / 2).
  { unfold h. split.
    - apply Rmult_le_pos; [apply Rmult_le_pos; lra|]. left. now apply Rinv_0_lt_compat.
    - apply Rmult_lt_reg_r with fs; [exact Hf|]. replace (PI * f / fs * fs) with (PI * f) by (field; lra).
      replace (PI / 2 * fs) with (PI * (fs / 2)) by field. apply Rmult_lt_compat_l; lra. }
  assert (Hc : 0 < cos h) by (apply cos_gt_0; lra).
  assert (Hs : sin h = cos h * (PI * (fs / PI * tan h) / fs)) by (unfold tan; field; lra).
  set (f' := fs / PI * tan h) in *.
  assert (Hn0 : sos_den sos (cexp (- (2 * h))) <> C0).
  { destruct (Hsos (cexp (- (2 * h)))) as [_ ->]. apply weight_den_neq0; [exact Hf|]. rewrite Cabs_cexp. lra. }
  rewrite sos_transfer by exact Hn0. destruct (Hsos (cexp (- (2 * h)))) as [En Ed]. rewrite Ed in Hn0. rewrite En, Ed.
  destruct (weight_num_den wt fs Hf Hwt) as (x & Hx & H). destruct (H (cexp (- (2 * h)))) as [H1 H2]. cbv zeta in H1, H2.
  rewrite H1. rewrite H2 in Hn0 |- *.
  set (w := cexp (- (2 * h))) in *.
  match goal with |- Cabs (Cdiv (Cmul _ ?n) (Cmul _ ?d)) = _ =>
    assert (Hd : d <> C0) by (intros E; apply Hn0; rewrite E; ring);
    replace (Cdiv (Cmul (RtoC x) n) (Cmul (RtoC x) d)) with (Cdiv n d) by (field; split; [exact Hd|now apply RtoC_neq0]) end.
  assert (Hg : 0 <= iec_gain wt f').
  { unfold iec_gain. destruct wt; [| |lra]; unfold Rdiv; apply Rmult_le_pos; try apply Rmult_le_pos; try (left; apply exp_pos); try nra.
    - left. apply Rinv_0_lt_compat. repeat apply Rmult_lt_0_compat; try apply sqrt_lt_R0; nra.
    - left. apply Rinv_0_lt_compat. repeat apply Rmult_lt_0_compat; nra. }
  unfold Cabs. rewrite <- (sqrt_pow2 (iec_gain wt f')) by exact Hg. f_equal.
  rewrite norm2_div by exact Hd.
  destruct wt; [| |congruence]; unfold w; rewrite !norm2_mul, !norm2_Cpow, !norm2_mul, !lin_norm2, minus_norm2, plus_norm2.
  - unfold iec_gain. apply gain_a_algebra; assumption.
  - unfold iec_gain. apply gain_c_algebra; assumption.
Qed.

(** At half the sampling frequency nothing passes. *)
Lemma weight_nyquist wt fs sos : 0 < fs -> wt <> WZ -> sections_of (weight_coefficients wt fs) sos ->
  transfer sos (cexp (- PI)) = C0.
Proof.
  intros Hf Hwt Hsos.
  assert (Hn0 : sos_den sos (cexp (- PI)) <> C0).
  { destruct (Hsos (cexp (- PI))) as [_ ->]. apply weight_den_neq0; [exact Hf|]. rewrite Cabs_cexp. lra. }
  rewrite sos_transfer by exact Hn0. destruct (Hsos (cexp (- PI))) as [-> _].
  destruct (weight_num_den wt fs Hf Hwt) as (x & Hx & H). destruct (H (cexp (- PI))) as [H1 _]. cbv zeta in H1. rewrite H1.
  assert (E : Cadd C1 (cexp (- PI)) = C0).
  { unfold cexp. rewrite cos_neg, sin_neg, cos_PI, sin_PI. apply C_ext; cbn; lra. }
  rewrite E. destruct wt; [| |congruence]; cbn [Cpow]; field; exact Hn0.
Qed.

(* ------------------------------------------------------------------ *)
(** * FiltOctave, FiltFiltOctave, OctaveFilterBank, tprocess.py:1483-1560, 1725-1769 *)

Inductive fraction := Octave | ThirdOctave.
(** [fraction_], tprocess.py:1490 *)
Definition fraction_ (fr : fraction) : R := match fr with Octave => 1 | ThirdOctave => 3 end.

(** tprocess.py:1511-1514 *)
Definition octave_alpha (fr : fraction) (order : nat) : R :=
  let beta := PI / (2 * INR order) in
  let alpha := Rpower 2 (1 / (2 * fraction_ fr)) in
  let beta := 2 * beta / sin beta / (alpha - 1 / alpha) in
  (1 + sqrt (1 + beta * beta)) / beta.

(** tprocess.py:1551-1553 *)
Definition double_pass_factor (order : nat) : R :=
  match order with
  | 6%nat => 1.01 | 5%nat => 1.012 | 4%nat => 1.016 | 3%nat => 1.022 | 2%nat => 1.036 | 1%nat => 1.083 | _ => 1.0
  end.
Definition filtfilt_alpha (fr : fraction) (order : nat) : R :=
  octave_alpha fr order * Rpower (double_pass_factor order) (3 / fraction_ fr).

Section Design.
  (** scipy.signal.butter: sections for an order and a pair of edges; it raises
      ValueError unless 0 < om1 and om2 < 1. *)
  Variable butter_bandpass : nat -> R -> R -> list section.
  Definition butter (order : nat) (om1 om2 : R) : list section + exn :=
    if Rlt_dec 0 om1 then if Rlt_dec om2 1 then inl (butter_bandpass order om1 om2) else inr ValueError else inr ValueError.

  (** tprocess.py:1511 (division by zero), 1515-1521, 1554-1560 *)
  Definition octave_design (alpha : R) (order : nat) (band fs : R) : list section + exn :=
    if (order =? 0)%nat then inr ZeroDivisionError else
    let fr := 2 * band / fs in
    if Rlt_dec (1 / sqrt 2) fr then inr ValueError else butter order (fr / alpha) (fr * alpha).

  Definition filt_octave_sos (fr : fraction) (order : nat) (band fs : R) : list section + exn :=
    octave_design (octave_alpha fr order) order band fs.
  Definition filtfilt_octave_sos (fr : fraction) (order : nat) (band fs : R) : list section + exn :=
    octave_design (filtfilt_alpha fr order) order band fs.

  (** range(lband, hband, 4 - fraction_), tprocess.py:1755 *)
  Definition bank_indices (fr : fraction) (lband hband : Z) : list Z :=
    let step := match fr with Octave => 3 | ThirdOctave => 1 end%Z in
    map (fun k => lband + step * Z.of_nat k)%Z (seq 0 (Z.to_nat ((hband - lband + step - 1) / step))).
  Definition bank_bands (fr : fraction) (lband hband : Z) : list R :=
    map (fun i => Rpower 10 (IZR i / 10)) (bank_indices fr lband hband).
  (** tprocess.py:1762-1769; FiltOctave has order 3 by default *)
  Definition octave_bank_sos (fr : fraction) (lband hband : Z) (fs : R) : list (list section) + exn :=
    fold_right (fun i acc =>
      match filt_octave_sos fr 3 (Rpower 10 (IZR i / 10)) fs with
      | inr e => inr e
      | inl s => match acc with inl l => inl (s :: l) | inr e => inr e end
      end) (inl []) (bank_indices fr lband hband).
End Design.

Lemma root_alpha b : 0 < b -> let a := (1 + sqrt (1 + b * b)) / b in 1 < a /\ a - 1 / a = 2 / b.
Proof.
  intros Hb a. assert (P : 0 <= 1 + b * b) by nra. pose proof (sqrt_sqrt _ P) as Q. pose proof (sqrt_pos (1 + b * b)) as Q0.
  set (s := sqrt (1 + b * b)) in *.
  assert (Hs : b < s) by nra. split.
  - unfold a. apply Rmult_lt_reg_r with b; [exact Hb|]. replace ((1 + s) / b * b) with (1 + s) by (field; lra). lra.
  - assert (E : 1 / a = (s - 1) / b).
    { unfold a. apply Rmult_eq_reg_r with ((1 + s) / b).
      - replace (1 / ((1 + s) / b) * ((1 + s) / b)) with 1 by (field; repeat split; lra).
        replace ((s - 1) / b * ((1 + s) / b)) with ((s * s - 1) / (b * b)) by (field; lra). rewrite Q. field. lra.
      - apply Rgt_not_eq. apply Rdiv_lt_0_compat; lra. }
    rewrite E. unfold a. field. lra.
Qed.

Lemma sinc_lt order : (0 < order)%nat -> let b := PI / (2 * INR order) in 0 < sin b /\ sin b < b /\ 0 < b.
Proof.
  intros H b. pose proof PI_RGT_0 as HP. assert (H1 : 1 <= INR order) by (apply (le_INR 1); lia).
  assert (Hb : 0 < b) by (unfold b; apply Rdiv_lt_0_compat; lra).
  assert (Hb2 : b <= PI / 2).
  { unfold b. apply Rmult_le_compat_l; [lra|]. apply Rinv_le_contravar; lra. }
  split; [apply sin_gt_0; lra|]. split; [now apply sin_lt_x|exact Hb].
Qed.

Lemma width_pos fr : let a := Rpower 2 (1 / (2 * fraction_ fr)) in 1 < a /\ a <= sqrt 2 /\ 0 < a - 1 / a.
Proof.
  intros a. assert (H1 : 1 < a).
  { apply Rle_lt_trans with (Rpower 2 0); [rewrite Rpower_O; lra|]. apply Rpower_lt; [lra|]. destruct fr; unfold fraction_; lra. }
  split; [exact H1|]. split.
  - rewrite <- Rpower_sqrt by lra. unfold a. apply Rle_Rpower; [lra|]. destruct fr; unfold fraction_; lra.
  - assert (1 / a < 1); [|lra]. apply Rmult_lt_reg_r with a; [lra|]. replace (1 / a * a) with 1 by (field; lra). lra.
Qed.

(** [alpha] of the design: smaller than half the band, by the ratio of the widths. *)
Lemma octave_alpha_spec fr order : (0 < order)%nat ->
  let b := PI / (2 * INR order) in
  let a0 := Rpower 2 (1 / (2 * fraction_ fr)) in
  let a := octave_alpha fr order in
  1 < a /\ (a - 1 / a) * (b / sin b) = a0 - 1 / a0 /\ a < a0.
Proof.
  intros Ho b a0 a. destruct (sinc_lt order Ho) as (S1 & S2 & S3). fold b in S1, S2, S3.
  destruct (width_pos fr) as (W1 & W2 & W3). fold a0 in W1, W2, W3.
  assert (Hb : 0 < 2 * b / sin b / (a0 - 1 / a0)) by (repeat apply Rdiv_lt_0_compat; lra).
  destruct (root_alpha _ Hb) as [A1 A2]. fold b a0 in a.
  change a with ((1 + sqrt (1 + 2 * b / sin b / (a0 - 1 / a0) * (2 * b / sin b / (a0 - 1 / a0)))) / (2 * b / sin b / (a0 - 1 / a0))).
  set (x := (1 + sqrt _) / _) in *.
  assert (E : x - 1 / x = (a0 - 1 / a0) * (sin b / b)) by (rewrite A2; clear - S1 S3 W3; generalize dependent (a0 - 1 / a0); intros W HW; field; repeat split; lra).
  split; [exact A1|]. split; [rewrite E; clear - S1 S3 W3; generalize dependent (a0 - 1 / a0); intros W HW; field; lra|].
  assert (Q : sin b / b < 1).
  { apply Rmult_lt_reg_r with b; [exact S3|]. replace (sin b / b * b) with (sin b) by (field; lra). lra. }
  assert (L : x - 1 / x < a0 - 1 / a0) by (rewrite E; nra).
  destruct (Rlt_dec x a0) as [|N]; [assumption|exfalso].
  assert (1 / x <= 1 / a0) by (apply Rmult_le_compat_l; [lra|]; apply Rinv_le_contravar; lra). lra.
Qed.

(** Sections for the A weighting exist (the poles are real): one choice. *)
Definition quad_sec (fs p q n0 n1 n2 : R) : section :=
  let d := (2 * fs + p) * (2 * fs + q) in
  mkSec (n0 / d) (n1 / d) (n2 / d) (((2 * fs + p) * (q - 2 * fs) + (p - 2 * fs) * (2 * fs + q)) / d) ((p - 2 * fs) * (q - 2 * fs) / d).
Definition a_sections (fs : R) : list section :=
  let g := (2 * fs) ^ 2 in
  let k := (2 * PI * wf4) ^ 2 * Rpower 10 (1.9997 / 20) in
  [quad_sec fs (2 * PI * wf4) (2 * PI * wf4) (k * g) (- (2) * (k * g)) (k * g);
   quad_sec fs (2 * PI * wf1) (2 * PI * wf1) g (- (2) * g) g;
   quad_sec fs (2 * PI * wf3) (2 * PI * wf2) 1 2 1].
(** tf2sos of [1, 0, 0, 0, 0, 0, 0] over itself, tprocess.py:1654-1657 *)
Definition flat_sections : list section := repeat (mkSec 1 0 0 0 0) 3.

Lemma quad_num fs p q n0 n1 n2 w : 0 < fs -> 0 < p -> 0 < q ->
  sec_num (quad_sec fs p q n0 n1 n2) w
  = Cmul (RtoC (/ ((2 * fs + p) * (2 * fs + q)))) (Cadd (RtoC n0) (Cadd (Cmul (RtoC n1) w) (Cmul (RtoC n2) (Cmul w w)))).
Proof. intros. unfold sec_num, quad_sec. cbn [b0 b1 b2]. unfold Rdiv. rewrite !RtoC_mul. ring. Qed.
Lemma quad_den fs p q n0 n1 n2 w : 0 < fs -> 0 < p -> 0 < q ->
  sec_den (quad_sec fs p q n0 n1 n2) w
  = Cmul (RtoC (/ ((2 * fs + p) * (2 * fs + q)))) (Cmul (lin fs p w) (lin fs q w)).
Proof.
  intros Hf Hp Hq. unfold sec_den, quad_sec. cbn [a1 a2].
  assert (D : (2 * fs + p) * (2 * fs + q) <> 0) by (apply Rgt_not_eq, Rmult_lt_0_compat; lra).
  replace C1 with (Cmul (RtoC (/ ((2 * fs + p) * (2 * fs + q)))) (RtoC ((2 * fs + p) * (2 * fs + q)))).
  2: { rewrite <- RtoC_mul, Rinv_l by exact D. reflexivity. }
  unfold Rdiv. rewrite !(RtoC_mul _ (/ _)). unfold lin. rewrite !RtoC_add, !RtoC_mul, !RtoC_add, !RtoC_sub.
  set (i := RtoC (/ _)). replace (RtoC (/ ((2 * fs + p) * (2 * fs + q)))) with i by reflexivity. rewrite !RtoC_mul.
  ring.
Qed.

Lemma weight_scale fs : 0 < fs ->
  / hd 0 (bilin 6 fs den_a)
  = / ((2 * fs + 2 * PI * wf4) * (2 * fs + 2 * PI * wf4)) * / ((2 * fs + 2 * PI * wf1) * (2 * fs + 2 * PI * wf1)) * / ((2 * fs + 2 * PI * wf3) * (2 * fs + 2 * PI * wf2)).
Proof.
  intros Hf. pose proof poles_pos as (P1 & P2 & P3 & P4).
  pose proof (peval_at_0 (bilin 6 fs den_a)) as H. rewrite den_a_factors, !lin_at_0 in H. rewrite <- !RtoC_mul in H. apply RtoC_inj in H.
  rewrite <- H. field. repeat split; lra.
Qed.

Lemma a_sections_ok fs : 0 < fs -> sections_of (weight_coefficients WA fs) (a_sections fs).
Proof.
  intros Hf w. pose proof poles_pos as (P1 & P2 & P3 & P4).
  unfold weight_coefficients. fold den_c. fold den_a. unfold bilinear.
  change (Nat.max (length (rev [(2 * PI * wf4) ^ 2 * Rpower 10 (1.9997 / 20); 0; 0; 0; 0]) - 1) (length den_a - 1)) with 6%nat.
  cbn [fst snd]. rewrite !peval_scale, num_a, den_a_factors, weight_scale by exact Hf.
  unfold a_sections, sos_num, sos_den. cbn [fold_right]. rewrite !quad_num, !quad_den by assumption.
  set (k := (2 * PI * wf4) ^ 2 * Rpower 10 (1.9997 / 20)) in *. clearbody k.
  rewrite (RtoC_mul (_ * _)), (RtoC_mul (/ (_ * _))).
  assert (E2 : RtoC (- (2)) = Copp (Cadd C1 C1)) by (apply C_ext; cbn; lra).
  assert (E3 : RtoC 2 = Cadd C1 C1) by (apply C_ext; cbn; lra).
  split.
  - cbn [pow Cpow]. rewrite !RtoC_mul, ?E2, ?E3. change (RtoC 1) with C1. ring.
  - ring.
Qed.

Lemma flat_ok fs : sections_of (weight_coefficients WZ fs) flat_sections.
Proof.
  intros w. cbn [weight_coefficients fst snd peval flat_sections repeat sos_num sos_den fold_right]. unfold sec_num, sec_den. cbn [b0 b1 b2 a1 a2].
  change (RtoC 1) with C1. change (RtoC 0) with C0. split; ring.
Qed.
Lemma flat_cascade x y : cascade flat_sections x y -> y = x.
Proof.
  assert (S : forall u v, section_eq (mkSec 1 0 0 0 0) u v -> v = u).
  { intros u v H. apply section_nat in H. destruct H as [L H]. apply (nth_ext _ _ 0 0 L). intros n Hn. rewrite L in Hn. rewrite (H n Hn). cbn [b0 b1 b2 a1 a2]. ring. }
  cbn [flat_sections repeat cascade]. intros (u & Hu & v & Hv & z & Hz & ->).
  apply S in Hu, Hv, Hz. congruence.
Qed.

(** ** Cached properties of OctaveFilterBank (tprocess.py:1725-1769)
    Attributes: 0 lband, 1 hband, 2 fraction_, 3 sample_freq of the source.  bands has
    depends_on (line 1743); depends_on of the coefficients is declared for a trait named
    ba (line 1740), sos is the Property of FilterBank without depends_on (line 1676), so
    nothing clears the value kept by @cached_property (line 1761). *)
Definition as_int (v : val) : Z := match v with Int z => z | _ => 0%Z end.
Definition as_num (v : val) : R := match v with Num x => x | Int z => IZR z | _ => 0 end.
Definition as_fraction (v : val) : fraction := if Z.eqb (as_int v) 1 then Octave else ThirdOctave.
Definition bank_prop (butter_bandpass : nat -> R -> R -> list section) (p : nat) : @prop ((list (list section) + exn) + list R) :=
  match p with
  | O => {| deps := []; comp := fun e => inl (octave_bank_sos butter_bandpass (as_fraction (e 2%nat)) (as_int (e 0%nat)) (as_int (e 1%nat)) (as_num (e 3%nat))) |}
  | _ => {| deps := [0; 1; 2]%nat; comp := fun e => inr (bank_bands (as_fraction (e 2%nat)) (as_int (e 0%nat)) (as_int (e 1%nat))) |}
  end.
