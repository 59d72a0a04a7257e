(** Property C125: the accuracy of a map computed in floating-point arithmetic
    (_freqBeamformer_FullCSM with the phases in single precision). *)
From Coq Require Import List Arith Lia ZArith Bool Reals Lra.
From Verif Require Import Stream Cplx Beamform Subspace Rounding SteerVec Roundoff.
Import ListNotations.
Local Open Scope R_scope.

(** growth of the error: [u] unit roundoff of double, [v] of single precision,
    [e] error of the sine and the cosine, [Phi] bound of the phases k r *)
Definition growth (n : nat) (u v e Phi : R) : R :=
  (1 + sqrt 2 * (e + ((1 + v) * (1 + u) - 1) * Phi)) ^ 2 * (/ (1 - u)) ^ (5 * n + 16).

Lemma growth_ge1 rnd rnd32 fcos fsin u v e n Phi : arithmetic rnd rnd32 fcos fsin u v e -> 0 <= Phi -> 1 <= growth n u v e Phi.
Proof.
  intros AR P. pose proof (phase_factor_ge1 _ _ _ _ _ _ _ AR Phi P) as F. unfold growth. fold (phase_factor u v e Phi). fold (q u).
  rewrite <- (Rmult_1_l 1). apply Rmult_le_compat; try lra; [now apply pow_R1_Rle|apply (qpow_ge1 _ _ _ _ _ _ _ AR)].
Qed.

(** For every Hermitian matrix, steering formulation and arithmetic the
    computed value differs from the one of exact arithmetic by at most growth
    minus one times the sum of the moduli of the terms. *)
Theorem C125_map rnd rnd32 fcos fsin u v e n r0 k r (csm : nat -> nat -> C) loss (rd : bool) st Phi :
  arithmetic rnd rnd32 fcos fsin u v e ->
  (0 < n)%nat -> 0 < r0 -> (forall m, (m < n)%nat -> 0 < r m) -> (forall m, (m < n)%nat -> Rabs (k * r m) <= Phi) ->
  0 <= loss -> hermitian n csm ->
  let h := steer_vector n st (transfer r0 k r) in
  let M := if rd then off_diag csm else csm in
  Rabs (ffreq_full rnd rnd32 fcos fsin n csm r0 k r loss rd st - fst (freq_full n csm r0 k r loss rd st))
  <= 2 * sqrt 2 * (growth n u v e Phi - 1) * (loss * rsumn n (fun i => rsumn n (fun j => Cabs (h i) * Cabs (M i j) * Cabs (h j)))).
Proof.
  intros AR Hn H0 Hr HP HL HC h M. pose proof (map_error _ _ _ _ _ _ _ n r0 k r csm loss rd st Phi AR Hn H0 Hr HP HL HC) as E.
  fold h M in E. apply Rle_trans with (1 := E).
  assert (0 <= Phi) as P0 by (pose proof (HP O Hn); pose proof (Rabs_pos (k * r 0%nat)); lra).
  pose proof (growth_ge1 _ _ _ _ _ _ _ n Phi AR P0) as G. unfold phase_factor, q. fold (growth n u v e Phi).
  replace (2 * sqrt 2 * (growth n u v e Phi - 1) * (loss * rsumn n (fun i => rsumn n (fun j => Cabs (h i) * Cabs (M i j) * Cabs (h j)))))
    with ((growth n u v e Phi - 1) * (2 * loss * (sqrt 2 * rsumn n (fun i => rsumn n (fun j => Cabs (h i) * Cabs (M i j) * Cabs (h j)))))) by ring.
  apply Rmult_le_compat_l; [lra|]. apply Rmult_le_compat_l; [lra|]. rewrite <- rsumn_scal. apply rsumn_le. intros i Hi.
  rewrite <- rsumn_scal. apply rsumn_le. intros j Hj.
  pose proof (n1_Cabs (M i j)) as N. pose proof (Cabs_nonneg (h i)) as A. pose proof (Cabs_nonneg (h j)) as B.
  assert (0 <= Cabs (h i) * Cabs (h j)) as AB by now apply Rmult_le_pos.
  apply Rle_trans with (sqrt 2 * Cabs (M i j) * (Cabs (h i) * Cabs (h j))); [now apply Rmult_le_compat_r|right; ring].
Qed.

(** The error floor: for a positive semidefinite matrix and the classic
    formulation the error is at most a fraction of the mean autopower of the
    microphones, wherever the point lies. *)
Lemma entry_bound n (c : nat -> nat -> C) i j : hermitian n c -> (forall z, 0 <= re (qform n c z)) -> (i < n)%nat -> (j < n)%nat ->
  0 <= re (c i i) /\ Cabs (c i j) <= sqrt (re (c i i)) * sqrt (re (c j j)).
Proof.
  intros H P Hi Hj. set (d := fun a b : nat => if (b =? a)%nat then C1 else C0).
  assert (forall a b, (a < n)%nat -> (b < n)%nat -> sesq n c (d a) (d b) = c a b) as D.
  { intros a b Ha Hb. unfold sesq. rewrite (csum_single n a _ Ha).
    - rewrite (csum_single n b _ Hb).
      + unfold d. rewrite !Nat.eqb_refl. apply C_ext; cbn; ring.
      + intros m Hm N. unfold d. rewrite (proj2 (Nat.eqb_neq m b) N). apply C_ext; cbn [fst snd Cmul C0]; ring.
    - intros m Hm N. apply csum_0. intros l Hl. unfold d at 1. rewrite (proj2 (Nat.eqb_neq m a) N). apply C_ext; cbn [fst snd Cmul C0 Conj]; ring. }
  assert (forall a, (a < n)%nat -> 0 <= re (c a a)) as PD.
  { intros a Ha. rewrite <- (D a a Ha Ha). apply P. }
  split; [now apply PD|]. pose proof (form_cauchy_schwarz n c (d i) (d j) H P) as F.
  rewrite <- !sesq_qform, !D in F by assumption. unfold Cabs. rewrite <- sqrt_mult by auto. now apply sqrt_le_1_alt.
Qed.

Lemma off_diag_le (rd : bool) (c : nat -> nat -> C) i j : Cabs ((if rd then off_diag c else c) i j) <= Cabs (c i j).
Proof.
  destruct rd; [|lra]. unfold off_diag. destruct (i =? j)%nat; [|lra].
  unfold Cabs at 1, norm2. cbn [fst snd C0]. replace (0 * 0 + 0 * 0) with 0 by ring. rewrite sqrt_0. apply Cabs_nonneg.
Qed.

Lemma mean_square n (f : nat -> R) : rsumn n f * rsumn n f <= INR n * rsumn n (fun i => f i * f i).
Proof.
  pose proof (rsumn_nonneg n (fun i => rsumn n (fun j => (f i - f j) * (f i - f j)))
    ltac:(intros; apply rsumn_nonneg; intros; apply Rle_0_sqr)) as H.
  rewrite (rsumn_ext n _ (fun i => INR n * (f i * f i) + (rsumn n (fun j => f j * f j) + (-2 * rsumn n f) * f i))) in H.
  - rewrite !rsumn_add, !rsumn_scal, rsumn_const in H. lra.
  - intros i Hi. rewrite (rsumn_ext n _ (fun j => f i * f i + (f j * f j + (-2 * f i) * f j))) by (intros; ring).
    rewrite !rsumn_add, rsumn_const, rsumn_scal. ring.
Qed.

Lemma classic_weight n r0 k r m : (0 < n)%nat -> 0 < r0 -> (forall m, (m < n)%nat -> 0 < r m) -> (m < n)%nat ->
  Cabs (steer_vector n Classic (transfer r0 k r) m) = 1 / INR n.
Proof.
  intros Hn H0 Hr Hm. assert (0 < INR n) as HN by now apply lt_0_INR.
  rewrite (steer_vector_raw n r0 k r Hn H0 Hr) by assumption. apply Cabs_sqrt_RtoC.
  - apply Rlt_le, Rdiv_lt_0_compat; lra.
  - rewrite norm2_mul, (steer_factor_norm2 n r0 k r Hn H0 Hr), (norm2_raw n k r Hr) by assumption. field. lra.
Qed.

Theorem C125_floor rnd rnd32 fcos fsin u v e n r0 k r (csm : nat -> nat -> C) loss (rd : bool) Phi :
  arithmetic rnd rnd32 fcos fsin u v e ->
  (0 < n)%nat -> 0 < r0 -> (forall m, (m < n)%nat -> 0 < r m) -> (forall m, (m < n)%nat -> Rabs (k * r m) <= Phi) ->
  0 <= loss -> hermitian n csm -> (forall z, 0 <= re (qform n csm z)) ->
  Rabs (ffreq_full rnd rnd32 fcos fsin n csm r0 k r loss rd Classic - fst (freq_full n csm r0 k r loss rd Classic))
  <= 2 * sqrt 2 * (growth n u v e Phi - 1) * (loss * (rsumn n (fun m => re (csm m m)) / INR n)).
Proof.
  intros AR Hn H0 Hr HP HL HC PS. pose proof (C125_map _ _ _ _ _ _ _ n r0 k r csm loss rd Classic Phi AR Hn H0 Hr HP HL HC) as E.
  cbv zeta in E. apply Rle_trans with (1 := E).
  assert (0 <= Phi) as P0 by (pose proof (HP O Hn); pose proof (Rabs_pos (k * r 0%nat)); lra).
  pose proof (growth_ge1 _ _ _ _ _ _ _ n Phi AR P0) as G. pose proof (sqrt_pos 2) as R2. assert (0 < INR n) as HN by now apply lt_0_INR.
  apply Rmult_le_compat_l; [apply Rmult_le_pos; lra|]. apply Rmult_le_compat_l; [exact HL|].
  set (f := fun i => sqrt (re (csm i i))). set (h := steer_vector n Classic (transfer r0 k r)).
  set (M := if rd then off_diag csm else csm).
  apply Rle_trans with (rsumn n (fun i => rsumn n (fun j => / (INR n * INR n) * f i * f j))).
  - apply rsumn_le. intros i Hi. apply rsumn_le. intros j Hj.
    unfold h. rewrite !(classic_weight n r0 k r) by assumption.
    destruct (entry_bound n csm i j HC PS Hi Hj) as [_ B]. pose proof (off_diag_le rd csm i j) as O. fold M in O. fold (f i) (f j) in B.
    replace (1 / INR n * Cabs (M i j) * (1 / INR n)) with (/ (INR n * INR n) * Cabs (M i j)) by (field; lra). rewrite Rmult_assoc.
    apply Rmult_le_compat_l; [left; apply Rinv_0_lt_compat, Rmult_lt_0_compat; lra|lra].
  - rewrite (rsumn_ext n _ (fun i => / (INR n * INR n) * (rsumn n f * f i))) by (intros; rewrite rsumn_scal; ring).
    rewrite !rsumn_scal. pose proof (mean_square n f) as MS.
    rewrite (rsumn_ext n (fun i => f i * f i) (fun m => re (csm m m))) in MS.
    + apply (Rmult_le_reg_l (INR n * INR n)); [now apply Rmult_lt_0_compat|].
      replace (INR n * INR n * (/ (INR n * INR n) * (rsumn n f * rsumn n f))) with (rsumn n f * rsumn n f) by (field; lra).
      replace (INR n * INR n * (rsumn n (fun m => re (csm m m)) / INR n)) with (INR n * rsumn n (fun m => re (csm m m))) by (field; lra).
      exact MS.
    + intros i Hi. unfold f. apply sqrt_sqrt. now apply (entry_bound n csm i i HC PS Hi Hi).
Qed.

(** The level of a monopole at the grid point has a relative error of at most
    2 sqrt 2 (growth - 1), for every formulation and with or without the
    diagonal. *)
Lemma own_multiple n st (a : nat -> C) m : (0 < n)%nat -> (forall m, (m < n)%nat -> a m <> C0) -> (m < n)%nat ->
  exists c, 0 <= c /\ steer_vector n st a m = (a m * RtoC c)%C.
Proof.
  intros Hn NZ Hm. assert (0 < INR n) as HN by now apply lt_0_INR.
  assert (forall m, (m < n)%nat -> 0 < norm2 (a m)) as P by (intros; apply norm2_pos; auto).
  assert (0 < Cabs (a m)) as PA by (apply sqrt_lt_R0; auto).
  assert (csum n (fun j => a j * Conj (a j))%C = RtoC (rsumn n (fun j => norm2 (a j)))) as ES.
  { rewrite <- csum_RtoC. apply csum_ext. intros. apply mul_Conj. }
  assert (0 < rsumn n (fun j => norm2 (a j))) as PS by (apply rsumn_pos; auto).
  unfold steer_vector. rewrite ES. set (A := rsumn n (fun j => norm2 (a j))) in *.
  destruct st.
  - exists (/ Cabs (a m) * / INR n). split; [apply Rmult_le_pos; left; now apply Rinv_0_lt_compat|].
    rewrite RtoC_mul, !RtoC_inv by lra. unfold Cdiv. ring.
  - exists (/ norm2 (a m) * / INR n). split; [apply Rmult_le_pos; left; apply Rinv_0_lt_compat; auto|].
    assert (C1 / Conj (a m) = a m * RtoC (/ norm2 (a m)))%C as ->.
    { rewrite RtoC_inv by (pose proof (P m Hm); lra). rewrite <- mul_Conj.
      assert (Conj (a m) <> C0) by (intros Z; apply (NZ m Hm); rewrite <- (Conj_invol (a m)), Z; apply C_ext; cbn; ring).
      field. split; auto. }
    rewrite RtoC_mul, (RtoC_inv (INR n)) by lra. unfold Cdiv. ring.
  - exists (/ A). split; [left; now apply Rinv_0_lt_compat|]. rewrite RtoC_inv by lra. reflexivity.
  - exists (/ sqrt (A * INR n)). assert (0 < sqrt (A * INR n)) by (apply sqrt_lt_R0, Rmult_lt_0_compat; lra).
    split; [left; now apply Rinv_0_lt_compat|]. cbn [re RtoC fst]. rewrite RtoC_inv by lra. reflexivity.
Qed.

Theorem C125_level rnd rnd32 fcos fsin u v e n r0 k r p2 loss (rd : bool) st Phi :
  arithmetic rnd rnd32 fcos fsin u v e ->
  (0 < n)%nat -> 0 < r0 -> (forall m, (m < n)%nat -> 0 < r m) -> (forall m, (m < n)%nat -> Rabs (k * r m) <= Phi) ->
  0 <= loss -> 0 <= p2 ->
  let csm := monopole_csm p2 (transfer r0 k r) in
  let exact := fst (freq_full n csm r0 k r loss rd st) in
  0 <= exact
  /\ Rabs (ffreq_full rnd rnd32 fcos fsin n csm r0 k r loss rd st - exact) <= 2 * sqrt 2 * (growth n u v e Phi - 1) * exact.
Proof.
  intros AR Hn H0 Hr HP HL Hp csm exact. set (a := transfer r0 k r) in *.
  assert (hermitian n csm) as HC by (apply monopole_hermitian).
  pose proof (C125_map _ _ _ _ _ _ _ n r0 k r csm loss rd st Phi AR Hn H0 Hr HP HL HC) as E. cbv zeta in E.
  fold a in E. set (h := steer_vector n st a) in *. set (M := if rd then off_diag csm else csm) in *.
  assert (exact = loss * rsumn n (fun i => rsumn n (fun j => Cabs (h i) * Cabs (M i j) * Cabs (h j)))) as EX.
  2:{ split; [|fold exact in E; rewrite EX at 2; exact E]. rewrite EX. apply Rmult_le_pos; [exact HL|].
      apply rsumn_nonneg. intros i Hi. apply rsumn_nonneg. intros j Hj. repeat apply Rmult_le_pos; apply Cabs_nonneg. }
  apply RtoC_inj. unfold exact. rewrite (bf_quadratic n r0 k r Hn H0 Hr) by exact HC. fold M. fold a. fold h. rewrite RtoC_mul. f_equal.
  unfold qform. rewrite <- csum_RtoC. apply csum_ext. intros i Hi. rewrite <- csum_RtoC. apply csum_ext. intros j Hj.
  assert (forall m, (m < n)%nat -> a m <> C0) as NZ by (intros m Hm; now apply transfer_neq0; auto).
  destruct (own_multiple n st a i Hn NZ Hi) as [c [Pc Ec]]. destruct (own_multiple n st a j Hn NZ Hj) as [d [Pd Ed]].
  fold h in Ec, Ed. rewrite Ec, Ed.
  assert (forall x y (z : C), 0 <= x -> 0 <= y -> Cabs (z * RtoC x)%C = Cabs z * x) as Q.
  { intros x y z Px _. rewrite Cabs_mul. f_equal. apply Cabs_sqrt_RtoC; [exact Px|apply norm2_RtoC]. }
  rewrite (Q c 0), (Q d 0) by lra.
  assert (M i j = C0 \/ M i j = (RtoC p2 * a i * Conj (a j))%C) as [Z|Z].
  { unfold M. destruct rd; [|now right]. unfold off_diag. destruct (i =? j)%nat; [now left|now right]. }
  - rewrite Z. unfold Cabs at 2, norm2. cbn [fst snd C0]. replace (0 * 0 + 0 * 0) with 0 by ring. rewrite sqrt_0.
    replace (RtoC (Cabs (a i) * c * 0 * (Cabs (a j) * d))) with C0 by (apply C_ext; cbn; ring). apply C_ext; cbn; ring.
  - rewrite Z. rewrite !Cabs_mul, Cabs_Conj. rewrite (Cabs_sqrt_RtoC (RtoC p2) p2 Hp (norm2_RtoC p2)).
    rewrite !Conj_mul, Conj_RtoC.
    replace (Cabs (a i) * c * (p2 * Cabs (a i) * Cabs (a j)) * (Cabs (a j) * d))
      with (c * d * p2 * (Cabs (a i) * Cabs (a i)) * (Cabs (a j) * Cabs (a j))) by ring.
    rewrite !Cabs_sqr, !RtoC_mul, <- !mul_Conj. ring.
Qed.

(** In figures: up to a thousand microphones and phases up to ten thousand. *)
Lemma bernoulli u m : 0 <= u <= 1 -> 1 - INR m * u <= (1 - u) ^ m.
Proof.
  intros H. induction m as [|m IH]; [cbn; lra|]. rewrite S_INR. cbn [pow].
  assert ((1 - u) * (1 - INR m * u) <= (1 - u) * (1 - u) ^ m) by (apply Rmult_le_compat_l; lra).
  assert (0 <= INR m * (u * u)) by (apply Rmult_le_pos; [apply pos_INR|apply Rle_0_sqr]). lra.
Qed.

Theorem C125_audio n u v e Phi : (n <= 1000)%nat -> 0 <= u <= / 2 ^ 53 -> 0 <= v <= / 2 ^ 24 -> 0 <= e <= / 2 ^ 23 -> 0 <= Phi <= 10000 ->
  2 * sqrt 2 * (growth n u v e Phi - 1) <= 1 / 200.
Proof.
  intros Hn [U1 U2] [V1 V2] [E1 E2] [P1 P2].
  assert (/ 2 ^ 53 <= 1 / 1000000000000000) as B53.
  { apply (Rmult_le_reg_l (2 ^ 53)); [apply pow_lt; lra|]. rewrite Rinv_r by (apply pow_nonzero; lra). cbn [pow]. lra. }
  assert (/ 2 ^ 24 <= 1 / 16777216) as B24.
  { apply (Rmult_le_reg_l (2 ^ 24)); [apply pow_lt; lra|]. rewrite Rinv_r by (apply pow_nonzero; lra). cbn [pow]. lra. }
  assert (/ 2 ^ 23 <= 1 / 8388608) as B23.
  { apply (Rmult_le_reg_l (2 ^ 23)); [apply pow_lt; lra|]. rewrite Rinv_r by (apply pow_nonzero; lra). cbn [pow]. lra. }
  assert (sqrt 2 <= 14143 / 10000) as S2.
  { rewrite <- (sqrt_square (14143 / 10000)) by lra. apply sqrt_le_1_alt. lra. }
  pose proof (sqrt_pos 2) as S0. unfold growth.
  assert ((1 + v) * (1 + u) - 1 <= 1 / 16777216 + 1 / 100000000000000) as W.
  { assert (v * u <= 1 * u) by (apply Rmult_le_compat_r; lra). lra. }
  assert (0 <= (1 + v) * (1 + u) - 1) as W0 by (assert (0 <= v * u) by (apply Rmult_le_pos; lra); lra).
  assert (((1 + v) * (1 + u) - 1) * Phi <= (1 / 16777216 + 1 / 100000000000000) * 10000) as W1 by (apply Rmult_le_compat; lra).
  assert (0 <= ((1 + v) * (1 + u) - 1) * Phi) as W2 by (apply Rmult_le_pos; lra).
  set (d := e + ((1 + v) * (1 + u) - 1) * Phi) in *.
  assert (0 <= d <= 5962 / 10000000) as [D0 D1] by (unfold d; lra).
  assert (sqrt 2 * d <= 14143 / 10000 * (5962 / 10000000)) as D2 by (apply Rmult_le_compat; lra).
  assert (0 <= sqrt 2 * d) as D3 by (apply Rmult_le_pos; lra).
  assert ((1 + sqrt 2 * d) ^ 2 <= 1 + 16880 / 10000000) as D4.
  { cbn [pow]. rewrite Rmult_1_r. apply Rle_trans with ((1 + 8433 / 10000000) * (1 + 8433 / 10000000)); [|lra]. apply Rmult_le_compat; lra. }
  assert ((/ (1 - u)) ^ (5 * n + 16) <= 1 + 1 / 100000000) as D5.
  { rewrite pow_inv. pose proof (bernoulli u (5 * n + 16) ltac:(lra)) as B.
    assert (INR (5 * n + 16) <= 6000) as I6.
    { replace 6000 with (INR 6 * INR 1000) by (rewrite !INR_IZR_INZ; cbn; lra). rewrite <- mult_INR. apply le_INR. lia. }
    assert (INR (5 * n + 16) * u <= 6000 * (1 / 1000000000000000)) as I7 by (apply Rmult_le_compat; try lra; apply pos_INR).
    apply (Rmult_le_reg_l ((1 - u) ^ (5 * n + 16))); [apply pow_lt; lra|]. rewrite Rinv_r by (apply pow_nonzero; lra).
    apply Rle_trans with ((1 - 6000 * (1 / 1000000000000000)) * (1 + 1 / 100000000)); [lra|]. apply Rmult_le_compat_r; lra. }
  assert (0 <= (/ (1 - u)) ^ (5 * n + 16)) as D6 by (apply pow_le; left; apply Rinv_0_lt_compat; lra).
  assert ((1 + sqrt 2 * d) ^ 2 * (/ (1 - u)) ^ (5 * n + 16) <= (1 + 16880 / 10000000) * (1 + 1 / 100000000)) as D7
    by (apply Rmult_le_compat; try lra; apply pow_le; lra).
  set (g := (1 + sqrt 2 * d) ^ 2 * (/ (1 - u)) ^ (5 * n + 16)) in *.
  assert (1 <= g) as G1.
  { unfold g. rewrite <- (Rmult_1_l 1). apply Rmult_le_compat; try lra; apply pow_R1_Rle; [lra|].
    rewrite <- Rinv_1. apply Rinv_le_contravar; lra. }
  assert (sqrt 2 * (g - 1) <= 14143 / 10000 * ((1 + 16880 / 10000000) * (1 + 1 / 100000000) - 1)) by (apply Rmult_le_compat; lra).
  lra.
Qed.

(** Not the accuracy of double precision: even if every operation but the
    conversion of the phases to single precision were exact, phases of about
    8192 make an error of more than 2^-13 of the autopower (both are 1). *)
Lemma merged : rne 24 (8192 + / 2048) = 8192 /\ rne 24 8192 = 8192.
Proof.
  assert (pow2 13 = 8192) as P13 by (rewrite pow2_Z by lia; reflexivity).
  assert (pow2 (13 - 24 + 1) = / 1024) as PM by (change (13 - 24 + 1)%Z with (- (10))%Z; rewrite pow2_neg, pow2_Z by lia; reflexivity).
  split.
  - assert (pow2 13 <= Rabs (8192 + / 2048) < pow2 (13 + 1)) as B.
    { replace (pow2 (13 + 1)) with 16384 by (rewrite pow2_Z by lia; reflexivity). rewrite P13, Rabs_right by lra. lra. }
    rewrite (rne_binade 24 _ _ B), PM.
    replace ((8192 + / 2048) / / 1024) with (IZR 8388608 + 1 / 2) by lra.
    rewrite py_round_tie. replace (Z.even 8388608) with true by reflexivity. cbv iota. lra.
  - replace 8192 with (IZR 1 * pow2 13) by (rewrite P13; lra). apply rne_exact; lia.
Qed.

Lemma cos_sq t : cos t * cos t + sin t * sin t = 1.
Proof. pose proof (sin2_cos2 t) as S. unfold Rsqr in S. lra. Qed.

Definition double_accuracy : Prop :=
  forall n r0 k r (x : nat -> C), (0 < n)%nat -> 0 < r0 -> (forall m, (m < n)%nat -> 0 < r m <= 10) -> Rabs k <= 1024 ->
    (forall m, (m < n)%nat -> Cabs (x m) = 1) ->
    Rabs (ffreq_full (fun y => y) (rne 24) cos sin n (fun i j => x i * Conj (x j))%C r0 k r 1 false Classic
          - fst (freq_full n (fun i j => x i * Conj (x j))%C r0 k r 1 false Classic)) <= / 2 ^ 13.

Theorem C125_double_refuted : ~ double_accuracy.
Proof.
  intros H. set (a := 8192). set (d := / 2048). set (b := a + d).
  specialize (H 2%nat 8 1024 (fun m => if (m =? 0)%nat then 8 else 8 + / 2097152)
    (fun m => if (m =? 0)%nat then (cos a, - sin a) else (sin b, cos b))).
  assert (forall t, cos t * cos t = 1 - sin t * sin t) as C2 by (intros t; pose proof (sin2_cos2 t) as S; unfold Rsqr in S; lra).
  specialize (H ltac:(lia) ltac:(lra) ltac:(intros m _; cbv beta; destruct (m =? 0)%nat; split; lra) ltac:(rewrite Rabs_right; lra)).
  assert (forall m, (m < 2)%nat -> Cabs (if (m =? 0)%nat then (cos a, - sin a) else (sin b, cos b)) = 1) as U.
  { intros m _. unfold Cabs, norm2. destruct (m =? 0)%nat; cbn [fst snd].
    - replace (cos a * cos a + - sin a * - sin a) with 1 by (rewrite C2; ring). apply sqrt_1.
    - replace (sin b * sin b + cos b * cos b) with 1 by (rewrite C2; ring). apply sqrt_1. }
  specialize (H U). clear U. destruct merged as [M1 M2].
  assert (1024 * 8 = a) as E0 by (unfold a; lra). assert (1024 * (8 + / 2097152) = b) as E1 by (unfold b, a, d; lra).
  unfold ffreq_full, freq_full, fresult, fscalar, normalize, scalar_prod, fsteer, steer_raw, help_normalize in H.
  cbn [racc facc rsumn csum fst snd Nat.eqb] in H. rewrite E0, E1 in H. unfold fmul, fadd in H.
  fold a in M1, M2. fold d in M1. fold b in M1. rewrite M1, M2 in H.
  cbn [fst snd re Cmul Cadd Conj C0] in H. unfold re in H. cbn [fst snd Cmul Cadd Conj C0] in H.
  replace (INR 2) with 2 in H by (cbn; ring).
  match type of H with Rabs ?X <= _ => replace X with (sin d / 2) in H end.
  2:{ assert (sin d = sin b * cos a - cos b * sin a) as -> by (rewrite <- sin_minus; f_equal; unfold b; ring).
      generalize (cos_sq a) (cos_sq b). generalize (cos a) (sin a) (cos b) (sin b). intros w x y z A B.
      transitivity ((2 * ((w * w + x * x) * (z * w - y * x)) + (w * w + x * x) * (w * w + x * x) + (z * z + y * y) * (w * w + x * x)) / 4
                    - ((w * w + x * x) * (w * w + x * x) + (z * z + y * y) * (z * z + y * y)) / 4).
      - rewrite A. replace (z * z + y * y) with 1 by lra. field.
      - field. }
  assert (0 <= d <= PI) as D by (unfold d; pose proof PI2_1; lra).
  pose proof (sin_bound d 0 (proj1 D) (proj2 D)) as [L _]. unfold sin_approx, sin_term in L. cbn [sum_f_R0 Nat.mul Nat.add fact INR pow] in L.
  rewrite Rabs_right in H by (apply Rle_ge; unfold d in *; cbn [pow] in *; lra).
  cbn [pow] in H. unfold d in *. lra.
Qed.

(** ** Instances *)
(** IEEE formats with exact sine and cosine *)
Example C125_arithmetic : arithmetic (rne 53) (rne 24) cos sin (/ 2 ^ 53) (/ 2 ^ 24) 0.
Proof.
  assert (forall p : nat, pow2 (- Z.of_nat p) = / 2 ^ p) as P.
  { intros p. rewrite pow2_neg. unfold pow2. now rewrite <- pow_powerRZ. }
  constructor.
  - split; [left; apply Rinv_0_lt_compat, pow_lt; lra|]. rewrite <- Rinv_1. apply Rinv_lt_contravar; [rewrite Rmult_1_l; apply pow_lt; lra|].
    apply Rlt_pow_R1; [lra|lia].
  - left; apply Rinv_0_lt_compat, pow_lt; lra.
  - intros x. rewrite <- P. change (Z.of_nat 53) with 53%Z. apply rne_err.
  - intros x. rewrite <- P. change (Z.of_nat 24) with 24%Z. apply rne_err.
  - intros x. rewrite Rminus_diag_eq by reflexivity. rewrite Rabs_R0. lra.
  - intros x. rewrite Rminus_diag_eq by reflexivity. rewrite Rabs_R0. lra.
Qed.

(** the level of a source at 1 m in front of two microphones *)
Example C125_level_case :
  let csm := monopole_csm 2 (transfer 1 1000 (fun m => 1 + INR m)) in
  let exact := fst (freq_full 2 csm 1 1000 (fun m => 1 + INR m) 1 true TrueLevel) in
  Rabs (ffreq_full (rne 53) (rne 24) cos sin 2 csm 1 1000 (fun m => 1 + INR m) 1 true TrueLevel - exact) <= 1 / 200 * exact.
Proof.
  assert (forall m, (m < 2)%nat -> 0 < 1 + INR m) as P by (intros m _; pose proof (pos_INR m); lra).
  assert (forall m, (m < 2)%nat -> Rabs (1000 * (1 + INR m)) <= 10000) as Q.
  { intros m Hm. assert (INR m <= 1) by (replace 1 with (INR 1) by reflexivity; apply le_INR; lia).
    pose proof (pos_INR m). rewrite Rabs_right; lra. }
  pose proof (C125_level _ _ _ _ _ _ _ 2 1 1000 (fun m => 1 + INR m) 2 1 true TrueLevel 10000 C125_arithmetic
                ltac:(lia) ltac:(lra) P Q ltac:(lra) ltac:(lra)) as [E0 E].
  cbv zeta. set (exact := fst (freq_full 2 _ _ _ _ _ _ _)) in *.
  pose proof (C125_audio 2 (/ 2 ^ 53) (/ 2 ^ 24) 0 10000 ltac:(lia)) as A.
  assert (0 < / 2 ^ 53) by (apply Rinv_0_lt_compat, pow_lt; lra). assert (0 < / 2 ^ 24) by (apply Rinv_0_lt_compat, pow_lt; lra).
  assert (0 < / 2 ^ 23) by (apply Rinv_0_lt_compat, pow_lt; lra).
  specialize (A ltac:(lra) ltac:(lra) ltac:(lra) ltac:(lra)).
  apply Rle_trans with (1 := E). apply Rmult_le_compat_r; [exact E0|exact A].
Qed.

Print Assumptions C125_map.
Print Assumptions C125_floor.
Print Assumptions C125_level.
Print Assumptions C125_audio.
Print Assumptions C125_double_refuted.
