(** Property C137: small errors of the cross spectral matrix. *)
From Coq Require Import List Arith Lia ZArith Bool Reals Lra.
From Verif Require Import Stream Cplx Buffer Frames Convolve Fourier Beamform Csm Deconv Subspace Spectral OrthSep Resolve RemovedSep Heinz AddSound Perturb Props_OrthSep Props_Resolve Props_AddSound.
Import ListNotations.
Local Open Scope R_scope.

(** The power in any direction differs by at most [eps]. *)
Definition within (n : nat) (eps : R) (c c' : nat -> nat -> C) : Prop :=
  forall x, Rabs (re (qform n c' x) - re (qform n c x)) <= eps * rsumn n (fun m => norm2 (x m)).

(** Sum of squares of the steering vector of the point. *)
Definition steer_power (n : nat) (st : steer) (r0 k : R) (r : nat -> R) : R :=
  rsumn n (fun m => norm2 (steer_vector n st (transfer r0 k r) m)).

Lemma Rabs_def2' a b : Rabs a <= b -> - b <= a <= b.
Proof. intros H. pose proof (Rle_abs a). pose proof (Rle_abs (- a)) as Q. rewrite Rabs_Ropp in Q. lra. Qed.

Lemma abs_sum_sqr n (x : nat -> C) : rsumn n (fun m => Cabs (x m)) * rsumn n (fun m => Cabs (x m)) <= INR n * rsumn n (fun m => norm2 (x m)).
Proof.
  induction n as [|n IH]; [cbn; lra|]. cbn [rsumn]. rewrite S_INR. set (A := rsumn n (fun m => Cabs (x m))) in *. set (B := rsumn n (fun m => norm2 (x m))) in *.
  rewrite <- (Cabs_sqr (x n)). set (t := Cabs (x n)).
  assert (M : 2 * A * t <= B + INR n * (t * t)).
  { destruct (Req_dec (INR n) 0) as [Z|Z].
    - rewrite Z in *. assert (A = 0) by nra. assert (0 <= B) by (apply rsumn_nonneg; intros; apply norm2_nonneg). nra.
    - assert (0 < INR n) by (pose proof (pos_INR n); lra). pose proof (Rle_0_sqr (A - INR n * t)) as Q. unfold Rsqr in Q.
      apply (Rmult_le_reg_l (INR n)); [assumption|]. nra. }
  nra.
Qed.

(** Errors of the single entries. *)
Theorem C137_entries n delta c c' : (forall i j, (i < n)%nat -> (j < n)%nat -> Cabs (c' i j - c i j)%C <= delta) -> within n (INR n * delta) c c'.
Proof.
  intros H x.
  assert (E : re (qform n c' x) - re (qform n c x) = re (csum n (fun i => csum n (fun j => (Conj (x i) * (c' i j - c i j) * x j)%C)))).
  { rewrite (csum_ext n (fun i => csum n (fun j => (Conj (x i) * (c' i j - c i j) * x j)%C)) (fun i => (csum n (fun j => Conj (x i) * c' i j * x j) + RtoC (-1) * csum n (fun j => Conj (x i) * c i j * x j))%C)).
    - rewrite csum_add, csum_scal, re_add, re_RtoC_mul. unfold qform. ring.
    - intros i _. rewrite <- csum_scal, <- csum_add. apply csum_ext. intros j _. change (RtoC (-1)) with (RtoC (- (1))). rewrite RtoC_opp. change (RtoC 1) with C1. ring. }
  rewrite E. set (z := csum n _). apply Rle_trans with (Cabs z).
  { rewrite <- (sqrt_Rsqr_abs (re z)). apply sqrt_le_1_alt. unfold Rsqr, norm2, re. pose proof (Rle_0_sqr (snd z)) as Q. unfold Rsqr in Q. lra. }
  set (S := rsumn n (fun m => Cabs (x m))). apply Rle_trans with (delta * S * S).
  - unfold z. apply Rle_trans with (1 := Cabs_csum_le _ _). unfold S at 2. rewrite <- rsumn_scal. apply rsumn_le. intros i Hi.
    apply Rle_trans with (1 := Cabs_csum_le _ _). unfold S. rewrite (Rmult_comm delta), Rmult_assoc, Rmult_comm, <- rsumn_scal. apply rsumn_le. intros j Hj.
    rewrite !Cabs_mul, Cabs_Conj. specialize (H i j Hi Hj). pose proof (Cabs_nonneg (x i)) as A. pose proof (Cabs_nonneg (x j)) as B. pose proof (Rmult_le_pos _ _ A B) as AB.
    apply (Rmult_le_compat_l _ _ _ AB) in H. lra.
  - destruct n as [|n']; [unfold S; cbn; lra|]. assert (D : 0 <= delta) by (apply Rle_trans with (2 := H 0%nat 0%nat ltac:(lia) ltac:(lia)); apply Cabs_nonneg).
    pose proof (abs_sum_sqr (Datatypes.S n') x) as Q. fold S in Q. apply (Rmult_le_compat_l delta) in Q; [|exact D]. lra.
Qed.
Print Assumptions C137_entries.

(** BeamformerBase: the error of the map is that of the matrix times the sum of
    squares of the steering vector, at most twice as much and scaled with removed
    diagonal. *)
Theorem C137_base n r0 k r st c c' eps rd rdn loss :
  (0 < n)%nat -> 0 < r0 -> (forall m, (m < n)%nat -> 0 < r m) -> hermitian n c -> hermitian n c' -> within n eps c c' ->
  sig_loss_norm n rd rdn = Some loss -> 0 <= loss ->
  exists x x', bf_base n c r0 k r rd rdn st = Some x /\ bf_base n c' r0 k r rd rdn st = Some x'
    /\ Rabs (x' - x) <= (if rd then 2 * loss else 1) * eps * steer_power n st r0 k r.
Proof.
  intros Hn H0 Hr Hc Hc' W L L0. set (h := steer_vector n st (transfer r0 k r)).
  assert (F : forall m, hermitian n m -> fst (freq_full n m r0 k r loss rd st) = loss * re (qform n (if rd then off_diag m else m) h)).
  { intros m Hm. pose proof (bf_quadratic n r0 k r Hn H0 Hr m loss rd st Hm) as Q. apply (f_equal re) in Q. rewrite re_RtoC_mul in Q. exact Q. }
  unfold bf_base. rewrite L. exists (clip_neg rd (fst (freq_full n c r0 k r loss rd st))), (clip_neg rd (fst (freq_full n c' r0 k r loss rd st))).
  split; [reflexivity|]. split; [reflexivity|]. apply Rle_trans with (1 := clip_close _ _ _). rewrite !F by assumption.
  rewrite <- Rmult_minus_distr_l, Rabs_mult, (Rabs_pos_eq loss) by assumption. change (steer_power n st r0 k r) with (rsumn n (fun m => norm2 (h m))).
  pose proof (W h) as Wh. destruct rd.
  - rewrite !removed_form_re. set (T := rsumn n (fun m => norm2 (h m))) in *.
    assert (D : Rabs (rsumn n (fun m => re (c' m m) * norm2 (h m)) - rsumn n (fun m => re (c m m) * norm2 (h m))) <= eps * T).
    { assert (G : forall sg, sg = 1 \/ sg = -1 -> sg * (rsumn n (fun m => re (c' m m) * norm2 (h m)) - rsumn n (fun m => re (c m m) * norm2 (h m))) <= eps * T).
      { intros sg Hsg. rewrite Rmult_minus_distr_l. unfold Rminus. rewrite Ropp_mult_distr_l, <- !rsumn_scal, <- rsumn_add. unfold T. rewrite <- rsumn_scal. apply rsumn_le. intros m Hm.
        pose proof (W (unit_vec m)) as U. rewrite !unit_form, unit_norm, Rmult_1_r in U by assumption.
        pose proof (norm2_nonneg (h m)) as N. pose proof (Rle_abs (re (c' m m) - re (c m m))) as U1. pose proof (Rle_abs (- (re (c' m m) - re (c m m)))) as U2. rewrite Rabs_Ropp in U2.
        destruct Hsg as [-> | ->].
        - assert (0 <= (eps - (re (c' m m) - re (c m m))) * norm2 (h m)) by (apply Rmult_le_pos; lra). lra.
        - assert (0 <= (eps + (re (c' m m) - re (c m m))) * norm2 (h m)) by (apply Rmult_le_pos; lra). lra. }
      pose proof (G 1 (or_introl eq_refl)). pose proof (G (-1) (or_intror eq_refl)). apply Rabs_le. lra. }
    match goal with |- loss * Rabs ?z <= _ => replace z with ((re (qform n c' h) - re (qform n c h)) + - (rsumn n (fun m => re (c' m m) * norm2 (h m)) - rsumn n (fun m => re (c m m) * norm2 (h m)))) by ring end.
    match goal with |- loss * Rabs (?a + ?b) <= _ => pose proof (Rabs_triang a b) as TR end. rewrite Rabs_Ropp in TR.
    apply Rle_trans with (loss * (2 * (eps * T))); [apply Rmult_le_compat_l; lra|lra].
  - assert (loss = 1) as -> by (cbn in L; congruence). lra.
Qed.
Print Assumptions C137_base.

(** For 'classic' and 'true location' this sum is 1/n. *)
Theorem C137_steer n r0 k r st : (0 < n)%nat -> 0 < r0 -> (forall m, (m < n)%nat -> 0 < r m) -> st = Classic \/ st = TrueLocation ->
  steer_power n st r0 k r = 1 / INR n.
Proof.
  intros Hn H0 Hr Hst. pose proof (lt_0_INR n Hn) as PN. pose proof (S_pos n r Hn Hr) as PS. unfold steer_power.
  rewrite (rsumn_ext n _ (fun m => norm2 (steer_factor n r0 k r st) * norm2 (steer_raw st k r m))) by (intros m Hm; rewrite (steer_vector_raw n r0 k r Hn H0 Hr st m Hm); apply norm2_mul).
  rewrite rsumn_scal. rewrite (rsumn_ext n (fun m => norm2 (steer_raw st k r m)) (fun m => match st with Classic => 1 | Inverse => r m * r m | _ => 1 / (r m * r m) end)) by (intros m Hm; apply (norm2_raw n k r Hr st m Hm)).
  rewrite (steer_factor_norm2 n r0 k r Hn H0 Hr). destruct Hst as [-> | ->].
  - rewrite rsumn_const. field. lra.
  - field. lra.
Qed.
Print Assumptions C137_steer.

(** BeamformerFunctional, exponents from one on: the bound holds for the gamma-th
    roots of the values. *)
Theorem C137_functional n r0 k r st c c' evc vc evd vd eps gamma :
  (0 < n)%nat -> 0 < r0 -> (forall m, (m < n)%nat -> 0 < r m) -> sound n c -> sound n c' -> 0 <= eps -> within n eps c c' -> 1 <= gamma ->
  is_eigh n c evc vc -> is_eigh n c' evd vd ->
  let x := bf_functional n npow gamma evc vc r0 k r st in
  let x' := bf_functional n npow gamma evd vd r0 k r st in
  Rabs (npow x' (1 / gamma) - npow x (1 / gamma)) <= npow (eps * steer_power n st r0 k r) (1 / gamma).
Proof.
  intros Hn H0 Hr [Hc P] [Hc' P'] He W Hg E E' x x'.
  assert (A : forall z, re (qform n c' z) <= re (qform n c z) + eps * rsumn n (fun m => norm2 (z m))) by (intros z; specialize (W z); apply Rabs_def2' in W; lra).
  assert (B : forall z, re (qform n c z) <= re (qform n c' z) + eps * rsumn n (fun m => norm2 (z m))) by (intros z; specialize (W z); apply Rabs_def2' in W; lra).
  pose proof (functional_close n r0 k r st Hn H0 Hr c c' evc evd vc vd eps gamma Hc Hc' E E' P P' He A Hg) as L1.
  pose proof (functional_close n r0 k r st Hn H0 Hr c' c evd evc vd vc eps gamma Hc' Hc E' E P' P He B Hg) as L2.
  fold (steer_power n st r0 k r) in L1, L2. fold x x' in L1, L2. apply Rabs_le. lra.
Qed.
Print Assumptions C137_functional.

(** BeamformerCapon: relative error, if the power of the matrix is at least [floor]
    in every direction. *)
Theorem C137_capon n r0 k r st c c' ic ic' eps s2 :
  (0 < n)%nat -> 0 < r0 -> (forall m, (m < n)%nat -> 0 < r m) -> hermitian n c -> hermitian n c' -> within n eps c c' ->
  (forall x, s2 * rsumn n (fun m => norm2 (x m)) <= re (qform n c x)) -> 0 <= eps < s2 ->
  is_inverse n c ic -> is_inverse n c' ic' ->
  exists x x', capon n ic r0 k r st = Some x /\ capon n ic' r0 k r st = Some x' /\ 0 < x /\ Rabs (x' - x) <= eps / s2 * x.
Proof.
  intros Hn H0 Hr Hc Hc' W Fl He I I'.
  assert (NN : forall z : nat -> C, 0 <= rsumn n (fun m => norm2 (z m))) by (intros; apply rsumn_nonneg; intros; apply norm2_nonneg).
  assert (NP : forall z, nonzero n z -> 0 < rsumn n (fun m => norm2 (z m))).
  { intros z (m & Hm & N). apply Rlt_le_trans with (norm2 (z m)); [now apply norm2_pos|]. apply (rsumn_term n (fun m => norm2 (z m))); [intros; apply norm2_nonneg|assumption]. }
  assert (S0 : 0 < s2) by lra. set (d := eps / s2). assert (D0 : 0 <= d) by now apply Rle_mult_inv_pos.
  assert (D1 : d < 1) by (unfold d; apply (Rmult_lt_reg_r s2); [exact S0|]; unfold Rdiv; rewrite Rmult_assoc, Rinv_l; lra).
  assert (EF : forall z, eps * rsumn n (fun m => norm2 (z m)) <= d * re (qform n c z)).
  { intros z. apply Rle_trans with (d * (s2 * rsumn n (fun m => norm2 (z m)))); [apply Req_le; unfold d; field; lra|]. apply Rmult_le_compat_l; [exact D0|apply Fl]. }
  assert (Up : forall z, re (qform n c' z) <= (1 + d) * re (qform n c z)) by (intros z; specialize (W z); specialize (EF z); apply Rabs_def2' in W; lra).
  assert (Lo : forall z, (1 - d) * re (qform n c z) <= re (qform n c' z)) by (intros z; specialize (W z); specialize (EF z); apply Rabs_def2' in W; lra).
  assert (P : positive_definite n c) by (intros z Hz; apply Rlt_le_trans with (2 := Fl z); apply Rmult_lt_0_compat; auto).
  assert (P' : positive_definite n c') by (intros z Hz; apply Rlt_le_trans with (2 := Lo z); apply Rmult_lt_0_compat; [lra|now apply P]).
  set (h := steer_vector n st (transfer r0 k r)). pose proof (steer_nonzero n r0 k r Hn H0 Hr st) as Nz. fold h in Nz.
  destruct (capon_eq n r0 k r Hn H0 Hr c ic st Hc I P) as [Q1 E1]. destruct (capon_eq n r0 k r Hn H0 Hr c' ic' st Hc' I' P') as [Q2 E2].
  fold h in Q1, E1, Q2, E2.
  pose proof (inverse_compare n c c' ic ic' h (1 + d) Hc Hc' I I' P P' ltac:(lra) Nz Up) as L1.
  assert (Lo' : forall z, re (qform n c z) <= / (1 - d) * re (qform n c' z)).
  { intros z. apply (Rmult_le_reg_l (1 - d)); [lra|]. rewrite <- Rmult_assoc, Rinv_r, Rmult_1_l by lra. apply Lo. }
  pose proof (inverse_compare n c' c ic' ic h (/ (1 - d)) Hc' Hc I' I P' P ltac:(apply Rinv_0_lt_compat; lra) Nz Lo') as L2.
  set (q := re (qform n ic h)) in *. set (q' := re (qform n ic' h)) in *.
  assert (L3 : (1 - d) * q' <= q) by (apply (Rmult_le_compat_l (1 - d)) in L2; [|lra]; rewrite <- Rmult_assoc, Rinv_r, Rmult_1_l in L2 by lra; exact L2).
  pose proof (lt_0_INR n Hn) as PN. assert (P2 : 0 < INR n * INR n) by now apply Rmult_lt_0_compat.
  exists (1 / (INR n * INR n * q)), (1 / (INR n * INR n * q')). split; [exact E1|]. split; [exact E2|].
  assert (X : 0 < 1 / (INR n * INR n * q)) by (apply Rdiv_lt_0_compat; [lra|now apply Rmult_lt_0_compat]). split; [exact X|].
  set (u := / (INR n * INR n * q * q')). assert (U : 0 < u) by (apply Rinv_0_lt_compat; repeat apply Rmult_lt_0_compat; lra).
  replace (1 / (INR n * INR n * q')) with (q * u) by (unfold u; field; lra). replace (1 / (INR n * INR n * q)) with (q' * u) by (unfold u; field; lra).
  assert (0 <= (q - (1 - d) * q') * u) by (apply Rmult_le_pos; lra). assert (0 <= ((1 + d) * q' - q) * u) by (apply Rmult_le_pos; lra).
  apply Rabs_le. lra.
Qed.
Print Assumptions C137_capon.

(** Two channels, [u] and [v] two orthogonal real vectors of the same length. *)
Definition mix (u0 u1 al be : R) (i j : nat) : C :=
  let u i := if (i =? 0)%nat then u0 else u1 in
  let v i := if (i =? 0)%nat then - u1 else u0 in
  RtoC ((al * u i * u j + be * v i * v j) / (u0 * u0 + u1 * u1)).

Section Mix.
  Variables (u0 u1 : R).
  Hypothesis Hu : 0 < u0 * u0 + u1 * u1.
  Let M := u0 * u0 + u1 * u1.

  Lemma mix_hermitian al be : hermitian 2 (mix u0 u1 al be).
  Proof. intros i j _ _. unfold mix. rewrite Conj_RtoC. f_equal. f_equal. ring. Qed.

  Lemma mix_form al be x : re (qform 2 (mix u0 u1 al be) x)
    = (al * norm2 (RtoC u0 * x 0%nat + RtoC u1 * x 1%nat)%C + be * norm2 (RtoC (- u1) * x 0%nat + RtoC u0 * x 1%nat)%C) / M.
  Proof.
    unfold qform, mix. cbn [csum Nat.eqb]. unfold norm2, re, RtoC, Conj, Cadd, Cmul, C0. cbn [fst snd]. fold M. field. unfold M. lra.
  Qed.

  Lemma mix_one x : rsumn 2 (fun m => norm2 (x m))
    = (norm2 (RtoC u0 * x 0%nat + RtoC u1 * x 1%nat)%C + norm2 (RtoC (- u1) * x 0%nat + RtoC u0 * x 1%nat)%C) / M.
  Proof. cbn [rsumn]. unfold norm2, RtoC, Cadd, Cmul. cbn [fst snd]. unfold M. field. lra. Qed.

  Lemma mix_inverse al be : al <> 0 -> be <> 0 -> is_inverse 2 (mix u0 u1 al be) (mix u0 u1 (/ al) (/ be)).
  Proof.
    intros Ha Hb i j Hi Hj. destruct i as [|[|]]; [| |lia]; (destruct j as [|[|]]; [| |lia]); unfold mix; cbn [Nat.eqb csum];
      unfold RtoC, Cadd, Cmul, C0, C1; cbn [fst snd]; f_equal; try ring; field; repeat split; try assumption; lra.
  Qed.

  Lemma mix_positive al be : 0 < al -> 0 < be -> positive_definite 2 (mix u0 u1 al be).
  Proof.
    intros Ha Hb x (m & Hm & N). rewrite mix_form. pose proof (mix_one x) as O. cbn [rsumn] in O.
    pose proof (norm2_nonneg (x 0%nat)). pose proof (norm2_nonneg (x 1%nat)). pose proof (norm2_pos (x m) N) as Pm.
    assert (Q : 0 < norm2 (x 0%nat) + norm2 (x 1%nat)) by (destruct m as [|[|]]; [| |lia]; lra). rewrite Rplus_0_l in O. rewrite O in Q.
    set (A := norm2 (RtoC u0 * x 0%nat + RtoC u1 * x 1%nat)%C) in *. set (B := norm2 (RtoC (- u1) * x 0%nat + RtoC u0 * x 1%nat)%C) in *.
    assert (A0 : 0 <= A) by apply norm2_nonneg. assert (B0 : 0 <= B) by apply norm2_nonneg.
    assert (S : 0 < A + B). { apply (Rmult_lt_reg_r (/ M)); [now apply Rinv_0_lt_compat|]. rewrite Rmult_0_l. exact Q. }
    apply Rdiv_lt_0_compat; [|exact Hu]. assert (0 <= al * A) by (apply Rmult_le_pos; lra). assert (0 <= be * B) by (apply Rmult_le_pos; lra).
    destruct (Rle_lt_or_eq_dec 0 A A0) as [A1|A1].
    - assert (0 < al * A) by now apply Rmult_lt_0_compat. lra.
    - assert (B1 : 0 < B) by (rewrite <- A1, Rplus_0_l in S; exact S). assert (0 < be * B) by now apply Rmult_lt_0_compat. lra.
  Qed.
End Mix.

(** BeamformerCapon without such a bound: for the same array no constant bounds the
    error of the map by that of the matrix. *)
Theorem C137_capon_refuted : exists n r0 k (r : nat -> R) st,
  (0 < n)%nat /\ 0 < r0 /\ (forall m, (m < n)%nat -> 0 < r m)
  /\ forall K, exists c c' ic ic' eps x x',
       hermitian n c /\ hermitian n c' /\ positive_definite n c /\ positive_definite n c' /\ within n eps c c' /\ 0 < eps
       /\ is_inverse n c ic /\ is_inverse n c' ic' /\ capon n ic r0 k r st = Some x /\ capon n ic' r0 k r st = Some x' /\ K * eps < Rabs (x' - x).
Proof.
  destruct C132_case as (_ & P0 & P1 & _).
  exists 2%nat, (two_r0 0), PI, (two_r 0), TrueLevel. split; [lia|]. split; [apply P0|]. split; [intros; apply P1|]. intros K.
  set (w := 20 + Rabs K). assert (Hw : 20 <= w) by (unfold w; pose proof (Rabs_pos K); lra). assert (KW : K <= w) by (unfold w; pose proof (Rle_abs K); lra).
  set (u0 := 2 * w + 1). set (u1 := 2 - w). assert (Hu : u0 * u0 + u1 * u1 = 5 * (w * w + 1)) by (unfold u0, u1; ring).
  assert (WW : 0 < w * w) by (apply Rmult_lt_0_compat; lra). assert (PU : 0 < u0 * u0 + u1 * u1) by lra.
  assert (I1 : is_inverse 2 (mix u0 u1 (w * w) 1) (mix u0 u1 (/ (w * w)) (/ 1))) by (apply mix_inverse; lra).
  assert (I2 : is_inverse 2 (mix u0 u1 (w * w) 2) (mix u0 u1 (/ (w * w)) (/ 2))) by (apply mix_inverse; lra).
  pose proof (mix_positive u0 u1 PU (w * w) 1 WW ltac:(lra)) as D1. pose proof (mix_positive u0 u1 PU (w * w) 2 WW ltac:(lra)) as D2.
  destruct (capon_eq 2 (two_r0 0) PI (two_r 0) ltac:(lia) (P0 _) (fun m _ => P1 _ m) _ _ TrueLevel (mix_hermitian u0 u1 (w * w) 1) I1 D1) as [_ E1].
  destruct (capon_eq 2 (two_r0 0) PI (two_r 0) ltac:(lia) (P0 _) (fun m _ => P1 _ m) _ _ TrueLevel (mix_hermitian u0 u1 (w * w) 2) I2 D2) as [_ E2].
  exists (mix u0 u1 (w * w) 1), (mix u0 u1 (w * w) 2), (mix u0 u1 (/ (w * w)) (/ 1)), (mix u0 u1 (/ (w * w)) (/ 2)), 1, (5 * (w * w + 1) / 32), (5 * (w * w + 1) / 24).
  do 2 (split; [apply mix_hermitian|]). split; [exact D1|]. split; [exact D2|].
  assert (Q : forall be, re (qform 2 (mix u0 u1 (/ (w * w)) be) (steer_vector 2 TrueLevel (transfer (two_r0 0) PI (two_r 0)))) = (4 + be * 4) / (5 * (w * w + 1))).
  { intros be. rewrite mix_form by exact PU. rewrite !near_steer by lia. cbn [Nat.eqb]. rewrite Hu. f_equal.
    unfold norm2, RtoC, Cadd, Cmul. cbn [fst snd]. unfold u0, u1. field. lra. }
  split; [|split; [lra|split; [exact I1|split; [exact I2|split; [|split]]]]].
  - intros x. rewrite !mix_form, (mix_one u0 u1) by exact PU. set (A := norm2 _). set (B := norm2 _). assert (A0 : 0 <= A) by apply norm2_nonneg. assert (B0 : 0 <= B) by apply norm2_nonneg.
    assert (Z : 0 < / (u0 * u0 + u1 * u1)) by now apply Rinv_0_lt_compat. unfold Rdiv. set (z := / (u0 * u0 + u1 * u1)) in *.
    assert (0 <= A * z) by (apply Rmult_le_pos; lra). assert (0 <= B * z) by (apply Rmult_le_pos; lra).
    replace ((w * w * A + 2 * B) * z - (w * w * A + 1 * B) * z) with (B * z) by ring. apply Rabs_le. lra.
  - rewrite E1, Q. f_equal. change (INR 2) with 2. field. lra.
  - rewrite E2, Q. f_equal. change (INR 2) with 2. field. lra.
  - rewrite Rabs_pos_eq by lra. assert (20 * w <= w * w) by (apply Rmult_le_compat_r; lra). lra.
Qed.
Print Assumptions C137_capon_refuted.

(** BeamformerEig with one component: for the same array an error of any size
    changes the map by half the level or more. *)
Theorem C137_eig_refuted : exists n r0 k (r : nat -> R) st,
  (0 < n)%nat /\ 0 < r0 /\ (forall m, (m < n)%nat -> 0 < r m)
  /\ forall eps, 0 < eps -> exists c c' evc vc evd vd x x',
       sound n c /\ sound n c' /\ within n eps c c' /\ is_eigh n c evc vc /\ is_eigh n c' evd vd
       /\ bf_eig n (n - 1) evc vc r0 k r false 0 st = Some x /\ bf_eig n (n - 1) evd vd r0 k r false 0 st = Some x' /\ 12 / 25 <= Rabs (x' - x).
Proof.
  destruct C132_case as (_ & P0 & P1 & _).
  exists 2%nat, (two_r0 0), PI, (two_r 0), TrueLevel. split; [lia|]. split; [apply P0|]. split; [intros; apply P1|]. intros eps He.
  set (ev := fun e : nat => if (e =? 0)%nat then 1 else 1 + eps). set (swap := fun m e : nat => if (m =? e)%nat then C0 else C1).
  exists (mix 0 1 (1 + eps) 1), (mix 1 0 (1 + eps) 1), ev, unit_eve, ev, swap, (4 / 25 * (1 + eps)), (16 / 25 * (1 + eps)).
  assert (U1 : 0 < 0 * 0 + 1 * 1) by lra. assert (U2 : 0 < 1 * 1 + 0 * 0) by lra.
  split; [split; [apply mix_hermitian|apply pd_semi, mix_positive; lra]|]. split; [split; [apply mix_hermitian|apply pd_semi, mix_positive; lra]|].
  split.
  { intros x. rewrite !mix_form by lra. cbn [rsumn]. unfold norm2, RtoC, Cadd, Cmul. cbn [fst snd]. destruct (x 0%nat) as [a b], (x 1%nat) as [c d]. cbn [fst snd].
    apply Rabs_le. pose proof (Rle_0_sqr a) as A. pose proof (Rle_0_sqr b) as B. pose proof (Rle_0_sqr c) as C'. pose proof (Rle_0_sqr d) as D. unfold Rsqr in *.
    pose proof (Rmult_le_pos _ _ (Rlt_le _ _ He) A). pose proof (Rmult_le_pos _ _ (Rlt_le _ _ He) B). pose proof (Rmult_le_pos _ _ (Rlt_le _ _ He) C'). pose proof (Rmult_le_pos _ _ (Rlt_le _ _ He) D).
    match goal with |- _ <= ?z <= _ => replace z with (eps * (a * a) + eps * (b * b) - eps * (c * c) - eps * (d * d)) by field end. lra. }
  assert (EG : forall c eve, (forall e i, (e < 2)%nat -> (i < 2)%nat -> csum 2 (fun j => c i j * eve j e)%C = (RtoC (ev e) * eve i e)%C) ->
     (eve = unit_eve \/ eve = swap) -> is_eigh 2 c ev eve).
  { intros c eve A B. split; [exact A|split].
    - intros e f Hf Hf'. destruct B as [-> | ->]; (destruct e as [|[|]]; [| |lia]); (destruct f as [|[|]]; [| |lia]); unfold unit_eve, swap; cbn [Nat.eqb csum];
        unfold Conj, Cadd, Cmul, C0, C1; cbn [fst snd]; f_equal; ring.
    - intros e f L Hf. destruct e as [|[|]]; [| |lia]; (destruct f as [|[|]]; [| |lia]); unfold ev; cbn [Nat.eqb]; (lra || lia). }
  split; [|split].
  1-2: apply EG; [|auto]; intros e i Hf Hi; (destruct e as [|[|]]; [| |lia]); (destruct i as [|[|]]; [| |lia]);
    unfold mix, unit_eve, swap, ev; cbn [Nat.eqb csum]; unfold RtoC, Conj, Cadd, Cmul, C0, C1; cbn [fst snd]; f_equal; field.
  assert (V : forall eve, bf_eig 2 (2 - 1) ev eve (two_r0 0) PI (two_r 0%nat) false 0 TrueLevel
     = Some ((1 + eps) * norm2 (inner 2 (fun i => eve i 1%nat) (steer_vector 2 TrueLevel (transfer (two_r0 0) PI (two_r 0)))))).
  { intros eve. unfold bf_eig. cbn [sig_loss_norm clip_neg]. f_equal. rewrite (fast_eig_custom 2 (two_r0 0) PI (two_r 0) ltac:(lia) (P0 _) (fun m _ => P1 _ m)).
    unfold freq_custom_eig, scalar_prod_eig. cbv zeta. cbn [fst rsumn Nat.sub Nat.add]. rewrite mul_Conj. cbn [re RtoC fst]. unfold ev, inner. cbn [Nat.eqb]. ring. }
  rewrite !V. unfold inner. cbn [csum]. rewrite !near_steer by lia. unfold unit_eve, swap. cbn [Nat.eqb].
  unfold norm2, RtoC, Conj, Cadd, Cmul, C0, C1. cbn [fst snd].
  split; [f_equal; field|]. split; [f_equal; field|]. rewrite Rabs_pos_eq by lra. lra.
Qed.
Print Assumptions C137_eig_refuted.

(** The hypotheses can be met, by noise of powers 8 and 18 in two channels with an
    error of one. *)
Example C137_case :
  (0 < 2)%nat /\ 0 < two_r0 0 /\ (forall m, (m < 2)%nat -> 0 < two_r 0 m)
  /\ sound 2 (mix 1 0 8 18) /\ sound 2 (mix 1 0 9 17) /\ within 2 1 (mix 1 0 8 18) (mix 1 0 9 17)
  /\ is_eigh 2 (mix 1 0 8 18) both_eva unit_eve /\ is_eigh 2 (mix 1 0 9 17) (fun e => if (e =? 0)%nat then 9 else 17) unit_eve
  /\ (forall x, 8 * rsumn 2 (fun m => norm2 (x m)) <= re (qform 2 (mix 1 0 8 18) x))
  /\ is_inverse 2 (mix 1 0 8 18) (mix 1 0 (/ 8) (/ 18)) /\ is_inverse 2 (mix 1 0 9 17) (mix 1 0 (/ 9) (/ 17))
  /\ sig_loss_norm 2 true 0 = Some 2 /\ sig_loss_norm 2 false 0 = Some 1.
Proof.
  destruct C132_case as (_ & P0 & P1 & _).
  split; [lia|]. split; [apply P0|]. split; [intros; apply P1|].
  do 2 (split; [split; [apply mix_hermitian|apply pd_semi, mix_positive; lra]|]).
  assert (EG : forall a b eva, a <= b -> eva 0%nat = a -> eva 1%nat = b -> is_eigh 2 (mix 1 0 a b) eva unit_eve).
  { intros a b eva L E0 E1. split; [|split].
    - intros e i Hf Hi. destruct e as [|[|]]; [| |lia]; (destruct i as [|[|]]; [| |lia]); rewrite ?E0, ?E1; unfold mix, unit_eve; cbn [Nat.eqb csum]; unfold RtoC, Cadd, Cmul, C0, C1; cbn [fst snd]; f_equal; field.
    - intros e f Hf Hf'. destruct e as [|[|]]; [| |lia]; (destruct f as [|[|]]; [| |lia]); unfold unit_eve; cbn [Nat.eqb csum]; unfold Conj, Cadd, Cmul, C0, C1; cbn [fst snd]; f_equal; ring.
    - intros e f M Hf. destruct e as [|[|]]; [| |lia]; (destruct f as [|[|]]; [| |lia]); (lra || lia). }
  assert (FM : forall a b x, re (qform 2 (mix 1 0 a b) x) = a * norm2 (x 0%nat) + b * norm2 (x 1%nat)).
  { intros a b x. rewrite mix_form by lra. unfold norm2, RtoC, Cadd, Cmul. cbn [fst snd]. field. }
  split; [|split; [|split; [|split; [|split; [|split; [|split]]]]]].
  - intros x. rewrite !FM. cbn [rsumn]. pose proof (norm2_nonneg (x 0%nat)). pose proof (norm2_nonneg (x 1%nat)). apply Rabs_le. lra.
  - apply EG; [lra|reflexivity|reflexivity].
  - apply EG; [lra|reflexivity|reflexivity].
  - intros x. rewrite FM. cbn [rsumn]. pose proof (norm2_nonneg (x 1%nat)). lra.
  - apply mix_inverse; lra.
  - apply mix_inverse; lra.
  - unfold sig_loss_norm. destruct (Req_EM_T 0 0); [|lra]. cbn [Nat.eqb]. f_equal. change (INR 2) with 2. lra.
  - reflexivity.
Qed.
