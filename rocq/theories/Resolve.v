(** Maps at the points of sources with orthogonal transfer vectors (property
    C133): BeamformerBase, BeamformerFunctional and BeamformerCapon (models in
    Beamform.v and Subspace.v; fbeamform.py:485-520, 770-788, 808-834). *)
From Coq Require Import List Arith Lia ZArith Bool Reals Lra.
From Verif Require Import Stream Cplx Buffer Frames Convolve Fourier Beamform Csm Deconv Subspace Spectral Rewire OrthSep.
Import ListNotations.
Local Open Scope R_scope.
Local Open Scope C_scope.

(** ** A steering vector that is an eigenvector of the matrix *)
Section Eigenvector.
  Variables (n : nat) (r0 k : R) (r : nat -> R) (st : steer) (c : nat -> nat -> C) (lam : R).
  Hypotheses (Hn : (0 < n)%nat) (Hr0 : (0 < r0)%R) (Hr : forall m, (m < n)%nat -> (0 < r m)%R) (Hc : hermitian n c).
  Let h := steer_vector n st (transfer r0 k r).
  Let s := rsumn n (fun m => norm2 (h m)).
  Hypothesis Hh : forall i, (i < n)%nat -> matvec n c h i = RtoC lam * h i.

  Lemma eigvec_form : re (qform n c h) = (lam * s)%R.
  Proof.
    rewrite <- sesq_qform, sesq_matvec. rewrite (inner_ext n h h (matvec n c h) (fun i => RtoC lam * h i)) by (intros m Hm; split; auto).
    rewrite inner_scal_r, inner_self, re_RtoC_mul. reflexivity.
  Qed.

  Lemma eigvec_base rdn : bf_base n c r0 k r false rdn st = Some (lam * s)%R.
  Proof.
    rewrite bf_base_full. f_equal. pose proof (bf_quadratic n r0 k r Hn Hr0 Hr c 1 false st Hc) as B. fold h in B.
    apply (f_equal re) in B. rewrite re_RtoC_mul, eigvec_form in B. cbn [re RtoC fst] in B. rewrite B. ring.
  Qed.

  Lemma eigvec_functional eva eve g : is_eigh n c eva eve -> (0 <= lam)%R -> (0 < g)%R ->
    bf_functional n npow g eva eve r0 k r st = (lam * s)%R.
  Proof.
    intros E Hl Hg. assert (Ho := proj1 (proj2 E)). rewrite (functional_eq n r0 k r st Hn Hr0 Hr). fold h s.
    destruct (weights n r0 k r st Hn Hr0 Hr eve Ho) as [_ W]. fold h s in W.
    rewrite (rsumn_ext n _ (fun e => npow lam (1 / g) * (norm2 (inner n (fun i => eve i e) h) / s))%R).
    - rewrite rsumn_scal, W, Rmult_1_r. rewrite npow_npow by assumption. replace (1 / g * g)%R with 1%R by (field; lra). now rewrite npow_1.
    - intros e He. destruct (C_dec (inner n (fun i => eve i e) h)) as [Z|N]; [rewrite Z; unfold norm2; cbn [fst snd C0]; unfold Rdiv; ring|].
      assert (Q : eva e = lam); [|rewrite Q; ring]. apply RtoC_inj.
      assert (A : RtoC lam * inner n (fun i => eve i e) h = RtoC (eva e) * inner n (fun i => eve i e) h).
      { rewrite <- inner_scal_r. rewrite (inner_ext n _ (fun i => eve i e) (fun i => RtoC lam * h i) (matvec n c h)) by (intros m Hm; split; [reflexivity|symmetry; auto]).
        rewrite <- sesq_matvec. rewrite <- sesq_conj by assumption. rewrite sesq_matvec.
        rewrite (inner_ext n h h (matvec n c (fun i => eve i e)) (fun i => RtoC (eva e) * eve i e)).
        - rewrite inner_scal_r, Conj_mul, Conj_RtoC, inner_conj. reflexivity.
        - intros m Hm. split; [reflexivity|]. now apply (proj1 E). }
      transitivity (RtoC (eva e) * inner n (fun i => eve i e) h / inner n (fun i => eve i e) h); [field; exact N|]. rewrite <- A. field. exact N.
  Qed.

  Lemma eigvec_capon d : is_inverse n c d -> positive_definite n c -> (0 < lam)%R ->
    capon n d r0 k r st = Some (lam / (INR n * INR n * s))%R.
  Proof.
    intros Hd P Hl. destruct (capon_eq n r0 k r Hn Hr0 Hr c d st Hc Hd P) as [Q E]. rewrite E. fold h in Q |- *. f_equal.
    assert (V : re (qform n d h) = (s / lam)%R).
    { rewrite <- sesq_qform, sesq_matvec. rewrite (inner_ext n h h (matvec n d h) (fun i => RtoC (/ lam) * h i)).
      - rewrite inner_scal_r, inner_self, re_RtoC_mul. cbn [re RtoC fst]. fold s. unfold Rdiv. ring.
      - intros m Hm. split; [reflexivity|].
        rewrite <- (inverse_left n c d (fun i => RtoC (/ lam) * h i) m Hc Hd Hm). unfold matvec at 1 2. apply csum_ext. intros j Hj. f_equal.
        transitivity (RtoC (/ lam) * matvec n c h j).
        + rewrite Hh by assumption. transitivity (RtoC (/ lam) * RtoC lam * h j); [|ring]. rewrite <- RtoC_mul, Rinv_l by lra. change (RtoC 1) with C1. ring.
        + unfold matvec. rewrite <- csum_scal. apply csum_ext. intros. ring. }
    rewrite V in *. pose proof (lt_0_INR n Hn). assert (0 < s)%R. { apply (Rmult_lt_reg_r (/ lam)); [now apply Rinv_0_lt_compat|]. rewrite Rmult_0_l. exact Q. }
    field. repeat split; lra.
  Qed.
End Eigenvector.

(** ** Bessel's inequality *)
Lemma inner_sub_r n x y z : inner n x (fun i => y i - z i) = inner n x y - inner n x z.
Proof. unfold inner. rewrite <- csum_sub. apply csum_ext. intros. ring. Qed.
Lemma inner_sub_l n x y z : inner n (fun i => x i - y i) z = inner n x z - inner n y z.
Proof. rewrite <- (inner_conj n z), inner_sub_r, Conj_sub, !inner_conj. reflexivity. Qed.

Lemma bessel n K (a : nat -> nat -> C) (h : nat -> C) :
  (forall s, (s < K)%nat -> (0 < pw n a s)%R) ->
  (forall s t, (s < K)%nat -> (t < K)%nat -> s <> t -> inner n (a s) (a t) = C0) ->
  (rsumn K (fun t => norm2 (inner n (a t) h) / pw n a t) <= rsumn n (fun m => norm2 (h m)))%R.
Proof.
  intros Hn Ho. set (b := fun i => csum K (fun t => inner n (a t) h / RtoC (pw n a t) * a t i)). set (u := fun i => h i - b i).
  assert (NZ : forall t, (t < K)%nat -> RtoC (pw n a t) <> C0) by (intros t Ht; apply RtoC_neq0; specialize (Hn t Ht); lra).
  assert (Z : forall t, (t < K)%nat -> inner n (a t) u = C0).
  { intros t Ht. unfold u. rewrite inner_sub_r. unfold b. rewrite inner_csum_r. rewrite (csum_single K t); [|assumption|].
    - rewrite inner_scal_r. rewrite inner_self. fold (pw n a t). specialize (NZ t Ht). field. exact NZ.
    - intros e He N. rewrite inner_scal_r, Ho by (assumption || congruence). ring. }
  assert (E : RtoC (rsumn n (fun m => norm2 (h m))) = RtoC (rsumn n (fun m => norm2 (u m))) + RtoC (rsumn K (fun t => (norm2 (inner n (a t) h) / pw n a t)%R))).
  { assert (B : inner n b u = C0).
    { rewrite <- inner_conj. unfold b. rewrite inner_csum_r. rewrite csum_0; [apply Conj_0|]. intros t Ht. rewrite inner_scal_r, <- (inner_conj n (a t) u), Z by assumption. rewrite Conj_0. ring. }
    assert (H1 : inner n h u = inner n u u).
    { unfold u at 2. rewrite inner_sub_l, B. ring. }
    assert (H2 : inner n h b = csum K (fun t => RtoC (norm2 (inner n (a t) h) / pw n a t))).
    { unfold b. rewrite inner_csum_r. apply csum_ext. intros t Ht. rewrite inner_scal_r, <- (inner_conj n (a t) h). specialize (NZ t Ht). pose proof (Hn t Ht).
      rewrite RtoC_div by lra. rewrite <- mul_Conj. field. exact NZ. }
    rewrite <- !inner_self, <- csum_RtoC, <- H1, <- H2. unfold u. rewrite inner_sub_r. ring. }
  rewrite <- RtoC_add in E. apply RtoC_inj in E. rewrite E.
  assert (0 <= rsumn n (fun m => norm2 (u m)))%R; [|lra]. apply rsumn_nonneg. intros. apply norm2_nonneg.
Qed.

(** ** Orthogonal sources *)
Section Sources.
  Variables (n K : nat) (s2 : R) (p : nat -> R) (a : nat -> nat -> C).
  Hypotheses (Hp : forall s, (s < K)%nat -> (0 < p s)%R) (Hw : forall s, (s < K)%nat -> (0 < pw n a s)%R)
    (Ho : forall s t, (s < K)%nat -> (t < K)%nat -> s <> t -> inner n (a s) (a t) = C0) (Hs2 : (0 <= s2)%R).

  Lemma noisy_hermitian : hermitian n (noisy_csm s2 K p a).
  Proof.
    intros i j _ _. unfold noisy_csm. rewrite Conj_add, csum_conj. f_equal.
    - rewrite Nat.eqb_sym. destruct (i =? j)%nat; [now rewrite Conj_RtoC|now rewrite Conj_0].
    - apply csum_ext. intros. rewrite !Conj_mul, Conj_RtoC, Conj_invol. ring.
  Qed.

  Lemma source_eigvec s z i : (s < K)%nat -> (i < n)%nat ->
    matvec n (noisy_csm s2 K p a) (fun m => z * a s m) i = RtoC (s2 + p s * pw n a s) * (z * a s i).
  Proof.
    intros Hs Hi. unfold matvec. rewrite noisy_apply by assumption. rewrite (csum_single K s); [|assumption|].
    - rewrite inner_scal_r, inner_self. fold (pw n a s). rewrite RtoC_add, RtoC_mul. ring.
    - intros t Ht N. rewrite inner_scal_r, Ho by assumption. ring.
  Qed.

  Lemma noisy_form x : re (qform n (noisy_csm s2 K p a) x)
    = (s2 * rsumn n (fun m => norm2 (x m)) + rsumn K (fun t => p t * norm2 (inner n (a t) x)))%R.
  Proof.
    rewrite <- sesq_qform, sesq_matvec. unfold matvec.
    rewrite (inner_ext n x x _ (fun i => RtoC s2 * x i + csum K (fun t => RtoC (p t) * inner n (a t) x * a t i))) by (intros m Hm; split; [reflexivity|now apply noisy_apply]).
    assert (A : inner n x (fun i => RtoC s2 * x i + csum K (fun t => RtoC (p t) * inner n (a t) x * a t i))
      = inner n x (fun i => RtoC s2 * x i) + inner n x (fun i => csum K (fun t => RtoC (p t) * inner n (a t) x * a t i))).
    { unfold inner. rewrite <- csum_add. apply csum_ext. intros. ring. }
    rewrite A, inner_scal_r, inner_self, inner_csum_r.
    rewrite (csum_ext K _ (fun t => RtoC (p t * norm2 (inner n (a t) x)))).
    - rewrite csum_RtoC, <- RtoC_mul, <- RtoC_add. reflexivity.
    - intros t _. rewrite inner_scal_r, <- (inner_conj n (a t) x), RtoC_mul, <- mul_Conj. ring.
  Qed.

  Lemma noisy_positive : (0 < s2)%R -> positive_definite n (noisy_csm s2 K p a).
  Proof.
    intros P x (m & Hm & N). rewrite noisy_form.
    assert (0 < rsumn n (fun i => norm2 (x i)))%R.
    { apply Rlt_le_trans with (norm2 (x m)); [now apply norm2_pos|]. apply (rsumn_term n (fun i => norm2 (x i))); [intros; apply norm2_nonneg|assumption]. }
    assert (0 <= rsumn K (fun t => p t * norm2 (inner n (a t) x)))%R by (apply rsumn_nonneg; intros t Ht; apply Rmult_le_pos; [specialize (Hp t Ht); lra|apply norm2_nonneg]).
    nra.
  Qed.

  (** No vector gives more than the loudest source. *)
  Lemma loudest_bound l x : (l < K)%nat -> (forall t, (t < K)%nat -> (p t * pw n a t <= p l * pw n a l)%R) ->
    (re (qform n (noisy_csm s2 K p a) x) <= (s2 + p l * pw n a l) * rsumn n (fun m => norm2 (x m)))%R.
  Proof.
    intros Hl Hmax. rewrite noisy_form. pose proof (bessel n K a x Hw Ho) as B.
    assert (rsumn K (fun t => p t * norm2 (inner n (a t) x)) <= p l * pw n a l * rsumn K (fun t => norm2 (inner n (a t) x) / pw n a t))%R.
    { rewrite <- rsumn_scal. apply rsumn_le. intros t Ht. pose proof (Hw t Ht).
      replace (p t * norm2 (inner n (a t) x))%R with (p t * pw n a t * (norm2 (inner n (a t) x) / pw n a t))%R by (field; lra).
      apply Rmult_le_compat_r; [apply Rle_mult_inv_pos; [apply norm2_nonneg|assumption]|now apply Hmax]. }
    assert (0 < p l * pw n a l)%R by (apply Rmult_lt_0_compat; auto). nra.
  Qed.

  Lemma loudest_strict l x i j : (l < K)%nat -> (forall t, (t < K)%nat -> t <> l -> (p t * pw n a t < p l * pw n a l)%R) ->
    (i < n)%nat -> (j < n)%nat -> x i * a l j <> x j * a l i ->
    (re (qform n (noisy_csm s2 K p a) x) < (s2 + p l * pw n a l) * rsumn n (fun m => norm2 (x m)))%R.
  Proof.
    intros Hl Hmax Hi Hj Np. rewrite noisy_form. pose proof (bessel n K a x Hw Ho) as B.
    assert (HP : (0 < p l * pw n a l)%R) by (apply Rmult_lt_0_compat; auto).
    set (b := fun t => (norm2 (inner n (a t) x) / pw n a t)%R) in *.
    assert (B0 : forall t, (t < K)%nat -> (0 <= b t)%R) by (intros t Ht; apply Rle_mult_inv_pos; [apply norm2_nonneg|auto]).
    rewrite (rsumn_ext K _ (fun t => p t * pw n a t * b t)%R) by (intros t Ht; unfold b; pose proof (Hw t Ht); field; lra).
    set (X := rsumn n (fun m => norm2 (x m))) in *.
    assert (Xp : (0 < X)%R).
    { destruct (C_dec (x i)) as [Z1|N1], (C_dec (x j)) as [Z2|N2].
      - exfalso. apply Np. rewrite Z1, Z2. ring.
      - apply Rlt_le_trans with (norm2 (x j)); [now apply norm2_pos|]. apply (rsumn_term n (fun i => norm2 (x i))); [intros; apply norm2_nonneg|assumption].
      - apply Rlt_le_trans with (norm2 (x i)); [now apply norm2_pos|]. apply (rsumn_term n (fun i => norm2 (x i))); [intros; apply norm2_nonneg|assumption].
      - apply Rlt_le_trans with (norm2 (x i)); [now apply norm2_pos|]. apply (rsumn_term n (fun i => norm2 (x i))); [intros; apply norm2_nonneg|assumption]. }
    assert (Bl : (b l < X)%R).
    { unfold b. pose proof (cs_strict n x (a l) i j Xp Hi Hj Np) as CS. fold X in CS. fold (pw n a l) in CS.
      rewrite <- inner_conj, norm2_Conj in CS. pose proof (Hw l Hl). apply (Rmult_lt_reg_r (pw n a l)); [assumption|].
      unfold Rdiv. rewrite Rmult_assoc, Rinv_l, Rmult_1_r by lra. exact CS. }
    assert (S : (rsumn K (fun t => p t * pw n a t * b t) < p l * pw n a l * X)%R); [|nra].
    destruct (zero_or_not K (fun t => if (t =? l)%nat then C0 else inner n (a t) x)) as [Z|(t & Ht & N)].
    - rewrite (rsumn_single K l); [apply Rmult_lt_compat_l; assumption|assumption|]. intros t Ht N. specialize (Z t Ht). destruct (Nat.eqb_spec t l); [contradiction|].
      unfold b. rewrite Z. unfold norm2. cbn [fst snd C0]. unfold Rdiv. ring.
    - destruct (Nat.eqb_spec t l) as [|D]; [contradiction|].
      assert (Bt : (0 < b t)%R) by (unfold b; apply Rdiv_lt_0_compat; [now apply norm2_pos|auto]).
      assert (rsumn K (fun t => p t * pw n a t * b t) < p l * pw n a l * rsumn K b)%R; [|nra].
      assert (G : (0 < rsumn K (fun t => (p l * pw n a l - p t * pw n a t) * b t))%R).
      { apply Rlt_le_trans with ((p l * pw n a l - p t * pw n a t) * b t)%R; [specialize (Hmax t Ht D); nra|].
        apply (rsumn_term' K (fun t => (p l * pw n a l - p t * pw n a t) * b t)%R); [|assumption].
        intros e He. destruct (Nat.eq_dec e l) as [->|De]; [nra|]. specialize (Hmax e He De). specialize (B0 e He). nra. }
      rewrite (rsumn_ext K _ (fun t => p l * pw n a l * b t + - (p t * pw n a t * b t))%R) in G by (intros; ring).
      rewrite rsumn_add, rsumn_scal in G.
      rewrite (rsumn_ext K (fun k => - (p k * pw n a k * b k))%R (fun k => (-1) * (p k * pw n a k * b k))%R) in G by (intros; ring). rewrite rsumn_scal in G. lra.
  Qed.
End Sources.
