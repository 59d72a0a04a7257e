(** Errors of the cross spectral matrix and what they do to the maps. *)
From Coq Require Import List Arith Lia ZArith Bool Reals Lra.
From Verif Require Import Stream Cplx Buffer Frames Convolve Fourier Beamform Csm Deconv Subspace Spectral OrthSep Resolve RemovedSep Heinz AddSound.
Import ListNotations.
Local Open Scope R_scope.

(** ** Powers *)
Lemma npow_above t s : 0 <= t <= 1 -> 0 < s <= 1 -> t <= npow t s.
Proof.
  intros [T0 T1] [S0 S1]. unfold npow. destruct (Req_EM_T t 0); [lra|]. unfold Rpower.
  rewrite <- (exp_ln t) at 1 by lra. assert (L : ln t <= 0) by (rewrite <- ln_1; destruct (Rle_lt_or_eq_dec t 1 T1) as [Q | ->]; [left; apply ln_increasing; lra|lra]).
  assert (ln t <= s * ln t). { assert (0 <= (1 - s) * (- ln t)) by (apply Rmult_le_pos; lra). lra. }
  destruct (Rle_lt_or_eq_dec _ _ H) as [Q | <-]; [left; now apply exp_increasing|lra].
Qed.

Lemma npow_subadd x y s : 0 <= x -> 0 <= y -> 0 < s <= 1 -> npow (x + y) s <= npow x s + npow y s.
Proof.
  intros Hx Hy Hs. destruct (Req_dec (x + y) 0) as [Z|Z].
  - rewrite Z, npow_0. pose proof (npow_nonneg x s). pose proof (npow_nonneg y s). lra.
  - assert (P : 0 < x + y) by lra. pose proof (npow_nonneg (x + y) s) as N.
    assert (B : forall a b, 0 <= a -> 0 <= b -> a + b = x + y -> a / (x + y) * npow (x + y) s <= npow a s).
    { intros a b Ha Hb E. assert (R : 0 <= a / (x + y) <= 1).
      { split; [now apply Rle_mult_inv_pos|]. apply (Rmult_le_reg_r (x + y)); [exact P|]. unfold Rdiv. rewrite Rmult_assoc, Rinv_l by lra. lra. }
      pose proof (npow_above _ s R Hs) as L. apply (Rmult_le_compat_r (npow (x + y) s)) in L; [|exact N].
      rewrite <- npow_mult in L by lra. replace (a / (x + y) * (x + y)) with a in L by (field; lra). exact L. }
    pose proof (B x y Hx Hy eq_refl). pose proof (B y x Hy Hx (Rplus_comm y x)).
    replace (npow (x + y) s) with (x / (x + y) * npow (x + y) s + y / (x + y) * npow (x + y) s) at 1 by (field; lra). lra.
Qed.

(** ** Noise of the same power in every channel *)
Definition floor (e : R) (i j : nat) : C := if (i =? j)%nat then RtoC e else C0.

Lemma floor_apply n e x i : (i < n)%nat -> (csum n (fun j => floor e i j * x j) = RtoC e * x i)%C.
Proof.
  intros Hi. rewrite (csum_single n i); [|assumption|].
  - unfold floor. now rewrite Nat.eqb_refl.
  - intros j Hj N. unfold floor. destruct (Nat.eqb_spec i j); [congruence|ring].
Qed.

Definition lifted (e : R) (c : nat -> nat -> C) (i j : nat) : C := (c i j + floor e i j)%C.

Lemma lifted_form n e c x : re (qform n (lifted e c) x) = re (qform n c x) + e * rsumn n (fun m => norm2 (x m)).
Proof.
  transitivity (re (qform n c x + RtoC (e * rsumn n (fun m => norm2 (x m))))%C); [|now rewrite re_add].
  f_equal. unfold qform, lifted. rewrite RtoC_mul, <- csum_RtoC, <- csum_scal, <- csum_add. apply csum_ext. intros i Hi.
  rewrite (csum_ext n _ (fun j => Conj (x i) * c i j * x j + Conj (x i) * (floor e i j * x j))%C) by (intros; ring).
  rewrite csum_add. f_equal. rewrite csum_scal, floor_apply by assumption. rewrite <- Conj_mul_self. ring.
Qed.

Lemma lifted_hermitian n e c : hermitian n c -> hermitian n (lifted e c).
Proof.
  intros H i j Hi Hj. unfold lifted, floor. rewrite Conj_add, <- (H i j Hi Hj), Nat.eqb_sym. destruct (i =? j)%nat; [now rewrite Conj_RtoC|now rewrite Conj_0].
Qed.

Lemma lifted_eigh n e c eva eve : is_eigh n c eva eve -> is_eigh n (lifted e c) (fun f => eva f + e) eve.
Proof.
  intros (A & B & D). split; [|split; [exact B|intros; apply Rplus_le_compat_r; auto]]. intros f i Hf Hi. unfold lifted.
  rewrite (csum_ext n _ (fun j => c i j * eve j f + floor e i j * eve j f)%C) by (intros; ring).
  rewrite csum_add, A, (floor_apply n e (fun j => eve j f)) by assumption. rewrite RtoC_add. ring.
Qed.

(** ** Functional beamforming *)
Section Functional.
  Variables (n : nat) (r0 k : R) (r : nat -> R) (st : steer).
  Hypotheses (Hn : (0 < n)%nat) (Hr0 : 0 < r0) (Hr : forall m, (m < n)%nat -> 0 < r m).
  Variables (c c' : nat -> nat -> C) (eva eva' : nat -> R) (eve eve' : nat -> nat -> C) (eps g : R).
  Let h := steer_vector n st (transfer r0 k r).
  Let s := rsumn n (fun m => norm2 (h m)).
  Hypotheses (Hc : hermitian n c) (Hc' : hermitian n c') (E : is_eigh n c eva eve) (E' : is_eigh n c' eva' eve')
    (P : forall x, 0 <= re (qform n c x)) (P' : forall x, 0 <= re (qform n c' x)) (He : 0 <= eps)
    (Hle : forall x, re (qform n c' x) <= re (qform n c x) + eps * rsumn n (fun m => norm2 (x m))) (Hg : 1 <= g).

  Theorem functional_close :
    npow (bf_functional n npow g eva' eve' r0 k r st) (1 / g) <= npow (bf_functional n npow g eva eve r0 k r st) (1 / g) + npow (eps * s) (1 / g).
  Proof.
    pose proof (steer_size n r0 k r st Hn Hr0 Hr) as Hs. fold h in Hs. fold s in Hs.
    pose proof (eva_nonneg n c eva eve Hc E P) as N. pose proof (eva_nonneg n c' eva' eve' Hc' E' P') as N'.
    assert (Hq : 0 < 1 / g <= 1).
    { split; [apply Rdiv_lt_0_compat; lra|]. apply (Rmult_le_reg_r g); [lra|]. unfold Rdiv. rewrite Rmult_assoc, Rinv_l by lra. lra. }
    rewrite !(functional_form n r0 k r st Hn Hr0 Hr g) by (lra || assumption). fold h. fold s.
    set (phi := fun (l : nat -> R) (v : nat -> nat -> C) => rsumn n (fun e => norm2 (inner n (fun i => v i e) h) * npow (l e) (1 / g))).
    change (npow (npow (phi eva' eve') g * (npow (/ s) g * s)) (1 / g) <= npow (npow (phi eva eve) g * (npow (/ s) g * s)) (1 / g) + npow (eps * s) (1 / g)).
    assert (Pn : forall l v, 0 <= phi l v) by (intros; apply rsumn_nonneg; intros; apply Rmult_le_pos; [apply norm2_nonneg|apply npow_nonneg]).
    assert (Is : 0 < / s) by now apply Rinv_0_lt_compat.
    assert (RT : forall z, 0 <= z -> npow (npow z g) (1 / g) = z) by (intros z Hz; rewrite npow_npow by exact Hz; replace (g * (1 / g)) with 1 by (field; lra); now apply npow_1).
    assert (EX : forall l v, npow (npow (phi l v) g * (npow (/ s) g * s)) (1 / g) = phi l v * (/ s * npow s (1 / g))).
    { intros l v. rewrite npow_mult; [|apply npow_nonneg|apply Rmult_le_pos; [apply npow_nonneg|lra]]. rewrite npow_mult by (try apply npow_nonneg; lra). rewrite !RT by (auto; lra). reflexivity. }
    rewrite !EX. rewrite npow_mult by lra.
    assert (L1 : phi eva' eve' <= phi (fun f => eva f + eps) eve).
    { apply (power_order n c' (lifted eps c) eva' (fun f => eva f + eps) eve' eve Hc' (lifted_hermitian n eps c Hc) E' (lifted_eigh n eps c eva eve E) P'); [|exact Hq].
      intros x. rewrite lifted_form. apply Hle. }
    assert (L2 : phi (fun f => eva f + eps) eve <= phi eva eve + s * npow eps (1 / g)).
    { unfold s. rewrite (coord_norm n c eva eve E h). unfold phi. rewrite (Rmult_comm (rsumn n _) (npow eps (1 / g))), <- rsumn_scal, <- rsumn_add. apply rsumn_le.
      intros e Hh. pose proof (npow_subadd (eva e) eps (1 / g) (N e Hh) He Hq) as SA. apply (Rmult_le_compat_l (norm2 (inner n (fun i => eve i e) h))) in SA; [|apply norm2_nonneg]. lra. }
    pose proof (npow_nonneg s (1 / g)) as Ns.
    apply Rle_trans with ((phi eva eve + s * npow eps (1 / g)) * (/ s * npow s (1 / g))).
    - apply Rmult_le_compat_r; [apply Rmult_le_pos; lra|lra].
    - apply Req_le. field. lra.
  Qed.
End Functional.

(** ** Inverses of comparable matrices *)
Lemma inverse_compare n c c' d d' h al : hermitian n c -> hermitian n c' -> is_inverse n c d -> is_inverse n c' d' -> positive_definite n c -> positive_definite n c' ->
  0 < al -> nonzero n h -> (forall x, re (qform n c' x) <= al * re (qform n c x)) -> re (qform n d h) <= al * re (qform n d' h).
Proof.
  intros Hc Hc' I I' P P' Ha Nz L. pose proof (inv_bound n c' c d' d Hc' Hc I' I P' h) as B.
  pose proof (inverse_qform n c d Hc I h) as F. apply (f_equal re) in F.
  specialize (L (matvec n d h)). rewrite <- F in L.
  pose proof (inverse_positive n c d Hc I h P Nz) as Q. pose proof (inverse_positive n c' d' Hc' I' h P' Nz) as Q'.
  apply (Rmult_le_reg_r (re (qform n d h))); [exact Q|]. apply Rle_trans with (1 := B).
  apply (Rmult_le_compat_l (re (qform n d' h))) in L; lra.
Qed.

(** ** Removal of the diagonal *)
Lemma clip_close rd x y : Rabs (clip_neg rd x - clip_neg rd y) <= Rabs (x - y).
Proof.
  unfold clip_neg. destruct rd; [|lra]. destruct (Rlt_dec x 0), (Rlt_dec y 0); try lra.
  - replace (0 - 0) with 0 by ring. rewrite Rabs_R0. apply Rabs_pos.
  - rewrite Rabs_minus_sym, Rminus_0_r, Rabs_pos_eq by lra. rewrite Rabs_minus_sym. pose proof (Rle_abs (y - x)). lra.
  - rewrite Rminus_0_r, Rabs_pos_eq by lra. pose proof (Rle_abs (x - y)). lra.
Qed.

Definition unit_vec (m i : nat) : C := if (i =? m)%nat then C1 else C0.

Lemma unit_form n c m : (m < n)%nat -> qform n c (unit_vec m) = c m m.
Proof.
  intros Hm. unfold qform. rewrite (csum_single n m); [|assumption|].
  - rewrite (csum_single n m); [|assumption|].
    + unfold unit_vec. rewrite Nat.eqb_refl. change C1 with (RtoC 1). rewrite Conj_RtoC. change (RtoC 1) with C1. ring.
    + intros j Hj N. unfold unit_vec at 2. destruct (Nat.eqb_spec j m); [contradiction|ring].
  - intros i Hi N. apply csum_0. intros j Hj. unfold unit_vec at 1. destruct (Nat.eqb_spec i m); [contradiction|]. rewrite Conj_0. ring.
Qed.

Lemma unit_norm n m : (m < n)%nat -> rsumn n (fun i => norm2 (unit_vec m i)) = 1.
Proof.
  intros Hm. rewrite (rsumn_single n m); [|assumption|].
  - unfold unit_vec. rewrite Nat.eqb_refl. unfold norm2, C1. cbn [fst snd]. ring.
  - intros i Hi N. unfold unit_vec. destruct (Nat.eqb_spec i m); [contradiction|]. unfold norm2, C0. cbn [fst snd]. ring.
Qed.

Lemma removed_form_re n c x : re (qform n (off_diag c) x) = re (qform n c x) - rsumn n (fun m => re (c m m) * norm2 (x m)).
Proof.
  rewrite qform_removed.
  transitivity (re (qform n c x) - re (csum n (fun m => (c m m * RtoC (norm2 (x m)))%C))); [reflexivity|].
  f_equal. rewrite re_csum. apply rsumn_ext. intros m _. unfold re, RtoC, Cmul. cbn [fst snd]. ring.
Qed.
