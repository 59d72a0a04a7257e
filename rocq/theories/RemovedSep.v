(** Map with diagonal removal for several incoherent sources: what the removed
    diagonal takes away from each of them. *)
From Coq Require Import List Arith Lia ZArith Bool Reals Lra.
From Verif Require Import Stream Cplx Buffer Frames Convolve Fourier Beamform Csm Deconv Subspace OrthSep Resolve.
Import ListNotations.
Local Open Scope C_scope.

(** The quadratic form without the diagonal. *)
Lemma qform_removed n c x : qform n (off_diag c) x = qform n c x - csum n (fun m => c m m * RtoC (norm2 (x m))).
Proof.
  unfold qform. rewrite <- csum_sub. apply csum_ext. intros i Hi.
  assert (E : csum n (fun j => Conj (x i) * c i j * x j) - csum n (fun j => Conj (x i) * off_diag c i j * x j) = c i i * RtoC (norm2 (x i))).
  { rewrite <- csum_sub. rewrite (csum_single n i); [|assumption|].
    - unfold off_diag. rewrite Nat.eqb_refl, <- mul_Conj. ring.
    - intros j _ N. unfold off_diag. destruct (Nat.eqb_spec i j); [congruence|]. ring. }
  rewrite <- E. ring.
Qed.

Lemma noisy_removed n K s2 p a x :
  re (qform n (off_diag (noisy_csm s2 K p a)) x)
  = rsumn K (fun t => p t * (norm2 (inner n (a t) x) - rsumn n (fun m => norm2 (a t m) * norm2 (x m))))%R.
Proof.
  rewrite qform_removed.
  assert (D : csum n (fun m => noisy_csm s2 K p a m m * RtoC (norm2 (x m)))
    = RtoC (s2 * rsumn n (fun m => norm2 (x m)) + rsumn K (fun t => p t * rsumn n (fun m => norm2 (a t m) * norm2 (x m))))%R).
  { rewrite (csum_ext n _ (fun m => RtoC (s2 * norm2 (x m) + rsumn K (fun t => p t * (norm2 (a t m) * norm2 (x m))))%R)).
    - rewrite csum_RtoC. f_equal. rewrite rsumn_add, rsumn_scal. f_equal. rewrite rsumn_swap. apply rsumn_ext. intros t _. now rewrite rsumn_scal.
    - intros m _. unfold noisy_csm. rewrite Nat.eqb_refl.
      rewrite (csum_ext K _ (fun t => RtoC (p t * norm2 (a t m)))) by (intros t _; rewrite RtoC_mul, <- mul_Conj; ring).
      rewrite csum_RtoC, <- RtoC_add, <- RtoC_mul. f_equal. rewrite Rmult_plus_distr_r. f_equal.
      rewrite Rmult_comm, <- rsumn_scal. apply rsumn_ext. intros. ring. }
  rewrite D. assert (S : forall z y, re (z - RtoC y) = (re z - y)%R) by (intros [z1 z2] y; reflexivity). rewrite S.
  rewrite (noisy_form n K s2 p a).
  rewrite (rsumn_ext K (fun t => p t * (_ - _))%R (fun t => p t * norm2 (inner n (a t) x) + (-1) * (p t * rsumn n (fun m => norm2 (a t m) * norm2 (x m))))%R) by (intros; ring).
  rewrite rsumn_add, rsumn_scal. ring.
Qed.
