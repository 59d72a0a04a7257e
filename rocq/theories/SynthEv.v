(** Eigenvalues of the cross spectral matrix: PowerSpectra.calc_ev and synthetic_ev (spectra.py). *)
From Coq Require Import List Arith Lia ZArith Bool Reals Lra.
From Verif Require Import Stream Cplx Beamform Result Subspace.
Import ListNotations.
Local Open Scope R_scope.

(** calc_ev (spectra.py:441-451): line by line what numpy's eigh gives for the matrix of
    the line, a function with the properties [is_eigh]; calc_eva and calc_eve are its
    parts (453-490). *)
Definition calc_ev (eigh : (nat -> nat -> C) -> (nat -> R) * (nat -> nat -> C)) (csm : list (nat -> nat -> C))
  : list (nat -> R) * list (nat -> nat -> C) :=
  (map (fun c => fst (eigh c)) csm, map (fun c => snd (eigh c)) csm).

(** eva[i] for 0 <= i *)
Definition row_at (eva : list (nat -> R)) (i : nat) : (nat -> R) + exn :=
  match nth_error eva i with Some r => inl r | None => inr IndexError end.

(** synthetic_ev (spectra.py:602-612) *)
Definition synthetic_ev (f : list R) (eva : list (nat -> R)) (freq num : R) : (nat -> R) + exn :=
  if Req_EM_T num 0 then row_at eva (searchsorted f freq)
  else
    let f1 := searchsorted f (freq * Rpower 2 (- (1/2) / num)) in
    let f2 := searchsorted f (freq * Rpower 2 ((1/2) / num)) in
    if (f1 =? f2)%nat then row_at eva f1
    else inl (sum_rows (skipn f1 (firstn f2 eva))).

(** * Lemmas *)
Section Eig.
  Variables (n : nat) (c : nat -> nat -> C) (eva : nat -> R) (eve : nat -> nat -> C).
  Hypothesis E : is_eigh n c eva eve.
  Local Open Scope C_scope.

  Lemma completeness i j : (i < n)%nat -> (j < n)%nat ->
    csum n (fun e => eve i e * Conj (eve j e)) = if (i =? j)%nat then C1 else C0.
  Proof.
    intros Hi Hj. destruct E as (_ & Ho & _).
    pose proof (expansion n eve Ho (fun m => if (m =? j)%nat then C1 else C0) i Hi) as X. cbn beta in X.
    rewrite X. apply csum_ext. intros e He. unfold inner.
    rewrite (csum_single n j); [rewrite Nat.eqb_refl; ring|exact Hj|].
    intros m Hm Nm. destruct (Nat.eqb_spec m j); [contradiction|ring].
  Qed.

  Lemma reconstruct i j : (i < n)%nat -> (j < n)%nat -> c i j = eig_sum n eva eve i j.
  Proof.
    intros Hi Hj. destruct E as (E1 & _ & _). unfold eig_sum.
    transitivity (csum n (fun k => c i k * csum n (fun e => eve k e * Conj (eve j e)))).
    - rewrite (csum_single n j).
      + rewrite completeness, Nat.eqb_refl by assumption. ring.
      + exact Hj.
      + intros k Hk Nk. rewrite completeness by assumption. destruct (Nat.eqb_spec k j); [contradiction|ring].
    - rewrite (csum_ext n _ (fun k => csum n (fun e => c i k * eve k e * Conj (eve j e)))).
      2:{ intros k _. rewrite <- csum_scal. apply csum_ext. intros. ring. }
      rewrite csum_swap. apply csum_ext. intros e He. rewrite csum_scal_r. rewrite E1 by assumption. ring.
  Qed.

  Lemma trace_eig : csum n (fun i => c i i) = RtoC (rsumn n eva).
  Proof.
    rewrite (csum_ext n _ (fun i => csum n (fun e => RtoC (eva e) * (Conj (eve i e) * eve i e)))).
    2:{ intros i Hi. rewrite reconstruct by assumption. unfold eig_sum. apply csum_ext. intros. ring. }
    rewrite csum_swap, <- csum_RtoC. apply csum_ext. intros e He. rewrite csum_scal.
    destruct E as (_ & Ho & _). rewrite Ho, Nat.eqb_refl by assumption. ring.
  Qed.

  Lemma rayleigh e : (e < n)%nat ->
    csum n (fun i => csum n (fun j => Conj (eve i e) * c i j * eve j e)) = RtoC (eva e).
  Proof.
    intros He. destruct E as (E1 & Ho & _).
    rewrite (csum_ext n _ (fun i => RtoC (eva e) * (Conj (eve i e) * eve i e))).
    - rewrite csum_scal, Ho, Nat.eqb_refl by assumption. ring.
    - intros i Hi. rewrite (csum_ext n _ (fun j => Conj (eve i e) * (c i j * eve j e))) by (intros; ring).
      rewrite csum_scal, E1 by assumption. ring.
  Qed.
End Eig.

(** The sum over the channels of a band sum is the band sum of the sums. *)
Lemma rsumn_band freq : forall rows f1 f2 n,
  rsumn n (fun p => band_sum freq rows f1 f2 p) = band_sum freq (map (fun r _ => rsumn n r) rows) f1 f2 0.
Proof.
  induction freq as [|x freq IH]; intros [|r rows] f1 f2 n; cbn [band_sum map];
    try (induction n as [|n IHn]; cbn; [reflexivity|rewrite IHn; lra]).
  rewrite <- IH. rewrite (rsumn_add n (fun p => if Rle_dec f1 x then if Rlt_dec x f2 then r p else 0 else 0) (fun p => band_sum freq rows f1 f2 p)). f_equal.
  destruct (Rle_dec f1 x); [destruct (Rlt_dec x f2)|]; try reflexivity;
    (induction n as [|n IHn]; cbn; [reflexivity|rewrite IHn; lra]).
Qed.

Lemma search_first freq f i : increasing freq -> (i < length freq)%nat -> f <= nth i freq 0 ->
  (forall k, (k < i)%nat -> nth k freq 0 < f) -> searchsorted freq f = i.
Proof.
  revert i. induction freq as [|x freq IH]; intros i Hi Hl Hf Hb; [cbn in Hl; lia|]. cbn [searchsorted].
  destruct i as [|i].
  - cbn in Hf. destruct (Rlt_dec x f); [lra|reflexivity].
  - pose proof (Hb O ltac:(lia)) as H0. cbn in H0. destruct (Rlt_dec x f); [|lra]. f_equal.
    apply IH; [now apply increasing_tail in Hi|cbn in Hl; lia|exact Hf|].
    intros k Hk. exact (Hb (S k) ltac:(lia)).
Qed.
Lemma search_all freq f : (forall x, In x freq -> x < f) -> searchsorted freq f = length freq.
Proof.
  induction freq as [|x freq IH]; intros H; [reflexivity|]. cbn [searchsorted length].
  destruct (Rlt_dec x f) as [|K]; [f_equal; apply IH; intros; apply H; now right|]. exfalso. apply K, H. now left.
Qed.
