(** What the results of the methods based on eigenvalues (BeamformerEig,
    BeamformerFunctional, BeamformerMusic, PowerSpectra.eva; fbeamform.py:770-960,
    spectra.py:403-460) owe to the matrix and what to the choice of eigenvectors,
    which numpy.linalg.eigh leaves open. *)
From Coq Require Import List Arith Lia ZArith Bool Reals Lra.
From Verif Require Import Cplx Beamform Deconv Subspace.
Import ListNotations.
Local Open Scope R_scope.
Local Open Scope C_scope.

Lemma matvec_inner n c x y : hermitian n c -> inner n x (matvec n c y) = inner n (matvec n c x) y.
Proof.
  intros Hc. unfold inner, matvec.
  rewrite (csum_ext n _ (fun i => csum n (fun j => Conj (x i) * (c i j * y j)))) by (intros; now rewrite csum_scal).
  rewrite csum_swap. apply csum_ext. intros j Hj. rewrite csum_conj, <- csum_scal_r. apply csum_ext. intros i Hi.
  rewrite Conj_mul, <- (Hc j i) by assumption. ring.
Qed.

Lemma inner_csum_r n m x f : inner n x (fun i => csum m (fun e => f e i)) = csum m (fun e => inner n x (f e)).
Proof.
  unfold inner. rewrite (csum_ext n _ (fun i => csum m (fun e => Conj (x i) * f e i))) by (intros; now rewrite csum_scal).
  apply csum_swap.
Qed.

Lemma inner_scal_r n z x y : inner n x (fun i => z * y i) = z * inner n x y.
Proof. unfold inner. rewrite <- csum_scal. apply csum_ext. intros. ring. Qed.

Section Two.
  Variables (n : nat) (c : nat -> nat -> C) (eva eva' : nat -> R) (eve eve' : nat -> nat -> C).
  Hypotheses (Hc : hermitian n c) (E : is_eigh n c eva eve) (E' : is_eigh n c eva' eve').

  Let v e := fun i => eve i e.
  Let v' e := fun i => eve' i e.

  (** Eigenvectors of different eigenvalues are orthogonal. *)
  Lemma overlap e f : (e < n)%nat -> (f < n)%nat -> inner n (v e) (v' f) = C0 \/ eva e = eva' f.
  Proof.
    intros He Hf. destruct E as (Ev & _ & _), E' as (Ev' & _ & _).
    assert (A : inner n (v e) (matvec n c (v' f)) = RtoC (eva' f) * inner n (v e) (v' f)).
    { rewrite <- inner_scal_r. apply inner_ext. intros i Hi. split; [reflexivity|]. unfold matvec, v'. now rewrite Ev'. }
    assert (B : inner n (v e) (matvec n c (v' f)) = RtoC (eva e) * inner n (v e) (v' f)).
    { rewrite matvec_inner by assumption.
      rewrite (inner_ext n _ (fun i => RtoC (eva e) * v e i) (v' f) (v' f)).
      - rewrite inner_scal_l, Conj_RtoC. reflexivity.
      - intros i Hi. split; [|reflexivity]. unfold matvec, v. now rewrite Ev. }
    set (z := inner n (v e) (v' f)) in *.
    assert (Z : RtoC (eva e - eva' f) * z = C0) by (rewrite RtoC_sub; replace ((RtoC (eva e) - RtoC (eva' f)) * z)
      with (RtoC (eva e) * z - RtoC (eva' f) * z) by ring; rewrite <- A, <- B; ring).
    destruct (Req_dec (eva e) (eva' f)) as [D|D]; [now right|left].
    assert (N : (norm2 (RtoC (eva e - eva' f)) * norm2 z = 0)%R) by (rewrite <- norm2_mul, Z; unfold norm2; cbn; ring).
    rewrite norm2_RtoC in N. apply norm2_0. apply Rmult_integral in N. destruct N as [N|N]; [|exact N].
    apply Rmult_integral in N. lra.
  Qed.

  (** A function of the matrix. *)
  Lemma apply_function (F : R -> R) f i : (f < n)%nat -> (i < n)%nat ->
    csum n (fun e => RtoC (F (eva e)) * inner n (v e) (v' f) * eve i e) = RtoC (F (eva' f)) * eve' i f.
  Proof.
    intros Hf Hi. destruct E as (_ & Ho & _).
    rewrite (csum_ext n _ (fun e => RtoC (F (eva' f)) * (inner n (v e) (v' f) * eve i e))).
    - rewrite csum_scal. f_equal. symmetry. exact (expansion n eve Ho (v' f) i Hi).
    - intros e He. destruct (overlap e f He Hf) as [Z|Z]; [rewrite Z; ring|rewrite Z; ring].
  Qed.

  Theorem function_unique (F : R -> R) h :
    rsumn n (fun e => F (eva e) * norm2 (inner n (v e) h))%R = rsumn n (fun f => F (eva' f) * norm2 (inner n (v' f) h))%R.
  Proof.
    destruct E as (_ & Ho & _), E' as (_ & Ho' & _).
    (* <h, F h> computed with the second basis *)
    assert (L : forall e, (e < n)%nat -> inner n (v e) h = csum n (fun f => inner n (v' f) h * inner n (v e) (v' f))).
    { intros e He. rewrite (csum_ext n _ (fun f => inner n (v e) (fun i => inner n (v' f) h * v' f i)))
        by (intros; now rewrite inner_scal_r).
      rewrite <- inner_csum_r. apply inner_ext. intros i Hi. split; [reflexivity|]. exact (expansion n eve' Ho' h i Hi). }
    apply RtoC_inj. rewrite <- !csum_RtoC.
    transitivity (csum n (fun e => RtoC (F (eva e)) * inner n (v e) h * Conj (inner n (v e) h))).
    { apply csum_ext. intros e _. rewrite RtoC_mul, <- mul_Conj. ring. }
    transitivity (csum n (fun e => csum n (fun f => inner n (v' f) h * (RtoC (F (eva e)) * inner n (v e) (v' f) * Conj (inner n (v e) h))))).
    { apply csum_ext. intros e He. rewrite (L e He) at 1. rewrite <- csum_scal, <- csum_scal_r. apply csum_ext. intros. ring. }
    rewrite csum_swap. apply csum_ext. intros f Hf. rewrite csum_scal, RtoC_mul, <- mul_Conj.
    replace (csum n (fun e => RtoC (F (eva e)) * inner n (v e) (v' f) * Conj (inner n (v e) h)))
      with (RtoC (F (eva' f)) * Conj (inner n (v' f) h)); [ring|].
    (* sum_e F(e) <v_e, v'_f> <h, v_e> = <h, F v'_f> *)
    rewrite inner_conj, <- inner_scal_r.
    rewrite (inner_ext n h h (fun i => RtoC (F (eva' f)) * v' f i)
       (fun i => csum n (fun e => RtoC (F (eva e)) * inner n (v e) (v' f) * v e i))).
    - rewrite inner_csum_r. apply csum_ext. intros e _. rewrite inner_scal_r, inner_conj. reflexivity.
    - intros i Hi. split; [reflexivity|]. symmetry. now apply apply_function.
  Qed.

  (** Traces of functions, hence multiplicities. *)
  Lemma trace_unique (F : R -> R) : rsumn n (fun e => F (eva e)) = rsumn n (fun f => F (eva' f)).
  Proof.
    destruct E as (_ & Ho & _), E' as (_ & Ho' & _).
    assert (U : forall (ev : nat -> nat -> C), (forall e f, (e < n)%nat -> (f < n)%nat ->
        csum n (fun i => Conj (ev i e) * ev i f) = if (e =? f)%nat then C1 else C0) ->
      forall e, (e < n)%nat -> rsumn n (fun m => norm2 (ev m e)) = 1%R).
    { intros ev H e He. apply RtoC_inj. rewrite <- csum_RtoC. change (RtoC 1) with C1.
      rewrite (csum_ext n _ (fun i => Conj (ev i e) * ev i e)) by (intros; now rewrite Conj_mul_self).
      rewrite H, Nat.eqb_refl by assumption. reflexivity. }
    transitivity (rsumn n (fun e => rsumn n (fun f => F (eva e) * norm2 (inner n (v e) (v' f))))%R).
    - apply rsumn_ext. intros e He. rewrite rsumn_scal.
      rewrite (rsumn_ext n _ (fun f => norm2 (inner n (v' f) (v e)))) by (intros; rewrite <- inner_conj, norm2_Conj; reflexivity).
      unfold v'. rewrite <- (basis_parseval n eve' Ho' (v e)). unfold v. rewrite (U eve Ho e He). ring.
    - rewrite rsumn_swap. apply rsumn_ext. intros f Hf.
      rewrite (rsumn_ext n _ (fun e => F (eva' f) * norm2 (inner n (v e) (v' f)))%R).
      + rewrite rsumn_scal. unfold v at 1. rewrite <- (basis_parseval n eve Ho (v' f)). unfold v'. rewrite (U eve' Ho' f Hf). ring.
      + intros e He. destruct (overlap e f He Hf) as [Z|Z]; [|now rewrite Z].
        rewrite Z. unfold norm2. cbn. ring.
  Qed.
End Two.

(** Counting in an ascending list. *)
Definition upto (eva : nat -> R) (t : R) (e : nat) : R := if Rle_dec (eva e) t then 1%R else 0%R.

Lemma count_le n eva t e : (forall a b, (a <= b)%nat -> (b < n)%nat -> (eva a <= eva b)%R) -> (e < n)%nat ->
  ((eva e <= t)%R <-> (INR (e + 1) <= rsumn n (upto eva t))%R).
Proof.
  intros Hm He. split.
  - intros Ht. replace n with (e + 1 + (n - e - 1))%nat by lia. rewrite rsumn_split.
    rewrite (rsumn_ext (e + 1) _ (fun _ => 1%R)).
    + rewrite rsumn_const. assert (0 <= rsumn (n - e - 1) (fun k => upto eva t (e + 1 + k)))%R; [|lra].
      apply rsumn_nonneg. intros k _. unfold upto. destruct (Rle_dec _ _); lra.
    + intros a Ha. unfold upto. destruct (Rle_dec (eva a) t); [reflexivity|]. specialize (Hm a e ltac:(lia) He). lra.
  - intros Hs. destruct (Rle_dec (eva e) t) as [|N]; [assumption|exfalso].
    assert (L : (rsumn n (upto eva t) <= INR e)%R).
    { replace n with (e + (n - e))%nat by lia. rewrite rsumn_split.
      rewrite (rsumn_0 (n - e)); [|intros k Hk; unfold upto; destruct (Rle_dec _ _) as [Q|]; [|reflexivity];
        specialize (Hm e (e + k)%nat ltac:(lia) ltac:(lia)); lra].
      apply Rle_trans with (rsumn e (fun _ => 1%R) + 0)%R; [|rewrite rsumn_const; lra].
      apply Rplus_le_compat_r, rsumn_le. intros k _. unfold upto. destruct (Rle_dec _ _); lra. }
    rewrite plus_INR in Hs. cbn [INR] in Hs. lra.
Qed.

(** The eigenvalues are determined by the matrix. *)
Theorem eigenvalues_unique n c eva eve eva' eve' : hermitian n c -> is_eigh n c eva eve -> is_eigh n c eva' eve' ->
  forall e, (e < n)%nat -> eva' e = eva e.
Proof.
  intros Hc E E' e He.
  assert (T : forall t, rsumn n (upto eva t) = rsumn n (upto eva' t)).
  { intros t. exact (trace_unique n c eva eva' eve eve' Hc E E' (fun x => if Rle_dec x t then 1%R else 0%R)). }
  pose proof (proj2 (proj2 E)) as M. pose proof (proj2 (proj2 E')) as M'.
  apply Rle_antisym.
  - apply (count_le n eva' _ e M' He). rewrite <- T. apply (count_le n eva _ e M He). lra.
  - apply (count_le n eva _ e M He). rewrite T. apply (count_le n eva' _ e M' He). lra.
Qed.

(** A simple eigenvalue determines its eigenvector up to a phase. *)
Theorem eigenvector_phase n c eva eve eva' eve' e : hermitian n c -> is_eigh n c eva eve -> is_eigh n c eva' eve' ->
  (e < n)%nat -> (forall f, (f < n)%nat -> f <> e -> eva f <> eva e) ->
  exists z, norm2 z = 1%R /\ forall m, (m < n)%nat -> eve' m e = z * eve m e.
Proof.
  intros Hc E E' He Hsimple.
  assert (X : forall m, (m < n)%nat -> eve' m e = inner n (fun i => eve i e) (fun i => eve' i e) * eve m e).
  { intros m Hm. rewrite (expansion n eve (proj1 (proj2 E)) (fun i => eve' i e) m Hm).
    rewrite (csum_single n e); [reflexivity|assumption|]. intros f Hf N.
    destruct (overlap n c eva eva' eve eve' Hc E E' f e Hf He) as [Z|Z]; [rewrite Z; ring|].
    exfalso. apply (Hsimple f Hf N). rewrite Z. now apply (eigenvalues_unique n c eva eve eva' eve'). }
  exists (inner n (fun i => eve i e) (fun i => eve' i e)). split; [|exact X].
  set (z := inner _ _ _) in *.
  assert (U : csum n (fun i => Conj (eve' i e) * eve' i e) = C1)
    by (rewrite (proj1 (proj2 E') e e He He), Nat.eqb_refl; reflexivity).
  rewrite (csum_ext n _ (fun i => RtoC (norm2 z) * (Conj (eve i e) * eve i e))) in U
    by (intros i Hi; rewrite X, Conj_mul by assumption; rewrite <- Conj_mul_self; ring).
  rewrite csum_scal, (proj1 (proj2 E) e e He He), Nat.eqb_refl in U.
  assert (U' : RtoC (norm2 z) = RtoC 1) by (change (RtoC 1) with C1; rewrite <- U; ring). now apply RtoC_inj in U'.
Qed.

(* ------------------------------------------------------------------ *)
(** ** The methods *)

Lemma scalar_prod_eig_phase n rd ne eva eva' eve eve' v :
  (forall e, (e < ne)%nat -> eva' e = eva e /\
     exists z, norm2 z = 1%R /\ forall m, (m < n)%nat -> eve' m e = z * eve m e) ->
  scalar_prod_eig n rd ne eva' eve' v = scalar_prod_eig n rd ne eva eve v.
Proof.
  intros H. unfold scalar_prod_eig. apply rsumn_ext. intros e He. cbv zeta.
  destruct (H e He) as (-> & z & Hz & Hv).
  assert (F : csum n (fun m => Conj (eve' m e) * v m) = Conj z * csum n (fun m => Conj (eve m e) * v m)).
  { rewrite <- csum_scal. apply csum_ext. intros m Hm. rewrite Hv, Conj_mul by assumption. ring. }
  assert (N : forall w, re (Conj z * w * Conj (Conj z * w)) = re (w * Conj w)).
  { intros w. rewrite !mul_Conj, norm2_mul, norm2_Conj, Hz. cbn [re RtoC fst]. ring. }
  rewrite F, N. destruct rd; [|reflexivity]. do 2 f_equal. apply rsumn_ext. intros m Hm.
  rewrite Hv, Conj_mul by assumption.
  replace (Conj z * Conj (eve m e) * v m) with (Conj z * (Conj (eve m e) * v m)) by ring. now rewrite N.
Qed.

(** BeamformerEig: a simple eigenvalue. *)
Theorem bf_eig_unique n c eva eve eva' eve' na r0 k r rd rdn st :
  hermitian n c -> is_eigh n c eva eve -> is_eigh n c eva' eve' -> (na < n)%nat ->
  (forall f, (f < n)%nat -> f <> na -> eva f <> eva na) ->
  bf_eig n na eva' eve' r0 k r rd rdn st = bf_eig n na eva eve r0 k r rd rdn st.
Proof.
  intros Hc E E' Hn Hs. unfold bf_eig. destruct (sig_loss_norm n rd rdn) as [loss|]; [|reflexivity].
  unfold freq_eig.
  rewrite (scalar_prod_eig_phase n rd 1 (fun e => eva (na + e)%nat) (fun e => eva' (na + e)%nat)
    (fun m e => eve m (na + e)%nat) (fun m e => eve' m (na + e)%nat)); [reflexivity|].
  intros [|e] L; [|lia]. rewrite Nat.add_0_r. split; [now apply (eigenvalues_unique n c eva eve eva' eve')|].
  now apply (eigenvector_phase n c eva eve eva' eve').
Qed.

(** BeamformerFunctional. *)
Theorem functional_unique n c eva eve eva' eve' g r0 k r st :
  (0 < n)%nat -> (0 < r0)%R -> (forall m, (m < n)%nat -> (0 < r m)%R) ->
  hermitian n c -> is_eigh n c eva eve -> is_eigh n c eva' eve' ->
  bf_functional n npow g eva' eve' r0 k r st = bf_functional n npow g eva eve r0 k r st.
Proof.
  intros Hn H0 Hr Hc E E'. rewrite !(functional_eq n r0 k r st Hn H0 Hr). do 2 f_equal.
  set (h := steer_vector n st (transfer r0 k r)). set (s := rsumn n (fun m => norm2 (h m))).
  rewrite (rsumn_ext n (fun e => norm2 (inner n (fun i => eve' i e) h) / s * npow (eva' e) (1 / g))%R
    (fun e => / s * (npow (eva' e) (1 / g) * norm2 (inner n (fun i => eve' i e) h)))%R) by (intros; unfold Rdiv; ring).
  rewrite (rsumn_ext n (fun e => norm2 (inner n (fun i => eve i e) h) / s * npow (eva e) (1 / g))%R
    (fun e => / s * (npow (eva e) (1 / g) * norm2 (inner n (fun i => eve i e) h)))%R) by (intros; unfold Rdiv; ring).
  rewrite !rsumn_scal. f_equal.
  exact (function_unique n c eva' eva eve' eve Hc E' E (fun x => npow x (1 / g)) h).
Qed.

(** BeamformerMusic: a gap above the noise subspace. *)
Theorem music_unique n c eva eve eva' eve' nsrc k st grid :
  (0 < n)%nat -> (forall g, In g grid -> good_point n g) ->
  hermitian n c -> is_eigh n c eva eve -> is_eigh n c eva' eve' ->
  (let ne := Z.to_nat (Z.of_nat n - get_na nsrc (Z.of_nat n)) in (ne < n)%nat -> (eva (ne - 1)%nat < eva ne)%R) ->
  music n nsrc eva' eve' k st grid = music n nsrc eva eve k st grid.
Proof.
  intros Hn Hg Hc E E' Hgap.
  assert (O : forall g, In g grid -> music_out n nsrc eva' eve' k st g = music_out n nsrc eva eve k st g).
  { intros g Ig. rewrite !music_out_eq by auto. f_equal.
    cbv zeta in Hgap. pose proof (get_na_spec nsrc (Z.of_nat n) ltac:(lia)) as [B _].
    set (ne := Z.to_nat (Z.of_nat n - get_na nsrc (Z.of_nat n))) in *.
    assert (Hne : (1 <= ne <= n)%nat) by (unfold ne; lia).
    set (h := steer_vector n st (transfer (fst g) k (snd g))).
    pose proof (proj2 (proj2 E)) as M.
    set (F := fun x => if Rle_dec x (eva (ne - 1)%nat) then x else 0%R).
    assert (S : forall ev ew, (forall e, (e < n)%nat -> ev e = eva e) ->
      rsumn n (fun e => F (ev e) * norm2 (inner n (fun i => ew i e) h))%R
      = rsumn ne (fun e => ev e * norm2 (inner n (fun i => ew i e) h))%R).
    { intros ev ew Hev. replace n with (ne + (n - ne))%nat at 1 by lia. rewrite rsumn_split.
      rewrite (rsumn_0 (n - ne)).
      - rewrite Rplus_0_r. apply rsumn_ext. intros e He. unfold F. rewrite Hev by lia.
        destruct (Rle_dec _ _) as [_|N]; [reflexivity|]. exfalso. apply N. apply M; lia.
      - intros e He. unfold F. rewrite Hev by lia. destruct (Rle_dec _ _) as [Q|_]; [|ring]. exfalso.
        specialize (Hgap ltac:(lia)). specialize (M ne (ne + e)%nat ltac:(lia) ltac:(lia)). lra. }
    rewrite <- (S eva' eve') by (now apply (eigenvalues_unique n c eva eve eva' eve')).
    rewrite <- (S eva eve) by reflexivity.
    exact (function_unique n c eva' eva eve' eve Hc E' E F h). }
  unfold music. cbv zeta. rewrite !map_map.
  assert (Om : map (music_out n nsrc eva' eve' k st) grid = map (music_out n nsrc eva eve k st) grid)
    by now apply map_ext_in.
  rewrite Om. apply map_ext_in. intros g Ig. now rewrite O.
Qed.
