(** Adding sound: matrices [c] and [c'] such that every quadratic form of [c'] is
    at least that of [c]. *)
From Coq Require Import List Arith Lia ZArith Bool Reals Lra.
From Verif Require Import Stream Cplx Buffer Frames Convolve Fourier Beamform Csm Deconv Subspace Spectral OrthSep Resolve Heinz.
Import ListNotations.
Local Open Scope C_scope.

(** ** Eigenvector coordinates *)
Section Coordinates.
  Variables (n : nat) (c : nat -> nat -> C) (eva : nat -> R) (eve : nat -> nat -> C).
  Hypotheses (Hc : hermitian n c) (E : is_eigh n c eva eve).
  Let v e := fun i => eve i e.

  Lemma coord_matvec x e : (e < n)%nat -> inner n (v e) (matvec n c x) = RtoC (eva e) * inner n (v e) x.
  Proof.
    intros He. rewrite matvec_inner by assumption.
    rewrite (inner_ext n (matvec n c (v e)) (fun i => RtoC (eva e) * v e i) x x) by (intros m Hm; split; [now apply (proj1 E)|reflexivity]).
    rewrite <- inner_conj, inner_scal_r, Conj_mul, Conj_RtoC, inner_conj. reflexivity.
  Qed.

  Lemma coord_inner x y : inner n x y = csum n (fun e => Conj (inner n (v e) x) * inner n (v e) y).
  Proof.
    rewrite (inner_ext n x x y (fun i => csum n (fun e => inner n (v e) y * v e i))) by (intros m Hm; split; [reflexivity|now apply (expansion n eve (proj1 (proj2 E)) y)]).
    rewrite inner_csum_r. apply csum_ext. intros e _. rewrite inner_scal_r, <- (inner_conj n (v e) x). ring.
  Qed.

  Lemma coord_form x : re (qform n c x) = rsumn n (fun e => (eva e * norm2 (inner n (v e) x))%R).
  Proof.
    rewrite <- sesq_qform, sesq_matvec, coord_inner.
    rewrite (csum_ext n _ (fun e => RtoC (eva e * norm2 (inner n (v e) x)))); [now rewrite csum_RtoC|].
    intros e He. rewrite coord_matvec by assumption. rewrite RtoC_mul, <- Conj_mul_self. ring.
  Qed.

  Lemma coord_norm x : rsumn n (fun m => norm2 (x m)) = rsumn n (fun e => norm2 (inner n (v e) x)).
  Proof. exact (basis_parseval n eve (proj1 (proj2 E)) x). Qed.

  Lemma eva_nonneg : (forall x, (0 <= re (qform n c x))%R) -> forall e, (e < n)%nat -> (0 <= eva e)%R.
  Proof.
    intros P e He. specialize (P (v e)). rewrite coord_form in P. rewrite (rsumn_single n e) in P; [|assumption|].
    - rewrite (proj1 (proj2 E) e e He He : inner n (v e) (v e) = _), Nat.eqb_refl in P. unfold norm2, C1 in P. cbn [fst snd] in P. lra.
    - intros f Hf N. rewrite (proj1 (proj2 E) f e Hf He : inner n (v f) (v e) = _). destruct (Nat.eqb_spec f e); [contradiction|]. unfold norm2, C0. cbn [fst snd]. ring.
  Qed.
End Coordinates.

(** Weighted Cauchy-Schwarz inequality. *)
Lemma weighted_cs n (w : nat -> R) (x y : nat -> C) : (forall e, (e < n)%nat -> (0 < w e)%R) -> (0 < rsumn n (fun e => norm2 (x e) / w e))%R ->
  (norm2 (csum n (fun e => (Conj (x e) * y e)%C)) <= rsumn n (fun e => norm2 (x e) / w e) * rsumn n (fun e => w e * norm2 (y e)))%R.
Proof.
  intros Hw P.
  assert (E : csum n (fun e => Conj (x e) * y e) = inner n (fun e => RtoC (/ sqrt (w e)) * x e) (fun e => RtoC (sqrt (w e)) * y e)).
  { unfold inner. apply csum_ext. intros e He. specialize (Hw e He). assert (0 < sqrt (w e))%R by now apply sqrt_lt_R0.
    rewrite Conj_mul, Conj_RtoC. transitivity (RtoC (/ sqrt (w e) * sqrt (w e)) * (Conj (x e) * y e)); [|rewrite RtoC_mul; ring].
    rewrite Rinv_l by lra. change (RtoC 1) with C1. ring. }
  rewrite E.
  assert (E1 : rsumn n (fun e => norm2 (x e) / w e)%R = rsumn n (fun e => norm2 (RtoC (/ sqrt (w e)) * x e))).
  { apply rsumn_ext. intros e He. specialize (Hw e He). assert (0 < sqrt (w e))%R by now apply sqrt_lt_R0. rewrite norm2_mul, norm2_RtoC, <- Rinv_mult, sqrt_sqrt by lra. unfold Rdiv. ring. }
  assert (E2 : rsumn n (fun e => w e * norm2 (y e))%R = rsumn n (fun e => norm2 (RtoC (sqrt (w e)) * y e))).
  { apply rsumn_ext. intros e He. specialize (Hw e He). rewrite norm2_mul, norm2_RtoC, sqrt_sqrt by lra. reflexivity. }
  rewrite E1, E2 in *. now apply cauchy_schwarz.
Qed.

(** ** Resolvent forms *)
Section Resolvent.
  Variables (n : nat) (c : nat -> nat -> C) (eva : nat -> R) (eve : nat -> nat -> C).
  Hypotheses (Hc : hermitian n c) (E : is_eigh n c eva eve) (Hpsd : forall x, (0 <= re (qform n c x))%R).
  Let v e := fun i => eve i e.
  Definition res (t : R) (h : nat -> C) : R := rsumn n (fun e => norm2 (inner n (fun i => eve i e) h) / (eva e + t))%R.

  Let nn e : (e < n)%nat -> (0 <= eva e)%R.
  Proof. exact (eva_nonneg n c eva eve Hc E Hpsd e). Qed.

  Lemma res_nonneg t h : (0 < t)%R -> (0 <= res t h)%R.
  Proof. intros Ht. apply rsumn_nonneg. intros e He. pose proof (nn e He). apply Rle_mult_inv_pos; [apply norm2_nonneg|lra]. Qed.

  Lemma res_zero t h : (0 < t)%R -> res t h = 0%R -> forall e, (e < n)%nat -> inner n (v e) h = C0.
  Proof.
    intros Ht Z e He. pose proof (nn e He).
    assert (L : (norm2 (inner n (v e) h) / (eva e + t) <= res t h)%R).
    { apply (rsumn_term' n (fun e => norm2 (inner n (v e) h) / (eva e + t))%R); [|assumption]. intros k Hk. pose proof (nn k Hk). apply Rle_mult_inv_pos; [apply norm2_nonneg|lra]. }
    rewrite Z in L. assert (norm2 (inner n (v e) h) <= 0)%R.
    { apply (Rmult_le_reg_r (/ (eva e + t))); [apply Rinv_0_lt_compat; lra|]. rewrite Rmult_0_l. exact L. }
    apply norm2_0. pose proof (norm2_nonneg (inner n (v e) h)). lra.
  Qed.

  Lemma res_bound t h y : (0 < t)%R -> (norm2 (inner n h y) <= res t h * (re (qform n c y) + t * rsumn n (fun m => norm2 (y m))))%R.
  Proof.
    intros Ht. pose proof (res_nonneg t h Ht) as A0. destruct A0 as [A0|A0].
    - pose proof (weighted_cs n (fun e => eva e + t)%R (fun e => inner n (v e) h) (fun e => inner n (v e) y)) as CS. cbv beta in CS.
      specialize (CS ltac:(intros e He; pose proof (nn e He); lra) A0).
      change (csum n (fun e => Conj (inner n (v e) h) * inner n (v e) y)) with (csum n (fun e => Conj (inner n (fun i => eve i e) h) * inner n (fun i => eve i e) y)) in CS.
      rewrite <- (coord_inner n c eva eve E h y) in CS.
      rewrite (rsumn_ext n (fun e => (eva e + t) * norm2 (inner n (v e) y))%R (fun e => eva e * norm2 (inner n (fun i => eve i e) y) + t * norm2 (inner n (fun i => eve i e) y))%R) in CS by (intros; unfold v; ring).
      rewrite rsumn_add, rsumn_scal, <- (coord_form n c eva eve Hc E), <- (coord_norm n c eva eve E) in CS. exact CS.
    - rewrite <- A0, Rmult_0_l. rewrite (coord_inner n c eva eve E h y).
      rewrite (csum_ext n _ (fun _ => C0)).
      + rewrite csum_zero. unfold norm2, C0. cbn [fst snd]. lra.
      + intros e He. pose proof (res_zero t h Ht (eq_sym A0) e He) as Z. unfold v in Z. rewrite Z, Conj_0. ring.
  Qed.

  Lemma res_vector t h : (0 < t)%R -> exists y, inner n h y = RtoC (res t h) /\ (re (qform n c y) + t * rsumn n (fun m => norm2 (y m)) = res t h)%R.
  Proof.
    intros Ht. set (y := fun i => csum n (fun f => RtoC (/ (eva f + t)) * inner n (v f) h * v f i)).
    assert (Cy : forall f, (f < n)%nat -> inner n (v f) y = RtoC (/ (eva f + t)) * inner n (v f) h).
    { intros f Hf. unfold y. rewrite inner_csum_r. rewrite (csum_single n f); [|assumption|].
      - rewrite inner_scal_r. rewrite (proj1 (proj2 E) f f Hf Hf : inner n (v f) (v f) = _), Nat.eqb_refl. ring.
      - intros e He N. rewrite inner_scal_r. rewrite (proj1 (proj2 E) f e Hf He : inner n (v f) (v e) = _). destruct (Nat.eqb_spec f e); [congruence|ring]. }
    exists y. split.
    - rewrite (coord_inner n c eva eve E h y). unfold res. rewrite <- csum_RtoC. apply csum_ext. intros f Hf. fold (v f). rewrite Cy by assumption.
      unfold Rdiv. rewrite RtoC_mul, <- Conj_mul_self. ring.
    - rewrite (coord_form n c eva eve Hc E), (coord_norm n c eva eve E), <- rsumn_scal, <- rsumn_add. apply rsumn_ext. intros f Hf. fold (v f).
      rewrite Cy by assumption. rewrite norm2_mul, norm2_RtoC. pose proof (nn f Hf). field. lra.
  Qed.

  (** The form behind the power function. *)
  Lemma res_ratio t h : (0 < t)%R ->
    rsumn n (fun e => norm2 (inner n (fun i => eve i e) h) * (eva e / (eva e + t)))%R = (rsumn n (fun m => norm2 (h m)) - t * res t h)%R.
  Proof.
    intros Ht. rewrite (coord_norm n c eva eve E h). unfold res.
    match goal with |- _ = (?a - t * ?b)%R => replace (a - t * b)%R with (a + (- t) * b)%R by ring end.
    rewrite <- rsumn_scal, <- rsumn_add. apply rsumn_ext. intros e He. pose proof (nn e He). field. lra.
  Qed.
End Resolvent.

Section Order.
  Variables (n : nat) (c c' : nat -> nat -> C) (la mu : nat -> R) (eve eve' : nat -> nat -> C).
  Hypotheses (Hc : hermitian n c) (Hc' : hermitian n c') (E : is_eigh n c la eve) (E' : is_eigh n c' mu eve')
    (Hpsd : forall x, (0 <= re (qform n c x))%R) (Hle : forall x, (re (qform n c x) <= re (qform n c' x))%R).
  Variable h : nat -> C.

  Let Hpsd' x : (0 <= re (qform n c' x))%R.
  Proof. exact (Rle_trans _ _ _ (Hpsd x) (Hle x)). Qed.

  (** The resolvent of the larger matrix is the smaller one. *)
  Lemma resolvent t : (0 < t)%R -> (res n mu eve' t h <= res n la eve t h)%R.
  Proof.
    intros Ht. pose proof (res_nonneg n c la eve Hc E Hpsd t h Ht) as A0.
    destruct (Rle_lt_dec (res n mu eve' t h) 0) as [B0|B0]; [lra|].
    destruct (res_vector n c' mu eve' Hc' E' Hpsd' t h Ht) as (y & Iy & Fy).
    pose proof (res_bound n c la eve Hc E Hpsd t h y Ht) as CS. rewrite Iy, norm2_RtoC in CS. specialize (Hle y).
    apply (Rmult_le_reg_r (res n mu eve' t h)); [lra|]. apply Rle_trans with (1 := CS). apply Rmult_le_compat_l; lra.
  Qed.

  (** Powers with exponent up to one are ordered like the matrices. *)
  Theorem power_order s : (0 < s <= 1)%R ->
    (rsumn n (fun e => norm2 (inner n (fun i => eve i e) h) * npow (la e) s) <= rsumn n (fun f => norm2 (inner n (fun i => eve' i f) h) * npow (mu f) s))%R.
  Proof.
    intros [H0 H1]. pose proof (eva_nonneg n c la eve Hc E Hpsd) as L0. pose proof (eva_nonneg n c' mu eve' Hc' E' Hpsd') as M0.
    destruct (Rle_lt_or_eq_dec s 1 H1) as [L | ->].
    - apply heinz; try assumption; try (intros; apply norm2_nonneg). intros t Ht. pose proof (resolvent t Ht) as Rt.
      rewrite (res_ratio n c la eve Hc E Hpsd t h Ht), (res_ratio n c' mu eve' Hc' E' Hpsd' t h Ht).
      apply (Rmult_le_compat_l t) in Rt; [|lra]. lra.
    - assert (Q1 : rsumn n (fun e => norm2 (inner n (fun i => eve i e) h) * npow (la e) 1)%R = rsumn n (fun e => la e * norm2 (inner n (fun i => eve i e) h))%R)
        by (apply rsumn_ext; intros e He; pose proof (npow_1 (la e) (L0 e He)) as ->; exact (Rmult_comm _ _)).
      assert (Q2 : rsumn n (fun f => norm2 (inner n (fun i => eve' i f) h) * npow (mu f) 1)%R = rsumn n (fun e => mu e * norm2 (inner n (fun i => eve' i e) h))%R)
        by (apply rsumn_ext; intros e He; pose proof (npow_1 (mu e) (M0 e He)) as ->; exact (Rmult_comm _ _)).
      rewrite Q1, Q2, <- (coord_form n c la eve Hc E h), <- (coord_form n c' mu eve' Hc' E' h). apply Hle.
  Qed.
End Order.

(** ** Sums of matrices *)
Section Sum.
  Variables (n : nat) (a b c : nat -> nat -> C) (la lb mu : nat -> R) (ea eb ec : nat -> nat -> C).
  Hypotheses (Ha : hermitian n a) (Hb : hermitian n b) (Hc : hermitian n c) (Ea : is_eigh n a la ea) (Eb : is_eigh n b lb eb) (Ec : is_eigh n c mu ec)
    (Pa : forall x, (0 <= re (qform n a x))%R) (Pb : forall x, (0 <= re (qform n b x))%R)
    (Hsum : forall x, (re (qform n c x) = re (qform n a x) + re (qform n b x))%R).
  Variable h : nat -> C.

  Let Pc x : (0 <= re (qform n c x))%R.
  Proof. rewrite Hsum. specialize (Pa x). specialize (Pb x). lra. Qed.

  Lemma resolvent_sum u w : (0 < u)%R -> (0 < w)%R ->
    (res n mu ec (u + w) h * (res n la ea u h + res n lb eb w h) <= res n la ea u h * res n lb eb w h)%R.
  Proof.
    intros Hu Hw. pose proof (res_nonneg n a la ea Ha Ea Pa u h Hu) as A0. pose proof (res_nonneg n b lb eb Hb Eb Pb w h Hw) as B0.
    destruct (res_vector n c mu ec Hc Ec Pc (u + w) h ltac:(lra)) as (y & Iy & Fy).
    pose proof (res_bound n a la ea Ha Ea Pa u h y Hu) as CA. pose proof (res_bound n b lb eb Hb Eb Pb w h y Hw) as CB.
    rewrite Iy, norm2_RtoC in CA, CB. rewrite Hsum in Fy.
    set (RA := res n la ea u h) in *. set (RB := res n lb eb w h) in *. set (RC := res n mu ec (u + w) h) in *.
    set (fa := (re (qform n a y) + u * rsumn n (fun m => norm2 (y m)))%R) in *. set (fb := (re (qform n b y) + w * rsumn n (fun m => norm2 (y m)))%R) in *.
    assert (F : (fa + fb = RC)%R) by (unfold fa, fb; rewrite <- Fy; ring).
    destruct (Rle_lt_dec RC 0) as [Z|Z].
    - assert (0 <= RA * RB)%R by (apply Rmult_le_pos; lra). assert (0 <= (- RC) * (RA + RB))%R by (apply Rmult_le_pos; lra). lra.
    - apply (Rmult_le_reg_r RC); [exact Z|]. rewrite <- F at 3.
      apply (Rmult_le_compat_l RB) in CA; [|lra]. apply (Rmult_le_compat_l RA) in CB; [|lra]. lra.
  Qed.

  (** Powers with exponent s below one of a sum, for every split theta of the unit. *)
  Lemma power_split s th : (0 < s < 1)%R -> (0 < th < 1)%R ->
    (th * rsumn n (fun e => norm2 (inner n (fun i => ea i e) h) * npow (la e / th) s)
     + (1 - th) * rsumn n (fun e => norm2 (inner n (fun i => eb i e) h) * npow (lb e / (1 - th)) s)
     <= rsumn n (fun f => norm2 (inner n (fun i => ec i f) h) * npow (mu f) s))%R.
  Proof.
    intros Hs Hth. pose proof (eva_nonneg n a la ea Ha Ea Pa) as A0. pose proof (eva_nonneg n b lb eb Hb Eb Pb) as B0. pose proof (eva_nonneg n c mu ec Hc Ec Pc) as C0'.
    set (al := fun e => if (e <? n)%nat then (th * norm2 (inner n (fun i => ea i e) h))%R else ((1 - th) * norm2 (inner n (fun i => eb i (e - n)%nat) h))%R).
    set (l := fun e => if (e <? n)%nat then (la e / th)%R else (lb (e - n)%nat / (1 - th))%R).
    set (be := fun e => if (e <? n)%nat then norm2 (inner n (fun i => ec i e) h) else 0%R).
    set (m := fun e => if (e <? n)%nat then mu e else 0%R).
    assert (T1 : forall e, (e < n)%nat -> (e <? n)%nat = true) by (intros; now apply Nat.ltb_lt).
    assert (T2 : forall e, (n + e <? n)%nat = false) by (intros; apply Nat.ltb_ge; lia).
    assert (SA : forall F : R -> R, (rsumn (n + n) (fun e => al e * F (l e)) = th * rsumn n (fun e => norm2 (inner n (fun i => ea i e) h) * F (la e / th)) + (1 - th) * rsumn n (fun e => norm2 (inner n (fun i => eb i e) h) * F (lb e / (1 - th))))%R).
    { intros F. rewrite rsumn_split, <- !rsumn_scal. f_equal; apply rsumn_ext; intros e He; unfold al, l.
      - rewrite (T1 e He). ring.
      - rewrite (T2 e). replace (n + e - n)%nat with e by lia. ring. }
    assert (SB : forall F : R -> R, (rsumn (n + n) (fun e => be e * F (m e)) = rsumn n (fun e => norm2 (inner n (fun i => ec i e) h) * F (mu e)))%R).
    { intros F. rewrite rsumn_split. rewrite (rsumn_0 n (fun k => be (n + k)%nat * F (m (n + k)%nat))%R) by (intros e He; unfold be; rewrite (T2 e); ring).
      rewrite Rplus_0_r. apply rsumn_ext. intros e He. unfold be, m. now rewrite (T1 e He). }
    rewrite <- (SA (fun x => npow x s)), <- (SB (fun x => npow x s)).
    assert (D : forall x y : R, (0 <= x)%R -> (0 < y)%R -> (0 <= x / y)%R) by (intros; now apply Rle_mult_inv_pos).
    apply heinz; try lra.
    - intros e He. unfold al. destruct (e <? n)%nat; apply Rmult_le_pos; try apply norm2_nonneg; lra.
    - intros e He. unfold be. destruct (e <? n)%nat; [apply norm2_nonneg|lra].
    - intros e He. unfold l. destruct (Nat.ltb_spec e n); apply D; try lra; [now apply A0|apply B0; lia].
    - intros e He. unfold m. destruct (Nat.ltb_spec e n); [now apply C0'|lra].
    - intros t Ht. rewrite (SA (fun x => x / (x + t))%R), (SB (fun x => x / (x + t))%R). cbv beta.
      rewrite (res_ratio n c mu ec Hc Ec Pc t h Ht).
      assert (Tu : (0 < th * t)%R) by (apply Rmult_lt_0_compat; lra). assert (Tw : (0 < (1 - th) * t)%R) by (apply Rmult_lt_0_compat; lra).
      rewrite (rsumn_ext n (fun e => norm2 (inner n (fun i => ea i e) h) * (la e / th / (la e / th + t)))%R (fun e => norm2 (inner n (fun i => ea i e) h) * (la e / (la e + th * t)))%R)
        by (intros e He; pose proof (A0 e He); field; lra).
      rewrite (rsumn_ext n (fun e => norm2 (inner n (fun i => eb i e) h) * (lb e / (1 - th) / (lb e / (1 - th) + t)))%R (fun e => norm2 (inner n (fun i => eb i e) h) * (lb e / (lb e + (1 - th) * t)))%R)
        by (intros e He; pose proof (B0 e He); field; lra).
      rewrite (res_ratio n a la ea Ha Ea Pa _ h Tu), (res_ratio n b lb eb Hb Eb Pb _ h Tw).
      pose proof (resolvent_sum (th * t) ((1 - th) * t) Tu Tw) as RS. replace (th * t + (1 - th) * t)%R with t in RS by ring.
      pose proof (res_nonneg n a la ea Ha Ea Pa _ h Tu) as RA0. pose proof (res_nonneg n b lb eb Hb Eb Pb _ h Tw) as RB0. pose proof (res_nonneg n c mu ec Hc Ec Pc _ h Ht) as RC0.
      set (RA := res n la ea (th * t) h) in *. set (RB := res n lb eb ((1 - th) * t) h) in *. set (RC := res n mu ec t h) in *.
      assert (K : (RC <= th * th * RA + (1 - th) * (1 - th) * RB)%R).
      { destruct (Req_dec (RA + RB) 0) as [Z|Z].
        - assert (ZA : RA = 0%R) by lra.
          assert (NZ : inner n h h = Cplx.C0).
          { rewrite (coord_inner n a la ea Ea h h). rewrite (csum_ext n _ (fun _ => Cplx.C0)); [apply csum_zero|].
            intros e He. rewrite (res_zero n a la ea Ha Ea Pa (th * t) h Tu ZA e He). ring. }
          assert (ZB : RB = 0%R) by lra. rewrite ZA, ZB, !Rmult_0_r, Rplus_0_r. right. apply rsumn_0. intros f Hf.
          rewrite inner_self in NZ. assert (N0 : rsumn n (fun m => norm2 (h m)) = 0%R) by (apply RtoC_inj; exact NZ).
          rewrite (coord_norm n c mu ec Ec h) in N0.
          assert (L0 : (norm2 (inner n (fun i => ec i f) h) <= 0)%R) by (rewrite <- N0; apply (rsumn_term n (fun e => norm2 (inner n (fun i => ec i e) h))); [intros; apply norm2_nonneg|assumption]).
          assert (norm2 (inner n (fun i => ec i f) h) = 0%R) as -> by (pose proof (norm2_nonneg (inner n (fun i => ec i f) h)); lra). unfold Rdiv. ring.
        - assert (0 < RA + RB)%R by lra. apply (Rmult_le_reg_r (RA + RB)); [assumption|]. apply Rle_trans with (1 := RS).
          pose proof (Rle_0_sqr (th * RA - (1 - th) * RB)) as SQ. unfold Rsqr in SQ. lra. }
      apply (Rmult_le_compat_l t) in K; [|lra]. lra.
  Qed.
End Sum.

(** ** The three maps *)
Section Maps.
  Variables (n : nat) (r0 k : R) (r : nat -> R) (st : steer).
  Hypotheses (Hn : (0 < n)%nat) (Hr0 : (0 < r0)%R) (Hr : forall m, (m < n)%nat -> (0 < r m)%R).
  Let h := steer_vector n st (transfer r0 k r).
  Let s := rsumn n (fun m => norm2 (h m)).

  Lemma base_form c rdn : hermitian n c -> bf_base n c r0 k r false rdn st = Some (re (qform n c h)).
  Proof.
    intros Hc. rewrite bf_base_full. f_equal. apply RtoC_inj. rewrite (bf_quadratic n r0 k r Hn Hr0 Hr c 1 false st Hc). fold h.
    rewrite qform_scalar by assumption. rewrite <- RtoC_mul. f_equal. cbn [re RtoC fst]. ring.
  Qed.

  (** The functional map as the power of a form. *)
  Lemma functional_form g eva eve : (0 < g)%R -> (forall e, (e < n)%nat -> (0 <= eva e)%R) ->
    bf_functional n npow g eva eve r0 k r st
    = (npow (rsumn n (fun e => norm2 (inner n (fun i => eve i e) h) * npow (eva e) (1 / g))) g * (npow (/ s) g * s))%R.
  Proof.
    intros Hg Hl. pose proof (steer_size n r0 k r st Hn Hr0 Hr) as Hs. fold h in Hs. fold s in Hs.
    rewrite (functional_eq n r0 k r st Hn Hr0 Hr eva eve g). fold h. fold s.
    rewrite (rsumn_ext n _ (fun e => / s * (norm2 (inner n (fun i => eve i e) h) * npow (eva e) (1 / g)))%R) by (intros; unfold Rdiv; ring).
    rewrite rsumn_scal, npow_mult; [ring| |].
    - left. now apply Rinv_0_lt_compat.
    - apply rsumn_nonneg. intros e He. apply Rmult_le_pos; [apply norm2_nonneg|apply npow_nonneg].
  Qed.

  Lemma size_factor g : (0 < npow (/ s) g * s)%R.
  Proof.
    pose proof (steer_size n r0 k r st Hn Hr0 Hr) as Hs. fold h in Hs. fold s in Hs. apply Rmult_lt_0_compat; [|assumption].
    apply npow_pos. apply Rinv_0_lt_compat in Hs. lra.
  Qed.
End Maps.

(** ** Superadditivity of the powers *)
Section Super.
  Variables (n : nat) (a b c : nat -> nat -> C) (la lb mu : nat -> R) (ea eb ec : nat -> nat -> C).
  Hypotheses (Ha : hermitian n a) (Hb : hermitian n b) (Hc : hermitian n c) (Ea : is_eigh n a la ea) (Eb : is_eigh n b lb eb) (Ec : is_eigh n c mu ec)
    (Pa : forall x, (0 <= re (qform n a x))%R) (Pb : forall x, (0 <= re (qform n b x))%R)
    (Hsum : forall x, (re (qform n c x) = re (qform n a x) + re (qform n b x))%R).
  Variable h : nat -> C.
  Let phi (l : nat -> R) (e : nat -> nat -> C) g := rsumn n (fun f => norm2 (inner n (fun i => e i f) h) * npow (l f) (1 / g))%R.

  Theorem power_sum g : (1 <= g)%R -> (npow (phi la ea g) g + npow (phi lb eb g) g <= npow (phi mu ec g) g)%R.
  Proof.
    intros Hg. pose proof (eva_nonneg n a la ea Ha Ea Pa) as A0. pose proof (eva_nonneg n b lb eb Hb Eb Pb) as B0.
    assert (Pc : forall x, (0 <= re (qform n c x))%R) by (intros x; rewrite Hsum; specialize (Pa x); specialize (Pb x); lra).
    pose proof (eva_nonneg n c mu ec Hc Ec Pc) as C0'.
    assert (Nn : forall l e, (0 <= phi l e g)%R) by (intros; apply rsumn_nonneg; intros; apply Rmult_le_pos; [apply norm2_nonneg|apply npow_nonneg]).
    assert (Hs : (0 < 1 / g <= 1)%R).
    { split; [apply Rdiv_lt_0_compat; lra|]. apply (Rmult_le_reg_r g); [lra|]. unfold Rdiv. rewrite Rmult_assoc, Rinv_l by lra. lra. }
    assert (LA : (phi la ea g <= phi mu ec g)%R) by (apply (power_order n a c la mu ea ec Ha Hc Ea Ec Pa); [intros x; rewrite Hsum; specialize (Pb x); lra|exact Hs]).
    assert (LB : (phi lb eb g <= phi mu ec g)%R) by (apply (power_order n b c lb mu eb ec Hb Hc Eb Ec Pb); [intros x; rewrite Hsum; specialize (Pa x); lra|exact Hs]).
    apply (fun H => npow_le _ _ g (Nn la ea) H ltac:(lra)) in LA. apply (fun H => npow_le _ _ g (Nn lb eb) H ltac:(lra)) in LB.
    destruct (Rle_lt_or_eq_dec 1 g Hg) as [G | <-].
    2:{ assert (Q : forall m l e, is_eigh n m l e -> hermitian n m -> (forall f, (f < n)%nat -> (0 <= l f)%R) -> npow (phi l e 1) 1 = re (qform n m h)).
        { intros m l e Em Hm L0. rewrite npow_1 by apply Nn. rewrite (coord_form n m l e Hm Em h). apply rsumn_ext. intros f Hf.
          replace (1 / 1)%R with 1%R by field. pose proof (npow_1 (l f) (L0 f Hf)) as ->. exact (Rmult_comm _ _). }
        rewrite (Q a la ea), (Q b lb eb), (Q c mu ec) by assumption. rewrite Hsum. lra. }
    set (A := npow (phi la ea g) g) in *. set (B := npow (phi lb eb g) g) in *.
    assert (EA : phi la ea g = npow A (1 / g)) by (unfold A; rewrite npow_npow by apply Nn; replace (g * (1 / g))%R with 1%R by (field; lra); now rewrite npow_1 by apply Nn).
    assert (EB : phi lb eb g = npow B (1 / g)) by (unfold B; rewrite npow_npow by apply Nn; replace (g * (1 / g))%R with 1%R by (field; lra); now rewrite npow_1 by apply Nn).
    assert (NA : (0 <= A)%R) by apply npow_nonneg. assert (NB : (0 <= B)%R) by apply npow_nonneg.
    destruct NA as [NA|NA]; [|lra]. destruct NB as [NB|NB]; [|lra].
    set (th := (A / (A + B))%R). assert (T : (1 - th = B / (A + B))%R) by (unfold th; field; lra).
    assert (T0 : (0 < th)%R) by (apply Rdiv_lt_0_compat; lra). assert (T1 : (0 < 1 - th)%R) by (rewrite T; apply Rdiv_lt_0_compat; lra).
    pose proof (power_split n a b c la lb mu ea eb ec Ha Hb Hc Ea Eb Ec Pa Pb Hsum h (1 / g) th) as PS.
    assert (S1 : (1 / g < 1)%R) by (apply (Rmult_lt_reg_r g); [lra|]; unfold Rdiv; rewrite Rmult_assoc, Rinv_l by lra; lra).
    specialize (PS (conj (proj1 Hs) S1) ltac:(lra)).
    assert (SC : forall l e X w, (forall f, (f < n)%nat -> (0 <= l f)%R) -> phi l e g = npow X (1 / g) -> (0 <= X)%R -> (0 < w)%R ->
      rsumn n (fun f => norm2 (inner n (fun i => e i f) h) * npow (l f / w) (1 / g))%R = npow (X / w) (1 / g)).
    { intros l e X w L0 EX X0 W0. assert (0 < / w)%R by now apply Rinv_0_lt_compat.
      rewrite (rsumn_ext n _ (fun f => npow (/ w) (1 / g) * (norm2 (inner n (fun i => e i f) h) * npow (l f) (1 / g)))%R).
      - rewrite rsumn_scal. fold (phi l e g). rewrite EX. unfold Rdiv. rewrite <- npow_mult by lra. f_equal. ring.
      - intros f Hf. unfold Rdiv at 1. rewrite npow_mult by (try apply L0; lra || assumption). ring. }
    rewrite (SC la ea A th A0 EA), (SC lb eb B (1 - th)%R B0 EB) in PS by lra.
    replace (A / th)%R with (A + B)%R in PS by (unfold th; field; lra). replace (B / (1 - th))%R with (A + B)%R in PS by (rewrite T; field; lra).
    fold (phi mu ec g) in PS.
    apply Rle_trans with (npow (npow (A + B) (1 / g)) g).
    - rewrite npow_npow by lra. replace (1 / g * g)%R with 1%R by (field; lra). rewrite npow_1; lra.
    - apply npow_le; [apply npow_nonneg|lra|lra].
  Qed.
End Super.

(** ** Inverses *)
Section Inv.
  Variables (n : nat) (a c da dc : nat -> nat -> C).
  Hypotheses (Ha : hermitian n a) (Hc : hermitian n c) (Ia : is_inverse n a da) (Ic : is_inverse n c dc) (Pa : positive_definite n a).
  Variable h : nat -> C.

  (** What the form of [a] keeps of the minimising vector of [c]. *)
  Lemma inv_bound : (re (qform n dc h) * re (qform n dc h) <= re (qform n da h) * re (qform n a (matvec n dc h)))%R.
  Proof.
    pose proof (form_cauchy_schwarz n a (matvec n da h) (matvec n dc h) Ha (pd_semi n a Pa)) as CS.
    rewrite <- (inverse_qform n a da Ha Ia h) in CS.
    assert (E : sesq n a (matvec n da h) (matvec n dc h) = RtoC (re (qform n dc h))).
    { rewrite sesq_matvec, matvec_inner by assumption.
      rewrite (inner_ext n (matvec n a (matvec n da h)) h (matvec n dc h) (matvec n dc h)) by (intros m Hm; split; [now apply inverse_apply|reflexivity]).
      rewrite <- sesq_matvec, sesq_qform. rewrite (qform_scalar n dc) by (now apply (inverse_hermitian n c)). reflexivity. }
    rewrite E, norm2_RtoC in CS. exact CS.
  Qed.
End Inv.
