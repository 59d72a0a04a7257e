(** Sums of many matrices, as they arise from averaging over blocks. *)
From Coq Require Import List Arith Lia ZArith Bool Reals Lra.
From Verif Require Import Stream Cplx Buffer Frames Convolve Fourier Beamform Csm Deconv Subspace Spectral OrthSep Resolve Heinz AddSound.
Import ListNotations.
Local Open Scope R_scope.

Lemma rsumn_grid n G : forall K, rsumn (K * n) (fun e => G (e / n)%nat (e mod n)%nat) = rsumn K (fun j => rsumn n (G j)).
Proof.
  induction K as [|K IH]; [reflexivity|]. replace (S K * n)%nat with (K * n + n)%nat by lia. rewrite rsumn_split, IH. cbn [rsumn]. f_equal.
  apply rsumn_ext. intros e He. rewrite <- (Nat.div_unique (K * n + e) n K e He) by lia. rewrite <- (Nat.mod_unique (K * n + e) n K e He) by lia. reflexivity.
Qed.

Section Many.
  Variables (n K : nat) (cs : nat -> nat -> nat -> C) (la : nat -> nat -> R) (ee : nat -> nat -> nat -> C) (c : nat -> nat -> C) (mu : nat -> R) (ec : nat -> nat -> C).
  Hypotheses (Hs : forall j, (j < K)%nat -> hermitian n (cs j)) (Hc : hermitian n c)
    (Es : forall j, (j < K)%nat -> is_eigh n (cs j) (la j) (ee j)) (Ec : is_eigh n c mu ec)
    (Ps : forall j, (j < K)%nat -> forall x, 0 <= re (qform n (cs j) x))
    (Hsum : forall x, re (qform n c x) = rsumn K (fun j => re (qform n (cs j) x))).
  Variable h : nat -> C.

  Let Pc x : 0 <= re (qform n c x).
  Proof. rewrite Hsum. apply rsumn_nonneg. intros j Hj. now apply Ps. Qed.
  Let La j e : (j < K)%nat -> (e < n)%nat -> 0 <= la j e.
  Proof. intros Hj He. exact (eva_nonneg n (cs j) (la j) (ee j) (Hs j Hj) (Es j Hj) (Ps j Hj) e He). Qed.

  Section Weights.
    Variable th : nat -> R.
    Hypotheses (Ht : forall j, (j < K)%nat -> 0 <= th j) (H1 : rsumn K th = 1).
    Let part t j := if Req_EM_T (th j) 0 then 0 else th j * th j * res n (la j) (ee j) (th j * t) h.

    Lemma res_many t : 0 < t -> res n mu ec t h <= rsumn K (part t).
    Proof.
      intros Tp. destruct (res_vector n c mu ec Hc Ec Pc t h Tp) as (y & Iy & Fy). set (R := res n mu ec t h) in *.
      set (N := rsumn n (fun m => norm2 (y m))) in *. assert (N0 : 0 <= N) by (apply rsumn_nonneg; intros; apply norm2_nonneg).
      assert (L : rsumn K (fun j => 2 * R * th j) <= rsumn K (fun j => part t j + (re (qform n (cs j) y) + t * N * th j))).
      { apply rsumn_le. intros j Hj. unfold part. specialize (Ht j Hj). pose proof (Ps j Hj y) as F0. destruct (Req_EM_T (th j) 0) as [Z|Z]; [rewrite Z; lra|].
        assert (Tj : 0 < th j) by lra. assert (U : 0 < th j * t) by now apply Rmult_lt_0_compat.
        pose proof (res_bound n (cs j) (la j) (ee j) (Hs j Hj) (Es j Hj) (Ps j Hj) (th j * t) h y U) as B. rewrite Iy, norm2_RtoC in B. fold N in B.
        pose proof (res_nonneg n (cs j) (la j) (ee j) (Hs j Hj) (Es j Hj) (Ps j Hj) (th j * t) h U) as A0.
        set (A := res n (la j) (ee j) (th j * t) h) in *. replace (re (qform n (cs j) y) + t * N * th j) with (re (qform n (cs j) y) + th j * t * N) by ring.
        set (f := re (qform n (cs j) y) + th j * t * N) in *. assert (f0 : 0 <= f) by (unfold f; assert (0 <= th j * t * N) by (apply Rmult_le_pos; lra); lra).
        set (x := th j * th j * A). assert (x0 : 0 <= x) by (unfold x; repeat apply Rmult_le_pos; lra).
        assert (Q : (th j * R) * (th j * R) <= x * f) by (unfold x; apply (Rmult_le_compat_l (th j * th j)) in B; [lra|apply Rmult_le_pos; lra]).
        apply Rnot_lt_le. intros G. assert (G2 : (x + f) * (x + f) < (2 * R * th j) * (2 * R * th j)) by (apply Rmult_le_0_lt_compat; lra).
        pose proof (Rle_0_sqr (x - f)) as SQ. unfold Rsqr in SQ. lra. }
      rewrite rsumn_scal, H1, !rsumn_add, rsumn_scal, H1, <- Hsum in L. lra.
    Qed.

    (** Powers with exponent s below one of a sum, for every split of the unit. *)
    Lemma power_many s : 0 < s < 1 ->
      rsumn K (fun j => th j * rsumn n (fun e => norm2 (inner n (fun i => ee j i e) h) * npow (if Req_EM_T (th j) 0 then 0 else la j e / th j) s))
      <= rsumn n (fun f => norm2 (inner n (fun i => ec i f) h) * npow (mu f) s).
    Proof.
      intros S. pose proof (eva_nonneg n c mu ec Hc Ec Pc) as M0.
      set (al := fun e => th (e / n)%nat * norm2 (inner n (fun i => ee (e / n)%nat i (e mod n)%nat) h)).
      set (l := fun e => if Req_EM_T (th (e / n)%nat) 0 then 0 else la (e / n)%nat (e mod n)%nat / th (e / n)%nat).
      set (be := fun e => if (e <? n)%nat then norm2 (inner n (fun i => ec i e) h) else 0).
      set (m := fun e => if (e <? n)%nat then mu e else 0).
      assert (SA : forall F : R -> R, rsumn (K * n) (fun e => al e * F (l e))
        = rsumn K (fun j => th j * rsumn n (fun e => norm2 (inner n (fun i => ee j i e) h) * F (if Req_EM_T (th j) 0 then 0 else la j e / th j)))).
      { intros F. unfold al, l. rewrite (rsumn_grid n (fun j e => th j * norm2 (inner n (fun i => ee j i e) h) * F (if Req_EM_T (th j) 0 then 0 else la j e / th j)) K).
        apply rsumn_ext. intros j _. rewrite <- rsumn_scal. apply rsumn_ext. intros e _. ring. }
      assert (KP : (0 < K)%nat) by (destruct K; [cbn in H1; lra|lia]).
      assert (SB : forall F : R -> R, rsumn (K * n) (fun e => be e * F (m e)) = rsumn n (fun e => norm2 (inner n (fun i => ec i e) h) * F (mu e))).
      { intros F. replace (K * n)%nat with (n + (K - 1) * n)%nat by (destruct K; [lia|cbn; lia]). rewrite rsumn_split.
        rewrite (rsumn_0 _ (fun k => be (n + k)%nat * F (m (n + k)%nat))).
        - rewrite Rplus_0_r. apply rsumn_ext. intros e He. unfold be, m. destruct (Nat.ltb_spec e n); [reflexivity|lia].
        - intros e He. unfold be. destruct (Nat.ltb_spec (n + e) n); [lia|ring]. }
      rewrite <- (SA (fun x => npow x s)), <- (SB (fun x => npow x s)).
      assert (DV : forall e, (e < K * n)%nat -> (e / n < K)%nat /\ (e mod n < n)%nat).
      { intros e He. assert (n <> 0%nat) by (intros ->; lia). split; [apply Nat.div_lt_upper_bound; lia|now apply Nat.mod_upper_bound]. }
      apply heinz; try lra.
      - intros e He. destruct (DV e He). unfold al. apply Rmult_le_pos; [now apply Ht|apply norm2_nonneg].
      - intros e He. unfold be. destruct (e <? n)%nat; [apply norm2_nonneg|lra].
      - intros e He. destruct (DV e He) as [D1 D2]. unfold l. destruct (Req_EM_T _ 0); [lra|]. apply Rle_mult_inv_pos; [now apply La|]. pose proof (Ht _ D1). lra.
      - intros e He. unfold m. destruct (Nat.ltb_spec e n); [now apply M0|lra].
      - intros t Tp. rewrite (SA (fun x => x / (x + t))), (SB (fun x => x / (x + t))). cbv beta.
        rewrite (res_ratio n c mu ec Hc Ec Pc t h Tp). set (N := rsumn n (fun m => norm2 (h m))).
        assert (T : forall j, (j < K)%nat -> th j * rsumn n (fun e => norm2 (inner n (fun i => ee j i e) h) *
            ((if Req_EM_T (th j) 0 then 0 else la j e / th j) / ((if Req_EM_T (th j) 0 then 0 else la j e / th j) + t))) = N * th j + - t * part t j).
        { intros j Hj. unfold part. specialize (Ht j Hj). destruct (Req_EM_T (th j) 0) as [Z|Z]; [rewrite Z; ring|].
          assert (U : 0 < th j * t) by (apply Rmult_lt_0_compat; lra).
          rewrite (rsumn_ext n _ (fun e => norm2 (inner n (fun i => ee j i e) h) * (la j e / (la j e + th j * t)))).
          - rewrite (res_ratio n (cs j) (la j) (ee j) (Hs j Hj) (Es j Hj) (Ps j Hj) _ h U). fold N. ring.
          - intros e He. pose proof (La j e Hj He). field. lra. }
        rewrite (rsumn_ext K _ (fun j => N * th j + - t * part t j)) by exact T. rewrite rsumn_add, !rsumn_scal, H1.
        pose proof (res_many t Tp) as RM. apply (Rmult_le_compat_l t) in RM; [|lra]. lra.
    Qed.
  End Weights.

  Let phi (l : nat -> R) (e : nat -> nat -> C) g := rsumn n (fun f => norm2 (inner n (fun i => e i f) h) * npow (l f) (1 / g)).

  Theorem power_sum_many g : 1 <= g -> rsumn K (fun j => npow (phi (la j) (ee j) g) g) <= npow (phi mu ec g) g.
  Proof.
    intros Hg. assert (Nn : forall l e, 0 <= phi l e g) by (intros; apply rsumn_nonneg; intros; apply Rmult_le_pos; [apply norm2_nonneg|apply npow_nonneg]).
    pose proof (eva_nonneg n c mu ec Hc Ec Pc) as M0.
    destruct (Rle_lt_or_eq_dec 1 g Hg) as [G | <-].
    2:{ assert (Q : forall m l e, is_eigh n m l e -> hermitian n m -> (forall f, (f < n)%nat -> 0 <= l f) -> npow (phi l e 1) 1 = re (qform n m h)).
        { intros m l e Em Hm L0. rewrite npow_1 by apply Nn. rewrite (coord_form n m l e Hm Em h). apply rsumn_ext. intros f Hf.
          replace (1 / 1) with 1 by field. pose proof (npow_1 (l f) (L0 f Hf)) as ->. apply Rmult_comm. }
        rewrite (Q c mu ec) by assumption. rewrite Hsum. apply Req_le, rsumn_ext. intros j Hj. apply (Q (cs j)); auto. }
    assert (Hq : 0 < 1 / g < 1).
    { split; [apply Rdiv_lt_0_compat; lra|]. apply (Rmult_lt_reg_r g); [lra|]. unfold Rdiv. rewrite Rmult_assoc, Rinv_l by lra. lra. }
    set (A := fun j => npow (phi (la j) (ee j) g) g). change (rsumn K A <= npow (phi mu ec g) g).
    assert (A0 : forall j, 0 <= A j) by (intros; apply npow_nonneg).
    assert (EA : forall j, phi (la j) (ee j) g = npow (A j) (1 / g)) by (intros j; unfold A; rewrite npow_npow by apply Nn; replace (g * (1 / g)) with 1 by (field; lra); now rewrite npow_1 by apply Nn).
    assert (S0 : 0 <= rsumn K A) by (apply rsumn_nonneg; auto).
    destruct (Rle_lt_or_eq_dec _ _ S0) as [S1|S1]; [|rewrite <- S1; apply npow_nonneg].
    set (S := rsumn K A) in *. assert (IS : 0 < / S) by now apply Rinv_0_lt_compat.
    pose proof (power_many (fun j => A j / S) (fun j _ => Rle_mult_inv_pos _ _ (A0 j) S1)) as PM. cbv beta in PM.
    specialize (PM ltac:(rewrite (rsumn_ext K _ (fun j => / S * A j)) by (intros; unfold Rdiv; ring); rewrite rsumn_scal; fold S; field; lra) (1 / g) Hq).
    fold (phi mu ec g) in PM.
    rewrite (rsumn_ext K _ (fun j => npow S (1 / g) / S * A j)) in PM.
    - rewrite rsumn_scal in PM. fold S in PM. replace (npow S (1 / g) / S * S) with (npow S (1 / g)) in PM by (field; lra).
      apply Rle_trans with (npow (npow S (1 / g)) g).
      + rewrite npow_npow by lra. replace (1 / g * g) with 1 by (field; lra). rewrite npow_1; lra.
      + apply npow_le; [apply npow_nonneg|exact PM|lra].
    - intros j Hj. destruct (Req_EM_T (A j / S) 0) as [Z|Z].
      + assert (A j = 0) as -> by (apply (Rmult_eq_reg_r (/ S)); [rewrite Rmult_0_l; exact Z|lra]). unfold Rdiv. ring.
      + assert (Aj : 0 < A j) by (destruct (A0 j) as [H|H]; [exact H|exfalso; apply Z; rewrite <- H; unfold Rdiv; ring]).
        assert (V : 0 < / (A j / S)) by (apply Rinv_0_lt_compat; now apply Rdiv_lt_0_compat).
        rewrite (rsumn_ext n _ (fun e => npow (/ (A j / S)) (1 / g) * (norm2 (inner n (fun i => ee j i e) h) * npow (la j e) (1 / g)))).
        * rewrite rsumn_scal. fold (phi (la j) (ee j) g). rewrite EA, <- npow_mult by lra. replace (/ (A j / S) * A j) with S by (field; lra). field. lra.
        * intros e He. unfold Rdiv at 1. rewrite npow_mult by (try apply La; lra || assumption). ring.
  Qed.
End Many.

(** ** Scaled matrices *)
Definition scaled (w : R) (c : nat -> nat -> C) (i j : nat) : C := (RtoC w * c i j)%C.

Lemma scaled_form n w c x : re (qform n (scaled w c) x) = w * re (qform n c x).
Proof.
  rewrite <- re_RtoC_mul. f_equal. unfold qform, scaled. rewrite <- csum_scal. apply csum_ext. intros i _. rewrite <- csum_scal. apply csum_ext. intros j _. ring.
Qed.

Lemma scaled_hermitian n w c : hermitian n c -> hermitian n (scaled w c).
Proof. intros H i j Hi Hj. unfold scaled. now rewrite Conj_mul, Conj_RtoC, <- (H i j Hi Hj). Qed.

Lemma scaled_eigh n w c eva eve : 0 <= w -> is_eigh n c eva eve -> is_eigh n (scaled w c) (fun e => w * eva e) eve.
Proof.
  intros Hw (A & B & D). split; [|split; [exact B|intros; apply Rmult_le_compat_l; auto]]. intros e i He Hi. unfold scaled.
  rewrite (csum_ext n _ (fun j => RtoC w * (c i j * eve j e))%C) by (intros; ring). rewrite csum_scal, A by assumption. rewrite RtoC_mul. ring.
Qed.

Lemma functional_scaled n r0 k r st g w eva eve : (0 < n)%nat -> 0 < r0 -> (forall m, (m < n)%nat -> 0 < r m) -> 0 < g -> 0 <= w -> (forall e, (e < n)%nat -> 0 <= eva e) ->
  bf_functional n npow g (fun e => w * eva e) eve r0 k r st = w * bf_functional n npow g eva eve r0 k r st.
Proof.
  intros Hn H0 Hr Hg Hw He. rewrite !(functional_form n r0 k r st Hn H0 Hr g) by (try assumption; intros e Hh; apply Rmult_le_pos; auto).
  set (h := steer_vector n st (transfer r0 k r)). rewrite <- (Rmult_assoc w). apply (Rmult_eq_compat_r (npow (/ rsumn n (fun m => norm2 (h m))) g * rsumn n (fun m => norm2 (h m)))).
  rewrite (rsumn_ext n _ (fun e => npow w (1 / g) * (norm2 (inner n (fun i => eve i e) h) * npow (eva e) (1 / g)))) by (intros e Hh; rewrite npow_mult by auto; ring).
  rewrite rsumn_scal, npow_mult, npow_npow; [|exact Hw|apply npow_nonneg|apply rsumn_nonneg; intros; apply Rmult_le_pos; [apply norm2_nonneg|apply npow_nonneg]].
  replace (1 / g * g) with 1 by (field; lra). now rewrite npow_1.
Qed.

(** ** Inverse of a sum *)
Lemma inverse_many n K cs ds c d h : (forall j, (j < K)%nat -> hermitian n (cs j) /\ positive_definite n (cs j) /\ is_inverse n (cs j) (ds j)) ->
  hermitian n c -> positive_definite n c -> is_inverse n c d -> nonzero n h -> (forall x, re (qform n c x) = rsumn K (fun j => re (qform n (cs j) x))) ->
  rsumn K (fun j => / re (qform n (ds j) h)) <= / re (qform n d h).
Proof.
  intros Hj Hc Pc Ic Nz Hsum. pose proof (inverse_positive n c d Hc Ic h Pc Nz) as Q. set (q := re (qform n d h)) in *.
  pose proof (inverse_qform n c d Hc Ic h) as F. apply (f_equal re) in F. fold q in F. rewrite Hsum in F.
  apply Rle_trans with (rsumn K (fun j => / (q * q) * re (qform n (cs j) (matvec n d h)))).
  - apply rsumn_le. intros j H. destruct (Hj j H) as (H1 & H2 & H3). pose proof (inv_bound n (cs j) c (ds j) d H1 Hc H3 Ic H2 h) as B. fold q in B.
    pose proof (inverse_positive n (cs j) (ds j) H1 H3 h H2 Nz) as Qj. set (qj := re (qform n (ds j) h)) in *.
    assert (QQ : 0 < q * q) by now apply Rmult_lt_0_compat.
    apply (Rmult_le_reg_r (qj * (q * q))); [now apply Rmult_lt_0_compat|]. replace (/ qj * (qj * (q * q))) with (q * q) by (field; lra).
    match goal with |- _ <= ?z => replace z with (qj * re (qform n (cs j) (matvec n d h))) by (field; lra) end. exact B.
  - rewrite rsumn_scal, <- F. apply Req_le. field. lra.
Qed.

(** ** The matrix of joined measurements *)
Lemma frames_sum {X} (G : X -> R) (d : X) l : forall m, rsumn (length (l ++ m)) (fun i => G (nth i (l ++ m) d)) = rsumn (length l) (fun i => G (nth i l d)) + rsumn (length m) (fun i => G (nth i m d)).
Proof.
  intros m. rewrite app_length, rsumn_split. f_equal; apply rsumn_ext; intros i Hi.
  - now rewrite app_nth1.
  - rewrite app_nth2 by lia. f_equal. f_equal. lia.
Qed.

Lemma joined_form bs N wind (nb : nat -> R) (fs : nat -> list (list (list R))) b x : forall K, (forall j, (j < K)%nat -> 0 < nb j) -> 0 < rsumn K nb ->
  re (qform N (calc_csm bs N wind (rsumn K nb) (concat (map fs (seq 0 K))) b) x)
  = rsumn K (fun j => nb j / rsumn K nb * re (qform N (calc_csm bs N wind (nb j) (fs j) b) x)).
Proof.
  intros K Hn Hk. rewrite calc_csm_qform. cbn [re RtoC fst]. set (S := rsumn K nb) in *.
  rewrite (rsumn_ext K _ (fun j => 2 / INR bs / rsumn bs (fun j => wind j * wind j) / S * rsumn (length (fs j)) (fun i => norm2 (inner N x (frame_spectrum bs wind b (nth i (fs j) [])))))).
  - rewrite rsumn_scal. f_equal. clear Hn Hk S. induction K as [|K IH]; [reflexivity|]. rewrite seq_S, map_app, concat_app. cbn [map concat rsumn Nat.add]. rewrite app_nil_r.
    rewrite (frames_sum (fun f => norm2 (inner N x (frame_spectrum bs wind b f))) []). now rewrite IH.
  - intros j Hj. rewrite calc_csm_qform. cbn [re RtoC fst]. specialize (Hn j Hj). unfold Rdiv. 
    rewrite <- !Rmult_assoc. f_equal. match goal with |- ?l = _ => replace l with (2 * / INR bs * / rsumn bs (fun j0 => wind j0 * wind j0) * / S * (nb j * / nb j)) by ring end.
    rewrite Rinv_r by lra. ring.
Qed.

Lemma calc_csm_sound bs N wind nb fs b : (0 < bs)%nat -> 0 < rsumn bs (fun j => wind j * wind j) -> 0 < nb ->
  forall x, 0 <= re (qform N (calc_csm bs N wind nb fs b) x).
Proof.
  intros Hb Hw Hn x. rewrite calc_csm_qform. cbn [re RtoC fst]. apply Rmult_le_pos; [|apply rsumn_nonneg; intros; apply norm2_nonneg].
  pose proof (lt_0_INR bs Hb). repeat apply Rle_mult_inv_pos; try assumption. lra.
Qed.
