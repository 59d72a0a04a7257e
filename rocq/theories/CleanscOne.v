(** CLEAN-SC (BeamformerCleansc, fbeamform.py:1455-1546) on the data of one
    source.  The algorithm is modelled in Deconv.v ([cleansc]); here the inner
    iteration (1525-1530) is followed exactly when the cross spectra of
    different microphones are those of one monopole at a grid point. *)
From Coq Require Import List Arith Lia ZArith Bool Reals Lra.
From Verif Require Import Cplx Beamform Deconv Rewire.
Import ListNotations.
Local Open Scope R_scope.

Local Opaque hh_of.

(* ------------------------------------------------------------------ *)
(** * The inner iteration on amplitudes *)

(** With the component h = kappa u conj(a), one pass of the inner iteration
    acts on the real factors u: [s m] is the share of microphone m. *)
Definition ustep (n : nat) (s : nat -> R) (u : nat -> R) (m : nat) : R :=
  (rsumn n s - s m + s m * (u m * u m)) / sqrt (1 + rsumn n (fun j => (s j * u j) * (s j * u j))).

Lemma iter_S {A} q (f : A -> A) x : Nat.iter (S q) f x = f (Nat.iter q f x).
Proof. reflexivity. Qed.

Lemma ustep_ext n s u v m : (m < n)%nat -> (forall j, (j < n)%nat -> u j = v j) -> ustep n s u m = ustep n s v m.
Proof.
  intros Hm H. unfold ustep. rewrite (H m Hm). f_equal. f_equal. f_equal. apply rsumn_ext. intros j Hj. now rewrite H.
Qed.

Section Core.
  Variables (n : nat) (a : nat -> C) (gg : nat -> R) (p2 hmax : R) (csm : nat -> nat -> C) (wm : nat -> C).
  Hypotheses (Hp : 0 < p2) (Hh : 0 < hmax)
    (Hw : forall m, (m < n)%nat -> wm m = (RtoC (gg m) * Conj (a m))%C)
    (Hc : forall i j, (i < n)%nat -> (j < n)%nat -> i <> j -> csm i j = (RtoC p2 * a i * Conj (a j))%C).
  Local Open Scope C_scope.

  Let kap : R := sqrt (p2 / hmax).
  Let s (m : nat) : R := (kap * (gg m * norm2 (a m)))%R.

  Lemma kap_pos : (0 < kap)%R.
  Proof. apply sqrt_lt_R0. unfold Rdiv. apply Rmult_lt_0_compat; [assumption|now apply Rinv_0_lt_compat]. Qed.

  Lemma kap_sqr : (kap * kap)%R = (p2 / hmax)%R.
  Proof. apply sqrt_sqrt. apply Rlt_le. unfold Rdiv. apply Rmult_lt_0_compat; [assumption|now apply Rinv_0_lt_compat]. Qed.

  Lemma d1_one m : (m < n)%nat ->
    d1 n csm wm hmax m = RtoC (p2 / hmax * (rsumn n (fun j => gg j * norm2 (a j))%R - gg m * norm2 (a m))) * Conj (a m).
  Proof.
    intros Hm. unfold d1.
    rewrite (csum_ext n _ (fun j => (RtoC (p2 * (gg j * norm2 (a j))) - RtoC (if (j =? m)%nat then p2 * (gg m * norm2 (a m)) else 0))
       * Conj (a m))).
    2:{ intros j Hj. rewrite (Hw j Hj). destruct (Nat.eqb_spec m j) as [->|Hmj].
        - rewrite Nat.eqb_refl. ring.
        - destruct (Nat.eqb_spec j m); [congruence|]. rewrite (Hc j m Hj Hm) by congruence.
          rewrite !RtoC_mul, <- mul_Conj. change (RtoC 0) with C0. ring. }
    rewrite csum_scal_r, csum_sub, !csum_RtoC, rsumn_scal.
    rewrite (rsumn_single n m (fun j => if (j =? m)%nat then p2 * (gg m * norm2 (a m)) else 0)%R Hm).
    2:{ intros j _ Hj. apply Nat.eqb_neq in Hj. now rewrite Hj. }
    rewrite Nat.eqb_refl, <- RtoC_sub.
    replace (p2 / hmax * (rsumn n (fun j => gg j * norm2 (a j))%R - gg m * norm2 (a m)))%R
      with ((p2 * rsumn n (fun j => gg j * norm2 (a j))%R - p2 * (gg m * norm2 (a m))) * / hmax)%R by (field; lra).
    rewrite (RtoC_mul _ (/ hmax)), RtoC_inv by lra. unfold Cdiv. ring.
  Qed.

  Lemma hh_step_one u hh : (forall m, (m < n)%nat -> hh m = RtoC (kap * u m) * Conj (a m)) ->
    forall m, (m < n)%nat -> hh_step n (d1 n csm wm hmax) wm hh m = RtoC (kap * ustep n s u m) * Conj (a m).
  Proof.
    intros Hu m Hm. unfold hh_step. cbv zeta.
    assert (Hd : re (csum n (fun i => Conj (wm i) * wm i * (Conj (hh i) * hh i)))
      = rsumn n (fun j => s j * u j * (s j * u j))%R).
    { rewrite re_csum. apply rsumn_ext. intros i Hi. rewrite (Hw i Hi), (Hu i Hi).
      rewrite !Conj_mul, !Conj_RtoC, Conj_invol.
      replace (RtoC (gg i) * a i * (RtoC (gg i) * Conj (a i)) * (RtoC (kap * u i) * a i * (RtoC (kap * u i) * Conj (a i))))
        with (RtoC (gg i) * RtoC (gg i) * (RtoC (kap * u i) * RtoC (kap * u i)) * ((a i * Conj (a i)) * (a i * Conj (a i)))) by ring.
      rewrite mul_Conj, <- !RtoC_mul. cbn [re RtoC fst]. unfold s. ring. }
    rewrite Hd. set (den := sqrt (1 + rsumn n (fun j => s j * u j * (s j * u j))%R)%R).
    assert (Hden : (0 < den)%R).
    { apply sqrt_lt_R0. assert (0 <= rsumn n (fun j => s j * u j * (s j * u j))%R)%R; [|lra].
      apply rsumn_nonneg. intros j _. nra. }
    rewrite (d1_one m Hm), (Hw m Hm), (Hu m Hm), Conj_mul, Conj_RtoC, Conj_invol.
    replace (RtoC (kap * u m) * a m * (RtoC (kap * u m) * Conj (a m)))
      with (RtoC (kap * u m) * RtoC (kap * u m) * (a m * Conj (a m))) by ring.
    rewrite mul_Conj.
    unfold ustep. fold den.
    assert (HW : rsumn n s = (kap * rsumn n (fun j => gg j * norm2 (a j))%R)%R) by (unfold s; apply rsumn_scal).
    rewrite HW. set (G := rsumn n (fun j => gg j * norm2 (a j))%R).
    replace (kap * ((kap * G - s m + s m * (u m * u m)) / den))%R
      with ((p2 / hmax * (G - gg m * norm2 (a m)) + p2 / hmax * (u m * u m * norm2 (a m) * gg m)) * / den)%R.
    2:{ rewrite <- kap_sqr. unfold s, Rdiv. ring. }
    rewrite (RtoC_mul _ (/ den)), RtoC_inv, RtoC_add by lra. unfold Cdiv.
    rewrite <- kap_sqr, !RtoC_mul. ring.
  Qed.

  Lemma hh_iter_one q u hh : (forall m, (m < n)%nat -> hh m = RtoC (kap * u m) * Conj (a m)) ->
    forall m, (m < n)%nat ->
      Nat.iter q (hh_step n (d1 n csm wm hmax) wm) hh m = RtoC (kap * Nat.iter q (ustep n s) u m) * Conj (a m).
  Proof.
    intros Hu. induction q as [|q IH]; intros m Hm; [now apply Hu|].
    rewrite !iter_S. now apply hh_step_one.
  Qed.

  (** The component after [q] passes, started from the steering vector. *)
  Lemma hh_start_one q m : (m < n)%nat ->
    Nat.iter q (hh_step n (d1 n csm wm hmax) wm) wm m
    = RtoC (kap * Nat.iter q (ustep n s) (fun j => gg j / kap)%R m) * Conj (a m).
  Proof.
    apply hh_iter_one. intros j Hj. rewrite (Hw j Hj). f_equal. f_equal. field. pose proof kap_pos. lra.
  Qed.
End Core.

(* ------------------------------------------------------------------ *)
(** * Contraction *)

Definition rate (rho : R) : R := (3 * rho + rho * rho) / (1 - rho).

Lemma rate_le rho : 0 <= rho <= 1 / 5 -> 0 <= rate rho <= 4 / 5.
Proof.
  intros H. unfold rate. split.
  - apply Rmult_le_pos; [nra|]. left. apply Rinv_0_lt_compat. lra.
  - apply Rmult_le_reg_r with (1 - rho); [lra|]. unfold Rdiv. rewrite Rmult_assoc, Rinv_l, Rmult_1_r by lra. nra.
Qed.

Lemma rsumn_abs_le n f g : (forall k, (k < n)%nat -> Rabs (f k) <= g k) -> Rabs (rsumn n f) <= rsumn n g.
Proof.
  induction n as [|n IH]; intros H; cbn [rsumn]; [rewrite Rabs_R0; lra|].
  eapply Rle_trans; [apply Rabs_triang|]. apply Rplus_le_compat; [apply IH; intros; apply H; lia|apply H; lia].
Qed.

Section Contraction.
  Variables (n : nat) (s : nat -> R) (rho : R).
  Let W := rsumn n s.
  Hypotheses (Hs : forall m, (m < n)%nat -> 0 <= s m) (HW : W * W = 1 + rsumn n (fun m => s m * s m))
    (Hrho : 0 <= rho <= 1 / 5) (Hshare : forall m, (m < n)%nat -> s m <= rho * W).

  Lemma W_pos : 0 < W.
  Proof.
    assert (0 <= W) by (apply rsumn_nonneg; assumption).
    assert (0 <= rsumn n (fun m => s m * s m)) by (apply rsumn_nonneg; intros; nra).
    destruct (Req_dec W 0) as [E|]; [rewrite E in HW; lra|lra].
  Qed.

  Lemma share_sqr : rsumn n (fun m => s m * s m) <= rho * (W * W).
  Proof.
    apply Rle_trans with (rsumn n (fun m => rho * W * s m)).
    - apply rsumn_le. intros m Hm. pose proof (Hs m Hm). pose proof (Hshare m Hm). nra.
    - rewrite rsumn_scal. fold W. nra.
  Qed.

  Lemma ustep_contracts D u : 0 <= D <= 1 ->
    (forall m, (m < n)%nat -> Rabs (u m * u m - 1) <= D) ->
    forall m, (m < n)%nat -> 0 <= ustep n s u m /\ Rabs (ustep n s u m * ustep n s u m - 1) <= rate rho * D.
  Proof.
    intros HD Hu m Hm. pose proof W_pos as HWp. pose proof share_sqr as Hq.
    unfold ustep. fold W.
    set (T := rsumn n (fun j => s j * s j * (u j * u j - 1))).
    assert (HT : Rabs T <= D * (rho * (W * W))).
    { apply Rle_trans with (rsumn n (fun j => D * (s j * s j))).
      - apply rsumn_abs_le. intros j Hj. rewrite Rabs_mult, (Rabs_right (s j * s j)) by (apply Rle_ge; nra).
        pose proof (Hu j Hj). assert (0 <= s j * s j) by nra. nra.
      - rewrite rsumn_scal. apply Rmult_le_compat_l; lra. }
    assert (Hden : 1 + rsumn n (fun j => s j * u j * (s j * u j)) = W * W + T).
    { rewrite HW. unfold T. rewrite (rsumn_ext n (fun j => s j * u j * (s j * u j))
        (fun j => s j * s j + s j * s j * (u j * u j - 1))) by (intros; ring).
      rewrite rsumn_add. ring. }
    rewrite Hden. set (E := W * W + T).
    assert (HTb : - (D * (rho * (W * W))) <= T <= D * (rho * (W * W))).
    { split; [|apply Rle_trans with (2 := HT), Rle_abs]. pose proof (Rle_abs (- T)). rewrite Rabs_Ropp in H. lra. }
    assert (HWW : 0 < W * W) by nra.
    assert (HDr : D * (rho * (W * W)) <= rho * (W * W)).
    { assert (0 <= rho * (W * W)) by (apply Rmult_le_pos; lra). nra. }
    assert (HE : W * W * (1 - rho) <= E) by (unfold E; nra).
    assert (HEp : 0 < E) by (apply Rlt_le_trans with (2 := HE), Rmult_lt_0_compat; lra).
    assert (Hsq : sqrt E * sqrt E = E) by (apply sqrt_sqrt; lra).
    assert (Hsp : 0 < sqrt E) by (apply sqrt_lt_R0; assumption).
    pose proof (Hs m Hm) as Hsm. pose proof (Hshare m Hm) as Hshm. pose proof (Hu m Hm) as Hum.
    assert (Hd : - D <= u m * u m - 1 <= D).
    { split; [|apply Rle_trans with (2 := Hum), Rle_abs]. pose proof (Rle_abs (- (u m * u m - 1))). rewrite Rabs_Ropp in H. lra. }
    set (d := u m * u m - 1) in *.
    replace (W - s m + s m * (u m * u m)) with (W + s m * d) by (unfold d; ring).
    assert (HsW : s m <= W) by nra.
    split.
    - apply Rmult_le_pos; [|left; now apply Rinv_0_lt_compat].
      assert (s m * d >= - s m) by nra. lra.
    - replace ((W + s m * d) / sqrt E * ((W + s m * d) / sqrt E)) with ((W + s m * d) * (W + s m * d) / E).
      2:{ rewrite <- Hsq at 1. field. lra. }
      replace ((W + s m * d) * (W + s m * d) / E - 1) with ((2 * W * s m * d + s m * s m * (d * d) - T) * / E)
        by (unfold E; field; fold E; lra).
      rewrite Rabs_mult, (Rabs_right (/ E)) by (left; now apply Rinv_0_lt_compat).
      assert (Hnum : Rabs (2 * W * s m * d + s m * s m * (d * d) - T) <= W * W * (3 * rho + rho * rho) * D).
      { assert (H1 : Rabs (W * s m * d) <= rho * (W * W) * D).
        { rewrite !Rabs_mult, (Rabs_right W), (Rabs_right (s m)) by lra.
          assert (W * s m <= rho * (W * W)) by nra. assert (0 <= W * s m) by nra. pose proof (Rabs_pos d). nra. }
        assert (H2 : Rabs (s m * s m * (d * d)) <= rho * rho * (W * W) * D).
        { rewrite Rabs_right by (apply Rle_ge; apply Rmult_le_pos; nra).
          assert (Hdd : d * d <= D) by nra. assert (0 <= d * d) by nra.
          assert (Hss : s m * s m <= (rho * W) * (rho * W)) by (apply Rmult_le_compat; lra).
          assert (0 <= s m * s m) by nra.
          replace (rho * rho * (W * W) * D) with ((rho * W) * (rho * W) * D) by ring.
          apply Rmult_le_compat; assumption. }
        replace (2 * W * s m * d + s m * s m * (d * d) - T) with (W * s m * d + W * s m * d + s m * s m * (d * d) + - T) by ring.
        repeat (eapply Rle_trans; [apply Rabs_triang|]).
        rewrite Rabs_Ropp.
        assert (Rabs (W * s m * d + W * s m * d + s m * s m * (d * d)) <= rho * (W * W) * D + rho * (W * W) * D + rho * rho * (W * W) * D).
        { eapply Rle_trans; [apply Rabs_triang|]. apply Rplus_le_compat; [|exact H2].
          eapply Rle_trans; [apply Rabs_triang|]. lra. }
        nra. }
      apply Rle_trans with (W * W * (3 * rho + rho * rho) * D * / E).
      + apply Rmult_le_compat_r; [left; now apply Rinv_0_lt_compat|exact Hnum].
      + apply Rle_trans with (W * W * (3 * rho + rho * rho) * D * / (W * W * (1 - rho))).
        * apply Rmult_le_compat_l; [apply Rmult_le_pos; [apply Rmult_le_pos|]; nra|].
          apply Rinv_le_contravar; [apply Rmult_lt_0_compat; lra|assumption].
        * right. unfold rate. field. split; lra.
  Qed.

  Lemma ustep_iter_contracts u : (forall m, (m < n)%nat -> 0 <= u m /\ Rabs (u m * u m - 1) <= 1) ->
    forall q m, (m < n)%nat -> 0 <= Nat.iter q (ustep n s) u m
      /\ Rabs (Nat.iter q (ustep n s) u m * Nat.iter q (ustep n s) u m - 1) <= rate rho ^ q.
  Proof.
    intros Hu q. induction q as [|q IH]; intros m Hm; [cbn [Nat.iter pow]; now apply Hu|].
    rewrite iter_S. cbn [pow]. apply ustep_contracts; [|intros j Hj; now apply IH|assumption].
    pose proof (rate_le rho Hrho) as [H1 H2]. split; [now apply pow_le|].
    rewrite <- (pow1 q). apply pow_incr. lra.
  Qed.
End Contraction.

Lemma prod_near u v D : 0 <= D <= 1 -> 0 <= u -> 0 <= v -> Rabs (u * u - 1) <= D -> Rabs (v * v - 1) <= D ->
  Rabs (u * v - 1) <= D.
Proof.
  intros HD Hu Hv H1 H2. apply Rabs_le.
  assert (A : - D <= u * u - 1 <= D).
  { split; [|apply Rle_trans with (2 := H1), Rle_abs]. pose proof (Rle_abs (- (u * u - 1))). rewrite Rabs_Ropp in H. lra. }
  assert (B : - D <= v * v - 1 <= D).
  { split; [|apply Rle_trans with (2 := H2), Rle_abs]. pose proof (Rle_abs (- (v * v - 1))). rewrite Rabs_Ropp in H. lra. }
  split.
  - assert (1 - D <= u * v); [|lra].
    apply Rsqr_incr_0; [|lra|now apply Rmult_le_pos]. unfold Rsqr.
    replace (u * v * (u * v)) with ((u * u) * (v * v)) by ring. apply Rmult_le_compat; lra.
  - assert (H : 0 <= (u - v) * (u - v)) by (fold (Rsqr (u - v)); apply Rle_0_sqr). nra.
Qed.

(* ------------------------------------------------------------------ *)
(** * Steering vectors at the source *)

(** At the source every steering vector is a positive multiple of the transfer vector, entry by entry. *)
Definition gain (n : nat) (st : steer) (a : nat -> C) (m : nat) : R :=
  match st with
  | Classic => / Cabs (a m) * / INR n
  | Inverse => / norm2 (a m) * / INR n
  | TrueLevel => / rsumn n (fun j => norm2 (a j))
  | TrueLocation => / sqrt (rsumn n (fun j => norm2 (a j)) * INR n)
  end.

Lemma sum_norm2_pos n a : (0 < n)%nat -> (forall m, (m < n)%nat -> a m <> C0) -> 0 < rsumn n (fun j => norm2 (a j)).
Proof. intros Hn Ha. apply rsumn_pos; [assumption|]. intros m Hm. apply norm2_pos. now apply Ha. Qed.

Lemma csum_norm2 n a : csum n (fun j => a j * Conj (a j))%C = RtoC (rsumn n (fun j => norm2 (a j))).
Proof. rewrite <- csum_RtoC. apply csum_ext. intros. apply mul_Conj. Qed.

Lemma gain_pos n st a m : (m < n)%nat -> (forall m, (m < n)%nat -> a m <> C0) -> 0 < gain n st a m.
Proof.
  intros Hm Ha. assert (Hn : (0 < n)%nat) by lia. pose proof (sum_norm2_pos n a Hn Ha) as HS.
  assert (HN : 0 < INR n) by now apply lt_0_INR. pose proof (Ha m Hm) as H0.
  destruct st; cbn [gain].
  - apply Rmult_lt_0_compat; apply Rinv_0_lt_compat; [now apply Cabs_pos|assumption].
  - apply Rmult_lt_0_compat; apply Rinv_0_lt_compat; [now apply norm2_pos|assumption].
  - now apply Rinv_0_lt_compat.
  - apply Rinv_0_lt_compat, sqrt_lt_R0. now apply Rmult_lt_0_compat.
Qed.

Lemma steer_gain n st a m : (m < n)%nat -> (forall m, (m < n)%nat -> a m <> C0) ->
  steer_vector n st a m = (RtoC (gain n st a m) * a m)%C.
Proof.
  intros Hm Ha. assert (Hn : (0 < n)%nat) by lia. pose proof (sum_norm2_pos n a Hn Ha) as HS.
  assert (HN : 0 < INR n) by now apply lt_0_INR. pose proof (Ha m Hm) as H0.
  pose proof (Cabs_pos _ H0) as H1. pose proof (norm2_pos _ H0) as H2.
  unfold steer_vector. cbv zeta. rewrite csum_norm2. destruct st; cbn [gain].
  - rewrite RtoC_mul, !RtoC_inv by lra. unfold Cdiv. ring.
  - assert (E : Cinv (Conj (a m)) = (RtoC (/ norm2 (a m)) * a m)%C).
    { pose proof (Conj_neq0 _ H0) as H3. rewrite RtoC_inv by lra. rewrite <- mul_Conj. field. split; assumption. }
    rewrite RtoC_mul, (RtoC_inv (INR n)) by lra. unfold Cdiv. rewrite E. ring.
  - rewrite RtoC_inv by lra. unfold Cdiv. ring.
  - cbn [re RtoC fst]. rewrite RtoC_inv.
    2:{ apply Rgt_not_eq, sqrt_lt_R0. now apply Rmult_lt_0_compat. }
    unfold Cdiv. change (fst (RtoC ?x)) with x. ring.
Qed.

Lemma norm2_gain n st a m : (m < n)%nat -> (forall m, (m < n)%nat -> a m <> C0) ->
  norm2 (steer_vector n st a m) = gain n st a m * gain n st a m * norm2 (a m).
Proof. intros Hm Ha. rewrite (steer_gain n st a m Hm Ha), norm2_mul, norm2_RtoC. ring. Qed.

Lemma Cabs_gain n st a m : (m < n)%nat -> (forall m, (m < n)%nat -> a m <> C0) ->
  Cabs (steer_vector n st a m) * Cabs (a m) = gain n st a m * norm2 (a m).
Proof.
  intros Hm Ha. rewrite (steer_gain n st a m Hm Ha), Cabs_mul, Cabs_RtoC.
  rewrite Rabs_right by (left; now apply gain_pos). rewrite Rmult_assoc, Cabs_sqr. reflexivity.
Qed.

Lemma inner_gain n st a : (forall m, (m < n)%nat -> a m <> C0) ->
  inner n (steer_vector n st a) a = RtoC (rsumn n (fun m => gain n st a m * norm2 (a m))).
Proof.
  intros Ha. unfold inner. rewrite <- csum_RtoC. apply csum_ext. intros m Hm.
  rewrite (steer_gain n st a m Hm Ha), Conj_mul, Conj_RtoC, RtoC_mul, <- mul_Conj. ring.
Qed.

(* ------------------------------------------------------------------ *)
(** * One source at grid point [xi] *)

(** With diagonal removal the map depends on the other entries only. *)
Lemma bf_map_off n k r0g rg st nf csm csm' p :
  (forall i j, (i < n)%nat -> (j < n)%nat -> i <> j -> csm i j = csm' i j) ->
  bf_map n k r0g rg st true nf csm p = bf_map n k r0g rg st true nf csm' p.
Proof.
  intros H. unfold bf_map, freq_full. f_equal. f_equal. unfold scalar_prod. f_equal.
  apply rsumn_ext. intros i Hi. do 2 f_equal. f_equal. apply csum_ext. intros j Hj. now rewrite H by lia.
Qed.

Section Source.
  Variables (n g : nat) (k : R) (r0g : nat -> R) (rg : nat -> nat -> R) (st : steer) (nf damp p2 : R) (xi : nat).
  Hypotheses (Hr0 : 0 < r0g xi) (Hr : forall m, (m < n)%nat -> 0 < rg xi m) (Hnf : 0 < nf) (Hp : 0 < p2).

  Let a := transfer (r0g xi) k (rg xi).
  Let w := steer_vector n st a.
  Let gg (m : nat) : R := sqrt nf * gain n st a m.

  Lemma a_neq0 m : (m < n)%nat -> a m <> C0.
  Proof. intros Hm. apply transfer_neq0; auto. Qed.

  Lemma wmax_gain m : (m < n)%nat -> wmax n k r0g rg st nf xi m = (RtoC (gg m) * Conj (a m))%C.
  Proof.
    intros Hm. unfold wmax. fold a. rewrite (steer_gain n st a m Hm a_neq0), !Conj_mul, !Conj_RtoC. unfold gg.
    rewrite RtoC_mul. ring.
  Qed.

  Lemma gg_pos m : (m < n)%nat -> 0 < gg m.
  Proof. intros Hm. apply Rmult_lt_0_compat; [now apply sqrt_lt_R0|]. apply gain_pos; [assumption|apply a_neq0]. Qed.

  (** The map of the source at its point, diagonal removed. *)
  Lemma value_rdiag csm : (0 < n)%nat ->
    (forall i j, (i < n)%nat -> (j < n)%nat -> i <> j -> csm i j = (RtoC p2 * a i * Conj (a j))%C) ->
    bf_map n k r0g rg st true nf csm xi
    = p2 * (rsumn n (fun m => gg m * norm2 (a m)) * rsumn n (fun m => gg m * norm2 (a m))
            - rsumn n (fun m => (gg m * norm2 (a m)) * (gg m * norm2 (a m)))).
  Proof.
    intros Hn Hc. rewrite (bf_map_off n k r0g rg st nf csm (monopole_csm p2 a)) by exact Hc.
    unfold bf_map. unfold a at 1. rewrite bf_monopole_rdiag by assumption. fold a.
    rewrite (inner_gain n st a a_neq0), norm2_RtoC.
    rewrite (rsumn_ext n (fun m => norm2 (steer_vector n st a m) * norm2 (a m))
      (fun m => gain n st a m * norm2 (a m) * (gain n st a m * norm2 (a m)))).
    2:{ intros m Hm. rewrite (norm2_gain n st a m Hm a_neq0). ring. }
    rewrite (rsumn_ext n (fun m => gg m * norm2 (a m)) (fun m => sqrt nf * (gain n st a m * norm2 (a m))))
      by (intros; unfold gg; ring).
    rewrite (rsumn_ext n (fun m => gg m * norm2 (a m) * (gg m * norm2 (a m)))
      (fun m => nf * (gain n st a m * norm2 (a m) * (gain n st a m * norm2 (a m))))).
    2:{ intros m Hm. unfold gg. rewrite <- (sqrt_sqrt nf) at 3 by lra. ring. }
    rewrite !rsumn_scal. rewrite <- (sqrt_sqrt nf) at 1 by lra. ring_simplify.
    rewrite <- (Rsqr_pow2 (sqrt nf)), Rsqr_sqrt by lra. ring.
  Qed.

  Lemma value_full : (0 < n)%nat ->
    bf_map n k r0g rg st false 1 (monopole_csm p2 a) xi
    = p2 * (rsumn n (fun m => gain n st a m * norm2 (a m)) * rsumn n (fun m => gain n st a m * norm2 (a m))).
  Proof.
    intros Hn. unfold bf_map. unfold a at 1. rewrite bf_monopole by assumption. fold a.
    now rewrite (inner_gain n st a a_neq0), norm2_RtoC.
  Qed.

  Local Transparent hh_of.
  Lemma hh_of_iter csm x hmax : hh_of n k r0g rg st nf csm x hmax
    = Nat.iter 20 (hh_step n (d1 n csm (wmax n k r0g rg st nf x) hmax) (wmax n k r0g rg st nf x)) (wmax n k r0g rg st nf x).
  Proof. reflexivity. Qed.
  Local Opaque hh_of.

  (** The factors of the component of the source. *)
  Definition share (hmax : R) (m : nat) : R := sqrt (p2 / hmax) * (gg m * norm2 (a m)).
  Definition factors (hmax : R) : nat -> R :=
    Nat.iter 20 (ustep n (share hmax)) (fun j => gg j / sqrt (p2 / hmax)).

  Lemma component csm hmax m : 0 < hmax ->
    (forall i j, (i < n)%nat -> (j < n)%nat -> i <> j -> csm i j = (RtoC p2 * a i * Conj (a j))%C) ->
    (m < n)%nat ->
    hh_of n k r0g rg st nf csm xi hmax m = (RtoC (sqrt (p2 / hmax) * factors hmax m) * Conj (a m))%C.
  Proof.
    intros Hh Hc Hm. rewrite hh_of_iter.
    exact (hh_start_one n a gg p2 hmax csm (wmax n k r0g rg st nf xi) Hp Hh wmax_gain Hc 20 m Hm).
  Qed.

  (** What one pass subtracts. *)
  Lemma subtracted csm hmax i j : 0 < hmax ->
    (forall i j, (i < n)%nat -> (j < n)%nat -> i <> j -> csm i j = (RtoC p2 * a i * Conj (a j))%C) ->
    (i < n)%nat -> (j < n)%nat ->
    let hh := hh_of n k r0g rg st nf csm xi hmax in
    (RtoC hmax * (hh j * Conj (hh i)))%C = (RtoC (factors hmax i * factors hmax j) * (RtoC p2 * a i * Conj (a j)))%C.
  Proof.
    intros Hh Hc Hi Hj. cbv zeta. rewrite (component csm hmax i Hh Hc Hi), (component csm hmax j Hh Hc Hj).
    rewrite !Conj_mul, !Conj_RtoC, Conj_invol.
    replace (RtoC hmax * (RtoC (sqrt (p2 / hmax) * factors hmax j) * Conj (a j) * (RtoC (sqrt (p2 / hmax) * factors hmax i) * a i)))%C
      with (RtoC (hmax * (sqrt (p2 / hmax) * sqrt (p2 / hmax)) * (factors hmax i * factors hmax j)) * (a i * Conj (a j)))%C
      by (rewrite !RtoC_mul; ring).
    rewrite sqrt_sqrt.
    2:{ left. unfold Rdiv. apply Rmult_lt_0_compat; [assumption|now apply Rinv_0_lt_compat]. }
    replace (hmax * (p2 / hmax)) with p2 by (field; lra). rewrite !RtoC_mul. ring.
  Qed.

  (** After the twenty passes of the inner iteration the component is that of
      the source, up to a factor [rate rho ^ 20], if no microphone has more
      than the fraction [rho] of the weights. *)
  Theorem factors_near csm rho : (0 < n)%nat ->
    (forall i j, (i < n)%nat -> (j < n)%nat -> i <> j -> csm i j = (RtoC p2 * a i * Conj (a j))%C) ->
    let hmax := bf_map n k r0g rg st true nf csm xi in
    0 < hmax -> 0 <= rho <= 1 / 5 ->
    (forall m, (m < n)%nat -> Cabs (w m) * Cabs (a m) <= rho * rsumn n (fun j => Cabs (w j) * Cabs (a j))) ->
    (forall m, (m < n)%nat -> nf * norm2 (w m) * hmax <= 2 * (p2 * norm2 (a m))) ->
    forall i j, (i < n)%nat -> (j < n)%nat -> Rabs (factors hmax i * factors hmax j - 1) <= rate rho ^ 20.
  Proof.
    intros Hn Hc hmax Hh Hrho Hsh H0 i j Hi Hj.
    pose proof (value_rdiag csm Hn Hc) as Hv. fold hmax in Hv.
    set (kap := sqrt (p2 / hmax)).
    assert (Hk2 : kap * kap = p2 / hmax).
    { apply sqrt_sqrt. left. unfold Rdiv. apply Rmult_lt_0_compat; [assumption|now apply Rinv_0_lt_compat]. }
    assert (Hk : 0 < kap).
    { apply sqrt_lt_R0. unfold Rdiv. apply Rmult_lt_0_compat; [assumption|now apply Rinv_0_lt_compat]. }
    assert (HN : forall m, (m < n)%nat -> 0 < norm2 (a m)) by (intros m Hm; apply norm2_pos; now apply a_neq0).
    assert (HsW : rsumn n (share hmax) = kap * rsumn n (fun m => gg m * norm2 (a m))).
    { unfold share. fold kap. apply rsumn_scal. }
    assert (Hss : rsumn n (fun m => share hmax m * share hmax m)
      = p2 / hmax * rsumn n (fun m => gg m * norm2 (a m) * (gg m * norm2 (a m)))).
    { rewrite <- rsumn_scal. apply rsumn_ext. intros m _. rewrite <- Hk2. unfold share. fold kap. ring. }
    assert (A1 : forall m, (m < n)%nat -> 0 <= share hmax m).
    { intros m Hm. unfold share. fold kap. pose proof (gg_pos m Hm). pose proof (HN m Hm).
      apply Rmult_le_pos; [lra|]. apply Rmult_le_pos; lra. }
    assert (A2 : rsumn n (share hmax) * rsumn n (share hmax) = 1 + rsumn n (fun m => share hmax m * share hmax m)).
    { rewrite HsW, Hss. set (G := rsumn n (fun m => gg m * norm2 (a m))) in *.
      set (Q := rsumn n (fun m => gg m * norm2 (a m) * (gg m * norm2 (a m)))) in *.
      replace (kap * G * (kap * G)) with (kap * kap * (G * G)) by ring. rewrite Hk2.
      replace (p2 / hmax * (G * G)) with (p2 * (G * G - Q) / hmax + p2 / hmax * Q) by (field; lra).
      rewrite <- Hv. field. lra. }
    assert (A3 : forall m, (m < n)%nat -> share hmax m <= rho * rsumn n (share hmax)).
    { intros m Hm. rewrite HsW. unfold share. fold kap. pose proof (Hsh m Hm) as H.
      unfold w in H. rewrite (Cabs_gain n st a m Hm a_neq0) in H.
      rewrite (rsumn_ext n _ (fun j => gain n st a j * norm2 (a j))) in H
        by (intros j' Hj'; apply Cabs_gain; [assumption|apply a_neq0]).
      unfold gg at 2. rewrite (rsumn_ext n (fun m0 => sqrt nf * gain n st a m0 * norm2 (a m0))
        (fun m0 => sqrt nf * (gain n st a m0 * norm2 (a m0)))) by (intros; ring).
      rewrite rsumn_scal. unfold gg.
      set (G := rsumn n (fun j => gain n st a j * norm2 (a j))) in *.
      replace (kap * (sqrt nf * gain n st a m * norm2 (a m))) with (kap * sqrt nf * (gain n st a m * norm2 (a m))) by ring.
      replace (rho * (kap * (sqrt nf * G))) with (kap * sqrt nf * (rho * G)) by ring.
      apply Rmult_le_compat_l; [|exact H]. apply Rmult_le_pos; [lra|apply sqrt_pos]. }
    assert (A4 : forall m, (m < n)%nat -> 0 <= gg m / kap /\ Rabs (gg m / kap * (gg m / kap) - 1) <= 1).
    { intros m Hm. pose proof (gg_pos m Hm) as Hg. split.
      - apply Rmult_le_pos; [lra|]. left. now apply Rinv_0_lt_compat.
      - assert (E : gg m / kap * (gg m / kap) = gg m * gg m * hmax / p2).
        { replace (gg m / kap * (gg m / kap)) with (gg m * gg m / (kap * kap)) by (field; lra).
          rewrite Hk2. field. lra. }
        assert (E2 : gg m * gg m * norm2 (a m) = nf * norm2 (w m)).
        { unfold w. rewrite (norm2_gain n st a m Hm a_neq0). unfold gg. rewrite <- (sqrt_sqrt nf) at 3 by lra. ring. }
        assert (E3 : gg m * gg m * hmax <= 2 * p2).
        { apply Rmult_le_reg_r with (norm2 (a m)); [now apply HN|].
          replace (gg m * gg m * hmax * norm2 (a m)) with (gg m * gg m * norm2 (a m) * hmax) by ring.
          rewrite E2. pose proof (H0 m Hm). lra. }
        rewrite E. assert (B : 0 <= gg m * gg m * hmax / p2 <= 2).
        { split.
          - apply Rmult_le_pos; [|left; now apply Rinv_0_lt_compat]. apply Rmult_le_pos; [|lra]. nra.
          - apply Rmult_le_reg_r with p2; [assumption|]. unfold Rdiv. rewrite Rmult_assoc, Rinv_l, Rmult_1_r by lra. lra. }
        apply Rabs_le. lra. }
    pose proof (ustep_iter_contracts n (share hmax) rho A1 A2 Hrho A3 (fun m => gg m / kap) A4 20) as HC.
    destruct (HC i Hi) as [B1 B2]. destruct (HC j Hj) as [B3 B4].
    unfold factors. fold kap. apply prod_near; try assumption.
    destruct (rate_le rho Hrho) as [C1' C2']. split; [now apply pow_le|]. rewrite <- (pow1 20). apply pow_incr. lra.
  Qed.

  (** The first pass of the outer loop. *)
  Theorem first_pass csm rho stopn : (0 < n)%nat -> (0 <= stopn)%Z ->
    (forall i j, (i < n)%nat -> (j < n)%nat -> i <> j -> csm i j = (RtoC p2 * a i * Conj (a j))%C) ->
    let hmax := bf_map n k r0g rg st true nf csm xi in
    argmax g (bf_map n k r0g rg st true nf csm) = xi ->
    0 < hmax -> 0 <= rho <= 1 / 5 ->
    (forall m, (m < n)%nat -> Cabs (w m) * Cabs (a m) <= rho * rsumn n (fun j => Cabs (w j) * Cabs (a j))) ->
    (forall m, (m < n)%nat -> nf * norm2 (w m) * hmax <= 2 * (p2 * norm2 (a m))) ->
    let s := cleansc n g k r0g rg st true nf damp stopn 1 csm in
    (forall p, sc_result s p = if (p =? xi)%nat then damp * hmax else 0)
    /\ forall i j, (i < n)%nat -> (j < n)%nat -> i <> j ->
       exists e, Rabs e <= rate rho ^ 20 /\ sc_csm s i j = (RtoC (1 - damp * (1 + e)) * csm i j)%C.
  Proof.
    intros Hn Hst Hc hmax Hx Hh Hrho Hsh H0 s.
    pose proof (factors_near csm rho Hn Hc Hh Hrho Hsh H0) as HF. fold hmax in HF.
    assert (Es : s = fst (sc_body n g k r0g rg st true nf damp stopn 0
      {| sc_h := bf_map n k r0g rg st true nf csm; sc_csm := csm; sc_result := fun _ => 0; sc_powers := [] |})).
    { unfold s, cleansc. cbn [sc_loop]. destruct (sc_body _ _ _ _ _ _ _ _ _ _ _ _) as [s' [|]]; reflexivity. }
    rewrite Es. unfold sc_body. cbn [sc_h sc_csm sc_result sc_powers]. rewrite Hx. fold hmax.
    replace (stopn <? Z.of_nat 0)%Z with false by (symmetry; apply Z.ltb_ge; lia). cbn [andb fst sc_result sc_csm].
    split.
    - intros p. unfold upd. destruct (p =? xi)%nat; ring.
    - intros i j Hi Hj Hij. exists (factors hmax i * factors hmax j - 1). split; [now apply HF|].
      pose proof (subtracted csm hmax i j Hh Hc Hi Hj) as Hs. cbv zeta in Hs. rewrite Hs.
      rewrite (Hc i j Hi Hj Hij). clear. generalize (factors hmax i) (factors hmax j). intros x y.
      replace (1 + (x * y - 1)) with (x * y) by ring.
      rewrite RtoC_sub, (RtoC_mul damp). change (RtoC 1) with C1. ring.
  Qed.
End Source.

(* ------------------------------------------------------------------ *)
(** * All passes, when every pass removes the same fraction *)

(** The matrix is [c] times [csm0]; with diagonal removal only off the diagonal. *)
Definition multiple (n : nat) (rd : bool) (c : R) (csm0 csm : nat -> nat -> C) : Prop :=
  forall i j, (i < n)%nat -> (j < n)%nat -> (rd = true -> i <> j) -> csm i j = (RtoC c * csm0 i j)%C.

Lemma bf_map_multiple n k r0g rg st rd nf c csm0 csm p : multiple n rd c csm0 csm ->
  bf_map n k r0g rg st rd nf csm p = c * bf_map n k r0g rg st rd nf csm0 p.
Proof.
  intros H.
  transitivity (bf_map n k r0g rg st rd nf (fun i j => csm0 i j - RtoC (1 - c) * csm0 i j)%C p).
  - destruct rd.
    + apply bf_map_off. intros i j Hi Hj Hij. rewrite H by auto. rewrite RtoC_sub. change (RtoC 1) with C1. ring.
    + apply bf_map_ext. intros i j Hi Hj. rewrite H by (auto; discriminate). rewrite RtoC_sub. change (RtoC 1) with C1. ring.
  - rewrite bf_map_sub. ring.
Qed.

Fixpoint powsum (c : R) (j : nat) : R := match j with O => 0 | S j' => powsum c j' + c ^ j' end.

Lemma powsum_closed y d j : y <> 0 -> d * powsum (1 - d * y) j = (1 - (1 - d * y) ^ j) / y.
Proof.
  intros Hy. induction j as [|j IH]; cbn [powsum pow]; [field; assumption|].
  rewrite Rmult_plus_distr_l, IH. field. assumption.
Qed.

Lemma pow_antitone c i j : 0 <= c <= 1 -> (i <= j)%nat -> c ^ j <= c ^ i.
Proof.
  intros Hc H. replace j with (i + (j - i))%nat by lia. rewrite pow_add.
  assert (0 <= c ^ i) by (apply pow_le; lra). assert (c ^ (j - i) <= 1) by (rewrite <- (pow1 (j - i)); apply pow_incr; lra).
  assert (0 <= c ^ (j - i)) by (apply pow_le; lra). nra.
Qed.

Section Passes.
  Variables (n g : nat) (k : R) (r0g : nat -> R) (rg : nat -> nat -> R) (st : steer) (rd : bool) (nf damp : R) (xi : nat)
    (csm0 : nat -> nat -> C) (y : R) (stopn : Z).
  Let h0 := bf_map n k r0g rg st rd nf csm0.
  Let c1 := 1 - damp * y.
  Hypotheses (Hst : (0 <= stopn)%Z) (Hd : 0 < damp) (Hy : 0 < y) (Hdy : damp * y < 1) (Hx : argmax g h0 = xi)
    (Hh : 0 < h0 xi)
    (Hsub : forall c csm, 0 < c -> multiple n rd c csm0 csm ->
       let hh := hh_of n k r0g rg st nf csm xi (c * h0 xi) in
       multiple n rd (c * y) csm0 (fun i j => RtoC (c * h0 xi) * (hh j * Conj (hh i)))%C).

  Definition after (j : nat) (s : sc_state) : Prop :=
    multiple n rd (c1 ^ j) csm0 (sc_csm s)
    /\ (forall p, sc_h s p = c1 ^ j * h0 p)
    /\ sc_powers s = map (fun i => c1 ^ i * h0 xi) (seq 0 j)
    /\ (forall p, sc_result s p = if (p =? xi)%nat then damp * (powsum c1 j * h0 xi) else 0).

  Lemma c1_range : 0 < c1 < 1.
  Proof. unfold c1. assert (0 < damp * y) by now apply Rmult_lt_0_compat. lra. Qed.

  Lemma body_after j s : after j s ->
    exists s', sc_body n g k r0g rg st rd nf damp stopn j s = (s', false) /\ after (S j) s'.
  Proof.
    intros (A1 & A2 & A3 & A4). pose proof c1_range as Hc.
    assert (Hcj : 0 < c1 ^ j) by (apply pow_lt; lra).
    assert (Hxi : argmax g (sc_h s) = xi).
    { rewrite <- Hx. apply (argmax_scaled g (c1 ^ j)); [assumption|]. intros p _. apply A2. }
    unfold sc_body. rewrite Hxi, (A2 xi), A3. cbv zeta.
    match goal with |- context [if ?b then (_, true) else _] => assert (Hb : b = false) end.
    { apply andb_false_iff. destruct (stopn <? Z.of_nat j)%Z eqn:El; [right|now left].
      apply Z.ltb_lt in El.
      replace (map (fun i => c1 ^ i * h0 xi) (seq 0 j) ++ [c1 ^ j * h0 xi])
        with (map (fun i => c1 ^ i * h0 xi) (seq 0 (S j))) by (rewrite seq_S, map_app; reflexivity).
      rewrite (nth_indep _ 0 (c1 ^ 0 * h0 xi)) by (rewrite map_length, seq_length; lia).
      rewrite (map_nth (fun i => c1 ^ i * h0 xi)), seq_nth by lia.
      destruct (Rlt_dec _ _) as [Hl|]; [|reflexivity]. exfalso.
      assert (c1 ^ j <= c1 ^ (0 + Z.to_nat (Z.of_nat j - stopn))) by (apply pow_antitone; [lra|lia]).
      nra. }
    rewrite Hb. eexists. split; [reflexivity|].
    pose proof (Hsub (c1 ^ j) (sc_csm s) Hcj A1) as Hm. cbv zeta in Hm.
    set (hh := hh_of n k r0g rg st nf (sc_csm s) xi (c1 ^ j * h0 xi)) in *. clearbody hh.
    assert (Ec : forall x, c1 ^ j * x - damp * (c1 ^ j * y * x) = c1 ^ S j * x) by (intros; unfold c1; cbn [pow]; ring).
    unfold after. cbn [sc_csm sc_h sc_powers sc_result]. split; [|split; [|split]].
    - intros i l Hi Hl Hd'. rewrite (A1 i l Hi Hl Hd'), (Hm i l Hi Hl Hd').
      transitivity (RtoC (c1 ^ j * 1 - damp * (c1 ^ j * y * 1)) * csm0 i l)%C.
      + rewrite RtoC_sub, !RtoC_mul. change (RtoC 1) with C1. ring.
      + rewrite Ec, Rmult_1_r. reflexivity.
    - intros p. rewrite (A2 p). rewrite <- Ec. f_equal. f_equal.
      rewrite eig_kernels. unfold h0. rewrite <- (bf_map_multiple _ _ _ _ _ _ _ _ _ _ p Hm).
      apply (bf_map_ext n k r0g rg st rd nf). intros i l _ _. unfold eig_sum. cbn [csum]. rewrite Conj_invol. fold h0. ring.
    - rewrite seq_S, map_app. reflexivity.
    - intros p. unfold upd. rewrite !A4, Nat.eqb_refl. destruct (p =? xi)%nat; [|reflexivity]. cbn [powsum]. ring.
  Qed.

  Lemma loop_after todo : forall j s, after j s -> after (j + todo) (sc_loop n g k r0g rg st rd nf damp stopn j todo s).
  Proof.
    induction todo as [|todo IH]; intros j s H; [now rewrite Nat.add_0_r|]. cbn [sc_loop].
    destruct (body_after j s H) as (s' & -> & H'). replace (j + S todo)%nat with (S j + todo)%nat by lia. now apply IH.
  Qed.

  Theorem passes J csm : multiple n rd 1 csm0 csm ->
    let s := cleansc n g k r0g rg st rd nf damp stopn J csm in
    (forall p, sc_result s p = if (p =? xi)%nat then h0 xi * ((1 - (1 - damp * y) ^ J) / y) else 0)
    /\ (forall p, sc_h s p = (1 - damp * y) ^ J * h0 p).
  Proof.
    intros Hm s.
    assert (H : after (0 + J) s).
    { apply loop_after. unfold after. cbn [sc_csm sc_h sc_powers sc_result pow seq map powsum].
      split; [exact Hm|]. split; [intros p; now apply bf_map_multiple|]. split; [reflexivity|].
      intros p. destruct (p =? xi)%nat; ring. }
    cbn [Nat.add] in H. destruct H as (_ & H2 & _ & H4). split; [|exact H2].
    intros p. rewrite H4. destruct (p =? xi)%nat; [|reflexivity].
    rewrite <- Rmult_assoc. unfold c1. rewrite powsum_closed by lra. ring.
  Qed.
End Passes.

(* ------------------------------------------------------------------ *)
(** * All microphones at the same distance from the source *)

Definition xstep (N s0 x : R) : R := (N * s0 - s0 + s0 * (x * x)) / sqrt (1 + N * (s0 * x * (s0 * x))).

Lemma ustep_const n s s0 u x m : (forall j, (j < n)%nat -> s j = s0) -> (forall j, (j < n)%nat -> u j = x) ->
  (m < n)%nat -> ustep n s u m = xstep (INR n) s0 x.
Proof.
  intros Hs Hu Hm. unfold ustep, xstep. rewrite (Hs m Hm), (Hu m Hm).
  rewrite (rsumn_ext n s (fun _ => s0)) by exact Hs. rewrite rsumn_const.
  rewrite (rsumn_ext n (fun j => s j * u j * (s j * u j)) (fun _ => s0 * x * (s0 * x))).
  2:{ intros j Hj. now rewrite (Hs j Hj), (Hu j Hj). }
  now rewrite rsumn_const.
Qed.

Lemma ustep_iter_const n s s0 u x q : (forall j, (j < n)%nat -> s j = s0) -> (forall j, (j < n)%nat -> u j = x) ->
  forall m, (m < n)%nat -> Nat.iter q (ustep n s) u m = Nat.iter q (xstep (INR n) s0) x.
Proof.
  intros Hs Hu. induction q as [|q IH]; intros m Hm; [now apply Hu|]. rewrite !iter_S. now apply ustep_const.
Qed.

(** Diagonal removed: the distance to one shrinks by the number of microphones. *)
Lemma xstep_rdiag N s0 x : 1 < N -> 0 < s0 -> N * (N - 1) * (s0 * s0) = 1 -> 0 <= x ->
  0 <= xstep N s0 x /\ xstep N s0 x * xstep N s0 x - 1 = (x * x - 1) / N.
Proof.
  intros HN Hs E Hx. unfold xstep. set (D := 1 + N * (s0 * x * (s0 * x))).
  assert (HD : 0 < D).
  { unfold D. assert (0 <= s0 * x * (s0 * x)) by (fold (Rsqr (s0 * x)); apply Rle_0_sqr). nra. }
  assert (HS : 0 < sqrt D) by now apply sqrt_lt_R0. assert (HQ : sqrt D * sqrt D = D) by (apply sqrt_sqrt; lra).
  split.
  - apply Rmult_le_pos; [|left; now apply Rinv_0_lt_compat]. assert (0 <= x * x) by nra.
    assert (0 <= s0 * (N - 1 + x * x)) by (apply Rmult_le_pos; lra). lra.
  - replace ((N * s0 - s0 + s0 * (x * x)) / sqrt D * ((N * s0 - s0 + s0 * (x * x)) / sqrt D))
      with (s0 * s0 * ((N - 1 + x * x) * (N - 1 + x * x)) / (sqrt D * sqrt D)) by (field; lra).
    rewrite HQ.
    assert (ED : D = N * (s0 * s0) * (N - 1 + x * x)) 
      by (transitivity (N * (N - 1) * (s0 * s0) + N * (s0 * x * (s0 * x))); [rewrite E; reflexivity|ring]).
    rewrite ED. assert (N - 1 + x * x <> 0) by nra.
    replace (s0 * s0 * ((N - 1 + x * x) * (N - 1 + x * x)) / (N * (s0 * s0) * (N - 1 + x * x))) with ((N - 1 + x * x) / N)
      by (field; repeat split; lra).
    field. lra.
Qed.

Lemma xiter_rdiag N s0 x q : 1 < N -> 0 < s0 -> N * (N - 1) * (s0 * s0) = 1 -> 0 <= x ->
  0 <= Nat.iter q (xstep N s0) x
  /\ Nat.iter q (xstep N s0) x * Nat.iter q (xstep N s0) x - 1 = (x * x - 1) / N ^ q.
Proof.
  intros HN Hs E Hx. induction q as [|q [IH1 IH2]]; [change (Nat.iter 0 (xstep N s0) x) with x; rewrite pow_O; split; [assumption|field]|].
  rewrite iter_S. destruct (xstep_rdiag N s0 _ HN Hs E IH1) as [H1 H2]. split; [exact H1|].
  rewrite H2, IH2. cbn [pow]. field. split; try apply pow_nonzero; lra.
Qed.

(** Full matrix: never more than N/(N+1) of the power. *)
Lemma xstep_full N x : 1 <= N -> 0 <= x -> x * x <= 1 ->
  0 < xstep N (/ N) x \/ N = 1.
Proof.
  intros HN Hx H1. destruct (Req_dec N 1) as [|Hne]; [now right|left]. unfold xstep.
  apply Rmult_lt_0_compat.
  - replace (N * / N) with 1 by (field; lra). assert (/ N < 1) by (rewrite <- Rinv_1; apply Rinv_lt_contravar; lra).
    assert (0 < / N) by (apply Rinv_0_lt_compat; lra). assert (0 <= x * x) by nra. nra.
  - apply Rinv_0_lt_compat, sqrt_lt_R0.
    assert (0 <= / N * x * (/ N * x)) by (fold (Rsqr (/ N * x)); apply Rle_0_sqr). nra.
Qed.

Lemma xstep_full_le N x : 1 < N -> 0 <= x -> x * x <= 1 ->
  0 < xstep N (/ N) x /\ xstep N (/ N) x * xstep N (/ N) x <= N / (N + 1).
Proof.
  intros HN Hx H1. destruct (xstep_full N x) as [H0|H0]; [lra|assumption|assumption| |lra]. split; [exact H0|]. clear H0.
  unfold xstep. set (v := x * x) in *. assert (Hv : 0 <= v) by (unfold v; nra).
  replace (1 + N * (/ N * x * (/ N * x))) with ((N + v) / N) by (unfold v; field; lra).
  set (D := (N + v) / N). assert (HD : 0 < D) by (unfold D; apply Rmult_lt_0_compat; [lra|apply Rinv_0_lt_compat; lra]).
  assert (HS : 0 < sqrt D) by now apply sqrt_lt_R0. assert (HQ : sqrt D * sqrt D = D) by (apply sqrt_sqrt; lra).
  replace ((N * / N - / N + / N * v) / sqrt D * ((N * / N - / N + / N * v) / sqrt D))
    with ((N - 1 + v) * (N - 1 + v) / (N * N) / (sqrt D * sqrt D)) by (field; lra).
  rewrite HQ. unfold D.
  replace ((N - 1 + v) * (N - 1 + v) / (N * N) / ((N + v) / N)) with ((N - 1 + v) * (N - 1 + v) / (N * (N + v))) by (field; lra).
  apply Rmult_le_reg_r with (N * (N + v) * (N + 1)); [repeat apply Rmult_lt_0_compat; lra|].
  replace ((N - 1 + v) * (N - 1 + v) / (N * (N + v)) * (N * (N + v) * (N + 1))) with ((N - 1 + v) * (N - 1 + v) * (N + 1)) by (field; lra).
  replace (N / (N + 1) * (N * (N + v) * (N + 1))) with (N * N * (N + v)) by (field; lra).
  assert (Hf : (N - 1 + v) * (N - 1 + v) * (N + 1) <= N * (N - 1 + v) * (N + 1)).
  { assert (0 <= (N - 1 + v) * (1 - v) * (N + 1)); [|nra]. apply Rmult_le_pos; [apply Rmult_le_pos|]; lra. }
  apply Rle_trans with (1 := Hf). nra.
Qed.

Lemma xiter_full N x q : 1 < N -> 0 <= x -> x * x <= 1 ->
  0 < Nat.iter (S q) (xstep N (/ N)) x
  /\ Nat.iter (S q) (xstep N (/ N)) x * Nat.iter (S q) (xstep N (/ N)) x <= N / (N + 1).
Proof.
  intros HN Hx H1. induction q as [|q [IH1 IH2]]; rewrite iter_S; apply xstep_full_le; try assumption; [lra|].
  apply Rle_trans with (1 := IH2). apply Rmult_le_reg_r with (N + 1); [lra|].
  unfold Rdiv. rewrite Rmult_assoc, Rinv_l, Rmult_1_r by lra. lra.
Qed.

Section Ring.
  Variables (n g : nat) (k : R) (r0g : nat -> R) (rg : nat -> nat -> R) (st : steer) (nf damp p2 : R) (xi : nat) (d : R)
    (stopn : Z).
  Hypotheses (Hn : (1 < n)%nat) (Hr0 : 0 < r0g xi) (Hd : 0 < d) (Heq : forall m, (m < n)%nat -> rg xi m = d)
    (Hnf : 0 < nf) (Hp : 0 < p2) (Hst : (0 <= stopn)%Z) (Hdamp : 0 < damp <= 1).

  Let a := transfer (r0g xi) k (rg xi).

  Lemma ring_r m : (m < n)%nat -> 0 < rg xi m.
  Proof. intros Hm. now rewrite Heq. Qed.

  Lemma ring_a m : (m < n)%nat -> a m = a 0%nat.
  Proof. intros Hm. unfold a, transfer. now rewrite !Heq by lia. Qed.

  Lemma ring_gain m : (m < n)%nat -> gain n st a m = gain n st a 0.
  Proof. intros Hm. unfold gain. destruct st; try reflexivity; now rewrite (ring_a m Hm). Qed.

  Let w := steer_vector n st a.
  Let N0 := norm2 (a 0%nat).
  Let g0 := sqrt nf * gain n st a 0.

  Lemma N0_pos : 0 < N0.
  Proof. apply norm2_pos. apply (transfer_neq0 (r0g xi) k (rg xi)); [assumption|apply ring_r; lia]. Qed.

  Lemma g0_pos : 0 < g0.
  Proof.
    apply Rmult_lt_0_compat; [now apply sqrt_lt_R0|]. apply gain_pos; [lia|].
    intros m Hm. apply (transfer_neq0 (r0g xi) k (rg xi)); [assumption|now apply ring_r].
  Qed.

  (** The factors are the same for all microphones. *)
  Lemma ring_factors hmax m : (m < n)%nat ->
    factors n k r0g rg st nf p2 xi hmax m
    = Nat.iter 20 (xstep (INR n) (sqrt (p2 / hmax) * (g0 * N0))) (g0 / sqrt (p2 / hmax)).
  Proof.
    intros Hm. unfold factors. apply ustep_iter_const; [| |assumption].
    - intros j Hj. unfold share. fold a. rewrite (ring_a j Hj), (ring_gain j Hj). reflexivity.
    - intros j Hj. fold a. rewrite (ring_gain j Hj). reflexivity.
  Qed.

  Lemma factors_scale c hmax : 0 < c -> 0 < hmax ->
    factors n k r0g rg st nf (c * p2) xi (c * hmax) = factors n k r0g rg st nf p2 xi hmax.
  Proof.
    intros Hc Hh. unfold factors, share. replace (c * p2 / (c * hmax)) with (p2 / hmax) by (field; lra). reflexivity.
  Qed.

  Lemma start_below hmax : 0 < hmax ->
    nf * norm2 (w 0%nat) * hmax = p2 * N0 * (g0 / sqrt (p2 / hmax) * (g0 / sqrt (p2 / hmax))).
  Proof.
    intros Hh.
    assert (Hq : 0 < p2 / hmax) by (unfold Rdiv; apply Rmult_lt_0_compat; [assumption|now apply Rinv_0_lt_compat]).
    unfold w. rewrite norm2_gain; [|lia|].
    2:{ intros m Hm. apply (transfer_neq0 (r0g xi) k (rg xi)); [assumption|now apply ring_r]. }
    fold N0. replace (g0 / sqrt (p2 / hmax) * (g0 / sqrt (p2 / hmax))) with (g0 * g0 / (sqrt (p2 / hmax) * sqrt (p2 / hmax))).
    2:{ field. apply Rgt_not_eq. now apply sqrt_lt_R0. }
    rewrite sqrt_sqrt by lra. unfold g0.
    replace (sqrt nf * gain n st a 0 * (sqrt nf * gain n st a 0)) with (sqrt nf * sqrt nf * (gain n st a 0 * gain n st a 0)) by ring.
    rewrite sqrt_sqrt by lra. field. lra.
  Qed.

  Theorem ring_rdiag csm :
    (forall i j, (i < n)%nat -> (j < n)%nat -> i <> j -> csm i j = (RtoC p2 * a i * Conj (a j))%C) ->
    let top := bf_map n k r0g rg st true nf csm xi in
    argmax g (bf_map n k r0g rg st true nf csm) = xi ->
    (forall m, (m < n)%nat -> nf * norm2 (w m) * top < p2 * norm2 (a m)) ->
    exists y, 1 - / INR n ^ 20 <= y < 1
    /\ forall J, let s := cleansc n g k r0g rg st true nf damp stopn J csm in
         (forall p, sc_result s p = if (p =? xi)%nat then top * ((1 - (1 - damp * y) ^ J) / y) else 0)
         /\ (forall p, sc_h s p = (1 - damp * y) ^ J * bf_map n k r0g rg st true nf csm p).
  Proof.
    intros Hc top Hx Hw.
    assert (HN1 : 1 < INR n) by (change 1 with (INR 1); apply lt_INR; lia).
    pose proof N0_pos as HN0. pose proof g0_pos as Hg0.
    assert (Ht : top = p2 * (INR n * (INR n - 1) * ((g0 * N0) * (g0 * N0)))).
    { unfold top. rewrite (value_rdiag n k r0g rg st nf p2 xi Hr0 ring_r Hnf csm ltac:(lia) Hc). fold a.
      rewrite (rsumn_ext n (fun m => sqrt nf * gain n st a m * norm2 (a m)) (fun _ => g0 * N0))
        by (intros m Hm; rewrite (ring_a m Hm), (ring_gain m Hm); reflexivity).
      rewrite (rsumn_ext n (fun m => sqrt nf * gain n st a m * norm2 (a m) * (sqrt nf * gain n st a m * norm2 (a m)))
        (fun _ => g0 * N0 * (g0 * N0))) by (intros m Hm; rewrite (ring_a m Hm), (ring_gain m Hm); reflexivity).
      rewrite !rsumn_const. ring. }
    assert (HgN : 0 < g0 * N0) by now apply Rmult_lt_0_compat.
    assert (Htp : 0 < top) by (rewrite Ht; repeat first [assumption | lra | apply Rmult_lt_0_compat]).
    assert (Hq : 0 < p2 / top) by (unfold Rdiv; apply Rmult_lt_0_compat; [assumption|now apply Rinv_0_lt_compat]).
    set (kap := sqrt (p2 / top)). assert (Hk : 0 < kap) by now apply sqrt_lt_R0.
    assert (Hk2 : kap * kap = p2 / top) by (apply sqrt_sqrt; lra).
    set (s0 := kap * (g0 * N0)). set (x0 := g0 / kap).
    assert (Hs0 : 0 < s0) by now apply Rmult_lt_0_compat.
    assert (Hx0 : 0 < x0) by (unfold x0, Rdiv; apply Rmult_lt_0_compat; [assumption|now apply Rinv_0_lt_compat]).
    assert (HE : INR n * (INR n - 1) * (s0 * s0) = 1).
    { unfold s0. replace (kap * (g0 * N0) * (kap * (g0 * N0))) with (kap * kap * (g0 * N0 * (g0 * N0))) by ring. rewrite Hk2, Ht.
      field. repeat split; lra. }
    assert (Hv0 : x0 * x0 < 1).
    { pose proof (Hw 0%nat ltac:(lia)) as H. rewrite (start_below top Htp) in H. fold N0 kap x0 in H.
      assert (0 < p2 * N0) by now apply Rmult_lt_0_compat. nra. }
    destruct (xiter_rdiag (INR n) s0 x0 20 HN1 Hs0 HE ltac:(lra)) as [HX1 HX2].
    set (X := Nat.iter 20 (xstep (INR n) s0) x0) in *.
    assert (HF : forall m, (m < n)%nat -> factors n k r0g rg st nf p2 xi top m = X) by (intros m Hm; now apply ring_factors).
    clearbody X. set (y := X * X) in *.
    assert (HP : 0 < INR n ^ 20) by (apply pow_lt; lra).
    assert (HPi : 0 < / INR n ^ 20) by now apply Rinv_0_lt_compat.
    assert (Hyr : 1 - / INR n ^ 20 <= y < 1).
    { assert (E : y = 1 + (x0 * x0 - 1) * / INR n ^ 20) by (unfold Rdiv in HX2; lra). rewrite E.
      assert (0 < x0 * x0) by now apply Rmult_lt_0_compat. split; nra. }
    assert (Hy0 : 0 < y).
    { assert (/ INR n ^ 20 < 1); [|lra]. rewrite <- Rinv_1. apply Rinv_lt_contravar; [lra|].
      replace 1 with (1 ^ 20) by apply pow1. apply Rle_lt_trans with (1 ^ 20 * 1); [rewrite Rmult_1_r; right; reflexivity|].
      rewrite pow1, Rmult_1_l. apply Rlt_pow_R1; [assumption|lia]. }
    exists y. split; [exact Hyr|]. intros J.
    apply (passes n g k r0g rg st true nf damp xi csm y stopn Hst); try assumption; try lra.
    - nra.
    - intros c csm' Hc0 Hm. cbv zeta. intros i j Hi Hj Hij. fold top.
      assert (Hc' : forall i j, (i < n)%nat -> (j < n)%nat -> i <> j -> csm' i j = (RtoC (c * p2) * a i * Conj (a j))%C).
      { intros i' j' Hi' Hj' Hne. rewrite (Hm i' j' Hi' Hj' ltac:(auto)), (Hc i' j' Hi' Hj' Hne), RtoC_mul. ring. }
      pose proof (subtracted n k r0g rg st nf (c * p2) xi Hr0 ring_r
        ltac:(now apply Rmult_lt_0_compat) csm' (c * top) i j ltac:(now apply Rmult_lt_0_compat) Hc' Hi Hj) as HS.
      cbv zeta in HS. rewrite HS. rewrite factors_scale by assumption. rewrite (HF i Hi), (HF j Hj).
      rewrite (Hc i j Hi Hj (Hij eq_refl)). fold a. unfold y. rewrite !RtoC_mul. ring.
    - intros i j _ _ _. change (RtoC 1) with C1. ring.
  Qed.
End Ring.

(** Without diagonal removal. *)
Section RingFull.
  Variables (n g : nat) (k : R) (r0g : nat -> R) (rg : nat -> nat -> R) (st : steer) (damp p2 : R) (xi : nat) (d : R)
    (stopn : Z).
  Hypotheses (Hn : (1 < n)%nat) (Hr0 : 0 < r0g xi) (Hd : 0 < d) (Heq : forall m, (m < n)%nat -> rg xi m = d)
    (Hp : 0 < p2) (Hst : (0 <= stopn)%Z) (Hdamp : 0 < damp <= 1).

  Let a := transfer (r0g xi) k (rg xi).
  Let w := steer_vector n st a.

  Theorem ring_full csm :
    (forall i j, (i < n)%nat -> (j < n)%nat -> csm i j = (RtoC p2 * a i * Conj (a j))%C) ->
    let top := bf_map n k r0g rg st false 1 csm xi in
    argmax g (bf_map n k r0g rg st false 1 csm) = xi ->
    (forall m, (m < n)%nat -> norm2 (w m) * top <= p2 * norm2 (a m)) ->
    exists y, 0 < y <= INR n / (INR n + 1)
    /\ forall J, let s := cleansc n g k r0g rg st false 1 damp stopn J csm in
         (forall p, sc_result s p = if (p =? xi)%nat then top * ((1 - (1 - damp * y) ^ J) / y) else 0)
         /\ (forall p, sc_h s p = (1 - damp * y) ^ J * bf_map n k r0g rg st false 1 csm p).
  Proof.
    intros Hc top Hx Hw.
    assert (HN1 : 1 < INR n) by (change 1 with (INR 1); apply lt_INR; lia).
    pose proof (N0_pos n k r0g rg st xi d Hn Hr0 Hd Heq) as HN0.
    pose proof (g0_pos n k r0g rg st 1 xi d Hn Hr0 Hd Heq Rlt_0_1) as Hg0.
    pose proof (ring_r n rg xi d Hd Heq) as Hr. pose proof (ring_a n k r0g rg xi d Hn Heq) as Ha.
    pose proof (ring_gain n k r0g rg st xi d Hn Heq) as Hg. fold a in HN0, Hg0, Ha, Hg.
    set (N0 := norm2 (a 0%nat)) in *. set (g0 := sqrt 1 * gain n st a 0) in *.
    assert (Eg : g0 = gain n st a 0) by (unfold g0; rewrite sqrt_1; ring).
    assert (Ht : top = p2 * (INR n * (g0 * N0) * (INR n * (g0 * N0)))).
    { unfold top. rewrite (bf_map_ext n k r0g rg st false 1 csm (monopole_csm p2 a)) by (intros; now apply Hc).
      unfold a at 1. rewrite (value_full n k r0g rg st p2 xi Hr0 Hr ltac:(lia)). fold a.
      rewrite (rsumn_ext n (fun m => gain n st a m * norm2 (a m)) (fun _ => g0 * N0))
        by (intros m Hm; rewrite (Ha m Hm), (Hg m Hm), Eg; reflexivity).
      rewrite !rsumn_const. ring. }
    assert (HgN : 0 < g0 * N0) by now apply Rmult_lt_0_compat.
    assert (Htp : 0 < top) by (rewrite Ht; repeat first [assumption | lra | apply Rmult_lt_0_compat]).
    assert (Hq : 0 < p2 / top) by (unfold Rdiv; apply Rmult_lt_0_compat; [assumption|now apply Rinv_0_lt_compat]).
    set (kap := sqrt (p2 / top)). assert (Hk : 0 < kap) by now apply sqrt_lt_R0.
    assert (Hk2 : kap * kap = p2 / top) by (apply sqrt_sqrt; lra).
    set (x0 := g0 / kap).
    assert (Hx0 : 0 < x0) by (unfold x0, Rdiv; apply Rmult_lt_0_compat; [assumption|now apply Rinv_0_lt_compat]).
    assert (HE : kap * (g0 * N0) = / INR n).
    { assert (Hsq : kap = / (INR n * (g0 * N0))).
      { unfold kap. rewrite Ht. replace (p2 / (p2 * (INR n * (g0 * N0) * (INR n * (g0 * N0)))))
          with (/ (INR n * (g0 * N0)) * / (INR n * (g0 * N0))) by (field; repeat split; lra).
        apply sqrt_square. left. apply Rinv_0_lt_compat. apply Rmult_lt_0_compat; lra. }
      rewrite Hsq. field. repeat split; lra. }
    assert (Hv0 : x0 * x0 <= 1).
    { pose proof (Hw 0%nat ltac:(lia)) as H.
      pose proof (start_below n k r0g rg st 1 p2 xi d Hn Hr0 Hd Heq Rlt_0_1 Hp top Htp) as H1.
      fold a w N0 g0 kap x0 in H1. rewrite Rmult_1_l in H1. rewrite H1 in H. fold N0 in H.
      assert (0 < p2 * N0) by now apply Rmult_lt_0_compat. nra. }
    destruct (xiter_full (INR n) x0 19 HN1 ltac:(lra) Hv0) as [HX1 HX2].
    assert (HF : forall m, (m < n)%nat -> factors n k r0g rg st 1 p2 xi top m = Nat.iter 20 (xstep (INR n) (/ INR n)) x0).
    { intros m Hm. rewrite (ring_factors n k r0g rg st 1 p2 xi d Hn Heq top m Hm). fold a g0 N0 kap x0. now rewrite HE. }
    set (X := Nat.iter 20 (xstep (INR n) (/ INR n)) x0) in *. clearbody X.
    assert (HX0 : 0 < X * X) by now apply Rmult_lt_0_compat.
    assert (Hlt : INR n / (INR n + 1) < 1).
    { apply Rmult_lt_reg_r with (INR n + 1); [lra|]. unfold Rdiv. rewrite Rmult_assoc, Rinv_l; lra. }
    exists (X * X). split; [split; assumption|]. intros J.
    apply (passes n g k r0g rg st false 1 damp xi csm (X * X) stopn Hst); try assumption; try lra.
    - nra.
    - intros c csm' Hc0 Hm. cbv zeta. intros i j Hi Hj _. fold top.
      assert (Hc' : forall i j, (i < n)%nat -> (j < n)%nat -> i <> j -> csm' i j = (RtoC (c * p2) * a i * Conj (a j))%C).
      { intros i' j' Hi' Hj' Hne. rewrite (Hm i' j' Hi' Hj' ltac:(discriminate)), (Hc i' j' Hi' Hj'), RtoC_mul. ring. }
      pose proof (subtracted n k r0g rg st 1 (c * p2) xi Hr0 Hr
        ltac:(now apply Rmult_lt_0_compat) csm' (c * top) i j ltac:(now apply Rmult_lt_0_compat) Hc' Hi Hj) as HS.
      cbv zeta in HS. rewrite HS. rewrite factors_scale by assumption. rewrite (HF i Hi), (HF j Hj).
      rewrite (Hc i j Hi Hj). fold a. rewrite !RtoC_mul. ring.
    - intros i j _ _ _. change (RtoC 1) with C1. ring.
  Qed.
End RingFull.
