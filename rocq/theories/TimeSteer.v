(** Amplitudes of the time-domain steering (tfastfuncs.py:132-207) against the
    steering vectors of the frequency domain (fbeamform.py:165-173), and the
    outputs of BeamformerTime and BeamformerTimeSq (tbeamform.py:126-232) for a
    monopole. *)
From Coq Require Import List Arith Lia ZArith Bool Reals Lra.
From Verif Require Import Stream Cplx Beamform Wav TimeBeam Das DasTraj.
Import ListNotations.
Local Open Scope R_scope.

(** BeamformerTime picks the function by steer_type (tbeamform.py:169-176). *)
Definition steer_time (st : steer) : nat -> (nat -> R) -> R -> nat -> R :=
  match st with
  | Classic => steer_I
  | Inverse => steer_II
  | TrueLevel => steer_III
  | TrueLocation => steer_IV
  end.

Lemma rsum_seq M (f : nat -> R) : rsum (map f (seq 0 M)) = rsumn M f.
Proof.
  induction M as [|M IH]; [reflexivity|]. rewrite seq_S, map_app. cbn [rsumn].
  rewrite <- IH. unfold rsum. rewrite fold_right_app. simpl.
  generalize (map f (seq 0 M)). intros l. induction l as [|y l IHl]; simpl; [ring|]. rewrite IHl. ring.
Qed.

Lemma norm2_div_RtoC a x : x <> 0 -> norm2 (a / RtoC x)%C = norm2 a / (x * x).
Proof.
  intros Hx. assert (E : norm2 (a / RtoC x * RtoC x)%C = norm2 a).
  { f_equal. field. now apply RtoC_neq0. }
  rewrite norm2_mul, norm2_RtoC in E. rewrite <- E. field. exact Hx.
Qed.

Section Amplitudes.
  Variables (M : nat) (r0 : R) (rm : nat -> R).
  Hypotheses (HM : (0 < M)%nat) (H0 : 0 < r0) (Hr : forall m, (m < M)%nat -> 0 < rm m).

  Let S := rsumn M (fun m => 1 / (rm m * rm m)).
  Lemma S_positive : 0 < S. Proof. exact (S_pos M rm HM Hr). Qed.
  Lemma M_positive : 0 < INR M. Proof. now apply lt_0_INR. Qed.

  Lemma steer_time_eq st m : (m < M)%nat -> steer_time st M rm r0 m =
    match st with
    | Classic => 1 / INR M
    | Inverse => rm m / (r0 * INR M)
    | TrueLevel => 1 / (rm m * (r0 * S))
    | TrueLocation => 1 / (rm m * sqrt (S * INR M))
    end.
  Proof.
    intros Hm. pose proof (Hr m Hm). pose proof S_positive as HS. pose proof M_positive as HN.
    unfold steer_time, steer_I, steer_II, steer_III, steer_IV. destruct st; rewrite ?rsum_seq; fold S.
    - reflexivity.
    - field. lra.
    - field. lra.
    - rewrite sqrt_mult by lra. rewrite sqrt_div by lra. rewrite sqrt_1.
      assert (0 < sqrt S) by now apply sqrt_lt_R0. assert (0 < sqrt (INR M)) by now apply sqrt_lt_R0.
      field. lra.
  Qed.

  Theorem steer_time_abs st k m : (m < M)%nat ->
    steer_time st M rm r0 m = Cabs (steer_vector M st (transfer r0 k rm) m).
  Proof.
    intros Hm. pose proof (Hr m Hm) as Hrm. pose proof S_positive as HS. pose proof M_positive as HN.
    rewrite steer_time_eq by assumption. unfold Cabs.
    rewrite (steer_vector_raw M r0 k rm HM H0 Hr) by assumption.
    rewrite norm2_mul. unfold steer_factor. rewrite norm2_mul, norm2_cexp, norm2_RtoC. fold S.
    assert (N1 : norm2 (cos (k * rm m), - sin (k * rm m)) = 1).
    { unfold norm2. cbn. pose proof (sin2_cos2 (k * rm m)) as Q. unfold Rsqr in Q. lra. }
    assert (Hq : 0 < sqrt (S * INR M)) by (apply sqrt_lt_R0; nra).
    symmetry. destruct st; unfold steer_raw.
    - rewrite N1. replace (1 * (1 / INR M * (1 / INR M)) * 1) with (1 / INR M * (1 / INR M)) by ring.
      apply sqrt_square. apply Rlt_le, Rdiv_lt_0_compat; lra.
    - rewrite norm2_mul, N1, norm2_RtoC.
      replace (1 * (1 / (r0 * INR M) * (1 / (r0 * INR M))) * (1 * (rm m * rm m)))
        with (rm m / (r0 * INR M) * (rm m / (r0 * INR M))) by (field; lra).
      apply sqrt_square. apply Rlt_le, Rdiv_lt_0_compat; nra.
    - rewrite norm2_div_RtoC, N1 by lra.
      replace (1 * (1 / (r0 * S) * (1 / (r0 * S))) * (1 / (rm m * rm m)))
        with (1 / (rm m * (r0 * S)) * (1 / (rm m * (r0 * S)))) by (field; lra).
      apply sqrt_square. apply Rlt_le, Rdiv_lt_0_compat; [lra|]. apply Rmult_lt_0_compat; nra.
    - rewrite norm2_div_RtoC, N1 by lra.
      replace (1 * (1 / sqrt (S * INR M) * (1 / sqrt (S * INR M))) * (1 / (rm m * rm m)))
        with (1 / (rm m * sqrt (S * INR M)) * (1 / (rm m * sqrt (S * INR M)))) by (field; lra).
      apply sqrt_square. apply Rlt_le, Rdiv_lt_0_compat; [lra|]. apply Rmult_lt_0_compat; lra.
  Qed.

  (** What is left of a unit monopole at the grid point. *)
  Definition level (st : steer) : R :=
    match st with
    | Classic => rsumn M (fun m => r0 / rm m) / INR M
    | Inverse | TrueLevel => 1
    | TrueLocation => sqrt (rsumn M (fun m => r0 / rm m * (r0 / rm m)) / INR M)
    end.

  Lemma power_sum : rsumn M (fun m => r0 / rm m * (r0 / rm m)) = r0 * r0 * S.
  Proof.
    unfold S. rewrite <- rsumn_scal. apply rsumn_ext. intros m Hm. specialize (Hr m Hm). field. lra.
  Qed.

  Theorem steer_time_level st : rsumn M (fun m => steer_time st M rm r0 m * (r0 / rm m)) = level st.
  Proof.
    pose proof S_positive as HS. pose proof M_positive as HN.
    destruct st; unfold level.
    - rewrite (rsumn_ext M _ (fun m => / INR M * (r0 / rm m))).
      + rewrite rsumn_scal. field. lra.
      + intros m Hm. rewrite steer_time_eq by assumption. specialize (Hr m Hm). field. lra.
    - rewrite (rsumn_ext M _ (fun m => / INR M)).
      + rewrite rsumn_const. field. lra.
      + intros m Hm. rewrite steer_time_eq by assumption. specialize (Hr m Hm). field. lra.
    - rewrite (rsumn_ext M _ (fun m => / S * (1 / (rm m * rm m)))).
      + rewrite rsumn_scal. fold S. field. lra.
      + intros m Hm. rewrite steer_time_eq by assumption. specialize (Hr m Hm). field. lra.
    - assert (Hq : 0 < sqrt (S * INR M)) by (apply sqrt_lt_R0; nra).
      rewrite (rsumn_ext M _ (fun m => (r0 / sqrt (S * INR M)) * (1 / (rm m * rm m)))).
      + rewrite rsumn_scal. fold S. rewrite power_sum.
        symmetry. apply sqrt_lem_1.
        * apply Rlt_le, Rdiv_lt_0_compat; [|lra]. apply Rmult_lt_0_compat; nra.
        * apply Rmult_le_pos; [|lra]. apply Rlt_le, Rdiv_lt_0_compat; lra.
        * replace (r0 / sqrt (S * INR M) * S * (r0 / sqrt (S * INR M) * S))
            with (r0 * r0 * S * S / (sqrt (S * INR M) * sqrt (S * INR M))) by (field; lra).
          rewrite sqrt_sqrt by nra. field. lra.
      + intros m Hm. rewrite steer_time_eq by assumption. specialize (Hr m Hm). field. lra.
  Qed.
End Amplitudes.

Lemma lerp_INR s m n d : lerp s m (INR n + INR d) = sample s (n + d) m.
Proof.
  rewrite <- plus_INR. unfold lerp.
  rewrite (Int_part_unique (INR (n + d)) (Z.of_nat (n + d))) by (rewrite <- INR_IZR_INZ; lra).
  rewrite <- INR_IZR_INZ, Nat2Z.id. ring.
Qed.

(** Delay-and-sum of a monopole at grid point [g], whose signal [x] arrives at
    microphone [m] after [d m] samples. *)
Theorem das_monopole G M st dly rm r0 (d : nat -> nat) (x : nat -> R) s g n :
  (0 < M)%nat -> 0 < r0 g -> (forall m, (m < M)%nat -> 0 < rm g m) -> (g < G)%nat ->
  (forall m, (m < M)%nat -> dly g m = INR (d m)) ->
  (forall m, (m < M)%nat -> sample s (n + d m) m = r0 g / rm g m * x n) ->
  nth g (das_row G M out_sum dly (fun g m => steer_time st M (rm g) (r0 g) m) s n) 0
  = level M (r0 g) (rm g) st * x n.
Proof.
  intros HM H0 Hr Hg Hd Hs. unfold das_row. rewrite nth_map_seq by assumption. simpl Nat.add.
  unfold out_sum. rewrite rsum_seq. rewrite <- (steer_time_level M (r0 g) (rm g) HM H0 Hr st).
  rewrite Rmult_comm, <- rsumn_scal. apply rsumn_ext. intros m Hm.
  rewrite (Hd m Hm), lerp_INR, (Hs m Hm). ring.
Qed.

(** Sum over all pairs of different channels. *)
Definition cross_sum (l : list R) : R :=
  rsumn (length l) (fun i => rsumn (length l) (fun j => if (i =? j)%nat then 0 else nth i l 0 * nth j l 0)).

Lemma rsum_nth l : rsum l = rsumn (length l) (fun i => nth i l 0).
Proof.
  rewrite <- rsum_seq. f_equal. apply (nth_ext _ _ 0 0); [now rewrite map_length, seq_length|].
  intros i Hi. now rewrite nth_map_seq by assumption.
Qed.

Theorem sqdiag_cross l : out_sqdiag l = Rmax 0 (cross_sum l).
Proof.
  unfold out_sqdiag. f_equal.
  replace (rsum (map (fun r => r * r) l)) with (rsumn (length l) (fun i => nth i l 0 * nth i l 0)).
  - rewrite rsum_nth. unfold cross_sum. set (n := length l). set (f := fun i => nth i l 0).
    change (rsumn n f * rsumn n f - rsumn n (fun i => f i * f i)
      = rsumn n (fun i => rsumn n (fun j => if (i =? j)%nat then 0 else f i * f j))).
    rewrite (rsumn_ext n (fun i => rsumn n (fun j => if (i =? j)%nat then 0 else f i * f j))
      (fun i => rsumn n f * f i + - 1 * (f i * f i))).
    + rewrite rsumn_add, !rsumn_scal. ring.
    + intros i Hi. clearbody f.
      assert (E : rsumn n (fun j => f i * f j)
        = rsumn n (fun j => if (i =? j)%nat then 0 else f i * f j) + rsumn n (fun j => if (i =? j)%nat then f i * f j else 0)).
      { rewrite <- rsumn_add. apply rsumn_ext. intros j _. destruct (i =? j)%nat; ring. }
      rewrite (rsumn_single n i (fun j => if (i =? j)%nat then f i * f j else 0)) in E.
      * rewrite rsumn_scal, Nat.eqb_refl in E. lra.
      * assumption.
      * intros j Hj Nj. destruct (Nat.eqb_spec i j); [congruence|reflexivity].
  - rewrite rsum_nth, map_length. apply rsumn_ext. intros i Hi.
    set (sq := fun r => r * r). symmetry. rewrite (nth_indep (map sq l) 0 (sq 0)) by now rewrite map_length.
    now rewrite (map_nth sq).
Qed.
