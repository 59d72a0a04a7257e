(** C114: a simulated point source is reconstructed by BeamformerTime. *)
From Coq Require Import List Arith Lia ZArith Bool Reals Lra.
From Verif Require Import Stream Sources Wav PointSources Buffer TimeBeam Das DasTraj Focus Props_TimeBeam.
Import ListNotations.
Local Open Scope R_scope.

(** What BeamformerTime yields at grid point [g] and row [n]: point source at
    distances [r m], grid point [g] at distances [rg g m] and [r0 g] from the
    reference; [amp] is the table of amplitudes (steering type). *)
Definition focused (amp : nat -> (nat -> R) -> R -> nat -> R) (heap : Z -> R) (out0 : nat -> list (list R))
    (signal : list R) (zeros : bool) (M : nat) (r : nat -> R) (c start fs : R) (up ns G : nat)
    (rg : nat -> nat -> R) (r0 : nat -> R) (fuel num g n : nat) : R :=
  nth g (nth n (concat (blocks
    (bft_result G M out_sum (fun g m => rg g m / c * fs) (fun g m => amp M (rg g) (r0 g) m) None
       (recorded heap out0 signal zeros M r c start fs up ns) fuel num))) []) 0.

Lemma focused_value amp heap out0 signal zeros M c start fs up ns G rg r0 fuel num g n d :
  0 < c -> 0 < fs -> (0 < up)%nat -> (0 < num)%nat -> (0 < M)%nat -> (g < G)%nat -> (ns < fuel)%nat ->
  (forall k, length (out0 k) = k) -> length signal = (up * ns)%nat ->
  (forall g m, 0 < rg g m) -> (forall g, 0 < r0 g) ->
  is_reach G M (fun g m => rg g m / c * fs) d -> (n + d < ns)%nat ->
  focused amp heap out0 signal zeros M (rg g) c start fs up ns G rg r0 fuel num g n
  = rsum (map (fun m => amp M (rg g) (r0 g) m * lerp (rows_of signal zeros M (rg g) c start fs up ns) m (INR n + rg g m / c * fs))
       (seq 0 M)).
Proof.
  intros Hc Hfs Hup Hnum HM Hg Hfu Ho Hl Hrg Hr0 Hd Hn.
  set (s := rows_of signal zeros M (rg g) c start fs up ns).
  assert (Ls : length s = ns) by (unfold s, rows_of; now rewrite map_length, seq_length).
  assert (Hdl : forall g m : nat, 0 <= rg g m / c * fs).
  { intros g' m. specialize (Hrg g' m). apply Rmult_le_pos; [|lra]. apply Rlt_le, Rdiv_lt_0_compat; assumption. }
  assert (Hw : wf_source (recorded heap out0 signal zeros M (rg g) c start fs up ns) s).
  { intros k Hk. unfold recorded, s, rows_of. cbv zeta.
    assert (Hin : forall i, In i (first_ind c start start fs up (map (rg g) (seq 0 M))) ->
      exists m, (m < M)%nat /\ i = - (rg g m / c * fs) * INR up).
    { intros i Hi. unfold first_ind in Hi. rewrite map_map in Hi. apply in_map_iff in Hi. destruct Hi as (m & <- & Hm).
      apply in_seq in Hm. exists m. split; [lia|]. field. lra. }
    assert (U : 1 <= INR up) by (change 1 with (INR 1); apply le_INR; lia).
    apply point_source_spec; auto; try lia.
    - destruct M; [lia|discriminate].
    - intros i Hi. destruct (Hin i Hi) as (m & Hm & ->). specialize (Hdl g m). nra.
    - intros _ i Hi. destruct (Hin i Hi) as (m & Hm & ->). rewrite mult_INR.
      destruct Hd as [Hd _]. specialize (Hd g m Hg Hm).
      assert (INR n + INR d < INR ns) by (rewrite <- plus_INR; apply lt_INR; lia). pose proof (pos_INR n). nra. }
  unfold focused.
  rewrite (C50_output_partial G M out_sum _ _ d num _ s fuel Hdl Hd Hnum) by
    (auto; try lia; intros row Hrow; unfold s, rows_of in Hrow; apply in_map_iff in Hrow; destruct Hrow as (t & <- & _);
     unfold received; rewrite map_length, combine_length; unfold first_ind; rewrite !map_length, seq_length; lia).
  rewrite Ls.
  rewrite (nth_indep _ [] (das_row G M out_sum (fun g m => rg g m / c * fs) (fun g m => amp M (rg g) (r0 g) m) s 0))
    by (rewrite map_length, seq_length; lia).
  rewrite map_nth, seq_nth by lia. cbn [plus]. unfold das_row.
  set (F := fun g0 => out_sum _).
  rewrite (nth_indep _ 0 (F 0%nat)) by (now rewrite map_length, seq_length).
  rewrite map_nth, seq_nth by assumption. reflexivity.
Qed.

(** C114.  With delays of whole samples, 'inverse' and 'true level' give at the
    position of the source its signal, divided by the distance to the
    reference, from the first sample on. *)
Theorem C114_exact heap out0 signal zeros M c start fs up ns G rg r0 fuel num g n d amp :
  0 < c -> 0 < fs -> (0 < up)%nat -> (0 < num)%nat -> (0 < M)%nat -> (g < G)%nat -> (ns < fuel)%nat ->
  (forall k, length (out0 k) = k) -> length signal = (up * ns)%nat ->
  (forall g m, 0 < rg g m) -> (forall g, 0 < r0 g) ->
  is_reach G M (fun g m => rg g m / c * fs) d -> (n + d < ns)%nat ->
  amp = steer_II \/ amp = steer_III ->
  (forall m, (m < M)%nat -> exists k, rg g m / c * fs = INR k) ->
  focused amp heap out0 signal zeros M (rg g) c start fs up ns G rg r0 fuel num g n = nth (up * n) signal 0 / r0 g.
Proof.
  intros Hc Hfs Hup Hnum HM Hg Hfu Ho Hl Hrg Hr0 Hd Hn Hamp Hint.
  rewrite (focused_value amp heap out0 signal zeros M c start fs up ns G rg r0 fuel num g n d) by assumption.
  rewrite (rsum_map_ext _ (fun m => nth (up * n) signal 0 * (amp M (rg g) (r0 g) m / rg g m))).
  - rewrite rsum_map_scal.
    replace (rsum (map (fun m => amp M (rg g) (r0 g) m / rg g m) (seq 0 M))) with (1 / r0 g).
    + specialize (Hr0 g). field. lra.
    + symmetry. destruct Hamp as [-> | ->]; [apply steer_II_gain|apply steer_III_gain]; auto.
  - intros m Hm. apply in_seq in Hm. destruct (Hint m ltac:(lia)) as [k Hk].
    change (rg g m / c * fs) with (delay_of c fs (rg g m)).
    rewrite (focus_exact signal zeros M (rg g) c start fs up ns Hc Hfs Hup (fun m _ => Hrg g m) Hl n m k); try lia.
    + specialize (Hrg g m). field. lra.
    + exact Hk.
    + destruct Hd as [Hd _]. specialize (Hd g m Hg ltac:(lia)). cbv beta in Hd. rewrite Hk in Hd.
      assert (INR (k + 1) < INR d + 0) by (rewrite plus_INR; cbn [INR]; lra).
      rewrite Rplus_0_r in *. apply INR_lt in H. lia.
Qed.
Print Assumptions C114_exact.

(** C114.  With any delays, from the second sample on: an error of at most
    (up + 1) / 2 steps of the up-sampled signal, whose steps are at most [Lip]. *)
Theorem C114_close heap out0 signal zeros M c start fs up ns G rg r0 fuel num g n d amp Lip :
  0 < c -> 0 < fs -> (0 < up)%nat -> (0 < num)%nat -> (0 < M)%nat -> (g < G)%nat -> (ns < fuel)%nat ->
  (forall k, length (out0 k) = k) -> length signal = (up * ns)%nat ->
  (forall g m, 0 < rg g m) -> (forall g, 0 < r0 g) ->
  is_reach G M (fun g m => rg g m / c * fs) d -> (0 < n)%nat -> (n + d < ns)%nat ->
  amp = steer_II \/ amp = steer_III ->
  (forall i, (i + 1 < up * ns)%nat -> Rabs (nth (i + 1) signal 0 - nth i signal 0) <= Lip) ->
  Rabs (focused amp heap out0 signal zeros M (rg g) c start fs up ns G rg r0 fuel num g n - nth (up * n) signal 0 / r0 g)
  <= (INR up + 1) / 2 * Lip / r0 g.
Proof.
  intros Hc Hfs Hup Hnum HM Hg Hfu Ho Hl Hrg Hr0 Hd Hn1 Hn Hamp Hstep.
  rewrite (focused_value amp heap out0 signal zeros M c start fs up ns G rg r0 fuel num g n d) by assumption.
  set (v := nth (up * n) signal 0).
  assert (HL : forall i j, (i < up * ns)%nat -> (j < up * ns)%nat ->
       Rabs (nth i signal 0 - nth j signal 0) <= Lip * Rabs (INR i - INR j)).
  { assert (W : forall k j, (j + k < up * ns)%nat -> Rabs (nth (j + k) signal 0 - nth j signal 0) <= Lip * INR k).
    { induction k as [|k IH]; intros j Hj.
      - rewrite Nat.add_0_r, Rminus_diag_eq, Rabs_R0 by reflexivity. cbn [INR]. lra.
      - replace (nth (j + S k) signal 0 - nth j signal 0)
          with ((nth (j + k + 1) signal 0 - nth (j + k) signal 0) + (nth (j + k) signal 0 - nth j signal 0))
          by (replace (j + k + 1)%nat with (j + S k)%nat by lia; ring).
        eapply Rle_trans; [apply Rabs_triang|]. rewrite S_INR.
        pose proof (Hstep (j + k)%nat ltac:(lia)). specialize (IH j ltac:(lia)). lra. }
    intros i j Hi Hj. destruct (Nat.le_ge_cases j i) as [H|H].
    - replace i with (j + (i - j))%nat at 1 by lia. eapply Rle_trans; [apply W; lia|].
      rewrite minus_INR by lia. rewrite Rabs_right; [lra|]. apply le_INR in H. lra.
    - rewrite Rabs_minus_sym. replace j with (i + (j - i))%nat at 1 by lia. eapply Rle_trans; [apply W; lia|].
      rewrite minus_INR by lia. rewrite Rabs_minus_sym, Rabs_right; [lra|]. apply le_INR in H. lra. }
  assert (Gn : rsum (map (fun m => amp M (rg g) (r0 g) m / rg g m) (seq 0 M)) = 1 / r0 g
    /\ forall m, (m < M)%nat -> 0 <= amp M (rg g) (r0 g) m / rg g m).
  { destruct Hamp as [-> | ->]; [apply steer_II_gain|apply steer_III_gain]; auto. }
  destruct Gn as [G1 G2].
  replace (v / r0 g) with (rsum (map (fun m => v * (amp M (rg g) (r0 g) m / rg g m)) (seq 0 M)))
    by (rewrite rsum_map_scal, G1; specialize (Hr0 g); field; lra).
  rewrite <- rsum_map_sub. eapply Rle_trans; [apply rsum_abs|].
  apply Rle_trans with (rsum (map (fun m => Lip * ((INR up + 1) / 2) * (amp M (rg g) (r0 g) m / rg g m)) (seq 0 M))).
  - apply rsum_map_le. intros m Hm. apply in_seq in Hm. specialize (G2 m ltac:(lia)).
    set (x := lerp _ _ _). pose proof (Hrg g m) as Hrm.
    replace (amp M (rg g) (r0 g) m * x - v * (amp M (rg g) (r0 g) m / rg g m))
      with ((amp M (rg g) (r0 g) m / rg g m) * (x * rg g m - v)) by (field; lra).
    rewrite Rabs_mult, (Rabs_right (_ / _)) by lra. rewrite Rmult_comm. apply Rmult_le_compat_r; [assumption|].
    unfold x, v. change (rg g m / c * fs) with (delay_of c fs (rg g m)).
    apply (focus_close signal zeros M (rg g) c start fs up ns Hc Hfs Hup (fun m _ => Hrg g m) Hl n m Lip); try assumption; try lia.
    destruct Hd as [Hd _]. specialize (Hd g m Hg ltac:(lia)). cbv beta in Hd.
    assert (P : 0 <= rg g m / c * fs) by (apply Rmult_le_pos; [apply Rlt_le, Rdiv_lt_0_compat|]; lra).
    destruct (trunc_nonneg _ P) as [E Q]. pose proof (Int_part_bounds (rg g m / c * fs)) as B.
    assert (K : INR (didx (delay_of c fs (rg g m))) + 1 < INR d).
    { unfold didx, delay_of. rewrite E, INR_IZR_INZ, Z2Nat.id by assumption. lra. }
    rewrite <- S_INR in K. apply INR_lt in K. lia.
  - rewrite rsum_map_scal, G1. apply Req_le. specialize (Hr0 g). field. lra.
Qed.
Print Assumptions C114_close.

(** C114 is false for other delays: a signal that alternates is not
    reconstructed at all, it becomes constant. *)
Theorem C114_exact_refuted : exists (c fs r : R) (signal : list R),
  0 < c /\ 0 < fs /\ 0 < r /\ length signal = 12%nat
  /\ (forall i, (i < 12)%nat -> nth i signal 0 = if Nat.even i then 0 else 4)
  /\ forall heap n, (0 < n < 9)%nat ->
     focused steer_III heap (fun k => repeat [] k) signal true 1 (fun _ => r) c 0 fs 1 12 1 (fun _ _ => r) (fun _ => r) 13 4 0 n
     = 2 / r.
Proof.
  exists 2, 1, 1, [0; 4; 0; 4; 0; 4; 0; 4; 0; 4; 0; 4].
  split; [lra|]. split; [lra|]. split; [lra|]. split; [reflexivity|]. split.
  { intros i Hi. do 12 (destruct i as [|i]; [reflexivity|]). lia. }
  intros heap n Hn.
  assert (Hd : is_reach 1 1 (fun _ _ => 1 / 2 * 1) 2).
  { split; [intros; cbn; lra|]. exists 0%nat, 0%nat. cbn. repeat split; try lia. lra. }
  rewrite (focused_value steer_III heap (fun k => repeat [] k) _ true 1 2 0 1 1 12 1 (fun _ _ => 1) (fun _ => 1) 13 4 0 n 2);
    try lra; try lia; try (intros; lra); try reflexivity; try exact Hd.
  2:{ intros k. apply repeat_length. }
  assert (S3 : steer_III 1 (fun _ => 1) 1 0 = 1) by (unfold steer_III; cbn; field).
  cbn [seq map]. unfold rsum. cbn [fold_right]. rewrite S3.
  set (s := rows_of _ _ _ _ _ _ _ _ _).
  assert (V : forall t, (1 <= t < 12)%nat -> sample s t 0 = if Nat.even t then 0 else 4).
  { intros t Ht. unfold s.
    rewrite (rows_sample [0; 4; 0; 4; 0; 4; 0; 4; 0; 4; 0; 4] true 1 (fun _ => 1) 2 0 1 1 12); try lra; try lia; try reflexivity.
    - unfold delay_of. replace ((INR t - 1 / 2 * 1) * INR 1) with (INR t - 1 / 2) by (cbn [INR]; ring).
      unfold rnd. replace (1 / 2 + (INR t - 1 / 2)) with (INR t) by ring.
      destruct (trunc_nonneg (INR t) (pos_INR t)) as [E _]. rewrite E.
      replace (Int_part (INR t)) with (Z.of_nat t) by (symmetry; apply Int_part_unique; rewrite <- INR_IZR_INZ; lra).
      rewrite Nat2Z.id. destruct Ht as [_ Ht]. do 12 (destruct t as [|t]; [cbn; field|]). lia.
    - intros; lra.
    - unfold delay_of. assert (1 <= INR t) by (change 1 with (INR 1); apply le_INR; lia). lra. }
  unfold lerp. replace (Int_part (INR n + 1 / 2 * 1)) with (Z.of_nat n)
    by (symmetry; apply Int_part_unique; rewrite <- INR_IZR_INZ; lra).
  rewrite Nat2Z.id, <- INR_IZR_INZ, !V by lia.
  replace (n + 1)%nat with (S n) by lia. rewrite Nat.even_succ, <- Nat.negb_even.
  destruct (Nat.even n); cbn [negb]; field.
Qed.
Print Assumptions C114_exact_refuted.

(** Two microphones at 2 and 3 samples: the hypotheses of C114_exact. *)
Example C114_case : forall heap,
  let rg := fun _ m : nat => INR m + 2 in
  focused steer_II heap (fun k => repeat [] k) [5; 6; 7; 8; 9; 1; 2; 3] false 2 (rg 0%nat) 1 0 1 1 8 1 rg (fun _ => 2) 9 3 0 1
  = 6 / 2.
Proof.
  intros heap rg.
  assert (P : forall m : nat, 0 < INR m + 2) by (intros m; pose proof (pos_INR m); lra).
  assert (D : is_reach 1 2 (fun g m => rg g m / 1 * 1) 5).
  { split.
    - intros g m _ Hm. unfold rg. destruct m as [|[|m]]; [cbn; lra|cbn; lra|lia].
    - exists 0%nat, 1%nat. unfold rg. cbn. repeat split; try lia; lra. }
  apply (C114_exact heap (fun k => repeat [] k) [5; 6; 7; 8; 9; 1; 2; 3] false 2 1 0 1 1 8 1 rg (fun _ => 2) 9 3 0 1 5 steer_II);
    [lra|lra|lia|lia|lia|lia|lia|intros; apply repeat_length|reflexivity|intros; apply P|intros; lra|exact D|lia|now left|].
  intros m _. exists (m + 2)%nat. unfold rg. rewrite plus_INR. cbn [INR]. field.
Qed.
