(** Property C131: BeamformerTimeSq and BeamformerBase agree. *)
From Coq Require Import List Arith Lia ZArith Bool Reals Lra.
From Verif Require Import Stream Cplx Buffer Frames Convolve Fourier Beamform Csm Tone Das TimeBeam TimeSteer TimeFreq DasTraj Props_TimeBeam Props_TimeSteer Props_Tone.
Import ListNotations.
Local Open Scope R_scope.

(** Every channel repeats after [bs] samples. *)
Definition periodic (bs M : nat) (s : list (list R)) : Prop :=
  forall t m, (t + bs < length s)%nat -> (m < M)%nat -> nth m (nth (t + bs) s []) 0 = nth m (nth t s []) 0.

(** Row [n] of BeamformerTimeSq without diagonal removal at point [g]. *)
Definition squared (G M : nat) (st : steer) (c fs : R) (rg : nat -> nat -> R) (r0 : nat -> R) (src : source (list R)) (fuel num g n : nat) : R :=
  nth g (nth n (concat (blocks (bft_result G M out_sq (fun g m => rg g m / c * fs)
    (fun g m => steer_time st M (rg g) (r0 g) m) None src fuel num))) []) 0.

(** Mean of [bs] rows of BeamformerTimeSq, from any row on, and the lines of the
    map; block size even, rectangular window. *)
Theorem C131_mean garbage fs c h ov G M st (rg : nat -> nat -> R) r0 reach num (src : source (list R)) s fuel g n0 (line : nat -> R) :
  0 < fs -> 0 < c -> (0 < h)%nat -> (0 < ov)%nat -> (0 < M)%nat -> (g < G)%nat -> (0 < num)%nat -> (length s < fuel)%nat ->
  (forall g m, 0 < rg g m) -> (forall g, 0 < r0 g) ->
  wf_source src s -> (forall r, In r s -> (M <= length r)%nat) -> periodic (2 * h) M s ->
  is_reach G M (fun g m => rg g m / c * fs) reach -> (n0 + 2 * h <= length s - reach)%nat ->
  (forall m, (m < M)%nat -> exists k, rg g m / c * fs = INR k) ->
  Nat.divide (2 * h) (length s * ov) ->
  (forall b, (b <= h)%nat -> map_value garbage (2 * h) ov M rectangular src (length s) fs c b st false (r0 g) (rg g) = Some (line b)) ->
  rsumn (2 * h) (fun i => squared G M st c fs rg r0 src fuel num g (n0 + i)) / INR (2 * h)
  = rsumn (h + 1) line - (line 0%nat + line h) / 2.
Proof.
  intros Hfs Hc Hh Hov HM Hg Hnum Hfu Hrg Hr0 Hw Hch Hper Hre Hn Hint Hdiv Hline.
  assert (exists d : nat -> nat, forall m, (m < M)%nat -> rg g m / c * fs = INR (d m)) as [d Hd].
  { clear - Hint. induction M as [|M IH]; [exists (fun _ => 0%nat); intros; lia|].
    destruct IH as [d Hd]; [intros; apply Hint; lia|]. destruct (Hint M ltac:(lia)) as [k Hk].
    exists (fun m => if (m =? M)%nat then k else d m). intros m Hm. destruct (Nat.eqb_spec m M) as [->|]; [exact Hk|apply Hd; lia]. }
  set (y := beam (2 * h) M s st (r0 g) (rg g) d).
  assert (Hb : (0 < 2 * h)%nat) by lia. assert (Hl : (2 * h <= length s)%nat) by lia.
  assert (forall b, (b <= h)%nat -> line b = 2 / (INR (2 * h) * INR (2 * h)) * norm2 (rfft (2 * h) y b)) as L.
  { intros b Hbh. specialize (Hline b Hbh). unfold map_value in Hline.
    change (2 * PI * frequency fs (2 * h) b / c) with (wave_number fs c (2 * h) b) in Hline.
    change rectangular with (fun _ : nat => 1) in Hline.
    rewrite (line_map fs c (2 * h) ov M garbage src s Hc Hb Hov Hw Hl Hper st (r0 g) (rg g) d HM (Hr0 g) (fun m _ => Hrg g m) Hd b) in Hline.
    rewrite (block_ratio_1 (2 * h) ov Hb (length s) Hl Hdiv) in Hline. assert (forall a b : R, Some a = Some b -> a = b) as In by congruence. apply In in Hline. rewrite <- Hline. fold y. ring. }
  assert (forall i, (i < 2 * h)%nat -> squared G M st c fs rg r0 src fuel num g (n0 + i) = y (n0 + i)%nat * y (n0 + i)%nat) as Q.
  { intros i Hi. unfold squared.
    assert (forall g m, 0 <= rg g m / c * fs) as P.
    { intros g' m. specialize (Hrg g' m). apply Rmult_le_pos; [|lra]. apply Rlt_le, Rdiv_lt_0_compat; assumption. }
    destruct (C72_squares G M (fun g m => rg g m / c * fs) (fun g m => steer_time st M (rg g) (r0 g) m) reach num src s fuel P Hre Hnum Hch Hw Hfu g (n0 + i) Hg ltac:(lia)) as [_ [E _]].
    rewrite E. assert (y (n0 + i)%nat = rsumn M (fun m => steer_time st M (rg g) (r0 g) m * lerp s m (INR (n0 + i) + rg g m / c * fs))) as ->; [|reflexivity].
    apply (beam_samples fs c (2 * h) M s Hb Hper st (r0 g) (rg g) d Hd). intros m Hm.
    destruct Hre as [Hre _]. specialize (Hre g m Hg Hm). cbv beta in Hre. rewrite (Hd m Hm) in Hre.
    assert (d m < reach)%nat by (apply INR_lt; lra). lia. }
  rewrite (rsumn_ext (2 * h) _ (fun i => (fun t => y t * y t) (n0 + i)%nat)) by (intros i Hi; now apply Q).
  rewrite (rsumn_period (2 * h) (fun t => y t * y t) n0).
  2:{ intros j. unfold y. now rewrite beam_period by exact Hb. }
  pose proof (rfft_mean_square h y Hh) as E.
  rewrite (rsumn_ext (h + 1) line (fun b => 2 / (INR (2 * h) * INR (2 * h)) * norm2 (rfft (2 * h) y b))) by (intros b Hbb; apply L; lia).
  rewrite rsumn_scal. rewrite (L 0%nat ltac:(lia)), (L h ltac:(lia)).
  assert (0 < INR (2 * h)) by (apply lt_0_INR; lia). set (N := INR (2 * h)) in *. set (S := rsumn (h + 1) _) in *.
  replace (2 / (N * N) * S) with (S * (2 / (N * N))) by ring. rewrite E. field. lra.
Qed.
Print Assumptions C131_mean.

(** The same with diagonal removal. *)
Definition squared_removed (G M : nat) (st : steer) (c fs : R) (rg : nat -> nat -> R) (r0 : nat -> R) (src : source (list R)) (fuel num g n : nat) : R :=
  nth g (nth n (concat (blocks (bft_result G M out_sqdiag (fun g m => rg g m / c * fs)
    (fun g m => steer_time st M (rg g) (r0 g) m) None src fuel num))) []) 0.

(** The record of one source at point [g]: its signal [x], heard by microphone
    [m] after the travel time (a whole number of samples) with amplitude r0 / r. *)
Definition one_source (fs c : R) (M : nat) (x : Z -> R) (r0 : R) (rm : nat -> R) (s : list (list R)) : Prop :=
  forall m, (m < M)%nat -> exists k, rm m / c * fs = INR k /\
    forall t, (t < length s)%nat -> nth m (nth t s []) 0 = r0 / rm m * x (Z.of_nat t - Z.of_nat k)%Z.

(** One source with a periodic signal, 'inverse', diagonal removed in both
    domains: BeamformerBase gives its mean square, BeamformerTimeSq less by one
    part in the number of microphones, at every sample. *)
Theorem C131_removed garbage fs c h ov G M (rg : nat -> nat -> R) r0 reach num (src : source (list R)) s fuel g n0 x (line : nat -> R) :
  0 < fs -> 0 < c -> (0 < h)%nat -> (0 < ov)%nat -> (1 < M)%nat -> (g < G)%nat -> (0 < num)%nat -> (length s < fuel)%nat ->
  (forall g m, 0 < rg g m) -> (forall g, 0 < r0 g) ->
  wf_source src s -> (forall r, In r s -> (M <= length r)%nat) ->
  (forall z, x (z + Z.of_nat (2 * h))%Z = x z) -> one_source fs c M x (r0 g) (rg g) s ->
  is_reach G M (fun g m => rg g m / c * fs) reach -> (n0 + 2 * h <= length s - reach)%nat ->
  Nat.divide (2 * h) (length s * ov) ->
  (forall b, (b <= h)%nat -> map_value garbage (2 * h) ov M rectangular src (length s) fs c b Inverse true (r0 g) (rg g) = Some (line b)) ->
  (forall i, (i < 2 * h)%nat -> squared_removed G M Inverse c fs rg r0 src fuel num g (n0 + i) = (1 - 1 / INR M) * (x (Z.of_nat (n0 + i)) * x (Z.of_nat (n0 + i))))
  /\ rsumn (h + 1) line - (line 0%nat + line h) / 2 = rsumn (2 * h) (fun i => x (Z.of_nat i) * x (Z.of_nat i)) / INR (2 * h)
  /\ rsumn (2 * h) (fun i => squared_removed G M Inverse c fs rg r0 src fuel num g (n0 + i)) / INR (2 * h)
     = (1 - 1 / INR M) * (rsumn (h + 1) line - (line 0%nat + line h) / 2).
Proof.
  intros Hfs Hc Hh Hov HM Hg Hnum Hfu Hrg Hr0 Hw Hch Hx Ho Hre Hn Hdiv Hline.
  assert (exists d : nat -> nat, forall m, (m < M)%nat -> rg g m / c * fs = INR (d m) /\
     forall t, (t < length s)%nat -> nth m (nth t s []) 0 = r0 g / rg g m * x (Z.of_nat t - Z.of_nat (d m))%Z) as [d HD].
  { clear - Ho. unfold one_source in Ho. induction M as [|M IH]; [exists (fun _ => 0%nat); intros; lia|].
    destruct IH as [d Hd]; [intros; apply Ho; lia|]. destruct (Ho M ltac:(lia)) as [k Hk].
    exists (fun m => if (m =? M)%nat then k else d m). intros m Hm. destruct (Nat.eqb_spec m M) as [->|]; [exact Hk|apply Hd; lia]. }
  assert (Hd : forall m, (m < M)%nat -> rg g m / c * fs = INR (d m)) by (intros; now apply HD).
  assert (Hs : forall t m, (t < length s)%nat -> (m < M)%nat -> sample s t m = r0 g / rg g m * x (Z.of_nat t - Z.of_nat (d m))%Z)
    by (intros t m Ht Hm; exact (proj2 (HD m Hm) t Ht)).
  assert (Hb : (0 < 2 * h)%nat) by lia. assert (Hl : (2 * h <= length s)%nat) by lia.
  set (y := fun t => x (Z.of_nat t)).
  assert (forall b, (b <= h)%nat -> line b = 2 / (INR (2 * h) * INR (2 * h)) * norm2 (rfft (2 * h) y b)) as L.
  { intros b Hbh. specialize (Hline b Hbh). unfold map_value in Hline.
    change (2 * PI * frequency fs (2 * h) b / c) with (wave_number fs c (2 * h) b) in Hline.
    change rectangular with (fun _ : nat => 1) in Hline.
    rewrite (removed_line fs c (2 * h) ov M garbage src s Hc Hb Hov Hw Hl x (r0 g) (rg g) d HM (Hr0 g) (fun m _ => Hrg g m) Hd Hx Hs b) in Hline.
    rewrite (block_ratio_1 (2 * h) ov Hb (length s) Hl Hdiv) in Hline. assert (forall a b : R, Some a = Some b -> a = b) as In by congruence.
    apply In in Hline. rewrite <- Hline. fold y. ring. }
  assert (MP : 1 < INR M) by (apply (lt_INR 1); exact HM).
  assert (Q : forall i, (i < 2 * h)%nat -> squared_removed G M Inverse c fs rg r0 src fuel num g (n0 + i) = (1 - 1 / INR M) * (y (n0 + i)%nat * y (n0 + i)%nat)).
  { intros i Hi. unfold squared_removed.
    assert (forall g m, 0 <= rg g m / c * fs) as P.
    { intros g' m. specialize (Hrg g' m). apply Rmult_le_pos; [|lra]. apply Rlt_le, Rdiv_lt_0_compat; assumption. }
    destruct (C72_squares G M (fun g m => rg g m / c * fs) (fun g m => steer_time Inverse M (rg g) (r0 g) m) reach num src s fuel P Hre Hnum Hch Hw Hfu g (n0 + i) Hg ltac:(lia)) as [_ [_ [E _]]].
    rewrite E. set (v := y (n0 + i)%nat).
    assert (forall m, (m < M)%nat -> steer_time Inverse M (rg g) (r0 g) m * lerp s m (INR (n0 + i) + rg g m / c * fs) = v / INR M) as V.
    { intros m Hm. rewrite (Hd m Hm), lerp_INR.
      destruct Hre as [Hre _]. specialize (Hre g m Hg Hm). cbv beta in Hre. rewrite (Hd m Hm) in Hre.
      assert (d m < reach)%nat by (apply INR_lt; lra). rewrite Hs by (try assumption; lia).
      replace (Z.of_nat (n0 + i + d m) - Z.of_nat (d m))%Z with (Z.of_nat (n0 + i)) by lia. change (x (Z.of_nat (n0 + i))) with v.
      pose proof (Hrg g m). pose proof (Hr0 g). unfold steer_time, steer_II. field. lra. }
    rewrite (rsumn_ext M _ (fun a => rsumn M (fun b => v / INR M * (v / INR M)) + - (v / INR M * (v / INR M)))).
    2:{ intros a Ha. rewrite (rsumn_ext M _ (fun b => v / INR M * (v / INR M) + (if (b =? a)%nat then - (v / INR M * (v / INR M)) else 0))).
        2:{ intros b Hbb. destruct (Nat.eqb_spec a b) as [->|N]; [rewrite Nat.eqb_refl; ring|]. destruct (Nat.eqb_spec b a); [congruence|]. rewrite !V by assumption. ring. }
        rewrite rsumn_add. f_equal. rewrite (rsumn_single M a); [now rewrite Nat.eqb_refl|exact Ha|]. intros b Hbb N. destruct (Nat.eqb_spec b a); [congruence|reflexivity]. }
    rewrite rsumn_const, rsumn_const.
    replace (INR M * (INR M * (v / INR M * (v / INR M)) + - (v / INR M * (v / INR M)))) with ((1 - 1 / INR M) * (v * v)) by (field; lra).
    apply Rmax_right. apply Rmult_le_pos; [|apply Rle_0_sqr]. assert (1 / INR M <= 1); [|lra]. apply (Rmult_le_reg_r (INR M)); [lra|]. unfold Rdiv. rewrite Rmult_assoc, Rinv_l by lra. lra. }
  assert (N0 : 0 < INR (2 * h)) by (apply lt_0_INR; lia).
  assert (Z : rsumn (h + 1) line - (line 0%nat + line h) / 2 = rsumn (2 * h) (fun i => y i * y i) / INR (2 * h)).
  { pose proof (rfft_mean_square h y Hh) as E.
    rewrite (rsumn_ext (h + 1) line (fun b => 2 / (INR (2 * h) * INR (2 * h)) * norm2 (rfft (2 * h) y b))) by (intros b Hbb; apply L; lia).
    rewrite rsumn_scal. rewrite (L 0%nat ltac:(lia)), (L h ltac:(lia)).
    set (N := INR (2 * h)) in *. set (S := rsumn (h + 1) _) in *.
    replace (2 / (N * N) * S) with (S * (2 / (N * N))) by ring. rewrite E. field. lra. }
  split; [exact Q|]. split; [exact Z|]. rewrite Z.
  rewrite (rsumn_ext (2 * h) _ (fun i => (1 - 1 / INR M) * (fun t => y t * y t) (n0 + i)%nat)) by (intros i Hi; now apply Q).
  rewrite rsumn_scal. rewrite (rsumn_period (2 * h) (fun t => y t * y t) n0); [unfold Rdiv; ring|].
  intros j. unfold y. rewrite Nat2Z.inj_add. now rewrite Hx.
Qed.
Print Assumptions C131_removed.
(** The case of the witnesses: eight samples of a constant sound at two
    microphones, one unit from the focus point. *)
Definition still : list (list R) := repeat [1; 1] 8.
Lemma still_in r : In r still -> r = [1; 1].
Proof. apply repeat_spec. Qed.
Lemma still_reach : is_reach 1 2 (fun _ _ => 1 / 1 * 1) 3.
Proof. split; [intros; cbn; lra|]. exists 0%nat, 0%nat. repeat split; auto; cbn; lra. Qed.
Lemma still_nth t m : (t < 8)%nat -> (m < 2)%nat -> nth m (nth t still []) 0 = 1.
Proof. intros Ht Hm. rewrite (still_in (nth t still [])) by (apply nth_In; exact Ht). destruct m as [|[|]]; [reflexivity|reflexivity|lia]. Qed.
Lemma still_periodic : periodic (2 * 1) 2 still.
Proof. intros t m Ht Hm. cbn in Ht. now rewrite !still_nth by lia. Qed.
Lemma still_source : one_source 1 1 2 (fun _ => 1) 1 (fun _ => 1) still.
Proof. intros m Hm. exists 1%nat. split; [cbn; lra|]. intros t Ht. rewrite still_nth by assumption. field. Qed.
Lemma still_wf : wf_source (wsrc still) still.
Proof. apply wsrc_ok. discriminate. Qed.
Lemma still_len r : In r still -> (2 <= length r)%nat.
Proof. intros H. now rewrite (still_in r H). Qed.
Lemma still_div : Nat.divide (2 * 1) (length still * 1).
Proof. exists 4%nat. reflexivity. Qed.
Lemma still_whole m : (m < 2)%nat -> exists k, 1 / 1 * 1 = INR k.
Proof. intros _. exists 1%nat. cbn. lra. Qed.
Lemma still_lines garbage : exists line, forall b, map_value garbage (2 * 1) 1 2 rectangular (wsrc still) 8 1 1 b Inverse false 1 (fun _ => 1) = Some (line b).
Proof.
  eexists. intros b. unfold map_value. change (2 * PI * frequency 1 (2 * 1) b / 1) with (wave_number 1 1 (2 * 1) b). change rectangular with (fun _ : nat => 1).
  assert (Hd : forall m, (m < 2)%nat -> 1 / 1 * 1 = INR 1) by (intros; cbn; lra).
  exact (line_map 1 1 (2 * 1) 1 2 garbage (wsrc still) still ltac:(lra) ltac:(lia) ltac:(lia) still_wf ltac:(cbn; lia) still_periodic Inverse 1 (fun _ => 1) (fun _ => 1%nat) ltac:(lia) ltac:(lra) (fun m _ => Rlt_0_1) Hd b).
Qed.
Lemma still_removed garbage : exists line, forall b, map_value garbage (2 * 1) 1 2 rectangular (wsrc still) 8 1 1 b Inverse true 1 (fun _ => 1) = Some (line b).
Proof.
  eexists. intros b. unfold map_value. change (2 * PI * frequency 1 (2 * 1) b / 1) with (wave_number 1 1 (2 * 1) b). change rectangular with (fun _ : nat => 1).
  assert (Hd : forall m, (m < 2)%nat -> 1 / 1 * 1 = INR 1) by (intros; cbn; lra).
  assert (Hs : forall t m, (t < length still)%nat -> (m < 2)%nat -> sample still t m = 1 / 1 * (fun _ : Z => 1) (Z.of_nat t - Z.of_nat 1)%Z)
    by (intros t m Ht Hm; unfold sample; rewrite still_nth by assumption; field).
  exact (removed_line 1 1 (2 * 1) 1 2 garbage (wsrc still) still ltac:(lra) ltac:(lia) ltac:(lia) still_wf ltac:(cbn; lia) (fun _ => 1) 1 (fun _ => 1) (fun _ => 1%nat) ltac:(lia) ltac:(lra) (fun m _ => Rlt_0_1) Hd (fun _ => eq_refl) Hs b).
Qed.

(** The sum over all lines is not the mean of the squared output: the line at
    frequency zero and the last line count twice in the map. *)
Theorem C131_lines_refuted garbage : exists fs c h ov G M st (rg : nat -> nat -> R) r0 reach num (src : source (list R)) s fuel g n0 (line : nat -> R),
  0 < fs /\ 0 < c /\ (0 < h)%nat /\ (0 < ov)%nat /\ (0 < M)%nat /\ (g < G)%nat /\ (0 < num)%nat /\ (length s < fuel)%nat /\
  (forall g m, 0 < rg g m) /\ (forall g, 0 < r0 g) /\
  wf_source src s /\ (forall r, In r s -> (M <= length r)%nat) /\ periodic (2 * h) M s /\
  is_reach G M (fun g m => rg g m / c * fs) reach /\ (n0 + 2 * h <= length s - reach)%nat /\
  (forall m, (m < M)%nat -> exists k, rg g m / c * fs = INR k) /\
  Nat.divide (2 * h) (length s * ov) /\
  (forall b, (b <= h)%nat -> map_value garbage (2 * h) ov M rectangular src (length s) fs c b st false (r0 g) (rg g) = Some (line b)) /\
  rsumn (2 * h) (fun i => squared G M st c fs rg r0 src fuel num g (n0 + i)) / INR (2 * h) = 1 /\
  rsumn (h + 1) line = 2.
Proof.
  destruct (still_lines garbage) as [line HL].
  exists 1, 1, 1%nat, 1%nat, 1%nat, 2%nat, Inverse, (fun _ _ => 1), (fun _ => 1), 3%nat, 1%nat, (wsrc still), still, 9%nat, 0%nat, 0%nat, line.
  repeat (split; [first [exact still_wf|exact still_len|exact still_periodic|exact still_reach|exact still_whole|exact still_div|
    (intros b _; exact (HL b))|lra|cbn; lia|(intros; lra)]|]).
  assert (V : forall i, (i < 2)%nat -> squared 1 2 Inverse 1 1 (fun _ _ => 1) (fun _ => 1) (wsrc still) 9 1 0 (0 + i) = 1).
  { intros i Hi. unfold squared.
    destruct (C72_squares 1 2 (fun _ _ => 1 / 1 * 1) (fun _ m => steer_time Inverse 2 (fun _ => 1) 1 m) 3 1 (wsrc still) still 9
      ltac:(intros; lra) still_reach ltac:(lia) still_len still_wf ltac:(cbn; lia) 0%nat (0 + i)%nat ltac:(lia) ltac:(cbn; lia)) as [_ [E _]].
    cbv beta. rewrite E. assert (S1 : rsumn 2 (fun m => steer_time Inverse 2 (fun _ => 1) 1 m * lerp still m (INR (0 + i) + 1 / 1 * 1)) = 1); [|rewrite S1; ring].
    rewrite (rsumn_ext 2 _ (fun _ => / 2)).
    2:{ intros m Hm. replace (1 / 1 * 1) with (INR 1) by (cbn; lra). rewrite lerp_INR. unfold sample. rewrite still_nth by lia. unfold steer_time, steer_II. cbn. field. }
    rewrite rsumn_const. cbn. field. }
  assert (E1 : rsumn (2 * 1) (fun i => squared 1 2 Inverse 1 1 (fun _ _ => 1) (fun _ => 1) (wsrc still) 9 1 0 (0 + i)) / INR (2 * 1) = 1).
  { rewrite (rsumn_ext (2 * 1) _ (fun _ => 1)) by exact V. rewrite rsumn_const. cbn. field. }
  split; [exact E1|].
  pose proof (C131_mean garbage 1 1 1 1 1 2 Inverse (fun _ _ => 1) (fun _ => 1) 3 1 (wsrc still) still 9 0 0 line
    ltac:(lra) ltac:(lra) ltac:(lia) ltac:(lia) ltac:(lia) ltac:(lia) ltac:(lia) ltac:(cbn; lia) (fun _ _ => Rlt_0_1) (fun _ => Rlt_0_1) still_wf still_len still_periodic still_reach ltac:(cbn; lia) still_whole still_div (fun b _ => HL b)) as E2.
  rewrite E1 in E2. change (1 + 1)%nat with 2%nat in *. cbn [rsumn] in *. lra.
Qed.
Print Assumptions C131_lines_refuted.

(** With diagonal removal in both domains the mean of the squared output is not
    the value the lines give, so C131_mean does not carry over. *)
Theorem C131_diagonal_refuted garbage : exists fs c h ov G M (rg : nat -> nat -> R) r0 reach num (src : source (list R)) s fuel g n0 x (line : nat -> R),
  0 < fs /\ 0 < c /\ (0 < h)%nat /\ (0 < ov)%nat /\ (1 < M)%nat /\ (g < G)%nat /\ (0 < num)%nat /\ (length s < fuel)%nat /\
  (forall g m, 0 < rg g m) /\ (forall g, 0 < r0 g) /\
  wf_source src s /\ (forall r, In r s -> (M <= length r)%nat) /\
  (forall z, x (z + Z.of_nat (2 * h))%Z = x z) /\ one_source fs c M x (r0 g) (rg g) s /\
  is_reach G M (fun g m => rg g m / c * fs) reach /\ (n0 + 2 * h <= length s - reach)%nat /\
  Nat.divide (2 * h) (length s * ov) /\
  (forall b, (b <= h)%nat -> map_value garbage (2 * h) ov M rectangular src (length s) fs c b Inverse true (r0 g) (rg g) = Some (line b)) /\
  rsumn (2 * h) (fun i => squared_removed G M Inverse c fs rg r0 src fuel num g (n0 + i)) / INR (2 * h) = / 2 /\
  rsumn (h + 1) line - (line 0%nat + line h) / 2 = 1.
Proof.
  destruct (still_removed garbage) as [line HL].
  exists 1, 1, 1%nat, 1%nat, 1%nat, 2%nat, (fun _ _ => 1), (fun _ => 1), 3%nat, 1%nat, (wsrc still), still, 9%nat, 0%nat, 0%nat, (fun _ => 1), line.
  repeat (split; [first [exact still_wf|exact still_len|exact still_source|exact still_reach|exact still_div|
    (intros b _; exact (HL b))|lra|cbn; lia|(intros; lra)]|]).
  destruct (C131_removed garbage 1 1 1 1 1 2 (fun _ _ => 1) (fun _ => 1) 3 1 (wsrc still) still 9 0 0 (fun _ => 1) line
    ltac:(lra) ltac:(lra) ltac:(lia) ltac:(lia) ltac:(lia) ltac:(lia) ltac:(lia) ltac:(cbn; lia) (fun _ _ => Rlt_0_1) (fun _ => Rlt_0_1) still_wf still_len (fun _ => eq_refl) still_source still_reach ltac:(cbn; lia) still_div (fun b _ => HL b)) as [_ [E2 E3]].
  rewrite E3, E2, rsumn_const. cbn. split; field.
Qed.
Print Assumptions C131_diagonal_refuted.
(** A case of the hypotheses of C131_mean and C131_removed: a signal 3, 1, 3, 1, ...
    at two microphones one and two samples away. *)
Definition swing (z : Z) : R := if Z.even z then 3 else 1.
Definition pair_far (m : nat) : R := INR (m + 1).
Definition swings : list (list R) := concat (repeat [[1; 3 / 2]; [3; 1 / 2]] 4).
Example C131_case :
  (forall z, swing (z + Z.of_nat (2 * 1))%Z = swing z) /\ one_source 1 1 2 swing 1 pair_far swings
  /\ periodic (2 * 1) 2 swings /\ is_reach 1 2 (fun _ m => pair_far m / 1 * 1) 4 /\ (0 + 2 * 1 <= length swings - 4)%nat
  /\ Nat.divide (2 * 1) (length swings * 1) /\ wf_source (wsrc swings) swings /\ (forall r, In r swings -> (2 <= length r)%nat)
  /\ (forall m, 0 < pair_far m) /\ (forall m, (m < 2)%nat -> exists k, pair_far m / 1 * 1 = INR k).
Proof.
  assert (P : forall m, 0 < pair_far m) by (intros; unfold pair_far; apply lt_0_INR; lia).
  split; [intros z; unfold swing; rewrite Z.even_add; cbn; now destruct (Z.even z)|].
  split; [intros m Hm; exists (m + 1)%nat; split; [unfold pair_far; field|]; intros t Ht; cbn in Ht;
    destruct m as [|[|]]; [| |lia]; (do 8 (destruct t as [|t]; [cbn; field|])); lia|].
  split; [intros t m Ht Hm; cbn in Ht; destruct m as [|[|]]; [| |lia]; (do 6 (destruct t as [|t]; [reflexivity|])); lia|].
  split; [split; [intros g m Hg Hm; destruct m as [|[|]]; [| |lia]; cbn; lra|exists 0%nat, 1%nat; repeat split; auto; cbn; lra]|].
  split; [cbn; lia|]. split; [exists 4%nat; reflexivity|]. split; [apply wsrc_ok; discriminate|].
  split; [intros r Hr; cbn in Hr; repeat (destruct Hr as [<-|Hr]; [cbn; lia|]); destruct Hr|].
  split; [exact P|]. intros m _. exists (m + 1)%nat. unfold pair_far. field.
Qed.
