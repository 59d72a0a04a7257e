(** C105: CLEAN in the time domain on moving grids. *)
From Coq Require Import List Arith Lia ZArith Bool Reals Lra FunctionalExtensionality.
From Verif Require Import Stream Cplx Buffer Wav TimeBeam Das DasTraj Beamform Deconv Rotation TimeSteer Cleant CleantTraj Props_TimeBeam.
Import ListNotations.
Local Open Scope R_scope.

(** ** Specification *)

(** Microphone [m] as heard for row [n] of the block when focussed on point [g]. *)
Definition heard (dl am : nat -> nat -> nat -> R) (q : nat -> nat -> R) n g m : R :=
  am n g m * (q (didx (dl n g m) + n)%nat m * (1 - dfrac (dl n g m))
              + q (didx (dl n g m) + n + 1)%nat m * dfrac (dl n g m)).
(** Moving-focus delay-and-sum and its energy in the block. *)
Definition focus M dl am q n g : R := rsumn M (heard dl am q n g).
Definition energy M dl am (rdiag : bool) num q g : R :=
  if rdiag then Rmax 0 (rsumn num (fun n => focus M dl am q n g * focus M dl am q n g
                                            - rsumn M (fun m => heard dl am q n g m * heard dl am q n g m)))
  else rsumn num (fun n => focus M dl am q n g * focus M dl am q n g).
(** What point [g] with the signal found there contributes to sample [i] of
    microphone [m]: interpolated between the arrival times of the rows. *)
Definition contribution M dl am (rm : nat -> nat -> nat -> R) (r0 : nat -> nat -> R) num q g i m : R :=
  polyline (map (fun n => (dl n g m + INR n, focus M dl am q n g * r0 n g / rm n g m)) (seq 0 num)) (INR i).

(** [out] results from [q] by at most n_iter iterations. *)
Definition clean_run G M dl am rm r0 damp rdiag num n_iter (q out : nat -> nat -> R) : Prop :=
  exists (J : nat) (stage : nat -> nat -> nat -> R) (peak : nat -> nat),
    (J <= n_iter)%nat /\ stage 0%nat = q
    /\ (forall j, (j < J)%nat ->
          (peak j < G)%nat
          /\ (forall g, (g < G)%nat -> energy M dl am rdiag num (stage j) g <= energy M dl am rdiag num (stage j) (peak j))
          /\ (forall i m, stage (S j) i m = stage j i m
                \/ stage (S j) i m = stage j i m - damp * contribution M dl am rm r0 num (stage j) (peak j) i m)
          /\ (forall i m n, (n < num)%nat -> (n + didx (dl n (peak j) m) <= i <= n + didx (dl n (peak j) m) + 1)%nat ->
                stage (S j) i m = stage j i m - damp * contribution M dl am rm r0 num (stage j) (peak j) i m)
          /\ rsumn G (energy M dl am rdiag num (stage (S j))) < rsumn G (energy M dl am rdiag num (stage j)))
    /\ (forall n g, out n g = rsumn J (fun j => if (g =? peak j)%nat then damp * focus M dl am (stage j) n g else 0)).

Lemma mphi_focus M dl am q n g : mphi M dl am q n g = focus M dl am q n g.
Proof. unfold mphi, focus. apply rsumn_ext. intros m _. unfold mtap, heard. cbv zeta. ring. Qed.
Lemma mopow_energy M dl am rdiag num q g : mopow M dl am rdiag num q g = energy M dl am rdiag num q g.
Proof.
  unfold mopow, energy. destruct rdiag.
  - f_equal. apply rsumn_ext. intros n _. rewrite mphi_focus. f_equal. unfold mauto. apply rsumn_ext. intros m _.
    unfold mtap, heard. cbv zeta. ring.
  - apply rsumn_ext. intros n _. now rewrite mphi_focus.
Qed.

Lemma window_run G M dl am rm r0 damp rdiag num n_iter q : (0 < G)%nat -> (forall n g m, 0 <= dl n g m) ->
  clean_run G M dl am rm r0 damp rdiag num n_iter q (gam (mcleaned G M dl am rm r0 damp rdiag num n_iter q)).
Proof.
  intros HG Hp.
  set (st0 := mkC q (fun _ _ => 0) (fun _ _ => 0)).
  set (f := mstep G M dl am rm r0 damp rdiag num).
  destruct (mloop_states G M dl am rm r0 damp rdiag num n_iter st0) as (J & HJ & E & Hd & _).
  exists J, (fun j => cq (Nat.iter j f st0)), (fun j => argmax G (mopow M dl am rdiag num (cq (Nat.iter j f st0)))).
  assert (SP : forall q' g i m, mspread M dl am rm r0 num q' g i m = contribution M dl am rm r0 num q' g i m).
  { intros q' g i m. unfold mspread, contribution. f_equal. apply map_ext. intros n. now rewrite mphi_focus. }
  assert (ST : forall j, cq (Nat.iter (S j) f st0) = mstrip M dl am rm r0 damp num (cq (Nat.iter j f st0))
                 (argmax G (mopow M dl am rdiag num (cq (Nat.iter j f st0))))) by reflexivity.
  split; [exact HJ|]. split; [reflexivity|]. split.
  - intros j Hj. destruct (argmax_spec G (mopow M dl am rdiag num (cq (Nat.iter j f st0))) HG) as [A1 A2].
    split; [exact A1|]. split; [intros g Hg; rewrite <- !mopow_energy; exact (A2 g Hg)|]. split; [|split].
    + intros i m. rewrite ST. unfold mstrip.
      rewrite <- SP. destruct (_ && _)%bool; [right|left]; reflexivity.
    + intros i m n Hn Hi. rewrite ST. unfold mstrip.
      rewrite <- SP. set (im := argmax _ _) in *.
      destruct (window_rows dl num im m n Hp Hn) as [B1 B2].
      rewrite (proj2 (Nat.leb_le _ _)) by lia. rewrite (proj2 (Nat.ltb_lt _ _)) by lia. reflexivity.
    + specialize (Hd j Hj). unfold mtotal in Hd.
      rewrite !(rsumn_ext G (energy M dl am rdiag num _) (mopow M dl am rdiag num _)) by (intros; now rewrite mopow_energy).
      exact Hd.
  - intros n g. unfold mcleaned. fold st0. rewrite E.
    etransitivity; [exact (mgam_iter G M dl am rm r0 damp rdiag num q n g J)|]. apply rsumn_ext. intros j _. cbv zeta. fold st0 f. now rewrite mphi_focus.
Qed.

(* C105, decomposition: every block that is delivered is the sum of damp times
   the output of the moving-focus beamformer over at most n_iter accepted
   iterations, each taken at the point of the largest power of the residual
   window.  From the residual the signal of that point is subtracted around the
   times at which it arrives at the microphones, weighted with the reference
   distance over the distance of the moment.  The residual power, summed over the
   grid, falls with every accepted iteration.  The first window holds the samples of
   the source from sample k num on; delays, amplitudes and distances are those
   of rows k num, k num + 1, ... *)
Theorem C105_decomposition : forall G M dl am rm r0 damp rdiag n_iter T num src s fuel k b,
  (0 < G)%nat -> (forall n g m, 0 <= dl n g m) -> (0 < num)%nat -> (0 < n_iter)%nat ->
  (forall r, In r s -> (M <= length r)%nat) -> wf_source src s -> (length s < fuel)%nat ->
  nth_error (blocks (mt_result G M dl am rm r0 damp rdiag CPlain n_iter None T src fuel num)) k = Some b ->
  exists q out,
    (forall i m, (k * num + i < length s)%nat -> (i < num + tmsd G M dl num k)%nat -> (m < M)%nat ->
        q i m = sample s (k * num + i) m)
    /\ (forall n g, (n < length b)%nat -> (g < G)%nat -> nth g (nth n b []) 0 = out n g)
    /\ clean_run G M (fun n => dl (k * num + n)%nat) (fun n => am (k * num + n)%nat) (fun n => rm (k * num + n)%nat)
         (fun n => r0 (k * num + n)%nat) damp rdiag (length b) n_iter q out.
Proof.
  intros G M dl am rm r0 damp rdiag n_iter T num src s fuel k b HG Hp Hn Hi Hc Hw Hf Hb.
  assert (X : b = block_window G M dl am rm r0 damp rdiag CPlain n_iter num k (length b)
                    (mwindow (weight_row None) [] (fun k => (num + tmsd G M dl num k)%nat) num s k)).
  { eapply mt_block; eauto. }
  set (p := mwindow (weight_row None) [] (fun k => (num + tmsd G M dl num k)%nat) num s k) in *.
  exists (sample p), (gam (mcleaned G M (fun n => dl (k * num + n)%nat) (fun n => am (k * num + n)%nat) (fun n => rm (k * num + n)%nat)
         (fun n => r0 (k * num + n)%nat) damp rdiag (length b) n_iter (sample p))).
  split; [|split].
  - intros i m H1 H2 Hm. apply (tmw_sample G M dl am None Hp num s Hn Hc); auto.
    unfold mwindow. rewrite map_length, seq_length. lia.
  - intros n g H1 H2. rewrite X at 1. unfold block_window, mclean_window.
    rewrite nth_map_seq by exact H1. rewrite nth_map_seq by exact H2. reflexivity.
  - apply window_run; [exact HG|]. intros. apply Hp.
Qed.
Print Assumptions C105_decomposition.

(* C105, rows: for a grid slower than sound the rows delivered are as many as
   BeamformerTimeTraj delivers: those that can be computed up to the first block
   [K] that with its largest delay does not fit.  The stream then ends, except
   when that block leaves no row. *)
Theorem C105_blocks_partial : forall G M dl am rm r0 damp rdiag o n_iter T num src s fuel,
  (forall n g m, 0 <= dl n g m) -> (0 < num)%nat -> (0 < n_iter)%nat ->
  (forall r, In r s -> (M <= length r)%nat) -> wf_source src s -> (length s < fuel)%nat ->
  (forall n, n + dmax G M dl n <= n + 1 + dmax G M dl (n + 1))%nat -> (0 < length s)%nat ->
  let t := mt_result G M dl am rm r0 damp rdiag o n_iter None T src fuel num in
  let b := traj_result G M out_sum dl am None T src fuel num in
  exists K, (K * num < length s)%nat /\
    (forall k, (k < K)%nat -> ((k + 1) * num + tmsd G M dl num k <= length s)%nat) /\
    (length s < (K + 1) * num + tmsd G M dl num K)%nat /\
    ((T < (K + 1) * num)%nat -> fin t = Raised RuntimeError) /\
    (((K + 1) * num <= T)%nat ->
       length (concat (blocks t)) = length (concat (blocks b))
       /\ (forall i, (i < (K + 1) * num)%nat -> (i < length (concat (blocks t)) <-> i + dmax G M dl i + 1 < length s)%nat)
       /\ (forall r, In r (concat (blocks t)) -> length r = G)
       /\ (forall x, In x (blocks t) -> x <> [])
       /\ fin t = (if length (concat (blocks t)) =? K * num then Raised ValueError else Finished)%nat).
Proof.
  intros G M dl am rm r0 damp rdiag o n_iter T num src s fuel Hp Hn Hi Hc Hw Hf Hs HN t b.
  destruct (mt_trace G M dl am rm r0 damp rdiag o n_iter None T num s Hn Hi src fuel Hp Hw Hf HN) as (K & H1 & H2 & H3 & H4 & H5).
  exists K. split; [exact H1|]. split; [exact H2|]. split; [exact H3|]. split; [exact H4|]. intros HT.
  destruct (traj_output G M out_sum dl am None T Hp num src s fuel Hn Hc Hw Hf eq_refl Hs HN) as (K' & K1 & K2 & K3 & _ & K5).
  assert (K' = K) as ->.
  { destruct (Nat.lt_trichotomy K' K) as [L|[L|L]]; [|exact L|].
    - specialize (H2 K' L). lia.
    - specialize (K2 K L). lia. }
  destruct (K5 HT) as (n & _ & E2 & E3 & E4). unfold computable in E3.
  set (c := count (fun i => dmax G M dl (K * num + i) + 1 + i <? length s - K * num)%nat num) in *.
  assert (C : (c <= num)%nat) by apply count_le.
  assert (L : length (concat (blocks t)) = (K * num + c)%nat).
  { unfold t. rewrite (H5 HT). cbn [blocks]. rewrite concat_app, app_length. f_equal.
    - clear - Hn. induction K as [|K IH]; [reflexivity|]. rewrite seq_S, map_app, concat_app, app_length, IH. cbn [map concat].
      rewrite app_nil_r. unfold block_window, mclean_window. rewrite map_length, seq_length. lia.
    - destruct (Nat.eqb_spec c 0) as [Z|Z]; [cbn; lia|]. cbn [concat]. rewrite app_nil_r.
      unfold block_window, mclean_window. now rewrite map_length, seq_length. }
  assert (N : n = (K * num + c)%nat).
  { assert (P : forall i, (i < num)%nat -> (i < c <-> (dmax G M dl (K * num + i) + 1 + i <? length s - K * num)%nat = true)%nat).
    { apply count_prefix_iff. exact (mono_count G M dl am Hp num s Hn K Hs). }
    assert (Q : forall i, (i < num)%nat -> (i < c <-> K * num + i < n)%nat).
    { intros i Hl. rewrite (P i Hl), Nat.ltb_lt. rewrite (E3 (K * num + i)%nat) by lia. lia. }
    assert (K * num <= n)%nat.
    { destruct K as [|K0]; [lia|]. specialize (H2 K0 ltac:(lia)).
      pose proof (tmsd_ge G M dl am Hp num K0 (num - 1) ltac:(lia)) as TM.
      assert ((K0 * num + (num - 1)) < n)%nat; [|lia]. apply E3; [lia|]. lia. }
    destruct (Nat.lt_trichotomy n (K * num + c)) as [L'|[L'|L']]; [|exact L'|].
    - specialize (Q (n - K * num)%nat ltac:(lia)). lia.
    - specialize (Q c ltac:(lia)). lia. }
  split; [|split; [|split; [|split]]].
  - rewrite L. unfold b. rewrite E2, map_length, seq_length. congruence.
  - intros i Hi'. rewrite L, <- N. exact (E3 i Hi').
  - intros r Hr. unfold t in Hr. rewrite (H5 HT) in Hr. cbn [blocks] in Hr. apply in_concat in Hr. destruct Hr as (bl & Hb & Hr).
    assert (X : exists k n', bl = block_window G M dl am rm r0 damp rdiag o n_iter num k n' (mwindow (weight_row None) [] (fun k => (num + tmsd G M dl num k)%nat) num s k)).
    { apply in_app_or in Hb. destruct Hb as [Hb|Hb].
      - apply in_map_iff in Hb. destruct Hb as (k & <- & _). eexists; eexists; reflexivity.
      - destruct (c =? 0)%nat; [destruct Hb|]. destruct Hb as [<-|[]]. eexists; eexists; reflexivity. }
    destruct X as (k & n' & ->). unfold block_window, mclean_window in Hr. apply in_map_iff in Hr. destruct Hr as (x & <- & _).
    now rewrite map_length, seq_length.
  - intros x Hx. unfold t in Hx. rewrite (H5 HT) in Hx. cbn [blocks] in Hx. apply in_app_or in Hx.
    assert (X : forall k n' p, (0 < n')%nat -> block_window G M dl am rm r0 damp rdiag o n_iter num k n' p <> []).
    { intros k n' p Hn' Z. apply (f_equal (@length _)) in Z. unfold block_window, mclean_window in Z. rewrite map_length, seq_length in Z. cbn in Z. lia. }
    destruct Hx as [Hx|Hx].
    + apply in_map_iff in Hx. destruct Hx as (k & <- & _). apply X. exact Hn.
    + destruct (Nat.eqb_spec c 0) as [Z|Z]; [destruct Hx|]. destruct Hx as [<-|[]]. apply X. lia.
  - rewrite L. unfold t. rewrite (H5 HT). cbn [fin].
    destruct (Nat.eqb_spec c 0), (Nat.eqb_spec (K * num + c) (K * num)); try lia; reflexivity.
Qed.
Print Assumptions C105_blocks_partial.

(* C105, at rest: for a grid that does not move, every full block is the one that
   BeamformerCleant delivers; one row more than there is delivered, and the
   stream ends without an exception when it is not shorter than the reach. *)
Theorem C105_rest : forall G M dly amp rm r0 damp rdiag o n_iter wts T num src s fuel reach,
  (forall g m, 0 <= dly g m) -> is_reach G M dly reach -> (0 < num)%nat -> (0 < n_iter)%nat ->
  wf_source src s -> (length s < fuel)%nat -> (reach <= length s)%nat -> (length s + num <= T)%nat ->
  let t := mt_result G M (fun _ => dly) (fun _ => amp) (fun _ => rm) (fun _ => r0) damp rdiag o n_iter wts T src fuel num in
  let b := ct_result G M dly amp rm r0 damp rdiag o n_iter wts src fuel num in
  fin t = Finished
  /\ length (concat (blocks t)) = (length s - reach + 1)%nat
  /\ length (concat (blocks b)) = (length s - reach)%nat
  /\ (forall k, ((k + 1) * num + reach <= length s)%nat ->
        nth_error (blocks t) k = nth_error (blocks b) k /\ nth_error (blocks t) k <> None).
Proof.
  intros G M dly amp rm r0 damp rdiag o n_iter wts T num src s fuel reach Hp Hr Hn Hi Hw Hf HR HT t b.
  assert (DM : forall n, (dmax G M (fun _ => dly) n + 2 = reach)%nat) by (intros n; now apply rest_dmax).
  assert (TM : forall k, tmsd G M (fun _ => dly) num k = reach).
  { intros k. unfold tmsd. apply nmax_spec.
    - intros x Hx. apply in_map_iff in Hx. destruct Hx as (i & <- & _). rewrite DM. lia.
    - apply in_map_iff. exists 0%nat. split; [apply DM|]. apply in_seq. lia. }
  pose proof (DM 0%nat) as D0.
  destruct (mt_trace G M (fun _ => dly) (fun _ => amp) (fun _ => rm) (fun _ => r0) damp rdiag o n_iter wts T num s Hn Hi src fuel
              (fun _ => Hp) Hw Hf ltac:(lia)) as (K & H1 & H2 & H3 & _ & H5).
  assert (HK : ((K + 1) * num <= T)%nat) by lia. specialize (H5 HK). fold t in H5. rewrite TM in H3.
  set (c := count _ num) in H5.
  assert (C : c = (length s - reach + 1 - K * num)%nat /\ (0 < c)%nat).
  { assert (LE : (K * num + reach <= length s)%nat).
    { destruct K as [|K0]; [lia|]. specialize (H2 K0 ltac:(lia)). rewrite TM in H2. lia. }
    assert (c = (length s - reach + 1 - K * num)%nat); [|lia]. unfold c.
    rewrite <- (count_lt (length s - reach + 1 - K * num) num) by lia. unfold count. f_equal. apply filter_ext. intros i.
    pose proof (DM (K * num + i)%nat).
    destruct (Nat.ltb_spec (dmax G M (fun _ => dly) (K * num + i) + 1 + i) (length s - K * num)),
      (Nat.ltb_spec i (length s - reach + 1 - K * num)); lia || reflexivity. }
  destruct C as [Cv Cp]. rewrite (proj2 (Nat.eqb_neq c 0)) in H5 by lia.
  pose proof (ct_trace G M dly amp rm r0 damp rdiag o n_iter wts num s Hn Hi src fuel Hw Hf) as CT. fold b in CT.
  rewrite (reach_msd G M dly reach Hp Hr) in CT.
  assert (WL : forall k n p, length (clean_window G M dly amp rm r0 damp rdiag o n n_iter p) = n
     /\ length (block_window G M (fun _ => dly) (fun _ => amp) (fun _ => rm) (fun _ => r0) damp rdiag o n_iter num k n p) = n).
  { intros k n p. unfold clean_window, block_window, mclean_window. split; now rewrite map_length, seq_length. }
  split; [now rewrite H5|]. split; [|split].
  - rewrite H5. cbn [blocks]. rewrite concat_app, app_length. cbn [concat]. rewrite app_nil_r, (proj2 (WL K c _)).
    assert (X : forall j w, length (concat (map (fun k => block_window G M (fun _ => dly) (fun _ => amp) (fun _ => rm) (fun _ => r0) damp rdiag o n_iter num k num (w k)) (seq 0 j))) = (j * num)%nat).
    { intros j w. induction j as [|j IH]; [reflexivity|]. rewrite seq_S, map_app, concat_app, app_length, IH. cbn [map concat].
      rewrite app_nil_r, (proj2 (WL _ _ _)). lia. }
    rewrite X. lia.
  - rewrite CT. cbn [blocks].
    assert (X : forall j, (j <= (length s - reach + num - 1) / num)%nat ->
      length (concat (map (fun k => clean_window G M dly amp rm r0 damp rdiag o (Nat.min num (length s - reach - k * num)) n_iter
         (mwindow (weight_row wts) [] (fun _ => (num + reach)%nat) num s k)) (seq 0 j))) = Nat.min (j * num) (length s - reach)).
    { induction j as [|j IH]; intros Hj; [reflexivity|]. rewrite seq_S, map_app, concat_app, app_length, IH by lia. cbn [map concat].
      rewrite app_nil_r, (proj1 (WL 0%nat _ _)). cbn [Nat.add].
      pose proof (proj2 (ceil_div_lt (length s - reach) num j Hn) ltac:(lia)). lia. }
    rewrite X by lia. apply Nat.min_r.
    destruct (Nat.eq_dec (length s - reach) 0) as [Z|Z]; [lia|].
    pose proof (Nat.div_mod (length s - reach + num - 1) num ltac:(lia)) as DV.
    pose proof (Nat.mod_upper_bound (length s - reach + num - 1) num ltac:(lia)). nia.
  - intros k Hk.
    assert (kK : (k < K)%nat).
    { destruct (le_lt_dec K k) as [L|L]; [|exact L]. exfalso. assert (K * num <= k * num)%nat by (apply Nat.mul_le_mono_r; exact L). lia. }
    assert (kB : (k < (length s - reach + num - 1) / num)%nat) by (apply ceil_div_lt; [exact Hn|]; lia).
    rewrite H5, CT. cbn [blocks]. rewrite nth_error_app1 by (rewrite map_length, seq_length; exact kK).
    assert (SE : forall a n, (a < n)%nat -> nth_error (seq 0 n) a = Some a).
    { intros a n Ha. rewrite (nth_error_nth' _ 0%nat) by (rewrite seq_length; exact Ha). now rewrite seq_nth. }
    rewrite (map_nth_error _ k (seq 0 K) (SE k K kK)).
    rewrite (map_nth_error _ k (seq 0 ((length s - reach + num - 1) / num)) (SE k _ kB)).
    split; [|discriminate]. f_equal. unfold block_window. rewrite (rest_window G M dly amp rm r0 damp rdiag Hp o num n_iter _ Hn).
    replace (Nat.min num (length s - reach - k * num)) with num by lia.
    do 2 f_equal. apply functional_extensionality. intros k'. now rewrite TM.
Qed.
Print Assumptions C105_rest.

(* C105, end: a grid moving away slower than sound.  The block that
   BeamformerTimeTraj ends with has no rows; here it ends the generator with a
   ValueError. *)
Theorem C105_end_refuted : exists G M dl am rm r0 s,
  (forall n g m, 0 <= dl n g m) /\ (forall r, In r s -> length r = M) /\ wf_source (wsrc s) s /\
  (forall n, n + dmax G M dl n <= n + 1 + dmax G M dl (n + 1))%nat /\
  fin (traj_result G M out_sum dl am None 100 (wsrc s) 5 2) = Finished /\
  (forall damp rdiag o n_iter, (0 < n_iter)%nat ->
     fin (mt_result G M dl am rm r0 damp rdiag o n_iter None 100 (wsrc s) 5 2) = Raised ValueError).
Proof.
  set (f := fun n => (n / 2)%nat).
  exists 1%nat, 1%nat, (fun n _ _ => INR (f n)), (fun _ _ _ => 1), (fun _ _ _ => 1), (fun _ _ => 1), (repeat [1] 4).
  assert (W : wf_source (wsrc (repeat [1] 4)) (repeat [1] 4)) by (apply wsrc_ok; discriminate).
  assert (R1 : forall r, In r (repeat [1] 4) -> length r = 1%nat) by (intros r H; apply repeat_spec in H; subst; reflexivity).
  assert (P : forall n g m : nat, 0 <= (fun n _ _ : nat => INR (f n)) n g m) by (intros; apply pos_INR).
  assert (S : forall n, (n + dmax 1 1 (fun n _ _ => INR (f n)) n <= n + 1 + dmax 1 1 (fun n _ _ => INR (f n)) (n + 1))%nat).
  { intros n. rewrite !dmax_one. unfold f. pose proof (Nat.div_le_mono n (n + 1) 2 ltac:(lia) ltac:(lia)). lia. }
  split; [exact P|]. split; [exact R1|]. split; [exact W|]. split; [exact S|]. split.
  - destruct (traj_output 1 1 out_sum (fun n _ _ => INR (f n)) (fun _ _ _ => 1) None 100 P 2 (wsrc (repeat [1] 4)) (repeat [1] 4) 5
        ltac:(lia) ltac:(intros r H; rewrite (R1 r H); lia) W ltac:(simpl; lia) eq_refl S ltac:(simpl; lia)) as (K & H1 & _ & _ & _ & H5).
    change (length (repeat [1] 4)) with 4%nat in H1. destruct (H5 ltac:(lia)) as (n & E & _). exact E.
  - intros damp rdiag o n_iter Hi.
    destruct (mt_trace 1 1 (fun n _ _ => INR (f n)) (fun _ _ _ => 1) (fun _ _ _ => 1) (fun _ _ => 1) damp rdiag o n_iter None 100 2 (repeat [1] 4)
        ltac:(lia) Hi (wsrc (repeat [1] 4)) 5 P W ltac:(simpl; lia) ltac:(simpl; lia)) as (K & H1 & _ & H3 & _ & H5).
    change (length (repeat [1] 4)) with 4%nat in *.
    assert (K = 1%nat) as ->.
    { destruct K as [|[|K]]; [|reflexivity|lia]. rewrite tmsd_one in H3. vm_compute in H3. lia. }
    rewrite (H5 ltac:(lia)). cbn [fin].
    assert (Z : count (fun i => dmax 1 1 (fun n _ _ => INR (f n)) (1 * 2 + i) + 1 + i <? 4 - 1 * 2)%nat 2 = 0%nat).
    { unfold count. cbn [seq filter]. rewrite !dmax_one. reflexivity. }
    rewrite Z. reflexivity.
Qed.
Print Assumptions C105_end_refuted.

(* One microphone, one point, constant delay of one sample: six samples give four
   rows, in two full blocks. *)
Example C105_case : forall damp rdiag o,
  let t := mt_result 1 1 (fun _ _ _ => INR 1) (fun _ _ _ => 1) (fun _ _ _ => 1) (fun _ _ => 1) damp rdiag o 3 None 100 (wsrc (repeat [1] 6)) 7 2 in
  fin t = Finished /\ length (concat (blocks t)) = 4%nat /\ nth_error (blocks t) 0 <> None.
Proof.
  intros damp rdiag o t.
  destruct (C105_rest 1 1 (fun _ _ => INR 1) (fun _ _ => 1) (fun _ _ => 1) (fun _ => 1) damp rdiag o 3 None 100 2 (wsrc (repeat [1] 6)) (repeat [1] 6) 7 3)
    as (A & B & _ & D); try (simpl; lia).
  - intros. apply pos_INR.
  - exact (const_reach 1).
  - apply wsrc_ok. discriminate.
  - split; [exact A|]. split; [exact B|]. apply D. simpl. lia.
Qed.
(* The decomposition with one accepted iteration, damp = 1: the residual power
   falls from 9 to 0. *)
Example C105_decomposition_case :
  let q := fun i _ : nat => if (i =? 0)%nat then 3 else 0 in
  gam (mcleaned 1 1 (fun _ _ _ => INR 0) (fun _ _ _ => 1) (fun _ _ _ => 1) (fun _ _ => 1) 1 false 1 1 q) 0 0 = 3.
Proof.
  intros q.
  assert (D : didx (INR 0) = 0%nat) by apply didx_INR. assert (F : dfrac (INR 0) = 0) by apply dfrac_INR.
  assert (PH : forall q', mphi 1 (fun _ _ _ => INR 0) (fun _ _ _ => 1) q' 0 0 = q' 0%nat 0%nat).
  { intros q'. unfold mphi, mtap. cbn [rsumn]. rewrite D, F. cbv zeta. cbn [Nat.add]. ring. }
  unfold mcleaned. cbn [mloop]. cbv zeta. destruct (Rlt_dec _ _) as [H|H].
  - cbn [mstep gam argmax]. change (argmax 1 ?f) with 0%nat. cbn [Nat.eqb cq gam]. rewrite PH. unfold q. cbn [Nat.eqb]. ring.
  - exfalso. apply H. clear H. unfold mtotal. cbn [rsumn]. unfold mopow. cbn [rsumn]. rewrite !PH. cbn [mstep cq].
    change (argmax 1 ?f) with 0%nat. unfold mstrip, ind_min, ind_max, t_float, mspread. cbn [seq map rmin_of rmax_of fold_left].
    rewrite !PH. replace (INR 0 + INR 0) with (INR 0) by (simpl; ring). rewrite D. cbn [Nat.leb Nat.ltb andb].
    change ((0 <? 0 + 2)%nat) with true. cbn [andb]. cbn [polyline]. unfold q. cbn [Nat.eqb]. cbn [Nat.add snd]. lra.
Qed.
