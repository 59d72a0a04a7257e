(* Property C78: CLEAN in the time domain. *)
From Coq Require Import List Arith Lia ZArith Bool Reals Lra.
From Verif Require Import Stream Cplx Beamform Wav TimeBeam Das DasTraj Deconv Rotation TimeSteer Cleant Props_TimeBeam.
Import ListNotations.
Local Open Scope R_scope.

(* C78, blocks: with at least one iteration the output has one row for every
   sample that lies its reach (largest delay, rounded down, plus two) before the end of the source, in blocks of
   [num] rows of which the last may be shorter; the iteration ends with an
   exception if the source delivers windows after the last complete one. *)
Theorem C78_blocks_partial : forall G M dly amp rm r0 damp rdiag o n_iter wts num src s fuel reach,
  (0 < num)%nat -> (0 < n_iter)%nat -> wf_source src s -> (length s < fuel)%nat ->
  (forall g m, 0 <= dly g m) -> is_reach G M dly reach ->
  let t := ct_result G M dly amp rm r0 damp rdiag o n_iter wts src fuel num in
  map (@length (list R)) (blocks t)
  = map (fun k => Nat.min num (length s - reach - k * num)) (seq 0 ((length s - reach + num - 1) / num))
  /\ (forall b r, In b (blocks t) -> In r b -> length r = G)
  /\ ((length s + num - 1) / num <= (length s - reach + num - 1) / num <-> fin t = Finished)%nat.
Proof.
  intros G M dly amp rm r0 damp rdiag o n_iter wts num src s fuel reach Hn Hi Hw Hf Hp Hr t. unfold t.
  rewrite (ct_trace G M dly amp rm r0 damp rdiag o n_iter wts num s Hn Hi src fuel Hw Hf). cbn [blocks fin].
  rewrite (reach_msd G M dly reach Hp Hr). clear Hr.
  split; [|split].
  - rewrite map_map. apply map_ext. intros k. unfold clean_window. now rewrite map_length, seq_length.
  - intros b r Hb Hr. apply in_map_iff in Hb. destruct Hb as (k & <- & _).
    unfold clean_window in Hr. apply in_map_iff in Hr. destruct Hr as (n & <- & _). now rewrite map_length, seq_length.
  - destruct (Nat.leb_spec ((length s + num - 1) / num) ((length s - reach + num - 1) / num)); split; intros; auto; try lia; discriminate.
Qed.
Print Assumptions C78_blocks_partial.

(* C78, decomposition: the output of a window is the sum of damp times the
   beamformer output over at most n_iter accepted iterations, each taken at the
   point of the largest power of the residual window, and the residual power,
   summed over the grid, falls strictly with every accepted iteration.
   [stage j] is the residual window after j iterations. *)
Theorem C78_decomposition : forall G M dly amp rm r0 damp rdiag num n_iter q,
  (0 < G)%nat ->
  exists (J : nat) (stage : nat -> nat -> nat -> R) (peak : nat -> nat),
    (J <= n_iter)%nat /\ stage 0%nat = q
    /\ (forall j, (j < J)%nat ->
          (peak j < G)%nat
          /\ (forall g, (g < G)%nat -> mpow M dly amp rdiag num (stage j) g <= mpow M dly amp rdiag num (stage j) (peak j))
          /\ (forall i m, stage (S j) i m
                = stage j i m
                  - (if ((didx (dly (peak j) m) <=? i) && (i <=? didx (dly (peak j) m) + num))%nat
                     then damp * spread M dly amp rm r0 num (stage j) (peak j) i m else 0))
          /\ rsumn G (mpow M dly amp rdiag num (stage (S j))) < rsumn G (mpow M dly amp rdiag num (stage j)))
    /\ (forall n g, gam (cleaned G M dly amp rm r0 damp rdiag num n_iter q) n g
          = rsumn J (fun j => if (g =? peak j)%nat then damp * phi M dly amp (stage j) n g else 0)).
Proof.
  intros G M dly amp rm r0 damp rdiag num n_iter q HG.
  set (st0 := mkC q (fun _ _ => 0) (fun _ _ => 0)).
  set (f := cstep G M dly amp rm r0 damp rdiag num).
  destruct (cloop_states G M dly amp rm r0 damp rdiag num n_iter st0) as (J & HJ & E & Hd & _).
  exists J, (fun j => cq (Nat.iter j f st0)), (fun j => argmax G (mpow M dly amp rdiag num (cq (Nat.iter j f st0)))).
  split; [exact HJ|]. split; [reflexivity|]. split.
  - intros j Hj. destruct (argmax_spec G (mpow M dly amp rdiag num (cq (Nat.iter j f st0))) HG) as [A1 A2].
    split; [exact A1|]. split; [exact A2|]. split; [|exact (Hd j Hj)].
    intros i m. change (Nat.iter (S j) f st0) with (f (Nat.iter j f st0)). unfold f at 1. cbn [cstep cq]. unfold strip.
    cbv zeta. destruct (_ && _)%bool; ring.
  - intros n g. unfold cleaned. fold st0. rewrite E. exact (gam_iter G M dly amp rm r0 damp rdiag num q n g J).
Qed.
Print Assumptions C78_decomposition.

(* C78, one point: for a single grid point, whole-sample delays and the
   formulations that keep the level, the deconvolved signal is the beamformer
   signal times 1 - (1 - damp)^n_iter, whatever the block size. *)
Theorem C78_one_point : forall M dly rm r0 st damp n_iter (d : nat -> nat) num src s fuel reach,
  (0 < M)%nat -> 0 < r0 0%nat -> (forall m, (m < M)%nat -> 0 < rm 0%nat m) -> 0 < damp <= 1 ->
  st = Inverse \/ st = TrueLevel ->
  (forall g m, 0 <= dly g m) -> (forall m, (m < M)%nat -> dly 0%nat m = INR (d m)) -> is_reach 1 M dly reach ->
  (0 < num)%nat -> (0 < n_iter)%nat ->
  (forall r, In r s -> (M <= length r)%nat) -> wf_source src s -> (length s < fuel)%nat ->
  let amp := fun g m => steer_time st M (rm g) (r0 g) m in
  concat (blocks (ct_result 1 M dly amp rm r0 damp false CPlain n_iter None src fuel num))
  = map (fun n => map (Rmult (1 - (1 - damp) ^ n_iter)) (das_row 1 M out_sum dly amp s n))
        (seq 0 (length s - reach)).
Proof.
  intros M dly rm r0 st damp n_iter d num src s fuel reach ? ? ? ? ? Hp ? Hr ? ? ? ? ? amp.
  rewrite <- (reach_msd 1 M dly reach Hp Hr). now apply one_point_stream with (d := d).
Qed.
Print Assumptions C78_one_point.

(* C78, squares: without removal of the diagonal BeamformerCleantSq delivers the
   squares of what BeamformerCleant delivers. *)
Theorem C78_squares : forall G M dly amp rm r0 damp n_iter wts num src s fuel,
  (0 < num)%nat -> (0 < n_iter)%nat -> wf_source src s -> (length s < fuel)%nat ->
  let t := ct_result G M dly amp rm r0 damp false CPlain n_iter wts src fuel num in
  ct_result G M dly amp rm r0 damp false CSquare n_iter wts src fuel num
  = mkTrace (map (map (map (fun x => x * x))) (blocks t)) (fin t).
Proof.
  intros G M dly amp rm r0 damp n_iter wts num src s fuel Hn Hi Hw Hf t. unfold t.
  rewrite !(ct_trace G M dly amp rm r0 damp false _ n_iter wts num s Hn Hi src fuel Hw Hf). cbn [blocks fin].
  f_equal. rewrite map_map. apply map_ext. intros k. unfold clean_window. cbv zeta.
  rewrite map_map. apply map_ext. intros n. now rewrite map_map.
Qed.
Print Assumptions C78_squares.


Lemma didx_1 : didx 1 = 1%nat.
Proof. exact (didx_INR 1). Qed.
Lemma dfrac_1 : dfrac 1 = 0.
Proof. exact (dfrac_INR 1). Qed.

Definition two_delays (g m : nat) : R := INR (S g).
Definition ramp : list (list R) := [[0];[1];[2];[0];[0];[0]].
Definition one_mic (g m : nat) : R := steer_time Classic 1 (two_delays g) 1 m.

Lemma reach2 : is_reach 2 1 two_delays 4.
Proof.
  split.
  - intros g m Hg Hm. unfold two_delays. destruct g as [|[|]]; simpl; lra || lia.
  - exists 1%nat, 0%nat. repeat split; try lia. unfold two_delays. simpl. lra.
Qed.
Lemma two_pos g m : 0 <= two_delays g m. Proof. apply pos_INR. Qed.

Lemma tap2 q n g : phi 1 two_delays one_mic q n g = q (S g + n)%nat 0%nat.
Proof.
  unfold phi, ctap. cbn [rsumn]. unfold two_delays at 1 2 3 4. rewrite didx_INR, dfrac_INR.
  unfold one_mic, steer_time, steer_I. simpl INR. field.
Qed.

Lemma first_row num : (0 < num)%nat -> exists bs,
  blocks (ct_result 2 1 two_delays one_mic two_delays (fun _ => 1) 1 false CPlain 1 None (wsrc ramp) 7 num) =
  clean_window 2 1 two_delays one_mic two_delays (fun _ => 1) 1 false CPlain (Nat.min num 2) 1
    (mwindow (weight_row None) [] (fun _ => (num + 4)%nat) num ramp 0) :: bs.
Proof.
  intros Hn. rewrite (ct_trace 2 1 two_delays one_mic two_delays (fun _ => 1) 1 false CPlain 1 None num ramp Hn ltac:(lia))
    by (try (apply wsrc_ok; discriminate); simpl; lia).
  rewrite (reach_msd _ _ _ _ two_pos reach2). cbn [blocks].
  change (length ramp) with 6%nat. destruct ((6 - 4 + num - 1) / num)%nat as [|b] eqn:E.
  - apply Nat.div_small_iff in E; lia.
  - cbn [seq map]. eexists. reflexivity.
Qed.


Lemma pow2 num q g : mpow 1 two_delays one_mic false num q g
  = rsumn num (fun n => q (S g + n)%nat 0%nat * q (S g + n)%nat 0%nat).
Proof. unfold mpow. apply rsumn_ext. intros n _. now rewrite tap2. Qed.

Lemma strip2 num q g i : strip 1 two_delays one_mic two_delays (fun _ => 1) 1 num q g i 0 =
  if ((S g <=? i) && (i <=? S g + num))%nat
  then q i 0%nat - polyline (map (fun n => (INR (S g) + INR n, q (S g + n)%nat 0%nat / INR (S g))) (seq 0 num)) (INR i)
  else q i 0%nat.
Proof.
  unfold strip, spread. cbv zeta. unfold two_delays at 1 2. rewrite didx_INR.
  destruct (_ && _)%bool; [|reflexivity]. rewrite Rmult_1_l. f_equal. f_equal. apply map_ext. intros n.
  rewrite tap2, Rmult_1_r. reflexivity.
Qed.

(* C78, block size: the deconvolved signal of a sample depends on the size of
   the blocks.  One microphone, two points, c / sample_freq = 1, damp = 1, one
   iteration. *)
Theorem C78_block_size_refuted : exists rm r0 s,
  let amp := fun g m => steer_time Classic 1 (rm g) (r0 g) m in
  let out := fun num => concat (blocks (ct_result 2 1 rm amp rm r0 1 false CPlain 1 None (wsrc s) 7 num)) in
  wf_source (wsrc s) s /\ (forall g m, 0 < rm g m) /\ (forall g, 0 < r0 g)
  /\ nth 0 (out 1%nat) [] = [0; 2] /\ nth 0 (out 2%nat) [] = [1; 0].
Proof.
  exists two_delays, (fun _ => 1), ramp. cbv zeta. fold one_mic.
  split; [apply wsrc_ok; discriminate|]. split; [intros; apply lt_0_INR; lia|]. split; [intros; lra|].
  destruct (first_row 1 ltac:(lia)) as (b1 & E1). destruct (first_row 2 ltac:(lia)) as (b2 & E2).
  change (fun g m => steer_time Classic 1 (two_delays g) 1 m) with one_mic. rewrite E1, E2. clear E1 E2.
  split.
  - set (w := mwindow _ _ _ _ _ _).
    assert (W : forall i, (i < 5)%nat -> sample w i 0 = sample ramp i 0).
    { intros i Hi. apply (mw_plain 5 1 ramp 0 i 0 Hi). simpl. lia. }
    cbn [concat]. unfold clean_window. cbv zeta. cbn [Nat.min seq map app nth cval].
    unfold cleaned. cbn [cloop]. cbv zeta. unfold total. cbn [cstep cq rsumn gam argmax].
    rewrite !pow2. cbn [rsumn Nat.add]. rewrite !W by lia.
    change (sample ramp 1 0) with 1. change (sample ramp 2 0) with 2.
    destruct (Rlt_dec (0 + 1 * 1) (0 + 2 * 2)) as [_|B]; [|lra].
    rewrite !strip2. cbn [Nat.add Nat.leb andb seq map polyline snd INR]. rewrite !W by lia.
    change (sample ramp 1 0) with 1. change (sample ramp 2 0) with 2.
    destruct (Rlt_dec _ _) as [_|B].
    + cbn [gam cstep cq argmax]. cbv zeta. rewrite !pow2. cbn [rsumn Nat.add]. rewrite !W by lia.
      change (sample ramp 1 0) with 1. change (sample ramp 2 0) with 2.
      destruct (Rlt_dec (0 + 1 * 1) (0 + 2 * 2)) as [_|B]; [|lra].
      cbn [Nat.eqb]. rewrite tap2. cbn [Nat.add]. rewrite W by lia. change (sample ramp 2 0) with 2.
      f_equal. f_equal. ring.
    + exfalso. apply B. lra.
  - set (w := mwindow _ _ _ _ _ _).
    assert (W : forall i, (i < 6)%nat -> sample w i 0 = sample ramp i 0).
    { intros i Hi. apply (mw_plain 6 2 ramp 0 i 0 Hi). simpl. lia. }
    cbn [concat]. unfold clean_window. cbv zeta. cbn [Nat.min seq map app nth cval].
    unfold cleaned. cbn [cloop]. cbv zeta. unfold total. cbn [cstep cq rsumn gam argmax].
    rewrite !pow2. cbn [rsumn Nat.add]. rewrite !(W 1%nat), !(W 2%nat), !(W 3%nat) by lia.
    change (sample ramp 1 0) with 1. change (sample ramp 2 0) with 2. change (sample ramp 3 0) with 0.
    destruct (Rlt_dec (0 + 1 * 1 + 2 * 2) (0 + 2 * 2 + 0 * 0)) as [B|_]; [lra|].
    rewrite !strip2. cbn [Nat.add Nat.leb andb seq map].
    pose proof (polyline_nodes (INR 1) (fun n => sample w (S n) 0 / INR 1) 1 0) as P.
    cbn [seq map Nat.add] in P.
    pose proof (P 0%nat) as P0. pose proof (P 1%nat) as P1. pose proof (P 2%nat) as P2. clear P.
    cbn [Nat.min] in P0, P1, P2.
    replace (INR 1 + INR 0) with (INR 1) in P0 at 2 by (simpl; lra).
    replace (INR 1 + INR 1) with (INR 2) in P1 at 2 by (simpl; lra).
    replace (INR 1 + INR 2) with (INR 3) in P2 by (simpl; lra).
    rewrite P0, P1, P2, !(W 1%nat), !(W 2%nat), !(W 3%nat) by lia.
    change (sample ramp 1 0) with 1. change (sample ramp 2 0) with 2. change (sample ramp 3 0) with 0.
    destruct (Rlt_dec _ _) as [_|B].
    + cbn [gam cstep cq argmax]. cbv zeta. rewrite !pow2. cbn [rsumn Nat.add]. rewrite !(W 1%nat), !(W 2%nat), !(W 3%nat) by lia.
      change (sample ramp 1 0) with 1. change (sample ramp 2 0) with 2. change (sample ramp 3 0) with 0.
      destruct (Rlt_dec (0 + 1 * 1 + 2 * 2) (0 + 2 * 2 + 0 * 0)) as [B|_]; [lra|].
      cbn [Nat.eqb]. rewrite tap2. cbn [Nat.add]. rewrite W by lia. change (sample ramp 1 0) with 1.
      f_equal. ring.
    + exfalso. apply B. simpl INR. lra.
Qed.
Print Assumptions C78_block_size_refuted.

(* C78, sign: with removal of the diagonal the squared output can be negative;
   BeamformerTimeSq would deliver zero.  Two microphones, one point, damp = 1. *)
Definition opposed : list (list R) := [[0;0];[1;-1];[2;2];[0;0];[0;0]].
Definition half_amp (g m : nat) : R := steer_time Classic 2 (fun _ => 1) 1 m.

Lemma tap_half q n g m : ctap (fun _ _ => 1) half_amp q n g m = q (S n) m / 2.
Proof.
  unfold ctap. rewrite didx_1, dfrac_1.
  unfold half_amp, steer_time, steer_I. simpl INR. cbn [Nat.add]. field.
Qed.

Lemma reach_half : is_reach 1 2 (fun _ _ => 1) 3.
Proof.
  split; [intros; simpl; lra|]. exists 0%nat, 0%nat. repeat split; try lia. simpl. lra.
Qed.

Theorem C78_negative_refuted : exists rm r0 s,
  let amp := fun g m => steer_time Classic 2 (rm g) (r0 g) m in
  let out := concat (blocks (ct_result 1 2 rm amp rm r0 1 true CSquare 1 None (wsrc s) 6 2)) in
  let das := concat (blocks (bft_result 1 2 out_sqdiag rm amp None (wsrc s) 6 2)) in
  wf_source (wsrc s) s /\ (forall g m, 0 < rm g m) /\ (forall g, 0 < r0 g)
  /\ nth 0 (nth 0 out []) 0 = - (1 / 2) /\ nth 0 (nth 0 das []) 0 = 0.
Proof.
  exists (fun _ _ => 1), (fun _ => 1), opposed. cbv zeta.
  split; [apply wsrc_ok; discriminate|]. split; [intros; lra|]. split; [intros; lra|].
  change (fun g m => steer_time Classic 2 (fun _ => 1) 1 m) with half_amp.
  assert (P : forall g m : nat, 0 <= 1) by (intros; lra). split.
  - rewrite (ct_trace 1 2 (fun _ _ => 1) half_amp (fun _ _ => 1) (fun _ => 1) 1 true CSquare 1 None 2 opposed ltac:(lia) ltac:(lia))
      by (try (apply wsrc_ok; discriminate); simpl; lia).
    rewrite (reach_msd _ _ _ _ P reach_half). cbn [blocks].
    change ((length opposed - 3 + 2 - 1) / 2)%nat with 1%nat. cbn [seq map concat].
    change (Nat.min 2 (length opposed - 3 - 0 * 2)) with 2%nat.
    set (w := mwindow _ _ _ _ _ _).
    assert (W : forall i m, (i < 5)%nat -> sample w i m = sample opposed i m).
    { intros i m Hi. apply (mw_plain 5 2 opposed 0 i m Hi). simpl. lia. }
    set (q := sample w) in *.
    assert (PH : forall q n, phi 2 (fun _ _ => 1) half_amp q n 0 = q (S n) 0%nat / 2 + q (S n) 1%nat / 2).
    { intros. unfold phi. cbn [rsumn]. rewrite !tap_half. ring. }
    assert (AU : forall q n, autopow 2 (fun _ _ => 1) half_amp q n 0
                 = q (S n) 0%nat / 2 * (q (S n) 0%nat / 2) + q (S n) 1%nat / 2 * (q (S n) 1%nat / 2)).
    { intros. unfold autopow. cbn [rsumn]. rewrite !tap_half. ring. }
    set (q1 := strip 2 (fun _ _ => 1) half_amp (fun _ _ => 1) (fun _ => 1) 1 2 q 0).
    assert (Q1 : forall i m, (1 <= i <= 2)%nat -> q1 i m = q i m - (q i 0%nat / 2 + q i 1%nat / 2)).
    { intros i m Hi. unfold q1, strip, spread. cbv zeta. rewrite didx_1.
      rewrite (proj2 (Nat.leb_le 1 i)) by lia. rewrite (proj2 (Nat.leb_le i _)) by lia. cbn [andb]. rewrite Rmult_1_l.
      f_equal. transitivity (phi 2 (fun _ _ => 1) half_amp q (i - 1) 0).
      - pose proof (polyline_nodes 1 (fun n => phi 2 (fun _ _ => 1) half_amp q n 0 * 1 / 1) 1 0 (i - 1)) as N.
        replace (1 + INR (0 + (i - 1))) with (INR i) in N.
        + rewrite N. replace (0 + Nat.min (i - 1) 1)%nat with (i - 1)%nat by lia. field.
        + cbn [Nat.add]. rewrite minus_INR by lia. simpl. ring.
      - rewrite PH. replace (S (i - 1)) with i by lia. reflexivity. }
    unfold clean_window. cbv zeta. cbn [seq map app nth cval].
    unfold cleaned. cbn [cloop]. cbv zeta. cbn [cstep cq argmax]. unfold total. cbn [rsumn]. unfold mpow. cbn [rsumn].
    fold q. fold q1. rewrite !PH, !AU, !Q1 by lia.
    rewrite !(W 1 0)%nat, !(W 1 1)%nat, !(W 2 0)%nat, !(W 2 1)%nat by lia.
    change (sample opposed 1 0) with 1. change (sample opposed 1 1) with (-1).
    change (sample opposed 2 0) with 2. change (sample opposed 2 1) with 2.
    destruct (Rlt_dec _ _) as [_|B].
    + cbn [cstep argmax cq gam gau Nat.eqb]; cbv zeta. rewrite PH, AU, !(W 1 0)%nat, !(W 1 1)%nat by lia.
      change (sample opposed 1 0) with 1. change (sample opposed 1 1) with (-1). lra.
    + exfalso. apply B. rewrite Rmax_left by lra. rewrite Rmax_right by lra. lra.
  - rewrite (C50_output_partial 1 2 out_sqdiag (fun _ _ => 1) half_amp 3 2 (wsrc opposed) opposed 6)
      by (try (apply wsrc_ok; discriminate); try exact reach_half; auto; try lia; simpl; try lia;
          intros r [<-|[<-|[<-|[<-|[<-|[]]]]]]; simpl; lia).
    cbn [length opposed Nat.sub seq map nth]. unfold das_row. cbn [seq map nth]. rewrite sqdiag_cross. unfold cross_sum.
    cbn [length rsumn Nat.eqb nth].
    assert (L : forall m, lerp opposed m (INR 0 + 1) = sample opposed 1 m) by (intros; exact (lerp_INR opposed m 0 1)).
    rewrite !L. change (sample opposed 1 0) with 1. change (sample opposed 1 1) with (-1).
    unfold half_amp, steer_time, steer_I. simpl INR. apply Rmax_left. lra.
Qed.
Print Assumptions C78_negative_refuted.

Example C78_example : exists s,
  wf_source (wsrc s) s /\ is_reach 1 1 (fun _ _ => INR 1) 3 /\
  concat (blocks (ct_result 1 1 (fun _ _ => INR 1) (fun g m => steer_time Inverse 1 (fun _ => 2) 4 m)
                            (fun _ _ => 2) (fun _ => 4) (1 / 2) false CPlain 2 None (wsrc s) 6 2))
  = [[3 / 4 * (1 / 2 * 8)]; [3 / 4 * (1 / 2 * 6)]].
Proof.
  exists [[0];[8];[6];[0];[0]].
  assert (W : wf_source (wsrc [[0];[8];[6];[0];[0]]) [[0];[8];[6];[0];[0]]) by (apply wsrc_ok; discriminate).
  split; [exact W|]. split; [exact (const_reach 1)|].
  pose proof (C78_one_point 1 (fun _ _ => INR 1) (fun _ _ => 2) (fun _ => 4) Inverse (1/2) 2 (fun _ => 1%nat) 2
    (wsrc [[0];[8];[6];[0];[0]]) [[0];[8];[6];[0];[0]] 6 3) as H. cbv zeta beta in H.
  rewrite H; try (exact W) || (exact (const_reach 1)) || (intros; lra) || lia || auto.
  - cbn [length Nat.sub seq map]. unfold das_row. cbn [seq map]. rewrite !lerp_INR. unfold out_sum. cbn [rsum fold_right].
    unfold sample. cbn [nth Nat.add]. unfold steer_time, steer_II. simpl INR. f_equal; [|f_equal]; f_equal; lra.
  - intros. apply pos_INR.
  - intros r [<-|[<-|[<-|[<-|[<-|[]]]]]]; simpl; lia.
Qed.
