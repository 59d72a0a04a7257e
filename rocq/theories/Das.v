(** BeamformerTime(Sq), BeamformerTimeTraj and IntegratorSectorTime
    (tbeamform.py) with the compiled kernels of tfastfuncs.py. *)
From Coq Require Import List Arith Lia ZArith Bool Reals Lra.
Require Import ZifyBool ZifyNat ZifyN.
From Verif Require Import Stream Sources Buffer Wav TimeBeam.
Import ListNotations.
Ltac Zify.zify_post_hook ::= Z.div_mod_to_equations.
Local Open Scope nat_scope.

(* ------------------------------------------------------------------ *)
(** * Kernels *)

Fixpoint oall {X} (l : list (option X)) : option (list X) :=
  match l with
  | [] => Some []
  | None :: _ => None
  | Some x :: l' => match oall l' with Some r => Some (x :: r) | None => None end
  end.

(** data[i, m]; [None] is a read outside the array (the compiled code does
    not check bounds). *)
Definition tap (data : list (list R)) (i m : nat) : option R :=
  match nth_error data i with Some row => nth_error row m | None => None end.

(** r in _delayandsum4/_delayandsum5 (tfastfuncs.py:52-54, 110-116). *)
Definition contrib (data : list (list R)) (i : nat) (fr am : R) (m : nat) : option R :=
  match tap data i m, tap data (i + 1) m with
  | Some a, Some b => Some ((a * (1 - fr) + b * fr) * am)%R
  | _, _ => None
  end.

Section Kernel.
Variables (G M : nat) (post : list R -> R).

(** _delayandsum5 (tfastfuncs.py:83-120); _delayandsum4 (tfastfuncs.py:25-57)
    is the case of tables that do not depend on [n].  [post] computes the
    output of one grid point from the contributions of its channels:
    the sum, its square, or the square minus the autopower (tbeamform.py:182-187). *)
Definition kernel_row (data : list (list R)) (off : nat -> nat -> nat -> nat)
    (fr am : nat -> nat -> nat -> R) (n : nat) : option (list R) :=
  oall (map (fun g => option_map post
                (oall (map (fun m => contrib data (off n g m + n) (fr n g m) (am n g m) m) (seq 0 M))))
            (seq 0 G)).

Definition kernel data off fr am (num : nat) : option (list (list R)) :=
  oall (map (kernel_row data off fr am) (seq 0 num)).
End Kernel.

(** Outputs: BeamformerTime, BeamformerTimeSq with r_diag off and on. *)
Definition rsum (l : list R) : R := fold_right Rplus 0%R l.
Definition out_sum (l : list R) : R := rsum l.
Definition out_sq (l : list R) : R := (rsum l * rsum l)%R.
Definition out_sqdiag (l : list R) : R :=
  Rmax 0 (rsum l * rsum l - rsum (map (fun r => r * r) l))%R.

(** Steering amplitudes (tfastfuncs.py:132-207), [M] channels. *)
Definition steer_I (M : nat) (rm : nat -> R) (r0 : R) (m : nat) : R := (1 / INR M)%R.
Definition steer_II (M : nat) (rm : nat -> R) (r0 : R) (m : nat) : R := (rm m * (1 / INR M / r0))%R.
Definition steer_III (M : nat) (rm : nat -> R) (r0 : R) (m : nat) : R :=
  (1 / (rm m * (rsum (map (fun i => 1 / (rm i * rm i)) (seq 0 M)) * r0)))%R.
Definition steer_IV (M : nat) (rm : nat -> R) (r0 : R) (m : nat) : R :=
  (sqrt (1 / INR M) / (rm m * sqrt (rsum (map (fun i => 1 / (rm i * rm i)) (seq 0 M)))))%R.

(** _delays (tfastfuncs.py:219-228): integer part and rest of the delay in
    samples. *)
Definition didx (d : R) : nat := Z.to_nat (trunc d).
Definition dfrac (d : R) : R := (d - IZR (trunc d))%R.

Lemma oall_some {X Y} (h : X -> option Y) (v : X -> Y) l :
  (forall x, In x l -> h x = Some (v x)) -> oall (map h l) = Some (map v l).
Proof.
  induction l as [|x l IH]; intros H; [reflexivity|]. simpl.
  rewrite (H x) by (left; auto). rewrite IH; auto. intros y Hy. apply H. right; auto.
Qed.

Lemma oall_none {X Y} (h : X -> option Y) x l :
  In x l -> h x = None -> oall (map h l) = None.
Proof.
  induction l as [|y l IH]; intros [] Hn; simpl.
  - subst. rewrite Hn. reflexivity.
  - rewrite IH by auto. destruct (h y); reflexivity.
Qed.

Definition sample (s : list (list R)) (i m : nat) : R := nth m (nth i s []) 0%R.

Lemma tap_some data i m M : i < length data -> (forall r, In r data -> M <= length r) -> m < M ->
  tap data i m = Some (sample data i m).
Proof.
  intros Hi Hr Hm. unfold tap, sample.
  destruct (nth_error data i) as [row|] eqn:E.
  - rewrite (nth_error_nth data i [] E).
    assert (m < length row) by (specialize (Hr row (nth_error_In _ _ E)); lia).
    destruct (nth_error row m) eqn:E2.
    + now rewrite (nth_error_nth row m 0%R E2).
    + apply nth_error_None in E2. lia.
  - apply nth_error_None in E. lia.
Qed.

Lemma kernel_ok G M post data off fr am num :
  (forall r, In r data -> M <= length r) ->
  (forall n g m, n < num -> g < G -> m < M -> off n g m + n + 1 < length data) ->
  kernel G M post data off fr am num =
  Some (map (fun n => map (fun g => post (map (fun m =>
     ((sample data (off n g m + n) m * (1 - fr n g m) + sample data (off n g m + n + 1) m * fr n g m)
      * am n g m)%R) (seq 0 M))) (seq 0 G)) (seq 0 num)).
Proof.
  intros Hr Hb. unfold kernel. apply oall_some. intros n Hn. apply in_seq in Hn.
  unfold kernel_row. apply oall_some. intros g Hg. apply in_seq in Hg.
  erewrite oall_some; [reflexivity|]. intros m Hm. apply in_seq in Hm. unfold contrib.
  specialize (Hb n g m ltac:(lia) ltac:(lia) ltac:(lia)).
  rewrite (tap_some data _ m M) by (auto; lia). rewrite (tap_some data (_ + 1) m M) by (auto; lia).
  reflexivity.
Qed.

Lemma kernel_oob G M post data off fr am num n g m :
  n < num -> g < G -> m < M -> (tap data (off n g m + n) m = None \/ tap data (off n g m + n + 1) m = None) ->
  kernel G M post data off fr am num = None.
Proof.
  intros Hn Hg Hm H. unfold kernel. apply (oall_none _ n); [apply in_seq; lia|].
  unfold kernel_row. apply (oall_none _ g); [apply in_seq; lia|].
  erewrite (oall_none _ m); [reflexivity|apply in_seq; lia|].
  unfold contrib. destruct H as [-> | ->]; auto. destruct (tap data _ m); auto.
Qed.

(* ------------------------------------------------------------------ *)
(** * BeamformerTime.result (tbeamform.py:126-232, without the CLEAN-T part)

    [dly g m] is rm/c in samples, [wts] the microphone weights, [None] for
    'none' (a multiplication by 1.0). *)

Definition weight_row (wts : option (nat -> R)) (row : list R) : list R :=
  match wts with
  | None => row
  | Some w => map (fun m => (nth m row 0 * w m)%R) (seq 0 (length row))
  end.

Definition rmax_list (l : list R) : R := fold_right Rmax 0%R l.

Section Static.
Variables (G M : nat) (post : list R -> R) (dly amp : nat -> nat -> R) (wts : option (nat -> R)).

(** max_sample_delay = int((rm/c).max()) + 2 (tbeamform.py:162); the delays
    are not negative. *)
Definition max_sample_delay : nat :=
  didx (rmax_list (flat_map (fun g => map (dly g) (seq 0 M)) (seq 0 G))) + 2.

Definition bft_kernel (p : list (list R)) (num : nat) : option (list (list R)) :=
  kernel G M post p (fun _ g m => didx (dly g m)) (fun _ g m => dfrac (dly g m)) (fun _ => amp) num.

(** The loop over the windows of the buffer.  [num] is the block size,
    [cur] the variable num of the code, which is overwritten when a window is
    short; numpy.empty refuses a negative size. *)
Fixpoint bft_loop (num cur : nat) (ws : list (list (list R))) (e : ending) : trace (list R) :=
  match ws with
  | [] => mkTrace [] e
  | p :: ps =>
      let short := length p <? num + max_sample_delay in
      if short && (length p <? max_sample_delay) then raise ValueError
      else
        let cur := if short then length p - max_sample_delay else cur in
        match bft_kernel p cur with
        | None => raise IndexError
        | Some rows => let t := bft_loop num cur ps e in mkTrace (rows :: blocks t) (fin t)
        end
  end.

Definition bft_result (src : source (list R)) (fuel num : nat) : trace (list R) :=
  let msd := max_sample_delay in
  let t := samples_buffer_mut (weight_row wts) [] (fun _ => Some (num + msd))
             ((num + msd + num - 1) / num * num) src fuel num in
  bft_loop num num (blocks t) (fin t).

(** ** Specification *)

(** The signal of channel [m] at the (real) sample position [t], linearly
    interpolated. *)
Definition lerp (s : list (list R)) (m : nat) (t : R) : R :=
  let i := Z.to_nat (Int_part t) in
  let fr := (t - IZR (Int_part t))%R in
  ((1 - fr) * sample s i m + fr * sample s (i + 1) m)%R.

(** Row [n] of delay-and-sum. *)
Definition das_row (s : list (list R)) (n : nat) : list R :=
  map (fun g => post (map (fun m => amp g m * lerp s m (INR n + dly g m))%R (seq 0 M))) (seq 0 G).

(** Row [n] as computed in block [k] of size [num]: every sample weighted as
    often as it has been in a window. *)
Definition wpow (m c : nat) : R :=
  match wts with None => 1%R | Some w => (w m ^ c)%R end.

Definition bft_row (num : nat) (s : list (list R)) (k n : nat) : list R :=
  let c := seen (fun _ => num + max_sample_delay) num (S k) in
  map (fun g => post (map (fun m =>
     let i := n + didx (dly g m) in
     let fr := dfrac (dly g m) in
     ((sample s i m * wpow m (c i) * (1 - fr)
       + sample s (i + 1) m * wpow m (c (i + 1)%nat) * fr) * amp g m)%R) (seq 0 M))) (seq 0 G).

Lemma rmax_list_ge l x : In x l -> (x <= rmax_list l)%R.
Proof.
  induction l as [|y l IH]; intros []; simpl.
  - subst. apply Rmax_l.
  - eapply Rle_trans; [apply IH; auto|apply Rmax_r].
Qed.

Lemma didx_bound g m : g < G -> m < M -> didx (dly g m) + 2 <= max_sample_delay.
Proof.
  intros Hg Hm. unfold max_sample_delay, didx.
  assert (dly g m <= rmax_list (flat_map (fun g => map (dly g) (seq 0 M)) (seq 0 G)))%R as H.
  { apply rmax_list_ge. apply in_flat_map. exists g. split; [apply in_seq; clear - Hg; lia|].
    apply in_map_iff. exists m. split; auto. apply in_seq; clear - Hm; lia. }
  apply trunc_le in H. clear - H. lia.
Qed.

Lemma weight_row_length row : length (weight_row wts row) = length row.
Proof. unfold weight_row. destruct wts; auto. now rewrite map_length, seq_length. Qed.

Lemma weight_iter c row m : m < length row ->
  nth m (Nat.iter c (weight_row wts) row) 0%R = (nth m row 0 * wpow m c)%R.
Proof.
  intros Hm. unfold wpow. destruct wts as [w|].
  - assert (forall c, length (Nat.iter c (weight_row (Some w)) row) = length row) as HL.
    { intros c'. induction c' as [|c' IH]; auto. cbn [Nat.iter nat_rect]. unfold weight_row at 1.
      rewrite map_length, seq_length. exact IH. }
    induction c as [|c IH].
    + simpl. ring.
    + cbn [Nat.iter nat_rect]. unfold weight_row at 1. rewrite nth_map_seq.
      * change (nth (0 + m) (Nat.iter c (weight_row (Some w)) row) 0 * w (0 + m)%nat = nth m row 0 * w m ^ S c)%R.
        simpl (0 + m). rewrite IH. cbn [pow]. ring.
      * change (m < length (Nat.iter c (weight_row (Some w)) row)). now rewrite HL.
  - assert (Nat.iter c (weight_row None) row = row) as ->; [|ring].
    induction c as [|c IH]; auto.
Qed.

Lemma iter_weight_length c row : length (Nat.iter c (weight_row wts) row) = length row.
Proof.
  induction c as [|c IH]; auto. cbn [Nat.iter nat_rect]. rewrite weight_row_length. exact IH.
Qed.

Section Trace.
Variables (num : nat) (s : list (list R)).
Hypothesis Hnum : 0 < num.
Hypothesis Hch : forall r, In r s -> M <= length r.
Notation N := (length s).
Notation msd := max_sample_delay.
Notation mw := (mwindow (weight_row wts) [] (fun _ => num + msd) num s).

Lemma mw_length k : length (mw k) = Nat.min (num + msd) (N - k * num).
Proof. unfold mwindow. now rewrite map_length, seq_length. Qed.

Lemma mw_rows k r : In r (mw k) -> M <= length r.
Proof.
  unfold mwindow. intros H. apply in_map_iff in H. destruct H as (i & <- & Hi).
  apply in_seq in Hi. rewrite iter_weight_length. apply Hch. apply nth_In. lia.
Qed.

Lemma mw_sample k i m : i < length (mw k) -> m < M ->
  sample (mw k) i m
  = (sample s (k * num + i) m * wpow m (seen (fun _ => (num + msd)%nat) num (S k) (k * num + i)))%R.
Proof.
  intros Hi Hm. rewrite mw_length in Hi. unfold sample, mwindow.
  rewrite nth_map_seq by lia. apply weight_iter.
  assert (In (nth (k * num + i) s []) s) as HI by (apply nth_In; lia).
  specialize (Hch _ HI). lia.
Qed.

Lemma mw_kernel k n : n + msd <= length (mw k) ->
  bft_kernel (mw k) n = Some (map (bft_row num s k) (seq (k * num) n)).
Proof.
  intros Hn. unfold bft_kernel. rewrite kernel_ok; [|apply mw_rows|].
  - f_equal.
    replace (seq (k * num) n) with (map (fun i => k * num + i) (seq 0 n)).
    2:{ clear. generalize (k * num). intros a.
        apply (nth_ext _ _ 0 0); [now rewrite map_length, !seq_length|].
        rewrite map_length, seq_length. intros i Hi. rewrite nth_map_seq, seq_nth by auto. lia. }
    rewrite map_map. apply map_ext_in. intros i Hi. apply in_seq in Hi.
    unfold bft_row. apply map_ext_in. intros g Hg. apply in_seq in Hg. f_equal.
    apply map_ext_in. intros m Hm. apply in_seq in Hm.
    pose proof (didx_bound g m ltac:(lia) ltac:(lia)) as HB.
    rewrite !mw_sample by lia.
    replace (k * num + (didx (dly g m) + i)) with (k * num + i + didx (dly g m)) by lia.
    replace (k * num + (didx (dly g m) + i + 1)) with (k * num + i + didx (dly g m) + 1) by lia.
    reflexivity.
  - intros n' g m H1 H2 H3. pose proof (didx_bound g m H2 H3). lia.
Qed.

Definition bft_nblocks : nat := if N <? msd then 0 else (N - msd) / num + 1.

Lemma msd_pos : 2 <= msd.
Proof. unfold max_sample_delay. lia. Qed.

Lemma nblocks_spec k : k < bft_nblocks <-> k * num + msd <= N.
Proof.
  unfold bft_nblocks. destruct (Nat.ltb_spec N msd) as [H|H].
  - split; intros; lia.
  - pose proof (Nat.div_mod (N - msd) num ltac:(lia)) as E.
    pose proof (Nat.mod_upper_bound (N - msd) num ltac:(lia)) as B.
    revert E B. generalize ((N - msd) / num) ((N - msd) mod num). intros q r E B.
    split; intros; nia.
Qed.

Lemma nblocks_le : bft_nblocks <= (N + num - 1) / num.
Proof.
  destruct bft_nblocks as [|b] eqn:E; [lia|].
  assert (b < bft_nblocks) as H by lia. apply nblocks_spec in H.
  pose proof msd_pos. pose proof (ceil_div_lt N num b Hnum) as C.
  assert (b < (N + num - 1) / num); [|lia]. apply C. lia.
Qed.

Lemma bft_loop_ok : forall j k, k + j = (N + num - 1) / num ->
  bft_loop num num (map mw (seq k j)) Finished
  = mkTrace (map (fun k => map (bft_row num s k) (seq (k * num) (Nat.min num (N - msd - k * num))))
                 (seq k (bft_nblocks - k)))
            (if (N + num - 1) / num <=? Nat.max k bft_nblocks then Finished else Raised ValueError).
Proof.
  induction j as [|j IH]; intros k Hk.
  - rewrite Nat.add_0_r in Hk. simpl seq. cbn [map bft_loop].
    pose proof nblocks_le. replace (bft_nblocks - k) with 0 by lia. simpl.
    rewrite (proj2 (Nat.leb_le _ _)) by lia. reflexivity.
  - cbn [seq map bft_loop].
    pose proof (ceil_div_lt N num k Hnum) as C0. pose proof (proj2 C0 ltac:(lia)) as Hlt.
    pose proof (nblocks_spec k) as NB. pose proof (nblocks_spec (S k)) as NB1.
    pose proof msd_pos. pose proof nblocks_le.
    destruct (Nat.ltb_spec (length (mw k)) (num + msd)) as [Hs|Hs]; rewrite mw_length in Hs.
    + destruct (Nat.ltb_spec (length (mw k)) msd) as [Hm|Hm]; rewrite mw_length in Hm.
      * simpl andb. cbv iota.
        assert (bft_nblocks <= k) by (destruct (le_lt_dec bft_nblocks k); auto; apply NB in l; lia).
        replace (bft_nblocks - k) with 0 by lia. simpl.
        rewrite (proj2 (Nat.leb_gt _ _)) by lia. reflexivity.
      * simpl andb. cbv iota.
        assert (k < bft_nblocks) by (apply NB; lia).
        assert (bft_nblocks <= S k) by (destruct (le_lt_dec bft_nblocks (S k)); auto; apply NB1 in l; lia).
        replace (bft_nblocks - k) with 1 by lia. cbn [seq map].
        rewrite mw_kernel by (rewrite !mw_length; lia). rewrite mw_length.
        replace (Nat.min (num + msd) (N - k * num) - msd) with (Nat.min num (N - msd - k * num)) by lia.
        destruct j as [|j].
        -- simpl. rewrite (proj2 (Nat.leb_le _ _)) by lia. reflexivity.
        -- cbn [seq map bft_loop].
           assert (length (mw (S k)) < msd) as Hsh by (rewrite mw_length; lia).
           rewrite (proj2 (Nat.ltb_lt _ (num + msd))) by lia. rewrite (proj2 (Nat.ltb_lt _ msd)) by lia.
           simpl andb. cbv iota. rewrite (proj2 (Nat.leb_gt _ _)) by lia. reflexivity.
    + simpl andb. cbv iota.
      assert (k < bft_nblocks) by (apply NB; lia).
      replace (bft_nblocks - k) with (S (bft_nblocks - S k)) by lia. cbn [seq map].
      rewrite mw_kernel by (rewrite mw_length; lia). rewrite IH by lia. cbn [blocks fin].
      replace (Nat.min num (N - msd - k * num)) with num by lia. f_equal.
      replace (Nat.max k bft_nblocks) with (Nat.max (S k) bft_nblocks) by lia. reflexivity.
Qed.

Lemma bft_trace (src : source (list R)) fuel : wf_source src s -> N < fuel ->
  bft_result src fuel num
  = mkTrace (map (fun k => map (bft_row num s k) (seq (k * num) (Nat.min num (N - msd - k * num))))
                 (seq 0 bft_nblocks))
            (if (N + num - 1) / num <=? bft_nblocks then Finished else Raised ValueError).
Proof.
  intros Hw Hf. unfold bft_result.
  rewrite (proj1 (samples_buffer_mut_users (weight_row wts) [] [] src s fuel num Hw Hnum Hf) msd)
    by (pose proof msd_pos; lia).
  cbn [blocks fin done]. rewrite bft_loop_ok by lia. rewrite Nat.sub_0_r, Nat.max_0_l. reflexivity.
Qed.
End Trace.


Lemma trunc_nonneg x : (0 <= x)%R -> trunc x = Int_part x /\ (0 <= Int_part x)%Z.
Proof.
  intros H. unfold trunc. destruct (Rle_dec 0 x); [|lra]. split; auto.
  apply Z.lt_succ_r, lt_IZR. rewrite succ_IZR. pose proof (Int_part_bounds x). lra.
Qed.

Lemma lerp_delay s m n x : (0 <= x)%R ->
  lerp s m (INR n + x)
  = (sample s (n + didx x) m * (1 - dfrac x) + sample s (n + didx x + 1) m * dfrac x)%R.
Proof.
  intros Hx. destruct (trunc_nonneg x Hx) as [E1 E2].
  assert (Int_part (INR n + x) = (Z.of_nat n + Int_part x)%Z) as E.
  { apply Int_part_unique. rewrite plus_IZR, <- INR_IZR_INZ. pose proof (Int_part_bounds x). lra. }
  unfold lerp, didx, dfrac. rewrite E, E1.
  replace (Z.to_nat (Z.of_nat n + Int_part x)) with (n + Z.to_nat (Int_part x)) by lia.
  rewrite plus_IZR, <- INR_IZR_INZ. ring.
Qed.

Lemma bft_end num (src : source (list R)) s fuel :
  0 < num -> (forall r, In r s -> M <= length r) -> wf_source src s -> length s < fuel ->
  (fin (bft_result src fuel num) = Finished \/ fin (bft_result src fuel num) = Raised ValueError) /\
  (fin (bft_result src fuel num) = Finished <->
     length s = 0 \/ (max_sample_delay <= num /\ (length s mod num = 0 \/ max_sample_delay <= length s mod num))).
Proof.
  intros Hn Hch Hw Hf. rewrite (bft_trace num s Hn Hch src fuel Hw Hf). cbn [fin].
  assert (2 <= max_sample_delay) as M2 by (unfold max_sample_delay; lia). set (d := max_sample_delay) in *.
  split; [destruct (_ <=? _); auto|].
  unfold bft_nblocks. fold d. set (N := length s).
  pose proof (Nat.div_mod (N + num - 1) num ltac:(lia)) as E1.
  pose proof (Nat.mod_upper_bound (N + num - 1) num ltac:(lia)) as B1.
  pose proof (Nat.div_mod N num ltac:(lia)) as E3.
  pose proof (Nat.mod_upper_bound N num ltac:(lia)) as B3.
  destruct (Nat.ltb_spec N d) as [H|H].
  - revert E1 B1 E3 B3. generalize ((N + num - 1) / num) ((N + num - 1) mod num) (N / num) (N mod num).
    intros q1 r1 q3 r3 E1 B1 E3 B3. destruct (Nat.leb_spec q1 0).
    + split; auto. intros _. left. assert (q1 = 0) by lia. subst. lia.
    + split; [discriminate|]. intros [Hz|[H1 H2]].
      * clearbody N. subst N. nia.
      * destruct H2 as [H2|H2]; [|nia]. subst r3. assert (q3 = 0) by nia. subst. nia.
  - pose proof (Nat.div_mod (N - d) num ltac:(lia)) as E2.
    pose proof (Nat.mod_upper_bound (N - d) num ltac:(lia)) as B2.
    revert E1 B1 E2 B2 E3 B3.
    generalize ((N + num - 1) / num) ((N + num - 1) mod num) ((N - d) / num) ((N - d) mod num) (N / num) (N mod num).
    intros q1 r1 q2 r2 q3 r3 E1 B1 E2 B2 E3 B3.
    destruct (Nat.leb_spec q1 (q2 + 1)) as [Hq|Hq].
    + split; auto. intros _. right.
      assert (N <= (q2 + 1) * num) as HN by nia.
      split; [nia|]. destruct (Nat.eq_dec r3 0); auto. right.
      clearbody N. assert (N = num * q2 + r2 + d) as E4 by lia.
      assert (q2 <= q3) by (clear - E3 E4 B3 Hn; nia).
      assert (q3 <= q2) by (destruct (le_lt_dec q3 q2); auto; exfalso; assert (num * (q2 + 1) <= num * q3) as HM by (apply Nat.mul_le_mono_l; lia); clear - HM E3 HN n; nia).
      assert (q3 = q2) by lia. subst q3. lia.
    + split; [discriminate|]. intros [Hz|[H1 H2]]; [lia|]. exfalso.
      assert ((q2 + 1) * num < N) by nia.
      assert (q2 + 1 <= q3) by nia.
      assert (q2 * num + num > N - d) by nia.
      destruct H2 as [H2|H2].
      * subst r3. assert (q3 = q2 + 1 \/ q2 + 2 <= q3) as [ | ] by lia; nia.
      * nia.
Qed.

Hypothesis dly_nonneg : forall g m, (0 <= dly g m)%R.

(** Without weights every row is the delay-and-sum row. *)
Lemma bft_row_das num s k n : wts = None -> bft_row num s k n = das_row s n.
Proof.
  intros Hw. unfold bft_row, das_row. apply map_ext. intros g. f_equal. apply map_ext. intros m.
  unfold wpow. rewrite Hw. rewrite lerp_delay by auto. ring.
Qed.

(** Concatenation of the blocks. *)
Lemma bft_blocks_concat num (row : nat -> list R) T : 0 < num ->
  concat (map (fun k => map row (seq (k * num) (Nat.min num (T - k * num)))) (seq 0 (T / num + 1)))
  = map row (seq 0 T).
Proof.
  intros Hn.
  assert (forall j k, (k + j = T / num + 1 -> k * num <= T ->
    concat (map (fun k => map row (seq (k * num) (Nat.min num (T - k * num)))) (seq k j))
    = map row (seq (k * num) (T - k * num)))) as H.
  { induction j as [|j IH]; intros k Hj Hk.
    - exfalso. pose proof (Nat.div_mod T num ltac:(lia)) as E.
      pose proof (Nat.mod_upper_bound T num ltac:(lia)) as B.
      revert Hj E B. generalize (T / num) (T mod num). intros q r Hj E B. nia.
    - cbn [seq map concat].
      destruct (le_lt_dec (S k * num) T) as [Hle|Hgt].
      + rewrite IH by lia. rewrite <- map_app. f_equal.
        replace (Nat.min num (T - k * num)) with num by lia.
        replace (T - k * num) with (num + (T - S k * num)) by lia.
        rewrite seq_app. f_equal. f_equal. lia.
      + assert (j = 0) as ->.
        { pose proof (Nat.div_mod T num ltac:(lia)) as E.
          pose proof (Nat.mod_upper_bound T num ltac:(lia)) as B.
          revert Hj E B. generalize (T / num) (T mod num). intros q r Hj E B. nia. }
        cbn [seq map concat]. rewrite app_nil_r. f_equal. f_equal. lia. }
  specialize (H (T / num + 1) 0 ltac:(lia) ltac:(lia)). simpl in H. rewrite Nat.sub_0_r in H. exact H.
Qed.

Lemma bft_output num (src : source (list R)) s fuel :
  0 < num -> (forall r, In r s -> M <= length r) -> wf_source src s -> length s < fuel -> wts = None ->
  concat (blocks (bft_result src fuel num)) = map (das_row s) (seq 0 (length s - max_sample_delay)).
Proof.
  intros Hn Hch Hw Hf Hwt. rewrite (bft_trace num s Hn Hch src fuel Hw Hf). cbn [blocks].
  unfold bft_nblocks. destruct (Nat.ltb_spec (length s) max_sample_delay).
  - simpl. replace (length s - max_sample_delay) with 0 by lia. reflexivity.
  - rewrite <- (bft_blocks_concat num (das_row s) (length s - max_sample_delay) Hn).
    f_equal. apply map_ext. intros k. apply map_ext. intros n. apply bft_row_das; auto.
Qed.

End Static.
