(** BeamformerTimeTraj(Sq) (tbeamform.py:356-494) and IntegratorSectorTime
    (tbeamform.py:783-812). *)
From Coq Require Import List Arith Lia ZArith Bool Reals Lra.
Require Import ZifyBool ZifyNat ZifyN.
From Verif Require Import Stream Sources Buffer Wav TimeBeam Das.
Import ListNotations.
Ltac Zify.zify_post_hook ::= Z.div_mod_to_equations.
Local Open Scope nat_scope.

Definition nmax (l : list nat) : nat := fold_right Nat.max 0 l.

Lemma nmax_ge l x : In x l -> x <= nmax l.
Proof. induction l as [|y l IH]; intros []; simpl; [lia|]. specialize (IH H). lia. Qed.

Lemma nmax_le l b : (forall x, In x l -> x <= b) -> nmax l <= b.
Proof.
  induction l as [|y l IH]; intros H; simpl; [lia|].
  pose proof (H y (or_introl eq_refl)). specialize (IH (fun x h => H x (or_intror h))). lia.
Qed.

(** The mask and count of [num = sum((d_index.max((1,2)) + 1 + arange(0,num)) < time_block.shape[0])]. *)
Definition count (p : nat -> bool) (n : nat) : nat := length (filter p (seq 0 n)).

Lemma count_le p n : count p n <= n.
Proof.
  unfold count. rewrite <- (seq_length n 0) at 2. generalize (seq 0 n). intros l.
  induction l as [|a l IH]; simpl; [lia|]. destruct (p a); simpl; lia.
Qed.

Lemma count_prefix p n : (forall i, S i < n -> p (S i) = true -> p i = true) ->
  forall i, i < count p n -> p i = true.
Proof.
  unfold count. induction n as [|n IH]; intros H i; [simpl; lia|].
  rewrite seq_S, filter_app, app_length. simpl.
  destruct (p n) eqn:E; simpl.
  - intros Hi. assert (forall j, j <= n -> p (n - j) = true) as Ha.
    { induction j as [|j IHj]; intros Hj; [now rewrite Nat.sub_0_r|].
      apply H; [lia|]. replace (S (n - S j)) with (n - j) by lia. apply IHj. lia. }
    assert (i < S n).
    { pose proof (count_le p n) as L. unfold count in L. lia. }
    replace i with (n - (n - i)) by lia. apply Ha. lia.
  - intros Hi. apply IH; [|lia]. intros j Hj. apply H. lia.
Qed.

Lemma count_prefix_iff p n : (forall i, S i < n -> p (S i) = true -> p i = true) ->
  forall i, i < n -> (i < count p n <-> p i = true).
Proof.
  unfold count. induction n as [|n IH]; intros H i Hi; [lia|].
  rewrite seq_S, filter_app, app_length. simpl.
  assert (forall j, S j < n -> p (S j) = true -> p j = true) as H' by (intros; apply H; auto; lia).
  destruct (Nat.eq_dec i n) as [->|Hn].
  - pose proof (count_le p n) as L. unfold count in L. destruct (p n) eqn:E; simpl.
    + split; auto. intros _.
      assert (forall j, j < n -> p j = true) as Ha.
      { intros j Hj. assert (forall d, d <= n -> p (n - d) = true) as Hd.
        { induction d as [|d IHd]; intros Hd; [now rewrite Nat.sub_0_r|].
          apply H; [lia|]. replace (S (n - S d)) with (n - d) by lia. apply IHd. lia. }
        replace j with (n - (n - j)) by lia. apply Hd. lia. }
      assert (filter p (seq 0 n) = seq 0 n) as ->.
      { clear - Ha. assert (forall l, (forall j, In j l -> p j = true) -> filter p l = l) as Hl.
        { induction l as [|a l IHl]; intros Hl; auto. simpl. rewrite (Hl a) by (left; auto).
          f_equal. apply IHl. intros; apply Hl; right; auto. }
        apply Hl. intros j Hj. apply in_seq in Hj. apply Ha. lia. }
      rewrite seq_length. lia.
    + split; [lia|discriminate].
  - rewrite <- (IH H' i ltac:(lia)). destruct (p n) eqn:E; simpl; [|lia].
    split; [|lia]. intros _. apply (IH H' i ltac:(lia)).
    assert (forall d, d <= n -> p (n - d) = true) as Hd.
    { induction d as [|d IHd]; intros Hd; [now rewrite Nat.sub_0_r|].
      apply H; [lia|]. replace (S (n - S d)) with (n - d) by lia. apply IHd. lia. }
    replace i with (n - (n - i)) by lia. apply Hd. lia.
Qed.

Section Traj.
(** [dl n g m]: delay in samples from grid point [g] to channel [m] at output
    sample [n] (rm/c with the grid moved to its position at sample [n],
    tbeamform.py:408-419); [am n g m] the steering amplitude; [T] the number of
    positions the trajectory delivers. *)
Variables (G M : nat) (post : list R -> R) (dl am : nat -> nat -> nat -> R)
          (wts : option (nat -> R)) (T : nat).

(** d_index.max((1, 2)) (tbeamform.py:420). *)
Definition dmax (n : nat) : nat :=
  nmax (flat_map (fun g => map (fun m => didx (dl n g m)) (seq 0 M)) (seq 0 G)).

(** max_sample_delay of block [k] (tbeamform.py:420). *)
Definition tmsd (num k : nat) : nat := nmax (map (fun i => dmax (k * num + i) + 2) (seq 0 num)).

Definition traj_kernel (num k : nat) (p : list (list R)) (n : nat) : option (list (list R)) :=
  kernel G M post p (fun i g m => didx (dl (k * num + i) g m)) (fun i g m => dfrac (dl (k * num + i) g m))
    (fun i => am (k * num + i)) n.

(** The while loop (tbeamform.py:407-446).  The positions of the block are
    drawn before the buffer is asked; an exhausted position generator raises
    StopIteration inside the generator, which Python turns into
    RuntimeError. *)
Fixpoint traj_loop (num k : nat) (ws : list (list (list R))) (e : ending) : trace (list R) :=
  if T <? (k + 1) * num then raise RuntimeError
  else match ws with
  | [] => mkTrace [] e
  | p :: ps =>
      let short := length p <? num + tmsd num k in
      let n := if short then count (fun i => dmax (k * num + i) + 1 + i <? length p) num else num in
      match traj_kernel num k p n with
      | None => raise IndexError
      | Some rows =>
          if short then done [rows]
          else let t := traj_loop num (S k) ps e in mkTrace (rows :: blocks t) (fin t)
      end
  end.

Definition traj_result (src : source (list R)) (fuel num : nat) : trace (list R) :=
  let t := samples_buffer_mut (weight_row wts) [] (fun k => Some (num + tmsd num k)) (num * 2)
             src fuel num in
  traj_loop num 0 (blocks t) (fin t).

(** Specification: delay-and-sum towards the moving grid. *)
Definition tdas_row (s : list (list R)) (n : nat) : list R :=
  map (fun g => post (map (fun m => am n g m * lerp s m (INR n + dl n g m))%R (seq 0 M))) (seq 0 G).

(** Row [n] needs the samples up to [n + dmax n + 1]. *)
Definition computable (N n : nat) : Prop := n + dmax n + 1 < N.

Hypothesis dl_nonneg : forall n g m, (0 <= dl n g m)%R.
(** The grid does not approach a microphone faster than sound: later
    emissions arrive later. *)
Definition subsonic : Prop := forall n, n + dmax n <= n + 1 + dmax (n + 1).

Lemma dmax_ge n g m : g < G -> m < M -> didx (dl n g m) <= dmax n.
Proof.
  intros Hg Hm. unfold dmax. apply nmax_ge. apply in_flat_map. exists g.
  split; [apply in_seq; lia|]. apply in_map_iff. exists m. split; auto. apply in_seq; lia.
Qed.

Lemma tmsd_ge num k i : i < num -> dmax (k * num + i) + 2 <= tmsd num k.
Proof.
  intros Hi. unfold tmsd. apply nmax_ge. apply in_map_iff. exists i. split; auto. apply in_seq; lia.
Qed.

Section Trace.
Variables (num : nat) (s : list (list R)).
Hypothesis Hnum : 0 < num.
Hypothesis Hch : forall r, In r s -> M <= length r.
Notation N := (length s).
Notation mw := (mwindow (weight_row wts) [] (fun k => num + tmsd num k) num s).

Lemma tmw_length k : length (mw k) = Nat.min (num + tmsd num k) (N - k * num).
Proof. unfold mwindow. now rewrite map_length, seq_length. Qed.

Lemma tmw_rows k r : In r (mw k) -> M <= length r.
Proof.
  unfold mwindow. intros H. apply in_map_iff in H. destruct H as (i & <- & Hi).
  apply in_seq in Hi. rewrite iter_weight_length. apply Hch. apply nth_In. lia.
Qed.

Lemma tmw_sample k i m : wts = None -> i < length (mw k) -> m < M ->
  sample (mw k) i m = sample s (k * num + i) m.
Proof.
  intros Hw Hi Hm. rewrite tmw_length in Hi. unfold sample, mwindow.
  rewrite nth_map_seq by lia.
  assert (m < length (nth (k * num + i) s [])) as Hl.
  { assert (In (nth (k * num + i) s []) s) as HI by (apply nth_In; lia). specialize (Hch _ HI). lia. }
  rewrite (weight_iter wts _ _ _ Hl). unfold wpow. rewrite Hw. ring.
Qed.

Lemma tmw_kernel k n : wts = None -> n <= num ->
  (forall i, i < n -> dmax (k * num + i) + 1 + i < length (mw k)) ->
  traj_kernel num k (mw k) n = Some (map (tdas_row s) (seq (k * num) n)).
Proof.
  intros Hw Hn Hc. unfold traj_kernel. rewrite kernel_ok; [|apply tmw_rows|].
  - f_equal.
    replace (seq (k * num) n) with (map (fun i => k * num + i) (seq 0 n)).
    2:{ clear. generalize (k * num). intros a.
        apply (nth_ext _ _ 0 0); [now rewrite map_length, !seq_length|].
        rewrite map_length, seq_length. intros i Hi. rewrite nth_map_seq, seq_nth by auto. lia. }
    rewrite map_map. apply map_ext_in. intros i Hi. apply in_seq in Hi.
    unfold tdas_row. apply map_ext_in. intros g Hg. apply in_seq in Hg. f_equal.
    apply map_ext_in. intros m Hm. apply in_seq in Hm.
    pose proof (dmax_ge (k * num + i) g m ltac:(lia) ltac:(lia)) as HB.
    specialize (Hc i ltac:(lia)).
    rewrite !tmw_sample by (auto; lia). rewrite lerp_delay by auto.
    replace (k * num + (didx (dl (k * num + i) g m) + i)) with (k * num + i + didx (dl (k * num + i) g m)) by lia.
    replace (k * num + (didx (dl (k * num + i) g m) + i + 1)) with (k * num + i + didx (dl (k * num + i) g m) + 1) by lia.
    ring.
  - intros n' g m H1 H2 H3. pose proof (dmax_ge (k * num + n') g m H2 H3). specialize (Hc n' H1). lia.
Qed.

(** A window is complete when block [k] and its largest delay fit. *)
Definition tfull (k : nat) : bool := (k + 1) * num + tmsd num k <=? N.

Lemma mono_count k : subsonic -> forall i, S i < num ->
  (dmax (k * num + S i) + 1 + S i <? N - k * num) = true -> (dmax (k * num + i) + 1 + i <? N - k * num) = true.
Proof.
  intros Hs i Hi H. apply Nat.ltb_lt in H. apply Nat.ltb_lt. specialize (Hs (k * num + i)).
  replace (k * num + S i) with (k * num + i + 1) in H by lia. lia.
Qed.

Lemma tmsd_two : forall k, 2 <= tmsd num k.
Proof. intros k. pose proof (tmsd_ge num k 0 Hnum). lia. Qed.

(** Number of rows of block [k]. *)
Definition trows (k : nat) : nat :=
  if tfull k then num else count (fun i => dmax (k * num + i) + 1 + i <? N - k * num) num.

(** From block [k] on: [K] is the first block whose window is not complete. *)
Lemma traj_loop_ok K : wts = None -> subsonic -> (K + 1) * num <= T -> K * num < N -> tfull K = false ->
  (forall k, k < K -> tfull k = true) ->
  forall j k c, k + j = K -> K < k + c -> c <= (N + num - 1) / num - k ->
  traj_loop num k (map mw (seq k c)) Finished
  = done (map (fun k => map (tdas_row s) (seq (k * num) (trows k))) (seq k (j + 1))).
Proof.
  intros Hw Hs HT HK HKf Hfull.
  induction j as [|j IH]; intros k c Hj Hc Hcn.
  - assert (k = K) as -> by lia. destruct c as [|c]; [lia|]. cbn [seq map traj_loop].
    rewrite (proj2 (Nat.ltb_ge T _)) by lia.
    unfold tfull in HKf. apply Nat.leb_gt in HKf.
    assert (length (mw K) = N - K * num) as HL by (rewrite tmw_length; lia).
    rewrite (proj2 (Nat.ltb_lt (length (mw K)) _)) by lia.
    rewrite tmw_kernel; auto.
    + simpl. unfold trows, tfull. rewrite (proj2 (Nat.leb_gt _ _)) by lia. rewrite HL. reflexivity.
    + apply count_le.
    + intros i Hi. rewrite HL in *. apply Nat.ltb_lt.
      apply (count_prefix (fun i => dmax (K * num + i) + 1 + i <? N - K * num) num); auto.
      apply mono_count; auto.
  - destruct c as [|c]; [lia|]. cbn [seq map traj_loop].
    assert ((k + 1) * num <= (K + 1) * num) by (apply Nat.mul_le_mono_r; lia).
    rewrite (proj2 (Nat.ltb_ge T _)) by lia.
    specialize (Hfull k ltac:(lia)) as Hk. pose proof Hk as Hk'. unfold tfull in Hk'. apply Nat.leb_le in Hk'.
    assert (length (mw k) = num + tmsd num k) as HL by (rewrite tmw_length; lia).
    rewrite (proj2 (Nat.ltb_ge (length (mw k)) _)) by lia.
    rewrite tmw_kernel; auto.
    + rewrite IH by lia. cbn [blocks fin done Nat.add seq map]. unfold trows at 2. rewrite Hk. reflexivity.
    + intros i Hi. pose proof (tmsd_ge num k i Hi). lia.
Qed.

Lemma tfull_bound k : tfull k = true -> (k + 1) * num < N.
Proof. unfold tfull. intros H. apply Nat.leb_le in H. pose proof (tmsd_two k). lia. Qed.

(** The first incomplete block exists. *)
Lemma first_short : 0 < N -> exists K, K * num < N /\ tfull K = false /\ (forall k, k < K -> tfull k = true).
Proof.
  intros HN.
  assert (forall n, (forall k, k < n -> tfull k = true) \/
            exists K, K < n /\ tfull K = false /\ (forall k, k < K -> tfull k = true)) as H.
  { induction n as [|n [IH|(K & A & B & C)]].
    - left. intros; lia.
    - destruct (tfull n) eqn:E.
      + left. intros k Hk. destruct (Nat.eq_dec k n); [congruence|]. apply IH. lia.
      + right. exists n. auto.
    - right. exists K. auto. }
  destruct (H (S N)) as [Ha|(K & A & B & C)].
  - exfalso. specialize (Ha N ltac:(lia)). apply tfull_bound in Ha. nia.
  - exists K. split; auto. destruct K as [|K]; [lia|].
    specialize (C K ltac:(lia)). apply tfull_bound in C. lia.
Qed.

Lemma trows_concat K : (forall k, k < K -> tfull k = true) ->
  forall j k, k + j = K ->
  concat (map (fun k => map (tdas_row s) (seq (k * num) (trows k))) (seq k (j + 1)))
  = map (tdas_row s) (seq (k * num) (j * num + trows K)).
Proof.
  intros Hfull. induction j as [|j IH]; intros k Hk.
  - assert (k = K) as -> by lia. cbn [Nat.add seq map concat Nat.mul]. now rewrite app_nil_r.
  - cbn [Nat.add seq map concat]. rewrite IH by lia. rewrite <- map_app. f_equal.
    unfold trows at 1. rewrite (Hfull k) by lia.
    replace (S j * num + trows K) with (num + (j * num + trows K)) by lia.
    rewrite (seq_app num). f_equal. f_equal. lia.
Qed.
End Trace.

(** The output of the trajectory beamformer: a prefix of the delay-and-sum
    rows that ends in the first block that, with its largest delay, does not
    fit the stream. *)
Theorem traj_output num (src : source (list R)) s fuel :
  0 < num -> (forall r, In r s -> M <= length r) -> wf_source src s -> length s < fuel -> wts = None ->
  subsonic -> 0 < length s ->
  exists K, K * num < length s /\
    (forall k, k < K -> (k + 1) * num + tmsd num k <= length s) /\
    length s < (K + 1) * num + tmsd num K /\
    (T < (K + 1) * num -> fin (traj_result src fuel num) = Raised RuntimeError) /\
    ((K + 1) * num <= T ->
     exists n, fin (traj_result src fuel num) = Finished /\
      concat (blocks (traj_result src fuel num)) = map (tdas_row s) (seq 0 n) /\
      (forall i, i < (K + 1) * num -> (i < n <-> computable (length s) i)) /\ n <= (K + 1) * num).
Proof.
  intros Hn Hch Hw Hf Hwt Hs HN.
  destruct (first_short num s Hn HN) as (K & H1 & H2 & H3). exists K. split; auto.
  split. { intros k Hk. specialize (H3 k Hk). unfold tfull in H3. now apply Nat.leb_le in H3. }
  split. { unfold tfull in H2. now apply Nat.leb_gt in H2. }
  unfold traj_result.
  rewrite (proj2 (samples_buffer_mut_users (weight_row wts) [] [] src s fuel num Hw Hn Hf) (tmsd num)).
  cbn [blocks fin done].
  pose proof (proj1 (ceil_div_lt (length s) num K Hn) H1) as Hc.
  split.
  - intros HT.
    assert (forall j k c, k + j = K -> K < k + c ->
       fin (traj_loop num k (map (mwindow (weight_row wts) [] (fun k => num + tmsd num k) num s) (seq k c)) Finished)
       = Raised RuntimeError) as HL.
    { induction j as [|j IH]; intros k c Hj Hk.
      - assert (k = K) as -> by lia. destruct c as [|c]; [lia|]. cbn [seq map traj_loop].
        rewrite (proj2 (Nat.ltb_lt T _)) by lia. reflexivity.
      - destruct c as [|c]; [lia|]. cbn [seq map traj_loop].
        destruct (T <? (k + 1) * num); [reflexivity|].
        specialize (H3 k ltac:(lia)). unfold tfull in H3. apply Nat.leb_le in H3.
        rewrite (proj2 (Nat.ltb_ge _ _)) by (rewrite tmw_length; lia).
        rewrite tmw_kernel; auto.
        + cbn [fin]. apply IH; lia.
        + intros i Hi. rewrite tmw_length. pose proof (tmsd_ge num k i Hi). lia. }
    apply (HL K 0); lia.
  - intros HT. exists (K * num + trows num s K).
    rewrite (traj_loop_ok num s Hn Hch K Hwt Hs HT H1 H2 H3 K 0) by lia.
    cbn [blocks fin done]. split; auto. split.
    { rewrite (trows_concat num s Hn K H3) by lia. reflexivity. }
    unfold trows. rewrite H2. unfold computable.
    pose proof (count_le (fun i => dmax (K * num + i) + 1 + i <? length s - K * num) num).
    split; [|lia]. intros i Hi. destruct (le_lt_dec (K * num) i) as [Hge|Hlt].
    + replace i with (K * num + (i - K * num)) at 2 3 by lia. set (i' := i - K * num).
      assert (i' < num) by (unfold i'; lia).
      pose proof (count_prefix_iff (fun i => dmax (K * num + i) + 1 + i <? length s - K * num) num
                    (mono_count num s Hn K Hs) i' ltac:(auto)) as E.
      cbv beta in E. rewrite Nat.ltb_lt in E. unfold i' in *. split; intros; lia.
    + split; [|lia]. intros _. set (k := i / num).
      pose proof (Nat.div_mod i num ltac:(lia)) as E. pose proof (Nat.mod_upper_bound i num ltac:(lia)) as B.
      fold k in E. assert (k < K) by (clearbody k; clear - E Hlt; nia).
      specialize (H3 k ltac:(lia)). unfold tfull in H3. apply Nat.leb_le in H3.
      pose proof (tmsd_ge num k (i mod num) B) as Hm.
      replace (k * num + i mod num) with i in Hm by lia. lia.
Qed.
End Traj.

(* ------------------------------------------------------------------ *)
(** * IntegratorSectorTime (tbeamform.py:783-812)

    [inds]: for every sector the flat indices of its grid points; [q] is
    10**(clip/10).  The maximum of an empty array is a ValueError. *)
Definition lmax (l : list R) : option R :=
  match l with [] => None | x :: l' => Some (fold_left Rmax l' x) end.

Definition clip_sum (rmin : R) (row : list R) (ind : list nat) : R :=
  rsum (map (fun j => if Rlt_dec rmin (nth j row 0%R) then nth j row 0%R else 0%R) ind).

Fixpoint ist_loop (inds : list (list nat)) (q : R) (bs : list (list (list R))) (e : ending) : trace (list R) :=
  match bs with
  | [] => mkTrace [] e
  | r :: bs' =>
      match lmax (concat r) with
      | None => raise ValueError
      | Some rmax =>
          let t := ist_loop inds q bs' e in
          mkTrace (map (fun row => map (clip_sum (rmax * q) row) inds) r :: blocks t) (fin t)
      end
  end.

Definition ist_result (inds : list (list nat)) (q : R) (src : source (list R)) (num : nat) : trace (list R) :=
  ist_loop inds q (blocks (src num)) (fin (src num)).

(** Specification: the plain sum over the grid points of a sector. *)
Definition sector_sums (inds : list (list nat)) (row : list R) : list R :=
  map (fun ind => rsum (map (fun j => nth j row 0%R) ind)) inds.

Lemma fold_rmax_spec l : forall x, (x <= fold_left Rmax l x)%R /\ (forall y, In y l -> (y <= fold_left Rmax l x)%R) /\
  (fold_left Rmax l x = x \/ In (fold_left Rmax l x) l).
Proof.
  induction l as [|a l IH]; intros x; simpl.
  - repeat split; auto; try lra. intros y [].
  - destruct (IH (Rmax x a)) as (A & B & C). pose proof (Rmax_l x a). pose proof (Rmax_r x a).
    repeat split.
    + lra.
    + intros y [->|Hy]; auto; lra.
    + destruct C as [C|C]; auto. rewrite C. destruct (Rmax_case_strong x a (fun z => z = x \/ z = a)); auto.
Qed.

Lemma lmax_in l v : lmax l = Some v -> In v l.
Proof.
  destruct l as [|x l]; simpl; [discriminate|]. intros E. injection E as <-.
  destruct (proj2 (proj2 (fold_rmax_spec l x))) as [H|H]; auto.
Qed.

Theorem ist_plain inds q (src : source (list R)) s num b :
  wf_source src s -> 0 < num -> (0 < q)%R ->
  (forall row, In row s -> row <> []) ->
  (forall row x, In row s -> In x row -> (x <= b)%R) ->
  (forall row x, In row s -> In x row -> x = 0%R \/ (b * q < x)%R) ->
  delivers num (map (sector_sums inds) s) (ist_result inds q src num).
Proof.
  intros Hw Hn Hq Hne Hb Hc. unfold ist_result. rewrite (wf_source_eq src s num) by auto. cbn [blocks fin done].
  apply delivers_iff; auto. rewrite <- chunks_map by auto.
  assert (forall bs, (forall r, In r bs -> r <> [] /\ forall row, In row r -> In row s) ->
    ist_loop inds q bs Finished = done (map (map (sector_sums inds)) bs)) as H.
  { induction bs as [|r bs IH]; intros Hbs; [reflexivity|]. cbn [ist_loop].
    destruct (Hbs r (or_introl eq_refl)) as [Hr Hrow].
    destruct (lmax (concat r)) as [v|] eqn:E.
    - rewrite IH by (intros; apply Hbs; right; auto). cbn [blocks fin done map]. unfold done. f_equal. f_equal.
      apply map_ext_in. intros row Hin. unfold sector_sums. apply map_ext. intros ind. unfold clip_sum.
      f_equal. apply map_ext. intros j.
      apply lmax_in in E. apply in_concat in E. destruct E as (row' & H1 & H2).
      assert (v * q <= b * q)%R by (apply Rmult_le_compat_r; [lra|]; apply (Hb row'); auto).
      destruct (le_lt_dec (length row) j) as [Hj|Hj].
      + rewrite nth_overflow by auto. destruct (Rlt_dec _ _); auto.
      + destruct (Hc row (nth j row 0%R)) as [Hz|Hz]; [auto|apply nth_In; auto| |].
        * rewrite Hz. destruct (Rlt_dec _ _); auto.
        * destruct (Rlt_dec _ _); auto. lra.
    - exfalso. destruct r as [|row r]; [auto|]. simpl in E.
      specialize (Hne row (Hrow row (or_introl eq_refl))). destruct row; [auto|discriminate]. }
  apply H. intros r Hr. split.
  - intros ->. apply chunks_in_len in Hr; auto. simpl in Hr. lia.
  - intros row Hrow. rewrite <- (concat_chunks num s Hn). apply in_concat. eauto.
Qed.

(* ------------------------------------------------------------------ *)
(** * Specification of the largest delay and witnesses *)

(** [d]: the number of samples of the stream a row reaches beyond its own
    time, two more than the integer part of the largest delay. *)
Definition is_reach (G M : nat) (dly : nat -> nat -> R) (d : nat) : Prop :=
  (forall g m, g < G -> m < M -> (dly g m < INR d - 1)%R) /\
  (exists g m, g < G /\ m < M /\ (INR d - 2 <= dly g m)%R).

Lemma rmax_list_in l : rmax_list l = 0%R \/ In (rmax_list l) l.
Proof.
  induction l as [|x l IH]; simpl; auto.
  destruct (Rmax_case_strong x (rmax_list l) (fun z => z = x \/ z = rmax_list l)) as [->| ->]; auto.
  destruct IH; auto.
Qed.

Lemma reach_msd G M dly d : (forall g m, (0 <= dly g m)%R) -> is_reach G M dly d ->
  max_sample_delay G M dly = d.
Proof.
  intros H0 [H1 (g & m & Hg & Hm & H2)].
  unfold max_sample_delay. set (l := flat_map _ _).
  assert (In (dly g m) l) as Hin.
  { apply in_flat_map. exists g. split; [apply in_seq; lia|]. apply in_map_iff. exists m.
    split; auto. apply in_seq; lia. }
  pose proof (rmax_list_ge _ _ Hin) as Hge. pose proof (H0 g m) as Hp. pose proof (H1 g m Hg Hm) as Hlt.
  assert (rmax_list l < INR d - 1)%R as Hl.
  { destruct (rmax_list_in l) as [E|E]; [lra|]. apply in_flat_map in E. destruct E as (g' & Hg' & E).
    apply in_map_iff in E. destruct E as (m' & <- & Hm'). apply in_seq in Hg'. apply in_seq in Hm'.
    apply H1; lia. }
  assert (2 <= d) as Hd.
  { assert (1 < d); [|lia]. apply INR_lt. simpl. lra. }
  assert (0 <= rmax_list l)%R as Hr by lra.
  unfold didx. rewrite (proj1 (trunc_nonneg _ Hr)).
  rewrite (Int_part_unique (rmax_list l) (Z.of_nat d - 2)).
  - lia.
  - rewrite minus_IZR, <- INR_IZR_INZ. simpl. lra.
Qed.

Lemma trunc_INR k : trunc (INR k) = Z.of_nat k.
Proof.
  pose proof (pos_INR k). rewrite (proj1 (trunc_nonneg _ H)).
  apply Int_part_unique. rewrite <- INR_IZR_INZ. lra.
Qed.

Lemma didx_INR k : didx (INR k) = k.
Proof. unfold didx. rewrite trunc_INR. lia. Qed.

Lemma dfrac_INR k : dfrac (INR k) = 0%R.
Proof. unfold dfrac. rewrite trunc_INR, <- INR_IZR_INZ. lra. Qed.

Lemma const_reach (k : nat) : is_reach 1 1 (fun _ _ => INR k) (k + 2).
Proof.
  split.
  - intros g m _ _. rewrite plus_INR. simpl. lra.
  - exists 0, 0. repeat split; auto. rewrite plus_INR. simpl. lra.
Qed.

Lemma const_msd (k : nat) : max_sample_delay 1 1 (fun _ _ => INR k) = k + 2.
Proof. apply reach_msd; [intros; apply pos_INR|apply const_reach]. Qed.

Lemma dmax_one (f : nat -> nat) n : dmax 1 1 (fun n _ _ => INR (f n)) n = f n.
Proof. unfold dmax. simpl. rewrite didx_INR. lia. Qed.

Lemma tmsd_one (f : nat -> nat) num k :
  tmsd 1 1 (fun n _ _ => INR (f n)) num k = nmax (map (fun i => f (k * num + i) + 2) (seq 0 num)).
Proof. unfold tmsd. f_equal. apply map_ext. intros i. now rewrite dmax_one. Qed.
