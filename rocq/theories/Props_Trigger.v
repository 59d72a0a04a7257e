(** Property C69: trigger detection (Trigger, tprocess.py:310-506). *)
From Coq Require Import List Arith Lia ZArith Bool Reals Lra.
From Verif Require Import Stream Trigger.
Import ListNotations.
Local Open Scope nat_scope.

(** 'dirac': whatever the signal, the reported positions are samples beyond the
    threshold, in order, no two closer than the hunk ([hunk_length] times the
    largest distance of neighbours), and a sample beyond the threshold is left
    out only because of another one in the same hunk: an earlier reported one
    ('first'), one that is not smaller ('extremum').  The other two components
    are the largest and the smallest distance of the reported positions, the
    largest being at least that of the candidates. *)
Theorem C69_dirac pk thr hl mv src s :
  wf_source src s -> 2 <= length (exceeding thr s) -> (0 <= hl <= 1)%R ->
  exists P mx mn, trigger_data Dirac pk thr hl mv true 1 src = inl (P, mx, mn)
    /\ picked pk (hl * INR (list_max1 (gaps (exceeding thr s)))) (fun i => nth i s 0%R) (exceeding thr s) P
    /\ In mx (gaps P) /\ In mn (gaps P) /\ (forall g, In g (gaps P) -> mn <= g <= mx)
    /\ (forall g, In g (gaps (exceeding thr s)) -> g <= mx).
Proof.
  intros W H2 Hh. destruct (dirac_data pk thr hl mv src s W H2 Hh) as [P [H [K L]]].
  exists P, (list_max1 (gaps P)), (list_min1 (gaps P)). split; auto. split; auto.
  assert (gaps P <> []) as NE.
  { destruct K as [_ [K _]]. destruct P as [|a [|b r]]; simpl in *; try lia. discriminate. }
  split; [now apply max1_in|]. split; [now apply min1_in|]. split.
  - intros g Hg. split; [now apply min1_le | now apply max1_ge].
  - intros g Hg. apply (Nat.le_trans _ (list_max1 (gaps (exceeding thr s)))); [now apply max1_ge | exact L].
Qed.

(** beyond the threshold means above a positive threshold and below any other
    one; an edge is a sample whose step from its predecessor is beyond it *)
Theorem C69_candidates thr s i :
  (In i (exceeding thr s) <-> i < length s
     /\ ((0 < thr)%R -> (thr < nth i s 0)%R) /\ ((thr <= 0)%R -> (nth i s 0 < thr)%R))
  /\ (In i (edges thr s) <-> 0 < i < length s
     /\ ((0 < thr)%R -> (thr < nth i s 0 - nth (i - 1) s 0)%R)
     /\ ((thr <= 0)%R -> (nth i s 0 - nth (i - 1) s 0 < thr)%R)).
Proof.
  assert (B : forall v, beyond thr v = true <-> ((0 < thr)%R -> (thr < v)%R) /\ ((thr <= 0)%R -> (v < thr)%R)).
  { intros v. unfold beyond. repeat destruct (Rlt_dec _ _); split; intros; try split; intros; auto; try discriminate; try lra. }
  unfold exceeding, edges. rewrite !filter_In, !in_seq, !B. intuition lia.
Qed.

(** a source with several channels is refused *)
Theorem C69_channels ty pk thr hl mv hs nch src : nch <> 1 ->
  trigger_data ty pk thr hl mv hs nch src = inr NotOneChannel.
Proof. intros H. unfold trigger_data. now rewrite (proj2 (Nat.eqb_neq nch 1) H). Qed.

(** in particular the unique largest peak is always among the reported ones *)
Theorem C69_largest_kept thr hl mv src s i :
  wf_source src s -> 2 <= length (exceeding thr s) -> (0 <= hl <= 1)%R ->
  In i (exceeding thr s) ->
  (forall j, In j (exceeding thr s) -> j <> i -> (Rabs (nth j s 0) < Rabs (nth i s 0))%R) ->
  exists P mx mn, trigger_data Dirac Extremum thr hl mv true 1 src = inl (P, mx, mn) /\ In i P.
Proof.
  intros W H2 Hh Hi Hmax. destruct (dirac_data Extremum thr hl mv src s W H2 Hh) as [P [H [K _]]].
  exists P, (list_max1 (gaps P)), (list_min1 (gaps P)). split; auto.
  destruct K as [_ [_ [_ [_ K]]]]. destruct (in_dec Nat.eq_dec i P) as [Y|N]; auto.
  destruct (K i Hi N) as [j [J1 [J2 [_ J3]]]]. specialize (Hmax j J1 J2). lra.
Qed.

(** fewer than two candidates: the call raises *)
Theorem C69_few ty pk thr hl mv hs src s : wf_source src s ->
  length match ty with Dirac => exceeding thr s | Rect => edges thr s end <= 1 ->
  trigger_data ty pk thr hl mv hs 1 src = inr NotEnough.
Proof. apply few_peaks. Qed.

(** 'rect': an edge at sample [i] is reported at [i], but at [i-1] if it lies in
    the first 2048 samples *)
Theorem C69_rect_partial pk thr mv src s :
  wf_source src s -> 2 <= length (edges thr s) ->
  exists mx mn, trigger_data Rect pk thr 0 mv true 1 src
    = inl (map (fun i => if i <? 2048 then i - 1 else i) (edges thr s), mx, mn).
Proof. intros W H. eexists. eexists. exact (rect_data pk thr mv src s W H). Qed.

(** so that a perfectly regular square wave is reported with a longer
    revolution where the first block ends *)
Theorem C69_rect_refuted : exists s src P mx mn,
  wf_source src s /\
  trigger_data Rect First (1 / 2) 0 1 true 1 src = inl (P, mx, mn)
  /\ edges (1 / 2) s = [2; 4; 6] /\ P = [1; 3; 5].
Proof.
  set (s := [0; 0; 1; 0; 1; 0; 1]%R).
  assert (edges (1 / 2) s = [2; 4; 6]) as E.
  { unfold edges, s. cbn [length Nat.sub seq filter nth]. unfold beyond.
    repeat (destruct (Rlt_dec _ _); try lra). reflexivity. }
  exists s, (fun n => done (chunks n s)). eexists. eexists. eexists.
  assert (wf_source (fun n => done (chunks n s)) s) as W by (intros n Hn; now apply delivers_chunks).
  split; [exact W|]. split; [|split; [exact E|reflexivity]].
  rewrite (rect_data First (1 / 2) 1 _ s W) by (rewrite E; simpl; lia).
  rewrite E. reflexivity.
Qed.

(** the warning about uneven revolutions needs a source with a [start]: with
    another source the call raises AttributeError *)
Theorem C69_warning_refuted : exists s src, wf_source src s
  /\ (exists r, trigger_data Dirac First (1 / 2) 0 (1 / 50) true 1 src = inl r)
  /\ trigger_data Dirac First (1 / 2) 0 (1 / 50) false 1 src = inr NoStart.
Proof.
  set (s := [1; 1; 0; 1]%R).
  exists s, (fun n => done (chunks n s)).
  assert (wf_source (fun n => done (chunks n s)) s) as W by (intros n Hn; now apply delivers_chunks).
  assert (exceeding (1 / 2) s = [0; 1; 3]) as E.
  { unfold exceeding, s. cbn [length seq filter nth]. unfold beyond.
    repeat (destruct (Rlt_dec _ _); try lra). reflexivity. }
  split; [exact W|]. split.
  - destruct (dirac_data First (1 / 2) 0 (1 / 50) _ s W) as [P [H _]]; [rewrite E; simpl; lia|lra|]. eauto.
  - unfold trigger_data. cbv beta. cbn [negb Nat.eqb fin done blocks].
    rewrite (peaks_dirac (1 / 2) 2048 s ltac:(lia) [] 0).
    change (seq 0 (length s)) with [0; 1; 2; 3].
    assert (filter (fun i => beyond (1 / 2) (nth (i - 0) s 0%R)) [0; 1; 2; 3] = [0; 1; 3]) as ->.
    { rewrite <- E. unfold exceeding. change (seq 0 (length s)) with [0; 1; 2; 3].
      apply filter_ext. intros i. now rewrite Nat.sub_0_r. }
    rewrite Rmult_0_l, thin_none. cbn [map length Nat.leb locs gaps fst].
    unfold uneven. cbn [fold_right length existsb Nat.sub INR].
    destruct (Rlt_dec _ _) as [K|K]; [reflexivity|]. exfalso. apply K.
    rewrite Rabs_left; lra.
Qed.

(** What the warning is about: some distance of the trigger signals is farther
    from their mean than the given part of the mean; otherwise the source needs
    no [start]. *)
Theorem C69_warning_partial : forall ty pk thr hunk maxvar nch src P mx mn mean,
  trigger_data ty pk thr hunk maxvar true nch src = inl (P, mx, mn) ->
  (mean * INR (length (gaps P)) = fold_right Rplus 0 (map INR (gaps P)))%R ->
  ((exists x, In x (gaps P) /\ (maxvar * mean < Rabs (INR x - mean))%R)
   /\ trigger_data ty pk thr hunk maxvar false nch src = inr NoStart)
  \/ ((forall x, In x (gaps P) -> (Rabs (INR x - mean) <= maxvar * mean)%R)
      /\ trigger_data ty pk thr hunk maxvar false nch src = inl (P, mx, mn)).
Proof.
  intros ty pk thr hunk maxvar nch src P mx mn mean H Hm. unfold trigger_data in *.
  destruct (negb (nch =? 1)); [discriminate|].
  destruct (fin (src 2048)) as [|e]; [|discriminate].
  set (peaks := peaks_loop ty thr 2048 (blocks (src 2048)) [] 0) in *.
  destruct (length peaks <=? 1); [discriminate|].
  destruct (thin (length peaks) pk (hunk * INR (list_max1 (gaps (locs peaks)))) peaks) as [p|]; [|discriminate].
  cbn [negb] in *. rewrite andb_false_r in H. rewrite andb_true_r.
  destruct (gaps (locs p)) as [|d0 d] eqn:E; [discriminate|]. injection H as H1 H2 H3. subst P.
  rewrite E in *. set (l := d0 :: d) in *.
  assert (M : (fold_right (fun x a => INR x + a) 0 l / INR (length l))%R = mean).
  { assert (F : fold_right (fun x a => INR x + a)%R 0%R l = fold_right Rplus 0%R (map INR l)).
    { clear. induction l as [|x l IH]; [reflexivity|]. cbn [fold_right map]. rewrite IH. reflexivity. }
    rewrite F, <- Hm. field. unfold l. cbn [length]. apply not_0_INR. lia. }
  unfold uneven. rewrite M.
  destruct (existsb (fun x => if Rlt_dec (maxvar * mean) (Rabs (INR x - mean)) then true else false) l) eqn:X.
  - left. split; [|reflexivity]. apply existsb_exists in X as (x & X1 & X2). exists x. split; [exact X1|].
    destruct (Rlt_dec _ _); [assumption|discriminate].
  - right. split.
    + intros x Hx. destruct (Rle_dec (Rabs (INR x - mean)) (maxvar * mean)) as [|N]; [assumption|].
      exfalso. assert (existsb (fun x => if Rlt_dec (maxvar * mean) (Rabs (INR x - mean)) then true else false) l = true); [|congruence].
      apply existsb_exists. exists x. split; [exact Hx|]. destruct (Rlt_dec _ _); [reflexivity|lra].
    + rewrite <- H2, <- H3. reflexivity.
Qed.
Print Assumptions C69_warning_partial.

(** The guessed threshold ignores an offset of the signal, the comparison does
    not: the same pulses on a large offset make every sample a trigger. *)
Theorem C69_guess_offset : forall s c, s <> [] ->
  let g := guess (chunks 2048 s) in
  (0 < g)%R -> (forall v, In v s -> (g < v + c)%R) ->
  exceeding (guess (chunks 2048 (map (fun v => v + c)%R s))) (map (fun v => v + c)%R s) = seq 0 (length s).
Proof.
  intros s c Hs g Hg Hc. rewrite guess_shift_all by auto. fold g.
  rewrite <- (map_length (fun v => (v + c)%R)). apply all_exceed; auto.
  intros v Hv. apply in_map_iff in Hv. destruct Hv as [u [<- Hu]]. auto.
Qed.

Lemma guess_0040 : guess (chunks 2048 [0; 0; 4; 0]%R) = (9 / 4)%R.
Proof.
  rewrite chunks_short by (simpl; lia || discriminate).
    unfold guess. cbn [map]. unfold rmean, rsum.
    assert (rmax [0; 0; 4; 0]%R = 4%R) as ->.
    { unfold rmax. cbn [fold_right]. unfold Rmax. repeat (destruct (Rle_dec _ _); try lra). }
    assert (rmin [0; 0; 4; 0]%R = 0%R) as ->.
    { unfold rmin. cbn [fold_right]. unfold Rmin. repeat (destruct (Rle_dec _ _); try lra). }
    cbn [rmax rmin fold_right length INR]. 
    match goal with |- context [Rabs ?x] => replace x with (-1)%R by lra end.
    match goal with |- context [Rlt_dec _ (Rabs ?x)] => replace x with 3%R by lra end.
    rewrite (Rabs_left (-1)) by lra. rewrite (Rabs_right 3) by lra.
    destruct (Rlt_dec _ _); lra.
Qed.

Theorem C69_guess_refuted : exists s c,
  exceeding (guess (chunks 2048 s)) s = [2]
  /\ exceeding (guess (chunks 2048 (map (fun v => v + c)%R s))) (map (fun v => v + c)%R s) = [0; 1; 2; 3].
Proof.
  exists [0; 0; 4; 0]%R, 10%R. split.
  - rewrite guess_0040. unfold exceeding. cbn [length seq filter nth]. unfold beyond.
    repeat (destruct (Rlt_dec _ _); try lra). reflexivity.
  - apply (C69_guess_offset [0; 0; 4; 0]%R 10%R); [discriminate| |]; rewrite guess_0040; [lra|].
    intros v [<-|[<-|[<-|[<-|[]]]]]; lra.
Qed.

Print Assumptions C69_dirac.
Print Assumptions C69_candidates.
Print Assumptions C69_channels.
Print Assumptions C69_largest_kept.
Print Assumptions C69_few.
Print Assumptions C69_rect_partial.
Print Assumptions C69_rect_refuted.
Print Assumptions C69_warning_refuted.
Print Assumptions C69_guess_offset.
Print Assumptions C69_guess_refuted.

(** concrete cases *)
Example C69_case : exists s src, wf_source src s /\ 2 <= length (exceeding (1 / 2) s)
  /\ exceeding (1 / 2) s = [0; 1; 5].
Proof.
  set (s := [1; 2; 0; 0; 0; 1]%R). exists s, (fun n => done (chunks n s)).
  assert (exceeding (1 / 2) s = [0; 1; 5]) as E.
  { unfold exceeding, s. cbn [length seq filter nth]. unfold beyond.
    repeat (destruct (Rlt_dec _ _); try lra). reflexivity. }
  split; [intros n Hn; now apply delivers_chunks|]. split; [rewrite E; simpl; lia|exact E].
Qed.

Example C69_largest_case : In 1 (exceeding (1 / 2) [1; 2; 0; 0; 0; 1]%R)
  /\ forall j, In j (exceeding (1 / 2) [1; 2; 0; 0; 0; 1]%R) -> j <> 1 ->
       (Rabs (nth j [1; 2; 0; 0; 0; 1] 0) < Rabs (nth 1 [1; 2; 0; 0; 0; 1] 0))%R.
Proof.
  assert (exceeding (1 / 2) [1; 2; 0; 0; 0; 1]%R = [0; 1; 5]) as ->.
  { unfold exceeding. cbn [length seq filter nth]. unfold beyond.
    repeat (destruct (Rlt_dec _ _); try lra). reflexivity. }
  split; [simpl; auto|]. intros j [<-|[<-|[<-|[]]]] H; try lia; cbn [nth]; rewrite !Rabs_right; lra.
Qed.

Example C69_guess_case : (0 < guess (chunks 2048 [0; 0; 4; 0]%R))%R
  /\ forall v, In v [0; 0; 4; 0]%R -> (guess (chunks 2048 [0; 0; 4; 0]%R) < v + 10)%R.
Proof.
  rewrite guess_0040. split; [lra|]. intros v [<-|[<-|[<-|[<-|[]]]]]; lra.
Qed.
