(** C118: registering and removing objects at a SampleSplitter while data are
    distributed. *)
From Coq Require Import List Arith Lia ZArith Bool.
From Verif Require Import Stream Splitter SplitDyn.
Import ListNotations.

(** Whatever is registered and removed, and when: every object receives blocks
    the splitter has fetched, in their order and none twice; of a source that
    is started once these are a beginning of its blocks. *)
Theorem C118_order : forall (A : Type) (src : nat -> list A) bs ops s L i,
  xrun src ops (xstart bs) = (s, L) ->
  subseq (received i L) (fetched L)
  /\ forall n, created L = [n] -> exists rest, src n = fetched L ++ rest.
Proof.
  intros A src bs ops s L i E. split.
  - destruct (xrun_good src i ops (xstart bs) [] [] (xstart_calm bs) (sub_nil _)) as (_ & H).
    rewrite E in H. cbn [fst snd app] in H. eapply subseq_prefix. exact H.
  - intros n Hn. assert (P : prefixed src (xstart bs) []) by (cbn; auto).
    apply (prefixed_xrun src ops) in P. rewrite E in P. cbn [fst snd app] in P.
    unfold prefixed in P. rewrite Hn in P. exists (rem s). symmetry. exact P.
Qed.
Print Assumptions C118_order.

(** An object that is registered after [ops1] receives what is fetched from
    then on, and all of it as long as its deque is large enough for it. *)
Theorem C118_late : forall (A : Type) (src : nat -> list A) bs ops1 ops2 i mx t,
  let s1 := fst (xrun src ops1 (xstart bs)) in
  (forall o, In o (objs s1) -> oid o <> i) ->
  existsb (removes i) ops2 = false ->
  let r := xrun src (Reg [i] mx t :: ops2) s1 in
  subseq (received i (snd r)) (fetched (snd r))
  /\ (created (snd r) = [] -> length (fetched (snd r)) <= mx ->
      exists o, In o (objs (fst r)) /\ oid o = i /\ received i (snd r) ++ obuf o = fetched (snd r)).
Proof.
  intros A src bs ops1 ops2 i mx t s1 HN HR r.
  assert (E : find i (objs s1) = None).
  { apply (proj2 (find_none_in src i (objs s1))). intros C. apply in_map_iff in C as (o & E & C). exact (HN o C E). }
  assert (Q : calm s1).
  { apply (xrun_good src i ops1 (xstart bs) [] [] (xstart_calm bs) (sub_nil _)). }
  assert (Er : r = xrun src ops2 (register i mx t s1)).
  { unfold r. cbn [xrun xexec reg_all]. rewrite E. cbn. destruct (xrun src ops2 _); reflexivity. }
  assert (Q2 : calm (register i mx t s1)) by exact Q.
  assert (FR : find i (objs (register i mx t s1)) = Some (mkObj i mx t [])).
  { rewrite find_register by exact E. rewrite Nat.eqb_refl. reflexivity. }
  rewrite Er. split.
  - destruct (xrun_good src i ops2 (register i mx t s1) [] [] Q2) as (_ & H).
    { unfold buf_of. rewrite FR. constructor. }
    eapply subseq_prefix. exact H.
  - intros HC HL. destruct (xrun_whole src i mx ops2 (register i mx t s1) [] [] Q2 HR HC) as (o & A1 & A2 & A3).
    + intros _. exists (mkObj i mx t []). auto.
    + exact HL.
    + exists o. apply find_in in A1 as (A1 & A4). auto.
Qed.
Print Assumptions C118_late.

(** remove_object: with distinct registered objects exactly these disappear,
    the others keep their order and buffers; without arguments all disappear;
    an object that is not registered is a KeyError. *)
Theorem C118_removed : forall (A : Type) (src : nat -> list A) ids (s : @st A),
  NoDup ids -> ids <> [] -> (forall i, In i ids -> In i (map oid (objs s))) ->
  snd (xexec src (Rem ids) s) = []
  /\ (forall o, In o (objs (fst (xexec src (Rem ids) s))) <-> In o (objs s) /\ ~ In (oid o) ids)
  /\ subseq (objs (fst (xexec src (Rem ids) s))) (objs s)
  /\ gens (fst (xexec src (Rem ids) s)) = gens s /\ rem (fst (xexec src (Rem ids) s)) = rem s.
Proof.
  intros A src ids s ND NE HI. cbn [xexec]. unfold remove_object.
  replace (match ids with [] => map oid (objs s) | _ => ids end) with ids by (destruct ids; congruence).
  rewrite rem_done; [|exact ND|].
  2:{ intros j Hj. apply HI in Hj. rewrite (find_none_in src). tauto. }
  cbn [fst snd]. rewrite fold_remove. destruct (fold_other ids s) as (H1 & H2 & _).
  split; [reflexivity|]. split.
  - intros o. rewrite filter_In. split; intros (B1 & B2); (split; [exact B1|]).
    + apply negb_true_iff in B2. apply existsb_in. exact B2.
    + apply negb_true_iff. destruct (existsb (Nat.eqb (oid o)) ids) eqn:X; [|reflexivity].
      apply existsb_exists in X as (x & X1 & X2). apply Nat.eqb_eq in X2. subst x. contradiction.
  - split; [|auto]. induction (objs s) as [|o l IH]; cbn; [constructor|].
    assert (IH' : subseq (filter (fun o => negb (existsb (Nat.eqb (oid o)) ids)) l) l).
    { clear. induction l as [|o l IH]; cbn; [constructor|]. destruct (negb _); constructor; exact IH. }
    destruct (negb _); constructor; exact IH'.
Qed.
Print Assumptions C118_removed.
Theorem C118_remove_unknown : forall (A : Type) (src : nat -> list A) i (s : @st A),
  ~ In i (map oid (objs s)) -> xexec src (Rem [i]) s = (s, [Err i KeyError]).
Proof.
  intros A src i s H. cbn. apply (find_none_in src) in H. rewrite H. reflexivity.
Qed.
Print Assumptions C118_remove_unknown.
Theorem C118_remove_all : forall (A : Type) (src : nat -> list A) (s : @st A),
  NoDup (map oid (objs s)) ->
  snd (xexec src (Rem []) s) = [] /\ objs (fst (xexec src (Rem []) s)) = [].
Proof.
  intros A src s H. cbn [xexec]. unfold remove_object. rewrite rem_done; [|exact H|].
  - cbn [fst snd]. split; [reflexivity|]. rewrite fold_remove.
    assert (G : forall l, (forall o, In o l -> In o (objs s)) ->
       filter (fun o => negb (existsb (Nat.eqb (oid o)) (map oid (objs s)))) l = []).
    { induction l as [|o l IH]; intros HI; [reflexivity|]. cbn.
      assert (X : existsb (Nat.eqb (oid o)) (map oid (objs s)) = true).
      { apply existsb_exists. exists (oid o). split; [apply in_map, HI; left; reflexivity|apply Nat.eqb_refl]. }
      rewrite X. cbn. apply IH. intros o' Ho'. apply HI. right. exact Ho'. }
    apply G. auto.
  - intros j Hj. rewrite (find_none_in src). tauto.
Qed.
Print Assumptions C118_remove_all.

(** As long as it is not registered again a removed object receives nothing,
    not even by a generator it has running. *)
Theorem C118_removed_silent : forall (A : Type) (src : nat -> list A) i (s : @st A) ops,
  In i (map oid (objs s)) -> existsb (registers i) ops = false ->
  received i (snd (xrun src (Rem [i] :: ops) s)) = [].
Proof.
  intros A src i s ops H N. cbn [xrun xexec remove_object rem_all].
  destruct (find i (objs s)) as [o|] eqn:E; [|apply (find_none_in src) in E; contradiction].
  destruct (xrun_absent src i ops (remove i s)) as (H1 & _); [|exact N|].
  - cbn. rewrite find_filter, Nat.eqb_refl. reflexivity.
  - destruct (xrun src ops (remove i s)) as [s2 e2]. exact H1.
Qed.
Print Assumptions C118_removed_silent.

(** Removing an object that has only been registered with the treatment 'none'
    changes nothing for the others: every event is the same. *)
Theorem C118_remove_partial : forall (A : Type) (src : nat -> list A) bs ops1 ops2 i,
  Forall (only_none i) ops1 -> existsb (concerns i) ops2 = false ->
  let s1 := fst (xrun src ops1 (xstart bs)) in
  In i (map oid (objs s1)) ->
  snd (xrun src (Rem [i] :: ops2) s1) = snd (xrun src ops2 s1).
Proof.
  intros A src bs ops1 ops2 i HT HC s1 HI.
  assert (U : unwatched i s1) by (apply unwatched_xrun; [exact HT|apply xstart_unwatched]).
  cbn [xrun xexec remove_object rem_all].
  destruct (find i (objs s1)) as [o|] eqn:E; [|apply (find_none_in src) in E; contradiction].
  pose proof (without_xrun src i ops2 s1 (remove i s1) U) as H.
  assert (W : without i s1 (remove i s1)) by (repeat split; reflexivity).
  specialize (H W HC). destruct (xrun src ops2 (remove i s1)) as [s2 e2]. exact H.
Qed.
Print Assumptions C118_remove_partial.

(** With the default treatment 'error' (or 'warning') it is false: removing one
    object ends the generator of another one with a KeyError, though its data
    are all there. *)
Theorem C118_remove_refuted : exists (src : nat -> list nat) ops1 ops2,
  existsb (concerns 1) ops2 = false /\
  let s1 := fst (xrun src ops1 (xstart (Some 100))) in
  received 0 (snd (xrun src ops2 s1)) = [11; 12] /\
  (forall j x, ~ In (Err j x) (snd (xrun src ops1 (xstart (Some 100))))) /\
  snd (xrun src (Rem [1] :: ops2) s1) = [Err 0 KeyError; Dead 0].
Proof.
  exists (fun _ => [10; 11; 12]),
    [Reg [0; 1] 100 TError; Base (Call 0 5); Base (Call 1 5); Base (Next 0); Base (Next 1)],
    [Base (Next 0); Base (Next 0)].
  cbv. split; [reflexivity|]. split; [reflexivity|]. split; [|reflexivity].
  intros j x H. repeat (destruct H as [H|H]; [discriminate|]). exact H.
Qed.
Print Assumptions C118_remove_refuted.

(** An object that is registered with treatment 'error' while a generator is
    running can lose blocks without an error: that generator does not know it. *)
Theorem C118_late_refuted : exists (src : nat -> list nat) ops1 ops2,
  let s1 := fst (xrun src ops1 (xstart (Some 1))) in
  let r := xrun src (Reg [1] 1 TError :: ops2) s1 in
  (forall j x, ~ In (Err j x) (snd r)) /\ existsb (removes 1) ops2 = false /\
  In (Stop 1) (snd r) /\ created (snd r) = [] /\
  fetched (snd r) = [11; 12] /\ received 1 (snd r) = [12].
Proof.
  exists (fun _ => [10; 11; 12]),
    [Reg [0] 1 TError; Base (Call 0 5); Base (Next 0)],
    [Base (Next 0); Base (Next 0); Base (Call 1 5); Base (Next 1); Base (Next 1)].
  cbv. split; [|split; [reflexivity|split; [intuition|auto]]].
  intros j x H. repeat (destruct H as [H|H]; [discriminate|]). exact H.
Qed.
Print Assumptions C118_late_refuted.

(** The hypotheses are met. *)
Example C118_late_case :
  let src := fun _ : nat => [10; 11; 12] in
  let s1 := fst (xrun src [Reg [0] 2 TError; Base (Call 0 5); Base (Next 0)] (xstart (Some 2))) in
  let r := xrun src [Reg [1] 2 TError; Base (Next 0); Base (Next 0); Base (Call 1 5); Base (Next 1)] s1 in
  map oid (objs s1) = [0] /\ created (snd r) = [] /\ fetched (snd r) = [11; 12] /\ received 1 (snd r) = [11].
Proof. cbv. auto. Qed.
Example C118_remove_case :
  let src := fun _ : nat => [10; 11; 12] in
  let ops1 := [Reg [0] 2 TError; Reg [1] 2 TNone; Base (Call 0 5); Base (Call 1 5); Base (Next 0); Base (Next 1)] in
  let s1 := fst (xrun src ops1 (xstart (Some 2))) in
  map oid (objs s1) = [0; 1] /\
  received 0 (snd (xrun src [Rem [1]; Base (Next 0); Base (Next 0)] s1)) = [11; 12].
Proof. cbv. auto. Qed.
