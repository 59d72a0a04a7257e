(** Properties of shared state: block cache (C16), sample splitter (C17),
    registry of cache files (C29). *)
From Coq Require Import List Arith Lia Bool.
From Verif Require Import Stream Cache Splitter H5Reg.
Import ListNotations.

(** ** C16.  Whatever reads came before (any mode, any block size, given up or
    crashed after any number of operations; for h5py not between the two halves
    of an append), the file holds a beginning of the source's stream, marked
    complete only if it is the whole stream, and a read delivers the stream.
    Missing in _partial: empty streams, and crashes inside h5py's append; both
    are refuted below. *)
Theorem C16_partial : forall (A : Type) (zrow : A) (lib : h5lib) (src : source A) (s : list A) (n : node),
  wf_source src s -> s <> [] -> history zrow lib src n ->
  (forall rows c, n = Some (rows, c) ->
     exists rest, s = rows ++ rest /\ (c = Some true -> rest = []))
  /\ forall md num, 0 < num ->
     let evs := result_ev lib md src num n in
     failure evs = None /\ concat (yields evs) = s /\ full_blocks num (yields evs)
     /\ (forall cut, exists t, yields evs = yields (firstn cut evs) ++ t)
     /\ (md = CAll \/ md = COverwrite -> Cache.run zrow evs n = Some (s, Some true)).
Proof.
  intros A zrow lib src s n Hw Hs Hh. pose proof (history_ok zrow lib src s n Hw Hs Hh) as Hok. split.
  - intros rows c ->. exact Hok.
  - intros md num Hn. cbv zeta. destruct (result_yields src s Hw Hs lib md num n Hn Hok) as [-> ->].
    split; [reflexivity|]. split; [apply concat_chunks; exact Hn|].
    split; [apply chunks_full_blocks; exact Hn|]. split.
    + intros cut. destruct (yields_cut (result_ev lib md src num n) cut) as [t Ht].
      exists t. destruct (result_yields src s Hw Hs lib md num n Hn Hok) as [E _]. now rewrite <- E at 1.
    + intros Hm. apply (result_complete zrow src s); auto.
Qed.
Print Assumptions C16_partial.

(** An interrupted first read followed by a complete one with another block
    size. *)
Example C16_example :
  let src := fun num => done (chunks num [1; 2; 3; 4; 5]) in
  let n1 := Cache.after 0 H5py src None (mkRead CAll 2 11) in
  n1 = Some ([1; 2; 3; 4], Some false)
  /\ yields (result_ev H5py CAll src 3 n1) = [[1; 2; 3]; [4; 5]]
  /\ history 0 H5py src n1.
Proof.
  split; [reflexivity|]. split; [reflexivity|].
  apply hist_read; [constructor|simpl; lia|]. right. reflexivity.
Qed.

(** An empty stream: the read fails. *)
Theorem C16_empty_refuted : exists (src : source nat) (num : nat),
  wf_source src [] /\ 0 < num
  /\ failure (result_ev Tables CAll src num None) = Some UnboundLocalError.
Proof.
  exists (fun num => done []), 1. split; [|split; [lia|reflexivity]].
  intros num H. split; [reflexivity|]. split; [reflexivity|]. constructor.
Qed.
Print Assumptions C16_empty_refuted.

(** h5py: a crash between resize and write leaves rows of zeros, which a later
    read delivers. *)
Theorem C16_h5py_crash_refuted : exists (src : source nat) (s : list nat) (cut : nat),
  wf_source src s /\ s <> []
  /\ let n := Cache.after 0 H5py src None (mkRead CAll 2 cut) in
     concat (yields (result_ev H5py CAll src 2 n)) <> s.
Proof.
  exists (fun num => done (chunks num [1; 2; 3])), [1; 2; 3], 4.
  split; [|split; [discriminate|]].
  - intros num H. apply delivers_chunks. exact H.
  - cbv. discriminate.
Qed.
Print Assumptions C16_h5py_crash_refuted.

(** Every operation of a read finds the node it needs: nothing is created twice,
    nothing is appended to, marked or removed while missing (each of these is an
    exception of the HDF5 libraries). *)
Fixpoint legal {A} (zrow : A) (n : node (A:=A)) (evs : list (ev (A:=A))) : Prop :=
  match evs with
  | [] => True
  | e :: l =>
      match e, n with
      | ECreate, Some _ => False
      | EAttr, None | EComplete _, None | EAppend _, None | EResize _, None | EWrite _, None | ERemove, None => False
      | _, _ => True
      end /\ legal zrow (step zrow n e) l
  end.

Lemma legal_app {A} (zrow : A) evs : forall n evs', legal zrow n (evs ++ evs') <->
  legal zrow n evs /\ legal zrow (Cache.run zrow evs n) evs'.
Proof.
  induction evs as [|e l IH]; intros n evs'; simpl; [tauto|]. rewrite IH. unfold Cache.run. simpl. tauto.
Qed.

Lemma legal_yields {A} (zrow : A) bs : forall n, legal zrow n (map EYield bs) /\ Cache.run zrow (map EYield bs) n = n.
Proof.
  induction bs as [|b bs IH]; intros n; simpl; [auto|]. destruct (IH n) as [H1 H2].
  replace (step zrow n (EYield b)) with n by (destruct n as [[]|]; reflexivity).
  split; [auto|]. unfold Cache.run in *. simpl.
  replace (step zrow n (EYield b)) with n by (destruct n as [[]|]; reflexivity). exact H2.
Qed.

Lemma legal_loop {A} (zrow : A) lib nblocks bs : forall j n, (j = 0 <-> n = None) ->
  legal zrow n (loop_ev lib nblocks j bs)
  /\ (bs <> [] \/ n <> None -> Cache.run zrow (loop_ev lib nblocks j bs) n <> None).
Proof.
  induction bs as [|b bs IH]; intros j n Hn; [simpl; split; [exact I|intros [H|H]; [now destruct H|exact H]]|].
  cbn [loop_ev].
  assert (P : exists r, legal zrow n (if j =? 0 then [ECreate; EAttr; EComplete false] else [])
     /\ Cache.run zrow (if j =? 0 then [ECreate; EAttr; EComplete false] else []) n = Some r).
  { destruct (Nat.eqb_spec j 0) as [E|E].
    - rewrite (proj1 Hn E). eexists. simpl. split; [auto 10|reflexivity].
    - destruct n as [r|]; [|exfalso; apply E, Hn; reflexivity]. exists r. simpl. auto. }
  destruct P as ([r c] & P1 & P2).
  assert (Q : exists r', legal zrow (Some (r, c)) (append_ev lib b) /\ Cache.run zrow (append_ev lib b) (Some (r, c)) = Some r').
  { destruct lib; simpl; eexists; split; try reflexivity; auto. }
  destruct Q as ([r' c'] & Q1 & Q2).
  assert (T : legal zrow (Some (r', c')) (if nblocks <=? j then [EFlush; EYield b] else [])
    /\ Cache.run zrow (if nblocks <=? j then [EFlush; EYield b] else []) (Some (r', c')) = Some (r', c')).
  { destruct (nblocks <=? j); simpl; auto. }
  destruct T as [T1 T2].
  destruct (IH (S j) (Some (r', c'))) as [U1 U2]; [split; intros; discriminate|].
  split.
  - rewrite !legal_app, P2, Q2, T2. auto.
  - intros _. unfold Cache.run in *. rewrite !fold_left_app, P2, Q2, T2. apply U2. right. discriminate.
Qed.

Theorem C16_no_conflict : forall (A : Type) (zrow : A) (lib : h5lib) (md : mode) (src : source A) (num : nat) (n : node),
  legal zrow n (result_ev lib md src num n).
Proof.
  intros A zrow lib md src num n.
  assert (Pass : forall t, legal zrow n (pass_ev t)).
  { intros t. unfold pass_ev. rewrite legal_app. split; [apply legal_yields|].
    destruct (fin t); simpl; destruct (Cache.run zrow (map EYield (blocks t)) n); auto. }
  assert (Loop : forall nb unbound (t : trace A), legal zrow None (loop_ev lib nb 0 (blocks t) ++ end_ev unbound (blocks t) (fin t))).
  { intros nb unbound t. rewrite legal_app. destruct (legal_loop zrow lib nb (blocks t) 0 None) as [H1 H2]; [tauto|].
    split; [exact H1|]. destruct (fin t) as [|x]; simpl.
    - destruct (blocks t) as [|b bs]; [destruct (Cache.run zrow _ None); simpl; auto|].
      specialize (H2 ltac:(left; discriminate)). destruct (Cache.run zrow _ None); [simpl; auto|contradiction].
    - destruct (Cache.run zrow _ None); auto. }
  assert (Write : forall t, legal zrow None (write_ev lib t)) by (intros; apply Loop).
  assert (Inc : forall rows c t, n = Some (rows, c) -> legal zrow n (incomplete_ev lib num rows t)).
  { intros rows c t E. unfold incomplete_ev. rewrite legal_app. destruct (legal_yields zrow
      (map (fun i => slice (i * num) (i * num + num) rows) (seq 0 (length rows / num))) n) as [H1 H2].
    split; [exact H1|]. rewrite H2, E. split; [exact I|]. apply Loop. }
  unfold result_ev. destruct md; auto; destruct n as [[rows c]|] eqn:E; auto.
  - destruct c as [[]|]; [apply legal_yields|eapply Inc; reflexivity..].
  - destruct c as [[]|]; [apply legal_yields|auto..].
  - split; [exact I|apply Write].
Qed.
Print Assumptions C16_no_conflict.

(** ** C17.  [l] are the registered objects (object, maxlen of its deque,
    treatment), distinct; [bs] is buffer_size; any schedule of result() and
    next() calls; the source is started once. *)

(** Order and no duplication, whatever the sizes and treatments. *)
Theorem C17_order_partial : forall (A : Type) (src : nat -> list A) bs l ops s L n i m t,
  NoDup (map (fun x => fst (fst x)) l) ->
  Splitter.run src ops (start bs l) = (s, L) -> created L = [n] -> In (i, m, t) l ->
  subseq (received i L) (src n).
Proof.
  intros A src bs l ops s L n i m t Hd E Ec Hi.
  destruct (run_after src bs l Hd ops n s L E Ec) as (H1 & _ & _ & H4 & H5).
  destruct (in_shape l Hd s i m t H1 Hi) as (o & Ho & <- & _ & _).
  rewrite Forall_forall in H5. destruct (H5 o Ho) as (_ & H6 & _).
  rewrite <- H4. apply subseq_app_r. eapply subseq_prefix; exact H6.
Qed.
Print Assumptions C17_order_partial.

(** Nothing is lost by an object with treatment 'error' (or 'warning', as long
    as it has not been warned about) whose deque has the size buffer_size: it
    has received a beginning of the stream, and the whole stream when its
    generator ends. *)
Theorem C17_complete_partial : forall (A : Type) (src : nat -> list A) l ops s L n i m t,
  NoDup (map (fun x => fst (fst x)) l) ->
  Splitter.run src ops (start (Some m) l) = (s, L) -> created L = [n] -> In (i, m, t) l ->
  t = TError \/ (t = TWarning /\ ~ In (Warned i) L) ->
  (exists rest, src n = received i L ++ rest)
  /\ (In (Stop i) L -> received i L = src n).
Proof.
  intros A src l ops s L n i m t Hd E Ec Hi Ht.
  destruct (run_after src (Some m) l Hd ops n s L E Ec) as (H1 & _ & _ & H4 & H5).
  destruct (in_shape l Hd s i m t H1 Hi) as (o & Ho & <- & <- & <-).
  rewrite Forall_forall in H5. destruct (H5 o Ho) as (_ & _ & H6 & H7).
  assert (checked (Some (omax o)) o L) as Hc by (split; auto).
  split; [|auto]. destruct (H6 Hc) as [(r & Hr) _]. exists (r ++ rem s).
  rewrite <- H4, Hr at 1. now rewrite app_assoc.
Qed.
Print Assumptions C17_complete_partial.

(** The overflow error is raised only if some object with treatment 'error' is
    buffer_size blocks behind. *)
Theorem C17_overflow_lag : forall (A : Type) (src : nat -> list A) bs l ops s L n j,
  NoDup (map (fun x => fst (fst x)) l) ->
  Splitter.run src ops (start bs l) = (s, L) -> created L = [n] ->
  In (Err j OSError) L -> In j (map (fun x => fst (fst x)) l) ->
  exists i m k, In (i, m, TError) l /\ bs = Some k
    /\ length (received i L) + k <= length (fetched L).
Proof.
  intros A src bs l ops s L n j Hd E Ec He Hj.
  destruct (run_after src bs l Hd ops n s L E Ec) as (H1 & H2 & H3 & _).
  destruct (H2 (H3 j He Hj)) as (o & k & O1 & O2 & O3 & O4).
  exists (oid o), (omax o), k. split; [|auto].
  rewrite <- H1, <- O3. unfold shape. apply in_map_iff. exists o. auto.
Qed.
Print Assumptions C17_overflow_lag.

(** Every call of next() comes to an end. *)
Theorem C17_terminates : forall (A : Type) (src : nat -> list A) i s,
  ~ In (Err i OutOfFuel) (snd (next_call src i s)) /\ existsb ends (snd (next_call src i s)) = true.
Proof.
  intros A src i s. unfold next_call. apply go_ends. apply fuel_mu.
Qed.
Print Assumptions C17_terminates.

(** An object that is not registered gets an error, and nothing else happens. *)
Theorem C17_unregistered : forall (A : Type) (src : nat -> list A) s i num,
  (forall o, In o (objs s) -> oid o <> i) -> gens s i = GNew num ->
  snd (next_call src i s) = [Err i OSError] /\ objs (fst (next_call src i s)) = objs s
  /\ rem (fst (next_call src i s)) = rem s.
Proof.
  intros A src s i num Hn Hg.
  assert (find i (objs s) = None) as Hf.
  { induction (objs s) as [|o l IH]; [reflexivity|]. simpl.
    destruct (oid o =? i) eqn:E; [apply Nat.eqb_eq in E; exfalso; apply (Hn o); [now left|exact E]|].
    apply IH. intros o' Ho'. apply Hn. now right. }
  unfold next_call, fuel_of. rewrite Hg. cbn [Nat.add go]. unfold micro. rewrite Hg, Hf. simpl. auto.
Qed.
Print Assumptions C17_unregistered.

Definition two_errors : list (nat * nat * treatment) := [(0, 2, TError); (1, 2, TError)].
Example C17_example :
  let r := Splitter.run (fun _ => [10; 11; 12])
     [Call 0 5; Call 1 5; Next 0; Next 0; Next 1; Next 0; Next 1; Next 1; Next 0; Next 1]
     (start (Some 2) two_errors) in
  created (snd r) = [5] /\ received 0 (snd r) = [10; 11; 12] /\ received 1 (snd r) = [10; 11; 12]
  /\ In (Stop 0) (snd r) /\ In (Stop 1) (snd r).
Proof. cbv. intuition. Qed.
Example C17_overflow_example :
  let r := Splitter.run (fun _ => [10; 11; 12])
     [Call 0 5; Call 1 5; Next 0; Next 0; Next 0] (start (Some 2) two_errors) in
  created (snd r) = [5] /\ In (Err 0 OSError) (snd r).
Proof. cbv. intuition. Qed.

(** A deque smaller than buffer_size loses blocks silently in spite of
    treatment 'error'. *)
Theorem C17_size_refuted : exists (src : nat -> list nat) l ops,
  let L := snd (Splitter.run src ops (start (Some 100) l)) in
  l = [(0, 100, TError); (1, 1, TError)] /\ created L = [5]
  /\ In (Stop 1) L /\ (forall j x, ~ In (Err j x) L) /\ received 1 L <> src 5.
Proof.
  exists (fun _ => [10; 11]), [(0, 100, TError); (1, 1, TError)],
    [Call 0 5; Call 1 5; Next 0; Next 0; Next 1; Next 1].
  cbv. split; [reflexivity|]. split; [reflexivity|]. split; [intuition|]. split; [|discriminate].
  intros j x H. repeat (destruct H as [H|H]; [discriminate|]). exact H.
Qed.
Print Assumptions C17_size_refuted.

(** The same with a dictionary as buffer_size. *)
Theorem C17_dict_refuted : exists (src : nat -> list nat) ops,
  let L := snd (Splitter.run src ops (start None [(0, 1, TError); (1, 1, TError)])) in
  created L = [5] /\ In (Stop 1) L /\ (forall j x, ~ In (Err j x) L) /\ received 1 L <> src 5.
Proof.
  exists (fun _ => [10; 11]), [Call 0 5; Call 1 5; Next 0; Next 0; Next 1; Next 1].
  cbv. split; [reflexivity|]. split; [intuition|]. split; [|discriminate].
  intros j x H. repeat (destruct H as [H|H]; [discriminate|]). exact H.
Qed.
Print Assumptions C17_dict_refuted.

(** When one object has reached the end, the next object that starts (or
    starts again) restarts the source and clears what others have not read. *)
Theorem C17_restart_refuted : exists (src : nat -> list nat) ops,
  let L := snd (Splitter.run src ops (start (Some 100) [(0, 100, TError); (1, 100, TError); (2, 100, TError)])) in
  created L = [5; 5] /\ In (Stop 1) L /\ (forall j x, ~ In (Err j x) L)
  /\ received 1 L = [10; 10; 11] /\ src 5 = [10; 11].
Proof.
  exists (fun _ => [10; 11]),
    [Call 0 5; Call 1 5; Call 2 5; Next 0; Next 1; Next 0; Next 0; Next 2; Next 1; Next 1; Next 1].
  cbv. split; [reflexivity|]. split; [intuition|]. split; [|split; reflexivity].
  intros j x H. repeat (destruct H as [H|H]; [discriminate|]). exact H.
Qed.
Print Assumptions C17_restart_refuted.

(** The error is also raised when nothing has been lost: the buffer of an
    object is exactly full when the source ends. *)
Theorem C17_spurious_refuted : exists (src : nat -> list nat) ops,
  let r := Splitter.run src ops (start (Some 2) two_errors) in
  created (snd r) = [5] /\ In (Err 1 OSError) (snd r)
  /\ (forall o, In o (objs (fst r)) -> received (oid o) (snd r) ++ obuf o = src 5).
Proof.
  exists (fun _ => [10; 11; 12]), [Call 0 5; Call 1 5; Next 1; Next 0; Next 0; Next 0; Next 0; Next 1].
  cbv. split; [reflexivity|]. split; [intuition|].
  intros o [<-|[<-|[]]]; reflexivity.
Qed.
Print Assumptions C17_spurious_refuted.

(** After an overflow the splitter is stuck: the flag is reset only when the
    source generator is created, which happens only after it was exhausted. *)
Theorem C17_stuck_refuted : exists (src : nat -> list nat) ops, forall n,
  let s := fst (Splitter.run src ops (start (Some 2) two_errors)) in
  let L := snd (Splitter.run src (concat (repeat [Call 0 5; Next 0] n)) s) in
  received 0 L = [] /\ created L = [].
Proof.
  exists (fun _ => [10; 11; 12; 13]), [Call 0 5; Call 1 5; Next 0; Next 0; Next 0]. intros n.
  cbv zeta.
  set (s := fst _).
  assert (forall s0 o, Splitter.find 0 (objs s0) = Some o -> exist s0 = true -> over s0 = true ->
    received 0 (snd (Splitter.run (fun _ => [10; 11; 12; 13]) (concat (repeat [Call 0 5; Next 0] n)) s0)) = []
    /\ created (snd (Splitter.run (fun _ => [10; 11; 12; 13]) (concat (repeat [Call 0 5; Next 0] n)) s0)) = []) as H.
  2:{ eapply H; vm_compute; reflexivity. }
  clear s. induction n as [|n IH]; intros s0 o H1 H3 H4; [split; reflexivity|].
  cbn [repeat concat app Splitter.run exec].
  set (s1 := with_gen s0 0 (GNew 5)).
  assert (next_call (fun _ => [10; 11; 12; 13]) 0 s1 = (with_gen (with_gen s1 0 (GLoop (to_inspect (objs s0)))) 0 GEnded, [Err 0 OSError])) as E.
  { unfold next_call, fuel_of. cbn [Nat.add go]. unfold micro at 1. cbn [s1 with_gen gens setg Nat.eqb objs exist].
    rewrite H1, H3. cbn [existsb]. unfold micro at 1. cbn [with_gen gens setg Nat.eqb objs over]. change (over s1) with (over s0). rewrite H4. reflexivity. }
  rewrite E.
  specialize (IH (with_gen (with_gen s1 0 (GLoop (to_inspect (objs s0)))) 0 GEnded) o H1 H3 H4).
  destruct (Splitter.run _ _ _) as [s2 e2]. simpl in *. exact IH.
Qed.
Print Assumptions C17_stuck_refuted.

(** An object that is registered while the source runs is not inspected by the
    generators already running. *)
Theorem C17_late_registration_refuted : exists (src : nat -> list nat),
  let (s1, L1) := Splitter.run src [Call 0 5; Next 0] (start (Some 1) [(0, 1, TError)]) in
  let (s2, L2) := Splitter.run src [Next 0; Next 0; Call 1 5; Next 1; Next 1] (register 1 1 TError s1) in
  created (L1 ++ L2) = [5] /\ (forall j x, ~ In (Err j x) L2) /\ fetched L2 = [11; 12] /\ received 1 L2 = [12].
Proof.
  exists (fun _ => [10; 11; 12]). vm_compute. split; [reflexivity|]. split; [|split; reflexivity].
  intros j x H. repeat (destruct H as [H|H]; [discriminate|]). exact H.
Qed.
Print Assumptions C17_late_registration_refuted.

(** Threads: two generators that fetch one block each and distribute them in
    the other order deliver them in the wrong order. *)
Theorem C17_threads_refuted : exists (src : nat -> list nat) sched,
  let s0 := fst (Splitter.run src [Call 0 5; Call 1 5] (start (Some 2) two_errors)) in
  let L := snd (mrun src sched s0) in
  created L = [5] /\ received 0 L = [11; 10] /\ src 5 = [10; 11].
Proof.
  exists (fun _ => [10; 11]), [0; 1; 0; 1; 0; 1; 1; 0; 0; 0]. vm_compute. auto.
Qed.
Print Assumptions C17_threads_refuted.

(** ** C29.  If every object always asks for one and the same file, every
    request returns, there is one handle per file, the file of every object is
    open, and the counter is at least the number of users; it is exact, and
    only files in use are open, as long as no object dies and no request is in
    'readonly' mode.  Missing: switching files, dying objects, failing opens;
    refuted below. *)
Theorem C29_partial : forall (can : opens) (objs : list nat) (home : nat -> nat) (disk : nat -> bool) (l : list req),
  NoDup objs -> (forall p, can p = true) ->
  Forall (fun q => match q with Get _ o p => In o objs /\ p = home o | Drop _ => True end) l ->
  let r := fst (runq can objs l (init disk)) in
  Forall (eq Returned) (snd (runq can objs l (init disk)))
  /\ NoDup (opened r)
  /\ (forall o p, h5f r o = Some p -> In p (opened r))
  /\ (forall p, In p (opened r) <-> refs r p <> None)
  /\ (forall p n, refs r p = Some n -> users objs (h5f r) p <= n).
Proof.
  intros can objs home disk l Hn Hc Hl. cbv zeta.
  destruct (runq_ok can objs home l (init disk) Hn Hc Hl (init_ok objs home disk)) as [[K1 K2 K3 K4 K5 K6 K7] H].
  repeat split; auto; apply K6.
Qed.
Print Assumptions C29_partial.

Theorem C29_exact_partial : forall (can : opens) (objs : list nat) (home : nat -> nat) (disk : nat -> bool) (l : list req),
  NoDup objs -> (forall p, can p = true) ->
  Forall (fun q => match q with Get ro o p => ro = false /\ In o objs /\ p = home o | Drop _ => False end) l ->
  let r := fst (runq can objs l (init disk)) in
  (forall p n, refs r p = Some n -> n = users objs (h5f r) p)
  /\ (forall p, In p (opened r) -> users objs (h5f r) p <> 0).
Proof.
  intros can objs home disk l Hn Hc Hl. cbv zeta.
  apply (runq_exact can objs home l (init disk) Hn Hc Hl (init_ok objs home disk)).
  split; simpl; [discriminate|tauto].
Qed.
Print Assumptions C29_exact_partial.

Example C29_example :
  let l := [Get false 0 7; Get false 1 7; Get false 2 8; Get false 0 7] in
  let r := fst (runq (fun _ => true) [0; 1; 2] l (init (fun _ => false))) in
  Forall (fun q => match q with Get ro o p => ro = false /\ In o [0; 1; 2] /\ p = (if o =? 2 then 8 else 7) | Drop _ => False end) l
  /\ refs r 7 = Some 2 /\ refs r 8 = Some 1 /\ opened r = [8; 7].
Proof. cbv zeta. split; [repeat apply Forall_cons; try apply Forall_nil; simpl; tauto|]. vm_compute. repeat split. Qed.

(** An object that changes to another file: KeyError, and from then on every
    request of any object blocks for ever. *)
Theorem C29_switch_refuted : exists (l : list req), forall l',
  let can := fun _ : nat => true in
  let r := fst (runq can [0; 1] l (init (fun _ => false))) in
  In (RaisedE KeyError) (snd (runq can [0; 1] l (init (fun _ => false))))
  /\ Forall (eq Hangs) (snd (runq can [0; 1] l' r)).
Proof.
  exists [Get false 0 7; Get false 0 8]. intros l'. split; [vm_compute; auto|].
  apply runq_hang. reflexivity.
Qed.
Print Assumptions C29_switch_refuted.

(** A file that cannot be opened has the same effect. *)
Theorem C29_open_refuted : exists (can : opens) (l : list req), forall l',
  let r := fst (runq can [0; 1] l (init (fun _ => false))) in
  In (RaisedE OSError) (snd (runq can [0; 1] l (init (fun _ => false))))
  /\ Forall (eq Hangs) (snd (runq can [0; 1] l' r)).
Proof.
  exists (fun p => negb (p =? 7)), [Get false 0 7]. intros l'. split; [vm_compute; auto|].
  apply runq_hang. reflexivity.
Qed.
Print Assumptions C29_open_refuted.

(** The counter is not decreased when an object dies. *)
Theorem C29_count_refuted : exists (l : list req) p n,
  let r := fst (runq (fun _ => true) [0; 1] l (init (fun _ => false))) in
  refs r p = Some n /\ n <> users [0; 1] (h5f r) p.
Proof.
  exists [Get false 0 7; Get false 1 7; Drop 0], 7, 2. vm_compute. split; [reflexivity|discriminate].
Qed.
Print Assumptions C29_count_refuted.
