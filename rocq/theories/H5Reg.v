(** The registry of open cache files (h5cache.py).

    Objects and paths are numbers.  Not modelled: the garbage collector's view
    of the referrers (is_reference_existent is taken to find exactly the live
    objects whose [h5f] is the file), a change of config.h5library, threads. *)
From Coq Require Import List Arith Lia ZArith Bool.
From Verif Require Import Stream.
Import ListNotations.

Record reg := mkReg {
  busy : bool;
  h5f : nat -> option nat;          (* obj.h5f: the path of the file object *)
  opened : list nat;                (* open_files: paths with an open handle *)
  refs : nat -> option nat;         (* open_file_reference *)
  onDisk : nat -> bool }.

Definition init (disk : nat -> bool) : reg := mkReg false (fun _ => None) [] (fun _ => None) disk.

Definition set_at {A} (f : nat -> A) (k : nat) (v : A) : nat -> A :=
  fun j => if j =? k then v else f j.

Inductive outcome := Returned | RaisedE (x : exn) | Hangs.

(** Does some object among [objs] hold the file?  (is_reference_existent,
    h5cache.py:48-59; [objs] are all objects alive) *)
Definition used (objs : list nat) (h : nat -> option nat) (p : nat) : bool :=
  existsb (fun o => match h o with Some q => q =? p | None => false end) objs.

(** How the file system answers an open request. *)
Definition opens := nat -> bool.

(** get_cache_file (h5cache.py:82-113).  [ro]: global_caching is 'readonly'.
    obj.h5f.filename is a string, the keys of open_file_reference are Path
    objects: _decrease_file_reference_counter (64-65) looks up a key that
    cannot be present.  An exception leaves [busy] set. *)
Definition get (can : opens) (objs : list nat) (ro : bool) (o p : nat) (r : reg) : reg * outcome :=
  if busy r then (r, Hangs)                                          (* _idle_if_busy: endless loop *)
  else if ro && negb (onDisk r p)
  then (mkReg false (set_at (h5f r) o None) (opened r) (refs r) (onDisk r), Returned)
  else
    let locked := mkReg true (h5f r) (opened r) (refs r) (onDisk r) in
    match h5f r o with
    | Some q =>
        if q =? p then (r, Returned)
        else (locked, RaisedE KeyError)
    | None =>
        if negb (existsb (Nat.eqb p) (opened r)) && negb (can p)
        then (locked, RaisedE OSError)
        else
          let op := if existsb (Nat.eqb p) (opened r) then opened r else p :: opened r in
          let h := set_at (h5f r) o (Some p) in
          let rf := set_at (refs r) p (Some (match refs r p with Some n => n + 1 | None => 1 end)) in
          (* close_unreferenced_cachefiles (43-46) *)
          let keep := filter (used objs h) op in
          let rf' := fun q => if existsb (Nat.eqb q) op && negb (used objs h q) then None else rf q in
          (mkReg false h keep rf' (set_at (onDisk r) p true), Returned)
    end.

(** An object dies: its reference is gone (PyTables keeps the file object
    itself alive in its own registry). *)
Definition drop (o : nat) (r : reg) : reg :=
  mkReg (busy r) (set_at (h5f r) o None) (opened r) (refs r) (onDisk r).

Inductive req := Get (ro : bool) (o p : nat) | Drop (o : nat).
Definition exec1 (can : opens) (objs : list nat) (q : req) (r : reg) : reg * list outcome :=
  match q with
  | Get ro o p => let (r', x) := get can objs ro o p r in (r', [x])
  | Drop o => (drop o r, [])
  end.
Fixpoint runq (can : opens) (objs : list nat) (l : list req) (r : reg) : reg * list outcome :=
  match l with
  | [] => (r, [])
  | q :: l' => let (r1, x) := exec1 can objs q r in
               let (r2, y) := runq can objs l' r1 in (r2, x ++ y)
  end.

(** Number of objects using a file. *)
Definition users (objs : list nat) (h : nat -> option nat) (p : nat) : nat :=
  length (filter (fun o => match h o with Some q => q =? p | None => false end) objs).

(* ------------------------------------------------------------------ *)
Lemma set_at_same {A} (f : nat -> A) k v : set_at f k v k = v.
Proof. unfold set_at. now rewrite Nat.eqb_refl. Qed.
Lemma set_at_other {A} (f : nat -> A) k v j : j <> k -> set_at f k v j = f j.
Proof. intros H. unfold set_at. apply Nat.eqb_neq in H. now rewrite H. Qed.

Lemma used_spec objs h p : used objs h p = true <-> exists o, In o objs /\ h o = Some p.
Proof.
  unfold used. rewrite existsb_exists. split; intros (o & H1 & H2); exists o; split; auto.
  - destruct (h o) as [q|]; [|discriminate]. apply Nat.eqb_eq in H2. now subst.
  - rewrite H2. apply Nat.eqb_refl.
Qed.

Lemma existsb_eqb p l : existsb (Nat.eqb p) l = true <-> In p l.
Proof.
  rewrite existsb_exists. split; [intros (x & H & E); apply Nat.eqb_eq in E; now subst|].
  intros H. exists p. now rewrite Nat.eqb_refl.
Qed.

Lemma users_set objs h o p q : NoDup objs -> In o objs -> h o = None ->
  users objs (set_at h o (Some p)) q = users objs h q + (if q =? p then 1 else 0).
Proof.
  unfold users. intros Hn Hi Hh. induction objs as [|a objs IH]; [destruct Hi|].
  inversion Hn as [|? ? Ha Hn']; subst. simpl. destruct Hi as [->|Hi].
  - rewrite set_at_same, Hh. rewrite (Nat.eqb_sym q p).
    assert (filter (fun o0 => match set_at h o (Some p) o0 with Some q0 => q0 =? q | None => false end) objs
      = filter (fun o0 => match h o0 with Some q0 => q0 =? q | None => false end) objs) as E.
    { apply filter_ext_in. intros x Hx. rewrite set_at_other; [reflexivity|]. congruence. }
    destruct (p =? q); simpl; rewrite E; lia.
  - rewrite set_at_other by congruence. specialize (IH Hn' Hi).
    destruct (h a) as [r|]; [destruct (r =? q)|]; simpl; rewrite IH; lia.
Qed.

Lemma users_pos objs h p : users objs h p <> 0 <-> used objs h p = true.
Proof.
  unfold users, used. rewrite existsb_exists. split.
  - intros H. destruct (filter _ objs) as [|x l] eqn:E; [simpl in H; lia|].
    exists x. pose proof (filter_In (fun o => match h o with Some q => q =? p | None => false end) x objs) as F.
    rewrite E in F. apply F. now left.
  - intros (x & H). pose proof (proj2 (filter_In (fun o => match h o with Some q => q =? p | None => false end) x objs) H) as F.
    destruct (filter _ objs); [destruct F|discriminate].
Qed.

(** Invariant: every object asks for its own file [home o] only. *)
Record ok_reg (objs : list nat) (home : nat -> nat) (r : reg) : Prop := {
  ok_busy : busy r = false;
  ok_home : forall o p, h5f r o = Some p -> p = home o;
  ok_dead : forall o p, h5f r o = Some p -> In o objs;
  ok_nodup : NoDup (opened r);
  ok_open : forall o p, h5f r o = Some p -> In p (opened r);
  ok_refs : forall p, In p (opened r) <-> refs r p <> None;
  ok_count : forall p n, refs r p = Some n -> users objs (h5f r) p <= n }.

Lemma get_ok can objs home ro o r :
  NoDup objs -> In o objs -> (forall p, can p = true) -> ok_reg objs home r ->
  ok_reg objs home (fst (get can objs ro o (home o) r)) /\ snd (get can objs ro o (home o) r) = Returned.
Proof.
  intros Hn Hi Hc [K1 K2 K3 K4 K5 K6 K7]. unfold get. rewrite K1.
  destruct (ro && negb (onDisk r (home o))).
  { split; [|reflexivity]. simpl. constructor; simpl; auto.
    - intros o' p. destruct (Nat.eq_dec o' o) as [->|Ho]; [rewrite set_at_same; discriminate|].
      rewrite set_at_other by auto. apply K2.
    - intros o' p. destruct (Nat.eq_dec o' o) as [->|Ho]; [rewrite set_at_same; discriminate|].
      rewrite set_at_other by auto. apply K3.
    - intros o' p. destruct (Nat.eq_dec o' o) as [->|Ho]; [rewrite set_at_same; discriminate|].
      rewrite set_at_other by auto. apply K5.
    - intros p n Hp. specialize (K7 p n Hp). transitivity (users objs (h5f r) p); [|exact K7].
      unfold users. clear. induction objs as [|a objs IH]; [simpl; lia|]. simpl.
      unfold set_at at 1. destruct (a =? o); [|destruct (h5f r a) as [q|]; [destruct (q =? p)|]; simpl; lia].
      destruct (h5f r a) as [q|]; [destruct (q =? p)|]; simpl; lia. }
  destruct (h5f r o) as [q|] eqn:Eh.
  { rewrite (K2 o q Eh), Nat.eqb_refl. split; [constructor; auto|reflexivity]. }
  rewrite Hc. simpl negb. rewrite andb_false_r. split; [|reflexivity].
  set (p := home o). set (h := set_at (h5f r) o (Some p)).
  set (op := if existsb (Nat.eqb p) (opened r) then opened r else p :: opened r).
  assert (forall x, In x op <-> x = p \/ In x (opened r)) as Hop.
  { intros x. unfold op. destruct (existsb (Nat.eqb p) (opened r)) eqn:E.
    - apply existsb_eqb in E. split; [auto|intros [->|]; auto].
    - simpl. intuition. }
  assert (NoDup op) as Hnop.
  { unfold op. destruct (existsb (Nat.eqb p) (opened r)) eqn:E; [exact K4|]. constructor; [|exact K4].
    intros H. apply existsb_eqb in H. congruence. }
  assert (forall o' x, h o' = Some x -> x = home o' /\ In o' objs) as Hh.
  { intros o' x. unfold h. destruct (Nat.eq_dec o' o) as [->|Ho].
    - rewrite set_at_same. intros [= <-]. auto.
    - rewrite set_at_other by auto. intros H. split; [eapply K2|eapply K3]; eauto. }
  constructor; cbn [fst busy h5f opened refs].
  - reflexivity.
  - intros o' x H. apply (Hh o' x H).
  - intros o' x H. apply (Hh o' x H).
  - apply NoDup_filter. exact Hnop.
  - intros o' x H. apply filter_In. split.
    + apply Hop. revert H. unfold h. destruct (Nat.eq_dec o' o) as [->|Ho].
      * rewrite set_at_same. intros [= <-]. auto.
      * rewrite set_at_other by auto. intros H. right. eapply K5; eauto.
    + apply used_spec. exists o'. split; [apply (Hh o' x H)|exact H].
  - intros x. rewrite filter_In. destruct (used objs h x) eqn:Eu.
    + rewrite andb_false_r. split.
      * intros [Hx _]. destruct (Nat.eq_dec x p) as [->|Hxp]; [rewrite set_at_same; discriminate|].
        rewrite set_at_other by auto. apply K6. apply Hop in Hx as [Hx|Hx]; congruence.
      * intros Hx. split; [|reflexivity]. apply Hop. destruct (Nat.eq_dec x p) as [->|Hxp]; [auto|].
        rewrite set_at_other in Hx by auto. right. now apply K6.
    + rewrite andb_true_r. split; [intros [_ H]; discriminate|].
      destruct (existsb (Nat.eqb x) op) eqn:Ex; [congruence|]. intros Hx. exfalso.
      assert (In x op); [|apply existsb_eqb in H; congruence].
      apply Hop. destruct (Nat.eq_dec x p) as [->|Hxp]; [auto|]. rewrite set_at_other in Hx by auto.
      right. now apply K6.
  - intros x n. destruct (existsb (Nat.eqb x) op && negb (used objs h x)); [discriminate|].
    unfold h. rewrite users_set by auto. fold p.
    destruct (Nat.eq_dec x p) as [->|Hxp].
    + rewrite set_at_same, Nat.eqb_refl. destruct (refs r p) as [m|] eqn:Er.
      * intros [= <-]. specialize (K7 p m Er). lia.
      * intros [= <-]. assert (users objs (h5f r) p = 0); [|lia].
        destruct (Nat.eq_dec (users objs (h5f r) p) 0) as [|Hu]; [assumption|].
        apply users_pos, used_spec in Hu as (o' & _ & H). apply K5, K6 in H. congruence.
    + rewrite set_at_other by auto. apply Nat.eqb_neq in Hxp. rewrite Hxp, Nat.add_0_r. apply K7.
Qed.

Lemma users_drop objs h o p : users objs (set_at h o None) p <= users objs h p.
Proof.
  unfold users. induction objs as [|a objs IH]; [simpl; lia|]. simpl.
  unfold set_at at 1. destruct (a =? o); destruct (h a) as [q|]; try destruct (q =? p); simpl; lia.
Qed.

Lemma drop_ok objs home o r : ok_reg objs home r -> ok_reg objs home (drop o r).
Proof.
  intros [K1 K2 K3 K4 K5 K6 K7]. constructor; simpl; auto.
  - intros o' p. destruct (Nat.eq_dec o' o) as [->|Ho]; [rewrite set_at_same; discriminate|].
    rewrite set_at_other by auto. apply K2.
  - intros o' p. destruct (Nat.eq_dec o' o) as [->|Ho]; [rewrite set_at_same; discriminate|].
    rewrite set_at_other by auto. apply K3.
  - intros o' p. destruct (Nat.eq_dec o' o) as [->|Ho]; [rewrite set_at_same; discriminate|].
    rewrite set_at_other by auto. apply K5.
  - intros p n Hp. pose proof (users_drop objs (h5f r) o p). specialize (K7 p n Hp). lia.
Qed.

Lemma init_ok objs home disk : ok_reg objs home (init disk).
Proof.
  constructor; simpl; try discriminate; auto.
  - constructor.
  - intros p. split; [intros []|congruence].
Qed.

(** Requests that only ask for the object's own file. *)
Definition own (objs : list nat) (home : nat -> nat) (q : req) : Prop :=
  match q with Get _ o p => In o objs /\ p = home o | Drop _ => True end.

Lemma runq_ok can objs home l : forall r,
  NoDup objs -> (forall p, can p = true) -> Forall (own objs home) l -> ok_reg objs home r ->
  ok_reg objs home (fst (runq can objs l r)) /\ Forall (eq Returned) (snd (runq can objs l r)).
Proof.
  induction l as [|q l IH]; intros r Hn Hc Hl Hr; simpl; [auto|].
  inversion Hl as [|? ? Hq Hl']; subst.
  assert (ok_reg objs home (fst (exec1 can objs q r)) /\ Forall (eq Returned) (snd (exec1 can objs q r))) as [H1 H2].
  { destruct q as [ro o p|o]; simpl.
    - destruct Hq as [Hi ->]. destruct (get_ok can objs home ro o r Hn Hi Hc Hr) as [G1 G2].
      destruct (get can objs ro o (home o) r) as [r' x]. simpl in *. subst. auto.
    - split; [now apply drop_ok|constructor]. }
  destruct (exec1 can objs q r) as [r1 x]. simpl in *.
  destruct (IH r1 Hn Hc Hl' H1) as [H3 H4]. destruct (runq can objs l r1) as [r2 y]. simpl in *.
  split; [exact H3|]. apply Forall_app. auto.
Qed.

(** Without readonly requests and without dying objects the counter is exact
    and every open file is in use. *)
Definition exact_reg (objs : list nat) (r : reg) : Prop :=
  (forall p n, refs r p = Some n -> n = users objs (h5f r) p)
  /\ (forall p, In p (opened r) -> users objs (h5f r) p <> 0).

Lemma get_exact can objs home o r :
  NoDup objs -> In o objs -> (forall p, can p = true) -> ok_reg objs home r -> exact_reg objs r ->
  exact_reg objs (fst (get can objs false o (home o) r)).
Proof.
  intros Hn Hi Hc [K1 K2 K3 K4 K5 K6 K7] [E1 E2]. unfold get. rewrite K1. simpl andb. cbv iota.
  destruct (h5f r o) as [q|] eqn:Eh.
  { rewrite (K2 o q Eh), Nat.eqb_refl. split; auto. }
  rewrite Hc. simpl negb. rewrite andb_false_r. unfold exact_reg. cbn [fst h5f opened refs].
  set (p := home o). split.
  - intros x n. destruct (_ && negb _); [discriminate|].
    rewrite users_set by auto.
    destruct (Nat.eq_dec x p) as [->|Hxp].
    + rewrite set_at_same, Nat.eqb_refl. destruct (refs r p) as [m|] eqn:Er.
      * intros [= <-]. rewrite (E1 p m Er). reflexivity.
      * intros [= <-]. assert (users objs (h5f r) p = 0) as ->; [|reflexivity].
        destruct (Nat.eq_dec (users objs (h5f r) p) 0) as [|Hu]; [assumption|].
        apply users_pos, used_spec in Hu as (o' & _ & H). apply K5, K6 in H. congruence.
    + rewrite set_at_other by auto. apply Nat.eqb_neq in Hxp. rewrite Hxp, Nat.add_0_r. apply E1.
  - intros x Hx. apply filter_In in Hx as [_ Hx]. now apply users_pos.
Qed.

Lemma runq_exact can objs home l : forall r,
  NoDup objs -> (forall p, can p = true) ->
  Forall (fun q => match q with Get ro o p => ro = false /\ In o objs /\ p = home o | Drop _ => False end) l ->
  ok_reg objs home r -> exact_reg objs r ->
  exact_reg objs (fst (runq can objs l r)).
Proof.
  induction l as [|q l IH]; intros r Hn Hc Hl Hr He; simpl; [auto|].
  inversion Hl as [|? ? Hq Hl']; subst. destruct q as [ro o p|o]; [|destruct Hq].
  destruct Hq as (-> & Hi & ->). simpl.
  pose proof (get_ok can objs home false o r Hn Hi Hc Hr) as [G1 _].
  pose proof (get_exact can objs home o r Hn Hi Hc Hr He) as G2.
  destruct (get can objs false o (home o) r) as [r1 x]. simpl in *.
  specialize (IH r1 Hn Hc Hl' G1 G2). destruct (runq can objs l r1) as [r2 y]. exact IH.
Qed.

(** Once [busy] is left set, every later request hangs. *)
Lemma runq_hang can objs l : forall r, busy r = true ->
  Forall (eq Hangs) (snd (runq can objs l r)).
Proof.
  induction l as [|q l IH]; intros r Hb; simpl; [constructor|].
  destruct q as [ro o p|o]; simpl.
  - unfold get. rewrite Hb. specialize (IH r Hb). destruct (runq can objs l r) as [r2 y].
    simpl in *. constructor; auto.
  - assert (busy (drop o r) = true) as Hb' by exact Hb. specialize (IH _ Hb').
    destruct (runq can objs l (drop o r)) as [r2 y]. exact IH.
Qed.
