(** SampleSplitter (process.py:383-675).

    One splitter, one source, any number of registered objects, each with at
    most one running generator [result(num)].  A call of next() on a generator
    is a sequence of small steps ([micro]); a schedule of next() calls runs
    each call to its end ([next_call]).  The small steps can also be
    interleaved, as threads do: the lock of LockedGenerator (process.py:36-66) covers
    the call of next() on the source only. *)
From Coq Require Import List Arith Lia ZArith Bool.
Require Import ZifyBool ZifyNat ZifyN.
From Verif Require Import Stream.
Import ListNotations.
Ltac Zify.zify_post_hook ::= Z.div_mod_to_equations.

Section Splitter.
Context {A : Type}.

(** buffer_overflow_treatment[obj] (process.py:483-487) *)
Inductive treatment := TError | TWarning | TNone.

(** One entry of block_buffer and buffer_overflow_treatment.  [obuf] is the
    deque, oldest block first: appendleft adds at the end, pop takes the head. *)
Record obj := mkObj { oid : nat; omax : nat; otreat : treatment; obuf : list A }.

(** deque.appendleft with maxlen: a full deque loses its oldest element. *)
Definition push (b : A) (o : obj) : obj :=
  mkObj (oid o) (omax o) (otreat o)
    (skipn (length (obuf o) + 1 - omax o) (obuf o ++ [b])).
Definition set_buf (l : list A) (o : obj) : obj := mkObj (oid o) (omax o) (otreat o) l.

(** A generator created by result(num), and where it stands. *)
Inductive gen :=
| GNone                          (* none created *)
| GNew (num : nat)               (* no next() yet *)
| GLoop (insp : list nat)        (* at the head of the while loop *)
| GFill (insp : list nat)        (* buffer levels inspected *)
| GHold (insp : list nat) (b : A)(* block taken from the source, not yet distributed *)
| GEnded.

Inductive event :=
| Created (num : nat)            (* self.source.result(num) *)
| Fetched (b : A)
| Warned (i : nat)
| Yield (i : nat) (b : A)
| Stop (i : nat)                 (* the source is exhausted *)
| Dead (i : nat)                 (* StopIteration of a generator that had ended before *)
| Err (i : nat) (x : exn).

Record st := mkSt {
  objs : list obj;
  bsize : option nat;            (* buffer_size; None: a dictionary *)
  exist : bool;                  (* _source_generator_exist *)
  over : bool;                   (* _buffer_overflow *)
  rem : list A;                  (* what the source generator has still to give *)
  gens : nat -> gen }.

Definition setg (i : nat) (g : gen) (f : nat -> gen) : nat -> gen :=
  fun j => if j =? i then g else f j.
Definition with_gen (s : st) (i : nat) (g : gen) : st :=
  mkSt (objs s) (bsize s) (exist s) (over s) (rem s) (setg i g (gens s)).

Fixpoint find (i : nat) (l : list obj) : option obj :=
  match l with [] => None | o :: l' => if oid o =? i then Some o else find i l' end.
Definition upd_obj (i : nat) (f : obj -> obj) (l : list obj) : list obj :=
  map (fun o => if oid o =? i then f o else o) l.

(** _get_objs_to_inspect (process.py:523-524) *)
Definition to_inspect (l : list obj) : list nat :=
  map oid (filter (fun o => match otreat o with TNone => false | _ => true end) l).

(** _inspect_buffer_levels (process.py:526-532).  A removed object is a
    KeyError. *)
Fixpoint inspect (bs : option nat) (l : list obj) (insp : list nat) (ov : bool)
  : option (bool * list event) :=
  match insp with
  | [] => Some (ov, [])
  | i :: insp' =>
      match find i l with
      | None => None
      | Some o =>
          let full := match bs with Some n => length (obuf o) =? n | None => false end in
          let ov' := ov || (full && match otreat o with TError => true | _ => false end) in
          match inspect bs l insp' ov' with
          | None => None
          | Some (r, w) =>
              Some (r, if full && match otreat o with TWarning => true | _ => false end
                       then Warned i :: w else w)
          end
      end
  end.

(** What the source delivers for a block size. *)
Variable src : nat -> list A.

(** One small step of the generator of object [i] (process.py:656-675). *)
Definition micro (i : nat) (s : st) : st * list event :=
  match gens s i with
  | GNone | GEnded => (s, [Dead i])
  | GNew num =>
      match find i (objs s) with
      | None => (with_gen s i GEnded, [Err i OSError])       (* _assert_obj_registered *)
      | Some _ =>
          let g := GLoop (to_inspect (objs s)) in
          if exist s then (with_gen s i g, [])
          else (* _create_source_generator (process.py:534-539) *)
            (mkSt (map (set_buf []) (objs s)) (bsize s) true false (src num) (setg i g (gens s)),
             [Created num])
      end
  | GLoop insp =>
      if over s then (with_gen s i GEnded, [Err i OSError])
      else match find i (objs s) with
           | None => (with_gen s i GEnded, [Err i KeyError])
           | Some o =>
               match obuf o with
               | b :: r =>
                   (mkSt (upd_obj i (set_buf r) (objs s)) (bsize s) (exist s) (over s) (rem s) (gens s),
                    [Yield i b])
               | [] =>
                   match inspect (bsize s) (objs s) insp (over s) with
                   | None => (with_gen s i GEnded, [Err i KeyError])
                   | Some (ov, w) =>
                       (mkSt (objs s) (bsize s) (exist s) ov (rem s) (setg i (GFill insp) (gens s)), w)
                   end
               end
           end
  | GFill insp =>                                            (* next(self._source_generator) *)
      match rem s with
      | [] => (mkSt (objs s) (bsize s) false (over s) [] (setg i GEnded (gens s)), [Stop i])
      | b :: r =>
          (mkSt (objs s) (bsize s) (exist s) (over s) r (setg i (GHold insp b) (gens s)), [Fetched b])
      end
  | GHold insp b =>                                          (* appendleft to all *)
      (mkSt (map (push b) (objs s)) (bsize s) (exist s) (over s) (rem s) (setg i (GLoop insp) (gens s)), [])
  end.

(** The last event of a call of next(). *)
Definition ends (e : event) : bool :=
  match e with Yield _ _ | Stop _ | Dead _ | Err _ _ => true | _ => false end.

(** next() on the generator of object [i]. *)
Fixpoint go (fuel i : nat) (s : st) : st * list event :=
  match fuel with
  | 0 => (s, [Err i OutOfFuel])
  | S fuel =>
      let (s1, e) := micro i s in
      if existsb ends e then (s1, e)
      else let (s2, e2) := go fuel i s1 in (s2, e ++ e2)
  end.
Definition fuel_of (i : nat) (s : st) : nat :=
  4 + 3 * (length (rem s) + match gens s i with GNew num => length (src num) | _ => 0 end).
Definition next_call (i : nat) (s : st) : st * list event := go (fuel_of i s) i s.

(** register_object for one object that is not registered yet
    (process.py:551-587); remove_object (process.py:589-619). *)
Definition register (i mx : nat) (t : treatment) (s : st) : st :=
  mkSt (objs s ++ [mkObj i mx t []]) (bsize s) (exist s) (over s) (rem s) (gens s).
Definition remove (i : nat) (s : st) : st :=
  mkSt (filter (fun o => negb (oid o =? i)) (objs s)) (bsize s) (exist s) (over s) (rem s) (gens s).

Inductive op :=
| Call (i num : nat)             (* g = splitter.result(num), called by object i *)
| Next (i : nat).                (* next(g) *)

Definition exec (o : op) (s : st) : st * list event :=
  match o with
  | Call i num => (with_gen s i (GNew num), [])
  | Next i => next_call i s
  end.
Fixpoint run (ops : list op) (s : st) : st * list event :=
  match ops with
  | [] => (s, [])
  | o :: ops' =>
      let (s1, e) := exec o s in
      let (s2, e2) := run ops' s1 in (s2, e ++ e2)
  end.

(** Interleaved small steps. *)
Fixpoint mrun (l : list nat) (s : st) : st * list event :=
  match l with
  | [] => (s, [])
  | i :: l' => let (s1, e) := micro i s in let (s2, e2) := mrun l' s1 in (s2, e ++ e2)
  end.

(** ** Specification vocabulary *)
Fixpoint received (i : nat) (log : list event) : list A :=
  match log with
  | [] => []
  | Yield j b :: l => if j =? i then b :: received i l else received i l
  | _ :: l => received i l
  end.
Fixpoint fetched (log : list event) : list A :=
  match log with
  | [] => []
  | Fetched b :: l => b :: fetched l
  | _ :: l => fetched l
  end.
Fixpoint created (log : list event) : list nat :=
  match log with
  | [] => []
  | Created n :: l => n :: created l
  | _ :: l => created l
  end.

(** [a] is a subsequence of [b]. *)
Inductive subseq : list A -> list A -> Prop :=
| sub_nil l : subseq [] l
| sub_take x a b : subseq a b -> subseq (x :: a) (x :: b)
| sub_skip x a b : subseq a b -> subseq a (x :: b).

(** A splitter before the first call, with [l] = (object, maxlen, treatment)
    registered. *)
Definition start (bs : option nat) (l : list (nat * nat * treatment)) : st :=
  mkSt (map (fun '(i, m, t) => mkObj i m t []) l) bs false false [] (fun _ => GNone).


(* ------------------------------------------------------------------ *)
(** ** Proofs *)

Lemma received_app i a b : received i (a ++ b) = received i a ++ received i b.
Proof.
  induction a as [|e a IH]; [reflexivity|].
  destruct e; simpl; auto. destruct (i0 =? i); simpl; congruence.
Qed.
Lemma fetched_app a b : fetched (a ++ b) = fetched a ++ fetched b.
Proof. induction a as [|e a IH]; [reflexivity|]. destruct e; simpl; congruence. Qed.
Lemma created_app a b : created (a ++ b) = created a ++ created b.
Proof. induction a as [|e a IH]; [reflexivity|]. destruct e; simpl; congruence. Qed.

Lemma subseq_refl l : subseq l l.
Proof. induction l; constructor; auto. Qed.
Lemma subseq_app_r a b c : subseq a b -> subseq a (b ++ c).
Proof. induction 1; simpl; constructor; auto. Qed.
Lemma subseq_snoc a b x : subseq a b -> subseq (a ++ [x]) (b ++ [x]).
Proof.
  induction 1; simpl.
  - induction l as [|y l IH]; simpl; constructor; auto. constructor.
  - constructor; auto.
  - constructor; auto.
Qed.
Lemma subseq_drop p a q b : subseq (p ++ a ++ q) b -> subseq (p ++ q) b.
Proof.
  intros H. remember (p ++ a ++ q) as l eqn:E. revert p E.
  induction H as [l|x a' b' H IH|x a' b' H IH]; intros p E.
  - destruct p as [|y p]; [|discriminate]. destruct a; [|discriminate].
    destruct q; [constructor|discriminate].
  - destruct p as [|y p].
    + simpl in *. clear IH. destruct a as [|y a]; simpl in E.
      * subst q. constructor. exact H.
      * injection E as -> ->. constructor.
        clear -H. revert b' H. induction a as [|z a IHa]; intros b' H; [exact H|].
        apply IHa. simpl in H. clear IHa.
        remember (z :: a ++ q) as l eqn:E. revert E.
        induction H; intros E; try discriminate.
        -- injection E as -> ->. constructor. exact H.
        -- constructor. auto.
    + injection E as -> E. simpl. constructor. apply IH. exact E.
  - constructor. apply IH. exact E.
Qed.
Lemma subseq_prefix p q b : subseq (p ++ q) b -> subseq p b.
Proof.
  intros H. rewrite <- (app_nil_r p). apply (subseq_drop p q [] b). rewrite app_nil_r. exact H.
Qed.
Lemma subseq_length a b : subseq a b -> length a <= length b.
Proof. induction 1; simpl; lia. Qed.

Lemma push_short b o : length (obuf o) < omax o -> obuf (push b o) = obuf o ++ [b].
Proof. intros H. unfold push. simpl. replace (length (obuf o) + 1 - omax o) with 0 by (clear -H; lia). reflexivity. Qed.
Lemma push_len b o : length (obuf o) <= omax o -> length (obuf (push b o)) <= omax o.
Proof. intros H. unfold push. simpl. rewrite skipn_length, app_length. simpl. clear -H. lia. Qed.
Lemma push_sub b o r F : subseq (r ++ obuf o) F -> subseq (r ++ obuf (push b o)) (F ++ [b]).
Proof.
  intros H. unfold push. simpl. set (k := length (obuf o) + 1 - omax o).
  apply subseq_snoc with (x := b) in H. rewrite <- app_assoc in H.
  rewrite <- (firstn_skipn k (obuf o ++ [b])) in H. apply subseq_drop in H. exact H.
Qed.

Lemma find_in l i o : find i l = Some o -> In o l /\ oid o = i.
Proof.
  induction l as [|a l IH]; simpl; [discriminate|].
  destruct (oid a =? i) eqn:E.
  - intros [= ->]. apply Nat.eqb_eq in E. auto.
  - intros H. apply IH in H as [H1 H2]. auto.
Qed.
Lemma in_find l o : NoDup (map oid l) -> In o l -> find (oid o) l = Some o.
Proof.
  induction l as [|a l IH]; simpl; [tauto|]. intros Hn [->|H].
  - now rewrite Nat.eqb_refl.
  - inversion Hn as [|? ? H1 H2]; subst. destruct (oid a =? oid o) eqn:E.
    + apply Nat.eqb_eq in E. exfalso. apply H1. rewrite E. now apply in_map.
    + now apply IH.
Qed.

Definition warns (w : list event) : Prop := forall e, In e w -> exists i, e = Warned i.
Lemma warns_none w : warns w ->
  (forall i, received i w = []) /\ fetched w = [] /\ created w = [] /\ existsb ends w = false
  /\ (forall i, ~ In (Stop i) w) /\ (forall i x, ~ In (Err i x) w).
Proof.
  intros H. induction w as [|e w IH]; [simpl; tauto|].
  destruct IH as (H1 & H2 & H3 & H4 & H5 & H6); [intros e' He; apply H; now right|].
  destruct (H e (or_introl eq_refl)) as [j ->]. simpl. repeat split; auto.
  - intros i [E|E]; [discriminate|]. now apply (H5 i).
  - intros i x [E|E]; [discriminate|]. now apply (H6 i x).
Qed.

Lemma inspect_spec bs l insp : forall ov ov' w, inspect bs l insp ov = Some (ov', w) ->
  warns w
  /\ (ov' = false -> ov = false /\ forall i o k, In i insp -> find i l = Some o -> bs = Some k ->
        otreat o = TError -> length (obuf o) <> k)
  /\ (forall i o k, In i insp -> find i l = Some o -> bs = Some k ->
        otreat o = TWarning -> ~ In (Warned i) w -> length (obuf o) <> k)
  /\ (ov' = true -> ov = true \/ exists o k, In o l /\ bs = Some k /\ otreat o = TError /\ length (obuf o) = k).
Proof.
  induction insp as [|j insp IH]; intros ov ov' w H; cbn [inspect] in H.
  - injection H as <- <-. repeat split; try (intros; contradiction); auto. intros e [].
  - destruct (find j l) as [o|] eqn:Ef; [|discriminate].
    set (full := match bs with Some n => length (obuf o) =? n | None => false end) in *.
    destruct (inspect _ _ _ _) as [[r w0]|] eqn:E in H; [|discriminate].
    injection H as <- <-. apply IH in E as (H1 & H2 & H3 & H4).
    repeat split.
    + intros e He. destruct (full && match otreat o with TWarning => true | _ => false end); [destruct He as [<-|He]; eauto|]; apply H1; auto.
    + destruct (H2 H) as [Ho _]. apply orb_false_iff in Ho as [Ho _]. exact Ho.
    + intros i o' k [<-|Hi] Hf Hb Ht.
      * rewrite Hf in Ef. injection Ef as ->. destruct (H2 H) as [Ho _].
        apply orb_false_iff in Ho as [_ Ho]. rewrite Ht, andb_true_r in Ho. unfold full in Ho.
        rewrite Hb in Ho. now apply Nat.eqb_neq in Ho.
      * destruct (H2 H) as [_ Hx]. eapply Hx; eauto.
    + intros i o' k [<-|Hi] Hf Hb Ht Hw.
      * rewrite Hf in Ef. injection Ef as ->. rewrite Ht, andb_true_r in Hw. unfold full in Hw.
        rewrite Hb in Hw. intros El. rewrite (proj2 (Nat.eqb_eq _ _) El) in Hw. apply Hw. now left.
      * eapply H3; eauto. intros Hn. apply Hw. destruct (full && match otreat o with TWarning => true | _ => false end); [now right|exact Hn].
    + intros Hr. apply H4 in Hr as [Hr|Hr]; [|auto]. apply orb_true_iff in Hr as [Hr|Hr]; [auto|].
      right. apply andb_true_iff in Hr as [Hr1 Hr2]. unfold full in Hr1.
      destruct bs as [k|]; [|discriminate]. exists o, k. apply find_in in Ef as [Ef _].
      apply Nat.eqb_eq in Hr1. destruct (otreat o) eqn:Et; try discriminate. auto.
Qed.

Lemma in_to_inspect l o : In o l -> otreat o <> TNone -> In (oid o) (to_inspect l).
Proof.
  intros H Ht. unfold to_inspect. apply in_map. apply filter_In. split; [exact H|].
  destruct (otreat o); auto; congruence.
Qed.

(** *** The invariant *)
Variable bs : option nat.
Variable shape0 : list (nat * nat * treatment).
Hypothesis Hdup : NoDup (map (fun x => fst (fst x)) shape0).

Definition shape (l : list obj) := map (fun o => (oid o, omax o, otreat o)) l.
Definition checked (o : obj) (L : list event) : Prop :=
  bs = Some (omax o) /\ (otreat o = TError \/ (otreat o = TWarning /\ ~ In (Warned (oid o)) L)).

Definition ok (n : nat) (ov : bool) (F : list A) (L : list event) (o : obj) : Prop :=
  length (obuf o) <= omax o
  /\ subseq (received (oid o) L ++ obuf o) F
  /\ (checked o L -> (exists t, F = received (oid o) L ++ t)
        /\ (ov = false -> received (oid o) L ++ obuf o = F))
  /\ (In (Stop (oid o)) L -> checked o L -> received (oid o) L = src n).

Definition lag (s : st) (L : list event) : Prop :=
  over s = true -> exists o k, In o (objs s) /\ bs = Some k /\ otreat o = TError
    /\ length (received (oid o) L) + k <= length (fetched L).

Definition room (s : st) (L : list event) : Prop :=
  over s = false -> forall o, In o (objs s) -> checked o L -> length (obuf o) < omax o.

Definition errs (s : st) (L : list event) : Prop :=
  forall j, In (Err j OSError) L -> In j (map (fun x => fst (fst x)) shape0) -> over s = true.

Definition quiet (g : gen) : Prop :=
  match g with GFill _ | GHold _ _ => False | _ => True end.

Record base (k : nat) (s : st) : Prop := {
  b_bs : bsize s = bs;
  b_shape : shape (objs s) = shape0;
  b_insp : forall j insp, gens s j = GLoop insp -> insp = to_inspect (objs s);
  b_inspF : forall insp, gens s k = GFill insp -> insp = to_inspect (objs s);
  b_inspH : forall insp b, gens s k = GHold insp b -> insp = to_inspect (objs s);
  b_quiet : forall j, j <> k -> quiet (gens s j) }.

Definition before (k : nat) (s : st) (L : list event) : Prop :=
  fetched L = [] /\ (forall j, received j L = []) /\ (forall j, ~ In (Stop j) L)
  /\ (forall j x, In (Err j x) L -> In j (map (fun x => fst (fst x)) shape0) -> False)
  /\ (forall j insp, gens s j <> GLoop insp)
  /\ quiet (gens s k) /\ exist s = false.

Definition after (k n : nat) (s : st) (L : list event) : Prop :=
  lag s L /\ errs s L /\
  match gens s k with
  | GFill _ => fetched L ++ rem s = src n /\ Forall (ok n false (fetched L) L) (objs s) /\ room s L
      /\ (forall o, In o (objs s) -> oid o = k -> obuf o = [])
  | GHold _ b => exists F, fetched L = F ++ [b] /\ fetched L ++ rem s = src n
      /\ Forall (ok n false F L) (objs s) /\ room s L
  | _ => fetched L ++ rem s = src n /\ Forall (ok n (over s) (fetched L) L) (objs s)
  end.

Definition inv (k : nat) (s : st) (L : list event) : Prop :=
  base k s /\
  match created L with
  | [] => before k s L
  | [n] => after k n s L
  | _ => True
  end.

Lemma shape_ids l : map oid l = map (fun x => fst (fst x)) (shape l).
Proof. unfold shape. rewrite map_map. reflexivity. Qed.

Lemma shape_upd i r l : shape (upd_obj i (set_buf r) l) = shape l.
Proof.
  unfold shape, upd_obj. rewrite map_map. apply map_ext. intros o.
  destruct (oid o =? i); reflexivity.
Qed.
Lemma shape_setbuf r l : shape (map (set_buf r) l) = shape l.
Proof. unfold shape. rewrite map_map. reflexivity. Qed.
Lemma shape_push b l : shape (map (push b) l) = shape l.
Proof. unfold shape. rewrite map_map. reflexivity. Qed.

Lemma to_inspect_shape l l' : shape l = shape l' -> to_inspect l = to_inspect l'.
Proof.
  revert l'. induction l as [|o l IH]; intros [|o' l'] H; try discriminate; [reflexivity|].
  injection H as H1 H2 H3 H4. unfold to_inspect. simpl. rewrite H3.
  destruct (otreat o'); simpl; rewrite ?H1; [f_equal| f_equal|]; apply (IH l' H4).
Qed.

Lemma checked_app o a b : checked o (a ++ b) -> checked o a.
Proof.
  intros [H1 [H2|[H2 H3]]]; split; auto. right. split; auto.
  intros H. apply H3. apply in_or_app. now left.
Qed.

(** Events without an effect on what has been received. *)
Definition silent (e : list event) : Prop :=
  (forall i, received i e = []) /\ (forall i, ~ In (Stop i) e).

Lemma ok_silent n ov F L e o : silent e -> ok n ov F L o -> ok n ov F (L ++ e) o.
Proof.
  intros [S1 S2] (H1 & H2 & H3 & H4). unfold ok. rewrite received_app, S1, app_nil_r.
  repeat split; auto.
  - apply H3. eapply checked_app; eauto.
  - intros Ho. apply H3; auto. eapply checked_app; eauto.
  - intros Hs Hc. apply in_app_or in Hs as [Hs|Hs]; [|now apply S2 in Hs].
    apply H4; auto. eapply checked_app; eauto.
Qed.

Lemma ok_weak n F L o : ok n false F L o -> forall ov, ok n ov F L o.
Proof. intros (H1 & H2 & H3 & H4) ov. repeat split; auto; intros; apply H3; auto. Qed.

Lemma lag_ext s s' L e : over s' = over s -> objs s' = objs s -> (forall i, received i e = []) ->
  lag s L -> lag s' (L ++ e).
Proof.
  intros Ho Hb Hr H Hov. rewrite Ho in Hov. destruct (H Hov) as (o & k & H1 & H2 & H3 & H4).
  exists o, k. rewrite Hb, received_app, Hr, app_nil_r, fetched_app, app_length. repeat split; auto. lia.
Qed.

Lemma errs_ext s s' L e : (over s = true -> over s' = true) ->
  (forall j, In (Err j OSError) e -> In j (map (fun x => fst (fst x)) shape0) -> over s' = true) ->
  errs s L -> errs s' (L ++ e).
Proof.
  intros Ho He H j Hj Hi. apply in_app_or in Hj as [Hj|Hj]; eauto.
Qed.

Lemma setg_same i g f : setg i g f i = g.
Proof. unfold setg. now rewrite Nat.eqb_refl. Qed.
Lemma setg_other i j g f : j <> i -> setg i g f j = f j.
Proof. intros H. unfold setg. apply Nat.eqb_neq in H. now rewrite H. Qed.

Lemma in_ids s k o : shape (objs s) = shape0 -> find k (objs s) = Some o ->
  In k (map (fun x => fst (fst x)) shape0).
Proof.
  intros Hs Hf. apply find_in in Hf as [Hf <-]. rewrite <- Hs, <- shape_ids. now apply in_map.
Qed.

Lemma base_gen k s s' g :
  base k s -> bsize s' = bsize s -> shape (objs s') = shape (objs s) ->
  gens s' k = g -> (forall j, j <> k -> gens s' j = gens s j) ->
  (forall insp, g = GLoop insp -> insp = to_inspect (objs s)) ->
  (forall insp, g = GFill insp -> insp = to_inspect (objs s)) ->
  (forall insp b, g = GHold insp b -> insp = to_inspect (objs s)) ->
  base k s'.
Proof.
  intros [B1 B2 B3 B4 B5 B6] E1 E2 E3 E4 G1 G2 G3.
  pose proof (to_inspect_shape _ _ E2) as Et.
  constructor; rewrite ?E3, ?Et; auto.
  - congruence.
  - congruence.
  - intros j insp. destruct (Nat.eq_dec j k) as [->|Hj]; [rewrite E3; auto|].
    rewrite E4 by auto. apply B3.
  - intros j Hj. rewrite E4 by auto. auto.
Qed.

Ltac bgen g :=
  match goal with B : base ?k ?s |- base ?k _ => apply (base_gen k s _ g B) end;
  [reflexivity | try reflexivity; first [apply shape_upd | apply shape_setbuf | apply shape_push]
  | simpl; first [apply setg_same | assumption]
  | intros ? ?; simpl; first [reflexivity | apply setg_other; assumption]
  | intros ?; try discriminate; try congruence | intros ?; try discriminate; try congruence
  | intros ? ?; try discriminate; try congruence].

(** A state change that keeps generators elsewhere and the buffers. *)
Lemma inv_end k s L e :
  inv k s L -> (forall i, received i e = []) -> (forall i, ~ In (Stop i) e) -> created e = [] ->
  fetched e = [] -> quiet (gens s k) ->
  (forall j x, In (Err j x) e -> In j (map (fun x => fst (fst x)) shape0) ->
     created L <> [] /\ (x = OSError -> over s = true)) ->
  inv k (with_gen s k GEnded) (L ++ e).
Proof.
  intros [B J] Hr Hst Hc Hf Hq He. split.
  - bgen GEnded.
  - rewrite created_app, Hc, app_nil_r. destruct (created L) as [|n [|]] eqn:Ec; auto.
    + destruct J as (I1 & I2 & I3 & I4 & I5 & I6 & I7). unfold before.
      rewrite fetched_app, I1, Hf. repeat split; auto.
      * intros j. rewrite received_app, I2, Hr. reflexivity.
      * intros j Hj. apply in_app_or in Hj as [Hj|Hj]; [now apply I3 in Hj|now apply Hst in Hj].
      * intros j x Hj Hi. apply in_app_or in Hj as [Hj|Hj]; [eauto|].
        destruct (He _ _ Hj Hi) as [He1 _]. now apply He1.
      * intros j insp. simpl. destruct (Nat.eq_dec j k) as [->|Hj]; [rewrite setg_same; discriminate|].
        rewrite setg_other by auto. apply I5.
      * simpl. rewrite setg_same. exact I.
    + destruct J as (I1 & I2 & I3). unfold after. simpl. rewrite setg_same. repeat split.
      * eapply lag_ext; eauto.
      * eapply errs_ext; eauto. intros j Hj Hi. destruct (He _ _ Hj Hi) as [_ He2]. simpl. auto.
      * rewrite fetched_app, Hf, app_nil_r. destruct (gens s k); simpl in Hq; try contradiction; apply I3.
      * rewrite fetched_app, Hf, app_nil_r.
        destruct (gens s k); simpl in Hq; try contradiction; destruct I3 as [_ I3];
        (eapply Forall_impl; [|exact I3]); intros o; apply ok_silent; split; auto.
Qed.

Lemma with_gen_same k s : gens s k = GEnded \/ gens s k = GNone -> quiet (gens s k).
Proof. intros [-> | ->]; exact I. Qed.

Lemma inv_log k s L e :
  inv k s L -> silent e -> created e = [] -> fetched e = [] -> quiet (gens s k) ->
  (forall j x, ~ In (Err j x) e) ->
  inv k s (L ++ e).
Proof.
  intros [B J] [Hr Hst] Hc Hf Hq He. split; [exact B|].
  rewrite created_app, Hc, app_nil_r. destruct (created L) as [|n [|]] eqn:Ec; auto.
  - destruct J as (I1 & I2 & I3 & I4 & I5 & I6 & I7). unfold before.
    rewrite fetched_app, I1, Hf. repeat split; auto.
    + intros j. rewrite received_app, I2, Hr. reflexivity.
    + intros j Hj. apply in_app_or in Hj as [Hj|Hj]; [now apply I3 in Hj|now apply Hst in Hj].
    + intros j x Hj Hi. apply in_app_or in Hj as [Hj|Hj]; [eauto|]. now apply He in Hj.
  - destruct J as (I1 & I2 & I3). unfold after. repeat split.
    + eapply lag_ext; eauto.
    + eapply errs_ext; eauto. intros j Hj. now apply He in Hj.
    + rewrite fetched_app, Hf, app_nil_r.
      destruct (gens s k); simpl in Hq; try contradiction; destruct I3 as [I3 I4]; (split; [exact I3|]);
        (eapply Forall_impl; [|exact I4]); intros o; apply ok_silent; split; auto.
Qed.


Lemma micro_base k s : base k s -> base k (fst (micro k s)).
Proof.
  intros B. unfold micro. destruct (gens s k) as [|num|insp|insp|insp b|] eqn:Eg; try exact B.
  - destruct (find k (objs s)); [|bgen GEnded]. destruct (exist s); bgen (GLoop (to_inspect (objs s))).
  - pose proof (b_insp _ _ B _ _ Eg) as Ei.
    destruct (over s); [bgen GEnded|]. destruct (find k (objs s)) as [o|]; [|bgen GEnded].
    destruct (obuf o) as [|b r].
    + destruct (inspect _ _ _ _) as [[ov w]|]; [|bgen GEnded]. bgen (GFill insp).
    + bgen (GLoop insp).
  - pose proof (b_inspF _ _ B _ Eg) as Ei.
    destruct (rem s); [bgen GEnded|bgen (GHold insp a)].
  - pose proof (b_inspH _ _ B _ _ Eg) as Ei. bgen (GLoop insp).
Qed.

Lemma micro_quiet k s :
  existsb ends (snd (micro k s)) = true -> quiet (gens (fst (micro k s)) k).
Proof.
  unfold micro. destruct (gens s k) as [|num|insp|insp|insp b|] eqn:Eg.
  - simpl. now rewrite Eg.
  - destruct (find k (objs s)); [destruct (exist s)|]; simpl; rewrite ?setg_same; intros; try discriminate; exact I.
  - destruct (over s) eqn:Eo; [simpl; rewrite setg_same; intros; exact I|].
    destruct (find k (objs s)) as [o|]; [|simpl; rewrite setg_same; intros; exact I].
    destruct (obuf o) as [|b r]; [|simpl; rewrite Eg; intros; exact I].
    destruct (inspect _ _ _ _) as [[ov w]|] eqn:Es; [|simpl; rewrite setg_same; intros; exact I].
    apply inspect_spec in Es as (Hw & _). apply warns_none in Hw as (_ & _ & _ & Hw & _).
    simpl. rewrite Hw. discriminate.
  - destruct (rem s); simpl; rewrite setg_same; [intros; exact I|discriminate].
  - simpl. discriminate.
  - simpl. now rewrite Eg.
Qed.

Lemma upd_find i r l o : In o (upd_obj i (set_buf r) l) ->
  exists o0, In o0 l /\ oid o = oid o0 /\ omax o = omax o0 /\ otreat o = otreat o0
    /\ (oid o0 = i -> obuf o = r) /\ (oid o0 <> i -> o = o0).
Proof.
  intros H. apply in_map_iff in H as (o0 & E & H). exists o0.
  destruct (oid o0 =? i) eqn:Ei.
  - apply Nat.eqb_eq in Ei. subst o. simpl. repeat split; auto. congruence.
  - apply Nat.eqb_neq in Ei. subst o. repeat split; auto. congruence.
Qed.

Lemma checked_eq o o' L : oid o = oid o' -> omax o = omax o' -> otreat o = otreat o' ->
  checked o L -> checked o' L.
Proof. unfold checked. intros -> -> ->. auto. Qed.

Lemma micro_inv k s L : inv k s L -> inv k (fst (micro k s)) (L ++ snd (micro k s)).
Proof.
  intros HI. pose proof HI as [B I0].
  assert (base k (fst (micro k s))) as B' by (apply micro_base; exact B).
  assert (2 <= length (created (L ++ snd (micro k s))) -> inv k (fst (micro k s)) (L ++ snd (micro k s))) as Hbig.
  { intros H. split; [exact B'|]. destruct (created (L ++ snd (micro k s))) as [|? [|]]; simpl in H; lia. }
  rewrite created_app, app_length in Hbig.
  destruct (le_lt_dec 2 (length (created L))) as [Hl|Hl]; [apply Hbig; lia|]. clear Hbig.
  revert B'. unfold micro.
  destruct (gens s k) as [|num|insp|insp|insp b|] eqn:Eg.
  - (* GNone *) simpl. intros _. apply inv_log; auto.
    + split; [reflexivity|]. intros i [H|[]]; discriminate.
    + rewrite Eg. exact I.
    + intros j x [H|[]]; discriminate.
  - (* GNew *)
    destruct (find k (objs s)) as [o|] eqn:Ef.
    + destruct (exist s) eqn:Ee; cbn [fst snd]; intros B'.
      * rewrite app_nil_r. split; [exact B'|].
        destruct (created L) as [|n [|]] eqn:Ec; auto.
        -- destruct I0 as (_ & _ & _ & _ & _ & _ & I7). congruence.
        -- unfold after in *. rewrite Eg in I0. simpl. rewrite setg_same. exact I0.
      * split; [exact B'|].
        rewrite created_app. simpl. destruct (created L) as [|n [|]] eqn:Ec; simpl; auto.
        destruct I0 as (I1 & I2 & I3 & I4 & I5 & I6 & I7).
        unfold after. simpl. rewrite setg_same. repeat split.
        -- intros H. discriminate.
        -- intros j Hj Hi. apply in_app_or in Hj as [Hj|[Hj|[]]]; [|discriminate].
           exfalso. eauto.
        -- rewrite fetched_app, I1. reflexivity.
        -- rewrite fetched_app, I1. simpl. apply Forall_forall. intros o' Ho'.
           apply in_map_iff in Ho' as (o1 & <- & Ho1). unfold ok, set_buf. simpl.
           rewrite received_app, I2. simpl. repeat split.
           ++ lia.
           ++ constructor.
           ++ exists []. reflexivity.
           ++ intros Hs. apply in_app_or in Hs as [Hs|[Hs|[]]]; [|discriminate]. now apply I3 in Hs.
    + simpl. intros _. apply inv_end; auto.
      * intros i [H|[]]; discriminate.
      * rewrite Eg. exact I.
      * intros j x [[= <- <-]|[]] Hi. exfalso.
        destruct B as [_ B2 _ _ _ _]. rewrite <- B2, <- shape_ids in Hi.
        apply in_map_iff in Hi as (o & E & Ho). clear -Ef E Ho.
        induction (objs s) as [|a l IH]; [destruct Ho|]. simpl in Ef.
        destruct (oid a =? k) eqn:Ea; [discriminate|]. destruct Ho as [->|Ho]; [|auto].
        apply Nat.eqb_neq in Ea. congruence.
  - (* GLoop *)
    destruct (created L) as [|n [|n2 lc]] eqn:Ec; [|clear Hl|simpl in Hl; lia].
    { destruct I0 as (_ & _ & _ & _ & I5 & _). now apply I5 in Eg. }
    pose proof (b_insp _ _ B _ _ Eg) as Ei.
    destruct (over s) eqn:Eo.
    { simpl. intros _. apply inv_end; auto.
      - intros i [H|[]]; discriminate.
      - rewrite Eg. exact I.
      - intros j x _ _. rewrite Ec. split; [discriminate|auto]. }
    destruct (find k (objs s)) as [o|] eqn:Ef.
    2:{ simpl. intros _. apply inv_end; auto.
      - intros i [H|[]]; discriminate.
      - rewrite Eg. exact I.
      - intros j x [[= <- <-]|[]] _. rewrite Ec. split; [discriminate|discriminate]. }
    apply find_in in Ef as Ho. destruct Ho as [Ho Hk].
    destruct (obuf o) as [|b r] eqn:Eb.
    + destruct (inspect _ _ _ _) as [[ov w]|] eqn:Es.
      2:{ simpl. intros _. apply inv_end; auto.
        - intros i [H|[]]; discriminate.
        - rewrite Eg. exact I.
        - intros j x [[= <- <-]|[]] _. rewrite Ec. split; [discriminate|discriminate]. }
      cbn [fst snd]. intros B'. apply inspect_spec in Es as (Hw & H2 & H3 & H4).
      apply warns_none in Hw as (W1 & W2 & W3 & W4 & W5 & W6).
      split; [exact B'|]. rewrite created_app, Ec, W3. simpl.
      unfold after in *. rewrite Eg in I0. simpl. rewrite setg_same.
      destruct I0 as (I1 & I2 & I3 & I4). rewrite Eo in I4.
      rewrite fetched_app, W2, app_nil_r.
      split; [|split; [|split; [exact I3|split; [|split]]]].
      * intros Hov. simpl in Hov. destruct (H4 Hov) as [H|(o1 & k1 & O1 & O2 & O3 & O4)]; [congruence|].
        exists o1, k1. simpl. rewrite received_app, W1, app_nil_r, fetched_app, W2, app_nil_r.
        rewrite Forall_forall in I4. destruct (I4 o1 O1) as (_ & I5 & _).
        apply subseq_length in I5. rewrite app_length in I5.
        rewrite (b_bs _ _ B) in O2. repeat split; auto. lia.
      * eapply errs_ext; [| |exact I2]; [simpl; congruence|]. intros j Hj. now apply W6 in Hj.
      * eapply Forall_impl; [|exact I4]. intros o1. apply ok_silent. split; auto.
      * intros Hov o1 Ho1 Hc. simpl in Hov, Ho1. rewrite Forall_forall in I4.
        destruct (I4 o1 Ho1) as (L1 & _). pose proof Hc as [Hb Ht].
        assert (find (oid o1) (objs s) = Some o1) as Hf1.
        { apply in_find; [|exact Ho1]. rewrite shape_ids, (b_shape _ _ B). exact Hdup. }
        assert (In (oid o1) insp) as Hin.
        { rewrite Ei. apply in_to_inspect; [exact Ho1|]. destruct Ht as [Ht|[Ht _]]; rewrite Ht; discriminate. }
        assert (length (obuf o1) <> omax o1); [|lia].
        rewrite (b_bs _ _ B) in *.
        destruct Ht as [Ht|[Ht Hn]].
        -- destruct (H2 Hov) as [_ H5]. eapply H5; eauto.
        -- eapply H3; eauto. intros Hx. apply Hn. apply in_or_app. now right.
      * intros o1 Ho1 E1. simpl in Ho1.
        assert (find (oid o1) (objs s) = Some o1) as Hf1.
        { apply in_find; [|exact Ho1]. rewrite shape_ids, (b_shape _ _ B). exact Hdup. }
        rewrite E1, Ef in Hf1. injection Hf1 as <-. exact Eb.
    + cbn [fst snd]. intros B'. split; [exact B'|]. rewrite created_app, Ec. simpl.
      unfold after in *. rewrite Eg in I0. simpl. rewrite Eg.
      destruct I0 as (I1 & I2 & I3 & I4). rewrite fetched_app. simpl. rewrite app_nil_r.
      split; [|split; [|split; [exact I3|]]].
      * intros Hov. simpl in Hov. congruence.
      * eapply errs_ext; [| |exact I2]; [simpl; congruence|]. intros j [Hj|[]]; discriminate.
      * rewrite Forall_forall in *. intros o1 Ho1. apply upd_find in Ho1 as (o0 & H0 & E1 & E2 & E3 & E4 & E5).
        specialize (I4 o0 H0). destruct (Nat.eq_dec (oid o0) k) as [Hk0|Hk0].
        -- assert (o0 = o) as ->.
           { assert (find (oid o0) (objs s) = Some o0) as Hf1.
             { apply in_find; [|exact H0]. rewrite shape_ids, (b_shape _ _ B). exact Hdup. }
             rewrite Hk0, Ef in Hf1. now injection Hf1. }
           destruct I4 as (L1 & L2 & L3 & L4). unfold ok. rewrite E1, Hk, (E4 Hk0), received_app. simpl.
           rewrite Nat.eqb_refl. rewrite Hk in L2, L3, L4. rewrite Eb in L1, L2, L3. simpl in L1.
           assert (received k L ++ b :: r = (received k L ++ [b]) ++ r) as Ea by (rewrite <- app_assoc; reflexivity).
           rewrite Ea in L2, L3. split; [|split; [|split; [intros Hc; split|]]].
           ++ lia.
           ++ exact L2.
           ++ exists r. rewrite (proj2 (L3 (checked_eq _ _ _ E1 E2 E3 (checked_app _ _ _ Hc))) Eo). reflexivity.
           ++ intros Hov. apply L3; auto. apply (checked_eq _ _ _ E1 E2 E3). eapply checked_app; eauto.
           ++ intros Hs Hc. exfalso. apply in_app_or in Hs as [Hs|[Hs|[]]]; [|discriminate].
              assert (checked o L) as Hc'.
              { apply (checked_eq _ _ _ E1 E2 E3). eapply checked_app; eauto. }
              specialize (L4 Hs Hc'). destruct (L3 Hc') as [_ L5]. specialize (L5 Eo).
              pose proof I3 as I3'. rewrite <- L5, <- L4 in I3'.
              apply (f_equal (@length A)) in I3'. rewrite !app_length in I3'. simpl in I3'. lia.
        -- rewrite (E5 Hk0). apply Nat.eqb_neq in Hk0. destruct I4 as (L1 & L2 & L3 & L4).
           unfold ok. rewrite received_app. simpl. rewrite Nat.eqb_sym, Hk0, app_nil_r.
           repeat split; auto.
           ++ apply L3. eapply checked_app; eauto.
           ++ intros Hov. apply L3; auto. eapply checked_app; eauto.
           ++ intros Hs Hc. apply in_app_or in Hs as [Hs|[Hs|[]]]; [|discriminate].
              apply L4; auto. eapply checked_app; eauto.
  - (* GFill *)
    destruct (created L) as [|n [|n2 lc]] eqn:Ec; [|clear Hl|simpl in Hl; lia].
    { destruct I0 as (_ & _ & _ & _ & _ & I6 & _). rewrite Eg in I6. destruct I6. }
    unfold after in I0. rewrite Eg in I0. destruct I0 as (I1 & I2 & I3 & I4 & I5 & I6).
    destruct (rem s) as [|b r] eqn:Er; cbn [fst snd]; intros B'; (split; [exact B'|]);
      rewrite created_app, Ec; simpl; unfold after; simpl; rewrite setg_same.
    + rewrite fetched_app. simpl. rewrite !app_nil_r in *. split; [|split; [|split; [exact I3|]]].
      * eapply lag_ext; [| | |exact I1]; auto.
      * eapply errs_ext; [| |exact I2]; [auto|]. intros j [Hj|[]]; discriminate.
      * rewrite Forall_forall in *. intros o Ho. specialize (I4 o Ho). destruct I4 as (L1 & L2 & L3 & L4).
        unfold ok. rewrite received_app. simpl. rewrite app_nil_r. repeat split; auto.
        -- apply L3. eapply checked_app; eauto.
        -- intros Hov. apply L3; auto. eapply checked_app; eauto.
        -- intros Hs Hc. apply checked_app in Hc. apply in_app_or in Hs as [Hs|[[= Hs]|[]]]; [auto|].
           destruct (L3 Hc) as [_ L5]. specialize (L5 eq_refl).
           rewrite (I6 o Ho (eq_sym Hs)), app_nil_r in L5. congruence.
    + rewrite fetched_app. simpl. split; [|split].
      * eapply lag_ext; [| | |exact I1]; auto.
      * eapply errs_ext; [| |exact I2]; [auto|]. intros j [Hj|[]]; discriminate.
      * exists (fetched L). split; [reflexivity|]. split; [rewrite <- app_assoc; exact I3|]. split.
        -- eapply Forall_impl; [|exact I4]. intros o. apply ok_silent. split; [reflexivity|]. intros i [H|[]]; discriminate.
        -- intros Hov o Ho Hc. apply I5; auto. eapply checked_app; eauto.
  - (* GHold *)
    destruct (created L) as [|n [|n2 lc]] eqn:Ec; [|clear Hl|simpl in Hl; lia].
    { destruct I0 as (_ & _ & _ & _ & _ & I6 & _). rewrite Eg in I6. destruct I6. }
    unfold after in I0. rewrite Eg in I0. destruct I0 as (I1 & I2 & F & I3 & I4 & I5 & I6).
    cbn [fst snd]. rewrite app_nil_r. intros B'. split; [exact B'|]. rewrite Ec.
    unfold after. simpl. rewrite setg_same. split; [|split; [exact I2|split; [exact I4|]]].
    + intros Hov. destruct (I1 Hov) as (o & k1 & O1 & O2 & O3 & O4). exists (push b o), k1. simpl.
      repeat split; auto. now apply in_map.
    + rewrite Forall_forall in *. intros o' Ho'. apply in_map_iff in Ho' as (o & <- & Ho).
      destruct (I5 o Ho) as (L1 & L2 & L3 & L4). unfold ok. rewrite I3.
      change (oid (push b o)) with (oid o). repeat split.
      * exact (push_len b o L1).
      * apply push_sub. exact L2.
      * destruct (L3 H) as [(t & ->) _]. exists (t ++ [b]). now rewrite app_assoc.
      * intros Hov. rewrite push_short.
        -- rewrite app_assoc. rewrite (proj2 (L3 H) eq_refl). reflexivity.
        -- apply I6; auto.
      * intros Hs Hc. auto.
  - (* GEnded *) simpl. intros _. apply inv_log; auto.
    + split; [reflexivity|]. intros i [H|[]]; discriminate.
    + rewrite Eg. exact I.
    + intros j x [H|[]]; discriminate.
Qed.

(** Between two calls no generator is inside a step; then the invariant does
    not depend on whose turn it is. *)
Lemma inv_switch k k' s L : inv k s L -> quiet (gens s k) -> inv k' s L.
Proof.
  intros [[B1 B2 B3 B4 B5 B6] J] Hq.
  assert (forall j, quiet (gens s j)) as Q.
  { intros j. destruct (Nat.eq_dec j k) as [->|]; auto. }
  assert (base k' s).
  { constructor; auto; intros; specialize (Q k'); rewrite H in Q; destruct Q. }
  split; [assumption|]. destruct (created L) as [|n [|]]; auto.
  - unfold before in *. intuition.
  - unfold after in *. destruct J as (I1 & I2 & I3). split; [exact I1|split; [exact I2|]].
    pose proof (Q k'). destruct (gens s k) eqn:E; simpl in Hq; try contradiction;
      destruct (gens s k') eqn:E'; simpl in *; try contradiction; exact I3.
Qed.

Lemma existsb_ends_app a b : existsb ends (a ++ b) = existsb ends a || existsb ends b.
Proof. apply existsb_app. Qed.

(** *** A call of next() ends *)
Definition mu (k : nat) (s : st) : nat :=
  match gens s k with
  | GNew num => 3 * (length (rem s) + length (src num)) + 3
  | GLoop _ => 3 * length (rem s) + 2
  | GFill _ => 3 * length (rem s) + 1
  | GHold _ _ => 3 * length (rem s) + 3
  | _ => 0
  end.

Lemma micro_mu k s : existsb ends (snd (micro k s)) = false -> mu k (fst (micro k s)) < mu k s.
Proof.
  unfold micro. destruct (gens s k) as [|num|insp|insp|insp b|] eqn:Eg; unfold mu at 2; rewrite Eg.
  - discriminate.
  - destruct (find k (objs s)); [destruct (exist s)|]; unfold mu; simpl; rewrite ?setg_same; try discriminate; intros _; lia.
  - destruct (over s); [discriminate|]. destruct (find k (objs s)) as [o|]; [|discriminate].
    destruct (obuf o); [|discriminate]. destruct (inspect _ _ _ _) as [[ov w]|]; [|discriminate].
    intros _. unfold mu; simpl; rewrite setg_same. lia.
  - destruct (rem s) as [|b r]; [discriminate|]. intros _. unfold mu; simpl; rewrite setg_same. lia.
  - intros _. unfold mu; simpl; rewrite setg_same. lia.
  - discriminate.
Qed.

Lemma micro_no_fuel k s : ~ In (Err k OutOfFuel) (snd (micro k s)).
Proof.
  unfold micro. destruct (gens s k) as [|num|insp|insp|insp b|]; simpl.
  - intros [H|[]]; discriminate.
  - destruct (find k (objs s)); [destruct (exist s)|]; simpl; intros H; repeat destruct H as [H|H]; try discriminate; auto.
  - destruct (over s) eqn:Eo; [intros [H|[]]; discriminate|].
    destruct (find k (objs s)) as [o|]; [|intros [H|[]]; discriminate].
    destruct (obuf o); [|intros [H|[]]; discriminate].
    destruct (inspect _ _ _ _) as [[ov w]|] eqn:Es; [|intros [H|[]]; discriminate].
    apply inspect_spec in Es as (Hw & _). apply warns_none in Hw as (_ & _ & _ & _ & _ & Hw). simpl. apply Hw.
  - destruct (rem s); intros [H|[]]; discriminate.
  - intros [].
  - intros [H|[]]; discriminate.
Qed.

Lemma go_ends fuel : forall k s, mu k s < fuel -> 
  ~ In (Err k OutOfFuel) (snd (go fuel k s)) /\ existsb ends (snd (go fuel k s)) = true.
Proof.
  induction fuel as [|fuel IH]; intros k s H; [lia|]. simpl.
  pose proof (micro_mu k s) as Hm. pose proof (micro_no_fuel k s) as Hf.
  destruct (micro k s) as [s1 e]. simpl in *. destruct (existsb ends e) eqn:Ee; [auto|].
  specialize (Hm eq_refl). specialize (IH k s1 ltac:(lia)). destruct (go fuel k s1) as [s2 e2].
  simpl in *. destruct IH as [IH1 IH2]. split.
  - intros Hi. apply in_app_or in Hi as [Hi|Hi]; auto.
  - rewrite existsb_app, IH2. now rewrite orb_true_r.
Qed.

Lemma fuel_mu k s : mu k s < fuel_of k s.
Proof. unfold mu, fuel_of. destruct (gens s k); lia. Qed.

Lemma go_inv fuel : forall k s L, mu k s < fuel -> inv k s L ->
  inv k (fst (go fuel k s)) (L ++ snd (go fuel k s)) /\ quiet (gens (fst (go fuel k s)) k).
Proof.
  induction fuel as [|fuel IH]; intros k s L Hm HI; [lia|]. simpl.
  pose proof (micro_inv k s L HI) as H1. pose proof (micro_quiet k s) as H2.
  pose proof (micro_mu k s) as H3. destruct (micro k s) as [s1 e]. simpl in *.
  destruct (existsb ends e) eqn:Ee; [simpl; auto|].
  specialize (H3 eq_refl). specialize (IH k s1 (L ++ e) ltac:(lia) H1).
  destruct (go fuel k s1) as [s2 e2]. simpl in *. rewrite <- app_assoc in IH. exact IH.
Qed.

Definition all_quiet (s : st) : Prop := forall j, quiet (gens s j).

Lemma exec_inv o s L : (forall k, inv k s L) -> all_quiet s ->
  (forall k, inv k (fst (exec o s)) (L ++ snd (exec o s))) /\ all_quiet (fst (exec o s)).
Proof.
  intros HI HQ. destruct o as [i num|i].
  - simpl. rewrite app_nil_r.
    assert (all_quiet (with_gen s i (GNew num))) as HQ'.
    { intros j. simpl. destruct (Nat.eq_dec j i) as [->|Hj]; [rewrite setg_same; exact I|].
      rewrite setg_other by auto. apply HQ. }
    split; [|exact HQ'].
    assert (inv i (with_gen s i (GNew num)) L) as H.
    { destruct (HI i) as [B I0]. split; [bgen (GNew num)|].
      destruct (created L) as [|n [|]]; auto.
      - destruct I0 as (I1 & I2 & I3 & I4 & I5 & I6 & I7). unfold before. split; [exact I1|split; [exact I2|split; [exact I3|split; [exact I4|split; [|split; [|exact I7]]]]]].
        + intros j insp. simpl. destruct (Nat.eq_dec j i) as [->|Hj]; [rewrite setg_same; discriminate|].
          rewrite setg_other by auto. apply I5.
        + apply HQ'.
      - unfold after in *. simpl. rewrite setg_same. destruct I0 as (I1 & I2 & I3).
        split; [exact I1|split; [exact I2|]]. specialize (HQ i).
        destruct (gens s i); simpl in HQ; try contradiction; exact I3. }
    intros k. apply (inv_switch i); [exact H|apply HQ'].
  - simpl. unfold next_call. destruct (go_inv (fuel_of i s) i s L (fuel_mu i s) (HI i)) as [H1 H2].
    assert (all_quiet (fst (go (fuel_of i s) i s))) as HQ'.
    { intros j. destruct (Nat.eq_dec j i) as [->|Hj]; [exact H2|].
      destruct H1 as [B _]. apply (b_quiet _ _ B). exact Hj. }
    split; [|exact HQ']. intros k. apply (inv_switch i); auto.
Qed.

Lemma run_inv ops : forall s L, (forall k, inv k s L) -> all_quiet s ->
  (forall k, inv k (fst (run ops s)) (L ++ snd (run ops s))) /\ all_quiet (fst (run ops s)).
Proof.
  induction ops as [|o ops IH]; intros s L HI HQ; simpl; [rewrite app_nil_r; auto|].
  destruct (exec_inv o s L HI HQ) as [H1 H2]. destruct (exec o s) as [s1 e]. simpl in *.
  specialize (IH s1 (L ++ e) H1 H2). destruct (run ops s1) as [s2 e2]. simpl in *.
  rewrite <- app_assoc in IH. exact IH.
Qed.

Lemma start_inv k : inv k (start bs shape0) [].
Proof.
  split.
  - constructor; simpl; auto; try discriminate.
    unfold shape, start. simpl. rewrite map_map. rewrite <- (map_id shape0) at 2.
    apply map_ext. intros [[i m] t]. reflexivity.
  - simpl. unfold before. simpl. repeat split; auto; discriminate.
Qed.

Lemma run_start ops k : inv k (fst (run ops (start bs shape0))) (snd (run ops (start bs shape0))).
Proof.
  destruct (run_inv ops (start bs shape0) []) as [H _]; [apply start_inv|intros j; exact I|]. apply H.
Qed.

Lemma in_shape s i m t : shape (objs s) = shape0 -> In (i, m, t) shape0 ->
  exists o, In o (objs s) /\ oid o = i /\ omax o = m /\ otreat o = t.
Proof.
  intros <- H. apply in_map_iff in H as (o & E & H). injection E as <- <- <-. eauto.
Qed.

Lemma run_after ops n s L : run ops (start bs shape0) = (s, L) -> created L = [n] ->
  shape (objs s) = shape0 /\ lag s L /\ errs s L /\ fetched L ++ rem s = src n
  /\ Forall (ok n (over s) (fetched L) L) (objs s).
Proof.
  intros E Ec. destruct (run_inv ops (start bs shape0) []) as [H HQ]; [apply start_inv|intros j; exact I|].
  rewrite E in *. simpl in *. destruct (H 0) as [B I0]. rewrite Ec in I0.
  destruct I0 as (I1 & I2 & I3). split; [exact (b_shape _ _ B)|]. split; [exact I1|]. split; [exact I2|].
  specialize (HQ 0). destruct (gens s 0); simpl in HQ; try contradiction; exact I3.
Qed.

End Splitter.
Arguments obj : clear implicits.
Arguments gen : clear implicits.
Arguments event : clear implicits.
Arguments st : clear implicits.
