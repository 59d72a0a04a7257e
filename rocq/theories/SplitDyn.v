(** Registering and removing objects at a SampleSplitter at any time
    (process.py:496-520, 551-619), between the next() calls of the running
    generators.  The steps of the generators are those of Splitter.v. *)
From Coq Require Import List Arith Lia ZArith Bool.
From Verif Require Import Stream Splitter.
Import ListNotations.

Section Dyn.
Context {A : Type}.
Variable src : nat -> list A.
Notation st := (@st A).
Notation obj := (@obj A).
Notation event := (@event A).

(** register_object (process.py:579-587): the objects in the order given; one
    that is registered already is an OSError, those before it stay registered. *)
Fixpoint reg_all (ids : list nat) (mx : nat) (t : treatment) (s : st) : st * list event :=
  match ids with
  | [] => (s, [])
  | i :: ids' =>
      match find i (objs s) with
      | Some _ => (s, [Err i OSError])
      | None => reg_all ids' mx t (register i mx t s)
      end
  end.

(** remove_object (process.py:615-619) with _remove_block_buffer
    (process.py:503-504): [del] of a missing key is a KeyError. *)
Fixpoint rem_all (ids : list nat) (s : st) : st * list event :=
  match ids with
  | [] => (s, [])
  | i :: ids' =>
      match find i (objs s) with
      | None => (s, [Err i KeyError])
      | Some _ => rem_all ids' (remove i s)
      end
  end.
Definition remove_object (ids : list nat) (s : st) : st * list event :=
  rem_all (match ids with [] => map oid (objs s) | _ => ids end) s.

Inductive xop :=
| Base (o : op)
| Reg (ids : list nat) (mx : nat) (t : treatment)
| Rem (ids : list nat).

Definition xexec (o : xop) (s : st) : st * list event :=
  match o with
  | Base o => exec src o s
  | Reg ids mx t => reg_all ids mx t s
  | Rem ids => remove_object ids s
  end.
Fixpoint xrun (ops : list xop) (s : st) : st * list event :=
  match ops with
  | [] => (s, [])
  | o :: ops' =>
      let (s1, e) := xexec o s in
      let (s2, e2) := xrun ops' s1 in (s2, e ++ e2)
  end.

(** An operation that calls, advances, registers or removes object [i]. *)
Definition concerns (i : nat) (o : xop) : bool :=
  match o with
  | Base (Call j _) | Base (Next j) => j =? i
  | Reg ids _ _ => existsb (Nat.eqb i) ids
  | Rem [] => true
  | Rem ids => existsb (Nat.eqb i) ids
  end.
Definition registers (i : nat) (o : xop) : bool :=
  match o with Reg ids _ _ => existsb (Nat.eqb i) ids | _ => false end.
(** Whenever [i] is registered by [o] it is with the treatment 'none'. *)
Definition only_none (i : nat) (o : xop) : Prop :=
  match o with Reg ids _ t => In i ids -> t = TNone | _ => True end.

(* ------------------------------------------------------------------ *)
(** ** Proofs *)
Definition hold (g : @gen A) : list A := match g with GHold _ b => [b] | _ => [] end.
Definition quiet1 (g : @gen A) : Prop := match g with GFill _ | GHold _ _ => False | _ => True end.
Definition buf_of (i : nat) (s : st) : list A :=
  match find i (objs s) with Some o => obuf o | None => [] end.

Lemma xrun_app a b s : xrun (a ++ b) s =
  let (s1, e) := xrun a s in let (s2, e2) := xrun b s1 in (s2, e ++ e2).
Proof.
  revert s; induction a as [|o a IH]; intros s; cbn [xrun app].
  - destruct (xrun b s); reflexivity.
  - destruct (xexec o s) as [s1 e]. rewrite IH.
    destruct (xrun a s1) as [s2 e2]. destruct (xrun b s2) as [s3 e3].
    rewrite app_assoc. reflexivity.
Qed.

Lemma find_map_id (f : obj -> obj) i l : (forall o, oid (f o) = oid o) ->
  find i (map f l) = option_map f (find i l).
Proof.
  intros H; induction l as [|o l IH]; cbn; auto. rewrite H.
  destruct (oid o =? i); cbn; auto.
Qed.
Lemma find_upd i j r (l : list obj) : find j (upd_obj i (set_buf r) l) =
  option_map (fun o => if j =? i then set_buf r o else o) (find j l).
Proof.
  induction l as [|o l IH]; [reflexivity|]. unfold upd_obj in *. cbn [map find].
  destruct (Nat.eqb_spec (oid o) i) as [E|E]; cbn [set_buf oid].
  - destruct (Nat.eqb_spec (oid o) j) as [F|F]; cbn.
    + rewrite <- F, <- E, Nat.eqb_refl. reflexivity.
    + exact IH.
  - destruct (Nat.eqb_spec (oid o) j) as [F|F]; cbn.
    + subst j. destruct (Nat.eqb_spec (oid o) i); [contradiction|reflexivity].
    + exact IH.
Qed.
Lemma find_app i (a b : list obj) : find i (a ++ b) =
  match find i a with Some o => Some o | None => find i b end.
Proof. induction a as [|o a IH]; cbn; auto. destruct (oid o =? i); auto. Qed.
Lemma find_filter i j (l : list obj) : find j (filter (fun o => negb (oid o =? i)) l) =
  if j =? i then None else find j l.
Proof.
  induction l as [|o l IH]; cbn.
  - destruct (j =? i); reflexivity.
  - destruct (Nat.eqb_spec (oid o) i) as [E|E]; cbn.
    + rewrite IH. destruct (Nat.eqb_spec j i) as [F|F]; auto.
      destruct (Nat.eqb_spec (oid o) j); [congruence|reflexivity].
    + rewrite IH. destruct (Nat.eqb_spec (oid o) j) as [G|G]; auto.
      destruct (Nat.eqb_spec j i); [congruence|reflexivity].
Qed.
Lemma find_none_in i (l : list obj) : find i l = None <-> ~ In i (map oid l).
Proof.
  induction l as [|o l IH]; cbn; [tauto|].
  destruct (Nat.eqb_spec (oid o) i) as [E|E]; [split; [discriminate|tauto]|].
  rewrite IH. tauto.
Qed.

(** *** What is received was fetched, in order *)
(** [F]: fetched since object [i] was absent; [g]: the generator that moves. *)
Definition good (i k : nat) (s : st) (R F : list A) : Prop :=
  exists F', subseq (R ++ buf_of i s) F' /\ F = F' ++ hold (gens s k) /\
             forall j, j <> k -> hold (gens s j) = [].

Lemma inspect_silent bs (l : list obj) insp : forall ov ov' w, inspect bs l insp ov = Some (ov', w) ->
  (forall i, received i w = []) /\ fetched w = [] /\ created w = [].
Proof.
  induction insp as [|a insp IH]; intros ov ov' w H; cbn [inspect] in H.
  - injection H as <- <-. auto.
  - destruct (find a l) as [o|]; [|discriminate].
    match type of H with context [inspect bs l insp ?v] =>
      destruct (inspect bs l insp v) as [[r w']|] eqn:E; [|discriminate] end.
    destruct (IH _ _ _ E) as (H1 & H2 & H3).
    injection H as <- <-.
    match goal with |- context [if ?c then _ else _] => destruct c end; cbn; auto.
Qed.

Lemma good_micro i k s R F : good i k s R F ->
  good i k (fst (micro src k s)) (R ++ received i (snd (micro src k s)))
       (F ++ fetched (snd (micro src k s))).
Proof.
  intros (F' & HS & HF & HO). unfold micro, good.
  assert (HK : forall g, (forall j, j <> k -> hold (setg k g (gens s) j) = [])).
  { intros g j Hj. rewrite setg_other by auto. auto. }
  destruct (gens s k) as [|num|insp|insp|insp b|] eqn:G; cbn [hold] in HF; try rewrite app_nil_r in HF; subst F.
  - exists F'. cbn. rewrite G. cbn. rewrite !app_nil_r. auto.
  - destruct (find k (objs s)) as [o|] eqn:E.
    + destruct (exist s); cbn.
      * exists F'. rewrite setg_same. cbn. rewrite !app_nil_r. auto.
      * exists F'. rewrite setg_same. cbn. rewrite !app_nil_r. split; [|auto].
        unfold buf_of. cbn. rewrite find_map_id by auto.
        destruct (find i (objs s)); cbn; rewrite app_nil_r; eapply subseq_prefix; exact HS.
    + exists F'. cbn. rewrite setg_same. cbn. rewrite !app_nil_r. auto.
  - destruct (over s) eqn:O.
    + exists F'. cbn. rewrite setg_same. cbn. rewrite !app_nil_r. auto.
    + destruct (find k (objs s)) as [o|] eqn:E.
      2:{ exists F'. cbn. rewrite setg_same. cbn. rewrite !app_nil_r. auto. }
      destruct (obuf o) as [|b r] eqn:B.
      * destruct (inspect (bsize s) (objs s) insp false) as [[ov w]|] eqn:I.
        -- destruct (inspect_silent _ _ _ _ _ _ I) as (W1 & W2 & _).
           exists F'. cbn [fst snd]. rewrite W1, W2, !app_nil_r. cbn [gens]. rewrite setg_same. cbn.
           rewrite app_nil_r. auto.
        -- exists F'. cbn. rewrite setg_same. cbn. rewrite !app_nil_r. auto.
      * exists F'. cbn. rewrite G. cbn. rewrite !app_nil_r. split; [|auto].
        unfold buf_of in *. cbn. rewrite find_upd.
        destruct (Nat.eqb_spec k i) as [->|N].
        -- rewrite E in *. cbn. rewrite Nat.eqb_refl. cbn. rewrite B in HS.
           rewrite <- app_assoc. exact HS.
        -- rewrite app_nil_r.
           destruct (find i (objs s)) as [o'|]; cbn; [|exact HS].
           destruct (Nat.eqb_spec i k); [congruence|exact HS].
  - destruct (rem s) as [|b r] eqn:E; cbn.
    + exists F'. rewrite setg_same. cbn. rewrite !app_nil_r. auto.
    + exists F'. rewrite setg_same. cbn. rewrite !app_nil_r. auto.
  - exists (F' ++ [b]). cbn. rewrite setg_same. cbn. rewrite !app_nil_r. split; [|split; [reflexivity|auto]].
    unfold buf_of in *. cbn. rewrite find_map_id by auto.
    destruct (find i (objs s)) as [o|]; cbn.
    + apply push_sub; exact HS.
    + rewrite app_nil_r in *. apply subseq_app_r. exact HS.
  - exists F'. cbn. rewrite G. cbn. rewrite !app_nil_r. auto.
Qed.

Lemma good_go fuel : forall i k s R F, good i k s R F ->
  good i k (fst (go src fuel k s)) (R ++ received i (snd (go src fuel k s)))
       (F ++ fetched (snd (go src fuel k s))).
Proof.
  induction fuel as [|fuel IH]; intros i k s R F H; cbn [go].
  - cbn. rewrite !app_nil_r. exact H.
  - pose proof (good_micro i k s R F H) as H1.
    destruct (micro src k s) as [s1 e]; cbn [fst snd] in *.
    destruct (existsb ends e); cbn [fst snd]; [exact H1|].
    specialize (IH i k s1 _ _ H1).
    destruct (go src fuel k s1) as [s2 e2]; cbn [fst snd] in *.
    rewrite received_app, fetched_app, !app_assoc. exact IH.
Qed.

(** After a call of next() the generator holds nothing. *)
Lemma micro_ends k s : existsb ends (snd (micro src k s)) = true ->
  quiet1 (gens (fst (micro src k s)) k).
Proof.
  unfold micro.
  destruct (gens s k) as [|num|insp|insp|insp b|] eqn:G; cbn [fst snd].
  - intros _. rewrite G. exact Logic.I.
  - destruct (find k (objs s)); [destruct (exist s)|]; cbn; intros _; rewrite setg_same; exact Logic.I.
  - destruct (over s); [cbn; intros _; rewrite setg_same; exact Logic.I|].
    destruct (find k (objs s)) as [o|]; [|cbn; intros _; rewrite setg_same; exact Logic.I].
    destruct (obuf o).
    + destruct (inspect _ _ _ _) as [[ov w]|] eqn:E; [|cbn; intros _; rewrite setg_same; exact Logic.I].
      cbn. intros H. exfalso. revert E H. generalize ov w (false). clear.
      induction insp as [|a insp IH]; intros ov w ov0 E H; cbn [inspect] in E.
      * injection E as <- <-. discriminate.
      * destruct (find a (objs s)); [|discriminate].
        match type of E with context [inspect _ _ insp ?v] =>
          destruct (inspect (bsize s) (objs s) insp v) as [[r w']|] eqn:E2; [|discriminate] end.
        injection E as <- <-. apply (IH _ _ _ E2).
        match type of H with context [if ?c then _ else _] => destruct c end; cbn in H; exact H.
    + cbn. intros _. rewrite G. exact Logic.I.
  - destruct (rem s); cbn; [intros _; rewrite setg_same; exact Logic.I|discriminate].
  - discriminate.
  - intros _. rewrite G. exact Logic.I.
Qed.
Lemma micro_other k s j : j <> k -> gens (fst (micro src k s)) j = gens s j.
Proof.
  intros N. unfold micro.
  repeat match goal with
  | |- context [match ?x with _ => _ end] =>
      match x with
      | gens _ _ => destruct x eqn:?
      | find _ _ => destruct x
      | exist _ => destruct x
      | over _ => destruct x
      | obuf _ => destruct x
      | inspect _ _ _ _ => destruct x as [[? ?]|]
      | rem _ => destruct x
      end
  end; cbn; try rewrite setg_other by auto; reflexivity.
Qed.
Definition calm (s : st) : Prop := forall j, quiet1 (gens s j).

Lemma go_quiet fuel : forall k s, existsb ends (snd (go src fuel k s)) = true ->
  mu src k s < fuel -> quiet1 (gens (fst (go src fuel k s)) k).
Proof.
  induction fuel as [|fuel IH]; intros k s H Hm; [lia|].
  cbn [go] in *. pose proof (micro_mu src k s) as M. pose proof (micro_ends k s) as Q.
  destruct (micro src k s) as [s1 e]; cbn [fst snd] in *.
  destruct (existsb ends e) eqn:E; [cbn; auto|].
  specialize (M eq_refl). specialize (IH k s1).
  destruct (go src fuel k s1) as [s2 e2]; cbn [fst snd] in *.
  rewrite existsb_ends_app, E in H. cbn in H. apply IH; auto; lia.
Qed.
Lemma go_other fuel : forall k s j, j <> k -> gens (fst (go src fuel k s)) j = gens s j.
Proof.
  induction fuel as [|fuel IH]; intros k s j N; [reflexivity|].
  cbn [go]. pose proof (micro_other k s j N) as M.
  destruct (micro src k s) as [s1 e]; cbn [fst snd] in *.
  destruct (existsb ends e); [exact M|]. specialize (IH k s1 j N).
  destruct (go src fuel k s1) as [s2 e2]; cbn [fst snd] in *. congruence.
Qed.

Lemma next_calm k s : calm s -> calm (fst (next_call src k s)).
Proof.
  intros H j. unfold next_call. destruct (Nat.eq_dec j k) as [->|N].
  - apply go_quiet; [apply go_ends|]; apply fuel_mu.
  - rewrite go_other by auto. apply H.
Qed.

Lemma reg_fields ids mx t : forall s, gens (fst (reg_all ids mx t s)) = gens s /\
  rem (fst (reg_all ids mx t s)) = rem s /\ exist (fst (reg_all ids mx t s)) = exist s.
Proof.
  induction ids as [|i ids IH]; intros s; cbn [reg_all]; [auto|].
  destruct (find i (objs s)); [auto|]. apply (IH (register i mx t s)).
Qed.
Lemma rem_fields ids : forall s, gens (fst (rem_all ids s)) = gens s /\
  rem (fst (rem_all ids s)) = rem s /\ exist (fst (rem_all ids s)) = exist s.
Proof.
  induction ids as [|i ids IH]; intros s; cbn [rem_all]; [auto|].
  destruct (find i (objs s)); [|auto]. apply (IH (remove i s)).
Qed.
Lemma reg_log ids mx t : forall s, (forall i, received i (snd (reg_all ids mx t s)) = []) /\
  fetched (snd (reg_all ids mx t s)) = [] /\ created (snd (reg_all ids mx t s)) = [].
Proof.
  induction ids as [|i ids IH]; intros s; cbn [reg_all]; [auto|].
  destruct (find i (objs s)); [auto|]. apply (IH (register i mx t s)).
Qed.
Lemma rem_log ids : forall s, (forall i, received i (snd (rem_all ids s)) = []) /\
  fetched (snd (rem_all ids s)) = [] /\ created (snd (rem_all ids s)) = [].
Proof.
  induction ids as [|i ids IH]; intros s; cbn [rem_all]; [auto|].
  destruct (find i (objs s)); [|auto]. apply (IH (remove i s)).
Qed.

Lemma find_register i j mx t (s : st) : find i (objs s) = None ->
  find j (objs (register i mx t s)) = if j =? i then Some (mkObj i mx t []) else find j (objs s).
Proof.
  intros H. cbn. rewrite find_app. cbn. rewrite (Nat.eqb_sym i j).
  destruct (Nat.eqb_spec j i) as [->|N]; [rewrite H; reflexivity|].
  destruct (find j (objs s)); reflexivity.
Qed.
Lemma reg_buf ids mx t j : forall s, buf_of j (fst (reg_all ids mx t s)) = buf_of j s.
Proof.
  induction ids as [|i ids IH]; intros s; cbn [reg_all]; [auto|].
  destruct (find i (objs s)) eqn:E; [auto|]. rewrite IH. unfold buf_of.
  rewrite find_register by exact E. destruct (Nat.eqb_spec j i) as [->|]; [rewrite E|]; reflexivity.
Qed.
Lemma rem_buf ids j : forall s, buf_of j (fst (rem_all ids s)) = buf_of j s \/ buf_of j (fst (rem_all ids s)) = [].
Proof.
  induction ids as [|i ids IH]; intros s; cbn [rem_all]; [auto|].
  destruct (find i (objs s)) eqn:E; [|auto].
  destruct (IH (remove i s)) as [H|H]; [|auto]. rewrite H. unfold buf_of. cbn. rewrite find_filter.
  destruct (j =? i); auto.
Qed.

Lemma calm_hold (s : st) j : calm s -> hold (gens s j) = [].
Proof. intros H. specialize (H j). destruct (gens s j); cbn in *; tauto. Qed.

Lemma xexec_good i o s R F : calm s -> subseq (R ++ buf_of i s) F ->
  calm (fst (xexec o s)) /\
  subseq ((R ++ received i (snd (xexec o s))) ++ buf_of i (fst (xexec o s)))
         (F ++ fetched (snd (xexec o s))).
Proof.
  intros HC HS. destruct o as [[k num|k]|ids mx t|ids]; cbn [xexec exec].
  - split.
    + intros j. cbn. unfold setg. destruct (j =? k); [exact Logic.I|apply HC].
    + cbn. rewrite !app_nil_r. exact HS.
  - split; [apply next_calm; exact HC|].
    assert (G : good i k s R F).
    { exists F. split; [exact HS|]. split; [rewrite calm_hold by auto; rewrite app_nil_r; reflexivity|].
      intros j _. apply calm_hold; auto. }
    apply (good_go (fuel_of src k s)) in G. destruct G as (F' & H1 & H2 & _).
    rewrite (calm_hold (fst (go _ _ _ _))) in H2 by (apply next_calm; exact HC).
    rewrite app_nil_r in H2. unfold next_call. rewrite H2. exact H1.
  - destruct (reg_fields ids mx t s) as (H1 & _). destruct (reg_log ids mx t s) as (H2 & H3 & _). split.
    + intros j. rewrite H1. apply HC.
    + rewrite H2, H3, reg_buf, !app_nil_r. exact HS.
  - unfold remove_object. set (l := match ids with [] => _ | _ => _ end).
    destruct (rem_fields l s) as (H1 & _). destruct (rem_log l s) as (H2 & H3 & _). split.
    + intros j. rewrite H1. apply HC.
    + rewrite H2, H3, !app_nil_r. destruct (rem_buf l i s) as [H|H]; rewrite H; [exact HS|].
      rewrite app_nil_r. eapply subseq_prefix; exact HS.
Qed.

Lemma xrun_good i ops : forall s R F, calm s -> subseq (R ++ buf_of i s) F ->
  calm (fst (xrun ops s)) /\
  subseq ((R ++ received i (snd (xrun ops s))) ++ buf_of i (fst (xrun ops s)))
         (F ++ fetched (snd (xrun ops s))).
Proof.
  induction ops as [|o ops IH]; intros s R F HC HS; cbn [xrun].
  - cbn. rewrite !app_nil_r. auto.
  - destruct (xexec_good i o s R F HC HS) as (H1 & H2).
    destruct (xexec o s) as [s1 e]; cbn [fst snd] in *.
    destruct (IH s1 _ _ H1 H2) as (H3 & H4).
    destruct (xrun ops s1) as [s2 e2]; cbn [fst snd] in *.
    split; [exact H3|]. rewrite received_app, fetched_app, !app_assoc in *. exact H4.
Qed.

(** *** What was fetched is the start of what the source delivers *)
Definition prefixed (s : st) (L : list event) : Prop :=
  match created L with
  | [] => fetched L = [] /\ rem s = [] /\ exist s = false
  | [n] => fetched L ++ rem s = src n
  | _ => True
  end.
Lemma prefixed_micro k s L : prefixed s L ->
  prefixed (fst (micro src k s)) (L ++ snd (micro src k s)).
Proof.
  unfold prefixed. rewrite created_app, fetched_app. unfold micro. intros H.
  destruct (gens s k) as [|num|insp|insp|insp b|] eqn:G.
  - cbn. rewrite !app_nil_r. exact H.
  - destruct (find k (objs s)); [destruct (exist s) eqn:E|]; cbn; rewrite ?app_nil_r; rewrite ?E in *; try exact H.
    + destruct (created L) as [|n [|]]; cbn; [|exact Logic.I|exact Logic.I]. destruct H as (-> & _ & _). reflexivity.
  - destruct (over s); [cbn; rewrite !app_nil_r; exact H|].
    destruct (find k (objs s)) as [o|]; [|cbn; rewrite !app_nil_r; exact H].
    destruct (obuf o).
    + destruct (inspect _ _ _ _) as [[ov w]|] eqn:E; [|cbn; rewrite !app_nil_r; exact H].
      apply inspect_silent in E as (_ & E1 & E2). cbn. rewrite E1, E2, !app_nil_r. exact H.
    + cbn. rewrite !app_nil_r. exact H.
  - destruct (rem s) as [|b r] eqn:E; cbn; rewrite ?app_nil_r.
    + destruct (created L) as [|n [|]]; rewrite ?app_nil_r in *; tauto.
    + destruct (created L) as [|n [|]]; [destruct H as (_ & H & _); discriminate| |exact H].
      rewrite <- app_assoc. exact H.
  - cbn. rewrite !app_nil_r. exact H.
  - cbn. rewrite !app_nil_r. exact H.
Qed.
Lemma prefixed_go fuel : forall k s L, prefixed s L ->
  prefixed (fst (go src fuel k s)) (L ++ snd (go src fuel k s)).
Proof.
  induction fuel as [|fuel IH]; intros k s L H; cbn [go].
  - unfold prefixed in *. cbn. rewrite created_app, fetched_app. cbn. rewrite !app_nil_r. exact H.
  - pose proof (prefixed_micro k s L H) as H1.
    destruct (micro src k s) as [s1 e]; cbn [fst snd] in *.
    destruct (existsb ends e); cbn [fst snd]; [exact H1|].
    specialize (IH k s1 _ H1).
    destruct (go src fuel k s1) as [s2 e2]; cbn [fst snd] in *.
    rewrite app_assoc. exact IH.
Qed.
Lemma prefixed_same s s' L e : rem s' = rem s -> exist s' = exist s -> created e = [] -> fetched e = [] ->
  prefixed s L -> prefixed s' (L ++ e).
Proof.
  unfold prefixed. intros H1 H2 H3 H4. rewrite created_app, fetched_app, H1, H2, H3, H4, !app_nil_r. auto.
Qed.
Lemma prefixed_xrun ops : forall s L, prefixed s L ->
  prefixed (fst (xrun ops s)) (L ++ snd (xrun ops s)).
Proof.
  induction ops as [|o ops IH]; intros s L H; cbn [xrun].
  - cbn. rewrite app_nil_r. exact H.
  - assert (H1 : prefixed (fst (xexec o s)) (L ++ snd (xexec o s))).
    { destruct o as [[k num|k]|ids mx t|ids]; cbn [xexec exec].
      - cbn. rewrite app_nil_r. exact H.
      - apply prefixed_go. exact H.
      - destruct (reg_fields ids mx t s) as (_ & A1 & A2). destruct (reg_log ids mx t s) as (_ & A3 & A4).
        eapply prefixed_same; eauto.
      - unfold remove_object. set (l := match ids with [] => _ | _ => _ end).
        destruct (rem_fields l s) as (_ & A1 & A2). destruct (rem_log l s) as (_ & A3 & A4).
        eapply prefixed_same; eauto. }
    destruct (xexec o s) as [s1 e]; cbn [fst snd] in *.
    specialize (IH s1 _ H1). destruct (xrun ops s1) as [s2 e2]; cbn [fst snd] in *.
    rewrite app_assoc. exact IH.
Qed.

Definition xstart (bs : option nat) : st := start bs [].
Lemma xstart_calm bs : calm (xstart bs).
Proof. intros j. exact Logic.I. Qed.

(** *** Nothing is received by an object that is not registered *)
Lemma micro_ids k s : map oid (objs (fst (micro src k s))) = map oid (objs s).
Proof.
  unfold micro.
  repeat match goal with
  | |- context [match ?x with _ => _ end] =>
      match x with
      | gens _ _ => destruct x eqn:?
      | find _ _ => destruct x
      | exist _ => destruct x
      | over _ => destruct x
      | obuf _ => destruct x
      | inspect _ _ _ _ => destruct x as [[? ?]|]
      | rem _ => destruct x
      end
  end; cbn; auto.
  - rewrite map_map. apply map_ext. auto.
  - unfold upd_obj. rewrite map_map. apply map_ext. intros o0. destruct (_ =? _); reflexivity.
  - rewrite map_map. apply map_ext. auto.
Qed.
Lemma micro_absent i k s : find i (objs s) = None -> received i (snd (micro src k s)) = [].
Proof.
  intros H. unfold micro.
  destruct (gens s k) as [|num|insp|insp|insp b|] eqn:G; cbn; auto.
  - destruct (find k (objs s)); [destruct (exist s)|]; reflexivity.
  - destruct (over s); [reflexivity|].
    destruct (find k (objs s)) as [o|] eqn:E; [|reflexivity].
    destruct (obuf o).
    + destruct (inspect _ _ _ _) as [[ov w]|] eqn:E2; [|reflexivity].
      apply inspect_silent in E2 as (E2 & _). apply E2.
    + cbn. destruct (Nat.eqb_spec k i); [congruence|reflexivity].
  - destruct (rem s); reflexivity.
Qed.
Lemma go_absent i fuel : forall k s, find i (objs s) = None ->
  received i (snd (go src fuel k s)) = [] /\ find i (objs (fst (go src fuel k s))) = None.
Proof.
  induction fuel as [|fuel IH]; intros k s H; cbn [go]; [auto|].
  pose proof (micro_absent i k s H) as H1. pose proof (micro_ids k s) as H2.
  destruct (micro src k s) as [s1 e]; cbn [fst snd] in *.
  assert (H3 : find i (objs s1) = None) by (rewrite find_none_in in *; rewrite H2; exact H).
  destruct (existsb ends e); cbn [fst snd]; [auto|].
  destruct (IH k s1 H3) as (H4 & H5).
  destruct (go src fuel k s1) as [s2 e2]; cbn [fst snd] in *.
  rewrite received_app, H1, H4. auto.
Qed.
Lemma reg_absent i ids mx t : existsb (Nat.eqb i) ids = false -> forall s, find i (objs s) = None ->
  find i (objs (fst (reg_all ids mx t s))) = None.
Proof.
  induction ids as [|j ids IH]; intros N s H; cbn [reg_all]; [auto|].
  cbn in N. apply orb_false_iff in N as (N1 & N2).
  destruct (find j (objs s)) eqn:E; [auto|]. apply IH; [exact N2|].
  rewrite find_register by exact E. rewrite N1. exact H.
Qed.
Lemma rem_absent i ids : forall s, find i (objs s) = None -> find i (objs (fst (rem_all ids s))) = None.
Proof.
  induction ids as [|j ids IH]; intros s H; cbn [rem_all]; [auto|].
  destruct (find j (objs s)) eqn:E; [|auto]. apply IH.
  cbn. rewrite find_filter, H. destruct (_ =? _); reflexivity.
Qed.
Lemma xrun_absent i ops : forall s, find i (objs s) = None -> existsb (registers i) ops = false ->
  received i (snd (xrun ops s)) = [] /\ find i (objs (fst (xrun ops s))) = None.
Proof.
  induction ops as [|o ops IH]; intros s H N; cbn [xrun]; [auto|].
  cbn in N. apply orb_false_iff in N as (N1 & N2).
  assert (H1 : received i (snd (xexec o s)) = [] /\ find i (objs (fst (xexec o s))) = None).
  { destruct o as [[k num|k]|ids mx t|ids]; cbn [xexec exec].
    - auto.
    - apply go_absent. exact H.
    - split; [apply reg_log|]. apply reg_absent; auto.
    - split; [apply rem_log|]. apply rem_absent; auto. }
  destruct (xexec o s) as [s1 e]; cbn [fst snd] in *. destruct H1 as (H1 & H2).
  destruct (IH s1 H2 N2) as (H3 & H4).
  destruct (xrun ops s1) as [s2 e2]; cbn [fst snd] in *.
  rewrite received_app, H1, H3. auto.
Qed.
Lemma rem_keys ids : forall (s : st) j, find j (objs s) <> None -> ~ In j ids ->
  find j (objs (fst (rem_all ids s))) = find j (objs s).
Proof.
  induction ids as [|i ids IH]; intros s j H N; cbn [rem_all]; [auto|].
  destruct (find i (objs s)) eqn:E; [|auto].
  assert (H1 : find j (objs (remove i s)) = find j (objs s)).
  { cbn. rewrite find_filter. destruct (Nat.eqb_spec j i) as [->|]; [exfalso; apply N; left; reflexivity|reflexivity]. }
  rewrite IH; [exact H1|rewrite H1; exact H|intros C; apply N; right; exact C].
Qed.
Lemma rem_done ids : forall (s : st), NoDup ids -> (forall j, In j ids -> find j (objs s) <> None) ->
  rem_all ids s = (fold_left (fun s i => remove i s) ids s, []).
Proof.
  induction ids as [|j ids IH]; intros s HN HA; [reflexivity|]. cbn [rem_all fold_left].
  inversion HN as [|? ? N1 N2]; subst.
  destruct (find j (objs s)) as [o|] eqn:E; [|exfalso; apply (HA j); [left; reflexivity|exact E]].
  apply IH; [exact N2|]. intros j' Hj. cbn. rewrite find_filter. destruct (Nat.eqb_spec j' j); [congruence|].
  apply HA. right; exact Hj.
Qed.
Lemma fold_remove ids : forall (s : st), objs (fold_left (fun s i => remove i s) ids s) =
  filter (fun o => negb (existsb (Nat.eqb (oid o)) ids)) (objs s).
Proof.
  induction ids as [|i ids IH]; intros s; cbn [fold_left existsb].
  - induction (objs s) as [|o l IHl]; [reflexivity|]. cbn. f_equal. exact IHl.
  - rewrite IH. cbn. induction (objs s) as [|o l IHl]; cbn; [reflexivity|].
    destruct (oid o =? i); cbn; rewrite IHl; reflexivity.
Qed.
Lemma fold_other ids : forall (s : st), gens (fold_left (fun s i => remove i s) ids s) = gens s /\
  rem (fold_left (fun s i => remove i s) ids s) = rem s /\
  exist (fold_left (fun s i => remove i s) ids s) = exist s /\
  over (fold_left (fun s i => remove i s) ids s) = over s.
Proof. induction ids as [|i ids IH]; intros s; cbn [fold_left]; [auto|]. apply (IH (remove i s)). Qed.

(** *** Removing an object nobody waits for *)
Definition insp_of (g : @gen A) : list nat :=
  match g with GLoop l | GFill l | GHold l _ => l | _ => [] end.
(** No running generator inspects [i], and [i] is registered with 'none' if at all. *)
Definition unwatched (i : nat) (s : st) : Prop :=
  (forall j, ~ In i (insp_of (gens s j))) /\
  (forall o, In o (objs s) -> oid o = i -> otreat o = TNone).

Lemma to_inspect_not i (l : list obj) : (forall o, In o l -> oid o = i -> otreat o = TNone) ->
  ~ In i (to_inspect l).
Proof.
  intros H C. unfold to_inspect in C. apply in_map_iff in C as (o & E & C).
  apply filter_In in C as (C1 & C2). rewrite (H o C1 E) in C2. discriminate.
Qed.
Lemma unwatched_setg i k g (s s' : st) : unwatched i s -> gens s' = setg k g (gens s) -> ~ In i (insp_of g) ->
  (forall o, In o (objs s') -> oid o = i -> otreat o = TNone) -> unwatched i s'.
Proof.
  intros (H1 & H2) E N O. split; [|exact O]. intros j. rewrite E. unfold setg.
  destruct (j =? k); auto.
Qed.
Lemma unwatched_micro i k s : unwatched i s -> unwatched i (fst (micro src k s)).
Proof.
  intros U. pose proof U as (H1 & H2). unfold micro.
  assert (T : ~ In i (to_inspect (objs s))) by (apply to_inspect_not; exact H2).
  pose proof (H1 k) as Hk.
  destruct (gens s k) as [|num|insp|insp|insp b|] eqn:G; cbn [insp_of] in Hk; cbn [fst]; auto.
  - destruct (find k (objs s)); [destruct (exist s)|]; cbn [fst];
      eapply unwatched_setg; try exact U; try reflexivity; cbn; auto.
    intros o0 C. apply in_map_iff in C as (o' & <- & C). cbn. auto.
  - destruct (over s); cbn [fst]; [eapply unwatched_setg; try exact U; try reflexivity; cbn; auto|].
    destruct (find k (objs s)) as [o|]; cbn [fst]; [|eapply unwatched_setg; try exact U; try reflexivity; cbn; auto].
    destruct (obuf o); cbn [fst].
    + destruct (inspect _ _ _ _) as [[ov w]|]; cbn [fst]; eapply unwatched_setg; try exact U; try reflexivity; cbn; auto.
    + split; cbn; [exact H1|]. intros o' C E. unfold upd_obj in C. apply in_map_iff in C as (o2 & E2 & C).
      destruct (oid o2 =? k); subst o'; cbn in *; auto.
  - destruct (rem s); cbn [fst]; eapply unwatched_setg; try exact U; try reflexivity; cbn; auto.
  - eapply unwatched_setg; try exact U; try reflexivity; cbn; auto.
    intros o0 C. apply in_map_iff in C as (o' & <- & C). cbn. auto.
Qed.
Lemma unwatched_go i fuel : forall k s, unwatched i s -> unwatched i (fst (go src fuel k s)).
Proof.
  induction fuel as [|fuel IH]; intros k s U; cbn [go]; [exact U|].
  pose proof (unwatched_micro i k s U) as H1. destruct (micro src k s) as [s1 e]; cbn [fst snd] in *.
  destruct (existsb ends e); [exact H1|]. specialize (IH k s1 H1).
  destruct (go src fuel k s1) as [s2 e2]; exact IH.
Qed.
Lemma unwatched_reg i ids mx t : (In i ids -> t = TNone) -> forall s, unwatched i s ->
  unwatched i (fst (reg_all ids mx t s)).
Proof.
  induction ids as [|j ids IH]; intros HT s U; cbn [reg_all]; [exact U|].
  destruct (find j (objs s)); [exact U|]. apply IH; [intros C; apply HT; right; exact C|].
  destruct U as (U1 & U2). split; cbn; [exact U1|].
  intros o C E. apply in_app_or in C as [C|[<-|[]]]; [auto|]. cbn in *. apply HT. left; exact E.
Qed.
Lemma unwatched_rem i ids : forall s, unwatched i s -> unwatched i (fst (rem_all ids s)).
Proof.
  induction ids as [|j ids IH]; intros s U; cbn [rem_all]; [exact U|].
  destruct (find j (objs s)); [|exact U]. apply IH. destruct U as (U1 & U2). split; cbn; [exact U1|].
  intros o0 C E. apply filter_In in C as (C & _). auto.
Qed.
Lemma unwatched_xexec i o s : only_none i o -> unwatched i s -> unwatched i (fst (xexec o s)).
Proof.
  intros HT U. destruct o as [[k num|k]|ids mx t|ids]; cbn [xexec exec].
  - eapply unwatched_setg; try exact U; try reflexivity; cbn; [auto|]. apply U.
  - apply unwatched_go; exact U.
  - apply unwatched_reg; assumption.
  - apply unwatched_rem; assumption.
Qed.
Lemma unwatched_xrun i ops : forall s, Forall (only_none i) ops -> unwatched i s -> unwatched i (fst (xrun ops s)).
Proof.
  induction ops as [|o ops IH]; intros s HT U; cbn [xrun]; [exact U|].
  inversion HT as [|? ? T1 T2]; subst. pose proof (unwatched_xexec i o s T1 U) as H1.
  destruct (xexec o s) as [s1 e]; cbn [fst snd] in *. specialize (IH s1 T2 H1).
  destruct (xrun ops s1); exact IH.
Qed.
Lemma xstart_unwatched i bs : unwatched i (xstart bs).
Proof. split; cbn; [intros _ []|intros o []]. Qed.

(** [s'] is [s] without object [i]. *)
Definition without (i : nat) (s s' : st) : Prop :=
  objs s' = filter (fun o => negb (oid o =? i)) (objs s) /\ bsize s' = bsize s /\
  exist s' = exist s /\ over s' = over s /\ rem s' = rem s /\ gens s' = gens s.

Lemma filter_mapid i (f : obj -> obj) l : (forall o, oid (f o) = oid o) ->
  filter (fun o => negb (oid o =? i)) (map f l) = map f (filter (fun o => negb (oid o =? i)) l).
Proof.
  intros H. induction l as [|o l IH]; cbn; [reflexivity|]. rewrite H.
  destruct (oid o =? i); cbn; rewrite IH; reflexivity.
Qed.
Lemma inspect_without i bs (l : list obj) insp : ~ In i insp -> forall ov,
  inspect bs (filter (fun o => negb (oid o =? i)) l) insp ov = inspect bs l insp ov.
Proof.
  induction insp as [|a insp IH]; intros N ov; cbn [inspect]; [reflexivity|].
  rewrite find_filter. destruct (Nat.eqb_spec a i) as [->|]; [exfalso; apply N; left; reflexivity|].
  destruct (find a l) as [o|]; [|reflexivity]. rewrite IH; [reflexivity|]. intros C; apply N; right; exact C.
Qed.
Lemma to_inspect_without i (l : list obj) : (forall o, In o l -> oid o = i -> otreat o = TNone) ->
  to_inspect (filter (fun o => negb (oid o =? i)) l) = to_inspect l.
Proof.
  unfold to_inspect. induction l as [|o l IH]; intros H; cbn; [reflexivity|].
  assert (H' : forall o, In o l -> oid o = i -> otreat o = TNone) by (intros o' C; apply H; right; exact C).
  destruct (Nat.eqb_spec (oid o) i) as [E|E]; cbn.
  - rewrite (H o (or_introl eq_refl) E). auto.
  - destruct (otreat o); cbn; rewrite IH by exact H'; reflexivity.
Qed.

Lemma without_micro i k s s' : unwatched i s -> k <> i -> without i s s' ->
  without i (fst (micro src k s)) (fst (micro src k s')) /\ snd (micro src k s') = snd (micro src k s).
Proof.
  intros (U1 & U2) N (W1 & W2 & W3 & W4 & W5 & W6). unfold micro. rewrite W6.
  assert (F : find k (objs s') = find k (objs s)).
  { rewrite W1, find_filter. destruct (Nat.eqb_spec k i); [contradiction|reflexivity]. }
  assert (T : to_inspect (objs s') = to_inspect (objs s)).
  { rewrite W1. apply to_inspect_without; exact U2. }
  assert (Iq : forall ov, inspect (bsize s') (objs s') (insp_of (gens s k)) ov =
                     inspect (bsize s) (objs s) (insp_of (gens s k)) ov).
  { intros ov. rewrite W1, W2. apply inspect_without. apply U1. }
  destruct (gens s k) as [|num|insp|insp|insp b|] eqn:G; cbn [insp_of] in Iq.
  - cbn. repeat split; auto.
  - rewrite F, T, W3. destruct (find k (objs s)); [destruct (exist s) eqn:E|]; cbn; repeat split; cbn; auto; try congruence.
    all: try (rewrite W1; symmetry; apply filter_mapid; reflexivity).
  - rewrite F, W4. destruct (over s) eqn:O; [cbn; repeat split; cbn; auto; congruence|].
    destruct (find k (objs s)) as [o|]; [|cbn; repeat split; cbn; auto; congruence].
    destruct (obuf o) as [|b r].
    + rewrite Iq. destruct (inspect _ _ _ _) as [[ov w]|]; cbn; repeat split; cbn; auto; congruence.
    + cbn; repeat split; cbn; auto; try congruence. rewrite W1. unfold upd_obj. symmetry.
      apply filter_mapid. intros o'. destruct (_ =? _); reflexivity.
  - rewrite W5. destruct (rem s) as [|b r]; cbn; repeat split; cbn; auto; congruence.
  - cbn; repeat split; cbn; auto; try congruence. rewrite W1. symmetry. apply filter_mapid. reflexivity.
  - cbn. repeat split; auto.
Qed.
Lemma without_go i fuel : forall k s s', unwatched i s -> k <> i -> without i s s' ->
  without i (fst (go src fuel k s)) (fst (go src fuel k s')) /\ snd (go src fuel k s') = snd (go src fuel k s).
Proof.
  induction fuel as [|fuel IH]; intros k s s' U N W; cbn [go]; [auto|].
  pose proof (without_micro i k s s' U N W) as (H1 & H2). pose proof (unwatched_micro i k s U) as H3.
  destruct (micro src k s) as [s1 e]; destruct (micro src k s') as [s1' e']; cbn [fst snd] in *. subst e'.
  destruct (existsb ends e); [auto|]. destruct (IH k s1 s1' H3 N H1) as (H4 & H5).
  destruct (go src fuel k s1) as [s2 e2]; destruct (go src fuel k s1') as [s2' e2']; cbn [fst snd] in *.
  subst e2'. auto.
Qed.
Lemma without_reg i ids mx t : ~ In i ids -> forall s s', without i s s' ->
  without i (fst (reg_all ids mx t s)) (fst (reg_all ids mx t s')) /\
  snd (reg_all ids mx t s') = snd (reg_all ids mx t s).
Proof.
  induction ids as [|j ids IH]; intros N s s' W; cbn [reg_all]; [auto|].
  assert (F : find j (objs s') = find j (objs s)).
  { destruct W as (-> & _). rewrite find_filter. destruct (Nat.eqb_spec j i); [subst; exfalso; apply N; left; reflexivity|reflexivity]. }
  rewrite F. destruct (find j (objs s)); [auto|]. apply IH; [intros C; apply N; right; exact C|].
  destruct W as (W1 & W2). split; [|exact W2]. cbn. rewrite W1, filter_app. cbn.
  destruct (Nat.eqb_spec j i); [subst; exfalso; apply N; left; reflexivity|reflexivity].
Qed.
Lemma without_rem i ids : ~ In i ids -> forall s s', without i s s' ->
  without i (fst (rem_all ids s)) (fst (rem_all ids s')) /\ snd (rem_all ids s') = snd (rem_all ids s).
Proof.
  induction ids as [|j ids IH]; intros N s s' W; cbn [rem_all]; [auto|].
  assert (F : find j (objs s') = find j (objs s)).
  { destruct W as (-> & _). rewrite find_filter. destruct (Nat.eqb_spec j i); [subst; exfalso; apply N; left; reflexivity|reflexivity]. }
  rewrite F. destruct (find j (objs s)); [|auto]. apply IH; [intros C; apply N; right; exact C|].
  destruct W as (W1 & W2). split; [|exact W2]. cbn. rewrite W1. clear.
  induction (objs s) as [|o1 l IHl]; cbn; [reflexivity|].
  destruct (oid o1 =? i) eqn:E1, (oid o1 =? j) eqn:E2; cbn; rewrite ?E1, ?E2; cbn; rewrite ?IHl; reflexivity.
Qed.
Lemma existsb_in i l : existsb (Nat.eqb i) l = false -> ~ In i l.
Proof.
  intros H C. assert (existsb (Nat.eqb i) l = true); [|congruence].
  apply existsb_exists. exists i. split; [exact C|apply Nat.eqb_refl].
Qed.
Lemma without_xrun i ops : forall s s', unwatched i s -> without i s s' ->
  existsb (concerns i) ops = false ->
  snd (xrun ops s') = snd (xrun ops s).
Proof.
  induction ops as [|o ops IH]; intros s s' U W N; cbn [xrun]; [reflexivity|].
  cbn in N. apply orb_false_iff in N as (N1 & N2).
  assert (H : without i (fst (xexec o s)) (fst (xexec o s')) /\ snd (xexec o s') = snd (xexec o s)).
  { destruct o as [[k num|k]|ids mx t|ids]; cbn [xexec exec concerns] in *.
    - split; [|reflexivity]. destruct W as (W1 & W2 & W3 & W4 & W5 & W6).
      repeat split; cbn; auto. rewrite W6. reflexivity.
    - unfold next_call.
      assert (E : fuel_of src k s' = fuel_of src k s).
      { destruct W as (W1 & W2 & W3 & W4 & W5 & W6). unfold fuel_of. rewrite W5, W6. reflexivity. }
      rewrite E. apply without_go; auto. apply Nat.eqb_neq. exact N1.
    - apply without_reg; [apply existsb_in; exact N1|exact W].
    - destruct ids as [|j ids]; [discriminate|]. unfold remove_object.
      apply without_rem; [apply existsb_in; exact N1|exact W]. }
  assert (U' : unwatched i (fst (xexec o s))).
  { apply unwatched_xexec; [|exact U]. destruct o as [|ids mx t|]; cbn; auto.
    intros C. cbn in N1. exfalso. apply (existsb_in _ _ N1 C). }
  destruct (xexec o s) as [s1 e]; destruct (xexec o s') as [s1' e']; cbn [fst snd] in *.
  destruct H as (H1 & H2). subst e'. specialize (IH s1 s1' U' H1 N2).
  destruct (xrun ops s1) as [s2 e2]; destruct (xrun ops s1') as [s2' e2']; cbn [fst snd] in *. congruence.
Qed.

(** *** An object registered later gets everything from then on *)
Definition full (i mx k : nat) (s : st) (R F : list A) : Prop :=
  length F <= mx ->
  exists o F', find i (objs s) = Some o /\ omax o = mx /\ R ++ obuf o = F' /\
    F = F' ++ hold (gens s k) /\ forall j, j <> k -> hold (gens s j) = [].

Lemma full_micro i mx k s R F : created (snd (micro src k s)) = [] -> full i mx k s R F ->
  full i mx k (fst (micro src k s)) (R ++ received i (snd (micro src k s)))
       (F ++ fetched (snd (micro src k s))).
Proof.
  intros HC H. unfold full. intros HL.
  destruct H as (o & F' & HO & HM & HR & HF & HG); [rewrite app_length in HL; lia|].
  revert HC HL. unfold micro.
  assert (HK : forall g, (forall j, j <> k -> hold (setg k g (gens s) j) = [])).
  { intros g j Hj. rewrite setg_other by auto. auto. }
  destruct (gens s k) as [|num|insp|insp|insp b|] eqn:G; cbn [hold] in HF; try rewrite app_nil_r in HF; subst F.
  - intros _ _. exists o, F'. cbn. rewrite G. cbn. rewrite !app_nil_r. repeat split; auto.
  - destruct (find k (objs s)) as [o'|] eqn:E.
    + destruct (exist s); cbn; [|discriminate].
      intros _ _. exists o, F'. rewrite setg_same. cbn. rewrite !app_nil_r. repeat split; auto.
    + intros _ _. exists o, F'. cbn. rewrite setg_same. cbn. rewrite !app_nil_r. repeat split; auto.
  - destruct (over s) eqn:O.
    + intros _ _. exists o, F'. cbn. rewrite setg_same. cbn. rewrite !app_nil_r. repeat split; auto.
    + destruct (find k (objs s)) as [o'|] eqn:E.
      2:{ intros _ _. exists o, F'. cbn. rewrite setg_same. cbn. rewrite !app_nil_r. repeat split; auto. }
      destruct (obuf o') as [|b r] eqn:B.
      * destruct (inspect (bsize s) (objs s) insp false) as [[ov w]|] eqn:Iq.
        -- destruct (inspect_silent _ _ _ _ _ _ Iq) as (W1 & W2 & _).
           intros _ _. exists o, F'. cbn [fst snd]. rewrite W1, W2, !app_nil_r. cbn [gens objs]. rewrite setg_same. cbn.
           rewrite app_nil_r. repeat split; auto.
        -- intros _ _. exists o, F'. cbn. rewrite setg_same. cbn. rewrite !app_nil_r. repeat split; auto.
      * intros _ _. cbn. rewrite G. cbn. rewrite app_nil_r.
        destruct (Nat.eqb_spec k i) as [->|N].
        -- exists (set_buf r o), F'. rewrite find_upd, HO. cbn. rewrite Nat.eqb_refl.
           assert (o' = o) by congruence. subst o'. rewrite B in HR.
           repeat split; auto; cbn. { rewrite <- app_assoc. exact HR. } rewrite app_nil_r. reflexivity.
        -- exists o, F'. rewrite find_upd, HO. cbn. destruct (Nat.eqb_spec i k); [congruence|].
           rewrite !app_nil_r. repeat split; auto.
  - destruct (rem s) as [|b r] eqn:E; cbn; intros _ _; exists o, F'; rewrite setg_same; cbn; rewrite !app_nil_r; repeat split; auto.
  - cbn. rewrite !app_nil_r. intros _ HL. exists (push b o), (F' ++ [b]). cbn. rewrite setg_same. cbn.
    rewrite find_map_id, HO by reflexivity. cbn. rewrite !app_nil_r.
    repeat split; auto.
    rewrite app_length in HL. cbn in HL.
    assert (length F' = length R + length (obuf o)) by (rewrite <- HR, app_length; reflexivity).
    replace (length (obuf o) + 1 - omax o) with 0 by lia. cbn. rewrite app_assoc, HR. reflexivity.
  - intros _ _. exists o, F'. cbn. rewrite G. cbn. rewrite !app_nil_r. repeat split; auto.
Qed.
Lemma full_go fuel : forall i mx k s R F, created (snd (go src fuel k s)) = [] -> full i mx k s R F ->
  full i mx k (fst (go src fuel k s)) (R ++ received i (snd (go src fuel k s)))
       (F ++ fetched (snd (go src fuel k s))).
Proof.
  induction fuel as [|fuel IH]; intros i mx k s R F HC H; cbn [go] in *.
  - cbn. rewrite !app_nil_r. exact H.
  - pose proof (full_micro i mx k s R F) as H1.
    destruct (micro src k s) as [s1 e]; cbn [fst snd] in *.
    destruct (existsb ends e); cbn [fst snd] in *; [auto|].
    specialize (IH i mx k s1 (R ++ received i e) (F ++ fetched e)).
    destruct (go src fuel k s1) as [s2 e2]; cbn [fst snd] in *.
    rewrite created_app in HC. apply app_eq_nil in HC as (C1 & C2).
    rewrite received_app, fetched_app, !app_assoc. auto.
Qed.
Definition whole (i mx : nat) (s : st) (R F : list A) : Prop :=
  length F <= mx -> exists o, find i (objs s) = Some o /\ omax o = mx /\ R ++ obuf o = F.
Definition removes (i : nat) (o : xop) : bool :=
  match o with Rem [] => true | Rem ids => existsb (Nat.eqb i) ids | _ => false end.

Lemma xexec_whole i mx o s R F : calm s -> removes i o = false -> created (snd (xexec o s)) = [] ->
  whole i mx s R F ->
  whole i mx (fst (xexec o s)) (R ++ received i (snd (xexec o s))) (F ++ fetched (snd (xexec o s))).
Proof.
  intros HQ HR HC HW. destruct o as [[k num|k]|ids m t|ids]; cbn [xexec exec] in *.
  - cbn. rewrite !app_nil_r. exact HW.
  - assert (G : full i mx k s R F).
    { intros HL. destruct (HW HL) as (o & A1 & A2 & A3). exists o, F. repeat split; auto.
      - rewrite calm_hold by auto. rewrite app_nil_r. reflexivity.
      - intros j _. apply calm_hold; auto. }
    apply (full_go (fuel_of src k s)) in G; [|exact HC].
    intros HL. destruct (G HL) as (o & F' & A1 & A2 & A3 & A4 & _). exists o.
    split; [exact A1|]. split; [exact A2|]. refine (eq_trans A3 _).
    rewrite (calm_hold (fst (go _ _ _ _))) in A4 by (apply next_calm; exact HQ).
    rewrite app_nil_r in A4. symmetry. exact A4.
  - destruct (reg_log ids m t s) as (H2 & H3 & _). rewrite H2, H3, !app_nil_r.
    intros HL. destruct (HW HL) as (o & A1 & A2 & A3). exists o. repeat split; auto.
    clear - A1. revert s A1. induction ids as [|j ids IH]; intros s A1; cbn [reg_all]; [exact A1|].
    destruct (find j (objs s)) eqn:E; [exact A1|]. apply IH. rewrite find_register by exact E.
    destruct (Nat.eqb_spec i j); [congruence|exact A1].
  - destruct ids as [|j ids]; [discriminate|]. unfold remove_object. cbn [removes] in HR. set (l := j :: ids) in *.
    destruct (rem_log l s) as (H2 & H3 & _). rewrite H2, H3, !app_nil_r.
    intros HL. destruct (HW HL) as (o & A1 & A2 & A3). exists o. repeat split; auto.
    rewrite rem_keys; [exact A1|congruence|apply existsb_in; exact HR].
Qed.
Lemma xrun_whole i mx ops : forall s R F, calm s -> existsb (removes i) ops = false ->
  created (snd (xrun ops s)) = [] -> whole i mx s R F ->
  whole i mx (fst (xrun ops s)) (R ++ received i (snd (xrun ops s))) (F ++ fetched (snd (xrun ops s))).
Proof.
  induction ops as [|o ops IH]; intros s R F HQ HR HC HW; cbn [xrun] in *.
  - cbn. rewrite !app_nil_r. exact HW.
  - cbn in HR. apply orb_false_iff in HR as (R1 & R2).
    pose proof (xexec_whole i mx o s R F HQ R1) as H1.
    assert (HQ1 : calm (fst (xexec o s))).
    { apply (xexec_good i o s [] (buf_of i s) HQ). apply subseq_refl. }
    destruct (xexec o s) as [s1 e]; cbn [fst snd] in *.
    specialize (IH s1 (R ++ received i e) (F ++ fetched e) HQ1 R2).
    destruct (xrun ops s1) as [s2 e2]; cbn [fst snd] in *.
    rewrite created_app in HC. apply app_eq_nil in HC as (C1 & C2).
    rewrite received_app, fetched_app, !app_assoc. auto.
Qed.
End Dyn.
