(** Cached properties, memo tables, deprecated aliases. *)
From Coq Require Import List Arith Lia ZArith Bool Reals Lra.
From Verif Require Import Stream Grids Result.
Import ListNotations.
Local Open Scope nat_scope.

(** * Cached properties *)
(** traits: a property with @cached_property or @property_depends_on keeps its
    value until one of the attributes in depends_on changes; assigning an equal
    value is no change.  depends_on on other properties is written out down to
    attributes. *)
Inductive val := Num (x : R) | Int (z : Z) | Flag (b : bool).
Lemma val_eq_dec (a b : val) : {a = b} + {a <> b}.
Proof. decide equality; [apply Req_EM_T|apply Z.eq_dec|apply bool_dec]. Qed.

Definition attrs := nat -> val.
Definition assign (e : attrs) (a : nat) (v : val) : attrs := fun b => if b =? a then v else e b.

Section Machine.
Context {W : Type}.

Record prop := { deps : list nat; comp : attrs -> W }.
Variable props : nat -> prop.

Record obj := mkObj { cur : attrs; cache : nat -> option W }.

Inductive op := Set_ (a : nat) (v : val) | Read (p : nat).

Definition do_op (o : op) (s : obj) : obj * list W :=
  match o with
  | Set_ a v =>
      if val_eq_dec (cur s a) v then (s, [])
      else (mkObj (assign (cur s) a v)
              (fun p => if existsb (Nat.eqb a) (deps (props p)) then None else cache s p), [])
  | Read p =>
      match cache s p with
      | Some w => (s, [w])
      | None => let w := comp (props p) (cur s) in
                (mkObj (cur s) (fun q => if q =? p then Some w else cache s q), [w])
      end
  end.
Fixpoint history (l : list op) (s : obj) : obj * list W :=
  match l with
  | [] => (s, [])
  | o :: l' => let (s1, w1) := do_op o s in
               let (s2, w2) := history l' s1 in (s2, w1 ++ w2)
  end.

(** What the user expects: every read is calculated from the attributes of the
    moment. *)
Fixpoint expected (l : list op) (e : attrs) : list W :=
  match l with
  | [] => []
  | Set_ a v :: l' => expected l' (assign e a v)
  | Read p :: l' => comp (props p) e :: expected l' e
  end.

(** The calculation uses only attributes in depends_on. *)
Definition covered (p : prop) : Prop :=
  forall e e', (forall a, In a (deps p) -> e a = e' a) -> comp p e = comp p e'.

Definition valid (s : obj) (e : attrs) : Prop :=
  (forall a, cur s a = e a) /\ forall p w, cache s p = Some w -> w = comp (props p) e.

Lemma covered_ext p : covered p -> forall e e', (forall a, e a = e' a) -> comp p e = comp p e'.
Proof. intros H e e' He. apply H. auto. Qed.

Lemma history_fresh l : (forall p, covered (props p)) -> forall s e, valid s e ->
  snd (history l s) = expected l e.
Proof.
  intros Hc. induction l as [|o l IH]; intros s e [Ha Hv]; [reflexivity|].
  destruct o as [a v|p]; cbn [history do_op expected].
  - destruct (val_eq_dec (cur s a) v) as [E|E].
    + rewrite <- (IH s (assign e a v)).
      * destruct (history l s). reflexivity.
      * assert (forall b, e b = assign e a v b) as Hb.
        { intros b. unfold assign. destruct (b =? a) eqn:Eb; auto.
          apply Nat.eqb_eq in Eb. subst. rewrite <- Ha. auto. }
        split; [intros b; rewrite Ha; apply Hb|].
        intros p w Hw. rewrite (Hv p w Hw). apply covered_ext; auto.
    + match goal with |- context [history l ?x] => rewrite <- (IH x (assign e a v)); [destruct (history l x); reflexivity|] end.
      split; simpl.
      * intros b. unfold assign. destruct (b =? a); auto.
      * intros p w Hw. destruct (existsb (Nat.eqb a) (deps (props p))) eqn:Ed; [discriminate|].
        rewrite (Hv p w Hw). apply Hc. intros b Hb. unfold assign. destruct (b =? a) eqn:Eb; auto.
        apply Nat.eqb_eq in Eb. subst b.
        assert (existsb (Nat.eqb a) (deps (props p)) = true) as K.
        { apply existsb_exists. exists a. split; [exact Hb|apply Nat.eqb_refl]. }
        congruence.
  - destruct (cache s p) as [w|] eqn:Ew.
    + rewrite <- (IH s e) by (split; auto). destruct (history l s). simpl. f_equal. apply (Hv p w Ew).
    + match goal with |- context [history l ?x] => rewrite <- (IH x e); [destruct (history l x)|] end.
      * simpl. f_equal. apply covered_ext; auto.
      * split; [exact Ha|]. simpl. intros q w. destruct (q =? p) eqn:Eq.
        -- apply Nat.eqb_eq in Eq. subst. intros [= <-]. apply covered_ext; auto.
        -- apply Hv.
Qed.

(** A property whose calculation uses an attribute that is not in depends_on
    is stale after read, assignment, read. *)
Lemma history_stale p a v e : ~ In a (deps (props p)) ->
  snd (history [Read p; Set_ a v; Read p] (mkObj e (fun _ => None)))
  = [comp (props p) e; comp (props p) e].
Proof.
  intros Hn. cbn [history do_op cache cur]. destruct (val_eq_dec (e a) v).
  - cbn [history do_op cache]. rewrite Nat.eqb_refl. reflexivity.
  - cbn [history do_op cache].
    replace (existsb (Nat.eqb a) (deps (props p))) with false; [rewrite Nat.eqb_refl; reflexivity|].
    symmetry. apply not_true_is_false. intros E. apply existsb_exists in E. destruct E as (b & Hb & E).
    apply Nat.eqb_eq in E. subst. auto.
Qed.

(** If one attribute [x] is missing in depends_on and never set, the reads are
    right. *)
Definition covered_but (x : nat) (p : prop) : Prop :=
  forall e e', (forall a, In a (deps p) \/ a = x -> e a = e' a) -> comp p e = comp p e'.
Definition sets (x : nat) (o : op) : bool := match o with Set_ a _ => a =? x | Read _ => false end.
Lemma history_but x l : (forall p, covered_but x (props p)) -> existsb (sets x) l = false ->
  forall s e, valid s e -> snd (history l s) = expected l e.
Proof.
  intros Hc. induction l as [|o l IH]; intros Hx s e [Ha Hv]; [reflexivity|].
  cbn [existsb] in Hx. apply orb_false_iff in Hx as (Hx1 & Hx2). specialize (IH Hx2).
  assert (EX : forall p e e', (forall a, e a = e' a) -> comp (props p) e = comp (props p) e').
  { intros p e0 e' He. apply Hc. auto. }
  destruct o as [a v|p]; cbn [history do_op expected].
  - cbn in Hx1. apply Nat.eqb_neq in Hx1.
    destruct (val_eq_dec (cur s a) v) as [E|E].
    + rewrite <- (IH s (assign e a v)).
      * destruct (history l s). reflexivity.
      * assert (forall b, e b = assign e a v b) as Hb.
        { intros b. unfold assign. destruct (b =? a) eqn:Eb; auto.
          apply Nat.eqb_eq in Eb. subst. rewrite <- Ha. auto. }
        split; [intros b; rewrite Ha; apply Hb|].
        intros p w Hw. rewrite (Hv p w Hw). apply EX; auto.
    + match goal with |- context [history l ?x] => rewrite <- (IH x (assign e a v)); [destruct (history l x); reflexivity|] end.
      split; simpl.
      * intros b. unfold assign. destruct (b =? a); auto.
      * intros p w Hw. destruct (existsb (Nat.eqb a) (deps (props p))) eqn:Ed; [discriminate|].
        rewrite (Hv p w Hw). apply Hc. intros b Hb. unfold assign. destruct (b =? a) eqn:Eb; auto.
        apply Nat.eqb_eq in Eb. subst b. destruct Hb as [Hb|Hb]; [|congruence].
        assert (existsb (Nat.eqb a) (deps (props p)) = true) as K.
        { apply existsb_exists. exists a. split; [exact Hb|apply Nat.eqb_refl]. }
        congruence.
  - destruct (cache s p) as [w|] eqn:Ew.
    + rewrite <- (IH s e) by (split; auto). destruct (history l s). simpl. f_equal. apply (Hv p w Ew).
    + match goal with |- context [history l ?x] => rewrite <- (IH x e); [destruct (history l x)|] end.
      * simpl. f_equal. apply EX; auto.
      * split; [exact Ha|]. simpl. intros q w. destruct (q =? p) eqn:Eq.
        -- apply Nat.eqb_eq in Eq. subst. intros [= <-]. apply EX; auto.
        -- apply Hv.
Qed.
End Machine.
Arguments prop : clear implicits.
Arguments obj : clear implicits.
Arguments Build_prop {W} _ _.

(** ** The properties of the classes *)
Definition num (v : val) : R := match v with Num x => x | _ => 0%R end.
Definition int (v : val) : Z := match v with Int z => z | _ => 0%Z end.
Definition flag (v : val) : bool := match v with Flag b => b | _ => false end.

(** RectGrid.pos (grids.py:443-451); attributes: 0 x_min, 1 x_max, 2 y_min,
    3 y_max, 4 z, 5 increment; the decorator names all but z. *)
Definition rectgrid_pos : prop (list pt) :=
  Build_prop [0; 1; 2; 3; 5]
    (fun e => rect_pos (num (e 0)) (num (e 1)) (num (e 2)) (num (e 3)) (num (e 4)) (num (e 5))).
(** The same if traits also keeps the dependence on digest
    (grids.py:346, 413-415) that is declared in the base class. *)
Definition rectgrid_pos_inherited : prop (list pt) :=
  Build_prop [0; 1; 2; 3; 4; 5] (comp rectgrid_pos).

(** rfftfreq: frequencies for block size n (spectra.py:145-155) *)
Definition fftfreq (fs : R) (n : Z) : list R :=
  map (fun k => (INR k * fs / IZR n)%R) (seq 0 (S (Z.to_nat n / 2))).

(** PowerSpectra.ind_low (spectra.py:305-312); attributes: 0 source.sample_freq,
    1 block_size, 2 _ind_low, 3 _freqlc, 4 _index_set_last; the decorator names
    all but the last. *)
Definition ind_low_of (fs : R) (n : Z) (ind : Z) (freqlc : R) (index_set_last : bool) : Z :=
  let f := fftfreq fs n in
  if index_set_last then Z.min ind (Z.of_nat (length f) - 1)
  else Z.of_nat (searchsorted (removelast f) freqlc).
Definition ind_low : prop Z :=
  Build_prop [0; 1; 2; 3]
    (fun e => ind_low_of (num (e 0)) (int (e 1)) (int (e 2)) (num (e 3)) (flag (e 4))).
(** _set_freq_range (spectra.py:300-303; only the lower limit), _set_ind_low
    (spectra.py:331-333) *)
Definition set_freqlc (f : R) : list op := [Set_ 4 (Flag false); Set_ 3 (Num f)].
Definition set_ind_low (i : Z) : list op := [Set_ 4 (Flag true); Set_ 2 (Int i)].

(** BeamformerEig.na (fbeamform.py:858-865); attributes: 0 the microphone
    object, 1 n, 2 its num_mics; the decorator names steer.mics and n. *)
Definition eig_na (nm n : Z) : Z := Z.min (nm - 1) (if (n <? 0)%Z then Z.max (nm + n) 0 else n).
Definition na : prop Z :=
  Build_prop [0; 1] (fun e => eig_na (int (e 2)) (int (e 1))).

(** RectGrid.nxsteps (grids.py:425-430) *)
Definition nxsteps : prop Z :=
  Build_prop [0; 1; 5] (fun e => steps (num (e 0)) (num (e 1)) (num (e 5))).
(** RectGrid.size (grids.py:417-419) *)
Definition rectgrid_size : prop Z :=
  Build_prop [0; 1; 2; 3; 5] (fun e => Z.mul (steps (num (e 0)) (num (e 1)) (num (e 5))) (steps (num (e 2)) (num (e 3)) (num (e 5)))).
(** PowerSpectra.num_blocks (spectra.py:287-289); attributes: 0
    source.num_samples, 1 block_size, 2 overlap *)
Definition num_blocks : prop R :=
  Build_prop [0; 1; 2] (fun e => let ov := num (e 2) in let n := num (e 0) in let b := num (e 1) in (ov * n / b - ov + 1)%R).

Lemma nxsteps_covered : covered nxsteps.
Proof. intros e e' H. unfold nxsteps in *. simpl in *. rewrite (H 0), (H 1), (H 5); auto. Qed.
Lemma rectgrid_size_covered : covered rectgrid_size.
Proof. intros e e' H. unfold rectgrid_size in *. simpl in *. rewrite (H 0), (H 1), (H 2), (H 3), (H 5); auto 8. Qed.
Lemma num_blocks_covered : covered num_blocks.
Proof. intros e e' H. unfold num_blocks in *. simpl in *. rewrite (H 0), (H 1), (H 2); auto. Qed.
Lemma rectgrid_pos_inherited_covered : covered rectgrid_pos_inherited.
Proof.
  intros e e' H. unfold rectgrid_pos_inherited in *. simpl in *.
  rewrite (H 0), (H 1), (H 2), (H 3), (H 4), (H 5); auto 8.
Qed.

(** * The memo table of GeneralFlowEnvironment *)
Section Memo.
(** S: everything the ray tracing uses besides the microphone position (flow
    field, c, N, Om); G: grids; T: interpolators. *)
Context {S G T : Type} (build : S -> G -> nat -> T) (eval : T -> G -> list R).

(** get_interpolator through idict (environments.py:841-850); microphones are
    numbered by position. *)
Definition lookup (s : S) (roi : option G) (gpos : G) (mic : nat) (d : list (nat * T)) : T * list (nat * T) :=
  match find (fun kv => fst kv =? mic) d with
  | Some kv => (snd kv, d)
  | None => let t := build s (match roi with Some r => r | None => gpos end) mic in (t, (mic, t) :: d)
  end.
(** _r (environments.py:833-855): the travel times, one column per microphone *)
Fixpoint travel (s : S) (roi : option G) (gpos : G) (mics : list nat) (d : list (nat * T))
  : list (list R) * list (nat * T) :=
  match mics with
  | [] => ([], d)
  | m :: ms => let (t, d1) := lookup s roi gpos m d in
               let (cols, d2) := travel s roi gpos ms d1 in (eval t gpos :: cols, d2)
  end.

Definition table_ok (s : S) (r : G) (d : list (nat * T)) : Prop :=
  forall kv, In kv d -> snd kv = build s r (fst kv).

Lemma travel_ok s r gpos mics : forall d, table_ok s r d ->
  fst (travel s (Some r) gpos mics d) = map (fun m => eval (build s r m) gpos) mics
  /\ table_ok s r (snd (travel s (Some r) gpos mics d)).
Proof.
  induction mics as [|m ms IH]; intros d Hd; [split; [reflexivity|exact Hd]|].
  cbn [travel]. unfold lookup. destruct (find _ d) as [kv|] eqn:E.
  - apply find_some in E. destruct E as [E1 E2]. apply Nat.eqb_eq in E2.
    destruct (IH d Hd) as [H1 H2]. destruct (travel _ _ _ _ _) as [cols d2]. simpl in *.
    split; [|exact H2]. f_equal; [|exact H1]. rewrite (Hd kv E1), E2. reflexivity.
  - assert (table_ok s r ((m, build s r m) :: d)) as Hd'.
    { intros kv [<-|Hk]; [reflexivity|auto]. }
    destruct (IH _ Hd') as [H1 H2]. destruct (travel _ _ _ _ _) as [cols d2]. simpl in *.
    split; [|exact H2]. f_equal. exact H1.
Qed.

(** A filled table is used whatever the settings are. *)
Lemma travel_stale s roi gpos mics : forall d, (forall m, In m mics -> exists t, find (fun kv => fst kv =? m) d = Some (m, t)) ->
  forall s' roi', travel s roi gpos mics d = travel s' roi' gpos mics d.
Proof.
  induction mics as [|m ms IH]; intros d H s' roi'; [reflexivity|]. cbn [travel]. unfold lookup.
  destruct (H m (or_introl eq_refl)) as (t & ->).
  rewrite (IH d (fun k Hk => H k (or_intror Hk)) s' roi'). reflexivity.
Qed.
End Memo.

(** * deprecated_alias *)
Inductive kind := Plain | Alias (new : nat) (ro : bool).
Definition cls := nat -> option kind.
Inductive outcome := Value (v : R) | Stored | Unknown | ReadOnly | Recursion.

(** The decorator (deprecation.py:60-81): None is the ValueError for a missing
    replacement. *)
Fixpoint decorate (table : list (nat * nat * bool)) (c : cls) : option cls :=
  match table with
  | [] => Some c
  | (old, new, ro) :: t =>
      match c new with
      | None => None
      | Some _ => decorate t (fun n => if n =? old then Some (Alias new ro) else c n)
      end
  end.

(** getattr, setattr through the accessors (deprecation.py:44-56); plain traits
    hold values (checks and listeners are not modelled). *)
Definition store_t := nat -> R.
Fixpoint getattr (fuel : nat) (c : cls) (o : store_t) (n : nat) : outcome :=
  match c n with
  | None => Unknown
  | Some Plain => Value (o n)
  | Some (Alias new _) => match fuel with 0 => Recursion | S fuel => getattr fuel c o new end
  end.
Fixpoint setattr (fuel : nat) (c : cls) (o : store_t) (n : nat) (v : R) : store_t * outcome :=
  match c n with
  | None => (o, Unknown)
  | Some Plain => (fun m => if m =? n then v else o m, Stored)
  | Some (Alias new ro) =>
      if ro then (o, ReadOnly)
      else match fuel with 0 => (o, Recursion) | S fuel => setattr fuel c o new v end
  end.
Inductive access := Get (n : nat) | Put (n : nat) (v : R).
Fixpoint accesses (fuel : nat) (c : cls) (l : list access) (o : store_t) : store_t * list outcome :=
  match l with
  | [] => (o, [])
  | Get n :: l' => let (o2, r) := accesses fuel c l' o in (o2, getattr fuel c o n :: r)
  | Put n v :: l' => let (o1, x) := setattr fuel c o n v in
                     let (o2, r) := accesses fuel c l' o1 in (o2, x :: r)
  end.

(** The new name of a name. *)
Fixpoint rename (table : list (nat * nat * bool)) (n : nat) : nat :=
  match table with
  | [] => n
  | (old, new, _) :: t => if n =? old then new else rename t n
  end.
Definition rename_access t (a : access) : access :=
  match a with Get n => Get (rename t n) | Put n v => Put (rename t n) v end.
Definition olds (t : list (nat * nat * bool)) := map (fun x => fst (fst x)) t.
Definition news (t : list (nat * nat * bool)) := map (fun x => snd (fst x)) t.
(** Is the name a read-only alias? *)
Fixpoint is_ro (table : list (nat * nat * bool)) (n : nat) : bool :=
  match table with
  | [] => false
  | (old, _, ro) :: t => if n =? old then ro else is_ro t n
  end.

Lemma decorate_spec t : forall c c', decorate t c = Some c' -> NoDup (olds t) ->
  (forall n, c' n = match List.find (fun x => fst (fst x) =? n) t with
                    | Some (_, new, ro) => Some (Alias new ro)
                    | None => c n
                    end).
Proof.
  induction t as [|[[old new] ro] t IH]; intros c c' E Hd n; simpl in *.
  - now injection E as <-.
  - destruct (c new); [|discriminate]. inversion Hd as [|? ? Hn Hd']; subst.
    rewrite (IH _ _ E Hd' n). rewrite (Nat.eqb_sym old n). destruct (n =? old) eqn:En.
    + apply Nat.eqb_eq in En. subst n.
      destruct (List.find _ t) as [x|] eqn:Ef; [|reflexivity].
      apply List.find_some in Ef. destruct Ef as [F1 F2]. apply Nat.eqb_eq in F2.
      exfalso. apply Hn. apply in_map_iff. exists x. auto.
    + reflexivity.
Qed.

Lemma rename_find t n : match List.find (fun x => fst (fst x) =? n) t with
  | Some (_, new, ro) => rename t n = new /\ is_ro t n = ro /\ In new (news t)
  | None => rename t n = n /\ is_ro t n = false
  end.
Proof.
  induction t as [|[[old new] ro] t IH]; simpl; [auto|].
  rewrite (Nat.eqb_sym old n). destruct (n =? old); [auto|].
  destruct (List.find _ t) as [[[a b] r]|]; intuition.
Qed.

Section Aliases.
Variables (table : list (nat * nat * bool)) (c c' : cls).
Hypothesis Hc : forall n k, c n = Some k -> k = Plain.
Hypothesis Hd : NoDup (olds table).
Hypothesis Hdis : forall n, In n (news table) -> ~ In n (olds table).
Hypothesis Hdec : decorate table c = Some c'.

Lemma not_old n : ~ In n (olds table) -> List.find (fun x => fst (fst x) =? n) table = None.
Proof.
  intros H. destruct (List.find _ table) as [x|] eqn:E; [|reflexivity].
  apply List.find_some in E. destruct E as [E1 E2]. apply Nat.eqb_eq in E2.
  exfalso. apply H. apply in_map_iff. eauto.
Qed.

Lemma renamed_class n : c' (rename table n) = c (rename table n).
Proof.
  rewrite (decorate_spec table c c' Hdec Hd). pose proof (rename_find table n) as H.
  destruct (List.find _ table) as [[[a b] r]|] eqn:E in H.
  - destruct H as (H1 & _ & H2). rewrite H1. rewrite not_old; auto.
  - destruct H as [-> _]. rewrite E. reflexivity.
Qed.

Lemma rename_idem n : rename table (rename table n) = rename table n.
Proof.
  pose proof (rename_find table n) as H. destruct (List.find _ table) as [[[a b] r]|] eqn:E in H.
  - destruct H as (H1 & _ & H2). rewrite H1. pose proof (rename_find table b) as K.
    rewrite not_old in K by auto. apply K.
  - destruct H as [H _]. rewrite !H. reflexivity.
Qed.

Lemma getattr_alias fuel o n : getattr (S fuel) c' o n = getattr (S fuel) c' o (rename table n).
Proof.
  pose proof (rename_find table n) as H.
  destruct (List.find _ table) as [[[a b] r]|] eqn:E in H.
  - destruct H as (H1 & _ & H2). rewrite H1. cbn [getattr].
    rewrite (decorate_spec table c c' Hdec Hd n), E.
    pose proof (renamed_class n) as Hr. rewrite H1 in Hr.
    destruct fuel; cbn [getattr]; rewrite Hr; destruct (c b) as [k|] eqn:Ek; auto;
      rewrite (Hc b k Ek); reflexivity.
  - destruct H as [-> _]. reflexivity.
Qed.

Lemma setattr_alias fuel o n v : is_ro table n = false ->
  setattr (S fuel) c' o n v = setattr (S fuel) c' o (rename table n) v.
Proof.
  intros Hro. pose proof (rename_find table n) as H.
  destruct (List.find _ table) as [[[a b] r]|] eqn:E in H.
  - destruct H as (H1 & H3 & H2). rewrite H1. cbn [setattr].
    rewrite (decorate_spec table c c' Hdec Hd n), E.
    rewrite <- H3, Hro.
    pose proof (renamed_class n) as Hr. rewrite H1 in Hr.
    destruct fuel; cbn [setattr]; rewrite Hr; destruct (c b) as [k|] eqn:Ek; auto;
      rewrite (Hc b k Ek); reflexivity.
  - destruct H as [-> _]. reflexivity.
Qed.

Lemma setattr_ro fuel o n v : is_ro table n = true -> setattr fuel c' o n v = (o, ReadOnly).
Proof.
  intros Hro. pose proof (rename_find table n) as H.
  destruct (List.find _ table) as [[[a b] r]|] eqn:E in H.
  - destruct H as (H1 & H3 & H2). rewrite Hro in H3. subst r.
    destruct fuel; cbn [setattr]; rewrite (decorate_spec table c c' Hdec Hd n), E; reflexivity.
  - destruct H as [_ H]. congruence.
Qed.

Lemma accesses_alias fuel l : forall o,
  Forall (fun a => match a with Put n _ => is_ro table n = false | Get _ => True end) l ->
  accesses (S fuel) c' l o = accesses (S fuel) c' (map (rename_access table) l) o.
Proof.
  induction l as [|[n|n v] l IH]; intros o Hf; [reflexivity| |]; inversion Hf as [|? ? H1 H2]; subst;
    cbn [accesses map rename_access].
  - rewrite (IH o H2), (getattr_alias fuel o n). reflexivity.
  - rewrite (setattr_alias fuel o n v H1).
    destruct (setattr (S fuel) c' o (rename table n) v) as [o1 x]. rewrite (IH o1 H2). reflexivity.
Qed.

(** With the new names the object behaves as without the decorator. *)
Lemma accesses_new fuel l : forall o,
  Forall (fun a => match a with Put n _ | Get n => ~ In n (olds table) end) l ->
  accesses fuel c' l o = accesses fuel c l o.
Proof.
  assert (forall n, ~ In n (olds table) -> c' n = c n) as Hn.
  { intros n Hn. rewrite (decorate_spec table c c' Hdec Hd n), not_old; auto. }
  assert (forall fuel o n, ~ In n (olds table) -> getattr fuel c' o n = getattr fuel c o n) as Hg.
  { intros f o n Ho. destruct f; cbn [getattr]; rewrite (Hn n Ho); destruct (c n) as [k|] eqn:Ek; auto;
      rewrite (Hc n k Ek); reflexivity. }
  assert (forall fuel o n v, ~ In n (olds table) -> setattr fuel c' o n v = setattr fuel c o n v) as Hs.
  { intros f o n v Ho. destruct f; cbn [setattr]; rewrite (Hn n Ho); destruct (c n) as [k|] eqn:Ek; auto;
      rewrite (Hc n k Ek); reflexivity. }
  induction l as [|[n|n v] l IH]; intros o Hf; [reflexivity| |]; inversion Hf as [|? ? H1 H2]; subst;
    cbn [accesses].
  - rewrite (IH o H2), Hg by exact H1. reflexivity.
  - rewrite Hs by exact H1. destruct (setattr fuel c o n v) as [o1 x]. rewrite (IH o1 H2). reflexivity.
Qed.
End Aliases.

(** * PowerSpectraImport *)
Section CsmImport.
(** Matrices as lists of entries (real part, imaginary part). *)
Definition mat := list (R * R).
(** real(csm).sum() + (imag(csm)**2).sum() (spectra.py:696) *)
Definition checksum (m : mat) : R :=
  (fold_right (fun z a => fst z + a) 0 m + fold_right (fun z a => snd z * snd z + a) 0 m)%R.

Context {D E : Type} (dg : R -> D) (eig : mat -> E).
Record imp := mkImp { csm : mat; csmsum : R; dcache : option D; ecache : option E }.
(** _csm = CArray(), _csmsum = Float() (spectra.py:671-674) *)
Definition fresh : imp := mkImp [] 0%R None None.
(** _set_csm (spectra.py:691-697; the check of the shape is left out): the
    checksum is that of the matrix before the assignment; digest depends on
    _csmsum (spectra.py:664), eva on digest (spectra.py:699-701). *)
Definition set_csm (m : mat) (s : imp) : imp :=
  let c := checksum (csm s) in
  if Req_EM_T c (csmsum s) then mkImp m (csmsum s) (dcache s) (ecache s)
  else mkImp m c None None.
Definition read_digest (s : imp) : imp * D :=
  match dcache s with
  | Some d => (s, d)
  | None => let d := dg (csmsum s) in (mkImp (csm s) (csmsum s) (Some d) (ecache s), d)
  end.
Definition read_eva (s : imp) : imp * E :=
  match ecache s with
  | Some e => (s, e)
  | None => let e := eig (csm s) in (mkImp (csm s) (csmsum s) (dcache s) (Some e), e)
  end.
Inductive iop := SetCsm (m : mat) | ReadDigest | ReadEva.
Definition istep (o : iop) (s : imp) : imp :=
  match o with
  | SetCsm m => set_csm m s
  | ReadDigest => fst (read_digest s)
  | ReadEva => fst (read_eva s)
  end.
Definition irun (l : list iop) (s : imp) : imp := fold_left (fun s o => istep o s) l s.

(** The matrices assigned, latest first. *)
Fixpoint assigned (l : list iop) (acc : list mat) : list mat :=
  match l with
  | [] => acc
  | SetCsm m :: l' => assigned l' (m :: acc)
  | _ :: l' => assigned l' acc
  end.

Definition inv (s : imp) (acc : list mat) : Prop :=
  csm s = match acc with m :: _ => m | [] => [] end
  /\ csmsum s = match acc with _ :: m :: _ => checksum m | _ => 0%R end
  /\ (forall d, dcache s = Some d -> d = dg (csmsum s)).

Lemma checksum_nil : checksum [] = 0%R.
Proof. unfold checksum. simpl. lra. Qed.

Lemma irun_inv l : forall s acc, inv s acc -> inv (irun l s) (assigned l acc).
Proof.
  induction l as [|o l IH]; intros s acc H; [exact H|].
  change (irun (o :: l) s) with (irun l (istep o s)).
  destruct H as (H1 & H2 & H3). destruct o as [m| |]; cbn [assigned istep]; apply IH.
  - unfold set_csm. destruct (Req_EM_T (checksum (csm s)) (csmsum s)) as [E'|E']; split; simpl; auto.
    + split; [|exact H3]. rewrite <- E', H1. destruct acc; [apply checksum_nil|reflexivity].
    + split; [|discriminate]. rewrite H1. destruct acc; [apply checksum_nil|reflexivity].
  - unfold read_digest. destruct (dcache s) as [d|] eqn:Ed; simpl; split; auto; split; auto.
    + intros d' Hd'. rewrite Ed in Hd'. apply H3. congruence.
    + simpl. intros d [= <-]. reflexivity.
  - unfold read_eva. destruct (ecache s) as [d|] eqn:Ed; simpl; split; auto.
Qed.

Lemma digest_lag l : snd (read_digest (irun l fresh))
  = dg (match assigned l [] with _ :: m :: _ => checksum m | _ => 0%R end).
Proof.
  destruct (irun_inv l fresh []) as (H1 & H2 & H3).
  - split; [reflexivity|]. split; [reflexivity|discriminate].
  - rewrite <- H2. unfold read_digest. destruct (dcache _) as [d|] eqn:Ed; simpl; auto.
Qed.

Lemma irun_app l1 l2 s : irun (l1 ++ l2) s = irun l2 (irun l1 s).
Proof. apply fold_left_app. Qed.
Lemma assigned_app l1 l2 : forall acc, assigned (l1 ++ l2) acc = assigned l2 (assigned l1 acc).
Proof. induction l1 as [|[m| |] l1 IH]; intros acc; simpl; auto. Qed.

(** The eigenvalues are recalculated after an assignment if the checksum of the
    matrix before differs from the one before that. *)
Lemma eva_fresh l m : 
  checksum (match assigned l [] with a :: _ => a | [] => [] end)
  <> match assigned l [] with _ :: b :: _ => checksum b | _ => 0%R end ->
  snd (read_eva (irun (l ++ [SetCsm m]) fresh)) = eig m.
Proof.
  intros Hn. rewrite irun_app. cbn [irun fold_left istep].
  destruct (irun_inv l fresh []) as (H1 & H2 & H3).
  { split; [reflexivity|]. split; [reflexivity|discriminate]. }
  unfold set_csm. destruct (Req_EM_T _ _) as [E'|E'].
  - exfalso. apply Hn. rewrite <- H1, <- H2. exact E'.
  - reflexivity.
Qed.
End CsmImport.
