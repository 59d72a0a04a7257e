(** Digests: the identification of configurations by strings (internal.py). *)
From Coq Require Import List Arith Lia Bool String Ascii DecimalString Decimal.
Import ListNotations.
Local Open Scope string_scope.

(** b''.join (internal.py:18, 25) *)
Definition join (l : list string) : string := fold_right append "" l.

(** The bytes that are hashed by digest (internal.py:8-17): the name of the
    class and str() of the traits in depends_on; a trait that cannot be read is
    left out (except: pass). *)
Definition message (cls : string) (fields : list (option string)) : string :=
  cls ++ join (List.concat (map (fun f => match f with Some s => [s] | None => [] end) fields)).

(** internal.py:18 *)
Definition digest (hash : string -> string) (cls : string) (fields : list (option string)) : string :=
  "_" ++ hash (message cls fields).

(** ldigest (internal.py:21-25) *)
Definition ldigest (hash : string -> string) (digests : list string) : string := "_" ++ hash (join digests).

(** str() of an int (non-negative). *)
Definition str_nat (n : nat) : string := NilEmpty.string_of_uint (Nat.to_uint n).

(** str() of a numpy array of the given rows: more than 1000 elements are
    summarised, three elements at each edge of an axis longer than six
    (numpy's default print options threshold=1000, edgeitems=3); [el]: the
    printed elements.  Line breaks are left out. *)
Definition row_str (summ : bool) (el : list string) : string :=
  if summ && (6 <? List.length el)%nat
  then "[" ++ join (firstn 3 el) ++ "..." ++ join (skipn (List.length el - 3) el) ++ "]"
  else "[" ++ join el ++ "]".
Definition array_str (rows : list (list string)) : string :=
  "[" ++ join (map (row_str (1000 <? List.length (List.concat rows))%nat) rows) ++ "]".

(* ------------------------------------------------------------------ *)
Lemma append_assoc' a b c : (a ++ b) ++ c = a ++ (b ++ c).
Proof. induction a; simpl; congruence. Qed.
Lemma append_len a b : String.length (a ++ b) = String.length a + String.length b.
Proof. induction a; simpl; auto. Qed.
Lemma append_inj_l a : forall b x y, String.length a = String.length b -> a ++ x = b ++ y -> a = b /\ x = y.
Proof.
  induction a as [|c a IH]; intros [|d b] x y Hl E; simpl in *; try discriminate; auto.
  injection E as E1 E2. subst. destruct (IH b x y) as [H1 H2]; [lia|exact E2|]. split; congruence.
Qed.
Lemma append_inj_r a b x : a ++ x = b ++ x -> a = b.
Proof.
  intros E. pose proof (f_equal String.length E) as L. rewrite !append_len in L.
  apply (append_inj_l a b x x) in E; [tauto|lia].
Qed.
Lemma join_app l m : join (l ++ m)%list = join l ++ join m.
Proof. induction l; simpl; [reflexivity|]. rewrite IHl. symmetry. apply append_assoc'. Qed.

(** Strings of pairwise equal lengths can be told apart. *)
Lemma join_inj l : forall m, map String.length l = map String.length m -> join l = join m -> l = m.
Proof.
  induction l as [|a l IH]; intros [|b m] Hl E; simpl in *; try discriminate; auto.
  injection Hl as H1 H2. destruct (append_inj_l a b (join l) (join m) H1 E) as [-> E2].
  f_equal. auto.
Qed.
(** ... also with one field of variable length. *)
Lemma join_inj1 l1 m1 a b l2 m2 :
  map String.length l1 = map String.length m1 -> map String.length l2 = map String.length m2 ->
  join (l1 ++ a :: l2)%list = join (m1 ++ b :: m2)%list -> (l1 ++ a :: l2)%list = (m1 ++ b :: m2)%list.
Proof.
  intros H1 H2 E. apply join_inj; [|exact E]. rewrite !map_app. simpl. rewrite H1, H2. do 2 f_equal.
  assert (forall l m, map String.length l = map String.length m -> String.length (join l) = String.length (join m)) as HL.
  { induction l as [|x l IH]; intros [|y m] Hl; simpl in *; try discriminate; auto.
    injection Hl as K1 K2. rewrite !append_len. f_equal; auto. }
  apply (f_equal String.length) in E. rewrite !join_app in E. simpl in E. rewrite !append_len in E.
  rewrite (HL _ _ H1), (HL _ _ H2) in E. lia.
Qed.

Lemma message_some cls l : message cls (map Some l) = cls ++ join l.
Proof. unfold message. f_equal. f_equal. induction l; simpl; congruence. Qed.
