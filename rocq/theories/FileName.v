(** Names of files derived from the signal chain: get_file_basename, find_basename, WriteWAV and the cache files. *)
From Coq Require Import List Arith Lia ZArith Bool String Ascii DecimalString DecimalZ DecimalPos.
Import ListNotations.
Local Open Scope string_scope.
Local Open Scope list_scope.
Local Open Scope nat_scope.

(** A path as characters: its components, empty ones and '.' left out as pathlib does (a path without drive letters, separators '/') *)
Fixpoint split_on (sep : ascii) (l : list ascii) : list (list ascii) :=
  match l with
  | [] => [[]]
  | c :: l' => if Ascii.eqb c sep then [] :: split_on sep l'
               else match split_on sep l' with [] => [[c]] | p :: r => (c :: p) :: r end
  end.
Definition kept (p : list ascii) : bool :=
  match p with [] => false | [c] => negb (Ascii.eqb c ".") | _ => true end.
Definition components (l : list ascii) : list (list ascii) := filter kept (split_on "/" l).
(** PurePath.name *)
Definition name_of (l : list ascii) : list ascii := last (components l) [].
(** str.rfind('.') *)
Fixpoint rfind (c : ascii) (l : list ascii) : option nat :=
  match l with
  | [] => None
  | d :: l' => match rfind c l' with Some i => Some (S i) | None => if Ascii.eqb d c then Some 0 else None end
  end.
(** PurePath.stem (Python before 3.14): name[:i] for 0 < i < len(name) - 1 *)
Definition stem (l : list ascii) : list ascii :=
  let name := name_of l in
  match rfind "." name with
  | Some i => if (0 <? i) && (i <? List.length name - 1) then firstn i name else name
  | None => name
  end.

(** get_file_basename, tools/utils.py:16-30 *)
Definition get_file_basename (file alternative : string) : string :=
  match stem (list_ascii_of_string file) with [] => alternative | b => string_of_list_ascii b end.

(** A chain of generators as find_basename meets it: a TimeSamples with its file, a source without basename (also SourceMixer, which has
    no attribute source), an object with a source but without a basename, a Cache. *)
Inductive chain := FileSource (file : string) | PlainSource | Through (c : chain) | Cached (c : chain).
(** find_basename, tools/utils.py:33-57, with TimeSamples._get_basename, sources.py:414-416, and Cache._get_basename, process.py:261-263 *)
Fixpoint find_basename (c : chain) (alternative : string) : string :=
  match c with
  | FileSource f => get_file_basename f "void"
  | PlainSource => alternative
  | Through c' => find_basename c' alternative
  | Cached c' => find_basename c' "void"
  end.

(** f'{nr:d}' *)
Definition decimal (z : Z) : string := NilZero.string_of_int (Z.to_int z).
(** The name that WriteWAV.save chooses when none is given, tprocess.py:1798-1821 *)
Definition wav_name (c : chain) (channels : list Z) : string :=
  append (fold_left (fun name nr => append name (decimal nr)) channels (find_basename c "void")) ".wav".
(** * Lemmas *)
Lemma append_assoc (a b c : string) : append (append a b) c = append a (append b c).
Proof. induction a as [|x a IH]; [reflexivity|]. cbn. now rewrite IH. Qed.
Lemma append_cancel (a b c : string) : append a b = append a c -> b = c.
Proof. induction a as [|x a IH]; [exact (fun H => H)|]. cbn. intros H. injection H as H. now apply IH. Qed.
Lemma append_length a b : String.length (append a b) = String.length a + String.length b.
Proof. induction a as [|x a IH]; [reflexivity|]. cbn. now rewrite IH. Qed.
Lemma append_cancel_r : forall (a b c : string), append a c = append b c -> a = b.
Proof.
  induction a as [|x a IH]; intros b c H.
  - destruct b as [|y b]; [reflexivity|]. apply (f_equal String.length) in H. cbn in H. rewrite append_length in H. lia.
  - destruct b as [|y b]; [apply (f_equal String.length) in H; cbn in H; rewrite append_length in H; lia|].
    cbn in H. injection H as -> H. f_equal. now apply IH with c.
Qed.
Definition digits (channels : list Z) : string := fold_right (fun nr s => append (decimal nr) s) EmptyString channels.
Lemma fold_digits channels : forall b, fold_left (fun name nr => append name (decimal nr)) channels b = append b (digits channels).
Proof.
  induction channels as [|z l IH]; intros b; cbn [fold_left digits fold_right].
  - induction b as [|x b J]; [reflexivity|]. cbn. now rewrite <- J.
  - rewrite IH, append_assoc. reflexivity.
Qed.

Lemma to_int_nonnil z : Z.to_int z <> Decimal.Pos Decimal.Nil /\ Z.to_int z <> Decimal.Neg Decimal.Nil.
Proof.
  destruct z as [|p|p]; cbn; split; try discriminate; intros H; injection H; apply DecimalPos.Unsigned.to_uint_nonnil.
Qed.
Lemma decimal_inj a b : decimal a = decimal b -> a = b.
Proof.
  intros H. apply (f_equal NilZero.int_of_string) in H. unfold decimal in H. destruct (to_int_nonnil a), (to_int_nonnil b).
  rewrite !NilZero.isi in H by assumption. injection H as H. apply (f_equal Z.of_int) in H. now rewrite !DecimalZ.of_to in H.
Qed.
Lemma decimal_digit z : (0 <= z <= 9)%Z -> exists c, decimal z = String c EmptyString.
Proof.
  intros H. assert (C : In z [0; 1; 2; 3; 4; 5; 6; 7; 8; 9]%Z) by (cbn; lia).
  cbn in C. repeat (destruct C as [<-|C]; [eexists; reflexivity|]). destruct C.
Qed.
Lemma digits_inj : forall a b, (forall z, In z a -> (0 <= z <= 9)%Z) -> (forall z, In z b -> (0 <= z <= 9)%Z) ->
  digits a = digits b -> a = b.
Proof.
  induction a as [|x a IH]; intros [|y b] HA HB H; try reflexivity.
  - destruct (decimal_digit y) as [c C]; [apply HB; now left|]. cbn [digits fold_right] in H. rewrite C in H. discriminate.
  - destruct (decimal_digit x) as [c C]; [apply HA; now left|]. cbn [digits fold_right] in H. rewrite C in H. discriminate.
  - destruct (decimal_digit x) as [c C]; [apply HA; now left|]. destruct (decimal_digit y) as [d D]; [apply HB; now left|].
    cbn [digits fold_right] in H. rewrite C, D in H. cbn in H. injection H as -> H. f_equal.
    + apply decimal_inj. congruence.
    + apply IH; [intros z Z; apply HA; now right|intros z Z; apply HB; now right|exact H].
Qed.

Lemma split_none sep : forall l, ~ In sep l -> split_on sep l = [l].
Proof.
  induction l as [|c l IH]; intros H; [reflexivity|]. cbn [split_on]. destruct (Ascii.eqb_spec c sep) as [->|N]; [exfalso; apply H; now left|].
  rewrite IH; [reflexivity|]. intros K. apply H. now right.
Qed.
Lemma split_nonempty sep l : split_on sep l <> [].
Proof. destruct l as [|c l]; cbn; [discriminate|]. destruct (Ascii.eqb c sep); [discriminate|]. destruct (split_on sep l); discriminate. Qed.
Lemma split_app sep : forall a b, split_on sep (a ++ sep :: b) = split_on sep a ++ split_on sep b.
Proof.
  induction a as [|c a IH]; intros b; cbn [split_on app].
  - now rewrite Ascii.eqb_refl.
  - destruct (Ascii.eqb c sep); [now rewrite IH|]. rewrite IH. assert (N := split_nonempty sep a). now destruct (split_on sep a).
Qed.
Lemma name_of_plain l : ~ In "/"%char l -> kept l = true -> name_of l = l.
Proof. intros N K. unfold name_of, components. rewrite split_none by exact N. cbn. now rewrite K. Qed.
Lemma last_snoc {A} (l : list A) x d : last (l ++ [x]) d = x.
Proof. induction l as [|y l IH]; [reflexivity|]. cbn. destruct (l ++ [x]) eqn:E; [destruct l; discriminate|]. exact IH. Qed.
Lemma name_of_below d l : ~ In "/"%char l -> kept l = true -> name_of (d ++ "/"%char :: l) = l.
Proof.
  intros N K. unfold name_of, components. rewrite split_app, (split_none _ l) by exact N. rewrite filter_app. cbn. rewrite K. apply last_snoc.
Qed.
Lemma rfind_none c b : ~ In c b -> rfind c b = None.
Proof.
  intros H. induction b as [|d b IH]; [reflexivity|]. cbn. rewrite IH by (intros K; apply H; now right).
  destruct (Ascii.eqb_spec d c) as [->|N]; [exfalso; apply H; now left|reflexivity].
Qed.
Lemma rfind_last c : forall a b, ~ In c b -> rfind c (a ++ c :: b) = Some (List.length a).
Proof.
  intros a b H. assert (R := rfind_none c b H).
  induction a as [|x a IH]; cbn; [now rewrite R, Ascii.eqb_refl|]. now rewrite IH.
Qed.
Lemma stem_name l n e : name_of l = n ++ "."%char :: e -> ~ In "."%char e -> n <> [] -> e <> [] -> stem l = n.
Proof.
  intros H N A B. unfold stem. rewrite H, rfind_last by exact N. rewrite app_length. cbn [List.length].
  replace (0 <? List.length n) with true by (symmetry; apply Nat.ltb_lt; destruct n; [congruence|cbn; lia]).
  replace (List.length n <? List.length n + S (List.length e) - 1) with true
    by (symmetry; apply Nat.ltb_lt; destruct e; [congruence|cbn; lia]).
  cbn [andb]. rewrite firstn_app, firstn_all, Nat.sub_diag. cbn. apply app_nil_r.
Qed.
