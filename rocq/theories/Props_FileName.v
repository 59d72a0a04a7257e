(** Property C111: the names that are derived for cache and wave files. *)
From Coq Require Import List Arith Lia ZArith Bool String Ascii.
From Verif Require Import FileName.
Import ListNotations.
Local Open Scope string_scope.
Local Open Scope list_scope.

(** The basename of [directory/name.extension] is the name; a name may hold dots. *)
Theorem C111_stem directory n e alternative :
  n <> [] -> e <> [] -> ~ In "/"%char n -> ~ In "/"%char e -> ~ In "."%char e ->
  get_file_basename (string_of_list_ascii (directory ++ "/"%char :: n ++ "."%char :: e)) alternative = string_of_list_ascii n /\
  get_file_basename (string_of_list_ascii (n ++ "."%char :: e)) alternative = string_of_list_ascii n.
Proof.
  intros N E SN SE DE. assert (S : ~ In "/"%char (n ++ "."%char :: e)).
  { rewrite in_app_iff. intros [H|[H|H]]; [now apply SN|discriminate|now apply SE]. }
  assert (K : kept (n ++ "."%char :: e) = true) by (destruct n as [|a [|b n]]; [congruence|reflexivity|reflexivity]).
  unfold get_file_basename. rewrite !list_ascii_of_string_of_list_ascii.
  rewrite (stem_name _ n e) by (try assumption; now apply name_of_below).
  rewrite (stem_name _ n e) by (try assumption; now apply name_of_plain). destruct n; [congruence|split; reflexivity].
Qed.
Print Assumptions C111_stem.

(** Without an extension the whole name is the basename, also that of a hidden file; an empty path has the alternative. *)
Theorem C111_plain n alternative : ~ In "/"%char n ->
  (n <> [] -> ~ In "."%char n -> get_file_basename (string_of_list_ascii n) alternative = string_of_list_ascii n /\
     get_file_basename (string_of_list_ascii ("."%char :: n)) alternative = string_of_list_ascii ("."%char :: n)) /\
  get_file_basename "" alternative = alternative.
Proof.
  intros S. split; [|reflexivity]. intros N D. assert (R : rfind "." n = None) by (now apply rfind_none).
  assert (K : kept n = true).
  { destruct n as [|c [|d n]]; [congruence| |reflexivity]. cbn. destruct (Ascii.eqb_spec c "."%char) as [->|]; [|reflexivity]. exfalso. apply D. now left. }
  unfold get_file_basename. rewrite !list_ascii_of_string_of_list_ascii. unfold stem. split.
  - rewrite name_of_plain, R by assumption. destruct n; [congruence|reflexivity].
  - rewrite name_of_plain; [|intros [H|H]; [discriminate|now apply S]|destruct n; [congruence|reflexivity]]. cbn [rfind]. rewrite R. reflexivity.
Qed.
Print Assumptions C111_plain.

(** Where the chain begins, and whether a Cache is part of it. *)
Fixpoint origin (c : chain) : chain := match c with Through c' | Cached c' => origin c' | _ => c end.
Fixpoint has_cache (c : chain) : bool := match c with Cached _ => true | Through c' => has_cache c' | _ => false end.

(** The name follows from the origin of the chain, however many objects are in between; without a file it is the alternative, but
    behind a Cache always ["void"]. *)
Theorem C111_chain c alternative :
  (forall f, origin c = FileSource f -> find_basename c alternative = get_file_basename f "void") /\
  (origin c = PlainSource -> has_cache c = false -> find_basename c alternative = alternative) /\
  (origin c = PlainSource -> has_cache c = true -> find_basename c alternative = "void").
Proof.
  revert alternative. induction c as [f| |c IH|c IH]; intros alt; cbn [origin has_cache find_basename].
  - split; [intros g [= ->]; reflexivity|]. split; discriminate.
  - split; [discriminate|]. split; [reflexivity|discriminate].
  - apply IH.
  - destruct (IH "void") as (A & B & C). split; [exact A|]. split; [discriminate|]. intros O _. destruct (has_cache c) eqn:E; [now apply C|now apply B].
Qed.
Print Assumptions C111_chain.

(** Exports of different single channels have different names, and so have exports of different channels below ten. *)
Theorem C111_single c i j : wav_name c [i] = wav_name c [j] -> i = j.
Proof.
  unfold wav_name. cbn [fold_left]. intros H. apply append_cancel_r in H. apply append_cancel in H. now apply decimal_inj.
Qed.
Print Assumptions C111_single.

Theorem C111_channels_partial c a b :
  (forall z, In z a -> (0 <= z <= 9)%Z) -> (forall z, In z b -> (0 <= z <= 9)%Z) -> wav_name c a = wav_name c b -> a = b.
Proof.
  intros A B H. unfold wav_name in H. rewrite !fold_digits in H. apply append_cancel_r in H. apply append_cancel in H. now apply digits_inj.
Qed.
Print Assumptions C111_channels_partial.

(** In general they have not: two pairs of different channels of the same chain are written to the same file. *)
Theorem C111_channels_refuted : exists a b i j, NoDup a /\ NoDup b /\ List.length a = 2%nat /\ List.length b = 2%nat /\
  In i a /\ ~ In i b /\ In j b /\ ~ In j a /\ forall c, wav_name c a = wav_name c b.
Proof.
  exists [1; 23]%Z, [12; 3]%Z, 1%Z, 12%Z. repeat split; try (repeat constructor; cbn; lia).
  intros c. unfold wav_name. now rewrite !fold_digits.
Qed.
Print Assumptions C111_channels_refuted.

(** Objects between the file and the export leave no trace in the name, nor do the directory and the extension of the file. *)
Theorem C111_origin_refuted :
  (forall c channels, wav_name (Through c) channels = wav_name c channels) /\
  exists f g, f <> g /\ forall channels, wav_name (FileSource f) channels = wav_name (FileSource g) channels.
Proof.
  split; [reflexivity|]. exists "/monday/run1.h5", "/tuesday/run1.h5". split; [discriminate|]. reflexivity.
Qed.
Print Assumptions C111_origin_refuted.

Example C111_case :
  wav_name (Through (Cached (FileSource "/data/run.4.h5"))) [0; 12]%Z = "run.4012.wav" /\
  find_basename (Through PlainSource) "PointSource1a2b" = "PointSource1a2b" /\ get_file_basename ".h5" "void" = ".h5" /\
  get_file_basename "" "void" = "void" /\ get_file_basename "run" "void" = "run" /\ origin (Through (Cached (FileSource "a.h5"))) = FileSource "a.h5" /\
  (forall z, In z [3; 0]%Z -> (0 <= z <= 9)%Z).
Proof. repeat split; cbn in *; lia. Qed.
