(** Cache (process.py:197-380) with the array files of h5files.py.

    One node of one cache file, one source.  A read is a sequence of
    operations on the file and of yields; it can be cut anywhere: by the
    consumer at a yield, by a crash at any operation.  Operations are taken to
    be in effect at once (no loss of buffered writes by the HDF5 library). *)
From Coq Require Import List Arith Lia ZArith Bool.
Require Import ZifyBool ZifyNat ZifyN.
From Verif Require Import Stream.
Import ListNotations.
Ltac Zify.zify_post_hook ::= Z.div_mod_to_equations.

Section Cache.
Context {A : Type} (zrow : A).

(** config.global_caching; 'individual' and 'all' are the same here. *)
Inductive mode := CAll | CNone | CReadonly | COverwrite.
(** config.h5library *)
Inductive h5lib := Tables | H5py.

(** The node 'tc_' + digest: its rows and its attribute 'complete', if
    present. *)
Definition node := option (list A * option bool).

Inductive ev :=
| ECreate                    (* create_extendable_array *)
| EAttr                      (* set_node_attribute(ac, 'sample_freq', ..) *)
| EComplete (b : bool)       (* set_node_attribute(ac, 'complete', b) *)
| EAppend (b : list A)       (* append_data: pytables; second half for h5py *)
| EResize (n : nat)          (* first half of append_data for h5py *)
| EWrite (b : list A)
| EFlush
| ERemove                    (* remove_data *)
| EYield (b : list A)
| EFail (x : exn).

Definition step (n : node) (e : ev) : node :=
  match e, n with
  | ECreate, _ => Some ([], None)
  | EComplete b, Some (r, _) => Some (r, Some b)
  | EAppend b, Some (r, c) => Some (r ++ b, c)
  | EResize k, Some (r, c) => Some (r ++ repeat zrow k, c)
  | EWrite b, Some (r, c) => Some (firstn (length r - length b) r ++ b, c)
  | ERemove, _ => None
  | _, _ => n
  end.

Definition run (evs : list ev) (n : node) : node := fold_left step evs n.

Fixpoint yields (evs : list ev) : list (list A) :=
  match evs with
  | [] => []
  | EYield b :: l => b :: yields l
  | _ :: l => yields l
  end.

(** The exception that ended the read, if any. *)
Fixpoint failure (evs : list ev) : option exn :=
  match evs with
  | [] => None
  | EFail x :: _ => Some x
  | _ :: l => failure l
  end.

(** append_data: h5files.py:80-81 (pytables), 149-153 (h5py: resize, write). *)
Definition append_ev (lib : h5lib) (b : list A) : list ev :=
  match lib with Tables => [EAppend b] | H5py => [EResize (length b); EWrite b] end.

(** The loop over the source blocks in _write_data_to_cache
    (process.py:265-274) and _get_data_from_incomplete_cache
    (process.py:294-303): block [j], yielded from [nblocks] on. *)
Fixpoint loop_ev (lib : h5lib) (nblocks j : nat) (bs : list (list A)) : list ev :=
  match bs with
  | [] => []
  | b :: bs' =>
      (if j =? 0 then [ECreate; EAttr; EComplete false] else [])
        ++ append_ev lib b
        ++ (if nblocks <=? j then [EFlush; EYield b] else [])
        ++ loop_ev lib nblocks (S j) bs'
  end.

(** What follows the loop.  Without a block [ac] has not been assigned
    (process.py:275); in _get_data_from_incomplete_cache it is the removed
    node (process.py:304), which is a RuntimeError here. *)
Definition end_ev (unbound : exn) (bs : list (list A)) (e : ending) : list ev :=
  match e with
  | Raised x => [EFail x]
  | Finished => match bs with [] => [EFail unbound] | _ => [EComplete true] end
  end.

Definition write_ev (lib : h5lib) (t : trace A) : list ev :=
  loop_ev lib 0 0 (blocks t) ++ end_ev UnboundLocalError (blocks t) (fin t).

(** _pass_data (process.py:260-261) *)
Definition pass_ev (t : trace A) : list ev :=
  map EYield (blocks t) ++ match fin t with Raised x => [EFail x] | Finished => [] end.

(** _get_data_from_cache (process.py:277-283) *)
Definition cached_ev (num : nat) (rows : list A) : list ev := map EYield (chunks num rows).

(** _get_data_from_incomplete_cache (process.py:285-304) *)
Definition incomplete_ev (lib : h5lib) (num : nat) (rows : list A) (t : trace A) : list ev :=
  let nblocks := length rows / num in
  map EYield (map (fun i => slice (i * num) (i * num + num) rows) (seq 0 nblocks))
    ++ [ERemove] ++ loop_ev lib nblocks 0 (blocks t)
    ++ end_ev RuntimeError (blocks t) (fin t).

(** Cache.result (process.py:348-380). *)
Definition result_ev (lib : h5lib) (md : mode) (src : source A) (num : nat) (n : node) : list ev :=
  match md with
  | CNone => pass_ev (src num)
  | _ =>
    match n with
    | Some (rows, c) =>
        match md, c with
        | COverwrite, _ => ERemove :: write_ev lib (src num)
        | _, Some true => cached_ev num rows
        | CReadonly, _ => pass_ev (src num)
        | _, _ => incomplete_ev lib num rows (src num)
        end
    | None => match md with CReadonly => pass_ev (src num) | _ => write_ev lib (src num) end
    end
  end.

(** A read that executes [cut] of its events. *)
Record read := mkRead { r_mode : mode; r_num : nat; r_cut : nat }.
Definition events (lib : h5lib) (src : source A) (r : read) (n : node) : list ev :=
  firstn (r_cut r) (result_ev lib (r_mode r) src (r_num r) n).
Definition after (lib : h5lib) (src : source A) (n : node) (r : read) : node :=
  run (events lib src r n) n.

(** ** Specification *)
Definition node_ok (s : list A) (n : node) : Prop :=
  match n with
  | None => True
  | Some (rows, c) => exists rest, s = rows ++ rest /\ (c = Some true -> rest = [])
  end.

(** The cut does not fall between the two halves of an append. *)
Definition is_resize (e : ev) : bool := match e with EResize _ => true | _ => false end.
Definition clean (evs : list ev) : Prop := is_resize (last evs EFlush) = false.

(* ------------------------------------------------------------------ *)
(** ** Proofs *)

(** States after every event that is not the first half of an append. *)
Fixpoint states (evs : list ev) (n : node) : list node :=
  match evs with
  | [] => []
  | e :: l => (if is_resize e then [] else [step n e]) ++ states l (step n e)
  end.

Lemma states_app a b n : states (a ++ b) n = states a n ++ states b (run a n).
Proof.
  revert n. induction a as [|e a IH]; intros n; [reflexivity|]. simpl. rewrite IH, app_assoc. reflexivity.
Qed.

Lemma run_app a b n : run (a ++ b) n = run b (run a n).
Proof. unfold run. apply fold_left_app. Qed.


Lemma cut_state evs n cut : clean (firstn cut evs) ->
  run (firstn cut evs) n = n \/ In (run (firstn cut evs) n) (states evs n).
Proof.
  intros Hc. rewrite <- (firstn_skipn cut evs) at 3.
  destruct (firstn cut evs) as [|e0 l0] using rev_ind; [left; reflexivity|]. clear IHl0.
  right. unfold clean in Hc. rewrite last_last in Hc.
  rewrite run_app, states_app, states_app. simpl. rewrite Hc. simpl.
  apply in_or_app. left. apply in_or_app. right. left. reflexivity.
Qed.

Lemma yields_app a b : yields (a ++ b) = yields a ++ yields b.
Proof. induction a as [|e a IH]; [reflexivity|]. destruct e; simpl; rewrite ?IH; reflexivity. Qed.

Lemma failure_app a b :
  failure (a ++ b) = match failure a with Some x => Some x | None => failure b end.
Proof. induction a as [|e a IH]; [reflexivity|]. destruct e; simpl; auto. Qed.

Lemma yields_map bs : yields (map EYield bs) = bs.
Proof. induction bs as [|b bs IH]; simpl; congruence. Qed.
Lemma failure_map bs : failure (map EYield bs) = None.
Proof. induction bs as [|b bs IH]; simpl; congruence. Qed.
Lemma run_map bs n : run (map EYield bs) n = n.
Proof. revert n. induction bs as [|b bs IH]; intros n; simpl; [reflexivity|]. destruct n as [[r c]|]; apply IH. Qed.
Lemma states_map bs n x : In x (states (map EYield bs) n) -> x = n.
Proof.
  revert n. induction bs as [|b bs IH]; intros n; simpl; [tauto|].
  destruct n as [[r c]|]; intros [<-|H]; auto.
Qed.

Lemma append_run lib b r c : run (append_ev lib b) (Some (r, c)) = Some (r ++ b, c).
Proof.
  destruct lib; simpl; [reflexivity|].
  rewrite app_length, repeat_length.
  replace (length r + length b - length b) with (length r) by (clear; lia).
  rewrite firstn_app, Nat.sub_diag, firstn_all. simpl. now rewrite app_nil_r.
Qed.

Lemma append_states lib b r c x :
  In x (states (append_ev lib b) (Some (r, c))) -> x = Some (r ++ b, c).
Proof.
  intros H. pose proof (append_run lib b r c) as E. destruct lib; simpl in *.
  - destruct H as [<-|[]]. reflexivity.
  - destruct H as [<-|[]]. exact E.
Qed.

Lemma append_yields lib b : yields (append_ev lib b) = [].
Proof. destruct lib; reflexivity. Qed.
Lemma append_failure lib b : failure (append_ev lib b) = None.
Proof. destruct lib; reflexivity. Qed.

Definition tail_ev (nb j : nat) (b : list A) : list ev :=
  if nb <=? j then [EFlush; EYield b] else [].

Lemma tail_run nb j b n : run (tail_ev nb j b) n = n.
Proof. unfold tail_ev. destruct (nb <=? j); simpl; destruct n as [[r c]|]; reflexivity. Qed.
Lemma tail_states nb j b n x : In x (states (tail_ev nb j b) n) -> x = n.
Proof.
  unfold tail_ev. destruct (nb <=? j); simpl; [|tauto].
  destruct n as [[r c]|]; intros [<-|[<-|[]]]; reflexivity.
Qed.

(** After the first block. *)
Lemma loop_run lib nb bs : forall j r, 0 < j ->
  run (loop_ev lib nb j bs) (Some (r, Some false)) = Some (r ++ concat bs, Some false).
Proof.
  induction bs as [|b bs IH]; intros j r Hj; [simpl; now rewrite app_nil_r|].
  cbn [loop_ev]. fold (tail_ev nb j b). destruct j as [|j]; [lia|].
  cbn [Nat.eqb app]. rewrite !run_app, append_run, tail_run, IH by lia.
  simpl. now rewrite app_assoc.
Qed.

Lemma loop_states lib nb bs : forall j r x, 0 < j ->
  In x (states (loop_ev lib nb j bs) (Some (r, Some false))) ->
  exists p q, concat bs = p ++ q /\ x = Some (r ++ p, Some false).
Proof.
  induction bs as [|b bs IH]; intros j r x Hj H; [destruct H|].
  cbn [loop_ev] in H. fold (tail_ev nb j b) in H. destruct j as [|j]; [lia|].
  cbn [Nat.eqb app] in H. rewrite !states_app in H.
  apply in_app_or in H as [H|H].
  { apply append_states in H. exists b, (concat bs). split; [reflexivity|exact H]. }
  rewrite append_run in H. apply in_app_or in H as [H|H].
  { apply tail_states in H. exists b, (concat bs). split; [reflexivity|exact H]. }
  rewrite tail_run in H. apply IH in H as (p & q & E & ->); [|lia].
  exists (b ++ p), q. simpl. rewrite E, !app_assoc. split; reflexivity.
Qed.

Lemma loop0_run lib nb b bs n :
  run (loop_ev lib nb 0 (b :: bs)) n = Some (concat (b :: bs), Some false).
Proof.
  cbn [loop_ev]. fold (tail_ev nb 0 b). cbn [Nat.eqb].
  rewrite !run_app. replace (run [ECreate; EAttr; EComplete false] n) with (Some (@nil A, Some false))
    by (destruct n as [[r c]|]; reflexivity).
  rewrite append_run, tail_run, loop_run by lia. reflexivity.
Qed.

Lemma loop0_states lib nb bs n x :
  In x (states (loop_ev lib nb 0 bs) n) ->
  exists p q c, concat bs = p ++ q /\ x = Some (p, c) /\ c <> Some true.
Proof.
  destruct bs as [|b bs]; [intros []|].
  cbn [loop_ev]. fold (tail_ev nb 0 b). cbn [Nat.eqb]. rewrite !states_app.
  intros H. apply in_app_or in H as [H|H].
  { assert (x = Some ([], None) \/ x = Some ([], Some false)) as [-> | ->].
    { destruct n as [[r c]|]; simpl in H; destruct H as [<-|[<-|[<-|[]]]]; auto. }
    - exists [], (concat (b :: bs)), None. repeat split. discriminate.
    - exists [], (concat (b :: bs)), (Some false). repeat split. discriminate. }
  replace (run [ECreate; EAttr; EComplete false] n) with (Some (@nil A, Some false)) in H
    by (destruct n as [[r c]|]; reflexivity).
  apply in_app_or in H as [H|H].
  { apply append_states in H. exists b, (concat bs), (Some false). repeat split; [exact H|discriminate]. }
  rewrite append_run in H. apply in_app_or in H as [H|H].
  { apply tail_states in H. exists b, (concat bs), (Some false). repeat split; [exact H|discriminate]. }
  rewrite tail_run in H. apply loop_states in H as (p & q & E & ->); [|lia].
  exists (b ++ p), q, (Some false). simpl. rewrite E, app_assoc. repeat split. discriminate.
Qed.

Lemma loop_yields lib nb bs : forall j, yields (loop_ev lib nb j bs) = skipn (nb - j) bs.
Proof.
  induction bs as [|b bs IH]; intros j; [now destruct (nb - j)|].
  cbn [loop_ev]. rewrite !yields_app, append_yields, IH.
  replace (yields (if j =? 0 then [ECreate; EAttr; EComplete false] else [])) with (@nil (list A))
    by (destruct (j =? 0); reflexivity).
  destruct (nb <=? j) eqn:E.
  - apply Nat.leb_le in E. replace (nb - j) with 0 by lia. replace (nb - S j) with 0 by lia. reflexivity.
  - apply Nat.leb_gt in E. replace (nb - j) with (S (nb - S j)) by lia. reflexivity.
Qed.

Lemma loop_failure lib nb bs : forall j, failure (loop_ev lib nb j bs) = None.
Proof.
  induction bs as [|b bs IH]; intros j; [reflexivity|].
  cbn [loop_ev]. rewrite !failure_app, append_failure, IH.
  destruct (j =? 0), (nb <=? j); reflexivity.
Qed.

(** Loop and end, on a complete stream. *)
Lemma loop_end_states lib nb x0 bs n x :
  bs <> [] ->
  In x (states (loop_ev lib nb 0 bs ++ end_ev x0 bs Finished) n) -> node_ok (concat bs) x.
Proof.
  intros Hb H. rewrite states_app in H. apply in_app_or in H as [H|H].
  - apply loop0_states in H as (p & q & c & E & -> & Hc). exists q. split; [exact E|]. intros ->. now destruct Hc.
  - destruct bs as [|b bs]; [congruence|]. rewrite loop0_run in H. simpl in H.
    destruct H as [<-|[]]. exists []. rewrite app_nil_r. split; auto.
Qed.

Lemma loop_end_run lib nb x0 bs n :
  bs <> [] ->
  run (loop_ev lib nb 0 bs ++ end_ev x0 bs Finished) n = Some (concat bs, Some true).
Proof.
  intros Hb. destruct bs as [|b bs]; [congruence|]. rewrite run_app, loop0_run. reflexivity.
Qed.

Lemma blocks_firstn num (s : list A) : forall q, 0 < num -> q * num <= length s ->
  map (fun k => slice (k * num) (k * num + num) s) (seq 0 q) = firstn q (chunks num s).
Proof.
  intros q Hn. revert s. induction q as [|q IH]; intros s Hl; [reflexivity|].
  assert (s <> []) by (destruct s; [simpl in Hl; lia|discriminate]).
  rewrite (chunks_step num s) by (auto; lia). cbn [firstn seq map].
  f_equal.
  rewrite <- IH by (rewrite skipn_length; simpl in Hl; lia).
    rewrite <- seq_shift, map_map. apply map_ext. intros k. unfold slice.
    rewrite !skipn_firstn_comm, skipn_skipn'. f_equal; [lia|f_equal; lia].
Qed.

Lemma slices_prefix num (r rest : list A) q : q * num <= length r ->
  map (fun k => slice (k * num) (k * num + num) r) (seq 0 q)
  = map (fun k => slice (k * num) (k * num + num) (r ++ rest)) (seq 0 q).
Proof.
  intros Hl. apply map_ext_in. intros k Hk. apply in_seq in Hk. unfold slice.
  rewrite !skipn_firstn_comm, skipn_app, firstn_app, skipn_length.
  assert (k * num + num <= length r) by nia.
  replace (k * num + num - k * num - (length r - k * num)) with 0 by lia.
  simpl. now rewrite app_nil_r.
Qed.

(* ------------------------------------------------------------------ *)
Variable src : source A.
Variable s : list A.
Hypothesis Hsrc : wf_source src s.
Hypothesis Hs : s <> [].

Lemma src_done num : 0 < num -> src num = done (chunks num s).
Proof. intros H. apply (wf_source_eq src s num); auto. Qed.

Lemma chunks_ne num : 0 < num -> chunks num s <> [].
Proof. intros H. rewrite chunks_step by (auto; lia). discriminate. Qed.

Lemma result_states lib md num n x :
  0 < num -> node_ok s n -> In x (states (result_ev lib md src num n) n) -> node_ok s x.
Proof.
  intros Hn Hok. unfold result_ev, pass_ev, write_ev, incomplete_ev, cached_ev.
  rewrite (src_done num Hn). cbn [blocks fin done].
  pose proof (chunks_ne num Hn) as Hc.
  assert (concat (chunks num s) = s) as Ec by (apply concat_chunks; lia).
  assert (forall bs, In x (states (map EYield bs ++ []) n) -> node_ok s x) as Hpass.
  { intros bs H. rewrite app_nil_r in H. apply states_map in H. now subst. }
  assert (forall nb x0 n0, In x (states (loop_ev lib nb 0 (chunks num s) ++ end_ev x0 (chunks num s) Finished) n0)
     -> node_ok s x) as Hloop.
  { intros nb x0 n0 H. apply loop_end_states in H; [|exact Hc]. now rewrite Ec in H. }
  assert (forall rows c, n = Some (rows, c) -> In x (states (map EYield (map (fun i => slice (i * num) (i * num + num) rows) (seq 0 (length rows / num)))
    ++ [ERemove] ++ loop_ev lib (length rows / num) 0 (chunks num s) ++ end_ev RuntimeError (chunks num s) Finished) n)
     -> node_ok s x) as Hinc.
  { intros rows c En H. rewrite states_app in H. apply in_app_or in H as [H|H].
    - apply states_map in H. now subst.
    - rewrite states_app in H. apply in_app_or in H as [H|H].
      + rewrite run_map in H. destruct H as [<-|[]]. exact I.
      + apply Hloop in H. exact H. }
  destruct md; destruct n as [[rows [[|]|]]|]; try (apply Hpass); try (apply Hloop);
    try (apply (Hinc _ _ eq_refl)).
  all: try (intros H; rewrite <- (app_nil_r (map EYield _)) in H; apply Hpass in H; exact H).
  all: intros H; simpl states in H; destruct H as [<-|H]; [exact I|]; apply Hloop in H; exact H.
Qed.

Lemma result_yields lib md num n :
  0 < num -> node_ok s n -> yields (result_ev lib md src num n) = chunks num s
    /\ failure (result_ev lib md src num n) = None.
Proof.
  intros Hn Hok. unfold result_ev, pass_ev, write_ev, incomplete_ev, cached_ev.
  rewrite (src_done num Hn). cbn [blocks fin done].
  pose proof (chunks_ne num Hn) as Hc.
  assert (forall x0, yields (loop_ev lib 0 0 (chunks num s) ++ end_ev x0 (chunks num s) Finished) = chunks num s
    /\ failure (loop_ev lib 0 0 (chunks num s) ++ end_ev x0 (chunks num s) Finished) = None) as Hw.
  { intros x0. rewrite yields_app, failure_app, loop_yields, loop_failure.
    destruct (chunks num s); [congruence|]. simpl. rewrite app_nil_r. split; reflexivity. }
  assert (forall bs : list (list A), yields (map EYield bs ++ []) = bs /\ failure (map EYield bs ++ []) = None) as Hp.
  { intros bs. rewrite app_nil_r, yields_map, failure_map. split; reflexivity. }
  assert (forall rows rest, s = rows ++ rest ->
     yields (map EYield (map (fun i => slice (i * num) (i * num + num) rows) (seq 0 (length rows / num)))
    ++ [ERemove] ++ loop_ev lib (length rows / num) 0 (chunks num s) ++ end_ev RuntimeError (chunks num s) Finished) = chunks num s
    /\ failure (map EYield (map (fun i => slice (i * num) (i * num + num) rows) (seq 0 (length rows / num)))
    ++ [ERemove] ++ loop_ev lib (length rows / num) 0 (chunks num s) ++ end_ev RuntimeError (chunks num s) Finished) = None) as Hi.
  { intros rows rest E. split.
    - rewrite !yields_app, yields_map, loop_yields, Nat.sub_0_r.
      assert (length rows / num * num <= length rows) as Hle.
      { pose proof (Nat.mul_div_le (length rows) num). lia. }
      rewrite (slices_prefix num rows rest) by exact Hle. rewrite <- E.
      rewrite blocks_firstn by (auto; rewrite E, app_length; lia).
      replace (yields (end_ev RuntimeError (chunks num s) Finished)) with (@nil (list A))
        by (destruct (chunks num s); [congruence|reflexivity]).
      rewrite app_nil_r. apply firstn_skipn.
    - rewrite !failure_app, failure_map, loop_failure.
      destruct (chunks num s); [congruence|reflexivity]. }
  destruct md; destruct n as [[rows [[|]|]]|]; try (apply Hp); try (apply Hw);
    try (destruct Hok as (rest & E & _); apply (Hi rows rest E)).
  all: destruct Hok as (rest & E & Hr); rewrite (Hr eq_refl), app_nil_r in E; subst rows;
    rewrite yields_map, failure_map; split; reflexivity.
Qed.

(** A read in a writing mode leaves the whole stream, marked complete. *)
Lemma result_complete lib md num n :
  0 < num -> node_ok s n -> md = CAll \/ md = COverwrite ->
  run (result_ev lib md src num n) n = Some (s, Some true).
Proof.
  intros Hn Hok Hm. unfold result_ev, pass_ev, write_ev, incomplete_ev, cached_ev.
  rewrite (src_done num Hn). cbn [blocks fin done].
  pose proof (chunks_ne num Hn) as Hc.
  assert (concat (chunks num s) = s) as Ec by (apply concat_chunks; lia).
  destruct Hm as [-> | ->]; destruct n as [[rows [[|]|]]|].
  1: { rewrite run_map. destruct Hok as (rest & E & Hr). rewrite (Hr eq_refl), app_nil_r in E. now subst. }
  1,2: rewrite run_app, run_app, loop_end_run, Ec by exact Hc; reflexivity.
  1: rewrite loop_end_run, Ec by exact Hc; reflexivity.
  all: change (ERemove :: ?l) with ([ERemove] ++ l); rewrite ?(run_app [ERemove]), loop_end_run, Ec by exact Hc; reflexivity.
Qed.

Lemma after_ok lib n r :
  0 < r_num r -> node_ok s n -> clean (events lib src r n) -> node_ok s (after lib src n r).
Proof.
  intros Hn Hok Hc. unfold after, events in *.
  destruct (cut_state _ n _ Hc) as [H|H]; [now rewrite H|].
  apply result_states in H; auto.
Qed.

Lemma tables_clean evs : (forall e, In e evs -> is_resize e = false) -> forall k, clean (firstn k evs).
Proof.
  intros H k. unfold clean. destruct (firstn k evs) as [|e l] eqn:E using rev_ind; [reflexivity|].
  clear IHl. rewrite last_last. apply H. rewrite <- (firstn_skipn k evs), E. apply in_or_app. left.
  apply in_or_app. right. left. reflexivity.
Qed.

End Cache.

(** ** Histories of reads of one node *)
Inductive history {A} (zrow : A) (lib : h5lib) (src : source A) : node -> Prop :=
| hist_none : history zrow lib src None
| hist_read n r : history zrow lib src n -> 0 < r_num r ->
    lib = Tables \/ clean (events lib src r n) ->
    history zrow lib src (after zrow lib src n r).

Lemma no_resize_tables {A} md (src : source A) num n e :
  In e (result_ev Tables md src num n) -> is_resize e = false.
Proof.
  assert (forall (bs : list (list A)) e, In e (map EYield bs) -> is_resize e = false) as Hm.
  { intros bs e0 H. apply in_map_iff in H as (b & <- & _). reflexivity. }
  assert (forall nb bs j (e : @ev A), In e (loop_ev Tables nb j bs) -> is_resize e = false) as Hl.
  { intros nb bs. induction bs as [|b bs IH]; intros j e0 H; [destruct H|].
    cbn [loop_ev] in H. repeat (apply in_app_or in H as [H|H]).
    - destruct (j =? 0); [|destruct H]. simpl in H. intuition; subst; reflexivity.
    - destruct H as [<-|[]]. reflexivity.
    - destruct (nb <=? j); [|destruct H]. simpl in H. intuition; subst; reflexivity.
    - eapply IH; eauto. }
  assert (forall x (bs : list (list A)) f e, In e (end_ev x bs f) -> is_resize e = false) as He.
  { intros x bs [|y] e0 H; simpl in H; [destruct bs|]; destruct H as [<-|[]]; reflexivity. }
  assert (forall (t : trace A) e, In e (write_ev Tables t) -> is_resize e = false) as Hw.
  { intros t e0 H. apply in_app_or in H as [H|H]; eauto. }
  assert (forall (t : trace A) e, In e (pass_ev t) -> is_resize e = false) as Hp.
  { intros t e0 H. apply in_app_or in H as [H|H]; [eauto|].
    destruct (fin t); [destruct H|destruct H as [<-|[]]; reflexivity]. }
  assert (forall rows (t : trace A) e, In e (incomplete_ev Tables num rows t) -> is_resize e = false) as Hi.
  { intros rows t e0 H. unfold incomplete_ev in H. repeat (apply in_app_or in H as [H|H]); eauto.
    destruct H as [<-|[]]; reflexivity. }
  unfold result_ev. destruct md; destruct n as [[rows [[|]|]]|]; eauto;
    try (intros H; unfold cached_ev in H; eapply Hm; exact H).
  all: intros [<-|H]; [reflexivity|eauto].
Qed.

Lemma history_ok {A} (zrow : A) lib src s n :
  wf_source src s -> s <> [] -> history zrow lib src n -> node_ok s n.
Proof.
  intros Hw Hs H. induction H as [|n r H IH Hn Hc]; [exact I|].
  apply after_ok; auto. destruct Hc as [->|Hc]; [|exact Hc].
  unfold events. apply tables_clean. intros e. apply no_resize_tables.
Qed.

Lemma yields_cut {A} (evs : list (@ev A)) k : exists t, yields evs = yields (firstn k evs) ++ t.
Proof.
  exists (yields (skipn k evs)). rewrite <- yields_app. now rewrite firstn_skipn.
Qed.
