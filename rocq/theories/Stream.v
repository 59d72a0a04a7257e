(** Basic vocabulary of the streaming part of the model.

    In acoular every object that delivers data has a method [result(num)], a
    Python generator that yields two-dimensional arrays ("blocks") of at most
    [num] rows (/repo/acoular/base.py:39-113, class Generator).  The model of
    one complete iteration over such a generator is its [trace]: the blocks
    yielded, and how the iteration ended. *)
From Coq Require Import List Arith Lia ZArith.
Require Import ZifyBool ZifyNat ZifyN.
Import ListNotations.
Ltac Zify.zify_post_hook ::= Z.div_mod_to_equations.

(** Exceptions that the modelled code (or NumPy underneath) can raise. *)
Inductive exn :=
| OSError | ValueError | IndexError | KeyError | TypeError | RuntimeError
| StopIteration | UnboundLocalError | ZeroDivisionError | AssertionError
| AttributeError | OutOfFuel.

(** How a generator ended: normally, or with an exception. *)
Inductive ending := Finished | Raised (e : exn).

(** One complete iteration of a Python generator. *)
Record trace (A : Type) := mkTrace { blocks : list (list A); fin : ending }.
Arguments mkTrace {A} _ _.
Arguments blocks {A} _.
Arguments fin {A} _.

(** A data source: the trace of [result(num)] for every [num]
    (/repo/acoular/base.py:96-113, Generator.result). *)
Definition source (A : Type) := nat -> trace A.

Definition done {A} (bs : list (list A)) : trace A := mkTrace bs Finished.
Definition raise {A} (e : exn) : trace A := mkTrace [] (Raised e).

(* ------------------------------------------------------------------ *)
(** * Specification: a stream delivered in full blocks *)

(** Every block has exactly [num] rows except possibly the last one, which
    has at least one row (the contract documented at base.py:96-113: "blocks
    of shape (num, num_channels) ... the last block may be shorter"). *)
Inductive full_blocks {A} (num : nat) : list (list A) -> Prop :=
| fb_nil : full_blocks num []
| fb_last : forall b, 0 < length b <= num -> full_blocks num [b]
| fb_cons : forall b c bs, length b = num -> full_blocks num (c :: bs) ->
    full_blocks num (b :: c :: bs).

(** [t] delivers the stream [s] in blocks of [num]. *)
Definition delivers {A} (num : nat) (s : list A) (t : trace A) : Prop :=
  fin t = Finished /\ concat (blocks t) = s /\ full_blocks num (blocks t).

(** A well-behaved source for the stream [s]. *)
Definition wf_source {A} (src : source A) (s : list A) : Prop :=
  forall num, 0 < num -> delivers num s (src num).

(** The cutting of a stream in blocks, as a function. *)
Fixpoint chunks_aux {A} (fuel n : nat) (s : list A) : list (list A) :=
  match fuel with
  | 0 => []
  | S f => match s with
           | [] => []
           | _ => firstn n s :: chunks_aux f n (skipn n s)
           end
  end.
Definition chunks {A} (n : nat) (s : list A) := chunks_aux (length s) n s.

(* ------------------------------------------------------------------ *)
(** * Elementary lemmas *)

Lemma chunks_aux_fuel {A} n (s : list A) f1 f2 :
  0 < n -> length s <= f1 -> length s <= f2 ->
  chunks_aux f1 n s = chunks_aux f2 n s.
Proof.
  intros Hn. revert s f2. induction f1 as [|f1 IH]; intros s f2 H1 H2.
  - destruct s; [|simpl in H1; lia]. destruct f2; reflexivity.
  - destruct s as [|a s].
    + destruct f2; reflexivity.
    + destruct f2 as [|f2]; [simpl in H2; lia|].
      cbn [chunks_aux]. f_equal. apply IH; rewrite skipn_length; cbn [length] in *; lia.
Qed.

Lemma chunks_nil {A} n : chunks n (@nil A) = [].
Proof. reflexivity. Qed.

Lemma chunks_step {A} n (s : list A) :
  0 < n -> s <> [] -> chunks n s = firstn n s :: chunks n (skipn n s).
Proof.
  intros Hn Hs. unfold chunks. destruct s as [|a s]; [congruence|].
  cbn [length chunks_aux]. f_equal. apply chunks_aux_fuel; auto.
  rewrite skipn_length. cbn [length]. lia.
Qed.

Lemma chunks_app {A} n (b s : list A) :
  0 < n -> length b = n -> chunks n (b ++ s) = b :: chunks n s.
Proof.
  intros Hn Hb. rewrite chunks_step; auto.
  - rewrite firstn_app, skipn_app, Hb, Nat.sub_diag, firstn_all2, skipn_all2 by lia.
    simpl. rewrite app_nil_r. reflexivity.
  - destruct b; simpl in *; [lia|discriminate].
Qed.

Lemma chunks_short {A} n (s : list A) :
  0 < length s <= n -> chunks n s = [s].
Proof.
  intros H. assert (s <> []) by (intros ->; simpl in H; lia).
  rewrite chunks_step by (auto; lia).
  rewrite firstn_all2, skipn_all2 by lia. reflexivity.
Qed.

Lemma full_blocks_chunks_concat {A} n (bs : list (list A)) :
  0 < n -> full_blocks n bs -> chunks n (concat bs) = bs.
Proof.
  intros Hn H. induction H as [|b Hb|b c bs Hb H IH].
  - reflexivity.
  - simpl. rewrite app_nil_r. now apply chunks_short.
  - change (concat (b :: c :: bs)) with (b ++ concat (c :: bs)).
    rewrite chunks_app by assumption. now rewrite IH.
Qed.

(** Strong induction on streams by blocks. *)
Lemma stream_ind {A} n (P : list A -> Prop) :
  0 < n ->
  P [] ->
  (forall s, 0 < length s <= n -> P s) ->
  (forall b s, length b = n -> s <> [] -> P s -> P (b ++ s)) ->
  forall s, P s.
Proof.
  intros Hn H0 H1 H2 s.
  remember (length s) as k eqn:Hk. revert s Hk.
  induction k as [k IH] using lt_wf_ind. intros s Hk.
  destruct (le_lt_dec (length s) n) as [Hle|Hgt].
  - destruct s; auto. apply H1. simpl in *; lia.
  - rewrite <- (firstn_skipn n s). apply H2.
    + rewrite firstn_length. lia.
    + intros E. apply (f_equal (@length A)) in E. rewrite skipn_length in E. simpl in E. lia.
    + apply IH with (m := length (skipn n s)); auto. rewrite skipn_length. lia.
Qed.

Lemma chunks_full_blocks {A} n (s : list A) : 0 < n -> full_blocks n (chunks n s).
Proof.
  intros Hn. revert s. apply (stream_ind n); auto.
  - constructor.
  - intros s Hs. rewrite chunks_short by auto. constructor; auto.
  - intros b s Hb Hs IH. rewrite chunks_app by auto.
    destruct (chunks n s) eqn:E.
    + rewrite chunks_step in E; auto. discriminate.
    + constructor; auto.
Qed.

Lemma concat_chunks {A} n (s : list A) : 0 < n -> concat (chunks n s) = s.
Proof.
  intros Hn. revert s. apply (stream_ind n); auto.
  - intros s Hs. rewrite chunks_short by auto. simpl. apply app_nil_r.
  - intros b s Hb Hs IH. rewrite chunks_app by auto. simpl. now rewrite IH.
Qed.

(** The functional and the relational specification agree. *)
Theorem delivers_iff {A} num (s : list A) t :
  0 < num -> (delivers num s t <-> t = done (chunks num s)).
Proof.
  intros Hn. split.
  - intros (H1 & H2 & H3). destruct t as [bs e]. simpl in *. subst.
    unfold done. now rewrite full_blocks_chunks_concat.
  - intros ->. repeat split; simpl.
    + now apply concat_chunks.
    + now apply chunks_full_blocks.
Qed.

Lemma wf_source_eq {A} (src : source A) s num :
  wf_source src s -> 0 < num -> src num = done (chunks num s).
Proof. intros H Hn. apply delivers_iff; auto. Qed.

Lemma delivers_chunks {A} num (s : list A) :
  0 < num -> delivers num s (done (chunks num s)).
Proof. intros. now apply delivers_iff. Qed.

Lemma full_blocks_in {A} n (bs : list (list A)) b :
  full_blocks n bs -> In b bs -> 0 < length b <= n \/ (length b = n /\ n = 0).
Proof.
  induction 1 as [|b' Hb|b' c bs Hb H IH]; intros Hin.
  - destruct Hin.
  - destruct Hin as [->|[]]. auto.
  - destruct Hin as [->|Hin]; auto. destruct n; [right|left]; lia.
Qed.

Lemma chunks_in_len {A} n (s : list A) b :
  0 < n -> In b (chunks n s) -> 0 < length b <= n.
Proof.
  intros Hn Hin. destruct (full_blocks_in n (chunks n s) b); auto.
  - now apply chunks_full_blocks.
  - lia.
Qed.

(** Blockwise maps that keep lengths keep the block structure. *)
Lemma chunks_map {A B} n (f : A -> B) (s : list A) :
  0 < n -> map (map f) (chunks n s) = chunks n (map f s).
Proof.
  intros Hn. revert s. apply (stream_ind n); auto.
  - intros s Hs. rewrite !chunks_short; try rewrite map_length; auto.
  - intros b s Hb Hs IH. rewrite map_app, !chunks_app; try rewrite map_length; auto.
    simpl. now rewrite IH.
Qed.

(** Number of blocks. *)
Lemma length_chunks {A} n (s : list A) :
  0 < n -> length (chunks n s) = (length s + n - 1) / n.
Proof.
  intros Hn. revert s. apply (stream_ind n); auto.
  - simpl. rewrite Nat.div_small; lia.
  - intros s Hs. rewrite chunks_short by auto. simpl.
    apply Nat.div_unique with (length s - 1); lia.
  - intros b s Hb Hs IH. rewrite chunks_app by auto. simpl. rewrite IH, app_length, Hb.
    replace (n + length s + n - 1) with ((length s + n - 1) + 1 * n) by lia.
    rewrite Nat.div_add by lia. lia.
Qed.

(* ------------------------------------------------------------------ *)
(** * NumPy primitives *)

(** [a[i:j]] for non-negative bounds: NumPy clips at the length. *)
Definition slice {A} (i j : nat) (s : list A) : list A := skipn i (firstn j s).

(** [buf[i:j] = v] along the first axis, 0 <= i.  NumPy: the selected range is
    clipped at the length of [buf]; [v] must have the same number of rows, or
    exactly one row, which is then broadcast; otherwise ValueError. *)
Definition np_assign {A} (buf : list A) (i j : nat) (v : list A) : option (list A) :=
  let i' := Nat.min i (length buf) in
  let j' := Nat.max i' (Nat.min j (length buf)) in
  let n := j' - i' in
  if length v =? n then Some (firstn i' buf ++ v ++ skipn j' buf)
  else match v with
       | [x] => Some (firstn i' buf ++ repeat x n ++ skipn j' buf)
       | _ => None
       end.

Lemma slice_length {A} i j (s : list A) :
  length (slice i j s) = Nat.min j (length s) - i.
Proof. unfold slice. rewrite skipn_length, firstn_length. reflexivity. Qed.

Lemma np_assign_exact {A} (buf : list A) i j v :
  i <= j <= length buf -> length v = j - i ->
  np_assign buf i j v = Some (firstn i buf ++ v ++ skipn j buf).
Proof.
  intros H Hv. unfold np_assign.
  rewrite (Nat.min_l i), (Nat.min_l j), Nat.max_r by lia.
  rewrite (proj2 (Nat.eqb_eq _ _) Hv). reflexivity.
Qed.

Lemma firstn_app_exact {A} (a b : list A) n :
  length a = n -> firstn n (a ++ b) = a.
Proof.
  intros <-. rewrite firstn_app, Nat.sub_diag, firstn_all. simpl. apply app_nil_r.
Qed.

Lemma skipn_app_exact {A} (a b : list A) n :
  length a = n -> skipn n (a ++ b) = b.
Proof.
  intros <-. rewrite skipn_app, Nat.sub_diag, skipn_all. reflexivity.
Qed.

Lemma skipn_skipn' {A} i j (s : list A) : skipn i (skipn j s) = skipn (i + j) s.
Proof.
  revert s. induction j as [|j IH]; intros s.
  - now rewrite Nat.add_0_r.
  - replace (i + S j) with (S (i + j)) by lia. destruct s; simpl.
    + now destruct i.
    + apply IH.
Qed.

Lemma firstn_firstn' {A} i j (s : list A) : firstn i (firstn j s) = firstn (Nat.min i j) s.
Proof. apply firstn_firstn. Qed.

Lemma nth_error_skipn' {A} i k (s : list A) : nth_error (skipn i s) k = nth_error s (i + k).
Proof.
  revert s. induction i as [|i IH]; intros s; simpl; auto.
  destruct s; simpl; auto. now destruct k.
Qed.

Lemma nth_error_firstn' {A} j k (s : list A) :
  nth_error (firstn j s) k = if k <? j then nth_error s k else None.
Proof.
  revert k s. induction j as [|j IH]; intros k s.
  - simpl. destruct k; reflexivity.
  - destruct s as [|a s].
    + rewrite firstn_nil. destruct k; simpl; [reflexivity|]. now destruct (S k <? S j).
    + destruct k; simpl; auto. rewrite IH. reflexivity.
Qed.

Lemma list_eq_dec_nil {A} (l : list A) : {l = []} + {l <> []}.
Proof. destruct l; [left|right]; congruence. Qed.

Lemma list_ext {A} (a b : list A) :
  (forall k, nth_error a k = nth_error b k) -> a = b.
Proof.
  revert b. induction a as [|x a IH]; intros [|y b] H; auto.
  - specialize (H 0). discriminate.
  - specialize (H 0). discriminate.
  - f_equal.
    + specialize (H 0). simpl in H. congruence.
    + apply IH. intros k. exact (H (S k)).
Qed.

(* ------------------------------------------------------------------ *)
(** * The generic loop [for block in source.result(num): body] *)

(** [body] maps the loop state and one block to the new state, the blocks
    yielded while handling it, and possibly an exception. *)
Fixpoint for_blocks {S A B} (body : S -> list A -> S * list (list B) * option exn)
    (st : S) (bs : list (list A)) : S * list (list B) * option exn :=
  match bs with
  | [] => (st, [], None)
  | b :: bs' =>
      match body st b with
      | (st', ys, Some e) => (st', ys, Some e)
      | (st', ys, None) =>
          match for_blocks body st' bs' with
          | (st'', ys', e) => (st'', ys ++ ys', e)
          end
      end
  end.

(** The whole generator: loop over the source's blocks, propagate an exception
    of the source, and after normal exhaustion run [post]. *)
Definition run_for {S A B} (body : S -> list A -> S * list (list B) * option exn)
    (st : S) (src : trace A) (post : S -> trace B) : trace B :=
  match for_blocks body st (blocks src) with
  | (_, ys, Some e) => mkTrace ys (Raised e)
  | (st', ys, None) =>
      match fin src with
      | Raised e => mkTrace ys (Raised e)
      | Finished => mkTrace (ys ++ blocks (post st')) (fin (post st'))
      end
  end.

(** [yield f(block)] for every block. *)
Definition map_gen {A B} (f : list A -> list B) (src : trace A) : trace B :=
  mkTrace (map f (blocks src)) (fin src).

Lemma map_gen_wf {A B} (f : A -> B) (src : source A) s :
  wf_source src s -> wf_source (fun num => map_gen (map f) (src num)) (map f s).
Proof.
  intros H num Hn. rewrite (wf_source_eq src s) by auto.
  unfold map_gen, done; simpl. rewrite chunks_map by auto. now apply delivers_chunks.
Qed.

(** Options over lists *)
Fixpoint sequence {A} (l : list (option A)) : option (list A) :=
  match l with
  | [] => Some []
  | None :: _ => None
  | Some x :: r => match sequence r with Some r' => Some (x :: r') | None => None end
  end.
