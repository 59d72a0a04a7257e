(** Consumers of a stream: return_result (/repo/acoular/tools/helpers.py),
    WriteH5 and WriteWAV (/repo/acoular/tprocess.py), and
    GenericSignalGenerator (/repo/acoular/signals.py). *)
From Coq Require Import List Arith Lia ZArith Bool.
Require Import ZifyBool ZifyNat ZifyN.
From Verif Require Import Stream Sources.
Import ListNotations.
Ltac Zify.zify_post_hook ::= Z.div_mod_to_equations.

(* ------------------------------------------------------------------ *)
(** * return_result *)

(** Taking items from a generator with [for _, x in zip(range(n), gen)]: at
    most [n] items are requested.  Returns the blocks obtained and the
    exception, if the generator raised one while being asked for an item. *)
Fixpoint take_gen {A} (n : nat) (bs : list (list A)) (e : ending) : list (list A) * option exn :=
  match n with
  | 0 => ([], None)
  | S n' => match bs with
            | [] => ([], match e with Finished => None | Raised x => Some x end)
            | b :: bs' => let '(l, x) := take_gen n' bs' e in (b :: l, x)
            end
  end.

(** numpy.concatenate of a list of blocks: refuses an empty list. *)
Definition np_concatenate {A} (l : list (list A)) : list A + exn :=
  match l with [] => inr ValueError | _ => inl (concat l) end.

(** return_result, tools/helpers.py:128-158.  The first component is the value
    or exception, the second the number of blocks taken from the source. *)
Definition return_result {A} (src : source A) (nmax : Z) (num : nat) : (list A + exn) * nat :=
  if (nmax >? 0)%Z then
    let nblocks := Z.to_nat ((nmax - 1) / Z.of_nat num + 1) in
    match take_gen nblocks (blocks (src num)) (fin (src num)) with
    | (l, Some x) => (inr x, length l)
    | (l, None) => (match np_concatenate l with
                    | inl r => inl (firstn (Z.to_nat nmax) r)
                    | inr x => inr x
                    end, length l)
    end
  else
    match fin (src num) with
    | Raised x => (inr x, length (blocks (src num)))
    | Finished => (np_concatenate (blocks (src num)), length (blocks (src num)))
    end.

Lemma take_gen_ok {A} n (bs : list (list A)) :
  take_gen n bs Finished = (firstn n bs, None).
Proof.
  revert bs. induction n as [|n IH]; intros [|b bs]; auto. simpl. now rewrite IH.
Qed.

Lemma concat_firstn_chunks {A} num k (s : list A) : 0 < num ->
  concat (firstn k (chunks num s)) = firstn (k * num) s.
Proof.
  intros Hn. revert s. induction k as [|k IH]; intros s; [reflexivity|].
  destruct s as [|a s].
  - now rewrite chunks_nil, !firstn_nil.
  - rewrite (chunks_step num (a :: s)) by (auto; discriminate).
    cbn [firstn concat]. rewrite IH. rewrite <- (firstn_skipn num (firstn (S k * num) (a :: s))).
    rewrite firstn_firstn', Nat.min_l by lia. f_equal.
    rewrite skipn_firstn_comm. f_equal. lia.
Qed.

Lemma chunks_neq_nil {A} num (s : list A) : 0 < num -> s <> [] -> chunks num s <> [].
Proof. intros Hn Hs. rewrite chunks_step by auto. discriminate. Qed.

(** [nmax <= 0]: the whole stream; otherwise its first [nmax] rows; at most
    [ceil(nmax/num)] blocks are taken; an empty stream gives ValueError. *)
Theorem return_result_spec {A} (src : source A) s nmax num :
  wf_source src s -> 0 < num ->
  (s = [] -> fst (return_result src nmax num) = inr ValueError)
  /\ (s <> [] -> (nmax <= 0)%Z -> fst (return_result src nmax num) = inl s)
  /\ (s <> [] -> (nmax > 0)%Z ->
        fst (return_result src nmax num) = inl (firstn (Z.to_nat nmax) s)
        (* no block is taken beyond those that contain the first nmax rows *)
        /\ (Z.of_nat (snd (return_result src nmax num) - 1) * Z.of_nat num < nmax)%Z).
Proof.
  intros Hw Hn. unfold return_result. rewrite (wf_source_eq src s) by auto. cbn [blocks fin done].
  rewrite take_gen_ok.
  split; [|split].
  - intros ->. rewrite chunks_nil, firstn_nil. now destruct (nmax >? 0)%Z.
  - intros Hs Hm. destruct (Z.gtb_spec nmax 0); [lia|]. cbn [fst].
    unfold np_concatenate. destruct (chunks num s) eqn:E.
    + now apply chunks_neq_nil in E.
    + now rewrite <- E, concat_chunks by auto.
  - intros Hs Hm. destruct (Z.gtb_spec nmax 0); [|lia].
    set (nb := Z.to_nat ((nmax - 1) / Z.of_nat num + 1)).
    assert (0 < nb /\ Z.to_nat nmax <= nb * num /\ (Z.of_nat (nb - 1) * Z.of_nat num < nmax)%Z) as (H1 & H2 & H3).
    { pose proof (Z.div_mod (nmax - 1) (Z.of_nat num) ltac:(lia)) as E.
      pose proof (Z.mod_pos_bound (nmax - 1) (Z.of_nat num) ltac:(lia)) as B.
      assert (0 <= (nmax - 1) / Z.of_nat num)%Z as P by (apply Z.div_pos; lia).
      unfold nb. revert E B P. generalize ((nmax - 1) / Z.of_nat num)%Z.
      generalize ((nmax - 1) mod Z.of_nat num)%Z. intros m q E B P.
      assert (Z.of_nat (Z.to_nat (q + 1)) = q + 1)%Z as Eq by lia.
      generalize dependent (Z.to_nat (q + 1)). intros n Eq. repeat split; [lia|nia|nia]. }
    cbn [fst snd]. split.
    + unfold np_concatenate. destruct (firstn nb (chunks num s)) eqn:E.
      * exfalso. apply (f_equal (@length _)) in E. rewrite firstn_length in E. simpl in E.
        assert (length (chunks num s) <> 0); [|lia].
        intros Z0. apply length_zero_iff_nil in Z0. revert Z0. now apply chunks_neq_nil.
      * rewrite <- E, concat_firstn_chunks by auto. rewrite firstn_firstn', Nat.min_l by lia. reflexivity.
    + rewrite firstn_length. nia.
Qed.

(* ------------------------------------------------------------------ *)
(** * WriteH5 *)

(** What is observable of WriteH5.result: for every yielded block the block
    and the (flushed) contents of the file at that moment; the contents of the
    file at the end; how the generator ended. *)
Record h5_run (A : Type) := mkRun { yields : list (list A * list A); file : list A; stop : ending }.
Arguments mkRun {A} _ _ _.
Arguments yields {A} _.
Arguments file {A} _.
Arguments stop {A} _.

(** WriteH5.result, tprocess.py:1926-1950: the while loop.  [flag it] is the
    value of [write_flag] when it is tested for the [it]-th time (the consumer
    may clear it between two blocks). [append_data] followed by [flush] is
    atomic here; a crash inside it is treated with the HDF5 file layer. *)
Fixpoint write_loop {A} (flag : nat -> bool) (num : nat) (stotal : Z)
    (bs : list (list A)) (e : ending) (it : nat) (scount : Z) (f : list A) : h5_run A :=
  if flag it then
    let sleft := (stotal - scount)%Z in
    let anz := if negb (stotal =? -1)%Z && (sleft >? 0)%Z then Some (Z.min (Z.of_nat num) sleft)
               else if (stotal =? -1)%Z then Some (Z.of_nat num)
               else None in
    match anz with
    | None => mkRun [] f Finished
    | Some anz =>
        match bs with
        | [] => mkRun [] f e
        | data :: bs' =>
            let f' := f ++ firstn (Z.to_nat anz) data in
            let r := write_loop flag num stotal bs' e (S it) (scount + anz)%Z f' in
            mkRun ((data, f') :: yields r) (file r) (stop r)
        end
    end
  else mkRun [] f Finished.

(** The file is created empty (tprocess.py:1882-1890); [write_flag] is set
    first, so the first test sees True. *)
Definition write_h5_result {A} (flag : nat -> bool) (stotal : Z) (src : source A) (num : nat)
    : h5_run A :=
  write_loop (fun it => match it with 0 => true | _ => flag it end) num stotal
    (blocks (src num)) (fin (src num)) 0 0 [].

(** WriteH5.save, tprocess.py:1892-1898. *)
Definition write_h5_save {A} (src : source A) : list A * ending :=
  (concat (blocks (src 4096)), fin (src 4096)).

(** rows the limit allows *)
Definition limit {A} (stotal : Z) (s : list A) : list A :=
  if (stotal =? -1)%Z then s else firstn (Z.to_nat stotal) s.

Lemma limit_firstn {A} stotal n (s : list A) :
  limit stotal (firstn n s) = firstn n (limit stotal s).
Proof.
  unfold limit. destruct (stotal =? -1)%Z; auto. now rewrite !firstn_firstn', Nat.min_comm.
Qed.


Lemma write_loop_nil {A} flag num stotal it sc (f : list A) :
  write_loop flag num stotal [] Finished it sc f = mkRun [] f Finished.
Proof.
  simpl. destruct (flag it); auto.
  match goal with |- match ?x with _ => _ end = _ => destruct x; reflexivity end.
Qed.

(** Loop characterisation from iteration [k] on: [m] more blocks are handled. *)
Lemma write_loop_ok {A} flag num stotal : 0 < num -> (-1 <= stotal)%Z ->
  forall (rest pre : list A) k scount,
  length pre = k * num ->
  scount = (if (stotal =? -1)%Z then Z.of_nat (k * num) else Z.min (Z.of_nat (k * num)) stotal) ->
  exists m,
    write_loop flag num stotal (chunks num rest) Finished k scount (limit stotal pre)
    = mkRun (combine (firstn m (chunks num rest))
               (map (fun j => limit stotal (firstn (S j * num) (pre ++ rest))) (seq k m)))
            (limit stotal (firstn ((k + m) * num) (pre ++ rest))) Finished
    /\ m <= length (chunks num rest)
    /\ (forall j, k <= j < k + m ->
          flag j = true /\ j * num < length (pre ++ rest) /\
          (stotal = -1 \/ Z.of_nat (j * num) < stotal)%Z)
    /\ (length (pre ++ rest) <= (k + m) * num \/ flag (k + m) = false
        \/ (stotal <> -1 /\ stotal <= Z.of_nat ((k + m) * num))%Z).
Proof.
  intros Hn Hst rest. induction rest as [rest IH] using (well_founded_induction (well_founded_ltof _ (@length A))).
  intros pre k scount Hpre Hsc.
  assert (firstn (k * num) (pre ++ rest) = pre) as Hfk by (rewrite <- Hpre; now apply firstn_app_exact).
  assert (forall r, r = mkRun [] (limit stotal pre) Finished ->
    (length (pre ++ rest) <= k * num \/ flag k = false
        \/ (stotal <> -1 /\ stotal <= Z.of_nat (k * num))%Z) ->
    exists m, r = mkRun (combine (firstn m (chunks num rest))
               (map (fun j => limit stotal (firstn (S j * num) (pre ++ rest))) (seq k m)))
            (limit stotal (firstn ((k + m) * num) (pre ++ rest))) Finished
    /\ m <= length (chunks num rest)
    /\ (forall j, k <= j < k + m ->
          flag j = true /\ j * num < length (pre ++ rest) /\
          (stotal = -1 \/ Z.of_nat (j * num) < stotal)%Z)
    /\ (length (pre ++ rest) <= (k + m) * num \/ flag (k + m) = false
        \/ (stotal <> -1 /\ stotal <= Z.of_nat ((k + m) * num))%Z)) as Hstop.
  { intros r -> Hc. exists 0. rewrite Nat.add_0_r, Hfk. cbn [firstn combine]. repeat split; auto; lia. }
  destruct (list_eq_dec_nil rest) as [->|Hne].
  - apply Hstop; [|left; rewrite app_nil_r; lia].
    rewrite chunks_nil. apply write_loop_nil.
  - rewrite (chunks_step num rest) in * by auto. cbn [write_loop].
    destruct (flag k) eqn:Ef; [|apply Hstop; auto].
    set (anz := if negb (stotal =? -1)%Z && (stotal - scount >? 0)%Z then _ else _).
    destruct anz as [a|] eqn:Ea; unfold anz in Ea; clear anz.
    + assert ((stotal = -1 /\ a = Z.of_nat num) \/
              (stotal <> -1 /\ Z.of_nat (k * num) < stotal /\
               a = Z.min (Z.of_nat num) (stotal - Z.of_nat (k * num))))%Z as Ha.
      { destruct (Z.eqb_spec stotal (-1)).
        - simpl in Ea. injection Ea as <-. left. split; auto.
        - simpl in Ea. destruct (Z.gtb_spec (stotal - scount) 0); [|discriminate].
          injection Ea as <-. right. repeat split; auto; lia. }
      set (b := firstn num rest). set (rest' := skipn num rest).
      assert (limit stotal pre ++ firstn (Z.to_nat a) b = limit stotal (pre ++ b)) as Hf.
      { unfold limit. destruct Ha as [[-> ->]|(H1 & H2 & ->)].
        - simpl. f_equal. rewrite Nat2Z.id. unfold b. rewrite firstn_firstn', Nat.min_id. reflexivity.
        - destruct (Z.eqb_spec stotal (-1)); [contradiction|].
          rewrite firstn_app. rewrite (firstn_all2 pre) by lia. f_equal.
          rewrite Hpre. unfold b. rewrite !firstn_firstn'. f_equal. lia. }
      rewrite Hf.
      destruct (le_lt_dec (length rest) num) as [Hshort|Hlong].
      * (* last block: nothing left afterwards *)
        assert (rest' = []) as Hr by (unfold rest'; apply skipn_all2; auto).
        assert (b = rest) as Hb by (unfold b; apply firstn_all2; auto).
        rewrite Hr, chunks_nil. exists 1.
        replace (write_loop flag num stotal [] Finished (S k) (scount + a)%Z (limit stotal (pre ++ b)))
          with (mkRun (A := A) [] (limit stotal (pre ++ b)) Finished).
        2:{ symmetry. apply write_loop_nil. }
        cbn [yields file stop firstn seq map combine].
        assert (length (pre ++ rest) <= S k * num) as Hlen by (rewrite app_length; lia).
        replace (k + 1) with (S k) by lia.
        rewrite (firstn_all2 (pre ++ rest)) by auto.
        split; [now rewrite Hb|]. split; [simpl; lia|]. split; [|auto].
        intros j Hj. assert (j = k) by lia. subst j. split; auto. split.
        -- rewrite app_length. destruct rest; [congruence|]. simpl. lia.
        -- destruct Ha as [[? ?]|(? & ? & ?)]; auto.
      * assert (length b = num) as Hlb by (unfold b; rewrite firstn_length; lia).
        destruct (IH rest') with (pre := pre ++ b) (k := S k) (scount := (scount + a)%Z)
          as (m & H1 & H2 & H3 & H4).
        { unfold ltof, rest'. rewrite skipn_length. lia. }
        { rewrite app_length. lia. }
        { rewrite Hsc. destruct (Z.eqb_spec stotal (-1)); destruct Ha as [[? ->]|(? & ? & ->)]; lia. }
        assert ((pre ++ b) ++ rest' = pre ++ rest) as Hap.
        { rewrite <- app_assoc. f_equal. apply firstn_skipn. }
        rewrite Hap in *. exists (S m). rewrite H1. cbn [yields file stop firstn seq map combine].
        replace (k + S m) with (S k + m) by lia.
        split; [|split; [|split]]; auto.
        -- do 3 f_equal. rewrite <- Hap. symmetry.
           rewrite firstn_app_exact; auto. rewrite app_length. lia.
        -- simpl. lia.
        -- intros j Hj. destruct (Nat.eq_dec j k) as [->|]; [|apply H3; lia].
           split; auto. split; [rewrite app_length; lia|].
           destruct Ha as [[? ?]|(? & ? & ?)]; auto.
    + apply Hstop; auto. right. right.
      destruct (Z.eqb_spec stotal (-1)); simpl in Ea; [discriminate|].
      destruct (Z.gtb_spec (stotal - scount) 0); [discriminate|]. lia.
Qed.

(** In every case the yielded blocks are the source's first blocks, and the
    file holds, at every yield and at the end, the rows handled so far up to
    the limit.  [K] is the number of blocks handled; it ends because the stream
    is exhausted, the flag was cleared, or the limit is reached. *)
Theorem write_h5_spec {A} flag stotal (src : source A) s num :
  wf_source src s -> 0 < num -> (-1 <= stotal)%Z ->
  let r := write_h5_result flag stotal src num in
  exists K,
    stop r = Finished
    /\ map fst (yields r) = firstn K (chunks num s)
    /\ map snd (yields r) = map (fun j => limit stotal (firstn (S j * num) s)) (seq 0 K)
    /\ file r = limit stotal (firstn (K * num) s)
    /\ (forall j, j < K -> (j = 0 \/ flag j = true) /\ (stotal = -1 \/ Z.of_nat (j * num) < stotal)%Z)
    /\ (length s <= K * num \/ (0 < K /\ flag K = false)
        \/ (stotal <> -1 /\ stotal <= Z.of_nat (K * num))%Z).
Proof.
  intros Hw Hn Hst r. unfold r, write_h5_result. rewrite (wf_source_eq src s) by auto.
  cbn [blocks fin done].
  set (fl := fun it => match it with 0 => true | S _ => flag it end).
  destruct (write_loop_ok fl num stotal Hn Hst s [] 0 0%Z eq_refl) as (K & H1 & H2 & H3 & H4).
  { destruct (stotal =? -1)%Z eqn:E; simpl; lia. }
  replace (limit stotal []) with (@nil A) in H1.
  2:{ unfold limit. rewrite firstn_nil. now destruct (stotal =? -1)%Z. }
  rewrite H1. exists K. cbn [yields file stop]. rewrite !Nat.add_0_l in *.
  change ([] ++ s) with s in *.
  assert (length (firstn K (chunks num s))
          = length (map (fun j => limit stotal (firstn (S j * num) s)) (seq 0 K))) as Hl.
  { rewrite firstn_length, map_length, seq_length. lia. }
  assert (forall (X Y : Type) (a : list X) (b : list Y), length a = length b ->
            map fst (combine a b) = a /\ map snd (combine a b) = b) as Hc.
  { clear. induction a as [|x a IH]; intros [|y b] H; simpl in *; try lia; auto.
    destruct (IH b ltac:(lia)) as [E1 E2]. now rewrite E1, E2. }
  destruct (Hc _ _ _ _ Hl) as [E1 E2].
  repeat match goal with |- _ /\ _ => split end; auto.
  - intros j Hj. destruct (H3 j ltac:(lia)) as (F & _ & G). split; auto.
    destruct j; [auto|right; exact F].
  - destruct H4 as [H4|[H4|H4]]; auto. right. left. destruct K; [discriminate H4|]. split; [lia|exact H4].
Qed.

(** Without clearing the flag: everything is recorded up to the limit, and
    without a limit everything is passed through. *)
Theorem write_h5_complete {A} flag stotal (src : source A) s num :
  wf_source src s -> 0 < num -> (-1 <= stotal)%Z -> (forall j, flag j = true) ->
  let r := write_h5_result flag stotal src num in
  file r = limit stotal s
  /\ (stotal = -1 -> delivers num s (mkTrace (map fst (yields r)) (stop r)))%Z.
Proof.
  intros Hw Hn Hst Hf r. destruct (write_h5_spec flag stotal src s num Hw Hn Hst)
    as (K & H1 & H2 & H3 & H4 & H5 & H6). fold r in H1, H2, H3, H4. split.
  - rewrite H4. destruct H6 as [H6|[[_ H6]|[H6 H7]]].
    + now rewrite firstn_all2 by auto.
    + now rewrite Hf in H6.
    + unfold limit. destruct (Z.eqb_spec stotal (-1)); [contradiction|].
      rewrite firstn_firstn'. f_equal. lia.
  - intros E. destruct H6 as [H6|[[_ H6]|[H6 H7]]]; [|now rewrite Hf in H6|contradiction].
    rewrite H1, H2. apply delivers_iff; auto. unfold done. f_equal.
    apply firstn_all2. rewrite length_chunks by auto.
    apply Nat.lt_succ_r, Nat.div_lt_upper_bound; [lia|]. clear - H6 Hn. nia.
Qed.

Theorem write_h5_save_spec {A} (src : source A) s :
  wf_source src s -> write_h5_save src = (s, Finished).
Proof.
  intros Hw. unfold write_h5_save. rewrite (wf_source_eq src s) by (auto; lia).
  cbn [blocks fin done]. now rewrite concat_chunks by lia.
Qed.
