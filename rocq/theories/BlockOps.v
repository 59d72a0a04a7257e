(** Processing blocks that work block by block: TimePower, ChannelMixer,
    TimeReverse, TimeCumAverage, Filter, FiltFiltOctave, FilterBank
    (/repo/acoular/tprocess.py) and Average (/repo/acoular/process.py). *)
From Coq Require Import List Arith Lia ZArith Bool Reals Lra.
Require Import ZifyBool ZifyNat ZifyN.
From Verif Require Import Stream Sources.
Import ListNotations.
Ltac Zify.zify_post_hook ::= Z.div_mod_to_equations.

(* ------------------------------------------------------------------ *)
(** * Stateful sample-by-sample processing *)

Fixpoint scan {S A B} (step : S -> A -> S * B) (st : S) (l : list A) : S * list B :=
  match l with
  | [] => (st, [])
  | x :: r => let '(st1, y) := step st x in
              let '(st2, ys) := scan step st1 r in (st2, y :: ys)
  end.

Lemma scan_app {S A B} (step : S -> A -> S * B) st a b :
  scan step st (a ++ b) =
  (let '(st1, ya) := scan step st a in let '(st2, yb) := scan step st1 b in (st2, ya ++ yb)).
Proof.
  revert st. induction a as [|x a IH]; intros st; simpl.
  - destruct (scan step st b); reflexivity.
  - destruct (step st x) as [st1 y]. rewrite IH.
    destruct (scan step st1 a) as [st2 ya]. destruct (scan step st2 b). reflexivity.
Qed.

Lemma scan_length {S A B} (step : S -> A -> S * B) st a :
  length (snd (scan step st a)) = length a.
Proof.
  revert st. induction a as [|x a IH]; intros st; simpl; auto.
  destruct (step st x) as [st1 y]. specialize (IH st1).
  destruct (scan step st1 a). simpl in *. lia.
Qed.

(** A loop that carries the state [S] from block to block. *)
Definition stateful_gen {S A B} (f : S -> list A -> S * list B) (st0 : S) (src : trace A) : trace B :=
  run_for (fun st b => let '(st', o) := f st b in (st', [o], None)) st0 src (fun _ => done []).

(** If processing a block is scanning its rows, processing the blocks is
    scanning the whole stream. *)
Lemma stateful_gen_scan {S A B} (step : S -> A -> S * B) st0 (s : list A) num :
  0 < num ->
  stateful_gen (scan step) st0 (done (chunks num s))
  = done (chunks num (snd (scan step st0 s))).
Proof.
  intros Hn. unfold stateful_gen, run_for. cbn [blocks fin done].
  assert (forall st, for_blocks (fun st b => let '(st', o) := scan step st b in (st', [o], None))
            st (chunks num s) = (fst (scan step st s), chunks num (snd (scan step st s)), None)) as H.
  { pattern s. revert s. apply (stream_ind num); auto.
    - intros s Hs st. rewrite (chunks_short num s) by auto. simpl.
      pose proof (scan_length step st s) as Hl.
      destruct (scan step st s) as [st' o]. simpl in *.
      rewrite chunks_short by lia. reflexivity.
    - intros b s Hb Hs IH st. rewrite chunks_app by auto. simpl. rewrite scan_app.
      pose proof (scan_length step st b) as Hl.
      destruct (scan step st b) as [st' o]. rewrite IH. simpl in Hl.
      destruct (scan step st' s) as [st2 o2]. simpl.
      rewrite chunks_app by lia. reflexivity. }
  rewrite H. simpl. unfold done. now rewrite app_nil_r.
Qed.

Lemma stateful_gen_wf {S A B} (step : S -> A -> S * B) st0 (src : source A) s :
  wf_source src s ->
  wf_source (fun num => stateful_gen (scan step) st0 (src num)) (snd (scan step st0 s)).
Proof.
  intros H num Hn. rewrite (wf_source_eq src s) by auto.
  rewrite stateful_gen_scan by auto. now apply delivers_chunks.
Qed.

(* ------------------------------------------------------------------ *)
(** * TimeReverse *)

(** The loop of tprocess.py:1434-1437 over the blocks in reverse order;
    [temp] is the working block, [nsh] the length of the last source block. *)
Fixpoint time_reverse_loop {A} (nsh : nat) (temp : list A) (l : list (list A)) : trace A :=
  match l with
  | [] => done [firstn nsh temp]
  | h :: l' =>
      (* temp[nsh:] = h[:nsh-1:-1] *)
      match np_assign temp nsh (length temp) (rev (skipn nsh h)) with
      | None => raise ValueError
      | Some temp1 =>
          (* yield temp; temp[:nsh] = h[nsh-1::-1] *)
          match np_assign temp1 0 nsh (rev (firstn nsh h)) with
          | None => mkTrace [temp1] (Raised ValueError)
          | Some temp2 => let t := time_reverse_loop nsh temp2 l' in
                          mkTrace (temp1 :: blocks t) (fin t)
          end
      end
  end.

(** TimeReverse.result, tprocess.py:1412-1438.  [empty_like(result_list[0])] is
    uninitialised memory ([garbage]).  The value of each yielded block is the
    one at the time of the yield; that the same array is reused is the subject
    of Alias.v. *)
Definition time_reverse_result {A} (garbage : nat -> A) (src : source A) (num : nat) : trace A :=
  match fin (src num) with
  | Raised e => raise e
  | Finished =>
      match blocks (src num), rev (blocks (src num)) with
      | first :: _, h :: before =>
          let temp := map garbage (seq 0 (length first)) in
          let nsh := length h in
          match np_assign temp 0 nsh (rev h) with
          | None => raise ValueError
          | Some temp => time_reverse_loop nsh temp before
          end
      | _, _ => raise IndexError
      end
  end.

Lemma time_reverse_loop_ok {A} num nsh (l : list (list A)) : 0 < num -> 0 < nsh <= num ->
  forall temp P,
  Forall (fun h => length h = num) l -> length temp = num -> firstn nsh temp = P -> length P = nsh ->
  time_reverse_loop nsh temp l = done (chunks num (P ++ concat (map (@rev A) l))).
Proof.
  intros Hn Hnsh. induction l as [|h l IH]; intros temp P Hl Ht HP HlP.
  - simpl. rewrite app_nil_r, HP. rewrite chunks_short by lia. reflexivity.
  - inversion Hl as [|? ? Hh Hl']; subst l0 x. simpl.
    rewrite np_assign_exact; [|lia|rewrite rev_length, skipn_length; lia].
    rewrite HP, (skipn_all2 temp), app_nil_r by lia.
    set (temp1 := P ++ rev (skipn nsh h)).
    assert (length temp1 = num) as Ht1.
    { unfold temp1. rewrite app_length, rev_length, skipn_length. lia. }
    rewrite np_assign_exact; [|lia|rewrite rev_length, firstn_length; lia].
    rewrite (IH _ (rev (firstn nsh h))); auto.
    + unfold done. simpl. f_equal.
      replace (P ++ rev h ++ concat (map (@rev A) l))
        with (temp1 ++ (rev (firstn nsh h) ++ concat (map (@rev A) l))).
      * rewrite (chunks_app num temp1) by assumption. reflexivity.
      * unfold temp1. rewrite <- !app_assoc. f_equal. rewrite app_assoc, <- rev_app_distr.
        now rewrite firstn_skipn.
    + simpl. rewrite app_length, rev_length, firstn_length, skipn_length. lia.
    + simpl. apply firstn_app_exact. rewrite rev_length, firstn_length. lia.
    + rewrite rev_length, firstn_length. lia.
Qed.

(** Decomposition of a list of full blocks. *)
Lemma full_blocks_snoc {A} num (bs : list (list A)) :
  0 < num -> full_blocks num bs -> bs <> [] ->
  exists pre h, bs = pre ++ [h] /\ Forall (fun b => length b = num) pre /\ 0 < length h <= num.
Proof.
  intros Hn H. induction H as [|b Hb|b c bs Hb H IH]; intros Hne; [congruence| |].
  - exists [], b. auto.
  - destruct IH as (pre & h & E & Hp & Hh); [discriminate|].
    exists (b :: pre), h. rewrite E. repeat split; auto; lia.
Qed.

Lemma concat_rev {A} (bs : list (list A)) : concat (map (@rev A) (rev bs)) = rev (concat bs).
Proof.
  induction bs as [|b bs IH]; simpl; auto.
  rewrite map_app, concat_app, IH, rev_app_distr. simpl. now rewrite app_nil_r.
Qed.

Theorem time_reverse_delivers {A} garbage (src : source A) s :
  wf_source src s -> s <> [] -> wf_source (time_reverse_result garbage src) (rev s).
Proof.
  intros Hsrc Hs num Hn. apply delivers_iff; auto. unfold time_reverse_result.
  rewrite (wf_source_eq src s) by auto. cbn [blocks fin done].
  destruct (full_blocks_snoc num (chunks num s)) as (pre & h & E & Hp & Hh); auto.
  { now apply chunks_full_blocks. }
  { rewrite chunks_step by auto. discriminate. }
  pose proof (concat_chunks num s Hn) as Hc. rewrite E in Hc. rewrite E.
  rewrite rev_app_distr. simpl rev at 1. cbn [app].
  destruct pre as [|b0 pre].
  - simpl in *. rewrite app_nil_r in Hc. subst h.
    rewrite np_assign_exact.
    + rewrite skipn_all2 by (rewrite map_length, seq_length; lia).
      simpl. rewrite app_nil_r.
      rewrite firstn_all2 by (rewrite rev_length; lia).
      rewrite chunks_short; auto. now rewrite rev_length.
    + rewrite map_length, seq_length. lia.
    + rewrite rev_length. lia.
  - inversion Hp as [|? ? Hb0 Hp']; subst x l. cbn [app].
    rewrite np_assign_exact.
    + rewrite (time_reverse_loop_ok num (length h) _ Hn ltac:(lia) _ (rev h)).
      * rewrite concat_rev, <- rev_app_distr.
        rewrite concat_app in Hc. replace (concat [h]) with h in Hc by (simpl; now rewrite app_nil_r).
        now rewrite Hc.
      * apply Forall_rev. exact Hp.
      * simpl. rewrite app_length, rev_length, skipn_length, map_length, seq_length. lia.
      * simpl. apply firstn_app_exact. now rewrite rev_length.
      * now rewrite rev_length.
    + rewrite map_length, seq_length. lia.
    + rewrite rev_length. lia.
Qed.

Theorem time_reverse_empty {A} garbage (src : source A) num :
  0 < num -> wf_source src [] -> time_reverse_result garbage src num = raise IndexError.
Proof.
  intros Hn H. unfold time_reverse_result. now rewrite (wf_source_eq src []) by auto.
Qed.

(* ------------------------------------------------------------------ *)
(** * Sample-wise blocks *)

(** TimePower.result, tprocess.py:1353-1370. *)
Definition time_power_result {V} (mul : V -> V -> V) (src : source (list V)) (num : nat)
    : trace (list V) :=
  map_gen (map (fun row => rowmul mul row row)) (src num).

Theorem time_power_delivers {V} (mul : V -> V -> V) (src : source (list V)) s :
  wf_source src s -> wf_source (time_power_result mul src) (map (map (fun x => mul x x)) s).
Proof.
  intros H. replace (map (map (fun x => mul x x)) s) with (map (fun row => rowmul mul row row) s).
  - apply map_gen_wf; auto.
  - apply map_ext. intros r. induction r; simpl; congruence.
Qed.

(** ChannelMixer.result, tprocess.py:285-307. [weights] empty: factor 1. *)
Definition channel_mixer_result {V} (add mul : V -> V -> V) (zero : V) (nch : nat)
    (weights : list V) (src : source (list V)) (num : nat) : trace (list V) :=
  let tot := fold_right add zero in
  match weights with
  | [] => map_gen (map (fun row => [tot row])) (src num)
  | _ =>
      if (length weights =? nch) || (length weights =? 1) then
        run_for (fun (_ : unit) block =>
                   match map_block (fun row => match bmul mul row weights with
                                               | inl r => inl [tot r]
                                               | inr e => inr e
                                               end) block with
                   | inl b => (tt, [b], None)
                   | inr e => (tt, [], Some e)
                   end) tt (src num) (fun _ => done [])
      else raise ValueError
  end.

(** weighted sum of the channels of a row; a single weight is used for all *)
Definition channel_sum {V} (add mul : V -> V -> V) (zero : V) (weights row : list V) : list V :=
  [fold_right add zero
     (match weights with
      | [] => row
      | [w] => map (fun x => mul x w) row
      | _ => rowmul mul row weights
      end)].

Theorem channel_mixer_delivers {V} (add mul : V -> V -> V) zero nch weights (src : source (list V)) s :
  wf_source src s -> Forall (fun r => length r = nch) s ->
  length weights = 0 \/ length weights = 1 \/ length weights = nch ->
  wf_source (channel_mixer_result add mul zero nch weights src)
            (map (channel_sum add mul zero weights) s).
Proof.
  intros Hsrc Hs Hw num Hn. unfold channel_mixer_result.
  destruct weights as [|w ws].
  - apply (map_gen_wf (channel_sum add mul zero []) src s Hsrc num Hn).
  - destruct ((length (w :: ws) =? nch) || (length (w :: ws) =? 1)) eqn:E.
    2:{ exfalso. simpl length in *. lia. }
    apply delivers_iff; auto. rewrite (wf_source_eq src s) by auto. unfold done at 1.
    rewrite (run_for_map _ (channel_sum add mul zero (w :: ws))).
    + unfold done. now rewrite chunks_map.
    + intros b Hb. apply map_block_inl. intros row Hrow.
      pose proof (chunks_in_forall _ num s b Hn Hs Hb) as Hf. rewrite Forall_forall in Hf.
      specialize (Hf row Hrow). unfold bmul, channel_sum.
      destruct ws as [|w2 ws].
      * destruct row as [|x [|x2 row]]; simpl; auto.
      * rewrite Hf. destruct (Nat.eqb_spec nch (length (w :: w2 :: ws))); auto.
        simpl length in *. lia.
Qed.

Theorem channel_mixer_refuses {V} (add mul : V -> V -> V) zero nch weights (src : source (list V)) num :
  length weights <> 0 -> length weights <> 1 -> length weights <> nch ->
  channel_mixer_result add mul zero nch weights src num = raise ValueError.
Proof.
  intros H0 H1 H2. unfold channel_mixer_result. destruct weights as [|w ws]; [simpl in H0; lia|].
  apply Nat.eqb_neq in H1. apply Nat.eqb_neq in H2. rewrite H1, H2. reflexivity.
Qed.

(* ------------------------------------------------------------------ *)
(** * Average *)

(** Average.result, process.py:146-194; [mean] averages a non-empty group of
    rows ([.reshape((nso,-1,nc)).mean(axis=1)]). *)
Definition average_result {Row} (mean : list Row -> Row) (nav : nat) (src : source Row) (num : nat)
    : trace Row :=
  run_for (fun (_ : unit) temp =>
             let nso := length temp / nav in
             if 0 <? nso then (tt, [map mean (chunks nav (firstn (nso * nav) temp))], None)
             else (tt, [], None)) tt (src (num * nav)) (fun _ => done []).

(** Average.num_samples, process.py:139-143, as the quotient of reals. *)
Definition average_num_samples (source_samples nav : nat) : R := (INR source_samples / INR nav)%R.

(** complete groups of [nav] consecutive rows *)
Definition groups {A} (nav : nat) (s : list A) : list (list A) :=
  chunks nav (firstn (length s / nav * nav) s).

Lemma nth_error_chunks {A} n (s : list A) k :
  0 < n -> k * n < length s -> nth_error (chunks n s) k = Some (slice (k * n) (k * n + n) s).
Proof.
  intros Hn. revert s. induction k as [|k IH]; intros s Hk.
  - rewrite chunks_step; [|auto|intros ->; simpl in Hk; lia]. reflexivity.
  - rewrite chunks_step; [|auto|intros ->; simpl in Hk; lia]. simpl.
    rewrite IH by (rewrite skipn_length; lia). f_equal. unfold slice.
    rewrite firstn_skipn_comm, skipn_skipn'. f_equal; [lia|f_equal; lia].
Qed.

Lemma groups_length {A} nav (s : list A) : 0 < nav -> length (groups nav s) = length s / nav.
Proof.
  intros Hn. unfold groups. rewrite length_chunks by auto.
  rewrite firstn_length. pose proof (Nat.mul_div_le (length s) nav).
  rewrite Nat.min_l by lia.
  replace (length s / nav * nav + nav - 1) with ((nav - 1) + (length s / nav) * nav) by lia.
  rewrite Nat.div_add by lia. rewrite Nat.div_small by lia. lia.
Qed.

Lemma groups_nth {A} nav (s : list A) k : 0 < nav -> k < length s / nav ->
  nth_error (groups nav s) k = Some (slice (k * nav) (k * nav + nav) s).
Proof.
  intros Hn Hk. unfold groups.
  pose proof (Nat.mul_div_le (length s) nav) as Hle.
  rewrite nth_error_chunks; auto.
  - f_equal. unfold slice. rewrite firstn_firstn'. f_equal. f_equal. nia.
  - rewrite firstn_length. nia.
Qed.

Lemma groups_app {A} nav k (b s : list A) : 0 < nav -> length b = k * nav ->
  groups nav (b ++ s) = groups nav b ++ groups nav s.
Proof.
  intros Hn. revert b. induction k as [|k IH]; intros b Hb.
  - destruct b; [|simpl in Hb; lia]. unfold groups at 2. rewrite firstn_nil. reflexivity.
  - rewrite <- (firstn_skipn nav b). set (b1 := firstn nav b). set (b2 := skipn nav b).
    assert (length b1 = nav) as H1 by (unfold b1; rewrite firstn_length; lia).
    assert (length b2 = k * nav) as H2 by (unfold b2; rewrite skipn_length; lia).
    assert (forall t : list A, groups nav (b1 ++ t) = b1 :: groups nav t) as Hcons.
    { intros t. unfold groups. rewrite app_length, H1.
      replace (nav + length t) with (length t + 1 * nav) by lia. rewrite Nat.div_add by lia.
      replace ((length t / nav + 1) * nav) with (nav + length t / nav * nav) by lia.
      rewrite firstn_app, H1, (firstn_all2 b1) by (rewrite H1; apply Nat.le_add_r).
      rewrite chunks_app by auto. f_equal. f_equal. f_equal. generalize (length t / nav * nav); intros; lia. }
    rewrite <- app_assoc, !Hcons, IH by auto. reflexivity.
Qed.

Lemma chunks_app_len {A} num k (a b : list A) :
  0 < num -> length a = k * num -> chunks num (a ++ b) = chunks num a ++ chunks num b.
Proof.
  intros Hn. revert a. induction k as [|k IH]; intros a Ha.
  - destruct a; [reflexivity|simpl in Ha; lia].
  - rewrite <- (firstn_skipn num a).
    assert (length (firstn num a) = num) by (rewrite firstn_length; lia).
    rewrite <- app_assoc, (chunks_app num (firstn num a) (skipn num a ++ b)), (chunks_app num (firstn num a) (skipn num a)) by auto.
    rewrite IH by (rewrite skipn_length; lia). reflexivity.
Qed.

Theorem average_delivers {Row} (mean : list Row -> Row) nav (src : source Row) s :
  0 < nav -> wf_source src s ->
  wf_source (average_result mean nav src) (map mean (groups nav s)).
Proof.
  intros Hnav Hsrc num Hn. apply delivers_iff; auto. unfold average_result.
  assert (0 < num * nav) as Hnn by lia.
  rewrite (wf_source_eq src s) by auto. unfold run_for. cbn [blocks fin done].
  set (body := fun (_ : unit) temp => _).
  assert (for_blocks body tt (chunks (num * nav) s)
          = (tt, chunks num (map mean (groups nav s)), None)) as ->.
  2:{ unfold done. simpl. now rewrite app_nil_r. }
  assert (forall b : list Row, 0 < length b <= num * nav ->
     body tt b = (tt, chunks num (map mean (groups nav b)), None)) as Hbody.
  { intros b Hb. unfold body.
    assert (length b / nav <= num) as Hq.
    { apply Nat.div_le_upper_bound; lia. }
    destruct (Nat.ltb_spec 0 (length b / nav)) as [H|H].
    - fold (groups nav b). rewrite chunks_short; auto.
      rewrite map_length, groups_length by auto. lia.
    - assert (groups nav b = []) as ->; [|reflexivity].
      apply length_zero_iff_nil. rewrite groups_length by auto. now apply Nat.le_0_r. }
  pattern s. revert s Hsrc. intros s _. revert s. apply (stream_ind (num * nav)); auto.
  - unfold groups. now rewrite firstn_nil.
  - intros s Hs. rewrite (chunks_short _ s) by auto. simpl. rewrite Hbody by auto.
    now rewrite app_nil_r.
  - intros b s Hb Hs IH. rewrite (chunks_app _ b s) by auto. simpl.
    rewrite Hbody by lia. rewrite IH.
    rewrite (groups_app nav num) by (auto; lia). rewrite map_app.
    rewrite (chunks_app_len num 1); auto.
    rewrite map_length, groups_length by auto. rewrite Hb.
    rewrite Nat.div_mul by lia. lia.
Qed.

(* ------------------------------------------------------------------ *)
(** * Means over the reals (specification) *)
Open Scope R_scope.

Definition rsum (l : list R) : R := fold_right Rplus 0 l.
Definition rmean (l : list R) : R := rsum l / INR (length l).
(** the signal of channel [c] *)
Definition channel (c : nat) (s : list (list R)) : list R := map (fun r => nth c r 0) s.

(** NumPy [mean(axis=...)] over a group of rows with [nc] channels. *)
Definition row_mean (nc : nat) (g : list (list R)) : list R :=
  map (fun c => rmean (channel c g)) (seq 0 nc).

(* ------------------------------------------------------------------ *)
(** * TimeCumAverage *)

Definition radd := rowmul Rplus.
Definition rscale (a : R) (r : list R) : list R := map (fun x => x * a) r.

(** [cumsum(temp, axis=0)] *)
Fixpoint cumsum_from (acc : list R) (b : list (list R)) : list (list R) :=
  match b with
  | [] => []
  | r :: b' => let a := radd acc r in a :: cumsum_from a b'
  end.
Definition cumsum (b : list (list R)) : list (list R) :=
  match b with [] => [] | r :: b' => r :: cumsum_from r b' end.

(** rows [(base + cs_j) / (c0 + j)] *)
Fixpoint div_counts (base : list R) (c0 : nat) (cs : list (list R)) : list (list R) :=
  match cs with
  | [] => []
  | r :: cs' => rscale (/ INR c0) (radd base r) :: div_counts base (S c0) cs'
  end.

(** body of the loop, tprocess.py:1397-1402; the state is [(accu, count[0])],
    [None] before the first block. *)
Definition cum_avg_body (st : option (list R) * nat) (temp : list (list R))
    : (option (list R) * nat) * list (list R) :=
  let '(a, c0) := st in
  let nc := match temp with [] => 0%nat | r :: _ => length r end in
  let accu := match a with None => repeat 0 nc | Some v => v end in
  let out := div_counts (rscale (INR c0 - 1) accu) c0 (cumsum temp) in
  ((Some (last out accu), (c0 + length temp)%nat), out).

(** TimeCumAverage.result, tprocess.py:1379-1403. *)
Definition time_cum_average_result (src : source (list R)) (num : nat) : trace (list R) :=
  stateful_gen cum_avg_body (None, 1%nat) (src num).

(** running means: state is (sum so far, number of rows so far) *)
Definition cum_step (st : list R * nat) (r : list R) : (list R * nat) * list R :=
  let '(p, n) := st in let p' := radd p r in ((p', S n), rscale (/ INR (S n)) p').

Lemma radd_assoc a b c : radd (radd a b) c = radd a (radd b c).
Proof.
  unfold radd. revert b c. induction a as [|x a IH]; intros [|y b] [|z c]; simpl; auto.
  f_equal; [ring|apply IH].
Qed.

Lemma radd_zeros n r : length r = n -> radd (repeat 0 n) r = r.
Proof.
  unfold radd. intros <-. induction r as [|x r IH]; simpl; auto. f_equal; auto. ring.
Qed.

Lemma radd_length a b : length (radd a b) = Nat.min (length a) (length b).
Proof. unfold radd. revert b. induction a; intros [|y b]; simpl; auto. Qed.

Lemma rscale_rscale a b r : rscale a (rscale b r) = rscale (b * a) r.
Proof. unfold rscale. rewrite map_map. apply map_ext. intros. ring. Qed.

Lemma rscale_1 r : rscale 1 r = r.
Proof. unfold rscale. rewrite <- map_id. apply map_ext. intros. ring. Qed.

Lemma rscale_0 r : rscale 0 r = repeat 0 (length r).
Proof. unfold rscale. induction r; simpl; auto. f_equal; auto. ring. Qed.

Lemma div_counts_scan_from base acc n b :
  div_counts base (S n) (cumsum_from acc b) = snd (scan cum_step (radd base acc, n) b).
Proof.
  revert acc n. induction b as [|r b IH]; intros acc n; simpl; auto.
  rewrite <- radd_assoc.
  specialize (IH (radd acc r) (S n)). rewrite <- radd_assoc in IH.
  destruct (scan cum_step (radd (radd base acc) r, S n) b) as [st o]. simpl in *.
  now rewrite IH.
Qed.

Lemma div_counts_scan base n b :
  div_counts base (S n) (cumsum b) = snd (scan cum_step (base, n) b).
Proof.
  destruct b as [|r b]; simpl; auto.
  rewrite div_counts_scan_from. destruct (scan cum_step (radd base r, S n) b). reflexivity.
Qed.

(** the state reached after a block, recovered from the last output row *)
Lemma cum_step_last p n b d :
  b <> [] ->
  let '((p', n'), o) := scan cum_step (p, n) b in
  n' = (n + length b)%nat /\ last o d = rscale (/ INR n') p'.
Proof.
  revert p n d. induction b as [|r b IH]; intros p n d Hne; [congruence|].
  simpl. destruct b as [|r2 b].
  - simpl. split; [lia|]. reflexivity.
  - specialize (IH (radd p r) (S n) d ltac:(discriminate)).
    destruct (scan cum_step (radd p r, S n) (r2 :: b)) as [[p' n'] o] eqn:E.
    destruct IH as [-> Hl]. split; [simpl; lia|].
    destruct o as [|y o].
    + exfalso. pose proof (scan_length cum_step (radd p r, S n) (r2 :: b)) as H.
      rewrite E in H. discriminate.
    + exact Hl.
Qed.

Definition cum_loop_body (st : option (list R) * nat) (b : list (list R))
    : (option (list R) * nat) * list (list (list R)) * option exn :=
  let '(st', o) := cum_avg_body st b in (st', [o], None).

Lemma cum_loop_step accu p n b :
  rscale (INR (S n) - 1) accu = p ->
  cum_loop_body (Some accu, S n) b
  = ((Some (last (snd (scan cum_step (p, n) b)) accu), (S n + length b)%nat),
     [snd (scan cum_step (p, n) b)], None).
Proof.
  intros Hp. unfold cum_loop_body, cum_avg_body. rewrite Hp, div_counts_scan. reflexivity.
Qed.

Lemma cum_for_blocks num s : (0 < num)%nat ->
  forall accu p n, rscale (INR (S n) - 1) accu = p ->
  exists st, for_blocks cum_loop_body (Some accu, S n) (chunks num s)
  = (st, chunks num (snd (scan cum_step (p, n) s)), None).
Proof.
  intros Hn. pattern s. revert s. apply (stream_ind num); auto.
  - intros. eexists. reflexivity.
  - intros s Hs accu p n Hp. rewrite (chunks_short num s) by auto. eexists.
    cbn [for_blocks]. rewrite (cum_loop_step accu p n s Hp).
    rewrite chunks_short by (rewrite scan_length; lia). reflexivity.
  - intros b s Hb Hs IH accu p n Hp. rewrite (chunks_app num b s) by auto.
    cbn [for_blocks]. rewrite (cum_loop_step accu p n b Hp).
    assert (b <> []) as Hbn by (intros ->; simpl in Hb; lia).
    pose proof (cum_step_last p n b accu Hbn) as Hlast.
    rewrite scan_app. pose proof (scan_length cum_step (p, n) b) as Hlo.
    destruct (scan cum_step (p, n) b) as [[p' n'] o] eqn:Escan. cbn [snd] in *.
    destruct Hlast as [-> ->].
    destruct (IH (rscale (/ INR (n + length b)) p') p' (n + length b)%nat) as [st Hst].
    + rewrite rscale_rscale.
      replace (/ INR (n + length b) * (INR (S (n + length b)) - 1)) with 1; [apply rscale_1|].
      rewrite S_INR. field. apply not_0_INR. lia.
    + exists st. replace (S n + length b)%nat with (S (n + length b)) by lia.
      rewrite Hst.
      destruct (scan cum_step (p', (n + length b)%nat) s) as [st2 o2]. cbn [snd fst].
      rewrite chunks_app by lia. reflexivity.
Qed.

Theorem time_cum_average_scan (src : source (list R)) nc s :
  wf_source src s -> Forall (fun r => length r = nc) s ->
  wf_source (time_cum_average_result src) (snd (scan cum_step (repeat 0 nc, 0%nat) s)).
Proof.
  intros Hsrc Hs num Hn. apply delivers_iff; auto.
  unfold time_cum_average_result, stateful_gen, run_for.
  rewrite (wf_source_eq src s) by auto. cbn [blocks fin done].
  destruct s as [|r s0]; [reflexivity|]. set (s := r :: s0) in *.
  fold cum_loop_body.
  assert (for_blocks cum_loop_body (None, 1%nat) (chunks num s)
          = for_blocks cum_loop_body (Some (repeat 0 nc), 1%nat) (chunks num s)) as ->.
  { rewrite (chunks_step num s) by (auto; discriminate). cbn [for_blocks].
    assert (cum_loop_body (None, 1%nat) (firstn num s)
            = cum_loop_body (Some (repeat 0 nc), 1%nat) (firstn num s)) as ->; auto.
    unfold s. destruct num as [|k]; [lia|]. cbn [firstn]. unfold cum_loop_body, cum_avg_body.
    inversion Hs; subst. reflexivity. }
  destruct (cum_for_blocks num s Hn (repeat 0 nc) (repeat 0 nc) 0) as [st ->].
  2:{ unfold done. simpl blocks. now rewrite app_nil_r. }
  - simpl. replace (1 - 1) with 0 by ring. rewrite rscale_0, repeat_length. reflexivity.
Qed.

(** the k-th running mean is the mean of rows 0..k, channel by channel *)
Lemma nth_radd c a b : (c < length a)%nat -> (c < length b)%nat ->
  nth c (radd a b) 0 = nth c a 0 + nth c b 0.
Proof.
  unfold radd. revert a b. induction c as [|c IH]; intros [|x a] [|y b] Ha Hb; simpl in *;
    try lia; auto. apply IH; lia.
Qed.

Lemma cum_scan_cons p n r s :
  snd (scan cum_step (p, n) (r :: s))
  = rscale (/ INR (S n)) (radd p r) :: snd (scan cum_step (radd p r, S n) s).
Proof. cbn [scan]. unfold cum_step at 1. destruct (scan cum_step (radd p r, S n) s). reflexivity. Qed.

Lemma cum_scan_nth nc c s : (c < nc)%nat ->
  forall p n k, Forall (fun r => length r = nc) s -> length p = nc ->
  (k < length s)%nat ->
  nth c (nth k (snd (scan cum_step (p, n) s)) []) 0
  = (nth c p 0 + rsum (channel c (firstn (S k) s))) / INR (n + S k)
  /\ length (nth k (snd (scan cum_step (p, n) s)) []) = nc.
Proof.
  intros Hc. induction s as [|r s IH]; intros p n k Hs Hp Hk; [simpl in Hk; lia|].
  inversion Hs as [|? ? Hr Hs']; subst x l. rewrite cum_scan_cons.
  assert (length (radd p r) = nc) as Hl by (rewrite radd_length; lia).
  specialize (IH (radd p r) (S n)).
  destruct k as [|k].
  - cbn [nth].
    assert (nth c (rscale (/ INR (S n)) (radd p r)) 0 = nth c (radd p r) 0 * / INR (S n)) as ->.
    { unfold rscale. rewrite nth_indep with (d' := 0 * / INR (S n)).
      - now rewrite map_nth with (f := fun x => x * / INR (S n)).
      - rewrite map_length. lia. }
    rewrite nth_radd by lia. unfold rsum. simpl fold_right.
    replace (n + 1)%nat with (S n) by lia. split.
    + unfold Rdiv. ring.
    + unfold rscale. now rewrite map_length.
  - cbn [nth]. destruct (IH k Hs' Hl ltac:(simpl in Hk; lia)) as [H1 H2]. split; auto.
    rewrite H1, nth_radd by lia. replace (S n + S k)%nat with (n + S (S k))%nat by lia.
    unfold rsum. simpl. f_equal. ring.
Qed.

Theorem time_cum_average_mean (src : source (list R)) nc s num :
  wf_source src s -> Forall (fun r => length r = nc) s -> (0 < num)%nat ->
  exists out, delivers num out (time_cum_average_result src num) /\
    length out = length s /\
    forall k c, (k < length s)%nat -> (c < nc)%nat ->
      nth c (nth k out []) 0 = rmean (channel c (firstn (S k) s))
      /\ length (nth k out []) = nc.
Proof.
  intros Hsrc Hs Hn. eexists. split; [|split].
  - eapply time_cum_average_scan; eauto.
  - apply scan_length.
  - intros k c Hk Hc.
    destruct (cum_scan_nth nc c s Hc (repeat 0 nc) 0 k Hs (repeat_length _ _) Hk) as [H1 H2].
    split; auto. rewrite H1. unfold rmean. rewrite nth_repeat. unfold channel.
    rewrite map_length, firstn_length. replace (Nat.min (S k) (length s)) with (0 + S k)%nat by lia.
    rewrite Rplus_0_l. reflexivity.
Qed.

(* ------------------------------------------------------------------ *)
(** * Filter: second-order sections *)

(** One second-order section with a0 = 1. *)
Record section := mkSec { b0 : R; b1 : R; b2 : R; a1 : R; a2 : R }.

(** One sample through one section (SciPy's sosfilt inner loop, direct form II
    transposed; called at tprocess.py:1479 and 1721). *)
Definition sec_step (c : section) (z : R * R) (x : R) : (R * R) * R :=
  let '(z0, z1) := z in
  let y := b0 c * x + z0 in
  ((b1 c * x - a1 c * y + z1, b2 c * x - a2 c * y), y).

(** One sample through all sections. *)
Fixpoint sos_step (sos : list section) (zs : list (R * R)) (x : R) : list (R * R) * R :=
  match sos, zs with
  | c :: sos', z :: zs' =>
      let '(z', y) := sec_step c z x in
      let '(zs'', y') := sos_step sos' zs' y in (z' :: zs'', y')
  | _, _ => ([], x)
  end.

(** One row (all channels) through the filter; the state holds one list of
    section states per channel. *)
Fixpoint row_step (sos : list section) (zi : list (list (R * R))) (row : list R)
    : list (list (R * R)) * list R :=
  match zi, row with
  | zs :: zi', x :: row' =>
      let '(zs', y) := sos_step sos zs x in
      let '(zi'', ys) := row_step sos zi' row' in (zs' :: zi'', y :: ys)
  | _, _ => ([], [])
  end.

(** [zeros((sos.shape[0], 2, num_channels))] *)
Definition zero_state (sos : list section) (nch : nat) : list (list (R * R)) :=
  repeat (repeat (0, 0) (length sos)) nch.

(** Filter.result, tprocess.py:1458-1480, for coefficients that do not change
    while the generator is alive. Also covers the subclasses that only provide
    other coefficients (FiltOctave, TimeExpAverage, FiltFreqWeight). *)
Definition filter_result (sos : list section) (nch : nat) (src : source (list R)) (num : nat)
    : trace (list R) :=
  stateful_gen (scan (row_step sos)) (zero_state sos nch) (src num).

(** Specification: a section realises its difference equation; x, y are the
    signals for n >= 0, zero before. *)
Definition at_ (x : list R) (n : Z) : R :=
  if (n <? 0)%Z then 0 else nth (Z.to_nat n) x 0.
Definition section_eq (c : section) (x y : list R) : Prop :=
  length y = length x /\
  forall n, (0 <= n < Z.of_nat (length x))%Z ->
    at_ y n = b0 c * at_ x n + b1 c * at_ x (n - 1) + b2 c * at_ x (n - 2)
              - a1 c * at_ y (n - 1) - a2 c * at_ y (n - 2).
(** Sections in series. *)
Fixpoint cascade (sos : list section) (x y : list R) : Prop :=
  match sos with
  | [] => y = x
  | c :: sos' => exists w, section_eq c x w /\ cascade sos' w y
  end.

Lemma sos_step_cons c sos z zs x :
  sos_step (c :: sos) (z :: zs) x =
  (let '(z', y) := sec_step c z x in
   let '(zs'', y') := sos_step sos zs y in (z' :: zs'', y')).
Proof. reflexivity. Qed.

Lemma sos_scan_cons c sos z zs x :
  snd (scan (sos_step (c :: sos)) (z :: zs) x)
  = snd (scan (sos_step sos) zs (snd (scan (sec_step c) z x))).
Proof.
  revert z zs. induction x as [|a x IH]; intros z zs; cbn [scan].
  - reflexivity.
  - rewrite sos_step_cons. destruct (sec_step c z a) as [z1 y1].
    specialize (IH z1).
    destruct (scan (sec_step c) z1 x) as [st' o']. cbn [snd scan] in *.
    destruct (sos_step sos zs y1) as [zs1 y2].
    specialize (IH zs1).
    destruct (scan (sos_step (c :: sos)) (z1 :: zs1) x) as [st o]. cbn [snd] in *.
    destruct (scan (sos_step sos) zs1 o') as [st2 o2]. cbn [snd] in *. now rewrite IH.
Qed.

(** a section started with the state left by x1,x2,y1,y2 *)
Lemma sec_scan_eq c x : forall x1 x2 y1 y2,
  let y := snd (scan (sec_step c)
     (b1 c * x1 - a1 c * y1 + (b2 c * x2 - a2 c * y2), b2 c * x1 - a2 c * y1) x) in
  forall n, (n < length x)%nat ->
    nth n y 0 = b0 c * nth n x 0
      + b1 c * (match n with 0%nat => x1 | S m => nth m x 0 end)
      + b2 c * (match n with 0%nat => x2 | 1%nat => x1 | S (S m) => nth m x 0 end)
      - a1 c * (match n with 0%nat => y1 | S m => nth m y 0 end)
      - a2 c * (match n with 0%nat => y2 | 1%nat => y1 | S (S m) => nth m y 0 end).
Proof.
  induction x as [|a x IH]; intros x1 x2 y1 y2 y n Hn; [simpl in Hn; lia|].
  unfold y. simpl.
  set (y0 := b0 c * a + (b1 c * x1 - a1 c * y1 + (b2 c * x2 - a2 c * y2))).
  specialize (IH a x1 y0 y1). cbv zeta in IH.
  match goal with |- context [scan (sec_step c) ?st x] =>
    replace st with (b1 c * a - a1 c * y0 + (b2 c * x1 - a2 c * y1), b2 c * a - a2 c * y0) by reflexivity
  end.
  destruct (scan (sec_step c) (b1 c * a - a1 c * y0 + (b2 c * x1 - a2 c * y1), b2 c * a - a2 c * y0) x)
    as [st o]. simpl in *.
  destruct n as [|n].
  - simpl. unfold y0. ring.
  - simpl. rewrite IH by lia. destruct n as [|[|n]]; simpl; ring.
Qed.

Lemma section_correct c x : section_eq c x (snd (scan (sec_step c) (0, 0) x)).
Proof.
  split; [apply scan_length|]. intros n Hn.
  pose proof (sec_scan_eq c x 0 0 0 0) as H. cbv zeta in H.
  replace (b1 c * 0 - a1 c * 0 + (b2 c * 0 - a2 c * 0), b2 c * 0 - a2 c * 0) with (0, 0) in H
    by (f_equal; ring).
  specialize (H (Z.to_nat n) ltac:(lia)).
  unfold at_. destruct (Z.ltb_spec n 0); [lia|].
  rewrite H. clear H. destruct (Z.to_nat n) as [|[|m]] eqn:E.
  - destruct (Z.ltb_spec (n - 1) 0); [|lia]. destruct (Z.ltb_spec (n - 2) 0); [|lia]. ring.
  - destruct (Z.ltb_spec (n - 1) 0); [lia|]. destruct (Z.ltb_spec (n - 2) 0); [|lia].
    replace (Z.to_nat (n - 1)) with 0%nat by lia. ring.
  - destruct (Z.ltb_spec (n - 1) 0); [lia|]. destruct (Z.ltb_spec (n - 2) 0); [lia|].
    replace (Z.to_nat (n - 1)) with (S m) by lia. replace (Z.to_nat (n - 2)) with m by lia. ring.
Qed.

Lemma sos_cascade sos x :
  cascade sos x (snd (scan (sos_step sos) (repeat (0, 0) (length sos)) x)).
Proof.
  revert x. induction sos as [|c sos IH]; intros x; cbn [cascade length repeat].
  - assert (forall z, snd (scan (sos_step []) z x) = x) as H; [|apply H].
    induction x as [|a x IHx]; intros z; cbn [scan]; auto.
    change (sos_step [] z a) with (@nil (R * R), a). cbn iota beta.
    specialize (IHx []). destruct (scan (sos_step []) [] x). simpl in *. now rewrite IHx.
  - rewrite sos_scan_cons.
    exists (snd (scan (sec_step c) (0, 0) x)). split; auto. apply section_correct.
Qed.

(** every channel of the filtered stream is that channel filtered alone *)
Lemma row_scan_channel sos c : forall s zi nch,
  Forall (fun r => length r = nch) s -> length zi = nch -> (c < nch)%nat ->
  channel c (snd (scan (row_step sos) zi s))
  = snd (scan (sos_step sos) (nth c zi []) (channel c s)).
Proof.
  assert (forall c nch zi r, length zi = nch -> length r = nch -> (c < nch)%nat ->
    let '(zi', ys) := row_step sos zi r in
    length zi' = nch /\ sos_step sos (nth c zi []) (nth c r 0) = (nth c zi' [], nth c ys 0)) as Hrow.
  { clear. induction c as [|c IH]; intros nch zi r Hz Hr Hc;
      destruct zi as [|zs zi], r as [|x r]; simpl in *; try lia.
    - destruct (sos_step sos zs x) as [zs' y]. 
      assert (forall zi r, length zi = length r -> length (fst (row_step sos zi r)) = length r) as HL.
      { clear. induction zi as [|z zi IH]; intros [|x r] H; simpl in *; try lia.
        destruct (sos_step sos z x). specialize (IH r ltac:(lia)).
        destruct (row_step sos zi r). simpl in *. lia. }
      specialize (HL zi r ltac:(lia)). destruct (row_step sos zi r) as [zi' ys]. simpl in *.
      split; [lia|reflexivity].
    - destruct (sos_step sos zs x) as [zs' y].
      specialize (IH (pred nch) zi r ltac:(lia) ltac:(lia) ltac:(lia)).
      destruct (row_step sos zi r) as [zi' ys]. simpl in *. destruct IH. split; [lia|auto]. }
  induction s as [|r s IH]; intros zi nch Hs Hz Hc; simpl; auto.
  inversion Hs as [|? ? Hr Hs']; subst x l.
  specialize (Hrow c nch zi r Hz Hr Hc).
  destruct (row_step sos zi r) as [zi' ys]. destruct Hrow as [Hz' Hst].
  specialize (IH zi' nch Hs' Hz' Hc).
  destruct (scan (row_step sos) zi' s) as [st o]. cbn [snd] in IH. rewrite Hst.
  destruct (scan (sos_step sos) (nth c zi' []) (channel c s)) as [st' o'] eqn:E.
  cbn [snd] in *. unfold channel in *. simpl. now rewrite IH.
Qed.

Theorem filter_delivers sos nch (src : source (list R)) s num :
  wf_source src s -> Forall (fun r => length r = nch) s -> (0 < num)%nat ->
  delivers num (snd (scan (row_step sos) (zero_state sos nch) s)) (filter_result sos nch src num)
  /\ length (snd (scan (row_step sos) (zero_state sos nch) s)) = length s
  /\ forall c, (c < nch)%nat ->
       cascade sos (channel c s) (channel c (snd (scan (row_step sos) (zero_state sos nch) s))).
Proof.
  intros Hsrc Hs Hn. split; [|split].
  - now apply stateful_gen_wf.
  - apply scan_length.
  - intros c Hc. rewrite (row_scan_channel sos c s (zero_state sos nch) nch); auto.
    + unfold zero_state. rewrite nth_indep with (d' := repeat (0, 0) (length sos)).
      * rewrite nth_repeat. apply sos_cascade.
      * now rewrite repeat_length.
    + unfold zero_state. now rewrite repeat_length.
Qed.
Close Scope R_scope.

(* ------------------------------------------------------------------ *)
(** * FiltFiltOctave *)

(** FiltFiltOctave.result, tprocess.py:1562-1592: collect everything, filter the
    whole signal ([whole], a length-preserving function of the complete
    stream), then cut.  [nst] is source.num_samples; [zero] the initial content
    of the buffer. *)
Fixpoint collect {A} (data : list A) (j : nat) (bs : list (list A)) : option (list A) :=
  match bs with
  | [] => Some data
  | b :: bs' => match np_assign data j (j + length b) b with
                | None => None
                | Some d => collect d (j + length b) bs'
                end
  end.
Definition filtfilt_result {A} (whole : list A -> list A) (garbage : nat -> A) (nst : nat)
    (src : source A) (num : nat) : trace A :=
  match collect (map garbage (seq 0 nst)) 0 (blocks (src num)) with
  | None => raise ValueError
  | Some data =>
      match fin (src num) with
      | Raised e => raise e
      | Finished => let d := whole data in
          slice_loop (length d) (fun j => inl (slice j (j + num) d)) 0 (length d) num
      end
  end.

Lemma collect_ok {A} (bs : list (list A)) : forall pre data,
  length data = length pre + length (concat bs) -> firstn (length pre) data = pre ->
  collect data (length pre) bs = Some (pre ++ concat bs).
Proof.
  induction bs as [|b bs IH]; intros pre data Hl Hp; simpl in *.
  - rewrite app_nil_r. f_equal. rewrite <- Hp. symmetry. apply firstn_all2. lia.
  - rewrite app_length in Hl.
    rewrite np_assign_exact by lia.
    rewrite <- app_length, (IH (pre ++ b)).
    + now rewrite app_assoc.
    + rewrite !app_length, firstn_length, skipn_length. lia.
    + rewrite Hp, app_assoc. apply firstn_app_exact. reflexivity.
Qed.

Theorem filtfilt_delivers {A} (whole : list A -> list A) garbage (src : source A) s :
  wf_source src s -> wf_source (filtfilt_result whole garbage (length s) src) (whole s).
Proof.
  intros Hsrc num Hn. apply delivers_iff; auto. unfold filtfilt_result.
  rewrite (wf_source_eq src s) by auto. cbn [blocks fin done].
  pose proof (collect_ok (chunks num s) [] (map garbage (seq 0 (length s)))) as H.
  simpl in H. rewrite concat_chunks in H by auto. rewrite map_length, seq_length in H.
  rewrite H by auto.
  rewrite (slice_loop_chunks (fun x => x) (whole s)); auto.
  - now rewrite map_id, slice_0_all.
  - intros i Hi. rewrite map_id, slice_min. reflexivity.
  - lia.
Qed.

(* ------------------------------------------------------------------ *)
(** * FilterBank *)

Section FilterBank.
  Context {St Row : Type}.
  (** one input row through all bands: new filter states and the output row
      (bands side by side) *)
  Variable step : St -> Row -> St * Row.

  (** FilterBank.result, tprocess.py:1698-1722, with at least one band.  The
      state holds the filter states and the output array [res] of [num] rows;
      [res[:, ...] = filtered] follows the NumPy shape rule.  The columns of all
      bands are written together here; with a wrong shape the first band
      already raises. *)
  Definition bank_body (num : nat) (st : St * list Row) (block : list Row)
      : (St * list Row) * list (list Row) * option exn :=
    let '(z, res) := st in
    let '(z', o) := scan step z block in
    match np_assign res 0 num o with
    | Some res' => ((z', res'), [res'], None)
    | None => (st, [], Some ValueError)
    end.
  Definition filter_bank_result (z0 : St) (zero : Row) (src : source Row) (num : nat) : trace Row :=
    run_for (bank_body num) (z0, repeat zero num) (src num) (fun _ => done []).

  Lemma bank_full num z res b :
    length res = num -> length b = num ->
    bank_body num (z, res) b
    = ((fst (scan step z b), snd (scan step z b)), [snd (scan step z b)], None).
  Proof.
    intros Hr Hb. unfold bank_body. pose proof (scan_length step z b) as Hl.
    destruct (scan step z b) as [z' o]. simpl in *.
    rewrite np_assign_exact by lia. simpl. rewrite skipn_all2 by lia. now rewrite app_nil_r.
  Qed.

  (** what happens to complete blocks followed by a rest *)
  Lemma bank_blocks num k : 0 < num -> forall z res s r,
    length res = num -> length s = k * num ->
    for_blocks (bank_body num) (z, res) (chunks num (s ++ r))
    = (let '(z', o) := scan step z s in
       let res' := match k with 0 => res | _ => skipn (length o - num) o end in
       let '(st, ys, e) := for_blocks (bank_body num) (z', res') (chunks num r) in
       (st, chunks num o ++ ys, e)).
  Proof.
    intros Hn. induction k as [|k IH]; intros z res s r Hr Hs.
    - destruct s; [|simpl in Hs; lia]. simpl.
      destruct (for_blocks (bank_body num) (z, res) (chunks num r)) as [[st ys] e]. reflexivity.
    - rewrite <- (firstn_skipn num s). set (b := firstn num s). set (s2 := skipn num s).
      assert (length b = num) as Hb by (unfold b; rewrite firstn_length; lia).
      assert (length s2 = k * num) as Hs2 by (unfold s2; rewrite skipn_length; lia).
      rewrite <- app_assoc, chunks_app by auto. cbn [for_blocks].
      rewrite bank_full by auto. rewrite scan_app.
      pose proof (scan_length step z b) as Hlb.
      destruct (scan step z b) as [z1 o1]. cbn [fst snd] in *.
      rewrite (IH z1 o1 s2 r) by (auto; lia).
      pose proof (scan_length step z1 s2) as Hl2.
      destruct (scan step z1 s2) as [z2 o2]. cbn [snd] in *.
      replace (match k with 0 => o1 | S _ => skipn (length o2 - num) o2 end)
        with (skipn (length (o1 ++ o2) - num) (o1 ++ o2)).
      2:{ rewrite app_length, skipn_app. destruct k as [|k].
          - destruct o2; [|simpl in *; lia]. cbn [length]. rewrite skipn_nil, app_nil_r.
            replace (length o1 + 0 - num) with 0 by lia. reflexivity.
          - rewrite skipn_all2 by lia. simpl. f_equal. lia. }
      destruct (for_blocks (bank_body num) _ (chunks num r)) as [[st ys] e].
      rewrite (chunks_app num o1 o2) by lia. reflexivity.
  Qed.

  (** Complete characterisation. With [full] the longest part of the stream
      that consists of complete blocks and [rest] what is left:
      nothing left: all samples are delivered;
      one row left (and num > 1): it is repeated num times;
      otherwise: ValueError after the complete blocks. *)
  Theorem filter_bank_behaviour z0 zero (src : source Row) s num k r :
    wf_source src (s ++ r) -> 0 < num -> length s = k * num -> length r < num ->
    let o := snd (scan step z0 s) in
    let ro := snd (scan step (fst (scan step z0 s)) r) in
    filter_bank_result z0 zero src num =
    match ro with
    | [] => done (chunks num o)
    | [x] => done (chunks num o ++ [repeat x num])
    | _ => mkTrace (chunks num o) (Raised ValueError)
    end.
  Proof.
    intros Hsrc Hn Hs Hr o ro. unfold filter_bank_result, run_for.
    rewrite (wf_source_eq src (s ++ r)) by auto. cbn [blocks fin done].
    rewrite (bank_blocks num k Hn) by (auto; apply repeat_length).
    pose proof (scan_length step z0 s) as Hlo.
    unfold o, ro. destruct (scan step z0 s) as [z' o'] eqn:E. cbn [fst snd] in *.
    set (res' := match k with 0 => _ | _ => _ end).
    assert (length res' = num) as Hres.
    { unfold res'. destruct k; [apply repeat_length|]. rewrite skipn_length. lia. }
    destruct r as [|x r].
    - simpl. now rewrite !app_nil_r.
    - rewrite (chunks_short num (x :: r)) by (simpl in *; lia).
      cbn [for_blocks]. unfold bank_body at 1.
      pose proof (scan_length step z' (x :: r)) as Hlr.
      destruct (scan step z' (x :: r)) as [z2 o2] eqn:E2. cbn [snd length] in *.
      destruct o2 as [|y [|y2 o2]]; [simpl in Hlr; lia| |].
      + unfold np_assign. rewrite Hres, Nat.min_id. simpl length.
        replace (Nat.max (Nat.min 0 num) num - Nat.min 0 num) with num by lia.
        destruct (Nat.eqb_spec 1 num); [simpl in *; lia|]. simpl.
        rewrite skipn_all2 by lia. now rewrite !app_nil_r.
      + unfold np_assign. rewrite Hres, Nat.min_id.
        replace (Nat.max (Nat.min 0 num) num - Nat.min 0 num) with num by lia.
        destruct (Nat.eqb_spec (length (y :: y2 :: o2)) num); [simpl in *; lia|].
        now rewrite app_nil_r.
  Qed.
End FilterBank.

(** All bands applied to one row (tprocess.py:1718-1721): the outputs of the
    bands side by side. *)
Fixpoint bank_row (bands : list (list section)) (zs : list (list (list (R * R)))) (row : list R)
    : list (list (list (R * R))) * list R :=
  match bands, zs with
  | sos :: bands', zi :: zs' =>
      let '(zi', y) := row_step sos zi row in
      let '(zs'', ys) := bank_row bands' zs' row in (zi' :: zs'', y ++ ys)
  | _, _ => ([], [])
  end.
(** initial states; the code uses the number of sections of the first band for
    all bands (tprocess.py:1716), the bands of one bank have equal order. *)
Definition bank_zero (bands : list (list section)) (nch : nat) : list (list (list (R * R))) :=
  map (fun sos => zero_state sos nch) bands.

(** Specification: the filtered signal of one band, as a causal function of the
    whole stream. *)
Definition band_output (sos : list section) (nch : nat) (s : list (list R)) : list (list R) :=
  snd (scan (row_step sos) (zero_state sos nch) s).
(** bands side by side, row by row *)
Definition beside (n : nat) (os : list (list (list R))) : list (list R) :=
  map (fun k => concat (map (fun o => nth k o []) os)) (seq 0 n).

Lemma scan_cons {S A B} (step : S -> A -> S * B) st a l :
  scan step st (a :: l)
  = (fst (scan step (fst (step st a)) l), snd (step st a) :: snd (scan step (fst (step st a)) l)).
Proof. cbn [scan]. destruct (step st a) as [st' b]. simpl. destruct (scan step st' l). reflexivity. Qed.

Lemma bank_row_eq bands zs row : length zs = length bands ->
  bank_row bands zs row
  = (map (fun p => fst (row_step (fst p) (snd p) row)) (combine bands zs),
     concat (map (fun p => snd (row_step (fst p) (snd p) row)) (combine bands zs))).
Proof.
  revert zs. induction bands as [|sos bands IH]; intros [|zi zs] H; simpl in H; try lia; auto.
  simpl. rewrite (IH zs) by lia. destruct (row_step sos zi row). reflexivity.
Qed.

Lemma bank_scan_beside bands s : forall zs, length zs = length bands ->
  snd (scan (bank_row bands) zs s)
  = beside (length s) (map (fun p => snd (scan (row_step (fst p)) (snd p) s)) (combine bands zs)).
Proof.
  induction s as [|r s IH]; intros zs Hz; [reflexivity|].
  rewrite scan_cons. cbn [snd]. rewrite bank_row_eq by auto. cbn [fst snd].
  rewrite IH by (rewrite map_length, combine_length; lia).
  unfold beside. cbn [length seq map]. f_equal.
  - f_equal. rewrite map_map. apply map_ext. intros p. now rewrite scan_cons.
  - rewrite <- seq_shift, map_map. apply map_ext. intros k. f_equal.
    rewrite !map_map.
    replace (combine bands (map (fun p => fst (row_step (fst p) (snd p) r)) (combine bands zs)))
      with (map (fun p => (fst p, fst (row_step (fst p) (snd p) r))) (combine bands zs)).
    + rewrite map_map. apply map_ext. intros p. now rewrite scan_cons.
    + clear. revert zs. induction bands as [|b bands IH]; intros [|z zs]; simpl; auto.
      now rewrite IH.
Qed.

Lemma bank_scan_zero bands nch s :
  snd (scan (bank_row bands) (bank_zero bands nch) s)
  = beside (length s) (map (fun sos => band_output sos nch s) bands).
Proof.
  rewrite bank_scan_beside by apply map_length. f_equal.
  unfold bank_zero, band_output. clear. induction bands as [|b bands IH]; simpl; auto. now rewrite IH.
Qed.

Lemma scan_firstn {S A B} (step : S -> A -> S * B) k l : forall st,
  snd (scan step st (firstn k l)) = firstn k (snd (scan step st l)).
Proof.
  revert l. induction k as [|k IH]; intros [|a l] st; try reflexivity.
  cbn [firstn]. rewrite !scan_cons. cbn [snd firstn]. now rewrite IH.
Qed.

(** FilterBank.result with concrete bands. *)
Definition bank_result (bands : list (list section)) (nch : nat) (src : source (list R)) (num : nat)
    : trace (list R) :=
  filter_bank_result (bank_row bands) (bank_zero bands nch) (repeat 0%R (length bands * nch)) src num.

(** Stated over the whole expected output [out]: the complete blocks are
    delivered, the rest only if it is empty. *)
Theorem bank_result_spec bands nch (src : source (list R)) s num :
  wf_source src s -> (0 < num)%nat ->
  let out := beside (length s) (map (fun sos => band_output sos nch s) bands) in
  let nfull := (length s / num * num)%nat in
  (length s = nfull -> delivers num out (bank_result bands nch src num))
  /\ (length s = S nfull -> (1 < num)%nat ->
        bank_result bands nch src num
        = done (chunks num (firstn nfull out) ++ [repeat (nth nfull out []) num]))
  /\ (S nfull < length s ->
        bank_result bands nch src num
        = mkTrace (chunks num (firstn nfull out)) (Raised ValueError))%nat.
Proof.
  intros Hw Hn out nfull.
  assert (length out = length s) as Hlen by (unfold out, beside; now rewrite map_length, seq_length).
  assert (nfull <= length s < nfull + num)%nat as Hb.
  { unfold nfull. pose proof (Nat.div_mod (length s) num ltac:(lia)).
    pose proof (Nat.mod_upper_bound (length s) num ltac:(lia)). nia. }
  rewrite <- (firstn_skipn nfull s) in Hw.
  pose proof (filter_bank_behaviour (bank_row bands) (bank_zero bands nch)
    (repeat 0%R (length bands * nch)) src (firstn nfull s) num (length s / num) (skipn nfull s) Hw Hn)
    as H.
  rewrite firstn_length, skipn_length, Nat.min_l in H by lia.
  specialize (H eq_refl ltac:(lia)). cbv zeta in H.
  assert (snd (scan (bank_row bands) (bank_zero bands nch) s) = out) as Hout
    by apply bank_scan_zero.
  rewrite scan_firstn, Hout in H.
  assert (snd (scan (bank_row bands) (fst (scan (bank_row bands) (bank_zero bands nch)
            (firstn nfull s))) (skipn nfull s)) = skipn nfull out) as Hro.
  { pose proof (scan_app (bank_row bands) (bank_zero bands nch) (firstn nfull s) (skipn nfull s)) as E.
    rewrite firstn_skipn in E.
    pose proof (scan_firstn (bank_row bands) nfull s (bank_zero bands nch)) as E1.
    destruct (scan (bank_row bands) (bank_zero bands nch) (firstn nfull s)) as [z1 o1].
    cbn [fst snd] in *. destruct (scan (bank_row bands) z1 (skipn nfull s)) as [z2 o2].
    cbn [snd]. rewrite E in Hout. cbn [snd] in Hout. rewrite <- Hout.
    symmetry. apply skipn_app_exact. rewrite E1, E. cbn [snd].
    rewrite firstn_length. rewrite Hout. lia. }
  rewrite Hro in H. fold (bank_result bands nch src num) in H. rewrite H. clear H.
  assert (length (skipn nfull out) = length s - nfull)%nat as Hsk by (rewrite skipn_length; lia).
  split; [|split].
  - intros E. rewrite E, Nat.sub_diag in Hsk. apply length_zero_iff_nil in Hsk. rewrite Hsk.
    rewrite firstn_all2 by lia. now apply delivers_chunks.
  - intros E Hn1. destruct (skipn nfull out) as [|x [|y l]] eqn:Es; simpl in Hsk; try lia.
    repeat f_equal. rewrite <- (firstn_skipn nfull out), Es.
    rewrite app_nth2; rewrite firstn_length, Nat.min_l by lia; [|lia].
    now rewrite Nat.sub_diag.
  - intros E. destruct (skipn nfull out) as [|x [|y l]]; simpl in Hsk; try lia. reflexivity.
Qed.

(** Specification: [o] is the stream [s] of [nch] channels filtered by the
    cascade [sos], channel by channel. *)
Definition is_filtered (sos : list section) (nch : nat) (s o : list (list R)) : Prop :=
  length o = length s /\ Forall (fun r => length r = nch) o
  /\ forall c, c < nch -> cascade sos (channel c s) (channel c o).

Lemma rowstep_lengths sos s : forall zi,
  Forall (fun r => length r = length zi) s ->
  Forall (fun r : list R => length r = length zi) (snd (scan (row_step sos) zi s)).
Proof.
  assert (forall zi row, length row = length zi ->
            length (fst (row_step sos zi row)) = length zi /\ length (snd (row_step sos zi row)) = length zi) as Hrow.
  { induction zi as [|z zi IH]; intros [|x row] H; simpl in *; try lia; auto.
    destruct (sos_step sos z x). destruct (row_step sos zi row) eqn:E.
    specialize (IH row ltac:(lia)). rewrite E in IH. simpl in *. lia. }
  induction s as [|r s IH]; intros zi H; cbn [scan]; [constructor|].
  inversion H as [|? ? Hr Hs]; subst.
  destruct (Hrow zi r Hr) as [H1 H2].
  destruct (row_step sos zi r) as [zi' y] eqn:E. simpl in H1, H2.
  specialize (IH zi'). destruct (scan (row_step sos) zi' s) as [zz o]. simpl in *.
  constructor; auto. rewrite <- H1. apply IH. now rewrite H1.
Qed.


Lemma band_output_filtered sos nch s :
  Forall (fun r => length r = nch) s -> is_filtered sos nch s (band_output sos nch s).
Proof.
  intros Hs. split; [apply scan_length|split].
  - pose proof (rowstep_lengths sos s (zero_state sos nch)) as G.
    unfold zero_state in G at 1 2. rewrite repeat_length in G. now apply G.
  - intros c Hc. unfold band_output. rewrite (row_scan_channel sos c s (zero_state sos nch) nch); auto.
    + unfold zero_state. rewrite nth_indep with (d' := repeat (0%R, 0%R) (length sos)).
      * rewrite nth_repeat. apply sos_cascade.
      * now rewrite repeat_length.
    + unfold zero_state. now rewrite repeat_length.
Qed.

(** the difference equations determine the output *)
Lemma section_eq_unique c x y1 y2 : section_eq c x y1 -> section_eq c x y2 -> y1 = y2.
Proof.
  intros [L1 E1] [L2 E2].
  assert (forall n : nat, forall k, (k <= n)%nat -> (k < length x)%nat -> nth k y1 0%R = nth k y2 0%R) as G.
  { induction n as [|n IH]; intros k Hk Hl.
    - assert (k = 0%nat) by lia. subst k.
      specialize (E1 0%Z ltac:(lia)). specialize (E2 0%Z ltac:(lia)).
      unfold at_ in E1, E2. simpl in E1, E2. congruence.
    - destruct (Nat.eq_dec k (S n)) as [->|]; [|apply IH; lia].
      specialize (E1 (Z.of_nat (S n)) ltac:(lia)). specialize (E2 (Z.of_nat (S n)) ltac:(lia)).
      assert (forall m, (m < Z.of_nat (S n))%Z -> at_ y1 m = at_ y2 m) as Hm.
      { intros m Hm. unfold at_. destruct (Z.ltb_spec m 0); auto. apply IH; lia. }
      rewrite (Hm (Z.of_nat (S n) - 1)%Z), (Hm (Z.of_nat (S n) - 2)%Z) in E1 by lia.
      rewrite <- E2 in E1. unfold at_ in E1.
      destruct (Z.ltb_spec (Z.of_nat (S n)) 0); [lia|]. now rewrite Nat2Z.id in E1. }
  apply (nth_ext y1 y2 0%R 0%R); [congruence|]. intros n Hn. apply (G n); lia.
Qed.

Lemma cascade_unique sos : forall x y1 y2, cascade sos x y1 -> cascade sos x y2 -> y1 = y2.
Proof.
  induction sos as [|c sos IH]; intros x y1 y2 H1 H2; simpl in *; [congruence|].
  destruct H1 as (w1 & S1 & C1). destruct H2 as (w2 & S2 & C2).
  rewrite (section_eq_unique _ _ _ _ S1 S2) in C1. eauto.
Qed.

(* ------------------------------------------------------------------ *)
(** * Collected statements *)

Lemma time_reverse_spec {A} garbage (src : source A) s :
  wf_source src s ->
  (s <> [] -> wf_source (time_reverse_result garbage src) (rev s))
  /\ (s = [] -> forall num, 0 < num -> time_reverse_result garbage src num = raise IndexError).
Proof.
  intros Hw. split.
  - intros Hs. now apply time_reverse_delivers.
  - intros -> num Hn. now apply time_reverse_empty.
Qed.

Lemma is_filtered_unique sos nch s o1 o2 :
  is_filtered sos nch s o1 -> is_filtered sos nch s o2 -> o1 = o2.
Proof.
  intros (L1 & W1 & C1) (L2 & W2 & C2). rewrite Forall_forall in W1, W2.
  apply (nth_ext o1 o2 [] []); [congruence|]. intros k Hk.
  assert (length (nth k o1 []) = nch) as E1 by (apply W1; apply nth_In; auto).
  assert (length (nth k o2 []) = nch) as E2 by (apply W2; apply nth_In; lia).
  apply (nth_ext _ _ 0%R 0%R); [congruence|]. intros c Hc. rewrite E1 in Hc.
  pose proof (cascade_unique sos _ _ _ (C1 c Hc) (C2 c Hc)) as E.
  apply (f_equal (fun l => nth k l 0%R)) in E. unfold channel in E.
  assert (forall o : list (list R), k < length o -> nth k (map (fun r => nth c r 0%R) o) 0%R = nth c (nth k o []) 0%R) as G.
  { intros o Ho. rewrite (nth_indep _ 0%R (nth c [] 0%R)) by (rewrite map_length; auto).
    apply (map_nth (fun r : list R => nth c r 0%R)). }
  rewrite !G in E by lia. exact E.
Qed.

Lemma filter_spec sos nch (src : source (list R)) s :
  wf_source src s -> Forall (fun r => length r = nch) s ->
  exists out, wf_source (filter_result sos nch src) out /\ is_filtered sos nch s out
    /\ forall out', is_filtered sos nch s out' -> out' = out.
Proof.
  intros Hw Hs. exists (band_output sos nch s).
  pose proof (band_output_filtered sos nch s Hs) as Hf. split; [|split]; auto.
  - intros num Hn. apply filter_delivers; auto.
  - intros out' Ho. now apply (is_filtered_unique sos nch s).
Qed.

Lemma average_num_iff n nav : 0 < nav ->
  average_num_samples n nav = INR (n / nav) <-> n mod nav = 0.
Proof.
  intros Hn. unfold average_num_samples.
  assert (INR nav <> 0%R) as Hne by (apply not_0_INR; lia).
  pose proof (Nat.div_mod n nav ltac:(lia)) as E. split.
  - intros H.
    assert (INR n = INR (n / nav * nav)) as H2.
    { rewrite mult_INR, <- H. now field. }
    apply INR_eq in H2. rewrite (Nat.mul_comm nav) in E. lia.
  - intros H. rewrite H, Nat.add_0_r in E. rewrite E at 1. rewrite mult_INR. now field.
Qed.

Lemma average_spec {Row} (mean : list Row -> Row) nav (src : source Row) s :
  0 < nav -> wf_source src s ->
  exists out, wf_source (average_result mean nav src) out
  /\ length out = length s / nav
  /\ (forall k, k < length s / nav ->
        nth_error out k = Some (mean (slice (k * nav) (k * nav + nav) s)))
  /\ (average_num_samples (length s) nav = INR (length out) <-> length s mod nav = 0).
Proof.
  intros Hn Hw. exists (map mean (groups nav s)). split; [|split; [|split]].
  - now apply average_delivers.
  - rewrite map_length. now apply groups_length.
  - intros k Hk. rewrite nth_error_map, groups_nth by auto. reflexivity.
  - rewrite map_length, groups_length by auto. now apply average_num_iff.
Qed.

Lemma average_num_samples_refuted :
  exists (s : list (list R)) nav (src : source (list R)), 0 < nav /\ wf_source src s
  /\ exists out, wf_source (average_result (row_mean 1) nav src) out
  /\ average_num_samples (length s) nav <> INR (length out).
Proof.
  exists [[1];[2];[3]]%R, 2, (fun num => done (chunks num [[1];[2];[3]]%R)).
  assert (wf_source (fun num => done (chunks num [[1];[2];[3]]%R)) [[1];[2];[3]]%R) as Hw
    by (intros num Hn; now apply delivers_chunks).
  split; [lia|]. split; auto.
  destruct (average_spec (row_mean 1) 2 _ _ ltac:(lia) Hw) as (out & H1 & _ & _ & H4).
  exists out. split; auto. intros H. apply H4 in H. discriminate H.
Qed.

Lemma bank_spec bands nch (src : source (list R)) s num :
  wf_source src s -> Forall (fun r => length r = nch) s -> 0 < num ->
  exists outs, Forall2 (fun sos o => is_filtered sos nch s o) bands outs
  /\ let out := beside (length s) outs in
     let nfull := length s / num * num in
     (length s = nfull -> delivers num out (bank_result bands nch src num))
     /\ (length s = S nfull -> 1 < num ->
           bank_result bands nch src num
           = done (chunks num (firstn nfull out) ++ [repeat (nth nfull out []) num]))
     /\ (S nfull < length s ->
           bank_result bands nch src num
           = mkTrace (chunks num (firstn nfull out)) (Raised ValueError)).
Proof.
  intros Hw Hs Hn. exists (map (fun sos => band_output sos nch s) bands). split.
  - induction bands as [|sos bands IH]; simpl; constructor; auto. now apply band_output_filtered.
  - now apply bank_result_spec.
Qed.

Lemma bank_refuted :
  exists bands nch (src5 src6 : source (list R)) s5 s6 num,
    wf_source src5 s5 /\ wf_source src6 s6 /\ 0 < num
    /\ (fin (bank_result bands nch src5 num) = Finished
        /\ length (concat (blocks (bank_result bands nch src5 num))) <> length s5)
    /\ fin (bank_result bands nch src6 num) = Raised ValueError.
Proof.
  set (s5 := [[1];[2];[3];[4];[5]]%R). set (s6 := [[1];[2];[3];[4];[5];[6]]%R).
  exists [[mkSec 1 0 0 0 0]], 1, (fun num => done (chunks num s5)), (fun num => done (chunks num s6)),
    s5, s6, 4.
  assert (forall s : list (list R), wf_source (fun num => done (chunks num s)) s) as Hw
    by (intros s num Hn; now apply delivers_chunks).
  split; [apply Hw|]. split; [apply Hw|]. split; [lia|].
  destruct (bank_result_spec [[mkSec 1 0 0 0 0]] 1 _ s5 4 (Hw s5) ltac:(lia)) as (_ & H5 & _).
  destruct (bank_result_spec [[mkSec 1 0 0 0 0]] 1 _ s6 4 (Hw s6) ltac:(lia)) as (_ & _ & H6).
  rewrite H5, H6 by (simpl; lia). split; [split|]; [reflexivity| |reflexivity].
  cbn [blocks done]. rewrite concat_app, app_length, concat_chunks by lia.
  rewrite firstn_length. unfold beside. rewrite map_length, seq_length. cbn. discriminate.
Qed.
