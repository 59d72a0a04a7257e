(** Trigger detection: /repo/acoular/tprocess.py:310-506 (class Trigger).

    The trigger signal has one channel; a row of a block is therefore written
    as one real number ([Trigger._check_trigger_existence], lines 496-501,
    refuses every other number of channels, see [trigger_data]). *)
From Coq Require Import List Arith Lia ZArith Bool Reals Lra.
Require Import ZifyBool ZifyNat ZifyN.
From Verif Require Import Stream.
Import ListNotations.
Ltac Zify.zify_post_hook ::= Z.div_mod_to_equations.
Local Open Scope nat_scope.

Inductive ttype := Dirac | Rect.                       (* trigger_type, line 361 *)
Inductive pick := Extremum | First.                    (* multiple_peaks_in_hunk, line 366 *)

(** _trigger_value_comp, tprocess.py:464-465. *)
Definition beyond (thr v : R) : bool :=
  if Rlt_dec 0 thr then if Rlt_dec thr v then true else false
  else if Rlt_dec v thr then true else false.

(** [xNew[1:] - xNew[:-1]], tprocess.py:462. *)
Fixpoint diffs (l : list R) : list R :=
  match l with
  | a :: ((b :: _) as r) => (b - a)%R :: diffs r
  | _ => []
  end.

(** _trigger_dirac and _trigger_rect, tprocess.py:452-462; [x0] is [[]] before
    the first block and the last sample of the previous block later on. *)
Definition trigger_func (ty : ttype) (x0 x : list R) : list R :=
  match ty with Dirac => x | Rect => diffs (x0 ++ x) end.

(** numpy.flatnonzero. *)
Fixpoint flatnonzero (i : nat) (l : list bool) : list nat :=
  match l with
  | [] => []
  | b :: l' => (if b then [i] else []) ++ flatnonzero (S i) l'
  end.

(** the loop over the source's blocks, tprocess.py:411-417: positions and
    values of all samples that exceed the threshold. *)
Fixpoint peaks_loop (ty : ttype) (thr : R) (num : nat) (bs : list (list R)) (x0 : list R) (dSamples : nat)
    : list (nat * R) :=
  match bs with
  | [] => []
  | x :: bs' =>
      let local := flatnonzero 0 (map (beyond thr) (trigger_func ty x0 x)) in
      map (fun i => (i + dSamples, nth i x 0%R)) local
        ++ peaks_loop ty thr num bs' [last x 0%R] (dSamples + num)
  end.

(** peakLoc[1:] - peakLoc[:-1], lines 422 and 443. *)
Fixpoint gaps (l : list nat) : list nat :=
  match l with
  | a :: ((b :: _) as r) => (b - a) :: gaps r
  | _ => []
  end.

Definition locs (l : list (nat * R)) : list nat := map fst l.
Definition list_max1 (l : list nat) : nat := fold_right Nat.max 0 l.
Definition list_min1 (l : list nat) : nat :=
  match l with [] => 0 | x :: r => fold_right Nat.min x r end.

(** flatnonzero(peakDist < hunk_length*maxPeakDist)[0], lines 429, 431, 444:
    the first of the close pairs. *)
Fixpoint first_close (hunk : R) (l : list (nat * R)) : option nat :=
  match l with
  | a :: ((b :: _) as r) =>
      if Rlt_dec (INR (fst b - fst a)) hunk then Some 0 else option_map S (first_close hunk r)
  | _ => None
  end.

(** numpy.delete *)
Fixpoint delete {A} (l : list A) (i : nat) : list A :=
  match l, i with
  | [], _ => []
  | _ :: l', 0 => l'
  | x :: l', S i' => x :: delete l' i'
  end.

(** lines 432-441: which of the two is deleted; argmin takes the first minimum. *)
Definition victim (pk : pick) (l : list (nat * R)) (i : nat) : nat :=
  match pk with
  | First => S i
  | Extremum => if Rlt_dec (Rabs (snd (nth (S i) l (0, 0%R)))) (Rabs (snd (nth i l (0, 0%R)))) then S i else i
  end.

(** the while loop, lines 430-444. *)
Fixpoint thin (fuel : nat) (pk : pick) (hunk : R) (l : list (nat * R)) : option (list (nat * R)) :=
  match first_close hunk l with
  | None => Some l
  | Some i => match fuel with
              | 0 => None
              | S f => thin f pk hunk (delete l (victim pk l i))
              end
  end.

(** ndarray.max, ndarray.min, ndarray.mean of a non-empty array. *)
Definition rmax (l : list R) : R := match l with [] => 0%R | x :: r => fold_right Rmax x r end.
Definition rmin (l : list R) : R := match l with [] => 0%R | x :: r => fold_right Rmin x r end.
Definition rsum (l : list R) : R := fold_right Rplus 0%R l.
Definition rmean (l : list R) : R := (rsum l / INR (length l))%R.

(** the threshold taken if the user gives none, tprocess.py:476-491: 75% of the
    extremum after subtraction of the mean (of the blocks' means).  argmax takes
    the first maximum. *)
Definition guess (bs : list (list R)) : R :=
  let maxVal := rmax (map rmax bs) in
  let minVal := rmin (map rmin bs) in
  let meanVal := rmean (map rmean bs) in
  let lo := (minVal - meanVal)%R in
  let hi := (maxVal - meanVal)%R in
  ((if Rlt_dec (Rabs lo) (Rabs hi) then hi else lo) * (3 / 4))%R.

Inductive terr :=
| NotOneChannel          (* Exception, line 500 *)
| NotEnough              (* Exception, line 420 *)
| NoPeakLeft             (* ValueError of max() of an empty array, line 456 *)
| NoStart                (* AttributeError: the source has no [start], line 453 *)
| SourceError (e : exn)
| Fuel.

(** lines 446-455: is any distance farther from the mean than allowed? *)
Definition uneven (maxvar : R) (d : list nat) : bool :=
  let m := (fold_right (fun x a => INR x + a) 0 d / INR (length d))%R in
  existsb (fun x => if Rlt_dec (maxvar * m) (Rabs (INR x - m)) then true else false) d.

(** Trigger._get_trigger_data, tprocess.py:402-456, for a given threshold.
    [has_start]: the source object has an attribute [start], which the text of
    the warning needs.  Warnings themselves are not modelled. *)
Definition trigger_data (ty : ttype) (pk : pick) (thr hunk_length maxvar : R) (has_start : bool) (nch : nat)
    (src : source R) : (list nat * nat * nat) + terr :=
  if negb (nch =? 1) then inr NotOneChannel
  else
    let t := src 2048 in
    match fin t with
    | Raised e => inr (SourceError e)
    | Finished =>
        let peaks := peaks_loop ty thr 2048 (blocks t) [] 0 in
        if length peaks <=? 1 then inr NotEnough
        else
          let maxd := list_max1 (gaps (locs peaks)) in
          match thin (length peaks) pk (hunk_length * INR maxd) peaks with
          | None => inr Fuel
          | Some p =>
              let d := gaps (locs p) in
              if uneven maxvar d && negb has_start then inr NoStart
              else match d with
                   | [] => inr NoPeakLeft
                   | _ => inl (locs p, list_max1 d, list_min1 d)
                   end
          end
    end.

(* ------------------------------------------------------------------ *)
(** * Specification *)

(** the samples of the stream that exceed the threshold *)
Definition exceeding (thr : R) (s : list R) : list nat :=
  filter (fun i => beyond thr (nth i s 0%R)) (seq 0 (length s)).

(** the samples whose step from their predecessor exceeds the threshold *)
Definition edges (thr : R) (s : list R) : list nat :=
  filter (fun i => beyond thr (nth i s 0 - nth (i - 1) s 0)%R) (seq 1 (length s - 1)).

(** every distance between neighbours is at least [h] *)
Fixpoint spread (h : R) (l : list nat) : Prop :=
  match l with
  | a :: ((b :: _) as r) => (h <= INR (b - a))%R /\ spread h r
  | _ => True
  end.

(** strictly increasing positions *)
Fixpoint rising (l : list nat) : Prop :=
  match l with
  | a :: ((b :: _) as r) => a < b /\ rising r
  | _ => True
  end.

(** [P] is what may be left of the candidates [E], whose samples have the
    values [v], if no two are to be closer than [h] *)
Definition picked (pk : pick) (h : R) (v : nat -> R) (E P : list nat) : Prop :=
  rising P /\ 2 <= length P /\ (forall i, In i P -> In i E) /\ spread h P
  /\ forall i, In i E -> ~ In i P ->
       exists j, In j E /\ j <> i /\ (Rabs (INR i - INR j) < h)%R
                 /\ match pk with
                    | First => In j P /\ j < i
                    | Extremum => (Rabs (v i) <= Rabs (v j))%R
                    end.

(* ------------------------------------------------------------------ *)
Lemma nth_skipn' {A} (d : A) n l j : nth j (skipn n l) d = nth (n + j) l d.
Proof. revert l. induction n as [|n IH]; intros [|a l]; simpl; auto. now destruct j. Qed.

Lemma nth_firstn_lt {A} (d : A) n l j : j < n -> nth j (firstn n l) d = nth j l d.
Proof.
  revert l j. induction n as [|n IH]; intros [|a l] [|j] H; simpl; auto; try lia.
  apply IH. lia.
Qed.

Lemma last_nth' {A} (d : A) l : last l d = nth (length l - 1) l d.
Proof.
  induction l as [|a l IH]; [reflexivity|]. destruct l as [|b l]; [reflexivity|].
  change (last (a :: b :: l) d) with (last (b :: l) d). rewrite IH. simpl. now rewrite Nat.sub_0_r.
Qed.

(** * Detection *)

Lemma flatnonzero_spec l : forall i, flatnonzero i l = filter (fun j => nth (j - i) l false) (seq i (length l)).
Proof.
  induction l as [|b l IH]; intros i; simpl; auto.
  rewrite Nat.sub_diag. rewrite IH.
  assert (filter (fun j => nth (j - S i) l false) (seq (S i) (length l))
          = filter (fun j => match j - i with 0 => b | S m => nth m l false end) (seq (S i) (length l))) as ->.
  { apply filter_ext_in. intros j Hj. apply in_seq in Hj.
    replace (j - i) with (S (j - S i)) by lia. reflexivity. }
  now destruct b.
Qed.

Lemma filter_seq_shift (f : nat -> bool) n k d :
  map (fun i => i + d) (filter f (seq k n)) = filter (fun j => f (j - d)) (seq (k + d) n).
Proof.
  revert k. induction n as [|n IH]; intros k; simpl; auto.
  replace (k + d - d) with k by lia.
  destruct (f k); simpl; rewrite IH; reflexivity.
Qed.

(** [Dirac]: all the blocks together *)
Lemma peaks_dirac thr num s : 0 < num -> forall x0 d,
  peaks_loop Dirac thr num (chunks num s) x0 d
  = map (fun i => (i, nth (i - d) s 0%R)) (filter (fun i => beyond thr (nth (i - d) s 0%R)) (seq d (length s))).
Proof.
  intros Hn. remember (length s) as k eqn:Hk. revert s Hk.
  induction k as [k IH] using lt_wf_ind. intros s Hk x0 d.
  destruct s as [|a s']; [subst k; reflexivity|]. set (s := a :: s') in *.
  rewrite (chunks_step num s) by (auto; discriminate).
  cbn [peaks_loop trigger_func].
  rewrite (IH (length (skipn num s))) with (s := skipn num s);
    [|rewrite skipn_length; assert (0 < length s) by (simpl; lia); lia | reflexivity].
  rewrite flatnonzero_spec. rewrite map_length, firstn_length, skipn_length.
  rewrite <- Hk. replace (seq d k) with (seq d (Nat.min num k + (k - num))) by (f_equal; lia).
  rewrite seq_app, filter_app, map_app. f_equal.
  - rewrite (filter_ext_in _ (fun j => beyond thr (nth j s 0%R))).
    2:{ intros j Hj. apply in_seq in Hj. rewrite Nat.sub_0_r.
        rewrite (nth_indep _ false (beyond thr 0%R)) by (rewrite map_length, firstn_length; lia).
        rewrite map_nth, nth_firstn_lt by lia. reflexivity. }
    change (seq d (Nat.min num k)) with (seq (0 + d) (Nat.min num k)).
    rewrite <- (filter_seq_shift (fun j => beyond thr (nth j s 0%R)) (Nat.min num k) 0 d).
    rewrite map_map. apply map_ext_in. intros j Hj. apply filter_In in Hj.
    destruct Hj as [Hj _]. apply in_seq in Hj. f_equal.
    replace (j + d - d) with j by lia. rewrite nth_firstn_lt by lia. reflexivity.
  - destruct (le_lt_dec k num) as [L|L].
    { replace (k - num) with 0 by lia. reflexivity. }
    replace (Nat.min num k) with num by lia.
    rewrite (filter_ext_in (fun i => beyond thr (nth (i - (d + num)) (skipn num s) 0%R))
               (fun i => beyond thr (nth (i - d) s 0%R))).
    2:{ intros j Hj. apply in_seq in Hj. f_equal. rewrite nth_skipn'. f_equal. lia. }
    apply map_ext_in. intros j Hj. apply filter_In in Hj. destruct Hj as [Hj _]. apply in_seq in Hj.
    f_equal. rewrite nth_skipn'. f_equal. lia.
Qed.

Lemma diffs_length p l : length (diffs (p :: l)) = length l.
Proof. revert p. induction l as [|a l IH]; intros p; simpl; auto. f_equal. apply IH. Qed.

Lemma diffs_nth l : forall p j, j < length l ->
  nth j (diffs (p :: l)) 0%R = (nth j l 0 - nth j (p :: l) 0)%R.
Proof.
  induction l as [|a l IH]; intros p j H; [simpl in H; lia|].
  destruct j as [|j]; [reflexivity|].
  change (diffs (p :: a :: l)) with ((a - p)%R :: diffs (a :: l)). cbn [nth].
  rewrite IH by (simpl in H; lia). reflexivity.
Qed.

(** the step to sample [i] of a stream that begins with sample [d] and was
    preceded by [p] *)
Definition step_to (p : R) (d : nat) (s : list R) (i : nat) : R :=
  (nth (i - d) s 0 - nth (i - d) (p :: s) 0)%R.

(** [Rect], all blocks but the first *)
Lemma peaks_rect thr num s : 0 < num -> forall p d,
  peaks_loop Rect thr num (chunks num s) [p] d
  = map (fun i => (i, nth (i - d) s 0%R)) (filter (fun i => beyond thr (step_to p d s i)) (seq d (length s))).
Proof.
  intros Hn. remember (length s) as k eqn:Hk. revert s Hk.
  induction k as [k IH] using lt_wf_ind. intros s Hk p d.
  destruct s as [|a s']; [subst k; reflexivity|]. set (s := a :: s') in *.
  rewrite (chunks_step num s) by (auto; discriminate).
  cbn [peaks_loop trigger_func].
  rewrite (IH (length (skipn num s))) with (s := skipn num s);
    [|rewrite skipn_length; assert (0 < length s) by (simpl; lia); lia | reflexivity].
  change ([p] ++ firstn num s) with (p :: firstn num s).
  rewrite flatnonzero_spec. rewrite map_length, diffs_length, firstn_length, skipn_length.
  rewrite <- Hk. replace (seq d k) with (seq d (Nat.min num k + (k - num))) by (f_equal; lia).
  rewrite seq_app, filter_app, map_app. f_equal.
  - rewrite (filter_ext_in _ (fun j => beyond thr (nth j s 0 - nth j (p :: s) 0)%R)).
    2:{ intros j Hj. apply in_seq in Hj. rewrite Nat.sub_0_r.
        rewrite (nth_indep _ false (beyond thr 0%R)) by (rewrite map_length, diffs_length, firstn_length; lia).
        rewrite map_nth, diffs_nth by (rewrite firstn_length; lia).
        rewrite nth_firstn_lt by lia. f_equal. f_equal. destruct j as [|j]; [reflexivity|].
        cbn [nth]. rewrite nth_firstn_lt by lia. reflexivity. }
    assert (filter (fun i => beyond thr (step_to p d s i)) (seq d (Nat.min num k))
            = map (fun i => i + d) (filter (fun j => beyond thr (nth j s 0 - nth j (p :: s) 0)%R) (seq 0 (Nat.min num k)))) as ->.
    { rewrite filter_seq_shift. reflexivity. }
    rewrite map_map. apply map_ext_in. intros j Hj. apply filter_In in Hj.
    destruct Hj as [Hj _]. apply in_seq in Hj. f_equal.
    replace (j + d - d) with j by lia. rewrite nth_firstn_lt by lia. reflexivity.
  - destruct (le_lt_dec k num) as [L|L].
    { replace (k - num) with 0 by lia. reflexivity. }
    replace (Nat.min num k) with num by lia.
    rewrite (filter_ext_in
               (fun i => beyond thr (step_to (last (firstn num s) 0%R) (d + num) (skipn num s) i))
               (fun i => beyond thr (step_to p d s i))).
    2:{ intros j Hj. apply in_seq in Hj. f_equal. unfold step_to.
        rewrite nth_skipn'. replace (num + (j - (d + num))) with (j - d) by lia. f_equal.
        destruct (Nat.eq_dec j (d + num)) as [->|N].
        - rewrite Nat.sub_diag. cbn [nth]. replace (d + num - d) with (S (num - 1)) by lia. cbn [nth].
          rewrite last_nth', nth_firstn_lt by (rewrite ?firstn_length; lia).
          f_equal. rewrite firstn_length. lia.
        - replace (j - (d + num)) with (S (j - (d + num) - 1)) by lia. cbn [nth].
          rewrite nth_skipn'. replace (j - d) with (S (j - d - 1)) by lia. cbn [nth]. f_equal. lia. }
    apply map_ext_in. intros j Hj. apply filter_In in Hj. destruct Hj as [Hj _]. apply in_seq in Hj.
    f_equal. rewrite nth_skipn'. f_equal. lia.
Qed.

(** [Rect], the whole stream: in the first block there is no predecessor of
    the first sample, so that positions count one less there *)
Lemma peaks_rect_all thr num s : 0 < num ->
  locs (peaks_loop Rect thr num (chunks num s) [] 0)
  = map (fun i => if i <? num then i - 1 else i) (edges thr s).
Proof.
  intros Hn. destruct s as [|a s']; [reflexivity|]. set (s := a :: s') in *.
  rewrite (chunks_step num s) by (auto; discriminate).
  cbn [peaks_loop trigger_func]. rewrite app_nil_l, Nat.add_0_l.
  unfold locs. rewrite map_app, map_map. cbn [fst].
  rewrite (peaks_rect thr num (skipn num s) Hn), map_map, map_id. rewrite skipn_length.
  set (k := length s).
  assert (firstn num s = a :: firstn (num - 1) s') as F.
  { unfold s. destruct num; [lia|]. simpl. now rewrite Nat.sub_0_r. }
  unfold edges. fold k.
  assert (0 < k) as Hk by (unfold k, s; simpl; lia).
  replace (seq 1 (k - 1)) with (seq 1 ((Nat.min num k - 1) + (k - num))) by (f_equal; lia).
  rewrite seq_app, filter_app, map_app. f_equal.
  - rewrite F, flatnonzero_spec, map_length, diffs_length, firstn_length.
    replace (Nat.min (num - 1) (length s')) with (Nat.min num k - 1) by (unfold k, s; simpl; lia).
    rewrite (filter_ext_in _ (fun j => beyond thr (nth (j + 1) s 0 - nth j s 0)%R)).
    2:{ intros j Hj. apply in_seq in Hj. unfold k, s in Hj. cbn [length] in Hj. rewrite Nat.sub_0_r.
        rewrite (nth_indep _ false (beyond thr 0%R)) by (rewrite map_length, diffs_length, firstn_length; lia).
        rewrite map_nth, diffs_nth by (rewrite firstn_length; lia).
        rewrite <- F. rewrite !nth_firstn_lt by lia. unfold s. rewrite Nat.add_1_r. reflexivity. }
    assert (filter (fun i => beyond thr (nth i s 0 - nth (i - 1) s 0)%R) (seq 1 (Nat.min num k - 1))
            = map (fun i => i + 1) (filter (fun j => beyond thr (nth (j + 1) s 0 - nth j s 0)%R) (seq 0 (Nat.min num k - 1)))) as ->.
    { rewrite filter_seq_shift. apply filter_ext_in. intros j Hj. apply in_seq in Hj.
      replace (j - 1 + 1) with j by lia. reflexivity. }
    rewrite map_map. apply map_ext_in. intros j Hj. apply filter_In in Hj. destruct Hj as [Hj _].
    apply in_seq in Hj. destruct (Nat.ltb_spec (j + 1) num); lia.
  - destruct (le_lt_dec k num) as [L|L].
    { replace (k - num) with 0 by lia. reflexivity. }
    replace (1 + (Nat.min num k - 1)) with num by lia.
    rewrite (filter_ext_in _ (fun i => beyond thr (nth i s 0 - nth (i - 1) s 0)%R)).
    + rewrite <- (map_id (filter _ _)) at 1. apply map_ext_in. intros j Hj. apply filter_In in Hj.
      destruct Hj as [Hj _]. apply in_seq in Hj. destruct (Nat.ltb_spec j num); lia.
    + intros j Hj. apply in_seq in Hj. f_equal. unfold step_to.
      rewrite nth_skipn'. replace (num + (j - num)) with j by lia. f_equal.
      destruct (Nat.eq_dec j num) as [->|N].
      * rewrite Nat.sub_diag. cbn [nth]. rewrite last_nth', nth_firstn_lt by (rewrite ?firstn_length; fold k; lia).
        f_equal. rewrite firstn_length. fold k. lia.
      * replace (j - num) with (S (j - num - 1)) by lia. cbn [nth]. rewrite nth_skipn'. f_equal. lia.
Qed.

(* ------------------------------------------------------------------ *)
(** * Thinning *)

Lemma first_close_cons h a b l : first_close h (a :: b :: l)
  = if Rlt_dec (INR (fst b - fst a)) h then Some 0 else option_map S (first_close h (b :: l)).
Proof. reflexivity. Qed.

Lemma first_close_bound h l i : first_close h l = Some i -> S i < length l.
Proof.
  revert i. induction l as [|a l IH]; intros i; [discriminate|]. destruct l as [|b l]; [discriminate|].
  rewrite first_close_cons. destruct (Rlt_dec _ h).
  - intros E. inversion E. simpl. lia.
  - destruct (first_close h (b :: l)) as [j|] eqn:E; cbn [option_map]; [|discriminate]. intros E2. inversion E2.
    specialize (IH j eq_refl). simpl in *. lia.
Qed.

Lemma first_close_none h l : first_close h l = None -> spread h (locs l).
Proof.
  induction l as [|a l IH]; [simpl; auto|]. destruct l as [|b l]; [simpl; auto|].
  rewrite first_close_cons. destruct (Rlt_dec _ h) as [H|H]; [discriminate|].
  destruct (first_close h (b :: l)) eqn:E; cbn [option_map]; [discriminate|]. intros _.
  cbn [locs map spread]. split; [apply Rnot_lt_le; exact H|]. apply IH. reflexivity.
Qed.

Lemma victim_cases pk l i : victim pk l i = i \/ victim pk l i = S i.
Proof. destruct pk; simpl; auto. destruct (Rlt_dec _ _); auto. Qed.

Lemma delete_length {A} (l : list A) i : i < length l -> length (delete l i) = length l - 1.
Proof. revert i. induction l as [|x l IH]; intros [|i] H; simpl in *; try lia. rewrite IH by lia. lia. Qed.

Lemma thin_some pk h l : forall fuel, length l <= S fuel -> exists p, thin fuel pk h l = Some p.
Proof.
  intros fuel. revert l. induction fuel as [|f IH]; intros l H; cbn [thin].
  - destruct (first_close h l) as [i|] eqn:E; [|eauto]. apply first_close_bound in E. lia.
  - destruct (first_close h l) as [i|] eqn:E; [|eauto]. pose proof (first_close_bound _ _ _ E) as B.
    apply IH. rewrite delete_length; [lia|]. destruct (victim_cases pk l i); lia.
Qed.

(** what holds of the list and is kept by every deletion holds of the result *)
Lemma thin_ind pk h (P : list (nat * R) -> Prop) :
  (forall l i, P l -> first_close h l = Some i -> P (delete l (victim pk l i))) ->
  forall fuel l p, thin fuel pk h l = Some p -> P l -> P p /\ first_close h p = None.
Proof.
  intros Step. induction fuel as [|f IH]; intros l p E H; cbn [thin] in E.
  - destruct (first_close h l) eqn:F; [discriminate|]. inversion E. subst. auto.
  - destruct (first_close h l) as [i|] eqn:F; [|inversion E; subst; auto].
    apply (IH _ _ E). now apply Step.
Qed.

Lemma delete_in {A} (l : list A) i x : In x (delete l i) -> In x l.
Proof. revert i. induction l as [|y l IH]; intros [|i] H; simpl in *; auto. destruct H; eauto. Qed.

Lemma delete_other {A} (d : A) (l : list A) i x : In x l -> In x (delete l i) \/ (x = nth i l d /\ i < length l).
Proof.
  revert i. induction l as [|y l IH]; intros [|i] H; simpl in *; auto.
  - destruct H as [->|H]; auto. right. split; auto. lia.
  - destruct H as [->|H]; auto. destruct (IH i H) as [K|[K1 K2]]; auto. right. split; auto. lia.
Qed.

Lemma rising_tail a l : rising (a :: l) -> rising l.
Proof. destruct l; simpl; tauto. Qed.

Lemma rising_head a l : rising (a :: l) -> forall x, In x l -> a < x.
Proof.
  revert a. induction l as [|b l IH]; intros a H x Hx; [destruct Hx|].
  destruct H as [H1 H2]. destruct Hx as [->|Hx]; auto. specialize (IH b H2 x Hx). lia.
Qed.

Lemma rising_cons a l : (forall x, In x l -> a < x) -> rising l -> rising (a :: l).
Proof. intros H K. destruct l as [|b l]; simpl; auto. split; auto. apply H. now left. Qed.

Lemma rising_delete (l : list (nat * R)) i : rising (locs l) -> rising (locs (delete l i)).
Proof.
  revert i. induction l as [|a l IH]; intros i H; [destruct i; exact I|]. destruct i as [|i].
  - cbn [delete]. apply (rising_tail (fst a)). exact H.
  - cbn [delete locs map]. apply rising_cons.
    + intros x Hx. apply (rising_head (fst a) (locs l)); auto.
      unfold locs in *. apply in_map_iff in Hx. destruct Hx as [q [<- Hq]]. apply in_map. eapply delete_in; eauto.
    + apply IH. apply (rising_tail (fst a)). exact H.
Qed.

Lemma rising_filter_seq f n : forall d, rising (filter f (seq d n)).
Proof.
  induction n as [|n IH]; intros d; simpl; auto. destruct (f d); auto.
  apply rising_cons; auto. intros x Hx. apply filter_In in Hx. destruct Hx as [Hx _]. apply in_seq in Hx. lia.
Qed.

(** the pair that was found is close *)
Lemma first_close_pair h l i : first_close h l = Some i ->
  (INR (fst (nth (S i) l (0%nat, 0%R)) - fst (nth i l (0%nat, 0%R))) < h)%R.
Proof.
  revert i. induction l as [|a l IH]; intros i; [discriminate|]. destruct l as [|b l]; [discriminate|].
  rewrite first_close_cons. destruct (Rlt_dec _ h) as [H|H].
  - intros E. inversion E. exact H.
  - destruct (first_close h (b :: l)) as [j|] eqn:E; cbn [option_map]; [|discriminate]. intros E2. inversion E2.
    apply (IH j eq_refl).
Qed.

Lemma rising_nth l i : rising (locs l) -> S i < length l ->
  fst (nth i l (0%nat, 0%R)) < fst (nth (S i) l (0%nat, 0%R)).
Proof.
  revert i. induction l as [|a l IH]; intros i H L; [simpl in L; lia|].
  destruct l as [|b l]; [simpl in L; lia|]. destruct i as [|i].
  - destruct H as [H _]. exact H.
  - apply IH; [apply (rising_tail (fst a)); exact H | simpl in *; lia].
Qed.

(** some distance of neighbours is at least [D] *)
Definition wide (D : nat) (l : list (nat * R)) : Prop := exists g, In g (gaps (locs l)) /\ D <= g.

Lemma wide_delete D h pk l i : (h <= INR D)%R -> rising (locs l) -> first_close h l = Some i ->
  wide D l -> wide D (delete l (victim pk l i)).
Proof.
  intros HD. revert i.
  assert (forall l i j, rising (locs l) -> first_close h l = Some i -> j = i \/ j = S i ->
            wide D l -> wide D (delete l j)) as G.
  { induction l0 as [|a l0 IH]; intros i j Hr F Hj W; [discriminate|].
    destruct l0 as [|b l0]; [discriminate|]. rewrite first_close_cons in F.
    destruct (Rlt_dec (INR (fst b - fst a)) h) as [H|H].
    - inversion F. subst i.
      assert (fst b - fst a < D) as Hs.
      { apply INR_lt. eapply Rlt_le_trans; eauto. }
      destruct W as [g [[<-|Hg] HgD]]; [lia|].
      destruct Hj as [->| ->]; cbn [delete].
      + exists g. split; auto.
      + destruct l0 as [|c l0]; [destruct Hg|]. change (In g ((fst c - fst b) :: gaps (locs (c :: l0)))) in Hg.
        destruct Hr as [R1 [R2 _]]. destruct Hg as [Hg|Hg]; [subst g|].
        * exists (fst c - fst a). split; [simpl; auto|]. lia.
        * exists g. split; [|exact HgD]. change (In g ((fst c - fst a) :: gaps (locs (c :: l0)))). now right.
    - destruct (first_close h (b :: l0)) as [i'|] eqn:E; cbn [option_map] in F; [|discriminate]. inversion F. subst i.
      pose proof (first_close_bound _ _ _ E) as B.
      assert (exists j', j = S j' /\ (j' = i' \/ j' = S i')) as [j' [-> Hj']].
      { destruct Hj as [->| ->]; [exists i'|exists (S i')]; auto. }
      change (delete (a :: b :: l0) (S j')) with (a :: delete (b :: l0) j').
      assert (delete (b :: l0) j' <> []) as NE.
      { intros Z. pose proof (delete_length (b :: l0) j') as L. rewrite Z in L. simpl in *. destruct Hj'; lia. }
      assert (rising (locs (b :: l0))) as Hr' by (apply (rising_tail (fst a)); exact Hr).
      destruct W as [g [Hg HgD]]. change (In g ((fst b - fst a) :: gaps (locs (b :: l0)))) in Hg. destruct Hg as [Hg|Hg]; [subst g|].
      + destruct (delete (b :: l0) j') as [|c r] eqn:Ed; [congruence|].
        exists (fst c - fst a). split; [simpl; auto|].
        assert (In c (b :: l0)) as Hc by (eapply delete_in; rewrite Ed; now left).
        destruct Hc as [Hc|Hc]; [subst c; exact HgD|].
        pose proof (rising_head _ _ Hr' (fst c)) as K.
        assert (fst b < fst c) by (apply K; unfold locs; apply in_map; exact Hc). lia.
      + destruct (IH i' j' Hr' eq_refl Hj') as [g' [Hg' HD']]; [exists g; auto|].
        exists g'. split; auto. destruct (delete (b :: l0) j') as [|c r]; [congruence|].
        change (In g' ((fst c - fst a) :: gaps (locs (c :: r)))). now right. }
  intros i Hr F W. apply (G l i); auto. apply victim_cases.
Qed.

(** [First]: nothing before the close pair, nor its first member, is ever deleted *)
Fixpoint no_close (h : R) (l : list (nat * R)) : Prop :=
  match l with
  | a :: ((b :: _) as r) => ~ (INR (fst b - fst a) < h)%R /\ no_close h r
  | _ => True
  end.

Lemma first_close_prefix h pre x rest i :
  no_close h (pre ++ [x]) -> first_close h (pre ++ x :: rest) = Some i -> length pre <= i.
Proof.
  revert i. induction pre as [|a pre IH]; intros i H F; [simpl; lia|].
  simpl app in *. destruct pre as [|b pre].
  - simpl app in *. rewrite first_close_cons in F. destruct H as [H _].
    destruct (Rlt_dec _ h); [contradiction|]. destruct (first_close h (x :: rest)); cbn [option_map] in F; [|discriminate].
    inversion F. simpl. lia.
  - change ((b :: pre) ++ [x]) with (b :: (pre ++ [x])) in *.
    change ((b :: pre) ++ x :: rest) with (b :: (pre ++ x :: rest)) in *.
    rewrite first_close_cons in F. destruct H as [H H2].
    destruct (Rlt_dec _ h); [contradiction|].
    destruct (first_close h (b :: (pre ++ x :: rest))) as [j|] eqn:E; cbn [option_map] in F; [|discriminate].
    inversion F. specialize (IH j H2 eq_refl). simpl in *. lia.
Qed.

Lemma delete_prefix {A} (pre : list A) x rest j : length pre < j ->
  exists rest', delete (pre ++ x :: rest) j = pre ++ x :: rest'.
Proof.
  revert j. induction pre as [|a pre IH]; intros j H.
  - destruct j; [simpl in H; lia|]. simpl. eauto.
  - destruct j; [simpl in H; lia|]. simpl. destruct (IH j) as [r ->]; [simpl in H; lia|]. eauto.
Qed.

Lemma thin_prefix h : forall fuel pre x rest p, no_close h (pre ++ [x]) ->
  thin fuel First h (pre ++ x :: rest) = Some p -> exists p', p = pre ++ x :: p'.
Proof.
  induction fuel as [|f IH]; intros pre x rest p H E; cbn [thin] in E;
    destruct (first_close h (pre ++ x :: rest)) as [i|] eqn:F;
    try discriminate; try (inversion E; eauto; fail).
  pose proof (first_close_prefix _ _ _ _ _ H F) as L. cbn [victim] in E.
  destruct (delete_prefix pre x rest (S i)) as [r Er]; [lia|]. rewrite Er in E. eapply IH; eauto.
Qed.

Lemma no_close_firstn h l i : first_close h l = Some i -> no_close h (firstn (S i) l).
Proof.
  revert i. induction l as [|a l IH]; intros i; [discriminate|]. destruct l as [|b l]; [discriminate|].
  rewrite first_close_cons. destruct (Rlt_dec _ h) as [H|H].
  - intros E. inversion E. simpl. auto.
  - destruct (first_close h (b :: l)) as [j|] eqn:E; cbn [option_map]; [|discriminate]. intros E2. inversion E2.
    specialize (IH j eq_refl). cbn [firstn] in *. split; auto.
Qed.

Lemma nth_split_at {A} (d : A) l i : i < length l -> l = firstn i l ++ nth i l d :: skipn (S i) l.
Proof.
  revert i. induction l as [|a l IH]; intros [|i] H; simpl in *; try lia; auto.
  f_equal. apply IH. lia.
Qed.

Lemma firstn_S_nth {A} (d : A) l i : i < length l -> firstn (S i) l = firstn i l ++ [nth i l d].
Proof.
  revert i. induction l as [|a l IH]; intros [|i] H; simpl in *; try lia; auto.
  f_equal. apply IH. lia.
Qed.

Lemma delete_split {A} (l : list A) i : delete l i = firstn i l ++ skipn (S i) l.
Proof.
  revert i. induction l as [|a l IH]; intros [|i]; simpl; auto. f_equal. apply IH.
Qed.

(** a deleted peak lies shortly after one that is kept *)
Lemma thin_first_dropped h : forall fuel l p, rising (locs l) -> thin fuel First h l = Some p ->
  forall q, In q l -> In q p \/ exists r, In r p /\ fst r < fst q /\ (INR (fst q - fst r) < h)%R.
Proof.
  induction fuel as [|f IH]; intros l p Hr E q Hq; cbn [thin] in E;
    destruct (first_close h l) as [i|] eqn:F;
    try discriminate; try (inversion E; subst; auto; fail).
  cbn [victim] in E. pose proof (first_close_bound _ _ _ F) as B.
  destruct (delete_other (0%nat, 0%R) l (S i) q Hq) as [K|[K1 K2]].
  - apply (IH _ _ (rising_delete l (S i) Hr) E q K).
  - right. exists (nth i l (0%nat, 0%R)).
    pose proof (no_close_firstn _ _ _ F) as N.
    rewrite delete_split in E.
    rewrite (firstn_S_nth (0%nat, 0%R)) in E, N by lia. rewrite <- app_assoc in E. cbn [app] in E.
    destruct (thin_prefix h f _ _ _ _ N E) as [p' Hp]. split.
    + rewrite Hp. apply in_or_app. right. now left.
    + subst q. split; [now apply rising_nth | now apply first_close_pair].
Qed.

(** [Extremum]: a deleted peak lies next to another one that is not smaller *)
Lemma thin_extremum_dropped h : forall fuel l p, rising (locs l) -> thin fuel Extremum h l = Some p ->
  forall q, In q l -> In q p \/
    exists r, In r l /\ fst r <> fst q /\ (INR (fst q - fst r) < h)%R /\ (INR (fst r - fst q) < h)%R
              /\ (Rabs (snd q) <= Rabs (snd r))%R.
Proof.
  intros fuel. induction fuel as [|f IH]; intros l p Hr E q Hq; cbn [thin] in E;
    destruct (first_close h l) as [i|] eqn:F;
    try discriminate; try (inversion E; subst; auto; fail).
  pose proof (first_close_bound _ _ _ F) as B.
  destruct (delete_other (0%nat, 0%R) l (victim Extremum l i) q Hq) as [K|[K1 K2]].
  - destruct (IH _ _ (rising_delete l _ Hr) E q K) as [J|[r [J1 J2]]]; auto.
    right. exists r. split; auto. eapply delete_in; eauto.
  - right. pose proof (first_close_pair _ _ _ F) as C. pose proof (rising_nth _ _ Hr B) as U.
    assert (forall a b, a < b -> (INR (b - a) < h)%R -> (INR (a - b) < h)%R) as Z.
    { intros a b X Y. replace (a - b) with 0 by lia. simpl. eapply Rle_lt_trans; [apply pos_INR|exact Y]. }
    cbn [victim] in K1. destruct (Rlt_dec _ _) as [V|V].
    + exists (nth i l (0%nat, 0%R)). subst q. split; [apply nth_In; lia|].
      split; [lia|]. split; auto. split; [now apply Z|]. lra.
    + exists (nth (S i) l (0%nat, 0%R)). subst q. split; [apply nth_In; lia|].
      split; [lia|]. split; [now apply Z|]. split; auto. lra.
Qed.

(* ------------------------------------------------------------------ *)
(** * All of it *)

Lemma max1_in l : l <> [] -> In (list_max1 l) l.
Proof.
  induction l as [|a l IH]; [congruence|]. intros _. unfold list_max1 in *. simpl.
  destruct l as [|b l]; [simpl; lia|].
  destruct (Nat.max_spec a (fold_right Nat.max 0 (b :: l))) as [[_ ->]|[_ ->]]; auto.
  right. apply IH. discriminate.
Qed.

Lemma max1_ge l x : In x l -> x <= list_max1 l.
Proof. unfold list_max1. induction l as [|a l IH]; intros H; [destruct H|]. simpl. destruct H as [->|H]; [lia|]. specialize (IH H). lia. Qed.

Lemma min1_in l : l <> [] -> In (list_min1 l) l.
Proof.
  destruct l as [|a l]; [congruence|]. intros _. unfold list_min1.
  assert (forall x, fold_right Nat.min x l = x \/ In (fold_right Nat.min x l) l) as G.
  { intros x. clear a. induction l as [|b l IH]; simpl; auto.
    destruct (Nat.min_spec b (fold_right Nat.min x l)) as [[_ ->]|[_ ->]]; tauto. }
  destruct (G a) as [->|K]; [now left|now right].
Qed.

Lemma min1_le l x : In x l -> list_min1 l <= x.
Proof.
  destruct l as [|a l]; [intros []|]. unfold list_min1. intros [->|H].
  - clear. induction l; simpl; lia.
  - revert H. induction l as [|b l IH]; [intros []|]. intros [->|H]; simpl; [lia|]. specialize (IH H). lia.
Qed.

Lemma locs_map f (v : nat -> R) (l : list nat) : locs (map (fun i => (f i, v i)) l) = map f l.
Proof. unfold locs. rewrite map_map. reflexivity. Qed.

Lemma trigger_data_picked ty pk thr hl mv src s peaks v :
  wf_source src s ->
  peaks_loop ty thr 2048 (chunks 2048 s) [] 0 = peaks ->
  (forall q, In q peaks -> snd q = v (fst q)) ->
  rising (locs peaks) -> 2 <= length peaks -> (0 <= hl <= 1)%R ->
  exists P, trigger_data ty pk thr hl mv true 1 src = inl (P, list_max1 (gaps P), list_min1 (gaps P))
    /\ picked pk (hl * INR (list_max1 (gaps (locs peaks)))) v (locs peaks) P
    /\ list_max1 (gaps (locs peaks)) <= list_max1 (gaps P).
Proof.
  intros W HP Hv Hr Hl Hh. unfold trigger_data.
  rewrite (wf_source_eq src s 2048 W) by lia. cbn [negb Nat.eqb fin done blocks].
  rewrite HP. destruct (Nat.leb_spec (length peaks) 1) as [L|L]; [lia|].
  set (D := list_max1 (gaps (locs peaks))). set (h := (hl * INR D)%R).
  destruct (thin_some pk h peaks (length peaks)) as [p Hp]; [lia|]. rewrite Hp.
  assert (h <= INR D)%R as HD.
  { unfold h. pose proof (pos_INR D). rewrite <- (Rmult_1_l (INR D)) at 2. apply Rmult_le_compat_r; lra. }
  assert (wide D peaks) as Wd.
  { exists D. split; auto. apply max1_in. destruct peaks as [|a [|b r]]; simpl in *; try lia. discriminate. }
  destruct (thin_ind pk h (fun l => rising (locs l) /\ wide D l /\ forall q, In q l -> In q peaks)
              ) with (fuel := length peaks) (l := peaks) (p := p) as [[H1 [H2 H3]] H4]; auto.
  { intros l i [A [B C]] F. split; [now apply rising_delete|]. split; [now apply (wide_delete D h)|].
    intros q Hq. apply C. eapply delete_in; eauto. }
  exists (locs p). rewrite andb_false_r.
  assert (gaps (locs p) <> []) as NE by (destruct H2 as [g [Hg _]]; intros Z; rewrite Z in Hg; destruct Hg).
  split; [destruct (gaps (locs p)); [congruence|reflexivity]|].
  split; [|destruct H2 as [g [Hg HgD]]; etransitivity; [exact HgD|now apply max1_ge]].
  split; auto. split.
  { destruct p as [|a [|b r]]; simpl in *; try lia; congruence. }
  split.
  { intros i Hi. apply in_map_iff in Hi. destruct Hi as [q [<- Hq]]. apply in_map. auto. }
  split; [now apply first_close_none|].
  intros i Hi Hni. apply in_map_iff in Hi. destruct Hi as [q [<- Hq]].
  assert (~ In q p) as Nq by (intros K; apply Hni; now apply in_map).
  destruct pk.
  - destruct (thin_extremum_dropped h _ _ _ Hr Hp q Hq) as [K|[r [R1 [R2 [R3 [R4 R5]]]]]]; [contradiction|].
    exists (fst r). split; [now apply in_map|]. split; auto. split.
    + destruct (Nat.lt_total (fst q) (fst r)) as [Y|[Y|Y]]; [|congruence|].
      * rewrite minus_INR in R4 by lia. apply lt_INR in Y. rewrite Rabs_left; lra.
      * rewrite minus_INR in R3 by lia. apply lt_INR in Y. rewrite Rabs_right; lra.
    + rewrite <- !Hv by auto. exact R5.
  - destruct (thin_first_dropped h _ _ _ Hr Hp q Hq) as [K|[r [R1 [R2 R3]]]]; [contradiction|].
    exists (fst r). split; [apply in_map; auto|]. split; [lia|]. split.
    + rewrite minus_INR in R3 by lia. apply lt_INR in R2. rewrite Rabs_right; lra.
    + split; auto. now apply in_map.
Qed.

Lemma dirac_data pk thr hl mv src s :
  wf_source src s -> 2 <= length (exceeding thr s) -> (0 <= hl <= 1)%R ->
  exists P, trigger_data Dirac pk thr hl mv true 1 src = inl (P, list_max1 (gaps P), list_min1 (gaps P))
    /\ picked pk (hl * INR (list_max1 (gaps (exceeding thr s)))) (fun i => nth i s 0%R) (exceeding thr s) P
    /\ list_max1 (gaps (exceeding thr s)) <= list_max1 (gaps P).
Proof.
  intros W H2 Hh.
  assert (peaks_loop Dirac thr 2048 (chunks 2048 s) [] 0 = map (fun i => (i, nth i s 0%R)) (exceeding thr s)) as HP.
  { rewrite peaks_dirac by lia. unfold exceeding. rewrite (filter_ext _ (fun i => beyond thr (nth i s 0%R))) by (intros; now rewrite Nat.sub_0_r).
    apply map_ext. intros i. now rewrite Nat.sub_0_r. }
  assert (locs (map (fun i => (i, nth i s 0%R)) (exceeding thr s)) = exceeding thr s) as HL
    by (rewrite (locs_map (fun i => i)); apply map_id).
  pose proof (trigger_data_picked Dirac pk thr hl mv src s _ (fun i => nth i s 0%R) W HP) as T.
  rewrite HL in T. apply T; auto.
  - intros q Hq. apply in_map_iff in Hq. destruct Hq as [i [<- _]]. reflexivity.
  - apply rising_filter_seq.
  - now rewrite map_length.
Qed.

Lemma few_peaks ty pk thr hl mv hs src s : wf_source src s ->
  length match ty with Dirac => exceeding thr s | Rect => edges thr s end <= 1 ->
  trigger_data ty pk thr hl mv hs 1 src = inr NotEnough.
Proof.
  intros W H. unfold trigger_data.
  rewrite (wf_source_eq src s 2048 W) by lia. cbn [negb Nat.eqb fin done blocks].
  destruct (Nat.leb_spec (length (peaks_loop ty thr 2048 (chunks 2048 s) [] 0)) 1) as [L|L]; auto.
  exfalso. destruct ty.
  - rewrite peaks_dirac, map_length in L by lia. unfold exceeding in H.
    rewrite (filter_ext _ (fun i => beyond thr (nth i s 0%R))) in L by (intros; now rewrite Nat.sub_0_r). lia.
  - rewrite <- (map_length fst) in L. change (map fst) with locs in L.
    rewrite peaks_rect_all, map_length in L by lia. lia.
Qed.

(** without thinning the raw positions are reported *)
Lemma thin_none fuel pk l : thin fuel pk 0 l = Some l.
Proof.
  assert (first_close 0 l = None) as E.
  { induction l as [|a l IH]; [reflexivity|]. destruct l as [|b l]; [reflexivity|].
    rewrite first_close_cons, IH. destruct (Rlt_dec _ 0) as [H|H]; auto.
    pose proof (pos_INR (fst b - fst a)). lra. }
  destruct fuel; cbn [thin]; now rewrite E.
Qed.

Lemma rect_data pk thr mv src s :
  wf_source src s -> 2 <= length (edges thr s) ->
  let P := map (fun i => if i <? 2048 then i - 1 else i) (edges thr s) in
  trigger_data Rect pk thr 0 mv true 1 src = inl (P, list_max1 (gaps P), list_min1 (gaps P)).
Proof.
  intros W H2 P. unfold trigger_data.
  rewrite (wf_source_eq src s 2048 W) by lia. cbn [negb Nat.eqb fin done blocks].
  pose proof (peaks_rect_all thr 2048 s ltac:(lia)) as HL. fold P in HL.
  set (pks := peaks_loop Rect thr 2048 (chunks 2048 s) [] 0) in *.
  assert (length pks = length P) as HLen by (rewrite <- HL; unfold locs; now rewrite map_length).
  assert (2 <= length P) as HP2 by (unfold P; now rewrite map_length).
  destruct (Nat.leb_spec (length pks) 1) as [L|L]; [lia|].
  rewrite Rmult_0_l, thin_none, andb_false_r, HL.
  destruct P as [|a [|b r]]; cbn [length] in HP2; try lia. reflexivity.
Qed.

(* ------------------------------------------------------------------ *)
(** * The guessed threshold does not see an offset *)

Lemma Rmax_shift a b c : Rmax (a + c) (b + c) = (Rmax a b + c)%R.
Proof. unfold Rmax. destruct (Rle_dec (a + c) (b + c)), (Rle_dec a b); lra. Qed.
Lemma Rmin_shift a b c : Rmin (a + c) (b + c) = (Rmin a b + c)%R.
Proof. unfold Rmin. destruct (Rle_dec (a + c) (b + c)), (Rle_dec a b); lra. Qed.
Lemma fold_max_shift c l x : fold_right Rmax (x + c)%R (map (fun v => v + c)%R l) = (fold_right Rmax x l + c)%R.
Proof. induction l as [|a l IH]; simpl; auto. rewrite IH. apply Rmax_shift. Qed.
Lemma fold_min_shift c l x : fold_right Rmin (x + c)%R (map (fun v => v + c)%R l) = (fold_right Rmin x l + c)%R.
Proof. induction l as [|a l IH]; simpl; auto. rewrite IH. apply Rmin_shift. Qed.
Lemma rmax_shift c l : l <> [] -> rmax (map (fun v => v + c)%R l) = (rmax l + c)%R.
Proof. destruct l; [congruence|]. intros _. apply fold_max_shift. Qed.
Lemma rmin_shift c l : l <> [] -> rmin (map (fun v => v + c)%R l) = (rmin l + c)%R.
Proof. destruct l; [congruence|]. intros _. apply fold_min_shift. Qed.
Lemma rsum_shift c l : rsum (map (fun v => v + c)%R l) = (rsum l + INR (length l) * c)%R.
Proof.
  unfold rsum. induction l as [|a l IH]; [simpl; lra|].
  change (map (fun v => v + c)%R (a :: l)) with ((a + c)%R :: map (fun v => v + c)%R l).
  change (length (a :: l)) with (S (length l)). rewrite S_INR.
  change (fold_right Rplus 0%R ((a + c)%R :: map (fun v => (v + c)%R) l)) with ((a + c) + fold_right Rplus 0%R (map (fun v => (v + c)%R) l))%R.
  rewrite IH. simpl. ring.
Qed.
Lemma rmean_shift c l : l <> [] -> rmean (map (fun v => v + c)%R l) = (rmean l + c)%R.
Proof.
  intros H. unfold rmean. rewrite rsum_shift, map_length. field.
  apply not_0_INR. destruct l; simpl; congruence.
Qed.

Lemma guess_shift c bs : bs <> [] -> (forall b, In b bs -> b <> []) ->
  guess (map (map (fun v => v + c)%R) bs) = guess bs.
Proof.
  intros H Hb. unfold guess.
  assert (forall f : list R -> R, (forall l, l <> [] -> f (map (fun v => v + c)%R l) = (f l + c)%R) ->
            map f (map (map (fun v => v + c)%R) bs) = map (fun v => v + c)%R (map f bs)) as G.
  { intros f Hf. rewrite !map_map. apply map_ext_in. intros b Hi. apply Hf. auto. }
  assert (forall f : list R -> R, map f bs <> []) as NE by (intros f; destruct bs; simpl; congruence).
  rewrite !G by (auto using rmax_shift, rmin_shift, rmean_shift).
  rewrite rmax_shift, rmin_shift, rmean_shift by auto.
  set (a := rmin _). set (b := rmax _). set (m := rmean _).
  replace (a + c - (m + c))%R with (a - m)%R by lra. replace (b + c - (m + c))%R with (b - m)%R by lra.
  reflexivity.
Qed.

Lemma guess_shift_all c s : s <> [] ->
  guess (chunks 2048 (map (fun v => v + c)%R s)) = guess (chunks 2048 s).
Proof.
  intros H. rewrite <- chunks_map by lia. apply guess_shift.
  - rewrite (chunks_step 2048 s) by (auto; lia). discriminate.
  - intros b Hb E. subst b. apply chunks_in_len in Hb; [simpl in Hb; lia|lia].
Qed.

(** a sufficiently large offset makes a trigger of every sample *)
Lemma all_exceed thr s : (0 < thr)%R -> (forall v, In v s -> (thr < v)%R) -> exceeding thr s = seq 0 (length s).
Proof.
  intros Ht H. unfold exceeding.
  assert (forall l, (forall i, In i l -> i < length s) -> filter (fun i => beyond thr (nth i s 0%R)) l = l) as G.
  { induction l as [|i l IH]; intros Hl; [reflexivity|]. simpl. unfold beyond at 1.
    destruct (Rlt_dec 0 thr); [|contradiction].
    destruct (Rlt_dec thr (nth i s 0%R)) as [K|K].
    - f_equal. apply IH. intros j Hj. apply Hl. now right.
    - exfalso. apply K. apply H. apply nth_In. apply Hl. now left. }
  apply G. intros i Hi. apply in_seq in Hi. lia.
Qed.
