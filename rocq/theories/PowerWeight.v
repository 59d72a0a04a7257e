(** Spatial weights of time-domain beamformers: tbeamform.py, const_power_weight. *)
From Coq Require Import List Arith Lia ZArith Bool Reals Lra Sorted Permutation.
From Verif Require Import Stream BlockOps Grids DasTraj.
Import ListNotations.
Local Open Scope R_scope.

(** numpy unique: sorted, without repetitions *)
Fixpoint uinsert (x : R) (l : list R) : list R :=
  match l with
  | [] => [x]
  | y :: l' => if Rlt_dec x y then x :: l else if Req_EM_T x y then l else y :: uinsert x l'
  end.
Definition unique (l : list R) : list R := fold_right uinsert [] l.
(** return_inverse *)
Fixpoint index_of (x : R) (l : list R) : nat :=
  match l with [] => O | y :: l' => if Req_EM_T x y then O else S (index_of x l') end.

(** (ru[1:] + ru[:-1]) / 2, tbeamform.py:80 *)
Fixpoint midpoints (l : list R) : list R :=
  match l with
  | a :: (b :: _) as l' => (b + a) / 2 :: midpoints l'
  | _ => []
  end.

(** numpy histogram with given edges: bins closed on the left, the last one on both
    sides *)
Definition in_bin (edges : list R) (i : nat) (x : R) : bool :=
  if Rle_dec (nth i edges 0) x
  then if Rlt_dec x (nth (S i) edges 0) then true
       else if (i =? length edges - 2)%nat then if Req_EM_T x (nth (S i) edges 0) then true else false else false
  else false.
Definition histogram (edges r : list R) : list nat :=
  map (fun i => length (filter (in_bin edges i) r)) (seq 0 (length edges - 1)).

(** distances divided by the largest one, rounded to one decimal, tbeamform.py:76-78 *)
Definition rounded (d : list R) : list R :=
  match lmax d with
  | None => []
  | Some m => map (fun x => IZR (py_round (10 * (x / m))) / 10) d
  end.

(** tbeamform.py:79-85 for the rounded distances.  [ru] without a last element:
    IndexError *)
Definition ring_weights (r : list R) : list R + exn :=
  let ru := unique r in
  let mid := midpoints ru in
  match mid, lmax r with
  | [], _ => inr IndexError
  | _, None => inr ValueError
  | m0 :: _, Some top =>
      let edges := 0 :: mid ++ [1.5 * top - 0.5 * last mid m0] in
      let count := histogram edges r in
      let bins := map (fun e => e * e) edges in
      let weights := map (fun i => sqrt ((nth (S i) bins 0 - nth i bins 0) / INR (nth i count O))) (seq 0 (length bins - 1)) in
      let weights := map (fun w => w / rmean weights) weights in
      inl (map (fun x => nth (index_of x ru) weights 0) r)
  end.
(** const_power_weight for the distances of the microphones from the origin.  If all
    are zero the relative distances are nan, equal in unique. *)
Definition const_power_weight (d : list R) : list R + exn :=
  match lmax d with
  | None => inr ValueError
  | Some m => if Req_EM_T m 0 then inr IndexError else ring_weights (rounded d)
  end.

Lemma uinsert_in x l z : In z (uinsert x l) <-> z = x \/ In z l.
Proof.
  induction l as [|y l IH]; cbn [uinsert].
  - cbn. intuition.
  - destruct (Rlt_dec x y); [cbn; intuition|]. destruct (Req_EM_T x y) as [->|]; [cbn; intuition|]. cbn [In]. rewrite IH. intuition.
Qed.
Lemma unique_in l z : In z (unique l) <-> In z l.
Proof. induction l as [|x l IH]; [reflexivity|]. cbn [unique fold_right]. fold (unique l). rewrite uinsert_in, IH. cbn. intuition. Qed.

Lemma uinsert_sorted x l : StronglySorted Rlt l -> StronglySorted Rlt (uinsert x l).
Proof.
  induction 1 as [|y l H IH F]; cbn [uinsert]; [repeat constructor|].
  destruct (Rlt_dec x y) as [Hx|Hx].
  - constructor; [constructor; assumption|]. constructor; [exact Hx|]. eapply Forall_impl; [|exact F]. intros z Hz. lra.
  - destruct (Req_EM_T x y) as [->|Hn]; [constructor; assumption|]. constructor; [exact IH|].
    rewrite Forall_forall in *. intros z Hz. apply uinsert_in in Hz as [->|Hz]; [lra|auto].
Qed.
Lemma unique_sorted l : StronglySorted Rlt (unique l).
Proof. induction l as [|x l IH]; [constructor|]. apply uinsert_sorted, IH. Qed.

Lemma sorted_nth l : StronglySorted Rlt l -> forall i j, (i < j)%nat -> (j < length l)%nat -> nth i l 0 < nth j l 0.
Proof.
  induction 1 as [|y l H IH F]; intros i j Hij Hj; [cbn in Hj; lia|]. cbn [length] in Hj. destruct j as [|j]; [lia|]. destruct i as [|i]; cbn [nth].
  - rewrite Forall_forall in F. apply F, nth_In. lia.
  - apply IH; lia.
Qed.
Lemma sorted_nodup l : StronglySorted Rlt l -> NoDup l.
Proof.
  induction 1 as [|y l H IH F]; constructor; [|exact IH]. intros K. rewrite Forall_forall in F. specialize (F y K). lra.
Qed.

Lemma index_of_nth l x : In x l -> (index_of x l < length l)%nat /\ nth (index_of x l) l 0 = x.
Proof.
  induction l as [|y l IH]; intros H; [destruct H|]. cbn [index_of]. destruct (Req_EM_T x y) as [->|Hn]; [cbn; split; [lia|reflexivity]|].
  destruct H as [->|H]; [lra|]. destruct (IH H). cbn. split; [lia|assumption].
Qed.
Lemma index_of_nth' l i : StronglySorted Rlt l -> (i < length l)%nat -> index_of (nth i l 0) l = i.
Proof.
  intros Hs Hi. destruct (index_of_nth l (nth i l 0)) as [A B]; [apply nth_In; exact Hi|].
  destruct (Nat.lt_trichotomy (index_of (nth i l 0) l) i) as [H|[H|H]]; [|exact H|];
    [pose proof (sorted_nth l Hs _ _ H Hi)|pose proof (sorted_nth l Hs _ _ H A)]; lra.
Qed.

Lemma midpoints_length l : length (midpoints l) = (length l - 1)%nat.
Proof. induction l as [|a [|b l] IH]; [reflexivity..|]. change (midpoints (a :: b :: l)) with ((b + a) / 2 :: midpoints (b :: l)). cbn [length] in *. lia. Qed.
Lemma midpoints_nth l i : (S i < length l)%nat -> nth i (midpoints l) 0 = (nth (S i) l 0 + nth i l 0) / 2.
Proof.
  revert i. induction l as [|a [|b l] IH]; intros i Hi; [cbn in Hi; lia..|]. change (midpoints (a :: b :: l)) with ((b + a) / 2 :: midpoints (b :: l)).
  destruct i as [|i]; [reflexivity|]. cbn [nth]. rewrite IH by (cbn [length] in *; lia). reflexivity.
Qed.

Lemma lmax_spec l m : lmax l = Some m -> In m l /\ forall y, In y l -> y <= m.
Proof.
  destruct l as [|x l]; [discriminate|]. cbn [lmax]. intros E. injection E as <-. destruct (fold_rmax_spec l x) as (A & B & [C|C]).
  - split; [left; congruence|]. intros y [<-|Hy]; auto.
  - split; [right; exact C|]. intros y [<-|Hy]; auto.
Qed.
Lemma lmax_some l : l <> [] -> exists m, lmax l = Some m.
Proof. destruct l; [congruence|]. eexists. reflexivity. Qed.

Lemma last_nth' {A} (l : list A) d e : l <> [] -> last l d = nth (length l - 1) l e.
Proof.
  induction l as [|a [|b l] IH]; intros H; [congruence|reflexivity|]. change (last (a :: b :: l) d) with (last (b :: l) d). rewrite IH by discriminate.
  cbn [length]. replace (S (S (length l)) - 1)%nat with (S (length l)) by lia. cbn [length nth]. replace (S (length l) - 1)%nat with (length l) by lia. reflexivity.
Qed.

(** ** Rings *)
Section Rings.
  Variable r : list R.
  Hypothesis Hpos : forall x, In x r -> 0 <= x.
  Let u := unique r.
  Let n := (length u - 1)%nat.
  Hypothesis Hn : (0 < n)%nat.
  Let mid := midpoints u.
  Variable top m0 : R.
  Hypothesis Htop : lmax r = Some top.
  Let edges := 0 :: mid ++ [1.5 * top - 0.5 * last mid m0].

  Lemma u_sorted : StronglySorted Rlt u. Proof. apply unique_sorted. Qed.
  Lemma u_len : length u = S n. Proof. unfold n in *. lia. Qed.
  Lemma edges_len : length edges = S (S n).
  Proof. unfold edges. cbn [length]. rewrite app_length. unfold mid. rewrite midpoints_length. cbn [length]. fold n. lia. Qed.
  Lemma edge_0 : nth 0 edges 0 = 0. Proof. reflexivity. Qed.
  Lemma edge_mid i : (i < n)%nat -> nth (S i) edges 0 = (nth (S i) u 0 + nth i u 0) / 2.
  Proof.
    intros Hi. unfold edges. cbn [nth]. rewrite app_nth1 by (unfold mid; rewrite midpoints_length; fold n; lia).
    unfold mid. apply midpoints_nth. rewrite u_len. lia.
  Qed.
  Lemma top_u : top = nth n u 0.
  Proof.
    destruct (lmax_spec _ _ Htop) as [A B]. apply unique_in in A. fold u in A. destruct (index_of_nth u top A) as [C D].
    assert (E : nth n u 0 <= top) by (apply B, unique_in, nth_In; fold u; rewrite u_len; lia).
    destruct (Nat.eq_dec (index_of top u) n) as [<-|N]; [congruence|].
    pose proof (sorted_nth u u_sorted (index_of top u) n ltac:(rewrite u_len in C; lia) ltac:(rewrite u_len; lia)). lra.
  Qed.
  Lemma edge_last : nth (S n) edges 0 = 1.5 * nth n u 0 - 0.5 * nth n edges 0.
  Proof.
    unfold edges at 1. cbn [nth]. assert (Lm : length mid = n) by (unfold mid; rewrite midpoints_length; reflexivity).
    rewrite app_nth2 by lia. rewrite Lm, Nat.sub_diag. cbn [nth]. rewrite top_u. f_equal. f_equal.
    rewrite (last_nth' mid m0 0) by (intros E; rewrite E in Lm; cbn in Lm; lia). rewrite Lm.
    destruct n as [|k] eqn:En; [lia|]. unfold edges. cbn [nth]. rewrite app_nth1 by lia. f_equal. lia.
  Qed.
  Lemma u_pos i : (i <= n)%nat -> 0 <= nth i u 0.
  Proof. intros Hi. apply Hpos, unique_in, nth_In. fold u. rewrite u_len. lia. Qed.

  Lemma edge_low i : (i <= n)%nat -> nth i edges 0 <= nth i u 0.
  Proof.
    intros Hi. destruct i as [|i]; [rewrite edge_0; apply u_pos; lia|]. rewrite edge_mid by lia.
    pose proof (sorted_nth u u_sorted i (S i) ltac:(lia) ltac:(rewrite u_len; lia)). lra.
  Qed.
  Lemma edge_high i : (i <= n)%nat -> nth i u 0 < nth (S i) edges 0.
  Proof.
    intros Hi. destruct (Nat.eq_dec i n) as [->|N].
    - rewrite edge_last. pose proof (edge_mid (n - 1) ltac:(lia)) as E. replace (S (n - 1)) with n in E by lia. rewrite E.
      pose proof (sorted_nth u u_sorted (n - 1) n ltac:(lia) ltac:(rewrite u_len; lia)). lra.
    - rewrite edge_mid by lia. pose proof (sorted_nth u u_sorted i (S i) ltac:(lia) ltac:(rewrite u_len; lia)). lra.
  Qed.
  Lemma edge_up i : (0 < i <= n)%nat -> nth (i - 1) u 0 < nth i edges 0.
  Proof. intros Hi. replace i with (S (i - 1)) at 2 by lia. apply edge_high. lia. Qed.

  Lemma bin_ring i x : (i <= n)%nat -> In x r -> in_bin edges i x = if Req_EM_T x (nth i u 0) then true else false.
  Proof.
    intros Hi Hx. apply unique_in in Hx. fold u in Hx. destruct (index_of_nth u x Hx) as [A B]. set (j := index_of x u) in *. rewrite u_len in A.
    unfold in_bin. destruct (Req_EM_T x (nth i u 0)) as [E|E].
    - rewrite E. pose proof (edge_low i Hi). pose proof (edge_high i Hi).
      destruct (Rle_dec (nth i edges 0) (nth i u 0)); [|lra]. destruct (Rlt_dec (nth i u 0) (nth (S i) edges 0)); [reflexivity|lra].
    - destruct (Rle_dec (nth i edges 0) x) as [H|]; [|reflexivity].
      destruct (Nat.lt_trichotomy j i) as [L|[L|L]]; [exfalso|congruence|].
      + pose proof (edge_up i ltac:(lia)).
        assert (x <= nth (i - 1) u 0); [|lra].
        destruct (Nat.eq_dec j (i - 1)) as [<-|N]; [lra|]. pose proof (sorted_nth u u_sorted j (i - 1) ltac:(lia) ltac:(rewrite u_len; lia)). lra.
      + assert (G : nth (S i) edges 0 < x).
        { rewrite edge_mid by lia. pose proof (sorted_nth u u_sorted i (S i) ltac:(lia) ltac:(rewrite u_len; lia)).
          destruct (Nat.eq_dec j (S i)) as [Ej|N]; [rewrite Ej in B; lra|]. pose proof (sorted_nth u u_sorted (S i) j ltac:(lia) ltac:(rewrite u_len; lia)). lra. }
        destruct (Rlt_dec x (nth (S i) edges 0)); [lra|]. destruct (_ =? _)%nat; [|reflexivity]. destruct (Req_EM_T x _); [lra|reflexivity].
  Qed.

  Lemma histogram_ring i : (i <= n)%nat -> nth i (histogram edges r) O = count_occ Req_EM_T r (nth i u 0).
  Proof.
    intros Hi. unfold histogram. rewrite edges_len. replace (S (S n) - 1)%nat with (S n) by lia.
    set (g := fun i => length (filter (in_bin edges i) r)).
    rewrite (nth_indep _ O (g O)) by (rewrite map_length, seq_length; lia). rewrite (map_nth g), seq_nth by lia. cbn [Nat.add]. unfold g.
    assert (G : forall l, (forall x, In x l -> In x r) -> length (filter (in_bin edges i) l) = count_occ Req_EM_T l (nth i u 0)).
    { induction l as [|x l IH]; intros Hl; [reflexivity|]. cbn [filter count_occ]. rewrite (bin_ring i x Hi) by (apply Hl; left; reflexivity).
      destruct (Req_EM_T x (nth i u 0)); cbn [length]; rewrite IH by (intros y Hy; apply Hl; right; exact Hy); reflexivity. }
    apply G. auto.
  Qed.
End Rings.

Lemma sqrt_sqr x : 0 <= x -> sqrt x ^ 2 = x.
Proof. intros H. cbn [pow]. rewrite Rmult_1_r. apply sqrt_sqrt, H. Qed.
Lemma rsum_pos l : l <> [] -> (forall x, In x l -> 0 < x) -> 0 < rsum l.
Proof.
  intros Hl H. destruct l as [|a l]; [congruence|]. clear Hl. unfold rsum. cbn [fold_right].
  assert (0 <= fold_right Rplus 0 l).
  { assert (K : forall x, In x l -> 0 < x) by (intros x Hx; apply H; right; exact Hx). clear H. induction l as [|b l IH]; cbn [fold_right]; [lra|].
    specialize (IH (fun x Hx => K x (or_intror Hx))). specialize (K b (or_introl eq_refl)). lra. }
  specialize (H a (or_introl eq_refl)). lra.
Qed.
Lemma rsum_div l k : rsum (map (fun w => w / k) l) = rsum l / k.
Proof. unfold rsum. induction l as [|a l IH]; cbn [map fold_right]; [unfold Rdiv; ring|]. rewrite IH. unfold Rdiv. ring. Qed.
Lemma nth_map_seq (g : nat -> R) k i : (i < k)%nat -> nth i (map g (seq 0 k)) 0 = g i.
Proof. intros H. rewrite (nth_indep _ 0 (g O)) by (rewrite map_length, seq_length; exact H). rewrite (map_nth g), seq_nth by exact H. reflexivity. Qed.

(** Weights of the rings: [u] the rings in ascending order, [e] their edges. *)
Lemma ring_weights_spec r : (forall x, In x r -> 0 <= x) -> (1 < length (unique r))%nat ->
  let u := unique r in
  exists (W e : nat -> R) (lam : R),
    ring_weights r = inl (map (fun x => W (index_of x u)) r)
    /\ 0 < lam
    /\ e O = 0 /\ (forall i, (S i < length u)%nat -> e (S i) = (nth (S i) u 0 + nth i u 0) / 2)
    /\ e (length u) = 1.5 * nth (length u - 1) u 0 - 0.5 * e (length u - 1)%nat
    /\ (forall i, (i < length u)%nat -> 0 < W i /\ W i ^ 2 * INR (count_occ Req_EM_T r (nth i u 0)) = lam * (e (S i) ^ 2 - e i ^ 2))
    /\ rsum (map W (seq 0 (length u))) = INR (length u).
Proof.
  intros Hp Hl u. assert (Hr : r <> []) by (intros ->; cbn in Hl; lia). destruct (lmax_some r Hr) as [top Ht].
  set (mid := midpoints u). assert (Lm : length mid = (length u - 1)%nat) by apply midpoints_length. fold u in Hl.
  destruct mid as [|m0 ms] eqn:Em; [cbn in Lm; lia|]. rewrite <- Em in Lm.
  set (edges := 0 :: mid ++ [1.5 * top - 0.5 * last mid m0]).
  assert (Hn : (0 < length (unique r) - 1)%nat) by (fold u; lia).
  assert (EL : length edges = S (length u)) by (unfold edges, mid, u; rewrite (edges_len r Hp Hn); fold u; lia).
  set (e := fun i => nth i edges 0).
  set (w := fun i => sqrt ((nth (S i) (map (fun e => e * e) edges) 0 - nth i (map (fun e => e * e) edges) 0) / INR (nth i (histogram edges r) O))).
  set (ws := map w (seq 0 (length u))).
  assert (Lws : length ws = length u) by (unfold ws; rewrite map_length, seq_length; reflexivity).
  assert (Hcnt : forall i, (i < length u)%nat -> 0 < INR (count_occ Req_EM_T r (nth i u 0))).
  { intros i Hi. apply lt_0_INR. apply count_occ_In. apply unique_in. fold u. apply nth_In. exact Hi. }
  assert (Hh : forall i, (i < length u)%nat -> nth i (histogram edges r) O = count_occ Req_EM_T r (nth i u 0)).
  { intros i Hi. unfold edges, mid, u. apply histogram_ring; try assumption. fold u. lia. }
  assert (Hsq : forall i, (i <= length u)%nat -> nth i (map (fun e => e * e) edges) 0 = e i ^ 2).
  { intros i Hi. rewrite (nth_indep _ 0 ((fun e => e * e) 0)) by (rewrite map_length; lia). rewrite (map_nth (fun e => e * e)). unfold e. ring. }
  assert (Hlo : forall i, (i < length u)%nat -> 0 <= e i).
  { intros i Hi. unfold e. destruct i as [|i]; [cbn; lra|]. unfold edges, mid, u. rewrite (edge_mid r Hp Hn) by (fold u; lia).
    pose proof (u_pos r Hp Hn m0 i ltac:(fold u; lia)). pose proof (u_pos r Hp Hn m0 (S i) ltac:(fold u; lia)). fold u in H, H0 |- *. lra. }
  assert (Hlt : forall i, (i < length u)%nat -> e i < e (S i)).
  { intros i Hi. unfold e, edges, mid, u. pose proof (edge_low r Hp Hn top m0 i ltac:(fold u; lia)).
    pose proof (edge_high r Hp Hn top m0 Ht i ltac:(fold u; lia)). lra. }
  assert (Hw : forall i, (i < length u)%nat -> 0 < w i /\ w i ^ 2 * INR (count_occ Req_EM_T r (nth i u 0)) = e (S i) ^ 2 - e i ^ 2).
  { intros i Hi. unfold w. rewrite Hh by exact Hi. rewrite !Hsq by lia. pose proof (Hcnt i Hi). pose proof (Hlo i Hi). pose proof (Hlt i Hi).
    assert (0 < e (S i) ^ 2 - e i ^ 2) by nra. split; [apply sqrt_lt_R0, Rdiv_lt_0_compat; assumption|].
    rewrite sqrt_sqr by (left; apply Rdiv_lt_0_compat; assumption). field. lra. }
  assert (Hm : 0 < rmean ws).
  { unfold rmean. apply Rdiv_lt_0_compat; [|rewrite Lws; apply lt_0_INR; lia]. apply rsum_pos; [intros K; rewrite K in Lws; cbn in Lws; lia|].
    intros x Hx. unfold ws in Hx. apply in_map_iff in Hx as (i & <- & Hi). apply in_seq in Hi. apply Hw. lia. }
  exists (fun i => nth i (map (fun x => x / rmean ws) ws) 0), e, (/ rmean ws ^ 2).
  assert (HW : forall i, (i < length u)%nat -> nth i (map (fun x => x / rmean ws) ws) 0 = w i / rmean ws).
  { intros i Hi. rewrite (nth_indep _ 0 ((fun x => x / rmean ws) 0)) by (rewrite map_length; lia). rewrite (map_nth (fun x => x / rmean ws)).
    unfold ws at 1. rewrite nth_map_seq by exact Hi. reflexivity. }
  split.
  { unfold ring_weights. cbv zeta. fold u. fold mid. rewrite Em, Ht. rewrite <- Em. fold edges. rewrite map_length, EL.
    replace (S (length u) - 1)%nat with (length u) by lia. reflexivity. }
  split; [apply Rinv_0_lt_compat, pow_lt, Hm|]. split; [reflexivity|]. split.
  { intros i Hi. unfold e, edges, mid, u. apply (edge_mid r Hp Hn). fold u. lia. }
  split.
  { pose proof (edge_last r Hp Hn top m0 Ht) as E. fold u in E. replace (S (length u - 1)) with (length u) in E by lia. exact E. }
  split.
  - intros i Hi. rewrite HW by exact Hi. destruct (Hw i Hi) as [A B]. split; [apply Rdiv_lt_0_compat; assumption|].
    rewrite <- B. generalize dependent (rmean ws). intros k Hk _. field. lra.
  - transitivity (rsum (map (fun x => x / rmean ws) ws)).
    + f_equal. apply nth_ext with (d := 0) (d' := 0); [rewrite !map_length, seq_length; congruence|].
      intros i Hi. rewrite map_length, seq_length in Hi. rewrite nth_map_seq by exact Hi. reflexivity.
    + rewrite rsum_div. unfold rmean in Hm |- *. rewrite Lws in *.
      assert (0 < INR (length u)) by (apply lt_0_INR; lia).
      assert (0 < rsum ws) by (apply Rmult_lt_reg_r with (/ INR (length u)); [apply Rinv_0_lt_compat; assumption|]; unfold Rdiv in Hm; lra).
      field. lra.
Qed.

Lemma rounded_pos d : (forall x, In x d -> 0 <= x) -> (exists x, In x d /\ 0 < x) -> forall x, In x (rounded d) -> 0 <= x.
Proof.
  intros Hd (x0 & Hx0 & Hp) x Hx. unfold rounded in Hx. destruct (lmax d) as [m|] eqn:Em; [|destruct Hx].
  apply in_map_iff in Hx as (y & <- & Hy). destruct (lmax_spec _ _ Em) as [A B]. specialize (B x0 Hx0). specialize (Hd y Hy).
  pose proof (py_round_bounds (10 * (y / m))) as [_ H]. assert (0 <= y / m) by (apply Rmult_le_pos; [exact Hd|left; apply Rinv_0_lt_compat; lra]).
  assert (-1 < py_round (10 * (y / m)))%Z by (apply lt_IZR; lra). assert (0 <= IZR (py_round (10 * (y / m)))) by (apply IZR_le; lia). lra.
Qed.

Lemma unique_single r x : r <> [] -> (forall y, In y r -> y = x) -> unique r = [x].
Proof.
  intros Hr H. pose proof (unique_sorted r) as S. assert (E : forall y, In y (unique r) -> y = x) by (intros y Hy; apply H, unique_in, Hy).
  destruct (unique r) as [|a [|b l]] eqn:Eu.
  - destruct r as [|y r]; [congruence|]. assert (In y (unique (y :: r))) by (apply unique_in; left; reflexivity). rewrite Eu in H0. destruct H0.
  - f_equal. apply E. left; reflexivity.
  - inversion S; subst. inversion H3; subst. rewrite (E a), (E b) in H4 by (cbn; auto). lra.
Qed.
Lemma unique_two r x y : In x r -> In y r -> x <> y -> (1 < length (unique r))%nat.
Proof.
  intros Hx Hy N. apply unique_in in Hx, Hy. destruct (unique r) as [|a [|b l]]; cbn in *; [tauto|intuition congruence|lia].
Qed.
