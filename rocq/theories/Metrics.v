(** MetricEvaluator (tools/metrics.py:26-165). *)
From Coq Require Import List Arith Lia Bool Reals Lra.
From Verif Require Import Stream Deconv Polygon Grids Das.
Import ListNotations.
Local Open Scope R_scope.

(** scipy.spatial.distance.cdist of two points. *)
Definition cdist3 (p q : pt) : R :=
  sqrt ((px p - px q) * (px p - px q) + (py p - py q) * (py p - py q) + (pz p - pz q) * (pz p - pz q)).

(** Smallest non-zero distance to a target, [None] for infinity
    (metrics.py:89-91). *)
Fixpoint nearest (ts : list pt) (t : pt) : option R :=
  match ts with
  | [] => None
  | q :: ts' =>
      let d := cdist3 t q in
      if Req_EM_T d 0 then nearest ts' t
      else Some (match nearest ts' t with None => d | Some a => Rmin d a end)
  end.

(** _get_sector_radii (metrics.py:84-93). *)
Definition radius (adaptive : bool) (r : R) (ts : list pt) (t : pt) : R :=
  if adaptive then match nearest ts t with None => r | Some d => Rmin r (d / 2) end else r.

Section Eval.
(** [border tol default r]: the attributes of [sector]; [pts] the positions of
    the grid; [rank] the number of axes of grid.shape (2 for RectGrid, 1 for
    LineGrid, ImportGrid and MergeGrid); [ts] the target positions. *)
Variables (adaptive multi border default : bool) (tol r : R) (rank : nat) (pts ts : list pt).

(** sector.contains(grid.pos) for the sector of target [t] (metrics.py:95-107). *)
Definition target_mask (t : pt) : list bool + exn :=
  circ_contains border tol default (px t) (py t) (radius adaptive r ts t) pts.

(** integrate(data, grid, sector) for one frequency (fbeamform.py:2549-2550). *)
Definition isum (m : list bool) (row : list R) : R :=
  rsum (map (fun p => if fst p : bool then snd p else 0) (combine m row)).
(** data[indices] = 0 *)
Definition zero_at (m : list bool) (row : list R) : list R :=
  map (fun p => if fst p : bool then 0 else snd p) (combine m row).

(** The inner loop of _integrate_sectors (metrics.py:121-127) for one row of
    data, which is a view of the data.  A grid of more than one axis gives one
    index array per axis for the one-dimensional row: IndexError. *)
Fixpoint row_loop (l : list pt) (row : list R) : (list R + exn) * list R :=
  match l with
  | [] => (inl [], row)
  | t :: l' =>
      match target_mask t with
      | inr e => (inr e, row)
      | inl m =>
          let v := isum m row in
          if multi then
            let '(res, row') := row_loop l' row in
            (match res with inl vs => inl (v :: vs) | inr e => inr e end, row')
          else if (rank =? 1)%nat then
            let '(res, row') := row_loop l' (zero_at m row) in
            (match res with inl vs => inl (v :: vs) | inr e => inr e end, row')
          else (inr IndexError, row)
      end
  end.

(** _integrate_sectors (metrics.py:109-128): result and the data afterwards. *)
Fixpoint integrate_sectors (data : list (list R)) : (list (list R) + exn) * list (list R) :=
  match data with
  | [] => (inl [], [])
  | row :: data' =>
      let '(res, row') := row_loop ts row in
      match res with
      | inr e => (inr e, row' :: data')
      | inl vs =>
          let '(res2, data2) := integrate_sectors data' in
          (match res2 with inl l => inl (vs :: l) | inr e => inr e end, row' :: data2)
      end
  end.

(** The three metrics (metrics.py:130-165) as functions of the data, with the
    data afterwards; [lp] is L_p and [tgt] the target data. *)
Variables (lp : R -> R) (tgt : list (list R)).
Inductive metric := Overall | Specific | Inverse.

Definition levels2 (a b : list (list R)) : list (list R) :=
  map (fun p => map (fun q => lp (fst q) - lp (snd q)) (combine (fst p) (snd p))) (combine a b).

Definition call (m : metric) (data : list (list R)) : (list (list R) + exn) * list (list R) :=
  match m with
  | Overall => (inl (levels2 (map (fun x => [rsum x]) data) (map (fun x => [rsum x]) tgt)), data)
  | Specific =>
      let '(res, data') := integrate_sectors data in
      (match res with inl l => inl (levels2 l tgt) | inr e => inr e end, data')
  | Inverse =>
      let '(res, data') := integrate_sectors data in
      (match res with
       | inl l => inl (levels2 (map (fun x => [rsum x]) l) (map (fun x => [rsum x]) data'))
       | inr e => inr e end, data')
  end.

Fixpoint calls (ms : list metric) (data : list (list R)) : list (list (list R) + exn) * list (list R) :=
  match ms with
  | [] => ([], data)
  | m :: ms' =>
      let '(o, data') := call m data in
      let '(os, data2) := calls ms' data' in (o :: os, data2)
  end.

Lemma row_loop_multi l row : multi = true -> snd (row_loop l row) = row.
Proof.
  intros Hm. induction l as [|t l IH]; auto. simpl. destruct (target_mask t); auto. rewrite Hm.
  destruct (row_loop l row) as [[vs|e] row']; exact IH.
Qed.

Lemma integrate_multi data : multi = true -> snd (integrate_sectors data) = data.
Proof.
  intros Hm. induction data as [|row data IH]; auto. simpl.
  pose proof (row_loop_multi ts row Hm) as H. destruct (row_loop ts row) as [[vs|e] row']; simpl in H; subst; auto.
  destruct (integrate_sectors data) as [[l|e] d2]; simpl in IH; subst; auto.
Qed.

Lemma call_multi m data : multi = true -> snd (call m data) = data.
Proof.
  intros Hm. destruct m; simpl; auto; pose proof (integrate_multi data Hm) as H;
    destruct (integrate_sectors data); exact H.
Qed.

Lemma calls_multi ms data : multi = true ->
  calls ms data = (map (fun m => fst (call m data)) ms, data).
Proof.
  intros Hm. induction ms as [|m ms IH]; auto. simpl.
  pose proof (call_multi m data Hm) as H. destruct (call m data) as [o d']. simpl in H. subst d'.
  rewrite IH. reflexivity.
Qed.

(** ** Single assignment *)

(** The sum of the values at the points that [f] selects. *)
Definition sel_sum (row : list R) (f : nat -> bool) : R :=
  rsum (map (fun i => if f i then nth i row 0 else 0) (seq 0 (length row))).

Lemma isum_sel m row : length m = length row -> isum m row = sel_sum row (fun i => nth i m false).
Proof.
  intros H. unfold isum, sel_sum. f_equal.
  apply (nth_ext _ _ 0 0); [rewrite !map_length, combine_length, seq_length; lia|].
  rewrite map_length, combine_length. intros i Hi.
  set (f := fun p : bool * R => if fst p then snd p else 0).
  rewrite (nth_indep _ 0 (f (false, 0))) by (rewrite map_length, combine_length; lia).
  rewrite (map_nth f), combine_nth by auto.
  rewrite TimeBeam.nth_map_seq by lia. reflexivity.
Qed.

Lemma zero_at_length m row : length m = length row -> length (zero_at m row) = length row.
Proof. intros H. unfold zero_at. rewrite map_length, combine_length. lia. Qed.

Lemma zero_at_nth m row i : length m = length row ->
  nth i (zero_at m row) 0 = if nth i m false then 0 else nth i row 0.
Proof.
  intros H. destruct (le_lt_dec (length row) i) as [Hi|Hi].
  - rewrite !nth_overflow; auto; try rewrite zero_at_length; auto; try lia.
  - unfold zero_at. set (f := fun p : bool * R => if fst p then 0 else snd p).
    rewrite (nth_indep _ 0 (f (false, 0))) by (rewrite map_length, combine_length; lia).
    rewrite (map_nth f), combine_nth by auto. reflexivity.
Qed.

Lemma sel_sum_ext row row' (f f' : nat -> bool) : length row = length row' ->
  (forall i, (i < length row)%nat -> (if f i then nth i row 0 else 0) = (if f' i then nth i row' 0 else 0)) ->
  sel_sum row f = sel_sum row' f'.
Proof.
  intros HL H. unfold sel_sum. rewrite HL. f_equal. apply map_ext_in. intros i Hi. apply in_seq in Hi.
  apply H. lia.
Qed.

(** [masks] are the masks of the targets of [l]. *)
Lemma row_loop_single l (masks : list (list bool)) row : multi = false -> rank = 1%nat ->
  map target_mask l = map inl masks -> (forall m, In m masks -> length m = length row) ->
  exists vs, row_loop l row = (inl vs, map (fun i => if existsb (fun m => nth i m false) masks then 0 else nth i row 0) (seq 0 (length row)))
    /\ length vs = length l
    /\ forall k, (k < length l)%nat ->
         nth k vs 0 = sel_sum row (fun i => nth i (nth k masks []) false
                                            && negb (existsb (fun m => nth i m false) (firstn k masks))).
Proof.
  intros Hm Hr. revert masks row. induction l as [|t l IH]; intros masks row HM HL.
  - destruct masks; [|discriminate]. exists []. simpl. split; [|split; auto; intros; lia]. f_equal.
    symmetry. apply (nth_ext _ _ 0 0); [now rewrite map_length, seq_length|].
    rewrite map_length, seq_length. intros i Hi. now rewrite TimeBeam.nth_map_seq by auto.
  - destruct masks as [|m masks]; [discriminate|]. simpl in HM. injection HM as Et HM.
    assert (length m = length row) as Hlm by (apply HL; left; auto).
    destruct (IH masks (zero_at m row) HM) as (vs & E1 & E2 & E3).
    { intros m' Hm'. rewrite zero_at_length by auto. apply HL. right; auto. }
    exists (isum m row :: vs). simpl. rewrite Et, Hm, Hr. simpl. rewrite E1. split; [|split].
    + f_equal. rewrite zero_at_length by auto. apply map_ext. intros i. rewrite zero_at_nth by auto.
      destruct (nth i m false); simpl; auto. destruct (existsb _ _); auto.
    + simpl. auto.
    + intros [|k] Hk; simpl.
      * rewrite isum_sel by auto. apply sel_sum_ext; auto. intros i _. now rewrite andb_true_r.
      * rewrite E3 by lia. apply sel_sum_ext; [now rewrite zero_at_length|].
        intros i _. rewrite zero_at_nth by auto.
        destruct (nth i m false); simpl; [|reflexivity]. rewrite andb_false_r. now destruct (_ && _).
Qed.

End Eval.

(* ------------------------------------------------------------------ *)
(** * The circles *)

Lemma nearest_le ts t q : In q ts -> cdist3 t q <> 0 ->
  exists d, nearest ts t = Some d /\ d <= cdist3 t q.
Proof.
  induction ts as [|a ts IH]; intros [] Hd; simpl.
  - subst. destruct (Req_EM_T (cdist3 t q) 0); [contradiction|]. eexists. split; [reflexivity|].
    destruct (nearest ts t); [apply Rmin_l|lra].
  - destruct (IH H Hd) as (d & E & Hl). rewrite E.
    destruct (Req_EM_T (cdist3 t a) 0).
    + exists d. auto.
    + eexists. split; [reflexivity|]. pose proof (Rmin_r (cdist3 t a) d). lra.
Qed.

Lemma radius_half r ts t q : In q ts -> cdist3 t q <> 0 -> radius true r ts t <= cdist3 t q / 2.
Proof.
  intros Hi Hd. destruct (nearest_le ts t q Hi Hd) as (d & E & Hl). unfold radius. rewrite E.
  pose proof (Rmin_r r (d / 2)). lra.
Qed.

Lemma radius_le r ts t a : radius a r ts t <= r.
Proof.
  unfold radius. destruct a; [|lra]. destruct (nearest ts t); [apply Rmin_l|lra].
Qed.

Lemma nearest_pos ts t d : nearest ts t = Some d -> 0 < d.
Proof.
  revert d. induction ts as [|a ts IH]; intros d; [discriminate|]. simpl.
  destruct (Req_EM_T (cdist3 t a) 0) as [E|E]; [apply IH|].
  assert (0 < cdist3 t a) as Hp.
  { pose proof (sqrt_pos ((px t - px a) * (px t - px a) + (py t - py a) * (py t - py a) + (pz t - pz a) * (pz t - pz a))).
    unfold cdist3 in *. lra. }
  intros H. injection H as <-. destruct (nearest ts t) as [b|]; auto.
  specialize (IH b eq_refl). now apply Rmin_glb_lt.
Qed.

Lemma radius_nonneg r ts t a : 0 <= r -> 0 <= radius a r ts t.
Proof.
  intros Hr. unfold radius. destruct a; auto. destruct (nearest ts t) as [d|] eqn:E; auto.
  apply nearest_pos in E. apply Rmin_glb; lra.
Qed.

(** Triangle inequality in the plane. *)
Lemma plane_triangle a b c d e f : 0 <= e -> 0 <= f ->
  a * a + b * b < e * e -> c * c + d * d < f * f ->
  (a + c) * (a + c) + (b + d) * (b + d) < (e + f) * (e + f).
Proof.
  intros He Hf H1 H2.
  assert (a * c + b * d <= e * f) as H; [|nra].
  assert (0 <= e * f) by nra.
  destruct (Rle_dec (a * c + b * d) 0); [lra|].
  assert ((a * c + b * d) * (a * c + b * d) <= (e * f) * (e * f)) as Hs.
  { pose proof (Rle_0_sqr (a * d - b * c)) as Hcs. unfold Rsqr in Hcs.
    assert ((a * c + b * d) * (a * c + b * d) <= (a * a + b * b) * (c * c + d * d)) by lra.
    assert ((a * a + b * b) * (c * c + d * d) <= (e * e) * (f * f)).
    { apply Rmult_le_compat; nra. }
    lra. }
  destruct (Rle_dec (a * c + b * d) (e * f)); auto. exfalso. nra.
Qed.

(** Two targets in the same height: a point inside both circles does not
    exist. *)
Theorem adaptive_disjoint r ts t q (p : pt) : 0 <= r -> In t ts -> In q ts -> pz t = pz q ->
  (px t, py t) <> (px q, py q) ->
  Rsqr (px p - px t) + Rsqr (py p - py t) < Rsqr (radius true r ts t) ->
  Rsqr (px p - px q) + Rsqr (py p - py q) < Rsqr (radius true r ts q) -> False.
Proof.
  intros Hr Ht Hq Hz Hne H1 H2. unfold Rsqr in *.
  assert (cdist3 q t = cdist3 t q) as Hsym by (unfold cdist3; f_equal; ring).
  set (D := (px t - px q) * (px t - px q) + (py t - py q) * (py t - py q)).
  assert (cdist3 t q = sqrt D) as HD by (unfold cdist3, D; f_equal; rewrite Hz; ring).
  assert (0 < D) as HP.
  { unfold D. destruct (Req_EM_T (px t) (px q)) as [E1|E1].
    - destruct (Req_EM_T (py t) (py q)) as [E2|E2]; [rewrite E1, E2 in Hne; contradiction|].
      assert (0 < Rsqr (py t - py q)) by (apply Rsqr_pos_lt; lra). pose proof (Rle_0_sqr (px t - px q)); unfold Rsqr in *; lra.
    - assert (0 < Rsqr (px t - px q)) by (apply Rsqr_pos_lt; lra). pose proof (Rle_0_sqr (py t - py q)); unfold Rsqr in *; lra. }
  pose proof (sqrt_lt_R0 D HP) as Hs. pose proof (sqrt_sqrt D ltac:(lra)) as Hss.
  assert (radius true r ts t <= sqrt D / 2) as B1 by (rewrite <- HD; apply radius_half; auto; lra).
  assert (radius true r ts q <= sqrt D / 2) as B2
    by (rewrite <- HD, <- Hsym; apply radius_half; auto; lra).
  pose proof (radius_nonneg r ts t true Hr) as P1. pose proof (radius_nonneg r ts q true Hr) as P2.
  pose proof (plane_triangle (px t - px p) (py t - py p) (px p - px q) (py p - py q)
    (radius true r ts t) (radius true r ts q) P1 P2 ltac:(lra) ltac:(lra)) as H.
  replace (px t - px p + (px p - px q)) with (px t - px q) in H by ring.
  replace (py t - py p + (py p - py q)) with (py t - py q) in H by ring.
  fold D in H. nra.
Qed.

(** All frequencies. *)
Lemma integrate_single adaptive border default tol r pts ts (masks : list (list bool)) data :
  map (target_mask adaptive border default tol r pts ts) ts = map inl masks ->
  (forall m, In m masks -> length m = length pts) ->
  (forall row, In row data -> length row = length pts) ->
  exists res, integrate_sectors adaptive false border default tol r 1 pts ts data
    = (inl res, map (fun row => map (fun i => if existsb (fun m => nth i m false) masks then 0 else nth i row 0)
                                    (seq 0 (length row))) data)
  /\ length res = length data
  /\ forall f k, (f < length data)%nat -> (k < length ts)%nat ->
       nth k (nth f res []) 0
       = sel_sum (nth f data []) (fun i => nth i (nth k masks []) false
                                   && negb (existsb (fun m => nth i m false) (firstn k masks))).
Proof.
  intros HM HL. induction data as [|row data IH]; intros HR.
  - exists []. simpl. split; auto. split; auto. intros; lia.
  - destruct IH as (res & E1 & E2 & E3); [intros; apply HR; right; auto|].
    destruct (row_loop_single adaptive false border default tol r 1 pts ts (fun x => x) ts masks row eq_refl eq_refl HM)
      as (vs & F1 & F2 & F3).
    { intros m Hm. rewrite HL by auto. symmetry. apply HR. left; auto. }
    exists (vs :: res). simpl. rewrite F1, E1. split; [reflexivity|]. split; [simpl; auto|].
    intros [|f] k Hf Hk; [apply F3; auto|]. apply E3; auto. lia.
Qed.

Lemma target_masks_exist adaptive border default tol r pts ts l : pts <> [] ->
  exists masks, map (target_mask adaptive border default tol r pts ts) l = map inl masks
    /\ length masks = length l /\ forall m, In m masks -> length m = length pts.
Proof.
  intros Hp. induction l as [|t l IH].
  { exists []. simpl. split; auto. split; auto. intros m []. }
  destruct IH as (ms & E & L & H).
  destruct (circ_contains_spec border tol default (px t) (py t) (radius adaptive r ts t) pts Hp) as (m & Em & Hm).
  exists (m :: ms). simpl. unfold target_mask at 1. rewrite Em, E, L. split; [reflexivity|]. split; auto.
  intros m' [<-|Hin]; auto. apply Hm.
Qed.
