(** LineGrid, MergeGrid, RectGrid.indices and RectGrid3D.indices (grids.py). *)
From Coq Require Import List Arith Lia ZArith Bool Reals Lra Sorted FinFun.
From Verif Require Import Stream Wav Polygon Grids Das.
Import ListNotations.
Local Open Scope R_scope.

(** ** LineGrid._get_pos, grids.py:1000-1009.  The division by num_points - 1 raises
    ZeroDivisionError for one point; a direction of norm zero gives nan, which is
    modelled by a ValueError. *)
Definition norm3 (v : pt) : R := sqrt (px v * px v + py v * py v + pz v * pz v).
Definition line_pos (loc direction : pt) (length_ : R) (num_points : nat) : list pt + exn :=
  if (num_points =? 1)%nat then inr ZeroDivisionError else
  if Req_EM_T (norm3 direction) 0 then inr ValueError else
  let dist := length_ / (INR num_points - 1) in
  let n := norm3 direction in
  inl (map (fun s => (px loc + px direction / n * dist * INR s, py loc + py direction / n * dist * INR s, pz loc + pz direction / n * dist * INR s))
           (seq 0 num_points)).

(** ** MergeGrid, grids.py:1071-1084 *)
Definition lexlt (p q : pt) : Prop :=
  px p < px q \/ (px p = px q /\ (py p < py q \/ (py p = py q /\ pz p < pz q))).
Lemma lexlt_dec p q : {lexlt p q} + {~ lexlt p q}.
Proof.
  unfold lexlt. destruct (Rlt_dec (px p) (px q)); [left; tauto|]. destruct (Req_EM_T (px p) (px q)); [|right; tauto].
  destruct (Rlt_dec (py p) (py q)); [left; tauto|]. destruct (Req_EM_T (py p) (py q)); [|right; tauto].
  destruct (Rlt_dec (pz p) (pz q)); [left; tauto|right; tauto].
Qed.
Lemma pt_ext (p q : pt) : px p = px q -> py p = py q -> pz p = pz q -> p = q.
Proof. destruct p as [[a b] c], q as [[d e] f]. unfold px, py, pz. cbn. congruence. Qed.
Lemma pt_eq_dec (p q : pt) : {p = q} + {p <> q}.
Proof. repeat decide equality; apply Req_EM_T. Qed.
(** numpy unique(axis=1): columns in lexicographic order, without repetitions *)
Fixpoint col_insert (x : pt) (l : list pt) : list pt :=
  match l with
  | [] => [x]
  | y :: l' => if lexlt_dec x y then x :: l else if pt_eq_dec x y then l else y :: col_insert x l'
  end.
Definition unique_cols (l : list pt) : list pt := fold_right col_insert [] l.
Definition merge_pos (grids : list (list pt)) : list pt := unique_cols (concat grids).
(** One name (class and digest) per grid, repeated for each of its points. *)
Definition subgrids {A} (grids : list (A * list pt)) : list A :=
  concat (map (fun g => repeat (fst g) (length (snd g))) grids).

Lemma col_insert_in x l z : In z (col_insert x l) <-> z = x \/ In z l.
Proof.
  induction l as [|y l IH]; cbn [col_insert]; [cbn; intuition|].
  destruct (lexlt_dec x y); [cbn; intuition|]. destruct (pt_eq_dec x y) as [->|]; [cbn; intuition|]. cbn [In]. rewrite IH. intuition.
Qed.
Lemma unique_cols_in l z : In z (unique_cols l) <-> In z l.
Proof. induction l as [|x l IH]; [reflexivity|]. cbn [unique_cols fold_right]. fold (unique_cols l). rewrite col_insert_in, IH. cbn. intuition. Qed.
Lemma lexlt_trans p q r : lexlt p q -> lexlt q r -> lexlt p r.
Proof. unfold lexlt. intros H1 H2. destruct H1 as [H1|[E1 [H1|[E1' H1]]]], H2 as [H2|[E2 [H2|[E2' H2]]]]; try (left; lra); right; (split; [lra|]); try (left; lra); right; split; lra. Qed.
Lemma lexlt_total p q : ~ lexlt p q -> p <> q -> lexlt q p.
Proof.
  unfold lexlt. intros H N. destruct (Rlt_dec (px q) (px p)); [left; assumption|]. destruct (Req_EM_T (px p) (px q)); [|exfalso; apply H; left; lra].
  right. split; [lra|]. destruct (Rlt_dec (py q) (py p)); [left; assumption|]. destruct (Req_EM_T (py p) (py q)); [|exfalso; apply H; right; split; [lra|]; left; lra].
  right. split; [lra|]. destruct (Rlt_dec (pz q) (pz p)); [assumption|]. destruct (Req_EM_T (pz p) (pz q)); [exfalso; apply N, pt_ext; assumption|].
  exfalso. apply H. right; split; [assumption|]. right; split; [assumption|lra].
Qed.
Lemma lexlt_irrefl p : ~ lexlt p p.
Proof. unfold lexlt. lra. Qed.
Lemma col_insert_sorted x l : StronglySorted lexlt l -> StronglySorted lexlt (col_insert x l).
Proof.
  induction 1 as [|y l H IH F]; cbn [col_insert]; [repeat constructor|].
  destruct (lexlt_dec x y) as [Hx|Hx].
  - constructor; [constructor; assumption|]. constructor; [exact Hx|]. eapply Forall_impl; [|exact F]. intros z Hz. eapply lexlt_trans; eassumption.
  - destruct (pt_eq_dec x y) as [->|Hn]; [constructor; assumption|]. constructor; [exact IH|].
    rewrite Forall_forall in *. intros z Hz. apply col_insert_in in Hz as [->|Hz]; [apply lexlt_total; assumption|auto].
Qed.
Lemma unique_cols_sorted l : StronglySorted lexlt (unique_cols l).
Proof. induction l as [|x l IH]; [constructor|]. apply col_insert_sorted, IH. Qed.

Lemma unique_cols_id l : StronglySorted lexlt l -> unique_cols l = l.
Proof.
  induction 1 as [|x l H IH F]; [reflexivity|]. cbn [unique_cols fold_right]. fold (unique_cols l). rewrite IH.
  destruct l as [|y l]; [reflexivity|]. cbn [col_insert]. destruct (lexlt_dec x y) as [_|N]; [reflexivity|]. inversion F; contradiction.
Qed.
Lemma subgrids_nth {A} (grids : list (A * list pt)) d q : forall k, (k < length (concat (map snd grids)))%nat ->
  exists g, In g grids /\ fst g = nth k (subgrids grids) d /\ In (nth k (concat (map snd grids)) q) (snd g).
Proof.
  induction grids as [|g grids IH]; intros k Hk; [cbn in Hk; lia|]. cbn [map concat] in *. rewrite app_length in Hk.
  unfold subgrids. cbn [map concat]. fold (subgrids grids). destruct (Nat.lt_ge_cases k (length (snd g))) as [L|L].
  - exists g. split; [left; reflexivity|]. rewrite !app_nth1 by (rewrite ?repeat_length; exact L). split.
    + symmetry. apply (repeat_spec (length (snd g))). apply nth_In. rewrite repeat_length. exact L.
    + apply nth_In. exact L.
  - destruct (IH (k - length (snd g))%nat ltac:(lia)) as (g' & H1 & H2 & H3). exists g'. split; [right; exact H1|].
    rewrite !app_nth2 by (rewrite ?repeat_length; exact L). rewrite repeat_length. tauto.
Qed.
Lemma subgrids_length {A} (grids : list (A * list pt)) : length (subgrids grids) = length (concat (map snd grids)).
Proof.
  induction grids as [|g grids IH]; [reflexivity|]. unfold subgrids. cbn [map concat]. fold (subgrids grids). rewrite !app_length, repeat_length, IH. reflexivity.
Qed.

(** ** RectGrid.indices, grids.py:484-540
    The grid: limits and increment; points in the order of [rect_pos]. *)
Record rgrid := { gx0 : R; gx1 : R; gy0 : R; gy1 : R; ginc : R }.
Definition gnx (g : rgrid) : Z := steps (gx0 g) (gx1 g) (ginc g).
Definition gny (g : rgrid) : Z := steps (gy0 g) (gy1 g) (ginc g).
Definition gpoints (g : rgrid) : list p2 :=
  flat_map (fun i => map (fun j => (axis_pos (gx0 g) (gx1 g) (gnx g) (Z.of_nat i), axis_pos (gy0 g) (gy1 g) (gny g) (Z.of_nat j)))
                         (seq 0 (Z.to_nat (gny g)))) (seq 0 (Z.to_nat (gnx g))).
Definition gindex (g : rgrid) (x y : R) : (Z * Z) + exn := index2 (gx0 g) (gx1 g) (gy0 g) (gy1 g) (ginc g) x y.

(** lines 513-519, 532-539: index of every selected point; the nearest to the centre if
    there is none *)
Fixpoint all_indices (l : list ((Z * Z) + exn)) : list (Z * Z) + exn :=
  match l with
  | [] => inl []
  | inr e :: _ => inr e
  | inl p :: l' => match all_indices l' with inl r => inl (p :: r) | inr e => inr e end
  end.
Definition select (g : rgrid) (inside : p2 -> bool) (cx cy : R) : list (Z * Z) + exn :=
  match filter inside (gpoints g) with
  | [] => match gindex g cx cy with inl p => inl [p] | inr e => inr e end
  | pts => all_indices (map (fun p => gindex g (fst p) (snd p)) pts)
  end.
(** three values: circle *)
Definition indices_circle (g : rgrid) (x y r : R) : list (Z * Z) + exn :=
  select g (fun p => if Rle_dec ((fst p - x) ^ 2 + (snd p - y) ^ 2) (r ^ 2) then true else false) x y.
(** more than four values: polygon; centre is the mean of the vertices *)
Definition indices_polygon (g : rgrid) (edges : list p2) : list (Z * Z) + exn :=
  match mk_polygon edges with
  | inr e => inr e
  | inl poly =>
      if existsb (fun p => match is_inside poly 1e-12 p with inr _ => true | inl _ => false end) (gpoints g) then inr IndexError
      else select g (fun p => match is_inside poly 1e-12 p with inl d => if Rle_dec 0 d then true else false | inr _ => false end)
                  (fst (centroid edges)) (snd (centroid edges))
  end.
(** four values: rectangle; bounds of the two slices *)
Definition indices_rect (g : rgrid) (xa ya xb yb : R) : ((Z * Z) * (Z * Z)) + exn :=
  match gindex g (Rmin xa xb) (Rmin ya yb), gindex g (Rmax xa xb) (Rmax ya yb) with
  | inl (xi1, yi1), inl (xi2, yi2) => inl ((xi1, (xi2 + 1)%Z), (yi1, (yi2 + 1)%Z))
  | inr e, _ => inr e
  | _, inr e => inr e
  end.
(** RectGrid3D.indices, one axis, grids.py:758-760 *)
Definition indices_axis3 (lo hi inc xa xb : R) : (Z * Z) + exn :=
  match index_axis3 lo hi inc (Rmin xa xb), index_axis3 lo hi inc (Rmax xa xb) with
  | inl i1, inl i2 => inl (i1, (i2 + 1)%Z)
  | inr e, _ => inr e
  | _, inr e => inr e
  end.

(** The axes fit: a point of the grid is found at its own index (C43). *)
Definition fits (lo hi inc : R) : Prop := 0 < inc /\ lo <= hi /\ Rabs ((hi - lo) / inc - IZR (steps lo hi inc - 1)) < 1 / 2.
Definition gfits (g : rgrid) : Prop := fits (gx0 g) (gx1 g) (ginc g) /\ fits (gy0 g) (gy1 g) (ginc g).
Definition gpos (g : rgrid) (i j : Z) : p2 := (axis_pos (gx0 g) (gx1 g) (gnx g) i, axis_pos (gy0 g) (gy1 g) (gny g) j).

Lemma gindex_own g i j : gfits g -> (0 <= i < gnx g)%Z -> (0 <= j < gny g)%Z -> gindex g (fst (gpos g i j)) (snd (gpos g i j)) = inl (i, j).
Proof.
  intros [(A1 & A2 & A3) (B1 & B2 & B3)] Hi Hj. unfold gindex, index2, gpos. cbn [fst snd].
  unfold gnx, gny in *. rewrite (index_own _ _ _ i A1 A2 A3 Hi), (index_own _ _ _ j B1 B2 B3 Hj). reflexivity.
Qed.

(** indices of all grid points in row-major order *)
Definition gpairs (g : rgrid) : list (Z * Z) :=
  flat_map (fun i => map (fun j => (Z.of_nat i, Z.of_nat j)) (seq 0 (Z.to_nat (gny g)))) (seq 0 (Z.to_nat (gnx g))).
Lemma gpoints_pairs g : gpoints g = map (fun ij => gpos g (fst ij) (snd ij)) (gpairs g).
Proof.
  unfold gpoints, gpairs. generalize (seq 0 (Z.to_nat (gnx g))). intros l. induction l as [|i l IH]; [reflexivity|].
  cbn [flat_map]. rewrite map_app, <- IH, map_map. reflexivity.
Qed.
Lemma gpairs_in g i j : In (i, j) (gpairs g) <-> (0 <= i < gnx g)%Z /\ (0 <= j < gny g)%Z.
Proof.
  unfold gpairs. rewrite in_flat_map. split.
  - intros (a & Ha & H). apply in_map_iff in H as (b & E & Hb). injection E as <- <-. apply in_seq in Ha, Hb. lia.
  - intros [Hi Hj]. exists (Z.to_nat i). split; [apply in_seq; lia|]. apply in_map_iff. exists (Z.to_nat j). split; [f_equal; lia|apply in_seq; lia].
Qed.

Lemma filter_map {A B} (f : A -> B) (p : B -> bool) l : filter p (map f l) = map f (filter (fun x => p (f x)) l).
Proof. induction l as [|x l IH]; [reflexivity|]. cbn [map filter]. destruct (p (f x)); cbn [map]; rewrite IH; reflexivity. Qed.

Lemma all_indices_inl l : all_indices (map inl l) = inl l.
Proof. induction l as [|p l IH]; [reflexivity|]. cbn [map all_indices]. rewrite IH. reflexivity. Qed.

Lemma select_spec g inside cx cy : gfits g ->
  let sel := filter (fun ij => inside (gpos g (fst ij) (snd ij))) (gpairs g) in
  select g inside cx cy = match sel with [] => match gindex g cx cy with inl p => inl [p] | inr e => inr e end | _ => inl sel end.
Proof.
  intros Hg. cbv zeta. unfold select. rewrite gpoints_pairs, filter_map.
  set (sel := filter _ (gpairs g)).
  assert (Hs : forall ij, In ij sel -> gindex g (fst (gpos g (fst ij) (snd ij))) (snd (gpos g (fst ij) (snd ij))) = inl ij).
  { intros [i j] H. apply filter_In in H as [H _]. apply gpairs_in in H as [Hi Hj]. apply gindex_own; assumption. }
  destruct sel as [|p0 sel']; [reflexivity|]. cbn [map] in *.
  change (all_indices (map (fun p => gindex g (fst p) (snd p)) (map (fun ij => gpos g (fst ij) (snd ij)) (p0 :: sel'))) = inl (p0 :: sel')).
  rewrite map_map. rewrite (map_ext_in _ inl) by (intros ij H; apply Hs; exact H). apply all_indices_inl.
Qed.

(** One axis: the two bounds. *)
Lemma index_axis_mono lo hi inc x1 x2 i1 i2 : 0 < inc -> lo <= x1 -> x1 <= x2 -> x2 <= hi ->
  index_axis lo hi inc x1 = inl i1 -> index_axis lo hi inc x2 = inl i2 ->
  forall i, lo + IZR i * inc <= hi -> (x1 - inc / 2 < lo + IZR i * inc /\ lo + IZR i * inc <= x2 + inc / 2 -> (i1 <= i <= i2)%Z)
    /\ ((i1 <= i <= i2)%Z -> x1 - inc / 2 < lo + IZR i * inc /\ lo + IZR i * inc <= x2 + inc / 2).
Proof.
  intros Hi H1 H2 H3 E1 E2 i Hhi. unfold index_axis in E1, E2.
  destruct (Rlt_dec x1 lo); [lra|]. destruct (Rlt_dec x2 lo); [lra|]. destruct (Rlt_dec hi x1); [lra|]. destruct (Rlt_dec hi x2); [lra|].
  destruct (Req_EM_T inc 0); [lra|]. injection E1 as E1. injection E2 as E2.
  assert (Q1 : 0 <= (x1 - lo) / inc) by (apply Rmult_le_pos; [lra|left; apply Rinv_0_lt_compat; exact Hi]).
  assert (Q2 : 0 <= (x2 - lo) / inc) by (apply Rmult_le_pos; [lra|left; apply Rinv_0_lt_compat; exact Hi]).
  destruct (trunc_nonneg ((x1 - lo) / inc + 1 / 2) ltac:(lra)) as [T1 _]. destruct (trunc_nonneg ((x2 - lo) / inc + 1 / 2) ltac:(lra)) as [T2 _].
  rewrite T1 in E1. rewrite T2 in E2. pose proof (Int_part_bounds ((x1 - lo) / inc + 1 / 2)) as B1. pose proof (Int_part_bounds ((x2 - lo) / inc + 1 / 2)) as B2.
  rewrite E1 in B1. rewrite E2 in B2.
  set (a := (x1 - lo) / inc) in *. set (b := (x2 - lo) / inc) in *.
  assert (X1 : x1 = lo + a * inc) by (unfold a; field; lra). assert (X2 : x2 = lo + b * inc) by (unfold b; field; lra).
  split.
  - intros [L U]. assert (a - 1 / 2 < IZR i) by nra. assert (IZR i <= b + 1 / 2) by nra. split; apply Z.lt_succ_r; apply lt_IZR; rewrite succ_IZR; lra.
  - intros [L U]. apply IZR_le in L, U. split; nra.
Qed.

Lemma index_axis3_mono lo hi inc x1 x2 i1 i2 : 0 < inc -> lo <= x1 -> x1 <= x2 -> x2 <= hi ->
  index_axis3 lo hi inc x1 = inl i1 -> index_axis3 lo hi inc x2 = inl i2 ->
  forall i, (x1 - inc / 2 < lo + IZR i * inc < x2 + inc / 2 -> (i1 <= i <= i2)%Z)
    /\ ((i1 <= i <= i2)%Z -> x1 - inc / 2 <= lo + IZR i * inc <= x2 + inc / 2).
Proof.
  intros Hi H1 H2 H3 E1 E2 i. unfold index_axis3 in E1, E2.
  destruct (Rlt_dec x1 lo); [lra|]. destruct (Rlt_dec x2 lo); [lra|]. destruct (Rlt_dec hi x1); [lra|]. destruct (Rlt_dec hi x2); [lra|].
  destruct (Req_EM_T inc 0); [lra|]. injection E1 as E1. injection E2 as E2.
  pose proof (py_round_bounds ((x1 - lo) / inc)) as B1. pose proof (py_round_bounds ((x2 - lo) / inc)) as B2.
  rewrite E1 in B1. rewrite E2 in B2.
  set (a := (x1 - lo) / inc) in *. set (b := (x2 - lo) / inc) in *.
  assert (X1 : x1 = lo + a * inc) by (unfold a; field; lra). assert (X2 : x2 = lo + b * inc) by (unfold b; field; lra).
  split.
  - intros [L U]. assert (a - 1 / 2 < IZR i) by nra. assert (IZR i < b + 1 / 2) by nra. split; apply Z.lt_succ_r; apply lt_IZR; rewrite succ_IZR; lra.
  - intros [L U]. apply IZR_le in L, U. split; nra.
Qed.

Lemma index_axis_defined lo hi inc x : 0 < inc -> lo <= x <= hi -> exists i, index_axis lo hi inc x = inl i.
Proof. intros Hi Hx. unfold index_axis. destruct (Rlt_dec x lo); [lra|]. destruct (Rlt_dec hi x); [lra|]. destruct (Req_EM_T inc 0); [lra|]. eexists; reflexivity. Qed.
Lemma index_axis3_defined lo hi inc x : 0 < inc -> lo <= x <= hi -> exists i, index_axis3 lo hi inc x = inl i.
Proof. intros Hi Hx. unfold index_axis3. destruct (Rlt_dec x lo); [lra|]. destruct (Rlt_dec hi x); [lra|]. destruct (Req_EM_T inc 0); [lra|]. eexists; reflexivity. Qed.

Lemma NoDup_app_intro {A} (l m : list A) : NoDup l -> NoDup m -> (forall x, In x l -> ~ In x m) -> NoDup (l ++ m).
Proof.
  induction 1 as [|x l Hx Hl IH]; intros Hm D; [exact Hm|]. cbn [app]. constructor.
  - rewrite in_app_iff. intros [H|H]; [contradiction|]. exact (D x (or_introl eq_refl) H).
  - apply IH; [exact Hm|]. intros y Hy. apply D. right. exact Hy.
Qed.
Lemma NoDup_gpairs g : NoDup (gpairs g).
Proof.
  unfold gpairs. generalize (seq_NoDup (Z.to_nat (gnx g)) 0). generalize (seq 0 (Z.to_nat (gnx g))). intros l Hl.
  induction Hl as [|i l Hi Hl IH]; [constructor|]. cbn [flat_map].
  apply NoDup_app_intro.
  - apply Injective_map_NoDup; [intros a b E; injection E; lia|apply seq_NoDup].
  - exact IH.
  - intros [a b] H1 H2. apply in_map_iff in H1 as (j & E & _). injection E as <- <-. apply in_flat_map in H2 as (i' & Hi' & H2).
    apply in_map_iff in H2 as (j' & E & _). injection E as E _. apply Nat2Z.inj in E. subst. contradiction.
Qed.

(** Grids whose extents are multiples of the increment. *)
Definition mk_multiple (xlo ylo inc : R) (kx ky : Z) : rgrid :=
  {| gx0 := xlo; gx1 := xlo + IZR kx * inc; gy0 := ylo; gy1 := ylo + IZR ky * inc; ginc := inc |}.
Lemma fits_multiple lo inc k : 0 < inc -> (0 <= k)%Z -> fits lo (lo + IZR k * inc) inc.
Proof.
  intros Hi Hk. assert (0 <= IZR k) by (apply (IZR_le 0); exact Hk). split; [exact Hi|]. split; [nra|]. rewrite steps_multiple by assumption.
  replace (k + 1 - 1)%Z with k by lia. replace ((lo + IZR k * inc - lo) / inc - IZR k) with 0 by (field; lra). rewrite Rabs_R0. lra.
Qed.
