(** Property theorems C99, C100: line grids, merged grids, indices of subdomains. *)
From Coq Require Import List Arith Lia ZArith Bool Reals Lra Sorted.
From Verif Require Import Stream Cplx Wav Polygon Grids Das GridMore.
Import ListNotations.
Local Open Scope R_scope.

(** C99.  LineGrid with at least two points: the first point is loc, neighbouring points
    differ by the same vector, parallel to the direction, and the last point is at the
    distance length (for a positive one) from the first. *)
Theorem C99_line_partial loc direction len n : (2 <= n)%nat -> direction <> (0, 0, 0) ->
  exists l step t, line_pos loc direction len n = inl l /\ length l = n
  /\ nth 0 l (0, 0, 0) = loc
  /\ step = (t * px direction, t * py direction, t * pz direction) /\ (0 < len -> 0 < t)
  /\ (forall s, (S s < n)%nat -> let p := nth s l (0, 0, 0) in nth (S s) l (0, 0, 0) = (px p + px step, py p + py step, pz p + pz step))
  /\ (let e := nth (n - 1) l (0, 0, 0) in (px e - px loc) ^ 2 + (py e - py loc) ^ 2 + (pz e - pz loc) ^ 2 = len ^ 2).
Proof.
  intros Hn Hd. set (N := norm3 direction).
  assert (Q : 0 < px direction * px direction + py direction * py direction + pz direction * pz direction).
  { destruct direction as [[a b] c]. unfold px, py, pz. cbn [fst snd]. assert (a <> 0 \/ b <> 0 \/ c <> 0).
    { destruct (Req_EM_T a 0) as [->|]; [|tauto]. destruct (Req_EM_T b 0) as [->|]; [|tauto]. destruct (Req_EM_T c 0) as [->|]; [|tauto]. congruence. }
    assert (0 <= a * a) by nra. assert (0 <= b * b) by nra. assert (0 <= c * c) by nra.
    destruct H as [H|[H|H]]; [assert (0 < a * a) by nra|assert (0 < b * b) by nra|assert (0 < c * c) by nra]; lra. }
  assert (HN : 0 < N) by (apply sqrt_lt_R0; exact Q).
  assert (HN2 : N * N = px direction * px direction + py direction * py direction + pz direction * pz direction) by (apply sqrt_sqrt; lra).
  assert (Hn1 : 0 < INR n - 1) by (apply le_INR in Hn; cbn in Hn; lra).
  unfold line_pos. destruct (Nat.eqb_spec n 1); [lia|]. fold N. destruct (Req_EM_T N 0); [lra|].
  set (dist := len / (INR n - 1)). set (f := fun s => (px loc + _, _, _)).
  assert (Hnth : forall s, (s < n)%nat -> nth s (map f (seq 0 n)) (0, 0, 0) = f s).
  { intros s Hs. rewrite (nth_indep _ (0, 0, 0) (f 0%nat)) by (rewrite map_length, seq_length; exact Hs).
    rewrite (map_nth f (seq 0 n)), seq_nth by exact Hs. reflexivity. }
  exists (map f (seq 0 n)), (dist / N * px direction, dist / N * py direction, dist / N * pz direction), (dist / N).
  split; [reflexivity|]. split; [rewrite map_length, seq_length; reflexivity|].
  split. { rewrite Hnth by lia. unfold f. apply pt_ext; unfold px, py, pz; cbn [fst snd]; cbn [INR]; rewrite Rmult_0_r, Rplus_0_r; reflexivity. }
  split; [reflexivity|].
  split. { intros Hl. apply Rdiv_lt_0_compat; [apply Rdiv_lt_0_compat; assumption|exact HN]. }
  split.
  - intros s Hs. cbv zeta. rewrite !Hnth by lia. unfold f. apply pt_ext; unfold px, py, pz; cbn [fst snd]; rewrite S_INR; field; lra.
  - cbv zeta. rewrite Hnth by lia. unfold f. set (a := px direction) in *. set (b := py direction) in *. set (c := pz direction) in *.
    cbn [px py pz]. unfold px, py, pz in *. cbn [fst snd]. rewrite minus_INR by lia. change (INR 1) with 1.
    replace (dist * (INR n - 1)) with len in * by (unfold dist; field; lra).
    assert (E : forall u, u / N * dist * (INR n - 1) = len / N * u) by (intros u; unfold dist; field; lra).
    rewrite !E.
    replace (len ^ 2) with ((len / N) ^ 2 * (N * N)) by (field; lra). rewrite HN2. ring.
Qed.
Print Assumptions C99_line_partial.

(** C99 fails for one point, the default of num_points. *)
Theorem C99_one_point_refuted loc direction len : line_pos loc direction len 1 = inr ZeroDivisionError.
Proof. reflexivity. Qed.
Print Assumptions C99_one_point_refuted.

(** C99.  MergeGrid: exactly the points of the merged grids, each once, in lexicographic
    order. *)
Theorem C99_merge_partial grids :
  (forall p, In p (merge_pos grids) <-> exists g, In g grids /\ In p g)
  /\ NoDup (merge_pos grids) /\ StronglySorted lexlt (merge_pos grids).
Proof.
  split; [|split].
  - intros p. unfold merge_pos. rewrite unique_cols_in, in_concat. split; intros (g & H1 & H2); exists g; tauto.
  - assert (H := unique_cols_sorted (concat grids)). fold (merge_pos grids) in H.
    induction H as [|x l H IH F]; constructor; [|exact IH]. intros Hx. rewrite Forall_forall in F. exact (lexlt_irrefl x (F x Hx)).
  - apply unique_cols_sorted.
Qed.
Print Assumptions C99_merge_partial.

(** C99.  subgrids names for each point a grid that contains it, if the points of the grids
    one after the other are distinct and in lexicographic order. *)
Theorem C99_subgrids_partial (A : Type) (grids : list (A * list pt)) d q : StronglySorted lexlt (concat (map snd grids)) ->
  length (subgrids grids) = length (merge_pos (map snd grids))
  /\ forall k, (k < length (merge_pos (map snd grids)))%nat ->
     exists g, In g grids /\ fst g = nth k (subgrids grids) d /\ In (nth k (merge_pos (map snd grids)) q) (snd g).
Proof.
  intros H. unfold merge_pos. rewrite (unique_cols_id _ H). split; [apply subgrids_length|apply subgrids_nth].
Qed.
Print Assumptions C99_subgrids_partial.

Example C99_subgrids_case : StronglySorted lexlt (concat (map snd [(0%nat, [(0, 0, 0); (0, 1, 0)]); (1%nat, [(2, 0, 0)])])).
Proof. cbn [map snd concat app]. repeat constructor; unfold lexlt, px, py, pz; cbn [fst snd]; lra. Qed.

(** C99 fails for subgrids, "names of subgrids for each point": the names are in the order
    of the grids and counted before duplicates are removed.  Two grids of one point each:
    the first name belongs to the second point; two grids with the same point: two names for
    one point. *)
Theorem C99_subgrids_refuted :
  (exists grids : list (nat * list pt), exists p q, merge_pos (map snd grids) = [p; q] /\ subgrids grids = [0%nat; 1%nat]
     /\ In (0%nat, [q]) grids /\ In (1%nat, [p]) grids /\ p <> q)
  /\ exists grids : list (nat * list pt), length (merge_pos (map snd grids)) = 1%nat /\ length (subgrids grids) = 2%nat.
Proof.
  split.
  - exists [(0%nat, [(1, 0, 0)]); (1%nat, [(0, 0, 0)])], (0, 0, 0), (1, 0, 0). split; [|split; [reflexivity|]].
    + unfold merge_pos. cbn [map snd concat app unique_cols fold_right col_insert].
      destruct (lexlt_dec _ _) as [H|H]; [unfold lexlt, px, py, pz in H; cbn in H; lra|].
      destruct (pt_eq_dec _ _) as [E|_]; [|reflexivity]. injection E. lra.
    + split; [left; reflexivity|]. split; [right; left; reflexivity|]. intros E. injection E. lra.
  - exists [(0%nat, [(0, 0, 0)]); (1%nat, [(0, 0, 0)])]. split; [|reflexivity].
    unfold merge_pos. cbn [map snd concat app unique_cols fold_right col_insert].
    destruct (lexlt_dec _ _) as [H|H]; [unfold lexlt, px, py, pz in H; cbn in H; lra|].
    destruct (pt_eq_dec _ _) as [_|E]; [reflexivity|congruence].
Qed.
Print Assumptions C99_subgrids_refuted.

Example C99_case : exists l, line_pos (1, 2, 3) (0, 0, 2) 4 3 = inl l /\ length l = 3%nat.
Proof.
  destruct (C99_line_partial (1, 2, 3) (0, 0, 2) 4 3) as (l & _ & _ & E & H & _); [lia| |eauto]. intros E. injection E. lra.
Qed.

(** What a subdomain selects: exactly the given grid points, each once. *)
Definition selects (g : rgrid) (inside : p2 -> Prop) (l : list (Z * Z)) : Prop :=
  NoDup l /\ forall i j, In (i, j) l <-> ((0 <= i < gnx g)%Z /\ (0 <= j < gny g)%Z /\ inside (gpos g i j)).

Lemma select_exact g (inside : p2 -> bool) cx cy (P : p2 -> Prop) : gfits g -> (forall p, inside p = true <-> P p) ->
  ((exists i j, (0 <= i < gnx g)%Z /\ (0 <= j < gny g)%Z /\ P (gpos g i j)) ->
     exists l, select g inside cx cy = inl l /\ selects g P l)
  /\ ((forall i j, (0 <= i < gnx g)%Z -> (0 <= j < gny g)%Z -> ~ P (gpos g i j)) ->
     select g inside cx cy = match gindex g cx cy with inl p => inl [p] | inr e => inr e end).
Proof.
  intros Hg HP. pose proof (select_spec g inside cx cy Hg) as E. cbv zeta in E.
  set (sel := filter _ _) in E.
  assert (Hsel : selects g P sel).
  { split; [apply NoDup_filter, NoDup_gpairs|]. intros i j. unfold sel. rewrite filter_In, gpairs_in. cbn [fst snd]. rewrite HP. tauto. }
  split.
  - intros (i & j & Hi & Hj & Hp). exists sel. split; [|exact Hsel]. rewrite E. destruct sel; [|reflexivity].
    exfalso. apply (proj2 (proj2 Hsel i j)). tauto.
  - intros Hno. rewrite E. destruct sel as [|[i j] s]; [reflexivity|]. exfalso.
    destruct (proj1 (proj2 Hsel i j) (or_introl eq_refl)) as (Hi & Hj & Hp). exact (Hno i j Hi Hj Hp).
Qed.

(** C100.  indices(x, y, r): exactly the points of the grid in the circle, each once; if
    there is none, the index of the centre. *)
Theorem C100_circle_partial g x y r : gfits g ->
  let inside p := (fst p - x) ^ 2 + (snd p - y) ^ 2 <= r ^ 2 in
  ((exists i j, (0 <= i < gnx g)%Z /\ (0 <= j < gny g)%Z /\ inside (gpos g i j)) ->
     exists l, indices_circle g x y r = inl l /\ selects g inside l)
  /\ ((forall i j, (0 <= i < gnx g)%Z -> (0 <= j < gny g)%Z -> ~ inside (gpos g i j)) ->
     indices_circle g x y r = match gindex g x y with inl p => inl [p] | inr e => inr e end).
Proof.
  intros Hg inside. apply select_exact; [exact Hg|]. intros p. unfold inside. destruct (Rle_dec _ _); split; try tauto; discriminate.
Qed.
Print Assumptions C100_circle_partial.

(** C100.  indices(x1, y1, ..., xn, yn) with a strictly convex polygon in either
    orientation: exactly the points of the grid in the polygon or closer than 1e-12 to its
    boundary. *)
Theorem C100_polygon_partial g s edges : gfits g -> s = 1 \/ s = -1 -> convex s edges ->
  let inside p := in_convex s edges p \/ exists i t, (i < length edges)%nat /\ 0 <= t <= 1 /\ sqrt (dist2 p (boundary_point edges i t)) < 1e-12 in
  ((exists i j, (0 <= i < gnx g)%Z /\ (0 <= j < gny g)%Z /\ inside (gpos g i j)) ->
     exists l, indices_polygon g edges = inl l /\ selects g inside l)
  /\ ((forall i j, (0 <= i < gnx g)%Z -> (0 <= j < gny g)%Z -> ~ inside (gpos g i j)) ->
     indices_polygon g edges = match gindex g (fst (centroid edges)) (snd (centroid edges)) with inl p => inl [p] | inr e => inr e end).
Proof.
  intros Hg Hs Hc inside.
  destruct (polygon_convex s edges 1e-12 (0, 0) Hs Hc) as (poly & _ & Epoly & _).
  assert (K : forall p, exists d, is_inside poly 1e-12 p = inl d /\ (0 <= d <-> inside p)).
  { intros p. destruct (polygon_convex s edges 1e-12 p Hs Hc) as (poly' & d & E' & Hd & Hmin & Hat & Hin & Hout).
    rewrite Epoly in E'. injection E' as <-.
    assert (Hdec : in_convex s edges p \/ ~ in_convex s edges p).
    { unfold in_convex. clear -Hs. generalize (length edges). intros n. induction n as [|n IH]; [left; intros; lia|].
      destruct IH as [IH|IH].
      - destruct (Rle_dec 0 (s * area (vtx edges n) (vtx edges (S n)) p)) as [H|H].
        + left. intros j Hj. destruct (Nat.eq_dec j n) as [->|]; [exact H|apply IH; lia].
        + right. intros H'. apply H, H'. lia.
      - right. intros H'. apply IH. intros j Hj. apply H'. lia. }
    destruct Hdec as [Hi|Hi].
    - exists (if Rlt_dec d 1e-12 then 0 else d). split; [apply Hin, Hi|]. split; [intros _; left; exact Hi|]. intros _. destruct (Rlt_dec _ _); lra.
    - exists (if Rlt_dec d 1e-12 then 0 else - d). split; [apply Hout, Hi|]. destruct (Rlt_dec d 1e-12) as [L|L].
      + split; [|lra]. intros _. right. destruct Hat as (i & t & H1 & H2 & H3). exists i, t. rewrite <- H3. tauto.
      + split; [intros; lra|]. intros [H|(i & t & H1 & H2 & H3)]; [contradiction|]. pose proof (Hmin i t H1 H2). lra. }
  assert (Eb : existsb (fun p => match is_inside poly 1e-12 p with inr _ => true | inl _ => false end) (gpoints g) = false).
  { apply not_true_iff_false. intros H. apply existsb_exists in H as (p & _ & H). destruct (K p) as (d & E & _). rewrite E in H. discriminate. }
  unfold indices_polygon. rewrite Epoly, Eb. apply select_exact; [exact Hg|].
  intros p. destruct (K p) as (d & E & H). rewrite E, <- H. destruct (Rle_dec 0 d); split; try tauto; discriminate.
Qed.
Print Assumptions C100_polygon_partial.

(** C100.  indices(x1, y1, x2, y2) with corners in the grid, extents that are multiples of
    the increment: the slices contain every point of the grid in the rectangle, and only
    points that are not farther than half an increment from it. *)
Theorem C100_rectangle_partial xlo ylo inc kx ky xa ya xb yb : 0 < inc -> (0 <= kx)%Z -> (0 <= ky)%Z ->
  let g := mk_multiple xlo ylo inc kx ky in
  xlo <= xa <= gx1 g -> xlo <= xb <= gx1 g -> ylo <= ya <= gy1 g -> ylo <= yb <= gy1 g ->
  exists i1 i2 j1 j2, indices_rect g xa ya xb yb = inl ((i1, i2), (j1, j2))
  /\ (0 <= i1 < i2)%Z /\ (i2 <= gnx g)%Z /\ (0 <= j1 < j2)%Z /\ (j2 <= gny g)%Z
  /\ forall i j, (0 <= i < gnx g)%Z -> (0 <= j < gny g)%Z ->
     let p := gpos g i j in
     (Rmin xa xb <= fst p <= Rmax xa xb -> Rmin ya yb <= snd p <= Rmax ya yb -> (i1 <= i < i2)%Z /\ (j1 <= j < j2)%Z)
     /\ ((i1 <= i < i2)%Z -> (j1 <= j < j2)%Z ->
         Rmin xa xb - inc / 2 < fst p <= Rmax xa xb + inc / 2 /\ Rmin ya yb - inc / 2 < snd p <= Rmax ya yb + inc / 2).
Proof.
  intros Hi Hkx Hky g Hxa Hxb Hya Hyb. cbn [gx1 gy1 g mk_multiple] in Hxa, Hxb, Hya, Hyb.
  assert (AX : forall lo k a b, (0 <= k)%Z -> lo <= a <= lo + IZR k * inc -> lo <= b <= lo + IZR k * inc ->
    exists i1 i2, index_axis lo (lo + IZR k * inc) inc (Rmin a b) = inl i1 /\ index_axis lo (lo + IZR k * inc) inc (Rmax a b) = inl i2
      /\ (0 <= i1 <= i2)%Z /\ (i2 < steps lo (lo + IZR k * inc) inc)%Z
      /\ forall i, (0 <= i < steps lo (lo + IZR k * inc) inc)%Z -> let p := axis_pos lo (lo + IZR k * inc) (steps lo (lo + IZR k * inc) inc) i in
         (Rmin a b <= p <= Rmax a b -> (i1 <= i <= i2)%Z) /\ ((i1 <= i <= i2)%Z -> Rmin a b - inc / 2 < p <= Rmax a b + inc / 2)).
  { intros lo k a b Hk Ha Hb.
    assert (M : lo <= Rmin a b /\ Rmin a b <= Rmax a b /\ Rmax a b <= lo + IZR k * inc) by (unfold Rmin, Rmax; destruct (Rle_dec a b); lra).
    destruct (index_nearest lo inc k (Rmin a b) Hi Hk) as (i1 & E1 & B1 & _); [lra|].
    destruct (index_nearest lo inc k (Rmax a b) Hi Hk) as (i2 & E2 & B2 & _); [lra|].
    exists i1, i2. split; [exact E1|]. split; [exact E2|]. rewrite steps_multiple in * by assumption.
    assert (IM := index_axis_mono lo _ inc _ _ i1 i2 Hi (proj1 M) (proj1 (proj2 M)) (proj2 (proj2 M)) E1 E2).
    assert (Hpos : forall i, (0 <= i < k + 1)%Z -> lo + IZR i * inc <= lo + IZR k * inc).
    { intros i Hik. assert (IZR i <= IZR k) by (apply IZR_le; lia). nra. }
    split.
    - split; [lia|]. unfold index_axis in E1, E2. clear -Hi M E1 E2.
      repeat (destruct (Rlt_dec _ _); [lra|]). destruct (Req_EM_T inc 0); [lra|]. injection E1 as E1. injection E2 as E2.
      assert (Hinv : 0 < / inc) by (apply Rinv_0_lt_compat; exact Hi).
      assert (Q1 : 0 <= (Rmin a b - lo) / inc) by (apply Rmult_le_pos; lra).
      assert (Q2 : (Rmin a b - lo) / inc <= (Rmax a b - lo) / inc) by (apply Rmult_le_compat_r; lra).
      destruct (trunc_nonneg ((Rmin a b - lo) / inc + 1 / 2) ltac:(lra)) as [T1 _]. rewrite T1 in E1.
      destruct (trunc_nonneg ((Rmax a b - lo) / inc + 1 / 2) ltac:(lra)) as [T2 _]. rewrite T2 in E2.
      pose proof (Int_part_bounds ((Rmin a b - lo) / inc + 1 / 2)) as B1'. rewrite E1 in B1'.
      pose proof (Int_part_bounds ((Rmax a b - lo) / inc + 1 / 2)) as B2'. rewrite E2 in B2'.
      apply Z.lt_succ_r. apply lt_IZR. rewrite succ_IZR. lra.
    - split; [lia|]. intros i Hik. cbv zeta. rewrite axis_multiple by lia. destruct (IM i (Hpos i Hik)) as [I1 I2]. split; intros H.
      + apply I1. lra.
      + apply I2 in H. lra. }
  destruct (AX xlo kx xa xb Hkx Hxa Hxb) as (i1 & i2 & E1 & E2 & B1 & B2 & BX).
  destruct (AX ylo ky ya yb Hky Hya Hyb) as (j1 & j2 & F1 & F2 & C1 & C2 & BY).
  exists i1, (i2 + 1)%Z, j1, (j2 + 1)%Z. unfold indices_rect, gindex, index2. cbn [gx0 gx1 gy0 gy1 ginc g mk_multiple].
  rewrite E1, E2, F1, F2. split; [reflexivity|]. unfold gnx, gny. cbn [gx0 gx1 gy0 gy1 ginc g mk_multiple].
  repeat (split; [lia|]). intros i j Hii Hjj. cbv zeta. unfold gpos. cbn [fst snd gx0 gx1 gy0 gy1 ginc g mk_multiple].
  unfold gnx, gny. cbn [gx0 gx1 gy0 gy1 ginc g mk_multiple].
  destruct (BX i Hii) as [X1 X2]. destruct (BY j Hjj) as [Y1 Y2]. split.
  - intros Hx Hy. apply X1 in Hx. apply Y1 in Hy. lia.
  - intros Hx Hy. split; [apply X2; lia|apply Y2; lia].
Qed.
Print Assumptions C100_rectangle_partial.

(** C100.  RectGrid3D.indices, one axis. *)
Theorem C100_box_axis_partial lo inc k a b : 0 < inc -> (0 <= k)%Z ->
  let hi := lo + IZR k * inc in let n := steps lo hi inc in
  lo <= a <= hi -> lo <= b <= hi ->
  exists i1 i2, indices_axis3 lo hi inc a b = inl (i1, i2) /\ (0 <= i1)%Z /\ (i2 <= n)%Z
  /\ forall i, (0 <= i < n)%Z -> let p := axis_pos lo hi n i in
     (Rmin a b <= p <= Rmax a b -> (i1 <= i < i2)%Z) /\ ((i1 <= i < i2)%Z -> Rmin a b - inc / 2 <= p <= Rmax a b + inc / 2).
Proof.
  intros Hi Hk hi n Ha Hb.
  assert (M : lo <= Rmin a b /\ Rmin a b <= Rmax a b /\ Rmax a b <= hi) by (unfold Rmin, Rmax; destruct (Rle_dec a b); lra).
  destruct (index3_nearest lo inc k (Rmin a b) Hi Hk) as (i1 & E1 & B1 & _); [unfold hi in M; lra|].
  destruct (index3_nearest lo inc k (Rmax a b) Hi Hk) as (i2 & E2 & B2 & _); [unfold hi in M; lra|].
  fold hi in E1, E2, B1, B2. fold n in B1, B2.
  exists i1, (i2 + 1)%Z. unfold indices_axis3. rewrite E1, E2. split; [reflexivity|]. split; [lia|]. split; [lia|].
  assert (IM := index_axis3_mono lo hi inc _ _ i1 i2 Hi (proj1 M) (proj1 (proj2 M)) (proj2 (proj2 M)) E1 E2).
  intros i Hin. cbv zeta. assert (En : n = (k + 1)%Z) by (apply steps_multiple; assumption). rewrite En in *. unfold hi. rewrite axis_multiple by lia.
  destruct (IM i) as [I1 I2]. split; intros H.
  - assert (i1 <= i <= i2)%Z by (apply I1; lra). lia.
  - apply I2. lia.
Qed.
Print Assumptions C100_box_axis_partial.

(** C100 fails for rectangles: without a point of the grid in the rectangle points outside
    are selected (grid 0, 1, ..., 10 in both directions, rectangle from 0.3 to 0.4). *)
Theorem C100_outside_refuted : exists g xa ya xb yb, gfits g
  /\ indices_rect g xa ya xb yb = inl ((0, 1), (0, 1))%Z
  /\ (forall i j, (0 <= i < gnx g)%Z -> (0 <= j < gny g)%Z -> ~ (xa <= fst (gpos g i j) <= xb)).
Proof.
  set (g := mk_multiple 0 0 1 10 10). exists g, (3 / 10), (3 / 10), (4 / 10), (4 / 10).
  assert (Hg : gfits g) by (split; apply (fits_multiple 0 1 10); lra || lia). split; [exact Hg|].
  assert (IP : forall x, 0 <= x < 1 / 2 -> index_axis 0 (0 + 10 * 1) 1 x = inl 0%Z).
  { intros x Hx. unfold index_axis. destruct (Rlt_dec x 0); [lra|]. destruct (Rlt_dec _ x); [lra|]. destruct (Req_EM_T 1 0); [lra|]. f_equal.
    destruct (trunc_nonneg ((x - 0) / 1 + 1 / 2) ltac:(lra)) as [-> _]. apply Int_part_unique. simpl IZR. lra. }
  split.
  - unfold indices_rect, gindex, index2, g, mk_multiple. cbn [gx0 gx1 gy0 gy1 ginc].
    rewrite Rmin_left, Rmax_right by lra. rewrite !IP by lra. reflexivity.
  - intros i j Hi' Hj. unfold gpos. cbn [fst]. unfold gnx, g, mk_multiple in *. cbn [gx0 gx1 gy0 gy1 ginc] in *.
    rewrite steps_multiple in * by (lra || lia). rewrite axis_multiple by lia. intros [L U].
    assert (0 < i)%Z by (apply lt_IZR; lra). assert (1 <= IZR i) by (apply (IZR_le 1); lia). lra.
Qed.
Print Assumptions C100_outside_refuted.

(** C100 fails for extents that are not multiples: x from 0 to 1.5 with increment 1 has two
    points, and a circle around the second gives the index 2. *)
Theorem C100_index_refuted : exists g l, 0 < ginc g /\ gnx g = 2%Z /\ gny g = 1%Z
  /\ indices_circle g (3 / 2) 0 (1 / 2) = inl l /\ In (2, 0)%Z l.
Proof.
  set (g := {| gx0 := 0; gx1 := 3 / 2; gy0 := 0; gy1 := 0; ginc := 1 |}).
  assert (PR : forall x k, IZR k <= x < IZR k + 1 -> Int_part x = k) by (exact Int_part_unique).
  assert (S2 : gnx g = 2%Z).
  { unfold gnx, steps, g. cbn [gx0 gx1 ginc]. rewrite (Rabs_pos_eq 1), (Rabs_pos_eq (3 / 2 - 0)) by lra. destruct (Req_EM_T 1 0); [lra|].
    unfold py_round. rewrite (PR _ 2%Z) by (simpl IZR; lra). destruct (Rlt_dec _ _); [reflexivity|]. destruct (Rlt_dec _ _); [exfalso; simpl IZR in *; lra|reflexivity]. }
  assert (S1 : gny g = 1%Z).
  { unfold gny, steps, g. cbn [gy0 gy1 ginc]. rewrite (Rabs_pos_eq 1), (Rabs_pos_eq (0 - 0)) by lra. destruct (Req_EM_T 1 0); [lra|].
    replace ((0 - 0 + 1) / 1) with (IZR 1) by (simpl IZR; field). apply py_round_int. }
  exists g, [(2, 0)%Z]. split; [cbn; lra|]. split; [exact S2|]. split; [exact S1|]. split; [|left; reflexivity].
  unfold indices_circle, select, gpoints. rewrite S2, S1. change (Z.to_nat 2) with 2%nat. change (Z.to_nat 1) with 1%nat. cbn [seq flat_map map app].
  unfold axis_pos. cbn [Z.eqb Pos.eqb Z.sub Z.opp Z.add Z.pos_sub Pos.pred_double Z.of_nat Pos.of_succ_nat Pos.succ]. cbn [gx0 gx1 gy0 gy1 g filter fst snd].
  destruct (Rle_dec _ _) as [H|_]; [exfalso; lra|]. destruct (Rle_dec _ _) as [_|H]; [|exfalso; apply H; lra].
  cbn [map fst snd]. unfold gindex, index2, index_axis. cbn [gx0 gx1 gy0 gy1 ginc g].
  destruct (Rlt_dec _ _); [lra|]. destruct (Rlt_dec _ _); [lra|]. destruct (Req_EM_T 1 0); [lra|].
  destruct (Rlt_dec 0 0); [lra|].
  destruct (trunc_nonneg ((0 + 1 * ((3 / 2 - 0) / 1) - 0) / 1 + 1 / 2) ltac:(lra)) as [-> _].
  destruct (trunc_nonneg ((0 - 0) / 1 + 1 / 2) ltac:(lra)) as [-> _].
  rewrite (PR _ 2%Z) by (simpl IZR; lra). rewrite (PR _ 0%Z) by (simpl IZR; lra). reflexivity.
Qed.
Print Assumptions C100_index_refuted.

Example C100_case : exists l, indices_circle (mk_multiple 0 0 1 10 10) 3 4 (3 / 2) = inl l /\ In (4, 5)%Z l.
Proof.
  assert (Hg : gfits (mk_multiple 0 0 1 10 10)) by (split; apply (fits_multiple 0 1 10); lra || lia).
  assert (Hp : gpos (mk_multiple 0 0 1 10 10) 4 5 = (4, 5)).
  { unfold gpos, gnx, gny, mk_multiple. cbn [gx0 gx1 gy0 gy1 ginc]. rewrite !steps_multiple, !axis_multiple by (lra || lia). f_equal; lra. }
  assert (Hin : (0 <= 4 < gnx (mk_multiple 0 0 1 10 10))%Z /\ (0 <= 5 < gny (mk_multiple 0 0 1 10 10))%Z
    /\ (fst (gpos (mk_multiple 0 0 1 10 10) 4 5) - 3) ^ 2 + (snd (gpos (mk_multiple 0 0 1 10 10) 4 5) - 4) ^ 2 <= (3 / 2) ^ 2).
  { unfold gnx, gny. cbn [mk_multiple gx0 gx1 gy0 gy1 ginc]. rewrite !steps_multiple by (lra || lia). rewrite Hp. cbn [fst snd]. repeat split; try lia. lra. }
  destruct (C100_circle_partial _ 3 4 (3 / 2) Hg) as [H _].
  destruct H as (l & E & _ & H); [exists 4%Z, 5%Z; exact Hin|]. exists l. split; [exact E|]. apply H. exact Hin.
Qed.
