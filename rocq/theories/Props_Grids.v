(** Property theorems C43, C44, C66: grid indices, sectors, polygons. *)
From Coq Require Import List Arith Lia ZArith Bool Reals Lra.
From Verif Require Import Stream Cplx Wav Polygon Grids.
Import ListNotations.
Local Open Scope R_scope.

(** C43.  RectGrid.index with extents that are multiples of the increment:
    valid indices of the grid point that is nearest on each axis. *)
Theorem C43_index_partial xlo ylo inc kx ky x y :
  0 < inc -> (0 <= kx)%Z -> (0 <= ky)%Z ->
  let xhi := xlo + IZR kx * inc in let yhi := ylo + IZR ky * inc in
  let nx := steps xlo xhi inc in let ny := steps ylo yhi inc in
  xlo <= x <= xhi -> ylo <= y <= yhi ->
  exists i j, index2 xlo xhi ylo yhi inc x y = inl (i, j) /\ (0 <= i < nx)%Z /\ (0 <= j < ny)%Z
  /\ forall i' j', (0 <= i' < nx)%Z -> (0 <= j' < ny)%Z ->
     Rabs (x - axis_pos xlo xhi nx i) <= Rabs (x - axis_pos xlo xhi nx i')
     /\ Rabs (y - axis_pos ylo yhi ny j) <= Rabs (y - axis_pos ylo yhi ny j').
Proof.
  intros Hi Hkx Hky xhi yhi nx ny Hx Hy.
  destruct (index_nearest xlo inc kx x Hi Hkx Hx) as (i & Ei & Hi1 & _ & Hi2).
  destruct (index_nearest ylo inc ky y Hi Hky Hy) as (j & Ej & Hj1 & _ & Hj2).
  exists i, j. unfold index2. fold xhi in Ei. fold yhi in Ej. rewrite Ei, Ej. split; [reflexivity|].
  split; [exact Hi1|]. split; [exact Hj1|]. intros i' j' Hi' Hj'. split; [now apply Hi2|now apply Hj2].
Qed.
Print Assumptions C43_index_partial.

Theorem C43_index3_partial xlo ylo zlo incx incy incz kx ky kz x y z :
  0 < incx -> 0 < incy -> 0 < incz -> (0 <= kx)%Z -> (0 <= ky)%Z -> (0 <= kz)%Z ->
  let xhi := xlo + IZR kx * incx in let yhi := ylo + IZR ky * incy in let zhi := zlo + IZR kz * incz in
  let nx := steps xlo xhi incx in let ny := steps ylo yhi incy in let nz := steps zlo zhi incz in
  xlo <= x <= xhi -> ylo <= y <= yhi -> zlo <= z <= zhi ->
  exists i j k, index3 xlo xhi ylo yhi zlo zhi incx incy incz x y z = inl (i, j, k)
  /\ (0 <= i < nx)%Z /\ (0 <= j < ny)%Z /\ (0 <= k < nz)%Z
  /\ forall i' j' k', (0 <= i' < nx)%Z -> (0 <= j' < ny)%Z -> (0 <= k' < nz)%Z ->
     Rabs (x - axis_pos xlo xhi nx i) <= Rabs (x - axis_pos xlo xhi nx i')
     /\ Rabs (y - axis_pos ylo yhi ny j) <= Rabs (y - axis_pos ylo yhi ny j')
     /\ Rabs (z - axis_pos zlo zhi nz k) <= Rabs (z - axis_pos zlo zhi nz k').
Proof.
  intros Hix Hiy Hiz Hkx Hky Hkz xhi yhi zhi nx ny nz Hx Hy Hz.
  destruct (index3_nearest xlo incx kx x Hix Hkx Hx) as (i & Ei & Hi1 & _ & Hi2).
  destruct (index3_nearest ylo incy ky y Hiy Hky Hy) as (j & Ej & Hj1 & _ & Hj2).
  destruct (index3_nearest zlo incz kz z Hiz Hkz Hz) as (k & Ek & Hk1 & _ & Hk2).
  exists i, j, k. unfold index3. fold xhi in Ei. fold yhi in Ej. fold zhi in Ek. rewrite Ei, Ej, Ek. split; [reflexivity|].
  split; [exact Hi1|]. split; [exact Hj1|]. split; [exact Hk1|]. intros i' j' k' Hi' Hj' Hk'.
  split; [now apply Hi2|split; [now apply Hj2|now apply Hk2]].
Qed.
Print Assumptions C43_index3_partial.

(** C43.  For every extent: at most one index past the end and at most one
    grid spacing away. *)
Theorem C43_any_extent lo hi inc x : 0 < inc -> lo <= x <= hi ->
  let n := steps lo hi inc in
  exists i, index_axis lo hi inc x = inl i /\ (0 <= i <= n)%Z
  /\ ((1 < n)%Z -> Rabs (x - axis_pos lo hi n i) <= (hi - lo) / IZR (n - 1)).
Proof. exact (index_within_one lo hi inc x). Qed.
Print Assumptions C43_any_extent.

(** C43.  Grid points find themselves (used by RectGrid.indices). *)
Theorem C43_own_point lo hi inc i : 0 < inc -> lo <= hi ->
  let n := steps lo hi inc in
  Rabs ((hi - lo) / inc - IZR (n - 1)) < 1 / 2 -> (0 <= i < n)%Z ->
  index_axis lo hi inc (axis_pos lo hi n i) = inl i.
Proof. exact (index_own lo hi inc i). Qed.
Print Assumptions C43_own_point.

(** C43 fails for other extents: another point is nearer, or the index is
    outside the grid. *)
Theorem C43_nearest_refuted : exists lo hi inc x i,
  0 < inc /\ lo <= x <= hi /\ index_axis lo hi inc x = inl i /\ steps lo hi inc = 2%Z
  /\ i = 1%Z /\ Rabs (x - axis_pos lo hi 2 0) < Rabs (x - axis_pos lo hi 2 i).
Proof. exact index_not_nearest. Qed.
Print Assumptions C43_nearest_refuted.

Theorem C43_bounds_refuted : exists lo hi inc i,
  0 < inc /\ lo < hi /\ index_axis lo hi inc hi = inl i /\ i = steps lo hi inc.
Proof. exact index_out_of_bounds. Qed.
Print Assumptions C43_bounds_refuted.

Example C43_case : exists i j, index2 (-1) (-1 + IZR 20 * (1/10)) 0 (0 + IZR 5 * (1/10)) (1/10) (33/100) (1/4) = inl (i, j)
  /\ (0 <= i < steps (-1) (-1 + IZR 20 * (1/10)) (1/10))%Z.
Proof.
  destruct (C43_index_partial (-1) 0 (1/10) 20 5 (33/100) (1/4)) as (i & j & E & Hi & _); try lra; try lia.
  exists i, j. split; [exact E|exact Hi].
Qed.

(** C44.  RectSector, CircSector: with a point inside (or without
    default_nearest) exactly the points of the region, widened or narrowed by
    the tolerance; else exactly the point nearest to the centre. *)
Theorem C44_rect border tol default s pts : pts <> [] ->
  exists l, rect_contains border tol default s pts = inl l
  /\ sector_spec (in_rect border tol s)
       (fun p => Rsqr (px p - (x_min s + x_max s) / 2) + Rsqr (py p - (y_min s + y_max s) / 2)) default pts l.
Proof. exact (rect_contains_spec border tol default s pts). Qed.
Print Assumptions C44_rect.

Theorem C44_circ border tol default x y r pts : pts <> [] ->
  exists l, circ_contains border tol default x y r pts = inl l
  /\ sector_spec (fun p => Rsqr (px p - x) + Rsqr (py p - y) < Rsqr r + (if border then tol else - tol))
       (fun p => Rsqr (px p - x) + Rsqr (py p - y)) default pts l.
Proof. exact (circ_contains_spec border tol default x y r pts). Qed.
Print Assumptions C44_circ.

Theorem C44_limits_order border tol default a b c d pts :
  rect_contains border tol default {| x_min := b; x_max := a; y_min := d; y_max := c |} pts
  = rect_contains border tol default {| x_min := a; x_max := b; y_min := c; y_max := d |} pts.
Proof. exact (rect_contains_swap border tol default a b c d pts). Qed.
Print Assumptions C44_limits_order.

(** C44.  RectSector3D: the region is right; the nearest point is the one
    nearest in the xy plane. *)
Theorem C44_rect3d_partial border tol default s z1 z2 pts : pts <> [] ->
  exists l, rect3_contains border tol default s z1 z2 pts = inl l
  /\ sector_spec (fun p => in_rect border tol s p /\ in_interval border tol z1 z2 (pz p))
       (fun p => Rsqr (px p - (x_min s + x_max s) / 2) + Rsqr (py p - (y_min s + y_max s) / 2)) default pts l.
Proof. exact (rect3_contains_spec border tol default s z1 z2 pts). Qed.
Print Assumptions C44_rect3d_partial.

(** The point nearest to the centre of the cuboid is not the one marked. *)
Theorem C44_rect3d_nearest_refuted :
  let s := {| x_min := 0; x_max := 1; y_min := 0; y_max := 1 |} in
  exists pts l k,
  rect3_contains true 1e-12 true s 0 1 pts = inl l /\ (forall p, In p pts -> ~ (in_rect true 1e-12 s p /\ in_interval true 1e-12 0 1 (pz p)))
  /\ nth k l false = true
  /\ exists i, (i < length pts)%nat /\
     let d p := Rsqr (px p - 1/2) + Rsqr (py p - 1/2) + Rsqr (pz p - 1/2) in
     d (nth i pts (0, 0, 0)) < d (nth k pts (0, 0, 0)).
Proof.
  intros s. exists [(1/2, 1/2, 100); (1/2, 2, 1/2)].
  assert (Hout : forall p, In p [(1/2, 1/2, 100); (1/2, 2, 1/2)] -> ~ (in_rect true 1e-12 s p /\ in_interval true 1e-12 0 1 (pz p))).
  { intros p [<- | [<- | []]]; unfold in_rect, in_interval, px, py, pz, s; cbn [fst snd x_min x_max y_min y_max];
      rewrite !Rmin_left, !Rmax_right by lra; intros [[_ H1] H2]; lra. }
  destruct (C44_rect3d_partial true 1e-12 true s 0 1 [(1/2, 1/2, 100); (1/2, 2, 1/2)]) as (l & E & H1 & H2 & H3); [discriminate|].
  destruct (H3 Hout eq_refl) as (k & Hk & Hl & Hm). exists l, k. split; [exact E|]. split; [exact Hout|].
  split; [now apply Hl|]. exists 1%nat. split; [cbn; lia|].
  destruct k as [|[|k]]; [|exfalso|cbn in Hk; lia].
  - unfold px, py, pz, Rsqr. cbn. lra.
  - specialize (Hm 0%nat (0, 0, 0) ltac:(cbn; lia)). unfold px, py, s, Rsqr in Hm. cbn in Hm. lra.
Qed.
Print Assumptions C44_rect3d_nearest_refuted.

(** C44.  MultiSector is the union. *)
Theorem C44_multi n ls : (forall l, In l ls -> length l = n) ->
  exists r, multi_contains n (map inl ls) = inl r /\ length r = n
  /\ forall i, nth i r false = true <-> exists l, In l ls /\ nth i l false = true.
Proof. exact (multi_contains_spec n ls). Qed.
Print Assumptions C44_multi.

(** C44.  Grid.subdomain selects exactly the marked points. *)
Theorem C44_subdomain nx ny inds i j :
  In (i, j) (subdomain nx ny inds) <-> (i < nx)%nat /\ (j < ny)%nat /\ nth (i * ny + j) inds false = true.
Proof. exact (subdomain_spec nx ny inds i j). Qed.
Print Assumptions C44_subdomain.

(** C44.  PolySector with a strictly convex polygon (vertices in either
    order). *)
Theorem C44_poly_convex_partial s edges (border : bool) tol pts : s = 1 \/ s = -1 -> convex s edges -> 1e-12 <= tol ->
  exists l, poly_contains border tol false edges pts = inl l /\ length l = length pts
  /\ forall i o, (i < length pts)%nat -> (nth i l false = true <->
       if border then in_convex s edges (px (nth i pts o), py (nth i pts o)) \/ near_boundary edges tol (nth i pts o)
       else in_convex s edges (px (nth i pts o), py (nth i pts o))
            /\ forall k t, (k < length edges)%nat -> 0 <= t <= 1 ->
               1e-12 <= sqrt (dist2 (px (nth i pts o), py (nth i pts o)) (boundary_point edges k t))).
Proof. exact (poly_contains_convex s edges border tol pts). Qed.
Print Assumptions C44_poly_convex_partial.

(** PolySector and ConvexSector mark the first or second point whatever the
    distances, if no point is inside. *)
Theorem C44_poly_nearest_partial edges inds : existsb (fun b => b) inds = false -> (2 <= length inds)%nat ->
  exists k, (k < 2)%nat /\ or_wrong_nearest true edges inds = inl (set_true k inds).
Proof. exact (wrong_nearest edges inds). Qed.
Print Assumptions C44_poly_nearest_partial.

(** A triangulation of the triangle (0,0), (1,0), (0,1) has one simplex. *)
Definition triangle_simplex (p : p2) : Z :=
  if Rle_dec 0 (fst p) then if Rle_dec 0 (snd p) then if Rle_dec (fst p + snd p) 1 then 0%Z else (-1)%Z else (-1)%Z else (-1)%Z.

Theorem C44_poly_nearest_refuted :
  let edges := [(0, 0); (1, 0); (0, 1)] in
  exists pts l k, convex_contains triangle_simplex true true edges pts = inl l
  /\ (forall p, In p pts -> triangle_simplex (px p, py p) = (-1)%Z)
  /\ nth k l false = true
  /\ let d p := dist2 (px p, py p) (centroid edges) in
     exists i, (i < length pts)%nat /\ d (nth i pts (0, 0, 0)) < d (nth k pts (0, 0, 0)).
Proof.
  intros edges. set (pts := [(90, 90, 0); (80, 80, 0); (2, 2, 0)] : list pt).
  assert (Hout : forall p, In p pts -> triangle_simplex (px p, py p) = (-1)%Z).
  { intros p [<- | [<- | [<- | []]]]; unfold triangle_simplex, px, py; cbn [fst snd];
      repeat (match goal with |- context [Rle_dec ?a ?b] => destruct (Rle_dec a b) end); try reflexivity; exfalso; lra. }
  assert (Hin : map (fun p => in_hull triangle_simplex true (px p, py p)) pts = [false; false; false]).
  { unfold pts. cbn [map]. unfold in_hull. rewrite !Hout by (unfold pts; cbn; auto). reflexivity. }
  destruct (C44_poly_nearest_partial edges [false; false; false] eq_refl ltac:(cbn; lia)) as (k & Hk & E).
  exists pts, (set_true k [false; false; false]), k. split; [unfold convex_contains; now rewrite Hin|]. split; [exact Hout|].
  split; [rewrite set_true_nth by (cbn; lia); now rewrite Nat.eqb_refl|].
  intros d. exists 2%nat. split; [cbn; lia|]. unfold d, dist2, centroid, px, py, pts, edges.
  destruct k as [|[|k]]; [| |lia]; cbn; lra.
Qed.
Print Assumptions C44_poly_nearest_refuted.

(** ConvexSector without border loses the points of simplex number 0: of a
    triangle every point. *)
Theorem C44_convex_border_refuted : exists p : pt,
  0 < px p /\ 0 < py p /\ px p + py p < 1
  /\ convex_contains triangle_simplex true false [(0, 0); (1, 0); (0, 1)] [p] = inl [true]
  /\ convex_contains triangle_simplex false false [(0, 0); (1, 0); (0, 1)] [p] = inl [false].
Proof.
  exists (1/4, 1/4, 0). unfold px, py. cbn [fst snd]. split; [lra|]. split; [lra|]. split; [lra|].
  unfold convex_contains, or_wrong_nearest, in_hull. rewrite !andb_false_r. cbn [map px py fst snd].
  assert (E : triangle_simplex (1/4, 1/4) = 0%Z).
  { unfold triangle_simplex. cbn [fst snd]. repeat (match goal with |- context [Rle_dec ?a ?b] => destruct (Rle_dec a b) end); try reflexivity; exfalso; lra. }
  unfold px, py. cbn [fst snd]. rewrite E. split; reflexivity.
Qed.
Print Assumptions C44_convex_border_refuted.

Lemma square_convex : convex 1 [(0, 0); (1, 0); (1, 1); (0, 1)].
Proof.
  split; [cbn; lia|]. intros j k Hj Hk H1 H2. cbn [length] in *.
  destruct j as [|[|[|[|j]]]]; try lia; destruct k as [|[|[|[|k]]]]; try lia;
    cbn in H2; try lia; unfold vtx, area; cbn; lra.
Qed.

Example C44_case : exists l, poly_contains true 1e-12 false [(0, 0); (1, 0); (1, 1); (0, 1)] [(1/2, 1/2, 0); (3, 0, 0)] = inl l
  /\ nth 0 l false = true.
Proof.
  destruct (C44_poly_convex_partial 1 [(0, 0); (1, 0); (1, 1); (0, 1)] true 1e-12 [(1/2, 1/2, 0); (3, 0, 0)])
    as (l & E & _ & H); [now left|exact square_convex|lra|].
  exists l. split; [exact E|]. apply (H 0%nat (0, 0, 0)); [cbn; lia|]. left.
  intros j Hj. cbn in Hj. destruct j as [|[|[|[|j]]]]; try lia; unfold vtx, area, px, py; cbn; lra.
Qed.

Example C44_nearest_case : exists l, circ_contains true 1e-12 true 0 0 1 [(5, 0, 0); (3, 0, 0)] = inl l /\ length l = 2%nat.
Proof.
  destruct (C44_circ true 1e-12 true 0 0 1 [(5, 0, 0); (3, 0, 0)]) as (l & E & H & _); [discriminate|]. exists l. auto.
Qed.

(** C66.  Polygon.is_inside: for every closed polygon with distinct
    neighbouring vertices no exception, and up to sign the distance to the
    boundary (zero if less than smalld). *)
Theorem C66_distance v n p smalld : (0 < n)%nat -> v n = v 0%nat -> (forall i, (i < n)%nat -> v i <> v (S i)) ->
  exists r d, is_inside_fn v n smalld p = inl r /\ 0 <= d
    /\ (forall i s, (i < n)%nat -> 0 <= s <= 1 -> d <= sqrt (dist2 p (on_side (v i) (v (S i)) s)))
    /\ (exists i s, (i < n)%nat /\ 0 <= s <= 1 /\ d = sqrt (dist2 p (on_side (v i) (v (S i)) s)))
    /\ (smalld <= d -> Rabs r = d) /\ (d < smalld -> r = 0).
Proof. intros Hn Hc Hs. exact (is_inside_distance v n p Hn Hc Hs smalld). Qed.
Print Assumptions C66_distance.

(** C66.  For strictly convex polygons, in either orientation, the sign tells
    inside from outside. *)
Theorem C66_convex_partial s l smalld p : s = 1 \/ s = -1 -> convex s l ->
  exists poly d, mk_polygon l = inl poly /\ 0 <= d
  /\ (forall i t, (i < length l)%nat -> 0 <= t <= 1 -> d <= sqrt (dist2 p (boundary_point l i t)))
  /\ (exists i t, (i < length l)%nat /\ 0 <= t <= 1 /\ d = sqrt (dist2 p (boundary_point l i t)))
  /\ (in_convex s l p -> is_inside poly smalld p = inl (if Rlt_dec d smalld then 0 else d))
  /\ (~ in_convex s l p -> is_inside poly smalld p = inl (if Rlt_dec d smalld then 0 else - d)).
Proof. exact (polygon_convex s l smalld p). Qed.
Print Assumptions C66_convex_partial.

(** C66 fails if a vertex is given twice: (-1, -1) is far outside the triangle
    (0,0), (1,0), (0,1). *)
Theorem C66_duplicate_vertex_refuted : exists poly,
  mk_polygon [(0, 0); (0, 0); (1, 0); (0, 1)] = inl poly
  /\ is_inside poly 1e-12 (-1, -1) = inl (sqrt 2).
Proof. exact polygon_duplicate_vertex. Qed.
Print Assumptions C66_duplicate_vertex_refuted.

Example C66_case : exists poly d, mk_polygon [(0, 0); (1, 0); (1, 1); (0, 1)] = inl poly
  /\ is_inside poly 1e-12 (1/2, 1/2) = inl (if Rlt_dec d 1e-12 then 0 else d).
Proof.
  destruct (C66_convex_partial 1 [(0, 0); (1, 0); (1, 1); (0, 1)] 1e-12 (1/2, 1/2)) as (poly & d & E & _ & _ & _ & H & _);
    [now left|exact square_convex|].
  exists poly, d. split; [exact E|]. apply H. intros j Hj. cbn in Hj.
  destruct j as [|[|[|[|j]]]]; try lia; unfold vtx, area; cbn; lra.
Qed.
