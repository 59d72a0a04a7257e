(** Grids and sectors (/repo/acoular/grids.py:380-760, 1012-1083, 1086-1589):
    RectGrid and RectGrid3D axes, index and indices, Grid.subdomain, LineGrid,
    MergeGrid, the sectors.  Over the reals. *)
From Coq Require Import List Arith Lia ZArith Bool Reals Lra.
From Verif Require Import Stream Cplx Wav Deconv Polygon.
Import ListNotations.
Local Open Scope R_scope.

(** Python's round: to the nearest integer, ties to even. *)
Definition py_round (x : R) : Z :=
  let k := Int_part x in
  if Rlt_dec (x - IZR k) (1 / 2) then k
  else if Rlt_dec (1 / 2) (x - IZR k) then (k + 1)%Z
  else if Z.even k then k else (k + 1)%Z.

(** _get_nxsteps, _get_nysteps (grids.py:425-437) and, with the absolute value
    of the axis' increment, _get_n[xyz]steps of RectGrid3D (627-649). *)
Definition steps (lo hi inc : R) : Z :=
  let i := Rabs inc in
  if Req_EM_T i 0 then 1%Z else py_round ((Rabs (hi - lo) + i) / i).

(** numpy.mgrid[lo : hi : n * 1j], as used in _get_pos (grids.py:443-451,
    651-659): for n = 1 only lo. *)
Definition axis_pos (lo hi : R) (n : Z) (k : Z) : R :=
  if (n =? 1)%Z then lo else lo + IZR k * ((hi - lo) / IZR (n - 1)).

(** One axis of RectGrid.index, grids.py:474-481. *)
Definition index_axis (lo hi inc x : R) : Z + exn :=
  if Rlt_dec x lo then inr ValueError
  else if Rlt_dec hi x then inr ValueError
  else if Req_EM_T inc 0 then inr ZeroDivisionError
  else inl (trunc ((x - lo) / inc + 1 / 2)).

(** One axis of RectGrid3D.index, grids.py:697-715. *)
Definition index_axis3 (lo hi inc x : R) : Z + exn :=
  if Rlt_dec x lo then inr ValueError
  else if Rlt_dec hi x then inr ValueError
  else if Req_EM_T inc 0 then inr ZeroDivisionError
  else inl (py_round ((x - lo) / inc)).

Definition both {A B} (x : A + exn) (y : B + exn) : (A * B) + exn :=
  match x, y with inl a, inl b => inl (a, b) | inr e, _ => inr e | _, inr e => inr e end.

(** RectGrid.index (grids.py:453-482) and RectGrid3D.index (665-716).  If both
    axes fail the model reports the first axis' exception; all of them are
    ValueError before ZeroDivisionError in the code. *)
Definition index2 (x_min x_max y_min y_max inc x y : R) : (Z * Z) + exn :=
  both (index_axis x_min x_max inc x) (index_axis y_min y_max inc y).
Definition index3 (x_min x_max y_min y_max z_min z_max incx incy incz x y z : R) : (Z * Z * Z) + exn :=
  both (both (index_axis3 x_min x_max incx x) (index_axis3 y_min y_max incy y)) (index_axis3 z_min z_max incz z).

(* ------------------------------------------------------------------ *)

Lemma py_round_bounds x : IZR (py_round x) - 1 / 2 <= x <= IZR (py_round x) + 1 / 2.
Proof.
  unfold py_round. pose proof (Int_part_bounds x) as H. set (k := Int_part x) in *.
  repeat destruct (Rlt_dec _ _); try destruct (Z.even k); rewrite ?plus_IZR; lra.
Qed.

Lemma py_round_int k : py_round (IZR k) = k.
Proof.
  pose proof (py_round_bounds (IZR k)). set (r := py_round (IZR k)) in *.
  assert (r < k + 1)%Z by (apply lt_IZR; rewrite plus_IZR; lra).
  assert (k < r + 1)%Z by (apply lt_IZR; rewrite plus_IZR; lra). lia.
Qed.

Lemma steps_ge lo hi inc : (1 <= steps lo hi inc)%Z.
Proof.
  unfold steps. destruct (Req_EM_T _ 0) as [|Hi]; [lia|].
  assert (0 < Rabs inc) by (pose proof (Rabs_pos inc); lra).
  pose proof (py_round_bounds ((Rabs (hi - lo) + Rabs inc) / Rabs inc)) as [_ H2].
  assert (1 <= (Rabs (hi - lo) + Rabs inc) / Rabs inc).
  { replace ((Rabs (hi - lo) + Rabs inc) / Rabs inc) with (Rabs (hi - lo) / Rabs inc + 1) by (field; lra).
    assert (0 <= Rabs (hi - lo) / Rabs inc) by (apply Rmult_le_pos; [apply Rabs_pos|apply Rlt_le, Rinv_0_lt_compat; lra]). lra. }
  assert (0 < py_round ((Rabs (hi - lo) + Rabs inc) / Rabs inc))%Z by (apply lt_IZR; lra). lia.
Qed.

(** For a positive increment and ordered limits the number of steps is one
    more than the rounded quotient. *)
Lemma steps_bounds lo hi inc : 0 < inc -> lo <= hi ->
  IZR (steps lo hi inc - 1) - 1 / 2 <= (hi - lo) / inc <= IZR (steps lo hi inc - 1) + 1 / 2.
Proof.
  intros Hi Hl. unfold steps. rewrite (Rabs_pos_eq inc), (Rabs_pos_eq (hi - lo)) by lra.
  destruct (Req_EM_T inc 0); [lra|]. pose proof (py_round_bounds ((hi - lo + inc) / inc)) as H.
  replace ((hi - lo + inc) / inc) with ((hi - lo) / inc + 1) in * by (field; lra). rewrite minus_IZR. lra.
Qed.

Lemma steps_multiple lo inc k : 0 < inc -> (0 <= k)%Z -> steps lo (lo + IZR k * inc) inc = (k + 1)%Z.
Proof.
  intros Hi Hk. unfold steps. assert (0 <= IZR k) by now apply (IZR_le 0).
  assert (0 <= IZR k * inc) by (apply Rmult_le_pos; lra).
  rewrite (Rabs_pos_eq inc), (Rabs_pos_eq (lo + IZR k * inc - lo)) by lra.
  destruct (Req_EM_T inc 0); [lra|].
  replace ((lo + IZR k * inc - lo + inc) / inc) with (IZR (k + 1)) by (rewrite plus_IZR; field; lra).
  apply py_round_int.
Qed.

Lemma axis_multiple lo inc k i : (0 <= i <= k)%Z ->
  axis_pos lo (lo + IZR k * inc) (k + 1) i = lo + IZR i * inc.
Proof.
  intros Hi. unfold axis_pos. destruct (Z.eqb_spec (k + 1) 1) as [E|].
  - replace i with 0%Z by lia. lra.
  - replace (k + 1 - 1)%Z with k by lia. assert (IZR k <> 0) by (apply not_0_IZR; lia). field. assumption.
Qed.

(** If the extent is a multiple of the increment, index finds the nearest
    grid point. *)
Theorem index_nearest lo inc k x : 0 < inc -> (0 <= k)%Z -> lo <= x <= lo + IZR k * inc ->
  let hi := lo + IZR k * inc in let n := steps lo hi inc in
  exists i, index_axis lo hi inc x = inl i /\ (0 <= i < n)%Z
  /\ Rabs (x - axis_pos lo hi n i) <= inc / 2
  /\ forall i', (0 <= i' < n)%Z -> Rabs (x - axis_pos lo hi n i) <= Rabs (x - axis_pos lo hi n i').
Proof.
  intros Hi Hk Hx hi n. unfold n, hi. rewrite (steps_multiple lo inc k Hi Hk).
  unfold index_axis. destruct (Rlt_dec x lo); [lra|]. destruct (Rlt_dec _ x); [lra|].
  destruct (Req_EM_T inc 0); [lra|]. eexists. split; [reflexivity|].
  set (u := (x - lo) / inc).
  assert (Eu : x = lo + u * inc) by (unfold u; field; lra).
  assert (Hu : 0 <= u <= IZR k).
  { split; [apply (Rmult_le_reg_r inc)|apply (Rmult_le_reg_r inc)]; lra. }
  assert (Ht : IZR (trunc (u + 1 / 2)) <= u + 1 / 2 < IZR (trunc (u + 1 / 2)) + 1).
  { unfold trunc. destruct (Rle_dec 0 (u + 1 / 2)); [apply Int_part_bounds|lra]. }
  set (i := trunc (u + 1 / 2)) in *.
  assert (Hi0 : (0 <= i < k + 1)%Z).
  { split; [apply Z.lt_succ_r, lt_IZR; rewrite succ_IZR; lra|]. apply lt_IZR. rewrite plus_IZR. lra. }
  split; [assumption|].
  assert (Hd : forall j, (0 <= j < k + 1)%Z -> Rabs (x - axis_pos lo (lo + IZR k * inc) (k + 1) j) = Rabs (u - IZR j) * inc).
  { intros j Hj. rewrite axis_multiple by lia. rewrite Eu. replace (lo + u * inc - (lo + IZR j * inc)) with ((u - IZR j) * inc) by ring.
    rewrite Rabs_mult, (Rabs_pos_eq inc) by lra. reflexivity. }
  assert (Hb : Rabs (u - IZR i) <= 1 / 2) by (apply Rabs_le; lra).
  split.
  - rewrite Hd by assumption. replace (inc / 2) with (1 / 2 * inc) by lra. apply Rmult_le_compat_r; lra.
  - intros i' Hi'. rewrite !Hd by assumption. apply Rmult_le_compat_r; [lra|].
    destruct (Z.eq_dec i' i) as [->|Hne]; [lra|].
    assert (1 <= Rabs (IZR i' - IZR i)).
    { rewrite <- minus_IZR, <- abs_IZR. apply (IZR_le 1). lia. }
    pose proof (Rabs_triang (u - IZR i) (- (u - IZR i'))) as Q. rewrite Rabs_Ropp in Q.
    replace (u - IZR i + - (u - IZR i')) with (IZR i' - IZR i) in Q by ring. lra.
Qed.

Theorem index3_nearest lo inc k x : 0 < inc -> (0 <= k)%Z -> lo <= x <= lo + IZR k * inc ->
  let hi := lo + IZR k * inc in let n := steps lo hi inc in
  exists i, index_axis3 lo hi inc x = inl i /\ (0 <= i < n)%Z
  /\ Rabs (x - axis_pos lo hi n i) <= inc / 2
  /\ forall i', (0 <= i' < n)%Z -> Rabs (x - axis_pos lo hi n i) <= Rabs (x - axis_pos lo hi n i').
Proof.
  intros Hi Hk Hx hi n. unfold n, hi. rewrite (steps_multiple lo inc k Hi Hk).
  unfold index_axis3. destruct (Rlt_dec x lo); [lra|]. destruct (Rlt_dec _ x); [lra|].
  destruct (Req_EM_T inc 0); [lra|]. eexists. split; [reflexivity|].
  set (u := (x - lo) / inc).
  assert (Eu : x = lo + u * inc) by (unfold u; field; lra).
  assert (Hu : 0 <= u <= IZR k).
  { split; [apply (Rmult_le_reg_r inc)|apply (Rmult_le_reg_r inc)]; lra. }
  pose proof (py_round_bounds u) as Ht. set (i := py_round u) in *.
  assert (Hi0 : (0 <= i < k + 1)%Z).
  { split; [apply Z.lt_succ_r, lt_IZR; rewrite succ_IZR; lra|]. apply lt_IZR. rewrite plus_IZR. lra. }
  split; [assumption|].
  assert (Hd : forall j, (0 <= j < k + 1)%Z -> Rabs (x - axis_pos lo (lo + IZR k * inc) (k + 1) j) = Rabs (u - IZR j) * inc).
  { intros j Hj. rewrite axis_multiple by lia. rewrite Eu. replace (lo + u * inc - (lo + IZR j * inc)) with ((u - IZR j) * inc) by ring.
    rewrite Rabs_mult, (Rabs_pos_eq inc) by lra. reflexivity. }
  assert (Hb : Rabs (u - IZR i) <= 1 / 2) by (apply Rabs_le; lra).
  split.
  - rewrite Hd by assumption. replace (inc / 2) with (1 / 2 * inc) by lra. apply Rmult_le_compat_r; lra.
  - intros i' Hi'. rewrite !Hd by assumption. apply Rmult_le_compat_r; [lra|].
    destruct (Z.eq_dec i' i) as [->|Hne]; [lra|].
    assert (1 <= Rabs (IZR i' - IZR i)).
    { rewrite <- minus_IZR, <- abs_IZR. apply (IZR_le 1). lia. }
    pose proof (Rabs_triang (u - IZR i) (- (u - IZR i'))) as Q. rewrite Rabs_Ropp in Q.
    replace (u - IZR i + - (u - IZR i')) with (IZR i' - IZR i) in Q by ring. lra.
Qed.

(** For every extent and positive increment: the index is at most one past
    the end, and the axis point it stands for is at most one spacing from the
    query. *)
Theorem index_within_one lo hi inc x : 0 < inc -> lo <= x <= hi ->
  let n := steps lo hi inc in
  exists i, index_axis lo hi inc x = inl i /\ (0 <= i <= n)%Z
  /\ ((1 < n)%Z -> Rabs (x - axis_pos lo hi n i) <= (hi - lo) / IZR (n - 1)).
Proof.
  intros Hi Hx n. pose proof (steps_bounds lo hi inc Hi ltac:(lra)) as Hn. fold n in Hn.
  pose proof (steps_ge lo hi inc) as Hn1. fold n in Hn1.
  unfold index_axis. destruct (Rlt_dec x lo); [lra|]. destruct (Rlt_dec _ x); [lra|].
  destruct (Req_EM_T inc 0); [lra|]. eexists. split; [reflexivity|].
  set (u := (x - lo) / inc).
  assert (Eu : x = lo + u * inc) by (unfold u; field; lra).
  set (e := (hi - lo) / inc) in *. assert (Ee : hi = lo + e * inc) by (unfold e; field; lra).
  assert (Hu : 0 <= u <= e) by (split; [apply (Rmult_le_reg_r inc)|apply (Rmult_le_reg_r inc)]; lra).
  assert (Ht : IZR (trunc (u + 1 / 2)) <= u + 1 / 2 < IZR (trunc (u + 1 / 2)) + 1).
  { unfold trunc. destruct (Rle_dec 0 (u + 1 / 2)); [apply Int_part_bounds|lra]. }
  set (i := trunc (u + 1 / 2)) in *. rewrite minus_IZR in Hn.
  split.
  - split; [apply Z.lt_succ_r, lt_IZR; rewrite succ_IZR; lra|].
    apply le_IZR. lra.
  - intros Hn2. unfold axis_pos. destruct (Z.eqb_spec n 1); [lia|].
    set (m := IZR (n - 1)). assert (Hm : 1 <= m) by (apply (IZR_le 1); lia).
    assert (Em : IZR n = m + 1) by (unfold m; rewrite minus_IZR; lra).
    rewrite Em in Hn.
    (* everything times m / inc *)
    assert (Hdist : Rabs (u * m - IZR i * e) <= e).
    { apply Rabs_le. assert (Hid : u * m - IZR i * e = (u - IZR i) * e + u * (m - e)) by ring.
      assert (Ha1 : (u - IZR i) * e <= 1 / 2 * e) by (apply Rmult_le_compat_r; lra).
      assert (Ha2 : -(1 / 2) * e <= (u - IZR i) * e) by (apply Rmult_le_compat_r; lra).
      assert (Hb1 : u * (m - e) <= u * (1 / 2)) by (apply Rmult_le_compat_l; lra).
      assert (Hb2 : u * (-(1 / 2)) <= u * (m - e)) by (apply Rmult_le_compat_l; lra). lra. }
    assert (E : x - (lo + IZR i * ((hi - lo) / m)) = (u * m - IZR i * e) * (inc / m)) by (rewrite Eu, Ee; field; lra).
    rewrite E, Rabs_mult. assert (0 < inc / m) by (apply Rdiv_lt_0_compat; lra).
    rewrite (Rabs_pos_eq (inc / m)) by lra.
    apply Rle_trans with (e * (inc / m)); [apply Rmult_le_compat_r; lra|]. right. rewrite Ee. field. lra.
Qed.

(** A quarter of an increment more than a multiple: the nearest point is missed. *)
Theorem index_not_nearest : exists lo hi inc x i,
  0 < inc /\ lo <= x <= hi /\ index_axis lo hi inc x = inl i /\ steps lo hi inc = 2%Z
  /\ i = 1%Z /\ Rabs (x - axis_pos lo hi 2 0) < Rabs (x - axis_pos lo hi 2 i).
Proof.
  exists 0, (7 / 5), 1, (3 / 5), 1%Z. split; [lra|]. split; [lra|]. split; [|split; [|split; [reflexivity|]]].
  - unfold index_axis. destruct (Rlt_dec _ _); [lra|]. destruct (Rlt_dec _ _); [lra|]. destruct (Req_EM_T 1 0); [lra|].
    f_equal. unfold trunc. destruct (Rle_dec _ _); [|lra]. apply Int_part_unique. lra.
  - unfold steps. rewrite (Rabs_pos_eq 1), (Rabs_pos_eq (7 / 5 - 0)) by lra. destruct (Req_EM_T 1 0); [lra|].
    unfold py_round. rewrite (Int_part_unique _ 2) by lra. destruct (Rlt_dec _ _); [reflexivity|lra].
  - unfold axis_pos. cbn. rewrite (Rabs_pos_eq (3 / 5 - _)) by lra. rewrite Rabs_left by lra. lra.
Qed.

(** Half an increment more than an odd multiple: index is out of bounds at the
    upper limit, because Python rounds the number of steps to even. *)
Theorem index_out_of_bounds : exists lo hi inc i,
  0 < inc /\ lo < hi /\ index_axis lo hi inc hi = inl i /\ i = steps lo hi inc.
Proof.
  exists 0, (3 / 2), 1, 2%Z. split; [lra|]. split; [lra|]. split.
  - unfold index_axis. destruct (Rlt_dec _ _); [lra|]. destruct (Rlt_dec _ _); [lra|]. destruct (Req_EM_T 1 0); [lra|].
    f_equal. unfold trunc. destruct (Rle_dec _ _); [|lra]. apply Int_part_unique. lra.
  - unfold steps. rewrite (Rabs_pos_eq 1), (Rabs_pos_eq (3 / 2 - 0)) by lra. destruct (Req_EM_T 1 0); [lra|].
    unfold py_round. rewrite (Int_part_unique _ 2) by lra. destruct (Rlt_dec _ _); [lra|]. destruct (Rlt_dec _ _); [lra|]. reflexivity.
Qed.

(* ------------------------------------------------------------------ *)
(** Positions in C order: point number i * ny + j is at (i, j). *)

(** RectGrid._get_pos, grids.py:443-451; the z axis z : z + 0.1 has one point. *)
Definition pt := (R * R * R)%type.
Definition px (p : pt) := fst (fst p).
Definition py (p : pt) := snd (fst p).
Definition pz (p : pt) := snd p.

Definition rect_pos (x_min x_max y_min y_max z inc : R) : list pt :=
  let nx := steps x_min x_max inc in let ny := steps y_min y_max inc in
  flat_map (fun i => map (fun j => (axis_pos x_min x_max nx (Z.of_nat i), axis_pos y_min y_max ny (Z.of_nat j), z))
                         (seq 0 (Z.to_nat ny))) (seq 0 (Z.to_nat nx)).

Lemma flat_map_grid {A} (f : nat -> nat -> A) n m i j d : (i < n)%nat -> (j < m)%nat ->
  nth (i * m + j) (flat_map (fun i => map (f i) (seq 0 m)) (seq 0 n)) d = f i j.
Proof.
  intros Hi Hj.
  assert (Q : forall n a i, (i < n)%nat -> nth (i * m + j) (flat_map (fun i => map (f i) (seq 0 m)) (seq a n)) d = f (a + i)%nat j).
  { clear n i Hi. induction n as [|n IH]; intros a i Hi; [lia|]. cbn [seq flat_map].
    destruct i as [|i].
    - rewrite app_nth1 by (rewrite map_length, seq_length; lia).
      cbn [Nat.mul Nat.add]. rewrite (nth_indep _ d (f a 0%nat)) by (rewrite map_length, seq_length; lia).
      rewrite (map_nth (f a)), seq_nth by lia. f_equal; lia.
    - rewrite app_nth2 by (rewrite map_length, seq_length; cbn; lia). rewrite map_length, seq_length.
      replace (S i * m + j - m)%nat with (i * m + j)%nat by (cbn; lia). rewrite IH by lia. f_equal; lia. }
  rewrite Q by assumption. reflexivity.
Qed.

Lemma flat_map_grid_length {A} (f : nat -> nat -> A) n m :
  length (flat_map (fun i => map (f i) (seq 0 m)) (seq 0 n)) = (n * m)%nat.
Proof.
  assert (Q : forall n a, length (flat_map (fun i => map (f i) (seq 0 m)) (seq a n)) = (n * m)%nat); [|apply Q].
  clear n. induction n as [|n IH]; intros a; [reflexivity|].
  cbn [seq flat_map]. rewrite app_length, map_length, seq_length, IH. reflexivity.
Qed.

(* ------------------------------------------------------------------ *)
(** Sectors. *)

(** numpy.argmin of a non-empty array: the first minimum. *)
Definition argmin (d : list R) : nat := argmax (length d) (fun i => - nth i d 0).

(** inds[argmin(dr2)] = True. *)
Definition set_true (k : nat) (l : list bool) : list bool :=
  map (fun '(i, b) => if (i =? k)%nat then true else b) (combine (seq 0 (length l)) l).

(** The common end of the contains methods, e.g. grids.py:1246-1252. *)
Definition or_nearest (default : bool) (d2 : pt -> R) (pts : list pt) (inds : list bool) : list bool + exn :=
  if (negb (existsb (fun b => b) inds) && default)%bool then
    match pts with [] => inr ValueError | _ => inl (set_true (argmin (map d2 pts)) inds) end
  else inl inds.

Definition gt (a b : R) : bool := if Rlt_dec b a then true else false.

Record rect := { x_min : R; x_max : R; y_min : R; y_max : R }.

(** RectSector.contains, grids.py:1222-1252. *)
Definition rect_inside (border : bool) (tol : R) (s : rect) (p : pt) : bool :=
  let xmin := Rmin (x_min s) (x_max s) in let xmax := Rmax (x_min s) (x_max s) in
  let ymin := Rmin (y_min s) (y_max s) in let ymax := Rmax (y_min s) (y_max s) in
  if border then
    (gt (px p - xmin) (- tol) && gt tol (px p - xmax) && gt (py p - ymin) (- tol) && gt tol (py p - ymax))%bool
  else
    (gt (px p - xmin) tol && gt (- tol) (px p - xmax) && gt (py p - ymin) tol && gt (- tol) (py p - ymax))%bool.

Definition rect_d2 (s : rect) (p : pt) : R :=
  let x := (Rmin (x_min s) (x_max s) + Rmax (x_min s) (x_max s)) / 2 in
  let y := (Rmin (y_min s) (y_max s) + Rmax (y_min s) (y_max s)) / 2 in
  (px p - x) * (px p - x) + (py p - y) * (py p - y).

Definition rect_contains border tol default (s : rect) (pts : list pt) : list bool + exn :=
  or_nearest default (rect_d2 s) pts (map (rect_inside border tol s) pts).

(** RectSector3D.contains, grids.py:1305-1340: the distance ignores z. *)
Definition rect3_inside border tol (s : rect) (z_min z_max : R) (p : pt) : bool :=
  let zmin := Rmin z_min z_max in let zmax := Rmax z_min z_max in
  (rect_inside border tol s p &&
   if border then gt (pz p - zmin) (- tol) && gt tol (pz p - zmax)
   else gt (pz p - zmin) tol && gt (- tol) (pz p - zmax))%bool.

Definition rect3_contains border tol default s z_min z_max (pts : list pt) : list bool + exn :=
  or_nearest default (rect_d2 s) pts (map (rect3_inside border tol s z_min z_max) pts).

(** CircSector.contains, grids.py:1400-1408. *)
Definition circ_d2 (x y : R) (p : pt) : R := (px p - x) * (px p - x) + (py p - y) * (py p - y).
Definition circ_contains (border : bool) tol default (x y r : R) (pts : list pt) : list bool + exn :=
  or_nearest default (circ_d2 x y) pts
    (map (fun p => gt (if border then tol else - tol) (circ_d2 x y p - r * r)) pts).

(** PolySector.contains, grids.py:1464-1472.  The default position is the
    smaller coordinate of the centroid: index 0 or 1. *)
Definition centroid (l : list p2) : p2 :=
  (fold_right (fun v acc => fst v + acc) 0 l / INR (length l), fold_right (fun v acc => snd v + acc) 0 l / INR (length l)).

Definition or_wrong_nearest (default : bool) (edges : list p2) (inds : list bool) : list bool + exn :=
  if (negb (existsb (fun b => b) inds) && default)%bool then
    let k := argmin [fst (centroid edges); snd (centroid edges)] in
    if (k <? length inds)%nat then inl (set_true k inds) else inr IndexError
  else inl inds.

Definition poly_contains (border : bool) tol default (edges : list p2) (pts : list pt) : list bool + exn :=
  match mk_polygon edges with
  | inr e => inr e
  | inl poly =>
      let inside := fun p => match is_inside poly 1e-12 (px p, py p) with
                             | inl d => if border then (if Rle_dec (- tol) d then true else false) else gt d 0
                             | inr _ => false
                             end in
      match existsb (fun p => match is_inside poly 1e-12 (px p, py p) with inr _ => true | inl _ => false end) pts with
      | true => inr IndexError
      | false => or_wrong_nearest default edges (map inside pts)
      end
  end.

(** in_hull (grids.py:85-134) and ConvexSector.contains (1524-1530), given
    scipy's find_simplex: the number of a simplex of the triangulation that
    contains the point, -1 if there is none. *)
Definition in_hull (find_simplex : p2 -> Z) (border : bool) (p : p2) : bool :=
  if border then (0 <=? find_simplex p)%Z else (0 <? find_simplex p)%Z.
Definition convex_contains find_simplex (border : bool) default (edges : list p2) (pts : list pt) : list bool + exn :=
  or_wrong_nearest default edges (map (fun p => in_hull find_simplex border (px p, py p)) pts).

(** MultiSector.contains, grids.py:1583-1589: the sectors' results. *)
Fixpoint multi_contains (n : nat) (rs : list (list bool + exn)) : list bool + exn :=
  match rs with
  | [] => inl (repeat false n)
  | inr e :: _ => inr e
  | inl l :: rs' =>
      match multi_contains n rs' with
      | inl acc => inl (map (fun '(a, b) => (a || b)%bool) (combine l acc))
      | inr e => inr e
      end
  end.

(* ------------------------------------------------------------------ *)

(** What a sector with region [inside], centre distance [d2] should return. *)
Definition sector_spec (inside : pt -> Prop) (d2 : pt -> R) (default : bool) (pts : list pt) (l : list bool) : Prop :=
  length l = length pts
  /\ ((exists p, In p pts /\ inside p) \/ default = false ->
      forall i o, (i < length pts)%nat -> (nth i l false = true <-> inside (nth i pts o)))
  /\ ((forall p, In p pts -> ~ inside p) -> default = true ->
      exists k, (k < length pts)%nat /\ (forall i, nth i l false = true <-> i = k)
      /\ forall i o, (i < length pts)%nat -> d2 (nth k pts o) <= d2 (nth i pts o)).

Lemma argmin_spec d : d <> [] -> (argmin d < length d)%nat
  /\ forall i, (i < length d)%nat -> nth (argmin d) d 0 <= nth i d 0.
Proof.
  intros H. assert (0 < length d)%nat by (destruct d; [contradiction|cbn; lia]).
  destruct (argmax_spec (length d) (fun i => - nth i d 0) H0) as [H1 H2]. split; [exact H1|].
  intros i Hi. specialize (H2 i Hi). cbv beta in H2. fold (argmin d) in H2. lra.
Qed.

Lemma set_true_length k l : length (set_true k l) = length l.
Proof. unfold set_true. rewrite map_length, combine_length, seq_length. lia. Qed.

Lemma set_true_nth k l i : (k < length l)%nat -> nth i (set_true k l) false = if (i =? k)%nat then true else nth i l false.
Proof.
  intros Hk. unfold set_true. destruct (Nat.lt_ge_cases i (length l)) as [Hi|Hi].
  - match goal with |- context [map ?g _] => set (f := g) end.
    rewrite (nth_indep _ false (f (0%nat, false))) by (rewrite map_length, combine_length, seq_length; lia).
    rewrite (map_nth f), combine_nth by (rewrite seq_length; reflexivity). rewrite seq_nth by lia. reflexivity.
  - rewrite nth_overflow by (rewrite map_length, combine_length, seq_length; lia).
    rewrite nth_overflow by lia. destruct (Nat.eqb_spec i k); [lia|reflexivity].
Qed.

Theorem or_nearest_spec (inside : pt -> Prop) (f : pt -> bool) d2 default pts :
  (forall p, f p = true <-> inside p) -> pts <> [] ->
  exists l, or_nearest default d2 pts (map f pts) = inl l /\ sector_spec inside d2 default pts l.
Proof.
  intros Hf Hne. unfold or_nearest.
  assert (Hnth : forall i o, (i < length pts)%nat -> nth i (map f pts) false = f (nth i pts o)).
  { intros i o Hi. rewrite (nth_indep _ false (f o)) by (rewrite map_length; lia). apply map_nth. }
  destruct (existsb (fun b => b) (map f pts)) eqn:Ex.
  - cbn [negb andb]. eexists. split; [reflexivity|]. split; [apply map_length|]. split.
    + intros _ i o Hi. rewrite (Hnth i o Hi). apply Hf.
    + intros Hno. exfalso. apply existsb_exists in Ex. destruct Ex as (b & Hb & ->). apply in_map_iff in Hb.
      destruct Hb as (p & E & Hp). apply Hf in E. exact (Hno p Hp E).
  - cbn [negb andb]. assert (Hno : forall p, In p pts -> ~ inside p).
    { intros p Hp Hi. apply Hf in Hi.
      assert (existsb (fun b => b) (map f pts) = true); [|congruence].
      apply existsb_exists. exists true. split; [|reflexivity]. rewrite <- Hi. now apply in_map. }
    destruct default.
    + destruct pts as [|p0 pts0] eqn:Ep; [contradiction|]. rewrite <- Ep in *. eexists. split; [reflexivity|].
      destruct (argmin_spec (map d2 pts)) as [H1 H2]; [rewrite Ep; discriminate|]. rewrite map_length in H1, H2.
      set (k := argmin (map d2 pts)) in *. split; [rewrite set_true_length; apply map_length|]. split.
      * intros [(p & Hp & Hi)|]; [|discriminate]. exfalso. exact (Hno p Hp Hi).
      * intros _ _. exists k. split; [assumption|]. split.
        -- intros i. rewrite set_true_nth by (rewrite map_length; assumption).
           destruct (Nat.eqb_spec i k); [intuition|]. split; [|contradiction]. intros Hi. exfalso.
           destruct (Nat.lt_ge_cases i (length pts)) as [Hl|Hl].
           ++ rewrite (Hnth i p0 Hl) in Hi. apply Hf in Hi. exact (Hno _ (nth_In pts p0 Hl) Hi).
           ++ rewrite nth_overflow in Hi by (rewrite map_length; lia). discriminate.
        -- intros i o Hi. specialize (H2 i Hi).
           rewrite (nth_indep _ 0 (d2 o)), map_nth in H2 by (rewrite map_length; lia).
           rewrite (nth_indep _ 0 (d2 o)), map_nth in H2 by (rewrite map_length; lia). exact H2.
    + eexists. split; [reflexivity|]. split; [apply map_length|]. split.
      * intros _ i o Hi. rewrite (Hnth i o Hi). apply Hf.
      * discriminate.
Qed.

Lemma gt_spec a b : gt a b = true <-> b < a.
Proof. unfold gt. destruct (Rlt_dec b a); split; intros; try lra; try reflexivity; discriminate. Qed.

(** The regions, widened by tol with the border and narrowed without. *)
Definition in_interval (border : bool) tol (a b x : R) : Prop :=
  let w := if border then tol else - tol in Rmin a b - w < x < Rmax a b + w.

Lemma gt_interval border tol a b x :
  (if border : bool then gt (x - Rmin a b) (- tol) && gt tol (x - Rmax a b)
   else gt (x - Rmin a b) tol && gt (- tol) (x - Rmax a b))%bool = true <-> in_interval border tol a b x.
Proof. unfold in_interval. destruct border; rewrite andb_true_iff, !gt_spec; lra. Qed.

Lemma rect_inside_spec border tol s p : rect_inside border tol s p = true <->
  in_interval border tol (x_min s) (x_max s) (px p) /\ in_interval border tol (y_min s) (y_max s) (py p).
Proof.
  unfold rect_inside, in_interval. destruct border; rewrite !andb_true_iff, !gt_spec; lra.
Qed.

Definition in_rect border tol (s : rect) (p : pt) : Prop :=
  in_interval border tol (x_min s) (x_max s) (px p) /\ in_interval border tol (y_min s) (y_max s) (py p).
Definition rect_centre_d2 (s : rect) (p : pt) : R :=
  Rsqr (px p - (x_min s + x_max s) / 2) + Rsqr (py p - (y_min s + y_max s) / 2).

Lemma min_max_sum a b : Rmin a b + Rmax a b = a + b.
Proof. unfold Rmin, Rmax. destruct (Rle_dec a b); lra. Qed.

Lemma rect_d2_eq s p : rect_d2 s p = rect_centre_d2 s p.
Proof. unfold rect_d2, rect_centre_d2. rewrite !min_max_sum. reflexivity. Qed.

Lemma sector_spec_ext inside d2 d2' default pts l : (forall p, d2 p = d2' p) ->
  sector_spec inside d2 default pts l -> sector_spec inside d2' default pts l.
Proof.
  intros E (H1 & H2 & H3). split; [assumption|]. split; [assumption|].
  intros Hn Hd. destruct (H3 Hn Hd) as (k & Hk & Hl & Hm). exists k. split; [assumption|]. split; [assumption|].
  intros i o Hi. rewrite <- !E. now apply Hm.
Qed.

Theorem rect_contains_spec border tol default s pts : pts <> [] ->
  exists l, rect_contains border tol default s pts = inl l
  /\ sector_spec (in_rect border tol s) (rect_centre_d2 s) default pts l.
Proof.
  intros Hne. destruct (or_nearest_spec (in_rect border tol s) (rect_inside border tol s) (rect_d2 s) default pts
    (rect_inside_spec border tol s) Hne) as (l & E & H).
  exists l. split; [exact E|]. apply (sector_spec_ext _ _ _ _ _ _ (rect_d2_eq s) H).
Qed.

Theorem rect3_contains_spec border tol default s z1 z2 pts : pts <> [] ->
  exists l, rect3_contains border tol default s z1 z2 pts = inl l
  /\ sector_spec (fun p => in_rect border tol s p /\ in_interval border tol z1 z2 (pz p)) (rect_centre_d2 s) default pts l.
Proof.
  intros Hne. destruct (or_nearest_spec (fun p => in_rect border tol s p /\ in_interval border tol z1 z2 (pz p))
    (rect3_inside border tol s z1 z2) (rect_d2 s) default pts) as (l & E & H); [|assumption|].
  - intros p. unfold rect3_inside. rewrite andb_true_iff, rect_inside_spec, gt_interval. reflexivity.
  - exists l. split; [exact E|]. apply (sector_spec_ext _ _ _ _ _ _ (rect_d2_eq s) H).
Qed.

Theorem circ_contains_spec border tol default x y r pts : pts <> [] ->
  exists l, circ_contains border tol default x y r pts = inl l
  /\ sector_spec (fun p => Rsqr (px p - x) + Rsqr (py p - y) < Rsqr r + (if border then tol else - tol))
       (fun p => Rsqr (px p - x) + Rsqr (py p - y)) default pts l.
Proof.
  intros Hne. apply (or_nearest_spec _ (fun p => gt (if border then tol else - tol) (circ_d2 x y p - r * r))
    (circ_d2 x y) default pts); [|assumption].
  intros p. rewrite gt_spec. unfold circ_d2, Rsqr. destruct border; lra.
Qed.

(** The order of the limits does not matter. *)
Theorem rect_contains_swap border tol default a b c d pts :
  rect_contains border tol default {| x_min := b; x_max := a; y_min := d; y_max := c |} pts
  = rect_contains border tol default {| x_min := a; x_max := b; y_min := c; y_max := d |} pts.
Proof.
  unfold rect_contains, rect_inside, rect_d2. cbn. rewrite (Rmin_comm b a), (Rmin_comm d c), (Rmax_comm b a), (Rmax_comm d c). reflexivity.
Qed.

(** MultiSector is the union. *)
Theorem multi_contains_spec n ls : (forall l, In l ls -> length l = n) ->
  exists r, multi_contains n (map inl ls) = inl r /\ length r = n
  /\ forall i, nth i r false = true <-> exists l, In l ls /\ nth i l false = true.
Proof.
  induction ls as [|l ls IH]; intros Hl.
  - exists (repeat false n). split; [reflexivity|]. split; [apply repeat_length|]. intros i.
    replace (nth i (repeat false n) false) with false by (symmetry; destruct (nth_in_or_default i (repeat false n) false) as [H|H]; [now apply repeat_spec in H|exact H]).
    split; [discriminate|intros (l & [] & _)].
  - destruct IH as (r & E & Hr & H); [intros; apply Hl; now right|]. cbn [map multi_contains]. rewrite E.
    eexists. split; [reflexivity|]. specialize (Hl l (or_introl eq_refl)). split; [rewrite map_length, combine_length; lia|].
    intros i. assert (En : nth i (map (fun '(a, b) => (a || b)%bool) (combine l r)) false = (nth i l false || nth i r false)%bool).
    { change false with ((fun '(a, b) => (a || b)%bool) (false, false)) at 1. rewrite map_nth, combine_nth by lia. reflexivity. }
    rewrite En, orb_true_iff, H. split.
    + intros [Hi|(l' & Hl' & Hi)]; [exists l; split; [now left|assumption]|exists l'; split; [now right|assumption]].
    + intros (l' & [<- | Hl'] & Hi); [now left|right; exists l'; auto].
Qed.

(** index of a grid point is that point, unless the extent is exactly half an
    increment off a multiple. *)
Theorem index_own lo hi inc i : 0 < inc -> lo <= hi ->
  let n := steps lo hi inc in
  Rabs ((hi - lo) / inc - IZR (n - 1)) < 1 / 2 -> (0 <= i < n)%Z ->
  index_axis lo hi inc (axis_pos lo hi n i) = inl i.
Proof.
  intros Hi Hl n Hd Hin. pose proof (steps_ge lo hi inc) as Hn1. fold n in Hn1.
  apply Rabs_def2 in Hd.
  set (e := (hi - lo) / inc) in *. assert (Ee : hi = lo + e * inc) by (unfold e; field; lra).
  assert (He : 0 <= e) by (apply (Rmult_le_reg_r inc); lra).
  assert (Hp : exists u, axis_pos lo hi n i = lo + u * inc /\ 0 <= u <= e /\ IZR i <= u + 1 / 2 < IZR i + 1).
  { unfold axis_pos. destruct (Z.eqb_spec n 1) as [En|].
    - exists 0. assert (i = 0)%Z as -> by lia. lra.
    - set (m := IZR (n - 1)) in *. assert (Hm : 1 <= m) by (apply (IZR_le 1); lia).
      assert (Him : 0 <= IZR i <= m) by (split; [apply (IZR_le 0)|apply IZR_le]; lia).
      assert (Hq : 0 <= IZR i / m <= 1).
      { split; [apply Rmult_le_pos; [lra|apply Rlt_le, Rinv_0_lt_compat; lra]|].
        apply (Rmult_le_reg_r m); [lra|]. replace (IZR i / m * m) with (IZR i) by (field; lra). lra. }
      exists (IZR i / m * e). split; [rewrite Ee; field; lra|]. split.
      + split; [apply Rmult_le_pos; lra|]. rewrite <- (Rmult_1_l e) at 2. apply Rmult_le_compat_r; lra.
      + assert (E : IZR i / m * e = IZR i + IZR i / m * (e - m)) by (field; lra). rewrite E.
        assert (- (1 / 2) <= IZR i / m * (e - m) < 1 / 2); [|lra]. set (q := IZR i / m) in *. clearbody q.
        split.
        * assert (q * (-(1/2)) <= q * (e - m)) by (apply Rmult_le_compat_l; lra). lra.
        * destruct (Rle_dec (e - m) 0).
          -- assert (q * (e - m) <= q * 0) by (apply Rmult_le_compat_l; lra). lra.
          -- assert (q * (e - m) <= 1 * (e - m)) by (apply Rmult_le_compat_r; lra). lra. }
  destruct Hp as (u & Eu & Hu & Hui). rewrite Eu. unfold index_axis.
  assert (0 <= u * inc) by (apply Rmult_le_pos; lra). assert (u * inc <= e * inc) by (apply Rmult_le_compat_r; lra).
  destruct (Rlt_dec _ lo); [lra|]. destruct (Rlt_dec hi _); [lra|]. destruct (Req_EM_T inc 0); [lra|].
  f_equal. replace ((lo + u * inc - lo) / inc) with u by (field; lra).
  unfold trunc. destruct (Rle_dec 0 (u + 1 / 2)); [|lra]. apply Int_part_unique. lra.
Qed.

(** Grid.subdomain, grids.py:351-376: numpy.where of the grid-shaped truth
    array, for a two-dimensional shape. *)
Definition subdomain (nx ny : nat) (inds : list bool) : list (nat * nat) :=
  filter (fun '(i, j) => nth (i * ny + j) inds false)
         (flat_map (fun i => map (fun j => (i, j)) (seq 0 ny)) (seq 0 nx)).

Theorem subdomain_spec nx ny inds i j :
  In (i, j) (subdomain nx ny inds) <-> (i < nx)%nat /\ (j < ny)%nat /\ nth (i * ny + j) inds false = true.
Proof.
  unfold subdomain. rewrite filter_In, in_flat_map. split.
  - intros [(i' & Hi & Hj) H]. apply in_map_iff in Hj. destruct Hj as (j' & E & Hj). injection E as -> ->.
    apply in_seq in Hi. apply in_seq in Hj. repeat split; try lia. exact H.
  - intros (Hi & Hj & H). split; [|exact H]. exists i. split; [apply in_seq; lia|]. apply in_map_iff. exists j.
    split; [reflexivity|apply in_seq; lia].
Qed.

(** PolySector with a strictly convex polygon. *)
Lemma existsb_false {A} (f : A -> bool) l : (forall x, In x l -> f x = false) -> existsb f l = false.
Proof. induction l as [|a l IH]; intros H; [reflexivity|]. cbn. rewrite H by now left. apply IH. intros; apply H; now right. Qed.

Definition near_boundary (edges : list p2) (tol : R) (p : pt) : Prop :=
  exists i t, (i < length edges)%nat /\ 0 <= t <= 1 /\ sqrt (dist2 (px p, py p) (boundary_point edges i t)) <= tol.

Lemma near_boundary_iff edges d tol p : 
  (forall i t, (i < length edges)%nat -> 0 <= t <= 1 -> d <= sqrt (dist2 (px p, py p) (boundary_point edges i t))) ->
  (exists i t, (i < length edges)%nat /\ 0 <= t <= 1 /\ d = sqrt (dist2 (px p, py p) (boundary_point edges i t))) ->
  near_boundary edges tol p <-> d <= tol.
Proof.
  intros H1 (i0 & t0 & Hi0 & Ht0 & E). split.
  - intros (i & t & Hi & Ht & Hd). specialize (H1 i t Hi Ht). lra.
  - intros Hd. exists i0, t0. repeat split; try assumption; lra.
Qed.

Theorem poly_contains_convex s edges (border : bool) tol pts : s = 1 \/ s = -1 -> convex s edges -> 1e-12 <= tol ->
  exists l, poly_contains border tol false edges pts = inl l /\ length l = length pts
  /\ forall i o, (i < length pts)%nat -> (nth i l false = true <->
       if border then in_convex s edges (px (nth i pts o), py (nth i pts o)) \/ near_boundary edges tol (nth i pts o)
       else in_convex s edges (px (nth i pts o), py (nth i pts o))
            /\ forall k t, (k < length edges)%nat -> 0 <= t <= 1 ->
               1e-12 <= sqrt (dist2 (px (nth i pts o), py (nth i pts o)) (boundary_point edges k t))).
Proof.
  intros Hs Hc Htol.
  assert (Hpoly : exists poly, mk_polygon edges = inl poly).
  { destruct (polygon_convex s edges 0 (0, 0) Hs Hc) as (poly & d & E & _). now exists poly. }
  destruct Hpoly as [poly Epoly].
  assert (Hp : forall p : pt, exists d,
     (forall i t, (i < length edges)%nat -> 0 <= t <= 1 -> d <= sqrt (dist2 (px p, py p) (boundary_point edges i t)))
     /\ (exists i t, (i < length edges)%nat /\ 0 <= t <= 1 /\ d = sqrt (dist2 (px p, py p) (boundary_point edges i t)))
     /\ 0 <= d
     /\ (in_convex s edges (px p, py p) -> is_inside poly 1e-12 (px p, py p) = inl (if Rlt_dec d 1e-12 then 0 else d))
     /\ (~ in_convex s edges (px p, py p) -> is_inside poly 1e-12 (px p, py p) = inl (if Rlt_dec d 1e-12 then 0 else - d))).
  { intros p. destruct (polygon_convex s edges 1e-12 (px p, py p) Hs Hc) as (poly' & d & E & Hd & H1 & H2 & H3 & H4).
    rewrite Epoly in E. injection E as <-. exists d. repeat split; assumption. }
  unfold poly_contains. rewrite Epoly. rewrite existsb_false.
  2:{ intros p _. destruct (Hp p) as (d & _ & _ & _ & H3 & H4).
      destruct (Classical_Prop.classic (in_convex s edges (px p, py p))) as [Hi|Hi]; [rewrite H3|rewrite H4]; auto. }
  unfold or_wrong_nearest. rewrite andb_false_r. eexists. split; [reflexivity|]. split; [apply map_length|].
  intros i o Hi.
  match goal with |- context [map ?g pts] => set (f := g) end.
  rewrite (nth_indep _ false (f o)), (map_nth f) by (rewrite map_length; assumption).
  set (p := nth i pts o). unfold f. destruct (Hp p) as (d & H1 & H2 & Hd & H3 & H4).
  destruct border.
  - rewrite (near_boundary_iff edges d tol p H1 H2).
    destruct (Classical_Prop.classic (in_convex s edges (px p, py p))) as [Hin|Hout].
    + rewrite H3 by assumption. destruct (Rlt_dec d 1e-12); destruct (Rle_dec _ _); intuition lra.
    + rewrite H4 by assumption. destruct (Rlt_dec d 1e-12); destruct (Rle_dec _ _); intuition; try lra; try discriminate.
  - assert (Hb : (forall k t, (k < length edges)%nat -> 0 <= t <= 1 -> 1e-12 <= sqrt (dist2 (px p, py p) (boundary_point edges k t))) <-> 1e-12 <= d).
    { split.
      - intros H. destruct H2 as (k & t & Hk & Ht & ->). now apply H.
      - intros H k t Hk Ht. specialize (H1 k t Hk Ht). lra. }
    rewrite Hb. destruct (Classical_Prop.classic (in_convex s edges (px p, py p))) as [Hin|Hout].
    + rewrite H3 by assumption. rewrite gt_spec. destruct (Rlt_dec d 1e-12); intuition lra.
    + rewrite H4 by assumption. rewrite gt_spec. destruct (Rlt_dec d 1e-12); intuition lra.
Qed.

(** default_nearest of PolySector and ConvexSector: the first or second point. *)
Theorem wrong_nearest edges inds : existsb (fun b => b) inds = false -> (2 <= length inds)%nat ->
  exists k, (k < 2)%nat /\ or_wrong_nearest true edges inds = inl (set_true k inds).
Proof.
  intros H Hl. unfold or_wrong_nearest. rewrite H. cbn [negb andb].
  destruct (argmin_spec [fst (centroid edges); snd (centroid edges)]) as [Hk _]; [discriminate|]. cbn [length] in Hk.
  set (k := argmin _) in *. exists k. split; [assumption|]. destruct (Nat.ltb_spec k (length inds)); [reflexivity|lia].
Qed.
