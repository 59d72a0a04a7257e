(** Polygons: _det and class Polygon (/repo/acoular/grids.py:137-301) over the
    reals, for one query point (NumPy treats the points of an array alike). *)
From Coq Require Import List Arith Lia ZArith Bool Reals Lra.
From Verif Require Import Stream Cplx.
Import ListNotations.
Local Open Scope R_scope.

Definition p2 := (R * R)%type.

(** Twice the signed area of the triangle a b c, positive if anti-clockwise. *)
Definition area (a b c : p2) : R :=
  (fst b - fst a) * (snd c - snd a) - (snd b - snd a) * (fst c - fst a).
Definition dist2 (a b : p2) : R := (fst a - fst b) * (fst a - fst b) + (snd a - snd b) * (snd a - snd b).

(** _det, grids.py:137-142: sum over the vertices of y x_prev - x y_prev, the
    vertex before the first being the last. *)
Fixpoint det_from (prev : p2) (l : list p2) : R :=
  match l with
  | [] => 0
  | v :: l' => snd v * fst prev - fst v * snd prev + det_from v l'
  end.
Definition det (l : list p2) : R := det_from (last l (0, 0)) l.

(** Polygon.__init__, grids.py:171-187, without the check that x and y have
    the same length: closes the polygon and makes it anti-clockwise. *)
Definition mk_polygon (l : list p2) : list p2 + exn :=
  match l with
  | [] => inr IndexError
  | v :: _ =>
      let c := if Req_EM_T (fst v) (fst (last l v)) then
                 if Req_EM_T (snd v) (snd (last l v)) then l else l ++ [v]
               else l ++ [v] in
      inl (if Rlt_dec (det c) 0 then rev c else c)
  end.

(** grids.py:245-281, one side from a to b: the recorded squared distance and
    snear, None if the distance stays infinite.  For a = b NumPy's t is NaN and
    every comparison is false. *)
Definition side (a b p : p2) : option (R * bool) :=
  let x21 := fst b - fst a in let y21 := snd b - snd a in
  let x1p := fst a - fst p in let y1p := snd a - snd p in
  let l2 := x21 * x21 + y21 * y21 in
  if Req_EM_T l2 0 then None
  else
    let t := - (x1p * x21 + y1p * y21) / l2 in
    if Rlt_dec t 0 then Some (x1p * x1p + y1p * y1p, false)
    else if Rle_dec t 1 then
      Some ((x1p + t * x21) * (x1p + t * x21) + (y1p + t * y21) * (y1p + t * y21), true)
    else None.

Definition best := option (R * nat * bool).

(** mask = d < mindst, grids.py:276-281. *)
Definition improve (v : nat -> p2) (p : p2) (b : best) (i : nat) : best :=
  match side (v i) (v (S i)) p with
  | None => b
  | Some (d, near) =>
      match b with
      | Some (m, _, _) => if Rlt_dec d m then Some (d, i, near) else b
      | None => Some (d, i, near)
      end
  end.

Definition scan (v : nat -> p2) (n : nat) (p : p2) : best := fold_left (improve v p) (seq 0 n) None.

(** Polygon.is_inside, grids.py:189-301, for the closed vertex list v 0 ... v n;
    copysign with an area of zero is taken as positive. *)
Definition is_inside_fn (v : nat -> p2) (n : nat) (smalld : R) (p : p2) : R + exn :=
  match scan v n p with
  | None => inr IndexError
  | Some (m, j, near) =>
      let prev := if (j =? 0)%nat then v (n - 1)%nat else v (j - 1)%nat in
      let a := if near then area (v j) (v (S j)) p else area (v (S j)) (v j) prev in
      let s := if Rlt_dec a 0 then - sqrt m else sqrt m in
      inl (if Rlt_dec (Rabs s) smalld then 0 else s)
  end.

Definition is_inside (poly : list p2) (smalld : R) (p : p2) : R + exn :=
  is_inside_fn (fun i => nth i poly (0, 0)) (length poly - 1) smalld p.

(* ------------------------------------------------------------------ *)

Lemma scan_S v n p : scan v (S n) p = improve v p (scan v n p) n.
Proof. unfold scan. rewrite seq_S, fold_left_app. reflexivity. Qed.

Lemma scan_spec v n p :
  match scan v n p with
  | None => forall i, (i < n)%nat -> side (v i) (v (S i)) p = None
  | Some (m, j, near) => (j < n)%nat /\ side (v j) (v (S j)) p = Some (m, near)
      /\ forall i d b, (i < n)%nat -> side (v i) (v (S i)) p = Some (d, b) -> m <= d
  end.
Proof.
  induction n as [|n IH].
  - unfold scan. cbn. intros; lia.
  - rewrite scan_S. unfold improve. destruct (side (v n) (v (S n)) p) as [[d b]|] eqn:E.
    + destruct (scan v n p) as [[[m j] near]|].
      * destruct IH as (H1 & H2 & H3). destruct (Rlt_dec d m).
        -- repeat split; [lia|exact E|]. intros i d' b' Hi Hs. destruct (Nat.eq_dec i n) as [->|].
           ++ rewrite E in Hs. injection Hs as <- <-. lra.
           ++ specialize (H3 i d' b' ltac:(lia) Hs). lra.
        -- repeat split; [lia|exact H2|]. intros i d' b' Hi Hs. destruct (Nat.eq_dec i n) as [->|].
           ++ rewrite E in Hs. injection Hs as <- <-. lra.
           ++ exact (H3 i d' b' ltac:(lia) Hs).
      * repeat split; [lia|exact E|]. intros i d' b' Hi Hs. destruct (Nat.eq_dec i n) as [->|].
        ++ rewrite E in Hs. injection Hs as <- <-. lra.
        ++ rewrite (IH i ltac:(lia)) in Hs. discriminate.
    + destruct (scan v n p) as [[[m j] near]|].
      * destruct IH as (H1 & H2 & H3). repeat split; [lia|exact H2|]. intros i d' b' Hi Hs.
        destruct (Nat.eq_dec i n) as [->|]; [congruence|]. exact (H3 i d' b' ltac:(lia) Hs).
      * intros i Hi. destruct (Nat.eq_dec i n) as [->|]; [exact E|]. apply IH. lia.
Qed.

Lemma exists_min (P : nat -> Prop) (f : nat -> R) n : (forall k, P k \/ ~ P k) ->
  (exists k, (k < n)%nat /\ P k) ->
  exists k, (k < n)%nat /\ P k /\ forall j, (j < n)%nat -> P j -> f k <= f j.
Proof.
  intros Hd. induction n as [|n IH]; intros (k & Hk & HP); [lia|].
  destruct (Hd n) as [Hn|Hn].
  - destruct (Nat.eq_dec k n) as [->|].
    + assert (Q : (exists k, (k < n)%nat /\ P k) \/ forall k, (k < n)%nat -> ~ P k).
      { clear IH Hk HP Hn. induction n as [|n IHn].
        - right. intros; lia.
        - destruct IHn as [(k & Hk & HP)|H]; [left; exists k; split; [lia|assumption]|].
          destruct (Hd n); [left; exists n; split; [lia|assumption]|].
          right. intros k Hk. destruct (Nat.eq_dec k n) as [->|]; [assumption|]. apply H. lia. }
      destruct Q as [Q|Q].
      * destruct (IH Q) as (k & Hk1 & HP1 & Hm). destruct (Rle_dec (f k) (f n)).
        -- exists k. split; [lia|]. split; [assumption|]. intros j Hj HPj.
           destruct (Nat.eq_dec j n) as [->|]; [assumption|]. apply Hm; [lia|assumption].
        -- exists n. split; [lia|]. split; [assumption|]. intros j Hj HPj.
           destruct (Nat.eq_dec j n) as [->|]; [lra|]. specialize (Hm j ltac:(lia) HPj). lra.
      * exists n. split; [lia|]. split; [assumption|]. intros j Hj HPj.
        destruct (Nat.eq_dec j n) as [->|]; [lra|]. destruct (Q j ltac:(lia) HPj).
    + destruct IH as (k' & Hk1 & HP1 & Hm); [exists k; split; [lia|assumption]|].
      destruct (Rle_dec (f k') (f n)).
      * exists k'. split; [lia|]. split; [assumption|]. intros j Hj HPj.
        destruct (Nat.eq_dec j n) as [->|]; [assumption|]. apply Hm; [lia|assumption].
      * exists n. split; [lia|]. split; [assumption|]. intros j Hj HPj.
        destruct (Nat.eq_dec j n) as [->|]; [lra|]. specialize (Hm j ltac:(lia) HPj). lra.
  - assert (k <> n) by (intros ->; contradiction).
    destruct IH as (k' & Hk1 & HP1 & Hm); [exists k; split; [lia|assumption]|].
    exists k'. split; [lia|]. split; [assumption|]. intros j Hj HPj. apply Hm; [|assumption].
    assert (j <> n) by (intros ->; contradiction). lia.
Qed.

(** The point at parameter s of the side from a to b. *)
Definition on_side (a b : p2) (s : R) : p2 := (fst a + s * (fst b - fst a), snd a + s * (snd b - snd a)).

(** The parameter of the foot of the perpendicular. *)
Definition foot (a b p : p2) : R :=
  ((fst p - fst a) * (fst b - fst a) + (snd p - snd a) * (snd b - snd a)) / dist2 b a.
Definition off (a b p : p2) : R := dist2 p a - foot a b p * foot a b p * dist2 b a.

Lemma dist2_nonneg a b : 0 <= dist2 a b.
Proof. unfold dist2. apply Rplus_le_le_0_compat; apply Rle_0_sqr. Qed.

Lemma dist2_0 a b : dist2 a b = 0 -> a = b.
Proof.
  destruct a as [a1 a2], b as [b1 b2]. unfold dist2. cbn. intros H.
  assert (Q : forall x y : R, x * x + y * y = 0 -> x = 0) by (intros; nra).
  pose proof (Q _ _ H). rewrite Rplus_comm in H. pose proof (Q _ _ H). f_equal; lra.
Qed.

Lemma dist2_sym a b : dist2 a b = dist2 b a.
Proof. unfold dist2. ring. Qed.

Lemma dist2_pos a b : a <> b -> 0 < dist2 a b.
Proof. intros H. pose proof (dist2_nonneg a b). destruct (Req_dec (dist2 a b) 0) as [E|]; [|lra].
  now apply dist2_0 in E. Qed.

Lemma dist2_on_side a b p s : a <> b ->
  dist2 p (on_side a b s) = dist2 b a * (s - foot a b p) * (s - foot a b p) + off a b p.
Proof.
  intros H. assert (0 < dist2 b a) by (rewrite dist2_sym; now apply dist2_pos).
  unfold off, foot. set (L := dist2 b a) in *.
  replace (dist2 p (on_side a b s))
    with (dist2 p a - 2 * s * ((fst p - fst a) * (fst b - fst a) + (snd p - snd a) * (snd b - snd a)) + s * s * L).
  - field. lra.
  - unfold L, dist2, on_side. cbn. ring.
Qed.

Lemma side_cases a b p : a <> b ->
  (foot a b p < 0 /\ side a b p = Some (dist2 p (on_side a b 0), false))
  \/ (0 <= foot a b p <= 1 /\ side a b p = Some (dist2 p (on_side a b (foot a b p)), true))
  \/ (1 < foot a b p /\ side a b p = None).
Proof.
  intros H. assert (0 < dist2 b a) by (rewrite dist2_sym; now apply dist2_pos).
  assert (Et : - ((fst a - fst p) * (fst b - fst a) + (snd a - snd p) * (snd b - snd a)) / ((fst b - fst a) * (fst b - fst a) + (snd b - snd a) * (snd b - snd a)) = foot a b p).
  { unfold foot, dist2. f_equal. ring. }
  unfold side. rewrite Et. destruct (Req_EM_T _ 0) as [E|_]; [unfold dist2 in *; lra|].
  destruct (Rlt_dec (foot a b p) 0).
  - left. split; [assumption|]. do 2 f_equal. unfold dist2, on_side. cbn. ring.
  - right. destruct (Rle_dec (foot a b p) 1).
    + left. split; [lra|]. do 2 f_equal. unfold dist2, on_side. cbn. ring.
    + right. split; [lra|reflexivity].
Qed.

Section Closed.
  Variables (v : nat -> p2) (n : nat) (p : p2).
  Hypothesis Hn : (0 < n)%nat.
  Hypothesis Hclosed : v n = v 0%nat.
  Hypothesis Hsides : forall i, (i < n)%nat -> v i <> v (S i).

  Let clamp t := if Rlt_dec t 0 then 0 else if Rle_dec t 1 then t else 1.
  Let D i := dist2 p (on_side (v i) (v (S i)) (clamp (foot (v i) (v (S i)) p))).

  Lemma D_least i s : (i < n)%nat -> 0 <= s <= 1 -> D i <= dist2 p (on_side (v i) (v (S i)) s).
  Proof using Hsides.
    intros Hi Hs. unfold D. rewrite !dist2_on_side by now apply Hsides.
    assert (HL := dist2_nonneg (v (S i)) (v i)). unfold clamp.
    set (t := foot _ _ _). set (L := dist2 (v (S i)) (v i)) in *.
    destruct (Rlt_dec t 0).
    - assert (0 <= L * (s * (s - 2 * t))) by (apply Rmult_le_pos; [assumption|apply Rmult_le_pos; lra]). lra.
    - destruct (Rle_dec t 1).
      + assert (0 <= L * ((s - t) * (s - t))) by (apply Rmult_le_pos; [assumption|apply Rle_0_sqr]). lra.
      + assert (0 <= L * ((1 - s) * (2 * t - s - 1))) by (apply Rmult_le_pos; [assumption|apply Rmult_le_pos; lra]). lra.
  Qed.

  Let nxt i := if (S i =? n)%nat then 0%nat else S i.

  Lemma nxt_v i : (i < n)%nat -> (nxt i < n)%nat /\ v (nxt i) = v (S i).
  Proof using All.
    intros Hi. unfold nxt. destruct (Nat.eqb_spec (S i) n) as [E|]; [|split; [lia|reflexivity]].
    split; [lia|]. now rewrite E, Hclosed.
  Qed.

  Lemma recorded_min : exists j d b, (j < n)%nat /\ side (v j) (v (S j)) p = Some (d, b)
    /\ forall i, (i < n)%nat -> d <= D i.
  Proof using Hn Hclosed Hsides.
    destruct (exists_min (fun _ => True) D n) as (i & Hi & _ & Hm); [now left|exists 0%nat; auto|].
    assert (HDi : forall k, (k < n)%nat -> D i <= D k) by (intros; now apply Hm).
    assert (Hrec : forall k, (k < n)%nat -> D k = D i -> foot (v k) (v (S k)) p <= 1 ->
      exists j d b, (j < n)%nat /\ side (v j) (v (S j)) p = Some (d, b) /\ forall i, (i < n)%nat -> d <= D i).
    { intros k Hk E Hf. destruct (side_cases (v k) (v (S k)) p (Hsides k Hk)) as [[H1 H2]|[[H1 H2]|[H1 H2]]]; [| |lra].
      - exists k, (D k), false. repeat split; [assumption| |intros; rewrite E; now apply HDi].
        rewrite H2. unfold D, clamp. destruct (Rlt_dec _ 0); [reflexivity|lra].
      - exists k, (D k), true. repeat split; [assumption| |intros; rewrite E; now apply HDi].
        rewrite H2. unfold D, clamp. destruct (Rlt_dec _ 0); [lra|]. destruct (Rle_dec _ 1); [reflexivity|lra]. }
    destruct (Rle_dec (foot (v i) (v (S i)) p) 1) as [Hf|Hf]; [now apply (Hrec i)|].
    destruct (nxt_v i Hi) as [Hk Hv]. set (k := nxt i) in *.
    assert (E0 : D i = dist2 p (on_side (v k) (v (S k)) 0)).
    { unfold D, clamp. destruct (Rlt_dec _ 0); [lra|]. destruct (Rle_dec _ 1); [lra|].
      rewrite Hv. unfold dist2, on_side. cbn. ring. }
    assert (Hle : D k <= D i) by (rewrite E0; apply D_least; [assumption|lra]).
    specialize (HDi k Hk). apply (Hrec k Hk); [lra|].
    destruct (Rle_dec (foot (v k) (v (S k)) p) 1) as [|Hf2]; [assumption|]. exfalso.
    assert (E1 : D k = dist2 p (on_side (v k) (v (S k)) 1)).
    { unfold D, clamp. destruct (Rlt_dec _ 0); [lra|]. destruct (Rle_dec _ 1); [lra|]. reflexivity. }
    rewrite E1, E0 in *. rewrite !dist2_on_side in * by now apply Hsides.
    assert (HL : 0 < dist2 (v (S k)) (v k)) by (rewrite dist2_sym; apply dist2_pos; now apply Hsides).
    set (t := foot _ _ _) in *. set (L := dist2 (v (S k)) (v k)) in *.
    assert (0 < L * (2 * t - 1)) by (apply Rmult_lt_0_compat; lra). nra.
  Qed.

  (** The scan finds the squared distance to the boundary and a side where it
      is attained. *)
  Lemma scan_distance : exists m j near, scan v n p = Some (m, j, near) /\ (j < n)%nat
    /\ side (v j) (v (S j)) p = Some (m, near)
    /\ (forall i s, (i < n)%nat -> 0 <= s <= 1 -> m <= dist2 p (on_side (v i) (v (S i)) s)).
  Proof using Hn Hclosed Hsides.
    destruct recorded_min as (j0 & d0 & b0 & Hj0 & Hs0 & Hd0).
    pose proof (scan_spec v n p) as HS. destruct (scan v n p) as [[[m j] near]|].
    - destruct HS as (H1 & H2 & H3). exists m, j, near. repeat split; try assumption.
      intros i s Hi Hs. specialize (H3 j0 d0 b0 Hj0 Hs0). specialize (Hd0 i Hi).
      pose proof (D_least i s Hi Hs). lra.
    - specialize (HS j0 Hj0). congruence.
  Qed.

  Lemma side_attained j m near : (j < n)%nat -> side (v j) (v (S j)) p = Some (m, near) ->
    exists t, 0 <= t <= 1 /\ m = dist2 p (on_side (v j) (v (S j)) t)
      /\ (near = true -> t = foot (v j) (v (S j)) p) /\ (near = false -> t = 0 /\ foot (v j) (v (S j)) p < 0).
  Proof using Hsides.
    intros Hj E. destruct (side_cases (v j) (v (S j)) p (Hsides j Hj)) as [[H1 H2]|[[H1 H2]|[H1 H2]]];
      rewrite H2 in E; [injection E as <- <-|injection E as <- <-|discriminate].
    - exists 0. repeat split; try lra; discriminate.
    - exists (foot (v j) (v (S j)) p). repeat split; try lra; discriminate.
  Qed.

  (** is_inside reports, up to sign and the rounding to zero below smalld, the
      distance to the boundary, and raises no exception. *)
  Theorem is_inside_distance smalld : exists r d, is_inside_fn v n smalld p = inl r
    /\ 0 <= d
    /\ (forall i s, (i < n)%nat -> 0 <= s <= 1 -> d <= sqrt (dist2 p (on_side (v i) (v (S i)) s)))
    /\ (exists i s, (i < n)%nat /\ 0 <= s <= 1 /\ d = sqrt (dist2 p (on_side (v i) (v (S i)) s)))
    /\ (smalld <= d -> Rabs r = d) /\ (d < smalld -> r = 0).
  Proof using Hn Hclosed Hsides.
    destruct scan_distance as (m & j & near & E & Hj & Hs & Hm).
    destruct (side_attained j m near Hj Hs) as (t & Ht & Em & _).
    unfold is_inside_fn. rewrite E. eexists. exists (sqrt m). split; [reflexivity|].
    assert (Hsq := sqrt_pos m). split; [assumption|]. split.
    { intros i s Hi Hs'. apply sqrt_le_1_alt. now apply Hm. }
    split. { exists j, t. rewrite Em. auto. }
    match goal with |- context [if Rlt_dec ?a 0 then - sqrt m else _] => set (ar := a) end.
    assert (Ha : Rabs (if Rlt_dec ar 0 then - sqrt m else sqrt m) = sqrt m).
    { destruct (Rlt_dec ar 0); [rewrite Rabs_Ropp|]; now apply Rabs_pos_eq. }
    rewrite Ha. destruct (Rlt_dec (sqrt m) smalld); split; intros; try lra.
  Qed.
End Closed.

(** Area is affine in its last argument. *)
Lemma area_on_side a b c d s : area a b (on_side c d s) = (1 - s) * area a b c + s * area a b d.
Proof. unfold area, on_side. cbn. ring. Qed.

Section Convex.
  Variables (v : nat -> p2) (n : nat) (p : p2).
  Hypothesis Hn : (3 <= n)%nat.
  Hypothesis Hclosed : v n = v 0%nat.
  Let nxt i := if (S i =? n)%nat then 0%nat else S i.
  (** Strictly convex and anti-clockwise: every other vertex is strictly left
      of every side. *)
  Hypothesis Hconv : forall j k, (j < n)%nat -> (k < n)%nat -> k <> j -> k <> nxt j ->
    0 < area (v j) (v (S j)) (v k).

  Lemma third j : (j < n)%nat -> exists k, (k < n)%nat /\ k <> j /\ k <> nxt j.
  Proof.
    intros Hj. unfold nxt. destruct (Nat.eqb_spec (S j) n).
    - exists 1%nat. lia.
    - destruct (Nat.eq_dec j 0) as [->|]; [exists 2%nat; lia|]. exists 0%nat. lia.
  Qed.

  Lemma nxt_lt j : (j < n)%nat -> (nxt j < n)%nat /\ v (nxt j) = v (S j).
  Proof.
    intros Hj. unfold nxt. destruct (Nat.eqb_spec (S j) n) as [E|]; [|split; [lia|reflexivity]].
    split; [lia|]. now rewrite E, Hclosed.
  Qed.

  Lemma convex_sides i : (i < n)%nat -> v i <> v (S i).
  Proof.
    intros Hi E. destruct (third i Hi) as (k & Hk & H1 & H2). specialize (Hconv i k Hi Hk H1 H2).
    rewrite <- E in Hconv. unfold area in Hconv. lra.
  Qed.

  Lemma vertex_inside j k : (j < n)%nat -> (k < n)%nat -> 0 <= area (v j) (v (S j)) (v k).
  Proof.
    intros Hj Hk. destruct (Nat.eq_dec k j) as [->|]; [unfold area; lra|].
    destruct (Nat.eq_dec k (nxt j)) as [->|].
    - rewrite (proj2 (nxt_lt j Hj)). unfold area. lra.
    - apply Rlt_le. now apply Hconv.
  Qed.

  Lemma vertex_inside_S j k : (j < n)%nat -> (k < n)%nat -> 0 <= area (v j) (v (S j)) (v (S k)).
  Proof.
    intros Hj Hk. rewrite <- (proj2 (nxt_lt k Hk)). apply vertex_inside; [assumption|]. now apply nxt_lt.
  Qed.

  Lemma side_inside j k s : (j < n)%nat -> (k < n)%nat -> 0 <= s <= 1 ->
    0 <= area (v j) (v (S j)) (on_side (v k) (v (S k)) s).
  Proof.
    intros Hj Hk Hs. rewrite area_on_side.
    pose proof (vertex_inside j k Hj Hk). pose proof (vertex_inside_S j k Hj Hk).
    assert (0 <= (1 - s) * area (v j) (v (S j)) (v k)) by (apply Rmult_le_pos; lra).
    assert (0 <= s * area (v j) (v (S j)) (v (S k))) by (apply Rmult_le_pos; lra). lra.
  Qed.

  Definition inside_poly : Prop := forall j, (j < n)%nat -> 0 <= area (v j) (v (S j)) p.

  (** The vertex before j. *)
  Let prv j := if (j =? 0)%nat then (n - 1)%nat else (j - 1)%nat.

  Lemma prv_lt j : (j < n)%nat -> (prv j < n)%nat /\ nxt (prv j) = j /\ v (S (prv j)) = v j.
  Proof.
    intros Hj. unfold prv, nxt. destruct (Nat.eqb_spec j 0) as [->|].
    - replace (S (n - 1)) with n by lia. rewrite Nat.eqb_refl. repeat split; [lia|assumption].
    - replace (S (j - 1)) with j by lia. destruct (Nat.eqb_spec j n); [lia|]. repeat split; lia.
  Qed.

  Lemma prv_other j : (j < n)%nat -> prv j <> j /\ prv j <> nxt j /\ nxt j <> j.
  Proof.
    intros Hj. unfold prv, nxt. destruct (Nat.eqb_spec j 0); destruct (Nat.eqb_spec (S j) n); lia.
  Qed.

  Lemma nxt_nxt j : (j < n)%nat -> nxt (nxt j) <> j.
  Proof.
    intros Hj. unfold nxt. destruct (Nat.eqb_spec (S j) n).
    - destruct (Nat.eqb_spec 1 n); lia.
    - destruct (Nat.eqb_spec (S (S j)) n); lia.
  Qed.

  Lemma prv_nxt j : (j < n)%nat -> prv (nxt j) = j.
  Proof.
    intros Hj. unfold prv, nxt. destruct (Nat.eqb_spec (S j) n).
    - rewrite Nat.eqb_refl. lia.
    - cbn. lia.
  Qed.

  Lemma not_inside : ~ inside_poly -> exists i, (i < n)%nat /\ area (v i) (v (S i)) p < 0.
  Proof.
    intros H. unfold inside_poly in H.
    assert (Q : forall k, (k <= n)%nat -> (exists i, (i < k)%nat /\ area (v i) (v (S i)) p < 0)
                 \/ forall j, (j < k)%nat -> 0 <= area (v j) (v (S j)) p).
    { induction k as [|k IH]; intros Hk; [right; intros; lia|].
      destruct IH as [(i & Hi & E)|IH]; [lia|left; exists i; split; [lia|assumption]|].
      destruct (Rlt_dec (area (v k) (v (S k)) p) 0); [left; exists k; split; [lia|assumption]|].
      right. intros j Hj. destruct (Nat.eq_dec j k) as [->|]; [lra|]. apply IH. lia. }
    destruct (Q n (le_n n)) as [(i & Hi & E)|Q1]; [exists i; auto|contradiction].
  Qed.

  Section Nearest.
    Variables (m : R) (j : nat) (near : bool).
    Hypothesis Hj : (j < n)%nat.
    Hypothesis Hside : side (v j) (v (S j)) p = Some (m, near).
    Hypothesis Hm : forall i s, (i < n)%nat -> 0 <= s <= 1 -> m <= dist2 p (on_side (v i) (v (S i)) s).

    (** A convex corner is the nearest point only from outside. *)
    Lemma corner_outside : near = false -> ~ inside_poly /\ 0 < m.
    Proof.
      intros Hnear. destruct (side_attained v n p convex_sides j m near Hj Hside) as (t & Ht & Em & _ & Hc).
      destruct (Hc Hnear) as [-> Hf].
      destruct (prv_lt j Hj) as (Hp & Hnp & Hvp). destruct (prv_other j Hj) as (Hp1 & Hp2 & Hp3).
      pose proof (Hconv j (prv j) Hj Hp Hp1 Hp2) as Hab.
      assert (Hm' := Hm (prv j)). rewrite Hvp in Hm'.
      pose proof (convex_sides (prv j) Hp) as Hne. rewrite Hvp in Hne.
      set (b := v (prv j)) in *. set (c := v j) in *. set (a := v (S j)) in *.
      assert (HLa : 0 < dist2 a c) by (rewrite dist2_sym; apply dist2_pos; now apply convex_sides).
      assert (Hwa : (fst p - fst c) * (fst a - fst c) + (snd p - snd c) * (snd a - snd c) < 0).
      { unfold foot in Hf. destruct (Rlt_dec ((fst p - fst c) * (fst a - fst c) + (snd p - snd c) * (snd a - snd c)) 0) as [|Hge]; [assumption|].
        exfalso. assert (0 <= / dist2 a c) by (apply Rlt_le, Rinv_0_lt_compat; assumption).
        assert (0 <= ((fst p - fst c) * (fst a - fst c) + (snd p - snd c) * (snd a - snd c)) / dist2 a c)
          by (apply Rmult_le_pos; lra). lra. }
      assert (Em2 : m = dist2 p c) by (rewrite Em; unfold dist2, on_side; cbn; ring).
      split.
      - intros Hin. pose proof (Hin j Hj) as Ha. pose proof (Hin (prv j) Hp) as Hb. rewrite Hvp in Hb.
        fold a b c in Ha, Hb.
        (* the nearest point of the previous side is the vertex as well *)
        assert (Hwb : (fst p - fst c) * (fst b - fst c) + (snd p - snd c) * (snd b - snd c) <= 0).
        { destruct (Rle_dec ((fst p - fst c) * (fst b - fst c) + (snd p - snd c) * (snd b - snd c)) 0) as [|Hgt]; [assumption|]. exfalso.
          set (g := (fst p - fst c) * (fst b - fst c) + (snd p - snd c) * (snd b - snd c)) in *.
          assert (HL : 0 < dist2 b c) by now apply dist2_pos.
          set (e := Rmin 1 (g / dist2 b c)).
          assert (Hq : 0 < g / dist2 b c) by (apply Rdiv_lt_0_compat; lra).
          assert (He : 0 < e <= 1) by (unfold e; split; [apply Rmin_glb_lt; lra|apply Rmin_l]).
          assert (He2 : e * dist2 b c <= g).
          { apply Rle_trans with (g / dist2 b c * dist2 b c); [|right; field; lra].
            apply Rmult_le_compat_r; [lra|apply Rmin_r]. }
          specialize (Hm' (1 - e) Hp ltac:(lra)).
          assert (E : dist2 p (on_side b c (1 - e)) = dist2 p c - 2 * e * g + e * e * dist2 b c)
            by (unfold g, dist2, on_side; cbn; ring).
          rewrite E, Em2 in Hm'. assert (e * (e * dist2 b c) <= e * g) by (apply Rmult_le_compat_l; lra).
          assert (0 < e * g) by (apply Rmult_lt_0_compat; lra). lra. }
        (* p - c = alpha (a - c) + beta (b - c) with alpha, beta >= 0 *)
        assert (Hid : area c a b * dist2 p c =
          area b c p * ((fst p - fst c) * (fst a - fst c) + (snd p - snd c) * (snd a - snd c))
          + area c a p * ((fst p - fst c) * (fst b - fst c) + (snd p - snd c) * (snd b - snd c)))
          by (unfold area, dist2; ring).
        assert (Hpos : 0 < dist2 p c).
        { apply dist2_pos. intros E. rewrite E in Hwa. lra. }
        assert (0 < area c a b * dist2 p c) by (apply Rmult_lt_0_compat; assumption).
        assert (area b c p * ((fst p - fst c) * (fst a - fst c) + (snd p - snd c) * (snd a - snd c)) <= 0).
        { rewrite <- (Rmult_0_r (area b c p)). apply Rmult_le_compat_l; lra. }
        assert (area c a p * ((fst p - fst c) * (fst b - fst c) + (snd p - snd c) * (snd b - snd c)) <= 0).
        { rewrite <- (Rmult_0_r (area c a p)). apply Rmult_le_compat_l; lra. }
        lra.
      - rewrite Em2. apply dist2_pos. intros E. rewrite E in Hwa. lra.
    Qed.

    (** If a side is nearest, the point is inside exactly if it is not right of
        that side. *)
    Lemma side_decides : near = true -> (inside_poly <-> 0 <= area (v j) (v (S j)) p)
      /\ (area (v j) (v (S j)) p < 0 -> 0 < m).
    Proof.
      intros Hnear. destruct (side_attained v n p convex_sides j m near Hj Hside) as (t & Ht & Em & Hc & _).
      specialize (Hc Hnear). set (q := on_side (v j) (v (S j)) t) in *.
      set (a := v j) in *. set (b := v (S j)) in *.
      assert (HL : 0 < dist2 b a) by (rewrite dist2_sym; apply dist2_pos; now apply convex_sides).
      (* p - q is perpendicular to the side *)
      assert (Hperp : (fst p - fst q) * (fst b - fst a) + (snd p - snd q) * (snd b - snd a) = 0).
      { unfold q, on_side. cbn. rewrite Hc. unfold foot, dist2.
        field. unfold dist2 in HL. lra. }
      assert (Harea : area a b p * area a b p = m * dist2 b a).
      { replace (area a b p) with ((fst b - fst a) * (snd p - snd q) - (snd b - snd a) * (fst p - fst q))
          by (unfold q, area, on_side; cbn; ring).
        rewrite Em. transitivity (dist2 p q * dist2 b a - ((fst p - fst q) * (fst b - fst a) + (snd p - snd q) * (snd b - snd a)) * ((fst p - fst q) * (fst b - fst a) + (snd p - snd q) * (snd b - snd a))).
        - unfold dist2. ring.
        - rewrite Hperp. ring. }
      assert (Hm0 : 0 <= m) by (rewrite Em; apply dist2_nonneg).
      assert (Hmpos : area a b p <> 0 -> 0 < m).
      { intros Ha. destruct (Req_dec m 0) as [E|]; [|lra]. exfalso. rewrite E in Harea.
        assert (0 < area a b p * area a b p) by nra. lra. }
      split; [split|].
      - intros Hin. now apply Hin.
      - intros Ha0. destruct (Req_dec (area a b p) 0) as [Ea|Ea].
        + (* on the side *)
          assert (E : p = q).
          { apply dist2_0. rewrite <- Em. rewrite Ea in Harea. nra. }
          intros k Hk. rewrite E. now apply side_inside.
        + assert (Ha : 0 < area a b p) by lra. specialize (Hmpos Ea).
          destruct (Classical_Prop.classic inside_poly) as [|Hout]; [assumption|]. exfalso.
          destruct (not_inside Hout) as (i0 & Hi0 & Hneg0).
          set (Q k := area (v k) (v (S k)) q). set (A k := area (v k) (v (S k)) p).
          assert (HQ : forall k, (k < n)%nat -> 0 <= Q k) by (intros k Hk; now apply side_inside).
          destruct (exists_min (fun k => A k < 0) (fun k => Q k / (Q k - A k)) n) as (i & Hi & Hneg & Hmin).
          { intros k. destruct (Rlt_dec (A k) 0); auto. }
          { exists i0. split; assumption. }
          set (s := Q i / (Q i - A i)) in *.
          assert (Hd : 0 < Q i - A i) by (specialize (HQ i Hi); lra).
          assert (Hs : 0 <= s < 1).
          { specialize (HQ i Hi). split; [apply Rmult_le_pos; [assumption|apply Rlt_le, Rinv_0_lt_compat; lra]|].
            apply (Rmult_lt_reg_r (Q i - A i)); [lra|]. unfold s. replace (Q i / (Q i - A i) * (Q i - A i)) with (Q i) by (field; lra). lra. }
          set (r := on_side q p s).
          assert (Hr : forall k, (k < n)%nat -> 0 <= area (v k) (v (S k)) r).
          { intros k Hk. unfold r. rewrite area_on_side. fold (Q k) (A k). specialize (HQ k Hk).
            destruct (Rlt_dec (A k) 0) as [HA|HA].
            - specialize (Hmin k Hk HA). cbv beta in Hmin.
              assert (s * (Q k - A k) <= Q k).
              { apply Rle_trans with (Q k / (Q k - A k) * (Q k - A k)).
                - apply Rmult_le_compat_r; [lra|assumption].
                - right. field. lra. }
              lra.
            - assert (0 <= (1 - s) * Q k) by (apply Rmult_le_pos; lra).
              assert (0 <= s * A k) by (apply Rmult_le_pos; lra). lra. }
          assert (Hr0 : area (v i) (v (S i)) r = 0).
          { unfold r. rewrite area_on_side. fold (Q i) (A i). unfold s. field. lra. }
          (* r lies on side i *)
          set (c := v i) in *. set (d := v (S i)) in *.
          assert (Hcd : c <> d) by now apply convex_sides.
          assert (HLi : 0 < dist2 d c) by (rewrite dist2_sym; now apply dist2_pos).
          set (l := foot c d r).
          assert (Er : r = on_side c d l).
          { apply dist2_0. rewrite dist2_on_side by assumption. fold l.
            assert (Eo : off c d r * dist2 d c = area c d r * area c d r).
            { unfold off, foot.
              replace (area c d r * area c d r) with (dist2 r c * dist2 d c - ((fst r - fst c) * (fst d - fst c) + (snd r - snd c) * (snd d - snd c)) * ((fst r - fst c) * (fst d - fst c) + (snd r - snd c) * (snd d - snd c)))
                by (unfold area, dist2; ring).
              field. lra. }
            rewrite Hr0 in Eo. assert (off c d r = 0) by nra. rewrite H. ring. }
          assert (Hl : 0 <= l <= 1).
          { destruct (prv_lt i Hi) as (Hp & Hnp & Hvp). destruct (prv_other i Hi) as (Hp1 & Hp2 & Hp3).
            destruct (nxt_lt i Hi) as (Hx & Hvx). split.
            - pose proof (Hr (prv i) Hp) as H1. rewrite Er, area_on_side, Hvp in H1. fold c in H1.
              replace (area (v (prv i)) c c) with 0 in H1 by (unfold area; ring).
              assert (H2 : 0 < area (v (prv i)) c d).
              { unfold c, d. rewrite <- Hvp, <- Hvx. apply Hconv; try assumption; congruence. }
              nra.
            - pose proof (Hr (nxt i) Hx) as H1. rewrite Er, area_on_side in H1. rewrite Hvx in H1. fold d in H1.
              replace (area d (v (S (nxt i))) d) with 0 in H1 by (unfold area; ring).
              assert (H2 : 0 < area d (v (S (nxt i))) c).
              { unfold c, d. rewrite <- Hvx. apply Hconv; try assumption; [congruence|].
                intros E. apply Hp2.
                assert (E2 : prv (nxt (nxt i)) = nxt i).
                { apply prv_nxt. now apply nxt_lt. }
                rewrite <- E2, <- E. reflexivity. }
              nra. }
          pose proof (Hm i l Hi Hl) as Hml. fold c d in Hml. rewrite <- Er in Hml.
          assert (Hpr : dist2 p r = (1 - s) * (1 - s) * m).
          { rewrite Em. unfold r, dist2, on_side. cbn. ring. }
          assert (Hs0 : s = 0).
          { rewrite Hpr in Hml. assert (m * (s * (2 - s)) <= 0) by lra.
            destruct (Req_dec s 0) as [|Hsn]; [assumption|]. exfalso.
            assert (0 < m * (s * (2 - s))) by (apply Rmult_lt_0_compat; [assumption|apply Rmult_lt_0_compat; lra]). lra. }
          assert (Erq : r = q) by (unfold r; rewrite Hs0; unfold on_side; destruct q; cbn; f_equal; ring).
          (* an end of side i strictly left of side j *)
          assert (Hij : i <> j).
          { intros ->. fold a b in Hneg. unfold A in Hneg. fold a b in Hneg. lra. }
          assert (HW : exists l', 0 <= l' <= 1 /\ 0 < area a b (on_side c d l')).
          { destruct (Nat.eq_dec i (nxt j)) as [E|].
            - exists 1. split; [lra|]. replace (on_side c d 1) with d by (unfold on_side; destruct c, d; cbn; f_equal; ring).
              unfold d. destruct (nxt_lt i Hi) as (Hx & Hvx). rewrite <- Hvx. apply Hconv; try assumption.
              + rewrite E. now apply nxt_nxt.
              + rewrite E. intros E2. destruct (prv_other (nxt j)) as (_ & _ & H3); [now apply nxt_lt|]. contradiction.
            - exists 0. split; [lra|]. replace (on_side c d 0) with c by (unfold on_side; destruct c; cbn; f_equal; ring).
              now apply Hconv. }
          destruct HW as (l' & Hl' & Hw). set (w := on_side c d l') in *.
          set (g := (fst w - fst q) * (fst p - fst q) + (snd w - snd q) * (snd p - snd q)).
          assert (Hg : g * dist2 b a = area a b w * area a b p).
          { replace (area a b p) with ((fst b - fst a) * (snd p - snd q) - (snd b - snd a) * (fst p - fst q))
              by (unfold q, area, on_side; cbn; ring).
            replace (area a b w) with ((fst b - fst a) * (snd w - snd q) - (snd b - snd a) * (fst w - fst q))
              by (unfold q, area, on_side; cbn; ring).
            transitivity (g * dist2 b a - ((fst w - fst q) * (fst b - fst a) + (snd w - snd q) * (snd b - snd a)) * ((fst p - fst q) * (fst b - fst a) + (snd p - snd q) * (snd b - snd a))).
            - rewrite Hperp. ring.
            - unfold g, dist2. ring. }
          assert (Hgpos : 0 < g).
          { assert (0 < area a b w * area a b p) by (apply Rmult_lt_0_compat; assumption).
            destruct (Rlt_dec 0 g); [assumption|]. nra. }
          assert (Hwq : 0 < dist2 w q).
          { apply dist2_pos. intros E. unfold g in Hgpos. rewrite E in Hgpos. lra. }
          set (e := Rmin 1 (g / dist2 w q)).
          assert (Hq : 0 < g / dist2 w q) by (apply Rdiv_lt_0_compat; lra).
          assert (He : 0 < e <= 1) by (unfold e; split; [apply Rmin_glb_lt; lra|apply Rmin_l]).
          assert (He2 : e * dist2 w q <= g).
          { apply Rle_trans with (g / dist2 w q * dist2 w q); [|right; field; lra].
            apply Rmult_le_compat_r; [lra|apply Rmin_r]. }
          assert (Hll : 0 <= l + e * (l' - l) <= 1).
          { split.
            - assert (0 <= (1 - e) * l) by (apply Rmult_le_pos; lra). assert (0 <= e * l') by (apply Rmult_le_pos; lra). lra.
            - assert (0 <= (1 - e) * (1 - l)) by (apply Rmult_le_pos; lra). assert (0 <= e * (1 - l')) by (apply Rmult_le_pos; lra). lra. }
          pose proof (Hm i (l + e * (l' - l)) Hi Hll) as Hfin. fold c d in Hfin.
          replace (on_side c d (l + e * (l' - l))) with (on_side q w e) in Hfin
            by (rewrite <- Erq, Er; unfold w, on_side; cbn; f_equal; ring).
          assert (E : dist2 p (on_side q w e) = m - 2 * e * g + e * e * dist2 w q)
            by (rewrite Em; unfold g, dist2, on_side; cbn; ring).
          rewrite E in Hfin. assert (e * (e * dist2 w q) <= e * g) by (apply Rmult_le_compat_l; lra).
          assert (0 < e * g) by (apply Rmult_lt_0_compat; lra). lra.
      - intros Ha. apply Hmpos. lra.
    Qed.
  End Nearest.

  (** The sign is right for every strictly convex polygon. *)
  Theorem is_inside_sign smalld : exists r, is_inside_fn v n smalld p = inl r
    /\ (inside_poly -> 0 <= r)
    /\ (~ inside_poly -> r <= 0 /\ (r = 0 -> exists i s, (i < n)%nat /\ 0 <= s <= 1 /\ sqrt (dist2 p (on_side (v i) (v (S i)) s)) < smalld)).
  Proof.
    destruct (scan_distance v n p ltac:(lia) Hclosed convex_sides) as (m & j & near & E & Hj & Hs & Hm).
    unfold is_inside_fn. rewrite E. eexists. split; [reflexivity|].
    destruct (side_attained v n p convex_sides j m near Hj Hs) as (t & Ht & Em & _).
    destruct near.
    - destruct (side_decides m j true Hj Hs Hm eq_refl) as [H1 H2].
      destruct (Rlt_dec (area (v j) (v (S j)) p) 0) as [Ha|Ha].
      + split; [intros Hin; pose proof (proj1 H1 Hin); lra|]. intros _. specialize (H2 Ha).
        assert (Hsq : 0 < sqrt m) by now apply sqrt_lt_R0.
        rewrite Rabs_Ropp, Rabs_pos_eq by lra. destruct (Rlt_dec (sqrt m) smalld) as [Hlt|].
        * split; [lra|]. intros _. exists j, t. rewrite <- Em. auto.
        * split; [lra|]. lra.
      + split.
        * intros _. destruct (Rlt_dec _ smalld); [lra|]. apply sqrt_pos.
        * intros Ho. exfalso. apply Ho, (proj2 H1). lra.
    - destruct (corner_outside m j false Hj Hs Hm eq_refl) as [H1 H2].
      destruct (prv_lt j Hj) as (Hp & Hnp & Hvp). destruct (prv_other j Hj) as (Hp1 & Hp2 & Hp3).
      assert (Ha : area (v (S j)) (v j) (if (j =? 0)%nat then v (n - 1)%nat else v (j - 1)%nat) < 0).
      { replace (if (j =? 0)%nat then v (n - 1)%nat else v (j - 1)%nat) with (v (prv j)) by (unfold prv; now destruct (j =? 0)%nat).
        pose proof (Hconv j (prv j) Hj Hp Hp1 Hp2) as H.
        replace (area (v (S j)) (v j) (v (prv j))) with (- area (v j) (v (S j)) (v (prv j))) by (unfold area; ring). lra. }
      destruct (Rlt_dec _ 0) as [_|]; [|contradiction].
      split; [contradiction|]. intros _.
      assert (Hsq : 0 < sqrt m) by now apply sqrt_lt_R0.
      rewrite Rabs_Ropp, Rabs_pos_eq by lra. destruct (Rlt_dec (sqrt m) smalld) as [Hlt|].
      + split; [lra|]. intros _. exists j, t. rewrite <- Em. auto.
      + split; lra.
  Qed.
  (** The signed distance to the boundary, set to zero below smalld. *)
  Theorem is_inside_convex smalld : exists d, 0 <= d
    /\ (forall i s, (i < n)%nat -> 0 <= s <= 1 -> d <= sqrt (dist2 p (on_side (v i) (v (S i)) s)))
    /\ (exists i s, (i < n)%nat /\ 0 <= s <= 1 /\ d = sqrt (dist2 p (on_side (v i) (v (S i)) s)))
    /\ (inside_poly -> is_inside_fn v n smalld p = inl (if Rlt_dec d smalld then 0 else d))
    /\ (~ inside_poly -> is_inside_fn v n smalld p = inl (if Rlt_dec d smalld then 0 else - d)).
  Proof.
    destruct (is_inside_distance v n p ltac:(lia) Hclosed convex_sides smalld) as (r & d & E & Hd & H1 & H2 & H3 & H4).
    destruct (is_inside_sign smalld) as (r' & E' & Hin & Hout). rewrite E in E'. injection E' as <-.
    exists d. split; [assumption|]. split; [assumption|]. split; [assumption|]. rewrite E. split; intros Hi; f_equal.
    - destruct (Rlt_dec d smalld); [now apply H4|]. specialize (Hin Hi). rewrite Rabs_pos_eq in H3 by assumption. apply H3. lra.
    - destruct (Rlt_dec d smalld); [now apply H4|]. destruct (Hout Hi) as [Hr _].
      specialize (H3 ltac:(lra)). rewrite Rabs_left1 in H3 by assumption. lra.
  Qed.
End Convex.

(* ------------------------------------------------------------------ *)
(** The constructor: vertex lists in either orientation. *)

Definition vtx (l : list p2) (i : nat) : p2 := nth (i mod length l) l (0, 0).

(** Strictly convex with orientation [s] (1: anti-clockwise, -1: clockwise):
    every vertex not on a side is strictly on the same side of it. *)
Definition convex (s : R) (l : list p2) : Prop :=
  (3 <= length l)%nat /\ forall j k, (j < length l)%nat -> (k < length l)%nat -> k <> j -> k <> (S j mod length l)%nat ->
    0 < s * area (vtx l j) (vtx l (S j)) (vtx l k).

(** On the inner side of every side. *)
Definition in_convex (s : R) (l : list p2) (p : p2) : Prop :=
  forall j, (j < length l)%nat -> 0 <= s * area (vtx l j) (vtx l (S j)) p.

(** On the boundary: a point of the side from vertex i to the next. *)
Definition boundary_point (l : list p2) (i : nat) (t : R) : p2 := on_side (vtx l i) (vtx l (S i)) t.

Definition cross (a b : p2) : R := fst a * snd b - snd a * fst b.

Fixpoint fan (o a : p2) (l : list p2) : R :=
  match l with [] => 0 | v :: l' => area a v o + fan o v l' end.

Lemma det_fan o : forall l a, det_from a l = fan o a l + cross a o - cross (last l a) o.
Proof.
  induction l as [|v l IH]; intros a; [cbn; ring|].
  change (det_from a (v :: l)) with (snd v * fst a - fst v * snd a + det_from v l).
  change (fan o a (v :: l)) with (area a v o + fan o v l). rewrite IH.
  replace (last (v :: l) a) with (last l v).
  - unfold area, cross. ring.
  - destruct l as [|x l']; [reflexivity|]. clear. revert v a x. induction l' as [|y l' IH]; intros; [reflexivity|].
    change (last (x :: y :: l') v = last (y :: l') a). change (last (x :: y :: l') v) with (last (y :: l') v).
    clear IH. revert y. induction l' as [|z l' IH]; intros; [reflexivity|]. exact (IH z).
Qed.

Lemma fan_sum o : forall l a, fan o a l = rsumn (length l) (fun i => area (nth i (a :: l) (0, 0)) (nth i l (0, 0)) o).
Proof.
  induction l as [|v l IH]; intros a; [reflexivity|]. cbn [fan length]. rewrite rsumn_first, IH. reflexivity.
Qed.

Lemma vtx_lt l i : (i < length l)%nat -> vtx l i = nth i l (0, 0).
Proof. intros H. unfold vtx. now rewrite Nat.mod_small. Qed.

Lemma closed_nth (v0 : p2) (l : list p2) i : (i <= S (length l))%nat ->
  nth i ((v0 :: l) ++ [v0]) (0, 0) = vtx (v0 :: l) i.
Proof.
  intros Hi. unfold vtx. cbn [length]. destruct (Nat.eq_dec i (S (length l))) as [->|].
  - rewrite Nat.mod_same by lia. rewrite app_nth2 by (cbn; lia). replace (S (length l) - length (v0 :: l))%nat with 0%nat by (cbn; lia).
    reflexivity.
  - rewrite Nat.mod_small by lia. rewrite app_nth1 by (cbn; lia). reflexivity.
Qed.

Lemma last_snoc {A} (l : list A) x d : last (l ++ [x]) d = x.
Proof. induction l as [|a l IH]; [reflexivity|]. cbn. rewrite IH. now destruct l. Qed.

Lemma det_closed v0 l :
  det ((v0 :: l) ++ [v0]) = rsumn (length (v0 :: l)) (fun i => area (vtx (v0 :: l) i) (vtx (v0 :: l) (S i)) v0).
Proof.
  unfold det. rewrite last_snoc. change ((v0 :: l) ++ [v0]) with (v0 :: (l ++ [v0])).
  cbn [det_from]. rewrite (det_fan v0), last_snoc, fan_sum.
  replace (length (l ++ [v0])) with (length (v0 :: l)) by (rewrite app_length; cbn; lia).
  rewrite (rsumn_ext _ _ (fun i => area (vtx (v0 :: l) i) (vtx (v0 :: l) (S i)) v0)).
  - unfold cross. ring.
  - intros i Hi. cbn in Hi. f_equal.
    + apply (closed_nth v0 l). lia.
    + rewrite <- (closed_nth v0 l) by lia. reflexivity.
Qed.

Lemma convex_det s v0 l : convex s (v0 :: l) -> 0 < s * det ((v0 :: l) ++ [v0]).
Proof.
  intros [Hn H]. rewrite det_closed, <- rsumn_scal. set (L := v0 :: l) in *.
  assert (E0 : v0 = vtx L 0) by (rewrite vtx_lt by lia; reflexivity).
  assert (Hk : forall k, (k < length L)%nat -> 0 <= s * area (vtx L k) (vtx L (S k)) v0).
  { intros k Hk. rewrite E0. destruct (Nat.eq_dec 0 k) as [<-|]; [unfold area; lra|].
    destruct (Nat.eq_dec 0 (S k mod length L)) as [E|].
    - replace (vtx L (S k)) with (vtx L 0) by (unfold vtx; rewrite <- E, Nat.mod_small by lia; reflexivity). unfold area. lra.
    - apply Rlt_le. apply H; try lia; assumption. }
  assert (H1 : 0 < s * area (vtx L 1) (vtx L 2) v0).
  { rewrite E0. apply H; try lia. destruct (Nat.eq_dec (length L) 2); [lia|]. rewrite Nat.mod_small by lia. lia. }
  apply Rlt_le_trans with (rsumn (length L) (fun k => if (k =? 1)%nat then s * area (vtx L 1) (vtx L 2) v0 else 0)).
  - rewrite (rsumn_single _ 1) by (try lia; intros k _ Hk1; apply Nat.eqb_neq in Hk1; now rewrite Hk1). exact H1.
  - apply rsumn_le. intros k Hk1. destruct (Nat.eqb_spec k 1) as [->|]; [lra|]. now apply Hk.
Qed.

Lemma convex_vtx_neq s l j : convex s l -> (j < length l)%nat -> vtx l j <> vtx l (S j).
Proof.
  intros [Hn H] Hj E.
  assert (Q : exists k, (k < length l)%nat /\ k <> j /\ k <> (S j mod length l)%nat).
  { destruct (Nat.eq_dec (S j) (length l)) as [Ej|].
    - rewrite Ej, Nat.mod_same by lia. exists 1%nat. lia.
    - rewrite Nat.mod_small by lia. destruct (Nat.eq_dec j 0) as [->|]; [exists 2%nat; lia|exists 0%nat; lia]. }
  destruct Q as (k & Hk & H1 & H2). specialize (H j k Hj Hk H1 H2). rewrite <- E in H. unfold area in H. lra.
Qed.

Lemma mk_polygon_convex s v0 l : s = 1 \/ s = -1 -> convex s (v0 :: l) ->
  mk_polygon (v0 :: l) = inl (if Rlt_dec s 0 then rev ((v0 :: l) ++ [v0]) else (v0 :: l) ++ [v0]).
Proof.
  intros Hs H. pose proof (convex_det s v0 l H) as Hd. unfold mk_polygon.
  assert (Hc : (if Req_EM_T (fst v0) (fst (last (v0 :: l) v0)) then
                 if Req_EM_T (snd v0) (snd (last (v0 :: l) v0)) then v0 :: l else (v0 :: l) ++ [v0]
               else (v0 :: l) ++ [v0]) = (v0 :: l) ++ [v0]).
  { destruct (Req_EM_T _ _) as [E1|]; [|reflexivity]. destruct (Req_EM_T _ _) as [E2|]; [|reflexivity]. exfalso.
    pose proof (convex_vtx_neq s (v0 :: l) (length l) H ltac:(cbn; lia)) as Hne. apply Hne.
    destruct H as [Hn _]. rewrite vtx_lt by (cbn; lia).
    replace (vtx (v0 :: l) (S (length l))) with v0 by (unfold vtx; cbn [length]; now rewrite Nat.mod_same by lia).
    assert (El : forall (m : list p2) x d, nth (length m) (x :: m) d = last (x :: m) v0).
    { induction m as [|y m IH]; intros x d; [reflexivity|]. exact (IH y d). }
    rewrite El. assert (P : forall x y : p2, fst x = fst y -> snd x = snd y -> x = y)
      by (intros [x1 x2] [y1 y2]; cbn; congruence).
    symmetry. now apply P. }
  rewrite Hc. set (c := (v0 :: l) ++ [v0]) in *. clearbody c. f_equal.
  destruct (Rlt_dec (det c) 0); destruct (Rlt_dec s 0); try reflexivity; exfalso; destruct Hs as [-> | ->]; lra.
Qed.

(** Polygon(x, y).is_inside for strictly convex polygons given in either
    orientation: the signed distance to the boundary, set to zero below smalld. *)
Theorem polygon_convex s l smalld p : s = 1 \/ s = -1 -> convex s l ->
  exists poly d, mk_polygon l = inl poly /\ 0 <= d
  /\ (forall i t, (i < length l)%nat -> 0 <= t <= 1 -> d <= sqrt (dist2 p (boundary_point l i t)))
  /\ (exists i t, (i < length l)%nat /\ 0 <= t <= 1 /\ d = sqrt (dist2 p (boundary_point l i t)))
  /\ (in_convex s l p -> is_inside poly smalld p = inl (if Rlt_dec d smalld then 0 else d))
  /\ (~ in_convex s l p -> is_inside poly smalld p = inl (if Rlt_dec d smalld then 0 else - d)).
Proof.
  intros Hs H. destruct l as [|v0 l]; [destruct H as [H _]; cbn in H; lia|].
  exists (if Rlt_dec s 0 then rev ((v0 :: l) ++ [v0]) else (v0 :: l) ++ [v0]).
  destruct H as [Hn H]. pose proof (mk_polygon_convex s v0 l Hs (conj Hn H)) as Hmk.
  set (L := v0 :: l) in *. set (n := length L) in *.
  assert (HnL : n = S (length l)) by reflexivity.
  assert (Hlen : length (L ++ [v0]) = S n) by (rewrite app_length; cbn; lia).
  assert (Hc : forall i, (i <= n)%nat -> nth i (L ++ [v0]) (0, 0) = vtx L i) by (intros i Hi; apply closed_nth; lia).
  assert (Hper : vtx L n = vtx L 0) by (unfold vtx; fold n; rewrite Nat.mod_same, Nat.mod_small by lia; reflexivity).
  assert (Hmod : forall j, (j < n)%nat -> (S j mod n)%nat = if (S j =? n)%nat then 0%nat else S j).
  { intros j Hj. destruct (Nat.eqb_spec (S j) n) as [->|]; [apply Nat.mod_same; lia|apply Nat.mod_small; lia]. }
  destruct (Rlt_dec s 0) as [Hneg|Hpos].
  - (* clockwise: reversed by the constructor *)
    assert (s = -1) as -> by lra.
    set (w := fun i => nth i (rev (L ++ [v0])) (0, 0)).
    assert (Hw : forall i, (i <= n)%nat -> w i = vtx L (n - i)).
    { intros i Hi. unfold w. rewrite rev_nth by lia. rewrite Hlen. replace (S n - S i)%nat with (n - i)%nat by lia. apply Hc. lia. }
    assert (Hw0 : w n = w 0%nat).
    { rewrite !Hw by lia. replace (n - n)%nat with 0%nat by lia. replace (n - 0)%nat with n by lia. now rewrite Hper. }
    destruct (is_inside_convex w n p Hn Hw0) with (smalld := smalld) as (d & Hd & Hb1 & Hb2 & H1 & H2).
    { intros j k Hj Hk Hkj Hkn. set (k' := ((n - k) mod n)%nat).
      assert (Ek : vtx L (n - k) = vtx L k') by (unfold vtx, k'; fold n; now rewrite Nat.mod_mod by lia).
      rewrite (Hw j), (Hw (S j)), (Hw k) by lia. rewrite Ek.
      assert (Hk' : k' = if (k =? 0)%nat then 0%nat else (n - k)%nat).
      { unfold k'. destruct (Nat.eqb_spec k 0) as [->|]; [replace (n - 0)%nat with n by lia; apply Nat.mod_same; lia|apply Nat.mod_small; lia]. }
      assert (Q : 0 < -1 * area (vtx L (n - S j)) (vtx L (S (n - S j))) (vtx L k')).
      { apply H; try (fold n; lia).
        - rewrite Hk'. revert Hkn. destruct (Nat.eqb_spec (S j) n); destruct (Nat.eqb_spec k 0); lia.
        - fold n. rewrite Hmod by lia. rewrite Hk'. destruct (Nat.eqb_spec (S (n - S j)) n); destruct (Nat.eqb_spec k 0); lia. }
      replace (S (n - S j)) with (n - j)%nat in Q by lia.
      replace (area (vtx L (n - j)) (vtx L (n - S j)) (vtx L k')) with (- area (vtx L (n - S j)) (vtx L (n - j)) (vtx L k')) by (unfold area; ring).
      lra. }
    assert (Ei : is_inside (rev (L ++ [v0])) smalld p = is_inside_fn w n smalld p).
    { unfold is_inside. rewrite rev_length, Hlen. replace (S n - 1)%nat with n by lia. reflexivity. }
    assert (Hin : inside_poly w n p <-> in_convex (-1) L p).
    { unfold inside_poly, in_convex. fold n. split; intros Hi j Hj.
      - specialize (Hi (n - S j)%nat ltac:(lia)). rewrite !Hw in Hi by lia.
        replace (n - (n - S j))%nat with (S j) in Hi by lia. replace (n - S (n - S j))%nat with j in Hi by lia.
        replace (area (vtx L (S j)) (vtx L j) p) with (- area (vtx L j) (vtx L (S j)) p) in Hi by (unfold area; ring). lra.
      - specialize (Hi (n - S j)%nat ltac:(lia)). rewrite !Hw by lia. replace (S (n - S j)) with (n - j)%nat in Hi by lia.
        replace (area (vtx L (n - j)) (vtx L (n - S j)) p) with (- area (vtx L (n - S j)) (vtx L (n - j)) p) by (unfold area; ring). lra. }
    exists d. split; [exact Hmk|]. split; [assumption|].
    assert (Hbp : forall i t, (i < n)%nat -> on_side (w i) (w (S i)) t = boundary_point L (n - S i) (1 - t)).
    { intros i t Hi. rewrite !Hw by lia. unfold boundary_point. replace (S (n - S i)) with (n - i)%nat by lia.
      unfold on_side. cbn. f_equal; ring. }
    split.
    { intros i t Hi Ht. specialize (Hb1 (n - S i)%nat (1 - t) ltac:(lia) ltac:(lra)). rewrite Hbp in Hb1 by lia.
      replace (n - S (n - S i))%nat with i in Hb1 by lia. replace (1 - (1 - t)) with t in Hb1 by ring. exact Hb1. }
    split.
    { destruct Hb2 as (i & t & Hi & Ht & E). rewrite Hbp in E by lia. exists (n - S i)%nat, (1 - t).
      split; [lia|]. split; [lra|exact E]. }
    rewrite Ei. split; intros Hi; [now apply H1, Hin|]. apply H2. intros Hi'. now apply Hi, Hin.
  - assert (s = 1) as -> by lra.
    set (w := fun i => nth i (L ++ [v0]) (0, 0)).
    assert (Hw : forall i, (i <= n)%nat -> w i = vtx L i) by exact Hc.
    assert (Hw0 : w n = w 0%nat) by (rewrite !Hw by lia; exact Hper).
    destruct (is_inside_convex w n p Hn Hw0) with (smalld := smalld) as (d & Hd & Hb1 & Hb2 & H1 & H2).
    { intros j k Hj Hk Hkj Hkn. rewrite !Hw by lia.
      assert (Q : 0 < 1 * area (vtx L j) (vtx L (S j)) (vtx L k)).
      { apply H; try (fold n; lia). fold n. rewrite Hmod by lia. assumption. }
      lra. }
    assert (Ei : is_inside (L ++ [v0]) smalld p = is_inside_fn w n smalld p).
    { unfold is_inside. rewrite Hlen. replace (S n - 1)%nat with n by lia. reflexivity. }
    assert (Hin : inside_poly w n p <-> in_convex 1 L p).
    { unfold inside_poly, in_convex. fold n. split; intros Hi j Hj; specialize (Hi j Hj); rewrite !Hw in * by lia; lra. }
    exists d. split; [exact Hmk|]. split; [assumption|].
    assert (Hbp : forall i t, (i < n)%nat -> on_side (w i) (w (S i)) t = boundary_point L i t)
      by (intros i t Hi; rewrite !Hw by lia; reflexivity).
    split; [intros i t Hi Ht; rewrite <- Hbp by lia; now apply Hb1|].
    split; [destruct Hb2 as (i & t & Hi & Ht & E); exists i, t; rewrite <- Hbp by lia; auto|].
    rewrite Ei. split; intros Hi; [now apply H1, Hin|]. apply H2. intros Hi'. now apply Hi, Hin.
Qed.

(** A vertex given twice: points outside the corner are reported inside. *)
Theorem polygon_duplicate_vertex : exists poly,
  mk_polygon [(0, 0); (0, 0); (1, 0); (0, 1)] = inl poly
  /\ is_inside poly 1e-12 (-1, -1) = inl (sqrt 2).
Proof.
  exists [(0, 0); (0, 0); (1, 0); (0, 1); (0, 0)]. split.
  - unfold mk_polygon. cbn [last fst snd]. destruct (Req_EM_T 0 0); [|lra]. destruct (Req_EM_T 0 1); [lra|]. cbn [app].
    destruct (Rlt_dec _ 0) as [H|]; [|reflexivity]. unfold det in H. cbn in H. lra.
  - unfold is_inside, is_inside_fn. cbn [length Nat.sub]. unfold scan. cbn [seq fold_left].
    assert (E0 : side (0, 0) (0, 0) (-1, -1) = None) by (unfold side; cbn [fst snd]; destruct (Req_EM_T _ 0); [reflexivity|lra]).
    assert (E1 : side (0, 0) (1, 0) (-1, -1) = Some (2, false)).
    { unfold side. cbn [fst snd]. destruct (Req_EM_T _ 0); [lra|]. destruct (Rlt_dec _ 0) as [|H]; [do 2 f_equal; lra|].
      exfalso. apply H. lra. }
    assert (E2 : side (1, 0) (0, 1) (-1, -1) = Some (9 / 2, true)).
    { unfold side. cbn [fst snd]. destruct (Req_EM_T _ 0); [lra|]. destruct (Rlt_dec _ 0) as [H|]; [exfalso; lra|].
      destruct (Rle_dec _ 1) as [|H]; [do 2 f_equal; lra|]. exfalso. apply H. lra. }
    assert (E3 : side (0, 1) (0, 0) (-1, -1) = None).
    { unfold side. cbn [fst snd]. destruct (Req_EM_T _ 0); [lra|]. destruct (Rlt_dec _ 0) as [H|]; [exfalso; lra|].
      destruct (Rle_dec _ 1) as [H|]; [|reflexivity]. exfalso. lra. }
    unfold improve at 4. cbn [nth]. rewrite E0. unfold improve at 3. cbn [nth]. rewrite E1.
    unfold improve at 2. cbn [nth]. rewrite E2. destruct (Rlt_dec (9 / 2) 2); [lra|].
    unfold improve. cbn [nth]. rewrite E3. cbn [Nat.eqb Nat.sub]. unfold area. cbn [fst snd].
    destruct (Rlt_dec _ 0) as [H|_]; [exfalso; lra|].
    assert (1 < sqrt 2) by (rewrite <- sqrt_1 at 1; apply sqrt_lt_1_alt; lra).
    rewrite Rabs_pos_eq by lra. destruct (Rlt_dec _ _); [lra|reflexivity].
Qed.
