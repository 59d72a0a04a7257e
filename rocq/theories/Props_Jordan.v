(** Property theorems for C66, C44 and C100: Polygon.is_inside and its users with simple polygons, convex or not. *)
From Coq Require Import List Arith Lia ZArith Bool Reals Lra.
From Verif Require Import Stream Cplx Wav Polygon Grids GridMore Props_GridMore Jordan Orient Simple.
Import ListNotations.
Local Open Scope R_scope.

(** C66.  For every simple polygon, given in either orientation and with or without
    the first vertex repeated at the end: is_inside is the distance to the boundary,
    with a positive sign for points from which a half-line crosses an odd number of
    sides, a negative one for the others, and zero below smalld. *)
Theorem C66_simple v0 l smalld p : simple_polygon (v0 :: l) ->
  exists poly d, mk_polygon (v0 :: l) = inl poly /\ mk_polygon ((v0 :: l) ++ [v0]) = inl poly /\ 0 <= d
  /\ (forall i t, (i < length (v0 :: l))%nat -> 0 <= t <= 1 -> d <= sqrt (dist2 p (boundary_point (v0 :: l) i t)))
  /\ (exists i t, (i < length (v0 :: l))%nat /\ 0 <= t <= 1 /\ d = sqrt (dist2 p (boundary_point (v0 :: l) i t)))
  /\ (in_polygon (v0 :: l) p -> is_inside poly smalld p = inl (if Rlt_dec d smalld then 0 else d))
  /\ (~ in_polygon (v0 :: l) p -> is_inside poly smalld p = inl (if Rlt_dec d smalld then 0 else - d)).
Proof. intros H. exact (polygon_simple v0 l H smalld p). Qed.
Print Assumptions C66_simple.

(** C66.  That notion of inside does not depend on the half-line: points joined by a
    polyline that does not meet the boundary are both inside or both outside ... *)
Theorem C66_joined l p q : simple_polygon l -> joined l p q -> in_polygon l p <-> in_polygon l q.
Proof. exact (joined_inside l p q). Qed.
Print Assumptions C66_joined.

(** ... and everything above, below, right or left of all vertices is outside. *)
Theorem C66_far l p : simple_polygon l ->
  (forall i, (i < length l)%nat -> snd (vtx l i) < snd p) \/ (forall i, (i < length l)%nat -> snd p < snd (vtx l i))
  \/ (forall i, (i < length l)%nat -> fst (vtx l i) < fst p) \/ (forall i, (i < length l)%nat -> fst p < fst (vtx l i)) -> ~ in_polygon l p.
Proof.
  intros HS [H|[H|[H|H]]]; [apply far_outside; now left|apply far_outside; right; now left|apply far_outside; right; now right|now apply far_left].
Qed.
Print Assumptions C66_far.

(** C66.  Hence the sign of is_inside is the same along every polyline that keeps
    the distance smalld from the boundary, and negative far away. *)
Theorem C66_sign_kept v0 l poly smalld p q : simple_polygon (v0 :: l) -> mk_polygon (v0 :: l) = inl poly -> 0 < smalld ->
  joined (v0 :: l) p q ->
  forall x y, is_inside poly smalld p = inl x -> is_inside poly smalld q = inl y -> x <> 0 -> y <> 0 -> (0 < x <-> 0 < y).
Proof.
  intros HS M Hs J x y Ex Ey Nx Ny. pose proof (C66_joined _ p q HS J) as I0.
  assert (Q : forall r z, is_inside poly smalld r = inl z -> z <> 0 -> (0 < z <-> in_polygon (v0 :: l) r)).
  { intros r z E N. destruct (C66_simple v0 l smalld r HS) as (poly' & d & M' & _ & Hd & _ & _ & H1 & H2). rewrite M in M'. injection M' as <-.
    destruct (Classical_Prop.classic (in_polygon (v0 :: l) r)) as [C|C].
    - rewrite (H1 C) in E. injection E as <-. destruct (Rlt_dec d smalld); [lra|]. split; [intros _; exact C|intros _; lra].
    - rewrite (H2 C) in E. injection E as <-. destruct (Rlt_dec d smalld); [lra|]. split; [lra|contradiction]. }
  rewrite (Q p x Ex Nx), (Q q y Ey Ny). exact I0.
Qed.
Print Assumptions C66_sign_kept.

(** What its users need. *)
Lemma simple_any l : simple_polygon l -> exists poly, mk_polygon l = inl poly /\ forall p, exists d, 0 <= d
  /\ (forall i t, (i < length l)%nat -> 0 <= t <= 1 -> d <= sqrt (dist2 p (boundary_point l i t)))
  /\ (exists i t, (i < length l)%nat /\ 0 <= t <= 1 /\ d = sqrt (dist2 p (boundary_point l i t)))
  /\ (in_polygon l p -> is_inside poly 1e-12 p = inl (if Rlt_dec d 1e-12 then 0 else d))
  /\ (~ in_polygon l p -> is_inside poly 1e-12 p = inl (if Rlt_dec d 1e-12 then 0 else - d)).
Proof.
  intros HS. destruct l as [|v0 l]; [destruct HS as [H _]; cbn in H; lia|].
  destruct (C66_simple v0 l 1e-12 (0, 0) HS) as (poly & _ & M & _). exists poly. split; [exact M|]. intros p.
  destruct (C66_simple v0 l 1e-12 p HS) as (poly' & d & M' & _ & H). rewrite M in M'. injection M' as <-. exists d. exact H.
Qed.

(** C44.  PolySector with a simple polygon, convex or not, vertices in either order. *)
Theorem C44_poly_simple_partial edges (border : bool) tol pts : simple_polygon edges -> 1e-12 <= tol ->
  exists l, poly_contains border tol false edges pts = inl l /\ length l = length pts
  /\ forall i o, (i < length pts)%nat -> (nth i l false = true <->
       if border then in_polygon edges (px (nth i pts o), py (nth i pts o)) \/ near_boundary edges tol (nth i pts o)
       else in_polygon edges (px (nth i pts o), py (nth i pts o))
            /\ forall k t, (k < length edges)%nat -> 0 <= t <= 1 ->
               1e-12 <= sqrt (dist2 (px (nth i pts o), py (nth i pts o)) (boundary_point edges k t))).
Proof.
  intros HS Htol. destruct (simple_any edges HS) as (poly & Epoly & Hp).
  unfold poly_contains. rewrite Epoly. rewrite existsb_false.
  2:{ intros p _. destruct (Hp (px p, py p)) as (d & _ & _ & _ & H3 & H4).
      destruct (Classical_Prop.classic (in_polygon edges (px p, py p))) as [Hi|Hi]; [rewrite H3|rewrite H4]; auto. }
  unfold or_wrong_nearest. rewrite andb_false_r. eexists. split; [reflexivity|]. split; [apply map_length|].
  intros i o Hi.
  match goal with |- context [map ?g pts] => set (f := g) end.
  rewrite (nth_indep _ false (f o)), (map_nth f) by (rewrite map_length; assumption).
  set (p := nth i pts o). unfold f. destruct (Hp (px p, py p)) as (d & Hd & H1 & H2 & H3 & H4).
  destruct border.
  - rewrite (near_boundary_iff edges d tol p H1 H2).
    destruct (Classical_Prop.classic (in_polygon edges (px p, py p))) as [Hin|Hout].
    + rewrite H3 by assumption. destruct (Rlt_dec d 1e-12); destruct (Rle_dec _ _); intuition lra.
    + rewrite H4 by assumption. destruct (Rlt_dec d 1e-12); destruct (Rle_dec _ _); intuition; try lra; try discriminate.
  - assert (Hb : (forall k t, (k < length edges)%nat -> 0 <= t <= 1 -> 1e-12 <= sqrt (dist2 (px p, py p) (boundary_point edges k t))) <-> 1e-12 <= d).
    { split.
      - intros H. destruct H2 as (k & t & Hk & Ht & ->). now apply H.
      - intros H k t Hk Ht. specialize (H1 k t Hk Ht). lra. }
    rewrite Hb. destruct (Classical_Prop.classic (in_polygon edges (px p, py p))) as [Hin|Hout].
    + rewrite H3 by assumption. rewrite gt_spec. destruct (Rlt_dec d 1e-12); intuition lra.
    + rewrite H4 by assumption. rewrite gt_spec. destruct (Rlt_dec d 1e-12); intuition lra.
Qed.
Print Assumptions C44_poly_simple_partial.

(** C100.  RectGrid.indices(x1, y1, ..., xn, yn) with a simple polygon: exactly the
    points of the grid in the polygon or closer than 1e-12 to its boundary. *)
Theorem C100_simple_polygon_partial g edges : gfits g -> simple_polygon edges ->
  let inside p := in_polygon edges p \/ exists i t, (i < length edges)%nat /\ 0 <= t <= 1 /\ sqrt (dist2 p (boundary_point edges i t)) < 1e-12 in
  ((exists i j, (0 <= i < gnx g)%Z /\ (0 <= j < gny g)%Z /\ inside (gpos g i j)) ->
     exists l, indices_polygon g edges = inl l /\ selects g inside l)
  /\ ((forall i j, (0 <= i < gnx g)%Z -> (0 <= j < gny g)%Z -> ~ inside (gpos g i j)) ->
     indices_polygon g edges = match gindex g (fst (centroid edges)) (snd (centroid edges)) with inl p => inl [p] | inr e => inr e end).
Proof.
  intros Hg HS inside. destruct (simple_any edges HS) as (poly & Epoly & Hp).
  assert (K : forall p, exists d, is_inside poly 1e-12 p = inl d /\ (0 <= d <-> inside p)).
  { intros p. destruct (Hp p) as (d & Hd & Hmin & Hat & Hin & Hout).
    destruct (Classical_Prop.classic (in_polygon edges p)) as [Hi|Hi].
    - exists (if Rlt_dec d 1e-12 then 0 else d). split; [apply Hin, Hi|]. split; [intros _; left; exact Hi|]. intros _. destruct (Rlt_dec _ _); lra.
    - exists (if Rlt_dec d 1e-12 then 0 else - d). split; [apply Hout, Hi|]. destruct (Rlt_dec d 1e-12) as [L|L].
      + split; [|lra]. intros _. right. destruct Hat as (i & t & H1 & H2 & H3). exists i, t. rewrite <- H3. tauto.
      + split; [intros; lra|]. intros [H|(i & t & H1 & H2 & H3)]; [contradiction|]. pose proof (Hmin i t H1 H2). lra. }
  assert (Eb : existsb (fun p => match is_inside poly 1e-12 p with inr _ => true | inl _ => false end) (gpoints g) = false).
  { apply not_true_iff_false. intros H. apply existsb_exists in H as (p & _ & H). destruct (K p) as (d & E & _). rewrite E in H. discriminate. }
  unfold indices_polygon. rewrite Epoly, Eb. apply select_exact; [exact Hg|].
  intros p. destruct (K p) as (d & E & H). rewrite E, <- H. destruct (Rle_dec 0 d); split; try tauto; discriminate.
Qed.
Print Assumptions C100_simple_polygon_partial.

(** C66 fails for a polygon that crosses itself: (7/4, 1) lies in one of the two
    lobes of the bow tie (0,0), (2,2), (2,0), (0,2). *)
Theorem C66_crossing_refuted : exists poly, mk_polygon [(0, 0); (2, 2); (2, 0); (0, 2)] = inl poly
  /\ in_polygon [(0, 0); (2, 2); (2, 0); (0, 2)] (7/4, 1) /\ is_inside poly 1e-12 (7/4, 1) = inl (- (1/4)).
Proof. exact polygon_crossing. Qed.
Print Assumptions C66_crossing_refuted.

(** A chevron with a reflex corner at (1, 0). *)
Definition chevron : list p2 := [(3, 0); (0, 2); (1, 0); (0, -2)].
Lemma chevron_simple : simple_polygon chevron.
Proof.
  split; [cbn; lia|]. intros i j s t Hi Hj N Hs Ht E. cbn [length chevron] in *.
  unfold boundary_point, vtx in E. pose proof (f_equal fst E) as E1. pose proof (f_equal snd E) as E2.
  destruct i as [|[|[|[|i]]]]; [| | | |lia]; destruct j as [|[|[|[|j]]]]; try lia;
    cbn [length chevron Nat.modulo Nat.divmod Nat.sub fst snd nth on_side] in E1, E2 |- *;
    first [exfalso; lra | left; repeat split; lra | right; repeat split; lra | nra].
Qed.

Lemma chevron_inside x : 1 < x < 3 -> in_polygon chevron (x, 0).
Proof.
  intros Hx. exists [0%nat]. split; [constructor; [intros []|constructor]|]. split; [|now exists 0%nat]. intros i. split.
  - intros [<-|[]]. split; [cbn; lia|]. unfold crosses, vtx. cbn [length chevron Nat.modulo Nat.divmod Nat.sub fst snd nth on_side]. split; [left; lra|]. exists 0. lra.
  - intros [Hi C]. cbn [length chevron] in Hi. unfold crosses, vtx in C.
    destruct i as [|[|[|[|i]]]]; [now left|exfalso|exfalso|exfalso|lia];
      cbn [length chevron Nat.modulo Nat.divmod Nat.sub fst snd nth on_side] in C; destruct C as (B & s & C); lra.
Qed.

Example C66_simple_case : exists poly d, mk_polygon chevron = inl poly /\ 0 <= d
  /\ is_inside poly 1e-12 (6/5, 0) = inl (if Rlt_dec d 1e-12 then 0 else d)
  /\ ~ in_polygon chevron (1/2, 0).
Proof.
  destruct (C66_simple (3, 0) [(0, 2); (1, 0); (0, -2)] 1e-12 (6/5, 0) chevron_simple) as (poly & d & M & _ & Hd & _ & _ & H & _).
  exists poly, d. split; [exact M|]. split; [exact Hd|]. split.
  - apply H, chevron_inside. lra.
  - intros (J & ND & HJ & O).
    assert (P : Permutation.Permutation J [0%nat; 1%nat]).
    { apply Permutation.NoDup_Permutation; [exact ND|repeat constructor; cbn; intuition lia|]. intros i. rewrite HJ. split.
      - intros [Hi C]. cbn [length chevron] in Hi. unfold crosses, vtx in C.
        destruct i as [|[|[|[|i]]]]; [now left|right; now left|exfalso|exfalso|lia];
          cbn [length chevron Nat.modulo Nat.divmod Nat.sub fst snd nth on_side] in C; destruct C as (B & s & C); lra.
      - intros [<-|[<-|[]]]; (split; [cbn; lia|]); unfold crosses, vtx; cbn [length chevron Nat.modulo Nat.divmod Nat.sub fst snd nth on_side].
        + split; [left; lra|]. exists 0. lra.
        + split; [right; lra|]. exists 1. lra. }
    rewrite (Permutation.Permutation_length P) in O. destruct O as (k & O). cbn in O. lia.
Qed.

Example C44_poly_simple_case : exists l, poly_contains true 1e-12 false chevron [(6/5, 0, 1)] = inl l /\ length l = 1%nat.
Proof. destruct (C44_poly_simple_partial chevron true 1e-12 [(6/5, 0, 1)] chevron_simple ltac:(lra)) as (l & E & H & _). exists l. auto. Qed.

Example C100_simple_polygon_case : exists l, indices_polygon (mk_multiple 0 0 1 10 10) chevron = inl l /\ In (2, 0)%Z l.
Proof.
  assert (Hg : gfits (mk_multiple 0 0 1 10 10)) by (split; apply (fits_multiple 0 1 10); lra || lia).
  assert (Hp : gpos (mk_multiple 0 0 1 10 10) 2 0 = (2, 0)).
  { unfold gpos, gnx, gny, mk_multiple. cbn [gx0 gx1 gy0 gy1 ginc]. rewrite !steps_multiple, !axis_multiple by (lra || lia). f_equal; lra. }
  assert (H0 : (0 <= 2 < gnx (mk_multiple 0 0 1 10 10))%Z /\ (0 <= 0 < gny (mk_multiple 0 0 1 10 10))%Z).
  { unfold gnx, gny. cbn [mk_multiple gx0 gx1 gy0 gy1 ginc]. rewrite !steps_multiple by (lra || lia). lia. }
  assert (Hin : in_polygon chevron (gpos (mk_multiple 0 0 1 10 10) 2 0)) by (rewrite Hp; apply chevron_inside; lra).
  destruct (C100_simple_polygon_partial _ chevron Hg chevron_simple) as [H _].
  destruct H as (l & E & _ & H); [exists 2%Z, 0%Z; split; [apply H0|]; split; [apply H0|]; left; exact Hin|]. exists l. split; [exact E|]. apply H.
  split; [apply H0|]. split; [apply H0|]. left. exact Hin.
Qed.
