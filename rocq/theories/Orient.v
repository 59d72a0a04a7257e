(** The sign of the area of a polygon (_det, /repo/acoular/grids.py:137-142) tells on which side of its sides the inside is. *)
From Coq Require Import List Arith Lia ZArith Bool Reals Lra.
From Verif Require Import Stream Cplx Polygon Jordan.
Import ListNotations.
Local Open Scope R_scope.

(** ** Truncated functions *)
Lemma Rmin_lip c t u : Rabs (Rmin c t - Rmin c u) <= Rabs (t - u).
Proof.
  unfold Rmin. destruct (Rle_dec c t), (Rle_dec c u); unfold Rabs; repeat destruct (Rcase_abs _); lra.
Qed.
Lemma Rmin_cont c t : continuity_pt (fun u => Rmin c u) t.
Proof.
  intros eps He. exists eps. split; [exact He|]. intros u [_ Hu]. unfold dist in *. cbn in *. unfold R_dist in *.
  eapply Rle_lt_trans; [apply Rmin_lip|exact Hu].
Qed.
Lemma Rmin_deriv (q q' : R -> R) c t : t <> c -> (forall u, derivable_pt_lim q u (q' u)) ->
  derivable_pt_lim (fun u => q (Rmin c u)) t ((if Rlt_dec t c then 1 else 0) * q' t).
Proof.
  intros N Q. assert (P : 0 < Rabs (c - t)) by (apply Rabs_pos_lt; lra). destruct (Rlt_dec t c) as [L|L].
  - apply (deriv_near _ q _ _ (Rabs (c - t)) P); [|rewrite Rmult_1_l; apply Q].
    intros u Hu. f_equal. apply Rmin_right. unfold Rabs in Hu. destruct (Rcase_abs (u - t)), (Rcase_abs (c - t)); lra.
  - apply (deriv_near _ (fun _ => q c) _ _ (Rabs (c - t)) P); [|rewrite Rmult_0_l; apply derivable_pt_lim_const].
    intros u Hu. f_equal. apply Rmin_left. unfold Rabs in Hu. destruct (Rcase_abs (u - t)), (Rcase_abs (c - t)); lra.
Qed.

Lemma total_cont (g : edge -> R -> R) t E : (forall e, In e E -> continuity_pt (g e) t) -> continuity_pt (fun u => total (fun e => g e u) E) t.
Proof.
  induction E as [|e E IH]; intros H; [apply continuity_pt_const; intros x y; reflexivity|].
  apply (continuity_pt_plus (g e) (fun u => total (fun e => g e u) E)); [apply H; now left|]. apply IH. intros f Hf. apply H. now right.
Qed.
Lemma total_deriv (g : edge -> R -> R) (l : edge -> R) t E : (forall e, In e E -> derivable_pt_lim (g e) t (l e)) ->
  derivable_pt_lim (fun u => total (fun e => g e u) E) t (total l E).
Proof.
  induction E as [|e E IH]; intros H; [apply derivable_pt_lim_const|]. rewrite total_cons.
  apply (derivable_pt_lim_plus (g e) (fun u => total (fun e => g e u) E)); [apply H; now left|]. apply IH. intros f Hf. apply H. now right.
Qed.
Lemma total_scal c g E : total (fun e => c * g e) E = c * total g E.
Proof. induction E as [|e E IH]; [cbn; ring|]. rewrite !total_cons, IH. ring. Qed.

(** ** One height *)
Definition level (c y : R) : R := if Rlt_dec y c then 1 else 0.
(** Where the line through a and b has the height y; the direction in which the side passes it. *)
Definition at_height (e : edge) (y : R) : R := fst (fst e) + (fst (snd e) - fst (fst e)) / (snd (snd e) - snd (fst e)) * (y - snd (fst e)).
Definition sigma (e : edge) (y : R) : R := level (snd (snd e)) y - level (snd (fst e)) y.

Lemma cr_level (e : edge) t y : (forall c, In c [snd (fst e); snd (snd e)] -> y <> c) -> cr (fst e) (snd e) (t, y) = sigma e y * level (at_height e y) t.
Proof.
  destruct e as [a b]. intros N. cbn [fst snd] in *. assert (Na := N (snd a) ltac:(now left)). assert (Nb := N (snd b) ltac:(right; now left)).
  unfold cr, sigma, level, at_height. cbn [fst snd].
  destruct (Req_EM_T (snd a) (snd b)) as [E|E]; [rewrite E; dec; lra|].
  assert (A : area a b (t, y) = (snd b - snd a) * (fst a + (fst b - fst a) / (snd b - snd a) * (y - snd a) - t)) by (unfold area; cbn [fst snd]; field; lra).
  rewrite A. set (X := fst a + _) in *. dec; try lra; exfalso; nra.
Qed.

Definition heights (E : list edge) : list R := flat_map (fun e => [snd (fst e); snd (snd e)]) E.

Lemma generic_off E t y : ~ In y (heights E) -> ~ In t (map (fun e => at_height e y) E) -> off E (t, y).
Proof.
  intros Hy Ht. apply Forall_forall. intros [a b] He s Hs Q. cbn [fst snd] in *.
  pose proof (f_equal fst Q) as Q1. pose proof (f_equal snd Q) as Q2. unfold on_side in Q1, Q2. cbn [fst snd] in Q1, Q2.
  destruct (Req_EM_T (snd a) (snd b)) as [E0|E0].
  - apply Hy. apply in_flat_map. exists (a, b). split; [exact He|]. left. cbn [fst snd]. rewrite <- Q2, E0. ring.
  - apply Ht. apply in_map_iff. exists (a, b). split; [|exact He]. unfold at_height. cbn [fst snd]. rewrite <- Q1, <- Q2. field. lra.
Qed.

(** The widths with their signs. *)
Definition width_at (E : list edge) (y : R) : R := total (fun e => sigma e y * at_height e y) E.

Lemma width_slope E y t1 t2 m : balanced E -> ~ In y (heights E) -> t1 <= t2 -> (forall t, off E (t, y) -> wind E (t, y) <= 0) ->
  (forall t, t1 < t < t2 -> wind E (t, y) <= m) -> width_at E y <= m * (t2 - t1).
Proof.
  intros B Hy H12 W0 W1. set (f := fun t => total (fun e => sigma e y * Rmin (at_height e y) t) E).
  assert (C : forall t, continuity_pt f t).
  { intros t. unfold f. apply (total_cont (fun e u => sigma e y * Rmin (at_height e y) u)). intros e _.
    apply (continuity_pt_scal (fun u => Rmin (at_height e y) u)). apply Rmin_cont. }
  assert (Ny : forall e, In e E -> forall c, In c [snd (fst e); snd (snd e)] -> y <> c).
  { intros e He c Hc ->. apply Hy. apply in_flat_map. exists e. split; assumption. }
  set (B0 := map (fun e => at_height e y) E).
  assert (D : forall t, ~ In t B0 -> derivable_pt_lim f t (wind E (t, y))).
  { intros t Ht. assert (Z : wind E (t, y) = total (fun e => sigma e y * (level (at_height e y) t * 1)) E).
    { unfold wind. apply total_ext. intros e He. cbv beta. rewrite (cr_level e t y (Ny e He)). ring. }
    rewrite Z. unfold f. apply (total_deriv (fun e u => sigma e y * Rmin (at_height e y) u)). intros e He.
      apply (derivable_pt_lim_scal (fun u => Rmin (at_height e y) u)).
      apply (Rmin_deriv (fun u => u) (fun _ => 1)); [|intros u; apply derivable_pt_lim_id].
      intros ->. apply Ht. unfold B0. apply in_map_iff. exists e. split; [reflexivity|exact He]. }
  (* bounds of all crossings *)
  assert (Q : exists M, 0 < M /\ forall e, In e E -> - M <= at_height e y <= M).
  { clear. induction E as [|e E (M & HM & IH)]; [exists 1; split; [lra|intros e []]|].
    exists (M + Rabs (at_height e y)). pose proof (Rabs_pos (at_height e y)). split; [lra|]. intros g [<-|Hg]; [|specialize (IH g Hg); lra].
    unfold Rabs. destruct (Rcase_abs (at_height e y)); lra. }
  destruct Q as (M & HM & Q). set (a := Rmin t1 (- M)). set (b := Rmax t2 M).
  assert (Ha : a <= t1 /\ a <= - M) by (unfold a; split; [apply Rmin_l|apply Rmin_r]).
  assert (Hb : t2 <= b /\ M <= b) by (unfold b; split; [apply Rmax_l|apply Rmax_r]).
  assert (Fa : f a = 0).
  { unfold f. rewrite (total_ext _ (fun e => a * (level (snd (snd e)) y - level (snd (fst e)) y))).
    - rewrite total_scal, (B (fun c => level (snd c) y)). ring.
    - intros e He. rewrite Rmin_right by (specialize (Q e He); lra). unfold sigma. ring. }
  assert (Fb : f b = width_at E y).
  { unfold f, width_at. apply total_ext. intros e He. rewrite Rmin_left by (specialize (Q e He); lra). reflexivity. }
  assert (W : forall t, ~ In t B0 -> wind E (t, y) <= 0) by (intros t Ht; apply W0; now apply generic_off).
  pose proof (slope f (fun t => wind E (t, y)) 0 B0 a t1 ltac:(lra) (fun t _ => C t)) as S1.
  pose proof (slope f (fun t => wind E (t, y)) m B0 t1 t2 H12 (fun t _ => C t)) as S2.
  pose proof (slope f (fun t => wind E (t, y)) 0 B0 t2 b ltac:(lra) (fun t _ => C t)) as S3.
  assert (f t1 - f a <= 0 * (t1 - a)) by (apply S1; intros t Ht Hi; split; [now apply D|now apply W]).
  assert (f t2 - f t1 <= m * (t2 - t1)) by (apply S2; intros t Ht Hi; split; [now apply D|now apply W1]).
  assert (f b - f t2 <= 0 * (b - t2)) by (apply S3; intros t Ht Hi; split; [now apply D|now apply W]).
  rewrite <- Fb. lra.
Qed.

(** ** All heights *)
Definition shoelace (E : list edge) : R := total (fun e => fst (fst e) * snd (snd e) - fst (snd e) * snd (fst e)) E.
Definition prim (e : edge) (y : R) : R :=
  fst (fst e) * y + (fst (snd e) - fst (fst e)) / (snd (snd e) - snd (fst e)) * ((y - snd (fst e)) * (y - snd (fst e)) / 2).

Lemma prim_deriv (e : edge) y : derivable_pt_lim (prim e) y (at_height e y).
Proof.
  unfold prim, at_height. set (k := _ / _). set (x := fst (fst e)). set (c := snd (fst e)).
  apply (deriv_near _ (fun u => x * u + k * ((u * u - 2 * c * u + c * c) * / 2)) y _ 1 ltac:(lra)); [intros u _; field|].
  replace (x + k * (y - c)) with (x * 1 + k * (((1 * y + y * 1 - 2 * c * 1 + 0) * / 2 + (y * y - 2 * c * y + c * c) * 0))) by field.
  apply derivable_pt_lim_plus; [apply (derivable_pt_lim_scal id), derivable_pt_lim_id|].
  apply (derivable_pt_lim_scal (fun u => (u * u - 2 * c * u + c * c) * / 2)).
  apply (derivable_pt_lim_mult (fun u => u * u - 2 * c * u + c * c) (fun _ => / 2)); [|apply derivable_pt_lim_const].
  apply (derivable_pt_lim_plus (fun u => u * u - 2 * c * u) (fun _ => c * c)); [|apply derivable_pt_lim_const].
  apply (derivable_pt_lim_minus (fun u => u * u) (fun u => 2 * c * u)).
  - apply (derivable_pt_lim_mult id id); apply derivable_pt_lim_id.
  - apply (derivable_pt_lim_scal id), derivable_pt_lim_id.
Qed.

Theorem orientation E x0 r : balanced E -> (forall x, off E x -> wind E x <= 0) -> 0 < r ->
  (forall x : p2, near r x0 x -> wind E x = -1) -> shoelace E < 0.
Proof.
  intros B W0 Hr W1. set (f := fun y => total (fun e => prim e (Rmin (snd (snd e)) y) - prim e (Rmin (snd (fst e)) y)) E).
  assert (PC : forall e c y, continuity_pt (fun u => prim e (Rmin c u)) y).
  { intros e c y. apply (continuity_pt_comp (fun u => Rmin c u) (prim e)); [apply Rmin_cont|].
    apply derivable_continuous_pt. exists (at_height e (Rmin c y)). apply prim_deriv. }
  assert (C : forall y, continuity_pt f y).
  { intros y. unfold f. apply (total_cont (fun e u => prim e (Rmin (snd (snd e)) u) - prim e (Rmin (snd (fst e)) u))). intros e _.
    apply (continuity_pt_minus (fun u => prim e (Rmin (snd (snd e)) u)) (fun u => prim e (Rmin (snd (fst e)) u))); apply PC. }
  assert (D : forall y, ~ In y (heights E) -> derivable_pt_lim f y (width_at E y)).
  { intros y Hy.
    assert (Z : width_at E y = total (fun e => level (snd (snd e)) y * at_height e y - level (snd (fst e)) y * at_height e y) E).
    { unfold width_at. apply total_ext. intros; unfold sigma; ring. }
    rewrite Z. unfold f.
    apply (total_deriv (fun e u => prim e (Rmin (snd (snd e)) u) - prim e (Rmin (snd (fst e)) u))). intros e He.
    assert (y <> snd (fst e) /\ y <> snd (snd e)) as [N1 N2].
    { split; intros ->; apply Hy, in_flat_map; exists e; (split; [exact He|]); [now left|right; now left]. }
    apply (derivable_pt_lim_minus (fun u => prim e (Rmin (snd (snd e)) u)) (fun u => prim e (Rmin (snd (fst e)) u))).
    - apply (Rmin_deriv (prim e) (at_height e)); [exact N2|apply prim_deriv].
    - apply (Rmin_deriv (prim e) (at_height e)); [exact N1|apply prim_deriv]. }
  assert (Q : exists M, 0 < M /\ forall e, In e E -> - M <= snd (fst e) <= M /\ - M <= snd (snd e) <= M).
  { clear. induction E as [|e E (M & HM & IH)]; [exists 1; split; [lra|intros e []]|].
    exists (M + Rabs (snd (fst e)) + Rabs (snd (snd e))). pose proof (Rabs_pos (snd (fst e))). pose proof (Rabs_pos (snd (snd e))).
    split; [lra|]. intros g [<-|Hg]; [|specialize (IH g Hg); lra].
    pose proof (Rle_abs (snd (fst e))). pose proof (Rle_abs (snd (snd e))).
    pose proof (Rle_abs (- snd (fst e))) as A1. pose proof (Rle_abs (- snd (snd e))) as A2. rewrite Rabs_Ropp in A1, A2. lra. }
  destruct Q as (M & HM & Q). set (y0 := snd x0). set (a := Rmin (y0 - r) (- M)). set (b := Rmax (y0 + r) M).
  assert (Ha : a <= y0 - r /\ a <= - M) by (unfold a; split; [apply Rmin_l|apply Rmin_r]).
  assert (Hb : y0 + r <= b /\ M <= b) by (unfold b; split; [apply Rmax_l|apply Rmax_r]).
  assert (Fa : f a = 0).
  { unfold f. rewrite (total_ext _ (fun e => 0 * 0)); [rewrite total_scal; ring|].
    intros e He. destruct (Q e He). rewrite !Rmin_right by lra. ring. }
  assert (Fb : 2 * f b = shoelace E).
  { unfold f, shoelace. rewrite <- total_scal.
    rewrite (total_ext _ (fun e => (fst (fst e) * snd (snd e) - fst (snd e) * snd (fst e))
               + (fst (snd e) * snd (snd e) - fst (fst e) * snd (fst e)))).
    - rewrite total_plus, (B (fun c => fst c * snd c)). ring.
    - intros e He. destruct (Q e He). rewrite !Rmin_left by lra. unfold prim.
      destruct (Req_EM_T (snd (fst e)) (snd (snd e))) as [E0|E0]; [rewrite E0; ring|]. field. lra. }
  assert (L : forall y, ~ In y (heights E) -> width_at E y <= 0).
  { intros y Hy. replace 0 with (0 * (0 - 0)) by ring. apply width_slope; try assumption; [lra|intros t; apply W0|intros; lra]. }
  assert (L1 : forall y, y0 - r < y < y0 + r -> ~ In y (heights E) -> width_at E y <= - (2 * r)).
  { intros y Hy Hi. replace (- (2 * r)) with (-1 * ((fst x0 + r) - (fst x0 - r))) by ring.
    apply width_slope; try assumption; [lra|intros t; apply W0|]. intros t Ht. right. apply W1. unfold near. cbn [fst snd].
    split; apply Rabs_def1; unfold y0 in Hy; lra. }
  pose proof (slope f (width_at E) 0 (heights E) a (y0 - r) ltac:(lra) (fun t _ => C t)) as S1.
  pose proof (slope f (width_at E) (- (2 * r)) (heights E) (y0 - r) (y0 + r) ltac:(lra) (fun t _ => C t)) as S2.
  pose proof (slope f (width_at E) 0 (heights E) (y0 + r) b ltac:(lra) (fun t _ => C t)) as S3.
  assert (f (y0 - r) - f a <= 0 * (y0 - r - a)) by (apply S1; intros t Ht Hi; split; [now apply D|now apply L]).
  assert (f (y0 + r) - f (y0 - r) <= - (2 * r) * (y0 + r - (y0 - r))) by (apply S2; intros t Ht Hi; split; [now apply D|now apply L1]).
  assert (f b - f (y0 + r) <= 0 * (b - (y0 + r))) by (apply S3; intros t Ht Hi; split; [now apply D|now apply L]).
  assert (0 < r * r) by now apply Rmult_lt_0_compat. nra.
Qed.
