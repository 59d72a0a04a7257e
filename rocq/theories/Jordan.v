(** Polygon.is_inside (/repo/acoular/grids.py:189-301) for every simple polygon.  Nothing of the code is modelled here (that is
    Polygon.v); this file has the winding number, by counting the sides that a half line to the right crosses, and what is needed
    of the Jordan curve theorem for polygons. *)
From Coq Require Import List Arith Lia ZArith Bool Reals Lra.
From Verif Require Import Stream Cplx Polygon.
Import ListNotations.
Local Open Scope R_scope.

(** The side from a to b crosses the half line from x to the right: upwards 1, downwards -1.  Lower ends belong to a side. *)
Definition cr (a b x : p2) : R :=
  if Rlt_dec (snd x) (snd b) then
    if Rlt_dec (snd x) (snd a) then 0 else if Rlt_dec 0 (area a b x) then 1 else 0
  else if Rlt_dec (snd x) (snd a) then if Rlt_dec (area a b x) 0 then -1 else 0 else 0.

Ltac dec := repeat match goal with
  | |- context [Rlt_dec ?a ?b] => destruct (Rlt_dec a b)
  | H : context [Rlt_dec ?a ?b] |- _ => destruct (Rlt_dec a b) end.

Lemma area_swap a b x : area b a x = - area a b x.
Proof. unfold area. ring. Qed.

Lemma cr_anti a b x : cr b a x = - cr a b x.
Proof. unfold cr. rewrite (area_swap a b x). dec; lra. Qed.

Definition tri (a b c x : p2) : R := cr a b x + cr b c x + cr c a x.

Lemma tri_sum a b c x : area a b x + area b c x + area c a x = area a b c.
Proof. unfold area. ring. Qed.
Lemma tri_height a b c x : area b c x * (snd a - snd x) + area c a x * (snd b - snd x) + area a b x * (snd c - snd x) = 0.
Proof. unfold area. ring. Qed.
Lemma area_flat a b x : snd a = snd x -> snd b = snd x -> area a b x = 0.
Proof. intros A B. unfold area. rewrite A, B. ring. Qed.

Lemma tri_in a b c x : 0 < area a b x -> 0 < area b c x -> 0 < area c a x -> tri a b c x = 1.
Proof.
  intros C A B. pose proof (tri_height a b c x) as H.
  assert (F : ~ (snd a <= snd x /\ snd b <= snd x /\ snd c <= snd x)).
  { intros (Fa & Fb & Fc). assert (snd a = snd x) by nra. assert (snd b = snd x) by nra.
    rewrite (area_flat a b x) in C by assumption. lra. }
  unfold tri, cr. dec; try lra; exfalso; try (apply F; lra); nra.
Qed.

Lemma tri_out a b c x : 0 < area a b c -> area a b x < 0 \/ area b c x < 0 \/ area c a x < 0 -> tri a b c x = 0.
Proof.
  intros T O. pose proof (tri_height a b c x) as H. pose proof (tri_sum a b c x) as S.
  set (C := area a b x) in *. set (A := area b c x) in *. set (B := area c a x) in *.
  unfold tri, cr. fold A B C.
  dec; try lra; exfalso; destruct O as [O | [O | O]]; try lra; nra.
Qed.

Lemma tri_anti a b c x : tri a b c x = - tri a c b x.
Proof. unfold tri. rewrite (cr_anti a c x), (cr_anti c b x), (cr_anti b a x). ring. Qed.

Lemma area_turn a b c : area a c b = - area a b c.
Proof. unfold area. ring. Qed.

Lemma tri_in_neg a b c x : area a b x < 0 -> area b c x < 0 -> area c a x < 0 -> tri a b c x = -1.
Proof.
  intros C A B. rewrite tri_anti, tri_in; [lra| | |]; rewrite area_swap; lra.
Qed.

Lemma tri_out_neg a b c x : area a b c < 0 -> 0 < area a b x \/ 0 < area b c x \/ 0 < area c a x -> tri a b c x = 0.
Proof.
  intros T O. rewrite tri_anti, tri_out; [lra| |].
  - rewrite area_turn. lra.
  - rewrite (area_swap c a x), (area_swap b c x), (area_swap a b x). lra.
Qed.

(** Three points on a line, x not on it. *)
Lemma tri_line a c s x : 0 < s < 1 -> area a c x <> 0 -> tri a (on_side a c s) c x = 0.
Proof.
  intros Hs N.
  assert (E1 : area a (on_side a c s) x = s * area a c x) by (unfold area, on_side; cbn [fst snd]; ring).
  assert (E2 : area (on_side a c s) c x = (1 - s) * area a c x) by (unfold area, on_side; cbn [fst snd]; ring).
  unfold tri. rewrite (cr_anti a c x). unfold cr. rewrite E1, E2.
  assert (Y : snd (on_side a c s) = snd a + s * (snd c - snd a)) by reflexivity. rewrite Y.
  set (r := area a c x) in *.
  assert (R : 0 < r \/ r < 0) by (destruct (Rtotal_order r 0) as [?|[?|?]]; [now right|contradiction|now left]).
  assert (R1 : 0 < r -> 0 < s * r /\ 0 < (1 - s) * r) by (intros; split; apply Rmult_lt_0_compat; lra).
  assert (R2 : r < 0 -> s * r < 0 /\ (1 - s) * r < 0) by (intros; split; nra).
  destruct R as [R|R]; [destruct (R1 R)|destruct (R2 R)]; dec; try lra; exfalso; nra.
Qed.

(* ------------------------------------------------------------------ *)
(** ** Local constancy *)

Definition near (d : R) (x0 x : p2) : Prop := Rabs (fst x - fst x0) < d /\ Rabs (snd x - snd x0) < d.
Definition off_side (a b x : p2) : Prop := forall s, 0 <= s <= 1 -> on_side a b s <> x.

Lemma near_le d d' x0 x : d <= d' -> near d x0 x -> near d' x0 x.
Proof. intros H [A B]. split; lra. Qed.
Lemma near_self d x : 0 < d -> near d x x.
Proof. intros H. split; rewrite Rminus_diag_eq, Rabs_R0 by reflexivity; exact H. Qed.

Lemma p2_eq (a b : p2) : fst a = fst b -> snd a = snd b -> a = b.
Proof. destruct a, b. cbn. congruence. Qed.

Lemma area_near a b x0 : exists L, 0 < L /\ forall d x, near d x0 x -> Rabs (area a b x - area a b x0) <= L * d.
Proof.
  exists (Rabs (fst b - fst a) + Rabs (snd b - snd a) + 1). pose proof (Rabs_pos (fst b - fst a)). pose proof (Rabs_pos (snd b - snd a)).
  split; [lra|]. intros d x [A B].
  replace (area a b x - area a b x0) with ((fst b - fst a) * (snd x - snd x0) - (snd b - snd a) * (fst x - fst x0)) by (unfold area; ring).
  eapply Rle_trans; [apply Rabs_triang|]. rewrite Rabs_Ropp, !Rabs_mult.
  pose proof (Rabs_pos (fst x - fst x0)). pose proof (Rabs_pos (snd x - snd x0)). nra.
Qed.

Lemma area_sign a b x0 : area a b x0 <> 0 -> exists d, 0 < d /\ forall x : p2, near d x0 x ->
  (0 < area a b x0 -> 0 < area a b x) /\ (area a b x0 < 0 -> area a b x < 0).
Proof.
  intros N. destruct (area_near a b x0) as (L & HL & H). set (r := area a b x0) in *.
  assert (P : 0 < Rabs r) by now apply Rabs_pos_lt.
  exists (Rabs r / (2 * L)). split; [apply Rdiv_lt_0_compat; lra|].
  intros x Hx. specialize (H _ _ Hx).
  replace (L * (Rabs r / (2 * L))) with (Rabs r / 2) in H by (field; lra).
  assert (Q : - (Rabs r / 2) <= area a b x - r <= Rabs r / 2).
  { unfold Rabs in H at 1. destruct (Rcase_abs (area a b x - r)); lra. }
  unfold Rabs in Q. destruct (Rcase_abs r); split; intros; lra.
Qed.

Lemma ratio u x w : u <> w -> (u <= x <= w \/ w <= x <= u) -> 0 <= (x - u) / (w - u) <= 1.
Proof.
  intros N H. assert (K : forall t, 0 < t -> 0 < / t) by exact Rinv_0_lt_compat. destruct H as [H|H].
  - specialize (K (w - u) ltac:(lra)). split; [unfold Rdiv; nra|].
    apply Rmult_le_reg_r with (w - u); [lra|]. unfold Rdiv. rewrite Rmult_assoc, Rinv_l by lra. lra.
  - replace ((x - u) / (w - u)) with ((u - x) / (u - w)) by (field; lra).
    specialize (K (u - w) ltac:(lra)). split; [unfold Rdiv; nra|].
    apply Rmult_le_reg_r with (u - w); [lra|]. unfold Rdiv. rewrite Rmult_assoc, Rinv_l by lra. lra.
Qed.

(** Vertices at the height of x0 to its right: they switch on below. *)
Definition up (a x : p2) : R := if Rlt_dec (snd x) (snd a) then 1 else 0.
Definition ev (x0 a x : p2) : R := if Req_EM_T (snd a) (snd x0) then if Rlt_dec (fst x0) (fst a) then up a x else 0 else 0.

Lemma ev_self x0 a : ev x0 a x0 = 0.
Proof. unfold ev, up. destruct (Req_EM_T _ _) as [E|]; [|reflexivity]. destruct (Rlt_dec (fst x0) (fst a)); [|reflexivity]. destruct (Rlt_dec _ _); lra. Qed.

Lemma up_near (a x0 : p2) : snd a <> snd x0 -> exists d, 0 < d /\ forall x : p2, near d x0 x -> (snd x < snd a <-> snd x0 < snd a).
Proof.
  intros N. exists (Rabs (snd a - snd x0)). split; [apply Rabs_pos_lt; lra|]. intros x [_ B].
  unfold Rabs in B. destruct (Rcase_abs (snd a - snd x0)); destruct (Rcase_abs (snd x - snd x0)); lra.
Qed.

Lemma edge_local a b x0 : off_side a b x0 -> exists d, 0 < d /\ forall x : p2, near d x0 x ->
  cr a b x - (ev x0 b x - ev x0 a x) = cr a b x0.
Proof.
  intros O.
  assert (Na : x0 <> a). { intros ->. apply (O 0 ltac:(lra)). apply p2_eq; cbn [on_side fst snd]; ring. }
  assert (Nb : x0 <> b). { intros ->. apply (O 1 ltac:(lra)). apply p2_eq; cbn [on_side fst snd]; ring. }
  destruct (Req_EM_T (snd a) (snd x0)) as [Ea|Ea], (Req_EM_T (snd b) (snd x0)) as [Eb|Eb].
  - (* level side *)
    assert (X : fst x0 < fst a <-> fst x0 < fst b).
    { destruct (Rlt_dec (fst x0) (fst a)) as [A|A], (Rlt_dec (fst x0) (fst b)) as [B|B]; try tauto; exfalso.
      all: apply (O ((fst x0 - fst a) / (fst b - fst a))); [apply ratio; lra|].
      all: apply p2_eq; cbn [on_side fst snd]; [field; lra|rewrite Ea, Eb; ring]. }
    exists 1. split; [lra|]. intros x _. unfold ev, up, cr. rewrite Ea, Eb.
    destruct (Req_EM_T (snd x0) (snd x0)); [|lra]. dec; try lra; tauto.
  - assert (fst x0 <> fst a) by (intros E; apply Na, p2_eq; lra).
    assert (Ar : area a b x0 = (snd b - snd a) * (fst a - fst x0)) by (unfold area; rewrite Ea; ring).
    assert (Ar0 : area a b x0 <> 0) by (rewrite Ar; apply Rmult_integral_contrapositive_currified; lra).
    destruct (up_near b x0 Eb) as (d1 & Hd1 & H1). destruct (area_sign a b x0 Ar0) as (d2 & Hd2 & H2).
    exists (Rmin d1 d2). split; [now apply Rmin_glb_lt|]. intros x Hx.
    specialize (H1 x (near_le _ _ _ _ (Rmin_l _ _) Hx)). specialize (H2 x (near_le _ _ _ _ (Rmin_r _ _) Hx)).
    unfold ev, up, cr. destruct (Req_EM_T (snd b) (snd x0)); [contradiction|]. destruct (Req_EM_T (snd a) (snd x0)); [|contradiction].
    rewrite Ea in *. destruct (Rtotal_order (snd b) (snd x0)) as [Hb|[Hb|Hb]]; [|contradiction|].
    + destruct (Rtotal_order (fst x0) (fst a)) as [Hf|[Hf|Hf]]; [|contradiction|].
      * assert (area a b x0 < 0) by (rewrite Ar; nra). dec; try lra; exfalso; try tauto; lra.
      * assert (0 < area a b x0) by (rewrite Ar; nra). dec; try lra; exfalso; try tauto; lra.
    + destruct (Rtotal_order (fst x0) (fst a)) as [Hf|[Hf|Hf]]; [|contradiction|].
      * assert (0 < area a b x0) by (rewrite Ar; nra). dec; try lra; exfalso; try tauto; lra.
      * assert (area a b x0 < 0) by (rewrite Ar; nra). dec; try lra; exfalso; try tauto; lra.
  - assert (fst x0 <> fst b) by (intros E; apply Nb, p2_eq; lra).
    assert (Ar : area a b x0 = (snd b - snd a) * (fst b - fst x0)) by (unfold area; rewrite Eb; ring).
    assert (Ar0 : area a b x0 <> 0) by (rewrite Ar; apply Rmult_integral_contrapositive_currified; lra).
    destruct (up_near a x0 Ea) as (d1 & Hd1 & H1). destruct (area_sign a b x0 Ar0) as (d2 & Hd2 & H2).
    exists (Rmin d1 d2). split; [now apply Rmin_glb_lt|]. intros x Hx.
    specialize (H1 x (near_le _ _ _ _ (Rmin_l _ _) Hx)). specialize (H2 x (near_le _ _ _ _ (Rmin_r _ _) Hx)).
    unfold ev, up, cr. destruct (Req_EM_T (snd a) (snd x0)); [contradiction|]. destruct (Req_EM_T (snd b) (snd x0)); [|contradiction].
    rewrite Eb in *. destruct (Rtotal_order (snd a) (snd x0)) as [Hb|[Hb|Hb]]; [|contradiction|].
    + destruct (Rtotal_order (fst x0) (fst b)) as [Hf|[Hf|Hf]]; [|contradiction|].
      * assert (0 < area a b x0) by (rewrite Ar; nra). dec; try lra; exfalso; try tauto; lra.
      * assert (area a b x0 < 0) by (rewrite Ar; nra). dec; try lra; exfalso; try tauto; lra.
    + destruct (Rtotal_order (fst x0) (fst b)) as [Hf|[Hf|Hf]]; [|contradiction|].
      * assert (area a b x0 < 0) by (rewrite Ar; nra). dec; try lra; exfalso; try tauto; lra.
      * assert (0 < area a b x0) by (rewrite Ar; nra). dec; try lra; exfalso; try tauto; lra.
  - destruct (up_near a x0 Ea) as (d1 & Hd1 & H1). destruct (up_near b x0 Eb) as (d2 & Hd2 & H2).
    assert (D : exists d3, 0 < d3 /\ forall x : p2, near d3 x0 x -> (snd x0 < snd a <-> snd x0 < snd b) \/ 
      ((0 < area a b x <-> 0 < area a b x0) /\ (area a b x < 0 <-> area a b x0 < 0))).
    { destruct (Req_EM_T (area a b x0) 0) as [Z|Z].
      - exists 1. split; [lra|]. intros x _. left.
        destruct (Rlt_dec (snd x0) (snd a)) as [A|A], (Rlt_dec (snd x0) (snd b)) as [B|B]; try tauto; exfalso.
        all: apply (O ((snd x0 - snd a) / (snd b - snd a))); [apply ratio; lra|].
        all: apply p2_eq; cbn [on_side fst snd]; [|field; lra].
        all: apply Rmult_eq_reg_r with (snd b - snd a); [|lra]; unfold area in Z; field_simplify; lra.
      - destruct (area_sign a b x0 Z) as (d3 & Hd3 & H3). exists d3. split; [exact Hd3|]. intros x Hx. right. destruct (H3 x Hx) as [P Q].
        destruct (Rtotal_order (area a b x0) 0) as [C|[C|C]]; [|contradiction|].
        + specialize (Q C). split; split; lra.
        + specialize (P C). split; split; lra. }
    destruct D as (d3 & Hd3 & H3).
    exists (Rmin (Rmin d1 d2) d3). split; [repeat apply Rmin_glb_lt; assumption|]. intros x Hx.
    assert (Hx' := near_le _ _ _ _ (Rmin_l _ _) Hx).
    specialize (H1 x (near_le _ _ _ _ (Rmin_l _ _) Hx')). specialize (H2 x (near_le _ _ _ _ (Rmin_r _ _) Hx')).
    specialize (H3 x (near_le _ _ _ _ (Rmin_r _ _) Hx)).
    unfold ev. destruct (Req_EM_T (snd a) (snd x0)); [contradiction|]. destruct (Req_EM_T (snd b) (snd x0)); [contradiction|].
    unfold cr. dec; try lra; exfalso; tauto.
Qed.

(* ------------------------------------------------------------------ *)
(** ** Families of sides, and the winding number *)
Definition edge := (p2 * p2)%type.
Definition total (g : edge -> R) (E : list edge) : R := fold_right (fun e s => g e + s) 0 E.
Definition wind (E : list edge) (x : p2) : R := total (fun e => cr (fst e) (snd e) x) E.
(** As many sides end in every point as start there. *)
Definition balanced (E : list edge) : Prop := forall f : p2 -> R, total (fun e => f (snd e) - f (fst e)) E = 0.
Definition off (E : list edge) (x : p2) : Prop := Forall (fun e => off_side (fst e) (snd e) x) E.

Lemma total_plus g h E : total (fun e => g e + h e) E = total g E + total h E.
Proof. induction E as [|e E IH]; cbn [total fold_right]; [ring|]. fold (total (fun e => g e + h e) E) (total g E) (total h E). rewrite IH. ring. Qed.
Lemma total_cons g e E : total g (e :: E) = g e + total g E.
Proof. reflexivity. Qed.
Lemma total_ext g h E : (forall e, In e E -> g e = h e) -> total g E = total h E.
Proof. induction E as [|e E IH]; intros H; [reflexivity|]. rewrite !total_cons, (H e), IH; [reflexivity| |now left]. intros f Hf. apply H. now right. Qed.

Lemma wind_cons a b E x : wind ((a, b) :: E) x = cr a b x + wind E x.
Proof. reflexivity. Qed.

Lemma wind_local E x0 : balanced E -> off E x0 -> exists d, 0 < d /\ forall x : p2, near d x0 x -> wind E x = wind E x0.
Proof.
  intros B O.
  assert (K : exists d, 0 < d /\ forall x : p2, near d x0 x ->
    total (fun e => cr (fst e) (snd e) x - (ev x0 (snd e) x - ev x0 (fst e) x)) E = wind E x0).
  { clear B. induction O as [|[a b] E He O IH]; [exists 1; split; [lra|reflexivity]|].
    destruct IH as (d1 & Hd1 & H1). destruct (edge_local a b x0 He) as (d2 & Hd2 & H2).
    exists (Rmin d1 d2). split; [now apply Rmin_glb_lt|]. intros x Hx. rewrite total_cons, wind_cons.
    rewrite (H1 x (near_le _ _ _ _ (Rmin_l _ _) Hx)). cbn [fst snd]. now rewrite (H2 x (near_le _ _ _ _ (Rmin_r _ _) Hx)). }
  destruct K as (d & Hd & H). exists d. split; [exact Hd|]. intros x Hx. rewrite <- (H x Hx).
  pose proof (B (fun a => ev x0 a x)) as Z. cbv beta in Z.
  unfold wind. rewrite (total_ext (fun e => cr (fst e) (snd e) x)
    (fun e => (cr (fst e) (snd e) x - (ev x0 (snd e) x - ev x0 (fst e) x)) + (ev x0 (snd e) x - ev x0 (fst e) x))) by (intros; ring).
  rewrite total_plus, Z. ring.
Qed.

(* ------------------------------------------------------------------ *)
(** ** Functions with a bounded slope except in finitely many points *)
Lemma slope (f f' : R -> R) (m : R) : forall (B : list R) a b, a <= b ->
  (forall t, a <= t <= b -> continuity_pt f t) ->
  (forall t, a < t < b -> ~ In t B -> derivable_pt_lim f t (f' t) /\ f' t <= m) -> f b - f a <= m * (b - a).
Proof.
  induction B as [|c B IH]; intros a b Hab Hc Hd.
  - destruct (Req_EM_T a b) as [<-|N]; [lra|].
    assert (D : forall t, a < t < b -> derivable_pt f t) by (intros t Ht; exists (f' t); exact (proj1 (Hd t Ht (fun H => H)))).
    destruct (MVT f id a b D (fun t _ => derivable_pt_id t)) as (t & Ht & E); [lra|exact Hc|intros t _; apply derivable_continuous_pt, derivable_pt_id|].
    destruct (Hd t Ht (fun H => H)) as (Hl & Hm).
    assert (E' : derive_pt f t (D t Ht) = f' t) by (now apply derive_pt_eq_0). rewrite E' in E.
    rewrite derive_pt_id in E. unfold id in E. nra.
  - destruct (Rlt_dec a c) as [A|A]; [destruct (Rlt_dec c b) as [C|C]|].
    + assert (F1 : f c - f a <= m * (c - a)).
      { apply IH; [lra|intros t Ht; apply Hc; lra|]. intros t Ht Hi. apply Hd; [lra|]. intros [->|H]; [lra|contradiction]. }
      assert (F2 : f b - f c <= m * (b - c)).
      { apply IH; [lra|intros t Ht; apply Hc; lra|]. intros t Ht Hi. apply Hd; [lra|]. intros [->|H]; [lra|contradiction]. }
      lra.
    + apply IH; [exact Hab|exact Hc|]. intros t Ht Hi. apply Hd; [exact Ht|]. intros [->|H]; [lra|contradiction].
    + apply IH; [exact Hab|exact Hc|]. intros t Ht Hi. apply Hd; [exact Ht|]. intros [->|H]; [lra|contradiction].
Qed.

Lemma deriv_near (f g : R -> R) t l d : 0 < d -> (forall u, Rabs (u - t) < d -> f u = g u) -> derivable_pt_lim g t l -> derivable_pt_lim f t l.
Proof.
  intros Hd E H eps He. destruct (H eps He) as [del Hdel].
  assert (P : 0 < Rmin d del) by (apply Rmin_glb_lt; [exact Hd|apply cond_pos]).
  exists (mkposreal _ P). intros h Hh0 Hh. cbn [pos] in Hh.
  assert (Rabs h < d) by (pose proof (Rmin_l d del); lra). assert (Rabs h < del) by (pose proof (Rmin_r d del); lra).
  rewrite !E; [apply Hdel; assumption| |].
  - rewrite Rminus_diag_eq, Rabs_R0 by reflexivity. exact Hd.
  - replace (t + h - t) with h by ring. assumption.
Qed.

Lemma wind_segment E x y : balanced E -> (forall s, 0 <= s <= 1 -> off E (on_side x y s)) -> wind E x = wind E y.
Proof.
  intros B O. set (f := fun s => wind E (on_side x y s)).
  assert (D : forall s, 0 <= s <= 1 -> derivable_pt_lim f s 0).
  { intros s Hs. destruct (wind_local E (on_side x y s) B (O s Hs)) as (d & Hd & H).
    set (L := Rabs (fst y - fst x) + Rabs (snd y - snd x) + 1).
    pose proof (Rabs_pos (fst y - fst x)) as P1. pose proof (Rabs_pos (snd y - snd x)) as P2. assert (HL : 0 < L) by (unfold L; lra).
    apply (deriv_near f (fun _ => f s) s 0 (d / L)); [now apply Rdiv_lt_0_compat| |apply derivable_pt_lim_const].
    intros u Hu. unfold f. apply H. pose proof (Rabs_pos (u - s)) as P3.
    assert (Q : Rabs (u - s) * L < d).
    { apply Rmult_lt_compat_r with (r := L) in Hu; [|exact HL]. replace (d / L * L) with d in Hu by (field; lra). exact Hu. }
    unfold near, on_side. cbn [fst snd].
    replace (fst x + u * (fst y - fst x) - (fst x + s * (fst y - fst x))) with ((u - s) * (fst y - fst x)) by ring.
    replace (snd x + u * (snd y - snd x) - (snd x + s * (snd y - snd x))) with ((u - s) * (snd y - snd x)) by ring.
    rewrite !Rabs_mult. unfold L in Q. split; nra. }
  assert (C : forall s, 0 <= s <= 1 -> continuity_pt f s) by (intros s Hs; apply derivable_continuous_pt; exists 0; now apply D).
  assert (E0 : f 0 = wind E x) by (unfold f; f_equal; apply p2_eq; cbn [on_side fst snd]; ring).
  assert (E1 : f 1 = wind E y) by (unfold f; f_equal; apply p2_eq; cbn [on_side fst snd]; ring).
  rewrite <- E0, <- E1.
  pose proof (slope f (fun _ => 0) 0 [] 0 1 ltac:(lra) C) as S1.
  assert (S1' : f 1 - f 0 <= 0 * (1 - 0)) by (apply S1; intros t Ht _; split; [apply D|]; lra).
  set (g := fun s => - f s).
  assert (Dg : forall s, 0 <= s <= 1 -> derivable_pt_lim g s 0).
  { intros s Hs. replace 0 with (- 0) by ring. apply (derivable_pt_lim_opp f). now apply D. }
  pose proof (slope g (fun _ => 0) 0 [] 0 1 ltac:(lra)) as S2.
  assert (S2' : g 1 - g 0 <= 0 * (1 - 0)).
  { apply S2; [intros s Hs; apply derivable_continuous_pt; exists 0; now apply Dg|]. intros t Ht _; split; [apply Dg|]; lra. }
  unfold g in S2'. lra.
Qed.

(* ------------------------------------------------------------------ *)
(** ** Beside a side and around a vertex *)
Lemma area_on a b c s : area a b (on_side a c s) = s * area a b c.
Proof. unfold area, on_side. cbn [fst snd]. ring. Qed.
Lemma area_self a b s : area a b (on_side a b s) = 0.
Proof. unfold area, on_side. cbn [fst snd]. ring. Qed.
Lemma area_cycle a b c : area b c a = area a b c.
Proof. unfold area. ring. Qed.

Lemma on_side_inj a b s t : a <> b -> on_side a b s = on_side a b t -> s = t.
Proof.
  intros N E. destruct (Req_EM_T s t) as [|D]; [assumption|]. exfalso. apply N.
  pose proof (f_equal fst E) as E1. pose proof (f_equal snd E) as E2. unfold on_side in E1, E2. cbn [fst snd] in E1, E2.
  apply p2_eq; apply Rmult_eq_reg_l with (s - t); lra.
Qed.
Lemma on_side_0 a b : on_side a b 0 = a.
Proof. apply p2_eq; cbn [on_side fst snd]; ring. Qed.
Lemma on_side_1 a b : on_side a b 1 = b.
Proof. apply p2_eq; cbn [on_side fst snd]; ring. Qed.

Lemma edge_jump a b F : a <> b -> balanced ((a, b) :: F) -> (forall s, 0 < s < 1 -> off F (on_side a b s)) ->
  exists k, forall s, 0 < s < 1 -> exists d, 0 < d /\ forall x : p2, near d (on_side a b s) x ->
    (0 < area a b x -> wind ((a, b) :: F) x = k) /\ (area a b x < 0 -> wind ((a, b) :: F) x = k - 1).
Proof.
  intros N B O. set (z := (fst a + (snd b - snd a), snd a - (fst b - fst a)) : p2).
  assert (Z : area a b z < 0).
  { pose proof (dist2_pos a b N) as P. unfold dist2 in P. unfold area, z. cbn [fst snd]. lra. }
  set (G := (a, z) :: (z, b) :: F).
  assert (BG : balanced G).
  { intros f. specialize (B f). unfold G. rewrite !total_cons in *. cbn [fst snd] in *. lra. }
  assert (OG : forall s, 0 < s < 1 -> off G (on_side a b s)).
  { intros s Hs. unfold G. constructor; [|constructor; [|now apply O]]; cbn [fst snd]; intros r Hr E.
    - pose proof (f_equal (area a b) E) as A. rewrite area_self, area_on in A. assert (r = 0) by nra. subst r.
      rewrite on_side_0, <- (on_side_0 a b) in E at 1. apply on_side_inj in E; [lra|exact N].
    - pose proof (f_equal (area a b) E) as A. rewrite area_self in A.
      assert (A' : area a b (on_side z b r) = (1 - r) * area a b z) by (unfold area, on_side; cbn [fst snd]; ring).
      rewrite A' in A. assert (r = 1) by nra. subst r.
      rewrite on_side_1, <- (on_side_1 a b) in E at 1. apply on_side_inj in E; [lra|exact N]. }
  exists (wind G (on_side a b (1/2))). intros s Hs.
  assert (C : wind G (on_side a b s) = wind G (on_side a b (1/2))).
  { symmetry. apply wind_segment; [exact BG|]. intros r Hr.
    replace (on_side (on_side a b (1/2)) (on_side a b s) r) with (on_side a b (1/2 + r * (s - 1/2))) by (apply p2_eq; cbn [on_side fst snd]; ring).
    apply OG. nra. }
  assert (A1 : area b z (on_side a b s) < 0).
  { replace (area b z (on_side a b s)) with ((1 - s) * area a b z) by (unfold area, on_side; cbn [fst snd]; ring). nra. }
  assert (A2 : area z a (on_side a b s) < 0).
  { replace (area z a (on_side a b s)) with (s * area a b z) by (unfold area, on_side; cbn [fst snd]; ring). nra. }
  destruct (wind_local G _ BG (OG s Hs)) as (d1 & Hd1 & H1).
  destruct (area_sign b z (on_side a b s) ltac:(lra)) as (d2 & Hd2 & H2).
  destruct (area_sign z a (on_side a b s) ltac:(lra)) as (d3 & Hd3 & H3).
  exists (Rmin d1 (Rmin d2 d3)). split; [repeat apply Rmin_glb_lt; assumption|]. intros x Hx.
  assert (Hx' := near_le _ _ _ _ (Rmin_r _ _) Hx).
  specialize (H1 x (near_le _ _ _ _ (Rmin_l _ _) Hx)). specialize (H2 x (near_le _ _ _ _ (Rmin_l _ _) Hx')).
  specialize (H3 x (near_le _ _ _ _ (Rmin_r _ _) Hx')).
  assert (W : wind ((a, b) :: F) x = wind G x + tri a b z x).
  { unfold G, tri. rewrite !wind_cons, (cr_anti z b x), (cr_anti a z x). ring. }
  rewrite W, H1, C. split; intros A.
  - rewrite tri_out_neg; [ring|exact Z|now left].
  - rewrite tri_in_neg; [ring|exact A|now apply H2|now apply H3].
Qed.

(** Around a vertex v between u and t. *)
Lemma vertex_local u v t F : area u v t <> 0 -> balanced ((u, v) :: (v, t) :: F) -> off F v ->
  exists c d, 0 < d /\ forall x : p2, near d v x -> wind ((u, v) :: (v, t) :: F) x = c + tri u v t x.
Proof.
  intros N B O. set (G := (u, t) :: F).
  assert (BG : balanced G).
  { intros f. specialize (B f). unfold G. rewrite !total_cons in *. cbn [fst snd] in *. lra. }
  assert (OG : off G v).
  { constructor; [|exact O]. cbn [fst snd]. intros s Hs E. apply N. rewrite <- E. unfold area, on_side. cbn [fst snd]. ring. }
  destruct (wind_local G v BG OG) as (d & Hd & H). exists (wind G v), d. split; [exact Hd|]. intros x Hx. rewrite <- (H x Hx).
  unfold G, tri. rewrite !wind_cons, (cr_anti u t x). ring.
Qed.

(** Points to the left of a side, as near as one likes. *)
Lemma left_point a b y d : a <> b -> 0 < d -> exists x, near d y x /\ area a b y < area a b x.
Proof.
  intros N Hd. set (L := Rabs (fst b - fst a) + Rabs (snd b - snd a) + 1).
  pose proof (Rabs_pos (fst b - fst a)) as P1. pose proof (Rabs_pos (snd b - snd a)) as P2. assert (HL : 0 < L) by (unfold L; lra).
  set (r := d / L). assert (Hr : 0 < r) by now apply Rdiv_lt_0_compat. assert (E : r * L = d) by (unfold r; field; lra).
  exists (fst y - r * (snd b - snd a), snd y + r * (fst b - fst a)). split.
  - unfold near. cbn [fst snd]. replace (fst y - r * (snd b - snd a) - fst y) with (- (r * (snd b - snd a))) by ring.
    replace (snd y + r * (fst b - fst a) - snd y) with (r * (fst b - fst a)) by ring.
    rewrite Rabs_Ropp, !Rabs_mult, (Rabs_pos_eq r) by lra. unfold L in E. split; nra.
  - pose proof (dist2_pos a b N) as P. unfold dist2 in P. unfold area. cbn [fst snd]. nra.
Qed.

(** A point of a side near its start, or its end. *)
Lemma near_start a b d : 0 < d -> exists s, 0 < s < 1 /\ near d a (on_side a b s).
Proof.
  intros Hd. set (L := Rabs (fst b - fst a) + Rabs (snd b - snd a) + 1).
  pose proof (Rabs_pos (fst b - fst a)) as P1. pose proof (Rabs_pos (snd b - snd a)) as P2. assert (HL : 0 < L) by (unfold L; lra).
  assert (Hr : 0 < d / L) by now apply Rdiv_lt_0_compat.
  exists (Rmin (1/2) (d / L)). assert (0 < Rmin (1/2) (d / L)) by (apply Rmin_glb_lt; lra). pose proof (Rmin_l (1/2) (d / L)).
  assert (E : Rmin (1/2) (d / L) * L <= d).
  { apply Rle_trans with (d / L * L); [apply Rmult_le_compat_r; [lra|apply Rmin_r]|right; field; lra]. }
  set (s := Rmin (1/2) (d / L)) in *. split; [lra|]. unfold near, on_side. cbn [fst snd].
  replace (fst a + s * (fst b - fst a) - fst a) with (s * (fst b - fst a)) by ring.
  replace (snd a + s * (snd b - snd a) - snd a) with (s * (snd b - snd a)) by ring.
  rewrite !Rabs_mult, (Rabs_pos_eq s) by lra. unfold L in E. split; nra.
Qed.

Lemma near_trans d1 d2 x y z : near d1 x y -> near d2 y z -> near (d1 + d2) x z.
Proof.
  intros [A B] [C D]. split.
  - replace (fst z - fst x) with ((fst z - fst y) + (fst y - fst x)) by ring. eapply Rle_lt_trans; [apply Rabs_triang|lra].
  - replace (snd z - snd x) with ((snd z - snd y) + (snd y - snd x)) by ring. eapply Rle_lt_trans; [apply Rabs_triang|lra].
Qed.

Lemma on_side_rev a b s : on_side b a s = on_side a b (1 - s).
Proof. apply p2_eq; cbn [on_side fst snd]; ring. Qed.
Lemma near_end a b d : 0 < d -> exists s, 0 < s < 1 /\ near d b (on_side a b s).
Proof. intros Hd. destruct (near_start b a d Hd) as (s & Hs & H). exists (1 - s). split; [lra|]. now rewrite <- on_side_rev. Qed.

(** What it means that [k] is the winding number to the left of the side from a to b. *)
Definition left_value (E : list edge) (a b : p2) (k : R) : Prop :=
  forall s, 0 < s < 1 -> exists d, 0 < d /\ forall x : p2, near d (on_side a b s) x ->
    (0 < area a b x -> wind E x = k) /\ (area a b x < 0 -> wind E x = k - 1).

(** At a corner: the value on both sides next to it, and in the directions outside the angle. *)
Lemma corner u v t F k1 k2 : area u v t <> 0 -> balanced ((u, v) :: (v, t) :: F) -> off F v ->
  left_value ((u, v) :: (v, t) :: F) u v k1 -> left_value ((u, v) :: (v, t) :: F) v t k2 ->
  k1 = k2 /\ exists d, 0 < d /\ forall x : p2, near d v x -> tri u v t x = 0 ->
    wind ((u, v) :: (v, t) :: F) x = if Rlt_dec 0 (area u v t) then k2 - 1 else k2.
Proof.
  intros N B O L1 L2. set (E := (u, v) :: (v, t) :: F) in *.
  destruct (vertex_local u v t F N B O) as (c & d & Hd & H). fold E in H.
  assert (Nu : u <> v) by (intros ->; apply N; unfold area; ring).
  assert (Nt : v <> t) by (intros ->; apply N; unfold area; ring).
  assert (T3 : area t u v = area u v t) by (unfold area; ring).
  destruct (area_sign t u v ltac:(now rewrite T3)) as (d3 & Hd3 & H3). rewrite T3 in H3.
  assert (K1 : k1 = if Rlt_dec 0 (area u v t) then c + 1 else c).
  { destruct (near_end u v (Rmin d d3 / 2)) as (s & Hs & Hn); [assert (0 < Rmin d d3) by (now apply Rmin_glb_lt); lra|].
    destruct (L1 s Hs) as (d1 & Hd1 & Hk). set (y := on_side u v s) in *.
    assert (Ay : area v t y = (1 - s) * area u v t) by (unfold y, area, on_side; cbn [fst snd]; ring).
    destruct (area_sign v t y) as (d4 & Hd4 & H4); [rewrite Ay; apply Rmult_integral_contrapositive_currified; lra|].
    assert (P : 0 < Rmin d1 (Rmin d4 (Rmin d d3 / 2))) by (repeat apply Rmin_glb_lt; try assumption; assert (0 < Rmin d d3) by (now apply Rmin_glb_lt); lra).
    destruct (left_point u v y _ Nu P) as (x & Hx & Ax). unfold y in Ax at 1. rewrite area_self in Ax.
    assert (X1 := near_le _ _ _ _ (Rmin_l _ _) Hx). assert (X2 := near_le _ _ _ _ (Rmin_r _ _) Hx).
    assert (X3 := near_le _ _ _ _ (Rmin_l _ _) X2). assert (X4 := near_le _ _ _ _ (Rmin_r _ _) X2).
    assert (X5 := near_trans _ _ _ _ _ Hn X4). replace (Rmin d d3 / 2 + Rmin d d3 / 2) with (Rmin d d3) in X5 by field.
    destruct (Hk x X1) as [W _]. specialize (W Ax). rewrite (H x (near_le _ _ _ _ (Rmin_l _ _) X5)) in W.
    destruct (H4 x X3) as [Q1 Q2]. destruct (H3 x (near_le _ _ _ _ (Rmin_r _ _) X5)) as [Q3 Q4]. rewrite Ay in Q1.
    destruct (Rlt_dec 0 (area u v t)) as [T|T].
    - rewrite <- W, tri_in; [reflexivity|exact Ax|apply Q1; nra|now apply Q3].
    - rewrite <- W, tri_out_neg; [ring|lra|now left]. }
  assert (K2 : k2 = if Rlt_dec 0 (area u v t) then c + 1 else c).
  { destruct (near_start v t (Rmin d d3 / 2)) as (s & Hs & Hn); [assert (0 < Rmin d d3) by (now apply Rmin_glb_lt); lra|].
    destruct (L2 s Hs) as (d1 & Hd1 & Hk). set (y := on_side v t s) in *.
    assert (Ay : area u v y = s * area u v t) by (unfold y, area, on_side; cbn [fst snd]; ring).
    destruct (area_sign u v y) as (d4 & Hd4 & H4); [rewrite Ay; apply Rmult_integral_contrapositive_currified; lra|].
    assert (P : 0 < Rmin d1 (Rmin d4 (Rmin d d3 / 2))) by (repeat apply Rmin_glb_lt; try assumption; assert (0 < Rmin d d3) by (now apply Rmin_glb_lt); lra).
    destruct (left_point v t y _ Nt P) as (x & Hx & Ax). unfold y in Ax at 1. rewrite area_self in Ax.
    assert (X1 := near_le _ _ _ _ (Rmin_l _ _) Hx). assert (X2 := near_le _ _ _ _ (Rmin_r _ _) Hx).
    assert (X3 := near_le _ _ _ _ (Rmin_l _ _) X2). assert (X4 := near_le _ _ _ _ (Rmin_r _ _) X2).
    assert (X5 := near_trans _ _ _ _ _ Hn X4). replace (Rmin d d3 / 2 + Rmin d d3 / 2) with (Rmin d d3) in X5 by field.
    destruct (Hk x X1) as [W _]. specialize (W Ax). rewrite (H x (near_le _ _ _ _ (Rmin_l _ _) X5)) in W.
    destruct (H4 x X3) as [Q1 Q2]. destruct (H3 x (near_le _ _ _ _ (Rmin_r _ _) X5)) as [Q3 Q4]. rewrite Ay in Q1.
    destruct (Rlt_dec 0 (area u v t)) as [T|T].
    - rewrite <- W, tri_in; [reflexivity|apply Q1; nra|exact Ax|now apply Q3].
    - rewrite <- W, tri_out_neg; [ring|lra|right; now left]. }
  split; [now rewrite K1, K2|]. exists d. split; [exact Hd|]. intros x Hx T0. rewrite (H x Hx), T0, K2. destruct (Rlt_dec 0 (area u v t)); ring.
Qed.

(** At a vertex in the middle of a straight line. *)
Lemma straight u v t F k1 k2 s0 : u <> t -> 0 < s0 < 1 -> v = on_side u t s0 -> balanced ((u, v) :: (v, t) :: F) ->
  (forall s, 0 < s < 1 -> off F (on_side u t s)) ->
  left_value ((u, v) :: (v, t) :: F) u v k1 -> left_value ((u, v) :: (v, t) :: F) v t k2 ->
  k1 = k2 /\ exists d, 0 < d /\ forall x : p2, near d v x ->
    (0 < area u t x -> wind ((u, v) :: (v, t) :: F) x = k2) /\ (area u t x < 0 -> wind ((u, v) :: (v, t) :: F) x = k2 - 1).
Proof.
  intros N Hs0 -> B O L1 L2.
  assert (BG : balanced ((u, t) :: F)).
  { intros f. specialize (B f). rewrite !total_cons in *. cbn [fst snd] in *. lra. }
  destruct (edge_jump u t F N BG O) as (k & K).
  assert (W : forall x, area u t x <> 0 -> wind ((u, on_side u t s0) :: (on_side u t s0, t) :: F) x = wind ((u, t) :: F) x).
  { intros x Hx. pose proof (tri_line u t s0 x Hs0 Hx) as T. unfold tri in T. rewrite (cr_anti u t x) in T. rewrite !wind_cons. lra. }
  assert (P1 : on_side u (on_side u t s0) (1/2) = on_side u t (s0 / 2)) by (apply p2_eq; cbn [on_side fst snd]; field).
  assert (P2 : on_side (on_side u t s0) t (1/2) = on_side u t ((1 + s0) / 2)) by (apply p2_eq; cbn [on_side fst snd]; field).
  assert (Q1 : k1 = k).
  { destruct (L1 (1/2) ltac:(lra)) as (d1 & Hd1 & H1). rewrite P1 in H1. destruct (K (s0 / 2) ltac:(lra)) as (d2 & Hd2 & H2).
    destruct (left_point u t (on_side u t (s0 / 2)) (Rmin d1 d2) N ltac:(now apply Rmin_glb_lt)) as (x & Hx & Ax). rewrite area_self in Ax.
    destruct (H1 x (near_le _ _ _ _ (Rmin_l _ _) Hx)) as [V1 _]. destruct (H2 x (near_le _ _ _ _ (Rmin_r _ _) Hx)) as [V2 _].
    rewrite <- V1, <- V2; [apply W; lra|exact Ax|].
    replace (area u (on_side u t s0) x) with (s0 * area u t x) by (unfold area, on_side; cbn [fst snd]; ring). nra. }
  assert (Q2 : k2 = k).
  { destruct (L2 (1/2) ltac:(lra)) as (d1 & Hd1 & H1). rewrite P2 in H1. destruct (K ((1 + s0) / 2) ltac:(lra)) as (d2 & Hd2 & H2).
    destruct (left_point u t (on_side u t ((1 + s0) / 2)) (Rmin d1 d2) N ltac:(now apply Rmin_glb_lt)) as (x & Hx & Ax). rewrite area_self in Ax.
    destruct (H1 x (near_le _ _ _ _ (Rmin_l _ _) Hx)) as [V1 _]. destruct (H2 x (near_le _ _ _ _ (Rmin_r _ _) Hx)) as [V2 _].
    rewrite <- V1, <- V2; [apply W; lra|exact Ax|].
    replace (area (on_side u t s0) t x) with ((1 - s0) * area u t x) by (unfold area, on_side; cbn [fst snd]; ring). nra. }
  split; [now rewrite Q1, Q2|]. destruct (K s0 Hs0) as (d & Hd & H). exists d. split; [exact Hd|]. intros x Hx.
  destruct (H x Hx) as [H1 H2]. split; intros A; rewrite (W x ltac:(lra)), Q2; auto.
Qed.
