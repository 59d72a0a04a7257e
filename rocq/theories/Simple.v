(** Polygon.is_inside (/repo/acoular/grids.py:189-301) for simple polygons: the sign tells inside from outside. *)
From Coq Require Import List Arith Lia ZArith Bool Reals Lra Permutation.
From Verif Require Import Stream Cplx Polygon Jordan Orient.
Import ListNotations.
Local Open Scope R_scope.

Lemma total_perm g E F : Permutation E F -> total g E = total g F.
Proof. induction 1 as [|e E F H IH|e f E|E F G H1 IH1 H2 IH2]; rewrite ?total_cons; [reflexivity|now rewrite IH|ring|now rewrite IH1]. Qed.
Lemma wind_perm E F x : Permutation E F -> wind E x = wind F x.
Proof. intros H. unfold wind. now apply total_perm. Qed.
Lemma balanced_perm E F : Permutation E F -> balanced E -> balanced F.
Proof. intros H B f. rewrite <- (total_perm _ E F H). apply B. Qed.
Lemma left_value_perm E F a b k : Permutation E F -> left_value E a b k -> left_value F a b k.
Proof.
  intros H L s Hs. destruct (L s Hs) as (d & Hd & V). exists d. split; [exact Hd|]. intros x Hx. rewrite <- (wind_perm E F x H). now apply V.
Qed.

(** Splitting off one or two members of a list without repetitions. *)
Lemma split_one (l : list nat) i : NoDup l -> In i l -> exists J, Permutation l (i :: J) /\ (forall k, In k J -> In k l /\ k <> i).
Proof.
  intros N H. destruct (in_split _ _ H) as (l1 & l2 & E). exists (l1 ++ l2).
  assert (P : Permutation l (i :: l1 ++ l2)) by (rewrite E; symmetry; apply Permutation_middle). split; [exact P|].
  intros k Hk. split; [apply (Permutation_in k (Permutation_sym P)); now right|].
  intros ->. pose proof (Permutation_NoDup P N) as N2. now inversion N2.
Qed.
Lemma split_two (l : list nat) i j : NoDup l -> In i l -> In j l -> i <> j ->
  exists J, Permutation l (i :: j :: J) /\ (forall k, In k J -> In k l /\ k <> i /\ k <> j).
Proof.
  intros N Hi Hj Hij. destruct (split_one l i N Hi) as (J & P & HJ).
  pose proof (Permutation_NoDup P N) as N2. inversion N2 as [|? ? N3 N4]. subst.
  assert (Hj2 : In j J) by (destruct (Permutation_in j P Hj); [congruence|assumption]).
  destruct (split_one J j N4 Hj2) as (J2 & P2 & HJ2). exists J2. split; [now rewrite P, P2|].
  intros k Hk. destruct (HJ2 k Hk) as [H1 H2]. destruct (HJ k H1). auto.
Qed.

Section Simple.
  Variables (v : nat -> p2) (n : nat).
  Hypothesis Hn : (3 <= n)%nat.
  Hypothesis Hclosed : v n = v 0%nat.
  Let nxt i := if (S i =? n)%nat then 0%nat else S i.
  (** Two sides meet only in a common vertex. *)
  Hypothesis Hsimple : forall i j s t, (i < n)%nat -> (j < n)%nat -> i <> j -> 0 <= s <= 1 -> 0 <= t <= 1 ->
    on_side (v i) (v (S i)) s = on_side (v j) (v (S j)) t -> (j = nxt i /\ s = 1 /\ t = 0) \/ (i = nxt j /\ s = 0 /\ t = 1).

  Definition sides : list edge := map (fun i => (v i, v (S i))) (seq 0 n).
  Let side_of (i : nat) : edge := (v i, v (S i)).

  Lemma nxt_ok i : (i < n)%nat -> (nxt i < n)%nat /\ v (nxt i) = v (S i) /\ nxt i <> i.
  Proof.
    intros Hi. unfold nxt. destruct (Nat.eqb_spec (S i) n) as [E|E].
    - rewrite <- E, Hclosed in *. repeat split; lia.
    - repeat split; lia.
  Qed.
  Lemma nxt_nxt_ok i : (i < n)%nat -> nxt (nxt i) <> i.
  Proof.
    intros Hi. unfold nxt. destruct (Nat.eqb_spec (S i) n); [destruct (Nat.eqb_spec 1 n)|destruct (Nat.eqb_spec (S (S i)) n)]; lia.
  Qed.

  Lemma sides_balanced : balanced sides.
  Proof.
    intros f. unfold sides. replace 0 with (f (v n) - f (v 0%nat)) by (rewrite Hclosed; ring). clear Hn Hsimple Hclosed.
    assert (Q : forall m k, total (fun e : edge => f (snd e) - f (fst e)) (map side_of (seq k m)) = f (v (k + m)%nat) - f (v k)).
    { induction m as [|m IH]; intros k; [cbn; rewrite Nat.add_0_r; ring|].
      cbn [seq map]. rewrite total_cons, IH. unfold side_of. cbn [fst snd]. replace (S k + m)%nat with (k + S m)%nat by lia. ring. }
    apply (Q n 0%nat).
  Qed.

  Lemma sides_distinct i : (i < n)%nat -> v i <> v (S i).
  Proof.
    intros Hi E. destruct (nxt_ok i Hi) as (H1 & H2 & H3).
    destruct (Hsimple i (nxt i) (1/2) 0 Hi H1 (not_eq_sym H3) ltac:(lra) ltac:(lra)) as [(_ & Q & _)|(_ & Q & _)]; [|lra|lra].
    rewrite on_side_0, H2, <- E. apply p2_eq; cbn [on_side fst snd]; ring.
  Qed.

  Lemma off_others J x : (forall k, In k J -> (k < n)%nat /\ off_side (v k) (v (S k)) x) -> off (map side_of J) x.
  Proof. intros H. apply Forall_forall. intros e He. apply in_map_iff in He. destruct He as (k & <- & Hk). exact (proj2 (H k Hk)). Qed.

  Lemma inner_off i k s : (i < n)%nat -> (k < n)%nat -> k <> i -> 0 < s < 1 -> off_side (v k) (v (S k)) (on_side (v i) (v (S i)) s).
  Proof.
    intros Hi Hk N Hs t Ht E. symmetry in E. destruct (Hsimple i k s t Hi Hk (not_eq_sym N) ltac:(lra) Ht E) as [(_ & Q & _)|(_ & Q & _)]; lra.
  Qed.
  Lemma vertex_off i k : (i < n)%nat -> (k < n)%nat -> k <> i -> k <> nxt i -> off_side (v k) (v (S k)) (v (S i)).
  Proof.
    intros Hi Hk N1 N2 t Ht E. rewrite <- (on_side_1 (v i) (v (S i))) in E. symmetry in E.
    destruct (Hsimple i k 1 t Hi Hk (not_eq_sym N1) ltac:(lra) Ht E) as [(Q & _)|(_ & Q & _)]; [congruence|lra].
  Qed.

  Lemma in_range i : (i < n)%nat -> In i (seq 0 n).
  Proof. intros H. apply in_seq. lia. Qed.
  Lemma sides_one i : (i < n)%nat -> exists J, Permutation sides (side_of i :: map side_of J) /\ (forall k, In k J -> (k < n)%nat /\ k <> i).
  Proof.
    intros Hi. destruct (split_one _ i (seq_NoDup n 0) (in_range i Hi)) as (J & P & HJ). exists J.
    split; [exact (Permutation_map side_of P)|]. intros k Hk. destruct (HJ k Hk) as [H1 H2]. apply in_seq in H1. split; [lia|exact H2].
  Qed.
  Lemma sides_two i j : (i < n)%nat -> (j < n)%nat -> i <> j -> exists J, Permutation sides (side_of i :: side_of j :: map side_of J)
    /\ (forall k, In k J -> (k < n)%nat /\ k <> i /\ k <> j).
  Proof.
    intros Hi Hj N. destruct (split_two _ i j (seq_NoDup n 0) (in_range i Hi) (in_range j Hj) N) as (J & P & HJ). exists J.
    split; [exact (Permutation_map side_of P)|]. intros k Hk. destruct (HJ k Hk) as [H1 H2]. apply in_seq in H1. split; [lia|exact H2].
  Qed.

  Lemma left_exists i : (i < n)%nat -> exists k, left_value sides (v i) (v (S i)) k.
  Proof.
    intros Hi. destruct (sides_one i Hi) as (J & P & HJ).
    destruct (edge_jump (v i) (v (S i)) (map side_of J)) as (k & K).
    - now apply sides_distinct.
    - exact (balanced_perm _ _ P sides_balanced).
    - intros s Hs. apply off_others. intros k Hk. destruct (HJ k Hk). split; [assumption|]. now apply inner_off.
    - exists k. apply (left_value_perm _ sides _ _ _ (Permutation_sym P)). exact K.
  Qed.

  (** A vertex whose two sides lie on one line lies between its neighbours. *)
  Lemma between i : (i < n)%nat -> area (v i) (v (S i)) (v (S (nxt i))) = 0 ->
    exists s0, 0 < s0 < 1 /\ v i <> v (S (nxt i)) /\ v (S i) = on_side (v i) (v (S (nxt i))) s0.
  Proof.
    intros Hi A. destruct (nxt_ok i Hi) as (Hj & Ej & Nj). pose proof (sides_distinct i Hi) as D1. pose proof (sides_distinct (nxt i) Hj) as D2.
    pose proof (Hsimple i (nxt i)) as HS. rewrite Ej in D2, HS.
    set (u := v i) in *. set (w := v (S i)) in *. set (t := v (S (nxt i))) in *.
    assert (P : 0 < dist2 u w) by now apply dist2_pos. set (l := ((fst t - fst w) * (fst w - fst u) + (snd t - snd w) * (snd w - snd u)) / dist2 u w).
    assert (Q0 : forall c z, dist2 u w * c = ((fst t - fst w) * (fst w - fst u) + (snd t - snd w) * (snd w - snd u)) * z -> c = l * z).
    { intros c z Q. unfold l. apply (Rmult_eq_reg_l (dist2 u w)); [|lra]. rewrite Q. field. lra. }
    assert (T1 : fst t - fst w = l * (fst w - fst u)).
    { apply Q0. transitivity (((fst t - fst w) * (fst w - fst u) + (snd t - snd w) * (snd w - snd u)) * (fst w - fst u) - (snd w - snd u) * area u w t);
        [unfold area, dist2; ring|rewrite A; ring]. }
    assert (T2 : snd t - snd w = l * (snd w - snd u)).
    { apply Q0. transitivity (((fst t - fst w) * (fst w - fst u) + (snd t - snd w) * (snd w - snd u)) * (snd w - snd u) + (fst w - fst u) * area u w t);
        [unfold area, dist2; ring|rewrite A; ring]. }
    assert (L0 : 0 < l).
    { destruct (Rtotal_order l 0) as [L|[L|L]]; [exfalso| |exact L].
      - set (r := / (1 - l + 1)). assert (Hr : 0 < r) by (apply Rinv_0_lt_compat; lra).
        assert (R1 : r * (1 - l + 1) = 1) by (unfold r; field; lra).
        assert (0 < r * - l < 1) by (split; [apply Rmult_lt_0_compat; lra|nra]). assert (r < 1) by nra.
        destruct (HS (1 - r * - l) r Hi Hj (not_eq_sym Nj) ltac:(lra) ltac:(lra)) as [(_ & _ & Q)|(_ & _ & Q)]; [|lra|lra].
        apply p2_eq; cbn [on_side fst snd]; rewrite ?T1, ?T2; ring.
      - exfalso. apply D2. apply p2_eq; rewrite L in *; lra. }
    exists (/ (1 + l)). assert (Q : / (1 + l) * (1 + l) = 1) by (field; lra). assert (0 < / (1 + l)) by (apply Rinv_0_lt_compat; lra).
    split; [nra|]. split.
    - intros E. assert (X1 : (1 + l) * (fst w - fst u) = 0) by (rewrite E in T1 |- *; lra). assert (X2 : (1 + l) * (snd w - snd u) = 0) by (rewrite E in T2 |- *; lra).
      apply D1. apply p2_eq; [apply Rmult_integral in X1; lra|apply Rmult_integral in X2; lra].
    - apply p2_eq; cbn [on_side fst snd].
      + replace (fst t - fst u) with ((1 + l) * (fst w - fst u)) by lra. rewrite <- Rmult_assoc, Q. ring.
      + replace (snd t - snd u) with ((1 + l) * (snd w - snd u)) by lra. rewrite <- Rmult_assoc, Q. ring.
  Qed.

  (** Around the vertex after side i. *)
  Lemma around i k1 k2 : (i < n)%nat -> left_value sides (v i) (v (S i)) k1 -> left_value sides (v (S i)) (v (S (nxt i))) k2 ->
    k1 = k2 /\ (area (v i) (v (S i)) (v (S (nxt i))) <> 0 -> exists d, 0 < d /\ forall x : p2, near d (v (S i)) x -> tri (v i) (v (S i)) (v (S (nxt i))) x = 0 ->
      wind sides x = if Rlt_dec 0 (area (v i) (v (S i)) (v (S (nxt i)))) then k2 - 1 else k2)
    /\ (area (v i) (v (S i)) (v (S (nxt i))) = 0 -> exists d, 0 < d /\ forall x : p2, near d (v (S i)) x ->
      (0 < area (v i) (v (S (nxt i))) x -> wind sides x = k2) /\ (area (v i) (v (S (nxt i))) x < 0 -> wind sides x = k2 - 1)).
  Proof.
    intros Hi L1 L2. destruct (nxt_ok i Hi) as (Hj & Ej & Nj).
    destruct (sides_two i (nxt i) Hi Hj (not_eq_sym Nj)) as (J & P & HJ).
    pose proof (balanced_perm _ _ P sides_balanced) as B. pose proof (left_value_perm _ _ _ _ _ P L1) as L1'. pose proof (left_value_perm _ _ _ _ _ P L2) as L2'.
    assert (Es : side_of (nxt i) = (v (S i), v (S (nxt i)))) by (unfold side_of; now rewrite Ej).
    rewrite Es in P, B, L1', L2'. change (side_of i) with (v i, v (S i)) in P, B, L1', L2'.
    assert (O : off (map side_of J) (v (S i))).
    { apply off_others. intros k Hk. destruct (HJ k Hk) as (H1 & H2 & H3). split; [exact H1|]. now apply vertex_off. }
    destruct (Req_EM_T (area (v i) (v (S i)) (v (S (nxt i)))) 0) as [A|A].
    - destruct (between i Hi A) as (s0 & Hs0 & N & E0).
      destruct (straight (v i) (v (S i)) (v (S (nxt i))) (map side_of J) k1 k2 s0 N Hs0 E0 B) as (K & d & Hd & H); [|exact L1'|exact L2'|].
      { intros s Hs. destruct (Rtotal_order s s0) as [L|[L|L]].
        - replace (on_side (v i) (v (S (nxt i))) s) with (on_side (v i) (v (S i)) (s / s0)).
          + apply off_others. intros k Hk. destruct (HJ k Hk) as (H1 & H2 & H3). split; [exact H1|]. apply inner_off; try assumption.
            split; [apply Rdiv_lt_0_compat; lra|]. apply (Rmult_lt_reg_r s0); [lra|]. unfold Rdiv. rewrite Rmult_assoc, Rinv_l by lra. lra.
          + rewrite E0. apply p2_eq; cbn [on_side fst snd]; field; lra.
        - rewrite L, <- E0. exact O.
        - replace (on_side (v i) (v (S (nxt i))) s) with (on_side (v (nxt i)) (v (S (nxt i))) ((s - s0) / (1 - s0))).
          + apply off_others. intros k Hk. destruct (HJ k Hk) as (H1 & H2 & H3). split; [exact H1|]. apply inner_off; try assumption.
            split; [apply Rdiv_lt_0_compat; lra|]. apply (Rmult_lt_reg_r (1 - s0)); [lra|]. unfold Rdiv. rewrite Rmult_assoc, Rinv_l by lra. lra.
          + rewrite Ej, E0. apply p2_eq; cbn [on_side fst snd]; field; lra. }
      split; [exact K|]. split; [contradiction|]. intros _. exists d. split; [exact Hd|]. intros x Hx. rewrite (wind_perm _ _ x P). now apply H.
    - destruct (corner (v i) (v (S i)) (v (S (nxt i))) (map side_of J) k1 k2 A B O L1' L2') as (K & d & Hd & H).
      split; [exact K|]. split; [|contradiction]. intros _. exists d. split; [exact Hd|]. intros x Hx. rewrite (wind_perm _ _ x P). now apply H.
  Qed.

  (** The same number is to the left of all sides. *)
  Lemma common_left : exists K, forall i, (i < n)%nat -> left_value sides (v i) (v (S i)) K.
  Proof.
    destruct (left_exists 0 ltac:(lia)) as (K & HK). exists K. induction i as [|i IH]; intros Hi; [exact HK|].
    specialize (IH ltac:(lia)). destruct (left_exists (S i) Hi) as (k & L).
    assert (E : nxt i = S i) by (unfold nxt; destruct (Nat.eqb_spec (S i) n); [lia|reflexivity]).
    destruct (around i K k ltac:(lia) IH) as (-> & _); [rewrite E; exact L|exact L].
  Qed.

  (** *** From a point to the nearest point of the boundary *)
  Definition dot (w p a : p2) : R := (fst p - fst w) * (fst a - fst w) + (snd p - snd w) * (snd a - snd w).

  Lemma dot_le p w a : (forall s, 0 <= s <= 1 -> dist2 p w <= dist2 p (on_side w a s)) -> dot w p a <= 0.
  Proof.
    intros H. destruct (Rle_dec (dot w p a) 0) as [|G]; [assumption|exfalso].
    assert (P : 0 < dist2 a w) by (apply dist2_pos; intros ->; unfold dot in G; lra).
    assert (Q : 0 < dot w p a / dist2 a w) by (apply Rdiv_lt_0_compat; lra). set (e := Rmin 1 (dot w p a / dist2 a w)).
    assert (He : 0 < e <= 1) by (unfold e; split; [apply Rmin_glb_lt; lra|apply Rmin_l]).
    assert (He2 : e * dist2 a w <= dot w p a).
    { apply Rle_trans with (dot w p a / dist2 a w * dist2 a w); [apply Rmult_le_compat_r; [lra|apply Rmin_r]|right; field; lra]. }
    specialize (H e ltac:(lra)).
    replace (dist2 p (on_side w a e)) with (dist2 p w - 2 * e * dot w p a + e * e * dist2 a w) in H by (unfold dot, dist2, on_side; cbn [fst snd]; ring).
    assert (e * (e * dist2 a w) <= e * dot w p a) by (apply Rmult_le_compat_l; lra). assert (0 < e * dot w p a) by (apply Rmult_lt_0_compat; lra). lra.
  Qed.

  Lemma dots_area u w t p : area u w t * dist2 p w = area u w p * dot w p t + area w t p * dot w p u.
  Proof. unfold area, dist2, dot. ring. Qed.

  Lemma outside_angle u w t p r : area u w t <> 0 -> p <> w -> dot w p u <= 0 -> dot w p t <= 0 -> 0 < r -> tri u w t (on_side w p r) = 0.
  Proof.
    intros N Np Du Dt Hr. pose proof (dots_area u w t p) as I0. pose proof (dist2_pos p w Np) as P.
    assert (A1 : area u w (on_side w p r) = r * area u w p) by (unfold area, on_side; cbn [fst snd]; ring).
    assert (A2 : area w t (on_side w p r) = r * area w t p) by (unfold area, on_side; cbn [fst snd]; ring).
    destruct (Rlt_dec 0 (area u w t)) as [T|T].
    - apply tri_out; [exact T|]. rewrite A1, A2. assert (0 < area u w t * dist2 p w) by now apply Rmult_lt_0_compat.
      destruct (Rlt_dec (area u w p) 0) as [L|L]; [left; nra|]. destruct (Rlt_dec (area w t p) 0) as [M|M]; [right; left; nra|]. exfalso. nra.
    - assert (T2 : area u w t < 0) by lra. apply tri_out_neg; [exact T2|]. rewrite A1, A2. assert (area u w t * dist2 p w < 0) by nra.
      destruct (Rlt_dec 0 (area u w p)) as [L|L]; [left; nra|]. destruct (Rlt_dec 0 (area w t p)) as [M|M]; [right; left; nra|]. exfalso. nra.
  Qed.

  Section Point.
    Variables (p : p2) (K : R).
    Hypothesis HK : forall i, (i < n)%nat -> left_value sides (v i) (v (S i)) K.

    Section Closest.
      Variable q : p2.
      Hypothesis Hq : 0 < dist2 p q.
      Hypothesis Hmin : forall i s, (i < n)%nat -> 0 <= s <= 1 -> dist2 p q <= dist2 p (on_side (v i) (v (S i)) s).

      Lemma to_closest r : 0 < r <= 1 -> wind sides p = wind sides (on_side q p r).
      Proof.
        intros Hr. symmetry. apply wind_segment; [exact sides_balanced|]. intros s Hs. unfold sides.
        apply (off_others (seq 0 n)). intros k Hk. apply in_seq in Hk. split; [lia|]. intros t Ht E.
        specialize (Hmin k t ltac:(lia) Ht). rewrite E in Hmin.
        replace (dist2 p (on_side (on_side q p r) p s)) with ((1 - (r + s * (1 - r))) * (1 - (r + s * (1 - r))) * dist2 p q) in Hmin
          by (unfold dist2, on_side; cbn [fst snd]; ring).
        set (g := r + s * (1 - r)) in *. assert (0 < g <= 1) by (unfold g; split; nra).
        assert (0 < g * (2 - g) * dist2 p q) by (apply Rmult_lt_0_compat; [nra|exact Hq]). nra.
      Qed.
      Lemma closest_near d : 0 < d -> exists r, 0 < r <= 1 /\ near d q (on_side q p r).
      Proof. intros Hd. destruct (near_start q p d Hd) as (r & Hr & H). exists r. split; [lra|exact H]. Qed.
      Lemma closest_area a b r : area a b q = 0 -> area a b (on_side q p r) = r * area a b p.
      Proof. intros A. rewrite area_on_side, A. ring. Qed.

      (** The closest point lies inside side i, or on a line through its neighbours. *)
      Lemma by_line a b d : 0 < d -> area a b q = 0 -> area a b p <> 0 ->
        (forall x : p2, near d q x -> (0 < area a b x -> wind sides x = K) /\ (area a b x < 0 -> wind sides x = K - 1)) ->
        wind sides p = if Rlt_dec (area a b p) 0 then K - 1 else K.
      Proof.
        intros Hd A N H. destruct (closest_near d Hd) as (r & Hr & Hx). rewrite (to_closest r Hr).
        destruct (H _ Hx) as [H1 H2]. rewrite (closest_area a b r A) in H1, H2.
        destruct (Rlt_dec (area a b p) 0); [apply H2; nra|apply H1; nra].
      Qed.

      (** The closest point is the vertex after side i. *)
      Lemma by_vertex i : (i < n)%nat -> q = v (S i) ->
        dot q p (v i) <= 0 /\ dot q p (v (S (nxt i))) <= 0
        /\ (area (v i) (v (S i)) (v (S (nxt i))) <> 0 ->
            wind sides p = if Rlt_dec 0 (area (v i) (v (S i)) (v (S (nxt i)))) then K - 1 else K)
        /\ (area (v i) (v (S i)) (v (S (nxt i))) = 0 -> area (v i) (v (S (nxt i))) p <> 0 ->
            wind sides p = if Rlt_dec (area (v i) (v (S (nxt i))) p) 0 then K - 1 else K).
      Proof.
        intros Hi Eq. destruct (nxt_ok i Hi) as (Hj & Ej & Nj).
        assert (Np : p <> q) by (intros E; rewrite E in Hq; unfold dist2 in Hq; lra).
        assert (D1 : dot q p (v i) <= 0).
        { apply dot_le. intros s Hs. rewrite on_side_rev. rewrite Eq at 2. apply Hmin; [exact Hi|lra]. }
        assert (D2 : dot q p (v (S (nxt i))) <= 0).
        { apply dot_le. intros s Hs. rewrite Eq at 2. rewrite <- Ej. apply Hmin; [exact Hj|lra]. }
        split; [exact D1|]. split; [exact D2|].
        pose proof (HK (nxt i) Hj) as L2. rewrite Ej in L2.
        destruct (around i K K Hi (HK i Hi) L2) as (_ & C1 & C2). rewrite <- Eq in *. split.
        - intros A. destruct (C1 A) as (d & Hd & H). destruct (closest_near d Hd) as (r & Hr & Hx). rewrite (to_closest r Hr).
          apply H; [exact Hx|]. apply outside_angle; try assumption; lra.
        - intros A N. destruct (C2 A) as (d & Hd & H). apply (by_line _ _ d Hd); try assumption. rewrite area_turn, A. ring.
      Qed.
    End Closest.

    Let prv j := if (j =? 0)%nat then (n - 1)%nat else (j - 1)%nat.
    Lemma prv_ok j : (j < n)%nat -> (prv j < n)%nat /\ nxt (prv j) = j.
    Proof.
      intros Hj. unfold prv, nxt. destruct (Nat.eqb_spec j 0) as [->|].
      - replace (S (n - 1)) with n by lia. rewrite Nat.eqb_refl. split; [lia|reflexivity].
      - replace (S (j - 1)) with j by lia. destruct (Nat.eqb_spec j n); [lia|]. split; lia.
    Qed.

    (** What is_inside looks at, grids.py:282-301, tells the winding number. *)
    Lemma verdict m j b : (j < n)%nat -> side (v j) (v (S j)) p = Some (m, b) -> 0 < m ->
      (forall i s, (i < n)%nat -> 0 <= s <= 1 -> m <= dist2 p (on_side (v i) (v (S i)) s)) ->
      wind sides p = if Rlt_dec (if b then area (v j) (v (S j)) p else area (v (S j)) (v j) (v (prv j))) 0 then K - 1 else K.
    Proof.
      intros Hj Hs Hm Hmin. destruct (side_attained v n p sides_distinct j m b Hj Hs) as (t & Ht & Em & Hc1 & Hc2).
      destruct (prv_ok j Hj) as (Hi & Ei). destruct (nxt_ok (prv j) Hi) as (_ & Ev & _). rewrite Ei in Ev. symmetry in Ev.
      set (q := on_side (v j) (v (S j)) t) in *. rewrite Em in Hm, Hmin.
      pose proof (sides_distinct j Hj) as Dj. assert (HL : 0 < dist2 (v (S j)) (v j)) by (rewrite dist2_sym; now apply dist2_pos).
      destruct b.
      - assert (Hperp : (fst p - fst q) * (fst (v (S j)) - fst (v j)) + (snd p - snd q) * (snd (v (S j)) - snd (v j)) = 0).
        { unfold q, on_side. cbn [fst snd]. rewrite (Hc1 eq_refl). unfold foot, dist2. field. unfold dist2 in HL. lra. }
        assert (Na : area (v j) (v (S j)) p <> 0).
        { intros E. assert (Z : area (v j) (v (S j)) p * area (v j) (v (S j)) p = dist2 p q * dist2 (v (S j)) (v j)
            - ((fst p - fst q) * (fst (v (S j)) - fst (v j)) + (snd p - snd q) * (snd (v (S j)) - snd (v j)))
              * ((fst p - fst q) * (fst (v (S j)) - fst (v j)) + (snd p - snd q) * (snd (v (S j)) - snd (v j)))).
          { replace (area (v j) (v (S j)) p) with ((fst (v (S j)) - fst (v j)) * (snd p - snd q) - (snd (v (S j)) - snd (v j)) * (fst p - fst q))
              by (unfold q, area, on_side; cbn [fst snd]; ring). unfold dist2. ring. }
          rewrite E, Hperp in Z. assert (0 < dist2 p q * dist2 (v (S j)) (v j)) by now apply Rmult_lt_0_compat. lra. }
        assert (Zq : area (v j) (v (S j)) q = 0) by apply area_self.
        destruct (Req_EM_T t 0) as [T0|T0].
        + (* the start of the side *)
          assert (Eq : q = v (S (prv j))) by (rewrite Ev; unfold q; rewrite T0; apply on_side_0).
          destruct (by_vertex q Hm Hmin (prv j) Hi Eq) as (D1 & D2 & C1 & C2). rewrite Ei, Ev in *.
          set (u := v (prv j)) in *. set (w := v j) in *. set (z := v (S j)) in *.
          assert (D0 : dot q p z = 0) by (unfold dot; rewrite Eq in Hperp |- *; exact Hperp).
          pose proof (dots_area u w z p) as I0. rewrite <- Eq in I0. rewrite D0 in I0. rewrite Eq in I0.
          destruct (Req_EM_T (area u w z) 0) as [A|A].
          * destruct (between (prv j) Hi) as (s0 & Hs0 & N0 & E0); [rewrite Ei, Ev; exact A|]. rewrite Ei, Ev in E0. fold u w z in E0.
            assert (X : area w z p = (1 - s0) * area u z p) by (rewrite E0; unfold area, on_side; cbn [fst snd]; ring).
            rewrite C2; [|exact A|intros Y; rewrite Y in X; lra]. rewrite X. destruct (Rlt_dec (area u z p) 0), (Rlt_dec ((1 - s0) * area u z p) 0); try reflexivity; exfalso; nra.
          * rewrite (C1 A). rewrite <- Eq in I0 at 2. assert (P := Hm). rewrite Eq in D1, I0, P.
            destruct (Rlt_dec 0 (area u w z)), (Rlt_dec (area w z p) 0); try reflexivity; exfalso.
            -- assert (0 < area u w z * dist2 p w) by now apply Rmult_lt_0_compat. nra.
            -- assert (area u w z * dist2 p w < 0) by nra. nra.
        + destruct (Req_EM_T t 1) as [T1|T1].
          * (* its end *)
            assert (Eq : q = v (S j)) by (unfold q; rewrite T1; apply on_side_1).
            destruct (by_vertex q Hm Hmin j Hj Eq) as (D1 & D2 & C1 & C2).
            set (u := v j) in *. set (w := v (S j)) in *. set (z := v (S (nxt j))) in *.
            assert (D0 : dot q p u = 0) by (unfold dot; rewrite Eq in Hperp |- *; lra).
            pose proof (dots_area u w z p) as I0. rewrite <- Eq in I0. rewrite D0 in I0. rewrite Eq in I0.
            destruct (Req_EM_T (area u w z) 0) as [A|A].
            -- destruct (between j Hj A) as (s0 & Hs0 & N0 & E0). fold u w z in E0.
               assert (X : area u w p = s0 * area u z p) by (rewrite E0; unfold area, on_side; cbn [fst snd]; ring).
               rewrite C2; [|exact A|intros Y; rewrite Y in X; lra]. rewrite X. destruct (Rlt_dec (area u z p) 0), (Rlt_dec (s0 * area u z p) 0); try reflexivity; exfalso; nra.
            -- rewrite (C1 A). assert (P := Hm). rewrite Eq in D2, P.
               destruct (Rlt_dec 0 (area u w z)), (Rlt_dec (area u w p) 0); try reflexivity; exfalso.
               ++ assert (0 < area u w z * dist2 p w) by now apply Rmult_lt_0_compat. nra.
               ++ assert (area u w z * dist2 p w < 0) by nra. nra.
          * destruct (HK j Hj t ltac:(lra)) as (d & Hd & H). exact (by_line q Hm Hmin _ _ d Hd Zq Na H).
      - destruct (Hc2 eq_refl) as [T0 Hf].
        assert (Eq : q = v (S (prv j))) by (rewrite Ev; unfold q; rewrite T0; apply on_side_0).
        destruct (by_vertex q Hm Hmin (prv j) Hi Eq) as (D1 & D2 & C1 & C2). rewrite Ei, Ev in *.
        set (u := v (prv j)) in *. set (w := v j) in *. set (z := v (S j)) in *.
        assert (D0 : dot w p z < 0).
        { unfold foot in Hf. destruct (Rlt_dec (dot w p z) 0) as [|G]; [assumption|exfalso]. fold (dot w p z) in Hf.
          assert (0 <= / dist2 z w) by (apply Rlt_le, Rinv_0_lt_compat; exact HL).
          assert (0 <= dot w p z / dist2 z w) by (apply Rmult_le_pos; lra). lra. }
        rewrite Eq in D1.
        assert (A : area u w z <> 0).
        { intros A. destruct (between (prv j) Hi) as (s0 & Hs0 & N0 & E0); [rewrite Ei, Ev; exact A|]. rewrite Ei, Ev in E0. fold u w z in E0.
          assert (X : s0 * dot w p z = - ((1 - s0) * dot w p u)) by (rewrite E0; unfold dot, on_side; cbn [fst snd]; ring). nra. }
        rewrite (C1 A). replace (area z w u) with (- area u w z) by (unfold area; ring).
        destruct (Rlt_dec 0 (area u w z)), (Rlt_dec (- area u w z) 0); try reflexivity; exfalso; lra.
    Qed.

    Lemma two_values : off sides p -> wind sides p = K \/ wind sides p = K - 1.
    Proof.
      intros O. destruct (scan_distance v n p ltac:(lia) Hclosed sides_distinct) as (m & j & b & _ & Hj & Hs & Hmin).
      assert (Hm : 0 < m).
      { destruct (side_attained v n p sides_distinct j m b Hj Hs) as (t & Ht & -> & _). apply dist2_pos. intros E.
        apply (proj1 (Forall_forall _ _) O (side_of j)) with (s := t); [|exact Ht|now symmetry].
        unfold sides. apply in_map_iff. exists j. split; [reflexivity|]. now apply in_range. }
      rewrite (verdict m j b Hj Hs Hm Hmin). destruct (Rlt_dec _ 0); auto.
    Qed.
  End Point.

  (** Above all sides the winding number is zero. *)
  Lemma above : exists y, forall x, wind sides (x, y) = 0 /\ off sides (x, y).
  Proof.
    assert (Q : exists M, forall k, (k <= n)%nat -> snd (v k) < M).
    { clear. induction n as [|m (M & IH)]; [exists (snd (v 0%nat) + 1); intros k Hk; replace k with 0%nat by lia; lra|].
      exists (Rmax M (snd (v (S m)) + 1)). intros k Hk. destruct (Nat.eq_dec k (S m)) as [->|].
      - apply Rlt_le_trans with (snd (v (S m)) + 1); [lra|apply Rmax_r].
      - apply Rlt_le_trans with M; [apply IH; lia|apply Rmax_l]. }
    destruct Q as (M & HM). exists M. intros x. split.
    - unfold wind. rewrite (total_ext _ (fun e => 0 * 0)); [rewrite total_scal; ring|]. intros e He. unfold sides in He. apply in_map_iff in He.
      destruct He as (k & <- & Hk). apply in_seq in Hk. cbn [fst snd]. pose proof (HM k ltac:(lia)). pose proof (HM (S k) ltac:(lia)).
      unfold cr. cbn [fst snd]. dec; lra.
    - unfold sides. apply (off_others (seq 0 n)). intros k Hk. apply in_seq in Hk. split; [lia|]. intros s Hs E.
      pose proof (HM k ltac:(lia)). pose proof (HM (S k) ltac:(lia)). apply (f_equal snd) in E. cbn [on_side fst snd] in E.
      assert (0 <= (1 - s) * (M - snd (v k))) by (apply Rmult_le_pos; lra). assert (0 <= s * (M - snd (v (S k)))) by (apply Rmult_le_pos; lra).
      destruct (Rle_dec s (1/2)); [assert (0 < (1 - s) * (M - snd (v k))) by (apply Rmult_lt_0_compat; lra)
        |assert (0 < s * (M - snd (v (S k)))) by (apply Rmult_lt_0_compat; lra)]; lra.
  Qed.

  (** If the area is not negative, the inside is to the left. *)
  Lemma left_is_one K : (forall i, (i < n)%nat -> left_value sides (v i) (v (S i)) K) -> 0 <= shoelace sides -> K = 1.
  Proof.
    intros HK Hs. destruct above as (y & Hy). destruct (Hy 0) as [W O].
    destruct (two_values (0, y) K HK O) as [E|E]; rewrite W in E; [exfalso|lra]. subst K.
    destruct (HK 0%nat ltac:(lia) (1/2) ltac:(lra)) as (d & Hd & H). pose proof (sides_distinct 0 ltac:(lia)) as N.
    set (a := v 0%nat) in *. set (b := v 1%nat) in *. set (c := on_side a b (1/2)) in *.
    destruct (left_point b a c (d / 2) (not_eq_sym N) ltac:(lra)) as (x0 & Hx0 & A). rewrite !(area_swap a b) in A.
    assert (Ac : area a b c = 0) by apply area_self. assert (A0 : area a b x0 < 0) by lra.
    destruct (area_sign a b x0 ltac:(lra)) as (e & He & S).
    enough (shoelace sides < 0) by lra. apply (orientation sides x0 (Rmin e (d / 2))).
    - exact sides_balanced.
    - intros x Ox. destruct (two_values x 0 HK Ox) as [E2|E2]; rewrite E2; lra.
    - apply Rmin_glb_lt; lra.
    - intros x Hx. replace (-1) with (0 - 1) by ring. apply H.
      + replace d with (d / 2 + d / 2) by field. apply (near_trans _ _ _ x0); [exact Hx0|]. apply (near_le (Rmin e (d / 2))); [apply Rmin_r|exact Hx].
      + apply S; [apply (near_le (Rmin e (d / 2))); [apply Rmin_l|exact Hx]|exact A0].
  Qed.

  (** The signed distance, for sides with the inside on the left. *)
  Lemma signed p smalld : 0 <= shoelace sides -> exists d, 0 <= d
    /\ (forall i s, (i < n)%nat -> 0 <= s <= 1 -> d <= sqrt (dist2 p (on_side (v i) (v (S i)) s)))
    /\ (exists i s, (i < n)%nat /\ 0 <= s <= 1 /\ d = sqrt (dist2 p (on_side (v i) (v (S i)) s)))
    /\ (0 < d -> wind sides p = 1 /\ is_inside_fn v n smalld p = inl (if Rlt_dec d smalld then 0 else d)
              \/ wind sides p = 0 /\ is_inside_fn v n smalld p = inl (if Rlt_dec d smalld then 0 else - d))
    /\ (d = 0 -> is_inside_fn v n smalld p = inl 0).
  Proof.
    intros Hs. destruct common_left as (K & HK). pose proof (left_is_one K HK Hs) as ->.
    destruct (scan_distance v n p ltac:(lia) Hclosed sides_distinct) as (m & j & b & E & Hj & Hsd & Hmin).
    destruct (side_attained v n p sides_distinct j m b Hj Hsd) as (t & Ht & Em & _).
    exists (sqrt m). assert (P := sqrt_pos m). split; [exact P|]. split; [intros i s Hi Hs1; apply sqrt_le_1_alt; now apply Hmin|].
    split; [exists j, t; rewrite <- Em; auto|]. unfold is_inside_fn. rewrite E. split.
    - intros P1. assert (Hm : 0 < m) by (destruct (Rlt_dec 0 m); [assumption|rewrite sqrt_neg_0 in P1 by lra; lra]).
      cbv zeta. set (A0 := if b then area (v j) (v (S j)) p else area (v (S j)) (v j) (if (j =? 0)%nat then v (n - 1)%nat else v (j - 1)%nat)).
      assert (V : wind sides p = if Rlt_dec A0 0 then 1 - 1 else 1).
      { rewrite (verdict p 1 HK m j b Hj Hsd Hm Hmin). unfold A0. now destruct (j =? 0)%nat. }
      destruct (Rlt_dec A0 0) as [A|A].
      + right. split; [lra|]. rewrite Rabs_Ropp, Rabs_pos_eq by exact P. reflexivity.
      + left. split; [lra|]. rewrite Rabs_pos_eq by exact P. reflexivity.
    - intros P0. rewrite P0. f_equal. destruct (Rlt_dec (if b then _ else _) 0); destruct (Rlt_dec (Rabs _) smalld); ring.
  Qed.
End Simple.

(** ** Specification: simple polygons, and inside by the number of sides crossed *)

(** Different sides have at most a common vertex, where one ends and the next begins. *)
Definition simple_polygon (l : list p2) : Prop :=
  (3 <= length l)%nat /\ forall i j s t, (i < length l)%nat -> (j < length l)%nat -> i <> j -> 0 <= s <= 1 -> 0 <= t <= 1 ->
    boundary_point l i s = boundary_point l j t ->
    (j = (S i mod length l)%nat /\ s = 1 /\ t = 0) \/ (i = (S j mod length l)%nat /\ s = 0 /\ t = 1).

(** The side from a to b crosses the horizontal half-line from p to the right; its lower end counts, its upper end not. *)
Definition crosses (a b p : p2) : Prop :=
  (snd a <= snd p < snd b \/ snd b <= snd p < snd a) /\ exists s, snd (on_side a b s) = snd p /\ fst p < fst (on_side a b s).

(** An odd number of sides crosses that half-line. *)
Definition in_polygon (l : list p2) (p : p2) : Prop :=
  exists J, NoDup J /\ (forall i, In i J <-> (i < length l)%nat /\ crosses (vtx l i) (vtx l (S i)) p) /\ Nat.Odd (length J).

Lemma cr_crosses a b p : (cr a b p = 0 /\ ~ crosses a b p) \/ ((cr a b p = 1 \/ cr a b p = -1) /\ crosses a b p).
Proof.
  assert (Q : snd a <> snd b -> let s := (snd p - snd a) / (snd b - snd a) in
    snd (on_side a b s) = snd p /\ area a b p = (snd b - snd a) * (fst (on_side a b s) - fst p)
    /\ forall s', snd (on_side a b s') = snd p -> s' = s).
  { intros N s. assert (E : snd (on_side a b s) = snd p) by (unfold s; cbn [on_side snd]; field; lra). split; [exact E|]. split.
    - unfold s, area, on_side. cbn [fst]. field. lra.
    - intros s' E'. cbn [on_side snd] in E'. unfold s. rewrite <- E'. field. lra. }
  unfold cr. destruct (Rlt_dec (snd p) (snd b)) as [L1|L1].
  - destruct (Rlt_dec (snd p) (snd a)) as [L2|L2].
    + left. split; [reflexivity|]. intros ([H|H] & _); lra.
    + destruct (Q ltac:(lra)) as (E & A & U). destruct (Rlt_dec 0 (area a b p)) as [P|P].
      * right. split; [now left|]. split; [left; lra|]. eexists. split; [exact E|]. nra.
      * left. split; [reflexivity|]. intros (_ & s' & E' & H). rewrite (U s' E') in H. nra.
  - destruct (Rlt_dec (snd p) (snd a)) as [L2|L2].
    + destruct (Q ltac:(lra)) as (E & A & U). destruct (Rlt_dec (area a b p) 0) as [P|P].
      * right. split; [now right|]. split; [right; lra|]. eexists. split; [exact E|]. nra.
      * left. split; [reflexivity|]. intros (_ & s' & E' & H). rewrite (U s' E') in H. nra.
    + left. split; [reflexivity|]. intros ([H|H] & _); lra.
Qed.

(** The winding number and the number of crossings are both even or both odd. *)
Definition crossb (a b p : p2) : bool := if Req_EM_T (cr a b p) 0 then false else true.
Lemma crossb_spec a b p : crossb a b p = true <-> crosses a b p.
Proof.
  unfold crossb. destruct (cr_crosses a b p) as [[E N]|[E C]].
  - rewrite E. destruct (Req_EM_T 0 0); [|lra]. split; [discriminate|intros C; contradiction].
  - destruct (Req_EM_T (cr a b p) 0); [destruct E; lra|]. tauto.
Qed.
Lemma wind_parity (v : nat -> p2) p (L : list nat) : exists z : Z,
  wind (map (fun i => (v i, v (S i))) L) p = INR (length (filter (fun i => crossb (v i) (v (S i)) p) L)) - 2 * IZR z.
Proof.
  induction L as [|i L (z & IH)]; [exists 0%Z; cbn; ring|]. cbn [map filter]. rewrite wind_cons, IH. unfold crossb at 2.
  destruct (cr_crosses (v i) (v (S i)) p) as [[E _]|[[E|E] _]]; rewrite E.
  - exists z. destruct (Req_EM_T 0 0); [ring|lra].
  - exists z. destruct (Req_EM_T 1 0); [lra|]. cbn [length]. rewrite S_INR. ring.
  - exists (z + 1)%Z. destruct (Req_EM_T (-1) 0); [lra|]. cbn [length]. rewrite S_INR, plus_IZR. ring.
Qed.

Definition edges (l : list p2) : list edge := sides (vtx l) (length l).

Lemma in_polygon_wind l p : wind (edges l) p = 0 \/ wind (edges l) p = 1 \/ wind (edges l) p = -1 -> (in_polygon l p <-> wind (edges l) p <> 0).
Proof.
  intros H. destruct (wind_parity (vtx l) p (seq 0 (length l))) as (z & W). change (map _ _) with (edges l) in W.
  set (J := filter (fun i => crossb (vtx l i) (vtx l (S i)) p) (seq 0 (length l))) in *.
  assert (ND : NoDup J) by apply NoDup_filter, seq_NoDup.
  assert (HJ : forall i, In i J <-> (i < length l)%nat /\ crosses (vtx l i) (vtx l (S i)) p).
  { intros i. unfold J. rewrite filter_In, in_seq, crossb_spec. intuition lia. }
  rewrite INR_IZR_INZ, <- mult_IZR, <- minus_IZR in W.
  split.
  - intros (J' & ND' & HJ' & O) E.
    assert (P : Permutation J' J) by (apply NoDup_Permutation; try assumption; intros i; now rewrite HJ', HJ).
    rewrite (Permutation_length P) in O. rewrite E in W. apply eq_IZR in W. destruct O as (k & O). lia.
  - intros N. exists J. split; [exact ND|]. split; [exact HJ|]. destruct (Nat.Even_or_Odd (length J)) as [(k & O)|O]; [exfalso|exact O].
    destruct H as [H|[H|H]]; [contradiction| |]; rewrite H in W; apply eq_IZR in W; lia.
Qed.

(** ** The constructor and both orientations *)
Lemma rev_seq n : rev (seq 0 n) = map (fun i => (n - S i)%nat) (seq 0 n).
Proof.
  apply (nth_ext _ _ 0%nat (n - S 0)%nat); [now rewrite rev_length, map_length|]. intros k Hk. rewrite rev_length, seq_length in Hk.
  rewrite (map_nth (fun i => (n - S i)%nat)), rev_nth, !seq_nth, seq_length by (rewrite ?seq_length; lia). lia.
Qed.
Lemma total_flip (v w : nat -> p2) n g : (forall i, (i <= n)%nat -> w i = v (n - i)%nat) ->
  total g (sides w n) = total (fun e => g (snd e, fst e)) (sides v n).
Proof.
  intros H. assert (E : map (fun e : edge => (snd e, fst e)) (sides v n) = rev (sides w n)).
  { unfold sides. rewrite <- map_rev, rev_seq, !map_map. apply map_ext_in. intros i Hi. apply in_seq in Hi.
    cbn [fst snd]. rewrite !H by lia. f_equal; f_equal; lia. }
  rewrite (total_perm g _ _ (Permutation_rev (sides w n))), <- E. generalize (sides v n). intros l. clear. induction l as [|e l IH]; [reflexivity|].
  cbn [map]. now rewrite !total_cons, IH.
Qed.
Lemma sides_ext v w n : (forall i, (i <= n)%nat -> v i = w i) -> sides v n = sides w n.
Proof. intros H. unfold sides. apply map_ext_in. intros i Hi. apply in_seq in Hi. rewrite !H by lia. reflexivity. Qed.

Lemma det_sides v0 l : det ((v0 :: l) ++ [v0]) = shoelace (edges (v0 :: l)).
Proof.
  unfold det. rewrite last_snoc. change ((v0 :: l) ++ [v0]) with (v0 :: (l ++ [v0])). cbn [det_from].
  assert (Q : forall (c : list p2) a, det_from a c = shoelace (sides (fun i => nth i (a :: c) (0, 0)) (length c))).
  { induction c as [|b c IH]; intros a; [reflexivity|]. cbn [det_from length]. rewrite IH. unfold sides. cbn [seq map]. unfold shoelace. rewrite total_cons.
    rewrite <- seq_shift, map_map. cbn [fst snd nth]. ring. }
  rewrite Q. unfold edges. rewrite (sides_ext (vtx (v0 :: l)) (fun i => nth i (v0 :: l ++ [v0]) (0, 0))).
  - replace (length (l ++ [v0])) with (length (v0 :: l)) by (rewrite app_length; cbn; lia). ring.
  - intros i Hi. symmetry. exact (closed_nth v0 l i Hi).
Qed.

Lemma last_nth : forall (m : list p2) x d, last (x :: m) d = nth (length m) (x :: m) (0, 0).
Proof. induction m as [|y m IH]; intros x d; [reflexivity|]. change (last (y :: m) d = nth (length m) (y :: m) (0, 0)). apply IH. Qed.

Section List_polygon.
  Variables (v0 : p2) (l : list p2).
  Let L := v0 :: l.
  Let n := length L.
  Hypothesis HS : simple_polygon L.

  Lemma list_closed : vtx L n = vtx L 0.
  Proof. unfold vtx. fold n. rewrite Nat.mod_same, Nat.mod_small by (unfold n, L; cbn; lia). reflexivity. Qed.
  Lemma mod_nxt j : (j < n)%nat -> (S j mod n)%nat = if (S j =? n)%nat then 0%nat else S j.
  Proof. intros Hj. destruct (Nat.eqb_spec (S j) n) as [->|]; [apply Nat.mod_same; lia|apply Nat.mod_small; lia]. Qed.
  Lemma list_simple i j s t : (i < n)%nat -> (j < n)%nat -> i <> j -> 0 <= s <= 1 -> 0 <= t <= 1 ->
    on_side (vtx L i) (vtx L (S i)) s = on_side (vtx L j) (vtx L (S j)) t ->
    (j = (if (S i =? n)%nat then 0%nat else S i) /\ s = 1 /\ t = 0) \/ (i = (if (S j =? n)%nat then 0%nat else S j) /\ s = 0 /\ t = 1).
  Proof.
    intros Hi Hj N Hs Ht E. destruct HS as [_ H]. fold n in H. specialize (H i j s t Hi Hj N Hs Ht E). now rewrite !mod_nxt in H by assumption.
  Qed.
  Lemma list_distinct i : (i < n)%nat -> vtx L i <> vtx L (S i).
  Proof. apply (sides_distinct (vtx L) n (proj1 HS) list_closed list_simple). Qed.

  (** Closing the polygon. *)
  Lemma mk_closed : mk_polygon L = inl (if Rlt_dec (shoelace (edges L)) 0 then rev (L ++ [v0]) else L ++ [v0])
    /\ mk_polygon (L ++ [v0]) = mk_polygon L.
  Proof.
    assert (Hlast : last L v0 = vtx L (n - 1)).
    { rewrite vtx_lt by (fold n; unfold n, L; cbn; lia). unfold n, L. cbn [length]. replace (S (length l) - 1)%nat with (length l) by lia.
      apply last_nth. }
    assert (N : v0 <> last L v0).
    { rewrite Hlast. intros E. apply (list_distinct (n - 1)); [unfold n, L; cbn; lia|]. replace (S (n - 1)) with n by (unfold n, L; cbn; lia).
      rewrite list_closed, <- E, vtx_lt by (unfold L; cbn; lia). reflexivity. }
    assert (E1 : mk_polygon L = inl (if Rlt_dec (det (L ++ [v0])) 0 then rev (L ++ [v0]) else L ++ [v0])).
    { unfold mk_polygon. unfold L at 1. fold L.
      destruct (Req_EM_T (fst v0) (fst (last L v0))) as [F1|]; [|reflexivity]. destruct (Req_EM_T (snd v0) (snd (last L v0))) as [F2|]; [|reflexivity].
      exfalso. apply N. now apply p2_eq. }
    assert (E2 : mk_polygon (L ++ [v0]) = inl (if Rlt_dec (det (L ++ [v0])) 0 then rev (L ++ [v0]) else L ++ [v0])).
    { unfold mk_polygon. change (L ++ [v0]) with (v0 :: (l ++ [v0])) at 1. cbv beta iota. change (v0 :: l ++ [v0]) with (L ++ [v0]). rewrite last_snoc.
      destruct (Req_EM_T (fst v0) (fst v0)); [|congruence]. destruct (Req_EM_T (snd v0) (snd v0)); [|congruence]. reflexivity. }
    rewrite E2, E1. unfold L in *. rewrite det_sides. split; reflexivity.
  Qed.

  (** The vertices kept by the constructor, without a repeated one. *)
  Let w (r : bool) (i : nat) : p2 := if r then vtx L (n - i) else vtx L i.
  Lemma w_closed r : w r n = w r 0%nat.
  Proof. unfold w. rewrite Nat.sub_0_r, Nat.sub_diag. destruct r; [symmetry|]; apply list_closed. Qed.
  Lemma w_simple r i j s t : (i < n)%nat -> (j < n)%nat -> i <> j -> 0 <= s <= 1 -> 0 <= t <= 1 ->
    on_side (w r i) (w r (S i)) s = on_side (w r j) (w r (S j)) t ->
    (j = (if (S i =? n)%nat then 0%nat else S i) /\ s = 1 /\ t = 0) \/ (i = (if (S j =? n)%nat then 0%nat else S j) /\ s = 0 /\ t = 1).
  Proof.
    intros Hi Hj N Hs Ht E. destruct r; [|now apply list_simple]. unfold w in E. rewrite (on_side_rev _ (vtx L (n - i))), (on_side_rev _ (vtx L (n - j))) in E.
    assert (Ei : (n - i = S (n - S i))%nat) by lia. assert (Ej : (n - j = S (n - S j))%nat) by lia. rewrite Ei, Ej in E.
    destruct (list_simple (n - S i) (n - S j) (1 - s) (1 - t) ltac:(lia) ltac:(lia) ltac:(lia) ltac:(lra) ltac:(lra) E) as [(Q & Q1 & Q2)|(Q & Q1 & Q2)].
    - right. split; [|lra]. rewrite <- Ei in Q. revert Q. destruct (Nat.eqb_spec (n - i) n); destruct (Nat.eqb_spec (S j) n); lia.
    - left. split; [|lra]. rewrite <- Ej in Q. revert Q. destruct (Nat.eqb_spec (n - j) n); destruct (Nat.eqb_spec (S i) n); lia.
  Qed.
  Lemma w_total r g : total g (sides (w r) n) = if r then total (fun e => g (snd e, fst e)) (edges L) else total g (edges L).
  Proof. destruct r; [apply total_flip; reflexivity|reflexivity]. Qed.
  Lemma w_wind r p : wind (sides (w r) n) p = if r then - wind (edges L) p else wind (edges L) p.
  Proof.
    unfold wind. rewrite w_total. destruct r; [|reflexivity]. replace (- total (fun e => cr (fst e) (snd e) p) (edges L))
      with (-1 * total (fun e => cr (fst e) (snd e) p) (edges L)) by ring.
    rewrite <- total_scal. apply total_ext. intros e _. cbn [fst snd]. rewrite cr_anti. ring.
  Qed.
  Lemma w_shoelace r : shoelace (sides (w r) n) = if r then - shoelace (edges L) else shoelace (edges L).
  Proof.
    unfold shoelace. rewrite w_total. destruct r; [|reflexivity]. replace (- total (fun e => fst (fst e) * snd (snd e) - fst (snd e) * snd (fst e)) (edges L))
      with (-1 * total (fun e => fst (fst e) * snd (snd e) - fst (snd e) * snd (fst e)) (edges L)) by ring.
    rewrite <- total_scal. apply total_ext. intros e _. cbn [fst snd]. ring.
  Qed.

  (** The reversed sides are the same points. *)
  Lemma w_points r i s : (i < n)%nat -> 0 <= s <= 1 -> exists j t, (j < n)%nat /\ 0 <= t <= 1 /\ on_side (w r i) (w r (S i)) s = boundary_point L j t.
  Proof.
    intros Hi Hs. destruct r; [|exists i, s; auto]. exists (n - S i)%nat, (1 - s). split; [lia|]. split; [lra|].
    unfold w, boundary_point. rewrite on_side_rev. replace (S (n - S i)) with (n - i)%nat by lia. reflexivity.
  Qed.
  Lemma w_points_all r j t : (j < n)%nat -> 0 <= t <= 1 -> exists i s, (i < n)%nat /\ 0 <= s <= 1 /\ on_side (w r i) (w r (S i)) s = boundary_point L j t.
  Proof.
    intros Hi Hs. destruct r; [|exists j, t; auto]. exists (n - S j)%nat, (1 - t). split; [lia|]. split; [lra|].
    unfold w, boundary_point. rewrite on_side_rev. replace (n - (n - S j))%nat with (S j) by lia. replace (n - S (n - S j))%nat with j by lia.
    now replace (1 - (1 - t)) with t by ring.
  Qed.

  Lemma is_inside_ext (f g : nat -> p2) smalld p : (forall i, (i <= n)%nat -> f i = g i) -> is_inside_fn f n smalld p = is_inside_fn g n smalld p.
  Proof.
    intros H. unfold is_inside_fn. assert (Q : forall k, (k <= n)%nat -> scan f k p = scan g k p).
    { induction k as [|k IH]; intros Hk; [reflexivity|]. rewrite !scan_S, IH by lia. unfold improve. rewrite !H by lia. reflexivity. }
    rewrite (Q n (le_n n)). pose proof (scan_spec g n p) as S. destruct (scan g n p) as [[[m j] near]|]; [|reflexivity]. destruct S as (Hj & _).
    rewrite !H by lia. reflexivity.
  Qed.

  Theorem polygon_simple smalld p : exists poly d, mk_polygon L = inl poly /\ mk_polygon (L ++ [v0]) = inl poly /\ 0 <= d
    /\ (forall i t, (i < n)%nat -> 0 <= t <= 1 -> d <= sqrt (dist2 p (boundary_point L i t)))
    /\ (exists i t, (i < n)%nat /\ 0 <= t <= 1 /\ d = sqrt (dist2 p (boundary_point L i t)))
    /\ (in_polygon L p -> is_inside poly smalld p = inl (if Rlt_dec d smalld then 0 else d))
    /\ (~ in_polygon L p -> is_inside poly smalld p = inl (if Rlt_dec d smalld then 0 else - d)).
  Proof.
    destruct mk_closed as [M1 M2]. rewrite M2, M1.
    set (r := if Rlt_dec (shoelace (edges L)) 0 then true else false).
    set (poly := if Rlt_dec (shoelace (edges L)) 0 then rev (L ++ [v0]) else L ++ [v0]).
    assert (Hlen : length (L ++ [v0]) = S n) by (rewrite app_length; cbn; unfold n, L; cbn; lia).
    assert (Hc : forall i, (i <= n)%nat -> nth i (L ++ [v0]) (0, 0) = vtx L i) by (intros i Hi; apply closed_nth; exact Hi).
    assert (Ep : is_inside poly smalld p = is_inside_fn (w r) n smalld p).
    { unfold is_inside. replace (length poly - 1)%nat with n by (unfold poly; destruct (Rlt_dec _ 0); rewrite ?rev_length, Hlen; lia).
      apply is_inside_ext. intros i Hi. unfold poly, w, r. destruct (Rlt_dec _ 0).
      - rewrite rev_nth by lia. rewrite Hlen. replace (S n - S i)%nat with (n - i)%nat by lia. apply Hc. lia.
      - now apply Hc. }
    assert (Hs : 0 <= shoelace (sides (w r) n)) by (rewrite w_shoelace; unfold r; destruct (Rlt_dec _ 0); lra).
    destruct (signed (w r) n (proj1 HS) (w_closed r) (w_simple r) p smalld Hs) as (d & Hd & D1 & D2 & D3 & D4). rewrite w_wind in D3.
    exists poly, d. split; [reflexivity|]. split; [reflexivity|]. split; [exact Hd|]. split.
    { intros j t Hj Ht. destruct (w_points_all r j t Hj Ht) as (i & s & Hi & Hs1 & E). rewrite <- E. now apply D1. }
    split.
    { destruct D2 as (i & s & Hi & Hs1 & E). destruct (w_points r i s Hi Hs1) as (j & t & Hj & Ht & E2). exists j, t. rewrite <- E2. auto. }
    rewrite Ep. destruct (Req_EM_T d 0) as [Z|Z].
    { rewrite (D4 Z), Z. split; intros _; destruct (Rlt_dec 0 smalld); rewrite ?Ropp_0; reflexivity. }
    specialize (D3 ltac:(lra)).
    assert (W3 : wind (edges L) p = 0 \/ wind (edges L) p = 1 \/ wind (edges L) p = -1) by (destruct r, D3 as [[E _]|[E _]]; lra).
    pose proof (in_polygon_wind L p W3) as IP. split; intros Hin.
    - apply IP in Hin. destruct D3 as [[E R1]|[E R1]]; [exact R1|exfalso; destruct r; lra].
    - destruct D3 as [[E R1]|[E R1]]; [exfalso; apply Hin, IP; destruct r; lra|exact R1].
  Qed.
End List_polygon.

(** ** What [in_polygon] means *)

(** p and q are the ends of a polyline that does not meet the boundary. *)
Inductive joined (l : list p2) : p2 -> p2 -> Prop :=
| joined_end p : joined l p p
| joined_step p q r : (forall s i t, 0 <= s <= 1 -> (i < length l)%nat -> 0 <= t <= 1 -> boundary_point l i t <> on_side p q s) ->
    joined l q r -> joined l p r.

Lemma off_edges l p : (forall i t, (i < length l)%nat -> 0 <= t <= 1 -> boundary_point l i t <> p) -> off (edges l) p.
Proof.
  intros H. apply Forall_forall. intros e He. unfold edges, sides in He. apply in_map_iff in He. destruct He as (i & <- & Hi). apply in_seq in Hi.
  intros t Ht. apply H; [lia|exact Ht].
Qed.

Lemma edges_balanced v0 l : balanced (edges (v0 :: l)).
Proof. apply sides_balanced, list_closed. Qed.

Lemma wind_three v0 l p : simple_polygon (v0 :: l) -> off (edges (v0 :: l)) p ->
  wind (edges (v0 :: l)) p = 0 \/ wind (edges (v0 :: l)) p = 1 \/ wind (edges (v0 :: l)) p = -1.
Proof.
  intros HS O. destruct (common_left (vtx (v0 :: l)) (length (v0 :: l)) (proj1 HS) (list_closed v0 l) (list_simple v0 l HS)) as (K & HK).
  pose proof (two_values _ _ (proj1 HS) (list_closed v0 l) (list_simple v0 l HS)) as T.
  destruct (above (vtx (v0 :: l)) _ (proj1 HS) (list_simple v0 l HS)) as (y & Hy). destruct (Hy 0) as [W Oy].
  change (sides _ _) with (edges (v0 :: l)) in *. destruct (T (0, y) K HK Oy) as [E|E]; destruct (T p K HK O) as [F|F]; lra.
Qed.

(** Points joined by such a line are both inside or both outside. *)
Theorem joined_inside l p q : simple_polygon l -> joined l p q -> in_polygon l p <-> in_polygon l q.
Proof.
  intros HS. destruct l as [|v0 l]; [destruct HS as [H _]; cbn in H; lia|]. induction 1 as [p|p q r H J IH]; [reflexivity|].
  rewrite <- IH. assert (O : forall s, 0 <= s <= 1 -> off (edges (v0 :: l)) (on_side p q s)) by (intros s Hs; apply off_edges; intros i t Hi Ht; now apply H).
  pose proof (O 0 ltac:(lra)) as O0. pose proof (O 1 ltac:(lra)) as O1. rewrite on_side_0 in O0. rewrite on_side_1 in O1.
  rewrite !in_polygon_wind by now apply wind_three. rewrite (wind_segment _ p q (edges_balanced v0 l) O). reflexivity.
Qed.

(** Points above, below, left or right of all vertices are outside. *)
Theorem far_outside l p : (forall i, (i < length l)%nat -> snd (vtx l i) < snd p) \/ (forall i, (i < length l)%nat -> snd p < snd (vtx l i))
  \/ (forall i, (i < length l)%nat -> fst (vtx l i) < fst p) -> ~ in_polygon l p.
Proof.
  intros H (J & _ & HJ & O). destruct J as [|i J]; [destruct O as (k & O); cbn in O; lia|]. destruct (proj1 (HJ i) (or_introl eq_refl)) as (Hi & C).
  assert (Q : exists k, (k < length l)%nat /\ vtx l (S i) = vtx l k).
  { exists (S i mod length l)%nat. split; [apply Nat.mod_upper_bound; lia|]. unfold vtx. now rewrite Nat.mod_mod by lia. }
  destruct Q as (k & Hk & E). rewrite E in C. destruct C as (B & s & E1 & E2). destruct H as [H|[H|H]]; pose proof (H i Hi); pose proof (H k Hk); [lra|lra|].
  cbn [on_side fst snd] in E1, E2. set (a := vtx l i) in *. set (b := vtx l k) in *.
  assert (Hs : 0 <= s <= 1) by (destruct B; nra).
  assert (0 <= (1 - s) * (fst p - fst a)) by (apply Rmult_le_pos; lra). assert (0 <= s * (fst p - fst b)) by (apply Rmult_le_pos; lra). lra.
Qed.

Theorem far_left l p : simple_polygon l -> (forall i, (i < length l)%nat -> fst p < fst (vtx l i)) -> ~ in_polygon l p.
Proof.
  intros HS H. assert (Q : exists M, forall k, (k < length l)%nat -> snd (vtx l k) < M).
  { generalize (length l) at 1 as m. induction m as [|m (M & IH)]; [exists 0; intros; lia|].
    exists (Rmax M (snd (vtx l m) + 1)). intros k Hk. destruct (Nat.eq_dec k m) as [->|].
    - apply Rlt_le_trans with (snd (vtx l m) + 1); [lra|apply Rmax_r].
    - apply Rlt_le_trans with M; [apply IH; lia|apply Rmax_l]. }
  destruct Q as (M & HM). rewrite (joined_inside l p (fst p, M) HS).
  - apply far_outside. left. exact HM.
  - apply joined_step with (q := (fst p, M)); [|apply joined_end]. intros s i t Hs Hi Ht E. apply (f_equal fst) in E. cbn [on_side boundary_point fst snd] in E.
    assert (Q : exists k, (k < length l)%nat /\ vtx l (S i) = vtx l k).
    { exists (S i mod length l)%nat. split; [apply Nat.mod_upper_bound; lia|]. unfold vtx. now rewrite Nat.mod_mod by lia. }
    destruct Q as (k & Hk & Ek). unfold boundary_point in E. rewrite Ek in E. cbn [on_side fst snd] in E. pose proof (H i Hi). pose proof (H k Hk).
    set (a := fst (vtx l i)) in *. set (b := fst (vtx l k)) in *.
    assert (0 <= (1 - t) * (a - fst p)) by (apply Rmult_le_pos; lra). assert (0 <= t * (b - fst p)) by (apply Rmult_le_pos; lra).
    destruct (Rle_dec t (1/2)); [assert (0 < (1 - t) * (a - fst p)) by (apply Rmult_lt_0_compat; lra)|assert (0 < t * (b - fst p)) by (apply Rmult_lt_0_compat; lra)]; lra.
Qed.

(** ** A polygon that crosses itself *)
Theorem polygon_crossing : exists poly, mk_polygon [(0, 0); (2, 2); (2, 0); (0, 2)] = inl poly
  /\ in_polygon [(0, 0); (2, 2); (2, 0); (0, 2)] (7/4, 1) /\ is_inside poly 1e-12 (7/4, 1) = inl (- (1/4)).
Proof.
  exists [(0, 0); (2, 2); (2, 0); (0, 2); (0, 0)]. split; [|split].
  - unfold mk_polygon. cbn [last fst snd]. destruct (Req_EM_T 0 0); [|lra]. destruct (Req_EM_T 0 2); [lra|]. cbn [app].
    destruct (Rlt_dec _ 0) as [H|]; [|reflexivity]. unfold det in H. cbn in H. lra.
  - exists [1%nat]. split; [constructor; [intros []|constructor]|]. split; [|now exists 0%nat].
    intros i. split.
    + intros [<-|[]]. split; [cbn; lia|]. unfold crosses, vtx. cbn [length Nat.modulo Nat.divmod Nat.sub fst snd nth on_side]. split; [right; lra|].
      exists (1/2). lra.
    + intros [Hi C]. cbn [length] in Hi. unfold crosses, vtx in C.
      destruct i as [|[|[|[|i]]]]; [exfalso| |exfalso|exfalso|lia]; [|now left| |];
        cbn [length Nat.modulo Nat.divmod Nat.sub fst snd nth on_side] in C; destruct C as (_ & s & C); lra.
  - unfold is_inside, is_inside_fn. cbn [length Nat.sub]. unfold scan. cbn [seq fold_left].
    assert (E0 : side (0, 0) (2, 2) (7/4, 1) = Some (9/32, true)).
    { unfold side. cbn [fst snd]. destruct (Req_EM_T _ 0); [lra|]. destruct (Rlt_dec _ 0) as [H|]; [exfalso; lra|].
      destruct (Rle_dec _ 1) as [|H]; [do 2 f_equal; field|]. exfalso. apply H. lra. }
    assert (E1 : side (2, 2) (2, 0) (7/4, 1) = Some (1/16, true)).
    { unfold side. cbn [fst snd]. destruct (Req_EM_T _ 0); [lra|]. destruct (Rlt_dec _ 0) as [H|]; [exfalso; lra|].
      destruct (Rle_dec _ 1) as [|H]; [do 2 f_equal; field|]. exfalso. apply H. lra. }
    assert (E2 : side (2, 0) (0, 2) (7/4, 1) = Some (9/32, true)).
    { unfold side. cbn [fst snd]. destruct (Req_EM_T _ 0); [lra|]. destruct (Rlt_dec _ 0) as [H|]; [exfalso; lra|].
      destruct (Rle_dec _ 1) as [|H]; [do 2 f_equal; field|]. exfalso. apply H. lra. }
    assert (E3 : side (0, 2) (0, 0) (7/4, 1) = Some (49/16, true)).
    { unfold side. cbn [fst snd]. destruct (Req_EM_T _ 0); [lra|]. destruct (Rlt_dec _ 0) as [H|]; [exfalso; lra|].
      destruct (Rle_dec _ 1) as [|H]; [do 2 f_equal; field|]. exfalso. apply H. lra. }
    unfold improve at 4. cbn [nth]. rewrite E0. unfold improve at 3. cbn [nth]. rewrite E1. destruct (Rlt_dec (1/16) (9/32)); [|lra].
    unfold improve at 2. cbn [nth]. rewrite E2. destruct (Rlt_dec (9/32) (1/16)); [lra|].
    unfold improve. cbn [nth]. rewrite E3. destruct (Rlt_dec (49/16) (1/16)); [lra|]. cbn [Nat.eqb Nat.sub]. unfold area. cbn [fst snd].
    destruct (Rlt_dec _ 0) as [_|H]; [|exfalso; apply H; lra].
    replace (1/16) with ((1/4) * (1/4)) by field. rewrite sqrt_square by lra.
    rewrite Rabs_Ropp, Rabs_pos_eq by lra. destruct (Rlt_dec _ _); [lra|reflexivity].
Qed.
