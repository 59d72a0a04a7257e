(** Properties of the spatial weights 'power' (C98). *)
From Coq Require Import List Arith Lia ZArith Bool Reals Lra Sorted Permutation.
From Verif Require Import Stream BlockOps Grids DasTraj PowerWeight.
Import ListNotations.
Local Open Scope R_scope.

(** Specification.  Every distance is given to one decimal relative to the largest; a
    ring is the set of microphones with the same value.  The ring at [x] extends half
    way to the neighbouring rings. *)
Definition one_decimal (d : list R) (x rho : R) : Prop :=
  exists m k, In m d /\ (forall y, In y d -> y <= m) /\ rho = IZR k / 10 /\ Rabs (rho - x / m) <= 1 / 20.
Definition next_below (l : list R) (x y : R) : Prop := In y l /\ y < x /\ forall z, In z l -> z < x -> z <= y.
Definition next_above (l : list R) (x y : R) : Prop := In y l /\ x < y /\ forall z, In z l -> x < z -> y <= z.
Definition inner_edge (l : list R) (x e : R) : Prop :=
  (exists y, next_below l x y /\ e = (x + y) / 2) \/ ((forall z, In z l -> x <= z) /\ e = 0).
Definition outer_edge (l : list R) (x e : R) : Prop :=
  (exists y, next_above l x y /\ e = (x + y) / 2)
  \/ ((forall z, In z l -> z <= x) /\ exists y, next_below l x y /\ e = x + (x - y) / 4).
(** number of microphones of the ring *)
Definition population (l : list R) (x : R) : R := INR (length (filter (fun y => if Req_EM_T x y then true else false) l)).

Lemma population_count l x : population l x = INR (count_occ Req_EM_T l x).
Proof.
  unfold population. f_equal. induction l as [|y l IH]; [reflexivity|]. cbn [filter count_occ].
  destruct (Req_EM_T x y), (Req_EM_T y x); subst; try congruence; cbn [length]; rewrite IH; reflexivity.
Qed.

Lemma rounded_one d : (exists x, In x d /\ 0 < x) -> length (rounded d) = length d /\ forall i, (i < length d)%nat -> one_decimal d (nth i d 0) (nth i (rounded d) 0).
Proof.
  intros (x0 & H0 & P0). unfold rounded. destruct (lmax_some d) as [m Em]; [intros ->; destruct H0|]. rewrite Em.
  destruct (lmax_spec _ _ Em) as [A B]. split; [apply map_length|]. intros i Hi.
  set (f := fun x => IZR (py_round (10 * (x / m))) / 10). rewrite (nth_indep (map f d) 0 (f 0)) by (rewrite map_length; exact Hi). rewrite (map_nth f). unfold f.
  exists m, (py_round (10 * (nth i d 0 / m))). split; [exact A|]. split; [exact B|]. split; [reflexivity|].
  pose proof (py_round_bounds (10 * (nth i d 0 / m))). apply Rabs_le. lra.
Qed.

Lemma u_order r i j : (i < length (unique r))%nat -> (j < length (unique r))%nat -> nth i (unique r) 0 < nth j (unique r) 0 -> (i < j)%nat.
Proof.
  intros Hi Hj H. destruct (Nat.lt_trichotomy i j) as [L|[->|L]]; [exact L|lra|]. pose proof (sorted_nth _ (unique_sorted r) j i L Hi). lra.
Qed.
Lemma u_mono r i j : (j < length (unique r))%nat -> (i <= j)%nat -> nth i (unique r) 0 <= nth j (unique r) 0.
Proof. intros Hj H. destruct (Nat.eq_dec i j) as [->|N]; [lra|]. left. apply sorted_nth; [apply unique_sorted|lia|exact Hj]. Qed.

Lemma below_u r i : (S i < length (unique r))%nat -> next_below r (nth (S i) (unique r) 0) (nth i (unique r) 0).
Proof.
  intros Hi. split; [apply unique_in, nth_In; lia|]. split; [apply sorted_nth; [apply unique_sorted|lia|exact Hi]|].
  intros z Hz Hlt. apply unique_in in Hz. destruct (index_of_nth _ _ Hz) as [A B]. rewrite <- B in Hlt |- *. apply u_order in Hlt; [|exact A|exact Hi]. apply u_mono; lia.
Qed.
Lemma above_u r i : (S i < length (unique r))%nat -> next_above r (nth i (unique r) 0) (nth (S i) (unique r) 0).
Proof.
  intros Hi. split; [apply unique_in, nth_In; lia|]. split; [apply sorted_nth; [apply unique_sorted|lia|exact Hi]|].
  intros z Hz Hlt. apply unique_in in Hz. destruct (index_of_nth _ _ Hz) as [A B]. rewrite <- B in Hlt |- *. apply u_order in Hlt; [|lia|exact A]. apply u_mono; lia.
Qed.

Lemma rsum_perm l l' : Permutation l l' -> rsum l = rsum l'.
Proof. unfold rsum. induction 1; cbn [fold_right]; lra. Qed.

(** With at least two rings: the weight depends on the ring only, the sum of the squared
    weights of a ring is proportional to the area of the ring, and the mean over the
    rings is one. *)
Theorem C98_power_partial : forall d : list R, (forall x, In x d -> 0 <= x) -> (exists x, In x d /\ 0 < x) ->
  exists rho, length rho = length d /\ (forall i, (i < length d)%nat -> one_decimal d (nth i d 0) (nth i rho 0))
    /\ ((exists x y, In x rho /\ In y rho /\ x <> y) ->
        exists (W : R -> R) (lam : R), const_power_weight d = inl (map W rho) /\ 0 < lam
          /\ (forall x, In x rho -> exists e1 e2, inner_edge rho x e1 /\ outer_edge rho x e2 /\ e1 < e2 /\ 0 < W x
                /\ population rho x * W x ^ 2 = lam * (e2 ^ 2 - e1 ^ 2))
          /\ (forall rings, NoDup rings -> (forall x, In x rings <-> In x rho) -> rsum (map W rings) = INR (length rings))).
Proof.
  intros d Hd Hx. exists (rounded d). destruct (rounded_one d Hx) as [L1 L2]. split; [exact L1|]. split; [exact L2|].
  intros (x & y & H1 & H2 & N). pose proof (rounded_pos d Hd Hx) as Hp. pose proof (unique_two _ _ _ H1 H2 N) as Hl.
  destruct (ring_weights_spec (rounded d) Hp Hl) as (W & e & lam & E & Hlam & E0 & Em & El & Hw & Hs). cbv zeta in *.
  set (r := rounded d) in *. set (u := unique r) in *.
  exists (fun x => W (index_of x u)), lam. split.
  { unfold const_power_weight. destruct Hx as (x0 & X1 & X2). destruct (lmax_some d) as [m Eq]; [intros ->; destruct X1|]. rewrite Eq.
    destruct (lmax_spec _ _ Eq) as [_ B]. specialize (B x0 X1). destruct (Req_EM_T m 0); [lra|]. fold r. exact E. }
  split; [exact Hlam|]. split.
  - intros z Hz. apply unique_in in Hz. fold u in Hz. destruct (index_of_nth u z Hz) as [A B]. set (i := index_of z u) in *. exists (e i), (e (S i)).
    destruct (Hw i A) as [W1 W2].
    assert (P : 0 < INR (count_occ Req_EM_T r (nth i u 0))) by (apply lt_0_INR, count_occ_In, unique_in; fold u; apply nth_In, A).
    assert (I1 : inner_edge r z (e i)).
    { rewrite <- B. destruct (Nat.eq_dec i 0) as [Ei|Ni].
      - right. rewrite Ei, E0. split; [|reflexivity]. intros q Hq. apply unique_in in Hq. destruct (index_of_nth _ _ Hq) as [C D]. rewrite <- D. apply u_mono; [exact C|lia].
      - left. exists (nth (i - 1) u 0). pose proof (below_u r (i - 1) ltac:(fold u; lia)) as Hb. fold u in Hb. pose proof (Em (i - 1)%nat ltac:(lia)) as He.
        replace (S (i - 1)) with i in Hb, He by lia. split; [exact Hb|]. rewrite He. lra. }
    split; [exact I1|]. split.
    { rewrite <- B. destruct (Nat.eq_dec (S i) (length u)) as [Ei|Ni].
      - right. split.
        + intros q Hq. apply unique_in in Hq. destruct (index_of_nth _ _ Hq) as [C D]. rewrite <- D. apply u_mono; [exact A|]. fold u in C |- *. lia.
        + exists (nth (i - 1) u 0). pose proof (below_u r (i - 1) ltac:(fold u; lia)) as Hb. fold u in Hb. pose proof (Em (i - 1)%nat ltac:(lia)) as He.
          replace (S (i - 1)) with i in Hb, He by lia. split; [exact Hb|]. rewrite Ei, El. replace (length u - 1)%nat with i by lia. rewrite He. lra.
      - left. exists (nth (S i) u 0). split; [apply above_u; fold u; lia|]. rewrite Em by lia. lra. }
    rewrite population_count, <- B. replace (index_of (nth i u 0) u) with i by (rewrite B; reflexivity).
    split; [|split; [exact W1|rewrite Rmult_comm; exact W2]].
    assert (Q : 0 < W i ^ 2 * INR (count_occ Req_EM_T r (nth i u 0))) by (apply Rmult_lt_0_compat; [apply pow_lt|]; assumption). rewrite W2 in Q.
    assert (Z : 0 <= e i /\ 0 <= e (S i)); [|destruct Z as [Z1 Z2]; assert (Q2 : 0 < e (S i) ^ 2 - e i ^ 2) by (apply Rmult_lt_reg_l with lam; [exact Hlam|lra]); clear - Z1 Z2 Q2; nra].
    assert (G : forall k, (k <= length u)%nat -> 0 <= e k).
    { intros k Hk. assert (U : forall q, (q < length u)%nat -> 0 <= nth q u 0) by (intros q Hq; apply Hp, unique_in, nth_In; exact Hq).
      assert (V : forall q, (q < length u)%nat -> 0 <= e q <= nth q u 0).
      { intros q Hq. destruct q as [|q]; [rewrite E0; split; [lra|apply U; exact Hq]|]. rewrite Em by exact Hq. pose proof (U q ltac:(lia)).
        pose proof (sorted_nth u (unique_sorted r) q (S q) ltac:(lia) Hq). lra. }
      destruct (Nat.eq_dec k (length u)) as [->|]; [|apply V; lia]. rewrite El. pose proof (V (length u - 1)%nat ltac:(lia)). lra. }
    split; apply G; lia.
  - intros rings Hnd Hiff. assert (P : Permutation rings u).
    { apply NoDup_Permutation; [exact Hnd|apply sorted_nodup, unique_sorted|]. intros z. rewrite Hiff. symmetry. apply unique_in. }
    rewrite (Permutation_length P), (rsum_perm _ _ (Permutation_map _ P)), <- Hs. f_equal.
    apply nth_ext with (d := 0) (d' := 0); [rewrite !map_length, seq_length; reflexivity|].
    intros i Hi. rewrite map_length in Hi. rewrite nth_map_seq by exact Hi.
    rewrite (nth_indep _ 0 ((fun x => W (index_of x u)) 0)) by (rewrite map_length; exact Hi). rewrite (map_nth (fun x => W (index_of x u))).
    rewrite index_of_nth' by (try exact Hi; apply unique_sorted). reflexivity.
Qed.
Print Assumptions C98_power_partial.

(** Every array has weights: false.  If all microphones have the same distance from
    the origin (any circular array, any single microphone), an IndexError is raised. *)
Theorem C98_one_ring_refuted : forall (a : R) (n : nat), 0 <= a -> (0 < n)%nat -> const_power_weight (repeat a n) = inr IndexError.
Proof.
  intros a n Ha Hn. unfold const_power_weight. assert (Hr : repeat a n <> []) by (destruct n; [lia|discriminate]).
  destruct (lmax_some _ Hr) as [m Em]. rewrite Em. destruct (lmax_spec _ _ Em) as [A _]. apply repeat_spec in A. subst m.
  destruct (Req_EM_T a 0); [reflexivity|]. unfold ring_weights. cbv zeta. unfold rounded. rewrite Em.
  set (v := IZR (py_round (10 * (a / a))) / 10).
  rewrite (unique_single _ v); [reflexivity|..].
  - destruct n; [lia|discriminate].
  - intros y Hy. apply in_map_iff in Hy as (z & <- & Hz). apply repeat_spec in Hz. subst z. reflexivity.
Qed.
Print Assumptions C98_one_ring_refuted.

(** The power per area is the same for all rings if every ring extends half way to its
    neighbour on both sides: false, the outermost ring gets less. *)
Theorem C98_outermost_refuted : forall d : list R, (forall x, In x d -> 0 <= x) -> (exists x, In x d /\ 0 < x) ->
  exists rho, (forall i, (i < length d)%nat -> one_decimal d (nth i d 0) (nth i rho 0))
    /\ ((exists x y, In x rho /\ In y rho /\ x <> y) ->
        exists (W : R -> R) (lam : R), const_power_weight d = inl (map W rho) /\ 0 < lam
          /\ (forall x y, next_above rho x y -> In x rho -> exists e1, inner_edge rho x e1 /\ population rho x * W x ^ 2 = lam * (((x + y) / 2) ^ 2 - e1 ^ 2))
          /\ (forall x y, In x rho -> (forall z, In z rho -> z <= x) -> next_below rho x y ->
                population rho x * W x ^ 2 < lam * ((x + (x - y) / 2) ^ 2 - (x - (x - y) / 2) ^ 2))).
Proof.
  intros d Hd Hx. destruct (C98_power_partial d Hd Hx) as (rho & L & O & H). exists rho. split; [exact O|]. intros H2.
  destruct (H H2) as (W & lam & E & Hl & Hw & _). exists W, lam. split; [exact E|]. split; [exact Hl|]. split.
  - intros x y (A1 & A2 & A3) Ix. destruct (Hw x Ix) as (e1 & e2 & I1 & I2 & _ & _ & Q). exists e1. split; [exact I1|]. rewrite Q. do 3 f_equal.
    destruct I2 as [(y2 & (B1 & B2 & B3) & ->)|(T & _)]; [|specialize (T y A1); lra]. pose proof (A3 y2 B1 B2). pose proof (B3 y A1 A2). lra.
  - intros x y Ix T (Y1 & Y2 & Y3). destruct (Hw x Ix) as (e1 & e2 & I1 & I2 & Lt & Wp & Q). rewrite Q. apply Rmult_lt_compat_l; [exact Hl|].
    destruct I1 as [(y1 & (A1 & A2 & A3) & ->)|[A ->]]; [|specialize (A y Y1); lra].
    destruct I2 as [(y2 & (B1 & B2 & B3) & ->)|(_ & y2 & (B1 & B2 & B3) & ->)]; [specialize (T y2 B1); lra|].
    pose proof (A3 y Y1 Y2). pose proof (Y3 y1 A1 A2). pose proof (B3 y Y1 Y2). pose proof (Y3 y2 B1 B2).
    replace y1 with y in * by lra. replace y2 with y in * by lra.
    assert (P : 0 < population rho x * W x ^ 2).
    { apply Rmult_lt_0_compat; [|apply pow_lt, Wp]. rewrite population_count. apply lt_0_INR, count_occ_In, Ix. }
    rewrite Q in P. assert (P2 : 0 < (x + (x - y) / 4) ^ 2 - ((x + y) / 2) ^ 2) by (apply Rmult_lt_reg_l with lam; [exact Hl|lra]).
    assert (X : 0 < x) by (clear - P2 Lt Y2; nra).
    replace (x - (x - y) / 2) with ((x + y) / 2) by lra. apply Rplus_lt_compat_r. clear - X Y2. nra.
Qed.
Print Assumptions C98_outermost_refuted.

(** Hypotheses met: three microphones at distances 1, 2 and 2. *)
Example C98_case : exists x y, In x (rounded [1; 2; 2]) /\ In y (rounded [1; 2; 2]) /\ x <> y.
Proof.
  unfold rounded. cbn [lmax fold_left map]. replace (Rmax (Rmax 1 2) 2) with 2 by (rewrite (Rmax_right 1 2) by lra; rewrite Rmax_right by lra; reflexivity).
  exists (5 / 10), (10 / 10). repeat split; [left|right; left|lra]; f_equal; f_equal.
  - replace (10 * (1 / 2)) with (IZR 5) by lra. apply py_round_int.
  - replace (10 * (2 / 2)) with (IZR 10) by lra. apply py_round_int.
Qed.
