(** The angle tracker: /repo/acoular/tprocess.py:508-660 (class AngleTracker).

    scipy's spline routines are a parameter: [spl pts] is the cubic spline
    through the points [pts] = (abscissa, ordinate), [dspl pts] its derivative
    (splrep with k=3 and splev, lines 620-624). *)
From Coq Require Import List Arith Lia ZArith Bool Reals Lra Sorting.Sorted.
Require Import ZifyBool ZifyNat ZifyN.
From Verif Require Import Stream Environ.
Import ListNotations.
Ltac Zify.zify_post_hook ::= Z.div_mod_to_equations.
Local Open Scope nat_scope.

(** |a - b| of two sample positions. *)
Definition dist (a b : nat) : nat := (a - b) + (b - a).

(** numpy argmin: the first minimum. *)
Fixpoint argmin (l : list nat) : nat :=
  match l with
  | [] => 0
  | [_] => 0
  | x :: r => let j := argmin r in if x <=? nth j r 0 then 0 else S j
  end.

(** _find_nearest_idx, tprocess.py:572-575. *)
Definition nearest (peaks : list nat) (v : nat) : nat := argmin (map (fun p => dist p v) peaks).

(** Python's peakloc[z]; negative indices count from the end. *)
Definition py_index (l : list nat) (z : Z) : option nat :=
  if (z <? 0)%Z then if (z + Z.of_nat (length l) <? 0)%Z then None else nth_error l (Z.to_nat (z + Z.of_nat (length l)))
  else nth_error l (Z.to_nat z).

(** bounds of a Python slice *)
Definition py_norm (n : nat) (z : Z) : nat :=
  if (z <? 0)%Z then Z.to_nat (z + Z.of_nat n) else Nat.min (Z.to_nat z) n.

Definition py_slice (l : list nat) (a b : Z) : list nat :=
  slice (py_norm (length l) a) (py_norm (length l) b) l.

Section Tracker.
  Variables (spl dspl : list (R * R) -> R -> R).

  (** the points of the spline for sample [ind], lines 597-619; errors:
      IndexError of peakloc[...], ValueError of [stack] when the slice is
      shorter than [IP], TypeError of splrep for fewer than four points.
      Integer division by a distance of zero does not occur for increasing
      positions and is reported as ZeroDivisionError here. *)
  Definition spline_points (peaks : list nat) (IP ind : nat) : (list (R * R)) + exn :=
    match nth_error peaks IP with
    | None => inr IndexError
    | Some pIP =>
        let n := nearest peaks ind in
        let fwd := ind <? pIP in
        let other := if fwd then py_index peaks (Z.of_nat n + 1) else py_index peaks (Z.of_nat n - 1) in
        match other, nth_error peaks n with
        | Some po, Some pn =>
            let d := if fwd then po - pn else pn - po in
            if d =? 0 then inr ZeroDivisionError
            else
              let q := Z.of_nat (ind / d) in
              let xs := if fwd then py_slice peaks q (q + Z.of_nat IP) else py_slice peaks (q - Z.of_nat IP) q in
              if negb (length xs =? IP) then inr ValueError
              else if IP <=? 3 then inr TypeError
              else inl (combine (map INR xs) (map INR (seq 0 IP)))
        | _, _ => inr IndexError
        end
    end.

  (** lines 620-624: rpm and angle at sample [ind] *)
  Definition rpm_angle (peaks : list nat) (IP : nat) (fs dir start tpr : R) (ind : nat) : (R * R) + exn :=
    match spline_points peaks IP ind with
    | inr e => inr e
    | inl pts =>
        inl ((dspl pts (INR ind) * 60 * fs)%R,
             rmod (spl pts (INR ind) * 2 * PI * dir / tpr + start) (2 * PI))
    end.

  (** the loop over all samples, lines 595-626 *)
  Fixpoint track (peaks : list nat) (IP : nat) (fs dir start tpr : R) (inds : list nat) : (list (R * R)) + exn :=
    match inds with
    | [] => inl []
    | i :: r =>
        match rpm_angle peaks IP fs dir start tpr i with
        | inr e => inr e
        | inl ra => match track peaks IP fs dir start tpr r with inr e => inr e | inl l => inl (ra :: l) end
        end
    end.
  Definition tracker (peaks : list nat) (IP : nat) (fs dir start tpr : R) (num : nat) : (list (R * R)) + exn :=
    track peaks IP fs dir start tpr (seq 0 num).

  (** _get_average_rpm, lines 642-660 *)
  Definition average_rpm (peaks : list nat) (fs tpr : R) : R :=
    (INR (length peaks - 1) / INR (last peaks 0%nat - hd 0%nat peaks) / tpr * fs * 60)%R.
End Tracker.

(** * Specification *)

(** the spline reproduces straight lines, as any interpolating spline of degree
    at least one does; abscissae increase strictly *)
Definition reproduces_lines (spl dspl : list (R * R) -> R -> R) : Prop :=
  forall pts a b, 4 <= length pts -> StronglySorted Rlt (map fst pts) ->
    (forall p, In p pts -> snd p = (a * fst p + b)%R) ->
    forall x, spl pts x = (a * x + b)%R /\ dspl pts x = a.

(** triggers at [o], [o+T], [o+2T], ... *)
Definition uniform (o T P : nat) : list nat := map (fun j => o + j * T) (seq 0 P).

(* ------------------------------------------------------------------ *)
Lemma argmin_spec l : l <> [] ->
  argmin l < length l /\ (forall j, j < length l -> nth (argmin l) l 0 <= nth j l 0).
Proof.
  induction l as [|x l IH]; [congruence|]. intros _. destruct l as [|y l].
  - simpl. split; [lia|]. intros [|j] H; simpl in *; lia.
  - destruct IH as [I1 I2]; [discriminate|].
    change (argmin (x :: y :: l)) with (let j := argmin (y :: l) in if x <=? nth j (y :: l) 0 then 0 else S j).
    cbv zeta. set (r := y :: l) in *. destruct (Nat.leb_spec x (nth (argmin r) r 0)) as [H|H].
    + split; [simpl; lia|]. intros [|j] Hj; cbn [nth length] in *; [lia|]. specialize (I2 j ltac:(lia)). lia.
    + split; [cbn [length]; lia|]. intros [|j] Hj; cbn [nth length] in *; [lia|]. apply I2. lia.
Qed.

Lemma uniform_length o T P : length (uniform o T P) = P.
Proof. unfold uniform. now rewrite map_length, seq_length. Qed.

Lemma uniform_nth o T P j : j < P -> nth_error (uniform o T P) j = Some (o + j * T).
Proof.
  intros H. unfold uniform. rewrite nth_error_map.
  rewrite (nth_error_nth' _ 0) by (rewrite seq_length; lia). rewrite seq_nth by lia. reflexivity.
Qed.

Lemma uniform_nearest o T P v : 0 < P ->
  nearest (uniform o T P) v < P /\ forall j, j < P -> dist (o + nearest (uniform o T P) v * T) v <= dist (o + j * T) v.
Proof.
  intros HP. unfold nearest.
  set (l := map (fun p => dist p v) (uniform o T P)).
  assert (length l = P) as HL by (unfold l; now rewrite map_length, uniform_length).
  assert (forall j, j < P -> nth j l 0 = dist (o + j * T) v) as HN.
  { intros j Hj. unfold l, uniform. rewrite map_map.
    rewrite (nth_indep _ 0 (dist (o + 0 * T) v)) by (rewrite map_length, seq_length; lia).
    rewrite (map_nth (fun j => dist (o + j * T) v)), seq_nth by lia. reflexivity. }
  destruct (argmin_spec l) as [A1 A2]; [intros E; rewrite E in HL; simpl in HL; lia|].
  rewrite HL in *. split; auto. intros j Hj. rewrite <- !HN by auto. apply A2. auto.
Qed.

Lemma slice_uniform o T P a n : a + n <= P ->
  slice a (a + n) (uniform o T P) = map (fun j => o + (a + j) * T) (seq 0 n).
Proof.
  intros H. unfold slice, uniform. rewrite firstn_map, skipn_map.
  assert (skipn a (firstn (a + n) (seq 0 P)) = seq a n) as ->.
  { replace P with ((a + n) + (P - (a + n))) by lia. rewrite seq_app.
    rewrite firstn_app, seq_length, Nat.sub_diag, firstn_O, app_nil_r.
    rewrite firstn_all2 by (rewrite seq_length; lia).
    rewrite seq_app, skipn_app, seq_length, Nat.sub_diag. rewrite skipn_all2 by (rewrite seq_length; lia). reflexivity. }
  assert (seq a n = map (fun j => a + j) (seq 0 n)) as ->.
  { clear. revert a. induction n as [|n IH]; intros a; [reflexivity|]. cbn [seq map]. f_equal; [lia|].
    rewrite IH, <- (seq_shift n 0), map_map. apply map_ext. intros; lia. }
  now rewrite map_map.
Qed.

Lemma combine_line (f g : nat -> R) n : 
  combine (map f (seq 0 n)) (map g (seq 0 n)) = map (fun j => (f j, g j)) (seq 0 n).
Proof. induction (seq 0 n) as [|x l IH]; simpl; congruence. Qed.

(** for uniform triggers: the points lie on a line of slope [1/T] that passes
    through an integer at each trigger *)
Lemma uniform_points o T P IP ind :
  0 < T -> o < T -> 4 <= IP -> 2 * IP <= P -> ind < (P + 1) * T ->
  exists (k : nat), spline_points (uniform o T P) IP ind
    = inl (map (fun j => (INR (o + (k + j) * T), INR j)) (seq 0 IP))
    /\ k = (if ind <? o + IP * T then ind / T else ind / T - IP) /\ (o + IP * T <= ind -> IP <= ind / T).
Proof.
  intros HT Ho HIP HP Hind. unfold spline_points. rewrite uniform_nth by lia.
  destruct (uniform_nearest o T P ind) as [N1 N2]; [lia|].
  set (n := nearest (uniform o T P) ind) in *. rewrite (uniform_nth o T P n) by lia.
  pose proof (Nat.div_mod ind T ltac:(lia)) as DM. pose proof (Nat.mod_upper_bound ind T ltac:(lia)) as MB.
  set (q := ind / T) in *. set (r := ind mod T) in *.
  destruct (Nat.ltb_spec ind (o + IP * T)) as [F|F].
  - assert (n <= IP) as Hn.
    { destruct (le_lt_dec n IP) as [L|L]; auto. exfalso. specialize (N2 IP ltac:(lia)). unfold dist in N2. nia. }
    unfold py_index. destruct (Z.ltb_spec (Z.of_nat n + 1) 0); [lia|].
    replace (Z.to_nat (Z.of_nat n + 1)) with (S n) by lia. rewrite uniform_nth by lia.
    replace (o + S n * T - (o + n * T)) with T by (simpl; lia).
    destruct (Nat.eqb_spec T 0); [lia|]. fold q.
    assert (q <= IP) as Hq by nia.
    assert (py_slice (uniform o T P) (Z.of_nat q) (Z.of_nat q + Z.of_nat IP)
            = map (fun j => o + (q + j) * T) (seq 0 IP)) as ->.
    { unfold py_slice, py_norm. rewrite uniform_length.
      destruct (Z.ltb_spec (Z.of_nat q) 0); [lia|]. destruct (Z.ltb_spec (Z.of_nat q + Z.of_nat IP) 0); [lia|].
      rewrite <- slice_uniform with (P := P) by lia. f_equal; lia. }
    rewrite map_length, seq_length, Nat.eqb_refl. cbn [negb].
    destruct (Nat.leb_spec IP 3); [lia|]. exists q. split; [|split; [reflexivity|lia]].
    rewrite map_map. now rewrite combine_line.
  - assert (IP <= n) as Hn.
    { destruct (le_lt_dec IP n) as [L|L]; auto. exfalso. specialize (N2 IP ltac:(lia)). unfold dist in N2. nia. }
    unfold py_index. destruct (Z.ltb_spec (Z.of_nat n - 1) 0); [lia|].
    replace (Z.to_nat (Z.of_nat n - 1)) with (n - 1) by lia. rewrite uniform_nth by lia.
    replace (o + n * T - (o + (n - 1) * T)) with T by (destruct n; [lia|]; simpl; rewrite Nat.sub_0_r; lia).
    destruct (Nat.eqb_spec T 0); [lia|]. fold q.
    assert (IP <= q) as Hq by nia.
    assert (q <= P) as Hq2 by nia.
    assert (py_slice (uniform o T P) (Z.of_nat q - Z.of_nat IP) (Z.of_nat q)
            = map (fun j => o + (q - IP + j) * T) (seq 0 IP)) as ->.
    { unfold py_slice, py_norm. rewrite uniform_length.
      destruct (Z.ltb_spec (Z.of_nat q) 0); [lia|]. destruct (Z.ltb_spec (Z.of_nat q - Z.of_nat IP) 0); [lia|].
      rewrite <- slice_uniform with (P := P) by lia. f_equal; lia. }
    rewrite map_length, seq_length, Nat.eqb_refl. cbn [negb].
    destruct (Nat.leb_spec IP 3); [lia|]. exists (q - IP). split; [|split; [reflexivity|auto]].
    rewrite map_map. now rewrite combine_line.
Qed.

Lemma uniform_rpm_angle spl dspl o T P IP fs dir start tpr ind :
  reproduces_lines spl dspl ->
  0 < T -> o < T -> 4 <= IP -> 2 * IP <= P -> ind < (P + 1) * T ->
  let k := if ind <? o + IP * T then ind / T else ind / T - IP in
  rpm_angle spl dspl (uniform o T P) IP fs dir start tpr ind
  = inl ((60 * fs / INR T)%R,
         rmod (((INR ind - INR o) / INR T - INR k) * 2 * PI * dir / tpr + start) (2 * PI)).
Proof.
  intros HS HT Ho HIP HP Hind k. unfold rpm_angle.
  destruct (uniform_points o T P IP ind HT Ho HIP HP Hind) as [k' [-> [Hk _]]]. fold k in Hk. subst k'.
  assert (INR T <> 0%R) as HT0 by (apply not_0_INR; lia).
  destruct (HS (map (fun j => (INR (o + (k + j) * T), INR j)) (seq 0 IP)) (/ INR T)%R (- INR o / INR T - INR k)%R) with (x := INR ind) as [S1 S2].
  - now rewrite map_length, seq_length.
  - rewrite map_map. cbn [fst]. clearbody k. generalize 0. clear -HT. induction IP as [|n IHn]; intros d; [constructor|].
    cbn [seq map]. constructor; auto. apply Forall_forall. intros x Hx. apply in_map_iff in Hx.
    destruct Hx as [j [<- Hj]]. apply in_seq in Hj. apply lt_INR. nia.
  - intros p Hp. apply in_map_iff in Hp. destruct Hp as [j [<- _]]. cbn [fst snd].
    rewrite plus_INR, mult_INR, plus_INR. field. exact HT0.
  - rewrite S1, S2. f_equal. f_equal.
    + field. exact HT0.
    + do 4 f_equal. field. exact HT0.
Qed.

Lemma track_all spl dspl peaks IP fs dir start tpr (f : nat -> R * R) inds :
  (forall i, In i inds -> rpm_angle spl dspl peaks IP fs dir start tpr i = inl (f i)) ->
  track spl dspl peaks IP fs dir start tpr inds = inl (map f inds).
Proof.
  induction inds as [|i r IH]; intros H; [reflexivity|]. cbn [track]. rewrite H by (now left).
  rewrite IH by (intros; apply H; now right). reflexivity.
Qed.

Lemma rmod_shift x y k : y <> 0%R -> rmod (x + IZR k * y) y = rmod x y.
Proof.
  intros Hy. unfold rmod. replace ((x + IZR k * y) / y)%R with (x / y + IZR k)%R by (field; auto).
  assert (Int_part (x / y + IZR k) = (Int_part (x / y) + k)%Z) as ->.
  { destruct (base_Int_part (x / y)) as [A B]. destruct (base_Int_part (x / y + IZR k)) as [C D].
    assert (IZR (Int_part (x / y + IZR k)) - IZR (Int_part (x / y)) - IZR k < 1)%R as U by lra.
    assert (-1 < IZR (Int_part (x / y + IZR k)) - IZR (Int_part (x / y)) - IZR k)%R as V by lra.
    rewrite <- !minus_IZR in U, V.
    apply lt_IZR in U. apply lt_IZR in V. lia. }
  rewrite plus_IZR. ring.
Qed.

Lemma uniform_average o T P fs tpr : 0 < T -> 2 <= P -> tpr <> 0%R ->
  average_rpm (uniform o T P) fs tpr = (60 * fs / (INR T * tpr))%R.
Proof.
  intros HT HP Ht. unfold average_rpm. rewrite uniform_length.
  assert (hd 0 (uniform o T P) = o) as -> by (destruct P; [lia|]; simpl; lia).
  assert (last (uniform o T P) 0 = o + (P - 1) * T) as ->.
  { destruct P as [|P]; [lia|]. unfold uniform. rewrite seq_S, map_app. cbn [map]. rewrite last_last. simpl. rewrite Nat.sub_0_r. lia. }
  rewrite Nat.add_comm, Nat.add_sub, mult_INR. field.
  repeat apply conj; try exact Ht; apply not_0_INR; lia.
Qed.
