(** SteeringVector of /repo/acoular/fbeamform.py as an object: the reference, the distances, the transfer
    matrix with its index argument and the steering vectors. *)
From Coq Require Import List Arith Lia ZArith Bool Reals Lra.
From Verif Require Import Stream Cplx Beamform Rounding.
Import ListNotations.
Local Open Scope R_scope.

Definition position : Type := R * R * R.

(** TraitError, or an exception of Python or NumPy. *)
Inductive failure := TraitErr | Py (e : exn).

(** What may be assigned to [ref]: a scalar ([None]: one that float() refuses, as a string) or a sequence. *)
Inductive ref_arg := Scalar (x : option R) | Sequence (l : list R).
Inductive ref_value := Distance (d : R) | Point (p : position).

(** SteeringVector._set_ref, fbeamform.py:185-195 *)
Definition set_ref (a : ref_arg) : ref_value + failure :=
  match a with
  | Scalar (Some x) => inl (Distance (Rabs x))
  | Scalar None => inr TraitErr
  | Sequence [x; y; z] => inl (Point (x, y, z))
  | Sequence _ => inr TraitErr
  end.

(** The default, fbeamform.py:156: the origin *)
Definition default_ref : ref_value := Point (0, 0, 0).

(** The index argument of [transfer] and [steer_vector]: None, an integer, an array of integers.  A
    list is not an array (line 251) and is not modelled. *)
Inductive index_arg := All | One (i : Z) | Many (l : list Z).

(** Python's index into a sequence of n elements. *)
Definition py_pos (n : nat) (i : Z) : option nat :=
  let j := (if i <? 0 then i + Z.of_nat n else i)%Z in
  if ((0 <=? j) && (j <? Z.of_nat n))%Z then Some (Z.to_nat j) else None.

Definition gather {A} (d : A) (rows : list A) (l : list Z) : option (list A) :=
  fold_right (fun i acc => match py_pos (length rows) i, acc with
    | Some j, Some rest => Some (nth j rows d :: rest) | _, _ => None end) (Some []) l.

Lemma repeat_map {A B} (d : B) (l : list A) : repeat d (length l) = map (fun _ => d) l.
Proof. induction l as [|x l IH]; [reflexivity|cbn; now rewrite IH]. Qed.

Lemma py_pos_lt n i j : py_pos n i = Some j -> (j < n)%nat.
Proof.
  unfold py_pos. set (z := if (i <? 0)%Z then _ else _). destruct (Z.leb_spec 0 z); [|discriminate]. destruct (Z.ltb_spec z (Z.of_nat n)); [|discriminate].
  intros E. injection E as <-. lia.
Qed.

Section Vector.
  (** [dist g p]: the sound travel distance of the environment between a grid point and a point; every environment calculates one
      for each pair (environments.py:205-245, 283-315, 816-856). *)
  Variable dist : position -> position -> R.
  Variables (c : R) (gpos mpos : list position) (ref : ref_value).

  (** Environment._r: one-dimensional for a single second point (environments.py:240-242, 312-314, 853-855) *)
  Definition env_r (g m : list position) : list R + list (list R) :=
    match m with
    | [p] => inl (map (fun x => dist x p) g)
    | _ => inr (map (fun x => map (dist x) m) g)
    end.

  (** _get_r0, fbeamform.py:206-212.  [self.grid.pos()] on line 211 calls an array. *)
  Definition get_r0 : list R + failure :=
    match ref with
    | Distance d => if Rlt_dec 0 d then inl (repeat d (length gpos)) else inr (Py TypeError)
    | Point p => match env_r gpos [p] with inl l => inl l | inr _ => inr (Py ValueError) end
    end.
  (** _get_rm, fbeamform.py:214-216: atleast_2d makes a single row of a one-dimensional array. *)
  Definition get_rm : list (list R) :=
    match env_r gpos mpos with inl l => [l] | inr rows => rows end.

  (** calcTransfer, fastFuncs.py:828-850 with the signature '(),(m),()->(m)' of _transferCoreFunc (853-864): one
      reference distance for each row, or one for all. *)
  Definition transfer_row (k r0 : R) (rm : list R) : list C :=
    map (transfer r0 k (fun m => nth m rm 0)) (seq 0 (length rm)).
  Definition calc_transfer (k : R) (r0 : list R) (rm : list (list R)) : list (list C) + failure :=
    if (length r0 =? length rm)%nat then inl (map (fun p => transfer_row k (fst p) (snd p)) (combine r0 rm))
    else match r0 with
         | [x] => inl (map (transfer_row k x) rm)
         | _ => inr (Py ValueError)
         end.

  (** transfer, fbeamform.py:226-256 *)
  Definition sv_transfer (f : R) (ind : index_arg) : list (list C) + failure :=
    let k := 2 * PI * f / c in
    match get_r0 with
    | inr e => inr e
    | inl r0 =>
        match ind with
        | All => calc_transfer k r0 get_rm
        | One i =>
            match py_pos (length r0) i, py_pos (length get_rm) i with
            | Some a, Some b => calc_transfer k [nth a r0 0] [nth b get_rm []]
            | _, _ => inr (Py IndexError)
            end
        | Many l =>
            match gather 0 r0 l, gather [] get_rm l with
            | Some a, Some b => calc_transfer k a b
            | _, _ => inr (Py IndexError)
            end
        end
    end.

  (** steer_vector, fbeamform.py:258-277; the functions 165-173 act on the rows. *)
  Definition steer_row (st : steer) (row : list C) : list C :=
    map (steer_vector (length row) st (fun m => nth m row C0)) (seq 0 (length row)).
  Definition sv_steer (st : steer) (f : R) (ind : index_arg) : list (list C) + failure :=
    match sv_transfer f ind with inl t => inl (map (steer_row st) t) | inr e => inr e end.

  (** * Lemmas *)
  Definition ref_distance (g : position) : R :=
    match ref with Distance d => d | Point p => dist g p end.

  Hypothesis Href : match ref with Distance d => 0 < d | Point _ => True end.
  Hypothesis Hshape : (2 <= length mpos)%nat \/ length gpos = 1%nat /\ length mpos = 1%nat.

  Lemma r0_value : get_r0 = inl (map ref_distance gpos).
  Proof.
    unfold get_r0, ref_distance. destruct ref as [d|p].
    - destruct (Rlt_dec 0 d); [|lra]. f_equal. apply repeat_map.
    - reflexivity.
  Qed.
  Lemma rm_value : get_rm = map (fun g => map (dist g) mpos) gpos.
  Proof.
    unfold get_rm, env_r. destruct Hshape as [H|[H1 H2]].
    - destruct mpos as [|p [|q m]]; [cbn in H; lia|cbn in H; lia|reflexivity].
    - destruct mpos as [|p [|q m]]; [discriminate| |discriminate]. destruct gpos as [|g [|h l]]; [discriminate|reflexivity|discriminate].
  Qed.

  Lemma calc_same k (F : position -> R) (G : position -> list R) l :
    calc_transfer k (map F l) (map G l) = inl (map (fun g => transfer_row k (F g) (G g)) l).
  Proof.
    unfold calc_transfer. rewrite !map_length, Nat.eqb_refl. f_equal.
    induction l as [|x l IH]; [reflexivity|]. cbn. now rewrite IH.
  Qed.

  Definition point_row (f : R) (g : position) : list C := transfer_row (2 * PI * f / c) (ref_distance g) (map (dist g) mpos).

  Lemma transfer_all f : sv_transfer f All = inl (map (point_row f) gpos).
  Proof. unfold sv_transfer. rewrite r0_value, rm_value. apply calc_same. Qed.

  Lemma gather_map {A} (d : A) (F : position -> A) l l0 g0 : gather g0 gpos l = Some l0 -> gather d (map F gpos) l = Some (map F l0).
  Proof.
    revert l0. induction l as [|i l IH]; intros l0 E; cbn in *; [now injection E as <-|].
    fold (gather g0 gpos l) in E. fold (gather d (map F gpos) l). rewrite map_length.
    destruct (py_pos (length gpos) i) as [j|] eqn:Ej; [|discriminate]. destruct (gather g0 gpos l) as [r|]; [|discriminate]. injection E as <-.
    rewrite (IH r eq_refl). cbn. do 2 f_equal.
    apply py_pos_lt in Ej. rewrite (nth_indep _ d (F g0)) by now rewrite map_length. apply map_nth.
  Qed.
  Lemma gather_none {A} (d : A) (F : position -> A) l g0 : gather g0 gpos l = None -> gather d (map F gpos) l = None.
  Proof.
    induction l as [|i l IH]; cbn; [discriminate|]. fold (gather g0 gpos l). fold (gather d (map F gpos) l). rewrite map_length.
    destruct (py_pos (length gpos) i) as [j|]; [|reflexivity].
    destruct (gather g0 gpos l) as [r|]; [discriminate|]. intros _. now rewrite IH.
  Qed.

  Lemma transfer_many f l g0 : sv_transfer f (Many l) =
    match gather g0 gpos l with Some sel => inl (map (point_row f) sel) | None => inr (Py IndexError) end.
  Proof.
    unfold sv_transfer. rewrite r0_value, rm_value. destruct (gather g0 gpos l) as [sel|] eqn:E.
    - rewrite (gather_map 0 ref_distance l sel g0 E), (gather_map [] (fun g => map (dist g) mpos) l sel g0 E). apply calc_same.
    - now rewrite (gather_none 0 ref_distance l g0 E).
  Qed.

  Lemma transfer_one f i : sv_transfer f (One i) =
    match py_pos (length gpos) i with Some j => inl [point_row f (nth j gpos (0, 0, 0))] | None => inr (Py IndexError) end.
  Proof.
    unfold sv_transfer. rewrite r0_value, rm_value, !map_length. destruct (py_pos (length gpos) i) as [j|] eqn:E; [|reflexivity].
    apply py_pos_lt in E. unfold calc_transfer. cbn [length Nat.eqb combine map fst snd]. do 2 f_equal. unfold point_row. f_equal.
    - rewrite (nth_indep _ 0 (ref_distance (0, 0, 0))) by now rewrite map_length. apply map_nth.
    - rewrite (nth_indep _ [] (map (dist (0, 0, 0)) mpos)) by now rewrite map_length. apply (map_nth (fun g => map (dist g) mpos)).
  Qed.
End Vector.

Lemma transfer_row_nth k r0 rm m : (m < length rm)%nat ->
  nth m (transfer_row k r0 rm) C0 = transfer r0 k (fun j => nth j rm 0) m.
Proof.
  intros H. unfold transfer_row. rewrite (nth_indep _ C0 (transfer r0 k (fun j => nth j rm 0) 0)) by (rewrite map_length, seq_length; exact H).
  rewrite map_nth, seq_nth by exact H. reflexivity.
Qed.
Lemma transfer_row_length k r0 rm : length (transfer_row k r0 rm) = length rm.
Proof. unfold transfer_row. now rewrite map_length, seq_length. Qed.
Lemma steer_row_nth st row m : (m < length row)%nat ->
  nth m (steer_row st row) C0 = steer_vector (length row) st (fun j => nth j row C0) m.
Proof.
  intros H. unfold steer_row. rewrite (nth_indep _ C0 (steer_vector (length row) st (fun j => nth j row C0) 0)) by (rewrite map_length, seq_length; exact H).
  rewrite map_nth, seq_nth by exact H. reflexivity.
Qed.

(** * The phase in single precision

    _transferCoreFunc rounds the argument of the exponential to float32 (fastFuncs.py:863). *)
Definition transfer_rounded (rnd : R -> R) (r0 k : R) (r : nat -> R) (m : nat) : C :=
  let a := rnd (k * (r m - r0)) in ((cos a, - sin a)%R * RtoC r0 / RtoC (r m))%C.

Lemma abs_sin_le x : Rabs (sin x) <= Rabs x.
Proof.
  assert (P : forall y, 0 <= y -> Rabs (sin y) <= y).
  { intros y Hy. destruct (Rle_lt_dec y 1) as [L|L].
    - destruct Hy as [Hy| <-]; [|rewrite sin_0, Rabs_R0; lra]. pose proof (sin_lt_x y Hy). pose proof PI2_1.
      assert (0 < sin y) by (apply sin_gt_0; lra). rewrite Rabs_pos_eq; lra.
    - pose proof (SIN_bound y). apply Rabs_le. lra. }
  destruct (Rle_lt_dec 0 x) as [H|H].
  - rewrite (Rabs_pos_eq x H). now apply P.
  - rewrite (Rabs_left x H), <- Rabs_Ropp, <- sin_neg. apply P. lra.
Qed.
Lemma phase_diff a b : norm2 ((cos a, - sin a)%R - (cos b, - sin b)%R)%C <= (a - b) * (a - b).
Proof.
  unfold norm2. cbn [fst snd Csub].
  assert (E : (cos a - cos b) * (cos a - cos b) + (- sin a - - sin b) * (- sin a - - sin b) = 4 * (sin ((a - b) / 2) * sin ((a - b) / 2))).
  { pose proof (form2 a b) as F. pose proof (form4 a b) as G. rewrite F. replace (- sin a - - sin b) with (- (sin a - sin b)) by ring. rewrite G.
    set (s := sin ((a - b) / 2)). pose proof (sin2_cos2 ((a + b) / 2)) as S. unfold Rsqr in S.
    set (p := sin ((a + b) / 2)) in *. set (q := cos ((a + b) / 2)) in *.
    transitivity (4 * (s * s) * (p * p + q * q)); [ring|]. rewrite S. ring. }
  unfold Csub, Cadd, Copp. cbn [fst snd]. 
  match goal with |- ?l <= _ => replace l with (4 * (sin ((a - b) / 2) * sin ((a - b) / 2))) by (rewrite <- E; ring) end.
  pose proof (abs_sin_le ((a - b) / 2)) as B.
  assert (Q : sin ((a - b) / 2) * sin ((a - b) / 2) <= (a - b) / 2 * ((a - b) / 2)).
  { rewrite <- (Rabs_pos_eq (sin ((a - b) / 2) * sin ((a - b) / 2))) by apply Rle_0_sqr.
    rewrite <- (Rabs_pos_eq ((a - b) / 2 * ((a - b) / 2))) by apply Rle_0_sqr. rewrite !Rabs_mult.
    pose proof (Rabs_pos (sin ((a - b) / 2))). apply Rmult_le_compat; lra. }
  lra.
Qed.
