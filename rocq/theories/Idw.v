(** Virtual rotation of a plane array with inverse distance weighting:
    /repo/acoular/tprocess.py:663-1096 (SpatialInterpolator, array dimension
    '2D', method 'IDW', interp_at_zero = False),
    /repo/acoular/tprocess.py:1213-1263 (SpatialInterpolatorConstantRotation)
    and the optional matrix of cartToCyl and cylToCart,
    /repo/acoular/environments.py:117-171.

    Not modelled: the Delaunay mesh (scipy).  It is built but not used by this
    method; its vertices begin with the microphones in their order
    (tprocess.py:849-872), so pHelp[cntTime, k] is channel k. *)
From Coq Require Import List Arith Lia ZArith Bool Reals Lra Sorting.Permutation.
From Verif Require Import Stream Environ Tracker Rotation.
Import ListNotations.
Local Open Scope R_scope.

(** cartToCyl(x, Q), environments.py:139-142; the test for the identity only
    saves the product. *)
Definition cartToCylQ (Q : m3) (p : v3) : v3 := cartToCyl (mapply Q p).
(** cylToCart(x, Q), environments.py:168-171: the matrix is applied to the
    triple (phi, r, z). *)
Definition cylToCartQ (Q : m3) (c : v3) : v3 := cylToCart (mapply Q c).

(** the result of _virtNewCoord_func, tprocess.py:833-839: cylindrical
    coordinates of the virtual and of the real microphones *)
Record coords := mkCoords { cd_virt : list v3; cd_real : list v3 }.
Definition new_coords (Q : m3) (mpos virt : list v3) : coords :=
  mkCoords (map (cartToCylQ Q) virt) (map (cartToCylQ Q) mpos).

(** tprocess.py:1023-1028: the angle of a virtual microphone in one sample *)
Definition shifted (delay : option R) (phi : R) : R :=
  match delay with
  | Some d => rmod (phi + d + PI) (2 * PI) - PI
  | None => phi
  end.

(** tprocess.py:1033 and 1078-1080: the third coordinate is set to zero *)
Definition idw_point (delay : option R) (c : v3) : v3 :=
  cylToCart (V3 (shifted delay (v3x c)) (v3y c) 0).

(** tprocess.py:1082-1084 *)
Definition idw_dists (c : coords) (pt : v3) : list R :=
  map (fun m => vnorm (vsub pt (cylToCart m))) (cd_real c).

(** the Python slice [: n] of a list of length [len] *)
Definition upto_index (n : Z) (len : nat) : nat :=
  if (n <? 0)%Z then Z.to_nat (Z.of_nat len + n) else Z.to_nat n.

Definition rsum (l : list R) : R := fold_right Rplus 0 l.

(** tprocess.py:1085-1093 for one virtual microphone: [ord] is argsort. *)
Definition idw_value (ord : list R -> list nat) (num : Z) (w : R) (ds ps : list R) : exn + R :=
  match firstn (upto_index num (length ds)) (ord ds) with
  | [] => inl IndexError
  | k0 :: r =>
      if Rlt_dec (nth k0 ds 0) (1 / 1000) then inr (nth k0 ps 0)
      else
        let wholeD := rsum (map (fun k => 1 / Rpower (nth k ds 0) w) (k0 :: r)) in
        inr (rsum (map (fun k => nth k ps 0 * (1 / Rpower (nth k ds 0) w / wholeD)) (k0 :: r)))
  end.

Fixpoint all_ok {A} (l : list (exn + A)) : exn + list A :=
  match l with
  | [] => inr []
  | inl e :: _ => inl e
  | inr a :: r => match all_ok r with inl e => inl e | inr b => inr (a :: b) end
  end.

(** _result_core_func, tprocess.py:1020-1093 for one sample; [nvirt] is the
    number of virtual microphones the object has now.  append (1079) needs
    [nvirt] columns, and the difference (1083) broadcasts only for equal
    numbers or one virtual microphone. *)
Definition idw_row (ord : list R -> list nat) (num : Z) (w : R) (nvirt : nat) (c : coords) (row : list R)
    (delay : option R) : exn + list R :=
  if negb (length (cd_virt c) =? nvirt)%nat then inl ValueError
  else all_ok (map (fun v =>
         if ((nvirt =? length (cd_real c)) || (nvirt =? 1))%nat
         then idw_value ord num w (idw_dists c (idw_point delay v)) row
         else inl ValueError) (cd_virt c)).

(** SpatialInterpolatorConstantRotation.result, tprocess.py:1253-1263 *)
Fixpoint idw_rotate (ord : list R -> list nat) (num : Z) (w : R) (nvirt : nat) (c : coords) (fs om : R) (off : R)
    (bs : list (list (list R))) (e : ending) : trace (list R) :=
  match bs with
  | [] => mkTrace [] e
  | b :: bs' =>
      let n := length b in
      let delay := map (fun k => off + INR k * (INR n / fs * om / INR n)) (seq 0 n) in
      match all_ok (map (fun q => idw_row ord num w nvirt c (fst q) (Some (snd q))) (combine b delay)) with
      | inl x => mkTrace [] (Raised x)
      | inr rows =>
          let t := idw_rotate ord num w nvirt c fs om (last delay 0 + om / fs) bs' e in
          mkTrace (rows :: blocks t) (fin t)
      end
  end.
Definition idw_rotation (ord : list R -> list nat) (num : Z) (w : R) (Q : m3) (mpos virt : list v3) (fs om : R)
    (src : source (list R)) : source (list R) :=
  fun n => let t := src n in
           idw_rotate ord num w (length virt) (new_coords Q mpos virt) fs om 0 (blocks t) (fin t).

(** ** The object
    tprocess.py:673-764.  [_get_virtNewCoord] (758) is decorated with
    cached_property, but no Property of the name virtNewCoord exists (the
    Property at 734 has the name of the method defined at 766, which replaces
    it), so nothing ever clears the cached value. *)
Record interpolator := mkInterp {
  si_mics : list v3;
  si_virt : option (list v3);     (* _mics_virtual, 676-687 *)
  si_Q : m3;
  si_num : Z;
  si_w : R;
  si_cache : option coords
}.
Inductive event :=
| SetMics (m : list v3) | SetVirt (v : list v3) | SetQ (q : m3) | SetNum (n : Z) | SetW (w : R)
| Sample (row : list R) (delay : option R).

(** _get_mics_virtual, 681-684 *)
Definition get_virt (s : interpolator) : list v3 :=
  match si_virt s with Some v => v | None => si_mics s end.
(** _get_virtNewCoord, 757-759 *)
Definition get_coords (s : interpolator) : coords :=
  match si_cache s with Some c => c | None => new_coords (si_Q s) (si_mics s) (get_virt s) end.
Definition next (s : interpolator) (e : event) : interpolator :=
  match e with
  | SetMics m => mkInterp m (si_virt s) (si_Q s) (si_num s) (si_w s) (si_cache s)
  | SetVirt v => mkInterp (si_mics s) (Some v) (si_Q s) (si_num s) (si_w s) (si_cache s)
  | SetQ q => mkInterp (si_mics s) (si_virt s) q (si_num s) (si_w s) (si_cache s)
  | SetNum n => mkInterp (si_mics s) (si_virt s) (si_Q s) n (si_w s) (si_cache s)
  | SetW w => mkInterp (si_mics s) (si_virt s) (si_Q s) (si_num s) w (si_cache s)
  | Sample _ _ => mkInterp (si_mics s) (Some (get_virt s)) (si_Q s) (si_num s) (si_w s) (Some (get_coords s))
  end.
Definition after (h : list event) (s : interpolator) : interpolator := fold_left next h s.
(** the row computed for a sample in the state [s] *)
Definition sample_out (ord : list R -> list nat) (s : interpolator) (row : list R) (delay : option R) : exn + list R :=
  idw_row ord (si_num s) (si_w s) (length (get_virt s)) (get_coords s) row delay.
(** a new object with the same settings *)
Definition renewed (s : interpolator) : interpolator :=
  mkInterp (si_mics s) (Some (get_virt s)) (si_Q s) (si_num s) (si_w s) None.

(** * Specification *)

(** argsort: a permutation of the indices that sorts; nothing on equal keys *)
Definition argsort_ok (ord : list R -> list nat) : Prop :=
  forall ks, Permutation (ord ks) (seq 0 (length ks))
    /\ forall i j, (i < j < length ks)%nat -> nth (nth i (ord ks) 0%nat) ks 0 <= nth (nth j (ord ks) 0%nat) ks 0.

(** the point [p] turned about the z axis by [d] *)
Definition turned (d : R) (p : v3) : v3 :=
  V3 (v3x p * cos d - v3y p * sin d) (v3x p * sin d + v3y p * cos d) (v3z p).
Definition in_plane (p : v3) : v3 := V3 (v3x p) (v3y p) 0.
Definition dist3 (p q : v3) : R := vnorm (vsub p q).

(** [v] is the mean of the values at [num] nearest of the points, weighted by
    the inverse [w]-th power of the distances [D] *)
Definition idw_mean (num : nat) (w : R) (D : nat -> R) (ps : list R) (v : R) : Prop :=
  exists chosen : list nat,
    NoDup chosen /\ length chosen = Nat.min num (length ps) /\ (forall i, In i chosen -> (i < length ps)%nat)
    /\ (forall i j, In i chosen -> (j < length ps)%nat -> ~ In j chosen -> D i <= D j)
    /\ v * rsum (map (fun i => / Rpower (D i) w) chosen) = rsum (map (fun i => nth i ps 0 / Rpower (D i) w) chosen).

(* ------------------------------------------------------------------ *)
Lemma sincos_shift (k : Z) x : cos (x + IZR k * (2 * PI)) = cos x /\ sin (x + IZR k * (2 * PI)) = sin x.
Proof.
  destruct (Z_le_gt_dec 0 k) as [L|L].
  - rewrite <- (Z2Nat.id k L), <- INR_IZR_INZ.
    replace (x + INR (Z.to_nat k) * (2 * PI)) with (x + 2 * INR (Z.to_nat k) * PI) by ring.
    split; [apply cos_period|apply sin_period].
  - set (n := Z.to_nat (- k)). assert (IZR k = - INR n) as E.
    { unfold n. rewrite INR_IZR_INZ, Z2Nat.id by lia. rewrite opp_IZR. ring. }
    rewrite E. set (y := x + - INR n * (2 * PI)). replace x with (y + 2 * INR n * PI) by (unfold y; ring).
    split; symmetry; [apply cos_period|apply sin_period].
Qed.

Lemma shifted_cong delay phi : exists k : Z,
  shifted delay phi = phi + match delay with Some d => d | None => 0 end + IZR k * (2 * PI).
Proof.
  pose proof PI_RGT_0 as HP. destruct delay as [d|]; cbn [shifted].
  - destruct (rmod_cong (phi + d + PI) (2 * PI)) as [k E]; [lra|]. exists k. lra.
  - exists 0%Z. lra.
Qed.

Definition swapxy (p : v3) : v3 := V3 (v3y p) (v3x p) (v3z p).

Lemma idw_point_spec delay p :
  idw_point delay (cartToCyl p) = swapxy (in_plane (turned (match delay with Some d => d | None => 0 end) p)).
Proof.
  unfold idw_point, cylToCart. cbn [v3x v3y v3z]. destruct (cartToCyl_polar p) as [_ [A [B _]]].
  destruct (shifted_cong delay (v3x (cartToCyl p))) as [k ->].
  set (d := match delay with Some d => d | None => 0 end).
  destruct (sincos_shift k (v3x (cartToCyl p) + d)) as [-> ->]. rewrite cos_plus, sin_plus.
  unfold swapxy, in_plane, turned. cbn [v3x v3y v3z]. rewrite A, B. f_equal; ring.
Qed.

Lemma dist_swap p q : vnorm (vsub (swapxy p) (swapxy q)) = dist3 p q.
Proof. unfold dist3, vnorm, vsub, vdot, swapxy. cbn [v3x v3y v3z]. f_equal. ring. Qed.

Lemma idw_dists_spec Q mpos virt delay v :
  idw_dists (new_coords Q mpos virt) (idw_point delay (cartToCylQ Q v))
  = map (fun m => dist3 (in_plane (turned (match delay with Some d => d | None => 0 end) (mapply Q v))) (mapply Q m)) mpos.
Proof.
  unfold idw_dists, new_coords, cartToCylQ. cbn [cd_real]. rewrite map_map. apply map_ext. intros m.
  rewrite idw_point_spec, cyl_round_trip. apply dist_swap.
Qed.

(** ** One value *)
Lemma ord_facts ord ds : argsort_ok ord ->
  length (ord ds) = length ds /\ NoDup (ord ds) /\ (forall k, In k (ord ds) <-> (k < length ds)%nat).
Proof.
  intros H. destruct (H ds) as [P _]. split; [rewrite (Permutation_length P); apply seq_length|]. split.
  - apply (Permutation_NoDup (Permutation_sym P)). apply seq_NoDup.
  - intros k. split; intros K.
    + apply (Permutation_in _ P) in K. apply in_seq in K. lia.
    + apply (Permutation_in _ (Permutation_sym P)). apply in_seq. lia.
Qed.

Lemma ord_split ord ds n i j : argsort_ok ord -> In i (firstn n (ord ds)) -> In j (skipn n (ord ds)) ->
  nth i ds 0 <= nth j ds 0.
Proof.
  intros H Hi Hj. destruct (ord_facts ord ds H) as [HL _]. destruct (H ds) as [_ HS].
  apply (In_nth _ _ 0%nat) in Hi. destruct Hi as [a [Ha Ea]]. apply (In_nth _ _ 0%nat) in Hj. destruct Hj as [b [Hb Eb]].
  rewrite firstn_length in Ha. rewrite skipn_length in Hb.
  rewrite <- Ea, <- Eb.
  assert (nth a (firstn n (ord ds)) 0%nat = nth a (ord ds) 0%nat) as ->.
  { rewrite <- (firstn_skipn n (ord ds)) at 2. rewrite app_nth1; auto. rewrite firstn_length. lia. }
  assert (nth b (skipn n (ord ds)) 0%nat = nth (n + b) (ord ds) 0%nat) as ->.
  { rewrite <- (firstn_skipn n (ord ds)) at 2. rewrite app_nth2; rewrite firstn_length; [|lia]. f_equal. lia. }
  apply HS. lia.
Qed.

Lemma firstn_NoDup {A} n (l : list A) : NoDup l -> NoDup (firstn n l).
Proof.
  revert l. induction n as [|n IH]; intros [|a l] H; cbn [firstn]; try constructor.
  - inversion H as [|? ? H1 H2]; subst. intros K. apply H1. rewrite <- (firstn_skipn n l). apply in_or_app. now left.
  - inversion H; subst. auto.
Qed.
Lemma firstn_In {A} n (l : list A) x : In x (firstn n l) -> In x l.
Proof. intros H. rewrite <- (firstn_skipn n l). apply in_or_app. now left. Qed.

Lemma Rpower_pos x w : 0 < Rpower x w.
Proof. unfold Rpower. apply exp_pos. Qed.

Lemma rsum_pos {A} (f : A -> R) l : l <> [] -> (forall a, In a l -> 0 < f a) -> 0 < rsum (map f l).
Proof.
  induction l as [|a l IH]; intros N H; [congruence|]. cbn [map rsum fold_right]. fold (rsum (map f l)).
  assert (0 < f a) by (apply H; now left). destruct l as [|b l]; [cbn; lra|].
  assert (0 < rsum (map f (b :: l))) by (apply IH; [discriminate|intros; apply H; now right]). lra.
Qed.
Lemma rsum_scale {A} (f : A -> R) c l : rsum (map (fun a => f a * c) l) = rsum (map f l) * c.
Proof. induction l as [|a l IH]; cbn [map rsum fold_right]; [ring|]. fold (rsum (map f l)). fold (rsum (map (fun a => f a * c) l)). rewrite IH. ring. Qed.

(** the smallest distance is at the first index of the order *)
Lemma first_nearest ord ds n k0 r j : argsort_ok ord -> firstn n (ord ds) = k0 :: r -> (j < length ds)%nat ->
  nth k0 ds 0 <= nth j ds 0.
Proof.
  intros H E Hj. destruct (ord_facts ord ds H) as [HL [HN HI]].
  destruct n as [|n]; [discriminate|]. destruct (ord ds) as [|a l] eqn:EO; [discriminate|]. injection E as -> _.
  apply HI in Hj. destruct Hj as [->|Hj]; [lra|].
  apply (ord_split ord ds 1); auto; rewrite EO; [now left|exact Hj].
Qed.

Lemma idw_value_spec ord num w ds ps : argsort_ok ord -> (1 <= num)%Z -> length ps = length ds -> (0 < length ds)%nat ->
  exists v, idw_value ord num w ds ps = inr v
    /\ ((exists i, (i < length ds)%nat /\ nth i ds 0 < 1 / 1000) ->
          exists i, (i < length ds)%nat /\ (forall j, (j < length ds)%nat -> nth i ds 0 <= nth j ds 0) /\ v = nth i ps 0)
    /\ ((forall i, (i < length ds)%nat -> 1 / 1000 <= nth i ds 0) ->
          idw_mean (Z.to_nat num) w (fun i => nth i ds 0) ps v).
Proof.
  intros H Hn HL H0. destruct (ord_facts ord ds H) as [HO [HN HI]]. unfold idw_value.
  assert (upto_index num (length ds) = Z.to_nat num) as ->.
  { unfold upto_index. destruct (num <? 0)%Z eqn:E; [apply Z.ltb_lt in E; lia|reflexivity]. }
  set (m := Z.to_nat num). assert (0 < m)%nat as Hm by (unfold m; lia).
  destruct (firstn m (ord ds)) as [|k0 r] eqn:EF.
  { exfalso. apply (f_equal (@length nat)) in EF. rewrite firstn_length in EF. simpl in EF. lia. }
  assert (In k0 (ord ds)) as Hk0 by (apply (firstn_In m); rewrite EF; now left).
  apply HI in Hk0.
  assert (forall j, (j < length ds)%nat -> nth k0 ds 0 <= nth j ds 0) as Hmin
    by (intros j Hj; now apply (first_nearest ord ds m k0 r)).
  destruct (Rlt_dec (nth k0 ds 0) (1 / 1000)) as [L|L].
  - eexists. split; [reflexivity|]. split.
    + intros _. exists k0. auto.
    + intros K. specialize (K k0 Hk0). lra.
  - eexists. split; [reflexivity|]. split.
    + intros [i [Hi K]]. specialize (Hmin i Hi). lra.
    + intros _. exists (k0 :: r). rewrite <- EF. split; [now apply firstn_NoDup|].
      split; [rewrite firstn_length; lia|]. split; [intros i Hi; apply firstn_In in Hi; apply HI in Hi; lia|].
      split.
      { intros i j Hi Hj Nj. apply (ord_split ord ds m); auto. rewrite HL in Hj. apply HI in Hj.
        rewrite <- (firstn_skipn m (ord ds)) in Hj. apply in_app_or in Hj. destruct Hj; [contradiction|auto]. }
      set (l := firstn m (ord ds)).
      assert (map (fun k => 1 / Rpower (nth k ds 0) w) l = map (fun i => / Rpower (nth i ds 0) w) l) as E1.
      { apply map_ext. intros a. unfold Rdiv. ring. }
      rewrite E1. set (W := rsum (map (fun i => / Rpower (nth i ds 0) w) l)).
      assert (0 < W) as HW.
      { apply rsum_pos; [unfold l; rewrite EF; discriminate|]. intros a _. apply Rinv_0_lt_compat, Rpower_pos. }
      rewrite (map_ext (fun k => nth k ps 0 * (1 / Rpower (nth k ds 0) w / W)) (fun k => nth k ps 0 / Rpower (nth k ds 0) w * / W)).
      2: { intros a. unfold Rdiv. ring. }
      rewrite rsum_scale, Rmult_assoc, Rinv_l by lra. ring.
Qed.

Lemma all_ok_nth {A} (l : list (exn + A)) (d : A) r : all_ok l = inr r ->
  length r = length l /\ forall i, (i < length l)%nat -> nth i l (inr d) = inr (nth i r d).
Proof.
  revert r. induction l as [|[e|a] l IH]; intros r H; cbn [all_ok] in H; try discriminate.
  - injection H as <-. split; auto. simpl. lia.
  - destruct (all_ok l) as [e|b]; [discriminate|]. injection H as <-. destruct (IH b eq_refl) as [L K].
    split; [simpl; lia|]. intros [|i] Hi; [reflexivity|]. cbn [nth]. apply K. simpl in Hi. lia.
Qed.
Lemma all_ok_inr {A} (l : list (exn + A)) : (forall x, In x l -> exists a, x = inr a) -> exists r, all_ok l = inr r.
Proof.
  induction l as [|x l IH]; intros H; [exists []; reflexivity|].
  destruct (H x) as [a ->]; [now left|]. destruct IH as [r E]; [intros; apply H; now right|].
  exists (a :: r). cbn [all_ok]. now rewrite E.
Qed.
Lemma all_ok_map {A B} (f : A -> exn + B) (g : A -> B) l : (forall a, In a l -> f a = inr (g a)) ->
  all_ok (map f l) = inr (map g l).
Proof.
  induction l as [|a l IH]; intros H; [reflexivity|]. cbn [map all_ok]. rewrite (H a) by now left.
  rewrite IH by (intros; apply H; now right). reflexivity.
Qed.

(** ** One row *)
Lemma idw_row_spec ord num w Q mpos virt row delay : argsort_ok ord -> (1 <= num)%Z ->
  length row = length mpos -> (0 < length mpos)%nat -> (length virt = length mpos \/ length virt = 1)%nat ->
  let d := match delay with Some d => d | None => 0 end in
  exists out, idw_row ord num w (length virt) (new_coords Q mpos virt) row delay = inr out
    /\ length out = length virt
    /\ forall u, (u < length virt)%nat ->
         let D := fun i => dist3 (in_plane (turned d (mapply Q (nth u virt (V3 0 0 0))))) (mapply Q (nth i mpos (V3 0 0 0))) in
         ((exists i, (i < length mpos)%nat /\ D i < 1 / 1000) ->
            exists i, (i < length mpos)%nat /\ (forall j, (j < length mpos)%nat -> D i <= D j) /\ nth u out 0 = nth i row 0)
         /\ ((forall i, (i < length mpos)%nat -> 1 / 1000 <= D i) ->
            idw_mean (Z.to_nat num) w D row (nth u out 0)).
Proof.
  intros H Hn HL H0 HV d. unfold idw_row. cbn [cd_virt cd_real new_coords].
  rewrite !map_length, Nat.eqb_refl. cbn [negb].
  assert (((length virt =? length mpos) || (length virt =? 1))%nat = true) as ->.
  { apply orb_true_iff. destruct HV as [-> | ->]; [left|right]; apply Nat.eqb_refl. }
  rewrite map_map.
  set (Dl := fun v => map (fun m => dist3 (in_plane (turned d (mapply Q v))) (mapply Q m)) mpos).
  set (f := fun v => idw_value ord num w (Dl v) row).
  assert (map (fun v => idw_value ord num w (idw_dists (new_coords Q mpos virt) (idw_point delay (cartToCylQ Q v))) row) virt
          = map f virt) as E.
  { apply map_ext. intros v. unfold f, Dl. now rewrite idw_dists_spec. }
  rewrite E. clear E.
  assert (forall v, exists x, f v = inr x) as Hf.
  { intros v. unfold f. destruct (idw_value_spec ord num w (Dl v) row) as [x [E _]]; auto; unfold Dl; rewrite ?map_length; auto.
    exists x. exact E. }
  destruct (all_ok_inr (map f virt)) as [out Eo].
  { intros x Hx. apply in_map_iff in Hx. destruct Hx as [v [<- _]]. apply Hf. }
  exists out. split; [exact Eo|]. destruct (all_ok_nth _ 0 _ Eo) as [Lo No]. rewrite map_length in Lo, No.
  split; [exact Lo|]. intros u Hu.
  set (D := fun i => dist3 (in_plane (turned d (mapply Q (nth u virt (V3 0 0 0))))) (mapply Q (nth i mpos (V3 0 0 0)))).
  change (((exists i, (i < length mpos)%nat /\ D i < 1 / 1000) ->
            exists i, (i < length mpos)%nat /\ (forall j, (j < length mpos)%nat -> D i <= D j) /\ nth u out 0 = nth i row 0)
         /\ ((forall i, (i < length mpos)%nat -> 1 / 1000 <= D i) ->
            idw_mean (Z.to_nat num) w D row (nth u out 0))). specialize (No u Hu).
  set (v := nth u virt (V3 0 0 0)) in *.
  assert (nth u (map f virt) (inr 0) = f v) as E1.
  { rewrite (nth_indep _ (inr 0) (f (V3 0 0 0))) by (now rewrite map_length). apply map_nth. }
  rewrite E1 in No. unfold f in No.
  destruct (idw_value_spec ord num w (Dl v) row) as [x [E [S1 S2]]]; auto; [unfold Dl; now rewrite map_length|unfold Dl; now rewrite map_length|].
  assert (length (Dl v) = length mpos) as HDl by (unfold Dl; apply map_length). rewrite HDl in S1, S2.
  assert (forall i, (i < length mpos)%nat -> nth i (Dl v) 0 = D i) as HD.
  { intros i Hi. unfold Dl. set (g := fun m => dist3 (in_plane (turned d (mapply Q v))) (mapply Q m)).
    rewrite (nth_indep _ 0 (g (V3 0 0 0))) by (now rewrite map_length). rewrite map_nth. reflexivity. }
  rewrite E in No. injection No as Ex. rewrite <- Ex. split.
  - intros [i [Hi K]]. destruct S1 as [k [Hk [Hmin Ev]]]; [exists i; split; auto; now rewrite HD|].
    exists k. split; auto. split; auto. intros j Hj. rewrite <- !HD by auto. now apply Hmin.
  - intros K. destruct S2 as [c [C1 [C2 [C3 [C4 C5]]]]]; [intros i Hi; rewrite HD by auto; now apply K|].
    exists c. split; auto. split; auto. split; auto. rewrite HL in *. split.
    + intros i j Hi Hj Nj. rewrite <- !HD by auto. now apply C4.
    + rewrite (map_ext_in (fun i => / Rpower (D i) w) (fun i => / Rpower (nth i (Dl v) 0) w))
        by (intros i Hi; rewrite HD by auto; reflexivity).
      rewrite (map_ext_in (fun i => nth i row 0 / Rpower (D i) w) (fun i => nth i row 0 / Rpower (nth i (Dl v) 0) w))
        by (intros i Hi; rewrite HD by auto; reflexivity).
      exact C5.
Qed.

(** a weighted mean lies between bounds of the values *)
Lemma idw_mean_range num w D ps v lo hi : (0 < num)%nat -> (0 < length ps)%nat ->
  (forall i, (i < length ps)%nat -> lo <= nth i ps 0 <= hi) -> idw_mean num w D ps v -> lo <= v <= hi.
Proof.
  intros Hn H0 HB [c [C1 [C2 [C3 [_ E]]]]].
  assert (c <> []) as NE by (intros ->; simpl in C2; lia).
  set (W := rsum (map (fun i => / Rpower (D i) w) c)) in *.
  assert (0 < W) as HW by (apply rsum_pos; auto; intros; apply Rinv_0_lt_compat, Rpower_pos).
  assert (forall l, (forall i, In i l -> (i < length ps)%nat) ->
     lo * rsum (map (fun i => / Rpower (D i) w) l) <= rsum (map (fun i => nth i ps 0 / Rpower (D i) w) l)
       <= hi * rsum (map (fun i => / Rpower (D i) w) l)) as G.
  { induction l as [|a l IH]; intros Hl; cbn [map rsum fold_right]; [lra|].
    fold (rsum (map (fun i => / Rpower (D i) w) l)). fold (rsum (map (fun i => nth i ps 0 / Rpower (D i) w) l)).
    specialize (IH ltac:(intros; apply Hl; now right)). specialize (HB a (Hl a (or_introl eq_refl))).
    assert (0 < / Rpower (D a) w) as Hp by (apply Rinv_0_lt_compat, Rpower_pos).
    assert (lo * / Rpower (D a) w <= nth a ps 0 * / Rpower (D a) w) by (apply Rmult_le_compat_r; lra).
    assert (nth a ps 0 * / Rpower (D a) w <= hi * / Rpower (D a) w) by (apply Rmult_le_compat_r; lra).
    unfold Rdiv. rewrite !Rmult_plus_distr_l. lra. }
  specialize (G c C3). fold W in G. rewrite <- E in G.
  split; apply (Rmult_le_reg_r W); lra.
Qed.

(** ** The stream *)
Lemma idw_rotate_chunks ord num w nvirt c fs om n s (f : R -> list R -> list R) : (0 < n)%nat ->
  (forall row d, In row s -> idw_row ord num w nvirt c row (Some d) = inr (f d row)) ->
  forall d off, off = INR d * (om / fs) ->
  idw_rotate ord num w nvirt c fs om off (chunks n s) Finished
  = done (chunks n (map (fun q => f (INR (fst q) * (om / fs)) (snd q)) (combine (seq d (length s)) s))).
Proof.
  intros Hn HF. remember (length s) as k eqn:Hk. revert s HF Hk.
  induction k as [k IH] using lt_wf_ind. intros s HF Hk d off Hoff.
  destruct s as [|a s']; [subst; reflexivity|].
  set (s := a :: s') in *.
  set (F := fun q : nat * list R => f (INR (fst q) * (om / fs)) (snd q)).
  set (out := map F (combine (seq d k) s)).
  assert (length out = k) as HO by (unfold out; rewrite map_length, combine_length, seq_length; lia).
  assert (0 < k)%nat as Hk0 by (rewrite Hk; simpl; lia).
  rewrite (chunks_step n s) by (auto; discriminate).
  rewrite (chunks_step n out) by (auto; intros E; rewrite E in HO; simpl in HO; lia).
  cbn [idw_rotate].
  set (b := firstn n s). set (m := length b).
  assert (m = Nat.min n k) as En by (unfold m, b; rewrite firstn_length; lia).
  assert (INR m <> 0) as Hm0 by (apply not_0_INR; lia).
  assert (map (fun k => off + INR k * (INR m / fs * om / INR m)) (seq 0 m) = map (fun k => INR (d + k) * (om / fs)) (seq 0 m)) as ->.
  { apply map_ext. intros q. rewrite Hoff, plus_INR. unfold Rdiv.
    replace (INR m * / fs * om * / INR m) with (om * / fs * (INR m * / INR m)) by ring. rewrite Rinv_r by auto. ring. }
  rewrite (all_ok_map _ (fun q => f (snd q) (fst q))).
  2: { intros [r x] Hq. cbn [fst snd]. apply HF. apply in_combine_l in Hq. apply (firstn_In n). exact Hq. }
  assert (map (fun q => f (snd q) (fst q)) (combine b (map (fun k => INR (d + k) * (om / fs)) (seq 0 m))) = firstn n out) as E1.
  { unfold out. rewrite firstn_map, combine_firstn, firstn_seq. fold b.
    replace (Nat.min n k) with m by lia. unfold m. clear -b. generalize b. clear b. intros b.
    assert (forall e, map (fun q => f (snd q) (fst q))
              (combine b (map (fun k => INR (d + k) * (om / fs)) (seq e (length b))))
            = map F (combine (seq (d + e) (length b)) b)) as G.
    { induction b as [|r b IHb]; intros e; [reflexivity|]. cbn [length seq map combine]. f_equal.
      rewrite IHb. do 2 f_equal. f_equal. lia. }
    rewrite G. rewrite Nat.add_0_r. reflexivity. }
  rewrite E1.
  assert (idw_rotate ord num w nvirt c fs om (last (map (fun k => INR (d + k) * (om / fs)) (seq 0 m)) 0 + om / fs) (chunks n (skipn n s)) Finished
          = done (chunks n (skipn n out))) as E2.
  { unfold out. rewrite skipn_map, combine_skipn, skipn_seq.
    replace (k - n)%nat with (length (skipn n s)) by (rewrite skipn_length; lia).
    destruct (le_lt_dec k n) as [L|L].
    { rewrite (skipn_all2 s) by lia. reflexivity. }
    apply (IH (length (skipn n s))); [rewrite skipn_length; lia| |reflexivity|].
    { intros row x Hr. apply HF. rewrite <- (firstn_skipn n s). apply in_or_app. now right. }
    replace m with n by lia.
    assert (seq 0 n = seq 0 (n - 1) ++ [n - 1]%nat) as ->.
    { replace n with (S (n - 1)) at 1 by lia. rewrite seq_S. reflexivity. }
    rewrite map_app. cbn [map]. rewrite last_last.
    replace (d + n)%nat with (S (d + (n - 1)))%nat by lia. rewrite S_INR. ring. }
  rewrite E2. reflexivity.
Qed.

Definition get_row (x : exn + list R) : list R := match x with inr r => r | inl _ => [] end.

Lemma idw_rotation_ok ord num w Q mpos virt fs om src s : argsort_ok ord -> (1 <= num)%Z ->
  wf_source src s -> Forall (fun row => length row = length mpos) s -> (0 < length mpos)%nat ->
  (length virt = length mpos \/ length virt = 1)%nat ->
  wf_source (idw_rotation ord num w Q mpos virt fs om src)
    (map (fun q => get_row (idw_row ord num w (length virt) (new_coords Q mpos virt) (snd q) (Some (INR (fst q) * (om / fs)))))
       (combine (seq 0 (length s)) s)).
Proof.
  intros H Hn W HF H0 HV n Hn0. unfold idw_rotation. rewrite (wf_source_eq src s n W Hn0). cbn [blocks fin done].
  rewrite (idw_rotate_chunks ord num w _ _ fs om n s
            (fun d row => get_row (idw_row ord num w (length virt) (new_coords Q mpos virt) row (Some d))) Hn0) with (d := 0%nat).
  - now apply delivers_chunks.
  - intros row d Hr. rewrite Forall_forall in HF.
    destruct (idw_row_spec ord num w Q mpos virt row (Some d)) as [out [E _]]; auto. rewrite E. reflexivity.
  - simpl. ring.
Qed.

(** ** The object *)
Lemma after_app h1 h2 s : after (h1 ++ h2) s = after h2 (after h1 s).
Proof. unfold after. apply fold_left_app. Qed.

Lemma cache_kept h s c : si_cache s = Some c -> si_cache (after h s) = Some c.
Proof.
  revert s. induction h as [|e h IH]; intros s H; [exact H|]. cbn [after fold_left]. apply IH.
  destruct e; cbn [next si_cache]; auto. unfold get_coords. now rewrite H.
Qed.
