(** Virtual rotation of a ring array:
    /repo/acoular/tprocess.py:663-1018 (SpatialInterpolator: the case of the
    array dimensions '1D' and 'ring' with linear interpolation) and
    /repo/acoular/tprocess.py:1213-1263 (SpatialInterpolatorConstantRotation).

    A row is the list of the pressures at the real microphones. *)
From Coq Require Import List Arith Lia ZArith Bool Reals Lra Sorting.Sorted Sorting.Permutation.
Require Import ZifyBool ZifyNat ZifyN.
From Verif Require Import Stream Environ Tracker.
Import ListNotations.
Local Open Scope R_scope.

(** argsort along the angles, as a sort of the pairs (angle, value); the order
    of equal angles is not modelled faithfully (numpy's quicksort is not stable). *)
Fixpoint insert (p : R * R) (l : list (R * R)) : list (R * R) :=
  match l with
  | [] => [p]
  | q :: r => if Rle_dec (fst p) (fst q) then p :: q :: r else q :: insert p r
  end.
Fixpoint isort (l : list (R * R)) : list (R * R) :=
  match l with [] => [] | p :: r => insert p (isort r) end.

(** numpy's compiled interp: the value of the polygon line through [W] at [x];
    left of the first and right of the last point the end values. *)
Fixpoint polyline (W : list (R * R)) (x : R) : R :=
  match W with
  | a :: ((b :: _) as r) =>
      if Rlt_dec x (fst a) then snd a
      else if Rlt_dec x (fst b) then (snd b - snd a) / (fst b - fst a) * (x - fst a) + snd a
      else polyline r x
  | [a] => snd a
  | [] => 0
  end.

(** numpy.interp(..., period): angles modulo the period, sorted, one point
    added on either side. *)
Definition interp_period (P : R) (pts : list (R * R)) (x : R) : R :=
  let S := isort (map (fun q => (rmod (fst q) P, snd q)) pts) in
  let f := hd (0, 0) S in
  let l := last S (0, 0) in
  polyline ((fst l - P, snd l) :: S ++ [(fst f + P, snd f)]) (rmod x P).

(** _result_core_func, tprocess.py:956-981, for one sample: [phis] angles of
    the real microphones, [virt] of the virtual ones, [delay] the rotation. *)
Definition core_row (phis virt row : list R) (delay : R) : list R :=
  let pts := isort (combine phis row) in
  map (fun v => interp_period (2 * PI) pts (rmod (v + delay + PI) (2 * PI) - PI)) virt.

(** SpatialInterpolatorConstantRotation.result, tprocess.py:1253-1263; [w] is
    omega; linspace(0, stop, n, endpoint=False) has step stop/n. *)
Fixpoint rotate (phis virt : list R) (fs w : R) (off : R) (bs : list (list (list R))) : list (list (list R)) :=
  match bs with
  | [] => []
  | b :: bs' =>
      let n := length b in
      let delay := map (fun k => off + INR k * (INR n / fs * w / INR n)) (seq 0 n) in
      map (fun q => core_row phis virt (fst q) (snd q)) (combine b delay)
        :: rotate phis virt fs w (last delay 0 + w / fs) bs'
  end.
Definition constant_rotation (phis virt : list R) (fs w : R) (src : source (list R)) : source (list R) :=
  fun num => let t := src num in mkTrace (rotate phis virt fs w 0 (blocks t)) (fin t).

(** _virtNewCoord_func, tprocess.py:820-831: the angles; the matrix [Q] is
    applied to the real microphones only. *)
Definition real_angles (Q : m3) (mpos : list v3) : list R := map (fun p => v3x (cartToCyl (mapply Q p))) mpos.
Definition virtual_angles (mpos_virt : list v3) : list R := map (fun p => v3x (cartToCyl p)) mpos_virt.

(** * Specification *)

(** no two microphones at the same angle *)
Definition distinct (phis : list R) : Prop :=
  forall i j k, (i < j < length phis)%nat -> nth i phis 0 <> nth j phis 0 + IZR k * (2 * PI).

(** going up from the angle of microphone [i] one meets microphone [j] first,
    after the angle [d] *)
Definition next_mic (phis : list R) (i j : nat) (d : R) : Prop :=
  (i < length phis)%nat /\ (j < length phis)%nat /\ 0 < d <= 2 * PI
  /\ (exists k, nth j phis 0 = nth i phis 0 + d + IZR k * (2 * PI))
  /\ forall m k, (m < length phis)%nat -> ~ nth i phis 0 < nth m phis 0 + IZR k * (2 * PI) < nth i phis 0 + d.

(* ------------------------------------------------------------------ *)
Lemma insert_perm p l : Permutation (insert p l) (p :: l).
Proof.
  induction l as [|q l IH]; simpl; auto. destruct (Rle_dec _ _); auto.
  rewrite IH. apply perm_swap.
Qed.
Lemma isort_perm l : Permutation (isort l) l.
Proof. induction l as [|p l IH]; simpl; auto. rewrite insert_perm. now constructor. Qed.

Definition le1 (a b : R * R) : Prop := fst a <= fst b.
Definition lt1 (a b : R * R) : Prop := fst a < fst b.

Lemma insert_sorted p l : StronglySorted le1 l -> StronglySorted le1 (insert p l).
Proof.
  induction l as [|q l IH]; intros H; simpl.
  - constructor; constructor.
  - inversion H as [|? ? H1 H2]; subst. destruct (Rle_dec _ _) as [L|L].
    + constructor; auto. constructor; auto. rewrite Forall_forall in *. intros z Hz. specialize (H2 z Hz).
      unfold le1 in *. lra.
    + constructor; auto. rewrite Forall_forall in *. intros z Hz.
      apply (Permutation_in _ (insert_perm p l)) in Hz. destruct Hz as [<-|Hz]; [unfold le1; lra|auto].
Qed.
Lemma isort_sorted l : StronglySorted le1 (isort l).
Proof. induction l as [|p l IH]; simpl; [constructor|]. now apply insert_sorted. Qed.

(** distinct abscissae: strictly sorted *)
Lemma sorted_strict l : StronglySorted le1 l -> NoDup (map fst l) -> StronglySorted lt1 l.
Proof.
  induction 1 as [|a l H IH HF]; intros N; constructor.
  - inversion N; subst. auto.
  - inversion N as [|? ? N1 N2]; subst. rewrite Forall_forall in *. intros z Hz. specialize (HF z Hz).
    unfold le1, lt1 in *. destruct HF as [L|E]; auto. exfalso. apply N1. rewrite E. now apply in_map.
Qed.

(** the polygon line between two neighbouring points *)
Lemma polyline_between W a b x : StronglySorted lt1 W -> In a W -> In b W ->
  fst a <= x < fst b -> (forall c, In c W -> ~ fst a < fst c < fst b) ->
  polyline W x = snd a + (x - fst a) / (fst b - fst a) * (snd b - snd a).
Proof.
  induction W as [|p W IH]; intros HS Ha Hb Hx Hn; [destruct Ha|].
  inversion HS as [|? ? HS1 HS2]; subst. rewrite Forall_forall in HS2.
  destruct W as [|q W].
  { destruct Ha as [->|[]]. destruct Hb as [->|[]]. lra. }
  change (polyline (p :: q :: W) x) with
    (if Rlt_dec x (fst p) then snd p
     else if Rlt_dec x (fst q) then (snd q - snd p) / (fst q - fst p) * (x - fst p) + snd p
     else polyline (q :: W) x).
  destruct Ha as [<-|Ha].
  - destruct Hb as [<-|Hb]; [lra|].
    destruct (Rlt_dec x (fst p)); [lra|].
    assert (q = b) as ->.
    { destruct Hb as [|Hb]; auto. exfalso. inversion HS1 as [|? ? _ F]; subst. rewrite Forall_forall in F.
      specialize (F b Hb). specialize (HS2 q (or_introl eq_refl)). unfold lt1 in *.
      apply (Hn q); [right; now left|]. lra. }
    destruct (Rlt_dec x (fst b)); [|lra]. field. lra.
  - assert (fst p < fst a) as Hpa by (apply HS2; auto).
    assert (fst q <= fst a) as Hqa.
    { destruct Ha as [->|Ha]; [lra|]. inversion HS1 as [|? ? _ F]; subst. rewrite Forall_forall in F.
      specialize (F a Ha). unfold lt1 in F. lra. }
    destruct Hb as [<-|Hb]; [lra|].
    destruct (Rlt_dec x (fst p)); [lra|]. destruct (Rlt_dec x (fst q)); [lra|].
    apply IH; auto. intros c Hc. apply Hn. now right.
Qed.

Lemma rmod_range x y : 0 < y -> 0 <= rmod x y < y.
Proof.
  intros Hy. unfold rmod. destruct (base_Int_part (x / y)) as [A B].
  assert (x = y * (x / y)) as E by (field; lra).
  set (z := x / y) in *. split.
  - assert (y * IZR (Int_part z) <= y * z) by (apply Rmult_le_compat_l; lra). lra.
  - assert (y * (z - IZR (Int_part z)) < y * 1) by (apply Rmult_lt_compat_l; lra). lra.
Qed.

Lemma rmod_cong x y : y <> 0 -> exists k, rmod x y = x + IZR k * y.
Proof. intros _. exists (- Int_part (x / y))%Z. unfold rmod. rewrite opp_IZR. ring. Qed.

Lemma rmod_unique x y z k : 0 < y -> 0 <= z < y -> z = x + IZR k * y -> rmod x y = z.
Proof.
  intros Hy Hz E. destruct (rmod_cong x y) as [k' E']; [lra|]. pose proof (rmod_range x y Hy) as R1.
  assert (rmod x y - z = IZR (k' - k) * y) as D by (rewrite minus_IZR; lra).
  assert (k' - k = 0)%Z as K.
  { assert (-1 < IZR (k' - k) < 1) as [U V].
    { split; apply (Rmult_lt_reg_r y); lra. }
    apply lt_IZR in U. apply lt_IZR in V. lia. }
  rewrite K in D. lra.
Qed.

Lemma last_cons_in {A} (l : list A) d : l <> [] -> In (last l d) l.
Proof.
  intros H. rewrite (app_removelast_last d H) at 2. apply in_or_app. right. now left.
Qed.

Lemma sorted_last l d z : StronglySorted lt1 l -> In z l -> z <> last l d -> fst z < fst (last l d).
Proof.
  induction l as [|a l IH]; intros H Hz N; [destruct Hz|]. inversion H as [|? ? H1 H2]; subst.
  rewrite Forall_forall in H2. destruct l as [|b l].
  - destruct Hz as [->|[]]. simpl in N. congruence.
  - change (last (a :: b :: l) d) with (last (b :: l) d) in *. destruct Hz as [<-|Hz].
    + apply H2. apply last_cons_in. discriminate.
    + now apply IH.
Qed.

Lemma sorted_hd l d z : StronglySorted lt1 l -> In z l -> z <> hd d l -> fst (hd d l) < fst z.
Proof.
  destruct l as [|a l]; intros H Hz N; [destruct Hz|]. inversion H as [|? ? H1 H2]; subst.
  rewrite Forall_forall in H2. destruct Hz as [->|Hz]; [simpl in N; congruence|]. now apply H2.
Qed.

Lemma sorted_app_one l z : StronglySorted lt1 l -> (forall a, In a l -> fst a < fst z) -> StronglySorted lt1 (l ++ [z]).
Proof.
  induction l as [|a l IH]; intros H HZ; simpl; [constructor; constructor|].
  inversion H as [|? ? H1 H2]; subst. constructor.
  - apply IH; auto. intros b Hb. apply HZ. now right.
  - rewrite Forall_forall in *. intros b Hb. apply in_app_or in Hb. destruct Hb as [Hb|[<-|[]]]; [auto|].
    apply HZ. now left.
Qed.

(** a point of the polygon, interpolated periodically *)
Lemma interp_spec (P : R) (pts : list (R * R)) a b A B x :
  0 < P ->
  (* distinct angles *)
  NoDup (map (fun q => rmod (fst q) P) pts) ->
  In a pts -> In b pts ->
  (exists k, A = fst a + IZR k * P) -> (exists k, B = fst b + IZR k * P) ->
  A <= rmod x P < B -> B <= A + P ->
  (forall c k, In c pts -> ~ A < fst c + IZR k * P < B) ->
  interp_period P pts x = snd a + (rmod x P - A) / (B - A) * (snd b - snd a).
Proof.
  intros HP HN Ha Hb [ka HA] [kb HB] Hx HAB Hno. unfold interp_period.
  set (M := map (fun q => (rmod (fst q) P, snd q)) pts).
  assert (forall q, In q (isort M) <-> In q M) as Hperm.
  { intros q. split; apply Permutation_in; [|symmetry]; apply isort_perm. }
  assert (StronglySorted lt1 (isort M)) as HS.
  { apply sorted_strict; [apply isort_sorted|].
    apply (Permutation_NoDup (l := map fst M)); [apply Permutation_map; symmetry; apply isort_perm|].
    unfold M. rewrite map_map. exact HN. }
  set (S := isort M) in *.
  assert (S <> []) as NE.
  { intros E. assert (In (rmod (fst a) P, snd a) S) as K by (apply Hperm; unfold M; apply (in_map (fun q => (rmod (fst q) P, snd q))); exact Ha).
    rewrite E in K. destruct K. }
  pose proof (rmod_range x P HP) as Rx.
  assert (forall q, In q S -> exists c, In c pts /\ q = (rmod (fst c) P, snd c)) as Hof.
  { intros q Hq. apply Hperm in Hq. unfold M in Hq. apply in_map_iff in Hq. destruct Hq as [c [<- Hc]]. eauto. }
  assert (forall q, In q S -> 0 <= fst q < P) as Hrange.
  { intros q Hq. destruct (Hof q Hq) as [c [_ ->]]. now apply rmod_range. }
  assert (forall q k, In q S -> ~ A < fst q + IZR k * P < B) as Hno'.
  { intros q k Hq. destruct (Hof q Hq) as [c [Hc ->]]. cbn [fst].
    destruct (rmod_cong (fst c) P ltac:(lra)) as [k' ->].
    replace (fst c + IZR k' * P + IZR k * P) with (fst c + IZR (k' + k) * P) by (rewrite plus_IZR; ring).
    apply Hno. exact Hc. }
  set (f := hd (0, 0) S). set (l := last S (0, 0)).
  assert (In f S) as Hf by (unfold f; destruct S; [congruence|now left]).
  assert (In l S) as Hl by (now apply last_cons_in).
  set (W := (fst l - P, snd l) :: S ++ [(fst f + P, snd f)]).
  assert (StronglySorted lt1 W) as HW.
  { unfold W. constructor.
    - apply sorted_app_one; auto. intros q Hq. cbn [fst]. pose proof (Hrange q Hq). pose proof (Hrange f Hf). lra.
    - apply Forall_forall. intros q Hq. unfold lt1. cbn [fst]. pose proof (Hrange l Hl).
      apply in_app_or in Hq. destruct Hq as [Hq|[<-|[]]].
      + pose proof (Hrange q Hq). lra.
      + cbn [fst]. pose proof (Hrange f Hf). lra. }
  assert (In (rmod (fst a) P, snd a) S /\ In (rmod (fst b) P, snd b) S) as [HaS HbS].
  { split; apply Hperm; unfold M; apply (in_map (fun q => (rmod (fst q) P, snd q))); assumption. }
  (* the left end *)
  assert (In (A, snd a) W) as HAW.
  { destruct (Rle_dec 0 A) as [L|L].
    - assert (rmod (fst a) P = A) as E by (apply (rmod_unique _ _ _ ka); lra).
      rewrite E in HaS. right. apply in_or_app. now left.
    - assert (rmod (fst a) P = A + P) as E.
      { apply (rmod_unique _ _ _ (ka + 1)); [lra|lra|]. rewrite plus_IZR. lra. }
      rewrite E in HaS. assert ((A + P, snd a) = l) as El.
      { destruct (Req_EM_T (A + P) (fst l)) as [Q|Q].
        - destruct (Req_EM_T (snd a) (snd l)) as [Q2|Q2]; [rewrite Q, Q2; destruct l; reflexivity|].
          exfalso. assert ((A + P, snd a) <> l) as N by (intros X; apply Q2; rewrite <- X; reflexivity).
          pose proof (sorted_last S (0,0) _ HS HaS N) as Y. cbn [fst] in Y. fold l in Y. lra.
        - exfalso. assert ((A + P, snd a) <> l) as N by (intros X; apply Q; rewrite <- X; reflexivity).
          pose proof (sorted_last S (0,0) _ HS HaS N) as Y. cbn [fst] in Y. fold l in Y.
          apply (Hno' l (-1)%Z Hl). pose proof (Hrange l Hl). lra. }
      left. rewrite <- El. cbn [fst snd]. f_equal. lra. }
  assert (In (B, snd b) W) as HBW.
  { destruct (Rlt_dec B P) as [L|L].
    - assert (rmod (fst b) P = B) as E by (apply (rmod_unique _ _ _ kb); lra).
      rewrite E in HbS. right. apply in_or_app. now left.
    - assert (rmod (fst b) P = B - P) as E.
      { apply (rmod_unique _ _ _ (kb - 1)); [lra|lra|]. rewrite minus_IZR. lra. }
      rewrite E in HbS. assert ((B - P, snd b) = f) as El.
      { destruct (Req_EM_T (B - P) (fst f)) as [Q|Q].
        - destruct (Req_EM_T (snd b) (snd f)) as [Q2|Q2]; [rewrite Q, Q2; destruct f; reflexivity|].
          exfalso. assert ((B - P, snd b) <> f) as N by (intros X; apply Q2; rewrite <- X; reflexivity).
          pose proof (sorted_hd S (0,0) _ HS HbS N) as Y. cbn [fst] in Y. fold f in Y. lra.
        - exfalso. assert ((B - P, snd b) <> f) as N by (intros X; apply Q; rewrite <- X; reflexivity).
          pose proof (sorted_hd S (0,0) _ HS HbS N) as Y. cbn [fst] in Y. fold f in Y.
          apply (Hno' f 1%Z Hf). pose proof (Hrange f Hf). lra. }
      right. apply in_or_app. right. left. rewrite <- El. cbn [fst snd]. f_equal. lra. }
  rewrite (polyline_between W (A, snd a) (B, snd b) (rmod x P) HW HAW HBW); auto.
  intros c Hc. cbn [fst]. destruct Hc as [<-|Hc].
  - cbn [fst]. pose proof (Hno' l (-1)%Z Hl). replace (fst l - P) with (fst l + IZR (-1) * P) by lra. auto.
  - apply in_app_or in Hc. destruct Hc as [Hc|[<-|[]]].
    + pose proof (Hno' c 0%Z Hc) as K. replace (fst c + 0 * P) with (fst c) in K by lra. exact K.
    + cbn [fst]. pose proof (Hno' f 1%Z Hf). replace (fst f + P) with (fst f + IZR 1 * P) by lra. auto.
Qed.

Lemma nodup_angles phis row : length row = length phis -> distinct phis ->
  NoDup (map (fun q => rmod (fst q) (2 * PI)) (isort (combine phis row))).
Proof.
  intros HL HD. apply (Permutation_NoDup (l := map (fun q => rmod (fst q) (2 * PI)) (combine phis row))).
  { apply Permutation_map. symmetry. apply isort_perm. }
  rewrite <- (map_map fst (fun a => rmod a (2 * PI))).
  assert (map fst (combine phis row) = phis) as ->.
  { clear HD. revert row HL. induction phis as [|a l IH]; intros [|b r] H; simpl in *; try lia; auto. f_equal. apply IH. lia. }
  apply (NoDup_nth _ 0). rewrite map_length.
  assert (forall i j, (i < j < length phis)%nat ->
            nth i (map (fun a => rmod a (2 * PI)) phis) 0 <> nth j (map (fun a => rmod a (2 * PI)) phis) 0) as G.
  { intros i j Hij E. rewrite !(nth_indep (map _ phis) 0 (rmod 0 (2 * PI))) in E by (rewrite map_length; lia).
    rewrite !(map_nth (fun a => rmod a (2 * PI))) in E.
    pose proof PI_RGT_0 as HP.
    destruct (rmod_cong (nth i phis 0) (2 * PI)) as [k1 E1]; [lra|].
    destruct (rmod_cong (nth j phis 0) (2 * PI)) as [k2 E2]; [lra|].
    apply (HD i j (k2 - k1)%Z Hij). rewrite minus_IZR. lra. }
  intros i j Hi Hj E. destruct (Nat.lt_total i j) as [L|[L|L]]; auto; exfalso.
  - apply (G i j); auto.
  - apply (G j i); auto.
Qed.

Lemma in_pts phis row i : length row = length phis -> (i < length phis)%nat ->
  In (nth i phis 0, nth i row 0) (isort (combine phis row)).
Proof.
  intros HL Hi. apply (Permutation_in _ (Permutation_sym (isort_perm _))).
  rewrite <- combine_nth by auto. apply nth_In. rewrite combine_length. lia.
Qed.

Lemma pts_in phis row c : length row = length phis -> In c (isort (combine phis row)) ->
  exists m, (m < length phis)%nat /\ fst c = nth m phis 0.
Proof.
  intros HL Hc. apply (Permutation_in _ (isort_perm _)) in Hc. destruct c as [u v].
  apply in_combine_l in Hc. apply (In_nth _ _ 0) in Hc. destruct Hc as [m [Hm E]]. exists m. auto.
Qed.

Lemma core_row_spec phis virt row delay u i j d t :
  length row = length phis -> distinct phis -> next_mic phis i j d -> (u < length virt)%nat -> 0 <= t < 1 ->
  (exists k, nth u virt 0 + delay = nth i phis 0 + t * d + IZR k * (2 * PI)) ->
  nth u (core_row phis virt row delay) 0 = (1 - t) * nth i row 0 + t * nth j row 0.
Proof.
  intros HL HD [Hi [Hj [Hd [[kj Ej] Hno]]]] Hu Ht [k Ek]. unfold core_row.
  set (f := fun v => interp_period (2 * PI) (isort (combine phis row)) (rmod (v + delay + PI) (2 * PI) - PI)).
  rewrite (nth_indep _ 0 (f 0)) by (now rewrite map_length). rewrite (map_nth f). unfold f.
  pose proof PI_RGT_0 as HP.
  set (v := nth u virt 0) in *.
  set (x := rmod (v + delay + PI) (2 * PI) - PI).
  assert (exists k1, rmod x (2 * PI) = v + delay + IZR k1 * (2 * PI)) as [k1 E1].
  { destruct (rmod_cong (v + delay + PI) (2 * PI)) as [ka Ea]; [lra|].
    destruct (rmod_cong x (2 * PI)) as [kb Eb]; [lra|].
    exists (ka + kb)%Z. rewrite plus_IZR. unfold x in *. lra. }
  set (A := nth i phis 0 + IZR (k + k1) * (2 * PI)).
  assert (rmod x (2 * PI) = A + t * d) as EX by (rewrite E1, Ek; unfold A; rewrite plus_IZR; lra).
  assert (0 <= t * d < d) as Htd.
  { split; [apply Rmult_le_pos; lra|]. rewrite <- (Rmult_1_l d) at 2. apply Rmult_lt_compat_r; lra. }
  rewrite (interp_spec (2 * PI) _ (nth i phis 0, nth i row 0) (nth j phis 0, nth j row 0) A (A + d)).
  - cbn [snd]. rewrite EX. replace ((A + t * d - A) / (A + d - A)) with t by (field; lra). ring.
  - lra.
  - now apply nodup_angles.
  - now apply in_pts.
  - now apply in_pts.
  - exists (k + k1)%Z. reflexivity.
  - exists (k + k1 - kj)%Z. cbn [fst]. unfold A. rewrite minus_IZR. lra.
  - rewrite EX. lra.
  - lra.
  - intros c k2 Hc. destruct (pts_in _ _ _ HL Hc) as [m [Hm ->]].
    pose proof (Hno m (k2 - (k + k1))%Z Hm) as K. rewrite minus_IZR in K. unfold A. lra.
Qed.

(** ** The stream *)

(** the row of sample [n] *)
Definition rotated_row (phis virt : list R) (fs w : R) (n : nat) (row : list R) : list R :=
  core_row phis virt row (INR n * (w / fs)).

Lemma combine_skipn {A B} n (l : list A) (l' : list B) : skipn n (combine l l') = combine (skipn n l) (skipn n l').
Proof.
  revert l l'. induction n as [|n IH]; intros [|a l] [|b l']; simpl; auto.
  now destruct (skipn n l).
Qed.
Lemma firstn_seq n d k : firstn n (seq d k) = seq d (Nat.min n k).
Proof. revert d k. induction n as [|n IH]; intros d [|k]; simpl; auto. now rewrite IH. Qed.
Lemma skipn_seq n d k : skipn n (seq d k) = seq (d + n) (k - n).
Proof.
  revert d k. induction n as [|n IH]; intros d [|k]; simpl; auto; try (now rewrite Nat.add_0_r).
  rewrite IH. f_equal. lia.
Qed.

Lemma rotate_chunks phis virt fs w num s : (0 < num)%nat -> forall d off, off = INR d * (w / fs) ->
  rotate phis virt fs w off (chunks num s)
  = chunks num (map (fun q => rotated_row phis virt fs w (fst q) (snd q)) (combine (seq d (length s)) s)).
Proof.
  intros Hn. remember (length s) as k eqn:Hk. revert s Hk.
  induction k as [k IH] using lt_wf_ind. intros s Hk d off Hoff.
  destruct s as [|a s']; [subst; reflexivity|].
  set (s := a :: s') in *.
  set (F := fun q : nat * list R => rotated_row phis virt fs w (fst q) (snd q)).
  set (out := map F (combine (seq d k) s)).
  assert (length out = k) as HO by (unfold out; rewrite map_length, combine_length, seq_length; lia).
  assert (0 < k)%nat as Hk0 by (rewrite Hk; simpl; lia).
  rewrite (chunks_step num s) by (auto; discriminate).
  rewrite (chunks_step num out) by (auto; intros E; rewrite E in HO; simpl in HO; lia).
  cbn [rotate].
  set (b := firstn num s). set (n := length b).
  assert (n = Nat.min num k) as En by (unfold n, b; rewrite firstn_length; lia).
  assert (INR n <> 0) as Hn0 by (apply not_0_INR; lia).
  assert (map (fun k => off + INR k * (INR n / fs * w / INR n)) (seq 0 n) = map (fun k => INR (d + k) * (w / fs)) (seq 0 n)) as ->.
  { apply map_ext. intros q. rewrite Hoff, plus_INR. unfold Rdiv.
    replace (INR n * / fs * w * / INR n) with (w * / fs * (INR n * / INR n)) by ring. rewrite Rinv_r by auto. ring. }
  f_equal.
  - unfold out. rewrite firstn_map, combine_firstn, firstn_seq. fold b.
    replace (Nat.min num k) with n by lia.
    unfold n. clear -b. generalize b. clear b. intros b.
    assert (forall e, map (fun q => core_row phis virt (fst q) (snd q))
              (combine b (map (fun k => INR (d + k) * (w / fs)) (seq e (length b))))
            = map F (combine (seq (d + e) (length b)) b)) as G.
    { induction b as [|r b IHb]; intros e; [reflexivity|]. cbn [length seq map combine]. f_equal.
      rewrite IHb. do 2 f_equal. f_equal. lia. }
    rewrite G. rewrite Nat.add_0_r. reflexivity.
  - unfold out. rewrite skipn_map, combine_skipn, skipn_seq.
    replace (k - num)%nat with (length (skipn num s)) by (rewrite skipn_length; lia).
    destruct (le_lt_dec k num) as [L|L].
    { rewrite (skipn_all2 s) by lia. reflexivity. }
    apply (IH (length (skipn num s))); [rewrite skipn_length; lia|reflexivity|].
    replace n with num by lia.
    assert (seq 0 num = seq 0 (num - 1) ++ [num - 1]%nat) as ->.
    { replace num with (S (num - 1)) at 1 by lia. rewrite seq_S. reflexivity. }
    rewrite map_app. cbn [map]. rewrite last_last.
    replace (d + num)%nat with (S (d + (num - 1)))%nat by lia. rewrite S_INR. ring.
Qed.

Lemma constant_rotation_ok phis virt fs w src s : wf_source src s ->
  wf_source (constant_rotation phis virt fs w src)
    (map (fun q => rotated_row phis virt fs w (fst q) (snd q)) (combine (seq 0 (length s)) s)).
Proof.
  intros W num Hn. unfold constant_rotation. rewrite (wf_source_eq src s num W Hn). cbn [blocks fin done].
  rewrite (rotate_chunks phis virt fs w num s Hn 0 0) by (simpl; ring).
  apply delivers_chunks. exact Hn.
Qed.

(** ** Every angle lies between two neighbouring microphones *)
Lemma argmin_R (f : nat -> R) n : (0 < n)%nat -> exists i, (i < n)%nat /\ forall m, (m < n)%nat -> f i <= f m.
Proof.
  induction n as [|n IH]; [lia|]. intros _. destruct n as [|n].
  - exists 0%nat. split; [lia|]. intros m Hm. replace m with 0%nat by lia. lra.
  - destruct IH as [i [Hi H]]; [lia|]. destruct (Rle_dec (f i) (f (S n))) as [L|L].
    + exists i. split; [lia|]. intros m Hm. destruct (Nat.eq_dec m (S n)) as [->|N]; auto. apply H. lia.
    + exists (S n). split; [lia|]. intros m Hm. destruct (Nat.eq_dec m (S n)) as [->|N]; [lra|].
      specialize (H m ltac:(lia)). lra.
Qed.

Lemma next_exists phis x i : (i < length phis)%nat ->
  (forall m, (m < length phis)%nat -> rmod (x - nth i phis 0) (2 * PI) <= rmod (x - nth m phis 0) (2 * PI)) ->
  exists j d t, next_mic phis i j d /\ 0 <= t < 1 /\ t * d = rmod (x - nth i phis 0) (2 * PI)
    /\ exists k, x = nth i phis 0 + t * d + IZR k * (2 * PI).
Proof.
  intros Hi Hmin. pose proof PI_RGT_0 as HP.
  set (de := fun m => rmod (x - nth m phis 0) (2 * PI)) in *.
  assert (forall m, 0 <= de m < 2 * PI) as HR by (intros m; apply rmod_range; lra).
  assert (forall m, exists k, de m = x - nth m phis 0 + IZR k * (2 * PI)) as HC by (intros m; apply rmod_cong; lra).
  destruct (argmin_R (fun m => - de m) (length phis)) as [j [Hj Hmax]]; [lia|].
  set (d := de i + 2 * PI - de j).
  pose proof (HR i) as Ri. pose proof (HR j) as Rj. pose proof (Hmax i Hi) as Mi.
  assert (0 < d) as Hd by (unfold d; lra).
  destruct (HC i) as [ki Ei]. destruct (HC j) as [kj Ej].
  exists j, d, (de i / d). split; [|split; [|split]].
  - split; auto. split; auto. split; [unfold d; lra|]. split.
    + exists (kj - ki - 1)%Z. rewrite !minus_IZR. unfold d. lra.
    + intros m k Hm. destruct (HC m) as [km Em]. pose proof (Hmin m Hm) as M1. fold (de i) in M1. fold (de m) in M1.
      pose proof (Hmax m Hm) as M2.
      assert (nth m phis 0 + IZR k * (2 * PI) - nth i phis 0 = de i - de m + IZR (km - ki + k) * (2 * PI)) as E
        by (rewrite plus_IZR, minus_IZR; lra).
      intros [A B].
      destruct (Z_le_gt_dec (km - ki + k) 0) as [L|L].
      * apply IZR_le in L. assert (IZR (km - ki + k) * (2 * PI) <= 0) by (rewrite <- (Rmult_0_l (2 * PI)); apply Rmult_le_compat_r; lra). lra.
      * assert (1 <= km - ki + k)%Z as L' by lia. apply IZR_le in L'.
        assert (1 * (2 * PI) <= IZR (km - ki + k) * (2 * PI)) by (apply Rmult_le_compat_r; lra). unfold d in *. lra.
  - split; [apply Rmult_le_pos; [lra|left; apply Rinv_0_lt_compat; lra]|].
    apply (Rmult_lt_reg_r d); [lra|]. unfold Rdiv. rewrite Rmult_assoc, Rinv_l by lra. unfold d. lra.
  - unfold Rdiv. rewrite Rmult_assoc, Rinv_l by lra. fold (de i). lra.
  - exists (- ki)%Z. unfold Rdiv. rewrite Rmult_assoc, Rinv_l by lra. rewrite opp_IZR. lra.
Qed.

Lemma next_at phis i : (i < length phis)%nat -> exists j d, next_mic phis i j d.
Proof.
  intros Hi. destruct (next_exists phis (nth i phis 0) i Hi) as [j [d [t [H _]]]]; [|eauto].
  intros m Hm. pose proof PI_RGT_0 as HP. rewrite (rmod_unique _ _ 0 0); [|lra|lra|lra].
  apply rmod_range. lra.
Qed.

Lemma next_somewhere phis x : (0 < length phis)%nat ->
  exists i j d t, next_mic phis i j d /\ 0 <= t < 1 /\ exists k, x = nth i phis 0 + t * d + IZR k * (2 * PI).
Proof.
  intros H. destruct (argmin_R (fun m => rmod (x - nth m phis 0) (2 * PI)) (length phis) H) as [i [Hi Hm]].
  destruct (next_exists phis x i Hi Hm) as [j [d [t [A [B [_ C]]]]]]. exists i, j, d, t. auto.
Qed.

(** a virtual microphone at the angle of a real one *)
Lemma core_row_aligned phis virt row delay u i :
  length row = length phis -> distinct phis -> (u < length virt)%nat -> (i < length phis)%nat ->
  (exists k, nth u virt 0 + delay = nth i phis 0 + IZR k * (2 * PI)) ->
  nth u (core_row phis virt row delay) 0 = nth i row 0.
Proof.
  intros HL HD Hu Hi [k Ek]. destruct (next_at phis i Hi) as [j [d Hn]].
  rewrite (core_row_spec phis virt row delay u i j d 0); auto; [ring|lra|].
  exists k. rewrite Ek. ring.
Qed.
