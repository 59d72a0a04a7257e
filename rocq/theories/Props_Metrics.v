(* Property C49: MetricEvaluator. *)
From Coq Require Import List Arith Lia Bool Reals Lra.
From Verif Require Import Stream Deconv Polygon Grids Das Metrics.
Import ListNotations.
Local Open Scope R_scope.

(* C49, circles: with adaptive_sector_size, without border and without the
   nearest-point default, two targets in the same height never select the same
   grid point. *)
Theorem C49_disjoint_partial : forall tol r pts ts t q mt mq i,
  0 <= r -> 0 <= tol -> pts <> [] -> In t ts -> In q ts ->
  pz t = pz q -> (px t, py t) <> (px q, py q) ->
  target_mask true false false tol r pts ts t = inl mt ->
  target_mask true false false tol r pts ts q = inl mq ->
  nth i mt false = true -> nth i mq false = true -> False.
Proof.
  intros tol r pts ts t q mt mq i Hr Ht Hp It Iq Hz Hne Et Eq H1 H2.
  destruct (circ_contains_spec false tol false (px t) (py t) (radius true r ts t) pts Hp) as (l1 & E1 & L1 & S1 & _).
  destruct (circ_contains_spec false tol false (px q) (py q) (radius true r ts q) pts Hp) as (l2 & E2 & L2 & S2 & _).
  unfold target_mask in Et, Eq. rewrite E1 in Et. rewrite E2 in Eq. injection Et as <-. injection Eq as <-.
  assert (i < length pts)%nat as Hi.
  { rewrite <- L1. destruct (Nat.lt_ge_cases i (length l1)); auto. rewrite nth_overflow in H1 by auto. discriminate. }
  apply (S1 (or_intror eq_refl) i (0, 0, 0) Hi) in H1. apply (S2 (or_intror eq_refl) i (0, 0, 0) Hi) in H2.
  apply (adaptive_disjoint r ts t q (nth i pts (0, 0, 0))); auto; lra.
Qed.
Print Assumptions C49_disjoint_partial.

Example C49_disjoint_example : exists m1 m2,
  let ts := [(0, 0, 0); (4, 0, 0)] in let pts := [(0, 1, 0); (4, 1, 0); (2, 0, 0)] in
  target_mask true false false 0 3 pts ts (0, 0, 0) = inl m1 /\
  target_mask true false false 0 3 pts ts (4, 0, 0) = inl m2 /\
  nth 0 m1 false = true /\ nth 1 m2 false = true.
Proof.
  set (ts := [(0, 0, 0); (4, 0, 0)]). set (pts := [(0, 1, 0); (4, 1, 0); (2, 0, 0)]).
  assert (sqrt 16 = 4) as S4 by (replace 16 with (4 * 4) by ring; apply sqrt_square; lra).
  assert (radius true 3 ts (0, 0, 0) = 2) as R1.
  { unfold radius, ts, nearest, cdist3, px, py, pz. cbn [fst snd].
    replace ((0 - 0) * (0 - 0) + (0 - 0) * (0 - 0) + (0 - 0) * (0 - 0)) with 0 by ring.
    replace ((0 - 4) * (0 - 4) + (0 - 0) * (0 - 0) + (0 - 0) * (0 - 0)) with 16 by ring.
    rewrite sqrt_0, S4. destruct (Req_EM_T 0 0); [|lra]. destruct (Req_EM_T 4 0); [lra|].
    rewrite Rmin_right; lra. }
  assert (radius true 3 ts (4, 0, 0) = 2) as R2.
  { unfold radius, ts, nearest, cdist3, px, py, pz. cbn [fst snd].
    replace ((4 - 0) * (4 - 0) + (0 - 0) * (0 - 0) + (0 - 0) * (0 - 0)) with 16 by ring.
    replace ((4 - 4) * (4 - 4) + (0 - 0) * (0 - 0) + (0 - 0) * (0 - 0)) with 0 by ring.
    rewrite sqrt_0, S4. destruct (Req_EM_T 4 0); [lra|]. destruct (Req_EM_T 0 0); [|lra].
    rewrite Rmin_right; lra. }
  destruct (circ_contains_spec false 0 false 0 0 2 pts) as (l1 & E1 & L1 & S1 & _); [discriminate|].
  destruct (circ_contains_spec false 0 false 4 0 2 pts) as (l2 & E2 & L2 & S2 & _); [discriminate|].
  exists l1, l2. unfold target_mask. rewrite R1, R2. unfold px, py; cbn [fst snd].
  split; [exact E1|]. split; [exact E2|]. split.
  - apply (S1 (or_intror eq_refl) 0%nat (0, 0, 0)); [simpl; lia|]. unfold Rsqr, px, py. simpl. lra.
  - apply (S2 (or_intror eq_refl) 1%nat (0, 0, 0)); [simpl; lia|]. unfold Rsqr, px, py. simpl. lra.
Qed.

(* C49, data: with multi_assignment any sequence of metrics leaves the data
   unchanged and every metric gives what it gives on the original data. *)
Theorem C49_data_partial : forall adaptive border default tol r rank pts ts lp tgt ms data,
  calls adaptive true border default tol r rank pts ts lp tgt ms data
  = (map (fun m => fst (call adaptive true border default tol r rank pts ts lp tgt m data)) ms, data).
Proof. intros. now apply calls_multi. Qed.
Print Assumptions C49_data_partial.

(* Without multi_assignment, on a grid with one axis, every grid point counts
   for the first target whose sector contains it. *)
Theorem C49_first_target : forall adaptive border default tol r pts ts data,
  pts <> [] -> (forall row, In row data -> length row = length pts) ->
  exists masks res data',
    map (target_mask adaptive border default tol r pts ts) ts = map inl masks /\
    integrate_sectors adaptive false border default tol r 1 pts ts data = (inl res, data') /\
    length res = length data /\
    forall f k, (f < length data)%nat -> (k < length ts)%nat ->
      nth k (nth f res []) 0
      = rsum (map (fun i => if (nth i (nth k masks []) false
                                && negb (existsb (fun m => nth i m false) (firstn k masks)))%bool
                            then nth i (nth f data []) 0 else 0) (seq 0 (length (nth f data [])))).
Proof.
  intros adaptive border default tol r pts ts data Hp Hd.
  destruct (target_masks_exist adaptive border default tol r pts ts ts Hp) as (masks & E & L & H).
  destruct (integrate_single adaptive border default tol r pts ts masks data E H Hd) as (res & E1 & E2 & E3).
  exists masks, res. eexists. split; [exact E|]. split; [exact E1|]. split; [exact E2|]. exact E3.
Qed.
Print Assumptions C49_first_target.

Definition one_point : list pt := [(0, 0, 0)].

Lemma one_point_mask adaptive border tol r ts t : exists m, length m = 1%nat /\ nth 0 m false = true /\
  target_mask adaptive border true tol r one_point ts t = inl m.
Proof.
  destruct (circ_contains_spec border tol true (px t) (py t) (radius adaptive r ts t) one_point)
    as (l & E & L & S1 & S2); [discriminate|].
  exists l. split; [exact L|]. split; [|exact E].
  destruct (Rlt_dec (Rsqr (px (0,0,0) - px t) + Rsqr (py (0,0,0) - py t))
                    (Rsqr (radius adaptive r ts t) + (if border then tol else - tol))) as [H|H].
  - apply (S1 (or_introl (ex_intro _ (0,0,0) (conj (or_introl eq_refl) H))) 0%nat (0,0,0)); auto.
  - destruct S2 as (k & Hk & Hi & _); auto.
    + intros p [<-|[]]. exact H.
    + apply Hi. simpl in Hk. lia.
Qed.

Lemma one_point_mask_eq adaptive border tol r ts t :
  target_mask adaptive border true tol r one_point ts t = inl [true].
Proof.
  destruct (one_point_mask adaptive border tol r ts t) as ([|b [|]] & L & H & E); try discriminate.
  simpl in H. subst. exact E.
Qed.

(* C49 is false without multi_assignment: the first evaluation sets the user's
   data to zero and the second gives another result. *)
Theorem C49_data_refuted : forall adaptive border tol r, exists pts ts data res1 res2 data',
  integrate_sectors adaptive false border true tol r 1 pts ts data = (inl res1, data') /\
  data' <> data /\
  fst (integrate_sectors adaptive false border true tol r 1 pts ts data') = inl res2 /\ res1 <> res2.
Proof.
  intros adaptive border tol r. exists one_point, [(0, 0, 0)], [[1]], [[1 + 0]], [[0 + 0]], [[0]].
  simpl. rewrite one_point_mask_eq. simpl.
  split; [reflexivity|]. split; [intros H; injection H; lra|]. split; [reflexivity|].
  intros H. injection H. lra.
Qed.
Print Assumptions C49_data_refuted.

(* Without multi_assignment a RectGrid (two axes) is an IndexError. *)
Theorem C49_rectgrid_refuted : forall adaptive border tol default r rank pts ts t data row,
  rank <> 1%nat -> pts <> [] ->
  fst (integrate_sectors adaptive false border default tol r rank pts (t :: ts) (row :: data)) = inr IndexError.
Proof.
  intros adaptive border tol default r rank pts ts t data row Hr Hp. simpl.
  destruct (circ_contains_spec border tol default (px t) (py t) (radius adaptive r (t :: ts) t) pts Hp)
    as (m & E & _).
  unfold target_mask. rewrite E. apply Nat.eqb_neq in Hr. rewrite Hr. reflexivity.
Qed.
Print Assumptions C49_rectgrid_refuted.

(* Circles overlap when targets differ in height only: distances are taken in
   space, circles in the plane. *)
Theorem C49_height_refuted : forall border tol, exists r pts ts t q m1 m2, 0 < r /\
  In t ts /\ In q ts /\ t <> q /\
  target_mask true border true tol r pts ts t = inl m1 /\ target_mask true border true tol r pts ts q = inl m2 /\
  nth 0 m1 false = true /\ nth 0 m2 false = true.
Proof.
  intros border tol. exists 1, one_point, [(0, 0, 0); (0, 0, 1)], (0, 0, 0), (0, 0, 1), [true], [true].
  split; [lra|]. split; [left; auto|]. split; [right; left; auto|].
  split; [intros H; injection H; lra|]. rewrite !one_point_mask_eq. auto.
Qed.
Print Assumptions C49_height_refuted.

(* With the default settings (border included) a grid point in the middle of
   two targets counts for both. *)
Theorem C49_border_refuted : forall tol, 0 < tol -> exists r pts ts t q m1 m2, 0 < r /\
  In t ts /\ In q ts /\ pz t = pz q /\ px t <> px q /\
  target_mask true true false tol r pts ts t = inl m1 /\ target_mask true true false tol r pts ts q = inl m2 /\
  nth 0 m1 false = true /\ nth 0 m2 false = true.
Proof.
  intros tol Ht. set (ts := [(-1, 0, 0); (1, 0, 0)]).
  assert (sqrt 4 = 2) as S4 by (replace 4 with (2 * 2) by ring; apply sqrt_square; lra).
  assert (radius true 5 ts (-1, 0, 0) = 1) as R1.
  { unfold radius, ts, nearest, cdist3, px, py, pz. cbn [fst snd].
    replace ((-1 - -1) * (-1 - -1) + (0 - 0) * (0 - 0) + (0 - 0) * (0 - 0)) with 0 by ring.
    replace ((-1 - 1) * (-1 - 1) + (0 - 0) * (0 - 0) + (0 - 0) * (0 - 0)) with 4 by ring.
    rewrite sqrt_0, S4. destruct (Req_EM_T 0 0); [|lra]. destruct (Req_EM_T 2 0); [lra|].
    rewrite Rmin_right; lra. }
  assert (radius true 5 ts (1, 0, 0) = 1) as R2.
  { unfold radius, ts, nearest, cdist3, px, py, pz. cbn [fst snd].
    replace ((1 - -1) * (1 - -1) + (0 - 0) * (0 - 0) + (0 - 0) * (0 - 0)) with 4 by ring.
    replace ((1 - 1) * (1 - 1) + (0 - 0) * (0 - 0) + (0 - 0) * (0 - 0)) with 0 by ring.
    rewrite sqrt_0, S4. destruct (Req_EM_T 2 0); [lra|]. destruct (Req_EM_T 0 0); [|lra].
    rewrite Rmin_right; lra. }
  destruct (circ_contains_spec true tol false (-1) 0 1 one_point) as (l1 & E1 & L1 & S1 & _); [discriminate|].
  destruct (circ_contains_spec true tol false 1 0 1 one_point) as (l2 & E2 & L2 & S2 & _); [discriminate|].
  exists 5, one_point, ts, (-1, 0, 0), (1, 0, 0), l1, l2.
  split; [lra|]. split; [left; auto|]. split; [right; left; auto|]. split; [reflexivity|].
  split; [unfold px; simpl; lra|]. unfold target_mask. rewrite R1, R2. unfold px, py. cbn [fst snd].
  split; [exact E1|]. split; [exact E2|]. split.
  - apply (S1 (or_intror eq_refl) 0%nat (0, 0, 0)); [simpl; lia|]. unfold Rsqr, px, py. simpl. lra.
  - apply (S2 (or_intror eq_refl) 0%nat (0, 0, 0)); [simpl; lia|]. unfold Rsqr, px, py. simpl. lra.
Qed.
Print Assumptions C49_border_refuted.

(* C49, values: with multi_assignment the three metrics are level differences
   of the powers in the sectors of the targets. *)
Lemma row_values adaptive border default tol r rank pts ts l : forall masks row,
  map (target_mask adaptive border default tol r pts ts) l = map inl masks ->
  row_loop adaptive true border default tol r rank pts ts l row = (inl (map (fun m => isum m row) masks), row).
Proof.
  induction l as [|t l IH]; intros [|m masks] row H; try discriminate; [reflexivity|].
  simpl in H. injection H as E H. simpl. rewrite E, (IH masks row H). reflexivity.
Qed.

Lemma sector_values adaptive border default tol r rank pts ts masks data :
  map (target_mask adaptive border default tol r pts ts) ts = map inl masks ->
  integrate_sectors adaptive true border default tol r rank pts ts data
  = (inl (map (fun row => map (fun m => isum m row) masks) data), data).
Proof.
  intros H. induction data as [|row data IH]; [reflexivity|]. simpl.
  rewrite (row_values _ _ _ _ _ _ _ _ _ masks row H), IH. reflexivity.
Qed.

Lemma levels_nth lp a b f k : (f < length a)%nat -> length a = length b ->
  length (nth f a []) = length (nth f b []) -> (k < length (nth f a []))%nat ->
  nth k (nth f (levels2 lp a b) []) 0 = lp (nth k (nth f a []) 0) - lp (nth k (nth f b []) 0).
Proof.
  intros Hf HL HR Hk. unfold levels2.
  set (g := fun p : list R * list R => map (fun q => lp (fst q) - lp (snd q)) (combine (fst p) (snd p))).
  rewrite (nth_indep _ [] (g ([], []))) by (rewrite map_length, combine_length; lia).
  rewrite (map_nth g), combine_nth by auto. unfold g. cbn [fst snd].
  set (h := fun q : R * R => lp (fst q) - lp (snd q)).
  rewrite (nth_indep _ 0 (h (0, 0))) by (rewrite map_length, combine_length; lia).
  rewrite (map_nth h), combine_nth by auto. reflexivity.
Qed.

Definition zero_level (x : list R) := [rsum x].

Theorem C49_values_partial : forall adaptive border default tol r rank pts ts lp tgt data,
  pts <> [] -> ts <> [] -> (forall row, In row data -> length row = length pts) ->
  length tgt = length data -> (forall row, In row tgt -> length row = length ts) ->
  exists masks,
    map (target_mask adaptive border default tol r pts ts) ts = map inl masks /\
    let power f k := rsum (map (fun i => if nth i (nth k masks []) false then nth i (nth f data []) 0 else 0)
                               (seq 0 (length pts))) in
    (exists res, fst (call adaptive true border default tol r rank pts ts lp tgt Specific data) = inl res /\
       forall f k, (f < length data)%nat -> (k < length ts)%nat ->
         nth k (nth f res []) 0 = lp (power f k) - lp (nth k (nth f tgt []) 0)) /\
    (exists res, fst (call adaptive true border default tol r rank pts ts lp tgt Overall data) = inl res /\
       forall f, (f < length data)%nat ->
         nth 0 (nth f res []) 0 = lp (rsum (nth f data [])) - lp (rsum (nth f tgt []))) /\
    (exists res, fst (call adaptive true border default tol r rank pts ts lp tgt Inverse data) = inl res /\
       forall f, (f < length data)%nat ->
         nth 0 (nth f res []) 0
         = lp (rsum (map (power f) (seq 0 (length ts)))) - lp (rsum (nth f data []))).
Proof.
  intros adaptive border default tol r rank pts ts lp tgt data Hp Ht Hd HL Hr.
  destruct (target_masks_exist adaptive border default tol r pts ts ts Hp) as (masks & E & L & H).
  exists masks. split; [exact E|].
  assert (P : forall f k, (f < length data)%nat -> (k < length ts)%nat ->
    isum (nth k masks []) (nth f data []) = rsum (map (fun i => if nth i (nth k masks []) false then nth i (nth f data []) 0 else 0)
                               (seq 0 (length pts)))).
  { intros f k Hf Hk. rewrite (isum_sel 0 lp).
    - unfold sel_sum. now rewrite (Hd (nth f data []) (nth_In _ _ Hf)).
    - rewrite (Hd (nth f data []) (nth_In data [] Hf)). apply H, nth_In. congruence. }
  assert (V : forall f, (f < length data)%nat ->
    nth f (map (fun row => map (fun m => isum m row) masks) data) [] = map (fun m => isum m (nth f data [])) masks).
  { intros f Hf. set (g := fun row => map (fun m => isum m row) masks).
    rewrite (nth_indep _ [] (g [])) by (rewrite map_length; lia). now rewrite (map_nth g). }
  assert (W : forall f k, (f < length data)%nat -> (k < length ts)%nat ->
    nth k (map (fun m => isum m (nth f data [])) masks) 0 = isum (nth k masks []) (nth f data [])).
  { intros f k Hf Hk. set (g := fun m => isum m (nth f data [])).
    rewrite (nth_indep _ 0 (g [])) by (rewrite map_length; lia). now rewrite (map_nth g). }
  assert (S : forall f (l : list (list R)), (f < length l)%nat -> nth f (map zero_level l) [] = [rsum (nth f l [])]).
  { intros f l Hf. rewrite (nth_indep _ [] (zero_level [])) by (rewrite map_length; lia). now rewrite (map_nth zero_level). }
  cbv zeta. unfold call. rewrite (sector_values _ _ _ _ _ rank _ _ masks data E).
  split; [|split]; (eexists; split; [reflexivity|]).
  - intros f k Hf Hk.
    assert (Lt : length (nth f tgt []) = length ts) by (apply Hr, nth_In; lia).
    rewrite levels_nth; rewrite ?map_length; try lia; rewrite V by assumption.
    + now rewrite W, P by assumption.
    + rewrite map_length. lia.
    + rewrite map_length. lia.
  - intros f Hf. fold zero_level.
    rewrite levels_nth; rewrite ?map_length; try lia; rewrite !S by lia; simpl; auto.
  - intros f Hf. fold zero_level.
    rewrite levels_nth; rewrite ?map_length; try lia; rewrite !S by (rewrite ?map_length; lia); simpl; auto.
    do 3 f_equal. rewrite V by assumption.
    apply (nth_ext _ _ 0 0); [rewrite !map_length, seq_length; lia|]. intros k Hk. rewrite map_length in Hk.
    rewrite W, TimeBeam.nth_map_seq by lia. apply P; lia.
Qed.
Print Assumptions C49_values_partial.

Example C49_values_example : exists res,
  fst (call true true true true 0 1 1 one_point one_point (fun x => x) [[5]] Specific [[3]]) = inl res /\
  nth 0 (nth 0 res []) 0 = -2.
Proof.
  eexists. simpl. rewrite one_point_mask_eq. split; [reflexivity|]. unfold isum. simpl. lra.
Qed.

(* Without multi_assignment the inverse level error compares with the data
   after the sectors have been set to zero. *)
Theorem C49_inverse_refuted : forall adaptive border tol r lp, exists pts ts tgt data,
  rsum (nth 0 data []) = 1 /\
  fst (call adaptive false border true tol r 1 pts ts lp tgt Inverse data) = inl [[lp 1 - lp 0]].
Proof.
  intros adaptive border tol r lp. exists one_point, one_point, [[1]], [[1]].
  split; [simpl; lra|]. simpl. rewrite one_point_mask_eq. simpl. unfold isum. simpl.
  unfold levels2. simpl. replace (1 + 0 + 0) with 1 by lra. replace (0 + 0) with 0 by lra.
  reflexivity.
Qed.
Print Assumptions C49_inverse_refuted.
