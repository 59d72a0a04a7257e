(** Properties C123 (virtual rotation of a plane array with inverse distance
    weighting), C124 (changing the settings of a spatial interpolator) and C47
    (the matrix Q of the conversions). *)
From Coq Require Import List Arith Lia ZArith Bool Reals Lra Sorting.Permutation.
From Verif Require Import Stream Environ Tracker Rotation Idw.
Import ListNotations.
Local Open Scope R_scope.

(** For every block size one row per sample; in row [n] the virtual microphone
    [u], turned by [n * om / fs] about the axis and put into the plane z = 0 of
    the coordinates given by [Q], gets the mean of the [num] nearest real
    microphones weighted by the inverse [w]-th power of the distance, or the
    channel of the nearest one if some is closer than a millimetre. *)
Theorem C123_stream ord num w Q mpos virt fs om src s : argsort_ok ord -> (1 <= num)%Z ->
  wf_source src s -> Forall (fun row => length row = length mpos) s -> (0 < length mpos)%nat ->
  (length virt = length mpos \/ length virt = 1)%nat ->
  exists out, wf_source (idw_rotation ord num w Q mpos virt fs om src) out /\ length out = length s
    /\ forall n u, (n < length s)%nat -> (u < length virt)%nat ->
         let D := fun i => dist3 (in_plane (turned (INR n * (om / fs)) (mapply Q (nth u virt (V3 0 0 0)))))
                                 (mapply Q (nth i mpos (V3 0 0 0))) in
         ((exists i, (i < length mpos)%nat /\ D i < 1 / 1000) ->
            exists i, (i < length mpos)%nat /\ (forall j, (j < length mpos)%nat -> D i <= D j)
              /\ nth u (nth n out []) 0 = nth i (nth n s []) 0)
         /\ ((forall i, (i < length mpos)%nat -> 1 / 1000 <= D i) ->
            idw_mean (Z.to_nat num) w D (nth n s []) (nth u (nth n out []) 0)).
Proof.
  intros H Hn W HF H0 HV. eexists. split; [now apply idw_rotation_ok; eauto|].
  split; [rewrite map_length, combine_length, seq_length; lia|].
  intros n u Hk Hu.
  set (F := fun q : nat * list R =>
        get_row (idw_row ord num w (length virt) (new_coords Q mpos virt) (snd q) (Some (INR (fst q) * (om / fs))))).
  rewrite (nth_indep _ [] (F (0%nat, []))) by (rewrite map_length, combine_length, seq_length; lia).
  rewrite (map_nth F). rewrite combine_nth by (now rewrite seq_length). rewrite seq_nth by lia.
  unfold F. cbn [fst snd]. rewrite Nat.add_0_l.
  destruct (idw_row_spec ord num w Q mpos virt (nth n s []) (Some (INR n * (om / fs)))) as [out [E [_ K]]]; auto.
  { rewrite Forall_forall in HF. apply HF. now apply nth_In. }
  rewrite E. cbn [get_row]. exact (K u Hu).
Qed.

(** the mean stays within the range of the channels, so a uniform field is kept *)
Theorem C123_range ord num w Q mpos virt fs om src s lo hi : argsort_ok ord -> (1 <= num)%Z ->
  wf_source src s -> Forall (fun row => length row = length mpos) s -> (0 < length mpos)%nat ->
  (length virt = length mpos \/ length virt = 1)%nat ->
  exists out, wf_source (idw_rotation ord num w Q mpos virt fs om src) out /\ length out = length s
    /\ forall n u, (n < length s)%nat -> (u < length virt)%nat ->
         (forall i, (i < length mpos)%nat -> lo <= nth i (nth n s []) 0 <= hi) ->
         lo <= nth u (nth n out []) 0 <= hi.
Proof.
  intros H Hn W HF H0 HV. destruct (C123_stream ord num w Q mpos virt fs om src s) as [out [W' [L K]]]; auto.
  exists out. split; [exact W'|]. split; [exact L|]. intros n u Hk Hu HB.
  assert (length (nth n s []) = length mpos) as HL by (rewrite Forall_forall in HF; apply HF; now apply nth_In).
  destruct (K n u Hk Hu) as [K1 K2].
  set (D := fun i => dist3 (in_plane (turned (INR n * (om / fs)) (mapply Q (nth u virt (V3 0 0 0)))))
                                 (mapply Q (nth i mpos (V3 0 0 0)))) in *.
  destruct (argmin_R D (length mpos) H0) as [i [Hi Hmin]].
  destruct (Rlt_dec (D i) (1 / 1000)) as [Q1|Q1].
  - destruct K1 as [j [Hj [_ ->]]]; [now exists i|]. now apply HB.
  - assert (forall j, (j < length mpos)%nat -> 1 / 1000 <= D j) as Q2 by (intros j Hj; specialize (Hmin j Hj); lra).
    apply (idw_mean_range (Z.to_nat num) w D (nth n s [])); auto; [lia|lia|].
    intros j Hj. apply HB. lia.
Qed.

Lemma dist3_0 p q : dist3 p q = 0 <-> p = q.
Proof.
  destruct p as [a b c], q as [x y z]. unfold dist3, vnorm, vsub, vdot. cbn [v3x v3y v3z].
  assert (forall t, 0 <= t * t) as S by (intros t; apply Rle_0_sqr).
  pose proof (S (a - x)) as Sa. pose proof (S (b - y)) as Sb. pose proof (S (c - z)) as Sc.
  split.
  - intros E. apply sqrt_eq_0 in E; [|lra].
    assert (forall t, t * t = 0 -> t = 0) as S0 by (intros t Et; apply Rmult_integral in Et; tauto).
    assert (a - x = 0) by (apply S0; lra). assert (b - y = 0) by (apply S0; lra). assert (c - z = 0) by (apply S0; lra).
    f_equal; lra.
  - intros E. injection E as -> -> ->. replace (_ + _ + _) with 0 by ring. apply sqrt_0.
Qed.

(** Microphones in the plane z = 0 (after [Q]) at different places: a virtual
    microphone that is at the place of a real one gets exactly that channel. *)
Theorem C123_aligned_partial ord num w Q mpos virt row delay : argsort_ok ord -> (1 <= num)%Z ->
  length row = length mpos -> (length virt = length mpos \/ length virt = 1)%nat ->
  (forall i, (i < length mpos)%nat -> v3z (mapply Q (nth i mpos (V3 0 0 0))) = 0) ->
  (forall i j, (i < j < length mpos)%nat -> mapply Q (nth i mpos (V3 0 0 0)) <> mapply Q (nth j mpos (V3 0 0 0))) ->
  forall u i, (u < length virt)%nat -> (i < length mpos)%nat ->
  turned (match delay with Some d => d | None => 0 end) (mapply Q (nth u virt (V3 0 0 0))) = mapply Q (nth i mpos (V3 0 0 0)) ->
  exists out, idw_row ord num w (length virt) (new_coords Q mpos virt) row delay = inr out
    /\ length out = length virt /\ nth u out 0 = nth i row 0.
Proof.
  intros H Hn HL HV HZ HD u i Hu Hi Ha.
  destruct (idw_row_spec ord num w Q mpos virt row delay) as [out [E [L K]]]; auto; [lia|].
  exists out. split; [exact E|]. split; [exact L|]. destruct (K u Hu) as [K1 _]. rewrite Ha in K1.
  assert (in_plane (mapply Q (nth i mpos (V3 0 0 0))) = mapply Q (nth i mpos (V3 0 0 0))) as EP.
  { pose proof (HZ i Hi) as Z. destruct (mapply Q (nth i mpos (V3 0 0 0))) as [a b c]. cbn in Z. rewrite Z. reflexivity. }
  rewrite EP in K1.
  assert (forall q, 0 <= dist3 q q) as P0 by (intros q; unfold dist3, vnorm; apply sqrt_pos).
  destruct K1 as [k [Hk [Hmin Ev]]].
  { exists i. split; auto. rewrite (proj2 (dist3_0 _ _) eq_refl). lra. }
  specialize (Hmin i Hi). rewrite (proj2 (dist3_0 _ (mapply Q (nth i mpos (V3 0 0 0)))) eq_refl) in Hmin.
  assert (dist3 (mapply Q (nth i mpos (V3 0 0 0))) (mapply Q (nth k mpos (V3 0 0 0))) = 0) as E0.
  { apply Rle_antisym; [exact Hmin|]. unfold dist3, vnorm. apply sqrt_pos. }
  apply dist3_0 in E0. rewrite Ev. f_equal.
  destruct (Nat.lt_total k i) as [C|[C|C]]; auto; exfalso.
  - apply (HD k i); auto.
  - apply (HD i k); auto.
Qed.

(** In any other plane this fails: the distances then contain the height of the
    array.  Virtual array equal to the real one, no rotation. *)
Definition mics_z1 : list v3 := [V3 1 0 1; V3 0 1 1; V3 (-2) 0 1].
Definition idm : m3 := M3 (V3 1 0 0) (V3 0 1 0) (V3 0 0 1).

Lemma idm_apply p : mapply idm p = p.
Proof. destruct p as [x y z]. unfold mapply, idm, vdot. cbn [row0 row1 row2 v3x v3y v3z]. f_equal; ring. Qed.

Theorem C123_plane_refuted : exists mpos row, length row = length mpos
  /\ (forall i, (i < length mpos)%nat -> v3z (nth i mpos (V3 0 0 0)) = 1)
  /\ forall ord, argsort_ok ord ->
       exists out, idw_row ord 3 2 (length mpos) (new_coords idm mpos mpos) row None = inr out /\ out <> row.
Proof.
  exists mics_z1, [1; 0; 0]. split; [reflexivity|]. split.
  { intros i Hi. simpl in Hi. destruct i as [|[|[|i]]]; [reflexivity|reflexivity|reflexivity|lia]. }
  intros ord H.
  destruct (idw_row_spec ord 3 2 idm mics_z1 mics_z1 [1; 0; 0] None) as [out [E [L K]]]; auto; [lia|simpl; lia|].
  exists out. split; [exact E|]. intros ->. destruct (K 0%nat) as [_ K2]; [simpl; lia|].
  change (nth 0 mics_z1 (V3 0 0 0)) with (V3 1 0 1) in K2. change (nth 0 [1; 0; 0] 0) with 1 in K2.
  set (D := fun i => dist3 (in_plane (turned 0 (mapply idm (V3 1 0 1)))) (mapply idm (nth i mics_z1 (V3 0 0 0)))) in K2.
  destruct K2 as [c [C1 [C2 [C3 [_ E2]]]]].
  { intros i Hi. unfold D. rewrite !idm_apply. unfold in_plane, turned, dist3, vnorm, vsub, vdot. cbn [v3x v3y v3z].
    rewrite <- (sqrt_square (1 / 1000)) by lra. apply sqrt_le_1_alt.
    assert (v3z (nth i mics_z1 (V3 0 0 0)) = 1) as ->.
    { simpl in Hi. destruct i as [|[|[|i]]]; [reflexivity|reflexivity|reflexivity|lia]. }
    pose proof (Rle_0_sqr (1 * cos 0 - 0 * sin 0 - v3x (nth i mics_z1 (V3 0 0 0)))) as S1.
    pose proof (Rle_0_sqr (1 * sin 0 + 0 * cos 0 - v3y (nth i mics_z1 (V3 0 0 0)))) as S2.
    unfold Rsqr in S1, S2. lra. }
  change (Z.to_nat 3) with 3%nat in C2. cbn [length] in C2, C3.
  change (Nat.min 3 3) with 3%nat in C2.
  assert (Permutation c [0; 1; 2]%nat) as P.
  { apply NoDup_Permutation_bis; [exact C1|simpl; lia|]. intros k Hk. specialize (C3 k Hk). simpl. lia. }
  assert (forall f : nat -> R, rsum (map f c) = f 0%nat + f 1%nat + f 2%nat) as G.
  { intros f. clear -P.
    assert (forall l l', Permutation l l' -> rsum l = rsum l') as PS.
    { intros l l' Q. induction Q; cbn [rsum fold_right] in *; try fold (rsum l); try fold (rsum l') ; unfold rsum in *; cbn [fold_right] in *; lra. }
    rewrite (PS _ _ (Permutation_map f P)). cbn [map rsum fold_right]. ring. }
  rewrite !G in E2. cbn [nth] in E2.
  pose proof (Rinv_0_lt_compat _ (Rpower_pos (D 1%nat) 2)) as P1.
  pose proof (Rinv_0_lt_compat _ (Rpower_pos (D 2%nat) 2)) as P2.
  unfold Rdiv in E2. lra.
Qed.

(** The virtual array must have as many microphones as the real one, or one. *)
Theorem C123_count_refuted : exists mpos virt row, length row = length mpos /\ (0 < length virt < length mpos)%nat
  /\ forall ord delay, argsort_ok ord ->
       idw_row ord 3 2 (length virt) (new_coords idm mpos virt) row delay = inl ValueError.
Proof.
  exists mics_z1, [V3 1 0 1; V3 0 1 1], [1; 0; 0]. split; [reflexivity|]. split; [simpl; lia|].
  intros ord delay _. reflexivity.
Qed.

(** ** C124 *)

(** the values assigned last in a history *)
Definition last_mics (h : list event) (d : list v3) := fold_left (fun a e => match e with SetMics m => m | _ => a end) h d.
Definition last_virt (h : list event) (d : option (list v3)) := fold_left (fun a e => match e with SetVirt v => Some v | _ => a end) h d.
Definition last_Q (h : list event) (d : m3) := fold_left (fun a e => match e with SetQ q => q | _ => a end) h d.
Definition last_num (h : list event) (d : Z) := fold_left (fun a e => match e with SetNum n => n | _ => a end) h d.
Definition last_w (h : list event) (d : R) := fold_left (fun a e => match e with SetW w => w | _ => a end) h d.

Lemma after_settings h s : si_mics (after h s) = last_mics h (si_mics s) /\ si_Q (after h s) = last_Q h (si_Q s)
  /\ si_num (after h s) = last_num h (si_num s) /\ si_w (after h s) = last_w h (si_w s).
Proof.
  revert s. induction h as [|e h IH]; intros s; [repeat split|].
  cbn [after fold_left]. destruct (IH (next s e)) as [A [B [C D]]]. unfold last_mics, last_Q, last_num, last_w in *.
  cbn [fold_left]. unfold after in *. rewrite A, B, C, D. destruct e; repeat split.
Qed.
Lemma after_virt h s : Forall (fun e => match e with Sample _ _ => False | _ => True end) h ->
  si_virt (after h s) = last_virt h (si_virt s).
Proof.
  intros HF. revert s. induction HF as [|e h He HF IH]; intros s; [reflexivity|].
  cbn [after fold_left]. unfold after in IH. rewrite IH. unfold last_virt. cbn [fold_left]. destruct e; try contradiction; reflexivity.
Qed.

(** A change of [num_IDW] or [p_weight] takes effect; as long as nothing else is
    assigned the rows are those of a new object with the current settings. *)
Theorem C124_weights_partial ord s h row delay : si_cache s = None ->
  Forall (fun e => match e with SetNum _ | SetW _ | Sample _ _ => True | _ => False end) h ->
  sample_out ord (after h s) row delay
  = idw_row ord (last_num h (si_num s)) (last_w h (si_w s)) (length (get_virt s))
      (new_coords (si_Q s) (si_mics s) (get_virt s)) row delay.
Proof.
  intros HC HF. destruct (after_settings h s) as [_ [_ [EN EW]]]. unfold sample_out. rewrite EN, EW. clear EN EW.
  assert (get_coords (after h s) = new_coords (si_Q s) (si_mics s) (get_virt s) /\ get_virt (after h s) = get_virt s) as [-> ->]; [|reflexivity].
  set (c := new_coords (si_Q s) (si_mics s) (get_virt s)). set (v := get_virt s).
  assert (get_coords s = c) as I1 by (unfold get_coords; now rewrite HC).
  assert (get_virt s = v) as I2 by reflexivity.
  assert (forall t e, match e with SetNum _ | SetW _ | Sample _ _ => True | _ => False end ->
    get_coords t = c -> get_virt t = v -> get_coords (next t e) = c /\ get_virt (next t e) = v) as ST.
  { intros t e He H1 H2. destruct e; try contradiction; cbn [next]; unfold get_coords, get_virt in *;
      cbn [si_cache si_Q si_mics si_virt] in *; auto. }
  clearbody c v. clear HC. revert s I1 I2. induction HF as [|e h He HF IH]; intros s I1 I2; [auto|].
  cbn [after fold_left]. destruct (ST s e He I1 I2) as [J1 J2]. exact (IH (next s e) J1 J2).
Qed.

(** Everything else is frozen by the first sample: whatever is assigned
    afterwards, the positions used are those of the first sample. *)
Theorem C124_frozen_partial ord s pre row0 delay0 post row delay : si_cache s = None ->
  Forall (fun e => match e with Sample _ _ => False | _ => True end) pre ->
  let h := pre ++ [Sample row0 delay0] ++ post in
  let mics := last_mics pre (si_mics s) in
  let virt := match last_virt pre (si_virt s) with Some v => v | None => mics end in
  sample_out ord (after h s) row delay
  = idw_row ord (last_num h (si_num s)) (last_w h (si_w s)) (length (get_virt (after h s)))
      (new_coords (last_Q pre (si_Q s)) mics virt) row delay.
Proof.
  intros HC HF h mics virt. set (s0 := after pre s).
  destruct (after_settings h s) as [_ [_ [EN EW]]]. destruct (after_settings pre s) as [EM [EQ _]].
  pose proof (after_virt pre s HF) as EV. fold s0 in EM, EQ, EV.
  assert (si_cache s0 = None) as C0.
  { unfold s0. clear -HC HF. revert s HC. induction HF as [|e h He HF IH]; intros s HC; [exact HC|].
    cbn [after fold_left]. apply IH. destruct e; try contradiction; exact HC. }
  unfold sample_out. rewrite EN, EW. f_equal.
  assert (new_coords (last_Q pre (si_Q s)) mics virt = new_coords (si_Q s0) (si_mics s0) (get_virt s0)) as ->.
  { unfold virt, mics, get_virt. now rewrite EM, EQ, EV. }
  unfold get_coords.
  assert (si_cache (after h s) = Some (new_coords (si_Q s0) (si_mics s0) (get_virt s0))) as ->; [|reflexivity].
  unfold h. rewrite after_app. cbn [app]. fold s0. cbn [after fold_left]. apply cache_kept.
  cbn [next si_cache]. f_equal. unfold get_coords. now rewrite C0.
Qed.

(** an argsort *)
Fixpoint ins (p : R * nat) (l : list (R * nat)) : list (R * nat) :=
  match l with
  | [] => [p]
  | q :: r => if Rle_dec (fst p) (fst q) then p :: q :: r else q :: ins p r
  end.
Definition stable_argsort (ks : list R) : list nat :=
  map snd (fold_right ins [] (combine ks (seq 0 (length ks)))).

Lemma ins_perm p l : Permutation (ins p l) (p :: l).
Proof.
  induction l as [|q l IH]; simpl; auto. destruct (Rle_dec _ _); auto. rewrite IH. apply perm_swap.
Qed.
Lemma sort_perm l : Permutation (fold_right ins [] l) l.
Proof. induction l as [|p l IH]; simpl; auto. rewrite ins_perm. now constructor. Qed.
Inductive sorted1 : list (R * nat) -> Prop :=
| so_nil : sorted1 []
| so_cons p l : (forall q, In q l -> fst p <= fst q) -> sorted1 l -> sorted1 (p :: l).
Lemma ins_sorted p l : sorted1 l -> sorted1 (ins p l).
Proof.
  induction 1 as [|q l H1 H2 IH]; cbn [ins]; [constructor; [intros q []|constructor]|].
  destruct (Rle_dec (fst p) (fst q)) as [L|L].
  - constructor; [|now constructor]. intros z [<-|Hz]; [exact L|]. specialize (H1 z Hz). lra.
  - constructor; auto. intros z Hz. apply (Permutation_in _ (ins_perm p l)) in Hz. destruct Hz as [<-|Hz]; [lra|auto].
Qed.
Lemma sorted1_nth l d i j : sorted1 l -> (i < j < length l)%nat -> fst (nth i l d) <= fst (nth j l d).
Proof.
  intros H. revert i j. induction H as [|p l H1 H2 IH]; intros i j [Hij Hj]; simpl in Hj; [lia|].
  destruct j as [|j]; [lia|]. destruct i as [|i]; cbn [nth].
  - apply H1. apply nth_In. lia.
  - apply IH. lia.
Qed.

Lemma stable_argsort_ok : argsort_ok stable_argsort.
Proof.
  intros ks. unfold stable_argsort. set (L := combine ks (seq 0 (length ks))). set (S := fold_right ins [] L).
  assert (length L = length ks) as HL by (unfold L; rewrite combine_length, seq_length; lia).
  assert (Permutation S L) as PS by apply sort_perm.
  assert (map snd L = seq 0 (length ks)) as EL.
  { unfold L. clear. generalize (seq 0 (length ks)) as l, (eq_sym (seq_length (length ks) 0)).
    induction ks as [|k ks IH]; intros [|a l] H; simpl in *; try lia; auto. f_equal. apply IH. lia. }
  split; [rewrite <- EL; now apply Permutation_map|].
  assert (forall q, In q S -> fst q = nth (snd q) ks 0) as HQ.
  { intros q Hq. apply (Permutation_in _ PS) in Hq. apply (In_nth _ _ (0, 0%nat)) in Hq. destruct Hq as [m [Hm <-]].
    unfold L. rewrite combine_nth by (now rewrite seq_length). cbn [fst snd]. rewrite seq_nth by lia. reflexivity. }
  assert (sorted1 S) as HS by (unfold S; clear; induction L; simpl; [constructor|now apply ins_sorted]).
  assert (length S = length ks) as HLS by (rewrite (Permutation_length PS); exact HL).
  intros i j Hij.
  assert (forall a, (a < length ks)%nat -> nth (nth a (map snd S) 0%nat) ks 0 = fst (nth a S (0, 0%nat))) as HA.
  { intros a Ha. rewrite (nth_indep (map snd S) 0%nat (snd (0, 0%nat))) by (rewrite map_length; lia). rewrite map_nth.
    symmetry. apply HQ. apply nth_In. lia. }
  rewrite !HA by lia. apply sorted1_nth; auto. lia.
Qed.

(** ... so a new virtual array is ignored *)
Definition mics_z0 : list v3 := [V3 1 0 0; V3 0 1 0; V3 (-2) 0 0].
Definition virt_z0 : list v3 := [V3 0 1 0; V3 1 0 0; V3 (-2) 0 0].

Theorem C124_virtual_refuted : exists s h row, si_cache s = None
  /\ length (get_virt (after h s)) = length (si_mics (after h s))
  /\ forall ord, argsort_ok ord -> sample_out ord (after h s) row None <> sample_out ord (renewed (after h s)) row None.
Proof.
  exists (mkInterp mics_z0 None idm 3 2 None), [Sample [1; 2; 3] None; SetVirt virt_z0], [1; 2; 3].
  split; [reflexivity|]. split; [reflexivity|]. intros ord H E.
  unfold sample_out in E. cbn [after fold_left next renewed si_num si_w get_virt get_coords si_virt si_cache si_Q si_mics] in E.
  assert (forall virt u i, length virt = 3%nat -> (u < 3)%nat -> (i < 3)%nat -> nth u virt (V3 0 0 0) = nth i mics_z0 (V3 0 0 0) ->
    exists out, idw_row ord 3 2 (length virt) (new_coords idm mics_z0 virt) [1; 2; 3] None = inr out
      /\ nth u out 0 = nth i [1; 2; 3] 0) as G.
  { intros virt u i Hv Hu Hi Ha.
    destruct (C123_aligned_partial ord 3 2 idm mics_z0 virt [1; 2; 3] None) with (u := u) (i := i) as [out [E1 [_ E2]]];
      auto; try (rewrite Hv; auto; fail); [lia| | | |].
    - intros k Hk. rewrite idm_apply. simpl in Hk. destruct k as [|[|[|k]]]; [reflexivity|reflexivity|reflexivity|lia].
    - intros a b [Hab Hb]. rewrite !idm_apply. simpl in Hb.
      destruct a as [|[|a]]; destruct b as [|[|[|b]]]; try lia; cbn [nth mics_z0]; intros X; injection X; lra.
    - rewrite !idm_apply, Ha. generalize (nth i mics_z0 (V3 0 0 0)). intros [x y z]. unfold turned. cbn [v3x v3y v3z].
      rewrite cos_0, sin_0. f_equal; ring.
    - exists out. auto. }
  destruct (G mics_z0 0%nat 0%nat) as [o1 [E1 V1]]; [reflexivity|lia|lia|reflexivity|].
  destruct (G virt_z0 0%nat 1%nat) as [o2 [E2 V2]]; [reflexivity|lia|lia|reflexivity|].
  change (length mics_z0) with 3%nat in E1. change (length virt_z0) with 3%nat in E2.
  change (idw_row ord 3 2 3 (new_coords idm mics_z0 mics_z0) [1; 2; 3] None
          = idw_row ord 3 2 3 (new_coords idm mics_z0 virt_z0) [1; 2; 3] None) in E.
  assert (inr o1 = inr o2 :> exn + list R) as X.
  { transitivity (idw_row ord 3 2 3 (new_coords idm mics_z0 mics_z0) [1; 2; 3] None); [symmetry; exact E1|].
    rewrite <- E2. exact E. }
  injection X as ->. rewrite V1 in V2. cbn [nth] in V2. lra.
Qed.

(** ** C47: the matrix Q *)

(** cartToCyl with a matrix gives cylindrical coordinates of [Q p]; the way back
    without a matrix gives them with x and y exchanged *)
Theorem C47_matrix_partial Q p :
  let c := cartToCylQ Q p in
  let q := mapply Q p in
  0 <= v3y c /\ v3x q = v3y c * cos (v3x c) /\ v3y q = v3y c * sin (v3x c) /\ v3z q = v3z c
  /\ cylToCart c = V3 (v3y q) (v3x q) (v3z q).
Proof.
  intros c q. destruct (cartToCyl_polar q) as [A [B [C D]]]. repeat (split; auto). apply cyl_round_trip.
Qed.

(** the way back with the same matrix or its inverse does not give the point,
    not even up to that exchange *)
Theorem C47_matrix_refuted : exists Q p, mmul Q (mtrans Q) = idm
  /\ cylToCartQ Q (cartToCylQ Q p) <> p /\ cylToCartQ (mtrans Q) (cartToCylQ Q p) <> p
  /\ cylToCartQ Q (cartToCylQ Q p) <> V3 (v3y p) (v3x p) (v3z p)
  /\ cylToCartQ (mtrans Q) (cartToCylQ Q p) <> V3 (v3y p) (v3x p) (v3z p).
Proof.
  exists (M3 (V3 0 (-1) 0) (V3 1 0 0) (V3 0 0 1)), (V3 0 (-1) 0).
  assert (cartToCylQ (M3 (V3 0 (-1) 0) (V3 1 0 0) (V3 0 0 1)) (V3 0 (-1) 0) = V3 0 1 0) as E.
  { unfold cartToCylQ, mapply, vdot, cartToCyl. cbn [row0 row1 row2 v3x v3y v3z].
    unfold atan2. destruct (Rlt_dec _ _); [|lra]. f_equal; [| |lra].
    - match goal with |- atan ?t = 0 => replace t with 0 by (field; lra) end. apply atan_0.
    - match goal with |- sqrt ?t = 1 => replace t with 1 by ring end. apply sqrt_1. }
  rewrite E. split.
  { unfold mmul, mtrans, idm, vdot. cbn [row0 row1 row2 v3x v3y v3z]. f_equal; f_equal; ring. }
  unfold cylToCartQ, mapply, mtrans, cylToCart, vdot. cbn [row0 row1 row2 v3x v3y v3z].
  repeat split; intros X; injection X as X1 X2 X3.
  - replace (1 * 0 + 0 * 1 + 0 * 0) with 0 in X2 by ring. lra.
  - replace (-1 * 0 + 0 * 1 + 0 * 0) with 0 in X2 by ring. lra.
  - replace (1 * 0 + 0 * 1 + 0 * 0) with 0 in X1 by ring. lra.
  - replace (-1 * 0 + 0 * 1 + 0 * 0) with 0 in X1 by ring. lra.
Qed.

Print Assumptions C123_stream.
Print Assumptions C123_range.
Print Assumptions C123_aligned_partial.
Print Assumptions C123_plane_refuted.
Print Assumptions C123_count_refuted.
Print Assumptions C124_weights_partial.
Print Assumptions C124_frozen_partial.
Print Assumptions C124_virtual_refuted.
Print Assumptions C47_matrix_partial.
Print Assumptions C47_matrix_refuted.

(** concrete cases *)
Example C123_case : argsort_ok stable_argsort
  /\ wf_source (fun n => done (chunks n [[1; 2; 3]; [4; 5; 6]])) [[1; 2; 3]; [4; 5; 6]]
  /\ (forall i, (i < length mics_z0)%nat -> v3z (mapply idm (nth i mics_z0 (V3 0 0 0))) = 0)
  /\ (forall i j, (i < j < length mics_z0)%nat -> mapply idm (nth i mics_z0 (V3 0 0 0)) <> mapply idm (nth j mics_z0 (V3 0 0 0)))
  /\ turned 0 (mapply idm (nth 0 virt_z0 (V3 0 0 0))) = mapply idm (nth 1 mics_z0 (V3 0 0 0)).
Proof.
  split; [apply stable_argsort_ok|]. split; [intros n Hn; now apply delivers_chunks|]. split; [|split].
  - intros k Hk. rewrite idm_apply. simpl in Hk. destruct k as [|[|[|k]]]; [reflexivity|reflexivity|reflexivity|lia].
  - intros a b [Hab Hb]. rewrite !idm_apply. simpl in Hb.
    destruct a as [|[|a]]; destruct b as [|[|[|b]]]; try lia; cbn [nth mics_z0]; intros X; injection X; lra.
  - rewrite !idm_apply. unfold turned. cbn [nth mics_z0 virt_z0 v3x v3y v3z]. rewrite cos_0, sin_0. f_equal; ring.
Qed.
Example C124_case : si_cache (mkInterp mics_z0 None idm 3 2 None) = None
  /\ Forall (fun e => match e with SetNum _ | SetW _ | Sample _ _ => True | _ => False end)
       [Sample [1; 2; 3] None; SetW 1; Sample [1; 2; 3] (Some 1); SetNum 2].
Proof. split; [reflexivity|]. repeat constructor. Qed.
