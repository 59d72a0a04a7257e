(** Property C127: the problems solved by BeamformerDamasPlus. *)
From Coq Require Import List Arith Lia ZArith Bool Reals Lra.
From Verif Require Import Stream Cplx Beamform Deconv Damas Props_Damas DamasPlus.
Import ListNotations.
Local Open Scope R_scope.

(** The map of BeamformerBase with all microphones, and the matrix of point
    spread functions, for a steering type. *)
Definition map_of (n : nat) (st : steer) (k : R) (r0 : nat -> R) (r : nat -> nat -> R) (csm : nat -> nat -> C) (t : nat) : R :=
  fst (freq_full n csm (r0 t) k (r t) 1 false st).
Definition psf_of (n : nat) (st : steer) (k : R) (r0 : nat -> R) (r : nat -> nat -> R) (t s : nat) : R :=
  psf_core n st (r0 t) (r t) (r0 s) (r s) k.
Definition sources (g : nat) (k : R) (r0 : nat -> R) (r : nat -> nat -> R) (q : nat -> R) (i j : nat) : C :=
  csum g (fun t => RtoC (q t) * (transfer (r0 t) k (r t) i * Conj (transfer (r0 t) k (r t) j)))%C.
(** Maps of different strengths are different. *)
Definition separated (g : nat) (A : nat -> nat -> R) : Prop :=
  forall x z, (forall t, (t < g)%nat -> rsumn g (fun s => A t s * x s) = rsumn g (fun s => A t s * z s)) ->
  forall t, (t < g)%nat -> x t = z t.

(** The unit multiplier has no influence on the problems. *)
Theorem C127_unit g A y alpha u v : 0 < u ->
  (plus_nnls g A y u v <-> (nonneg g v /\ forall z, nonneg g z ->
     rsumn g (fun t => (rsumn g (fun s => A t s * v s) - y t) * (rsumn g (fun s => A t s * v s) - y t))
     <= rsumn g (fun t => (rsumn g (fun s => A t s * z s) - y t) * (rsumn g (fun s => A t s * z s) - y t))))
  /\ (plus_lp g A y u v <-> plus_lp g A y 1 v)
  /\ (plus_lasso g A y alpha u v <-> plus_lasso g A y alpha 1 v).
Proof.
  intros Hu. split; [exact (nnls_unit g A y u v Hu)|]. split; [|exact (lasso_unit g A y alpha u v Hu)].
  rewrite (lp_unit g A y u v Hu). symmetry. apply lp_unit. lra.
Qed.

Lemma model_map n g st k r0 r q t : geometry n g r0 r -> (t < g)%nat ->
  mul g (psf_of n st k r0 r) q t = map_of n st k r0 r (sources g k r0 r q) t.
Proof.
  intros [G1 [G2 G3]] Ht. unfold map_of, sources. rewrite map_sources by auto. reflexivity.
Qed.

(** Incoherent monopoles at grid points, method 'NNLS', every steering type:
    the modelled map is the measured one, and strengths that the maps determine
    are found. *)
Theorem C127_nnls n g st k r0 r q u v : geometry n g r0 r -> nonneg g q -> 0 < u ->
  let csm := sources g k r0 r q in
  plus_nnls g (psf_of n st k r0 r) (map_of n st k r0 r csm) u v ->
  (forall t, (t < g)%nat -> map_of n st k r0 r (sources g k r0 r v) t = map_of n st k r0 r csm t)
  /\ (separated g (psf_of n st k r0 r) -> forall t, (t < g)%nat -> v t = q t).
Proof.
  intros HG HQ Hu csm H. apply (nnls_unit _ _ _ _ _ Hu) in H.
  apply (nnls_exact g _ _ q HQ) in H; [|intros t Ht; now apply model_map]. destruct H as [_ H]. split.
  - intros t Ht. rewrite <- (model_map n g st k r0 r v t HG Ht). now apply H.
  - intros S. apply S. intros t Ht. specialize (H t Ht). unfold csm in H. rewrite <- (model_map n g st k r0 r q t HG Ht) in H. exact H.
Qed.
(** There is such a solution. *)
Theorem C127_nnls_solved n g st k r0 r q u : geometry n g r0 r -> nonneg g q -> 0 < u ->
  plus_nnls g (psf_of n st k r0 r) (map_of n st k r0 r (sources g k r0 r q)) u q.
Proof.
  intros HG HQ Hu. apply (nnls_unit _ _ _ _ _ Hu). apply (nnls_exact g _ _ q HQ); [intros t Ht; now apply model_map|].
  split; [exact HQ|]. intros t Ht. now apply model_map.
Qed.

(** Method 'LP': the same if the rows of the matrix have the same sums as its columns. *)
Theorem C127_lp_partial n g st k r0 r q u v : geometry n g r0 r -> nonneg g q -> 0 < u ->
  (forall t, (t < g)%nat -> rsumn g (fun s => psf_of n st k r0 r t s) = rsumn g (fun s => psf_of n st k r0 r s t)) ->
  let csm := sources g k r0 r q in
  plus_lp g (psf_of n st k r0 r) (map_of n st k r0 r csm) u v ->
  (forall t, (t < g)%nat -> map_of n st k r0 r (sources g k r0 r v) t = map_of n st k r0 r csm t)
  /\ (separated g (psf_of n st k r0 r) -> forall t, (t < g)%nat -> v t = q t).
Proof.
  intros HG HQ Hu HR csm H. apply (lp_unit _ _ _ _ _ Hu) in H.
  apply (lp_exact g _ _ q HQ) in H; [|intros t Ht; now apply model_map|exact HR]. destruct H as [_ H]. split.
  - intros t Ht. rewrite <- (model_map n g st k r0 r v t HG Ht). now apply H.
  - intros S. apply S. intros t Ht. specialize (H t Ht). unfold csm in H. rewrite <- (model_map n g st k r0 r q t HG Ht) in H. exact H.
Qed.

(** ** Two microphones, two points, wave number zero *)
Definition near (t m : nat) : R := match t, m with O, O => 1 | O, _ => 2 | _, O => 4 | _, _ => 2 end.
Definition even (t m : nat) : R := if (m =? t)%nat then 1 else 2.
Lemma near_geometry : geometry 2 2 (fun _ => 1) near.
Proof. repeat split; [lia|intros; lra|]. intros t m _ _. destruct t, m; cbn; lra. Qed.
Lemma even_geometry : geometry 2 2 (fun _ => 1) even.
Proof. repeat split; [lia|intros; lra|]. intros t m _ _. unfold even. destruct (m =? t)%nat; lra. Qed.
Ltac psf_value := unfold psf_of, psf_core; cbn [rsumn csum]; rewrite ?Rmult_0_l, ?cos_0, ?sin_0; unfold near, even; cbn [Nat.eqb];
  unfold re, Cdiv, Cinv, norm2; cbn [fst snd Cmul Cadd Conj RtoC C0]; field.
Lemma near_psf : psf_of 2 TrueLevel 0 (fun _ => 1) near 0 0 = 1 /\ psf_of 2 TrueLevel 0 (fun _ => 1) near 0 1 = 4 / 25
  /\ psf_of 2 TrueLevel 0 (fun _ => 1) near 1 0 = 64 / 25 /\ psf_of 2 TrueLevel 0 (fun _ => 1) near 1 1 = 1.
Proof. repeat split; psf_value. Qed.
Lemma even_psf : psf_of 2 TrueLevel 0 (fun _ => 1) even 0 0 = 1 /\ psf_of 2 TrueLevel 0 (fun _ => 1) even 0 1 = 16 / 25
  /\ psf_of 2 TrueLevel 0 (fun _ => 1) even 1 0 = 16 / 25 /\ psf_of 2 TrueLevel 0 (fun _ => 1) even 1 1 = 1.
Proof. repeat split; psf_value. Qed.
Lemma near_separated : separated 2 (psf_of 2 TrueLevel 0 (fun _ => 1) near).
Proof.
  destruct near_psf as [E1 [E2 [E3 E4]]]. intros x z H t Ht. pose proof (H 0%nat ltac:(lia)) as H0. pose proof (H 1%nat ltac:(lia)) as H1.
  cbn [rsumn] in H0, H1. rewrite E1, E2 in H0. rewrite E3, E4 in H1. destruct t as [|[|t]]; [lra|lra|lia].
Qed.
Lemma even_separated : separated 2 (psf_of 2 TrueLevel 0 (fun _ => 1) even).
Proof.
  destruct even_psf as [E1 [E2 [E3 E4]]]. intros x z H t Ht. pose proof (H 0%nat ltac:(lia)) as H0. pose proof (H 1%nat ltac:(lia)) as H1.
  cbn [rsumn] in H0, H1. rewrite E1, E2 in H0. rewrite E3, E4 in H1. destruct t as [|[|t]]; [lra|lra|lia].
Qed.

(** Method 'LP' in general: false.  The objective has the row sums where the sum
    of the modelled map needs the column sums. *)
Definition lp_recovers : Prop :=
  forall n g st k r0 r q u v, geometry n g r0 r -> nonneg g q -> 0 < u -> separated g (psf_of n st k r0 r) ->
  plus_lp g (psf_of n st k r0 r) (map_of n st k r0 r (sources g k r0 r q)) u v -> forall t, (t < g)%nat -> v t = q t.
Theorem C127_lp_refuted : ~ lp_recovers.
Proof.
  intros H. set (v := fun t : nat => match t with O => 0 | _ => 89 / 25 end).
  specialize (H 2%nat 2%nat TrueLevel 0 (fun _ => 1) near (fun _ => 1) 1 v near_geometry ltac:(intros t _; lra) ltac:(lra) near_separated).
  assert (plus_lp 2 (psf_of 2 TrueLevel 0 (fun _ => 1) near) (map_of 2 TrueLevel 0 (fun _ => 1) near (sources 2 0 (fun _ => 1) near (fun _ => 1))) 1 v) as P.
  { apply lp_unit; [lra|]. destruct near_psf as [E1 [E2 [E3 E4]]].
    pose proof (model_map 2 2 TrueLevel 0 (fun _ => 1) near (fun _ => 1) 0 near_geometry ltac:(lia)) as M0.
    pose proof (model_map 2 2 TrueLevel 0 (fun _ => 1) near (fun _ => 1) 1 near_geometry ltac:(lia)) as M1.
    unfold mul in M0, M1. cbn [rsumn] in M0, M1. rewrite E1, E2 in M0. rewrite E3, E4 in M1. split.
    - split; [intros t _; unfold v; destruct t; lra|]. intros t Ht. unfold mul. cbn [rsumn].
      destruct t as [|[|t]]; [rewrite E1, E2, <- M0; cbn [v]; lra|rewrite E3, E4, <- M1; cbn [v]; lra|lia].
    - intros z [P F]. pose proof (P 0%nat ltac:(lia)) as P0. pose proof (P 1%nat ltac:(lia)) as P1. pose proof (F 1%nat ltac:(lia)) as F1.
      unfold mul in F1. cbn [rsumn] in F1. rewrite E3, E4, <- M1 in F1. unfold row_sum. cbn [rsumn]. rewrite E1, E2, E3, E4. cbn [v]. lra. }
  specialize (H P 0%nat ltac:(lia)). cbn [v] in H. lra.
Qed.

(** 'NNLS' and the iteration of BeamformerDamas: not the same if the model is
    inexact.  The first minimises the distance of the maps, the second that of
    the matrices (C126). *)
Definition same_result : Prop :=
  forall n g k r0 r csm damp u v lim, geometry n g r0 r -> hermitian n csm -> (forall z, 0 <= re (qform n csm z)) -> 0 < damp <= 1 -> 0 < u ->
  separated g (psf_of n TrueLevel k r0 r) ->
  plus_nnls g (psf_of n TrueLevel k r0 r) (map_of n TrueLevel k r0 r csm) u v ->
  (forall t, (t < g)%nat -> Un_cv (fun m => damas_map n g k r0 r csm damp m t) (lim t)) ->
  forall t, (t < g)%nat -> v t = lim t.

(** Method 'LassoLars' with a vanishing penalty. *)
Definition lasso_recovers : Prop :=
  forall n g st k r0 r q, geometry n g r0 r -> nonneg g q -> separated g (psf_of n st k r0 r) ->
  forall e, 0 < e -> exists a, 0 < a /\ forall alpha u v, 0 < alpha < a -> 0 < u ->
    plus_lasso g (psf_of n st k r0 r) (map_of n st k r0 r (sources g k r0 r q)) alpha u v ->
    forall t, (t < g)%nat -> Rabs (v t - q t) <= e.

Lemma near_case : let csm := monopole_csm 1 (fun i => RtoC (if (i =? 0)%nat then 2 else -1)) in
  map_of 2 TrueLevel 0 (fun _ => 1) near csm 0 = 36 / 25 /\ map_of 2 TrueLevel 0 (fun _ => 1) near csm 1 = 0.
Proof.
  cbv zeta. split; unfold map_of, freq_full, normalize, scalar_prod, steer_raw, help_normalize, monopole_csm; cbn [fst rsumn csum];
    rewrite ?Rmult_0_l, ?cos_0, ?sin_0; unfold near; cbn [Nat.eqb]; unfold re, Cdiv, Cinv, norm2; cbn [fst snd Cmul Cadd Conj RtoC C0]; field.
Qed.
Theorem C127_same_refuted : ~ same_result.
Proof.
  intros H. set (csm := monopole_csm 1 (fun i => RtoC (if (i =? 0)%nat then 2 else -1))).
  set (A := psf_of 2 TrueLevel 0 (fun _ => 1) near). set (y := map_of 2 TrueLevel 0 (fun _ => 1) near csm).
  destruct near_psf as [E1 [E2 [E3 E4]]]. fold A in E1, E2, E3, E4.
  destruct near_case as [Y0 Y1]. fold csm in Y0, Y1. fold y in Y0, Y1.
  set (v := fun t : nat => match t with O => 900 / 4721 | _ => 0 end). set (lim := fun t : nat => match t with O => 36 / 25 | _ => 0 end).
  assert (v 0%nat = lim 0%nat) as E; [|cbn [v lim] in E; lra].
  apply (H 2%nat 2%nat 0 (fun _ => 1) near csm 1 1 v lim near_geometry); try lra; try lia.
  - intros i j _ _. unfold csm, monopole_csm. rewrite !Conj_mul, !Conj_RtoC. ring.
  - intros z. unfold csm. rewrite qform_monopole. cbn [re RtoC fst]. rewrite Rmult_1_l. apply norm2_nonneg.
  - exact near_separated.
  - apply nnls_unit; [lra|]. fold A y. split; [intros t _; unfold v; destruct t; lra|].
    intros z Hz. pose proof (Hz 1%nat ltac:(lia)) as Z1. unfold residual, mul. cbn [rsumn]. rewrite E1, E2, E3, E4, Y0, Y1. cbn [v].
    pose proof (Rle_0_sqr (z 0%nat - 900 / 4721 + 4 / 25 * z 1%nat)) as Q0. pose proof (Rle_0_sqr (64 / 25 * (z 0%nat - 900 / 4721) + z 1%nat)) as Q1.
    unfold Rsqr in *. lra.
  - intros t Ht e He. exists 0%nat. intros m _. unfold R_dist. replace (damas_map 2 2 0 (fun _ => 1) near csm 1 m t) with (lim t);
      [rewrite Rminus_diag_eq by reflexivity; now rewrite Rabs_R0|].
    symmetry. revert t Ht. unfold damas_map, damas, gs_solve. fold A.
    change (fun t => fst (freq_full 2 csm 1 0 (near t) 1 false TrueLevel)) with y. change (fun t s => psf_core 2 TrueLevel 1 (near t) 1 (near s) 0) with A.
    induction m as [|m IH]; intros t Ht.
    + destruct t as [|[|t]]; [exact Y0|exact Y1|lia].
    + change (gs_sweep 2 A y 1 (Nat.iter m (gs_sweep 2 A y 1) y) t = lim t).
      pose proof (IH 0%nat ltac:(lia)) as I0. pose proof (IH 1%nat ltac:(lia)) as I1. clear IH.
      set (x := Nat.iter m (gs_sweep 2 A y 1) y) in *. cbn [lim] in I0, I1.
      unfold gs_sweep. cbn [seq fold_left]. unfold gs_point, upd. cbn [rsumn]. cbn [Nat.eqb]. rewrite E1, E2, E3, E4, Y0, Y1, I0, I1.
      repeat (destruct (Rlt_dec 0 _); try lra); destruct t as [|[|t]]; cbn [Nat.eqb lim]; try lra; try lia; rewrite ?I0, ?I1; try lra.
Qed.

(** With every penalty at least one grid point gets the strength zero, whatever
    was measured, if some strengths have a constant map. *)
Theorem C127_lasso_zero g A y alpha u v d : 0 < alpha -> 0 < u -> plus_lasso g A y alpha u v ->
  (forall t, (t < g)%nat -> rsumn g (fun s => A t s * d s) = 1) ->
  rsumn g (fun s => sqrt (rsumn g (fun t => A t s * A t s)) * d s) <> 0 ->
  exists s, (s < g)%nat /\ v s = 0.
Proof.
  intros Ha Hu [w [C V]] Hd Hn.
  destruct (lasso_zero g _ _ _ w (fun s => column_norm g A s * d s) (Rmult_lt_0_compat _ _ Ha Hu) C) as [s [S1 S2]].
  - intros t Ht. rewrite <- (Hd t Ht). apply rsumn_ext. intros s Hs. destruct (Req_dec (column_norm g A s) 0) as [Z|N]; [|field; exact N].
    unfold column_norm in Z. apply sqrt_eq_0 in Z; [|apply rsumn_nonneg; intros; apply Rle_0_sqr].
    pose proof (sum_zero g (fun t => A t s * A t s) (fun t _ => Rle_0_sqr (A t s)) (Req_le _ _ Z) t Ht) as Q. apply Rsqr_0_uniq in Q.
    rewrite Q. unfold Rdiv. ring.
  - exact Hn.
  - exists s. split; [exact S1|]. rewrite V by exact S1. rewrite S2. unfold Rdiv. ring.
Qed.

Theorem C127_lasso_refuted : ~ lasso_recovers.
Proof.
  intros H. set (q := fun t : nat => match t with O => 3 | _ => 5 end).
  destruct (H 2%nat 2%nat TrueLevel 0 (fun _ => 1) even q even_geometry ltac:(intros t _; unfold q; destruct t; lra) even_separated 1 ltac:(lra)) as [a [Ha K]].
  destruct even_psf as [E1 [E2 [E3 E4]]]. set (A := psf_of 2 TrueLevel 0 (fun _ => 1) even) in *.
  set (y := map_of 2 TrueLevel 0 (fun _ => 1) even (sources 2 0 (fun _ => 1) even q)) in *.
  assert (y 0%nat = 155 / 25 /\ y 1%nat = 173 / 25) as [Y0 Y1].
  { split; unfold y; rewrite <- model_map by (exact even_geometry || lia); unfold mul; cbn [rsumn]; fold A;
      [rewrite E1, E2|rewrite E3, E4]; cbn [q]; field. }
  set (N := column_norm 2 A 0). assert (column_norm 2 A 1 = N) as N1.
  { unfold N, column_norm. cbn [rsumn]. rewrite E1, E2, E3, E4. f_equal. ring. }
  assert (0 < N) as NP by (unfold N, column_norm; cbn [rsumn]; rewrite E1, E3; apply sqrt_lt_R0; lra).
  set (kap := 9 / 25 / N). assert (0 < kap) as KP by (unfold kap; apply Rdiv_lt_0_compat; lra).
  set (dl := Rmin (18 / 25) (a / kap)).
  assert (0 < dl) as DP by (unfold dl; apply Rmin_glb_lt; [lra|now apply Rdiv_lt_0_compat]).
  assert (dl <= 18 / 25) as D1 by apply Rmin_l.
  assert (kap * dl <= a) as D2.
  { apply Rle_trans with (kap * (a / kap)); [apply Rmult_le_compat_l; [lra|apply Rmin_r]|right; field; lra]. }
  assert (0 < kap * dl) as KD by now apply Rmult_lt_0_compat.
  set (w2 := (18 / 25 - dl) / kap). assert (kap * w2 = 18 / 25 - dl) as W2 by (unfold w2; field; lra).
  assert (0 <= w2) as WP by (unfold w2; apply Rmult_le_pos; [lra|now apply Rlt_le, Rinv_0_lt_compat]).
  set (w := fun t : nat => match t with O => 0 | _ => w2 end).
  specialize (K (kap * dl / 4) 1 (fun t => w t / column_norm 2 A t / 1) ltac:(lra) ltac:(lra)).
  assert (plus_lasso 2 A y (kap * dl / 4) 1 (fun t => w t / column_norm 2 A t / 1)) as P.
  { exists w. split; [|reflexivity]. split; [intros t _; unfold w; destruct t; lra|].
    exists ((y 0%nat + y 1%nat) / 2 - (16 / 25 / N + 1 / N) * w2 / 2). intros w' b' P'.
    pose proof (P' 0%nat ltac:(lia)) as P0. unfold lasso_cost, mul. cbn [rsumn]. fold N. rewrite N1, E1, E2, E3, E4, Y0, Y1. cbn [w].
    replace (INR 2) with 2 by (cbn; ring).
    set (m := / N). replace (16 / 25 / N) with (16 / 25 * m) by reflexivity. replace (1 / N) with m by (unfold m, Rdiv; ring).
    assert (kap = 9 / 25 * m) as KM by reflexivity.
    set (r1 := 1 * (155 / 25) - (0 + m * w' 0%nat + 16 / 25 * m * w' 1%nat) - b').
    set (r2 := 1 * (173 / 25) - (0 + 16 / 25 * m * w' 0%nat + m * w' 1%nat) - b').
    assert (r2 - r1 = 18 / 25 - kap * (w' 1%nat - w' 0%nat)) as R by (unfold r1, r2; rewrite KM; field).
    assert ((18 / 25 - kap * (w' 1%nat - w' 0%nat)) * (18 / 25 - kap * (w' 1%nat - w' 0%nat)) <= 2 * (r1 * r1 + r2 * r2)) as S.
    { rewrite <- R. pose proof (Rle_0_sqr (r1 + r2)) as Q. unfold Rsqr in Q. lra. }
    pose proof (Rle_0_sqr (kap * (w' 1%nat - w' 0%nat) - kap * w2)) as Q. unfold Rsqr in Q.
    match goal with |- ?l <= _ => replace l with (dl * dl / 8 + kap * dl / 4 * w2) end.
    2:{ replace dl with (18 / 25 - kap * w2) by lra. rewrite KM. field. }
    assert (0 <= kap * dl * w' 0%nat) as Z by (apply Rmult_le_pos; lra).
    set (x := kap * (w' 1%nat - w' 0%nat)) in *.
    assert (kap * dl * w' 1%nat = dl * x + kap * dl * w' 0%nat) as X1 by (unfold x; ring).
    assert (kap * dl * w2 = dl * (18 / 25 - dl)) as X2 by (rewrite <- W2; ring).
    rewrite W2 in Q.
    lra. }
  specialize (K P 0%nat ltac:(lia)). cbn [w q] in K. replace (0 / column_norm 2 A 0 / 1 - 3) with (-3) in K by (unfold Rdiv; ring).
  rewrite Rabs_left in K by lra. lra.
Qed.

(** ** Instances *)
Example C127_nnls_case : forall v u, 0 < u ->
  plus_nnls 2 (psf_of 2 TrueLevel 0 (fun _ => 1) near) (map_of 2 TrueLevel 0 (fun _ => 1) near (sources 2 0 (fun _ => 1) near (fun t => INR t + 1))) u v ->
  v 0%nat = 1 /\ v 1%nat = 2.
Proof.
  intros v u Hu H. apply (C127_nnls 2 2 TrueLevel 0 (fun _ => 1) near (fun t => INR t + 1) u v near_geometry) in H; [|intros t _; pose proof (pos_INR t); lra|exact Hu].
  destruct H as [_ H]. specialize (H near_separated). rewrite !H by lia. cbn. lra.
Qed.
Example C127_lp_case : forall v u, 0 < u ->
  plus_lp 2 (psf_of 2 TrueLevel 0 (fun _ => 1) even) (map_of 2 TrueLevel 0 (fun _ => 1) even (sources 2 0 (fun _ => 1) even (fun t => INR t + 1))) u v ->
  v 0%nat = 1 /\ v 1%nat = 2.
Proof.
  intros v u Hu H. apply (C127_lp_partial 2 2 TrueLevel 0 (fun _ => 1) even (fun t => INR t + 1) u v even_geometry) in H; [|intros t _; pose proof (pos_INR t); lra|exact Hu|].
  - destruct H as [_ H]. specialize (H even_separated). rewrite !H by lia. cbn. lra.
  - destruct even_psf as [E1 [E2 [E3 E4]]]. intros t Ht. cbn [rsumn]. destruct t as [|[|t]]; [rewrite E1, E2, E3; lra|rewrite E2, E3, E4; lra|lia].
Qed.
Example C127_zero_case : forall y alpha u v, 0 < alpha -> 0 < u -> plus_lasso 2 (psf_of 2 TrueLevel 0 (fun _ => 1) even) y alpha u v ->
  v 0%nat = 0 \/ v 1%nat = 0.
Proof.
  intros y alpha u v Ha Hu H. destruct even_psf as [E1 [E2 [E3 E4]]].
  destruct (C127_lasso_zero 2 _ y alpha u v (fun _ => 25 / 41) Ha Hu H) as [s [S1 S2]].
  - intros t Ht. cbn [rsumn]. destruct t as [|[|t]]; [rewrite E1, E2; lra|rewrite E3, E4; lra|lia].
  - cbn [rsumn]. rewrite E1, E2, E3, E4. assert (0 < sqrt (0 + 1 * 1 + 16 / 25 * (16 / 25))) by (apply sqrt_lt_R0; lra).
    assert (0 < sqrt (0 + 16 / 25 * (16 / 25) + 1 * 1)) by (apply sqrt_lt_R0; lra). lra.
  - destruct s as [|[|s]]; [now left|now right|lia].
Qed.

Print Assumptions C127_unit.
Print Assumptions C127_nnls.
Print Assumptions C127_nnls_solved.
Print Assumptions C127_lp_partial.
Print Assumptions C127_lp_refuted.
Print Assumptions C127_same_refuted.
Print Assumptions C127_lasso_zero.
Print Assumptions C127_lasso_refuted.
