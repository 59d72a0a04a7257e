(** C106: the transfer matrix and the steering vectors of SteeringVector. *)
From Coq Require Import List Arith Lia ZArith Bool Reals Lra.
From Verif Require Import Stream Cplx Beamform Rounding SteerVec.
Import ListNotations.
Local Open Scope R_scope.

(** Specification: the pressure of a monopole of amplitude [A] at travel distance [r]. *)
Definition monopole (A : C) (k r : R) : C := (A * cexp (- (k * r)) / RtoC r)%C.

(** Specification: the travel distance between a grid point and the reference that was assigned. *)
Definition to_reference (dist : position -> position -> R) (a : ref_arg) (g : position) : R :=
  match a with
  | Scalar (Some x) => Rabs x
  | Scalar None => 0
  | Sequence l => dist g (nth 0 l 0, nth 1 l 0, nth 2 l 0)
  end.

Lemma ref_set dist a ref : set_ref a = inl ref -> a <> Scalar (Some 0) ->
  match ref with Distance d => 0 < d | Point _ => True end /\ forall g, ref_distance dist ref g = to_reference dist a g.
Proof.
  intros E N. destruct a as [[x|]|[|x [|y [|z [|w l]]]]]; try discriminate; injection E as <-.
  - split; [|reflexivity]. apply Rabs_pos_lt. intros ->. now apply N.
  - split; [exact Logic.I|reflexivity].
Qed.

(** C106.  With two microphones or more the transfer matrix relates the pressure of a monopole at the microphones to its
    pressure at the reference, a distance or a point; and a wrong reference is refused. *)
Theorem C106_transfer_partial : forall dist c gpos mpos a ref f,
  set_ref a = inl ref -> a <> Scalar (Some 0) ->
  (forall g p, 0 < dist g p) -> (2 <= length mpos)%nat ->
  exists T, sv_transfer dist c gpos mpos ref f All = inl T
    /\ length T = length gpos
    /\ forall i, (i < length gpos)%nat -> length (nth i T []) = length mpos
       /\ forall m A, (m < length mpos)%nat -> let k := 2 * PI * f / c in let g := nth i gpos (0, 0, 0) in
          (nth m (nth i T []) C0 * monopole A k (to_reference dist a g))%C = monopole A k (dist g (nth m mpos (0, 0, 0))).
Proof.
  intros dist c gpos mpos a ref f Ea Na Hd Hm. destruct (ref_set dist a ref Ea Na) as [Hr Er].
  exists (map (point_row dist c mpos ref f) gpos). split; [apply transfer_all; auto|]. split; [apply map_length|].
  intros i Hi. rewrite (nth_indep _ [] (point_row dist c mpos ref f (0, 0, 0))) by now rewrite map_length. rewrite map_nth.
  set (g := nth i gpos (0, 0, 0)). split; [unfold point_row; now rewrite transfer_row_length, map_length|].
  intros m A Hlt. cbv zeta. set (k := 2 * PI * f / c). unfold point_row. fold k. rewrite transfer_row_nth by now rewrite map_length.
  assert (E : nth m (map (dist g) mpos) 0 = dist g (nth m mpos (0, 0, 0))).
  { rewrite (nth_indep _ 0 (dist g (0, 0, 0))) by now rewrite map_length. apply map_nth. }
  pose proof (Hd g (nth m mpos (0, 0, 0))) as P. rewrite transfer_split by (rewrite E; lra). rewrite E.
  assert (R0 : 0 < ref_distance dist ref g) by (destruct ref; cbn; [exact Hr|apply Hd]). rewrite Er in R0 |- *.
  set (r0 := to_reference dist a g) in *. set (r := dist g (nth m mpos (0, 0, 0))) in *. unfold monopole.
  rewrite RtoC_div by lra. assert (EX : (cexp (k * r0) * cexp (- (k * r0)))%C = C1).
  { rewrite <- cexp_add. replace (k * r0 + - (k * r0)) with 0 by ring. unfold cexp. now rewrite cos_0, sin_0. }
  transitivity (A * cexp (- (k * r)) / RtoC r * (cexp (k * r0) * cexp (- (k * r0))))%C.
  - field. split; apply RtoC_neq0; lra.
  - rewrite EX. field. apply RtoC_neq0; lra.
Qed.
Print Assumptions C106_transfer_partial.

Theorem C106_refused : forall a, (forall x, a <> Scalar (Some x)) -> (forall x y z, a <> Sequence [x; y; z]) -> set_ref a = inr TraitErr.
Proof.
  intros [[x|]|[|x [|y [|z [|w l]]]]] H1 H2; try reflexivity; [now destruct (H1 x)|now destruct (H2 x y z)].
Qed.
Print Assumptions C106_refused.

(** Specification: the element that Python's index i addresses. *)
Definition addressed {A} (i : Z) (n : nat) (x : A) (f : nat -> A) : Prop :=
  (0 <= i < Z.of_nat n /\ x = f (Z.to_nat i))%Z \/ (- Z.of_nat n <= i < 0 /\ x = f (Z.to_nat (i + Z.of_nat n)))%Z.

Lemma py_pos_addressed n i j : py_pos n i = Some j -> forall {A} (f : nat -> A), addressed i n (f j) f.
Proof.
  unfold py_pos. intros E A f. destruct (Z.ltb_spec i 0) as [L|L]; unfold addressed.
  - right. destruct (Z.leb_spec 0 (i + Z.of_nat n)); [|discriminate]. destruct (Z.ltb_spec (i + Z.of_nat n) (Z.of_nat n)); [|discriminate].
    injection E as <-. split; [lia|reflexivity].
  - left. destruct (Z.leb_spec 0 i); [|discriminate]. destruct (Z.ltb_spec i (Z.of_nat n)); [|discriminate]. injection E as <-. split; [lia|reflexivity].
Qed.
Lemma py_pos_ok n i : (- Z.of_nat n <= i < Z.of_nat n)%Z -> exists j, py_pos n i = Some j.
Proof.
  intros H. unfold py_pos. destruct (Z.ltb_spec i 0).
  - destruct (Z.leb_spec 0 (i + Z.of_nat n)); [|lia]. destruct (Z.ltb_spec (i + Z.of_nat n) (Z.of_nat n)); [|lia]. eexists; reflexivity.
  - destruct (Z.leb_spec 0 i); [|lia]. destruct (Z.ltb_spec i (Z.of_nat n)); [|lia]. eexists; reflexivity.
Qed.

(** C106.  With an index or an array of indices the transfer functions and the steering vectors are the addressed rows of the full
    matrices, negative indices from the end. *)
Theorem C106_index : forall dist c gpos mpos ref f st,
  match ref with Distance d => 0 < d | Point _ => True end -> (2 <= length mpos)%nat ->
  exists T H, sv_transfer dist c gpos mpos ref f All = inl T /\ sv_steer dist c gpos mpos ref st f All = inl H
    /\ (forall i, (- Z.of_nat (length gpos) <= i < Z.of_nat (length gpos))%Z ->
         exists t h, sv_transfer dist c gpos mpos ref f (One i) = inl [t] /\ sv_steer dist c gpos mpos ref st f (One i) = inl [h]
           /\ addressed i (length gpos) t (fun j => nth j T []) /\ addressed i (length gpos) h (fun j => nth j H []))
    /\ (forall l, Forall (fun i => (- Z.of_nat (length gpos) <= i < Z.of_nat (length gpos))%Z) l ->
         exists t h, sv_transfer dist c gpos mpos ref f (Many l) = inl t /\ sv_steer dist c gpos mpos ref st f (Many l) = inl h
           /\ Forall2 (fun i x => addressed i (length gpos) x (fun j => nth j T [])) l t
           /\ Forall2 (fun i x => addressed i (length gpos) x (fun j => nth j H [])) l h).
Proof.
  intros dist c gpos mpos ref f st Hr Hm. set (F := point_row dist c mpos ref f).
  exists (map F gpos), (map (steer_row st) (map F gpos)). unfold sv_steer. rewrite transfer_all by auto. fold F.
  assert (NT : forall j, (j < length gpos)%nat -> nth j (map F gpos) [] = F (nth j gpos (0, 0, 0))).
  { intros j Hj. rewrite (nth_indep _ [] (F (0, 0, 0))) by now rewrite map_length. apply map_nth. }
  assert (NH : forall j, (j < length gpos)%nat -> nth j (map (steer_row st) (map F gpos)) [] = steer_row st (F (nth j gpos (0, 0, 0)))).
  { intros j Hj. rewrite map_map. rewrite (nth_indep _ [] (steer_row st (F (0, 0, 0)))) by now rewrite map_length. apply (map_nth (fun x => steer_row st (F x))). }
  split; [reflexivity|]. split; [reflexivity|]. split.
  - intros i Hi. destruct (py_pos_ok _ _ Hi) as (j & Ej). rewrite transfer_one by auto. rewrite Ej. fold F.
    exists (F (nth j gpos (0, 0, 0))), (steer_row st (F (nth j gpos (0, 0, 0)))). split; [reflexivity|]. split; [reflexivity|].
    pose proof (py_pos_lt _ _ _ Ej) as Lj. rewrite <- (NH j Lj), <- (NT j Lj). split; [exact (py_pos_addressed _ _ _ Ej (fun j => nth j (map F gpos) []))|exact (py_pos_addressed _ _ _ Ej (fun j => nth j (map (steer_row st) (map F gpos)) []))].
  - intros l Hl. rewrite (transfer_many dist c gpos mpos ref Hr (or_introl Hm) f l (0, 0, 0)).
    assert (G : exists sel, @gather position (0, 0, 0) gpos l = Some sel
      /\ Forall2 (fun i x => addressed i (length gpos) x (fun j => nth j (map F gpos) [])) l (map F sel)
      /\ Forall2 (fun i x => addressed i (length gpos) x (fun j => nth j (map (steer_row st) (map F gpos)) [])) l (map (steer_row st) (map F sel))).
    { induction Hl as [|i l Hi Hl (sel & Es & A1 & A2)].
      - exists []. repeat split; constructor.
      - destruct (py_pos_ok _ _ Hi) as (j & Ej). pose proof (py_pos_lt _ _ _ Ej) as Lj. exists (nth j gpos (0, 0, 0) :: sel). unfold gather; cbn [fold_right]. fold (@gather position (0, 0, 0) gpos l). rewrite Ej, Es.
        split; [reflexivity|]. split; constructor; auto.
        + rewrite <- (NT j Lj). exact (py_pos_addressed _ _ _ Ej (fun j => nth j (map F gpos) [])).
        + rewrite <- (NH j Lj). exact (py_pos_addressed _ _ _ Ej (fun j => nth j (map (steer_row st) (map F gpos)) [])). }
    destruct G as (sel & Es & A1 & A2). rewrite Es. fold F. exists (map F sel), (map (steer_row st) (map F sel)). auto.
Qed.
Print Assumptions C106_index.

(** * Steering vectors *)
Lemma steer_vector_ext n st a b : (forall m, (m < n)%nat -> a m = b m) -> forall m, (m < n)%nat -> steer_vector n st a m = steer_vector n st b m.
Proof.
  intros H m Hm. unfold steer_vector. rewrite (csum_ext n (fun j => a j * Conj (a j))%C (fun j => b j * Conj (b j))%C) by (intros j Hj; now rewrite H).
  now rewrite H.
Qed.

(** C106.  The steering vectors of a grid point, with h^H a = sum of conj(h_m) a_m: 'true level' and 'inverse' have h^H a = 1 and 'true level' is the
    shortest of all vectors with h^H a = 1; the parts of 'classic' have magnitude 1/M; 'true location' has the length 1/sqrt M. *)
Theorem C106_steer : forall dist c gpos mpos a ref f st,
  set_ref a = inl ref -> a <> Scalar (Some 0) -> (forall g p, 0 < dist g p) -> (2 <= length mpos)%nat ->
  exists T H, sv_transfer dist c gpos mpos ref f All = inl T /\ sv_steer dist c gpos mpos ref st f All = inl H /\ length H = length gpos
    /\ forall i, (i < length gpos)%nat -> let M := length mpos in
       let t := fun m => nth m (nth i T []) C0 in let h := fun m => nth m (nth i H []) C0 in
       length (nth i H []) = M
       /\ match st with
          | Classic => forall m, (m < M)%nat -> Cabs (h m) = 1 / INR M
          | Inverse => inner M h t = C1
          | TrueLevel => inner M h t = C1
              /\ forall h', inner M h' t = C1 -> rsumn M (fun m => norm2 (h m)) <= rsumn M (fun m => norm2 (h' m))
          | TrueLocation => rsumn M (fun m => norm2 (h m)) = 1 / INR M
          end.
Proof.
  intros dist c gpos mpos a ref f st Ea Na Hd Hm. destruct (ref_set dist a ref Ea Na) as [Hr Er].
  set (F := point_row dist c mpos ref f). exists (map F gpos), (map (steer_row st) (map F gpos)).
  unfold sv_steer. rewrite transfer_all by auto. fold F. split; [reflexivity|]. split; [reflexivity|]. split; [now rewrite !map_length|].
  intros i Hi. cbv zeta. set (M := length mpos). set (g := nth i gpos (0, 0, 0)).
  assert (NT : nth i (map F gpos) [] = F g).
  { rewrite (nth_indep _ [] (F (0, 0, 0))) by now rewrite map_length. apply map_nth. }
  assert (NH : nth i (map (steer_row st) (map F gpos)) [] = steer_row st (F g)).
  { rewrite map_map. rewrite (nth_indep _ [] (steer_row st (F (0, 0, 0)))) by now rewrite map_length. apply (map_nth (fun x => steer_row st (F x))). }
  rewrite NT, NH.
  assert (LF : length (F g) = M) by (unfold F, point_row; now rewrite transfer_row_length, map_length).
  split; [unfold steer_row; now rewrite map_length, seq_length|].
  set (k := 2 * PI * f / c). set (r0 := ref_distance dist ref g). set (r := fun j => nth j (map (dist g) mpos) 0).
  assert (TR : forall m, (m < M)%nat -> nth m (F g) C0 = transfer r0 k r m).
  { intros m Hlt. unfold F, point_row. rewrite transfer_row_nth by now rewrite map_length. reflexivity. }
  assert (HR : forall m, (m < M)%nat -> nth m (steer_row st (F g)) C0 = steer_vector M st (transfer r0 k r) m).
  { intros m Hlt. rewrite steer_row_nth by now rewrite LF. rewrite LF. apply steer_vector_ext; auto. }
  assert (R0 : 0 < r0) by (unfold r0; destruct ref; cbn; [exact Hr|apply Hd]).
  assert (RP : forall m, (m < M)%nat -> 0 < r m).
  { intros m Hlt. unfold r. rewrite (nth_indep _ 0 (dist g (0, 0, 0))) by now rewrite map_length. rewrite map_nth. apply Hd. }
  assert (MP : (0 < M)%nat) by (unfold M; lia). assert (NP : 0 < INR M) by now apply lt_0_INR.
  assert (IN : inner M (fun m => nth m (steer_row st (F g)) C0) (fun m => nth m (F g) C0) = inner M (steer_vector M st (transfer r0 k r)) (transfer r0 k r)).
  { apply inner_ext. intros m Hlt. auto. }
  assert (NN : rsumn M (fun m => norm2 (nth m (steer_row st (F g)) C0)) = steer_norm M (steer_vector M st (transfer r0 k r))).
  { unfold steer_norm. rewrite re_csum. apply rsumn_ext. intros m Hlt. rewrite HR by exact Hlt. now rewrite mul_Conj. }
  destruct st.
  - intros m Hlt. rewrite HR by exact Hlt. rewrite steer_vector_raw by assumption. apply Cabs_sqrt_RtoC.
    + apply Rlt_le, Rdiv_lt_0_compat; lra.
    + rewrite norm2_mul, steer_factor_norm2, norm2_raw with (n := M) by assumption. field. lra.
  - rewrite IN. now apply own_inverse.
  - assert (I1 : inner M (fun m => nth m (steer_row TrueLevel (F g)) C0) (fun m => nth m (F g) C0) = C1).
    { rewrite IN. now apply own_true_level. }
    split; [exact I1|]. intros h' E.
    set (t := transfer r0 k r) in *. pose proof (sum_norm2_a M k r0 r MP R0 RP) as A0. fold t in A0. set (A := rsumn M (fun m => norm2 (t m))) in *.
    assert (E' : inner M t h' = C1).
    { rewrite <- inner_conj. rewrite (inner_ext M h' h' t (fun m => nth m (F g) C0)) by (intros m Hlt; rewrite TR by exact Hlt; auto).
      rewrite E. unfold Conj, C1. cbn. f_equal. ring. }
    pose proof (cauchy_schwarz M t h' A0) as CS. rewrite E' in CS. fold A in CS. unfold norm2 at 1 in CS. cbn [fst snd C1] in CS.
    rewrite NN. assert (HN : steer_norm M (steer_vector M TrueLevel t) * A = 1).
    { assert (SA : csum M (fun j => t j * Conj (t j))%C = RtoC A) by (unfold A; rewrite <- csum_RtoC; apply csum_ext; intros; apply mul_Conj).
      unfold steer_norm. rewrite re_csum. rewrite (rsumn_ext M _ (fun m => / (A * A) * norm2 (t m))).
      - rewrite rsumn_scal. fold A. field. lra.
      - intros m _. rewrite mul_Conj. change (re (RtoC (norm2 (steer_vector M TrueLevel t m)))) with (norm2 (steer_vector M TrueLevel t m)).
        unfold steer_vector. rewrite SA. unfold norm2, Cdiv, Cmul, Cinv, RtoC. cbn [fst snd]. unfold norm2. cbn [fst snd]. field. lra. }
    assert (CS1 : 1 <= A * rsumn M (fun m => norm2 (h' m))) by (unfold C1 in CS; cbn in CS; lra).
    apply Rmult_le_reg_r with A; [exact A0|]. lra.
  - rewrite NN. rewrite (steer_norm_vector M r0 k r MP R0 RP TrueLocation). reflexivity.
Qed.
Print Assumptions C106_steer.

(** "A scalar reference is the reference distance": false for zero, which the setter accepts; the transfer matrix then
    fails with TypeError. *)
Theorem C106_zero_refuted : exists a ref, set_ref a = inl ref /\
  forall dist c gpos mpos f ind, sv_transfer dist c gpos mpos ref f ind = inr (Py TypeError).
Proof.
  exists (Scalar (Some 0)), (Distance (Rabs 0)). split; [reflexivity|]. intros. unfold sv_transfer, get_r0. rewrite Rabs_R0.
  destruct (Rlt_dec 0 0); [lra|reflexivity].
Qed.
Print Assumptions C106_zero_refuted.

(** "The transfer matrix exists for every array": false; with a single microphone and two grid points or more NumPy refuses the
    shapes. *)
Theorem C106_single_refuted : forall dist c gpos mic f, (2 <= length gpos)%nat ->
  sv_transfer dist c gpos [mic] default_ref f All = inr (Py ValueError).
Proof.
  intros dist c gpos mic f H. unfold sv_transfer, default_ref. cbn [get_r0 env_r]. unfold calc_transfer, get_rm. cbn [env_r length].
  rewrite map_length. destruct gpos as [|g [|h l]]; cbn in H; try lia. reflexivity.
Qed.
Print Assumptions C106_single_refuted.

(** C106.  Rounding the phase to single precision leaves the magnitude and moves the transfer function by at most the unit
    roundoff times the phase, relative to the magnitude. *)
Theorem C106_phase : forall rnd u, rounding rnd u -> forall r0 k r m, 0 < r0 -> 0 < r m ->
  Cabs (transfer_rounded rnd r0 k r m) = r0 / r m
  /\ Cabs (transfer_rounded rnd r0 k r m - transfer r0 k r m)%C <= r0 / r m * (u * Rabs (k * (r m - r0))).
Proof.
  intros rnd u RD r0 k r m H0 Hm. pose proof (r_unit rnd u RD) as U. set (p := k * (r m - r0)). set (a := rnd p).
  assert (Q : 0 < r0 / r m) by (apply Rdiv_lt_0_compat; lra).
  assert (E : forall z, (z * RtoC r0 / RtoC (r m))%C = (z * RtoC (r0 / r m))%C).
  { intros z. rewrite RtoC_div by lra. field. apply RtoC_neq0. lra. }
  unfold transfer_rounded, transfer. cbv zeta. fold p. fold a. rewrite !E. split.
  - apply Cabs_sqrt_RtoC; [lra|]. rewrite norm2_mul, norm2_RtoC. rewrite cexp_neg, norm2_cexp. ring.
  - replace ((cos a, - sin a)%R * RtoC (r0 / r m) - (cos p, - sin p)%R * RtoC (r0 / r m))%C
      with (((cos a, - sin a)%R - (cos p, - sin p)%R) * RtoC (r0 / r m))%C by ring.
    rewrite Cabs_mul. rewrite (Cabs_sqrt_RtoC (RtoC (r0 / r m)) (r0 / r m)) by (try apply norm2_RtoC; lra). rewrite Rmult_comm.
    apply Rmult_le_compat_l; [lra|]. pose proof (phase_diff a p) as P. pose proof (r_err rnd u RD p) as R1. fold a in R1.
    apply Rle_trans with (2 := R1). unfold Cabs. apply Rle_trans with (sqrt ((a - p) * (a - p))); [now apply sqrt_le_1_alt|].
    fold (Rsqr (a - p)). rewrite sqrt_Rsqr_abs. lra.
Qed.
Print Assumptions C106_phase.

Example C106_phase_case : rounding (rne 24) (pow2 (Z.opp 24)).
Proof. apply rne_rounding. lia. Qed.

(** Two microphones, two grid points, a constant distance *)
Example C106_case : exists T, sv_transfer (fun _ _ => 2) 343 [(0, 0, 1); (1, 0, 1)] [(0, 0, 0); (1, 0, 0)] (Distance 1) 100 All = inl T
  /\ set_ref (Scalar (Some (-1))) = inl (Distance 1) /\ length T = 2%nat.
Proof.
  destruct (C106_transfer_partial (fun _ _ => 2) 343 [(0, 0, 1); (1, 0, 1)] [(0, 0, 0); (1, 0, 0)] (Scalar (Some 1)) (Distance 1) 100) as (T & E & L & _).
  - cbn. now rewrite Rabs_R1.
  - intros E. injection E. lra.
  - intros; lra.
  - cbn; lia.
  - exists T. split; [exact E|]. split; [cbn; rewrite Rabs_left by lra; do 2 f_equal; lra|exact L].
Qed.
