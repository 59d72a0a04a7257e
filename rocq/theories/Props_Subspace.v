(* Properties C73 (Capon), C74 (MUSIC) and C75 (functional beamforming). *)
From Coq Require Import List Arith Lia ZArith Bool Reals Lra.
From Verif Require Import Stream Cplx Beamform Deconv Subspace.
Import ListNotations.
Local Open Scope R_scope.
Local Open Scope C_scope.

(* ------------------------------------------------------------------ *)
(* C73, bound: for a hermitian positive definite cross spectral matrix the
   Capon map is positive and never above the conventional map (formulations
   'classic' and 'true location'). *)
Theorem C73_bound_partial : forall n r0 k r c d st rdn,
  (0 < n)%nat -> (0 < r0)%R -> (forall m, (m < n)%nat -> (0 < r m)%R) ->
  hermitian n c -> is_inverse n c d -> positive_definite n c ->
  st = Classic \/ st = TrueLocation ->
  exists x y, capon n d r0 k r st = Some x /\ bf_base n c r0 k r false rdn st = Some y /\ (0 < x <= y)%R.
Proof. intros n r0 k r c d st rdn Hn H0 Hr Hc Hd Hp Hs. now apply capon_below. Qed.
Print Assumptions C73_bound_partial.

Example C73_bound_example : let c := fun _ _ : nat => RtoC 2 in let d := fun _ _ : nat => RtoC (1 / 2) in
  hermitian 1 c /\ is_inverse 1 c d /\ positive_definite 1 c.
Proof.
  cbv zeta. split; [|split].
  - intros i j _ _. now rewrite Conj_RtoC.
  - intros i j Hi Hj. replace i with 0%nat by lia. replace j with 0%nat by lia. simpl.
    rewrite <- RtoC_mul. unfold C1, C0, RtoC, Cadd. cbn. f_equal; lra.
  - intros x (m & Hm & Hx). replace m with 0%nat in Hx by lia.
    unfold qform. cbn [csum]. rewrite !re_add. cbn [re C0 fst].
    replace (Conj (x 0%nat) * RtoC 2 * x 0%nat) with (RtoC 2 * (Conj (x 0%nat) * x 0%nat)) by ring.
    rewrite Conj_mul_self, re_RtoC_mul. cbn. pose proof (norm2_pos _ Hx). lra.
Qed.

(* C73, level: one source in sensor noise, map at the position of the source.
   S is the sum of r0^2/r_m^2: where all distances equal the reference distance
   the value is the level of the source plus the noise over the number of
   microphones. *)
Theorem C73_source : forall n r0 k r s2 p2 d st,
  (0 < n)%nat -> (0 < r0)%R -> (forall m, (m < n)%nat -> (0 < r m)%R) -> (0 < s2)%R -> (0 <= p2)%R ->
  let a := transfer r0 k r in
  is_inverse n (fun i j => (if (i =? j)%nat then RtoC s2 else C0) + RtoC p2 * a i * Conj (a j)) d ->
  st = TrueLevel \/ st = TrueLocation ->
  let S := rsumn n (fun m => r0 * r0 / (r m * r m))%R in
  capon n d r0 k r st
  = Some ((p2 + s2 / S) * match st with TrueLevel => (S / INR n) * (S / INR n) | _ => S / INR n end)%R.
Proof.
  intros n r0 k r s2 p2 d st Hn H0 Hr H2 Hp a Hd Hs S.
  apply (capon_source n r0 k r Hn H0 Hr s2 p2 d st H2 Hp Hd Hs).
Qed.
Print Assumptions C73_source.

Lemma transfer_unit k m : transfer 1 k (fun _ => 1%R) m = C1.
Proof.
  unfold transfer. replace (k * (1 - 1))%R with 0%R by ring. rewrite cos_0, sin_0.
  change (RtoC 1) with C1. replace (1%R, (- 0)%R) with C1 by (unfold C1, RtoC; f_equal; lra).
  field. intros E. injection E. lra.
Qed.

Example C73_source_example : is_inverse 1 (fun i j => (if (i =? j)%nat then RtoC 1 else C0)
     + RtoC 1 * transfer 1 0 (fun _ => 1%R) i * Conj (transfer 1 0 (fun _ => 1%R) j)) (fun _ _ => RtoC (1 / 2)).
Proof.
  intros i j Hi Hj. replace i with 0%nat by lia. replace j with 0%nat by lia. cbn [csum Nat.eqb].
  rewrite !transfer_unit. unfold Cadd, Cmul, Conj, C1, C0, RtoC. cbn. f_equal; lra.
Qed.

(* 'true level' is not what the Capon beamformer reports: with the microphones
   twice as far away as the reference the level is wrong by the factor 16, with
   as little noise as wanted. *)
Theorem C73_true_level_refuted : exists n r0 k r, (0 < n)%nat /\ (0 < r0)%R /\ (forall m, (0 < r m)%R) /\
  forall s2 p2, (0 < s2)%R -> (0 < p2)%R -> exists d x,
  let a := transfer r0 k r in
  is_inverse n (fun i j => (if (i =? j)%nat then RtoC s2 else C0) + RtoC p2 * a i * Conj (a j)) d /\
  capon n d r0 k r TrueLevel = Some x /\ x = ((p2 + 4 * s2) / 16)%R.
Proof.
  exists 1%nat, 1%R, 0%R, (fun _ => 2%R). split; [lia|]. split; [lra|]. split; [intros; lra|].
  intros s2 p2 H2 Hp. exists (fun _ _ => RtoC (1 / (s2 + p2 / 4))). eexists.
  cbv zeta.
  assert (I : is_inverse 1 (fun i j => (if (i =? j)%nat then RtoC s2 else C0)
     + RtoC p2 * transfer 1 0 (fun _ => 2%R) i * Conj (transfer 1 0 (fun _ => 2%R) j)) (fun _ _ => RtoC (1 / (s2 + p2 / 4)))).
  { intros i j Hi Hj. replace i with 0%nat by lia. replace j with 0%nat by lia. cbn [csum Nat.eqb].
    replace (RtoC p2 * transfer 1 0 (fun _ => 2%R) 0 * Conj (transfer 1 0 (fun _ => 2%R) 0))
      with (RtoC p2 * (transfer 1 0 (fun _ => 2%R) 0 * Conj (transfer 1 0 (fun _ => 2%R) 0))) by ring.
    rewrite mul_Conj, transfer_norm2 by lra. rewrite <- RtoC_mul, <- RtoC_add, <- RtoC_mul.
    transitivity (RtoC 1); [|reflexivity]. transitivity (RtoC ((s2 + p2 * (1 * 1 / (2 * 2))) * (1 / (s2 + p2 / 4)))%R); [ring|].
    f_equal. field. lra. }
  split; [exact I|]. split.
  - apply (C73_source 1 1 0 (fun _ => 2%R) s2 p2 _ TrueLevel); auto; try lia; try lra. intros; lra.
  - cbn. field.
Qed.
Print Assumptions C73_true_level_refuted.

(* ------------------------------------------------------------------ *)
(* C74, scale: where the denominator never vanishes the largest value of the map
   is 4e-10, reached where the denominator is smallest, and every value is
   positive. *)
Theorem C74_scale : forall n k nsrc eva eve st grid, grid <> [] ->
  (forall g, In g grid -> (0 < music_out n nsrc eva eve k st g)%R) ->
  exists vals, music n nsrc eva eve k st grid = map Some vals
  /\ In (4e-10)%R vals /\ forall v, In v vals -> (0 < v <= 4e-10)%R.
Proof.
  intros n k nsrc eva eve st grid Hg Hp.
  destruct (music_scaled n k nsrc eva eve st grid Hg Hp) as (m & (g0 & I0 & E0) & Hm & E).
  exists (map (fun g => 4e-10 * (m / music_out n nsrc eva eve k st g))%R grid).
  assert (Pm : (0 < m)%R) by (rewrite <- E0; auto).
  split; [now rewrite E, map_map|]. split.
  - apply in_map_iff. exists g0. split; [|assumption]. rewrite E0. field. lra.
  - intros v Hv. apply in_map_iff in Hv. destruct Hv as (g & <- & Ig). specialize (Hp g Ig). specialize (Hm g Ig).
    assert (0 < m / music_out n nsrc eva eve k st g <= 1)%R.
    { split; [now apply Rdiv_lt_0_compat|]. apply Rmult_le_reg_r with (music_out n nsrc eva eve k st g); [assumption|].
      unfold Rdiv. rewrite Rmult_assoc, Rinv_l by lra. lra. }
    split; [apply Rmult_lt_0_compat; lra|]. lra.
Qed.
Print Assumptions C74_scale.

(* C74, strengths: K independent sources in sensor noise and n = K.  The map is
   the same for all source powers and all noise powers. *)
Theorem C74_strengths : forall n K a s2 p eva eve s2' p' eva' eve' k st grid,
  (0 < K)%nat -> (K < n)%nat -> (0 < s2)%R -> (0 < s2')%R ->
  (forall s, (s < K)%nat -> (0 < p s)%R) -> (forall s, (s < K)%nat -> (0 < p' s)%R) ->
  is_eigh n (noisy_csm s2 K p a) eva eve -> is_eigh n (noisy_csm s2' K p' a) eva' eve' ->
  independent n K a -> (forall g, In g grid -> good_point n g) ->
  music n (Z.of_nat K) eva eve k st grid = music n (Z.of_nat K) eva' eve' k st grid.
Proof.
  intros n K a s2 p eva eve s2' p' eva' eve' k st grid HK Hn H2 H2' Hp Hp' E E' Ha Hg.
  apply (music_invariant n K a s2 p eva eve s2' p' eva' eve'); auto. lia.
Qed.
Print Assumptions C74_strengths.

(* C74, position: at the position of a source the denominator is zero, for any
   number of sources up to [n]. *)
Theorem C74_position : forall n k K s2 p a eva eve nsrc st g s,
  (0 < n)%nat -> (forall s, (s < K)%nat -> (0 < p s)%R) ->
  is_eigh n (noisy_csm s2 K p a) eva eve -> (Z.of_nat K <= get_na nsrc (Z.of_nat n))%Z ->
  st = TrueLevel \/ st = TrueLocation -> good_point n g -> (s < K)%nat ->
  (forall m, (m < n)%nat -> a s m = transfer (fst g) k (snd g) m) ->
  music_out n nsrc eva eve k st g = 0%R.
Proof. intros. eapply music_source; eauto. Qed.
Print Assumptions C74_position.

(* The eigenvalues and eigenvectors of one unit source in front of two
   microphones in sensor noise. *)
Definition pair_eva (s2 p : R) (e : nat) : R := if (e =? 0)%nat then s2 else (s2 + 2 * p)%R.
Definition pair_eve (i e : nat) : C :=
  RtoC (if ((e =? 0) && (i =? 1))%nat then - / sqrt 2 else / sqrt 2)%R.

Lemma half : (/ sqrt 2 * / sqrt 2 = / 2)%R.
Proof. rewrite <- Rinv_mult. now rewrite sqrt_sqrt by lra. Qed.

Lemma pair_eigh s2 p : (0 <= p)%R -> is_eigh 2 (noisy_csm s2 1 (fun _ => p) (fun _ _ => C1)) (pair_eva s2 p) pair_eve.
Proof.
  intros Hp. pose proof half as H2. set (q := (/ sqrt 2)%R) in *. split; [|split].
  - intros e i He Hi. destruct e as [|[|]], i as [|[|]]; try lia; unfold noisy_csm, pair_eva, pair_eve; cbn -[sqrt];
      fold q; unfold Cadd, Cmul, Conj, C1, C0, RtoC; cbn; f_equal; ring.
  - intros e f He Hf. destruct e as [|[|]], f as [|[|]]; try lia; unfold pair_eve; cbn -[sqrt];
      fold q; unfold Cadd, Cmul, Conj, C1, C0, RtoC; cbn; f_equal; lra.
  - intros e f He Hf. unfold pair_eva. destruct e as [|[|]], f as [|[|]]; cbn; try lia; lra.
Qed.

Lemma pair_independent : independent 2 1 (fun _ _ => C1).
Proof.
  intros x H s Hs. replace s with 0%nat by lia. specialize (H 0%nat ltac:(lia)). cbn [csum] in H.
  rewrite <- H. ring.
Qed.

Definition far : R * (nat -> R) := (1%R, fun m => INR (S m)).
Definition near : R * (nat -> R) := (1%R, fun _ => 1%R).

Example C74_strengths_example :
  is_eigh 2 (noisy_csm 1 1 (fun _ => 3%R) (fun _ _ => C1)) (pair_eva 1 3) pair_eve
  /\ independent 2 1 (fun _ _ => C1) /\ good_point 2 far /\ good_point 2 near.
Proof.
  split; [apply pair_eigh; lra|]. split; [apply pair_independent|].
  split; (split; [cbn; lra|]); intros m Hm; cbn [far near snd]; [|lra]. apply lt_0_INR. lia.
Qed.

Lemma far_positive s2 p : (0 < s2)%R -> (0 < p)%R -> (0 < music_out 2 1 (pair_eva s2 p) pair_eve 0 TrueLevel far)%R.
Proof.
  intros H2 Hp.
  rewrite (music_noise 2 0 ltac:(lia) 1 s2 (fun _ => p) (fun _ _ => C1)); auto.
  - apply Rmult_lt_0_compat; [assumption|]. replace (Z.to_nat (Z.of_nat 2 - get_na 1 (Z.of_nat 2))) with 1%nat by reflexivity.
    cbn [rsumn]. rewrite Rplus_0_l. apply Rmult_lt_0_compat; [cbn; lra|]. apply norm2_pos.
    intros E. unfold inner in E. cbn [csum] in E. unfold steer_vector in E. cbn [csum] in E.
    assert (T0 : transfer (fst far) 0 (snd far) 0 = C1).
    { unfold transfer, far. cbn. rewrite Rmult_0_l, cos_0, sin_0. unfold Cdiv, Cmul, Cinv, C1, RtoC, norm2. cbn. f_equal; field; lra. }
    assert (T1 : transfer (fst far) 0 (snd far) 1 = RtoC (1 / 2)).
    { unfold transfer, far. cbn. rewrite Rmult_0_l, cos_0, sin_0. unfold Cdiv, Cmul, Cinv, C1, RtoC, norm2. cbn. f_equal; field; lra. }
    rewrite T0, T1 in E. pose proof half as HH. assert (Hq : (0 < / sqrt 2)%R) by (apply Rinv_0_lt_compat, sqrt_lt_R0; lra).
    unfold pair_eve in E. cbn -[sqrt] in E. set (q := (/ sqrt 2)%R) in *.
    unfold Cdiv, Cmul, Cinv, Conj, Cadd, C1, C0, RtoC, norm2 in E. cbn in E. injection E as E _.
    field_simplify in E; lra.
  - apply pair_eigh. lra.
  - cbn. lia.
  - apply C74_strengths_example.
Qed.

Example C74_scale_example : forall g, In g [far] -> (0 < music_out 2 1 (pair_eva 1 1) pair_eve 0 TrueLevel g)%R.
Proof. intros g [<-|[]]. apply far_positive; lra. Qed.

(* A source at a grid point therefore has no finite value in the map, and
   every other grid point gets zero. *)
Theorem C74_peak_refuted : exists n K s2 p a eva eve k st grid,
  (0 < K < n)%nat /\ (0 < s2)%R /\ (forall s, (0 < p s)%R) /\ is_eigh n (noisy_csm s2 K p a) eva eve
  /\ (forall g, In g grid -> good_point n g)
  /\ music n (Z.of_nat K) eva eve k st grid = [None; Some 0%R].
Proof.
  exists 2%nat, 1%nat, 1%R, (fun _ => 1%R), (fun _ _ => C1), (pair_eva 1 1), pair_eve, 0%R, TrueLevel, [near; far].
  split; [lia|]. split; [lra|]. split; [intros; lra|]. split; [apply pair_eigh; lra|].
  destruct C74_strengths_example as (_ & _ & G1 & G2).
  split; [intros g [<-|[<-|[]]]; assumption|].
  assert (Z : music_out 2 1 (pair_eva 1 1) pair_eve 0 TrueLevel near = 0%R).
  { apply (C74_position 2 0 1 1 (fun _ => 1%R) (fun _ _ => C1) _ _ _ _ near 0); auto; try lia.
    - intros; lra.
    - apply pair_eigh; lra.
    - cbn. lia.
    - intros m _. symmetry. apply transfer_unit. }
  assert (P : (0 < music_out 2 1 (pair_eva 1 1) pair_eve 0 TrueLevel far)%R) by (apply far_positive; lra).
  change (Z.of_nat 1) with 1%Z.
  rewrite (music_zero 2 0 1 _ _ TrueLevel [near; far] near); auto.
  - cbn [map]. rewrite Z. destruct (Req_EM_T 0 0); [|lra]. destruct (Req_EM_T _ 0); [lra|reflexivity].
  - intros g [<-|[<-|[]]]; [rewrite Z|]; lra.
  - left; reflexivity.
Qed.
Print Assumptions C74_peak_refuted.

(* Without noise the map has no value at all: the noise subspace is weighted
   with its eigenvalues, which are zero. *)
Theorem C74_noise_free_refuted : forall n k K p a eva eve nsrc st grid,
  (0 < n)%nat -> (forall s, (s < K)%nat -> (0 < p s)%R) -> is_eigh n (noisy_csm 0 K p a) eva eve ->
  (Z.of_nat K <= get_na nsrc (Z.of_nat n))%Z -> (forall g, In g grid -> good_point n g) ->
  music n nsrc eva eve k st grid = map (fun _ => None) grid.
Proof.
  intros n k K p a eva eve nsrc st grid Hn Hp E HK Hg. unfold music. rewrite map_map. apply map_ext_in.
  intros g Ig. rewrite (music_noise n k Hn K 0 p a eva eve nsrc st g Hp E HK (Hg g Ig)), Rmult_0_l.
  destruct (Req_EM_T 0 0); [reflexivity|lra].
Qed.
Print Assumptions C74_noise_free_refuted.

Example C74_noise_free_example : is_eigh 2 (noisy_csm 0 1 (fun _ => 1%R) (fun _ _ => C1)) (pair_eva 0 1) pair_eve
  /\ (Z.of_nat 1 <= get_na 1 (Z.of_nat 2))%Z.
Proof. split; [apply pair_eigh; lra|cbn; lia]. Qed.

(* ------------------------------------------------------------------ *)
(* C75, gamma: for orthonormal eigenvectors and non-negative eigenvalues a larger
   exponent never gives a larger map. *)
Theorem C75_decreasing : forall n r0 k r st eva eve g g',
  (0 < n)%nat -> (0 < r0)%R -> (forall m, (m < n)%nat -> (0 < r m)%R) ->
  (forall e f, (e < n)%nat -> (f < n)%nat ->
     csum n (fun i => Conj (eve i e) * eve i f) = if (e =? f)%nat then C1 else C0) ->
  (forall e, (e < n)%nat -> (0 <= eva e)%R) -> (0 < g)%R -> (g <= g')%R ->
  (bf_functional n npow g' eva eve r0 k r st <= bf_functional n npow g eva eve r0 k r st)%R.
Proof. intros. now apply functional_decreasing. Qed.
Print Assumptions C75_decreasing.

Example C75_decreasing_example : forall e f, (e < 2)%nat -> (f < 2)%nat ->
     csum 2 (fun i => Conj (pair_eve i e) * pair_eve i f) = if (e =? f)%nat then C1 else C0.
Proof. exact (proj1 (proj2 (pair_eigh 1 1 ltac:(lra)))). Qed.

(* C75, level: one source and no noise.  At the source the map has the same
   value for every exponent: the level of the source for 'true level', times the
   mean of r0^2/r^2 for 'true location'. *)
Theorem C75_source : forall n k r0 r p2 eva eve g st,
  (0 < n)%nat -> (0 < r0)%R -> (forall m, (m < n)%nat -> (0 < r m)%R) -> (0 < p2)%R -> (0 < g)%R ->
  let a := transfer r0 k r in
  is_eigh n (fun i j => RtoC p2 * a i * Conj (a j)) eva eve ->
  st = TrueLevel \/ st = TrueLocation ->
  let S := rsumn n (fun m => r0 * r0 / (r m * r m))%R in
  bf_functional n npow g eva eve r0 k r st = (p2 * match st with TrueLevel => 1 | _ => S / INR n end)%R.
Proof. intros. now apply functional_source. Qed.
Print Assumptions C75_source.

Example C75_source_example : is_eigh 2 (fun i j => RtoC 3 * transfer 1 0 (fun _ => 1%R) i * Conj (transfer 1 0 (fun _ => 1%R) j))
  (pair_eva 0 3) pair_eve.
Proof.
  destruct (pair_eigh 0 3 ltac:(lra)) as (E1 & E2 & E3). split; [|split; assumption].
  intros e i He Hi. rewrite <- (E1 e i He Hi). apply csum_ext. intros j _. rewrite !transfer_unit.
  unfold noisy_csm. cbn [csum]. destruct (i =? j)%nat; unfold Cadd, Cmul, Conj, C1, C0, RtoC; cbn; f_equal; ring.
Qed.
