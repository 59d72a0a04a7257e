(** Property C136: adding an independent sound never lowers a map. *)
From Coq Require Import List Arith Lia ZArith Bool Reals Lra FunctionalExtensionality.
From Verif Require Import Stream Cplx Buffer Frames Convolve Fourier Beamform Csm Deconv Subspace Spectral OrthSep Resolve Heinz AddSound Props_OrthSep Props_Resolve Props_RemovedSep.
Import ListNotations.
Local Open Scope R_scope.

(** Cross spectral matrix of a sound: Hermitian, no negative power in any direction. *)
Definition sound (n : nat) (c : nat -> nat -> C) : Prop := hermitian n c /\ forall x, 0 <= re (qform n c x).

(** Two independent sounds at the same time: the matrices add. *)
Definition together (c e : nat -> nat -> C) (i j : nat) : C := (c i j + e i j)%C.

Lemma together_form n c e x : re (qform n (together c e) x) = re (qform n c x) + re (qform n e x).
Proof.
  unfold qform, together. rewrite <- re_add, <- csum_add. f_equal. apply csum_ext. intros i _.
  rewrite <- csum_add. apply csum_ext. intros j _. ring.
Qed.

Lemma together_sound n c e : sound n c -> sound n e -> sound n (together c e).
Proof.
  intros [H1 P1] [H2 P2]. split.
  - intros i j Hi Hj. unfold together. now rewrite Conj_add, <- (H1 i j Hi Hj), <- (H2 i j Hi Hj).
  - intros x. rewrite together_form. specialize (P1 x). specialize (P2 x). lra.
Qed.

(** BeamformerBase, full matrix: the levels add. *)
Theorem C136_base n r0 k r st c e rdn :
  (0 < n)%nat -> 0 < r0 -> (forall m, (m < n)%nat -> 0 < r m) -> sound n c -> sound n e ->
  exists x y, bf_base n c r0 k r false rdn st = Some x /\ bf_base n e r0 k r false rdn st = Some y /\ 0 <= x /\ 0 <= y
    /\ bf_base n (together c e) r0 k r false rdn st = Some (x + y).
Proof.
  intros Hn H0 Hr Hc He. pose proof (together_sound n c e Hc He) as [Ht _]. destruct Hc as [Hc Pc], He as [He Pe].
  set (h := steer_vector n st (transfer r0 k r)).
  exists (re (qform n c h)), (re (qform n e h)). rewrite !(base_form n r0 k r st Hn H0 Hr) by assumption. fold h.
  do 2 (split; [reflexivity|]). do 2 (split; [auto|]). now rewrite together_form.
Qed.
Print Assumptions C136_base.

(** BeamformerFunctional, every exponent from one on: the level of both sounds is
    at least the sum of the levels. *)
Theorem C136_functional n r0 k r st c e evc vc eve ve evt vt gamma :
  (0 < n)%nat -> 0 < r0 -> (forall m, (m < n)%nat -> 0 < r m) -> sound n c -> sound n e -> 1 <= gamma ->
  is_eigh n c evc vc -> is_eigh n e eve ve -> is_eigh n (together c e) evt vt ->
  let x := bf_functional n npow gamma evc vc r0 k r st in
  let y := bf_functional n npow gamma eve ve r0 k r st in
  0 <= x /\ 0 <= y /\ x + y <= bf_functional n npow gamma evt vt r0 k r st.
Proof.
  intros Hn H0 Hr Sc Se Hg Ec Ee Et x y. pose proof (together_sound n c e Sc Se) as [Ht Pt]. destruct Sc as [Hc Pc], Se as [He Pe].
  pose proof (eva_nonneg n c evc vc Hc Ec Pc) as N1. pose proof (eva_nonneg n e eve ve He Ee Pe) as N2. pose proof (eva_nonneg n _ evt vt Ht Et Pt) as N3.
  unfold x, y. pose proof (size_factor n r0 k r st Hn H0 Hr gamma) as S.
  rewrite !(functional_form n r0 k r st Hn H0 Hr gamma) by (lra || assumption).
  pose proof (power_sum n c e (together c e) evc eve evt vc ve vt Hc He Ht Ec Ee Et Pc Pe (together_form n c e) (steer_vector n st (transfer r0 k r)) gamma Hg) as P. cbv beta zeta in P.
  split; [apply Rmult_le_pos; [apply npow_nonneg|lra]|]. split; [apply Rmult_le_pos; [apply npow_nonneg|lra]|].
  rewrite <- Rmult_plus_distr_r. apply Rmult_le_compat_r; [lra|exact P].
Qed.
Print Assumptions C136_functional.

(** BeamformerCapon: a further sound never lowers the map; two sounds, both with a
    matrix of full rank, give at least the sum of their levels. *)
Theorem C136_capon n r0 k r st c e ic it :
  (0 < n)%nat -> 0 < r0 -> (forall m, (m < n)%nat -> 0 < r m) -> hermitian n c -> positive_definite n c -> sound n e ->
  is_inverse n c ic -> is_inverse n (together c e) it ->
  exists x z, capon n ic r0 k r st = Some x /\ capon n it r0 k r st = Some z /\ 0 < x /\ x <= z
    /\ forall ie, positive_definite n e -> is_inverse n e ie ->
         exists y, capon n ie r0 k r st = Some y /\ 0 < y /\ x + y <= z.
Proof.
  intros Hn H0 Hr Hc Pc Se Ic It. pose proof (together_sound n c e (conj Hc (pd_semi n c Pc)) Se) as [Ht _]. destruct Se as [He Pe].
  assert (Pt : positive_definite n (together c e)) by (intros x Nx; rewrite together_form; specialize (Pc x Nx); specialize (Pe x); lra).
  set (h := steer_vector n st (transfer r0 k r)).
  destruct (capon_eq n r0 k r Hn H0 Hr c ic st Hc Ic Pc) as [Q1 E1]. destruct (capon_eq n r0 k r Hn H0 Hr _ it st Ht It Pt) as [Q2 E2].
  fold h in Q1, E1, Q2, E2. set (q := re (qform n ic h)) in *. set (w := re (qform n it h)) in *.
  pose proof (lt_0_INR n Hn) as PN. assert (P2 : 0 < INR n * INR n) by now apply Rmult_lt_0_compat.
  assert (G : forall u, 0 < u -> 0 < INR n * INR n * u) by (intros; now apply Rmult_lt_0_compat).
  pose proof (inv_bound n c (together c e) ic it Hc Ht Ic It Pc h) as B1. fold q w in B1.
  pose proof (inverse_qform n (together c e) it Ht It h) as F. apply (f_equal re) in F. rewrite together_form in F. fold w in F.
  set (fc := re (qform n c (matvec n it h))) in *. set (fe := re (qform n e (matvec n it h))) in *.
  assert (Fe : 0 <= fe) by apply Pe.
  exists (1 / (INR n * INR n * q)), (1 / (INR n * INR n * w)). split; [exact E1|]. split; [exact E2|].
  split; [apply Rdiv_lt_0_compat; [lra|auto]|].
  assert (S : forall u, 0 < u -> 1 / (INR n * INR n * u) = / (INR n * INR n) * / u) by (intros; field; lra).
  assert (Pi : 0 < / (INR n * INR n)) by now apply Rinv_0_lt_compat.
  assert (L1 : / q <= fc / (w * w)).
  { apply (Rmult_le_reg_r (q * (w * w))); [repeat apply Rmult_lt_0_compat; assumption|]. replace (/ q * (q * (w * w))) with (w * w) by (field; lra).
    replace (fc / (w * w) * (q * (w * w))) with (q * fc) by (field; lra). exact B1. }
  assert (LW : / w = fc / (w * w) + fe / (w * w)) by (rewrite F at 1; rewrite F in Q2; rewrite F; field; lra).
  assert (Pw : 0 < w * w) by now apply Rmult_lt_0_compat.
  split.
  - rewrite !S by assumption. apply Rmult_le_compat_l; [lra|]. rewrite LW. assert (0 <= fe / (w * w)) by now apply Rle_mult_inv_pos. lra.
  - intros ie Pde Ie. destruct (capon_eq n r0 k r Hn H0 Hr e ie st He Ie Pde) as [Q3 E3]. fold h in Q3, E3. set (u := re (qform n ie h)) in *.
    exists (1 / (INR n * INR n * u)). split; [exact E3|]. split; [apply Rdiv_lt_0_compat; [lra|auto]|].
    pose proof (inv_bound n e (together c e) ie it He Ht Ie It Pde h) as B2. fold u w fe in B2.
    assert (L2 : / u <= fe / (w * w)).
    { apply (Rmult_le_reg_r (u * (w * w))); [repeat apply Rmult_lt_0_compat; assumption|]. replace (/ u * (u * (w * w))) with (w * w) by (field; lra).
      replace (fe / (w * w) * (u * (w * w))) with (u * fe) by (field; lra). exact B2. }
    rewrite !S by assumption. rewrite <- Rmult_plus_distr_l. apply Rmult_le_compat_l; lra.
Qed.
Print Assumptions C136_capon.

(** Diagonal removed, the default: a second independent source takes the first
    one away. *)
Theorem C136_removed_refuted : exists n r0 k (r : nat -> R) st c e x,
  (0 < n)%nat /\ 0 < r0 /\ (forall m, (m < n)%nat -> 0 < r m) /\ sound n c /\ sound n e
  /\ bf_base n c r0 k r true 0 st = Some x /\ bf_base n (together c e) r0 k r true 0 st = Some 0 /\ x = 16 / 25.
Proof.
  destruct C132_case as (_ & P0 & P1 & (_ & A2 & _) & _).
  assert (Rs : forall K, (K <= 2)%nat -> resolved 2 K PI two_r0 two_r (fun s => s) (fun _ => 1)) by (intros K HK; split; [intros; lra|intros; apply A2; lia]).
  set (a := transfer (two_r0 1) PI (two_r 1)).
  exists 2%nat, (two_r0 0), PI, (two_r 0), TrueLevel, (sources_csm 0 1 PI two_r0 two_r (fun s => s) (fun _ => 1)), (monopole_csm 1 a), (16 / 25).
  split; [lia|]. split; [apply P0|]. split; [intros; apply P1|].
  split; [|split; [|split; [|split; [|reflexivity]]]].
  - split; [apply (noisy_hermitian 2 1 0 (fun _ => 1) (fun s => transfer (two_r0 s) PI (two_r s)))|]. intros x.
    pose proof (noisy_form 2 1 0 (fun _ => 1) (fun s => transfer (two_r0 s) PI (two_r s)) x) as Q. cbv beta in Q.
    refine (Rle_trans _ _ _ _ (Req_le _ _ (eq_sym Q))). rewrite Rmult_0_l, Rplus_0_l. cbn [rsumn].
    pose proof (norm2_nonneg (inner 2 (transfer (two_r0 0) PI (two_r 0)) x)). lra.
  - split; [apply monopole_hermitian|]. intros x. rewrite qform_monopole. cbn [re RtoC fst]. pose proof (norm2_nonneg (inner 2 x a)). lra.
  - rewrite (C134_removed 2 1 0 PI two_r0 two_r (fun s => s) (fun _ => 1) TrueLevel 0 ltac:(lia) P0 P1 (Rs 1%nat ltac:(lia)) (or_introl eq_refl) ltac:(lia)). cbv zeta. f_equal.
    unfold common_power, array_power, two_r0, two_r. cbn [rsumn Nat.eqb]. change (INR 2) with 2.
    unfold Rmax. destruct (Rle_dec _ _) as [|N]; [field|]. exfalso. apply N. lra.
  - assert (T : together (sources_csm 0 1 PI two_r0 two_r (fun s => s) (fun _ => 1)) (monopole_csm 1 a) = sources_csm 0 2 PI two_r0 two_r (fun s => s) (fun _ => 1)).
    { apply functional_extensionality. intros i. apply functional_extensionality. intros j. unfold together, sources_csm, monopole_csm. cbn [csum]. unfold a. ring. }
    rewrite T. rewrite (C134_removed 2 2 0 PI two_r0 two_r (fun s => s) (fun _ => 1) TrueLevel 0 ltac:(lia) P0 P1 (Rs 2%nat ltac:(lia)) (or_introl eq_refl) ltac:(lia)). cbv zeta. f_equal.
    unfold common_power, array_power, two_r0, two_r. cbn [rsumn Nat.eqb]. change (INR 2) with 2.
    unfold Rmax. destruct (Rle_dec _ _); [field|reflexivity].
Qed.
Print Assumptions C136_removed_refuted.

Lemma npow_2 x : 0 <= x -> npow x 2 = x * x.
Proof.
  intros H. unfold npow. destruct (Req_EM_T x 0) as [-> | N]; [ring|]. replace 2 with (1 + 1) by ring. rewrite Rpower_plus, Rpower_1 by lra. reflexivity.
Qed.

Definition quiet (m : nat) : C := RtoC (if (m =? 0)%nat then 2 else -3).
Definition further (m : nat) : C := RtoC (if (m =? 0)%nat then 2 else 3).
Definition quiet_eva (e : nat) : R := if (e =? 0)%nat then 0 else 13.
Definition quiet_eve (m e : nat) : C :=
  RtoC ((if (e =? 0)%nat then (if (m =? 0)%nat then 3 else 2) else (if (m =? 0)%nat then 2 else -3)) / sqrt 13).
Definition both_eva (e : nat) : R := if (e =? 0)%nat then 8 else 18.
Definition unit_eve (m e : nat) : C := if (m =? e)%nat then C1 else C0.

Lemma monopole_sound n a : sound n (monopole_csm 1 a).
Proof. split; [apply monopole_hermitian|]. intros x. rewrite qform_monopole. cbn [re RtoC fst]. pose proof (norm2_nonneg (inner n x a)). lra. Qed.

Lemma quiet_eigh : is_eigh 2 (monopole_csm 1 quiet) quiet_eva quiet_eve.
Proof.
  assert (S : 0 < sqrt 13) by (apply sqrt_lt_R0; lra). assert (Q : / sqrt 13 * / sqrt 13 = / 13) by (rewrite <- Rinv_mult, sqrt_sqrt by lra; reflexivity).
  set (q := / sqrt 13) in *. split; [|split].
  - intros e i He Hi. destruct e as [|[|]]; [| |lia]; (destruct i as [|[|]]; [| |lia]); unfold monopole_csm, quiet, quiet_eva, quiet_eve, Rdiv; fold q; cbn [Nat.eqb csum];
      unfold RtoC, Conj, Cadd, Cmul, C0; cbn [fst snd]; f_equal; ring.
  - intros e f He Hf. destruct e as [|[|]]; [| |lia]; (destruct f as [|[|]]; [| |lia]); unfold quiet_eve, Rdiv; fold q; cbn [Nat.eqb csum];
      unfold RtoC, Conj, Cadd, Cmul, C0, C1; cbn [fst snd]; f_equal; nra.
  - intros e f L Hf. destruct e as [|[|]]; [| |lia]; (destruct f as [|[|]]; [| |lia]); unfold quiet_eva; cbn [Nat.eqb]; (lra || lia).
Qed.

Lemma both_eigh : is_eigh 2 (together (monopole_csm 1 quiet) (monopole_csm 1 further)) both_eva unit_eve.
Proof.
  split; [|split].
  - intros e i He Hi. destruct e as [|[|]]; [| |lia]; (destruct i as [|[|]]; [| |lia]); unfold together, monopole_csm, quiet, further, both_eva, unit_eve; cbn [Nat.eqb csum];
      unfold RtoC, Conj, Cadd, Cmul, C0, C1; cbn [fst snd]; f_equal; ring.
  - intros e f He Hf. destruct e as [|[|]]; [| |lia]; (destruct f as [|[|]]; [| |lia]); unfold unit_eve; cbn [Nat.eqb csum];
      unfold RtoC, Conj, Cadd, Cmul, C0, C1; cbn [fst snd]; f_equal; ring.
  - intros e f L Hf. destruct e as [|[|]]; [| |lia]; (destruct f as [|[|]]; [| |lia]); unfold both_eva; cbn [Nat.eqb]; (lra || lia).
Qed.

(** BeamformerFunctional with an exponent below one: a further independent source
    lowers the map. *)
Theorem C136_exponent_refuted : exists n r0 k (r : nat -> R) st c e evc vc evt vt gamma,
  (0 < n)%nat /\ 0 < r0 /\ (forall m, (m < n)%nat -> 0 < r m) /\ sound n c /\ sound n e /\ gamma = 1 / 2
  /\ is_eigh n c evc vc /\ is_eigh n (together c e) evt vt
  /\ bf_functional n npow gamma evt vt r0 k r st < bf_functional n npow gamma evc vc r0 k r st.
Proof.
  exists 2%nat, (two_r0 0), PI, (two_r 0), TrueLevel, (monopole_csm 1 quiet), (monopole_csm 1 further), quiet_eva, quiet_eve, both_eva, unit_eve, (1 / 2).
  destruct C132_case as (_ & P0 & P1 & _). destruct two_transfer as (T00 & T01 & _).
  split; [lia|]. split; [apply P0|]. split; [intros; apply P1|]. do 2 (split; [apply monopole_sound|]). split; [reflexivity|].
  split; [exact quiet_eigh|]. split; [exact both_eigh|].
  assert (N1 : forall e, (e < 2)%nat -> 0 <= both_eva e) by (intros e _; unfold both_eva; destruct (e =? 0)%nat; lra).
  assert (N2 : forall e, (e < 2)%nat -> 0 <= quiet_eva e) by (intros e _; unfold quiet_eva; destruct (e =? 0)%nat; lra).
  rewrite !(functional_form 2 (two_r0 0) PI (two_r 0) TrueLevel ltac:(lia) (P0 _) (fun m _ => P1 _ m) (1 / 2)) by (lra || assumption).
  apply Rmult_lt_compat_r; [exact (size_factor 2 (two_r0 0) PI (two_r 0) TrueLevel ltac:(lia) (P0 _) (fun m _ => P1 _ m) (1 / 2))|].
  set (h := fun m : nat => RtoC (if (m =? 0)%nat then 4 / 5 else - (2 / 5))).
  assert (HV : forall m, (m < 2)%nat -> steer_vector 2 TrueLevel (transfer (two_r0 0) PI (two_r 0)) m = h m).
  { intros m Hm. unfold steer_vector, h. cbn [csum]. rewrite T00, T01, !Conj_RtoC. change C0 with (RtoC 0). rewrite <- !RtoC_mul, <- !RtoC_add.
    destruct m as [|[|]]; [| |lia]; cbn [Nat.eqb]; rewrite ?T00, ?T01, <- RtoC_div by lra; f_equal; field. }
  assert (QA : rsumn 2 (fun e => norm2 (inner 2 (fun i => unit_eve i e) (steer_vector 2 TrueLevel (transfer (two_r0 0) PI (two_r 0)))) * npow (both_eva e) (1 / (1 / 2))) = 4 / 25 * 580).
  { replace (1 / (1 / 2)) with 2 by field. unfold inner. cbn [csum rsumn]. rewrite !HV by lia. unfold unit_eve, both_eva, h. cbn [Nat.eqb].
    rewrite !npow_2 by lra. unfold norm2, RtoC, Conj, Cadd, Cmul, C0, C1. cbn [fst snd]. field. }
  assert (QB : rsumn 2 (fun e => norm2 (inner 2 (fun i => quiet_eve i e) (steer_vector 2 TrueLevel (transfer (two_r0 0) PI (two_r 0)))) * npow (quiet_eva e) (1 / (1 / 2))) = 4 / 25 * 637).
  { replace (1 / (1 / 2)) with 2 by field. unfold inner. cbn [csum rsumn]. rewrite !HV by lia. unfold quiet_eve, quiet_eva, h. cbn [Nat.eqb].
    rewrite !npow_2 by lra. assert (S : 0 < sqrt 13) by (apply sqrt_lt_R0; lra). assert (Q : / sqrt 13 * / sqrt 13 = / 13) by (rewrite <- Rinv_mult, sqrt_sqrt by lra; reflexivity).
    unfold norm2, RtoC, Conj, Cadd, Cmul, C0, C1, Rdiv. set (q := / sqrt 13) in *. cbn [fst snd].
    match goal with |- ?l = _ => replace l with (q * q * (13 * 13 * (14 * 14) * / 25)) by field end. rewrite Q. field. }
  rewrite QA, QB. apply Rnot_le_lt. intros L. apply (fun H => npow_le _ _ 2 (npow_nonneg _ _) H ltac:(lra)) in L.
  rewrite !npow_npow in L by lra. replace (1 / 2 * 2) with 1 in L by field. rewrite !npow_1 in L by lra. lra.
Qed.
Print Assumptions C136_exponent_refuted.

Lemma near_steer m : (m < 2)%nat ->
  steer_vector 2 TrueLevel (transfer (two_r0 0) PI (two_r 0)) m = RtoC (if (m =? 0)%nat then 4 / 5 else - (2 / 5)).
Proof.
  destruct two_transfer as (T00 & T01 & _). intros Hm. unfold steer_vector. cbn [csum]. rewrite T00, T01, !Conj_RtoC. change C0 with (RtoC 0). rewrite <- !RtoC_mul, <- !RtoC_add.
  destruct m as [|[|]]; [| |lia]; cbn [Nat.eqb]; rewrite ?T00, ?T01, <- RtoC_div by lra; f_equal; field.
Qed.

(** BeamformerFunctional: the level of two sounds is not the sum of the levels, here
    two microphones with noise of their own: 4/125 and 64/125 give 4/5. *)
Theorem C136_sum_refuted : exists n r0 k (r : nat -> R) st c e evc vc eve ve evt vt gamma,
  (0 < n)%nat /\ 0 < r0 /\ (forall m, (m < n)%nat -> 0 < r m) /\ sound n c /\ sound n e /\ 1 <= gamma
  /\ is_eigh n c evc vc /\ is_eigh n e eve ve /\ is_eigh n (together c e) evt vt
  /\ bf_functional n npow gamma evc vc r0 k r st + bf_functional n npow gamma eve ve r0 k r st < bf_functional n npow gamma evt vt r0 k r st.
Proof.
  set (one := fun e : nat => if (e =? 0)%nat then 0 else 1). set (swap := fun m e : nat => if (m =? e)%nat then C0 else C1).
  exists 2%nat, (two_r0 0), PI, (two_r 0), TrueLevel, (monopole_csm 1 (fun m => if (m =? 0)%nat then C0 else C1)), (monopole_csm 1 (fun m => if (m =? 0)%nat then C1 else C0)),
    one, unit_eve, one, swap, (fun _ => 1), unit_eve, 2.
  destruct C132_case as (_ & P0 & P1 & _).
  split; [lia|]. split; [apply P0|]. split; [intros; apply P1|]. do 2 (split; [apply monopole_sound|]). split; [lra|].
  assert (EG : forall c eva eve, (forall e i, (e < 2)%nat -> (i < 2)%nat -> csum 2 (fun j => c i j * eve j e)%C = (RtoC (eva e) * eve i e)%C) ->
     (eve = unit_eve \/ eve = swap) -> eva 0%nat <= eva 1%nat -> is_eigh 2 c eva eve).
  { intros c eva eve A B L. split; [exact A|split].
    - intros e f He Hf. destruct B as [-> | ->]; (destruct e as [|[|]]; [| |lia]); (destruct f as [|[|]]; [| |lia]); unfold unit_eve, swap; cbn [Nat.eqb csum];
        unfold Conj, Cadd, Cmul, C0, C1; cbn [fst snd]; f_equal; ring.
    - intros e f M Hf. destruct e as [|[|]]; [| |lia]; (destruct f as [|[|]]; [| |lia]); (lra || lia). }
  split; [|split; [|split]].
  1-3: apply EG; [|auto|unfold one; cbn [Nat.eqb]; lra]; intros e i He Hi; (destruct e as [|[|]]; [| |lia]); (destruct i as [|[|]]; [| |lia]);
    unfold together, monopole_csm, unit_eve, swap, one; cbn [Nat.eqb csum]; unfold RtoC, Conj, Cadd, Cmul, C0, C1; cbn [fst snd]; f_equal; ring.
  assert (N1 : forall e, (e < 2)%nat -> 0 <= one e) by (intros e _; unfold one; destruct (e =? 0)%nat; lra).
  assert (N2 : forall e, (e < 2)%nat -> 0 <= (fun _ : nat => 1) e) by (intros; lra).
  rewrite !(functional_form 2 (two_r0 0) PI (two_r 0) TrueLevel ltac:(lia) (P0 _) (fun m _ => P1 _ m) 2) by (lra || assumption).
  rewrite <- Rmult_plus_distr_r.
  apply Rmult_lt_compat_r; [exact (size_factor 2 (two_r0 0) PI (two_r 0) TrueLevel ltac:(lia) (P0 _) (fun m _ => P1 _ m) 2)|].
  assert (O : npow 1 (1 / 2) = 1) by (unfold npow; destruct (Req_EM_T 1 0); [lra|]; unfold Rpower; now rewrite ln_1, Rmult_0_r, exp_0).
  unfold inner. cbn [csum rsumn]. rewrite !near_steer by lia. unfold unit_eve, swap, one. cbn [Nat.eqb]. rewrite npow_0, O.
  unfold norm2, RtoC, Conj, Cadd, Cmul, C0, C1. cbn [fst snd].
  rewrite !npow_2 by lra. lra.
Qed.
Print Assumptions C136_sum_refuted.

Definition further_eve (m e : nat) : C :=
  RtoC ((if (e =? 0)%nat then (if (m =? 0)%nat then 3 else -2) else (if (m =? 0)%nat then 2 else 3)) / sqrt 13).
Definition strong (m e : nat) : C := if (m =? e)%nat then RtoC (if (m =? 0)%nat then 8 else 18) else C0.
Definition strong_inv (z : R) (m e : nat) : C := if (m =? e)%nat then RtoC (/ (z * if (m =? 0)%nat then 8 else 18)) else C0.

(** The hypotheses can be met, for BeamformerFunctional by two sources and for
    BeamformerCapon by noise of different power in the two channels. *)
Example C136_case :
  (0 < 2)%nat /\ 0 < two_r0 0 /\ (forall m, (m < 2)%nat -> 0 < two_r 0 m)
  /\ sound 2 (monopole_csm 1 quiet) /\ sound 2 (monopole_csm 1 further)
  /\ is_eigh 2 (monopole_csm 1 quiet) quiet_eva quiet_eve /\ is_eigh 2 (monopole_csm 1 further) quiet_eva further_eve
  /\ is_eigh 2 (together (monopole_csm 1 quiet) (monopole_csm 1 further)) both_eva unit_eve
  /\ sound 2 strong /\ positive_definite 2 strong /\ is_inverse 2 strong (strong_inv 1) /\ is_inverse 2 (together strong strong) (strong_inv 2).
Proof.
  destruct C132_case as (_ & P0 & P1 & _).
  split; [lia|]. split; [apply P0|]. split; [intros; apply P1|]. do 2 (split; [apply monopole_sound|]). split; [exact quiet_eigh|].
  assert (F : forall x, re (qform 2 strong x) = 8 * norm2 (x 0%nat) + 18 * norm2 (x 1%nat)).
  { intros x. unfold qform, strong. cbn [csum Nat.eqb]. unfold norm2, re, RtoC, Conj, Cadd, Cmul, C0. cbn [fst snd]. ring. }
  assert (SF : forall x, 0 <= re (qform 2 strong x)) by (intros x; rewrite F; pose proof (norm2_nonneg (x 0%nat)); pose proof (norm2_nonneg (x 1%nat)); lra).
  split; [|split; [exact both_eigh|split; [|split; [|split]]]].
  - assert (S : 0 < sqrt 13) by (apply sqrt_lt_R0; lra). assert (Q : / sqrt 13 * / sqrt 13 = / 13) by (rewrite <- Rinv_mult, sqrt_sqrt by lra; reflexivity).
    set (q := / sqrt 13) in *. split; [|split].
    + intros e i He Hi. destruct e as [|[|]]; [| |lia]; (destruct i as [|[|]]; [| |lia]); unfold monopole_csm, further, quiet_eva, further_eve, Rdiv; fold q; cbn [Nat.eqb csum];
        unfold RtoC, Conj, Cadd, Cmul, C0; cbn [fst snd]; f_equal; ring.
    + intros e f He Hf. destruct e as [|[|]]; [| |lia]; (destruct f as [|[|]]; [| |lia]); unfold further_eve, Rdiv; fold q; cbn [Nat.eqb csum];
        unfold RtoC, Conj, Cadd, Cmul, C0, C1; cbn [fst snd]; f_equal; nra.
    + intros e f L Hf. destruct e as [|[|]]; [| |lia]; (destruct f as [|[|]]; [| |lia]); unfold quiet_eva; cbn [Nat.eqb]; (lra || lia).
  - split; [|exact SF]. intros i j Hi Hj. destruct i as [|[|]]; [| |lia]; (destruct j as [|[|]]; [| |lia]); unfold strong; cbn [Nat.eqb]; unfold RtoC, Conj, C0; cbn [fst snd]; f_equal; ring.
  - intros x (m & Hm & N). rewrite F. pose proof (norm2_nonneg (x 0%nat)). pose proof (norm2_nonneg (x 1%nat)). pose proof (norm2_pos (x m) N).
    destruct m as [|[|]]; [| |lia]; lra.
  - intros i j Hi Hj. destruct i as [|[|]]; [| |lia]; (destruct j as [|[|]]; [| |lia]); unfold strong, strong_inv; cbn [Nat.eqb csum]; unfold RtoC, Cadd, Cmul, C0, C1; cbn [fst snd]; f_equal; field.
  - intros i j Hi Hj. destruct i as [|[|]]; [| |lia]; (destruct j as [|[|]]; [| |lia]); unfold together, strong, strong_inv; cbn [Nat.eqb csum]; unfold RtoC, Cadd, Cmul, C0, C1; cbn [fst snd]; f_equal; field.
Qed.
