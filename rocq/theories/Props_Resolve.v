(** Property C133: sources the array separates do not disturb each other. *)
From Coq Require Import List Arith Lia ZArith Bool Reals Lra.
From Verif Require Import Stream Cplx Buffer Frames Convolve Fourier Beamform Csm Deconv Subspace Spectral Rewire OrthSep Resolve Props_OrthSep.
Import ListNotations.
Local Open Scope R_scope.

(** Sources of positive strength at grid points with orthogonal transfer vectors. *)
Definition resolved (M K : nat) (k : R) (r0g : nat -> R) (rg : nat -> nat -> R) (pos : nat -> nat) (p : nat -> R) : Prop :=
  let h q := transfer (r0g q) k (rg q) in
  (forall s, (s < K)%nat -> 0 < p s)
  /\ forall s t, (s < K)%nat -> (t < K)%nat -> s <> t -> csum M (fun m => Conj (h (pos s) m) * h (pos t) m)%C = C0.

Section Common.
  Variables (M K : nat) (s2 k : R) (r0g : nat -> R) (rg : nat -> nat -> R) (pos : nat -> nat) (p : nat -> R).
  Hypotheses (HM : (0 < M)%nat) (H0 : forall q, 0 < r0g q) (Hr : forall q m, 0 < rg q m) (Hs2 : 0 <= s2)
    (Ha : resolved M K k r0g rg pos p).
  Let a s := transfer (r0g (pos s)) k (rg (pos s)).
  Let c := sources_csm s2 K k r0g rg pos p.
  Lemma own_eigvec s st i : (s < K)%nat -> st = TrueLevel \/ st = TrueLocation -> (i < M)%nat ->
    matvec M c (steer_vector M st (a s)) i = (RtoC (s2 + p s * array_power M (r0g (pos s)) (rg (pos s))) * steer_vector M st (a s) i)%C.
  Proof.
    intros Hs Hst Hi. destruct (steer_parallel M (r0g (pos s)) k (rg (pos s)) HM (H0 _) (fun m _ => Hr _ m) st Hst) as (z & Hz & _).
    fold (a s) in Hz. rewrite Hz by assumption. destruct Ha as [A1 A2].
    transitivity (matvec M (noisy_csm s2 K p a) (fun m => z * a s m)%C i).
    - unfold matvec. apply csum_ext. intros j Hj. now rewrite Hz.
    - rewrite <- (pw_power M k r0g rg pos Hr). apply (source_eigvec M K s2 p a A2); assumption.
  Qed.
  Lemma own_size s st : st = TrueLevel \/ st = TrueLocation -> let A := array_power M (r0g (pos s)) (rg (pos s)) in
    0 < A /\ rsumn M (fun m => norm2 (steer_vector M st (a s) m)) = match st with TrueLevel => 1 / A | _ => 1 / INR M end.
  Proof.
    intros Hst A. assert (PA : 0 < A) by (unfold A; rewrite <- (pw_power M k r0g rg pos Hr); now apply pw_pos). split; [exact PA|].
    destruct (steer_parallel M (r0g (pos s)) k (rg (pos s)) HM (H0 _) (fun m _ => Hr _ m) st Hst) as (z & Hz & Nz). fold (a s) in Hz, Nz.
    change (rsumn M (fun m => norm2 (a s m))) with (pw M a s) in Nz. unfold a at 1 2 3 in Nz. rewrite (pw_power M k r0g rg pos Hr) in Nz. fold A in Nz.
    rewrite (rsumn_ext M _ (fun m => norm2 z * norm2 (a s m))) by (intros m Hm; now rewrite Hz, norm2_mul).
    rewrite rsumn_scal, Nz. change (rsumn M (fun m => norm2 (a s m))) with (pw M a s). unfold a. rewrite (pw_power M k r0g rg pos Hr). fold A.
    pose proof (lt_0_INR M HM). destruct Hst as [-> | ->]; field; lra.
  Qed.
End Common.

(** 'true level' and 'true location': at the point of a source BeamformerBase,
    BeamformerFunctional with every exponent and BeamformerCapon give what they
    give for this source alone in the same noise. *)
Theorem C133_undisturbed M K s2 k r0g rg pos p st s :
  (0 < M)%nat -> (forall q, 0 < r0g q) -> (forall q m, 0 < rg q m) -> 0 <= s2 -> resolved M K k r0g rg pos p ->
  st = TrueLevel \/ st = TrueLocation -> (s < K)%nat ->
  let csm := sources_csm s2 K k r0g rg pos p in
  let A := array_power M (r0g (pos s)) (rg (pos s)) in
  let level := match st with TrueLevel => p s + s2 / A | _ => (p s * A + s2) / INR M end in
  0 < A
  /\ bf_base M csm (r0g (pos s)) k (rg (pos s)) false 0 st = Some level
  /\ (forall eva eve gamma, is_eigh M csm eva eve -> 0 < gamma ->
        bf_functional M npow gamma eva eve (r0g (pos s)) k (rg (pos s)) st = level)
  /\ (forall inv, 0 < s2 -> is_inverse M csm inv ->
        capon M inv (r0g (pos s)) k (rg (pos s)) st = Some ((p s + s2 / A) * match st with TrueLevel => A / INR M * (A / INR M) | _ => A / INR M end)).
Proof.
  intros HM H0 Hr Hs2 Ha Hst Hs csm A level. destruct (own_size M k r0g rg pos HM H0 Hr s st Hst) as [PA SZ]. fold A in PA, SZ.
  pose proof (fun i => own_eigvec M K s2 k r0g rg pos p HM H0 Hr Ha s st i Hs Hst) as EV. cbv beta in EV. fold A csm in EV.
  pose proof Ha as [A1 A2]. pose proof (A1 s Hs) as Pp. pose proof (lt_0_INR M HM) as PM.
  assert (Hc : hermitian M csm) by (apply (noisy_hermitian M K s2 p (fun s => transfer (r0g (pos s)) k (rg (pos s))))).
  assert (LV : (s2 + p s * A) * rsumn M (fun m => norm2 (steer_vector M st (transfer (r0g (pos s)) k (rg (pos s))) m)) = level)
    by (rewrite SZ; unfold level; destruct Hst as [-> | ->]; field; lra).
  assert (PL : 0 < s2 + p s * A) by (assert (0 < p s * A) by (apply Rmult_lt_0_compat; assumption); lra).
  split; [exact PA|]. split; [|split].
  - rewrite (eigvec_base M (r0g (pos s)) k (rg (pos s)) st csm (s2 + p s * A) HM (H0 _) (fun m _ => Hr _ m) Hc EV 0). now rewrite LV.
  - intros eva eve gamma E Hg. rewrite <- LV.
    exact (eigvec_functional M (r0g (pos s)) k (rg (pos s)) st csm (s2 + p s * A) HM (H0 _) (fun m _ => Hr _ m) Hc EV eva eve gamma E ltac:(lra) Hg).
  - intros inv P Hi. rewrite (eigvec_capon M (r0g (pos s)) k (rg (pos s)) st csm (s2 + p s * A) HM (H0 _) (fun m _ => Hr _ m) Hc EV inv Hi); [|exact (noisy_positive M K s2 p _ A1 P)|exact PL].
    rewrite SZ. f_equal. destruct Hst as [-> | ->]; field; lra.
Qed.
Print Assumptions C133_undisturbed.

(** 'true location': the maximum of the map over any grid is at the source with
    the largest level at the array, the only one if no other point has a vector
    parallel to that of this source. *)
Theorem C133_loudest M K s2 k r0g rg pos p l q :
  (0 < M)%nat -> (forall q, 0 < r0g q) -> (forall q m, 0 < rg q m) -> 0 <= s2 -> resolved M K k r0g rg pos p -> (l < K)%nat ->
  let csm := sources_csm s2 K k r0g rg pos p in
  let level s := p s * array_power M (r0g (pos s)) (rg (pos s)) in
  (forall t, (t < K)%nat -> t <> l -> level t < level l) ->
  exists x y, bf_base M csm (r0g q) k (rg q) false 0 TrueLocation = Some x
    /\ bf_base M csm (r0g (pos l)) k (rg (pos l)) false 0 TrueLocation = Some y /\ x <= y
    /\ ((exists i j, (i < M)%nat /\ (j < M)%nat /\
           (transfer (r0g q) k (rg q) i * transfer (r0g (pos l)) k (rg (pos l)) j <> transfer (r0g q) k (rg q) j * transfer (r0g (pos l)) k (rg (pos l)) i)%C) -> x < y).
Proof.
  intros HM H0 Hr Hs2 Ha Hl csm level Hmax. pose proof (lt_0_INR M HM) as PM.
  destruct (C133_undisturbed M K s2 k r0g rg pos p TrueLocation l HM H0 Hr Hs2 Ha (or_intror eq_refl) Hl) as (PA & B & _). cbv zeta in PA, B. fold csm in B.
  set (a := fun s => transfer (r0g (pos s)) k (rg (pos s))). destruct Ha as [A1 A2].
  assert (Hw : forall s, (s < K)%nat -> 0 < pw M a s) by (intros; now apply pw_pos).
  assert (PP : forall s, pw M a s = array_power M (r0g (pos s)) (rg (pos s))) by (intros; now apply pw_power).
  assert (Hc : hermitian M csm) by (apply (noisy_hermitian M K s2 p a)).
  set (h := steer_vector M TrueLocation (transfer (r0g q) k (rg q))).
  exists (re (qform M csm h)), ((p l * array_power M (r0g (pos l)) (rg (pos l)) + s2) / INR M).
  assert (SZ : rsumn M (fun m => norm2 (h m)) = 1 / INR M).
  { exact (proj2 (own_size M k r0g rg (fun _ => q) HM H0 Hr 0%nat TrueLocation (or_intror eq_refl))). }
  split; [|split; [exact B|split]].
  - rewrite bf_base_full. f_equal. pose proof (bf_quadratic M (r0g q) k (rg q) HM (H0 q) (fun m _ => Hr q m) csm 1 false TrueLocation Hc) as Q.
    apply (f_equal re) in Q. rewrite re_RtoC_mul in Q. cbn [re RtoC fst] in Q. rewrite Q. fold h. ring.
  - pose proof (loudest_bound M K s2 p a A1 Hw A2 l h Hl) as L. rewrite SZ in L. rewrite PP in L.
    replace ((p l * array_power M (r0g (pos l)) (rg (pos l)) + s2) / INR M) with ((s2 + p l * array_power M (r0g (pos l)) (rg (pos l))) * (1 / INR M)) by (field; lra).
    apply L. intros t Ht. rewrite PP. destruct (Nat.eq_dec t l) as [->|N]; [apply Rle_refl|]. apply Rlt_le. now apply Hmax.
  - intros (i & j & Hi & Hj & N).
    replace ((p l * array_power M (r0g (pos l)) (rg (pos l)) + s2) / INR M) with ((s2 + p l * array_power M (r0g (pos l)) (rg (pos l))) * (1 / INR M)) by (field; lra).
    rewrite <- SZ, <- PP. apply (loudest_strict M K s2 p a A1 Hw A2 l h i j Hl); try assumption.
    + intros t Ht D. rewrite !PP. now apply Hmax.
    + intros X. apply N. destruct (steer_parallel M (r0g q) k (rg q) HM (H0 q) (fun m _ => Hr q m) TrueLocation (or_intror eq_refl)) as (z & Hz & Nz).
      unfold h in X. rewrite !Hz in X by assumption. unfold a in X.
      assert (NZ : z <> C0).
      { intros ->. pose proof (sum_norm2_a M k (r0g q) (rg q) HM (H0 q) (fun m _ => Hr q m)) as S0.
        assert (0 < 1 / (rsumn M (fun m => norm2 (transfer (r0g q) k (rg q) m)) * INR M)) by (apply Rdiv_lt_0_compat; [lra|apply Rmult_lt_0_compat; assumption]).
        unfold norm2 at 1 in Nz. cbn [fst snd C0] in Nz. lra. }
      set (u := transfer (r0g q) k (rg q)) in *. set (w := transfer (r0g (pos l)) k (rg (pos l))) in *.
      transitivity (z * u i * w j / z)%C; [field; exact NZ|]. rewrite X. field. exact NZ.
Qed.
Print Assumptions C133_loudest.

Lemma two_transfer : transfer (two_r0 0) PI (two_r 0) 0 = RtoC 1 /\ transfer (two_r0 0) PI (two_r 0) 1 = RtoC (- (1 / 2))
  /\ transfer (two_r0 1) PI (two_r 1) 0 = RtoC (1 / 2) /\ transfer (two_r0 1) PI (two_r 1) 1 = RtoC 1.
Proof.
  assert (T00 : transfer (two_r0 0) PI (two_r 0) 0 = RtoC 1).
  { unfold transfer, two_r0, two_r. cbn [Nat.eqb]. cbv zeta. replace (PI * (1 - 1)) with 0 by ring. rewrite cos_0, sin_0, Ropp_0. change (1, 0) with C1. change (RtoC 1) with C1. field. apply RtoC_neq0. lra. }
  assert (T01 : transfer (two_r0 0) PI (two_r 0) 1 = RtoC (- (1 / 2))).
  { unfold transfer, two_r0, two_r. cbn [Nat.eqb]. cbv zeta. replace (PI * (2 - 1)) with PI by ring. rewrite cos_PI, sin_PI, Ropp_0. change (-1, 0) with (RtoC (-1)). rewrite <- RtoC_mul, <- RtoC_div by lra. f_equal. lra. }
  assert (T10 : transfer (two_r0 1) PI (two_r 1) 0 = RtoC (1 / 2)).
  { unfold transfer, two_r0, two_r. cbn [Nat.eqb]. cbv zeta. replace (PI * (4 - 2)) with (2 * PI) by ring. rewrite cos_2PI, sin_2PI, Ropp_0. change (1, 0) with (RtoC 1). rewrite <- RtoC_mul, <- RtoC_div by lra. f_equal. lra. }
  assert (T11 : transfer (two_r0 1) PI (two_r 1) 1 = RtoC 1).
  { unfold transfer, two_r0, two_r. cbn [Nat.eqb]. cbv zeta. replace (PI * (2 - 2)) with 0 by ring. rewrite cos_0, sin_0, Ropp_0. change (1, 0) with (RtoC 1). rewrite <- RtoC_mul, <- RtoC_div by lra. f_equal. lra. }
  auto.
Qed.

(** 'inverse': for sources that the array separates the map at the point of one
    does depend on the other. *)
Theorem C133_inverse_refuted :
  exists (r0g : nat -> R) (rg : nat -> nat -> R) (p : nat -> R) k x y,
    (forall q, 0 < r0g q) /\ (forall q m, 0 < rg q m) /\ resolved 2 2 k r0g rg (fun s => s) p
    /\ bf_base 2 (sources_csm 0 1 k r0g rg (fun s => s) p) (r0g 0%nat) k (rg 0%nat) false 0 Inverse = Some x
    /\ bf_base 2 (sources_csm 0 2 k r0g rg (fun s => s) p) (r0g 0%nat) k (rg 0%nat) false 0 Inverse = Some y
    /\ x = p 0%nat /\ y = 25 / 16 * p 0%nat.
Proof.
  exists two_r0, two_r, (fun _ => 1), PI, 1, (25 / 16 * 1).
  destruct C132_case as (_ & P0 & P1 & (_ & A2 & _) & _). do 2 (split; [assumption|]). split; [split; [intros; lra|exact A2]|].
  destruct two_transfer as (T00 & T01 & T10 & T11).
  set (h := fun m : nat => RtoC (if (m =? 0)%nat then 1 / 2 else -1)).
  assert (HV : forall m, (m < 2)%nat -> steer_vector 2 Inverse (transfer (two_r0 0) PI (two_r 0)) m = h m).
  { intros m Hm. unfold steer_vector, h. change (INR 2) with 2. destruct m as [|[|]]; [| |lia]; cbn [Nat.eqb]; rewrite ?T00, ?T01, Conj_RtoC; change C1 with (RtoC 1); rewrite <- !RtoC_div by lra; f_equal; (lra || field). }
  assert (B : forall K x,
     re (qform 2 (sources_csm 0 K PI two_r0 two_r (fun s => s) (fun _ => 1)) h) = x ->
     bf_base 2 (sources_csm 0 K PI two_r0 two_r (fun s => s) (fun _ => 1)) (two_r0 0) PI (two_r 0%nat) false 0 Inverse = Some x).
  { intros K x E. rewrite bf_base_full. f_equal.
    pose proof (bf_quadratic 2 (two_r0 0) PI (two_r 0) ltac:(lia) (P0 _) (fun m _ => P1 _ m) (sources_csm 0 K PI two_r0 two_r (fun s => s) (fun _ => 1)) 1 false Inverse
      (noisy_hermitian 2 K 0 (fun _ => 1) (fun s => transfer (two_r0 s) PI (two_r s)))) as Q.
    apply (f_equal re) in Q. rewrite re_RtoC_mul in Q. cbn [re RtoC fst] in Q. rewrite Q, Rmult_1_l. rewrite <- E. f_equal.
    unfold qform. apply csum_ext. intros i Hi. apply csum_ext. intros j Hj. cbn [andb]. now rewrite !HV. }
  split; [|split; [|split; reflexivity]]; apply B; auto; unfold qform, sources_csm, h; cbn [csum Nat.eqb andb]; rewrite ?T00, ?T01, ?T10, ?T11;
    unfold RtoC, Conj, Cadd, Cmul, C0, re; cbn [fst snd]; field.
Qed.
Print Assumptions C133_inverse_refuted.

(** The hypotheses can be met, by two sources of different strength and noise. *)
Example C133_case :
  (0 < 2)%nat /\ (forall q, 0 < two_r0 q) /\ (forall q m, 0 < two_r q m) /\ resolved 2 2 PI two_r0 two_r (fun s => s) two_p
  /\ is_eigh 2 (sources_csm 1 2 PI two_r0 two_r (fun s => s) two_p) two_eva two_eve
  /\ (exists inv, is_inverse 2 (sources_csm 1 2 PI two_r0 two_r (fun s => s) two_p) inv)
  /\ forall t, (t < 2)%nat -> t <> 0%nat -> two_p t * array_power 2 (two_r0 t) (two_r t) < two_p 0%nat * array_power 2 (two_r0 0%nat) (two_r 0%nat).
Proof.
  destruct C132_case as (_ & P0 & P1 & (A1 & A2 & _) & E & _). split; [lia|]. do 2 (split; [assumption|]). split.
  { split; [|exact A2]. intros s Hs. exact (proj2 (A1 s Hs)). }
  split; [exact E|]. split.
  - exists (fun i j => RtoC (if (i =? j)%nat then (if (i =? 0)%nat then 20 / 63 else 26 / 63) else 4 / 63)).
    destruct two_transfer as (T00 & T01 & T10 & T11). intros i j Hi Hj.
    unfold sources_csm. cbn [csum]. destruct i as [|[|]]; [| |lia]; (destruct j as [|[|]]; [| |lia]); cbn [Nat.eqb]; rewrite ?T00, ?T01, ?T10, ?T11; unfold two_p; cbn [Nat.eqb];
      unfold RtoC, Conj, Cadd, Cmul, C0, C1; cbn [fst snd]; f_equal; lra.
  - intros t Ht N. destruct t as [|[|]]; [contradiction| |lia]. unfold array_power, two_p, two_r0, two_r. cbn. lra.
Qed.
