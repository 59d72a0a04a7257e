(** Property C134: diagonal removal and several sources. *)
From Coq Require Import List Arith Lia ZArith Bool Reals Lra.
From Verif Require Import Stream Cplx Buffer Frames Convolve Fourier Beamform Csm Deconv Subspace Spectral Rewire OrthSep Resolve RemovedSep Props_OrthSep Props_Resolve.
Import ListNotations.
Local Open Scope R_scope.

(** Sum over the microphones of the products of the squared pressures of unit
    sources at the points [q] and [o], relative to those at the reference. *)
Definition common_power (M : nat) (r0g : nat -> R) (rg : nat -> nat -> R) (q o : nat) : R :=
  rsumn M (fun m => (r0g q / rg q m) * (r0g q / rg q m) * ((r0g o / rg o m) * (r0g o / rg o m))).

Lemma common_pos M r0g rg q o : (0 < M)%nat -> (forall q, 0 < r0g q) -> (forall q m, 0 < rg q m) -> 0 < common_power M r0g rg q o.
Proof.
  intros HM H0 Hr. apply rsumn_pos; [exact HM|]. intros m _.
  assert (forall x, 0 < r0g x / rg x m) by (intros; apply Rdiv_lt_0_compat; auto).
  apply Rmult_lt_0_compat; apply Rmult_lt_0_compat; auto.
Qed.

(** With diagonal removal uniform noise has no influence at all, but every source
    lowers the map at the points of all others, although their transfer vectors
    are orthogonal: [r0]-[rg] give [A] and [common_power], the value is
    M/(M-1) times the difference of the source's own power and of the weighted
    sum over all sources, or zero if this is negative. *)
Theorem C134_removed M K s2 k r0g rg pos p st s :
  (2 <= M)%nat -> (forall q, 0 < r0g q) -> (forall q m, 0 < rg q m) -> resolved M K k r0g rg pos p ->
  st = TrueLevel \/ st = TrueLocation -> (s < K)%nat ->
  let csm := sources_csm s2 K k r0g rg pos p in
  let A := array_power M (r0g (pos s)) (rg (pos s)) in
  let d := INR M / (INR M - 1) * match st with TrueLevel => p s - rsumn K (fun t => p t * common_power M r0g rg (pos t) (pos s)) / (A * A)
             | _ => (p s * A - rsumn K (fun t => p t * common_power M r0g rg (pos t) (pos s)) / A) / INR M end in
  bf_base M csm (r0g (pos s)) k (rg (pos s)) true 0 st = Some (Rmax 0 d).
Proof.
  intros HM2 H0 Hr Ha Hst Hs csm A d. assert (HM : (0 < M)%nat) by lia.
  destruct (own_size M k r0g rg pos HM H0 Hr s st Hst) as [PA _]. fold A in PA. destruct Ha as [A1 A2].
  set (a := fun s => transfer (r0g (pos s)) k (rg (pos s))).
  assert (PM : 2 <= INR M) by (apply (le_INR 2); assumption).
  assert (Hc : hermitian M csm) by (apply (noisy_hermitian M K s2 p a)).
  unfold bf_base, sig_loss_norm. destruct (Req_EM_T 0 0) as [_|N]; [|contradiction]. destruct (Nat.eqb_spec M 1) as [X|_]; [lia|]. f_equal.
  assert (E : fst (freq_full M csm (r0g (pos s)) k (rg (pos s)) (INR M / (INR M - 1)) true st) = d).
  { pose proof (bf_quadratic M (r0g (pos s)) k (rg (pos s)) HM (H0 _) (fun m _ => Hr _ m) csm (INR M / (INR M - 1)) true st Hc) as Q.
    apply (f_equal re) in Q. rewrite re_RtoC_mul in Q. cbn [re RtoC fst] in Q. change (fst (RtoC ?x)) with x in Q. rewrite Q. unfold d. f_equal.
    change csm with (noisy_csm s2 K p a). rewrite noisy_removed.
    destruct (steer_parallel M (r0g (pos s)) k (rg (pos s)) HM (H0 _) (fun m _ => Hr _ m) st Hst) as (z & Hz & Nz).
    set (h := steer_vector M st (transfer (r0g (pos s)) k (rg (pos s)))) in *.
    assert (PP : forall t, rsumn M (fun m => norm2 (transfer (r0g (pos t)) k (rg (pos t)) m)) = array_power M (r0g (pos t)) (rg (pos t))) by (intros t; exact (pw_power M k r0g rg pos Hr t)).
    rewrite PP in Nz. fold A in Nz.
    assert (I1 : forall t, (t < K)%nat -> norm2 (inner M (a t) h) = if (t =? s)%nat then norm2 z * (A * A) else 0).
    { intros t Ht. rewrite (inner_ext M (a t) (a t) h (fun m => z * a s m)%C) by (intros m Hm; split; [reflexivity|now apply Hz]).
      rewrite inner_scal_r, norm2_mul. destruct (Nat.eqb_spec t s) as [->|N].
      - rewrite inner_self. unfold a at 1. rewrite PP. fold A. rewrite norm2_RtoC. ring.
      - rewrite (A2 t s Ht Hs N : inner M (a t) (a s) = C0). replace (norm2 C0) with 0 by (unfold norm2, C0; cbn [fst snd]; ring). ring. }
    assert (I2 : forall t, rsumn M (fun m => norm2 (a t m) * norm2 (h m)) = norm2 z * common_power M r0g rg (pos t) (pos s)).
    { intros t. unfold common_power. rewrite <- rsumn_scal. apply rsumn_ext. intros m Hm. rewrite (Hz m Hm), norm2_mul. unfold a.
      rewrite !transfer_norm2 by (pose proof (Hr (pos t) m); pose proof (Hr (pos s) m); lra). field. split; [pose proof (Hr (pos s) m)|pose proof (Hr (pos t) m)]; lra. }
    rewrite (rsumn_ext K _ (fun t => (if (t =? s)%nat then p t * (norm2 z * (A * A)) else 0) + - norm2 z * (p t * common_power M r0g rg (pos t) (pos s)))).
    2:{ intros t Ht. rewrite I1, I2 by assumption. destruct (t =? s)%nat; ring. }
    rewrite rsumn_add, rsumn_scal. rewrite (rsumn_single K s); [|exact Hs|intros t Ht N; destruct (Nat.eqb_spec t s); [contradiction|reflexivity]].
    rewrite Nat.eqb_refl, Nz. destruct Hst as [-> | ->]; field; lra. }
  rewrite E. unfold clip_neg, Rmax. destruct (Rlt_dec d 0), (Rle_dec 0 d); lra.
Qed.
Print Assumptions C134_removed.

(** So every further source lowers the map at the points of the others, and a
    source disappears as soon as the others are strong enough. *)
Theorem C134_lowered M K s2 k r0g rg pos p st s x y :
  (2 <= M)%nat -> (forall q, 0 < r0g q) -> (forall q m, 0 < rg q m) -> resolved M (S K) k r0g rg pos p ->
  st = TrueLevel \/ st = TrueLocation -> (s < K)%nat ->
  bf_base M (sources_csm s2 K k r0g rg pos p) (r0g (pos s)) k (rg (pos s)) true 0 st = Some x ->
  bf_base M (sources_csm s2 (S K) k r0g rg pos p) (r0g (pos s)) k (rg (pos s)) true 0 st = Some y ->
  let A := array_power M (r0g (pos s)) (rg (pos s)) in
  (0 < x -> y < x) /\ (y = 0 <-> p s * (A * A) <= rsumn (S K) (fun t => p t * common_power M r0g rg (pos t) (pos s))).
Proof.
  intros HM2 H0 Hr Ha Hst Hs X Y A. assert (HM : (0 < M)%nat) by lia.
  destruct (own_size M k r0g rg pos HM H0 Hr s st Hst) as [PA _]. fold A in PA.
  assert (PM : 2 <= INR M) by (apply (le_INR 2); assumption).
  assert (Ha' : resolved M K k r0g rg pos p) by (destruct Ha as [A1 A2]; split; [intros; apply A1; lia|intros; apply A2; lia]).
  rewrite (C134_removed M K s2 k r0g rg pos p st s HM2 H0 Hr Ha' Hst Hs) in X.
  rewrite (C134_removed M (S K) s2 k r0g rg pos p st s HM2 H0 Hr Ha Hst ltac:(lia)) in Y. cbv zeta in X, Y. fold A in X, Y.
  assert (SI : forall a b : R, Some a = Some b -> a = b) by congruence. apply SI in X. apply SI in Y.
  assert (PC : 0 < p K * common_power M r0g rg (pos K) (pos s)) by (apply Rmult_lt_0_compat; [apply (proj1 Ha); lia|now apply common_pos]).
  change (rsumn (S K) (fun t => p t * common_power M r0g rg (pos t) (pos s)))
    with (rsumn K (fun t => p t * common_power M r0g rg (pos t) (pos s)) + p K * common_power M r0g rg (pos K) (pos s)) in *.
  set (S0 := rsumn K (fun t => p t * common_power M r0g rg (pos t) (pos s))) in *. set (c := p K * common_power M r0g rg (pos K) (pos s)) in *.
  assert (F : exists f, 0 < f /\ x = Rmax 0 (f * (p s * (A * A) - S0)) /\ y = Rmax 0 (f * (p s * (A * A) - (S0 + c)))).
  { assert (P1 : 0 < INR M / (INR M - 1)) by (apply Rdiv_lt_0_compat; lra). assert (P2 : 0 < A * A) by (now apply Rmult_lt_0_compat).
    destruct Hst as [-> | ->].
    - exists (INR M / (INR M - 1) / (A * A)). split; [now apply Rdiv_lt_0_compat|]. split; [rewrite <- X|rewrite <- Y]; f_equal; field; lra.
    - exists (INR M / (INR M - 1) / (A * INR M)). split; [apply Rdiv_lt_0_compat; [assumption|apply Rmult_lt_0_compat; lra]|]. split; [rewrite <- X|rewrite <- Y]; f_equal; field; lra. }
  destruct F as (f & Pf & -> & ->). clear X Y.
  set (u := p s * (A * A) - S0). replace (p s * (A * A) - (S0 + c)) with (u - c) by (unfold u; ring).
  assert (0 < f * c) by (now apply Rmult_lt_0_compat). split.
  - intros P. unfold Rmax in *. destruct (Rle_dec 0 (f * u)); [|lra]. destruct (Rle_dec 0 (f * (u - c))); nra.
  - replace (p s * (A * A)) with (u + S0) by (unfold u; ring). split.
    + intros Z. unfold Rmax in Z. destruct (Rle_dec 0 (f * (u - c))) as [|N].
      * assert (u - c = 0) by (apply (Rmult_eq_reg_l f); lra). lra.
      * destruct (Rle_lt_dec u c); [lra|]. exfalso. apply N. apply Rmult_le_pos; lra.
    + intros L. unfold Rmax. destruct (Rle_dec 0 (f * (u - c))); [|reflexivity]. nra.
Qed.
Print Assumptions C134_lowered.

(** Two sources of equal strength with orthogonal vectors: one alone is in the
    map, with the other it is not. *)
Theorem C134_removed_refuted :
  exists (r0g : nat -> R) (rg : nat -> nat -> R) (p : nat -> R) k x,
    (forall q, 0 < r0g q) /\ (forall q m, 0 < rg q m) /\ resolved 2 2 k r0g rg (fun s => s) p
    /\ bf_base 2 (sources_csm 0 1 k r0g rg (fun s => s) p) (r0g 0%nat) k (rg 0%nat) true 0 TrueLevel = Some x
    /\ bf_base 2 (sources_csm 0 2 k r0g rg (fun s => s) p) (r0g 0%nat) k (rg 0%nat) true 0 TrueLevel = Some 0
    /\ p 0%nat = 1 /\ x = 16 / 25.
Proof.
  exists two_r0, two_r, (fun _ => 1), PI, (16 / 25).
  destruct C132_case as (_ & P0 & P1 & (_ & A2 & _) & _).
  assert (Rs : forall K, (K <= 2)%nat -> resolved 2 K PI two_r0 two_r (fun s => s) (fun _ => 1)) by (intros K HK; split; [intros; lra|intros; apply A2; lia]).
  do 2 (split; [assumption|]). split; [now apply Rs|].
  split; [|split; [|split; reflexivity]].
  - rewrite (C134_removed 2 1 0 PI two_r0 two_r (fun s => s) (fun _ => 1) TrueLevel 0 ltac:(lia) P0 P1 (Rs 1%nat ltac:(lia)) (or_introl eq_refl) ltac:(lia)). cbv zeta. f_equal.
    unfold common_power, array_power, two_r0, two_r. cbn [rsumn Nat.eqb]. change (INR 2) with 2.
    unfold Rmax. destruct (Rle_dec _ _) as [|N]; [field|]. exfalso. apply N. lra.
  - rewrite (C134_removed 2 2 0 PI two_r0 two_r (fun s => s) (fun _ => 1) TrueLevel 0 ltac:(lia) P0 P1 (Rs 2%nat ltac:(lia)) (or_introl eq_refl) ltac:(lia)). cbv zeta. f_equal.
    unfold common_power, array_power, two_r0, two_r. cbn [rsumn Nat.eqb]. change (INR 2) with 2.
    unfold Rmax. destruct (Rle_dec _ _); [field|reflexivity].
Qed.
Print Assumptions C134_removed_refuted.

(** The hypotheses of the theorems can be met. *)
Example C134_case : (2 <= 2)%nat /\ (forall q, 0 < two_r0 q) /\ (forall q m, 0 < two_r q m) /\ resolved 2 (S 1) PI two_r0 two_r (fun s => s) two_p.
Proof. destruct C133_case as (_ & P0 & P1 & A & _). auto. Qed.
