(** Property C132: BeamformerEig and BeamformerOrth separate incoherent sources. *)
From Coq Require Import List Arith Lia ZArith Bool Reals Lra.
From Verif Require Import Stream Cplx Buffer Frames Convolve Fourier Beamform Csm Deconv Subspace Spectral Rewire OrthSep.
Import ListNotations.
Local Open Scope R_scope.

(** Sources [s] < [K] at the grid points [pos s]; [h q] is the transfer vector of
    grid point [q].  Their vectors are orthogonal, their levels at the array
    differ. *)
Definition array_power (M : nat) (r0 : R) (r : nat -> R) : R := rsumn M (fun m => r0 * r0 / (r m * r m)).
Definition apart (M G K : nat) (k : R) (r0g : nat -> R) (rg : nat -> nat -> R) (pos : nat -> nat) (p : nat -> R) : Prop :=
  let h q := transfer (r0g q) k (rg q) in
  (forall s, (s < K)%nat -> (pos s < G)%nat /\ 0 < p s)
  /\ (forall s t, (s < K)%nat -> (t < K)%nat -> s <> t -> csum M (fun m => Conj (h (pos s) m) * h (pos t) m)%C = C0)
  /\ (forall s t, (s < K)%nat -> (t < K)%nat -> s <> t ->
        p s * array_power M (r0g (pos s)) (rg (pos s)) <> p t * array_power M (r0g (pos t)) (rg (pos t))).

(** The matrix: sources and uncorrelated noise of power [s2] in every channel. *)
Definition sources_csm (s2 : R) (K : nat) (k : R) (r0g : nat -> R) (rg : nat -> nat -> R) (pos : nat -> nat) (p : nat -> R) (i j : nat) : C :=
  ((if (i =? j)%nat then RtoC s2 else C0)
   + csum K (fun s => RtoC (p s) * transfer (r0g (pos s)) k (rg (pos s)) i * Conj (transfer (r0g (pos s)) k (rg (pos s)) j)))%C.

(** Map of BeamformerBase at point [q] for a source of strength one at point [o] alone. *)
Definition alone (M : nat) (k : R) (r0g : nat -> R) (rg : nat -> nat -> R) (rd : bool) (rdn : R) (st : steer) (o q : nat) : option R :=
  bf_base M (fun i j => transfer (r0g o) k (rg o) i * Conj (transfer (r0g o) k (rg o) j))%C (r0g q) k (rg q) rd rdn st.

(** [o] is the only maximum of the map of the source at [o]. *)
Definition peak (M G : nat) (k : R) (r0g : nat -> R) (rg : nat -> nat -> R) (rd : bool) (rdn : R) (st : steer) (o : nat) : Prop :=
  exists y, alone M k r0g rg rd rdn st o o = Some y
  /\ forall q, (q < G)%nat -> q <> o -> exists x, alone M k r0g rg rd rdn st o q = Some x /\ x < y.

Section Common.
  Variables (M G K : nat) (s2 k : R) (r0g : nat -> R) (rg : nat -> nat -> R) (pos : nat -> nat) (p : nat -> R)
    (eva : nat -> R) (eve : nat -> nat -> C).
  Hypotheses (HM : (0 < M)%nat) (HK : (K <= M)%nat) (H0 : forall q, 0 < r0g q) (Hr : forall q m, 0 < rg q m)
    (Ha : apart M G K k r0g rg pos p) (He : is_eigh M (sources_csm s2 K k r0g rg pos p) eva eve).
  Let a s := transfer (r0g (pos s)) k (rg (pos s)).
  Lemma pw_power s : pw M a s = array_power M (r0g (pos s)) (rg (pos s)).
  Proof. unfold pw, a, array_power. apply rsumn_ext. intros m _. apply transfer_norm2. pose proof (Hr (pos s) m). lra. Qed.
  Lemma pw_pos s : 0 < pw M a s.
  Proof. unfold pw, a. apply sum_norm2_a; auto. Qed.
  Lemma apart_order : exists sg, order K sg /\ forall i, (i < K)%nat ->
    eva (M - 1 - i)%nat = s2 + p (sg i) * pw M a (sg i)
    /\ forall x y, (x < M)%nat -> (y < M)%nat ->
        (eve x (M - 1 - i)%nat * Conj (eve y (M - 1 - i)%nat) = RtoC (/ pw M a (sg i)) * (a (sg i) x * Conj (a (sg i) y)))%C.
  Proof.
    destruct Ha as (A1 & A2 & A3).
    assert (Hp : forall s, (s < K)%nat -> 0 < p s) by (intros; now apply A1).
    assert (Ho : forall s t, (s < K)%nat -> (t < K)%nat -> s <> t -> inner M (a s) (a t) = C0) by exact A2.
    assert (Hd : forall s t, (s < K)%nat -> (t < K)%nat -> s <> t -> p s * pw M a s <> p t * pw M a t).
    { intros s t Hs Ht N. rewrite !pw_power. now apply A3. }
    assert (Hn : forall s, (s < K)%nat -> 0 < pw M a s) by (intros; apply pw_pos).
    destruct (eigen_order M K s2 p a eva eve Hp He HK Ho Hn Hd) as (sg & O & S). exists sg. split; [exact O|]. intros i Hi.
    assert (Hs : (sg i < K)%nat) by (now apply O). split.
    - apply (eigen_value M K s2 p a eva eve He Ho); [lia|assumption|]. now apply S.
    - intros x y Hx Hy. apply (eigen_dyad M K s2 p a eva eve Hp He Ho Hn Hd); try assumption; [lia|]. now apply S.
  Qed.
End Common.

(** BeamformerEig: each of the [K] largest eigenvalues belongs to one source, its
    map is that of this source alone, with the strength raised by the noise. *)
Theorem C132_components M G K s2 k r0g rg pos p eva eve rd rdn st :
  (0 < M)%nat -> (K <= M)%nat -> (forall q, 0 < r0g q) -> (forall q m, 0 < rg q m) -> 0 <= s2 ->
  apart M G K k r0g rg pos p -> is_eigh M (sources_csm s2 K k r0g rg pos p) eva eve ->
  exists source, order K source /\ forall i, (i < K)%nat -> let s := source i in let A := array_power M (r0g (pos s)) (rg (pos s)) in
    eva (M - 1 - i)%nat = p s * A + s2
    /\ forall q, bf_eig M (M - 1 - i) eva eve (r0g q) k (rg q) rd rdn st
        = option_map (Rmult (p s + s2 / A)) (alone M k r0g rg rd rdn st (pos s) q).
Proof.
  intros HM HK H0 Hr Hs2 Ha He. destruct (apart_order M G K s2 k r0g rg pos p eva eve HM HK H0 Hr Ha He) as (sg & O & S).
  exists sg. split; [exact O|]. intros i Hi. cbv zeta. destruct (S i Hi) as [S1 S2].
  pose proof (pw_pos M k r0g rg pos HM H0 Hr (sg i)) as P. rewrite (pw_power M k r0g rg pos Hr) in *.
  set (A := array_power M _ _) in *. split; [rewrite S1; ring|]. intros q.
  assert (Pp : 0 < p (sg i)) by (apply Ha; now apply O).
  unfold bf_eig, alone, bf_base. destruct (sig_loss_norm M rd rdn) as [loss|]; [|reflexivity]. cbn [option_map]. f_equal.
  assert (F : fst (freq_eig M 1 (fun e => eva (M - 1 - i + e)%nat) (fun m e => eve m (M - 1 - i + e)%nat) (r0g q) k (rg q) loss rd st)
    = (p (sg i) + s2 / A) * fst (freq_full M (fun x y => transfer (r0g (pos (sg i))) k (rg (pos (sg i))) x * Conj (transfer (r0g (pos (sg i))) k (rg (pos (sg i))) y))%C (r0g q) k (rg q) loss rd st)).
  { transitivity (fst (freq_eig M 1 (fun _ => eva (M - 1 - i)%nat) (fun m _ => eve m (M - 1 - i)%nat) (r0g q) k (rg q) loss rd st)).
    - unfold freq_eig, scalar_prod_eig. cbn [rsumn]. now rewrite Nat.add_0_r.
    - rewrite (map_dyad M (transfer (r0g (pos (sg i))) k (rg (pos (sg i)))) _ (/ A)).
      + rewrite S1. replace ((s2 + p (sg i) * A) * / A) with (p (sg i) + s2 / A) by (field; lra). reflexivity.
      + exact S2. }
  rewrite F. set (x := fst (freq_full _ _ _ _ _ _ _ _)).
  assert (0 < p (sg i) + s2 / A). { assert (0 <= s2 / A); [|lra]. apply Rmult_le_pos; [lra|]. apply Rlt_le, Rinv_0_lt_compat. lra. }
  unfold clip_neg. destruct rd; [|reflexivity]. destruct (Rlt_dec _ 0), (Rlt_dec x 0); try reflexivity; nra.
Qed.
Print Assumptions C132_components.

(** BeamformerOrth with n = K: at the point of every source its power at the
    array divided by the number of channels, plus the noise of one channel
    divided by this number; zero everywhere else. *)
Theorem C132_orth M G K s2 k r0g rg pos p eva eve rd rdn st :
  (0 < M)%nat -> (K <= M)%nat -> (forall q, 0 < r0g q) -> (forall q m, 0 < rg q m) -> 0 <= s2 ->
  apart M G K k r0g rg pos p -> is_eigh M (sources_csm s2 K k r0g rg pos p) eva eve ->
  (rd = true -> (1 < M)%nat) -> (forall s, (s < K)%nat -> peak M G k r0g rg rd rdn st (pos s)) ->
  exists ac, bf_orth M G k r0g rg rd rdn st eva eve (largest K) = Some ac
  /\ forall q, ac q = rsumn K (fun s => if (q =? pos s)%nat then (p s * array_power M (r0g (pos s)) (rg (pos s)) + s2) / INR M else 0).
Proof.
  intros HM HK H0 Hr Hs2 Ha He Hrd Hpk. destruct (apart_order M G K s2 k r0g rg pos p eva eve HM HK H0 Hr Ha He) as (sg & O & S).
  unfold bf_orth. destruct (sig_loss_norm M rd rdn) as [loss|] eqn:EL.
  2:{ exfalso. revert EL. unfold sig_loss_norm. destruct rd; [|discriminate]. destruct (Req_EM_T rdn 0); [|discriminate].
      destruct (Nat.eqb_spec M 1); [|discriminate]. specialize (Hrd eq_refl). lia. }
  set (bmap := fun c q => fst (freq_eig M 1 (fun _ => 1) (fun m _ => eve m c) (r0g q) k (rg q) loss rd st)).
  destruct (orth_places G M eva bmap (seq 0 K)) with (ac := fun _ : nat => 0) as (ac & E1 & E2).
  { intros i Hi. apply in_seq in Hi. lia. }
  exists ac. split; [exact E1|]. intros q. rewrite E2, Rplus_0_l, <- rsumn_rlist.
  rewrite <- (rsumn_order K sg (fun s => if (q =? pos s)%nat then (p s * array_power M (r0g (pos s)) (rg (pos s)) + s2) / INR M else 0) O).
  apply rsumn_ext. intros i Hi. destruct (S i Hi) as [S1 S2]. rewrite S1. rewrite (pw_power M k r0g rg pos Hr) in *.
  assert (Hs : (sg i < K)%nat) by now apply O. destruct Ha as (A1 & _). destruct (A1 _ Hs) as [Hg Pp].
  assert (PK : argmax G (bmap (M - 1 - i)%nat) = pos (sg i)).
  { apply argmax_unique; [exact Hg|]. intros j Hj N. destruct (Hpk _ Hs) as (y & Ey & Hy). destruct (Hy j Hj N) as (x & Ex & L).
    unfold alone, bf_base in Ex, Ey. rewrite EL in Ex, Ey.
    assert (IN : forall a b : R, Some a = Some b -> a = b) by congruence. apply IN in Ex, Ey. rewrite <- Ex, <- Ey in L. apply clip_lt in L.
    unfold bmap. rewrite !(map_dyad M (transfer (r0g (pos (sg i))) k (rg (pos (sg i)))) _ (/ array_power M (r0g (pos (sg i))) (rg (pos (sg i))))) by exact S2.
    apply Rmult_lt_compat_l; [|exact L]. rewrite Rmult_1_l. apply Rinv_0_lt_compat. rewrite <- (pw_power M k r0g rg pos Hr). now apply pw_pos. }
  rewrite PK, (Nat.eqb_sym (pos (sg i)) q). destruct (q =? pos (sg i))%nat; [|reflexivity]. f_equal. ring.
Qed.
Print Assumptions C132_orth.

(** 'true location': the map of a source has its only maximum there, if no other
    grid point has a parallel transfer vector. *)
Theorem C132_peak M G k r0g rg rdn o : (0 < M)%nat -> (forall q, 0 < r0g q) -> (forall q m, 0 < rg q m) ->
  (forall q, (q < G)%nat -> q <> o -> exists i j, (i < M)%nat /\ (j < M)%nat /\
     (transfer (r0g q) k (rg q) i * transfer (r0g o) k (rg o) j <> transfer (r0g q) k (rg q) j * transfer (r0g o) k (rg o) i)%C) ->
  peak M G k r0g rg false rdn TrueLocation o.
Proof.
  intros HM H0 Hr Hq. unfold peak, alone.
  set (a := transfer (r0g o) k (rg o)) in *. set (A := rsumn M (fun m => norm2 (a m))).
  assert (PA : 0 < A) by (apply sum_norm2_a; auto). assert (PM : 0 < INR M) by now apply lt_0_INR.
  exists (A / INR M). split.
  - unfold a. rewrite true_location_value by auto. fold a. f_equal. rewrite inner_self. fold A. rewrite norm2_RtoC. field. lra.
  - intros q Hg N. destruct (Hq q Hg N) as (i & j & Hi & Hj & D). set (h := transfer (r0g q) k (rg q)) in *.
    assert (PH : 0 < rsumn M (fun m => norm2 (h m))) by (apply sum_norm2_a; auto).
    eexists. split; [unfold a; apply true_location_value; auto|]. fold h a.
    pose proof (cs_strict M h a i j PH Hi Hj D) as CS. fold A in CS. set (H := rsumn M (fun m => norm2 (h m))) in *.
    apply (Rmult_lt_reg_r (H * INR M)); [nra|]. unfold Rdiv. rewrite Rmult_assoc, Rinv_l by nra. field_simplify; nra.
Qed.
Print Assumptions C132_peak.
(** ** Witnesses: two microphones, distances of whole wavelengths, wave number 2 pi. *)
Lemma whole_turns r0 r m j : r m <> 0 -> r m - r0 = INR j -> transfer r0 (2 * PI) r m = RtoC (r0 / r m).
Proof.
  intros N E. unfold transfer. rewrite E. cbv zeta.
  replace (2 * PI * INR j) with (0 + 2 * INR j * PI) by ring. rewrite cos_period, sin_period, cos_0, sin_0, Ropp_0.
  rewrite RtoC_div by exact N. change (1, 0) with C1. unfold Cdiv. ring.
Qed.

Definition evec (m e : nat) : C := RtoC (if ((e =? 0) && (m =? 1))%nat then - / sqrt 2 else / sqrt 2).
Definition eval2 (x : R) (e : nat) : R := if (e =? 0)%nat then 0 else 2 * x.

Lemma isq : / sqrt 2 * / sqrt 2 = / 2.
Proof. rewrite <- Rinv_mult, sqrt_sqrt by lra. reflexivity. Qed.

Lemma two_eigh (c : nat -> nat -> C) x : 0 <= x -> (forall i j, (i < 2)%nat -> (j < 2)%nat -> c i j = RtoC x) -> is_eigh 2 c (eval2 x) evec.
Proof.
  intros Hx Hc. pose proof isq as Q. split; [|split].
  - intros e i He Hi. rewrite (csum_ext 2 _ (fun j => RtoC x * evec j e)%C) by (intros j Hj; now rewrite Hc).
    destruct e as [|[|]]; [| |lia]; (destruct i as [|[|]]; [| |lia]); unfold evec, eval2; cbn [Nat.eqb andb csum]; unfold RtoC, Cadd, Cmul, C0; cbn [fst snd]; f_equal; ring.
  - intros e f He Hf. destruct e as [|[|]]; [| |lia]; (destruct f as [|[|]]; [| |lia]); unfold evec; cbn [Nat.eqb andb csum]; unfold RtoC, Conj, Cadd, Cmul, C0, C1; cbn [fst snd]; f_equal; nra.
  - intros e f L Hf. destruct e as [|[|]]; [| |lia]; (destruct f as [|[|]]; [| |lia]); unfold eval2; cbn [Nat.eqb]; (lra || lia).
Qed.

(** Both microphones two wavelengths away, the reference one: a source of
    strength one is given with a quarter of it. *)
Theorem C132_level_refuted : exists M G K s2 k (r0g : nat -> R) (rg : nat -> nat -> R) pos p eva eve ac,
  (0 < M)%nat /\ (K <= M)%nat /\ (forall q, 0 < r0g q) /\ (forall q m, 0 < rg q m) /\ s2 = 0 /\
  apart M G K k r0g rg pos p /\ is_eigh M (sources_csm s2 K k r0g rg pos p) eva eve /\
  (forall s, (s < K)%nat -> peak M G k r0g rg false 0 TrueLocation (pos s)) /\ (0 < K)%nat /\
  bf_orth M G k r0g rg false 0 TrueLocation eva eve (largest K) = Some ac /\ p 0%nat = 1 /\ ac (pos 0%nat) = 1 / 4.
Proof.
  assert (T : forall m, transfer 1 (2 * PI) (fun _ => 2) m = RtoC (1 / 2)) by (intros m; apply (whole_turns 1 (fun _ => 2) m 1); cbn; lra).
  assert (Ap : apart 2 1 1 (2 * PI) (fun _ => 1) (fun _ _ => 2) (fun _ => 0%nat) (fun _ => 1)).
  { split; [intros; split; [lia|lra]|]. split; intros; lia. }
  assert (Ei : is_eigh 2 (sources_csm 0 1 (2 * PI) (fun _ => 1) (fun _ _ => 2) (fun _ => 0%nat) (fun _ => 1)) (eval2 (1 / 4)) evec).
  { apply two_eigh; [lra|]. intros i j Hi Hj. unfold sources_csm. cbn [csum]. rewrite !T. destruct (i =? j)%nat; unfold RtoC, Conj, Cadd, Cmul, C0; cbn [fst snd]; f_equal; lra. }
  assert (Pk : forall s, (s < 1)%nat -> peak 2 1 (2 * PI) (fun _ => 1) (fun _ _ => 2) false 0 TrueLocation ((fun _ => 0%nat) s)).
  { intros s Hs. apply C132_peak; [lia|intros; lra|intros; lra|]. intros q Hq N. lia. }
  destruct (C132_orth 2 1 1 0 (2 * PI) (fun _ => 1) (fun _ _ => 2) (fun _ => 0%nat) (fun _ => 1) (eval2 (1 / 4)) evec false 0 TrueLocation
    ltac:(lia) ltac:(lia) ltac:(intros; lra) ltac:(intros; lra) ltac:(lra) Ap Ei ltac:(discriminate) Pk) as (ac & E1 & E2).
  exists 2%nat, 1%nat, 1%nat, 0, (2 * PI), (fun _ => 1), (fun _ _ => 2), (fun _ => 0%nat), (fun _ => 1), (eval2 (1 / 4)), evec, ac.
  repeat (split; [first [assumption|lia|lra|intros; lra|reflexivity]|]).
  rewrite E2. unfold array_power. cbn. lra.
Qed.
Print Assumptions C132_level_refuted.

(** 'true level' (the default): distances one and one to the source, one and two
    to another grid point, reference distance one.  All the power is given at the other point. *)
Theorem C132_place_refuted : exists M G K s2 k (r0g : nat -> R) (rg : nat -> nat -> R) pos p eva eve ac,
  (0 < M)%nat /\ (K <= M)%nat /\ (forall q, 0 < r0g q) /\ (forall q m, 0 < rg q m) /\ s2 = 0 /\
  apart M G K k r0g rg pos p /\ is_eigh M (sources_csm s2 K k r0g rg pos p) eva eve /\ (0 < K)%nat /\
  bf_orth M G k r0g rg false 0 TrueLevel eva eve (largest K) = Some ac /\ p 0%nat = 1 /\ pos 0%nat = 0%nat /\ ac 0%nat = 0 /\ ac 1%nat = 1.
Proof.
  set (rg := fun q m : nat => if ((q =? 1) && (m =? 1))%nat then 2 else 1).
  assert (Rp : forall q m, 0 < rg q m) by (intros q m; unfold rg; destruct (_ && _)%bool; lra).
  assert (T : forall q m, transfer 1 (2 * PI) (rg q) m = RtoC (1 / rg q m)).
  { intros q m. unfold rg. destruct ((q =? 1) && (m =? 1))%nat eqn:B.
    - rewrite (whole_turns 1 (fun m => if ((q =? 1) && (m =? 1))%nat then 2 else 1) m 1); rewrite ?B; cbn; lra || reflexivity.
    - rewrite (whole_turns 1 (fun m => if ((q =? 1) && (m =? 1))%nat then 2 else 1) m 0); rewrite ?B; cbn; lra || reflexivity. }
  assert (Ap : apart 2 2 1 (2 * PI) (fun _ => 1) rg (fun _ => 0%nat) (fun _ => 1)).
  { split; [intros; split; [lia|lra]|]. split; intros; lia. }
  assert (Ei : is_eigh 2 (sources_csm 0 1 (2 * PI) (fun _ => 1) rg (fun _ => 0%nat) (fun _ => 1)) (eval2 1) evec).
  { apply two_eigh; [lra|]. intros i j Hi Hj. unfold sources_csm. cbn [csum]. rewrite !T. unfold rg. cbn [Nat.eqb andb].
    destruct (i =? j)%nat; unfold RtoC, Conj, Cadd, Cmul, C0; cbn [fst snd]; f_equal; lra. }
  destruct (orth_places 2 2 (eval2 1) (fun c q => fst (freq_eig 2 1 (fun _ => 1) (fun m _ => evec m c) 1 (2 * PI) (rg q) 1 false TrueLevel)) [0%nat]
    ltac:(intros i [<-|[]]; lia) (fun _ => 0)) as (ac & E1 & E2).
  exists 2%nat, 2%nat, 1%nat, 0, (2 * PI), (fun _ => 1), rg, (fun _ => 0%nat), (fun _ => 1), (eval2 1), evec, ac.
  repeat (split; [first [assumption|lia|lra|intros; lra|reflexivity]|]).
  assert (Bm : forall q, fst (freq_eig 2 1 (fun _ => 1) (fun m _ => evec m (2 - 1 - 0)%nat) 1 (2 * PI) (rg q) 1 false TrueLevel)
    = / 2 * norm2 (inner 2 (steer_vector 2 TrueLevel (transfer 1 (2 * PI) (rg q))) (transfer 1 (2 * PI) (rg 0%nat)))).
  { intros q. rewrite (map_dyad 2 (transfer 1 (2 * PI) (rg 0%nat)) (fun m => evec m (2 - 1 - 0)%nat) (/ 2)).
    - rewrite Rmult_1_l. f_equal.
      rewrite (freq_full_order 2 (fun i => i) (order_id 2) 1 (monopole_csm 1 (transfer 1 (2 * PI) (rg 0%nat))) _ 1 (2 * PI) (rg q) (rg q)).
      + rewrite bf_monopole; [ring|lia|lra|auto].
      + intros i j _ _. unfold monopole_csm. rewrite !Conj_mul, Conj_RtoC, Conj_invol. ring.
      + intros i j _ _. unfold monopole_csm. change (RtoC 1) with C1. ring.
      + reflexivity.
    - intros i j _ _. rewrite !T. pose proof isq as Q. unfold evec, rg. cbn [Nat.eqb andb Nat.sub]. unfold RtoC, Conj, Cmul; cbn [fst snd]; f_equal; lra. }
  assert (V : forall q, inner 2 (steer_vector 2 TrueLevel (transfer 1 (2 * PI) (rg q))) (transfer 1 (2 * PI) (rg 0%nat))
    = RtoC ((1 / rg q 0%nat + 1 / rg q 1%nat) / (1 / rg q 0%nat * (1 / rg q 0%nat) + 1 / rg q 1%nat * (1 / rg q 1%nat)))).
  { intros q. unfold inner, steer_vector. cbn [csum]. rewrite !T. set (u := 1 / rg q 0%nat). set (w := 1 / rg q 1%nat).
    assert (0 < u) by (unfold u; apply Rdiv_lt_0_compat; [lra|auto]). assert (0 < w) by (unfold w; apply Rdiv_lt_0_compat; [lra|auto]).
    replace (C0 + RtoC u * Conj (RtoC u) + RtoC w * Conj (RtoC w))%C with (RtoC (u * u + w * w)) by (rewrite !Conj_RtoC, RtoC_add, !RtoC_mul; ring).
    rewrite <- !RtoC_div by nra. rewrite !Conj_RtoC, <- !RtoC_mul. change C0 with (RtoC 0). rewrite <- !RtoC_add. f_equal. unfold rg at 1 2. cbn [Nat.eqb andb]. field. nra. }
  assert (Pk : argmax 2 (fun q => fst (freq_eig 2 1 (fun _ => 1) (fun m _ => evec m (2 - 1 - 0)%nat) 1 (2 * PI) (rg q) 1 false TrueLevel)) = 1%nat).
  { apply argmax_unique; [lia|]. intros j Hj N. assert (j = 0%nat) as -> by lia. rewrite !Bm, !V, !norm2_RtoC. unfold rg. cbn [Nat.eqb andb]. lra. }
  rewrite !E2. cbv beta. cbn [map]. rewrite !Pk. unfold rlist, eval2. cbn. split; lra.
Qed.
Print Assumptions C132_place_refuted.
(** Two sources of strengths 2 and 1 with noise of power 1 that meet the hypotheses. *)
Definition two_r0 (q : nat) : R := if (q =? 0)%nat then 1 else 2.
Definition two_r (q m : nat) : R := if (q =? 0)%nat then (if (m =? 0)%nat then 1 else 2) else (if (m =? 0)%nat then 4 else 2).
Definition two_p (s : nat) : R := if (s =? 0)%nat then 2 else 1.
Definition two_eva (e : nat) : R := if (e =? 0)%nat then 9 / 4 else 7 / 2.
Definition two_eve (m e : nat) : C :=
  RtoC ((if (e =? 0)%nat then (if (m =? 0)%nat then 1 / 2 else 1) else (if (m =? 0)%nat then 1 else - (1 / 2))) / sqrt (5 / 4)).
Example C132_case :
  (2 <= 2)%nat /\ (forall q, 0 < two_r0 q) /\ (forall q m, 0 < two_r q m) /\ apart 2 2 2 PI two_r0 two_r (fun s => s) two_p
  /\ is_eigh 2 (sources_csm 1 2 PI two_r0 two_r (fun s => s) two_p) two_eva two_eve
  /\ forall s, (s < 2)%nat -> peak 2 2 PI two_r0 two_r false 0 TrueLocation s.
Proof.
  assert (P0 : forall q, 0 < two_r0 q) by (intros q; unfold two_r0; destruct (q =? 0)%nat; lra).
  assert (P1 : forall q m, 0 < two_r q m) by (intros q m; unfold two_r; destruct (q =? 0)%nat, (m =? 0)%nat; lra).
  assert (T00 : transfer (two_r0 0) PI (two_r 0) 0 = RtoC 1).
  { unfold transfer, two_r0, two_r. cbn [Nat.eqb]. cbv zeta. replace (PI * (1 - 1)) with 0 by ring. rewrite cos_0, sin_0, Ropp_0. change (1, 0) with C1. change (RtoC 1) with C1. field. apply RtoC_neq0. lra. }
  assert (T01 : transfer (two_r0 0) PI (two_r 0) 1 = RtoC (- (1 / 2))).
  { unfold transfer, two_r0, two_r. cbn [Nat.eqb]. cbv zeta. replace (PI * (2 - 1)) with PI by ring. rewrite cos_PI, sin_PI, Ropp_0. change (-1, 0) with (RtoC (-1)). rewrite <- RtoC_mul, <- RtoC_div by lra. f_equal. lra. }
  assert (T10 : transfer (two_r0 1) PI (two_r 1) 0 = RtoC (1 / 2)).
  { unfold transfer, two_r0, two_r. cbn [Nat.eqb]. cbv zeta. replace (PI * (4 - 2)) with (2 * PI) by ring. rewrite cos_2PI, sin_2PI, Ropp_0. change (1, 0) with (RtoC 1). rewrite <- RtoC_mul, <- RtoC_div by lra. f_equal. lra. }
  assert (T11 : transfer (two_r0 1) PI (two_r 1) 1 = RtoC 1).
  { unfold transfer, two_r0, two_r. cbn [Nat.eqb]. cbv zeta. replace (PI * (2 - 2)) with 0 by ring. rewrite cos_0, sin_0, Ropp_0. change (1, 0) with (RtoC 1). rewrite <- RtoC_mul, <- RtoC_div by lra. f_equal. lra. }
  split; [lia|]. split; [exact P0|]. split; [exact P1|]. split; [|split].
  - split; [|split].
    + intros s Hs. split; [exact Hs|]. unfold two_p. destruct (s =? 0)%nat; lra.
    + intros s t Hs Ht N. cbn [csum]. destruct s as [|[|]]; [| |lia]; (destruct t as [|[|]]; [| |lia]); try contradiction;
        rewrite ?T00, ?T01, ?T10, ?T11; unfold RtoC, Conj, Cadd, Cmul, C0; cbn [fst snd]; f_equal; lra.
    + intros s t Hs Ht N. destruct s as [|[|]]; [| |lia]; (destruct t as [|[|]]; [| |lia]); try contradiction;
        unfold array_power, two_p, two_r0, two_r; cbn; lra.
  - set (q := sqrt (5 / 4)). assert (Q0 : 0 < q) by (apply sqrt_lt_R0; lra). assert (Q : q * q = 5 / 4) by (apply sqrt_sqrt; lra).
    assert (Qi : / q * / q = 4 / 5) by (rewrite <- Rinv_mult, Q; lra).
    split; [|split].
    + intros e i He Hi. unfold sources_csm. cbn [csum].
      destruct e as [|[|]]; [| |lia]; (destruct i as [|[|]]; [| |lia]); rewrite ?T00, ?T01, ?T10, ?T11; unfold two_p, two_eva, two_eve; fold q; cbn [Nat.eqb];
        unfold RtoC, Conj, Cadd, Cmul, C0; cbn [fst snd]; f_equal; field; lra.
    + intros e f He Hf. destruct e as [|[|]]; [| |lia]; (destruct f as [|[|]]; [| |lia]); unfold two_eve; fold q; cbn [Nat.eqb csum];
        unfold RtoC, Conj, Cadd, Cmul, C0, C1, Rdiv; cbn [fst snd]; f_equal; nra.
    + intros e f L Hf. destruct e as [|[|]]; [| |lia]; (destruct f as [|[|]]; [| |lia]); unfold two_eva; cbn [Nat.eqb]; (lra || lia).
  - intros s Hs. apply C132_peak; [lia|exact P0|exact P1|]. intros q Hq N. exists 0%nat, 1%nat. split; [lia|]. split; [lia|].
    destruct s as [|[|]]; [| |lia]; (destruct q as [|[|]]; [| |lia]); try contradiction; rewrite ?T00, ?T01, ?T10, ?T11; rewrite <- !RtoC_mul; intros X; apply RtoC_inj in X; lra.
Qed.
