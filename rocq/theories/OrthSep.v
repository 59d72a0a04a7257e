(** BeamformerEig and BeamformerOrth (property C132; fbeamform.py:827-902,
    1359-1454) for incoherent sources whose transfer vectors are orthogonal,
    with uncorrelated noise of equal power in all channels. *)
From Coq Require Import List Arith Lia ZArith Bool Reals Lra.
From Verif Require Import Stream Cplx Buffer Frames Convolve Fourier Beamform Csm Deconv Subspace Spectral Rewire.
Import ListNotations.
Local Open Scope R_scope.
Local Open Scope C_scope.

(** BeamformerOrth.set_eva_list, fbeamform.py:1415-1418: arange(-1, -1-n, -1). *)
Definition largest (n : nat) : list Z := map (fun i => (-1 - Z.of_nat i)%Z) (seq 0 n).

(** BeamformerOrth._calc, fbeamform.py:1438-1454, one frequency: [M] channels,
    [G] grid points with distances [r0g], [rg]; None is an exception.  The map of
    a component, with eigenvalue one, is not clipped. *)
Definition bf_orth (M G : nat) (k : R) (r0g : nat -> R) (rg : nat -> nat -> R) (rdiag : bool) (rdn : R) (st : steer)
    (eva : nat -> R) (eve : nat -> nat -> C) (eva_list : list Z) : option (nat -> R) :=
  match sig_loss_norm M rdiag rdn with
  | None => None
  | Some loss => orth_calc G M eva
      (fun c q => fst (freq_eig M 1 (fun _ => 1%R) (fun m _ => eve m c) (r0g q) k (rg q) loss rdiag st)) eva_list (fun _ => 0%R)
  end.

(* ------------------------------------------------------------------ *)
(** ** Eigenvectors of a sum of orthogonal sources *)

Lemma zero_or_not K (f : nat -> C) : (forall s, (s < K)%nat -> f s = C0) \/ exists s, (s < K)%nat /\ f s <> C0.
Proof.
  induction K as [|K [IH|(s & Hs & N)]].
  - left. intros; lia.
  - destruct (C_dec (f K)) as [Z|Z].
    + left. intros s Hs. destruct (Nat.eq_dec s K) as [->|]; [exact Z|apply IH; lia].
    + right. exists K. split; [lia|exact Z].
  - right. exists s. split; [lia|exact N].
Qed.

Section Separate.
  Variables (n K : nat) (s2 : R) (p : nat -> R) (a : nat -> nat -> C) (eva : nat -> R) (eve : nat -> nat -> C).
  Let v e := fun i => eve i e.
  (** power of source [s] at all microphones, for strength one *)
  Definition pw (s : nat) : R := rsumn n (fun m => norm2 (a s m)).
  Hypotheses (Hp : forall s, (s < K)%nat -> (0 < p s)%R) (E : is_eigh n (noisy_csm s2 K p a) eva eve) (HK : (K <= n)%nat)
    (Ho : forall s t, (s < K)%nat -> (t < K)%nat -> s <> t -> inner n (a s) (a t) = C0)
    (Hn : forall s, (s < K)%nat -> (0 < pw s)%R)
    (Hd : forall s t, (s < K)%nat -> (t < K)%nat -> s <> t -> (p s * pw s <> p t * pw t)%R).

  Lemma pw_inner s t : (s < K)%nat -> (t < K)%nat -> inner n (a s) (a t) = if (s =? t)%nat then RtoC (pw s) else C0.
  Proof. intros Hs Ht. destruct (Nat.eqb_spec s t) as [->|N]; [apply inner_self|now apply Ho]. Qed.

  Lemma separate_independent : independent n K a.
  Proof.
    intros x Hx s Hs.
    assert (Z : inner n (a s) (fun i => csum K (fun t => x t * a t i)) = C0).
    { rewrite (inner_ext n (a s) (a s) _ (fun _ => C0)) by (intros m Hm; split; [reflexivity|now apply Hx]).
      unfold inner. apply csum_0. intros. ring. }
    rewrite inner_csum_r in Z. rewrite (csum_single K s) in Z; [|assumption|].
    - rewrite inner_scal_r, pw_inner, Nat.eqb_refl in Z by assumption.
      destruct (C_dec (x s)) as [Q|Q]; [exact Q|]. exfalso.
      assert (W : norm2 (x s * RtoC (pw s)) = 0%R) by (rewrite Z; unfold norm2; cbn; ring).
      rewrite norm2_mul in W. apply norm2_pos in Q. specialize (Hn s Hs). unfold norm2 at 2 in W. cbn [fst snd RtoC] in W.
      assert (0 < pw s * pw s)%R by nra. nra.
    - intros t Ht N. rewrite inner_scal_r, pw_inner by assumption. destruct (Nat.eqb_spec s t); [congruence|ring].
  Qed.

  Lemma eigen_source e s : (e < n)%nat -> (s < K)%nat ->
    RtoC (eva e) * inner n (a s) (v e) = RtoC (s2 + p s * pw s) * inner n (a s) (v e).
  Proof.
    intros He Hs. rewrite <- inner_scal_r.
    rewrite (inner_ext n (a s) (a s) (fun i => RtoC (eva e) * v e i)
      (fun i => RtoC s2 * v e i + csum K (fun t => RtoC (p t) * inner n (a t) (v e) * a t i))).
    2:{ intros i Hi. split; [reflexivity|]. destruct E as (E1 & _). unfold v. rewrite <- E1 by assumption. now rewrite noisy_apply. }
    assert (A : inner n (a s) (fun i => RtoC s2 * v e i + csum K (fun t => RtoC (p t) * inner n (a t) (v e) * a t i))
      = inner n (a s) (fun i => RtoC s2 * v e i) + inner n (a s) (fun i => csum K (fun t => RtoC (p t) * inner n (a t) (v e) * a t i))).
    { unfold inner. rewrite <- csum_add. apply csum_ext. intros. ring. }
    rewrite A, inner_scal_r, inner_csum_r. rewrite (csum_single K s); [|assumption|].
    - rewrite inner_scal_r, pw_inner, Nat.eqb_refl by assumption. rewrite RtoC_add, RtoC_mul. ring.
    - intros t Ht N. rewrite inner_scal_r, pw_inner by assumption. destruct (Nat.eqb_spec s t); [congruence|ring].
  Qed.

  Lemma eigen_value e s : (e < n)%nat -> (s < K)%nat -> inner n (a s) (v e) <> C0 -> eva e = (s2 + p s * pw s)%R.
  Proof.
    intros He Hs N. apply RtoC_inj. pose proof (eigen_source e s He Hs) as Q.
    transitivity (RtoC (eva e) * inner n (a s) (v e) / inner n (a s) (v e)); [field; exact N|]. rewrite Q. field. exact N.
  Qed.

  Lemma eigen_only e s t : (e < n)%nat -> (s < K)%nat -> (t < K)%nat -> inner n (a s) (v e) <> C0 -> t <> s -> inner n (a t) (v e) = C0.
  Proof.
    intros He Hs Ht N D. destruct (C_dec (inner n (a t) (v e))) as [Q|Q]; [exact Q|]. exfalso.
    pose proof (eigen_value e s He Hs N). pose proof (eigen_value e t He Ht Q). apply (Hd t s Ht Hs D). lra.
  Qed.

  Lemma eigen_parallel e s i : (e < n)%nat -> (s < K)%nat -> inner n (a s) (v e) <> C0 -> (i < n)%nat ->
    eve i e = inner n (a s) (v e) / RtoC (pw s) * a s i.
  Proof.
    intros He Hs N Hi. pose proof (eigen_value e s He Hs N) as V. destruct E as (E1 & _).
    pose proof (E1 e i He Hi) as Q. rewrite noisy_apply in Q by assumption. fold (v e) in Q. rewrite (csum_single K s) in Q; [|assumption|].
    - pose proof (Hp s Hs) as P1. pose proof (Hn s Hs) as P2. rewrite V, RtoC_add, RtoC_mul in Q.
      assert (N1 : RtoC (p s) <> C0) by (apply RtoC_neq0; lra). assert (N2 : RtoC (pw s) <> C0) by (apply RtoC_neq0; lra).
      assert (Q' : RtoC (p s) * inner n (a s) (v e) * a s i = RtoC (p s) * RtoC (pw s) * eve i e).
      { transitivity ((RtoC s2 * eve i e + RtoC (p s) * inner n (a s) (v e) * a s i) - RtoC s2 * eve i e); [ring|]. rewrite Q. ring. }
      transitivity (RtoC (p s) * RtoC (pw s) * eve i e / (RtoC (p s) * RtoC (pw s))); [field; auto|]. rewrite <- Q'. field. auto.
    - intros t Ht D. rewrite (eigen_only e s t He Hs Ht N D). ring.
  Qed.

  Lemma eigen_size e s : (e < n)%nat -> (s < K)%nat -> inner n (a s) (v e) <> C0 -> norm2 (inner n (a s) (v e)) = pw s.
  Proof.
    intros He Hs N. pose proof (Hn s Hs) as P. destruct E as (_ & E2 & _). pose proof (E2 e e He He) as Q. rewrite Nat.eqb_refl in Q.
    change (inner n (v e) (v e) = C1) in Q. rewrite inner_self in Q. apply (RtoC_inj _ 1) in Q.
    set (z := inner n (a s) (v e)) in *.
    rewrite (rsumn_ext n _ (fun i => (norm2 z / (pw s * pw s)) * norm2 (a s i))%R) in Q.
    2:{ intros i Hi. unfold v. rewrite (eigen_parallel e s i He Hs N Hi). fold z. unfold Cdiv. rewrite !norm2_mul.
        assert (W : norm2 (Cinv (RtoC (pw s))) = (/ (pw s * pw s))%R).
        { assert (X : norm2 (Cinv (RtoC (pw s)) * RtoC (pw s)) = 1%R).
          { replace (Cinv (RtoC (pw s)) * RtoC (pw s)) with C1 by (field; apply RtoC_neq0; lra). unfold norm2. cbn. ring. }
          rewrite norm2_mul in X. unfold norm2 at 2 in X. cbn [fst snd RtoC] in X.
          apply (Rmult_eq_reg_r (pw s * pw s)); [|nra]. rewrite Rinv_l by nra. rewrite <- X. ring. }
        rewrite W. unfold Rdiv. ring. }
    rewrite rsumn_scal in Q. fold (pw s) in Q. apply (Rmult_eq_reg_r (/ pw s)); [|apply Rinv_neq_0_compat; lra].
    rewrite Rinv_r by lra. rewrite <- Q. field. lra.
  Qed.

  (** The dyadic product of an eigenvector is that of its source, normalised. *)
  Lemma eigen_dyad e s i j : (e < n)%nat -> (s < K)%nat -> inner n (a s) (v e) <> C0 -> (i < n)%nat -> (j < n)%nat ->
    eve i e * Conj (eve j e) = RtoC (/ pw s) * (a s i * Conj (a s j)).
  Proof.
    intros He Hs N Hi Hj. rewrite (eigen_parallel e s i He Hs N Hi), (eigen_parallel e s j He Hs N Hj).
    pose proof (Hn s Hs) as P. assert (N2 : RtoC (pw s) <> C0) by (apply RtoC_neq0; lra).
    set (z := inner n (a s) (v e)) in *.
    assert (W : z * Conj z = RtoC (pw s)) by (rewrite mul_Conj; f_equal; unfold z; now apply eigen_size).
    assert (IV : RtoC (/ pw s) = Cinv (RtoC (pw s))).
    { transitivity (Cinv (RtoC (pw s)) * (RtoC (pw s) * RtoC (/ pw s))); [field; exact N2|]. rewrite <- RtoC_mul, Rinv_r by lra. change (RtoC 1) with C1. ring. }
    rewrite Conj_mul. unfold Cdiv. rewrite <- IV. rewrite Conj_mul, Conj_RtoC.
    transitivity ((z * Conj z) * (RtoC (/ pw s) * RtoC (/ pw s)) * (a s i * Conj (a s j))); [ring|]. rewrite W.
    transitivity ((RtoC (pw s) * RtoC (/ pw s)) * RtoC (/ pw s) * (a s i * Conj (a s j))); [ring|].
    rewrite <- RtoC_mul, Rinv_r by lra. change (RtoC 1) with C1. ring.
  Qed.

  Lemma eigen_hit e : (n - K <= e < n)%nat -> exists s, (s < K)%nat /\ inner n (a s) (v e) <> C0.
  Proof.
    intros He. destruct (zero_or_not K (fun s => inner n (a s) (v e))) as [Z|Z]; [|exact Z]. exfalso.
    apply (signal_eigenvalues n K s2 p a eva eve Hp E HK separate_independent e He).
    rewrite (eigenvalue_eq n K s2 p a eva eve E e) by lia.
    rewrite (rsumn_ext K _ (fun _ => 0%R)); [rewrite rsumn_zero; ring|]. intros s Hs. fold (v e). rewrite Z by exact Hs. unfold norm2. cbn. ring.
  Qed.

  Lemma eigen_injective e f s : (e < n)%nat -> (f < n)%nat -> (s < K)%nat ->
    inner n (a s) (v e) <> C0 -> inner n (a s) (v f) <> C0 -> e = f.
  Proof.
    intros He Hf Hs N1 N2. destruct (Nat.eq_dec e f) as [|D]; [assumption|]. exfalso. destruct E as (_ & E2 & _).
    pose proof (E2 e f He Hf) as Q. destruct (Nat.eqb_spec e f); [contradiction|]. change (inner n (v e) (v f) = C0) in Q.
    rewrite (inner_ext n (v e) (fun i => inner n (a s) (v e) / RtoC (pw s) * a s i) (v f) (v f)) in Q
      by (intros i Hi; split; [now apply eigen_parallel|reflexivity]).
    rewrite inner_scal_l in Q. set (z := inner n (a s) (v e)) in *. set (y := inner n (a s) (v f)) in *.
    assert (W : norm2 (Conj (z / RtoC (pw s)) * y) = 0%R) by (rewrite Q; unfold norm2; cbn; ring).
    rewrite norm2_mul in W. apply norm2_pos in N2. assert (Z : norm2 (Conj (z / RtoC (pw s))) = 0%R) by nra.
    apply norm2_0 in Z. apply (f_equal Conj) in Z. rewrite Conj_invol, Conj_0 in Z.
    assert (N3 : RtoC (pw s) <> C0) by (apply RtoC_neq0; specialize (Hn s Hs); lra).
    apply N1. transitivity (z / RtoC (pw s) * RtoC (pw s)); [field; exact N3|]. rewrite Z. ring.
  Qed.

  (** The [i]-th largest eigenvalue belongs to source [sg i]. *)
  Theorem eigen_order : exists sg, order K sg /\ forall i, (i < K)%nat -> inner n (a (sg i)) (v (n - 1 - i)) <> C0.
  Proof.
    assert (X : exists sg : nat -> nat, forall i, (i < K)%nat -> (sg i < K)%nat /\ inner n (a (sg i)) (v (n - 1 - i)) <> C0).
    { assert (Y : forall J, (J <= K)%nat -> exists sg : nat -> nat, forall i, (i < J)%nat -> (sg i < K)%nat /\ inner n (a (sg i)) (v (n - 1 - i)) <> C0).
      { induction J as [|J IH]; intros HJ; [exists (fun _ => 0%nat); intros; lia|].
        destruct IH as [sg Hsg]; [lia|]. destruct (eigen_hit (n - 1 - J)%nat ltac:(lia)) as (s & Hs & N).
        exists (fun i => if (i =? J)%nat then s else sg i). intros i Hi. destruct (Nat.eqb_spec i J) as [->|]; [auto|apply Hsg; lia]. }
      apply Y. lia. }
    destruct X as [sg Hsg]. exists sg. split; [split|].
    - intros i Hi. now apply Hsg.
    - intros i j Hi Hj Q. assert (n - 1 - i = n - 1 - j)%nat; [|lia].
      apply (eigen_injective _ _ (sg i)); try lia; [now apply Hsg|now apply Hsg|]. rewrite Q. now apply Hsg.
    - intros i Hi. now apply Hsg.
  Qed.
End Separate.

(* ------------------------------------------------------------------ *)
(** ** Maps *)

Lemma order_id n : order n (fun i => i).
Proof. split; auto. Qed.

Lemma dyad_hermitian n (a : nat -> C) : hermitian n (fun i j => a i * Conj (a j)).
Proof. intros i j _ _. rewrite Conj_mul, Conj_invol. ring. Qed.

(** Map of one component whose dyadic product is [lam] times that of [a]. *)
Lemma map_dyad n (a : nat -> C) (u : nat -> C) lam c0 r0 k r loss rd st :
  (forall i j, (i < n)%nat -> (j < n)%nat -> u i * Conj (u j) = RtoC lam * (a i * Conj (a j))) ->
  fst (freq_eig n 1 (fun _ => c0) (fun m _ => u m) r0 k r loss rd st)
  = (c0 * lam * fst (freq_full n (fun i j => (a i * Conj (a j))%C) r0 k r loss rd st))%R.
Proof.
  intros H. rewrite eig_kernels.
  apply (freq_full_order n (fun i => i) (order_id n) (c0 * lam)%R (fun i j => a i * Conj (a j))); [apply dyad_hermitian| |reflexivity].
  intros i j Hi Hj. unfold eig_sum. cbn [csum]. rewrite RtoC_mul.
  transitivity (RtoC c0 * (u i * Conj (u j))); [ring|]. rewrite H by assumption. ring.
Qed.

Lemma clip_lt rd x y : (clip_neg rd x < clip_neg rd y -> x < y)%R.
Proof. unfold clip_neg. destruct rd; [|auto]. destruct (Rlt_dec x 0), (Rlt_dec y 0); lra. Qed.

Lemma argmax_unique g x m : (m < g)%nat -> (forall j, (j < g)%nat -> j <> m -> (x j < x m)%R) -> argmax g x = m.
Proof.
  intros Hm H. destruct (argmax_spec g x ltac:(lia)) as [A1 A2]. destruct (Nat.eq_dec (argmax g x) m) as [|N]; [assumption|].
  specialize (A2 m Hm). specialize (H _ A1 N). lra.
Qed.

Lemma py_largest n i : (i < n)%nat -> py_index n (-1 - Z.of_nat i) = Some (n - 1 - i)%nat.
Proof.
  intros Hi. unfold py_index. destruct (Z.leb_spec 0 (-1 - Z.of_nat i)); [lia|]. cbn [andb].
  destruct (Z.leb_spec (- Z.of_nat n) (-1 - Z.of_nat i)); [|lia]. destruct (Z.ltb_spec (-1 - Z.of_nat i) 0); [|lia]. cbn [andb].
  f_equal. lia.
Qed.

Lemma orth_places G n eva bmap l : (forall i, In i l -> (i < n)%nat) -> forall ac,
  exists ac', orth_calc G n eva bmap (map (fun i => (-1 - Z.of_nat i)%Z) l) ac = Some ac'
  /\ forall q, ac' q = (ac q + rlist (map (fun i => if (argmax G (bmap (n - 1 - i)%nat) =? q)%nat then eva (n - 1 - i)%nat / INR n else 0) l))%R.
Proof.
  induction l as [|i l IH]; intros Hl ac.
  - exists ac. split; [reflexivity|]. intros q. unfold rlist. cbn. ring.
  - cbn [map orth_calc]. rewrite py_largest by (apply Hl; now left).
    set (c := (n - 1 - i)%nat). set (pk := argmax G (bmap c)).
    destruct (IH (fun j H => Hl j (or_intror H)) (upd ac pk (ac pk + eva c / INR n)%R)) as (ac' & E & H).
    exists ac'. split; [exact E|]. intros q. rewrite H. unfold rlist. cbn [fold_right]. unfold upd.
    destruct (Nat.eqb_spec q pk) as [->|N].
    + rewrite Nat.eqb_refl. ring.
    + destruct (Nat.eqb_spec pk q); [congruence|]. ring.
Qed.

(* ------------------------------------------------------------------ *)
(** ** Where the map of a single source is largest, 'true location' *)

Lemma cs_gap n x y : let X := rsumn n (fun m => norm2 (x m)) in let Y := rsumn n (fun m => norm2 (y m)) in
  rsumn n (fun m => norm2 (RtoC X * y m - inner n x y * x m)) = (X * (X * Y - norm2 (inner n x y)))%R.
Proof.
  cbv zeta. set (X := rsumn n (fun m => norm2 (x m))). set (Y := rsumn n (fun m => norm2 (y m))). set (s := inner n x y).
  apply RtoC_inj. transitivity (RtoC (X * X * Y - X * norm2 s)); [|f_equal; ring].
  rewrite <- csum_RtoC.
  rewrite (csum_ext n _ (fun m => RtoC (X * X) * RtoC (norm2 (y m)) - RtoC X * s * (Conj (y m) * x m)
      - (RtoC X * Conj s * (Conj (x m) * y m) - RtoC (norm2 s) * RtoC (norm2 (x m))))).
  - rewrite !csum_sub, !csum_scal, !csum_RtoC. fold X Y.
    change (csum n (fun k => Conj (y k) * x k)) with (inner n y x). fold (inner n x y). fold s.
    rewrite <- (inner_conj n x y). fold s.
    replace (RtoC X * s * Conj s) with (RtoC X * RtoC (norm2 s)) by (rewrite <- mul_Conj; ring).
    replace (RtoC X * Conj s * s) with (RtoC X * RtoC (norm2 s)) by (rewrite <- mul_Conj; ring).
    rewrite RtoC_sub, !RtoC_mul. ring.
  - intros m _. rewrite <- !mul_Conj. rewrite Conj_sub, !Conj_mul, Conj_RtoC, RtoC_mul. ring.
Qed.

Lemma cs_strict n x y i j : (0 < rsumn n (fun m => norm2 (x m)))%R -> (i < n)%nat -> (j < n)%nat -> x i * y j <> x j * y i ->
  (norm2 (inner n x y) < rsumn n (fun m => norm2 (x m)) * rsumn n (fun m => norm2 (y m)))%R.
Proof.
  intros HX Hi Hj N. pose proof (cs_gap n x y) as G. cbv zeta in G.
  set (X := rsumn n (fun m => norm2 (x m))) in *. set (Y := rsumn n (fun m => norm2 (y m))) in *. set (s := inner n x y) in *.
  set (d := fun m => RtoC X * y m - s * x m).
  assert (P : (0 < rsumn n (fun m => norm2 (d m)))%R).
  { destruct (C_dec (d i)) as [Zi|Ni], (C_dec (d j)) as [Zj|Nj].
    - exfalso. apply N. assert (NX : RtoC X <> C0) by (apply RtoC_neq0; lra).
      assert (Yi : y i = s * x i / RtoC X) by (transitivity ((d i + s * x i) / RtoC X); [unfold d; field; exact NX|rewrite Zi; field; exact NX]).
      assert (Yj : y j = s * x j / RtoC X) by (transitivity ((d j + s * x j) / RtoC X); [unfold d; field; exact NX|rewrite Zj; field; exact NX]).
      rewrite Yi, Yj. field. exact NX.
    - apply Rlt_le_trans with (norm2 (d j)); [now apply norm2_pos|]. apply (rsumn_term n (fun m => norm2 (d m))); [intros; apply norm2_nonneg|assumption].
    - apply Rlt_le_trans with (norm2 (d i)); [now apply norm2_pos|]. apply (rsumn_term n (fun m => norm2 (d m))); [intros; apply norm2_nonneg|assumption].
    - apply Rlt_le_trans with (norm2 (d j)); [now apply norm2_pos|]. apply (rsumn_term n (fun m => norm2 (d m))); [intros; apply norm2_nonneg|assumption]. }
  unfold d in P. rewrite G in P. assert (0 < X * Y - norm2 s)%R; [|lra]. apply (Rmult_lt_reg_l X); lra.
Qed.

Section Location.
  Variables (n : nat) (k r0 r0s : R) (r rs : nat -> R).
  Hypotheses (Hn : (0 < n)%nat) (Hr0 : (0 < r0)%R) (Hr : forall m, (m < n)%nat -> (0 < r m)%R)
    (Hr0s : (0 < r0s)%R) (Hrs : forall m, (m < n)%nat -> (0 < rs m)%R).
  Let h := transfer r0 k r.
  Let a := transfer r0s k rs.

  Lemma true_location_value rdn :
    bf_base n (fun i j => a i * Conj (a j)) r0 k r false rdn TrueLocation
    = Some (norm2 (inner n h a) / (rsumn n (fun m => norm2 (h m)) * INR n))%R.
  Proof.
    unfold bf_base. cbn [sig_loss_norm clip_neg]. f_equal.
    rewrite (freq_full_order n (fun i => i) (order_id n) 1 (monopole_csm 1 a) _ r0 k r r);
      [| |intros i j _ _; unfold monopole_csm; change (RtoC 1) with C1; ring|reflexivity].
    2:{ intros i j _ _. unfold monopole_csm. rewrite !Conj_mul, Conj_RtoC, Conj_invol. ring. }
    unfold a. rewrite bf_monopole by assumption. fold a h. rewrite !Rmult_1_l.
    pose proof (sum_norm2_a n k r0 r Hn Hr0 Hr) as P. fold h in P. pose proof (lt_0_INR n Hn) as Q.
    set (H2 := rsumn n (fun m => norm2 (h m))) in *.
    assert (S0 : (0 < sqrt (H2 * INR n))%R) by (apply sqrt_lt_R0; nra).
    rewrite (inner_ext n _ (fun m => RtoC (/ sqrt (H2 * INR n)) * h m) a a).
    2:{ intros m Hm. split; [|reflexivity]. unfold steer_vector. pose proof (ss_a n k r0 r) as SA. fold h in SA. fold H2 in SA. rewrite SA. clear SA. cbn [re RtoC fst].
        assert (NS : RtoC (sqrt (H2 * INR n)) <> C0) by (apply RtoC_neq0; lra).
        transitivity (RtoC (/ sqrt (H2 * INR n)) * RtoC (sqrt (H2 * INR n)) * h m / RtoC (sqrt (H2 * INR n))).
        - rewrite <- RtoC_mul, Rinv_l by lra. change (RtoC 1) with C1. field. exact NS.
        - field. exact NS. }
    rewrite inner_scal_l, norm2_mul, norm2_Conj, norm2_RtoC, <- Rinv_mult.
    rewrite sqrt_sqrt by nra. unfold Rdiv. ring.
  Qed.
End Location.
