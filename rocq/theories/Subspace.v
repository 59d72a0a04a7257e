(** BeamformerCapon, BeamformerMusic and BeamformerFunctional of
    /repo/acoular/fbeamform.py, on the kernels of Beamform.v.  Real arithmetic
    stands for float64; scipy's inv and numpy's eigh are given by the
    equations their results satisfy. *)
From Coq Require Import List Arith Lia ZArith Bool Reals Lra.
From Verif Require Import Cplx Beamform Deconv.
Import ListNotations.
Local Open Scope R_scope.
Local Open Scope C_scope.

(** BeamformerCapon._calc, fbeamform.py:808-834, one frequency and grid
    point; [icsm] is inv(csm).  [None] is a division by zero. *)
Definition capon (n : nat) (icsm : nat -> nat -> C) (r0 k : R) (r : nat -> R) (st : steer) : option R :=
  let normfactor := (1 * (INR n * INR n))%R in
  let out := fst (freq_full n icsm r0 k r normfactor false st) in
  if Req_EM_T out 0 then None else Some (1 / out)%R.

(** numpy's min over a non-empty array. *)
Definition list_min (l : list R) : R :=
  match l with [] => 0%R | x :: l' => fold_left Rmin l' x end.

(** BeamformerMusic._calc, fbeamform.py:926-960, one frequency; [nsrc] is the
    attribute [n], the assumed number of sources, [grid] holds the distances
    of the grid points to reference and microphones.  Entry [None] is 0/0 or a
    division by zero. *)
Definition music_out (n : nat) (nsrc : Z) (eva : nat -> R) (eve : nat -> nat -> C) (k : R) (st : steer)
    (g : R * (nat -> R)) : R :=
  let ne := Z.to_nat (Z.of_nat n - get_na nsrc (Z.of_nat n)) in
  let normfactor := (1 * (INR n * INR n))%R in
  fst (freq_eig n ne eva eve (fst g) k (snd g) normfactor false st).

Definition music (n : nat) (nsrc : Z) (eva : nat -> R) (eve : nat -> nat -> C) (k : R) (st : steer)
    (grid : list (R * (nat -> R))) : list (option R) :=
  let out := map (music_out n nsrc eva eve k st) grid in
  map (fun o => if Req_EM_T o 0 then None else Some (4e-10 * list_min out / o)%R) out.

(** numpy's power for a non-negative base and a positive exponent. *)
Definition npow (x g : R) : R := if Req_EM_T x 0 then 0%R else Rpower x g.

(* ------------------------------------------------------------------ *)
(** * Specification *)

(** [d] is the right inverse of [c]. *)
Definition is_inverse (n : nat) (c d : nat -> nat -> C) : Prop :=
  forall i j, (i < n)%nat -> (j < n)%nat ->
    csum n (fun l => c i l * d l j) = if (i =? j)%nat then C1 else C0.

Definition nonzero (n : nat) (x : nat -> C) : Prop := exists m, (m < n)%nat /\ x m <> C0.

Definition positive_definite (n : nat) (c : nat -> nat -> C) : Prop :=
  forall x, nonzero n x -> (0 < re (qform n c x))%R.

(** Sources [a s] of strengths [p s], s < K, with sensor noise of power [s2]. *)
Definition noisy_csm (s2 : R) (K : nat) (p : nat -> R) (a : nat -> nat -> C) (i j : nat) : C :=
  (if (i =? j)%nat then RtoC s2 else C0) + csum K (fun s => RtoC (p s) * a s i * Conj (a s j)).

(** What numpy.linalg.eigh returns: orthonormal eigenvectors, ascending
    eigenvalues. *)
Definition is_eigh (n : nat) (c : nat -> nat -> C) (eva : nat -> R) (eve : nat -> nat -> C) : Prop :=
  (forall e i, (e < n)%nat -> (i < n)%nat -> csum n (fun j => c i j * eve j e) = RtoC (eva e) * eve i e)
  /\ (forall e f, (e < n)%nat -> (f < n)%nat ->
        csum n (fun i => Conj (eve i e) * eve i f) = if (e =? f)%nat then C1 else C0)
  /\ (forall e f, (e <= f)%nat -> (f < n)%nat -> (eva e <= eva f)%R).

(* ------------------------------------------------------------------ *)
(** * Sesquilinear forms *)

Definition sesq (n : nat) (c : nat -> nat -> C) (x y : nat -> C) : C :=
  csum n (fun i => csum n (fun j => Conj (x i) * c i j * y j)).

Definition matvec (n : nat) (c : nat -> nat -> C) (x : nat -> C) (i : nat) : C := csum n (fun j => c i j * x j).

Lemma sesq_qform n c x : sesq n c x x = qform n c x. Proof. reflexivity. Qed.

Lemma sesq_matvec n c x y : sesq n c x y = inner n x (matvec n c y).
Proof.
  unfold sesq, inner, matvec. apply csum_ext. intros i _. rewrite <- csum_scal.
  apply csum_ext. intros j _. ring.
Qed.

Lemma sesq_conj n c x y : hermitian n c -> Conj (sesq n c x y) = sesq n c y x.
Proof.
  intros H. unfold sesq. rewrite csum_conj.


  transitivity (csum n (fun i => csum n (fun j => Conj (Conj (x i) * c i j * y j)))).
  - apply csum_ext. intros i _. apply csum_conj.
  - rewrite csum_swap. apply csum_ext. intros j Hj. apply csum_ext. intros i Hi.
    rewrite !Conj_mul, Conj_invol. rewrite (H i j Hi Hj). ring.
Qed.

Lemma sesq_combine n c x y l :
  sesq n c (fun i => x i + l * y i) (fun i => x i + l * y i)
  = sesq n c x x + l * sesq n c x y + Conj l * sesq n c y x + RtoC (norm2 l) * sesq n c y y.
Proof.
  unfold sesq. rewrite <- !csum_scal, <- !csum_add. apply csum_ext. intros i _.
  rewrite <- !csum_scal, <- !csum_add. apply csum_ext. intros j _.
  rewrite Conj_add, Conj_mul, <- Conj_mul_self. ring.
Qed.

(** Cauchy-Schwarz for a positive semidefinite form. *)
Lemma form_cauchy_schwarz n c x y : hermitian n c ->
  (forall z, (0 <= re (qform n c z))%R) ->
  (norm2 (sesq n c x y) <= re (qform n c x) * re (qform n c y))%R.
Proof.
  intros H P. set (X := re (qform n c x)). set (Y := re (qform n c y)). set (s := sesq n c x y).
  assert (Q : forall t : R, (0 <= X - 2 * t * norm2 s + t * t * norm2 s * Y)%R).
  { intros t. pose proof (P (fun i => x i + (RtoC (- t) * Conj s) * y i)) as Z.
    rewrite <- sesq_qform, sesq_combine in Z. fold s in Z. rewrite <- (sesq_conj n c x y H) in Z. fold s in Z.
    rewrite !re_add, re_RtoC_mul in Z. rewrite !sesq_qform in Z. fold X Y in Z.
    rewrite norm2_mul, norm2_RtoC, norm2_Conj in Z.
    assert (E1 : re (RtoC (- t) * Conj s * s) = (- t * norm2 s)%R).
    { replace (RtoC (- t) * Conj s * s) with (RtoC (- t) * (Conj s * s)) by ring.
      rewrite Conj_mul_self, re_RtoC_mul. reflexivity. }
    assert (E2 : re (Conj (RtoC (- t) * Conj s) * Conj s) = (- t * norm2 s)%R).
    { rewrite Conj_mul, Conj_RtoC, Conj_invol.
      replace (RtoC (- t) * s * Conj s) with (RtoC (- t) * (s * Conj s)) by ring.
      rewrite mul_Conj, re_RtoC_mul. reflexivity. }
    rewrite E1, E2 in Z. lra. }
  assert (HX : (0 <= X)%R) by apply P. assert (HY : (0 <= Y)%R) by apply P.
  pose proof (norm2_nonneg s) as Hs.
  destruct (Req_dec Y 0) as [Z|Z].
  - rewrite Z in *. destruct (Req_dec (norm2 s) 0) as [E|E]; [rewrite E; lra|].
    specialize (Q ((X + 1) / (2 * norm2 s))%R).
    replace (2 * ((X + 1) / (2 * norm2 s)) * norm2 s)%R with (X + 1)%R in Q by (field; lra). lra.
  - assert (0 < Y)%R by lra. specialize (Q (/ Y)%R).
    replace (X - 2 * / Y * norm2 s + / Y * / Y * norm2 s * Y)%R with ((X * Y - norm2 s) / Y)%R in Q by (field; lra).
    apply Rnot_lt_le. intros C.
    assert (0 < (norm2 s - X * Y) / Y)%R by (apply Rdiv_lt_0_compat; lra).
    replace ((norm2 s - X * Y) / Y)%R with (- ((X * Y - norm2 s) / Y))%R in H1 by (field; lra). lra.
Qed.

Lemma rsumn_term n f l : (forall k, (0 <= f k)%R) -> (l < n)%nat -> (f l <= rsumn n f)%R.
Proof.
  intros F. induction n as [|k IH]; [lia|]. intros Hl. cbn.
  destruct (Nat.eq_dec l k) as [->|]; [|specialize (IH ltac:(lia)); specialize (F k); lra].
  assert (0 <= rsumn k f)%R by (apply rsumn_nonneg; intros; apply F). lra.
Qed.

Lemma rsumn_term' n f l : (forall k, (k < n)%nat -> (0 <= f k)%R) -> (l < n)%nat -> (f l <= rsumn n f)%R.
Proof.
  induction n as [|k IH]; [lia|]. intros F Hl. cbn.
  assert (0 <= rsumn k f)%R by (apply rsumn_nonneg; intros; apply F; lia).
  destruct (Nat.eq_dec l k) as [->|]; [lra|].
  specialize (IH (fun i Hi => F i (Nat.lt_trans _ _ _ Hi (Nat.lt_succ_diag_r k))) ltac:(lia)).
  specialize (F k ltac:(lia)). lra.
Qed.

Lemma pd_semi n c : positive_definite n c -> forall z, (0 <= re (qform n c z))%R.
Proof.
  intros P z. assert (D : (exists m, (m < n)%nat /\ z m <> C0) \/ forall m, (m < n)%nat -> z m = C0).
  { clear P. induction n as [|n IH]; [right; intros; lia|].
    destruct IH as [(m & Hm & E)|IH]; [left; exists m; split; [lia|assumption]|].
    destruct (Req_dec (norm2 (z n)) 0) as [E|E].
    - right. intros m Hm. destruct (Nat.eq_dec m n) as [->|]; [now apply norm2_0|apply IH; lia].
    - left. exists n. split; [lia|]. intros F. rewrite F in E. apply E. unfold norm2. cbn. ring. }
  destruct D as [D|D]; [apply Rlt_le, P, D|].
  unfold qform. rewrite csum_0; [cbn; lra|]. intros i Hi. apply csum_0. intros j Hj.
  rewrite (D j Hj). ring.
Qed.

(* ------------------------------------------------------------------ *)
(** * Capon *)

Section Inverse.
  Variables (n : nat) (c d : nat -> nat -> C).
  Hypotheses (Hc : hermitian n c) (Hd : is_inverse n c d).

  (** c (d h) = h *)
  Lemma inverse_apply h i : (i < n)%nat -> matvec n c (matvec n d h) i = h i.
  Proof.
    intros Hi. unfold matvec.
    transitivity (csum n (fun j => csum n (fun l => c i l * d l j) * h j)).
    - rewrite (csum_ext n _ (fun l => csum n (fun j => c i l * d l j * h j))).
      + rewrite csum_swap. apply csum_ext. intros j _. now rewrite csum_scal_r.
      + intros l _. rewrite <- csum_scal. apply csum_ext. intros j _. ring.
    - rewrite (csum_single n i); [rewrite Hd by assumption; rewrite Nat.eqb_refl; ring|assumption|].
      intros j Hj N. rewrite Hd by assumption. destruct (Nat.eqb_spec i j); [congruence|ring].
  Qed.

  Lemma inverse_hermitian : hermitian n d.
  Proof.
    intros i j Hi Hj.
    (* d_ji = sum_lm conj(d_lj) c_lm d_mi = conj(d_ij) *)
    assert (L : csum n (fun l => csum n (fun m => Conj (d l j) * c l m * d m i)) = Conj (d i j)).
    { transitivity (csum n (fun l => Conj (d l j) * (if (l =? i)%nat then C1 else C0))).
      - apply csum_ext. intros l Hl. rewrite <- (Hd l i Hl Hi), <- csum_scal. apply csum_ext. intros. ring.
      - rewrite (csum_single n i); [rewrite Nat.eqb_refl; ring|assumption|].
        intros l Hl N. destruct (Nat.eqb_spec l i); [congruence|ring]. }
    assert (Rr : csum n (fun l => csum n (fun m => Conj (d l j) * c l m * d m i)) = d j i).
    { rewrite csum_swap. transitivity (csum n (fun m => (if (j =? m)%nat then C1 else C0) * d m i)).
      - apply csum_ext. intros m Hm. rewrite csum_scal_r. f_equal.
        transitivity (Conj (csum n (fun l => c m l * d l j))).
        + rewrite csum_conj. apply csum_ext. intros l Hl. rewrite Conj_mul, <- (Hc m l Hm Hl). ring.
        + rewrite Hd by assumption. rewrite Nat.eqb_sym. destruct (j =? m)%nat; [apply Conj_1|apply Conj_0].
      - rewrite (csum_single n j); [rewrite Nat.eqb_refl; ring|assumption|].
        intros m Hm N. destruct (Nat.eqb_spec j m); [congruence|ring]. }
    now rewrite <- Rr, L.
  Qed.

  (** h^H d h = u^H c u with u = d h *)
  Lemma inverse_qform h : qform n d h = qform n c (matvec n d h).
  Proof.
    rewrite <- (sesq_qform n c), sesq_matvec.
    transitivity (Conj (inner n h (matvec n d h))).
    - rewrite <- sesq_matvec, sesq_conj by apply inverse_hermitian. reflexivity.
    - rewrite inner_conj. apply csum_ext. intros i Hi. now rewrite inverse_apply.
  Qed.

  Lemma inverse_positive h : positive_definite n c -> nonzero n h -> (0 < re (qform n d h))%R.
  Proof.
    intros P (m & Hm & Nz). rewrite inverse_qform. apply P.
    assert (D : ~ forall l, (l < n)%nat -> matvec n d h l = C0).
    { intros Z. apply Nz. rewrite <- (inverse_apply h m Hm). unfold matvec at 1. apply csum_0.
      intros l Hl. rewrite Z by assumption. ring. }
    destruct (Rlt_dec 0 (rsumn n (fun l => norm2 (matvec n d h l)))) as [Q|Q].
    - clear D. revert Q. generalize (matvec n d h). intros u Q.
      assert (E : (exists l, (l < n)%nat /\ u l <> C0) \/ rsumn n (fun l => norm2 (u l)) = 0%R).
      { clear. induction n as [|k IH]; [right; reflexivity|].
        destruct IH as [(l & Hl & E)|IH]; [left; exists l; split; [lia|assumption]|].
        destruct (Req_dec (norm2 (u k)) 0) as [E|E].
        - right. cbn. rewrite IH, E. ring.
        - left. exists k. split; [lia|]. intros F. rewrite F in E. apply E. unfold norm2. cbn. ring. }
      destruct E as [E|E]; [exact E|lra].
    - exfalso. apply D. intros l Hl. apply norm2_0.
      assert (G : (norm2 (matvec n d h l) <= rsumn n (fun l => norm2 (matvec n d h l)))%R).
      { apply (rsumn_term n (fun l => norm2 (matvec n d h l))); [intros; apply norm2_nonneg|assumption]. }
      pose proof (norm2_nonneg (matvec n d h l)). lra.
  Qed.

  (** ||h||^4 <= (h^H c h) (h^H d h) *)
  Lemma inverse_bound h : positive_definite n c ->
    let s := rsumn n (fun m => norm2 (h m)) in (s * s <= re (qform n c h) * re (qform n d h))%R.
  Proof.
    intros P s. pose proof (form_cauchy_schwarz n c (matvec n d h) h Hc (pd_semi n c P)) as H.
    rewrite <- inverse_qform in H.
    assert (E : sesq n c (matvec n d h) h = RtoC s).
    { rewrite <- (sesq_conj n c h) by assumption. rewrite sesq_matvec.
      rewrite (inner_ext n h h (matvec n c (matvec n d h)) h).
      - rewrite inner_self. apply Conj_RtoC.
      - intros m Hm. split; [reflexivity|now apply inverse_apply]. }
    rewrite E, norm2_RtoC in H. lra.
  Qed.
End Inverse.

Lemma inverse_left n c d h i : hermitian n c -> is_inverse n c d -> (i < n)%nat ->
  matvec n d (matvec n c h) i = h i.
Proof.
  intros Hc Hd Hi. pose proof (inverse_hermitian n c d Hc Hd) as Dh. apply (inverse_apply n d c).
  - intros p q Hp Hq. transitivity (Conj (csum n (fun l => c q l * d l p))).
    + rewrite csum_conj. apply csum_ext. intros l Hl. rewrite Conj_mul, <- (Hc q l Hq Hl), <- (Dh l p Hl Hp). ring.
    + rewrite Hd by assumption. rewrite Nat.eqb_sym. destruct (p =? q)%nat; [apply Conj_1|apply Conj_0].
  - assumption.
Qed.

Section Capon.
  Variables (n : nat) (r0 k : R) (r : nat -> R).
  Hypotheses (Hn : (0 < n)%nat) (Hr0 : (0 < r0)%R) (Hr : forall m, (m < n)%nat -> (0 < r m)%R).
  Let N := INR n.
  Let a := transfer r0 k r.

  Lemma steer_norm_sum st : steer_norm n (steer_vector n st a) = rsumn n (fun m => norm2 (steer_vector n st a m)).
  Proof. unfold steer_norm. rewrite re_csum. apply rsumn_ext. intros. now rewrite mul_Conj. Qed.

  Lemma N_pos : (0 < N)%R. Proof. now apply lt_0_INR. Qed.

  Lemma steer_nonzero st : nonzero n (steer_vector n st a).
  Proof.
    exists 0%nat. split; [assumption|]. intros E.
    assert (Z : norm2 (steer_vector n st a 0) = 0%R) by (rewrite E; unfold norm2; cbn; ring).
    unfold a in Z. rewrite (steer_vector_raw n r0 k r Hn Hr0 Hr st 0 Hn), norm2_mul in Z.
    rewrite (norm2_raw n k r Hr st 0 Hn), (steer_factor_norm2 n r0 k r Hn Hr0 Hr) in Z.
    pose proof (S_pos n r Hn Hr) as HS. pose proof N_pos as HN. unfold N in HN. specialize (Hr 0%nat Hn).
    assert (F : forall x, (0 < x)%R -> (0 < 1 / x)%R) by (intros; apply Rdiv_lt_0_compat; lra).
    assert (P : forall x y, (0 < x)%R -> (0 < y)%R -> (x * y)%R <> 0%R) by (intros x y X Y; pose proof (Rmult_lt_0_compat _ _ X Y); lra).
    destruct st; revert Z; apply P; try apply F; try lra; repeat apply Rmult_lt_0_compat; lra.
  Qed.

  Lemma capon_eq c d st : hermitian n c -> is_inverse n c d -> positive_definite n c ->
    let q := re (qform n d (steer_vector n st a)) in
    (0 < q)%R /\ capon n d r0 k r st = Some (1 / (N * N * q))%R.
  Proof.
    intros Hc Hd P q. pose proof N_pos as HN.
    assert (Q : (0 < q)%R) by (apply (inverse_positive n c d); auto using steer_nonzero).
    split; [exact Q|]. unfold capon.
    assert (E : fst (freq_full n d r0 k r (1 * (INR n * INR n)) false st) = (N * N * q)%R).
    { unfold q.
      pose proof (inverse_hermitian n c d Hc Hd) as Dh.
      pose proof (bf_quadratic n r0 k r Hn Hr0 Hr d (1 * (INR n * INR n)) false st Dh) as B. cbn [fst] in B.
      transitivity (re (RtoC (fst (freq_full n d r0 k r (1 * (INR n * INR n)) false st)))); [reflexivity|].
      rewrite B. fold a. rewrite !re_RtoC_mul. fold N. ring. }
    rewrite E. destruct (Req_EM_T (N * N * q) 0) as [Z|Z]; [|reflexivity].
    exfalso. assert (0 < N * N * q)%R by (repeat apply Rmult_lt_0_compat; assumption). lra.
  Qed.

  (** Capon never exceeds conventional beamforming. *)
  Theorem capon_below c d st rdn : hermitian n c -> is_inverse n c d -> positive_definite n c ->
    st = Classic \/ st = TrueLocation ->
    exists x y, capon n d r0 k r st = Some x /\ bf_base n c r0 k r false rdn st = Some y /\ (0 < x <= y)%R.
  Proof.
    intros Hc Hd P Hst. destruct (capon_eq c d st Hc Hd P) as [Q E]. set (q := re (qform n d (steer_vector n st a))) in *.
    pose proof N_pos as HN.
    exists (1 / (N * N * q))%R, (re (qform n c (steer_vector n st a))).
    split; [exact E|]. split.
    - rewrite bf_base_full. f_equal. apply RtoC_inj.
      rewrite (bf_quadratic n r0 k r Hn Hr0 Hr c 1 false st Hc). fold a. rewrite qform_scalar by assumption.
      rewrite <- RtoC_mul. f_equal. cbn [re RtoC fst]. ring.
    - assert (0 < N * N * q)%R by (repeat apply Rmult_lt_0_compat; assumption).
      split; [apply Rdiv_lt_0_compat; lra|].
      pose proof (inverse_bound n c d Hc Hd (steer_vector n st a) P) as B. cbv zeta in B.
      rewrite <- steer_norm_sum in B. fold q in B.
      assert (SN : steer_norm n (steer_vector n st a) = (1 / N)%R).
      { unfold a. rewrite (steer_norm_vector n r0 k r Hn Hr0 Hr). destruct Hst as [-> | ->]; reflexivity. }
      rewrite SN in B.
      apply Rmult_le_reg_r with (N * N * q)%R; [assumption|].
      replace (1 / (N * N * q) * (N * N * q))%R with 1%R by (field; split; lra).
      replace (re (qform n c (steer_vector n st a)) * (N * N * q))%R
        with (N * N * (re (qform n c (steer_vector n st a)) * q))%R by ring.
      replace 1%R with (N * N * (1 / N * (1 / N)))%R by (field; lra).
      apply Rmult_le_compat_l; [nra|exact B].
  Qed.

  (** One source in sensor noise, grid point at the source. *)
  Lemma source_apply s2 p2 i : (i < n)%nat ->
    let c := fun i j => (if (i =? j)%nat then RtoC s2 else C0) + RtoC p2 * a i * Conj (a j) in
    matvec n c a i = RtoC (s2 + p2 * rsumn n (fun m => norm2 (a m))) * a i.
  Proof.
    intros Hi c. unfold matvec, c.
    rewrite (csum_ext n _ (fun j => (if (i =? j)%nat then RtoC s2 else C0) * a j + RtoC p2 * a i * (Conj (a j) * a j)))
      by (intros; ring).
    rewrite csum_add, csum_scal. fold (inner n a a). rewrite inner_self.
    rewrite (csum_single n i); [|assumption|intros j Hj Nj; destruct (Nat.eqb_spec i j); [congruence|ring]].
    rewrite Nat.eqb_refl, RtoC_add, RtoC_mul. ring.
  Qed.

  Lemma transfer_power : rsumn n (fun m => norm2 (a m)) = rsumn n (fun m => r0 * r0 / (r m * r m))%R.
  Proof. apply rsumn_ext. intros m Hm. unfold a. apply transfer_norm2. specialize (Hr m Hm). lra. Qed.

  Lemma steer_parallel st : st = TrueLevel \/ st = TrueLocation ->
    exists z, (forall m, (m < n)%nat -> steer_vector n st a m = z * a m)
    /\ norm2 z = (match st with
                  | TrueLevel => 1 / (rsumn n (fun m => norm2 (a m)) * rsumn n (fun m => norm2 (a m)))
                  | _ => 1 / (rsumn n (fun m => norm2 (a m)) * N)
                  end)%R.
  Proof.
    intros Hst. pose proof N_pos as HN.
    assert (SS : csum n (fun j => a j * Conj (a j)) = RtoC (rsumn n (fun m => norm2 (a m)))).
    { rewrite <- csum_RtoC. apply csum_ext. intros. apply mul_Conj. }
    set (S := rsumn n (fun m => norm2 (a m))) in *.
    assert (HS : (0 < S)%R).
    { apply rsumn_pos; [assumption|]. intros m Hm. apply norm2_pos. apply transfer_neq0; auto. }
    assert (0 < S * N)%R by (apply Rmult_lt_0_compat; assumption).
    assert (0 < sqrt (S * N))%R by now apply sqrt_lt_R0.
    destruct Hst as [-> | ->].
    - exists (Cinv (RtoC S)). split.
      + intros m Hm. unfold steer_vector. rewrite SS. unfold Cdiv. ring.
      + rewrite <- RtoC_inv, norm2_RtoC by lra. field. lra.
    - exists (Cinv (RtoC (sqrt (S * N)))). split.
      + intros m Hm. unfold steer_vector. rewrite SS. cbn [re RtoC fst]. fold N. unfold Cdiv. ring.
      + rewrite <- RtoC_inv, norm2_RtoC by lra.
        replace (/ sqrt (S * N) * / sqrt (S * N))%R with (1 / (sqrt (S * N) * sqrt (S * N)))%R by (field; lra).
        rewrite sqrt_sqrt by lra. reflexivity.
  Qed.

  Lemma source_hermitian s2 p2 :
    hermitian n (fun i j => (if (i =? j)%nat then RtoC s2 else C0) + RtoC p2 * a i * Conj (a j)).
  Proof.
    intros i j _ _. rewrite Nat.eqb_sym, Conj_add, !Conj_mul, Conj_invol, Conj_RtoC.
    destruct (i =? j)%nat; rewrite ?Conj_RtoC, ?Conj_0; ring.
  Qed.

  Lemma source_positive s2 p2 : (0 < s2)%R -> (0 <= p2)%R ->
    positive_definite n (fun i j => (if (i =? j)%nat then RtoC s2 else C0) + RtoC p2 * a i * Conj (a j)).
  Proof.
    intros H2 Hp x (m & Hm & Nz).
    assert (E : qform n (fun i j => (if (i =? j)%nat then RtoC s2 else C0) + RtoC p2 * a i * Conj (a j)) x
      = RtoC (s2 * rsumn n (fun i => norm2 (x i)) + p2 * norm2 (inner n x a))).
    { rewrite RtoC_add, <- qform_monopole, RtoC_mul, <- csum_RtoC, <- csum_scal. unfold qform, monopole_csm.
      rewrite <- csum_add. apply csum_ext. intros i Hi.
      rewrite (csum_ext n _ (fun j => Conj (x i) * (if (i =? j)%nat then RtoC s2 else C0) * x j
         + Conj (x i) * (RtoC p2 * a i * Conj (a j)) * x j)) by (intros; ring).
      rewrite csum_add. f_equal.
      rewrite (csum_single n i); [|assumption|intros j Hj Nj; destruct (Nat.eqb_spec i j); [congruence|ring]].
      rewrite Nat.eqb_refl, <- Conj_mul_self. ring. }
    rewrite E. cbn [re RtoC fst].
    assert (0 < rsumn n (fun i => norm2 (x i)))%R.
    { apply Rlt_le_trans with (norm2 (x m)); [now apply norm2_pos|].
      apply (rsumn_term n (fun i => norm2 (x i))); [intros; apply norm2_nonneg|assumption]. }
    pose proof (norm2_nonneg (inner n x a)).
    assert (0 < s2 * rsumn n (fun i => norm2 (x i)))%R by now apply Rmult_lt_0_compat.
    assert (0 <= p2 * norm2 (inner n x a))%R by now apply Rmult_le_pos. lra.
  Qed.

  Theorem capon_source s2 p2 d st : (0 < s2)%R -> (0 <= p2)%R ->
    let c := fun i j => (if (i =? j)%nat then RtoC s2 else C0) + RtoC p2 * a i * Conj (a j) in
    is_inverse n c d -> st = TrueLevel \/ st = TrueLocation ->
    let S := rsumn n (fun m => r0 * r0 / (r m * r m))%R in
    (0 < S)%R /\
    capon n d r0 k r st
    = Some ((p2 + s2 / S) * match st with TrueLevel => (S / N) * (S / N) | _ => S / N end)%R.
  Proof.
    intros H2 Hp c Hd Hst S. pose proof (source_hermitian s2 p2) as Hc. fold c in Hc.
    pose proof (source_positive s2 p2 H2 Hp) as P. fold c in P. pose proof N_pos as HN.
    destruct (capon_eq c d st Hc Hd P) as [Q E]. rewrite E. clear E.
    destruct (steer_parallel st Hst) as (z & Hz & Nz).
    assert (HS : (0 < S)%R).
    { unfold S. rewrite <- transfer_power. apply rsumn_pos; [assumption|]. intros m Hm. apply norm2_pos.
      apply transfer_neq0; auto. }
    assert (W : (0 < s2 + p2 * S)%R) by (assert (0 <= p2 * S)%R by (apply Rmult_le_pos; lra); lra).
    assert (q : re (qform n d (steer_vector n st a)) = (norm2 z * (S / (s2 + p2 * S)))%R).
    { rewrite (qform_ext n d _ (fun m => z * a m) Hz), qform_scale, re_RtoC_mul. f_equal.
      rewrite <- sesq_qform, sesq_matvec.
      rewrite (inner_ext n a a (matvec n d a) (fun m => RtoC (/ (s2 + p2 * S)) * a m)).
      - assert (I2 : inner n a (fun m => RtoC (/ (s2 + p2 * S)) * a m) = RtoC (/ (s2 + p2 * S)) * inner n a a).
        { unfold inner. rewrite <- csum_scal. apply csum_ext. intros. ring. }
        rewrite I2, inner_self, re_RtoC_mul. cbn [re RtoC fst]. rewrite transfer_power. fold S. field. lra.
      - intros m Hm. split; [reflexivity|].
        rewrite <- (inverse_left n c d (fun j => RtoC (/ (s2 + p2 * S)) * a j) m Hc Hd Hm).
        unfold matvec at 1 2. apply csum_ext. intros j Hj. f_equal.
        transitivity (RtoC (/ (s2 + p2 * S)) * matvec n c a j).
        + unfold c. rewrite source_apply by assumption. rewrite transfer_power. fold S.
          replace (RtoC (/ (s2 + p2 * S)) * (RtoC (s2 + p2 * S) * a j))
            with ((RtoC (/ (s2 + p2 * S)) * RtoC (s2 + p2 * S)) * a j) by ring.
          rewrite <- RtoC_mul, Rinv_l by lra. change (RtoC 1) with C1. ring.
        + unfold matvec. rewrite <- csum_scal. apply csum_ext. intros. ring. }
    rewrite q, Nz. split; [exact HS|]. f_equal. rewrite transfer_power. fold S. destruct Hst as [-> | ->]; field; lra.
  Qed.
End Capon.

(* ------------------------------------------------------------------ *)
(** * MUSIC *)

(** K homogeneous equations in K + 1 unknowns have a non-trivial solution. *)
Definition skip (e0 e : nat) : nat := if (e <? e0)%nat then e else S e.

Lemma csum_skip n e0 f : (e0 <= n)%nat -> csum (S n) f = f e0 + csum n (fun e => f (skip e0 e)).
Proof.
  revert e0. induction n as [|n IH]; intros e0 H.
  - replace e0 with 0%nat by lia. cbn. ring.
  - destruct (Nat.eq_dec e0 (S n)) as [->|].
    + cbn [csum]. rewrite (csum_ext n (fun e => f (skip (S n) e)) f).
      * unfold skip at 1. destruct (Nat.ltb_spec n (S n)); [|lia]. ring.
      * intros e He. unfold skip. destruct (Nat.ltb_spec e (S n)); [reflexivity|lia].
    + change (csum (S (S n)) f) with (csum (S n) f + f (S n)). rewrite (IH e0) by lia.
      change (csum (S n) (fun e => f (skip e0 e))) with (csum n (fun e => f (skip e0 e)) + f (skip e0 n)).
      unfold skip at 3. destruct (Nat.ltb_spec n e0); [lia|]. ring.
Qed.

Lemma C_dec (z : C) : z = C0 \/ z <> C0.
Proof.
  destruct (Req_dec (norm2 z) 0) as [E|E]; [left; now apply norm2_0|].
  right. intros F. rewrite F in E. apply E. unfold norm2. cbn. ring.
Qed.

Lemma homogeneous K : forall M : nat -> nat -> C,
  exists x, (exists e, (e <= K)%nat /\ x e <> C0)
  /\ forall s, (s < K)%nat -> csum (S K) (fun e => M s e * x e) = C0.
Proof.
  induction K as [|K IH]; intros M.
  - exists (fun _ => C1). split; [exists 0%nat; split; [lia|]|intros; lia].
    intros E. injection E. lra.
  - assert (D : (exists e, (e <= S K)%nat /\ M K e <> C0) \/ forall e, (e <= S K)%nat -> M K e = C0).
    { generalize (S K). intros q. induction q as [|q Hq].
      - destruct (C_dec (M K 0%nat)) as [E|E]; [right|left; exists 0%nat; auto].
        intros e He. now replace e with 0%nat by lia.
      - destruct Hq as [(e & He & E)|Hq]; [left; exists e; split; [lia|assumption]|].
        destruct (C_dec (M K (S q))) as [E|E]; [right|left; exists (S q); auto].
        intros e He. destruct (Nat.eq_dec e (S q)) as [->|]; [assumption|apply Hq; lia]. }
    destruct D as [(e0 & He0 & Nz)|Z].
    + set (M' := fun s e => M s (skip e0 e) - M s e0 * (M K (skip e0 e) / M K e0)).
      destruct (IH M') as (y & (e & He & Ny) & Eq).
      set (x := fun f => if (f =? e0)%nat then - (csum (S K) (fun e => M K (skip e0 e) * y e) / M K e0)
                         else if (f <? e0)%nat then y f else y (f - 1)%nat).
      assert (X : forall f, x (skip e0 f) = y f).
      { intros f. unfold x, skip. destruct (Nat.ltb_spec f e0).
        - destruct (Nat.eqb_spec f e0); [lia|]. destruct (Nat.ltb_spec f e0); [reflexivity|lia].
        - destruct (Nat.eqb_spec (S f) e0); [lia|]. destruct (Nat.ltb_spec (S f) e0); [lia|].
          f_equal. lia. }
      assert (X0 : x e0 = - (csum (S K) (fun e => M K (skip e0 e) * y e) / M K e0))
        by (unfold x; now rewrite Nat.eqb_refl).
      exists x. split.
      * exists (skip e0 e). split; [unfold skip; destruct (e <? e0)%nat; lia|now rewrite X].
      * intros s Hs. rewrite (csum_skip (S K) e0) by lia.
        rewrite (csum_ext (S K) (fun e => M s (skip e0 e) * x (skip e0 e)) (fun e => M s (skip e0 e) * y e))
          by (intros; now rewrite X).
        rewrite X0.
        destruct (Nat.eq_dec s K) as [->|].
        -- field. assumption.
        -- specialize (Eq s ltac:(lia)). unfold M' in Eq.
           rewrite (csum_ext (S K) _ (fun e => M s (skip e0 e) * y e - (M s e0 / M K e0) * (M K (skip e0 e) * y e))) in Eq
             by (intros; field; assumption).
           rewrite csum_sub, csum_scal in Eq. rewrite <- Eq. field. assumption.
    + destruct (IH M) as (y & (e & He & Ny) & Eq).
      exists (fun f => if (f =? S K)%nat then C0 else y f). split.
      * exists e. split; [lia|]. destruct (Nat.eqb_spec e (S K)); [lia|assumption].
      * intros s Hs. change (csum (S (S K)) ?f) with (csum (S K) f + f (S K)). cbv beta. rewrite Nat.eqb_refl.
        destruct (Nat.eq_dec s K) as [->|].
        -- rewrite csum_0; [ring|]. intros f Hf. rewrite Z by lia. ring.
        -- rewrite (csum_ext (S K) _ (fun f => M s f * y f)).
           ++ rewrite Eq by lia. ring.
           ++ intros f Hf. destruct (Nat.eqb_spec f (S K)); [lia|reflexivity].
Qed.

Section Noise.
  Variables (n K : nat) (s2 : R) (p : nat -> R) (a : nat -> nat -> C) (eva : nat -> R) (eve : nat -> nat -> C).
  Hypotheses (Hp : forall s, (s < K)%nat -> (0 < p s)%R) (E : is_eigh n (noisy_csm s2 K p a) eva eve).

  Let v e := fun i => eve i e.

  Lemma noisy_apply x i : (i < n)%nat ->
    csum n (fun j => noisy_csm s2 K p a i j * x j)
    = RtoC s2 * x i + csum K (fun s => RtoC (p s) * inner n (a s) x * a s i).
  Proof.
    intros Hi. unfold noisy_csm.
    rewrite (csum_ext n _ (fun j => (if (i =? j)%nat then RtoC s2 else C0) * x j
        + csum K (fun s => RtoC (p s) * a s i * Conj (a s j) * x j))).
    2:{ intros j _. rewrite csum_scal_r. ring. }
    rewrite csum_add. f_equal.
    - rewrite (csum_single n i); [now rewrite Nat.eqb_refl|assumption|].
      intros j Hj Nj. destruct (Nat.eqb_spec i j); [congruence|ring].
    - rewrite csum_swap. apply csum_ext. intros s _. unfold inner.
      rewrite (csum_ext n _ (fun j => (RtoC (p s) * a s i) * (Conj (a s j) * x j))) by (intros; ring).
      rewrite csum_scal. ring.
  Qed.

  (** eigenvalue from the Rayleigh quotient *)
  Lemma eigenvalue_eq e : (e < n)%nat ->
    eva e = (s2 + rsumn K (fun s => p s * norm2 (inner n (a s) (v e))))%R.
  Proof.
    intros He. destruct E as (E1 & E2 & _). apply RtoC_inj.
    transitivity (csum n (fun i => Conj (v e i) * (RtoC (eva e) * v e i))).
    - rewrite (csum_ext n _ (fun i => RtoC (eva e) * (Conj (v e i) * v e i))) by (intros; ring).
      rewrite csum_scal. unfold v. rewrite E2 by assumption. rewrite Nat.eqb_refl. ring.
    - transitivity (csum n (fun i => Conj (v e i) * (RtoC s2 * v e i + csum K (fun s => RtoC (p s) * inner n (a s) (v e) * a s i)))).
      + apply csum_ext. intros i Hi. unfold v. rewrite <- E1 by assumption. now rewrite noisy_apply.
      + rewrite (csum_ext n _ (fun i => RtoC s2 * (Conj (v e i) * v e i)
           + csum K (fun s => Conj (v e i) * (RtoC (p s) * inner n (a s) (v e) * a s i)))).
        2:{ intros i _. rewrite csum_scal. ring. }
        rewrite csum_add, csum_scal. unfold v at 1 2. rewrite E2 by assumption. rewrite Nat.eqb_refl.
        rewrite RtoC_add, <- csum_RtoC, csum_swap. f_equal; [ring|]. apply csum_ext. intros s _.
        rewrite (csum_ext n _ (fun i => (RtoC (p s) * inner n (a s) (v e)) * (Conj (v e i) * a s i))) by (intros; ring).
        rewrite csum_scal. fold (inner n (v e) (a s)). rewrite <- (inner_conj n (a s) (v e)), RtoC_mul, <- mul_Conj. ring.
  Qed.

  Lemma eigenvalue_ge e : (e < n)%nat -> (s2 <= eva e)%R.
  Proof.
    intros He. rewrite (eigenvalue_eq e He).
    assert (0 <= rsumn K (fun s => p s * norm2 (inner n (a s) (v e))))%R; [|lra].
    apply rsumn_nonneg. intros s Hs. specialize (Hp s Hs). apply Rmult_le_pos; [lra|apply norm2_nonneg].
  Qed.

  (** an eigenvector of the noise eigenvalue is orthogonal to the sources *)
  Lemma noise_orthogonal e s : (e < n)%nat -> (s < K)%nat -> eva e = s2 -> inner n (a s) (v e) = C0.
  Proof.
    intros He Hs Q. apply norm2_0. pose proof (eigenvalue_eq e He) as W. rewrite Q in W.
    assert (Z : rsumn K (fun s => p s * norm2 (inner n (a s) (v e)))%R = 0%R) by lra.
    assert (T : (p s * norm2 (inner n (a s) (v e)) <= 0)%R).
    { rewrite <- Z. apply (rsumn_term' K (fun s => p s * norm2 (inner n (a s) (v e)))%R); [|assumption].
      intros i Hi. specialize (Hp i Hi). apply Rmult_le_pos; [lra|apply norm2_nonneg]. }
    specialize (Hp s Hs). pose proof (norm2_nonneg (inner n (a s) (v e))).
    apply Rle_antisym; [|assumption].
    apply Rmult_le_reg_l with (p s); [assumption|]. lra.
  Qed.

  (** all but the K largest eigenvalues are the noise power *)
  Theorem noise_eigenvalues e : (e + K < n)%nat -> eva e = s2.
  Proof.
    intros He. destruct (Req_dec (eva e) s2) as [Q|Q]; [exact Q|exfalso].
    pose proof (eigenvalue_ge e ltac:(lia)) as G.
    assert (L : forall q, (q <= K)%nat -> (eva (e + q) - s2)%R <> 0%R).
    { intros q Hq. destruct E as (_ & _ & E3). specialize (E3 e (e + q)%nat ltac:(lia) ltac:(lia)). lra. }
    destruct (homogeneous K (fun s q => RtoC (p s) * inner n (a s) (v (e + q)) / RtoC (eva (e + q) - s2)))
      as (x & (q & Hq & Nx) & Eq).
    assert (V : forall t i, (t <= K)%nat -> (i < n)%nat ->
      v (e + t) i = csum K (fun s => RtoC (p s) * inner n (a s) (v (e + t)) / RtoC (eva (e + t) - s2) * a s i)).
    { intros t i Ht Hi. pose proof (RtoC_neq0 _ (L t Ht)) as Nz. destruct E as (E1 & _ & _).
      pose proof (E1 (e + t)%nat i ltac:(lia) Hi) as W. rewrite noisy_apply in W by assumption.
      fold (v (e + t)) in W. change (eve i (e + t)%nat) with (v (e + t) i) in W.
      assert (F : v (e + t) i = (RtoC (eva (e + t)) * v (e + t) i - RtoC s2 * v (e + t) i) / RtoC (eva (e + t) - s2)).
      { rewrite RtoC_sub. rewrite RtoC_sub in Nz. field. assumption. }
      rewrite F at 1. rewrite <- W. unfold Cdiv.
      rewrite (csum_ext K (fun s => RtoC (p s) * inner n (a s) (v (e + t)) * Cinv (RtoC (eva (e + t) - s2)) * a s i)
        (fun s => (RtoC (p s) * inner n (a s) (v (e + t)) * a s i) * Cinv (RtoC (eva (e + t) - s2)))) by (intros; ring).
      rewrite csum_scal_r. ring. }
    assert (Z : forall i, (i < n)%nat -> csum (S K) (fun t => x t * v (e + t) i) = C0).
    { intros i Hi. rewrite (csum_ext (S K) _ (fun t => csum K (fun s =>
         (RtoC (p s) * inner n (a s) (v (e + t)) / RtoC (eva (e + t) - s2) * x t) * a s i))).
      - rewrite csum_swap. apply csum_0. intros s Hs. rewrite csum_scal_r, Eq by assumption. ring.
      - intros t Ht. rewrite (V t i ltac:(lia) Hi) at 1. rewrite <- csum_scal. apply csum_ext. intros. ring. }
    apply Nx. destruct E as (_ & E2 & _).
    transitivity (csum n (fun i => Conj (v (e + q) i) * csum (S K) (fun t => x t * v (e + t) i))).
    - rewrite (csum_ext n _ (fun i => csum (S K) (fun t => x t * (Conj (v (e + q) i) * v (e + t) i)))).
      2:{ intros i _. rewrite <- csum_scal. apply csum_ext. intros. ring. }
      rewrite csum_swap. rewrite (csum_single (S K) q).
      + rewrite csum_scal. unfold v. rewrite E2 by lia. rewrite Nat.eqb_refl. ring.
      + lia.
      + intros t Ht Nt. rewrite csum_scal. unfold v. rewrite E2 by lia.
        destruct (Nat.eqb_spec (e + q) (e + t)); [lia|ring].
    - apply csum_0. intros i Hi. rewrite Z by assumption. ring.
  Qed.
End Noise.

(** Orthonormal columns of a square matrix form a basis. *)
Section Basis.
  Variables (n : nat) (eve : nat -> nat -> C).
  Hypothesis Ho : forall e f, (e < n)%nat -> (f < n)%nat ->
        csum n (fun i => Conj (eve i e) * eve i f) = if (e =? f)%nat then C1 else C0.

  Let v e := fun i => eve i e.

  Lemma residual_orthogonal h f : (f < n)%nat ->
    inner n (v f) (fun i => h i - csum n (fun e => inner n (v e) h * eve i e)) = C0.
  Proof.
    intros Hf. unfold inner at 1.
    rewrite (csum_ext n _ (fun i => Conj (v f i) * h i - csum n (fun e => inner n (v e) h * (Conj (v f i) * eve i e)))).
    2:{ intros i _. rewrite (csum_ext n (fun e => inner n (v e) h * (Conj (v f i) * eve i e))
          (fun e => Conj (v f i) * (inner n (v e) h * eve i e))) by (intros; ring).
        rewrite csum_scal. ring. }
    rewrite csum_sub, csum_swap. fold (inner n (v f) h).
    rewrite (csum_single n f); [|assumption|].
    - rewrite csum_scal. unfold v at 3. rewrite Ho by assumption. rewrite Nat.eqb_refl. ring.
    - intros e He Ne. rewrite csum_scal. unfold v at 2. rewrite Ho by assumption.
      destruct (Nat.eqb_spec f e); [congruence|ring].
  Qed.

  Theorem expansion h i : (i < n)%nat -> h i = csum n (fun e => inner n (v e) h * eve i e).
  Proof.
    intros Hi. set (g := fun i => h i - csum n (fun e => inner n (v e) h * eve i e)).
    destruct (homogeneous n (fun i e => if (e =? n)%nat then g i else eve i e)) as (x & (e & He & Nx) & Eq).
    assert (Eq' : forall i, (i < n)%nat -> csum n (fun e => x e * eve i e) + x n * g i = C0).
    { intros q Hq. rewrite <- (Eq q Hq). cbn [csum]. rewrite Nat.eqb_refl.
      rewrite (csum_ext n (fun e => (if (e =? n)%nat then g q else eve q e) * x e) (fun e => x e * eve q e)).
      - ring.
      - intros f Hf. destruct (Nat.eqb_spec f n); [lia|ring]. }
    assert (X : forall f, (f < n)%nat -> x f = C0).
    { intros f Hf.
      assert (T : csum n (fun i => Conj (v f i) * (csum n (fun e => x e * eve i e) + x n * g i)) = C0).
      { apply csum_0. intros q Hq. rewrite Eq' by assumption. ring. }
      rewrite (csum_ext n _ (fun i => csum n (fun e => x e * (Conj (v f i) * eve i e)) + x n * (Conj (v f i) * g i))) in T.
      2:{ intros q _. rewrite (csum_ext n (fun e => x e * (Conj (v f q) * eve q e)) (fun e => Conj (v f q) * (x e * eve q e)))
            by (intros; ring). rewrite csum_scal. ring. }
      rewrite csum_add, csum_scal in T. fold (inner n (v f) g) in T. unfold g in T. rewrite residual_orthogonal in T by assumption.
      rewrite csum_swap in T. rewrite (csum_single n f) in T; [|assumption|].
      - rewrite csum_scal in T. unfold v in T. rewrite Ho in T by assumption. rewrite Nat.eqb_refl in T.
        rewrite <- T. ring.
      - intros q Hq Nq. rewrite csum_scal. unfold v. rewrite Ho by assumption.
        destruct (Nat.eqb_spec f q); [congruence|ring]. }
    assert (En : e = n). { destruct (Nat.eq_dec e n); [assumption|]. exfalso. apply Nx, X. lia. } subst e.
    specialize (Eq' i Hi). rewrite csum_0 in Eq' by (intros; rewrite X by assumption; ring).
    assert (G : g i = C0).
    { transitivity (Cinv (x n) * (C0 + x n * g i)); [|rewrite Eq'; ring].
      replace (Cinv (x n)) with (C1 / x n) by (unfold Cdiv; ring). field. assumption. }
    unfold g in G. transitivity (h i - csum n (fun e => inner n (v e) h * eve i e) + csum n (fun e => inner n (v e) h * eve i e)); [ring|].
    rewrite G. ring.
  Qed.

  Theorem basis_parseval h : rsumn n (fun m => norm2 (h m)) = rsumn n (fun e => norm2 (inner n (v e) h)).
  Proof.
    apply RtoC_inj. rewrite <- inner_self, <- csum_RtoC.
    transitivity (csum n (fun i => Conj (h i) * csum n (fun e => inner n (v e) h * eve i e))).
    - apply csum_ext. intros i Hi. now rewrite <- expansion.
    - rewrite (csum_ext n _ (fun i => csum n (fun e => inner n (v e) h * (Conj (h i) * eve i e)))).
      2:{ intros i _. rewrite <- csum_scal. apply csum_ext. intros. ring. }
      rewrite csum_swap. apply csum_ext. intros e _. rewrite csum_scal.
      fold (v e). change (csum n (fun i => Conj (h i) * eve i e)) with (inner n h (v e)).
      rewrite <- (inner_conj n (v e) h). apply mul_Conj.
  Qed.
End Basis.

Lemma fold_min_spec l : forall x, (fold_left Rmin l x <= x)%R /\ (forall y, In y l -> (fold_left Rmin l x <= y)%R)
  /\ (fold_left Rmin l x = x \/ In (fold_left Rmin l x) l).
Proof.
  induction l as [|z l IH]; intros x; cbn [fold_left].
  - split; [lra|]. split; [intros y []|now left].
  - destruct (IH (Rmin x z)) as (H1 & H2 & H3). pose proof (Rmin_l x z). pose proof (Rmin_r x z).
    split; [lra|]. split.
    + intros y [<-|Hy]; [lra|now apply H2].
    + destruct H3 as [H3|H3]; [|right; now right].
      destruct (Rle_dec x z) as [L|L]; [left; rewrite H3; apply Rmin_left; lra|].
      right. left. rewrite H3. symmetry. apply Rmin_right. lra.
Qed.

Lemma list_min_spec l : l <> [] -> In (list_min l) l /\ forall y, In y l -> (list_min l <= y)%R.
Proof.
  destruct l as [|x l]; [congruence|]. intros _. cbn [list_min]. destruct (fold_min_spec l x) as (H1 & H2 & H3).
  split.
  - destruct H3 as [->|H3]; [now left|now right].
  - intros y [<-|Hy]; auto.
Qed.

Section Music.
  Variables (n : nat) (k : R).
  Hypothesis Hn : (0 < n)%nat.

  Definition good_point (g : R * (nat -> R)) : Prop := (0 < fst g)%R /\ forall m, (m < n)%nat -> (0 < snd g m)%R.

  Lemma music_out_eq nsrc eva eve st g : good_point g ->
    music_out n nsrc eva eve k st g
    = (INR n * INR n * rsumn (Z.to_nat (Z.of_nat n - get_na nsrc (Z.of_nat n)))
         (fun e => eva e * norm2 (inner n (fun i => eve i e) (steer_vector n st (transfer (fst g) k (snd g))))))%R.
  Proof.
    intros [H0 Hr]. unfold music_out. rewrite (fast_eig_custom n (fst g) k (snd g) Hn H0 Hr).
    unfold freq_custom_eig, scalar_prod_eig. cbn [fst]. cbv zeta.
    rewrite (rsumn_ext _ _ (fun e => eva e * norm2 (inner n (fun i => eve i e) (steer_vector n st (transfer (fst g) k (snd g)))))%R).
    - ring.
    - intros e _. rewrite mul_Conj. cbn [re RtoC fst]. unfold inner. ring.
  Qed.

  (** Scaling of the map. *)
  Theorem music_scaled nsrc eva eve st grid : grid <> [] ->
    let out := music_out n nsrc eva eve k st in
    (forall g, In g grid -> (0 < out g)%R) ->
    exists m, (exists g, In g grid /\ out g = m) /\ (forall g, In g grid -> (m <= out g)%R)
      /\ music n nsrc eva eve k st grid = map (fun g => Some (4e-10 * (m / out g))%R) grid.
  Proof.
    intros Hg out Hpos. exists (list_min (map out grid)).
    destruct (list_min_spec (map out grid)) as [H1 H2]; [now destruct grid|].
    split; [|split].
    - apply in_map_iff in H1. destruct H1 as (g & E & I1). exists g. auto.
    - intros g I1. apply H2. now apply in_map.
    - unfold music. fold out. rewrite map_map. apply map_ext_in. intros g I1. specialize (Hpos g I1).
      destruct (Req_EM_T (out g) 0) as [Z|Z]; [lra|]. f_equal. unfold Rdiv. ring.
  Qed.

  (** A source on the grid. *)
  Theorem music_source K s2 p a eva eve nsrc st g s : (forall s, (s < K)%nat -> (0 < p s)%R) ->
    is_eigh n (noisy_csm s2 K p a) eva eve -> (Z.of_nat K <= get_na nsrc (Z.of_nat n))%Z ->
    st = TrueLevel \/ st = TrueLocation -> good_point g -> (s < K)%nat ->
    (forall m, (m < n)%nat -> a s m = transfer (fst g) k (snd g) m) ->
    music_out n nsrc eva eve k st g = 0%R.
  Proof.
    intros Hp E HK Hst Hg Hs Ha. pose proof (get_na_spec nsrc (Z.of_nat n) ltac:(lia)) as [Hna _].
    rewrite music_out_eq by assumption. destruct Hg as [H0 Hr].
    destruct (steer_parallel n (fst g) k (snd g) Hn H0 Hr st Hst) as (z & Hz & _).
    rewrite rsumn_0; [ring|]. intros e He.
    assert (He' : (e + K < n)%nat) by lia.
    rewrite (inner_ext n _ (fun i => eve i e) _ (fun m => z * a s m)).
    - assert (Q : inner n (fun i => eve i e) (fun m => z * a s m) = z * Conj (inner n (a s) (fun i => eve i e))).
      { rewrite inner_conj. unfold inner. rewrite <- csum_scal. apply csum_ext. intros. ring. }
      rewrite Q, (noise_orthogonal n K s2 p a eva eve Hp E e s); [|lia|assumption|now apply (noise_eigenvalues n K s2 p a eva eve Hp E)].
      rewrite norm2_mul. unfold norm2 at 2. cbn. ring.
    - intros m Hm. split; [reflexivity|]. now rewrite Hz, Ha.
  Qed.

  (** Without sources everywhere: the map in terms of the noise subspace. *)
  Theorem music_noise K s2 p a eva eve nsrc st g : (forall s, (s < K)%nat -> (0 < p s)%R) ->
    is_eigh n (noisy_csm s2 K p a) eva eve -> (Z.of_nat K <= get_na nsrc (Z.of_nat n))%Z -> good_point g ->
    music_out n nsrc eva eve k st g
    = (s2 * (INR n * INR n * rsumn (Z.to_nat (Z.of_nat n - get_na nsrc (Z.of_nat n)))
         (fun e => norm2 (inner n (fun i => eve i e) (steer_vector n st (transfer (fst g) k (snd g)))))))%R.
  Proof.
    intros Hp E HK Hg. pose proof (get_na_spec nsrc (Z.of_nat n) ltac:(lia)) as [Hna _].
    rewrite music_out_eq by assumption.
    rewrite (rsumn_ext _ _ (fun e => s2 * norm2 (inner n (fun i => eve i e) (steer_vector n st (transfer (fst g) k (snd g)))))%R).
    - rewrite rsumn_scal. ring.
    - intros e He. now rewrite (noise_eigenvalues n K s2 p a eva eve Hp E e ltac:(lia)).
  Qed.

  (** A vanishing denominator makes the rest of the map zero. *)
  Theorem music_zero nsrc eva eve st grid g :
    let out := music_out n nsrc eva eve k st in
    (forall g, In g grid -> (0 <= out g)%R) -> In g grid -> out g = 0%R ->
    music n nsrc eva eve k st grid = map (fun q => if Req_EM_T (out q) 0 then None else Some 0%R) grid.
  Proof.
    intros out Hpos Hg Z. unfold music. fold out. rewrite map_map. apply map_ext. intros q.
    destruct (Req_EM_T (out q) 0) as [E|E]; [reflexivity|].
    destruct (list_min_spec (map out grid)) as [H1 H2]; [destruct grid; [destruct Hg|discriminate]|].
    apply in_map_iff in H1. destruct H1 as (q' & E' & I'). specialize (Hpos q' I').
    specialize (H2 (out g) (in_map out _ _ Hg)).
    replace (list_min (map out grid)) with 0%R by lra. f_equal. unfold Rdiv. ring.
  Qed.
End Music.

(* ------------------------------------------------------------------ *)
(** * Functional beamforming *)

Local Close Scope C_scope.

Lemma npow_nonneg x g : 0 <= npow x g.
Proof. unfold npow. destruct (Req_EM_T x 0); [lra|]. apply Rlt_le, exp_pos. Qed.

Lemma npow_pos x g : x <> 0 -> 0 < npow x g.
Proof. intros H. unfold npow. destruct (Req_EM_T x 0); [lra|]. apply exp_pos. Qed.

Lemma npow_0 g : npow 0 g = 0.
Proof. unfold npow. destruct (Req_EM_T 0 0); lra. Qed.

Lemma npow_1 x : 0 <= x -> npow x 1 = x.
Proof. intros H. unfold npow. destruct (Req_EM_T x 0); [lra|]. apply Rpower_1. lra. Qed.

Lemma npow_npow x g h : 0 <= x -> npow (npow x g) h = npow x (g * h).
Proof.
  intros H. unfold npow at 1 3. destruct (Req_EM_T x 0) as [->|N].
  - rewrite npow_0. destruct (Req_EM_T 0 0); lra.
  - pose proof (npow_pos x g N). destruct (Req_EM_T (npow x g) 0); [lra|].
    unfold npow. destruct (Req_EM_T x 0); [contradiction|]. apply Rpower_mult.
Qed.

Lemma npow_mult x y g : 0 <= x -> 0 <= y -> npow (x * y) g = npow x g * npow y g.
Proof.
  intros Hx Hy. unfold npow. destruct (Req_EM_T x 0) as [->|Nx].
  - rewrite Rmult_0_l. destruct (Req_EM_T 0 0); lra.
  - destruct (Req_EM_T y 0) as [->|Ny]; [rewrite Rmult_0_r; destruct (Req_EM_T 0 0); lra|].
    destruct (Req_EM_T (x * y) 0) as [E|_]; [apply Rmult_integral in E; lra|].
    symmetry. apply Rpower_mult_distr; lra.
Qed.

Lemma npow_le x y g : 0 <= x -> x <= y -> 0 < g -> npow x g <= npow y g.
Proof.
  intros Hx Hxy Hg. unfold npow at 1. destruct (Req_EM_T x 0) as [->|N]; [apply npow_nonneg|].
  unfold npow. destruct (Req_EM_T y 0); [lra|]. apply Rle_Rpower_l; lra.
Qed.

(** Tangent to a convex power. *)
Lemma bernoulli x g : 0 <= x -> 1 <= g -> 1 + g * (x - 1) <= npow x g.
Proof.
  intros Hx Hg. unfold npow. destruct (Req_EM_T x 0) as [->|N]; [lra|].
  assert (0 < x) by lra. unfold Rpower. set (t := ln x).
  assert (Ex : x = exp t) by (unfold t; now rewrite exp_ln).
  pose proof (exp_ineq1_le ((g - 1) * t)) as I1. pose proof (exp_ineq1_le (- t)) as I2.
  assert (E1 : exp (g * t) = exp t * exp ((g - 1) * t)) by (rewrite <- exp_plus; f_equal; ring).
  assert (E2 : exp t * exp (- t) = 1) by (rewrite <- exp_plus; replace (t + - t) with 0 by ring; apply exp_0).
  rewrite Ex. pose proof (exp_pos t) as Pt. rewrite E1.
  assert (A : exp t * (1 + (g - 1) * t) <= exp t * exp ((g - 1) * t)) by (apply Rmult_le_compat_l; lra).
  assert (B : exp t * (1 + - t) <= 1) by (rewrite <- E2; apply Rmult_le_compat_l; lra).
  assert (B' : (g - 1) * (exp t * (1 + - t)) <= (g - 1) * 1) by (apply Rmult_le_compat_l; lra).
  nra.
Qed.

Lemma jensen n w y g : (forall e, (e < n)%nat -> 0 <= w e) -> (forall e, (e < n)%nat -> 0 <= y e) ->
  rsumn n w = 1 -> 1 <= g ->
  npow (rsumn n (fun e => w e * y e)) g <= rsumn n (fun e => w e * npow (y e) g).
Proof.
  intros Hw Hy W Hg. set (m := rsumn n (fun e => w e * y e)).
  assert (Hm : 0 <= m) by (apply rsumn_nonneg; intros; apply Rmult_le_pos; auto).
  destruct (Req_dec m 0) as [Z|Z].
  - rewrite Z, npow_0. apply rsumn_nonneg. intros e He. apply Rmult_le_pos; [auto|apply npow_nonneg].
  - assert (0 < m) by lra.
    assert (L : 1 <= rsumn n (fun e => w e * npow (y e / m) g)).
    { apply Rle_trans with (rsumn n (fun e => w e * (1 + g * (y e / m - 1)))).
      - rewrite (rsumn_ext n _ (fun e => (1 - g) * w e + (g / m) * (w e * y e))) by (intros; field; lra).
        rewrite rsumn_add, !rsumn_scal, W. fold m. apply Req_le. field. lra.
      - apply rsumn_le. intros e He. apply Rmult_le_compat_l; [auto|]. apply bernoulli; [|assumption].
        apply Rle_mult_inv_pos; auto. }
    pose proof (npow_pos m g Z) as P.
    replace (rsumn n (fun e => w e * npow (y e) g)) with (npow m g * rsumn n (fun e => w e * npow (y e / m) g)).
    + rewrite <- (Rmult_1_r (npow m g)) at 1. apply Rmult_le_compat_l; lra.
    + rewrite <- rsumn_scal. apply rsumn_ext. intros e He.
      replace (npow (y e) g) with (npow (m * (y e / m)) g) by (f_equal; field; lra).
      rewrite npow_mult; [ring|lra|]. apply Rle_mult_inv_pos; auto.
Qed.

Section Functional.
  Variables (n : nat) (r0 k : R) (r : nat -> R) (st : steer).
  Hypotheses (Hn : (0 < n)%nat) (Hr0 : (0 < r0)%R) (Hr : forall m, (m < n)%nat -> (0 < r m)%R).
  Variables (eva : nat -> R) (eve : nat -> nat -> C).
  Hypothesis Ho : forall e f, (e < n)%nat -> (f < n)%nat ->
        csum n (fun i => Cmul (Conj (eve i e)) (eve i f)) = if (e =? f)%nat then C1 else C0.
  Hypothesis Hl : forall e, (e < n)%nat -> 0 <= eva e.

  Let h := steer_vector n st (transfer r0 k r).
  Let q e := norm2 (inner n (fun i => eve i e) h).
  Let s := rsumn n (fun m => norm2 (h m)).

  Lemma steer_size : 0 < s.
  Proof.
    destruct (steer_nonzero n r0 k r Hn Hr0 Hr st) as (m & Hm & Nz). fold h in Nz.
    apply Rlt_le_trans with (norm2 (h m)); [now apply norm2_pos|].
    apply (rsumn_term n (fun m => norm2 (h m))); [intros; apply norm2_nonneg|assumption].
  Qed.

  Lemma functional_eq g :
    bf_functional n npow g eva eve r0 k r st
    = npow (rsumn n (fun e => q e / s * npow (eva e) (1 / g))) g * s.
  Proof.
    pose proof steer_size as Hs.
    unfold bf_functional. rewrite (fast_eig_custom n r0 k r Hn Hr0 Hr). fold h. unfold freq_custom_eig.
    rewrite Rmult_1_r. unfold h at 2 3. rewrite (steer_norm_sum n r0 k r). fold h. fold s. rewrite Rmult_1_r. do 2 f_equal.
    unfold scalar_prod_eig. cbv zeta. unfold Rdiv at 1. rewrite Rmult_comm, <- rsumn_scal.
    apply rsumn_ext. intros e _. rewrite mul_Conj. cbn [re RtoC fst]. unfold q, inner. field. lra.
  Qed.

  Lemma weights : (forall e, (e < n)%nat -> 0 <= q e / s) /\ rsumn n (fun e => q e / s) = 1.
  Proof.
    pose proof steer_size as Hs. split.
    - intros e _. apply Rle_mult_inv_pos; [apply norm2_nonneg|assumption].
    - rewrite (rsumn_ext n _ (fun e => / s * q e)) by (intros; unfold Rdiv; ring).
      rewrite rsumn_scal. unfold q. rewrite <- (basis_parseval n eve Ho h). fold s. apply Rinv_l. lra.
  Qed.

  Theorem functional_decreasing g g' : 0 < g -> g <= g' ->
    bf_functional n npow g' eva eve r0 k r st <= bf_functional n npow g eva eve r0 k r st.
  Proof.
    intros Hg Hgg. rewrite !functional_eq. pose proof steer_size as Hs. destruct weights as [W1 W2].
    apply Rmult_le_compat_r; [lra|].
    set (W' := rsumn n (fun e => q e / s * npow (eva e) (1 / g'))).
    set (W := rsumn n (fun e => q e / s * npow (eva e) (1 / g))).
    assert (HW' : 0 <= W') by (apply rsumn_nonneg; intros; apply Rmult_le_pos; [auto|apply npow_nonneg]).
    assert (D : 1 <= g' / g).
    { apply Rmult_le_reg_r with g; [assumption|]. replace (g' / g * g) with g' by (field; lra). lra. }
    assert (J : npow W' (g' / g) <= W).
    { unfold W', W. eapply Rle_trans; [apply (jensen n (fun e => q e / s) (fun e => npow (eva e) (1 / g')) (g' / g)); auto|].
      - intros; apply npow_nonneg.
      - apply Req_le. apply rsumn_ext. intros e He. rewrite npow_npow by auto. f_equal. f_equal. field. lra. }
    replace (npow W' g') with (npow (npow W' (g' / g)) g).
    - apply npow_le; [apply npow_nonneg|assumption|assumption].
    - rewrite npow_npow by assumption. f_equal. field. lra.
  Qed.
End Functional.

(** A single noise-free source. *)
Theorem functional_source n k r0 r p2 eva eve g st :
  (0 < n)%nat -> 0 < r0 -> (forall m, (m < n)%nat -> 0 < r m) -> 0 < p2 -> 0 < g ->
  let a := transfer r0 k r in
  is_eigh n (fun i j => Cmul (Cmul (RtoC p2) (a i)) (Conj (a j))) eva eve ->
  st = TrueLevel \/ st = TrueLocation ->
  let S := rsumn n (fun m => r0 * r0 / (r m * r m)) in
  bf_functional n npow g eva eve r0 k r st = p2 * match st with TrueLevel => 1 | _ => S / INR n end.
Proof.
  intros Hn Hr0 Hr Hp Hg a E0 Hst S.
  assert (E : is_eigh n (noisy_csm 0 1 (fun _ => p2) (fun _ => a)) eva eve).
  { destruct E0 as (E1 & E2 & E3). split; [|split; assumption]. intros e i He Hi. rewrite <- (E1 e i He Hi).
    apply csum_ext. intros j _. f_equal. unfold noisy_csm. cbn [csum].
    change (RtoC 0) with C0. destruct (i =? j)%nat; ring. }
  assert (Hp' : forall s, (s < 1)%nat -> 0 < (fun _ : nat => p2) s) by (intros; assumption).
  assert (Z : forall e, (e + 1 < n)%nat -> eva e = 0 /\ inner n (fun i => eve i e) a = C0).
  { intros e He. pose proof (noise_eigenvalues n 1 0 _ _ eva eve Hp' E e He) as Q. split; [exact Q|].
    rewrite <- inner_conj.
    rewrite (noise_orthogonal n 1 0 _ (fun _ => a) eva eve Hp' E e 0%nat ltac:(lia) ltac:(lia) Q). apply Conj_0. }
  assert (Ho := proj1 (proj2 E)).
  assert (HS : rsumn n (fun m => norm2 (a m)) = S) by (apply (transfer_power n r0 k r Hr)).
  assert (Sp : 0 < S).
  { rewrite <- HS. apply rsumn_pos; [assumption|]. intros m Hm. apply norm2_pos. now apply transfer_neq0; auto. }
  assert (T : norm2 (inner n (fun i => eve i (n - 1)%nat) a) = S).
  { rewrite <- HS, (basis_parseval n eve Ho a). symmetry. apply (rsumn_single n (n - 1) (fun e => norm2 (inner n (fun i => eve i e) a))); [lia|].
    intros e He Ne. rewrite (proj2 (Z e ltac:(lia))). unfold norm2. cbn. ring. }
  assert (L : eva (n - 1)%nat = p2 * S).
  { rewrite (eigenvalue_eq n 1 0 (fun _ => p2) (fun _ => a) eva eve E) by lia. cbn [rsumn].
    rewrite <- inner_conj, norm2_Conj, T. ring. }
  assert (HN : 0 < INR n) by now apply lt_0_INR.
  destruct (steer_parallel n r0 k r Hn Hr0 Hr st Hst) as (z & Hz & Nz). fold a in Hz, Nz. rewrite HS in Nz.
  assert (Zp : 0 < norm2 z).
  { rewrite Nz. destruct st; apply Rdiv_lt_0_compat; try lra; apply Rmult_lt_0_compat; lra. }
  rewrite (functional_eq n r0 k r st Hn Hr0 Hr).
  assert (Hs : rsumn n (fun m => norm2 (steer_vector n st (transfer r0 k r) m)) = norm2 z * S).
  { rewrite (rsumn_ext n _ (fun m => norm2 z * norm2 (a m))); [now rewrite rsumn_scal, HS|].
    intros m Hm. fold a. now rewrite Hz, norm2_mul. }
  assert (I2 : forall e, (e < n)%nat -> norm2 (inner n (fun i => eve i e) (steer_vector n st (transfer r0 k r)))
      = norm2 z * norm2 (inner n (fun i => eve i e) a)).
  { intros e He. fold a. rewrite (inner_ext n _ (fun i => eve i e) _ (fun m => Cmul z (a m))).
    - rewrite <- norm2_mul. f_equal. unfold inner. rewrite <- csum_scal. apply csum_ext. intros. ring.
    - intros m Hm. split; [reflexivity|now apply Hz]. }
  rewrite Hs.
  rewrite (rsumn_single n (n - 1)).
  - rewrite I2, T, L by lia.
    replace (norm2 z * S / (norm2 z * S) * npow (p2 * S) (1 / g)) with (npow (p2 * S) (1 / g)) by (field; lra).
    assert (0 < p2 * S) by (apply Rmult_lt_0_compat; assumption).
    rewrite npow_npow by lra. replace (1 / g * g) with 1 by (field; lra). rewrite npow_1 by lra.
    rewrite Nz. destruct Hst as [-> | ->]; field; lra.
  - lia.
  - intros e He Ne. rewrite (proj1 (Z e ltac:(lia))), npow_0. ring.
Qed.

(* ------------------------------------------------------------------ *)
(** * The noise subspace *)

Local Open Scope C_scope.

Definition independent (n K : nat) (a : nat -> nat -> C) : Prop :=
  forall x, (forall i, (i < n)%nat -> csum K (fun s => x s * a s i) = C0) -> forall s, (s < K)%nat -> x s = C0.

Section Signal.
  Variables (n K : nat) (s2 : R) (p : nat -> R) (a : nat -> nat -> C) (eva : nat -> R) (eve : nat -> nat -> C).
  Hypotheses (Hp : forall s, (s < K)%nat -> (0 < p s)%R) (E : is_eigh n (noisy_csm s2 K p a) eva eve)
    (HK : (K <= n)%nat) (Ha : independent n K a).

  Let v e := fun i => eve i e.
  Let m := (n - K)%nat.

  (** the K largest eigenvalues lie above the noise *)
  Lemma signal_eigenvalues f : (m <= f < n)%nat -> eva f <> s2.
  Proof.
    intros [Hf1 Hf2] Q. assert (Ho := proj1 (proj2 E)). assert (Mono := proj2 (proj2 E)).
    (* all eigenvectors up to f are orthogonal to the sources *)
    assert (Z : forall e s, (e <= f)%nat -> (s < K)%nat -> inner n (v e) (a s) = C0).
    { intros e s He Hs. rewrite <- inner_conj. unfold v.
      rewrite (noise_orthogonal n K s2 p a eva eve Hp E e s); [apply Conj_0|lia|assumption|].
      pose proof (eigenvalue_ge n K s2 p a eva eve Hp E e ltac:(lia)). specialize (Mono e f He Hf2). lra. }
    destruct K as [|K'] eqn:EK; [subst m; lia|].
    (* K vectors in the span of fewer than K eigenvectors *)
    destruct (homogeneous K' (fun t s => if (S f + t <? n)%nat then inner n (v (S f + t)) (a s) else C0)) as (x & (s & Hs & Nx) & Eq).
    apply Nx. apply Ha; [|lia]. intros i Hi.
    set (g := fun i => csum (S K') (fun s => x s * a s i)).
    assert (G : forall e, (e < n)%nat -> inner n (v e) g = C0).
    { intros e He.
      assert (L : inner n (v e) g = csum (S K') (fun s => inner n (v e) (a s) * x s)).
      { unfold inner, g. rewrite (csum_ext n _ (fun i => csum (S K') (fun s => Conj (v e i) * a s i * x s))).
        - rewrite csum_swap. apply csum_ext. intros. now rewrite csum_scal_r.
        - intros j _. rewrite <- csum_scal. apply csum_ext. intros. ring. }
      rewrite L. destruct (le_lt_dec e f) as [H|H].
      - apply csum_0. intros q Hq. rewrite Z by (assumption || lia). ring.
      - specialize (Eq (e - S f)%nat ltac:(lia)).
        replace (S f + (e - S f))%nat with e in Eq by lia.
        destruct (Nat.ltb_spec e n); [exact Eq|lia]. }
    transitivity (g i); [reflexivity|].
    rewrite (expansion n eve Ho g i Hi). apply csum_0. intros e He. fold (v e). rewrite G by assumption. ring.
  Qed.

  (** an eigenvector above the noise is a combination of the sources *)
  Lemma signal_span f u : (m <= f < n)%nat -> (forall s, (s < K)%nat -> inner n (a s) u = C0) -> inner n (v f) u = C0.
  Proof.
    intros Hf Hu. pose proof (signal_eigenvalues f Hf) as Q.
    assert (Nz : RtoC (eva f - s2) <> C0) by (apply RtoC_neq0; lra).
    rewrite <- inner_conj. transitivity (Conj C0); [f_equal|apply Conj_0].
    unfold inner.
    rewrite (csum_ext n _ (fun i => csum K (fun s => (RtoC (p s) * inner n (a s) (v f) / RtoC (eva f - s2)) * (Conj (u i) * a s i)))).
    - rewrite csum_swap. apply csum_0. intros s Hs. rewrite csum_scal.
      fold (inner n u (a s)). rewrite <- (inner_conj n (a s) u), Hu, Conj_0 by assumption. ring.
    - intros i Hi. destruct E as (E1 & _ & _).
      pose proof (E1 f i ltac:(lia) Hi) as W. rewrite noisy_apply in W by assumption.
      fold (v f) in W. change (eve i f) with (v f i) in W.
      assert (F : v f i = (RtoC (eva f) * v f i - RtoC s2 * v f i) / RtoC (eva f - s2)).
      { rewrite RtoC_sub. rewrite RtoC_sub in Nz. field. assumption. }
      rewrite F at 1. rewrite <- W.
      transitivity (csum K (fun s => (Conj (u i) * Cinv (RtoC (eva f - s2))) * (RtoC (p s) * inner n (a s) (v f) * a s i))).
      + rewrite csum_scal. unfold Cdiv. ring.
      + apply csum_ext. intros. unfold Cdiv. ring.
  Qed.
End Signal.

(** The projection on the noise subspace depends on the source positions only. *)
Theorem noise_projection n K a s2 p eva eve s2' p' eva' eve' h :
  (forall s, (s < K)%nat -> (0 < p s)%R) -> (forall s, (s < K)%nat -> (0 < p' s)%R) ->
  is_eigh n (noisy_csm s2 K p a) eva eve -> is_eigh n (noisy_csm s2' K p' a) eva' eve' ->
  (K <= n)%nat -> independent n K a ->
  rsumn (n - K) (fun e => norm2 (inner n (fun i => eve i e) h))
  = rsumn (n - K) (fun e => norm2 (inner n (fun i => eve' i e) h)).
Proof.
  intros Hp Hp' E E' HK Ha. set (m := (n - K)%nat).
  assert (Ho := proj1 (proj2 E)). assert (Ho' := proj1 (proj2 E')).
  set (Q := fun i e : nat => inner n (fun l => eve l i) (fun l => eve' l e)).
  assert (Orth : forall e f, (e < m)%nat -> (m <= f < n)%nat -> inner n (fun l => eve l f) (fun l => eve' l e) = C0).
  { intros e f He Hf. apply (signal_span n K s2 p a eva eve Hp E HK Ha f); [exact Hf|].
    intros s Hs. apply (noise_orthogonal n K s2' p' a eva' eve' Hp' E' e s); [lia|assumption|].
    apply (noise_eigenvalues n K s2' p' a eva' eve' Hp' E'). lia. }
  (* expansion of the noise vectors of the second in those of the first *)
  assert (X : forall e i, (e < m)%nat -> (i < n)%nat -> eve' i e = csum m (fun j => Q j e * eve i j)).
  { intros e i He Hi. rewrite (expansion n eve Ho (fun l => eve' l e) i Hi).
    replace n with (m + K)%nat at 1 by lia. rewrite csum_split.
    rewrite (csum_0 K); [unfold Q; ring|]. intros q Hq. rewrite Orth by lia. ring. }
  assert (QO : forall e f, (e < m)%nat -> (f < m)%nat ->
    csum m (fun i => Conj (Q i e) * Q i f) = if (e =? f)%nat then C1 else C0).
  { intros e f He Hf. rewrite <- (Ho' e f) by lia.
    transitivity (csum n (fun i => Conj (eve' i e) * csum m (fun j => Q j f * eve i j))).
    - rewrite (csum_ext n _ (fun i => csum m (fun j => Q j f * (Conj (eve' i e) * eve i j)))).
      + rewrite csum_swap. apply csum_ext. intros j Hj. rewrite csum_scal.
        change (csum n (fun i => Conj (eve' i e) * eve i j)) with (inner n (fun l => eve' l e) (fun l => eve l j)).
        rewrite <- inner_conj. fold (Q j e). ring.
      + intros i _. rewrite <- csum_scal. apply csum_ext. intros. ring.
    - apply csum_ext. intros i Hi. now rewrite <- X. }
  rewrite (basis_parseval m Q QO (fun j => inner n (fun l => eve l j) h)).
  apply rsumn_ext. intros e He. f_equal.
  unfold inner at 1. symmetry.
  transitivity (csum n (fun i => Conj (csum m (fun j => Q j e * eve i j)) * h i)).
  - apply csum_ext. intros i Hi. now rewrite <- X.
  - rewrite (csum_ext n _ (fun i => csum m (fun j => Conj (Q j e) * (Conj (eve i j) * h i)))).
    + rewrite csum_swap. apply csum_ext. intros j Hj. now rewrite csum_scal.
    + intros i _. rewrite csum_conj, <- csum_scal_r. apply csum_ext. intros j _. rewrite Conj_mul. ring.
Qed.

(** MUSIC maps of the same sources with other powers and another noise floor. *)
Theorem music_invariant n K a s2 p eva eve s2' p' eva' eve' k st grid :
  (0 < n)%nat -> (K < n)%nat -> (0 < K)%nat -> (0 < s2)%R -> (0 < s2')%R ->
  (forall s, (s < K)%nat -> (0 < p s)%R) -> (forall s, (s < K)%nat -> (0 < p' s)%R) ->
  is_eigh n (noisy_csm s2 K p a) eva eve -> is_eigh n (noisy_csm s2' K p' a) eva' eve' ->
  independent n K a -> (forall g, In g grid -> good_point n g) ->
  music n (Z.of_nat K) eva eve k st grid = music n (Z.of_nat K) eva' eve' k st grid.
Proof.
  intros Hn HK K0 H2 H2' Hp Hp' E E' Ha Hg.
  assert (Na : get_na (Z.of_nat K) (Z.of_nat n) = Z.of_nat K).
  { unfold get_na. destruct (Z.ltb_spec (Z.of_nat K) 0); lia. }
  set (w := fun eve (g : R * (nat -> R)) => (INR n * INR n * rsumn (n - K)
     (fun e => norm2 (inner n (fun i => eve i e) (steer_vector n st (transfer (fst g) k (snd g))))))%R).
  assert (O1 : forall g, In g grid -> music_out n (Z.of_nat K) eva eve k st g = (s2 * w eve g)%R).
  { intros g I1. rewrite (music_noise n k Hn K s2 p a); auto; [|lia]. rewrite Na. unfold w.
    replace (Z.to_nat (Z.of_nat n - Z.of_nat K)) with (n - K)%nat by lia. reflexivity. }
  assert (O2 : forall g, In g grid -> music_out n (Z.of_nat K) eva' eve' k st g = (s2' * w eve g)%R).
  { intros g I1. rewrite (music_noise n k Hn K s2' p' a); auto; [|lia]. rewrite Na. unfold w.
    replace (Z.to_nat (Z.of_nat n - Z.of_nat K)) with (n - K)%nat by lia. do 2 f_equal. symmetry.
    apply (noise_projection n K a s2 p eva eve s2' p' eva' eve'); auto. lia. }
  unfold music.
  rewrite (map_ext_in (music_out n (Z.of_nat K) eva eve k st) (fun g => s2 * w eve g)%R grid O1).
  rewrite (map_ext_in (music_out n (Z.of_nat K) eva' eve' k st) (fun g => s2' * w eve g)%R grid O2).
  destruct grid as [|g0 grid0] eqn:EG; [reflexivity|]. rewrite <- EG in *.
  assert (Ne : grid <> []) by (rewrite EG; discriminate). clear EG.
  assert (Scale : forall c, (0 < c)%R -> list_min (map (fun g => c * w eve g)%R grid) = (c * list_min (map (w eve) grid))%R).
  { intros c Hc. destruct (list_min_spec (map (fun g => c * w eve g)%R grid)) as [A1 A2]; [now destruct grid|].
    destruct (list_min_spec (map (w eve) grid)) as [B1 B2]; [now destruct grid|].
    apply in_map_iff in A1. destruct A1 as (ga & Ea & Ia). apply in_map_iff in B1. destruct B1 as (gb & Eb & Ib).
    specialize (A2 (c * w eve gb)%R ltac:(apply in_map_iff; exists gb; auto)).
    specialize (B2 (w eve ga) (in_map _ _ _ Ia)). rewrite Eb in A2. rewrite <- Ea in *.
    apply Rle_antisym; [exact A2|]. apply Rmult_le_compat_l; lra. }
  rewrite !Scale by assumption. rewrite !map_map. apply map_ext. intros g. 
  destruct (Req_EM_T (w eve g) 0) as [Z|Z].
  - rewrite Z, !Rmult_0_r. destruct (Req_EM_T 0 0); [reflexivity|lra].
  - assert (s2 * w eve g <> 0)%R by (apply Rmult_integral_contrapositive; split; lra).
    assert (s2' * w eve g <> 0)%R by (apply Rmult_integral_contrapositive; split; lra).
    destruct (Req_EM_T (s2 * w eve g) 0); [contradiction|]. destruct (Req_EM_T (s2' * w eve g) 0); [contradiction|].
    f_equal. field. repeat split; lra.
Qed.
