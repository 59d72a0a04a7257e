(** Frequency-domain beamforming: the kernels of /repo/acoular/fastFuncs.py,
    SteeringVector and the frequency loop bodies of /repo/acoular/fbeamform.py.
    Real arithmetic stands for float64; the rounding of phase arguments to
    float32 (np.float32) and of the operations is the subject of Roundoff.v.  A grid point is given by its
    distances [r m] to the microphones m < n and [r0] to the reference;
    [k] is the wave number. *)
From Coq Require Import List Arith Lia ZArith Bool Reals Lra.
From Verif Require Import Cplx.
Import ListNotations.
Local Open Scope R_scope.
Local Open Scope C_scope.

(** SteeringVector.steer_type, fbeamform.py:141, and the coding [sth] of
    fastFuncs.py:156. *)
Inductive steer := Classic | Inverse | TrueLevel | TrueLocation.

Section Kernels.
  Variable n : nat.

  (** The vector built first by the kernels, fastFuncs.py:251-271 (and
      351-371): e^{-ikr}, times r for the type 2, divided by r for 3 and 4. *)
  Definition steer_raw (st : steer) (k : R) (r : nat -> R) (m : nat) : C :=
    let e := (cos (k * r m), - sin (k * r m))%R in
    match st with
    | Classic => e
    | Inverse => e * RtoC (r m)
    | TrueLevel | TrueLocation => e / RtoC (r m)
    end.

  (** [helpNormalize], fastFuncs.py:257-269. *)
  Definition help_normalize (st : steer) (r : nat -> R) : R :=
    match st with
    | Classic => 0
    | Inverse => rsumn n (fun m => r m * r m)%R
    | TrueLevel | TrueLocation => rsumn n (fun m => 1 / (r m * r m))%R
    end.

  (** The accumulated product over the upper triangle, fastFuncs.py:275-290:
      [leftVecMatrixProd] sums over cntMics2 < cntMics. *)
  Definition scalar_prod (rdiag : bool) (csm : nat -> nat -> C) (v : nat -> C) : R :=
    (rsumn n (fun i => 2 * re (csum i (fun j => csm j i * Conj (v j)) * v i)%C)
     + if rdiag then 0 else rsumn n (fun i => re (csm i i * Conj (v i) * v i)%C))%R.

  (** The normalisation, fastFuncs.py:292-314 and 390-403: (result, normalizeSteer). *)
  Definition normalize (st : steer) (r0 : R) (r : nat -> R) (loss sp : R) : R * R :=
    let N := INR n in
    let hn := help_normalize st r in
    match st with
    | Classic => (sp / (N * N) * loss, 1 / N)
    | Inverse => let f := (N * r0)%R in (sp / (f * f) * loss, hn / (f * f))
    | TrueLevel => let f := (r0 * hn)%R in (sp / (f * f) * loss, 1 / (r0 * r0) / hn)
    | TrueLocation => (sp / (N * hn) * loss, 1 / N)
    end%R.

  (** _freqBeamformer_FullCSM, fastFuncs.py:232-314, one grid point. *)
  Definition freq_full (csm : nat -> nat -> C) (r0 k : R) (r : nat -> R) (loss : R) (rdiag : bool) (st : steer)
      : R * R :=
    normalize st r0 r loss (scalar_prod rdiag csm (steer_raw st k r)).

  (** Product of the eigenvalue kernels, fastFuncs.py:373-389; [ne] eigenvalues. *)
  Definition scalar_prod_eig (rdiag : bool) (ne : nat) (eva : nat -> R) (eve : nat -> nat -> C) (v : nat -> C) : R :=
    rsumn ne (fun e =>
      let t := fun m => Conj (eve m e) * v m in
      let full := csum n t in
      if rdiag
      then ((re (full * Conj full)%C - rsumn n (fun m => re (t m * Conj (t m))%C)) * eva e)%R
      else (re (full * Conj full)%C * eva e)%R).

  (** _freqBeamformer_EigValues, fastFuncs.py:342-403. *)
  Definition freq_eig (ne : nat) (eva : nat -> R) (eve : nat -> nat -> C) (r0 k : R) (r : nat -> R) (loss : R)
      (rdiag : bool) (st : steer) : R * R :=
    normalize st r0 r loss (scalar_prod_eig rdiag ne eva eve (steer_raw st k r)).

  (** The four kernels for explicit steering vectors, fastFuncs.py:414-543:
      the accumulation of the diagonal happens in the same loop, which is the
      same sum. *)
  Definition steer_norm (h : nat -> C) : R := re (csum n (fun m => h m * Conj (h m))).
  Definition freq_custom (csm : nat -> nat -> C) (h : nat -> C) (loss : R) (rdiag : bool) : R * R :=
    ((scalar_prod rdiag csm h * loss)%R, steer_norm h).
  Definition freq_custom_eig (ne : nat) (eva : nat -> R) (eve : nat -> nat -> C) (h : nat -> C) (loss : R)
      (rdiag : bool) : R * R :=
    ((scalar_prod_eig rdiag ne eva eve h * loss)%R, steer_norm h).

  (** _transferCoreFunc, fastFuncs.py:860-864. *)
  Definition transfer (r0 k : R) (r : nat -> R) (m : nat) : C :=
    let a := (k * (r m - r0))%R in (cos a, - sin a)%R * RtoC r0 / RtoC (r m).

  (** SteeringVector._steer_funcs_freq, fbeamform.py:165-173, applied to the
      transfer vector of one grid point (steer_vector, 258-277).  The einsum
      is a complex number with zero imaginary part; its square root is taken
      as a real number. *)
  Definition steer_vector (st : steer) (a : nat -> C) (m : nat) : C :=
    let ss := csum n (fun j => a j * Conj (a j)) in
    match st with
    | Classic => a m / RtoC (Cabs (a m)) / RtoC (INR n)
    | Inverse => C1 / Conj (a m) / RtoC (INR n)
    | TrueLevel => a m / ss
    | TrueLocation => a m / RtoC (sqrt (re ss * INR n))
    end.

  (** sig_loss_norm, fbeamform.py:451-462; [None] is ZeroDivisionError. *)
  Definition sig_loss_norm (rdiag : bool) (rdiag_norm : R) : option R :=
    if rdiag then
      if Req_EM_T rdiag_norm 0
      then if (n =? 1)%nat then None else Some (INR n / (INR n - 1))%R
      else Some rdiag_norm
    else Some 1%R.

  (** The clipping in BeamformerBase._calc, fbeamform.py:515-517. *)
  Definition clip_neg (rdiag : bool) (x : R) : R :=
    if rdiag then if Rlt_dec x 0 then 0%R else x else x.

  (** BeamformerBase._calc, fbeamform.py:485-520, one frequency and grid
      point, with the parameters of a plain SteeringVector (465-483). *)
  Definition bf_base (csm : nat -> nat -> C) (r0 k : R) (r : nat -> R) (rdiag : bool) (rdiag_norm : R) (st : steer)
      : option R :=
    match sig_loss_norm rdiag rdiag_norm with
    | None => None
    | Some loss => Some (clip_neg rdiag (fst (freq_full csm r0 k r loss rdiag st)))
    end.

  (** BeamformerEig._calc, fbeamform.py:861-902, component [na]. *)
  Definition bf_eig (na : nat) (eva : nat -> R) (eve : nat -> nat -> C) (r0 k : R) (r : nat -> R) (rdiag : bool)
      (rdiag_norm : R) (st : steer) : option R :=
    match sig_loss_norm rdiag rdiag_norm with
    | None => None
    | Some loss => Some (clip_neg rdiag
        (fst (freq_eig 1 (fun e => eva (na + e)%nat) (fun m e => eve m (na + e)%nat) r0 k r loss rdiag st)))
    end.

  (** BeamformerFunctional._calc, fbeamform.py:770-788 ([r_diag] is always
      False); [pw x g] is the power x**g. *)
  Definition bf_functional (pw : R -> R -> R) (gamma : R) (eva : nat -> R) (eve : nat -> nat -> C) (r0 k : R)
      (r : nat -> R) (st : steer) : R :=
    let '(out, norm) := freq_eig n (fun e => pw (eva e) (1 / gamma)%R) eve r0 k r 1 false st in
    (pw (out / norm) gamma * norm * 1)%R.

  (** The four _psf kernels, fastFuncs.py:636-774: source with distances [rs],
      [r0s]. *)
  Definition psf_core (st : steer) (r0 : R) (r : nat -> R) (r0s : R) (rs : nat -> R) (k : R) : R :=
    let N := INR n in
    let e := fun m => (cos (k * (r m - rs m)), - sin (k * (r m - rs m)))%R in
    let hn := rsumn n (fun m => 1 / (r m * r m))%R in
    match st with
    | Classic =>
        let sp := csum n (fun m => e m / RtoC (rs m)) in
        let f := (r0s / N)%R in (re (sp * Conj sp)%C * (f * f))%R
    | Inverse =>
        let sp := csum n (fun m => e m / RtoC (rs m) * RtoC (r m)) in
        let f := (r0s / r0 / N)%R in (re (sp * Conj sp)%C * (f * f))%R
    | TrueLevel =>
        let sp := csum n (fun m => e m / RtoC (rs m) / RtoC (r m)) in
        let f := (r0s / r0 / hn)%R in (re (sp * Conj sp)%C * (f * f))%R
    | TrueLocation =>
        let sp := csum n (fun m => e m / RtoC (rs m) / RtoC (r m)) in
        let f := r0s in (re (sp * Conj sp)%C * (f * f) / N / hn)%R
    end.

  (** _psf_call for other steering vectors, fbeamform.py:1136-1140. *)
  Definition psf_general (h a : nat -> C) : R :=
    let p := csum n (fun m => Conj (h m) * a m) in re (p * Conj p).
End Kernels.

(* ------------------------------------------------------------------ *)
(** * Specification *)

(** The quadratic form h^H C h. *)
Definition qform (n : nat) (csm : nat -> nat -> C) (h : nat -> C) : C :=
  csum n (fun i => csum n (fun j => Conj (h i) * csm i j * h j)).

Definition hermitian (n : nat) (csm : nat -> nat -> C) : Prop :=
  forall i j, (i < n)%nat -> (j < n)%nat -> csm j i = Conj (csm i j).

(** The matrix without its diagonal. *)
Definition off_diag (csm : nat -> nat -> C) (i j : nat) : C := if (i =? j)%nat then C0 else csm i j.

(** Cross spectral matrix of a monopole: transfer vector [a], squared pressure [p2]. *)
Definition monopole_csm (p2 : R) (a : nat -> C) (i j : nat) : C := RtoC p2 * a i * Conj (a j).

(** Eigenvalue decomposition with [ne] terms. *)
Definition eig_sum (ne : nat) (eva : nat -> R) (eve : nat -> nat -> C) (i j : nat) : C :=
  csum ne (fun e => RtoC (eva e) * eve i e * Conj (eve j e)).

(* ------------------------------------------------------------------ *)
(** * Quadratic forms *)

Lemma Cmul_comm' a b : a * b = b * a. Proof. ring. Qed.

Lemma C_re_ext a b : a = b -> re a = re b. Proof. now intros ->. Qed.

Lemma re_Conj a : re (Conj a) = re a. Proof. reflexivity. Qed.

Lemma re_two x : (2 * re x)%R = re (x + Conj x).
Proof. unfold re. cbn. ring. Qed.

(** Sum over a square as triangle, mirrored triangle and diagonal. *)
Lemma csum_square n f :
  csum n (fun i => csum n (fun j => f i j))
  = csum n (fun i => csum i (fun j => f j i + f i j)) + csum n (fun i => f i i).
Proof.
  induction n as [|n IH]; cbn [csum]; [ring|].
  rewrite (csum_add n (fun i => csum n (fun j => f i j)) (fun i => f i n)), IH,
    (csum_add n (fun j => f j n) (fun j => f n j)). ring.
Qed.

Lemma qform_scalar n csm h : hermitian n csm ->
  qform n csm h = RtoC (scalar_prod n false csm h).
Proof.
  intros H. unfold qform, scalar_prod. rewrite csum_square, RtoC_add, <- !csum_RtoC.
  f_equal; apply csum_ext; intros i Hi.
  - rewrite re_two, csum_add.
    replace (csum i (fun j => Conj (h i) * csm i j * h j))
      with (Conj (csum i (fun j => Conj (h j) * csm j i * h i))).
    + rewrite (csum_ext i (fun j => Conj (h j) * csm j i * h i) (fun j => csm j i * Conj (h j) * h i))
        by (intros; ring).
      rewrite csum_scal_r. unfold re. apply C_ext; cbn; ring.
    + rewrite csum_conj. apply csum_ext. intros j Hj. rewrite !Conj_mul, Conj_invol.
      rewrite (H j i) by lia. ring.
  - assert (E : csm i i = RtoC (re (csm i i))).
    { apply real_of_Conj. symmetry. now apply H. }
    replace (Conj (h i) * csm i i * h i) with (csm i i * Conj (h i) * h i) by ring.
    apply real_of_Conj. rewrite !Conj_mul, Conj_invol, E, Conj_RtoC. ring.
Qed.

Lemma hermitian_off_diag n csm : hermitian n csm -> hermitian n (off_diag csm).
Proof.
  intros H i j Hi Hj. unfold off_diag. rewrite Nat.eqb_sym.
  destruct (Nat.eqb_spec i j); [now rewrite Conj_0|now apply H].
Qed.

Lemma scalar_prod_off_diag n csm h :
  scalar_prod n true csm h = scalar_prod n false (off_diag csm) h.
Proof.
  unfold scalar_prod. rewrite Rplus_0_r.
  rewrite (rsumn_0 n (fun i => re (off_diag csm i i * Conj (h i) * h i))).
  - rewrite Rplus_0_r. apply rsumn_ext. intros i Hi. do 2 f_equal. f_equal.
    apply csum_ext. intros j Hj. unfold off_diag.
    destruct (Nat.eqb_spec j i); [lia|reflexivity].
  - intros i _. unfold off_diag. rewrite Nat.eqb_refl. unfold re. cbn. ring.
Qed.

Lemma qform_off_diag n csm h : hermitian n csm ->
  qform n (off_diag csm) h = RtoC (scalar_prod n true csm h).
Proof. intros H. rewrite scalar_prod_off_diag. apply qform_scalar. now apply hermitian_off_diag. Qed.

Lemma qform_scale n csm h z :
  qform n csm (fun m => z * h m) = RtoC (norm2 z) * qform n csm h.
Proof.
  unfold qform. rewrite <- csum_scal. apply csum_ext. intros i _. rewrite <- csum_scal.
  apply csum_ext. intros j _. rewrite Conj_mul, <- Conj_mul_self. ring.
Qed.

Lemma qform_ext n csm h h' : (forall m, (m < n)%nat -> h m = h' m) -> qform n csm h = qform n csm h'.
Proof.
  intros H. unfold qform. apply csum_ext. intros i Hi. apply csum_ext. intros j Hj.
  now rewrite !H by assumption.
Qed.

(** scalar products without any assumption on the matrix *)
Lemma scalar_prod_ext n rd csm h h' : (forall m, (m < n)%nat -> h m = h' m) ->
  scalar_prod n rd csm h = scalar_prod n rd csm h'.
Proof.
  intros H. unfold scalar_prod. f_equal.
  - apply rsumn_ext. intros i Hi. rewrite (H i Hi).
    rewrite (csum_ext i _ (fun j => csm j i * Conj (h' j))) by (intros j Hj; now rewrite H by lia). reflexivity.
  - destruct rd; [reflexivity|]. apply rsumn_ext. intros i Hi. now rewrite H.
Qed.

Lemma scalar_prod_scale n rd csm h z :
  scalar_prod n rd csm (fun m => z * h m) = (norm2 z * scalar_prod n rd csm h)%R.
Proof.
  unfold scalar_prod. rewrite Rmult_plus_distr_l, <- rsumn_scal. f_equal.
  - apply rsumn_ext. intros i _.
    replace (csum i (fun j => csm j i * Conj (z * h j)) * (z * h i))
      with (RtoC (norm2 z) * (csum i (fun j => csm j i * Conj (h j)) * h i)).
    + rewrite re_RtoC_mul. ring.
    + rewrite (csum_ext i (fun j => csm j i * Conj (z * h j)) (fun j => Conj z * (csm j i * Conj (h j))))
        by (intros; rewrite Conj_mul; ring).
      rewrite csum_scal, <- Conj_mul_self. ring.
  - destruct rd; [ring|]. rewrite <- rsumn_scal. apply rsumn_ext. intros i _.
    rewrite <- re_RtoC_mul. f_equal. rewrite Conj_mul, <- Conj_mul_self. ring.
Qed.

Lemma scalar_prod_eig_ext n rd ne eva eve h h' : (forall m, (m < n)%nat -> h m = h' m) ->
  scalar_prod_eig n rd ne eva eve h = scalar_prod_eig n rd ne eva eve h'.
Proof.
  intros H. unfold scalar_prod_eig. apply rsumn_ext. intros e _. cbv zeta.
  rewrite (csum_ext n (fun m => Conj (eve m e) * h m) (fun m => Conj (eve m e) * h' m))
    by (intros; now rewrite H).
  destruct rd; [|reflexivity]. do 2 f_equal. apply rsumn_ext. intros m Hm. now rewrite H.
Qed.

(** The eigenvalue kernel computes the product of the full matrix. *)
Lemma scalar_prod_eig_full n rd ne eva eve h :
  scalar_prod_eig n rd ne eva eve h = scalar_prod n rd (eig_sum ne eva eve) h.
Proof.
  assert (Herm : hermitian n (eig_sum ne eva eve)).
  { intros i j _ _. unfold eig_sum. rewrite csum_conj. apply csum_ext. intros e _.
    rewrite !Conj_mul, Conj_invol, Conj_RtoC. ring. }
  assert (F : scalar_prod_eig n false ne eva eve h = scalar_prod n false (eig_sum ne eva eve) h).
  { apply RtoC_inj. rewrite <- qform_scalar by assumption.
    unfold scalar_prod_eig, qform. rewrite <- csum_RtoC.
    rewrite (csum_ext n (fun i => csum n (fun j => Conj (h i) * eig_sum ne eva eve i j * h j))
       (fun i => csum ne (fun e => csum n (fun j => RtoC (eva e) *
          ((Conj (eve j e) * h j) * Conj (Conj (eve i e) * h i)))))).
    - rewrite csum_swap. apply csum_ext. intros e _.
      rewrite mul_Conj. cbn [re RtoC fst]. rewrite RtoC_mul, norm2_csum. unfold re.
      rewrite (Cmul_comm' _ (RtoC (eva e))), <- csum_scal. rewrite csum_swap.
      apply csum_ext. intros i _. rewrite <- csum_scal. apply csum_ext. intros j _. ring.
    - intros i _. rewrite csum_swap. apply csum_ext. intros j _. unfold eig_sum.
      rewrite <- csum_scal, <- csum_scal_r. apply csum_ext. intros e _.
      rewrite Conj_mul, Conj_invol. ring. }
  destruct rd; [|exact F].
  assert (D : scalar_prod_eig n true ne eva eve h
    = (scalar_prod_eig n false ne eva eve h
       - rsumn n (fun i => re (eig_sum ne eva eve i i * Conj (h i) * h i)))%R).
  { unfold scalar_prod_eig. cbv zeta.
    rewrite (rsumn_ext n (fun i => re (eig_sum ne eva eve i i * Conj (h i) * h i))
       (fun i => rsumn ne (fun e => eva e * re ((Conj (eve i e) * h i) * Conj (Conj (eve i e) * h i)))%R)).
    - rewrite rsumn_swap.
      rewrite (rsumn_ext ne (fun j => rsumn n (fun i => (eva j * re (Conj (eve i j) * h i * Conj (Conj (eve i j) * h i)))%R))
         (fun j => (-1) * ((-1) * (eva j * rsumn n (fun m => re ((Conj (eve m j) * h m) * Conj (Conj (eve m j) * h m)))))%R)%R)
        by (intros; rewrite rsumn_scal; ring).
      rewrite rsumn_scal.
      match goal with |- _ = (?A - -1 * ?B)%R => replace (A - -1 * B)%R with (A + B)%R by ring end.
      rewrite <- rsumn_add. apply rsumn_ext. intros e _. ring.
    - intros i _. unfold eig_sum. rewrite <- csum_scal_r, <- csum_scal_r, re_csum.
      apply rsumn_ext. intros e _. rewrite <- re_RtoC_mul. f_equal. rewrite Conj_mul, Conj_invol. ring. }
  rewrite D, F. unfold scalar_prod. lra.
Qed.

(* ------------------------------------------------------------------ *)
(** * Steering vectors *)

Lemma norm2_cexp t : norm2 (cexp t) = 1%R.
Proof. unfold norm2, cexp. cbn. pose proof (sin2_cos2 t). unfold Rsqr in *. lra. Qed.

Lemma cexp_neg t : (cos t, - sin t)%R = cexp (- t).
Proof. unfold cexp. now rewrite cos_neg, sin_neg. Qed.

Lemma cexp_neq0 t : cexp t <> C0.
Proof. intros E. pose proof (norm2_cexp t) as H. rewrite E in H. unfold norm2 in H. cbn in H. lra. Qed.

Lemma Conj_cexp t : Conj (cexp t) = cexp (- t).
Proof. unfold cexp, Conj. cbn. now rewrite cos_neg, sin_neg. Qed.

Lemma transfer_split r0 k r m : r m <> 0%R ->
  transfer r0 k r m = cexp (k * r0) * (cexp (- (k * r m)) * RtoC (r0 / r m)).
Proof.
  intros H. unfold transfer. rewrite cexp_neg, RtoC_div by assumption.
  replace (- (k * (r m - r0)))%R with (k * r0 + - (k * r m))%R by ring. rewrite cexp_add.
  field. now apply RtoC_neq0.
Qed.

Lemma transfer_norm2 r0 k r m : r m <> 0%R -> norm2 (transfer r0 k r m) = (r0 * r0 / (r m * r m))%R.
Proof.
  intros H. rewrite transfer_split by assumption. rewrite !norm2_mul, !norm2_cexp, norm2_RtoC. field. assumption.
Qed.

Lemma Cabs_sqrt_RtoC z x : (0 <= x)%R -> norm2 z = (x * x)%R -> Cabs z = x.
Proof. intros Hx E. unfold Cabs. rewrite E. now apply sqrt_square. Qed.

Lemma transfer_Cabs r0 k r m : (0 < r0)%R -> (0 < r m)%R -> Cabs (transfer r0 k r m) = (r0 / r m)%R.
Proof.
  intros H0 H. apply Cabs_sqrt_RtoC.
  - apply Rlt_le. now apply Rdiv_lt_0_compat.
  - rewrite transfer_norm2 by lra. field. lra.
Qed.

Lemma transfer_neq0 r0 k r m : (0 < r0)%R -> (0 < r m)%R -> transfer r0 k r m <> C0.
Proof.
  intros H0 H E. pose proof (transfer_norm2 r0 k r m ltac:(lra)) as N. rewrite E in N.
  unfold norm2 in N. cbn in N. rewrite Rmult_0_l, Rplus_0_l in N.
  assert (0 < r0 * r0 / (r m * r m))%R by (apply Rdiv_lt_0_compat; nra). lra.
Qed.

Section Steer.
  Variables (n : nat) (r0 k : R) (r : nat -> R).
  Hypotheses (Hn : (0 < n)%nat) (Hr0 : (0 < r0)%R) (Hr : forall m, (m < n)%nat -> (0 < r m)%R).

  Let S := rsumn n (fun m => 1 / (r m * r m))%R.

  Lemma S_pos : (0 < S)%R.
  Proof.
    apply rsumn_pos; [assumption|]. intros m Hm. apply Rdiv_lt_0_compat; [lra|].
    specialize (Hr m Hm). nra.
  Qed.

  Lemma n_pos : (0 < INR n)%R. Proof. now apply lt_0_INR. Qed.

  Lemma transfer_ss : csum n (fun j => transfer r0 k r j * Conj (transfer r0 k r j)) = RtoC (r0 * r0 * S).
  Proof.
    unfold S. rewrite <- rsumn_scal, <- csum_RtoC. apply csum_ext. intros j Hj.
    specialize (Hr j Hj). rewrite mul_Conj, transfer_norm2 by lra. f_equal. field. lra.
  Qed.

  (** The factor between the explicit and the raw steering vector. *)
  Definition steer_factor (st : steer) : C :=
    cexp (k * r0) *
    RtoC (match st with
          | Classic => 1 / INR n
          | Inverse => 1 / (r0 * INR n)
          | TrueLevel => 1 / (r0 * S)
          | TrueLocation => 1 / sqrt (S * INR n)
          end)%R.

  Lemma Csqr_pos x : (0 < x)%R -> sqrt (r0 * r0 * x) = (r0 * sqrt x)%R.
  Proof. intros. rewrite sqrt_mult by nra. rewrite sqrt_square by lra. reflexivity. Qed.

  Lemma steer_vector_raw st m : (m < n)%nat ->
    steer_vector n st (transfer r0 k r) m = steer_factor st * steer_raw st k r m.
  Proof.
    intros Hm. pose proof (Hr m Hm) as Hrm. pose proof S_pos as HS. pose proof n_pos as HN.
    pose proof (RtoC_neq0 (r m) ltac:(lra)) as Z1. pose proof (RtoC_neq0 r0 ltac:(lra)) as Z2.
    pose proof (RtoC_neq0 (INR n) ltac:(lra)) as Z3. pose proof (RtoC_neq0 S ltac:(lra)) as Z4.
    unfold steer_vector, steer_factor, steer_raw. rewrite cexp_neg. destruct st.
    - rewrite transfer_Cabs by assumption. rewrite transfer_split by lra.
      rewrite !RtoC_div by lra. change (RtoC 1) with C1. field. auto.
    - rewrite transfer_split by lra. rewrite !Conj_mul, !Conj_cexp, Conj_RtoC.
      rewrite !RtoC_div by (try lra; nra). rewrite RtoC_mul. change (RtoC 1) with C1.
      assert (E : cexp (- - (k * r m)) * cexp (- (k * r m)) = C1).
      { rewrite <- cexp_add. replace (- - (k * r m) + - (k * r m))%R with 0%R by ring. apply cexp_0. }
      assert (E0 : cexp (- (k * r0)) * cexp (k * r0) = C1).
      { rewrite <- cexp_add. replace (- (k * r0) + k * r0)%R with 0%R by ring. apply cexp_0. }
      pose proof (cexp_neq0 (- - (k * r m))) as N1. pose proof (cexp_neq0 (- (k * r0))) as N2.
      replace (cexp (- (k * r m))) with (C1 / cexp (- - (k * r m))) by (rewrite <- E; field; auto).
      replace (cexp (k * r0)) with (C1 / cexp (- (k * r0))) by (rewrite <- E0; field; auto).
      field. auto.
    - rewrite transfer_ss, transfer_split by lra. rewrite !RtoC_div by (try lra; nra).
      rewrite !RtoC_mul. change (RtoC 1) with C1. field. auto.
    - rewrite transfer_ss, transfer_split by lra. cbn [re RtoC fst].
      replace (r0 * r0 * S * INR n)%R with (r0 * r0 * (S * INR n))%R by ring.
      rewrite Csqr_pos by nra.
      assert (0 < sqrt (S * INR n))%R by (apply sqrt_lt_R0; nra).
      pose proof (RtoC_neq0 (sqrt (S * INR n)) ltac:(lra)) as Z5.
      rewrite !RtoC_div by lra. rewrite !RtoC_mul. change (RtoC 1) with C1. field. auto.
  Qed.

  Lemma steer_factor_norm2 st :
    norm2 (steer_factor st)
    = (match st with
       | Classic => 1 / (INR n * INR n)
       | Inverse => 1 / ((INR n * r0) * (INR n * r0))
       | TrueLevel => 1 / ((r0 * S) * (r0 * S))
       | TrueLocation => 1 / (INR n * S)
       end)%R.
  Proof.
    pose proof S_pos as HS. pose proof n_pos as HN.
    unfold steer_factor. rewrite norm2_mul, norm2_cexp, norm2_RtoC. destruct st; try (field; lra).
    assert (0 < sqrt (S * INR n))%R by (apply sqrt_lt_R0; nra).
    replace (1 / sqrt (S * INR n) * (1 / sqrt (S * INR n)))%R
      with (1 / (sqrt (S * INR n) * sqrt (S * INR n)))%R by (field; lra).
    rewrite sqrt_sqrt by nra. field. lra.
  Qed.

  Lemma norm2_raw st m : (m < n)%nat ->
    norm2 (steer_raw st k r m)
    = (match st with Classic => 1 | Inverse => r m * r m | _ => 1 / (r m * r m) end)%R.
  Proof.
    intros Hm. specialize (Hr m Hm). unfold steer_raw. rewrite cexp_neg.
    destruct st; unfold Cdiv; rewrite ?norm2_mul, norm2_cexp; [reflexivity| | |].
    - rewrite norm2_RtoC. ring.
    - rewrite <- RtoC_inv, norm2_RtoC by lra. field. lra.
    - rewrite <- RtoC_inv, norm2_RtoC by lra. field. lra.
  Qed.

  Lemma steer_norm_vector st :
    steer_norm n (steer_vector n st (transfer r0 k r))
    = (match st with
       | Classic => 1 / INR n
       | Inverse => help_normalize n st r / ((INR n * r0) * (INR n * r0))
       | TrueLevel => 1 / (r0 * r0) / S
       | TrueLocation => 1 / INR n
       end)%R.
  Proof.
    pose proof S_pos as HS. pose proof n_pos as HN.
    unfold steer_norm. rewrite re_csum.
    rewrite (rsumn_ext n _ (fun m => norm2 (steer_factor st) * norm2 (steer_raw st k r m))%R).
    2:{ intros m Hm. rewrite mul_Conj, steer_vector_raw, norm2_mul by assumption. reflexivity. }
    rewrite rsumn_scal, steer_factor_norm2.
    destruct st.
    - rewrite (rsumn_ext n _ (fun _ => 1%R)) by (intros; now rewrite norm2_raw).
      rewrite rsumn_const. field. lra.
    - rewrite (rsumn_ext n _ (fun m => r m * r m)%R) by (intros; now rewrite norm2_raw).
      unfold help_normalize. field. lra.
    - rewrite (rsumn_ext n _ (fun m => 1 / (r m * r m))%R) by (intros; now rewrite norm2_raw).
      fold S. field. lra.
    - rewrite (rsumn_ext n _ (fun m => 1 / (r m * r m))%R) by (intros; now rewrite norm2_raw).
      fold S. field. lra.
  Qed.

  (** The normalisation of the fast kernels is that of the explicit vectors. *)
  Lemma normalize_factor st loss sp :
    normalize n st r0 r loss sp
    = ((norm2 (steer_factor st) * sp * loss)%R, steer_norm n (steer_vector n st (transfer r0 k r))).
  Proof.
    pose proof S_pos as HS. pose proof n_pos as HN.
    rewrite steer_norm_vector, steer_factor_norm2. unfold normalize.
    destruct st; cbn [help_normalize]; fold S; f_equal; field; lra.
  Qed.

  Theorem fast_full_custom csm loss rd st :
    freq_full n csm r0 k r loss rd st
    = freq_custom n csm (steer_vector n st (transfer r0 k r)) loss rd.
  Proof.
    unfold freq_full, freq_custom. rewrite normalize_factor. f_equal.
    rewrite (scalar_prod_ext n rd csm (steer_vector n st _) (fun m => steer_factor st * steer_raw st k r m))
      by (intros; now apply steer_vector_raw).
    rewrite scalar_prod_scale. reflexivity.
  Qed.

  Theorem fast_eig_custom ne eva eve loss rd st :
    freq_eig n ne eva eve r0 k r loss rd st
    = freq_custom_eig n ne eva eve (steer_vector n st (transfer r0 k r)) loss rd.
  Proof.
    unfold freq_eig, freq_custom_eig. rewrite normalize_factor. f_equal.
    rewrite !scalar_prod_eig_full.
    rewrite (scalar_prod_ext n rd _ (steer_vector n st _) (fun m => steer_factor st * steer_raw st k r m))
      by (intros; now apply steer_vector_raw).
    rewrite scalar_prod_scale. reflexivity.
  Qed.

  (** The map value is the quadratic form with the explicit steering vector. *)
  Theorem bf_quadratic csm loss rd st : hermitian n csm ->
    RtoC (fst (freq_full n csm r0 k r loss rd st))
    = RtoC loss * qform n (if rd then off_diag csm else csm) (steer_vector n st (transfer r0 k r)).
  Proof.
    intros Hc. rewrite fast_full_custom. unfold freq_custom. cbn [fst].
    destruct rd; [rewrite qform_off_diag by assumption|rewrite qform_scalar by assumption];
      rewrite RtoC_mul; ring.
  Qed.
End Steer.

(* ------------------------------------------------------------------ *)
(** * Monopoles *)

Definition inner (n : nat) (h a : nat -> C) : C := csum n (fun m => Conj (h m) * a m).

Lemma monopole_hermitian n p2 a : hermitian n (monopole_csm p2 a).
Proof. intros i j _ _. unfold monopole_csm. rewrite !Conj_mul, Conj_invol, Conj_RtoC. ring. Qed.

Lemma qform_monopole n p2 a h : qform n (monopole_csm p2 a) h = RtoC (p2 * norm2 (inner n h a)).
Proof.
  unfold qform, monopole_csm, inner. rewrite RtoC_mul, norm2_csum, <- csum_scal.
  apply csum_ext. intros i _. rewrite <- csum_scal. apply csum_ext. intros j _.
  rewrite Conj_mul, Conj_invol. ring.
Qed.

Lemma inner_self n a : inner n a a = RtoC (rsumn n (fun m => norm2 (a m))).
Proof. unfold inner. rewrite <- csum_RtoC. apply csum_ext. intros. apply Conj_mul_self. Qed.

Lemma inner_conj n h a : Conj (inner n h a) = inner n a h.
Proof. unfold inner. rewrite csum_conj. apply csum_ext. intros. rewrite Conj_mul, Conj_invol. ring. Qed.

Lemma inner_scal_l n z h a : inner n (fun m => z * h m) a = Conj z * inner n h a.
Proof. unfold inner. rewrite <- csum_scal. apply csum_ext. intros. rewrite Conj_mul. ring. Qed.

Lemma inner_ext n h h' a a' : (forall m, (m < n)%nat -> h m = h' m /\ a m = a' m) -> inner n h a = inner n h' a'.
Proof. intros H. unfold inner. apply csum_ext. intros m Hm. destruct (H m Hm) as [-> ->]. reflexivity. Qed.

(** Cauchy-Schwarz. *)
Lemma cauchy_schwarz n x y : (0 < rsumn n (fun m => norm2 (x m)))%R ->
  (norm2 (inner n x y) <= rsumn n (fun m => norm2 (x m)) * rsumn n (fun m => norm2 (y m)))%R.
Proof.
  set (X := rsumn n (fun m => norm2 (x m))). set (Y := rsumn n (fun m => norm2 (y m))). intros HX.
  set (s := inner n x y).
  assert (H : (0 <= rsumn n (fun m => norm2 (RtoC X * y m - s * x m)%C))%R)
    by (apply rsumn_nonneg; intros; apply norm2_nonneg).
  assert (E : RtoC (rsumn n (fun m => norm2 (RtoC X * y m - s * x m)%C)) = RtoC (X * X * Y - X * norm2 s)).
  { rewrite <- csum_RtoC.
    rewrite (csum_ext n _ (fun m => RtoC (X * X) * RtoC (norm2 (y m)) - RtoC X * s * (Conj (y m) * x m)
        - (RtoC X * Conj s * (Conj (x m) * y m) - RtoC (norm2 s) * RtoC (norm2 (x m))))).
    - rewrite !csum_sub, !csum_scal, !csum_RtoC. fold X Y.
      change (csum n (fun k => Conj (y k) * x k)) with (inner n y x). fold (inner n x y). fold s.
      rewrite <- (inner_conj n x y). fold s.
      replace (RtoC X * s * Conj s) with (RtoC X * RtoC (norm2 s)) by (rewrite <- mul_Conj; ring).
      replace (RtoC X * Conj s * s) with (RtoC X * RtoC (norm2 s)) by (rewrite <- mul_Conj; ring).
      rewrite RtoC_sub, !RtoC_mul. ring.
    - intros m _. rewrite <- !mul_Conj. rewrite Conj_sub, !Conj_mul, Conj_RtoC, RtoC_mul. ring. }
  apply RtoC_inj in E. rewrite E in H.
  apply Rmult_le_reg_l with X; [assumption|]. nra.
Qed.

Section Monopole.
  (** Grid point (r0, r) and source position (r0s, rs). *)
  Variables (n : nat) (k r0 r0s : R) (r rs : nat -> R).
  Hypotheses (Hn : (0 < n)%nat) (Hr0 : (0 < r0)%R) (Hr : forall m, (m < n)%nat -> (0 < r m)%R)
    (Hr0s : (0 < r0s)%R) (Hrs : forall m, (m < n)%nat -> (0 < rs m)%R).

  Let a := transfer r0s k rs.

  Lemma bf_monopole p2 st :
    fst (freq_full n (monopole_csm p2 a) r0 k r 1 false st)
    = (p2 * norm2 (inner n (steer_vector n st (transfer r0 k r)) a))%R.
  Proof.
    apply RtoC_inj. rewrite bf_quadratic by (auto using monopole_hermitian).
    rewrite qform_monopole. change (RtoC 1) with C1. ring.
  Qed.

  (** The point spread kernels: map of a unit monopole. *)
  Theorem psf_is_map st :
    psf_core n st r0 r r0s rs k = fst (freq_full n (monopole_csm 1 a) r0 k r 1 false st).
  Proof.
    rewrite bf_monopole, Rmult_1_l.
    rewrite (inner_ext n _ (fun m => steer_factor n r0 k r st * steer_raw st k r m) _
      (fun m => cexp (k * r0s) * (cexp (- (k * rs m)) * RtoC (r0s / rs m)))).
    2:{ intros m Hm. split; [now apply steer_vector_raw|]. apply transfer_split.
        specialize (Hrs m Hm). lra. }
    rewrite inner_scal_l, norm2_mul, norm2_Conj, steer_factor_norm2 by assumption.
    assert (E : forall f : nat -> R,
      (forall m, (m < n)%nat -> RtoC (f m) = steer_raw st k r m * cexp (k * r m) ) ->
      norm2 (inner n (steer_raw st k r) (fun m => cexp (k * r0s) * (cexp (- (k * rs m)) * RtoC (r0s / rs m))))
      = (r0s * r0s * norm2 (csum n (fun m => (cos (k * (r m - rs m)), - sin (k * (r m - rs m)))%R / RtoC (rs m) * RtoC (f m))%C))%R).
    { intros f Hf. rewrite <- (norm2_Conj (inner _ _ _)), <- norm2_RtoC, <- norm2_mul.
      rewrite <- csum_scal.
      replace (Conj (inner n (steer_raw st k r) (fun m => cexp (k * r0s) * (cexp (- (k * rs m)) * RtoC (r0s / rs m)))))
        with (cexp (- (k * r0s)) * csum n (fun m => RtoC r0s *
          ((cos (k * (r m - rs m)), - sin (k * (r m - rs m)))%R / RtoC (rs m) * RtoC (f m)))).
      - now rewrite norm2_mul, norm2_cexp, Rmult_1_l.
      - rewrite inner_conj. unfold inner. rewrite <- csum_scal. apply csum_ext. intros m Hm.
        specialize (Hrs m Hm). rewrite (Hf m Hm). rewrite !Conj_mul, !Conj_cexp, Conj_RtoC, cexp_neg.
        replace (- (k * (r m - rs m)))%R with (- (k * r m) + k * rs m)%R by ring. rewrite cexp_add.
        replace (- - (k * rs m))%R with (k * rs m)%R by ring.
        assert (E0 : cexp (k * r m) * cexp (- (k * r m)) = C1).
        { rewrite <- cexp_add. replace (k * r m + - (k * r m))%R with 0%R by ring. apply cexp_0. }
        rewrite RtoC_div by lra.
        replace (cexp (- (k * r0s)) * (cexp (k * rs m) * (RtoC r0s / RtoC (rs m))) * steer_raw st k r m)
          with (cexp (- (k * r0s)) * (RtoC r0s * (C1 * cexp (k * rs m) / RtoC (rs m) * (steer_raw st k r m))))
          by (field; apply RtoC_neq0; lra).
        rewrite <- E0. field. apply RtoC_neq0. lra. }
    assert (E0 : forall m, cexp (- (k * r m)) * cexp (k * r m) = C1).
    { intros m. rewrite <- cexp_add. replace (- (k * r m) + k * r m)%R with 0%R by ring. apply cexp_0. }
    assert (HS : (0 < rsumn n (fun m => 1 / (r m * r m)))%R) by (apply S_pos; auto).
    assert (HN : (0 < INR n)%R) by now apply lt_0_INR.
    unfold psf_core. destruct st.
    - rewrite (E (fun _ => 1%R)).
      + rewrite (csum_ext n (fun m => _ / RtoC (rs m) * RtoC 1) (fun m => (cos (k * (r m - rs m)), - sin (k * (r m - rs m)))%R / RtoC (rs m)))
          by (intros; change (RtoC 1) with C1; ring).
        rewrite mul_Conj. cbn [re RtoC fst]. field. lra.
      + intros m _. unfold steer_raw. now rewrite cexp_neg, E0.
    - rewrite (E r).
      + rewrite mul_Conj. cbn [re RtoC fst]. field. lra.
      + intros m _. unfold steer_raw. rewrite cexp_neg.
        replace (cexp (- (k * r m)) * RtoC (r m) * cexp (k * r m))
          with (cexp (- (k * r m)) * cexp (k * r m) * RtoC (r m)) by ring. rewrite E0. ring.
    - rewrite (E (fun m => 1 / r m)%R).
      + rewrite (csum_ext n (fun m => _ / RtoC (rs m) * RtoC (1 / r m))
          (fun m => (cos (k * (r m - rs m)), - sin (k * (r m - rs m)))%R / RtoC (rs m) / RtoC (r m))).
        * rewrite mul_Conj. cbn [re RtoC fst]. field. lra.
        * intros m Hm. specialize (Hr m Hm). rewrite RtoC_div by lra. change (RtoC 1) with C1.
          unfold Cdiv. ring.
      + intros m Hm. specialize (Hr m Hm). unfold steer_raw. rewrite cexp_neg.
        replace (cexp (- (k * r m)) / RtoC (r m) * cexp (k * r m))
          with (cexp (- (k * r m)) * cexp (k * r m) / RtoC (r m)) by (unfold Cdiv; ring).
        rewrite E0, RtoC_div by lra. reflexivity.
    - rewrite (E (fun m => 1 / r m)%R).
      + rewrite (csum_ext n (fun m => _ / RtoC (rs m) * RtoC (1 / r m))
          (fun m => (cos (k * (r m - rs m)), - sin (k * (r m - rs m)))%R / RtoC (rs m) / RtoC (r m))).
        * rewrite mul_Conj. cbn [re RtoC fst]. field. lra.
        * intros m Hm. specialize (Hr m Hm). rewrite RtoC_div by lra. change (RtoC 1) with C1.
          unfold Cdiv. ring.
      + intros m Hm. specialize (Hr m Hm). unfold steer_raw. rewrite cexp_neg.
        replace (cexp (- (k * r m)) / RtoC (r m) * cexp (k * r m))
          with (cexp (- (k * r m)) * cexp (k * r m) / RtoC (r m)) by (unfold Cdiv; ring).
        rewrite E0, RtoC_div by lra. reflexivity.
  Qed.

  (** Upper bounds for the types whose maximum is at the source. *)
  Lemma inner_true_location :
    (norm2 (inner n (steer_vector n TrueLocation (transfer r0 k r)) a)
     <= rsumn n (fun m => norm2 (a m)) / INR n)%R.
  Proof.
    assert (HN : (0 < INR n)%R) by now apply lt_0_INR.
    set (h := steer_vector n TrueLocation (transfer r0 k r)).
    assert (Eh : rsumn n (fun m => norm2 (h m)) = (1 / INR n)%R).
    { unfold h. rewrite <- (steer_norm_vector n r0 k r Hn Hr0 Hr TrueLocation). unfold steer_norm.
      rewrite re_csum. apply rsumn_ext. intros m _. now rewrite mul_Conj. }
    pose proof (cauchy_schwarz n h a) as CS. rewrite Eh in CS.
    assert (0 < 1 / INR n)%R by (apply Rdiv_lt_0_compat; lra).
    specialize (CS ltac:(assumption)). unfold Rdiv in *. lra.
  Qed.

  Lemma inner_classic :
    (norm2 (inner n (steer_vector n Classic (transfer r0 k r)) a)
     <= (rsumn n (fun m => Cabs (a m)) / INR n) * (rsumn n (fun m => Cabs (a m)) / INR n))%R.
  Proof.
    assert (HN : (0 < INR n)%R) by now apply lt_0_INR.
    set (h := steer_vector n Classic (transfer r0 k r)).
    assert (Hc : forall m, (m < n)%nat -> Cabs (h m) = (1 / INR n)%R).
    { intros m Hm. unfold h. rewrite steer_vector_raw by assumption. apply Cabs_sqrt_RtoC.
      - apply Rlt_le, Rdiv_lt_0_compat; lra.
      - rewrite norm2_mul, steer_factor_norm2, norm2_raw with (n := n) by assumption. field. lra. }
    assert (H : (Cabs (inner n h a) <= rsumn n (fun m => Cabs (a m)) / INR n)%R).
    { unfold inner. apply Rle_trans with (1 := Cabs_csum_le _ _). right.
      unfold Rdiv. rewrite Rmult_comm, <- rsumn_scal. apply rsumn_ext. intros m Hm.
      rewrite Cabs_mul, Cabs_Conj, Hc by assumption. field. lra. }
    rewrite <- Cabs_sqr. pose proof (Cabs_nonneg (inner n h a)). apply Rmult_le_compat; assumption.
  Qed.
End Monopole.

Section Own.
  (** The grid point is the source position. *)
  Variables (n : nat) (k r0 : R) (r : nat -> R).
  Hypotheses (Hn : (0 < n)%nat) (Hr0 : (0 < r0)%R) (Hr : forall m, (m < n)%nat -> (0 < r m)%R).
  Let a := transfer r0 k r.

  Lemma sum_norm2_a : (0 < rsumn n (fun m => norm2 (a m)))%R.
  Proof.
    apply rsumn_pos; [assumption|]. intros m Hm. apply norm2_pos. unfold a.
    apply transfer_neq0; auto.
  Qed.

  Lemma ss_a : csum n (fun j => a j * Conj (a j)) = RtoC (rsumn n (fun m => norm2 (a m))).
  Proof. rewrite <- csum_RtoC. apply csum_ext. intros. apply mul_Conj. Qed.

  Lemma own_true_level : inner n (steer_vector n TrueLevel a) a = C1.
  Proof.
    pose proof sum_norm2_a as HP. unfold inner, steer_vector. rewrite ss_a.
    set (A := rsumn n (fun m => norm2 (a m))) in *.
    rewrite (csum_ext n _ (fun m => RtoC (/ A) * RtoC (norm2 (a m)))).
    - rewrite csum_scal, csum_RtoC. fold A. rewrite <- RtoC_mul.
      replace (/ A * A)%R with 1%R by (field; lra). reflexivity.
    - intros m _. unfold Cdiv. rewrite <- RtoC_inv, Conj_mul, Conj_RtoC by lra.
      rewrite <- Conj_mul_self. ring.
  Qed.

  Lemma own_inverse : inner n (steer_vector n Inverse a) a = C1.
  Proof.
    assert (HN : (0 < INR n)%R) by now apply lt_0_INR.
    unfold inner, steer_vector.
    rewrite (csum_ext n _ (fun m => RtoC (/ INR n))).
    - rewrite csum_RtoC, rsumn_const. replace (INR n * / INR n)%R with 1%R by (field; lra). reflexivity.
    - intros m Hm. assert (Ha : a m <> C0) by (apply transfer_neq0; auto).
      rewrite !Conj_div by (auto using Conj_neq0; apply RtoC_neq0; lra).
      rewrite Conj_invol, Conj_1, Conj_RtoC, RtoC_inv by lra. field.
      split; [apply RtoC_neq0; lra|assumption].
  Qed.

  Lemma own_true_location :
    norm2 (inner n (steer_vector n TrueLocation a) a) = (rsumn n (fun m => norm2 (a m)) / INR n)%R.
  Proof.
    pose proof sum_norm2_a as HP. assert (HN : (0 < INR n)%R) by now apply lt_0_INR.
    unfold steer_vector. rewrite ss_a. set (A := rsumn n (fun m => norm2 (a m))) in *.
    cbn [re RtoC fst].
    assert (0 < sqrt (A * INR n))%R by (apply sqrt_lt_R0; nra).
    rewrite (inner_ext n _ (fun m => RtoC (/ sqrt (A * INR n)) * a m) _ a).
    - rewrite inner_scal_l, inner_self, norm2_mul, norm2_Conj, !norm2_RtoC. fold A.
      replace (/ sqrt (A * INR n) * / sqrt (A * INR n))%R with (/ (sqrt (A * INR n) * sqrt (A * INR n)))%R
        by (field; lra).
      rewrite sqrt_sqrt by nra. field. lra.
    - intros m _. split; [|reflexivity]. unfold Cdiv. rewrite RtoC_inv by lra. ring.
  Qed.

  Lemma own_classic :
    norm2 (inner n (steer_vector n Classic a) a)
    = ((rsumn n (fun m => Cabs (a m)) / INR n) * (rsumn n (fun m => Cabs (a m)) / INR n))%R.
  Proof.
    assert (HN : (0 < INR n)%R) by now apply lt_0_INR.
    assert (E : inner n (steer_vector n Classic a) a = RtoC (rsumn n (fun m => Cabs (a m)) / INR n)).
    { unfold Rdiv. rewrite Rmult_comm, <- rsumn_scal, <- csum_RtoC. unfold inner, steer_vector.
      apply csum_ext. intros m Hm. assert (Ha : a m <> C0) by (apply transfer_neq0; auto).
      pose proof (Cabs_pos _ Ha) as Hp.
      rewrite !Conj_div by (apply RtoC_neq0; lra). rewrite !Conj_RtoC.
      unfold Cdiv. rewrite <- !RtoC_inv by lra.
      replace (Conj (a m) * RtoC (/ Cabs (a m)) * RtoC (/ INR n) * a m)
        with (RtoC (/ Cabs (a m)) * RtoC (/ INR n) * (Conj (a m) * a m)) by ring.
      rewrite Conj_mul_self, <- Cabs_sqr, <- !RtoC_mul. f_equal. field. lra. }
    rewrite E, norm2_RtoC. reflexivity.
  Qed.
End Own.

(** All together: the level at the own point, and the position of the maximum. *)
Theorem monopole_level n k r0 r p2 st :
  (0 < n)%nat -> (0 < r0)%R -> (forall m, (m < n)%nat -> (0 < r m)%R) -> st = TrueLevel \/ st = Inverse ->
  bf_base n (monopole_csm p2 (transfer r0 k r)) r0 k r false 0 st = Some p2.
Proof.
  intros Hn H0 Hr Hst. unfold bf_base, sig_loss_norm, clip_neg. f_equal.
  rewrite bf_monopole by assumption.
  destruct Hst as [-> | ->]; [rewrite own_true_level by assumption|rewrite own_inverse by assumption];
    unfold norm2; cbn; ring.
Qed.

Theorem monopole_max n k r0s rs p2 st :
  (0 < n)%nat -> (0 < r0s)%R -> (forall m, (m < n)%nat -> (0 < rs m)%R) -> (0 <= p2)%R ->
  st = TrueLocation \/ st = Classic ->
  exists top, bf_base n (monopole_csm p2 (transfer r0s k rs)) r0s k rs false 0 st = Some top
    /\ forall r0 r, (0 < r0)%R -> (forall m, (m < n)%nat -> (0 < r m)%R) ->
       exists x, bf_base n (monopole_csm p2 (transfer r0s k rs)) r0 k r false 0 st = Some x /\ (x <= top)%R.
Proof.
  intros Hn H0 Hrs Hp Hst. unfold bf_base, sig_loss_norm, clip_neg. eexists. split; [reflexivity|].
  intros r0 r Hr0 Hr. eexists. split; [reflexivity|].
  rewrite !bf_monopole by assumption. apply Rmult_le_compat_l; [assumption|].
  destruct Hst as [-> | ->].
  - rewrite own_true_location by assumption. now apply inner_true_location.
  - rewrite own_classic by assumption. now apply inner_classic.
Qed.

(* ------------------------------------------------------------------ *)
(** * Diagonal removal *)

Lemma scalar_prod_diag n csm h :
  scalar_prod n true csm h
  = (scalar_prod n false csm h - rsumn n (fun i => re (csm i i * Conj (h i) * h i)%C))%R.
Proof. unfold scalar_prod. lra. Qed.

Lemma clip_nonneg x : (0 <= clip_neg true x)%R.
Proof. unfold clip_neg. destruct (Rlt_dec x 0); lra. Qed.

Lemma clip_id b x : (0 <= x)%R -> clip_neg b x = x.
Proof. intros H. unfold clip_neg. destruct b; [|reflexivity]. destruct (Rlt_dec x 0); lra. Qed.

Lemma bf_base_off_diag n csm csm' r0 k r rdn st :
  (forall i j, (i < n)%nat -> (j < n)%nat -> i <> j -> csm i j = csm' i j) ->
  bf_base n csm r0 k r true rdn st = bf_base n csm' r0 k r true rdn st.
Proof.
  intros H. unfold bf_base. destruct (sig_loss_norm n true rdn); [|reflexivity].
  do 3 f_equal. unfold freq_full. f_equal. unfold scalar_prod. f_equal.
  apply rsumn_ext. intros i Hi. do 2 f_equal. f_equal. apply csum_ext. intros j Hj.
  now rewrite H by lia.
Qed.

Lemma bf_base_full n csm r0 k r rdn st :
  bf_base n csm r0 k r false rdn st = Some (fst (freq_full n csm r0 k r 1 false st)).
Proof. reflexivity. Qed.

(** One monopole, diagonal removed. *)
Lemma bf_monopole_rdiag n k r0 r p2 loss st :
  (0 < n)%nat -> (0 < r0)%R -> (forall m, (m < n)%nat -> (0 < r m)%R) ->
  let a := transfer r0 k r in
  let h := steer_vector n st a in
  fst (freq_full n (monopole_csm p2 a) r0 k r loss true st)
  = (loss * p2 * (norm2 (inner n h a) - rsumn n (fun m => norm2 (h m) * norm2 (a m))))%R.
Proof.
  intros Hn H0 Hr a h. rewrite fast_full_custom by assumption. cbn [freq_custom fst]. fold a. fold h.
  rewrite scalar_prod_diag.
  replace (scalar_prod n false (monopole_csm p2 a) h) with (p2 * norm2 (inner n h a))%R.
  2:{ apply RtoC_inj. rewrite <- qform_monopole. now rewrite qform_scalar by apply monopole_hermitian. }
  rewrite (rsumn_ext n (fun i => re (monopole_csm p2 a i i * Conj (h i) * h i))
    (fun i => p2 * (norm2 (h i) * norm2 (a i)))%R).
  - rewrite rsumn_scal. ring.
  - intros i _. unfold monopole_csm.
    replace (RtoC p2 * a i * Conj (a i) * Conj (h i) * h i)
      with (RtoC p2 * ((a i * Conj (a i)) * (h i * Conj (h i)))) by ring.
    rewrite !mul_Conj, <- !RtoC_mul. cbn [re RtoC fst]. ring.
Qed.

Theorem monopole_rdiag_inverse n k r0 r p2 :
  (1 < n)%nat -> (0 < r0)%R -> (forall m, (m < n)%nat -> (0 < r m)%R) -> (0 <= p2)%R ->
  bf_base n (monopole_csm p2 (transfer r0 k r)) r0 k r true 0 Inverse = Some p2.
Proof.
  intros Hn H0 Hr Hp. unfold bf_base, sig_loss_norm.
  destruct (Req_EM_T 0 0) as [_|]; [|lra]. destruct (Nat.eqb_spec n 1); [lia|]. f_equal.
  assert (HN : (1 < INR n)%R) by (apply (lt_INR 1); assumption).
  rewrite bf_monopole_rdiag by (auto; lia). set (a := transfer r0 k r).
  replace (inner n (steer_vector n Inverse a) a) with C1
    by (symmetry; apply (own_inverse n k r0 r); auto; lia).
  rewrite (rsumn_ext n _ (fun _ => / INR n * / INR n)%R).
  - rewrite rsumn_const. replace (norm2 C1) with 1%R by (unfold norm2; cbn; ring).
    replace (INR n / (INR n - 1) * p2 * (1 - INR n * (/ INR n * / INR n)))%R with p2 by (field; lra).
    now apply clip_id.
  - intros m Hm. assert (Ha : a m <> C0) by (apply transfer_neq0; auto).
    pose proof (norm2_pos _ Ha) as Hp'.
    unfold steer_vector. rewrite <- norm2_mul.
    replace (C1 / Conj (a m) / RtoC (INR n) * a m) with (a m / Conj (a m) * RtoC (/ INR n))
      by (rewrite RtoC_inv by lra; unfold Cdiv; ring).
    rewrite norm2_mul, norm2_RtoC.
    replace (norm2 (a m / Conj (a m))) with 1%R; [ring|].
    unfold Cdiv. rewrite norm2_mul.
    replace (norm2 (Cinv (Conj (a m)))) with (/ norm2 (a m))%R; [field; lra|].
    rewrite <- (norm2_Conj (a m)) in *. revert Hp'. generalize (Conj (a m)). intros z Hz.
    unfold Cinv. unfold norm2 at 2. cbn [fst snd].
    replace (fst z / norm2 z * (fst z / norm2 z) + - snd z / norm2 z * (- snd z / norm2 z))%R
      with ((fst z * fst z + snd z * snd z) / (norm2 z * norm2 z))%R by (field; lra).
    fold (norm2 z). field. lra.
Qed.

(** Sum of squares against the square of the sum. *)
Lemma rsum_sqr n f : (0 < n)%nat ->
  (rsumn n f * rsumn n f <= INR n * rsumn n (fun m => f m * f m))%R.
Proof.
  intros Hn. assert (HN : (0 < INR n)%R) by now apply lt_0_INR.
  set (S := rsumn n f).
  assert (H : (0 <= rsumn n (fun m => (INR n * f m - S) * (INR n * f m - S)))%R)
    by (apply rsumn_nonneg; intros; apply Rle_0_sqr).
  rewrite (rsumn_ext n _ (fun m => INR n * INR n * (f m * f m) + (- (2 * INR n * S) * f m + S * S))%R) in H
    by (intros; ring).
  rewrite rsumn_add, rsumn_add, !rsumn_scal, rsumn_const in H. fold S in H.
  apply Rmult_le_reg_l with (INR n); [assumption|]. nra.
Qed.

Theorem monopole_rdiag_true_level n k r0 r p2 :
  (1 < n)%nat -> (0 < r0)%R -> (forall m, (m < n)%nat -> (0 < r m)%R) -> (0 <= p2)%R ->
  exists x, bf_base n (monopole_csm p2 (transfer r0 k r)) r0 k r true 0 TrueLevel = Some x /\ (0 <= x <= p2)%R.
Proof.
  intros Hn H0 Hr Hp. unfold bf_base, sig_loss_norm.
  destruct (Req_EM_T 0 0) as [_|]; [|lra]. destruct (Nat.eqb_spec n 1); [lia|].
  eexists. split; [reflexivity|]. split; [apply clip_nonneg|].
  assert (HN : (1 < INR n)%R) by (apply (lt_INR 1); assumption).
  rewrite bf_monopole_rdiag by (auto; lia). set (a := transfer r0 k r).
  replace (inner n (steer_vector n TrueLevel a) a) with C1
    by (symmetry; apply (own_true_level n k r0 r); auto; lia).
  replace (norm2 C1) with 1%R by (unfold norm2; cbn; ring).
  pose proof (sum_norm2_a n k r0 r ltac:(lia) H0 Hr) as HA. fold a in HA.
  set (A := rsumn n (fun m => norm2 (a m))) in *.
  assert (E : rsumn n (fun m => norm2 (steer_vector n TrueLevel a m) * norm2 (a m))%R
              = (/ A * / A * rsumn n (fun m => norm2 (a m) * norm2 (a m)))%R).
  { rewrite <- rsumn_scal. apply rsumn_ext. intros m Hm. unfold steer_vector.
    change (csum n (fun j => a j * Conj (a j))) with (csum n (fun j => transfer r0 k r j * Conj (transfer r0 k r j))).
    rewrite (ss_a n k r0 r). fold a. fold A. unfold Cdiv. rewrite <- RtoC_inv, norm2_mul, norm2_RtoC by lra. ring. }
  rewrite E. pose proof (rsum_sqr n (fun m => norm2 (a m)) ltac:(lia)) as Q. fold A in Q.
  set (B := rsumn n (fun m => norm2 (a m) * norm2 (a m))%R) in *.
  assert (HB : (/ INR n <= / A * / A * B)%R).
  { apply Rmult_le_reg_l with (INR n * (A * A))%R; [nra|].
    replace (INR n * (A * A) * / INR n)%R with (A * A)%R by (field; lra).
    replace (INR n * (A * A) * (/ A * / A * B))%R with (INR n * B)%R by (field; lra). assumption. }
  assert (HF : (INR n / (INR n - 1) * p2 * (1 - / A * / A * B) <= p2)%R).
  { assert (Hq : (0 <= INR n / (INR n - 1) * p2)%R).
    { apply Rmult_le_pos; [|assumption]. apply Rlt_le, Rdiv_lt_0_compat; lra. }
    apply Rle_trans with (INR n / (INR n - 1) * p2 * (1 - / INR n))%R.
    - apply Rmult_le_compat_l; lra.
    - right. field. lra. }
  unfold clip_neg. destruct (Rlt_dec _ 0); lra.
Qed.

(* ------------------------------------------------------------------ *)
(** * Eigenvalue beamformers *)

Theorem eig_kernels n ne eva eve r0 k r loss rd st :
  freq_eig n ne eva eve r0 k r loss rd st = freq_full n (eig_sum ne eva eve) r0 k r loss rd st.
Proof. unfold freq_eig, freq_full. now rewrite scalar_prod_eig_full. Qed.

Theorem eig_kernels_custom n ne eva eve h loss rd :
  freq_custom_eig n ne eva eve h loss rd = freq_custom n (eig_sum ne eva eve) h loss rd.
Proof. unfold freq_custom_eig, freq_custom. now rewrite scalar_prod_eig_full. Qed.

Lemma normalize_sum n st r0 r loss ne f :
  fst (normalize n st r0 r loss (rsumn ne f)) = rsumn ne (fun e => fst (normalize n st r0 r loss (f e))).
Proof.
  unfold normalize. destruct st; cbn [fst];
    (induction ne as [|ne IH]; cbn [rsumn]; [unfold Rdiv; ring|]; rewrite <- IH; unfold Rdiv; ring).
Qed.

Lemma eig_components n ne eva eve r0 k r loss rd st :
  fst (freq_eig n ne eva eve r0 k r loss rd st)
  = rsumn ne (fun e => fst (freq_eig n 1 (fun i => eva (e + i)%nat) (fun m i => eve m (e + i)%nat) r0 k r loss rd st)).
Proof.
  unfold freq_eig. unfold scalar_prod_eig at 1. rewrite normalize_sum.
  apply rsumn_ext. intros e _. f_equal. f_equal. unfold scalar_prod_eig. cbn [rsumn].
  rewrite Nat.add_0_r. ring.
Qed.

Theorem eig_maps_add_up n ne eva eve r0 k r rdn st :
  exists f, (forall e, bf_eig n e eva eve r0 k r false rdn st = Some (f e))
  /\ bf_base n (eig_sum ne eva eve) r0 k r false rdn st = Some (rsumn ne f).
Proof.
  exists (fun e => fst (freq_eig n 1 (fun i => eva (e + i)%nat) (fun m i => eve m (e + i)%nat) r0 k r 1 false st)).
  split; [reflexivity|]. unfold bf_base, sig_loss_norm, clip_neg. f_equal.
  now rewrite <- eig_kernels, eig_components.
Qed.

Lemma clip_sum ne f : (clip_neg true (rsumn ne f) <= rsumn ne (fun e => clip_neg true (f e)))%R.
Proof.
  induction ne as [|ne IH]; cbn [rsumn]; [unfold clip_neg; destruct (Rlt_dec 0 0); lra|].
  pose proof (clip_nonneg (f ne)). pose proof (rsumn_nonneg ne (fun e => clip_neg true (f e)) (fun e _ => clip_nonneg (f e))).
  unfold clip_neg in *. destruct (Rlt_dec (rsumn ne f + f ne) 0), (Rlt_dec (rsumn ne f) 0), (Rlt_dec (f ne) 0); lra.
Qed.

(** With the diagonal removed every component is clipped on its own. *)
Theorem eig_maps_rdiag n ne eva eve r0 k r rdn st : (1 < n)%nat ->
  exists f x, (forall e, bf_eig n e eva eve r0 k r true rdn st = Some (f e))
  /\ bf_base n (eig_sum ne eva eve) r0 k r true rdn st = Some x
  /\ (x <= rsumn ne f)%R.
Proof.
  intros Hn. unfold bf_eig, bf_base.
  destruct (sig_loss_norm n true rdn) as [loss|] eqn:E.
  - eexists (fun e => _), _. split; [reflexivity|]. split; [reflexivity|].
    rewrite <- eig_kernels, eig_components. apply clip_sum.
  - unfold sig_loss_norm in E. destruct (Req_EM_T rdn 0); [|discriminate].
    destruct (Nat.eqb_spec n 1); [lia|discriminate].
Qed.

Lemma eig_maps_rdiag_refuted :
  exists n eva eve r0 k r st f x,
    (1 < n)%nat /\ (0 < r0)%R /\ (forall m, (0 < r m)%R)
    /\ (forall e, bf_eig n e eva eve r0 k r true 0 st = Some (f e))
    /\ bf_base n (eig_sum n eva eve) r0 k r true 0 st = Some x
    /\ (x < rsumn n f)%R.
Proof.
  pose (eve := fun m e : nat => if (m =? 1)%nat && (e =? 1)%nat then (-1, 0)%R else C1).
  pose (F := fun e : nat => clip_neg true (fst (freq_eig 2 1 (fun i => 1%R) (fun m i => eve m (e + i)%nat) 1 0 (fun _ => 1%R) 2 true Classic))).
  exists 2%nat, (fun _ => 1%R), eve, 1%R, 0%R, (fun _ => 1%R), Classic, F, 0%R.
  assert (L : sig_loss_norm 2 true 0 = Some 2%R).
  { unfold sig_loss_norm. destruct (Req_EM_T 0 0); [|lra]. cbn. f_equal. field. }
  repeat match goal with |- _ /\ _ => split end; try lra; try lia; try (intros; lra).
  - intros e. unfold bf_eig. rewrite L. reflexivity.
  - unfold bf_base. rewrite L. f_equal. rewrite <- eig_kernels. unfold freq_eig, normalize, scalar_prod_eig, steer_raw.
    cbn [rsumn csum fst]. rewrite Rmult_0_l, cos_0, sin_0. unfold eve. cbn.
    unfold clip_neg, re. cbn.
    match goal with |- (if Rlt_dec ?x 0 then _ else _) = _ => replace x with 0%R by field end.
    destruct (Rlt_dec 0 0); lra.
  - cbn [rsumn]. rewrite Rplus_0_l.
    assert (F 0%nat = 1%R).
    { unfold F, freq_eig, normalize, scalar_prod_eig, steer_raw.
      cbn [rsumn csum fst]. rewrite Rmult_0_l, cos_0, sin_0. unfold eve. cbn.
      unfold clip_neg, re. cbn.
      match goal with |- (if Rlt_dec ?x 0 then _ else _) = _ => replace x with 1%R by field end.
      destruct (Rlt_dec 1 0); lra. }
    pose proof (clip_nonneg (fst (freq_eig 2 1 (fun i => 1%R) (fun m i => eve m (1 + i)%nat) 1 0 (fun _ => 1%R) 2 true Classic))) as H1.
    change (0 <= F 1%nat)%R in H1. lra.
Qed.

(** BeamformerFunctional with gamma = 1. *)
Theorem functional_gamma_1 pw n eva eve r0 k r st rdn :
  (forall x, pw x 1 = x)%R ->
  (0 < n)%nat -> (0 < r0)%R -> (forall m, (m < n)%nat -> (0 < r m)%R) ->
  Some (bf_functional n pw 1 eva eve r0 k r st) = bf_base n (eig_sum n eva eve) r0 k r false rdn st.
Proof.
  intros Hpw Hn H0 Hr. unfold bf_functional, bf_base, sig_loss_norm, clip_neg. f_equal.
  replace (1 / 1)%R with 1%R by field.
  assert (E : freq_eig n n (fun e => pw (eva e) 1%R) eve r0 k r 1 false st = freq_full n (eig_sum n eva eve) r0 k r 1 false st).
  { rewrite eig_kernels. unfold freq_full. f_equal. unfold scalar_prod, eig_sum.
    f_equal; apply rsumn_ext; intros i Hi.
    - do 2 f_equal. f_equal. apply csum_ext. intros j _. f_equal. apply csum_ext. intros e _. now rewrite Hpw.
    - do 3 f_equal. apply csum_ext. intros e _. now rewrite Hpw. }
  rewrite E. rewrite fast_full_custom by assumption. unfold freq_custom.
  assert (HP : (0 < steer_norm n (steer_vector n st (transfer r0 k r)))%R).
  { rewrite steer_norm_vector by assumption. assert (HN : (0 < INR n)%R) by now apply lt_0_INR.
    pose proof (S_pos n r Hn Hr).
    destruct st.
    - apply Rdiv_lt_0_compat; lra.
    - apply Rdiv_lt_0_compat; [|repeat apply Rmult_lt_0_compat; assumption]. cbn [help_normalize]. apply rsumn_pos; [assumption|].
      intros m Hm. specialize (Hr m Hm). nra.
    - apply Rdiv_lt_0_compat; [apply Rdiv_lt_0_compat; [lra|now apply Rmult_lt_0_compat]|assumption].
    - apply Rdiv_lt_0_compat; lra. }
  rewrite Hpw. cbn [fst]. field. lra.
Qed.
