(** The penalised problems of BeamformerCMF (/repo/acoular/fbeamform.py:1747-1895)
    and the unit multiplier.  The solvers are taken to return a solution of the
    problem they are documented to solve. *)
From Coq Require Import List Arith Lia ZArith Bool Reals Lra.
From Verif Require Import Stream Cplx Beamform CsmFit.
Import ListNotations.
Local Open Scope R_scope.

Section Pen.
  Variables (nc G : nat) (h csm : nat -> nat -> C) (rdiag : bool).
  Let rows := cmf_rows nc rdiag.
  Let A := Amat h.

  (** fista(Op=A, y=R, eps=alpha), 1834-1845, and splitbregman(Op=A, y=R,
      RegsL1=[alpha I], mu=1), 1812-1831: a weight [kappa] (1 or 1/2 in the two
      packages' documentation) times the square of the residual plus the 1-norm,
      no bounds; the result is divided by [unit] afterwards. *)
  Definition l1_cost (kappa alpha unit : R) (x : nat -> R) : R :=
    kappa * lsum (fun row => (Amul G h x row - Rvec csm unit row) * (Amul G h x row - Rvec csm unit row)) rows
    + alpha * rsumn G (fun g => Rabs (x g)).
  Definition cmf_l1 (kappa alpha unit : R) (v : nat -> R) : Prop :=
    exists x, (forall z, l1_cost kappa alpha unit x <= l1_cost kappa alpha unit z)
      /\ forall g, (g < G)%nat -> v g = x g / unit.

  (** LassoLars(alpha=alpha * unit, positive=True).fit(A / norms, R) with an
      intercept (the default), 1805-1806 and 1886-1893. *)
  Definition lars_cost (alpha unit : R) (w : nat -> R) (b : R) : R :=
    lsum (fun row => (Rvec csm unit row - rsumn G (fun g => A row g / norms rows A g * w g) - b)
                     * (Rvec csm unit row - rsumn G (fun g => A row g / norms rows A g * w g) - b)) rows
      / (2 * INR (length rows))
    + alpha * unit * rsumn G w.
  Definition cmf_lars (alpha unit : R) (v : nat -> R) : Prop :=
    exists w b, (forall g, (g < G)%nat -> 0 <= w g)
      /\ (forall w' b', (forall g, (g < G)%nat -> 0 <= w' g) -> lars_cost alpha unit w b <= lars_cost alpha unit w' b')
      /\ forall g, (g < G)%nat -> v g = w g / norms rows A g / unit.

  (** fmin_l_bfgs_b with the bounds (0, inf), 1848-1882 *)
  Definition cmf_bfgs (unit : R) (v : nat -> R) : Prop :=
    exists x, (forall g, (g < G)%nat -> 0 <= x g)
      /\ (forall z, (forall g, (g < G)%nat -> 0 <= z g) -> cmf_func nc G h csm unit rdiag x <= cmf_func nc G h csm unit rdiag z)
      /\ forall g, (g < G)%nat -> v g = x g / unit.

  Lemma Rvec_unit u row : Rvec csm u row = u * Rvec csm 1 row.
  Proof. unfold Rvec. ring. Qed.
  Lemma Amul_scal u x row : Amul G h (fun g => u * x g) row = u * Amul G h x row.
  Proof. unfold Amul. rewrite <- rsumn_scal. apply rsumn_ext. intros; ring. Qed.

  Lemma l1_scale kappa alpha u x : 0 < u ->
    l1_cost kappa alpha u (fun g => u * x g) = u * u * l1_cost kappa (alpha / u) 1 x.
  Proof.
    intros Hu. unfold l1_cost.
    rewrite (lsum_ext _ (fun row => u * u * ((Amul G h x row - Rvec csm 1 row) * (Amul G h x row - Rvec csm 1 row)))).
    2:{ intros row _. rewrite Amul_scal, Rvec_unit. ring. }
    rewrite lsum_scal. rewrite (rsumn_ext G (fun g => Rabs (u * x g)) (fun g => u * Rabs (x g))).
    2:{ intros g _. rewrite Rabs_mult, (Rabs_right u) by lra. reflexivity. }
    rewrite rsumn_scal. field. lra.
  Qed.
  Lemma lars_scale alpha u w b : lars_cost alpha u (fun g => u * w g) (u * b) = u * u * lars_cost alpha 1 w b.
  Proof.
    unfold lars_cost.
    rewrite (lsum_ext _ (fun row => u * u * ((Rvec csm 1 row - rsumn G (fun g => A row g / norms rows A g * w g) - b)
                     * (Rvec csm 1 row - rsumn G (fun g => A row g / norms rows A g * w g) - b)))).
    2:{ intros row _. rewrite (rsumn_ext G (fun g => A row g / norms rows A g * (u * w g)) (fun g => u * (A row g / norms rows A g * w g))) by (intros; ring).
        rewrite rsumn_scal, Rvec_unit. ring. }
    rewrite lsum_scal, rsumn_scal. unfold Rdiv. ring.
  Qed.
  Lemma bfgs_scale u x : cmf_func nc G h csm u rdiag (fun g => u * x g) = u * u * cmf_func nc G h csm 1 rdiag x.
  Proof.
    rewrite !cmf_func_squares. rewrite <- lsum_scal. apply lsum_ext. intros row _. rewrite Amul_scal, Rvec_unit. ring.
  Qed.

  Lemma undo u (x : nat -> R) g : 0 < u -> u * (x g / u) = x g.
  Proof. intros. field. lra. Qed.

  Lemma l1_ext kappa alpha u x z : (forall g, (g < G)%nat -> x g = z g) -> l1_cost kappa alpha u x = l1_cost kappa alpha u z.
  Proof.
    intros E. unfold l1_cost. f_equal; f_equal.
    - apply lsum_ext. intros row _. replace (Amul G h x row) with (Amul G h z row); [reflexivity|].
      apply rsumn_ext. intros g Hg. now rewrite E.
    - apply rsumn_ext. intros g Hg. now rewrite E.
  Qed.
  Lemma lars_ext alpha u w z b : (forall g, (g < G)%nat -> w g = z g) -> lars_cost alpha u w b = lars_cost alpha u z b.
  Proof.
    intros E. unfold lars_cost. f_equal; f_equal.
    - apply lsum_ext. intros row _. rewrite (rsumn_ext G (fun g => A row g / norms rows A g * w g) (fun g => A row g / norms rows A g * z g)); [reflexivity|].
      intros g Hg. now rewrite E.
    - apply rsumn_ext. intros g Hg. now rewrite E.
  Qed.
  Lemma bfgs_ext u x z : (forall g, (g < G)%nat -> x g = z g) -> cmf_func nc G h csm u rdiag x = cmf_func nc G h csm u rdiag z.
  Proof.
    intros E. rewrite !cmf_func_squares. apply lsum_ext. intros row _. replace (Amul G h x row) with (Amul G h z row); [reflexivity|].
    apply rsumn_ext. intros g Hg. now rewrite E.
  Qed.

  Lemma sq_pos u : 0 < u -> 0 < u * u.
  Proof. intros. now apply Rmult_lt_0_compat. Qed.

  Theorem l1_unit kappa alpha u v : 0 < u ->
    cmf_l1 kappa alpha u v <-> (forall z, l1_cost kappa (alpha / u) 1 v <= l1_cost kappa (alpha / u) 1 z).
  Proof.
    intros Hu. pose proof (sq_pos u Hu) as Hs. split.
    - intros (x & M & E) z. rewrite (l1_ext kappa (alpha / u) 1 v (fun g => x g / u) E).
      apply (Rmult_le_reg_l (u * u)); [exact Hs|]. rewrite <- !l1_scale by exact Hu.
      rewrite (l1_ext kappa alpha u (fun g => u * (x g / u)) x) by (intros; now apply undo). apply M.
    - intros M. exists (fun g => u * v g). split; [|intros g _; field; lra]. intros z. rewrite l1_scale by exact Hu.
      rewrite (l1_ext kappa alpha u z (fun g => u * (z g / u))) by (intros; symmetry; now apply undo). rewrite l1_scale by exact Hu.
      apply Rmult_le_compat_l; [lra|apply M].
  Qed.
  Theorem bfgs_unit u v : 0 < u ->
    cmf_bfgs u v <-> ((forall g, (g < G)%nat -> 0 <= v g) /\
      forall z, (forall g, (g < G)%nat -> 0 <= z g) -> cmf_func nc G h csm 1 rdiag v <= cmf_func nc G h csm 1 rdiag z).
  Proof.
    intros Hu. pose proof (sq_pos u Hu) as Hs. split.
    - intros (x & P & M & E). split.
      { intros g Hg. rewrite E by exact Hg. apply Rmult_le_pos; [now apply P|]. apply Rlt_le, Rinv_0_lt_compat, Hu. }
      intros z Hz. rewrite (bfgs_ext 1 v (fun g => x g / u) E).
      apply (Rmult_le_reg_l (u * u)); [exact Hs|]. rewrite <- !bfgs_scale.
      rewrite (bfgs_ext u (fun g => u * (x g / u)) x) by (intros; now apply undo). apply M. intros g Hg. apply Rmult_le_pos; [lra|now apply Hz].
    - intros [P M]. exists (fun g => u * v g). split; [intros g Hg; apply Rmult_le_pos; [lra|now apply P]|]. split; [|intros g _; field; lra].
      intros z Hz. rewrite bfgs_scale. rewrite (bfgs_ext u z (fun g => u * (z g / u))) by (intros; symmetry; now apply undo). rewrite bfgs_scale.
      apply Rmult_le_compat_l; [lra|apply M]. intros g Hg. apply Rmult_le_pos; [now apply Hz|]. apply Rlt_le, Rinv_0_lt_compat, Hu.
  Qed.
  Theorem lars_unit alpha u v : 0 < u -> cmf_lars alpha u v <-> cmf_lars alpha 1 v.
  Proof.
    intros Hu. pose proof (sq_pos u Hu) as Hs. pose proof (Rinv_0_lt_compat u Hu) as Hi. split; intros (w & b & P & M & E).
    - exists (fun g => w g / u), (b / u). split; [intros g Hg; apply Rmult_le_pos; [now apply P|lra]|]. split.
      + intros w' b' Hw. apply (Rmult_le_reg_l (u * u)); [exact Hs|]. rewrite <- !lars_scale.
        rewrite (lars_ext alpha u (fun g => u * (w g / u)) w) by (intros; now apply undo). replace (u * (b / u)) with b by (field; lra).
        apply M. intros g Hg. apply Rmult_le_pos; [lra|now apply Hw].
      + intros g Hg. rewrite E by exact Hg. unfold Rdiv. rewrite Rinv_1. ring.
    - exists (fun g => u * w g), (u * b). split; [intros g Hg; apply Rmult_le_pos; [lra|now apply P]|]. split.
      + intros w' b' Hw. rewrite lars_scale. rewrite (lars_ext alpha u w' (fun g => u * (w' g / u))) by (intros; symmetry; now apply undo).
        replace b' with (u * (b' / u)) by (field; lra). rewrite lars_scale. apply Rmult_le_compat_l; [lra|]. apply M.
        intros g Hg. apply Rmult_le_pos; [now apply Hw|lra].
      + intros g Hg. rewrite E by exact Hg. unfold Rdiv. rewrite Rinv_1. replace (u * w g * / norms rows A g * / u) with (w g * / norms rows A g * (u * / u)) by ring.
        rewrite Rinv_r by lra. ring.
  Qed.
End Pen.
