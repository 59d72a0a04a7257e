(** Property C116: results depend on the matrix, not on the eigenvectors chosen. *)
From Coq Require Import List Arith Lia ZArith Bool Reals Lra.
From Verif Require Import Cplx Beamform Deconv Subspace Spectral.
Import ListNotations.
Local Open Scope R_scope.
Local Open Scope C_scope.

(** C116, eigenvalues: whatever decomposition is returned, the values are the same. *)
Theorem C116_eigenvalues : forall n c eva eve eva' eve', hermitian n c ->
  is_eigh n c eva eve -> is_eigh n c eva' eve' -> forall e, (e < n)%nat -> eva' e = eva e.
Proof. intros. eapply eigenvalues_unique; eauto. Qed.
Print Assumptions C116_eigenvalues.

(** C116, functional beamforming: the same map. *)
Theorem C116_functional : forall n c eva eve eva' eve' g r0 k r st,
  (0 < n)%nat -> (0 < r0)%R -> (forall m, (m < n)%nat -> (0 < r m)%R) ->
  hermitian n c -> is_eigh n c eva eve -> is_eigh n c eva' eve' ->
  bf_functional n npow g eva' eve' r0 k r st = bf_functional n npow g eva eve r0 k r st.
Proof. intros. eapply functional_unique; eauto. Qed.
Print Assumptions C116_functional.

(** C116, MUSIC: the same map if the eigenvalues above the noise subspace are
    larger than those of the noise subspace.  Missing: no gap. *)
Theorem C116_music_partial : forall n c eva eve eva' eve' nsrc k st grid,
  (0 < n)%nat -> (forall g, In g grid -> good_point n g) ->
  hermitian n c -> is_eigh n c eva eve -> is_eigh n c eva' eve' ->
  (let ne := Z.to_nat (Z.of_nat n - get_na nsrc (Z.of_nat n)) in (ne < n)%nat -> (eva (ne - 1)%nat < eva ne)%R) ->
  music n nsrc eva' eve' k st grid = music n nsrc eva eve k st grid.
Proof. intros. eapply music_unique; eauto. Qed.
Print Assumptions C116_music_partial.

(** C116, BeamformerEig: the same map if the eigenvalue of the component is a
    simple one.  Missing: multiple eigenvalues. *)
Theorem C116_eig_partial : forall n c eva eve eva' eve' na r0 k r rd rdn st,
  hermitian n c -> is_eigh n c eva eve -> is_eigh n c eva' eve' -> (na < n)%nat ->
  (forall f, (f < n)%nat -> f <> na -> eva f <> eva na) ->
  bf_eig n na eva' eve' r0 k r rd rdn st = bf_eig n na eva eve r0 k r rd rdn st.
Proof. intros. eapply bf_eig_unique; eauto. Qed.
Print Assumptions C116_eig_partial.

(** Two decompositions of the identity (two channels with noise of equal power). *)
Definition ident (i j : nat) : C := if (i =? j)%nat then C1 else C0.
Definition axes (m e : nat) : C := if (m =? e)%nat then C1 else C0.
Definition diagonals (m e : nat) : C := RtoC (if ((m =? 1) && (e =? 0))%nat then - sqrt (/ 2) else sqrt (/ 2)).

Lemma two_cases : forall P : nat -> Prop, P 0%nat -> P 1%nat -> forall c, (c < 2)%nat -> P c.
Proof. intros P H0 H1 [|[|c]] H; [exact H0|exact H1|lia]. Qed.

Lemma ident_hermitian : hermitian 2 ident.
Proof. intros i j _ _. unfold ident. rewrite Nat.eqb_sym. destruct (i =? j)%nat; [now rewrite Conj_1|now rewrite Conj_0]. Qed.

Lemma axes_eigh : is_eigh 2 ident (fun _ => 1%R) axes.
Proof.
  unfold ident, axes. split; [|split].
  - intros e i He Hi. pattern e; apply two_cases; [| |exact He]; pattern i; apply two_cases; try exact Hi;
    cbn [csum Nat.eqb]; change (RtoC 1) with C1; ring.
  - intros e f He Hf. pattern e; apply two_cases; [| |exact He]; pattern f; apply two_cases; try exact Hf;
    cbn [csum Nat.eqb]; rewrite ?Conj_1, ?Conj_0; ring.
  - intros; lra.
Qed.

Lemma diagonals_eigh : is_eigh 2 ident (fun _ => 1%R) diagonals.
Proof.
  assert (S : (sqrt (/ 2) * sqrt (/ 2) = / 2)%R) by (apply sqrt_sqrt; lra).
  unfold ident, diagonals. split; [|split].
  - intros e i He Hi. pattern e; apply two_cases; [| |exact He]; pattern i; apply two_cases; try exact Hi;
    cbn [csum Nat.eqb andb]; change (RtoC 1) with C1; ring.
  - intros e f He Hf. pattern e; apply two_cases; [| |exact He]; pattern f; apply two_cases; try exact Hf;
    cbn [csum Nat.eqb andb]; rewrite !Conj_RtoC, <- !RtoC_mul;
    unfold RtoC, C0, C1, Cadd; cbn [fst snd]; f_equal; nra.
  - intros; lra.
Qed.

Lemma steer_one m : steer_raw Classic 0 (fun _ => 1%R) m = C1.
Proof. unfold steer_raw. rewrite Rmult_0_l, cos_0, sin_0, Ropp_0. reflexivity. Qed.

Lemma eig_two eva eve na : (eva na = 1)%R -> forall x,
  norm2 (Conj (eve 0%nat na) + Conj (eve 1%nat na)) = x ->
  bf_eig 2 na eva eve 1 0 (fun _ => 1%R) false 0 Classic = Some (x / 4)%R.
Proof.
  intros Ha x <-. unfold bf_eig, sig_loss_norm. f_equal. unfold clip_neg, freq_eig, normalize. cbn [fst].
  unfold scalar_prod_eig. cbn [rsumn csum]. cbv zeta. rewrite !Nat.add_0_r, Ha, !steer_one, mul_Conj. cbn [re RtoC fst].
  replace (C0 + Conj (eve 0%nat na) * C1 + Conj (eve 1%nat na) * C1) with (Conj (eve 0%nat na) + Conj (eve 1%nat na)) by ring.
  cbn [INR]. field.
Qed.

(** C116 is false for equal eigenvalues: two decompositions of the same matrix
    give different maps of the component with index 0. *)
Theorem C116_eig_refuted : exists n c eva eve eve' na r0 k r,
  hermitian n c /\ is_eigh n c eva eve /\ is_eigh n c eva eve' /\ (na < n)%nat /\ (0 < r0)%R /\ (forall m, (0 < r m)%R) /\
  bf_eig n na eva eve r0 k r false 0 Classic = Some (1 / 4)%R /\
  bf_eig n na eva eve' r0 k r false 0 Classic = Some 0%R.
Proof.
  exists 2%nat, ident, (fun _ => 1%R), axes, diagonals, 0%nat, 1%R, 0%R, (fun _ => 1%R).
  split; [exact ident_hermitian|]. split; [exact axes_eigh|]. split; [exact diagonals_eigh|].
  split; [lia|]. split; [lra|]. split; [intros; lra|]. split.
  - apply eig_two; [reflexivity|]. unfold axes. cbn [Nat.eqb]. rewrite Conj_1, Conj_0. unfold norm2, C1, C0, Cadd. cbn. ring.
  - rewrite (eig_two (fun _ => 1%R) diagonals 0 eq_refl 0%R); [f_equal; field|]. unfold diagonals. cbn [Nat.eqb andb].
    rewrite !Conj_RtoC, <- RtoC_add, norm2_RtoC. ring.
Qed.
Print Assumptions C116_eig_refuted.

(** Likewise MUSIC without a gap, with one assumed source: at one point the map
    takes different values. *)
Theorem C116_music_refuted : exists n c eva eve eve' k g1 g2,
  hermitian n c /\ is_eigh n c eva eve /\ is_eigh n c eva eve' /\ good_point n g1 /\ good_point n g2 /\
  music n 1 eva eve k Classic [g1; g2] <> music n 1 eva eve' k Classic [g1; g2].
Proof.
  exists 2%nat, ident, (fun _ => 1%R), axes, diagonals, PI,
    (1%R, fun _ => 1%R), (1%R, fun m => if (m =? 0)%nat then 1%R else (1 + 1 / 2)%R).
  split; [exact ident_hermitian|]. split; [exact axes_eigh|]. split; [exact diagonals_eigh|].
  split; [split; cbn; intros; lra|]. split; [split; cbn; intros; [lra|destruct (m =? 0)%nat; lra]|].
  assert (V : forall eve g, music_out 2 1 (fun _ => 1%R) eve PI Classic g
     = norm2 (Conj (eve 0%nat 0%nat) * steer_raw Classic PI (snd g) 0 + Conj (eve 1%nat 0%nat) * steer_raw Classic PI (snd g) 1)).
  { intros eve g. unfold music_out. change (Z.to_nat (Z.of_nat 2 - get_na 1 (Z.of_nat 2))) with 1%nat.
    unfold freq_eig, normalize. cbn [fst]. unfold scalar_prod_eig. cbn [rsumn csum]. cbv zeta. rewrite mul_Conj. cbn [re RtoC fst].
    match goal with |- context [norm2 (C0 + ?a + ?b)] => replace (C0 + a + b) with (a + b) by ring end.
    cbn [INR]. field. }
  assert (W1 : music_out 2 1 (fun _ => 1%R) axes PI Classic (1%R, fun _ => 1%R) = 1%R).
  { rewrite V. unfold axes. cbn [Nat.eqb snd]. rewrite Conj_1, Conj_0. unfold steer_raw.
    rewrite Rmult_1_r, cos_PI, sin_PI. unfold norm2, C1, C0, Cadd, Cmul. cbn. ring. }
  assert (D1 : music_out 2 1 (fun _ => 1%R) diagonals PI Classic (1%R, fun _ => 1%R) = 0%R).
  { rewrite V. unfold diagonals. cbn [Nat.eqb andb snd]. rewrite !Conj_RtoC. unfold steer_raw.
    rewrite Rmult_1_r, cos_PI, sin_PI. unfold norm2, RtoC, Cadd, Cmul. cbn. ring. }
  unfold music. cbv zeta. cbn [map]. rewrite W1, D1.
  destruct (Req_EM_T 1 0); [lra|]. destruct (Req_EM_T 0 0); [|lra]. discriminate.
Qed.
Print Assumptions C116_music_refuted.

(** A matrix with two different eigenvalues meets the hypotheses of C116_eig_partial
    and of C116_music_partial (one source, two channels: gap between 1 and 2). *)
Definition stretched (i j : nat) : C := if (i =? j)%nat then RtoC (INR (i + 1)) else C0.
Example C116_case : hermitian 2 stretched /\ is_eigh 2 stretched (fun e => INR (e + 1)) axes
  /\ is_eigh 2 stretched (fun e => INR (e + 1)) (fun m e => (0, 1)%R * axes m e)
  /\ (forall f, (f < 2)%nat -> f <> 1%nat -> INR (f + 1) <> INR (1 + 1))
  /\ (let ne := Z.to_nat (Z.of_nat 2 - get_na 1 (Z.of_nat 2)) in (ne < 2)%nat /\ (INR (ne - 1 + 1) < INR (ne + 1))%R).
Proof.
  unfold stretched, axes. split.
  { intros i j _ _. rewrite Nat.eqb_sym. destruct (Nat.eqb_spec i j) as [->|]; [now rewrite Conj_RtoC|now rewrite Conj_0]. }
  split; [|split; [|split]].
  - split; [|split].
    + intros e i He Hi. pattern e; apply two_cases; [| |exact He]; pattern i; apply two_cases; try exact Hi;
      cbn [csum Nat.eqb]; ring.
    + intros e f He Hf. pattern e; apply two_cases; [| |exact He]; pattern f; apply two_cases; try exact Hf;
      cbn [csum Nat.eqb]; rewrite ?Conj_1, ?Conj_0; ring.
    + intros e f Hle _. apply le_INR. lia.
  - split; [|split].
    + intros e i He Hi. pattern e; apply two_cases; [| |exact He]; pattern i; apply two_cases; try exact Hi;
      cbn [csum Nat.eqb]; ring.
    + intros e f He Hf. pattern e; apply two_cases; [| |exact He]; pattern f; apply two_cases; try exact Hf;
      cbn [csum Nat.eqb]; rewrite ?Conj_mul, ?Conj_1, ?Conj_0; unfold Cadd, Cmul, Conj, C0, C1; cbn; f_equal; ring.
    + intros e f Hle _. apply le_INR. lia.
  - intros f Hf N. assert (f = 0)%nat by lia. subst f. cbn. lra.
  - cbv zeta. change (Z.to_nat (Z.of_nat 2 - get_na 1 (Z.of_nat 2))) with 1%nat. split; [lia|]. cbn. lra.
Qed.
