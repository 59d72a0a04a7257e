(** Property C115: unit and order of the channels. *)
From Coq Require Import List Arith Lia ZArith Bool Reals Lra.
From Verif Require Import Stream Wav Cplx Buffer Frames Convolve Fourier Beamform Csm Deconv Subspace Spectral Rewire Das Gib Props_Gib.
Import ListNotations.
Local Open Scope R_scope.
Local Open Scope C_scope.

(** The second measurement [s'] has the samples of the first in the order [sg] of the
    channels, multiplied by [a]; the microphones are in the same order:
    distances [r'] of [r].  Both are analysed with the same block size [bs],
    overlap [ov] and window, at the spectral line [b]. *)
Definition second (bs ov n : nat) (wind : nat -> R) (src src' : source (list R)) (s s' : list (list R)) (sg : nat -> nat)
    (a : R) : Prop :=
  wf_source src s /\ wf_source src' s' /\ (0 < bs)%nat /\ (0 < ov)%nat /\ (bs <= length s)%nat
  /\ (0 < rsumn bs (fun j => wind j * wind j))%R /\ order n sg /\ rewired n sg a s s' /\ a <> 0%R.

Section Maps.
  Variables (garbage garbage' : nat -> list R) (bs ov n : nat) (wind : nat -> R) (src src' : source (list R))
    (s s' : list (list R)) (b : nat) (sg : nat -> nat) (a : R).
  Hypothesis Hsec : second bs ov n wind src src' s s' sg a.

  Let c := power_spectra_csm garbage bs ov n wind (length s) src b.
  Let c' := power_spectra_csm garbage' bs ov n wind (length s') src' b.

  Lemma second_csm : rewired_csm n sg (a * a) c c'.
  Proof. destruct Hsec as (A & B & C & D & E & F & G & H & I). now apply rewired_power_spectra. Qed.
  Lemma second_hermitian : hermitian n c.
  Proof. apply calc_csm_hermitian. Qed.
  Lemma second_gain : (0 < a * a)%R.
  Proof. destruct Hsec as (_ & _ & _ & _ & _ & _ & _ & _ & H). apply Rsqr_pos_lt in H. exact H. Qed.
  Lemma second_order : order n sg.
  Proof. now destruct Hsec as (_ & _ & _ & _ & _ & _ & H & _). Qed.

  (** C115, BeamformerBase. *)
  Theorem C115_base : forall r0 k r r' rd rdn st, (forall m, (m < n)%nat -> r' m = r (sg m)) ->
    bf_base n c' r0 k r' rd rdn st = option_map (Rmult (a * a)) (bf_base n c r0 k r rd rdn st).
  Proof.
    intros. apply bf_base_order with (sg := sg); auto using second_csm, second_hermitian, second_gain, second_order.
  Qed.

  (** C115, BeamformerCapon, for any inverse matrices. *)
  Theorem C115_capon : forall d d' r0 k r r' st, is_inverse n c d -> is_inverse n c' d' ->
    (forall m, (m < n)%nat -> r' m = r (sg m)) ->
    capon n d' r0 k r' st = option_map (Rmult (a * a)) (capon n d r0 k r st).
  Proof.
    intros. apply capon_order with (sg := sg) (c := c) (c' := c'); auto using second_csm, second_hermitian, second_gain, second_order.
  Qed.

  (** C115, DAMAS: map and point spread functions of both measurements. *)
  Theorem C115_damas : forall g r0g rg rg' k rd rdn st relax iters y y',
    (forall p m, (p < g)%nat -> (m < n)%nat -> rg' p m = rg p (sg m)) ->
    (forall p, (p < g)%nat -> bf_base n c (r0g p) k (rg p) rd rdn st = Some (y p)) ->
    (forall p, (p < g)%nat -> bf_base n c' (r0g p) k (rg' p) rd rdn st = Some (y' p)) ->
    forall p, (p < g)%nat ->
    damas g (fun i j => psf_core n st (r0g i) (rg' i) (r0g j) (rg' j) k) y' relax iters p
    = (a * a * damas g (fun i j => psf_core n st (r0g i) (rg i) (r0g j) (rg j) k) y relax iters p)%R.
  Proof.
    intros g r0g rg rg' k rd rdn st relax iters y y' Hr Hy Hy' p Hp.
    apply damas_scaled; [exact second_gain| | |assumption].
    - intros i j Hi Hj. apply (psf_core_order n sg second_order); auto.
    - intros i Hi. specialize (Hy i Hi). specialize (Hy' i Hi).
      rewrite (C115_base (r0g i) k (rg i) (rg' i) rd rdn st (fun m Hm => Hr i m Hi Hm)), Hy in Hy'. cbn in Hy'. now inversion Hy'.
  Qed.

  (** C115, CLEAN: the same number of passes. *)
  Theorem C115_clean : forall g r0g rg rg' k rd rdn st damp n_iter fuel y y' dirty clean i, (0 < g)%nat ->
    (forall p m, (p < g)%nat -> (m < n)%nat -> rg' p m = rg p (sg m)) ->
    (forall p, (p < g)%nat -> bf_base n c (r0g p) k (rg p) rd rdn st = Some (y p)) ->
    (forall p, (p < g)%nat -> bf_base n c' (r0g p) k (rg' p) rd rdn st = Some (y' p)) ->
    clean_calc g (fun i p => psf_core n st (r0g p) (rg p) (r0g i) (rg i) k) damp n_iter fuel y = Some (dirty, clean, i) ->
    exists dirty' clean',
      clean_calc g (fun i p => psf_core n st (r0g p) (rg' p) (r0g i) (rg' i) k) damp n_iter fuel y' = Some (dirty', clean', i)
      /\ (forall p, (p < g)%nat -> clean' p = (a * a * clean p)%R)
      /\ (forall p, (p < g)%nat -> dirty' p = (a * a * dirty p)%R).
  Proof.
    intros g r0g rg rg' k rd rdn st damp n_iter fuel y y' dirty clean i Hg Hr Hy Hy' E.
    pose proof (clean_scaled g (a * a) second_gain (fun i p => psf_core n st (r0g p) (rg p) (r0g i) (rg i) k)
      (fun i p => psf_core n st (r0g p) (rg' p) (r0g i) (rg' i) k) damp n_iter fuel y y' Hg) as G.
    rewrite E in G.
    destruct (clean_calc g (fun i p => psf_core n st (r0g p) (rg' p) (r0g i) (rg' i) k) damp n_iter fuel y') as [[[d' cl'] i']|].
    - destruct G as (G1 & G2 & ->); [| |exists d', cl'; auto].
      + intros p q Hp Hq. apply (psf_core_order n sg second_order); auto.
      + intros p Hp. specialize (Hy p Hp). specialize (Hy' p Hp).
        rewrite (C115_base (r0g p) k (rg p) (rg' p) rd rdn st (fun m Hm => Hr p m Hp Hm)), Hy in Hy'. cbn in Hy'. now inversion Hy'.
    - exfalso. apply G.
      + intros p q Hp Hq. apply (psf_core_order n sg second_order); auto.
      + intros p Hp. specialize (Hy p Hp). specialize (Hy' p Hp).
        rewrite (C115_base (r0g p) k (rg p) (rg' p) rd rdn st (fun m Hm => Hr p m Hp Hm)), Hy in Hy'. cbn in Hy'. now inversion Hy'.
  Qed.

  (** C115, CLEAN-SC: map, and the powers found in the same passes. *)
  Theorem C115_cleansc : forall g r0g rg rg' k rd nf damp st stopn J, (0 < g)%nat ->
    (forall p m, (p < g)%nat -> (m < n)%nat -> rg' p m = rg p (sg m)) ->
    let x := cleansc n g k r0g rg st rd nf damp stopn J c in
    let x' := cleansc n g k r0g rg' st rd nf damp stopn J c' in
    (forall p, (p < g)%nat -> sc_result x' p = (a * a * sc_result x p)%R)
    /\ sc_powers x' = map (Rmult (a * a)) (sc_powers x).
  Proof.
    intros g r0g rg rg' k rd nf damp st stopn J Hg Hr x x'.
    destruct (cleansc_order n g sg (a * a) k r0g rg rg' st rd nf damp second_order second_gain Hg Hr stopn J c c'
      second_hermitian second_csm) as (_ & _ & A & B). split; assumption.
  Qed.

  (** C115, methods based on eigenvalues, for any decompositions. *)
  Section Decomposed.
    Variables (eva eva' : nat -> R) (eve eve' : nat -> nat -> C).
    Hypotheses (E : is_eigh n c eva eve) (E' : is_eigh n c' eva' eve').

    Theorem C115_eigenvalues : forall e, (e < n)%nat -> eva' e = (a * a * eva e)%R.
    Proof.
      intros e He. apply (eigenvalues_order n sg (a * a) c c' eva eva' eve eve');
        auto using second_csm, second_hermitian, second_gain, second_order.
    Qed.

    Theorem C115_eig_partial : forall na r0 k r r' rd rdn st, (na < n)%nat ->
      (forall f, (f < n)%nat -> f <> na -> eva f <> eva na) -> (forall m, (m < n)%nat -> r' m = r (sg m)) ->
      bf_eig n na eva' eve' r0 k r' rd rdn st = option_map (Rmult (a * a)) (bf_eig n na eva eve r0 k r rd rdn st).
    Proof.
      intros. apply (eig_order n sg (a * a) c c'); auto using second_csm, second_hermitian, second_gain, second_order.
    Qed.

    Theorem C115_functional : forall g r0 k r r' st, (0 < n)%nat -> (0 < r0)%R -> (forall m, (m < n)%nat -> (0 < r m)%R) ->
      (forall m, (m < n)%nat -> r' m = r (sg m)) -> (g <> 0)%R ->
      bf_functional n npow g eva' eve' r0 k r' st = (a * a * bf_functional n npow g eva eve r0 k r st)%R.
    Proof.
      intros. apply (functional_order n sg (a * a) c c'); auto using second_csm, second_hermitian, second_gain, second_order.
      intros e He.
      destruct Hsec as (Q1 & _ & Q2 & Q3 & Q4 & Q5 & _).
      destruct (csm_spec garbage bs ov n wind src s b Q1 Q2 Q3 Q4 Q5) as (_ & _ & _ & P). cbv zeta in P.
      destruct (P (fun i => eve i e)) as (x & X & Hx). fold c in X.
      destruct E as (E1 & E2 & _).
      assert (Y : csum n (fun i => csum n (fun j => Conj (eve i e) * c i j * eve j e)) = RtoC (eva e)).
      { rewrite (csum_ext n _ (fun i => RtoC (eva e) * (Conj (eve i e) * eve i e))).
        - rewrite csum_scal, E2, Nat.eqb_refl by assumption. ring.
        - intros i Hi. rewrite (csum_ext n _ (fun j => Conj (eve i e) * (c i j * eve j e))) by (intros; ring).
          rewrite csum_scal, E1 by assumption. ring. }
      rewrite X in Y. apply RtoC_inj in Y. now rewrite <- Y.
    Qed.

    (** MUSIC shows no levels: the map stays the same. *)
    Theorem C115_music_partial : forall nsrc k st grid grid', (0 < n)%nat ->
      Forall2 (fun p p' => fst p' = fst p /\ forall m, (m < n)%nat -> snd p' m = snd p (sg m)) grid grid' ->
      (forall g, In g grid -> good_point n g) ->
      (let ne := Z.to_nat (Z.of_nat n - get_na nsrc (Z.of_nat n)) in (ne < n)%nat -> (eva (ne - 1)%nat < eva ne)%R) ->
      music n nsrc eva' eve' k st grid' = music n nsrc eva eve k st grid.
    Proof.
      intros. apply (music_order n sg (a * a) c c'); auto using second_csm, second_hermitian, second_gain, second_order.
    Qed.
  End Decomposed.
End Maps.
Print Assumptions C115_base.
Print Assumptions C115_capon.
Print Assumptions C115_damas.
Print Assumptions C115_clean.
Print Assumptions C115_cleansc.
Print Assumptions C115_eigenvalues.
Print Assumptions C115_eig_partial.
Print Assumptions C115_functional.
Print Assumptions C115_music_partial.

(** Two channels swapped and doubled: the hypotheses of C115. *)
Example C115_case : second 1 1 2 (fun _ => 1%R) (fun num => done (chunks num [[1; 2]; [3; 5]]%R))
  (fun num => done (chunks num [[4; 2]; [10; 6]]%R)) [[1; 2]; [3; 5]]%R [[4; 2]; [10; 6]]%R (fun m => (1 - m)%nat) 2.
Proof.
  unfold second. split; [|split; [|split; [|split; [|split; [|split; [|split; [|split]]]]]]].
  - intros num Hnum. now apply delivers_chunks.
  - intros num Hnum. now apply delivers_chunks.
  - lia.
  - lia.
  - cbn. lia.
  - cbn. lra.
  - split; intros; lia.
  - split; [reflexivity|]. intros t m Ht Hm. cbn [length] in Ht.
    destruct t as [|[|t]]; [| |lia]; (destruct m as [|[|m]]; [| |lia]); cbn; ring.
  - lra.
Qed.

(* ------------------------------------------------------------------ *)
(** C115 is false for BeamformerGIB (method 'Suzuki'): one channel, one point at unit
    distance, two iterations with the default 5 per cent: the source of strength 100
    is found with 100, the one of strength 400 with less. *)
Lemma gib_one inv lam wf e w x : inverts inv -> largest lam -> wf 0%nat = w -> e 0%nat = RtoC x -> (0 < w)%R ->
  exists q, suzuki inv lam 1 (1 / 20) 1 (cols (fun _ _ => C1) [0%nat]) 1 wf e = Some q
  /\ q 0%nat = RtoC (w * x / (w + IZR (trunc (w * (1 / 20))))).
Proof.
  intros Hinv Hlam Ew Ee Hw. set (B := cols (fun _ _ => C1) [0%nat]).
  assert (A : awa B 1 wf 0%nat 0%nat = RtoC w).
  { unfold awa, B, cols. cbn [csum]. rewrite Conj_1, Ew. ring. }
  assert (HL : lam 1%nat (awa B 1 wf) = w).
  { apply Hlam; [lia|lra|]. intros i j Hi Hj. replace i with 0%nat by lia. replace j with 0%nat by lia. exact A. }
  set (eps := IZR (trunc (w * (1 / 20)))).
  assert (Heps : (0 <= eps)%R).
  { unfold eps. destruct (trunc_nonneg (w * (1 / 20)) ltac:(lra)) as [-> P]. now apply IZR_le. }
  assert (HE : epsilon lam (1 / 20) (awa B 1 wf) 1 = eps) by (unfold epsilon; rewrite HL; reflexivity).
  unfold suzuki, suzuki_wide. cbn [Nat.leb]. cbv zeta. rewrite HE.
  set (M := add_diag (awa B 1 wf) (fun _ => RtoC eps)).
  assert (HM : M 0%nat 0%nat = RtoC (w + eps)) by (unfold M, add_diag; cbn [Nat.eqb]; rewrite A, RtoC_add; reflexivity).
  assert (N : RtoC (w + eps) <> C0) by (apply RtoC_neq0; lra).
  destruct (inv 1%nat M) as [X|] eqn:EX.
  - eexists. split; [reflexivity|]. apply Hinv in EX as [EX _].
    specialize (EX 0%nat 0%nat ltac:(lia) ltac:(lia)). unfold mmul, idm in EX. cbn [csum Nat.eqb] in EX. rewrite HM in EX.
    assert (HX : X 0%nat 0%nat = RtoC (/ (w + eps))).
    { rewrite RtoC_inv by lra. transitivity (Cinv (RtoC (w + eps)) * (C0 + RtoC (w + eps) * X 0%nat 0%nat)); [field; exact N|].
      rewrite EX. ring. }
    unfold B, cols. cbn [csum]. rewrite HX, Conj_1, Ew, Ee.
    replace (w * x / (w + eps))%R with (w * (/ (w + eps) * x))%R by (field; lra). rewrite !RtoC_mul. ring.
  - exfalso. revert EX. destruct Hinv as [_ Hinv]. apply (Hinv 1%nat M (fun _ _ => Cinv (RtoC (w + eps)))); intros i j Hi Hj;
      replace i with 0%nat by lia; replace j with 0%nat by lia; unfold mmul, idm; cbn [csum Nat.eqb]; rewrite HM; field; exact N.
Qed.

Lemma gib_two inv lam x : inverts inv -> largest lam -> (0 < x)%R ->
  exists f, gib_map inv lam 1 1 (fun _ _ => C1) (1 / 20) 1 (fun y => y) 2 [((x * x)%R, fun _ => C1)] = inl f
  /\ f 0%nat = ((x * x / (x + IZR (trunc (x * (1 / 20))))) * (x * x / (x + IZR (trunc (x * (1 / 20))))))%R.
Proof.
  intros Hinv Hlam Hx. unfold gib_map. cbn [gib_modes]. destruct (Rlt_dec 0 (x * x)) as [_|N]; [|exfalso; apply N; nra].
  set (e := fun c : nat => RtoC (sqrt (x * x)) * C1).
  assert (E0 : e 0%nat = RtoC x) by (unfold e; rewrite sqrt_square by lra; ring).
  clearbody e. cbn [gib_iter]. unfold gib_step at 1. unfold gib_start. cbn [gs_left gs_loc gs_w gs_q seq length].
  destruct (gib_one inv lam (fun _ => 1%R) e 1 x Hinv Hlam eq_refl E0 ltac:(lra)) as (q1 & Q1 & V1). rewrite Q1.
  rewrite (trunc_small (1 * (1 / 20))) in V1 by lra.
  assert (V1' : q1 0%nat = RtoC x) by (rewrite V1; f_equal; field). clear V1.
  destruct (Rlt_dec 1 1) as [L|_]; [lra|]. cbn [andb].
  unfold gib_step at 1. cbn [gs_left gs_loc gs_w gs_q length].
  set (w2 := fun l : nat => Cabs (assign (fun _ => C0) [0%nat] q1 l)).
  assert (W2 : w2 0%nat = x).
  { unfold w2, assign. cbn [index_of Nat.eqb]. rewrite V1', Cabs_RtoC, Rabs_right by lra. reflexivity. }
  clearbody w2.
  destruct (gib_one inv lam w2 e x x Hinv Hlam W2 E0 Hx) as (q2 & Q2 & V2). rewrite Q2.
  destruct (Rlt_dec 1 1) as [L|_]; [lra|]. cbn [andb gib_modes app]. eexists. split; [reflexivity|].
  cbn [gs_loc gs_q existsb Nat.eqb orb map]. unfold rsum_list, assign. cbn [fold_right index_of Nat.eqb].
  rewrite V2, norm2_RtoC. ring.
Qed.

Theorem C115_gib_refuted : forall inv lam, inverts inv -> largest lam ->
  exists nch np A n_iter mode f f',
    gib_map inv lam nch np A (1 / 20) 1 (fun y => y) n_iter [(100%R, mode)] = inl f
    /\ gib_map inv lam nch np A (1 / 20) 1 (fun y => y) n_iter [((2 * 2 * 100)%R, mode)] = inl f'
    /\ f 0%nat = 100%R /\ (f' 0%nat < 2 * 2 * 91)%R.
Proof.
  intros inv lam Hinv Hlam. exists 1%nat, 1%nat, (fun _ _ => C1), 2%nat, (fun _ => C1).
  destruct (gib_two inv lam 10 Hinv Hlam ltac:(lra)) as (f & F1 & F2).
  destruct (gib_two inv lam 20 Hinv Hlam ltac:(lra)) as (f' & F1' & F2').
  replace (10 * 10)%R with 100%R in F1 by ring. replace (20 * 20)%R with (2 * 2 * 100)%R in F1' by ring.
  exists f, f'. split; [exact F1|]. split; [exact F1'|]. split.
  - rewrite F2, (trunc_small (10 * (1 / 20))) by lra. field.
  - rewrite F2'. replace (20 * (1 / 20))%R with 1%R by field.
    replace (trunc 1) with 1%Z; [lra|].
    destruct (trunc_nonneg 1 ltac:(lra)) as [-> _]. symmetry. apply Int_part_unique. lra.
Qed.
Print Assumptions C115_gib_refuted.
