(** Deconvolution: damasSolverGaussSeidel (/repo/acoular/fastFuncs.py:791-824),
    BeamformerDamas._calc, BeamformerClean._calc, BeamformerCleansc._calc and
    BeamformerOrth._calc (/repo/acoular/fbeamform.py:1143-1666), one frequency.
    Real arithmetic stands for floating point.  A map is a function of the grid
    index, of which the first [g] values count. *)
From Coq Require Import List Arith Lia ZArith Bool Reals Lra.
From Verif Require Import Stream Cplx Beamform.
Import ListNotations.
Local Open Scope R_scope.

Definition upd (x : nat -> R) (i : nat) (v : R) (j : nat) : R := if (j =? i)%nat then v else x j.

(* ------------------------------------------------------------------ *)
(** * DAMAS *)

Section Damas.
  Variables (g : nat) (A : nat -> nat -> R) (y : nat -> R) (relax : R).

  (** One grid point, fastFuncs.py:815-824. *)
  Definition gs_point (x : nat -> R) (i : nat) : nat -> R :=
    let solHelp := rsumn g (fun j => A i j * x j) - A i i * x i in
    let solHelp := (1 - relax) * x i + relax * (y i - solHelp) in
    upd x i (if Rlt_dec 0 solHelp then solHelp else 0).

  (** One iteration over all grid points, and [n] iterations, 813-814. *)
  Definition gs_sweep (x : nat -> R) : nat -> R := fold_left gs_point (seq 0 g) x.
  Definition gs_solve (n : nat) (x : nat -> R) : nat -> R := Nat.iter n gs_sweep x.

  (** BeamformerDamas._calc, fbeamform.py:1229-1238: the dirty map [y] is the
      starting solution. *)
  Definition damas (n : nat) : nat -> R := gs_solve n y.

  Lemma gs_point_other x i j : j <> i -> gs_point x i j = x j.
  Proof. intros H. unfold gs_point, upd. now destruct (Nat.eqb_spec j i). Qed.

  Lemma gs_point_nonneg x i : 0 <= gs_point x i i.
  Proof. unfold gs_point, upd. rewrite Nat.eqb_refl. destruct (Rlt_dec 0 _); lra. Qed.

  Lemma gs_fold_nonneg l : forall x i, In i l \/ 0 <= x i -> 0 <= fold_left gs_point l x i.
  Proof.
    induction l as [|a l IH]; intros x i H; cbn [fold_left]; [destruct H as [[]|]; assumption|].
    apply IH. destruct (Nat.eq_dec i a) as [->|Hne].
    - right. apply gs_point_nonneg.
    - destruct H as [[->|H]|H]; [congruence|now left|right]. now rewrite gs_point_other.
  Qed.

  Lemma gs_sweep_nonneg x i : (i < g)%nat -> 0 <= gs_sweep x i.
  Proof. intros H. apply gs_fold_nonneg. left. apply in_seq. lia. Qed.

  Theorem gs_nonneg n x i : (0 < n)%nat -> (i < g)%nat -> 0 <= gs_solve n x i.
  Proof. intros Hn Hi. destruct n as [|n]; [lia|]. now apply gs_sweep_nonneg. Qed.

  (** An exact non-negative solution is a fixed point. *)
  Section Exact.
    Variable s : nat -> R.
    Hypotheses (Hdiag : forall i, (i < g)%nat -> A i i = 1)
      (Hs : forall i, (i < g)%nat -> 0 <= s i)
      (Hsol : forall i, (i < g)%nat -> rsumn g (fun j => A i j * s j) = y i).

    Lemma gs_point_fixed x i : (i < g)%nat -> (forall j, (j < g)%nat -> x j = s j) ->
      forall j, (j < g)%nat -> gs_point x i j = s j.
    Proof.
      intros Hi Hx j Hj. destruct (Nat.eq_dec j i) as [->|Hne]; [|rewrite gs_point_other by assumption; auto].
      unfold gs_point, upd. rewrite Nat.eqb_refl.
      rewrite (rsumn_ext g _ (fun j => A i j * s j)) by (intros; now rewrite Hx).
      rewrite Hsol, Hdiag, (Hx i) by assumption. specialize (Hs i Hi).
      replace ((1 - relax) * s i + relax * (y i - (y i - 1 * s i))) with (s i) by ring.
      destruct (Rlt_dec 0 (s i)); lra.
    Qed.

    Lemma gs_fold_fixed l : forall x, (forall i, In i l -> (i < g)%nat) -> (forall j, (j < g)%nat -> x j = s j) ->
      forall j, (j < g)%nat -> fold_left gs_point l x j = s j.
    Proof.
      induction l as [|a l IH]; intros x Hl Hx; cbn [fold_left]; [exact Hx|].
      apply IH; [intros; apply Hl; now right|]. apply gs_point_fixed; [apply Hl; now left|assumption].
    Qed.

    Theorem gs_fixed n x : (forall j, (j < g)%nat -> x j = s j) -> forall j, (j < g)%nat -> gs_solve n x j = s j.
    Proof.
      intros Hx. induction n as [|n IH]; [exact Hx|]. intros j Hj. cbn [gs_solve Nat.iter].
      apply gs_fold_fixed; [intros i Hi; apply in_seq in Hi; lia|exact IH|assumption].
    Qed.

    (** Convergence: if the off-diagonal row sums are at most q. *)
    Variable q : R.
    Hypothesis Hq : forall i, (i < g)%nat -> rsumn g (fun j => if (j =? i)%nat then 0 else Rabs (A i j)) <= q.
    Hypothesis Hrelax : 0 <= relax <= 1.

    Definition within (e : R) (x : nat -> R) : Prop := forall j, (j < g)%nat -> Rabs (x j - s j) <= e.

    Lemma clip_closer a b : 0 <= b -> Rabs ((if Rlt_dec 0 a then a else 0) - b) <= Rabs (a - b).
    Proof. intros H. destruct (Rlt_dec 0 a); unfold Rabs; repeat destruct Rcase_abs; lra. Qed.

    Lemma rsumn_abs n f : Rabs (rsumn n f) <= rsumn n (fun j => Rabs (f j)).
    Proof.
      induction n as [|n IH]; cbn [rsumn]; [rewrite Rabs_R0; lra|].
      eapply Rle_trans; [apply Rabs_triang|]. lra.
    Qed.

    (** The new value of point i from values within [e]. *)
    Lemma gs_point_close x e i : (i < g)%nat -> 0 <= e -> within e x ->
      Rabs (gs_point x i i - s i) <= ((1 - relax) + relax * q) * e.
    Proof.
      intros Hi He Hx. unfold gs_point, upd. rewrite Nat.eqb_refl.
      eapply Rle_trans; [apply clip_closer; now apply Hs|].
      set (d := fun j => if (j =? i)%nat then 0 else A i j * (x j - s j)).
      assert (E : rsumn g (fun j => A i j * x j) - A i i * x i - (y i - s i) = rsumn g d).
      { rewrite <- (Hsol i Hi).
        assert (E1 : rsumn g d = rsumn g (fun j => A i j * (x j - s j)) - A i i * (x i - s i)).
        {
          replace (rsumn g (fun j => A i j * (x j - s j)))
            with (rsumn g d + rsumn g (fun j => if (j =? i)%nat then A i i * (x i - s i) else 0)).
          - rewrite (rsumn_single g i (fun j => if (j =? i)%nat then A i i * (x i - s i) else 0) Hi).
            + rewrite Nat.eqb_refl. ring.
            + intros k _ Hk. now destruct (Nat.eqb_spec k i).
          - rewrite <- rsumn_add. apply rsumn_ext. intros k Hk. unfold d.
            destruct (Nat.eqb_spec k i) as [->|]; ring. }
        rewrite E1, Hdiag by assumption.
        rewrite (rsumn_ext g (fun j => A i j * (x j - s j)) (fun j => A i j * x j + - 1 * (A i j * s j)))
          by (intros; ring).
        rewrite rsumn_add, rsumn_scal. ring. }
      replace ((1 - relax) * x i + relax * (y i - (rsumn g (fun j => A i j * x j) - A i i * x i)) - s i)
        with ((1 - relax) * (x i - s i) + relax * - rsumn g d) by (rewrite <- E; ring).
      eapply Rle_trans; [apply Rabs_triang|]. rewrite !Rabs_mult, Rabs_Ropp.
      rewrite (Rabs_right (1 - relax)), (Rabs_right relax) by lra.
      assert (Hd : Rabs (rsumn g d) <= q * e).
      { eapply Rle_trans; [apply rsumn_abs|].
        apply Rle_trans with (rsumn g (fun j => e * (if (j =? i)%nat then 0 else Rabs (A i j)))).
        - apply rsumn_le. intros j Hj. unfold d. destruct (j =? i)%nat; [rewrite Rabs_R0; lra|].
          rewrite Rabs_mult, Rmult_comm. apply Rmult_le_compat_r; [apply Rabs_pos|]. now apply Hx.
        - rewrite rsumn_scal, Rmult_comm. apply Rmult_le_compat_r; [assumption|]. now apply Hq. }
      specialize (Hx i Hi).
      assert ((1 - relax) * Rabs (x i - s i) <= (1 - relax) * e) by (apply Rmult_le_compat_l; lra).
      assert (relax * Rabs (rsumn g d) <= relax * (q * e)) by (apply Rmult_le_compat_l; lra).
      lra.
    Qed.

    Hypothesis Hq1 : 0 <= q <= 1.

    Let rho := (1 - relax) + relax * q.
    Lemma rho_range : 0 <= rho <= 1.
    Proof. unfold rho. split; nra. Qed.

    Lemma gs_fold_close e l : forall x done, 0 <= e -> NoDup l ->
      (forall i, In i l -> (i < g)%nat) -> within e x ->
      (forall j, In j done -> (j < g)%nat -> Rabs (x j - s j) <= rho * e) ->
      within e (fold_left gs_point l x)
      /\ forall j, In j (done ++ l) -> (j < g)%nat -> Rabs (fold_left gs_point l x j - s j) <= rho * e.
    Proof.
      induction l as [|a l IH]; intros x done He Hnd Hl Hx Hdone; cbn [fold_left].
      - split; [assumption|]. rewrite app_nil_r. assumption.
      - pose proof rho_range as Hr.
        assert (Hre : rho * e <= e) by nra.
        assert (Ha : (a < g)%nat) by (apply Hl; now left).
        assert (Hx' : within e (gs_point x a)).
        { intros j Hj. destruct (Nat.eq_dec j a) as [->|Hne].
          - eapply Rle_trans; [now apply (gs_point_close x e a)|exact Hre].
          - rewrite gs_point_other by assumption. now apply Hx. }
        destruct (IH (gs_point x a) (done ++ [a])) as [H1 H2]; auto.
        + now inversion Hnd.
        + intros i Hi. apply Hl. now right.
        + intros j Hj Hjg. destruct (Nat.eq_dec j a) as [->|Hne]; [now apply gs_point_close|].
          rewrite gs_point_other by assumption. apply Hdone; [|assumption].
          apply in_app_or in Hj as [Hj|[Hj|[]]]; [assumption|congruence].
        + split; [assumption|]. rewrite <- app_assoc in H2. exact H2.
    Qed.

    Lemma gs_sweep_close e x : 0 <= e -> within e x -> within (rho * e) (gs_sweep x).
    Proof.
      intros He Hx j Hj. apply (gs_fold_close e (seq 0 g) x []); auto.
      - apply seq_NoDup.
      - intros i Hi. apply in_seq in Hi. lia.
      - intros i [].
      - apply in_seq. lia.
    Qed.

    Theorem gs_converges n e x : 0 <= e -> within e x -> within (rho ^ n * e) (gs_solve n x).
    Proof.
      intros He Hx. induction n as [|n IH]; [cbn; now rewrite Rmult_1_l|].
      cbn [gs_solve Nat.iter pow]. rewrite Rmult_assoc. apply gs_sweep_close; [|exact IH].
      apply Rmult_le_pos; [|assumption]. apply pow_le. apply rho_range.
    Qed.
  End Exact.
End Damas.

(* ------------------------------------------------------------------ *)
(** * CLEAN *)

(** numpy argmax: the first position of the maximum; [g] > 0. *)
Fixpoint argmax (g : nat) (x : nat -> R) : nat :=
  match g with
  | O => O
  | S g' => match g' with
            | O => O
            | S _ => let m := argmax g' x in if Rlt_dec (x m) (x g') then g' else m
            end
  end.

Lemma argmax_spec g x : (0 < g)%nat ->
  (argmax g x < g)%nat /\ forall j, (j < g)%nat -> x j <= x (argmax g x).
Proof.
  induction g as [|g IH]; [lia|]. intros _. destruct g as [|g].
  - cbn. split; [lia|]. intros j Hj. replace j with 0%nat by lia. lra.
  - destruct IH as [H1 H2]; [lia|]. change (argmax (S (S g)) x) with
      (let m := argmax (S g) x in if Rlt_dec (x m) (x (S g)) then S g else m). cbv zeta.
    destruct (Rlt_dec _ _) as [Hlt|Hge].
    + split; [lia|]. intros j Hj. destruct (Nat.eq_dec j (S g)) as [->|]; [lra|].
      specialize (H2 j ltac:(lia)). lra.
    + split; [lia|]. intros j Hj. destruct (Nat.eq_dec j (S g)) as [->|]; [lra|]. apply H2. lia.
Qed.

(** The first one: nothing before it is as large. *)
Lemma argmax_first g x j : (j < argmax g x)%nat -> x j < x (argmax g x).
Proof.
  induction g as [|g IH]; [cbn; lia|]. destruct g as [|g]; [cbn; lia|].
  change (argmax (S (S g)) x) with
      (let m := argmax (S g) x in if Rlt_dec (x m) (x (S g)) then S g else m). cbv zeta.
  destruct (Rlt_dec _ _) as [Hlt|Hge]; [|apply IH].
  intros Hj. destruct (argmax_spec (S g) x ltac:(lia)) as [_ H2]. specialize (H2 j Hj). lra.
Qed.

Section Clean.
  (** [psf i] is the column for grid point i, which PointSpreadFunction
      delivers in every mode for a single index (C36). *)
  Variables (g : nat) (psf : nat -> nat -> R) (damp : R) (n_iter : Z).

  Definition asum (x : nat -> R) : R := rsumn g (fun j => Rabs (x j)).
  Definition maxval (x : nat -> R) : R := x (argmax g x).

  (** State of the loop: dirty, clean, i_iter. *)
  Definition clean_state := ((nat -> R) * (nat -> R) * Z)%type.

  (** One pass through the body, fbeamform.py:1652-1663: new state and [flag]. *)
  Definition clean_body (st : clean_state) : clean_state * bool :=
    let '(dirty, clean, i_iter) := st in
    let dirty_sum := asum dirty in
    let next_max := argmax g dirty in
    let new_amp := damp * dirty next_max in
    let clean' := upd clean next_max (clean next_max + new_amp) in
    let dirty' := fun p => dirty p - psf next_max p * new_amp in
    let i_iter' := (i_iter + 1)%Z in
    ((dirty', clean', i_iter'),
     (if Rlt_dec (asum dirty') dirty_sum then true else false)
       && (i_iter' <? n_iter)%Z && (if Rlt_dec 0 (maxval dirty') then true else false)).

  (** while flag: ...; None when [fuel] passes are not enough. *)
  Fixpoint clean_loop (fuel : nat) (st : clean_state) : option clean_state :=
    match fuel with
    | O => None
    | S fuel' => let '(st', flag) := clean_body st in if flag then clean_loop fuel' st' else Some st'
    end.

  (** BeamformerClean._calc for one frequency, fbeamform.py:1633-1665. *)
  Definition clean_calc (fuel : nat) (dirty : nat -> R) : option clean_state :=
    clean_loop fuel (dirty, fun _ => 0, 0%Z).

  Lemma clean_terminates fuel : forall st,
    (Z.to_nat (n_iter - snd st) <= fuel)%nat -> (0 < fuel)%nat ->
    exists st', clean_loop fuel st = Some st' /\
      (snd st < snd st' <= Z.max (snd st + 1) n_iter)%Z.
  Proof.
    induction fuel as [|fuel IH]; intros [[d c] i] Hf Hp; [lia|].
    cbn [snd] in *. cbn [clean_loop clean_body].
    set (f := _ && _ && _). destruct f eqn:Ef.
    - assert (Hi : (i + 1 < n_iter)%Z).
      { unfold f in Ef. apply andb_true_iff in Ef as [Ef _]. apply andb_true_iff in Ef as [_ Ef]. lia. }
      destruct (IH (fun p => d p - psf (argmax g d) p * (damp * d (argmax g d)),
        upd c (argmax g d) (c (argmax g d) + damp * d (argmax g d)), (i + 1)%Z)) as (st' & E & H1); cbn [snd].
      + cbn [snd]. lia.
      + lia.
      + exists st'. split; [exact E|]. cbn [snd] in H1. lia.
    - eexists. split; [reflexivity|]. cbn [snd]. lia.
  Qed.

  (** The residual: dirty map minus PSF times clean map. *)
  Definition residual_ok (dirty0 : nat -> R) (st : clean_state) : Prop :=
    let '(dirty, clean, _) := st in
    forall p, (p < g)%nat -> dirty p = dirty0 p - rsumn g (fun j => psf j p * clean j).

  Lemma rsumn_upd k n f v : (k < n)%nat -> forall c,
    rsumn n (fun j => f j * upd c k (c k + v) j) = rsumn n (fun j => f j * c j) + f k * v.
  Proof.
    intros Hk c.
    rewrite (rsumn_ext n _ (fun j => f j * c j + (if (j =? k)%nat then f k * v else 0))).
    - rewrite rsumn_add. f_equal. rewrite (rsumn_single n k) by
        (auto; intros j _ Hj; now destruct (Nat.eqb_spec j k)). now rewrite Nat.eqb_refl.
    - intros j _. unfold upd. destruct (Nat.eqb_spec j k) as [->|]; ring.
  Qed.

  Lemma clean_body_residual dirty0 st : (0 < g)%nat -> residual_ok dirty0 st -> residual_ok dirty0 (fst (clean_body st)).
  Proof.
    intros Hg. destruct st as [[d c] i]. cbn [residual_ok clean_body fst]. intros H p Hp.
    destruct (argmax_spec g d Hg) as [Hm _].
    rewrite (rsumn_upd (argmax g d) g (fun j => psf j p) (damp * d (argmax g d)) Hm c), H by assumption. ring.
  Qed.

  Definition nonneg_ok (st : clean_state) : Prop :=
    let '(dirty, clean, _) := st in 0 <= maxval dirty /\ forall p, (p < g)%nat -> 0 <= clean p.

  (** The map is only guaranteed non-negative maxima while it runs; the clean
      map stays non-negative. *)
  Lemma clean_loop_inv dirty0 fuel : forall st st', (0 < g)%nat -> 0 <= damp ->
    residual_ok dirty0 st -> clean_loop fuel st = Some st' ->
    residual_ok dirty0 st'
    /\ (nonneg_ok st -> forall p, (p < g)%nat -> 0 <= snd (fst st') p).
  Proof.
    induction fuel as [|fuel IH]; intros st st' Hg Hd Hres E; [discriminate|].
    cbn [clean_loop] in E. destruct (clean_body st) as [st1 flag] eqn:Eb.
    assert (Hres1 : residual_ok dirty0 st1) by (pose proof (clean_body_residual dirty0 st Hg Hres); now rewrite Eb in *).
    assert (Hc : nonneg_ok st -> forall p, (p < g)%nat -> 0 <= snd (fst st1) p).
    { destruct st as [[d c] i]. cbn [clean_body] in Eb. injection Eb as <- _. cbn [nonneg_ok fst snd].
      intros [Hm Hcl] p Hp. unfold upd. destruct (Nat.eqb_spec p (argmax g d)) as [->|]; [|now apply Hcl].
      unfold maxval in Hm. specialize (Hcl _ Hp).
      assert (0 <= damp * d (argmax g d)) by now apply Rmult_le_pos. lra. }
    destruct flag.
    - destruct (IH st1 st' Hg Hd Hres1 E) as [H1 H2]. split; [exact H1|]. intros Hn. apply H2.
      destruct st as [[d c] i]. cbn [clean_body] in Eb. injection Eb as E1 E2. 
      destruct st1 as [[d1 c1] i1]. injection E1 as E1a E1b E1c. cbn [nonneg_ok fst snd] in *. split.
      + apply andb_true_iff in E2 as [_ E2]. rewrite E1a in E2.
        destruct (Rlt_dec 0 (maxval d1)); [lra|discriminate].
      + exact (Hc Hn).
    - injection E as <-. split; [exact Hres1|exact Hc].
  Qed.

  Theorem clean_spec dirty0 : (0 < g)%nat -> 0 <= damp ->
    exists st', clean_calc (Z.to_nat (Z.max 1 n_iter)) dirty0 = Some st'
    /\ (1 <= snd st' <= Z.max 1 n_iter)%Z
    /\ (forall p, (p < g)%nat -> fst (fst st') p = dirty0 p - rsumn g (fun j => psf j p * snd (fst st') j))
    /\ ((exists p, (p < g)%nat /\ 0 <= dirty0 p) -> forall p, (p < g)%nat -> 0 <= snd (fst st') p).
  Proof.
    intros Hg Hd. destruct (clean_terminates (Z.to_nat (Z.max 1 n_iter)) (dirty0, fun _ => 0, 0%Z)) as (st' & E & Hi).
    - cbn [snd]. lia.
    - lia.
    - cbn [snd] in Hi. exists st'. split; [exact E|]. split; [lia|].
      destruct (clean_loop_inv dirty0 (Z.to_nat (Z.max 1 n_iter)) (dirty0, fun _ => 0, 0%Z) st' Hg Hd) with (2 := E) as [H1 H2].
      + intros p Hp. rewrite (rsumn_0 g) by (intros; ring). ring.
      + split.
        * destruct st' as [[d c] i]. exact H1.
        * intros (p & Hp & Hp0). apply H2. split; [|intros; lra].
          destruct (argmax_spec g dirty0 Hg) as [_ Hm]. specialize (Hm p Hp). unfold maxval. lra.
  Qed.

  (** The total of the absolute residual decreases strictly in every pass but the last. *)
  Lemma clean_body_decreases st st' : clean_body st = (st', true) -> asum (fst (fst st')) < asum (fst (fst st)).
  Proof.
    destruct st as [[d c] i]. cbn [clean_body]. intros E. injection E as <- E. cbn [fst].
    apply andb_true_iff in E as [E _]. apply andb_true_iff in E as [E _].
    match type of E with (if ?x then _ else _) = _ => destruct x; [assumption|discriminate] end.
  Qed.
End Clean.

(* ------------------------------------------------------------------ *)
(** * CLEAN-SC *)

Section CleanSC.
  (** [n] microphones, [g] grid points with distances [rg p m], [r0g p]. *)
  Variables (n g : nat) (k : R) (r0g : nat -> R) (rg : nat -> nat -> R) (st : steer) (rdiag : bool) (normfactor damp : R).
  Local Open Scope C_scope.

  (** beamformerFreq over the grid (fbeamform.py:1504). *)
  Definition bf_map (csm : nat -> nat -> C) (p : nat) : R :=
    fst (freq_full n csm (r0g p) k (rg p) normfactor rdiag st).

  (** wmax, fbeamform.py:1513-1514. *)
  Definition wmax (xi m : nat) : C :=
    Conj (steer_vector n st (transfer (r0g xi) k (rg xi)) m * RtoC (sqrt normfactor)).

  (** D1, fbeamform.py:1516. *)
  Definition d1 (csm : nat -> nat -> C) (wm : nat -> C) (hmax : R) (m : nat) : C :=
    csum n (fun j => (csm j m - (if (m =? j)%nat then csm m m else C0)) * wm j) / RtoC hmax.

  (** The inner iteration, fbeamform.py:1518-1520. *)
  Definition hh_step (D1 wm hh : nat -> C) : nat -> C :=
    let H := fun m => Conj (hh m) * hh m in
    let den := RtoC (sqrt (1 + re (csum n (fun m => (Conj (wm m) * wm m) * H m)))) in
    fun m => (D1 m + H m * wm m) / den.

  Definition hh_of (csm : nat -> nat -> C) (xi : nat) (hmax : R) : nat -> C :=
    let wm := wmax xi in Nat.iter 20 (hh_step (d1 csm wm hmax) wm) wm.

  Record sc_state := { sc_h : nat -> R; sc_csm : nat -> nat -> C; sc_result : nat -> R; sc_powers : list R }.

  (** One pass of the loop, fbeamform.py:1508-1538: new state, and whether it
      was left by break. *)
  Definition sc_body (stopn : Z) (j : nat) (s : sc_state) : sc_state * bool :=
    let xi := argmax g (sc_h s) in
    let hmax := sc_h s xi in
    let powers := sc_powers s ++ [hmax] in
    let result := upd (sc_result s) xi (sc_result s xi + damp * hmax)%R in
    if (stopn <? Z.of_nat j)%Z && (if Rlt_dec (nth (Z.to_nat (Z.of_nat j - stopn)) powers 0%R) hmax then true else false)
    then ({| sc_h := sc_h s; sc_csm := sc_csm s; sc_result := result; sc_powers := powers |}, true)
    else
      let hh := hh_of (sc_csm s) xi hmax in
      let h1 := fun p => fst (freq_eig n 1 (fun _ => hmax) (fun m _ => Conj (hh m)) (r0g p) k (rg p) normfactor rdiag st) in
      let csm1 := fun a b => RtoC hmax * (hh a * Conj (hh b)) in
      ({| sc_h := (fun p => sc_h s p - damp * h1 p)%R;
          sc_csm := (fun a b => sc_csm s a b - RtoC damp * csm1 b a);
          sc_result := result; sc_powers := powers |}, false).

  Fixpoint sc_loop (stopn : Z) (j todo : nat) (s : sc_state) : sc_state :=
    match todo with
    | O => s
    | S todo' => let '(s', stop) := sc_body stopn j s in
                 if stop then s' else sc_loop stopn (S j) todo' s'
    end.

  (** BeamformerCleansc._calc for one frequency, fbeamform.py:1501-1540, with J passes at most. *)
  Definition cleansc (stopn : Z) (J : nat) (csm : nat -> nat -> C) : sc_state :=
    sc_loop stopn 0 J {| sc_h := bf_map csm; sc_csm := csm; sc_result := fun _ => 0%R; sc_powers := [] |}.

  Local Opaque hh_of.

  Lemma re_sub a b : re (a - b) = (re a - re b)%R. Proof. reflexivity. Qed.

  Lemma scalar_prod_sub rd a b (d : R) h :
    scalar_prod n rd (fun i j => a i j - RtoC d * b i j) h
    = (scalar_prod n rd a h - d * scalar_prod n rd b h)%R.
  Proof.
    unfold scalar_prod.
    rewrite (rsumn_ext n _ (fun i => 2 * re (csum i (fun j => a j i * Conj (h j)) * h i)%C
      + - d * (2 * re (csum i (fun j => b j i * Conj (h j)) * h i)%C))%R).
    2:{ intros i _.
        rewrite (csum_ext i _ (fun j => a j i * Conj (h j) - RtoC d * (b j i * Conj (h j)))) by (intros; ring).
        rewrite (csum_sub i (fun j => a j i * Conj (h j)) (fun j => RtoC d * (b j i * Conj (h j)))), csum_scal.
        set (x := csum i (fun j => a j i * Conj (h j))). set (y := csum i (fun j => b j i * Conj (h j))).
        replace ((x - RtoC d * y) * h i) with (x * h i - RtoC d * (y * h i)) by ring.
        rewrite re_sub, re_RtoC_mul. ring. }
    rewrite rsumn_add, !rsumn_scal. destruct rd; [ring|].
    rewrite (rsumn_ext n (fun i => re ((a i i - RtoC d * b i i) * Conj (h i) * h i))
      (fun i => re (a i i * Conj (h i) * h i)%C + - d * re (b i i * Conj (h i) * h i)%C)%R).
    2:{ intros i _. replace ((a i i - RtoC d * b i i) * Conj (h i) * h i)
          with (a i i * Conj (h i) * h i - RtoC d * (b i i * Conj (h i) * h i)) by ring.
        rewrite re_sub, re_RtoC_mul. ring. }
    rewrite rsumn_add, rsumn_scal. ring.
  Qed.

  Lemma normalize_sub r0 r sp1 sp2 d :
    fst (normalize n st r0 r normfactor (sp1 - d * sp2)%R)
    = (fst (normalize n st r0 r normfactor sp1) - d * fst (normalize n st r0 r normfactor sp2))%R.
  Proof. unfold normalize. destruct st; cbn [fst]; unfold Rdiv; ring. Qed.

  Lemma bf_map_sub a b d p :
    bf_map (fun i j => a i j - RtoC d * b i j) p = (bf_map a p - d * bf_map b p)%R.
  Proof. unfold bf_map, freq_full. now rewrite scalar_prod_sub, normalize_sub. Qed.

  Lemma bf_map_ext a b p : (forall i j, (i < n)%nat -> (j < n)%nat -> a i j = b i j) -> bf_map a p = bf_map b p.
  Proof.
    intros H. unfold bf_map, freq_full. f_equal. f_equal. unfold scalar_prod. f_equal.
    - apply rsumn_ext. intros i Hi. do 2 f_equal. f_equal. apply csum_ext. intros j Hj. now rewrite H by lia.
    - destruct rdiag; [reflexivity|]. apply rsumn_ext. intros i Hi. now rewrite H.
  Qed.

  Definition consistent (s : sc_state) : Prop :=
    (forall p, sc_h s p = bf_map (sc_csm s) p) /\ hermitian n (sc_csm s).

  Lemma sc_body_consistent stopn j s : consistent s -> consistent (fst (sc_body stopn j s)).
  Proof.
    intros [H Hh]. unfold sc_body. cbv zeta. set (xi := argmax g (sc_h s)). set (hmax := sc_h s xi).
    destruct (_ && _); [split; assumption|]. set (hh := hh_of (sc_csm s) xi hmax).
    split; cbn [fst sc_h sc_csm].
    - intros p. rewrite (bf_map_sub (sc_csm s) (fun a b => RtoC hmax * (hh b * Conj (hh a)))), H.
      f_equal. f_equal. rewrite eig_kernels. apply (bf_map_ext _ _ p). intros i j' _ _.
      unfold eig_sum. cbn [csum]. rewrite Conj_invol. ring.
    - intros i j' Hi Hj. rewrite Conj_sub, !Conj_mul, !Conj_RtoC, Conj_invol. rewrite (Hh i j' Hi Hj). ring.
  Qed.

  Lemma sc_loop_consistent stopn todo : forall j s, consistent s -> consistent (sc_loop stopn j todo s).
  Proof.
    induction todo as [|todo IH]; intros j s H; [exact H|]. cbn [sc_loop].
    pose proof (sc_body_consistent stopn j s H) as H1. destruct (sc_body stopn j s) as [s' stop]. cbn [fst] in H1.
    destruct stop; [exact H1|now apply IH].
  Qed.

  (** In every pass: running any number of passes keeps map and matrix consistent. *)
  Theorem cleansc_consistent stopn J csm : hermitian n csm ->
    let s := cleansc stopn J csm in
    (forall p, sc_h s p = bf_map (sc_csm s) p) /\ hermitian n (sc_csm s).
  Proof. intros Hh s. apply sc_loop_consistent. split; [reflexivity|exact Hh]. Qed.

  (** The clean map: damping factor times the maxima found, one per pass. *)
  Lemma sc_loop_powers stopn todo : forall j s, (0 < g)%nat ->
    let s' := sc_loop stopn j todo s in
    exists more, sc_powers s' = sc_powers s ++ more /\ (length more <= todo)%nat
    /\ (rsumn g (sc_result s') = rsumn g (sc_result s) + damp * fold_right Rplus 0 more)%R.
  Proof.
    induction todo as [|todo IH]; intros j s Hg s'.
    - exists []. cbn. rewrite app_nil_r. split; [reflexivity|]. split; [lia|]. unfold s'. cbn. ring.
    - unfold s'. cbn [sc_loop]. destruct (sc_body stopn j s) as [s1 stop] eqn:E.
      assert (Hb : sc_powers s1 = sc_powers s ++ [sc_h s (argmax g (sc_h s))]
        /\ (rsumn g (sc_result s1) = rsumn g (sc_result s) + damp * sc_h s (argmax g (sc_h s)))%R).
      { destruct (argmax_spec g (sc_h s) Hg) as [Hm _].
        assert (Hr : (rsumn g (upd (sc_result s) (argmax g (sc_h s))
             (sc_result s (argmax g (sc_h s)) + damp * sc_h s (argmax g (sc_h s))))
           = rsumn g (sc_result s) + damp * sc_h s (argmax g (sc_h s)))%R).
        { pose proof (rsumn_upd (argmax g (sc_h s)) g (fun _ => 1%R) (damp * sc_h s (argmax g (sc_h s))) Hm (sc_result s)) as Q.
          rewrite (rsumn_ext g _ (upd (sc_result s) (argmax g (sc_h s))
             (sc_result s (argmax g (sc_h s)) + damp * sc_h s (argmax g (sc_h s))))) in Q by (intros; ring).
          rewrite Q, (rsumn_ext g _ (sc_result s)) by (intros; ring). ring. }
        unfold sc_body in E. cbv zeta in E. destruct (_ && _); injection E as <- _; cbn [sc_powers sc_result]; auto. }
      destruct Hb as [Hp Hr]. destruct stop.
      + exists [sc_h s (argmax g (sc_h s))]. split; [exact Hp|]. split; [cbn; lia|]. rewrite Hr. cbn. ring.
      + destruct (IH (S j) s1 Hg) as (more & H1 & H2 & H3).
        exists (sc_h s (argmax g (sc_h s)) :: more). split; [rewrite H1, Hp, <- app_assoc; reflexivity|].
        split; [cbn; lia|]. rewrite H3, Hr. cbn. ring.
  Qed.

  Theorem cleansc_result stopn J csm : (0 < g)%nat ->
    let s := cleansc stopn J csm in
    (length (sc_powers s) <= J)%nat
    /\ rsumn g (sc_result s) = (damp * fold_right Rplus 0 (sc_powers s))%R.
  Proof.
    intros Hg s. destruct (sc_loop_powers stopn J 0 {| sc_h := bf_map csm; sc_csm := csm; sc_result := fun _ => 0%R; sc_powers := [] |} Hg)
      as (more & H1 & H2 & H3).
    cbn [sc_powers sc_result app] in H1, H3. fold (cleansc stopn J csm) in H1, H3. fold s in H1, H3.
    rewrite rsumn_zero, Rplus_0_l in H3. rewrite H1. split; assumption.
  Qed.
End CleanSC.

(* ------------------------------------------------------------------ *)
(** * Orthogonal beamforming *)

(** Python indexing of an axis of length n. *)
Definition py_index (n : nat) (z : Z) : option nat :=
  if ((0 <=? z) && (z <? Z.of_nat n))%Z then Some (Z.to_nat z)
  else if ((- Z.of_nat n <=? z) && (z <? 0))%Z then Some (Z.to_nat (Z.of_nat n + z))
  else None.

Section Orth.
  (** [bmap c] is the map of component c alone, with eigenvalue one (fbeamform.py:1443-1450). *)
  Variables (g nc : nat) (eva : nat -> R) (bmap : nat -> nat -> R).

  (** BeamformerOrth._calc, one frequency, fbeamform.py:1440-1454: None is IndexError. *)
  Fixpoint orth_calc (eva_list : list Z) (ac : nat -> R) : option (nat -> R) :=
    match eva_list with
    | [] => Some ac
    | z :: rest =>
        match py_index nc z with
        | None => None
        | Some c => let p := argmax g (bmap c) in orth_calc rest (upd ac p (ac p + eva c / INR nc))
        end
    end.

  Definition selected (eva_list : list Z) : list R :=
    map (fun z => match py_index nc z with Some c => eva c | None => 0 end) eva_list.

  Theorem orth_sum eva_list : (0 < g)%nat -> (0 < nc)%nat ->
    (forall z, In z eva_list -> (- Z.of_nat nc <= z < Z.of_nat nc)%Z) ->
    forall ac, exists ac', orth_calc eva_list ac = Some ac'
    /\ rsumn g ac' = rsumn g ac + fold_right Rplus 0 (selected eva_list) / INR nc.
  Proof.
    intros Hg Hnc. assert (HN : 0 < INR nc) by now apply lt_0_INR.
    induction eva_list as [|z l IH]; intros Hl ac.
    - exists ac. split; [reflexivity|]. cbn. unfold Rdiv. ring.
    - cbn [orth_calc]. specialize (Hl z (or_introl eq_refl)) as Hz.
      assert (exists c, py_index nc z = Some c) as (c & Ec).
      { unfold py_index. destruct (_ && _)%Z eqn:E1; [eauto|].
        destruct ((- _ <=? z) && _)%Z eqn:E2; [eauto|]. lia. }
      rewrite Ec. destruct (argmax_spec g (bmap c) Hg) as [Hm _].
      destruct (IH (fun z H => Hl z (or_intror H))
        (upd ac (argmax g (bmap c)) (ac (argmax g (bmap c)) + eva c / INR nc))) as (ac' & E & H).
      exists ac'. split; [exact E|]. rewrite H.
      pose proof (rsumn_upd (argmax g (bmap c)) g (fun _ => 1) (eva c / INR nc) Hm ac) as Q.
      rewrite (rsumn_ext g _ (upd ac (argmax g (bmap c)) (ac (argmax g (bmap c)) + eva c / INR nc))) in Q by (intros; ring).
      rewrite Q, (rsumn_ext g _ ac) by (intros; ring).
      unfold selected. cbn [map fold_right]. rewrite Ec. unfold Rdiv. ring.
  Qed.
End Orth.

(** BeamformerEig._get_na, fbeamform.py:853-859. *)
Definition get_na (n : Z) (nm : Z) : Z :=
  let na := if (n <? 0)%Z then Z.max (nm + n) 0 else n in Z.min (nm - 1) na.

Theorem get_na_spec n nm : (1 <= nm)%Z ->
  (0 <= get_na n nm <= nm - 1)%Z
  /\ ((- nm <= n < nm)%Z -> py_index (Z.to_nat nm) n = Some (Z.to_nat (get_na n nm)))
  /\ ((nm <= n)%Z -> get_na n nm = (nm - 1)%Z) /\ ((n < - nm)%Z -> get_na n nm = 0%Z).
Proof.
  intros H. unfold get_na, py_index. destruct (Z.ltb_spec n 0).
  - split; [lia|]. split; [|lia]. intros Hn.
    destruct (Z.leb_spec 0 n); [lia|]. cbn [andb].
    destruct (Z.leb_spec (- Z.of_nat (Z.to_nat nm)) n); [|lia]. cbn [andb]. f_equal. lia.
  - split; [lia|]. split; [|lia]. intros Hn.
    destruct (Z.ltb_spec n (Z.of_nat (Z.to_nat nm))); [|lia].
    destruct (Z.leb_spec 0 n); [|lia]. cbn [andb]. f_equal. lia.
Qed.
