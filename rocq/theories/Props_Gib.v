(** Property C87: generalised inverse beamforming (BeamformerGIB, 'Suzuki'). *)
From Coq Require Import List Arith Lia ZArith Bool Reals Lra ClassicalEpsilon.
From Verif Require Import Stream Wav Cplx Gib.
Import ListNotations.
Local Open Scope C_scope.

(** Either formula gives the amplitudes with the smallest regularised cost, for
    the regularisation that was stored. *)
Theorem C87_ridge :
  forall inv lam nch eps_perc left B L w e q,
    inverts inv -> (forall n M, (0 <= lam n M)%R) -> (0 <= eps_perc)%R -> (forall l, (l < L)%nat -> (0 <= w l)%R) ->
    suzuki inv lam nch eps_perc left B L w e = Some q ->
    supported L w q
    /\ exists v n, (0 <= v <= lam n (if (nch <=? left)%nat then awa B L w else aha nch B) * eps_perc)%R
       /\ (exists z, v = IZR z)
       /\ forall q', supported L w q' -> (cost nch B L w v e q <= cost nch B L w v e q')%R.
Proof.
  intros inv lam nch eps_perc left B L w e q Hinv Hlam Heps Hw E.
  assert (T : forall n M, (epsilon lam eps_perc M n <= lam n M * eps_perc)%R).
  { intros n M. unfold epsilon, trunc. pose proof (Rmult_le_pos _ _ (Hlam n M) Heps) as H.
    destruct (Rle_dec 0 (lam n M * eps_perc)); [|contradiction]. apply base_Int_part. }
  unfold suzuki in E. destruct (nch <=? left)%nat.
  - pose proof (suzuki_wide_normal inv lam nch eps_perc B L w e q Hinv E) as N. split; [apply N|].
    exists (epsilon lam eps_perc (awa B L w) nch), nch.
    split; [split; [now apply epsilon_nonneg|apply T]|]. split; [eexists; reflexivity|].
    intros q' Hs. apply (normal_min nch B L w _ e q); auto. now apply epsilon_nonneg.
  - pose proof (suzuki_tall_normal inv lam nch eps_perc B L w e q Hinv E) as N. split; [apply N|].
    exists (epsilon lam eps_perc (aha nch B) L), L.
    split; [split; [now apply epsilon_nonneg|apply T]|]. split; [eexists; reflexivity|].
    intros q' Hs. apply (normal_min nch B L w _ e q); auto. now apply epsilon_nonneg.
Qed.

(** With all points kept (beta >= 1) the map is the sum, over the selected modes
    with a positive eigenvalue, of the squared amplitudes of a best fit for the
    mode; the fit never leaves more than the power of the mode.  Missing: beta < 1
    (see C87_modes_refuted). *)
Theorem C87_map_partial :
  forall inv lam nch np A eps_perc beta pw n_iter ms f,
    inverts inv -> (forall n M, (0 <= lam n M)%R) -> (0 <= eps_perc)%R -> (forall x, (0 <= pw x)%R) -> (1 <= beta)%R ->
    (0 < n_iter)%nat ->
    gib_map inv lam nch np A eps_perc beta pw n_iter ms = inl f ->
    exists qs,
      Forall2 (fun '(ev, mode) q =>
          let e := fun c => RtoC (sqrt ev) * mode c in
          exists w eps, (forall l, (0 <= w l)%R) /\ (0 <= eps)%R
          /\ supported np w q
          /\ (forall q', supported np w q' -> (cost nch A np w eps e q <= cost nch A np w eps e q')%R)
          /\ (misfit nch A np e q <= rsumn nch (fun c => norm2 (e c)))%R)
        (filter (fun '(ev, _) => rpos ev) ms) qs
      /\ forall p, (p < np)%nat -> f p = rsum_list (map (fun q => norm2 (q p)) qs).
Proof.
  intros inv lam nch np A eps_perc beta pw n_iter ms f H1 H2 H3 H4 H5 Hn E.
  destruct (gib_full inv lam nch np A eps_perc beta pw H1 H2 H3 H4 H5 n_iter ms f Hn E) as (qs & F & G).
  exists qs. split; [|exact G]. clear G E. induction F as [|[ev mode] q l l' F1 F IH]; constructor; [|exact IH].
  now apply fits_best.
Qed.

(** Reducing the points: beta < 1 and at least two iterations done. *)
Theorem C87_reduced : forall inv lam nch np A eps_perc beta pw e it s s',
  (beta < 1)%R -> (1 < it)%nat ->
  gib_step inv lam nch np A eps_perc beta pw e it s = Some s' ->
  (exists z, Rabs (INR np * beta ^ (it + 1) - IZR z) <= 1 / 2 /\
     (Rabs (INR np * beta ^ (it + 1) - IZR z) = 1 / 2 -> Z.even z = true) /\ gs_left s' = Z.to_nat z)%R
  /\ length (gs_loc s') = Nat.min (gs_left s') (length (gs_loc s))
  /\ exists kept, gs_loc s' = map fst (filter snd (combine (gs_loc s) kept))
     /\ length kept = length (gs_loc s)
     /\ forall p p', In (p, true) (combine (gs_loc s) kept) -> In (p', false) (combine (gs_loc s) kept) ->
        (Cabs (gs_q s' p') <= Cabs (gs_q s' p))%R.
Proof.
  intros inv lam nch np A eps_perc beta pw e it s s' Hb Hi E. unfold gib_step in E.
  destruct (suzuki _ _ _ _ _ _ _ _ _) as [ql|]; [|discriminate].
  destruct (Rlt_dec beta 1); [|contradiction]. destruct (Nat.ltb_spec 1 it); [|lia]. cbn [andb] in E.
  set (q := assign (gs_q s) (gs_loc s) ql) in *. injection E as <-. cbn [gs_left gs_loc gs_q].
  set (left := Z.to_nat (round_even (INR np * beta ^ (it + 1)))).
  split; [|split].
  - exists (round_even (INR np * beta ^ (it + 1))). destruct (round_even_spec (INR np * beta ^ (it + 1))) as (R1 & R2). auto.
  - apply keep_length.
  - set (loc := gs_loc s). exists (map (fun l => (larger q loc l <? left)%nat) (seq 0 (length loc))).
    assert (C : combine loc (map (fun l => (larger q loc l <? left)%nat) (seq 0 (length loc)))
      = map (fun l => (nth l loc 0%nat, (larger q loc l <? left)%nat)) (seq 0 (length loc))).
    { exact (combine_seq (fun l => (larger q loc l <? left)%nat) loc). }
    split; [|split].
    + rewrite C. unfold keep. fold loc. generalize (seq 0 (length loc)). induction l as [|l l2 IH]; [reflexivity|].
      cbn [map filter snd]. destruct (larger q loc l <? left)%nat; cbn [map fst]; rewrite IH; reflexivity.
    + rewrite map_length, seq_length. reflexivity.
    + rewrite C. intros p p' H1 H2. apply in_map_iff in H1 as (l & H1 & L1). apply in_map_iff in H2 as (l' & H2 & L2).
      apply in_seq in L1, L2. injection H1 as <- K1. injection H2 as <- K2. apply Nat.ltb_lt in K1. apply Nat.ltb_ge in K2.
      apply (keep_strong q loc left); lia.
Qed.
Print Assumptions C87_reduced.

(** A regularisation below 1 is none: the amplitudes reproduce the mode. *)
Theorem C87_no_regularisation :
  forall inv lam nch eps_perc left B L w e q,
    inverts inv -> (nch <= left)%nat -> (0 <= lam nch (awa B L w) * eps_perc < 1)%R ->
    suzuki inv lam nch eps_perc left B L w e = Some q ->
    forall c, (c < nch)%nat -> csum L (fun l => B c l * q l) = e c.
Proof.
  intros inv lam nch eps_perc left B L w e q Hinv Hle He E. unfold suzuki in E.
  apply Nat.leb_le in Hle. rewrite Hle in E. now apply wide_exact with (inv := inv) (lam := lam) (eps_perc := eps_perc) (w := w).
Qed.

(** [lam] at a multiple of the identity. *)
Definition largest (lam : nat -> mat -> R) : Prop :=
  forall n M v, (0 < n)%nat -> (0 <= v)%R ->
    (forall i j, (i < n)%nat -> (j < n)%nat -> M i j = if (i =? j)%nat then RtoC v else C0) -> lam n M = v.

(** One channel, one point: with eps_perc = 1/20 and the largest eigenvalue 1 the
    cost with the regularisation 1/20 is not minimal. *)
Theorem C87_regularisation_refuted :
  exists nch left B L (w : nat -> R) e,
    forall inv lam, inverts inv -> largest lam ->
    exists q, suzuki inv lam nch (1 / 20) left B L w e = Some q
      /\ exists q', supported L w q'
         /\ (cost nch B L w (lam nch (awa B L w) * (1 / 20)) e q' < cost nch B L w (lam nch (awa B L w) * (1 / 20)) e q)%R.
Proof.
  exists 1%nat, 1%nat, (fun _ _ => C1), 1%nat, (fun _ => 1%R), (fun _ => C1). intros inv lam Hinv Hlam.
  assert (HL : lam 1%nat (awa (fun _ _ => C1) 1 (fun _ => 1%R)) = 1%R).
  { apply Hlam; [lia|lra|]. intros i j Hi Hj. replace i with 0%nat by lia. replace j with 0%nat by lia. cbn [Nat.eqb].
    unfold awa, csum, C1, RtoC, Conj, Cmul, Cadd, C0. cbn. apply injective_projections; cbn; ring. }
  destruct (suzuki inv lam 1 (1 / 20) 1 (fun _ _ => C1) 1 (fun _ => 1%R) (fun _ => C1)) as [q|] eqn:E.
  - exists q. split; [reflexivity|].
    assert (Q : q 0%nat = C1).
    { pose proof (C87_no_regularisation inv lam 1 (1 / 20) 1 (fun _ _ => C1) 1 (fun _ => 1%R) (fun _ => C1) q Hinv (le_n 1)
        ltac:(rewrite HL; lra) E 0%nat ltac:(lia)) as X.
      cbn [csum] in X. rewrite <- X. ring. }
    exists (fun _ => RtoC (20 / 21)). split; [intros l _ H; lra|].
    rewrite HL. unfold cost, misfit, rsumn, csum. cbn. rewrite Q. unfold norm2, Csub, Cadd, Cmul, C0, C1, RtoC. cbn. lra.
  - exfalso. unfold suzuki in E. cbn [Nat.leb] in E. unfold suzuki_wide in E.
    destruct (inv 1%nat _) as [X|] eqn:EX; [discriminate|]. revert EX. destruct Hinv as [_ Hinv].
    assert (HE : epsilon lam (1 / 20) (awa (fun _ _ => C1) 1 (fun _ => 1%R)) 1 = 0%R).
    { unfold epsilon. rewrite HL. rewrite (trunc_small (1 * (1 / 20))); [reflexivity|lra]. }
    apply (Hinv 1%nat _ idm); intros i j Hi Hj; replace i with 0%nat by lia; replace j with 0%nat by lia;
      rewrite HE; unfold mmul, idm, add_diag, awa, csum; cbn; apply injective_projections; cbn; ring.
Qed.

(* ------------------------------------------------------------------ *)
(** * Two modes, reduced sets of points *)

(** Two channels, eight points; the points 0-3 reach the first channel only, the
    points 4-7 the second only. *)
Definition wA : mat := fun c p => if (p / 4 =? c)%nat then C1 else C0.
(** Two modes: power 4 in the first channel, power 1 in the second. *)
Definition wmodes : list (R * (nat -> C)) :=
  [(4%R, fun c => if (c =? 0)%nat then C1 else C0); (1%R, fun c => if (c =? 1)%nat then C1 else C0)].

Lemma two : forall P : nat -> Prop, P 0%nat -> P 1%nat -> forall c, (c < 2)%nat -> P c.
Proof. intros P H0 H1 [|[|c]] H; [exact H0|exact H1|lia]. Qed.
Lemma eight : forall P : nat -> Prop, P 0%nat -> P 1%nat -> P 2%nat -> P 3%nat -> P 4%nat -> P 5%nat -> P 6%nat -> P 7%nat ->
  forall c, (c < 8)%nat -> P c.
Proof. intros P ? ? ? ? ? ? ? ? c H. do 8 (destruct c as [|c]; [assumption|]). lia. Qed.

Lemma wA_awa c c' : (c < 2)%nat -> (c' < 2)%nat ->
  awa (cols wA (seq 0 8)) 8 (fun _ => 1%R) c c' = if (c =? c')%nat then RtoC 4 else C0.
Proof.
  intros H H'. pattern c; apply two; [| |exact H]; pattern c'; apply two; try exact H';
  unfold awa, cols, wA, csum; cbn; apply injective_projections; cbn; ring.
Qed.

Section witness.
  Variables (inv : nat -> mat -> option mat) (lam : nat -> mat -> R).
  Hypothesis Hinv : inverts inv.
  Hypothesis Hlam : largest lam.

  Lemma w_suzuki e : exists ql,
    suzuki inv lam 2 (1 / 20) 8 (cols wA (seq 0 8)) 8 (fun _ => 1%R) e = Some ql
    /\ forall l, (l < 8)%nat -> ql l = (RtoC (1 / 4) * e (l / 4)%nat)%C.
  Proof.
    assert (HL : lam 2%nat (awa (cols wA (seq 0 8)) 8 (fun _ => 1%R)) = 4%R).
    { apply Hlam; [lia|lra|]. intros i j Hi Hj. now apply wA_awa. }
    assert (HE : epsilon lam (1 / 20) (awa (cols wA (seq 0 8)) 8 (fun _ => 1%R)) 2 = 0%R).
    { unfold epsilon. rewrite HL, trunc_small by lra. reflexivity. }
    unfold suzuki, suzuki_wide. cbn [Nat.leb]. rewrite HE.
    set (M := add_diag (awa (cols wA (seq 0 8)) 8 (fun _ => 1%R)) (fun _ => RtoC 0)).
    assert (HM : forall c c', (c < 2)%nat -> (c' < 2)%nat -> M c c' = if (c =? c')%nat then RtoC 4 else C0).
    { intros c c' H H'. unfold M, add_diag. rewrite wA_awa by assumption. destruct (c =? c')%nat; [|reflexivity].
      apply injective_projections; cbn; ring. }
    destruct (inv 2%nat M) as [X|] eqn:EX.
    - eexists. split; [reflexivity|]. apply Hinv in EX as [EX _].
      assert (HX : forall c c', (c < 2)%nat -> (c' < 2)%nat -> X c c' = if (c =? c')%nat then RtoC (1 / 4) else C0).
      { intros c c' H H'. pose proof (EX c c' H H') as Y. unfold mmul in Y.
        assert (Y2 : csum 2 (fun l => M c l * X l c') = RtoC 4 * X c c').
        { cbn [csum]. pattern c; apply two; [| |exact H]; rewrite !HM by lia; cbn [Nat.eqb]; ring. }
        rewrite Y2 in Y. unfold idm in Y.
        replace (X c c') with (RtoC (1 / 4) * (RtoC 4 * X c c')).
        - rewrite Y. destruct (c =? c')%nat; ring.
        - apply injective_projections; cbn; field. }
      intros l Hl. cbn [csum]. rewrite !HX by lia. cbn [Nat.eqb]. unfold cols.
      rewrite !seq_nth by assumption. unfold wA.
      pattern l; apply eight; try exact Hl; cbn; apply injective_projections; cbn; ring.
    - exfalso. destruct Hinv as [_ Hi]. revert EX.
      apply (Hi 2%nat M (fun i j => if (i =? j)%nat then RtoC (1 / 4) else C0));
        intros i j H H'; unfold mmul, idm; cbn [csum]; rewrite !HM by lia;
        pattern i; (apply two; [| |exact H]); pattern j; (apply two; [| |exact H']); cbn;
        apply injective_projections; cbn; field.
  Qed.

  Definition w_amp (e : nat -> C) (q : nat -> C) : Prop := forall p, (p < 8)%nat -> q p = (RtoC (1 / 4) * e (p / 4)%nat)%C.

  Lemma w_step beta e it q0 : exists q, w_amp e q
    /\ gib_step inv lam 2 8 wA (1 / 20) beta (fun _ => 1%R) e it (mkGib (seq 0 8) 8 (fun _ => 1%R) q0)
       = Some (if (if Rlt_dec beta 1 then true else false) && (1 <? it)%nat
               then let left := Z.to_nat (round_even (INR 8 * beta ^ (it + 1))) in
                    mkGib (keep q (seq 0 8) left) left (fun _ => 1%R) q
               else mkGib (seq 0 8) 8 (fun _ => 1%R) q).
  Proof.
    destruct (w_suzuki e) as (ql & E & Hq). exists (assign q0 (seq 0 8) ql). split.
    - intros p Hp. unfold assign. rewrite index_of_seq by lia. rewrite Nat.sub_0_r. now apply Hq.
    - unfold gib_step. cbn [gs_loc gs_left gs_w gs_q]. change (length (seq 0 8)) with 8%nat. rewrite E. cbv zeta.
      now destruct ((if Rlt_dec beta 1 then true else false) && (1 <? it)%nat).
  Qed.

  Lemma w_iter_full e : exists q, w_amp e q
    /\ gib_iter inv lam 2 8 wA (1 / 20) 1 (fun _ => 1%R) e 0 3 (gib_start 8) = Some (mkGib (seq 0 8) 8 (fun _ => 1%R) q).
  Proof.
    unfold gib_start. cbn [gib_iter].
    destruct (w_step 1 e 0 (fun _ => C0)) as (q1 & _ & ->). destruct (Rlt_dec 1 1); [lra|]. cbn [andb].
    destruct (w_step 1 e 1 q1) as (q2 & _ & ->). destruct (Rlt_dec 1 1); [lra|]. cbn [andb].
    destruct (w_step 1 e 2 q2) as (q3 & H & ->). destruct (Rlt_dec 1 1); [lra|]. cbn [andb]. now exists q3.
  Qed.

  Lemma w_iter_half e : exists q, w_amp e q
    /\ gib_iter inv lam 2 8 wA (1 / 20) (1 / 2) (fun _ => 1%R) e 0 3 (gib_start 8)
       = Some (mkGib (keep q (seq 0 8) 1) 1 (fun _ => 1%R) q).
  Proof.
    unfold gib_start. cbn [gib_iter].
    destruct (w_step (1 / 2) e 0 (fun _ => C0)) as (q1 & _ & ->). destruct (Rlt_dec (1 / 2) 1); [|lra]. cbn [andb Nat.ltb Nat.leb].
    destruct (w_step (1 / 2) e 1 q1) as (q2 & _ & ->). destruct (Rlt_dec (1 / 2) 1); [|lra]. cbn [andb Nat.ltb Nat.leb].
    destruct (w_step (1 / 2) e 2 q2) as (q3 & H & ->). destruct (Rlt_dec (1 / 2) 1); [|lra]. cbn [andb Nat.ltb Nat.leb].
    exists q3. split; [assumption|]. cbv zeta.
    replace (INR 8 * (1 / 2) ^ (2 + 1))%R with 1%R by (cbn; lra).
    replace (round_even 1) with 1%Z; [reflexivity|]. unfold round_even.
    replace (Int_part 1) with 1%Z by (unfold Int_part; symmetry; rewrite <- (tech_up 1 2); [reflexivity|lra|lra]).
    destruct (Rlt_dec (1 - 1) (1 / 2)); [reflexivity|lra].
  Qed.

  (** The points with the smaller amplitudes go. *)
  Lemma w_keep q p : w_amp (fun c => RtoC (sqrt 1) * (if (c =? 1)%nat then C1 else C0)) q -> In p (keep q (seq 0 8) 1) -> (4 <= p)%nat.
  Proof.
    intros Hq H. unfold keep in H. apply in_map_iff in H as (l & <- & H). apply filter_In in H as [Hl H].
    apply in_seq in Hl. change (length (seq 0 8)) with 8%nat in Hl. rewrite seq_nth by lia. cbn [plus].
    destruct (le_lt_dec 4 l) as [|Hlt]; [assumption|]. exfalso. apply Nat.ltb_lt in H.
    assert (L : (0 < larger q (seq 0 8) l)%nat); [|lia].
    unfold larger. change (length (seq 0 8)) with 8%nat. rewrite seq_nth by lia. cbn [plus].
    match goal with |- (0 < length (filter ?f ?s))%nat => assert (I7 : In 7%nat (filter f s)) end.
    { apply filter_In. split; [apply in_seq; lia|]. change (nth 7 (seq 0 8) 0%nat) with 7%nat.
      rewrite !Hq by lia. replace (l / 4)%nat with 0%nat by (symmetry; apply Nat.div_small; lia).
      change (7 / 4)%nat with 1%nat. cbn [Nat.eqb].
      match goal with |- (if Rlt_dec ?a ?b then _ else _) = true => destruct (Rlt_dec a b) as [|N]; [reflexivity|exfalso; apply N] end.
      rewrite sqrt_1. unfold Cabs. apply sqrt_lt_1_alt. unfold norm2, Cmul, RtoC, C0, C1. cbn. lra. }
    destruct (filter _ _); [destruct I7|cbn; lia].
  Qed.
End witness.

(** With beta = 1/2 the map lacks the stronger source altogether: only the points
    kept for the last mode are shown.  With beta = 1 all its points are there. *)
Theorem C87_modes_refuted :
  exists nch np A eps_perc n_iter (pw : R -> R) ms,
    forall inv lam, inverts inv -> largest lam ->
    (exists f, gib_map inv lam nch np A eps_perc (1 / 2) pw n_iter ms = inl f /\ forall p, (p < 4)%nat -> f p = 0%R)
    /\ (exists f, gib_map inv lam nch np A eps_perc 1 pw n_iter ms = inl f /\ forall p, (p < 8)%nat ->
          f p = (if (p <? 4)%nat then 1 / 4 else 1 / 16)%R).
Proof.
  exists 2%nat, 8%nat, wA, (1 / 20)%R, 3%nat, (fun _ => 1%R), wmodes. intros inv lam Hinv Hlam. split.
  - unfold gib_map, wmodes. cbn [gib_modes]. destruct (Rlt_dec 0 4); [|lra]. destruct (Rlt_dec 0 1); [|lra].
    destruct (w_iter_half inv lam Hinv Hlam (fun c => RtoC (sqrt 4) * (if (c =? 0)%nat then C1 else C0))) as (q1 & _ & ->).
    destruct (w_iter_half inv lam Hinv Hlam (fun c => RtoC (sqrt 1) * (if (c =? 1)%nat then C1 else C0))) as (q2 & H2 & ->).
    eexists. split; [reflexivity|]. intros p Hp. cbn beta. cbn [gs_loc].
    match goal with |- (if ?b then _ else _) = _ => destruct b eqn:E end; [|reflexivity].
    apply existsb_exists in E as (p' & Hin & E). apply Nat.eqb_eq in E. subst p'.
    apply (w_keep q2 p H2) in Hin. lia.
  - unfold gib_map, wmodes. cbn [gib_modes]. destruct (Rlt_dec 0 4); [|lra]. destruct (Rlt_dec 0 1); [|lra].
    destruct (w_iter_full inv lam Hinv Hlam (fun c => RtoC (sqrt 4) * (if (c =? 0)%nat then C1 else C0))) as (q1 & H1 & ->).
    destruct (w_iter_full inv lam Hinv Hlam (fun c => RtoC (sqrt 1) * (if (c =? 1)%nat then C1 else C0))) as (q2 & H2 & ->).
    eexists. split; [reflexivity|]. intros p Hp. cbn beta. cbn [gs_loc app map rsum_list fold_right gs_q].
    replace (existsb (Nat.eqb p) (seq 0 8)) with true
      by (symmetry; apply existsb_exists; exists p; split; [apply in_seq; lia|apply Nat.eqb_refl]).
    rewrite (H1 p Hp), (H2 p Hp). rewrite sqrt_1. replace (sqrt 4) with 2%R by (symmetry; apply sqrt_lem_1; lra).
    pattern p; apply eight; try exact Hp; cbn [Nat.ltb Nat.leb]; change (0 / 4)%nat with 0%nat; change (1 / 4)%nat with 0%nat; change (2 / 4)%nat with 0%nat; change (3 / 4)%nat with 0%nat; change (4 / 4)%nat with 1%nat; change (5 / 4)%nat with 1%nat; change (6 / 4)%nat with 1%nat; change (7 / 4)%nat with 1%nat; cbn [Nat.eqb]; unfold norm2, Cmul, RtoC, C0, C1; cbn [fst snd]; lra.
Qed.

(** Nothing to calculate: an exception. *)
Theorem C87_no_modes :
  forall inv lam nch np A eps_perc beta pw n_iter ms,
    (forall ev mode, In (ev, mode) ms -> (ev <= 0)%R) ->
    gib_map inv lam nch np A eps_perc beta pw n_iter ms = inr UnboundLocalError.
Proof.
  intros inv lam nch np A eps_perc beta pw n_iter ms H. unfold gib_map.
  replace (gib_modes inv lam nch np A eps_perc beta pw n_iter ms None []) with (@inl (option (list nat) * list (nat -> C)) exn (None, [])); [reflexivity|].
  symmetry. induction ms as [|[ev mode] ms IH]; [reflexivity|]. cbn [gib_modes].
  destruct (Rlt_dec 0 ev) as [Hp|]; [specialize (H ev mode (or_introl eq_refl)); lra|]. apply IH. intros ev' m' Hin. apply (H ev' m'). now right.
Qed.

(* ------------------------------------------------------------------ *)
(** * A case *)

(** Inversions and largest eigenvalues as assumed exist. *)
Example C87_assumptions : (exists inv, inverts inv) /\ exists lam, largest lam /\ forall n M, (0 <= lam n M)%R.
Proof.
  split.
  - exists (fun n M => match excluded_middle_informative (exists X, meq n (mmul n M X) idm /\ meq n (mmul n X M) idm) with
                       | left H => Some (proj1_sig (constructive_indefinite_description _ H))
                       | right _ => None end).
    split.
    + intros n M X. destruct (excluded_middle_informative _) as [H|H]; [|discriminate]. intros E. injection E as <-.
      exact (proj2_sig (constructive_indefinite_description _ H)).
    + intros n M Y H1 H2. destruct (excluded_middle_informative _) as [H|H]; [discriminate|]. elim H. now exists Y.
  - exists (fun n M => Cabs (M 0 0)%nat). split.
    + intros n M v Hn Hv H. rewrite (H 0 0)%nat by assumption. cbn [Nat.eqb]. unfold Cabs, norm2, RtoC. cbn [fst snd].
      replace (v * v + 0 * 0)%R with (v * v)%R by ring. now apply sqrt_square.
    + intros n M. apply sqrt_pos.
Qed.

(** The two modes with all points kept: each fit reproduces its mode. *)
Example C87_case : forall inv lam, inverts inv -> largest lam ->
  exists f, gib_map inv lam 2 8 wA (1 / 20) 1 (fun _ => 1%R) 3 wmodes = inl f
    /\ f 0%nat = (1 / 4)%R /\ f 7%nat = (1 / 16)%R.
Proof.
  intros inv lam Hinv Hlam. unfold gib_map, wmodes. cbn [gib_modes]. destruct (Rlt_dec 0 4); [|lra]. destruct (Rlt_dec 0 1); [|lra].
  destruct (w_iter_full inv lam Hinv Hlam (fun c => RtoC (sqrt 4) * (if (c =? 0)%nat then C1 else C0))) as (q1 & H1 & ->).
  destruct (w_iter_full inv lam Hinv Hlam (fun c => RtoC (sqrt 1) * (if (c =? 1)%nat then C1 else C0))) as (q2 & H2 & ->).
  eexists. split; [reflexivity|]. cbn [existsb Nat.eqb seq gs_loc app map rsum_list fold_right gs_q orb].
  rewrite !H1, !H2 by lia. rewrite sqrt_1. replace (sqrt 4) with 2%R by (symmetry; apply sqrt_lem_1; lra).
  change (0 / 4)%nat with 0%nat. change (7 / 4)%nat with 1%nat. cbn [Nat.eqb]. unfold norm2, Cmul, RtoC, C0, C1. cbn [fst snd]. split; lra.
Qed.

Print Assumptions C87_ridge.
Print Assumptions C87_map_partial.
Print Assumptions C87_no_regularisation.
Print Assumptions C87_regularisation_refuted.
Print Assumptions C87_modes_refuted.
Print Assumptions C87_no_modes.
