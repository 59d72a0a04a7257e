(** Property theorems C37-C42, C59, C60: deconvolution, lazy results, band
    synthesis, sector integration, levels, component selection. *)
From Coq Require Import List Arith Lia ZArith Bool Reals Lra.
From Verif Require Import Stream Cplx Beamform Deconv Result.
Import ListNotations.
Local Open Scope R_scope.

(** C37.  Non-negative after at least one sweep: every matrix, map, damping,
    starting solution. *)
Theorem C37_nonnegative g A y relax n x i : (0 < n)%nat -> (i < g)%nat -> 0 <= gs_solve g A y relax n x i.
Proof. exact (gs_nonneg g A y relax n x i). Qed.
Print Assumptions C37_nonnegative.

(** C37.  An exact non-negative solution is left unchanged. *)
Theorem C37_fixed_point g A y relax s n x :
  (forall i, (i < g)%nat -> A i i = 1) -> (forall i, (i < g)%nat -> 0 <= s i) ->
  (forall i, (i < g)%nat -> rsumn g (fun j => A i j * s j) = y i) ->
  (forall j, (j < g)%nat -> x j = s j) -> forall j, (j < g)%nat -> gs_solve g A y relax n x j = s j.
Proof. intros Hd Hs Hy. exact (gs_fixed g A y relax s Hd Hs Hy n x). Qed.
Print Assumptions C37_fixed_point.

(** C37.  More: from the dirty map DAMAS converges to the true strengths if
    the off-diagonal row sums of the matrix are at most q < 1, by the factor
    1 - relax + relax q per sweep. *)
Theorem C37_convergence g A y relax s q e n :
  (forall i, (i < g)%nat -> A i i = 1) -> (forall i, (i < g)%nat -> 0 <= s i) ->
  (forall i, (i < g)%nat -> rsumn g (fun j => A i j * s j) = y i) ->
  (forall i, (i < g)%nat -> rsumn g (fun j => if (j =? i)%nat then 0 else Rabs (A i j)) <= q) ->
  0 <= relax <= 1 -> 0 <= q <= 1 -> 0 <= e -> (forall j, (j < g)%nat -> Rabs (y j - s j) <= e) ->
  forall j, (j < g)%nat -> Rabs (damas g A y relax n j - s j) <= (1 - relax + relax * q) ^ n * e.
Proof.
  intros Hd Hs Hy Hq Hr Hq1 He Hx.
  exact (gs_converges g A y relax s Hd Hs Hy q Hq Hr Hq1 n e y He Hx).
Qed.
Print Assumptions C37_convergence.

(** The point spread function has a unit diagonal for the steering types 'true
    level' and 'inverse', so the above applies to them. *)
Theorem C37_unit_diagonal n k r0 r st :
  (0 < n)%nat -> 0 < r0 -> (forall m, (m < n)%nat -> 0 < r m) -> st = TrueLevel \/ st = Inverse ->
  psf_core n st r0 r r0 r k = 1.
Proof.
  intros Hn H0 Hr Hst. rewrite (psf_is_map n k r0 r0 r r) by assumption.
  pose proof (monopole_level n k r0 r 1 st Hn H0 Hr Hst) as H. unfold bf_base, sig_loss_norm, clip_neg in H.
  now injection H.
Qed.
Print Assumptions C37_unit_diagonal.

(** For the other two types the diagonal is not one and even a single source
    on a grid of one point gets the wrong strength whatever the number of sweeps. *)
Theorem C37_nonunit_diagonal :
  exists r, (forall m, 0 < r m) /\ psf_core 1 Classic 2 r 2 r 3 = 4
  /\ forall n s, (0 < n)%nat -> 0 <= s -> damas 1 (fun _ _ => 4) (fun _ => 4 * s) 1 n 0%nat = 4 * s.
Proof.
  exists (fun _ => 1). split; [intros; lra|]. split.
  - unfold psf_core. cbn. rewrite norm2_RtoC. replace (3 * (1 - 1)) with 0 by ring. rewrite cos_0, sin_0. field.
  - intros n s Hn Hs. unfold damas, gs_solve.
    assert (H : forall x, x 0%nat = 4 * s -> gs_sweep 1 (fun _ _ => 4) (fun _ => 4 * s) 1 x 0%nat = 4 * s).
    { intros x Hx. unfold gs_sweep, gs_point, upd. cbn. rewrite Hx. destruct (Rlt_dec 0 _); lra. }
    induction n as [|n IH]; [lia|]. cbn [Nat.iter]. apply H. destruct n; [reflexivity|]. apply IH. lia.
Qed.
Print Assumptions C37_nonunit_diagonal.

Example C37_case :
  let A := fun i j : nat => if (i =? j)%nat then 1 else 1/2 in
  let y := fun i : nat => if (i =? 0)%nat then 2 else 5/2 in
  forall j, (j < 2)%nat -> Rabs (damas 2 A y 1 10 j - (if (j =? 0)%nat then 1 else 2)) <= (1 - 1 + 1 * (1/2)) ^ 10 * 1.
Proof.
  intros A y. apply (C37_convergence 2 A y 1 (fun j => if (j =? 0)%nat then 1 else 2)).
  all: try lra; intros [|[|i]] Hi; try lia; unfold A, y; cbn; unfold Rabs; repeat destruct Rcase_abs; lra.
Qed.

(** C38.  CLEAN: terminates within max(1, n_iter) passes; the residual is the
    dirty map minus the PSF times the clean map; the clean map is non-negative
    if some value of the dirty map is. *)
Theorem C38_clean g psf damp n_iter dirty0 : (0 < g)%nat -> 0 <= damp ->
  exists dirty clean iters,
  clean_calc g psf damp n_iter (Z.to_nat (Z.max 1 n_iter)) dirty0 = Some (dirty, clean, iters)
  /\ (1 <= iters <= Z.max 1 n_iter)%Z
  /\ (forall p, (p < g)%nat -> dirty p = dirty0 p - rsumn g (fun j => psf j p * clean j))
  /\ ((exists p, (p < g)%nat /\ 0 <= dirty0 p) -> forall p, (p < g)%nat -> 0 <= clean p).
Proof.
  intros Hg Hd. destruct (clean_spec g psf damp n_iter dirty0 Hg Hd) as ([[d c] i] & H). exists d, c, i. exact H.
Qed.
Print Assumptions C38_clean.

(** C38.  More: every pass that is followed by another one has strictly
    decreased the sum of the absolute residual. *)
Theorem C38_decreasing g psf damp n_iter dirty clean i dirty' clean' i' :
  clean_body g psf damp n_iter (dirty, clean, i) = (dirty', clean', i', true) ->
  rsumn g (fun p => Rabs (dirty' p)) < rsumn g (fun p => Rabs (dirty p)).
Proof. intros H. exact (clean_body_decreases g psf damp n_iter _ _ H). Qed.
Print Assumptions C38_decreasing.

Example C38_case : exists d c i,
  clean_calc 2 (fun a b => if (a =? b)%nat then 1 else 0) 1 5 5 (fun p => if (p =? 0)%nat then 3 else 0) = Some (d, c, i)
  /\ (1 <= i <= 5)%Z /\ d 0%nat = 3 - (c 0%nat + 0).
Proof.
  destruct (C38_clean 2 (fun a b => if (a =? b)%nat then 1 else 0) 1 5 (fun p => if (p =? 0)%nat then 3 else 0)) as (d & c & i & E & H1 & H2 & _);
    [lia|lra|].
  exists d, c, i. split; [exact E|]. split; [lia|]. rewrite (H2 0%nat ltac:(lia)). cbn. lra.
Qed.

(** C39.  CLEAN-SC: after any number of passes (all prefixes of the loop are
    covered because [J] is arbitrary) the map is the beamformer map of the
    degraded matrix, which stays Hermitian. *)
Theorem C39_consistent n g k r0g rg st rdiag normfactor damp stopn J csm :
  (forall i j, (i < n)%nat -> (j < n)%nat -> csm j i = Conj (csm i j)) ->
  let s := cleansc n g k r0g rg st rdiag normfactor damp stopn J csm in
  (forall p, sc_h s p = fst (freq_full n (sc_csm s) (r0g p) k (rg p) normfactor rdiag st))
  /\ (forall i j, (i < n)%nat -> (j < n)%nat -> sc_csm s j i = Conj (sc_csm s i j)).
Proof. intros H. exact (cleansc_consistent n g k r0g rg st rdiag normfactor damp stopn J csm H). Qed.
Print Assumptions C39_consistent.

(** C39.  The clean map sums to the damping factor times the maxima found, at most J of them. *)
Theorem C39_result n g k r0g rg st rdiag normfactor damp stopn J csm : (0 < g)%nat ->
  let s := cleansc n g k r0g rg st rdiag normfactor damp stopn J csm in
  (length (sc_powers s) <= J)%nat
  /\ rsumn g (sc_result s) = damp * fold_right Rplus 0 (sc_powers s).
Proof. exact (cleansc_result n g k r0g rg st rdiag normfactor damp stopn J csm). Qed.
Print Assumptions C39_result.

Example C39_case :
  let s := cleansc 2 1 0 (fun _ => 1) (fun _ _ => 1) Classic false 1 (6/10) 3 4 (fun i j => C1) in
  hermitian 2 (sc_csm s).
Proof.
  cbv zeta. unfold hermitian.
  refine (proj2 (C39_consistent 2 1 0 (fun _ => 1) (fun _ _ => 1) Classic false 1 (6/10) 3 4 (fun _ _ => C1) _)).
  intros. now rewrite Conj_1.
Qed.

(** C40.  Any sequence of index and slice accesses returns the rows calculated
    from scratch, unless one of the indices is -1; [calc_row i old] is what
    the calculation of row i makes of the row found in the array. *)
Theorem C40_accesses_partial V zero n (calc_row : nat -> V -> V) ks :
  (forall k, In k ks -> match k with KInt z => z <> (-1)%Z | KSlice _ _ s => s <> 0%Z end) ->
  fst (accesses V n calc_row ks (fresh V zero))
  = map (fun k => match k with
                  | KInt z => match py_index n z with Some i => Some [calc_row i zero] | None => None end
                  | KSlice a b s => Some (map (fun i => calc_row i zero) (slice_list n a b s))
                  end) ks.
Proof.
  intros H. apply (accesses_spec V zero n calc_row ks H). apply fresh_good.
Qed.
Print Assumptions C40_accesses_partial.

(** The index -1 returns the last row of the array as it is: zeros if it has
    not been calculated by another access. *)
Theorem C40_last_index_refuted V zero n (calc_row : nat -> V -> V) : (0 < n)%nat ->
  fst (getitem V n calc_row (KInt (-1)) (fresh V zero)) = Some [zero]
  /\ fst (accesses V n calc_row [KInt (Z.of_nat n - 1); KInt (-1)] (fresh V zero))
     = [Some [calc_row (n - 1)%nat zero]; Some [calc_row (n - 1)%nat zero]].
Proof.
  intros Hn. split; [now rewrite getitem_minus_1|].
  destruct (getitem_spec V zero n calc_row (KInt (Z.of_nat n - 1)) (fresh V zero)) as [H1 H2].
  { cbn. lia. } { apply fresh_good. }
  pose proof (getitem_spec V zero n calc_row (KInt (Z.of_nat n - 1)) (fresh V zero) ltac:(cbn; lia) (fresh_good V zero calc_row)) as [H3 _].
  cbn [accesses]. destruct (getitem V n calc_row (KInt (Z.of_nat n - 1)) (fresh V zero)) as [v st1] eqn:E.
  rewrite getitem_minus_1 by assumption. cbn [fst snd] in *.
  assert (Ei : py_index n (Z.of_nat n - 1) = Some (n - 1)%nat).
  { unfold py_index. destruct (Z.leb_spec 0 (Z.of_nat n - 1)); [|lia].
    destruct (Z.ltb_spec (Z.of_nat n - 1) (Z.of_nat n)); [|lia]. cbn [andb]. f_equal. lia. }
  rewrite H1. unfold direct, row. rewrite Ei. f_equal. f_equal. f_equal. f_equal.
  unfold getitem in E. rewrite Ei in E. injection E as Ev Es. rewrite <- H3 in H1. rewrite <- Ev in H3.
  unfold direct in H3. rewrite Ei in H3. injection H3 as H3. rewrite <- Es. exact H3.
Qed.
Print Assumptions C40_last_index_refuted.

(** BeamformerOrth adds to the array; a calculation that was interrupted after
    the components [done] and is repeated counts them twice. *)
Theorem C40_interrupted_refuted g nc eva bmap done todo : (0 < g)%nat -> (0 < nc)%nat ->
  (forall z, In z (done ++ todo) -> (- Z.of_nat nc <= z < Z.of_nat nc)%Z) ->
  exists partial again, orth_calc g nc eva bmap done (fun _ => 0) = Some partial
  /\ orth_calc g nc eva bmap (done ++ todo) partial = Some again
  /\ rsumn g again
     = (fold_right Rplus 0 (selected nc eva (done ++ todo)) + fold_right Rplus 0 (selected nc eva done)) / INR nc.
Proof. exact (orth_interrupted g nc eva bmap done todo). Qed.
Print Assumptions C40_interrupted_refuted.

Example C40_case :
  fst (accesses nat 5 (fun i _ => i + 10)%nat
        [KInt 3; KSlice None None 2; KInt (-2); KSlice (Some 4%Z) None (-2); KInt 7] (fresh nat 0%nat))
  = [Some [13]; Some [10; 12; 14]; Some [13]; Some [14; 12; 10]; None]%nat.
Proof.
  rewrite C40_accesses_partial; [reflexivity|].
  intros k Hk. cbn in Hk. repeat destruct Hk as [<-|Hk]; try discriminate. destruct Hk.
Qed.

(** C41.  A band contains exactly the lines with f1 <= freq < f2. *)
Theorem C41_band freq res f b f1 f2 : freq <> [] -> increasing freq -> length res = length freq ->
  match b with
  | Line => False
  | Fraction num => f1 = f * Rpower 2 (- (1/2) / num) /\ f2 = f * Rpower 2 (1/2 / num)
  | Limits a c => f1 = a /\ f2 = c
  end ->
  exists h, synthetic freq res f b = Some h /\ forall p, h p = band_sum freq res f1 f2 p.
Proof.
  intros Hn Hi Hl Hb. apply synthetic_band; auto. destruct b; [destruct Hb| |]; destruct Hb as [-> ->]; reflexivity.
Qed.
Print Assumptions C41_band.

(** C41.  Adjacent bands share no line and lose none: the 1/num octaves around
    f and around the next centre frequency f 2^(1/num). *)
Theorem C41_adjacent freq res f num p : freq <> [] -> increasing freq -> length res = length freq -> 0 < num -> 0 < f ->
  exists h1 h2, synthetic freq res f (Fraction num) = Some h1
  /\ synthetic freq res (f * Rpower 2 (1 / num)) (Fraction num) = Some h2
  /\ h1 p + h2 p = band_sum freq res (f * Rpower 2 (- (1/2) / num)) (f * Rpower 2 (1 / num) * Rpower 2 (1/2 / num)) p.
Proof.
  intros Hn Hi Hl Hnum Hf.
  destruct (synthetic_band freq res f (Fraction num) _ _ Hn Hi Hl eq_refl) as (h1 & E1 & H1).
  destruct (synthetic_band freq res (f * Rpower 2 (1 / num)) (Fraction num) _ _ Hn Hi Hl eq_refl) as (h2 & E2 & H2).
  exists h1, h2. split; [exact E1|]. split; [exact E2|]. rewrite H1, H2, band_edge by lra.
  assert (P : forall x y, x <= y -> Rpower 2 x <= Rpower 2 y) by (intros; apply Rle_Rpower; lra).
  apply band_sum_split. split.
  - apply Rmult_le_compat_l; [lra|]. apply P. unfold Rdiv. apply Rmult_le_compat_r; [|lra].
    apply Rlt_le, Rinv_0_lt_compat. lra.
  - rewrite Rmult_assoc, <- Rpower_plus. apply Rmult_le_compat_l; [lra|]. apply P.
    assert (0 < 1 / num) by (apply Rdiv_lt_0_compat; lra). lra.
Qed.
Print Assumptions C41_adjacent.

(** C41.  A single line, and agreement of the helper function. *)
Theorem C41_line freq res f : freq <> [] -> increasing freq -> length res = length freq ->
  (forall i, (i < length freq)%nat -> nth i freq 0 = f ->
     synthetic freq res f Line = Some (nth i res (fun _ => 0)))
  /\ ((forall x, In x freq -> x < f) -> synthetic freq res f Line = Some (fun _ => 0)).
Proof. exact (synthetic_line freq res f). Qed.
Print Assumptions C41_line.

Theorem C41_helper freq res f num : freq <> [] ->
  option_map (fun h => [h]) (synthetic freq res f (if Req_EM_T num 0 then Line else Fraction num))
  = Some (helper_synthetic res freq [f] num).
Proof. exact (helper_same freq res f num). Qed.
Print Assumptions C41_helper.

Example C41_case : exists h,
  synthetic [0; 100; 200; 300] [fun _ => 1; fun _ => 2; fun _ => 4; fun _ => 8] 0 (Limits 100 300) = Some h /\ h 0%nat = 6.
Proof.
  destruct (C41_band [0; 100; 200; 300] [fun _ => 1; fun _ => 2; fun _ => 4; fun _ => 8] 0 (Limits 100 300) 100 300) as (h & E & H).
  - discriminate.
  - cbn. lra.
  - reflexivity.
  - auto.
  - exists h. split; [exact E|]. rewrite H. cbn. repeat (destruct Rle_dec; try lra); repeat (destruct Rlt_dec; try lra).
Qed.

(** C42.  The sum over exactly the points of the sector, in the function and
    in the method after the result has been read (with ind_low and ind_high
    within the range). *)
Theorem C42_integrate_partial g (contains : nat -> bool) low high (res : list (nat -> R)) :
  let n := Z.of_nat (length res) in
  let norm := fun z => (if z <? 0 then z + n else z)%Z in
  let lo := norm (match low with Some z => z | None => 0%Z end) in
  let hi := norm (match high with Some z => z | None => n end) in
  let total := fun i => rsumn g (fun p => if contains p then nth i res (fun _ : nat => 0) p else 0) in
  (0 <= lo <= hi)%Z -> (hi <= n)%Z ->
  integrate_all g contains (length res) low high res
  = Some (map (fun i => if ((lo <=? Z.of_nat i) && (Z.of_nat i <? hi))%Z then total i else 0) (seq 0 (length res)))
  /\ integrate_fun g contains res = map total (seq 0 (length res)).
Proof.
  intros n norm lo hi total H1 H2. split; [exact (integrate_all_spec g contains low high res H1 H2)|].
  unfold integrate_fun, total. apply nth_ext with (d := sector_sum g contains (fun _ => 0)) (d' := total 0%nat);
    [now rewrite !map_length, seq_length|].
  intros i Hi. rewrite map_length in Hi. rewrite map_nth, (map_nth total), seq_nth by assumption.
  rewrite sector_sum_spec. reflexivity.
Qed.
Print Assumptions C42_integrate_partial.

Theorem C42_disjoint g c1 c2 m : (forall p, (p < g)%nat -> c1 p = true -> c2 p = true -> False) ->
  sector_sum g (fun p => c1 p || c2 p) m = sector_sum g c1 m + sector_sum g c2 m.
Proof. exact (sector_sum_disjoint g c1 c2 m). Qed.
Print Assumptions C42_disjoint.

(** C42 is false for a beamformer whose result has not been read: integrate
    uses _numfreq, still 0, before it triggers the calculation, and returns an
    empty array. *)
Theorem C42_fresh_refuted g contains (res : list (nat -> R)) : res <> [] ->
  integrate_all g contains 0 None None res = Some []
  /\ exists h, integrate_all g contains (length res) None None res = Some h /\ length h = length res /\ h <> [].
Proof.
  intros Hn. split; [reflexivity|]. eexists. split.
  - apply (integrate_all_spec g contains None None res); cbn.
    + destruct (Z.ltb_spec (Z.of_nat (length res)) 0); lia.
    + destruct (Z.ltb_spec (Z.of_nat (length res)) 0); lia.
  - rewrite map_length, seq_length. split; [reflexivity|]. destruct res; [congruence|discriminate].
Qed.
Print Assumptions C42_fresh_refuted.

Example C42_case :
  integrate_all 3 (fun p => negb (p =? 1)%nat) 2 None None [fun p => INR p; fun _ => 5] = Some [2; 10].
Proof.
  etransitivity; [exact (proj1 (C42_integrate_partial 3 (fun p => negb (p =? 1)%nat) None None [fun p => INR p; fun _ => 5]
    ltac:(cbn; lia) ltac:(cbn; lia)))|]. cbn. repeat f_equal; lra.
Qed.

(** C59. *)
Theorem C59_levels :
  (forall x y, x <= y -> L_p x <= L_p y)
  /\ (forall x, 4e-45 <= x -> L_p x = 10 * log10 (x / 4e-10))
  /\ (forall x, -350 <= L_p x) /\ (forall x, x <= 0 -> L_p x = -350).
Proof. exact L_p_spec. Qed.
Print Assumptions C59_levels.

Example C59_case : L_p 4e-10 = 0.
Proof.
  destruct C59_levels as (_ & H & _). rewrite H by lra. unfold log10.
  replace (4e-10 / 4e-10) with 1 by lra. rewrite ln_1. unfold Rdiv. ring.
Qed.

(** C60.  The component index of BeamformerEig. *)
Theorem C60_component n nm : (1 <= nm)%Z ->
  (0 <= get_na n nm <= nm - 1)%Z
  /\ ((- nm <= n < nm)%Z -> py_index (Z.to_nat nm) n = Some (Z.to_nat (get_na n nm)))
  /\ ((nm <= n)%Z -> get_na n nm = (nm - 1)%Z) /\ ((n < - nm)%Z -> get_na n nm = 0%Z).
Proof. exact (get_na_spec n nm). Qed.
Print Assumptions C60_component.

(** C60.  The map of BeamformerOrth sums to the selected eigenvalues divided
    by the number of channels. *)
Theorem C60_orth_sum g nc eva bmap eva_list : (0 < g)%nat -> (0 < nc)%nat ->
  (forall z, In z eva_list -> (- Z.of_nat nc <= z < Z.of_nat nc)%Z) ->
  exists ac, orth_calc g nc eva bmap eva_list (fun _ => 0) = Some ac
  /\ rsumn g ac = fold_right Rplus 0 (map (fun z => eva (Z.to_nat (z mod Z.of_nat nc))) eva_list) / INR nc.
Proof.
  intros Hg Hnc Hz. destruct (orth_sum g nc eva bmap eva_list Hg Hnc Hz (fun _ => 0)) as (ac & E & H).
  exists ac. split; [exact E|]. rewrite H, rsumn_zero, Rplus_0_l. do 2 f_equal. unfold selected.
  apply map_ext_in. intros z Hin. specialize (Hz z Hin). unfold py_index.
  destruct (Z.leb_spec 0 z).
  - destruct (Z.ltb_spec z (Z.of_nat nc)); [|lia]. cbn [andb]. now rewrite Z.mod_small by lia.
  - cbn [andb]. destruct (Z.leb_spec (- Z.of_nat nc) z); [|lia]. destruct (Z.ltb_spec z 0); [|lia]. cbn [andb].
    do 2 f_equal. rewrite <- (Z.mod_small (Z.of_nat nc + z) (Z.of_nat nc)) by lia.
    rewrite <- (Z_mod_plus_full z 1 (Z.of_nat nc)). f_equal. lia.
Qed.
Print Assumptions C60_orth_sum.

Example C60_case : exists ac,
  orth_calc 3 2 (fun c => INR c + 1) (fun c p => if (p =? c)%nat then 1 else 0) [-1; -2; 1]%Z (fun _ => 0) = Some ac
  /\ rsumn 3 ac = (2 + (1 + (2 + 0))) / 2.
Proof.
  destruct (C60_orth_sum 3 2 (fun c => INR c + 1) (fun c p => if (p =? c)%nat then 1 else 0) [-1; -2; 1]%Z) as (ac & E & H).
  - lia.
  - lia.
  - intros z Hz. cbn in Hz. lia.
  - exists ac. split; [exact E|]. rewrite H. cbn [map fold_right]. change (Z.to_nat (-1 mod Z.of_nat 2)) with 1%nat.
    change (Z.to_nat (-2 mod Z.of_nat 2)) with 0%nat. change (Z.to_nat (1 mod Z.of_nat 2)) with 1%nat. cbn. lra.
Qed.
