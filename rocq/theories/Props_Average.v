(** Property C138: the map of a measurement and the maps of its parts. *)
From Coq Require Import List Arith Lia ZArith Bool Reals Lra.
From Verif Require Import Stream Cplx Buffer Frames Convolve Fourier Beamform Csm Deconv Subspace Spectral OrthSep Resolve Heinz AddSound Average Perturb Props_OrthSep Props_Resolve Props_AddSound.
Import ListNotations.
Local Open Scope R_scope.

(** A measurement in [K] parts, part [j] with the blocks [fs j], counted as [nb j]
    by PowerSpectra.num_blocks; the whole has the blocks of all parts. *)
Definition part (bs N : nat) (wind : nat -> R) (nb : nat -> R) (fs : nat -> list (list (list R))) (b j : nat) : nat -> nat -> C :=
  calc_csm bs N wind (nb j) (fs j) b.
Definition whole (bs N : nat) (wind : nat -> R) (K : nat) (nb : nat -> R) (fs : nat -> list (list (list R))) (b : nat) : nat -> nat -> C :=
  calc_csm bs N wind (rsumn K nb) (concat (map fs (seq 0 K))) b.

(** A window that does not vanish, positive numbers of blocks and at least one part. *)
Definition measured (bs : nat) (wind : nat -> R) (K : nat) (nb : nat -> R) : Prop :=
  (0 < bs)%nat /\ 0 < rsumn bs (fun j => wind j * wind j) /\ (0 < K)%nat /\ forall j, (j < K)%nat -> 0 < nb j.

(** Mean over the parts, weighted with the number of blocks. *)
Definition mean (K : nat) (nb : nat -> R) (x : nat -> R) : R := rsumn K (fun j => nb j * x j) / rsumn K nb.

Section Common.
  Variables (bs N : nat) (wind : nat -> R) (K : nat) (nb : nat -> R) (fs : nat -> list (list (list R))) (b : nat).
  Hypothesis Hm : measured bs wind K nb.
  Let c := whole bs N wind K nb fs b.
  Let p := part bs N wind nb fs b.
  Let S := rsumn K nb.

  Lemma blocks_pos : 0 < S.
  Proof.
    destruct Hm as (_ & _ & HK & Hn). apply Rlt_le_trans with (nb 0%nat); [now apply Hn|].
    apply (rsumn_term' K nb); [|assumption]. intros j Hj. left. now apply Hn.
  Qed.
  Lemma weight_nonneg j : (j < K)%nat -> 0 < nb j / S.
  Proof. intros Hj. apply Rdiv_lt_0_compat; [now apply Hm|exact blocks_pos]. Qed.
  Lemma whole_form x : re (qform N c x) = rsumn K (fun j => re (qform N (scaled (nb j / S) (p j)) x)).
  Proof.
    unfold c, whole. rewrite joined_form; [|apply Hm|exact blocks_pos]. apply rsumn_ext. intros j _. now rewrite scaled_form.
  Qed.
  Lemma whole_sound x : 0 <= re (qform N c x).
  Proof.
    destruct Hm as (H1 & H2 & _). exact (calc_csm_sound bs N wind S (concat (map fs (seq 0 K))) b H1 H2 blocks_pos x).
  Qed.
  Lemma part_sound j x : (j < K)%nat -> 0 <= re (qform N (p j) x).
  Proof.
    intros Hj. destruct Hm as (H1 & H2 & _ & H3). exact (calc_csm_sound bs N wind (nb j) (fs j) b H1 H2 (H3 j Hj) x).
  Qed.
  Lemma mean_sum x : mean K nb x = rsumn K (fun j => nb j / S * x j).
  Proof. unfold mean. fold S. unfold Rdiv. rewrite Rmult_comm, <- rsumn_scal. apply rsumn_ext. intros. ring. Qed.
End Common.

(** BeamformerBase with the full matrix: the map of the whole is the mean of the maps. *)
Theorem C138_base bs wind K nb fs b n r0 k r st rdn :
  measured bs wind K nb -> (0 < n)%nat -> 0 < r0 -> (forall m, (m < n)%nat -> 0 < r m) ->
  exists x, (forall j, (j < K)%nat -> bf_base n (part bs n wind nb fs b j) r0 k r false rdn st = Some (x j))
    /\ bf_base n (whole bs n wind K nb fs b) r0 k r false rdn st = Some (mean K nb x).
Proof.
  intros Hm Hn H0 Hr. exists (fun j => re (qform n (part bs n wind nb fs b j) (steer_vector n st (transfer r0 k r)))).
  split; [intros j _; apply (base_form n r0 k r st Hn H0 Hr); apply calc_csm_hermitian|].
  rewrite (base_form n r0 k r st Hn H0 Hr) by apply calc_csm_hermitian. f_equal. rewrite (whole_form bs n wind K nb fs b Hm), mean_sum.
  apply rsumn_ext. intros j _. now rewrite scaled_form.
Qed.
Print Assumptions C138_base.

(** With removed diagonal the map of the whole is at most the mean of the maps. *)
Theorem C138_removed bs wind K nb fs b n r0 k r st rdn loss :
  measured bs wind K nb -> (0 < n)%nat -> 0 < r0 -> (forall m, (m < n)%nat -> 0 < r m) -> sig_loss_norm n true rdn = Some loss ->
  exists x y, (forall j, (j < K)%nat -> bf_base n (part bs n wind nb fs b j) r0 k r true rdn st = Some (x j))
    /\ bf_base n (whole bs n wind K nb fs b) r0 k r true rdn st = Some y /\ 0 <= y <= mean K nb x.
Proof.
  intros Hm Hn H0 Hr L. set (h := steer_vector n st (transfer r0 k r)).
  assert (F : forall m, hermitian n m -> fst (freq_full n m r0 k r loss true st) = loss * re (qform n (off_diag m) h)).
  { intros m Hh. pose proof (bf_quadratic n r0 k r Hn H0 Hr m loss true st Hh) as Q. apply (f_equal re) in Q. rewrite re_RtoC_mul in Q. exact Q. }
  unfold bf_base. rewrite L. set (z := fun j => loss * re (qform n (off_diag (part bs n wind nb fs b j)) h)).
  exists (fun j => clip_neg true (z j)), (clip_neg true (mean K nb z)).
  split; [intros j _; now rewrite F by apply calc_csm_hermitian|].
  pose proof (blocks_pos bs wind K nb Hm) as SP.
  assert (WN : forall j, (j < K)%nat -> 0 < nb j / rsumn K nb) by (intros; now apply (weight_nonneg bs wind K nb Hm)).
  split.
  - rewrite F by apply calc_csm_hermitian. f_equal. f_equal. rewrite mean_sum. unfold z. rewrite removed_form_re.
    rewrite (whole_form bs n wind K nb fs b Hm).
    assert (DG : forall m, (m < n)%nat -> re (whole bs n wind K nb fs b m m) = rsumn K (fun j => nb j / rsumn K nb * re (part bs n wind nb fs b j m m))).
    { intros m Hmm. rewrite <- (unit_form n (whole bs n wind K nb fs b) m Hmm), (whole_form bs n wind K nb fs b Hm). apply rsumn_ext. intros j Hj. now rewrite scaled_form, unit_form. }
    rewrite (rsumn_ext n _ (fun m => rsumn K (fun j => nb j / rsumn K nb * (re (part bs n wind nb fs b j m m) * norm2 (h m))))).
    2:{ intros m Hmm. rewrite DG by assumption. rewrite Rmult_comm, <- rsumn_scal. apply rsumn_ext. intros. ring. }
    rewrite rsumn_swap. rewrite (rsumn_ext K (fun j => nb j / rsumn K nb * (loss * _)) (fun j => loss * (nb j / rsumn K nb * re (qform n (part bs n wind nb fs b j) h)) + - loss * (rsumn n (fun m => nb j / rsumn K nb * (re (part bs n wind nb fs b j m m) * norm2 (h m)))))).
    2:{ intros j Hj. rewrite removed_form_re, rsumn_scal. ring. }
    rewrite rsumn_add, !rsumn_scal. rewrite (rsumn_ext K (fun j => re (qform n (scaled _ _) h)) (fun j => nb j / rsumn K nb * re (qform n (part bs n wind nb fs b j) h))) by (intros; apply scaled_form).
    ring.
  - assert (C0' : forall u, 0 <= clip_neg true u /\ u <= clip_neg true u) by (intros u; unfold clip_neg; destruct (Rlt_dec u 0); lra).
    split; [apply C0'|]. rewrite !mean_sum. unfold clip_neg at 1. destruct (Rlt_dec _ 0).
    + apply rsumn_nonneg. intros j Hj. apply Rmult_le_pos; [left; now apply WN|apply C0'].
    + apply rsumn_le. intros j Hj. apply Rmult_le_compat_l; [left; now apply WN|apply C0'].
Qed.
Print Assumptions C138_removed.

(** BeamformerFunctional, exponents from one on: the map of the whole is at least
    the mean of the maps. *)
Theorem C138_functional bs wind K nb fs b n r0 k r st gamma eva eve evw vw :
  measured bs wind K nb -> (0 < n)%nat -> 0 < r0 -> (forall m, (m < n)%nat -> 0 < r m) -> 1 <= gamma ->
  (forall j, (j < K)%nat -> is_eigh n (part bs n wind nb fs b j) (eva j) (eve j)) -> is_eigh n (whole bs n wind K nb fs b) evw vw ->
  mean K nb (fun j => bf_functional n npow gamma (eva j) (eve j) r0 k r st) <= bf_functional n npow gamma evw vw r0 k r st.
Proof.
  intros Hm Hn H0 Hr Hg Ej Ew. rewrite mean_sum.
  assert (Hh : forall j, hermitian n (part bs n wind nb fs b j)) by (intros; apply calc_csm_hermitian).
  assert (WN : forall j, (j < K)%nat -> 0 < nb j / rsumn K nb) by (intros; now apply (weight_nonneg bs wind K nb Hm)).
  assert (N1 : forall j, (j < K)%nat -> forall e, (e < n)%nat -> 0 <= eva j e).
  { intros j Hj. apply (eva_nonneg n _ (eva j) (eve j) (Hh j) (Ej j Hj)). intros x. now apply (part_sound bs n wind K nb fs b Hm). }
  pose proof (eva_nonneg n _ evw vw (calc_csm_hermitian _ _ _ _ _ _) Ew (whole_sound bs n wind K nb fs b Hm)) as N2.
  rewrite (rsumn_ext K _ (fun j => bf_functional n npow gamma (fun e => nb j / rsumn K nb * eva j e) (eve j) r0 k r st)).
  2:{ intros j Hj. symmetry. apply functional_scaled; auto; [lra|left; now apply WN]. }
  set (h := steer_vector n st (transfer r0 k r)).
  rewrite (rsumn_ext K _ (fun j => (npow (/ rsumn n (fun m => norm2 (h m))) gamma * rsumn n (fun m => norm2 (h m))) * npow (rsumn n (fun e => norm2 (inner n (fun i => eve j i e) h) * npow (nb j / rsumn K nb * eva j e) (1 / gamma))) gamma)).
  2:{ intros j Hj. rewrite (functional_form n r0 k r st Hn H0 Hr gamma) by (lra || (intros e He; apply Rmult_le_pos; [left; now apply WN|now apply N1])). apply Rmult_comm. }
  rewrite (functional_form n r0 k r st Hn H0 Hr gamma evw vw) by (lra || assumption). fold h. rewrite rsumn_scal, Rmult_comm.
  apply Rmult_le_compat_r; [left; exact (size_factor n r0 k r st Hn H0 Hr gamma)|].
  apply (power_sum_many n K (fun j => scaled (nb j / rsumn K nb) (part bs n wind nb fs b j)) (fun j e => nb j / rsumn K nb * eva j e) eve (whole bs n wind K nb fs b) evw vw); auto.
  - intros j Hj. now apply scaled_hermitian.
  - apply calc_csm_hermitian.
  - intros j Hj. apply scaled_eigh; [left; now apply WN|now apply Ej].
  - intros j Hj x. rewrite scaled_form. apply Rmult_le_pos; [left; now apply WN|now apply (part_sound bs n wind K nb fs b Hm)].
  - exact (whole_form bs n wind K nb fs b Hm).
Qed.
Print Assumptions C138_functional.

(** BeamformerCapon, all matrices with an inverse: at least the mean as well. *)
Theorem C138_capon bs wind K nb fs b n r0 k r st inv invw :
  measured bs wind K nb -> (0 < n)%nat -> 0 < r0 -> (forall m, (m < n)%nat -> 0 < r m) ->
  (forall j, (j < K)%nat -> positive_definite n (part bs n wind nb fs b j) /\ is_inverse n (part bs n wind nb fs b j) (inv j)) ->
  is_inverse n (whole bs n wind K nb fs b) invw ->
  exists x y, (forall j, (j < K)%nat -> capon n (inv j) r0 k r st = Some (x j)) /\ capon n invw r0 k r st = Some y /\ mean K nb x <= y.
Proof.
  intros Hm Hn H0 Hr Hp Iw. set (h := steer_vector n st (transfer r0 k r)).
  assert (Hh : forall j, hermitian n (part bs n wind nb fs b j)) by (intros; apply calc_csm_hermitian).
  assert (WN : forall j, (j < K)%nat -> 0 < nb j / rsumn K nb) by (intros; now apply (weight_nonneg bs wind K nb Hm)).
  assert (Hw : hermitian n (whole bs n wind K nb fs b)) by apply calc_csm_hermitian.
  assert (Pw : positive_definite n (whole bs n wind K nb fs b)).
  { intros x Nx. rewrite (whole_form bs n wind K nb fs b Hm). destruct Hm as (_ & _ & HK & _).
    apply Rlt_le_trans with (re (qform n (scaled (nb 0%nat / rsumn K nb) (part bs n wind nb fs b 0)) x)).
    - rewrite scaled_form. apply Rmult_lt_0_compat; [now apply WN|now apply (Hp 0%nat HK)].
    - apply (rsumn_term' K (fun j => re (qform n (scaled (nb j / rsumn K nb) (part bs n wind nb fs b j)) x))); [|assumption]. intros j Hj. rewrite scaled_form.
      left. apply Rmult_lt_0_compat; [now apply WN|now apply (Hp j Hj)]. }
  pose proof (lt_0_INR n Hn) as PN. set (N2 := INR n * INR n). assert (P2 : 0 < N2) by now apply Rmult_lt_0_compat.
  exists (fun j => 1 / (N2 * re (qform n (inv j) h))), (1 / (N2 * re (qform n invw h))).
  split; [intros j Hj; now apply (capon_eq n r0 k r Hn H0 Hr (part bs n wind nb fs b j)); [apply Hh|apply Hp|apply Hp]|].
  destruct (capon_eq n r0 k r Hn H0 Hr _ invw st Hw Iw Pw) as [Qw Ew]. fold h in Qw, Ew. split; [exact Ew|].
  pose proof (steer_nonzero n r0 k r Hn H0 Hr st) as Nz. fold h in Nz.
  pose proof (inverse_many n K (fun j => scaled (nb j / rsumn K nb) (part bs n wind nb fs b j)) (fun j => scaled (/ (nb j / rsumn K nb)) (inv j)) (whole bs n wind K nb fs b) invw h) as IM. cbv beta in IM.
  rewrite mean_sum. rewrite (rsumn_ext K _ (fun j => / N2 * / re (qform n (scaled (/ (nb j / rsumn K nb)) (inv j)) h))).
  - rewrite rsumn_scal. replace (1 / (N2 * re (qform n invw h))) with (/ N2 * / re (qform n invw h)) by (field; lra).
    apply Rmult_le_compat_l; [left; now apply Rinv_0_lt_compat|]. apply IM; auto; [|exact (whole_form bs n wind K nb fs b Hm)].
    intros j Hj. split; [now apply scaled_hermitian|]. split.
    + intros x Nx. rewrite scaled_form. apply Rmult_lt_0_compat; [now apply WN|now apply (Hp j Hj)].
    + intros p q Hp' Hq'. destruct (Hp j Hj) as [_ Ij]. specialize (WN j Hj). unfold scaled.
      rewrite (csum_ext n _ (fun l => RtoC (nb j / rsumn K nb * / (nb j / rsumn K nb)) * (part bs n wind nb fs b j p l * inv j l q))%C) by (intros; rewrite RtoC_mul; ring).
      rewrite csum_scal, Rinv_r by lra. rewrite (Ij p q Hp' Hq'). change (RtoC 1) with C1. ring.
  - intros j Hj. destruct (capon_eq n r0 k r Hn H0 Hr _ (inv j) st (Hh j) (proj2 (Hp j Hj)) (proj1 (Hp j Hj))) as [Qj _]. fold h in Qj. specialize (WN j Hj).
    rewrite scaled_form. set (w := nb j / rsumn K nb) in *. field. lra.
Qed.
Print Assumptions C138_capon.

(** Blocks with one impulse in their first sample: for two channels, with heights
    for which a block contributes the product of the given numbers. *)
Definition impulse (bs : nat) (a0 a1 : R) : list (list R) := [INR bs * a0; INR bs * a1] :: repeat [0; 0] (bs - 1).
Definition rect (_ : nat) : R := 1.

Lemma impulse_spectrum bs b a0 a1 c : (0 < bs)%nat -> (c < 2)%nat ->
  frame_spectrum bs rect b (impulse bs a0 a1) c = RtoC (INR bs * if (c =? 0)%nat then a0 else a1).
Proof.
  intros Hb Hc. unfold frame_spectrum, rfft, dft. rewrite (csum_single bs 0); [|assumption|].
  - cbn [Nat.mul]. rewrite w_0. unfold col, impulse, rect. cbn [nth]. destruct c as [|[|]]; [| |lia]; cbn [nth Nat.eqb];
      unfold RtoC, Conj, Cmul, C1; cbn [fst snd]; f_equal; ring.
  - intros j Hj Nj. destruct j as [|j]; [lia|]. unfold col, impulse, rect. cbn [nth].
    assert (Z : nth c (nth j (repeat [0; 0] (bs - 1)) []) 0 = 0).
    { rewrite (nth_indep _ _ [0; 0]) by (rewrite repeat_length; lia). rewrite nth_repeat. destruct c as [|[|]]; [| |lia]; reflexivity. }
    rewrite Z. unfold RtoC, Conj, Cmul, C0. cbn [fst snd]. f_equal; ring.
Qed.

Lemma impulse_csm bs b nb l i k : (0 < bs)%nat -> 0 < nb -> (i < 2)%nat -> (k < 2)%nat ->
  calc_csm bs 2 rect nb (map (fun a => impulse bs (fst a) (snd a)) l) b i k
  = RtoC (2 / nb * rsumn (length l) (fun e => (if (i =? 0)%nat then fst (nth e l (0, 0)) else snd (nth e l (0, 0)))
                                             * (if (k =? 0)%nat then fst (nth e l (0, 0)) else snd (nth e l (0, 0))))).
Proof.
  intros Hb Hn Hi Hk. rewrite calc_csm_entry by assumption. rewrite map_length.
  pose proof (lt_0_INR bs Hb) as PB.
  assert (W : rsumn bs (fun j => rect j * rect j) = INR bs).
  { unfold rect. rewrite (rsumn_ext bs _ (fun _ => 1)) by (intros; ring). rewrite rsumn_const. ring. }
  rewrite W.
  assert (E : forall m, (m <= length l)%nat -> csum m (fun e => frame_spectrum bs rect b (nth e (map (fun a => impulse bs (fst a) (snd a)) l) []) i
      * Conj (frame_spectrum bs rect b (nth e (map (fun a => impulse bs (fst a) (snd a)) l) []) k))%C
    = RtoC (INR bs * INR bs * rsumn m (fun e => (if (i =? 0)%nat then fst (nth e l (0, 0)) else snd (nth e l (0, 0)))
                                             * (if (k =? 0)%nat then fst (nth e l (0, 0)) else snd (nth e l (0, 0)))))).
  { induction m as [|m IH]; intros Hm; cbn [csum rsumn]; [change C0 with (RtoC 0); f_equal; ring|].
    rewrite IH by lia. rewrite (nth_indep _ [] (impulse bs (fst (0, 0)) (snd (0, 0)))) by (rewrite map_length; lia).
    rewrite (map_nth (fun a => impulse bs (fst a) (snd a))). rewrite !impulse_spectrum by assumption.
    rewrite Conj_RtoC, <- RtoC_mul, <- RtoC_add. f_equal. ring. }
  rewrite E by lia. rewrite <- RtoC_mul. f_equal. field. lra.
Qed.

(** Two parts of two blocks each: in the first part channel 1 is louder, in the
    second part channel 0. *)
Definition loud (j : nat) : list (R * R) := if (j =? 0)%nat then [(1, 0); (0, 2)] else [(2, 0); (0, 1)].
Definition loud_blocks (j : nat) : list (list (list R)) := map (fun a => impulse 128 (fst a) (snd a)) (loud j).
Definition two_each (_ : nat) : R := 2.
Definition loud_part := part 128 2 rect two_each loud_blocks 8.
Definition loud_whole := whole 128 2 rect 2 two_each loud_blocks 8.

Definition diag2 (a0 a1 : R) (i k : nat) : C := if (i =? k)%nat then RtoC (if (i =? 0)%nat then a0 else a1) else C0.

Lemma loud_part_eq j i k : (j < 2)%nat -> (i < 2)%nat -> (k < 2)%nat ->
  loud_part j i k = (if (j =? 0)%nat then diag2 1 4 i k else diag2 4 1 i k).
Proof.
  intros Hj Hi Hk. unfold loud_part, part, loud_blocks, two_each. rewrite impulse_csm by (lia || lra).
  destruct j as [|[|]]; [| |lia]; (destruct i as [|[|]]; [| |lia]); (destruct k as [|[|]]; [| |lia]);
    unfold loud, diag2; cbn [Nat.eqb length rsumn nth fst snd]; try change C0 with (RtoC 0); f_equal; field.
Qed.
Lemma loud_whole_eq i k : (i < 2)%nat -> (k < 2)%nat -> loud_whole i k = diag2 (5 / 2) (5 / 2) i k.
Proof.
  intros Hi Hk. unfold loud_whole, whole.
  replace (concat (map loud_blocks (seq 0 2))) with (map (fun a => impulse 128 (fst a) (snd a)) (loud 0 ++ loud 1)) by (rewrite map_app; cbn [seq map concat]; now rewrite app_nil_r).
  rewrite impulse_csm; try lia; [|unfold two_each; cbn [rsumn]; lra].
  (destruct i as [|[|]]; [| |lia]); (destruct k as [|[|]]; [| |lia]);
    unfold loud, diag2, two_each; cbn [Nat.eqb length rsumn nth fst snd app]; try change C0 with (RtoC 0); f_equal; field.
Qed.

Lemma rect_measured K nb : (0 < K)%nat -> (forall j, (j < K)%nat -> 0 < nb j) -> measured 128 rect K nb.
Proof.
  intros HK Hn. split; [lia|]. split; [|now split]. unfold rect. rewrite (rsumn_ext 128 _ (fun _ => 1)) by (intros; ring).
  rewrite rsumn_const, Rmult_1_r. apply lt_0_INR. lia.
Qed.

Definition swap_eve (m e : nat) : C := if (m =? e)%nat then C0 else C1.
Definition loud_eva (e : nat) : R := if (e =? 0)%nat then 1 else 4.
Definition loud_eve (j : nat) : nat -> nat -> C := if (j =? 0)%nat then unit_eve else swap_eve.

Lemma loud_part_eigh j : (j < 2)%nat -> is_eigh 2 (loud_part j) loud_eva (loud_eve j).
Proof.
  intros Hj. split; [|split].
  - intros e i He Hi. cbn [csum]. rewrite !loud_part_eq by lia. destruct j as [|[|]]; [| |lia]; (destruct i as [|[|]]; [| |lia]); (destruct e as [|[|]]; [| |lia]);
      unfold loud_eve, diag2, unit_eve, swap_eve, loud_eva; cbn [Nat.eqb]; unfold RtoC, Cadd, Cmul, C0, C1; cbn [fst snd]; f_equal; ring.
  - intros e f He Hf. cbn [csum]. destruct j as [|[|]]; [| |lia]; (destruct e as [|[|]]; [| |lia]); (destruct f as [|[|]]; [| |lia]);
      unfold loud_eve, unit_eve, swap_eve; cbn [Nat.eqb]; unfold Conj, Cadd, Cmul, C0, C1; cbn [fst snd]; f_equal; ring.
  - intros e f L Hf. destruct e as [|[|]]; [| |lia]; (destruct f as [|[|]]; [| |lia]); unfold loud_eva; cbn [Nat.eqb]; (lra || lia).
Qed.
Lemma loud_whole_eigh : is_eigh 2 loud_whole (fun _ => 5 / 2) unit_eve.
Proof.
  split; [|split].
  - intros e i He Hi. cbn [csum]. rewrite !loud_whole_eq by lia. (destruct i as [|[|]]; [| |lia]); (destruct e as [|[|]]; [| |lia]);
      unfold diag2, unit_eve; cbn [Nat.eqb]; unfold RtoC, Cadd, Cmul, C0, C1; cbn [fst snd]; f_equal; ring.
  - intros e f He Hf. cbn [csum]. (destruct e as [|[|]]; [| |lia]); (destruct f as [|[|]]; [| |lia]);
      unfold unit_eve; cbn [Nat.eqb]; unfold Conj, Cadd, Cmul, C0, C1; cbn [fst snd]; f_equal; ring.
  - intros; lra.
Qed.

Definition loud_inv (j : nat) : nat -> nat -> C := if (j =? 0)%nat then diag2 1 (1 / 4) else diag2 (1 / 4) 1.
Lemma loud_part_inverse j : (j < 2)%nat -> positive_definite 2 (loud_part j) /\ is_inverse 2 (loud_part j) (loud_inv j).
Proof.
  intros Hj. split.
  - intros x (m & Hm & N). unfold qform. cbn [csum]. rewrite !loud_part_eq by lia.
    pose proof (norm2_nonneg (x 0%nat)) as A. pose proof (norm2_nonneg (x 1%nat)) as B. pose proof (norm2_pos (x m) N) as P.
    assert (S : 0 < norm2 (x 0%nat) + norm2 (x 1%nat)) by (destruct m as [|[|]]; [| |lia]; lra). clear m Hm N P.
    destruct j as [|[|]]; [| |lia]; unfold diag2; cbn [Nat.eqb]; revert A B S; unfold norm2, re, RtoC, Conj, Cadd, Cmul, C0; cbn [fst snd]; intros A B S; nra.
  - intros i k Hi Hk. cbn [csum]. rewrite !loud_part_eq by lia. destruct j as [|[|]]; [| |lia]; (destruct i as [|[|]]; [| |lia]); (destruct k as [|[|]]; [| |lia]);
      unfold loud_inv, diag2; cbn [Nat.eqb]; unfold RtoC, Cadd, Cmul, C0, C1; cbn [fst snd]; f_equal; field.
Qed.
Lemma loud_whole_inverse : is_inverse 2 loud_whole (diag2 (2 / 5) (2 / 5)).
Proof.
  intros i k Hi Hk. cbn [csum]. rewrite !loud_whole_eq by lia. (destruct i as [|[|]]; [| |lia]); (destruct k as [|[|]]; [| |lia]);
    unfold diag2; cbn [Nat.eqb]; unfold RtoC, Cadd, Cmul, C0, C1; cbn [fst snd]; f_equal; field.
Qed.

(** BeamformerFunctional: the map of the whole is not the mean of the maps. *)
Theorem C138_functional_refuted : exists bs wind K nb fs b n r0 k (r : nat -> R) st gamma eva eve evw vw,
  measured bs wind K nb /\ (0 < n)%nat /\ 0 < r0 /\ (forall m, (m < n)%nat -> 0 < r m) /\ 1 <= gamma
  /\ (forall j, (j < K)%nat -> is_eigh n (part bs n wind nb fs b j) (eva j) (eve j)) /\ is_eigh n (whole bs n wind K nb fs b) evw vw
  /\ mean K nb (fun j => bf_functional n npow gamma (eva j) (eve j) r0 k r st) < bf_functional n npow gamma evw vw r0 k r st.
Proof.
  exists 128%nat, rect, 2%nat, two_each, loud_blocks, 8%nat, 2%nat, (two_r0 0), PI, (two_r 0), TrueLevel, 2, (fun _ => loud_eva), loud_eve, (fun _ => 5 / 2), unit_eve.
  destruct C132_case as (_ & P0 & P1 & _).
  split; [apply rect_measured; [lia|intros; unfold two_each; lra]|]. split; [lia|]. split; [apply P0|]. split; [intros; apply P1|]. split; [lra|].
  split; [exact loud_part_eigh|]. split; [exact loud_whole_eigh|].
  unfold mean, two_each. cbn [rsumn].
  assert (N1 : forall e, (e < 2)%nat -> 0 <= loud_eva e) by (intros e _; unfold loud_eva; destruct (e =? 0)%nat; lra).
  assert (N2 : forall e, (e < 2)%nat -> 0 <= (fun _ : nat => 5 / 2) e) by (intros; lra).
  rewrite !(functional_form 2 (two_r0 0) PI (two_r 0) TrueLevel ltac:(lia) (P0 _) (fun m _ => P1 _ m) 2) by (lra || assumption).
  pose proof (size_factor 2 (two_r0 0) PI (two_r 0) TrueLevel ltac:(lia) (P0 _) (fun m _ => P1 _ m) 2) as SF.
  set (q := npow (/ _) 2 * _) in *.
  assert (RT : forall u v, 0 <= v -> u = v * v -> npow u (1 / 2) = v).
  { intros u v Hv ->. rewrite <- npow_2, npow_npow by assumption. replace (2 * (1 / 2)) with 1 by field. now apply npow_1. }
  pose proof (RT 1 1 ltac:(lra) ltac:(lra)) as R1. pose proof (RT 4 2 ltac:(lra) ltac:(lra)) as R4.
  assert (R5 : npow (5 / 2) (1 / 2) = sqrt (5 / 2)) by (apply RT; [apply sqrt_pos|rewrite sqrt_sqrt; lra]).
  pose proof (sqrt_sqrt (5 / 2) ltac:(lra)) as Q5. pose proof (sqrt_pos (5 / 2)) as S5.
  unfold inner. cbn [csum rsumn]. rewrite !near_steer by lia. unfold loud_eve, loud_eva, unit_eve, swap_eve. cbn [Nat.eqb]. rewrite R1, R4, R5.
  unfold norm2, RtoC, Conj, Cadd, Cmul, C0, C1. cbn [fst snd]. set (s := sqrt (5 / 2)) in *.
  rewrite !npow_2 by lra. match goal with |- ?a < ?b => replace a with (936 / 625 * q) by field; replace b with (16 / 25 * (s * s) * q) by field end.
  rewrite Q5. apply Rmult_lt_compat_r; [exact SF|lra].
Qed.
Print Assumptions C138_functional_refuted.

(** BeamformerCapon: nor here. *)
Theorem C138_capon_refuted : exists bs wind K nb fs b n r0 k (r : nat -> R) st inv invw x y,
  measured bs wind K nb /\ (0 < n)%nat /\ 0 < r0 /\ (forall m, (m < n)%nat -> 0 < r m)
  /\ (forall j, (j < K)%nat -> positive_definite n (part bs n wind nb fs b j) /\ is_inverse n (part bs n wind nb fs b j) (inv j))
  /\ is_inverse n (whole bs n wind K nb fs b) invw
  /\ (forall j, (j < K)%nat -> capon n (inv j) r0 k r st = Some (x j)) /\ capon n invw r0 k r st = Some y /\ mean K nb x < y.
Proof.
  destruct C132_case as (_ & P0 & P1 & _).
  exists 128%nat, rect, 2%nat, two_each, loud_blocks, 8%nat, 2%nat, (two_r0 0), PI, (two_r 0), TrueLevel, loud_inv, (diag2 (2 / 5) (2 / 5)),
    (fun j => if (j =? 0)%nat then 25 / 68 else 25 / 32), (25 / 32).
  split; [apply rect_measured; [lia|intros; unfold two_each; lra]|]. split; [lia|]. split; [apply P0|]. split; [intros; apply P1|].
  split; [exact loud_part_inverse|]. split; [exact loud_whole_inverse|].
  assert (F : forall a0 a1, re (qform 2 (diag2 a0 a1) (steer_vector 2 TrueLevel (transfer (two_r0 0) PI (two_r 0)))) = 16 / 25 * a0 + 4 / 25 * a1).
  { intros a0 a1. unfold qform. cbn [csum]. rewrite !near_steer by lia. unfold diag2. cbn [Nat.eqb]. unfold re, RtoC, Conj, Cadd, Cmul, C0. cbn [fst snd]. field. }
  assert (PW : positive_definite 2 loud_whole).
  { intros x (m & Hm & N). unfold qform. cbn [csum]. rewrite !loud_whole_eq by lia.
    pose proof (norm2_nonneg (x 0%nat)) as A. pose proof (norm2_nonneg (x 1%nat)) as B. pose proof (norm2_pos (x m) N) as P.
    assert (S : 0 < norm2 (x 0%nat) + norm2 (x 1%nat)) by (destruct m as [|[|]]; [| |lia]; lra). clear m Hm N P.
    unfold diag2; cbn [Nat.eqb]; revert A B S; unfold norm2, re, RtoC, Conj, Cadd, Cmul, C0; cbn [fst snd]; intros A B S; nra. }
  split; [|split].
  - intros j Hj. destruct (loud_part_inverse j Hj) as [PJ IJ].
    destruct (capon_eq 2 (two_r0 0) PI (two_r 0) ltac:(lia) (P0 _) (fun m _ => P1 _ m) _ _ TrueLevel (calc_csm_hermitian _ _ _ _ _ _) IJ PJ) as [_ ->].
    f_equal. destruct j as [|[|]]; [| |lia]; unfold loud_inv; cbn [Nat.eqb]; rewrite F; cbn [INR]; field.
  - destruct (capon_eq 2 (two_r0 0) PI (two_r 0) ltac:(lia) (P0 _) (fun m _ => P1 _ m) _ _ TrueLevel (calc_csm_hermitian _ _ _ _ _ _) loud_whole_inverse PW) as [_ ->].
    f_equal. rewrite F. cbn [INR]. field.
  - unfold mean, two_each. cbn [rsumn Nat.eqb]. lra.
Qed.
Print Assumptions C138_capon_refuted.

Definition turned (j : nat) : list (R * R) := if (j =? 0)%nat then [(1, 1)] else [(1, -1)].
Definition turned_blocks (j : nat) : list (list (list R)) := map (fun a => impulse 128 (fst a) (snd a)) (turned j).

(** With removed diagonal equality is lost to the clipping: here the sound of the two
    parts cancels off the diagonal, the map of the whole is 0 and the mean is not. *)
Theorem C138_removed_refuted : exists bs wind K nb fs b n r0 k (r : nat -> R) st rdn x y,
  measured bs wind K nb /\ (0 < n)%nat /\ 0 < r0 /\ (forall m, (m < n)%nat -> 0 < r m)
  /\ (forall j, (j < K)%nat -> bf_base n (part bs n wind nb fs b j) r0 k r true rdn st = Some (x j))
  /\ bf_base n (whole bs n wind K nb fs b) r0 k r true rdn st = Some y /\ y = 0 /\ 0 < mean K nb x.
Proof.
  destruct C132_case as (_ & P0 & P1 & _).
  exists 128%nat, rect, 2%nat, (fun _ => 1), turned_blocks, 8%nat, 2%nat, (two_r0 0), PI, (two_r 0), TrueLevel, 1, (fun j => if (j =? 0)%nat then 0 else 32 / 25), 0.
  split; [apply rect_measured; [lia|intros; lra]|]. split; [lia|]. split; [apply P0|]. split; [intros; apply P1|].
  assert (F : forall c s, hermitian 2 c -> c 0%nat 1%nat = RtoC s -> c 1%nat 0%nat = RtoC s ->
    bf_base 2 c (two_r0 0) PI (two_r 0) true 1 TrueLevel = Some (clip_neg true (- (16 / 25) * s))).
  { intros c s Hc E1 E2. unfold bf_base, sig_loss_norm. destruct (Req_EM_T 1 0); [lra|].
    pose proof (bf_quadratic 2 (two_r0 0) PI (two_r 0) ltac:(lia) (P0 _) (fun m _ => P1 _ m) c 1 true TrueLevel Hc) as Q. apply (f_equal re) in Q. rewrite re_RtoC_mul in Q.
    cbn [re RtoC fst] in Q. rewrite Q. f_equal. f_equal. rewrite Rmult_1_l. unfold qform. cbn [csum]. rewrite !near_steer by lia. unfold off_diag. cbn [Nat.eqb]. rewrite E1, E2.
    unfold re, RtoC, Conj, Cadd, Cmul, C0. cbn [fst snd]. field. }
  split; [|split; [|split]].
  - intros j Hj. rewrite (F _ (if (j =? 0)%nat then 2 else -2)); [|apply calc_csm_hermitian| |].
    2-3: unfold part, turned_blocks; rewrite impulse_csm by (lia || lra); destruct j as [|[|]]; [| |lia]; unfold turned; cbn [Nat.eqb length rsumn nth fst snd]; f_equal; field.
    f_equal. destruct j as [|[|]]; [| |lia]; cbn [Nat.eqb]; unfold clip_neg; destruct (Rlt_dec _ 0); lra.
  - rewrite (F _ 0); [|apply calc_csm_hermitian| |].
    2-3: unfold whole; replace (concat (map turned_blocks (seq 0 2))) with (map (fun a => impulse 128 (fst a) (snd a)) (turned 0 ++ turned 1)) by (rewrite map_app; cbn [seq map concat]; now rewrite app_nil_r);
      (rewrite impulse_csm; try lia; [|cbn [rsumn]; lra]); unfold turned; cbn [Nat.eqb length rsumn nth fst snd app]; f_equal; field.
    f_equal. unfold clip_neg. destruct (Rlt_dec _ 0); lra.
  - reflexivity.
  - unfold mean. cbn [rsumn Nat.eqb]. lra.
Qed.
Print Assumptions C138_removed_refuted.

(** The hypotheses can be met by the two parts above. *)
Example C138_case :
  measured 128 rect 2 two_each /\ sig_loss_norm 2 true 1 = Some 1
  /\ (forall j, (j < 2)%nat -> is_eigh 2 (part 128 2 rect two_each loud_blocks 8 j) loud_eva (loud_eve j))
  /\ is_eigh 2 (whole 128 2 rect 2 two_each loud_blocks 8) (fun _ => 5 / 2) unit_eve
  /\ (forall j, (j < 2)%nat -> positive_definite 2 (part 128 2 rect two_each loud_blocks 8 j) /\ is_inverse 2 (part 128 2 rect two_each loud_blocks 8 j) (loud_inv j))
  /\ is_inverse 2 (whole 128 2 rect 2 two_each loud_blocks 8) (diag2 (2 / 5) (2 / 5)).
Proof.
  split; [apply rect_measured; [lia|intros; unfold two_each; lra]|]. split; [unfold sig_loss_norm; destruct (Req_EM_T 1 0); [lra|reflexivity]|].
  split; [exact loud_part_eigh|]. split; [exact loud_whole_eigh|]. split; [exact loud_part_inverse|exact loud_whole_inverse].
Qed.
