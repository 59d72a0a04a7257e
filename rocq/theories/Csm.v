(** The cross spectral matrix: calcCSM (/repo/acoular/fastFuncs.py:28-55) and
    PowerSpectra.calc_csm (/repo/acoular/spectra.py:385-401), over real samples. *)
From Coq Require Import List Arith Lia ZArith Bool Reals Lra.
From Verif Require Import Stream Cplx Buffer Frames Convolve Fourier Beamform.
Import ListNotations.
Local Open Scope R_scope.
Local Open Scope C_scope.

(** calcCSM at one frequency: the entries with row <= column < n are
    incremented; every entry is written once. *)
Definition calcCSM (n : nat) (csm : nat -> nat -> C) (x : nat -> C) (row col : nat) : C :=
  if (col <? n)%nat && (row <? col + 1)%nat then csm row col + Conj (x col) * x row else csm row col.

(** spectra.py:397-399: csm_lower = conjugate transpose with zero diagonal, csm = csm_lower + csm_upper. *)
Definition complete (upper : nat -> nat -> C) (row col : nat) : C :=
  (if (row =? col)%nat then C0 else Conj (upper col row)) + upper row col.

(** PowerSpectra.calc_csm, spectra.py:385-401, frequency [b]; [frames] is what
    _get_source_data yields, [nb] the (real) number of blocks. *)
Definition frame_spectrum (bs : nat) (wind : nat -> R) (b : nat) (frame : list (list R)) (c : nat) : C :=
  rfft bs (fun j => col c frame j * wind j)%R b.

Definition calc_csm (bs N : nat) (wind : nat -> R) (nb : R) (frames : list (list (list R))) (b : nat)
    (row col : nat) : C :=
  let weight := rsumn bs (fun j => wind j * wind j)%R in
  let upper := fold_left (fun csm f => calcCSM N csm (frame_spectrum bs wind b f)) frames (fun _ _ => C0) in
  complete upper row col * RtoC (2 / INR bs / weight / nb).

(** The matrix of a PowerSpectra object over a source that reports [n] samples. *)
Definition power_spectra_csm (garbage : nat -> list R) (bs ov N : nat) (wind : nat -> R) (n : nat)
    (src : source (list R)) (b row col : nat) : C :=
  calc_csm bs N wind (num_blocks ov n bs) (blocks (get_source_data garbage bs ov src)) b row col.

(* ------------------------------------------------------------------ *)

Lemma fold_calcCSM n xs : forall csm row col,
  fold_left (fun c x => calcCSM n c x) xs csm row col
  = if (col <? n)%nat && (row <? col + 1)%nat
    then csm row col + csum (length xs) (fun i => Conj (nth i xs (fun _ => C0) col) * nth i xs (fun _ => C0) row)
    else csm row col.
Proof.
  induction xs as [|x xs IH]; intros csm row col; cbn [fold_left length].
  - destruct (_ && _); [cbn; ring|reflexivity].
  - rewrite IH. unfold calcCSM. destruct (_ && _) eqn:E; [|reflexivity].
    rewrite csum_first. cbn [nth]. ring.
Qed.

Lemma fold_left_map {A B D} (f : D -> B -> D) (g : A -> B) l d :
  fold_left f (map g l) d = fold_left (fun d a => f d (g a)) l d.
Proof. revert d. induction l as [|a l IH]; intros d; cbn; auto. Qed.

(** Entry (row, col) is the scaled sum of X_row conj(X_col) over the frames. *)
Lemma calc_csm_entry bs N wind nb frames b row col : (row < N)%nat -> (col < N)%nat ->
  calc_csm bs N wind nb frames b row col
  = RtoC (2 / INR bs / rsumn bs (fun j => wind j * wind j)%R / nb)
    * csum (length frames) (fun i =>
        frame_spectrum bs wind b (nth i frames []) row * Conj (frame_spectrum bs wind b (nth i frames []) col)).
Proof.
  intros Hr Hc. unfold calc_csm. cbv zeta.
  set (sc := RtoC (2 / INR bs / _ / nb)).
  assert (F : forall r c, (r < N)%nat -> (c < N)%nat -> (r <= c)%nat ->
    fold_left (fun csm f => calcCSM N csm (frame_spectrum bs wind b f)) frames (fun _ _ => C0) r c
    = csum (length frames) (fun i =>
        frame_spectrum bs wind b (nth i frames []) r * Conj (frame_spectrum bs wind b (nth i frames []) c))).
  { intros r c Hr' Hc' Hle.
    rewrite <- (fold_left_map (calcCSM N) (frame_spectrum bs wind b) frames).
    rewrite (fold_calcCSM N). rewrite map_length.
    destruct (Nat.ltb_spec c N); [|lia]. destruct (Nat.ltb_spec r (c + 1)); [|lia]. cbn [andb].
    rewrite (csum_ext _ _ (fun i =>
        frame_spectrum bs wind b (nth i frames []) r * Conj (frame_spectrum bs wind b (nth i frames []) c))).
    - ring.
    - intros i Hi.
      rewrite (nth_indep _ (fun _ => C0) (frame_spectrum bs wind b [])) by (now rewrite map_length).
      rewrite (map_nth (frame_spectrum bs wind b)). ring. }
  assert (Z : forall r c, (c < r)%nat ->
    fold_left (fun csm f => calcCSM N csm (frame_spectrum bs wind b f)) frames (fun _ _ => C0) r c = C0).
  { intros r c Hlt. rewrite <- (fold_left_map (calcCSM N) (frame_spectrum bs wind b) frames).
    rewrite (fold_calcCSM N). destruct (Nat.ltb_spec r (c + 1)); [lia|]. now rewrite Bool.andb_false_r. }
  unfold complete. destruct (Nat.eqb_spec row col) as [->|Hne].
  - rewrite F by lia. ring.
  - destruct (Nat.lt_ge_cases row col).
    + rewrite (Z col row) by lia. rewrite F by lia. rewrite Conj_0. ring.
    + rewrite (Z row col) by lia. rewrite F by lia. rewrite csum_conj.
      rewrite (csum_ext _ (fun k => Conj _) (fun i =>
        frame_spectrum bs wind b (nth i frames []) row * Conj (frame_spectrum bs wind b (nth i frames []) col)))
        by (intros; rewrite Conj_mul, Conj_invol; ring).
      ring.
Qed.

Lemma calc_csm_hermitian bs N wind nb frames b : hermitian N (calc_csm bs N wind nb frames b).
Proof.
  intros i j Hi Hj. rewrite !calc_csm_entry by assumption. rewrite Conj_mul, Conj_RtoC, csum_conj. f_equal.
  apply csum_ext. intros k _. rewrite Conj_mul, Conj_invol. ring.
Qed.

Lemma calc_csm_qform bs N wind nb frames b h :
  qform N (calc_csm bs N wind nb frames b) h
  = RtoC (2 / INR bs / rsumn bs (fun j => wind j * wind j)%R / nb
          * rsumn (length frames) (fun i => norm2 (inner N h (frame_spectrum bs wind b (nth i frames []))))).
Proof.
  unfold qform. set (sc := (2 / INR bs / _ / nb)%R).
  rewrite RtoC_mul, <- csum_RtoC, <- csum_scal.
  rewrite (csum_ext N _ (fun i => csum (length frames) (fun f => csum N (fun j =>
     RtoC sc * ((Conj (h i) * frame_spectrum bs wind b (nth f frames []) i)
       * Conj (Conj (h j) * frame_spectrum bs wind b (nth f frames []) j)))))).
  - rewrite csum_swap. apply csum_ext. intros f _. unfold inner. rewrite norm2_csum, <- csum_scal.
    apply csum_ext. intros i _. rewrite csum_scal. reflexivity.
  - intros i Hi. rewrite csum_swap. apply csum_ext. intros j Hj.
    rewrite calc_csm_entry by assumption. fold sc. rewrite csum_scal.
    rewrite (csum_ext _ (fun k => Conj (h i) * _ * Conj _)
      (fun k => (Conj (h i) * h j) * (frame_spectrum bs wind b (nth k frames []) i * Conj (frame_spectrum bs wind b (nth k frames []) j))))
      by (intros; rewrite Conj_mul, Conj_invol; ring).
    rewrite csum_scal. ring.
Qed.

Lemma num_blocks_pos ov n bs : (0 < bs)%nat -> (bs <= n)%nat -> (0 < num_blocks ov n bs)%R.
Proof.
  intros Hb Hn. unfold num_blocks. apply le_INR in Hn. apply lt_0_INR in Hb. pose proof (pos_INR ov).
  assert (INR ov <= INR ov * INR n / INR bs)%R.
  { apply Rmult_le_reg_r with (INR bs); [assumption|].
    replace (INR ov * INR n / INR bs * INR bs)%R with (INR ov * INR n)%R by (field; lra).
    now apply Rmult_le_compat_l. }
  lra.
Qed.

(** The collected statement. *)
Theorem csm_spec garbage bs ov N wind (src : source (list R)) s b :
  wf_source src s -> (0 < bs)%nat -> (0 < ov)%nat -> (bs <= length s)%nat ->
  (0 < rsumn bs (fun j => wind j * wind j))%R ->
  let csm := power_spectra_csm garbage bs ov N wind (length s) src b in
  let X := fun k c => rfft bs (fun j => col c (window (k * bs / ov) bs s) j * wind j)%R b in
  let K := frame_count bs ov (length s) in
  let weight := rsumn bs (fun j => wind j * wind j)%R in
  (forall r c, (r < N)%nat -> (c < N)%nat ->
     csm r c = RtoC (2 / (INR bs * weight)) * (csum K (fun k => X k r * Conj (X k c)) / RtoC (num_blocks ov (length s) bs)))
  /\ (forall r c, (r < N)%nat -> (c < N)%nat -> csm c r = Conj (csm r c))
  /\ (forall r, (r < N)%nat -> exists x, csm r r = RtoC x /\ (0 <= x)%R)
  /\ (forall h, exists x, csum N (fun i => csum N (fun j => Conj (h i) * csm i j * h j)) = RtoC x /\ (0 <= x)%R).
Proof.
  intros Hw Hb Ho Hl Hwt csm X K weight. unfold csm, power_spectra_csm.
  rewrite (get_source_data_frames garbage bs ov src s) by assumption. cbn [blocks done].
  pose proof (num_blocks_pos ov (length s) bs Hb Hl) as Hnb.
  assert (Hbs : (0 < INR bs)%R) by now apply lt_0_INR.
  set (nb := num_blocks ov (length s) bs) in *.
  assert (Ent : forall r c, (r < N)%nat -> (c < N)%nat ->
    calc_csm bs N wind nb (frames_of bs ov s) b r c
    = RtoC (2 / (INR bs * weight)) * (csum K (fun k => X k r * Conj (X k c)) / RtoC nb)).
  { intros r c Hr Hc. rewrite calc_csm_entry by assumption. fold weight.
    assert (El : length (frames_of bs ov s) = K) by (unfold frames_of; now rewrite map_length, seq_length).
    rewrite El.
    rewrite (csum_ext K _ (fun k => X k r * Conj (X k c))).
    - replace (2 / INR bs / weight / nb)%R with (2 / (INR bs * weight) * / nb)%R.
      + rewrite RtoC_mul, RtoC_inv by lra. unfold Cdiv. ring.
      + field. fold weight in Hwt. lra.
    - intros k Hk. unfold frames_of. rewrite nth_map_seq by assumption. reflexivity. }
  assert (Hpsd : forall h, exists x,
     csum N (fun i => csum N (fun j => Conj (h i) * calc_csm bs N wind nb (frames_of bs ov s) b i j * h j)) = RtoC x
     /\ (0 <= x)%R).
  { intros h. eexists. split; [apply (calc_csm_qform bs N wind nb (frames_of bs ov s) b h)|].
    apply Rmult_le_pos.
    - fold weight. fold weight in Hwt. apply Rlt_le.
      repeat apply Rdiv_lt_0_compat; try assumption. lra.
    - apply rsumn_nonneg. intros. apply norm2_nonneg. }
  repeat match goal with |- _ /\ _ => split end.
  - exact Ent.
  - intros r c Hr Hc. apply calc_csm_hermitian; assumption.
  - intros r Hr. rewrite Ent by assumption.
    exists (2 / (INR bs * weight) * (rsumn K (fun k => norm2 (X k r)) / nb))%R. split.
    + rewrite RtoC_mul, (RtoC_div _ nb), <- csum_RtoC by lra. f_equal. f_equal.
      apply csum_ext. intros k _. apply mul_Conj.
    + fold weight in Hwt. apply Rmult_le_pos.
      * apply Rlt_le, Rdiv_lt_0_compat; [lra|]. now apply Rmult_lt_0_compat.
      * unfold Rdiv. apply Rmult_le_pos; [apply rsumn_nonneg; intros; apply norm2_nonneg|].
        now apply Rlt_le, Rinv_0_lt_compat.
  - exact Hpsd.
Qed.

(** A beamforming map of measured data without diagonal removal is non-negative. *)
Theorem map_of_data_nonneg garbage bs ov N wind (src : source (list R)) s b r0 k r st rdn :
  wf_source src s -> (0 < bs)%nat -> (0 < ov)%nat -> (bs <= length s)%nat ->
  (0 < rsumn bs (fun j => wind j * wind j))%R ->
  (0 < N)%nat -> (0 < r0)%R -> (forall m, (m < N)%nat -> (0 < r m)%R) ->
  exists x, bf_base N (power_spectra_csm garbage bs ov N wind (length s) src b) r0 k r false rdn st = Some x
    /\ (0 <= x)%R.
Proof.
  intros Hw Hb Ho Hl Hwt HN H0 Hr.
  destruct (csm_spec garbage bs ov N wind src s b Hw Hb Ho Hl Hwt) as (_ & Hh & _ & Hq).
  set (csm := power_spectra_csm garbage bs ov N wind (length s) src b) in *.
  assert (Hherm : hermitian N csm) by (intros i j Hi Hj; now apply Hh).
  eexists. split; [reflexivity|]. unfold clip_neg.
  destruct (Hq (steer_vector N st (transfer r0 k r))) as (x & E & Hx).
  pose proof (bf_quadratic N r0 k r HN H0 Hr csm 1 false st Hherm) as B.
  unfold qform in B. rewrite E in B. rewrite <- RtoC_mul in B. apply RtoC_inj in B. lra.
Qed.
