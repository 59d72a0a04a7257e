(** Property theorems C30-C36: cross spectral matrix, frequency-domain
    beamforming, point spread functions. *)
From Coq Require Import List Arith Lia ZArith Bool Reals Lra.
From Verif Require Import Stream Sources Cplx Buffer Frames Convolve Fourier Beamform Csm Psf.
Import ListNotations.
Local Open Scope R_scope.
Local Open Scope C_scope.

(** C30.  The cross spectral matrix of a PowerSpectra object over any source
    that delivers the rows [s]: every entry (not only those of the triangle
    that is computed) is the scaled sum of X_r conj(X_c) over the complete
    frames, the matrix is Hermitian with real non-negative diagonal and every
    quadratic form is real and non-negative.  ([num_blocks] stands where the
    number of frames should, see C10.) *)
Theorem C30_csm garbage bs ov N wind (src : source (list R)) s b :
  wf_source src s -> (0 < bs)%nat -> (0 < ov)%nat -> (bs <= length s)%nat ->
  (0 < rsumn bs (fun j => wind j * wind j))%R ->
  let csm := power_spectra_csm garbage bs ov N wind (length s) src b in
  let X := fun k c => rfft bs (fun j => col c (window (k * bs / ov) bs s) j * wind j)%R b in
  let K := frame_count bs ov (length s) in
  let weight := rsumn bs (fun j => wind j * wind j)%R in
  (forall r c, (r < N)%nat -> (c < N)%nat ->
     csm r c = RtoC (2 / (INR bs * weight)) * (csum K (fun k => X k r * Conj (X k c)) / RtoC (num_blocks ov (length s) bs)))
  /\ (forall r c, (r < N)%nat -> (c < N)%nat -> csm c r = Conj (csm r c))
  /\ (forall r, (r < N)%nat -> exists x, csm r r = RtoC x /\ (0 <= x)%R)
  /\ (forall h, exists x, csum N (fun i => csum N (fun j => Conj (h i) * csm i j * h j)) = RtoC x /\ (0 <= x)%R).
Proof. exact (csm_spec garbage bs ov N wind src s b). Qed.
Print Assumptions C30_csm.

(** Two channels, 3 samples, blocks of 2, rectangular window. *)
Example C30_case :
  let s := [[1%R; 2%R]; [3%R; 4%R]; [5%R; 7%R]] in
  exists src : source (list R), wf_source src s
  /\ hermitian 2 (power_spectra_csm (fun _ => []) 2 1 2 (fun _ => 1%R) 3 src 1).
Proof.
  cbv zeta. set (s := [[1%R; 2%R]; [3%R; 4%R]; [5%R; 7%R]]).
  exists (time_samples_result (fun x _ => x) 1 s None).
  assert (W : wf_source (time_samples_result (fun x _ => x) 1 s None) s).
  { intros num Hn. apply time_samples_delivers; auto; try discriminate. }
  split; [exact W|].
  destruct (C30_csm (fun _ => []) 2 1 2 (fun _ => 1%R) _ s 1 W) as (_ & H & _); cbn; try lia; try lra.
  intros i j Hi Hj. now apply H.
Qed.

(** C31.  Without diagonal removal the map value is h^H C h with the full
    matrix, whatever the steering type; [steer_vector] are the explicit
    steering vectors of the library. *)
Theorem C31_quadratic_form n csm r0 k r rdn st :
  (0 < n)%nat -> (0 < r0)%R -> (forall m, (m < n)%nat -> (0 < r m)%R) ->
  (forall i j, (i < n)%nat -> (j < n)%nat -> csm j i = Conj (csm i j)) ->
  let h := steer_vector n st (transfer r0 k r) in
  exists x, bf_base n csm r0 k r false rdn st = Some x
  /\ RtoC x = csum n (fun i => csum n (fun j => Conj (h i) * csm i j * h j)).
Proof.
  intros Hn H0 Hr Hh h. eexists. split; [reflexivity|]. unfold clip_neg.
  rewrite (bf_quadratic n r0 k r Hn H0 Hr csm 1 false st Hh). change (RtoC 1) with C1. unfold qform. fold h. ring.
Qed.
Print Assumptions C31_quadratic_form.

(** C31.  The map of measured data is non-negative. *)
Theorem C31_data_nonnegative garbage bs ov N wind (src : source (list R)) s b r0 k r st rdn :
  wf_source src s -> (0 < bs)%nat -> (0 < ov)%nat -> (bs <= length s)%nat ->
  (0 < rsumn bs (fun j => wind j * wind j))%R ->
  (0 < N)%nat -> (0 < r0)%R -> (forall m, (m < N)%nat -> (0 < r m)%R) ->
  exists x, bf_base N (power_spectra_csm garbage bs ov N wind (length s) src b) r0 k r false rdn st = Some x
    /\ (0 <= x)%R.
Proof. exact (map_of_data_nonneg garbage bs ov N wind src s b r0 k r st rdn). Qed.
Print Assumptions C31_data_nonnegative.

(** A matrix with complex entries; the value is -2 (it is Hermitian but indefinite). *)
Example C31_case :
  let csm := fun i j : nat => if (i =? j)%nat then C0 else if (i <? j)%nat then (-4, 0)%R else (-4, 0)%R in
  bf_base 2 csm 1 0 (fun _ => 1%R) false 0 Classic = Some (-2)%R.
Proof.
  cbv zeta. unfold bf_base, sig_loss_norm, clip_neg. f_equal.
  unfold freq_full, normalize, scalar_prod, steer_raw. cbn. rewrite !Rmult_0_l, cos_0, sin_0. field.
Qed.

(** C32.  With diagonal removal the diagonal has no influence and no value is negative. *)
Theorem C32_diagonal_removal n csm csm' r0 k r rdn st :
  (1 < n)%nat ->
  (forall i j, (i < n)%nat -> (j < n)%nat -> i <> j -> csm i j = csm' i j) ->
  exists x, bf_base n csm r0 k r true rdn st = Some x /\ bf_base n csm' r0 k r true rdn st = Some x /\ (0 <= x)%R.
Proof.
  intros Hn H. rewrite <- (bf_base_off_diag n csm csm' r0 k r rdn st H).
  unfold bf_base, sig_loss_norm. destruct (Req_EM_T rdn 0).
  - destruct (Nat.eqb_spec n 1); [lia|]. eexists. split; [reflexivity|]. split; [reflexivity|apply clip_nonneg].
  - eexists. split; [reflexivity|]. split; [reflexivity|apply clip_nonneg].
Qed.
Print Assumptions C32_diagonal_removal.

(** C32.  What is computed with diagonal removal (default normalisation):
    n/(n-1) times the quadratic form of the matrix without its diagonal, or
    zero if that is negative.  (Without: C31_quadratic_form, nothing is clipped;
    C31_case is a negative value.) *)
Theorem C32_value n csm r0 k r st :
  (1 < n)%nat -> (0 < r0)%R -> (forall m, (m < n)%nat -> (0 < r m)%R) ->
  (forall i j, (i < n)%nat -> (j < n)%nat -> csm j i = Conj (csm i j)) ->
  let h := steer_vector n st (transfer r0 k r) in
  exists y, bf_base n csm r0 k r true 0 st = Some (Rmax 0 y)
  /\ RtoC y = RtoC (INR n / (INR n - 1))
       * csum n (fun i => csum n (fun j => if (i =? j)%nat then C0 else Conj (h i) * csm i j * h j)).
Proof.
  intros Hn H0 Hr Hh h. unfold bf_base, sig_loss_norm. destruct (Req_EM_T 0 0); [|lra].
  destruct (Nat.eqb_spec n 1); [lia|]. eexists. split.
  - f_equal. unfold clip_neg. instantiate (1 := fst (freq_full n csm r0 k r (INR n / (INR n - 1)) true st)).
    unfold Rmax. destruct (Rlt_dec _ 0), (Rle_dec 0 _); lra.
  - rewrite (bf_quadratic n r0 k r ltac:(lia) H0 Hr csm _ true st Hh). f_equal. unfold qform. fold h.
    apply csum_ext. intros i _. apply csum_ext. intros j _. unfold off_diag.
    destruct (i =? j)%nat; ring.
Qed.
Print Assumptions C32_value.

Example C32_case : exists x,
  bf_base 2 (fun i j => if (i =? j)%nat then RtoC 5 else RtoC 1) 1 0 (fun _ => 1%R) true 0 Classic = Some x
  /\ bf_base 2 (fun i j => if (i =? j)%nat then RtoC 9 else RtoC 1) 1 0 (fun _ => 1%R) true 0 Classic = Some x
  /\ (0 <= x)%R.
Proof.
  apply C32_diagonal_removal; [lia|]. intros i j _ _ Hij. now destruct (Nat.eqb_spec i j).
Qed.

(** C33.  The eigenvalue kernels agree with the full-matrix kernels, for the
    fast path and for explicit steering vectors, in both returned values. *)
Theorem C33_kernels n ne eva eve r0 k r loss rd st :
  let csm := fun i j => csum ne (fun e => RtoC (eva e) * eve i e * Conj (eve j e)) in
  freq_eig n ne eva eve r0 k r loss rd st = freq_full n csm r0 k r loss rd st
  /\ forall h, freq_custom_eig n ne eva eve h loss rd = freq_custom n csm h loss rd.
Proof. split; [apply eig_kernels|intros; apply eig_kernels_custom]. Qed.
Print Assumptions C33_kernels.

(** C33.  Without diagonal removal the maps of the single components add up to the map. *)
Theorem C33_components n ne eva eve r0 k r rdn st :
  let csm := fun i j => csum ne (fun e => RtoC (eva e) * eve i e * Conj (eve j e)) in
  exists f, (forall e, bf_eig n e eva eve r0 k r false rdn st = Some (f e))
  /\ bf_base n csm r0 k r false rdn st = Some (rsumn ne f).
Proof. exact (eig_maps_add_up n ne eva eve r0 k r rdn st). Qed.
Print Assumptions C33_components.

(** C33.  With diagonal removal the sum of the component maps is an upper bound only... *)
Theorem C33_components_rdiag_partial n ne eva eve r0 k r rdn st : (1 < n)%nat ->
  let csm := fun i j => csum ne (fun e => RtoC (eva e) * eve i e * Conj (eve j e)) in
  exists f x, (forall e, bf_eig n e eva eve r0 k r true rdn st = Some (f e))
  /\ bf_base n csm r0 k r true rdn st = Some x
  /\ (x <= rsumn ne f)%R.
Proof. exact (eig_maps_rdiag n ne eva eve r0 k r rdn st). Qed.
Print Assumptions C33_components_rdiag_partial.

(** ... because each map is clipped on its own: the sum can be strictly larger. *)
Theorem C33_components_rdiag_refuted :
  exists n eva eve r0 k r st f x,
    (1 < n)%nat /\ (0 < r0)%R /\ (forall m, (0 < r m)%R)
    /\ (forall e, bf_eig n e eva eve r0 k r true 0 st = Some (f e))
    /\ bf_base n (fun i j => csum n (fun e => RtoC (eva e) * eve i e * Conj (eve j e))) r0 k r true 0 st = Some x
    /\ (x < rsumn n f)%R.
Proof. exact eig_maps_rdiag_refuted. Qed.
Print Assumptions C33_components_rdiag_refuted.

(** C33.  Functional beamforming with gamma = 1 is the conventional map; [pw]
    is the power function. *)
Theorem C33_functional pw n eva eve r0 k r st rdn :
  (forall x, pw x 1 = x)%R ->
  (0 < n)%nat -> (0 < r0)%R -> (forall m, (m < n)%nat -> (0 < r m)%R) ->
  Some (bf_functional n pw 1 eva eve r0 k r st)
  = bf_base n (fun i j => csum n (fun e => RtoC (eva e) * eve i e * Conj (eve j e))) r0 k r false rdn st.
Proof. exact (functional_gamma_1 pw n eva eve r0 k r st rdn). Qed.
Print Assumptions C33_functional.

(** Two eigenvalues 3 and 0, eigenvectors (1,1)/... and (1,-1)/...: the map is the first component. *)
Example C33_case : exists f,
  (forall e, bf_eig 2 e (fun e => if (e =? 0)%nat then 3%R else 0%R) (fun m e => if (m =? 1)%nat && (e =? 1)%nat then (-1, 0)%R else C1)
     1 0 (fun _ => 1%R) false 0 Classic = Some (f e))
  /\ f 0%nat = 3%R /\ f 1%nat = 0%R.
Proof.
  eexists. split; [intros e; reflexivity|].
  unfold clip_neg, freq_eig, normalize, scalar_prod_eig, steer_raw.
  split; cbn; rewrite !Rmult_0_l, cos_0, sin_0; field.
Qed.

(** C34.  The kernels working from distances return what the kernels with the
    explicit steering vectors return: map and steering vector norm. *)
Theorem C34_fast_path n r0 k r csm ne eva eve loss rd st :
  (0 < n)%nat -> (0 < r0)%R -> (forall m, (m < n)%nat -> (0 < r m)%R) ->
  let h := steer_vector n st (transfer r0 k r) in
  freq_full n csm r0 k r loss rd st = freq_custom n csm h loss rd
  /\ freq_eig n ne eva eve r0 k r loss rd st = freq_custom_eig n ne eva eve h loss rd.
Proof.
  intros Hn H0 Hr h. split; [now apply fast_full_custom|now apply fast_eig_custom].
Qed.
Print Assumptions C34_fast_path.

Example C34_case :
  let h := steer_vector 2 TrueLocation (transfer 3 7 (fun m => INR m + 1)%R) in
  freq_full 2 (fun i j => RtoC (INR (i + j))) 3 7 (fun m => INR m + 1)%R 2 true TrueLocation
  = freq_custom 2 (fun i j => RtoC (INR (i + j))) h 2 true.
Proof.
  apply (C34_fast_path 2 3 7 (fun m => INR m + 1)%R (fun i j => RtoC (INR (i + j))) 0 (fun _ => 0%R) (fun _ _ => C0)); [lia|lra|].
  intros m _. pose proof (pos_INR m). lra.
Qed.

(** C35.  'true level' and 'inverse': the value at the source position is its
    squared pressure [p2] (which the transfer functions refer to the array's
    reference point). *)
Theorem C35_level n k r0 r p2 st :
  (0 < n)%nat -> (0 < r0)%R -> (forall m, (m < n)%nat -> (0 < r m)%R) -> st = TrueLevel \/ st = Inverse ->
  let a := transfer r0 k r in
  bf_base n (fun i j => RtoC p2 * a i * Conj (a j)) r0 k r false 0 st = Some p2.
Proof. exact (monopole_level n k r0 r p2 st). Qed.
Print Assumptions C35_level.

(** C35.  'true location' and 'classic': no other point has a larger value. *)
Theorem C35_location n k r0s rs p2 st :
  (0 < n)%nat -> (0 < r0s)%R -> (forall m, (m < n)%nat -> (0 < rs m)%R) -> (0 <= p2)%R ->
  st = TrueLocation \/ st = Classic ->
  let a := transfer r0s k rs in
  let csm := fun i j => RtoC p2 * a i * Conj (a j) in
  exists top, bf_base n csm r0s k rs false 0 st = Some top
    /\ forall r0 r, (0 < r0)%R -> (forall m, (m < n)%nat -> (0 < r m)%R) ->
       exists x, bf_base n csm r0 k r false 0 st = Some x /\ (x <= top)%R.
Proof. exact (monopole_max n k r0s rs p2 st). Qed.
Print Assumptions C35_location.

(** C35.  With diagonal removal: 'inverse' still gives the exact level, 'true
    level' never more than it. *)
Theorem C35_level_rdiag n k r0 r p2 :
  (1 < n)%nat -> (0 < r0)%R -> (forall m, (m < n)%nat -> (0 < r m)%R) -> (0 <= p2)%R ->
  let a := transfer r0 k r in
  let csm := fun i j => RtoC p2 * a i * Conj (a j) in
  bf_base n csm r0 k r true 0 Inverse = Some p2
  /\ exists x, bf_base n csm r0 k r true 0 TrueLevel = Some x /\ (0 <= x <= p2)%R.
Proof.
  intros. split; [now apply (monopole_rdiag_inverse n k r0 r p2)|now apply (monopole_rdiag_true_level n k r0 r p2)].
Qed.
Print Assumptions C35_level_rdiag.

Example C35_case :
  let a := transfer 2 5 (fun m => INR m + 1)%R in
  bf_base 3 (fun i j => RtoC 9 * a i * Conj (a j)) 2 5 (fun m => INR m + 1)%R false 0 TrueLevel = Some 9%R.
Proof.
  apply C35_level; [lia|lra| |now left]. intros m _. pose proof (pos_INR m). lra.
Qed.

(** C36.  Grid geometry: distances [rg p m] and [r0g p] of the grid points;
    the map of a unit monopole at point i. *)
Definition unit_map (n : nat) (st : steer) (k : R) (r0g : nat -> R) (rg : nat -> nat -> R) (i p : nat) : R :=
  let a := transfer (r0g i) k (rg i) in
  match bf_base n (fun x y => a x * Conj (a y)) (r0g p) k (rg p) false 0 st with Some v => v | None => 0%R end.

(** The column a PointSpreadFunction calculates for the source point i. *)
Definition psf_column (n : nat) (st : steer) (k : R) (r0g : nat -> R) (rg : nat -> nat -> R) (i p : nat) : R :=
  psf_core n st (r0g p) (rg p) (r0g i) (rg i) k.

Theorem C36_kernel n st k r0g rg i p :
  (0 < n)%nat -> (forall q, (0 < r0g q)%R) -> (forall q m, (m < n)%nat -> (0 < rg q m)%R) ->
  psf_column n st k r0g rg i p = unit_map n st k r0g rg i p.
Proof.
  intros Hn H0 Hr. unfold psf_column, unit_map, bf_base, sig_loss_norm, clip_neg.
  rewrite (psf_is_map n k (r0g p) (r0g i) (rg p) (rg i)) by auto. f_equal. unfold freq_full. f_equal.
  unfold scalar_prod, monopole_csm. f_equal; apply rsumn_ext; intros j _.
  - do 2 f_equal. f_equal. apply csum_ext. intros. change (RtoC 1) with C1. ring.
  - f_equal. change (RtoC 1) with C1. ring.
Qed.
Print Assumptions C36_kernel.

(** Any other steering vectors [h] and transfer vectors [a]: the map of the
    kernels for explicit steering vectors. *)
Theorem C36_custom n (h a : nat -> C) :
  psf_general n h a = fst (freq_custom n (fun x y => a x * Conj (a y)) h 1 false).
Proof.
  unfold freq_custom, psf_general. cbn [fst]. rewrite Rmult_1_r.
  assert (H : hermitian n (fun x y => a x * Conj (a y))).
  { intros i j _ _. rewrite Conj_mul, Conj_invol. ring. }
  pose proof (qform_scalar n _ h H) as Q.
  assert (E : qform n (fun x y => a x * Conj (a y)) h
    = csum n (fun m => Conj (h m) * a m) * Conj (csum n (fun m => Conj (h m) * a m))).
  { set (P := csum n (fun m => Conj (h m) * a m)). replace (P * Conj P) with (Conj P * P) by ring.
    unfold qform. unfold P at 2. rewrite <- csum_scal. apply csum_ext. intros i _.
    unfold P. rewrite csum_conj.
    replace (csum n (fun k => Conj (Conj (h k) * a k)) * (Conj (h i) * a i))
      with ((Conj (h i) * a i) * csum n (fun k => Conj (Conj (h k) * a k))) by ring.
    rewrite <- csum_scal. apply csum_ext. intros j _. rewrite Conj_mul, Conj_invol. ring. }
  rewrite <- E, Q. reflexivity.
Qed.
Print Assumptions C36_custom.

(** C36, the part that holds: the columns are right in the mode 'full'
    whatever is in the cache, for a single index in every mode ('readonly'
    needs it in the cache) and in every mode when all are in the cache; the
    cache never holds a wrong column marked as calculated. *)
Theorem C36_modes_partial n st k r0g rg gs :
  let column := psf_column n st k r0g rg in
  (forall gi cache, (forall c, cache = Some c -> sound column c) -> gi <> [] -> (forall i, In i gi -> (i < gs)%nat) ->
     exists c', get_psf column gs Full gi cache = Some (map column gi, c'))
  /\ (forall mode i cache, (forall c, cache = Some c -> sound column c) -> (i < gs)%nat ->
     (mode = Readonly -> forall c, cache = Some c -> snd c i = true) ->
     exists c', get_psf column gs mode [i] cache = Some ([column i], c'))
  /\ (forall mode gi c, sound column c -> gi <> [] -> (forall i, In i gi -> snd c i = true) ->
     get_psf column gs mode gi (Some c) = Some (map column gi, Some c))
  /\ (forall mode gi cache cols c', (forall c, cache = Some c -> sound column c) ->
     get_psf column gs mode gi cache = Some (cols, Some c') -> sound column c').
Proof.
  intros column. repeat match goal with |- _ /\ _ => split end.
  - intros gi cache Hs Hn Hi. destruct (psf_full column gs gi cache Hs Hi) as (c' & E). exists c'.
    rewrite E. destruct gi; [congruence|reflexivity].
  - intros. now apply psf_one_index.
  - intros. now apply psf_all_cached.
  - intros mode gi cache cols c' Hs E. unfold get_psf in E. destruct cache as [c|].
    + destruct (forallb (snd c) _); [injection E as <- <-; now apply Hs|].
      destruct mode; try discriminate;
        match type of E with match ?x with _ => _ end = _ => destruct x as [c1|] eqn:E1; [|discriminate] end;
        injection E as _ <-; eapply calc_psf_sound; [apply Hs; reflexivity|eassumption|apply Hs; reflexivity|eassumption|apply Hs; reflexivity|eassumption].
    + destruct (calc_psf column gs mode _ empty_store); [|discriminate]. discriminate.
Qed.
Print Assumptions C36_modes_partial.

(** C36 is false for two or more indices in the modes 'single' (the default)
    and 'block': without a cache only the last requested column is calculated,
    all others are zero, ... *)
Theorem C36_modes_refuted n st k r0g rg gs mode gi :
  mode = Single \/ mode = Block -> (2 <= length gi)%nat ->
  let column := psf_column n st k r0g rg in
  get_psf column gs mode gi None
  = Some (map (fun i => if (i =? last gi 0)%nat then column i else fun _ => 0%R) gi, None).
Proof.
  intros Hm Hl column. rewrite (psf_many column gs mode gi Hm Hl). do 2 f_equal.
  replace (last gi 0%nat) with (nth (length gi - 1) gi 0%nat); [reflexivity|].
  clear. induction gi as [|a gi IH]; [reflexivity|]. cbn [last length]. destruct gi as [|b gi]; [reflexivity|].
  rewrite <- IH. cbn [length nth]. replace (S (S (length gi)) - 1)%nat with (S (length gi)) by lia. cbn [nth].
  replace (S (length gi) - 1)%nat with (length gi) by lia. reflexivity.
Qed.
Print Assumptions C36_modes_refuted.

(** ... and with a cache, however often the attribute is read, a column that
    is neither the last nor the one before the last stays zero. *)
Theorem C36_cached_reads_refuted n st k r0g rg gs reads mode gi i c :
  mode = Single \/ mode = Block -> (2 <= length gi)%nat ->
  i <> nth (length gi - 1) gi 0%nat -> i <> nth (length gi - 2) gi 0%nat ->
  snd c i = false -> fst c i = (fun _ => 0%R) ->
  exists c', read_again (psf_column n st k r0g rg) gs reads mode gi c = Some c' /\ snd c' i = false /\ fst c' i = (fun _ => 0%R).
Proof. intros. now apply psf_never_complete. Qed.
Print Assumptions C36_cached_reads_refuted.

(** All four steering types have a unit value at the source for one
    microphone; so the zero column is wrong. *)
Example C36_case :
  let column := psf_column 1 Classic 0 (fun _ => 1%R) (fun _ _ => 1%R) in
  exists cols, get_psf column 3 Single [0; 1; 2]%nat None = Some (cols, None)
  /\ nth 0 cols (fun _ => 1%R) 0%nat = 0%R /\ unit_map 1 Classic 0 (fun _ => 1%R) (fun _ _ => 1%R) 0 0 = 1%R.
Proof.
  cbv zeta. eexists. split; [apply (C36_modes_refuted 1 Classic 0 (fun _ => 1%R) (fun _ _ => 1%R) 3 Single); [now left|cbn; lia]|].
  split; [reflexivity|]. rewrite <- C36_kernel by (intros; try lia; lra).
  unfold psf_column, psf_core. cbn. replace (0 * (1 - 1))%R with 0%R by ring. rewrite cos_0, sin_0. rewrite norm2_RtoC. field.
Qed.
