(** CrossPowerSpectra (/repo/acoular/fprocess.py:353-452): the cross spectral
    matrix of every snapshot. *)
From Coq Require Import List Arith Lia ZArith Bool Reals Lra.
From Verif Require Import Stream Sources Cplx Buffer Frames Convolve Fourier Beamform Csm.
Import ListNotations.
Local Open Scope nat_scope.

(** calc_mode, fprocess.py:392 *)
Inductive calc_mode := Full | Upper | Lower.

(** num_channels, fprocess.py:406-409 ([int(n + n * (n - 1) / 2)]) *)
Definition cps_num_channels (mode : calc_mode) (n : nat) : nat :=
  match mode with Full => n * n | _ => n + n * (n - 1) / 2 end.

(** [data[i].reshape(nf, nc_src)], row [b] *)
Definition snapshot (n : nat) (row : list C) (b c : nat) : C := nth (b * n + c) row C0.

(** [M[:, :rows].reshape(-1)] of an array with [nf] matrices with [n] columns. *)
Definition flat (nf rows n : nat) (M : nat -> nat -> nat -> C) : list C :=
  concat (map (fun b => concat (map (fun r => map (M b r) (seq 0 n)) (seq 0 rows))) (seq 0 nf)).

(** What is assigned to csm_flat[i], fprocess.py:442-450.  [A[:, :nc]] of [n]
    rows has [min nc n] rows. *)
Definition cps_values (mode : calc_mode) (n nf : nat) (upper : nat -> nat -> nat -> C) : list C :=
  let nc := cps_num_channels mode n in
  match mode with
  | Full => flat nf n n (fun b => complete (upper b))
  | Upper => flat nf (Nat.min nc n) n upper
  | Lower => flat nf (Nat.min nc n) n (fun b r c => Conj (upper b c r))
  end.

(** [csm_flat[i] = v]: equal lengths, or a single value for all entries. *)
Definition assign_row (len : nat) (v : list C) : list C + exn :=
  if length v =? len then inl v
  else match v with [x] => inl (repeat x len) | _ => inr ValueError end.

(** The loop over the rows of a block, fprocess.py:438-451, and the
    multiplication with [scale], line 452; [upper] is csm_upper. *)
Fixpoint cps_rows (mode : calc_mode) (n nf : nat) (scale : R) (upper : nat -> nat -> nat -> C)
    (rows : list (list C)) : (nat -> nat -> nat -> C) * (list (list C) + exn) :=
  match rows with
  | [] => (upper, inl [])
  | x :: rest =>
      if negb (length x =? nf * n) then (upper, inr ValueError) else
      let upper := fun b => calcCSM n (upper b) (snapshot n x b) in
      match assign_row (cps_num_channels mode n * nf) (cps_values mode n nf upper) with
      | inr e => (upper, inr e)
      | inl v =>
          let upper := fun _ _ _ => C0 in
          match cps_rows mode n nf scale upper rest with
          | (u, inl vs) => (u, inl (map (fun z => Cmul z (RtoC scale)) v :: vs))
          | (u, inr e) => (u, inr e)
          end
      end
  end.

(** CrossPowerSpectra.result, fprocess.py:416-452. *)
Definition cps_result (mode : calc_mode) (n nf : nat) (scale : R) (src : source (list C)) (num : nat)
    : trace (list C) :=
  run_for (fun upper block =>
             match cps_rows mode n nf scale upper block with
             | (u, inl b) => (u, [b], None)
             | (u, inr e) => (u, [], Some e)
             end) (fun _ _ _ => C0) (src num) (fun _ => done []).

(* ------------------------------------------------------------------ *)

Lemma concat_const_length {A} k (l : list (list A)) :
  (forall r, In r l -> length r = k) -> length (concat l) = length l * k.
Proof.
  induction l as [|r l IH]; intros H; [reflexivity|]. cbn [concat length]. rewrite app_length, IH, (H r).
  - lia.
  - now left.
  - intros r' Hr. apply H. now right.
Qed.

Lemma flat_block_length rows n (f : nat -> nat -> C) :
  length (concat (map (fun r => map (f r) (seq 0 n)) (seq 0 rows))) = rows * n.
Proof.
  rewrite (concat_const_length n); [now rewrite map_length, seq_length|].
  intros r Hr. apply in_map_iff in Hr as (x & <- & _). now rewrite map_length, seq_length.
Qed.

Lemma flat_length nf rows n M : length (flat nf rows n M) = nf * (rows * n).
Proof.
  unfold flat. rewrite (concat_const_length (rows * n)); [now rewrite map_length, seq_length|].
  intros r Hr. apply in_map_iff in Hr as (x & <- & _). apply flat_block_length.
Qed.

Lemma flat_nth nf rows n M b r c : b < nf -> r < rows -> c < n ->
  nth ((b * rows + r) * n + c) (flat nf rows n M) C0 = M b r c.
Proof.
  intros Hb Hr Hc. unfold flat.
  replace ((b * rows + r) * n + c) with (b * (rows * n) + (r * n + c)) by ring.
  rewrite nth_concat_rect.
  - rewrite nth_map_seq by exact Hb. rewrite nth_concat_rect.
    + rewrite nth_map_seq by exact Hr. now rewrite nth_map_seq.
    + intros x Hx. apply in_map_iff in Hx as (y & <- & _). now rewrite map_length, seq_length.
    + exact Hc.
    + now rewrite map_length, seq_length.
  - intros x Hx. apply in_map_iff in Hx as (y & <- & _). apply flat_block_length.
  - nia.
  - now rewrite map_length, seq_length.
Qed.

(** The row made of one snapshot. *)
Definition cps_row (n nf : nat) (scale : R) (x : list C) : list C :=
  map (fun z => Cmul z (RtoC scale))
    (flat nf n n (fun b => complete (calcCSM n (fun _ _ => C0) (snapshot n x b)))).

Lemma cps_rows_full n nf scale : forall rows, Forall (fun x => length x = nf * n) rows ->
  cps_rows Full n nf scale (fun _ _ _ => C0) rows = (fun _ _ _ => C0, inl (map (cps_row n nf scale) rows)).
Proof.
  induction rows as [|x rows IH]; intros H; [reflexivity|].
  inversion H as [|? ? Hx Hr]; subst. cbn [cps_rows map]. rewrite Hx, Nat.eqb_refl. cbn [negb].
  unfold assign_row. cbn [cps_values cps_num_channels]. rewrite flat_length.
  rewrite (proj2 (Nat.eqb_eq (nf * (n * n)) (n * n * nf))) by ring. rewrite (IH Hr). reflexivity.
Qed.

Lemma run_for_state {A B S} (f : S -> list A -> S * (list B + exn)) (st : S) (g : A -> B) bs e :
  (forall b, In b bs -> f st b = (st, inl (map g b))) ->
  run_for (fun s block => match f s block with
                          | (u, inl b) => (u, [b], None)
                          | (u, inr x) => (u, [], Some x)
                          end) st (mkTrace bs e) (fun _ => done [])
  = mkTrace (map (map g) bs) e.
Proof.
  intros H. unfold run_for. cbn [blocks fin].
  assert (for_blocks (fun s block => match f s block with
                          | (u, inl b) => (u, [b], None)
                          | (u, inr x) => (u, [], Some x)
                          end) st bs = (st, map (map g) bs, None)) as ->.
  { induction bs as [|b bs IH]; [reflexivity|]. cbn [for_blocks map]. rewrite (H b) by now left.
    rewrite IH; [reflexivity|]. intros b' Hb. apply H. now right. }
  destruct e; cbn; [now rewrite app_nil_r|reflexivity].
Qed.

Theorem cps_full n nf scale (src : source (list C)) s :
  wf_source src s -> Forall (fun x => length x = nf * n) s ->
  wf_source (cps_result Full n nf scale src) (map (cps_row n nf scale) s).
Proof.
  intros Hw Hs num Hn. apply delivers_iff; auto. unfold cps_result.
  rewrite (wf_source_eq src s) by auto. unfold done at 1.
  rewrite (run_for_state (cps_rows Full n nf scale) (fun _ _ _ => C0) (cps_row n nf scale)).
  - unfold done. now rewrite chunks_map.
  - intros b Hb. apply cps_rows_full. exact (chunks_in_forall _ num s b Hn Hs Hb).
Qed.

Lemma cps_row_length n nf scale x : length (cps_row n nf scale x) = n * n * nf.
Proof. unfold cps_row. rewrite map_length, flat_length. ring. Qed.

Lemma cps_row_nth n nf scale x b r c : b < nf -> r < n -> c < n ->
  nth ((b * n + r) * n + c) (cps_row n nf scale x) C0
  = Cmul (RtoC scale) (Cmul (snapshot n x b r) (Conj (snapshot n x b c))).
Proof.
  intros Hb Hr Hc. unfold cps_row.
  set (g := fun z => Cmul z (RtoC scale)).
  assert (G0 : g C0 = C0) by (unfold g; apply injective_projections; unfold Cmul, C0, RtoC; cbn; ring).
  rewrite <- G0 at 1. rewrite map_nth, flat_nth by assumption. unfold g, complete, calcCSM.
  destruct (Nat.ltb_spec c n); [|lia]. destruct (Nat.ltb_spec r n); [|lia]. cbn [andb].
  destruct (Nat.eqb_spec r c) as [->|Hne].
  - destruct (Nat.ltb_spec c (c + 1)); [|lia]. ring.
  - destruct (Nat.ltb_spec r (c + 1)); destruct (Nat.ltb_spec c (r + 1)); try lia.
    + rewrite Conj_0. ring.
    + rewrite Conj_add, Conj_mul, Conj_invol, Conj_0. ring.
Qed.

Lemma triangle_small n : 2 <= n -> n + n * (n - 1) / 2 < n * n /\ n <= n + n * (n - 1) / 2.
Proof.
  intros H. split; [|lia].
  assert (n * (n - 1) / 2 < n * (n - 1)) by (apply Nat.div_lt; nia). nia.
Qed.

(** With two or more channels nothing but an exception comes out of the modes
    'upper' and 'lower'. *)
Theorem cps_triangle mode n nf scale (src : source (list C)) s num :
  mode <> Full -> wf_source src s -> 0 < num -> s <> [] -> 2 <= n -> 0 < nf ->
  cps_result mode n nf scale src num = raise ValueError.
Proof.
  intros Hm Hw Hn Hs H2 Hf. unfold cps_result. rewrite (wf_source_eq src s) by auto. unfold done at 1, run_for. cbn [blocks fin].
  destruct s as [|x s]; [congruence|].
  assert (exists rest bs, chunks num (x :: s) = (x :: rest) :: bs) as (rest & bs & ->).
  { rewrite chunks_step by (auto; discriminate). destruct num; [lia|]. cbn [firstn]. eauto. }
  cbn [for_blocks cps_rows].
  assert (E : forall u, assign_row (cps_num_channels mode n * nf) (cps_values mode n nf u) = inr ValueError).
  { intros u. destruct (triangle_small n H2) as [T1 T2]. unfold assign_row.
    assert (L : length (cps_values mode n nf u) = nf * (n * n)).
    { destruct mode; [congruence| |]; cbn [cps_values cps_num_channels]; rewrite flat_length, Nat.min_r by lia; reflexivity. }
    rewrite L. destruct (Nat.eqb_spec (nf * (n * n)) (cps_num_channels mode n * nf)) as [E|_].
    { exfalso. assert (cps_num_channels mode n < n * n) by (destruct mode; [congruence| |]; exact T1). nia. }
    destruct (cps_values mode n nf u) as [|a [|a' l]]; cbn in L; try reflexivity. exfalso. nia. }
  destruct (negb (length x =? nf * n)); [reflexivity|]. rewrite E. reflexivity.
Qed.

(** One channel: all modes agree. *)
Lemma cps_values_one mode nf x :
  cps_values mode 1 nf (fun b => calcCSM 1 (fun _ _ => C0) (snapshot 1 x b))
  = flat nf 1 1 (fun b => complete (calcCSM 1 (fun _ _ => C0) (snapshot 1 x b))).
Proof.
  destruct mode; cbn [cps_values cps_num_channels]; [reflexivity| |];
    change (Nat.min (1 + 1 * (1 - 1) / 2) 1) with 1; unfold flat; f_equal; apply map_ext; intros b; cbn [seq map concat];
    do 2 f_equal; unfold complete, calcCSM; cbn [Nat.eqb Nat.ltb Nat.leb Nat.add andb].
  - ring.
  - rewrite Conj_add, Conj_mul, Conj_invol, Conj_0. ring.
Qed.

Lemma cps_rows_one mode nf scale : forall rows, Forall (fun x => length x = nf * 1) rows ->
  cps_rows mode 1 nf scale (fun _ _ _ => C0) rows = (fun _ _ _ => C0, inl (map (cps_row 1 nf scale) rows)).
Proof.
  induction rows as [|x rows IH]; intros H; [reflexivity|].
  inversion H as [|? ? Hx Hr]; subst. cbn [cps_rows map]. rewrite Hx, Nat.eqb_refl. cbn [negb].
  unfold assign_row. rewrite cps_values_one, flat_length.
  assert (E : cps_num_channels mode 1 = 1) by now destruct mode. rewrite E.
  rewrite (proj2 (Nat.eqb_eq (nf * (1 * 1)) (1 * nf))) by ring. rewrite (IH Hr). reflexivity.
Qed.

Theorem cps_one mode nf scale (src : source (list C)) s :
  wf_source src s -> Forall (fun x => length x = nf * 1) s ->
  wf_source (cps_result mode 1 nf scale src) (map (cps_row 1 nf scale) s).
Proof.
  intros Hw Hs num Hn. apply delivers_iff; auto. unfold cps_result.
  rewrite (wf_source_eq src s) by auto. unfold done at 1.
  rewrite (run_for_state (cps_rows mode 1 nf scale) (fun _ _ _ => C0) (cps_row 1 nf scale)).
  - unfold done. now rewrite chunks_map.
  - intros b Hb. apply cps_rows_one. exact (chunks_in_forall _ num s b Hn Hs Hb).
Qed.

(** The diagonal is what AutoPowerSpectra yields. *)
Lemma cps_row_diag n bs ss psd fs nf x b r : b < nf -> r < n -> length x = nf * n ->
  nth ((b * n + r) * n + r) (cps_row n nf (power_scale bs ss psd fs) x) C0
  = RtoC (nth (b * n + r) (auto_power bs ss psd fs x) 0%R).
Proof.
  intros Hb Hr Hx. rewrite cps_row_nth by assumption. unfold auto_power, snapshot.
  set (f := fun z => (re (Cmul z (Conj z)) * power_scale bs ss psd fs)%R).
  rewrite (nth_indep _ 0%R (f C0)) by (rewrite map_length; nia). rewrite map_nth. unfold f.
  rewrite mul_Conj. unfold RtoC, Cmul, re, im. cbn [fst snd]. f_equal; ring.
Qed.

(* ------------------------------------------------------------------ *)
(** * Welch's method: CrossPowerSpectra over RFFT against PowerSpectra *)

Lemma rfft_frame_length sc wind bs N f : length (rfft_frame sc wind bs N f) = (bs / 2 + 1) * N.
Proof.
  unfold rfft_frame. rewrite (concat_const_length N); [now rewrite map_length, seq_length|].
  intros r Hr. apply in_map_iff in Hr as (x & <- & _). now rewrite map_length, seq_length.
Qed.

Lemma svalue_sq wind bs : 0 < bs -> (0 < rsumn bs (fun j => wind j * wind j))%R ->
  (svalue ScaleNone wind bs * svalue ScaleNone wind bs = INR bs / rsumn bs (fun j => wind j * wind j))%R.
Proof.
  intros Hb Hw. unfold svalue. apply lt_0_INR in Hb.
  set (W := rsumn bs _) in *. assert (0 < W / INR bs)%R as P by now apply Rdiv_lt_0_compat.
  assert (sqrt (W / INR bs) <> 0)%R by (apply Rgt_not_eq, sqrt_lt_R0; exact P).
  replace (1 / sqrt (W / INR bs) * (1 / sqrt (W / INR bs)))%R
    with (1 / (sqrt (W / INR bs) * sqrt (W / INR bs)))%R by (field; assumption).
  rewrite sqrt_sqrt by lra. field. lra.
Qed.

Theorem welch garbage zspec bs ov N wind fs (src : source (list R)) s :
  wf_source src s -> 0 < bs -> 0 < ov -> bs <= length s ->
  (0 < rsumn bs (fun j => wind j * wind j))%R ->
  let nf := bs / 2 + 1 in
  let K := frame_count bs ov (length s) in
  let spectra := fun num => rfft_result (rfft_frame ScaleNone wind bs N) zspec garbage bs ov src num in
  exists out,
    wf_source (cps_result Full N nf (power_scale bs true false fs) spectra) out /\ length out = K
    /\ forall b r c, b < nf -> r < N -> c < N ->
         csum K (fun k => nth ((b * N + r) * N + c) (nth k out []) C0)
         = Cmul (RtoC (num_blocks ov (length s) bs)) (power_spectra_csm garbage bs ov N wind (length s) src b r c).
Proof.
  intros Hw Hb Ho Hl Hwt nf K spectra.
  set (rows := map (rfft_frame ScaleNone wind bs N) (frames_of bs ov s)).
  assert (W : wf_source spectra rows).
  { intros num Hn. apply (proj1 (rfft_result_spec (rfft_frame ScaleNone wind bs N) zspec garbage bs ov src s num Hw Hb Ho Hn) Hl). }
  assert (LK : length (frames_of bs ov s) = K) by (unfold frames_of; now rewrite map_length, seq_length).
  assert (F : Forall (fun x => length x = nf * N) rows).
  { unfold rows. rewrite Forall_map. apply Forall_forall. intros f _. apply rfft_frame_length. }
  exists (map (cps_row N nf (power_scale bs true false fs)) rows). split; [|split].
  - now apply cps_full.
  - unfold rows. now rewrite !map_length.
  - intros b r c Hb' Hr Hc.
    destruct (csm_spec garbage bs ov N wind src s b Hw Hb Ho Hl Hwt) as (E & _). cbv zeta in E.
    rewrite (E r c Hr Hc). fold K.
    assert (Hnb := num_blocks_pos ov (length s) bs Hb Hl). assert (Hbs : (0 < INR bs)%R) by now apply lt_0_INR.
    set (nb := num_blocks ov (length s) bs) in *. set (wt := rsumn bs (fun j => (wind j * wind j)%R)) in *.
    set (X := fun k c => rfft bs (fun j => (col c (window (k * bs / ov) bs s) j * wind j)%R) b).
    rewrite (csum_ext K _ (fun k => Cmul (RtoC (2 / (INR bs * wt))) (Cmul (X k r) (Conj (X k c))))).
    + rewrite csum_scal. fold (X 0 0). change (fun k => _) with (fun k => Cmul (X k r) (Conj (X k c))).
      set (S := csum K _). unfold Cdiv. rewrite <- RtoC_inv by lra.
      transitivity (Cmul (RtoC (2 / (INR bs * wt))) (Cmul S (Cmul (RtoC nb) (RtoC (/ nb))))); [|ring].
      rewrite <- RtoC_mul, Rinv_r by lra. unfold RtoC, Cmul. cbn [fst snd re im]. apply injective_projections; cbn; ring.
    + intros k Hk. unfold rows. rewrite map_map.
      rewrite (nth_indep _ [] (cps_row N nf (power_scale bs true false fs) (rfft_frame ScaleNone wind bs N [])))
        by (rewrite map_length, LK; exact Hk).
      rewrite (map_nth (fun f => cps_row N nf (power_scale bs true false fs) (rfft_frame ScaleNone wind bs N f))).
      rewrite cps_row_nth by assumption. unfold snapshot. rewrite !rfft_frame_nth by assumption.
      cbn [scale_factor]. unfold frames_of. rewrite nth_map_seq by exact Hk. fold (X k r). fold (X k c).
      rewrite Conj_mul, Conj_RtoC.
      transitivity (Cmul (RtoC (power_scale bs true false fs * (svalue ScaleNone wind bs * svalue ScaleNone wind bs)))
                      (Cmul (X k r) (Conj (X k c)))); [rewrite !RtoC_mul; ring|].
      rewrite svalue_sq by assumption. fold wt. do 2 f_equal. unfold power_scale. field. lra.
Qed.
