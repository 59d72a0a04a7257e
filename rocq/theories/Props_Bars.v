(** Band spectra for plotting: tools/helpers.py barspectrum and bardata.
    Claim C93. *)
From Coq Require Import List Arith Lia ZArith Bool Reals Lra.
From Verif Require Import Stream Sources Result Bars.
Import ListNotations.
Local Open Scope R_scope.

(** *** Spec: the sum of the lines of a spectrum within [lower, upper) *)
Fixpoint lines_sum (freqs data : list R) (lower upper : R) : R :=
  match freqs, data with
  | f :: fs, d :: ds => (if Rle_dec lower f then if Rlt_dec f upper then d else 0 else 0) + lines_sum fs ds lower upper
  | _, _ => 0
  end.

(** *** Spec: nominal centre frequencies, 31.5 Hz to 25 kHz (ISO 266) *)
Definition third_octaves : list R :=
  [63/2; 40; 50; 63; 80; 100; 125; 160; 200; 250;
   315; 400; 500; 630; 800; 1000; 1250; 1600; 2000; 2500;
   3150; 4000; 5000; 6300; 8000; 10000; 12500; 16000; 20000; 25000].
Definition octaves : list R := [63/2; 63; 125; 250; 500; 1000; 2000; 4000; 8000; 16000].
Definition nominal (octave : bool) : list R := if octave then octaves else third_octaves.
(** half the width of a band in octaves *)
Definition half_width (octave : bool) : R := if octave then 1 / 2 else 1 / 6.
Definition lower_edge octave c := c * Rpower 2 (- half_width octave).
Definition upper_edge octave c := c * Rpower 2 (half_width octave).

Lemma nominal_centres octave : centres octave = nominal octave.
Proof.
  destruct octave; unfold centres, nominal, octaves, third_octaves, fcbase; cbn [map app every3];
    repeat (apply f_equal2; [lra|]); reflexivity.
Qed.
Lemma half_width_ep octave : bar_ep octave = half_width octave.
Proof. unfold bar_ep, bar_num, half_width. destruct octave; field. Qed.
Lemma lines_band : forall freqs data a b, lines_sum freqs data a b = band_sum freqs (map (fun d _ => d) data) a b 0%nat.
Proof. induction freqs as [|f fs IH]; intros [|d ds] a b; cbn; try reflexivity. now rewrite IH. Qed.

Lemma nominal_increasing octave : increasing (nominal octave).
Proof. destruct octave; cbn; repeat split; lra. Qed.
Lemma increasing_nth : forall l i j, increasing l -> (i < j < length l)%nat -> nth i l 0 < nth j l 0.
Proof.
  induction l as [|x l IH]; intros i j Hi Hj; [cbn in Hj; lia|]. destruct j as [|j]; [lia|]. cbn [length] in Hj.
  destruct i as [|i]; cbn [nth].
  - apply (increasing_head x l Hi). apply nth_In. lia.
  - apply IH; [now apply increasing_tail in Hi|lia].
Qed.
Lemma nominal_nth octave i j : (i <= j < length (nominal octave))%nat -> nth i (nominal octave) 0 <= nth j (nominal octave) 0.
Proof.
  intros H. destruct (Nat.eq_dec i j) as [->|]; [lra|].
  apply Rlt_le, increasing_nth; [apply nominal_increasing|lia].
Qed.

Lemma edge_low f c e : f * Rpower 2 e <= c <-> f <= c * Rpower 2 (- e).
Proof.
  pose proof (exp_pos (e * ln 2)) as P. rewrite Rpower_Ropp. change (0 < Rpower 2 e) in P. split; intros H.
  - apply Rmult_le_reg_r with (Rpower 2 e); [exact P|]. rewrite Rmult_assoc, Rinv_l by lra. lra.
  - apply Rmult_le_compat_r with (r := Rpower 2 e) in H; [|lra]. rewrite Rmult_assoc, Rinv_l in H by lra. lra.
Qed.
Lemma edge_high f c e : c <= f * Rpower 2 (- e) <-> c * Rpower 2 e <= f.
Proof. symmetry. apply (edge_low c f e). Qed.

(** The values are the sums of the lines within the nominal bands.  The bands
    returned are consecutive, reach up to the highest line, and include every
    nominal band that lies within the spectrum (without the line 0). *)
Theorem C93_values_partial : forall (octave : bool) (freqs data : list R) (xoffset : R),
  (2 <= length freqs)%nat -> increasing freqs -> length data = length freqs ->
  exists lo hi : nat,
    let fc := firstn (hi - lo) (skipn lo (nominal octave)) in
    barspectrum data freqs octave false xoffset
    = inl (fc, map (fun c => lines_sum freqs data (lower_edge octave c) (upper_edge octave c)) fc, fc)
    /\ (hi <= length (nominal octave))%nat
    /\ (forall k, (lo < k < hi)%nat -> nth 1 freqs 0 <= lower_edge octave (nth k (nominal octave) 0))
    /\ (forall k, (lo <= k < hi)%nat -> upper_edge octave (nth k (nominal octave) 0) <= last freqs 0)
    /\ (forall k, (k < length (nominal octave))%nat ->
          nth 1 freqs 0 <= lower_edge octave (nth k (nominal octave) 0) ->
          upper_edge octave (nth k (nominal octave) 0) <= last freqs 0 ->
          (lo <= k < hi)%nat).
Proof.
  intros octave freqs data xoffset H2 Hi Hl. exists (bar_low octave freqs), (bar_high octave freqs).
  destruct (bar_low_spec octave freqs) as (A1 & A2 & A3). destruct (bar_high_spec octave freqs) as (B1 & B2 & B3 & B4).
  cbv zeta in *. rewrite nominal_centres, half_width_ep in *. unfold lower_edge, upper_edge.
  set (lo := bar_low octave freqs) in *. set (hi := bar_high octave freqs) in *.
  assert (U : forall k, (k < hi)%nat -> nth k (nominal octave) 0 <= last freqs 0 * Rpower 2 (- half_width octave)).
  { intros k Hk. destruct (Rle_dec (last (nominal octave) 0) (last freqs 0 * Rpower 2 (- half_width octave))) as [H|H].
    - rewrite last_is_nth in H. pose proof (nominal_nth octave k (length (nominal octave) - 1) ltac:(lia)). lra.
    - apply B4; [lra|exact Hk]. }
  split; [|split; [exact B1|split; [|split]]].
  - unfold barspectrum. destruct (Nat.ltb_spec (length freqs) 2); [lia|]. cbv zeta.
    rewrite bar_values by assumption. rewrite nominal_centres, half_width_ep. fold lo hi.
    unfold slice. rewrite skipn_firstn_comm. f_equal. f_equal. f_equal. apply map_ext. intros c. symmetry. apply lines_band.
  - intros k Hk. apply edge_low. destruct (Rle_dec (nth 1 freqs 0 * Rpower 2 (half_width octave)) (nth 0 (nominal octave) 0)) as [H|H].
    + pose proof (nominal_nth octave 0 k ltac:(lia)). lra.
    + apply A3; [lra|lia].
  - intros k Hk. apply edge_high. apply U. lia.
  - intros k Hk Ha Hb. apply edge_low in Ha. apply edge_high in Hb. split.
    + destruct (Nat.le_gt_cases lo k); [assumption|exfalso].
      destruct (Rle_dec (nth 1 freqs 0 * Rpower 2 (half_width octave)) (nth 0 (nominal octave) 0)) as [H0|H0]; [rewrite A2 in H; [lia|exact H0]|].
      destruct A3 as [A3 _]; [lra|]. pose proof (nominal_nth octave k lo ltac:(lia)). lra.
    + destruct (Nat.lt_ge_cases k hi); [assumption|exfalso]. pose proof (nominal_nth octave hi k ltac:(lia)).
      specialize (B2 ltac:(lia)). lra.
Qed.

(** The bars: bar k runs from border k to border k+1; the outer borders are the
    edges of the outer bands, an inner border is halfway between the upper edge
    of a band and the lower edge of the next.  Two points per bar. *)
Definition halfway octave (fc : list R) (k : nat) : R :=
  if (k =? 0)%nat then lower_edge octave (nth 0 fc 0)
  else if (k =? length fc)%nat then upper_edge octave (nth (k - 1) fc 0)
  else (upper_edge octave (nth (k - 1) fc 0) + lower_edge octave (nth k fc 0)) / 2.

Theorem C93_bars : forall (octave : bool) (freqs data : list R) (xoffset : R) fc values,
  (2 <= length freqs)%nat -> increasing freqs -> length data = length freqs ->
  barspectrum data freqs octave false xoffset = inl (fc, values, fc) -> fc <> [] ->
  exists xs ys, barspectrum data freqs octave true xoffset = inl (xs, ys, fc)
    /\ length xs = (2 * length fc)%nat /\ length ys = (2 * length fc)%nat
    /\ forall k, (k < length fc)%nat ->
         nth (2 * k) xs 0 = Rpower 2 (2 * xoffset * half_width octave) * halfway octave fc k
         /\ nth (2 * k + 1) xs 0 = Rpower 2 (2 * xoffset * half_width octave) * halfway octave fc (k + 1)
         /\ nth (2 * k) ys 0 = nth k values 0 /\ nth (2 * k + 1) ys 0 = nth k values 0.
Proof.
  intros octave freqs data xoffset fc values H2 Hi Hl E Hne.
  destruct (bar_low_spec octave freqs) as (A1 & _). destruct (bar_high_spec octave freqs) as (B1 & _). cbv zeta in A1, B1.
  assert (Ef : fc = slice (bar_low octave freqs) (bar_high octave freqs) (centres octave)).
  { unfold barspectrum in E. destruct (Nat.ltb_spec (length freqs) 2); [lia|]. cbv zeta in E. now injection E as <- _ _. }
  assert (Hlt : (bar_low octave freqs < bar_high octave freqs)%nat).
  { destruct (Nat.lt_ge_cases (bar_low octave freqs) (bar_high octave freqs)); [assumption|exfalso].
    apply Hne. rewrite Ef. apply length_zero_iff_nil. rewrite Stream.slice_length. lia. }
  destruct (barspectrum_bars data freqs octave xoffset H2 Hi Hl Hlt B1) as (E1 & xs & ys & E2 & L1 & L2 & N).
  cbv zeta in *. rewrite <- Ef in *. rewrite E1 in E. injection E as <-.
  exists xs, ys. split; [exact E2|]. split; [exact L1|]. split; [exact L2|].
  intros k Hk. destruct (N k Hk) as (N1 & N2 & N3 & N4). rewrite N1, N2, N3, N4, !half_width_ep.
  assert (Hb : forall j, border (half_width octave) fc j = halfway octave fc j).
  { intros j. unfold border, halfway, lower_edge, upper_edge. destruct (Nat.eqb_spec j 0); [reflexivity|].
    destruct (Nat.eqb_spec j (length fc)) as [->|]; reflexivity. }
  rewrite !Hb. split; [reflexivity|]. split; [reflexivity|].
  set (h := fun c => band_sum _ _ (c * _) _ 0%nat).
  rewrite (nth_indep (map h fc) 0 (h 0)) by (now rewrite map_length). now rewrite (map_nth h).
Qed.

(** bardata draws the same bars from the values and centre frequencies. *)
Theorem C93_bardata : forall (octave : bool) (freqs data : list R) (xoffset : R) fc values,
  (2 <= length freqs)%nat -> increasing freqs -> length data = length freqs ->
  barspectrum data freqs octave false xoffset = inl (fc, values, fc) -> fc <> [] ->
  barspectrum data freqs octave true xoffset
  = inl (bardata values fc (if octave then 1 else 3) true xoffset, fc).
Proof.
  intros octave freqs data xoffset fc values H2 Hi Hl E Hne.
  assert (Lv : length values = length fc).
  { unfold barspectrum in E. destruct (Nat.ltb_spec (length freqs) 2); [lia|]. cbv zeta in E.
    injection E as <- <-. rewrite map_length. unfold helper_synthetic. now rewrite map_length. }
  destruct (C93_bars octave freqs data xoffset fc values H2 Hi Hl E Hne) as (xs & ys & E1 & L1 & L2 & N).
  pose proof (bardata_bars values fc (if octave then 1 else 3) xoffset Hne Lv) as B. cbv zeta in B.
  destruct (bardata values fc (if octave then 1 else 3) true xoffset) as [xs' ys']. destruct B as (M1 & M2 & M).
  rewrite E1. f_equal. f_equal.
  assert (Eo : 2 * xoffset * half_width octave = xoffset / (if octave then 1 else 3)) by (unfold half_width; destruct octave; field).
  assert (Ee : 1 / (2 * (if octave then 1 else 3)) = half_width octave) by (unfold half_width; destruct octave; field).
  rewrite Eo in N. rewrite Ee in M.
  assert (Hb : forall j, border (half_width octave) fc j = halfway octave fc j).
  { intros j. unfold border, halfway, lower_edge, upper_edge. destruct (Nat.eqb_spec j 0); [reflexivity|].
    destruct (Nat.eqb_spec j (length fc)) as [->|]; reflexivity. }
  assert (P : forall j, (j < 2 * length fc)%nat -> nth j xs 0 = nth j xs' 0 /\ nth j ys 0 = nth j ys' 0).
  { intros j Hj. assert (Hk : (j / 2 < length fc)%nat) by (apply Nat.div_lt_upper_bound; lia).
    destruct (N _ Hk) as (N1 & N2 & N3 & N4). destruct (M _ Hk) as (M3 & M4 & M5 & M6). rewrite Hb in M3, M4.
    pose proof (Nat.div_mod j 2 ltac:(lia)) as D. pose proof (Nat.mod_upper_bound j 2 ltac:(lia)) as D2.
    set (q := (j / 2)%nat) in *. clearbody q.
    assert (j = 2 * q \/ j = 2 * q + 1)%nat as [->| ->] by lia; split; congruence. }
  f_equal; apply (nth_ext _ _ 0 0); try congruence; intros j Hj; apply P; congruence || lia.
Qed.

(* ------------------------------------------------------------------ *)
(** Every line between the outer edges counted exactly once: false.  The band
    edges are computed from the rounded nominal centre frequencies, so some
    bands overlap and some leave a gap. *)

Lemma sixth_root : 1.12 < Rpower 2 (1 / 6) < 1.1225.
Proof.
  set (r := Rpower 2 (1 / 6)). assert (P : 0 < r) by apply exp_pos.
  assert (E : r ^ 6 = 2).
  { rewrite <- Rpower_pow by exact P. unfold r. rewrite Rpower_mult. cbn [INR].
    replace (1 / 6 * (1 + 1 + 1 + 1 + 1 + 1)) with 1 by field. apply Rpower_1. lra. }
  split; apply Rnot_le_lt; intros H.
  - assert (r ^ 6 <= 1.12 ^ 6) by (apply pow_incr; lra). lra.
  - assert (1.1225 ^ 6 <= r ^ 6) by (apply pow_incr; lra). lra.
Qed.

Lemma third_edges c : 0 < c ->
  c * 1.12 < upper_edge false c < c * 1.1225 /\ c / 1.1225 < lower_edge false c < c / 1.12.
Proof.
  intros Hc. pose proof sixth_root as [A B]. unfold upper_edge, lower_edge. cbn [half_width]. rewrite Rpower_Ropp.
  set (r := Rpower 2 (1 / 6)) in *. split; split.
  - apply Rmult_lt_compat_l; lra.
  - apply Rmult_lt_compat_l; lra.
  - apply Rmult_lt_compat_l; [lra|]. apply Rinv_lt_contravar; [|lra]. apply Rmult_lt_0_compat; lra.
  - apply Rmult_lt_compat_l; [lra|]. apply Rinv_lt_contravar; [|lra]. apply Rmult_lt_0_compat; lra.
Qed.

Definition rsum (l : list R) : R := fold_right Rplus 0 l.

Ltac edges := repeat match goal with
  | |- context [upper_edge false ?c] => let e := fresh "e" in let l := fresh "l" in
      destruct (third_edges c ltac:(lra)) as [? ?]; set (e := upper_edge false c) in *; set (l := lower_edge false c) in *; clearbody e l
  end.
Ltac decide_lines := repeat match goal with
  | |- context [Rle_dec ?a ?b] => destruct (Rle_dec a b); try lra
  | |- context [Rlt_dec ?a ?b] => destruct (Rlt_dec a b); try lra
  end.

(** The range of bands is determined by which bands lie within the spectrum. *)
Lemma range_of (freqs data : list R) (n : nat) : (2 <= length freqs)%nat -> increasing freqs -> length data = length freqs ->
  (0 < n < 30)%nat -> nth 1 freqs 0 <= 28 ->
  nth (n - 1) third_octaves 0 * 1.1225 <= last freqs 0 < nth n third_octaves 0 * 1.12 ->
  barspectrum data freqs false false 0
  = inl (firstn n third_octaves,
         map (fun c => lines_sum freqs data (lower_edge false c) (upper_edge false c)) (firstn n third_octaves),
         firstn n third_octaves).
Proof.
  intros H2 Hi Hl Hn Ha Hb. destruct (C93_values_partial false freqs data 0 H2 Hi Hl) as (lo & hi & E & H & _ & U & V).
  cbv zeta in E. cbn [nominal] in *. change (length third_octaves) with 30%nat in *.
  assert (P : forall k, (k < 30)%nat -> 63 / 2 <= nth k third_octaves 0).
  { intros k Hk. apply (nominal_nth false 0 k). cbn [nominal]. change (length third_octaves) with 30%nat. lia. }
  assert (In1 : forall k, (k < n)%nat -> (lo <= k < hi)%nat).
  { intros k Hk. apply V; [lia| |].
    - destruct (third_edges (nth k third_octaves 0)) as [_ [? _]]; [pose proof (P k ltac:(lia)); lra|].
      pose proof (P k ltac:(lia)). lra.
    - destruct (third_edges (nth k third_octaves 0)) as [[_ ?] _]; [pose proof (P k ltac:(lia)); lra|].
      pose proof (nominal_nth false k (n - 1)) as M. cbn [nominal] in M. change (length third_octaves) with 30%nat in M.
      specialize (M ltac:(lia)). lra. }
  assert (lo = 0)%nat by (specialize (In1 0%nat ltac:(lia)); lia). subst lo.
  assert (n <= hi)%nat by (specialize (In1 (n - 1)%nat ltac:(lia)); lia).
  assert (hi = n)%nat.
  { destruct (Nat.eq_dec hi n); [assumption|exfalso]. specialize (U n ltac:(lia)).
    destruct (third_edges (nth n third_octaves 0)) as [[? _] _]; [pose proof (P n ltac:(lia)); lra|]. lra. }
  subst hi. rewrite Nat.sub_0_r in E. exact E.
Qed.

Theorem C93_overlap_refuted : exists freqs data fc values,
  (2 <= length freqs)%nat /\ increasing freqs /\ length data = length freqs /\ (forall d, In d data -> 0 <= d)
  /\ barspectrum data freqs false false 0 = inl (fc, values, fc)
  /\ rsum data < rsum values.
Proof.
  exists [0; 14.9; 29.8; 44.7; 59.6], [0; 0; 0; 1; 0]. eexists _, _.
  split; [cbn; lia|]. split; [cbn; repeat split; lra|]. split; [reflexivity|].
  split; [intros d Hd; cbn in Hd; repeat destruct Hd as [<-|Hd]; try lra; destruct Hd|].
  split; [apply (range_of _ _ 3); try reflexivity; try (cbn; repeat split; lra); cbn; lia|].
  unfold rsum. cbn [firstn third_octaves map lines_sum fold_right]. edges. decide_lines.
Qed.

Theorem C93_gap_refuted : exists freqs data fc values f,
  (2 <= length freqs)%nat /\ increasing freqs /\ length data = length freqs
  /\ barspectrum data freqs false false 0 = inl (fc, values, fc)
  /\ nth 2 freqs 0 = f /\ nth 2 data 0 = 1
  /\ lower_edge false (nth 0 fc 0) < f < upper_edge false (last fc 0)
  /\ (forall v, In v values -> v = 0).
Proof.
  exists [0; 17.75; 35.5; 53.25; 71], [0; 0; 1; 0; 0]. eexists _, _, 35.5.
  split; [cbn; lia|]. split; [cbn; repeat split; lra|]. split; [reflexivity|].
  split; [apply (range_of _ _ 4); try reflexivity; try (cbn; repeat split; lra); cbn; lia|].
  split; [reflexivity|]. split; [reflexivity|].
  cbn [firstn third_octaves map lines_sum nth last]. edges. split; [split; lra|].
  intros v Hv. cbn [In] in Hv. repeat destruct Hv as [<-|Hv]; try destruct Hv; decide_lines.
Qed.

Lemma firstn_nth : forall (l : list R) n k, (k < n)%nat -> nth k (firstn n l) 0 = nth k l 0.
Proof.
  induction l as [|x l IH]; intros [|n] [|k] H; try reflexivity; try lia. cbn [firstn nth]. apply IH. lia.
Qed.

(** Every band returned lies within the spectrum: false whenever 31.5 Hz is too
    low for the spectrum; then the first band always begins below the first line. *)
Theorem C93_low_refuted : forall (octave : bool) (freqs data : list R) (xoffset : R) fc values,
  (2 <= length freqs)%nat -> increasing freqs -> length data = length freqs ->
  barspectrum data freqs octave false xoffset = inl (fc, values, fc) -> fc <> [] ->
  lower_edge octave (63 / 2) < nth 1 freqs 0 ->
  lower_edge octave (nth 0 fc 0) < nth 1 freqs 0.
Proof.
  intros octave freqs data xoffset fc values H2 Hi Hl E Hne H.
  assert (N : forall c, ~ c * Rpower 2 (- half_width octave) < nth 1 freqs 0 <-> nth 1 freqs 0 * Rpower 2 (half_width octave) <= c).
  { intros c. rewrite edge_low. split; intros; lra. }
  destruct (bar_low_spec octave freqs) as (A1 & A2 & A3). cbv zeta in A1, A2, A3.
  rewrite nominal_centres, half_width_ep in *. unfold lower_edge in *.
  assert (E0 : nth 0 (nominal octave) 0 = 63 / 2) by (destruct octave; reflexivity).
  rewrite E0 in *. destruct A3 as [A3 _].
  { apply Rnot_le_lt. intros H'. apply N in H'. auto. }
  assert (Ef : nth 0 fc 0 = nth (bar_low octave freqs) (nominal octave) 0).
  { unfold barspectrum in E. destruct (Nat.ltb_spec (length freqs) 2); [lia|]. cbv zeta in E.
    injection E as E _ _. rewrite nominal_centres in E. rewrite <- E in Hne |- *.
    unfold slice in *. rewrite skipn_nth0. apply firstn_nth.
    destruct (Nat.lt_ge_cases (bar_low octave freqs) (bar_high octave freqs)); [assumption|exfalso].
    apply Hne. apply skipn_all2. rewrite firstn_length. lia. }
  rewrite Ef. apply Rnot_le_lt. intros H'. assert (H2' : ~ nth (bar_low octave freqs) (nominal octave) 0 * Rpower 2 (- half_width octave) < nth 1 freqs 0) by lra.
  apply N in H2'. lra.
Qed.

(** A spectrum that ends below the lowest band: no bars but ValueError. *)
Theorem C93_empty_refuted : forall (octave : bool) (freqs data : list R) (xoffset : R),
  (2 <= length freqs)%nat -> increasing freqs -> length data = length freqs ->
  last freqs 0 < upper_edge octave (63 / 2) ->
  barspectrum data freqs octave false xoffset = inl ([], [], [])
  /\ barspectrum data freqs octave true xoffset = inr ValueError.
Proof.
  intros octave freqs data xoffset H2 Hi Hl H.
  destruct (bar_low_spec octave freqs) as (A1 & A2 & A3). destruct (bar_high_spec octave freqs) as (B1 & B2 & B3 & B4).
  cbv zeta in *. rewrite nominal_centres, half_width_ep in *.
  assert (Hh : bar_high octave freqs = 0%nat).
  { destruct (Nat.eq_dec (bar_high octave freqs) 0) as [|Hn]; [assumption|exfalso].
    assert (L : nth 0 (nominal octave) 0 <= last freqs 0 * Rpower 2 (- half_width octave)).
    { destruct (Rle_dec (last (nominal octave) 0) (last freqs 0 * Rpower 2 (- half_width octave))) as [H'|H'].
      - rewrite last_is_nth in H'. pose proof (nominal_nth octave 0 (length (nominal octave) - 1) ltac:(destruct octave; cbn; lia)). lra.
      - apply B4; [lra|lia]. }
    apply edge_high in L. unfold upper_edge in H. assert (E0 : nth 0 (nominal octave) 0 = 63 / 2) by (destruct octave; reflexivity).
    rewrite E0 in L. lra. }
  assert (Hlo : (bar_low octave freqs <= 2)%nat).
  { destruct (Nat.le_gt_cases (bar_low octave freqs) 2); [assumption|exfalso].
    destruct (Rle_dec (nth 1 freqs 0 * Rpower 2 (half_width octave)) (nth 0 (nominal octave) 0)) as [H'|H'].
    { specialize (A2 H'). lia. }
    destruct A3 as [A3 _]; [lra|].
    pose proof (nominal_nth octave 3 (bar_low octave freqs) ltac:(lia)) as M.
    assert (F : 63 <= nth 3 (nominal octave) 0) by (destruct octave; cbn; lra).
    assert (Hf : nth 1 freqs 0 <= last freqs 0).
    { rewrite last_is_nth. destruct (Nat.eq_dec (length freqs - 1) 1) as [->|]; [lra|]. apply Rlt_le, increasing_nth; [exact Hi|lia]. }
    assert (Hp : 0 < Rpower 2 (half_width octave)) by apply exp_pos.
    assert (Hq : Rpower 2 (half_width octave) * Rpower 2 (half_width octave) <= 2).
    { rewrite <- Rpower_plus. apply Rle_trans with (Rpower 2 1); [|rewrite Rpower_1; lra]. apply Rle_Rpower; [lra|]. unfold half_width. destruct octave; lra. }
    unfold upper_edge in H.
    assert (nth 1 freqs 0 * Rpower 2 (half_width octave) <= 63 / 2 * Rpower 2 (half_width octave) * Rpower 2 (half_width octave)).
    { apply Rmult_le_compat_r; lra. }
    nra. }
  assert (Ln : (10 <= length (nominal octave))%nat) by (destruct octave; cbn; lia).
  unfold barspectrum. destruct (Nat.ltb_spec (length freqs) 2); [lia|]. cbv zeta. rewrite nominal_centres, Hh.
  assert (Es : slice (bar_low octave freqs) 0 (nominal octave) = []) by (unfold slice; cbn [firstn]; apply skipn_nil).
  rewrite Es. split; [reflexivity|].
  change (pslice (bar_low octave freqs + 1) (Z.of_nat 0) (nominal octave)) with (slice (bar_low octave freqs + 1) 0 (nominal octave)) || rewrite (pslice_nat _ 0).
  assert (Es' : slice (bar_low octave freqs + 1) 0 (nominal octave) = []) by (unfold slice; cbn [firstn]; apply skipn_nil).
  rewrite Es'. cbn [map].
  assert (Lp : (2 <= length (pslice (bar_low octave freqs) (Z.of_nat 0 - 1) (nominal octave)))%nat).
  { unfold pslice, clip_index. change (Z.of_nat 0 - 1)%Z with (-1)%Z. cbn [Z.ltb Z.compare].
    rewrite Stream.slice_length. lia. }
  unfold arr_add. rewrite map_length. destruct (pslice (bar_low octave freqs) (Z.of_nat 0 - 1) (nominal octave)) as [|x [|y l]]; cbn [length map] in *; try lia.
  reflexivity.
Qed.

(** Hypotheses met: five lines, 25 Hz apart, third-octave bands. *)
Example C93_case : exists fc values,
  barspectrum [0; 1; 2; 3; 4] [0; 25; 50; 75; 100] false false 0 = inl (fc, values, fc)
  /\ fc = [63/2; 40; 50; 63; 80] /\ values = [0; 0; 2; 0; 3].
Proof.
  eexists _, _. split; [apply (range_of _ _ 5); try reflexivity; try (cbn; repeat split; lra); cbn; lia|].
  cbn [firstn third_octaves map lines_sum]. split; [reflexivity|]. edges.
  repeat (apply f_equal2; [decide_lines|]); reflexivity.
Qed.
Print Assumptions C93_values_partial.
Print Assumptions C93_bars.
Print Assumptions C93_bardata.
Print Assumptions C93_overlap_refuted.
Print Assumptions C93_gap_refuted.
Print Assumptions C93_low_refuted.
Print Assumptions C93_empty_refuted.
