(** The frequency range of PowerSpectra (spectra.py). *)
From Coq Require Import List Arith Lia ZArith Bool Reals Lra.
From Verif Require Import Stream Result Traits.
Import ListNotations.
Local Open Scope R_scope.

(** The attributes behind freq_range, ind_low and ind_high (spectra.py:200-236);
    None in [fr_ih], [fr_fhc] is Python's None. *)
Record settings := mkSettings {
  fr_fs : R;          (* source.sample_freq *)
  fr_n : Z;           (* block_size *)
  fr_il : Z;          (* _ind_low *)
  fr_ih : option Z;   (* _ind_high *)
  fr_flc : R;         (* _freqlc *)
  fr_fhc : option R;  (* _freqhc *)
  fr_last : bool      (* _index_set_last *)
}.
(** A new object (spectra.py:205-236). *)
Definition new_spectra (fs : R) (n : Z) : settings := mkSettings fs n 1 (Some (-1)%Z) 0 (Some 0) true.

(** _set_freq_range (spectra.py:300-303), _set_ind_high (327-329), _set_ind_low (331-333) *)
Definition set_freq_range (lo : R) (hi : option R) (s : settings) : settings :=
  mkSettings (fr_fs s) (fr_n s) (fr_il s) (fr_ih s) lo hi false.
Definition set_ind_high (i : option Z) (s : settings) : settings :=
  mkSettings (fr_fs s) (fr_n s) (fr_il s) i (fr_flc s) (fr_fhc s) true.
Definition set_ind_low (i : Z) (s : settings) : settings :=
  mkSettings (fr_fs s) (fr_n s) i (fr_ih s) (fr_flc s) (fr_fhc s) true.

Definition lines (s : settings) : list R := fftfreq (fr_fs s) (fr_n s).
Definition num_lines (s : settings) : nat := length (lines s).

(** _get_ind_low (spectra.py:305-312), _get_ind_high (314-325); the values are
    those calculated, the caching of them is in Traits.v. *)
Definition get_ind_low (s : settings) : Z :=
  ind_low_of (fr_fs s) (fr_n s) (fr_il s) (fr_flc s) (fr_last s).
Definition get_ind_high (s : settings) : option Z :=
  if fr_last s then
    match fr_ih s with
    | None => None
    | Some i => Some (Z.min i (Z.of_nat (num_lines s) - 1))
    end
  else
    match fr_fhc s with
    | None => None
    | Some f => Some (Z.of_nat (searchsorted (removelast (lines s)) f))
    end.

(** _get_indices (spectra.py:335-346); slices of an array never raise. *)
Definition get_indices (s : settings) : list nat :=
  slice_list (num_lines s) (Some (get_ind_low s)) (get_ind_high s) 1.

(** numpy index of one element: negative numbers count from the end. *)
Definition py_at (l : list R) (i : Z) : R + exn :=
  let j := if (i <? 0)%Z then (i + Z.of_nat (length l))%Z else i in
  if ((j <? 0) || (Z.of_nat (length l) <=? j))%Z then inr IndexError
  else inl (nth (Z.to_nat j) l 0).

(** _get_freq_range (spectra.py:291-298); an index array with None in it is
    refused with IndexError. *)
Definition get_freq_range (s : settings) : (R * option R) + exn :=
  match py_at (lines s) (get_ind_low s) with
  | inr e => inr e
  | inl f1 =>
      match fr_ih s with
      | None => inl (f1, None)
      | Some _ =>
          match get_ind_high s with
          | None => inr IndexError
          | Some i => match py_at (lines s) i with
                      | inr e => inr e
                      | inl f2 => inl (f1, Some f2)
                      end
          end
      end
  end.

(** The lines over which BeamformerBase.integrate goes without frange
    (fbeamform.py:663-676, 685-687). *)
Definition integrate_lines (s : settings) : list Z :=
  let nf := Z.of_nat (num_lines s) in
  let lo := get_ind_low s in
  let lo := if (lo <? 0)%Z then (lo + nf)%Z else lo in
  let hi := match get_ind_high s with None => nf | Some h => h end in
  let hi := if (hi <? 0)%Z then (hi + nf)%Z else hi in
  py_range lo hi 1.

(** * Lemmas *)
Lemma num_lines_eq s : num_lines s = S (Z.to_nat (fr_n s) / 2).
Proof. unfold num_lines, lines, fftfreq. now rewrite map_length, seq_length. Qed.

Lemma removelast_seq (g : nat -> R) m : removelast (map g (seq 0 (S m))) = map g (seq 0 m).
Proof. rewrite seq_S, map_app. cbn [map]. apply removelast_last. Qed.

Lemma search_mono (g : nat -> R) f (Hg : forall i j, (i < j)%nat -> g i < g j) :
  forall m a, let c := searchsorted (map g (seq a m)) f in
  (c <= m)%nat /\ (forall k, (a <= k < a + c)%nat -> g k < f) /\ (forall k, (a + c <= k < a + m)%nat -> f <= g k).
Proof.
  induction m as [|m IH]; intros a; cbn [seq map searchsorted].
  - repeat split; try lia; intros; lia.
  - destruct (Rlt_dec (g a) f) as [H|H].
    + destruct (IH (S a)) as (H1 & H2 & H3). repeat split; [lia| |].
      * intros k Hk. destruct (Nat.eq_dec k a) as [->|]; [exact H|apply H2; lia].
      * intros k Hk. apply H3; lia.
    + repeat split; [lia|intros; lia|]. intros k Hk. apply Rnot_lt_le in H.
      destruct (Nat.eq_dec k a) as [->|]; [exact H|]. apply Rle_trans with (g a); [exact H|].
      left. apply Hg. lia.
Qed.

Definition line (s : settings) (k : nat) : R := INR k * fr_fs s / IZR (fr_n s).

Lemma line_mono s : 0 < fr_fs s -> (0 < fr_n s)%Z -> forall i j, (i < j)%nat -> line s i < line s j.
Proof.
  intros Hf Hn i j Hij. unfold line. apply Rmult_lt_compat_r; [apply Rinv_0_lt_compat, IZR_lt, Hn|].
  apply Rmult_lt_compat_r; [exact Hf|]. apply lt_INR, Hij.
Qed.

Lemma lines_eq s : lines s = map (line s) (seq 0 (S (Z.to_nat (fr_n s) / 2))).
Proof. reflexivity. Qed.

Lemma nth_lines s k : (k < num_lines s)%nat -> nth k (lines s) 0 = line s k.
Proof.
  intros H. unfold num_lines in H. rewrite lines_eq in *. rewrite map_length, seq_length in H.
  rewrite (nth_indep _ 0 (line s 0)) by (rewrite map_length, seq_length; exact H).
  rewrite (map_nth (line s)), seq_nth; [reflexivity|exact H].
Qed.

Lemma filter_none {A} (p : A -> bool) l : (forall x, In x l -> p x = false) -> filter p l = [].
Proof.
  induction l as [|x l IH]; intros H; [reflexivity|]. cbn [filter]. rewrite (H x (or_introl eq_refl)).
  apply IH. intros y Hy. apply H. now right.
Qed.
Lemma filter_all {A} (p : A -> bool) l : (forall x, In x l -> p x = true) -> filter p l = l.
Proof.
  induction l as [|x l IH]; intros H; [reflexivity|]. cbn [filter]. rewrite (H x (or_introl eq_refl)).
  f_equal. apply IH. intros y Hy. apply H. now right.
Qed.

Lemma filter_interval (p : nat -> bool) N L H : (H <= N)%nat ->
  (forall k, (k < N)%nat -> p k = true <-> (L <= k < H)%nat) ->
  filter p (seq 0 N) = seq L (H - L).
Proof.
  intros HN Hp. destruct (le_lt_dec L H) as [HL|HL].
  - replace N with (L + ((H - L) + (N - H)))%nat by lia. rewrite !seq_app, !filter_app.
    rewrite (filter_none p (seq 0 L)).
    2:{ intros k Hk. apply in_seq in Hk. destruct (p k) eqn:E; [|reflexivity]. apply Hp in E; lia. }
    rewrite (filter_all p (seq (0 + L) (H - L))).
    2:{ intros k Hk. apply in_seq in Hk. apply Hp; lia. }
    rewrite filter_none.
    2:{ intros k Hk. apply in_seq in Hk. destruct (p k) eqn:E; [|reflexivity]. apply Hp in E; lia. }
    rewrite app_nil_r. reflexivity.
  - replace (H - L)%nat with 0%nat by lia. apply filter_none. intros k Hk. apply in_seq in Hk.
    destruct (p k) eqn:E; [|reflexivity]. apply Hp in E; lia.
Qed.

Lemma slice_list_any n a b : (0 <= a <= Z.of_nat n)%Z -> (0 <= b <= Z.of_nat n)%Z ->
  slice_list n (Some a) (Some b) 1 = seq (Z.to_nat a) (Z.to_nat b - Z.to_nat a).
Proof.
  intros Ha Hb. destruct (Z_le_gt_dec a b) as [H|H].
  - rewrite slice_list_1 by lia. f_equal. lia.
  - unfold slice_list, slice_indices. change (0 <? 1)%Z with true. cbn match.
    destruct (Z.ltb_spec a 0); [lia|]. destruct (Z.ltb_spec b 0); [lia|].
    unfold py_range. change (0 <? 1)%Z with true. cbn match.
    replace (Z.to_nat b - Z.to_nat a)%nat with 0%nat by lia.
    match goal with |- map _ (map _ (seq _ ?m)) = _ => replace m with 0%nat; [reflexivity|] end.
    rewrite !Z.min_r by lia. rewrite Z.div_1_r. lia.
Qed.

Lemma low_bounds s : fr_last s = false ->
  exists c, get_ind_low s = Z.of_nat c /\ c = searchsorted (map (line s) (seq 0 (Z.to_nat (fr_n s) / 2))) (fr_flc s).
Proof.
  intros E. eexists. split; [|reflexivity]. unfold get_ind_low, ind_low_of. rewrite E.
  change (fftfreq (fr_fs s) (fr_n s)) with (lines s). rewrite lines_eq, removelast_seq. reflexivity.
Qed.
Lemma high_bounds s hi : fr_last s = false -> fr_fhc s = Some hi ->
  exists c, get_ind_high s = Some (Z.of_nat c) /\ c = searchsorted (map (line s) (seq 0 (Z.to_nat (fr_n s) / 2))) hi.
Proof.
  intros E E2. eexists. split; [|reflexivity]. unfold get_ind_high. rewrite E, E2, lines_eq, removelast_seq. reflexivity.
Qed.

Definition Rleb (a b : R) : bool := if Rle_dec a b then true else false.
Definition Rltb (a b : R) : bool := if Rlt_dec a b then true else false.
Lemma Rleb_iff a b : Rleb a b = true <-> a <= b.
Proof. unfold Rleb. destruct (Rle_dec a b); split; intros; auto; try discriminate; contradiction. Qed.
Lemma Rltb_iff a b : Rltb a b = true <-> a < b.
Proof. unfold Rltb. destruct (Rlt_dec a b); split; intros; auto; try discriminate; contradiction. Qed.

Lemma indices_range s lo hi : 0 < fr_fs s -> (0 < fr_n s)%Z ->
  get_indices (set_freq_range lo (Some hi) s)
  = filter (fun k => Rleb lo (line s k) && Rltb (line s k) hi) (seq 0 (Z.to_nat (fr_n s) / 2)).
Proof.
  intros Hf Hn. set (s' := set_freq_range lo (Some hi) s). unfold get_indices.
  destruct (low_bounds s' eq_refl) as (a & -> & Ea). destruct (high_bounds s' hi eq_refl eq_refl) as (b & -> & Eb).
  rewrite num_lines_eq. change (fr_n s') with (fr_n s) in *. change (fr_flc s') with lo in Ea.
  set (M := (Z.to_nat (fr_n s) / 2)%nat) in *.
  assert (Hm : forall i j, (i < j)%nat -> line s' i < line s' j) by (apply line_mono; [exact Hf|exact Hn]).
  destruct (search_mono (line s') lo Hm M 0) as (A1 & A2 & A3). rewrite <- Ea in *.
  destruct (search_mono (line s') hi Hm M 0) as (B1 & B2 & B3). rewrite <- Eb in *.
  rewrite slice_list_any by lia. rewrite !Nat2Z.id. symmetry. apply filter_interval; [lia|].
  intros k Hk. rewrite andb_true_iff, Rleb_iff, Rltb_iff. change (line s k) with (line s' k). split.
  - intros [H1 H2]. split.
    + destruct (le_lt_dec a k); [assumption|]. assert (line s' k < lo) by (apply A2; lia). lra.
    + destruct (le_lt_dec b k); [|assumption]. assert (hi <= line s' k) by (apply B3; lia). lra.
  - intros [H1 H2]. split; [apply A3; lia|apply B2; lia].
Qed.

Lemma slice_to_end n a : (0 <= a <= Z.of_nat n)%Z -> slice_list n (Some a) None 1 = slice_list n (Some a) (Some (Z.of_nat n)) 1.
Proof.
  intros H. unfold slice_list, slice_indices. change (0 <? 1)%Z with true. cbn match.
  destruct (Z.ltb_spec (Z.of_nat n) 0); [lia|]. now rewrite Z.min_id.
Qed.

Lemma indices_open s lo : 0 < fr_fs s -> (0 < fr_n s)%Z -> lo <= line s (Z.to_nat (fr_n s) / 2) ->
  get_indices (set_freq_range lo None s) = filter (fun k => Rleb lo (line s k)) (seq 0 (S (Z.to_nat (fr_n s) / 2))).
Proof.
  intros Hf Hn Hl. set (s' := set_freq_range lo None s). unfold get_indices.
  destruct (low_bounds s' eq_refl) as (a & -> & Ea). change (get_ind_high s') with (@None Z).
  rewrite num_lines_eq. change (fr_n s') with (fr_n s) in *. change (fr_flc s') with lo in Ea.
  set (M := (Z.to_nat (fr_n s) / 2)%nat) in *.
  assert (Hm : forall i j, (i < j)%nat -> line s' i < line s' j) by (apply line_mono; [exact Hf|exact Hn]).
  destruct (search_mono (line s') lo Hm M 0) as (A1 & A2 & A3). rewrite <- Ea in *.
  rewrite slice_to_end, slice_list_any by lia. rewrite !Nat2Z.id. symmetry. apply filter_interval; [lia|].
  intros k Hk. rewrite Rleb_iff. change (line s k) with (line s' k). split.
  - intros H1. split; [|lia].
    destruct (le_lt_dec a k); [assumption|]. assert (line s' k < lo) by (apply A2; lia). lra.
  - intros [H1 H2]. destruct (Nat.eq_dec k M) as [->|]; [exact Hl|]. apply A3; lia.
Qed.

Lemma py_at_in l k : (k < length l)%nat -> py_at l (Z.of_nat k) = inl (nth k l 0).
Proof.
  intros H. unfold py_at. destruct (Z.ltb_spec (Z.of_nat k) 0); [lia|]. destruct (Z.ltb_spec (Z.of_nat k) 0); [lia|].
  destruct (Z.leb_spec (Z.of_nat (length l)) (Z.of_nat k)); [lia|]. cbn [orb]. now rewrite Nat2Z.id.
Qed.

Lemma range_read s lo hi i : 0 < fr_fs s -> (0 < fr_n s)%Z -> fr_ih s = Some i ->
  exists a b, get_freq_range (set_freq_range lo (Some hi) s) = inl (line s a, Some (line s b))
    /\ (a <= Z.to_nat (fr_n s) / 2)%nat /\ (b <= Z.to_nat (fr_n s) / 2)%nat
    /\ (forall k, (k < a)%nat -> line s k < lo) /\ ((a < Z.to_nat (fr_n s) / 2)%nat -> lo <= line s a)
    /\ (forall k, (k < b)%nat -> line s k < hi) /\ ((b < Z.to_nat (fr_n s) / 2)%nat -> hi <= line s b).
Proof.
  intros Hf Hn Ei. set (s' := set_freq_range lo (Some hi) s). unfold get_freq_range.
  destruct (low_bounds s' eq_refl) as (a & -> & Ea). destruct (high_bounds s' hi eq_refl eq_refl) as (b & -> & Eb).
  change (fr_ih s') with (fr_ih s). rewrite Ei.
  change (fr_n s') with (fr_n s) in *. change (fr_flc s') with lo in Ea.
  set (M := (Z.to_nat (fr_n s) / 2)%nat) in *.
  assert (Hm : forall i j, (i < j)%nat -> line s' i < line s' j) by (apply line_mono; [exact Hf|exact Hn]).
  destruct (search_mono (line s') lo Hm M 0) as (A1 & A2 & A3). rewrite <- Ea in *.
  destruct (search_mono (line s') hi Hm M 0) as (B1 & B2 & B3). rewrite <- Eb in *.
  assert (Hl : length (lines s') = S M) by (pose proof (num_lines_eq s') as E; exact E).
  rewrite !py_at_in by lia. rewrite !nth_lines by (unfold num_lines; lia).
  exists a, b. split; [reflexivity|]. split; [exact A1|]. split; [exact B1|].
  split; [intros k Hk; apply A2; lia|]. split; [intros; apply A3; lia|].
  split; [intros k Hk; apply B2; lia|]. intros; apply B3; lia.
Qed.

Lemma indices_index s a b : (0 <= a)%Z -> (0 <= b)%Z ->
  get_indices (set_ind_high (Some b) (set_ind_low a s))
  = filter (fun k => (Z.to_nat a <=? k)%nat && (k <? Z.to_nat b)%nat) (seq 0 (Z.to_nat (fr_n s) / 2)).
Proof.
  intros Ha Hb. unfold get_indices. rewrite num_lines_eq.
  change (get_ind_low _) with (Z.min a (Z.of_nat (num_lines s) - 1)).
  change (get_ind_high _) with (Some (Z.min b (Z.of_nat (num_lines s) - 1))).
  rewrite num_lines_eq. change (fr_n (set_ind_high _ _)) with (fr_n s).
  set (M := (Z.to_nat (fr_n s) / 2)%nat).
  rewrite slice_list_any by lia. symmetry.
  replace (Z.to_nat (Z.min b (Z.of_nat (S M) - 1))) with (Nat.min (Z.to_nat b) M) by lia.
  replace (Z.to_nat (Z.min a (Z.of_nat (S M) - 1))) with (Nat.min (Z.to_nat a) M) by lia.
  apply filter_interval; [lia|]. intros k Hk. rewrite andb_true_iff, Nat.leb_le, Nat.ltb_lt. lia.
Qed.

Lemma indices_index_open s a : (0 <= a <= fr_n s / 2)%Z ->
  get_indices (set_ind_high None (set_ind_low a s)) = seq (Z.to_nat a) (S (Z.to_nat (fr_n s) / 2) - Z.to_nat a).
Proof.
  intros Ha. unfold get_indices. rewrite num_lines_eq.
  change (get_ind_low _) with (Z.min a (Z.of_nat (num_lines s) - 1)).
  change (get_ind_high _) with (@None Z). rewrite num_lines_eq. change (fr_n (set_ind_high _ _)) with (fr_n s).
  assert (a <= Z.of_nat (Z.to_nat (fr_n s) / 2))%Z.
  { rewrite Nat2Z.inj_div, Z2Nat.id by (destruct (Z_lt_le_dec (fr_n s) 0) as [K|]; [pose proof (Z.div_lt_upper_bound (fr_n s) 2 0 eq_refl); lia|assumption]). apply Ha. }
  rewrite slice_to_end, slice_list_any by lia. rewrite Nat2Z.id. f_equal; lia.
Qed.

Lemma integrate_indices s : let m := Z.of_nat (num_lines s) in
  (- m <= get_ind_low s <= m)%Z -> match get_ind_high s with None => True | Some h => - m <= h <= m end%Z ->
  integrate_lines s = map Z.of_nat (get_indices s).
Proof.
  cbv zeta. intros Hl Hh. unfold integrate_lines, get_indices, slice_list, slice_indices.
  change (0 <? 1)%Z with true. cbn match.
  generalize dependent (num_lines s). intros N Hl Hh.
  set (lo := if (get_ind_low s <? 0)%Z then (get_ind_low s + Z.of_nat N)%Z else get_ind_low s).
  replace (if (get_ind_low s <? 0)%Z then Z.max 0 (get_ind_low s + Z.of_nat N) else Z.min (Z.of_nat N) (get_ind_low s)) with lo
    by (unfold lo; destruct (Z.ltb_spec (get_ind_low s) 0); lia).
  assert (0 <= lo)%Z by (unfold lo; destruct (Z.ltb_spec (get_ind_low s) 0); lia).
  assert (K : forall x y, (0 <= x)%Z -> py_range x y 1 = map Z.of_nat (map Z.to_nat (py_range x y 1))).
  { intros x y Hx. rewrite map_map. rewrite <- map_id at 1. apply map_ext_in. intros z Hz.
    unfold py_range in Hz. apply in_map_iff in Hz as (i & <- & _). lia. }
  destruct (get_ind_high s) as [h|].
  - destruct (Z.ltb_spec h 0).
    + rewrite Z.max_r by lia. now apply K.
    + rewrite Z.min_r by lia. now apply K.
  - destruct (Z.ltb_spec (Z.of_nat N) 0); [lia|]. now apply K.
Qed.
