(** In-memory sources and channel-wise calibration.
    Models /repo/acoular/sources.py (TimeSamples, MaskedTimeSamples,
    UncorrelatedNoiseSource) and /repo/acoular/calib.py (Calib). *)
From Coq Require Import List Arith Lia ZArith Bool.
Require Import ZifyBool ZifyNat ZifyN.
From Verif Require Import Stream.
Import ListNotations.
Ltac Zify.zify_post_hook ::= Z.div_mod_to_equations.

(* ------------------------------------------------------------------ *)
(** * Specification helpers (independent of the code) *)

(** The elements of [s] whose index satisfies [p], in order. *)
Fixpoint filteri_from {A} (k : nat) (p : nat -> bool) (s : list A) : list A :=
  match s with
  | [] => []
  | x :: r => if p k then x :: filteri_from (S k) p r else filteri_from (S k) p r
  end.
Definition filteri {A} (p : nat -> bool) (s : list A) : list A := filteri_from 0 p s.

(** Index [k] of a sequence of length [n] is selected by the Python slice
    [start:stop] (None: no limit; a negative limit counts from the end). *)
Definition in_slice (n : Z) (start stop : option Z) (k : Z) : bool :=
  match start with
  | None => true
  | Some v => if (v <? 0)%Z then (n + v <=? k)%Z else (v <=? k)%Z
  end
  &&
  match stop with
  | None => true
  | Some v => if (v <? 0)%Z then (k <? n + v)%Z else (k <? v)%Z
  end.

(** The rows selected by a Python slice. *)
Definition sliced {A} (start stop : option Z) (s : list A) : list A :=
  filteri (fun k => in_slice (Z.of_nat (length s)) start stop (Z.of_nat k)) s.

(** A row restricted to the channels that are not listed as invalid. *)
Definition keep_valid {V} (invalid : list Z) (row : list V) : list V :=
  filteri (fun k => negb (existsb (Z.eqb (Z.of_nat k)) invalid)) row.

(** Channel-wise product. *)
Fixpoint rowmul {V} (mul : V -> V -> V) (a b : list V) : list V :=
  match a, b with
  | x :: a', y :: b' => mul x y :: rowmul mul a' b'
  | _, _ => []
  end.

(* ------------------------------------------------------------------ *)
(** * Python primitives *)

(** [slice(start, stop).indices(n)], first two components, step None
    (CPython slice.indices; used at sources.py:632, 711 and tprocess.py:196, 213). *)
Definition clip_index (n : Z) (v : Z) : Z :=
  if (v <? 0)%Z then Z.max (v + n) 0 else Z.min v n.
Definition slice_indices (start stop : option Z) (n : Z) : Z * Z :=
  (match start with None => 0%Z | Some v => clip_index n v end,
   match stop with None => n | Some v => clip_index n v end).

(** The [channels] property: [slice(0, None)] or an array of the valid indices
    (sources.py:617-622, tprocess.py:181-186, calib.py:107-112). *)
Inductive chidx := AllChannels | IdxChannels (l : list nat).
Definition channels_prop (total : nat) (invalid : list Z) : chidx :=
  if length invalid =? 0 then AllChannels
  else IdxChannels (filter (fun i => negb (existsb (Z.eqb (Z.of_nat i)) invalid)) (seq 0 total)).

(** The [num_channels] property (sources.py:624-628, tprocess.py:188-192). *)
Definition num_channels_prop (total : nat) (invalid : list Z) : nat :=
  if length invalid =? 0 then total
  else match channels_prop total invalid with
       | AllChannels => total
       | IdxChannels l => length l
       end.

(** NumPy indexing of one row by [channels].  An empty Python list becomes a
    float array, which NumPy refuses as an index: IndexError. *)
Definition take_row {V} (c : chidx) (row : list V) : list V + exn :=
  match c with
  | AllChannels => inl row
  | IdxChannels [] => inr IndexError
  | IdxChannels l => match sequence (map (nth_error row) l) with
                     | Some r => inl r
                     | None => inr IndexError
                     end
  end.

(** NumPy broadcasting of [row * factors] for one-dimensional operands. *)
Definition bmul {V} (mul : V -> V -> V) (row fac : list V) : list V + exn :=
  if length row =? length fac then inl (rowmul mul row fac)
  else match fac with
       | [c] => inl (map (fun x => mul x c) row)
       | _ => match row with
              | [x] => inl (map (fun y => mul x y) fac)
              | _ => inr ValueError
              end
       end.

(** Apply a row operation that may fail to a whole block (the error is raised
    for the block as a whole, as in NumPy). *)
Fixpoint map_block {A B} (f : A -> B + exn) (b : list A) : list B + exn :=
  match b with
  | [] => inl []
  | x :: r => match f x with
              | inr e => inr e
              | inl y => match map_block f r with
                         | inr e => inr e
                         | inl ys => inl (y :: ys)
                         end
              end
  end.

(** [while i < stop: yield y(i); i += num].  Fuel only serves termination. *)
Fixpoint slice_loop {B} (fuel : nat) (y : nat -> list B + exn) (i stop num : nat) : trace B :=
  if i <? stop then
    match fuel with
    | 0 => raise OutOfFuel
    | S f => match y i with
             | inr e => raise e
             | inl b => let t := slice_loop f y (i + num) stop num in
                        mkTrace (b :: blocks t) (fin t)
             end
    end
  else done [].

(* ------------------------------------------------------------------ *)
(** * Models *)

(** Calibration data attached to a source (calib.py:85-105). *)
Record calib (V : Type) := mkCalib { cal_num_mics : nat; cal_data : list V }.
Arguments mkCalib {V} _ _.
Arguments cal_num_mics {V} _.
Arguments cal_data {V} _.

(** TimeSamples.result, sources.py:446-521.  [nch] is [num_channels], [data]
    the list of rows; [num_samples] is [length data] (sources.py:431-434).
    The deprecation warning and the checksum access are left out. *)
Definition time_samples_result {V} (mul : V -> V -> V) (nch : nat) (data : list (list V))
    (cal : option (calib V)) (num : nat) : trace (list V) :=
  let num_samples := length data in
  if num_samples =? 0 then raise OSError
  else match cal with
       | Some c =>
           if cal_num_mics c =? nch then
             slice_loop num_samples
               (fun i => map_block (fun row => bmul mul row (cal_data c)) (slice i (i + num) data))
               0 num_samples num
           else raise ValueError
       | None =>
           slice_loop num_samples (fun i => inl (slice i (i + num) data)) 0 num_samples num
       end.

(** MaskedTimeSamples.result, sources.py:664-746. [total] is
    [num_channels_total]; [num_samples_total] is [length data].  The factor 1.0
    used without calibration is the identity and left out. *)
Definition masked_time_samples_result {V} (mul : V -> V -> V) (total : nat)
    (data : list (list V)) (start stop : option Z) (invalid : list Z)
    (cal : option (calib V)) (num : nat) : trace (list V) :=
  let '(i, stop') := slice_indices start stop (Z.of_nat (length data)) in
  if (i >=? stop')%Z then raise OSError
  else
    let ch := channels_prop total invalid in
    let go (f : list V -> list V + exn) :=
      slice_loop (length data)
        (fun i => map_block (fun row => match take_row ch row with
                                        | inr e => inr e
                                        | inl r => f r
                                        end)
                    (slice i (Nat.min (i + num) (Z.to_nat stop')) data))
        (Z.to_nat i) (Z.to_nat stop') num in
    match cal with
    | None => go inl
    | Some c =>
        if cal_num_mics c =? total then
          match take_row ch (cal_data c) with
          | inr e => raise e
          | inl fac => go (fun r => bmul mul r fac)
          end
        else if cal_num_mics c =? num_channels_prop total invalid then
          go (fun r => bmul mul r (cal_data c))
        else if cal_num_mics c =? 0 then go inl
        else raise ValueError
    end.

(** MaskedTimeSamples.num_samples, sources.py:630-633. *)
Definition masked_num_samples (start stop : option Z) (n : nat) : Z :=
  let '(a, b) := slice_indices start stop (Z.of_nat n) in (b - a)%Z.

(** UncorrelatedNoiseSource.result, sources.py:2085-2111: [signal] is the
    matrix of all noise tracks with [num_samples] rows; [nchan] is
    [num_channels], [seed_size] the length of the one-dimensional [seed] array
    (0 = not set). *)
Fixpoint noise_loop {A} (fuel : nat) (signal : list A) (n num : nat) : trace A :=
  if n <=? length signal then
    match fuel with
    | 0 => raise OutOfFuel
    | S f => let t := noise_loop f signal (n + num) num in
             mkTrace (slice (n - num) n signal :: blocks t) (fin t)
    end
  else if n - num <? length signal then done [skipn (n - num) signal]
  else done [].
Definition uncorrelated_noise_result {A} (seed_size nchan : nat) (signal : list A) (num : nat)
    : trace A :=
  if (0 <? seed_size) && negb (seed_size =? nchan) then raise ValueError
  else noise_loop (S (length signal)) signal num num.

(** What the validation walks over: the chain of InOut objects below a Calib
    (base.py:264-310; every InOut class in the library delegates num_channels
    to its source) down to the first object that is not an InOut. *)
Inductive gen_node :=
| TimeOrigin (nch : nat)
| SpectraOrigin (nch nfreqs : nat)
| InOutNode (src : gen_node).

(** Number of columns of the blocks a node yields. *)
Fixpoint node_columns (g : gen_node) : nat :=
  match g with
  | TimeOrigin n => n
  | SpectraOrigin n f => n * f
  | InOutNode s => node_columns s
  end.

(** [tobj] after the while loop of Calib.__validate_data, calib.py:138-140. *)
Fixpoint chain_end (g : gen_node) : gen_node :=
  match g with InOutNode s => chain_end s | _ => g end.

(** Calib.result with __validate_data, calib.py:130-173.  [data] and [source]
    are assumed set. num_mics is [length data] (calib.py:103-105). *)
Definition calib_result {V} (mul : V -> V -> V) (data : list V) (invalid : list Z)
    (g : gen_node) (src : source (list V)) (num : nat) : trace (list V) :=
  let ch := channels_prop (length data) invalid in
  match take_row ch data with
  | inr e => raise e
  | inl fac =>
      let expected := match chain_end g with
                      | TimeOrigin n => n
                      | SpectraOrigin n f => n * f
                      | InOutNode _ => 0
                      end in
      if negb (length fac =? expected) then raise ValueError
      else
        run_for (fun (_ : unit) block =>
                   match map_block (fun row => bmul mul row fac) block with
                   | inl b => (tt, [b], None)
                   | inr e => (tt, [], Some e)
                   end) tt (src num) (fun _ => done [])
  end.

(** MicGeom.pos and MicGeom.num_mics, microphones.py:163-172 ([pos_total] as
    list of columns).  [array([])] is a float array, an invalid index. *)
Definition micgeom_pos {A} (pos_total : list A) (invalid : list Z) : list A + exn :=
  if length invalid =? 0 then inl pos_total
  else
    let allr := filter (fun i => negb (existsb (Z.eqb (Z.of_nat i)) invalid))
                  (seq 0 (length pos_total)) in
    take_row (IdxChannels allr) pos_total.
(** MicGeom.num_mics, microphones.py:170-172. *)
Definition micgeom_num_mics {A} (pos_total : list A) (invalid : list Z) : nat + exn :=
  match micgeom_pos pos_total invalid with inl p => inl (length p) | inr e => inr e end.

(* ------------------------------------------------------------------ *)
(** * Lemmas *)

Lemma slice_loop_chunks {A B} (f : A -> B) (data : list A) (y : nat -> list B + exn) num stop :
  0 < num -> stop <= length data ->
  (forall i, i < stop -> y i = inl (map f (slice i (Nat.min (i + num) stop) data))) ->
  forall fuel i, stop - i <= fuel ->
  slice_loop fuel y i stop num = done (chunks num (map f (slice i stop data))).
Proof.
  intros Hn Hs Hy fuel. induction fuel as [|fuel IH]; intros i Hf.
  - simpl. destruct (Nat.ltb_spec i stop); [lia|].
    replace (slice i stop data) with (@nil A); [reflexivity|].
    symmetry. apply length_zero_iff_nil. rewrite slice_length. lia.
  - simpl. destruct (Nat.ltb_spec i stop) as [Hlt|Hge].
    + rewrite Hy by auto. rewrite IH by lia. unfold done. simpl. f_equal.
      rewrite (chunks_step num (map f (slice i stop data))); auto.
      2:{ intros E. apply (f_equal (@length B)) in E.
          rewrite map_length, slice_length in E. simpl in E. lia. }
      rewrite firstn_map, skipn_map. f_equal.
      * f_equal. unfold slice.
        rewrite firstn_skipn_comm, firstn_firstn'.
        replace (Nat.min (i + num) stop) with (Nat.min (i + num) stop) by lia.
        f_equal. 
      * f_equal. f_equal. unfold slice. rewrite skipn_skipn'. f_equal. lia.
    + replace (slice i stop data) with (@nil A); [reflexivity|].
      symmetry. apply length_zero_iff_nil. rewrite slice_length. lia.
Qed.

Lemma map_block_inl {A B} (f : A -> B + exn) (g : A -> B) b :
  (forall x, In x b -> f x = inl (g x)) -> map_block f b = inl (map g b).
Proof.
  induction b as [|x b IH]; intros H; simpl; auto.
  rewrite H by (left; auto). rewrite IH; auto. intros y Hy. apply H. now right.
Qed.

Lemma in_slice_sub {A} i j (s : list A) x : In x (slice i j s) -> In x s.
Proof.
  unfold slice. intros H.
  assert (forall k (l : list A), In x (skipn k l) -> In x l) as Hsk.
  { intros k l Hl. rewrite <- (firstn_skipn k l). apply in_or_app. now right. }
  apply Hsk in H. rewrite <- (firstn_skipn j s). apply in_or_app. now left.
Qed.

Lemma bmul_same {V} (mul : V -> V -> V) a b :
  length a = length b -> bmul mul a b = inl (rowmul mul a b).
Proof. intros H. unfold bmul. now rewrite (proj2 (Nat.eqb_eq _ _) H). Qed.

Lemma slice_0_all {A} (s : list A) : slice 0 (length s) s = s.
Proof. unfold slice. simpl. apply firstn_all. Qed.

Lemma slice_min {A} i j (s : list A) : slice i (Nat.min j (length s)) s = slice i j s.
Proof.
  unfold slice. destruct (Nat.le_ge_cases j (length s)).
  - now rewrite Nat.min_l.
  - rewrite Nat.min_r by lia. rewrite firstn_all. now rewrite firstn_all2 by lia.
Qed.

Theorem time_samples_delivers {V} (mul : V -> V -> V) nch (data : list (list V)) num :
  0 < num -> data <> [] ->
  delivers num data (time_samples_result mul nch data None num).
Proof.
  intros Hn Hd. apply delivers_iff; auto. unfold time_samples_result.
  destruct data as [|r data]; [congruence|]. set (d := r :: data) in *.
  change (length d =? 0) with false. cbv iota.
  rewrite (slice_loop_chunks (fun x => x) d); auto.
  - now rewrite map_id, slice_0_all.
  - intros i Hi. rewrite map_id, slice_min. reflexivity.
Qed.

Theorem time_samples_calib_delivers {V} (mul : V -> V -> V) nch (data : list (list V)) fac num :
  0 < num -> data <> [] -> Forall (fun r => length r = nch) data -> length fac = nch ->
  delivers num (map (fun r => rowmul mul r fac) data)
    (time_samples_result mul nch data (Some (mkCalib (length fac) fac)) num).
Proof.
  intros Hn Hd Hr Hf. apply delivers_iff; auto. unfold time_samples_result.
  destruct data as [|r data]; [congruence|]. set (d := r :: data) in *.
  change (length d =? 0) with false. cbv iota. simpl cal_num_mics. simpl cal_data.
  rewrite (proj2 (Nat.eqb_eq _ _) Hf).
  rewrite (slice_loop_chunks (fun r => rowmul mul r fac) d); auto.
  - now rewrite slice_0_all.
  - intros i Hi. rewrite slice_min. apply map_block_inl. intros x Hx.
    apply bmul_same. rewrite Hf. rewrite Forall_forall in Hr. apply Hr.
    eapply in_slice_sub; eauto.
Qed.

(** Python slices *)
Lemma filteri_from_range {A} (p : nat -> bool) (s : list A) k lo hi :
  lo <= hi ->
  (forall j, k <= j < k + length s -> p j = (lo <=? j) && (j <? hi)) ->
  filteri_from k p s = slice (lo - k) (hi - k) s.
Proof.
  revert k lo hi. induction s as [|x s IH]; intros k lo hi Hlh Hp.
  - simpl. unfold slice. now rewrite firstn_nil, skipn_nil.
  - simpl. rewrite Hp by (simpl; lia).
    rewrite (IH (S k) lo hi) by (auto; intros j Hj; apply Hp; simpl; lia).
    unfold slice.
    destruct (Nat.leb_spec lo k); destruct (Nat.ltb_spec k hi); simpl.
    + replace (lo - k) with 0 by lia. replace (lo - S k) with 0 by lia.
      replace (hi - k) with (S (hi - S k)) by lia. reflexivity.
    + replace (hi - k) with 0 by lia. replace (hi - S k) with 0 by lia. simpl.
      now rewrite !skipn_nil.
    + replace (lo - k) with (S (lo - S k)) by lia.
      replace (hi - k) with (S (hi - S k)) by lia. reflexivity.
    + replace (hi - k) with 0 by lia. replace (hi - S k) with 0 by lia.
      simpl. now rewrite !skipn_nil.
Qed.

Lemma slice_indices_bounds start stop n :
  (0 <= n)%Z ->
  let '(a, b) := slice_indices start stop n in (0 <= a <= n)%Z /\ (0 <= b <= n)%Z.
Proof.
  intros Hn. unfold slice_indices, clip_index.
  destruct start as [a|], stop as [b|];
    repeat match goal with |- context [(?x <? 0)%Z] => destruct (Z.ltb_spec x 0) end; lia.
Qed.

Lemma filteri_from_none {A} (p : nat -> bool) (s : list A) k :
  (forall j, k <= j < k + length s -> p j = false) -> filteri_from k p s = [].
Proof.
  revert k. induction s as [|x s IH]; intros k Hp; simpl; auto.
  rewrite Hp by (simpl; lia). apply IH. intros j Hj. apply Hp. simpl. lia.
Qed.

Lemma filteri_from_all {A} (p : nat -> bool) (s : list A) k :
  (forall j, k <= j < k + length s -> p j = true) -> filteri_from k p s = s.
Proof.
  revert k. induction s as [|x s IH]; intros k Hp; simpl; auto.
  rewrite Hp by (simpl; lia). f_equal. apply IH. intros j Hj. apply Hp. simpl. lia.
Qed.

Lemma in_slice_indices start stop n k :
  (0 <= n)%Z -> (0 <= k < n)%Z ->
  let '(a, b) := slice_indices start stop n in
  in_slice n start stop k = (a <=? k)%Z && (k <? b)%Z.
Proof.
  intros Hn Hk. unfold slice_indices, clip_index, in_slice.
  destruct start as [a|], stop as [b|]; simpl;
    repeat match goal with |- context [(?x <? 0)%Z] => destruct (Z.ltb_spec x 0) end; lia.
Qed.

Lemma sliced_slice {A} start stop (s : list A) :
  let '(a, b) := slice_indices start stop (Z.of_nat (length s)) in
  (a < b)%Z -> sliced start stop s = slice (Z.to_nat a) (Z.to_nat b) s.
Proof.
  pose proof (slice_indices_bounds start stop (Z.of_nat (length s)) (Zle_0_nat _)) as Hb.
  destruct (slice_indices start stop (Z.of_nat (length s))) as [a b] eqn:E. intros Hab.
  unfold sliced, filteri.
  rewrite (filteri_from_range _ s 0 (Z.to_nat a) (Z.to_nat b)).
  - f_equal; lia.
  - lia.
  - intros j Hj. simpl in Hj.
    pose proof (in_slice_indices start stop (Z.of_nat (length s)) (Z.of_nat j)) as H.
    rewrite E in H. rewrite H by lia. lia.
Qed.

Lemma sliced_empty {A} start stop (s : list A) :
  let '(a, b) := slice_indices start stop (Z.of_nat (length s)) in
  (b <= a)%Z <-> sliced start stop s = [].
Proof.
  pose proof (slice_indices_bounds start stop (Z.of_nat (length s)) (Zle_0_nat _)) as Hb.
  pose proof (sliced_slice start stop s) as Hs.
  destruct (slice_indices start stop (Z.of_nat (length s))) as [a b] eqn:E.
  split.
  - intros Hab. unfold sliced, filteri. apply filteri_from_none. intros j Hj. simpl in Hj.
    pose proof (in_slice_indices start stop (Z.of_nat (length s)) (Z.of_nat j)) as H.
    rewrite E in H. rewrite H by lia. lia.
  - intros H0. destruct (Z.le_gt_cases b a) as [|Hlt]; auto. exfalso.
    rewrite Hs in H0 by lia. apply (f_equal (@length A)) in H0.
    rewrite slice_length in H0. simpl in H0. lia.
Qed.

(** Channel masks *)
Lemma sequence_nth_filter {V} (p : nat -> bool) (pre row : list V) :
  sequence (map (nth_error (pre ++ row)) (filter p (seq (length pre) (length row))))
  = Some (filteri_from (length pre) p row).
Proof.
  revert pre. induction row as [|x row IH]; intros pre.
  - reflexivity.
  - simpl. specialize (IH (pre ++ [x])).
    rewrite app_length, Nat.add_1_r, <- app_assoc in IH. simpl in IH.
    destruct (p (length pre)); simpl.
    + rewrite nth_error_app2, Nat.sub_diag by lia. simpl. now rewrite IH.
    + exact IH.
Qed.

(** The mask selects exactly the valid channels; if none is valid, NumPy
    refuses the empty index. *)
Lemma take_row_channels {V} invalid (row : list V) :
  (invalid <> [] -> keep_valid invalid (seq 0 (length row)) <> []) ->
  take_row (channels_prop (length row) invalid) row = inl (keep_valid invalid row).
Proof.
  intros Hne. unfold channels_prop. destruct invalid as [|v inv].
  - simpl. f_equal. symmetry. apply filteri_from_all. intros; reflexivity.
  - cbn [length Nat.eqb]. unfold take_row.
    set (p := fun i => negb (existsb (Z.eqb (Z.of_nat i)) (v :: inv))).
    pose proof (sequence_nth_filter p [] row) as H1. simpl in H1.
    pose proof (sequence_nth_filter p [] (seq 0 (length row))) as H2.
    simpl in H2. rewrite seq_length in H2.
    change (filteri_from 0 p row) with (keep_valid (v :: inv) row) in H1.
    change (filteri_from 0 p (seq 0 (length row)))
      with (keep_valid (v :: inv) (seq 0 (length row))) in H2.
    destruct (filter p (seq 0 (length row))) as [|i l] eqn:E.
    + simpl in H2. exfalso. apply Hne; [congruence|]. congruence.
    + change (nth_error ([] ++ row)) with (nth_error row) in H1. rewrite H1. reflexivity.
Qed.

Lemma keep_valid_length {V W} invalid (a : list V) (b : list W) :
  length a = length b -> length (keep_valid invalid a) = length (keep_valid invalid b).
Proof.
  unfold keep_valid, filteri. generalize 0. revert b.
  induction a as [|x a IH]; intros [|y b] k H; simpl in *; try lia.
  destruct (negb _); simpl; rewrite (IH b); lia.
Qed.

(** [num_channels] is the number of columns that remain. *)
Lemma num_channels_valid {V} invalid (row : list V) :
  num_channels_prop (length row) invalid = length (keep_valid invalid row).
Proof.
  unfold num_channels_prop, channels_prop. destruct invalid as [|v inv].
  - simpl. unfold keep_valid, filteri. now rewrite filteri_from_all.
  - cbn [length Nat.eqb].
    set (p := fun i => negb (existsb (Z.eqb (Z.of_nat i)) (v :: inv))).
    pose proof (sequence_nth_filter p [] row) as H1. simpl in H1.
    change (filteri_from 0 p row) with (keep_valid (v :: inv) row) in H1.
    assert (forall T (l : list (option T)) r, sequence l = Some r -> length l = length r) as Hseq.
    { clear. induction l as [|[x|] l IH]; simpl; intros r Hr; try congruence.
      - inversion Hr; reflexivity.
      - destruct (sequence l) eqn:E; inversion Hr; subst. simpl. f_equal. now apply IH. }
    apply Hseq in H1. rewrite map_length in H1. exact H1.
Qed.

Section Masked.
  Context {V : Type} (mul : V -> V -> V).
  Variables (total : nat) (data : list (list V)) (start stop : option Z) (invalid : list Z).
  Hypothesis Hshape : Forall (fun r => length r = total) data.
  (** at least one channel is valid *)
  Hypothesis Hvalid : invalid <> [] -> keep_valid invalid (seq 0 total) <> [].

  Lemma masked_go (f : list V -> list V + exn) (g : list V -> list V) num a b :
    0 < num ->
    slice_indices start stop (Z.of_nat (length data)) = (a, b) -> (a < b)%Z ->
    (forall row, length row = total -> f (keep_valid invalid row) = inl (g (keep_valid invalid row))) ->
    slice_loop (length data)
      (fun i => map_block (fun row => match take_row (channels_prop total invalid) row with
                                      | inr e => inr e
                                      | inl r => f r
                                      end)
                  (slice i (Nat.min (i + num) (Z.to_nat b)) data))
      (Z.to_nat a) (Z.to_nat b) num
    = done (chunks num (map (fun row => g (keep_valid invalid row)) (sliced start stop data))).
  Proof.
    intros Hn E Hab Hf.
    pose proof (slice_indices_bounds start stop (Z.of_nat (length data)) (Zle_0_nat _)) as Hb.
    pose proof (sliced_slice start stop data) as Hs. rewrite E in Hb, Hs.
    rewrite (slice_loop_chunks (fun row => g (keep_valid invalid row)) data); auto.
    - rewrite Hs by auto. reflexivity.
    - lia.
    - intros i Hi. apply map_block_inl. intros row Hrow.
      assert (length row = total) as Hlr.
      { rewrite Forall_forall in Hshape. apply Hshape. eapply in_slice_sub; eauto. }
      rewrite <- Hlr at 1. rewrite take_row_channels.
      + now apply Hf.
      + rewrite Hlr. exact Hvalid.
    - lia.
  Qed.

  Theorem masked_time_samples_plain num :
    0 < num -> sliced start stop data <> [] ->
    delivers num (map (keep_valid invalid) (sliced start stop data))
      (masked_time_samples_result mul total data start stop invalid None num).
  Proof.
    intros Hn Hne. apply delivers_iff; auto. unfold masked_time_samples_result.
    pose proof (sliced_empty start stop data) as He.
    destruct (slice_indices start stop (Z.of_nat (length data))) as [a b] eqn:E.
    destruct (Z.geb_spec a b) as [Hge|Hlt].
    - exfalso. apply Hne. apply He. lia.
    - apply masked_go with (g := fun r => r); auto.
  Qed.

  Theorem masked_time_samples_calib_all fac num :
    0 < num -> sliced start stop data <> [] -> length fac = total ->
    delivers num
      (map (fun row => rowmul mul (keep_valid invalid row) (keep_valid invalid fac))
         (sliced start stop data))
      (masked_time_samples_result mul total data start stop invalid
         (Some (mkCalib (length fac) fac)) num).
  Proof.
    intros Hn Hne Hf. apply delivers_iff; auto. unfold masked_time_samples_result.
    pose proof (sliced_empty start stop data) as He.
    destruct (slice_indices start stop (Z.of_nat (length data))) as [a b] eqn:E.
    destruct (Z.geb_spec a b) as [Hge|Hlt].
    - exfalso. apply Hne. apply He. lia.
    - cbn [cal_num_mics cal_data]. rewrite (proj2 (Nat.eqb_eq _ _) Hf).
      rewrite <- Hf at 1. rewrite take_row_channels by (rewrite Hf; exact Hvalid).
      apply masked_go with (g := fun r => rowmul mul r (keep_valid invalid fac)); auto.
      intros row Hrow. apply bmul_same. apply keep_valid_length. congruence.
  Qed.

  Theorem masked_time_samples_calib_valid fac num :
    0 < num -> sliced start stop data <> [] ->
    length fac = length (keep_valid invalid (seq 0 total)) -> length fac <> total ->
    delivers num
      (map (fun row => rowmul mul (keep_valid invalid row) fac) (sliced start stop data))
      (masked_time_samples_result mul total data start stop invalid
         (Some (mkCalib (length fac) fac)) num).
  Proof.
    intros Hn Hne Hf Hft. apply delivers_iff; auto. unfold masked_time_samples_result.
    pose proof (sliced_empty start stop data) as He.
    destruct (slice_indices start stop (Z.of_nat (length data))) as [a b] eqn:E.
    destruct (Z.geb_spec a b) as [Hge|Hlt].
    - exfalso. apply Hne. apply He. lia.
    - cbn [cal_num_mics cal_data].
      rewrite (proj2 (Nat.eqb_neq _ _) Hft).
      replace (num_channels_prop total invalid) with (length fac).
      2:{ rewrite Hf, <- (num_channels_valid invalid (seq 0 total)), seq_length. reflexivity. }
      rewrite Nat.eqb_refl.
      apply masked_go with (g := fun r => rowmul mul r fac); auto.
      intros row Hrow. apply bmul_same. rewrite Hf.
      apply keep_valid_length. now rewrite seq_length.
  Qed.

  (** calibration data of any other non-zero size is refused *)
  Theorem masked_time_samples_calib_wrong fac num :
    sliced start stop data <> [] -> length fac <> total ->
    length fac <> length (keep_valid invalid (seq 0 total)) -> fac <> [] ->
    masked_time_samples_result mul total data start stop invalid
         (Some (mkCalib (length fac) fac)) num = raise ValueError.
  Proof.
    intros Hne H1 H2 H3. unfold masked_time_samples_result.
    pose proof (sliced_empty start stop data) as He.
    destruct (slice_indices start stop (Z.of_nat (length data))) as [a b] eqn:E.
    destruct (Z.geb_spec a b) as [Hge|Hlt].
    - exfalso. apply Hne. apply He. lia.
    - cbn [cal_num_mics cal_data].
      rewrite (proj2 (Nat.eqb_neq _ _) H1).
      rewrite <- (num_channels_valid invalid (seq 0 total)), seq_length in H2.
      rewrite (proj2 (Nat.eqb_neq _ _) H2).
      destruct fac; [congruence|]. reflexivity.
  Qed.
End Masked.

Theorem masked_time_samples_empty {V} (mul : V -> V -> V) total (data : list (list V))
    start stop invalid cal num :
  sliced start stop data = [] ->
  masked_time_samples_result mul total data start stop invalid cal num = raise OSError.
Proof.
  intros Hne. unfold masked_time_samples_result.
  pose proof (sliced_empty start stop data) as He.
  destruct (slice_indices start stop (Z.of_nat (length data))) as [a b] eqn:E.
  apply He in Hne. destruct (Z.geb_spec a b); [reflexivity|lia].
Qed.

(** all channels invalid: IndexError instead of rows without channels *)
Theorem masked_time_samples_no_channel {V} (mul : V -> V -> V) total (data : list (list V))
    start stop invalid num :
  0 < num -> sliced start stop data <> [] ->
  invalid <> [] -> keep_valid invalid (seq 0 total) = [] ->
  masked_time_samples_result mul total data start stop invalid None num = raise IndexError.
Proof.
  intros Hn Hne Hi Hk. unfold masked_time_samples_result.
  pose proof (sliced_empty start stop data) as He.
  pose proof (slice_indices_bounds start stop (Z.of_nat (length data)) (Zle_0_nat _)) as Hb.
  destruct (slice_indices start stop (Z.of_nat (length data))) as [a b] eqn:E.
  destruct (Z.geb_spec a b) as [Hge|Hlt].
  - exfalso. apply Hne. apply He. lia.
  - assert (channels_prop total invalid = IdxChannels []) as ->.
    { unfold channels_prop. destruct invalid as [|v inv]; [congruence|].
      cbn [length Nat.eqb]. f_equal.
      set (p := fun i => negb (existsb (Z.eqb (Z.of_nat i)) (v :: inv))).
      pose proof (sequence_nth_filter p [] (seq 0 total)) as H2.
      simpl in H2. rewrite seq_length in H2.
      change (filteri_from 0 p (seq 0 total))
        with (keep_valid (v :: inv) (seq 0 total)) in H2. rewrite Hk in H2.
      destruct (filter p (seq 0 total)); auto. simpl in H2.
      destruct (nth_error _ n); [|discriminate].
      destruct (sequence _); discriminate. }
    destruct (length data) as [|m] eqn:El; [lia|]. simpl.
    destruct (Nat.ltb_spec (Z.to_nat a) (Z.to_nat b)); [|lia].
    assert (slice (Z.to_nat a) (Nat.min (Z.to_nat a + num) (Z.to_nat b)) data <> []) as Hs.
    { intros Hs. apply (f_equal (@length (list V))) in Hs. rewrite slice_length in Hs.
      simpl in Hs. lia. }
    destruct (slice _ _ data); [congruence|]. reflexivity.
Qed.

(** the reported num_samples is the number of rows *)
Theorem masked_num_samples_correct {A} start stop (s : list A) :
  sliced start stop s <> [] ->
  masked_num_samples start stop (length s) = Z.of_nat (length (sliced start stop s)).
Proof.
  intros Hne. unfold masked_num_samples.
  pose proof (sliced_empty start stop s) as He.
  pose proof (sliced_slice start stop s) as Hs.
  pose proof (slice_indices_bounds start stop (Z.of_nat (length s)) (Zle_0_nat _)) as Hb.
  destruct (slice_indices start stop (Z.of_nat (length s))) as [a b] eqn:E.
  destruct (Z.le_gt_cases b a) as [Hle|Hlt].
  - exfalso. apply Hne. now apply He.
  - rewrite Hs by lia. rewrite slice_length. lia.
Qed.

(** UncorrelatedNoiseSource *)
Lemma noise_loop_chunks {A} (signal : list A) num :
  0 < num -> forall fuel n, num <= n -> length signal + num - n < fuel ->
  noise_loop fuel signal n num = done (chunks num (skipn (n - num) signal)).
Proof.
  intros Hn fuel. induction fuel as [|fuel IH]; intros n Hge Hf; [lia|].
  simpl. destruct (Nat.leb_spec n (length signal)) as [Hle|Hgt].
  - rewrite IH by lia. unfold done. simpl. f_equal.
    rewrite (chunks_step num (skipn (n - num) signal)); auto.
    + f_equal.
      * unfold slice. rewrite firstn_skipn_comm. f_equal. f_equal. lia.
      * f_equal. rewrite skipn_skipn'. f_equal. lia.
    + intros E. apply (f_equal (@length A)) in E. rewrite skipn_length in E. simpl in E. lia.
  - destruct (Nat.ltb_spec (n - num) (length signal)) as [Hlt|Hge'].
    + rewrite chunks_short; auto. rewrite skipn_length. lia.
    + rewrite skipn_all2 by lia. reflexivity.
Qed.

Theorem uncorrelated_noise_delivers {A} seed_size nchan (signal : list A) num :
  0 < num -> seed_size = 0 \/ seed_size = nchan ->
  delivers num signal (uncorrelated_noise_result seed_size nchan signal num).
Proof.
  intros Hn Hs. apply delivers_iff; auto. unfold uncorrelated_noise_result.
  replace ((0 <? seed_size) && negb (seed_size =? nchan)) with false.
  2:{ destruct Hs as [->| ->]; simpl; auto. rewrite Nat.eqb_refl. now rewrite andb_false_r. }
  rewrite noise_loop_chunks by lia. now rewrite Nat.sub_diag.
Qed.

Theorem uncorrelated_noise_bad_seed {A} seed_size nchan (signal : list A) num :
  seed_size <> 0 -> seed_size <> nchan ->
  uncorrelated_noise_result seed_size nchan signal num = raise ValueError.
Proof.
  intros H1 H2. unfold uncorrelated_noise_result.
  destruct (Nat.ltb_spec 0 seed_size); [|lia].
  destruct (Nat.eqb_spec seed_size nchan); [lia|]. reflexivity.
Qed.

(** Loops that yield one transformed block per source block *)
Lemma run_for_map {A B} (f : list A -> list B + exn) (g : A -> B) bs e :
  (forall b, In b bs -> f b = inl (map g b)) ->
  run_for (fun (_ : unit) block =>
             match f block with
             | inl b => (tt, [b], None)
             | inr e => (tt, [], Some e)
             end) tt (mkTrace bs e) (fun _ => done [])
  = mkTrace (map (map g) bs) e.
Proof.
  intros H. unfold run_for. cbn [blocks fin].
  assert (for_blocks (fun (_ : unit) block =>
             match f block with
             | inl b => (tt, [b], None)
             | inr e => (tt, [], Some e)
             end) tt bs = (tt, map (map g) bs, None)) as ->.
  { induction bs as [|b bs IH]; simpl; auto.
    rewrite H by (left; auto). rewrite IH; auto. intros c Hc. apply H. now right. }
  destruct e; simpl; auto. now rewrite app_nil_r.
Qed.

Lemma chunks_in_forall {A} (P : A -> Prop) n s b :
  0 < n -> Forall P s -> In b (chunks n s) -> Forall P b.
Proof.
  intros Hn Hs Hb. rewrite <- (concat_chunks n s Hn) in Hs.
  rewrite Forall_forall in Hs |- *. intros x Hx. apply Hs. apply in_concat. eauto.
Qed.

Lemma chain_end_columns g :
  match chain_end g with
  | TimeOrigin n => n
  | SpectraOrigin n f => n * f
  | InOutNode _ => 0
  end = node_columns g.
Proof. induction g; simpl; auto. Qed.

Theorem calib_delivers {V} (mul : V -> V -> V) data invalid g (src : source (list V)) s :
  wf_source src s ->
  Forall (fun r => length r = node_columns g) s ->
  (invalid <> [] -> keep_valid invalid (seq 0 (length data)) <> []) ->
  length (keep_valid invalid data) = node_columns g ->
  wf_source (calib_result mul data invalid g src)
    (map (fun r => rowmul mul r (keep_valid invalid data)) s).
Proof.
  intros Hsrc Hs Hv Hl num Hn. apply delivers_iff; auto.
  unfold calib_result. rewrite take_row_channels by auto.
  rewrite chain_end_columns, (proj2 (Nat.eqb_eq _ _) Hl). cbn [negb].
  rewrite (wf_source_eq src s) by auto. unfold done at 1.
  rewrite (run_for_map _ (fun r => rowmul mul r (keep_valid invalid data))).
  - unfold done. now rewrite chunks_map.
  - intros b Hb. apply map_block_inl. intros row Hrow. apply bmul_same.
    rewrite Hl. pose proof (chunks_in_forall _ num s b Hn Hs Hb) as Hf.
    rewrite Forall_forall in Hf. now apply Hf.
Qed.

Theorem calib_refuses {V} (mul : V -> V -> V) data invalid g (src : source (list V)) num :
  (invalid <> [] -> keep_valid invalid (seq 0 (length data)) <> []) ->
  length (keep_valid invalid data) <> node_columns g ->
  calib_result mul data invalid g src num = raise ValueError.
Proof.
  intros Hv Hl. unfold calib_result. rewrite take_row_channels by auto.
  rewrite chain_end_columns, (proj2 (Nat.eqb_neq _ _) Hl). reflexivity.
Qed.

(** MicGeom *)
Theorem micgeom_pos_valid {A} (pos_total : list A) invalid :
  (invalid <> [] -> keep_valid invalid (seq 0 (length pos_total)) <> []) ->
  micgeom_pos pos_total invalid = inl (keep_valid invalid pos_total).
Proof.
  intros H. unfold micgeom_pos. rewrite <- (take_row_channels invalid pos_total H).
  unfold channels_prop. destruct invalid; reflexivity.
Qed.

(* ------------------------------------------------------------------ *)
(** * Collected statements *)

Lemma keep_valid_seq_nil {V} invalid (row : list V) :
  keep_valid invalid row <> [] -> keep_valid invalid (seq 0 (length row)) <> [].
Proof.
  intros H E. apply H. apply length_zero_iff_nil.
  rewrite <- num_channels_valid. rewrite <- (seq_length (length row) 0).
  rewrite num_channels_valid, E. reflexivity.
Qed.

Lemma time_samples_spec {V} (mul : V -> V -> V) nch (data : list (list V)) num :
  0 < num ->
  Forall (fun r => length r = nch) data ->
  (data <> [] -> delivers num data (time_samples_result mul nch data None num))
  /\ (forall fac, data <> [] -> length fac = nch ->
        delivers num (map (fun r => rowmul mul r fac) data)
          (time_samples_result mul nch data (Some (mkCalib (length fac) fac)) num))
  /\ (forall fac, data <> [] -> length fac <> nch ->
        time_samples_result mul nch data (Some (mkCalib (length fac) fac)) num = raise ValueError)
  /\ (forall cal, data = [] -> time_samples_result mul nch data cal num = raise OSError).
Proof.
  intros Hn Hs. split; [|split; [|split]].
  - intros Hd. now apply time_samples_delivers.
  - intros fac Hd Hf. now apply time_samples_calib_delivers.
  - intros fac Hd Hf. unfold time_samples_result. destruct data; [congruence|].
    change (length (l :: data) =? 0) with false. cbv iota. cbn [cal_num_mics].
    now rewrite (proj2 (Nat.eqb_neq _ _) Hf).
  - intros cal ->. reflexivity.
Qed.

Lemma masked_time_samples_spec {V} (mul : V -> V -> V) total (data : list (list V))
    start stop invalid num :
  0 < num ->
  Forall (fun r => length r = total) data ->
  let rows := map (keep_valid invalid) (sliced start stop data) in
  let valid := length (keep_valid invalid (seq 0 total)) in
  let run := fun cal => masked_time_samples_result mul total data start stop invalid cal num in
  (sliced start stop data = [] -> forall cal, run cal = raise OSError)
  /\ (sliced start stop data <> [] ->
      (invalid = [] \/ valid <> 0) ->
      delivers num rows (run None)
      /\ (forall fac, length fac = total ->
            delivers num (map (fun r => rowmul mul r (keep_valid invalid fac)) rows)
              (run (Some (mkCalib (length fac) fac))))
      /\ (forall fac, length fac = valid -> length fac <> total ->
            delivers num (map (fun r => rowmul mul r fac) rows)
              (run (Some (mkCalib (length fac) fac))))
      /\ (forall fac, length fac <> valid -> length fac <> total -> fac <> [] ->
            run (Some (mkCalib (length fac) fac)) = raise ValueError)
      /\ masked_num_samples start stop (length data) = Z.of_nat (length rows))
  /\ (sliced start stop data <> [] -> invalid <> [] -> valid = 0 -> run None = raise IndexError).
Proof.
  intros Hn Hs rows valid run. split; [|split].
  - intros He cal. now apply masked_time_samples_empty.
  - intros Hne Hv.
    assert (invalid <> [] -> keep_valid invalid (seq 0 total) <> []) as Hv'.
    { intros Hi E. destruct Hv as [Hv|Hv]; [auto|]. apply Hv. unfold valid. now rewrite E. }
    split; [|split; [|split; [|split]]].
    + now apply masked_time_samples_plain.
    + intros fac Hf. unfold rows. rewrite map_map. now apply masked_time_samples_calib_all.
    + intros fac Hf Hf2. unfold rows. rewrite map_map. now apply masked_time_samples_calib_valid.
    + intros fac Hf Hf2 Hf3. now apply masked_time_samples_calib_wrong.
    + unfold rows. rewrite map_length. now apply masked_num_samples_correct.
  - intros Hne Hi Hv. apply masked_time_samples_no_channel; auto.
    now apply length_zero_iff_nil.
Qed.

Lemma calib_spec {V} (mul : V -> V -> V) data invalid g (src : source (list V)) s :
  wf_source src s ->
  Forall (fun r => length r = node_columns g) s ->
  (invalid = [] \/ keep_valid invalid data <> []) ->
  (length (keep_valid invalid data) = node_columns g ->
     wf_source (calib_result mul data invalid g src)
       (map (fun r => rowmul mul r (keep_valid invalid data)) s))
  /\ (length (keep_valid invalid data) <> node_columns g ->
     forall num, calib_result mul data invalid g src num = raise ValueError).
Proof.
  intros Hw Hs Hv.
  assert (invalid <> [] -> keep_valid invalid (seq 0 (length data)) <> []) as Hv'.
  { intros Hi. destruct Hv as [Hv|Hv]; [congruence|]. now apply keep_valid_seq_nil. }
  split.
  - intros H. now apply calib_delivers.
  - intros H num. now apply calib_refuses.
Qed.

Lemma micgeom_spec {A} (pos_total : list A) invalid :
  ((invalid = [] \/ keep_valid invalid pos_total <> []) ->
     micgeom_pos pos_total invalid = inl (keep_valid invalid pos_total)
     /\ micgeom_num_mics pos_total invalid = inl (length (keep_valid invalid pos_total)))
  /\ (invalid <> [] -> keep_valid invalid pos_total = [] ->
     micgeom_pos pos_total invalid = inr IndexError).
Proof.
  split.
  - intros Hv. assert (micgeom_pos pos_total invalid = inl (keep_valid invalid pos_total)) as E.
    { apply micgeom_pos_valid. intros Hi. destruct Hv as [Hv|Hv]; [congruence|].
      now apply keep_valid_seq_nil. }
    split; auto. unfold micgeom_num_mics. now rewrite E.
  - intros Hi E. unfold micgeom_pos. destruct invalid as [|v inv]; [congruence|].
    change (length (v :: inv) =? 0) with false. cbv iota.
    assert (length (filter (fun i => negb (existsb (Z.eqb (Z.of_nat i)) (v :: inv)))
              (seq 0 (length pos_total))) = 0) as L.
    { pose proof (num_channels_valid (v :: inv) pos_total) as N.
      rewrite E in N. unfold num_channels_prop, channels_prop in N.
      change (length (v :: inv) =? 0) with false in N. exact N. }
    apply length_zero_iff_nil in L. rewrite L. reflexivity.
Qed.
