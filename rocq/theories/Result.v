(** Beamforming results: LazyBfResult.__getitem__ (/repo/acoular/fbeamform.py:292-305),
    BeamformerBase._get_result (418-449), synthetic (522-603), integrate
    (605-697), the functions integrate (2493-2555) and L_p (2469-2487), and
    tools/helpers.py synthetic (33-126). *)
From Coq Require Import List Arith Lia ZArith Bool Reals Lra.
From Verif Require Import Stream Cplx Deconv.
Import ListNotations.
Local Open Scope nat_scope.

(** Python's slice.indices(n). *)
Definition slice_indices (n : nat) (start stop : option Z) (step : Z) : Z * Z :=
  let n := Z.of_nat n in
  let lo := (if 0 <? step then 0 else -1)%Z in
  let hi := (if 0 <? step then n else n - 1)%Z in
  let clamp := fun z => (if z <? 0 then Z.max lo (z + n) else Z.min hi z)%Z in
  (match start with Some z => clamp z | None => if 0 <? step then lo else hi end,
   match stop with Some z => clamp z | None => if 0 <? step then hi else lo end)%Z.

(** range(start, stop, step) and numpy.arange for integers. *)
Definition py_range (start stop step : Z) : list Z :=
  let len := if (0 <? step)%Z then ((stop - start + step - 1) / step)%Z else ((start - stop - step - 1) / (- step))%Z in
  map (fun i => (start + Z.of_nat i * step)%Z) (seq 0 (Z.to_nat len)).

Definition slice_list (n : nat) (start stop : option Z) (step : Z) : list nat :=
  let '(a, b) := slice_indices n start stop step in map Z.to_nat (py_range a b step).

Inductive key := KInt (z : Z) | KSlice (start stop : option Z) (step : Z).

Section Lazy.
  (** A row of the result, and the calculation of row i: it may use what the
      array holds (BeamformerOrth adds to it, the others overwrite it). *)
  Variables (V : Type) (zero : V) (n : nat) (calc_row : nat -> V -> V).

  Definition bfstate := ((nat -> V) * (nat -> bool))%type.

  (** _get_result without caching, fbeamform.py:434-449. *)
  Definition fresh : bfstate := (fun _ => zero, fun _ => false).

  (** _calc(ind): for i in ind: ...; self._fr[i] = 1. *)
  Definition calc (ind : list nat) (st : bfstate) : bfstate :=
    fold_left (fun st i => (fun j => if j =? i then calc_row i (fst st i) else fst st j,
                            fun j => if j =? i then true else snd st j)) ind st.

  (** LazyBfResult.__getitem__, fbeamform.py:292-305; None is IndexError.  For
      a tuple the first part decides and the rest selects from the rows. *)
  Definition getitem (k : key) (st : bfstate) : option (list V) * bfstate :=
    let sl := match k with
              | KInt z => slice_list n (Some z) (Some (z + 1)%Z) 1
              | KSlice a b s => slice_list n a b s
              end in
    let missing := filter (fun i => negb (snd st i)) sl in
    let st' := match missing with [] => st | _ => calc missing st end in
    (match k with
     | KInt z => match py_index n z with Some i => Some [fst st' i] | None => None end
     | KSlice a b s => Some (map (fst st') (slice_list n a b s))
     end, st').

  (** A sequence of accesses. *)
  Fixpoint accesses (ks : list key) (st : bfstate) : list (option (list V)) * bfstate :=
    match ks with
    | [] => ([], st)
    | k :: ks' => let '(v, st1) := getitem k st in
                  let '(vs, st2) := accesses ks' st1 in (v :: vs, st2)
    end.

  (** Specification: what indexing an array with the rows calculated from scratch gives. *)
  Definition row (i : nat) : V := calc_row i zero.
  Definition direct (k : key) : option (list V) :=
    match k with
    | KInt z => match py_index n z with Some i => Some [row i] | None => None end
    | KSlice a b s => Some (map row (slice_list n a b s))
    end.

  Definition good (st : bfstate) : Prop :=
    forall i, (snd st i = true -> fst st i = row i) /\ (snd st i = false -> fst st i = zero).

  Lemma fresh_good : good fresh.
  Proof. intros i. split; [discriminate|reflexivity]. Qed.

  Lemma calc_good ind : forall st, NoDup ind -> (forall i, In i ind -> snd st i = false) -> good st ->
    good (calc ind st) /\ forall i, snd (calc ind st) i = true <-> In i ind \/ snd st i = true.
  Proof.
    induction ind as [|a ind IH]; intros st Hnd Hf Hg; cbn [calc fold_left].
    - split; [exact Hg|]. intros i. split; [now right|now intros [[]|]].
    - inversion Hnd as [|? ? Ha Hnd']; subst. fold (calc ind).
      set (st1 := (fun j => if j =? a then calc_row a (fst st a) else fst st j,
                   fun j => if j =? a then true else snd st j)).
      destruct (IH st1 Hnd') as [H1 H2].
      + intros i Hi. unfold st1. cbn [snd]. destruct (Nat.eqb_spec i a) as [->|]; [contradiction|].
        apply Hf. now right.
      + intros i. unfold st1. cbn [fst snd]. destruct (Nat.eqb_spec i a) as [->|]; [|apply Hg].
        split; [intros _|discriminate]. unfold row. f_equal. apply (Hg a). apply Hf. now left.
      + split; [exact H1|]. intros i. rewrite (H2 i). unfold st1. cbn [snd In].
        destruct (Nat.eqb_spec i a) as [->|Hne]; [tauto|]. split; [intuition|].
        intros [[E|H]|H]; [congruence|tauto|tauto].
  Qed.

  Lemma NoDup_map_inj {A B} (f : A -> B) l : NoDup l ->
    (forall x y, In x l -> In y l -> f x = f y -> x = y) -> NoDup (map f l).
  Proof.
    induction l as [|a l IH]; intros Hl Hf; cbn; constructor.
    - intros H. apply in_map_iff in H as (x & E & Hx). inversion Hl; subst.
      rewrite (Hf x a) in Hx; [contradiction|now right|now left|assumption].
    - apply IH; [now inversion Hl|]. intros x y Hx Hy. apply Hf; now right.
  Qed.

  Lemma slice_bounds a b s : s <> 0%Z ->
    let '(x, y) := slice_indices n a b s in
    (if (0 <? s)%Z then 0 <= x <= Z.of_nat n /\ 0 <= y <= Z.of_nat n
     else -1 <= x <= Z.of_nat n - 1 /\ -1 <= y <= Z.of_nat n - 1)%Z.
  Proof.
    intros Hs. unfold slice_indices. destruct (0 <? s)%Z eqn:E;
    destruct a as [a|], b as [b|];
    repeat match goal with |- context [(?z <? 0)%Z] => destruct (Z.ltb_spec z 0) end; lia.
  Qed.

  Lemma slice_range a b s z : s <> 0%Z ->
    let '(x, y) := slice_indices n a b s in
    In z (py_range x y s) -> (0 <= z < Z.of_nat n)%Z.
  Proof.
    intros Hs. pose proof (slice_bounds a b s Hs) as Hb. destruct (slice_indices n a b s) as [x y].
    intros H. apply in_map_iff in H as (i & <- & Hi). apply in_seq in Hi. destruct Hi as [_ Hi]. cbn in Hi.
    destruct (Z.ltb_spec 0 s).
    - set (q := ((y - x + s - 1) / s)%Z) in *.
      assert (Hq : (s * q <= y - x + s - 1)%Z) by (apply Z.mul_div_le; lia).
      assert (Z.of_nat i + 1 <= q)%Z by lia.
      assert (Z.of_nat i * s + s <= s * q)%Z by nia. split; [nia|lia].
    - set (q := ((x - y - s - 1) / - s)%Z) in *.
      assert (Hq : (- s * q <= x - y - s - 1)%Z) by (apply Z.mul_div_le; lia).
      assert (Z.of_nat i + 1 <= q)%Z by lia.
      assert (Z.of_nat i * - s + - s <= - s * q)%Z by nia. split; [lia|nia].
  Qed.

  Lemma slice_NoDup a b s : s <> 0%Z -> NoDup (slice_list n a b s).
  Proof.
    intros Hs. unfold slice_list. pose proof (fun z => slice_range a b s z Hs) as Hr.
    destruct (slice_indices n a b s) as [x y]. apply NoDup_map_inj.
    - unfold py_range. apply NoDup_map_inj; [apply seq_NoDup|]. intros i j _ _ E. nia.
    - intros z1 z2 H1 H2 E. apply Hr in H1, H2. lia.
  Qed.

  Lemma slice_list_lt a b s i : s <> 0%Z -> In i (slice_list n a b s) -> i < n.
  Proof.
    intros Hs. unfold slice_list. pose proof (fun z => slice_range a b s z Hs) as Hr.
    destruct (slice_indices n a b s) as [x y]. intros H. apply in_map_iff in H as (z & <- & Hz).
    apply Hr in Hz. lia.
  Qed.

  Lemma py_range_one a : py_range a (a + 1) 1 = [a].
  Proof.
    unfold py_range. change (0 <? 1)%Z with true. cbn match.
    replace ((a + 1 - a + 1 - 1) / 1)%Z with 1%Z by (rewrite Z.div_1_r; lia). change (Z.to_nat 1) with 1. cbn [seq map]. f_equal. lia.
  Qed.

  (** The slice built from an index contains that index, except for -1. *)
  Lemma slice_of_int z : (- Z.of_nat n <= z < Z.of_nat n)%Z -> z <> (-1)%Z ->
    exists i, py_index n z = Some i /\ slice_list n (Some z) (Some (z + 1)%Z) 1 = [i].
  Proof.
    intros Hz H1. unfold py_index, slice_list, slice_indices. change (0 <? 1)%Z with true. cbn match.
    destruct (Z.leb_spec 0 z).
    - destruct (Z.ltb_spec z (Z.of_nat n)); [|lia]. cbn [andb]. exists (Z.to_nat z). split; [reflexivity|].
      destruct (Z.ltb_spec z 0); [lia|]. destruct (Z.ltb_spec (z + 1) 0); [lia|].
      rewrite !Z.min_r by lia. now rewrite py_range_one.
    - cbn [andb]. destruct (Z.leb_spec (- Z.of_nat n) z); [|lia]. destruct (Z.ltb_spec z 0); [|lia]. cbn [andb].
      exists (Z.to_nat (Z.of_nat n + z)). split; [reflexivity|].
      destruct (Z.ltb_spec (z + 1) 0); [|lia].
      rewrite !Z.max_r by lia. replace (z + 1 + Z.of_nat n)%Z with (z + Z.of_nat n + 1)%Z by lia.
      rewrite py_range_one. cbn. f_equal. lia.
  Qed.

  Lemma slice_of_minus_1 : slice_list n (Some (-1)%Z) (Some (-1 + 1)%Z) 1 = [].
  Proof.
    unfold slice_list, slice_indices. change (0 <? 1)%Z with true. cbn match.
    change (-1 <? 0)%Z with true. change (-1 + 1 <? 0)%Z with false. cbn match.
    unfold py_range. change (0 <? 1)%Z with true. cbn match.
    replace (Z.to_nat _) with 0; [reflexivity|]. rewrite Z.div_1_r. lia.
  Qed.

  Definition allowed (k : key) : Prop :=
    match k with KInt z => z <> (-1)%Z | KSlice _ _ s => s <> 0%Z end.

  Lemma calc_filter_good l st : NoDup l -> good st ->
    let missing := filter (fun i => negb (snd st i)) l in
    let st' := match missing with [] => st | _ => calc missing st end in
    good st' /\ forall i, snd st' i = true <-> In i l \/ snd st i = true.
  Proof.
    intros Hl Hg missing st'.
    assert (E : st' = calc missing st) by (unfold st'; destruct missing; reflexivity).
    destruct (calc_good missing st) as [H1 H2].
    - now apply NoDup_filter.
    - intros i Hi. apply filter_In in Hi as [_ Hi]. now destruct (snd st i).
    - exact Hg.
    - rewrite E. split; [exact H1|]. intros i. rewrite H2. unfold missing. rewrite filter_In.
      destruct (snd st i); cbn; intuition congruence.
  Qed.

  Lemma getitem_spec k st : allowed k -> good st -> fst (getitem k st) = direct k /\ good (snd (getitem k st)).
  Proof.
    intros Ha Hg. unfold getitem, direct. destruct k as [z|a b s]; cbn [allowed] in Ha.
    - destruct (calc_filter_good (slice_list n (Some z) (Some (z + 1)%Z) 1) st) as [H1 H2]; auto.
      { apply slice_NoDup. lia. }
      cbv zeta. cbn [fst snd]. split; [|exact H1].
      set (st' := match filter _ _ with [] => _ | _ => _ end) in *.
      destruct (py_index n z) as [i|] eqn:E; [|reflexivity]. do 2 f_equal. apply (H1 i). apply H2. left.
      assert (Hz : (- Z.of_nat n <= z < Z.of_nat n)%Z).
      { unfold py_index in E. destruct (_ && _)%Z eqn:E1; [lia|]. destruct ((- _ <=? z) && _)%Z eqn:E2; [lia|discriminate]. }
      destruct (slice_of_int z Hz Ha) as (i' & E1 & E2). rewrite E2. left. congruence.
    - destruct (calc_filter_good (slice_list n a b s) st) as [H1 H2]; auto.
      { now apply slice_NoDup. }
      cbv zeta. cbn [fst snd]. split; [|exact H1].
      set (st' := match filter _ _ with [] => _ | _ => _ end) in *.
      f_equal. apply map_ext_in. intros i Hi. apply (H1 i). apply H2. now left.
  Qed.

  (** Any sequence of accesses gives the values calculated from scratch. *)
  Theorem accesses_spec ks : (forall k, In k ks -> allowed k) -> forall st, good st ->
    fst (accesses ks st) = map direct ks /\ good (snd (accesses ks st)).
  Proof.
    induction ks as [|k ks IH]; intros Hk st Hg; [split; [reflexivity|exact Hg]|].
    destruct (getitem_spec k st (Hk k (or_introl eq_refl)) Hg) as [H1 H2].
    cbn [accesses map]. destruct (getitem k st) as [v st1]. cbn [fst snd] in H1, H2.
    destruct (IH (fun k H => Hk k (or_intror H)) st1 H2) as [H3 H4].
    destruct (accesses ks st1) as [vs st2]. cbn [fst snd] in *. split; [congruence|assumption].
  Qed.

  (** The index -1 never calculates anything. *)
  Theorem getitem_minus_1 st : 0 < n -> getitem (KInt (-1)) st = (Some [fst st (n - 1)], st).
  Proof.
    intros Hn. unfold getitem. rewrite slice_of_minus_1. cbn [filter].
    unfold py_index. change (0 <=? -1)%Z with false. cbn [andb].
    destruct (Z.leb_spec (- Z.of_nat n) (-1)); [|lia]. change (-1 <? 0)%Z with true. cbn [andb].
    do 4 f_equal. lia.
  Qed.
End Lazy.

(** An interrupted calculation (an exception in the middle of _calc, for
    instance KeyboardInterrupt) that is repeated later: BeamformerOrth has
    already added the first components and adds them again. *)
Theorem orth_interrupted g nc eva bmap done todo : 0 < g -> 0 < nc ->
  (forall z, In z (done ++ todo) -> (- Z.of_nat nc <= z < Z.of_nat nc)%Z) ->
  exists partial again, orth_calc g nc eva bmap done (fun _ => 0%R) = Some partial
  /\ orth_calc g nc eva bmap (done ++ todo) partial = Some again
  /\ rsumn g again
     = ((fold_right Rplus 0 (selected nc eva (done ++ todo)) + fold_right Rplus 0 (selected nc eva done)) / INR nc)%R.
Proof.
  intros Hg Hnc Hz.
  destruct (orth_sum g nc eva bmap done Hg Hnc) with (ac := fun _ : nat => 0%R) as (p & E1 & H1).
  { intros z H. apply Hz. apply in_or_app. now left. }
  destruct (orth_sum g nc eva bmap (done ++ todo) Hg Hnc Hz p) as (a & E2 & H2).
  exists p, a. split; [exact E1|]. split; [exact E2|]. rewrite H2, H1, rsumn_zero.
  unfold Rdiv. ring.
Qed.

(* ------------------------------------------------------------------ *)
(** * Bands *)

Local Open Scope R_scope.

(** numpy.searchsorted (left) in a sorted array: the number of leading values below f. *)
Fixpoint searchsorted (l : list R) (f : R) : nat :=
  match l with
  | [] => 0
  | x :: l' => if Rlt_dec x f then S (searchsorted l' f) else 0
  end.

Fixpoint increasing (l : list R) : Prop :=
  match l with
  | [] => True
  | x :: l' => (match l' with [] => True | y :: _ => x < y end) /\ increasing l'
  end.

(** A row is a function of the grid index; sum of consecutive rows. *)
Definition sum_rows (rows : list (nat -> R)) (p : nat) : R := fold_right (fun r acc => r p + acc) 0 rows.

(** BeamformerBase.synthetic, fbeamform.py:550-600, with the result rows
    [res]; None for "no frequencies". *)
Inductive band := Line | Fraction (num : R) | Limits (f1 f2 : R).

Definition band_limits (f : R) (b : band) : option (R * R) :=
  match b with
  | Line => None
  | Fraction num => Some (f * Rpower 2 (- (1/2) / num), f * Rpower 2 (1/2 / num))
  | Limits f1 f2 => Some (f1, f2)
  end.

Definition synthetic (freq : list R) (res : list (nat -> R)) (f : R) (b : band) : option (nat -> R) :=
  match freq with
  | [] => None
  | _ =>
      match band_limits f b with
      | None =>
          let ind := searchsorted freq f in
          if (length freq <=? ind)%nat then Some (fun _ => 0) else Some (nth ind res (fun _ => 0))
      | Some (f1, f2) =>
          let ind1 := searchsorted freq f1 in
          let ind2 := searchsorted freq f2 in
          if (ind1 =? ind2)%nat then Some (fun _ => 0)
          else Some (sum_rows (skipn ind1 (firstn ind2 res)))
      end
  end.

(** tools/helpers.py synthetic, 77-126: a list of centre frequencies; the
    bands are lines or 1/num octaves. *)
Definition helper_synthetic (data : list (nat -> R)) (freqs : list R) (f : list R) (num : R) : list (nat -> R) :=
  map (fun i =>
    if Req_EM_T num 0 then
      let ind := searchsorted freqs i in
      if (length freqs <=? ind)%nat then (fun _ => 0) else nth ind data (fun _ => 0)
    else
      let ind1 := searchsorted freqs (i * Rpower 2 (- (1/2) / num)) in
      let ind2 := searchsorted freqs (i * Rpower 2 (1/2 / num)) in
      if (ind1 =? ind2)%nat then (fun _ => 0) else sum_rows (skipn ind1 (firstn ind2 data))) f.

(** Specification: the sum over the lines with f1 <= freq < f2. *)
Fixpoint band_sum (freq : list R) (rows : list (nat -> R)) (f1 f2 : R) (p : nat) : R :=
  match freq, rows with
  | x :: freq', r :: rows' =>
      (if Rle_dec f1 x then if Rlt_dec x f2 then r p else 0 else 0) + band_sum freq' rows' f1 f2 p
  | _, _ => 0
  end.

Lemma searchsorted_le l f : (searchsorted l f <= length l)%nat.
Proof. induction l as [|x l IH]; cbn; [lia|]. destruct (Rlt_dec x f); lia. Qed.

Lemma increasing_tail x l : increasing (x :: l) -> increasing l.
Proof. now intros [_ H]. Qed.

Lemma increasing_head x l : increasing (x :: l) -> forall y, In y l -> x < y.
Proof.
  revert x. induction l as [|a l IH]; intros x [H1 H2] y Hy; [destruct Hy|].
  destruct Hy as [->|Hy]; [assumption|]. specialize (IH a H2 y Hy). lra.
Qed.

Lemma band_sum_none freq rows f1 f2 p : (forall x, In x freq -> f2 <= x) -> band_sum freq rows f1 f2 p = 0.
Proof.
  revert rows. induction freq as [|x freq IH]; intros [|r rows] H; cbn; try reflexivity.
  rewrite IH by (intros; apply H; now right). specialize (H x (or_introl eq_refl)).
  destruct (Rle_dec f1 x), (Rlt_dec x f2); lra.
Qed.

Lemma band_sum_reversed freq rows f1 f2 p : f2 <= f1 -> band_sum freq rows f1 f2 p = 0.
Proof.
  intros H. revert rows. induction freq as [|x freq IH]; intros [|r rows]; cbn; try reflexivity.
  rewrite IH. destruct (Rle_dec f1 x), (Rlt_dec x f2); lra.
Qed.

Lemma band_sum_upto freq : forall rows f1 f2 p, increasing freq -> length rows = length freq ->
  (forall x, In x freq -> f1 <= x) ->
  sum_rows (firstn (searchsorted freq f2) rows) p = band_sum freq rows f1 f2 p.
Proof.
  induction freq as [|x freq IH]; intros [|r rows] f1 f2 p Hi Hl Hf; try discriminate; [reflexivity|].
  cbn [searchsorted band_sum]. pose proof (Hf x (or_introl eq_refl)) as Hx.
  destruct (Rle_dec f1 x); [|lra]. destruct (Rlt_dec x f2).
  - cbn [firstn sum_rows fold_right]. f_equal. apply IH; auto.
    + now apply increasing_tail in Hi.
    + intros. apply Hf. now right.
  - cbn [firstn sum_rows fold_right]. rewrite band_sum_none; [lra|].
    intros y Hy. pose proof (increasing_head x freq Hi y Hy). lra.
Qed.

Lemma skipn_firstn_S {A} (x : A) n m l : skipn (S n) (firstn (S m) (x :: l)) = skipn n (firstn m l).
Proof. reflexivity. Qed.

Lemma band_sum_spec freq : forall rows f1 f2 p, increasing freq -> length rows = length freq ->
  sum_rows (skipn (searchsorted freq f1) (firstn (searchsorted freq f2) rows)) p = band_sum freq rows f1 f2 p.
Proof.
  induction freq as [|x freq IH]; intros [|r rows] f1 f2 p Hi Hl; try discriminate; [reflexivity|].
  cbn [searchsorted]. destruct (Rlt_dec x f1) as [H1|H1].
  - destruct (Rlt_dec x f2) as [H2|H2].
    + rewrite skipn_firstn_S. cbn [band_sum]. destruct (Rle_dec f1 x); [lra|]. rewrite Rplus_0_l.
      apply IH; [now apply increasing_tail in Hi|now injection Hl].
    + cbn [firstn]. rewrite skipn_nil. cbn. destruct (Rle_dec f1 x); [lra|]. rewrite band_sum_reversed; lra.
  - rewrite skipn_O. rewrite <- band_sum_upto; auto.
    intros y [<-|Hy]; [lra|]. pose proof (increasing_head x freq Hi y Hy). lra.
Qed.

Lemma sum_rows_empty ind1 ind2 (rows : list (nat -> R)) : ind1 = ind2 -> skipn ind1 (firstn ind2 rows) = [].
Proof. intros ->. rewrite skipn_firstn_comm, Nat.sub_diag. reflexivity. Qed.

(** The band: exactly the lines with f1 <= freq < f2. *)
Theorem synthetic_band freq res f b f1 f2 : freq <> [] -> increasing freq -> length res = length freq ->
  band_limits f b = Some (f1, f2) ->
  exists h, synthetic freq res f b = Some h /\ forall p, h p = band_sum freq res f1 f2 p.
Proof.
  intros Hn Hi Hl Hb. unfold synthetic. destruct freq as [|x freq]; [congruence|]. rewrite Hb. cbv zeta.
  destruct (Nat.eqb_spec (searchsorted (x :: freq) f1) (searchsorted (x :: freq) f2)) as [E|E].
  - eexists. split; [reflexivity|]. intros p. rewrite <- band_sum_spec by assumption.
    now rewrite (sum_rows_empty _ _ res E).
  - eexists. split; [reflexivity|]. intros p. now apply band_sum_spec.
Qed.

Lemma band_sum_split freq : forall rows f1 f2 f3 p, f1 <= f2 <= f3 ->
  band_sum freq rows f1 f2 p + band_sum freq rows f2 f3 p = band_sum freq rows f1 f3 p.
Proof.
  induction freq as [|x freq IH]; intros [|r rows] f1 f2 f3 p H; cbn; try lra.
  rewrite <- (IH rows f1 f2 f3 p H).
  destruct (Rle_dec f1 x), (Rlt_dec x f2), (Rle_dec f2 x), (Rlt_dec x f3); lra.
Qed.

(** Adjacent fractional octave bands meet exactly. *)
Lemma band_edge f num : num <> 0 ->
  f * Rpower 2 (1 / num) * Rpower 2 (- (1/2) / num) = f * Rpower 2 (1/2 / num).
Proof.
  intros H. rewrite Rmult_assoc, <- Rpower_plus. f_equal. f_equal. field. assumption.
Qed.

Theorem helper_same freq res f num : freq <> [] ->
  option_map (fun h => [h]) (synthetic freq res f (if Req_EM_T num 0 then Line else Fraction num))
  = Some (helper_synthetic res freq [f] num).
Proof.
  intros Hn. unfold synthetic, helper_synthetic. destruct freq as [|x freq]; [congruence|].
  cbn [map]. destruct (Req_EM_T num 0); cbn [band_limits]; cbv zeta;
    match goal with |- context [if ?c then _ else _] => destruct c end; reflexivity.
Qed.

(** A single line: the first line not below f, zeros above the last one. *)
Theorem synthetic_line freq res f : freq <> [] -> increasing freq -> length res = length freq ->
  (forall i, (i < length freq)%nat -> nth i freq 0 = f ->
     synthetic freq res f Line = Some (nth i res (fun _ => 0)))
  /\ ((forall x, In x freq -> x < f) -> synthetic freq res f Line = Some (fun _ => 0)).
Proof.
  intros Hn Hi Hl. unfold synthetic. destruct freq as [|x0 freq0] eqn:E; [congruence|]. rewrite <- E in *. clear E x0 freq0.
  cbn [band_limits]. cbv zeta. split.
  - intros i Hlt Hf. assert (Es : searchsorted freq f = i).
    { clear Hn Hl res. revert i Hlt Hf Hi. induction freq as [|x freq IH]; intros i Hlt Hf Hi; [cbn in Hlt; lia|].
      cbn [searchsorted]. destruct i as [|i].
      - cbn in Hf. destruct (Rlt_dec x f); [lra|reflexivity].
      - cbn in Hf, Hlt. assert (Hin : In f freq) by (rewrite <- Hf; apply nth_In; lia).
        pose proof (increasing_head x freq Hi f Hin). destruct (Rlt_dec x f); [|lra]. f_equal. apply IH; auto; [lia|].
        now apply increasing_tail in Hi. }
    rewrite Es. destruct (Nat.leb_spec (length freq) i); [lia|reflexivity].
  - intros Ha. assert (Es : searchsorted freq f = length freq).
    { clear Hn Hl Hi res. induction freq as [|x freq IH]; [reflexivity|]. cbn. destruct (Rlt_dec x f) as [|Hx].
      - f_equal. apply IH. intros. apply Ha. now right.
      - exfalso. apply Hx, Ha. now left. }
    rewrite Es, Nat.leb_refl. reflexivity.
Qed.

(* ------------------------------------------------------------------ *)
(** * Integration over a sector *)

(** The sum over grid.subdomain(sector) of a grid-shaped map
    (grids.py:372-376: numpy.where of the reshaped truth values; reshaping and
    selecting keep the row-major order). *)
Definition sector_sum (g : nat) (contains : nat -> bool) (m : nat -> R) : R :=
  fold_right (fun p acc => m p + acc) 0 (filter contains (seq 0 g)).

(** BeamformerBase.integrate for frange = None, fbeamform.py:660-688.
    [numfreq] is the attribute _numfreq at the time of the call, [res] the
    rows of the present result, [low]/[high] the attributes ind_low and
    ind_high of the spectra; None stands for IndexError. *)
Definition integrate_all (g : nat) (contains : nat -> bool) (numfreq : nat) (low high : option Z) (res : list (nat -> R))
    : option (list R) :=
  let norm := fun z => (if z <? 0 then z + Z.of_nat numfreq else z)%Z in
  let lo := norm (match low with Some z => z | None => 0%Z end) in
  let hi := norm (match high with Some z => z | None => Z.of_nat numfreq end) in
  let r := map (fun i => nth i res (fun _ => 0)) (slice_list (length res) (Some lo) (Some hi) 1) in
  fold_left (fun h i =>
      match h with
      | None => None
      | Some h =>
          match py_index numfreq i, py_index (length r) (i - lo) with
          | Some a, Some b => Some (firstn a h ++ sector_sum g contains (nth b r (fun _ => 0)) :: skipn (S a) h)
          | _, _ => None
          end
      end) (py_range lo hi 1) (Some (repeat 0 numfreq)).

(** The function integrate for a two-dimensional array, fbeamform.py:2546-2554. *)
Definition integrate_fun (g : nat) (contains : nat -> bool) (data : list (nat -> R)) : list R :=
  map (sector_sum g contains) data.

Lemma sector_sum_spec g contains m :
  sector_sum g contains m = rsumn g (fun p => if contains p then m p else 0).
Proof.
  unfold sector_sum. induction g as [|g IH]; [reflexivity|].
  rewrite seq_S, filter_app, fold_right_app. cbn [plus filter rsumn].
  assert (forall (l : list nat) a, fold_right (fun p acc => m p + acc) a l = fold_right (fun p acc => m p + acc) 0 l + a) as F.
  { induction l as [|x l IHl]; intros a; cbn; [lra|]. rewrite IHl. lra. }
  destruct (contains g); cbn [fold_right]; [|rewrite F; lra].
  rewrite F, IH. lra.
Qed.

Theorem sector_sum_disjoint g c1 c2 m : (forall p, (p < g)%nat -> c1 p = true -> c2 p = true -> False) ->
  sector_sum g (fun p => c1 p || c2 p) m = sector_sum g c1 m + sector_sum g c2 m.
Proof.
  intros H. rewrite !sector_sum_spec, <- rsumn_add. apply rsumn_ext. intros p Hp. specialize (H p Hp).
  destruct (c1 p), (c2 p); cbn; try lra; exfalso; auto.
Qed.

Lemma py_range_1 a b : (0 <= a <= b)%Z -> py_range a b 1 = map Z.of_nat (seq (Z.to_nat a) (Z.to_nat (b - a))).
Proof.
  intros H. unfold py_range. change (0 <? 1)%Z with true. cbn match.
  replace ((b - a + 1 - 1) / 1)%Z with (b - a)%Z by (rewrite Z.div_1_r; lia).
  rewrite <- (Nat.add_0_r (Z.to_nat a)) at 1. generalize 0%nat as o. generalize (Z.to_nat (b - a)) as k.
  induction k as [|k IH]; intros o; [reflexivity|]. cbn [seq map]. f_equal; [lia|].
  rewrite IH. f_equal. f_equal. lia.
Qed.

Lemma slice_list_1 n a b : (0 <= a <= b)%Z -> (b <= Z.of_nat n)%Z ->
  slice_list n (Some a) (Some b) 1 = seq (Z.to_nat a) (Z.to_nat (b - a)).
Proof.
  intros H Hb. unfold slice_list, slice_indices. change (0 <? 1)%Z with true. cbn match.
  destruct (Z.ltb_spec a 0); [lia|]. destruct (Z.ltb_spec b 0); [lia|].
  rewrite !Z.min_r by lia. rewrite py_range_1 by lia. rewrite map_map.
  rewrite (map_ext _ (fun x => x)) by (intros; lia). now rewrite map_id.
Qed.

Lemma fill g contains (lines : list (nat -> R)) numfreq : forall k a, (a + k <= length lines)%nat ->
  (length lines <= numfreq)%nat -> forall h lo, length h = numfreq -> lo = a ->
  forall (r : list (nat -> R)) off, (forall i, (i < k)%nat -> nth (off + i) r (fun _ => 0) = nth (a + i) lines (fun _ => 0)) ->
  (off + k <= length r)%nat ->
  fold_left (fun h i =>
      match h with
      | None => None
      | Some h =>
          match py_index numfreq i, py_index (length r) (i - (Z.of_nat a - Z.of_nat off)) with
          | Some a, Some b => Some (firstn a h ++ sector_sum g contains (nth b r (fun _ => 0)) :: skipn (S a) h)
          | _, _ => None
          end
      end) (map Z.of_nat (seq lo k)) (Some h)
  = Some (firstn a h ++ map (sector_sum g contains) (firstn k (skipn a lines)) ++ skipn (a + k) h).
Proof.
  induction k as [|k IH]; intros a Ha Hn h lo Hh -> r off Hr Hoff.
  - cbn. rewrite Nat.add_0_r. now rewrite firstn_skipn.
  - cbn [seq map fold_left].
    assert (E1 : py_index numfreq (Z.of_nat a) = Some a).
    { unfold py_index. destruct (Z.leb_spec 0 (Z.of_nat a)); [|lia]. destruct (Z.ltb_spec (Z.of_nat a) (Z.of_nat numfreq)); [|lia].
      cbn [andb]. now rewrite Nat2Z.id. }
    assert (E2 : py_index (length r) (Z.of_nat a - (Z.of_nat a - Z.of_nat off)) = Some off).
    { replace (Z.of_nat a - (Z.of_nat a - Z.of_nat off))%Z with (Z.of_nat off) by lia.
      unfold py_index. destruct (Z.leb_spec 0 (Z.of_nat off)); [|lia]. destruct (Z.ltb_spec (Z.of_nat off) (Z.of_nat (length r))); [|lia].
      cbn [andb]. now rewrite Nat2Z.id. }
    rewrite E1, E2.
    replace (Z.of_nat a - Z.of_nat off)%Z with (Z.of_nat (S a) - Z.of_nat (S off))%Z by lia.
    rewrite (IH (S a)); [| lia | lia | | reflexivity | | lia].
    + pose proof (Hr 0%nat ltac:(lia)) as H0. rewrite !Nat.add_0_r in H0. rewrite H0.
      set (v := sector_sum g contains (nth a lines (fun _ => 0))).
      assert (La : length (firstn a h) = a) by (rewrite firstn_length; lia).
      f_equal.
      replace (firstn (S a) (firstn a h ++ v :: skipn (S a) h)) with (firstn a h ++ [v]).
      2:{ rewrite firstn_app, La. rewrite (@firstn_all2 _ (S a) (firstn a h)) by lia. replace (S a - a)%nat with 1%nat by lia. reflexivity. }
      replace (skipn (S a + k) (firstn a h ++ v :: skipn (S a) h)) with (skipn (a + S k) h).
      2:{ rewrite skipn_app, La. rewrite (@skipn_all2 _ (S a + k) (firstn a h)) by lia. replace (S a + k - a)%nat with (S k) by lia.
          change ([] ++ skipn (S k) (v :: skipn (S a) h)) with (skipn k (skipn (S a) h)).
          assert (SS : forall x y (l : list R), skipn x (skipn y l) = skipn (x + y) l).
          { clear. intros x y. induction y as [|y IHy]; intros l; [now rewrite Nat.add_0_r|].
            destruct l as [|b l]; [now rewrite !skipn_nil|]. replace (x + S y)%nat with (S (x + y)) by lia. apply IHy. }
          rewrite SS. f_equal. lia. }
      rewrite <- app_assoc. f_equal. cbn [app].
      assert (Es : skipn a lines = nth a lines (fun _ => 0) :: skipn (S a) lines).
      { assert (Hal : (a < length lines)%nat) by lia. clear - Hal. revert a Hal.
        induction lines as [|x lines IHl]; intros [|a] Hal; cbn in *; try lia; [reflexivity|]. rewrite IHl by lia. reflexivity. }
      rewrite Es. cbn [firstn map app]. reflexivity.
    + rewrite app_length. cbn [length]. rewrite firstn_length, skipn_length. lia.
    + intros i Hi. replace (S off + i)%nat with (off + S i)%nat by lia.
      replace (S a + i)%nat with (a + S i)%nat by lia. apply Hr. lia.
Qed.

(** After the result has been read: the sector sums of the lines from ind_low
    to ind_high, zero elsewhere. *)
Theorem integrate_all_spec g contains low high (res : list (nat -> R)) :
  let n := Z.of_nat (length res) in
  let norm := fun z => (if z <? 0 then z + n else z)%Z in
  let lo := norm (match low with Some z => z | None => 0%Z end) in
  let hi := norm (match high with Some z => z | None => n end) in
  (0 <= lo <= hi)%Z -> (hi <= n)%Z ->
  integrate_all g contains (length res) low high res
  = Some (map (fun i => if ((lo <=? Z.of_nat i) && (Z.of_nat i <? hi))%Z
                        then rsumn g (fun p => if contains p then nth i res (fun _ => 0) p else 0) else 0)
              (seq 0 (length res))).
Proof.
  intros n norm lo hi Hlo Hhi. unfold integrate_all. fold n. fold norm. fold lo. fold hi. cbv zeta.
  rewrite slice_list_1 by (try assumption; lia). rewrite py_range_1 by assumption.
  set (r := map (fun i => nth i res (fun _ : nat => 0)) (seq (Z.to_nat lo) (Z.to_nat (hi - lo)))).
  assert (Lr : length r = Z.to_nat (hi - lo)) by (unfold r; now rewrite map_length, seq_length).
  pose proof (fill g contains res (length res) (Z.to_nat (hi - lo)) (Z.to_nat lo)) as F.
  specialize (F ltac:(lia) ltac:(lia) (repeat 0 (length res)) (Z.to_nat lo) (repeat_length _ _) eq_refl r 0%nat).
  replace (Z.of_nat (Z.to_nat lo) - Z.of_nat 0)%Z with lo in F by lia.
  etransitivity; [apply F|]; clear F.
  3:{ f_equal. apply nth_ext with (d := 0) (d' := 0).
    + rewrite !app_length, !map_length, !firstn_length, !skipn_length, !repeat_length, seq_length. lia.
    + intros i Hi. rewrite nth_indep with (d' := (fun i => if ((lo <=? Z.of_nat i) && (Z.of_nat i <? hi))%Z
                        then rsumn g (fun p => if contains p then nth i res (fun _ => 0) p else 0) else 0) 0%nat) at 1;
        [|assumption].
      assert (Hi' : (i < length res)%nat).
      { rewrite !app_length, !map_length, !firstn_length, !skipn_length, !repeat_length in Hi. lia. }
      rewrite nth_indep with (d' := (fun i => if ((lo <=? Z.of_nat i) && (Z.of_nat i <? hi))%Z
                        then rsumn g (fun p => if contains p then nth i res (fun _ => 0) p else 0) else 0) 0%nat) (l := map _ _);
        [|rewrite map_length, seq_length; assumption].
      rewrite (map_nth (fun i => if ((lo <=? Z.of_nat i) && (Z.of_nat i <? hi))%Z
                        then rsumn g (fun p => if contains p then nth i res (fun _ => 0) p else 0) else 0)).
      rewrite seq_nth by assumption. cbn [plus].
      rewrite (nth_indep _ _ 0) by assumption. clear Hi.
      assert (L1 : length (firstn (Z.to_nat lo) (repeat 0 (length res))) = Z.to_nat lo) by (rewrite firstn_length, repeat_length; lia).
      destruct (Z.leb_spec lo (Z.of_nat i)) as [H1|H1]; cbn [andb].
      * rewrite app_nth2 by lia. rewrite L1.
        assert (L2 : length (map (sector_sum g contains) (firstn (Z.to_nat (hi - lo)) (skipn (Z.to_nat lo) res))) = Z.to_nat (hi - lo))
          by (rewrite map_length, firstn_length, skipn_length; lia).
        destruct (Z.ltb_spec (Z.of_nat i) hi) as [H2|H2].
        -- rewrite app_nth1 by lia. rewrite nth_indep with (d' := sector_sum g contains (fun _ => 0)) by lia.
           rewrite map_nth, sector_sum_spec. apply rsumn_ext. intros p _. destruct (contains p); [|reflexivity].
           assert (forall k (l : list (nat -> R)) j, (j < k)%nat -> nth j (firstn k l) (fun _ => 0) = nth j l (fun _ => 0)) as N1.
           { clear. induction k as [|k IH]; intros l j Hj; [lia|]. destruct l as [|x l]; [destruct j; reflexivity|].
             destruct j; cbn; [reflexivity|]. apply IH. lia. }
           assert (forall k (l : list (nat -> R)) j, nth j (skipn k l) (fun _ => 0) = nth (k + j) l (fun _ => 0)) as N2.
           { clear. induction k as [|k IH]; intros l j; [reflexivity|]. destruct l as [|x l]; [destruct j; reflexivity|]. cbn. apply IH. }
           rewrite N1, N2 by lia. do 2 f_equal. lia.
        -- rewrite app_nth2 by lia. rewrite L2.
           assert (forall k (l : list R) j, nth j (skipn k l) 0 = nth (k + j) l 0) as N2.
           { clear. induction k as [|k IH]; intros l j; [reflexivity|]. destruct l as [|x l]; [destruct j; reflexivity|]. cbn. apply IH. }
           rewrite N2. apply nth_repeat.
      * rewrite app_nth1 by lia.
        assert (forall k (l : list R) j, (j < k)%nat -> nth j (firstn k l) 0 = nth j l 0) as N1.
        { clear. induction k as [|k IH]; intros l j Hj; [lia|]. destruct l as [|x l]; [destruct j; reflexivity|].
          destruct j; cbn; [reflexivity|]. apply IH. lia. }
        rewrite N1 by lia. apply nth_repeat. }
  - intros i Hi. unfold r. cbn [plus].
    rewrite nth_indep with (d' := (fun i => nth i res (fun _ : nat => 0)) 0%nat) by (rewrite map_length, seq_length; assumption).
    rewrite (map_nth (fun i => nth i res (fun _ : nat => 0))), seq_nth by assumption. reflexivity.
  - cbn. lia.
Qed.

(** On a beamformer whose result has not been read, _numfreq is 0. *)
Theorem integrate_fresh g contains res : integrate_all g contains 0 None None res = Some [].
Proof. reflexivity. Qed.

(* ------------------------------------------------------------------ *)
(** * Levels *)

Definition log10 (x : R) : R := ln x / ln 10.

(** L_p, fbeamform.py:2469-2487. *)
Definition L_p (x : R) : R := 10 * log10 (Rmax (x / 4e-10) 1e-35).

Lemma ln10_pos : 0 < ln 10.
Proof. rewrite <- ln_1. apply ln_increasing; lra. Qed.

Theorem L_p_spec :
  (forall x y, x <= y -> L_p x <= L_p y)
  /\ (forall x, 4e-45 <= x -> L_p x = 10 * log10 (x / 4e-10))
  /\ (forall x, -350 <= L_p x) /\ (forall x, x <= 0 -> L_p x = -350).
Proof.
  assert (F : 10 * log10 1e-35 = -350).
  { unfold log10. replace 1e-35 with (/ 10 ^ 35) by (simpl; lra).
    rewrite ln_Rinv by (apply pow_lt; lra). rewrite <- (Rpower_pow 35) by lra. unfold Rpower. rewrite ln_exp.
    replace (INR 35) with 35 by (simpl; lra). field. pose proof ln10_pos. lra. }
  assert (M : forall x y, 0 < x -> x <= y -> 10 * log10 x <= 10 * log10 y).
  { intros x y Hx Hxy. unfold log10, Rdiv. apply Rmult_le_compat_l; [lra|].
    apply Rmult_le_compat_r; [apply Rlt_le, Rinv_0_lt_compat, ln10_pos|].
    destruct Hxy as [Hlt|<-]; [apply Rlt_le, ln_increasing; assumption|lra]. }
  assert (P : forall x, 0 < Rmax x 1e-35) by (intros x; pose proof (Rmax_r x 1e-35); lra).
  split; [|split; [|split]].
  - intros x y H. unfold L_p. apply M; [apply P|]. apply Rle_max_compat_r. lra.
  - intros x H. unfold L_p. rewrite Rmax_left by lra. reflexivity.
  - intros x. unfold L_p. rewrite <- F. apply M; [lra|apply Rmax_r].
  - intros x H. unfold L_p. rewrite Rmax_right by lra. exact F.
Qed.
