(** Property theorems C101: results and cross-spectral matrices kept in cache files. *)
From Coq Require Import List Arith Lia ZArith Bool Reals Lra.
From Verif Require Import Stream Cplx Deconv Result FileCache.
Import ListNotations.
Local Open Scope nat_scope.

(** The digest for which object [o] last asked for its result. *)
Fixpoint requested (o : nat) (xs : list op) (d : option nat) : option nat :=
  match xs with
  | [] => d
  | Request o' d' _ :: xs' => requested o xs' (if o' =? o then Some d' else d)
  | _ :: xs' => requested o xs' d
  end.

Section Values.
  Variables (V : Type) (zero : V) (n : nat) (calc_row : nat -> nat -> V -> V).

  Lemma step_objs lib x w o : let d := match objs V w o with Some (d, _) => Some d | None => None end in
    match objs V (fst (step V zero n calc_row lib x w)) o with Some (d, _) => Some d | None => None end
    = requested o [x] d.
  Proof.
    cbv zeta. destruct x as [m|o' d' c|o' k]; cbn [step requested].
    - reflexivity.
    - destruct (get_result V zero (mode V w) c d' (file V w)) as [s h]. cbn [fst objs]. unfold set_obj. rewrite (Nat.eqb_sym o' o). destruct (Nat.eqb_spec o o'); reflexivity.
    - destruct (objs V w o') as [[d0 [st|id]]|] eqn:E.
      + destruct (getitem V n (calc_row d0) k st) as [v st']. cbn [fst objs]. unfold set_obj. destruct (Nat.eqb_spec o o') as [->|]; [rewrite E; reflexivity|reflexivity].
      + destruct (getitem V n (calc_row d0) k (snd (data V (file V w) id))) as [v st'].
        destruct lib, (match node V (file V w) d0 with Some id' => id' =? id | None => false end); reflexivity.
      + reflexivity.
  Qed.

  Lemma run_objs lib o xs : forall w, match objs V (fst (run V zero n calc_row lib xs w)) o with Some (d, _) => Some d | None => None end
    = requested o xs (match objs V w o with Some (d, _) => Some d | None => None end).
  Proof.
    induction xs as [|x xs IH]; intros w; [reflexivity|]. cbn [run]. pose proof (step_objs lib x w o) as S. cbv zeta in S.
    destruct (step V zero n calc_row lib x w) as [w1 r]. cbn [fst] in S. specialize (IH w1). destruct (run V zero n calc_row lib xs w1) as [w2 rs]. cbn [fst] in *.
    rewrite IH, S. destruct x; reflexivity.
  Qed.

  Lemma run_good lib xs : forall w, Forall allowed_op xs -> good_world V zero calc_row w -> good_world V zero calc_row (fst (run V zero n calc_row lib xs w)).
  Proof.
    induction xs as [|x xs IH]; intros w Ha Hw; [exact Hw|]. inversion Ha as [|? ? A1 A2]; subst. cbn [run].
    pose proof (proj1 (step_good V zero n calc_row lib x w A1 Hw)) as S. destruct (step V zero n calc_row lib x w) as [w1 r]. cbn [fst] in S.
    specialize (IH w1 A2 S). destruct (run V zero n calc_row lib xs w1) as [w2 rs]. exact IH.
  Qed.

  Lemma run_linked lib xs : forall w, Forall no_overwrite xs -> mode V w <> Overwrite -> linked V w ->
    linked V (fst (run V zero n calc_row lib xs w)) /\ mode V (fst (run V zero n calc_row lib xs w)) <> Overwrite.
  Proof.
    induction xs as [|x xs IH]; intros w Ha Hm Hl; [split; assumption|]. inversion Ha as [|? ? A1 A2]; subst. cbn [run].
    destruct (step_linked V zero n calc_row x w lib A1 Hm Hl) as (S1 & S2 & _). destruct (step V zero n calc_row lib x w) as [w1 r]. cbn [fst] in *.
    specialize (IH w1 A2 S2 S1). destruct (run V zero n calc_row lib xs w1) as [w2 rs]. exact IH.
  Qed.
End Values.

(** C101.  Any number of objects, any changes of the caching mode, any sequence of requests
    and accesses, starting with a file left behind by such a sequence: every access returns
    the rows calculated from scratch for the object's settings.  With pytables, if the mode
    'overwrite' is not used.  (Keys as in C40.) *)
Theorem C101_values_partial (V : Type) (zero : V) n calc_row lib m s pre o d k :
  good_store V zero calc_row s -> Forall allowed_op pre -> allowed_op (Access o k) -> requested o pre None = Some d ->
  (lib = Tables -> m <> Overwrite /\ Forall no_overwrite pre) ->
  snd (step V zero n calc_row lib (Access o k) (fst (run V zero n calc_row lib pre (new_world V m s))))
  = Rows V (match k with
            | KInt z => match py_index n z with Some i => Some [calc_row d i zero] | None => None end
            | KSlice a b st => Some (map (fun i => calc_row d i zero) (slice_list n a b st))
            end).
Proof.
  intros Hs Ha Hk Hr Ho. set (w := fst (run V zero n calc_row lib pre (new_world V m s))).
  assert (Hw : good_world V zero calc_row w) by (apply run_good; [exact Ha|apply good_new; exact Hs]).
  assert (Eo : match objs V w o with Some (d, _) => Some d | None => None end = Some d).
  { unfold w. rewrite run_objs. cbn [new_world objs]. exact Hr. }
  destruct (step_good V zero n calc_row lib (Access o k) w Hk Hw) as [_ S].
  assert (NC : snd (step V zero n calc_row lib (Access o k) w) <> ClosedNode V).
  { destruct lib.
    - destruct (Ho eq_refl) as [Hm Hn]. destruct (run_linked V zero n calc_row Tables pre (new_world V m s) Hn Hm) as [L M]; [intros o' d' id E; discriminate|].
      exact (proj2 (proj2 (step_linked V zero n calc_row (Access o k) w Tables I M L))).
    - cbn [step]. destruct (objs V w o) as [[d0 [st|id]]|]; [|  |discriminate].
      + destruct (getitem _ _ _ _ _); discriminate.
      + destruct (getitem _ _ _ _ _); discriminate. }
  destruct (objs V w o) as [[d0 h]|] eqn:E; [|discriminate]. injection Eo as ->.
  assert (R : exists r, snd (step V zero n calc_row lib (Access o k) w) = Rows V r).
  { cbn [step] in *. rewrite E in *. destruct h as [st|id].
    - destruct (getitem _ _ _ _ _). eexists; reflexivity.
    - destruct (getitem _ _ _ _ _), lib, (match node V (file V w) d with Some id' => id' =? id | None => false end); cbn [snd] in *; try (eexists; reflexivity); congruence. }
  destruct R as [r R]. rewrite R in *. destruct S as (d1 & h1 & E1 & ->). injection E1 as <- <-. reflexivity.
Qed.
Print Assumptions C101_values_partial.

(** C101.  The file after any sequence can be used again: it is as C101_values_partial
    requires it, and so is no file at all. *)
Theorem C101_file (V : Type) (zero : V) n calc_row lib m s xs :
  good_store V zero calc_row (empty_store V zero)
  /\ (good_store V zero calc_row s -> Forall allowed_op xs ->
      good_store V zero calc_row (file V (fst (run V zero n calc_row lib xs (new_world V m s))))).
Proof.
  split; [apply good_empty|]. intros Hs Ha. apply (run_good V zero n calc_row lib xs _ Ha). apply good_new. exact Hs.
Qed.
Print Assumptions C101_file.

(** C101.  Rows in the file are used, not calculated: in the modes 'all' and 'readonly',
    and in 'individual' for objects with cached set. *)
Theorem C101_reuse (V : Type) (zero : V) n calc_row lib m c s o d id i :
  present V s = true -> node V s d = Some id -> i < n -> snd (snd (data V s id)) i = true ->
  m = All \/ m = Readonly \/ (m = Individual /\ c = true) ->
  snd (step V zero n calc_row lib (Access o (KInt (Z.of_nat i))) (fst (step V zero n calc_row lib (Request o d c) (new_world V m s))))
  = Rows V (Some [fst (snd (data V s id)) i]).
Proof.
  intros Hp Hn Hi Hf Hm.
  assert (G : forall calc st, snd st i = true -> fst (getitem V n calc (KInt (Z.of_nat i)) st) = Some [fst st i]).
  { intros calc st Hst. unfold getitem. cbn [fst].
    assert (SL : forall j, In j (slice_list n (Some (Z.of_nat i)) (Some (Z.of_nat i + 1)%Z) 1) -> j = i).
    { intros j. unfold slice_list, slice_indices. cbn [Z.ltb Z.compare]. change (0 <? 1)%Z with true. cbn iota.
      destruct (Z.ltb_spec (Z.of_nat i) 0); [lia|]. destruct (Z.ltb_spec (Z.of_nat i + 1) 0); [lia|].
      rewrite !Z.min_r by lia. unfold py_range. change (0 <? 1)%Z with true. cbn iota. rewrite Z.div_1_r. intros K.
      apply in_map_iff in K as (z & <- & K). apply in_map_iff in K as (q & <- & K). apply in_seq in K. lia. }
    assert (F : filter (fun j => negb (snd st j)) (slice_list n (Some (Z.of_nat i)) (Some (Z.of_nat i + 1)%Z) 1) = []).
    { destruct (filter _ _) as [|j l] eqn:E; [reflexivity|]. exfalso. assert (In j (j :: l)) by (left; reflexivity). rewrite <- E in H.
      apply filter_In in H as [H1 H2]. apply SL in H1. subst j. rewrite Hst in H2. discriminate. }
    rewrite F. unfold py_index. destruct (Z.leb_spec 0 (Z.of_nat i)); [|lia]. destruct (Z.ltb_spec (Z.of_nat i) (Z.of_nat n)); [|lia]. cbn [andb].
    rewrite ?Nat2Z.id. reflexivity. }
  assert (Gi : match lib with Tables => True | H5py => True end) by (destruct lib; exact I).
  destruct Hm as [->|[->|[-> ->]]]; cbn [step new_world mode file]; unfold get_result, filecache; rewrite ?Hp;
    cbn [open_file node present data]; rewrite Hn; cbn [fst snd data open_file].
  - destruct c; cbn [fst objs]; unfold set_obj; rewrite Nat.eqb_refl; cbn [file node open_file data]; rewrite Hn, Nat.eqb_refl;
      pose proof (G (calc_row d) _ Hf) as G0; destruct (getitem V n (calc_row d) _ (snd (data V s id))) as [v st']; cbn [fst] in G0; subst v; destruct lib; reflexivity.
  - destruct c; cbn [fst objs]; unfold set_obj; rewrite Nat.eqb_refl;
      pose proof (G (calc_row d) _ Hf) as G0; destruct (getitem V n (calc_row d) _ (snd (data V s id))) as [v st']; cbn [fst] in G0; subst v; reflexivity.
  - cbn [fst objs]; unfold set_obj; rewrite Nat.eqb_refl; cbn [file node open_file data]; rewrite Hn, Nat.eqb_refl;
      pose proof (G (calc_row d) _ Hf) as G0; destruct (getitem V n (calc_row d) _ (snd (data V s id))) as [v st']; cbn [fst] in G0; subst v; destruct lib; reflexivity.
Qed.
Print Assumptions C101_reuse.

(** C101.  'overwrite': whatever the file holds, the rows are calculated anew. *)
Theorem C101_overwrite (V : Type) (zero : V) n calc_row lib c s o d k : allowed_op (Access o k) ->
  snd (step V zero n calc_row lib (Access o k) (fst (step V zero n calc_row lib (Request o d c) (new_world V Overwrite s))))
  = Rows V (match k with
            | KInt z => match py_index n z with Some i => Some [calc_row d i zero] | None => None end
            | KSlice a b st => Some (map (fun i => calc_row d i zero) (slice_list n a b st))
            end).
Proof.
  intros Hk.
  assert (E : exists s' id, get_result V zero Overwrite c d s = (s', Node V id) /\ node V s' d = Some id /\ data V s' id = (d, fresh V zero)).
  { unfold get_result, filecache. destruct (present V s); cbn [open_file node]; destruct (node V s d) as [id0|] eqn:En; cbn [remove_node open_file node data next present];
      rewrite ?En; unfold set_node; rewrite ?Nat.eqb_refl, ?En; destruct c; (eexists; eexists; split; [reflexivity|]);
      cbn [create_node node data next remove_node open_file]; unfold set_node; rewrite ?Nat.eqb_refl; split; reflexivity. }
  destruct E as (s' & id & E & En & Ed). cbn [step new_world mode file]. rewrite E. cbn [fst objs]. unfold set_obj. rewrite Nat.eqb_refl.
  cbn [file]. rewrite En, Nat.eqb_refl, Ed. cbn [snd].
  destruct (getitem_spec V zero n (calc_row d) k (fresh V zero) Hk (fresh_good V zero (calc_row d))) as [S1 _].
  destruct (getitem V n (calc_row d) k (fresh V zero)) as [v st']. cbn [fst] in S1. subst v. destruct lib; reflexivity.
Qed.
Print Assumptions C101_overwrite.

(** C101.  In the modes 'none' and 'readonly' (and for objects without cached in
    'individual') nothing is written, and no file is created. *)
Definition quiet_op (individual : bool) (x : op) : Prop :=
  match x with
  | SetMode NoCache | SetMode Readonly => True
  | SetMode Individual => individual = true
  | SetMode _ => False
  | Request _ _ cached => individual = true -> cached = false
  | _ => True
  end.
Theorem C101_untouched (V : Type) (zero : V) n calc_row lib m s xs individual : quiet_op individual (SetMode m) -> Forall (quiet_op individual) xs ->
  let s' := file V (fst (run V zero n calc_row lib xs (new_world V m s))) in
  present V s' = present V s /\ (forall d, node V s' d = node V s d) /\ (forall id, data V s' id = data V s id).
Proof.
  intros Hm Hx. cbv zeta.
  assert (Inv : forall w, quiet_op individual (SetMode (mode V w)) -> (forall o d id, objs V w o <> Some (d, Node V id)) ->
    let s' := file V (fst (run V zero n calc_row lib xs w)) in
    present V s' = present V (file V w) /\ (forall d, node V s' d = node V (file V w) d) /\ (forall id, data V s' id = data V (file V w) id)).
  { cbv zeta. clear Hm s m. induction xs as [|x xs IH]; intros w Hm Ho; [cbn; auto|]. inversion Hx as [|? ? X1 X2]; subst. specialize (IH X2). cbn [run].
    assert (S : let w1 := fst (step V zero n calc_row lib x w) in quiet_op individual (SetMode (mode V w1)) /\ (forall o d id, objs V w1 o <> Some (d, Node V id))
      /\ present V (file V w1) = present V (file V w) /\ (forall d, node V (file V w1) d = node V (file V w) d) /\ (forall id, data V (file V w1) id = data V (file V w) id)).
    { cbv zeta. destruct x as [m|o d c|o k]; cbn [step].
      - cbn [fst mode objs file]. auto.
      - assert (R : exists h st, get_result V zero (mode V w) c d (file V w) = (h, Memory V st) /\ present V h = present V (file V w)
            /\ (forall d, node V h d = node V (file V w) d) /\ (forall id, data V h id = data V (file V w) id)).
        { destruct (mode V w); cbn [quiet_op] in Hm, X1; try contradiction; unfold get_result, filecache.
          - rewrite (X1 Hm). eexists; eexists; (split; [reflexivity|auto]).
          - destruct c; eexists; eexists; (split; [reflexivity|auto]).
          - destruct (present V (file V w)) eqn:Ep.
            + cbn [open_file node]. destruct (node V (file V w) d) eqn:En; destruct c; eexists; eexists; (split; [reflexivity|auto]).
            + destruct c; eexists; eexists; (split; [reflexivity|auto]). }
        destruct R as (h & st & E & R1 & R2 & R3). rewrite E. cbn [fst mode objs file]. split; [exact Hm|]. split; [|auto].
        intros o' d' id. unfold set_obj. destruct (o' =? o); [congruence|apply Ho].
      - destruct (objs V w o) as [[d [st|id]]|] eqn:Eo.
        + destruct (getitem V n (calc_row d) k st) as [v st']. cbn [fst mode objs file]. split; [exact Hm|]. split; [|auto].
          intros o' d' id. unfold set_obj. destruct (o' =? o); [congruence|apply Ho].
        + exfalso. exact (Ho _ _ _ Eo).
        + cbn [fst]. auto. }
    cbv zeta in S. destruct (step V zero n calc_row lib x w) as [w1 r]. cbn [fst] in S. destruct S as (S1 & S2 & S3 & S4 & S5).
    specialize (IH w1 S1 S2). destruct (run V zero n calc_row lib xs w1) as [w2 rs]. cbn [fst] in *. destruct IH as (I1 & I2 & I3).
    split; [congruence|]. split; [intros d; rewrite I2; apply S4|intros id; rewrite I3; apply S5]. }
  apply (Inv (new_world V m s)); [exact Hm|discriminate].
Qed.
Print Assumptions C101_untouched.

(** C101 fails with pytables in the mode 'overwrite': a second object with the same settings
    removes the node that the first one still uses. *)
Theorem C101_closed_node_refuted (V : Type) (zero : V) n calc_row : (0 < n)%nat ->
  snd (run V zero n calc_row Tables [Request 0 7 true; Access 0 (KInt 0); Request 1 7 true; Access 0 (KInt 0)] (new_world V Overwrite (empty_store V zero)))
  = [Nothing V; Rows V (Some [calc_row 7 0 zero]); Nothing V; ClosedNode V].
Proof.
  intros Hn. set (w1 := fst (step V zero n calc_row Tables (Request 0 7 true) (new_world V Overwrite (empty_store V zero)))).
  assert (E1 : step V zero n calc_row Tables (Request 0 7 true) (new_world V Overwrite (empty_store V zero)) = (w1, Nothing V)) by reflexivity.
  assert (A := C101_overwrite V zero n calc_row Tables true (empty_store V zero) 0 7 (KInt 0) ltac:(cbn; lia)). fold w1 in A.
  cbn [run]. rewrite E1.
  destruct (step V zero n calc_row Tables (Access 0 (KInt 0)) w1) as [w2 r2] eqn:E2. cbn [snd] in A. subst r2.
  assert (W2 : mode V w2 = Overwrite /\ objs V w2 0 = Some (7, Node V 0) /\ node V (file V w2) 7 = Some 0 /\ next V (file V w2) = 1).
  { cbn [step] in E2. unfold w1 in E2. cbn in E2. injection E2 as <- _. cbn. auto. }
  destruct W2 as (W2a & W2b & W2c & W2d).
  assert (E3 : exists w3, step V zero n calc_row Tables (Request 1 7 true) w2 = (w3, Nothing V) /\ objs V w3 0 = Some (7, Node V 0) /\ node V (file V w3) 7 = Some 1).
  { cbn [step]. rewrite W2a. unfold get_result, filecache.
    assert (P : forall b : bool, match b with true => 1 | false => 1 end = 1) by (intros []; reflexivity).
    cbn [open_file node remove_node next present]. rewrite W2c. cbn [remove_node node open_file next]. unfold set_node at 1. cbn [Nat.eqb].
    destruct (present V (file V w2)); (eexists; split; [reflexivity|]); cbn [objs file]; unfold set_obj; cbn [Nat.eqb];
      cbn [remove_node create_node node next open_file]; unfold set_node; cbn [Nat.eqb]; rewrite W2d; auto. }
  destruct E3 as (w3 & E3 & E3a & E3b). rewrite E3. cbn [step]. rewrite E3a, E3b. cbn [Nat.eqb snd]. unfold py_index.
  destruct (Z.leb_spec 0 0); [|lia]. destruct (Z.ltb_spec 0 (Z.of_nat n)); [|lia]. cbn. reflexivity.
Qed.
Print Assumptions C101_closed_node_refuted.

(** C101 fails when the mode changes: an object that asked for its result in the mode 'all'
    still writes to the file in the mode 'readonly'. *)
Theorem C101_mode_change_refuted : exists pre : list op,
  let w := fst (run nat 0 1 (fun _ _ _ => 5) H5py pre (new_world nat All (empty_store nat 0))) in
  mode nat w = Readonly
  /\ fst (snd (data nat (file nat w) 0)) 0 = 0 /\ node nat (file nat w) 7 = Some 0
  /\ let w' := fst (step nat 0 1 (fun _ _ _ => 5) H5py (Access 0 (KInt 0)) w) in fst (snd (data nat (file nat w') 0)) 0 = 5.
Proof. exists [Request 0 7 true; SetMode Readonly]. vm_compute. auto. Qed.
Print Assumptions C101_mode_change_refuted.

(** C101.  PowerSpectra.csm: in every mode the calculated matrix, whatever was cached by
    earlier runs (including runs whose calculation failed); in 'readonly' mode if the cached
    array does not sum to zero, and then without changing the file. *)
Theorem C101_csm_partial k func m c d s : good_csm k func s ->
  good_csm k func (fst (get_csm k func m c d s))
  /\ (m <> Readonly -> snd (get_csm k func m c d s) = func d)
  /\ (m = Readonly -> arrays (fst (get_csm k func m c d s)) = arrays s /\ there (fst (get_csm k func m c d s)) = there s)
  /\ (m = Readonly -> (forall a, arrays s d = Some a -> csum_list a <> C0) -> snd (get_csm k func m c d s) = func d).
Proof.
  intros G. destruct (get_csm_good k func m c d s G) as (A & B & D & E). split; [exact A|]. split; [exact B|]. split; [|exact E].
  intros Hm. subst m. unfold get_csm. destruct c, (there s) eqn:Et; cbn [fst]; try (split; [reflexivity|exact Et]);
    cbv zeta; cbn [arrays]; destruct (arrays s d) as [a|] eqn:Ea; try (split; reflexivity);
    cbn [arrays]; rewrite ?Ea; (destruct (C_eq_dec _ _); [destruct (func d)|]); split; reflexivity.
Qed.
Print Assumptions C101_csm_partial.

(** C101.  csm in 'overwrite' mode: the calculated matrix, and the file then holds it, whatever
    it held before (also matrices a user has changed); for 'none', and without cached in
    'individual', the file is neither read nor written. *)
Theorem C101_csm_overwrite k func c d s v : func d = inl v ->
  let '(s', r) := get_csm k func Overwrite c d s in r = inl v /\ arrays s' d = Some v /\ there s' = true.
Proof.
  intros Ef. unfold get_csm. cbv zeta.
  assert (Z : csum_list (repeat C0 k) = C0) by apply csum_zeros.
  destruct c, (there s); cbn [arrays]; destruct (arrays s d) eqn:Ea; cbn [arrays set_array]; rewrite ?Nat.eqb_refl, ?Ea;
    cbn [arrays set_array]; rewrite ?Nat.eqb_refl; (destruct (C_eq_dec _ C0) as [_|K]; [|contradiction]);
    rewrite Ef; cbn [arrays set_array there]; rewrite Nat.eqb_refl; repeat split; reflexivity.
Qed.
Print Assumptions C101_csm_overwrite.
Theorem C101_csm_uncached k func d s c : get_csm k func NoCache c d s = (s, func d) /\ get_csm k func Individual false d s = (s, func d).
Proof. destruct c; split; reflexivity. Qed.
Print Assumptions C101_csm_uncached.

(** C101 fails for a cached matrix that sums to zero: a silent recording, or one whose
    calculation failed after the array was created, raises an error in 'readonly' mode. *)
Theorem C101_csm_readonly_refuted : forall k (v : list C) (e : exn), v = repeat C0 k ->
  (let s := fst (get_csm k (fun _ => inl v) All true 0 {| there := false; arrays := fun _ => None |}) in
   snd (get_csm k (fun _ => inl v) Readonly true 0 s) = inr OSError)
  /\ (let s := fst (get_csm k (fun _ => inr e) All true 0 {| there := false; arrays := fun _ => None |}) in
      forall v', snd (get_csm k (fun _ => inl v') Readonly true 0 s) = inr OSError).
Proof.
  intros k v e ->. cbv zeta. split.
  - unfold get_csm. cbn [there arrays set_array Nat.eqb]. destruct (C_eq_dec (csum_list (repeat C0 k)) C0) as [Z|Z]; [|rewrite csum_zeros in Z; congruence].
    cbn [fst there arrays set_array Nat.eqb]. destruct (C_eq_dec (csum_list (repeat C0 k)) C0) as [_|Z']; [reflexivity|congruence].
  - intros v'. unfold get_csm. cbn [there arrays set_array Nat.eqb]. destruct (C_eq_dec (csum_list (repeat C0 k)) C0) as [Z|Z]; [|rewrite csum_zeros in Z; congruence].
    cbn [fst there arrays set_array Nat.eqb]. destruct (C_eq_dec (csum_list (repeat C0 k)) C0) as [_|Z']; [reflexivity|congruence].
Qed.
Print Assumptions C101_csm_readonly_refuted.

(** C101 fails if the user changes the matrix they got: it is the array in the file, and a
    later run with the same settings gets the changed one. *)
Theorem C101_csm_assign_refuted k func d (v w : list C) s : func d = inl v -> good_csm k func s -> csum_list w <> C0 ->
  let s1 := fst (get_csm k func Individual true d s) in
  snd (get_csm k func Individual true d s) = inl v /\ snd (get_csm k func Individual true d (assign d w s1)) = inl w.
Proof.
  intros Ef G Hw. cbv zeta. split; [rewrite <- Ef; apply (proj1 (proj2 (get_csm_good k func Individual true d s G))); discriminate|].
  generalize (fst (get_csm k func Individual true d s)). intros s1. unfold get_csm, assign, set_array. cbn [there arrays]. rewrite !Nat.eqb_refl. cbn [there arrays]. rewrite !Nat.eqb_refl.
  destruct (C_eq_dec (csum_list w) C0); [contradiction|reflexivity].
Qed.
Print Assumptions C101_csm_assign_refuted.

Example C101_case : exists r,
  snd (run nat 0 3 (fun d i _ => 10 * d + i) Tables
        [Request 0 7 true; Access 0 (KInt 1); Request 1 7 true; Access 1 (KSlice None None 1); SetMode Readonly; Request 2 8 true; Access 2 (KInt (-2))]
        (new_world nat Individual (empty_store nat 0))) = r
  /\ r = [Nothing nat; Rows nat (Some [71]); Nothing nat; Rows nat (Some [70; 71; 72]); Nothing nat; Nothing nat; Rows nat (Some [81])].
Proof. eexists. split; [reflexivity|]. vm_compute. reflexivity. Qed.
Example C101_csm_case : good_csm 4 (fun _ => inl [C1; C0; C0; C1]) {| there := false; arrays := fun _ => None |}
  /\ csum_list [C1; C0; C0; C1] <> C0.
Proof. split; [intros d a E; cbn in E; discriminate E|]. intros E. apply (f_equal fst) in E. unfold csum_list, Cadd, C1, C0 in E. cbn in E. lra. Qed.
