(** PointSpreadFunction (/repo/acoular/fbeamform.py:963-1140): which columns
    are calculated, in which mode, with or without a cache file. *)
From Coq Require Import List Arith Lia ZArith Bool Reals Lra.
From Verif Require Import Stream Cplx Beamform.
Import ListNotations.
Local Open Scope nat_scope.

(** PointSpreadFunction.calcmode, fbeamform.py:996. *)
Inductive calcmode := Single | Block | Full | Readonly.

(** numpy fancy indexing with one (possibly negative) index; None is IndexError. *)
Definition py_nth {A} (l : list A) (z : Z) : option A :=
  let n := Z.of_nat (length l) in
  if ((0 <=? z) && (z <? n))%Z then nth_error l (Z.to_nat z)
  else if ((- n <=? z) && (z <? 0))%Z then nth_error l (Z.to_nat (n + z))
  else None.

Fixpoint py_fancy {A} (l : list A) (zs : list Z) : option (list A) :=
  match zs with
  | [] => Some []
  | z :: zs' =>
      match py_nth l z, py_fancy l zs' with
      | Some x, Some xs => Some (x :: xs)
      | _, _ => None
      end
  end.

Section Psf.
  (** [column i] is what the kernel delivers for the source index [i] (the map
      of a unit monopole at grid point i, see Beamform.psf_is_map), [gs] the
      grid size.  A stored array is a function from the column index. *)
  Variables (column : nat -> nat -> R) (gs : nat).

  Definition store := ((nat -> nat -> R) * (nat -> bool))%type.

  (** numpy.invert on int8 values 0 and 1: bitwise not, -1 and -2. *)
  Definition invert_int8 (b : bool) : Z := if b then (-2)%Z else (-1)%Z.

  (** calc_psf, fbeamform.py:1091-1098: [g_ind_calc]. *)
  Definition g_ind_calc (gi : list nat) (gp : nat -> bool) : option (list nat) :=
    let calc_ind := if length gi =? 1 then [0%Z] else map (fun i => invert_int8 (gp i)) gi in
    py_fancy gi calc_ind.

  Definition write_cols (inds : list nat) (st : store) : store :=
    fold_left (fun st i =>
      (fun j => if j =? i then column i else fst st j, fun j => if j =? i then true else snd st j)) inds st.

  (** calc_psf, fbeamform.py:1089-1111.  The modes 'single' and 'block' (and
      the rest) write the same columns. *)
  Definition calc_psf (mode : calcmode) (gi : list nat) (st : store) : option store :=
    match mode with
    | Full => Some (fun j => if j <? gs then column j else fst st j, fun j => if j <? gs then true else snd st j)
    | _ => match g_ind_calc gi (snd st) with
           | None => None
           | Some inds => Some (write_cols inds st)
           end
    end.

  Definition empty_store : store := (fun _ _ => 0%R, fun _ => false).

  (** _get_psf, fbeamform.py:1050-1087.  [cache] is the content of the cache
      file for this digest and frequency, None without caching.  The result is
      the list of columns [ac[:, grid_indices]] and the new content, or None
      for an exception. *)
  Definition get_psf (mode : calcmode) (grid_indices : list nat) (cache : option store)
      : option (list (nat -> R) * option store) :=
    let gi := match grid_indices with [] => seq 0 gs | _ => grid_indices end in
    match cache with
    | Some st =>
        if forallb (snd st) gi then Some (map (fst st) gi, Some st)
        else match mode with
             | Readonly => None
             | _ => match calc_psf mode gi st with
                    | None => None
                    | Some st' => Some (map (fst st') gi, Some st')
                    end
             end
    | None =>
        match calc_psf mode gi empty_store with
        | None => None
        | Some st' => Some (map (fst st') gi, None)
        end
    end.

  (** What the cache may contain: flagged columns are right. *)
  Definition sound (st : store) : Prop := forall i, snd st i = true -> fst st i = column i.

  Lemma write_cols_spec inds : forall st i,
    fst (write_cols inds st) i = (if existsb (Nat.eqb i) inds then column i else fst st i)
    /\ snd (write_cols inds st) i = (existsb (Nat.eqb i) inds || snd st i).
  Proof.
    induction inds as [|a inds IH]; intros st i; cbn [write_cols fold_left existsb]; [auto|].
    fold (write_cols inds). unfold write_cols in IH. destruct (IH (fun j => if j =? a then column a else fst st j,
      fun j => if j =? a then true else snd st j) i) as [E1 E2]. rewrite E1, E2. cbn [fst snd].
    destruct (Nat.eqb_spec i a) as [->|]; cbn [orb].
    - destruct (existsb (Nat.eqb a) inds); auto.
    - auto.
  Qed.

  Lemma write_cols_sound inds st : sound st -> sound (write_cols inds st).
  Proof.
    intros H i. destruct (write_cols_spec inds st i) as [E1 E2]. rewrite E1, E2.
    destruct (existsb (Nat.eqb i) inds); [reflexivity|]. apply H.
  Qed.

  Lemma calc_psf_sound mode gi st st' : sound st -> calc_psf mode gi st = Some st' -> sound st'.
  Proof.
    intros H E. destruct mode; cbn [calc_psf] in E.
    1,2,4: destruct (g_ind_calc gi (snd st)); [|discriminate]; injection E as <-; now apply write_cols_sound.
    injection E as <-. intros i. cbn [fst snd]. destruct (i <? gs); [reflexivity|apply H].
  Qed.

  Lemma empty_sound : sound empty_store.
  Proof. intros i. discriminate. Qed.

  (** The indices that are calculated: only the last two of the list. *)
  Lemma py_fancy_invert gi (l : list nat) gp : 2 <= length gi ->
    py_fancy gi (map (fun i => invert_int8 (gp i)) l)
    = Some (map (fun i => nth (length gi - (if gp i then 2 else 1)) gi 0) l).
  Proof.
    intros H. induction l as [|a l IH]; [reflexivity|]. cbn [map py_fancy].
    replace (py_nth gi (invert_int8 (gp a))) with (Some (nth (length gi - (if gp a then 2 else 1)) gi 0)).
    - now rewrite IH.
    - unfold py_nth, invert_int8. symmetry.
      destruct (gp a).
      + destruct (Z.leb_spec 0 (-2)); [lia|]. cbn [andb].
        destruct (Z.leb_spec (- Z.of_nat (length gi)) (-2)); [|lia]. cbn [andb].
        change (-2 <? 0)%Z with true. cbn match.
        replace (Z.to_nat (Z.of_nat (length gi) + -2)) with (length gi - 2) by lia.
        apply nth_error_nth'. lia.
      + destruct (Z.leb_spec 0 (-1)); [lia|]. cbn [andb].
        destruct (Z.leb_spec (- Z.of_nat (length gi)) (-1)); [|lia]. cbn [andb].
        change (-1 <? 0)%Z with true. cbn match.
        replace (Z.to_nat (Z.of_nat (length gi) + -1)) with (length gi - 1) by lia.
        apply nth_error_nth'. lia.
  Qed.

  Lemma existsb_false (i : nat) l : ~ In i l -> existsb (Nat.eqb i) l = false.
  Proof.
    intros H. destruct (existsb (Nat.eqb i) l) eqn:E; [|reflexivity].
    apply existsb_exists in E as (x & Hx & Ex). apply Nat.eqb_eq in Ex. subst. contradiction.
  Qed.

  (** 'full': right whatever the history. *)
  Theorem psf_full gi cache : (forall st, cache = Some st -> sound st) ->
    (forall i, In i gi -> i < gs) ->
    exists c', get_psf Full gi cache = Some (map column (match gi with [] => seq 0 gs | _ => gi end), c').
  Proof.
    intros Hs Hi. unfold get_psf. set (g := match gi with [] => seq 0 gs | _ => gi end).
    assert (Hg : forall i, In i g -> i < gs).
    { intros i H. unfold g in H. destruct gi as [|a gi]; [|now apply Hi].
      apply in_seq in H. lia. }
    destruct cache as [st|].
    - destruct (forallb (snd st) g) eqn:E.
      + rewrite forallb_forall in E. exists (Some st). f_equal. f_equal. apply map_ext_in. intros i H.
        apply (Hs st eq_refl). now apply E.
      + cbn [calc_psf]. eexists. f_equal. f_equal. apply map_ext_in. intros i H. cbn [fst].
        destruct (Nat.ltb_spec i gs); [reflexivity|]. specialize (Hg i H). lia.
    - cbn [calc_psf]. eexists. f_equal. f_equal. apply map_ext_in. intros i H. cbn [fst].
      destruct (Nat.ltb_spec i gs); [reflexivity|]. specialize (Hg i H). lia.
  Qed.

  (** One index: right in every mode (in 'readonly' if it is in the cache). *)
  Theorem psf_one_index mode i cache : (forall st, cache = Some st -> sound st) ->
    i < gs -> (mode = Readonly -> forall st, cache = Some st -> snd st i = true) ->
    exists c', get_psf mode [i] cache = Some ([column i], c').
  Proof.
    intros Hs Hi Hro. destruct mode.
    3:{ destruct (psf_full [i] cache Hs) as (c & E); [intros j [<-|[]]; assumption|]. exists c. exact E. }
    all: unfold get_psf; destruct cache as [st|]; cbn [forallb]; rewrite ?andb_true_r.
    all: try (destruct (snd st i) eqn:E;
      [exists (Some st); cbn [map]; do 3 f_equal; now apply (Hs st)|]).
    all: try (cbn; rewrite !Nat.eqb_refl; eexists; reflexivity).
    specialize (Hro eq_refl st eq_refl). congruence.
  Qed.

  (** All columns in the cache: right in every mode. *)
  Theorem psf_all_cached mode gi st : sound st -> gi <> [] -> (forall i, In i gi -> snd st i = true) ->
    get_psf mode gi (Some st) = Some (map column gi, Some st).
  Proof.
    intros Hs Hn H. unfold get_psf. replace (match gi with [] => seq 0 gs | _ => gi end) with gi
      by (destruct gi; [congruence|reflexivity]).
    replace (forallb (snd st) gi) with true by (symmetry; now apply forallb_forall).
    f_equal. f_equal. apply map_ext_in. auto.
  Qed.

  (** Two or more indices in the modes 'single' and 'block' without a cache:
      only the column of the last index is calculated, the others are zero. *)
  Theorem psf_many mode gi : mode = Single \/ mode = Block -> 2 <= length gi ->
    get_psf mode gi None
    = Some (map (fun i => if i =? nth (length gi - 1) gi 0 then column i else fun _ => 0%R) gi, None).
  Proof.
    intros Hm Hl. unfold get_psf. replace (match gi with [] => seq 0 gs | _ => gi end) with gi
      by (destruct gi; [cbn in Hl; lia|reflexivity]).
    assert (E : calc_psf mode gi empty_store
      = Some (write_cols (map (fun _ => nth (length gi - 1) gi 0) gi) empty_store)).
    { unfold calc_psf, g_ind_calc. destruct (Nat.eqb_spec (length gi) 1); [lia|].
      rewrite py_fancy_invert by assumption. destruct Hm as [-> | ->]; reflexivity. }
    rewrite E. f_equal. f_equal. apply map_ext. intros i.
    destruct (write_cols_spec (map (fun _ => nth (length gi - 1) gi 0) gi) empty_store i) as [E1 _].
    rewrite E1. destruct (Nat.eqb_spec i (nth (length gi - 1) gi 0)) as [Ei|Ei].
    - assert (existsb (Nat.eqb i) (map (fun _ => nth (length gi - 1) gi 0) gi) = true) as ->; [|reflexivity].
      apply existsb_exists. exists i. split; [|apply Nat.eqb_refl].
      apply in_map_iff. destruct gi as [|a gi]; [cbn in Hl; lia|]. exists a. split; [auto|now left].
    - rewrite existsb_false; [reflexivity|]. intros Hin. apply in_map_iff in Hin as (x & Ex & _). congruence.
  Qed.

  (** Repeated reading with a cache: never more than the last two indices. *)
  Fixpoint read_again (n : nat) (mode : calcmode) (gi : list nat) (st : store) : option store :=
    match n with
    | 0 => Some st
    | S n' => match get_psf mode gi (Some st) with
              | Some (_, Some st') => read_again n' mode gi st'
              | _ => None
              end
    end.

  Theorem psf_never_complete n mode gi i : mode = Single \/ mode = Block -> 2 <= length gi ->
    i <> nth (length gi - 1) gi 0 -> i <> nth (length gi - 2) gi 0 ->
    forall st, snd st i = false -> fst st i = (fun _ => 0%R) ->
    exists st', read_again n mode gi st = Some st' /\ snd st' i = false /\ fst st' i = (fun _ => 0%R).
  Proof.
    intros Hm Hl H1 H2. induction n as [|n IH]; intros st Hst Hf; [exists st; auto|].
    cbn [read_again]. unfold get_psf. replace (match gi with [] => seq 0 gs | _ => gi end) with gi
      by (destruct gi; [cbn in Hl; lia|reflexivity]).
    destruct (forallb (snd st) gi); [apply IH; assumption|].
    assert (E : calc_psf mode gi st
      = Some (write_cols (map (fun i => nth (length gi - (if snd st i then 2 else 1)) gi 0) gi) st)).
    { unfold calc_psf, g_ind_calc. destruct (Nat.eqb_spec (length gi) 1); [lia|].
      rewrite py_fancy_invert by assumption. destruct Hm as [-> | ->]; reflexivity. }
    rewrite E. destruct Hm as [-> | ->]; apply IH.
    all: destruct (write_cols_spec (map (fun i => nth (length gi - (if snd st i then 2 else 1)) gi 0) gi) st i) as [E1 E2];
      rewrite ?E1, ?E2, existsb_false; try assumption.
    all: intros Hin; apply in_map_iff in Hin as (x & Ex & _); destruct (snd st x); congruence.
  Qed.
End Psf.
