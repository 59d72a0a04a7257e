(** The cache file of PointSpreadFunction over several frequencies and with
    calculations that are broken off (/repo/acoular/fbeamform.py:1016-1111),
    for global caching 'all' or 'individual'.  Psf.v has the modes for one
    frequency and complete calculations. *)
From Coq Require Import List Arith Lia ZArith Bool Reals Lra.
From Verif Require Import Stream Cplx Beamform Psf.
Import ListNotations.
Local Open Scope nat_scope.

Section Store.
  (** [column f i]: what the kernel delivers for frequency [f] and source index
      [i]; [name f]: the digits of f'Hz_{freq:.2f}', fbeamform.py:1022, that is
      the number of hundredths. *)
  Variables (column : R -> nat -> nat -> R) (gs : nat) (name : R -> Z).

  (** The content of the file: per node name the arrays 'result' and 'gridpts'. *)
  Definition file := Z -> option store.
  Definition put (fl : file) (k : Z) (st : store) : file := fun j => if (j =? k)%Z then Some st else fl j.

  (** Single writes to the arrays, in the order of the statements. *)
  Inductive effect := Flag (inds : list nat) | Data (inds : list nat).
  Definition mem (i : nat) (l : list nat) : bool := existsb (Nat.eqb i) l.
  Definition write (f : R) (st : store) (e : effect) : store :=
    match e with
    | Flag l => (fst st, fun i => if mem i l then true else snd st i)
    | Data l => (fun i => if mem i l then column f i else fst st i, snd st)
    end.

  (** calc_psf, 1089-1111.  'single' 1099-1102: data, then flag; 'full' 1103-1105:
      all flags, then all data; the others 1106-1111: everything is calculated,
      then per index flag and data. *)
  Definition effects (mode : calcmode) (gi : list nat) (st : store) : option (list effect) :=
    match mode with
    | Full => Some [Flag (seq 0 gs); Data (seq 0 gs)]
    | Single => match g_ind_calc gi (snd st) with
                | None => None | Some l => Some (flat_map (fun i => [Data [i]; Flag [i]]) l) end
    | _ => match g_ind_calc gi (snd st) with
           | None => None | Some l => Some (flat_map (fun i => [Flag [i]; Data [i]]) l) end
    end.

  (** One access to psf, 1050-1075: [stop] is the number of writes after which
      the calculation is broken off (exception, kill), None if it is not.  The
      node is created with zeros if there is none (1032-1044). *)
  Definition chosen (gi : list nat) : list nat := match gi with [] => seq 0 gs | _ => gi end.
  Record access := mkAccess { a_freq : R; a_mode : calcmode; a_gi : list nat; a_stop : option nat }.
  Definition get (a : access) (fl : file) : option (list (nat -> R)) * file :=
    let gi := chosen (a_gi a) in
    let k := name (a_freq a) in
    let st := match fl k with Some st => st | None => empty_store end in
    if forallb (snd st) gi then (Some (map (fst st) gi), put fl k st)
    else match a_mode a with
         | Readonly => (None, put fl k st)
         | m => match effects m gi st with
                | None => (None, put fl k st)
                | Some es =>
                    let done := match a_stop a with None => es | Some j => firstn j es end in
                    let st' := fold_left (write (a_freq a)) done st in
                    (match a_stop a with None => Some (map (fst st') gi) | Some _ => None end, put fl k st')
                end
         end.
  Definition history (l : list access) (fl : file) : file := fold_left (fun fl a => snd (get a fl)) l fl.
  Definition nothing : file := fun _ => None.

  (** Flagged columns are those of the frequency. *)
  Definition right (f : R) (st : store) : Prop := forall i, snd st i = true -> fst st i = column f i.

  Lemma mem_true i l : mem i l = true <-> In i l.
  Proof.
    unfold mem. rewrite existsb_exists. split; [intros (x & H & E); apply Nat.eqb_eq in E; now subst|].
    intros H. exists i. split; [exact H|apply Nat.eqb_refl].
  Qed.
  Lemma write_data f st l : right f st -> right f (write f st (Data l)).
  Proof. intros H i. cbn [write fst snd]. destruct (mem i l); [reflexivity|apply H]. Qed.
  (** after the data of [l] were written *)
  Lemma write_flag f st l : right f st -> (forall i, In i l -> fst st i = column f i) -> right f (write f st (Flag l)).
  Proof.
    intros H D i. cbn [write fst snd]. destruct (mem i l) eqn:E; [|apply H]. intros _. apply D. now apply mem_true.
  Qed.
  Lemma write_both f st l : right f st -> right f (write f (write f st (Flag l)) (Data l)).
  Proof.
    intros H i. cbn [write fst snd]. destruct (mem i l) eqn:E; [reflexivity|]. apply H.
  Qed.

  (** 'single': right after every number of writes. *)
  Lemma single_prefix f : forall l j st, right f st -> right f (fold_left (write f) (firstn j (flat_map (fun i => [Data [i]; Flag [i]]) l)) st).
  Proof.
    induction l as [|a l IH]; intros j st H; [destruct j; exact H|]. destruct j as [|[|j]].
    - exact H.
    - now apply write_data.
    - cbn [flat_map app firstn fold_left]. apply IH. apply write_flag; [now apply write_data|].
      intros i [<-|[]]. cbn [write fst]. unfold mem. cbn [existsb]. now rewrite Nat.eqb_refl.
  Qed.
  Lemma block_all f : forall l st, right f st -> right f (fold_left (write f) (flat_map (fun i => [Flag [i]; Data [i]]) l) st).
  Proof.
    induction l as [|a l IH]; intros st H; [exact H|]. cbn [flat_map app fold_left]. apply IH. now apply write_both.
  Qed.

  (** Accesses that keep the file right: complete ones and those of mode 'single'. *)
  Definition safe (a : access) : Prop := a_stop a = None \/ a_mode a = Single.
  Lemma effects_right f m gi st es stop : right f st -> effects m gi st = Some es -> (stop = None \/ m = Single) ->
    right f (fold_left (write f) (match stop with None => es | Some j => firstn j es end) st).
  Proof.
    intros H E S. destruct m; cbn [effects] in E.
    - destruct (g_ind_calc gi (snd st)) as [l|]; [|discriminate]. injection E as <-. destruct stop as [j|]; [now apply single_prefix|].
      rewrite <- (firstn_all (flat_map _ l)). now apply single_prefix.
    - destruct S as [-> | S]; [|discriminate]. destruct (g_ind_calc gi (snd st)) as [l|]; [|discriminate]. injection E as <-. now apply block_all.
    - destruct S as [-> | S]; [|discriminate]. injection E as <-. now apply write_both.
    - destruct S as [-> | S]; [|discriminate]. destruct (g_ind_calc gi (snd st)) as [l|]; [|discriminate]. injection E as <-. now apply block_all.
  Qed.

  Section Names.
  (** The frequencies in use have different names. *)
  Variable used : R -> Prop.
  Hypothesis Hname : forall f f', used f -> used f' -> name f = name f' -> f = f'.
  Definition good (fl : file) : Prop := forall f st, used f -> fl (name f) = Some st -> right f st.

  Lemma put_good fl f st : good fl -> used f -> right f st -> good (put fl (name f) st).
  Proof.
    intros G U R f' st' U' E. unfold put in E. destruct (Z.eqb_spec (name f') (name f)) as [N|N].
    - injection E as <-. now rewrite (Hname f' f U' U N).
    - now apply (G f').
  Qed.
  Lemma get_good a fl : good fl -> used (a_freq a) -> safe a -> good (snd (get a fl)).
  Proof.
    intros G U S. unfold get. set (gi := chosen (a_gi a)).
    set (st := match fl (name (a_freq a)) with Some st => st | None => empty_store end).
    assert (right (a_freq a) st) as R.
    { unfold st. destruct (fl (name (a_freq a))) as [s|] eqn:E; [now apply (G (a_freq a))|]. intros i. discriminate. }
    assert (forall m es, m = a_mode a -> effects m gi st = Some es ->
      good (put fl (name (a_freq a)) (fold_left (write (a_freq a)) (match a_stop a with None => es | Some j => firstn j es end) st))) as K.
    { intros m es -> E. apply put_good; [exact G|exact U|]. apply (effects_right _ (a_mode a) gi); [exact R|exact E|exact S]. }
    destruct (forallb (snd st) gi); [now apply put_good|].
    destruct (a_mode a); try (now apply put_good); destruct (effects _ gi st) as [es|] eqn:E; cbn [snd];
      try (now apply put_good); eapply K; try reflexivity; exact E.
  Qed.
  Lemma history_good l : forall fl, good fl -> (forall a, In a l -> used (a_freq a) /\ safe a) -> good (history l fl).
  Proof.
    induction l as [|a l IH]; intros fl G H; [exact G|]. cbn [history fold_left]. apply IH; [|intros; apply H; now right].
    destruct (H a (or_introl eq_refl)). now apply get_good.
  Qed.

  (** A complete read in mode 'full' is right. *)
  Theorem full_read f gi fl : good fl -> used f -> (forall i, In i gi -> i < gs) ->
    fst (get (mkAccess f Full gi None) fl) = Some (map (column f) (chosen gi)).
  Proof.
    intros G U Hi. unfold get. cbn [a_freq a_mode a_gi a_stop effects].
    set (g := chosen gi).
    assert (forall i, In i g -> i < gs) as Hg by (intros i H; unfold g, chosen in H; destruct gi; [apply in_seq in H; lia|now apply Hi]).
    set (st := match fl (name f) with Some st => st | None => empty_store end).
    assert (right f st) as R.
    { unfold st. destruct (fl (name f)) as [s|] eqn:E; [now apply (G f)|]. intros i. discriminate. }
    destruct (forallb (snd st) g) eqn:E.
    - cbn [fst]. f_equal. apply map_ext_in. intros i H. apply R. rewrite forallb_forall in E. now apply E.
    - cbn [fold_left fst]. f_equal. apply map_ext_in. intros i H. cbn [write fst].
      replace (mem i (seq 0 gs)) with true; [reflexivity|]. symmetry. apply mem_true, in_seq. specialize (Hg i H). lia.
  Qed.

  End Names.

  Lemma served f m gi stop fl st : fl (name f) = Some st -> (forall i, In i (chosen gi) -> snd st i = true) ->
    fst (get (mkAccess f m gi stop) fl) = Some (map (fst st) (chosen gi)).
  Proof.
    intros E H. unfold get. cbn [a_freq a_mode a_gi a_stop]. rewrite E.
    replace (forallb (snd st) (chosen gi)) with true by (symmetry; now apply forallb_forall). reflexivity.
  Qed.
  Lemma put_same fl k st : put fl k st k = Some st.
  Proof. unfold put. now rewrite Z.eqb_refl. Qed.
  Lemma first_file f stop : 0 < gs -> snd (get (mkAccess f Full [] stop) nothing)
    = put nothing (name f) (fold_left (write f) (match stop with None => [Flag (seq 0 gs); Data (seq 0 gs)] | Some j => firstn j [Flag (seq 0 gs); Data (seq 0 gs)] end) empty_store).
  Proof.
    intros H. unfold get. cbn [a_freq a_mode a_gi a_stop effects chosen nothing].
    replace (forallb (snd empty_store) (seq 0 gs)) with false; [reflexivity|]. destruct gs; [lia|reflexivity].
  Qed.
  Lemma all_mem i : In i (seq 0 gs) -> mem i (seq 0 gs) = true.
  Proof. apply mem_true. Qed.

  (** 'full' broken off after the flags: later reads return what was there. *)
  Theorem full_broken f m : 0 < gs ->
    fst (get (mkAccess f m [] None) (snd (get (mkAccess f Full [] (Some 1)) nothing))) = Some (map (fun _ _ => 0%R) (seq 0 gs)).
  Proof.
    intros Hs. rewrite first_file by exact Hs. rewrite (served f m [] None _ _ (put_same _ _ _)); [reflexivity|].
    intros i H. cbn [firstn fold_left write snd]. now rewrite all_mem.
  Qed.

  (** Same name: the second frequency gets the columns of the first. *)
  Theorem same_name f f' m : 0 < gs -> name f = name f' ->
    fst (get (mkAccess f' m [] None) (snd (get (mkAccess f Full [] None) nothing))) = Some (map (column f) (seq 0 gs)).
  Proof.
    intros Hs N. rewrite first_file by exact Hs. rewrite N. rewrite (served f' m [] None _ _ (put_same _ _ _)).
    - f_equal. apply map_ext_in. intros i H. cbn [firstn fold_left write fst snd]. now rewrite all_mem.
    - intros i H. cbn [firstn fold_left write snd]. now rewrite all_mem.
  Qed.
End Store.
