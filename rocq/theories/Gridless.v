(** BeamformerGridlessOrth (property C86; fbeamform.py:2294-2465).

    Modelled: the list of components, the columns in which level and position
    are stored, the evaluation on demand, the
    function that is minimised.  Not modelled: the global
    optimiser (any function of frequency and component), the cache file (C16,
    C29). *)
From Coq Require Import List Arith Lia ZArith Bool Reals Lra FunctionalExtensionality.
From Verif Require Import Stream Cplx Environ Beamform.
Import ListNotations.
Local Open Scope R_scope.

(** unique(self.eva_list % num_mics)[::-1], fbeamform.py:2416: the residues in
    descending order. *)
Definition components (M : nat) (eva_list : list Z) : list nat :=
  rev (filter (fun k => existsb (fun e => (e mod Z.of_nat M =? Z.of_nat k)%Z) eva_list) (seq 0 M)).

(** arange(-1, -1 - n, -1), fbeamform.py:2385-2388. *)
Definition set_eva_list (n : nat) : list Z := map (fun j => (-1 - Z.of_nat j)%Z) (seq 0 n).

(** [_gpos], [_ac] and [_fr]. *)
Record gstate := mkG { g_pos : nat -> v3; g_ac : nat -> nat -> R; g_fr : nat -> bool }.

(** zeros, fbeamform.py:443-451. *)
Definition gfresh : gstate := mkG (fun _ => V3 0 0 0) (fun _ _ => 0) (fun _ => false).

Definition set_col {A} (f : nat -> A) (c : nat) (v : A) : nat -> A := fun k => if (k =? c)%nat then v else f k.

Section calc.
  (** [opt i n]: position found for component [n] at frequency [i]; [eva i n]:
      the eigenvalue; [nch]: freq_data.num_channels; [nfreq]: number of
      frequencies; [n]: the trait; [size = n * nfreq]. *)
  Variables (opt : nat -> nat -> v3) (eva : nat -> nat -> R) (nch nfreq n : nat).

  Definition size : nat := (n * nfreq)%nat.

  (** Loop over the components, fbeamform.py:2438-2462. *)
  Fixpoint store (i j : nat) (comps : list nat) (st : gstate) : gstate * option exn :=
    match comps with
    | [] => (st, None)
    | c :: rest =>
        let i1 := (i * n + j)%nat in
        if (i1 <? size)%nat
        then store i (S j) rest
               (mkG (set_col (g_pos st) i1 (opt i c))
                    (set_col (g_ac st) i (set_col (g_ac st i) i1 (eva i c / INR nch))) (g_fr st))
        else (st, Some IndexError)
    end.

  (** Loop over the frequencies, fbeamform.py:2433-2463. *)
  Fixpoint gcalc (comps : list nat) (ind : list nat) (st : gstate) : gstate * option exn :=
    match ind with
    | [] => (st, None)
    | i :: rest =>
        match store i 0 comps st with
        | (st', None) => gcalc comps rest (mkG (g_pos st') (g_ac st') (set_col (g_fr st') i true))
        | (st', Some e) => (st', Some e)
        end
    end.

  (** LazyBfResult.__getitem__ on the frequencies [ks], fbeamform.py:292-305. *)
  Definition gread (comps : list nat) (ks : list nat) (st : gstate) : gstate * option exn :=
    gcalc comps (filter (fun i => negb (g_fr st i)) ks) st.

  (** A sequence of reads, each of which may raise. *)
  Fixpoint greads (comps : list nat) (kss : list (list nat)) (st : gstate) : gstate * list (option exn) :=
    match kss with
    | [] => (st, [])
    | ks :: rest => let '(st', e) := gread comps ks st in
                    let '(st'', es) := greads comps rest st' in (st'', e :: es)
    end.
End calc.

(* ------------------------------------------------------------------ *)
(** * The components *)

Definition residues (M : nat) (l : list Z) : list nat :=
  filter (fun k => existsb (fun e => (e mod Z.of_nat M =? Z.of_nat k)%Z) l) (seq 0 M).

Lemma components_in M l k : (0 < M)%nat ->
  In k (components M l) <-> exists e, In e l /\ (e mod Z.of_nat M)%Z = Z.of_nat k.
Proof.
  intros HM. unfold components. rewrite <- in_rev, filter_In, in_seq, existsb_exists. split.
  - intros [_ (e & He & E)]. exists e. split; [assumption|]. now apply Z.eqb_eq.
  - intros (e & He & E). split.
    + pose proof (Z.mod_pos_bound e (Z.of_nat M) ltac:(lia)). lia.
    + exists e. split; [assumption|]. now apply Z.eqb_eq.
Qed.

Lemma components_NoDup M l : NoDup (components M l).
Proof. unfold components. apply NoDup_rev, NoDup_filter, seq_NoDup. Qed.

(** Every entry is larger than those behind it. *)
Fixpoint descending (l : list nat) : Prop :=
  match l with [] => True | x :: r => (forall y, In y r -> (y < x)%nat) /\ descending r end.

Lemma descending_app l x : descending l -> (forall y, In y l -> (x < y)%nat) -> descending (l ++ [x]).
Proof.
  induction l as [|a l IH]; cbn [app descending]; intros D H.
  - split; [intros y []|exact I].
  - destruct D as [D1 D2]. split.
    + intros y Hy. apply in_app_or in Hy as [Hy|[<-|[]]]; [now apply D1|]. apply H. now left.
    + apply IH; [assumption|]. intros y Hy. apply H. now right.
Qed.

Lemma components_descending M l : descending (components M l).
Proof.
  unfold components. generalize (fun k => existsb (fun e => (e mod Z.of_nat M =? Z.of_nat k)%Z) l). intros f.
  assert (G : forall n k, descending (rev (filter f (seq k n)))).
  { induction n as [|n IH]; intros k; [exact I|]. cbn [seq filter]. destruct (f k); [|apply IH].
    cbn [rev]. apply descending_app; [apply IH|]. intros y Hy. apply in_rev in Hy. apply filter_In in Hy as [Hy _].
    apply in_seq in Hy. lia. }
  apply G.
Qed.

(** Two descending lists with the same entries are equal. *)
Lemma descending_unique : forall a b, descending a -> descending b -> (forall x, In x a <-> In x b) -> a = b.
Proof.
  induction a as [|x a IH]; intros [|y b] Da Db H.
  - reflexivity.
  - exfalso. apply (H y). now left.
  - exfalso. apply (H x). now left.
  - destruct Da as [Da1 Da2], Db as [Db1 Db2].
    assert (x = y).
    { pose proof (proj1 (H x) (or_introl eq_refl)) as [E|Hx]; [congruence|].
      pose proof (proj2 (H y) (or_introl eq_refl)) as [E|Hy]; [congruence|].
      specialize (Db1 x Hx). specialize (Da1 y Hy). lia. }
    subst y. f_equal. apply IH; try assumption. intros z. split; intros Hz.
    + pose proof (proj1 (H z) (or_intror Hz)) as [E|]; [|assumption]. subst. specialize (Da1 z Hz). lia.
    + pose proof (proj2 (H z) (or_intror Hz)) as [E|]; [|assumption]. subst. specialize (Db1 z Hz). lia.
Qed.

(** With [n] set, the [n] largest eigenvalues (the last columns), largest
    first. *)
Theorem components_n M n : (0 < n <= M)%nat -> components M (set_eva_list n) = map (fun j => (M - 1 - j)%nat) (seq 0 n).
Proof.
  intros H. apply descending_unique.
  - apply components_descending.
  - assert (G : forall m k, (k + m <= M)%nat -> descending (map (fun j => (M - 1 - j)%nat) (seq k m))).
    { induction m as [|m IH]; intros k Hk; [exact I|]. cbn [seq map descending]. split; [|apply IH; lia].
      intros y Hy. apply in_map_iff in Hy as (j & <- & Hj). apply in_seq in Hj. lia. }
    apply G. lia.
  - intros x. rewrite components_in by lia. unfold set_eva_list. rewrite in_map_iff. split.
    + intros (e & He & E). apply in_map_iff in He as (j & <- & Hj). apply in_seq in Hj. exists j.
      split; [|now apply in_seq]. 
      replace (-1 - Z.of_nat j)%Z with (Z.of_nat M - 1 - Z.of_nat j + (-1) * Z.of_nat M)%Z in E by ring.
      rewrite Z.mod_add in E by lia. rewrite Z.mod_small in E by lia. lia.
    + intros (j & <- & Hj). apply in_seq in Hj. exists (-1 - Z.of_nat j)%Z. split.
      * apply in_map_iff. exists j. split; [reflexivity|]. apply in_seq. lia.
      * replace (-1 - Z.of_nat j)%Z with (Z.of_nat M - 1 - Z.of_nat j + (-1) * Z.of_nat M)%Z by ring.
        rewrite Z.mod_add by lia. rewrite Z.mod_small by lia. lia.
Qed.

(* ------------------------------------------------------------------ *)
(** * The map *)

Section map.
  Variables (opt : nat -> nat -> v3) (eva : nat -> nat -> R) (nch nfreq n : nat).

  (** What belongs into the columns of frequency [i]. *)
  Definition placed (comps : list nat) (i : nat) (st : gstate) : Prop :=
    (forall j, (j < length comps)%nat -> g_pos st (i * n + j)%nat = opt i (nth j comps 0%nat))
    /\ forall p, g_ac st i p =
         if (i * n <=? p)%nat && (p <? i * n + length comps)%nat
         then eva i (nth (p - i * n) comps 0%nat) / INR nch else 0.

  (** Columns of other frequencies are not touched. *)
  Definition same_elsewhere (i : nat) (st st' : gstate) : Prop :=
    (forall p, ~ (i * n <= p < i * n + n)%nat -> g_pos st' p = g_pos st p)
    /\ (forall i', i' <> i -> g_ac st' i' = g_ac st i') /\ g_fr st' = g_fr st.

  Lemma store_ok i : (i < nfreq)%nat -> forall comps j st, (j + length comps <= n)%nat ->
    exists st', store opt eva nch nfreq n i j comps st = (st', None)
      /\ same_elsewhere i st st'
      /\ (forall p, (p < i * n + j)%nat \/ (i * n + j + length comps <= p)%nat -> g_pos st' p = g_pos st p /\ g_ac st' i p = g_ac st i p)
      /\ (forall q, (q < length comps)%nat -> g_pos st' (i * n + j + q)%nat = opt i (nth q comps 0%nat)
            /\ g_ac st' i (i * n + j + q)%nat = eva i (nth q comps 0%nat) / INR nch).
  Proof.
    intros Hi. induction comps as [|c comps IH]; intros j st Hj; cbn [length] in Hj.
    - exists st. split; [reflexivity|]. split; [repeat split|]. split; [auto|]. intros q Hq. cbn in Hq. lia.
    - cbn [store]. destruct (Nat.ltb_spec (i * n + j) (size nfreq n)) as [_|Hs]; [|exfalso; unfold size in Hs; nia].
      match goal with |- context [store _ _ _ _ _ i (S j) comps ?s] => destruct (IH (S j) s ltac:(lia)) as (st' & E & (S1 & S2 & S3) & O & Q) end.
      exists st'. split; [exact E|]. split; [|split].
      + split; [|split].
        * intros p Hp. rewrite S1 by assumption. cbn [g_pos]. unfold set_col. destruct (Nat.eqb_spec p (i * n + j)); [lia|reflexivity].
        * intros i' Hi'. rewrite S2 by assumption. cbn [g_ac]. unfold set_col. destruct (Nat.eqb_spec i' i); [lia|reflexivity].
        * exact S3.
      + intros p Hp. destruct (O p ltac:(cbn [length] in Hp; lia)) as [O1 O2]. rewrite O1, O2. cbn [g_pos g_ac]. unfold set_col.
        rewrite Nat.eqb_refl. destruct (Nat.eqb_spec p (i * n + j)); [cbn [length] in Hp; lia|auto].
      + intros [|q] Hq.
        * destruct (O (i * n + j)%nat ltac:(lia)) as [O1 O2]. rewrite Nat.add_0_r, O1, O2. cbn [g_pos g_ac nth]. unfold set_col.
          now rewrite !Nat.eqb_refl.
        * destruct (Q q ltac:(cbn [length] in Hq; lia)) as [Q1 Q2]. 
          replace (i * n + j + S q)%nat with (i * n + S j + q)%nat by lia. auto.
  Qed.

  (** Invariant of all reads. *)
  Definition ginv (comps : list nat) (st : gstate) : Prop :=
    (forall i, (i < nfreq)%nat -> g_fr st i = true -> placed comps i st)
    /\ (forall i p, (i < nfreq)%nat -> g_fr st i = false -> g_ac st i p = 0).

  Lemma gcalc_ok comps : (length comps <= n)%nat -> forall ind st,
    (forall i, In i ind -> (i < nfreq)%nat) -> NoDup ind -> (forall i, In i ind -> g_fr st i = false) -> ginv comps st ->
    exists st', gcalc opt eva nch nfreq n comps ind st = (st', None) /\ ginv comps st'
      /\ forall i, g_fr st' i = orb (g_fr st i) (existsb (Nat.eqb i) ind).
  Proof.
    intros Hc. induction ind as [|i ind IH]; intros st Hi Hd Hf [V1 V2]; cbn [gcalc].
    - exists st. split; [reflexivity|]. split; [now split|]. intros i. cbn. now rewrite orb_false_r.
    - destruct (store_ok i (Hi i (or_introl eq_refl)) comps 0 st ltac:(lia)) as (st1 & E & (S1 & S2 & S3) & O & Q). rewrite E.
      inversion Hd as [|i0 ind0 Hni Hd']. subst i0 ind0.
      set (st2 := mkG (g_pos st1) (g_ac st1) (set_col (g_fr st1) i true)).
      destruct (IH st2) as (st' & E' & V' & F').
      + intros q Hq. apply Hi. now right.
      + assumption.
      + intros q Hq. unfold st2. cbn [g_fr]. unfold set_col. destruct (Nat.eqb_spec q i); [subst; contradiction|].
        rewrite S3. apply Hf. now right.
      + split.
        * intros q Hq Hfr. unfold st2 in *. cbn [g_fr g_pos g_ac] in *. unfold set_col in Hfr. destruct (Nat.eqb_spec q i) as [->|Hqi].
          -- split.
             ++ intros j Hj. destruct (Q j Hj) as [Q1 _]. rewrite Nat.add_0_r in Q1. exact Q1.
             ++ intros p. cbn [g_ac]. destruct (Nat.leb_spec (i * n) p) as [Hp|Hp]; cbn [andb].
                ** destruct (Nat.ltb_spec p (i * n + length comps)) as [Hp2|Hp2].
                   --- destruct (Q (p - i * n)%nat ltac:(lia)) as [_ Q2].
                       replace (i * n + 0 + (p - i * n))%nat with p in Q2 by lia. exact Q2.
                   --- destruct (O p ltac:(lia)) as [_ ->]. apply V2; [assumption|]. apply Hf. now left.
                ** destruct (O p ltac:(lia)) as [_ ->]. apply V2; [assumption|]. apply Hf. now left.
          -- rewrite S3 in Hfr. destruct (V1 q Hq Hfr) as [P1 P2]. split.
             ++ intros j Hj. cbn [g_pos]. rewrite S1; [now apply P1|]. nia.
             ++ intros p. cbn [g_ac]. rewrite S2 by assumption. apply P2.
        * intros q p Hq Hfr. unfold st2 in *. cbn [g_fr g_ac] in *. unfold set_col in Hfr.
          destruct (Nat.eqb_spec q i); [discriminate|]. rewrite S3 in Hfr. rewrite S2 by assumption. now apply V2.
      + exists st'. split; [exact E'|]. split; [exact V'|]. intros q. rewrite F'. unfold st2. cbn [g_fr existsb]. unfold set_col. rewrite S3.
        destruct (Nat.eqb_spec q i); [now rewrite orb_true_r|reflexivity].
  Qed.

  (** Any sequence of reads of existing frequencies. *)
  Theorem greads_ok comps kss : (length comps <= n)%nat ->
    (forall ks, In ks kss -> NoDup ks /\ forall i, In i ks -> (i < nfreq)%nat) ->
    exists st', greads opt eva nch nfreq n comps kss gfresh = (st', repeat None (length kss))
      /\ (forall i ks, In ks kss -> In i ks -> placed comps i st').
  Proof.
    intros Hc Hk.
    assert (G : forall kss st, (forall ks, In ks kss -> NoDup ks /\ forall i, In i ks -> (i < nfreq)%nat) -> ginv comps st ->
      exists st', greads opt eva nch nfreq n comps kss st = (st', repeat None (length kss)) /\ ginv comps st'
        /\ forall i, g_fr st' i = true <-> g_fr st i = true \/ exists ks, In ks kss /\ In i ks).
    { clear kss Hk. induction kss as [|ks kss IH]; intros st Hk V; cbn [greads].
      - exists st. split; [reflexivity|]. split; [assumption|]. intros i. split; [auto|]. intros [H|(ks & [] & _)]. exact H.
      - destruct (Hk ks (or_introl eq_refl)) as [Hd Hi]. unfold gread.
        destruct (gcalc_ok comps Hc (filter (fun i => negb (g_fr st i)) ks) st) as (st1 & -> & V1 & F1).
        + intros i Hin. apply filter_In in Hin. now apply Hi.
        + now apply NoDup_filter.
        + intros i Hin. apply filter_In in Hin as [_ Hin]. now apply negb_true_iff.
        + assumption.
        + destruct (IH st1 (fun ks' H' => Hk ks' (or_intror H')) V1) as (st2 & -> & V2 & F2).
          exists st2. split; [reflexivity|]. split; [assumption|]. intros i. rewrite F2, F1, orb_true_iff, existsb_exists. split.
          * intros [[H|(q & Hq & E)]|(ks' & H' & Hi')]; [now left| |right; exists ks'; split; [now right|assumption]].
            apply Nat.eqb_eq in E. subst q. apply filter_In in Hq as [Hq _]. right. exists ks. split; [now left|assumption].
          * intros [H|(ks' & [->|H'] & Hi')]; [auto| |right; now exists ks'].
            left. destruct (g_fr st i) eqn:E; [now left|]. right. exists i. split; [|apply Nat.eqb_refl].
            apply filter_In. split; [assumption|]. now rewrite E. }
    destruct (G kss gfresh Hk) as (st' & E & [V1 V2] & F).
    - split; [discriminate|reflexivity].
    - exists st'. split; [exact E|]. intros i ks Hks Hi. apply V1; [now apply (Hk ks Hks)|]. apply F. right. now exists ks.
  Qed.

  Lemma rsumn_split m f q : rsumn (m + q) f = rsumn m f + rsumn q (fun j => f (m + j)%nat).
  Proof.
    induction q as [|q IH]; [rewrite Nat.add_0_r; cbn [rsumn]; lra|].
    rewrite Nat.add_succ_r. cbn [rsumn]. rewrite IH. ring.
  Qed.

  (** The row adds up to the selected eigenvalues. *)
  Theorem placed_total comps i st : (i < nfreq)%nat -> (length comps <= n)%nat -> placed comps i st ->
    rsumn (size nfreq n) (g_ac st i) = rsumn (length comps) (fun j => eva i (nth j comps 0%nat) / INR nch).
  Proof.
    intros Hi Hc [_ P]. 
    replace (size nfreq n) with (i * n + (length comps + (size nfreq n - i * n - length comps)))%nat by (unfold size; nia).
    rewrite !rsumn_split.
    rewrite (rsumn_0 (i * n)), (rsumn_0 (size nfreq n - i * n - length comps)).
    - rewrite Rplus_0_l, Rplus_0_r. apply rsumn_ext. intros j Hj. rewrite P.
      destruct (Nat.leb_spec (i * n) (i * n + j)); [|lia]. destruct (Nat.ltb_spec (i * n + j) (i * n + length comps)); [|lia].
      cbn [andb]. do 3 f_equal. lia.
    - intros j Hj. rewrite P. destruct (Nat.ltb_spec (i * n + (length comps + j)) (i * n + length comps)); [lia|].
      now rewrite andb_false_r.
    - intros j Hj. rewrite P. destruct (Nat.leb_spec (i * n) j); [lia|reflexivity].
  Qed.
End map.

(* ------------------------------------------------------------------ *)
(** * The function that is minimised *)

(** [func], fbeamform.py:2441-2452, for a point at the distances [r0] from the
    reference point and [r m] from the microphones; [v] the eigenvector.
    r_diag_norm is always 1. *)
Definition objective (M : nat) (k : R) (st : steer) (rdiag : bool) (v : nat -> C) (r0 : R) (r : nat -> R) : R :=
  - fst (freq_eig M 1 (fun _ => 1) (fun m _ => v m) r0 k r 1 rdiag st).

Theorem objective_min M k st z r0s rs :
  (0 < M)%nat -> 0 < r0s -> (forall m, (m < M)%nat -> 0 < rs m) -> st = TrueLocation \/ st = Classic ->
  let v := fun m => Cmul z (transfer r0s k rs m) in
  forall r0 r, 0 < r0 -> (forall m, (m < M)%nat -> 0 < r m) ->
    objective M k st false v r0s rs <= objective M k st false v r0 r.
Proof.
  intros HM H0 Hs Hst v r0 r Hr0 Hr.
  destruct (monopole_max M k r0s rs (norm2 z) st HM H0 Hs (norm2_nonneg z) Hst) as (top & Et & Hx).
  destruct (Hx r0 r Hr0 Hr) as (x & Ex & Hle).
  assert (E : forall q0 q y, bf_base M (monopole_csm (norm2 z) (transfer r0s k rs)) q0 k q false 0 st = Some y ->
     objective M k st false v q0 q = - y).
  { intros q0 q y Hy. rewrite bf_base_full in Hy. injection Hy as <-. unfold objective. rewrite eig_kernels. do 3 f_equal.
    assert (X : eig_sum 1 (fun _ => 1) (fun m _ => v m) = monopole_csm (norm2 z) (transfer r0s k rs)).
    { apply functional_extensionality. intros i.
      apply functional_extensionality. intros j.
      unfold eig_sum, monopole_csm, v. cbn [csum]. rewrite Conj_mul, <- mul_Conj. change (RtoC 1) with C1. ring. }
    now rewrite X. }
  rewrite (E _ _ _ Et), (E _ _ _ Ex). lra.
Qed.
