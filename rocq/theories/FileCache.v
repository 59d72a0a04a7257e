(** Results kept in cache files: BeamformerBase._get_filecache and _get_result
    (fbeamform.py:362-449), PowerSpectra._get_filecache (spectra.py:492-550), with the
    modes of config.global_caching (configuration.py:83-91). *)
From Coq Require Import List Arith Lia ZArith Bool Reals Lra.
From Verif Require Import Stream Cplx Result.
Import ListNotations.
Local Open Scope nat_scope.

Inductive caching := Individual | All | NoCache | Readonly | Overwrite.
Inductive h5lib := Tables | H5py.

Section Results.
  (** One cache file, shared by objects with any digests.  Row [i] of the result for the
      digest [d] is calculated by [calc_row d i] (Result.v). *)
  Variables (V : Type) (zero : V) (n : nat) (calc_row : nat -> nat -> V -> V).

  (** The file: for each digest the node of that name, by its number; nodes that were
      removed stay in [data].  [present]: the file exists. *)
  Record store := { present : bool; node : nat -> option nat; data : nat -> nat * bfstate V; next : nat }.
  Definition set_node (f : nat -> option nat) (d : nat) (v : option nat) : nat -> option nat := fun d' => if d' =? d then v else f d'.

  (** What an object holds in _ac and _fr: arrays in memory or nodes of the file. *)
  Inductive handle := Memory (st : bfstate V) | Node (id : nat).

  (** fbeamform.py:371, h5cache.py:82-104: the file is created by opening it *)
  Definition open_file (s : store) : store := {| present := true; node := node s; data := data s; next := next s |}.
  Definition remove_node (s : store) (d : nat) : store :=
    {| present := present s; node := set_node (node s) d None; data := data s; next := next s |}.
  Definition create_node (s : store) (d : nat) : store :=
    {| present := present s; node := set_node (node s) d (Some (next s));
       data := fun id => if id =? next s then (d, fresh V zero) else data s id; next := S (next s) |}.

  (** _get_filecache, fbeamform.py:362-412; None is (None, None, None) *)
  Definition filecache (m : caching) (d : nat) (s : store) : store * option nat :=
    match m, present s with
    | Readonly, false => (s, None)
    | _, _ =>
        let s := open_file s in
        let s := match m, node s d with Overwrite, Some _ => remove_node s d | _, _ => s end in
        match node s d with
        | None => match m with Readonly => (s, None) | _ => (create_node s d, Some (next s)) end
        | Some id => (s, Some id)
        end
    end.

  (** _get_result, fbeamform.py:418-449 *)
  Definition get_result (m : caching) (cached : bool) (d : nat) (s : store) : store * handle :=
    match m, cached with
    | NoCache, _ => (s, Memory (fresh V zero))
    | Individual, false => (s, Memory (fresh V zero))
    | _, _ =>
        match filecache m d s with
        | (s, Some id) => match m with Readonly => (s, Memory (snd (data s id))) | _ => (s, Node id) end
        | (s, None) => (s, Memory (fresh V zero))
        end
    end.

  (** Objects by number, each with the digest for which its result was requested. *)
  Record world := { mode : caching; file : store; objs : nat -> option (nat * handle) }.
  Inductive op := SetMode (m : caching) | Request (o d : nat) (cached : bool) | Access (o : nat) (k : key).
  (** What an access gives: rows (None: IndexError), or the error of a closed node. *)
  Inductive outcome := Rows (r : option (list V)) | ClosedNode | Nothing.

  Definition set_obj (f : nat -> option (nat * handle)) o v := fun o' => if o' =? o then v else f o'.

  Definition step (lib : h5lib) (x : op) (w : world) : world * outcome :=
    match x with
    | SetMode m => ({| mode := m; file := file w; objs := objs w |}, Nothing)
    | Request o d cached =>
        let (s, h) := get_result (mode w) cached d (file w) in
        ({| mode := mode w; file := s; objs := set_obj (objs w) o (Some (d, h)) |}, Nothing)
    | Access o k =>
        match objs w o with
        | None => (w, Nothing)
        | Some (d, Memory st) =>
            let (v, st') := getitem V n (calc_row d) k st in
            ({| mode := mode w; file := file w; objs := set_obj (objs w) o (Some (d, Memory st')) |}, Rows v)
        | Some (d, Node id) =>
            match lib, (match node (file w) d with Some id' => id' =? id | None => false end) with
            | Tables, false => (w, ClosedNode)
            | _, _ =>
                let (v, st') := getitem V n (calc_row d) k (snd (data (file w) id)) in
                let s := file w in
                let s := {| present := present s; node := node s; data := fun id' => if id' =? id then (d, st') else data s id'; next := next s |} in
                ({| mode := mode w; file := s; objs := objs w |}, Rows v)
            end
        end
    end.

  Fixpoint run (lib : h5lib) (xs : list op) (w : world) : world * list outcome :=
    match xs with
    | [] => (w, [])
    | x :: xs' => let (w1, r) := step lib x w in let (w2, rs) := run lib xs' w1 in (w2, r :: rs)
    end.

  (** Every node holds rows that were calculated for its digest. *)
  Definition good_store (s : store) : Prop :=
    (forall id, id < next s -> good V zero (calc_row (fst (data s id))) (snd (data s id)))
    /\ forall d id, node s d = Some id -> id < next s /\ fst (data s id) = d.
  Definition empty_store : store := {| present := false; node := fun _ => None; data := fun _ => (0, fresh V zero); next := 0 |}.
  Definition good_handle (s : store) (d : nat) (h : handle) : Prop :=
    match h with Memory st => good V zero (calc_row d) st | Node id => id < next s /\ fst (data s id) = d end.
  Definition good_world (w : world) : Prop :=
    good_store (file w) /\ forall o d h, objs w o = Some (d, h) -> good_handle (file w) d h.
  Definition new_world (m : caching) (s : store) : world := {| mode := m; file := s; objs := fun _ => None |}.

  Lemma good_empty : good_store empty_store.
  Proof. split; [intros id H; cbn in H; lia|discriminate]. Qed.
  Lemma good_new m s : good_store s -> good_world (new_world m s).
  Proof. intros H. split; [exact H|discriminate]. Qed.

  Definition extends (s s' : store) : Prop := next s <= next s' /\ forall id, id < next s -> data s' id = data s id.
  Lemma handle_extends s s' d h : extends s s' -> good_handle s d h -> good_handle s' d h.
  Proof. intros [L E] H. destruct h as [st|id]; [exact H|]. destruct H as [H1 H2]. split; [lia|]. rewrite E by exact H1. exact H2. Qed.

  Lemma filecache_good m d s : good_store s -> let '(s', r) := filecache m d s in
    good_store s' /\ extends s s' /\ forall id, r = Some id -> id < next s' /\ fst (data s' id) = d.
  Proof.
    intros [G1 G2]. unfold filecache.
    assert (GC : forall s0, good_store s0 -> good_store (create_node s0 d) /\ extends s0 (create_node s0 d)
               /\ (next s0 < next (create_node s0 d) /\ fst (data (create_node s0 d) (next s0)) = d)).
    { intros s0 [H1 H2]. unfold create_node. cbn [present node data next]. split; [split|split].
      - cbn [data next]. intros id Hid. destruct (Nat.eqb_spec id (next s0)) as [->|]; cbn [fst snd]; [apply fresh_good|apply H1; lia].
      - cbn [node data next]. intros d' id. unfold set_node. destruct (Nat.eqb_spec d' d) as [->|].
        + intros E. injection E as <-. rewrite Nat.eqb_refl. cbn. split; [lia|reflexivity].
        + intros E. destruct (H2 _ _ E) as [A B]. destruct (Nat.eqb_spec id (next s0)); [lia|]. split; [lia|exact B].
      - split; [cbn; lia|]. cbn. intros id Hid. destruct (Nat.eqb_spec id (next s0)); [lia|reflexivity].
      - cbn. rewrite Nat.eqb_refl. split; [lia|reflexivity]. }
    assert (GO : good_store (open_file s)) by (split; assumption).
    assert (EO : extends s (open_file s)) by (split; [cbn; lia|reflexivity]).
    assert (GR : good_store (remove_node (open_file s) d)).
    { split; [exact G1|]. cbn [remove_node node open_file data next]. intros d' id. unfold set_node. destruct (Nat.eqb_spec d' d); [discriminate|apply G2]. }
    assert (R : forall s0, good_store s0 -> extends s s0 ->
      let '(s', r) := match node s0 d with None => match m with Readonly => (s0, None) | _ => (create_node s0 d, Some (next s0)) end | Some id => (s0, Some id) end in
      good_store s' /\ extends s s' /\ forall id, r = Some id -> id < next s' /\ fst (data s' id) = d).
    { intros s0 H0 X0. destruct (GC s0 H0) as (C1 & C2 & C3).
      assert (X1 : extends s (create_node s0 d)).
      { destruct X0 as [L0 E0], C2 as [L1 E1]. split; [lia|]. intros id Hid. rewrite E1 by lia. apply E0, Hid. }
      destruct (node s0 d) as [id0|] eqn:E0.
      - split; [exact H0|]. split; [exact X0|]. intros id E. injection E as <-. exact (proj2 H0 _ _ E0).
      - destruct m; (split; [assumption|split; [assumption|]]); intros id E; try discriminate; injection E as <-; exact C3. }
    destruct (present s); destruct m; try (apply R; assumption); try (split; [split; assumption|split; [split; [lia|reflexivity]|discriminate]]).
    all: destruct (node (open_file s) d); [apply R; [exact GR|exact EO]|apply R; assumption].
  Qed.

  Lemma get_result_good m c d s : good_store s -> let '(s', h) := get_result m c d s in good_store s' /\ extends s s' /\ good_handle s' d h.
  Proof.
    intros G. unfold get_result.
    assert (M : good_store s /\ extends s s /\ good_handle s d (Memory (fresh V zero))).
    { split; [exact G|]. split; [split; [lia|reflexivity]|]. apply fresh_good. }
    assert (F := filecache_good m d s G). destruct (filecache m d s) as [s' r]. destruct F as (F1 & F2 & F3).
    assert (N : let '(s0, h) := match r with Some id => match m with Readonly => (s', Memory (snd (data s' id))) | _ => (s', Node id) end | None => (s', Memory (fresh V zero)) end in
      good_store s0 /\ extends s s0 /\ good_handle s0 d h).
    { destruct r as [id|]; [|split; [exact F1|]; split; [exact F2|]; apply fresh_good]. destruct (F3 id eq_refl) as [H1 H2].
      destruct m; (split; [exact F1|]; split; [exact F2|]); try (split; assumption).
      cbn [good_handle]. rewrite <- H2. apply (proj1 F1). exact H1. }
    destruct m, c; try exact M; exact N.
  Qed.

  Definition allowed_op (x : op) : Prop := match x with Access _ k => allowed k | _ => True end.

  Lemma step_good lib x w : allowed_op x -> good_world w ->
    good_world (fst (step lib x w))
    /\ match x, snd (step lib x w) with
       | Access o k, Rows r => exists d h, objs w o = Some (d, h) /\ r = direct V zero n (calc_row d) k
       | _, _ => True
       end.
  Proof.
    intros Ha [G H]. destruct x as [m|o d c|o k]; cbn [step].
    - split; [split; assumption|exact I].
    - assert (R := get_result_good (mode w) c d (file w) G). destruct (get_result (mode w) c d (file w)) as [s h]. destruct R as (R1 & R2 & R3).
      cbn [fst snd]. split; [|exact I]. split; [exact R1|]. cbn [objs file]. intros o' d' h'. unfold set_obj. destruct (Nat.eqb_spec o' o) as [->|].
      + intros E. injection E as <- <-. exact R3.
      + intros E. eapply handle_extends; [exact R2|]. exact (H _ _ _ E).
    - cbn [allowed_op] in Ha. destruct (objs w o) as [[d [st|id]]|] eqn:Eo.
      + pose proof (H _ _ _ Eo) as Hh. cbn [good_handle] in Hh.
        destruct (getitem_spec V zero n (calc_row d) k st Ha Hh) as [S1 S2]. destruct (getitem V n (calc_row d) k st) as [v st'].
        cbn [fst snd] in *. split; [|exists d, (Memory st); auto]. split; [exact G|]. cbn [objs file]. intros o' d' h'. unfold set_obj.
        destruct (Nat.eqb_spec o' o) as [->|]; [|apply H]. intros E. injection E as <- <-. exact S2.
      + destruct (H _ _ _ Eo) as [H1 H2].
        assert (Gd : good V zero (calc_row d) (snd (data (file w) id))) by (rewrite <- H2; apply (proj1 G), H1).
        destruct (getitem_spec V zero n (calc_row d) k _ Ha Gd) as [S1 S2]. destruct (getitem V n (calc_row d) k (snd (data (file w) id))) as [v st'].
        cbn [fst snd] in *.
        set (w1 := {| mode := mode w; file := {| present := present (file w); node := node (file w);
                        data := fun id' => if id' =? id then (d, st') else data (file w) id'; next := next (file w) |}; objs := objs w |}).
        assert (Gw : good_world w1).
        { split; [split|].
          - cbn. intros id' Hid. destruct (Nat.eqb_spec id' id) as [->|]; cbn [fst snd]; [exact S2|apply (proj1 G), Hid].
          - cbn. intros d' id' E. destruct (proj2 G _ _ E) as [A B]. split; [exact A|]. destruct (Nat.eqb_spec id' id) as [->|]; cbn [fst]; congruence.
          - cbn. intros o' d' h' E. pose proof (H _ _ _ E) as Hh. destruct h' as [st0|id0]; [exact Hh|]. destruct Hh as [A B]. split; [exact A|].
            cbn. destruct (Nat.eqb_spec id0 id) as [->|]; cbn [fst]; congruence. }
        assert (D : exists d0 h, Some (d, Node id) = Some (d0, h) /\ v = direct V zero n (calc_row d0) k) by (exists d, (Node id); auto).
        destruct lib, (match node (file w) d with Some id' => id' =? id | None => false end); cbn [fst snd]; split; try exact Gw; try exact D; try (split; assumption); exact I.
      + cbn [fst snd]. split; [split; assumption|exact I].
  Qed.

  (** Nodes whose handles are still in use are not removed. *)
  Definition no_overwrite (x : op) : Prop := match x with SetMode Overwrite => False | _ => True end.
  Definition linked (w : world) : Prop := forall o d id, objs w o = Some (d, Node id) -> node (file w) d = Some id.

  Lemma get_result_linked m c d s : m <> Overwrite -> let '(s', h) := get_result m c d s in
    (forall d' id, node s d' = Some id -> node s' d' = Some id) /\ match h with Node id => node s' d = Some id | _ => True end.
  Proof.
    intros Hm. unfold get_result, filecache.
    assert (B : forall d' id, node s d = None -> node s d' = Some id -> set_node (node s) d (Some (next s)) d' = Some id).
    { intros d' id E E'. unfold set_node. destruct (Nat.eqb_spec d' d) as [->|]; congruence. }
    destruct m, c, (present s); try (exfalso; congruence); cbn [open_file node next]; try (split; [auto|exact I]);
      destruct (node s d) eqn:E; cbn [create_node node open_file data next]; try (split; [auto|exact I]); try (split; [intros; assumption|first [exact E | reflexivity]]);
      (split; [intros d' id0 E'; apply B; [reflexivity|exact E']|]); unfold set_node; rewrite Nat.eqb_refl; reflexivity.
  Qed.

  Lemma step_linked x w lib : no_overwrite x -> mode w <> Overwrite -> linked w ->
    linked (fst (step lib x w)) /\ mode (fst (step lib x w)) <> Overwrite /\ snd (step lib x w) <> ClosedNode.
  Proof.
    intros Hx Hm Hl. destruct x as [m|o d c|o k]; cbn [step].
    - cbn. split; [exact Hl|]. split; [destruct m; cbn in Hx; congruence|discriminate].
    - pose proof (get_result_linked (mode w) c d (file w) Hm) as R. destruct (get_result (mode w) c d (file w)) as [s h]. destruct R as [R1 R2].
      cbn [fst snd]. split; [|split; [exact Hm|discriminate]]. intros o' d' id. cbn [objs file]. unfold set_obj. destruct (Nat.eqb_spec o' o) as [->|].
      + intros E. injection E as <- ->. exact R2.
      + intros E. apply R1. exact (Hl _ _ _ E).
    - destruct (objs w o) as [[d [st|id]]|] eqn:Eo.
      + destruct (getitem V n (calc_row d) k st) as [v st']. cbn [fst snd]. split; [|split; [exact Hm|discriminate]].
        intros o' d' id. cbn [objs file]. unfold set_obj. destruct (Nat.eqb_spec o' o) as [->|]; [discriminate|apply Hl].
      + rewrite (Hl _ _ _ Eo), Nat.eqb_refl. destruct (getitem V n (calc_row d) k (snd (data (file w) id))) as [v st'].
        destruct lib; cbn [fst snd]; (split; [exact Hl|split; [exact Hm|discriminate]]).
      + cbn [fst snd]. split; [exact Hl|split; [exact Hm|discriminate]].
  Qed.
End Results.

(** ** PowerSpectra._get_filecache, spectra.py:492-538, for the CSM.  The file: for each
    digest the array as list of its elements; func may raise.  A file opened in 'readonly'
    mode refuses assignments. *)
Section Csm.
  Variables (size_ : nat) (func : nat -> list C + exn).
  Record csm_file := { there : bool; arrays : nat -> option (list C) }.
  Definition set_array (s : csm_file) d v : csm_file := {| there := true; arrays := fun d' => if d' =? d then v else arrays s d' |}.
  Definition csum_list (l : list C) : C := fold_right Cadd C0 l.
  Lemma C_eq_dec (a b : C) : {a = b} + {a <> b}.
  Proof. destruct a as [a1 a2], b as [b1 b2]. destruct (Req_EM_T a1 b1) as [->|]; [|right; congruence]. destruct (Req_EM_T a2 b2) as [->|]; [left; reflexivity|right; congruence]. Qed.

  Definition get_csm (m : caching) (cached : bool) (d : nat) (s : csm_file) : csm_file * (list C + exn) :=
    match m, cached, there s with
    | NoCache, _, _ => (s, func d)
    | Individual, false, _ => (s, func d)
    | Readonly, _, false => (s, func d)
    | _, _, _ =>
        let s := {| there := true; arrays := arrays s |} in
        let s := match m, arrays s d with Overwrite, Some _ => set_array s d None | _, _ => s end in
        match m, arrays s d with
        | Readonly, None => (s, func d)
        | _, _ =>
            let s := match arrays s d with None => set_array s d (Some (repeat C0 size_)) | Some _ => s end in
            let ac := match arrays s d with Some a => a | None => [] end in
            if C_eq_dec (csum_list ac) C0 then
              match m, func d with
              | Readonly, inl _ => (s, inr OSError)
              | _, inr e => (s, inr e)
              | _, inl v => (set_array s d (Some v), inl v)
              end
            else (s, inl ac)
        end
    end.

  (** Each array is the calculated one, or only initialised (the calculation failed). *)
  Definition good_csm (s : csm_file) : Prop := forall d a, arrays s d = Some a -> func d = inl a \/ a = repeat C0 size_.
  (** A user's assignment to the returned array, an array of the file: csm[:] = v *)
  Definition assign (d : nat) (v : list C) (s : csm_file) : csm_file := set_array s d (Some v).

  Lemma csum_zeros k : csum_list (repeat C0 k) = C0.
  Proof. induction k as [|k IH]; [reflexivity|]. cbn [repeat csum_list fold_right]. fold (csum_list (repeat C0 k)). rewrite IH. unfold Cadd, C0. cbn. f_equal; lra. Qed.

  Lemma get_csm_good m c d s : good_csm s ->
    good_csm (fst (get_csm m c d s))
    /\ (m <> Readonly -> snd (get_csm m c d s) = func d)
    /\ (m = Readonly -> fst (get_csm m c d s) = s \/ there s = true /\ arrays (fst (get_csm m c d s)) = arrays s)
    /\ (m = Readonly -> (forall a, arrays s d = Some a -> csum_list a <> C0) -> snd (get_csm m c d s) = func d).
  Proof.
    intros G.
    assert (GS : forall s0 v, good_csm s0 -> (forall a, v = Some a -> func d = inl a \/ a = repeat C0 size_) -> good_csm (set_array s0 d v)).
    { intros s0 v H Hv d' a. cbn [set_array arrays]. destruct (Nat.eqb_spec d' d) as [->|]; [apply Hv|apply H]. }
    set (s1 := {| there := true; arrays := arrays s |}). assert (G1 : good_csm s1) by exact G.
    assert (Tail : forall s0, good_csm s0 ->
      let r := (let s := match arrays s0 d with None => set_array s0 d (Some (repeat C0 size_)) | Some _ => s0 end in
            let ac := match arrays s d with Some a => a | None => [] end in
            if C_eq_dec (csum_list ac) C0 then
              match func d with
              | inr e => (s, inr e)
              | inl v => (set_array s d (Some v), inl v)
              end
            else (s, inl ac)) in good_csm (fst r) /\ snd r = func d).
    { intros s0 H0. cbv zeta. set (s2 := match arrays s0 d with None => _ | Some _ => s0 end).
      assert (G2 : good_csm s2) by (unfold s2; destruct (arrays s0 d); [exact H0|]; apply GS; [exact H0|]; intros a E; injection E as <-; right; reflexivity).
      assert (E2 : exists a, arrays s2 d = Some a).
      { unfold s2. destruct (arrays s0 d) as [a|] eqn:E; [exists a; exact E|]. cbn. rewrite Nat.eqb_refl. eexists; reflexivity. }
      destruct E2 as [a E2]. rewrite E2. destruct (C_eq_dec (csum_list a) C0) as [Z|Z].
      - destruct (func d) as [v|e] eqn:Ef; cbn [fst snd]; (split; [|reflexivity]); [|exact G2]. apply GS; [exact G2|]. intros a' E. injection E as <-. left. reflexivity.
      - cbn [fst snd]. split; [exact G2|]. destruct (G2 _ _ E2) as [E|E]; [symmetry; exact E|]. rewrite E, csum_zeros in Z. congruence. }
    assert (NR : m <> Readonly -> good_csm (fst (get_csm m c d s)) /\ snd (get_csm m c d s) = func d).
    { intros Hm. unfold get_csm. cbv zeta. fold s1.
      assert (Over : good_csm (match arrays s1 d with Some _ => set_array s1 d None | None => s1 end)).
      { destruct (arrays s1 d); [|exact G1]. apply GS; [exact G1|discriminate]. }
      destruct m; try (exfalso; congruence); destruct c, (there s); try (split; [exact G|reflexivity]);
        try exact (Tail s1 G1); exact (Tail _ Over). }
    destruct (match m with Readonly => true | _ => false end) eqn:Em.
    - destruct m; try discriminate. unfold get_csm. cbv zeta. fold s1.
      assert (T : there s = true -> good_csm (fst (match arrays s1 d with None => (s1, func d) | Some a => if C_eq_dec (csum_list a) C0 then match func d with inl _ => (s1, inr OSError) | inr e => (s1, inr e) end else (s1, inl a) end))
         /\ arrays (fst (match arrays s1 d with None => (s1, func d) | Some a => if C_eq_dec (csum_list a) C0 then match func d with inl _ => (s1, inr OSError) | inr e => (s1, inr e) end else (s1, inl a) end)) = arrays s
         /\ ((forall a, arrays s d = Some a -> csum_list a <> C0) -> snd (match arrays s1 d with None => (s1, func d) | Some a => if C_eq_dec (csum_list a) C0 then match func d with inl _ => (s1, inr OSError) | inr e => (s1, inr e) end else (s1, inl a) end) = func d)).
      { intros _. change (arrays s1 d) with (arrays s d). destruct (arrays s d) as [a|] eqn:Ea; [|cbn [fst snd]; split; [exact G1|split; reflexivity]].
        destruct (C_eq_dec (csum_list a) C0) as [Z|Z].
        - destruct (func d); cbn [fst snd]; (split; [exact G1|split; [reflexivity|]]); intros X; exfalso; exact (X a eq_refl Z).
        - cbn [fst snd]. split; [exact G1|split; [reflexivity|]]. intros _. destruct (G _ _ Ea) as [E|E]; [symmetry; exact E|].
          rewrite E, csum_zeros in Z. congruence. }
      destruct (there s) eqn:Et.
      + specialize (T eq_refl). destruct T as (T1 & T2 & T3).
        replace (match arrays s1 d with
          | Some _ => _ | None => (s1, func d) end) with
          (match arrays s1 d with None => (s1, func d) | Some a => if C_eq_dec (csum_list a) C0 then match func d with inl _ => (s1, inr OSError) | inr e => (s1, inr e) end else (s1, inl a) end).
        2: { destruct (arrays s1 d) as [a|] eqn:Ea; [|reflexivity]. rewrite ?Ea. reflexivity. }
        split; [destruct c; exact T1|]. split; [congruence|]. split; [intros _; right; destruct c; auto|]. intros _ X. destruct c; auto.
      + split; [destruct c; exact G|]. split; [congruence|]. split; [intros _; left; destruct c; reflexivity|]. intros _ _. destruct c; reflexivity.
    - assert (Hm : m <> Readonly) by (destruct m; congruence). destruct (NR Hm) as [A B]. split; [exact A|]. split; [intros _; exact B|]. split; intros E; congruence.
  Qed.
End Csm.
