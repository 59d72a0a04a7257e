(** Mixer (/repo/acoular/tprocess.py:1267-1344) and
    SourceMixer (/repo/acoular/sources.py:2114-2328). *)
From Coq Require Import List Arith Lia ZArith QArith Bool.
Require Import ZifyBool ZifyNat ZifyN.
From Verif Require Import Stream Sources.
Import ListNotations.
Local Open Scope nat_scope.
Ltac Zify.zify_post_hook ::= Z.div_mod_to_equations.

(* ------------------------------------------------------------------ *)
(** * Specification *)

(** Sample-wise combination of two streams over their common length. *)
Fixpoint zip_with {A} (f : A -> A -> A) (a b : list A) : list A :=
  match a, b with
  | x :: a', y :: b' => f x y :: zip_with f a' b'
  | _, _ => []
  end.

(** Sum of the streams [s :: ss] over the common length; [radd] adds rows. *)
Definition sum_streams {Row} (radd : Row -> Row -> Row) (s : list Row) (ss : list (list Row)) :=
  fold_left (zip_with radd) ss s.

(* ------------------------------------------------------------------ *)
(** * Models *)

(** A source together with the attributes the mixers look at. *)
Record gsource (Row : Type) := mkG
  { g_freq : Q; g_nch : nat; g_nsamples : nat; g_src : source Row }.
Arguments mkG {Row} _ _ _ _.
Arguments g_freq {Row} _.
Arguments g_nch {Row} _.
Arguments g_nsamples {Row} _.
Arguments g_src {Row} _.

(** Result of the inner loop over the generators for one block. *)
Inductive step_res (Row : Type) :=
| SStop                                   (* return *)
| SRaise (e : exn)
| SOk (temp : list Row) (gens : list (trace Row)).
Arguments SStop {Row}.
Arguments SRaise {Row} _.
Arguments SOk {Row} _ _.

Section Mixer.
  Context {Row : Type} (radd : Row -> Row -> Row).

  (** [for g in gens: temp1 = next(g) ...], tprocess.py:1332-1340. [gens] holds
      the remaining part of every generator. *)
  Fixpoint mixer_step (temp : list Row) (gens : list (trace Row)) : step_res Row :=
    match gens with
    | [] => SOk temp []
    | g :: gs =>
        match blocks g with
        | [] => match fin g with Finished => SStop | Raised e => SRaise e end
        | temp1 :: rest =>
            let temp := if length temp1 <? length temp then firstn (length temp1) temp else temp in
            (* temp += temp1[:temp.shape[0]], equal numbers of rows *)
            let temp := zip_with radd temp (firstn (length temp) temp1) in
            match mixer_step temp gs with
            | SOk t gs' => SOk t (mkTrace rest (fin g) :: gs')
            | r => r
            end
        end
    end.

  (** the outer loop, tprocess.py:1330-1344 *)
  Fixpoint mixer_loop (bs : list (list Row)) (e : ending) (gens : list (trace Row)) : trace Row :=
    match bs with
    | [] => mkTrace [] e
    | temp :: bs' =>
        match mixer_step temp gens with
        | SStop => done []
        | SRaise x => raise x
        | SOk t gens' =>
            if length t <? length temp then done [t]
            else let r := mixer_loop bs' e gens' in mkTrace (t :: blocks r) (fin r)
        end
    end.

  (** Mixer.validate_sources, tprocess.py:1300-1309. *)
  Definition mixer_valid (s0 : gsource Row) (ss : list (gsource Row)) : bool :=
    forallb (fun s => Qeq_bool (g_freq s0) (g_freq s) && (g_nch s0 =? g_nch s)) ss.

  (** Mixer.result, tprocess.py:1311-1344 (value model: what the in-place
      additions do to the source's own array is treated in Alias.v). *)
  Definition mixer_result (s0 : gsource Row) (ss : list (gsource Row)) (num : nat) : trace Row :=
    if mixer_valid s0 ss then
      mixer_loop (blocks (g_src s0 num)) (fin (g_src s0 num)) (map (fun s => g_src s num) ss)
    else raise ValueError.
End Mixer.

Section SourceMixer.
  Context {V : Type} (add mul : V -> V -> V) (one : V).

  Definition scale_block (w : V) (b : list (list V)) : list (list V) :=
    map (map (fun x => mul x w)) b.

  (** inner loop, sources.py:2320-2325; StopIteration inside a generator
      becomes RuntimeError (PEP 479). *)
  Fixpoint smix_step (temp : list (list V)) (gens : list (V * trace (list V)))
      : step_res (list V) :=
    match gens with
    | [] => SOk temp []
    | (w, g) :: gs =>
        match blocks g with
        | [] => match fin g with Finished => SRaise RuntimeError | Raised e => SRaise e end
        | b1 :: rest =>
            let temp1 := scale_block w b1 in
            let temp := if length temp1 <? length temp then firstn (length temp1) temp else temp in
            let temp := zip_with (rowmul add) temp (firstn (length temp) temp1) in
            match smix_step temp gs with
            | SOk t gs' => SOk t (mkTrace rest (fin g) :: gs')
            | r => r
            end
        end
    end.

  (** outer loop, sources.py:2317-2328 *)
  Fixpoint smix_loop (w0 : V) (ws : list V) (bs : list (list (list V))) (e : ending)
      (gens : list (trace (list V))) : trace (list V) :=
    match bs with
    | [] => mkTrace [] e
    | b0 :: bs' =>
        let temp := scale_block w0 b0 in
        match smix_step temp (combine ws gens) with
        | SStop => done []
        | SRaise x => raise x
        | SOk t gens' =>
            if length t <? length temp then done [t]
            else let r := smix_loop w0 ws bs' e gens' in mkTrace (t :: blocks r) (fin r)
        end
    end.

  (** SourceMixer.validate_sources, sources.py:2256-2282. *)
  Definition smix_valid (s0 : gsource (list V)) (ss : list (gsource (list V))) : bool :=
    forallb (fun s => Qeq_bool (g_freq s0) (g_freq s) && (g_nch s0 =? g_nch s)
                      && (g_nsamples s0 =? g_nsamples s)) ss.

  (** SourceMixer.result, sources.py:2284-2328. *)
  Definition source_mixer_result (sources : list (gsource (list V))) (weights : list V) (num : nat)
      : trace (list V) :=
    match sources with
    | [] => raise ValueError
    | s0 :: ss =>
        if smix_valid s0 ss then
          let weights := match weights with
                         | [] => repeat one (length sources)
                         | _ => weights
                         end in
          if length weights =? length sources then
            match weights with
            | [] => raise AssertionError
            | w0 :: ws =>
                smix_loop w0 ws (blocks (g_src s0 num)) (fin (g_src s0 num))
                  (map (fun s => g_src s num) ss)
            end
          else raise AssertionError
        else raise ValueError
    end.
End SourceMixer.

(* ------------------------------------------------------------------ *)
(** * Proofs *)

Lemma zip_with_length {A} (f : A -> A -> A) a b :
  length (zip_with f a b) = Nat.min (length a) (length b).
Proof. revert b. induction a; intros [|y b]; simpl; auto. Qed.

Lemma zip_with_firstn {A} (f : A -> A -> A) n a b :
  zip_with f (firstn n a) (firstn n b) = firstn n (zip_with f a b).
Proof.
  revert a b. induction n as [|n IH]; intros [|x a] [|y b]; simpl; auto.
  now rewrite IH.
Qed.

Lemma zip_with_skipn {A} (f : A -> A -> A) n a b :
  zip_with f (skipn n a) (skipn n b) = skipn n (zip_with f a b).
Proof.
  revert a b. induction n as [|n IH]; intros [|x a] [|y b]; simpl; auto.
  - destruct (skipn n a); auto.
Qed.

Lemma zip_with_trunc_l {A} (f : A -> A -> A) a b :
  zip_with f (firstn (length b) a) b = zip_with f a b.
Proof. revert b. induction a; intros [|y b]; simpl; auto. now rewrite IHa. Qed.

Lemma zip_with_trunc_r {A} (f : A -> A -> A) a b :
  zip_with f a (firstn (length a) b) = zip_with f a b.
Proof. revert b. induction a; intros [|y b]; simpl; auto. now rewrite IHa. Qed.

Lemma sum_streams_firstn {Row} (radd : Row -> Row -> Row) n ss s :
  sum_streams radd (firstn n s) (map (firstn n) ss) = firstn n (sum_streams radd s ss).
Proof.
  unfold sum_streams. revert s. induction ss as [|s1 ss IH]; intros s; simpl; auto.
  rewrite zip_with_firstn. apply IH.
Qed.

Lemma sum_streams_skipn {Row} (radd : Row -> Row -> Row) n ss s :
  sum_streams radd (skipn n s) (map (skipn n) ss) = skipn n (sum_streams radd s ss).
Proof.
  unfold sum_streams. revert s. induction ss as [|s1 ss IH]; intros s; simpl; auto.
  rewrite zip_with_skipn. apply IH.
Qed.

Lemma sum_streams_nil {Row} (radd : Row -> Row -> Row) ss :
  sum_streams radd [] ss = [].
Proof. unfold sum_streams. induction ss; simpl; auto. Qed.

Lemma sum_streams_in_nil {Row} (radd : Row -> Row -> Row) ss s :
  In [] ss -> sum_streams radd s ss = [].
Proof.
  unfold sum_streams. revert s. induction ss as [|s1 ss IH]; intros s H; [destruct H|].
  destruct H as [->|H]; simpl.
  - destruct s; apply sum_streams_nil.
  - now apply IH.
Qed.

Lemma sum_streams_length {Row} (radd : Row -> Row -> Row) ss s :
  length (sum_streams radd s ss) <= length s.
Proof.
  unfold sum_streams. revert s. induction ss as [|s1 ss IH]; intros s; simpl; auto.
  etransitivity; [apply IH|]. rewrite zip_with_length. lia.
Qed.

(** One step of the inner loop. *)
Lemma zip_step {A} (f : A -> A -> A) (temp temp1 : list A) :
  (let temp := if length temp1 <? length temp then firstn (length temp1) temp else temp in
   zip_with f temp (firstn (length temp) temp1)) = zip_with f temp temp1.
Proof.
  cbv zeta. destruct (Nat.ltb_spec (length temp1) (length temp)).
  - rewrite zip_with_trunc_r, zip_with_trunc_l. reflexivity.
  - apply zip_with_trunc_r.
Qed.

Section MixerProof.
  Context {Row : Type} (radd : Row -> Row -> Row).

  Lemma mixer_step_ok num temp ss :
    0 < num -> (forall s, In s ss -> s <> []) ->
    mixer_step radd temp (map (fun s => done (chunks num s)) ss)
    = SOk (sum_streams radd temp (map (firstn num) ss))
          (map (fun s => done (chunks num (skipn num s))) ss).
  Proof.
    intros Hn. revert temp. induction ss as [|s ss IH]; intros temp Hne; simpl; auto.
    rewrite (chunks_step num s) by (auto; apply Hne; now left).
    cbn [blocks done]. rewrite zip_step.
    rewrite IH by (intros; apply Hne; now right). reflexivity.
  Qed.

  Lemma mixer_step_stop num temp ss :
    0 < num -> In [] ss ->
    mixer_step radd temp (map (fun s => done (chunks num s)) ss) = SStop.
  Proof.
    intros Hn. revert temp. induction ss as [|s ss IH]; intros temp Hin; [destruct Hin|].
    simpl. destruct s as [|x s]; [reflexivity|]. destruct Hin as [Hin|Hin]; [discriminate|].
    rewrite (chunks_step num (x :: s)) by (auto; discriminate).
    rewrite IH; auto.
  Qed.

  Lemma mixer_loop_ok num : 0 < num -> forall s ss,
    mixer_loop radd (chunks num s) Finished (map (fun s => done (chunks num s)) ss)
    = done (chunks num (sum_streams radd s ss)).
  Proof.
    intros Hn s. remember (length s) as k eqn:Hk. revert s Hk.
    induction k as [k IH] using lt_wf_ind. intros s Hk ss.
    destruct s as [|x s0].
    { rewrite sum_streams_nil. reflexivity. }
    set (s := x :: s0) in *.
    rewrite (chunks_step num s) by (auto; discriminate). simpl.
    destruct (in_dec (list_eq_dec (fun a b : unit => left (match a, b with tt, tt => eq_refl end)))
                [] (map (map (fun _ => tt)) ss)) as [Hin|Hnin].
    - assert (In [] ss) as Hin'.
      { apply in_map_iff in Hin as (s1 & E & Hs1). apply map_eq_nil in E. now subst. }
      rewrite mixer_step_stop by auto. now rewrite sum_streams_in_nil.
    - assert (forall s1, In s1 ss -> s1 <> []) as Hne.
      { intros s1 H1 ->. apply Hnin. apply in_map_iff. exists []. auto. }
      rewrite mixer_step_ok by auto. rewrite sum_streams_firstn.
      set (tot := sum_streams radd s ss).
      assert (length tot <= length s) as Hlt by apply sum_streams_length.
      destruct (Nat.ltb_spec (length (firstn num tot)) (length (firstn num s))) as [Hb|Hb].
      + rewrite !firstn_length in Hb. rewrite firstn_all2 by lia.
        unfold tot in *. destruct (sum_streams radd s ss) as [|y t] eqn:E.
        * exfalso. (* all streams non-empty: the sum has at least one row *)
          clear - Hne E Hn.
          assert (forall ss s, s <> [] -> (forall s1, In s1 ss -> s1 <> []) ->
                    sum_streams radd s ss <> []) as HH.
          { clear. unfold sum_streams. induction ss as [|s1 ss IH]; intros s Hs H; simpl; auto.
            apply IH; [|intros; apply H; now right].
            destruct s; [congruence|]. destruct s1; [|discriminate].
            exfalso. apply (H []); auto. now left. }
          apply (HH ss s); auto. discriminate.
        * rewrite chunks_short; auto. simpl in *. lia.
      + replace (map (fun s1 => done (chunks num (skipn num s1))) ss)
          with (map (fun s1 => done (chunks num s1)) (map (skipn num) ss))
          by (rewrite map_map; reflexivity).
        rewrite (IH (length (skipn num s))) with (ss := map (skipn num) ss); auto.
        2:{ rewrite skipn_length. subst k s. cbn [length]. lia. }
        rewrite sum_streams_skipn. fold tot.
        assert (tot <> []) as Hnt.
        { intros E. rewrite E in Hb. rewrite firstn_nil in Hb.
          rewrite firstn_length in Hb. subst s. cbn [length] in Hb. lia. }
        rewrite (chunks_step num tot) by auto. reflexivity.
  Qed.

  Theorem mixer_delivers (s0 : gsource Row) (ss : list (gsource Row)) st sts :
    wf_source (g_src s0) st ->
    Forall2 (fun g s => wf_source (g_src g) s) ss sts ->
    Forall (fun g => (g_freq g == g_freq s0)%Q /\ g_nch g = g_nch s0) ss ->
    wf_source (mixer_result radd s0 ss) (sum_streams radd st sts).
  Proof.
    intros H0 Hss Hv num Hn. apply delivers_iff; auto. unfold mixer_result.
    replace (mixer_valid s0 ss) with true.
    2:{ symmetry. unfold mixer_valid. apply forallb_forall. intros g Hg.
        rewrite Forall_forall in Hv. destruct (Hv g Hg) as [E ->].
        rewrite (proj2 (Qeq_bool_iff _ _) (Qeq_sym _ _ E)), Nat.eqb_refl. reflexivity. }
    rewrite (wf_source_eq (g_src s0) st) by auto. cbn [blocks fin done].
    replace (map (fun s => g_src s num) ss) with (map (fun s => done (chunks num s)) sts).
    - now apply mixer_loop_ok.
    - clear Hv. induction Hss as [|g s ss sts Hg Hss IH]; simpl; auto.
      rewrite IH. f_equal. symmetry. now apply wf_source_eq.
  Qed.

  Theorem mixer_mismatch (s0 : gsource Row) (ss : list (gsource Row)) g num :
    In g ss -> ~ (g_freq g == g_freq s0)%Q \/ g_nch g <> g_nch s0 ->
    mixer_result radd s0 ss num = raise ValueError.
  Proof.
    intros Hin Hne. unfold mixer_result.
    replace (mixer_valid s0 ss) with false; auto.
    symmetry. apply not_true_is_false. intros H. unfold mixer_valid in H.
    rewrite forallb_forall in H. specialize (H g Hin).
    apply andb_prop in H. destruct H as [H1 H2]. apply Qeq_bool_iff in H1. apply Nat.eqb_eq in H2.
    destruct Hne as [Hne|Hne]; [apply Hne; now symmetry|congruence].
  Qed.
End MixerProof.

Section SourceMixerProof.
  Context {V : Type} (add mul : V -> V -> V) (one : V).

  (** the stream [s] with every value multiplied by [w] *)
  Definition weighted (w : V) (s : list (list V)) : list (list V) :=
    map (map (fun x => mul x w)) s.

  (** [w0*s0 + w1*s1 + ...] *)
  Definition weighted_sum (w0 : V) (ws : list V) (s0 : list (list V)) (ss : list (list (list V))) :=
    sum_streams (rowmul add) (weighted w0 s0) (map (fun p => weighted (fst p) (snd p)) (combine ws ss)).

  Lemma smix_step_ok num temp ws ss :
    0 < num -> length ws = length ss -> (forall s, In s ss -> s <> []) ->
    smix_step add mul temp (combine ws (map (fun s => done (chunks num s)) ss))
    = SOk (sum_streams (rowmul add) temp
             (map (fun p => weighted (fst p) (firstn num (snd p))) (combine ws ss)))
          (map (fun s => done (chunks num (skipn num s))) ss).
  Proof.
    intros Hn. revert temp ws. induction ss as [|s ss IH]; intros temp ws Hl Hne.
    - destruct ws; [reflexivity|discriminate].
    - destruct ws as [|w ws]; [discriminate|]. simpl.
      rewrite (chunks_step num s) by (auto; apply Hne; now left).
      cbn [blocks done]. rewrite zip_step.
      rewrite IH; [reflexivity| |].
      + simpl in Hl. lia.
      + intros; apply Hne; now right.
  Qed.

  Lemma smix_loop_ok num : 0 < num -> forall w0 ws s ss,
    length ws = length ss -> (forall s1, In s1 ss -> length s1 = length s) ->
    smix_loop add mul w0 ws (chunks num s) Finished (map (fun s => done (chunks num s)) ss)
    = done (chunks num (weighted_sum w0 ws s ss)).
  Proof.
    intros Hn w0 ws s. remember (length s) as k eqn:Hk. revert s Hk.
    induction k as [k IH] using lt_wf_ind. intros s Hk ss Hl Hlen.
    assert (forall n ss s, length s = n -> (forall s1, In s1 ss -> length s1 = n) ->
       length (sum_streams (rowmul add) s ss) = n) as HL.
    { clear. unfold sum_streams. intros n. induction ss as [|s1 ss IH]; intros s Hs H; simpl; auto.
      apply IH; [|intros; apply H; now right].
      rewrite zip_with_length, Hs, H by now left. lia. }
    assert (length (weighted_sum w0 ws s ss) = k) as Htl.
    { unfold weighted_sum. apply HL.
      - unfold weighted. now rewrite map_length.
      - intros s1 H1. apply in_map_iff in H1 as ([w t] & <- & Hin).
        apply in_combine_r in Hin. unfold weighted. rewrite map_length. simpl. auto. }
    destruct s as [|x s0].
    { simpl in *. replace (weighted_sum w0 ws [] ss) with (@nil (list V)); auto.
      symmetry. apply length_zero_iff_nil. congruence. }
    set (s := x :: s0) in *.
    rewrite (chunks_step num s) by (auto; discriminate). simpl.
    assert (forall s1, In s1 ss -> s1 <> []) as Hne.
    { intros s1 H1 ->. specialize (Hlen [] H1). subst k. discriminate. }
    rewrite smix_step_ok by auto.
    set (tot := weighted_sum w0 ws s ss) in *.
    assert (sum_streams (rowmul add) (scale_block mul w0 (firstn num s))
              (map (fun p => weighted (fst p) (firstn num (snd p))) (combine ws ss))
            = firstn num tot) as ->.
    { unfold tot, weighted_sum. rewrite <- sum_streams_firstn. f_equal.
      - unfold weighted, scale_block. now rewrite firstn_map.
      - rewrite map_map. apply map_ext. intros [w t]. simpl. unfold weighted.
        now rewrite firstn_map. }
    destruct (Nat.ltb_spec (length (firstn num tot)) (length (scale_block mul w0 (firstn num s)))) as [Hb|Hb].
    { exfalso. unfold scale_block in Hb. rewrite map_length, !firstn_length in Hb. lia. }
    replace (map (fun s1 => done (chunks num (skipn num s1))) ss)
      with (map (fun s1 => done (chunks num s1)) (map (skipn num) ss))
      by (rewrite map_map; reflexivity).
    rewrite (IH (length (skipn num s))) with (ss := map (skipn num) ss); auto.
    2:{ rewrite skipn_length. subst k s. cbn [length]. lia. }
    2:{ now rewrite map_length. }
    2:{ intros s1 H1. apply in_map_iff in H1 as (t & <- & Ht). rewrite !skipn_length.
        rewrite (Hlen t Ht). lia. }
    assert (weighted_sum w0 ws (skipn num s) (map (skipn num) ss) = skipn num tot) as ->.
    { unfold tot, weighted_sum. rewrite <- sum_streams_skipn. f_equal.
      - unfold weighted. now rewrite skipn_map.
      - rewrite map_map. clear. revert ss. induction ws as [|w ws IH]; intros [|t ss]; simpl; auto.
        f_equal; auto. unfold weighted. now rewrite skipn_map. }
    assert (tot <> []) as Hnt.
    { intros E. rewrite E in Htl. subst k. discriminate. }
    rewrite (chunks_step num tot) by auto. reflexivity.
  Qed.

  Theorem source_mixer_delivers (g0 : gsource (list V)) gs st sts weights w0 ws :
    wf_source (g_src g0) st -> g_nsamples g0 = length st ->
    Forall2 (fun g s => wf_source (g_src g) s /\ g_nsamples g = length s) gs sts ->
    Forall (fun g => (g_freq g == g_freq g0)%Q /\ g_nch g = g_nch g0 /\ g_nsamples g = g_nsamples g0) gs ->
    (* the weights: as given, or all one when none are given *)
    match weights with [] => repeat one (S (length gs)) | _ => weights end = w0 :: ws ->
    length ws = length gs ->
    wf_source (source_mixer_result add mul one (g0 :: gs) weights) (weighted_sum w0 ws st sts).
  Proof.
    intros H0 Hn0 Hss Hv Hw Hlw num Hn. apply delivers_iff; auto. unfold source_mixer_result.
    replace (smix_valid g0 gs) with true.
    2:{ symmetry. unfold smix_valid. apply forallb_forall. intros g Hg.
        rewrite Forall_forall in Hv. destruct (Hv g Hg) as (E & -> & ->).
        rewrite (proj2 (Qeq_bool_iff _ _) (Qeq_sym _ _ E)), !Nat.eqb_refl. reflexivity. }
    change (length (g0 :: gs)) with (S (length gs)). rewrite Hw.
    cbn [length]. rewrite Hlw, Nat.eqb_refl.
    rewrite (wf_source_eq (g_src g0) st) by auto. cbn [blocks fin done].
    replace (map (fun s => g_src s num) gs) with (map (fun s => done (chunks num s)) sts).
    - apply smix_loop_ok; auto.
      + rewrite Hlw. clear - Hss. induction Hss; simpl; auto.
      + clear - Hss Hv Hn0. induction Hss as [|g s gs sts [Hg Hgn] Hss IH]; intros s1 H1.
        * destruct H1.
        * inversion Hv as [|? ? Hgv Hv']; subst. destruct H1 as [->|H1]; auto.
          destruct Hgv as (_ & _ & E). congruence.
    - clear - Hss Hn. induction Hss as [|g s ss sts [Hg Hgn] Hss IH]; simpl; auto.
      rewrite IH. f_equal. symmetry. now apply wf_source_eq.
  Qed.

  Theorem source_mixer_mismatch (g0 : gsource (list V)) gs g weights num :
    In g gs ->
    ~ (g_freq g == g_freq g0)%Q \/ g_nch g <> g_nch g0 \/ g_nsamples g <> g_nsamples g0 ->
    source_mixer_result add mul one (g0 :: gs) weights num = raise ValueError.
  Proof.
    intros Hin Hne. unfold source_mixer_result.
    replace (smix_valid g0 gs) with false; auto.
    symmetry. apply not_true_is_false. intros H. unfold smix_valid in H.
    rewrite forallb_forall in H. specialize (H g Hin).
    apply andb_prop in H. destruct H as [H H3]. apply andb_prop in H. destruct H as [H1 H2].
    apply Qeq_bool_iff in H1. apply Nat.eqb_eq in H2. apply Nat.eqb_eq in H3.
    destruct Hne as [Hne|[Hne|Hne]]; [apply Hne; now symmetry|congruence|congruence].
  Qed.
End SourceMixerProof.

Lemma mixer_spec {Row} (radd : Row -> Row -> Row) (s0 : gsource Row) ss st sts :
  wf_source (g_src s0) st ->
  Forall2 (fun g s => wf_source (g_src g) s) ss sts ->
  (Forall (fun g => (g_freq g == g_freq s0)%Q /\ g_nch g = g_nch s0) ss ->
     wf_source (mixer_result radd s0 ss) (sum_streams radd st sts))
  /\ (Exists (fun g => ~ (g_freq g == g_freq s0)%Q \/ g_nch g <> g_nch s0) ss ->
     forall num, mixer_result radd s0 ss num = raise ValueError).
Proof.
  intros H0 Hss. split.
  - intros Hv. now apply mixer_delivers.
  - intros Hx num. apply Exists_exists in Hx. destruct Hx as (g & Hin & Hg).
    now apply (mixer_mismatch radd s0 ss g num).
Qed.

Lemma source_mixer_spec {V} (add mul : V -> V -> V) (one : V)
    (g0 : gsource (list V)) gs st sts weights :
  wf_source (g_src g0) st -> g_nsamples g0 = length st ->
  Forall2 (fun g s => wf_source (g_src g) s /\ g_nsamples g = length s) gs sts ->
  (Forall (fun g => (g_freq g == g_freq g0)%Q /\ g_nch g = g_nch g0 /\ g_nsamples g = g_nsamples g0) gs ->
     (length weights = S (length gs) -> forall w0 ws, weights = w0 :: ws ->
        wf_source (source_mixer_result add mul one (g0 :: gs) weights)
          (weighted_sum add mul w0 ws st sts))
     /\ wf_source (source_mixer_result add mul one (g0 :: gs) [])
          (weighted_sum add mul one (repeat one (length gs)) st sts)
     /\ (weights <> [] -> length weights <> S (length gs) -> forall num,
          source_mixer_result add mul one (g0 :: gs) weights num = raise AssertionError))
  /\ (Exists (fun g => ~ (g_freq g == g_freq g0)%Q \/ g_nch g <> g_nch g0
                       \/ g_nsamples g <> g_nsamples g0) gs ->
     forall num, source_mixer_result add mul one (g0 :: gs) weights num = raise ValueError).
Proof.
  intros H0 Hn0 Hss. split.
  - intros Hv. split; [|split].
    + intros Hl w0 ws ->. apply source_mixer_delivers; auto.
    + apply source_mixer_delivers; auto. apply repeat_length.
    + intros Hne Hl num. unfold source_mixer_result.
      replace (smix_valid g0 gs) with true.
      2:{ symmetry. unfold smix_valid. apply forallb_forall. intros g Hg.
          rewrite Forall_forall in Hv. destruct (Hv g Hg) as (E & -> & ->).
          rewrite (proj2 (Qeq_bool_iff _ _) (Qeq_sym _ _ E)), !Nat.eqb_refl. reflexivity. }
      destruct weights as [|w ws]; [congruence|].
      change (length (g0 :: gs)) with (S (length gs)).
      now rewrite (proj2 (Nat.eqb_neq _ _) Hl).
  - intros Hx num. apply Exists_exists in Hx. destruct Hx as (g & Hin & Hg).
    now apply (source_mixer_mismatch add mul one g0 gs g weights num).
Qed.
