(** Arrays shared between a generator and its consumer: in-place operations on
    blocks that are views of the user's array, and blocks that are views of a
    buffer the generator goes on using. *)
From Coq Require Import List Arith Lia ZArith Bool.
Require Import ZifyBool ZifyNat ZifyN.
From Verif Require Import Stream BlockOps.
Import ListNotations.
Ltac Zify.zify_post_hook ::= Z.div_mod_to_equations.

(** * In-place mixing *)
Section Mix.
Context {A : Type} (add : A -> A -> A).

(** The arrays in memory. *)
Definition heap := nat -> list A.

(** What a block of a source is: a view of an array in memory
    (TimeSamples without calibration on an in-memory array,
    sources.py:518-521), or a new array (with calibration, sources.py:515-517;
    data in a file; calculated signals). *)
Inductive gsrc := InMem (a : nat) | Calc (s : list A).

Definition content (h : heap) (g : gsrc) : list A :=
  match g with InMem a => h a | Calc s => s end.
Definition block (h : heap) (g : gsrc) (num k : nat) : list A :=
  slice (k * num) (k * num + num) (content h g).

(** Writing [v] in the array of the source, from row [k*num] on; nothing for a
    new array. *)
Definition overlay (off : nat) (v l : list A) : list A :=
  firstn off l ++ v ++ skipn (off + length v) l.
Definition store (g : gsrc) (off : nat) (v : list A) (h : heap) : heap :=
  match g with
  | InMem a => fun b => if b =? a then overlay off v (h b) else h b
  | Calc _ => h
  end.

Fixpoint map2 (x y : list A) : list A :=
  match x, y with
  | a :: x', b :: y' => add a b :: map2 x' y'
  | _, _ => []
  end.

(** The inner loop: temp1 = next(g) (times a weight), shorten temp,
    temp += temp1 (tprocess.py:1334-1341, sources.py:2320-2324).  None: a
    source has ended. *)
Fixpoint add_all (g0 : gsrc) (num k : nat) (others : list (gsrc * (A -> A))) (h : heap) (temp : list A)
  : heap * option (list A) :=
  match others with
  | [] => (h, Some temp)
  | (g, w) :: r =>
      match map w (block h g num k) with
      | [] => (h, None)
      | t1 => let temp' := map2 temp t1 in
              add_all g0 num k r (store g0 (k * num) temp' h) temp'
      end
  end.

(** Mixer.result (tprocess.py:1329-1344) with pre = identity and weights one,
    SourceMixer.result (sources.py:2311-2328) with pre = multiplication by the
    first weight. *)
Fixpoint imix (fuel : nat) (g0 : gsrc) (pre : A -> A) (others : list (gsrc * (A -> A))) (num k : nat) (h : heap)
  : heap * list (list A) :=
  match fuel with
  | 0 => (h, [])
  | S fuel =>
      if length (content h g0) <=? k * num then (h, [])
      else
        let temp := map pre (block h g0 num k) in
        let (h2, r) := add_all g0 num k others (store g0 (k * num) temp h) temp in
        match r with
        | None => (h2, [])
        | Some t =>
            if length t <? length temp then (h2, [t])
            else let (h3, bs) := imix fuel g0 pre others num (S k) h2 in (h3, t :: bs)
        end
  end.

(** A complete run of result(num). *)
Definition mix_run (g0 : gsrc) (pre : A -> A) (others : list (gsrc * (A -> A))) (num : nat) (h : heap) :=
  imix (S (length (content h g0))) g0 pre others num 0 h.

(** The mixed signal. *)
Definition mixed (h : heap) (g0 : gsrc) (pre : A -> A) (others : list (gsrc * (A -> A))) : list A :=
  fold_left (fun acc gw => map2 acc (map (snd gw) (content h (fst gw)))) others (map pre (content h g0)).

(* ------------------------------------------------------------------ *)
Lemma map2_length x y : length (map2 x y) = Nat.min (length x) (length y).
Proof. revert y. induction x as [|a x IH]; intros [|b y]; simpl; auto. Qed.
Lemma map2_firstn n x y : firstn n (map2 x y) = map2 (firstn n x) (firstn n y).
Proof. revert x y. induction n as [|n IH]; intros [|a x] [|b y]; simpl; auto. f_equal. apply IH. Qed.
Lemma map2_skipn n x y : skipn n (map2 x y) = map2 (skipn n x) (skipn n y).
Proof.
  revert x y. induction n as [|n IH]; intros [|a x] [|b y]; simpl; auto.
  destruct (skipn n x); reflexivity.
Qed.
Lemma map2_slice i j x y : slice i j (map2 x y) = map2 (slice i j x) (slice i j y).
Proof. unfold slice. rewrite map2_firstn, map2_skipn. reflexivity. Qed.
Lemma map_slice {B C} (f : B -> C) i j x : slice i j (map f x) = map f (slice i j x).
Proof. unfold slice. now rewrite firstn_map, skipn_map. Qed.

Lemma slice_len {B} i j (l : list B) : length (slice i j l) = Nat.min j (length l) - i.
Proof. unfold slice. rewrite skipn_length, firstn_length. reflexivity. Qed.

Lemma overlay_length off v l : off + length v <= length l -> length (overlay off v l) = length l.
Proof. intros H. unfold overlay. rewrite !app_length, firstn_length, skipn_length. lia. Qed.

(** Does a source read array [a]? *)
Definition reads (a : nat) (g : gsrc) : Prop := g = InMem a.

Lemma content_store a off v h g : g <> InMem a -> content (store (InMem a) off v h) g = content h g.
Proof.
  destruct g as [b|s]; simpl; auto. intros H. destruct (b =? a) eqn:E; auto.
  apply Nat.eqb_eq in E. congruence.
Qed.

Lemma overlay_overlay off v w l : length v = length w -> off <= length l ->
  overlay off w (overlay off v l) = overlay off w l.
Proof.
  intros Hl Ho. unfold overlay. rewrite firstn_app, firstn_firstn, Nat.min_id, firstn_length.
  replace (off - Nat.min off (length l)) with 0 by lia. simpl. rewrite app_nil_r. f_equal. f_equal.
  rewrite !skipn_app, !firstn_length, <- Hl.
  rewrite (skipn_all2 (firstn off l)) by (rewrite firstn_length; lia). simpl.
  replace (off + length v - Nat.min off (length l)) with (length v) by lia.
  rewrite skipn_all, Nat.sub_diag. simpl. reflexivity.
Qed.

Lemma fold_len (f : gsrc * (A -> A) -> list A) others : forall temp,
  Forall (fun gw => length (f gw) = length temp) others ->
  length (fold_left (fun acc gw => map2 acc (f gw)) others temp) = length temp.
Proof.
  induction others as [|gw others IH]; intros temp H; [reflexivity|]. simpl.
  inversion H as [|? ? H1 H2]; subst.
  assert (length (map2 temp (f gw)) = length temp) as E by (rewrite map2_length; lia).
  rewrite IH; [exact E|]. eapply Forall_impl; [|exact H2]. intros. now rewrite E.
Qed.

(** The inner loop on an array in memory, the others being independent of it
    and long enough. *)
Lemma add_all_inmem a num k others : forall h temp,
  Forall (fun gw => fst gw <> InMem a /\ length (block h (fst gw) num k) = length temp) others ->
  temp <> [] -> k * num + length temp <= length (h a) ->
  exists h', add_all (InMem a) num k others h temp
    = (h', Some (fold_left (fun acc gw => map2 acc (map (snd gw) (block h (fst gw) num k))) others temp))
  /\ (forall b, b <> a -> h' b = h b)
  /\ h' a = match others with
            | [] => h a
            | _ => overlay (k * num) (fold_left (fun acc gw => map2 acc (map (snd gw) (block h (fst gw) num k))) others temp) (h a)
            end.
Proof.
  induction others as [|[g w] others IH]; intros h temp Hf Ht Hl.
  - exists h. simpl. auto.
  - inversion Hf as [|? ? [Hg Hlen] Hf']; subst. simpl in Hg, Hlen.
    cbn [add_all fold_left fst snd].
    set (t1 := map w (block h g num k)).
    assert (length t1 = length temp) as Hl1 by (unfold t1; rewrite map_length; exact Hlen).
    assert (t1 <> []) as Ht1.
    { intros E. rewrite E in Hl1. destruct temp; [congruence|discriminate]. }
    destruct t1 as [|x t1'] eqn:Et; [congruence|]. rewrite <- Et in *. clear Et x t1' Ht1.
    set (temp' := map2 temp t1) in *.
    assert (length temp' = length temp) as Hl2 by (unfold temp'; rewrite map2_length; lia).
    set (h1 := store (InMem a) (k * num) temp' h).
    assert (h1 a = overlay (k * num) temp' (h a)) as Ha by (unfold h1; simpl; now rewrite Nat.eqb_refl).
    assert (forall b, b <> a -> h1 b = h b) as Hb.
    { intros b Hb. unfold h1. simpl. apply Nat.eqb_neq in Hb. now rewrite Hb. }
    assert (Forall (fun gw => block h1 (fst gw) num k = block h (fst gw) num k) others) as Hsame.
    { eapply Forall_impl; [|exact Hf']. intros gw [G1 _]. unfold block, h1. now rewrite content_store. }
    destruct (IH h1 temp') as (h' & E & E2 & E3).
    + apply Forall_forall. intros gw Hgw. rewrite Forall_forall in Hf', Hsame.
      destruct (Hf' gw Hgw) as [G1 G2]. rewrite (Hsame gw Hgw), Hl2. auto.
    + intros E. rewrite E in Hl2. destruct temp; [congruence|discriminate].
    + rewrite Hl2, Ha, overlay_length; lia.
    + assert (forall acc, fold_left (fun acc gw => map2 acc (map (snd gw) (block h1 (fst gw) num k))) others acc
        = fold_left (fun acc gw => map2 acc (map (snd gw) (block h (fst gw) num k))) others acc) as Hfold.
      { clear -Hsame. induction others as [|gw others IHo]; intros acc; [reflexivity|]. simpl.
        inversion Hsame; subst. rewrite H1. now apply IHo. }
      rewrite Hfold in *. exists h'. rewrite E. split; [reflexivity|]. split.
      * intros b Hb'. rewrite E2, Hb by exact Hb'. reflexivity.
      * rewrite E3. destruct others as [|gw' others'].
        -- simpl. exact Ha.
        -- rewrite Ha. apply overlay_overlay; [|lia].
           symmetry. apply (fold_len (fun gw => map (snd gw) (block h (fst gw) num k))).
           eapply Forall_impl; [|exact Hf']. intros gw [_ G]. rewrite map_length. lia.
Qed.

Lemma mixed_slice h g0 pre others i j :
  slice i j (mixed h g0 pre others)
  = fold_left (fun acc gw => map2 acc (map (snd gw) (slice i j (content h (fst gw))))) others
      (map pre (slice i j (content h g0))).
Proof.
  unfold mixed. rewrite <- map_slice. generalize (map pre (content h g0)) as acc.
  induction others as [|gw others IH]; intros acc; [reflexivity|]. simpl.
  rewrite IH, map2_slice, map_slice. reflexivity.
Qed.

Lemma mixed_length h g0 pre others :
  Forall (fun gw => length (content h (fst gw)) = length (content h g0)) others ->
  length (mixed h g0 pre others) = length (content h g0).
Proof.
  intros H. unfold mixed. rewrite (fold_len (fun gw => map (snd gw) (content h (fst gw)))).
  - apply map_length.
  - eapply Forall_impl; [|exact H]. intros gw G. now rewrite !map_length.
Qed.

(** One array in memory as first source. *)
Section OneArray.
Variables (a : nat) (pre : A -> A) (others : list (gsrc * (A -> A))) (num : nat) (h0 : heap).
Hypothesis Hnum : 0 < num.
Hypothesis Hoth : Forall (fun gw => fst gw <> InMem a /\ length (content h0 (fst gw)) = length (h0 a)) others.

Let N := length (h0 a).
Let M := mixed h0 (InMem a) pre others.

Lemma M_length : length M = N.
Proof.
  unfold M, N. apply (mixed_length h0 (InMem a) pre others).
  eapply Forall_impl; [|exact Hoth]. intros gw [_ G]. exact G.
Qed.

Lemma slice_mid {B} (x y : list B) off n : length x = off ->
  slice off (off + n) (x ++ y) = firstn n y.
Proof.
  intros H. unfold slice. rewrite skipn_firstn_comm. replace (off + n - off) with n by lia.
  rewrite skipn_app, H, Nat.sub_diag, skipn_all2 by lia. reflexivity.
Qed.

Lemma skipn_chunks k (l : list A) : k * num < length l ->
  chunks num (skipn (k * num) l) = slice (k * num) (k * num + num) l :: chunks num (skipn (S k * num) l).
Proof.
  intros H. rewrite chunks_step; [|lia|].
  - f_equal.
    + unfold slice. rewrite skipn_firstn_comm. f_equal. lia.
    + rewrite skipn_skipn'. replace (S k * num) with (k * num + num) by (simpl; lia). rewrite Nat.add_comm. reflexivity.
  - intros E. apply (f_equal (@length A)) in E. rewrite skipn_length in E. simpl in E. lia.
Qed.

Lemma imix_inv : forall fuel k h,
  N < k * num + fuel ->
  h a = firstn (k * num) M ++ skipn (k * num) (h0 a) -> (forall b, b <> a -> h b = h0 b) ->
  exists h', imix fuel (InMem a) pre others num k h = (h', chunks num (skipn (k * num) M))
    /\ h' a = M /\ (forall b, b <> a -> h' b = h0 b).
Proof.
  pose proof M_length as HM.
  induction fuel as [|fuel IH]; intros k h Hf Ha Hb.
  - exists h. simpl. rewrite skipn_all2 by lia.
    rewrite skipn_all2, app_nil_r, firstn_all2 in Ha by (fold N; lia).
    split; [reflexivity|]. auto.
  - cbn [imix]. cbn [content].
    assert (length (h a) = N) as HN.
    { rewrite Ha, app_length, firstn_length, skipn_length. fold N. lia. }
    rewrite HN. destruct (N <=? k * num) eqn:E.
    + apply Nat.leb_le in E. exists h. rewrite skipn_all2 by lia.
      rewrite skipn_all2, app_nil_r, firstn_all2 in Ha by (fold N; lia).
      split; [reflexivity|]. auto.
    + apply Nat.leb_gt in E.
      assert (block h (InMem a) num k = slice (k * num) (k * num + num) (h0 a)) as Hbl.
      { unfold block. cbn [content]. rewrite Ha, slice_mid by (rewrite firstn_length; lia).
        unfold slice. rewrite skipn_firstn_comm. f_equal. lia. }
      rewrite Hbl. set (temp := map pre (slice (k * num) (k * num + num) (h0 a))).
      assert (length temp = Nat.min num (N - k * num)) as Hlt.
      { unfold temp. rewrite map_length, slice_len. fold N. lia. }
      assert (temp <> []) as Htn by (intros Et; rewrite Et in Hlt; simpl in Hlt; lia).
      set (h1 := store (InMem a) (k * num) temp h).
      assert (h1 a = overlay (k * num) temp (h a)) as Ha1 by (unfold h1; simpl; now rewrite Nat.eqb_refl).
      assert (forall b, b <> a -> h1 b = h b) as Hb1.
      { intros b Hb'. unfold h1. simpl. apply Nat.eqb_neq in Hb'. now rewrite Hb'. }
      assert (Forall (fun gw => block h1 (fst gw) num k = slice (k * num) (k * num + num) (content h0 (fst gw))) others) as Hsame.
      { eapply Forall_impl; [|exact Hoth]. intros gw [G1 _]. unfold block, h1. rewrite content_store by exact G1.
        destruct (fst gw) as [b|s]; simpl; [|reflexivity]. rewrite Hb; [reflexivity|congruence]. }
      destruct (add_all_inmem a num k others h1 temp) as (h2 & E1 & E2 & E3).
      * apply Forall_forall. intros gw Hgw. rewrite Forall_forall in Hoth, Hsame.
        destruct (Hoth gw Hgw) as [G1 G2]. split; [exact G1|].
        rewrite (Hsame gw Hgw), slice_len, G2, Hlt. fold N. lia.
      * exact Htn.
      * rewrite Ha1, overlay_length; rewrite ?HN; lia.
      * assert (forall acc, fold_left (fun acc gw => map2 acc (map (snd gw) (block h1 (fst gw) num k))) others acc
          = fold_left (fun acc gw => map2 acc (map (snd gw) (slice (k * num) (k * num + num) (content h0 (fst gw))))) others acc) as Hfold.
        { clear -Hsame. induction others as [|gw os IHo]; intros acc; [reflexivity|]. simpl.
          inversion Hsame; subst. rewrite H1. now apply IHo. }
        rewrite Hfold in E1, E3.
        assert (fold_left (fun acc gw => map2 acc (map (snd gw) (slice (k * num) (k * num + num) (content h0 (fst gw))))) others temp
          = slice (k * num) (k * num + num) M) as Hslice.
        { unfold M. rewrite mixed_slice. reflexivity. }
        rewrite Hslice in E1, E3. rewrite E1.
        assert (length (slice (k * num) (k * num + num) M) = length temp) as Hls.
        { rewrite slice_len, Hlt, HM. lia. }
        rewrite Hls, Nat.ltb_irrefl.
        assert (h2 a = overlay (k * num) (slice (k * num) (k * num + num) M) (h a)) as Ha2.
        { rewrite E3. destruct others as [|gw' os'] eqn:Eo.
          - rewrite Ha1. f_equal. unfold temp, M, mixed. simpl. rewrite map_slice. reflexivity.
          - rewrite Ha1. apply overlay_overlay; [congruence|lia]. }
        destruct (IH (S k) h2) as (h' & F1 & F2 & F3).
        -- simpl. lia.
        -- rewrite Ha2, Ha. unfold overlay.
           rewrite firstn_app, firstn_firstn, Nat.min_id, firstn_length.
           replace (k * num - Nat.min (k * num) (length M)) with 0 by lia. simpl firstn at 2. rewrite app_nil_r.
           rewrite app_assoc. f_equal.
           ++ unfold slice. replace (S k * num) with (k * num + num) by (simpl; lia).
              rewrite <- (firstn_skipn (k * num) (firstn (k * num + num) M)) at 2.
              rewrite firstn_firstn. replace (Nat.min (k * num) (k * num + num)) with (k * num) by lia. reflexivity.
           ++ rewrite skipn_app, firstn_length, Hls, Hlt.
              rewrite (skipn_all2 (firstn (k * num) M)) by (rewrite firstn_length; lia). simpl.
              rewrite skipn_skipn'.
              destruct (Nat.le_gt_cases num (N - k * num)).
              ** f_equal. lia.
              ** rewrite !skipn_all2; [reflexivity| |]; fold N; lia.
        -- intros b Hb'. rewrite E2, Hb1, Hb by exact Hb'. reflexivity.
        -- rewrite F1. exists h'. split; [|auto]. rewrite (skipn_chunks k M) by lia. reflexivity.
Qed.

Lemma mix_run_inmem : exists h', mix_run (InMem a) pre others num h0 = (h', chunks num M)
  /\ h' a = M /\ (forall b, b <> a -> h' b = h0 b).
Proof.
  unfold mix_run. cbn [content]. apply (imix_inv (S (length (h0 a))) 0 h0).
  - fold N. simpl. lia.
  - simpl. reflexivity.
  - auto.
Qed.
End OneArray.

(** The first source delivers new arrays: nothing in memory changes. *)
Lemma add_all_calc s num k others : forall h temp, fst (add_all (Calc s) num k others h temp) = h.
Proof.
  induction others as [|[g w] others IH]; intros h temp; [reflexivity|]. cbn [add_all].
  destruct (map w (block h g num k)); [reflexivity|]. apply IH.
Qed.
Lemma imix_calc s pre others num : forall fuel k h, fst (imix fuel (Calc s) pre others num k h) = h.
Proof.
  induction fuel as [|fuel IH]; intros k h; [reflexivity|]. cbn [imix].
  destruct (_ <=? _); [reflexivity|].
  pose proof (add_all_calc s num k others (store (Calc s) (k * num) (map pre (block h (Calc s) num k)) h)
    (map pre (block h (Calc s) num k))) as H.
  destruct (add_all _ _ _ _ _ _) as [h2 r]. simpl in H. destruct r as [t|]; [|exact H].
  destruct (_ <? _); [exact H|]. specialize (IH (S k) h2). destruct (imix _ _ _ _ _ _ _). simpl in *. congruence.
Qed.
End Mix.

(** * Blocks that are views of a reused buffer *)
Section Reuse.
Context {A : Type}.

(** A generator that writes every block in the first rows of one array [out]
    and yields [out[:blocksize]]: PointSource (sources.py:912-945) and the other
    point and line sources, FilterBank (tprocess.py:1717-1722), RFFT
    (fprocess.py:155-170), IntegratorSectorTime (tbeamform.py:800-812).
    [fills]: for every yield, the contents of [out] and the block size. *)
Fixpoint fills (buf : list A) (bs : list (list A)) : list (list A * nat) :=
  match bs with
  | [] => []
  | b :: bs' => let buf' := b ++ skipn (length b) buf in (buf', length b) :: fills buf' bs'
  end.
(** What a consumer sees that uses every block before asking for the next. *)
Definition at_yield (buf : list A) (bs : list (list A)) : list (list A) :=
  map (fun '(c, n) => firstn n c) (fills buf bs).
(** What a consumer has that keeps the blocks, list(result(num)): all are
    views of the array, read after the last write. *)
Definition kept (buf : list A) (bs : list (list A)) : list (list A) :=
  let final := last (map fst (fills buf bs)) buf in
  map (fun '(_, n) => firstn n final) (fills buf bs).

Lemma at_yield_id bs : forall buf, at_yield buf bs = bs.
Proof.
  induction bs as [|b bs IH]; intros buf; [reflexivity|]. unfold at_yield in *. simpl.
  rewrite IH. rewrite firstn_app, Nat.sub_diag, firstn_all. simpl. now rewrite app_nil_r.
Qed.

Lemma final_full num bs : forall buf d, length buf = num -> Forall (fun b => length b = num) bs -> bs <> [] ->
  last (map fst (fills buf bs)) d = last bs d.
Proof.
  induction bs as [|b bs IH]; intros buf d Hb Hf Hn; [congruence|].
  inversion Hf as [|? ? H1 H2]; subst. cbn [fills map fst].
  rewrite skipn_all2, app_nil_r by lia.
  destruct bs as [|b' bs]; [reflexivity|].
  change (last (b :: map fst (fills b (b' :: bs))) d) with (last (map fst (fills b (b' :: bs))) d).
  change (last (b :: b' :: bs) d) with (last (b' :: bs) d).
  apply IH; auto. discriminate.
Qed.

(** Full blocks: every kept block is the last one. *)
Lemma kept_full num buf bs : length buf = num -> Forall (fun b => length b = num) bs ->
  kept buf bs = repeat (last bs buf) (length bs).
Proof.
  intros Hb Hf. destruct bs as [|b0 bs0] eqn:E; [reflexivity|]. rewrite <- E in *.
  unfold kept. rewrite (final_full num) by (auto; subst; discriminate).
  assert (length (last bs buf) = num) as Hl.
  { assert (In (last bs buf) bs).
    { rewrite E. clear. revert b0. induction bs0 as [|x bs0 IH]; intros b0; [left; reflexivity|].
      right. change (last (b0 :: x :: bs0) buf) with (last (x :: bs0) buf). apply IH. }
    rewrite Forall_forall in Hf. auto. }
  set (L := last bs buf) in *. clearbody L. clear E. revert buf Hb.
  induction bs as [|b bs IH]; intros buf Hb; [reflexivity|].
  inversion Hf as [|? ? H1 H2]; subst. simpl. f_equal.
  - apply firstn_all2. lia.
  - apply IH; auto. rewrite app_length, skipn_length. lia.
Qed.
End Reuse.

(** TimeReverse keeps the blocks of its source (result_list,
    tprocess.py:1427-1428), so it works on [kept]. *)
Definition reuse_source {A} (num0 : A) (s : list A) : source A :=
  fun num => done (kept (repeat num0 num) (chunks num s)).
