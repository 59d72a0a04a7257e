(** GenericSignalGenerator.signal (/repo/acoular/signals.py:629-673). *)
From Coq Require Import List Arith Lia ZArith Bool.
Require Import ZifyBool ZifyNat ZifyN.
From Verif Require Import Stream.
Import ListNotations.
Ltac Zify.zify_post_hook ::= Z.div_mod_to_equations.

(* ------------------------------------------------------------------ *)
(** * GenericSignalGenerator *)

(** How the filling loop (signals.py:649-658) ended. *)
Inductive fill_res (A : Type) :=
| FillOk (track : list A) (stop : option nat)   (** [None]: [stop] never bound *)
| FillErr (e : exn).
Arguments FillOk {A} _ _.
Arguments FillErr {A} _.

(** signals.py:651-658.  [bs] are the blocks' first columns [temp[:, 0]]. *)
Fixpoint fill_track {A} (block nums : nat) (bs : list (list A)) (e : ending)
    (i : nat) (track : list A) (stop : option nat) : fill_res A :=
  match bs with
  | [] => match e with Raised x => FillErr x | Finished => FillOk track stop end
  | temp :: bs' =>
      let start := block * i in
      let stop' := start + length temp in
      if stop' <? nums then
        match np_assign track start stop' temp with
        | None => FillErr ValueError
        | Some track' => fill_track block nums bs' e (S i) track' (Some stop')
        end
      else
        match np_assign track start nums (firstn (nums - start) temp) with
        | None => FillErr ValueError
        | Some track' => FillOk track' (Some stop')
        end
  end.

(** numpy.tile of a one-dimensional array. *)
Fixpoint tile {A} (n : nat) (s : list A) : list A :=
  match n with 0 => [] | S n' => s ++ tile n' s end.

(** signals.py:660-672, after the loop. *)
Definition loop_track {A} (nums stop : nat) (track : list A) : list A + exn :=
  let nloops := nums / stop in
  match (if 1 <? nloops then np_assign track stop (stop * nloops) (tile (nloops - 1) (firstn stop track))
         else Some track) with
  | None => inr ValueError
  | Some t1 =>
      let res := nums mod stop in
      match (if 0 <? res then np_assign t1 (stop * nloops) (length t1) (firstn res t1)
             else Some t1) with
      | None => inr ValueError
      | Some t2 => inl t2
      end
  end.

(** signals.py:629-673.  [own] is the private [_num_samples] (0 = not set),
    [src_samples] the source's num_samples; [scale] is the multiplication with
    the amplitude. *)
Definition generic_signal {A} (zero : A) (scale : A -> A) (own src_samples : nat) (loop : bool)
    (src : source (list A)) : list A + exn :=
  let nums := if own =? 0 then src_samples else own in
  let col := map (fun row => nth 0 row zero) in
  let tr := src 1024 in
  match fill_track 1024 nums (map col (blocks tr)) (fin tr) 0 (repeat zero nums) None with
  | FillErr e => inr e
  | FillOk track stop =>
      if loop then
        match stop with
        | None => inr UnboundLocalError
        | Some stop =>
            if stop <? nums then
              match loop_track nums stop track with
              | inl t => inl (map scale t)
              | inr e => inr e
              end
            else inl (map scale track)
        end
      else inl (map scale track)
  end.

(* ---- proofs ---- *)

Lemma fill_track_ok {A} (zero : A) block nums : 0 < block ->
  forall (rest pre : list A) i stop,
  length pre = block * i -> length pre < nums ->
  (i = 0 -> stop = None) -> (0 < i -> stop = Some (length pre)) ->
  let s := pre ++ rest in
  fill_track block nums (chunks block rest) Finished i (pre ++ repeat zero (nums - length pre)) stop
  = FillOk (firstn nums s ++ repeat zero (nums - length s))
      (if length s =? 0 then None
       else Some (if length s <? nums then length s
                  else Nat.min (length s) (block * ((nums - 1) / block) + block))).
Proof.
  intros Hb rest. induction rest as [rest IH] using (well_founded_induction (well_founded_ltof _ (@length A))).
  intros pre i stop Hpre Hlt H0 H1 s.
  destruct (list_eq_dec_nil rest) as [->|Hne].
  - rewrite chunks_nil. cbn [fill_track]. subst s. rewrite app_nil_r.
    rewrite (firstn_all2 pre) by lia. f_equal.
    destruct i.
    + rewrite Nat.mul_0_r in Hpre. rewrite Hpre. simpl. auto.
    + destruct (Nat.eqb_spec (length pre) 0); [nia|].
      rewrite (proj2 (Nat.ltb_lt _ _) Hlt). apply H1. lia.
  - rewrite chunks_step by auto. cbn [fill_track].
    rewrite <- Hpre.
    assert (0 < length rest) as Hl by (destruct rest; [congruence|simpl; lia]).
    assert (length s = length pre + length rest) as Hls by (unfold s; apply app_length).
    set (b := firstn block rest).
    assert (length b = Nat.min block (length rest)) as Hlb by (unfold b; apply firstn_length).
    destruct (Nat.ltb_spec (length pre + length b) nums) as [Hc|Hc].
    + rewrite np_assign_exact; [|rewrite app_length, repeat_length; lia|lia].
      rewrite firstn_app_exact by auto.
      rewrite skipn_app, (skipn_all2 pre) by lia. cbn [app].
      assert (forall n k, skipn k (repeat zero n) = repeat zero (n - k)) as Hsr.
      { clear. intros n k. revert n. induction k; intros [|n]; simpl; auto. }
      rewrite Hsr, app_assoc.
      replace (nums - length pre - (length pre + length b - length pre)) with (nums - length (pre ++ b))
        by (rewrite app_length; lia).
      destruct (le_lt_dec (length rest) block) as [Hshort|Hlong].
      * rewrite (skipn_all2 rest) by auto. rewrite chunks_nil. cbn [fill_track].
        assert (b = rest) as -> by (unfold b; apply firstn_all2; auto).
        fold s. rewrite (firstn_all2 s) by lia. f_equal.
        destruct (Nat.eqb_spec (length s) 0); [lia|].
        destruct (Nat.ltb_spec (length s) nums); [|lia]. f_equal. lia.
      * specialize (IH (skipn block rest)). rewrite IH.
        -- replace ((pre ++ b) ++ skipn block rest) with s; auto.
           unfold s, b. now rewrite <- app_assoc, firstn_skipn.
        -- unfold ltof. rewrite skipn_length. lia.
        -- rewrite app_length, Hlb. nia.
        -- rewrite app_length; lia.
        -- lia.
        -- intros _. now rewrite app_length.
    + rewrite np_assign_exact; [|rewrite app_length, repeat_length; lia|].
      2:{ rewrite firstn_length, Hlb. lia. }
      rewrite firstn_app_exact by auto.
      rewrite (skipn_all2 (pre ++ _)) by (rewrite app_length, repeat_length; lia).
      rewrite app_nil_r. replace (nums - length s) with 0 by lia. simpl repeat. rewrite app_nil_r.
      f_equal.
      * unfold s. rewrite firstn_app, (firstn_all2 pre) by lia. f_equal.
        unfold b. rewrite firstn_firstn'. f_equal. lia.
      * destruct (Nat.eqb_spec (length s) 0); [lia|].
        destruct (Nat.ltb_spec (length s) nums); [lia|]. f_equal.
        assert ((nums - 1) / block = i) as ->.
        { symmetry. apply Nat.div_unique with (nums - 1 - length pre); lia. }
        rewrite Hlb. lia.
Qed.

Lemma tile_length {A} n (s : list A) : length (tile n s) = n * length s.
Proof. induction n; simpl; auto. rewrite app_length. lia. Qed.

Lemma nth_tile {A} (d : A) (s : list A) n k :
  k < n * length s -> nth k (tile n s) d = nth (k mod length s) s d.
Proof.
  revert k. induction n as [|n IH]; intros k Hk; [lia|].
  simpl. assert (length s <> 0) by (intros E; rewrite E in Hk; lia).
  destruct (le_lt_dec (length s) k) as [Hge|Hlt].
  - rewrite app_nth2 by lia. rewrite IH by nia.
    f_equal. replace k with ((k - length s) + 1 * length s) at 2 by lia.
    rewrite Nat.mod_add by lia. reflexivity.
  - rewrite app_nth1 by lia. now rewrite Nat.mod_small.
Qed.

Lemma loop_track_ok {A} (zero d : A) nums (s : list A) :
  0 < length s < nums ->
  exists t, loop_track nums (length s) (s ++ repeat zero (nums - length s)) = inl t
    /\ length t = nums /\ forall k, k < nums -> nth k t d = nth (k mod length s) s d.
Proof.
  intros [H0 Hlt]. unfold loop_track.
  set (n := length s) in *.
  assert (nums = n * (nums / n) + nums mod n) as Hdm by (apply Nat.div_mod; lia).
  assert (nums mod n < n) as Hmod by (apply Nat.mod_upper_bound; lia).
  set (q := nums / n) in *. set (m := nums mod n) in *. clearbody q m.
  assert (1 <= q) as Hq by nia.
  set (T := s ++ repeat zero (nums - n)).
  assert (length T = nums) as HT by (unfold T; rewrite app_length, repeat_length; lia).
  assert (firstn n T = s) as HfT by (unfold T; apply firstn_app_exact; auto).
  assert (exists t1, (if 1 <? q then np_assign T n (n * q) (tile (q - 1) (firstn n T)) else Some T) = Some t1
          /\ length t1 = nums /\ firstn (n * q) t1 = tile q s) as (t1 & E1 & L1 & F1).
  { destruct (Nat.ltb_spec 1 q).
    - rewrite HfT. rewrite np_assign_exact; [|nia|rewrite tile_length; fold n; nia].
      exists (s ++ tile (q - 1) s ++ skipn (n * q) T). split; [now rewrite HfT|].
      assert (length (tile (q - 1) s) = n * q - n) as Hlt' by (rewrite tile_length; fold n; nia).
      split.
      + rewrite !app_length, skipn_length, Hlt', HT. fold n. nia.
      + rewrite app_assoc. rewrite firstn_app_exact.
        * destruct q; [lia|]. simpl. now rewrite Nat.sub_0_r.
        * rewrite app_length, Hlt'. fold n. nia.
    - assert (q = 1) as -> by lia. exists T. split; auto. split; auto.
      rewrite Nat.mul_1_r. rewrite HfT. simpl. now rewrite app_nil_r. }
  rewrite E1. clear E1.
  assert (firstn m t1 = firstn m s) as Fm.
  { transitivity (firstn m (firstn (n * q) t1)); [rewrite firstn_firstn'; f_equal; nia|].
    rewrite F1. destruct q; [lia|]. cbn [tile]. rewrite firstn_app. fold n.
    replace (m - n) with 0 by lia. now rewrite firstn_O, app_nil_r. }
  destruct (Nat.ltb_spec 0 m).
  - rewrite np_assign_exact; [|nia|rewrite firstn_length; nia].
    exists (firstn (n * q) t1 ++ firstn m t1 ++ skipn (length t1) t1). split; auto.
    rewrite skipn_all, app_nil_r, F1, Fm. split.
    + rewrite app_length, tile_length, firstn_length. fold n. nia.
    + intros k Hk. destruct (le_lt_dec (n * q) k).
      * rewrite app_nth2 by (rewrite tile_length; fold n; nia).
        rewrite tile_length. fold n.
        assert (k mod n = k - q * n) as -> by (symmetry; apply Nat.mod_unique with q; nia).
        rewrite <- (firstn_skipn m s) at 2.
        rewrite app_nth1; auto. rewrite firstn_length. fold n. nia.
      * rewrite app_nth1 by (rewrite tile_length; fold n; nia). apply nth_tile. fold n. nia.
  - exists t1. split; auto. split; auto. intros k Hk.
    rewrite <- (firstn_skipn (n * q) t1), F1.
    rewrite app_nth1 by (rewrite tile_length; fold n; nia). apply nth_tile. fold n. nia.
Qed.

(** The generated signal: requested length; the source's first channel,
    repeated periodically ([loop]) or followed by zeros; times amplitude. *)
Theorem generic_signal_spec {A} (zero : A) scale own src_samples loop (src : source (list A)) s :
  wf_source src s -> length s = src_samples ->
  let nums := if own =? 0 then src_samples else own in
  let x := map (fun row => nth 0 row zero) s in
  (s <> [] -> exists out, generic_signal zero scale own src_samples loop src = inl out
     /\ length out = nums
     /\ forall k, k < nums ->
          nth k out zero =
          scale (if k <? length s then nth k x zero
                 else if loop then nth (k mod length s) x zero else zero))
  /\ (s = [] -> loop = true -> generic_signal zero scale own src_samples loop src = inr UnboundLocalError)
  /\ (s = [] -> loop = false ->
      generic_signal zero scale own src_samples loop src = inl (map scale (repeat zero own))).
Proof.
  intros Hw Hn nums x. unfold generic_signal. fold nums.
  rewrite (wf_source_eq src s) by (auto; lia). cbn [blocks fin done].
  rewrite chunks_map by lia. fold x.
  assert (length x = length s) as Hx by (unfold x; apply map_length).
  split; [|split].
  - intros Hs.
    assert (0 < length s) as Hl by (destruct s; [congruence|simpl; lia]).
    assert (0 < nums) as Hnp. { unfold nums. destruct (Nat.eqb_spec own 0); lia. }
    pose proof (fill_track_ok zero 1024 nums ltac:(lia) x [] 0 None) as Hfill.
    cbn [length app] in Hfill. rewrite Nat.sub_0_r in Hfill.
    rewrite Hfill by (auto; lia). clear Hfill. rewrite Hx.
    destruct (Nat.eqb_spec (length s) 0); [lia|].
    assert (forall k y, k < nums -> length y = nums ->
              nth k (map scale y) zero = scale (nth k y zero)) as Hms.
    { intros k y Hk Hy. rewrite (nth_indep (map scale y) zero (scale zero)) by (rewrite map_length; lia).
      apply map_nth. }
    assert (length (firstn nums x ++ repeat zero (nums - length s)) = nums) as Hlen.
    { rewrite app_length, firstn_length, repeat_length. lia. }
    assert (forall k, k < nums -> nth k (firstn nums x ++ repeat zero (nums - length s)) zero
              = if k <? length s then nth k x zero else zero) as Hnth.
    { intros k Hk. destruct (Nat.ltb_spec k (length s)).
      - rewrite app_nth1 by (rewrite firstn_length; lia).
        rewrite <- (firstn_skipn nums x) at 2. rewrite app_nth1; auto. rewrite firstn_length. lia.
      - rewrite app_nth2 by (rewrite firstn_length; lia). apply nth_repeat. }
    assert (length s >= nums \/ loop = false ->
      exists out, @inl (list A) exn (map scale (firstn nums x ++ repeat zero (nums - length s))) = inl out
        /\ length out = nums
        /\ forall k, k < nums -> nth k out zero =
             scale (if k <? length s then nth k x zero
                    else if loop then nth (k mod length s) x zero else zero)) as Hno.
    { intros Hor. eexists. split; [reflexivity|]. rewrite map_length. split; auto.
      intros k Hk. rewrite Hms, Hnth by auto. f_equal.
      destruct (Nat.ltb_spec k (length s)); auto. destruct Hor as [Hor| ->]; [lia|reflexivity]. }
    destruct loop.
    + destruct (Nat.ltb_spec (length s) nums) as [Hlt|Hge].
      * rewrite (proj2 (Nat.ltb_lt _ _) Hlt).
        rewrite (firstn_all2 x) by lia. rewrite <- Hx.
        destruct (loop_track_ok zero zero nums x) as (t & E & Lt & Ht); [lia|].
        rewrite E. eexists. split; [reflexivity|]. rewrite map_length. split; auto.
        intros k Hk. rewrite Hms, Ht by auto. f_equal.
        destruct (Nat.ltb_spec k (length x)); auto. now rewrite Nat.mod_small by lia.
      * assert ((Nat.min (length s) (1024 * ((nums - 1) / 1024) + 1024) <? nums) = false) as ->.
        { apply Nat.ltb_ge. apply Nat.min_glb; [lia|].
          pose proof (Nat.div_mod (nums - 1) 1024 ltac:(lia)).
          pose proof (Nat.mod_upper_bound (nums - 1) 1024 ltac:(lia)).
          generalize dependent ((nums - 1) mod 1024). generalize ((nums - 1) / 1024).
          intros q m ? ?. clear - H H0. nia. }
        apply Hno. left. lia.
    + apply Hno. auto.
  - intros -> ->. subst x. reflexivity.
  - intros -> ->. subst x. cbn [map]. rewrite chunks_nil. cbn [fill_track].
    unfold nums. destruct (Nat.eqb_spec own 0) as [->|]; auto.
    simpl in Hn. now rewrite <- Hn.
Qed.
