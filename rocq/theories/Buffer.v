(** SamplesBuffer, /repo/acoular/process.py:720-975. *)
From Coq Require Import List Arith Lia ZArith Bool.
Require Import ZifyBool ZifyNat ZifyN.
From Verif Require Import Stream.
Import ListNotations.
Ltac Zify.zify_post_hook ::= Z.div_mod_to_equations.

(** State of a SamplesBuffer between two requests: [length], [_buffer],
    [_index], the blocks the source generator still has, [_empty_source]
    (process.py:771-822). *)
Record sbuf (A : Type) := mkBuf
  { len : nat; buf : list A; idx : nat; left : list (list A); empty : bool }.
Arguments mkBuf {A} _ _ _ _ _.
Arguments len {A} _.
Arguments buf {A} _.
Arguments idx {A} _.
Arguments left {A} _.
Arguments empty {A} _.

(** _write_to_buffer, process.py:832-836.  Python slices: [-(length-ns):] is
    the whole buffer when [length = ns], and [-ns:] is the whole buffer when
    [ns = 0].  [ns > length] cannot happen (the buffer index is at least
    [snum >= ns] and level would have been positive); it is mapped to an error. *)
Definition write_to_buffer {A} (L : nat) (b data : list A) : option (list A) :=
  let ns := length data in
  if L <? ns then None else
  match np_assign b 0 (L - ns) (skipn (if L - ns =? 0 then 0 else length b - (L - ns)) b) with
  | None => None
  | Some b1 => np_assign b1 (if ns =? 0 then 0 else length b1 - ns) (length b1) data
  end.

(** The loop [while self.result_num > self.length: self.increase_buffer(snum)]
    (process.py:851-855 and 927-928); [zrow] is a row of zeros. *)
Fixpoint grow {A} (zrow : A) (fuel w snum L : nat) (b : list A) (i : nat) : nat * list A * nat :=
  if L <? w then
    match fuel with
    | 0 => (L, b, i)
    | S f => grow zrow f w snum (L + snum) (repeat zrow snum ++ b) (i + snum)
    end
  else (L, b, i).

(** One resumption of fill_buffer (process.py:922-935): fill until
    [_index < snum] or the source is exhausted.  [w] is [result_num]. *)
Fixpoint fill {A} (zrow : A) (w : option nat) (snum : nat) (e : ending)
    (L : nat) (b : list A) (i : nat) (bs : list (list A)) {struct bs} : sbuf A + exn :=
  if snum <=? i then
    let '(L, b, i) := match w with
                      | Some w => grow zrow w w snum L b i
                      | None => (L, b, i)
                      end in
    match bs with
    | [] => match e with
            | Finished => inl (mkBuf L b i [] true)
            | Raised x => inr x
            end
    | d :: bs' =>
        match write_to_buffer L b d with
        | None => inr ValueError
        | Some b' => fill zrow w snum e L b' (i - length d) bs'
        end
    end
  else inl (mkBuf L b i bs false).

(** read_from_buffer, process.py:883-891 (called with level > 0). *)
Definition read_from_buffer {A} (by_num : bool) (num : nat) (w : option nat) (st : sbuf A)
    : list A * sbuf A :=
  let level := len st - idx st in
  let rnum := match w with None => num | Some r => r end in
  let rnum := if rnum <=? level then rnum else level in
  (slice (idx st) (idx st + rnum) (buf st),
   mkBuf (len st) (buf st) (idx st + (if by_num then num else rnum)) (left st) (empty st)).

(** result, process.py:963-975.  [w k] is [result_num] when block [k] is
    requested (the consumer may change it in between). *)
Fixpoint sb_loop {A} (zrow : A) (by_num : bool) (w : nat -> option nat) (num snum : nat) (e : ending)
    (fuel k : nat) (st : sbuf A) : trace A :=
  match fuel with
  | 0 => raise OutOfFuel
  | S f =>
      match (if empty st then inl st
             else fill zrow (w k) snum e (len st) (buf st) (idx st) (left st)) with
      | inr x => raise x
      | inl st1 =>
          if idx st1 <? len st1 then
            let '(y, st2) := read_from_buffer by_num num (w k) st1 in
            let t := sb_loop zrow by_num w num snum e f (S k) st2 in
            mkTrace (y :: blocks t) (fin t)
          else done []
      end
  end.

(** [fuel] bounds the number of blocks; OutOfFuel would mean that the code
    yields more than [fuel] blocks. *)
Definition samples_buffer_result {A} (zrow : A) (by_num : bool) (w : nat -> option nat)
    (length_ : nat) (source_num : option nat) (src : source A) (fuel num : nat) : trace A :=
  let snum := match source_num with None => num | Some n => n end in
  let t := src snum in
  sb_loop zrow by_num w num snum (fin t) fuel 0
    (mkBuf length_ (repeat zrow length_) length_ (blocks t) false).

(* ------------------------------------------------------------------ *)
(** * Proofs *)

Lemma write_to_buffer_ok {A} L (b data : list A) :
  length b = L -> 0 < length data -> (length data < L \/ (L = 1 /\ length data = 1)) ->
  write_to_buffer L b data = Some (skipn (length data) b ++ data).
Proof.
  intros Hb Hd Hc. unfold write_to_buffer.
  destruct (Nat.ltb_spec L (length data)); [lia|].
  destruct (Nat.eqb_spec (length data) 0); [lia|].
  destruct (Nat.eqb_spec (L - length data) 0) as [E|E].
  - assert (L = 1 /\ length data = 1) as [E1 E2] by lia.
    destruct b as [|x [|y b]]; simpl in Hb; try lia.
    destruct data as [|d [|y data]]; simpl in *; try lia. subst L. reflexivity.
  - rewrite np_assign_exact; [|lia|rewrite skipn_length; lia].
    rewrite firstn_O, app_nil_l. rewrite Hb. replace (L - (L - length data)) with (length data) by lia.
    set (b1 := skipn (length data) b ++ skipn (L - length data) b).
    assert (length b1 = L) as Hb1 by (unfold b1; rewrite app_length, !skipn_length; lia).
    rewrite np_assign_exact; [|lia|lia].
    rewrite Hb1. rewrite (skipn_all2 b1) by lia. rewrite app_nil_r.
    unfold b1. rewrite firstn_app_exact; auto. rewrite skipn_length. lia.
Qed.

(** The equal-length case: [_buffer[0:0] = _buffer[-0:]]. *)
Lemma write_to_buffer_full {A} L (b data : list A) :
  length b = L -> 2 <= L -> length data = L -> write_to_buffer L b data = None.
Proof.
  intros Hb HL Hd. unfold write_to_buffer. rewrite Hd, Nat.sub_diag, Nat.eqb_refl, Nat.ltb_irrefl.
  cbn [skipn]. unfold np_assign. rewrite Nat.min_0_l. simpl.
  destruct b as [|x [|y b]]; simpl in Hb; try lia. reflexivity.
Qed.

Lemma grow_ok {A} (zrow : A) snum w : 0 < snum -> forall fuel L b i,
  w <= L + fuel ->
  exists q, grow zrow fuel w snum L b i = (L + q * snum, repeat zrow (q * snum) ++ b, i + q * snum)
    /\ w <= L + q * snum /\ (w <= L -> q = 0).
Proof.
  intros Hs. induction fuel as [|f IH]; intros L b i Hw; cbn [grow].
  - exists 0. destruct (Nat.ltb_spec L w); [lia|].
    simpl. rewrite !Nat.add_0_r. auto.
  - destruct (Nat.ltb_spec L w).
    + destruct (IH (L + snum) (repeat zrow snum ++ b) (i + snum) ltac:(lia)) as (q & E & H1 & H2).
      exists (S q). rewrite E. split; [|split; [nia|lia]].
      f_equal; [f_equal|]; try lia.
      rewrite app_assoc, <- repeat_app. f_equal. f_equal. simpl. lia.
    + exists 0. simpl. rewrite !Nat.add_0_r. auto.
Qed.

(** The invariant: rows [c..r-1] of the stream are right-aligned in the buffer
    ([c] rows consumed, [r] received). *)
Definition Inv {A} (s : list A) (snum c r : nat) (L : nat) (b : list A) (i : nat)
    (bs : list (list A)) : Prop :=
  length b = L /\ i + r = L + c /\ r <= length s
  /\ skipn i b = slice c r s /\ bs = chunks snum (skipn r s).

Lemma slice_app_next {A} c r n (s : list A) : c <= r -> r <= length s ->
  slice c r s ++ firstn n (skipn r s) = slice c (r + n) s.
Proof.
  intros Hc Hr. unfold slice.
  assert (firstn (r + n) s = firstn r s ++ firstn n (skipn r s)) as ->.
  { rewrite <- (firstn_skipn r (firstn (r + n) s)).
    rewrite firstn_firstn', Nat.min_l by lia. f_equal.
    rewrite skipn_firstn_comm. f_equal. lia. }
  rewrite skipn_app. f_equal.
  rewrite firstn_length, Nat.min_l by lia. replace (c - r) with 0 by lia. reflexivity.
Qed.

Lemma skipn_repeat_app {A} (z : A) q n (b : list A) : skipn (n + q) (repeat z q ++ b) = skipn n b.
Proof.
  rewrite skipn_app, repeat_length, skipn_all2 by (rewrite repeat_length; lia).
  simpl. f_equal. lia.
Qed.

Lemma slice_empty {A} c r (s : list A) : r <= c -> slice c r s = [].
Proof. intros H. unfold slice. apply skipn_all2. rewrite firstn_length. lia. Qed.

(** Filling keeps the invariant, and ends either with the whole stream
    received or with [_index < snum]. *)
Lemma fill_ok {A} (zrow : A) w snum (s : list A) c : 0 < snum ->
  forall bs L b i r,
  Inv s snum c r L b i bs -> (snum < L \/ (snum = 1 /\ L = 1)) ->
  (r = length s \/ exists j, r = j * snum) ->
  exists st q r', fill zrow w snum Finished L b i bs = inl st
    /\ len st = L + q * snum
    /\ Inv s snum c r' (len st) (buf st) (idx st) (left st)
    /\ (empty st = true -> r' = length s)
    /\ (r' = length s \/ exists j, r' = j * snum)
    /\ r <= r'
    /\ (q <> 0 -> exists x, w = Some x /\ L < x)
    /\ (forall x, w = Some x -> snum <= i -> x <= len st)
    /\ (empty st = false -> idx st < snum).
Proof.
  intros Hs bs. induction bs as [|d bs IH]; intros L b i r HI HL Hr; cbn [fill].
  - destruct (Nat.leb_spec snum i).
    + assert (r = length s) as Er.
      { destruct HI as (_ & _ & Hle & _ & Hc). destruct (skipn r s) eqn:E.
        - apply (f_equal (@length A)) in E. rewrite skipn_length in E. simpl in E. lia.
        - rewrite chunks_step in Hc by (auto; discriminate). discriminate. }
      destruct HI as (H1 & H2 & H3 & H4 & H5).
      destruct w as [w|].
      * destruct (grow_ok zrow snum w Hs w L b i ltac:(lia)) as (q & -> & Hw & H0).
        eexists. exists q, r. split; [reflexivity|]. cbn [len buf idx left empty].
        split; auto. split.
        { repeat split; auto; try lia.
          - rewrite app_length, repeat_length. lia.
          - rewrite <- H4. apply skipn_repeat_app. }
        repeat split; auto; try lia; try discriminate.
        -- intros Hq. exists w. split; auto. destruct (le_lt_dec w L); [elim Hq; auto|auto].
        -- intros x [= ->] _. lia.
      * eexists. exists 0, r. split; [reflexivity|]. cbn [len buf idx left empty].
        split; [lia|]. split; [repeat split; auto; lia|].
        repeat split; auto; try lia; try discriminate.
    + eexists. exists 0, r. split; [reflexivity|]. cbn [len buf idx left empty].
      split; [lia|]. split; [exact HI|].
      repeat split; auto; try lia; try discriminate.
  - destruct (Nat.leb_spec snum i) as [Hi|Hi].
    + destruct HI as (H1 & H2 & H3 & H4 & H5).
      assert (skipn r s <> []) as Hne by (intros E; rewrite E, chunks_nil in H5; discriminate).
      rewrite chunks_step in H5 by auto. injection H5 as Hd Hbs.
      assert (0 < length (skipn r s)) as Hlr by (destruct (skipn r s); [congruence|simpl; lia]).
      rewrite skipn_length in Hlr.
      assert (length d = Nat.min snum (length s - r)) as Hld.
      { rewrite Hd, firstn_length, skipn_length. reflexivity. }
      assert (exists j, r = j * snum) as (j & Hj) by (destruct Hr; [lia|auto]).
      (* growth *)
      assert (exists q, (match w with Some w => grow zrow w w snum L b i | None => (L, b, i) end)
                = (L + q * snum, repeat zrow (q * snum) ++ b, i + q * snum)
                /\ (forall x, w = Some x -> x <= L + q * snum)
                /\ (q <> 0 -> exists x, w = Some x /\ L < x)) as (q & -> & Hw & Hq0).
      { destruct w as [w|].
        - destruct (grow_ok zrow snum w Hs w L b i ltac:(lia)) as (q & -> & Hw & H0).
          exists q. split; auto. split; [intros x [= <-]; auto|].
          intros Hq. exists w. split; auto. destruct (le_lt_dec w L); [elim Hq; auto|auto].
        - exists 0. simpl. rewrite !Nat.add_0_r. split; auto. split; [discriminate|lia]. }
      set (L' := L + q * snum). set (b' := repeat zrow (q * snum) ++ b). set (i' := i + q * snum).
      assert (length b' = L') as Hb' by (unfold b', L'; rewrite app_length, repeat_length; lia).
      assert (skipn i' b' = slice c r s) as Hsk by (rewrite <- H4; apply skipn_repeat_app).
      rewrite write_to_buffer_ok by (auto; unfold L'; lia).
      specialize (IH L' (skipn (length d) b' ++ d) (i' - length d) (r + length d)).
      destruct IH as (st & q2 & r2 & E & I1 & I2 & I3 & I4 & I5 & I6 & I7 & I8).
      { split; [rewrite app_length, skipn_length; lia|].
        split; [unfold i', L' in *; lia|]. split; [lia|]. split.
        - destruct (le_lt_dec (r) c) as [Hcr|Hcr].
          + (* nothing was left: i' >= L' *)
            rewrite skipn_app, skipn_skipn'.
            rewrite (skipn_all2 b') by lia. rewrite app_nil_l, skipn_length, Hb'.
            rewrite Hd. unfold slice.
            replace (i' - length (firstn snum (skipn r s)) - (L' - length (firstn snum (skipn r s))))
              with (c - r) by (rewrite <- Hd; unfold i', L' in *; lia).
            assert (firstn (r + length (firstn snum (skipn r s))) s
                    = firstn r s ++ firstn snum (skipn r s)) as ->.
            { rewrite <- (firstn_skipn r (firstn (r + _) s)).
              rewrite firstn_firstn', Nat.min_l by lia. f_equal.
              rewrite skipn_firstn_comm. rewrite firstn_length.
              replace (r + Nat.min snum (length (skipn r s)) - r) with (Nat.min snum (length (skipn r s))) by lia.
              destruct (le_lt_dec snum (length (skipn r s))).
              - now rewrite Nat.min_l.
              - rewrite Nat.min_r by lia. rewrite !firstn_all2; auto; lia. }
            rewrite skipn_app. rewrite (skipn_all2 (firstn r s)) by (rewrite firstn_length; lia).
            rewrite firstn_length, Nat.min_l by lia. reflexivity.
          + rewrite skipn_app, skipn_skipn'.
            replace (i' - length d + length d) with i' by (unfold i'; lia).
            rewrite Hsk. rewrite skipn_length, Hb'.
            replace (i' - length d - (L' - length d)) with 0 by (unfold i', L' in *; lia).
            rewrite skipn_O. rewrite Hd at 1.
            rewrite slice_app_next by lia. unfold slice. f_equal.
            rewrite Hld. destruct (le_lt_dec snum (length s - r)).
            * now rewrite Nat.min_l.
            * rewrite Nat.min_r by lia. rewrite !firstn_all2 by lia. reflexivity.
        - rewrite Hbs, skipn_skipn'. rewrite Hld.
          destruct (le_lt_dec snum (length s - r)).
          + rewrite Nat.min_l by lia. f_equal. f_equal. lia.
          + rewrite !skipn_all2 by lia. reflexivity. }
      { unfold L'. lia. }
      { rewrite Hld. destruct (le_lt_dec snum (length s - r)).
        - right. exists (S j). lia.
        - left. lia. }
      exists st, (q + q2), r2. split; auto. split; [rewrite I1; unfold L'; lia|].
      split; auto. split; auto. split; auto. split; [lia|]. split; [|split; auto].
      * intros Hq. destruct (Nat.eq_dec q 0) as [E0|E0]; [|auto].
        assert (q2 <> 0) as Hq2 by lia. destruct (I6 Hq2) as (x & Hx & Hlt).
        exists x. split; auto. unfold L' in Hlt. lia.
      * intros x Hx _. rewrite I1. specialize (Hw x Hx). unfold L'. lia.
    + eexists. exists 0, r. split; [reflexivity|]. cbn [len buf idx left empty].
      split; [lia|]. split; [exact HI|].
      repeat split; auto; try lia; try discriminate.
Qed.

Fixpoint gen_windows {A} (s : list A) (W H : nat -> nat) (fuel k c : nat) : list (list A) :=
  match fuel with
  | 0 => []
  | S f => if c <? length s
           then slice c (c + W k) s :: gen_windows s W H f (S k) (c + H k)
           else []
  end.

Lemma gen_windows_ge {A} (s : list A) W H fuel k c :
  length s <= c -> gen_windows s W H fuel k c = [].
Proof. intros Hc. destruct fuel; simpl; auto. destruct (Nat.ltb_spec c (length s)); auto; lia. Qed.

Section Loop.
Context {A : Type} (zrow : A) (by_num : bool) (w : nat -> option nat) (num snum L0 g : nat) (s : list A).
Let W k := match w k with None => num | Some r => r end.
Let H k := if by_num then num else W k.
Hypothesis Hs : 0 < snum.
Hypothesis HL0 : snum < L0 \/ (snum = 1 /\ L0 = 1).
Hypothesis HW : forall k, 0 < W k.
Hypothesis Hnum : 0 < num.
Hypothesis Hg : 0 < g.
Hypothesis Hgs : Nat.divide g snum.
Hypothesis HgL : Nat.divide g L0.
Hypothesis HgH : forall k, Nat.divide g (H k).
Hypothesis Hcond : forall k, W k + snum <= L0 + g
  \/ (g = snum /\ (forall j, snum <= H j) /\ w k <> None).

Lemma sb_loop_ok : forall fuel k st c r q,
  length s - c < fuel ->
  Inv s snum c r (len st) (buf st) (idx st) (left st) ->
  len st = L0 + q * snum ->
  (empty st = true -> r = length s) ->
  (r = length s \/ exists j, r = j * snum) ->
  (c < length s -> Nat.divide g c) ->
  ((forall j, snum <= H j) -> c < length s -> snum <= idx st \/ empty st = true) ->
  sb_loop zrow by_num w num snum Finished fuel k st = done (gen_windows s W H fuel k c).
Proof.
  induction fuel as [|f IH]; intros k st c r q Hf HI Hlen Hem Hr Hgc Hidx; [lia|].
  cbn [sb_loop gen_windows].
  assert (exists st1 q1 r1,
    (if empty st then inl st else fill zrow (w k) snum Finished (len st) (buf st) (idx st) (left st)) = inl st1
    /\ len st1 = L0 + q1 * snum
    /\ Inv s snum c r1 (len st1) (buf st1) (idx st1) (left st1)
    /\ (empty st1 = true -> r1 = length s)
    /\ (r1 = length s \/ exists j, r1 = j * snum)
    /\ (r1 < length s -> idx st1 < snum)
    /\ (r1 < length s -> forall x, w k = Some x -> snum <= idx st -> x <= len st1)
    /\ (r1 < length s -> empty st = false)) as (st1 & q1 & r1 & -> & H1 & H2 & H3 & H4 & H5 & H6 & H6').
  { destruct (empty st) eqn:Ee.
    - exists st, q, r. rewrite Ee. repeat match goal with |- _ /\ _ => split end; auto;
        intros; specialize (Hem eq_refl); lia.
    - destruct (fill_ok zrow (w k) snum s c Hs (left st) (len st) (buf st) (idx st) r HI)
        as (st1 & q1 & r1 & E & F1 & F2 & F3 & F4 & F5 & F6 & F7 & F8); auto; [lia|].
      exists st1, (q + q1), r1. rewrite E.
      repeat match goal with |- _ /\ _ => split end; auto; [lia|].
      intros Hlt. apply F8. destruct (empty st1); auto. specialize (F3 eq_refl). lia. }
  destruct H2 as (I1 & I2 & I3 & I4 & I5).
  assert (idx st1 < len st1 <-> c < length s) as Hiff.
  { destruct (Nat.eq_dec r1 (length s)); [lia|]. specialize (H5 ltac:(lia)). lia. }
  destruct (Nat.ltb_spec (idx st1) (len st1)) as [Hlt|Hge].
  2:{ rewrite (proj2 (Nat.ltb_ge c (length s))) by lia. reflexivity. }
  rewrite (proj2 (Nat.ltb_lt c (length s))) by (now apply Hiff).
  pose proof (proj1 Hiff Hlt) as Hc.
  unfold read_from_buffer. fold (W k).
  (* the window is full unless the stream has ended *)
  assert (r1 < length s -> W k <= len st1 - idx st1) as Hfull.
  { intros Hrl. specialize (H5 Hrl). specialize (H6 Hrl). specialize (H6' Hrl).
    assert (Nat.divide g (idx st1)) as Hgi.
    { destruct H4 as [H4|(j & H4)]; [lia|].
      assert (Nat.divide g (len st1 + c)) as D1.
      { rewrite H1. apply Nat.divide_add_r; [apply Nat.divide_add_r; auto|auto].
        now apply Nat.divide_mul_r. }
      assert (Nat.divide g r1) as D2 by (rewrite H4; now apply Nat.divide_mul_r).
      apply (Nat.divide_add_cancel_r g r1); auto. now rewrite Nat.add_comm, I2. }
    destruct Hgi as (x & Hx). destruct Hgs as (y & Hy).
    assert (idx st1 + g <= snum) as Hig.
    { rewrite Hx, Hy in H5 |- *. clear - H5 Hg. assert (x < y) by nia. nia. }
    destruct (Hcond k) as [Hk|(Eg & Hh & Hw)].
    - lia.
    - destruct (w k) as [wk|] eqn:Ew; [|congruence].
      destruct (Hidx Hh Hc) as [Hi|Hi]; [|congruence].
      specialize (H6 wk eq_refl Hi). unfold W. rewrite Ew. lia. }
  set (rnum := if W k <=? len st1 - idx st1 then W k else len st1 - idx st1).
  assert (rnum = Nat.min (W k) (r1 - c)) as Hrn.
  { unfold rnum. destruct (Nat.leb_spec (W k) (len st1 - idx st1)); lia. }
  assert (slice (idx st1) (idx st1 + rnum) (buf st1) = slice c (c + W k) s) as Hread.
  { unfold slice. rewrite skipn_firstn_comm. replace (idx st1 + rnum - idx st1) with rnum by lia.
    rewrite I4. unfold slice. rewrite !skipn_firstn_comm, firstn_firstn'.
    destruct (Nat.eq_dec r1 (length s)) as [E|E].
    - rewrite Hrn, E. replace (c + W k - c) with (W k) by lia.
      destruct (le_lt_dec (W k) (length s - c)).
      + f_equal. lia.
      + rewrite !firstn_all2; auto; rewrite skipn_length; lia.
    - specialize (Hfull ltac:(lia)). f_equal. lia. }
  rewrite Hread.
  set (c2 := c + (if by_num then num else rnum)).
  rewrite (IH (S k) _ c2 r1 q1); cbn [len buf idx left empty]; auto.
  - unfold done. cbn [blocks fin]. f_equal. f_equal. unfold c2, H.
    destruct by_num; auto.
    destruct (le_lt_dec (W k) (r1 - c)) as [Hle|Hgt].
    + f_equal. lia.
    + assert (r1 = length s) by (destruct (Nat.eq_dec r1 (length s)); auto; specialize (Hfull ltac:(lia)); lia).
      rewrite !gen_windows_ge; auto; lia.
  - unfold c2. pose proof (HW k). destruct by_num; lia.
  - split; auto. split; [unfold c2; lia|]. split; auto. split; auto.
    unfold c2. set (h := if by_num then num else rnum).
    rewrite (Nat.add_comm (idx st1) h), <- skipn_skipn', I4. unfold slice.
    rewrite skipn_skipn'. f_equal. lia.
  - intros Hc2. unfold c2 in *. apply Nat.divide_add_r; auto.
    pose proof (HgH k) as D. unfold H in D. destruct by_num; auto.
    assert (rnum = W k) as ->; auto.
    rewrite Hrn. destruct (Nat.eq_dec r1 (length s)); [lia|specialize (Hfull ltac:(lia)); lia].
  - intros Hh Hc2. left. pose proof (Hh k) as Hk. unfold H in Hk. unfold c2 in Hc2. destruct by_num; [lia|].
    assert (rnum = W k); [|lia].
    rewrite Hrn. destruct (Nat.eq_dec r1 (length s)); [lia|specialize (Hfull ltac:(lia)); lia].
Qed.
End Loop.

(** A window of [s]: rows [i .. i+n-1], cut at the end of the stream. *)
Definition window {A} (i n : nat) (s : list A) : list A := firstn n (skipn i s).

Lemma slice_window {A} i n (s : list A) : slice i (i + n) s = window i n s.
Proof. unfold slice, window. rewrite skipn_firstn_comm. f_equal. lia. Qed.

Lemma gen_windows_seq {A} (s : list A) W h : 0 < h -> forall fuel k,
  length s - k * h < fuel ->
  gen_windows s W (fun _ => h) fuel k (k * h)
  = map (fun j => window (j * h) (W j) s) (seq k ((length s + h - 1) / h - k)).
Proof.
  intros Hh. induction fuel as [|f IH]; intros k Hf; [lia|].
  cbn [gen_windows].
  assert (k * h < length s <-> k < (length s + h - 1) / h) as Hiff.
  { pose proof (Nat.div_mod (length s + h - 1) h ltac:(lia)) as E.
    pose proof (Nat.mod_upper_bound (length s + h - 1) h ltac:(lia)) as B.
    revert E B. generalize ((length s + h - 1) / h) ((length s + h - 1) mod h). intros q m E B.
    clear - E B Hh. split; intros; nia. }
  destruct (Nat.ltb_spec (k * h) (length s)) as [Hlt|Hge].
  - pose proof (proj1 Hiff Hlt).
    replace ((length s + h - 1) / h - k) with (S ((length s + h - 1) / h - S k)) by lia.
    cbn [seq map]. rewrite slice_window. f_equal.
    replace (k * h + h) with (S k * h) by lia. apply IH. lia.
  - replace ((length s + h - 1) / h - k) with 0; auto.
    destruct (le_lt_dec ((length s + h - 1) / h) k); [lia|]. apply Hiff in l. lia.
Qed.

Lemma gen_windows_chunks {A} (s : list A) n : 0 < n -> forall fuel k c,
  length s - c < fuel ->
  gen_windows s (fun _ => n) (fun _ => n) fuel k c = chunks n (skipn c s).
Proof.
  intros Hn. induction fuel as [|f IH]; intros k c Hf; [lia|]. cbn [gen_windows].
  destruct (Nat.ltb_spec c (length s)).
  - rewrite chunks_step; auto.
    + rewrite slice_window. unfold window. f_equal. rewrite IH by lia. f_equal.
      rewrite skipn_skipn'. f_equal. lia.
    + intros E. apply (f_equal (@length A)) in E. rewrite skipn_length in E. simpl in E. lia.
  - rewrite skipn_all2 by lia. reflexivity.
Qed.

Lemma sb_init_inv {A} (zrow : A) (s : list A) snum L : 
  Inv s snum 0 0 L (repeat zrow L) L (chunks snum s).
Proof.
  split; [apply repeat_length|]. split; [lia|]. split; [lia|]. split; auto.
  rewrite skipn_all2 by (rewrite repeat_length; lia). reflexivity.
Qed.

(** Shift by [num], window lengths chosen by the consumer block by block. *)
Theorem samples_buffer_windows {A} (zrow : A) (w : nat -> option nat) L source_num (src : source A) s fuel num g :
  let snum := match source_num with None => num | Some n => n end in
  let W k := match w k with None => num | Some r => r end in
  wf_source src s -> 0 < num -> 0 < snum -> (snum < L \/ (snum = 1 /\ L = 1)) ->
  (forall k, 0 < W k) ->
  0 < g -> Nat.divide g snum -> Nat.divide g L -> Nat.divide g num ->
  (forall k, W k + snum <= L + g \/ (g = snum /\ w k <> None)) ->
  length s < fuel ->
  samples_buffer_result zrow true w L source_num src fuel num
  = done (map (fun k => window (k * num) (W k) s) (seq 0 ((length s + num - 1) / num))).
Proof.
  intros snum W Hw Hn Hs HL HW Hg D1 D2 D3 Hc Hf. unfold samples_buffer_result. fold snum.
  rewrite (wf_source_eq src s) by auto. cbn [blocks fin done].
  rewrite (sb_loop_ok zrow true w num snum L g s) with (c := 0) (r := 0) (q := 0); auto;
    cbn [len buf idx left empty].
  - f_equal. pose proof (gen_windows_seq s W num Hn fuel 0 ltac:(lia)) as E.
    simpl in E. rewrite Nat.sub_0_r in E. exact E.
  - intros k. destruct (Hc k) as [H|[H1 H2]]; [left; exact H|right].
    split; auto. split; auto. intros _. apply Nat.divide_pos_le; auto. now rewrite <- H1.
  - lia.
  - apply sb_init_inv.
  - discriminate.
  - right. exists 0. reflexivity.
  - intros _. exists 0. reflexivity.
  - intros _ _. left. destruct HL; lia.
Qed.

(** Shift by the window: re-blocking. *)
Theorem samples_buffer_reblock {A} (zrow : A) (w : option nat) L source_num (src : source A) s fuel num g :
  let snum := match source_num with None => num | Some n => n end in
  let W := match w with None => num | Some r => r end in
  wf_source src s -> 0 < num -> 0 < snum -> (snum < L \/ (snum = 1 /\ L = 1)) -> 0 < W ->
  0 < g -> Nat.divide g snum -> Nat.divide g L -> Nat.divide g W ->
  W + snum <= L + g ->
  length s < fuel ->
  delivers W s (samples_buffer_result zrow false (fun _ => w) L source_num src fuel num).
Proof.
  intros snum W Hw Hn Hs HL HW Hg D1 D2 D3 Hc Hf. unfold samples_buffer_result. fold snum.
  rewrite (wf_source_eq src s) by auto. cbn [blocks fin done].
  rewrite (sb_loop_ok zrow false (fun _ => w) num snum L g s) with (c := 0) (r := 0) (q := 0); auto;
    cbn [len buf idx left empty].
  - fold W. rewrite (gen_windows_chunks s W) by lia. now apply delivers_chunks.
  - lia.
  - apply sb_init_inv.
  - discriminate.
  - right. exists 0. reflexivity.
  - intros _. exists 0. reflexivity.
  - intros _ _. left. destruct HL; lia.
Qed.

(** A buffer exactly as long as the source's blocks cannot be written. *)
Theorem samples_buffer_equal_length {A} (zrow : A) by_num w source_num (src : source A) s fuel num :
  let snum := match source_num with None => num | Some n => n end in
  wf_source src s -> 2 <= snum -> snum <= length s ->
  (forall k r, w k = Some r -> r <= snum) ->
  samples_buffer_result zrow by_num w snum source_num src (S fuel) num = raise ValueError.
Proof.
  intros snum Hw Hs Hl Hr. unfold samples_buffer_result. fold snum.
  rewrite (wf_source_eq src s) by (auto; lia). cbn [blocks fin done].
  rewrite chunks_step; [|lia|intros ->; simpl in Hl; lia].
  cbn [sb_loop empty left len buf idx fill]. rewrite Nat.leb_refl.
  assert ((match w 0 with
           | Some w0 => grow zrow w0 w0 snum snum (repeat zrow snum) snum
           | None => (snum, repeat zrow snum, snum) end) = (snum, repeat zrow snum, snum)) as ->.
  { destruct (w 0) as [r|] eqn:E; auto. apply Hr in E.
    destruct r; cbn [grow]; [destruct (Nat.ltb_spec snum 0); auto; lia|].
    destruct (Nat.ltb_spec snum (S r)); auto; lia. }
  rewrite write_to_buffer_full; auto.
  - apply repeat_length.
  - rewrite firstn_length. lia.
Qed.

(** A buffer shorter than the source's blocks is never filled: no output. *)
Theorem samples_buffer_too_short {A} (zrow : A) by_num w L source_num (src : source A) fuel num :
  let snum := match source_num with None => num | Some n => n end in
  L < snum -> samples_buffer_result zrow by_num w L source_num src (S fuel) num = done [].
Proof.
  intros snum HL. unfold samples_buffer_result. fold snum. cbn [sb_loop empty len buf idx left].
  assert (fill zrow (w 0) snum (fin (src snum)) L (repeat zrow L) L (blocks (src snum))
          = inl (mkBuf L (repeat zrow L) L (blocks (src snum)) false)) as ->.
  { destruct (blocks (src snum)); cbn [fill]; destruct (Nat.leb_spec snum L); auto; lia. }
  cbn [idx len]. now rewrite Nat.ltb_irrefl.
Qed.

(** The configurations used in the library. *)
Theorem samples_buffer_users {A} (zrow : A) (src : source A) s fuel num :
  wf_source src s -> 0 < num -> length s < fuel ->
  (forall delay, 0 < delay ->
     samples_buffer_result zrow true (fun _ => Some (num + delay)) ((num + delay + num - 1) / num * num)
       None src fuel num
     = done (map (fun k => window (k * num) (num + delay) s) (seq 0 ((length s + num - 1) / num))))
  /\ (forall delay,
     samples_buffer_result zrow true (fun k => Some (num + delay k)) (num * 2) None src fuel num
     = done (map (fun k => window (k * num) (num + delay k) s) (seq 0 ((length s + num - 1) / num))))
  /\ (forall bs, 0 < bs ->
     delivers num s
       (samples_buffer_result zrow false (fun _ => None) (((num + bs - 1) / bs + 1) * bs) (Some bs) src fuel num)).
Proof.
  intros Hw Hn Hf. split; [|split].
  - intros delay Hd.
    pose proof (Nat.div_mod (num + delay + num - 1) num ltac:(lia)) as E.
    pose proof (Nat.mod_upper_bound (num + delay + num - 1) num ltac:(lia)) as B.
    revert E B. generalize ((num + delay + num - 1) / num) ((num + delay + num - 1) mod num).
    intros q m E B.
    assert (num + delay <= q * num) as Hq by (rewrite Nat.mul_comm; lia).
    apply (samples_buffer_windows zrow (fun _ => Some (num + delay)) (q * num) None src s fuel num num);
      auto; try lia.
    + apply Nat.divide_refl.
    + now exists q.
    + apply Nat.divide_refl.
  - intros delay.
    apply (samples_buffer_windows zrow (fun k => Some (num + delay k)) (num * 2) None src s fuel num num);
      auto; try lia.
    + apply Nat.divide_refl.
    + exists 2. lia.
    + apply Nat.divide_refl.
    + intros k. right. split; auto. discriminate.
  - intros bs Hb.
    pose proof (Nat.div_mod (num + bs - 1) bs ltac:(lia)) as E.
    pose proof (Nat.mod_upper_bound (num + bs - 1) bs ltac:(lia)) as B.
    revert E B. generalize ((num + bs - 1) / bs) ((num + bs - 1) mod bs).
    intros q m E B.
    assert (num <= q * bs) as Hq by (rewrite Nat.mul_comm; lia).
    apply (samples_buffer_reblock zrow None ((q + 1) * bs) (Some bs) src s fuel num 1); auto; try lia.
    + apply Nat.divide_1_l.
    + apply Nat.divide_1_l.
    + apply Nat.divide_1_l.
Qed.
