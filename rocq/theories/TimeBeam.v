(** Delay-and-sum beamforming in the time domain: BeamformerTime,
    BeamformerTimeSq and BeamformerTimeTraj (tbeamform.py) with their kernels
    (tfastfuncs.py).  Samples, delays and amplitudes are reals. *)
From Coq Require Import List Arith Lia ZArith Bool Reals Lra.
Require Import ZifyBool ZifyNat ZifyN.
From Verif Require Import Stream Sources Buffer Wav.
Import ListNotations.
Ltac Zify.zify_post_hook ::= Z.div_mod_to_equations.
Local Open Scope nat_scope.

(* ------------------------------------------------------------------ *)
(** * A SamplesBuffer whose consumer modifies the block it receives.

    [read_from_buffer] (process.py:883-891) returns a view of the buffer; a
    consumer that writes to it ([p_res *= weights], tbeamform.py:173, or
    [time_block *= weights], tbeamform.py:428) changes the rows kept in the
    buffer.  [f] is what the consumer does to every row. *)
Fixpoint sb_loop_mut {A} (f : A -> A) (zrow : A) (w : nat -> option nat) (num snum : nat) (e : ending)
    (fuel k : nat) (st : sbuf A) : trace A :=
  match fuel with
  | 0 => raise OutOfFuel
  | S fu =>
      match (if empty st then inl st
             else fill zrow (w k) snum e (len st) (buf st) (idx st) (left st)) with
      | inr x => raise x
      | inl st1 =>
          if idx st1 <? len st1 then
            let '(y, st2) := read_from_buffer true num (w k) st1 in
            let b2 := firstn (idx st1) (buf st2) ++ map f y ++ skipn (idx st1 + length y) (buf st2) in
            let t := sb_loop_mut f zrow w num snum e fu (S k)
                       (mkBuf (len st2) b2 (idx st2) (left st2) (empty st2)) in
            mkTrace (map f y :: blocks t) (fin t)
          else done []
      end
  end.

Definition samples_buffer_mut {A} (f : A -> A) (zrow : A) (w : nat -> option nat)
    (length_ : nat) (src : source A) (fuel num : nat) : trace A :=
  let t := src num in
  sb_loop_mut f zrow w num num (fin t) fuel 0
    (mkBuf length_ (repeat zrow length_) length_ (blocks t) false).

(* what the modification does to the stream as seen through the buffer *)
Definition mut_stream {A} (f : A -> A) (c n : nat) (s : list A) : list A :=
  firstn c s ++ map f (slice c (c + n) s) ++ skipn (c + n) s.

Fixpoint gen_windows_mut {A} (f : A -> A) (s : list A) (W : nat -> nat) (h fuel k c : nat)
    : list (list A) :=
  match fuel with
  | 0 => []
  | S fu => if c <? length s
            then map f (slice c (c + W k) s)
                 :: gen_windows_mut f (mut_stream f c (W k) s) W h fu (S k) (c + h)
            else []
  end.

Lemma nth_skipn' {A} (d : A) n l j : nth j (skipn n l) d = nth (n + j) l d.
Proof.
  revert l. induction n as [|n IH]; intros l; [reflexivity|]. destruct l; [destruct j; reflexivity|].
  simpl. apply IH.
Qed.

Lemma nth_firstn_lt {A} (d : A) n l j : j < n -> nth j (firstn n l) d = nth j l d.
Proof.
  revert n l. induction j as [|j IH]; intros n l H; destruct n, l; simpl; auto; try lia.
  apply IH. lia.
Qed.

Lemma nth_map_seq {B} (h : nat -> B) a n i d : i < n -> nth i (map h (seq a n)) d = h (a + i).
Proof.
  intros H. rewrite nth_indep with (d' := h 0) by (rewrite map_length, seq_length; auto).
  rewrite map_nth, seq_nth; auto.
Qed.

Lemma slice_length {A} c n (s : list A) : length (slice c (c + n) s) = Nat.min n (length s - c).
Proof. unfold slice. rewrite skipn_length, firstn_length. lia. Qed.

Lemma mut_stream_length {A} (f : A -> A) c n s : c <= length s ->
  length (mut_stream f c n s) = length s.
Proof.
  intros H. unfold mut_stream. rewrite !app_length, map_length, slice_length, firstn_length, skipn_length.
  lia.
Qed.

Lemma mut_stream_skipn {A} (f : A -> A) c n r s : c + n <= r \/ length s <= r -> c <= length s ->
  skipn r (mut_stream f c n s) = skipn r s.
Proof.
  intros H Hc. destruct (le_lt_dec (length s) r) as [Hr|Hr].
  - rewrite !skipn_all2; auto. rewrite mut_stream_length; auto.
  - destruct H as [H|H]; [|lia]. unfold mut_stream.
    rewrite app_assoc, skipn_app.
    rewrite (skipn_all2 (firstn c s ++ _)).
    + rewrite app_nil_l, app_length, map_length, slice_length, firstn_length, skipn_skipn'.
      f_equal. lia.
    + rewrite app_length, map_length, slice_length, firstn_length. lia.
Qed.

Lemma mut_stream_slice {A} (f : A -> A) c n r s :
  c <= r -> (c + n <= r \/ length s = r) -> r <= length s ->
  slice c r (mut_stream f c n s)
  = map f (slice c (c + n) s) ++ skipn n (slice c r s).
Proof.
  intros Hc Hr Hl. unfold slice at 1. unfold mut_stream.
  rewrite firstn_app, firstn_all2 by (rewrite firstn_length; lia).
  rewrite skipn_app, (skipn_all2 (firstn c s)) by (rewrite firstn_length; lia).
  rewrite firstn_length, (Nat.min_l c) by lia.
  replace (c - c) with 0 by lia. rewrite app_nil_l, skipn_O.
  rewrite firstn_app, map_length, slice_length.
  rewrite firstn_all2 by (rewrite map_length, slice_length; lia).
  f_equal. unfold slice. rewrite skipn_skipn', skipn_firstn_comm, (Nat.add_comm n c).
  destruct Hr as [Hr|Hr].
  - rewrite Nat.min_l by lia. f_equal. lia.
  - rewrite (firstn_all2 (skipn (c + n) s)) by (rewrite skipn_length; lia).
    rewrite firstn_all2; auto. rewrite skipn_length. lia.
Qed.

Section MutLoop.
Context {A : Type} (f : A -> A) (zrow : A) (w : nat -> option nat) (num L0 g : nat).
Let W k := match w k with None => num | Some r => r end.
Hypothesis HL0 : num < L0 \/ (num = 1 /\ L0 = 1).
Hypothesis HW : forall k, 0 < W k.
Hypothesis Hnum : 0 < num.
Hypothesis Hg : 0 < g.
Hypothesis Hgs : Nat.divide g num.
Hypothesis HgL : Nat.divide g L0.
Hypothesis Hcond : forall k, W k + num <= L0 + g \/ (g = num /\ w k <> None).

Lemma sb_loop_mut_ok : forall fuel k st c r q (s : list A),
  length s - c < fuel ->
  Inv s num c r (len st) (buf st) (idx st) (left st) ->
  len st = L0 + q * num ->
  (empty st = true -> r = length s) ->
  (r = length s \/ exists j, r = j * num) ->
  (c < length s -> Nat.divide g c) ->
  (c < length s -> num <= idx st \/ empty st = true) ->
  sb_loop_mut f zrow w num num Finished fuel k st = done (gen_windows_mut f s W num fuel k c).
Proof.
  induction fuel as [|fu IH]; intros k st c r q s Hf HI Hlen Hem Hr Hgc Hidx; [lia|].
  cbn [sb_loop_mut gen_windows_mut].
  assert (exists st1 q1 r1,
    (if empty st then inl st else fill zrow (w k) num Finished (len st) (buf st) (idx st) (left st)) = inl st1
    /\ len st1 = L0 + q1 * num
    /\ Inv s num c r1 (len st1) (buf st1) (idx st1) (left st1)
    /\ (empty st1 = true -> r1 = length s)
    /\ (r1 = length s \/ exists j, r1 = j * num)
    /\ (r1 < length s -> idx st1 < num)
    /\ (r1 < length s -> forall x, w k = Some x -> num <= idx st -> x <= len st1)
    /\ (r1 < length s -> empty st = false)) as (st1 & q1 & r1 & -> & H1 & H2 & H3 & H4 & H5 & H6 & H6').
  { destruct (empty st) eqn:Ee.
    - exists st, q, r. rewrite Ee. repeat match goal with |- _ /\ _ => split end; auto;
        intros; specialize (Hem eq_refl); lia.
    - destruct (fill_ok zrow (w k) num s c Hnum (left st) (len st) (buf st) (idx st) r HI)
        as (st1 & q1 & r1 & E & F1 & F2 & F3 & F4 & F5 & F6 & F7 & F8); auto; [lia|].
      exists st1, (q + q1), r1. rewrite E.
      repeat match goal with |- _ /\ _ => split end; auto; [lia|].
      intros Hlt. apply F8. destruct (empty st1); auto. specialize (F3 eq_refl). lia. }
  destruct H2 as (I1 & I2 & I3 & I4 & I5).
  assert (idx st1 < len st1 <-> c < length s) as Hiff.
  { destruct (Nat.eq_dec r1 (length s)); [lia|]. specialize (H5 ltac:(lia)). lia. }
  destruct (Nat.ltb_spec (idx st1) (len st1)) as [Hlt|Hge].
  2:{ rewrite (proj2 (Nat.ltb_ge c (length s))) by lia. reflexivity. }
  rewrite (proj2 (Nat.ltb_lt c (length s))) by (now apply Hiff).
  pose proof (proj1 Hiff Hlt) as Hc.
  unfold read_from_buffer. fold (W k).
  assert (r1 < length s -> W k <= len st1 - idx st1) as Hfull.
  { intros Hrl. specialize (H5 Hrl). specialize (H6 Hrl). specialize (H6' Hrl).
    assert (Nat.divide g (idx st1)) as Hgi.
    { destruct H4 as [H4|(j & H4)]; [lia|].
      assert (Nat.divide g (len st1 + c)) as D1.
      { rewrite H1. apply Nat.divide_add_r; [apply Nat.divide_add_r; auto|auto].
        now apply Nat.divide_mul_r. }
      assert (Nat.divide g r1) as D2 by (rewrite H4; now apply Nat.divide_mul_r).
      apply (Nat.divide_add_cancel_r g r1); auto. now rewrite Nat.add_comm, I2. }
    destruct Hgi as (x & Hx). destruct Hgs as (y & Hy).
    assert (idx st1 + g <= num) as Hig.
    { rewrite Hx, Hy in H5 |- *. clear - H5 Hg. assert (x < y) by nia. nia. }
    destruct (Hcond k) as [Hk|(Eg & Hw)].
    - lia.
    - destruct (w k) as [wk|] eqn:Ew; [|congruence].
      destruct (Hidx Hc) as [Hi|Hi]; [|congruence].
      specialize (H6 wk eq_refl Hi). unfold W. rewrite Ew. lia. }
  set (rnum := if W k <=? len st1 - idx st1 then W k else len st1 - idx st1).
  assert (rnum = Nat.min (W k) (r1 - c)) as Hrn.
  { unfold rnum. destruct (Nat.leb_spec (W k) (len st1 - idx st1)); lia. }
  assert (slice (idx st1) (idx st1 + rnum) (buf st1) = slice c (c + W k) s) as Hread.
  { unfold slice. rewrite skipn_firstn_comm. replace (idx st1 + rnum - idx st1) with rnum by lia.
    rewrite I4. unfold slice. rewrite !skipn_firstn_comm, firstn_firstn'.
    destruct (Nat.eq_dec r1 (length s)) as [E|E].
    - rewrite Hrn, E. replace (c + W k - c) with (W k) by lia.
      destruct (le_lt_dec (W k) (length s - c)).
      + f_equal. lia.
      + rewrite !firstn_all2; auto; rewrite skipn_length; lia.
    - specialize (Hfull ltac:(lia)). f_equal. lia. }
  rewrite Hread. cbn [buf len idx left empty].
  set (y := slice c (c + W k) s).
  assert (length y = rnum) as Hy.
  { unfold y. rewrite slice_length, Hrn.
    destruct (Nat.eq_dec r1 (length s)) as [E|E]; [lia|]. specialize (Hfull ltac:(lia)). lia. }
  assert (c + W k <= r1 \/ length s = r1) as Hcase.
  { destruct (Nat.eq_dec r1 (length s)); [lia|]. specialize (Hfull ltac:(lia)). lia. }
  assert (length (mut_stream f c (W k) s) = length s) as Hml by (apply mut_stream_length; lia).
  rewrite (IH (S k) _ (c + num) r1 q1 (mut_stream f c (W k) s)); cbn [len buf idx left empty]; auto.
  - lia.
  - split; [rewrite !app_length, map_length, firstn_length, skipn_length; lia|].
    split; [lia|]. split; [lia|]. split.
    + assert (skipn (idx st1) (firstn (idx st1) (buf st1) ++ map f y ++ skipn (idx st1 + length y) (buf st1))
              = slice c r1 (mut_stream f c (W k) s)) as Hs1.
      { rewrite skipn_app, skipn_all2 by (rewrite firstn_length; lia).
        rewrite firstn_length, Nat.min_l by lia. rewrite Nat.sub_diag, skipn_O, app_nil_l.
        rewrite mut_stream_slice by lia. fold y. f_equal.
        rewrite Hy, (Nat.add_comm (idx st1)), <- skipn_skipn', I4.
        destruct Hcase as [Hca|Hca].
        - f_equal. lia.
        - destruct (le_lt_dec (W k) (r1 - c)) as [Hle|Hgt]; [f_equal; lia|].
          rewrite (skipn_all2 (n := rnum)), (skipn_all2 (n := W k)); auto; unfold slice; rewrite skipn_length, firstn_length; lia. }
      rewrite (Nat.add_comm (idx st1) num), <- skipn_skipn', Hs1. unfold slice.
      rewrite skipn_skipn'. f_equal. lia.
    + rewrite I5. f_equal. symmetry. apply mut_stream_skipn; lia.
  - rewrite Hml. intros E. apply H3 in E. auto.
  - rewrite Hml. auto.
  - rewrite Hml. intros _. apply Nat.divide_add_r; auto.
  - rewrite Hml. intros _. left. lia.
Qed.
End MutLoop.

(** Specification: window [k] with row [i] changed as often as it has been in
    a window up to [k]. *)
Definition seen (W : nat -> nat) (num k i : nat) : nat :=
  length (filter (fun j => (j * num <=? i) && (i <? j * num + W j)) (seq 0 k)).

Definition mstream {A} (f : A -> A) (d : A) (W : nat -> nat) (num k : nat) (s : list A) : list A :=
  map (fun i => Nat.iter (seen W num k i) f (nth i s d)) (seq 0 (length s)).

Definition mwindow {A} (f : A -> A) (d : A) (W : nat -> nat) (num : nat) (s : list A) (k : nat) : list A :=
  map (fun i => Nat.iter (seen W num (S k) i) f (nth i s d))
      (seq (k * num) (Nat.min (W k) (length s - k * num))).

Lemma mstream_length {A} (f : A -> A) d W num k s : length (mstream f d W num k s) = length s.
Proof. unfold mstream. now rewrite map_length, seq_length. Qed.

Lemma seen_succ W num k i :
  seen W num (S k) i = seen W num k i + (if (k * num <=? i) && (i <? k * num + W k) then 1 else 0).
Proof.
  unfold seen. rewrite seq_S, filter_app, app_length. f_equal. simpl.
  destruct ((k * num <=? i) && (i <? k * num + W k)); reflexivity.
Qed.

Lemma nth_mstream {A} (f : A -> A) d W num k s i : i < length s ->
  nth i (mstream f d W num k s) d = Nat.iter (seen W num k i) f (nth i s d).
Proof.
  intros Hi. unfold mstream.
  rewrite nth_indep with (d' := (fun i => Nat.iter (seen W num k i) f (nth i s d)) 0)
    by (rewrite map_length, seq_length; auto).
  rewrite (map_nth (fun i => Nat.iter (seen W num k i) f (nth i s d))).
  rewrite seq_nth; auto.
Qed.

Lemma nth_slice {A} c n i (s : list A) d : i < n -> nth i (slice c (c + n) s) d = nth (c + i) s d.
Proof.
  intros H. unfold slice. rewrite nth_skipn'.
  destruct (le_lt_dec (length s) (c + i)).
  - rewrite !nth_overflow; auto. rewrite firstn_length. lia.
  - apply nth_firstn_lt. lia.
Qed.

Lemma mut_mstream {A} (f : A -> A) d W num k s : k * num <= length s ->
  mut_stream f (k * num) (W k) (mstream f d W num k s) = mstream f d W num (S k) s.
Proof.
  intros Hk. apply (nth_ext _ _ d d).
  - rewrite mut_stream_length; rewrite !mstream_length; auto.
  - rewrite mut_stream_length by (rewrite mstream_length; auto). rewrite mstream_length.
    intros i Hi. rewrite nth_mstream, seen_succ by auto.
    unfold mut_stream. set (S1 := mstream f d W num k s).
    assert (length S1 = length s) as L1 by apply mstream_length.
    destruct (Nat.leb_spec (k * num) i) as [H1|H1].
    2:{ rewrite app_nth1 by (rewrite firstn_length; lia). simpl andb. cbv iota. rewrite Nat.add_0_r.
        rewrite nth_firstn_lt by lia. apply nth_mstream; auto. }
    rewrite app_nth2; rewrite firstn_length, L1, Nat.min_l by lia; [|lia].
    destruct (Nat.ltb_spec i (k * num + W k)) as [H2|H2].
    + rewrite app_nth1 by (rewrite map_length, slice_length, L1; lia).
      rewrite nth_indep with (d' := f d) by (rewrite map_length, slice_length, L1; lia).
      rewrite map_nth, nth_slice by lia.
      replace (k * num + (i - k * num)) with i by lia.
      unfold S1. rewrite nth_mstream by auto. simpl andb. cbv iota. rewrite Nat.add_1_r. reflexivity.
    + rewrite app_nth2; rewrite map_length, slice_length, L1; [|lia].
      rewrite nth_skipn'. simpl andb. cbv iota. rewrite Nat.add_0_r.
      replace (k * num + W k + (i - k * num - Nat.min (W k) (length s - k * num))) with i by lia.
      apply nth_mstream; auto.
Qed.

Lemma mwindow_slice {A} (f : A -> A) d W num k s : k * num < length s ->
  map f (slice (k * num) (k * num + W k) (mstream f d W num k s)) = mwindow f d W num s k.
Proof.
  intros Hk. unfold mwindow.
  apply (nth_ext _ _ (f d) (f d)).
  - rewrite !map_length, slice_length, mstream_length, seq_length. reflexivity.
  - rewrite map_length, slice_length, mstream_length. intros i Hi.
    rewrite map_nth, nth_slice, nth_mstream by lia.
    rewrite nth_map_seq by lia. rewrite seen_succ.
    destruct (Nat.leb_spec (k * num) (k * num + i)); [|lia].
    destruct (Nat.ltb_spec (k * num + i) (k * num + W k)); [|lia].
    simpl andb. cbv iota. rewrite Nat.add_1_r. reflexivity.
Qed.

Lemma ceil_div_lt n h k : 0 < h -> (k * h < n <-> k < (n + h - 1) / h).
Proof.
  intros Hh.
  pose proof (Nat.div_mod (n + h - 1) h ltac:(lia)) as E.
  pose proof (Nat.mod_upper_bound (n + h - 1) h ltac:(lia)) as B.
  revert E B. generalize ((n + h - 1) / h) ((n + h - 1) mod h). intros q m E B.
  clear - E B Hh. split; intros; nia.
Qed.

Lemma gen_windows_mut_seq {A} (f : A -> A) d W num s : 0 < num -> forall fuel k,
  length s - k * num < fuel ->
  gen_windows_mut f (mstream f d W num k s) W num fuel k (k * num)
  = map (mwindow f d W num s) (seq k ((length s + num - 1) / num - k)).
Proof.
  intros Hn. induction fuel as [|fu IH]; intros k Hf; [lia|].
  cbn [gen_windows_mut]. rewrite mstream_length.
  pose proof (ceil_div_lt (length s) num k Hn) as Hiff.
  destruct (Nat.ltb_spec (k * num) (length s)) as [Hlt|Hge].
  - pose proof (proj1 Hiff Hlt).
    replace ((length s + num - 1) / num - k) with (S ((length s + num - 1) / num - S k)) by lia.
    cbn [seq map]. rewrite mwindow_slice by auto. f_equal.
    rewrite mut_mstream by lia. replace (k * num + num) with (S k * num) by lia. apply IH. lia.
  - replace ((length s + num - 1) / num - k) with 0; auto.
    destruct (le_lt_dec ((length s + num - 1) / num) k); [lia|]. apply Hiff in l. lia.
Qed.

Theorem samples_buffer_mut_windows {A} (f : A -> A) (zrow d : A) (w : nat -> option nat) L (src : source A) s fuel num g :
  let W k := match w k with None => num | Some r => r end in
  wf_source src s -> 0 < num -> (num < L \/ (num = 1 /\ L = 1)) ->
  (forall k, 0 < W k) ->
  0 < g -> Nat.divide g num -> Nat.divide g L ->
  (forall k, W k + num <= L + g \/ (g = num /\ w k <> None)) ->
  length s < fuel ->
  samples_buffer_mut f zrow w L src fuel num
  = done (map (mwindow f d W num s) (seq 0 ((length s + num - 1) / num))).
Proof.
  intros W Hw Hn HL HW Hg D1 D2 Hc Hf. unfold samples_buffer_mut.
  rewrite (wf_source_eq src s) by auto. cbn [blocks fin done].
  rewrite (sb_loop_mut_ok f zrow w num L g) with (c := 0) (r := 0) (q := 0) (s := s); auto;
    cbn [len buf idx left empty].
  - f_equal. pose proof (gen_windows_mut_seq f d W num s Hn fuel 0 ltac:(lia)) as E.
    rewrite Nat.sub_0_r in E. rewrite <- E. simpl Nat.mul. f_equal.
    apply (nth_ext _ _ d d).
    + now rewrite mstream_length.
    + intros i Hi. rewrite nth_mstream; auto.
  - lia.
  - apply sb_init_inv.
  - discriminate.
  - right. exists 0. reflexivity.
  - intros _. exists 0. reflexivity.
  - intros _. left. destruct HL; lia.
Qed.

(** The two uses: a fixed window (BeamformerTime) and a window chosen block by
    block (BeamformerTimeTraj). *)
Theorem samples_buffer_mut_users {A} (f : A -> A) (zrow d : A) (src : source A) s fuel num :
  wf_source src s -> 0 < num -> length s < fuel ->
  (forall delay, 0 < delay ->
     samples_buffer_mut f zrow (fun _ => Some (num + delay)) ((num + delay + num - 1) / num * num)
       src fuel num
     = done (map (mwindow f d (fun _ => num + delay) num s) (seq 0 ((length s + num - 1) / num))))
  /\ (forall delay,
     samples_buffer_mut f zrow (fun k => Some (num + delay k)) (num * 2) src fuel num
     = done (map (mwindow f d (fun k => num + delay k) num s) (seq 0 ((length s + num - 1) / num)))).
Proof.
  intros Hw Hn Hf. split.
  - intros delay Hd.
    pose proof (Nat.div_mod (num + delay + num - 1) num ltac:(lia)) as E.
    pose proof (Nat.mod_upper_bound (num + delay + num - 1) num ltac:(lia)) as B.
    revert E B. generalize ((num + delay + num - 1) / num) ((num + delay + num - 1) mod num).
    intros q m E B.
    assert (num + delay <= q * num) as Hq by (rewrite Nat.mul_comm; lia).
    apply (samples_buffer_mut_windows f zrow d (fun _ => Some (num + delay)) (q * num) src s fuel num num);
      auto; try lia; try apply Nat.divide_refl; try apply Nat.divide_factor_r.
  - intros delay.
    apply (samples_buffer_mut_windows f zrow d (fun k => Some (num + delay k)) (num * 2) src s fuel num num);
      auto; try lia; try apply Nat.divide_refl; try apply Nat.divide_factor_l.
    intros k. right. split; [reflexivity|discriminate].
Qed.
