(** Frames for the FFT: BaseSpectra._get_source_data and
    PowerSpectra.num_blocks (/repo/acoular/spectra.py), RFFT.result
    (/repo/acoular/fprocess.py). *)
From Coq Require Import List Arith Lia ZArith Bool Reals Lra.
Require Import ZifyBool ZifyNat ZifyN.
From Verif Require Import Stream Buffer.
Import ListNotations.
Ltac Zify.zify_post_hook ::= Z.div_mod_to_equations.
Local Open Scope nat_scope.

(** BaseSpectra._get_source_data, spectra.py:182-195.  [pos] is the code's
    (fractional) position times [ov], where [posinc = bs/ov]: all values of
    the code's [pos] are multiples of [1/ov].  [temp] has [2*bs] rows.
    [frame_loop] is the inner [while]. *)
Fixpoint frame_loop {A} (fuel bs ov ns : nat) (temp : list A) (pos : nat) : list (list A) * nat * bool :=
  if pos + bs * ov <=? (bs + ns) * ov then
    match fuel with
    | 0 => ([], pos, false)
    | S f =>
        let '(ys, p, ok) := frame_loop f bs ov ns temp (pos + bs) in
        (slice (pos / ov) ((pos + bs * ov) / ov) temp :: ys, p, ok)
    end
  else ([], pos, true).

Fixpoint source_data_loop {A} (bs ov : nat) (blks : list (list A)) (e : ending) (temp : list A) (pos : nat)
    : trace A :=
  match blks with
  | [] => mkTrace [] e
  | d :: blks' =>
      match np_assign temp bs (bs + length d) d with
      | None => raise ValueError
      | Some temp1 =>
          match frame_loop (S ov) bs ov (length d) temp1 pos with
          | (ys, _, false) => mkTrace ys (Raised OutOfFuel)
          | (ys, pos1, true) =>
              match np_assign temp1 0 bs (skipn bs temp1) with
              | None => mkTrace ys (Raised ValueError)
              | Some temp2 =>
                  let t := source_data_loop bs ov blks' e temp2 (pos1 - bs * ov) in
                  mkTrace (ys ++ blocks t) (fin t)
              end
          end
      end
  end.

Definition get_source_data {A} (garbage : nat -> A) (bs ov : nat) (src : source A) : trace A :=
  source_data_loop bs ov (blocks (src bs)) (fin (src bs)) (map garbage (seq 0 (2 * bs))) (bs * ov).

(** PowerSpectra.num_blocks, spectra.py:287-289 (a real number). *)
Definition num_blocks (ov n bs : nat) : R := (INR ov * INR n / INR bs - INR ov + 1)%R.

(** RFFT.num_samples, fprocess.py:95-99. *)
Definition rfft_num_samples (n bs : nat) : nat := n / bs.

(** RFFT.result, fprocess.py:158-171; [spec] is the windowed, scaled transform
    of one frame, [zrow] a row of zeros. *)
Fixpoint rfft_loop {A B} (spec : list A -> B) (num : nat) (frames : list (list A)) (i : nat)
    (fftdata : list B) (j : nat) : list (list B) * list B * nat :=
  match frames with
  | [] => ([], fftdata, j)
  | f :: frames' =>
      let j := i mod num in
      let fftdata := firstn j fftdata ++ [spec f] ++ skipn (S j) fftdata in
      let '(ys, d, j') := rfft_loop spec num frames' (S i) fftdata j in
      (if j =? num - 1 then fftdata :: ys else ys, d, j')
  end.

Definition rfft_result {A B} (spec : list A -> B) (zrow : B) (garbage : nat -> A) (bs ov : nat)
    (src : source A) (num : nat) : trace B :=
  let t := get_source_data garbage bs ov src in
  let '(ys, d, j) := rfft_loop spec num (blocks t) 0 (repeat zrow num) 0 in
  match fin t with
  | Raised e => mkTrace ys (Raised e)
  | Finished => done (ys ++ if j <? num - 1 then [firstn (S j) d] else [])
  end.

(* ------------------------------------------------------------------ *)
(** * Specification *)

(** The number of frames: the [k] with [k*bs/ov + bs <= n]. *)
Definition frame_count (bs ov n : nat) : nat := if n <? bs then 0 else ((n - bs) * ov) / bs + 1.

(** Frame [k] starts at row [floor(k*bs/ov)]. *)
Definition frames_of {A} (bs ov : nat) (s : list A) : list (list A) :=
  map (fun k => window (k * bs / ov) bs s) (seq 0 (frame_count bs ov (length s))).

(** [frame_count] counts exactly the frames that fit. *)
Lemma frame_count_fits bs ov n k : 0 < bs -> 0 < ov ->
  (k < frame_count bs ov n <-> k * bs + bs * ov <= n * ov).
Proof.
  intros Hb Ho. unfold frame_count. destruct (Nat.ltb_spec n bs).
  - split; [lia|]. nia.
  - pose proof (Nat.div_mod ((n - bs) * ov) bs ltac:(lia)) as E.
    pose proof (Nat.mod_upper_bound ((n - bs) * ov) bs ltac:(lia)) as B.
    revert E B. generalize (((n - bs) * ov) / bs) (((n - bs) * ov) mod bs). intros q m E B.
    assert ((n - bs) * ov + bs * ov = n * ov) by nia.
    split; intros; nia.
Qed.

Lemma frame_in_stream bs ov n k : 0 < bs -> 0 < ov ->
  k < frame_count bs ov n -> k * bs / ov + bs <= n.
Proof.
  intros Hb Ho Hk. apply frame_count_fits in Hk; auto.
  pose proof (Nat.div_mod (k * bs) ov ltac:(lia)) as E.
  revert E. generalize (k * bs / ov) (k * bs mod ov). intros q m E. nia.
Qed.

(* ------------------------------------------------------------------ *)
(** * Frames *)

(** The inner loop on one block: [pos] stands for frame number [k] of the
    stream when [T] rows have been received before this block. *)
Lemma frame_loop_ok {A} bs ov ns (temp : list A) : 0 < bs -> 0 < ov -> ns <= bs ->
  forall fuel pos, 0 < pos -> (ns + bs) * ov < pos + fuel * bs + bs * ov ->
  exists m, frame_loop fuel bs ov ns temp pos
    = (map (fun i => slice ((pos + i * bs) / ov) ((pos + i * bs) / ov + bs) temp) (seq 0 m),
       pos + m * bs, true)
    /\ ns * ov < pos + m * bs
    /\ (forall i, i < m -> pos + i * bs <= ns * ov).
Proof.
  intros Hb Ho Hns. induction fuel as [|f IH]; intros pos Hp Hf; cbn [frame_loop].
  - destruct (Nat.leb_spec (pos + bs * ov) ((bs + ns) * ov)); [nia|].
    exists 0. simpl. rewrite Nat.add_0_r. split; auto. split; [nia|lia].
  - destruct (Nat.leb_spec (pos + bs * ov) ((bs + ns) * ov)).
    + destruct (IH (pos + bs) ltac:(lia) ltac:(nia)) as (m & E & H1 & H2).
      exists (S m). rewrite E. split; [|split].
      * f_equal. f_equal; [|nia]. cbn [seq map]. f_equal.
        -- rewrite Nat.mul_0_l, Nat.add_0_r. f_equal.
           rewrite Nat.div_add by lia. reflexivity.
        -- rewrite <- seq_shift, map_map. apply map_ext. intros i.
           replace (pos + bs + i * bs) with (pos + S i * bs) by lia. reflexivity.
      * lia.
      * intros [|i] Hi; [nia|]. specialize (H2 i ltac:(lia)). lia.
    + exists 0. simpl. rewrite Nat.add_0_r. split; auto. split; [nia|lia].
Qed.

(** Invariant of the outer loop: [T] rows received, [k] frames yielded, the
    left half of [temp] holds the last [bs] rows (when any were received). *)
Lemma source_data_loop_ok {A} bs ov (s : list A) : 0 < bs -> 0 < ov ->
  forall j temp k,
  length temp = 2 * bs -> j * bs <= length s ->
  (j = 0 \/ firstn bs temp = window ((j - 1) * bs) bs s) ->
  j * bs * ov < k * bs + bs * ov -> (j = 0 -> k = 0) ->
  source_data_loop bs ov (chunks bs (skipn (j * bs) s)) Finished temp (k * bs + bs * ov - j * bs * ov)
  = done (map (fun k => window (k * bs / ov) bs s)
            (seq k (frame_count bs ov (length s) - k))).
Proof.
  intros Hb Ho j. remember (length s - j * bs) as d eqn:Hd. revert j Hd.
  induction d as [d IH] using lt_wf_ind. intros j Hd temp k Hlt Hj Htemp Hpos Hk0.
  destruct (Nat.eq_dec (j * bs) (length s)) as [He|Hne].
  - rewrite skipn_all2 by lia. rewrite chunks_nil. cbn [source_data_loop].
    assert (frame_count bs ov (length s) <= k) as Hle.
    { destruct (le_lt_dec (frame_count bs ov (length s)) k); auto.
      apply frame_count_fits in l; auto. nia. }
    replace (frame_count bs ov (length s) - k) with 0 by lia. reflexivity.
  - assert (skipn (j * bs) s <> []) as Hnn.
    { intros E. apply (f_equal (@length A)) in E. rewrite skipn_length in E. simpl in E. lia. }
    rewrite chunks_step by auto. cbn [source_data_loop].
    set (b := firstn bs (skipn (j * bs) s)).
    assert (length b = Nat.min bs (length s - j * bs)) as Hlb
      by (unfold b; rewrite firstn_length, skipn_length; reflexivity).
    rewrite np_assign_exact by lia.
    set (temp1 := firstn bs temp ++ b ++ skipn (bs + length b) temp).
    assert (length (firstn bs temp) = bs) as Hl1 by (rewrite firstn_length; lia).
    assert (length temp1 = 2 * bs) as Hl2.
    { unfold temp1. rewrite !app_length, skipn_length. lia. }
    set (pos := k * bs + bs * ov - j * bs * ov).
    assert (0 < pos) as Hp by (unfold pos; lia).
    destruct (frame_loop_ok bs ov (length b) temp1 Hb Ho ltac:(lia) (S ov) pos Hp) as (m & E & H1 & H2).
    { unfold pos. nia. }
    rewrite E.
    (* what temp1 holds *)
    assert (forall p, bs <= p \/ j <> 0 -> p <= length b ->
              slice p (p + bs) temp1 = window (j * bs + p - bs) bs s) as Hwin.
    { intros p Hp1 Hp2.
      assert (firstn (bs + length b) temp1 = firstn bs temp ++ b) as F.
      { unfold temp1. rewrite app_assoc. apply firstn_app_exact. rewrite app_length. lia. }
      assert (slice p (p + bs) temp1 = slice p (p + bs) (firstn bs temp ++ b)) as ->.
      { rewrite <- F. unfold slice. rewrite firstn_firstn'. f_equal. f_equal. lia. }
      destruct Htemp as [->|Ht].
      - rewrite slice_window. unfold window. rewrite skipn_app, skipn_all2 by lia.
        rewrite Hl1. cbn [app]. unfold b. rewrite skipn_firstn_comm, skipn_skipn'.
        assert (p = bs) as -> by lia. rewrite firstn_firstn'. f_equal; [lia|]. f_equal. lia.
      - destruct (Nat.eq_dec j 0) as [Ej|Ej].
        { assert (p = bs) as -> by lia. rewrite slice_window. unfold window.
          rewrite skipn_app, skipn_all2 by lia. rewrite Hl1, Nat.sub_diag. cbn [app skipn].
          unfold b. rewrite firstn_firstn', Nat.min_id. f_equal. f_equal. lia. }
        assert (firstn bs temp ++ b = window ((j - 1) * bs) (2 * bs) s) as ->.
        { rewrite Ht. unfold window, b.
          replace (2 * bs) with (bs + bs) by lia.
          rewrite <- (firstn_skipn bs (firstn (bs + bs) (skipn ((j - 1) * bs) s))).
          rewrite firstn_firstn', Nat.min_l by lia. f_equal.
          rewrite skipn_firstn_comm, skipn_skipn'. f_equal; [lia|]. f_equal. nia. }
        rewrite slice_window. unfold window. rewrite skipn_firstn_comm, skipn_skipn', firstn_firstn'.
        f_equal; [|f_equal; nia]. lia. }
    assert (skipn bs temp1 = b ++ skipn (bs + length b) temp) as Hs1.
    { unfold temp1. now apply skipn_app_exact. }
    rewrite np_assign_exact by (rewrite ?skipn_length; lia).
    rewrite firstn_O, app_nil_l.
    set (temp2 := skipn bs temp1 ++ skipn bs temp1).
    (* the frames of this block *)
    assert (map (fun i => slice ((pos + i * bs) / ov) ((pos + i * bs) / ov + bs) temp1) (seq 0 m)
            = map (fun k => window (k * bs / ov) bs s) (seq k m)) as Hys.
    { assert (seq k m = map (fun i => k + i) (seq 0 m)) as ->.
      { clear. revert k. induction m as [|m IHm]; intros k; auto. simpl. f_equal; [lia|].
        rewrite (IHm (S k)). rewrite <- seq_shift, map_map. apply map_ext. intros. lia. }
      rewrite map_map. apply map_ext_in. intros i Hi. apply in_seq in Hi.
      specialize (H2 i ltac:(lia)).
      assert ((pos + i * bs) / ov <= length b) as Hle.
      { apply Nat.div_le_upper_bound; [lia|]. nia. }
      assert (pos + i * bs + j * bs * ov = (k + i) * bs + bs * ov) as Epos by (unfold pos; nia).
      assert ((pos + i * bs) / ov + j * bs = (k + i) * bs / ov + bs) as Ediv.
      { rewrite <- (Nat.div_add (pos + i * bs)) by lia. rewrite Epos. rewrite Nat.div_add by lia. reflexivity. }
      rewrite Hwin; auto.
      - f_equal. clear - Ediv. revert Ediv.
        generalize ((pos + i * bs) / ov) ((k + i) * bs / ov) (j * bs). lia.
      - destruct j; [left|right; lia]. clear - Ediv. rewrite Nat.mul_0_l in Ediv. revert Ediv.
        generalize ((pos + i * bs) / ov) ((k + i) * bs / ov). lia. }
    rewrite Hys.
    assert (pos + m * bs - bs * ov = (k + m) * bs + bs * ov - S j * bs * ov) as Enext.
    { unfold pos in *. replace (S j * bs * ov) with (j * bs * ov + bs * ov) by (simpl; ring).
      rewrite (Nat.mul_add_distr_r k m bs). clear - Hpos.
      revert Hpos. generalize (j * bs * ov) (k * bs) (bs * ov) (m * bs). lia. }
    destruct (le_lt_dec (length s) (S j * bs)) as [Hlast|Hmore].
    + (* last block *)
      rewrite skipn_skipn'. rewrite (skipn_all2 s) by lia. rewrite chunks_nil. cbn [source_data_loop].
      unfold done. cbn [blocks fin]. rewrite app_nil_r. f_equal. f_equal. f_equal.
      assert (j * bs + length b = length s) as Hb2 by lia.
      assert (~ (k + m < frame_count bs ov (length s))) as N1.
      { intros Hlt2. apply frame_count_fits in Hlt2; auto. unfold pos in H1. nia. }
      destruct (Nat.eq_dec m 0) as [->|Hm]; [lia|].
      assert (k + m - 1 < frame_count bs ov (length s)) as N2.
      { apply frame_count_fits; auto. specialize (H2 (m - 1) ltac:(lia)). unfold pos in H2. nia. }
      lia.
    + assert (length b = bs) as Hfull by lia.
      rewrite skipn_skipn'. replace (bs + j * bs) with (S j * bs) by lia.
      rewrite Enext.
      rewrite (IH (length s - S j * bs)); auto; try lia.
      * unfold done. cbn [blocks fin]. rewrite <- map_app. f_equal. f_equal.
        assert (m <= frame_count bs ov (length s) - k) as Hm.
        { destruct (Nat.eq_dec m 0) as [->|Hm]; [lia|].
          assert (k + m - 1 < frame_count bs ov (length s)); [|lia].
          apply frame_count_fits; auto. specialize (H2 (m - 1) ltac:(lia)).
          unfold pos in H2. rewrite Hfull in H2. nia. }
        rewrite <- seq_app. f_equal. lia.
      * unfold temp2. rewrite app_length, skipn_length. lia.
      * right. unfold temp2.
        rewrite firstn_app_exact by (rewrite skipn_length; lia).
        rewrite Hs1. rewrite (skipn_all2 temp) by lia. rewrite app_nil_r.
        unfold b, window. f_equal. f_equal. lia.
Qed.

Theorem get_source_data_frames {A} garbage bs ov (src : source A) s :
  wf_source src s -> 0 < bs -> 0 < ov ->
  get_source_data garbage bs ov src = done (frames_of bs ov s).
Proof.
  intros Hw Hb Ho. unfold get_source_data. rewrite (wf_source_eq src s) by auto. cbn [blocks fin done].
  pose proof (source_data_loop_ok bs ov s Hb Ho 0 (map garbage (seq 0 (2 * bs))) 0) as H.
  rewrite Nat.mul_0_l, skipn_O, !Nat.mul_0_l, Nat.add_0_l, !Nat.sub_0_r in H.
  rewrite H; auto; try lia.
  - rewrite map_length, seq_length. reflexivity.
Qed.

(* ------------------------------------------------------------------ *)
(** * num_blocks *)

Lemma num_blocks_excess ov n bs : 0 < bs -> bs <= n ->
  num_blocks ov n bs = (INR (frame_count bs ov n) + INR (((n - bs) * ov) mod bs) / INR bs)%R.
Proof.
  intros Hb Hn. unfold num_blocks, frame_count. rewrite (proj2 (Nat.ltb_ge n bs)) by auto.
  assert (INR bs <> 0%R) as Hbr by (apply not_0_INR; lia).
  pose proof (Nat.div_mod ((n - bs) * ov) bs ltac:(lia)) as E.
  revert E. generalize (((n - bs) * ov) / bs) (((n - bs) * ov) mod bs). intros q m E.
  apply (f_equal INR) in E. rewrite plus_INR, !mult_INR, minus_INR in E by auto.
  rewrite plus_INR. simpl (INR 1).
  apply Rmult_eq_reg_r with (INR bs); auto. field_simplify; auto.
  lra.
Qed.

(** num_blocks counts the frames exactly when the last frame ends with the
    stream (up to less than one hop: [bs] divides [n*ov]). *)
Theorem num_blocks_iff ov n bs : 0 < bs -> bs <= n ->
  (num_blocks ov n bs = INR (frame_count bs ov n) <-> Nat.divide bs (n * ov)).
Proof.
  intros Hb Hn. rewrite num_blocks_excess by auto.
  assert (0 < INR bs)%R as Hbr by (apply lt_0_INR; lia).
  set (m := ((n - bs) * ov) mod bs).
  assert ((INR m / INR bs)%R = 0%R <-> m = 0) as Hm.
  { split.
    - intros E. apply INR_eq. simpl. apply Rmult_eq_reg_r with (/ INR bs)%R.
      + unfold Rdiv in E. lra.
      + apply Rinv_neq_0_compat. lra.
    - intros ->. simpl. unfold Rdiv. lra. }
  split.
  - intros E. assert (m = 0) as E0 by (apply Hm; lra).
    apply Nat.mod_divide in E0; [|lia]. destruct E0 as (q & Hq). exists (q + ov). nia.
  - intros (q & Hq). assert (m = 0) as E0.
    { apply Nat.mod_divide; [lia|]. exists (q - ov). rewrite Nat.mul_sub_distr_r, Hq.
      rewrite Nat.mul_sub_distr_r. f_equal. ring. }
    apply Hm in E0. lra.
Qed.

(* ------------------------------------------------------------------ *)
(** * RFFT.result *)

Lemma rfft_loop_ok {A B} (spec : list A -> B) num : 0 < num ->
  forall fs i pre fftdata j0, fs <> [] -> length fftdata = num ->
  length pre = i mod num -> firstn (i mod num) fftdata = pre ->
  let '(ys, d, j) := rfft_loop spec num fs i fftdata j0 in
  ys ++ (if j <? num - 1 then [firstn (S j) d] else []) = chunks num (pre ++ map spec fs).
Proof.
  intros Hn. induction fs as [|f fs IH]; intros i pre fftdata j0 Hne Hl Hpre Hf; [congruence|].
  cbn [rfft_loop]. set (j := i mod num) in *.
  assert (j < num) as Hj by (apply Nat.mod_upper_bound; lia).
  set (d1 := firstn j fftdata ++ [spec f] ++ skipn (S j) fftdata).
  assert (length d1 = num) as Hd1.
  { unfold d1. rewrite !app_length, firstn_length, skipn_length. simpl. lia. }
  assert (firstn (S j) d1 = pre ++ [spec f]) as Hfd.
  { unfold d1. rewrite Hf, app_assoc. apply firstn_app_exact. rewrite app_length. simpl. lia. }
  destruct (list_eq_dec_nil fs) as [->|Hfs].
  - cbn [rfft_loop map app]. destruct (Nat.eqb_spec j (num - 1)).
    + destruct (Nat.ltb_spec j (num - 1)); [lia|].
      rewrite chunks_short by (rewrite app_length; simpl; lia).
      rewrite <- Hfd. rewrite firstn_all2 by lia. reflexivity.
    + destruct (Nat.ltb_spec j (num - 1)); [|lia].
      rewrite chunks_short by (rewrite app_length; simpl; lia). now rewrite Hfd.
  - destruct (Nat.eqb_spec j (num - 1)) as [Ej|Ej].
    + specialize (IH (S i) [] d1 j Hfs Hd1).
      assert (S i mod num = 0) as Es.
      { apply Nat.mod_divide; [lia|]. exists (S (i / num)).
        pose proof (Nat.div_mod i num ltac:(lia)). unfold j in Ej. revert H Ej.
        generalize (i / num) (i mod num). clear - Hn. intros. nia. }
      rewrite Es in IH. specialize (IH eq_refl eq_refl).
      destruct (rfft_loop spec num fs (S i) d1 j) as [[ys d] j'].
      cbn [app]. rewrite IH. cbn [app map].
      change (spec f :: map spec fs) with ([spec f] ++ map spec fs). rewrite app_assoc.
      rewrite chunks_app; auto.
      * f_equal. rewrite <- Hfd. rewrite firstn_all2 by lia. reflexivity.
      * rewrite app_length. simpl. lia.
    + assert (S i mod num = S j) as Es.
      { symmetry. apply Nat.mod_unique with (i / num); [lia|].
        pose proof (Nat.div_mod i num ltac:(lia)). unfold j. revert H.
        generalize (i / num) (i mod num). intros; lia. }
      specialize (IH (S i) (pre ++ [spec f]) d1 j Hfs Hd1).
      rewrite Es, app_length in IH. specialize (IH ltac:(simpl; lia) Hfd).
      destruct (rfft_loop spec num fs (S i) d1 j) as [[ys d] j'].
      rewrite IH. rewrite <- app_assoc. reflexivity.
Qed.

Theorem rfft_result_spec {A B} (spec : list A -> B) (zrow : B) garbage bs ov (src : source A) s num :
  wf_source src s -> 0 < bs -> 0 < ov -> 0 < num ->
  (bs <= length s ->
     delivers num (map spec (frames_of bs ov s)) (rfft_result spec zrow garbage bs ov src num))
  /\ (length s < bs ->
     rfft_result spec zrow garbage bs ov src num = done (if num =? 1 then [] else [[zrow]])).
Proof.
  intros Hw Hb Ho Hn. unfold rfft_result. rewrite (get_source_data_frames garbage bs ov src s) by auto.
  cbn [blocks fin done]. split.
  - intros Hl. pose proof (rfft_loop_ok spec num Hn (frames_of bs ov s) 0 [] (repeat zrow num) 0) as H.
    rewrite Nat.mod_0_l in H by lia.
    assert (frames_of bs ov s <> []) as Hne.
    { unfold frames_of, frame_count. rewrite (proj2 (Nat.ltb_ge (length s) bs)) by auto.
      rewrite Nat.add_1_r. discriminate. }
    specialize (H Hne (repeat_length zrow num) eq_refl eq_refl).
    destruct (rfft_loop spec num (frames_of bs ov s) 0 (repeat zrow num) 0) as [[ys d] j].
    rewrite H. now apply delivers_chunks.
  - intros Hl. unfold frames_of, frame_count. rewrite (proj2 (Nat.ltb_lt (length s) bs)) by auto.
    cbn [seq map rfft_loop]. destruct (Nat.eqb_spec num 1) as [->|Hn1]; auto.
    destruct (Nat.ltb_spec 0 (num - 1)); [|lia]. cbn [app]. do 2 f_equal.
    destruct num; [lia|]. reflexivity.
Qed.

(** Without overlap num_samples is right; with overlap it is not. *)
Theorem rfft_num_samples_no_overlap n bs : 0 < bs -> frame_count bs 1 n = rfft_num_samples n bs.
Proof.
  intros Hb. unfold frame_count, rfft_num_samples. destruct (Nat.ltb_spec n bs).
  - now rewrite Nat.div_small.
  - rewrite Nat.mul_1_r. replace n with ((n - bs) + 1 * bs) at 2 by lia.
    rewrite Nat.div_add by lia. reflexivity.
Qed.

Theorem rfft_num_samples_overlap ov n bs : 0 < bs -> 2 <= ov -> 2 * bs <= n ->
  rfft_num_samples n bs < frame_count bs ov n.
Proof.
  intros Hb Ho Hn. apply frame_count_fits; [auto|lia|]. unfold rfft_num_samples.
  pose proof (Nat.mul_div_le n bs ltac:(lia)) as E. revert E. generalize (n / bs). intros q E.
  assert (n * ov = n * (ov - 2) + 2 * n) by nia.
  assert (bs * ov = bs * (ov - 2) + 2 * bs) by nia.
  assert (bs * (ov - 2) <= n * (ov - 2)) by nia. lia.
Qed.

Lemma num_blocks_refuted :
  exists ov n bs, 0 < bs /\ bs <= n /\ frame_count bs ov n = 7
    /\ num_blocks ov n bs = 7.8125%R /\ num_blocks ov n bs <> INR (frame_count bs ov n).
Proof.
  exists 1, 1000, 128. split; [lia|]. split; [lia|].
  assert (frame_count 128 1 1000 = 7) as E by reflexivity.
  assert (num_blocks 1 1000 128 = 7.8125%R) as F.
  { unfold num_blocks. rewrite !INR_IZR_INZ. simpl Z.of_nat. lra. }
  split; auto. split; auto. rewrite E, F. rewrite INR_IZR_INZ. simpl Z.of_nat. lra.
Qed.

Lemma rfft_refuted :
  exists (s : list (list Z)) bs num (src : source (list Z)) (spec : list (list Z) -> list Z),
    wf_source src s /\ 0 < num /\ frames_of bs 1 s = []
    /\ concat (blocks (rfft_result spec [0%Z] (fun _ => []) bs 1 src num)) <> [].
Proof.
  exists [[1%Z]], 2, 2, (fun n => done (chunks n [[1%Z]])), (fun _ => []).
  split; [|split; [|split]]; auto; try discriminate; try lia.
  intros n Hn. now apply delivers_chunks.
Qed.
