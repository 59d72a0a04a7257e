(** MaskedTimeOut (/repo/acoular/tprocess.py:118-258): cut out a range of
    samples and channels from a block-wise source and re-block the result. *)
From Coq Require Import List Arith Lia ZArith Bool.
Require Import ZifyBool ZifyNat ZifyN.
From Verif Require Import Stream Sources.
Import ListNotations.
Ltac Zify.zify_post_hook ::= Z.div_mod_to_equations.

Section Model.
  Context {Row : Type}.
  (** [block[..., self.channels]] for a block of rows; may raise IndexError. *)
  Variable msk : list Row -> list Row + exn.
  Variables start stop num : nat.

  (** The loop of tprocess.py:219-252 over the remaining source blocks [bs]
      (whose generator ends with [e]); [buf], [bsize], [i], [fblock] as in the
      code.  Index differences such as [bs - (i - start)] are computed in nat;
      they are never negative when the source delivers full blocks.  Failing
      NumPy assignments raise ValueError. *)
  Fixpoint mto_loop (bs : list (list Row)) (e : ending) (buf : list Row)
      (bsize i : nat) (fblock : bool) : trace Row :=
    match bs with
    | [] => mkTrace [] e
    | block :: bs' =>
        let n := length block in
        let i := i + n in
        (* lines 248-251: after the if/elif chain *)
        let tail (buf : list Row) (bsize : nat) (fblock : bool) : trace Row :=
          if num <=? bsize then
            match np_assign buf 0 (bsize - num) (slice num bsize buf) with
            | None => mkTrace [firstn num buf] (Raised ValueError)
            | Some buf' =>
                let t := mto_loop bs' e buf' (bsize - num) i fblock in
                mkTrace (firstn num buf :: blocks t) (fin t)
            end
          else mto_loop bs' e buf bsize i fblock in
        if fblock && (start <=? i) then
          if stop <=? i then
            match msk (slice (n - (i - start)) (n - (i - stop)) block) with
            | inr x => raise x
            | inl b => done [b]
            end
          else
            match msk (skipn (n - (i - start)) block) with
            | inr x => raise x
            | inl b =>
                match np_assign buf 0 (i - start) b with
                | None => raise ValueError
                | Some buf' => tail buf' (bsize + (i - start)) false
                end
            end
        else if stop <=? i then
          match msk (firstn (n - (i - stop)) block) with
          | inr x => raise x
          | inl b =>
              match np_assign buf bsize (bsize + n - (i - stop)) b with
              | None => raise ValueError
              | Some buf =>
                  let bsize := bsize + (n - (i - stop)) in
                  if num <? bsize then
                    match np_assign buf 0 (bsize - num) (slice num bsize buf) with
                    | None => mkTrace [firstn num buf] (Raised ValueError)
                    | Some buf' => done [firstn num buf; firstn (bsize - num) buf']
                    end
                  else done [firstn bsize buf]
              end
          end
        else if start <=? i then
          match msk block with
          | inr x => raise x
          | inl b =>
              match np_assign buf bsize (bsize + n) b with
              | None => raise ValueError
              | Some buf' => tail buf' (bsize + n) fblock
              end
          end
        else tail buf bsize fblock
    end.
End Model.

(** [-start % num] with [offset = num] instead of 0, tprocess.py:214-216. *)
Definition mto_offset (start num : nat) : nat :=
  let o := (num - start mod num) mod num in
  if o =? 0 then num else o.

(** MaskedTimeOut.result, tprocess.py:196-258.  [nst] is
    [source.num_samples], [total] is [source.num_channels].  [garbage] is the
    uninitialised content of [empty((num + offset, num_channels))]. *)
Definition masked_time_out_result {V} (total nst : nat) (start stop : option Z)
    (invalid : list Z) (garbage : nat -> list V) (src : source (list V)) (num : nat)
    : trace (list V) :=
  let '(a, b) := slice_indices start stop (Z.of_nat nst) in
  if (a >=? b)%Z then raise OSError
  else
    let msk := map_block (take_row (channels_prop total invalid)) in
    if negb (a =? 0)%Z || negb (b =? Z.of_nat nst)%Z then
      let offset := mto_offset (Z.to_nat a) num in
      let buf := map garbage (seq 0 (num + offset)) in
      mto_loop msk (Z.to_nat a) (Z.to_nat b) num (blocks (src num)) (fin (src num)) buf 0 0 true
    else
      run_for (fun (_ : unit) block =>
                 match msk block with
                 | inl b => (tt, [b], None)
                 | inr e => (tt, [], Some e)
                 end) tt (src num) (fun _ => done []).

(* ------------------------------------------------------------------ *)
Section Proof.
  Context {Row : Type}.
  Variable msk : list Row -> list Row + exn.
  Variable m : Row -> Row.
  Variable P : Row -> Prop.
  Hypothesis msk_ok : forall b, Forall P b -> msk b = inl (map m b).
  Variables start stop num : nat.
  Hypothesis Hnum : 0 < num.
  Hypothesis Hss : start < stop.
  Variable offset : nat.

  Lemma Forall_sub_firstn k (s : list Row) : Forall P s -> Forall P (firstn k s).
  Proof. intros H. rewrite <- (firstn_skipn k s) in H. apply Forall_app in H. tauto. Qed.
  Lemma Forall_sub_skipn k (s : list Row) : Forall P s -> Forall P (skipn k s).
  Proof. intros H. rewrite <- (firstn_skipn k s) in H. apply Forall_app in H. tauto. Qed.

  (** the last block *)
  Lemma mto_last block bs e buf bsize i :
    Forall P block ->
    length buf = num + offset -> bsize < num -> bsize <= offset ->
    i < stop -> stop <= i + length block -> length block <= num ->
    (i + length block < start -> False) ->
    mto_loop msk start stop num (block :: bs) e buf bsize i false
    = done (chunks num (firstn bsize buf ++ map m (firstn (stop - i) block))).
  Proof.
    intros HP Hb Hbs Hbo Hi Hst Hbl _. simpl.
    destruct (Nat.leb_spec stop (i + length block)) as [_|]; [|lia].
    replace (length block - (i + length block - stop)) with (stop - i) by lia.
    rewrite msk_ok by now apply Forall_sub_firstn.
    set (b := map m (firstn (stop - i) block)).
    assert (length b = stop - i) as Hlb.
    { unfold b. rewrite map_length, firstn_length. lia. }
    rewrite np_assign_exact; [|lia|lia].
    set (buf1 := firstn bsize buf ++ b ++ skipn _ buf).
    assert (firstn (bsize + (stop - i)) buf1 = firstn bsize buf ++ b) as Hb1.
    { unfold buf1. rewrite app_assoc. apply firstn_app_exact.
      rewrite app_length, firstn_length. lia. }
    assert (length buf1 = num + offset) as Hl1.
    { unfold buf1. rewrite !app_length, firstn_length, skipn_length. lia. }
    assert (length (firstn bsize buf ++ b) = bsize + (stop - i)) as Hlen.
    { rewrite app_length, firstn_length. lia. }
    destruct (Nat.ltb_spec num (bsize + (stop - i))) as [Hlt|Hge].
    - rewrite np_assign_exact.
      2: lia.
      2:{ rewrite slice_length. lia. }
      unfold slice. rewrite Hb1. unfold done. f_equal.
      rewrite chunks_step; auto.
      2:{ intros E. rewrite E in Hlen. simpl in Hlen. lia. }
      f_equal.
      + rewrite <- Hb1, firstn_firstn'. f_equal. lia.
      + rewrite chunks_short; [|rewrite skipn_length; lia].
        f_equal. simpl. apply firstn_app_exact. rewrite skipn_length. lia.
    - rewrite Hb1. rewrite chunks_short; auto. lia.
  Qed.

  Lemma mto_phase2 : forall rest e buf bsize i,
    Forall P rest ->
    length buf = num + offset -> bsize < num -> bsize <= offset ->
    start <= i -> i < stop -> stop - i <= length rest ->
    mto_loop msk start stop num (chunks num rest) e buf bsize i false
    = done (chunks num (firstn bsize buf ++ map m (firstn (stop - i) rest))).
  Proof.
    intros rest. pattern rest. revert rest. apply (stream_ind num); auto.
    - intros. simpl in *. lia.
    - intros s Hs e buf bsize i HP Hb Hbs Hbo Hi Hi2 Hst.
      rewrite (chunks_short num s) by auto. apply mto_last; auto; lia.
    - intros b s Hb Hs IH e buf bsize i HP Hbuf Hbs Hbo Hi Hi2 Hst.
      rewrite chunks_app by auto.
      apply Forall_app in HP as [HPb HPs].
      destruct (le_lt_dec stop (i + length b)) as [Hle|Hgt].
      + rewrite mto_last; auto; try lia.
        rewrite firstn_app. replace (stop - i - length b) with 0 by lia.
        simpl. now rewrite app_nil_r.
      + simpl.
        destruct (Nat.leb_spec stop (i + length b)); [lia|].
        destruct (Nat.leb_spec start (i + length b)); [|lia].
        rewrite msk_ok by auto.
        rewrite np_assign_exact; [|lia|rewrite map_length; lia].
        set (buf1 := firstn bsize buf ++ map m b ++ skipn _ buf).
        assert (firstn (bsize + length b) buf1 = firstn bsize buf ++ map m b) as Hb1.
        { unfold buf1. rewrite app_assoc. apply firstn_app_exact.
          rewrite app_length, firstn_length, map_length. lia. }
        assert (length buf1 = num + offset) as Hl1.
        { unfold buf1. rewrite !app_length, firstn_length, skipn_length, map_length. lia. }
        destruct (Nat.leb_spec num (bsize + length b)); [|lia].
        rewrite np_assign_exact; [|lia|rewrite slice_length; lia].
        set (buf2 := firstn 0 buf1 ++ _).
        assert (firstn (bsize + length b - num) buf2 = skipn num (firstn bsize buf ++ map m b)) as Hb2.
        { unfold buf2, slice. rewrite Hb1. simpl. apply firstn_app_exact.
          rewrite skipn_length, app_length, firstn_length, map_length. lia. }
        assert (length buf2 = num + offset) as Hl2.
        { unfold buf2, slice. rewrite Hb1. simpl.
          rewrite app_length, !skipn_length, app_length, firstn_length, map_length. lia. }
        rewrite IH; auto; try lia.
        2:{ rewrite app_length in Hst. lia. }
        rewrite Hb2. unfold done. simpl. f_equal.
        rewrite (firstn_app (stop - i)). rewrite (firstn_all2 b) by lia.
        rewrite map_app, app_assoc.
        symmetry. rewrite (chunks_step num (_ ++ _)); auto.
        2:{ intros E. apply (f_equal (@length Row)) in E.
            rewrite !app_length, !map_length in E. simpl in E. lia. }
        f_equal.
        * rewrite firstn_app. rewrite app_length, firstn_length, map_length.
          replace (num - _) with 0 by lia. simpl. rewrite app_nil_r.
          rewrite <- Hb1, firstn_firstn'. f_equal. lia.
        * f_equal. rewrite skipn_app. rewrite app_length, firstn_length, map_length.
          f_equal. replace (num - _) with 0 by lia. simpl. f_equal. f_equal. lia.
  Qed.

  (** before the first selected sample *)
  Lemma mto_phase1 : forall rest e buf i,
    Forall P rest ->
    length buf = num + offset ->
    (forall j, start <= j -> j < start + num -> j mod num = 0 ->
       j - start <= offset) ->
    num <= offset \/ start mod num <> 0 ->
    i mod num = 0 -> (i < start \/ i = 0) -> stop - i <= length rest ->
    mto_loop msk start stop num (chunks num rest) e buf 0 i true
    = done (chunks num (map m (slice (start - i) (stop - i) rest))).
  Proof.
    intros rest. pattern rest. revert rest. apply (stream_ind num); auto.
    - intros. simpl in *. lia.
    - intros s Hs e buf i HP Hb Hoff Hoff2 Him Hi Hst.
      rewrite (chunks_short num s) by auto. simpl.
      destruct (Nat.leb_spec start (i + length s)) as [Hle|Hgt]; [|lia].
      destruct (Nat.leb_spec stop (i + length s)); [|lia]. cbn [andb].
      replace (length s - (i + length s - start)) with (start - i) by lia.
      replace (length s - (i + length s - stop)) with (stop - i) by lia.
      assert (Forall P (slice (start - i) (stop - i) s)) as HPs.
      { unfold slice. apply Forall_sub_skipn, Forall_sub_firstn; auto. }
      rewrite msk_ok by auto.
      rewrite chunks_short; auto. rewrite map_length, slice_length. lia.
    - intros b s Hb Hs IH e buf i HP Hbuf Hoff Hoff2 Him Hi Hst.
      rewrite chunks_app by auto.
      assert (Forall P b /\ Forall P s) as [HPb HPs] by (apply Forall_app in HP; tauto).
      simpl.
      destruct (Nat.leb_spec start (i + length b)) as [Hle|Hgt]; cbn [andb].
      + destruct (Nat.leb_spec stop (i + length b)) as [Hle2|Hgt2].
        * replace (length b - (i + length b - start)) with (start - i) by lia.
          replace (length b - (i + length b - stop)) with (stop - i) by lia.
          rewrite msk_ok by (unfold slice; apply Forall_sub_skipn, Forall_sub_firstn; auto).
          assert (slice (start - i) (stop - i) (b ++ s) = slice (start - i) (stop - i) b) as ->.
          { unfold slice. rewrite firstn_app. replace (stop - i - length b) with 0 by lia.
            simpl. now rewrite app_nil_r. }
          rewrite chunks_short; auto. rewrite map_length, slice_length. lia.
        * replace (length b - (i + length b - start)) with (start - i) by lia.
          rewrite msk_ok by now apply Forall_sub_skipn.
          set (b1 := map m (skipn (start - i) b)).
          assert (length b1 = i + num - start) as Hlb1.
          { unfold b1. rewrite map_length, skipn_length. lia. }
          assert ((i + num) mod num = 0) as Himn.
          { rewrite Nat.add_mod, Him, Nat.mod_same by lia. simpl. apply Nat.mod_small; lia. }
          assert (i + num - start <= offset) as Hoff3.
          { destruct (Nat.eq_dec i 0) as [->|].
            - destruct (Nat.eq_dec start 0) as [->|].
              + destruct Hoff2 as [?|Hz]; [lia|]. rewrite Nat.mod_0_l in Hz by lia. lia.
              + apply Hoff; auto; lia.
            - apply Hoff; auto; lia. }
          rewrite np_assign_exact; [|lia|lia].
          set (buf1 := firstn 0 buf ++ b1 ++ skipn _ buf).
          assert (firstn (i + length b - start) buf1 = b1) as Hb1.
          { unfold buf1. simpl. apply firstn_app_exact. lia. }
          assert (length buf1 = num + offset) as Hl1.
          { unfold buf1. simpl. rewrite app_length, skipn_length. lia. }
          cbn [Nat.add].
          destruct (Nat.leb_spec num (i + length b - start)) as [Hfull|Hpart].
          -- (* start is at the beginning of this block *)
            rewrite np_assign_exact; [|lia|rewrite slice_length; lia].
            set (buf2 := firstn 0 buf1 ++ _).
            assert (length buf2 = num + offset) as Hl2.
            { unfold buf2. simpl. rewrite app_length, slice_length, skipn_length. lia. }
            replace (i + length b - start - num) with 0 by lia.
            rewrite mto_phase2; auto; try lia.
            2:{ rewrite app_length in Hst. lia. }
            replace (start - i) with 0 in * by lia.
            unfold done. simpl. f_equal. unfold slice. simpl.
            rewrite firstn_app, (firstn_all2 b) by lia.
            rewrite map_app. rewrite chunks_app; [|auto|rewrite map_length; auto].
            f_equal.
            ++ replace num with (i + length b - start) at 1 by lia. rewrite Hb1. unfold b1.
               now replace (start - i) with 0 by lia.
            ++ f_equal. f_equal. f_equal. lia.
          -- rewrite mto_phase2; auto; try lia.
             2:{ rewrite app_length in Hst. lia. }
             rewrite Hb1. unfold b1. f_equal. f_equal. rewrite <- map_app. f_equal.
             unfold slice. rewrite firstn_app, (firstn_all2 b) by lia.
             rewrite skipn_app. f_equal.
             replace (start - i - length b) with 0 by lia. simpl. f_equal. lia.
      + destruct (Nat.leb_spec stop (i + length b)); [lia|].
        destruct (Nat.leb_spec num 0); [lia|].
        assert ((i + length b) mod num = 0) as Himn.
        { rewrite Hb, Nat.add_mod, Him, Nat.mod_same by lia. simpl. apply Nat.mod_small; lia. }
        rewrite IH; auto; try lia.
        2:{ rewrite app_length in Hst. lia. }
        f_equal. f_equal. f_equal. unfold slice.
        rewrite firstn_app, (firstn_all2 b) by lia.
        rewrite skipn_app, (skipn_all2 b) by lia. simpl.
        f_equal; [lia|]. f_equal. lia.
  Qed.
End Proof.

Lemma mto_offset_pos start num : 0 < num -> 0 < mto_offset start num <= num.
Proof.
  intros Hn. unfold mto_offset.
  destruct (Nat.eqb_spec ((num - start mod num) mod num) 0); [lia|].
  pose proof (Nat.mod_upper_bound (num - start mod num) num). lia.
Qed.

Lemma mto_offset_spec start num j :
  0 < num -> start <= j -> j < start + num -> j mod num = 0 -> j - start <= mto_offset start num.
Proof.
  intros Hn H1 H2 H3. unfold mto_offset.
  pose proof (Nat.mod_upper_bound start num ltac:(lia)) as Hm.
  destruct (Nat.eqb_spec ((num - start mod num) mod num) 0) as [E|E].
  - lia.
  - assert (start mod num <> 0) as Hz.
    { intros Hz. rewrite Hz, Nat.sub_0_r, Nat.mod_same in E; lia. }
    rewrite Nat.mod_small by lia.
    assert (j - start + start mod num = num); [|lia].
    pose proof (Nat.div_mod start num ltac:(lia)) as D1.
    pose proof (Nat.div_mod j num ltac:(lia)) as D2. rewrite H3 in D2.
    assert (j / num = start / num + 1) by nia. nia.
Qed.

Lemma mto_offset_zero start num :
  0 < num -> start mod num = 0 -> mto_offset start num = num.
Proof.
  intros Hn Hz. unfold mto_offset. rewrite Hz, Nat.sub_0_r, Nat.mod_same by lia. reflexivity.
Qed.

Theorem masked_time_out_delivers {V} total start stop invalid garbage
    (src : source (list V)) s :
  wf_source src s ->
  Forall (fun r => length r = total) s ->
  (invalid <> [] -> keep_valid invalid (seq 0 total) <> []) ->
  sliced start stop s <> [] ->
  wf_source (masked_time_out_result total (length s) start stop invalid garbage src)
    (map (keep_valid invalid) (sliced start stop s)).
Proof.
  intros Hsrc Hs Hv Hne num Hn. apply delivers_iff; auto.
  unfold masked_time_out_result.
  pose proof (sliced_empty start stop s) as He.
  pose proof (sliced_slice start stop s) as Hsl.
  pose proof (slice_indices_bounds start stop (Z.of_nat (length s)) (Zle_0_nat _)) as Hb.
  destruct (slice_indices start stop (Z.of_nat (length s))) as [a b] eqn:E.
  destruct (Z.geb_spec a b) as [Hge|Hlt].
  { exfalso. apply Hne, He. lia. }
  assert (forall bl : list (list V), Forall (fun r => length r = total) bl ->
     map_block (take_row (channels_prop total invalid)) bl = inl (map (keep_valid invalid) bl)) as Hmsk.
  { intros bl Hbl. apply map_block_inl. intros row Hrow.
    rewrite Forall_forall in Hbl. specialize (Hbl row Hrow).
    rewrite <- Hbl. apply take_row_channels. now rewrite Hbl. }
  rewrite (wf_source_eq src s) by auto.
  destruct (negb (a =? 0)%Z || negb (b =? Z.of_nat (length s))%Z) eqn:Ec.
  - cbn [blocks fin done].
    rewrite (mto_phase1 _ (keep_valid invalid) (fun r => length r = total) Hmsk
               (Z.to_nat a) (Z.to_nat b) num Hn ltac:(lia) (mto_offset (Z.to_nat a) num)); auto.
    + rewrite !Nat.sub_0_r. rewrite Hsl by lia. reflexivity.
    + rewrite map_length, seq_length. reflexivity.
    + intros j. now apply mto_offset_spec.
    + destruct (Nat.eq_dec (Z.to_nat a mod num) 0).
      * left. rewrite mto_offset_zero; auto.
      * now right.
    + apply Nat.mod_0_l; lia.
    + lia.
  - rewrite Hsl by lia.
    replace (Z.to_nat a) with 0 by lia. replace (Z.to_nat b) with (length s) by lia.
    rewrite slice_0_all. unfold done at 1.
    rewrite (run_for_map _ (keep_valid invalid)).
    + unfold done. now rewrite chunks_map.
    + intros bl Hbl. apply Hmsk. eapply chunks_in_forall; eauto.
Qed.

Theorem masked_time_out_empty {V} total start stop invalid garbage
    (src : source (list V)) (s : list (list V)) num :
  sliced start stop s = [] ->
  masked_time_out_result total (length s) start stop invalid garbage src num = raise OSError.
Proof.
  intros Hne. unfold masked_time_out_result.
  pose proof (sliced_empty start stop s) as He.
  destruct (slice_indices start stop (Z.of_nat (length s))) as [a b] eqn:E.
  apply He in Hne. destruct (Z.geb_spec a b); [reflexivity|lia].
Qed.

Lemma masked_time_out_spec {V} total start stop invalid garbage (src : source (list V)) s :
  wf_source src s ->
  Forall (fun r => length r = total) s ->
  (invalid = [] \/ keep_valid invalid (seq 0 total) <> []) ->
  (sliced start stop s <> [] ->
     wf_source (masked_time_out_result total (length s) start stop invalid garbage src)
       (map (keep_valid invalid) (sliced start stop s)))
  /\ (sliced start stop s = [] -> forall num,
     masked_time_out_result total (length s) start stop invalid garbage src num = raise OSError).
Proof.
  intros Hw Hs Hv. split.
  - intros Hne. apply masked_time_out_delivers; auto. intros Hi. destruct Hv; congruence.
  - intros He num. now apply masked_time_out_empty.
Qed.
