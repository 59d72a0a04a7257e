(** Sound sources (/repo/acoular/sources.py): PointSource.result (880-945), the
    sample loops of the moving, dipole, line and spherical harmonic sources,
    and the source strengths of LineSource.  Over real numbers. *)
From Coq Require Import List Arith Lia ZArith Bool Reals Lra.
Require Import ZifyBool ZifyNat ZifyN.
From Verif Require Import Stream Sources Wav.
Import ListNotations.
Ltac Zify.zify_post_hook ::= Z.div_mod_to_equations.
Local Open Scope R_scope.

(* ------------------------------------------------------------------ *)
(** * PointSource *)

(** [int(0.5 + x)], sources.py:105, 110. *)
Definition rnd (x : R) : Z := trunc (1 / 2 + x).

(** [signal[i]] in code compiled by numba (sources.py:97, 105, 110): a negative
    index is taken from the end once, and no bound is checked; [heap] is what
    lies outside the array. *)
Definition numba_get (heap : Z -> R) (signal : list R) (i : Z) : R :=
  let j := if (i <? 0)%Z then (i + Z.of_nat (length signal))%Z else i in
  if ((0 <=? j) && (j <? Z.of_nat (length signal)))%Z then nth (Z.to_nat j) signal 0 else heap j.

(** One row of _fill_mic_signal_block, sources.py:101-105 and 109-110. *)
Definition fill_row (heap : Z -> R) (signal : list R) (pad : bool) (rm ind : list R) : list R :=
  map (fun '(r, i) =>
         if pad && (if Rlt_dec i 0 then true else false) then 0
         else numba_get heap signal (rnd i) / r)
      (combine rm ind).

(** _fill_mic_signal_block, sources.py:98-112: the rows written and [ind]
    afterwards. *)
Fixpoint fill_rows (heap : Z -> R) (signal : list R) (pad : bool) (rm : list R) (up : nat)
    (blocksize : nat) (ind : list R) : list (list R) * list R :=
  match blocksize with
  | O => ([], ind)
  | S b =>
      let row := fill_row heap signal pad rm ind in
      let '(rows, ind') := fill_rows heap signal pad rm up b (map (fun i => i + INR up) ind) in
      (row :: rows, ind')
  end.

(** The call [out = _fill_mic_signal_block(out, ...)]: the first rows of the
    reused array are overwritten. *)
Definition fill_block heap signal pad rm up blocksize (out : list (list R)) (ind : list R)
    : list (list R) * list R :=
  let '(rows, ind') := fill_rows heap signal pad rm up blocksize ind in
  (rows ++ skipn blocksize out, ind').

(** [for _nb in range(nb): out = fill(... num ...); yield out],
    sources.py:921-923, 930-932, 938-940. *)
Fixpoint fill_loop heap signal pad rm up num (nb : nat) (out : list (list R)) (ind : list R)
    : list (list (list R)) * list (list R) * list R :=
  match nb with
  | O => ([], out, ind)
  | S k =>
      let '(out', ind') := fill_block heap signal pad rm up num out ind in
      let '(bs, out'', ind'') := fill_loop heap signal pad rm up num k out' ind' in
      (out' :: bs, out'', ind'')
  end.

(** [npmin], which raises ValueError for an empty array. *)
Definition np_min (l : list R) : option R :=
  match l with [] => None | a :: r => Some (fold_left Rmin r a) end.

(** PointSource.result, sources.py:909-945.  [zeros]: prepadding is 'zeros';
    [rm]: distances; [ind0]: line 914; [out0]: the uninitialised array. *)
Definition point_source (heap : Z -> R) (signal : list R) (zeros : bool) (rm ind0 : list R)
    (up ns : nat) (out0 : list (list R)) (num : nat) : trace (list R) :=
  let N := ((ns + num - 1) / num)%nat in
  let blocksize := (if (ns mod num =? 0)%nat then num else ns mod num)%nat in
  let finish pad out ind bs :=
    let '(out', _) := fill_block heap signal pad rm up blocksize out ind in
    done (bs ++ [firstn blocksize out']) in
  let main pre out ind bs :=
    let '(bs', out', ind') :=
      fill_loop heap signal false rm up num (Z.to_nat (Z.of_nat N - pre - 1)) out ind in
    finish false out' ind' (bs ++ bs') in
  if zeros then
    match np_min ind0 with
    | None => raise ValueError
    | Some m =>
        let pre := (- Int_part (m / (INR up * INR num)))%Z in
        if (Z.of_nat N <=? pre)%Z then
          let '(bs, out', ind') := fill_loop heap signal true rm up num (N - 1) out0 ind0 in
          finish true out' ind' bs
        else
          let '(bs, out', ind') := fill_loop heap signal true rm up num (Z.to_nat pre) out0 ind0 in
          main pre out' ind' bs
    end
  else main 0%Z out0 ind0 [].

(** The first indices, sources.py:914. *)
Definition first_ind (c start_t start fs : R) (up : nat) (rm : list R) : list R :=
  map (fun r => (- r / c - start_t + start) * fs * INR up) rm.

(* ------------------------------------------------------------------ *)
(** ** Specification *)

(** Row [n] of the signal at the microphones: for each microphone the emitted
    (up-sampled, [up] values per sample) signal at the rounded delayed index
    divided by the distance.  Before the signal starts it is repeated from its
    end, or zero. *)
Definition received (signal : list R) (zeros : bool) (rm ind0 : list R) (up n : nat) : list R :=
  map (fun '(r, i) =>
         let x := i + INR n * INR up in
         if zeros && (if Rlt_dec x 0 then true else false) then 0
         else nth (Z.to_nat (rnd x mod Z.of_nat (length signal))) signal 0 / r)
      (combine rm ind0).

(* ------------------------------------------------------------------ *)
(** ** Rounding *)

Lemma trunc_floor x : 0 <= x -> IZR (trunc x) <= x < IZR (trunc x) + 1.
Proof.
  intros H. unfold trunc. destruct (Rle_dec 0 x); [apply Int_part_bounds|contradiction].
Qed.

Lemma trunc_ceil x : x <= 0 -> IZR (trunc x) - 1 < x <= IZR (trunc x).
Proof.
  intros H. unfold trunc. destruct (Rle_dec 0 x) as [Hx|Hx].
  - assert (x = 0) as -> by lra. replace (Int_part 0) with 0%Z; [lra|].
    symmetry. apply Int_part_unique. lra.
  - pose proof (Int_part_bounds (- x)). rewrite opp_IZR. lra.
Qed.

(** Indices from -1/2 on are rounded to the nearest integer; smaller ones are
    rounded up by one half to one and a half. *)
Theorem rnd_spec x :
  (- (1 / 2) <= x -> Rabs (IZR (rnd x) - x) <= 1 / 2)
  /\ (x < - (1 / 2) -> 1 / 2 <= IZR (rnd x) - x < 3 / 2).
Proof.
  unfold rnd. split; intros H.
  - pose proof (trunc_floor (1/2 + x) ltac:(lra)). apply Rabs_le. lra.
  - pose proof (trunc_ceil (1/2 + x) ltac:(lra)). lra.
Qed.

Lemma rnd_ge x k : (0 <= k)%Z -> IZR k <= x + 1 / 2 -> (k <= rnd x)%Z.
Proof.
  intros Hk H. unfold rnd. assert (0 <= IZR k) by (apply IZR_le; lia).
  pose proof (trunc_floor (1/2 + x) ltac:(lra)).
  assert (k < trunc (1/2 + x) + 1)%Z by (apply lt_IZR; rewrite plus_IZR; lra). lia.
Qed.

Lemma rnd_lt x k : (0 < k)%Z -> x + 1 / 2 < IZR k -> (rnd x < k)%Z.
Proof.
  intros Hk H. unfold rnd. destruct (Rle_dec 0 (1/2 + x)) as [Hx|Hx].
  - pose proof (trunc_floor (1/2 + x) Hx). apply lt_IZR. lra.
  - pose proof (trunc_ceil (1/2 + x) ltac:(lra)).
    assert (trunc (1/2 + x) < 1)%Z by (apply lt_IZR; lra). lia.
Qed.

Lemma rnd_gt_neg x k : (k <= 0)%Z -> IZR k - 3 / 2 < x -> (k - 1 < rnd x)%Z.
Proof.
  intros Hk H. unfold rnd. destruct (Rle_dec 0 (1/2 + x)) as [Hx|Hx].
  - pose proof (trunc_floor (1/2 + x) Hx).
    assert (-1 < trunc (1/2 + x))%Z by (apply lt_IZR; lra). lia.
  - pose proof (trunc_ceil (1/2 + x) ltac:(lra)). apply lt_IZR. rewrite minus_IZR. lra.
Qed.

Lemma rnd_nonneg x : 0 <= x -> (0 <= rnd x)%Z.
Proof. intros H. apply rnd_ge; [lia|lra]. Qed.

(* ------------------------------------------------------------------ *)

Lemma numba_get_wrap heap signal i :
  (- Z.of_nat (length signal) <= i < Z.of_nat (length signal))%Z ->
  numba_get heap signal i = nth (Z.to_nat (i mod Z.of_nat (length signal))) signal 0.
Proof.
  intros H. unfold numba_get. set (L := Z.of_nat (length signal)) in *.
  destruct (Z.ltb_spec i 0) as [Hi|Hi].
  - replace (i mod L)%Z with (i + L)%Z.
    + destruct (Z.leb_spec 0 (i + L)); [|lia]. destruct (Z.ltb_spec (i + L) L); [|lia]. reflexivity.
    + apply Z.mod_unique with (q := (-1)%Z); lia.
  - replace (i mod L)%Z with i by (symmetry; apply Z.mod_small; lia).
    destruct (Z.leb_spec 0 i); [|lia]. destruct (Z.ltb_spec i L); [|lia]. reflexivity.
Qed.

  (** The chunks of a run of rows. *)
  Lemma chunks_rows {B} (G : nat -> B) num r : (0 < num)%nat -> (0 < r <= num)%nat ->
    forall nb k,
    chunks num (map G (seq k (nb * num + r)))
    = map (fun b => map G (seq (k + b * num) num)) (seq 0 nb) ++ [map G (seq (k + nb * num) r)].
  Proof.
    intros Hn Hr. induction nb as [|nb IH]; intros k.
    - cbn [Nat.mul Nat.add seq map app]. rewrite Nat.add_0_r. apply chunks_short.
      rewrite map_length, seq_length. lia.
    - replace (S nb * num + r)%nat with (num + (nb * num + r))%nat by lia.
      rewrite seq_app, map_app, chunks_app by (rewrite ?map_length, ?seq_length; lia).
      rewrite IH. cbn [seq map app]. replace (k + 0 * num)%nat with k by lia. f_equal.
      rewrite <- seq_shift, map_map.
      f_equal.
      + apply map_ext. intros b.
        replace (k + S b * num)%nat with (k + num + b * num)%nat by lia. reflexivity.
      + replace (k + S nb * num)%nat with (k + num + nb * num)%nat by lia. reflexivity.
  Qed.

  Lemma row_count ns num : (0 < num)%nat -> (0 < ns)%nat ->
    let bs := (if (ns mod num =? 0)%nat then num else ns mod num)%nat in
    (0 < bs <= num)%nat /\ ns = (((ns + num - 1) / num - 1) * num + bs)%nat
    /\ (1 <= (ns + num - 1) / num)%nat.
  Proof.
    intros Hn Hs bs. unfold bs.
    pose proof (Nat.div_mod ns num ltac:(lia)) as E.
    pose proof (Nat.mod_upper_bound ns num ltac:(lia)) as Hm.
    assert (HN : ((ns + num - 1) / num)%nat
                 = (ns / num + (if (ns mod num =? 0)%nat then 0 else 1))%nat).
    { destruct (Nat.eqb_spec (ns mod num) 0) as [H0|H0].
      - symmetry. apply Nat.div_unique with (r := (num - 1)%nat); [lia|]. rewrite H0 in E. nia.
      - symmetry. apply Nat.div_unique with (r := (ns mod num - 1)%nat); [lia|]. nia. }
    rewrite HN. clear HN.
    revert E Hm. generalize (ns / num)%nat (ns mod num)%nat. intros q m E Hm.
    destruct (Nat.eqb_spec m 0) as [H0|H0].
    - assert (0 < q)%nat by nia.
      replace (q + 0 - 1)%nat with (q - 1)%nat by lia.
      repeat match goal with |- _ /\ _ => split end; nia.
    - replace (q + 1 - 1)%nat with q by lia.
      repeat match goal with |- _ /\ _ => split end; nia.
  Qed.

Section Fill.
  Variables (heap : Z -> R) (signal : list R) (rm ind0 : list R) (up : nat).

  Let shift (k : nat) : list R := map (fun i => i + INR k * INR up) ind0.
  Let F (pad : bool) (k : nat) : list R := fill_row heap signal pad rm (shift k).

  Lemma shift_S k : map (fun i => i + INR up) (shift k) = shift (S k).
  Proof.
    unfold shift. rewrite map_map. apply map_ext. intros i. rewrite S_INR. ring.
  Qed.

  Lemma shift_0 : shift 0 = ind0.
  Proof.
    unfold shift. rewrite <- (map_id ind0) at 2. apply map_ext. intros i. simpl. ring.
  Qed.

  Lemma fill_rows_eq pad bs : forall k,
    fill_rows heap signal pad rm up bs (shift k) = (map (F pad) (seq k bs), shift (k + bs)).
  Proof.
    induction bs as [|b IH]; intros k; cbn [fill_rows seq map].
    - now rewrite Nat.add_0_r.
    - rewrite shift_S, IH. now rewrite Nat.add_succ_r.
  Qed.

  Lemma fill_block_eq pad bs out k :
    fill_block heap signal pad rm up bs out (shift k)
    = (map (F pad) (seq k bs) ++ skipn bs out, shift (k + bs)).
  Proof. unfold fill_block. now rewrite fill_rows_eq. Qed.

  Lemma fill_loop_eq pad num nb : forall out k,
    length out = num ->
    exists out', length out' = num /\
    fill_loop heap signal pad rm up num nb out (shift k)
    = (map (fun b => map (F pad) (seq (k + b * num) num)) (seq 0 nb), out', shift (k + nb * num)).
  Proof.
    induction nb as [|nb IH]; intros out k Hout; cbn [fill_loop].
    - exists out. split; [assumption|]. cbn [seq map Nat.mul]. now rewrite Nat.add_0_r.
    - rewrite fill_block_eq.
      rewrite (skipn_all2 out) by lia. rewrite app_nil_r.
      destruct (IH (map (F pad) (seq k num)) (k + num)%nat) as (out' & Ho & E).
      { now rewrite map_length, seq_length. }
      exists out'. split; [assumption|]. rewrite E. cbn [seq map Nat.mul].
      replace (k + 0)%nat with k by lia.
      replace (k + (num + nb * num))%nat with (k + num + nb * num)%nat by lia.
      f_equal. f_equal. f_equal. rewrite <- seq_shift, map_map. apply map_ext. intros b.
      replace (k + S b * num)%nat with (k + num + b * num)%nat by lia. reflexivity.
  Qed.

  Lemma fold_min_le l : forall a, fold_left Rmin l a <= a /\ forall x, In x l -> fold_left Rmin l a <= x.
  Proof.
    induction l as [|b l IH]; intros a; cbn [fold_left].
    - split; [lra|contradiction].
    - destruct (IH (Rmin a b)) as [H1 H2]. split.
      + pose proof (Rmin_l a b). lra.
      + intros x [->|Hx]; [pose proof (Rmin_r a x); lra|auto].
  Qed.

  Lemma fold_min_in l : forall a, fold_left Rmin l a = a \/ In (fold_left Rmin l a) l.
  Proof.
    induction l as [|b l IH]; intros a; cbn [fold_left]; [auto|].
    destruct (IH (Rmin a b)) as [E|E]; [|right; right; assumption].
    rewrite E. unfold Rmin. destruct (Rle_dec a b); [auto|right; left; reflexivity].
  Qed.

  Lemma np_min_spec l m : np_min l = Some m -> In m l /\ forall x, In x l -> m <= x.
  Proof.
    destruct l as [|a l]; [discriminate|]. intros [= <-]. split.
    - destruct (fold_min_in l a) as [->|H]; [left; reflexivity|right; assumption].
    - destruct (fold_min_le l a) as [H1 H2]. intros x [<-|H]; [exact H1|exact (H2 x H)].
  Qed.

  Lemma F_pad_irrelevant k :
    (forall i, In i ind0 -> 0 <= i + INR k * INR up) -> F true k = F false k.
  Proof.
    intros H. unfold F, fill_row. apply map_ext_in. intros [r x] Hin.
    apply in_combine_r in Hin. unfold shift in Hin. apply in_map_iff in Hin.
    destruct Hin as (i & <- & Hi). specialize (H i Hi).
    destruct (Rlt_dec (i + INR k * INR up) 0); [lra|]. reflexivity.
  Qed.

  (** What the code computes, with reads outside the signal still visible. *)
  Lemma point_source_rows zeros ns out0 num :
    (0 < num)%nat -> (0 < up)%nat -> (0 < ns)%nat -> length out0 = num ->
    (zeros = true -> exists i, In i ind0 /\ i < INR (up * num)) ->
    point_source heap signal zeros rm ind0 up ns out0 num
    = done (chunks num (map (F zeros) (seq 0 ns))).
  Proof.
    intros Hn Hu Hs Ho Hz. unfold point_source.
    pose proof (row_count ns num Hn Hs) as (Hbs & Ens & HN). cbv zeta in Hbs, Ens.
    set (bs := (if (ns mod num =? 0)%nat then num else ns mod num)%nat) in *.
    set (N := ((ns + num - 1) / num)%nat) in *.
    rewrite <- shift_0.
    assert (Hlast : forall pad k out, firstn bs (map (F pad) (seq k bs) ++ skipn bs out) = map (F pad) (seq k bs)).
    { intros pad k out. apply firstn_app_exact. now rewrite map_length, seq_length. }
    destruct zeros.
    - rewrite shift_0. destruct (Hz eq_refl) as (i0 & Hi0 & Hi0').
      destruct (np_min ind0) as [m|] eqn:Em; [|destruct ind0; [contradiction|discriminate]].
      destruct (np_min_spec _ _ Em) as [Hm1 Hm2].
      assert (HP : 0 < INR up * INR num) by (apply Rmult_lt_0_compat; apply lt_0_INR; assumption).
      pose proof (Int_part_bounds (m / (INR up * INR num))) as [Hf1 Hf2].
      set (pre := (- Int_part (m / (INR up * INR num)))%Z) in *.
      assert (Hpre : (0 <= pre)%Z).
      { assert (IZR (Int_part (m / (INR up * INR num))) < 1).
        { apply Rle_lt_trans with (1 := Hf1).
          apply Rmult_lt_reg_r with (1 := HP). unfold Rdiv. rewrite Rmult_assoc, Rinv_l by lra.
          rewrite mult_INR in Hi0'. specialize (Hm2 _ Hi0). lra. }
        assert (Int_part (m / (INR up * INR num)) < 1)%Z by (apply lt_IZR; lra). unfold pre. lia. }
      assert (Hpos : forall k i, (Z.to_nat pre * num <= k)%nat -> In i ind0 -> 0 <= i + INR k * INR up).
      { intros k i Hk Hi. specialize (Hm2 _ Hi).
        assert (E1 : m >= - IZR pre * (INR up * INR num)).
        { unfold pre. rewrite opp_IZR. rewrite Ropp_involutive.
          apply Rle_ge. apply Rmult_le_reg_r with (/ (INR up * INR num)); [now apply Rinv_0_lt_compat|].
          rewrite Rmult_assoc, Rinv_r by lra. unfold Rdiv in Hf1. lra. }
        assert (E2 : IZR pre * INR num <= INR k).
        { rewrite <- (Z2Nat.id pre) by assumption. rewrite <- INR_IZR_INZ, <- mult_INR.
          apply le_INR. assumption. }
        assert (0 < INR up) by (apply lt_0_INR; assumption).
        assert (IZR pre * INR num * INR up <= INR k * INR up) by (apply Rmult_le_compat_r; lra).
        lra. }
      rewrite <- shift_0.
      destruct (Z.leb_spec (Z.of_nat N) pre) as [Hc|Hc].
      + destruct (fill_loop_eq true num (N - 1) out0 0 Ho) as (out' & Ho' & E). rewrite E. clear E.
        rewrite fill_block_eq, Hlast. unfold done. f_equal.
        rewrite Ens. rewrite chunks_rows by assumption. reflexivity.
      + destruct (fill_loop_eq true num (Z.to_nat pre) out0 0 Ho) as (out' & Ho' & E). rewrite E. clear E.
        destruct (fill_loop_eq false num (Z.to_nat (Z.of_nat N - pre - 1)) out' (0 + Z.to_nat pre * num) Ho')
          as (out'' & Ho'' & E).
        rewrite E. clear E. rewrite fill_block_eq, Hlast. unfold done. f_equal.
        assert (Eq : (N - 1 = Z.to_nat pre + Z.to_nat (Z.of_nat N - pre - 1))%nat) by lia.
        rewrite Ens. rewrite chunks_rows by assumption. rewrite Eq at 1.
        rewrite seq_app, map_app.
        f_equal; [f_equal|].
        * rewrite !Nat.add_0_l.
          replace (seq (Z.to_nat pre) (Z.to_nat (Z.of_nat N - pre - 1)))
            with (map (Nat.add (Z.to_nat pre)) (seq 0 (Z.to_nat (Z.of_nat N - pre - 1)))).
          2:{ clear. induction (Z.to_nat (Z.of_nat N - pre - 1)) as [|q IH] using nat_ind; [reflexivity|].
              rewrite !seq_S, map_app, IH. cbn [map]. reflexivity. }
          rewrite map_map. apply map_ext. intros b.
          replace (Z.to_nat pre * num + b * num)%nat with (0 + (Z.to_nat pre + b) * num)%nat by lia.
          apply map_ext_in. intros k Hk. apply in_seq in Hk. symmetry. apply F_pad_irrelevant.
          intros i Hi. apply Hpos; [nia|assumption].
        * f_equal. rewrite Eq at 1.
          replace (0 + Z.to_nat pre * num + Z.to_nat (Z.of_nat N - pre - 1) * num)%nat
            with (0 + (Z.to_nat pre + Z.to_nat (Z.of_nat N - pre - 1)) * num)%nat by lia.
          apply map_ext_in. intros k Hk. apply in_seq in Hk. symmetry. apply F_pad_irrelevant.
          intros i Hi. apply Hpos; [nia|assumption].
    - destruct (fill_loop_eq false num (Z.to_nat (Z.of_nat N - 0 - 1)) out0 0 Ho) as (out' & Ho' & E).
      rewrite E. clear E. rewrite fill_block_eq, Hlast. unfold done. f_equal.
      replace (Z.to_nat (Z.of_nat N - 0 - 1)) with (N - 1)%nat by lia.
      rewrite Ens. rewrite chunks_rows by assumption. reflexivity.
  Qed.

  (** Too late a start in 'zeros' mode: too many rows. *)
  Lemma point_source_late ns out0 num m :
    (0 < num)%nat -> (0 < up)%nat -> (0 < ns)%nat -> length out0 = num ->
    np_min ind0 = Some m -> INR (up * num) <= m ->
    exists extra, (0 < extra)%nat /\
    point_source heap signal true rm ind0 up ns out0 num
    = done (chunks num (map (F false) (seq 0 (ns + extra * num)))).
  Proof.
    intros Hn Hu Hs Ho Em Hm. unfold point_source.
    pose proof (row_count ns num Hn Hs) as (Hbs & Ens & HN). cbv zeta in Hbs, Ens.
    set (bs := (if (ns mod num =? 0)%nat then num else ns mod num)%nat) in *.
    set (N := ((ns + num - 1) / num)%nat) in *.
    rewrite Em. rewrite <- shift_0.
    assert (HP : 0 < INR up * INR num) by (apply Rmult_lt_0_compat; apply lt_0_INR; assumption).
    assert (Hf : (1 <= Int_part (m / (INR up * INR num)))%Z).
    { replace 1%Z with (Int_part 1) by (apply Int_part_unique; lra). apply Int_part_le.
      apply Rmult_le_reg_r with (1 := HP). unfold Rdiv. rewrite Rmult_assoc, Rinv_l by lra.
      rewrite mult_INR in Hm. lra. }
    set (fl := Int_part (m / (INR up * INR num))) in *.
    destruct (Z.leb_spec (Z.of_nat N) (- fl)) as [Hc|Hc]; [lia|].
    replace (Z.to_nat (- fl)) with 0%nat by lia. cbn [fill_loop].
    exists (Z.to_nat fl). split; [lia|].
    destruct (fill_loop_eq false num (Z.to_nat (Z.of_nat N - - fl - 1)) out0 0 Ho) as (out' & Ho' & E).
    rewrite E. clear E. rewrite fill_block_eq.
    rewrite firstn_app_exact by (now rewrite map_length, seq_length). unfold done. f_equal.
    replace (Z.to_nat (Z.of_nat N - - fl - 1)) with (N - 1 + Z.to_nat fl)%nat by lia.
    replace (ns + Z.to_nat fl * num)%nat with ((N - 1 + Z.to_nat fl) * num + bs)%nat by nia.
    rewrite chunks_rows by assumption. reflexivity.
  Qed.

  (** In range, a row is what it should be. *)
  Lemma F_received zeros ns k :
    length signal = (up * ns)%nat -> (0 < up)%nat -> (k < ns)%nat ->
    (forall i, In i ind0 -> i < INR up - 1 / 2) ->
    (zeros = false -> forall i, In i ind0 -> - INR (up * ns) - 3 / 2 < i) ->
    F zeros k = received signal zeros rm ind0 up k.
  Proof.
    intros HL Hu Hk Hhi Hlo. unfold F, fill_row, received, shift.
    assert (Ecomb : forall (g : R -> R) (a b : list R), combine a (map g b) = map (fun '(x, y) => (x, g y)) (combine a b)).
    { intros g a. induction a as [|x a IH]; intros [|y b]; cbn; auto. f_equal. apply IH. }
    rewrite Ecomb, map_map. apply map_ext_in. intros [r i] Hin. apply in_combine_r in Hin.
    specialize (Hhi i Hin).
    assert (HuR : 1 <= INR up) by (change 1 with (INR 1); apply le_INR; lia).
    assert (HkR : INR k + 1 <= INR ns) by (rewrite <- S_INR; apply le_INR; lia).
    pose proof (pos_INR k).
    assert (Hup : i + INR k * INR up + 1 / 2 < IZR (Z.of_nat (length signal))).
    { rewrite HL, <- INR_IZR_INZ, mult_INR.
      assert (INR up * (INR k + 1) <= INR up * INR ns) by (apply Rmult_le_compat_l; lra). lra. }
    assert (HLpos : (0 < Z.of_nat (length signal))%Z) by (rewrite HL; nia).
    pose proof (rnd_lt _ _ HLpos Hup) as HR.
    destruct zeros; cbn [andb].
    - destruct (Rlt_dec (i + INR k * INR up) 0) as [Hneg|Hneg]; [reflexivity|].
      rewrite numba_get_wrap; [reflexivity|].
      pose proof (rnd_nonneg (i + INR k * INR up) ltac:(lra)). lia.
    - rewrite numba_get_wrap; [reflexivity|].
      specialize (Hlo eq_refl i Hin).
      assert (IZR (- Z.of_nat (length signal)) - 3 / 2 < i + INR k * INR up).
      { rewrite opp_IZR, <- INR_IZR_INZ, HL.
        assert (0 <= INR k * INR up) by (apply Rmult_le_pos; lra). lra. }
      pose proof (rnd_gt_neg (i + INR k * INR up) (- Z.of_nat (length signal)) ltac:(lia) H0). lia.
  Qed.
End Fill.

(** PointSource for recordings that start before the wave front has reached
    the microphones (at most one sample less half an up-sampled one after), and
    in loop mode no earlier than one signal length before. *)
Theorem point_source_spec heap signal zeros rm c start_t start fs up ns out0 num :
  (0 < num)%nat -> (0 < up)%nat -> (0 < ns)%nat -> length out0 = num ->
  length signal = (up * ns)%nat -> rm <> [] ->
  let ind0 := first_ind c start_t start fs up rm in
  (forall i, In i ind0 -> i < INR up - 1 / 2) ->
  (zeros = false -> forall i, In i ind0 -> - INR (up * ns) - 3 / 2 < i) ->
  delivers num (map (received signal zeros rm ind0 up) (seq 0 ns))
    (point_source heap signal zeros rm ind0 up ns out0 num).
Proof.
  intros Hn Hu Hs Ho HL Hrm ind0 Hhi Hlo.
  rewrite point_source_rows; auto.
  - replace (map (received signal zeros rm ind0 up) (seq 0 ns))
      with (map (fun k => fill_row heap signal zeros rm (map (fun i => i + INR k * INR up) ind0)) (seq 0 ns)).
    + apply delivers_chunks. assumption.
    + apply map_ext_in. intros k Hk. apply in_seq in Hk.
      apply (F_received heap signal rm ind0 up zeros ns k); auto; lia.
  - intros _. unfold ind0, first_ind in *. destruct rm as [|r rm']; [congruence|].
    eexists. split; [left; reflexivity|].
    apply Rlt_le_trans with (INR up); [|apply le_INR; nia].
    apply Rlt_le_trans with (INR up - 1 / 2); [apply Hhi; left; reflexivity|lra].
Qed.

(** In 'zeros' mode a recording that starts later yields too many rows, and
    in both modes the last row reads outside the signal. *)
Theorem point_source_late_start heap signal rm c start_t start fs up ns out0 num :
  (0 < num)%nat -> (0 < up)%nat -> (0 < ns)%nat -> length out0 = num -> rm <> [] ->
  (forall i, In i (first_ind c start_t start fs up rm) -> INR (up * num) <= i) ->
  exists t, point_source heap signal true rm (first_ind c start_t start fs up rm) up ns out0 num = t
    /\ fin t = Finished /\ (ns + num <= length (concat (blocks t)))%nat.
Proof.
  intros Hn Hu Hs Ho Hrm H. set (ind0 := first_ind c start_t start fs up rm) in *.
  destruct (np_min ind0) as [m|] eqn:Em.
  2:{ unfold ind0, first_ind in Em. destruct rm; [congruence|discriminate]. }
  destruct (np_min_spec _ _ Em) as [Hm _].
  destruct (point_source_late heap signal rm ind0 up ns out0 num m Hn Hu Hs Ho Em (H _ Hm)) as (e & He & E).
  exists (point_source heap signal true rm ind0 up ns out0 num). split; [reflexivity|]. rewrite E.
  cbn [fin blocks done]. split; [reflexivity|].
  rewrite concat_chunks, map_length, seq_length by assumption. nia.
Qed.

Lemma numba_get_outside heap signal i :
  (Z.of_nat (length signal) <= i)%Z -> numba_get heap signal i = heap i.
Proof.
  intros H. unfold numba_get. destruct (Z.ltb_spec i 0); [lia|].
  destruct (Z.leb_spec 0 i); [|lia]. destruct (Z.ltb_spec i (Z.of_nat (length signal))); [lia|]. reflexivity.
Qed.

(* ------------------------------------------------------------------ *)
(** * The sample loop of the other sources *)

(** The loop [while n: n -= 1; try: out[i] = ...; i += 1; if i == num: yield ...;
    i = 0; except IndexError: break] of SphericalHarmonicSource
    (sources.py:1065-1078), MovingPointSource (1173-1207), PointSourceDipole
    (1324-1350), MovingPointSourceDipole (1540-1580), LineSource (1690-1707) and
    MovingLineSource (1917-1947).  [f k]: the row of the k-th sample, [None] if
    the signal has no such sample (IndexError); [acc]: the rows [out[:i]];
    [post]: what is done to a full block before it is yielded (the transform of
    SphericalHarmonicSource, nothing otherwise); [last]: what is done with
    [out[:i]] after the loop. *)
Fixpoint sample_loop {A} (f : nat -> option A) (post : list A -> list A) (last : list A -> list (list A))
    (num n k : nat) (acc : list A) : list (list A) :=
  match n with
  | O => last acc
  | S n' =>
      match f k with
      | None => last acc
      | Some row =>
          let acc' := acc ++ [row] in
          if (length acc' =? num)%nat then post acc' :: sample_loop f post last num n' (S k) []
          else sample_loop f post last num n' (S k) acc'
      end
  end.

(** [if i > 0: yield out[:i]] (sources.py:1077-1078, 1206-1207). *)
Definition flush_checked {A} (post : list A -> list A) (acc : list A) : list (list A) :=
  match acc with [] => [] | _ => [post acc] end.

(** [yield out[:i]] without the test (sources.py:1350, 1580, 1707, 1947). *)
Definition flush_always {A} (acc : list A) : list (list A) := [acc].

(** [s] is the stream of at most [n] samples the signal allows. *)
Definition allowed {A} (f : nat -> option A) (n : nat) (s : list A) : Prop :=
  (length s <= n)%nat /\ (forall k, (k < length s)%nat -> f k = nth_error s k)
  /\ ((length s < n)%nat -> f (length s) = None).

Lemma sample_loop_gen {A} (f : nat -> option A) post last num : (0 < num)%nat ->
  forall n k acc s,
    (length acc < num)%nat -> (length s <= n)%nat ->
    (forall j, (j < length s)%nat -> f (k + j)%nat = nth_error s j) ->
    ((length s < n)%nat -> f (k + length s)%nat = None) ->
    sample_loop f post last num n k acc
    = map post (firstn ((length acc + length s) / num) (chunks num (acc ++ s)))
      ++ last (skipn ((length acc + length s) / num * num) (acc ++ s)).
Proof.
  intros Hn. induction n as [|n IH]; intros k acc s Ha Hl Hf Hend; cbn [sample_loop].
  - assert (s = []) as -> by (destruct s; [reflexivity|cbn in Hl; lia]).
    cbn [length]. rewrite Nat.add_0_r, Nat.div_small by lia. cbn [firstn map app Nat.mul skipn].
    now rewrite app_nil_r.
  - destruct s as [|x s].
    + cbn [length] in *. replace (f k) with (@None A).
      2:{ symmetry. rewrite <- (Nat.add_0_r k). apply Hend. lia. }
      rewrite Nat.add_0_r, Nat.div_small by lia. cbn [firstn map app Nat.mul skipn].
      now rewrite app_nil_r.
    + replace (f k) with (Some x).
      2:{ symmetry. rewrite <- (Nat.add_0_r k). rewrite Hf by (cbn [length]; lia). reflexivity. }
      assert (Hf' : forall j, (j < length s)%nat -> f (S k + j)%nat = nth_error s j).
      { intros j Hj. replace (S k + j)%nat with (k + S j)%nat by lia. rewrite Hf by (cbn [length]; lia).
        reflexivity. }
      assert (Hend' : (length s < n)%nat -> f (S k + length s)%nat = None).
      { intros Hj. replace (S k + length s)%nat with (k + S (length s))%nat by lia. apply Hend.
        cbn [length]. lia. }
      rewrite app_length. cbn [length] in *.
      destruct (Nat.eqb_spec (length acc + 1) num) as [E|E].
      * rewrite (IH (S k) [] s) by (auto; cbn [length]; lia). cbn [length app Nat.add].
        replace (acc ++ x :: s) with ((acc ++ [x]) ++ s) by (rewrite <- app_assoc; reflexivity).
        rewrite chunks_app by (rewrite ?app_length; cbn [length]; lia).
        replace (length acc + S (length s))%nat with (length s + 1 * num)%nat by lia.
        rewrite Nat.div_add by lia.
        replace (length s / num + 1)%nat with (S (length s / num)) by lia.
        cbn [firstn map app]. f_equal. f_equal. f_equal.
        replace (S (length s / num) * num)%nat with (length s / num * num + num)%nat by lia.
        rewrite <- skipn_skipn'.
        rewrite (skipn_app_exact (acc ++ [x]) s num) by (rewrite app_length; cbn [length]; lia).
        reflexivity.
      * rewrite (IH (S k) (acc ++ [x]) s) by (auto; rewrite ?app_length; cbn [length]; lia).
        rewrite app_length. cbn [length]. rewrite <- app_assoc. cbn [app].
        replace (length acc + 1 + length s)%nat with (length acc + S (length s))%nat by lia. reflexivity.
Qed.

Lemma chunks_split {A} num (s : list A) : (0 < num)%nat ->
  chunks num s = firstn (length s / num) (chunks num s)
                 ++ match skipn (length s / num * num) s with [] => [] | r => [r] end.
Proof.
  intros Hn. revert s. apply (stream_ind num); auto.
  - cbn [length]. rewrite Nat.div_0_l by lia. reflexivity.
  - intros s Hs. rewrite chunks_short by assumption.
    destruct (Nat.eq_dec (length s) num) as [E|E].
    + rewrite E, Nat.div_same by lia. rewrite skipn_all2 by lia. reflexivity.
    + rewrite Nat.div_small by lia. cbn [firstn app Nat.mul skipn]. destruct s; [cbn in Hs; lia|reflexivity].
  - intros b s Hb Hs IH. rewrite chunks_app by assumption. rewrite app_length, Hb.
    replace (num + length s)%nat with (length s + 1 * num)%nat by lia.
    rewrite Nat.div_add by lia. replace (length s / num + 1)%nat with (S (length s / num)) by lia.
    cbn [firstn app]. rewrite IH at 1. f_equal. f_equal.
    replace (S (length s / num) * num)%nat with (length s / num * num + num)%nat by lia.
    rewrite <- skipn_skipn', (skipn_app_exact b s num Hb). reflexivity.
Qed.

(** With the test, the rows allowed by the signal in full blocks. *)
Theorem sample_loop_checked {A} (f : nat -> option A) post num n s :
  (0 < num)%nat -> allowed f n s ->
  sample_loop f post (flush_checked post) num n 0 [] = map post (chunks num s).
Proof.
  intros Hn (Hl & Hf & He).
  rewrite (sample_loop_gen f post (flush_checked post) num Hn n 0 [] s); auto.
  cbn [length app Nat.add]. rewrite (chunks_split num s Hn) at 2. rewrite map_app. f_equal.
  unfold flush_checked. destruct (skipn (length s / num * num) s); reflexivity.
Qed.

(** Without it, an empty block is added exactly when [num] divides the number
    of rows. *)
Theorem sample_loop_always {A} (f : nat -> option A) num n s :
  (0 < num)%nat -> allowed f n s ->
  sample_loop f (fun b => b) flush_always num n 0 []
  = chunks num s ++ (if (length s mod num =? 0)%nat then [[]] else []).
Proof.
  intros Hn (Hl & Hf & He).
  rewrite (sample_loop_gen f (fun b => b) flush_always num Hn n 0 [] s); auto.
  cbn [length app Nat.add]. rewrite (chunks_split num s Hn) at 2. rewrite map_id, <- app_assoc. f_equal.
  unfold flush_always.
  pose proof (Nat.div_mod (length s) num ltac:(lia)) as E.
  pose proof (skipn_length (length s / num * num) s) as Hsk.
  destruct (skipn (length s / num * num) s) as [|x r] eqn:Es; cbn [length] in Hsk.
  - assert (length s mod num = 0)%nat as -> by nia. reflexivity.
  - destruct (Nat.eqb_spec (length s mod num) 0) as [E0|E0]; [nia|reflexivity].
Qed.

(* ------------------------------------------------------------------ *)
(** * Emission times of moving sources *)

(** The Newton iteration of MovingPointSource.result (sources.py:1175-1190) and
    of get_emission_time (1433-1452, 1830-1849), one [lane] per microphone.
    [l_dist x], [l_mach x]: distance of the source at time [x] from the
    microphone, and what the code takes as its radial Mach number; [l_t]:
    receiving time; [l_te], [l_rm], [l_Mr], [l_eps]: the arrays of the loop. *)
Record lane := mkLane
  { l_dist : R -> R; l_mach : R -> R; l_t : R; l_te : R; l_rm : R; l_Mr : R; l_eps : R }.

(** Lines 1180-1188 for one microphone. *)
Definition newton_step (c0 : R) (l : lane) : lane :=
  let rm := l_dist l (l_te l) in
  let Mr := l_mach l (l_te l) in
  let eps := (l_te l + rm / c0 - l_t l) / (1 + Mr) in
  mkLane (l_dist l) (l_mach l) (l_t l) (l_te l - eps) rm Mr eps.

Definition abs_max (l : list R) : R := fold_right Rmax 0 (map Rabs l).

(** [while abs(eps).max() > epslim and j < 100]; [fuel] = 100 - j. *)
Fixpoint newton (fuel : nat) (c0 epslim : R) (ls : list lane) : list lane :=
  match fuel with
  | O => ls
  | S fuel' =>
      if Rlt_dec epslim (abs_max (map l_eps ls)) then newton fuel' c0 epslim (map (newton_step c0) ls)
      else ls
  end.

(** Lines 1175-1188: [eps = ones], [te = t.copy()].  [abs(eps).max()] of an
    empty array raises; when the loop body never runs, [rm] is unbound.
    [iters]: the literal 100 (the theorems hold for any positive number). *)
Definition emission_time (iters : nat) (c0 epslim : R) (mics : list ((R -> R) * (R -> R) * R)) : list lane + exn :=
  match mics with
  | [] => inr ValueError
  | _ =>
      if Rlt_dec epslim 1
      then inl (newton iters c0 epslim (map (fun '(d, m, t) => mkLane d m t t 0 0 1) mics))
      else inr UnboundLocalError
  end.

(** A microphone for which the source moves with at most the speed [v]: the
    distance changes at most that fast, and whatever unit vector the code
    projects the velocity on, the Mach number is at most [v / c]. *)
Definition speed_below (c v : R) (d m : R -> R) : Prop :=
  (forall a b, Rabs (d a - d b) <= v * Rabs (a - b)) /\ (forall a, Rabs (m a) <= v / c).

Lemma abs_max_ge l x : In x l -> Rabs x <= abs_max l.
Proof.
  unfold abs_max. induction l as [|a l IH]; [contradiction|]. cbn [map fold_right]. intros [->|H].
  - apply Rmax_l.
  - apply Rle_trans with (2 := Rmax_r _ _). now apply IH.
Qed.

Lemma newton_invariant c0 epslim (P : nat -> lane -> Prop) ls :
  (forall l, In l ls -> P 0%nat l) ->
  (forall k l, P k l -> P (S k) (newton_step c0 l)) ->
  forall fuel l', In l' (newton fuel c0 epslim ls) ->
  exists k, (k <= fuel)%nat /\ P k l' /\ (k = fuel \/ Rabs (l_eps l') <= epslim).
Proof.
  intros H0 HS.
  assert (G : forall fuel k ls', (forall l, In l ls' -> P k l) ->
            forall l', In l' (newton fuel c0 epslim ls') ->
            exists j, (k <= j <= k + fuel)%nat /\ P j l' /\ (j = (k + fuel)%nat \/ Rabs (l_eps l') <= epslim)).
  { induction fuel as [|fuel IH]; intros k ls' Hk l' Hin; cbn [newton] in Hin.
    - exists k. split; [lia|]. split; [auto|]. left. lia.
    - destruct (Rlt_dec epslim (abs_max (map l_eps ls'))) as [Hl|Hl].
      + destruct (IH (S k) (map (newton_step c0) ls')) with (l' := l') as (j & Hj & Pj & Hc); auto.
        { intros l Hl'. apply in_map_iff in Hl'. destruct Hl' as (l0 & <- & Hl0). auto. }
        exists j. split; [lia|]. split; [assumption|]. destruct Hc as [->|Hc]; [left; lia|right; assumption].
      + exists k. split; [lia|]. split; [auto|]. right.
        pose proof (abs_max_ge (map l_eps ls') (l_eps l') (in_map _ _ _ Hin)). lra. }
  intros fuel l' Hin. destruct (G fuel 0%nat ls H0 l' Hin) as (j & Hj & Pj & Hc).
  exists j. split; [lia|]. split; [assumption|]. exact Hc.
Qed.

Lemma newton_spec c0 epslim v mics fuel :
  0 < c0 -> 0 <= v -> 3 * v < c0 -> 0 <= epslim < 1 ->
  (forall d m t, In (d, m, t) mics -> speed_below c0 v d m) ->
  let mu := v / c0 in
  let q := 2 * mu / (1 - mu) in
  0 <= q < 1 /\
  forall l, In l (newton (S fuel) c0 epslim (map (fun '(d, m, t) => mkLane d m t t 0 0 1) mics)) ->
    (exists d m t, In (d, m, t) mics /\ l_dist l = d /\ l_mach l = m /\ l_t l = t) /\
    forall x, x + l_dist l x / c0 = l_t l ->
      Rabs (l_te l - x) <= Rmax (q * epslim) (q ^ (S fuel) * Rabs (l_dist l x / c0))
      /\ Rabs (l_rm l - l_dist l x) <= v * Rmax ((1 + q) * epslim) (q ^ fuel * Rabs (l_dist l x / c0)).
Proof.
  intros Hc Hv Hv3 He Hmics mu q.
  assert (Hmu : 0 <= mu < 1 / 3).
  { unfold mu, Rdiv. split.
    - apply Rmult_le_pos; [lra|]. left. now apply Rinv_0_lt_compat.
    - apply Rmult_lt_reg_r with c0; [lra|]. rewrite Rmult_assoc, Rinv_l by lra. lra. }
  assert (Hq : 0 <= q < 1).
  { unfold q, Rdiv. assert (0 < / (1 - mu)) by (apply Rinv_0_lt_compat; lra). split.
    - apply Rmult_le_pos; lra.
    - apply Rmult_lt_reg_r with (1 - mu); [lra|]. rewrite Rmult_assoc, Rinv_l by lra. lra. }
  split; [assumption|]. intros l Hl.
  assert (Hqmu : q * (1 - mu) = 2 * mu) by (unfold q; field; lra).
  assert (Hdist : forall d m t a b, In (d, m, t) mics -> Rabs ((d a - d b) / c0) <= mu * Rabs (a - b)).
  { intros d m t a b Hin. destruct (Hmics d m t Hin) as [Hd _]. specialize (Hd a b).
    unfold Rdiv. rewrite Rabs_mult, (Rabs_right (/ c0)) by (left; now apply Rinv_0_lt_compat).
    apply Rmult_le_reg_r with c0; [lra|]. rewrite Rmult_assoc, Rinv_l, Rmult_1_r by lra.
    apply Rle_trans with (1 := Hd). unfold mu. right. field. lra. }
  pose (P := fun (k : nat) (l : lane) =>
    (exists d m t, In (d, m, t) mics /\ l_dist l = d /\ l_mach l = m /\ l_t l = t)
    /\ (forall x, x + l_dist l x / c0 = l_t l -> Rabs (l_te l - x) <= q ^ k * Rabs (l_dist l x / c0))
    /\ match k with
       | O => l_eps l = 1
       | S k' =>
           l_rm l = l_dist l (l_te l + l_eps l)
           /\ Rabs (l_Mr l) <= mu
           /\ l_te l + l_rm l / c0 - l_t l = l_eps l * l_Mr l
           /\ (forall x, x + l_dist l x / c0 = l_t l ->
                 Rabs (l_te l + l_eps l - x) <= q ^ k' * Rabs (l_dist l x / c0))
       end).
  assert (HP0 : forall l, In l (map (fun '(d, m, t) => mkLane d m t t 0 0 1) mics) -> P 0%nat l).
  { intros l0 Hl0. apply in_map_iff in Hl0. destruct Hl0 as ([[d m] t] & <- & Hin).
    unfold P. cbn. split; [exists d, m, t; auto|]. split; [|reflexivity].
    intros x Hx. rewrite Rmult_1_l. right. f_equal. lra. }
  assert (HPS : forall k l, P k l -> P (S k) (newton_step c0 l)).
  { intros k l0 (Hin & Herr & _). unfold P. cbn [newton_step l_dist l_mach l_t l_te l_rm l_Mr l_eps].
    destruct Hin as (d & m & t & Hin & Ed & Em & Et).
    split; [exists d, m, t; auto|].
    destruct (Hmics d m t Hin) as [_ Hm]. rewrite <- Em in Hm. specialize (Hm (l_te l0)). fold mu in Hm.
    set (M := l_mach l0 (l_te l0)) in *.
    assert (HM : - mu <= M <= mu) by (revert Hm; unfold Rabs; destruct (Rcase_abs M); lra).
    set (e := (l_te l0 + l_dist l0 (l_te l0) / c0 - l_t l0) / (1 + M)).
    assert (Ee : e * (1 + M) = l_te l0 + l_dist l0 (l_te l0) / c0 - l_t l0) by (unfold e; field; lra).
    assert (Eprev : l_te l0 - e + e = l_te l0) by ring.
    split; [|split; [now rewrite Eprev|split; [assumption|split; [lra|]]]].
    - intros x Hx. specialize (Herr x Hx).
      pose proof (Hdist d m t (l_te l0) x Hin) as HD. rewrite <- Ed in HD.
      set (a := l_te l0 - x) in *.
      set (D := (l_dist l0 (l_te l0) - l_dist l0 x) / c0) in *.
      assert (Ea : (l_te l0 - e - x) * (1 + M) = M * a - D).
      { unfold a, D. rewrite Rmult_minus_distr_r, Rmult_minus_distr_r, Ee, <- Hx. field. lra. }
      assert (Hb : Rabs (l_te l0 - e - x) * (1 - mu) <= 2 * mu * Rabs a).
      { apply Rle_trans with (Rabs (l_te l0 - e - x) * (1 + M)).
        - apply Rmult_le_compat_l; [apply Rabs_pos|lra].
        - rewrite <- (Rabs_right (1 + M)) by lra. rewrite <- Rabs_mult, Ea.
          apply Rle_trans with (Rabs (M * a) + Rabs D).
          + unfold Rminus at 1. apply Rle_trans with (1 := Rabs_triang _ _). rewrite Rabs_Ropp. lra.
          + rewrite Rabs_mult.
            assert (Rabs M * Rabs a <= mu * Rabs a) by (apply Rmult_le_compat_r; [apply Rabs_pos|assumption]).
            lra. }
      assert (Hb' : Rabs (l_te l0 - e - x) <= q * Rabs a).
      { apply Rmult_le_reg_r with (1 - mu); [lra|].
        replace (q * Rabs a * (1 - mu)) with (q * (1 - mu) * Rabs a) by ring. rewrite Hqmu. assumption. }
      apply Rle_trans with (1 := Hb'). cbn [pow]. rewrite Rmult_assoc.
      apply Rmult_le_compat_l; lra.
    - intros x Hx. rewrite Eprev. auto. }
  destruct (newton_invariant c0 epslim P _ HP0 HPS (S fuel) l Hl) as (k & Hk & (Hin & Herr & Hlast) & Hend).
  split; [assumption|]. intros x Hx.
  destruct Hin as (d & m & t & Hin & Ed & Em & Et).
  destruct k as [|k].
  { destruct Hend as [Hend|Hend]; [discriminate|]. rewrite Hlast, Rabs_R1 in Hend. lra. }
  destruct Hlast as (Hrm & HMr & Hres & Hprev).
  assert (Hrmx : Rabs (l_rm l - l_dist l x) <= v * Rabs (l_te l + l_eps l - x)).
  { rewrite Hrm, Ed. apply (Hmics d m t Hin). }
  destruct Hend as [Hend|Hend].
  - injection Hend as ->. split.
    + apply Rle_trans with (2 := Rmax_r _ _). auto.
    + apply Rle_trans with (1 := Hrmx). apply Rmult_le_compat_l; [assumption|].
      apply Rle_trans with (2 := Rmax_r _ _). auto.
  - pose proof (Hdist d m t (l_te l + l_eps l) (l_te l) Hin) as HD1.
    pose proof (Hdist d m t (l_te l) x Hin) as HD2. rewrite <- Ed in HD1, HD2.
    replace (l_te l + l_eps l - l_te l) with (l_eps l) in HD1 by ring.
    rewrite <- Hrm in HD1.
    set (a := l_te l - x) in *.
    (* residual of the retarded time equation at te *)
    assert (Eg : a + (l_dist l (l_te l) - l_dist l x) / c0
                 = l_eps l * l_Mr l - (l_rm l - l_dist l (l_te l)) / c0).
    { unfold a. rewrite <- Hres, <- Hx. field. lra. }
    assert (Ha : Rabs a * (1 - mu) <= 2 * mu * epslim).
    { assert (H1 : Rabs (l_eps l * l_Mr l - (l_rm l - l_dist l (l_te l)) / c0) <= 2 * mu * epslim).
      { unfold Rminus at 1. apply Rle_trans with (1 := Rabs_triang _ _). rewrite Rabs_Ropp, Rabs_mult.
        assert (Rabs (l_eps l) * Rabs (l_Mr l) <= epslim * mu)
          by (apply Rmult_le_compat; auto using Rabs_pos).
        assert (mu * Rabs (l_eps l) <= mu * epslim) by (apply Rmult_le_compat_l; lra). lra. }
      rewrite <- Eg in H1.
      set (D := (l_dist l (l_te l) - l_dist l x) / c0) in *.
      assert (H2 : Rabs a <= Rabs (a + D) + Rabs D).
      { replace a with ((a + D) + - D) at 1 by ring.
        apply Rle_trans with (1 := Rabs_triang _ _). rewrite Rabs_Ropp. lra. }
      lra. }
    assert (Ha' : Rabs a <= q * epslim).
    { apply Rmult_le_reg_r with (1 - mu); [lra|].
      replace (q * epslim * (1 - mu)) with (q * (1 - mu) * epslim) by ring. rewrite Hqmu. assumption. }
    split.
    + apply Rle_trans with (2 := Rmax_l _ _). assumption.
    + apply Rle_trans with (1 := Hrmx). apply Rmult_le_compat_l; [assumption|].
      apply Rle_trans with (2 := Rmax_l _ _).
      replace (l_te l + l_eps l - x) with (l_eps l + a) by (unfold a; ring).
      apply Rle_trans with (1 := Rabs_triang _ _). lra.
Qed.

(** Every trajectory slower than a third of the speed of sound: the computed
    emission time is the retarded time [x], up to [q] = 2 mu / (1 - mu) times
    the tolerance, or what is left after [iters] contractions; likewise the
    distance. *)
Theorem emission_time_spec iters c0 epslim v mics ls :
  0 < c0 -> 0 <= v -> 3 * v < c0 -> 0 <= epslim ->
  (forall d m t, In (d, m, t) mics -> speed_below c0 v d m) ->
  emission_time (S iters) c0 epslim mics = inl ls ->
  let mu := v / c0 in
  let q := 2 * mu / (1 - mu) in
  0 <= q < 1 /\
  forall l, In l ls ->
    (exists d m t, In (d, m, t) mics /\ l_dist l = d /\ l_mach l = m /\ l_t l = t) /\
    forall x, x + l_dist l x / c0 = l_t l ->
      Rabs (l_te l - x) <= Rmax (q * epslim) (q ^ S iters * Rabs (l_dist l x / c0))
      /\ Rabs (l_rm l - l_dist l x) <= v * Rmax ((1 + q) * epslim) (q ^ iters * Rabs (l_dist l x / c0)).
Proof.
  intros Hc Hv Hv3 He Hmics Hem mu q.
  unfold emission_time in Hem.
  assert (Hls : epslim < 1 /\ ls = newton (S iters) c0 epslim (map (fun '(d, m, t) => mkLane d m t t 0 0 1) mics)).
  { destruct mics; [discriminate|]. destruct (Rlt_dec epslim 1); [|discriminate].
    injection Hem as E. symmetry in E. split; assumption. }
  clear Hem. destruct Hls as [He1 ->].
  exact (newton_spec c0 epslim v mics iters Hc Hv Hv3 (conj He He1) Hmics).
Qed.

(* ------------------------------------------------------------------ *)
(** * MovingPointSource *)

(** [signal[array(0.5 + ind * up, dtype=int64)] / rm] (sources.py:1199): NumPy
    indexing, [None] is IndexError. *)
Definition np_row (signal : list R) (l : list (R * R)) : option (list R) :=
  sequence (map (fun '(x, r) => match py_nth signal (rnd x) with Some s => Some (s / r) | None => None end) l).

(** Row [k] of MovingPointSource.result, sources.py:1174-1199.  [mics]: see
    [lane]; [conv]: conv_amp. *)
Definition moving_lanes iters c0 fs start up (mics : list ((R -> R) * (R -> R))) (k : nat) : list lane + exn :=
  emission_time iters c0 (1 / 10 / INR up / fs)
    (map (fun '(d, m) => (d, m, start + INR k / fs)) mics).

Definition moving_row iters (signal : list R) c0 fs start_t start up conv mics (k : nat) : option (list R) :=
  match moving_lanes iters c0 fs start up mics k with
  | inr _ => None
  | inl ls =>
      np_row signal
        (map (fun l => ((l_te l - start_t + start) * fs * INR up,
                        if conv : bool then l_rm l * (1 - l_Mr l) ^ 2 else l_rm l)) ls)
  end.

(** MovingPointSource.result, sources.py:1160-1207.  Whether the Newton
    iteration fails does not depend on the sample. *)
Definition moving_point_source iters signal c0 fs start_t start up conv mics (ns num : nat) : trace (list R) :=
  match ns, moving_lanes iters c0 fs start up mics 0 with
  | O, _ => done []
  | _, inr e => raise e
  | _, inl _ =>
      done (sample_loop (moving_row iters signal c0 fs start_t start up conv mics)
              (fun b => b) (flush_checked (fun b => b)) num ns 0 [])
  end.

(** A source at rest at the distances [rm]. *)
Definition at_rest (rm : list R) : list ((R -> R) * (R -> R)) :=
  map (fun r => ((fun _ : R => r), (fun _ : R => 0))) rm.

Lemma newton_iter c0 epslim fuel : forall ls,
  exists k, (k <= fuel)%nat /\ newton fuel c0 epslim ls = map (Nat.iter k (newton_step c0)) ls
    /\ (epslim < abs_max (map l_eps ls) -> (0 < fuel)%nat -> (0 < k)%nat).
Proof.
  induction fuel as [|fuel IH]; intros ls; cbn [newton].
  - exists 0%nat. split; [lia|]. split; [now rewrite map_id|lia].
  - destruct (Rlt_dec epslim (abs_max (map l_eps ls))) as [H|H].
    + destruct (IH (map (newton_step c0) ls)) as (k & Hk & E & _). exists (S k).
      split; [lia|]. split; [|lia]. rewrite E, map_map. apply map_ext. intros l.
      clear. induction k as [|k IH]; cbn [Nat.iter] in *; [reflexivity|].
      cbn [nat_rect] in *. unfold Nat.iter in *. cbn [nat_rect] in *. now rewrite IH.
    + exists 0%nat. split; [lia|]. split; [now rewrite map_id|]. intros; lra.
Qed.

Lemma newton_static c0 k r t : c0 <> 0 ->
  let l := Nat.iter (S k) (newton_step c0) (mkLane (fun _ => r) (fun _ => 0) t t 0 0 1) in
  l_te l = t - r / c0 /\ l_rm l = r /\ l_Mr l = 0 /\ l_dist l = (fun _ => r) /\ l_mach l = (fun _ => 0) /\ l_t l = t.
Proof.
  intros Hc. induction k as [|k IH]; cbv zeta in *.
  - cbn. repeat match goal with |- _ /\ _ => split end; auto. field. assumption.
  - unfold Nat.iter in *. cbn [nat_rect] in *. set (l := newton_step c0 _) in *.
    destruct IH as (E1 & E2 & E3 & E4 & E5 & E6).
    unfold newton_step at 1 2 3 4 5 6. cbn [l_te l_rm l_Mr l_dist l_mach l_t].
    rewrite E1, E4, E5, E6. repeat match goal with |- _ /\ _ => split end; auto. field. assumption.
Qed.

Lemma sequence_some {A B} (f : A -> option B) (g : A -> B) l :
  (forall x, In x l -> f x = Some (g x)) -> sequence (map f l) = Some (map g l).
Proof.
  induction l as [|a l IH]; intros H; cbn [map sequence]; [reflexivity|].
  rewrite (H a) by (left; reflexivity). rewrite IH; [reflexivity|]. intros x Hx. apply H. now right.
Qed.

Lemma py_nth_wrap signal i :
  (- Z.of_nat (length signal) <= i < Z.of_nat (length signal))%Z ->
  py_nth signal i = Some (nth (Z.to_nat (i mod Z.of_nat (length signal))) signal 0).
Proof.
  intros H. unfold py_nth. set (L := Z.of_nat (length signal)) in *.
  destruct (Z.ltb_spec i 0) as [Hi|Hi].
  - destruct (Z.leb_spec 0 (i + L)); [|lia].
    replace (i mod L)%Z with (i + L)%Z by (apply Z.mod_unique with (q := (-1)%Z); lia).
    apply nth_error_nth'. lia.
  - replace (i mod L)%Z with i by (symmetry; apply Z.mod_small; lia). apply nth_error_nth'. lia.
Qed.

Lemma emission_time_static iters c0 epslim rm t : c0 <> 0 -> rm <> [] -> 0 <= epslim < 1 -> (0 < iters)%nat ->
  exists ls, emission_time iters c0 epslim (map (fun '(d, m) => (d, m, t)) (at_rest rm)) = inl ls
    /\ map (fun l => (l_te l, l_rm l, l_Mr l)) ls = map (fun r => (t - r / c0, r, 0)) rm.
Proof.
  intros Hc Hrm He Hit. unfold emission_time, at_rest.
  destruct rm as [|r0 rm0]; [congruence|]. cbn [map].
  destruct (Rlt_dec epslim 1) as [_|H]; [|lra].
  eexists. split; [reflexivity|].
  set (ls0 := mkLane _ _ _ _ _ _ _ :: _).
  destruct (newton_iter c0 epslim iters ls0) as (k & Hk & E & Hpos). rewrite E. clear E.
  assert (H0 : (0 < k)%nat).
  { apply Hpos; [|assumption].
    pose proof (abs_max_ge (map l_eps ls0) 1 (or_introl eq_refl)) as H1. rewrite Rabs_R1 in H1. lra. }
  destruct k as [|k]; [lia|]. clear Hk Hpos H0.
  unfold ls0. rewrite !map_map. cbn [map].
  destruct (newton_static c0 k r0 t Hc) as (E1 & E2 & E3 & _). cbv zeta in E1, E2, E3.
  rewrite E1, E2, E3. f_equal. rewrite !map_map. apply map_ext. intros r.
  destruct (newton_static c0 k r t Hc) as (F1 & F2 & F3 & _). cbv zeta in F1, F2, F3.
  rewrite F1, F2, F3. reflexivity.
Qed.

(** A moving source that does not move delivers what a PointSource with twice
    its [start] delivers. *)
Theorem moving_at_rest iters signal c0 fs start_t start up conv rm ns num :
  (0 < iters)%nat -> c0 <> 0 -> 0 < fs -> 1 / 10 / INR up / fs < 1 ->
  (0 < num)%nat -> (0 < up)%nat -> length signal = (up * ns)%nat -> rm <> [] ->
  let ind0 := first_ind c0 start_t (start + start) fs up rm in
  (forall i, In i ind0 -> - INR (up * ns) - 3 / 2 < i < INR up - 1 / 2) ->
  delivers num (map (received signal false rm ind0 up) (seq 0 ns))
    (moving_point_source iters signal c0 fs start_t start up conv (at_rest rm) ns num).
Proof.
  intros Hit Hc Hfs Heps Hn Hu HL Hrm ind0 Hr.
  assert (HuR : 0 < INR up) by (apply lt_0_INR; assumption).
  assert (He0 : 0 <= 1 / 10 / INR up / fs).
  { unfold Rdiv. repeat apply Rmult_le_pos; try lra; left; apply Rinv_0_lt_compat; assumption. }
  unfold moving_point_source. destruct ns as [|ns0].
  { cbn [seq map]. unfold delivers. cbn. repeat split. constructor. }
  set (ns := S ns0) in *.
  unfold moving_lanes at 1. destruct (emission_time_static iters c0 (1 / 10 / INR up / fs) rm (start + INR 0 / fs) Hc Hrm)
    as (ls & El & _); [lra|assumption|]. rewrite El. clear El ls.
  assert (Hrows : forall k, (k < ns)%nat ->
    moving_row iters signal c0 fs start_t start up conv (at_rest rm) k
    = Some (received signal false rm ind0 up k)).
  { intros k Hk. unfold moving_row, moving_lanes.
    destruct (emission_time_static iters c0 (1 / 10 / INR up / fs) rm (start + INR k / fs) Hc Hrm)
      as (ls & El & Em); [lra|assumption|]. rewrite El. clear El.
    unfold np_row.
    replace (map (fun l => ((l_te l - start_t + start) * fs * INR up,
                            if conv then l_rm l * (1 - l_Mr l) ^ 2 else l_rm l)) ls)
      with (map (fun r => ((start + INR k / fs - r / c0 - start_t + start) * fs * INR up, r)) rm).
    2:{ transitivity (map (fun p : R * R * R => let '(te, r, M) := p in
           ((te - start_t + start) * fs * INR up, if conv then r * (1 - M) ^ 2 else r))
           (map (fun l => (l_te l, l_rm l, l_Mr l)) ls)).
        - rewrite Em, map_map. apply map_ext. intros r. f_equal. destruct conv; ring.
        - now rewrite map_map. }
    unfold received, ind0, first_ind. 
    rewrite map_map.
    replace (combine rm (map (fun r => (- r / c0 - start_t + (start + start)) * fs * INR up) rm))
      with (map (fun r => (r, (- r / c0 - start_t + (start + start)) * fs * INR up)) rm).
    2:{ clear. induction rm as [|r rm IH]; cbn; [reflexivity|]. now rewrite IH. }
    rewrite map_map.
    apply sequence_some. intros r Hin.
    assert (Ex : (start + INR k / fs - r / c0 - start_t + start) * fs * INR up
                 = (- r / c0 - start_t + (start + start)) * fs * INR up + INR k * INR up)
      by (field; split; lra).
    rewrite Ex.
    assert (Hi : In ((- r / c0 - start_t + (start + start)) * fs * INR up) ind0)
      by (unfold ind0, first_ind; apply in_map_iff; exists r; auto).
    specialize (Hr _ Hi). set (i := (- r / c0 - start_t + (start + start)) * fs * INR up) in *.
    cbn [andb].
    assert (HkR : INR k + 1 <= INR ns) by (rewrite <- S_INR; apply le_INR; lia).
    pose proof (pos_INR k).
    assert (Hup : i + INR k * INR up + 1 / 2 < IZR (Z.of_nat (length signal))).
    { rewrite HL, <- INR_IZR_INZ, mult_INR.
      assert (INR up * (INR k + 1) <= INR up * INR ns) by (apply Rmult_le_compat_l; lra). lra. }
    assert (Hlo : IZR (- Z.of_nat (length signal)) - 3 / 2 < i + INR k * INR up).
    { rewrite opp_IZR, <- INR_IZR_INZ, HL.
      assert (0 <= INR k * INR up) by (apply Rmult_le_pos; lra). lra. }
    assert (HLpos : (0 < Z.of_nat (length signal))%Z) by (rewrite HL; unfold ns; nia).
    pose proof (rnd_lt _ _ HLpos Hup).
    pose proof (rnd_gt_neg _ (- Z.of_nat (length signal)) ltac:(lia) Hlo).
    rewrite py_nth_wrap by lia. reflexivity. }
  change (match ns with O => done [] | S _ => ?x end) with x.
  rewrite (sample_loop_checked _ (fun b => b) num ns (map (received signal false rm ind0 up) (seq 0 ns)) Hn).
  - rewrite map_id. now apply delivers_chunks.
  - unfold allowed. rewrite map_length, seq_length. split; [lia|]. split; [|lia].
    intros k Hk. rewrite Hrows by assumption. symmetry.
    rewrite nth_error_map. rewrite (nth_error_nth' _ 0%nat) by (now rewrite seq_length).
    cbn [option_map]. now rewrite seq_nth.
Qed.

(* ------------------------------------------------------------------ *)
(** * LineSource *)

(** The loop over the monopoles, sources.py:1677-1687 (MovingLineSource:
    1904-1909): [self.signal.rms = self.signal.rms * self.source_strength[s]]
    and [signals[s] = self.signal.usignal(self.up)].  [units s]: the up-sampled
    signal for rms 1 (the signal generators are proportional to rms); for
    incoherent sources it depends on [s] through the seed.  Returns the
    monopoles' signals, or IndexError, and the [rms] left in the user's
    signal object. *)
Fixpoint line_signals (units : list (list R)) (strengths : list R) (rms : R) : (list (list R) + exn) * R :=
  match units, strengths with
  | [], _ => (inl [], rms)
  | _ :: _, [] => (inr IndexError, rms)
  | u :: us, a :: strs =>
      let rms' := rms * a in
      let sig := map (Rmult rms') u in
      match line_signals us strs rms' with
      | (inl r, e) => (inl (sig :: r), e)
      | (inr x, e) => (inr x, e)
      end
  end.

(** Sample [k], sources.py:1694-1696: the monopoles' contributions are summed
    on a row of zeros.  [geom]: per monopole the distances and first indices. *)
Definition add_rows (a b : list R) : list R := map (fun '(x, y) => x + y) (combine a b).

Definition line_row (nch up : nat) (signals : list (list R)) (geom : list (list R * list R)) (k : nat)
    : option (list R) :=
  fold_left (fun acc '(sig, (rms, ind)) =>
      match acc, np_row sig (map (fun '(i, r) => ((i + INR k) * INR up, r)) (combine ind rms)) with
      | Some row, Some c => Some (add_rows row c)
      | _, _ => None
      end) (combine signals geom) (Some (repeat 0 nch)).

(** LineSource.result, sources.py:1652-1707: the trace, and [signal.rms]
    afterwards. *)
Definition line_source nch up units strengths geom (ns num : nat) (rms : R) : trace (list R) * R :=
  match line_signals units strengths rms with
  | (inr e, rms') => (raise e, rms')
  | (inl sigs, rms') =>
      (done (sample_loop (line_row nch up sigs geom) (fun b => b) flush_always num ns 0 []), rms')
  end.

(** ** Specification: monopoles with given amplitudes *)

Definition monopoles nch up units (amps : list R) geom (ns num : nat) : trace (list R) :=
  done (sample_loop (line_row nch up (map (fun '(a, u) => map (Rmult a) u) (combine amps units)) geom)
          (fun b => b) flush_always num ns 0 []).

Definition prod (l : list R) : R := fold_right Rmult 1 l.

Lemma line_signals_eq : forall units strengths rms, (length units <= length strengths)%nat ->
  line_signals units strengths rms
  = (inl (map (fun '(a, u) => map (Rmult a) u)
           (combine (map (fun s => rms * prod (firstn (S s) strengths)) (seq 0 (length units))) units)),
     rms * prod (firstn (length units) strengths)).
Proof.
  induction units as [|u units IH]; intros [|a strengths] rms H; cbn [length] in *; try lia;
    cbn [line_signals seq map combine firstn]; try (unfold prod; cbn [fold_right]; now rewrite Rmult_1_r).
  rewrite IH by lia. f_equal.
  - f_equal. f_equal.
    + apply map_ext. intros x. unfold prod. cbn [fold_right]. ring.
    + rewrite <- seq_shift, map_map. f_equal. f_equal. apply map_ext. intros s.
      unfold prod. cbn [firstn fold_right]. ring.
  - unfold prod. cbn [fold_right]. ring.
Qed.

(** What LineSource does with the strengths. *)
Theorem line_source_amplitudes nch up units strengths geom ns num rms :
  (length units <= length strengths)%nat ->
  line_source nch up units strengths geom ns num rms
  = (monopoles nch up units (map (fun s => rms * prod (firstn (S s) strengths)) (seq 0 (length units))) geom ns num,
     rms * prod (firstn (length units) strengths)).
Proof. intros H. unfold line_source, monopoles. rewrite line_signals_eq by assumption. reflexivity. Qed.

Lemma prod_ones l : (forall a, In a l -> a = 1) -> prod l = 1.
Proof.
  induction l as [|a l IH]; intros H; unfold prod in *; cbn [fold_right]; [reflexivity|].
  rewrite (H a) by (left; reflexivity). rewrite IH; [ring|]. intros; apply H; now right.
Qed.

Lemma in_firstn {A} n (l : list A) x : In x (firstn n l) -> In x l.
Proof. intros H. rewrite <- (firstn_skipn n l). apply in_or_app. now left. Qed.

(** With unit strengths each monopole radiates with the signal's rms, and
    reading again gives the same. *)
Theorem line_source_unit_strengths nch up units strengths geom ns num rms :
  (length units <= length strengths)%nat -> (forall a, In a strengths -> a = 1) ->
  line_source nch up units strengths geom ns num rms
  = (monopoles nch up units (map (fun a => rms * a) (firstn (length units) strengths)) geom ns num, rms).
Proof.
  intros H H1. rewrite line_source_amplitudes by assumption. f_equal.
  - f_equal. apply nth_ext with (d := 0) (d' := 0).
    + rewrite !map_length, seq_length, firstn_length. lia.
    + intros i Hi. rewrite map_length, seq_length in Hi.
      rewrite (nth_indep _ 0 (rms * prod (firstn (S 0) strengths))) by (now rewrite map_length, seq_length).
      rewrite (map_nth (fun s => rms * prod (firstn (S s) strengths))), seq_nth by assumption.
      rewrite (nth_indep _ 0 (rms * 0)) by (rewrite map_length, firstn_length; lia).
      rewrite (map_nth (fun a => rms * a)). f_equal.
      rewrite prod_ones by (intros a Ha; apply H1; eapply in_firstn; exact Ha).
      symmetry. apply H1. eapply in_firstn. apply nth_In. rewrite firstn_length. lia.
  - rewrite prod_ones; [ring|]. intros a Ha. apply H1. eapply in_firstn. exact Ha.
Qed.

(* ------------------------------------------------------------------ *)
(** * Witnesses *)

Lemma rnd_int z : (0 <= z)%Z -> rnd (IZR z) = z.
Proof.
  intros H. unfold rnd, trunc. assert (0 <= IZR z) by (apply IZR_le; lia).
  destruct (Rle_dec 0 (1 / 2 + IZR z)); [|lra]. apply Int_part_unique. lra.
Qed.

Lemma rnd_neg_int z : (z < 0)%Z -> rnd (IZR z) = (z + 1)%Z.
Proof.
  intros H. unfold rnd, trunc. assert (IZR z <= -1) by (apply IZR_le; lia).
  destruct (Rle_dec 0 (1 / 2 + IZR z)); [lra|].
  rewrite (Int_part_unique _ (- z - 1)%Z); [lia|]. rewrite minus_IZR, opp_IZR. lra.
Qed.

(** A recording that starts two seconds after the signal reads what lies
    behind it in memory. *)
Lemma point_source_overread : forall heap,
  point_source heap [5] false [1] (first_ind 1 0 2 1 1 [1]) 1 1 [[]] 1 = done [[[heap 1%Z / 1]]].
Proof.
  intros heap. unfold first_ind. cbn [map].
  replace ((- (1) / 1 - 0 + 2) * 1 * INR 1) with (IZR 1) by (simpl; lra).
  unfold point_source. cbn -[IZR rnd numba_get]. rewrite rnd_int by lia. reflexivity.
Qed.

(** ... and in 'zeros' mode it yields two rows instead of one. *)
Lemma point_source_zeros_late : forall heap,
  exists b, point_source heap [5] true [1] (first_ind 1 0 2 1 1 [1]) 1 1 [[]] 1 = done b /\ length b = 2%nat.
Proof.
  intros heap. unfold first_ind. cbn [map].
  replace ((- (1) / 1 - 0 + 2) * 1 * INR 1) with (IZR 1) by (simpl; lra).
  unfold point_source. cbn -[IZR rnd numba_get Int_part].
  replace (1 / (1 * 1)) with 1 by lra. rewrite (Int_part_unique 1 1) by lra.
  cbn -[IZR rnd numba_get]. eexists. split; reflexivity.
Qed.

Theorem point_source_refuted :
  (exists heap signal rm ind0 up ns num t, length signal = (up * ns)%nat /\ (0 < ns)%nat /\
     t = point_source heap signal true rm ind0 up ns (repeat [] num) num /\
     fin t = Finished /\ (ns < length (concat (blocks t)))%nat)
  /\ (exists signal rm ind0 up ns num, length signal = (up * ns)%nat /\
     forall v, exists heap,
       concat (blocks (point_source heap signal false rm ind0 up ns (repeat [] num) num)) = [[v]]).
Proof.
  split.
  - destruct (point_source_zeros_late (fun _ => 0)) as (b & E & Hb).
    exists (fun _ => 0), [5], [1], (first_ind 1 0 2 1 1 [1]), 1%nat, 1%nat, 1%nat, (done b).
    split; [reflexivity|]. split; [lia|]. change (repeat [] 1) with [@nil R]. rewrite E.
    split; [reflexivity|]. split; [reflexivity|]. cbn [blocks done].
    pose proof (f_equal (@blocks (list R)) E) as Eb. cbn [blocks done] in Eb. rewrite <- Eb.
    destruct b as [|b1 [|b2 [|b3 b]]]; try discriminate Hb.
    destruct (point_source_late_start (fun _ => 0) [5] [1] 1 0 2 1 1 1 [[]] 1) as (t & <- & _ & Ht);
      auto; try lia; try discriminate.
    intros i [<-|[]]. simpl. lra.
  - exists [5], [1], (first_ind 1 0 2 1 1 [1]), 1%nat, 1%nat, 1%nat. split; [reflexivity|].
    intros v. exists (fun _ => v). change (repeat [] 1) with [@nil R]. rewrite point_source_overread.
    cbn. unfold Rdiv. now rewrite Rinv_1, Rmult_1_r.
Qed.

(** Two readings of one line source, and a line with two monopoles of half
    strength. *)
Theorem line_source_refuted :
  exists units strengths geom,
    let run := line_source 1 1 units strengths geom 1 1 in
    fst (run 1) = done [[[2]]; []]
    /\ fst (run (snd (run 1))) = done [[[4]]; []].
Proof.
  exists [[1]], [2], [([1], [0])]. cbn zeta.
  assert (E : forall a, line_source 1 1 [[1]] [2] [([1], [0])] 1 1 a = (done [[[a * 2]]; []], a * 2)).
  { intros a. unfold line_source. cbn -[IZR rnd INR Rdiv]. unfold line_row. cbn -[IZR rnd INR Rdiv].
    unfold np_row. cbn -[IZR rnd INR Rdiv].
    replace ((0 + INR 0) * INR 1) with (IZR 0) by (simpl; lra). rewrite rnd_int by lia.
    cbn -[IZR Rdiv]. replace (0 + a * 2 * 1 / 1) with (a * 2) by field. reflexivity. }
  rewrite !E. cbn [fst snd]. split; repeat f_equal; lra.
Qed.

Theorem line_source_strengths_refuted :
  exists nch up units strengths geom ns num rms,
    (length units <= length strengths)%nat
    /\ fst (line_source nch up units strengths geom ns num rms)
       = monopoles nch up units [rms * (1 / 2); rms * (1 / 4)] geom ns num
    /\ strengths = [1 / 2; 1 / 2] /\ rms = 1.
Proof.
  exists 1%nat, 1%nat, [[1]; [1]], [1 / 2; 1 / 2], [([1], [0]); ([1], [0])], 1%nat, 1%nat, 1.
  split; [cbn; lia|]. split; [|auto].
  rewrite line_source_amplitudes by (cbn; lia). cbn [fst length seq map]. f_equal.
  unfold prod. cbn [firstn fold_right]. f_equal; [field|f_equal; field].
Qed.

(** The moving source at rest with [start] = -1 and the fixed one with the
    same settings. *)
Theorem moving_at_rest_refuted :
  exists signal rm c0 fs start_t start up ns,
    (forall i, In i (first_ind c0 start_t start fs up rm) -> - INR (up * ns) - 3 / 2 < i < INR up - 1 / 2)
    /\ (forall i, In i (first_ind c0 start_t (start + start) fs up rm) -> - INR (up * ns) - 3 / 2 < i < INR up - 1 / 2)
    /\ length signal = (up * ns)%nat
    /\ received signal false rm (first_ind c0 start_t start fs up rm) up 0
       <> received signal false rm (first_ind c0 start_t (start + start) fs up rm) up 0.
Proof.
  exists [1; 2; 3], [1], 1, 1, 0, (-1), 1%nat, 3%nat.
  assert (E1 : first_ind 1 0 (-1) 1 1 [1] = [IZR (-2)]) by (unfold first_ind; cbn [map]; f_equal; simpl; lra).
  assert (E2 : first_ind 1 0 (-1 + -1) 1 1 [1] = [IZR (-3)]) by (unfold first_ind; cbn [map]; f_equal; simpl; lra).
  rewrite E1, E2. cbn [In].
  split; [intros i [<-|[]]; simpl; lra|]. split; [intros i [<-|[]]; simpl; lra|]. split; [reflexivity|].
  unfold received. cbn [combine map andb].
  replace (IZR (-2) + INR 0 * INR 1) with (IZR (-2)) by (simpl; lra).
  replace (IZR (-3) + INR 0 * INR 1) with (IZR (-3)) by (simpl; lra).
  rewrite !rnd_neg_int by lia. cbn. intros H. injection H as H. lra.
Qed.

(** An empty block from the loops without test: a signal of one sample read
    in blocks of one. *)
Theorem sample_loop_refuted :
  exists (f : nat -> option Z) s n num, (0 < num)%nat /\ allowed f n s /\
    In [] (sample_loop f (fun b => b) flush_always num n 0 []).
Proof.
  exists (fun _ => Some 7%Z), [7%Z], 1%nat, 1%nat. split; [lia|]. split.
  - split; [cbn; lia|]. split; [|cbn; lia]. intros k Hk. cbn in Hk. destruct k; [reflexivity|lia].
  - cbn. auto.
Qed.
