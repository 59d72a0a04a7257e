(** TimeConvolve (/repo/acoular/tprocess.py:1953-2099), over real samples, with
    the FFT as the discrete Fourier transform of Cplx.v. *)
From Coq Require Import List Arith Lia ZArith Bool Reals Lra.
Require Import ZifyBool ZifyNat ZifyN.
From Verif Require Import Stream Cplx PointSources.
Import ListNotations.
Ltac Zify.zify_post_hook ::= Z.div_mod_to_equations.
Local Open Scope nat_scope.

(** Column [c] of a two-dimensional array as a sequence. *)
Definition col (c : nat) (rows : list (list R)) (j : nat) : R := nth c (nth j rows []) 0%R.

Definition zrow (n : nat) : list R := repeat 0%R n.

(** The i-th padded kernel block, _get__kernel_blocks, tprocess.py:1999-2010. *)
Definition kernel_block (K num : nat) (kernel : list (list R)) (i : nat) : list (list R) :=
  let L := length kernel in
  let P := (L + num - 1) / num in
  let trim := num * (P - 1) in
  if i <? P - 1 then slice (i * num) ((i + 1) * num) kernel ++ repeat (zrow K) num
  else skipn trim kernel ++ repeat (zrow K) (2 * num - L + trim).

(** Spectra: value at frequency [b], channel [c]. *)
Definition spectrum := nat -> nat -> C.

(** [rfft(..., axis=0)] of an array with 2*num rows. *)
Definition rfft_cols (num : nat) (rows : list (list R)) : spectrum := fun b c => rfft (2 * num) (col c rows) b.

(** _append_to_fdl, tprocess.py:2082-2085: the assignment to the local [idx]
    is without effect, the caller's [idx] stays 0. *)
Definition append_to_fdl (fdl : nat -> spectrum) (idx : nat) (buff : spectrum) : nat -> spectrum :=
  fun i => if i =? idx then buff else fdl i.

(** _spectral_sum, tprocess.py:2088-2099; P, N = K are those of the kernel. *)
Definition spectral_sum (P K : nat) (out : spectrum) (fdl kb : nat -> spectrum) : spectrum :=
  fun b c => if c <? K then csum P (fun i => Cmul (fdl i b c) (kb i b c)) else out b c.

(** [irfft(spec_sum, axis=0)[num:hi]] *)
Definition emit (num N lo hi : nat) (spec : spectrum) : list (list R) :=
  map (fun m => map (fun c => irfft num (fun b => spec b c) m) (seq 0 N)) (seq lo (hi - lo)).

(** [buff[num : num + temp.shape[0]] = temp] on a buffer whose second half is zero. *)
Definition put (num N : nat) (old temp : list (list R)) : list (list R) :=
  old ++ temp ++ repeat (zrow N) (num - length temp).

Section TimeConvolve.
  Variables (N K : nat) (kernel : list (list R)).

  (** One output block, e.g. tprocess.py:2062-2064: the block, and the next [fdl], [spec_sum]. *)
  Definition conv_block (num hi : nat) (fdl : nat -> spectrum) (spec : spectrum) (buff : list (list R))
      : list (list R) * (nat -> spectrum) * spectrum :=
    let P := (length kernel + num - 1) / num in
    let fdl' := append_to_fdl fdl 0 (rfft_cols num buff) in
    let spec' := spectral_sum P K spec fdl' (fun i => rfft_cols num (kernel_block K num kernel i)) in
    (emit num N num hi spec', fdl', spec').

  (** [for temp in signal_blocks: ...], tprocess.py:2061-2070, then what
      follows ([tail]). *)
  Fixpoint conv_stream (num : nat) (bs : list (list (list R))) (e : ending)
      (tail : (nat -> spectrum) -> spectrum -> list (list R) -> list (list (list R)))
      (fdl : nat -> spectrum) (spec : spectrum) (buff : list (list R)) : trace (list R) :=
    match bs with
    | [] => match e with Finished => done (tail fdl spec buff) | Raised x => raise x end
    | temp :: bs' =>
        let '(b, fdl', spec') := conv_block num (2 * num) fdl spec buff in
        let t := conv_stream num bs' e tail fdl' spec' (put num N (skipn num buff) temp) in
        mkTrace (b :: blocks t) (fin t)
    end.

  (** [for _ in range(R - Q): ...] and the last block, tprocess.py:2072-2084. *)
  Fixpoint conv_tail (num n last : nat) (fdl : nat -> spectrum) (spec : spectrum) (buff : list (list R))
      : list (list (list R)) :=
    match n with
    | O => let '(b, _, _) := conv_block num (last + num) fdl spec buff in [b]
    | S n' =>
        let '(b, fdl', spec') := conv_block num (2 * num) fdl spec buff in
        b :: conv_tail num n' last fdl' spec' (put num N (skipn num buff) [])
    end.

  (** TimeConvolve.result, tprocess.py:2031-2084, for a two-dimensional kernel
      with K columns and at least one row, a source of N channels that reports
      M samples.  Without a first block, [next] raises StopIteration, which
      becomes RuntimeError in a generator. *)
  Definition time_convolve (M : nat) (src : source (list R)) (num : nat) : trace (list R) :=
    if negb ((K =? 1) || (K =? N)) then raise ValueError
    else
      let L := length kernel in
      let Q := (M + num - 1) / num in
      let R := (L + M - 1 + num - 1) / num in
      let last := (L + M - 1) mod num in
      let fdl := fun _ _ _ => C0 in
      let spec := fun _ _ => C0 in
      match blocks (src num) with
      | [] => match fin (src num) with Finished => raise RuntimeError | Raised e => raise e end
      | temp :: bs =>
          let buff := put num N (repeat (zrow N) num) temp in
          if R =? 1
          then let '(b, _, _) := conv_block num (last + num) fdl spec buff in done [b]
          else conv_stream num bs (fin (src num)) (conv_tail num (R - Q) last) fdl spec buff
      end.
End TimeConvolve.

(* ------------------------------------------------------------------ *)
(** * Specification *)

(** Sample [t] of the linear convolution of the columns [c] of [kernel] and [s]. *)
Definition conv_at (kernel s : list (list R)) (c t : nat) : R :=
  rsumn (length kernel) (fun j => if t <? j then 0%R else (col c kernel j * col c s (t - j))%R).

(** The full linear convolution, N channels. *)
Definition linear_convolution (N : nat) (kernel s : list (list R)) : list (list R) :=
  map (fun t => map (fun c => conv_at kernel s c t) (seq 0 N)) (seq 0 (length s + length kernel - 1)).

(* ------------------------------------------------------------------ *)

Lemma nth_zrow c n : nth c (zrow n) 0%R = 0%R.
Proof. unfold zrow. revert c. induction n as [|n IH]; intros [|c]; cbn; auto. Qed.

Lemma col_repeat c n k j : col c (repeat (zrow n) k) j = 0%R.
Proof.
  unfold col. revert j. induction k as [|k IH]; intros [|j]; cbn.
  - destruct c; reflexivity.
  - destruct c; reflexivity.
  - apply nth_zrow.
  - apply IH.
Qed.

Lemma col_app c a b j :
  col c (a ++ b) j = if j <? length a then col c a j else col c b (j - length a).
Proof.
  unfold col. destruct (Nat.ltb_spec j (length a)).
  - now rewrite app_nth1 by lia.
  - now rewrite app_nth2 by lia.
Qed.

Lemma col_overflow c s j : length s <= j -> col c s j = 0%R.
Proof. intros H. unfold col. rewrite (nth_overflow s) by lia. destruct c; reflexivity. Qed.

Lemma nth_skipn {A} (d : A) n l j : nth j (skipn n l) d = nth (n + j) l d.
Proof.
  revert l. induction n as [|n IH]; intros [|a l]; cbn; auto.
  destruct j; reflexivity.
Qed.

Lemma nth_firstn {A} (d : A) n l j : j < n -> nth j (firstn n l) d = nth j l d.
Proof.
  revert l j. induction n as [|n IH]; intros [|a l] [|j] H; cbn; auto; try lia.
  apply IH. lia.
Qed.

Lemma col_skipn c n s j : col c (skipn n s) j = col c s (n + j).
Proof. unfold col. now rewrite nth_skipn. Qed.

Section Proof.
  Variables (N K : nat) (kernel : list (list R)) (num : nat) (s : list (list R)).
  Hypothesis (Hnum : 0 < num) (HL : 0 < length kernel).

  Let x (c t : nat) : R := col c s t.
  Let P := (length kernel + num - 1) / num.

  (** What ends up in the output: only the first kernel block is used. *)
  Definition out_at (c t : nat) : R :=
    if c <? K then conv_at (firstn num kernel) s c t else 0%R.
  Let orow (t : nat) : list R := map (fun c => out_at c t) (seq 0 N).

  (** The buffer before output block [q]. *)
  Definition buff_ok (q : nat) (buff : list (list R)) : Prop :=
    length buff = 2 * num /\
    forall c j, j < 2 * num -> col c buff j = if q * num + j <? num then 0%R else col c s (q * num + j - num).

  Definition fdl_ok (fdl : nat -> spectrum) : Prop := forall i b c, 0 < i -> fdl i b c = C0.
  Definition spec_ok (spec : spectrum) : Prop := forall b c, K <= c -> spec b c = C0.

  Lemma P_pos : 1 <= P.
  Proof. unfold P. apply Nat.div_le_lower_bound; lia. Qed.

  Lemma P_1_iff : P = 1 -> length kernel <= num.
  Proof.
    intros E. unfold P in E. pose proof (Nat.div_mod (length kernel + num - 1) num ltac:(lia)).
    pose proof (Nat.mod_upper_bound (length kernel + num - 1) num ltac:(lia)). rewrite E in *. lia.
  Qed.

  Lemma P_gt_1 : P <> 1 -> num < length kernel.
  Proof.
    intros E. destruct (le_lt_dec (length kernel) num) as [Hle|]; [|assumption]. exfalso. apply E.
    unfold P. symmetry. apply Nat.div_unique with (r := length kernel - 1); lia.
  Qed.

  (** The first kernel block is the first [num] kernel samples and zeros. *)
  Lemma kernel_block_0 c j :
    col c (kernel_block K num kernel 0) j = if j <? num then col c kernel j else 0%R.
  Proof.
    unfold kernel_block. fold P. pose proof P_pos.
    destruct (Nat.ltb_spec 0 (P - 1)) as [H1|H1].
    - pose proof (P_gt_1 ltac:(lia)).
      rewrite col_app. unfold slice. cbn [Nat.mul skipn].
      replace ((0 + 1) * num) with num by lia. rewrite firstn_length.
      replace (Nat.min num (length kernel)) with num by lia.
      destruct (Nat.ltb_spec j num); [|apply col_repeat].
      unfold col. now rewrite nth_firstn.
    - assert (EP : P = 1) by lia. pose proof (P_1_iff EP). rewrite EP.
      replace (num * (1 - 1)) with 0 by lia. cbn [skipn]. rewrite col_app.
      destruct (Nat.ltb_spec j (length kernel)).
      + destruct (Nat.ltb_spec j num); [reflexivity|lia].
      + rewrite col_repeat. destruct (j <? num); [|reflexivity]. now rewrite col_overflow.
  Qed.

  Lemma conv_block_ok q hi fdl spec buff :
    hi <= 2 * num -> num <= hi ->
    buff_ok q buff -> fdl_ok fdl -> spec_ok spec ->
    let '(b, fdl', spec') := conv_block N K kernel num hi fdl spec buff in
    b = map orow (seq (q * num) (hi - num)) /\ fdl_ok fdl' /\ spec_ok spec'.
  Proof.
    intros Hhi Hlo (Hbl & Hb) Hf Hs. unfold conv_block. fold P.
    set (fdl' := append_to_fdl fdl 0 (rfft_cols num buff)).
    set (spec' := spectral_sum P K spec fdl' _).
    assert (Hf' : fdl_ok fdl').
    { intros i b c Hi. unfold fdl', append_to_fdl. destruct (Nat.eqb_spec i 0); [lia|]. now apply Hf. }
    split; [|split; [assumption|]].
    - unfold emit. replace (seq num (hi - num)) with (map (fun m => num + m) (seq 0 (hi - num))).
      2:{ clear. generalize (hi - num) as n. intros n. induction n as [|n IH]; [reflexivity|].
          rewrite !seq_S, map_app, IH. reflexivity. }
      replace (seq (q * num) (hi - num)) with (map (fun m => q * num + m) (seq 0 (hi - num))).
      2:{ clear. generalize (hi - num) as n. intros n. induction n as [|n IH]; [reflexivity|].
          rewrite !seq_S, map_app, IH. reflexivity. }
      rewrite !map_map. apply map_ext_in. intros m Hm. apply in_seq in Hm.
      unfold orow. apply map_ext. intros c. unfold out_at, spec', spectral_sum.
      destruct (Nat.ltb_spec c K) as [Hc|Hc].
      2:{ rewrite (irfft_ext num _ (fun _ => C0)) by (intros; apply Hs; lia).
          unfold irfft. rewrite (idft_ext _ _ (fun _ => C0)).
          - rewrite idft_zero. reflexivity.
          - intros k Hk. rewrite mirror_hermitian by (auto using hermitian_zero). reflexivity. }
      rewrite (irfft_ext num _ (fun b => Cmul (rfft (2 * num) (col c (kernel_block K num kernel 0)) b)
                                              (rfft (2 * num) (col c buff) b))).
      2:{ intros k Hk. pose proof P_pos. replace P with (S (P - 1)) by lia. rewrite csum_first.
          rewrite csum_0.
          - unfold fdl' at 1. unfold append_to_fdl. rewrite Nat.eqb_refl. unfold rfft_cols. ring.
          - intros i Hi. rewrite Hf' by lia. ring. }
      rewrite irfft_mul by lia. unfold rcirc, conv_at.
      assert (Elen : length (firstn num kernel) = Nat.min num (length kernel)) by apply firstn_length.
      set (k0 := length (firstn num kernel)) in *.
      replace (2 * num) with (k0 + (2 * num - k0)) at 1 by lia. rewrite rsumn_split.
      rewrite (rsumn_0 (2 * num - k0)).
      + rewrite Rplus_0_r. apply rsumn_ext. intros j Hj.
        rewrite kernel_block_0. destruct (Nat.ltb_spec j num); [|lia].
        assert (Emod : (num + m + 2 * num - j) mod (2 * num) = num + m - j).
        { replace (num + m + 2 * num - j) with ((num + m - j) + 1 * (2 * num)) by lia.
          rewrite Nat.mod_add by lia. apply Nat.mod_small. lia. }
        rewrite Emod, Hb by lia.
        assert (Ek : col c (firstn num kernel) j = col c kernel j).
        { unfold col. now rewrite nth_firstn. }
        rewrite Ek.
        destruct (Nat.ltb_spec (q * num + (num + m - j)) num); destruct (Nat.ltb_spec (q * num + m) j);
          try nia.
        * ring.
        * f_equal. f_equal. lia.
      + intros j Hj. rewrite kernel_block_0.
        destruct (Nat.ltb_spec (k0 + j) num); [|ring]. rewrite col_overflow by lia. ring.
    - intros b c Hc. unfold spec', spectral_sum. destruct (Nat.ltb_spec c K); [lia|]. now apply Hs.
  Qed.

  Lemma put_ok q buff temp :
    buff_ok q buff -> length temp <= num ->
    (forall c j, j < num -> col c temp j = col c s (S q * num + j)) ->
    buff_ok (S q) (put num N (skipn num buff) temp).
  Proof.
    intros (Hl & Hb) Ht Hc. split.
    - unfold put. rewrite !app_length, skipn_length, repeat_length. lia.
    - intros c j Hj. unfold put. rewrite col_app, skipn_length, Hl.
      replace (2 * num - num) with num by lia.
      destruct (Nat.ltb_spec j num) as [Hj1|Hj1].
      + rewrite col_skipn, Hb by lia.
        destruct (Nat.ltb_spec (q * num + (num + j)) num); [lia|].
        destruct (Nat.ltb_spec (S q * num + j) num); [nia|]. f_equal. lia.
      + rewrite col_app.
        destruct (Nat.ltb_spec (S q * num + j) num); [nia|].
        replace (S q * num + j - num) with (S q * num + (j - num)) by lia.
        rewrite <- Hc by lia.
        destruct (Nat.ltb_spec (j - num) (length temp)); [reflexivity|].
        rewrite col_repeat. symmetry. apply col_overflow. lia.
  Qed.

  (** The blocks of the stream after block q. *)
  Lemma conv_stream_ok tail bs : forall q fdl spec buff,
    buff_ok q buff -> fdl_ok fdl -> spec_ok spec ->
    bs = chunks num (skipn (S q * num) s) ->
    exists fdl' spec' buff',
      buff_ok (q + length bs) buff' /\ fdl_ok fdl' /\ spec_ok spec' /\
      conv_stream N K kernel num bs Finished tail fdl spec buff
      = done (map (fun i => map orow (seq ((q + i) * num) num)) (seq 0 (length bs)) ++ tail fdl' spec' buff').
  Proof.
    induction bs as [|temp bs IH]; intros q fdl spec buff Hb Hf Hs E; cbn [conv_stream].
    - exists fdl, spec, buff. cbn [length seq map app]. rewrite Nat.add_0_r. auto.
    - pose proof (conv_block_ok q (2 * num) fdl spec buff ltac:(lia) ltac:(lia) Hb Hf Hs) as Hcb.
      destruct (conv_block N K kernel num (2 * num) fdl spec buff) as [[b fdl1] spec1].
      destruct Hcb as (Eb & Hf1 & Hs1). replace (2 * num - num) with num in Eb by lia.
      set (r := skipn (S q * num) s) in *.
      assert (Hr : r <> []) by (intros Er; rewrite Er in E; discriminate).
      rewrite chunks_step in E by assumption. injection E as Et Ebs.
      destruct (IH (S q) fdl1 spec1 (put num N (skipn num buff) temp)) as (f' & s' & b' & Hb' & Hf' & Hs' & Eq); auto.
      + apply put_ok; auto.
        * rewrite Et, firstn_length. lia.
        * intros c j Hj. rewrite Et. unfold col. rewrite nth_firstn by assumption. unfold r.
          now rewrite nth_skipn.
      + rewrite Ebs. f_equal. unfold r. rewrite skipn_skipn'. f_equal; lia.
      + exists f', s', b'. cbn [length]. replace (q + S (length bs)) with (S q + length bs) by lia.
        split; [assumption|]. split; [assumption|]. split; [assumption|].
        rewrite Eq. cbn [blocks fin done]. unfold done. f_equal. rewrite Eb. cbn [seq map app].
        replace (q + 0) with q by lia. f_equal.
        f_equal. rewrite <- seq_shift, map_map. apply map_ext. intros i.
        replace (q + S i) with (S q + i) by lia. reflexivity.
  Qed.

  Lemma conv_tail_ok n last : forall q fdl spec buff,
    last <= num -> buff_ok q buff -> fdl_ok fdl -> spec_ok spec -> length s <= S q * num ->
    conv_tail N K kernel num n last fdl spec buff
    = map (fun i => map orow (seq ((q + i) * num) num)) (seq 0 n) ++ [map orow (seq ((q + n) * num) last)].
  Proof.
    induction n as [|n IH]; intros q fdl spec buff Hl Hb Hf Hs Hq; cbn [conv_tail].
    - pose proof (conv_block_ok q (last + num) fdl spec buff ltac:(lia) ltac:(lia) Hb Hf Hs) as Hcb.
      destruct (conv_block N K kernel num (last + num) fdl spec buff) as [[b fdl1] spec1].
      destruct Hcb as (Eb & _). replace (last + num - num) with last in Eb by lia.
      rewrite Eb. cbn [seq map app]. now rewrite Nat.add_0_r.
    - pose proof (conv_block_ok q (2 * num) fdl spec buff ltac:(lia) ltac:(lia) Hb Hf Hs) as Hcb.
      destruct (conv_block N K kernel num (2 * num) fdl spec buff) as [[b fdl1] spec1].
      destruct Hcb as (Eb & Hf1 & Hs1). replace (2 * num - num) with num in Eb by lia.
      rewrite (IH (S q)); auto; try nia.
      + rewrite Eb. cbn [seq map app]. replace (q + 0) with q by lia. f_equal.
        rewrite <- seq_shift, map_map.
        replace (q + S n) with (S q + n) by lia. f_equal.
        apply map_ext. intros i. replace (q + S i) with (S q + i) by lia. reflexivity.
      + apply put_ok; auto; [cbn; lia|]. intros c j Hj. rewrite (col_overflow c s) by lia.
        unfold col. destruct j; destruct c; reflexivity.
  Qed.
End Proof.

Lemma ceil_div_bounds a n : 0 < n -> let q := (a + n - 1) / n in a <= q * n /\ (0 < a -> 0 < q /\ (q - 1) * n < a).
Proof.
  intros Hn q. unfold q. pose proof (Nat.div_mod (a + n - 1) n ltac:(lia)) as E.
  pose proof (Nat.mod_upper_bound (a + n - 1) n ltac:(lia)) as Hm.
  revert E Hm. generalize ((a + n - 1) / n) ((a + n - 1) mod n). intros d m E Hm.
  assert (n * d = d * n) by lia. split; [lia|]. intros Ha.
  assert (0 < d) by (destruct d; [lia|lia]). split; [assumption|].
  rewrite Nat.mul_sub_distr_r. lia.
Qed.

(** What TimeConvolve yields, for every kernel with one or N columns. *)
Theorem time_convolve_blocks N K kernel (src : source (list R)) s num :
  wf_source src s -> 0 < num -> 0 < length kernel -> s <> [] -> K = 1 \/ K = N ->
  let T := length s + length kernel - 1 in
  let B := (T + num - 1) / num in
  let orow t := map (fun c => out_at K kernel num s c t) (seq 0 N) in
  time_convolve N K kernel (length s) src num
  = done (map (fun q => map orow (seq (q * num) num)) (seq 0 (B - 1)) ++ [map orow (seq ((B - 1) * num) (T mod num))]).
Proof.
  intros Hw Hn HL Hs HK T B orow. unfold time_convolve.
  replace (negb ((K =? 1) || (K =? N))) with false.
  2:{ destruct HK as [-> | ->]; rewrite Nat.eqb_refl; [reflexivity|]. now rewrite orb_true_r. }
  rewrite (wf_source_eq src s num Hw Hn). cbn [blocks fin done].
  rewrite (chunks_step num s Hn Hs).
  assert (Hlen : 0 < length s) by (destruct s; [congruence|cbn; lia]).
  replace (length kernel + length s - 1) with T by (unfold T; lia). fold B.
  set (temp := firstn num s).
  assert (Hb0 : buff_ok num s 0 (put num N (repeat (zrow N) num) temp)).
  { split.
    - unfold put, temp. rewrite !app_length, !repeat_length, firstn_length. lia.
    - intros c j Hj. unfold put. rewrite col_app, repeat_length. cbn [Nat.mul Nat.add].
      destruct (Nat.ltb_spec j num); [apply col_repeat|].
      rewrite col_app. unfold temp. rewrite firstn_length.
      destruct (Nat.ltb_spec (j - num) (Nat.min num (length s))).
      + unfold col. now rewrite nth_firstn by lia.
      + rewrite col_repeat. symmetry. apply col_overflow. lia. }
  assert (Hf0 : fdl_ok (fun _ _ _ => C0)) by (intros i b c _; reflexivity).
  assert (Hs0 : spec_ok K (fun _ _ => C0)) by (intros b c _; reflexivity).
  pose proof (Nat.mod_upper_bound T num ltac:(lia)) as Hmod.
  destruct (ceil_div_bounds T num Hn) as (HB1 & HB2). fold B in HB1, HB2.
  destruct (HB2 ltac:(unfold T; lia)) as (HB3 & HB4).
  destruct (ceil_div_bounds (length s) num Hn) as (HQ1 & HQ2).
  destruct (HQ2 Hlen) as (HQ3 & HQ4).
  set (Q := (length s + num - 1) / num) in *.
  destruct (Nat.eqb_spec B 1) as [EB|EB].
  - pose proof (conv_block_ok N K kernel num s Hn HL 0 (T mod num + num) _ _ _ ltac:(lia) ltac:(lia) Hb0 Hf0 Hs0) as Hcb.
    destruct (conv_block _ _ _ _ _ _ _ _) as [[b f1] s1]. destruct Hcb as (Eb & _).
    rewrite EB. cbn [Nat.sub seq map app Nat.mul]. rewrite Eb.
    replace (T mod num + num - num) with (T mod num) by lia. reflexivity.
  - destruct (conv_stream_ok N K kernel num s Hn HL (conv_tail N K kernel num (B - Q) (T mod num))
                (chunks num (skipn num s)) 0 _ _ _ Hb0 Hf0 Hs0) as (f' & s' & b' & Hb' & Hf' & Hs' & E).
    { f_equal. f_equal. lia. }
    rewrite E. clear E.
    assert (Elen : length (chunks num (skipn num s)) = Q - 1).
    { rewrite length_chunks by assumption. rewrite skipn_length. unfold Q.
      destruct (le_lt_dec (length s) num) as [Hle|Hgt].
      - replace (length s - num) with 0 by lia. rewrite (Nat.div_small (0 + num - 1)) by lia.
        symmetry. replace ((length s + num - 1) / num) with 1; [lia|].
        apply Nat.div_unique with (r := length s - 1); lia.
      - replace (length s + num - 1) with ((length s - num + num - 1) + 1 * num) by lia.
        rewrite Nat.div_add by lia. lia. }
    rewrite Elen in *. cbn [Nat.add] in *.
    rewrite (conv_tail_ok N K kernel num s Hn HL (B - Q) (T mod num) (Q - 1)); auto; try lia.
    2:{ replace (S (Q - 1)) with Q by lia. assumption. }
    unfold done. f_equal. rewrite app_assoc. f_equal.
    + assert (HBQ : Q <= B).
      { unfold Q, B. apply Nat.div_le_mono; [lia|]. unfold T. lia. }
      replace (B - 1) with (Q - 1 + (B - Q)) by lia. rewrite seq_app, map_app. f_equal.
      cbn [Nat.add]. replace (seq (Q - 1) (B - Q)) with (map (fun i => Q - 1 + i) (seq 0 (B - Q))).
      2:{ generalize (B - Q) (Q - 1). intros n a. induction n as [|n IH]; [reflexivity|].
          rewrite !seq_S, map_app, IH. reflexivity. }
      rewrite map_map. reflexivity.
    + assert (HBQ : Q <= B).
      { unfold Q, B. apply Nat.div_le_mono; [lia|]. unfold T. lia. }
      replace (Q - 1 + (B - Q)) with (B - 1) by lia. reflexivity.
Qed.

(* ------------------------------------------------------------------ *)
(** * Collected statements *)

Lemma T_split T num : 0 < num -> T mod num <> 0 ->
  T = ((T + num - 1) / num - 1) * num + T mod num.
Proof.
  intros Hn Hm. pose proof (Nat.div_mod T num ltac:(lia)) as E.
  pose proof (Nat.mod_upper_bound T num ltac:(lia)) as Hb.
  replace ((T + num - 1) / num) with (T / num + 1).
  - rewrite Nat.add_sub, (Nat.mul_comm (T / num)). exact E.
  - apply Nat.div_unique with (r := T mod num - 1); [lia|].
    rewrite Nat.mul_add_distr_l, Nat.mul_1_r.
    revert E Hb Hm. generalize (num * (T / num)) (T mod num). intros a b. lia.
Qed.

Lemma T_split0 T num : 0 < num -> 0 < T -> T mod num = 0 -> T - num = ((T + num - 1) / num - 1) * num.
Proof.
  intros Hn HT Hm. pose proof (Nat.div_mod T num ltac:(lia)) as E. rewrite Hm in E.
  replace ((T + num - 1) / num) with (T / num).
  - rewrite Nat.mul_sub_distr_r, (Nat.mul_comm (T / num)).
    revert E. generalize (num * (T / num)). intros a. lia.
  - apply Nat.div_unique with (r := num - 1); [lia|].
    revert E. generalize (num * (T / num)). intros a. lia.
Qed.

Lemma concat_blocks {B} (G : nat -> B) num n k :
  concat (map (fun b => map G (seq (k + b * num) num)) (seq 0 n)) = map G (seq k (n * num)).
Proof.
  revert k. induction n as [|n IH]; intros k; [reflexivity|].
  cbn [seq map concat Nat.mul]. replace (k + 0) with k by lia.
  rewrite <- seq_shift, map_map, seq_app, map_app. f_equal.
  rewrite <- IH. f_equal. apply map_ext. intros b.
  replace (k + S b * num) with (k + num + b * num) by lia. reflexivity.
Qed.

Lemma out_row_linear N kernel num s t : length kernel <= num ->
  map (fun c => out_at N kernel num s c t) (seq 0 N) = map (fun c => conv_at kernel s c t) (seq 0 N).
Proof.
  intros HL. apply map_ext_in. intros c Hc. apply in_seq in Hc. unfold out_at.
  destruct (Nat.ltb_spec c N); [|lia]. now rewrite firstn_all2.
Qed.

(** One kernel per channel, kernel not longer than a block, and the output
    length no multiple of the block size: the linear convolution. *)
Theorem time_convolve_spec N kernel (src : source (list R)) s num :
  wf_source src s -> 0 < num -> 0 < length kernel <= num -> s <> [] ->
  (length s + length kernel - 1) mod num <> 0 ->
  delivers num (linear_convolution N kernel s) (time_convolve N N kernel (length s) src num).
Proof.
  intros Hw Hn HL Hs Hm. rewrite (time_convolve_blocks N N kernel src s num) by (auto; lia).
  set (T := length s + length kernel - 1) in *.
  unfold linear_convolution. fold T.
  pose proof (Nat.mod_upper_bound T num ltac:(lia)).
  set (G := fun t => map (fun c => conv_at kernel s c t) (seq 0 N)).
  rewrite (map_ext_in (fun q => map _ (seq (q * num) num)) (fun q => map G (seq (0 + q * num) num))).
  2:{ intros q _. apply map_ext. intros t. apply out_row_linear. lia. }
  rewrite (map_ext (fun t => map (fun c => out_at N kernel num s c t) (seq 0 N)) G).
  2:{ intros t. apply out_row_linear. lia. }
  pose proof (chunks_rows G num (T mod num) Hn ltac:(lia) ((T + num - 1) / num - 1) 0) as E.
  rewrite <- (T_split T num Hn Hm) in E.
  cbn [Nat.add] in E |- *. rewrite <- E. apply delivers_chunks. assumption.
Qed.

(** When the output length is a multiple of the block size, the last [num]
    samples are missing. *)
Theorem time_convolve_short N kernel (src : source (list R)) s num :
  wf_source src s -> 0 < num -> 0 < length kernel <= num -> s <> [] ->
  (length s + length kernel - 1) mod num = 0 ->
  fin (time_convolve N N kernel (length s) src num) = Finished
  /\ concat (blocks (time_convolve N N kernel (length s) src num))
     = firstn (length s + length kernel - 1 - num) (linear_convolution N kernel s).
Proof.
  intros Hw Hn HL Hs Hm. rewrite (time_convolve_blocks N N kernel src s num) by (auto; lia).
  split; [reflexivity|]. cbn [blocks done].
  assert (Hlen : 0 < length s) by (destruct s; [congruence|cbn; lia]).
  set (T := length s + length kernel - 1) in *. rewrite Hm. cbn [seq map].
  rewrite concat_app. cbn [concat app]. rewrite !app_nil_r.
  rewrite (T_split0 T num Hn ltac:(unfold T; lia) Hm).
  set (G := fun t => map (fun c => conv_at kernel s c t) (seq 0 N)).
  rewrite (map_ext_in (fun q => map _ (seq (q * num) num)) (fun q => map G (seq (0 + q * num) num))).
  2:{ intros q _. apply map_ext. intros t. apply out_row_linear. lia. }
  rewrite concat_blocks. unfold linear_convolution. fold T. fold G.
  rewrite firstn_map. f_equal.
  rewrite <- (T_split0 T num Hn ltac:(unfold T; lia) Hm).
  replace (seq 0 T) with (seq 0 ((T - num) + (T - (T - num)))) by (f_equal; lia).
  rewrite seq_app, firstn_app_exact by (now rewrite seq_length). reflexivity.
Qed.

(** A single kernel for several channels: all channels but the first are zero. *)
Theorem time_convolve_one_kernel N kernel (src : source (list R)) s num :
  wf_source src s -> 0 < num -> 0 < length kernel -> s <> [] -> 1 < N ->
  fin (time_convolve N 1 kernel (length s) src num) = Finished
  /\ forall row c, In row (concat (blocks (time_convolve N 1 kernel (length s) src num))) ->
       0 < c -> c < N -> nth_error row c = Some 0%R.
Proof.
  intros Hw Hn HL Hs HN. rewrite (time_convolve_blocks N 1 kernel src s num) by auto.
  split; [reflexivity|]. cbn [blocks done]. intros row c Hin Hc1 Hc2.
  assert (E : exists t, row = map (fun c => out_at 1 kernel num s c t) (seq 0 N)).
  { rewrite concat_app in Hin. apply in_app_or in Hin. destruct Hin as [Hin|Hin].
    - apply in_concat in Hin. destruct Hin as (b & Hb & Hin). apply in_map_iff in Hb.
      destruct Hb as (q & <- & _). apply in_map_iff in Hin. destruct Hin as (t & <- & _). now exists t.
    - cbn [concat] in Hin. rewrite app_nil_r in Hin. apply in_map_iff in Hin.
      destruct Hin as (t & <- & _). now exists t. }
  destruct E as (t & ->). rewrite nth_error_map.
  rewrite (nth_error_nth' (seq 0 N) 0) by (now rewrite seq_length). rewrite seq_nth by assumption.
  cbn [option_map Nat.add]. unfold out_at. destruct (Nat.ltb_spec c 1); [lia|]. reflexivity.
Qed.

(** Kernel samples beyond the block size have no influence. *)
Theorem time_convolve_kernel_tail N K k1 k2 (src : source (list R)) s num :
  wf_source src s -> 0 < num -> 0 < length k1 -> s <> [] -> K = 1 \/ K = N ->
  length k1 = length k2 -> firstn num k1 = firstn num k2 ->
  time_convolve N K k1 (length s) src num = time_convolve N K k2 (length s) src num.
Proof.
  intros Hw Hn HL Hs HK El Ef. rewrite !(time_convolve_blocks N K) by (auto; lia).
  unfold out_at. rewrite Ef, El. reflexivity.
Qed.

(** The property fails for a kernel longer than a block. *)
Theorem time_convolve_long_refuted :
  exists N kernel (src : source (list R)) s num,
    wf_source src s /\ 0 < num /\ num < length kernel /\ s <> []
    /\ (length s + length kernel - 1) mod num <> 0
    /\ concat (blocks (time_convolve N N kernel (length s) src num)) <> linear_convolution N kernel s.
Proof.
  pose (s := [[1%R]; [1%R]; [1%R]]). pose (kernel := [[0%R]; [0%R]; [1%R]]).
  exists 1, kernel, (fun num => done (chunks num s)), s, 2.
  assert (Hw : wf_source (fun num => done (chunks num s)) s) by (intros n Hn; now apply delivers_chunks).
  split; [assumption|]. split; [lia|]. split; [cbn; lia|]. split; [discriminate|]. split; [cbn; lia|].
  rewrite (time_convolve_blocks 1 1 kernel _ s 2) by (auto; cbn; try lia; discriminate).
  cbn [blocks done]. intros E.
  apply (f_equal (fun l => nth 0 (nth 2 l []) 0%R)) in E. cbn in E.
  unfold out_at, conv_at, col in E. cbn in E. lra.
Qed.
