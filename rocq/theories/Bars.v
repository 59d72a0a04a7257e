(** barspectrum and bardata (/repo/acoular/tools/helpers.py:159-293). *)
From Coq Require Import List Arith Lia ZArith Bool Reals Lra.
From Verif Require Import Stream Sources Result.
Import ListNotations.
Local Open Scope R_scope.

(** helpers.py:207 *)
Definition fcbase : list R := [31.5; 40; 50; 63; 80; 100; 125; 160; 200; 250].

(** [l[::3]] *)
Fixpoint every3 (l : list R) : list R :=
  match l with
  | a :: _ :: _ :: r => a :: every3 r
  | a :: _ => [a]
  | [] => []
  end.

(** Centre frequencies, helpers.py:209: [[:: 3 // num]], num is 1 or 3. *)
Definition centres (octave : bool) : list R :=
  let all := fcbase ++ map (fun f => f * 10) fcbase ++ map (fun f => f * 100) fcbase in
  if octave then every3 all else all.

Definition bar_num (octave : bool) : R := if octave then 1 else 3.
(** helpers.py:212 *)
Definition bar_ep (octave : bool) : R := 1 / (2 * bar_num octave).

Definition indices_where (p : R -> bool) (l : list R) : list nat :=
  filter (fun i => p (nth i l 0)) (seq 0 (length l)).
Definition rltb (a b : R) : bool := if Rlt_dec a b then true else false.

(** helpers.py:216-221 *)
Definition bar_low (octave : bool) (freqs : list R) : nat :=
  let fc := centres octave in
  let f_low := nth 1 freqs 0 * Rpower 2 (bar_ep octave) in
  if Rle_dec f_low (nth 0 fc 0) then 0%nat else last (indices_where (fun f => rltb f f_low) fc) 0%nat.
Definition bar_high (octave : bool) (freqs : list R) : nat :=
  let fc := centres octave in
  let f_high := last freqs 0 * Rpower 2 (- bar_ep octave) in
  if Rle_dec (last fc 0) f_high then length fc else hd 0%nat (indices_where (fun f => rltb f_high f) fc).

(** [l[a:b]], a >= 0 *)
Definition pslice {A} (a : nat) (b : Z) (l : list A) : list A :=
  slice a (Z.to_nat (clip_index (Z.of_nat (length l)) b)) l.

(** [x + y] of one-dimensional arrays *)
Definition arr_add (x y : list R) : list R + exn :=
  if (length x =? length y)%nat then inl (map (fun p => fst p + snd p) (combine x y))
  else match x, y with
       | [a], _ => inl (map (fun b => a + b) y)
       | _, [b] => inl (map (fun a => a + b) x)
       | _, _ => inr ValueError
       end.

(** [(array([1, 1])[:, newaxis] * v[newaxis, :]).T.reshape(-1)]: every value twice *)
Definition doubled (v : list R) : list R := flat_map (fun x => [x; x]) v.
(** [v[1:-1]] *)
Definition inner1 (v : list R) : list R := tl (removelast v).

(** barspectrum, helpers.py:203-240, for num = 1 ([octave]) and num = 3. *)
Definition barspectrum (data freqs : list R) (octave bar : bool) (xoffset : R)
    : (list R * list R * list R) + exn :=
  if (length freqs <? 2)%nat then inr IndexError else
  let fc := centres octave in
  let ep := bar_ep octave in
  let lo := bar_low octave freqs in
  let hi := bar_high octave freqs in
  let sel := slice lo hi fc in
  let p := map (fun h => h 0%nat)
             (helper_synthetic (map (fun d _ => d) data) freqs sel (bar_num octave)) in
  if bar then
    match arr_add (map (fun f => f * Rpower 2 ep) (pslice lo (Z.of_nat hi - 1) fc))
                  (map (fun f => f * Rpower 2 (- ep)) (pslice (lo + 1) (Z.of_nat hi) fc)) with
    | inr e => inr e
    | inl between =>
        let flu := map (fun f => f * Rpower 2 (- ep)) (slice lo (lo + 1) fc)
                   ++ map (fun x => x / 2) between
                   ++ map (fun f => f * Rpower 2 ep)
                        (if (hi =? 0)%nat then pslice (length fc - 1) 0 fc else slice (hi - 1) hi fc) in
        inl (map (fun x => Rpower 2 (2 * xoffset * ep) * x) (inner1 (doubled flu)), doubled p, sel)
    end
  else inl (sel, p, sel).

(** bardata, helpers.py:280-293, without masking; [num] the band fraction. *)
Definition bardata (data fc : list R) (num : R) (bar : bool) (xoffset : R) : list R * list R :=
  let ep := 1 / (2 * num) in
  if bar then
    let flu := map (fun f => f * Rpower 2 (- ep)) (firstn 1 fc)
               ++ map (fun p => (fst p * Rpower 2 ep + snd p * Rpower 2 (- ep)) / 2) (combine (removelast fc) (tl fc))
               ++ map (fun f => f * Rpower 2 ep) (skipn (length fc - 1) fc) in
    (map (fun x => Rpower 2 (xoffset * 1 / num) * x) (inner1 (doubled flu)), doubled data)
  else (fc, data).

(* ------------------------------------------------------------------ *)
(** * Bars *)

(** Borders of the bars over the centre frequencies [fc]. *)
Definition border (ep : R) (fc : list R) (k : nat) : R :=
  let n := length fc in
  if (k =? 0)%nat then nth 0 fc 0 * Rpower 2 (- ep)
  else if (k =? n)%nat then nth (n - 1) fc 0 * Rpower 2 ep
  else (nth (k - 1) fc 0 * Rpower 2 ep + nth k fc 0 * Rpower 2 (- ep)) / 2.

Lemma doubled_length v : length (doubled v) = (2 * length v)%nat.
Proof. induction v as [|x v IH]; cbn; [reflexivity|]. unfold doubled in IH. lia. Qed.

Lemma doubled_nth : forall v k, nth (2 * k) (doubled v) 0 = nth k v 0 /\ nth (2 * k + 1) (doubled v) 0 = nth k v 0.
Proof.
  induction v as [|x v IH]; intros k.
  - cbn [doubled flat_map]. split; [destruct (2 * k)%nat; now destruct k|destruct (2 * k + 1)%nat; now destruct k].
  - destruct k as [|k]; [split; reflexivity|].
    replace (2 * S k)%nat with (S (S (2 * k))) by lia. replace (S (S (2 * k)) + 1)%nat with (S (S (2 * k + 1))) by lia.
    cbn [doubled flat_map app nth]. apply IH.
Qed.

Lemma removelast_length {A} (v : list A) : length (removelast v) = (length v - 1)%nat.
Proof.
  induction v as [|x v IH]; [reflexivity|]. destruct v as [|y v]; [reflexivity|].
  cbn [removelast length] in *. rewrite IH. lia.
Qed.
Lemma removelast_nth {A} (d : A) : forall v k, (k < length v - 1)%nat -> nth k (removelast v) d = nth k v d.
Proof.
  induction v as [|x v IH]; intros k H; [cbn in H; lia|]. destruct v as [|y v]; [cbn in H; lia|].
  cbn [removelast]. destruct k as [|k]; [reflexivity|]. cbn [nth]. apply IH. cbn [length] in *. lia.
Qed.
Lemma inner1_length v : length (inner1 v) = (length v - 2)%nat.
Proof.
  unfold inner1. destruct (removelast v) as [|x l] eqn:E.
  - pose proof (removelast_length v) as H. rewrite E in H. cbn in *. lia.
  - pose proof (removelast_length v) as H. rewrite E in H. cbn in *. lia.
Qed.
Lemma inner1_nth v k : (k < length v - 2)%nat -> nth k (inner1 v) 0 = nth (S k) v 0.
Proof.
  intros H. unfold inner1. rewrite <- (removelast_nth 0 v (S k)) by lia. destruct (removelast v); [now destruct k|reflexivity].
Qed.

(** The polygon over [n] bars with borders [b] and heights [h]. *)
Lemma bars_polygon (off : R) (flu h : list R) : length flu = S (length h) ->
  let xs := map (fun x => off * x) (inner1 (doubled flu)) in
  let ys := doubled h in
  length xs = (2 * length h)%nat /\ length ys = (2 * length h)%nat
  /\ forall k, (k < length h)%nat ->
       nth (2 * k) xs 0 = off * nth k flu 0 /\ nth (2 * k + 1) xs 0 = off * nth (k + 1) flu 0
       /\ nth (2 * k) ys 0 = nth k h 0 /\ nth (2 * k + 1) ys 0 = nth k h 0.
Proof.
  intros Hl xs ys. assert (L : length (inner1 (doubled flu)) = (2 * length h)%nat).
  { rewrite inner1_length, doubled_length, Hl. lia. }
  assert (N : forall j, (j < 2 * length h)%nat -> nth j xs 0 = off * nth (S j) (doubled flu) 0).
  { intros j Hj. unfold xs. rewrite (nth_indep _ 0 (off * 0)) by (now rewrite map_length, L).
    rewrite (map_nth (fun x => off * x)), inner1_nth; [reflexivity|]. rewrite doubled_length. lia. }
  split; [unfold xs; now rewrite map_length|]. split; [apply doubled_length|].
  intros k Hk. rewrite !N by lia. replace (S (2 * k)) with (2 * k + 1)%nat by lia.
  replace (S (2 * k + 1)) with (2 * (k + 1))%nat by lia.
  repeat split; try (f_equal; apply doubled_nth); apply doubled_nth.
Qed.

Lemma skipn_nth0 {A} (d : A) : forall l n, nth 0 (skipn n l) d = nth n l d.
Proof. induction l as [|x l IH]; intros [|n]; try reflexivity. cbn [skipn]. apply IH. Qed.

Lemma skipn_twice {A} : forall b a (l : list A), skipn a (skipn b l) = skipn (b + a) l.
Proof. induction b as [|b IH]; intros a [|x l]; try reflexivity; cbn [skipn Nat.add]; [now rewrite skipn_nil|apply IH]. Qed.

Lemma border_list ep fc between : fc <> [] ->
  between = map (fun p => fst p * Rpower 2 ep + snd p * Rpower 2 (- ep)) (combine (removelast fc) (tl fc)) ->
  let flu := map (fun f => f * Rpower 2 (- ep)) (firstn 1 fc) ++ map (fun x => x / 2) between
             ++ map (fun f => f * Rpower 2 ep) (skipn (length fc - 1) fc) in
  length flu = S (length fc) /\ forall k, (k <= length fc)%nat -> nth k flu 0 = border ep fc k.
Proof.
  intros Hn -> flu. destruct fc as [|c fc]; [congruence|].
  assert (Lb : length (combine (removelast (c :: fc)) (tl (c :: fc))) = length fc).
  { rewrite combine_length, removelast_length. cbn [tl length]. lia. }
  assert (Ls : length (skipn (length (c :: fc) - 1) (c :: fc)) = 1%nat) by (rewrite skipn_length; cbn [length]; lia).
  destruct (skipn (length (c :: fc) - 1) (c :: fc)) as [|z [|z' l]] eqn:Ez; cbn in Ls; try lia. clear Ls.
  assert (Hz : z = nth (length fc) (c :: fc) 0).
  { pose proof (skipn_nth0 0 (c :: fc) (length (c :: fc) - 1)) as H. rewrite Ez in H. cbn [nth length] in H.
    rewrite H. now replace (S (length fc) - 1)%nat with (length fc) by lia. }
  unfold flu. cbn [firstn map]. rewrite map_map.
  split.
  - cbn [app length]. rewrite app_length, map_length, Lb. cbn. lia.
  - intros k Hk. unfold border. cbn [app].
    destruct k as [|k]; [reflexivity|]. cbn [Nat.eqb nth length] in *.
    destruct (Nat.eqb_spec k (length fc)) as [->|Hne].
    + rewrite app_nth2; rewrite map_length, Lb; [|lia]. rewrite Nat.sub_diag, Hz. cbn [nth].
      replace (S (length fc) - 1)%nat with (length fc) by lia. reflexivity.
    + rewrite app_nth1 by (rewrite map_length, Lb; lia).
      set (f := fun p : R * R => (fst p * Rpower 2 ep + snd p * Rpower 2 (- ep)) / 2).
      rewrite (nth_indep _ 0 (f (0, 0))) by (rewrite map_length, Lb; lia).
      rewrite (map_nth f). rewrite combine_nth by (rewrite removelast_length; cbn [tl length]; lia).
      rewrite removelast_nth by (cbn [length]; lia). unfold f. cbn [fst snd tl].
      replace (S k - 1)%nat with k by lia. reflexivity.
Qed.

Theorem bardata_bars data fc num xoffset : fc <> [] -> length data = length fc ->
  let n := length fc in
  let '(xs, ys) := bardata data fc num true xoffset in
  let off := Rpower 2 (xoffset / num) in
  length xs = (2 * n)%nat /\ length ys = (2 * n)%nat
  /\ forall k, (k < n)%nat ->
       nth (2 * k) xs 0 = off * border (1 / (2 * num)) fc k
       /\ nth (2 * k + 1) xs 0 = off * border (1 / (2 * num)) fc (k + 1)
       /\ nth (2 * k) ys 0 = nth k data 0 /\ nth (2 * k + 1) ys 0 = nth k data 0.
Proof.
  intros Hn Hl n. unfold bardata. cbv zeta. cbn iota.
  destruct (border_list (1 / (2 * num)) fc _ Hn eq_refl) as [L B]. rewrite map_map in L, B.
  replace (xoffset * 1 / num) with (xoffset / num) by (unfold Rdiv; ring).
  destruct (bars_polygon (Rpower 2 (xoffset / num)) _ data (eq_trans L (f_equal S (eq_sym Hl)))) as (A1 & A2 & A3).
  rewrite Hl in A1, A2. split; [exact A1|]. split; [exact A2|].
  intros k Hk. destruct (A3 k ltac:(rewrite Hl; exact Hk)) as (B1 & B2 & B3 & B4).
  rewrite B1, B2, B3, B4. rewrite (B k) by lia. rewrite (B (k + 1)%nat) by lia. auto.
Qed.

(* ------------------------------------------------------------------ *)
(** * barspectrum *)

Lemma bar_values data freqs sel octave : increasing freqs -> length data = length freqs ->
  map (fun h => h 0%nat) (helper_synthetic (map (fun d _ => d) data) freqs sel (bar_num octave))
  = map (fun c => band_sum freqs (map (fun d _ => d) data)
                    (c * Rpower 2 (- bar_ep octave)) (c * Rpower 2 (bar_ep octave)) 0%nat) sel.
Proof.
  intros Hi Hl. unfold helper_synthetic. rewrite map_map. apply map_ext. intros c.
  assert (E1 : - (1 / 2) / bar_num octave = - bar_ep octave) by (unfold bar_ep, bar_num; destruct octave; field).
  assert (E2 : 1 / 2 / bar_num octave = bar_ep octave) by (unfold bar_ep, bar_num; destruct octave; field).
  rewrite E1, E2. destruct (Req_EM_T (bar_num octave) 0) as [H|_]; [unfold bar_num in H; destruct octave; lra|]. cbv zeta.
  rewrite <- (band_sum_spec freqs (map (fun d _ => d) data)) by (auto; now rewrite map_length).
  destruct (Nat.eqb_spec (searchsorted freqs (c * Rpower 2 (- bar_ep octave)))
                         (searchsorted freqs (c * Rpower 2 (bar_ep octave)))) as [E|_]; [|reflexivity].
  rewrite sum_rows_empty by exact E. reflexivity.
Qed.

Lemma pslice_nat {A} a (b : nat) (l : list A) : pslice a (Z.of_nat b) l = slice a b l.
Proof.
  unfold pslice, clip_index. destruct (Z.ltb_spec (Z.of_nat b) 0); [lia|].
  destruct (Nat.le_gt_cases b (length l)).
  - rewrite Z.min_l by lia. now rewrite Nat2Z.id.
  - rewrite Z.min_r by lia. rewrite Nat2Z.id. unfold slice. rewrite !firstn_all2 by lia. reflexivity.
Qed.

Lemma slice_tl {A} a b (l : list A) : tl (slice a b l) = slice (a + 1) b l.
Proof.
  unfold slice. generalize (firstn b l). intros v. revert a. induction v as [|x v IH]; intros a.
  - now rewrite !skipn_nil.
  - destruct a as [|a]; [reflexivity|]. cbn [skipn Nat.add]. apply IH.
Qed.

Lemma slice_removelast {A} a b (l : list A) : (a < b <= length l)%nat -> removelast (slice a b l) = slice a (b - 1) l.
Proof.
  intros H. unfold slice. rewrite <- (firstn_skipn (b - 1) l) at 1.
  rewrite firstn_app, firstn_length, Nat.min_l by lia.
  replace (b - (b - 1))%nat with 1%nat by lia. rewrite (firstn_all2 (n := b) (firstn _ _)) by (rewrite firstn_length; lia).
  destruct (skipn (b - 1) l) as [|z r] eqn:E.
  { pose proof (skipn_length (b - 1) l) as L. rewrite E in L. cbn in L. lia. }
  cbn [firstn]. rewrite skipn_app, firstn_length, Nat.min_l by lia.
  replace (a - (b - 1))%nat with 0%nat by lia. cbn [skipn]. now rewrite removelast_last.
Qed.

Lemma centres_length octave : length (centres octave) = if octave then 10%nat else 30%nat.
Proof. destruct octave; reflexivity. Qed.

(** Whenever at least one band is selected, the bars are those of [border] with
    the band sums as heights. *)
Theorem barspectrum_bars data freqs octave xoffset : (2 <= length freqs)%nat -> increasing freqs ->
  length data = length freqs ->
  let lo := bar_low octave freqs in
  let hi := bar_high octave freqs in
  (lo < hi)%nat -> (hi <= length (centres octave))%nat ->
  let fc := slice lo hi (centres octave) in
  let ep := bar_ep octave in
  let n := length fc in
  let height c := band_sum freqs (map (fun d _ => d) data) (c * Rpower 2 (- ep)) (c * Rpower 2 ep) 0%nat in
  barspectrum data freqs octave false xoffset = inl (fc, map height fc, fc)
  /\ exists xs ys, barspectrum data freqs octave true xoffset = inl (xs, ys, fc)
     /\ length xs = (2 * n)%nat /\ length ys = (2 * n)%nat
     /\ forall k, (k < n)%nat ->
          nth (2 * k) xs 0 = Rpower 2 (2 * xoffset * ep) * border ep fc k
          /\ nth (2 * k + 1) xs 0 = Rpower 2 (2 * xoffset * ep) * border ep fc (k + 1)
          /\ nth (2 * k) ys 0 = height (nth k fc 0) /\ nth (2 * k + 1) ys 0 = height (nth k fc 0).
Proof.
  intros H2 Hi Hl lo hi Hlo Hhi fc ep n height. unfold barspectrum.
  destruct (Nat.ltb_spec (length freqs) 2); [lia|]. cbv zeta. fold lo hi ep.
  change (slice lo hi (centres octave)) with fc. rewrite bar_values by assumption. fold ep.
  change (map (fun c => band_sum _ _ _ _ _) fc) with (map height fc).
  split; [reflexivity|].
  assert (Hne : fc <> []).
  { intros E. pose proof (Stream.slice_length lo hi (centres octave)) as L. fold fc in L. rewrite E in L. cbn [length] in L. lia. }
  replace (Z.of_nat hi - 1)%Z with (Z.of_nat (hi - 1)) by lia. rewrite !pslice_nat.
  rewrite <- (slice_removelast lo hi) by lia. rewrite <- (slice_tl lo hi). fold fc.
  unfold arr_add. rewrite !map_length, removelast_length.
  assert (Lt : length (tl fc) = (length fc - 1)%nat) by (destruct fc; cbn; lia).
  rewrite Lt, Nat.eqb_refl.
  set (between := map (fun p => fst p + snd p) _).
  assert (Eb : between = map (fun p => fst p * Rpower 2 ep + snd p * Rpower 2 (- ep)) (combine (removelast fc) (tl fc))).
  { unfold between. clear. generalize (removelast fc) (tl fc). induction l as [|x l IH]; intros [|y l0]; cbn; try reflexivity.
    now rewrite IH. }
  destruct (Nat.eqb_spec hi 0); [lia|].
  assert (Ef : slice lo (lo + 1) (centres octave) = firstn 1 fc).
  { unfold fc, slice. rewrite firstn_skipn_comm. rewrite firstn_firstn. f_equal. f_equal. lia. }
  assert (Es : slice (hi - 1) hi (centres octave) = skipn (length fc - 1) fc).
  { unfold fc. rewrite Stream.slice_length. unfold slice. rewrite skipn_twice. f_equal. lia. }
  rewrite Ef, Es.
  destruct (border_list ep fc between Hne Eb) as [L B]. cbv zeta in L, B.
  assert (Lh : length (map height fc) = length fc) by apply map_length.
  destruct (bars_polygon (Rpower 2 (2 * xoffset * ep)) _ (map height fc) (eq_trans L (f_equal S (eq_sym Lh)))) as (A1 & A2 & A3).
  eexists _, _. split; [reflexivity|]. rewrite Lh in A1, A2, A3. split; [exact A1|]. split; [exact A2|].
  intros k Hk. destruct (A3 k Hk) as (B1 & B2 & B3 & B4). rewrite B1, B2, B3, B4.
  rewrite (B k) by (fold n; lia). rewrite (B (k + 1)%nat) by (fold n; lia).
  rewrite (nth_indep (map height fc) 0 (height 0)) by (now rewrite map_length). rewrite map_nth. auto.
Qed.

(* ------------------------------------------------------------------ *)
(** * Which bands *)

Lemma indices_in p l i : In i (indices_where p l) <-> (i < length l)%nat /\ p (nth i l 0) = true.
Proof. unfold indices_where. rewrite filter_In, in_seq. intuition lia. Qed.

Lemma filter_seq_last (q : nat -> bool) : forall n, (exists i, (i < n)%nat /\ q i = true) ->
  let m := last (filter q (seq 0 n)) 0%nat in
  (m < n)%nat /\ q m = true /\ forall i, (m < i < n)%nat -> q i = false.
Proof.
  induction n as [|n IH]; intros (i & Hi & Hq); [lia|]. rewrite seq_S, filter_app. cbn [Nat.add filter].
  destruct (q n) eqn:E.
  - rewrite last_last. cbv zeta. split; [lia|]. split; [exact E|]. intros j Hj. lia.
  - rewrite app_nil_r. assert (Hn : (i < n)%nat). { assert (i <> n) by (intros ->; congruence). lia. }
    destruct (IH (ex_intro _ i (conj Hn Hq))) as (A & B & D). cbv zeta. split; [lia|]. split; [exact B|].
    intros j Hj. destruct (Nat.eq_dec j n) as [->|]; [exact E|]. apply D. lia.
Qed.

Lemma filter_seq_hd (q : nat -> bool) : forall n s, (exists i, (s <= i < s + n)%nat /\ q i = true) ->
  let m := hd 0%nat (filter q (seq s n)) in
  (s <= m < s + n)%nat /\ q m = true /\ forall i, (s <= i < m)%nat -> q i = false.
Proof.
  induction n as [|n IH]; intros s (i & Hi & Hq); [lia|]. cbn [seq filter].
  destruct (q s) eqn:E.
  - cbn [hd]. cbv zeta. split; [lia|]. split; [exact E|]. intros j Hj. lia.
  - assert (Hn : (S s <= i < S s + n)%nat). { assert (i <> s) by (intros ->; congruence). lia. }
    destruct (IH (S s) (ex_intro _ i (conj Hn Hq))) as (A & B & D). cbv zeta. split; [lia|]. split; [exact B|].
    intros j Hj. destruct (Nat.eq_dec j s) as [->|]; [exact E|]. apply D. lia.
Qed.

Lemma rltb_true a b : rltb a b = true <-> a < b.
Proof. unfold rltb. destruct (Rlt_dec a b); split; congruence || easy. Qed.
Lemma rltb_false a b : rltb a b = false <-> b <= a.
Proof. unfold rltb. destruct (Rlt_dec a b); split; intros; try congruence; lra. Qed.

Lemma last_is_nth : forall (l : list R), last l 0 = nth (length l - 1) l 0.
Proof.
  induction l as [|x l IH]; [reflexivity|]. destruct l as [|y l]; [reflexivity|].
  change (last (x :: y :: l) 0) with (last (y :: l) 0). rewrite IH. cbn [length].
  replace (S (S (length l)) - 1)%nat with (S (S (length l) - 1)) by lia. reflexivity.
Qed.

Lemma bar_low_spec octave freqs :
  let f_low := nth 1 freqs 0 * Rpower 2 (bar_ep octave) in
  let fc := centres octave in
  let lo := bar_low octave freqs in
  (lo < length fc)%nat
  /\ (f_low <= nth 0 fc 0 -> lo = 0%nat)
  /\ (nth 0 fc 0 < f_low -> nth lo fc 0 < f_low /\ forall k, (lo < k < length fc)%nat -> f_low <= nth k fc 0).
Proof.
  intros f_low fc lo. assert (L : (0 < length fc)%nat) by (unfold fc; rewrite centres_length; destruct octave; lia).
  unfold lo, bar_low. fold fc f_low. destruct (Rle_dec f_low (nth 0 fc 0)) as [H|H].
  - split; [exact L|]. split; [reflexivity|]. intros; lra.
  - unfold indices_where. destruct (filter_seq_last (fun i => rltb (nth i fc 0) f_low) (length fc)) as (A & B & D).
    { exists 0%nat. split; [exact L|]. apply rltb_true. lra. }
    split; [exact A|]. split; [intros; lra|]. intros _. split; [now apply rltb_true|].
    intros k Hk. apply rltb_false. now apply D.
Qed.

Lemma bar_high_spec octave freqs :
  let f_high := last freqs 0 * Rpower 2 (- bar_ep octave) in
  let fc := centres octave in
  let hi := bar_high octave freqs in
  (hi <= length fc)%nat
  /\ ((hi < length fc)%nat -> f_high < nth hi fc 0)
  /\ (last fc 0 <= f_high -> hi = length fc)
  /\ (f_high < last fc 0 -> forall k, (k < hi)%nat -> nth k fc 0 <= f_high).
Proof.
  intros f_high fc hi. assert (L : (0 < length fc)%nat) by (unfold fc; rewrite centres_length; destruct octave; lia).
  unfold hi, bar_high. fold fc f_high. destruct (Rle_dec (last fc 0) f_high) as [H|H].
  - split; [lia|]. split; [lia|]. split; [reflexivity|]. intros; lra.
  - unfold indices_where. destruct (filter_seq_hd (fun i => rltb f_high (nth i fc 0)) (length fc) 0) as (A & B & D).
    { exists (length fc - 1)%nat. split; [lia|]. apply rltb_true. rewrite <- last_is_nth. lra. }
    split; [lia|]. split; [intros _; now apply rltb_true|]. split; [intros; lra|].
    intros _ k Hk. apply rltb_false. apply D. lia.
Qed.
