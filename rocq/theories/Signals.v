(** Signal generators (properties C88, C89; signals.py:47-121, 199-265, 345-557).

    Modelled: WNoiseGenerator, FiltWNoiseGenerator and SineGenerator as functions
    of their attributes, usignal with scipy.signal.resample for real signals.
    RandomState(seed).standard_normal(n) is the beginning of a sequence given by
    the seed.  tf2sos followed by sosfilt is modelled by the difference equation
    of the transfer function that tf2sos factorises (leading zeros of the
    coefficients removed, as scipy.signal.normalize does); the factorisation
    itself is not modelled. *)
From Coq Require Import List Arith Lia ZArith Bool Reals Lra.
From Verif Require Import Cplx.
Import ListNotations.
Local Open Scope R_scope.

(* ------------------------------------------------------------------ *)
(** * Noise *)

Section noise.
  (** [noise seed k]: value number [k] of standard_normal. *)
  Variable noise : Z -> nat -> R.

  (** WNoiseGenerator.signal, signals.py:264-265. *)
  Definition white (rms : R) (seed : Z) (num : nat) : list R := map (fun k => rms * noise seed k) (seq 0 num).

  (** handle_empty_coefficients, signals.py:434-436. *)
  Definition handle_empty (c : list R) : list R := match c with [] => [1] | _ => c end.

  (** round(0.5 * (ntaps - 1)): halves to the even neighbour, signals.py:458. *)
  Definition sdelay (ntaps : nat) : nat :=
    let q := ((ntaps - 1) / 2)%nat in
    if Nat.odd ntaps then q else if Nat.even q then q else S q.

  (** scipy.signal.normalize: leading zeros go, one coefficient stays. *)
  Fixpoint trim (c : list R) : list R :=
    match c with
    | [] => []
    | [x] => [x]
    | x :: r => if Req_EM_T x 0 then trim r else c
    end.

  Fixpoint dotp (a b : list R) : R :=
    match a, b with x :: a', y :: b' => x * y + dotp a' b' | _, _ => 0 end.

  (** The filter: [xs], [ys] are the values so far, latest first. *)
  Fixpoint filt (b a xs ys input : list R) : list R :=
    match input with
    | [] => []
    | x :: rest =>
        let y := (dotp b (x :: xs) - dotp (tl a) ys) / hd 1 a in
        y :: filt b a (x :: xs) (y :: ys) rest
    end.

  (** FiltWNoiseGenerator.signal, signals.py:453-462. *)
  Definition filt_noise (ar ma : list R) (rms : R) (seed : Z) (num : nat) : list R :=
    let ma := handle_empty ma in
    let ar := handle_empty ar in
    let d := sdelay (length ma) in
    skipn d (filt (trim ma) (trim ar) [] [] (white rms seed (num + d))).
End noise.

(** SineGenerator.signal, signals.py:556-557. *)
Definition sine (amplitude freq phase fs : R) (num : nat) : list R :=
  map (fun k => amplitude * sin (2 * PI * freq * (INR k / fs) + phase)) (seq 0 num).

(* ------------------------------------------------------------------ *)
(** * Resampling *)

(** numpy.fft.irfft to length [n]. *)
Definition mirror_n (n : nat) (Y : nat -> C) (k : nat) : C :=
  if (k =? 0)%nat then RtoC (re (Y 0%nat))
  else if (2 * k <? n)%nat then Y k
  else if (2 * k =? n)%nat then RtoC (re (Y k))
  else Conj (Y (n - k)%nat).
Definition irfft_n (n : nat) (Y : nat -> C) (j : nat) : R := re (idft n (mirror_n n Y) j).

(** scipy.signal.resample of [N] real values to [num] values: the lower part of
    the spectrum is kept, the value at half the (lower) sampling frequency is
    split or joined. *)
Definition resample (N num : nat) (x : nat -> R) (j : nat) : R :=
  let m := Nat.min N num in
  let X := rfft N x in
  let Y := fun k => if (m / 2 <? k)%nat then C0
                    else if (2 * k =? m)%nat
                         then if (num <? N)%nat then Cmul (RtoC 2) (X k)
                              else if (N <? num)%nat then Cmul (RtoC (/ 2)) (X k) else X k
                         else X k in
  irfft_n num Y j * (INR num / INR N).

(** SignalGenerator.usignal, signals.py:121. *)
Definition usignal (factor : nat) (sig : list R) : list R :=
  map (resample (length sig) (factor * length sig) (fun k => nth k sig 0)) (seq 0 (factor * length sig)).

(* ------------------------------------------------------------------ *)
(** * Filtered noise *)

(** The filter obeys the difference equation with zero values before the start. *)
Definition at_lag (f : nat -> R) (n i : nat) : R := if (i <=? n)%nat then f (n - i)%nat else 0.
Definition lagsum (c : list R) (f : nat -> R) (n : nat) : R := rsumn (length c) (fun i => nth i c 0 * at_lag f n i).

Lemma dotp_nil_r a : dotp a [] = 0.
Proof. now destruct a. Qed.

Lemma dotp_sum : forall a b, dotp a b = rsumn (length a) (fun i => nth i a 0 * nth i b 0).
Proof.
  induction a as [|x a IH]; intros b; [reflexivity|]. cbn [length]. rewrite rsumn_first.
  destruct b as [|y b]; cbn [dotp nth].
  - rewrite rsumn_0; [ring|]. intros k _. destruct k; ring.
  - now rewrite IH.
Qed.

Lemma filt_length b a : forall inp xs ys, length (filt b a xs ys inp) = length inp.
Proof. induction inp as [|x r IH]; intros; cbn [filt length]; [reflexivity|now rewrite IH]. Qed.

(** What comes later does not change what came before. *)
Lemma filt_app b a : forall i1 xs ys i2,
  filt b a xs ys (i1 ++ i2)
  = filt b a xs ys i1 ++ filt b a (rev i1 ++ xs) (rev (filt b a xs ys i1) ++ ys) i2.
Proof.
  induction i1 as [|x r IH]; intros xs ys i2; [reflexivity|].
  cbn [app filt rev]. rewrite IH. now rewrite <- !app_assoc.
Qed.

Lemma filt_step b a i1 x : filt b a [] [] (i1 ++ [x])
  = filt b a [] [] i1 ++ [(dotp b (x :: rev i1) - dotp (tl a) (rev (filt b a [] [] i1))) / hd 1 a].
Proof. rewrite filt_app. cbn [filt]. now rewrite !app_nil_r. Qed.

Lemma nth_rev_lag (l : list R) n i : length l = n ->
  nth i (rev l) 0 = if (i <? n)%nat then nth (n - S i) l 0 else 0.
Proof.
  intros E. destruct (Nat.ltb_spec i n).
  - rewrite rev_nth by lia. now rewrite E.
  - apply nth_overflow. rewrite rev_length. lia.
Qed.

Lemma filt_equation b a0 a inp n : a0 <> 0 -> (n < length inp)%nat ->
  lagsum (a0 :: a) (fun k => nth k (filt b (a0 :: a) [] [] inp) 0) n
  = lagsum b (fun k => nth k inp 0) n.
Proof.
  intros Ha Hn.
  set (i1 := firstn n inp). set (x := nth n inp 0).
  assert (E : inp = (i1 ++ [x]) ++ skipn (S n) inp).
  { unfold i1, x. rewrite <- (firstn_skipn (S n) inp) at 1. f_equal.
    clear -Hn. revert n Hn. induction inp as [|y r IH]; intros n Hn; [cbn in Hn; lia|].
    destruct n as [|n]; [reflexivity|]. cbn [firstn nth app]. f_equal. apply IH. cbn in Hn. lia. }
  assert (L1 : length i1 = n) by (unfold i1; rewrite firstn_length; lia).
  assert (FY : forall k, (k <= n)%nat -> nth k (filt b (a0 :: a) [] [] inp) 0 = nth k (filt b (a0 :: a) [] [] (i1 ++ [x])) 0).
  { intros k Hk. rewrite E at 1. rewrite filt_app. apply app_nth1. rewrite filt_length, app_length. cbn. lia. }
  set (ys := filt b (a0 :: a) [] [] i1). assert (LY : length ys = n) by (unfold ys; now rewrite filt_length).
  rewrite filt_step in FY. cbn [tl hd] in FY. fold ys in FY.
  unfold lagsum at 1. cbn [length]. rewrite rsumn_first. cbn [nth]. unfold at_lag at 1. cbn [Nat.leb].
  rewrite Nat.sub_0_r, FY by lia. rewrite app_nth2 by lia. rewrite LY, Nat.sub_diag. cbn [nth].
  rewrite (rsumn_ext (length a) _ (fun i => nth i a 0 * nth i (rev ys) 0)).
  - rewrite <- dotp_sum.
    replace (dotp b (x :: rev i1)) with (lagsum b (fun k => nth k inp 0) n); [field; assumption|].
    rewrite dotp_sum. unfold lagsum. apply rsumn_ext. intros i _. f_equal.
    unfold at_lag. rewrite <- (rev_unit i1 x).
    assert (LL : length (i1 ++ [x]) = S n) by (rewrite app_length; cbn; lia).
    rewrite (nth_rev_lag _ (S n) i LL).
    replace (i <? S n)%nat with (i <=? n)%nat by reflexivity. destruct (Nat.leb_spec i n); [|reflexivity].
    replace (S n - S i)%nat with (n - i)%nat by lia. rewrite E at 1. apply app_nth1. lia.
  - intros i _. f_equal. unfold at_lag. rewrite (nth_rev_lag ys n i LY).
    replace (S i <=? n)%nat with (i <? n)%nat by reflexivity. destruct (Nat.ltb_spec i n); [|reflexivity].
    rewrite FY by lia. apply app_nth1. lia.
Qed.

Lemma trim_id c : hd 0 c <> 0 -> trim c = c.
Proof. destruct c as [|x [|y c]]; intros H; [reflexivity|reflexivity|]. cbn in *. now destruct (Req_EM_T x 0). Qed.

Lemma white_nth noise rms seed num k : (k < num)%nat -> nth k (white noise rms seed num) 0 = rms * noise seed k.
Proof.
  intros H. unfold white. rewrite (nth_indep _ 0 (rms * noise seed 0%nat)) by now rewrite map_length, seq_length.
  rewrite (map_nth (fun k => rms * noise seed k)). now rewrite seq_nth.
Qed.

Lemma white_length noise rms seed num : length (white noise rms seed num) = num.
Proof. unfold white. now rewrite map_length, seq_length. Qed.

Lemma white_app noise rms seed n m : exists r, white noise rms seed (n + m) = white noise rms seed n ++ r.
Proof. unfold white. rewrite seq_app, map_app. eexists. reflexivity. Qed.

Lemma handle_empty_hd c : hd 1 c <> 0 -> hd 0 (handle_empty c) <> 0.
Proof. destruct c; cbn; [lra|auto]. Qed.

Lemma filt_noise_length noise ar ma rms seed num : length (filt_noise noise ar ma rms seed num) = num.
Proof. unfold filt_noise. cbv zeta. rewrite skipn_length, filt_length, white_length. lia. Qed.

Lemma lagsum_ext c f g n : (forall k, (k <= n)%nat -> f k = g k) -> lagsum c f n = lagsum c g n.
Proof.
  intros H. unfold lagsum. apply rsumn_ext. intros i _. unfold at_lag. destruct (Nat.leb_spec i n); [|reflexivity].
  now rewrite H by lia.
Qed.

Theorem filt_noise_equation noise ar ma rms seed num : hd 1 ar <> 0 -> hd 1 ma <> 0 ->
  exists y : nat -> R,
    (forall n, (n < num + sdelay (length (handle_empty ma)))%nat ->
       lagsum (handle_empty ar) y n = lagsum (handle_empty ma) (fun k => rms * noise seed k) n)
    /\ forall k, (k < num)%nat -> nth k (filt_noise noise ar ma rms seed num) 0 = y (k + sdelay (length (handle_empty ma)))%nat.
Proof.
  intros Ha Hm. set (d := sdelay (length (handle_empty ma))).
  set (Y := filt (handle_empty ma) (handle_empty ar) [] [] (white noise rms seed (num + d))).
  exists (fun k => nth k Y 0). split.
  - intros n Hn. apply handle_empty_hd in Ha. unfold Y. destruct (handle_empty ar) as [|a0 a] eqn:E.
    { destruct ar; discriminate. }
    cbn [hd] in Ha. rewrite filt_equation; [|assumption|now rewrite white_length].
    apply lagsum_ext. intros k Hk. apply white_nth. lia.
  - intros k Hk. unfold filt_noise. cbv zeta. rewrite !trim_id by now apply handle_empty_hd. fold d. fold Y.
    assert (G : forall (l : list R) d k, nth k (skipn d l) 0 = nth (k + d) l 0).
    { clear. induction l as [|x l IH]; intros d k; [rewrite skipn_nil; destruct k, d; now destruct (_ + _)%nat|].
      destruct d; [now rewrite Nat.add_0_r|]. cbn [skipn]. rewrite IH. now rewrite Nat.add_succ_r. }
    apply G.
Qed.

Theorem filt_noise_prefix noise ar ma rms seed n m :
  filt_noise noise ar ma rms seed n = firstn n (filt_noise noise ar ma rms seed (n + m)).
Proof.
  unfold filt_noise. cbv zeta. set (d := sdelay _). set (b := trim (handle_empty ma)). set (a := trim (handle_empty ar)).
  replace (n + m + d)%nat with (n + d + m)%nat by lia.
  destruct (white_app noise rms seed (n + d) m) as (r & ->). rewrite filt_app.
  set (A := filt b a [] [] (white noise rms seed (n + d))).
  assert (LA : length A = (n + d)%nat) by (unfold A; now rewrite filt_length, white_length).
  rewrite skipn_app. replace (d - length A)%nat with 0%nat by lia. cbn [skipn].
  rewrite firstn_app. rewrite firstn_all2 by (rewrite skipn_length; lia).
  replace (n - length (skipn d A))%nat with 0%nat by (rewrite skipn_length; lia). cbn [firstn]. now rewrite app_nil_r.
Qed.

(** A filter without recursion, with 2d+1 coefficients, is centred. *)
Theorem filt_noise_centred noise ma rms seed num d k :
  hd 1 ma <> 0 -> length ma = (2 * d + 1)%nat -> (d <= k < num)%nat ->
  nth k (filt_noise noise [] ma rms seed num) 0
  = rsumn (2 * d + 1) (fun j => nth j ma 0 * (rms * noise seed (k + d - j)%nat)).
Proof.
  intros Hm HL Hk.
  assert (ED : handle_empty ma = ma) by (destruct ma; [cbn in HL; lia|reflexivity]).
  assert (SD : sdelay (2 * d + 1) = d).
  { unfold sdelay. replace (2 * d + 1 - 1)%nat with (d * 2)%nat by lia. rewrite Nat.div_mul by lia.
    replace (Nat.odd (2 * d + 1)) with true; [reflexivity|]. symmetry. apply Nat.odd_spec. now exists d. }
  destruct (filt_noise_equation noise [] ma rms seed num) as (y & E & F); [cbn; lra|assumption|].
  rewrite ED, HL, SD in *. rewrite F by lia. specialize (E (k + d)%nat ltac:(lia)).
  unfold handle_empty, lagsum in E. rewrite HL in E. cbn [length rsumn nth] in E.
  replace (0 + 1 * at_lag y (k + d) 0) with (y (k + d)%nat) in E
    by (unfold at_lag; cbn [Nat.leb]; rewrite Nat.sub_0_r; ring).
  rewrite E. apply rsumn_ext. intros j Hj. f_equal. unfold at_lag.
  destruct (Nat.leb_spec j (k + d)); [reflexivity|lia].
Qed.

Theorem filt_noise_plain noise rms seed num : filt_noise noise [] [] rms seed num = white noise rms seed num.
Proof.
  apply nth_ext with (d := 0) (d' := 0); [now rewrite filt_noise_length, white_length|].
  intros k Hk. rewrite filt_noise_length in Hk. rewrite white_nth by assumption.
  destruct (filt_noise_equation noise [] [] rms seed num) as (y & E & F); [cbn; lra|cbn; lra|].
  rewrite F by assumption. change (sdelay (length (handle_empty []))) with 0%nat in *. rewrite Nat.add_0_r in *.
  specialize (E k Hk). unfold handle_empty, lagsum, at_lag in E. cbn [length rsumn nth Nat.leb] in E.
  rewrite Nat.sub_0_r in E. lra.
Qed.

(* ------------------------------------------------------------------ *)
(** * Resampling *)

Lemma rsumn_rev n : forall f, rsumn n f = rsumn n (fun k => f (n - 1 - k)%nat).
Proof.
  induction n as [|n IH]; intros f; [reflexivity|].
  rewrite (rsumn_first n (fun k => f (S n - 1 - k)%nat)). cbn [rsumn]. replace (S n - 1 - 0)%nat with n by lia.
  rewrite (rsumn_ext n (fun k => f (S n - 1 - S k)%nat) (fun k => f (n - 1 - k)%nat)) by (intros; f_equal; lia).
  rewrite <- IH. ring.
Qed.

(** A sum over a symmetric sequence, folded. *)
Lemma rsumn_fold n g : (0 < n)%nat -> (forall k, (0 < k < n)%nat -> g (n - k)%nat = g k) ->
  rsumn n g = g 0%nat + rsumn (n / 2) (fun t => (if (2 * (t + 1) =? n)%nat then 1 else 2) * g (t + 1)%nat).
Proof.
  intros Hn Hg. destruct n as [|m]; [lia|]. rewrite rsumn_first. f_equal.
  destruct (Nat.Even_or_Odd m) as [[q Hq]|[q Hq]].
  - replace (S m / 2)%nat with q by (rewrite Hq; replace (S (2 * q)) with (1 + q * 2)%nat by lia; rewrite Nat.div_add by lia; reflexivity).
    rewrite Hq at 1. replace (2 * q)%nat with (q + q)%nat by lia. rewrite rsumn_split.
    rewrite (rsumn_rev q (fun k => g (S (q + k)))).
    rewrite (rsumn_ext q (fun k => g (S (q + (q - 1 - k)))) (fun t => g (S t))).
    + rewrite <- rsumn_add. apply rsumn_ext. intros t Ht.
      destruct (Nat.eqb_spec (2 * (t + 1)) (S m)); [lia|]. replace (t + 1)%nat with (S t) by lia. ring.
    + intros t Ht. rewrite <- (Hg (S t)) by lia. f_equal. lia.
  - replace (S m / 2)%nat with (S q) by (rewrite Hq; replace (S (2 * q + 1)) with (0 + S q * 2)%nat by lia; rewrite Nat.div_add by lia; reflexivity).
    rewrite Hq at 1. replace (2 * q + 1)%nat with (S q + q)%nat by lia. rewrite rsumn_split.
    cbn [rsumn]. rewrite (rsumn_rev q (fun k => g (S (S q + k)))).
    rewrite (rsumn_ext q (fun k => g (S (S q + (q - 1 - k)))) (fun t => g (S t))).
    + destruct (Nat.eqb_spec (2 * (q + 1)) (S m)); [|lia]. replace (q + 1)%nat with (S q) by lia.
      rewrite (rsumn_ext q (fun t => (if (2 * (t + 1) =? S m)%nat then 1 else 2) * g (t + 1)%nat) (fun t => 2 * g (S t))).
      * rewrite rsumn_scal. ring.
      * intros t Ht. destruct (Nat.eqb_spec (2 * (t + 1)) (S m)); [lia|]. now replace (t + 1)%nat with (S t) by lia.
    + intros t Ht. rewrite <- (Hg (S t)) by lia. f_equal. lia.
Qed.

Lemma w_compl n k j : (k <= n)%nat -> (0 < n)%nat -> w n (j * (n - k)) = Conj (w n (j * k)).
Proof.
  intros Hk Hn. assert (E : Cmul (w n (j * k)) (w n (j * (n - k))) = C1).
  { rewrite <- w_add. replace (j * k + j * (n - k))%nat with (n * j)%nat by nia. apply w_period. lia. }
  transitivity (Cmul (Conj (w n (j * k))) (Cmul (w n (j * k)) (w n (j * (n - k))))).
  - transitivity (Cmul (Cmul (Conj (w n (j * k))) (w n (j * k))) (w n (j * (n - k)))); [rewrite w_conj_mul; ring|ring].
  - rewrite E. ring.
Qed.

Lemma re_conj z : re (Conj z) = re z.
Proof. reflexivity. Qed.

Lemma re_RtoC_mul' x z : re (Cmul (RtoC x) z) = x * re z.
Proof. unfold re, Cmul, RtoC. cbn [fst snd]. ring. Qed.

Lemma irfft_folded n Y j : (0 < n)%nat ->
  irfft_n n Y j * INR n
  = re (Y 0%nat)
    + rsumn (n / 2) (fun t => if (2 * (t + 1) =? n)%nat then re (Y (t + 1)%nat) * re (w n (j * (t + 1)))
                              else 2 * re (Cmul (Y (t + 1)%nat) (w n (j * (t + 1))))).
Proof.
  intros Hn. assert (HnR : INR n <> 0) by (apply not_0_INR; lia).
  unfold irfft_n, idft. rewrite re_RtoC_mul', re_csum.
  replace (/ INR n * rsumn n (fun k => re (Cmul (mirror_n n Y k) (w n (j * k)))) * INR n)
    with (rsumn n (fun k => re (Cmul (mirror_n n Y k) (w n (j * k))))) by (field; assumption).
  rewrite rsumn_fold; [|assumption|].
  - f_equal.
    + unfold mirror_n. cbn [Nat.eqb]. rewrite Nat.mul_0_r, w_0, re_RtoC_mul'. change (re C1) with 1. ring.
    + apply rsumn_ext. intros t Ht. unfold mirror_n. destruct (Nat.eqb_spec (t + 1) 0); [lia|].
      assert (2 * (t + 1) <= n)%nat by (pose proof (Nat.div_mod n 2 ltac:(lia)); lia).
      destruct (Nat.eqb_spec (2 * (t + 1)) n) as [E|E].
      * destruct (Nat.ltb_spec (2 * (t + 1)) n); [lia|]. rewrite re_RtoC_mul'. ring.
      * destruct (Nat.ltb_spec (2 * (t + 1)) n); [|lia]. reflexivity.
  - intros k Hk. rewrite w_compl by lia.
    replace (mirror_n n Y (n - k)) with (Conj (mirror_n n Y k)).
    { rewrite <- re_conj, Conj_mul, !Conj_invol. reflexivity. }
    unfold mirror_n. destruct (Nat.eqb_spec k 0); [lia|]. destruct (Nat.eqb_spec (n - k) 0); [lia|].
    destruct (Nat.ltb_spec (2 * k) n), (Nat.eqb_spec (2 * k) n), (Nat.ltb_spec (2 * (n - k)) n), (Nat.eqb_spec (2 * (n - k)) n); try lia.
    + f_equal. f_equal. lia.
    + rewrite Conj_RtoC. do 2 f_equal. f_equal. lia.
    + apply Conj_invol.
Qed.

(** The values of a real signal from the lower half of its spectrum. *)
Lemma signal_folded N x j : (j < N)%nat ->
  x j * INR N
  = re (rfft N x 0)
    + rsumn (N / 2) (fun t => (if (2 * (t + 1) =? N)%nat then 1 else 2) * re (Cmul (rfft N x (t + 1)) (w N (j * (t + 1))))).
Proof.
  intros Hj. assert (HnR : INR N <> 0) by (apply not_0_INR; lia).
  assert (E : x j = re (idft N (dft N (fun j => RtoC (x j))) j)) by (rewrite idft_dft by assumption; reflexivity).
  rewrite E at 1. unfold idft at 1. rewrite re_RtoC_mul', re_csum.
  change (dft N (fun j => RtoC (x j))) with (rfft N x).
  replace (/ INR N * rsumn N (fun k => re (Cmul (rfft N x k) (w N (j * k)))) * INR N)
    with (rsumn N (fun k => re (Cmul (rfft N x k) (w N (j * k))))) by (field; assumption).
  rewrite rsumn_fold; [|lia|].
  - f_equal. rewrite Nat.mul_0_r, w_0. unfold re, Cmul, C1. cbn [fst snd]. ring.
  - intros k Hk. rewrite w_compl by lia. rewrite <- dft_real_mirror by assumption.
    now rewrite <- Conj_mul, re_conj.
Qed.

Lemma w_factor f N p : (0 < f)%nat -> (0 < N)%nat -> w (f * N) (f * p) = w N p.
Proof.
  intros Hf HN. unfold w. f_equal. rewrite !mult_INR.
  assert (INR f <> 0) by (apply not_0_INR; lia). assert (INR N <> 0) by (apply not_0_INR; lia). field. auto.
Qed.

(** What resampling to a higher rate gives. *)
Lemma resample_up N num x j : (0 < N)%nat -> (N < num)%nat ->
  resample N num x j * INR N
  = re (rfft N x 0)
    + rsumn (N / 2) (fun t => (if (2 * (t + 1) =? N)%nat then 1 else 2) * re (Cmul (rfft N x (t + 1)) (w num (j * (t + 1))))).
Proof.
  intros HN Hnum. assert (HNR : INR N <> 0) by (apply not_0_INR; lia).
  unfold resample. rewrite Nat.min_l by lia.
  match goal with |- irfft_n num ?Y j * _ * _ = _ => set (Y0 := Y) end.
  replace (irfft_n num Y0 j * (INR num / INR N) * INR N) with (irfft_n num Y0 j * INR num) by (field; assumption).
  rewrite irfft_folded by lia.
  assert (D : (2 * (N / 2) <= N)%nat) by (pose proof (Nat.div_mod N 2 ltac:(lia)); lia).
  f_equal.
  - unfold Y0. cbn [Nat.ltb Nat.leb]. destruct (Nat.ltb_spec (N / 2) 0); [lia|].
    destruct (Nat.eqb_spec (2 * 0) N); [lia|reflexivity].
  - assert (LE : (N / 2 <= num / 2)%nat) by (apply Nat.div_le_mono; lia).
    replace (num / 2)%nat with (N / 2 + (num / 2 - N / 2))%nat by lia. rewrite rsumn_split.
    rewrite (rsumn_0 (num / 2 - N / 2)).
    + rewrite Rplus_0_r. apply rsumn_ext. intros t Ht. destruct (Nat.eqb_spec (2 * (t + 1)) num); [lia|].
      unfold Y0. destruct (Nat.ltb_spec (N / 2) (t + 1)); [lia|].
      destruct (Nat.eqb_spec (2 * (t + 1)) N).
      * destruct (Nat.ltb_spec num N); [lia|]. destruct (Nat.ltb_spec N num); [|lia].
        replace (Cmul (Cmul (RtoC (/ 2)) (rfft N x (t + 1))) (w num (j * (t + 1))))
          with (Cmul (RtoC (/ 2)) (Cmul (rfft N x (t + 1)) (w num (j * (t + 1))))) by ring.
        rewrite re_RtoC_mul'. field.
      * reflexivity.
    + intros t Ht. assert (Z : Y0 (N / 2 + t + 1)%nat = C0).
      { unfold Y0. destruct (Nat.ltb_spec (N / 2) (N / 2 + t + 1)); [reflexivity|lia]. }
      rewrite Z. destruct (2 * (N / 2 + t + 1) =? num)%nat; unfold re, Cmul, C0; cbn [fst snd]; ring.
Qed.

(** Every [f]-th value is an original one. *)
Theorem resample_keeps f N x j : (0 < f)%nat -> (j < N)%nat -> resample N (f * N) x (f * j) = x j.
Proof.
  intros Hf Hj. assert (HNR : INR N <> 0) by (apply not_0_INR; lia).
  apply (Rmult_eq_reg_r (INR N)); [|assumption]. rewrite (signal_folded N x j) by assumption.
  destruct (Nat.eq_dec f 1) as [->|Hf1].
  - rewrite !Nat.mul_1_l. unfold resample. rewrite Nat.min_id.
    match goal with |- irfft_n N ?Y j * _ * _ = _ => set (Y0 := Y) end.
    replace (irfft_n N Y0 j * (INR N / INR N) * INR N) with (irfft_n N Y0 j * INR N) by (field; assumption).
    rewrite irfft_folded by lia.
    assert (D : (2 * (N / 2) <= N)%nat) by (pose proof (Nat.div_mod N 2 ltac:(lia)); lia).
    assert (EY : forall k, (k <= N / 2)%nat -> Y0 k = rfft N x k).
    { intros k Hk. unfold Y0. destruct (Nat.ltb_spec (N / 2) k); [lia|].
      destruct (Nat.ltb_spec N N); [lia|]. now destruct (2 * k =? N)%nat. }
    rewrite EY by lia. f_equal. apply rsumn_ext. intros t Ht. rewrite EY by lia.
    destruct (Nat.eqb_spec (2 * (t + 1)) N) as [E|E]; [|reflexivity].
    assert (IM : im (rfft N x (t + 1)) = 0).
    { assert (Cc : Conj (rfft N x (t + 1)) = rfft N x (t + 1)).
      { rewrite dft_real_mirror by lia. f_equal. lia. }
      unfold Conj in Cc. apply (f_equal snd) in Cc. cbn [snd] in Cc. unfold im. lra. }
    unfold re, im, Cmul in *. cbn [fst snd]. rewrite IM. ring.
  - rewrite resample_up by nia. f_equal. apply rsumn_ext. intros t _.
    now rewrite <- Nat.mul_assoc, w_factor by lia.
Qed.

Lemma usignal_nth f s j : (j < f * length s)%nat ->
  nth j (usignal f s) 0 = resample (length s) (f * length s) (fun k => nth k s 0) j.
Proof.
  intros H. unfold usignal.
  rewrite (nth_indep _ 0 (resample (length s) (f * length s) (fun k => nth k s 0) 0%nat)) by now rewrite map_length, seq_length.
  rewrite map_nth. now rewrite seq_nth.
Qed.

(** A sine with a whole number of periods keeps its form. *)
Lemma sine_rfft N m A phi q : (0 < m)%nat -> (2 * m < N)%nat -> (q <= N / 2)%nat ->
  rfft N (fun k => A * sin (2 * PI * INR (m * k) / INR N + phi)) q
  = if (q =? m)%nat then Cmul (RtoC (INR N * (A / 2))) (cexp (phi - PI / 2)) else C0.
Proof.
  intros Hm HN Hq. assert (D : (2 * (N / 2) <= N)%nat) by (pose proof (Nat.div_mod N 2 ltac:(lia)); lia).
  unfold rfft, dft. set (B := Cmul (RtoC (A / 2)) (cexp (phi - PI / 2))).
  rewrite (csum_ext N _ (fun k => Cadd (Cmul B (Cmul (Conj (w N (q * k))) (w N (m * k))))
                                      (Cmul (Conj B) (Cmul (Conj (w N (q * k))) (w N ((N - m) * k)))))).
  - rewrite csum_add, !csum_scal, !characters_orthogonal by lia.
    destruct (Nat.eqb_spec q (N - m)); [lia|]. destruct (Nat.eqb_spec q m).
    + unfold B. rewrite RtoC_mul. ring.
    + ring.
  - intros k Hk. rewrite (Nat.mul_comm (N - m) k), w_compl by lia. rewrite (Nat.mul_comm k m), (Nat.mul_comm k q).
    assert (E : RtoC (A * sin (2 * PI * INR (m * k) / INR N + phi)) = Cadd (Cmul B (w N (m * k))) (Conj (Cmul B (w N (m * k))))).
    { unfold B, w. set (th := 2 * PI * INR (m * k) / INR N).
      replace (sin (th + phi)) with (cos (phi - PI / 2 + th)).
      - replace (Cmul (Cmul (RtoC (A / 2)) (cexp (phi - PI / 2))) (cexp th)) with (Cmul (RtoC (A / 2)) (cexp (phi - PI / 2 + th)))
          by (rewrite cexp_add; ring).
        unfold cexp, RtoC, Cmul, Cadd, Conj. cbn [fst snd]. apply injective_projections; cbn [fst snd]; field.
      - replace (phi - PI / 2 + th) with (- (PI / 2 - (th + phi))) by ring. now rewrite cos_neg, cos_shift. }
    rewrite E, Conj_mul. ring.
Qed.

Theorem sine_up N f m A phi j : (0 < m)%nat -> (2 * m < N)%nat -> (2 <= f)%nat ->
  resample N (f * N) (fun k => A * sin (2 * PI * INR (m * k) / INR N + phi)) j
  = A * sin (2 * PI * INR (m * j) / INR (f * N) + phi).
Proof.
  intros Hm HN Hf. assert (HNR : INR N <> 0) by (apply not_0_INR; lia).
  assert (D : (m <= N / 2)%nat) by (apply Nat.div_le_lower_bound; lia).
  apply (Rmult_eq_reg_r (INR N)); [|assumption]. rewrite resample_up by nia.
  rewrite sine_rfft by lia. destruct (Nat.eqb_spec 0 m); [lia|].
  rewrite (rsumn_single (N / 2) (m - 1)); [|lia|].
  - replace (m - 1 + 1)%nat with m by lia. rewrite sine_rfft by lia. rewrite Nat.eqb_refl.
    destruct (Nat.eqb_spec (2 * m) N); [lia|].
    replace (Cmul (Cmul (RtoC (INR N * (A / 2))) (cexp (phi - PI / 2))) (w (f * N) (j * m)))
      with (Cmul (RtoC (INR N * (A / 2))) (cexp (phi - PI / 2 + 2 * PI * INR (j * m) / INR (f * N))))
      by (rewrite cexp_add; unfold w; ring).
    rewrite re_RtoC_mul'. unfold cexp, re, C0. cbn [fst].
    replace (phi - PI / 2 + 2 * PI * INR (j * m) / INR (f * N)) with (- (PI / 2 - (2 * PI * INR (m * j) / INR (f * N) + phi)))
      by (rewrite (Nat.mul_comm j m); ring).
    rewrite cos_neg, cos_shift. field.
  - intros k Hk Hne. rewrite sine_rfft by lia. destruct (Nat.eqb_spec (k + 1) m); [lia|].
    unfold re, Cmul, C0. cbn [fst snd]. ring.
Qed.

Lemma resample_ext N num x y j : (forall k, (k < N)%nat -> x k = y k) -> resample N num x j = resample N num y j.
Proof.
  intros H. unfold resample. f_equal. unfold irfft_n. f_equal. apply idft_ext. intros k _.
  assert (E : forall q, rfft N x q = rfft N y q) by (intros q; apply dft_ext; intros i Hi; now rewrite H).
  unfold mirror_n. now rewrite !E.
Qed.
