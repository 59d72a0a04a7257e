(** Properties C88 (noise generators) and C89 (up-sampled signals). *)
From Coq Require Import List Arith Lia ZArith Bool Reals Lra.
From Verif Require Import Cplx Signals.
Import ListNotations.
Local Open Scope R_scope.

(* ------------------------------------------------------------------ *)
(** * C88 *)

(** The signal has num_samples values, is what the filter with the coefficients
    ar and ma makes of white noise, shifted by the delay of the filter (halves
    are rounded to the even neighbour).  Missing:
    coefficients that start with 0 (C88_leading_refuted). *)
Theorem C88_filter_partial :
  forall noise ar ma rms seed num, hd 1 ar <> 0 -> hd 1 ma <> 0 ->
    let b := match ma with [] => [1] | _ => ma end in
    let a := match ar with [] => [1] | _ => ar end in
    exists d y,
      (length b - 1 <= 2 * d + 1 /\ 2 * d <= length b)%nat
      /\ (Nat.even (length b) = true -> Nat.even d = true)
      /\ (forall n, (n < num + d)%nat ->
            rsumn (length a) (fun i => nth i a 0 * (if (i <=? n)%nat then y (n - i)%nat else 0))
            = rsumn (length b) (fun j => nth j b 0 * (if (j <=? n)%nat then rms * noise seed (n - j)%nat else 0)))
      /\ filt_noise noise ar ma rms seed num = map (fun k => y (k + d)%nat) (seq 0 num).
Proof.
  intros noise ar ma rms seed num Ha Hm b a.
  destruct (filt_noise_equation noise ar ma rms seed num Ha Hm) as (y & E & F).
  change b with (handle_empty ma). change a with (handle_empty ar).
  exists (sdelay (length (handle_empty ma))), y. split; [|split; [|split]].
  - set (n := length (handle_empty ma)). assert (0 < n)%nat by (unfold n; destruct ma; cbn; lia).
    unfold sdelay. pose proof (Nat.div_mod (n - 1) 2 ltac:(lia)). pose proof (Nat.mod_upper_bound (n - 1) 2 ltac:(lia)).
    destruct (Nat.odd n) eqn:O; [lia|].
    assert ((n - 1) mod 2 = 1)%nat.
    { rewrite <- Nat.negb_even in O. apply Bool.negb_false_iff in O. apply Nat.even_spec in O as [k Hk]. 
      destruct ((n - 1) mod 2)%nat as [|[|]] eqn:M; [|reflexivity|]; lia. }
    destruct (Nat.even ((n - 1) / 2)); lia.
  - intros He. unfold sdelay. rewrite <- Nat.negb_even, He. cbn [negb].
    destruct (Nat.even ((length (handle_empty ma) - 1) / 2)) eqn:V; [exact V|].
    rewrite Nat.even_succ, <- Nat.negb_even, V. reflexivity.
  - intros n Hn. exact (E n Hn).
  - apply nth_ext with (d := 0) (d' := y (0 + sdelay (length (handle_empty ma)))%nat).
    + now rewrite filt_noise_length, map_length, seq_length.
    + intros k Hk. rewrite filt_noise_length in Hk.
      rewrite (map_nth (fun k => y (k + sdelay (length (handle_empty ma)))%nat)), seq_nth by assumption.
      now apply F.
Qed.

(** More samples continue the signal, for white and filtered noise. *)
Theorem C88_prefix :
  forall noise ar ma rms seed n m,
    firstn n (filt_noise noise ar ma rms seed (n + m)) = filt_noise noise ar ma rms seed n
    /\ firstn n (white noise rms seed (n + m)) = white noise rms seed n
    /\ length (filt_noise noise ar ma rms seed n) = n.
Proof.
  intros. split; [symmetry; apply filt_noise_prefix|]. split; [|apply filt_noise_length].
  destruct (white_app noise rms seed n m) as (r & ->). rewrite firstn_app, white_length, Nat.sub_diag.
  cbn [firstn]. rewrite app_nil_r. apply firstn_all2. now rewrite white_length.
Qed.

(** Without coefficients it is the white noise with the same seed. *)
Theorem C88_empty :
  forall noise rms seed num, filt_noise noise [] [] rms seed num = white noise rms seed num.
Proof. intros. apply filt_noise_plain. Qed.

(** A moving average over 2d+1 values is centred at the sample. *)
Theorem C88_centred :
  forall noise ma rms seed num d k,
    hd 1 ma <> 0 -> length ma = (2 * d + 1)%nat -> (d <= k < num)%nat ->
    nth k (filt_noise noise [] ma rms seed num) 0
    = rsumn (2 * d + 1) (fun j => nth j ma 0 * (rms * noise seed (k + d - j)%nat)).
Proof. intros. now apply filt_noise_centred. Qed.

(** Leading zeros of ma, which mean a delay, are lost: with ma = [0, 0, 1] the
    noise comes two samples early. *)
Theorem C88_leading_refuted :
  exists ma d num k, length ma = (2 * d + 1)%nat /\ (d <= k < num)%nat /\
    forall noise rms seed, 
      nth k (filt_noise noise [] ma rms seed num) 0 = rms * noise seed (k + d)%nat
      /\ rsumn (2 * d + 1) (fun j => nth j ma 0 * (rms * noise seed (k + d - j)%nat)) = rms * noise seed (k - d)%nat.
Proof.
  exists [0; 0; 1], 1%nat, 2%nat, 1%nat. split; [reflexivity|]. split; [lia|]. intros noise rms seed. split.
  - unfold filt_noise. cbv zeta. cbn [handle_empty length]. change (sdelay 3) with 1%nat.
    assert (T : trim [0; 0; 1] = [1]).
    { cbn [trim]. destruct (Req_EM_T 0 0) as [_|H]; [reflexivity|elim H; reflexivity]. }
    rewrite T. cbn [trim]. cbn -[Rplus Rmult Rdiv Rinv IZR]. field.
  - cbn -[Rplus Rmult Rdiv Rinv IZR]. ring.
Qed.

(** Coefficients, delays and values of a case. *)
Example C88_case :
  (forall noise rms seed k, (1 <= k < 5)%nat ->
     nth k (filt_noise noise [] [1; 2; 1] rms seed 5) 0
     = rms * noise seed (k + 1)%nat + 2 * (rms * noise seed k) + rms * noise seed (k - 1)%nat)
  /\ map sdelay [1; 2; 3; 4; 5; 6; 7]%nat = [0; 0; 1; 2; 2; 2; 3]%nat.
Proof.
  split; [|reflexivity]. intros noise rms seed k Hk.
  rewrite (C88_centred noise [1; 2; 1] rms seed 5 1 k); [|cbn; lra|reflexivity|lia].
  cbn [Nat.mul Nat.add rsumn nth]. rewrite Nat.sub_0_r. replace (k + 1 - 1)%nat with k by lia.
  replace (k + 1 - 2)%nat with (k - 1)%nat by lia. ring.
Qed.

(* ------------------------------------------------------------------ *)
(** * C89 *)

(** The up-sampled signal has factor times the samples, the original ones among
    them. *)
Theorem C89_keeps :
  forall factor (s : list R),
    length (usignal factor s) = (factor * length s)%nat
    /\ ((0 < factor)%nat -> forall k, (k < length s)%nat -> nth (factor * k) (usignal factor s) 0 = nth k s 0).
Proof.
  intros factor s. split; [unfold usignal; now rewrite map_length, seq_length|].
  intros Hf k Hk. rewrite usignal_nth by nia. now apply resample_keeps.
Qed.

(** A sine below half the sampling frequency whose periods fill the signal is
    delivered as the sine at the higher sampling frequency.  Missing: other
    frequencies (C89_sine_refuted). *)
Theorem C89_sine_partial :
  forall amplitude freq phase fs num factor m,
    0 < fs -> (0 < m)%nat -> (2 * m < num)%nat -> freq * INR num = INR m * fs -> (0 < factor)%nat ->
    usignal factor (sine amplitude freq phase fs num)
    = sine amplitude freq phase (INR factor * fs) (factor * num).
Proof.
  intros A freq phi fs N f m Hfs Hm HN Hper Hf.
  assert (L : length (sine A freq phi fs N) = N) by (unfold sine; now rewrite map_length, seq_length).
  assert (HNR : INR N <> 0) by (apply not_0_INR; lia). assert (HfR : INR f <> 0) by (apply not_0_INR; lia).
  assert (EF : freq = INR m * fs / INR N) by (rewrite <- Hper; field; assumption).
  apply nth_ext with (d := 0) (d' := 0).
  - unfold usignal, sine. now rewrite !map_length, !seq_length.
  - intros j Hj. unfold usignal in Hj. rewrite map_length, seq_length, L in Hj.
    rewrite usignal_nth by now rewrite L. rewrite L.
    assert (NS : forall fs N k, (k < N)%nat -> nth k (sine A freq phi fs N) 0 = A * sin (2 * PI * freq * (INR k / fs) + phi)).
    { intros fs' N' k Hk. unfold sine. set (g := fun k => A * sin (2 * PI * freq * (INR k / fs') + phi)).
      rewrite (nth_indep _ 0 (g 0%nat)) by now rewrite map_length, seq_length. rewrite map_nth. now rewrite seq_nth. }
    rewrite NS by assumption.
    rewrite (resample_ext N _ _ (fun k => A * sin (2 * PI * INR (m * k) / INR N + phi))).
    + destruct (Nat.eq_dec f 1) as [->|].
      * rewrite Nat.mul_1_l in *. transitivity (resample N (1 * N) (fun k => A * sin (2 * PI * INR (m * k) / INR N + phi)) (1 * j)).
        { now rewrite !Nat.mul_1_l. }
        rewrite resample_keeps by lia. f_equal. f_equal. f_equal. rewrite EF, mult_INR. change (INR 1) with 1. field. lra.
      * rewrite sine_up by lia. f_equal. f_equal. f_equal. rewrite EF, !mult_INR. field. lra.
    + intros k Hk. rewrite NS by assumption. f_equal. f_equal. f_equal. rewrite EF, mult_INR. field. lra.
Qed.

(** Half a period: between the samples the sine is not met. *)
Theorem C89_sine_refuted :
  exists amplitude freq phase fs num factor, 0 < fs /\ 2 * freq < fs /\ (0 < factor)%nat
    /\ usignal factor (sine amplitude freq phase fs num)
       <> sine amplitude freq phase (INR factor * fs) (factor * num).
Proof.
  exists 1, 1, 0, 4, 2%nat, 2%nat. split; [lra|]. split; [lra|]. split; [lia|]. intros H.
  apply (f_equal (fun l => nth 1 l 0)) in H.
  assert (S : sine 1 1 0 4 2 = [0; 1]).
  { unfold sine. cbn [seq map]. change (INR 0) with 0. change (INR 1) with 1.
    replace (2 * PI * 1 * (0 / 4) + 0) with 0 by field. replace (2 * PI * 1 * (1 / 4) + 0) with (PI / 2) by field.
    rewrite sin_0, sin_PI2. f_equal; [ring|]. f_equal. ring. }
  rewrite S in H. rewrite usignal_nth in H by (cbn; lia).
  assert (V : nth 1 (sine 1 1 0 (INR 2 * 4) (2 * 2)) 0 = sin (PI / 4)).
  { unfold sine. cbn [Nat.mul Nat.add seq map nth]. change (INR 1) with 1. change (INR 2) with 2.
    replace (2 * PI * 1 * (1 / (2 * 4)) + 0) with (PI / 4) by field. ring. }
  rewrite V in H.
  assert (U : resample 2 (2 * 2) (fun k => nth k [0; 1] 0) 1 * INR 2 = 1).
  { rewrite resample_up by lia. change (2 / 2)%nat with 1%nat. cbn [rsumn Nat.add Nat.mul Nat.eqb].
    unfold rfft, dft. cbn [csum nth Nat.mul Nat.add].
    assert (W0 : w 2 0 = C1) by apply w_0.
    assert (W1 : w 2 1 = RtoC (-1)).
    { unfold w. change (INR 1) with 1. change (INR 2) with 2. replace (2 * PI * 1 / 2) with PI by field.
      unfold cexp. now rewrite cos_PI, sin_PI. }
    assert (W4 : w 4 1 = Ci).
    { unfold w. change (INR 1) with 1. replace (INR 4) with 4 by (cbn; lra). replace (2 * PI * 1 / 4) with (PI / 2) by field.
      unfold cexp. now rewrite cos_PI2, sin_PI2. }
    rewrite ?W0, ?W1, ?W4. unfold re, Cmul, Cadd, Conj, RtoC, C0, C1, Ci. cbn [fst snd]. ring. }
  change (length [0; 1]) with 2%nat in H. rewrite H in U. change (INR 2) with 2 in U.
  rewrite sin_PI4 in U. assert (Q : sqrt 2 * sqrt 2 = 2) by (apply sqrt_sqrt; lra).
  assert (P : sqrt 2 <> 0) by (intros Z; rewrite Z in Q; lra).
  assert (U2 : sqrt 2 = 2). { apply (f_equal (fun x => x * sqrt 2)) in U. replace (1 / sqrt 2 * 2 * sqrt 2) with 2 in U by (field; assumption). lra. }
  rewrite U2 in Q. lra.
Qed.

(** Five samples, two periods, tripled. *)
Example C89_case :
  usignal 3 (sine 2 20 1 50 5) = sine 2 20 1 (3 * 50) 15.
Proof.
  replace (3 * 50) with (INR 3 * 50) by (cbn; lra). apply (C89_sine_partial 2 20 1 50 5 3 2); try lia; cbn; lra.
Qed.

Print Assumptions C88_filter_partial.
Print Assumptions C88_prefix.
Print Assumptions C88_empty.
Print Assumptions C88_centred.
Print Assumptions C88_leading_refuted.
Print Assumptions C89_keeps.
Print Assumptions C89_sine_partial.
Print Assumptions C89_sine_refuted.
