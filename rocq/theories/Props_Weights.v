(** Time and frequency weighting, octave filters (tprocess.py:1442-1769).
    Claims C94, C95, C96. *)
From Coq Require Import List Arith Lia ZArith Bool Reals Lra.
From Verif Require Import Traits Stream Sources Cplx BlockOps Response Weights.
Import ListNotations.
Local Open Scope R_scope.

(* ------------------------------------------------------------------ *)
(** ** C94: TimeExpAverage *)

(** The time constants of IEC 61672-1, in seconds. *)
Definition iec_constant (t : time_weight) : R := match t with Fast => 1 / 8 | Slow => 1 | Impulse => 35 / 1000 end.
Lemma iec_constant_ok t : time_constant t = iec_constant t.
Proof. destruct t; unfold time_constant, iec_constant; lra. Qed.

Lemma channel_nth c s n : (n < length s)%nat -> nth n (channel c s) 0 = nth c (nth n s []) 0.
Proof.
  intros H. unfold channel. rewrite (nth_indep _ 0 ((fun r => nth c r 0) [])) by (now rewrite map_length).
  now rewrite (map_nth (fun r : list R => nth c r 0)).
Qed.

(** Every output value is the average of the past values with exponentially
    decaying weights, whatever the block size. *)
Theorem C94_average : forall (t : time_weight) (fs : R) (nch : nat) (src : source (list R)) s,
  0 < fs -> wf_source src s -> Forall (fun r => length r = nch) s ->
  let decay k := exp (- (INR k / (iec_constant t * fs))) in
  exists out, wf_source (time_exp_average_result t fs nch src) out /\ length out = length s
    /\ forall n c, (n < length s)%nat -> (c < nch)%nat ->
         nth c (nth n out []) 0 = (1 - decay 1%nat) * rsumn (S n) (fun k => decay (n - k)%nat * nth c (nth k s []) 0).
Proof.
  intros t fs nch src s Hf Hw Hs decay. destruct (filter_spec (exp_average_sos t fs) nch src s Hw Hs) as (out & W & (L & _ & F) & _).
  exists out. split; [exact W|]. split; [exact L|]. intros n c Hn Hc.
  destruct (F c Hc) as (y & Hy & Hcas). cbn [cascade] in Hcas. subst y.
  assert (D : forall k, decay k = (1 - exp_alpha t fs) ^ k).
  { intros k. rewrite exp_pow by exact Hf. unfold decay. now rewrite iec_constant_ok. }
  rewrite <- channel_nth by lia.
  rewrite (one_pole (mkSec (exp_alpha t fs) 0 0 (exp_alpha t fs - 1) 0) (1 - exp_alpha t fs) (channel c s) (channel c out) eq_refl eq_refl ltac:(cbn [a1]; ring) eq_refl Hy n) by (unfold channel; rewrite map_length; exact Hn).
  cbn [b0]. rewrite D, pow_1. replace (1 - (1 - exp_alpha t fs)) with (exp_alpha t fs) by ring. f_equal.
  apply rsumn_ext. intros k Hk. rewrite D. rewrite channel_nth by lia. reflexivity.
Qed.
Print Assumptions C94_average.

Lemma decay_sum (d : nat -> R) q n : (forall k, d k = q ^ k) -> (1 - q) * rsumn (S n) (fun k => d (n - k)%nat) = 1 - q ^ (S n).
Proof.
  intros D. induction n as [|n IH].
  - cbn. rewrite D. cbn. ring.
  - change (rsumn (S (S n)) (fun k => d (S n - k)%nat)) with (rsumn (S n) (fun k => d (S n - k)%nat) + d (S n - S n)%nat).
    rewrite (rsumn_ext (S n) (fun k => d (S n - k)%nat) (fun k => q * d (n - k)%nat)).
    2: { intros k Hk. rewrite !D. replace (S n - k)%nat with (S (n - k)) by lia. cbn [pow]. ring. }
    rewrite rsumn_scal, Nat.sub_diag, D. cbn [pow] in *.
    replace ((1 - q) * (q * rsumn (S n) (fun k => d (n - k)%nat) + 1)) with (q * ((1 - q) * rsumn (S n) (fun k => d (n - k)%nat)) + (1 - q)) by ring.
    rewrite IH. ring.
Qed.

(** A constant that begins with the stream is approached with the time constant:
    after one time constant the output is 1 - 1/e of it. *)
Theorem C94_step : forall (t : time_weight) (fs level : R) (nch : nat) (src : source (list R)) s,
  0 < fs -> wf_source src s -> Forall (fun r => length r = nch) s ->
  forall c, (c < nch)%nat -> (forall n, (n < length s)%nat -> nth c (nth n s []) 0 = level) ->
  exists out, wf_source (time_exp_average_result t fs nch src) out /\ length out = length s
    /\ forall n, (n < length s)%nat ->
         nth c (nth n out []) 0 = level * (1 - exp (- (INR (n + 1) / fs / iec_constant t))).
Proof.
  intros t fs level nch src s Hf Hw Hs c Hc Hl. destruct (C94_average t fs nch src s Hf Hw Hs) as (out & W & L & H). cbv zeta in H.
  exists out. split; [exact W|]. split; [exact L|]. intros n Hn. rewrite (H n c Hn Hc).
  assert (Ht : iec_constant t <> 0) by (destruct t; unfold iec_constant; lra).
  set (d := fun k => exp (- (INR k / (iec_constant t * fs)))).
  rewrite (rsumn_ext (S n) _ (fun k => level * d (n - k)%nat)) by (intros k Hk; rewrite Hl by lia; unfold d; ring).
  rewrite rsumn_scal. change (exp (- (INR 1 / (iec_constant t * fs)))) with (d 1%nat).
  assert (D : forall k, d k = d 1%nat ^ k).
  { induction k as [|k IH]; [unfold d; cbn [INR pow]; rewrite <- exp_0; f_equal; field; lra|].
    cbn [pow]. rewrite <- IH. unfold d. rewrite <- exp_plus. f_equal. rewrite S_INR. cbn [INR]. field. lra. }
  replace ((1 - d 1%nat) * (level * rsumn (S n) (fun k => d (n - k)%nat))) with (level * ((1 - d 1%nat) * rsumn (S n) (fun k => d (n - k)%nat))) by ring.
  rewrite (decay_sum d (d 1%nat) n D), <- D. unfold d. f_equal. f_equal. f_equal. f_equal.
  replace (n + 1)%nat with (S n) by lia. field. lra.
Qed.
Print Assumptions C94_step.

(** When the input is silent from sample [m] on, the output decays with the time
    constant. *)
Theorem C94_decay : forall (t : time_weight) (fs : R) (nch : nat) (src : source (list R)) s,
  0 < fs -> wf_source src s -> Forall (fun r => length r = nch) s ->
  forall c m, (c < nch)%nat -> (0 < m)%nat -> (forall n, (m <= n < length s)%nat -> nth c (nth n s []) 0 = 0) ->
  exists out, wf_source (time_exp_average_result t fs nch src) out /\ length out = length s
    /\ forall n, (m <= n < length s)%nat ->
         nth c (nth n out []) 0 = nth c (nth (m - 1) out []) 0 * exp (- (INR (n - (m - 1)) / fs / iec_constant t)).
Proof.
  intros t fs nch src s Hf Hw Hs c m Hc Hm Hz. destruct (C94_average t fs nch src s Hf Hw Hs) as (out & W & L & H). cbv zeta in H.
  exists out. split; [exact W|]. split; [exact L|]. intros n Hn. rewrite (H n c) by lia. rewrite (H (m - 1)%nat c) by lia.
  assert (Ht : iec_constant t <> 0) by (destruct t; unfold iec_constant; lra).
  replace (S (m - 1)) with m by lia. replace (S n) with (m + (S n - m))%nat by lia. rewrite rsumn_split.
  rewrite (rsumn_0 (S n - m)) by (intros k Hk; rewrite Hz by lia; ring). rewrite Rplus_0_r.
  set (e := exp (- (INR (n - (m - 1)) / fs / iec_constant t))).
  rewrite Rmult_assoc. f_equal. rewrite (Rmult_comm (rsumn m _) e), <- rsumn_scal. apply rsumn_ext. intros k Hk.
  rewrite <- Rmult_assoc. f_equal. unfold e. rewrite <- exp_plus. f_equal.
  replace (n - k)%nat with (n - (m - 1) + (m - 1 - k))%nat by lia. rewrite plus_INR. field. lra.
Qed.
Print Assumptions C94_decay.

(** The output stays within the range of the input (zero included: the filter
    starts at rest). *)
Theorem C94_bounds : forall (t : time_weight) (fs lo hi : R) (nch : nat) (src : source (list R)) s,
  0 < fs -> wf_source src s -> Forall (fun r => length r = nch) s ->
  forall c, (c < nch)%nat -> lo <= 0 <= hi -> (forall n, (n < length s)%nat -> lo <= nth c (nth n s []) 0 <= hi) ->
  exists out, wf_source (time_exp_average_result t fs nch src) out /\ length out = length s
    /\ forall n, (n < length s)%nat -> lo <= nth c (nth n out []) 0 <= hi.
Proof.
  intros t fs lo hi nch src s Hf Hw Hs c Hc H0 Hb. destruct (C94_average t fs nch src s Hf Hw Hs) as (out & W & L & H). cbv zeta in H.
  exists out. split; [exact W|]. split; [exact L|]. intros n Hn. rewrite (H n c Hn Hc).
  assert (Ht : 0 < iec_constant t) by (destruct t; unfold iec_constant; lra).
  set (d := fun k => exp (- (INR k / (iec_constant t * fs)))).
  assert (D : forall k, d k = d 1%nat ^ k).
  { induction k as [|k IH]; [unfold d; cbn [INR pow]; rewrite <- exp_0; f_equal; field; lra|].
    cbn [pow]. rewrite <- IH. unfold d. rewrite <- exp_plus. f_equal. rewrite S_INR. cbn [INR]. field. lra. }
  assert (D1 : 0 < d 1%nat < 1).
  { split; [apply exp_pos|]. unfold d. rewrite <- exp_0. apply exp_increasing.
    assert (0 < INR 1 / (iec_constant t * fs)); [|lra]. cbn [INR]. apply Rdiv_lt_0_compat; [lra|]. now apply Rmult_lt_0_compat. }
  pose proof (decay_sum d (d 1%nat) n D) as Sum.
  assert (P : 0 < d 1%nat ^ S n) by (apply pow_lt; lra). assert (P1 : d 1%nat ^ S n < 1) by (apply pow_lt_1_compat; [lra|lia]).
  change (exp (- (INR 1 / (iec_constant t * fs)))) with (d 1%nat).
  assert (Lo : lo * rsumn (S n) (fun k => d (n - k)%nat) <= rsumn (S n) (fun k => d (n - k)%nat * nth c (nth k s []) 0)).
  { rewrite <- rsumn_scal. apply rsumn_le. intros k Hk. pose proof (Hb k ltac:(lia)). assert (0 < d (n - k)%nat) by apply exp_pos. nra. }
  assert (Hi : rsumn (S n) (fun k => d (n - k)%nat * nth c (nth k s []) 0) <= hi * rsumn (S n) (fun k => d (n - k)%nat)).
  { rewrite <- rsumn_scal. apply rsumn_le. intros k Hk. pose proof (Hb k ltac:(lia)). assert (0 < d (n - k)%nat) by apply exp_pos. nra. }
  fold (d 1%nat). set (S0 := rsumn (S n) (fun k => d (n - k)%nat)) in *.
  change (rsumn (S n) (fun k => exp (- (INR (n - k) / (iec_constant t * fs))) * nth c (nth k s []) 0)) with (rsumn (S n) (fun k => d (n - k)%nat * nth c (nth k s []) 0)).
  set (X := rsumn (S n) (fun k => d (n - k)%nat * nth c (nth k s []) 0)) in *.
  split.
  - assert ((1 - d 1%nat) * (lo * S0) <= (1 - d 1%nat) * X) by (apply Rmult_le_compat_l; lra).
    replace ((1 - d 1%nat) * (lo * S0)) with (lo * ((1 - d 1%nat) * S0)) in * by ring. rewrite Sum in *. nra.
  - assert ((1 - d 1%nat) * X <= (1 - d 1%nat) * (hi * S0)) by (apply Rmult_le_compat_l; lra).
    replace ((1 - d 1%nat) * (hi * S0)) with (hi * ((1 - d 1%nat) * S0)) in * by ring. rewrite Sum in *. nra.
Qed.
Print Assumptions C94_bounds.

(** Hypotheses met: a source of two samples, one channel. *)
Example C94_case :
  let s := [[3]; [3]] in
  let src := time_samples_result Rmult 2 s None in
  wf_source src s /\ Forall (fun r => length r = 1%nat) s
  /\ exists out, wf_source (time_exp_average_result Slow 1 1 src) out
     /\ nth 0 (nth 0 out []) 0 = 3 * (1 - exp (-1)).
Proof.
  intros s src. assert (W : wf_source src s) by (intros num Hn; apply time_samples_delivers; auto; discriminate).
  assert (F : Forall (fun r => length r = 1%nat) s) by (repeat constructor).
  split; [exact W|]. split; [exact F|].
  destruct (C94_step Slow 1 3 1 src s ltac:(lra) W F 0%nat ltac:(lia)) as (out & A & _ & B).
  { intros n Hn. destruct n as [|[|n]]; [reflexivity|reflexivity|cbn in Hn; lia]. }
  exists out. split; [exact A|]. rewrite (B 0%nat ltac:(cbn; lia)). cbn [Nat.add INR iec_constant].
  f_equal. f_equal. f_equal. field.
Qed.

(* ------------------------------------------------------------------ *)
(** ** C95: response of filters to harmonic signals; FiltFreqWeight *)

Lemma polar z : exists psi, z = Cmul (RtoC (Cabs z)) (cexp psi).
Proof.
  assert (z = C0 \/ z <> C0) as [->|Hz].
  { destruct z as [x y]. destruct (Req_EM_T x 0) as [->|]; [destruct (Req_EM_T y 0) as [->|]|]; [now left| |]; right; intros E; injection E; intros; lra. }
  { exists 0. rewrite Cabs_0. change (RtoC 0) with C0. ring. }
  pose proof (Cabs_pos z Hz) as P. pose proof (Cabs_sqr z) as Q. destruct z as [x y]. set (r := Cabs (x, y)) in *. unfold norm2 in Q. cbn [fst snd] in Q.
  assert (N : x / r * (x / r) + y / r * (y / r) = 1) by (rewrite <- (Rinv_r (r * r)) by nra; rewrite Q at 1; field; lra).
  assert (B : -1 <= x / r <= 1) by nra.
  assert (C : cos (acos (x / r)) = x / r) by (apply cos_acos; exact B).
  assert (S : sin (acos (x / r)) = sqrt ((y / r) * (y / r))).
  { rewrite sin_acos by exact B. f_equal. unfold Rsqr. lra. }
  assert (X : x = r * (x / r)) by (field; lra). assert (Y : y = r * (y / r)) by (field; lra).
  destruct (Rle_dec 0 (y / r)) as [H|H].
  - exists (acos (x / r)). unfold cexp. rewrite C, S, sqrt_square by exact H. apply C_ext; cbn [RtoC Cmul fst snd]; lra.
  - exists (- acos (x / r)). unfold cexp. rewrite cos_neg, sin_neg, C, S.
    replace (y / r * (y / r)) with (- (y / r) * - (y / r)) by ring. rewrite sqrt_square by lra. apply C_ext; cbn [RtoC Cmul fst snd]; lra.
Qed.

(** Every Filter whose poles lie inside the unit circle answers a harmonic signal
    with a harmonic signal of the same frequency, its amplitude multiplied with the
    magnitude of the transfer function; the transient decays exponentially. *)
Theorem C95_response : forall (sos : list section) (omega amp phi : R), stable sos ->
  exists psi K rho, 0 <= K /\ 0 < rho < 1
    /\ transfer sos (cexp (- omega)) = Cmul (RtoC (Cabs (transfer sos (cexp (- omega))))) (cexp psi)
    /\ forall nch (src : source (list R)) s c, wf_source src s -> Forall (fun r => length r = nch) s -> (c < nch)%nat ->
         (forall n, (n < length s)%nat -> nth c (nth n s []) 0 = amp * cos (omega * INR n + phi)) ->
         exists out, wf_source (filter_result sos nch src) out /\ length out = length s
           /\ forall n, (n < length s)%nat ->
                Rabs (nth c (nth n out []) 0 - Cabs (transfer sos (cexp (- omega))) * amp * cos (omega * INR n + phi + psi)) <= K * rho ^ n.
Proof.
  intros sos omega amp phi Hs. destruct (polar (transfer sos (cexp (- omega)))) as [psi Hp].
  destruct (steady_cascade sos omega (Cmul (RtoC amp) (cexp phi)) 0 (1 / 2) Hs ltac:(lra) ltac:(lra)) as (K & rho & HK & Hr & B).
  exists psi, K, rho. split; [exact HK|]. split; [exact Hr|]. split; [exact Hp|].
  intros nch src s c Hw Hf Hc Hx. destruct (filter_spec sos nch src s Hw Hf) as (out & W & (L & _ & F) & _).
  exists out. split; [exact W|]. split; [exact L|]. intros n Hn.
  assert (Hh : forall a m, harmonic (Cmul (RtoC a) (cexp phi)) omega m = a * cos (omega * INR m + phi)).
  { intros a m. unfold harmonic. replace (Cmul (Cmul (RtoC a) (cexp phi)) (cexp (omega * INR m))) with (Cmul (RtoC a) (cexp (omega * INR m + phi))) by (rewrite cexp_add; ring).
    rewrite re_RtoC_mul. reflexivity. }
  destruct (B (channel c s) (channel c out) (F c Hc)) as [_ B'].
  { intros m Hm. unfold channel in Hm. rewrite map_length in Hm. rewrite channel_nth, Hx, Hh by exact Hm.
    replace (amp * cos (omega * INR m + phi) - amp * cos (omega * INR m + phi)) with 0 by ring. rewrite Rabs_R0. lra. }
  specialize (B' n). unfold channel in B' at 1. rewrite map_length in B'. specialize (B' Hn). rewrite channel_nth in B' by lia.
  replace (Cabs (transfer sos (cexp (- omega))) * amp * cos (omega * INR n + phi + psi)) with
    (harmonic (Cmul (transfer sos (cexp (- omega))) (Cmul (RtoC amp) (cexp phi))) omega n); [exact B'|].
  rewrite Hp at 1. unfold harmonic.
  replace (Cmul (Cmul (Cmul (RtoC (Cabs (transfer sos (cexp (- omega))))) (cexp psi)) (Cmul (RtoC amp) (cexp phi))) (cexp (omega * INR n)))
    with (Cmul (RtoC (Cabs (transfer sos (cexp (- omega))) * amp)) (cexp (omega * INR n + phi + psi))).
  - rewrite re_RtoC_mul. reflexivity.
  - rewrite !cexp_add, RtoC_mul. ring.
Qed.
Print Assumptions C95_response.

(** Nominal weightings of IEC 61672-1 as amplitude factors. *)
Definition nominal_A (f : R) : R :=
  Rpower 10 (1.9997 / 20) * (12194.217 ^ 2 * f ^ 4)
  / ((f ^ 2 + 20.598997 ^ 2) * (f ^ 2 + 12194.217 ^ 2) * sqrt (f ^ 2 + 107.65265 ^ 2) * sqrt (f ^ 2 + 737.86223 ^ 2)).
Definition nominal_C (f : R) : R :=
  Rpower 10 (0.0619 / 20) * (12194.217 ^ 2 * f ^ 2) / ((f ^ 2 + 20.598997 ^ 2) * (f ^ 2 + 12194.217 ^ 2)).
Definition nominal_weight (wt : freq_weight) : R -> R := match wt with WA => nominal_A | WC => nominal_C | WZ => fun _ => 1 end.

Lemma nominal_iec wt f : iec_gain wt f = nominal_weight wt f.
Proof. destruct wt; reflexivity. Qed.

(** The gain at a frequency below half the sampling frequency is the nominal gain
    at the frequency warped by the bilinear transform. *)
Theorem C95_weight_partial : forall (wt : freq_weight) (fs f amp phi : R) (sos : list section),
  wt = WA \/ wt = WC -> 0 < fs -> 0 <= f < fs / 2 -> sections_of (weight_coefficients wt fs) sos ->
  exists psi K rho, 0 <= K /\ 0 < rho < 1
    /\ forall nch (src : source (list R)) s c, wf_source src s -> Forall (fun r => length r = nch) s -> (c < nch)%nat ->
         (forall n, (n < length s)%nat -> nth c (nth n s []) 0 = amp * cos (2 * PI * f / fs * INR n + phi)) ->
         exists out, wf_source (filter_result sos nch src) out /\ length out = length s
           /\ forall n, (n < length s)%nat ->
                Rabs (nth c (nth n out []) 0
                      - nominal_weight wt (fs / PI * tan (PI * f / fs)) * amp * cos (2 * PI * f / fs * INR n + phi + psi)) <= K * rho ^ n.
Proof.
  intros wt fs f amp phi sos Hw Hf Hr Hsos.
  destruct (C95_response sos (2 * PI * f / fs) amp phi (weight_stable wt fs sos Hf Hsos)) as (psi & K & rho & HK & Hrho & _ & H).
  assert (Hz : wt <> WZ) by (destruct Hw; congruence).
  rewrite (weight_gain wt fs sos f Hf Hz Hsos Hr), nominal_iec in H. exists psi, K, rho. auto.
Qed.
Print Assumptions C95_weight_partial.

(** The nominal gain is met at every frequency: false.  A signal at half the
    sampling frequency is removed, although the nominal gain is not zero. *)
Theorem C95_nominal_refuted : forall (wt : freq_weight) (fs amp phi : R) (sos : list section),
  wt = WA \/ wt = WC -> 0 < fs -> sections_of (weight_coefficients wt fs) sos ->
  0 < nominal_weight wt (fs / 2)
  /\ exists K rho, 0 <= K /\ 0 < rho < 1
    /\ forall nch (src : source (list R)) s c, wf_source src s -> Forall (fun r => length r = nch) s -> (c < nch)%nat ->
         (forall n, (n < length s)%nat -> nth c (nth n s []) 0 = amp * cos (2 * PI * (fs / 2) / fs * INR n + phi)) ->
         exists out, wf_source (filter_result sos nch src) out /\ length out = length s
           /\ forall n, (n < length s)%nat -> Rabs (nth c (nth n out []) 0) <= K * rho ^ n.
Proof.
  intros wt fs amp phi sos Hw Hf Hsos. assert (Hz : wt <> WZ) by (destruct Hw; congruence). split.
  { assert (Hp : 0 < (fs / 2) ^ 2) by (apply pow_lt; lra). assert (Hq : 0 < (fs / 2) ^ 4) by (apply pow_lt; lra).
    assert (P : forall x, 0 < x -> 0 < (fs / 2) ^ 2 + x ^ 2) by (intros x Hx; pose proof (pow_lt x 2 Hx); lra).
    destruct wt; [| |congruence]; unfold nominal_weight, nominal_A, nominal_C; (apply Rdiv_lt_0_compat;
      [apply Rmult_lt_0_compat; [apply exp_pos|]; apply Rmult_lt_0_compat; [apply pow_lt; lra|assumption]|]).
    - apply Rmult_lt_0_compat; [apply Rmult_lt_0_compat; [apply Rmult_lt_0_compat|]|]; try apply sqrt_lt_R0; apply P; lra.
    - apply Rmult_lt_0_compat; apply P; lra. }
  destruct (C95_response sos PI amp phi (weight_stable wt fs sos Hf Hsos)) as (psi & K & rho & HK & Hrho & _ & H).
  rewrite (weight_nyquist wt fs sos Hf Hz Hsos), Cabs_0 in H. exists K, rho. split; [exact HK|]. split; [exact Hrho|].
  intros nch src s c W F Hc Hx. destruct (H nch src s c W F Hc) as (out & W' & L & B).
  { intros n Hn. rewrite Hx by exact Hn. replace (2 * PI * (fs / 2) / fs) with PI by (field; lra). reflexivity. }
  exists out. split; [exact W'|]. split; [exact L|]. intros n Hn. specialize (B n Hn).
  replace (nth c (nth n out []) 0 - 0 * amp * cos (PI * INR n + phi + psi)) with (nth c (nth n out []) 0) in B by ring. exact B.
Qed.
Print Assumptions C95_nominal_refuted.

(** 'Z' does not change the signal. *)
Theorem C95_flat : forall (fs : R) nch (src : source (list R)) s, wf_source src s -> Forall (fun r => length r = nch) s ->
  sections_of (weight_coefficients WZ fs) flat_sections /\ wf_source (filter_result flat_sections nch src) s.
Proof.
  intros fs nch src s W F. split; [apply flat_ok|]. destruct (filter_spec flat_sections nch src s W F) as (out & W' & (L & R & Hc) & _).
  replace s with out; [exact W'|]. apply (nth_ext _ _ [] [] L). intros n Hn.
  assert (Ln : length (nth n out []) = nch) by (rewrite Forall_forall in R; apply R, nth_In; exact Hn).
  assert (Ls : length (nth n s []) = nch) by (rewrite Forall_forall in F; apply F, nth_In; lia).
  apply (nth_ext _ _ 0 0); [congruence|]. intros c Hcc. rewrite <- !channel_nth by lia. f_equal. apply flat_cascade. apply Hc. lia.
Qed.
Print Assumptions C95_flat.

(** Hypotheses met: sections of the A weighting exist for every sampling frequency. *)
Example C95_case : exists sos, sections_of (weight_coefficients WA 48000) sos /\ length sos = 3%nat /\ stable sos.
Proof.
  exists (a_sections 48000). pose proof (a_sections_ok 48000 ltac:(lra)) as H. split; [exact H|]. split; [reflexivity|].
  apply (weight_stable WA 48000); [lra|exact H].
Qed.

(* ------------------------------------------------------------------ *)
(** ** C96: octave and third-octave filters *)

(** Width of a band relative to its centre, and the ratio of power bandwidth and
    distance of the edges of a Butterworth band pass of the given order. *)
Definition per_octave (fr : fraction) : R := match fr with Octave => 1 | ThirdOctave => 3 end.
Definition upper_of (fr : fraction) (band : R) : R := band * Rpower 2 (1 / (2 * per_octave fr)).
Definition lower_of (fr : fraction) (band : R) : R := band / Rpower 2 (1 / (2 * per_octave fr)).
Definition butterworth_ratio (order : nat) : R := (PI / (2 * INR order)) / sin (PI / (2 * INR order)).

Lemma per_octave_ok fr : fraction_ fr = per_octave fr. Proof. now destruct fr. Qed.

(** FiltOctave accepts every band up to half the sampling frequency over sqrt 2.  The
    edges given to butter are admissible, centred at the band, inside the band, and
    such that the power bandwidth is the width of the band. *)
Theorem C96_edges : forall (butter_bandpass : nat -> R -> R -> list section) (fr : fraction) (order : nat) (band fs : R),
  (0 < order)%nat -> 0 < fs -> 0 < band -> band <= fs / 2 / sqrt 2 ->
  exists f1 f2,
    filt_octave_sos butter_bandpass fr order band fs = inl (butter_bandpass order (f1 / (fs / 2)) (f2 / (fs / 2)))
    /\ lower_of fr band < f1 /\ f1 < band /\ band < f2 /\ f2 < upper_of fr band /\ f2 < fs / 2
    /\ f1 * f2 = band ^ 2
    /\ (f2 - f1) * butterworth_ratio order = upper_of fr band - lower_of fr band.
Proof.
  intros bb fr order band fs Ho Hf Hb Hr. destruct (octave_alpha_spec fr order Ho) as (A1 & A2 & A3). cbv zeta in A2, A3.
  destruct (width_pos fr) as (W1 & W2 & W3). cbv zeta in W1, W2, W3. rewrite per_octave_ok in *.
  set (a := octave_alpha fr order) in *. set (a0 := Rpower 2 (1 / (2 * per_octave fr))) in *.
  assert (S2 : 0 < sqrt 2) by (apply sqrt_lt_R0; lra).
  assert (Hr' : band * sqrt 2 <= fs / 2).
  { apply Rmult_le_compat_r with (r := sqrt 2) in Hr; [|lra]. replace (fs / 2 / sqrt 2 * sqrt 2) with (fs / 2) in Hr by (field; lra). exact Hr. }
  exists (band / a), (band * a). unfold filt_octave_sos, octave_design, butter. fold a.
  destruct (Nat.eqb_spec order 0); [lia|]. cbv zeta.
  assert (F2 : band * a < fs / 2) by nra.
  assert (Hdiv : forall x y, y <> 0 -> x / y * y = x) by (intros; field; assumption).
  assert (E2 : 2 * band / fs * a = band * a / (fs / 2)) by (field; lra).
  assert (E1 : 2 * band / fs / a = band / a / (fs / 2)) by (field; lra).
  destruct (Rlt_dec (1 / sqrt 2) (2 * band / fs)) as [H|_].
  { exfalso. apply Rmult_lt_compat_r with (r := sqrt 2 * fs) in H; [|nra].
    replace (1 / sqrt 2 * (sqrt 2 * fs)) with fs in H by (field; lra). replace (2 * band / fs * (sqrt 2 * fs)) with (2 * (band * sqrt 2)) in H by (field; lra). lra. }
  rewrite E1, E2.
  assert (P1 : 0 < band / a) by (apply Rdiv_lt_0_compat; lra).
  destruct (Rlt_dec 0 (band / a / (fs / 2))) as [_|H]; [|exfalso; apply H, Rdiv_lt_0_compat; lra].
  destruct (Rlt_dec (band * a / (fs / 2)) 1) as [_|H].
  2: { exfalso. apply H. apply Rmult_lt_reg_r with (fs / 2); [lra|]. rewrite Hdiv by lra. lra. }
  split; [reflexivity|]. unfold lower_of, upper_of. fold a0.
  split; [apply Rmult_lt_compat_l; [exact Hb|]; apply Rinv_lt_contravar; nra|].
  split; [apply Rmult_lt_reg_r with a; [lra|]; rewrite Hdiv by lra; nra|].
  split; [nra|]. split; [nra|]. split; [exact F2|]. split; [field; lra|].
  unfold butterworth_ratio. replace (band * a - band / a) with (band * (a - 1 / a)) by (field; lra).
  rewrite Rmult_assoc, A2. field. lra.
Qed.
Print Assumptions C96_edges.

(** Higher bands are refused. *)
Theorem C96_too_high : forall (butter_bandpass : nat -> R -> R -> list section) (fr : fraction) (order : nat) (band fs : R),
  (0 < order)%nat -> 0 < fs -> fs / 2 / sqrt 2 < band ->
  filt_octave_sos butter_bandpass fr order band fs = inr ValueError
  /\ filtfilt_octave_sos butter_bandpass fr order band fs = inr ValueError.
Proof.
  intros bb fr order band fs Ho Hf H. unfold filt_octave_sos, filtfilt_octave_sos, octave_design.
  destruct (Nat.eqb_spec order 0); [lia|]. cbv zeta.
  assert (S2 : 0 < sqrt 2) by (apply sqrt_lt_R0; lra).
  destruct (Rlt_dec (1 / sqrt 2) (2 * band / fs)) as [_|N]; [split; reflexivity|exfalso]. apply N.
  apply Rmult_lt_reg_r with (fs / 2); [lra|]. replace (2 * band / fs * (fs / 2)) with band by (field; lra).
  replace (1 / sqrt 2 * (fs / 2)) with (fs / 2 / sqrt 2) by (field; lra). exact H.
Qed.
Print Assumptions C96_too_high.

(** FiltFiltOctave: accepted exactly if both the limit and the upper edge allow it;
    third-octave bands are accepted up to the same limit as for FiltOctave.
    Missing in _partial: octave bands, see below. *)
Theorem C96_filtfilt_partial : forall (butter_bandpass : nat -> R -> R -> list section) (order : nat) (band fs : R),
  (0 < order)%nat -> 0 < fs -> 0 < band -> band <= fs / 2 / sqrt 2 ->
  exists f1 f2,
    filtfilt_octave_sos butter_bandpass ThirdOctave order band fs = inl (butter_bandpass order (f1 / (fs / 2)) (f2 / (fs / 2)))
    /\ 0 < f1 /\ f1 < band /\ band < f2 /\ f2 < fs / 2 /\ f1 * f2 = band ^ 2.
Proof.
  intros bb order band fs Ho Hf Hb Hr. destruct (octave_alpha_spec ThirdOctave order Ho) as (A1 & _ & A3). cbv zeta in A3.
  assert (S2 : 0 < sqrt 2) by (apply sqrt_lt_R0; lra).
  assert (Hr' : band * sqrt 2 <= fs / 2).
  { apply Rmult_le_compat_r with (r := sqrt 2) in Hr; [|lra]. replace (fs / 2 / sqrt 2 * sqrt 2) with (fs / 2) in Hr by (field; lra). exact Hr. }
  assert (Ht : Rpower 2 (1 / (2 * fraction_ ThirdOctave)) < 1.13).
  { rewrite <- (Rpower_1 1.13) at 1 by lra. replace 1 with (6 * (1 / (2 * fraction_ ThirdOctave))) at 2 by (unfold fraction_; lra).
    rewrite <- Rpower_mult. apply Rlt_Rpower_l; [unfold fraction_; lra|].
    split; [lra|]. replace 6 with (INR 6) by (cbn; lra). rewrite Rpower_pow by lra. lra. }
  assert (Q : 1.414 < sqrt 2) by (apply Rsqr_incrst_0; [rewrite Rsqr_sqrt by lra; unfold Rsqr; lra|lra|lra]).
  assert (K : 1 <= double_pass_factor order <= 1.083) by (unfold double_pass_factor; do 7 (destruct order as [|order]; [lra|]); lra).
  set (a := filtfilt_alpha ThirdOctave order).
  assert (Ha : 1 < a < sqrt 2).
  { unfold a, filtfilt_alpha. replace (3 / fraction_ ThirdOctave) with 1 by (unfold fraction_; lra). rewrite Rpower_1 by lra. nra. }
  exists (band / a), (band * a). unfold filtfilt_octave_sos, octave_design, butter. fold a.
  destruct (Nat.eqb_spec order 0); [lia|]. cbv zeta.
  assert (F2 : band * a < fs / 2) by nra.
  assert (Hdiv : forall x y, y <> 0 -> x / y * y = x) by (intros; field; assumption).
  assert (E2 : 2 * band / fs * a = band * a / (fs / 2)) by (field; lra).
  assert (E1 : 2 * band / fs / a = band / a / (fs / 2)) by (field; lra).
  destruct (Rlt_dec (1 / sqrt 2) (2 * band / fs)) as [H|_].
  { exfalso. apply Rmult_lt_compat_r with (r := sqrt 2 * fs) in H; [|nra].
    replace (1 / sqrt 2 * (sqrt 2 * fs)) with fs in H by (field; lra). replace (2 * band / fs * (sqrt 2 * fs)) with (2 * (band * sqrt 2)) in H by (field; lra). lra. }
  rewrite E1, E2.
  assert (P1 : 0 < band / a) by (apply Rdiv_lt_0_compat; lra).
  destruct (Rlt_dec 0 (band / a / (fs / 2))) as [_|H]; [|exfalso; apply H, Rdiv_lt_0_compat; lra].
  destruct (Rlt_dec (band * a / (fs / 2)) 1) as [_|H].
  2: { exfalso. apply H. apply Rmult_lt_reg_r with (fs / 2); [lra|]. rewrite Hdiv by lra. lra. }
  split; [reflexivity|]. split; [exact P1|].
  split; [apply Rmult_lt_reg_r with a; [lra|]; rewrite Hdiv by lra; nra|].
  split; [nra|]. split; [exact F2|]. field. lra.
Qed.
Print Assumptions C96_filtfilt_partial.

(** Octave bands with the default order: a band that passes the check has an upper
    edge above half the sampling frequency, which butter refuses. *)
Theorem C96_filtfilt_refuted : forall (butter_bandpass : nat -> R -> R -> list section) (fs : R), 0 < fs ->
  exists band, 0 < band /\ band <= fs / 2 / sqrt 2
    /\ filtfilt_octave_sos butter_bandpass Octave 2 band fs = inr ValueError
    /\ exists sos, filt_octave_sos butter_bandpass Octave 2 band fs = inl sos.
Proof.
  intros bb fs Hf. exists (0.353 * fs).
  assert (S2 : 0 < sqrt 2) by (apply sqrt_lt_R0; lra). assert (SS : sqrt 2 * sqrt 2 = 2) by (apply sqrt_sqrt; lra).
  assert (Q : sqrt 2 <= 1.415) by (apply Rsqr_incr_0; [rewrite Rsqr_sqrt by lra; unfold Rsqr; lra|lra|lra]).
  assert (L : 0.353 * fs <= fs / 2 / sqrt 2).
  { apply Rmult_le_reg_r with (sqrt 2); [lra|]. replace (fs / 2 / sqrt 2 * sqrt 2) with (fs / 2) by (field; lra). nra. }
  split; [lra|]. split; [exact L|]. split.
  2: { destruct (C96_edges bb Octave 2 (0.353 * fs) fs ltac:(lia) Hf ltac:(lra) L) as (f1 & f2 & E & _). eexists. exact E. }
  destruct (octave_alpha_spec Octave 2 ltac:(lia)) as (A1 & A2 & A3). cbv zeta in A2, A3.
  replace (Rpower 2 (1 / (2 * fraction_ Octave))) with (sqrt 2) in A2 by (rewrite <- Rpower_sqrt by lra; f_equal; unfold fraction_; lra).
  replace (PI / (2 * INR 2)) with (PI / 4) in A2 by (f_equal; cbn; lra).
  rewrite sin_PI4 in A2. pose proof PI_RGT_0 as P0. pose proof PI_4 as P4.
  set (a := octave_alpha Octave 2) in *.
  assert (A : (a - 1 / a) * PI = 2).
  { replace (a - 1 / a) with ((a - 1 / a) * (PI / 4 / (1 / sqrt 2)) * (4 / (PI * sqrt 2))).
    - rewrite A2. replace (sqrt 2 - 1 / sqrt 2) with (1 / sqrt 2).
      + replace (1 / sqrt 2 * (4 / (PI * sqrt 2)) * PI) with (4 / (sqrt 2 * sqrt 2)) by (field; lra). rewrite SS. field.
      + apply Rmult_eq_reg_r with (sqrt 2); [|lra]. replace (1 / sqrt 2 * sqrt 2) with 1 by (field; lra).
        replace ((sqrt 2 - 1 / sqrt 2) * sqrt 2) with (sqrt 2 * sqrt 2 - 1) by (field; lra). lra.
    - generalize (a - 1 / a). intros y. field. lra. }
  assert (B : 1.28 < a).
  { assert (I1 : 1 / a * a = 1) by (field; lra). set (y := 1 / a) in *. assert (0.5 <= a - y) by nra. nra. }
  unfold filtfilt_octave_sos, octave_design, butter. cbn [Nat.eqb]. cbv zeta.
  destruct (Rlt_dec (1 / sqrt 2) (2 * (0.353 * fs) / fs)) as [_|_]; [reflexivity|].
  destruct (Rlt_dec 0 _) as [_|_]; [|reflexivity].
  destruct (Rlt_dec (2 * (0.353 * fs) / fs * filtfilt_alpha Octave 2) 1) as [H|_]; [exfalso|reflexivity].
  assert (E : 2 * (0.353 * fs) / fs = 0.706).
  { apply Rmult_eq_reg_r with fs; [|lra]. unfold Rdiv at 1. rewrite (Rmult_assoc _ (/ fs) fs), Rinv_l by lra. lra. }
  rewrite E in H. revert H. unfold filtfilt_alpha. fold a.
  replace (3 / fraction_ Octave) with (INR 3) by (unfold fraction_; cbn; lra). unfold double_pass_factor. rewrite Rpower_pow by lra.
  replace (1.036 ^ 3) with 1.111934656 by lra. lra.
Qed.
Print Assumptions C96_filtfilt_refuted.

(** OctaveFilterBank: one filter per band, with the centres 10^(i/10) Hz. *)
Theorem C96_bank : forall (butter_bandpass : nat -> R -> R -> list section) (fr : fraction) (lband hband : Z) (fs : R),
  0 < fs -> (forall i, (lband <= i < hband)%Z -> Rpower 10 (IZR i / 10) <= fs / 2 / sqrt 2) ->
  exists l, octave_bank_sos butter_bandpass fr lband hband fs = inl l
    /\ length l = length (bank_bands fr lband hband)
    /\ (forall k, (lband + Z.of_nat k * (match fr with Octave => 3 | ThirdOctave => 1 end) < hband)%Z -> (k < length l)%nat)
    /\ forall k, (k < length l)%nat ->
         let i := (lband + Z.of_nat k * (match fr with Octave => 3 | ThirdOctave => 1 end))%Z in
         (lband <= i < hband)%Z /\ nth k (bank_bands fr lband hband) 0 = Rpower 10 (IZR i / 10)
         /\ filt_octave_sos butter_bandpass fr 3 (Rpower 10 (IZR i / 10)) fs = inl (nth k l []).
Proof.
  intros bb fr lb hb fs Hf Hall. set (st := (match fr with Octave => 3 | ThirdOctave => 1 end)%Z).
  assert (St : (1 <= st)%Z) by (unfold st; destruct fr; lia).
  set (n := Z.to_nat ((hb - lb + st - 1) / st)).
  assert (Hin : forall k, (k < n)%nat -> (lb <= lb + Z.of_nat k * st < hb)%Z).
  { intros k Hk. split; [nia|]. unfold n in Hk.
    assert (H : (Z.of_nat k + 1 <= (hb - lb + st - 1) / st)%Z) by lia.
    apply Z.mul_le_mono_nonneg_r with (p := st) in H; [|lia]. pose proof (Z.mul_div_le (hb - lb + st - 1) st ltac:(lia)). nia. }
  assert (Hb : bank_bands fr lb hb = map (fun k => Rpower 10 (IZR (lb + Z.of_nat k * st) / 10)) (seq 0 n)).
  { unfold bank_bands, bank_indices. fold st. fold n. rewrite map_map. apply map_ext. intros k. do 3 f_equal. ring. }
  assert (Hg : forall i, (lb <= i < hb)%Z -> exists s, filt_octave_sos bb fr 3 (Rpower 10 (IZR i / 10)) fs = inl s).
  { intros i Hi. destruct (C96_edges bb fr 3 (Rpower 10 (IZR i / 10)) fs ltac:(lia) Hf (exp_pos _) (Hall i Hi)) as (f1 & f2 & E & _). eexists; exact E. }
  set (g := fun i => match filt_octave_sos bb fr 3 (Rpower 10 (IZR i / 10)) fs with inl s => s | inr _ => [] end).
  exists (map (fun k => g (lb + Z.of_nat k * st)%Z) (seq 0 n)). split; [|split].
  - unfold octave_bank_sos, bank_indices. fold st. fold n.
    assert (G : forall m j, (forall k, (j <= k < j + m)%nat -> (k < n)%nat) ->
      fold_right (fun i acc => match filt_octave_sos bb fr 3 (Rpower 10 (IZR i / 10)) fs with
        | inr e => inr e | inl s => match acc with inl l => inl (s :: l) | inr e => inr e end end) (inl [])
        (map (fun k => lb + st * Z.of_nat k)%Z (seq j m)) = @inl _ exn (map (fun k => g (lb + Z.of_nat k * st)%Z) (seq j m))).
    { induction m as [|m IH]; intros j Hj; [reflexivity|]. cbn [seq map fold_right]. rewrite IH by (intros k Hk; apply Hj; lia).
      replace (lb + st * Z.of_nat j)%Z with (lb + Z.of_nat j * st)%Z by ring.
      destruct (Hg (lb + Z.of_nat j * st)%Z) as [s Es]; [apply Hin, Hj; lia|].
      replace (g (lb + Z.of_nat j * st)%Z) with s by (unfold g; now rewrite Es). rewrite Es. reflexivity. }
    apply G. intros k Hk. lia.
  - rewrite Hb, !map_length. reflexivity.
  - split; [intros k Hk; fold st in Hk; rewrite map_length, seq_length; unfold n;
      enough (Z.of_nat k + 1 <= (hb - lb + st - 1) / st)%Z by lia; apply Z.div_le_lower_bound; nia|].
    intros k Hk. rewrite map_length, seq_length in Hk. cbv zeta. split; [apply Hin; exact Hk|]. split.
    + rewrite Hb. rewrite (nth_indep _ 0 (Rpower 10 (IZR (lb + Z.of_nat 0 * st) / 10))) by (rewrite map_length, seq_length; exact Hk).
      rewrite (map_nth (fun k => Rpower 10 (IZR (lb + Z.of_nat k * st) / 10))), seq_nth by exact Hk. reflexivity.
    + rewrite (nth_indep _ [] (g (lb + Z.of_nat 0 * st)%Z)) by (rewrite map_length, seq_length; exact Hk).
      rewrite (map_nth (fun k => g (lb + Z.of_nat k * st)%Z)), seq_nth by exact Hk. cbn [Nat.add]. unfold g. fold st.
      destruct (Hg (lb + Z.of_nat k * st)%Z (Hin k Hk)) as [s Es]. rewrite Es. reflexivity.
Qed.
Print Assumptions C96_bank.

(** The bands of a bank share no frequency: false.  The upper limit of every band is
    above the lower limit of the next one. *)
Theorem C96_overlap_refuted : forall (fr : fraction) (lband hband : Z) (k : nat),
  (S k < length (bank_bands fr lband hband))%nat ->
  lower_of fr (nth (S k) (bank_bands fr lband hband) 0) < upper_of fr (nth k (bank_bands fr lband hband) 0).
Proof.
  intros fr lb hb k Hk. set (st := (match fr with Octave => 3 | ThirdOctave => 1 end)%Z).
  set (n := Z.to_nat ((hb - lb + st - 1) / st)).
  assert (Hb : bank_bands fr lb hb = map (fun k => Rpower 10 (IZR (lb + st * Z.of_nat k) / 10)) (seq 0 n)) by (unfold bank_bands, bank_indices; now rewrite map_map).
  rewrite Hb, map_length, seq_length in Hk.
  assert (Hn : forall m, (m < n)%nat -> nth m (bank_bands fr lb hb) 0 = Rpower 10 (IZR (lb + st * Z.of_nat m) / 10)).
  { intros m Hm. rewrite Hb, (nth_indep _ 0 (Rpower 10 (IZR (lb + st * Z.of_nat 0) / 10))) by (rewrite map_length, seq_length; exact Hm).
    rewrite (map_nth (fun k => Rpower 10 (IZR (lb + st * Z.of_nat k) / 10))), seq_nth by exact Hm. reflexivity. }
  rewrite !Hn by lia. unfold lower_of, upper_of.
  set (q := Rpower 10 (IZR (lb + st * Z.of_nat k) / 10)). assert (Q : 0 < q) by apply exp_pos.
  replace (Rpower 10 (IZR (lb + st * Z.of_nat (S k)) / 10)) with (q * Rpower 10 (IZR st / 10)).
  2: { unfold q. rewrite <- Rpower_plus. f_equal. rewrite Nat2Z.inj_succ. unfold Z.succ. rewrite Z.mul_add_distr_l, Z.mul_1_r, Z.add_assoc, (plus_IZR _ st). lra. }
  set (w := Rpower 2 (1 / (2 * per_octave fr))). assert (W : 0 < w) by apply exp_pos.
  apply Rmult_lt_reg_r with w; [exact W|]. replace (q * Rpower 10 (IZR st / 10) / w * w) with (q * Rpower 10 (IZR st / 10)) by (field; lra).
  rewrite Rmult_assoc. apply Rmult_lt_compat_l; [exact Q|]. unfold w. rewrite <- Rpower_plus.
  replace (1 / (2 * per_octave fr) + 1 / (2 * per_octave fr)) with (10 * (IZR st / 10) * (1 / 3) * (1 / 10 * 10)) by (unfold st, per_octave; destruct fr; lra).
  assert (T : Rpower 10 3 < Rpower 2 10).
  { replace 3 with (INR 3) by (cbn; lra). replace 10 with (INR 10) at 2 by (cbn; lra). rewrite !Rpower_pow by lra. lra. }
  replace (IZR st / 10) with (3 * (IZR st / 30)) at 1 by lra. replace (10 * (IZR st / 10) * (1 / 3) * (1 / 10 * 10)) with (10 * (IZR st / 30)) by lra.
  rewrite <- !Rpower_mult. apply Rlt_Rpower_l; [unfold st; destruct fr; lra|]. split; [apply exp_pos|exact T].
Qed.
Print Assumptions C96_overlap_refuted.

(** The coefficients follow the attributes: false.  sos was read, then hband is raised:
    there are more bands than filters. *)
Theorem C96_bank_stale_refuted : forall (butter_bandpass : nat -> R -> R -> list section),
  exists (e : attrs) (h : Z) l b l',
    let ops := [Read 0; Set_ 1 (Int h); Read 0; Read 1] in
    snd (history (bank_prop butter_bandpass) ops (mkObj e (fun _ => None))) = [inl (inl l); inl (inl l); inr b]
    /\ expected (bank_prop butter_bandpass) ops e = [inl (inl l); inl (inl l'); inr b]
    /\ (length l < length b)%nat /\ length l' = length b.
Proof.
  intros bb.
  set (e := fun a : nat => match a with 0 => Int 21 | 1 => Int 22 | 2 => Int 1 | _ => Num 100000 end%nat : val).
  assert (Q : sqrt 2 <= 2) by (apply Rsqr_incr_0; [rewrite Rsqr_sqrt by lra; unfold Rsqr; lra|apply sqrt_pos|lra]).
  assert (S2 : 0 < sqrt 2) by (apply sqrt_lt_R0; lra).
  assert (B : forall i, (21 <= i < 25)%Z -> Rpower 10 (IZR i / 10) <= 100000 / 2 / sqrt 2).
  { intros i Hi. apply Rle_trans with 1000.
    - replace 1000 with (Rpower 10 3) by (replace 3 with (INR 3) by (cbn; lra); rewrite Rpower_pow by lra; lra).
      apply Rle_Rpower; [lra|]. assert (IZR i <= 25) by (apply IZR_le; lia). lra.
    - apply Rmult_le_reg_r with (sqrt 2); [exact S2|]. replace (100000 / 2 / sqrt 2 * sqrt 2) with 50000 by (field; lra). lra. }
  destruct (C96_bank bb Octave 21 22 100000 ltac:(lra)) as (l & El & Ll & _); [intros i Hi; apply B; lia|].
  destruct (C96_bank bb Octave 21 25 100000 ltac:(lra)) as (l' & El' & Ll' & _); [intros i Hi; apply B; lia|].
  exists e, 25%Z, l, (bank_bands Octave 21 25), l'. cbv zeta.
  cbn [history do_op cur cache]. destruct (val_eq_dec (e 1%nat) (Int 25)) as [K|K]; [discriminate K|].
  cbn [history do_op cur cache Nat.eqb bank_prop deps existsb comp expected assign snd app e as_fraction as_int as_num Z.eqb Pos.eqb orb].
  rewrite El, El'. split; [reflexivity|]. split; [reflexivity|]. split; [|exact Ll'].
  rewrite Ll. unfold bank_bands, bank_indices. rewrite !map_length, !seq_length. cbn. lia.
Qed.
Print Assumptions C96_bank_stale_refuted.

(** Hypotheses met: 1 kHz at 48 kHz, and the default bank at 51.2 kHz. *)
Example C96_case : 1000 <= 48000 / 2 / sqrt 2 /\ length (bank_bands Octave 21 40) = 7%nat /\ length (bank_bands ThirdOctave 21 40) = 19%nat
  /\ forall i, (21 <= i < 40)%Z -> Rpower 10 (IZR i / 10) <= 51200 / 2 / sqrt 2.
Proof.
  assert (Q : sqrt 2 <= 2) by (apply Rsqr_incr_0; [rewrite Rsqr_sqrt by lra; unfold Rsqr; lra|apply sqrt_pos|lra]).
  assert (S2 : 0 < sqrt 2) by (apply sqrt_lt_R0; lra).
  split; [|split; [reflexivity|split; [reflexivity|]]].
  - apply Rmult_le_reg_r with (sqrt 2); [exact S2|]. replace (48000 / 2 / sqrt 2 * sqrt 2) with 24000 by (field; lra). lra.
  - intros i Hi. apply Rle_trans with 10000.
    + replace 10000 with (Rpower 10 4) by (replace 4 with (INR 4) by (cbn; lra); rewrite Rpower_pow by lra; lra).
      apply Rle_Rpower; [lra|]. assert (IZR i <= 40) by (apply IZR_le; lia). lra.
    + apply Rmult_le_reg_r with (sqrt 2); [exact S2|]. replace (51200 / 2 / sqrt 2 * sqrt 2) with 25600 by (field; lra). lra.
Qed.
