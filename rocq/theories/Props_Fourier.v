(** Properties C12, C64, C65 (convolution, transform pair, power spectra).
    Only theorem statements; proofs are in Convolve.v and Fourier.v.
    Specification vocabulary: [delivers], [wf_source] (Stream.v);
    [linear_convolution] (Convolve.v: sample t of channel c is the sum over j
    of kernel(j,c) * s(t-j,c)); [firstn]; [rsumn n f] (Cplx.v: f 0 + ... + f (n-1));
    [rect N s] (every row has N entries); [col c frame j] (row j, channel c). *)
From Coq Require Import List Arith Lia ZArith Bool Reals Lra.
From Verif Require Import Stream Sources Cplx Buffer Frames Convolve Fourier.
Import ListNotations.
Local Open Scope nat_scope.

(** C12.  One kernel per channel, kernel not longer than a block, and the
    length of the result no multiple of the block size. *)
Theorem C12_time_convolve_partial N kernel (src : source (list R)) s num :
  wf_source src s -> 0 < num -> 0 < length kernel <= num -> s <> [] ->
  (length s + length kernel - 1) mod num <> 0 ->
  delivers num (linear_convolution N kernel s) (time_convolve N N kernel (length s) src num).
Proof. exact (time_convolve_spec N kernel src s num). Qed.
Print Assumptions C12_time_convolve_partial.

(** C12.  If the block size divides the length of the result, the last [num]
    rows are missing. *)
Theorem C12_divisible_refuted N kernel (src : source (list R)) s num :
  wf_source src s -> 0 < num -> 0 < length kernel <= num -> s <> [] ->
  (length s + length kernel - 1) mod num = 0 ->
  fin (time_convolve N N kernel (length s) src num) = Finished
  /\ concat (blocks (time_convolve N N kernel (length s) src num))
     = firstn (length s + length kernel - 1 - num) (linear_convolution N kernel s).
Proof. exact (time_convolve_short N kernel src s num). Qed.
Print Assumptions C12_divisible_refuted.

(** C12.  A single kernel for several channels: all channels but the first are silent. *)
Theorem C12_one_kernel_refuted N kernel (src : source (list R)) s num :
  wf_source src s -> 0 < num -> 0 < length kernel -> s <> [] -> 1 < N ->
  fin (time_convolve N 1 kernel (length s) src num) = Finished
  /\ forall row c, In row (concat (blocks (time_convolve N 1 kernel (length s) src num))) ->
       0 < c -> c < N -> nth_error row c = Some 0%R.
Proof. exact (time_convolve_one_kernel N kernel src s num). Qed.
Print Assumptions C12_one_kernel_refuted.

(** C12.  What lies beyond the first [num] samples of the kernel has no influence. *)
Theorem C12_kernel_tail_ignored N K k1 k2 (src : source (list R)) s num :
  wf_source src s -> 0 < num -> 0 < length k1 -> s <> [] -> K = 1 \/ K = N ->
  length k1 = length k2 -> firstn num k1 = firstn num k2 ->
  time_convolve N K k1 (length s) src num = time_convolve N K k2 (length s) src num.
Proof. exact (time_convolve_kernel_tail N K k1 k2 src s num). Qed.
Print Assumptions C12_kernel_tail_ignored.

Theorem C12_long_kernel_refuted :
  exists N kernel (src : source (list R)) s num,
    wf_source src s /\ 0 < num /\ num < length kernel /\ s <> []
    /\ (length s + length kernel - 1) mod num <> 0
    /\ concat (blocks (time_convolve N N kernel (length s) src num)) <> linear_convolution N kernel s.
Proof. exact time_convolve_long_refuted. Qed.
Print Assumptions C12_long_kernel_refuted.

Example C12_case :
  let s := [[1%R]; [2%R]; [3%R]] in
  let kernel := [[1%R]; [10%R]] in
  let src := time_samples_result (fun x _ => x) 1 s None in
  wf_source src s /\ 0 < length kernel <= 3 /\ s <> []
  /\ (length s + length kernel - 1) mod 3 <> 0
  /\ (length s + length kernel - 1) mod 2 = 0
  /\ linear_convolution 1 kernel s = [[1%R]; [12%R]; [23%R]; [30%R]].
Proof.
  cbv zeta. split.
  - intros num Hn. apply time_samples_delivers; auto; try discriminate.
  - repeat match goal with |- _ /\ _ => split end; try (cbn; lia); try discriminate.
    unfold linear_convolution, conv_at, col. cbn.
    repeat f_equal; lra.
Qed.

(** C64.  IRFFT over RFFT (rectangular window, no overlap, scaling 'none'):
    every complete block of the input comes back, for every output block size. *)
Theorem C64_irfft_of_rfft zspec garbage h N (src : source (list R)) s fuel num :
  wf_source src s -> rect N s -> 0 < h -> 0 < num -> length s < fuel ->
  delivers num (firstn (irfft_num_samples (length s) (2 * h)) s)
    (irfft_result h N
       (fun k => rfft_result (rfft_frame ScaleNone (fun _ => 1%R) (2 * h) N) zspec garbage (2 * h) 1 src k) fuel num).
Proof. exact (irfft_of_rfft_rect zspec garbage h N src s fuel num). Qed.
Print Assumptions C64_irfft_of_rfft.

(** C64.  With another window the values are multiplied by the window over its
    root mean square. *)
Theorem C64_window zspec garbage wind h N (src : source (list R)) s fuel num :
  wf_source src s -> 0 < h -> 0 < num -> length s < fuel ->
  let bs := 2 * h in
  let rms := sqrt (rsumn bs (fun j => wind j * wind j)%R / INR bs) in
  delivers num
    (concat (map (fun frame =>
        map (fun m => map (fun c => (col c frame m * wind m / rms)%R) (seq 0 N)) (seq 0 bs)) (frames_of bs 1 s)))
    (irfft_result h N (fun k => rfft_result (rfft_frame ScaleNone wind bs N) zspec garbage bs 1 src k) fuel num).
Proof. exact (irfft_of_rfft zspec garbage wind h N src s fuel num). Qed.
Print Assumptions C64_window.

(** C64.  With the scalings 'energy' (or 'amplitude') the inner frequencies are
    doubled and the pair is not the identity. *)
Theorem C64_energy_scaling_refuted :
  exists h (wind : nat -> R) (f : list (list R)),
    0 < h /\ length f = 2 * h /\ (forall j, wind j = 1%R)
    /\ irfft_frame h 1 (rfft_frame ScaleEnergy wind (2 * h) 1 f) <> f.
Proof. exact irfft_energy_wrong. Qed.
Print Assumptions C64_energy_scaling_refuted.

Example C64_case :
  let s := [[1%R]; [2%R]; [3%R]] in
  let src := time_samples_result (fun x _ => x) 1 s None in
  wf_source src s /\ rect 1 s /\ irfft_num_samples (length s) (2 * 1) = 2.
Proof.
  cbv zeta. repeat match goal with |- _ /\ _ => split end.
  - intros num Hn. apply time_samples_delivers; auto; try discriminate.
  - intros r [<-|[<-|[<-|[]]]]; reflexivity.
  - reflexivity.
Qed.

(** C65.  The sum over all frequencies of the single-sided power spectrum of a
    frame is its mean square plus the square of its mean plus the square of
    its alternating mean (the bins 0 and Nyquist are counted twice). *)
Theorem C65_auto_power_partial h N c fs frame : 0 < h -> c < N ->
  let n := INR (2 * h) in let x := col c frame in
  (total_power (h + 1) N c (auto_power (2 * h) true false fs (rfft_frame ScaleNone (fun _ => 1) (2 * h) N frame))
   = rsumn (2 * h) (fun j => x j * x j) / n + Rsqr (rsumn (2 * h) x / n)
     + Rsqr (rsumn (2 * h) (fun j => if Nat.even j then x j else - x j) / n))%R.
Proof. exact (auto_power_total h N c fs frame). Qed.
Print Assumptions C65_auto_power_partial.

(** C65.  The integral over the frequency of the 'psd' scaling is fs^2 times
    the power: the density is multiplied by the sampling frequency instead of
    being divided by it. *)
Theorem C65_psd_refuted h N c fs frame : 0 < h -> c < N -> (0 < fs)%R ->
  let bs := 2 * h in
  let X := rfft_frame ScaleNone (fun _ => 1%R) bs N frame in
  (total_power (h + 1) N c (auto_power bs true true fs X) * (fs / INR bs)
   = fs * fs * total_power (h + 1) N c (auto_power bs true false fs X))%R.
Proof. exact (auto_psd_total h N c fs frame). Qed.
Print Assumptions C65_psd_refuted.

(** A constant signal: twice its mean square. *)
Example C65_case :
  total_power 2 1 0 (auto_power 2 true false 1 (rfft_frame ScaleNone (fun _ => 1%R) (2 * 1) 1 [[1%R]; [1%R]]))
  = 2%R.
Proof.
  change 2 with (1 + 1) at 1. change 2 with (2 * 1) at 1.
  rewrite (C65_auto_power_partial 1 1 0 1 [[1%R]; [1%R]]) by lia.
  unfold col, Rsqr. cbn. lra.
Qed.
