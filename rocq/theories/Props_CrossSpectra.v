(** Property theorems C92: CrossPowerSpectra. *)
From Coq Require Import List Arith Lia ZArith Bool Reals Lra.
From Verif Require Import Stream Sources Cplx Buffer Frames Convolve Fourier Beamform Csm CrossSpectra.
Import ListNotations.
Local Open Scope nat_scope.

(** C92, partial.  calc_mode 'full': for every snapshot x the row holds, for
    frequency b, row r and column c, the value scale * x_r * conj(x_c); blocks
    of any size.  Missing: the modes 'upper' and 'lower' (C92_triangle_refuted). *)
Theorem C92_full_partial n nf scale (src : source (list C)) s :
  wf_source src s -> Forall (fun x => length x = nf * n) s ->
  exists out, wf_source (cps_result Full n nf scale src) out /\ length out = length s
    /\ forall k, k < length s ->
         let x b c := nth (b * n + c) (nth k s []) C0 in
         let row := nth k out [] in
         length row = cps_num_channels Full n * nf
         /\ (forall b r c, b < nf -> r < n -> c < n ->
               nth ((b * n + r) * n + c) row C0 = Cmul (RtoC scale) (Cmul (x b r) (Conj (x b c)))).
Proof.
  intros Hw Hs. exists (map (cps_row n nf scale) s). split; [now apply cps_full|]. split; [apply map_length|].
  intros k Hk. cbv zeta.
  rewrite (nth_indep _ [] (cps_row n nf scale [])) by (now rewrite map_length). rewrite map_nth. split.
  - apply cps_row_length.
  - intros b r c Hb Hr Hc. now rewrite cps_row_nth.
Qed.
Print Assumptions C92_full_partial.

(** C92.  The diagonal holds the values of AutoPowerSpectra with the same settings. *)
Theorem C92_diagonal n nf bs ss psd fs (src : source (list C)) s :
  wf_source src s -> Forall (fun x => length x = nf * n) s ->
  exists out, wf_source (cps_result Full n nf (power_scale bs ss psd fs) src) out
    /\ forall k b r, k < length s -> b < nf -> r < n ->
         nth ((b * n + r) * n + r) (nth k out []) C0
         = RtoC (nth (b * n + r) (nth k (map (auto_power bs ss psd fs) s) []) 0%R).
Proof.
  intros Hw Hs. exists (map (cps_row n nf (power_scale bs ss psd fs)) s). split; [now apply cps_full|].
  intros k b r Hk Hb Hr.
  rewrite (nth_indep (map (cps_row _ _ _) _) [] (cps_row n nf (power_scale bs ss psd fs) [])) by (now rewrite map_length).
  rewrite map_nth.
  rewrite (nth_indep (map (auto_power _ _ _ _) _) [] (auto_power bs ss psd fs [])) by (now rewrite map_length).
  rewrite (map_nth (auto_power bs ss psd fs)). apply cps_row_diag; auto.
  rewrite Forall_forall in Hs. apply Hs. now apply nth_In.
Qed.
Print Assumptions C92_diagonal.

(** C92.  Welch's method: the sum of the rows over the snapshots of an RFFT
    object (scaling 'none', any window and overlap) is num_blocks times the
    cross spectral matrix of PowerSpectra with the same window, block size and
    overlap.  (C10: num_blocks is the number of snapshots if the last frame
    ends with the signal.) *)
Theorem C92_welch garbage zspec bs ov N wind fs (src : source (list R)) s :
  wf_source src s -> 0 < bs -> 0 < ov -> bs <= length s ->
  (0 < rsumn bs (fun j => wind j * wind j))%R ->
  let nf := bs / 2 + 1 in
  let K := frame_count bs ov (length s) in
  let spectra := fun num => rfft_result (rfft_frame ScaleNone wind bs N) zspec garbage bs ov src num in
  exists out,
    wf_source (cps_result Full N nf (power_scale bs true false fs) spectra) out /\ length out = K
    /\ forall b r c, b < nf -> r < N -> c < N ->
         csum K (fun k => nth ((b * N + r) * N + c) (nth k out []) C0)
         = Cmul (RtoC (num_blocks ov (length s) bs)) (power_spectra_csm garbage bs ov N wind (length s) src b r c).
Proof. exact (welch garbage zspec bs ov N wind fs src s). Qed.
Print Assumptions C92_welch.

(** C92 is false for 'upper' and 'lower' with two or more channels: the whole
    matrix is assigned to a row with room for the triangle, ValueError. *)
Theorem C92_triangle_refuted mode n nf scale (src : source (list C)) s num :
  mode = Upper \/ mode = Lower ->
  wf_source src s -> 0 < num -> s <> [] -> 2 <= n -> 0 < nf ->
  cps_result mode n nf scale src num = raise ValueError.
Proof. intros Hm. apply cps_triangle. destruct Hm as [-> | ->]; discriminate. Qed.
Print Assumptions C92_triangle_refuted.

(** C92.  With a single channel the modes agree. *)
Theorem C92_one_channel mode nf scale (src : source (list C)) s num :
  wf_source src s -> Forall (fun x => length x = nf * 1) s -> 0 < num ->
  cps_result mode 1 nf scale src num = cps_result Full 1 nf scale src num.
Proof.
  intros Hw Hs Hn.
  rewrite (wf_source_eq _ _ num (cps_one mode nf scale src s Hw Hs) Hn).
  now rewrite (wf_source_eq _ _ num (cps_one Full nf scale src s Hw Hs) Hn).
Qed.
Print Assumptions C92_one_channel.

Example C92_case :
  let s := [[C1; Ci]; [Ci; C1]] in
  let src := time_samples_result Cmul 2 s None in
  wf_source src s /\ Forall (fun x => length x = 1 * 2) s
  /\ concat (blocks (cps_result Full 2 1 2%R src 1))
     = map (map (Cmul (RtoC 2))) [[C1; Copp Ci; Ci; C1]; [C1; Ci; Copp Ci; C1]].
Proof.
  cbv zeta. assert (W : wf_source (time_samples_result Cmul 2 [[C1; Ci]; [Ci; C1]] None) [[C1; Ci]; [Ci; C1]]).
  { intros num Hn. apply time_samples_delivers; auto; discriminate. }
  assert (F : Forall (fun x => length x = 1 * 2) [[C1; Ci]; [Ci; C1]]) by (repeat constructor).
  split; [exact W|]. split; [exact F|].
  destruct (cps_full 2 1 2%R _ _ W F 1 ltac:(lia)) as (_ & E & _). rewrite E.
  unfold cps_row, flat, complete, calcCSM, snapshot. cbn [seq map concat app Nat.add Nat.mul nth Nat.eqb Nat.ltb Nat.leb andb].
  assert (P : forall a b a' b' : R, a = a' -> b = b' -> (a, b) = (a', b')) by (intros; congruence).
  assert (L : forall (x y : C) l l', x = y -> l = l' -> x :: l = y :: l') by (intros; congruence).
  assert (M : forall (x y : list C) l l', x = y -> l = l' -> x :: l = y :: l') by (intros; congruence).
  apply M; [|apply M; [|reflexivity]]; repeat (apply L; [|try reflexivity]);
    apply injective_projections; cbn; ring.
Qed.
