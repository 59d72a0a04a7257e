(** The attributes [num_samples] and [num_channels] against what [result]
    delivers (C90), and PointSourceConvolve (C91). *)
From Coq Require Import List Arith Lia ZArith QArith Reals Lra Bool.
From Verif Require Import Stream Sources MaskedOut Mixers BlockOps Chain Cplx Frames Convolve Csm.
Import ListNotations.
Local Open Scope nat_scope.

(* ------------------------------------------------------------------ *)
(** * The value of [num_samples] *)

(** The value that [num_samples] of a pipeline has, None: reading it raises an
    exception.  Delegated (base.py:180, 228, 286), except MaskedTimeOut
    (tprocess.py:194-197, needs an int) and Average (process.py:139-143, a
    true division).  Chain.p_nsamples keeps only whether the value is an int. *)
Fixpoint p_announced (p : pipe) : option R :=
  match p with
  | PSource _ _ (NInt n) _ _ => Some (INR n)
  | PSource _ _ NFloat _ _ => None
  | PMasked start stop _ _ p =>
      match p_nsamples p with
      | NInt n => Some (IZR (masked_num_samples start stop n))
      | NFloat => None
      end
  | PAverage nav p => option_map (fun n => (n / INR nav)%R) (p_announced p)
  | PChannelMixer _ p | PCalib _ _ p | PPower p | PCumAverage p
  | PReverse _ p | PFilter _ p | PFiltFilt _ _ p | PMixer p _ => p_announced p
  end.

(** The conditions under which the announcement can be right: every input
    announces its own length, averaging leaves no remainder, and no source
    added by a Mixer is shorter than the first one. *)
Fixpoint honest (p : pipe) : Prop :=
  match p with
  | PSource _ _ ns _ s => ns = NInt (length s)
  | PAverage nav p => honest p /\ length (p_stream p) mod nav = 0
  | PMixer p ps => honest p /\ Forall (fun q => length (p_stream p) <= length (p_stream q)) ps
  | PMasked _ _ _ _ p | PChannelMixer _ p | PCalib _ _ p | PPower p | PCumAverage p
  | PReverse _ p | PFilter _ p | PFiltFilt _ _ p => honest p
  end.

Lemma sum_streams_length (ss : list (list (list R))) : forall s,
  Forall (fun s1 => length s <= length s1) ss ->
  length (sum_streams (rowmul Rplus) s ss) = length s.
Proof.
  unfold sum_streams. induction ss as [|s1 ss IH]; intros s H; [reflexivity|].
  inversion H as [|? ? H1 H2]; subst. cbn [fold_left].
  assert (E : length (zip_with (rowmul Rplus) s s1) = length s) by (rewrite zip_with_length; lia).
  rewrite IH; [exact E|]. eapply Forall_impl; [|exact H2]. intros s2 H3. cbv beta. now rewrite E.
Qed.

Theorem announced_length p : p_ok p -> honest p ->
  p_announced p = Some (INR (length (p_stream p))).
Proof.
  induction p as [f n ns src s | d i p IH | a b i g p IH | w p IH | p IH | p IH | g p IH
                 | sos p IH | w g p IH | n p IH | p ps IH IHs] using pipe_induction; intros Hok Hh.
  - cbn in *. now rewrite Hh.
  - cbn [p_announced p_stream]. rewrite map_length. apply IH; [apply Hok|exact Hh].
  - destruct Hok as (Hp & Hns & _ & Hne). cbn [p_announced p_stream]. rewrite Hns, map_length.
    rewrite masked_num_samples_correct by exact Hne. now rewrite INR_IZR_INZ.
  - cbn [p_announced p_stream]. rewrite map_length. apply IH; [apply Hok|exact Hh].
  - cbn [p_announced p_stream]. rewrite map_length. now apply IH.
  - cbn [p_announced p_stream]. unfold prefix_means. rewrite map_length, seq_length. now apply IH.
  - cbn [p_announced p_stream]. rewrite rev_length. apply IH; [apply Hok|exact Hh].
  - cbn [p_announced p_stream]. rewrite scan_length. now apply IH.
  - destruct Hok as (Hp & _ & Hw). cbn [p_announced p_stream].
    destruct (pipe_delivers p Hp) as [_ Hr]. rewrite (proj1 (Hw _ _ Hr)). now apply IH.
  - destruct Hok as (Hp & Hn). destruct Hh as [Hh Hm]. cbn [p_announced p_stream].
    rewrite (IH Hp Hh). cbn [option_map]. rewrite map_length, groups_length by exact Hn.
    f_equal. pose proof (Nat.div_mod (length (p_stream p)) n ltac:(lia)) as E. rewrite Hm, Nat.add_0_r in E.
    rewrite E at 1. rewrite mult_INR. field. apply not_0_INR. lia.
  - apply p_ok_mixer in Hok. destruct Hok as (Hp & Hps). destruct Hh as [Hh Hl]. cbn [p_announced p_stream].
    rewrite sum_streams_length; [now apply IH|]. rewrite Forall_map. exact Hl.
Qed.

(* ------------------------------------------------------------------ *)
(** * PointSourceConvolve, sources.py:2331-2455 *)

(** [num_samples] is delegated to the signal (sources.py:856), as are those of
    TimeConvolve and BeamformerTime to their source (base.py:286). *)
Definition delegated_num_samples (n : nat) : nat := n.

(** [repeat(signal[:, newaxis], num_mics, axis=1)], sources.py:2445 *)
Definition repeated (nm : nat) (signal : list R) : list (list R) :=
  map (fun x => repeat x nm) signal.

(** PointSourceConvolve.result, sources.py:2417-2455: [kernel] has [K] columns;
    a TimeSamples object holding the repeated signal feeds a TimeConvolve.  The
    arguments are all the code reads: [loc], [env] and the positions of the
    microphones are not among them. *)
Definition point_source_convolve (nm K : nat) (kernel : list (list R)) (signal : list R) (num : nat)
    : trace (list R) :=
  time_convolve nm K kernel (length signal)
    (time_samples_result Rmult nm (repeated nm signal) None) num.

Lemma repeated_wf nm signal : signal <> [] ->
  wf_source (time_samples_result Rmult nm (repeated nm signal) None) (repeated nm signal).
Proof.
  intros H num Hn. apply time_samples_delivers; auto. unfold repeated. destruct signal; [congruence|discriminate].
Qed.

Lemma repeated_length nm signal : length (repeated nm signal) = length signal.
Proof. unfold repeated. apply map_length. Qed.

Lemma repeated_ne nm signal : signal <> [] -> repeated nm signal <> [].
Proof. unfold repeated. destruct signal; [congruence|discriminate]. Qed.

Lemma nth_repeat_lt {A} (x d : A) : forall n c, c < n -> nth c (repeat x n) d = x.
Proof. induction n as [|n IH]; intros [|c] H; cbn; auto; try lia. apply IH. lia. Qed.

Lemma repeated_col nm signal c j : c < nm -> col c (repeated nm signal) j = nth j signal 0%R.
Proof.
  intros Hc. unfold col, repeated.
  destruct (lt_dec j (length signal)) as [H|H].
  - rewrite (nth_indep _ [] (repeat 0%R nm)) by (now rewrite map_length).
    rewrite (map_nth (fun x => repeat x nm) signal 0%R j). now apply nth_repeat_lt.
  - rewrite (nth_overflow (map _ _)) by (rewrite map_length; lia).
    rewrite (nth_overflow signal) by lia. now destruct c.
Qed.

Theorem point_source_convolve_spec nm kernel signal num :
  0 < num -> 0 < length kernel <= num -> signal <> [] ->
  (length signal + length kernel - 1) mod num <> 0 ->
  delivers num
    (map (fun t => map (fun c => rsumn (length kernel)
              (fun j => if t <? j then 0%R else (nth c (nth j kernel []) 0 * nth (t - j) signal 0)%R)) (seq 0 nm))
         (seq 0 (length signal + length kernel - 1)))
    (point_source_convolve nm nm kernel signal num).
Proof.
  intros Hn HL Hs Hm. unfold point_source_convolve.
  pose proof (time_convolve_spec nm kernel _ _ num (repeated_wf nm signal Hs) Hn HL (repeated_ne nm signal Hs)) as H.
  rewrite repeated_length in H. specialize (H Hm). revert H. unfold linear_convolution. rewrite repeated_length.
  intros H. erewrite map_ext; [exact H|]. intros t. apply map_ext_in. intros c Hc. apply in_seq in Hc.
  unfold conv_at. apply rsumn_ext. intros j _. rewrite repeated_col by lia. reflexivity.
Qed.

Theorem point_source_convolve_one_kernel nm kernel signal num :
  0 < num -> 0 < length kernel -> signal <> [] -> 1 < nm ->
  fin (point_source_convolve nm 1 kernel signal num) = Finished
  /\ forall row c, In row (concat (blocks (point_source_convolve nm 1 kernel signal num))) ->
       0 < c -> c < nm -> nth_error row c = Some 0%R.
Proof.
  intros Hn HL Hs HN. unfold point_source_convolve.
  pose proof (time_convolve_one_kernel nm kernel _ _ num (repeated_wf nm signal Hs) Hn HL (repeated_ne nm signal Hs) HN) as H.
  now rewrite repeated_length in H.
Qed.

Lemma linear_convolution_length N kernel s :
  length (linear_convolution N kernel s) = length s + length kernel - 1.
Proof. unfold linear_convolution. now rewrite map_length, seq_length. Qed.

(* ------------------------------------------------------------------ *)
(** * What PowerSpectra makes of a wrong announcement *)
Theorem csm_announced garbage bs ov N wind n m (src : source (list R)) b r c :
  0 < bs -> bs <= n -> bs <= m ->
  Cmul (power_spectra_csm garbage bs ov N wind n src b r c) (RtoC (num_blocks ov n bs))
  = Cmul (power_spectra_csm garbage bs ov N wind m src b r c) (RtoC (num_blocks ov m bs)).
Proof.
  intros Hb Hn Hm. pose proof (num_blocks_pos ov n bs Hb Hn) as P1. pose proof (num_blocks_pos ov m bs Hb Hm) as P2.
  unfold power_spectra_csm, calc_csm. cbv zeta.
  match goal with |- Cmul (Cmul ?z _) _ = _ => set (u := z) end.
  assert (G : forall nb, (0 < nb)%R -> Cmul (Cmul u (RtoC (2 / INR bs / rsumn bs (fun j => (wind j * wind j)%R) / nb))) (RtoC nb)
     = Cmul u (RtoC (2 / INR bs / rsumn bs (fun j => (wind j * wind j)%R)))).
  { intros nb Hnb. generalize (2 / INR bs / rsumn bs (fun j => (wind j * wind j)%R))%R. intros q.
    assert (E : (q / nb * nb = q)%R) by (field; lra).
    replace (Cmul (Cmul u (RtoC (q / nb))) (RtoC nb)) with (Cmul u (RtoC (q / nb * nb)));
      [now rewrite E|]. unfold Cmul, RtoC, re, im. cbn [fst snd]. f_equal; ring. }
  rewrite !G by assumption. reflexivity.
Qed.
