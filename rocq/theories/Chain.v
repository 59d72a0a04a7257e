(** Pipelines: trees of processing blocks on top of arbitrary well-behaved
    sources (C03).  The stages are the models of Sources.v, MaskedOut.v,
    Mixers.v and BlockOps.v; this file adds how attributes are passed along
    (the [Delegate('source')] traits of /repo/acoular/base.py:161-310). *)
From Coq Require Import List Arith Lia ZArith QArith Reals Bool.
Require Import ZifyBool ZifyNat ZifyN.
From Verif Require Import Stream Sources MaskedOut Mixers BlockOps.
Import ListNotations.
Local Open Scope nat_scope.
Ltac Zify.zify_post_hook ::= Z.div_mod_to_equations.

(** The attribute [num_samples]: a Python int, or a float (Average.num_samples
    is always a float, process.py:139-143). *)
Inductive nattr := NInt (n : nat) | NFloat.

(** A pipeline with samples of type R. *)
Inductive pipe :=
| PSource (freq : Q) (nch : nat) (ns : nattr) (src : source (list R)) (s : list (list R))
    (* any source; [s] is the stream it is supposed to deliver *)
| PCalib (data : list R) (invalid : list Z) (p : pipe)
| PMasked (start stop : option Z) (invalid : list Z) (garbage : nat -> list R) (p : pipe)
| PChannelMixer (weights : list R) (p : pipe)
| PPower (p : pipe)
| PCumAverage (p : pipe)
| PReverse (garbage : nat -> list R) (p : pipe)
| PFilter (sos : list section) (p : pipe)
| PFiltFilt (whole : list (list R) -> list (list R)) (garbage : nat -> list R) (p : pipe)
| PAverage (nav : nat) (p : pipe)
| PMixer (p : pipe) (ps : list pipe).

(** Induction principle with the hypothesis for every mixed source. *)
Section PipeInd.
  Variable P : pipe -> Prop.
  Hypothesis Hsource : forall f n ns src s, P (PSource f n ns src s).
  Hypothesis Hcalib : forall d i p, P p -> P (PCalib d i p).
  Hypothesis Hmasked : forall a b i g p, P p -> P (PMasked a b i g p).
  Hypothesis Hchmix : forall w p, P p -> P (PChannelMixer w p).
  Hypothesis Hpower : forall p, P p -> P (PPower p).
  Hypothesis Hcum : forall p, P p -> P (PCumAverage p).
  Hypothesis Hrev : forall g p, P p -> P (PReverse g p).
  Hypothesis Hfilter : forall s p, P p -> P (PFilter s p).
  Hypothesis Hff : forall w g p, P p -> P (PFiltFilt w g p).
  Hypothesis Hav : forall n p, P p -> P (PAverage n p).
  Hypothesis Hmix : forall p ps, P p -> Forall P ps -> P (PMixer p ps).
  Fixpoint pipe_induction (p : pipe) : P p :=
    match p with
    | PSource f n ns src s => Hsource f n ns src s
    | PCalib d i p => Hcalib d i p (pipe_induction p)
    | PMasked a b i g p => Hmasked a b i g p (pipe_induction p)
    | PChannelMixer w p => Hchmix w p (pipe_induction p)
    | PPower p => Hpower p (pipe_induction p)
    | PCumAverage p => Hcum p (pipe_induction p)
    | PReverse g p => Hrev g p (pipe_induction p)
    | PFilter s p => Hfilter s p (pipe_induction p)
    | PFiltFilt w g p => Hff w g p (pipe_induction p)
    | PAverage n p => Hav n p (pipe_induction p)
    | PMixer p ps =>
        Hmix p ps (pipe_induction p)
          ((fix all (l : list pipe) : Forall P l :=
              match l with
              | [] => Forall_nil P
              | q :: l' => Forall_cons q (pipe_induction q) (all l')
              end) ps)
    end.
End PipeInd.

(* ------------------------------------------------------------------ *)
(** * Attributes *)

(** [sample_freq]: delegated (base.py:174-186, 280-292), changed by Average
    (process.py:133-137). *)
Fixpoint p_freq (p : pipe) : Q :=
  match p with
  | PSource f _ _ _ _ => f
  | PCalib _ _ p | PMasked _ _ _ _ p | PChannelMixer _ p | PPower p | PCumAverage p
  | PReverse _ p | PFilter _ p | PFiltFilt _ _ p | PMixer p _ => p_freq p
  | PAverage nav p => (p_freq p / inject_Z (Z.of_nat nav))%Q
  end.

(** [num_channels]: delegated, except MaskedTimeOut (tprocess.py:188-192) and
    ChannelMixer (tprocess.py:272, constant 1). *)
Fixpoint p_nch (p : pipe) : nat :=
  match p with
  | PSource _ n _ _ _ => n
  | PMasked _ _ invalid _ p => num_channels_prop (p_nch p) invalid
  | PChannelMixer _ _ => 1
  | PCalib _ _ p | PPower p | PCumAverage p
  | PReverse _ p | PFilter _ p | PFiltFilt _ _ p | PMixer p _ | PAverage _ p => p_nch p
  end.

(** [num_samples]: delegated, except MaskedTimeOut (tprocess.py:194-197) and
    Average (process.py:139-143).  Reading MaskedTimeOut.num_samples over a
    float raises TypeError; NFloat stands for that as well. *)
Fixpoint p_nsamples (p : pipe) : nattr :=
  match p with
  | PSource _ _ ns _ _ => ns
  | PMasked start stop _ _ p =>
      match p_nsamples p with
      | NInt n => NInt (Z.to_nat (masked_num_samples start stop n))
      | NFloat => NFloat
      end
  | PAverage _ _ => NFloat
  | PChannelMixer _ p | PCalib _ _ p | PPower p | PCumAverage p
  | PReverse _ p | PFilter _ p | PFiltFilt _ _ p | PMixer p _ => p_nsamples p
  end.

(** What Calib.__validate_data sees: Calib and Average are InOut objects, the
    others are not. *)
Fixpoint p_node (p : pipe) : gen_node :=
  match p with
  | PCalib _ _ p | PAverage _ p => InOutNode (p_node p)
  | _ => TimeOrigin (p_nch p)
  end.

(* ------------------------------------------------------------------ *)
(** * The blocks yielded by [result(num)] of a pipeline *)
Fixpoint p_result (p : pipe) : source (list R) :=
  match p with
  | PSource _ _ _ src _ => src
  | PCalib data invalid p => calib_result Rmult data invalid (p_node p) (p_result p)
  | PMasked start stop invalid garbage p =>
      match p_nsamples p with
      | NInt n => masked_time_out_result (p_nch p) n start stop invalid garbage (p_result p)
      | NFloat => fun _ => raise TypeError          (* slice.indices(float) *)
      end
  | PChannelMixer w p => channel_mixer_result Rplus Rmult 0%R (p_nch p) w (p_result p)
  | PPower p => time_power_result Rmult (p_result p)
  | PCumAverage p => time_cum_average_result (p_result p)
  | PReverse garbage p => time_reverse_result garbage (p_result p)
  | PFilter sos p => filter_result sos (p_nch p) (p_result p)
  | PFiltFilt whole garbage p =>
      match p_nsamples p with
      | NInt n => filtfilt_result whole garbage n (p_result p)
      | NFloat => fun _ => raise TypeError          (* empty((float, ...)) *)
      end
  | PAverage nav p => average_result (row_mean (p_nch p)) nav (p_result p)
  | PMixer p ps =>
      mixer_result (rowmul Rplus)
        (mkG (p_freq p) (p_nch p) 0 (p_result p))
        (map (fun q => mkG (p_freq q) (p_nch q) 0 (p_result q)) ps)
  end.

(* ------------------------------------------------------------------ *)
(** * Specification: the stream a pipeline computes, and when it is applicable *)

(** means of all prefixes *)
Definition prefix_means (nc : nat) (s : list (list R)) : list (list R) :=
  map (fun k => row_mean nc (firstn (S k) s)) (seq 0 (length s)).

Fixpoint p_stream (p : pipe) : list (list R) :=
  match p with
  | PSource _ _ _ _ s => s
  | PCalib data invalid p => map (fun r => rowmul Rmult r (keep_valid invalid data)) (p_stream p)
  | PMasked start stop invalid _ p => map (keep_valid invalid) (sliced start stop (p_stream p))
  | PChannelMixer w p => map (channel_sum Rplus Rmult 0%R w) (p_stream p)
  | PPower p => map (map (fun x => (x * x)%R)) (p_stream p)
  | PCumAverage p => prefix_means (p_nch p) (p_stream p)
  | PReverse _ p => rev (p_stream p)
  | PFilter sos p => snd (scan (row_step sos) (zero_state sos (p_nch p)) (p_stream p))
  | PFiltFilt whole _ p => whole (p_stream p)
  | PAverage nav p => map (row_mean (p_nch p)) (groups nav (p_stream p))
  | PMixer p ps => sum_streams (rowmul Rplus) (p_stream p) (map p_stream ps)
  end.

Fixpoint p_ok (p : pipe) : Prop :=
  match p with
  | PSource _ n _ src s => wf_source src s /\ Forall (fun r => length r = n) s
  | PCalib data invalid p =>
      p_ok p /\ (invalid <> [] -> keep_valid invalid (seq 0 (length data)) <> [])
      /\ length (keep_valid invalid data) = p_nch p
  | PMasked start stop invalid _ p =>
      p_ok p /\ p_nsamples p = NInt (length (p_stream p))
      /\ (invalid <> [] -> keep_valid invalid (seq 0 (p_nch p)) <> [])
      /\ sliced start stop (p_stream p) <> []
  | PChannelMixer w p => p_ok p /\ (length w = 0 \/ length w = 1 \/ length w = p_nch p)
  | PPower p => p_ok p
  | PCumAverage p => p_ok p
  | PReverse _ p => p_ok p /\ p_stream p <> []
  | PFilter _ p => p_ok p
  | PFiltFilt whole _ p =>
      p_ok p /\ p_nsamples p = NInt (length (p_stream p))
      /\ (forall n d, Forall (fun r => length r = n) d ->
            length (whole d) = length d /\ Forall (fun r => length r = n) (whole d))
  | PAverage nav p => p_ok p /\ 0 < nav
  | PMixer p ps =>
      p_ok p /\ (fix all (l : list pipe) : Prop :=
                   match l with
                   | [] => True
                   | q :: l' => (p_ok q /\ (p_freq q == p_freq p)%Q /\ p_nch q = p_nch p) /\ all l'
                   end) ps
  end.

(* ------------------------------------------------------------------ *)
(** * Proof *)

Lemma node_columns_p p : node_columns (p_node p) = p_nch p.
Proof. induction p; simpl; auto. Qed.

Lemma filteri_from_Forall {A} (P : A -> Prop) pr (s : list A) : forall k,
  Forall P s -> Forall P (filteri_from k pr s).
Proof.
  induction s as [|x s IH]; intros k H; simpl; auto.
  inversion H; subst. destruct (pr k); auto.
Qed.

Lemma sum_streams_Forall n (ss : list (list (list R))) : forall s,
  Forall (fun r => length r = n) s -> Forall (Forall (fun r => length r = n)) ss ->
  Forall (fun r => length r = n) (sum_streams (rowmul Rplus) s ss).
Proof.
  induction ss as [|s1 ss IH]; intros s Hs Hss; simpl; auto.
  inversion Hss as [|? ? H1 H2]; subst. apply IH; auto.
  clear - Hs H1. revert s1 H1. induction s as [|x s IH]; intros [|y s1] H1; simpl; auto.
  inversion Hs as [|? ? Hx Hs']; inversion H1 as [|? ? Hy H1']; subst. constructor; auto.
  change (rowmul Rplus x y) with (radd x y). rewrite radd_length. lia.
Qed.

Lemma cum_scan_lengths nc s : forall p n, length p = nc ->
  Forall (fun r => length r = nc) s ->
  Forall (fun r : list R => length r = nc) (snd (scan cum_step (p, n) s)).
Proof.
  induction s as [|r s IH]; intros p n Hp Hs; [constructor|].
  inversion Hs as [|? ? Hr Hs']; subst x l. rewrite cum_scan_cons.
  assert (length (radd p r) = nc) by (rewrite radd_length; lia).
  constructor; auto. unfold rscale. now rewrite map_length.
Qed.

Lemma cum_scan_prefix_means nc s :
  Forall (fun r => length r = nc) s ->
  snd (scan cum_step (repeat 0%R nc, 0) s) = prefix_means nc s.
Proof.
  intros Hs. unfold prefix_means.
  pose proof (cum_scan_lengths nc s (repeat 0%R nc) 0 (repeat_length _ _) Hs) as Hf.
  rewrite Forall_forall in Hf.
  apply (nth_ext _ _ [] (row_mean nc (firstn 1 s))).
  - now rewrite map_length, seq_length, scan_length.
  - intros k Hlt. rewrite scan_length in Hlt.
    rewrite (map_nth (fun k => row_mean nc (firstn (S k) s)) (seq 0 (length s)) 0 k).
    rewrite seq_nth by auto. cbn [Nat.add].
    assert (length (nth k (snd (scan cum_step (repeat 0%R nc, 0) s)) []) = nc) as Hlen.
    { apply Hf. apply nth_In. now rewrite scan_length. }
    apply (nth_ext _ _ 0%R 0%R).
    + rewrite Hlen. unfold row_mean. now rewrite map_length, seq_length.
    + intros c Hc. rewrite Hlen in Hc.
      destruct (cum_scan_nth nc c s Hc (repeat 0%R nc) 0 k Hs (repeat_length _ _) Hlt) as [E _].
      rewrite E. unfold row_mean.
      rewrite (nth_indep (map (fun c0 => rmean (channel c0 (firstn (S k) s))) (seq 0 nc))
                 0%R (rmean (channel 0 (firstn (S k) s)))) by (rewrite map_length, seq_length; auto).
      rewrite (map_nth (fun c => rmean (channel c (firstn (S k) s))) (seq 0 nc) 0 c).
      rewrite seq_nth by auto. cbn [Nat.add]. unfold rmean. rewrite nth_repeat.
      unfold channel. rewrite map_length, firstn_length, Nat.min_l by lia.
      now rewrite Rplus_0_l.
Qed.

Lemma prefix_means_ok (src : source (list R)) nc s :
  wf_source src s -> Forall (fun r => length r = nc) s ->
  wf_source (time_cum_average_result src) (prefix_means nc s).
Proof.
  intros Hw Hs. rewrite <- cum_scan_prefix_means by auto. now apply time_cum_average_scan.
Qed.

Lemma p_ok_mixer p ps : p_ok (PMixer p ps) ->
  p_ok p /\ Forall (fun q => p_ok q /\ (p_freq q == p_freq p)%Q /\ p_nch q = p_nch p) ps.
Proof.
  intros [H1 H2]. split; auto. induction ps as [|q ps IH]; constructor; destruct H2; auto.
Qed.

Theorem pipe_delivers p :
  p_ok p ->
  wf_source (p_result p) (p_stream p) /\ Forall (fun r => length r = p_nch p) (p_stream p).
Proof.
  induction p as [f n ns src s | d i p IH | a b i g p IH | w p IH | p IH | p IH | g p IH
                 | sos p IH | w g p IH | n p IH | p ps IH IHs] using pipe_induction; intros Hok.
  - exact Hok.
  - destruct Hok as (Hp & Hv & Hl). destruct (IH Hp) as [Hw Hr]. cbn [p_result p_stream p_nch]. split.
    + apply calib_delivers; auto; rewrite node_columns_p; auto.
    + rewrite Forall_map. eapply Forall_impl; [|exact Hr]. intros r E. simpl in E.
      assert (forall (x y : list R), length x = length y -> length (rowmul Rmult x y) = length y) as G.
      { clear. induction x as [|u x IHx]; intros [|v y] H; simpl in *; try lia. f_equal. apply IHx. lia. }
      rewrite G; congruence.
  - destruct Hok as (Hp & Hns & Hv & Hne). destruct (IH Hp) as [Hw Hr].
    cbn [p_result p_stream p_nch]. rewrite Hns. split.
    + apply masked_time_out_delivers; auto.
    + rewrite Forall_map. unfold sliced. apply filteri_from_Forall.
      eapply Forall_impl; [|exact Hr]. intros r E. simpl in E.
      now rewrite <- num_channels_valid, E.
  - destruct Hok as (Hp & Hl). destruct (IH Hp) as [Hw Hr]. cbn [p_result p_stream p_nch]. split.
    + apply channel_mixer_delivers; auto.
    + rewrite Forall_map. apply Forall_forall. intros r _. reflexivity.
  - destruct (IH Hok) as [Hw Hr]. cbn [p_result p_stream p_nch]. split.
    + apply time_power_delivers; auto.
    + rewrite Forall_map. eapply Forall_impl; [|exact Hr]. intros r E. now rewrite map_length.
  - destruct (IH Hok) as [Hw Hr]. cbn [p_result p_stream p_nch]. split.
    + apply prefix_means_ok; auto.
    + rewrite <- cum_scan_prefix_means by auto. apply cum_scan_lengths; auto. apply repeat_length.
  - destruct Hok as (Hp & Hne). destruct (IH Hp) as [Hw Hr]. cbn [p_result p_stream p_nch]. split.
    + apply time_reverse_delivers; auto.
    + rewrite Forall_forall in *. intros x Hx. apply Hr. now apply in_rev.
  - destruct (IH Hok) as [Hw Hr]. cbn [p_result p_stream p_nch]. split.
    + intros num Hn. apply filter_delivers; auto.
    + assert (length (zero_state sos (p_nch p)) = p_nch p) as E by apply repeat_length.
      pose proof (rowstep_lengths sos (p_stream p) (zero_state sos (p_nch p))) as G.
      rewrite E in G. now apply G.
  - destruct Hok as (Hp & Hns & Hwh). destruct (IH Hp) as [Hw Hr].
    cbn [p_result p_stream p_nch]. rewrite Hns. split.
    + apply filtfilt_delivers; auto.
    + now apply Hwh.
  - destruct Hok as (Hp & Hn). destruct (IH Hp) as [Hw Hr]. cbn [p_result p_stream p_nch]. split.
    + apply average_delivers; auto.
    + rewrite Forall_map. apply Forall_forall. intros g _. unfold row_mean.
      now rewrite map_length, seq_length.
  - apply p_ok_mixer in Hok. destruct Hok as (Hp & Hps). destruct (IH Hp) as [Hw Hr].
    cbn [p_result p_stream p_nch].
    assert (Forall (fun q => wf_source (p_result q) (p_stream q)
                             /\ Forall (fun r => length r = p_nch p) (p_stream q)) ps) as Hall.
    { rewrite Forall_forall in *. intros q Hq. destruct (Hps q Hq) as (Hq1 & _ & Hq3).
      specialize (IHs q Hq Hq1). now rewrite Hq3 in IHs. }
    split.
    + apply mixer_delivers; auto.
      * clear - Hall. induction Hall as [|q ps [Hq _] Hall IH]; simpl; constructor; auto.
      * rewrite Forall_map. eapply Forall_impl; [|exact Hps]. intros q (_ & H2 & H3). simpl. auto.
    + apply sum_streams_Forall; auto. rewrite Forall_map. eapply Forall_impl; [|exact Hall]. tauto.
Qed.

(** Block-size independence. *)
Theorem pipe_independent p num1 num2 :
  p_ok p -> 0 < num1 -> 0 < num2 ->
  concat (blocks (p_result p num1)) = concat (blocks (p_result p num2))
  /\ (fin (p_result p num1) = Finished /\ full_blocks num1 (blocks (p_result p num1)))
  /\ (fin (p_result p num2) = Finished /\ full_blocks num2 (blocks (p_result p num2))).
Proof.
  intros Hok H1 H2. destruct (pipe_delivers p Hok) as [Hw _].
  destruct (Hw num1 H1) as (F1 & C1 & B1). destruct (Hw num2 H2) as (F2 & C2 & B2).
  rewrite C1, C2. auto.
Qed.

(** A MaskedTimeOut or FiltFiltOctave behind an Average always fails: the
    number of samples Average reports is a float (process.py:139-143), which
    slice.indices and numpy.empty refuse. *)
Theorem masked_after_average nav a b i g p num :
  p_result (PMasked a b i g (PAverage nav p)) num = raise TypeError.
Proof. reflexivity. Qed.
