(* CLEAN in the time domain: BeamformerCleant and BeamformerCleantSq
   (tbeamform.py:126-232, 552-645).

   The windows that the sample buffer delivers are those of BeamformerTime
   (Das.v); this file models what is done with a window.  A window is read as
   a function of row and channel; the rows read and written lie inside it
   because it has max_sample_delay rows more than the block (Das.didx_bound). *)
From Coq Require Import List Arith Lia ZArith Bool Reals Lra.
From Verif Require Import Stream Cplx Buffer Wav TimeBeam Das DasTraj Beamform Deconv Rotation TimeSteer.
Import ListNotations.
Local Open Scope R_scope.

Section Clean.
  Variables (G M : nat) (dly amp rm : nat -> nat -> R) (r0 : nat -> R) (damp : R) (rdiag : bool).

  (** One delayed and weighted microphone signal, _delayandsum4
      (tfastfuncs.py:25-80). *)
  Definition ctap (q : nat -> nat -> R) (n g m : nat) : R :=
    let i := (didx (dly g m) + n)%nat in let fr := dfrac (dly g m) in
    (q i m * (1 - fr) + q (i + 1)%nat m * fr) * amp g m.
  (** _delay_and_sum: result and autopow (tbeamform.py:226-232). *)
  Definition phi q n g : R := rsumn M (ctap q n g).
  Definition autopow q n g : R := rsumn M (fun m => ctap q n g m * ctap q n g m).

  (** powPhi (tbeamform.py:193, 204-207). *)
  Definition mpow num q g : R :=
    if rdiag then Rmax 0 (rsumn num (fun n => phi q n g * phi q n g - autopow q n g))
    else rsumn num (fun n => phi q n g * phi q n g).
  Definition total num q : R := rsumn G (mpow num q).

  (** The subtraction of the signal of the focus point from the microphone
      signals (tbeamform.py:194-202).  [polyline] is numpy.interp; t_float are
      the delays plus 0..num-1, t_ind the rows from the truncated delay on,
      num + 1 of them. *)
  Definition spread num q imax (i m : nat) : R :=
    polyline (map (fun n => (dly imax m + INR n, phi q n imax * r0 imax / rm imax m)) (seq 0 num)) (INR i).
  Definition strip num q imax : nat -> nat -> R := fun i m =>
    let d := didx (dly imax m) in
    if ((d <=? i) && (i <=? d + num))%nat then q i m - damp * spread num q imax i m else q i m.

  (** Gamma and Gamma_autopow. *)
  Record cstate := mkC { cq : nat -> nat -> R; gam : nat -> nat -> R; gau : nat -> nat -> R }.
  Definition cstep num (st : cstate) : cstate :=
    let q := cq st in
    let imax := argmax G (mpow num q) in
    mkC (strip num q imax)
        (fun n g => if (g =? imax)%nat then gam st n g + damp * phi q n g else gam st n g)
        (fun n g => if (g =? imax)%nat then autopow q n g else gau st n g).
  (** while self.n_iter > J (tbeamform.py:191-218). *)
  Fixpoint cloop num (n_iter : nat) (st : cstate) : cstate :=
    match n_iter with
    | O => st
    | S n' => let st' := cstep num st in
              if Rlt_dec (total num (cq st')) (total num (cq st)) then cloop num n' st' else st
    end.
  Definition cleaned num n_iter q : cstate := cloop num n_iter (mkC q (fun _ _ => 0) (fun _ _ => 0)).

  (** The three outputs (tbeamform.py:219-224). *)
  Inductive cout := CPlain | CSquare.
  Definition cval (o : cout) (st : cstate) n g : R :=
    match o with
    | CPlain => gam st n g
    | CSquare => if rdiag then gam st n g * gam st n g - damp * damp * gau st n g else gam st n g * gam st n g
    end.
  Definition clean_window o num n_iter (p : list (list R)) : list (list R) :=
    let st := cleaned num n_iter (sample p) in
    map (fun n => map (cval o st n) (seq 0 G)) (seq 0 num).

  (** The loop over the windows (tbeamform.py:172-224), as Das.bft_loop.  A
      window of exactly max_sample_delay rows leaves no sample: the first
      iteration then calls numpy.interp without sample points, which raises
      ValueError. *)
  Fixpoint ct_loop o (n_iter num cur : nat) (ws : list (list (list R))) (e : ending) : trace (list R) :=
    match ws with
    | [] => mkTrace [] e
    | p :: ps =>
        let msd := max_sample_delay G M dly in
        let short := (length p <? num + msd)%nat in
        if short && (length p <? msd)%nat then raise ValueError
        else
          let cur := if short then (length p - msd)%nat else cur in
          if ((cur =? 0) && (0 <? n_iter))%nat then raise ValueError else
          let t := ct_loop o n_iter num cur ps e in
          mkTrace (clean_window o cur n_iter p :: blocks t) (fin t)
    end.
  Definition ct_result o n_iter (wts : option (nat -> R)) (src : source (list R)) (fuel num : nat) : trace (list R) :=
    let msd := max_sample_delay G M dly in
    let t := samples_buffer_mut (weight_row wts) [] (fun _ => Some (num + msd)%nat)
               ((num + msd + num - 1) / num * num)%nat src fuel num in
    ct_loop o n_iter num num (blocks t) (fin t).

  (** ** The loop of one window *)
  Lemma cloop_states num n_iter : forall st, exists J, (J <= n_iter)%nat /\
    cloop num n_iter st = Nat.iter J (cstep num) st /\
    (forall j, (j < J)%nat ->
       total num (cq (Nat.iter (S j) (cstep num) st)) < total num (cq (Nat.iter j (cstep num) st))) /\
    ((J < n_iter)%nat -> total num (cq (Nat.iter J (cstep num) st)) <= total num (cq (Nat.iter (S J) (cstep num) st))).
  Proof.
    induction n_iter as [|n IH]; intros st.
    - exists 0%nat. repeat split; auto; intros; lia.
    - cbn [cloop]. cbv zeta. destruct (Rlt_dec _ _) as [H|H].
      + destruct (IH (cstep num st)) as (J & HJ & E & Hd & Hs). exists (S J).
        assert (Sh : forall j, Nat.iter j (cstep num) (cstep num st) = Nat.iter (S j) (cstep num) st).
        { intros j. induction j as [|j IHj]; [reflexivity|].
          change (cstep num (Nat.iter j (cstep num) (cstep num st)) = cstep num (Nat.iter (S j) (cstep num) st)).
          now rewrite IHj. }
        split; [lia|]. split; [rewrite E; apply Sh|]. split.
        * intros [|j] Hj; [exact H|]. specialize (Hd j ltac:(lia)). rewrite !Sh in Hd. exact Hd.
        * intros HJ'. specialize (Hs ltac:(lia)). rewrite !Sh in Hs. exact Hs.
      + exists 0%nat. split; [lia|]. split; [reflexivity|]. split; [intros; lia|]. intros _. apply Rnot_lt_le in H. exact H.
  Qed.

  (** Gamma collects the accepted iterations. *)
  Lemma gam_iter num q0 n g : forall J,
    gam (Nat.iter J (cstep num) (mkC q0 (fun _ _ => 0) (fun _ _ => 0))) n g
    = rsumn J (fun j => let q := cq (Nat.iter j (cstep num) (mkC q0 (fun _ _ => 0) (fun _ _ => 0))) in
                        if (g =? argmax G (mpow num q))%nat then damp * phi q n g else 0).
  Proof.
    induction J as [|J IH]; [reflexivity|].
    change (Nat.iter (S J) (cstep num) ?x) with (cstep num (Nat.iter J (cstep num) x)).
    cbn [rsumn]. cbv zeta in IH |- *. rewrite <- IH. cbn [cstep gam].
    destruct (_ =? _)%nat; ring.
  Qed.
End Clean.

(** numpy.interp on equidistant nodes, evaluated at a node or after the last. *)
Lemma polyline_cons2 a b r x : polyline (a :: b :: r) x =
  if Rlt_dec x (fst a) then snd a
  else if Rlt_dec x (fst b) then (snd b - snd a) / (fst b - fst a) * (x - fst a) + snd a
  else polyline (b :: r) x.
Proof. reflexivity. Qed.

Lemma polyline_nodes c (h : nat -> R) : forall k a i,
  polyline (map (fun n => (c + INR n, h n)) (seq a (S k))) (c + INR (a + i)) = h (a + Nat.min i k)%nat.
Proof.
  induction k as [|k IH]; intros a i.
  - cbn [seq map polyline snd]. f_equal. lia.
  - change (seq a (S (S k))) with (a :: S a :: seq (S (S a)) k). cbn [map]. rewrite polyline_cons2. cbn [fst snd].
    pose proof (pos_INR i). assert (E : INR (a + i) = INR a + INR i) by apply plus_INR.
    destruct (Rlt_dec (c + INR (a + i)) (c + INR a)) as [H1|H1]; [lra|].
    destruct (Rlt_dec (c + INR (a + i)) (c + INR (S a))) as [H2|H2]; rewrite S_INR in *.
    + destruct i as [|i]; [|rewrite S_INR in *; pose proof (pos_INR i); lra].
      cbn [Nat.min]. rewrite Nat.add_0_r. field. lra.
    + destruct i as [|i]; [cbn [INR] in *; lra|].
      specialize (IH (S a) i). cbn [seq map] in IH. rewrite S_INR in IH. replace (a + S i)%nat with (S a + i)%nat by lia.
      rewrite IH. f_equal. lia.
Qed.

Lemma rsumn_term_le n f l : (l < n)%nat -> (forall k, 0 <= f k) -> f l <= rsumn n f.
Proof.
  intros Hl Hf. induction n as [|n IH]; [lia|]. cbn [rsumn]. pose proof (Hf n).
  destruct (Nat.eq_dec l n) as [->|N].
  - assert (0 <= rsumn n f) by (apply rsumn_nonneg; auto). lra.
  - specialize (IH ltac:(lia)). lra.
Qed.

(** ** One focus point, delays of whole samples *)
Section OnePoint.
  Variables (M : nat) (dly amp rm : nat -> nat -> R) (r0 : nat -> R) (damp : R) (num : nat).
  Hypothesis Hn : (0 < num)%nat.
  Hypothesis Hdamp : 0 < damp <= 1.
  Variable d : nat -> nat.
  Hypothesis Hd : forall m, (m < M)%nat -> dly 0%nat m = INR (d m).
  Hypothesis Hs : rsumn M (fun m => r0 0%nat / rm 0%nat m * amp 0%nat m) = 1.

  Lemma one_ctap q n m : (m < M)%nat -> ctap dly amp q n 0 m = q (d m + n)%nat m * amp 0%nat m.
  Proof.
    intros Hm. unfold ctap. rewrite (Hd m Hm), didx_INR, dfrac_INR. cbv zeta. ring.
  Qed.
  Lemma one_didx m : (m < M)%nat -> didx (dly 0%nat m) = d m.
  Proof.
    intros Hm. rewrite (Hd m Hm). apply didx_INR.
  Qed.

  Lemma one_phi_strip q n : (n < num)%nat ->
    phi M dly amp (strip M dly amp rm r0 damp num q 0) n 0 = (1 - damp) * phi M dly amp q n 0.
  Proof.
    intros Hnn. unfold phi at 1.
    transitivity (rsumn M (fun m => ctap dly amp q n 0 m + - (damp * phi M dly amp q n 0) * (r0 0%nat / rm 0%nat m * amp 0%nat m))).
    - apply rsumn_ext. intros m Hm. rewrite !one_ctap by exact Hm. unfold strip. cbv zeta. rewrite one_didx by exact Hm.
      destruct (Nat.leb_spec (d m) (d m + n)); [|lia]. destruct (Nat.leb_spec (d m + n) (d m + num)); [|lia]. cbn [andb].
      unfold spread. rewrite (Hd m Hm), plus_INR.
      destruct num as [|k] eqn:E; [lia|].
      pose proof (polyline_nodes (INR (d m)) (fun n => phi M dly amp q n 0 * r0 0%nat / rm 0%nat m) k 0 n) as P.
      cbn [plus] in P. rewrite P. cbv beta. replace (Nat.min n k) with n by lia. unfold Rdiv. ring.
    - rewrite rsumn_add, rsumn_scal, Hs. fold (phi M dly amp q n 0). ring.
  Qed.

  Notation st0 q := (mkC q (fun _ _ => 0) (fun _ _ => 0)).
  Notation step := (cstep 1 M dly amp rm r0 damp false num).

  Lemma one_iter q : forall j n, (n < num)%nat ->
    phi M dly amp (cq (Nat.iter j step (st0 q))) n 0 = (1 - damp) ^ j * phi M dly amp q n 0
    /\ gam (Nat.iter j step (st0 q)) n 0 = (1 - (1 - damp) ^ j) * phi M dly amp q n 0.
  Proof.
    induction j as [|j IH]; intros n Hnn.
    - cbn. split; ring.
    - destruct (IH n Hnn) as [IH1 IH2].
      change (Nat.iter (S j) step (st0 q)) with (step (Nat.iter j step (st0 q))).
      set (st := Nat.iter j step (st0 q)) in *. unfold cstep. cbv zeta. cbn [cq gam].
      change (argmax 1 (mpow M dly amp false num (cq st))) with 0%nat. cbn [Nat.eqb].
      rewrite one_phi_strip by exact Hnn. rewrite IH1, IH2. cbn [pow]. split; ring.
  Qed.

  Lemma one_total q j : total 1 M dly amp false num (cq (Nat.iter j step (st0 q)))
    = (1 - damp) ^ j * (1 - damp) ^ j * total 1 M dly amp false num q.
  Proof.
    unfold total. cbn [rsumn]. unfold mpow. rewrite !Rplus_0_l, <- rsumn_scal. apply rsumn_ext. intros n Hnn.
    rewrite (proj1 (one_iter q j n Hnn)). ring.
  Qed.

  Theorem one_point q n_iter n : (n < num)%nat ->
    gam (cleaned 1 M dly amp rm r0 damp false num n_iter q) n 0 = (1 - (1 - damp) ^ n_iter) * phi M dly amp q n 0.
  Proof.
    intros Hnn. unfold cleaned.
    destruct (cloop_states 1 M dly amp rm r0 damp false num n_iter (st0 q)) as (J & HJ & E & _ & Hst).
    rewrite E, (proj2 (one_iter q J n Hnn)).
    destruct (Nat.eq_dec J n_iter) as [->|NJ]; [reflexivity|]. specialize (Hst ltac:(lia)). rewrite !one_total in Hst.
    set (T := total 1 M dly amp false num q) in *. set (x := (1 - damp) ^ J) in *.
    assert (HT : 0 <= T).
    { unfold T, total. cbn [rsumn]. unfold mpow. rewrite Rplus_0_l. apply rsumn_nonneg. intros. apply Rle_0_sqr. }
    assert (Hx : 0 <= x) by (apply pow_le; lra).
    cbn [Nat.iter] in Hst. change ((1 - damp) ^ S J) with ((1 - damp) * x) in Hst.
    assert (Z : x * x * T = 0).
    { assert (0 <= x * x * T) by (repeat apply Rmult_le_pos; lra).
      assert (x * x * T <= (1 - damp) * (1 - damp) * (x * x * T)) by lra.
      assert ((1 - damp) * (1 - damp) <= 1 - damp) by (apply Rle_trans with (1 * (1 - damp)); [apply Rmult_le_compat_r; lra|lra]).
      assert ((1 - damp) * (1 - damp) * (x * x * T) <= (1 - damp) * (x * x * T)) by (apply Rmult_le_compat_r; lra).
      assert (damp * (x * x * T) <= 0) by lra.
      destruct (Req_dec (x * x * T) 0) as [e|ne]; [exact e|]. exfalso.
      assert (0 < damp * (x * x * T)) by (apply Rmult_lt_0_compat; lra). lra. }
    apply Rmult_integral in Z. destruct Z as [Z|Z].
    - assert (x = 0) by (apply Rmult_integral in Z; tauto).
      assert (E1 : (1 - damp) ^ n_iter = 0).
      { replace n_iter with (J + (n_iter - J))%nat by lia. rewrite pow_add. fold x. rewrite H. ring. }
      rewrite E1, H. ring.
    - assert (P0 : phi M dly amp q n 0 = 0).
      { unfold T, total in Z. cbn [rsumn] in Z. unfold mpow in Z. rewrite Rplus_0_l in Z.
        assert (Q : phi M dly amp q n 0 * phi M dly amp q n 0 = 0).
        { apply Rle_antisym; [|apply Rle_0_sqr]. rewrite <- Z.
          apply (rsumn_term_le num (fun n => phi M dly amp q n 0 * phi M dly amp q n 0) n Hnn).
          intros; apply Rle_0_sqr. }
        apply Rmult_integral in Q. tauto. }
      rewrite P0. ring.
  Qed.
End OnePoint.

(** ** The stream *)
Section CtTrace.
  Variables (G M : nat) (dly amp rm : nat -> nat -> R) (r0 : nat -> R) (damp : R) (rdiag : bool).
  Variables (o : cout) (n_iter : nat) (wts : option (nat -> R)).
  Variables (num : nat) (s : list (list R)).
  Hypothesis Hnum : (0 < num)%nat.
  Hypothesis Hit : (0 < n_iter)%nat.
  Notation N := (length s).
  Notation msd := (max_sample_delay G M dly).
  Notation mw := (mwindow (weight_row wts) [] (fun _ => (num + msd)%nat) num s).
  Notation nb := ((N - msd + num - 1) / num)%nat.
  Notation cw := (clean_window G M dly amp rm r0 damp rdiag o).

  Lemma ct_loop_ok : forall j k, (k + j = (N + num - 1) / num)%nat ->
    ct_loop G M dly amp rm r0 damp rdiag o n_iter num num (map mw (seq k j)) Finished
    = mkTrace (map (fun k => cw (Nat.min num (N - msd - k * num)) n_iter (mw k)) (seq k (nb - k)))
              (if ((N + num - 1) / num <=? Nat.max k nb)%nat then Finished else Raised ValueError).
  Proof.
    pose proof (msd_pos G M dly amp num Hnum) as MP.
    assert (NB : forall k, (k < nb)%nat <-> (k * num < N - msd)%nat) by (intros k; symmetry; apply ceil_div_lt; exact Hnum).
    assert (NA : forall k, (k < (N + num - 1) / num)%nat <-> (k * num < N)%nat) by (intros k; symmetry; apply ceil_div_lt; exact Hnum).
    assert (NL : (nb <= (N + num - 1) / num)%nat) by (apply Nat.div_le_mono; lia).
    assert (ML : forall k, length (mw k) = Nat.min (num + msd) (N - k * num)).
    { intros k. unfold mwindow. now rewrite map_length, seq_length. }
    assert (IT : (0 <? n_iter)%nat = true) by (apply Nat.ltb_lt; exact Hit).
    induction j as [|j IH]; intros k Hk.
    - rewrite Nat.add_0_r in Hk. cbn [seq map ct_loop].
      replace (nb - k)%nat with 0%nat by lia. cbn [seq map].
      rewrite (proj2 (Nat.leb_le _ _)) by lia. reflexivity.
    - cbn [seq map ct_loop]. cbv zeta. rewrite IT.
      pose proof (proj1 (NA k) ltac:(lia)) as Hlt. pose proof (NB k) as NBk.
      pose proof (NB (S k)) as NB1. pose proof (NA (S k)) as NA1.
      destruct (Nat.ltb_spec (length (mw k)) (num + msd)) as [Hs|Hs]; rewrite ML in Hs.
      + destruct (Nat.ltb_spec (length (mw k)) msd) as [Hm|Hm]; rewrite ML in Hm.
        * cbn [andb]. replace (nb - k)%nat with 0%nat by lia. cbn [seq map].
          rewrite (proj2 (Nat.leb_gt _ _)) by lia. reflexivity.
        * cbn [andb]. rewrite ML.
          replace (Nat.min (num + msd) (N - k * num) - msd)%nat with (Nat.min num (N - msd - k * num)) by lia.
          destruct (Nat.eqb_spec (Nat.min num (N - msd - k * num)) 0) as [Hz|Hz].
          { cbn [andb]. replace (nb - k)%nat with 0%nat by lia. cbn [seq map].
            rewrite (proj2 (Nat.leb_gt _ _)) by lia. reflexivity. }
          cbn [andb]. replace (nb - k)%nat with 1%nat by lia. cbn [seq map].
          destruct j as [|j].
          -- cbn [seq map ct_loop blocks fin]. rewrite (proj2 (Nat.leb_le _ _)) by lia. reflexivity.
          -- cbn [seq map ct_loop]. cbv zeta.
             assert (length (mw (S k)) < msd)%nat as Hsh by (rewrite ML; lia).
             rewrite (proj2 (Nat.ltb_lt _ (num + msd))) by lia. rewrite (proj2 (Nat.ltb_lt _ msd)) by lia.
             cbn [andb blocks fin raise]. rewrite (proj2 (Nat.leb_gt _ _)) by lia. reflexivity.
      + cbn [andb]. rewrite (proj2 (Nat.eqb_neq num 0)) by lia. cbn [andb].
        replace (nb - k)%nat with (S (nb - S k)) by lia. cbn [seq map].
        rewrite IH by lia. cbn [blocks fin].
        replace (Nat.min num (N - msd - k * num)) with num by lia. f_equal.
        replace (Nat.max k nb) with (Nat.max (S k) nb) by lia. reflexivity.
  Qed.

  Lemma ct_trace (src : source (list R)) fuel : wf_source src s -> (N < fuel)%nat ->
    ct_result G M dly amp rm r0 damp rdiag o n_iter wts src fuel num
    = mkTrace (map (fun k => cw (Nat.min num (N - msd - k * num)) n_iter (mw k)) (seq 0 nb))
              (if ((N + num - 1) / num <=? nb)%nat then Finished else Raised ValueError).
  Proof.
    intros Hw Hf. unfold ct_result. cbv zeta.
    rewrite (proj1 (samples_buffer_mut_users (weight_row wts) [] [] src s fuel num Hw Hnum Hf) msd)
      by (pose proof (msd_pos G M dly amp num Hnum); lia).
    cbn [blocks fin done]. rewrite ct_loop_ok by lia. rewrite Nat.sub_0_r, Nat.max_0_l. reflexivity.
  Qed.
End CtTrace.

(** Blocks of [num] rows, the last one shorter, none empty. *)
Lemma ceil_blocks_concat num (row : nat -> list R) T : (0 < num)%nat ->
  concat (map (fun k => map row (seq (k * num) (Nat.min num (T - k * num)))) (seq 0 ((T + num - 1) / num)))
  = map row (seq 0 T).
Proof.
  intros Hn.
  assert (H : forall j, concat (map (fun k => map row (seq (k * num) (Nat.min num (T - k * num)))) (seq 0 j))
                        = map row (seq 0 (Nat.min (j * num) T))).
  { induction j as [|j IH]; [reflexivity|].
    rewrite seq_S, map_app, concat_app, IH. cbn [map concat]. rewrite app_nil_r, <- map_app. f_equal.
    destruct (le_lt_dec T (j * num)) as [L|L].
    - replace (Nat.min num (T - (0 + j) * num))%nat with 0%nat by (cbn; lia).
      replace (Nat.min (S j * num) T) with (Nat.min (j * num) T) by (cbn; lia). cbn [seq]. apply app_nil_r.
    - replace (Nat.min (j * num) T) with (j * num)%nat by lia.
      replace (Nat.min (S j * num) T) with (j * num + Nat.min num (T - (0 + j) * num))%nat by (cbn; lia).
      rewrite seq_app. reflexivity. }
  rewrite H. replace (Nat.min _ T) with T; [reflexivity|].
  pose proof (ceil_div_lt T num ((T + num - 1) / num) Hn). lia.
Qed.

(** Samples of a window without weights. *)
Lemma mw_plain W num (s : list (list R)) k i m : (i < W)%nat -> (k * num + i < length s)%nat ->
  sample (mwindow (weight_row None) [] (fun _ => W) num s k) i m = sample s (k * num + i) m.
Proof.
  intros Hi Hk. unfold sample, mwindow. rewrite nth_map_seq by lia.
  f_equal. generalize (seen (fun _ => W) num (S k) (k * num + i)). intros c.
  induction c as [|c IH]; [reflexivity|]. cbn [Nat.iter nat_rect weight_row] in *. exact IH.
Qed.

Theorem one_point_stream M dly rm r0 st damp n_iter (d : nat -> nat) num src s fuel :
  (0 < M)%nat -> 0 < r0 0%nat -> (forall m, (m < M)%nat -> 0 < rm 0%nat m) -> 0 < damp <= 1 ->
  st = Inverse \/ st = TrueLevel ->
  (forall g m, 0 <= dly g m) -> (forall m, (m < M)%nat -> dly 0%nat m = INR (d m)) ->
  (0 < num)%nat -> (0 < n_iter)%nat -> (forall r, In r s -> (M <= length r)%nat) -> wf_source src s -> (length s < fuel)%nat ->
  let amp := fun g m => steer_time st M (rm g) (r0 g) m in
  concat (blocks (ct_result 1 M dly amp rm r0 damp false CPlain n_iter None src fuel num))
  = map (fun n => map (Rmult (1 - (1 - damp) ^ n_iter)) (das_row 1 M out_sum dly amp s n))
        (seq 0 (length s - max_sample_delay 1 M dly)).
Proof.
  intros HM H0 Hr Hdamp Hst Hp Hd Hn Hit Hc Hw Hf amp.
  rewrite (ct_trace 1 M dly amp rm r0 damp false CPlain n_iter None num s Hn Hit src fuel Hw Hf). cbn [blocks].
  set (msd := max_sample_delay 1 M dly). set (T := (length s - msd)%nat).
  assert (Hs : rsumn M (fun m => r0 0%nat / rm 0%nat m * amp 0%nat m) = 1).
  { transitivity (rsumn M (fun m => amp 0%nat m * (r0 0%nat / rm 0%nat m))); [apply rsumn_ext; intros; ring|].
    unfold amp. rewrite (steer_time_level M (r0 0%nat) (rm 0%nat) HM H0 Hr). destruct Hst as [-> | ->]; reflexivity. }
  rewrite <- (ceil_blocks_concat num (fun n => map (Rmult (1 - (1 - damp) ^ n_iter)) (das_row 1 M out_sum dly amp s n)) T Hn).
  fold msd. fold T. f_equal. apply map_ext_in. intros k Hk. apply in_seq in Hk.
  assert (HB : (k * num < T)%nat) by (apply (ceil_div_lt T num k Hn); lia). unfold T in HB.
  unfold clean_window. cbv zeta. set (cur := Nat.min num (T - k * num)).
  set (q := sample (mwindow _ _ _ _ _ _)).
  replace (seq (k * num) cur) with (map (fun n => (k * num + n)%nat) (seq 0 cur)).
  2:{ clear. generalize (k * num)%nat. intros a. apply (nth_ext _ _ 0%nat 0%nat); [now rewrite map_length, !seq_length|].
      rewrite map_length, seq_length. intros i Hi. rewrite nth_map_seq, seq_nth by auto. lia. }
  rewrite map_map. apply map_ext_in. intros n Hnn. apply in_seq in Hnn. cbn [seq map]. f_equal.
  cbn [cval]. rewrite (one_point M dly amp rm r0 damp cur ltac:(lia) Hdamp d Hd Hs) by lia. f_equal. unfold cur, T in Hnn.
  unfold phi, das_row. cbn [seq map]. unfold out_sum.
  rewrite rsum_seq.
  f_equal. f_equal.
  apply rsumn_ext. intros m Hm. rewrite (one_ctap M dly amp d Hd) by exact Hm. rewrite (Hd m Hm), lerp_INR.
  pose proof (didx_bound 1 M dly 0 m ltac:(lia) Hm) as HB2. rewrite (Hd m Hm), didx_INR in HB2. fold msd in HB2.
  unfold q. rewrite mw_plain by lia. rewrite Rmult_comm. f_equal. f_equal. lia.
Qed.
