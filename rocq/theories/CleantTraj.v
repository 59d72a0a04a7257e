(** CLEAN in the time domain for moving grids: BeamformerCleantTraj and
    BeamformerCleantSqTraj (tbeamform.py:356-502, 648-749).  The windows are
    those of BeamformerTimeTraj (DasTraj.v); a window is read as a function of row
    and channel, as in Cleant.v. *)
From Coq Require Import List Arith Lia ZArith Bool Reals Lra FunctionalExtensionality.
From Verif Require Import Stream Cplx Buffer Wav TimeBeam Das DasTraj Beamform Deconv Rotation TimeSteer Cleant.
Import ListNotations.
Local Open Scope R_scope.

(** numpy's max and min over a nonempty axis *)
Definition rmax_of (l : list R) : R := match l with [] => 0 | x :: l' => fold_left Rmax l' x end.
Definition rmin_of (l : list R) : R := match l with [] => 0 | x :: l' => fold_left Rmin l' x end.

Section Window.
  (** Delays in samples, amplitudes, distances (blockrm1) and reference distances for row
      [n] of the block. *)
  Variables (G M : nat) (dl am rm : nat -> nat -> nat -> R) (r0 : nat -> nat -> R) (damp : R) (rdiag : bool).

  (** _delayandsum5 (tfastfuncs.py:85-140), tbeamform.py:496-502 *)
  Definition mtap (q : nat -> nat -> R) (n g m : nat) : R :=
    let i := (didx (dl n g m) + n)%nat in let fr := dfrac (dl n g m) in
    (q i m * (1 - fr) + q (i + 1)%nat m * fr) * am n g m.
  Definition mphi q n g : R := rsumn M (mtap q n g).
  Definition mauto q n g : R := rsumn M (fun m => mtap q n g m * mtap q n g m).
  (** powPhi (tbeamform.py:451-454, 476-479) *)
  Definition mopow num q g : R :=
    if rdiag then Rmax 0 (rsumn num (fun n => mphi q n g * mphi q n g - mauto q n g))
    else rsumn num (fun n => mphi q n g * mphi q n g).
  Definition mtotal num q : R := rsumn G (mopow num q).

  (** The subtraction (tbeamform.py:456-473): t_float, the rows from the
      truncated smallest to the truncated largest delay plus two, numpy.interp
      ([polyline]; it needs increasing t_float, that is, motion slower than sound). *)
  Definition t_float num imax m : list R := map (fun n => dl n imax m + INR n) (seq 0 num).
  Definition ind_max num imax m : nat := didx (rmax_of (t_float num imax m)) + 2.
  Definition ind_min num imax m : nat := didx (rmin_of (t_float num imax m)).
  Definition mspread num q imax (i m : nat) : R :=
    polyline (map (fun n => (dl n imax m + INR n, mphi q n imax * r0 n imax / rm n imax m)) (seq 0 num)) (INR i).
  Definition mstrip num q imax : nat -> nat -> R := fun i m =>
    if ((ind_min num imax m <=? i) && (i <? ind_max num imax m))%nat then q i m - damp * mspread num q imax i m else q i m.

  Definition mstep num (st : cstate) : cstate :=
    let q := cq st in
    let imax := argmax G (mopow num q) in
    mkC (mstrip num q imax)
        (fun n g => if (g =? imax)%nat then gam st n g + damp * mphi q n g else gam st n g)
        (fun n g => if (g =? imax)%nat then mauto q n g else gau st n g).
  (** while self.n_iter > J (tbeamform.py:449-488) *)
  Fixpoint mloop num (n_iter : nat) (st : cstate) : cstate :=
    match n_iter with
    | O => st
    | S n' => let st' := mstep num st in
              if Rlt_dec (mtotal num (cq st')) (mtotal num (cq st)) then mloop num n' st' else st
    end.
  Definition mcleaned num n_iter q : cstate := mloop num n_iter (mkC q (fun _ _ => 0) (fun _ _ => 0)).
  (** tbeamform.py:489-494 *)
  Definition mclean_window (o : cout) num n_iter (p : list (list R)) : list (list R) :=
    let st := mcleaned num n_iter (sample p) in
    map (fun n => map (cval damp rdiag o st n) (seq 0 G)) (seq 0 num).

  Lemma mloop_states num n_iter : forall st, exists J, (J <= n_iter)%nat /\
    mloop num n_iter st = Nat.iter J (mstep num) st /\
    (forall j, (j < J)%nat ->
       mtotal num (cq (Nat.iter (S j) (mstep num) st)) < mtotal num (cq (Nat.iter j (mstep num) st))) /\
    ((J < n_iter)%nat -> mtotal num (cq (Nat.iter J (mstep num) st)) <= mtotal num (cq (Nat.iter (S J) (mstep num) st))).
  Proof.
    induction n_iter as [|n IH]; intros st.
    - exists 0%nat. repeat split; auto; intros; lia.
    - cbn [mloop]. cbv zeta. destruct (Rlt_dec _ _) as [H|H].
      + destruct (IH (mstep num st)) as (J & HJ & E & Hd & Hs). exists (S J).
        assert (Sh : forall j, Nat.iter j (mstep num) (mstep num st) = Nat.iter (S j) (mstep num) st).
        { intros j. induction j as [|j IHj]; [reflexivity|].
          change (mstep num (Nat.iter j (mstep num) (mstep num st)) = mstep num (Nat.iter (S j) (mstep num) st)).
          now rewrite IHj. }
        split; [lia|]. split; [rewrite E; apply Sh|]. split.
        * intros [|j] Hj; [exact H|]. specialize (Hd j ltac:(lia)). rewrite !Sh in Hd. exact Hd.
        * intros HJ'. specialize (Hs ltac:(lia)). rewrite !Sh in Hs. exact Hs.
      + exists 0%nat. split; [lia|]. split; [reflexivity|]. split; [intros; lia|]. intros _. apply Rnot_lt_le in H. exact H.
  Qed.

  Lemma mgam_iter num q0 n g : forall J,
    gam (Nat.iter J (mstep num) (mkC q0 (fun _ _ => 0) (fun _ _ => 0))) n g
    = rsumn J (fun j => let q := cq (Nat.iter j (mstep num) (mkC q0 (fun _ _ => 0) (fun _ _ => 0))) in
                        if (g =? argmax G (mopow num q))%nat then damp * mphi q n g else 0).
  Proof.
    induction J as [|J IH]; [reflexivity|].
    change (Nat.iter (S J) (mstep num) ?x) with (mstep num (Nat.iter J (mstep num) x)).
    cbn [rsumn]. cbv zeta in IH |- *. rewrite <- IH. cbn [mstep gam].
    destruct (_ =? _)%nat; ring.
  Qed.
End Window.

(** * The stream *)
Section Stream.
  (** As DasTraj.Traj, with the distances. *)
  Variables (G M : nat) (dl am rm : nat -> nat -> nat -> R) (r0 : nat -> nat -> R) (damp : R) (rdiag : bool).
  Variables (o : cout) (n_iter : nat) (wts : option (nat -> R)) (T : nat).

  Definition block_window (num k n : nat) (p : list (list R)) : list (list R) :=
    mclean_window G M (fun i => dl (k * num + i)%nat) (fun i => am (k * num + i)%nat) (fun i => rm (k * num + i)%nat)
      (fun i => r0 (k * num + i)%nat) damp rdiag o n n_iter p.

  (** tbeamform.py:404-494.  A last window that leaves no row: t_float has no
      rows and its maximum raises ValueError (tbeamform.py:461). *)
  Fixpoint mt_loop (num k : nat) (ws : list (list (list R))) (e : ending) : trace (list R) :=
    if (T <? (k + 1) * num)%nat then raise RuntimeError
    else match ws with
    | [] => mkTrace [] e
    | p :: ps =>
        let short := (length p <? num + tmsd G M dl num k)%nat in
        let n := if short then count (fun i => dmax G M dl (k * num + i) + 1 + i <? length p)%nat num else num in
        if ((n =? 0) && (0 <? n_iter))%nat then raise ValueError
        else
          let rows := block_window num k n p in
          if short then done [rows]
          else let t := mt_loop num (S k) ps e in mkTrace (rows :: blocks t) (fin t)
    end.
  Definition mt_result (src : source (list R)) (fuel num : nat) : trace (list R) :=
    let t := samples_buffer_mut (weight_row wts) [] (fun k => Some (num + tmsd G M dl num k)%nat) (num * 2)%nat src fuel num in
    mt_loop num 0 (blocks t) (fin t).

  (** Whatever the ending: block [k] is made of window [k]. *)
  Lemma block_window_length num k n p : length (block_window num k n p) = n.
  Proof. unfold block_window, mclean_window. now rewrite map_length, seq_length. Qed.
  Lemma mt_loop_block num (w : nat -> list (list R)) e : forall c k j b,
    nth_error (blocks (mt_loop num k (map w (seq k c)) e)) j = Some b ->
    b = block_window num (k + j) (length b) (w (k + j)%nat).
  Proof.
    induction c as [|c IH]; intros k j b H; cbn [seq map mt_loop] in H; destruct (T <? (k + 1) * num)%nat.
    1, 2: destruct j; discriminate H.
    1: destruct j; discriminate H.
    cbv zeta in H. destruct (_ && _)%bool; [destruct j; discriminate H|].
    destruct (_ <? _)%nat.
    - destruct j as [|j]; [|destruct j; discriminate H]. cbn in H. injection H as <-. rewrite Nat.add_0_r, block_window_length. reflexivity.
    - destruct j as [|j].
      + cbn [blocks nth_error] in H. injection H as <-. rewrite Nat.add_0_r, block_window_length. reflexivity.
      + cbn [blocks nth_error] in H. rewrite <- Nat.add_succ_comm. apply IH, H.
  Qed.
  Lemma mt_block num s (src : source (list R)) fuel k b : (0 < num)%nat -> wf_source src s -> (length s < fuel)%nat ->
    nth_error (blocks (mt_result src fuel num)) k = Some b ->
    b = block_window num k (length b) (mwindow (weight_row wts) [] (fun k => (num + tmsd G M dl num k)%nat) num s k).
  Proof.
    intros Hn Hw Hf. unfold mt_result.
    rewrite (proj2 (samples_buffer_mut_users (weight_row wts) [] [] src s fuel num Hw Hn Hf) (tmsd G M dl num)).
    cbn [blocks fin done]. apply mt_loop_block.
  Qed.

  Section Trace.
  Variables (num : nat) (s : list (list R)).
  Hypothesis Hnum : (0 < num)%nat.
  Hypothesis Hit : (0 < n_iter)%nat.
  Notation N := (length s).
  Notation mw := (mwindow (weight_row wts) [] (fun k => (num + tmsd G M dl num k)%nat) num s).
  Notation full := (tfull G M dl num s).
  Notation last_rows := (fun K => count (fun i => dmax G M dl (K * num + i) + 1 + i <? N - K * num)%nat num).

  Lemma mt_loop_ok K : ((K + 1) * num <= T)%nat -> (K * num < N)%nat -> full K = false ->
    (forall k, (k < K)%nat -> full k = true) ->
    forall j k c, (k + j = K)%nat -> (K < k + c)%nat -> (c <= (N + num - 1) / num - k)%nat ->
    mt_loop num k (map mw (seq k c)) Finished
    = mkTrace (map (fun k => block_window num k num (mw k)) (seq k j)
               ++ if (last_rows K =? 0)%nat then [] else [block_window num K (last_rows K) (mw K)])
              (if (last_rows K =? 0)%nat then Raised ValueError else Finished).
  Proof.
    intros HT HK HKf Hfull.
    assert (IT : (0 <? n_iter)%nat = true) by (apply Nat.ltb_lt; exact Hit).
    assert (ML : forall k, length (mw k) = Nat.min (num + tmsd G M dl num k) (N - k * num)).
    { intros k. unfold mwindow. now rewrite map_length, seq_length. }
    induction j as [|j IH]; intros k c Hj Hc Hcn.
    - assert (k = K) as -> by lia. destruct c as [|c]; [lia|]. cbn [seq map mt_loop app].
      rewrite (proj2 (Nat.ltb_ge T _)) by lia.
      unfold tfull in HKf. apply Nat.leb_gt in HKf.
      assert (length (mw K) = N - K * num)%nat as HL by (rewrite ML; lia).
      rewrite (proj2 (Nat.ltb_lt (length (mw K)) _)) by lia. cbv zeta. rewrite HL, IT, andb_true_r.
      destruct (_ =? 0)%nat; reflexivity.
    - destruct c as [|c]; [lia|]. cbn [seq map mt_loop app].
      assert ((k + 1) * num <= (K + 1) * num)%nat by (apply Nat.mul_le_mono_r; lia).
      rewrite (proj2 (Nat.ltb_ge T _)) by lia.
      specialize (Hfull k ltac:(lia)) as Hk. unfold tfull in Hk. apply Nat.leb_le in Hk.
      assert (length (mw k) = num + tmsd G M dl num k)%nat as HL by (rewrite ML; lia).
      rewrite (proj2 (Nat.ltb_ge (length (mw k)) _)) by lia. cbv zeta.
      rewrite (proj2 (Nat.eqb_neq num 0)) by lia. cbn [andb].
      rewrite IH by lia. reflexivity.
  Qed.

  Lemma mt_trace (src : source (list R)) fuel : (forall n g m, 0 <= dl n g m) -> wf_source src s -> (N < fuel)%nat -> (0 < N)%nat ->
    exists K, (K * num < N)%nat /\ (forall k, (k < K)%nat -> ((k + 1) * num + tmsd G M dl num k <= N)%nat)
      /\ (N < (K + 1) * num + tmsd G M dl num K)%nat
      /\ ((T < (K + 1) * num)%nat -> fin (mt_result src fuel num) = Raised RuntimeError)
      /\ (((K + 1) * num <= T)%nat -> mt_result src fuel num
          = mkTrace (map (fun k => block_window num k num (mw k)) (seq 0 K)
               ++ if (last_rows K =? 0)%nat then [] else [block_window num K (last_rows K) (mw K)])
              (if (last_rows K =? 0)%nat then Raised ValueError else Finished)).
  Proof.
    intros Hp Hw Hf HN. destruct (first_short G M dl am Hp num s Hnum HN) as (K & H1 & H2 & H3). exists K. split; [exact H1|].
    split. { intros k Hk. specialize (H3 k Hk). unfold tfull in H3. now apply Nat.leb_le in H3. }
    split. { unfold tfull in H2. now apply Nat.leb_gt in H2. }
    unfold mt_result.
    rewrite (proj2 (samples_buffer_mut_users (weight_row wts) [] [] src s fuel num Hw Hnum Hf) (tmsd G M dl num)).
    cbn [blocks fin done]. pose proof (proj1 (ceil_div_lt N num K Hnum) H1) as Hc. split.
    - intros HT.
      assert (HL : forall j k c, (k + j = K)%nat -> (K < k + c)%nat ->
         fin (mt_loop num k (map mw (seq k c)) Finished) = Raised RuntimeError).
      { induction j as [|j IH]; intros k c Hj Hk.
        - assert (k = K) as -> by lia. destruct c as [|c]; [lia|]. cbn [seq map mt_loop].
          rewrite (proj2 (Nat.ltb_lt T _)) by lia. reflexivity.
        - destruct c as [|c]; [lia|]. cbn [seq map mt_loop].
          destruct (T <? (k + 1) * num)%nat; [reflexivity|].
          specialize (H3 k ltac:(lia)). unfold tfull in H3. apply Nat.leb_le in H3.
          rewrite (proj2 (Nat.ltb_ge _ _)) by (unfold mwindow; rewrite map_length, seq_length; lia). cbv zeta.
          rewrite (proj2 (Nat.eqb_neq num 0)) by lia. cbn [andb fin]. apply IH; lia. }
      apply (HL K 0%nat); lia.
    - intros HT. apply (mt_loop_ok K HT H1 H2 H3 K 0%nat); lia.
  Qed.
  End Trace.
End Stream.

(** * At rest: the window of Cleant.v *)
Lemma fold_max_seq d : forall k a x, x <= d + INR a -> (0 < k)%nat ->
  fold_left Rmax (map (fun n => d + INR n) (seq a k)) x = d + INR (a + k - 1).
Proof.
  induction k as [|k IH]; intros a x Hx Hk; [lia|]. cbn [seq map fold_left]. rewrite Rmax_right by exact Hx.
  destruct k as [|k].
  - cbn. f_equal. f_equal. lia.
  - rewrite IH; [f_equal; f_equal; lia| |lia]. rewrite S_INR. lra.
Qed.
Lemma fold_min_seq d : forall k a x, x <= d + INR a ->
  fold_left Rmin (map (fun n => d + INR n) (seq a k)) x = x.
Proof.
  induction k as [|k IH]; intros a x Hx; [reflexivity|]. cbn [seq map fold_left]. rewrite Rmin_left by exact Hx.
  apply IH. rewrite S_INR. lra.
Qed.
Lemma didx_plus d n : 0 <= d -> didx (d + INR n) = (didx d + n)%nat.
Proof.
  intros Hd. pose proof (pos_INR n) as Hn. unfold didx.
  destruct (trunc_nonneg d Hd) as [-> Hi]. destruct (trunc_nonneg (d + INR n) ltac:(lra)) as [-> _].
  assert (Int_part (d + INR n) = Int_part d + Z.of_nat n)%Z as ->.
  { apply Int_part_unique. rewrite plus_IZR, <- INR_IZR_INZ. pose proof (Int_part_bounds d). lra. }
  lia.
Qed.

Section Rest.
  Variables (G M : nat) (dly amp rm : nat -> nat -> R) (r0 : nat -> R) (damp : R) (rdiag : bool).
  Hypothesis Hd : forall g m, 0 <= dly g m.
  Let dl := fun _ : nat => dly. Let am := fun _ : nat => amp. Let rmm := fun _ : nat => rm. Let rr := fun _ : nat => r0.

  Lemma rest_strip num q imax : (0 < num)%nat ->
    mstrip M dl am rmm rr damp num q imax = strip M dly amp rm r0 damp num q imax.
  Proof.
    intros Hn. apply functional_extensionality. intros i. apply functional_extensionality. intros m.
    unfold mstrip, strip. cbv zeta.
    assert (A : ind_min dl num imax m = didx (dly imax m)).
    { unfold ind_min, t_float, dl. destruct num as [|k]; [lia|]. cbn [seq map rmin_of]. rewrite fold_min_seq by (cbn; lra).
      rewrite didx_plus by apply Hd. lia. }
    assert (B : ind_max dl num imax m = (didx (dly imax m) + num + 1)%nat).
    { unfold ind_max, t_float, dl. destruct num as [|k]; [lia|]. cbn [seq map rmax_of]. destruct k as [|k].
      - cbn [seq map fold_left]. rewrite didx_plus by apply Hd. lia.
      - rewrite fold_max_seq by (cbn; lra || lia). rewrite didx_plus by apply Hd. lia. }
    rewrite A, B. unfold mspread, spread, dl, rmm, rr.
    destruct (Nat.leb_spec (didx (dly imax m)) i); cbn [andb]; [|reflexivity].
    destruct (Nat.ltb_spec i (didx (dly imax m) + num + 1)), (Nat.leb_spec i (didx (dly imax m) + num)); try lia; reflexivity.
  Qed.

  Lemma rest_loop num n_iter : (0 < num)%nat -> forall st,
    mloop G M dl am rmm rr damp rdiag num n_iter st = cloop G M dly amp rm r0 damp rdiag num n_iter st.
  Proof.
    intros Hn. induction n_iter as [|n IH]; intros st; [reflexivity|]. cbn [mloop cloop]. cbv zeta.
    assert (E : mstep G M dl am rmm rr damp rdiag num st = cstep G M dly amp rm r0 damp rdiag num st).
    { unfold mstep, cstep. cbv zeta. rewrite rest_strip by exact Hn. reflexivity. }
    rewrite E. rewrite IH. reflexivity.
  Qed.

  Lemma rest_window o num n_iter p : (0 < num)%nat ->
    mclean_window G M dl am rmm rr damp rdiag o num n_iter p = clean_window G M dly amp rm r0 damp rdiag o num n_iter p.
  Proof. intros Hn. unfold mclean_window, clean_window, mcleaned, cleaned. now rewrite rest_loop. Qed.
End Rest.

(** The rows next to every delay lie in the subtracted range. *)
Lemma fold_max_ge l : forall x, x <= fold_left Rmax l x /\ forall y, In y l -> y <= fold_left Rmax l x.
Proof. intros x. destruct (fold_rmax_spec l x) as (A & B & _). split; assumption. Qed.
Lemma fold_min_le l : forall x, fold_left Rmin l x <= x /\ (forall y, In y l -> fold_left Rmin l x <= y)
  /\ (fold_left Rmin l x = x \/ In (fold_left Rmin l x) l).
Proof.
  induction l as [|a l IH]; intros x; cbn [fold_left].
  - split; [lra|]. split; [intros y []|left; reflexivity].
  - destruct (IH (Rmin x a)) as (A & B & C). pose proof (Rmin_l x a). pose proof (Rmin_r x a).
    split; [lra|]. split.
    + intros y [<-|Hy]; [lra|]. apply B, Hy.
    + destruct C as [C|C]; [|right; right; exact C]. rewrite C. unfold Rmin. destruct (Rle_dec x a); [left|right; left]; reflexivity.
Qed.
Lemma window_rows dl num imax m n : (forall n g m, 0 <= dl n g m) -> (n < num)%nat ->
  (ind_min dl num imax m <= n + didx (dl n imax m))%nat /\ (n + didx (dl n imax m) + 2 <= ind_max dl num imax m)%nat.
Proof.
  intros Hp Hn. unfold ind_min, ind_max.
  assert (I1 : In (dl n imax m + INR n) (t_float dl num imax m)).
  { unfold t_float. apply in_map_iff. exists n. split; [reflexivity|]. apply in_seq. lia. }
  rewrite Nat.add_comm, <- didx_plus by apply Hp. set (v := dl n imax m + INR n) in *.
  destruct (t_float dl num imax m) as [|x l]; [destruct I1|]. cbn [rmax_of rmin_of].
  destruct (fold_max_ge l x) as [A1 A2]. destruct (fold_min_le l x) as (B1 & B2 & B3).
  assert (v <= fold_left Rmax l x) by (destruct I1 as [->|I1]; [exact A1|apply A2, I1]).
  assert (fold_left Rmin l x <= v) by (destruct I1 as [->|I1]; [exact B1|apply B2, I1]).
  assert (T1 : (trunc v <= trunc (fold_left Rmax l x))%Z) by (apply trunc_le; assumption).
  assert (T2 : (trunc (fold_left Rmin l x) <= trunc v)%Z) by (apply trunc_le; assumption).
  unfold didx. lia.
Qed.

Lemma nmax_spec l v : (forall x, In x l -> (x <= v)%nat) -> In v l -> nmax l = v.
Proof.
  intros H1 H2. pose proof (nmax_ge l v H2). apply Nat.le_antisymm; [|assumption].
  clear H2 H. induction l as [|a l IH]; cbn; [lia|].
  specialize (IH (fun x Hx => H1 x (or_intror Hx))). specialize (H1 a (or_introl eq_refl)). unfold nmax in IH. cbn in IH. lia.
Qed.

Lemma rest_dmax G M dly reach n : (forall g m, 0 <= dly g m) -> is_reach G M dly reach ->
  (dmax G M (fun _ => dly) n + 2 = reach)%nat.
Proof.
  intros Hp (H1 & g & m & Hg & Hm & H2).
  assert (B : forall g m, INR (didx (dly g m)) <= dly g m < INR (didx (dly g m)) + 1).
  { intros g' m'. specialize (Hp g' m'). unfold didx. destruct (trunc_nonneg _ Hp) as [-> Hi].
    pose proof (Int_part_bounds (dly g' m')). rewrite INR_IZR_INZ, Z2Nat.id by lia. lra. }
  assert (L : forall g m, (g < G)%nat -> (m < M)%nat -> (didx (dly g m) + 2 <= reach)%nat).
  { intros g' m' Hg' Hm'. specialize (H1 g' m' Hg' Hm'). specialize (B g' m').
    assert (didx (dly g' m') + 1 < reach)%nat; [|lia]. apply INR_lt. rewrite plus_INR. simpl (INR 1). lra. }
  assert (E : (didx (dly g m) + 2 = reach)%nat).
  { specialize (L g m Hg Hm). apply Nat.le_antisymm; [exact L|]. apply Nat.lt_succ_r. apply INR_lt. rewrite S_INR, plus_INR. simpl (INR 2).
    specialize (B g m). lra. }
  rewrite <- E. f_equal. unfold dmax. apply nmax_spec.
  - intros x Hx. apply in_flat_map in Hx. destruct Hx as (g' & Hg' & Hx). apply in_map_iff in Hx. destruct Hx as (m' & <- & Hm').
    apply in_seq in Hg', Hm'. specialize (L g' m' ltac:(lia) ltac:(lia)). lia.
  - apply in_flat_map. exists g. split; [apply in_seq; lia|]. apply in_map_iff. exists m. split; [reflexivity|]. apply in_seq; lia.
Qed.

Lemma count_lt c n : (c <= n)%nat -> count (fun i => i <? c)%nat n = c.
Proof.
  intros H.
  assert (P : forall i, (i < n)%nat -> (i < count (fun i => i <? c)%nat n <-> (i <? c)%nat = true)%nat).
  { apply count_prefix_iff. intros i _ Hi. apply Nat.ltb_lt in Hi. apply Nat.ltb_lt. lia. }
  pose proof (count_le (fun i => i <? c)%nat n) as Hl.
  destruct (Nat.lt_trichotomy (count (fun i => i <? c)%nat n) c) as [E|[E|E]]; [|exact E|].
  - exfalso. specialize (P (count (fun i => i <? c)%nat n) ltac:(lia)). rewrite Nat.ltb_lt in P. lia.
  - exfalso. specialize (P c ltac:(lia)). rewrite Nat.ltb_lt in P. lia.
Qed.
