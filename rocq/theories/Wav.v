(** WriteWAV.save (/repo/acoular/tprocess.py:1810-1836) over real samples. *)
From Coq Require Import List Arith Lia ZArith Bool Reals Lra.
Require Import ZifyBool ZifyNat ZifyN.
From Verif Require Import Stream Sources.
Import ListNotations.
Ltac Zify.zify_post_hook ::= Z.div_mod_to_equations.
Local Open Scope R_scope.

(** C conversion of a floating-point number to an integer type (in range):
    truncation toward zero ([array(..., dtype=int16)], line 1832). *)
Definition trunc (x : R) : Z := if Rle_dec 0 x then Int_part x else (- Int_part (- x))%Z.

(** [row[i]] with Python's negative indices; [None] is IndexError. *)
Definition py_nth (row : list R) (i : Z) : option R :=
  if (i <? 0)%Z
  then if (0 <=? i + Z.of_nat (length row))%Z then nth_error row (Z.to_nat (i + Z.of_nat (length row))) else None
  else nth_error row (Z.to_nat i).

(** What is in the file, or how [save] failed.  [WavUndefined]: the maximum is
    a NumPy zero, the scale is [inf], and [0 * inf = nan] is cast to int16,
    which C leaves undefined. *)
Inductive wav_outcome := Wav (frames : list (list Z)) | WavError (e : exn) | WavUndefined.

(** [data[:, ind]] of one block (line 1829 and 1832). *)
Definition select (channels : list Z) (block : list (list R)) : option (list (list R)) :=
  sequence (map (fun row => sequence (map (py_nth row) channels)) block).

(** [abs(...).max()] of a non-empty array. *)
Definition block_max (b : list (list R)) : R := fold_right Rmax 0 (map Rabs (concat b)).

(** The first pass, lines 1828-1829.  Samples are non-negative after [abs], so
    starting [block_max] at 0 changes nothing. *)
Fixpoint wav_peak (channels : list Z) (bs : list (list (list R))) (e : ending) (mx : R) : R + exn :=
  match bs with
  | [] => match e with Finished => inl mx | Raised x => inr x end
  | b :: bs' =>
      match b with
      | [] => inr ValueError
      | _ => match select channels b with
             | None => inr IndexError
             | Some d => wav_peak channels bs' e (Rmax (block_max d) mx)
             end
      end
  end.

(** The second pass, lines 1831-1832. *)
Fixpoint wav_frames (channels : list Z) (scale : R) (bs : list (list (list R))) (e : ending)
    : list (list Z) + exn :=
  match bs with
  | [] => match e with Finished => inl [] | Raised x => inr x end
  | b :: bs' =>
      match select channels b with
      | None => inr IndexError
      | Some d => match wav_frames channels scale bs' e with
                  | inl r => inl (map (map (fun x => trunc (x * scale))) d ++ r)
                  | inr x => inr x
                  end
      end
  end.

(** WriteWAV.save, tprocess.py:1810-1836. *)
Definition wav_save (channels : list Z) (src : source (list R)) : wav_outcome :=
  match channels with
  | [] => WavError ValueError
  | _ =>
      let t := src 1024%nat in
      match wav_peak channels (blocks t) (fin t) 0 with
      | inr e => WavError e
      | inl mx =>
          if Req_EM_T mx 0
          then match blocks t with [] => WavError ZeroDivisionError | _ => WavUndefined end
          else match wav_frames channels (0.9 * 2 ^ 15 / mx) (blocks t) (fin t) with
               | inl f => Wav f
               | inr e => WavError e
               end
      end
  end.

(* ------------------------------------------------------------------ *)
(** * Specification *)

(** The selected channels of a row, negative indices counting from the end. *)
Definition selected (nch : nat) (channels : list Z) (row : list R) : list R :=
  map (fun c => nth (Z.to_nat (c mod Z.of_nat nch)) row 0) channels.

(** [m] is the peak magnitude of the samples [xs]. *)
Definition is_peak (m : R) (xs : list R) : Prop :=
  (forall x, In x xs -> Rabs x <= m) /\ (exists x, In x xs /\ Rabs x = m).

(* ------------------------------------------------------------------ *)

Lemma Int_part_bounds x : IZR (Int_part x) <= x < IZR (Int_part x) + 1.
Proof.
  unfold Int_part. destruct (archimed x) as [H1 H2]. rewrite minus_IZR. lra.
Qed.

Lemma Int_part_le x y : x <= y -> (Int_part x <= Int_part y)%Z.
Proof.
  intros H. pose proof (Int_part_bounds x). pose proof (Int_part_bounds y).
  apply Z.lt_succ_r. apply lt_IZR. rewrite succ_IZR. lra.
Qed.

Lemma Int_part_unique x k : IZR k <= x < IZR k + 1 -> Int_part x = k.
Proof.
  intros H. pose proof (Int_part_bounds x).
  assert (k < Int_part x + 1)%Z by (apply lt_IZR; rewrite plus_IZR; lra).
  assert (Int_part x < k + 1)%Z by (apply lt_IZR; rewrite plus_IZR; lra). lia.
Qed.

Lemma trunc_le x y : x <= y -> (trunc x <= trunc y)%Z.
Proof.
  intros H. unfold trunc. destruct (Rle_dec 0 x); destruct (Rle_dec 0 y).
  - now apply Int_part_le.
  - lra.
  - assert (0 <= Int_part (- x))%Z.
    { apply Z.lt_succ_r, lt_IZR. rewrite succ_IZR. pose proof (Int_part_bounds (-x)). lra. }
    assert (0 <= Int_part y)%Z.
    { apply Z.lt_succ_r, lt_IZR. rewrite succ_IZR. pose proof (Int_part_bounds y). lra. }
    lia.
  - apply Z.opp_le_mono. rewrite !Z.opp_involutive. apply Int_part_le. lra.
Qed.

Lemma trunc_opp x : trunc (- x) = (- trunc x)%Z.
Proof.
  unfold trunc. destruct (Rle_dec 0 x); destruct (Rle_dec 0 (- x)); rewrite ?Ropp_involutive; try lia.
  - assert (x = 0) by lra. subst. rewrite Ropp_0.
    rewrite (Int_part_unique 0 0); [lia|]. lra.
  - lra.
Qed.

(** Truncation loses less than one unit, toward zero. *)
Lemma trunc_spec x : Rabs (IZR (trunc x)) <= Rabs x < Rabs (IZR (trunc x)) + 1.
Proof.
  assert (forall y, 0 <= y -> Rabs (IZR (trunc y)) <= Rabs y < Rabs (IZR (trunc y)) + 1) as H.
  { intros y Hy. unfold trunc. destruct (Rle_dec 0 y); [|lra].
    pose proof (Int_part_bounds y).
    assert (0 <= Int_part y)%Z by (apply Z.lt_succ_r, lt_IZR; rewrite succ_IZR; lra).
    assert (0 <= IZR (Int_part y)) by (now apply IZR_le).
    rewrite !Rabs_right by lra. lra. }
  destruct (Rle_dec 0 x); auto.
  specialize (H (- x) ltac:(lra)). rewrite trunc_opp, opp_IZR, !Rabs_Ropp in H. exact H.
Qed.

Lemma trunc_bound x (k : Z) : Rabs x < IZR k + 1 -> (Z.abs (trunc x) <= k)%Z.
Proof.
  intros H. pose proof (trunc_spec x) as [H1 _]. rewrite <- abs_IZR in H1.
  apply Z.lt_succ_r, lt_IZR. rewrite succ_IZR. lra.
Qed.

Lemma py_nth_selected nch c row :
  length row = nch -> (- Z.of_nat nch <= c < Z.of_nat nch)%Z ->
  py_nth row c = Some (nth (Z.to_nat (c mod Z.of_nat nch)) row 0).
Proof.
  intros Hl Hc. unfold py_nth. rewrite Hl.
  destruct (Z.ltb_spec c 0).
  - rewrite (proj2 (Z.leb_le 0 (c + Z.of_nat nch))) by lia.
    assert (c mod Z.of_nat nch = c + Z.of_nat nch)%Z as ->.
    { symmetry. apply Z.mod_unique with (-1)%Z; lia. }
    apply nth_error_nth'. lia.
  - rewrite Z.mod_small by lia. apply nth_error_nth'. lia.
Qed.

Lemma sequence_map_some {A B} (f : A -> option B) (g : A -> B) l :
  (forall x, In x l -> f x = Some (g x)) -> sequence (map f l) = Some (map g l).
Proof.
  induction l as [|a l IH]; intros H; simpl; auto.
  rewrite H by (left; auto). rewrite IH; auto. intros x Hx. apply H. now right.
Qed.

Section Wav.
Context (nch : nat) (channels : list Z).
Hypothesis Hch : Forall (fun c => - Z.of_nat nch <= c < Z.of_nat nch)%Z channels.

Lemma select_ok b : Forall (fun r => length r = nch) b ->
  select channels b = Some (map (selected nch channels) b).
Proof.
  intros Hb. unfold select. apply sequence_map_some. intros row Hr.
  unfold selected. apply sequence_map_some. intros c Hc.
  rewrite Forall_forall in Hb, Hch. apply py_nth_selected; auto.
Qed.

Lemma wav_peak_ok bs : forall mx,
  Forall (fun b => b <> [] /\ Forall (fun r => length r = nch) b) bs ->
  wav_peak channels bs Finished mx
  = inl (fold_left (fun m b => Rmax (block_max (map (selected nch channels) b)) m) bs mx).
Proof.
  induction bs as [|b bs IH]; intros mx H; simpl; auto.
  inversion H as [|? ? [Hne Hb] Hbs]; subst.
  destruct b as [|r b]; [congruence|]. rewrite select_ok by auto. now rewrite IH.
Qed.

Lemma block_max_peak d m : block_max d <= m <-> 0 <= m /\ forall x, In x (concat d) -> Rabs x <= m.
Proof.
  unfold block_max. induction (concat d) as [|x l IH]; simpl.
  - split; [intros; split; auto; intros ? []|tauto].
  - split.
    + intros H. pose proof (Rmax_l (Rabs x) (fold_right Rmax 0 (map Rabs l))).
      pose proof (Rmax_r (Rabs x) (fold_right Rmax 0 (map Rabs l))).
      destruct (proj1 IH ltac:(lra)) as [H3 H4]. split; auto.
      intros y [->|Hy]; auto. lra.
    + intros [H1 H2]. apply Rmax_lub; [apply H2; auto|]. apply IH. split; auto.
Qed.

Lemma block_max_attained d : block_max d = 0 \/ exists x, In x (concat d) /\ Rabs x = block_max d.
Proof.
  unfold block_max. induction (concat d) as [|x l IH]; simpl; auto.
  set (M := fold_right Rmax 0 (map Rabs l)) in *.
  destruct (Rle_dec (Rabs x) M) as [H|H].
  - rewrite Rmax_right by auto. destruct IH as [IH|(y & Hy & E)]; [auto|right]. exists y. auto.
  - rewrite Rmax_left by lra. right. exists x. auto.
Qed.

Lemma peak_fold bs : forall mx, 0 <= mx ->
  let m := fold_left (fun m b => Rmax (block_max (map (selected nch channels) b)) m) bs mx in
  let xs := concat (map (selected nch channels) (concat bs)) in
  mx <= m /\ (forall x, In x xs -> Rabs x <= m)
  /\ (m = mx \/ m = 0 \/ exists x, In x xs /\ Rabs x = m).
Proof.
  induction bs as [|b bs IH]; intros mx Hmx m xs.
  - unfold m, xs; simpl. repeat split; auto; [lra|]. intros ? [].
  - unfold m, xs. cbn [fold_left concat]. rewrite map_app, concat_app.
    set (bm := block_max (map (selected nch channels) b)).
    pose proof (Rmax_r bm mx) as Hr. pose proof (Rmax_l bm mx) as Hl.
    destruct (IH (Rmax bm mx) ltac:(lra)) as (H1 & H2 & H3).
    split; [lra|]. split.
    + intros x Hx. apply in_app_iff in Hx. destruct Hx as [Hx|Hx]; [|auto].
      apply Rle_trans with bm; [|lra].
      apply (proj1 (block_max_peak (map (selected nch channels) b) bm)); [|auto]. apply Rle_refl.
    + destruct H3 as [H3|[H3|(x & Hx & E)]]; auto.
      * rewrite H3. unfold Rmax. destruct (Rle_dec bm mx); auto. right.
        destruct (block_max_attained (map (selected nch channels) b)) as [H|(x & Hx & E)]; auto.
        right. exists x. split; auto. apply in_app_iff. auto.
      * right. right. exists x. split; auto. apply in_app_iff. auto.
Qed.

Lemma wav_frames_ok scale bs :
  Forall (fun b => Forall (fun r => length r = nch) b) bs ->
  wav_frames channels scale bs Finished
  = inl (map (fun row => map (fun x => trunc (x * scale)) (selected nch channels row)) (concat bs)).
Proof.
  induction 1 as [|b bs Hb Hbs IH]; simpl; auto.
  rewrite select_ok, IH by auto. rewrite map_app, map_map. reflexivity.
Qed.

Theorem wav_save_spec (src : source (list R)) s :
  wf_source src s -> Forall (fun r => length r = nch) s -> channels <> [] ->
  let xs := concat (map (selected nch channels) s) in
  (Exists (fun x => x <> 0) xs ->
     exists m, is_peak m xs /\ 0 < m
       /\ wav_save channels src
          = Wav (map (fun row => map (fun x => trunc (x * (0.9 * 2 ^ 15 / m))) (selected nch channels row)) s)
       /\ (forall x, In x xs -> (Z.abs (trunc (x * (0.9 * 2 ^ 15 / m))) <= 29491)%Z)
       /\ (forall x, In x xs -> Rabs x = m -> (Z.abs (trunc (x * (0.9 * 2 ^ 15 / m))) = 29491)%Z)
       /\ (forall x y, x <= y ->
             (trunc (x * (0.9 * 2 ^ 15 / m)) <= trunc (y * (0.9 * 2 ^ 15 / m)))%Z))
  /\ (s <> [] -> Forall (fun x => x = 0) xs -> wav_save channels src = WavUndefined)
  /\ (s = [] -> wav_save channels src = WavError ZeroDivisionError).
Proof.
  intros Hw Hs Hne xs.
  assert (blocks (src 1024%nat) = chunks 1024 s /\ fin (src 1024%nat) = Finished) as [Eb Ef].
  { rewrite (wf_source_eq src s) by (auto; lia). auto. }
  assert (Forall (fun b => b <> [] /\ Forall (fun r => length r = nch) b) (chunks 1024 s)) as Hall.
  { apply Forall_forall. intros b Hb. split.
    - apply chunks_in_len in Hb; [|lia]. intros ->. simpl in Hb. lia.
    - apply (chunks_in_forall _ 1024 s b); auto. lia. }
  assert (concat (chunks 1024 s) = s) as Ec by (apply concat_chunks; lia).
  pose proof (peak_fold (chunks 1024 s) 0 (Rle_refl 0)) as Hpeak. cbv zeta in Hpeak.
  rewrite Ec in Hpeak. fold xs in Hpeak.
  unfold wav_save. destruct channels as [|c0 chs] eqn:Ech; [congruence|]. rewrite <- Ech in *.
  rewrite Eb, Ef, wav_peak_ok by auto.
  set (m := fold_left _ _ _) in *. destruct Hpeak as (Hm0 & Hle & Hat).
  split; [|split].
  - intros Hex. apply Exists_exists in Hex. destruct Hex as (x0 & Hx0 & Hnz).
    pose proof (Rabs_pos_lt x0 Hnz) as Hpos. pose proof (Hle x0 Hx0) as Hle0.
    exists m. split.
    { split; auto. destruct Hat as [H|[H|H]]; [lra|lra|exact H]. }
    split; [lra|].
    destruct (Req_EM_T m 0); [lra|].
    rewrite wav_frames_ok.
    2:{ eapply Forall_impl; [|exact Hall]. intros b [_ Hb]. exact Hb. }
    rewrite Ec. split; auto.
    assert (forall x, Rabs x <= m -> Rabs (x * (0.9 * 2 ^ 15 / m)) = Rabs x / m * 29491.2) as Hval.
    { intros x Hx. rewrite Rabs_mult. rewrite (Rabs_right (0.9 * 2 ^ 15 / m)).
      - replace (0.9 * 2 ^ 15) with 29491.2 by lra. unfold Rdiv. ring.
      - apply Rle_ge. apply Rmult_le_pos; [lra|]. left. apply Rinv_0_lt_compat. lra. }
    assert (forall x, Rabs x <= m -> 0 <= Rabs x / m <= 1) as Hratio.
    { intros x Hx. pose proof (Rabs_pos x). split.
      - apply Rmult_le_pos; auto. left. apply Rinv_0_lt_compat. lra.
      - apply Rmult_le_reg_r with m; [lra|]. unfold Rdiv. rewrite Rmult_assoc, Rinv_l by lra. lra. }
    assert (forall x, Rabs x <= m -> (Z.abs (trunc (x * (0.9 * 2 ^ 15 / m))) <= 29491)%Z) as Hb.
    { intros x Hx. apply trunc_bound. rewrite Hval by auto. pose proof (Hratio x Hx). lra. }
    split; [|split].
    + intros x Hx. apply Hb. auto.
    + intros x Hx E. apply Z.le_antisymm; [apply Hb; lra|].
      pose proof (trunc_spec (x * (0.9 * 2 ^ 15 / m))) as [_ H2].
      rewrite Hval, E in H2 by lra. rewrite <- abs_IZR in H2.
      apply Z.lt_succ_r, lt_IZR. rewrite succ_IZR.
      replace (m / m) with 1 in H2 by (field; lra). lra.
    + intros x y Hxy. apply trunc_le. apply Rmult_le_compat_r; auto.
      apply Rmult_le_pos; [lra|]. left. apply Rinv_0_lt_compat. lra.
  - intros Hsne Hz. destruct (Req_EM_T m 0) as [E|E].
    + destruct (chunks 1024 s) eqn:Ech2; auto. rewrite <- Ec in Hsne. now elim Hsne.
    + destruct Hat as [H|[H|(x & Hx & H)]]; try lra.
      rewrite Forall_forall in Hz. rewrite (Hz x Hx), Rabs_R0 in H. lra.
  - intros ->. unfold m. rewrite chunks_nil. simpl. destruct (Req_EM_T 0 0); auto. lra.
Qed.
End Wav.
