(** CLEAN (BeamformerClean) for sources that the array separates: the loop of
    fbeamform.py:1652-1663 ([clean_body], [clean_loop] in Deconv.v) finds them. *)
From Coq Require Import List Arith Lia ZArith Bool Reals Lra.
From Verif Require Import Stream Cplx Buffer Frames Convolve Fourier Beamform Csm Deconv Subspace Spectral OrthSep Resolve.
Import ListNotations.
Local Open Scope R_scope.

Section Loop.
  Variables (g K : nat) (psf : nat -> nat -> R) (damp : R) (n_iter : Z) (pos : nat -> nat) (p d : nat -> R) (delta : R).
  Hypotheses (HK : (0 < K)%nat) (Hg : (0 < g)%nat) (Hpos : forall s, (s < K)%nat -> (pos s < g)%nat)
    (Hinj : forall s t, (s < K)%nat -> (t < K)%nat -> pos s = pos t -> s = t)
    (Hpsf : forall s q, (s < K)%nat -> (q < g)%nat -> 0 <= psf (pos s) q)
    (Hoff : forall s t, (s < K)%nat -> (t < K)%nat -> s <> t -> psf (pos s) (pos t) = 0)
    (Hdiag : forall s, (s < K)%nat -> psf (pos s) (pos s) = d s)
    (Hdamp : 0 < damp) (Hdelta : 0 < delta) (Hd : forall s, (s < K)%nat -> delta <= d s /\ damp * d s <= 1)
    (Peak : forall w q, (forall t, (t < K)%nat -> 0 <= w t) -> (exists t, (t < K)%nat /\ 0 < w t) -> (q < g)%nat ->
       (forall s, (s < K)%nat -> q <> pos s) -> exists s, (s < K)%nat /\ rsumn K (fun t => w t * psf (pos t) q) < w s * d s).

  (** Weighted remaining strength. *)
  Definition rest (w : nat -> R) : R := rsumn K (fun t => d t * w t).
  Definition rate : R := 1 - damp * delta / INR K.

  Lemma K_pos : 1 <= INR K. Proof. apply (le_INR 1). lia. Qed.
  Lemma rate_range : 0 <= rate.
  Proof.
    unfold rate. destruct (Hd 0%nat HK) as [H1 H2]. pose proof K_pos as P. assert (damp * delta <= 1) by nra.
    assert (damp * delta / INR K <= 1); [|lra]. apply (Rmult_le_reg_r (INR K)); [lra|]. unfold Rdiv. rewrite Rmult_assoc, Rinv_l by lra. lra.
  Qed.

  (** The residual holds the strengths [w], the clean map the rest of [p]. *)
  Definition holds (w : nat -> R) (st : clean_state) : Prop :=
    let '(dirty, clean, _) := st in
    (forall t, (t < K)%nat -> 0 <= w t)
    /\ (forall q, (q < g)%nat -> dirty q = rsumn K (fun t => w t * psf (pos t) q))
    /\ (forall s, (s < K)%nat -> clean (pos s) = p s - w s)
    /\ (forall q, (q < g)%nat -> (forall s, (s < K)%nat -> q <> pos s) -> clean q = 0).

  Lemma source_or_not q : (exists s, (s < K)%nat /\ q = pos s) \/ (forall s, (s < K)%nat -> q <> pos s).
  Proof.
    clear. induction K as [|k IH]; [right; intros; lia|]. destruct IH as [(s & Hs & E)|N]; [left; exists s; split; [lia|exact E]|].
    destruct (Nat.eq_dec q (pos k)) as [E|D]; [left; exists k; split; [lia|exact E]|]. right. intros s Hs. destruct (Nat.eq_dec s k) as [->|]; [exact D|]. apply N. lia.
  Qed.

  Lemma pos_or_zero w : (forall t, (t < K)%nat -> 0 <= w t) -> (exists t, (t < K)%nat /\ 0 < w t) \/ (forall t, (t < K)%nat -> w t = 0).
  Proof.
    clear. induction K as [|k IH]; intros H; [right; intros; lia|]. destruct IH as [(t & Ht & P)|Z]; [intros; apply H; lia|left; exists t; split; [lia|exact P]|].
    destruct (Rle_lt_or_eq_dec 0 (w k) (H k ltac:(lia))) as [P|E]; [left; exists k; split; [lia|exact P]|].
    right. intros t Ht. destruct (Nat.eq_dec t k) as [->|]; [now symmetry|]. apply Z. lia.
  Qed.

  Lemma at_source w s : (s < K)%nat -> rsumn K (fun t => w t * psf (pos t) (pos s)) = w s * d s.
  Proof.
    intros Hs. rewrite (rsumn_single K s); [now rewrite Hdiag|assumption|]. intros t Ht N. rewrite Hoff by assumption. ring.
  Qed.

  Lemma d_pos s : (s < K)%nat -> 0 < d s. Proof. intros Hs. destruct (Hd s Hs). lra. Qed.

  Lemma rest_nonneg w : (forall t, (t < K)%nat -> 0 <= w t) -> 0 <= rest w.
  Proof. intros H. apply rsumn_nonneg. intros t Ht. pose proof (d_pos t Ht). apply Rmult_le_pos; [lra|auto]. Qed.

  Lemma body_step w st : holds w st ->
    exists w', holds w' (fst (clean_body g psf damp n_iter st)) /\ rest w' <= rate * rest w
      /\ (snd (clean_body g psf damp n_iter st) = false -> (snd st + 1 >= n_iter)%Z \/ rest w' = 0).
  Proof.
    destruct st as [[dirty clean] i]. intros (W & D & C1' & C2). cbn [clean_body fst snd].
    set (m := argmax g dirty). destruct (argmax_spec g dirty Hg) as [Hm Hmax]. fold m in Hm, Hmax.
    destruct (pos_or_zero w W) as [Pw|Z].
    - assert (exists s, (s < K)%nat /\ m = pos s) as (s & Hs & Em).
      { destruct (source_or_not m) as [E|N]; [exact E|]. exfalso. destruct (Peak w m W Pw Hm N) as (s & Hs & L).
        specialize (Hmax (pos s) (Hpos s Hs)). rewrite !D in Hmax by auto. rewrite at_source in Hmax by assumption. lra. }
      assert (Dm : forall t, (t < K)%nat -> dirty (pos t) = w t * d t) by (intros t Ht; rewrite D by auto; now apply at_source).
      assert (Lm : forall t, (t < K)%nat -> d t * w t <= d s * w s).
      { intros t Ht. specialize (Hmax (pos t) (Hpos t Ht)). rewrite Em, !Dm in Hmax by assumption. lra. }
      rewrite Em, (Dm s Hs). set (amp := damp * (w s * d s)).
      destruct (Hd s Hs) as [d1 d2]. pose proof (d_pos s Hs) as ds.
      assert (Ps : 0 < d s * w s).
      { destruct Pw as (t & Ht & Pt). apply Rlt_le_trans with (d t * w t); [apply Rmult_lt_0_compat; [now apply d_pos|assumption]|auto]. }
      assert (Pa : 0 < amp) by (unfold amp; apply Rmult_lt_0_compat; lra).
      exists (upd w s (w s + - amp)).
      assert (U : forall t, upd w s (w s + - amp) t = if (t =? s)%nat then w s - amp else w t) by (intros t; unfold upd; destruct (t =? s)%nat; ring).
      assert (W' : forall t, (t < K)%nat -> 0 <= upd w s (w s + - amp) t).
      { intros t Ht. rewrite U. destruct (t =? s)%nat; [|auto]. unfold amp. assert (0 <= w s) by auto. nra. }
      assert (D' : forall q, (q < g)%nat -> dirty q - psf (pos s) q * amp = rsumn K (fun t => upd w s (w s + - amp) t * psf (pos t) q)).
      { intros q Hq. rewrite (rsumn_ext K _ (fun t => psf (pos t) q * upd w s (w s + - amp) t)) by (intros; ring).
        rewrite rsumn_upd by assumption. rewrite D by assumption. rewrite (rsumn_ext K (fun t => w t * _) (fun t => psf (pos t) q * w t)) by (intros; ring). ring. }
      assert (RE : rest (upd w s (w s + - amp)) = rest w - d s * amp) by (unfold rest; rewrite rsumn_upd by assumption; ring).
      split; [|split].
      + split; [exact W'|]. split; [exact D'|]. split.
        * intros t Ht. rewrite U. unfold upd. destruct (Nat.eqb_spec (pos t) (pos s)) as [E|N].
          -- apply Hinj in E; try assumption. subst t. rewrite Nat.eqb_refl, C1' by assumption. ring.
          -- destruct (Nat.eqb_spec t s) as [->|_]; [contradiction|]. now apply C1'.
        * intros q Hq N. unfold upd. destruct (Nat.eqb_spec q (pos s)) as [->|_]; [exfalso; exact (N s Hs eq_refl)|]. now apply C2.
      + rewrite RE. unfold rate. pose proof K_pos as PK.
        assert (B : rest w <= INR K * (d s * w s)).
        { unfold rest. apply Rle_trans with (rsumn K (fun _ => d s * w s)); [apply rsumn_le; exact Lm|]. rewrite rsumn_const. lra. }
        assert (rest w / INR K <= d s * w s).
        { apply (Rmult_le_reg_r (INR K)); [lra|]. unfold Rdiv. rewrite Rmult_assoc, Rinv_l by lra. lra. }
        replace ((1 - damp * delta / INR K) * rest w) with (rest w - damp * delta * (rest w / INR K)) by (field; lra).
        assert (damp * delta * (rest w / INR K) <= d s * amp); [|lra]. unfold amp.
        replace (d s * (damp * (w s * d s))) with (damp * (d s * (d s * w s))) by ring. rewrite Rmult_assoc. apply Rmult_le_compat_l; [lra|].
        apply Rmult_le_compat; try lra. apply Rle_mult_inv_pos; [now apply rest_nonneg|lra].
      + intros F. apply andb_false_iff in F as [F|F]; [apply andb_false_iff in F as [F|F]|].
        * exfalso. destruct (Rlt_dec _ _) as [|N]; [discriminate|]. apply N. unfold asum.
          assert (N0 : forall q, (q < g)%nat -> 0 <= dirty q).
          { intros q Hq. rewrite D by assumption. apply rsumn_nonneg. intros t Ht. apply Rmult_le_pos; auto. }
          assert (N1 : forall q, (q < g)%nat -> 0 <= dirty q - psf (pos s) q * amp).
          { intros q Hq. rewrite D' by assumption. apply rsumn_nonneg. intros t Ht. apply Rmult_le_pos; auto. }
          rewrite (rsumn_ext g (fun j => Rabs (dirty j - psf (pos s) j * amp)) (fun j => dirty j + - amp * psf (pos s) j)).
          2:{ intros q Hq. rewrite Rabs_right by (apply Rle_ge; auto). ring. }
          rewrite (rsumn_ext g (fun j => Rabs (dirty j)) dirty) by (intros q Hq; apply Rabs_right, Rle_ge; auto).
          rewrite rsumn_add, rsumn_scal. pose proof (rsumn_term' g (fun j => psf (pos s) j) (pos s) (fun q Hq => Hpsf s q Hs Hq) (Hpos s Hs)) as L. cbv beta in L.
          rewrite Hdiag in L by assumption. change (fun j => psf (pos s) j) with (psf (pos s)) in *. set (S := rsumn g (psf (pos s))) in *. assert (0 < amp * S) by (apply Rmult_lt_0_compat; lra). set (U0 := rsumn g dirty). clearbody U0. lra.
        * left. apply Z.ltb_ge in F. lia.
        * right. destruct (Rlt_dec _ _) as [|N]; [discriminate|]. unfold maxval in N.
          set (dirty' := fun q => dirty q - psf (pos s) q * amp) in *. destruct (argmax_spec g dirty' Hg) as [_ Mx].
          apply rsumn_0. intros t Ht. specialize (Mx (pos t) (Hpos t Ht)).
          assert (V : dirty' (pos t) = upd w s (w s + - amp) t * d t) by (unfold dirty'; rewrite D' by auto; now apply at_source).
          rewrite V in Mx. apply Rnot_lt_le in N. assert (0 <= upd w s (w s + - amp) t * d t) by (pose proof (d_pos t Ht); apply Rmult_le_pos; [auto|lra]).
          rewrite Rmult_comm. apply Rle_antisym; [exact (Rle_trans _ _ _ Mx N)|assumption].
    - assert (D0 : forall q, (q < g)%nat -> dirty q = 0) by (intros q Hq; rewrite D by assumption; apply rsumn_0; intros t Ht; rewrite Z by assumption; ring).
      assert (R0 : rest w = 0) by (apply rsumn_0; intros t Ht; rewrite Z by assumption; ring).
      rewrite (D0 m Hm). exists w. split; [|split; [rewrite R0; lra|intros _; now right]].
      split; [exact W|]. split; [|split].
      + intros q Hq. rewrite Rmult_0_r, Rmult_0_r, Rminus_0_r. now apply D.
      + intros t Ht. unfold upd. destruct (Nat.eqb_spec (pos t) m) as [<-|_]; [rewrite C1' by assumption; ring|now apply C1'].
      + intros q Hq N. unfold upd. destruct (Nat.eqb_spec q m) as [->|_]; [rewrite C2 by assumption; ring|now apply C2].
  Qed.

  Lemma loop_finds fuel : forall w st st', holds w st -> clean_loop g psf damp n_iter fuel st = Some st' ->
    exists w', holds w' st' /\ rest w' <= rate ^ Z.to_nat (Z.max 1 (n_iter - snd st)) * rest w.
  Proof.
    induction fuel as [|fuel IH]; intros w st st' H E; [discriminate|]. cbn [clean_loop] in E.
    destruct (body_step w st H) as (w1 & H1 & R1 & F1). destruct (clean_body g psf damp n_iter st) as [st1 flag] eqn:B. cbn [fst snd] in *.
    pose proof rate_range as P0.
    assert (Wn : 0 <= rest w) by (apply rest_nonneg; destruct st as [[? ?] ?]; apply H).
    assert (Si : snd st1 = (snd st + 1)%Z) by (destruct st as [[d0 c0] i0]; cbn [clean_body] in B; injection B as <- _; reflexivity).
    destruct flag.
    - assert (L : (snd st + 1 < n_iter)%Z).
      { destruct st as [[d0 c0] i0]. cbn [clean_body snd] in *. injection B as _ B. apply andb_true_iff in B as [B _]. apply andb_true_iff in B as [_ B]. apply Z.ltb_lt in B. exact B. }
      destruct (IH w1 st1 st' H1 E) as (w' & H' & R'). exists w'. split; [exact H'|]. rewrite Si in R'.
      replace (Z.to_nat (Z.max 1 (n_iter - snd st))) with (S (Z.to_nat (Z.max 1 (n_iter - (snd st + 1))))) by lia.
      cbn [pow]. apply Rle_trans with (rate ^ Z.to_nat (Z.max 1 (n_iter - (snd st + 1))) * (rate * rest w)); [|right; ring].
      apply Rle_trans with (1 := R'). apply Rmult_le_compat_l; [now apply pow_le|exact R1].
    - assert (st1 = st') as <- by congruence. exists w1. split; [exact H1|]. destruct (F1 eq_refl) as [L|Z0].
      + replace (Z.to_nat (Z.max 1 (n_iter - snd st))) with 1%nat by lia. cbn [pow]. lra.
      + rewrite Z0. apply Rmult_le_pos; [now apply pow_le|exact Wn].
  Qed.

  Theorem clean_finds dirty : (forall s, (s < K)%nat -> 0 <= p s) -> (forall q, (q < g)%nat -> dirty q = rsumn K (fun t => p t * psf (pos t) q)) ->
    exists st', clean_calc g psf damp n_iter (Z.to_nat (Z.max 1 n_iter)) dirty = Some st'
      /\ (forall q, (q < g)%nat -> (forall s, (s < K)%nat -> q <> pos s) -> snd (fst st') q = 0)
      /\ (forall s, (s < K)%nat -> snd (fst st') (pos s) <= p s)
      /\ rsumn K (fun s => d s * (p s - snd (fst st') (pos s))) <= rate ^ Z.to_nat (Z.max 1 n_iter) * rsumn K (fun s => d s * p s).
  Proof.
    intros Hp HD. destruct (clean_terminates g psf damp n_iter (Z.to_nat (Z.max 1 n_iter)) (dirty, fun _ => 0, 0%Z)) as (st' & E & _); [cbn [snd]; lia|lia|].
    exists st'. split; [exact E|]. assert (H0 : holds p (dirty, fun _ => 0, 0%Z)) by (repeat split; auto; intros; ring).
    destruct (loop_finds _ _ _ _ H0 E) as (w & H & Rw). cbn [snd] in Rw. destruct st' as [[d' c'] i']. cbn [fst snd]. destruct H as (W & D & C1' & C2).
    split; [exact C2|]. split; [intros s Hs; rewrite C1' by assumption; specialize (W s Hs); lra|].
    rewrite (rsumn_ext K _ (fun t => d t * w t)) by (intros s Hs; rewrite C1' by assumption; ring). rewrite Z.sub_0_r in Rw. exact Rw.
  Qed.
End Loop.

(** Bessel's inequality is strict for a vector that is no combination. *)
Lemma bessel_strict n K (a : nat -> nat -> C) (h : nat -> C) :
  (forall s, (s < K)%nat -> 0 < pw n a s) ->
  (forall s t, (s < K)%nat -> (t < K)%nat -> s <> t -> inner n (a s) (a t) = C0) ->
  (forall z : nat -> C, exists m, (m < n)%nat /\ h m <> csum K (fun t => z t * a t m)%C) ->
  rsumn K (fun t => norm2 (inner n (a t) h) / pw n a t) < rsumn n (fun m => norm2 (h m)).
Proof.
  intros Hn Ho Hz. set (b := fun i => csum K (fun t => inner n (a t) h / RtoC (pw n a t) * a t i)%C). set (u := fun i => (h i - b i)%C).
  destruct (Hz (fun t => inner n (a t) h / RtoC (pw n a t))%C) as (m & Hm & N). change (h m <> b m) in N.
  assert (NZ : forall t, (t < K)%nat -> RtoC (pw n a t) <> C0) by (intros t Ht; apply RtoC_neq0; specialize (Hn t Ht); lra).
  assert (I1 : forall t, (t < K)%nat -> inner n (a t) u = C0).
  { intros t Ht. unfold u. rewrite inner_sub_r. unfold b. rewrite inner_csum_r. rewrite (csum_single K t); [|assumption|].
    - rewrite inner_scal_r. rewrite inner_self. fold (pw n a t). specialize (NZ t Ht). field. exact NZ.
    - intros e He D. rewrite inner_scal_r, Ho by (assumption || congruence). ring. }
  (* the part of [h] outside the span has itself no product with the span *)
  assert (Ub : inner n b u = C0).
  { rewrite <- inner_conj. unfold b. rewrite inner_csum_r. rewrite csum_0; [apply Conj_0|]. intros t Ht. rewrite inner_scal_r, <- (inner_conj n (a t) u), I1 by assumption. rewrite Conj_0. ring. }
  assert (H1 : inner n h u = inner n u u) by (unfold u at 2; rewrite inner_sub_l, Ub; ring).
  assert (H2 : inner n h b = csum K (fun t => RtoC (norm2 (inner n (a t) h) / pw n a t))).
  { unfold b. rewrite inner_csum_r. apply csum_ext. intros t Ht. rewrite inner_scal_r, <- (inner_conj n (a t) h). specialize (NZ t Ht). pose proof (Hn t Ht).
    rewrite RtoC_div by lra. rewrite <- mul_Conj. field. exact NZ. }
  assert (E : RtoC (rsumn n (fun m => norm2 (h m))) = (RtoC (rsumn n (fun m => norm2 (u m))) + RtoC (rsumn K (fun t => (norm2 (inner n (a t) h) / pw n a t)%R)))%C).
  { rewrite <- !inner_self, <- csum_RtoC, <- H1, <- H2. unfold u. rewrite inner_sub_r. ring. }
  rewrite <- RtoC_add in E. apply RtoC_inj in E. rewrite E.
  assert (0 < rsumn n (fun m => norm2 (u m))); [|lra].
  apply Rlt_le_trans with (norm2 (u m)); [|apply (rsumn_term n (fun i => norm2 (u i))); [intros; apply norm2_nonneg|assumption]].
  apply norm2_pos. intros Z. apply N. transitivity (u m + b m)%C; [unfold u; ring|]. rewrite Z. ring.
Qed.

(** Outside the span a weighted sum of the products stays below its largest term. *)
Lemma span_peak n K (a : nat -> nat -> C) (h : nat -> C) w :
  (forall s, (s < K)%nat -> 0 < pw n a s) ->
  (forall s t, (s < K)%nat -> (t < K)%nat -> s <> t -> inner n (a s) (a t) = C0) ->
  (forall z : nat -> C, exists m, (m < n)%nat /\ h m <> csum K (fun t => z t * a t m)%C) ->
  (exists t, (t < K)%nat /\ 0 < w t) ->
  exists s, (s < K)%nat /\ rsumn K (fun t => w t * norm2 (inner n (a t) h)) < w s * pw n a s * rsumn n (fun m => norm2 (h m)).
Proof.
  intros Hn Ho Hz (t0 & Ht0 & P0). destruct (argmax_spec K (fun t => w t * pw n a t) ltac:(lia)) as [Hs Mx]. set (s := argmax K (fun t => w t * pw n a t)) in *.
  exists s. split; [exact Hs|]. pose proof (bessel_strict n K a h Hn Ho Hz) as B.
  assert (PL : 0 < w s * pw n a s) by (apply Rlt_le_trans with (w t0 * pw n a t0); [apply Rmult_lt_0_compat; auto|apply Mx; assumption]).
  apply Rle_lt_trans with (w s * pw n a s * rsumn K (fun t => norm2 (inner n (a t) h) / pw n a t)); [|now apply Rmult_lt_compat_l].
  rewrite <- rsumn_scal. apply rsumn_le. intros t Ht. pose proof (Hn t Ht).
  replace (w t * norm2 (inner n (a t) h)) with (w t * pw n a t * (norm2 (inner n (a t) h) / pw n a t)) by (field; lra).
  apply Rmult_le_compat_r; [apply Rle_mult_inv_pos; [apply norm2_nonneg|assumption]|now apply Mx].
Qed.

(** What the clean map has got it keeps. *)
Lemma clean_keeps g psf damp n_iter fuel : forall st st', (0 < g)%nat -> 0 <= damp -> 0 <= maxval g (fst (fst st)) ->
  clean_loop g psf damp n_iter fuel st = Some st' -> forall q, snd (fst (fst (clean_body g psf damp n_iter st))) q <= snd (fst st') q.
Proof.
  induction fuel as [|fuel IH]; intros [[d c] i] st' Hg Hd Hm E q; [discriminate|]. cbn [clean_loop] in E.
  destruct (clean_body g psf damp n_iter (d, c, i)) as [st1 flag] eqn:B. cbn [fst snd].
  destruct flag; [|assert (st1 = st') as <- by congruence; lra].
  assert (M1 : 0 < maxval g (fst (fst st1))).
  { cbn [clean_body] in B. injection B as <- B. cbn [fst]. apply andb_true_iff in B as [_ B]. destruct (Rlt_dec _ _) as [P|]; [exact P|discriminate]. }
  apply Rle_trans with (2 := IH st1 st' Hg Hd (Rlt_le _ _ M1) E q). destruct st1 as [[d1 c1] i1]. cbn [clean_body fst snd] in *.
  unfold upd. destruct (Nat.eqb_spec q (argmax g d1)) as [->|]; [|lra]. unfold maxval in M1. assert (0 <= damp * d1 (argmax g d1)) by (apply Rmult_le_pos; lra). lra.
Qed.
