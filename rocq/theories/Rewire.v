(** The frequency domain methods under a change of the channels: all channels
    multiplied by one factor and taken in another order, microphones in the same
    order.  Kernels and methods are those of Beamform.v (fastFuncs.py,
    fbeamform.py), Csm.v (spectra.py), Deconv.v and Subspace.v (fbeamform.py). *)
From Coq Require Import List Arith Lia ZArith Bool Reals Lra Permutation.
From Verif Require Import Stream Cplx Buffer Frames Convolve Fourier Beamform Csm Deconv Subspace Spectral.
Import ListNotations.
Local Open Scope R_scope.
Local Open Scope C_scope.

(** ** Specification *)

(** [sg] is an order of the channels 0 .. n-1. *)
Definition order (n : nat) (sg : nat -> nat) : Prop :=
  (forall i, (i < n)%nat -> (sg i < n)%nat) /\ (forall i j, (i < n)%nat -> (j < n)%nat -> sg i = sg j -> i = j).

(** The samples [s'] are those of [s] in the order [sg], multiplied by [a]. *)
Definition rewired (n : nat) (sg : nat -> nat) (a : R) (s s' : list (list R)) : Prop :=
  length s' = length s
  /\ forall t m, (t < length s)%nat -> (m < n)%nat -> nth m (nth t s' []) 0%R = (a * nth (sg m) (nth t s []) 0)%R.

(** The matrix [c'] is [c] in this order, times [lam]. *)
Definition rewired_csm (n : nat) (sg : nat -> nat) (lam : R) (c c' : nat -> nat -> C) : Prop :=
  forall i j, (i < n)%nat -> (j < n)%nat -> c' i j = RtoC lam * c (sg i) (sg j).

(* ------------------------------------------------------------------ *)
(** ** Sums in another order *)

Definition clist (l : list C) : C := fold_right Cadd C0 l.
Definition rlist (l : list R) : R := fold_right Rplus 0%R l.

Lemma clist_app a b : clist (a ++ b) = clist a + clist b.
Proof. induction a as [|x a IH]; unfold clist in *; cbn [fold_right app]; [ring|]. rewrite IH. ring. Qed.
Lemma rlist_app a b : rlist (a ++ b) = (rlist a + rlist b)%R.
Proof. induction a as [|x a IH]; unfold rlist in *; cbn [fold_right app]; [ring|]. rewrite IH. ring. Qed.

Lemma clist_perm a b : Permutation a b -> clist a = clist b.
Proof. induction 1; unfold clist in *; cbn [fold_right]; try congruence; ring. Qed.
Lemma rlist_perm a b : Permutation a b -> rlist a = rlist b.
Proof. induction 1; unfold rlist in *; cbn [fold_right]; try congruence; ring. Qed.

Lemma csum_clist n f : csum n f = clist (map f (seq 0 n)).
Proof.
  induction n as [|n IH]; [reflexivity|]. rewrite seq_S, map_app, clist_app, <- IH. unfold clist. cbn [csum map fold_right plus]. ring.
Qed.
Lemma rsumn_rlist n f : rsumn n f = rlist (map f (seq 0 n)).
Proof.
  induction n as [|n IH]; [reflexivity|]. rewrite seq_S, map_app, rlist_app, <- IH. unfold rlist. cbn [rsumn map fold_right plus]. ring.
Qed.

Lemma order_perm n sg : order n sg -> Permutation (map sg (seq 0 n)) (seq 0 n).
Proof.
  intros [H1 H2]. apply NoDup_Permutation_bis.
  - assert (G : forall l, NoDup l -> (forall x, In x l -> (x < n)%nat) -> NoDup (map sg l)).
    { induction 1 as [|x l Hx Hl IH]; intros B; cbn [map]; constructor.
      - intros Hin. apply in_map_iff in Hin. destruct Hin as (y & E & Hy).
        apply H2 in E; [subst; contradiction|apply B; now right|apply B; now left].
      - apply IH. intros y Hy. apply B. now right. }
    apply G; [apply seq_NoDup|]. intros x Hx. apply in_seq in Hx. lia.
  - now rewrite map_length.
  - intros x Hx. apply in_map_iff in Hx. destruct Hx as (y & <- & Hy). apply in_seq in Hy. apply in_seq.
    specialize (H1 y ltac:(lia)). lia.
Qed.

Lemma csum_order n sg f : order n sg -> csum n (fun i => f (sg i)) = csum n f.
Proof.
  intros H. rewrite !csum_clist, <- (map_map sg f). apply clist_perm, Permutation_map, order_perm, H.
Qed.
Lemma rsumn_order n sg f : order n sg -> rsumn n (fun i => f (sg i)) = rsumn n f.
Proof.
  intros H. rewrite !rsumn_rlist, <- (map_map sg f). apply rlist_perm, Permutation_map, order_perm, H.
Qed.

(* ------------------------------------------------------------------ *)
(** ** From samples to the matrix *)

Lemma rewired_col n sg a s s' c k bs j : rewired n sg a s s' -> (c < n)%nat -> (k + bs <= length s)%nat -> (j < bs)%nat ->
  col c (window k bs s') j = (a * col (sg c) (window k bs s) j)%R.
Proof.
  intros [HL H] Hc Hk Hj. unfold col, window.
  assert (E : forall (l : list (list R)), (k + bs <= length l)%nat -> nth j (firstn bs (skipn k l)) [] = nth (k + j) l []).
  { intros l Hl. rewrite <- (firstn_skipn k l) at 2. rewrite app_nth2; rewrite firstn_length_le; try lia.
    replace (k + j - k)%nat with j by lia. rewrite <- (firstn_skipn bs (skipn k l)) at 2.
    rewrite app_nth1; [reflexivity|]. rewrite firstn_length, skipn_length. lia. }
  rewrite !E by lia. apply H; lia.
Qed.

(** Every frame lies inside the stream. *)
Lemma frame_inside bs ov n k : (0 < bs)%nat -> (0 < ov)%nat -> (bs <= n)%nat -> (k < frame_count bs ov n)%nat ->
  (k * bs / ov + bs <= n)%nat.
Proof.
  intros Hb Ho Hn Hk. unfold frame_count in Hk. destruct (Nat.ltb_spec n bs); [lia|].
  assert (K : (k <= (n - bs) * ov / bs)%nat) by lia.
  assert (k * bs / ov <= n - bs)%nat; [|lia].
  apply Nat.div_le_upper_bound; [lia|].
  pose proof (Nat.mul_div_le ((n - bs) * ov) bs ltac:(lia)). nia.
Qed.

Theorem rewired_power_spectra garbage garbage' bs ov n wind src src' s s' b sg a :
  wf_source src s -> wf_source src' s' -> (0 < bs)%nat -> (0 < ov)%nat -> (bs <= length s)%nat ->
  (0 < rsumn bs (fun j => wind j * wind j))%R -> order n sg -> rewired n sg a s s' ->
  rewired_csm n sg (a * a) (power_spectra_csm garbage bs ov n wind (length s) src b)
    (power_spectra_csm garbage' bs ov n wind (length s') src' b).
Proof.
  intros W W' Hb Ho Hl Hw Hs Hr i j Hi Hj. pose proof Hr as [HL _]. pose proof Hs as [H1 _].
  destruct (csm_spec garbage bs ov n wind src s b W Hb Ho Hl Hw) as (E & _).
  destruct (csm_spec garbage' bs ov n wind src' s' b W' Hb Ho ltac:(lia) Hw) as (E' & _).
  cbv zeta in E, E'. rewrite E' by assumption. rewrite E by auto. clear E E'. rewrite HL.
  set (K := frame_count bs ov (length s)).
  set (X' := fun k c => rfft bs (fun j => col c (window (k * bs / ov) bs s') j * wind j)%R b).
  set (X := fun k c => rfft bs (fun j => col c (window (k * bs / ov) bs s) j * wind j)%R b).
  assert (HX : forall k c, (k < K)%nat -> (c < n)%nat -> X' k c = RtoC a * X k (sg c)).
  { intros k c Hk Hc. unfold X', X, rfft, dft. rewrite <- csum_scal. apply csum_ext. intros t Ht.
    rewrite (rewired_col n sg a s s') by (try assumption; apply frame_inside; assumption).
    rewrite !RtoC_mul. ring. }
  rewrite (csum_ext K _ (fun k => RtoC (a * a) * (X k (sg i) * Conj (X k (sg j))))).
  - rewrite csum_scal. unfold X, Cdiv. cbv beta. ring.
  - intros k Hk. cbv beta. fold (X' k i) (X' k j). rewrite !HX by assumption. rewrite Conj_mul, Conj_RtoC, RtoC_mul. ring.
Qed.

Lemma rewired_hermitian n sg lam c c' : order n sg -> hermitian n c -> rewired_csm n sg lam c c' -> hermitian n c'.
Proof.
  intros [H1 _] Hc H i j Hi Hj. rewrite !H by assumption. rewrite Conj_mul, Conj_RtoC. f_equal. apply Hc; auto.
Qed.

(* ------------------------------------------------------------------ *)
(** ** The kernels *)

Section Kernels.
  Variables (n : nat) (sg : nat -> nat).
  Hypothesis Hs : order n sg.

  Lemma order_eqb i j : (i < n)%nat -> (j < n)%nat -> (sg i =? sg j)%nat = (i =? j)%nat.
  Proof.
    intros Hi Hj. destruct Hs as [_ H]. destruct (Nat.eqb_spec i j) as [->|N]; [apply Nat.eqb_refl|].
    apply Nat.eqb_neq. intros E. apply N. now apply H.
  Qed.

  Lemma qform_order lam c c' h h' : rewired_csm n sg lam c c' -> (forall m, (m < n)%nat -> h' m = h (sg m)) ->
    qform n c' h' = RtoC lam * qform n c h.
  Proof.
    intros Hc Hh. unfold qform. rewrite <- csum_scal.
    rewrite <- (csum_order n sg (fun i => RtoC lam * csum n (fun j => Conj (h i) * c i j * h j)) Hs).
    apply csum_ext. intros i Hi. cbv beta. rewrite <- csum_scal.
    rewrite <- (csum_order n sg (fun j => RtoC lam * (Conj (h (sg i)) * c (sg i) j * h j)) Hs).
    apply csum_ext. intros j Hj. cbv beta. rewrite Hc, !Hh by assumption. ring.
  Qed.

  Lemma rewired_off_diag lam c c' : rewired_csm n sg lam c c' -> rewired_csm n sg lam (off_diag c) (off_diag c').
  Proof.
    intros H i j Hi Hj. unfold off_diag. rewrite order_eqb by assumption. destruct (i =? j)%nat; [ring|auto].
  Qed.

  Lemma scalar_prod_order lam rd c c' v v' : hermitian n c -> rewired_csm n sg lam c c' ->
    (forall m, (m < n)%nat -> v' m = v (sg m)) -> scalar_prod n rd c' v' = (lam * scalar_prod n rd c v)%R.
  Proof.
    intros Hc H Hv.
    assert (G : forall c c', hermitian n c -> rewired_csm n sg lam c c' ->
      scalar_prod n false c' v' = (lam * scalar_prod n false c v)%R).
    { intros d d' Hd Hd'. apply RtoC_inj. rewrite RtoC_mul.
      rewrite <- (qform_scalar n d v Hd), <- (qform_scalar n d' v').
      - now apply qform_order.
      - now apply (rewired_hermitian n sg lam d). }
    destruct rd; [|now apply G].
    rewrite !scalar_prod_off_diag. apply G; [now apply hermitian_off_diag|now apply rewired_off_diag].
  Qed.

  Lemma help_normalize_order st r r' : (forall m, (m < n)%nat -> r' m = r (sg m)) ->
    help_normalize n st r' = help_normalize n st r.
  Proof.
    intros H. destruct st; cbn [help_normalize]; try reflexivity.
    - rewrite <- (rsumn_order n sg (fun m => r m * r m)%R Hs). apply rsumn_ext. intros m Hm. now rewrite H.
    - rewrite <- (rsumn_order n sg (fun m => 1 / (r m * r m))%R Hs). apply rsumn_ext. intros m Hm. now rewrite H.
    - rewrite <- (rsumn_order n sg (fun m => 1 / (r m * r m))%R Hs). apply rsumn_ext. intros m Hm. now rewrite H.
  Qed.

  Lemma normalize_order st r0 r r' loss lam sp : (forall m, (m < n)%nat -> r' m = r (sg m)) ->
    fst (normalize n st r0 r' loss (lam * sp)%R) = (lam * fst (normalize n st r0 r loss sp))%R
    /\ forall sp', snd (normalize n st r0 r' loss sp') = snd (normalize n st r0 r loss sp).
  Proof.
    intros H. unfold normalize. rewrite (help_normalize_order st r r' H).
    destruct st; cbn [fst snd]; (split; [unfold Rdiv; ring|reflexivity]).
  Qed.

  Lemma steer_raw_order st k r r' m : r' m = r (sg m) -> steer_raw st k r' m = steer_raw st k r (sg m).
  Proof. intros H. unfold steer_raw. now rewrite H. Qed.

  Lemma freq_full_order lam c c' r0 k r r' loss rd st : hermitian n c -> rewired_csm n sg lam c c' ->
    (forall m, (m < n)%nat -> r' m = r (sg m)) ->
    fst (freq_full n c' r0 k r' loss rd st) = (lam * fst (freq_full n c r0 k r loss rd st))%R.
  Proof.
    intros Hc H Hr. unfold freq_full.
    rewrite (scalar_prod_order lam rd c c' (steer_raw st k r)); [|assumption|assumption|intros; apply steer_raw_order; auto].
    now apply normalize_order.
  Qed.

  Lemma scalar_prod_eig_order lam rd ne eva eva' eve eve' v v' :
    (forall e, (e < ne)%nat -> eva' e = (lam * eva e)%R) ->
    (forall m e, (m < n)%nat -> (e < ne)%nat -> eve' m e = eve (sg m) e) ->
    (forall m, (m < n)%nat -> v' m = v (sg m)) ->
    scalar_prod_eig n rd ne eva' eve' v' = (lam * scalar_prod_eig n rd ne eva eve v)%R.
  Proof.
    intros Ha He Hv. unfold scalar_prod_eig. rewrite <- rsumn_scal. apply rsumn_ext. intros e Hle. cbv zeta beta.
    assert (F : csum n (fun m => Conj (eve' m e) * v' m) = csum n (fun m => Conj (eve m e) * v m)).
    { rewrite <- (csum_order n sg (fun m => Conj (eve m e) * v m) Hs). apply csum_ext. intros m Hm.
      cbv beta. now rewrite He, Hv. }
    rewrite F, Ha by assumption. destruct rd; [|ring].
    replace (rsumn n (fun m => re (Conj (eve' m e) * v' m * Conj (Conj (eve' m e) * v' m))))
      with (rsumn n (fun m => re (Conj (eve m e) * v m * Conj (Conj (eve m e) * v m)))); [ring|].
    rewrite <- (rsumn_order n sg (fun m => re (Conj (eve m e) * v m * Conj (Conj (eve m e) * v m))) Hs).
    apply rsumn_ext. intros m Hm. cbv beta. now rewrite He, Hv.
  Qed.

  Lemma freq_eig_order lam ne eva eva' eve eve' r0 k r r' loss rd st :
    (forall e, (e < ne)%nat -> eva' e = (lam * eva e)%R) ->
    (forall m e, (m < n)%nat -> (e < ne)%nat -> eve' m e = eve (sg m) e) ->
    (forall m, (m < n)%nat -> r' m = r (sg m)) ->
    fst (freq_eig n ne eva' eve' r0 k r' loss rd st) = (lam * fst (freq_eig n ne eva eve r0 k r loss rd st))%R
    /\ snd (freq_eig n ne eva' eve' r0 k r' loss rd st) = snd (freq_eig n ne eva eve r0 k r loss rd st).
  Proof.
    intros Ha He Hr. unfold freq_eig.
    rewrite (scalar_prod_eig_order lam rd ne eva eva' eve eve' (steer_raw st k r)); [|assumption|assumption|intros; apply steer_raw_order; auto].
    destruct (normalize_order st r0 r r' loss lam (scalar_prod_eig n rd ne eva eve (steer_raw st k r)) Hr) as [A B].
    split; [exact A|apply B].
  Qed.

  Lemma transfer_order r0 k r r' m : r' m = r (sg m) -> transfer r0 k r' m = transfer r0 k r (sg m).
  Proof. intros H. unfold transfer. now rewrite H. Qed.

  Lemma steer_vector_order st a a' m : (forall j, (j < n)%nat -> a' j = a (sg j)) -> (m < n)%nat ->
    steer_vector n st a' m = steer_vector n st a (sg m).
  Proof.
    intros H Hm. unfold steer_vector. cbv zeta.
    assert (E : csum n (fun j => a' j * Conj (a' j)) = csum n (fun j => a j * Conj (a j))).
    { rewrite <- (csum_order n sg (fun j => a j * Conj (a j)) Hs). apply csum_ext. intros j Hj. cbv beta. now rewrite H. }
    rewrite E, H by assumption. reflexivity.
  Qed.

  Lemma psf_core_order st r0 r r' r0s rs rs' k : (forall m, (m < n)%nat -> r' m = r (sg m)) ->
    (forall m, (m < n)%nat -> rs' m = rs (sg m)) ->
    psf_core n st r0 r' r0s rs' k = psf_core n st r0 r r0s rs k.
  Proof.
    intros H Hs'. unfold psf_core. cbv zeta.
    assert (Q : rsumn n (fun m => 1 / (r' m * r' m))%R = rsumn n (fun m => 1 / (r m * r m))%R).
    { rewrite <- (rsumn_order n sg (fun m => 1 / (r m * r m))%R Hs). apply rsumn_ext. intros m Hm. cbv beta. now rewrite H. }
    assert (P : forall F : R -> R -> C, csum n (fun m => F (r' m) (rs' m)) = csum n (fun m => F (r m) (rs m))).
    { intros F. rewrite <- (csum_order n sg (fun m => F (r m) (rs m)) Hs). apply csum_ext. intros m Hm.
      cbv beta. now rewrite H, Hs'. }
    rewrite Q. destruct st.
    - now rewrite (P (fun x y => (cos (k * (x - y)), - sin (k * (x - y)))%R / RtoC y)).
    - now rewrite (P (fun x y => (cos (k * (x - y)), - sin (k * (x - y)))%R / RtoC y * RtoC x)).
    - now rewrite (P (fun x y => (cos (k * (x - y)), - sin (k * (x - y)))%R / RtoC y / RtoC x)).
    - now rewrite (P (fun x y => (cos (k * (x - y)), - sin (k * (x - y)))%R / RtoC y / RtoC x)).
  Qed.

  (** BeamformerBase. *)
  Theorem bf_base_order lam c c' r0 k r r' rd rdn st : (0 < lam)%R -> hermitian n c -> rewired_csm n sg lam c c' ->
    (forall m, (m < n)%nat -> r' m = r (sg m)) ->
    bf_base n c' r0 k r' rd rdn st = option_map (Rmult lam) (bf_base n c r0 k r rd rdn st).
  Proof.
    intros Hl Hc H Hr. unfold bf_base. destruct (sig_loss_norm n rd rdn) as [loss|]; [|reflexivity].
    cbn [option_map]. f_equal. rewrite (freq_full_order lam c c' r0 k r r') by assumption.
    set (x := fst _). unfold clip_neg. destruct rd; [|reflexivity].
    destruct (Rlt_dec (lam * x) 0), (Rlt_dec x 0); try nra.
  Qed.

  (** BeamformerEig and the steps of BeamformerOrth. *)
  Theorem bf_eig_order lam na eva eva' eve eve' r0 k r r' rd rdn st : (0 < lam)%R ->
    eva' na = (lam * eva na)%R -> (forall m, (m < n)%nat -> eve' m na = eve (sg m) na) ->
    (forall m, (m < n)%nat -> r' m = r (sg m)) ->
    bf_eig n na eva' eve' r0 k r' rd rdn st = option_map (Rmult lam) (bf_eig n na eva eve r0 k r rd rdn st).
  Proof.
    intros Hl Ha He Hr. unfold bf_eig. destruct (sig_loss_norm n rd rdn) as [loss|]; [|reflexivity].
    cbn [option_map]. f_equal.
    destruct (freq_eig_order lam 1 (fun e => eva (na + e)%nat) (fun e => eva' (na + e)%nat) (fun m e => eve m (na + e)%nat)
      (fun m e => eve' m (na + e)%nat) r0 k r r' loss rd st) as [E _].
    - intros [|e] L; [|lia]. now rewrite Nat.add_0_r.
    - intros m [|e] Hm L; [|lia]. rewrite Nat.add_0_r. auto.
    - assumption.
    - rewrite E. set (x := fst _). unfold clip_neg. destruct rd; [|reflexivity].
      destruct (Rlt_dec (lam * x) 0), (Rlt_dec x 0); try nra.
  Qed.

  (** BeamformerCapon; [d] and [d'] are the inverse matrices. *)
  Theorem capon_order lam c c' d d' r0 k r r' st : (0 < lam)%R -> hermitian n c -> rewired_csm n sg lam c c' ->
    is_inverse n c d -> is_inverse n c' d' -> (forall m, (m < n)%nat -> r' m = r (sg m)) ->
    capon n d' r0 k r' st = option_map (Rmult lam) (capon n d r0 k r st).
  Proof.
    intros Hl Hc H Hd Hd' Hr.
    pose proof (rewired_hermitian n sg lam c c' Hs Hc H) as Hc'.
    pose proof (inverse_hermitian n c d Hc Hd) as Dh. pose proof (inverse_hermitian n c' d' Hc' Hd') as Dh'.
    pose proof Hs as [H1 _].
    assert (D : rewired_csm n sg (/ lam) d d').
    { intros i j Hi Hj. set (e := fun a b => RtoC (/ lam) * d (sg a) (sg b)).
      assert (Ce : forall l, (l < n)%nat -> csum n (fun m => c' l m * e m j) = if (l =? j)%nat then C1 else C0).
      { intros l Hl'. rewrite <- (order_eqb l j) by assumption. rewrite <- (Hd (sg l) (sg j)) by auto.
        rewrite <- (csum_order n sg (fun m => c (sg l) m * d m (sg j)) Hs). apply csum_ext. intros m Hm.
        unfold e. cbv beta. rewrite H by assumption.
        replace (RtoC lam * c (sg l) (sg m) * (RtoC (/ lam) * d (sg m) (sg j)))
          with (RtoC (lam * / lam) * (c (sg l) (sg m) * d (sg m) (sg j))) by (rewrite RtoC_mul; ring).
        rewrite Rinv_r by lra. change (RtoC 1) with C1. ring. }
      assert (Dc : forall m, (m < n)%nat -> csum n (fun l => d' i l * c' l m) = if (i =? m)%nat then C1 else C0).
      { intros m Hm. transitivity (Conj (csum n (fun l => c' m l * d' l i))).
        - rewrite csum_conj. apply csum_ext. intros l Hl'. rewrite Conj_mul, <- (Dh' l i), <- (Hc' m l) by assumption. ring.
        - rewrite Hd' by assumption. rewrite Nat.eqb_sym. destruct (i =? m)%nat; [apply Conj_1|apply Conj_0]. }
      transitivity (csum n (fun l => csum n (fun m => d' i l * (c' l m * e m j)))).
      - rewrite (csum_single n j); [|assumption|].
        + rewrite csum_scal, Ce, Nat.eqb_refl by assumption. ring.
        + intros l Hl' N. rewrite csum_scal, Ce by assumption. destruct (Nat.eqb_spec l j); [congruence|ring].
      - rewrite csum_swap. rewrite (csum_single n i); [|assumption|].
        + rewrite (csum_ext n _ (fun l => (d' i l * c' l i) * e i j)) by (intros; ring).
          rewrite csum_scal_r, Dc, Nat.eqb_refl by assumption. unfold e. ring.
        + intros m Hm N. rewrite (csum_ext n _ (fun l => (d' i l * c' l m) * e m j)) by (intros; ring).
          rewrite csum_scal_r, Dc by assumption. destruct (Nat.eqb_spec i m); [congruence|ring]. }
    unfold capon. cbv zeta. rewrite (freq_full_order (/ lam) d d' r0 k r r') by assumption.
    set (x := fst _). pose proof (Rinv_0_lt_compat _ Hl) as Hi.
    destruct (Req_EM_T (/ lam * x) 0) as [E|E], (Req_EM_T x 0) as [E'|E']; cbn [option_map]; try reflexivity.
    - exfalso. apply E'. apply Rmult_integral in E. lra.
    - exfalso. apply E. rewrite E'. ring.
    - f_equal. field. split; [assumption|lra].
  Qed.
End Kernels.

(* ------------------------------------------------------------------ *)
(** ** Deconvolution of a scaled map *)

(** [x'] is [lam] times [x] at the first [g] points. *)
Definition scaled (g : nat) (lam : R) (x x' : nat -> R) : Prop := forall p, (p < g)%nat -> x' p = (lam * x p)%R.

Lemma argmax_lt g x : (0 < g)%nat -> (argmax g x < g)%nat.
Proof. intros H. now apply argmax_spec. Qed.

Lemma argmax_scaled g lam x x' : (0 < lam)%R -> scaled g lam x x' -> argmax g x' = argmax g x.
Proof.
  intros Hl. induction g as [|g IH]; intros H; [reflexivity|]. cbn [argmax]. destruct g as [|g]; [reflexivity|].
  rewrite IH by (intros p Hp; apply H; lia).
  pose proof (argmax_lt (S g) x ltac:(lia)) as B.
  rewrite !H by lia. set (m := argmax (S g) x) in *.
  destruct (Rlt_dec (lam * x m) (lam * x (S g))), (Rlt_dec (x m) (x (S g))); try reflexivity; nra.
Qed.

Section Scaled.
  Variables (g : nat) (lam : R).
  Hypothesis Hl : (0 < lam)%R.

  Lemma scaled_upd x x' p v : scaled g lam x x' -> scaled g lam (upd x p v) (upd x' p (lam * v)%R).
  Proof. intros H q Hq. unfold upd. destruct (q =? p)%nat; [reflexivity|auto]. Qed.

  (** DAMAS. *)
  Theorem damas_scaled A A' y y' relax n : (forall i j, (i < g)%nat -> (j < g)%nat -> A' i j = A i j) ->
    scaled g lam y y' -> scaled g lam (damas g A y relax n) (damas g A' y' relax n).
  Proof.
    intros HA Hy.
    assert (P : forall x x' i, (i < g)%nat -> scaled g lam x x' ->
      scaled g lam (gs_point g A y relax x i) (gs_point g A' y' relax x' i)).
    { intros x x' i Hi Hx. unfold gs_point. cbv zeta.
      rewrite (rsumn_ext g (fun j => A' i j * x' j)%R (fun j => lam * (A i j * x j))%R)
        by (intros j Hj; rewrite HA, Hx by assumption; ring).
      rewrite rsumn_scal, HA, Hx, Hy by assumption. set (S := rsumn g _).
      replace ((1 - relax) * (lam * x i) + relax * (lam * y i - (lam * S - A i i * (lam * x i))))%R
        with (lam * ((1 - relax) * x i + relax * (y i - (S - A i i * x i))))%R by ring.
      set (v := ((1 - relax) * x i + relax * (y i - (S - A i i * x i)))%R).
      replace (if Rlt_dec 0 (lam * v) then (lam * v)%R else 0%R) with (lam * (if Rlt_dec 0 v then v else 0))%R.
      - now apply scaled_upd.
      - destruct (Rlt_dec 0 v), (Rlt_dec 0 (lam * v)); try ring; exfalso; nra. }
    assert (SW : forall x x', scaled g lam x x' -> scaled g lam (gs_sweep g A y relax x) (gs_sweep g A' y' relax x')).
    { unfold gs_sweep.
      assert (F : forall l, (forall i, In i l -> (i < g)%nat) -> forall x x', scaled g lam x x' ->
        scaled g lam (fold_left (gs_point g A y relax) l x) (fold_left (gs_point g A' y' relax) l x')).
      { induction l as [|i l IHl]; intros B z z' Hz; [exact Hz|]. cbn [fold_left]. apply IHl.
        - intros j Hj. apply B. now right.
        - apply P; [apply B; now left|exact Hz]. }
      apply F. intros i Hi. apply in_seq in Hi. lia. }
    unfold damas, gs_solve. assert (G : forall x x', scaled g lam x x' ->
      scaled g lam (Nat.iter n (gs_sweep g A y relax) x) (Nat.iter n (gs_sweep g A' y' relax) x')).
    { intros x x' Hx. induction n as [|k IH]; [exact Hx|]. apply SW, IH. }
    now apply G.
  Qed.

  Lemma asum_scaled x x' : scaled g lam x x' -> asum g x' = (lam * asum g x)%R.
  Proof.
    intros H. unfold asum. rewrite <- rsumn_scal. apply rsumn_ext. intros p Hp.
    rewrite H by assumption. rewrite Rabs_mult, (Rabs_right lam) by lra. reflexivity.
  Qed.

  (** CLEAN: the same number of passes. *)
  Theorem clean_scaled psf psf' damp n_iter fuel d d' : (0 < g)%nat ->
    (forall i p, (i < g)%nat -> (p < g)%nat -> psf' i p = psf i p) -> scaled g lam d d' ->
    match clean_calc g psf damp n_iter fuel d, clean_calc g psf' damp n_iter fuel d' with
    | Some (dirty, clean, i), Some (dirty', clean', i') => scaled g lam dirty dirty' /\ scaled g lam clean clean' /\ i' = i
    | None, None => True
    | _, _ => False
    end.
  Proof.
    intros Hg Hp Hd. unfold clean_calc.
    assert (G : forall fuel d d' cl cl' i, scaled g lam d d' -> scaled g lam cl cl' ->
      match clean_loop g psf damp n_iter fuel (d, cl, i), clean_loop g psf' damp n_iter fuel (d', cl', i) with
      | Some (dirty, clean, i), Some (dirty', clean', i') => scaled g lam dirty dirty' /\ scaled g lam clean clean' /\ i' = i
      | None, None => True
      | _, _ => False
      end).
    { clear d d' Hd fuel. induction fuel as [|f IH]; intros d d' cl cl' i Hd Hc; [exact I|].
      cbn [clean_loop]. unfold clean_body. cbv zeta.
      rewrite (argmax_scaled g lam d d' Hl Hd). set (m := argmax g d).
      assert (Hm : (m < g)%nat) by now apply argmax_lt.
      set (e := fun p => (d p - psf m p * (damp * d m))%R). set (e' := fun p => (d' p - psf' m p * (damp * d' m))%R).
      assert (He : scaled g lam e e').
      { intros p Hq. unfold e, e'. rewrite Hp, !Hd by assumption. ring. }
      assert (Hk : scaled g lam (upd cl m (cl m + damp * d m)) (upd cl' m (cl' m + damp * d' m))).
      { rewrite Hc, Hd by assumption. replace (lam * cl m + damp * (lam * d m))%R with (lam * (cl m + damp * d m))%R by ring.
        now apply scaled_upd. }
      rewrite (asum_scaled e e' He), (asum_scaled d d' Hd).
      unfold maxval. rewrite (argmax_scaled g lam e e' Hl He), (He (argmax g e)) by now apply argmax_lt.
      set (a := asum g e). set (b := asum g d). set (x := e (argmax g e)).
      replace (if Rlt_dec (lam * a) (lam * b) then true else false) with (if Rlt_dec a b then true else false)
        by (destruct (Rlt_dec a b), (Rlt_dec (lam * a) (lam * b)); try reflexivity; nra).
      replace (if Rlt_dec 0 (lam * x) then true else false) with (if Rlt_dec 0 x then true else false)
        by (destruct (Rlt_dec 0 x), (Rlt_dec 0 (lam * x)); try reflexivity; nra).
      destruct (_ && _ && _); [apply IH; assumption|]. auto. }
    apply G; [exact Hd|]. intros p _. ring.
  Qed.
End Scaled.

(** ** CLEAN-SC *)

Lemma Cdiv_cancel lam x h : (0 < lam)%R -> (RtoC lam * x) / RtoC (lam * h) = x / RtoC h.
Proof.
  intros Hl. destruct (Req_dec h 0) as [->|N].
  - rewrite Rmult_0_r. unfold Cdiv. replace (Cinv (RtoC 0)) with C0; [ring|].
    unfold Cinv, RtoC, C0. cbn [fst snd]. unfold Rdiv. rewrite Ropp_0. f_equal; ring.
  - rewrite RtoC_mul. field. split; apply RtoC_neq0; lra.
Qed.

Section CleanSC.
  Variables (n g : nat) (sg : nat -> nat) (lam k : R) (r0g : nat -> R) (rg rg' : nat -> nat -> R) (st : steer) (rd : bool)
    (nf damp : R).
  Hypotheses (Hs : order n sg) (Hl : (0 < lam)%R) (Hg : (0 < g)%nat)
    (Hr : forall p m, (p < g)%nat -> (m < n)%nat -> rg' p m = rg p (sg m)).

  Definition sc_rel (s s' : sc_state) : Prop :=
    scaled g lam (sc_h s) (sc_h s') /\ rewired_csm n sg lam (sc_csm s) (sc_csm s')
    /\ scaled g lam (sc_result s) (sc_result s') /\ sc_powers s' = map (Rmult lam) (sc_powers s).

  Lemma wmax_order xi m : (xi < g)%nat -> (m < n)%nat -> wmax n k r0g rg' st nf xi m = wmax n k r0g rg st nf xi (sg m).
  Proof.
    intros Hx Hm. unfold wmax. do 2 f_equal. apply steer_vector_order; [assumption| |assumption].
    intros j Hj. now apply transfer_order, Hr.
  Qed.

  Lemma d1_order c c' w w' h m : rewired_csm n sg lam c c' -> (forall j, (j < n)%nat -> w' j = w (sg j)) -> (m < n)%nat ->
    d1 n c' w' (lam * h)%R m = d1 n c w h (sg m).
  Proof.
    intros Hc Hw Hm. unfold d1. rewrite <- (Cdiv_cancel lam _ h Hl). f_equal. rewrite <- csum_scal.
    rewrite <- (csum_order n sg (fun j => RtoC lam * ((c j (sg m) - (if (sg m =? j)%nat then c (sg m) (sg m) else C0)) * w j)) Hs).
    apply csum_ext. intros j Hj. cbv beta. rewrite (order_eqb n sg Hs) by assumption.
    rewrite (Hc j m), (Hc m m), Hw by assumption. destruct (m =? j)%nat; ring.
  Qed.

  Lemma hh_order c c' xi h m : rewired_csm n sg lam c c' -> (xi < g)%nat -> (m < n)%nat ->
    hh_of n k r0g rg' st nf c' xi (lam * h)%R m = hh_of n k r0g rg st nf c xi h (sg m).
  Proof.
    intros Hc Hx. unfold hh_of. cbv zeta.
    set (w' := wmax n k r0g rg' st nf xi). set (w := wmax n k r0g rg st nf xi).
    assert (Hw : forall j, (j < n)%nat -> w' j = w (sg j)) by (intros; now apply wmax_order).
    assert (H1 : forall j, (j < n)%nat -> d1 n c' w' (lam * h)%R j = d1 n c w h (sg j)) by (intros; now apply d1_order).
    assert (ST : forall D D' y y', (forall j, (j < n)%nat -> D' j = D (sg j)) -> (forall j, (j < n)%nat -> y' j = y (sg j)) ->
      forall j, (j < n)%nat -> hh_step n D' w' y' j = hh_step n D w y (sg j)).
    { intros D D' y y' HD Hy i Hi. unfold hh_step. cbv zeta.
      rewrite HD, Hw, Hy by assumption. do 5 f_equal.
      rewrite <- (csum_order n sg (fun j => Conj (w j) * w j * (Conj (y j) * y j)) Hs). apply csum_ext. intros j Hj.
      cbv beta. now rewrite Hw, Hy. }
    generalize 20%nat. intros it. revert m. induction it as [|it IH]; intros m Hm; [now apply Hw|].
    apply ST; assumption.
  Qed.

  Local Opaque hh_of.

  Lemma sc_body_order stopn j s s' : sc_rel s s' ->
    sc_rel (fst (sc_body n g k r0g rg st rd nf damp stopn j s)) (fst (sc_body n g k r0g rg' st rd nf damp stopn j s'))
    /\ snd (sc_body n g k r0g rg' st rd nf damp stopn j s') = snd (sc_body n g k r0g rg st rd nf damp stopn j s).
  Proof.
    intros (Hh & Hc & Hres & Hp). unfold sc_body. cbv zeta.
    rewrite (argmax_scaled g lam _ _ Hl Hh). set (xi := argmax g (sc_h s)).
    assert (Hx : (xi < g)%nat) by now apply argmax_lt.
    rewrite (Hh xi Hx), (Hres xi Hx), Hp. set (h := sc_h s xi).
    assert (Hq : map (Rmult lam) (sc_powers s) ++ [(lam * h)%R] = map (Rmult lam) (sc_powers s ++ [h]))
      by now rewrite map_app.
    rewrite Hq. set (pw := sc_powers s ++ [h]).
    assert (Hn : nth (Z.to_nat (Z.of_nat j - stopn)) (map (Rmult lam) pw) 0%R = (lam * nth (Z.to_nat (Z.of_nat j - stopn)) pw 0)%R).
    { rewrite <- (map_nth (Rmult lam)). now rewrite Rmult_0_r. }
    rewrite Hn. set (z := nth _ pw 0%R).
    replace (if Rlt_dec (lam * z) (lam * h) then true else false) with (if Rlt_dec z h then true else false)
      by (destruct (Rlt_dec z h), (Rlt_dec (lam * z) (lam * h)); try reflexivity; nra).
    assert (Hu : scaled g lam (upd (sc_result s) xi (sc_result s xi + damp * h)%R)
       (upd (sc_result s') xi (lam * sc_result s xi + damp * (lam * h))%R)).
    { replace (lam * sc_result s xi + damp * (lam * h))%R with (lam * (sc_result s xi + damp * h))%R by ring.
      now apply scaled_upd. }
    destruct (_ && _); cbn [fst snd]; (split; [|reflexivity]); unfold sc_rel; cbn [sc_h sc_csm sc_result sc_powers].
    - repeat split; assumption.
    - set (u := hh_of n k r0g rg st nf (sc_csm s) xi h).
      set (u' := hh_of n k r0g rg' st nf (sc_csm s') xi (lam * h)).
      assert (Hv : forall m, (m < n)%nat -> u' m = u (sg m)) by (intros m Hm; now apply hh_order).
      clearbody u u'. split; [|split; [|split; [assumption|reflexivity]]].
      + intros p Hpg. rewrite (Hh p Hpg).
        destruct (freq_eig_order n sg Hs lam 1 (fun _ => h) (fun _ => lam * h)%R (fun m _ => Conj (u m)) (fun m _ => Conj (u' m))
          (r0g p) k (rg p) (rg' p) nf rd st) as [E _].
        { reflexivity. }
        { intros m e Hm _. rewrite Hv by assumption. reflexivity. }
        { intros m Hm. apply Hr; assumption. }
        rewrite E. ring.
      + intros a b Ha Hb. rewrite Hc, (Hv a), (Hv b) by assumption. rewrite RtoC_mul. ring.
  Qed.

  (** BeamformerCleansc: the same passes, every power found is [lam] times the other. *)
  Theorem cleansc_order stopn J c c' : hermitian n c -> rewired_csm n sg lam c c' ->
    sc_rel (cleansc n g k r0g rg st rd nf damp stopn J c) (cleansc n g k r0g rg' st rd nf damp stopn J c').
  Proof.
    intros Hc H. unfold cleansc.
    assert (G : forall J j s s', sc_rel s s' ->
      sc_rel (sc_loop n g k r0g rg st rd nf damp stopn j J s) (sc_loop n g k r0g rg' st rd nf damp stopn j J s')).
    { clear J. induction J as [|J IH]; intros j s s' R; [exact R|]. cbn [sc_loop].
      destruct (sc_body_order stopn j s s' R) as [A B].
      destruct (sc_body n g k r0g rg st rd nf damp stopn j s) as [t f].
      destruct (sc_body n g k r0g rg' st rd nf damp stopn j s') as [t' f']. cbn [fst snd] in A, B. subst f'.
      destruct f; [exact A|now apply IH]. }
    apply G. unfold sc_rel. cbn [sc_h sc_csm sc_result sc_powers]. repeat split.
    - intros p Hp. unfold bf_map. apply freq_full_order with (sg := sg); auto.
    - exact H.
    - intros p _. ring.
  Qed.
End CleanSC.

(* ------------------------------------------------------------------ *)
(** ** Methods based on eigenvalues *)

Section Eigen.
  Variables (n : nat) (sg : nat -> nat) (lam : R) (c c' : nat -> nat -> C).
  Variables (eva eva' : nat -> R) (eve eve' : nat -> nat -> C).
  Hypotheses (Hs : order n sg) (Hl : (0 < lam)%R) (Hc : hermitian n c) (H : rewired_csm n sg lam c c')
    (E : is_eigh n c eva eve) (E' : is_eigh n c' eva' eve').

  Let ea e := (lam * eva e)%R.
  Let ev m e := eve (sg m) e.

  Lemma rewired_eigh : is_eigh n c' ea ev.
  Proof.
    destruct E as (E1 & E2 & E3). pose proof Hs as [H1 _]. unfold ea, ev. repeat split.
    - intros e i He Hi. rewrite RtoC_mul.
      replace (RtoC lam * RtoC (eva e) * eve (sg i) e) with (RtoC lam * (RtoC (eva e) * eve (sg i) e)) by ring.
      rewrite <- (E1 e (sg i) He) by auto. rewrite <- csum_scal.
      rewrite <- (csum_order n sg (fun j => RtoC lam * (c (sg i) j * eve j e)) Hs). apply csum_ext. intros j Hj.
      cbv beta. rewrite H by assumption. ring.
    - intros e f He Hf. rewrite <- (E2 e f He Hf).
      exact (csum_order n sg (fun i => Conj (eve i e) * eve i f) Hs).
    - intros e f Hle Hf. apply Rmult_le_compat_l; [lra|auto].
  Qed.

  Let Hc' : hermitian n c'.
  Proof. now apply (rewired_hermitian n sg lam c). Qed.

  Theorem eigenvalues_order e : (e < n)%nat -> eva' e = (lam * eva e)%R.
  Proof. intros He. exact (eigenvalues_unique n c' ea ev eva' eve' Hc' rewired_eigh E' e He). Qed.

  Theorem eig_order na r0 k r r' rd rdn st : (na < n)%nat -> (forall f, (f < n)%nat -> f <> na -> eva f <> eva na) ->
    (forall m, (m < n)%nat -> r' m = r (sg m)) ->
    bf_eig n na eva' eve' r0 k r' rd rdn st = option_map (Rmult lam) (bf_eig n na eva eve r0 k r rd rdn st).
  Proof.
    intros Hn Hsimple Hr.
    rewrite (bf_eig_unique n c' ea ev eva' eve' na r0 k r' rd rdn st Hc' rewired_eigh E' Hn).
    - apply bf_eig_order with (sg := sg); auto.
    - intros f Hf Nf. unfold ea. specialize (Hsimple f Hf Nf). intros Q. apply Hsimple.
      apply Rmult_eq_reg_l with lam; [exact Q|lra].
  Qed.

  Theorem functional_order g r0 k r r' st : (0 < n)%nat -> (0 < r0)%R -> (forall m, (m < n)%nat -> (0 < r m)%R) ->
    (forall m, (m < n)%nat -> r' m = r (sg m)) -> (g <> 0)%R -> (forall e, (e < n)%nat -> (0 <= eva e)%R) ->
    bf_functional n npow g eva' eve' r0 k r' st = (lam * bf_functional n npow g eva eve r0 k r st)%R.
  Proof.
    intros Hn H0 Hp Hr Hg Hpos. pose proof Hs as [H1 _].
    assert (Hp' : forall m, (m < n)%nat -> (0 < r' m)%R) by (intros m Hm; rewrite Hr by assumption; auto).
    rewrite (functional_unique n c' ea ev eva' eve' g r0 k r' st Hn H0 Hp' Hc' rewired_eigh E').
    unfold bf_functional, ea, ev.
    destruct (freq_eig_order n sg Hs (npow lam (1 / g)) n (fun e => npow (eva e) (1 / g)) (fun e => npow (lam * eva e) (1 / g))
      eve (fun m e => eve (sg m) e) r0 k r r' 1 false st) as [A B]; auto.
    { intros e He. apply npow_mult; [lra|auto]. }
    pose proof (steer_size n r0 k r st Hn H0 Hp) as Sz.
    assert (P : (0 <= fst (freq_eig n n (fun e => npow (eva e) (1 / g)) eve r0 k r 1 false st))%R
      /\ (0 < snd (freq_eig n n (fun e => npow (eva e) (1 / g)) eve r0 k r 1 false st))%R).
    { rewrite (fast_eig_custom n r0 k r Hn H0 Hp). unfold freq_custom_eig. cbn [fst snd].
      rewrite (steer_norm_sum n r0 k r). split; [|exact Sz]. rewrite Rmult_1_r.
      unfold scalar_prod_eig. apply rsumn_nonneg. intros e _. cbv zeta. rewrite mul_Conj. cbn [re RtoC fst].
      apply Rmult_le_pos; [apply norm2_nonneg|apply npow_nonneg]. }
    destruct (freq_eig n n (fun e => npow (eva e) (1 / g)) eve r0 k r 1 false st) as [o nm].
    destruct (freq_eig n n (fun e => npow (lam * eva e) (1 / g)) (fun m e => eve (sg m) e) r0 k r' 1 false st) as [o' nm'].
    cbn [fst snd] in A, B, P. subst o' nm'.
    replace (npow lam (1 / g) * o / nm)%R with (npow lam (1 / g) * (o / nm))%R by (unfold Rdiv; ring).
    rewrite npow_mult; [|apply npow_nonneg|apply Rmult_le_pos; [apply P|apply Rlt_le, Rinv_0_lt_compat, P]].
    rewrite npow_npow by lra. replace (1 / g * g)%R with 1%R by (field; assumption).
    rewrite npow_1 by lra. ring.
  Qed.

  (** Distances of the grid points in the other order. *)
  Definition same_grid (grid grid' : list (R * (nat -> R))) : Prop :=
    Forall2 (fun p p' => fst p' = fst p /\ forall m, (m < n)%nat -> snd p' m = snd p (sg m)) grid grid'.

  Theorem music_order nsrc k st grid grid' : (0 < n)%nat -> same_grid grid grid' ->
    (forall g, In g grid -> good_point n g) ->
    (let ne := Z.to_nat (Z.of_nat n - get_na nsrc (Z.of_nat n)) in (ne < n)%nat -> (eva (ne - 1)%nat < eva ne)%R) ->
    music n nsrc eva' eve' k st grid' = music n nsrc eva eve k st grid.
  Proof.
    intros Hn Hg Hgood Hgap. pose proof Hs as [H1 _].
    rewrite (music_unique n c' ea ev eva' eve' nsrc k st grid' Hn); [| |exact Hc'|exact rewired_eigh|exact E'|].
    3:{ cbv zeta in *. intros L. specialize (Hgap L). unfold ea. nra. }
    2:{ clear -Hg Hgood H1. induction Hg as [|p p' l l' (A & B) Hg IH]; intros g [].
        - subst g. destruct (Hgood p (or_introl eq_refl)) as [P Q]. split; [now rewrite A|].
          intros m Hm. rewrite B by assumption. auto.
        - apply IH; [|assumption]. intros q Hq. apply Hgood. now right. }
    assert (O : map (music_out n nsrc ea ev k st) grid' = map (Rmult lam) (map (music_out n nsrc eva eve k st) grid)).
    { clear Hgood. induction Hg as [|p p' l l' (A & B) Hg IH]; [reflexivity|]. cbn [map]. f_equal; [|exact IH].
      unfold music_out. rewrite A.
      apply (freq_eig_order n sg Hs lam _ eva ea eve ev (fst p) k (snd p) (snd p')); auto. }
    unfold music. cbv zeta. rewrite O. rewrite !map_map.
    assert (Mn : list_min (map (fun x => (lam * music_out n nsrc eva eve k st x)%R) grid)
       = (lam * list_min (map (music_out n nsrc eva eve k st) grid))%R).
    { rewrite <- (map_map (music_out n nsrc eva eve k st) (Rmult lam)). generalize (map (music_out n nsrc eva eve k st) grid).
      intros [|x l]; cbn [map list_min]; [ring|]. revert x. induction l as [|y l IH]; intros x; [reflexivity|].
      cbn [map fold_left]. rewrite <- IH. f_equal. unfold Rmin.
      destruct (Rle_dec (lam * x) (lam * y)), (Rle_dec x y); try reflexivity; nra. }
    rewrite Mn. apply map_ext. intros p. set (x := music_out n nsrc eva eve k st p).
    destruct (Req_EM_T (lam * x) 0) as [Q|Q], (Req_EM_T x 0) as [Q'|Q']; try reflexivity.
    - exfalso. apply Rmult_integral in Q. lra.
    - exfalso. apply Q. rewrite Q'. ring.
    - f_equal. field. split; lra.
  Qed.
End Eigen.
