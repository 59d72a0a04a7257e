(** C104: eigenvalues and eigenvectors of the cross spectral matrix. *)
From Coq Require Import List Arith Lia ZArith Bool Reals Lra.
From Verif Require Import Stream Cplx Beamform Fourier Frames Csm Result Subspace SynthEv.
Import ListNotations.
Local Open Scope R_scope.

(** C104.  Each line's matrix is eve diag(eva) eve^H, the eigenvalues are ascending and sum
    to the trace; eigh is any function that fulfils its contract. *)
Theorem C104_decomposition : forall n eigh (csm : list (nat -> nat -> C)) l c,
  nth_error csm l = Some c -> is_eigh n c (fst (eigh c)) (snd (eigh c)) ->
  exists eva eve, nth_error (fst (calc_ev eigh csm)) l = Some eva /\ nth_error (snd (calc_ev eigh csm)) l = Some eve
    /\ (forall i j, (i < n)%nat -> (j < n)%nat ->
          c i j = csum n (fun e => Cmul (Cmul (RtoC (eva e)) (eve i e)) (Conj (eve j e))))
    /\ csum n (fun i => c i i) = RtoC (rsumn n eva)
    /\ (forall e f, (e <= f < n)%nat -> eva e <= eva f).
Proof.
  intros n eigh csm l c Hl HE. exists (fst (eigh c)), (snd (eigh c)). unfold calc_ev. cbn [fst snd].
  split; [now rewrite nth_error_map, Hl|]. split; [now rewrite nth_error_map, Hl|].
  split; [intros i j Hi Hj; exact (reconstruct n c _ _ HE i j Hi Hj)|].
  split; [exact (trace_eig n c _ _ HE)|]. intros e f [H1 H2]. now apply HE.
Qed.
Print Assumptions C104_decomposition.

(** C104.  For the matrices of PowerSpectra (C30) no eigenvalue is negative, and they sum to
    the total power of the microphones in the line. *)
Theorem C104_power : forall garbage bs ov N wind (src : source (list R)) s b eva eve,
  wf_source src s -> (0 < bs)%nat -> (0 < ov)%nat -> (bs <= length s)%nat ->
  0 < rsumn bs (fun j => wind j * wind j) ->
  let csm := power_spectra_csm garbage bs ov N wind (length s) src b in
  is_eigh N csm eva eve ->
  (forall e, (e < N)%nat -> 0 <= eva e)
  /\ rsumn N eva = rsumn N (fun i => re (csm i i)).
Proof.
  intros garbage bs ov N wind src s b eva eve Hw Hb Ho Hl Hp csm HE.
  destruct (csm_spec garbage bs ov N wind src s b Hw Hb Ho Hl Hp) as (_ & _ & A & B).
  change (power_spectra_csm garbage bs ov N wind (length s) src b) with csm in A, B. split.
  - intros e He. destruct (B (fun i => eve i e)) as (x & Ex & Hx).
    pose proof (rayleigh N csm eva eve HE e He) as Ry.
    assert (RtoC (eva e) = RtoC x) as EE by (rewrite <- Ry, <- Ex; reflexivity).
    apply RtoC_inj in EE. lra.
  - apply RtoC_inj. rewrite <- (trace_eig N csm eva eve HE), <- csum_RtoC. apply csum_ext. intros i Hi.
    destruct (A i Hi) as (x & Ex & _). rewrite Ex. reflexivity.
Qed.
Print Assumptions C104_power.

(** C104.  synthetic_ev for a band with at least one line: the sum over the lines in
    [freq 2^(-1/(2 num)), freq 2^(1/(2 num))[; for num = 0 the first line not below freq.
    Missing: bands between two lines, and frequencies above the last line. *)
Theorem C104_band_partial : forall f eva freq num, num <> 0 -> increasing f -> length eva = length f ->
  let f1 := freq * Rpower 2 (- (1/2) / num) in let f2 := freq * Rpower 2 ((1/2) / num) in
  (exists x, In x f /\ f1 <= x < f2) ->
  exists r, synthetic_ev f eva freq num = inl r /\ forall p, r p = band_sum f eva f1 f2 p.
Proof.
  intros f eva freq num Hn Hi Hl f1 f2 (x & Hx & Hx1). unfold synthetic_ev. destruct (Req_EM_T num 0); [contradiction|].
  fold f1 f2. cbv zeta. destruct (Nat.eqb_spec (searchsorted f f1) (searchsorted f f2)) as [K|_].
  - exfalso. clear -Hi Hx Hx1 K. induction f as [|y f IH]; [destruct Hx|]. cbn [searchsorted] in K.
    destruct (Rlt_dec y f1), (Rlt_dec y f2); try discriminate; destruct Hx as [<-|Hx]; try lra.
    + apply IH; auto. now apply increasing_tail in Hi.
    + pose proof (increasing_head _ _ Hi _ Hx). lra.
  - eexists. split; [reflexivity|]. intros p. now apply band_sum_spec.
Qed.
Print Assumptions C104_band_partial.

Theorem C104_line_partial : forall f eva freq i, increasing f -> length eva = length f -> (i < length f)%nat ->
  freq <= nth i f 0 -> (forall k, (k < i)%nat -> nth k f 0 < freq) ->
  synthetic_ev f eva freq 0 = inl (nth i eva (fun _ => 0)).
Proof.
  intros f eva freq i Hi Hl Hlt Hf Hb. unfold synthetic_ev. destruct (Req_EM_T 0 0); [|lra].
  rewrite (search_first f freq i Hi Hlt Hf Hb). unfold row_at.
  rewrite (nth_error_nth' eva (fun _ => 0)) by lia. reflexivity.
Qed.
Print Assumptions C104_line_partial.

(** C104.  The eigenvalues of a band sum to the total power of the microphones in the band. *)
Theorem C104_band_power : forall n f (csm : list (nat -> nat -> C)) eigh freq num, num <> 0 -> increasing f -> length csm = length f ->
  (forall c, In c csm -> is_eigh n c (fst (eigh c)) (snd (eigh c))) ->
  let f1 := freq * Rpower 2 (- (1/2) / num) in let f2 := freq * Rpower 2 ((1/2) / num) in
  (exists x, In x f /\ f1 <= x < f2) ->
  exists r, synthetic_ev f (fst (calc_ev eigh csm)) freq num = inl r
    /\ rsumn n r = band_sum f (map (fun c _ => re (csum n (fun i => c i i))) csm) f1 f2 0.
Proof.
  intros n f csm eigh freq num Hn Hi Hl HE f1 f2 Hx.
  destruct (C104_band_partial f (fst (calc_ev eigh csm)) freq num Hn Hi) as (r & Er & Hr).
  - unfold calc_ev. cbn [fst]. now rewrite map_length.
  - exact Hx.
  - exists r. split; [exact Er|]. rewrite (rsumn_ext n r (fun p => band_sum f (fst (calc_ev eigh csm)) f1 f2 p)) by (intros; apply Hr).
    rewrite rsumn_band. unfold calc_ev. cbn [fst]. rewrite map_map. f_equal. apply map_ext_in. intros c Hc.
    rewrite (trace_eig n c _ _ (HE c Hc)). reflexivity.
Qed.
Print Assumptions C104_band_power.

(** "synthetic_ev is the sum over the lines of the band": false when no line is in the band;
    the line above the band is delivered (where the result maps of beamformers give zero),
    or an error is raised if there is none. *)
Theorem C104_empty_band_refuted : exists f eva freq num r, increasing f /\ length eva = length f /\ num <> 0
  /\ (forall x, In x f -> ~ (freq * Rpower 2 (- (1/2) / num) <= x < freq * Rpower 2 ((1/2) / num)))
  /\ synthetic_ev f eva freq num = inl r /\ r O = 1.
Proof.
  exists [0; 4], [fun _ => 0; fun _ => 1], 1, 1.
  assert (A : 0 < Rpower 2 (- (1/2) / 1)) by (unfold Rpower; apply exp_pos).
  assert (B : Rpower 2 ((1/2) / 1) < 2).
  { apply Rlt_le_trans with (Rpower 2 1); [apply Rpower_lt; lra|rewrite Rpower_1; lra]. }
  assert (B0 : 0 < Rpower 2 ((1/2) / 1)) by (unfold Rpower; apply exp_pos).
  assert (A1 : Rpower 2 (- (1/2) / 1) < 2).
  { apply Rlt_le_trans with (Rpower 2 1); [apply Rpower_lt; lra|rewrite Rpower_1; lra]. }
  eexists. split; [cbn; lra|]. split; [reflexivity|]. split; [lra|]. split.
  - intros x [<-|[<-|[]]]; lra.
  - unfold synthetic_ev. destruct (Req_EM_T 1 0); [lra|]. cbv zeta.
    rewrite (search_first [0; 4] _ 1).
    + rewrite (search_first [0; 4] _ 1); [cbn; split; reflexivity|cbn; lra|cbn; lia|cbn; lra|].
      intros k Hk. destruct k; [|lia]. cbn. lra.
    + cbn; lra.
    + cbn; lia.
    + cbn; lra.
    + intros k Hk. destruct k; [|lia]. cbn. lra.
Qed.
Print Assumptions C104_empty_band_refuted.

(** Above the last line synthetic_ev raises where the other band functions give zero. *)
Theorem C104_above_refuted : forall f eva freq num, length eva = length f ->
  (forall x, In x f -> x < freq) -> synthetic_ev f eva freq 0 = inr IndexError
  /\ (num <> 0 -> (forall x, In x f -> x < freq * Rpower 2 (- (1/2) / num)) -> 0 < num -> 0 <= freq ->
      synthetic_ev f eva freq num = inr IndexError).
Proof.
  intros f eva freq num Hl Hf. split.
  - unfold synthetic_ev. destruct (Req_EM_T 0 0); [|lra]. rewrite search_all by exact Hf. unfold row_at.
    now rewrite (proj2 (nth_error_None eva _)) by lia.
  - intros Hn Hf1 Hp Hq. unfold synthetic_ev. destruct (Req_EM_T num 0); [contradiction|]. cbv zeta.
    assert (M : Rpower 2 (- (1/2) / num) < Rpower 2 ((1/2) / num)).
    { apply Rpower_lt; [lra|]. apply Rmult_lt_compat_r; [now apply Rinv_0_lt_compat|lra]. }
    rewrite (search_all f) by exact Hf1. rewrite (search_all f).
    + rewrite Nat.eqb_refl. unfold row_at. now rewrite (proj2 (nth_error_None eva _)) by lia.
    + intros x Hx. eapply Rlt_le_trans; [exact (Hf1 x Hx)|]. apply Rmult_le_compat_l; [exact Hq|lra].
Qed.
Print Assumptions C104_above_refuted.

(** Hypotheses met: diagonal matrices of two microphones. *)
Example C104_case : is_eigh 2 (fun i j => if (i =? j)%nat then RtoC (INR i + 1) else C0) (fun e => INR e + 1) (fun i e => if (i =? e)%nat then C1 else C0)
  /\ increasing [0; 50; 100] /\ exists x, In x [0; 50; 100] /\ 60 * Rpower 2 (- (1/2) / 1) <= x < 60 * Rpower 2 ((1/2) / 1).
Proof.
  split; [split; [|split]|split].
  - intros e i He Hi. destruct e as [|[|]], i as [|[|]]; try lia; cbn; unfold Cadd, Cmul, C0, C1, RtoC; cbn; f_equal; lra.
  - intros e f He Hf. destruct e as [|[|]], f as [|[|]]; try lia; cbn; unfold Cadd, Cmul, Conj, C0, C1, RtoC; cbn; f_equal; lra.
  - intros e f H1 H2. apply le_INR in H1. lra.
  - cbn. lra.
  - exists 50. split; [cbn; auto|]. 
    assert (S : Rpower 2 ((1/2) / 1) = sqrt 2) by (replace ((1/2)/1) with (/ 2) by lra; apply Rpower_sqrt; lra).
    assert (S2 : Rpower 2 (- (1/2) / 1) = / sqrt 2).
    { replace (- (1/2) / 1) with (- (/2)) by lra. rewrite Rpower_Ropp. f_equal. apply Rpower_sqrt. lra. }
    rewrite S, S2. assert (Q : sqrt 2 * sqrt 2 = 2) by (apply sqrt_sqrt; lra). pose proof (sqrt_pos 2) as P.
    assert (Hs : 1.4 <= sqrt 2 <= 1.5) by (split; nra).
    assert (I2 : sqrt 2 * / sqrt 2 = 1) by (apply Rinv_r; nra). nra.
Qed.
