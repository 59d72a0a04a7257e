(** BeamformerGIB, method 'Suzuki' (property C87; fbeamform.py:2058-2293).

    Modelled: the regularised inversion per eigenmode, the iteration with
    weights and reduced sets of points, the map.  [inv] is any matrix inversion
    that fails only on singular matrices, [lam] the largest magnitude of the
    eigenvalues of the matrix that is inverted.  Not modelled: the other methods
    (scikit-learn), the eigenvalue decomposition, the order argsort gives to
    equal values (here the later one counts as larger). *)
From Coq Require Import List Arith Lia ZArith Bool Reals Lra Permutation.
From Verif Require Import Stream Wav Cplx.
Import ListNotations.
Local Open Scope C_scope.

Definition mat := nat -> nat -> C.

(** [X] is the inverse of [M] (size [n]). *)
Definition idm : mat := fun i j => if (i =? j)%nat then C1 else C0.
Definition mmul (n : nat) (X Y : mat) : mat := fun i j => csum n (fun l => X i l * Y l j).
Definition meq (n : nat) (X Y : mat) : Prop := forall i j, (i < n)%nat -> (j < n)%nat -> X i j = Y i j.

(** numpy.linalg.inv: LinAlgError ([None]) for singular matrices only. *)
Definition inverts (inv : nat -> mat -> option mat) : Prop :=
  (forall n M X, inv n M = Some X -> meq n (mmul n M X) idm /\ meq n (mmul n X M) idm)
  /\ forall n M Y, meq n (mmul n M Y) idm -> meq n (mmul n Y M) idm -> inv n M <> None.

Section gib.
  Variables (inv : nat -> mat -> option mat) (lam : nat -> mat -> R).
  (** [nch] channels, [np] grid points, [A] the transfer matrix (channel, point);
      [pw x] = x ** (2 - pnorm). *)
  Variables (nch np : nat) (A : mat) (eps_perc beta : R) (pw : R -> R).

  (** [epsilon = arange(n_iter)] is an array of integers, fbeamform.py:2200,
      2204, 2214: what is stored in it loses its fraction. *)
  Definition epsilon (M : mat) (n : nat) : R := IZR (trunc (lam n M * eps_perc)).

  (** The columns of [A] for the points [loc]. *)
  Definition cols (loc : list nat) : mat := fun c l => A c (nth l loc 0%nat).

  (** dot(dot(A, weights), A^H), fbeamform.py:2203. *)
  Definition awa (B : mat) (L : nat) (w : nat -> R) : mat := fun c c' => csum L (fun l => B c l * RtoC (w l) * Conj (B c' l)).

  (** dot(A^H, A), fbeamform.py:2213. *)
  Definition aha (B : mat) : mat := fun l l' => csum nch (fun c => Conj (B c l) * B c l').

  Definition add_diag (M : mat) (d : nat -> C) : mat := fun i j => if (i =? j)%nat then M i j + d i else M i j.

  (** The two formulas, fbeamform.py:2202-2218; inv(weights) needs nonzero
      weights. *)
  Definition suzuki_wide (B : mat) (L : nat) (w : nat -> R) (e : nat -> C) : option (nat -> C) :=
    let M := awa B L w in
    match inv nch (add_diag M (fun _ => RtoC (epsilon M nch))) with
    | None => None
    | Some X => Some (fun l => csum nch (fun c => RtoC (w l) * Conj (B c l) * csum nch (fun c' => X c c' * e c')))
    end.

  Definition suzuki_tall (B : mat) (L : nat) (w : nat -> R) (e : nat -> C) : option (nat -> C) :=
    if forallb (fun l => if Req_EM_T (w l) 0 then false else true) (seq 0 L)
    then match inv L (add_diag (aha B) (fun l => RtoC (/ w l * epsilon (aha B) L)%R)) with
         | None => None
         | Some X => Some (fun l => csum L (fun l' => X l l' * csum nch (fun c => Conj (B c l') * e c)))
         end
    else None.

  Definition suzuki (left : nat) (B : mat) (L : nat) (w : nat -> R) (e : nat -> C) : option (nat -> C) :=
    if (nch <=? left)%nat then suzuki_wide B L w e else suzuki_tall B L w e.

  (** Python's round. *)
  Definition round_even (x : R) : Z :=
    let f := Int_part x in
    if Rlt_dec (x - IZR f) (1 / 2) then f
    else if Rlt_dec (1 / 2) (x - IZR f) then (f + 1)%Z
    else if Z.even f then f else (f + 1)%Z.

  (** qi[s, locpoints] = ...: position of point [p] in [loc]. *)
  Fixpoint index_of (p : nat) (loc : list nat) : option nat :=
    match loc with
    | [] => None
    | a :: r => if (p =? a)%nat then Some 0%nat else option_map S (index_of p r)
    end.

  Definition assign (q : nat -> C) (loc : list nat) (ql : nat -> C) : nat -> C :=
    fun p => match index_of p loc with Some l => ql l | None => q p end.

  (** delete(locpoints, idx[leftpoints:]) with idx = argsort(abs(q))[::-1]: the
      [left] points with the largest magnitudes stay, in their order,
      fbeamform.py:2223-2226. *)
  Definition larger (q : nat -> C) (loc : list nat) (l : nat) : nat :=
    length (filter (fun l' => if Rlt_dec (Cabs (q (nth l loc 0%nat))) (Cabs (q (nth l' loc 0%nat))) then true
                              else if Req_EM_T (Cabs (q (nth l loc 0%nat))) (Cabs (q (nth l' loc 0%nat))) then (l <? l')%nat else false)
              (seq 0 (length loc))).
  Definition keep (q : nat -> C) (loc : list nat) (left : nat) : list nat :=
    map (fun l => nth l loc 0%nat) (filter (fun l => (larger q loc l <? left)%nat) (seq 0 (length loc))).

  Record gib_state := mkGib { gs_loc : list nat; gs_left : nat; gs_w : nat -> R; gs_q : nat -> C }.

  (** Before the first iteration, fbeamform.py:2197-2199. *)
  Definition gib_start : gib_state := mkGib (seq 0 np) np (fun _ => 1%R) (fun _ => C0).

  (** One iteration, fbeamform.py:2201-2232. *)
  Definition gib_step (e : nat -> C) (it : nat) (s : gib_state) : option gib_state :=
    match suzuki (gs_left s) (cols (gs_loc s)) (length (gs_loc s)) (gs_w s) e with
    | None => None
    | Some ql =>
        let q := assign (gs_q s) (gs_loc s) ql in
        if (if Rlt_dec beta 1 then true else false) && (1 <? it)%nat
        then
          let left := Z.to_nat (round_even (INR np * beta ^ (it + 1))) in
          let loc := keep q (gs_loc s) left in
          Some (mkGib loc left (fun l => pw (Cabs (q (nth l loc 0%nat)))) q)
        else Some (mkGib (gs_loc s) (gs_left s) (fun l => pw (Cabs (q l))) q)
    end.

  Fixpoint gib_iter (e : nat -> C) (it n : nat) (s : gib_state) : option gib_state :=
    match n with
    | O => Some s
    | S n' => match gib_step e it s with Some s' => gib_iter e (S it) n' s' | None => None end
    end.

  (** The modes [ms] (eigenvalue, eigenmode) in turn; [locpoints] keeps the value
      of the last one calculated, fbeamform.py:2191-2287. *)
  Fixpoint gib_modes (n_iter : nat) (ms : list (R * (nat -> C))) (loc : option (list nat)) (qs : list (nat -> C))
      : (option (list nat) * list (nat -> C)) + exn :=
    match ms with
    | [] => inl (loc, qs)
    | (ev, mode) :: rest =>
        if Rlt_dec 0 ev
        then match gib_iter (fun c => RtoC (sqrt ev) * mode c) 0 n_iter gib_start with
             | Some s => gib_modes n_iter rest (Some (gs_loc s)) (qs ++ [gs_q s])
             | None => inr ValueError (* LinAlgError *)
             end
        else gib_modes n_iter rest loc qs
    end.

  Definition rsum_list (l : list R) : R := fold_right Rplus 0%R l.

  (** temp[locpoints] = sum(absolute(qi[:, locpoints]) ** 2), fbeamform.py:2290-2291. *)
  Definition gib_map (n_iter : nat) (ms : list (R * (nat -> C))) : (nat -> R) + exn :=
    match gib_modes n_iter ms None [] with
    | inr e => inr e
    | inl (None, _) => inr UnboundLocalError
    | inl (Some loc, qs) =>
        inl (fun p => if existsb (Nat.eqb p) loc then rsum_list (map (fun q => norm2 (q p)) qs) else 0%R)
    end.
End gib.

(* ------------------------------------------------------------------ *)
(** * Specification *)

(** Residual power of the amplitudes [q] for the mode [e]. *)
Definition misfit (nch : nat) (B : mat) (L : nat) (e q : nat -> C) : R :=
  rsumn nch (fun c => norm2 (csum L (fun l => B c l * q l) - e c)).

(** Regularised cost. *)
Definition cost (nch : nat) (B : mat) (L : nat) (w : nat -> R) (eps : R) (e q : nat -> C) : R :=
  (misfit nch B L e q + eps * rsumn L (fun l => / w l * norm2 (q l)))%R.

(** Points with weight 0 have amplitude 0. *)
Definition supported (L : nat) (w : nat -> R) (q : nat -> C) : Prop := forall l, (l < L)%nat -> w l = 0%R -> q l = C0.

(* ------------------------------------------------------------------ *)
(** * The regularised inversion *)

(** Normal equations. *)
Definition normal (nch : nat) (B : mat) (L : nat) (w : nat -> R) (eps : R) (e q : nat -> C) : Prop :=
  supported L w q
  /\ forall l, (l < L)%nat -> w l <> 0%R ->
     csum nch (fun c => Conj (B c l) * (csum L (fun l' => B c l' * q l') - e c)) + RtoC (eps * / w l)%R * q l = C0.

Lemma norm2_add a b : norm2 (a + b) = (norm2 a + norm2 b + 2 * re (Conj b * a)%C)%R.
Proof. unfold norm2, re, Conj, Cmul, Cadd. cbn [fst snd]. ring. Qed.

Lemma cost_expand nch B L w eps e q q' :
  normal nch B L w eps e q -> supported L w q' ->
  cost nch B L w eps e q'
  = (cost nch B L w eps e q
     + rsumn nch (fun c => norm2 (csum L (fun l => B c l * (q' l - q l))%C))
     + eps * rsumn L (fun l => / w l * norm2 (q' l - q l)%C))%R.
Proof.
  intros [Hs HN] Hs'. set (d := fun l => q' l - q l).
  set (r := fun c => csum L (fun l => B c l * q l) - e c).
  set (Bd := fun c => csum L (fun l => B c l * d l)).
  assert (E1 : misfit nch B L e q' = (misfit nch B L e q + rsumn nch (fun c => norm2 (Bd c))
     + 2 * re (csum L (fun l => Conj (d l) * csum nch (fun c => Conj (B c l) * r c))%C))%R).
  { unfold misfit. rewrite <- rsumn_add.
    replace (csum L (fun l => Conj (d l) * csum nch (fun c => Conj (B c l) * r c)))
      with (csum nch (fun c => Conj (Bd c) * r c)).
    - rewrite re_csum, <- rsumn_scal, <- rsumn_add. apply rsumn_ext. intros c _.
      rewrite <- norm2_add. f_equal. unfold r, Bd, d. 
      rewrite (csum_ext L (fun l => B c l * (q' l - q l)) (fun l => B c l * q' l - B c l * q l)) by (intros; ring).
      rewrite csum_sub. ring.
    - unfold Bd.
      rewrite (csum_ext L (fun l => Conj (d l) * csum nch (fun c => Conj (B c l) * r c))
                 (fun l => csum nch (fun c => Conj (d l) * (Conj (B c l) * r c)))) by (intros; now rewrite csum_scal).
      rewrite csum_swap. apply csum_ext. intros c _. rewrite csum_conj, <- csum_scal_r. apply csum_ext. intros l _.
      rewrite Conj_mul. ring. }
  assert (E2 : (eps * rsumn L (fun l => / w l * norm2 (q' l)) = eps * rsumn L (fun l => / w l * norm2 (q l))
     + eps * rsumn L (fun l => / w l * norm2 (d l))
     + 2 * re (csum L (fun l => Conj (d l) * (RtoC (eps * / w l)%R * q l))%C))%R).
  { rewrite re_csum, <- !rsumn_scal, <- !rsumn_add. apply rsumn_ext. intros l _.
    replace (q' l) with (q l + d l) by (unfold d; ring). rewrite norm2_add.
    replace (re (Conj (d l) * (RtoC (eps * / w l)%R * q l)))%C with ((eps * / w l) * re (Conj (d l) * q l)%C)%R
      by (rewrite <- re_RtoC_mul; f_equal; ring). ring. }
  unfold cost. rewrite E1, E2.
  assert (Z : (re (csum L (fun l => Conj (d l) * csum nch (fun c => Conj (B c l) * r c))%C)
       + re (csum L (fun l => Conj (d l) * (RtoC (eps * / w l)%R * q l))%C) = 0)%R).
  { rewrite <- re_add, <- csum_add. rewrite csum_0; [reflexivity|]. intros l Hl.
    destruct (Req_EM_T (w l) 0) as [E|E].
    - unfold d. rewrite (Hs' l Hl E), (Hs l Hl E). replace (C0 - C0) with C0 by ring. rewrite Conj_0. ring.
    - replace (Conj (d l) * csum nch (fun c => Conj (B c l) * r c) + Conj (d l) * (RtoC (eps * / w l)%R * q l))
        with (Conj (d l) * (csum nch (fun c => Conj (B c l) * r c) + RtoC (eps * / w l)%R * q l)) by ring.
      unfold r. rewrite (HN l Hl E). ring. }
  change (rsumn nch (fun c => norm2 (csum L (fun l => (B c l * (q' l - q l))%C)))) with (rsumn nch (fun c => norm2 (Bd c))).
  change (rsumn L (fun l => / w l * norm2 (q' l - q l)%C)%R) with (rsumn L (fun l => / w l * norm2 (d l))%R).
  lra.
Qed.

(** A solution of the normal equations is the best, and with [eps > 0] the only
    one. *)
Theorem normal_min nch B L w eps e q :
  (0 <= eps)%R -> (forall l, (l < L)%nat -> (0 <= w l)%R) -> normal nch B L w eps e q ->
  forall q', supported L w q' ->
    (cost nch B L w eps e q <= cost nch B L w eps e q')%R
    /\ ((0 < eps)%R -> cost nch B L w eps e q' = cost nch B L w eps e q -> forall l, (l < L)%nat -> q' l = q l).
Proof.
  intros He Hw HN q' Hs'. pose proof (cost_expand nch B L w eps e q q' HN Hs') as E.
  assert (P1 : (0 <= rsumn nch (fun c => norm2 (csum L (fun l => (B c l * (q' l - q l))%C))))%R)
    by (apply rsumn_nonneg; intros; apply norm2_nonneg).
  assert (P2 : forall l, (l < L)%nat -> (0 <= / w l * norm2 (q' l - q l)%C)%R).
  { intros l Hl. destruct (Req_EM_T (w l) 0) as [E0|E0].
    - destruct HN as [Hs _]. rewrite (Hs' l Hl E0), (Hs l Hl E0). replace (C0 - C0) with C0 by ring.
      unfold norm2, C0. cbn [fst snd]. lra.
    - apply Rmult_le_pos; [|apply norm2_nonneg]. specialize (Hw l Hl). apply Rlt_le, Rinv_0_lt_compat. lra. }
  pose proof (rsumn_nonneg L _ P2) as P3.
  assert (P4 : (0 <= eps * rsumn L (fun l => / w l * norm2 (q' l - q l)%C))%R) by (now apply Rmult_le_pos).
  split; [lra|]. intros He' Heq l Hl.
  assert (Z : rsumn L (fun l => / w l * norm2 (q' l - q l)%C)%R = 0%R).
  { apply Rmult_eq_reg_l with eps; [|lra]. rewrite Rmult_0_r. lra. }
  assert (Z1 : (/ w l * norm2 (q' l - q l)%C = 0)%R).
  { apply Rle_antisym; [|now apply P2]. rewrite <- Z.
    apply Rle_trans with (rsumn L (fun k => if (k =? l)%nat then (/ w l * norm2 (q' l - q l)%C)%R else 0%R)).
    + rewrite (rsumn_single L l); [rewrite Nat.eqb_refl; right; reflexivity|assumption|].
      intros k _ Hk. now rewrite (proj2 (Nat.eqb_neq _ _) Hk).
    + apply rsumn_le. intros k Hk. destruct (Nat.eqb_spec k l); [subst; right; reflexivity|now apply P2]. }
  destruct (Req_EM_T (w l) 0) as [E0|E0].
  - destruct HN as [Hs _]. now rewrite (Hs' l Hl E0), (Hs l Hl E0).
  - assert (Z2 : norm2 (q' l - q l) = 0%R).
    { apply Rmult_integral in Z1 as [Z1|Z1]; [|assumption]. exfalso. revert Z1. now apply Rinv_neq_0_compat. }
    apply norm2_0 in Z2. replace (q' l) with (q l + (q' l - q l)) by ring. rewrite Z2. ring.
Qed.

Lemma csum_idm n i f : (i < n)%nat -> csum n (fun j => idm i j * f j) = f i.
Proof.
  intros Hi. rewrite (csum_single n i); [unfold idm; rewrite Nat.eqb_refl; ring|assumption|].
  intros k _ Hk. unfold idm. destruct (Nat.eqb_spec i k); [congruence|ring].
Qed.

(** [M (X e) = e]. *)
Lemma inverse_solves n M X e i : (i < n)%nat -> meq n (mmul n M X) idm ->
  csum n (fun j => M i j * csum n (fun l => X j l * e l)) = e i.
Proof.
  intros Hi H.
  rewrite (csum_ext n (fun j => M i j * csum n (fun l => X j l * e l)) (fun j => csum n (fun l => M i j * X j l * e l))).
  - rewrite csum_swap. rewrite <- (csum_idm n i e Hi). apply csum_ext. intros l Hl.
    rewrite <- (H i l Hi Hl). unfold mmul. now rewrite csum_scal_r.
  - intros j _. rewrite <- csum_scal. apply csum_ext. intros. ring.
Qed.

Lemma csum_add_diag n M d x i : (i < n)%nat ->
  csum n (fun j => add_diag M d i j * x j) = csum n (fun j => M i j * x j) + d i * x i.
Proof.
  intros Hi. rewrite <- (csum_idm n i (fun j => d j * x j) Hi), <- csum_add. apply csum_ext. intros j _.
  unfold add_diag, idm. destruct (Nat.eqb_spec i j); [subst|]; ring.
Qed.

Theorem suzuki_wide_normal inv lam nch eps_perc B L w e q :
  inverts inv ->
  suzuki_wide inv lam nch eps_perc B L w e = Some q ->
  normal nch B L w (epsilon lam eps_perc (awa B L w) nch) e q.
Proof.
  intros [Hinv _] Hq. unfold suzuki_wide in Hq.
  set (M := awa B L w) in *. set (eps := epsilon lam eps_perc M nch) in *.
  destruct (inv nch (add_diag M (fun _ => RtoC eps))) as [X|] eqn:EX; [|discriminate].
  apply Hinv in EX as [EX _].
  set (y := fun c => csum nch (fun c' => X c c' * e c')).
  assert (Q : forall l, q l = RtoC (w l) * csum nch (fun c => Conj (B c l) * y c)).
  { intros l. injection Hq as <-. rewrite <- csum_scal. apply csum_ext. intros c _. unfold y. ring. }
  assert (Y : forall c, (c < nch)%nat -> csum L (fun l => B c l * q l) + RtoC eps * y c = e c).
  { intros c Hc. rewrite <- (inverse_solves nch _ X e c Hc EX). fold y. rewrite csum_add_diag by assumption. f_equal.
    unfold M, awa.
    rewrite (csum_ext nch _ (fun j => csum L (fun l => B c l * RtoC (w l) * Conj (B j l) * y j))) by (intros; now rewrite csum_scal_r).
    rewrite csum_swap. apply csum_ext. intros l _. rewrite Q.
    rewrite (csum_ext nch (fun j => B c l * RtoC (w l) * Conj (B j l) * y j) (fun j => B c l * RtoC (w l) * (Conj (B j l) * y j)))
      by (intros; ring).
    rewrite csum_scal. ring. }
  split.
  - intros l _ E. rewrite Q, E. change (RtoC 0) with C0. ring.
  - intros l Hl E.
    rewrite (csum_ext nch (fun c => Conj (B c l) * (csum L (fun l' => B c l' * q l') - e c))
               (fun c => - RtoC eps * (Conj (B c l) * y c))).
    + rewrite csum_scal, Q. rewrite RtoC_mul, RtoC_inv by assumption. field. now apply RtoC_neq0.
    + intros c Hc. rewrite <- (Y c Hc). ring.
Qed.

Theorem suzuki_tall_normal inv lam nch eps_perc B L w e q :
  inverts inv ->
  suzuki_tall inv lam nch eps_perc B L w e = Some q ->
  normal nch B L w (epsilon lam eps_perc (aha nch B) L) e q.
Proof.
  intros [Hinv _] Hq. unfold suzuki_tall in Hq.
  destruct (forallb _ (seq 0 L)) eqn:EF; [|discriminate].
  assert (Hw : forall l, (l < L)%nat -> w l <> 0%R).
  { intros l Hl. rewrite forallb_forall in EF. specialize (EF l ltac:(apply in_seq; lia)).
    destruct (Req_EM_T (w l) 0); [discriminate|assumption]. }
  set (M := aha nch B) in *. set (eps := epsilon lam eps_perc M L) in *.
  destruct (inv L _) as [X|] eqn:EX in Hq; [|discriminate]. apply Hinv in EX as [EX _].
  set (b := fun l => csum nch (fun c => Conj (B c l) * e c)).
  assert (Q : forall l, q l = csum L (fun l' => X l l' * b l')) by (injection Hq as <-; reflexivity).
  split; [intros l Hl E; exfalso; now apply (Hw l Hl)|].
  intros l Hl _.
  pose proof (inverse_solves L _ X b l Hl EX) as Y.
  rewrite (csum_ext L _ (fun j => add_diag M (fun l0 => RtoC (/ w l0 * eps)%R) l j * q j)) in Y by (intros; now rewrite Q).
  rewrite csum_add_diag in Y by assumption.
  replace (csum nch (fun c => Conj (B c l) * (csum L (fun l' => B c l' * q l') - e c)))
    with (csum L (fun j => M l j * q j) - b l).
  - rewrite <- Y. rewrite !RtoC_mul. ring.
  - unfold b, M, aha.
    rewrite (csum_ext nch (fun c => Conj (B c l) * (csum L (fun l' => B c l' * q l') - e c))
               (fun c => Conj (B c l) * csum L (fun l' => B c l' * q l') - Conj (B c l) * e c)) by (intros; ring).
    rewrite csum_sub. f_equal.
    rewrite (csum_ext L _ (fun j => csum nch (fun c => Conj (B c l) * B c j * q j))) by (intros; now rewrite csum_scal_r).
    rewrite csum_swap. apply csum_ext. intros c _. rewrite <- csum_scal. apply csum_ext. intros. ring.
Qed.

(* ------------------------------------------------------------------ *)
(** * All points kept *)

Lemma normal_ext nch B B' L w eps e q q' :
  (forall c l, (l < L)%nat -> B c l = B' c l) -> (forall l, (l < L)%nat -> q l = q' l) ->
  normal nch B L w eps e q -> normal nch B' L w eps e q'.
Proof.
  intros HB Hq [N1 N2]. split.
  - intros l Hl E. rewrite <- Hq by assumption. now apply N1.
  - intros l Hl E. rewrite <- Hq, <- (N2 l Hl E) by assumption. f_equal. apply csum_ext. intros c _.
    rewrite HB by assumption. f_equal. f_equal. apply csum_ext. intros l' Hl'. now rewrite HB, Hq by assumption.
Qed.

Lemma index_of_seq p : forall n a, (a <= p < a + n)%nat -> index_of p (seq a n) = Some (p - a)%nat.
Proof.
  induction n as [|n IH]; intros a H; [lia|]. cbn [seq index_of]. destruct (Nat.eqb_spec p a) as [->|Hne].
  - f_equal. lia.
  - rewrite IH by lia. cbn [option_map]. f_equal. lia.
Qed.

Lemma trunc_small x : (0 <= x < 1)%R -> trunc x = 0%Z.
Proof. intros H. pose proof (trunc_bound x 0 ltac:(rewrite Rabs_pos_eq; lra)). lia. Qed.

Lemma epsilon_nonneg lam eps_perc M n :
  (forall n M, (0 <= lam n M)%R) -> (0 <= eps_perc)%R -> (0 <= epsilon lam eps_perc M n)%R.
Proof.
  intros Hlam Heps. unfold epsilon. apply IZR_le. unfold trunc.
  pose proof (Rmult_le_pos _ _ (Hlam n M) Heps) as H. destruct (Rle_dec 0 (lam n M * eps_perc)); [|contradiction].
  destruct (base_Int_part (lam n M * eps_perc)) as [_ B].
  assert (C : (-1 < IZR (Int_part (lam n M * eps_perc)))%R) by lra. apply lt_IZR in C. lia.
Qed.

Definition rpos (x : R) : bool := if Rlt_dec 0 x then true else false.

Section full.
  Variables (inv : nat -> mat -> option mat) (lam : nat -> mat -> R) (nch np : nat) (A : mat) (eps_perc beta : R) (pw : R -> R).
  Hypothesis Hinv : inverts inv.
  Hypothesis Hlam : forall n M, (0 <= lam n M)%R.
  Hypothesis Heps : (0 <= eps_perc)%R.
  Hypothesis Hpw : forall x, (0 <= pw x)%R.
  Hypothesis Hbeta : (1 <= beta)%R.

  (** [q] minimises a regularised cost for the mode [e] over all amplitudes on
      the points of positive weight. *)
  Definition fits (e q : nat -> C) : Prop :=
    exists w eps, (forall l, (0 <= w l)%R) /\ (0 <= eps)%R /\ normal nch A np w eps e q.

  Lemma gib_step_full e it s s' :
    gs_loc s = seq 0 np -> gs_left s = np -> (forall l, (0 <= gs_w s l)%R) ->
    gib_step inv lam nch np A eps_perc beta pw e it s = Some s' ->
    gs_loc s' = seq 0 np /\ gs_left s' = np /\ (forall l, (0 <= gs_w s' l)%R) /\ fits e (gs_q s').
  Proof.
    intros Hl Hleft Hw. unfold gib_step. rewrite Hl, Hleft.
    destruct (suzuki inv lam nch eps_perc np (cols A (seq 0 np)) (length (seq 0 np)) (gs_w s) e) as [ql|] eqn:E; [|discriminate].
    destruct (Rlt_dec beta 1); [lra|]. cbn [andb]. intros H. injection H as <-. cbn [gs_loc gs_left gs_w gs_q].
    split; [reflexivity|]. split; [reflexivity|]. split; [intros l; apply Hpw|].
    rewrite seq_length in E.
    assert (N : exists eps, (0 <= eps)%R /\ normal nch (cols A (seq 0 np)) np (gs_w s) eps e ql).
    { unfold suzuki in E. destruct (nch <=? np)%nat.
      - eexists. split; [|exact (suzuki_wide_normal inv lam nch eps_perc _ _ _ _ _ Hinv E)]. now apply epsilon_nonneg.
      - eexists. split; [|exact (suzuki_tall_normal inv lam nch eps_perc _ _ _ _ _ Hinv E)]. now apply epsilon_nonneg. }
    destruct N as (eps & He & N). exists (gs_w s), eps. split; [assumption|]. split; [assumption|].
    apply (normal_ext nch (cols A (seq 0 np)) A np (gs_w s) eps e ql); [| |exact N].
    - intros c l H. unfold cols. now rewrite seq_nth.
    - intros l H. unfold assign. rewrite index_of_seq by lia. f_equal. lia.
  Qed.

  Lemma gib_iter_full e : forall n it s s', (0 < n)%nat ->
    gs_loc s = seq 0 np -> gs_left s = np -> (forall l, (0 <= gs_w s l)%R) ->
    gib_iter inv lam nch np A eps_perc beta pw e it n s = Some s' ->
    gs_loc s' = seq 0 np /\ fits e (gs_q s').
  Proof.
    induction n as [|n IH]; intros it s s' Hn Hl Hleft Hw; [lia|]. cbn [gib_iter].
    destruct (gib_step inv lam nch np A eps_perc beta pw e it s) as [s1|] eqn:E; [|discriminate].
    destruct (gib_step_full e it s s1 Hl Hleft Hw E) as (H1 & H2 & H3 & H4). destruct n as [|n].
    - cbn [gib_iter]. intros H. injection H as <-. auto.
    - intros H. apply (IH (S it) s1 s'); auto. lia.
  Qed.

  Lemma gib_modes_full n_iter : (0 < n_iter)%nat -> forall ms loc qs loc' qs',
    (loc = None \/ loc = Some (seq 0 np)) ->
    gib_modes inv lam nch np A eps_perc beta pw n_iter ms loc qs = inl (loc', qs') ->
    (loc' = None \/ loc' = Some (seq 0 np))
    /\ exists new, qs' = qs ++ new
       /\ Forall2 (fun '(ev, mode) q => fits (fun c => RtoC (sqrt ev) * mode c) q) (filter (fun '(ev, _) => rpos ev) ms) new.
  Proof.
    intros Hn. induction ms as [|[ev mode] ms IH]; intros loc qs loc' qs' Hloc; cbn [gib_modes].
    - intros H. injection H as <- <-. split; [assumption|]. exists []. split; [now rewrite app_nil_r|constructor].
    - cbn [filter]. unfold rpos at 1. destruct (Rlt_dec 0 ev) as [Hev|Hev].
      + destruct (gib_iter _ _ _ _ _ _ _ _ _ 0 n_iter (gib_start np)) as [s|] eqn:E; [|discriminate].
        apply gib_iter_full in E as (E1 & E2); [|assumption|reflexivity|reflexivity|intros; cbn; lra].
        intros H. apply IH in H as (H1 & new & -> & H2); [|right; now rewrite E1].
        split; [assumption|]. exists (gs_q s :: new). split; [now rewrite <- app_assoc|]. now constructor.
      + intros H. apply IH in H; assumption.
  Qed.

  Theorem gib_full n_iter ms f :
    (0 < n_iter)%nat ->
    gib_map inv lam nch np A eps_perc beta pw n_iter ms = inl f ->
    exists qs,
      Forall2 (fun '(ev, mode) q => fits (fun c => RtoC (sqrt ev) * mode c) q) (filter (fun '(ev, _) => rpos ev) ms) qs
      /\ forall p, (p < np)%nat -> f p = rsum_list (map (fun q => norm2 (q p)) qs).
  Proof.
    intros Hn. unfold gib_map.
    destruct (gib_modes _ _ _ _ _ _ _ _ n_iter ms None []) as [[loc qs]|ex] eqn:E; [|discriminate].
    apply gib_modes_full in E as (E1 & new & -> & E2); [|assumption|now left]. cbn [app] in *.
    destruct loc as [loc|]; [|discriminate]. destruct E1 as [E1|E1]; [discriminate|]. injection E1 as ->.
    intros H. injection H as <-. exists new. split; [assumption|]. intros p Hp.
    replace (existsb (Nat.eqb p) (seq 0 np)) with true; [reflexivity|]. symmetry. apply existsb_exists.
    exists p. split; [apply in_seq; lia|apply Nat.eqb_refl].
  Qed.
End full.

(** What "fits" means: no other amplitudes have a smaller cost, and no more than
    the power of the mode is left. *)
Theorem fits_best nch np A e q : fits nch np A e q ->
  exists w eps, (forall l, (0 <= w l)%R) /\ (0 <= eps)%R /\ supported np w q
    /\ (forall q', supported np w q' -> (cost nch A np w eps e q <= cost nch A np w eps e q')%R)
    /\ (misfit nch A np e q <= rsumn nch (fun c => norm2 (e c)))%R.
Proof.
  intros (w & eps & Hw & He & HN). exists w, eps. split; [assumption|]. split; [assumption|]. split; [apply HN|].
  assert (M : forall q', supported np w q' -> (cost nch A np w eps e q <= cost nch A np w eps e q')%R)
    by (intros q' Hs; apply (normal_min nch A np w eps e q He (fun l _ => Hw l) HN q' Hs)).
  split; [exact M|].
  assert (P2 : (0 <= rsumn np (fun l => / w l * norm2 (q l)))%R).
  { apply rsumn_nonneg. intros l Hl. destruct (Req_EM_T (w l) 0) as [E0|E0].
    - destruct HN as [Hs _]. rewrite (Hs l Hl E0). unfold norm2, C0. cbn [fst snd]. lra.
    - apply Rmult_le_pos; [|apply norm2_nonneg]. specialize (Hw l). apply Rlt_le, Rinv_0_lt_compat. lra. }
  pose proof (Rmult_le_pos _ _ He P2) as P3.
  specialize (M (fun _ => C0) ltac:(intros l _ _; reflexivity)).
  apply Rle_trans with (cost nch A np w eps e q); [unfold cost; lra|].
  apply Rle_trans with (1 := M). right. unfold cost, misfit.
  rewrite (rsumn_0 np); [|intros; unfold norm2, C0; cbn [fst snd]; ring].
  rewrite Rmult_0_r, Rplus_0_r. apply rsumn_ext. intros c _. rewrite csum_0; [|intros; ring].
  unfold norm2, Csub, C0. cbn [fst snd]. ring.
Qed.

(** Without regularisation the mode is reproduced exactly. *)
Theorem wide_exact inv lam nch eps_perc B L w e q :
  inverts inv -> (0 <= lam nch (awa B L w) * eps_perc < 1)%R ->
  suzuki_wide inv lam nch eps_perc B L w e = Some q ->
  forall c, (c < nch)%nat -> csum L (fun l => B c l * q l) = e c.
Proof.
  intros [Hinv _] He Hq c Hc. unfold suzuki_wide in Hq.
  set (M := awa B L w) in *.
  assert (Z : epsilon lam eps_perc M nch = 0%R).
  { unfold epsilon. f_equal. unfold trunc. destruct (Rle_dec 0 (lam nch M * eps_perc)) as [_|N]; [|lra].
    destruct (base_Int_part (lam nch M * eps_perc)) as [B1 B2].
    assert (C1' : (-1 < IZR (Int_part (lam nch M * eps_perc)))%R) by lra. apply lt_IZR in C1'.
    assert (C2' : (IZR (Int_part (lam nch M * eps_perc)) < 1)%R) by lra. apply lt_IZR in C2'. lia. }
  rewrite Z in Hq.
  destruct (inv nch (add_diag M (fun _ => RtoC 0))) as [X|] eqn:EX; [|discriminate].
  apply Hinv in EX as [EX _].
  rewrite <- (inverse_solves nch _ X e c Hc EX). rewrite csum_add_diag by assumption. change (RtoC 0) with C0.
  set (y := fun c => csum nch (fun c' => X c c' * e c')).
  replace (csum nch (fun j => M c j * csum nch (fun l => X j l * e l))) with (csum nch (fun j => M c j * y j)) by reflexivity.
  injection Hq as <-. unfold M, awa.
  rewrite (csum_ext nch _ (fun j => csum L (fun l => B c l * RtoC (w l) * Conj (B j l) * y j))) by (intros; now rewrite csum_scal_r).
  rewrite csum_swap. 
  match goal with |- _ = ?a + C0 * ?b => replace (a + C0 * b) with a by ring end.
  apply csum_ext. intros l _. rewrite <- csum_scal. apply csum_ext. intros c' _. unfold y. ring.
Qed.

(** ** Reducing the points *)
(** [l'] comes before [l] when the points are sorted by falling magnitude. *)
Definition ahead (q : nat -> C) (loc : list nat) (l l' : nat) : bool :=
  if Rlt_dec (Cabs (q (nth l loc 0%nat))) (Cabs (q (nth l' loc 0%nat))) then true
  else if Req_EM_T (Cabs (q (nth l loc 0%nat))) (Cabs (q (nth l' loc 0%nat))) then (l <? l')%nat else false.

Lemma ahead_trans q loc a b c : ahead q loc a b = true -> ahead q loc b c = true -> ahead q loc a c = true.
Proof.
  unfold ahead. intros H1 H2.
  repeat destruct (Rlt_dec _ _); repeat destruct (Req_EM_T _ _); try discriminate; try reflexivity; try lra.
  apply Nat.ltb_lt in H1, H2. apply Nat.ltb_lt. lia.
Qed.
Lemma ahead_total q loc a b : a <> b -> ahead q loc a b = true \/ ahead q loc b a = true.
Proof.
  unfold ahead. intros N.
  repeat destruct (Rlt_dec _ _); repeat destruct (Req_EM_T _ _); auto; try lra.
  destruct (Nat.ltb_spec a b); auto. right. apply Nat.ltb_lt. lia.
Qed.
Lemma ahead_irrefl q loc a : ahead q loc a a = false.
Proof.
  unfold ahead. destruct (Rlt_dec _ _); [lra|]. destruct (Req_EM_T _ _); [apply Nat.ltb_irrefl|reflexivity].
Qed.
Lemma filter_le {A} (f g : A -> bool) l : (forall x, f x = true -> g x = true) ->
  (length (filter f l) <= length (filter g l))%nat.
Proof.
  intros H. induction l as [|x l IH]; cbn; [lia|].
  destruct (f x) eqn:E; [rewrite (H x E); cbn; lia|]. destruct (g x); cbn; lia.
Qed.
Lemma filter_lt {A} (f g : A -> bool) l y : (forall x, f x = true -> g x = true) -> In y l -> f y = false -> g y = true ->
  (length (filter f l) < length (filter g l))%nat.
Proof.
  intros H. induction l as [|x l IH]; intros Hy F G; [destruct Hy|]. cbn.
  destruct Hy as [->|Hy].
  - rewrite F, G. cbn. pose proof (filter_le f g l H). lia.
  - specialize (IH Hy F G). destruct (f x) eqn:E; [rewrite (H x E); cbn; lia|]. destruct (g x); cbn; lia.
Qed.
Lemma larger_lt q loc l l' : (l < length loc)%nat -> (l' < length loc)%nat -> ahead q loc l l' = true ->
  (larger q loc l' < larger q loc l)%nat.
Proof.
  intros Hl Hl' H. unfold larger. apply (filter_lt (ahead q loc l') (ahead q loc l) _ l').
  - intros x Hx. exact (ahead_trans q loc l l' x H Hx).
  - apply in_seq. lia.
  - apply ahead_irrefl.
  - exact H.
Qed.
Lemma larger_bound q loc l : (l < length loc)%nat -> (larger q loc l < length loc)%nat.
Proof.
  intros Hl. unfold larger. rewrite <- (seq_length (length loc) 0) at 2.
  rewrite <- (map_id (seq 0 (length loc))) at 2.
  assert (E : forall k : list nat, length (filter (fun _ => true) k) = length k).
  { induction k; cbn; auto. }
  rewrite map_id, <- (E (seq 0 (length loc))).
  apply (filter_lt (ahead q loc l) (fun _ => true) _ l); auto.
  - apply in_seq. lia.
  - apply ahead_irrefl.
Qed.
Lemma larger_perm q loc : Permutation (map (larger q loc) (seq 0 (length loc))) (seq 0 (length loc)).
Proof.
  apply NoDup_Permutation_bis.
  - assert (I : forall s n, (s + n <= length loc)%nat -> NoDup (map (larger q loc) (seq s n))).
    { intros s n; revert s; induction n as [|n IH]; intros s Hs; [constructor|]. cbn. constructor; [|apply IH; lia].
      intros C. apply in_map_iff in C as (x & E & C). apply in_seq in C.
      destruct (ahead_total q loc s x) as [H|H]; [lia| |]; apply larger_lt in H; lia. }
    apply I. lia.
  - rewrite map_length. lia.
  - intros x Hx. apply in_map_iff in Hx as (l & <- & Hl). apply in_seq in Hl. apply in_seq.
    pose proof (larger_bound q loc l). lia.
Qed.
Lemma filter_map_len {A B} (f : B -> bool) (g : A -> B) l : length (filter f (map g l)) = length (filter (fun x => f (g x)) l).
Proof. induction l as [|x l IH]; cbn; [reflexivity|]. destruct (f (g x)); cbn; rewrite IH; reflexivity. Qed.
Lemma filter_perm_len {A} (f : A -> bool) l l' : Permutation l l' -> length (filter f l) = length (filter f l').
Proof.
  induction 1; cbn; try congruence.
  - destruct (f x); cbn; congruence.
  - destruct (f x), (f y); reflexivity.
Qed.
Lemma filter_seq_lt k n : length (filter (fun x => (x <? k)%nat) (seq 0 n)) = Nat.min k n.
Proof.
  induction n as [|n IH]; [cbn; lia|]. rewrite seq_S, filter_app, app_length, IH. change (0 + n)%nat with n. cbn [filter].
  destruct (Nat.ltb_spec n k); cbn [length]; lia.
Qed.
Lemma keep_length q loc left : length (keep q loc left) = Nat.min left (length loc).
Proof.
  unfold keep. rewrite map_length, <- (filter_map_len (fun x => (x <? left)%nat) (larger q loc)).
  rewrite (filter_perm_len _ _ _ (larger_perm q loc)). apply filter_seq_lt.
Qed.
(** Points that stay are at least as strong as those that go. *)
Lemma keep_strong q loc left l l' : (l < length loc)%nat -> (l' < length loc)%nat ->
  (larger q loc l < left)%nat -> ~ (larger q loc l' < left)%nat ->
  (Cabs (q (nth l' loc 0%nat)) <= Cabs (q (nth l loc 0%nat)))%R.
Proof.
  intros Hl Hl' K N. destruct (Rle_dec (Cabs (q (nth l' loc 0%nat))) (Cabs (q (nth l loc 0%nat)))) as [|C]; [assumption|].
  assert (H : ahead q loc l l' = true) by (unfold ahead; destruct (Rlt_dec _ _); [reflexivity|lra]).
  apply larger_lt in H; lia.
Qed.
Lemma round_even_spec x : (Rabs (x - IZR (round_even x)) <= 1 / 2)%R
  /\ (Rabs (x - IZR (round_even x)) = (1 / 2)%R -> Z.even (round_even x) = true).
Proof.
  unfold round_even. pose proof (base_Int_part x) as (B1 & B2). set (f := Int_part x) in *.
  destruct (Rlt_dec (x - IZR f) (1 / 2)) as [H|H].
  - rewrite Rabs_pos_eq by lra. lra.
  - destruct (Rlt_dec (1 / 2) (x - IZR f)) as [H'|H'].
    + rewrite plus_IZR. rewrite Rabs_left1 by lra. lra.
    + destruct (Z.even f) eqn:E.
      * rewrite Rabs_pos_eq by lra. split; [lra|auto].
      * rewrite plus_IZR. rewrite Rabs_left1 by lra. split; [lra|]. intros _.
        rewrite Z.even_add, E. reflexivity.
Qed.
Lemma combine_seq (f : nat -> bool) loc : combine loc (map f (seq 0 (length loc)))
  = map (fun l => (nth l loc 0%nat, f l)) (seq 0 (length loc)).
Proof.
  revert f. induction loc as [|a loc IH]; intros f; [reflexivity|]. cbn [length seq map combine nth].
  f_equal. rewrite <- seq_shift, !map_map. rewrite (IH (fun l => f (S l))). reflexivity.
Qed.
