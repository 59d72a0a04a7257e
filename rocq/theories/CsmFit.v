(** The linear system of BeamformerCMF (fbeamform.py:1747-1895) and the cost
    function of BeamformerSODIX (fbeamform.py:1949-2055).  The optimisers of
    scipy, sklearn and pylops are not modelled: the theorems are about the
    problems they are given.  Real arithmetic stands for float64. *)
From Coq Require Import List Arith Lia ZArith Bool Reals Lra.
From Verif Require Import Stream Cplx Beamform.
Import ListNotations.
Local Open Scope R_scope.
Local Open Scope C_scope.

(* ------------------------------------------------------------------ *)
(** * BeamformerCMF *)

Fixpoint lsum {X} (f : X -> R) (l : list X) : R :=
  match l with [] => 0%R | x :: l' => (f x + lsum f l')%R end.

Section Cmf.
  (** [nc] channels, [G] grid points, [h m g] the transfer function of grid
      point [g] to microphone [m]. *)
  Variables (nc G : nat) (h : nat -> nat -> C) (csm : nat -> nat -> C) (unit : R) (rdiag : bool).

  (** Bc.reshape(nc * nc, num_points): row (k, j) (fbeamform.py:1785-1786). *)
  Definition Ac (kj : nat * nat) (g : nat) : C := h (snd kj) g * Conj (h (fst kj) g).
  (** reshape(csm.T, ..): row (k, j) (fbeamform.py:1803). *)
  Definition Rc (kj : nat * nat) : C := csm (snd kj) (fst kj).

  (** ind (fbeamform.py:1789): the lower triangle, row by row. *)
  Definition tril : list (nat * nat) :=
    filter (fun kj => snd kj <=? fst kj)%nat (list_prod (seq 0 nc) (seq 0 nc)).
  (** ind_im0 (fbeamform.py:1791) *)
  Definition off (kj : nat * nat) : bool := negb (fst kj =? snd kj)%nat.

  (** The rows of A and R: real parts, then imaginary parts, restricted by
      ind_reim (fbeamform.py:1792-1803). *)
  Definition cmf_rows : list (bool * (nat * nat)) :=
    map (pair false) (if rdiag then filter off tril else tril) ++ map (pair true) (filter off tril).

  Definition part (b : bool) (z : C) : R := if b then im z else re z.
  Definition Amat (row : bool * (nat * nat)) (g : nat) : R := part (fst row) (Ac (snd row) g).
  Definition Rvec (row : bool * (nat * nat)) : R := (part (fst row) (Rc (snd row)) * unit)%R.

  (** A @ x *)
  Definition Amul (x : nat -> R) (row : bool * (nat * nat)) : R := rsumn G (fun g => Amat row g * x g)%R.

  (** function(x) of the method 'fmin_l_bfgs_b' (fbeamform.py:1848-1853). *)
  Definition cmf_func (x : nat -> R) : R :=
    (rsumn G (fun g => lsum (fun row => Amul x row * Amat row g) cmf_rows * x g)
     - 2 * rsumn G (fun g => lsum (fun row => Rvec row * Amat row g) cmf_rows * x g)
     + lsum (fun row => Rvec row * Rvec row) cmf_rows)%R.
  Definition cmf_der (x : nat -> R) (g : nat) : R :=
    (2 * rsumn G (fun g' => lsum (fun row => Amat row g * Amat row g') cmf_rows * x g')
     - 2 * lsum (fun row => Amat row g * Rvec row) cmf_rows)%R.

  (** ** Specification *)

  (** What the strengths [x] leave of the (scaled) cross spectral matrix. *)
  Definition residual (x : nat -> R) (j k : nat) : C :=
    csum G (fun g => RtoC (x g) * h j g * Conj (h k g)) - RtoC unit * csm j k.
End Cmf.

Lemma lsum_ext {X} (f g : X -> R) l : (forall x, In x l -> f x = g x) -> lsum f l = lsum g l.
Proof.
  induction l as [|x l IH]; intros H; [reflexivity|]. cbn. rewrite (H x) by (left; auto).
  rewrite IH; [reflexivity|]. intros y Hy. apply H. right; auto.
Qed.

Lemma lsum_app {X} (f : X -> R) l l' : lsum f (l ++ l') = (lsum f l + lsum f l')%R.
Proof. induction l as [|x l IH]; cbn; [ring|].  rewrite IH. ring. Qed.

Lemma lsum_map {X Y} (f : Y -> R) (g : X -> Y) l : lsum f (map g l) = lsum (fun x => f (g x)) l.
Proof. induction l as [|x l IH]; cbn; [reflexivity|].  now rewrite IH. Qed.

Lemma lsum_add {X} (f g : X -> R) l : lsum (fun x => f x + g x)%R l = (lsum f l + lsum g l)%R.
Proof. induction l as [|x l IH]; cbn; [ring|].  rewrite IH. ring. Qed.

Lemma lsum_scal {X} c (f : X -> R) l : lsum (fun x => c * f x)%R l = (c * lsum f l)%R.
Proof. induction l as [|x l IH]; cbn; [ring|].  rewrite IH. ring. Qed.

Lemma lsum_filter {X} (f : X -> R) p l : lsum f (filter p l) = lsum (fun x => if p x then f x else 0%R) l.
Proof. induction l as [|x l IH]; cbn; [reflexivity|].  destruct (p x); cbn; rewrite IH; ring. Qed.

Lemma lsum_nonneg {X} (f : X -> R) l : (forall x, In x l -> 0 <= f x)%R -> (0 <= lsum f l)%R.
Proof.
  induction l as [|x l IH]; intros H; cbn; [lra|]. 
  pose proof (H x (or_introl eq_refl)). assert (0 <= lsum f l)%R by (apply IH; intros; apply H; right; auto). lra.
Qed.

Lemma lsum_seq f : forall n a, lsum f (seq a n) = rsumn n (fun i => f (a + i)%nat).
Proof.
  induction n as [|n IH]; intros a; [reflexivity|]. rewrite rsumn_first. cbn [seq].  cbn [lsum].
  rewrite IH. rewrite Nat.add_0_r. f_equal. apply rsumn_ext. intros i _. f_equal. lia.
Qed.

Lemma lsum_prod {X Y} (f : X * Y -> R) l l' :
  lsum f (list_prod l l') = lsum (fun x => lsum (fun y => f (x, y)) l') l.
Proof.
  induction l as [|x l IH]; [reflexivity|]. cbn [list_prod]. rewrite lsum_app, lsum_map, IH. reflexivity.
Qed.

Lemma lsum_rsumn {X} n (f : X -> nat -> R) l :
  rsumn n (fun g => lsum (fun x => f x g) l) = lsum (fun x => rsumn n (f x)) l.
Proof.
  induction l as [|x l IH]; cbn.
  - apply rsumn_zero.
  -  rewrite rsumn_add, IH. reflexivity.
Qed.

Lemma re_sub a b : re (a - b) = (re a - re b)%R. Proof. reflexivity. Qed.
Lemma im_sub a b : im (a - b) = (im a - im b)%R. Proof. reflexivity. Qed.
Lemma Cplx_add_0 (a b : C) : a - b = C0 -> a = b.
Proof. intros E. replace a with ((a - b) + b) by ring. rewrite E. ring. Qed.

Section CmfProofs.
  Variables (nc G : nat) (h : nat -> nat -> C) (csm : nat -> nat -> C) (unit : R) (rdiag : bool).
  Notation rows := (cmf_rows nc rdiag).
  Notation A := (Amat h).
  Notation R' := (Rvec csm unit).
  Notation AM := (Amul G h).
  Notation res := (residual G h csm unit).

  (** The quadratic form is the sum of the squared residuals. *)
  Lemma cmf_func_squares x :
    cmf_func nc G h csm unit rdiag x = lsum (fun row => (AM x row - R' row) * (AM x row - R' row))%R rows.
  Proof.
    unfold cmf_func.
    assert (E1 : forall u : bool * (nat * nat) -> R,
      rsumn G (fun g => lsum (fun row => u row * A row g) rows * x g)%R = lsum (fun row => u row * AM x row)%R rows).
    { intros u. rewrite (rsumn_ext G _ (fun g => lsum (fun row => u row * (A row g * x g)) rows)%R).
      - rewrite lsum_rsumn. apply lsum_ext. intros row _. now rewrite rsumn_scal.
      - intros g _. rewrite Rmult_comm, <- lsum_scal. apply lsum_ext. intros. ring. }
    rewrite (E1 (AM x)), (E1 R').
    rewrite (lsum_ext (fun row => (AM x row - R' row) * (AM x row - R' row))%R
      (fun row => (AM x row * AM x row + (- 2) * (R' row * AM x row)) + R' row * R' row)%R) by (intros; ring).
    rewrite !lsum_add, lsum_scal. ring.
  Qed.

  (** The gradient: the function is its value, the slope and a square. *)
  Theorem cmf_gradient x d :
    cmf_func nc G h csm unit rdiag (fun g => x g + d g)%R
    = (cmf_func nc G h csm unit rdiag x + rsumn G (fun g => cmf_der nc G h csm unit rdiag x g * d g)
       + lsum (fun row => AM d row * AM d row) rows)%R.
  Proof.
    rewrite !cmf_func_squares.
    assert (E : rsumn G (fun g => cmf_der nc G h csm unit rdiag x g * d g)%R
      = lsum (fun row => 2 * (AM d row * (AM x row - R' row)))%R rows).
    { rewrite (rsumn_ext G _ (fun g => lsum (fun row => 2 * ((AM x row - R' row) * (A row g * d g))) rows)%R).
      - rewrite lsum_rsumn. apply lsum_ext. intros row _.
        rewrite !rsumn_scal. unfold Amul at 2. ring.
      - intros g _. unfold cmf_der.
        assert (Q : rsumn G (fun g' => lsum (fun row => A row g * A row g') rows * x g')%R
           = lsum (fun row => A row g * AM x row)%R rows).
        { rewrite (rsumn_ext G _ (fun g' => lsum (fun row => A row g * (A row g' * x g')) rows)%R).
          - rewrite lsum_rsumn. apply lsum_ext. intros. now rewrite rsumn_scal.
          - intros g' _. rewrite Rmult_comm, <- lsum_scal. apply lsum_ext. intros. ring. }
        rewrite Q.
        rewrite (lsum_ext (fun row => 2 * ((AM x row - R' row) * (A row g * d g)))%R
          (fun row => d g * 2 * (A row g * AM x row) + - (d g * 2) * (A row g * R' row))%R) by (intros; ring).
        rewrite lsum_add, !lsum_scal. ring. }
    rewrite E, <- !lsum_add. apply lsum_ext. intros row _.
    assert (L : AM (fun g => x g + d g)%R row = (AM x row + AM d row)%R).
    { unfold Amul. rewrite <- rsumn_add. apply rsumn_ext. intros. ring. }
    rewrite L. ring.
  Qed.

  (** A row of A x - R is a part of the residual of the matrix. *)
  Lemma row_residual x b k j : (AM x (b, (k, j)) - R' (b, (k, j)))%R = part b (res x j k).
  Proof.
    unfold Amul, Amat, Rvec, residual, Ac, Rc. cbn [fst snd]. unfold part. destruct b.
    - rewrite im_sub, im_csum, im_RtoC_mul. f_equal; [|ring]. apply rsumn_ext. intros g _.
      replace (RtoC (x g) * h j g * Conj (h k g)) with (RtoC (x g) * (h j g * Conj (h k g))) by ring.
      rewrite im_RtoC_mul. ring.
    - rewrite re_sub, re_csum, re_RtoC_mul. f_equal; [|ring]. apply rsumn_ext. intros g _.
      replace (RtoC (x g) * h j g * Conj (h k g)) with (RtoC (x g) * (h j g * Conj (h k g))) by ring.
      rewrite re_RtoC_mul. ring.
  Qed.

  Hypothesis Hh : hermitian nc csm.

  Lemma residual_conj x j k : (j < nc)%nat -> (k < nc)%nat -> res x k j = Conj (res x j k).
  Proof.
    intros Hj Hk. unfold residual. rewrite Conj_sub, csum_conj, Conj_mul, Conj_RtoC.
    rewrite (Hh j k Hj Hk). f_equal. apply csum_ext. intros g _. rewrite !Conj_mul, Conj_RtoC, Conj_invol. ring.
  Qed.

  Lemma residual_diag x j : (j < nc)%nat -> im (res x j j) = 0%R.
  Proof.
    intros Hj. pose proof (residual_conj x j j Hj Hj) as E. apply (f_equal snd) in E. unfold im. cbn in E |- *. lra.
  Qed.

  Definition weight (j k : nat) : R := if (j =? k)%nat then (if rdiag then 0 else 1)%R else (1 / 2)%R.

  (** Sums over the triangle and over the matrix. *)
  Lemma triangle_half (f : nat -> nat -> R) :
    (forall j k, (j < nc)%nat -> (k < nc)%nat -> f j k = f k j) ->
    rsumn nc (fun k => rsumn nc (fun j => if (j <? k)%nat then f j k else 0))%R
    = rsumn nc (fun k => rsumn nc (fun j => if (j =? k)%nat then 0 else 1 / 2 * f j k))%R.
  Proof.
    intros Hf.
    assert (E : rsumn nc (fun k => rsumn nc (fun j => if (j <? k)%nat then f j k else 0))%R
      = rsumn nc (fun k => rsumn nc (fun j => if (k <? j)%nat then f j k else 0))%R).
    { rewrite rsumn_swap. apply rsumn_ext. intros k Hk. apply rsumn_ext. intros j Hj.
      destruct (k <? j)%nat; [apply Hf; assumption|reflexivity]. }
    assert (T : rsumn nc (fun k => rsumn nc (fun j => if (j =? k)%nat then 0 else f j k))%R
      = (rsumn nc (fun k => rsumn nc (fun j => if (j <? k)%nat then f j k else 0))
         + rsumn nc (fun k => rsumn nc (fun j => if (k <? j)%nat then f j k else 0)))%R).
    { rewrite <- rsumn_add. apply rsumn_ext. intros k _. rewrite <- rsumn_add. apply rsumn_ext. intros j _.
      destruct (Nat.eqb_spec j k), (Nat.ltb_spec j k), (Nat.ltb_spec k j); try lia; ring. }
    rewrite (rsumn_ext nc (fun k => rsumn nc (fun j => if (j =? k)%nat then 0 else 1 / 2 * f j k))%R
      (fun k => 1 / 2 * rsumn nc (fun j => if (j =? k)%nat then 0 else f j k))%R).
    - rewrite rsumn_scal, T, <- E. lra.
    - intros k _. rewrite <- rsumn_scal. apply rsumn_ext. intros j _. destruct (j =? k)%nat; ring.
  Qed.

  (** The cost in terms of the cross spectral matrix: diagonal entries count
      once (or not at all), the others half. *)
  Theorem cmf_cost x : cmf_func nc G h csm unit rdiag x
    = rsumn nc (fun k => rsumn nc (fun j => weight j k * norm2 (res x j k)))%R.
  Proof.
    rewrite cmf_func_squares. unfold cmf_rows. rewrite lsum_app, !lsum_map.
    set (P := fun b (kj : nat * nat) => (part b (res x (snd kj) (fst kj)) * part b (res x (snd kj) (fst kj)))%R).
    rewrite (lsum_ext (fun kj => (AM x (false, kj) - R' (false, kj)) * (AM x (false, kj) - R' (false, kj)))%R (P false))
      by (intros [k j] _; rewrite row_residual; reflexivity).
    rewrite (lsum_ext (fun kj => (AM x (true, kj) - R' (true, kj)) * (AM x (true, kj) - R' (true, kj)))%R (P true))
      by (intros [k j] _; rewrite row_residual; reflexivity).
    set (inc := fun kj : nat * nat => if rdiag then off kj else true).
    replace (if rdiag then filter off (tril nc) else tril nc) with (filter inc (tril nc)).
    2:{ unfold inc. destruct rdiag; [reflexivity|]. induction (tril nc) as [|y l IH]; [reflexivity|]. cbn. now rewrite IH. }
    unfold tril. rewrite !lsum_filter.
    assert (Pr : forall f : nat * nat -> R, lsum f (list_prod (seq 0 nc) (seq 0 nc)) = rsumn nc (fun k => rsumn nc (fun j => f (k, j)))).
    { intros f. rewrite lsum_prod, lsum_seq. apply rsumn_ext. intros k _. now rewrite lsum_seq. }
    rewrite !Pr. cbn [fst snd].
    transitivity (rsumn nc (fun k => rsumn nc (fun j => if (j =? k)%nat then weight j k * norm2 (res x j k) else 0))
      + rsumn nc (fun k => rsumn nc (fun j => if (j <? k)%nat then norm2 (res x j k) else 0)))%R.
    - rewrite <- !rsumn_add. apply rsumn_ext. intros k Hk. rewrite <- !rsumn_add. apply rsumn_ext. intros j Hj.
      unfold inc, off, weight, P. cbn [fst snd].
      destruct (Nat.leb_spec j k) as [L|L], (Nat.eqb_spec j k) as [Q|Q], (Nat.ltb_spec j k) as [M|M]; try lia; try (exfalso; lia).
      + subst k. rewrite Nat.eqb_refl. unfold norm2, part. pose proof (residual_diag x j Hj) as Z. unfold im in Z.
        rewrite Z. destruct rdiag; cbn; unfold re; ring.
      + rewrite (proj2 (Nat.eqb_neq k j)) by lia. unfold norm2, part, re, im. destruct rdiag; cbn; ring.
      + ring.
    - rewrite (triangle_half (fun j k => norm2 (res x j k))).
      + rewrite <- rsumn_add. apply rsumn_ext. intros k Hk. rewrite <- rsumn_add. apply rsumn_ext. intros j Hj.
        unfold weight. destruct (j =? k)%nat; ring.
      + intros j k Hj Hk. rewrite (residual_conj x j k Hj Hk). now rewrite norm2_Conj.
  Qed.

  (** The reduced real system is the complete complex one. *)
  Theorem cmf_system x : (forall row, In row rows -> AM x row = R' row) <->
    (forall j k, (j < nc)%nat -> (k < nc)%nat -> (rdiag = true -> j <> k) ->
       csum G (fun g => RtoC (x g) * h j g * Conj (h k g)) = RtoC unit * csm j k).
  Proof.
    assert (In_tril : forall k j, In (k, j) (tril nc) <-> (j <= k < nc)%nat).
    { intros k j. unfold tril. rewrite filter_In, in_prod_iff, !in_seq. cbn. rewrite Nat.leb_le. lia. }
    assert (In_rows : forall b k j, In (b, (k, j)) rows <-> (j <= k < nc)%nat /\ (b = true \/ rdiag = true -> j <> k)).
    { intros b k j. unfold cmf_rows. rewrite in_app_iff, !in_map_iff. split.
      - intros [(y & E & I)|(y & E & I)]; injection E as <- ->.
        + destruct rdiag; [apply filter_In in I; destruct I as [I O]|]; apply In_tril in I; (split; [exact I|]).
          * intros _. unfold off in O. cbn in O. apply Bool.negb_true_iff, Nat.eqb_neq in O. lia.
          * intros [D|D]; discriminate.
        + apply filter_In in I. destruct I as [I O]. apply In_tril in I. split; [exact I|].
          intros _. unfold off in O. cbn in O. apply Bool.negb_true_iff, Nat.eqb_neq in O. lia.
      - intros [I O]. destruct b.
        + right. exists (k, j). split; [reflexivity|]. apply filter_In. split; [now apply In_tril|].
          unfold off. cbn. apply Bool.negb_true_iff, Nat.eqb_neq. specialize (O (or_introl eq_refl)). lia.
        + left. exists (k, j). split; [reflexivity|]. destruct rdiag; [|now apply In_tril].
          apply filter_In. split; [now apply In_tril|].
          unfold off. cbn. apply Bool.negb_true_iff, Nat.eqb_neq. specialize (O (or_intror eq_refl)). lia. }
    assert (Z : forall j k, res x j k = C0 <-> csum G (fun g => RtoC (x g) * h j g * Conj (h k g)) = RtoC unit * csm j k).
    { intros j k. unfold residual. split; intros E.
      - now apply Cplx_add_0.
      - rewrite E. ring. }
    split.
    - intros H. assert (T : forall j k, (j <= k < nc)%nat -> (rdiag = true -> j <> k) -> res x j k = C0).
      { intros j k Hjk Hd. apply C_ext.
        - assert (I : In (false, (k, j)) rows) by (apply In_rows; split; [exact Hjk|intros [D|D]; [discriminate|auto]]).
          specialize (H _ I). pose proof (row_residual x false k j) as Q. rewrite H in Q. unfold part, re in Q. change (fst C0) with 0%R. lra.
        - destruct (Nat.eq_dec j k) as [->|N]; [apply (residual_diag x k); lia|].
          assert (I : In (true, (k, j)) rows) by (apply In_rows; split; [exact Hjk|auto]).
          specialize (H _ I). pose proof (row_residual x true k j) as Q. rewrite H in Q. unfold part, im in Q. change (snd C0) with 0%R. lra. }
      intros j k Hj Hk Hd. apply Z. destruct (le_lt_dec j k) as [L|L]; [apply T; auto|].
      rewrite (residual_conj x k j Hk Hj), (T k j ltac:(lia)); [apply Conj_0|]. intros D E. specialize (Hd D). lia.
    - intros H [b [k j]] I. apply In_rows in I. destruct I as [I O].
      assert (E : res x j k = C0) by (apply Z, H; auto; lia).
      pose proof (row_residual x b k j) as Q. rewrite E in Q. destruct b; unfold part, re, im in Q; cbn in Q; lra.
  Qed.
End CmfProofs.

(* ------------------------------------------------------------------ *)
(** * BeamformerSODIX *)

(** ** The method 'NNLS' (fbeamform.py:1804-1812, 1875-1888).
    LinearRegression(positive=True) of scikit-learn fits an intercept as well
    (its default fit_intercept=True): coef_ is non-negative and, together with
    some intercept, of least squares.  The columns are normalised before and
    the coefficients scaled back afterwards; the intercept is dropped. *)
Section Nnls.
  Context {X : Type} (rows : list X) (G : nat).
  Definition lin (A : X -> nat -> R) (w : nat -> R) (row : X) : R := rsumn G (fun g => A row g * w g)%R.
  Definition sklearn_coef (A : X -> nat -> R) (b : X -> R) (w : nat -> R) : Prop :=
    (forall g, (g < G)%nat -> 0 <= w g)%R /\
    exists c, forall w' c', (forall g, (g < G)%nat -> 0 <= w' g)%R ->
      (lsum (fun row => (lin A w row + c - b row) * (lin A w row + c - b row)) rows
       <= lsum (fun row => (lin A w' row + c' - b row) * (lin A w' row + c' - b row)) rows)%R.
  Definition norms (A : X -> nat -> R) (g : nat) : R := sqrt (lsum (fun row => A row g * A row g) rows)%R.
End Nnls.
Definition cmf_nnls nc G h csm unit rdiag (x : nat -> R) : Prop :=
  exists w, let rows := cmf_rows nc rdiag in let A := Amat h in
    sklearn_coef rows G (fun row g => A row g / norms rows A g)%R (Rvec csm unit) w /\
    forall g, (g < G)%nat -> x g = (w g / norms rows A g / unit)%R.

(** Points where the gradient admits no descent are global minima. *)
Theorem cmf_kkt nc G h csm unit rdiag x : (forall g, (g < G)%nat -> 0 <= x g)%R ->
  (forall g, (g < G)%nat -> 0 <= cmf_der nc G h csm unit rdiag x g)%R ->
  (forall g, (g < G)%nat -> cmf_der nc G h csm unit rdiag x g * x g = 0)%R ->
  forall y, (forall g, (g < G)%nat -> 0 <= y g)%R ->
  (cmf_func nc G h csm unit rdiag x <= cmf_func nc G h csm unit rdiag y)%R.
Proof.
  intros Hx Hd Hc y Hy.
  pose proof (cmf_gradient nc G h csm unit rdiag x (fun g => y g - x g)%R) as E.
  assert (Ey : cmf_func nc G h csm unit rdiag (fun g => x g + (y g - x g))%R = cmf_func nc G h csm unit rdiag y).
  { rewrite !cmf_func_squares. apply lsum_ext. intros row _. unfold Amul.
    rewrite (rsumn_ext G (fun g => Amat h row g * (x g + (y g - x g)))%R (fun g => Amat h row g * y g)%R); [reflexivity|].
    intros; ring. }
  cbv beta in E. rewrite Ey in E. rewrite E.
  assert (0 <= lsum (fun row => Amul G h (fun g => y g - x g) row * Amul G h (fun g => y g - x g) row) (cmf_rows nc rdiag))%R.
  { apply lsum_nonneg. intros row _. apply Rle_0_sqr. }
  assert (0 <= rsumn G (fun g => cmf_der nc G h csm unit rdiag x g * (y g - x g)))%R.
  { apply rsumn_nonneg. intros g Hg. rewrite Rmult_minus_distr_l, (Hc g Hg), Rminus_0_r.
    apply Rmult_le_pos; auto. }
  lra.
Qed.

(** A matrix that the sources produce exactly is fitted by their strengths. *)
Theorem cmf_nnls_exact nc G h csm unit rdiag q : (0 < unit)%R ->
  (forall g, (g < G)%nat -> 0 <= q g)%R ->
  (forall g, (g < G)%nat -> 0 < norms (cmf_rows nc rdiag) (Amat h) g)%R ->
  (forall j k, (j < nc)%nat -> (k < nc)%nat -> csm j k = csum G (fun g => RtoC (q g) * h j g * Conj (h k g))) ->
  cmf_nnls nc G h csm unit rdiag q.
Proof.
  intros Hu Hq Hn Hm.
  assert (Hh : hermitian nc csm).
  { intros i j Hi Hj. rewrite (Hm i j), (Hm j i), csum_conj by assumption. apply csum_ext. intros g _.
    rewrite !Conj_mul, Conj_RtoC, Conj_invol. ring. }
  set (nm := norms (cmf_rows nc rdiag) (Amat h)) in *.
  exists (fun g => q g * unit * nm g)%R. cbv zeta. fold nm. split.
  2:{ intros g Hg. specialize (Hn g Hg). field. split; lra. }
  split.
  - intros g Hg. specialize (Hq g Hg). specialize (Hn g Hg). repeat apply Rmult_le_pos; lra.
  - exists 0%R. intros w' c' _.
    assert (Z : (lsum (fun row => (lin G (fun row g => Amat h row g / nm g) (fun g => q g * unit * nm g) row + 0 - Rvec csm unit row)
        * (lin G (fun row g => Amat h row g / nm g) (fun g => q g * unit * nm g) row + 0 - Rvec csm unit row)) (cmf_rows nc rdiag) = 0)%R).
    { transitivity (lsum (fun _ : bool * (nat * nat) => 0 * 0)%R (cmf_rows nc rdiag)).
      2:{ rewrite lsum_scal. ring. }
      apply lsum_ext. intros row Hr.
      assert (E : lin G (fun row g => Amat h row g / nm g)%R (fun g => q g * unit * nm g)%R row = Rvec csm unit row).
      { transitivity (Amul G h (fun g => unit * q g)%R row).
        - unfold lin, Amul. apply rsumn_ext. intros g Hg. specialize (Hn g Hg). field. lra.
        - refine (proj2 (cmf_system nc G h csm unit rdiag Hh (fun g => unit * q g)%R) _ row Hr).
          intros j k Hj Hk _. rewrite (Hm j k Hj Hk).
          rewrite <- csum_scal. apply csum_ext. intros g _. rewrite RtoC_mul. ring. }
      rewrite E. f_equal; ring. }
    fold nm. rewrite Z. apply lsum_nonneg. intros row _. apply Rle_0_sqr.
Qed.

(** With an inexact model the dropped intercept matters. *)
Theorem cmf_nnls_biased : exists nc G h csm, hermitian nc csm /\
  exists x y : nat -> R, cmf_nnls nc G h csm 1 false x /\ (forall g, (g < G)%nat -> 0 <= x g)%R /\
    (forall g, (g < G)%nat -> 0 <= y g)%R /\
    (cmf_func nc G h csm 1 false y < cmf_func nc G h csm 1 false x)%R.
Proof.
  exists 2%nat, 1%nat, (fun m _ => RtoC (INR (S m))), (fun i j => if (i =? j)%nat then C1 else C0). split.
  { intros i j _ _. rewrite Nat.eqb_sym. destruct (i =? j)%nat; unfold C1, C0, RtoC, Conj; cbn; f_equal; lra. }
  set (h := fun (m _ : nat) => RtoC (INR (S m))). set (csm := fun i j : nat => if (i =? j)%nat then C1 else C0).
  exists (fun _ => 6 / 35)%R, (fun _ => 5 / 21)%R.
  assert (HR : cmf_rows 2 false = [(false, (0, 0)); (false, (1, 0)); (false, (1, 1)); (true, (1, 0))]%nat) by reflexivity.
  assert (A0 : Amat h (false, (0, 0))%nat 0 = 1%R) by (unfold Amat, Ac, h; cbn; ring).
  assert (A1 : Amat h (false, (1, 0))%nat 0 = 2%R) by (unfold Amat, Ac, h; cbn; ring).
  assert (A2 : Amat h (false, (1, 1))%nat 0 = 4%R) by (unfold Amat, Ac, h; cbn; ring).
  assert (A3 : Amat h (true, (1, 0))%nat 0 = 0%R) by (unfold Amat, Ac, h; cbn; ring).
  assert (B0 : Rvec csm 1 (false, (0, 0))%nat = 1%R) by (unfold Rvec, Rc, csm; cbn; ring).
  assert (B1 : Rvec csm 1 (false, (1, 0))%nat = 0%R) by (unfold Rvec, Rc, csm; cbn; ring).
  assert (B2 : Rvec csm 1 (false, (1, 1))%nat = 1%R) by (unfold Rvec, Rc, csm; cbn; ring).
  assert (B3 : Rvec csm 1 (true, (1, 0))%nat = 0%R) by (unfold Rvec, Rc, csm; cbn; ring).
  split; [|split; [intros; lra|split; [intros; lra|]]].
  - assert (N0 : (0 < norms (cmf_rows 2 false) (Amat h) 0)%R).
    { unfold norms. rewrite HR. cbn [lsum]. rewrite A0, A1, A2, A3. apply sqrt_lt_R0. lra. }
    unfold cmf_nnls. set (nm := norms (cmf_rows 2 false) (Amat h)) in *.
    exists (fun g => 6 / 35 * nm g)%R. cbv zeta. fold nm. split.
    2:{ intros g Hg. replace g with 0%nat by lia. field. lra. }
    split; [intros g Hg; replace g with 0%nat by lia; lra|].
    exists (1 / 5)%R. intros w' c' _. rewrite HR. cbn [lsum]. unfold lin. cbn [rsumn].
    rewrite A0, A1, A2, A3, B0, B1, B2, B3.
    set (u := (w' 0%nat / nm 0%nat)%R).
    replace (1 / nm 0%nat * w' 0%nat)%R with u by (unfold u; field; lra).
    replace (2 / nm 0%nat * w' 0%nat)%R with (2 * u)%R by (unfold u; field; lra).
    replace (4 / nm 0%nat * w' 0%nat)%R with (4 * u)%R by (unfold u; field; lra).
    replace (0 / nm 0%nat * w' 0%nat)%R with 0%R by (field; lra).
    replace (1 / nm 0%nat * (6 / 35 * nm 0%nat))%R with (6 / 35)%R by (field; lra).
    replace (2 / nm 0%nat * (6 / 35 * nm 0%nat))%R with (12 / 35)%R by (field; lra).
    replace (4 / nm 0%nat * (6 / 35 * nm 0%nat))%R with (24 / 35)%R by (field; lra).
    replace (0 / nm 0%nat * (6 / 35 * nm 0%nat))%R with 0%R by (field; lra).
    pose proof (Rle_0_sqr (u - 6 / 35 + (c' - 1 / 5))). pose proof (Rle_0_sqr (2 * (u - 6 / 35) + (c' - 1 / 5))).
    pose proof (Rle_0_sqr (4 * (u - 6 / 35) + (c' - 1 / 5))). pose proof (Rle_0_sqr (c' - 1 / 5)).
    unfold Rsqr in *. lra.
  - rewrite !cmf_func_squares, HR. cbn [lsum]. unfold Amul. cbn [rsumn].
    rewrite A0, A1, A2, A3, B0, B1, B2, B3. lra.
Qed.

Section Sodix.
  (** [n] microphones, [G] grid points, [h l r] the transfer function,
      [D r l] the directivity of grid point [r] towards microphone [l]. *)
  Variables (n G : nat) (h : nat -> nat -> C) (csm : nat -> nat -> C).

  (** function(directions) (fbeamform.py:1985-2016). *)
  Definition sodix_p (D : nat -> nat -> R) (r l : nat) : C := h l r * RtoC (D r l).
  Definition sodix_mod D (l m : nat) : C := csum G (fun r => sodix_p D r l * Conj (sodix_p D r m)).
  Definition sodix_Q D (l m : nat) : C := csm l m - sodix_mod D l m.
  Definition sodix_func D : R := rsumn n (fun l => rsumn n (fun m => norm2 (sodix_Q D l m))).
  Definition sodix_der D (r l : nat) : R :=
    (- 4 * re (csum n (fun m => h l r * (Conj (h m r) * RtoC (D r m)) * sodix_Q D m l)%C))%R.

  Hypothesis Hh : hermitian n csm.

  Variables (D E : nat -> nat -> R).
  Let Dt (t : R) (r l : nat) : R := (D r l + t * E r l)%R.
  Let X (l m : nat) : C := csum G (fun r => h l r * RtoC (E r l) * Conj (sodix_p D r m)).
  Let M1 (l m : nat) : C := X l m + Conj (X m l).
  Let M2 (l m : nat) : C := csum G (fun r => h l r * RtoC (E r l) * Conj (h m r * RtoC (E r m))).

  Lemma mod_expand t l m : sodix_Q (Dt t) l m = sodix_Q D l m - RtoC t * M1 l m - RtoC (t * t) * M2 l m.
  Proof.
    unfold sodix_Q, sodix_mod, M1, M2, X. rewrite csum_conj, <- csum_add, <- !csum_scal.
    replace (csm l m - csum G (fun r => sodix_p (Dt t) r l * Conj (sodix_p (Dt t) r m)))
      with (csm l m - csum G (fun r => sodix_p D r l * Conj (sodix_p D r m)
        + RtoC t * (h l r * RtoC (E r l) * Conj (sodix_p D r m) + Conj (h m r * RtoC (E r m) * Conj (sodix_p D r l)))
        + RtoC (t * t) * (h l r * RtoC (E r l) * Conj (h m r * RtoC (E r m))))).
    - rewrite !csum_add. ring.
    - f_equal. apply csum_ext. intros r _. unfold sodix_p, Dt. rewrite !Conj_mul, !Conj_invol, !Conj_RtoC, !RtoC_add, !RtoC_mul. ring.
  Qed.

  Lemma Q_hermitian l m : (l < n)%nat -> (m < n)%nat -> sodix_Q D m l = Conj (sodix_Q D l m).
  Proof.
    intros Hl Hm. unfold sodix_Q, sodix_mod. rewrite Conj_sub, csum_conj, (Hh l m Hl Hm). f_equal.
    apply csum_ext. intros r _. rewrite Conj_mul, Conj_invol. ring.
  Qed.

  Definition slope : R := rsumn n (fun l => rsumn n (fun m => - 2 * re (Conj (sodix_Q D l m) * M1 l m)))%R.

  Lemma func_expand : exists a b c, forall t,
    sodix_func (Dt t) = (sodix_func D + t * slope + t * t * a + t * t * t * b + t * t * t * t * c)%R.
  Proof.
    exists (rsumn n (fun l => rsumn n (fun m => norm2 (M1 l m) - 2 * re (Conj (sodix_Q D l m) * M2 l m)))%R),
           (rsumn n (fun l => rsumn n (fun m => 2 * re (Conj (M1 l m) * M2 l m)))%R),
           (rsumn n (fun l => rsumn n (fun m => norm2 (M2 l m)))).
    intros t. unfold sodix_func, slope.
    rewrite <- !rsumn_scal, <- !rsumn_add. apply rsumn_ext. intros l _.
    rewrite <- !rsumn_scal, <- !rsumn_add. apply rsumn_ext. intros m _.
    rewrite mod_expand. unfold norm2, re, RtoC, Cmul, Csub, Conj. cbn. ring.
  Qed.

  Lemma rsumn2_add (f g : nat -> nat -> R) : rsumn n (fun l => rsumn n (fun m => f l m + g l m))%R
    = (rsumn n (fun l => rsumn n (f l)) + rsumn n (fun l => rsumn n (g l)))%R.
  Proof. rewrite <- rsumn_add. apply rsumn_ext. intros. apply rsumn_add. Qed.

  Lemma slope_gradient : slope = rsumn G (fun r => rsumn n (fun l => sodix_der D r l * E r l))%R.
  Proof.
    assert (H1 : slope = rsumn n (fun l => rsumn n (fun m => - 4 * re (Conj (sodix_Q D l m) * X l m)))%R).
    { unfold slope, M1.
      transitivity (rsumn n (fun l => rsumn n (fun m => - 2 * re (Conj (sodix_Q D l m) * X l m)))
         + rsumn n (fun l => rsumn n (fun m => - 2 * re (Conj (sodix_Q D l m) * Conj (X m l)))))%R.
      - rewrite <- rsumn2_add. apply rsumn_ext. intros l _. apply rsumn_ext. intros m _.
        unfold re, Cmul, Cadd, Conj. cbn. ring.
      - rewrite (rsumn_swap n n (fun l m => - 2 * re (Conj (sodix_Q D l m) * Conj (X m l)))%R).
        rewrite <- rsumn2_add. apply rsumn_ext. intros l Hl. apply rsumn_ext. intros m Hm.
        rewrite (Q_hermitian l m Hl Hm). unfold re, Cmul, Conj. cbn. ring. }
    rewrite H1. rewrite (rsumn_swap G n). apply rsumn_ext. intros l Hl.
    unfold sodix_der.
    rewrite (rsumn_ext G _ (fun r => rsumn n (fun m => - 4 * E r l * re (h l r * (Conj (h m r) * RtoC (D r m)) * sodix_Q D m l)))%R).
    2:{ intros r _. rewrite re_csum, rsumn_scal. ring. }
    rewrite (rsumn_swap G n). apply rsumn_ext. intros m Hm.
    unfold X. rewrite <- (csum_scal G (Conj (sodix_Q D l m))), re_csum, <- rsumn_scal. apply rsumn_ext. intros r _.
    rewrite (Q_hermitian l m Hl Hm). unfold sodix_p. rewrite Conj_mul, Conj_RtoC.
    replace (Conj (sodix_Q D l m) * (h l r * RtoC (E r l) * (Conj (h m r) * RtoC (D r m))))
      with (RtoC (E r l) * (h l r * (Conj (h m r) * RtoC (D r m)) * Conj (sodix_Q D l m))) by ring.
    rewrite re_RtoC_mul. ring.
  Qed.

  Lemma poly_derivative (f : R -> R) s a b c : (forall t, f t = f 0 + t * s + t * t * a + t * t * t * b + t * t * t * t * c)%R ->
    derivable_pt_lim f 0 s.
  Proof.
    intros Hf eps Heps. set (K := (Rabs a + Rabs b + Rabs c + 1)%R).
    pose proof (Rabs_pos a). pose proof (Rabs_pos b). pose proof (Rabs_pos c).
    assert (HK : (0 < K)%R) by (unfold K; lra).
    assert (Hd : (0 < Rmin 1 (eps / K))%R) by (apply Rmin_glb_lt; [lra|apply Rdiv_lt_0_compat; lra]).
    exists (mkposreal _ Hd). intros t Ht Hl. cbn in Hl.
    rewrite Rplus_0_l, (Hf t).
    replace ((f 0 + t * s + t * t * a + t * t * t * b + t * t * t * t * c - f 0) / t - s)%R
      with (t * (a + t * b + t * t * c))%R by (field; exact Ht).
    assert (T1 : (Rabs t < 1)%R) by (eapply Rlt_le_trans; [exact Hl|apply Rmin_l]).
    assert (T2 : (Rabs t < eps / K)%R) by (eapply Rlt_le_trans; [exact Hl|apply Rmin_r]).
    rewrite Rabs_mult.
    assert (B : (Rabs (a + t * b + t * t * c) <= K)%R).
    { eapply Rle_trans; [apply Rabs_triang|]. eapply Rle_trans; [apply Rplus_le_compat_r, Rabs_triang|].
      rewrite !Rabs_mult. pose proof (Rabs_pos t). unfold K.
      assert (Rabs t * Rabs b <= 1 * Rabs b)%R by (apply Rmult_le_compat_r; lra).
      assert (Rabs t * Rabs t <= 1)%R by nra.
      assert (Rabs t * Rabs t * Rabs c <= 1 * Rabs c)%R by (apply Rmult_le_compat_r; lra). lra. }
    pose proof (Rabs_pos t).
    eapply Rle_lt_trans; [apply Rmult_le_compat_l; [lra|exact B]|].
    apply Rlt_le_trans with (eps / K * K)%R; [apply Rmult_lt_compat_r; lra|]. right. field. lra.
  Qed.

  Theorem sodix_gradient : derivable_pt_lim (fun t => sodix_func (fun r l => D r l + t * E r l)%R) 0
    (rsumn G (fun r => rsumn n (fun l => sodix_der D r l * E r l))%R).
  Proof.
    rewrite <- slope_gradient. destruct func_expand as (a & b & c & H).
    apply (poly_derivative _ slope a b c). intros t. fold (Dt t). rewrite H. fold (Dt 0).
    rewrite (H 0%R). ring.
  Qed.
End Sodix.

(** ** The loop over the frequencies (fbeamform.py:1972-1981, 2018-2055).
    [solve i d0] stands for the squared result of the optimiser at frequency
    index [i] from the initial guess [d0] ([None]: ones; [Some v]: the scaled
    result [v] of the frequency below).  The state holds the calculated
    values; [None] is an entry of _fr that is not set. *)
Section SodixLoop.
  Context {V : Type} (solve : nat -> option V -> V).

  Definition sodix_step (st : nat -> option V) (i : nat) : nat -> option V :=
    match st i with
    | Some _ => st
    | None => let v := solve i (st (i - 1)%nat) in fun j => if (j =? i)%nat then Some v else st j
    end.
  (** _calc(ind) with ind.max() = [top]. *)
  Definition sodix_calc (st : nat -> option V) (top : nat) : nat -> option V :=
    fold_left sodix_step (seq 1 top) st.
  (** Requests one after the other, from a fresh object. *)
  Definition sodix_requests (tops : list nat) : nat -> option V := fold_left sodix_calc tops (fun _ => None).

  (** ** Specification: the chain of solutions. *)
  Fixpoint chain (i : nat) : V :=
    match i with
    | O => solve 1 None
    | S i' => solve (S (S i')) (Some (chain i'))
    end.
  Definition chain_state (m : nat) (j : nat) : option V :=
    if ((1 <=? j) && (j <=? m))%nat then Some (chain (j - 1)) else None.

  Lemma calc_chain st m top : (forall j, st j = chain_state m j) ->
    forall j, sodix_calc st top j = chain_state (Nat.max m top) j.
  Proof.
    intros H. unfold sodix_calc. revert st m H. 
    assert (G : forall len a st m, (a <= S m)%nat -> (1 <= a)%nat -> (forall j, st j = chain_state m j) ->
      forall j, fold_left sodix_step (seq a len) st j = chain_state (Nat.max m (a + len - 1)) j).
    { induction len as [|len IH]; intros a st m Ha H1 H j; cbn [seq fold_left].
      - rewrite H. f_equal. lia.
      - set (m' := Nat.max m a).
        rewrite (IH (S a) (sodix_step st a) m'); [f_equal; lia|lia|lia|].
        intros i. unfold sodix_step. rewrite (H a). unfold chain_state at 1.
        destruct (Nat.leb_spec 1 a); [|lia]. destruct (Nat.leb_spec a m); cbn [andb].
        + rewrite H. f_equal. lia.
        + destruct (Nat.eqb_spec i a) as [->|N].
          * unfold chain_state. destruct (Nat.leb_spec 1 a); [|lia]. destruct (Nat.leb_spec a m'); [|lia]. cbn [andb].
            f_equal. assert (a = S m) by lia. subst a. rewrite (H (S m - 1)%nat). replace (S m - 1)%nat with m by lia.
            destruct m as [|q]; cbn [chain_state]; [reflexivity|]. unfold chain_state.
            destruct (Nat.leb_spec 1 (S q)); [|lia]. destruct (Nat.leb_spec (S q) (S q)); [|lia]. cbn [andb].
            replace (S q - 1)%nat with q by lia. reflexivity.
          * rewrite H. unfold chain_state. destruct (Nat.leb_spec 1 i); cbn [andb]; [|reflexivity].
            destruct (Nat.leb_spec i m), (Nat.leb_spec i m'); try reflexivity; lia. }
    intros st m H j. rewrite (G top 1%nat st m) by (try lia; assumption). f_equal. lia.
  Qed.

  Theorem requests_chain tops j : sodix_requests tops j = chain_state (fold_left Nat.max tops 0%nat) j.
  Proof.
    unfold sodix_requests.
    assert (G : forall st m, (forall j, st j = chain_state m j) ->
      forall j, fold_left sodix_calc tops st j = chain_state (fold_left Nat.max tops m) j).
    { clear j. induction tops as [|t tops IH]; intros st m H j; cbn [fold_left]; [apply H|].
      apply IH. now apply calc_chain. }
    apply G. intros i. unfold chain_state. destruct (Nat.leb_spec 1 i), (Nat.leb_spec i 0); try reflexivity; lia.
  Qed.
End SodixLoop.
