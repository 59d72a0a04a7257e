(** Pink noise synthesis (signals.py) and trajectory sampling (trajectory.py). *)
From Coq Require Import List Arith Lia ZArith Bool Reals Lra.
Require Import ZifyBool ZifyNat ZifyN.
From Verif Require Import Stream Wav.
Import ListNotations.
Local Open Scope nat_scope.

(** * PNoiseGenerator.signal *)
(** x[:e] with an end that may be negative *)
Definition upto {A} (e : Z) (l : list A) : list A :=
  firstn (Z.to_nat (if (e <? 0)%Z then Z.max 0 (Z.of_nat (length l) + e) else e)) l.
(** x[i:] *)
Definition from {A} (i : Z) (l : list A) : list A :=
  skipn (Z.to_nat (if (i <? 0)%Z then Z.max 0 (Z.of_nat (length l) + i) else i)) l.
(** numpy.repeat *)
Definition np_repeat {A} (l : list A) (d : nat) : list A := flat_map (fun x => repeat x d) l.

Fixpoint radd (x y : list R) : list R :=
  match x, y with a :: x', b :: y' => (a + b)%R :: radd x' y' | _, _ => [] end.

(** s[ind:] += v: shapes must be equal, or v has one element. *)
Definition iadd_from (ind : Z) (v s : list R) : list R + exn :=
  let n := length (from ind s) in
  if length v =? n then inl (firstn (length s - n) s ++ radd (from ind s) v)
  else match v with
       | [x] => inl (firstn (length s - n) s ++ map (fun a => (a + x)%R) (from ind s))
       | _ => inr ValueError
       end.

(** standard_normal(n): the next n numbers of the generator *)
Definition normal (z : nat -> R) (pos n : nat) : list R := map z (seq pos n).

(** The loop over the octaves (signals.py:335-340): k octaves still to do,
    number j is the next, pos numbers have been drawn. *)
Fixpoint octaves (z : nat -> R) (nums k j pos : nat) (s : list R) : list R + exn :=
  match k with
  | 0 => inl s
  | S k =>
      let ind := (2 ^ Z.of_nat j - 1)%Z in
      let lind := (Z.of_nat nums - ind)%Z in
      let dind := 2 ^ (j + 1) in
      let count := nums / dind + 1 in
      match iadd_from ind (upto lind (np_repeat (normal z pos count) dind)) s with
      | inl s' => octaves z nums k (S j) (pos + count) s'
      | inr e => inr e
      end
  end.

(** signal (signals.py:322-342); max_depth is int(log(nums)/log(2)), given as
    [m] since the quotient of the logarithms is rounded.  The square root of a
    negative number (depth <= -2) gives nan, not modelled. *)
Definition pnoise (z : nat -> R) (rms : R) (nums : nat) (depth : Z) (m : nat) : list R + exn :=
  let d := if (Z.of_nat m <? depth)%Z then Z.of_nat m else depth in
  match octaves z nums (Z.to_nat d) 0 nums (normal z 0 nums) with
  | inl s => inl (map (fun x => rms / sqrt (IZR d + 3/2) * x)%R s)
  | inr e => inr e
  end.

(* ------------------------------------------------------------------ *)
Lemma np_repeat_length {A} (l : list A) d : length (np_repeat l d) = length l * d.
Proof.
  unfold np_repeat. induction l as [|x l IH]; simpl; [reflexivity|]. rewrite app_length, repeat_length, IH. reflexivity.
Qed.
Lemma np_repeat_nth {A} (l : list A) d k x : 0 < d -> k < length l * d ->
  nth k (np_repeat l d) x = nth (k / d) l x.
Proof.
  intros Hd. revert k. induction l as [|a l IH]; intros k Hk; simpl in *; [lia|].
  destruct (Nat.lt_ge_cases k d) as [H|H].
  - rewrite app_nth1 by (rewrite repeat_length; exact H).
    rewrite (Nat.div_small k d H). rewrite (nth_indep _ x a) by (rewrite repeat_length; exact H).
    apply nth_repeat.
  - rewrite app_nth2; rewrite repeat_length; [|exact H]. change (flat_map _ l) with (np_repeat l d).
    rewrite IH by lia. replace k with ((k - d) + 1 * d) at 2 by lia.
    rewrite Nat.div_add by lia. rewrite Nat.add_1_r. reflexivity.
Qed.

Lemma radd_length x y : length (radd x y) = Nat.min (length x) (length y).
Proof. revert y. induction x; intros [|b y]; simpl; auto. Qed.
Lemma radd_nth x y t : t < length x -> t < length y -> nth t (radd x y) 0%R = (nth t x 0 + nth t y 0)%R.
Proof.
  revert y t. induction x as [|a x IH]; intros [|b y] t Hx Hy; simpl in *; try lia.
  destruct t; [reflexivity|]. apply IH; lia.
Qed.

Lemma normal_length z pos n : length (normal z pos n) = n.
Proof. unfold normal. now rewrite map_length, seq_length. Qed.
Lemma normal_nth z pos n t : t < n -> nth t (normal z pos n) 0%R = z (pos + t).
Proof.
  intros H. unfold normal. rewrite (nth_indep _ 0%R (z 0)) by (rewrite map_length, seq_length; exact H).
  rewrite map_nth, seq_nth by exact H. reflexivity.
Qed.

(** The contribution of octave j to sample t, if pos numbers were drawn
    before. *)
Definition octave (z : nat -> R) (j pos t : nat) : R :=
  if 2 ^ j - 1 <=? t then z (pos + (t - (2 ^ j - 1)) / 2 ^ (j + 1)) else 0%R.
(** Numbers drawn before octave j. *)
Fixpoint drawn (nums j : nat) : nat :=
  match j with 0 => nums | S j => drawn nums j + (nums / 2 ^ (j + 1) + 1) end.

Lemma pow2_Z j : (2 ^ Z.of_nat j - 1)%Z = Z.of_nat (2 ^ j - 1).
Proof.
  assert (1 <= 2 ^ j) by (clear; induction j; simpl; lia).
  rewrite Nat2Z.inj_sub by exact H. rewrite Nat2Z.inj_pow. reflexivity.
Qed.

Lemma octave_step z nums j pos s : length s = nums -> 2 ^ j <= nums ->
  let ind := (2 ^ Z.of_nat j - 1)%Z in
  exists s', iadd_from ind (upto (Z.of_nat nums - ind) (np_repeat (normal z pos (nums / 2 ^ (j + 1) + 1)) (2 ^ (j + 1)))) s = inl s'
    /\ length s' = nums
    /\ forall t, t < nums -> nth t s' 0%R = (nth t s 0 + octave z j pos t)%R.
Proof.
  intros Hs Hj. cbv zeta. rewrite pow2_Z.
  assert (1 <= 2 ^ j) as Hp by (clear; induction j; simpl; lia).
  assert (1 <= 2 ^ (j + 1)) as Hp1 by (clear; induction j; simpl; lia).
  set (i := 2 ^ j - 1) in *. set (d := 2 ^ (j + 1)) in *.
  assert (from (Z.of_nat i) s = skipn i s) as Hfrom.
  { unfold from. replace (Z.of_nat i <? 0)%Z with false by lia. rewrite Nat2Z.id. reflexivity. }
  set (rep := np_repeat (normal z pos (nums / d + 1)) d).
  assert (length rep = (nums / d + 1) * d) as Hlr by (unfold rep; now rewrite np_repeat_length, normal_length).
  assert (nums < (nums / d + 1) * d) as Hlt.
  { pose proof (Nat.div_mod nums d ltac:(lia)) as E. pose proof (Nat.mod_upper_bound nums d ltac:(lia)). nia. }
  assert (upto (Z.of_nat nums - Z.of_nat i) rep = firstn (nums - i) rep) as Hup.
  { unfold upto. replace (Z.of_nat nums - Z.of_nat i <? 0)%Z with false by lia. f_equal. lia. }
  rewrite Hup. unfold iadd_from. rewrite Hfrom, skipn_length, firstn_length.
  replace (Nat.min (nums - i) (length rep) =? length s - i) with true by (symmetry; apply Nat.eqb_eq; lia).
  replace (length s - (length s - i)) with i by lia.
  eexists. split; [reflexivity|]. split.
  - rewrite app_length, radd_length, !firstn_length, skipn_length. lia.
  - intros t Ht. unfold octave. fold i d. destruct (i <=? t) eqn:E.
    + apply Nat.leb_le in E. rewrite app_nth2 by (rewrite firstn_length; lia).
      rewrite firstn_length. replace (Nat.min i (length s)) with i by lia.
      rewrite radd_nth by (rewrite ?skipn_length, ?firstn_length; lia).
      f_equal.
      * rewrite <- (firstn_skipn i s) at 2. rewrite app_nth2 by (rewrite firstn_length; lia).
        rewrite firstn_length. f_equal. lia.
      * rewrite <- (firstn_skipn (nums - i) rep) in Hlr.
        assert (nth (t - i) (firstn (nums - i) rep) 0%R = nth (t - i) rep 0%R) as ->.
        { rewrite <- (firstn_skipn (nums - i) rep) at 2. rewrite app_nth1; [reflexivity|].
          rewrite firstn_length. unfold rep. rewrite np_repeat_length, normal_length. lia. }
        unfold rep. rewrite np_repeat_nth by (rewrite ?normal_length; lia).
        apply normal_nth.
        apply Nat.div_lt_upper_bound; [lia|]. nia.
    + apply Nat.leb_gt in E. rewrite app_nth1 by (rewrite firstn_length; lia).
      rewrite Rplus_0_r. rewrite <- (firstn_skipn i s) at 2. rewrite app_nth1; [reflexivity|].
      rewrite firstn_length. lia.
Qed.

Fixpoint octave_sum (z : nat -> R) (nums t j k : nat) : R :=
  match k with 0 => 0%R | S k => (octave z j (drawn nums j) t + octave_sum z nums t (S j) k)%R end.

Lemma octaves_ok z nums k : forall j s, length s = nums -> (forall i, j <= i < j + k -> 2 ^ i <= nums) ->
  exists s', octaves z nums k j (drawn nums j) s = inl s' /\ length s' = nums
    /\ forall t, t < nums -> nth t s' 0%R = (nth t s 0 + octave_sum z nums t j k)%R.
Proof.
  induction k as [|k IH]; intros j s Hs Hj.
  - exists s. simpl. split; [reflexivity|]. split; [exact Hs|]. intros. lra.
  - cbn [octaves]. destruct (octave_step z nums j (drawn nums j) s Hs) as (s1 & E & L & V); [apply Hj; lia|].
    cbv zeta in E. rewrite E.
    destruct (IH (S j) s1 L) as (s' & E' & L' & V'); [intros; apply Hj; lia|].
    cbn [drawn] in E'. exists s'. split; [exact E'|]. split; [exact L'|].
    intros t Ht. rewrite V', V by exact Ht. cbn [octave_sum]. lra.
Qed.

(** * Trajectory.traj *)
Local Open Scope R_scope.

(** number of elements of arange(start, stop, step): ceil((stop-start)/step) *)
Definition ceil (x : R) : Z := (- Int_part (- x))%Z.
Definition arange (start stop step : R) : list R :=
  map (fun k => start + INR k * step) (seq 0 (Z.to_nat (ceil ((stop - start) / step)))).
Lemma ceil_spec x : IZR (ceil x) - 1 < x <= IZR (ceil x).
Proof.
  unfold ceil. rewrite opp_IZR. destruct (base_Int_part (- x)) as [H1 H2]. split; lra.
Qed.

Lemma arange_spec start stop step : 0 < step -> exists n,
  arange start stop step = map (fun k => start + INR k * step) (seq 0 n)
  /\ forall k, (k < n)%nat <-> start + INR k * step < stop.
Proof.
  intros Hs. exists (Z.to_nat (ceil ((stop - start) / step))). split; [reflexivity|].
  intros k. destruct (ceil_spec ((stop - start) / step)) as [H1 H2].
  set (c := ceil ((stop - start) / step)) in *.
  assert (start + INR k * step < stop <-> INR k < (stop - start) / step) as ->.
  { split; intros H.
    - apply (Rmult_lt_reg_r step); [exact Hs|]. unfold Rdiv. rewrite Rmult_assoc, Rinv_l by lra. lra.
    - apply (Rmult_lt_compat_r step) in H; [|exact Hs]. unfold Rdiv in H. rewrite Rmult_assoc, Rinv_l in H by lra. lra. }
  rewrite INR_IZR_INZ. split; intros H.
  - assert (Z.of_nat k <= c - 1)%Z as K by lia. apply IZR_le in K. rewrite minus_IZR in K. lra.
  - assert (Z.of_nat k < c)%Z as K by (apply lt_IZR; lra). lia.
Qed.
Section Traj.
Context {P : Type} (location : R -> P) (interval : R * R).

(** "not x" for an optional number: None or zero *)
Definition falsy (x : option R) : bool :=
  match x with None => true | Some v => if Req_EM_T v 0 then true else false end.
(** traj (trajectory.py:150-197); arange with step zero is a
    ZeroDivisionError.  t_start is a number. *)
Definition traj (t_start : R) (t_end delta_t : option R) : list P + exn :=
  let '(t0, t1, dt) :=
    if falsy delta_t then (fst interval, Some (snd interval), t_start)
    else (t_start, t_end, match delta_t with Some d => d | None => 0 end) in
  let t1 := if falsy t1 then snd interval else match t1 with Some e => e | None => 0 end in
  if Req_EM_T dt 0 then inr ZeroDivisionError else inl (map location (arange t0 t1 dt)).

End Traj.
