(** Convective amplification and MovingLineSource (properties C84, C85;
    sources.py:1080-1208, 1710-1947).

    Modelled: emission times of every monopole, moving direction, distances,
    loops.  Not modelled: reuse of the block buffer (C25), float rounding,
    splines of the trajectory (any functions here). *)
From Coq Require Import List Arith Lia ZArith Bool Reals Lra FunctionalExtensionality.
From Verif Require Import Stream Wav Environ PointSources Dipole.
Import ListNotations.
Local Open Scope R_scope.

(* ------------------------------------------------------------------ *)
(** * Convective amplification of MovingPointSource *)

(** Distances and radial Mach numbers for MovingPointSource, sources.py:1176-1183:
    [loc] is divided by its own norm, that is the distance from the origin. *)
Definition point_lanes (c : R) (traj vel : R -> v3) (mics : list v3) : list ((R -> R) * (R -> R)) :=
  map (fun m => ((fun x => edist (traj x) m), (fun x => vdot (vel x) (vunit (traj x)) / c))) mics.

(** A row of MovingPointSource.result on a trajectory. *)
Definition point_row iters (o : dipole) (conv : bool) (traj vel : R -> v3) (mics : list v3) (k : nat) : option (list R) :=
  moving_row iters (d_signal o) (d_c o) (d_fs o) (d_start_t o) (d_start o) (d_up o) conv (point_lanes (d_c o) traj vel mics) k.

(** Specification: Mach number of the motion towards the microphone. *)
Definition mach_towards (c : R) (p v m : v3) : R := vdot v (vunit (vsub m p)) / c.

(** Convective amplification of a monopole moving with that Mach number. *)
Definition amplification (M : R) : R := / (1 - M) ^ 2.

(** The time at which the last iteration took distance and Mach number. *)
Definition last_time (l : lane) : R := l_te l + l_eps l.

Lemma newton_last c0 epslim fuel ls l :
  (0 < fuel)%nat -> epslim < 1 -> (forall l, In l ls -> l_eps l = 1) ->
  In l (newton fuel c0 epslim ls) ->
  l_Mr l = l_mach l (last_time l) /\ l_rm l = l_dist l (last_time l)
  /\ l_eps l = (last_time l + l_rm l / c0 - l_t l) / (1 + l_Mr l).
Proof.
  intros Hf He H Hl.
  destruct (newton_iter c0 epslim fuel ls) as (k & _ & E & Hpos). rewrite E in Hl. clear E.
  apply in_map_iff in Hl as (l0 & <- & H0).
  assert (Hk : (0 < k)%nat).
  { apply Hpos; [|assumption]. apply Rlt_le_trans with 1; [assumption|].
    rewrite <- Rabs_R1, <- (H l0 H0). apply abs_max_ge. now apply in_map. }
  destruct k as [|k]; [lia|].
  change (Nat.iter (S k) (newton_step c0) l0) with (newton_step c0 (Nat.iter k (newton_step c0) l0)).
  set (q := Nat.iter k (newton_step c0) l0). unfold last_time.
  replace (l_te (newton_step c0 q) + l_eps (newton_step c0 q)) with (l_te q)
    by (cbn [newton_step l_te l_eps]; ring).
  cbn [newton_step l_Mr l_rm l_eps l_mach l_dist l_t]. auto.
Qed.

Lemma newton_lanes c0 epslim fuel : forall ls,
  map (fun l => (l_dist l, l_mach l, l_t l)) (newton fuel c0 epslim ls) = map (fun l => (l_dist l, l_mach l, l_t l)) ls.
Proof.
  induction fuel as [|fuel IH]; intros ls; [reflexivity|]. cbn [newton].
  destruct (Rlt_dec epslim (abs_max (map l_eps ls))); [|reflexivity]. rewrite IH, map_map. reflexivity.
Qed.

Lemma abs_max_bound l x : In x l -> Rabs x <= abs_max l.
Proof. intros H. now apply abs_max_ge. Qed.

(** The amplification with the Mach number [mach m y], [y] the emission time
    for microphone [m] up to the tolerance. *)
Definition amplified (o : dipole) (traj : R -> v3) (mics : list v3) (k : nat) (mach : v3 -> R -> R)
    (recede : R -> R) (plain conv : list R) : Prop :=
  exists ys, length ys = length mics
    /\ conv = map (fun '(v, (m, y)) => v * amplification (mach m y)) (combine plain (combine mics ys))
    /\ forall m y, In (m, y) (combine mics ys) ->
       Rabs (y + edist (traj y) m / d_c o - (d_start o + INR k / d_fs o))
       <= 1 / 10 / INR (d_up o) / d_fs o * Rabs (1 + recede y).

(** Mach number of the motion away from the origin. *)
Definition mach_origin (o : dipole) (traj vel : R -> v3) (y : R) : R := vdot (vel y) (vunit (traj y)) / d_c o.

Theorem conv_factor iters o traj vel mics k ls r :
  (0 < iters)%nat -> 1 / 10 / INR (d_up o) / d_fs o < 1 ->
  (forall y, 1 + mach_origin o traj vel y <> 0) ->
  moving_lanes iters (d_c o) (d_fs o) (d_start o) (d_up o) (point_lanes (d_c o) traj vel mics) k = inl ls ->
  abs_max (map l_eps ls) <= 1 / 10 / INR (d_up o) / d_fs o ->
  point_row iters o false traj vel mics k = Some r ->
  exists c, point_row iters o true traj vel mics k = Some c
    /\ amplified o traj mics k (fun _ y => mach_origin o traj vel y) (mach_origin o traj vel) r c.
Proof.
  intros Hit He Hnz El Hconv Hr. unfold point_row, moving_row in *. rewrite El in *.
  unfold moving_lanes in El. apply emission_time_inl in El.
  set (eps := 1 / 10 / INR (d_up o) / d_fs o) in *.
  assert (G : Forall2 (fun m l => l_Mr l = mach_origin o traj vel (last_time l)
     /\ Rabs (last_time l + edist (traj (last_time l)) m / d_c o - (d_start o + INR k / d_fs o))
        <= eps * Rabs (1 + mach_origin o traj vel (last_time l))) mics ls).
  { assert (L : map (fun l => (l_dist l, l_mach l, l_t l)) ls
       = map (fun m => ((fun x => edist (traj x) m), mach_origin o traj vel, d_start o + INR k / d_fs o)) mics).
    { rewrite El, newton_lanes. unfold point_lanes. rewrite !map_map. reflexivity. }
    assert (A : forall l, In l ls -> l_Mr l = l_mach l (last_time l) /\ l_rm l = l_dist l (last_time l)
      /\ l_eps l = (last_time l + l_rm l / d_c o - l_t l) / (1 + l_Mr l) /\ Rabs (l_eps l) <= eps).
    { intros l Hl. assert (B : Rabs (l_eps l) <= eps).
      { apply Rle_trans with (2 := Hconv). apply abs_max_bound. now apply in_map. }
      rewrite El in Hl. apply newton_last in Hl; [|assumption|assumption|].
      - destruct Hl as (A1 & A2 & A3). auto.
      - intros l1 H1. apply in_map_iff in H1 as ([[d0 m0] t0] & <- & _). reflexivity. }
    clear El Hr Hconv. revert ls L A. induction mics as [|m mics IH]; intros [|l ls] L A; cbn [map] in L; try discriminate.
    - constructor.
    - injection L as L1 L2 L3 L4. constructor.
      + destruct (A l ltac:(now left)) as (A1 & A2 & A3 & A4). rewrite L1 in A2. rewrite L2 in A1. rewrite L3, A2, A1 in A3.
        split; [exact A1|].
        specialize (Hnz (last_time l)). set (q := 1 + mach_origin o traj vel (last_time l)) in *.
        set (z := last_time l + edist (traj (last_time l)) m / d_c o - (d_start o + INR k / d_fs o)) in *.
        replace z with (l_eps l * q) by (rewrite A3; field; assumption).
        rewrite Rabs_mult. apply Rmult_le_compat_r; [apply Rabs_pos|assumption].
      + apply IH; [assumption|]. intros l' H'. apply A. now right. }
  clear El Hconv. unfold np_row in *.
  assert (Q : exists c, sequence (map (fun '(x, r) => match py_nth (d_signal o) (rnd x) with Some s => Some (s / r) | None => None end)
       (map (fun l => ((l_te l - d_start_t o + d_start o) * d_fs o * INR (d_up o), l_rm l * (1 - l_Mr l) ^ 2)) ls)) = Some c
     /\ c = map (fun '(v, (m, y)) => v * amplification (mach_origin o traj vel y))
              (combine r (combine mics (map last_time ls)))).
  { revert r ls Hr G. induction mics as [|m mics IH]; intros r ls Hr G; inversion G as [|m' l mics' ls' [G1 G2] G3]; subst.
    - cbn in Hr. injection Hr as <-. exists []. split; reflexivity.
    - cbn [map sequence] in *. destruct (py_nth (d_signal o) _) as [s|]; [|discriminate].
      destruct (sequence (map _ (map _ ls'))) as [r'|] eqn:Er in Hr; [|discriminate]. injection Hr as <-.
      destruct (IH r' ls' Er G3) as (c & Ec & Hc). rewrite Ec. eexists. split; [reflexivity|].
      cbn [combine map]. rewrite Hc. f_equal. rewrite G1. unfold amplification, Rdiv. rewrite Rinv_mult. ring. }
  destruct Q as (c & Ec & Hc). exists c. split; [exact Ec|]. exists (map last_time ls).
  split; [|split; [exact Hc|]].
  - rewrite map_length. clear - G. induction G; cbn; congruence.
  - intros m y Hin. clear - G Hin. revert Hin. induction G as [|m' l mics ls [_ G2] G3 IH]; cbn [map combine]; [contradiction|].
    intros [E|Hin]; [|now apply IH]. injection E as <- <-. exact G2.
Qed.

(** Two steps of the iteration, when the second finds no discrepancy left. *)
Lemma newton_two c0 epslim fuel ls : 0 <= epslim ->
  epslim < abs_max (map l_eps ls) ->
  epslim < abs_max (map l_eps (map (newton_step c0) ls)) ->
  (forall l, In l ls -> l_eps (newton_step c0 (newton_step c0 l)) = 0) ->
  newton (S (S fuel)) c0 epslim ls = map (newton_step c0) (map (newton_step c0) ls).
Proof.
  intros He H0 H1 H2. cbn [newton].
  destruct (Rlt_dec epslim (abs_max (map l_eps ls))); [|contradiction].
  destruct (Rlt_dec epslim (abs_max (map l_eps (map (newton_step c0) ls)))); [|contradiction].
  set (l2 := map (newton_step c0) (map (newton_step c0) ls)).
  assert (Z : abs_max (map l_eps l2) = 0).
  { unfold l2. rewrite !map_map. clear - H2. unfold abs_max. induction ls as [|l ls IH]; [reflexivity|].
    cbn [map fold_right]. rewrite (H2 l) by (now left). rewrite IH by (intros; apply H2; now right).
    rewrite Rabs_R0. apply Rmax_left. lra. }
  destruct fuel as [|fuel]; [reflexivity|]. cbn [newton].
  destruct (Rlt_dec epslim (abs_max (map l_eps l2))); [|reflexivity]. rewrite Z in r1. lra.
Qed.

(* ------------------------------------------------------------------ *)
(** * MovingLineSource *)

(** get_emission_time(t, off), sources.py:1864-1881: one offset for all
    microphones. *)
Definition line_times iters (o : dipole) (traj vel : R -> v3) (mics : list v3) (off : v3) (t : R) : list lane + exn :=
  emission_time iters (d_c o) (1 / 10 / INR (d_up o) / d_fs o)
    (map (fun m => ((fun x => edist (vadd (traj x) off) m),
                    (fun x => vdot (vel x) (vunit (vadd (traj x) off)) / d_c o), t)) mics).

Definition first_te (ls : list lane) : R := match ls with l :: _ => l_te l | [] => 0 end.

(** [dir2], sources.py:1887-1893. *)
Definition line_step (o : dipole) (len : R) (n : nat) : v3 := vscale (len / INR n) (vunit (d_dir o)).

(** Contribution of monopole [s] of [n] to row [k], sources.py:1917-1938.  [diff]:
    get_moving_direction at the emission time of the first microphone, for the
    start of the line.  conv_amp: after the loop, [s] is the last monopole. *)
Definition line_part iters rd (o : dipole) (len : R) (n : nat) (conv : bool) (rvec : v3) (traj vel : R -> v3)
    (mics : list v3) (t : R) (diff : v3) (s : nat) (signal : list R) : option (list R) :=
  match line_times iters o traj vel mics (vscale (INR s) diff) t with
  | inr _ => None
  | inl ls =>
      let te0 := first_te ls in
      let diff2 := moving_axis rvec (vel te0) (line_step o len n) in
      np_row signal (map (fun '(m, l) =>
        let r := rd (vadd (traj te0) (vscale (INR s) diff2)) m in
        ((l_te l - d_start_t o + d_start o) * d_fs o * INR (d_up o),
         if conv && (s =? n - 1)%nat then r * (1 - l_Mr l) ^ 2 else r)) (combine mics ls))
  end.

(** Row [k], sources.py:1911-1939. *)
Definition moving_line_row iters rd (o : dipole) (len : R) (n : nat) (conv : bool) (rvec : v3) (traj vel : R -> v3)
    (mics : list v3) (signals : list (list R)) (k : nat) : option (list R) :=
  let t := d_start o + INR (S k) / d_fs o in
  match line_times iters o traj vel mics (V3 0 0 0) t with
  | inr _ => None
  | inl ls =>
      let diff := moving_axis rvec (vel (first_te ls)) (line_step o len n) in
      fold_left (fun acc '(s, sig) =>
        match acc, line_part iters rd o len n conv rvec traj vel mics t diff s sig with
        | Some row, Some c => Some (add_rows row c)
        | _, _ => None
        end) (combine (seq 0 n) signals) (Some (repeat 0 (length mics)))
  end.

(** MovingLineSource.result, sources.py:1868-1947, and [signal.rms] afterwards. *)
Definition moving_line iters rd o len n conv rvec traj vel mics units strengths (ns num : nat) (rms : R)
    : trace (list R) * R :=
  match line_signals units strengths rms with
  | (inr e, rms') => (raise e, rms')
  | (inl sigs, rms') =>
      (match ns, line_times iters o traj vel mics (V3 0 0 0) (d_start o + INR 1 / d_fs o) with
       | S _, inr e => raise e
       | _, _ => done (sample_loop (moving_line_row iters rd o len n conv rvec traj vel mics sigs)
                         (fun b => b) flush_always num ns 0 [])
       end, rms')
  end.

(** LineSource's distances and first indices, sources.py:1677-1679, for a line
    starting at [p]. *)
Definition line_geometry (rd : v3 -> v3 -> R) (o : dipole) (p : v3) (len : R) (n : nat) (mics : list v3)
    : list (list R * list R) :=
  map (fun s =>
    let rm := map (rd (vadd p (vscale (INR s) (vscale (len / INR n) (vunit (d_dir o)))))) mics in
    (rm, map (fun r => (- r / d_c o - d_start_t o + d_start o) * d_fs o) rm)) (seq 0 n).

(** The same source with another start. *)
Definition with_start (s : R) (o : dipole) : dipole :=
  mkDipole (d_signal o) (d_c o) (d_fs o) (d_up o) (d_start_t o) s (d_dir o) (d_loc o).

(** ** At rest *)

Lemma line_times_rest iters o p mics off t :
  d_c o <> 0 -> mics <> [] -> 0 <= 1 / 10 / INR (d_up o) / d_fs o < 1 -> (0 < iters)%nat ->
  exists ls, line_times iters o (fun _ => p) (fun _ => V3 0 0 0) mics off t = inl ls
    /\ map (fun l => (l_te l, l_rm l, l_Mr l)) ls
       = map (fun r => (t - r / d_c o, r, 0)) (map (edist (vadd p off)) mics).
Proof.
  intros Hc Hm He Hit.
  destruct (emission_time_static iters (d_c o) (1 / 10 / INR (d_up o) / d_fs o) (map (edist (vadd p off)) mics) t Hc)
    as (ls & E & M); try assumption.
  { now destruct mics. }
  exists ls. split; [|exact M]. rewrite <- E. unfold line_times, at_rest. rewrite !map_map. f_equal.
  apply map_ext. intros m. f_equal. f_equal. apply functional_extensionality. intros x.
  unfold vdot. cbn [v3x v3y v3z]. unfold Rdiv. ring.
Qed.

Lemma rest_axis v e : moving_axis (V3 0 0 0) v e = e.
Proof. unfold moving_axis. now rewrite (proj2 (v3_zero_spec (V3 0 0 0)) eq_refl). Qed.

Lemma line_part_rest iters o len n conv p mics k diff s sig :
  d_c o <> 0 -> 0 < d_fs o -> mics <> [] -> 0 <= 1 / 10 / INR (d_up o) / d_fs o < 1 -> (0 < iters)%nat ->
  diff = line_step o len n ->
  line_part iters edist o len n conv (V3 0 0 0) (fun _ => p) (fun _ => V3 0 0 0) mics
    (d_start o + INR (S k) / d_fs o) diff s sig
  = let rm := map (edist (vadd p (vscale (INR s) diff))) mics in
    np_row sig (map (fun '(i, r) => ((i + INR k) * INR (d_up o), r))
      (combine (map (fun r => (- r / d_c o - d_start_t o + (d_start o + d_start o + 1 / d_fs o)) * d_fs o) rm) rm)).
Proof.
  intros Hc Hfs Hm He Hit Ed. unfold line_part. pose proof (S_INR k) as SK. revert SK. generalize (INR (S k)). intros ik SK.
  destruct (line_times_rest iters o p mics (vscale (INR s) diff) (d_start o + ik / d_fs o) Hc Hm He Hit) as (ls & -> & M).
  cbv zeta. f_equal. rewrite rest_axis, <- Ed. clear Hm.
  set (f := edist (vadd p (vscale (INR s) diff))) in *.
  revert ls M. induction mics as [|m mics IH]; intros [|l ls] M; cbn [map] in M; try discriminate; [reflexivity|].
  injection M as M1 M2 M3 M4. cbn [combine map]. f_equal; [|now apply IH].
  rewrite M1, M3. f_equal.
  - rewrite SK. field. lra.
  - destruct (conv && (s =? n - 1)%nat); ring.
Qed.

Lemma fold_left_map' {A B S} (f : S -> B -> S) (g : A -> B) l : forall acc,
  fold_left f (map g l) acc = fold_left (fun a x => f a (g x)) l acc.
Proof. induction l as [|a l IH]; intros acc; [reflexivity|]. cbn [map fold_left]. apply IH. Qed.

Lemma combine_map_r {A B C} (g : A -> C) (l : list B) (q : list A) :
  combine l (map g q) = map (fun '(a, b) => (a, g b)) (combine l q).
Proof. revert q. induction l as [|a l IH]; intros [|b q]; cbn; [reflexivity..|]. now rewrite IH. Qed.

Lemma combine_swap {A B} (l : list A) (q : list B) : combine l q = map (fun '(a, b) => (b, a)) (combine q l).
Proof. revert q. induction l as [|a l IH]; intros [|b q]; cbn; [reflexivity..|]. now rewrite IH. Qed.

Lemma moving_line_row_rest iters o len n conv p mics signals k :
  d_c o <> 0 -> 0 < d_fs o -> mics <> [] -> 0 <= 1 / 10 / INR (d_up o) / d_fs o < 1 -> (0 < iters)%nat ->
  moving_line_row iters edist o len n conv (V3 0 0 0) (fun _ => p) (fun _ => V3 0 0 0) mics signals k
  = line_row (length mics) (d_up o) signals
      (line_geometry edist (with_start (d_start o + d_start o + 1 / d_fs o) o) p len n mics) k.
Proof.
  intros Hc Hfs Hm He Hit. unfold moving_line_row, line_row, line_geometry.
  destruct (line_times_rest iters o p mics (V3 0 0 0) (d_start o + INR (S k) / d_fs o) Hc Hm He Hit) as (ls & -> & _).
  cbv zeta. rewrite rest_axis. rewrite combine_map_r, combine_swap. rewrite !fold_left_map'.
  set (acc := Some (repeat 0 (length mics))). generalize acc. clear acc.
  induction (combine signals (seq 0 n)) as [|[sig s] l IH]; intros acc; [reflexivity|].
  cbn [fold_left].
  rewrite (line_part_rest iters o len n conv p mics k _ s sig Hc Hfs Hm He Hit eq_refl).
  cbv zeta. apply IH.
Qed.

Theorem moving_line_rest iters o len n conv p mics units strengths ns num rms :
  d_c o <> 0 -> 0 < d_fs o -> mics <> [] -> 0 <= 1 / 10 / INR (d_up o) / d_fs o < 1 -> (0 < iters)%nat ->
  moving_line iters edist o len n conv (V3 0 0 0) (fun _ => p) (fun _ => V3 0 0 0) mics units strengths ns num rms
  = line_source (length mics) (d_up o) units strengths
      (line_geometry edist (with_start (d_start o + d_start o + 1 / d_fs o) o) p len n mics) ns num rms.
Proof.
  intros Hc Hfs Hm He Hit. unfold moving_line, line_source.
  destruct (line_signals units strengths rms) as [[sigs|e] rms']; [|reflexivity]. f_equal.
  destruct (line_times_rest iters o p mics (V3 0 0 0) (d_start o + INR 1 / d_fs o) Hc Hm He Hit) as (ls & -> & _).
  assert (E : moving_line_row iters edist o len n conv (V3 0 0 0) (fun _ => p) (fun _ => V3 0 0 0) mics sigs
              = line_row (length mics) (d_up o) sigs
                  (line_geometry edist (with_start (d_start o + d_start o + 1 / d_fs o) o) p len n mics)).
  { apply functional_extensionality. intros k. now apply moving_line_row_rest. }
  rewrite E. now destruct ns.
Qed.

(** ** conv_amp *)

Lemma combine_nth_fst {A B} j (l : list A) (q : list B) a b : (j < length l)%nat -> (j < length q)%nat ->
  fst (nth j (combine l q) (a, b)) = nth j l a.
Proof.
  revert l q. induction j as [|j IH]; intros [|x l] [|y q] H1 H2; cbn [length] in *; try lia; cbn; [reflexivity|].
  apply IH; lia.
Qed.

Lemma combine_nth_snd {A B} j (l : list A) (q : list B) a b : (j < length l)%nat -> (j < length q)%nat ->
  snd (nth j (combine l q) (a, b)) = nth j q b.
Proof.
  revert l q. induction j as [|j IH]; intros [|x l] [|y q] H1 H2; cbn [length] in *; try lia; cbn; [reflexivity|].
  apply IH; lia.
Qed.

Lemma np_row_zero sig l l' : (forall v, In v sig -> v = 0) -> map fst l = map fst l' -> np_row sig l = np_row sig l'.
Proof.
  intros Hz E. unfold np_row. revert l' E. induction l as [|[x r] l IH]; intros [|[x' r'] l'] E; cbn [map] in E; try discriminate;
    [reflexivity|].
  injection E as E1 E2. cbn [map sequence]. rewrite (IH l' E2). subst x'. cbn [fst].
  destruct (py_nth sig (rnd x)) as [s|] eqn:Es; [|reflexivity].
  assert (s = 0) as -> by (apply Hz; unfold py_nth in Es; repeat (destruct (_ : bool) in Es; try discriminate); eapply nth_error_In; exact Es).
  unfold Rdiv. now rewrite !Rmult_0_l.
Qed.

(** Only the last monopole of the line is amplified. *)
Theorem line_conv_amp iters rd o len n rvec traj vel mics signals k :
  (forall v, In v (nth (n - 1) signals []) -> v = 0) ->
  moving_line_row iters rd o len n true rvec traj vel mics signals k
  = moving_line_row iters rd o len n false rvec traj vel mics signals k.
Proof.
  intros Hz. unfold moving_line_row. destruct (line_times iters o traj vel mics (V3 0 0 0) _) as [ls|]; [|reflexivity].
  cbv zeta. set (diff := moving_axis _ _ _). set (t := d_start o + _).
  assert (P : forall s sig, In (s, sig) (combine (seq 0 n) signals) ->
    line_part iters rd o len n true rvec traj vel mics t diff s sig
    = line_part iters rd o len n false rvec traj vel mics t diff s sig).
  { intros s sig Hin. unfold line_part. destruct (line_times _ _ _ _ _ _ _) as [ls'|]; [|reflexivity].
    destruct (Nat.eqb_spec s (n - 1)) as [->|]; [|reflexivity]. cbn [andb].
    apply np_row_zero.
    - assert (E : nth (n - 1) signals [] = sig).
      { clear - Hin. apply (In_nth _ _ (0%nat, [])) in Hin. destruct Hin as (j & Hj & E).
        rewrite combine_length, seq_length in Hj.
        assert (E1 : nth j (seq 0 n) 0%nat = (n - 1)%nat).
        { rewrite <- (combine_nth_fst j (seq 0 n) signals 0%nat []) by (rewrite ?seq_length; lia). now rewrite E. }
        rewrite seq_nth in E1 by lia. cbn [Nat.add] in E1. subst j.
        rewrite <- (combine_nth_snd (n - 1) (seq 0 n) signals 0%nat []) by (rewrite ?seq_length; lia). now rewrite E. }
      rewrite <- E. exact Hz.
    - rewrite !map_map. apply map_ext. intros [m l]. reflexivity. }
  generalize (Some (repeat 0 (length mics))). revert P.
  generalize (combine (seq 0 n) signals). intros l P.
  induction l as [|[s sig] l IH]; intros acc; [reflexivity|]. cbn [fold_left]. rewrite P by (now left).
  apply IH. intros s' sig' H'. apply P. now right.
Qed.
