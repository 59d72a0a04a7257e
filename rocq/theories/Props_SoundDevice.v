(** Property theorems C102: samples from a sound card. *)
From Coq Require Import List Arith Lia ZArith Bool Reals Lra.
From Verif Require Import Stream SoundDevice.
Import ListNotations.
Local Open Scope nat_scope.

(** C102.  With num_samples positive: asking for blocks gives the first num_samples samples
    in blocks of num (the last one shorter), and then the end; afterwards running is False.
    At each block, overflow tells whether the read for this block reported one. *)
Theorem C102_limited_partial (A : Type) (dev : nat -> A) overflown num (n : nat) f : 0 < num -> 0 < n ->
  let stream := chunks num (map dev (seq 0 n)) in
  (forall k, k < length stream -> exists g,
     use dev overflown num (Z.of_nat n) (repeat Next (S k)) Start f = (map Some (firstn (S k) stream), g, set_overflow (overflown k) (set_running true f)))
  /\ exists f', use dev overflown num (Z.of_nat n) (repeat Next (S (length stream))) Start f = (map Some stream ++ [None], Ended, f')
     /\ running f' = false.
Proof.
  intros Hnum Hn stream. assert (Hns : (0 < Z.of_nat n)%Z) by lia.
  assert (S0 : map dev (seq (0 * num) (Z.to_nat (Z.of_nat n) - 0 * num)) = map dev (seq 0 n)) by (rewrite Nat2Z.id; cbn; rewrite Nat.sub_0_r; reflexivity).
  assert (L0 : forall k, 0 < k -> use dev overflown num (Z.of_nat n) (repeat Next k) Start f
     = use dev overflown num (Z.of_nat n) (repeat Next k) (Loop 0 (0 * num)) (set_running true f)).
  { intros [|k] Hk; [lia|]. reflexivity. }
  assert (FL := fixed_loop dev overflown num (Z.of_nat n) Hnum Hns). 
  split.
  - intros k Hk. rewrite L0 by lia. destruct (FL (S k) 0 (set_running true f)) as (g & E & _).
    + rewrite Nat2Z.id. lia.
    + rewrite S0. fold stream. lia.
    + exists g. rewrite E, S0. reflexivity.
  - assert (Hs : 0 < length stream).
    { unfold stream. rewrite chunks_step; [cbn; lia|exact Hnum|]. destruct n; [lia|discriminate]. }
    rewrite L0 by lia. replace (S (length stream)) with (length stream + 1) by lia. rewrite repeat_app.
    pose proof (use_app dev overflown num (Z.of_nat n) (repeat Next (length stream)) (repeat Next 1) (Loop 0 (0 * num)) (set_running true f)) as U.
    destruct (FL (length stream) 0 (set_running true f)) as (g & E & G); [rewrite Nat2Z.id; lia|rewrite S0; fold stream; lia|].
    rewrite E, S0 in U. fold stream in U. destruct g as [|r c|]; try contradiction. destruct G as [-> ->]. rewrite Nat2Z.id in U.
    assert (Hc : n <= length stream * num).
    { assert (K : length (concat stream) = n) by (unfold stream; rewrite concat_chunks by exact Hnum; rewrite map_length, seq_length; reflexivity).
      rewrite <- K. assert (B : forall b, In b stream -> length b <= num) by (intros b Hb; apply (chunks_in_len num _ b Hnum Hb)).
      clear -B. induction stream as [|b l IH]; [cbn; lia|]. cbn [concat length]. rewrite app_length. pose proof (B b (or_introl eq_refl)).
      pose proof (IH (fun x H => B x (or_intror H))). lia. }
    rewrite Nat.min_r in U by (cbn; lia). cbn [repeat use next_] in U. unfold loop in U. destruct (Z.eqb_spec (Z.of_nat n) (-1)); [lia|]. destruct (Z.ltb_spec 0 (Z.of_nat n)); [|lia].
    rewrite Nat2Z.id in U. rewrite Nat.ltb_irrefl in U. eexists. change (repeat Next 1) with [Next]. rewrite U, firstn_all. split; reflexivity.
Qed.
Print Assumptions C102_limited_partial.

(** C102.  With num_samples = -1: full blocks of consecutive samples until the user clears
    collect_samples, then the end. *)
Theorem C102_unlimited (A : Type) (dev : nat -> A) overflown num k f : 0 < k -> collect_samples f = true ->
  exists f', use dev overflown num (-1) (repeat Next k ++ [StopCollecting; Next]) Start f
    = (map (fun i => Some (map dev (seq (i * num) num))) (seq 0 k) ++ [None], Ended, f')
  /\ running f' = false /\ overflow f' = overflown (k - 1).
Proof.
  intros Hk Hc.
  assert (R : forall j r c g, collect_samples g = true -> exists f', use dev overflown num (-1) (repeat Next j ++ [StopCollecting; Next]) (Loop r c) g
    = (map (fun i => Some (map dev (seq (i * num) num))) (seq r j) ++ [None], Ended, f') /\ running f' = false
      /\ overflow f' = match j with O => overflow g | S j' => overflown (r + j') end).
  { induction j as [|j IH]; intros r c g Hg.
    - cbn. eexists. split; [reflexivity|]. split; reflexivity.
    - cbn [repeat app use next_]. unfold loop. change (-1 =? -1)%Z with true. cbn iota. rewrite Hg.
      destruct (IH (S r) c (set_overflow (overflown r) g)) as (f' & E & E1 & E2); [exact Hg|]. rewrite E. exists f'. split; [|split; [exact E1|]].
      + cbn [seq map app]. do 4 f_equal. unfold read. rewrite firstn_all2; [reflexivity|]. rewrite map_length, seq_length. lia.
      + rewrite E2. destruct j; cbn; [rewrite Nat.add_0_r; reflexivity|]. f_equal. lia. }
  destruct k as [|k]; [lia|]. destruct (R (S k) 0 0 (set_running true f)) as (f' & E & E1 & E2); [exact Hc|].
  exists f'. split; [exact E|]. split; [exact E1|]. rewrite E2. f_equal. lia.
Qed.
Print Assumptions C102_unlimited.

(** C102.  sample_freq: the value set by the user, else the default rate of the device in
    use at the first request.  num_channels never exceeds the number of inputs. *)
Theorem C102_settings_partial default_rate max_inputs s : num_channels s <= max_inputs (device s) ->
  (forall changes, let t := fold_left (fun s c => apply_change default_rate max_inputs c s) changes s in num_channels t <= max_inputs (device t))
  /\ (forall r, get_rate default_rate (apply_change default_rate max_inputs (SetRate r) s) = r)
  /\ (rate s = None -> get_rate default_rate s = default_rate (device s)).
Proof.
  intros H0. split; [|split; [reflexivity|intros E; unfold get_rate; rewrite E; reflexivity]].
  intros changes. revert s H0. induction changes as [|c cs IH]; intros s H; [exact H|]. cbn [fold_left]. apply IH.
  destruct c; cbn [apply_change]; try exact H.
  - destruct (d =? device s); [exact H|]. cbn. lia.
  - destruct (c =? num_channels s); [exact H|]. cbn. lia.
Qed.
Print Assumptions C102_settings_partial.

(** No samples are asked for: the first request is the end, and running is False. *)
Theorem C102_none (A : Type) (dev : nat -> A) overflown num ns k f : (ns <= 0)%Z -> ns <> (-1)%Z ->
  exists f', use dev overflown num ns (repeat Next (S k)) Start f = (repeat None (S k), Ended, f')
  /\ running f' = false /\ overflow f' = overflow f.
Proof.
  intros H1 H2. exists (set_running false f).
  assert (E : forall k f, use dev overflown num ns (repeat Next k) Ended f = (repeat None k, Ended, f)).
  { induction k0 as [|k0 IH]; intros f0; [reflexivity|]. cbn [repeat use next_]. rewrite IH. reflexivity. }
  split; [|split; reflexivity]. change (repeat Next (S k)) with (Next :: repeat Next k). cbn [use next_]. unfold loop.
  destruct (Z.eqb_spec ns (-1)); [contradiction|]. destruct (Z.ltb_spec 0 ns); [lia|].
  rewrite E. reflexivity.
Qed.
Print Assumptions C102_none.

(** C102 fails for overflow, which "indicates that the sounddevice buffer has overflown": an
    overflow in the first block is forgotten with the second. *)
Theorem C102_overflow_refuted (A : Type) (dev : nat -> A) f :
  let overflown i := i =? 0 in
  let '(bs, g, f') := use dev overflown 4 8 [Next; Next; Next] Start f in
  bs = [Some (map dev [0; 1; 2; 3]); Some (map dev [4; 5; 6; 7]); None] /\ overflow f' = false.
Proof. split; reflexivity. Qed.
Print Assumptions C102_overflow_refuted.

(** C102 fails for running if the user stops before the end. *)
Theorem C102_running_refuted (A : Type) (dev : nat -> A) overflown f :
  let '(bs, g, f') := use dev overflown 4 8 [Next; Close] Start f in g = Ended /\ running f' = true.
Proof. split; reflexivity. Qed.
Print Assumptions C102_running_refuted.

(** C102 fails for sample_freq after a change of the device: the rate of the first device
    stays. *)
Theorem C102_rate_refuted default_rate max_inputs : default_rate 0 <> default_rate 1 ->
  let s := apply_change default_rate max_inputs (SetDevice 1) (apply_change default_rate max_inputs GetRate initial) in
  device s = 1 /\ get_rate default_rate s = default_rate 0 /\ get_rate default_rate s <> default_rate (device s).
Proof. intros H. cbn. auto. Qed.
Print Assumptions C102_rate_refuted.

Example C102_case :
  fst (fst (use (fun i => i) (fun _ => false) 3 7 (repeat Next 4) Start {| collect_samples := true; overflow := false; running := false |}))
  = [Some [0; 1; 2]; Some [3; 4; 5]; Some [6]; None].
Proof. reflexivity. Qed.
