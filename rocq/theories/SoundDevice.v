(** SoundDeviceSamplesGenerator (sdinput.py:25-136). *)
From Coq Require Import List Arith Lia ZArith Bool Reals Lra.
From Verif Require Import Stream.
Import ListNotations.
Local Open Scope nat_scope.

Section Device.
  (** What the card delivers after the stream was opened, sample by sample, and whether
      read number [i] reports an overflow. *)
  Context {A : Type}.
  Variables (dev : nat -> A) (overflown : nat -> bool).

  (** The traits that result uses or sets, sdinput.py:50-75. *)
  Record flags := { collect_samples : bool; overflow : bool; running : bool }.
  Definition set_collect b (f : flags) := {| collect_samples := b; overflow := overflow f; running := running f |}.
  Definition set_overflow b (f : flags) := {| collect_samples := collect_samples f; overflow := b; running := running f |}.
  Definition set_running b (f : flags) := {| collect_samples := collect_samples f; overflow := overflow f; running := b |}.

  (** The generator: not started, in one of the loops after [reads] calls of stream.read with
      the counter samples_count, or ended. *)
  Inductive gen := Start | Loop (reads samples_count : nat) | Ended.

  (** stream.read(num) *)
  Definition read (num reads : nat) : list A := map dev (seq (reads * num) num).

  (** One pass of the loop, sdinput.py:120-136. *)
  Definition loop (num : nat) (num_samples : Z) (reads count : nat) (f : flags) : option (list A) * gen * flags :=
    if (num_samples =? -1)%Z then
      if collect_samples f then (Some (firstn num (read num reads)), Loop (S reads) count, set_overflow (overflown reads) f)
      else (None, Ended, set_running false f)
    else if (0 <? num_samples)%Z then
      if count <? Z.to_nat num_samples then
        let anz := Nat.min num (Z.to_nat num_samples - count) in
        (Some (firstn anz (read num reads)), Loop (S reads) (count + anz), set_overflow (overflown reads) f)
      else (None, Ended, set_running false f)
    else (None, Ended, set_running false f).

  (** next(generator) *)
  Definition next_ (num : nat) (num_samples : Z) (g : gen) (f : flags) : option (list A) * gen * flags :=
    match g with
    | Start => loop num num_samples 0 0 (set_running true f)
    | Loop reads count => loop num num_samples reads count f
    | Ended => (None, Ended, f)
    end.

  (** What a user does: ask for the next block, clear collect_samples, close the generator
      (also by leaving a for loop): GeneratorExit leaves the with statement, line 135 is not
      reached. *)
  Inductive action := Next | StopCollecting | Close.
  Fixpoint use (num : nat) (num_samples : Z) (acts : list action) (g : gen) (f : flags) : list (option (list A)) * gen * flags :=
    match acts with
    | [] => ([], g, f)
    | Next :: acts' =>
        let '(b, g', f') := next_ num num_samples g f in
        let '(bs, g'', f'') := use num num_samples acts' g' f' in (b :: bs, g'', f'')
    | StopCollecting :: acts' => use num num_samples acts' g (set_collect false f)
    | Close :: acts' => use num num_samples acts' Ended f
    end.

  Lemma use_app num ns a1 a2 g f : let '(b1, g1, f1) := use num ns a1 g f in let '(b2, g2, f2) := use num ns a2 g1 f1 in
    use num ns (a1 ++ a2) g f = (b1 ++ b2, g2, f2).
  Proof.
    revert g f. induction a1 as [|a a1 IH]; intros g f; [cbn; destruct (use num ns a2 g f) as [[b2 g2] f2]; reflexivity|].
    cbn [use app]. destruct a.
    - destruct (next_ num ns g f) as [[b g'] f']. specialize (IH g' f'). destruct (use num ns a1 g' f') as [[b1 g1] f1].
      destruct (use num ns a2 g1 f1) as [[b2 g2] f2]. rewrite IH. reflexivity.
    - apply IH.
    - apply IH.
  Qed.

  Lemma firstn_seq_min k a m : firstn k (seq a m) = seq a (Nat.min k m).
  Proof. revert a m. induction k as [|k IH]; intros a [|m]; try reflexivity. cbn. rewrite IH. reflexivity. Qed.
  Lemma skipn_seq_add k a m : skipn k (seq a m) = seq (a + k) (m - k).
  Proof.
    revert a m. induction k as [|k IH]; intros a [|m]; cbn [skipn seq]; try (rewrite ?Nat.add_0_r, ?Nat.sub_0_r; reflexivity).
    rewrite IH. f_equal; lia.
  Qed.

  (** A limited number of samples. *)
  Lemma fixed_loop num ns : 0 < num -> (0 < ns)%Z -> forall k reads f, reads * num < Z.to_nat ns ->
    k <= length (chunks num (map dev (seq (reads * num) (Z.to_nat ns - reads * num)))) ->
    exists g, use num ns (repeat Next k) (Loop reads (reads * num)) f
    = (map Some (firstn k (chunks num (map dev (seq (reads * num) (Z.to_nat ns - reads * num))))), g,
       match k with O => f | S k' => set_overflow (overflown (reads + k')) f end)
    /\ (match g with Start => False | Ended => False | Loop r c => r = reads + k /\ c = Nat.min ((reads + k) * num) (Z.to_nat ns) end).
  Proof.
    intros Hnum Hns. set (n := Z.to_nat ns). induction k as [|k IH]; intros reads f Hr Hk.
    - exists (Loop reads (reads * num)). split; [reflexivity|]. rewrite Nat.add_0_r. split; [reflexivity|lia].
    - set (rest := map dev (seq (reads * num) (n - reads * num))) in *.
      assert (Hne : rest <> []) by (unfold rest; destruct (n - reads * num) eqn:E; [lia|discriminate]).
      assert (Hlen : length rest = n - reads * num) by (unfold rest; rewrite map_length, seq_length; reflexivity).
      rewrite (chunks_step num rest Hnum Hne) in *. cbn [length] in Hk.
      set (anz := Nat.min num (n - reads * num)).
      assert (F1 : firstn anz (read num reads) = firstn num rest).
      { unfold read, rest. rewrite !firstn_map. f_equal. unfold anz. rewrite !firstn_seq_min. f_equal. lia. }
      cbn [repeat use next_]. unfold loop. destruct (Z.eqb_spec ns (-1)); [lia|]. destruct (Z.ltb_spec 0 ns); [|lia].
      fold n. destruct (Nat.ltb_spec (reads * num) n); [|lia]. cbv zeta. fold anz. rewrite F1.
      destruct (Nat.lt_ge_cases ((S reads) * num) n) as [L|L].
      + assert (Ea : reads * num + anz = S reads * num) by (unfold anz; lia). rewrite Ea.
        destruct (IH (S reads) (set_overflow (overflown reads) f) L) as (g & E & G).
        { replace (skipn num rest) with (map dev (seq (S reads * num) (n - S reads * num))) in Hk; [lia|].
          unfold rest. rewrite skipn_map. f_equal. rewrite skipn_seq_add. f_equal; lia. }
        rewrite E. exists g. split; [|destruct g; try contradiction; replace (reads + S k) with (S reads + k) by lia; exact G].
        f_equal; [f_equal|].
        * cbn [firstn map]. f_equal. f_equal. f_equal.
          replace (skipn num rest) with (map dev (seq (S reads * num) (n - S reads * num))); [reflexivity|].
          unfold rest. rewrite skipn_map. f_equal. rewrite skipn_seq_add. f_equal; lia.
        * destruct k; cbn; [rewrite Nat.add_0_r; reflexivity|]. replace (reads + S k) with (S (reads + k)) by lia. reflexivity.
      + assert (Hs : skipn num rest = []) by (apply skipn_all2; lia). rewrite Hs in *. rewrite chunks_nil in *. cbn [length] in Hk.
        assert (k = 0) by lia. subst k. cbn [repeat use]. eexists. split; [cbn [firstn map]; rewrite Nat.add_0_r; reflexivity|].
        split; [lia|]. unfold anz. lia.
  Qed.
End Device.

(** sample_freq, sdinput.py:91-97: the trait _sample_freq is set by the user or by the first
    request; num_channels, sdinput.py:86-89: reduced to what the device has when it or the
    device changes (Traits does not notify about equal values). *)
Section Settings.
  Variables (default_rate : nat -> R) (max_inputs : nat -> nat).
  Record settings := { device : nat; num_channels : nat; rate : option R }.
  Inductive change := SetDevice (d : nat) | SetChannels (c : nat) | SetRate (r : R) | GetRate.
  Definition get_rate (s : settings) : R := match rate s with Some r => r | None => default_rate (device s) end.
  Definition clamp (s : settings) : settings := {| device := device s; num_channels := Nat.min (num_channels s) (max_inputs (device s)); rate := rate s |}.
  Definition apply_change (c : change) (s : settings) : settings :=
    match c with
    | SetDevice d => if d =? device s then s else clamp {| device := d; num_channels := num_channels s; rate := rate s |}
    | SetChannels k => if k =? num_channels s then s else clamp {| device := device s; num_channels := k; rate := rate s |}
    | SetRate r => {| device := device s; num_channels := num_channels s; rate := Some r |}
    | GetRate => {| device := device s; num_channels := num_channels s; rate := Some (get_rate s) |}
    end.
  Definition initial : settings := {| device := 0; num_channels := 1; rate := None |}.
End Settings.
