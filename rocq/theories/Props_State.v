(** Properties of state: in-place processing (C25), reused buffers (C26),
    digests (C27), cached properties (C28), trajectories (C53), deprecated
    names (C56), imported matrices (C57), pink noise (C58). *)
From Coq Require Import List Arith Lia ZArith Bool Reals Lra String.
From Verif Require Import Stream BlockOps Grids Result Alias Digest Traits Noise.
Import ListNotations.
Local Open Scope nat_scope.

(** ** C25.  A Mixer or SourceMixer whose first source delivers new arrays
    changes no array.  Missing in _partial: a first source that delivers views;
    then the user's array holds the mixed signal afterwards, exactly. *)
Theorem C25_partial : forall (A : Type) (add : A -> A -> A) (s : list A) pre others num (h : heap),
  fst (mix_run add (Calc s) pre others num h) = h.
Proof. intros. apply imix_calc. Qed.
Print Assumptions C25_partial.

(** First source TimeSamples on an array [a], all sources of the same length
    and on other arrays: the blocks are right, array [a] is overwritten by the
    mixed signal, no other array changes. *)
Theorem C25_effect : forall (A : Type) (add : A -> A -> A) a pre others num (h : heap),
  0 < num ->
  Forall (fun gw => fst gw <> InMem a /\ List.length (content h (fst gw)) = List.length (h a)) others ->
  let r := mix_run add (InMem a) pre others num h in
  let m := mixed add h (InMem a) pre others in
  snd r = chunks num m /\ fst r a = m /\ forall b, b <> a -> fst r b = h b.
Proof.
  intros A add a pre others num h Hn Ho. cbv zeta.
  destruct (mix_run_inmem add a pre others num h Hn Ho) as (h' & E & E1 & E2). rewrite E. auto.
Qed.
Print Assumptions C25_effect.

(** A second run of the same Mixer adds the other source again. *)
Theorem C25_mixer_refuted : exists (h : heap (A := Z)) (num : nat),
  let others := [(InMem 1, fun x => x)] in
  let r1 := mix_run Z.add (InMem 0) (fun x => x) others num h in
  let r2 := mix_run Z.add (InMem 0) (fun x => x) others num (fst r1) in
  fst r1 0 <> h 0 /\ List.concat (snd r2) <> List.concat (snd r1).
Proof.
  exists (fun a => if a =? 0 then [1; 2; 3]%Z else [10; 20; 30]%Z), 2. vm_compute. split; discriminate.
Qed.
Print Assumptions C25_mixer_refuted.

(** A SourceMixer with one source and weight 2 doubles the data at each run. *)
Theorem C25_sourcemixer_refuted : exists (h : heap (A := Z)) (num : nat),
  let r1 := mix_run Z.add (InMem 0) (Z.mul 2) [] num h in
  let r2 := mix_run Z.add (InMem 0) (Z.mul 2) [] num (fst r1) in
  fst r1 0 <> h 0 /\ List.concat (snd r2) <> List.concat (snd r1).
Proof. exists (fun _ => [1; 2; 3]%Z), 2. vm_compute. split; discriminate. Qed.
Print Assumptions C25_sourcemixer_refuted.

Example C25_example :
  let h := fun a => if a =? 0 then [1; 2; 3; 4; 5]%Z else [10; 20; 30; 40; 50]%Z in
  let r := mix_run Z.add (InMem 0) (fun x => x) [(InMem 1, fun x => x); (Calc [100; 200; 300; 400; 500]%Z, Z.mul 2)] 2 h in
  snd r = [[211; 422]; [633; 844]; [1055]]%Z /\ fst r 0 = [211; 422; 633; 844; 1055]%Z.
Proof. vm_compute. auto. Qed.

(** ** C26.  A generator that reuses one buffer: the consumer that looks at each
    block before asking for the next sees the stream; a consumer that keeps
    full blocks has the last one everywhere, so its list is the stream only if
    all blocks are equal. *)
Theorem C26_partial : forall (A : Type) (buf : list A) (bs : list (list A)), at_yield buf bs = bs.
Proof. intros. apply at_yield_id. Qed.
Print Assumptions C26_partial.

Theorem C26_kept : forall (A : Type) num (buf : list A) bs,
  List.length buf = num -> Forall (fun b => List.length b = num) bs ->
  kept buf bs = repeat (last bs buf) (List.length bs)
  /\ (kept buf bs = bs <-> forall b b', In b bs -> In b' bs -> b = b').
Proof.
  intros A num buf bs Hb Hf. pose proof (kept_full num buf bs Hb Hf) as E. split; [exact E|]. rewrite E. clear E.
  split.
  - intros E b b' H1 H2. rewrite <- E in H1, H2. apply repeat_spec in H1, H2. congruence.
  - intros H. assert (forall b, In b bs -> b = last bs buf) as K.
    { intros b Hi. apply H; [exact Hi|]. destruct bs as [|x bs]; [destruct Hi|]. clear.
      revert x. induction bs as [|y bs IH]; intros x; [left; reflexivity|].
      right. change (last (x :: y :: bs) buf) with (last (y :: bs) buf). apply IH. }
    revert K. generalize (last bs buf). clear. intros L. induction bs as [|b bs IH]; intros K; [reflexivity|].
    simpl. rewrite (K b) by (left; reflexivity). f_equal. apply IH. intros; apply K. now right.
Qed.
Print Assumptions C26_kept.

Example C26_example : Forall (fun b => List.length b = 2) [[1; 2]; [3; 4]; [5; 6]]
  /\ kept [0; 0] [[1; 2]; [3; 4]; [5; 6]] = [[5; 6]; [5; 6]; [5; 6]]
  /\ kept [0; 0] [[1; 2]; [3; 4]; [5]] = [[5; 4]; [5; 4]; [5]].
Proof. split; [repeat constructor|]. split; reflexivity. Qed.

(** TimeReverse keeps the blocks of its source: over a source that reuses its
    buffer its result is not the reversed stream. *)
Theorem C26_timereverse_refuted : exists (s : list nat) (num : nat) (garbage : nat -> nat),
  List.concat (at_yield (repeat 0 num) (chunks num s)) = s
  /\ fin (reuse_source 0 s num) = Finished /\ List.length (blocks (reuse_source 0 s num)) = List.length (chunks num s)
  /\ exists ys, time_reverse_result garbage (reuse_source 0 s) num = done ys
     /\ List.concat ys <> rev s /\ List.length (List.concat ys) = List.length s.
Proof.
  exists [1; 2; 3; 4; 5; 6], 2, (fun _ => 0). split; [reflexivity|]. split; [reflexivity|]. split; [reflexivity|].
  eexists. split; [vm_compute; reflexivity|]. split; [discriminate|reflexivity].
Qed.
Print Assumptions C26_timereverse_refuted.

(** ** C27.  Two configurations of one class with the same digest have the same
    settings, if the printed settings have pairwise equal lengths with at most
    one exception (in particular: one own setting besides the digests of
    other objects), assuming the hash tells their two messages apart.
    Missing: several settings of variable length; refuted below. *)
Theorem C27_partial : forall (hash : string -> string) cls l1 m1 a b l2 m2,
  map String.length l1 = map String.length m1 -> map String.length l2 = map String.length m2 ->
  let x := (l1 ++ a :: l2)%list in let y := (m1 ++ b :: m2)%list in
  (hash (message cls (map Some x)) = hash (message cls (map Some y)) -> message cls (map Some x) = message cls (map Some y)) ->
  digest hash cls (map Some x) = digest hash cls (map Some y) -> x = y.
Proof.
  intros hash cls l1 m1 a b l2 m2 H1 H2 x y Hh E. unfold digest in E. injection E as E. apply Hh in E.
  rewrite !message_some in E. apply append_inj_l in E; [|reflexivity]. destruct E as [_ E].
  subst x y. apply join_inj1; auto.
Qed.
Print Assumptions C27_partial.

(** Lists of sources (ldigest): digests are 33 characters long, so equal list
    digests mean equal digests. *)
Theorem C27_ldigest : forall (hash : string -> string) (msgs msgs' : list string),
  (forall m, String.length (hash m) = 32) ->
  let x := map (fun m => "_" ++ hash m)%string msgs in
  let y := map (fun m => "_" ++ hash m)%string msgs' in
  (hash (join x) = hash (join y) -> join x = join y) ->
  ldigest hash x = ldigest hash y -> x = y.
Proof.
  intros hash msgs msgs' Hl x y Hh E. unfold ldigest in E. injection E as E. apply Hh in E.
  assert (forall l, Forall (fun s => String.length s = 33) (map (fun m => "_" ++ hash m)%string l)) as H33.
  { intros l. apply Forall_forall. intros s Hs. apply in_map_iff in Hs. destruct Hs as (m & <- & _).
    simpl. now rewrite Hl. }
  assert (forall l, Forall (fun s => String.length s = 33) l -> String.length (join l) = 33 * List.length l) as Hj.
  { induction l as [|s l IH]; intros H; [reflexivity|]. inversion H; subst. simpl. rewrite append_len, IH by assumption. lia. }
  assert (List.length x = List.length y) as Hxy.
  { apply (f_equal String.length) in E. rewrite (Hj x), (Hj y) in E by apply H33. lia. }
  apply join_inj; [|exact E].
  assert (forall l, Forall (fun s => String.length s = 33) l -> map String.length l = repeat 33 (List.length l)) as Hm.
  { induction l as [|s l IH]; intros H; [reflexivity|]. inversion H as [|? ? H1 H2]; subst. simpl. rewrite H1, IH by assumption. reflexivity. }
  rewrite (Hm x), (Hm y) by apply H33. congruence.
Qed.
Print Assumptions C27_ldigest.

Example C27_example : let hash := fun m : string => m in
  let x := ["_0123"; "16"]%string in let y := ["_0123"; "4"]%string in
  map String.length ["_0123"%string] = map String.length ["_0123"%string]
  /\ digest hash "Average" (map Some x) <> digest hash "Average" (map Some y).
Proof. split; [reflexivity|]. vm_compute. discriminate. Qed.

(** 11 samples with depth 2, and 1 sample with depth 12 (PNoiseGenerator, the
    settings rms, seed, sample_freq, num_samples, depth, signals.py:296): equal
    digests for every hash. *)
Theorem C27_int_refuted : exists n d n' d', (n, d) <> (n', d') /\ forall hash cls rms seed fs,
  digest hash cls (map Some [rms; seed; fs; str_nat n; str_nat d])
  = digest hash cls (map Some [rms; seed; fs; str_nat n'; str_nat d']).
Proof. exists 11, 2, 1, 12. split; [congruence|]. reflexivity. Qed.
Print Assumptions C27_int_refuted.

(** RectGrid with x_min=1.0, x_max=11.0 and with x_min=1.01, x_max=1.0. *)
Theorem C27_float_refuted : exists a b a' b' : string, (a, b) <> (a', b') /\ forall hash cls rest,
  digest hash cls (Some a :: Some b :: rest) = digest hash cls (Some a' :: Some b' :: rest).
Proof.
  exists "1.0"%string, "11.0"%string, "1.01"%string, "1.0"%string. split; [congruence|]. reflexivity.
Qed.
Print Assumptions C27_float_refuted.

(** A microphone geometry with 400 microphones: moving one in the middle does
    not change the printed array (MicGeom.digest depends on pos,
    microphones.py:157; ImportGrid on _gpos, grids.py:782). *)
Theorem C27_array_refuted : exists rows rows' : list (list string),
  rows <> rows' /\ map (@List.length string) rows = map (@List.length string) rows'
  /\ forall hash cls, digest hash cls [Some (array_str rows)] = digest hash cls [Some (array_str rows')].
Proof.
  exists (repeat (repeat "1."%string 400) 3),
    ((repeat "1."%string 200 ++ "2."%string :: repeat "1."%string 199)%list :: repeat (repeat "1."%string 400) 2).
  split.
  - intros E. apply (f_equal (fun r => nth 200 (hd [] r) ""%string)) in E. vm_compute in E. discriminate.
  - split; [reflexivity|]. intros hash cls. unfold digest, message. do 4 f_equal.
Qed.
Print Assumptions C27_array_refuted.

(** ** C28.  If every calculation uses only attributes named in depends_on,
    then after any history of assignments and reads every read gives the value
    calculated from the attributes of that moment. *)
Theorem C28_partial : forall (W : Type) (props : nat -> prop W) (e : attrs) (l : list op),
  (forall p, covered (props p)) ->
  snd (history props l (mkObj e (fun _ => None))) = expected props l e.
Proof. intros W props e l H. apply history_fresh; [exact H|]. split; [reflexivity|discriminate]. Qed.
Print Assumptions C28_partial.

(** The condition is necessary: a used attribute that is not named gives a stale
    value after read, assignment, read. *)
Theorem C28_necessary : forall (W : Type) (props : nat -> prop W) p a v e,
  ~ In a (deps (props p)) -> comp (props p) (assign e a v) <> comp (props p) e ->
  exists l, snd (history props l (mkObj e (fun _ => None))) <> expected props l e.
Proof.
  intros W props p a v e Hn Hd. exists [Read p; Set_ a v; Read p].
  rewrite history_stale by exact Hn. simpl. intros E. injection E as E. congruence.
Qed.
Print Assumptions C28_necessary.

(** Classes that meet the condition: RectGrid.nxsteps, RectGrid.size,
    PowerSpectra.num_blocks; RectGrid.pos if the dependence on the digest that
    the base class declares is kept. *)
Theorem C28_instances :
  (forall e l, snd (history (fun _ => nxsteps) l (mkObj e (fun _ => None))) = expected (fun _ => nxsteps) l e)
  /\ (forall e l, snd (history (fun _ => rectgrid_size) l (mkObj e (fun _ => None))) = expected (fun _ => rectgrid_size) l e)
  /\ (forall e l, snd (history (fun _ => num_blocks) l (mkObj e (fun _ => None))) = expected (fun _ => num_blocks) l e)
  /\ (forall e l, snd (history (fun _ => rectgrid_pos_inherited) l (mkObj e (fun _ => None))) = expected (fun _ => rectgrid_pos_inherited) l e).
Proof.
  split; [|split; [|split]]; intros e l; apply C28_partial; intros _.
  - apply nxsteps_covered.
  - apply rectgrid_size_covered.
  - apply num_blocks_covered.
  - apply rectgrid_pos_inherited_covered.
Qed.
Print Assumptions C28_instances.

Example C28_example :
  let e : attrs := fun _ => Int 4 in
  snd (history (fun _ => {| deps := [0]; comp := fun e => int (e 0) |})
    [Read 0; Set_ 0 (Int 7); Read 0] (mkObj e (fun _ => None))) = [4%Z; 7%Z].
Proof.
  cbn [history do_op cache cur]. destruct (val_eq_dec (Int 4) (Int 7)) as [E|E]; [discriminate E|]. reflexivity.
Qed.

(** RectGrid.pos as written: z is used but not named. *)
Theorem C28_rectgrid_refuted : exists e l,
  snd (history (fun _ => rectgrid_pos) l (mkObj e (fun _ => None))) <> expected (fun _ => rectgrid_pos) l e.
Proof.
  exists (fun _ => Num 1). apply (C28_necessary _ (fun _ => rectgrid_pos) 0 4 (Num 2) (fun _ => Num 1)).
  - simpl. intuition discriminate.
  - simpl. unfold rect_pos, steps. intros E.
    replace (Rabs (1 - 1)) with 0%R in E by (rewrite Rminus_diag_eq by reflexivity; now rewrite Rabs_R0).
    rewrite Rabs_R1 in E. destruct (Req_EM_T 1 0) as [K|K]; [lra|].
    replace ((0 + 1) / 1)%R with 1%R in E by field.
    replace (py_round 1) with 1%Z in E.
    + simpl in E. injection E as E. lra.
    + symmetry. apply (py_round_int 1).
Qed.
Print Assumptions C28_rectgrid_refuted.

(** It is right as long as z is not set, and nothing else makes it stale. *)
Theorem C28_rectgrid_partial : forall e l, existsb (sets 4) l = false ->
  snd (history (fun _ => rectgrid_pos) l (mkObj e (fun _ => None))) = expected (fun _ => rectgrid_pos) l e.
Proof.
  intros e l H. apply (history_but _ 4); [|exact H|split; [reflexivity|discriminate]].
  intros _ e1 e2 H1. unfold rectgrid_pos in *. cbn [comp deps] in *.
  rewrite (H1 0), (H1 1), (H1 2), (H1 3), (H1 4), (H1 5) by (cbn; intuition). reflexivity.
Qed.
Print Assumptions C28_rectgrid_partial.

(** PowerSpectra: freq_range is set, ind_low is read, then ind_low is set to 1
    (its default): the index of the frequency range is returned. *)
Theorem C28_ind_low_refuted : exists e i f,
  let l := (set_freqlc f ++ [Read 0] ++ set_ind_low i ++ [Read 0])%list in
  nth 1 (snd (history (fun _ => ind_low) l (mkObj e (fun _ => None)))) 0%Z
    <> nth 1 (expected (fun _ => ind_low) l e) 0%Z
  /\ nth 1 (expected (fun _ => ind_low) l e) 0%Z = i.
Proof.
  exists (fun a => match a with 0 => Num 64 | 1 => Int 8 | 2 => Int 1 | 3 => Num 0 | _ => Flag true end), 1%Z, 16%R.
  cbv zeta. unfold set_freqlc, set_ind_low. cbn [app].
  set (e := fun a : nat => _ : val).
  assert (forall b, ind_low_of 64 8 1 16 b = if b then 1%Z else 2%Z) as Hi.
  { intros [|]; unfold ind_low_of, fftfreq; change (Z.to_nat 8 / 2) with 4; [reflexivity|].
    simpl. destruct (Rlt_dec _ 16) as [K|K]; [|exfalso; apply K; simpl; lra].
    destruct (Rlt_dec _ 16) as [K2|K2]; [|exfalso; apply K2; simpl; lra].
    destruct (Rlt_dec _ 16) as [K3|K3]; [exfalso; simpl in K3; lra|]. reflexivity. }
  split.
  - cbn [history do_op cur cache].
    destruct (val_eq_dec (e 4) (Flag false)) as [K|K]; [discriminate K|].
    cbn [history do_op cur cache assign].
    destruct (val_eq_dec _ (Num 16)) as [K2|K2].
    { exfalso. unfold assign in K2. simpl in K2. injection K2 as K2. lra. }
    cbn [history do_op cur cache]. simpl existsb. cbn [cache].
    destruct (val_eq_dec _ (Flag true)) as [K3|K3]; [discriminate K3|].
    cbn [history do_op cur cache]. simpl existsb. cbn iota.
    destruct (val_eq_dec _ (Int 1)) as [K4|K4].
    2:{ exfalso. apply K4. reflexivity. }
    cbn [history do_op cache Nat.eqb].
    change (ind_low_of 64 8 1 16 false <> ind_low_of 64 8 1 16 true). rewrite !Hi. discriminate.
  - change (ind_low_of 64 8 1 16 true = 1%Z). rewrite Hi. reflexivity.
Qed.
Print Assumptions C28_ind_low_refuted.

(** BeamformerEig: an invalid channel is added after the component was
    selected; the index is out of range then. *)
Theorem C28_na_refuted : exists e nm,
  let l := [Read 0; Set_ 2 (Int nm); Read 0] in
  nth 1 (snd (history (fun _ => na) l (mkObj e (fun _ => None)))) 0%Z = nm
  /\ nth 1 (expected (fun _ => na) l e) 0%Z = (nm - 1)%Z.
Proof.
  exists (fun a => match a with 1 => Int (-1) | _ => Int 4 end), 3%Z. cbv zeta. split.
  - rewrite history_stale by (simpl; intuition discriminate). reflexivity.
  - reflexivity.
Qed.
Print Assumptions C28_na_refuted.

(** As long as the number of microphones stays (attribute 2) it is right: the
    component n, counted from the end if negative, within the range. *)
Theorem C28_na_partial : forall e l, existsb (sets 2) l = false ->
  snd (history (fun _ => na) l (mkObj e (fun _ => None))) = expected (fun _ => na) l e
  /\ forall nm n, e 2 = Int nm -> e 1 = Int n -> (- nm <= n < nm)%Z ->
     expected (fun _ => na) [Read 0] e = [if (n <? 0)%Z then (nm + n)%Z else n].
Proof.
  intros e l H. split.
  - apply (history_but _ 2); [|exact H|split; [reflexivity|discriminate]].
    intros _ e1 e2 H1. unfold na in *. cbn [comp deps] in *.
    rewrite (H1 1), (H1 2) by (cbn; intuition). reflexivity.
  - intros nm n E2 E1 Hn. cbn. rewrite E2, E1. cbn. unfold eig_na. f_equal.
    destruct (Z.ltb_spec n 0); lia.
Qed.
Print Assumptions C28_na_partial.

(** Another microphone object (attribute 0), with whatever number of
    microphones, refreshes it. *)
Theorem C28_na_replaced : forall e v w, e 0 <> w ->
  let l := [Read 0; Set_ 2 v; Set_ 0 w; Read 0] in
  snd (history (fun _ => na) l (mkObj e (fun _ => None))) = expected (fun _ => na) l e.
Proof.
  intros e v w H l. subst l. cbn [history do_op expected cur cache].
  destruct (val_eq_dec (e 2) v) as [E2|E2]; cbn [history do_op cur cache snd].
  - destruct (val_eq_dec (e 0) w) as [E0|E0]; [congruence|]. cbn. unfold assign. cbn. rewrite E2. reflexivity.
  - destruct (val_eq_dec (assign e 2 v 0) w) as [E0|E0]; [cbn in E0; congruence|]. reflexivity.
Qed.
Print Assumptions C28_na_replaced.
Example C28_na_replaced_case :
  let e := fun a => match a with 0 => Int 7 | 1 => Int (-1) | _ => Int 4 end in
  expected (fun _ => na) [Read 0; Set_ 2 (Int 3); Set_ 0 (Int 8); Read 0] e = [3%Z; 2%Z].
Proof. reflexivity. Qed.

(** GeneralFlowEnvironment: with a fixed region of interest and unchanged
    settings the travel times are those of newly built interpolators ... *)
Theorem C28_flow_partial : forall (S G T : Type) (build : S -> G -> nat -> T) (eval : T -> G -> list R)
  (s : S) (r : G) (calls : list (G * list nat)),
  let go := fold_left (fun '(res, d) '(g, mics) =>
     let (cols, d') := travel build eval s (Some r) g mics d in (res ++ [cols], d')%list) calls ([], []) in
  fst go = map (fun '(g, mics) => map (fun m => eval (build s r m) g) mics) calls.
Proof.
  intros S G T build eval s r calls. cbv zeta.
  assert (forall calls res d, table_ok build s r d ->
    fst (fold_left (fun '(res, d) '(g, mics) =>
       let (cols, d') := travel build eval s (Some r) g mics d in ((res ++ [cols])%list, d')) calls (res, d))
    = (res ++ map (fun '(g, mics) => map (fun m => eval (build s r m) g) mics) calls)%list) as H.
  { clear calls. induction calls as [|[g mics] calls IH]; intros res d Hd.
    - simpl. now rewrite app_nil_r.
    - cbn [fold_left map]. destruct (travel_ok build eval s r g mics d Hd) as [H1 H2].
      destruct (travel build eval s (Some r) g mics d) as [cols d']. simpl in H1, H2. rewrite IH by exact H2.
      rewrite H1, <- app_assoc. reflexivity. }
  apply (H calls [] []). intros kv [].
Qed.
Print Assumptions C28_flow_partial.

(** ... but a change of the flow field (or of c, N, Om, grid) has no effect on
    microphone positions seen before. *)
Theorem C28_flow_refuted : forall (S G T : Type) (build : S -> G -> nat -> T) (eval : T -> G -> list R)
  (s s' : S) (roi roi' : option G) (g : G) (m : nat),
  let d := snd (travel build eval s roi g [m] []) in
  fst (travel build eval s' roi' g [m] d) = fst (travel build eval s roi g [m] []).
Proof.
  intros. subst d. cbn. unfold lookup. cbn. rewrite Nat.eqb_refl. reflexivity.
Qed.
Print Assumptions C28_flow_refuted.

(** ** C53.  traj(t_start, t_end, delta_t) gives the positions at t_start + k
    delta_t, exactly for those below t_end.  Missing: t_end = 0, see below. *)
Theorem C53_partial : forall (P : Type) (location : R -> P) interval t0 t1 dt,
  (0 < dt)%R -> t1 <> 0%R ->
  exists n, traj location interval t0 (Some t1) (Some dt) = inl (map (fun k => location (t0 + INR k * dt)%R) (seq 0 n))
  /\ forall k, k < n <-> (t0 + INR k * dt < t1)%R.
Proof.
  intros P location interval t0 t1 dt Hd Ht. destruct (arange_spec t0 t1 dt Hd) as (n & E & Hn).
  exists n. split; [|exact Hn]. unfold traj, falsy.
  destruct (Req_EM_T dt 0); [lra|]. destruct (Req_EM_T t1 0); [contradiction|].
  destruct (Req_EM_T dt 0); [lra|]. rewrite E, map_map. reflexivity.
Qed.
Print Assumptions C53_partial.

(** traj(delta_t) covers the interval of the trajectory. *)
Theorem C53_interval : forall (P : Type) (location : R -> P) a b dt, (0 < dt)%R ->
  exists n, traj location (a, b) dt None None = inl (map (fun k => location (a + INR k * dt)%R) (seq 0 n))
  /\ forall k, k < n <-> (a + INR k * dt < b)%R.
Proof.
  intros P location a b dt Hd. destruct (arange_spec a b dt Hd) as (n & E & Hn).
  exists n. split; [|exact Hn]. unfold traj. simpl falsy. cbn iota beta. cbn [fst snd].
  destruct (Req_EM_T dt 0); [lra|].
  replace (if falsy (Some b) then b else b) with b by (destruct (falsy (Some b)); reflexivity).
  rewrite E, map_map. reflexivity.
Qed.
Print Assumptions C53_interval.

Example C53_example : exists n, traj (fun t => t) (0, 2)%R 0 (Some 2%R) (Some (1/2)%R) = inl (map (fun k => 0 + INR k * (1/2))%R (seq 0 n)) /\ n = 4.
Proof.
  destruct (C53_partial R (fun t => t) (0, 2)%R 0 2 (1/2)) as (n & E & H); [lra|lra|].
  exists n. split; [exact E|].
  assert (3 < n) by (apply H; simpl; lra). assert (~ 4 < n) by (rewrite H; simpl; lra). lia.
Qed.

(** traj(-1, 0, 1/2) on the interval (-1, 1) runs on to the end of the
    interval. *)
Theorem C53_zero_refuted : exists interval t0 dt, (0 < dt)%R /\ exists l t,
  traj (fun t => t) interval t0 (Some 0%R) (Some dt) = inl l /\ In t l /\ (0 <= t)%R.
Proof.
  exists (-1, 1)%R, (-1)%R, (1/2)%R. split; [lra|].
  destruct (arange_spec (-1) 1 (1/2)) as (n & E & Hn); [lra|].
  exists (map (fun t => t) (arange (-1) 1 (1/2))), (-1 + INR 2 * (1/2))%R. split; [|split].
  - unfold traj, falsy. destruct (Req_EM_T (1/2) 0); [lra|]. destruct (Req_EM_T 0 0); [|lra]. cbn [snd].
    destruct (Req_EM_T (1/2) 0); [lra|]. reflexivity.
  - rewrite map_id, E. apply in_map_iff. exists 2. split; [reflexivity|]. apply in_seq.
    assert (2 < n) by (apply Hn; simpl; lra). lia.
  - simpl. lra.
Qed.
Print Assumptions C53_zero_refuted.

(** ** C56.  Any history of accesses through deprecated names gives the same
    results and the same object as the history with the new names on the
    undecorated class; writing to a read-only alias changes nothing; a missing
    replacement is refused when the class is made. *)
Theorem C56 : forall table (c c' : cls) fuel,
  (forall n k, c n = Some k -> k = Plain) -> NoDup (olds table) ->
  (forall n, In n (news table) -> ~ In n (olds table)) ->
  decorate table c = Some c' ->
  (forall l o, Forall (fun a => match a with Put n _ => is_ro table n = false | Get _ => True end) l ->
     accesses (S fuel) c' l o = accesses (S fuel) c (map (rename_access table) l) o)
  /\ (forall o n v, is_ro table n = true -> setattr (S fuel) c' o n v = (o, ReadOnly)).
Proof.
  intros table c c' fuel Hc Hd Hdis Hdec. split.
  - intros l o Hl. rewrite (accesses_alias table c c' Hc Hd Hdis Hdec fuel l o Hl).
    apply (accesses_new table c c' Hc Hd Hdec).
    apply Forall_forall. intros a Ha. apply in_map_iff in Ha. destruct Ha as (a0 & <- & Ha0).
    assert (forall n, rename table n = n -> List.find (fun x => fst (fst x) =? n) table = None -> ~ In n (olds table)) as K.
    { intros n _ Hf Hi. apply in_map_iff in Hi. destruct Hi as (x & Hx & Hi).
      pose proof (find_none _ _ Hf x Hi) as Z. simpl in Z. rewrite Hx, Nat.eqb_refl in Z. discriminate. }
    assert (forall n, ~ In (rename table n) (olds table)) as K2.
    { intros n. pose proof (rename_find table n) as H. destruct (List.find _ table) as [[[a' b] r]|] eqn:E in H.
      - destruct H as (-> & _ & H). auto.
      - destruct H as [H _]. rewrite H. apply K; auto. }
    destruct a0; simpl; apply K2.
  - intros o n v H. apply (setattr_ro table c c' Hd Hdec). exact H.
Qed.
Print Assumptions C56.

Theorem C56_missing : forall table (c : cls),
  (forall old new ro, In (old, new, ro) table -> c new = None -> ~ In new (olds table) -> decorate table c = None).
Proof.
  induction table as [|[[o n] r] t IH]; intros c old new ro Hi Hn Ho; [destruct Hi|].
  simpl. destruct Hi as [[= -> -> ->]|Hi].
  - rewrite Hn. reflexivity.
  - destruct (c n) as [k|] eqn:E; [|reflexivity]. apply (IH _ old new ro Hi).
    + destruct (new =? o) eqn:En; [|exact Hn]. apply Nat.eqb_eq in En. subst. exfalso. apply Ho. left. reflexivity.
    + intros K. apply Ho. now right.
Qed.
Print Assumptions C56_missing.

Example C56_example :
  let table := [(10, 0, true); (11, 1, false)] in
  let c : cls := fun n => if n <? 2 then Some Plain else None in
  (forall n k, c n = Some k -> k = Plain) /\ NoDup (olds table) /\ (forall n, In n (news table) -> ~ In n (olds table))
  /\ exists c', decorate table c = Some c'
  /\ snd (accesses 1 c' [Put 11 5; Traits.Get 1; Traits.Get 11; Traits.Get 10; Put 10 3; Traits.Get 0]%R (fun _ => 7%R))
     = [Stored; Value 5; Value 5; Value 7; ReadOnly; Value 7]%R.
Proof.
  cbv zeta. split; [intros n k; destruct (n <? 2); congruence|].
  split; [repeat constructor; simpl; intuition discriminate|].
  split; [simpl; intuition (subst; discriminate)|].
  eexists. split; [reflexivity|]. reflexivity.
Qed.

(** ** C57.  The digest is that of the matrix before the last assignment; it
    reflects the current matrix if that was assigned twice. *)
Theorem C57_lag : forall (D : Type) (dg : R -> D) (E : Type) (eig : mat -> E) l,
  snd (read_digest dg (irun dg eig l fresh))
  = dg (match assigned l [] with _ :: m :: _ => checksum m | _ => 0%R end).
Proof. intros. apply digest_lag. Qed.
Print Assumptions C57_lag.

Theorem C57_partial : forall (D : Type) (dg : R -> D) (E : Type) (eig : mat -> E) l m m',
  let twice := fun m => snd (read_digest dg (irun dg eig (l ++ [SetCsm m; SetCsm m]) fresh)) in
  (dg (checksum m) = dg (checksum m') -> checksum m = checksum m') ->
  checksum m <> checksum m' -> twice m <> twice m'.
Proof.
  intros D dg E eig l m m' twice Hi Hn. unfold twice. rewrite !digest_lag, !assigned_app. simpl. auto.
Qed.
Print Assumptions C57_partial.

(** Different matrices assigned to new objects give the same digest. *)
Theorem C57_refuted : exists m m', checksum m <> checksum m' /\
  forall (D : Type) (dg : R -> D) (E : Type) (eig : mat -> E),
  snd (read_digest dg (irun dg eig [SetCsm m] fresh)) = snd (read_digest dg (irun dg eig [SetCsm m'] fresh)).
Proof.
  exists [(1, 0)]%R, [(2, 0)]%R. split.
  - unfold checksum. simpl. lra.
  - intros. rewrite !digest_lag. reflexivity.
Qed.
Print Assumptions C57_refuted.

(** Eigenvalues read after a matrix was assigned twice stay when another matrix
    is assigned. *)
Theorem C57_eva_refuted : forall (D : Type) (dg : R -> D) (E : Type) (eig : mat -> E) m m',
  snd (read_eva eig (irun dg eig [SetCsm m; SetCsm m; ReadEva; SetCsm m'] fresh)) = eig m.
Proof.
  intros. cbn [irun fold_left istep]. unfold set_csm at 3. cbn [csm csmsum fresh].
  unfold set_csm at 2. rewrite checksum_nil. destruct (Req_EM_T 0 0) as [_|K]; [|lra]. cbn [csm csmsum dcache ecache].
  destruct (Req_EM_T (checksum m) 0) as [E0|E0].
  - unfold read_eva at 2. cbn [ecache csm csmsum dcache fst fresh].
    unfold set_csm. cbn [csm csmsum dcache ecache]. destruct (Req_EM_T (checksum m) 0) as [_|K]; [reflexivity|contradiction].
  - unfold read_eva at 2. cbn [ecache csm csmsum dcache fst fresh].
    unfold set_csm. cbn [csm csmsum dcache ecache]. destruct (Req_EM_T (checksum m) (checksum m)) as [_|K]; [reflexivity|congruence].
Qed.
Print Assumptions C57_eva_refuted.

(** They are recalculated if the checksums of the two matrices before differ. *)
Theorem C57_eva_partial : forall (D : Type) (dg : R -> D) (E : Type) (eig : mat -> E) l m,
  checksum (match assigned l [] with a :: _ => a | [] => [] end)
    <> match assigned l [] with _ :: b :: _ => checksum b | _ => 0%R end ->
  snd (read_eva eig (irun dg eig (l ++ [SetCsm m]) fresh)) = eig m.
Proof. intros. apply eva_fresh. assumption. Qed.
Print Assumptions C57_eva_partial.

Example C57_example : let l := [SetCsm [(1, 0)]; ReadEva; ReadDigest]%R in
  checksum (match assigned l [] with a :: _ => a | [] => [] end)
    <> match assigned l [] with _ :: b :: _ => checksum b | _ => 0%R end.
Proof. unfold checksum. simpl. lra. Qed.

(** ** C58.  For every length, seed and depth >= -1 the signal has num_samples
    samples, and sample t is the scaled sum of white noise and of the octaves
    that have begun, each held for 2^(j+1) samples.  The bound on m holds for
    floor(log2 nums), also if rounding makes it larger by one. *)
Theorem C58 : forall (z : nat -> R) rms nums (depth : Z) m, 1 <= nums -> 2 ^ m <= 2 * nums ->
  exists s, pnoise z rms nums depth m = inl s /\ List.length s = nums
  /\ forall t, t < nums -> nth t s 0%R =
      let d := Z.min depth (Z.of_nat m) in
      (rms / sqrt (IZR d + 3/2) *
       (z t + fold_right Rplus 0 (map (fun j =>
          if (2 ^ j - 1 <=? t)%nat
          then z (drawn nums j + (t - (2 ^ j - 1)) / 2 ^ (j + 1))%nat
          else 0) (seq 0 (Z.to_nat d)))))%R.
Proof.
  intros z rms nums depth m Hn Hm. unfold pnoise.
  replace (if (Z.of_nat m <? depth)%Z then Z.of_nat m else depth) with (Z.min depth (Z.of_nat m))
    by (destruct (Z.ltb_spec (Z.of_nat m) depth); lia).
  set (d := Z.min depth (Z.of_nat m)).
  destruct (octaves_ok z nums (Z.to_nat d) 0 (normal z 0 nums)) as (s & E & L & V).
  - apply normal_length.
  - intros i Hi. assert (S i <= m) as Him by lia.
    pose proof (Nat.pow_le_mono_r 2 (S i) m ltac:(lia) Him) as Hp. simpl in Hp. lia.
  - cbn [drawn] in E. rewrite E. eexists. split; [reflexivity|]. split; [now rewrite map_length|].
    intros t Ht. cbv zeta.
    rewrite (nth_indep _ 0%R ((fun x => rms / sqrt (IZR d + 3 / 2) * x)%R 0%R)) by (rewrite map_length; lia).
    rewrite (map_nth (fun x => rms / sqrt (IZR d + 3 / 2) * x)%R), V by exact Ht.
    rewrite normal_nth by exact Ht. do 2 f_equal.
    assert (forall k j, octave_sum z nums t j k
      = fold_right Rplus 0%R (map (fun j => if (2 ^ j - 1 <=? t)%nat
          then z (drawn nums j + (t - (2 ^ j - 1)) / 2 ^ (j + 1))%nat else 0%R) (seq j k))) as K.
    { induction k as [|k IH]; intros j; [reflexivity|].
      cbn [octave_sum seq map fold_right]. rewrite IH. reflexivity. }
    apply K.
Qed.
Print Assumptions C58.

Theorem C58_depth : forall nums, 1 <= nums -> 2 ^ Nat.log2 nums <= 2 * nums /\ 2 ^ S (Nat.log2 nums) <= 2 * nums.
Proof.
  intros nums H. destruct (Nat.log2_spec nums) as [H1 _]; [lia|]. simpl. lia.
Qed.
Print Assumptions C58_depth.

Example C58_example : exists s, pnoise (fun k => INR k) 1 5 16 2 = inl s /\ List.length s = 5.
Proof. destruct (C58 (fun k => INR k) 1 5 16 2) as (s & E & L & _); [lia|simpl; lia|]. eauto. Qed.
