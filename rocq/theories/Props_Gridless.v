(** Property C86 (BeamformerGridlessOrth).  Specification vocabulary: [placed]
    (levels and positions in the columns of a frequency), [descending]
    (Gridless.v); [transfer] (Beamform.v). *)
From Coq Require Import List Arith Lia ZArith Bool Reals Lra.
From Verif Require Import Stream Cplx Environ Beamform Gridless.
Import ListNotations.
Local Open Scope R_scope.

(** C86.  If there are not more components than [n], then after any sequence
    of reads, in any order and with repetitions, none of which raises, the
    frequencies read have the levels and positions of their components, largest
    eigenvalue first, in columns of their own; the row adds up to the selected
    eigenvalues over the number of channels. *)
Theorem C86_map_partial opt eva nch nfreq n M eva_list kss :
  (0 < M)%nat -> (length (components M eva_list) <= n)%nat ->
  (forall ks, In ks kss -> NoDup ks /\ forall i, In i ks -> (i < nfreq)%nat) ->
  exists st, greads opt eva nch nfreq n (components M eva_list) kss gfresh = (st, repeat None (length kss))
    /\ forall i ks, In ks kss -> In i ks ->
       (forall j, (j < length (components M eva_list))%nat ->
          g_pos st (i * n + j)%nat = opt i (nth j (components M eva_list) 0%nat)
          /\ g_ac st i (i * n + j)%nat = eva i (nth j (components M eva_list) 0%nat) / INR nch)
       /\ (forall p, (p < i * n \/ i * n + length (components M eva_list) <= p)%nat -> g_ac st i p = 0)
       /\ rsumn (n * nfreq) (g_ac st i)
          = rsumn (length (components M eva_list)) (fun j => eva i (nth j (components M eva_list) 0%nat) / INR nch).
Proof.
  intros HM Hc Hk.
  destruct (greads_ok opt eva nch nfreq n (components M eva_list) kss Hc Hk) as (st & E & P).
  exists st. split; [exact E|]. intros i ks Hks Hi. specialize (P i ks Hks Hi).
  split; [|split].
  - intros j Hj. destruct P as [P1 P2]. split; [now apply P1|]. rewrite P2.
    destruct (Nat.leb_spec (i * n) (i * n + j)); [|lia].
    destruct (Nat.ltb_spec (i * n + j) (i * n + length (components M eva_list))); [|lia]. cbn [andb].
    do 3 f_equal. lia.
  - intros p Hp. destruct P as [_ P2]. rewrite P2. destruct (Nat.leb_spec (i * n) p); [|reflexivity].
    destruct (Nat.ltb_spec p (i * n + length (components M eva_list))); [lia|reflexivity].
  - apply (placed_total opt eva nch nfreq n); [now apply (Hk ks Hks)|assumption|exact P].
Qed.
Print Assumptions C86_map_partial.

(** The components are the residues of the entries of eva_list modulo the
    number of microphones, each once, in descending order; with [n] set they are
    the [n] largest. *)
Theorem C86_components M l : (0 < M)%nat ->
  (forall k, In k (components M l) <-> exists e, In e l /\ (e mod Z.of_nat M)%Z = Z.of_nat k)
  /\ descending (components M l)
  /\ forall n, (0 < n <= M)%nat -> components M (set_eva_list n) = map (fun j => (M - 1 - j)%nat) (seq 0 n).
Proof.
  intros HM. split; [intros k; now apply components_in|]. split; [apply components_descending|].
  intros n Hn. now apply components_n.
Qed.
Print Assumptions C86_components.

(** With 'true location' or 'classic' steering vectors and the full matrix, a
    source position is a global minimum of the function handed to the optimiser
    if the eigenvector is a multiple of its transfer vector. *)
Theorem C86_position M k st z r0s rs :
  (0 < M)%nat -> 0 < r0s -> (forall m, (m < M)%nat -> 0 < rs m) -> st = TrueLocation \/ st = Classic ->
  let v := fun m => Cmul z (transfer r0s k rs m) in
  forall r0 r, 0 < r0 -> (forall m, (m < M)%nat -> 0 < r m) ->
    objective M k st false v r0s rs <= objective M k st false v r0 r.
Proof. exact (objective_min M k st z r0s rs). Qed.
Print Assumptions C86_position.

(** With eva_list longer than [n] the columns of neighbouring frequencies
    overlap: the position that belongs to frequency 1 depends on the order of
    the requests. *)
Theorem C86_order_refuted :
  exists opt eva M eva_list n nfreq st st',
    (length eva_list <= M)%nat
    /\ greads opt eva M nfreq n (components M eva_list) [[0]; [1]]%nat gfresh = (st, [None; None])
    /\ greads opt eva M nfreq n (components M eva_list) [[1]; [0]]%nat gfresh = (st', [None; None])
    /\ g_pos st 1 = opt 1%nat (nth 0 (components M eva_list) 0%nat)
    /\ g_pos st' 1 <> opt 1%nat (nth 0 (components M eva_list) 0%nat).
Proof.
  exists (fun i c => V3 (INR i) (INR c) 1), (fun _ _ => 1), 3%nat, [-1; -2]%Z, 1%nat, 3%nat.
  change (components 3 [-1; -2]%Z) with [2; 1]%nat. eexists. eexists. split; [cbn; lia|].
  split; [reflexivity|]. split; [reflexivity|]. split; [reflexivity|].
  cbn. intros E. apply (f_equal v3x) in E. cbn in E. lra.
Qed.
Print Assumptions C86_order_refuted.

(** And the last frequency cannot be read at all. *)
Theorem C86_last_refuted opt eva nch nfreq n M eva_list : (0 < nfreq)%nat -> (0 < M)%nat ->
  (n < length (components M eva_list))%nat ->
  snd (gread opt eva nch nfreq n (components M eva_list) [(nfreq - 1)%nat] gfresh) = Some IndexError.
Proof.
  intros Hf HM Hn. unfold gread. cbn [filter gfresh g_fr negb gcalc].
  assert (G : forall comps j st, (j <= n)%nat -> (n < j + length comps)%nat ->
    exists st', store opt eva nch nfreq n (nfreq - 1) j comps st = (st', Some IndexError)).
  { induction comps as [|c comps IH]; intros j st Hj Hl; cbn [length] in Hl; [lia|]. cbn [store].
    destruct (Nat.ltb_spec ((nfreq - 1) * n + j) (size nfreq n)) as [Hs|Hs].
    - apply IH; [|lia]. unfold size in Hs. nia.
    - eexists. reflexivity. }
  destruct (G (components M eva_list) 0%nat gfresh ltac:(lia) ltac:(lia)) as (st' & ->). reflexivity.
Qed.
Print Assumptions C86_last_refuted.

Example C86_case :
  (length (components 4 (set_eva_list 2)) <= 2)%nat
  /\ fst (greads (fun i c => V3 (INR i) (INR c) 1) (fun _ _ => 1) 4 3 2 (components 4 (set_eva_list 2)) [[2; 0]; [0; 1]]%nat gfresh)
     = fst (greads (fun i c => V3 (INR i) (INR c) 1) (fun _ _ => 1) 4 3 2 [3; 2]%nat [[2; 0]; [0; 1]]%nat gfresh)
  /\ snd (greads (fun i c => V3 (INR i) (INR c) 1) (fun _ _ => 1) 4 3 2 (components 4 (set_eva_list 2)) [[2; 0]; [0; 1]]%nat gfresh)
     = [None; None].
Proof. split; [cbn; lia|]. split; reflexivity. Qed.
