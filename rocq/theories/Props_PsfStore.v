(** Property C128: the cache file of point spread functions. *)
From Coq Require Import List Arith Lia ZArith Bool Reals Lra.
From Verif Require Import Stream Cplx Beamform Psf PsfStore.
Import ListNotations.
Local Open Scope R_scope.

(** The map of a source at grid point [i], frequency [f]. *)
Definition psf_column (n : nat) (st : steer) (c : R) (r0 : nat -> R) (r : nat -> nat -> R) (f : R) (i t : nat) : R :=
  psf_core n st (r0 t) (r t) (r0 i) (r i) (2 * PI * f / c).
(** The number printed with two decimals is the nearest one, ties either way. *)
Definition two_decimals (name : R -> Z) : Prop := forall f, Rabs (100 * f - IZR (name f)) <= 1 / 2.

(** After any history of reads in any modes, at frequencies that are equal or
    more than 0.01 Hz apart, all complete or else in mode 'single', a read in
    mode 'full' delivers the point spread functions of its frequency. *)
Theorem C128_full_partial n st c r0 r gs name l f gi : two_decimals name ->
  (forall a, In a l -> a_stop a = None \/ a_mode a = Single) ->
  (forall x y, In x (f :: map a_freq l) -> In y (f :: map a_freq l) -> x = y \/ 1 / 100 < Rabs (x - y)) ->
  (forall i, In i gi -> (i < gs)%nat) ->
  let column := psf_column n st c r0 r in
  fst (get column gs name (mkAccess f Full gi None) (history column gs name l nothing))
  = Some (map (column f) (match gi with [] => seq 0 gs | _ => gi end)).
Proof.
  intros HN HS HF HI column. set (used := fun x => In x (f :: map a_freq l)).
  assert (forall x y, used x -> used y -> name x = name y -> x = y) as HU.
  { intros x y Ux Uy E. destruct (HF x y Ux Uy) as [K|K]; [exact K|]. exfalso. pose proof (HN x) as Nx. pose proof (HN y) as Ny. rewrite E in Nx.
    unfold Rabs in *. destruct (Rcase_abs _) in Nx; destruct (Rcase_abs _) in Ny; destruct (Rcase_abs _) in K; lra. }
  apply (full_read column gs name used HU).
  - apply (history_good column gs name used HU).
    + intros x s _ E. discriminate.
    + intros a Ha. split; [right; now apply in_map|exact (HS a Ha)].
  - now left.
  - exact HI.
Qed.

(** Without the condition on reads that were broken off: false. *)
Definition survives_breaks : Prop :=
  forall n st c r0 r gs name l f gi, two_decimals name -> (0 < n)%nat -> 0 < c -> (forall t, 0 < r0 t) -> (forall t m, 0 < r t m) ->
  (forall x y, In x (f :: map a_freq l) -> In y (f :: map a_freq l) -> x = y \/ 1 / 100 < Rabs (x - y)) ->
  (forall i, In i gi -> (i < gs)%nat) ->
  let column := psf_column n st c r0 r in
  fst (get column gs name (mkAccess f Full gi None) (history column gs name l nothing))
  = Some (map (column f) (match gi with [] => seq 0 gs | _ => gi end)).
Definition up_name (f : R) : Z := up (100 * f - 1 / 2).
Lemma up_decimals : two_decimals up_name.
Proof. intros f. unfold up_name. destruct (archimed (100 * f - 1 / 2)) as [A B]. apply Rabs_le. lra. Qed.
Theorem C128_interrupted_refuted : ~ survives_breaks.
Proof.
  intros H. specialize (H 1%nat TrueLevel 343 (fun _ => 1) (fun _ _ => 1) 1%nat up_name [mkAccess 1000 Full [] (Some 1%nat)] 1000 [] up_decimals
    ltac:(lia) ltac:(lra) ltac:(intros; lra) ltac:(intros; lra)).
  assert (forall x y, In x (1000 :: map a_freq [mkAccess 1000 Full [] (Some 1%nat)]) -> In y (1000 :: map a_freq [mkAccess 1000 Full [] (Some 1%nat)]) -> x = y \/ 1 / 100 < Rabs (x - y)) as K.
  { intros x y [<-|[<-|[]]] [<-|[<-|[]]]; now left. }
  specialize (H K ltac:(intros i [])). cbv zeta in H. unfold history in H. cbn [fold_left] in H. rewrite full_broken in H by lia.
  injection H as H. apply (f_equal (fun g => g 0%nat)) in H. unfold psf_column, psf_core in H. cbn [rsumn csum] in H.
  replace (2 * PI * 1000 / 343 * (1 - 1)) with 0 in H by ring. rewrite cos_0, sin_0 in H.
  unfold re, Cdiv, Cinv, norm2 in H. cbn [fst snd Cmul Cadd Conj RtoC C0] in H. field_simplify in H.
  lra.
Qed.

(** Without the condition on the frequencies: false. *)
Definition separates_frequencies : Prop :=
  forall n st c r0 r gs name f f', two_decimals name -> (0 < n)%nat -> 0 < c -> (forall t, 0 < r0 t) -> (forall t m, 0 < r t m) ->
  let column := psf_column n st c r0 r in
  fst (get column gs name (mkAccess f' Full [] None) (history column gs name [mkAccess f Full [] None] nothing)) = Some (map (column f') (seq 0 gs)).
Lemma cos_3PI : cos (3 * PI) = -1.
Proof. replace (3 * PI) with (PI + 2 * PI) by ring. rewrite cos_plus, cos_PI, sin_PI, cos_2PI, sin_2PI. ring. Qed.
Lemma sin_3PI : sin (3 * PI) = 0.
Proof. replace (3 * PI) with (PI + 2 * PI) by ring. rewrite sin_plus, cos_PI, sin_PI, cos_2PI, sin_2PI. ring. Qed.
Theorem C128_frequency_refuted : ~ separates_frequencies.
Proof.
  intros H. set (r := fun t m : nat => if ((t =? 1) && (m =? 1))%nat then 42875 else 42875 / 2).
  specialize (H 2%nat TrueLevel 343 (fun _ => 1) r 2%nat up_name (2 / 125) (3 / 125) up_decimals ltac:(lia) ltac:(lra) ltac:(intros; lra)).
  assert (forall t m, 0 < r t m) as HR by (intros t m; unfold r; destruct (_ && _); lra).
  specialize (H HR). cbv zeta in H. unfold history in H. cbn [fold_left] in H.
  rewrite (same_name _ 2 up_name (2 / 125) (3 / 125) Full) in H; [|lia|].
  2:{ unfold up_name. rewrite <- (tech_up (100 * (2 / 125) - 1 / 2) 2), <- (tech_up (100 * (3 / 125) - 1 / 2) 2) by lra. reflexivity. }
  injection H as _ H. apply (f_equal (fun g => g 0%nat)) in H. unfold psf_column, psf_core in H. cbn [rsumn csum] in H. unfold r in H. cbn [Nat.eqb andb] in H.
  replace (2 * PI * (2 / 125) / 343 * (42875 / 2 - 42875 / 2)) with 0 in H by field.
  replace (2 * PI * (3 / 125) / 343 * (42875 / 2 - 42875 / 2)) with 0 in H by field.
  replace (2 * PI * (2 / 125) / 343 * (42875 / 2 - 42875)) with (- (2 * PI)) in H by field.
  replace (2 * PI * (3 / 125) / 343 * (42875 / 2 - 42875)) with (- (3 * PI)) in H by field.
  rewrite !cos_neg, !sin_neg, cos_0, sin_0, cos_2PI, sin_2PI, cos_3PI, sin_3PI in H.
  unfold re, Cdiv, Cinv, norm2 in H. cbn [fst snd Cmul Cadd Conj RtoC C0] in H. field_simplify in H. lra.
Qed.

(** ** Instance: three frequencies, a broken read in mode 'single'. *)
Example C128_case : forall n st c r0 r name, two_decimals name ->
  let column := psf_column n st c r0 r in
  let h := [mkAccess 1000 Single [3%nat] (Some 1%nat); mkAccess 1000 Block [5%nat; 2%nat] None; mkAccess 2000 Full [] None] in
  fst (get column 10 name (mkAccess 1000 Full [2%nat; 3%nat] None) (history column 10 name h nothing)) = Some [column 1000 2%nat; column 1000 3%nat].
Proof.
  intros n st c r0 r name HN column h. apply C128_full_partial; [exact HN| | |].
  - intros a [<-|[<-|[<-|[]]]]; [now right|now left|now left].
  - intros x y Hx Hy. cbn in Hx, Hy. assert (x = 1000 \/ x = 2000) as X by intuition. assert (y = 1000 \/ y = 2000) as Y by intuition.
    destruct X as [-> | ->]; destruct Y as [-> | ->]; [now left|right|right|now left]; unfold Rabs; destruct (Rcase_abs _); lra.
  - intros i [<-|[<-|[]]]; lia.
Qed.

Print Assumptions C128_full_partial.
Print Assumptions C128_interrupted_refuted.
Print Assumptions C128_frequency_refuted.
