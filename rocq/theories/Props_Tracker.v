(** Property C70: rotation angle and speed (AngleTracker, tprocess.py:508-660). *)
From Coq Require Import List Arith Lia ZArith Bool Reals Lra Sorting.Sorted.
From Verif Require Import Stream Environ Tracker.
Import ListNotations.
Local Open Scope nat_scope.

(** One trigger per revolution, constant speed (a trigger every [T] samples,
    the first at [o]): every sample gets the true speed and the true angle,
    whatever interpolating spline is used. *)
Theorem C70_constant_partial spl dspl o T P IP fs dir start num :
  reproduces_lines spl dspl -> 0 < T -> o < T -> 4 <= IP -> 2 * IP <= P -> num <= (P + 1) * T ->
  tracker spl dspl (uniform o T P) IP fs (IZR dir) start 1 num
  = inl (map (fun i => ((60 * fs / INR T)%R,
                        rmod ((INR i - INR o) / INR T * (2 * PI) * IZR dir + start) (2 * PI))) (seq 0 num)).
Proof.
  intros HS HT Ho HIP HP Hnum. apply track_all. intros i Hi. apply in_seq in Hi.
  rewrite (uniform_rpm_angle spl dspl o T P IP fs _ start 1 i) by (auto; lia). f_equal. f_equal.
  set (k := if i <? o + IP * T then i / T else i / T - IP).
  rewrite <- (rmod_shift ((INR i - INR o) / INR T * (2 * PI) * IZR dir + start) (2 * PI) (- Z.of_nat k * dir)).
  - f_equal. rewrite mult_IZR, opp_IZR, <- INR_IZR_INZ. field. apply not_0_INR. lia.
  - pose proof PI_RGT_0. lra.
Qed.

(** the average speed is right for any number of triggers per revolution *)
Theorem C70_average o T P fs tpr : 0 < T -> 2 <= P -> tpr <> 0%R ->
  average_rpm (uniform o T P) fs tpr = (60 * fs / (INR T * tpr))%R.
Proof. apply uniform_average. Qed.

(** for several triggers per revolution the speed per sample is not: it is the
    number of triggers per minute *)
Theorem C70_rpm_refuted spl dspl : reproduces_lines spl dspl ->
  exists T P IP fs ra, rpm_angle spl dspl (uniform 0 T P) IP fs 1 0 2 15 = inl ra
    /\ (fst ra = 2 * average_rpm (uniform 0 T P) fs 2)%R /\ fst ra <> average_rpm (uniform 0 T P) fs 2.
Proof.
  intros HS. exists 10, 8, 4, 10%R. eexists. split.
  { apply (uniform_rpm_angle spl dspl 0 10 8 4 10 1 0 2 15); auto; lia. }
  rewrite uniform_average by (lia || lra). cbn [fst].
  replace (INR 10) with 10%R by (rewrite INR_IZR_INZ; reflexivity). split; lra.
Qed.

(** nor is the angle: one and a half triggers after the start the shaft has
    turned by three quarters of a revolution at two triggers per revolution,
    the reported angle is one quarter *)
Theorem C70_angle_refuted spl dspl : reproduces_lines spl dspl ->
  exists T P IP fs ra, rpm_angle spl dspl (uniform 0 T P) IP fs 1 0 2 15 = inl ra
    /\ ((INR 15 - INR 0) / INR T / 2 * (2 * PI) = 3 / 4 * (2 * PI))%R
    /\ snd ra = (1 / 4 * (2 * PI))%R.
Proof.
  intros HS. exists 10, 8, 4, 10%R. eexists. split.
  { apply (uniform_rpm_angle spl dspl 0 10 8 4 10 1 0 2 15); auto; lia. }
  cbn [snd]. change (if 15 <? 0 + 4 * 10 then 15 / 10 else 15 / 10 - 4) with 1.
  replace (INR 10) with 10%R by (rewrite INR_IZR_INZ; reflexivity).
  replace (INR 15) with 15%R by (rewrite INR_IZR_INZ; reflexivity).
  cbn [INR]. split; [lra|].
  replace (((15 - 0) / 10 - 1) * 2 * PI * 1 / 2 + 0)%R with (1 / 4 * (2 * PI))%R by lra.
  unfold rmod. pose proof PI_RGT_0 as HP.
  replace (1 / 4 * (2 * PI) / (2 * PI))%R with (1 / 4)%R by (field; lra).
  assert (Int_part (1 / 4) = 0%Z) as ->.
  { destruct (base_Int_part (1 / 4)) as [A B].
    assert (IZR (Int_part (1 / 4)) < 1)%R as U by lra. assert (-1 < IZR (Int_part (1 / 4)))%R as V by lra.
    apply lt_IZR in U. apply lt_IZR in V. lia. }
  lra.
Qed.

(** a shaft that doubles its speed: the triggers are all there, but the slice of
    trigger positions is looked up at (sample / local distance), which lies
    beyond the recorded triggers: ValueError *)
Theorem C70_speedup_refuted : exists peaks ind,
  peaks = [0; 10; 20; 30; 40; 50; 60; 70; 75; 80; 85; 90; 95; 100; 105] /\ ind <= last peaks 0
  /\ forall spl dspl fs dir start tpr, rpm_angle spl dspl peaks 4 fs dir start tpr ind = inr ValueError.
Proof.
  eexists. exists 100. split; [reflexivity|]. split; [simpl; lia|]. intros. unfold rpm_angle, spline_points.
  vm_compute (nth_error _ _). cbv iota beta.
  set (n := nearest _ _). vm_compute in n. subst n. vm_compute (py_index _ _). vm_compute (_ <? _).
  cbv iota beta zeta. vm_compute (nth_error _ _). cbv iota beta. vm_compute (_ - _). 
  vm_compute (negb _). reflexivity.
Qed.

(** fewer recorded triggers than spline points: IndexError *)
Theorem C70_few peaks IP spl dspl fs dir start tpr num : length peaks <= IP -> 0 < num ->
  tracker spl dspl peaks IP fs dir start tpr num = inr IndexError.
Proof.
  intros H Hn. unfold tracker. destruct num; [lia|]. cbn [seq track]. unfold rpm_angle, spline_points.
  apply nth_error_None in H. now rewrite H.
Qed.

Print Assumptions C70_constant_partial.
Print Assumptions C70_average.
Print Assumptions C70_rpm_refuted.
Print Assumptions C70_angle_refuted.
Print Assumptions C70_speedup_refuted.
Print Assumptions C70_few.

(** concrete cases: a spline that reproduces lines exists (the line through the
    first two points), and triggers that meet the hypotheses *)
Definition line_slope (pts : list (R * R)) (x : R) : R :=
  match pts with p :: q :: _ => ((snd q - snd p) / (fst q - fst p))%R | _ => 0%R end.
Definition line_value (pts : list (R * R)) (x : R) : R :=
  match pts with p :: _ => (snd p + line_slope pts x * (x - fst p))%R | _ => 0%R end.
Example C70_spline_case : reproduces_lines line_value line_slope.
Proof.
  intros pts a b HL HS H x. destruct pts as [|p [|q r]]; simpl in HL; try lia.
  pose proof (H p (or_introl eq_refl)) as Hp. pose proof (H q (or_intror (or_introl eq_refl))) as Hq.
  inversion HS as [|? ? _ HF]; subst. inversion HF as [|? ? Hlt _]; subst.
  unfold line_value, line_slope. rewrite Hp, Hq. split; field; lra.
Qed.

Example C70_case : 0 < 100 /\ 7 < 100 /\ 4 <= 4 /\ 2 * 4 <= 9 /\ 1000 <= (9 + 1) * 100
  /\ hd 0 (uniform 7 100 9) = 7.
Proof. repeat split; simpl; lia. Qed.
