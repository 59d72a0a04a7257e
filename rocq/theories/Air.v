(** Speed of sound in air: tools/helpers.py, tools/utils.py. *)
From Coq Require Import List Arith Lia ZArith Bool Reals Lra.
From Verif Require Import Stream.
Import ListNotations.
Local Open Scope R_scope.

(** tools/utils.py:109-115; [t] in Kelvin, [h] a fraction *)
Definition enhancement (t p : R) : R := 1.00062 + 3.14 * / 10 ^ 8 * p + 5.6 * / 10 ^ 7 * t ^ 2.
Definition saturation (t : R) : R :=
  let A := 1.2378847 * / 10 ^ 5 in
  let B := - (1.9121316) * / 10 ^ 2 in
  let C := 33.93711047 in
  let D := - (6.3431645) * 10 ^ 3 in
  exp (A * t ^ 2 + B * t + C + D / t).
(** tools/utils.py:116 *)
Definition mole_fraction_of_water_vapor (h t p : R) : R := h * enhancement t p * saturation t / p.

(** tools/helpers.py:368-403 *)
Definition c_air_value (t p x_w x_c : R) : R :=
  let a0 := 331.5024 in
  let a1 := 0.603055 in
  let a2 := - (0.000528) in
  let a3 := 51.471935 in
  let a4 := 0.1495874 in
  let a5 := - (0.000782) in
  let a6 := - (1.82) * / 10 ^ 7 in
  let a7 := 3.73 * / 10 ^ 8 in
  let a8 := - (2.93) * / 10 ^ 10 in
  let a9 := - (85.20931) in
  let a10 := - (0.228525) in
  let a11 := 5.91 * / 10 ^ 5 in
  let a12 := - (2.835149) in
  let a13 := - (2.15) * / 10 ^ 13 in
  let a14 := 29.179762 in
  let a15 := 0.000486 in
  a0 + a1 * t + a2 * t ^ 2
  + (a3 + a4 * t + a5 * t ^ 2) * x_w
  + (a6 + a7 * t + a8 * t ^ 2) * p
  + (a9 + a10 * t + a11 * t ^ 2) * x_c
  + a12 * x_w ^ 2 + a13 * p ^ 2 + a14 * x_c ^ 2 + a15 * x_w * p * x_c.

(** c_air, tools/helpers.py:349-403 *)
Definition c_air (t h p co2 : R) : R + exn :=
  if Rlt_dec t 0 then inr ValueError else
  if Rlt_dec 30 t then inr ValueError else
  if Rlt_dec p 60000 then inr ValueError else
  if Rlt_dec 110000 p then inr ValueError else
  let x_w := mole_fraction_of_water_vapor (h / 100) (t + 273.15) p in
  if Rlt_dec 0.06 x_w then inr ValueError else
  if Rlt_dec 1 co2 then inr ValueError else
  inl (c_air_value t p x_w (co2 / 100)).

Lemma c_air_accepts t h p co2 :
  let x := mole_fraction_of_water_vapor (h / 100) (t + 273.15) p in
  c_air t h p co2 = (if Rle_dec 0 t then if Rle_dec t 30 then if Rle_dec 60000 p then if Rle_dec p 110000 then
    if Rle_dec x 0.06 then if Rle_dec co2 1 then inl (c_air_value t p x (co2 / 100))
    else inr ValueError else inr ValueError else inr ValueError else inr ValueError else inr ValueError else inr ValueError).
Proof.
  cbv zeta. unfold c_air. cbv zeta.
  destruct (Rlt_dec t 0), (Rle_dec 0 t); try lra; try reflexivity.
  destruct (Rlt_dec 30 t), (Rle_dec t 30); try lra; try reflexivity.
  destruct (Rlt_dec p 60000), (Rle_dec 60000 p); try lra; try reflexivity.
  destruct (Rlt_dec 110000 p), (Rle_dec p 110000); try lra; try reflexivity.
  destruct (Rlt_dec 0.06 (mole_fraction_of_water_vapor (h / 100) (t + 273.15) p)), (Rle_dec (mole_fraction_of_water_vapor (h / 100) (t + 273.15) p) 0.06); try lra; try reflexivity.
  destruct (Rlt_dec 1 co2), (Rle_dec co2 1); try lra; reflexivity.
Qed.

Lemma c_air_ok t h p co2 v : c_air t h p co2 = inl v ->
  0 <= t <= 30 /\ 60000 <= p <= 110000 /\ mole_fraction_of_water_vapor (h / 100) (t + 273.15) p <= 0.06 /\ co2 <= 1
  /\ v = c_air_value t p (mole_fraction_of_water_vapor (h / 100) (t + 273.15) p) (co2 / 100).
Proof.
  rewrite c_air_accepts. intros E. repeat match type of E with context [if ?d then _ else _] => destruct d; [|discriminate] end.
  injection E as <-. tauto.
Qed.

Lemma saturation_pos t : 0 < saturation t.
Proof. apply exp_pos. Qed.

Lemma saturation_incr t1 t2 : 273.15 <= t1 -> t1 < t2 -> t2 <= 303.15 -> saturation t1 < saturation t2.
Proof.
  intros H1 H2 H3. unfold saturation. cbv zeta. apply exp_increasing.
  assert (I1 : / t1 * t1 = 1) by (apply Rinv_l; lra). assert (I2 : / t2 * t2 = 1) by (apply Rinv_l; lra).
  assert (P1 : 0 < / t1) by (apply Rinv_0_lt_compat; lra). assert (P2 : 0 < / t2) by (apply Rinv_0_lt_compat; lra).
  assert (L1 : 0.0032 < / t1) by nra. assert (L2 : 0.0032 < / t2) by nra.
  assert (D : / t1 - / t2 = (t2 - t1) * (/ t1 * / t2)) by (field; lra).
  assert (M : 0.00001 < / t1 * / t2) by nra.
  unfold Rdiv. set (u := / t1) in *. set (v := / t2) in *.
  assert (X : 0.05 * (t2 - t1) <= 6343.1645 * (u - v)) by nra.
  assert (Y : 0 <= t2 ^ 2 - t1 ^ 2) by nra. lra.
Qed.

Lemma enhancement_bounds t p : 273.15 <= t <= 303.15 -> 60000 <= p <= 110000 -> 1 < enhancement t p < 2.
Proof. intros Ht Hp. unfold enhancement. assert (0 <= t ^ 2 <= 92000) by nra. lra. Qed.

Lemma enhancement_incr t1 t2 p : 0 <= t1 -> t1 < t2 -> enhancement t1 p < enhancement t2 p.
Proof. intros H1 H2. unfold enhancement. assert (t1 ^ 2 < t2 ^ 2) by nra. lra. Qed.

Lemma fraction_mono h t1 t2 p : 0 < h -> 60000 <= p <= 110000 -> 273.15 <= t1 -> t1 < t2 -> t2 <= 303.15 ->
  mole_fraction_of_water_vapor h t1 p < mole_fraction_of_water_vapor h t2 p.
Proof.
  intros Hh Hp H1 H2 H3. unfold mole_fraction_of_water_vapor, Rdiv. apply Rmult_lt_compat_r; [apply Rinv_0_lt_compat; lra|].
  rewrite !Rmult_assoc. apply Rmult_lt_compat_l; [exact Hh|].
  pose proof (enhancement_incr t1 t2 p ltac:(lra) H2). pose proof (saturation_incr t1 t2 H1 H2 H3).
  pose proof (enhancement_bounds t1 p ltac:(lra) Hp). pose proof (saturation_pos t1). nra.
Qed.

Lemma fraction_humid h1 h2 t p : h1 < h2 -> 273.15 <= t <= 303.15 -> 60000 <= p <= 110000 ->
  mole_fraction_of_water_vapor h1 t p < mole_fraction_of_water_vapor h2 t p.
Proof.
  intros Hh Ht Hp. unfold mole_fraction_of_water_vapor, Rdiv. apply Rmult_lt_compat_r; [apply Rinv_0_lt_compat; lra|].
  pose proof (enhancement_bounds t p Ht Hp). pose proof (saturation_pos t). apply Rmult_lt_compat_r; [assumption|]. apply Rmult_lt_compat_r; lra.
Qed.

Lemma fraction_nonneg h t p : 0 <= h -> 273.15 <= t <= 303.15 -> 60000 <= p <= 110000 -> 0 <= mole_fraction_of_water_vapor h t p.
Proof.
  intros Hh Ht Hp. unfold mole_fraction_of_water_vapor, Rdiv. apply Rmult_le_pos; [|left; apply Rinv_0_lt_compat; lra].
  pose proof (enhancement_bounds t p Ht Hp). pose proof (saturation_pos t). apply Rmult_le_pos; [|lra]. apply Rmult_le_pos; lra.
Qed.

Lemma value_mono t1 t2 p x1 x2 c : 0 <= t1 -> t1 <= t2 -> t2 <= 30 -> 60000 <= p <= 110000 -> 0 <= x1 -> x1 <= x2 -> x2 <= 0.06 -> 0 <= c <= 0.01 ->
  c_air_value t1 p x1 c + 0.5 * (t2 - t1) + 50 * (x2 - x1) <= c_air_value t2 p x2 c.
Proof.
  intros H1 H2 H3 Hp X1 X2 X3 Hc. unfold c_air_value. cbv zeta.
  set (d := t2 - t1). set (s := t2 + t1). set (e := x2 - x1).
  assert (D : 0 <= d) by (unfold d; lra). assert (S0 : 0 <= s <= 60) by (unfold s; lra). assert (E : 0 <= e) by (unfold e; lra).
  assert (Q : t2 ^ 2 - t1 ^ 2 = d * s) by (unfold d, s; ring).
  (* the water vapour *)
  assert (K2 : 50.7 <= 51.471935 + 0.1495874 * t2 + - (0.000782) * t2 ^ 2) by nra.
  assert (W : (51.471935 + 0.1495874 * t2 + - (0.000782) * t2 ^ 2) * x2 - (51.471935 + 0.1495874 * t1 + - (0.000782) * t1 ^ 2) * x1
     = (51.471935 + 0.1495874 * t2 + - (0.000782) * t2 ^ 2) * e + d * (0.1495874 - 0.000782 * s) * x1) by (unfold d, s, e; ring).
  assert (W2 : 50.7 * e <= (51.471935 + 0.1495874 * t2 + - (0.000782) * t2 ^ 2) * e) by nra.
  assert (W3 : 0 <= d * (0.1495874 - 0.000782 * s) * x1) by (apply Rmult_le_pos; [apply Rmult_le_pos|]; nra).
  assert (W4 : x2 ^ 2 - x1 ^ 2 <= 0.12 * e) by (unfold e; nra).
  (* pressure *)
  assert (P1 : (- (1.82) * / 10 ^ 7 + 3.73 * / 10 ^ 8 * t2 + - (2.93) * / 10 ^ 10 * t2 ^ 2) * p - (- (1.82) * / 10 ^ 7 + 3.73 * / 10 ^ 8 * t1 + - (2.93) * / 10 ^ 10 * t1 ^ 2) * p
     = d * (3.73 * / 10 ^ 8 - 2.93 * / 10 ^ 10 * s) * p) by (unfold d, s; ring).
  assert (P2 : 0 <= d * (3.73 * / 10 ^ 8 - 2.93 * / 10 ^ 10 * s) * p) by (apply Rmult_le_pos; [apply Rmult_le_pos; [exact D|lra]|lra]).
  (* carbon dioxide *)
  assert (G1 : (- (85.20931) + - (0.228525) * t2 + 5.91 * / 10 ^ 5 * t2 ^ 2) * c - (- (85.20931) + - (0.228525) * t1 + 5.91 * / 10 ^ 5 * t1 ^ 2) * c
     = - (d * (0.228525 - 5.91 * / 10 ^ 5 * s) * c)) by (unfold d, s; ring).
  assert (G2 : d * (0.228525 - 5.91 * / 10 ^ 5 * s) * c <= 0.0023 * d).
  { assert (0 <= 0.228525 - 5.91 * / 10 ^ 5 * s <= 0.23) by lra. assert (0 <= (0.228525 - 5.91 * / 10 ^ 5 * s) * c <= 0.0023) by nra. nra. }
  assert (V : 0 <= 0.000486 * x2 * p * c - 0.000486 * x1 * p * c).
  { replace (0.000486 * x2 * p * c - 0.000486 * x1 * p * c) with (0.000486 * (e * (p * c))) by (unfold e; ring). assert (0 <= p * c) by nra. nra. }
  assert (T : 0.571 * d <= 0.603055 * d - 0.000528 * (d * s)) by nra.
  assert (T' : 0.603055 * t2 - 0.603055 * t1 = 0.603055 * d) by (unfold d; ring).
  lra.
Qed.

Lemma value_bounds t p x c : 0 <= t <= 30 -> 60000 <= p <= 110000 -> 0 <= x <= 0.06 -> 0 <= c <= 0.01 -> 330 < c_air_value t p x c < 354.
Proof.
  intros Ht Hp Hx Hc. pose proof (value_mono 0 t p 0 x c ltac:(lra) ltac:(lra) ltac:(lra) Hp ltac:(lra) ltac:(lra) ltac:(lra) Hc) as L.
  pose proof (value_mono t 30 p x 0.06 c ltac:(lra) ltac:(lra) ltac:(lra) Hp ltac:(lra) ltac:(lra) ltac:(lra) Hc) as U.
  assert (c * c <= 0.0001) by nra. assert (0 <= c * c) by nra. assert (Q : 0 <= p * p <= 12100000000) by nra. assert (0 <= p * c <= 1100) by nra.
  assert (A : 330 < c_air_value 0 p 0 c) by (unfold c_air_value; cbv zeta; cbn [pow]; rewrite !Rmult_1_r; lra).
  assert (B : c_air_value 30 p 0.06 c < 354).
  { unfold c_air_value; cbv zeta. cbn [pow]. rewrite !Rmult_1_r. replace (0.000486 * 0.06 * p * c) with (0.000486 * 0.06 * (p * c)) by ring. lra. }
  lra.
Qed.
