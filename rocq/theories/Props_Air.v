(** Properties of the speed of sound in air (C97). *)
From Coq Require Import List Arith Lia ZArith Bool Reals Lra.
From Verif Require Import Stream Air.
Import ListNotations.
Local Open Scope R_scope.

(** Specification: saturation vapour pressure of the CIPM equation, mole fraction
    with an enhancement factor f, and Eq. (15) of Cramer, ordered by powers of t. *)
Definition vapour_pressure (T : R) : R := exp (0.000012378847 * (T * T) - 0.019121316 * T + 33.93711047 - 6343.1645 / T).
Definition vapour_fraction (f percent T p : R) : R := percent / 100 * f * (vapour_pressure T / p).
Definition cramer (t p w c : R) : R :=
  (331.5024 + 51.471935 * w - 1.82 / 10000000 * p - 85.20931 * c - 2.835149 * (w * w) - 2.15 / 10000000000000 * (p * p) + 29.179762 * (c * c) + 0.000486 * (w * p * c))
  + t * (0.603055 + 0.1495874 * w + 3.73 / 100000000 * p - 0.228525 * c)
  + t * t * (- 0.000528 - 0.000782 * w - 2.93 / 10000000000 * p + 5.91 / 100000 * c).
(** The enhancement factor with the temperature in degrees Celsius, as in the CIPM
    equation, and with the absolute temperature, as documented. *)
Definition factor (t p : R) : R := 1.00062 + 3.14 / 100000000 * p + 5.6 / 10000000 * (t * t).
Definition kelvin (t : R) : R := t + 273.15.

Lemma fraction_spec t h p : mole_fraction_of_water_vapor (h / 100) (kelvin t) p = vapour_fraction (factor (kelvin t) p) h (kelvin t) p.
Proof.
  unfold mole_fraction_of_water_vapor, vapour_fraction, vapour_pressure, saturation, enhancement, factor. cbv zeta.
  unfold Rdiv. rewrite <- !Rmult_assoc. f_equal. f_equal.
  - f_equal. lra.
  - f_equal. lra.
Qed.

(** The value for valid arguments; ValueError if temperature, pressure, mole fraction
    or the upper limit of CO2 are violated. *)
Theorem C97_value_partial : forall t h p co2,
  let w := vapour_fraction (factor (kelvin t) p) h (kelvin t) p in
  (0 <= t <= 30 /\ 60000 <= p <= 110000 /\ w <= 0.06 /\ co2 <= 1 -> c_air t h p co2 = inl (cramer t p w (co2 / 100)))
  /\ (~ (0 <= t <= 30 /\ 60000 <= p <= 110000 /\ w <= 0.06 /\ co2 <= 1) -> c_air t h p co2 = inr ValueError).
Proof.
  intros t h p co2. cbv zeta. rewrite c_air_accepts. fold (kelvin t). rewrite fraction_spec.
  set (w := vapour_fraction _ _ _ _). split.
  - intros (H1 & H2 & H3 & H4). repeat match goal with |- context [if ?d then _ else _] => destruct d; [|lra] end.
    f_equal. unfold c_air_value, cramer. cbv zeta. lra.
  - intros N. repeat match goal with |- context [if ?d then _ else _] => destruct d; [|reflexivity] end. exfalso. apply N. lra.
Qed.
Print Assumptions C97_value_partial.

(** The speed of sound rises with the temperature at constant relative humidity, by at
    least 0.5 m/s per degree, and with the humidity. *)
Theorem C97_temperature : forall t1 t2 h p co2 v1 v2, 0 <= h -> 0 <= co2 -> t1 < t2 ->
  c_air t1 h p co2 = inl v1 -> c_air t2 h p co2 = inl v2 -> v1 + 0.5 * (t2 - t1) <= v2.
Proof.
  intros t1 t2 h p co2 v1 v2 Hh Hc Ht E1 E2.
  apply c_air_ok in E1 as (A1 & A2 & A3 & A4 & ->). apply c_air_ok in E2 as (B1 & B2 & B3 & B4 & ->).
  pose proof (fraction_nonneg (h / 100) (t1 + 273.15) p ltac:(lra) ltac:(lra) A2) as N.
  assert (M : mole_fraction_of_water_vapor (h / 100) (t1 + 273.15) p <= mole_fraction_of_water_vapor (h / 100) (t2 + 273.15) p).
  { destruct (Req_dec h 0) as [->|Hn]; [unfold mole_fraction_of_water_vapor; right; unfold Rdiv; ring|].
    left. apply fraction_mono; try assumption; lra. }
  pose proof (value_mono t1 t2 p _ _ (co2 / 100) ltac:(lra) ltac:(lra) ltac:(lra) A2 N M B3 ltac:(lra)). lra.
Qed.
Print Assumptions C97_temperature.

Theorem C97_humidity : forall t h1 h2 p co2 v1 v2, 0 <= h1 -> 0 <= co2 -> h1 < h2 ->
  c_air t h1 p co2 = inl v1 -> c_air t h2 p co2 = inl v2 -> v1 < v2.
Proof.
  intros t h1 h2 p co2 v1 v2 Hh Hc Ht E1 E2.
  apply c_air_ok in E1 as (A1 & A2 & A3 & A4 & ->). apply c_air_ok in E2 as (B1 & B2 & B3 & B4 & ->).
  pose proof (fraction_nonneg (h1 / 100) (t + 273.15) p ltac:(lra) ltac:(lra) A2) as N.
  pose proof (fraction_humid (h1 / 100) (h2 / 100) (t + 273.15) p ltac:(lra) ltac:(lra) A2) as M.
  pose proof (value_mono t t p _ _ (co2 / 100) ltac:(lra) ltac:(lra) ltac:(lra) A2 N (Rlt_le _ _ M) B3 ltac:(lra)). lra.
Qed.
Print Assumptions C97_humidity.

Theorem C97_bounds : forall t h p co2 v, 0 <= h -> 0 <= co2 -> c_air t h p co2 = inl v -> 330 < v < 354.
Proof.
  intros t h p co2 v Hh Hc E. apply c_air_ok in E as (A1 & A2 & A3 & A4 & ->). apply value_bounds; try assumption; [|lra].
  split; [apply fraction_nonneg; try assumption; lra|exact A3].
Qed.
Print Assumptions C97_bounds.

(** Humidity and CO2 outside 0 to 100 % are refused: false.  At every valid
    temperature and pressure some negative humidity gives a negative speed. *)
Theorem C97_negative_humidity_refuted : forall t p, 0 <= t <= 30 -> 60000 <= p <= 110000 ->
  exists h v, h < 0 /\ c_air t h p 0 = inl v /\ v < 0.
Proof.
  intros t p Ht Hp. pose proof (enhancement_bounds (t + 273.15) p ltac:(lra) Hp) as E. pose proof (saturation_pos (t + 273.15)) as S.
  set (k := enhancement (t + 273.15) p * saturation (t + 273.15) / p).
  assert (K : 0 < k) by (apply Rdiv_lt_0_compat; [apply Rmult_lt_0_compat; lra|lra]).
  assert (Hx : mole_fraction_of_water_vapor (- (1000) / k / 100) (t + 273.15) p = - (10)).
  { unfold mole_fraction_of_water_vapor. replace (- (1000) / k / 100 * enhancement (t + 273.15) p * saturation (t + 273.15) / p) with (- (1000) / k / 100 * k) by (unfold k, Rdiv; ring). field. lra. }
  exists (- (1000) / k), (c_air_value t p (- (10)) (0 / 100)).
  assert (KI : 0 < / k) by (apply Rinv_0_lt_compat; exact K).
  split; [unfold Rdiv; lra|]. split.
  - rewrite c_air_accepts, Hx. repeat match goal with |- context [if ?d then _ else _] => destruct d; [|lra] end. reflexivity.
  - unfold c_air_value. cbv zeta. assert (0 <= t * t <= 900) by nra. assert (0 <= p * p) by nra.
    assert (0 <= t * p <= 3300000) by nra. assert (0 <= t * t * p) by (apply Rmult_le_pos; lra). cbn [pow]. rewrite !Rmult_1_r. lra.
Qed.
Print Assumptions C97_negative_humidity_refuted.

Theorem C97_percent_refuted :
  (exists v, c_air 0 101 101325 0.04 = inl v) /\ forall co2 t p, 0 <= t <= 30 -> 60000 <= p <= 110000 -> co2 < 0 -> exists v, c_air t 0 p co2 = inl v.
Proof.
  split.
  - eexists. rewrite c_air_accepts. cbv zeta.
    assert (X : mole_fraction_of_water_vapor (101 / 100) (0 + 273.15) 101325 <= 0.06).
    { unfold mole_fraction_of_water_vapor. pose proof (enhancement_bounds (0 + 273.15) 101325 ltac:(lra) ltac:(lra)).
      assert (S : saturation (0 + 273.15) <= 2187).
      { apply Rle_trans with (exp 1 ^ 7).
        - replace (exp 1 ^ 7) with (exp 7) by (rewrite <- Rpower_pow by apply exp_pos; unfold Rpower; rewrite ln_exp; f_equal; cbn; lra).
          left. unfold saturation. cbv zeta. apply exp_increasing. lra.
        - pose proof exp_le_3. pose proof (exp_pos 1). replace 2187 with (3 ^ 7) by lra. apply pow_incr. lra. }
      pose proof (saturation_pos (0 + 273.15)). set (s := saturation (0 + 273.15)) in *. set (e := enhancement (0 + 273.15) 101325) in *.
      assert (e * s <= 4374) by nra. assert (0 < e * s) by nra. replace (101 / 100 * e * s / 101325) with (101 / 100 / 101325 * (e * s)) by (unfold Rdiv; ring). lra. }
    repeat match goal with |- context [if ?d then _ else _] => destruct d; [|lra] end. reflexivity.
  - intros co2 t p Ht Hp Hc. exists (c_air_value t p 0 (co2 / 100)). rewrite c_air_accepts. cbv zeta.
    replace (mole_fraction_of_water_vapor (0 / 100) (t + 273.15) p) with 0 by (unfold mole_fraction_of_water_vapor, Rdiv; ring).
    repeat match goal with |- context [if ?d then _ else _] => destruct d; [|lra] end. reflexivity.
Qed.
Print Assumptions C97_percent_refuted.

(** The mole fraction is that of the CIPM equation: false.  The enhancement factor is
    evaluated with the absolute temperature; the mole fraction is 4 to 6 % too high in
    the whole range. *)
Theorem C97_enhancement_refuted : forall t h p, 0 <= t <= 30 -> 0 < h -> 60000 <= p <= 110000 ->
  let reference := vapour_fraction (factor t p) h (kelvin t) p in
  let code := mole_fraction_of_water_vapor (h / 100) (kelvin t) p in
  1.04 * reference < code < 1.06 * reference.
Proof.
  intros t h p Ht Hh Hp. cbv zeta. rewrite fraction_spec. unfold vapour_fraction.
  assert (K : 0 < vapour_pressure (kelvin t) / p) by (apply Rdiv_lt_0_compat; [apply exp_pos|lra]).
  set (k := vapour_pressure (kelvin t) / p) in *.
  assert (F : 1.04 * factor t p < factor (kelvin t) p < 1.06 * factor t p) by (unfold factor, kelvin; assert (0 <= t * t <= 900) by nra; lra).
  assert (Q : 0 < h / 100 * k) by (apply Rmult_lt_0_compat; lra).
  replace (1.04 * (h / 100 * factor t p * k)) with (1.04 * factor t p * (h / 100 * k)) by ring.
  replace (1.06 * (h / 100 * factor t p * k)) with (1.06 * factor t p * (h / 100 * k)) by ring.
  replace (h / 100 * factor (kelvin t) p * k) with (factor (kelvin t) p * (h / 100 * k)) by ring.
  split; apply Rmult_lt_compat_r; lra.
Qed.
Print Assumptions C97_enhancement_refuted.

(** Hypotheses met: dry air at 20 degrees. *)
Example C97_case : exists v, c_air 20 0 101325 0.04 = inl v /\ 343 < v < 344.
Proof.
  eexists. split.
  - apply (proj1 (C97_value_partial 20 0 101325 0.04)). unfold vapour_fraction. lra.
  - unfold cramer, vapour_fraction. lra.
Qed.
