(** C63, C64, C66, C67: <cmath> on doubles, with IEEE rounding. *)
From Verif Require Import ModelCmath SpecCmath DoubleArith DoubleRound DoubleSqrt.
From Coq Require Import ZArith Reals Lra.
From Coq.Floats Require Import SpecFloat.
Open Scope R_scope.

(** C63. The property is false: just above -1 the subtraction of 1 rounds to -2. *)
Theorem C63_floor_refuted : exists v, is_number v /\ -1 < dval v < 0 /\ m_floor dbl v = Value (-2)%Z.
Proof. exact floor_refuted. Qed.
Print Assumptions C63_floor_refuted.
Theorem C63_ceil_refuted : exists v, is_number v /\ 0 < dval v < 1 /\ m_ceil dbl v = Value 2%Z.
Proof. exact ceil_refuted. Qed.
Print Assumptions C63_ceil_refuted.
(** What holds: the result is right or (for floor) one too small; it is right
    for non-negative numbers, for integers, and for every number at least
    2^-21 above an integer. Likewise for ceil. *)
Theorem C63_floor_partial : forall v, is_number v -> Rabs (dval v) < 2147483647 ->
  exists z, m_floor dbl v = Value z /\
    (greatest_below z (dval v) \/ greatest_below (z + 1) (dval v)) /\
    (0 <= dval v \/ is_integer (dval v) -> greatest_below z (dval v)) /\
    (forall k, greatest_below k (dval v) -> / 2097152 <= dval v - IZR k -> z = k).
Proof. exact floor_double. Qed.
Print Assumptions C63_floor_partial.
Theorem C63_ceil_partial : forall v, is_number v -> Rabs (dval v) < 2147483647 ->
  exists z, m_ceil dbl v = Value z /\
    (least_above z (dval v) \/ least_above (z - 1) (dval v)) /\
    (dval v <= 0 \/ is_integer (dval v) -> least_above z (dval v)) /\
    (forall k, least_above k (dval v) -> / 2097152 <= IZR k - dval v -> z = k).
Proof. exact ceil_double. Qed.
Print Assumptions C63_ceil_partial.
(** out of range, infinite or NaN: undefined behaviour *)
Theorem C63_out_of_range : forall v, is_number v -> 2147483649 <= Rabs (dval v) ->
  m_floor dbl v = Undefined /\ m_ceil dbl v = Undefined.
Proof. exact floor_out. Qed.
Print Assumptions C63_out_of_range.
Theorem C63_special : forall v, is_double v -> ~ is_number v ->
  m_floor dbl v = Undefined /\ m_ceil dbl v = Undefined.
Proof. exact floor_special. Qed.
Print Assumptions C63_special.
(** without rounding they are right *)
Theorem C63_floor_exact : forall x : R, Rabs x < 2147483647 ->
  exists z, m_floor exact x = Value z /\ greatest_below z x.
Proof. exact floor_exact. Qed.
Print Assumptions C63_floor_exact.
Theorem C63_ceil_exact : forall x : R, Rabs x < 2147483647 ->
  exists z, m_ceil exact x = Value z /\ least_above z x.
Proof. exact ceil_exact. Qed.
Print Assumptions C63_ceil_exact.
(** -2.5 *)
Example C63_example : is_number (S754_finite true 5629499534213120 (-51)) /\
  m_floor dbl (S754_finite true 5629499534213120 (-51)) = Value (-3)%Z /\
  m_ceil dbl (S754_finite true 5629499534213120 (-51)) = Value (-2)%Z.
Proof. split; [split|]; vm_compute; auto. Qed.

(** C64 *)
Theorem C64_abs_is_argument_or_negation : forall x, is_double x -> m_abs dbl x = x \/ m_abs dbl x = nopp dbl x.
Proof. exact abs_cases. Qed.
Print Assumptions C64_abs_is_argument_or_negation.
Theorem C64_abs_nonnegative : forall x, x <> S754_nan -> n_le dbl (nint dbl 0) (m_abs dbl x) = true.
Proof. exact abs_nonneg. Qed.
Print Assumptions C64_abs_nonnegative.
Theorem C64_abs_even : forall x, x <> S754_nan -> n_eq dbl (m_abs dbl (nopp dbl x)) (m_abs dbl x) = true.
Proof. exact abs_even. Qed.
Print Assumptions C64_abs_even.
Theorem C64_abs_value : forall x, is_number x -> is_number (m_abs dbl x) /\ dval (m_abs dbl x) = Rabs (dval x).
Proof. exact abs_value. Qed.
Print Assumptions C64_abs_value.
Theorem C64_fabs_is_abs : forall x, m_fabs dbl x = m_abs dbl x.
Proof. exact (fun _ => eq_refl). Qed.
Print Assumptions C64_fabs_is_abs.
(** unlike std::abs it keeps the sign of -0 *)
Theorem C64_abs_negative_zero_refuted : m_abs dbl (S754_zero true) = S754_zero true.
Proof. exact (abs_sf (S754_zero true)). Qed.
Print Assumptions C64_abs_negative_zero_refuted.
Example C64_example : is_double (S754_finite true 5629499534213120 (-51)) /\
  m_abs dbl (S754_finite true 5629499534213120 (-51)) = S754_finite false 5629499534213120 (-51).
Proof. split; vm_compute; reflexivity. Qed.

(** C66. sqrt returns for the positive numbers, with the error of the property
    but for a factor of 1.000001. *)
Theorem C66_sqrt_double_partial : forall x, is_number x -> 0 < dval x ->
  exists g, returns (fun n => m_sqrt dbl n x) g /\ is_number g /\ 0 < dval g /\
    Rabs (dval g * dval g - dval x) <= 1000001 / 1000000000 * (dval g * dval g).
Proof. exact sqrt_double_ok. Qed.
Print Assumptions C66_sqrt_double_partial.
(** For every other double, zero among them, it never returns (see also C81). *)
Theorem C66_sqrt_zero_refuted : is_number (S754_zero false) /\ dval (S754_zero false) = 0 /\
  runs_forever (fun n => m_sqrt dbl n (S754_zero false)).
Proof. exact sqrt_zero_double. Qed.
Print Assumptions C66_sqrt_zero_refuted.
Theorem C66_sqrt_otherwise_runs_forever : forall x, is_double x ->
  (is_number x /\ 0 < dval x) \/ runs_forever (fun n => m_sqrt dbl n x).
Proof. exact sqrt_or. Qed.
Print Assumptions C66_sqrt_otherwise_runs_forever.
Example C66_double_example : is_number (dint 2) /\ dval (dint 2) = 2 /\
  m_sqrt dbl 10 (dint 2) = Value (S754_finite false 6369061237727392 (-52)).
Proof. exact sqrt_2_double. Qed.

(** C80: what floor and ceil do *)
Theorem C80_floor_double : forall v, is_number v -> Rabs (dval v) < 2147483647 ->
  exists z, m_floor dbl v = Value z /\
    (greatest_below z (dval v) \/ greatest_below (z + 1) (dval v)) /\
    (0 <= dval v \/ is_integer (dval v) -> greatest_below z (dval v)) /\
    (forall k, greatest_below k (dval v) -> / 2097152 <= dval v - IZR k -> z = k).
Proof. exact floor_double. Qed.
Print Assumptions C80_floor_double.
Theorem C80_ceil_double : forall v, is_number v -> Rabs (dval v) < 2147483647 ->
  exists z, m_ceil dbl v = Value z /\
    (least_above z (dval v) \/ least_above (z - 1) (dval v)) /\
    (dval v <= 0 \/ is_integer (dval v) -> least_above z (dval v)) /\
    (forall k, least_above k (dval v) -> / 2097152 <= IZR k - dval v -> z = k).
Proof. exact ceil_double. Qed.
Print Assumptions C80_ceil_double.

(** C81: what sqrt does *)
Theorem C81_sqrt_returns_iff_positive : forall x, is_double x ->
  (exists g, returns (fun n => m_sqrt dbl n x) g) <-> (is_number x /\ 0 < dval x).
Proof. exact sqrt_iff. Qed.
Print Assumptions C81_sqrt_returns_iff_positive.
Theorem C81_sqrt_error : forall x g, is_number x -> 0 < dval x -> returns (fun n => m_sqrt dbl n x) g ->
  is_number g /\ 0 < dval g /\
  Rabs (dval g * dval g - dval x) <= 1000001 / 1000000000 * (dval g * dval g).
Proof. exact sqrt_error. Qed.
Print Assumptions C81_sqrt_error.
Theorem C81_sqrt_otherwise_runs_forever : forall x, is_double x ->
  (is_number x /\ 0 < dval x) \/ runs_forever (fun n => m_sqrt dbl n x).
Proof. exact sqrt_or. Qed.
Print Assumptions C81_sqrt_otherwise_runs_forever.
