(** C67, C82: mantissa, exponent and log on doubles, with IEEE rounding. *)
From Verif Require Import ModelCmath SpecCmath DoubleLog.
From Coq Require Import ZArith Reals Lra.
From Coq.Floats Require Import SpecFloat.
Open Scope R_scope.

(** C67. With rounding, mantissa(x)*10^exponent(x) is x up to a relative error
    of 2*10^-13. *)
Theorem C67_mantissa_exponent_double_partial : forall x, is_number x -> 0 < dval x ->
  exists m e, returns (fun n => mantissa dbl n x) m /\ returns (fun n => exponent dbl n x) e /\
    is_number m /\ 1 <= dval m < 10 /\ Rabs (dval m * powerRZ 10 e - dval x) <= 2 / 10 ^ 13 * dval x.
Proof. exact mantissa_exponent. Qed.
Print Assumptions C67_mantissa_exponent_double_partial.
Example C67_double_example : is_number (dint 1250) /\ dval (dint 1250) = 1250 /\
  mantissa dbl 4 (dint 1250) = Value (S754_finite false 5629499534213120 (-52)) /\ exponent dbl 4 (dint 1250) = Value 3%Z.
Proof. exact mantissa_1250. Qed.
(** Exactly it is not x: 11. *)
Theorem C67_mantissa_exponent_double_refuted : exists m e, is_number (dint 11) /\ dval (dint 11) = 11 /\
  returns (fun n => mantissa dbl n (dint 11)) m /\ returns (fun n => exponent dbl n (dint 11)) e /\ dval m * powerRZ 10 e <> dval (dint 11).
Proof. exact mantissa_11. Qed.
Print Assumptions C67_mantissa_exponent_double_refuted.

(** C82. log of every double. Positive and finite: *)
Theorem C82_log_error : forall x, is_number x -> 0 < dval x ->
  exists v, returns (fun n => m_log dbl n x) v /\ is_number v /\ within (11 / 10000) (dval v) (ln (dval x)).
Proof. exact log_double. Qed.
Print Assumptions C82_log_error.
(** zero, negative numbers (with minus infinity) *)
Theorem C82_log_zero : forall s, returns (fun n => m_log dbl n (S754_zero s)) (S754_infinity true).
Proof. exact log_zero. Qed.
Print Assumptions C82_log_zero.
Theorem C82_log_negative : forall x, is_double x -> n_lt dbl x (nint dbl 0) = true -> returns (fun n => m_log dbl n x) S754_nan.
Proof. exact log_negative. Qed.
Print Assumptions C82_log_negative.
(** infinity and NaN: the recursion never ends *)
Theorem C82_log_infinity : runs_forever (fun n => m_log dbl n (S754_infinity false)).
Proof. exact log_inf. Qed.
Print Assumptions C82_log_infinity.
Theorem C82_log_nan : runs_forever (fun n => m_log dbl n S754_nan).
Proof. exact log_nan. Qed.
Print Assumptions C82_log_nan.
(** no double is left out *)
Theorem C82_log_cases : forall x, is_double x ->
  (is_number x /\ 0 < dval x) \/ (exists s, x = S754_zero s) \/ n_lt dbl x (nint dbl 0) = true \/
  x = S754_infinity false \/ x = S754_nan.
Proof. exact log_cases. Qed.
Print Assumptions C82_log_cases.
(** log(2) *)
Example C82_example : is_number (dint 2) /\ dval (dint 2) = 2 /\
  m_log dbl 12 (dint 2) = Value (S754_finite false 6243341822303222 (-53)).
Proof. exact log_2_double. Qed.
