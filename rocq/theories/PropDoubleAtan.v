(** C70, C97: atan and atan2 on doubles, with IEEE rounding. *)
From Verif Require Import ModelCmath SpecCmath DoubleAtan.
From Coq Require Import ZArith Reals Lra.
From Coq.Floats Require Import SpecFloat.
Open Scope R_scope.

(** C70. atan of every number. *)
Theorem C70_atan_double : forall x, is_number x ->
  exists v, returns (fun n => m_atan dbl n x) v /\ is_number v /\ within (55 / 10 ^ 6) (dval v) (atan (dval x)) /\
    (0 < dval x -> 0 < dval v) /\ (dval x < 0 -> dval v < 0) /\ (dval x = 0 -> dval v = 0) /\ Rabs (dval v) <= PI / 2 + 2 / 10 ^ 15.
Proof. exact atan_double. Qed.
Print Assumptions C70_atan_double.
(** odd to the last bit for every double that is neither zero nor NaN (a double
    equal to itself), infinities included *)
Theorem C70_atan_odd_double : forall x v, n_eq dbl x (nint dbl 0) = false -> n_eq dbl x x = true ->
  returns (fun n => m_atan dbl n x) v -> returns (fun n => m_atan dbl n (nopp dbl x)) (nopp dbl v).
Proof. exact atan_opp_double. Qed.
Print Assumptions C70_atan_odd_double.
(** atan2 of every pair of numbers that has an angle (all but (0,0)); the quadrant
    is closed and as wide as the rounding of pi, see [C97_atan2_underflow] *)
Theorem C70_atan2_double : forall y x t, is_number y -> is_number x -> angle t (dval x) (dval y) ->
  exists v, returns (fun n => m_atan2 dbl n y x) v /\ is_number v /\ within (56 / 10 ^ 6) (dval v) t /\
    (0 <= dval y -> 0 <= dval v) /\ (dval y < 0 -> dval v <= 0) /\
    (0 < dval x -> Rabs (dval v) <= PI / 2 + 1 / 10 ^ 14) /\ (dval x < 0 -> PI / 2 - 1 / 10 ^ 14 <= Rabs (dval v) <= PI + 1 / 10 ^ 14).
Proof. exact atan2_double. Qed.
Print Assumptions C70_atan2_double.
(** the angle of (-1, 1) *)
Example C70_double_example : m_atan2 dbl 7 (dint 1) (dint (-1)) = Value (S754_finite false 5305760368313378 (-51)).
Proof. vm_compute. reflexivity. Qed.

(** C97. The other doubles: zeros, infinities and NaN. *)
Theorem C97_atan_zero : forall s, returns (fun n => m_atan dbl n (S754_zero s)) (S754_zero false).
Proof. exact atan_zero. Qed.
Print Assumptions C97_atan_zero.
Theorem C97_atan_infinity : forall s,
  exists v, returns (fun n => m_atan dbl n (S754_infinity s)) v /\ is_number v /\ within (2 / 10 ^ 15) (dval v) (if s then - (PI / 2) else PI / 2).
Proof. exact atan_infinity. Qed.
Print Assumptions C97_atan_infinity.
Theorem C97_atan_nan : runs_forever (fun n => m_atan dbl n S754_nan).
Proof. exact atan_nan. Qed.
Print Assumptions C97_atan_nan.
Theorem C97_atan2_zero : forall s s', returns (fun n => m_atan2 dbl n (S754_zero s) (S754_zero s')) (S754_zero false).
Proof. exact atan2_zero. Qed.
Print Assumptions C97_atan2_zero.
Theorem C97_atan2_infinite_y : forall s x, is_number x ->
  exists v, returns (fun n => m_atan2 dbl n (S754_infinity s) x) v /\ is_number v /\ within (1 / 10 ^ 14) (dval v) (if s then - (PI / 2) else PI / 2).
Proof. exact atan2_inf_y. Qed.
Print Assumptions C97_atan2_infinite_y.
Theorem C97_atan2_infinite_x : forall y, is_number y ->
  returns (fun n => m_atan2 dbl n y (S754_infinity false)) (S754_zero false) /\
  exists v, returns (fun n => m_atan2 dbl n y (S754_infinity true)) v /\ is_number v /\
    within (1 / 10 ^ 14) (dval v) (if n_lt dbl y (nint dbl 0) then - PI else PI).
Proof. exact atan2_inf_x. Qed.
Print Assumptions C97_atan2_infinite_x.
Theorem C97_atan2_both_infinite : forall s s', runs_forever (fun n => m_atan2 dbl n (S754_infinity s) (S754_infinity s')).
Proof. exact atan2_inf_both. Qed.
Print Assumptions C97_atan2_both_infinite.
(** with x NaN the answer is 0 whatever y; with y NaN it depends on the sign of x *)
Theorem C97_atan2_nan_x : forall y n, m_atan2 dbl n y S754_nan = Value (S754_zero false).
Proof. exact atan2_nan_x. Qed.
Print Assumptions C97_atan2_nan_x.
Theorem C97_atan2_nan_y : forall x, is_double x ->
  if n_lt dbl (nint dbl 0) x then runs_forever (fun n => m_atan2 dbl n S754_nan x)
  else returns (fun n => m_atan2 dbl n S754_nan x) (S754_zero false).
Proof. exact atan2_nan_y. Qed.
Print Assumptions C97_atan2_nan_y.
(** the error is real: atan(1) is off by more than 3*10^-5 *)
Theorem C97_atan_not_close : exists v, returns (fun n => m_atan dbl n (nint dbl 1)) v /\ dval (nint dbl 1) = 1 /\ 3 / 10 ^ 5 < Rabs (dval v - atan 1).
Proof. exact atan_1_wrong. Qed.
Print Assumptions C97_atan_not_close.
(** atan2 of the least positive double and 2 is 0 *)
Theorem C97_atan2_underflow : is_number dmin /\ 0 < dval dmin /\ dval (nint dbl 2) = 2 /\
  returns (fun n => m_atan2 dbl n dmin (nint dbl 2)) (S754_zero false).
Proof. exact atan2_underflow. Qed.
Print Assumptions C97_atan2_underflow.
Example C97_example : m_atan dbl 7 (S754_infinity true) = Value (S754_finite true 7074237752028442 (-52)).
Proof. vm_compute. reflexivity. Qed.
