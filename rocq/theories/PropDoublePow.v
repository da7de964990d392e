(** C101: pow(double, int) on doubles. *)
From Verif Require Import ModelCmath SpecCmath DoublePow.
From Coq Require Import ZArith Reals Lra.
From Coq.Floats Require Import SpecFloat.
Open Scope R_scope.

(** C101. It returns for every base and every exponent but INT_MIN (C65), never a
    NaN unless the base is one, and the sign is right. *)
Theorem C101_pow_sign : forall b n, is_double b -> b <> S754_nan -> (int_min < n <= int_max)%Z -> n <> 0%Z ->
  exists v, returns (fun N => m_pow dbl N b n) v /\ is_double v /\ v <> S754_nan /\ sign_of v = (sign_of b && Z.odd n)%bool.
Proof. exact pow_any. Qed.
Print Assumptions C101_pow_sign.
Theorem C101_pow_zero_one : forall b, returns (fun N => m_pow dbl N b 0) (nint dbl 1) /\ returns (fun N => m_pow dbl N b 1) b.
Proof. exact (fun b => conj (pow_to_0 b) (pow_to_1 b)). Qed.
Print Assumptions C101_pow_zero_one.
Theorem C101_pow_nan : forall n, (int_min < n <= int_max)%Z -> n <> 0%Z -> returns (fun N => m_pow dbl N S754_nan n) S754_nan.
Proof. exact pow_nan_any. Qed.
Print Assumptions C101_pow_nan.
Theorem C101_pow_infinity : forall s n, (0 < n <= int_max)%Z -> returns (fun N => m_pow dbl N (S754_infinity s) n) (S754_infinity (s && Z.odd n)).
Proof. exact pow_inf_pos. Qed.
Print Assumptions C101_pow_infinity.
Theorem C101_pow_infinity_negative : forall s n, (int_min < n < 0)%Z -> returns (fun N => m_pow dbl N (S754_infinity s) n) (S754_zero (s && Z.odd n)).
Proof. exact pow_inf_neg. Qed.
Print Assumptions C101_pow_infinity_negative.
Theorem C101_pow_of_zero : forall s n, (0 < n <= int_max)%Z -> returns (fun N => m_pow dbl N (S754_zero s) n) (S754_zero (s && Z.odd n)).
Proof. exact pow_zero_pos. Qed.
Print Assumptions C101_pow_of_zero.
Theorem C101_pow_of_zero_negative : forall s n, (int_min < n < 0)%Z -> returns (fun N => m_pow dbl N (S754_zero s) n) (S754_infinity (s && Z.odd n)).
Proof. exact pow_zero_neg. Qed.
Print Assumptions C101_pow_of_zero_negative.

(** Powers in the range of the doubles: n-1 roundings, each of at most 2^-53. *)
Theorem C101_pow_accuracy : forall b n, is_number b -> (0 < n <= int_max)%Z ->
  (1 + / 10 ^ 6) * powerRZ 2 (-1022) <= Rabs (powerRZ (dval b) n) <= (1 - / 10 ^ 6) * powerRZ 2 1024 ->
  exists v, returns (fun N => m_pow dbl N b n) v /\ is_number v /\
    within (IZR (n - 1) * (1110224 / 10 ^ 22) * Rabs (powerRZ (dval b) n)) (dval v) (powerRZ (dval b) n).
Proof. exact pow_good. Qed.
Print Assumptions C101_pow_accuracy.
(** above the range, an infinity; below, a number at most twice the smallest
    normal one (which need not be zero: see [C101_underflow_sticks]) *)
Theorem C101_pow_overflow : forall b n, is_number b -> (0 < n <= int_max)%Z ->
  (1 + / 10 ^ 6) * powerRZ 2 1024 <= Rabs (powerRZ (dval b) n) ->
  returns (fun N => m_pow dbl N b n) (S754_infinity (sign_of b && Z.odd n)).
Proof. exact pow_over. Qed.
Print Assumptions C101_pow_overflow.
Theorem C101_pow_underflow : forall b n, is_number b -> dval b <> 0 -> (0 < n <= int_max)%Z ->
  Rabs (powerRZ (dval b) n) < (1 + / 10 ^ 6) * powerRZ 2 (-1022) ->
  exists v, returns (fun N => m_pow dbl N b n) v /\ is_number v /\ Rabs (dval v) <= powerRZ 2 (-1021).
Proof. exact pow_small. Qed.
Print Assumptions C101_pow_underflow.

(** Negative exponents: the reciprocal of the power. *)
Theorem C101_negative_accuracy : forall b n, is_number b -> (int_min < n < 0)%Z ->
  (1 + / 10 ^ 6) * powerRZ 2 (-1022) <= Rabs (powerRZ (dval b) (- n)) <= (1 - / 10 ^ 6) * powerRZ 2 1024 ->
  exists v, returns (fun N => m_pow dbl N b n) v /\ is_number v /\
    within (IZR (- n) * (111023 / 10 ^ 21) * Rabs (powerRZ (dval b) n) + powerRZ 2 (-1075)) (dval v) (powerRZ (dval b) n).
Proof. exact pow_neg_good. Qed.
Print Assumptions C101_negative_accuracy.
Theorem C101_negative_lost : forall b n, is_number b -> (int_min < n < 0)%Z ->
  (1 + / 10 ^ 6) * powerRZ 2 1024 <= Rabs (powerRZ (dval b) (- n)) ->
  returns (fun N => m_pow dbl N b n) (S754_zero (sign_of b && Z.odd n)).
Proof. exact pow_neg_over. Qed.
Print Assumptions C101_negative_lost.
Theorem C101_negative_overflow : forall b n, is_number b -> dval b <> 0 -> (int_min < n < 0)%Z ->
  Rabs (powerRZ (dval b) (- n)) < (1 + / 10 ^ 6) * powerRZ 2 (-1022) ->
  exists v, returns (fun N => m_pow dbl N b n) v /\
    (v = S754_infinity (sign_of b && Z.odd n) \/ (is_number v /\ powerRZ 2 1021 <= Rabs (dval v))).
Proof. exact pow_neg_small. Qed.
Print Assumptions C101_negative_overflow.

(** the depth of the recursion is the exponent *)
Theorem C101_pow_depth : forall b n N, (0 < n <= int_max)%Z -> m_pow dbl N b n = Unfinished <-> (Z.of_nat N < n)%Z.
Proof. exact pow_depth. Qed.
Print Assumptions C101_pow_depth.
Theorem C101_negative_depth : forall b n N, (int_min < n < 0)%Z -> m_pow dbl N b n = Unfinished <-> (Z.of_nat N < 1 - n)%Z.
Proof. exact pow_neg_depth. Qed.
Print Assumptions C101_negative_depth.

(** two consequences: 0.9^10000 (less than 2^-1500) is not 0 but 5 2^-1074, and
    2^-1030, a double, is given as 0 *)
Theorem C101_underflow_sticks : returns (fun N => m_pow dbl N d09 10000) (S754_finite false 5 (-1074)).
Proof. exact pow_stuck. Qed.
Print Assumptions C101_underflow_sticks.
Theorem C101_lost_double : is_number (S754_finite false (2 ^ 44) (-1074)) /\
  dval (S754_finite false (2 ^ 44) (-1074)) = powerRZ 2 (-1030) /\
  returns (fun N => m_pow dbl N (nint dbl 2) (-1030)) (S754_zero false).
Proof. exact pow_lost. Qed.
Print Assumptions C101_lost_double.
Example C101_example : m_pow dbl 10 (nint dbl (-3)) 5 = Value (nint dbl (-243)) /\
  m_pow dbl 10 (nint dbl 2) (-3) = ndiv dbl (nint dbl 1) (nint dbl 8) /\
  (1 + / 10 ^ 6) * powerRZ 2 (-1022) <= Rabs (powerRZ 2 3) <= (1 - / 10 ^ 6) * powerRZ 2 1024.
Proof. split; [reflexivity|split; [reflexivity|exact range_8]]. Qed.
