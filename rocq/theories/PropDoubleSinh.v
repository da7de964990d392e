(** C99, C100: sinh and cosh on doubles, and the number of calls of sin and sinh. *)
From Verif Require Import ModelCmath SpecCmath ModelCmathCost DoubleSinh DoubleCost.
From Coq Require Import ZArith Reals Lra.
From Coq.Floats Require Import SpecFloat.
Open Scope R_scope.

(** C99. sinh up to 710, where its value is below the largest double. *)
Theorem C99_sinh_double : forall x, is_number x -> Rabs (dval x) <= 710 ->
  exists v, returns (fun n => m_sinh dbl n x) v /\ is_number v /\
    within (18 / 10 ^ 8 * Rabs (dval x) * cosh (dval x)) (dval v) (sinh (dval x)).
Proof. exact sinh_double. Qed.
Print Assumptions C99_sinh_double.
(** from 711 on it is an infinity; between the two, one or the other *)
Theorem C99_sinh_overflow : forall x, is_number x -> 711 <= dval x -> returns (fun n => m_sinh dbl n x) (S754_infinity false).
Proof. exact sinh_over. Qed.
Print Assumptions C99_sinh_overflow.
Theorem C99_sinh_overflow_negative : forall x, is_number x -> dval x <= -711 -> returns (fun n => m_sinh dbl n x) (S754_infinity true).
Proof. exact sinh_over_neg. Qed.
Print Assumptions C99_sinh_overflow_negative.
Theorem C99_sinh_edge : forall x, is_number x -> 710 < Rabs (dval x) < 711 -> exists v, returns (fun n => m_sinh dbl n x) v /\
  ((v = S754_infinity false /\ 0 < dval x) \/ (v = S754_infinity true /\ dval x < 0) \/
   (is_number v /\ within (18 / 10 ^ 8 * Rabs (dval x) * cosh (dval x)) (dval v) (sinh (dval x)))).
Proof. exact sinh_edge. Qed.
Print Assumptions C99_sinh_edge.
(** odd to the last bit, and the identity below tol *)
Theorem C99_sinh_odd : forall x v, returns (fun n => m_sinh dbl n x) v -> returns (fun n => m_sinh dbl n (nopp dbl x)) (nopp dbl v).
Proof. exact sinh_odd_double. Qed.
Print Assumptions C99_sinh_odd.
Theorem C99_sinh_tiny : forall x, is_number x -> Rabs (dval x) < 1 / 1000 -> returns (fun n => m_sinh dbl n x) x.
Proof. exact sinh_tiny. Qed.
Print Assumptions C99_sinh_tiny.
(** cosh up to 355, where the square of sinh is below the largest double *)
Theorem C99_cosh_double : forall x, is_number x -> Rabs (dval x) <= 355 ->
  exists v, returns (fun n => m_cosh dbl n x) v /\ is_number v /\ 0 < dval v /\
    within ((6 / 10000 + 2 / 10 ^ 7 * Rabs (dval x)) * cosh (dval x)) (dval v) (cosh (dval x)).
Proof. exact cosh_double. Qed.
Print Assumptions C99_cosh_double.
(** from 356 on the square overflows and the square root of infinity never returns *)
Theorem C99_cosh_overflow : forall x, is_number x -> 356 <= Rabs (dval x) -> runs_forever (fun n => m_cosh dbl n x).
Proof. exact cosh_over. Qed.
Print Assumptions C99_cosh_overflow.
Theorem C99_cosh_even : forall n x, m_cosh dbl n (nopp dbl x) = m_cosh dbl n x.
Proof. exact cosh_even. Qed.
Print Assumptions C99_cosh_even.
(** the infinities and NaN *)
Theorem C99_sinh_special : forall x, is_double x -> ~ is_number x -> runs_forever (fun n => m_sinh dbl n x).
Proof. exact sinh_special. Qed.
Print Assumptions C99_sinh_special.
Theorem C99_cosh_special : forall x, is_double x -> ~ is_number x -> runs_forever (fun n => m_cosh dbl n x).
Proof. exact cosh_special. Qed.
Print Assumptions C99_cosh_special.
(** sinh 2 and cosh 2 *)
Example C99_example : is_number (dint 2) /\ m_sinh dbl 9 (dint 2) = Value (S754_finite false 8166961229020948 (-51)) /\
  m_cosh dbl 12 (dint 2) = Value (S754_finite false 8474490443197666 (-51)).
Proof. split; [split; [reflexivity|exact I]|]. split; vm_compute; reflexivity. Qed.

(** C100. The number of calls doubles whenever the argument triples. *)
Theorem C100_sin_calls : forall x, is_number x -> 0 <= dval x -> exists c, returns (fun n => sin_calls dbl n x) c /\
  (forall k : nat, 1 / 1000 * (3 + / 10 ^ 9) ^ k <= dval x -> (2 ^ (Z.of_nat k + 2) - 1 <= c)%Z) /\
  (forall k : nat, dval x <= 1 / 1000 * (3 - / 10 ^ 9) ^ k -> (c <= 2 ^ (Z.of_nat k + 2) - 1)%Z).
Proof. exact sin_calls_pos. Qed.
Print Assumptions C100_sin_calls.
Theorem C100_sin_calls_negative : forall x, is_number x -> dval x < 0 -> exists c, returns (fun n => sin_calls dbl n x) c /\
  (forall k : nat, 1 / 1000 * (3 + / 10 ^ 9) ^ k <= - dval x -> (2 ^ (Z.of_nat k + 2) - 1 <= c)%Z).
Proof. exact sin_calls_neg. Qed.
Print Assumptions C100_sin_calls_negative.
Theorem C100_sinh_calls : forall x, is_number x -> exists c, returns (fun n => sinh_calls dbl n x) c /\
  (forall k : nat, 1 / 1000 * (3 + / 10 ^ 9) ^ k <= Rabs (dval x) -> (2 ^ (Z.of_nat k + 2) - 1 <= c)%Z) /\
  (forall k : nat, Rabs (dval x) <= 1 / 1000 * (3 - / 10 ^ 9) ^ k -> (c <= 2 ^ (Z.of_nat k + 2) - 1)%Z).
Proof. exact sinh_calls_all. Qed.
Print Assumptions C100_sinh_calls.
(** the calls counted are those of sin and sinh: with every depth of recursion
    allowed, the count and the function return together *)
Theorem C100_count_returns_with_sin : forall n x, (exists v, m_sin dbl n x = Value v) <-> (exists c, sin_calls dbl n x = Value c).
Proof. exact calls_sin_n. Qed.
Print Assumptions C100_count_returns_with_sin.
Theorem C100_count_returns_with_sinh : forall n x, (exists v, m_sinh dbl n x = Value v) <-> (exists c, sinh_calls dbl n x = Value c).
Proof. exact calls_sinh_n. Qed.
Print Assumptions C100_count_returns_with_sinh.
(** sin (10^18) makes more than 70 million million calls *)
Example C100_example : is_number e18 /\ dval e18 = 10 ^ 18 /\ exists c, returns (fun n => sin_calls dbl n e18) c /\ (70 * 10 ^ 12 <= c)%Z.
Proof. exact (conj (proj1 e18_ok) (conj (proj2 e18_ok) sin_e18)). Qed.
