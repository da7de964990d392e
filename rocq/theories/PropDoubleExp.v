(** C69, C83: exp, nearest and fraction on doubles, with IEEE rounding. *)
From Verif Require Import ModelCmath SpecCmath DoubleExp.
From Coq Require Import ZArith Reals Lra.
From Coq.Floats Require Import SpecFloat.
Open Scope R_scope.

(** C69. nearest and fraction split a double without any rounding error. *)
Theorem C69_split_double : forall x, is_number x -> Rabs (dval x) < 2147483647 ->
  exists n f, nearest dbl x = Value (dint n) /\ fraction dbl x = Value f /\ is_number f /\
    IZR n + dval f = dval x /\ Rabs (dval f) < 1.
Proof. exact split_double_sum. Qed.
Print Assumptions C69_split_double.
(** The error bound fails at 709.625: the result is infinite, although e^x is
    below 2^1024. *)
Theorem C69_exp_refuted : exists x, is_number x /\ dval x = 5677 / 8 /\ exp (dval x) < powerRZ 2 1024 /\
  returns (fun n => m_exp dbl n x) (S754_infinity false).
Proof. exists x709. exact exp_early. Qed.
Print Assumptions C69_exp_refuted.

(** C83. exp of a double in the range of int. *)
Theorem C83_exp_error : forall x, is_number x -> -710 < dval x <= 1419 / 2 ->
  exists v, returns (fun n => m_exp dbl n x) v /\ is_number v /\ within (8 / 10 ^ 5 * exp (dval x)) (dval v) (exp (dval x)).
Proof. exact exp_double. Qed.
Print Assumptions C83_exp_error.
Theorem C83_exp_overflow : forall x, is_number x -> 1419 / 2 < dval x < 2147483647 ->
  returns (fun n => m_exp dbl n x) (S754_infinity false).
Proof. exact exp_over. Qed.
Print Assumptions C83_exp_overflow.
Theorem C83_exp_underflow : forall x, is_number x -> -2147483647 < dval x <= -710 ->
  returns (fun n => m_exp dbl n x) (S754_zero false).
Proof. exact exp_under. Qed.
Print Assumptions C83_exp_underflow.
(** The conversion to int is undefined outside that range. *)
Theorem C83_exp_out_of_range : forall x, is_double x -> ~ is_number x \/ 2147483649 <= Rabs (dval x) ->
  forall n, m_exp dbl n x = Undefined.
Proof. exact exp_out. Qed.
Print Assumptions C83_exp_out_of_range.
Example C83_example : is_number (dint 1) /\ dval (dint 1) = 1 /\
  m_exp dbl 8 (dint 1) = Value (S754_finite false 6121026514868073 (-51)) /\ nearest dbl (dint 1) = Value (dint 1).
Proof. exact exp_1_double. Qed.
Example C83_example_overflow : m_exp dbl 720 (dint 710) = Value (S754_infinity false).
Proof. vm_compute. reflexivity. Qed.
Example C83_example_underflow : m_exp dbl 760 (dint (-750)) = Value (S754_zero false).
Proof. vm_compute. reflexivity. Qed.
