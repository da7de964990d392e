(** C98: sin and cos on doubles, with IEEE rounding. *)
From Verif Require Import ModelCmath SpecCmath DoubleSin.
From Coq Require Import ZArith Reals Lra.
From Coq.Floats Require Import SpecFloat.
Open Scope R_scope.

(** C98. sin and cos of every number return a number of [-1, 1]; the error grows
    with the argument, since every tripling of the angle magnifies the rounding. *)
Theorem C98_sin_double : forall x, is_number x ->
  exists v, returns (fun n => m_sin dbl n x) v /\ is_number v /\ -1 <= dval v <= 1 /\
    within (19 / 10 ^ 8 * (Rabs (dval x) + 4) + 12 / 10 ^ 12 * (Rabs (dval x) + 4) ^ 2) (dval v) (sin (dval x)).
Proof. exact sin_double. Qed.
Print Assumptions C98_sin_double.
Theorem C98_cos_double : forall x, is_number x ->
  exists v, returns (fun n => m_cos dbl n x) v /\ is_number v /\ -1 <= dval v <= 1 /\
    within (2 / 10 ^ 7 * (Rabs (dval x) + 6) + 13 / 10 ^ 12 * (Rabs (dval x) + 6) ^ 2) (dval v) (cos (dval x)).
Proof. exact cos_double. Qed.
Print Assumptions C98_cos_double.
(** a number of [0, tol) is its own sine *)
Theorem C98_sin_tiny : forall x, is_number x -> 0 <= dval x < 1 / 1000 -> returns (fun n => m_sin dbl n x) x.
Proof. exact sin_tiny. Qed.
Print Assumptions C98_sin_tiny.
(** the infinities and NaN *)
Theorem C98_sin_special : forall x, is_double x -> ~ is_number x -> runs_forever (fun n => m_sin dbl n x).
Proof. exact sin_special. Qed.
Print Assumptions C98_sin_special.
Theorem C98_cos_special : forall x, is_double x -> ~ is_number x -> runs_forever (fun n => m_cos dbl n x).
Proof. exact cos_special. Qed.
Print Assumptions C98_cos_special.
(** what sin and cos are not: near zero, odd, even, or 1 at zero *)
Theorem C98_sin_below_zero : exists x v, is_number x /\ - / 10 ^ 200 < dval x < 0 /\ returns (fun n => m_sin dbl n x) v /\ dval v < - / 10 ^ 7.
Proof. exact sin_least. Qed.
Print Assumptions C98_sin_below_zero.
Theorem C98_sin_not_odd : exists x v w, is_number x /\
  returns (fun n => m_sin dbl n x) v /\ returns (fun n => m_sin dbl n (nopp dbl x)) w /\ w <> nopp dbl v.
Proof. exact sin_not_odd. Qed.
Print Assumptions C98_sin_not_odd.
Theorem C98_cos_not_even : exists x v w, is_number x /\
  returns (fun n => m_cos dbl n x) v /\ returns (fun n => m_cos dbl n (nopp dbl x)) w /\ w <> v.
Proof. exact cos_not_even. Qed.
Print Assumptions C98_cos_not_even.
Theorem C98_cos_zero : forall s, exists v, returns (fun n => m_cos dbl n (S754_zero s)) v /\ dval v < 1.
Proof. exact cos_zero. Qed.
Print Assumptions C98_cos_zero.
(** sin 1 *)
Example C98_example : is_number (dint 1) /\ m_sin dbl 9 (dint 1) = Value (S754_finite false 7579296996829092 (-53)).
Proof. split; [split; [reflexivity|exact I]|vm_compute; reflexivity]. Qed.
