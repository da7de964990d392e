(** What calls on a complex of doubles should do. *)
From stdpp Require Import base.
From Verif Require Import Mem Hist SpecComplex SpecCmath.
From Coq Require Import Reals.
From Coq.Floats Require Import SpecFloat.
Open Scope R_scope.

(** the complex number that two doubles stand for *)
Definition cval (z : spec_float * spec_float) : R * R := (dval z.1, dval z.2).
Definition is_number2 (z : spec_float * spec_float) : Prop := is_number z.1 ∧ is_number z.2.
Definition is_double2 (z : spec_float * spec_float) : Prop := is_double z.1 ∧ is_double z.2.
(** The call returns [b], and changes no object, if the calls may be as deep as they
    need; it never returns. *)
Definition comes {C B} (f : nat → M C B) (b : B) (m : mem C) : Prop := ∃ n, ∀ k, (n ≤ k)%nat → yields (f k) b m.
Definition never {C B} (f : nat → M C B) (m : mem C) : Prop := ∀ n b m', f n m ≠ Ok b m'.

(** The errors of sin, cos (C98), cosh and sinh (C99): the last two relative to cosh. *)
Definition err_sin (t : R) : R := 19 / 10 ^ 8 * (Rabs t + 4) + 12 / 10 ^ 12 * (Rabs t + 4) ^ 2.
Definition err_cos (t : R) : R := 2 / 10 ^ 7 * (Rabs t + 6) + 13 / 10 ^ 12 * (Rabs t + 6) ^ 2.
Definition err_cosh (t : R) : R := 61 / 10 ^ 5 + 2 / 10 ^ 7 * Rabs t.
Definition err_sinh (t : R) : R := 18 / 10 ^ 8 * (Rabs t + 1).
(** infinity times the number [c] *)
Definition infinity_times (c : R) (v : spec_float) : Prop :=
  (0 < c → v = S754_infinity false) ∧ (c < 0 → v = S754_infinity true) ∧ (c = 0 → v = S754_nan).
(** the two parts of [v] are near those of [w] *)
Definition near2 (e1 e2 : R) (v w : R * R) : Prop := within e1 v.1 w.1 ∧ within e2 v.2 w.2.
(** [v] is [s] rounded: a number within a relative error of 2^-53, or infinity if that is too large *)
Definition rounded (s : R) (v : spec_float) : Prop :=
  (is_number v ∧ within (powerRZ 2 (-53) * Rabs s) (dval v) s) ∨
  (powerRZ 2 1024 <= (1 + powerRZ 2 (-53)) * Rabs s ∧ infinity_times s v).
(** a zero or NaN; an infinity or NaN *)
Definition zero_or_nan (v : spec_float) : Prop := v = S754_nan ∨ ∃ s, v = S754_zero s.
Definition infinite_or_nan (v : spec_float) : Prop := v = S754_nan ∨ ∃ s, v = S754_infinity s.
