(** What the functions of <cmath> should compute. *)
From stdpp Require Import base.
From Verif Require Import ModelCmath.
From Coq Require Import ZArith Reals.
From Coq.Floats Require Import SpecFloat.

(** A computation, given the depth of calls allowed, returns a value if it does
    so for every sufficient depth; it runs forever if no depth suffices. *)
Definition returns {A} (f : nat → outcome A) (v : A) : Prop :=
  ∃ n, ∀ k, (n ≤ k)%nat → f k = Value v.
Definition runs_forever {A} (f : nat → outcome A) : Prop := ∀ n, f n = Unfinished.
Definition never_returns {A} (f : nat → outcome A) : Prop := ∀ n v, f n ≠ Value v.

Open Scope R_scope.

(** Exact arithmetic: the numbers are real numbers. Division by zero is
    undefined, and there is no infinity and no NaN. *)
Definition exact : number R :=
  Number R (λ x y, if Rlt_dec x y then true else false)
    (λ x y, if Rle_dec x y then true else false)
    (λ x y, if Req_EM_T x y then true else false)
    Rplus Rminus Rmult Ropp
    (λ x y, if Req_EM_T y 0 then Undefined else Value (x / y))
    IZR
    (λ m k, Value (IZR m / IZR (10 ^ k)))
    (λ x, int_ok (if Rle_dec 0 x then Int_part x else - Int_part (- x))%Z)
    Undefined Undefined.

(** [v] is within [e] of [w] *)
Definition within (e v w : R) : Prop := Rabs (v - w) <= e.

(** pi/2 and pi to 15 decimals *)
Definition hpi : R := 1570796326794897 / 1000000000000000.
Definition cpi : R := 3141592653589793 / 1000000000000000.

(** Double precision. The value of a double that is a number: *)
Definition dval (x : spec_float) : R :=
  match x with
  | S754_finite s m e => (if s then - IZR (Zpos m) else IZR (Zpos m)) * powerRZ 2 e
  | _ => 0
  end.
(** the doubles, and those that are numbers *)
Definition is_double (x : spec_float) : Prop := valid_binary 53 1024 x = true.
Definition is_number (x : spec_float) : Prop :=
  is_double x ∧ match x with S754_zero _ | S754_finite _ _ _ => True | _ => False end.
Definition is_integer (r : R) : Prop := ∃ z : Z, r = IZR z.
(** the greatest integer not above, the least not below *)
Definition greatest_below (z : Z) (r : R) : Prop := IZR z <= r < IZR z + 1.
Definition least_above (z : Z) (r : R) : Prop := IZR z - 1 < r <= IZR z.

(** the sign bit *)
Definition sign_of (x : spec_float) : bool :=
  match x with S754_zero s | S754_infinity s | S754_finite s _ _ => s | S754_nan => false end.

(** the angle of the point (x, y), in (-pi, pi] *)
Definition angle (t x y : R) : Prop :=
  - PI < t <= PI ∧ ∃ d, 0 < d ∧ x = d * cos t ∧ y = d * sin t.
