(** The mathematical functions of a complex number, without formulas for them. *)
From stdpp Require Import base.
From Verif Require Import Mem Hist ModelComplex ModelComplexFun SpecComplex ComplexAbs.
From Coq Require Import Reals.
Open Scope R_scope.

Local Notation cadd := (cadd Rarith). Local Notation csub := (csub Rarith). Local Notation cmul := (cmul Rarith).
(** modulus *)
Definition modulus (v : R * R) : R := sqrt (v.1 * v.1 + v.2 * v.2).
(** The exponential: turns sums into products, and has derivative 1 at 0.  There is
    only one such function (C94_exp_unique). *)
Definition is_exp (f : R * R → R * R) : Prop :=
  (∀ v w, f (cadd v w) = cmul (f v) (f w)) ∧
  (∃ c, ∀ h, modulus h <= 1 / 2 → modulus (csub (csub (f h) (1, 0)) h) <= c * (modulus h * modulus h)).
(** Euler's formulas, given the exponential *)
Definition is_cos (e f : R * R → R * R) : Prop :=
  ∀ v, cmul (2, 0) (f v) = cadd (e (cmul (0, 1) v)) (e (cmul (0, -1) v)).
Definition is_sin (e f : R * R → R * R) : Prop :=
  ∀ v, cmul (0, 2) (f v) = csub (e (cmul (0, 1) v)) (e (cmul (0, -1) v)).
Definition is_cosh (e f : R * R → R * R) : Prop := ∀ v, cmul (2, 0) (f v) = cadd (e v) (e (cmul (-1, 0) v)).
Definition is_sinh (e f : R * R → R * R) : Prop := ∀ v, cmul (2, 0) (f v) = csub (e v) (e (cmul (-1, 0) v)).
(** the angle of a number other than 0 *)
Definition is_angle (v : R * R) (t : R) : Prop :=
  - PI < t <= PI ∧ v.1 = modulus v * cos t ∧ v.2 = modulus v * sin t.

(** the scalar functions over the reals, given atan2 *)
Definition Rfuns (at2 : R → R → R) : scalar_funs R :=
  ScalarFuns R (λ x, ret (sin x)) (λ x, ret (cos x)) (λ x, ret (sinh x)) (λ x, ret (cosh x)) (λ x, ret (exp x))
    (λ x, ret (ln x)) (λ y x, ret (at2 y x)) Rabs Rmax (λ x, ret (sqrt x)).
Definition right_atan2 (at2 : R → R → R) : Prop := ∀ x y, (x, y) ≠ (0, 0) → is_angle (x, y) (at2 y x).
(** The calls of [f] on an object compute [g] of its value and change nothing. *)
Definition computes (f : loc → M (R * R) (R * R)) (g : R * R → R * R) : Prop :=
  ∀ m z v, mem_wf m → blk m !! z = Some v → yields (f z) (g v) m.
