(** Model of cest's <cmath>: /repo/include/cest/cmath.hpp and
    /repo/include/cest/bits/abs.hpp, for any type of numbers with the operations
    the code uses on double.

    The code is recursive without a bound on the depth, so a function takes the
    depth of calls allowed; running out of it is the outcome [Unfinished], which
    is not a result. [Undefined] is undefined behaviour: a conversion to int of a
    number outside its range, and signed overflow.

    Not modelled: the macro names, the anonymous namespace, and the difference
    between constant evaluation (where overflow to infinity and division by zero
    are errors) and run time. *)
From stdpp Require Import base.
From Coq Require Import ZArith.
From Coq.Floats Require Import SpecFloat.
Open Scope Z_scope.

Inductive outcome (A : Type) := Value (a : A) | Undefined | Unfinished.
Global Arguments Value {_}. Global Arguments Undefined {_}. Global Arguments Unfinished {_}.
Definition obind {A B} (x : outcome A) (k : A → outcome B) : outcome B :=
  match x with Value a => k a | Undefined => Undefined | Unfinished => Unfinished end.
Declare Scope out_scope. Delimit Scope out_scope with out.
Notation "x '<~' f ';;' k" := (obind f (λ x, k)) (at level 100, f at next level, right associativity) : out_scope.
Open Scope out_scope.

(** int *)
Definition int_min : Z := -2147483648.
Definition int_max : Z := 2147483647.
Definition int_ok (z : Z) : outcome Z :=
  if (int_min <=? z) && (z <=? int_max) then Value z else Undefined.

(** the operations on double *)
Record number (T : Type) := Number {
  n_lt : T → T → bool; n_le : T → T → bool; n_eq : T → T → bool;
  nadd : T → T → T; nsub : T → T → T; nmul : T → T → T; nopp : T → T;
  ndiv : T → T → outcome T;
  nint : Z → T;                    (** conversion from int; literals such as 3 and 2.0 *)
  ndec : Z → Z → outcome T;        (** [ndec m k]: the literal m * 10^-k *)
  ntrunc : T → outcome Z;          (** (int)x *)
  nneginf : outcome T; nnan : outcome T;  (** -infinity(), quiet_NaN() of numeric_limits *)
}.
Global Arguments n_lt {_}. Global Arguments n_le {_}. Global Arguments n_eq {_}.
Global Arguments nadd {_}. Global Arguments nsub {_}. Global Arguments nmul {_}.
Global Arguments nopp {_}. Global Arguments ndiv {_}. Global Arguments nint {_}.
Global Arguments ndec {_}. Global Arguments ntrunc {_}. Global Arguments nneginf {_}. Global Arguments nnan {_}.

Section cmath.
  Context {T : Type} (N : number T).
  Local Notation "x + y" := (nadd N x y).
  Local Notation "x - y" := (nsub N x y).
  Local Notation "x * y" := (nmul N x y).
  Local Notation "- x" := (nopp N x).
  Local Notation "x / y" := (ndiv N x y).
  Local Notation "x <? y" := (n_lt N x y).
  Local Notation "x <=? y" := (n_le N x y).
  Local Notation "x =? y" := (n_eq N x y).
  Local Notation "# z" := (nint N z) (at level 1, format "# z").
  Implicit Types (x y r v base g delta : T) (n : nat).

  (** cmath.hpp 8-10: CEST_M_PI, CEST_M_PI_2, CEST_M_E; 20: tol *)
  Definition m_pi : outcome T := ndec N 3141592653589793 15.
  Definition m_pi_2 : outcome T := ndec N 1570796326794897 15.
  Definition m_e : outcome T := ndec N 2718281828459045 15.
  Definition tol : outcome T := ndec N 1 3.
  (** 0.5, 0.1, 2.3025851 *)
  Definition half : outcome T := ndec N 5 1.
  Definition tenth : outcome T := ndec N 1 1.
  Definition ln10 : outcome T := ndec N 23025851 7.

  (** bits/abs.hpp 6-7: abs, fabs *)
  Definition m_abs x : T := if x <? #0 then - x else x.
  Definition m_fabs x : T := m_abs x.
  (** cmath.hpp 22-24: square; 26-28: cube *)
  Definition square x : T := x * x.
  Definition cube x : T := x * x * x.

  (** 136-141: pow(double, int) *)
  Fixpoint m_pow n base (exponent : Z) : outcome T :=
    match n with O => Unfinished | S n =>
      if (exponent <? 0)%Z then
        e <~ int_ok (- exponent)%Z ;; p <~ m_pow n base e ;; #1 / p
      else if (exponent =? 0)%Z then Value #1
      else if (exponent =? 1)%Z then Value base
      else p <~ m_pow n base (exponent - 1)%Z ;; Value (base * p)
    end.

  (** 30-33: sqrt_helper *)
  Fixpoint sqrt_helper n x g : outcome T :=
    match n with O => Unfinished | S n =>
      t <~ tol ;; q <~ x / g ;;
      if m_abs (g - q) <? t * g then Value g
      else q <~ x / g ;; g' <~ (g + q) / #2 ;; sqrt_helper n x g'
    end.
  (** 143-145: sqrt *)
  Definition m_sqrt n x : outcome T := sqrt_helper n x #1.

  (** 35-37: sin_helper *)
  Fixpoint sin_helper n x : outcome T :=
    match n with O => Unfinished | S n =>
      t <~ tol ;;
      if x <? t then Value x
      else a <~ x / #3 ;; a <~ sin_helper n a ;; b <~ x / #3 ;; b <~ sin_helper n b ;;
           Value (#3 * a - #4 * cube b)
    end.
  (** 39-41: sinh_helper *)
  Fixpoint sinh_helper n x : outcome T :=
    match n with O => Unfinished | S n =>
      t <~ tol ;;
      if x <? t then Value x
      else a <~ x / #3 ;; a <~ sinh_helper n a ;; b <~ x / #3 ;; b <~ sinh_helper n b ;;
           Value (#3 * a + #4 * cube b)
    end.
  (** 147-149: sin; 151-153: sinh *)
  Definition m_sin n x : outcome T :=
    p <~ m_pi ;; sin_helper n (if x <? #0 then - x + p else x).
  Definition m_sinh n x : outcome T :=
    if x <? #0 then r <~ sinh_helper n (- x) ;; Value (- r) else sinh_helper n x.
  (** 124-126: cos; 128-130: cosh *)
  Definition m_cos n x : outcome T := p <~ m_pi_2 ;; m_sin n (p - x).
  Definition m_cosh n x : outcome T :=
    s <~ m_sinh n x ;; m_sqrt n (#1 + square s).

  (** 43-50: atan_poly_helper *)
  Fixpoint atan_poly_helper n (res num1 den1 delta : T) : outcome T :=
    match n with O => Unfinished | S n =>
      t <~ tol ;;
      if res <? t then Value res
      else a <~ (num1 * delta) / (den1 + #2) ;; b <~ num1 / den1 ;;
           r <~ atan_poly_helper n (a - b) (num1 * delta * delta) (den1 + #4) delta ;;
           Value (res + r)
    end.
  (** 52-54: atan_poly *)
  Definition atan_poly n x : outcome T :=
    p5 <~ m_pow n x 5 ;; a <~ p5 / #5 ;; p3 <~ m_pow n x 3 ;; b <~ p3 / #3 ;; p7 <~ m_pow n x 7 ;;
    r <~ atan_poly_helper n (a - b) p7 #7 (x * x) ;;
    Value (x + r).
  (** 56-59: atan_identity *)
  Definition atan_identity n x : outcome T :=
    s <~ m_sqrt n #3 ;;
    if x <=? #2 - s then atan_poly n x
    else h <~ m_pi_2 ;; c <~ h / #3 ;; s <~ m_sqrt n #3 ;; s' <~ m_sqrt n #3 ;;
         q <~ (s * x - #1) / (s' + x) ;; p <~ atan_poly n q ;; Value (c + p).
  (** 61-63: atan_cmplmntry *)
  Definition atan_cmplmntry n x : outcome T :=
    if x <? #1 then atan_identity n x
    else h <~ m_pi_2 ;; q <~ #1 / x ;; r <~ atan_identity n q ;; Value (h - r).
  (** 108-110: atan *)
  Definition m_atan n x : outcome T :=
    if #0 <=? x then atan_cmplmntry n x
    else r <~ atan_cmplmntry n (- x) ;; Value (- r).
  (** 112-118: atan2 *)
  Definition m_atan2 n y x : outcome T :=
    if #0 <? x then q <~ y / x ;; m_atan n q
    else if (#0 <=? y) && (x <? #0) then q <~ y / x ;; a <~ m_atan n q ;; p <~ m_pi ;; Value (a + p)
    else if (y <? #0) && (x <? #0) then q <~ y / x ;; a <~ m_atan n q ;; p <~ m_pi ;; Value (a - p)
    else if (#0 <? y) && (x =? #0) then m_pi_2
    else if (y <? #0) && (x =? #0) then h <~ m_pi_2 ;; Value (- h)
    else Value #0.

  (** 120-122: ceil; 132-134: floor. The conditional has type double and is
      converted to int by the return. *)
  Definition m_ceil v : outcome Z :=
    i <~ ntrunc N v ;; ntrunc N (if negb (#i =? v) && (#0 <? v) then v + #1 else v).
  Definition m_floor v : outcome Z :=
    i <~ ntrunc N v ;; ntrunc N (if negb (#i =? v) && (v <? #0) then v - #1 else v).

  (** 65-69: exp_helper *)
  Definition exp_helper n r : outcome T :=
    p2 <~ m_pow n r 2 ;; p2 <~ p2 / #2 ;; p3 <~ m_pow n r 3 ;; p3 <~ p3 / #6 ;;
    p4 <~ m_pow n r 4 ;; p4 <~ p4 / #24 ;; p5 <~ m_pow n r 5 ;; p5 <~ p5 / #120 ;;
    p6 <~ m_pow n r 6 ;; p6 <~ p6 / #720 ;; p7 <~ m_pow n r 7 ;; p7 <~ p7 / #5040 ;;
    Value (#1 + r + p2 + p3 + p4 + p5 + p6 + p7).
  (** 97-99: nearest; 101-104: fraction *)
  Definition nearest x : outcome T :=
    h <~ half ;; i <~ ntrunc N x ;;
    if #i <? x - h then j <~ ntrunc N (x + h) ;; Value #j else i <~ ntrunc N x ;; Value #i.
  Definition fraction x : outcome T :=
    h <~ half ;; i <~ ntrunc N x ;;
    if #i <? x - h then j <~ ntrunc N (x + h) ;; Value (- (#j - x))
    else i <~ ntrunc N x ;; Value (x - #i).
  (** 155-159: exp *)
  Definition m_exp n x : outcome T :=
    e <~ m_e ;; k <~ nearest x ;; k <~ ntrunc N k ;; p <~ m_pow n e k ;;
    f <~ fraction x ;; q <~ exp_helper n f ;; Value (p * q).

  (** 71-75: exponent_helper; 77-79: exponent *)
  Fixpoint exponent_helper n x (e : Z) : outcome Z :=
    match n with O => Unfinished | S n =>
      if #10 <=? x then t <~ tenth ;; e <~ int_ok (e + 1)%Z ;; exponent_helper n (x * t) e
      else if x <? #1 then e <~ int_ok (e - 1)%Z ;; exponent_helper n (x * #10) e
      else Value e
    end.
  Definition exponent n x : outcome Z := exponent_helper n x 0.
  (** 81-85: mantissa *)
  Fixpoint mantissa n x : outcome T :=
    match n with O => Unfinished | S n =>
      if #10 <=? x then t <~ tenth ;; mantissa n (x * t)
      else if x <? #1 then mantissa n (x * #10)
      else Value x
    end.
  (** 87-90: log_helper2; 93-95: log_helper *)
  Definition log_helper2 n y : outcome T :=
    p3 <~ m_pow n y 3 ;; p3 <~ p3 / #3 ;; p5 <~ m_pow n y 5 ;; p5 <~ p5 / #5 ;;
    p7 <~ m_pow n y 7 ;; p7 <~ p7 / #7 ;; p9 <~ m_pow n y 9 ;; p9 <~ p9 / #9 ;;
    p11 <~ m_pow n y 11 ;; p11 <~ p11 / #11 ;;
    Value (#2 * (y + p3 + p5 + p7 + p9 + p11)).
  Definition log_helper n x : outcome T := q <~ (x - #1) / (x + #1) ;; log_helper2 n q.
  (** 161-165: log *)
  Definition m_log n x : outcome T :=
    if x =? #0 then nneginf N
    else if x <? #0 then nnan N
    else m <~ mantissa n x ;; s <~ m_sqrt n m ;; l <~ log_helper n s ;;
         c <~ ln10 ;; e <~ exponent n x ;; Value (#2 * l + c * #e).
End cmath.

(** IEEE 754 double precision, rounding to nearest even, as the standard library
    of Coq specifies it. A NaN has no sign and no payload here. Division by zero
    gives an infinity or NaN, as at run time. *)
Definition dprec : Z := 53.
Definition demax : Z := 1024.
Definition dint (z : Z) : spec_float := binary_normalize dprec demax z 0 false.
(** (int)x: towards zero *)
Definition dtrunc (x : spec_float) : outcome Z :=
  match x with
  | S754_zero _ => Value 0
  | S754_finite s m e =>
      int_ok (cond_Zopp s (if 0 <=? e then Zpos m * 2 ^ e else Zpos m / 2 ^ (- e)))
  | _ => Undefined
  end.
(** A literal is rounded to the nearest double: here m and 10^k are both exact
    (below 2^53), so that one rounded division gives it. *)
Definition ddec (m k : Z) : outcome spec_float :=
  Value (SFdiv dprec demax (dint m) (dint (10 ^ k))).
Definition dbl : number spec_float :=
  Number _ SFltb SFleb SFeqb (SFadd dprec demax) (SFsub dprec demax) (SFmul dprec demax) SFopp
    (λ x y, Value (SFdiv dprec demax x y)) dint ddec dtrunc
    (Value (S754_infinity true)) (Value S754_nan).
