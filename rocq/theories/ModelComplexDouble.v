(** cest::complex<double>: the arithmetic is that of IEEE doubles, and the scalar
    functions are those of /repo/include/cest/cmath.hpp and bits/abs.hpp, as
    ModelCmath models them.  [depth] bounds the depth of their calls: exceeding it
    is divergence.  max is std::max. *)
From Verif Require Export ModelComplexFun ModelCmath.
From Coq Require Import ZArith.
From Coq.Floats Require Import SpecFloat.

Definition darith : arith spec_float :=
  Arith spec_float (nint dbl 0) (nint dbl 1) (nadd dbl) (nsub dbl) (nmul dbl) (SFdiv dprec demax) (nopp dbl) (n_eq dbl).
Definition d_max (a b : spec_float) : spec_float := if n_lt dbl a b then b else a.
Definition lift {C A} (o : outcome A) : M C A :=
  match o with Value v => ret v | Undefined => ub | Unfinished => diverge end.
Definition dfuns (depth : nat) : scalar_funs spec_float :=
  ScalarFuns spec_float (λ x, lift (m_sin dbl depth x)) (λ x, lift (m_cos dbl depth x))
    (λ x, lift (m_sinh dbl depth x)) (λ x, lift (m_cosh dbl depth x)) (λ x, lift (m_exp dbl depth x))
    (λ x, lift (m_log dbl depth x)) (λ y x, lift (m_atan2 dbl depth y x))
    (m_abs dbl) d_max (λ x, lift (m_sqrt dbl depth x)).
Definition cd_abs (depth : nat) (z : loc) : M (spec_float * spec_float) spec_float :=
  c_abs darith (m_abs dbl) d_max (λ x, lift (m_sqrt dbl depth x)) z.
