(** Model of the functions of /repo/include/cest/complex.hpp that use sin, cos,
    exp, log and atan2 of the scalar type: arg 598-603, polar 662-668 and, in the
    form they have without _GLIBCXX_USE_C99_COMPLEX, cos 678-686, cosh 706-714,
    exp 734-738, log 764-769, sin 797-805, sinh 825-833.

    The scalar functions are parameters; they may fail to return.  Which operand
    is computed first is unspecified: here, the left one.  Not modelled: the assertion in polar that
    the modulus is not negative; sqrt, tan, tanh, log10 and the other overloads of
    pow, which call functions of std:: that do not take cest::complex. *)
From Verif Require Export ModelComplex.

(** the functions of the scalar type *)
Record scalar_funs (T : Type) := ScalarFuns {
  f_sin : T → M (T * T) T; f_cos : T → M (T * T) T; f_sinh : T → M (T * T) T; f_cosh : T → M (T * T) T;
  f_exp : T → M (T * T) T; f_log : T → M (T * T) T; f_atan2 : T → T → M (T * T) T;
  f_abs : T → T; f_max : T → T → T; f_sqrt : T → M (T * T) T;
}.
Global Arguments f_sin {_}. Global Arguments f_cos {_}. Global Arguments f_sinh {_}. Global Arguments f_cosh {_}.
Global Arguments f_exp {_}. Global Arguments f_log {_}. Global Arguments f_atan2 {_}. Global Arguments f_abs {_}.
Global Arguments f_max {_}. Global Arguments f_sqrt {_}.

Section funs.
  Context {T : Type} (A : arith T) (F : scalar_funs T).
  Notation MC := (M (T * T)).
  Local Notation "x * y" := (tmul A x y).
  (** __complex_arg: 598-603 *)
  Definition c_arg (z : loc) : MC T := i <- c_imag z ;; r <- c_real z ;; f_atan2 F i r.
  (** polar: 662-668 *)
  Definition c_polar (rho theta : T) : MC (T * T) :=
    c <- f_cos F theta ;; s <- f_sin F theta ;; ret (rho * c, rho * s).
  (** __complex_cos: 678-686; unary minus binds tighter than the product *)
  Definition c_cos (z : loc) : MC (T * T) :=
    x <- c_real z ;; y <- c_imag z ;;
    a <- f_cos F x ;; b <- f_cosh F y ;; c <- f_sin F x ;; d <- f_sinh F y ;; ret (a * b, topp A c * d).
  (** __complex_cosh: 706-714 *)
  Definition c_cosh (z : loc) : MC (T * T) :=
    x <- c_real z ;; y <- c_imag z ;;
    a <- f_cosh F x ;; b <- f_cos F y ;; c <- f_sinh F x ;; d <- f_sin F y ;; ret (a * b, c * d).
  (** __complex_exp: 734-738 *)
  Definition c_exp (z : loc) : MC (T * T) :=
    x <- c_real z ;; e <- f_exp F x ;; y <- c_imag z ;; c_polar e y.
  (** __complex_log: 764-769 *)
  Definition c_log (z : loc) : MC (T * T) :=
    a <- c_abs A (f_abs F) (f_max F) (f_sqrt F) z ;; l <- f_log F a ;; t <- c_arg z ;; ret (l, t).
  (** __complex_sin: 797-805 *)
  Definition c_sin (z : loc) : MC (T * T) :=
    x <- c_real z ;; y <- c_imag z ;;
    a <- f_sin F x ;; b <- f_cosh F y ;; c <- f_cos F x ;; d <- f_sinh F y ;; ret (a * b, c * d).
  (** __complex_sinh: 825-833 *)
  Definition c_sinh (z : loc) : MC (T * T) :=
    x <- c_real z ;; y <- c_imag z ;;
    a <- f_sinh F x ;; b <- f_cos F y ;; c <- f_cosh F x ;; d <- f_sin F y ;; ret (a * b, c * d).
End funs.
