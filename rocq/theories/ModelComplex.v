(** Model of cest::complex: /repo/include/cest/complex.hpp, for any scalar type.

    An object is a cell of memory holding its two members; a reference parameter
    is an address, so that [z *= z] is the call with the two addresses equal.
    The members are private, and real() and imag() return by value, so a [const
    _Tp&] parameter never refers to a member; scalars are passed as values.
    Assignments to the two members are separate, in the order of the code.

    Not modelled: operator>> (461-512), the functions on doubles that the macro
    _GLIBCXX_USE_C99_COMPLEX adds (GCC's __complex__ types), and sqrt, tan, tanh,
    log10 and two of the pow overloads, which call functions in std:: that do not
    take cest::complex. The other functions of 664-957 are in ModelComplexFun.v. *)
From Verif Require Export Mem.

(** the operations of the scalar type *)
Record arith (T : Type) := Arith {
  t0 : T; t1 : T;                        (** _Tp(), _Tp(1) *)
  tadd : T → T → T; tsub : T → T → T; tmul : T → T → T; tdiv : T → T → T; topp : T → T;
  teqb : T → T → bool;
}.
Global Arguments t0 {_}. Global Arguments t1 {_}. Global Arguments tadd {_}. Global Arguments tsub {_}.
Global Arguments tmul {_}. Global Arguments tdiv {_}. Global Arguments topp {_}. Global Arguments teqb {_}.

Section complex.
  Context {T : Type} (A : arith T).
  Notation MC := (M (T * T)).
  Local Notation "x + y" := (tadd A x y).
  Local Notation "x - y" := (tsub A x y).
  Local Notation "x * y" := (tmul A x y).
  Local Notation "x / y" := (tdiv A x y).
  Implicit Types (this z x y : loc) (t : T).

  (** real(), imag(): 118-124; the members *)
  Definition c_real z : MC T := v <- load z ;; ret v.1.
  Definition c_imag z : MC T := v <- load z ;; ret v.2.
  (** real(val), imag(val): 141-145 *)
  Definition c_set_real this t : MC unit := v <- load this ;; store this (t, v.2).
  Definition c_set_imag this t : MC unit := v <- load this ;; store this (v.1, t).
  (** constructors: 97-111 *)
  Definition c_new (r i : T) : MC loc := new (r, i).
  Definition c_copy z : MC loc := r <- c_real z ;; i <- c_imag z ;; new (r, i).

  (** scalar operators: operator= 202-209, += 150-157, -= 159-166, *= 211-219,
      /= 221-229 *)
  Definition c_assign_t this t : MC unit := c_set_real this t ;;; c_set_imag this (t0 A).
  Definition c_add_t this t : MC unit := r <- c_real this ;; c_set_real this (r + t).
  Definition c_sub_t this t : MC unit := r <- c_real this ;; c_set_real this (r - t).
  Definition c_mul_t this t : MC unit :=
    r <- c_real this ;; c_set_real this (r * t) ;;; i <- c_imag this ;; c_set_imag this (i * t).
  Definition c_div_t this t : MC unit :=
    r <- c_real this ;; c_set_real this (r / t) ;;; i <- c_imag this ;; c_set_imag this (i / t).

  (** norm: 632-661 (both specialisations of the helper are the same) *)
  Definition c_norm z : MC T := x <- c_real z ;; y <- c_imag z ;; ret (x * x + y * y).
  (** operator=: 231-239, += 241-250, -= 252-261 *)
  Definition c_assign this z : MC unit :=
    r <- c_real z ;; c_set_real this r ;;; i <- c_imag z ;; c_set_imag this i.
  Definition c_add_c this z : MC unit :=
    a <- c_real this ;; r <- c_real z ;; c_set_real this (a + r) ;;;
    b <- c_imag this ;; i <- c_imag z ;; c_set_imag this (b + i).
  Definition c_sub_c this z : MC unit :=
    a <- c_real this ;; r <- c_real z ;; c_set_real this (a - r) ;;;
    b <- c_imag this ;; i <- c_imag z ;; c_set_imag this (b - i).
  (** *=: 263-274 *)
  Definition c_mul_c this z : MC unit :=
    a <- c_real this ;; zr <- c_real z ;; b <- c_imag this ;; zi <- c_imag z ;;
    let r := a * zr - b * zi in
    a <- c_real this ;; zi <- c_imag z ;; b <- c_imag this ;; zr <- c_real z ;;
    c_set_imag this (a * zi + b * zr) ;;;
    c_set_real this r.
  (** /=: 276-288 *)
  Definition c_div_c this z : MC unit :=
    a <- c_real this ;; zr <- c_real z ;; b <- c_imag this ;; zi <- c_imag z ;;
    let r := a * zr + b * zi in
    n <- c_norm z ;;
    b <- c_imag this ;; zr <- c_real z ;; a <- c_real this ;; zi <- c_imag z ;;
    c_set_imag this ((b * zr - a * zi) / n) ;;;
    c_set_real this (r / n).

  (** A function that returns a local object: the object is gone, its value the
      result. *)
  Definition returning (r : loc) : MC (T * T) := v <- load r ;; free r ;;; ret v.
  (** a local object holding a value (the result of an operator used as argument) *)
  Definition with_val {B} (v : T * T) (f : loc → MC B) : MC B := l <- new v ;; b <- f l ;; free l ;;; ret b.

  (** operators: + 292-320, - 322-349, * 351-379, / 381-409 *)
  Definition op_add x y : MC (T * T) := r <- c_copy x ;; c_add_c r y ;;; returning r.
  Definition op_add_t x t : MC (T * T) := r <- c_copy x ;; c_add_t r t ;;; returning r.
  Definition t_op_add t y : MC (T * T) := r <- c_copy y ;; c_add_t r t ;;; returning r.
  Definition op_sub x y : MC (T * T) := r <- c_copy x ;; c_sub_c r y ;;; returning r.
  Definition op_sub_t x t : MC (T * T) := r <- c_copy x ;; c_sub_t r t ;;; returning r.
  (** unary minus: 417-421 *)
  Definition op_neg x : MC (T * T) := r <- c_real x ;; i <- c_imag x ;; ret (topp A r, topp A i).
  Definition t_op_sub t y : MC (T * T) := v <- op_neg y ;; r <- new v ;; c_add_t r t ;;; returning r.
  Definition op_mul x y : MC (T * T) := r <- c_copy x ;; c_mul_c r y ;;; returning r.
  Definition op_mul_t x t : MC (T * T) := r <- c_copy x ;; c_mul_t r t ;;; returning r.
  Definition t_op_mul t y : MC (T * T) := r <- c_copy y ;; c_mul_t r t ;;; returning r.
  Definition op_div x y : MC (T * T) := r <- c_copy x ;; c_div_c r y ;;; returning r.
  Definition op_div_t x t : MC (T * T) := r <- c_copy x ;; c_div_t r t ;;; returning r.
  Definition t_op_div t y : MC (T * T) := r <- c_new t (t0 A) ;; c_div_c r y ;;; returning r.
  (** ==: 423-439, !=: 442-457 *)
  Definition op_eq x y : MC bool :=
    a <- c_real x ;; c <- c_real y ;; b <- c_imag x ;; d <- c_imag y ;; ret (teqb A a c && teqb A b d).
  Definition op_eq_t x t : MC bool := a <- c_real x ;; b <- c_imag x ;; ret (teqb A a t && teqb A b (t0 A)).
  Definition t_op_eq t y : MC bool := a <- c_real y ;; b <- c_imag y ;; ret (teqb A t a && teqb A (t0 A) b).
  Definition op_ne x y : MC bool :=
    a <- c_real x ;; c <- c_real y ;; b <- c_imag x ;; d <- c_imag y ;; ret (negb (teqb A a c) || negb (teqb A b d)).
  (** conj: 671-674 *)
  Definition c_conj z : MC (T * T) := r <- c_real z ;; i <- c_imag z ;; ret (r, topp A i).

  (** __complex_abs: 562-575, with the scalar functions abs, max and sqrt *)
  Definition c_abs (tabs : T → T) (tmax : T → T → T) (tsqrt : T → MC T) z : MC T :=
    x <- c_real z ;; y <- c_imag z ;;
    let s := tmax (tabs x) (tabs y) in
    if teqb A s (t0 A) then ret s else
    let x := x / s in
    let y := y / s in
    q <- tsqrt (x * x + y * y) ;; ret (s * q).

  (** __complex_pow_unsigned: 959-973; [n] is unsigned, [x] by value *)
  Fixpoint pow_loop (fuel : nat) (x y : loc) (n : N) : MC unit :=
    match fuel with
    | O => diverge
    | S fuel =>
        let n := N.shiftr n 1 in
        if N.eqb n 0 then ret tt else
        c_mul_c x x ;;;
        (if N.eqb (n mod 2) 0 then ret tt else c_mul_c y x) ;;;
        pow_loop fuel x y n
    end.
  Definition pow_unsigned (xv : T * T) (n : N) : MC (T * T) :=
    x <- new xv ;;
    y <- (if N.eqb (n mod 2) 0 then new (t1 A, t0 A) else c_copy x) ;;
    pow_loop 32 x y n ;;;
    free x ;;; returning y.
  (** pow(z, n): 981-988; -(unsigned)n is modulo 2^32 *)
  Definition c_pow z (n : Z) : MC (T * T) :=
    v <- load z ;;
    if (n <? 0)%Z then
      p <- pow_unsigned v (Z.to_N ((2 ^ 32 - n mod 2 ^ 32) mod 2 ^ 32)) ;;
      with_val (t1 A, t0 A) (λ one, with_val p (λ l, op_div one l))
    else pow_unsigned v (Z.to_N n).
End complex.
