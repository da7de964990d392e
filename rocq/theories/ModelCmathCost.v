(** How often the helpers of sin and sinh are called: include/cest/cmath.hpp. *)
From stdpp Require Import base.
From Coq Require Import ZArith.
From Verif Require Import ModelCmath.

(** 35-37, 39-41: sin_helper and sinh_helper call themselves twice, with the same
    argument x / 3; the number of calls that a call makes, itself included *)
Fixpoint helper_calls {T} (N : number T) (n : nat) (x : T) : outcome Z :=
  match n with O => Unfinished | S n =>
    obind (tol N) (λ t,
    if n_lt N x t then Value 1%Z
    else obind (ndiv N x (nint N 3)) (λ a, obind (helper_calls N n a) (λ i,
         obind (ndiv N x (nint N 3)) (λ b, obind (helper_calls N n b) (λ j,
         Value (1 + i + j)%Z)))))
  end.
(** 147-149: the calls of sin *)
Definition sin_calls {T} (N : number T) n (x : T) : outcome Z :=
  obind (m_pi N) (λ p, helper_calls N n (if n_lt N x (nint N 0) then nadd N (nopp N x) p else x)).
(** 151-153: the calls of sinh *)
Definition sinh_calls {T} (N : number T) n (x : T) : outcome Z :=
  helper_calls N n (if n_lt N x (nint N 0) then nopp N x else x).
