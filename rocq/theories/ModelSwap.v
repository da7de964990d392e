(** Model of nary::swap and nary::swapr — /repo/include/cest/swap.hpp.

    The variables passed by reference are "places" of an arbitrary type [P];
    [mv] moves the value out of a place and [wr] assigns to it.  The fold
    expressions over [wrap] objects become recursion over the argument list. *)
From Verif Require Export Mem.

Section swap.
  Context {C P T : Type} (mv : P → M C T) (wr : P → T → M C unit).

  (** [(... + wrap{xs})] with operator+ assigning right to left operand and
      returning the right one, 26-31; the last operand is [tmp]. *)
  Fixpoint fold_left_wrap (x : P) (xs : list P) (tmp : T) : M C unit :=
    match xs with
    | [] => wr x tmp
    | y :: ys => v <- mv y ;; wr x v ;;; fold_left_wrap y ys tmp
    end.
  (** swap(): 14; swap(x, xs...): 16-32 *)
  Definition nary_swap (xs : list P) : M C unit :=
    match xs with
    | [] => ret tt
    | x :: xs => tmp <- mv x ;; fold_left_wrap x xs tmp
    end.

  (** [(wrap{xs} + ...)] with operator+ assigning the left operand to the right
      one and returning the left one, 47-52: the innermost sum (last two
      operands) is evaluated first.  The first operand is [tmp]. *)
  Fixpoint fold_right_wrap (x : P) (xs : list P) : M C unit :=
    match xs with
    | [] => ret tt
    | y :: ys => fold_right_wrap y ys ;;; (v <- mv x ;; wr y v)
    end.
  (** swapr(), swapr(x): 34-35; swapr(x, xs...): 37-53.  [(xs , ...)] is the
      last argument. *)
  Definition nary_swapr (xs : list P) : M C unit :=
    match xs with
    | [] | [_] => ret tt
    | x :: xs =>
        tmp <- mv (List.last xs x) ;;
        fold_right_wrap x xs ;;; wr x tmp
    end.
End swap.

(** Variables as memory cells; a moved-from variable is [None] and moving from
    it again is reported as undefined (its value is unspecified in C++). *)
Definition var_move {T} (l : loc) : M (option T) T :=
  c <- load l ;;
  match c with Some v => store l None ;;; ret v | None => ub end.
Definition var_assign {T} (l : loc) (v : T) : M (option T) unit := store l (Some v).
Definition swap_vars {T} (ls : list loc) : M (option T) unit := nary_swap var_move var_assign ls.
Definition swapr_vars {T} (ls : list loc) : M (option T) unit := nary_swapr var_move var_assign ls.
