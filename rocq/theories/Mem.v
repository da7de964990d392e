(** Memory model shared by all heap components.

    This file is the semantics of the C++ abstract machine we use; it models no
    /repo code by itself, but stands for the language and library primitives that
    the headers call: [std::allocator::allocate/deallocate], object storage,
    [throw]/stack unwinding.  It contains no proofs. *)
From stdpp Require Export gmap numbers option list.

(** Addresses.  A null pointer is [None : option loc]. *)
Definition loc := positive.
Definition ptr := option loc.

(** The exceptions the modelled code can throw. *)
Inductive exn :=
  | BadAlloc      (** std::bad_alloc, thrown by the allocator *)
  | CopyThrow     (** whatever an element's copy/default constructor throws *)
  | OutOfRange    (** std::out_of_range, vector.hpp 166, 173 *)
  | IosFailure.   (** std::ios_base::failure (basic_ios.hpp) *)

Global Instance exn_eq_dec : EqDecision exn.
Proof. solve_decision. Defined.

(** [blk]: live storage; [nxt]: next fresh address (addresses are never reused,
    so that any access through a dangling pointer is visible); [aorc]: oracle
    telling for each future allocation whether it fails; [corc]: oracle telling
    for each future element construction/assignment whether it throws.  An
    exhausted oracle means "no failure". *)
Record mem (C : Type) := Mem {
  blk : gmap loc C;
  nxt : loc;
  aorc : list bool;
  corc : list bool;
}.
Global Arguments Mem {_} _ _ _ _.
Global Arguments blk {_} _.
Global Arguments nxt {_} _.
Global Arguments aorc {_} _.
Global Arguments corc {_} _.

(** Results: normal return, exception, undefined behaviour, and "did not finish
    within its loop bound" (always excluded by the theorems). *)
Inductive res (C A : Type) :=
  | Ok (a : A) (m : mem C)
  | Exn (e : exn) (m : mem C)
  | UB
  | Div.
Global Arguments Ok {_ _} _ _.
Global Arguments Exn {_ _} _ _.
Global Arguments UB {_ _}.
Global Arguments Div {_ _}.

Definition M (C A : Type) := mem C → res C A.

Section ops.
  Context {C : Type}.
  Implicit Types m : mem C.

  Definition ret {A} (a : A) : M C A := λ m, Ok a m.
  Definition bind {A B} (f : M C A) (k : A → M C B) : M C B := λ m,
    match f m with
    | Ok a m' => k a m'
    | Exn e m' => Exn e m'
    | UB => UB
    | Div => Div
    end.
  Definition ub {A} : M C A := λ _, UB.
  Definition diverge {A} : M C A := λ _, Div.
  Definition throw {A} (e : exn) : M C A := λ m, Exn e m.

  (** Run [f]; if it throws, run the handler. *)
  Definition catch {A} (f : M C A) (h : exn → M C A) : M C A := λ m,
    match f m with
    | Exn e m' => h e m'
    | r => r
    end.

  (** Stack unwinding: if [f] throws, run the cleanup (destructors of the
      completely constructed sub-objects) and rethrow. *)
  Definition on_throw {A} (f : M C A) (cleanup : M C unit) : M C A :=
    catch f (λ e, bind cleanup (λ _, throw e)).

  (** Dynamic allocation (may throw std::bad_alloc). *)
  Definition alloc (c : C) : M C loc := λ m,
    match aorc m with
    | true :: o => Exn BadAlloc (Mem (blk m) (nxt m) o (corc m))
    | o => Ok (nxt m) (Mem (<[nxt m := c]> (blk m)) (Pos.succ (nxt m)) (tail o) (corc m))
    end.

  (** An object with automatic storage: never fails. *)
  Definition new (c : C) : M C loc := λ m,
    Ok (nxt m) (Mem (<[nxt m := c]> (blk m)) (Pos.succ (nxt m)) (aorc m) (corc m)).

  (** End of storage duration / deallocation of an address. *)
  Definition free (l : loc) : M C unit := λ m,
    match blk m !! l with
    | Some _ => Ok tt (Mem (delete l (blk m)) (nxt m) (aorc m) (corc m))
    | None => UB
    end.

  Definition load (l : loc) : M C C := λ m,
    match blk m !! l with
    | Some c => Ok c m
    | None => UB
    end.

  Definition store (l : loc) (c : C) : M C unit := λ m,
    match blk m !! l with
    | Some _ => Ok tt (Mem (<[l := c]> (blk m)) (nxt m) (aorc m) (corc m))
    | None => UB
    end.

  (** A point at which a user element constructor or assignment may throw. *)
  Definition may_throw : M C unit := λ m,
    match corc m with
    | true :: o => Exn CopyThrow (Mem (blk m) (nxt m) (aorc m) o)
    | o => Ok tt (Mem (blk m) (nxt m) (aorc m) (tail o))
    end.

  (** Pick a loop bound from the heap size: structures have at most one cell per
      node, so a loop walking distinct nodes ends within this bound. *)
  Definition with_fuel {A} (k : nat → M C A) : M C A := λ m,
    k (S (size (blk m))) m.

  (** [for (i = from; i < from+n; i++) body i]; used where neither [i] nor the
      bound is changed by the body. *)
  Fixpoint for_up (from n : nat) (body : nat → M C unit) : M C unit :=
    match n with
    | O => ret tt
    | S n' => bind (body from) (λ _, for_up (S from) n' body)
    end.
End ops.

Notation "x <- f ;; k" := (bind f (λ x, k))
  (at level 100, f at next level, right associativity).
Notation "f ;;; k" := (bind f (λ _, k)) (at level 100, right associativity).
Notation "' pat <- f ;; k" := (bind f (λ pat, k))
  (at level 100, pat pattern, f at next level, right associativity).

(** Outcome of one client call. *)
Inductive outcome (A : Type) := Ret (a : A) | Threw (e : exn).
Global Arguments Ret {_} _.
Global Arguments Threw {_} _.

(** The memory a program starts with: nothing allocated, arbitrary oracles. *)
Definition mem0 {C} (ao co : list bool) : mem C := Mem ∅ 1%positive ao co.
