(** The complex plane over a field: pairs, with (0,1) squared = -1. *)
From Coq Require Export Field.
From Verif Require Import Hist ModelComplex.

Section plane.
  Context {T : Type} (A : arith T).
  Local Notation "x + y" := (tadd A x y).
  Local Notation "x - y" := (tsub A x y).
  Local Notation "x * y" := (tmul A x y).
  Local Notation "x / y" := (tdiv A x y).

  Definition cadd (v w : T * T) : T * T := (v.1 + w.1, v.2 + w.2).
  Definition csub (v w : T * T) : T * T := (v.1 - w.1, v.2 - w.2).
  Definition copp (v : T * T) : T * T := (topp A v.1, topp A v.2).
  Definition cmul (v w : T * T) : T * T := (v.1 * w.1 - v.2 * w.2, v.1 * w.2 + v.2 * w.1).
  Definition norm2 (v : T * T) : T := v.1 * v.1 + v.2 * v.2.
  Definition cinv (v : T * T) : T * T := (v.1 / norm2 v, topp A v.2 / norm2 v).
  Definition cdiv (v w : T * T) : T * T := cmul v (cinv w).
  Definition cconj (v : T * T) : T * T := (v.1, topp A v.2).
  Definition of_t (t : T) : T * T := (t, t0 A).
  Definition c1 : T * T := of_t (t1 A).
  Definition c0 : T * T := of_t (t0 A).
  (** v * v * ... * v *)
  Fixpoint cpow (v : T * T) (n : nat) : T * T := match n with O => c1 | S n => cmul v (cpow v n) end.

  (** The scalars are a field in which equality is decidable... *)
  Definition exact_field : Prop :=
    field_theory (t0 A) (t1 A) (tadd A) (tmul A) (tsub A) (topp A) (tdiv A) (tdiv A (t1 A)) eq ∧
    ∀ x y, teqb A x y = true ↔ x = y.
  (** ...or only a commutative ring *)
  Definition exact_ring : Prop :=
    ring_theory (t0 A) (t1 A) (tadd A) (tmul A) (tsub A) (topp A) eq ∧ ∀ x y, teqb A x y = true ↔ x = y.
  (** only zero has norm zero, as over the rationals and the reals *)
  Definition definite : Prop := ∀ x y, x * x + y * y = t0 A → x = t0 A ∧ y = t0 A.
End plane.

(** [m] with the object [l] assigned *)
Definition assigned {C} (m : mem C) (l : loc) (v : C) : mem C := Mem (<[l := v]> (blk m)) (nxt m) (aorc m) (corc m).
(** [f] returns [b]; no object is changed, none is left behind *)
Definition yields {C B} (f : M C B) (b : B) (m : mem C) : Prop :=
  ∃ m', f m = Ok b m' ∧ blk m' = blk m ∧ mem_wf m'.
