(** Vocabulary for the initializer-list constructor of a vector whose element
    copies throw. *)
From Verif Require Import Hist ModelVector SpecVector SpecVectorThrow.

(** No allocation fails. *)
Definition allocs_ok {C} (m : mem C) : Prop := Forall (λ b, b = false) (aorc m).
(** The capacity of a vector to which [n] elements have been appended one by one,
    starting from an empty one ... *)
Definition cap_after (n : nat) : nat := match n with O => 0 | _ => 2 ^ Nat.log2_up n end.
(** ... and the number of element copies made. *)
Definition copies_for (n : nat) : nat := n + (2 ^ Nat.log2_up n - 1).
(** [b] is the address of no block of [m]. *)
Definition unused {C} (m : mem C) (b : loc) : Prop := blk m !! b = None.
