(** Vocabulary for the cost of growing a container one element at a time. *)
From Verif Require Import Hist ModelString.

(** Number of calls of element constructors between two memories: each takes one
    entry of the list that says which of them throw, so the count is exact when
    the list is long enough. *)
Definition constructions {C} (m m' : mem C) : nat := length (corc m) - length (corc m').

(** Programs calling push_back, or append with an array outside all strings, for
    every member of a list. *)
Fixpoint s_push_all (this : loc) (cs : list N) : MS unit :=
  match cs with
  | [] => ret tt
  | c :: cs => s_push_back this (CVal c) ;;; s_push_all this cs
  end.
Fixpoint s_append_all (this : loc) (ps : list (list N)) : MS unit :=
  match ps with
  | [] => ret tt
  | cs :: ps => s_append this (CExt cs) (length cs) ;;; s_append_all this ps
  end.

(** The number of members of a list of pieces which, added in order to [n]
    characters, go beyond what is the larger of [k] and all seen so far. *)
Fixpoint record_count (n k : nat) (ps : list nat) : nat :=
  match ps with
  | [] => 0
  | l :: ps => (if decide (k < n + l) then 1 else 0) + record_count (n + l) (k `max` (n + l)) ps
  end.
