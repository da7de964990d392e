(** Vocabulary for the cost of pushing onto a deque. *)
From Verif Require Import Hist ModelDeque SpecDeque.

(** Allocations of a push that takes [d] to [d'], with room for [cap] chunks in
    the table: a new chunk, and a new table if it was full. *)
Definition push_allocs {V} (d d' : dstate V) (cap : nat) : nat :=
  if decide (dq_chunks d' = dq_chunks d) then 0 else if decide (dq_chunks d = cap) then 2 else 1.
(** Chunks needed for [n] elements that begin in the middle of the first one:
    the number of K-blocks covering K/2 + n slots. *)
Definition chunks_for (K n : nat) : nat := (K / 2 + n + (K - 1)) / K.
