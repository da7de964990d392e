(** What nary::swap and nary::swapr are supposed to do: rotate. *)
From Verif Require Import Mem.

(** the variables [ls] hold the values [vs] (in this order) *)
Definition var_holds {T} (m : mem (option T)) (ls : list loc) (vs : list T) : Prop :=
  Forall2 (λ l v, blk m !! l = Some (Some v)) ls vs.
(** (x1 x2 ... xn) to (x2 ... xn x1), and to (xn x1 ... x(n-1)) *)
Definition rotate_left {T} (vs : list T) : list T :=
  match vs with [] => [] | v :: vs => vs ++ [v] end.
Definition rotate_right {T} (vs : list T) : list T := rev (rotate_left (rev vs)).
(** only the cells in [ls] may differ *)
Definition only_writes {C} (ls : list loc) (m m' : mem C) : Prop :=
  (∀ l, l ∉ ls → blk m' !! l = blk m !! l) ∧ nxt m' = nxt m ∧ aorc m' = aorc m ∧ corc m' = corc m.
