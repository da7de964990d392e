(** Vocabulary for vectors whose element copies throw: where the throw happens,
    and what memory looks like afterwards. *)
From Verif Require Import Hist ModelVector SpecVector.

(** From now on [t] element copies (or assignments) succeed and the next one
    throws; [rest] tells what later ones do. *)
Definition throws_at {C} (m : mem C) (t : nat) (rest : list bool) : Prop :=
  corc m = replicate t false ++ true :: rest.
(** The next allocation succeeds. *)
Definition next_alloc_ok {C} (m : mem C) : Prop := head (aorc m) ≠ Some true.

(** The element's exception left the call, and memory is then exactly [h]. *)
Definition threw {C A} (r : res C A) (h : gmap loc C) (rest : list bool) : Prop :=
  ∃ m', r = Exn CopyThrow m' ∧ blk m' = h ∧ corc m' = rest.

Section spec.
  Context {V : Type}.
  (** An array of [cap] slots: the elements [xs], then storage without elements. *)
  Definition filled (xs : list V) (cap : nat) : vcell V :=
    VArr (map Some xs ++ replicate (cap - length xs) None).
  (** [h] without the block of elements [p]. *)
  Definition drop_data (p : ptr) (h : gmap loc (vcell V)) : gmap loc (vcell V) :=
    match p with Some b => delete b h | None => h end.
  (** [h] after the vector at [this] has moved its elements [xs] from [p] to the
      new block [b] of [cap] slots. *)
  Definition regrown (this : loc) (xs : list V) (cap : nat) (p : ptr) (b : loc)
      (h : gmap loc (vcell V)) : gmap loc (vcell V) :=
    <[b := filled xs cap]> (<[this := VHdr (length xs) cap (Some b)]> (drop_data p h)).
  (** The capacity push_back asks for when there is no room. *)
  Definition next_cap (k : nat) : nat := match k with O => 1 | _ => 2 * k end.
  (** The vector counts one element more than the [xs] it has. *)
  Definition v_torn (m : mem (vcell V)) (this : loc) (xs : list V) (cap : nat) (b : loc) : Prop :=
    blk m !! this = Some (VHdr (S (length xs)) cap (Some b)) ∧ length xs < cap ∧
    blk m !! b = Some (filled xs cap).
  (** The vector has the elements [ys] although it counts only [n] of them. *)
  Definition v_surplus (m : mem (vcell V)) (this : loc) (n : nat) (ys : list V) (cap : nat) (b : loc) : Prop :=
    blk m !! this = Some (VHdr n cap (Some b)) ∧ n ≤ length ys ≤ cap ∧
    blk m !! b = Some (filled ys cap).
End spec.
