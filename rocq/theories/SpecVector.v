(** What a vector is supposed to be: a finite sequence.  Independent of the
    model's helpers; only the vocabulary of operations and answers is shared. *)
From Verif Require Import Hist ModelVector.

Section spec.
  Context {V : Type} (dflt : V) (veq : V → V → bool).
  Notation st := (gmap nat (list V)).

  Fixpoint seq_eqb (xs ys : list V) : bool :=
    match xs, ys with
    | [], [] => true
    | x :: xs, y :: ys => veq x y && seq_eqb xs ys
    | _, _ => false
    end.

  (** [resized n xs]: keep the first [n], pad with default values. *)
  Definition resized (n : nat) (xs : list V) : list V :=
    take n xs ++ replicate (n - length xs) dflt.

  Definition fresh_as (s : st) (h : nat) (xs : list V) : option (st * out V) :=
    match s !! h with Some _ => None | None => Some (<[h := xs]> s, OUnit) end.
  Definition becomes (s : st) (h : nat) (xs : list V) : option (st * out V) :=
    Some (<[h := xs]> s, OUnit).
  Definition answers (s : st) (o : out V) : option (st * out V) := Some (s, o).

  (** [None]: precondition violated. *)
  Definition vspec (s : st) (op : vop V) : option (st * out V) :=
    match op with
    | VNew h => fresh_as s h []
    | VCount h n => fresh_as s h (replicate n dflt)
    | VInit h vs => fresh_as s h vs
    | VCopy h g => given ys := s !! g ;; fresh_as s h ys
    | VMove h g =>
        given ys := s !! g ;;
        match s !! h with Some _ => None | None => Some (<[h := ys]> (<[g := []]> s), OUnit) end
    | VAssign h g => given xs := s !! h ;; given ys := s !! g ;; becomes s h ys
    | VMoveAssign h g | VSwap h g =>
        given xs := s !! h ;; given ys := s !! g ;; Some (<[h := ys]> (<[g := xs]> s), OUnit)
    | VPush h v => given xs := s !! h ;; becomes s h (xs ++ [v])
    | VPushElem h g i =>
        if decide (h = g) then None else
        given xs := s !! h ;; given ys := s !! g ;; given y := ys !! i ;; becomes s h (xs ++ [y])
    | VPop h => given xs := s !! h ;; match xs with [] => None | _ => becomes s h (removelast xs) end
    | VResize h n => given xs := s !! h ;; becomes s h (resized n xs)
    | VReserve h _ => given xs := s !! h ;; answers s OUnit
    | VClear h => given xs := s !! h ;; becomes s h []
    | VErase h i j =>
        given xs := s !! h ;;
        if decide (i ≤ j ≤ length xs)
        then Some (<[h := take i xs ++ drop j xs]> s, ONat i) else None
    | VSet h i v => given xs := s !! h ;; given x := xs !! i ;; becomes s h (<[i := v]> xs)
    | VDestroy h => given xs := s !! h ;; Some (delete h s, OUnit)
    | VSize h => given xs := s !! h ;; answers s (ONat (length xs))
    | VEmpty h => given xs := s !! h ;; answers s (OBool (match xs with [] => true | _ => false end))
    | VGet h i => given xs := s !! h ;; given x := xs !! i ;; answers s (OVal x)
    | VAt h i => given xs := s !! h ;;
        answers s (match xs !! i with Some x => OVal x | None => OThrow end)
    | VFront h => given xs := s !! h ;; given x := head xs ;; answers s (OVal x)
    | VBack h => given xs := s !! h ;; given x := last xs ;; answers s (OVal x)
    | VIter h => given xs := s !! h ;; answers s (OList xs)
    | VRIter h => given xs := s !! h ;; answers s (OList (rev xs))
    | VEq h g => given xs := s !! h ;; given ys := s !! g ;; answers s (OBool (seq_eqb xs ys))
    end.
End spec.

(** ** Memory-level vocabulary *)

(** In memory [m] the vector at address [this] is the sequence [xs], with
    capacity [cap] and data pointer [p]. *)
Definition holds {V} (m : mem (vcell V)) (this : loc) (xs : list V) (cap : nat) (p : ptr) : Prop :=
  blk m !! this = Some (VHdr (length xs) cap p) ∧
  match p with
  | None => cap = 0 ∧ xs = []
  | Some b => 0 < cap ∧ length xs ≤ cap ∧
      blk m !! b = Some (VArr (map Some xs ++ replicate (cap - length xs) None))
  end.

(** Cells owned by the vector at [this] with data pointer [p]. *)
Definition own_cells (this : loc) (p : ptr) : list loc :=
  match p with None => [this] | Some b => [this; b] end.

(** The result [r] of a call on the vector at [this] (contents [xs], capacity
    [k], data [p]) that should make its contents [xs']: either the call returned
    a value satisfying [A] and the vector holds [xs'] with capacity and data
    satisfying [K], other memory untouched and the old block freed if replaced;
    or it threw [std::bad_alloc] and memory is as before. *)
Definition effect {V T} (m : mem (vcell V)) (this : loc) (p : ptr)
    (r : res (vcell V) T) (A : T → Prop) (xs' : list V) (K : nat → ptr → Prop) : Prop :=
  match r with
  | Ok a m' => may_fail_alloc m' ∧ A a ∧ ∃ k' p', K k' p' ∧ holds m' this xs' k' p' ∧
               replaces (own_cells this p) m (own_cells this p') m'
  | Exn e m' => e = BadAlloc ∧ may_fail_alloc m' ∧ blk m' = blk m
  | UB | Div => False
  end.

(** The result of a constructor call that should make a new vector with
    contents [xs]; on failure nothing is left behind. *)
Definition constructs {V} (m : mem (vcell V)) (r : res (vcell V) loc)
    (xs : list V) (K : nat → ptr → Prop) : Prop :=
  match r with
  | Ok l m' => may_fail_alloc m' ∧ ∃ k p, K k p ∧ holds m' l xs k p ∧
               replaces [] m (own_cells l p) m'
  | Exn e m' => e = BadAlloc ∧ may_fail_alloc m' ∧ blk m' = blk m
  | UB | Div => False
  end.

(** Two vectors share no cell. *)
Definition apart (this other : loc) (p q : ptr) : Prop :=
  ∀ l, l ∈ own_cells this p → l ∈ own_cells other q → False.

(** Number of live elements in one cell, and in the whole memory. *)
Definition cell_live {V} (c : vcell V) : nat :=
  match c with VHdr _ _ _ => 0 | VArr els => length (filter (λ o, is_Some o) els) end.
Definition live {V} (h : gmap loc (vcell V)) : nat :=
  map_fold (λ _ c n, cell_live c + n) 0 h.

(** Total number of elements of all vectors according to the specification. *)
Definition total {V} (s : gmap nat (list V)) : nat :=
  map_fold (λ _ xs n, length xs + n) 0 s.
