(** What an ordered set (or map) is supposed to be: a finite collection of
    elements no two of which have equivalent keys, listed in increasing order. *)
From Coq.Sorting Require Export Sorted.
From Verif Require Import Hist ModelTree.

(** Strict weak ordering, as the C++ standard requires of a comparator. *)
Record strict_weak {K} (comp : K → K → bool) : Prop := {
  sw_irrefl a : comp a a = false;
  sw_trans a b c : comp a b = true → comp b c = true → comp a c = true;
  sw_equiv a b c : comp a b = false → comp b a = false → comp b c = false → comp c b = false →
    comp a c = false ∧ comp c a = false;
}.
(** Neither key comes before the other. *)
Definition equiv_key {K} (comp : K → K → bool) (a b : K) : bool := negb (comp a b) && negb (comp b a).

Section spec.
  Context {X K : Type} (key : X → K) (comp : K → K → bool).
  Notation st := (gmap nat (list X)).

  Definition before (x y : X) : Prop := comp (key x) (key y) = true.
  Definition increasing (xs : list X) : Prop := StronglySorted before xs.

  (** the elements with key equivalent to [k] (at most one) *)
  Definition lookup_key (k : K) (xs : list X) : option X :=
    List.find (λ x, equiv_key comp k (key x)) xs.
  (** [v] put among [xs], after the smaller ones *)
  Definition add_elem (v : X) (xs : list X) : list X :=
    List.filter (λ x, comp (key x) (key v)) xs ++ v ::
    List.filter (λ x, negb (comp (key x) (key v))) xs.
  (** the element equivalent to [k] replaced by [x] *)
  Definition replace_elem (k : K) (x : X) (xs : list X) : list X :=
    map (λ y, if equiv_key comp k (key y) then x else y) xs.

  Definition tfresh (s : st) (h : nat) (xs : list X) : option (st * tout X) :=
    match s !! h with Some _ => None | None => Some (<[h := xs]> s, ToUnit) end.

  (** [None]: precondition violated.  Assigning a container to itself is left
      out.  Updating through an iterator keeps the key (up to equivalence). *)
  Definition tspec (s : st) (op : top X K) : option (st * tout X) :=
    match op with
    | TNew h => tfresh s h []
    | TCopy h g => given ys := s !! g ;; tfresh s h ys
    | TAssign h g =>
        if decide (h = g) then None else
        given xs := s !! h ;; given ys := s !! g ;; Some (<[h := ys]> s, ToUnit)
    | TInsert h v =>
        given xs := s !! h ;;
        Some (match lookup_key (key v) xs with
              | Some y => (s, ToIns y false)
              | None => (<[h := add_elem v xs]> s, ToIns v true)
              end)
    | TInsertHint h _ v =>
        given xs := s !! h ;;
        Some (match lookup_key (key v) xs with
              | Some y => (s, ToElem (Some y))
              | None => (<[h := add_elem v xs]> s, ToElem (Some v))
              end)
    | TFind h k => given xs := s !! h ;; Some (s, ToElem (lookup_key k xs))
    | TUpdate h k x =>
        given xs := s !! h ;; given y := lookup_key k xs ;;
        if equiv_key comp (key y) (key x) then Some (<[h := replace_elem k x xs]> s, ToUnit) else None
    | TClear h => given xs := s !! h ;; Some (<[h := []]> s, ToUnit)
    | TDestroy h => given xs := s !! h ;; Some (delete h s, ToUnit)
    | TSize h => given xs := s !! h ;; Some (s, ToNat (length xs))
    | TEmpty h => given xs := s !! h ;; Some (s, ToBool (match xs with [] => true | _ => false end))
    | TBegin h => given xs := s !! h ;; Some (s, ToElem (head xs))
    | TIter h => given xs := s !! h ;; Some (s, ToList xs)
    end.
End spec.

(** What map's iteration needs of the keys' operator==: it holds of a key and
    itself, and never of two keys the comparator orders. *)
Definition eq_compatible {K} (comp eqk : K → K → bool) : Prop :=
  (∀ a, eqk a a = true) ∧ (∀ a b, eqk a b = true → comp a b = false ∧ comp b a = false).
Definition iter_ok {K} (comp : K → K → bool) (eqn : option (K → K → bool)) : Prop :=
  match eqn with None => True | Some e => eq_compatible comp e end.

(** ** Trees in memory *)
Inductive tree (X : Type) := E | T (n : loc) (x : X) (c : color) (l r : tree X).
Global Arguments E {_}.
Global Arguments T {_} _ _ _ _ _.

Section mem.
  Context {X : Type}.
  Implicit Types (t l r : tree X) (m : mem (tcell X)).

  Definition troot t : option loc := match t with E => None | T n _ _ _ _ => Some n end.
  (** the nodes with their elements, in order *)
  Fixpoint nodes t : list (loc * X) :=
    match t with E => [] | T n x _ l r => nodes l ++ (n, x) :: nodes r end.
  Definition least t : option loc := fst <$> head (nodes t).

  (** [t] is in memory below a node (or the root) whose address is [p] *)
  Fixpoint t_below m (p : option loc) t : Prop :=
    match t with
    | E => True
    | T n x c l r =>
        blk m !! n = Some (TNode (Some x) (troot l) (troot r) p c) ∧
        t_below m (Some n) l ∧ t_below m (Some n) r
    end.
  Definition t_holds m (this : loc) t : Prop :=
    NoDup (this :: (nodes t).*1) ∧
    blk m !! this = Some (THead (troot t) (least t) (length (nodes t))) ∧
    t_below m None t.
  Definition t_cells (this : loc) t : list loc := this :: (nodes t).*1.

  (** ** Red-black trees *)
  Definition tcolor t : color := match t with E => Black | T _ _ c _ _ => c end.
  Fixpoint no_red_red t : Prop :=
    match t with
    | E => True
    | T _ _ c l r => (c = Red → tcolor l = Black ∧ tcolor r = Black) ∧ no_red_red l ∧ no_red_red r
    end.
  (** the colours along every path from the root to a missing child *)
  Fixpoint paths t : list (list color) :=
    match t with
    | E => [[]]
    | T _ _ c l r => (cons c) <$> (paths l ++ paths r)
    end.
  Definition blacks (p : list color) : nat := length (List.filter (λ c, bool_decide (c = Black)) p).
  Definition red_black t : Prop :=
    tcolor t = Black ∧ no_red_red t ∧
    (∀ p q, p ∈ paths t → q ∈ paths t → blacks p = blacks q).
  Fixpoint height t : nat :=
    match t with E => 0 | T _ _ _ l r => S (Nat.max (height l) (height r)) end.

  (** ** A position in a tree: the way down from the root to a subtree, the
      nearest step first.  [Lft]: the subtree is the left child of [n], whose
      other child is [r]. *)
  Inductive frame := Lft (n : loc) (x : X) (c : color) (r : tree X) | Rgt (n : loc) (x : X) (c : color) (l : tree X).
  Definition plug (f : frame) t : tree X :=
    match f with Lft n x c r => T n x c t r | Rgt n x c l => T n x c l t end.
  Definition fill (zs : list frame) t : tree X := foldl (λ t f, plug f t) t zs.
  Definition parent (zs : list frame) : option loc :=
    match zs with [] => None | Lft n _ _ _ :: _ | Rgt n _ _ _ :: _ => Some n end.
  (** the [node*&] at that position *)
  Definition at_pos (this : loc) (zs : list frame) : place :=
    match zs with [] => PRoot this | Lft n _ _ _ :: _ => PL n | Rgt n _ _ _ :: _ => PR n end.

  (** ** After the copy of an element threw: [t] is in memory below [p], but
      nothing was constructed in the node [n]. *)
  Fixpoint t_below_raw m (n : loc) (p : option loc) t : Prop :=
    match t with
    | E => True
    | T q x c l r =>
        blk m !! q = Some (if decide (q = n) then TRaw else TNode (Some x) (troot l) (troot r) p c) ∧
        t_below_raw m n (Some q) l ∧ t_below_raw m n (Some q) r
    end.
  (** The members tell of the tree without the node at the position [zs]. *)
  Definition t_torn m (this : loc) (zs : list frame) (n : loc) (v : X) : Prop :=
    let t := fill zs (T n v Red E E) in
    NoDup (t_cells this t) ∧
    blk m !! this = Some (THead (troot t) (least (fill zs E)) (length (nodes (fill zs E)))) ∧
    t_below_raw m n None t.
End mem.
Global Arguments frame : clear implicits.

Section torn.
  Context {X K : Type} (key : X → K) (comp : K → K → bool).
  (** [k] compares with all elements as [k'] does *)
  Definition same_gap (k k' : K) (xs : list X) : Prop :=
    ∀ x, x ∈ xs → comp k (key x) = comp k' (key x) ∧ comp (key x) k = comp (key x) k'.
  (** [v] belongs at the position [zs] *)
  Definition belongs (k : K) (zs : list (frame X)) : Prop :=
    Forall (λ f, match f with
                 | Lft _ x _ _ => comp k (key x) = true
                 | Rgt _ x _ _ => comp (key x) k = true
                 end) zs.
  (** What an insertion may do when allocations may fail and copies may throw. *)
  Definition insert_outcome_any (m : mem (tcell X)) (this : loc) (t : tree X) (v : X)
      (r : res (tcell X) (loc * bool)) : Prop :=
    match r with
    | Ok (n, true) m' => lookup_key key comp (key v) (nodes t).*2 = None ∧
        ∃ t' a b, nodes t = a ++ b ∧ nodes t' = a ++ (n, v) :: b ∧
          increasing key comp (nodes t').*2 ∧ red_black t' ∧ t_holds m' this t' ∧
          replaces (t_cells this t) m (t_cells this t') m'
    | Ok (n, false) m' => blk m' = blk m ∧ ∃ x, (n, x) ∈ nodes t ∧ equiv_key comp (key v) (key x) = true
    | Exn BadAlloc m' => lookup_key key comp (key v) (nodes t).*2 = None ∧ blk m' = blk m
    | Exn CopyThrow m' => lookup_key key comp (key v) (nodes t).*2 = None ∧
        ∃ zs n, fill zs E = t ∧ belongs (key v) zs ∧ t_torn m' this zs n v ∧
          replaces (t_cells this t) m (n :: t_cells this t) m'
    | _ => False
    end.
End torn.
