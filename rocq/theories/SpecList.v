(** What a list is supposed to be: a finite sequence. *)
From Verif Require Import Hist ModelList.

Section spec.
  Context {V : Type}.
  Notation st := (gmap nat (list V)).
  Definition lfresh (s : st) (h : nat) (xs : list V) : option (st * lout V) :=
    match s !! h with Some _ => None | None => Some (<[h := xs]> s, LoUnit) end.

  (** [None]: precondition violated.  Assigning a list to itself is left out. *)
  Definition lspec (s : st) (op : lop V) : option (st * lout V) :=
    match op with
    | LNew h => lfresh s h []
    | LCopy h g => given ys := s !! g ;; lfresh s h ys
    | LAssign h g =>
        if decide (h = g) then None else
        given xs := s !! h ;; given ys := s !! g ;; Some (<[h := ys]> s, LoUnit)
    | LPushBack h v | LPushBackRv h v => given xs := s !! h ;; Some (<[h := xs ++ [v]]> s, LoUnit)
    | LPushFront h v | LPushFrontRv h v => given xs := s !! h ;; Some (<[h := v :: xs]> s, LoUnit)
    | LEmplaceBack h v => given xs := s !! h ;; Some (<[h := xs ++ [v]]> s, LoVal v)
    | LEmplaceFront h v => given xs := s !! h ;; Some (<[h := v :: xs]> s, LoVal v)
    | LInsert h i v | LEmplace h i v =>
        given xs := s !! h ;;
        if decide (i ≤ length xs) then Some (<[h := take i xs ++ v :: drop i xs]> s, LoNat i) else None
    | LInsertElem h i g j =>
        given xs := s !! h ;; given ys := s !! g ;; given y := ys !! j ;;
        if decide (i ≤ length xs) then Some (<[h := take i xs ++ y :: drop i xs]> s, LoNat i) else None
    | LErase h i =>
        given xs := s !! h ;;
        if decide (i < length xs) then Some (<[h := take i xs ++ drop (S i) xs]> s, LoNat i) else None
    | LPopBack h => given xs := s !! h ;;
        match xs with [] => None | _ => Some (<[h := removelast xs]> s, LoUnit) end
    | LPopFront h => given xs := s !! h ;;
        match xs with [] => None | _ :: xs => Some (<[h := xs]> s, LoUnit) end
    | LSet h i v => given xs := s !! h ;;
        if decide (i < length xs) then Some (<[h := <[i := v]> xs]> s, LoUnit) else None
    | LClear h => given xs := s !! h ;; Some (<[h := []]> s, LoUnit)
    | LDestroy h => given xs := s !! h ;; Some (delete h s, LoUnit)
    | LSize h => given xs := s !! h ;; Some (s, LoNat (length xs))
    | LEmpty h => given xs := s !! h ;; Some (s, LoBool (match xs with [] => true | _ => false end))
    | LFront h => given xs := s !! h ;; given x := head xs ;; Some (s, LoVal x)
    | LBack h => given xs := s !! h ;; given x := last xs ;; Some (s, LoVal x)
    | LGet h i => given xs := s !! h ;; given x := xs !! i ;; Some (s, LoVal x)
    | LIter h => given xs := s !! h ;; Some (s, LoList xs)
    | LRIter h => given xs := s !! h ;; Some (s, LoList (rev xs))
    end.
End spec.

(** ** Memory-level vocabulary.  [nvs]: node addresses with their values. *)
Section mem.
  Context {V : Type}.
  (** address of the first / last node, or [d] if there is none *)
  Definition first (nvs : list (loc * V)) (d : loc) : loc :=
    match nvs with [] => d | nv :: _ => nv.1 end.
  Definition final (nvs : list (loc * V)) (d : loc) : loc :=
    match last nvs with None => d | Some nv => nv.1 end.

  (** In [m] the list object at [this] has exactly the nodes [nvs], in order. *)
  Definition l_holds (m : mem (lcell V)) (this : loc) (nvs : list (loc * V)) : Prop :=
    NoDup (this :: nvs.*1) ∧
    blk m !! this = Some (LHead (first nvs this) (final nvs this) (length nvs)) ∧
    ∀ xs n v ys, nvs = xs ++ (n, v) :: ys →
      blk m !! n = Some (LNode (first ys this) (final xs this) (Some v)).
  (** cells owned by that list *)
  Definition l_cells (this : loc) (nvs : list (loc * V)) : list loc := this :: nvs.*1.
  (** position [i] as an iterator: the node, or the sentinel *)
  Definition l_pos (this : loc) (nvs : list (loc * V)) (i : nat) : loc := first (drop i nvs) this.
End mem.
