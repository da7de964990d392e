(** What a forward_list is supposed to be: a finite sequence. *)
From Verif Require Import Hist ModelForward.

Section spec.
  Context {V : Type}.
  Notation st := (gmap nat (list V)).
  Definition ffresh (s : st) (h : nat) (xs : list V) : option (st * fout V) :=
    match s !! h with Some _ => None | None => Some (<[h := xs]> s, FoUnit) end.

  (** [None]: precondition violated. *)
  Definition fspec (s : st) (op : fop V) : option (st * fout V) :=
    match op with
    | FNew h => ffresh s h []
    | FCopy h g => given ys := s !! g ;; ffresh s h ys
    | FAssign h g => given xs := s !! h ;; given ys := s !! g ;; Some (<[h := ys]> s, FoUnit)
    | FSwap h g => given xs := s !! h ;; given ys := s !! g ;; Some (<[h := ys]> (<[g := xs]> s), FoUnit)
    | FPushFront h v => given xs := s !! h ;; Some (<[h := v :: xs]> s, FoUnit)
    | FInsertAfter h i v =>
        given xs := s !! h ;;
        if decide (i ≤ length xs) then Some (<[h := take i xs ++ v :: drop i xs]> s, FoNat i) else None
    | FInsertElem h i g j =>
        given xs := s !! h ;; given ys := s !! g ;; given y := ys !! j ;;
        if decide (i ≤ length xs) then Some (<[h := take i xs ++ y :: drop i xs]> s, FoNat i) else None
    | FEraseAfter h i =>
        given xs := s !! h ;;
        if decide (i < length xs) then Some (<[h := take i xs ++ drop (S i) xs]> s, FoNat i) else None
    | FEraseRange h i j => (* removes the elements strictly between *)
        given xs := s !! h ;;
        if decide (i < j ∧ j ≤ S (length xs))
        then Some (<[h := take i xs ++ drop (j - 1) xs]> s, FoNat i) else None
    | FPopFront h => given xs := s !! h ;;
        match xs with [] => None | _ :: xs => Some (<[h := xs]> s, FoUnit) end
    | FSet h i v => given xs := s !! h ;;
        if decide (i < length xs) then Some (<[h := <[i := v]> xs]> s, FoUnit) else None
    | FClear h => given xs := s !! h ;; Some (<[h := []]> s, FoUnit)
    | FDestroy h => given xs := s !! h ;; Some (delete h s, FoUnit)
    | FEmpty h => given xs := s !! h ;; Some (s, FoBool (match xs with [] => true | _ => false end))
    | FFront h => given xs := s !! h ;; given x := head xs ;; Some (s, FoVal x)
    | FGet h i => given xs := s !! h ;; given x := xs !! i ;; Some (s, FoVal x)
    | FIter h => given xs := s !! h ;; Some (s, FoList xs)
    end.
End spec.

(** ** Memory-level vocabulary.  [nvs]: node addresses with their values. *)
Section mem.
  Context {V : Type}.
  (** pointer to the first node, or [d] if there is none *)
  Definition ffirst (nvs : list (loc * V)) (d : option loc) : option loc :=
    match nvs with [] => d | nv :: _ => Some nv.1 end.
  (** the last node of [nvs], or the list's own head node *)
  Definition flast (nvs : list (loc * V)) (this : loc) : loc :=
    match last nvs with None => this | Some nv => nv.1 end.
  (** In [m] the list object at [this] has exactly the nodes [nvs], in order. *)
  Definition f_holds (m : mem (fcell V)) (this : loc) (nvs : list (loc * V)) : Prop :=
    NoDup (this :: nvs.*1) ∧
    blk m !! this = Some (FHead (ffirst nvs None)) ∧
    ∀ xs n v ys, nvs = xs ++ (n, v) :: ys → blk m !! n = Some (FNode (ffirst ys None) (Some v)).
  Definition f_cells (this : loc) (nvs : list (loc * V)) : list loc := this :: nvs.*1.
End mem.
