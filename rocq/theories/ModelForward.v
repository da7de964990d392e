(** Model of cest::forward_list — /repo/include/cest/forward_list.hpp.

    Simplifications:
    - the allocator is std::allocator and stateless;
    - iter and const_iter are both a [node_base*], possibly null; the
      post-increment operators (54-56, 88-90) are left out: they return a raw
      node_base* rather than an iterator;
    - moving an element is copying it; copies throw at the oracle's will;
    - deallocating a node whose value was not destroyed is reported as UB. *)
From Verif Require Export Mem Client.

(** m_front (204) is a node_base (27); a node adds a value (28-32), [None] once
    destroyed.  [FRaw]: storage of a node in which nothing was constructed. *)
Inductive fcell (V : Type) :=
  | FHead (next : option loc)
  | FNode (next : option loc) (value : option V)
  | FRaw.
Global Arguments FHead {_} _.
Global Arguments FNode {_} _ _.
Global Arguments FRaw {_}.

(** Argument of type [const T&]: an outside object or the value of a node. *)
Inductive fref (V : Type) := FVal (v : V) | FElem (it : option loc).
Global Arguments FVal {_} _.
Global Arguments FElem {_} _.

Section forward.
  Context {V : Type}.
  Notation MF := (M (fcell V)).
  Implicit Types p it pos : option loc.

  (** p->next, and the iterator step ++: 50-52, 84-86 *)
  Definition f_next p : MF (option loc) :=
    match p with
    | None => ub
    | Some l =>
        c <- load l ;;
        match c with FHead n | FNode n _ => ret n | FRaw => ub end
    end.
  Definition f_set_next p (n : option loc) : MF unit :=
    match p with
    | None => ub
    | Some l =>
        c <- load l ;;
        match c with
        | FHead _ => store l (FHead n)
        | FNode _ v => store l (FNode n v)
        | FRaw => ub
        end
    end.
  (** [*it]: 42-44, 76-78; and assignment through it.  Casting m_front to node
      and reading its value is undefined. *)
  Definition f_value it : MF V :=
    match it with
    | None => ub
    | Some l => c <- load l ;; match c with FNode _ (Some v) => ret v | _ => ub end
    end.
  Definition f_set it (v : V) : MF unit :=
    match it with
    | None => ub
    | Some l =>
        c <- load l ;;
        match c with
        | FNode n (Some _) => may_throw ;;; store l (FNode n (Some v))
        | _ => ub
        end
    end.
  Definition f_deref (r : fref V) : MF V :=
    match r with FVal v => ret v | FElem it => f_value it end.

  (** begin, end, before_begin, empty: 128-137; front: 196-202 *)
  Definition f_begin (this : loc) : MF (option loc) := f_next (Some this).
  Definition f_before (this : loc) : option loc := Some this.
  Definition f_empty (this : loc) : MF bool :=
    b <- f_begin this ;; ret (bool_decide (b = None)).
  Definition f_front (this : loc) : MF V := n <- f_begin this ;; f_value n.

  (** std::construct_at(n, value, next): node's constructor, 29-30 *)
  Definition f_construct (n : loc) (r : fref V) (next : option loc) : MF unit :=
    c <- load n ;;
    match c with
    | FRaw => v <- f_deref r ;; may_throw ;;; store n (FNode next (Some v))
    | _ => ub
    end.
  (** std::destroy_at(&tmp->value); deallocate(tmp, 1) *)
  Definition f_destroy p : MF unit :=
    match p with
    | None => ub
    | Some l => c <- load l ;; match c with FNode n (Some _) => store l (FNode n None) | _ => ub end
    end.
  Definition f_dealloc p : MF unit :=
    match p with
    | None => ub
    | Some l => c <- load l ;; match c with FNode _ None | FRaw => free l | _ => ub end
    end.

  (** insert_after: 139-145, and 147-153 for rvalues *)
  Definition f_insert_after pos (value : fref V) : MF loc :=
    n <- alloc FRaw ;;
    nx <- f_next pos ;;
    f_construct n value nx ;;;
    f_set_next pos (Some n) ;;;
    ret n.
  (** push_front: 188-194 *)
  Definition f_push_front (this : loc) (value : fref V) : MF unit :=
    f_insert_after (f_before this) value ;;; ret tt.

  (** erase_after(first, last): 159-174 *)
  Fixpoint f_erase_loop (fuel : nat) (curr l : option loc) : MF unit :=
    match fuel with
    | O => diverge
    | S fuel =>
        if decide (curr = l) then ret tt else
        nx <- f_next curr ;;
        f_destroy curr ;;; f_dealloc curr ;;;
        f_erase_loop fuel nx l
    end.
  Definition f_erase_range (p l : option loc) : MF (option loc) :=
    curr <- f_next p ;;
    with_fuel (λ fuel, f_erase_loop fuel curr l) ;;;
    f_set_next p l ;;;
    ret l.
  (** erase_after(pos): 176-186 *)
  Definition f_erase_after p : MF (option loc) :=
    curr <- f_next p ;;
    nx <- f_next curr ;;
    f_set_next p nx ;;;
    f_destroy curr ;;; f_dealloc curr ;;;
    f_next p.
  (** clear, pop_front: 155, 157; destructor: 119 *)
  Definition f_clear (this : loc) : MF unit := f_erase_range (f_before this) None ;;; ret tt.
  Definition f_pop_front (this : loc) : MF unit := f_erase_after (f_before this) ;;; ret tt.
  Definition f_dtor (this : loc) : MF unit := f_clear this ;;; free this.

  (** forward_list(): 99 *)
  Definition f_new : MF loc := new (FHead None).
  (** forward_list(const forward_list&): 100-110.  If an allocation or an
      element copy throws, m_front goes away, but ~forward_list() is not run. *)
  Fixpoint f_copy_loop (fuel : nat) (from to : option loc) : MF unit :=
    match fuel with
    | O => diverge
    | S fuel =>
        nextf <- f_next from ;;
        match nextf with
        | None => ret tt
        | Some _ =>
            n <- alloc FRaw ;;
            f_construct n (FElem nextf) None ;;;
            f_set_next to (Some n) ;;;
            from <- f_next from ;;
            to <- f_next to ;;
            f_copy_loop fuel from to
        end
    end.
  Definition f_copy (x : loc) : MF loc :=
    this <- f_new ;;
    on_throw (with_fuel (λ fuel, f_copy_loop fuel (Some x) (Some this))) (free this) ;;;
    ret this.
  (** swap: 121-123 *)
  Definition f_swap (this x : loc) : MF unit :=
    a <- f_next (Some this) ;;
    b <- f_next (Some x) ;;
    f_set_next (Some this) b ;;;
    f_set_next (Some x) a.
  (** operator=: 112-117; [tmp] is destroyed at the end *)
  Definition f_assign (this x : loc) : MF unit :=
    tmp <- f_copy x ;;
    f_swap this tmp ;;;
    f_dtor tmp.

  (** ** Client loops: [i] steps from an iterator; the values from begin() to
      end(); the distance from begin(). *)
  Fixpoint f_advance it (i : nat) : MF (option loc) :=
    match i with O => ret it | S i => it <- f_next it ;; f_advance it i end.
  Fixpoint f_walk (fuel : nat) it : MF (list V) :=
    match fuel with
    | O => diverge
    | S fuel =>
        if decide (it = None) then ret [] else
        v <- f_value it ;; it <- f_next it ;;
        vs <- f_walk fuel it ;; ret (v :: vs)
    end.
  Definition f_iterate (this : loc) : MF (list V) :=
    b <- f_begin this ;; with_fuel (λ fuel, f_walk fuel b).
  Fixpoint f_count (fuel : nat) (b it : option loc) : MF nat :=
    match fuel with
    | O => diverge
    | S fuel =>
        if decide (b = it) then ret 0 else
        b <- f_next b ;; n <- f_count fuel b it ;; ret (S n)
    end.
  Definition f_distance (this : loc) it : MF nat :=
    b <- f_begin this ;; with_fuel (λ fuel, f_count fuel b it).
End forward.

(** ** Client operations.  Positions count from before_begin(). *)
Inductive fop (V : Type) :=
  | FNew (h : nat)
  | FCopy (h g : nat)                    (* forward_list<T> h(g); *)
  | FAssign (h g : nat)                  (* h = g; also h = h *)
  | FSwap (h g : nat)                    (* h.swap(g); also h.swap(h) *)
  | FPushFront (h : nat) (v : V)
  | FInsertAfter (h i : nat) (v : V)
  | FInsertElem (h i g j : nat)          (* h.insert_after(.., element j of g), g = h allowed *)
  | FEraseAfter (h i : nat)
  | FEraseRange (h i j : nat)            (* h.erase_after(before_begin()+i, before_begin()+j) *)
  | FPopFront (h : nat)
  | FSet (h i : nat) (v : V)             (* element i := v *)
  | FClear (h : nat)
  | FDestroy (h : nat)
  | FEmpty (h : nat)
  | FFront (h : nat)
  | FGet (h i : nat)
  | FIter (h : nat).
Global Arguments FNew {_} _.
Global Arguments FCopy {_} _ _.
Global Arguments FAssign {_} _ _.
Global Arguments FSwap {_} _ _.
Global Arguments FPushFront {_} _ _.
Global Arguments FInsertAfter {_} _ _ _.
Global Arguments FInsertElem {_} _ _ _ _.
Global Arguments FEraseAfter {_} _ _.
Global Arguments FEraseRange {_} _ _ _.
Global Arguments FPopFront {_} _.
Global Arguments FSet {_} _ _ _.
Global Arguments FClear {_} _.
Global Arguments FDestroy {_} _.
Global Arguments FEmpty {_} _.
Global Arguments FFront {_} _.
Global Arguments FGet {_} _ _.
Global Arguments FIter {_} _.

(** Answers; an iterator is reported as its distance from begin(). *)
Inductive fout (V : Type) :=
  | FoUnit | FoNat (n : nat) | FoBool (b : bool) | FoVal (v : V) | FoList (vs : list V).
Global Arguments FoUnit {_}.
Global Arguments FoNat {_} _.
Global Arguments FoBool {_} _.
Global Arguments FoVal {_} _.
Global Arguments FoList {_} _.

Definition f_run {V} (e : gmap nat loc) (op : fop V) : M (fcell V) (gmap nat loc * fout V) :=
  match op with
  | FNew h => decl e h f_new FoUnit
  | FCopy h g => decl e h (l <- obj e g ;; f_copy l) FoUnit
  | FAssign h g => act2 e h g f_assign (λ _, FoUnit)
  | FSwap h g => act2 e h g f_swap (λ _, FoUnit)
  | FPushFront h v => act1 e h (λ l, f_push_front l (FVal v)) (λ _, FoUnit)
  | FInsertAfter h i v =>
      act1 e h (λ l, p <- f_advance (f_before l) i ;; r <- f_insert_after p (FVal v) ;;
                     f_distance l (Some r)) FoNat
  | FInsertElem h i g j =>
      act2 e h g (λ l l', b <- f_begin l' ;; q <- f_advance b j ;; p <- f_advance (f_before l) i ;;
                          r <- f_insert_after p (FElem q) ;; f_distance l (Some r)) FoNat
  | FEraseAfter h i =>
      act1 e h (λ l, p <- f_advance (f_before l) i ;; r <- f_erase_after p ;; f_distance l r) FoNat
  | FEraseRange h i j =>
      act1 e h (λ l, p <- f_advance (f_before l) i ;; q <- f_advance (f_before l) j ;;
                     r <- f_erase_range p q ;; f_distance l r) FoNat
  | FPopFront h => act1 e h f_pop_front (λ _, FoUnit)
  | FSet h i v => act1 e h (λ l, b <- f_begin l ;; p <- f_advance b i ;; f_set p v) (λ _, FoUnit)
  | FClear h => act1 e h f_clear (λ _, FoUnit)
  | FDestroy h => drop_obj e h f_dtor FoUnit
  | FEmpty h => act1 e h f_empty FoBool
  | FFront h => act1 e h f_front FoVal
  | FGet h i => act1 e h (λ l, b <- f_begin l ;; p <- f_advance b i ;; f_value p) FoVal
  | FIter h => act1 e h f_iterate FoList
  end.
