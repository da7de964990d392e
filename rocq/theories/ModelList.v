(** Model of cest::list — /repo/include/cest/list.hpp.

    Simplifications:
    - m_size is an unbounded natural;
    - the allocator is std::allocator (allocate(1) yields one raw node or throws
      std::bad_alloc); [m_node_alloc] is stateless and not represented;
    - default-constructed iterators (m_node == nullptr) are not represented;
    - iter and const_iter behave alike and are both an address;
    - moving an element is copying it; copies throw at the oracle's will;
    - deallocating a node whose value was not destroyed is reported as UB, so
      that "every value is destroyed" is part of every safety statement. *)
From Verif Require Export Mem Client.

(** A list object is its sentinel [m_node] and [m_size] (list.hpp 293-294); a
    node is a node_base (48-49) with a value (55), which is [None] once
    destroyed.  [LRaw]: storage of a node in which nothing was constructed. *)
Inductive lcell (V : Type) :=
  | LHead (next prev : loc) (size : nat)
  | LNode (next prev : loc) (value : option V)
  | LRaw.
Global Arguments LHead {_} _ _ _.
Global Arguments LNode {_} _ _ _.
Global Arguments LRaw {_}.

(** Argument of type [const T&]: an outside object or the value of a node. *)
Inductive lref (V : Type) := LVal (v : V) | LElem (l : loc).
Global Arguments LVal {_} _.
Global Arguments LElem {_} _.

Section list.
  Context {V : Type}.
  Notation ML := (M (lcell V)).

  (** ** Fields of node_base (30-50) and the iterator steps ++ and -- (71-85,
      111-125) *)
  Definition l_next (l : loc) : ML loc :=
    c <- load l ;;
    match c with LHead n _ _ | LNode n _ _ => ret n | LRaw => ub end.
  Definition l_prev (l : loc) : ML loc :=
    c <- load l ;;
    match c with LHead _ p _ | LNode _ p _ => ret p | LRaw => ub end.
  Definition set_next (l n : loc) : ML unit :=
    c <- load l ;;
    match c with
    | LHead _ p k => store l (LHead n p k)
    | LNode _ p v => store l (LNode n p v)
    | LRaw => ub
    end.
  Definition set_prev (l p : loc) : ML unit :=
    c <- load l ;;
    match c with
    | LHead n _ k => store l (LHead n p k)
    | LNode n _ v => store l (LNode n p v)
    | LRaw => ub
    end.
  Definition l_size (this : loc) : ML nat :=
    c <- load this ;; match c with LHead _ _ k => ret k | _ => ub end.
  Definition set_lsize (this : loc) (k : nat) : ML unit :=
    c <- load this ;; match c with LHead n p _ => store this (LHead n p k) | _ => ub end.

  (** [*it]: 66-68, 106-108; and assignment through it *)
  Definition l_value (it : loc) : ML V :=
    c <- load it ;; match c with LNode _ _ (Some v) => ret v | _ => ub end.
  Definition l_set (it : loc) (v : V) : ML unit :=
    c <- load it ;;
    match c with
    | LNode n p (Some _) => may_throw ;;; store it (LNode n p (Some v))
    | _ => ub
    end.
  Definition l_deref (r : lref V) : ML V :=
    match r with LVal v => ret v | LElem l => l_value l end.

  (** ** begin, end: 172-178; empty, size: 180-183 *)
  Definition l_begin (this : loc) : ML loc := l_next this.
  Definition l_end (this : loc) : loc := this.
  Definition l_empty (this : loc) : ML bool := n <- l_size this ;; ret (n =? 0).
  (** ** front, back: 160-170 *)
  Definition l_front (this : loc) : ML V := it <- l_begin this ;; l_value it.
  Definition l_back (this : loc) : ML V := it <- l_prev (l_end this) ;; l_value it.

  (** ** std::construct_at(new_node, value): node(const value_type&), 54, with
      the member initialisers of node_base, 48-49 *)
  Definition l_construct (n : loc) (r : lref V) : ML unit :=
    c <- load n ;;
    match c with
    | LRaw => v <- l_deref r ;; may_throw ;;; store n (LNode n n (Some v))
    | _ => ub
    end.
  (** std::destroy_at(&tmp->value) and deallocate(tmp, 1) *)
  Definition l_destroy (n : loc) : ML unit :=
    c <- load n ;;
    match c with LNode nx p (Some _) => store n (LNode nx p None) | _ => ub end.
  Definition l_dealloc (n : loc) : ML unit :=
    c <- load n ;;
    match c with LNode _ _ None | LRaw => free n | _ => ub end.

  (** the four link assignments in insert and emplace: 225-228, 247-250 *)
  Definition l_hook (new_node p : loc) : ML unit :=
    set_next new_node p ;;;
    q <- l_prev p ;; set_prev new_node q ;;;
    q <- l_prev p ;; set_next q new_node ;;;
    set_prev p new_node.
  (** m_unhook: 40-46 *)
  Definition l_unhook (n : loc) : ML unit :=
    next_node <- l_next n ;;
    prev_node <- l_prev n ;;
    set_next prev_node next_node ;;;
    set_prev next_node prev_node.

  (** ** insert(const_iterator, const T&): 212-232 *)
  Definition l_insert (this pos : loc) (value : lref V) : ML loc :=
    n <- alloc LRaw ;;
    l_construct n value ;;;
    l_hook n pos ;;;
    k <- l_size this ;; set_lsize this (S k) ;;;
    ret n.
  (** ** emplace: 239-254; insert(const_iterator, value_type&&): 234-236.  A
      temporary value is made from the arguments, then copied into the node. *)
  Definition l_emplace (this pos : loc) (args : lref V) : ML loc :=
    n <- alloc LRaw ;;
    v <- l_deref args ;; may_throw ;;;
    l_construct n (LVal v) ;;;
    l_hook n pos ;;;
    k <- l_size this ;; set_lsize this (S k) ;;;
    ret n.
  (** ** push_back, push_front (const T&): 202, 206; (T&&): 203-205, 208-210 *)
  Definition l_push_back (this : loc) (value : lref V) : ML unit :=
    l_insert this (l_end this) value ;;; ret tt.
  Definition l_push_front (this : loc) (value : lref V) : ML unit :=
    b <- l_begin this ;; l_insert this b value ;;; ret tt.
  Definition l_push_back_rv (this : loc) (value : lref V) : ML unit :=
    l_emplace this (l_end this) value ;;; ret tt.
  Definition l_push_front_rv (this : loc) (value : lref V) : ML unit :=
    b <- l_begin this ;; l_emplace this b value ;;; ret tt.
  (** ** emplace_front, emplace_back: 276-288.  The argument of insert is the
      temporary value_type(args...); the value of the returned reference. *)
  Definition l_emplace_front (this : loc) (args : lref V) : ML V :=
    v <- l_deref args ;; may_throw ;;;
    b <- l_begin this ;; l_emplace this b (LVal v) ;;; l_front this.
  Definition l_emplace_back (this : loc) (args : lref V) : ML V :=
    v <- l_deref args ;; may_throw ;;;
    l_emplace this (l_end this) (LVal v) ;;; l_back this.

  (** ** erase: 256-274; pop_back, pop_front: 290-291 *)
  Definition l_erase (this pos : loc) : ML loc :=
    k <- l_size this ;; set_lsize this (k - 1) ;;;
    r <- l_next pos ;;
    l_unhook pos ;;;
    l_destroy pos ;;;
    l_dealloc pos ;;;
    ret r.
  Definition l_pop_back (this : loc) : ML unit :=
    p <- l_prev this ;; l_erase this p ;;; ret tt.
  Definition l_pop_front (this : loc) : ML unit :=
    p <- l_begin this ;; l_erase this p ;;; ret tt.

  (** ** clear: 188-200 *)
  Fixpoint l_clear_loop (fuel : nat) (this curr : loc) : ML unit :=
    match fuel with
    | O => diverge
    | S fuel =>
        if decide (curr = this) then ret tt else
        nx <- l_next curr ;;
        l_destroy curr ;;; l_dealloc curr ;;;
        l_clear_loop fuel this nx
    end.
  Definition l_clear (this : loc) : ML unit :=
    curr <- l_next this ;;
    with_fuel (λ fuel, l_clear_loop fuel this curr) ;;;
    set_next this this ;;; set_prev this this ;;;
    set_lsize this 0.

  (** ** Constructors and destructor: 139-146.  node_base's initialisers make
      both links point at the sentinel itself. *)
  Definition l_new : ML loc :=
    this <- new (LHead 1%positive 1%positive 0) ;;
    store this (LHead this this 0) ;;; ret this.
  Definition l_dtor (this : loc) : ML unit := l_clear this ;;; free this.

  (** for (it = other.cbegin(); it != other.cend(); ++it) push_back( *it ):
      144-145, 151-152 *)
  Fixpoint l_append_loop (fuel : nat) (this other it : loc) : ML unit :=
    match fuel with
    | O => diverge
    | S fuel =>
        if decide (it = l_end other) then ret tt else
        l_push_back this (LElem it) ;;;
        it <- l_next it ;;
        l_append_loop fuel this other it
    end.
  Definition l_append (this other : loc) : ML unit :=
    it <- l_begin other ;;
    with_fuel (λ fuel, l_append_loop fuel this other it).
  (** The constructor delegates to list(), so an exception runs ~list(). *)
  Definition l_copy (other : loc) : ML loc :=
    this <- l_new ;;
    on_throw (l_append this other) (l_dtor this) ;;;
    ret this.
  (** ** operator=: 148-154 *)
  Definition l_assign (this other : loc) : ML unit :=
    l_clear this ;;; l_append this other.

  (** ** Client loops.  [begin() + i]; the values from begin() to end();
      backwards with std::reverse_iterator (the element before the base);
      std::distance(begin(), it). *)
  Fixpoint l_advance (it : loc) (i : nat) : ML loc :=
    match i with O => ret it | S i => it <- l_next it ;; l_advance it i end.
  Definition l_nth (this : loc) (i : nat) : ML loc := b <- l_begin this ;; l_advance b i.
  Fixpoint l_walk (fuel : nat) (this it : loc) : ML (list V) :=
    match fuel with
    | O => diverge
    | S fuel =>
        if decide (it = l_end this) then ret [] else
        v <- l_value it ;; it <- l_next it ;;
        vs <- l_walk fuel this it ;; ret (v :: vs)
    end.
  Definition l_iterate (this : loc) : ML (list V) :=
    b <- l_begin this ;; with_fuel (λ fuel, l_walk fuel this b).
  Fixpoint l_rwalk (fuel : nat) (b base : loc) : ML (list V) :=
    match fuel with
    | O => diverge
    | S fuel =>
        if decide (base = b) then ret [] else
        it <- l_prev base ;; v <- l_value it ;;
        vs <- l_rwalk fuel b it ;; ret (v :: vs)
    end.
  Definition l_riterate (this : loc) : ML (list V) :=
    b <- l_begin this ;; with_fuel (λ fuel, l_rwalk fuel b (l_end this)).
  Fixpoint l_count (fuel : nat) (b it : loc) : ML nat :=
    match fuel with
    | O => diverge
    | S fuel =>
        if decide (b = it) then ret 0 else
        b <- l_next b ;; n <- l_count fuel b it ;; ret (S n)
    end.
  Definition l_distance (this it : loc) : ML nat :=
    b <- l_begin this ;; with_fuel (λ fuel, l_count fuel b it).
End list.

(** ** Client operations on named lists; positions are [begin() + i]. *)
Inductive lop (V : Type) :=
  | LNew (h : nat)
  | LCopy (h g : nat)                  (* list<T> h(g); *)
  | LAssign (h g : nat)                (* h = g; *)
  | LPushBack (h : nat) (v : V)
  | LPushFront (h : nat) (v : V)
  | LPushBackRv (h : nat) (v : V)      (* h.push_back(std::move(v)); *)
  | LPushFrontRv (h : nat) (v : V)
  | LEmplaceBack (h : nat) (v : V)
  | LEmplaceFront (h : nat) (v : V)
  | LInsert (h i : nat) (v : V)        (* h.insert(h.begin()+i, v); *)
  | LEmplace (h i : nat) (v : V)
  | LInsertElem (h i g j : nat)        (* h.insert(h.begin()+i, g[j]), g = h allowed *)
  | LErase (h i : nat)
  | LPopBack (h : nat)
  | LPopFront (h : nat)
  | LSet (h i : nat) (v : V)
  | LClear (h : nat)
  | LDestroy (h : nat)
  | LSize (h : nat)
  | LEmpty (h : nat)
  | LFront (h : nat)
  | LBack (h : nat)
  | LGet (h i : nat)
  | LIter (h : nat)
  | LRIter (h : nat).
Global Arguments LNew {_} _.
Global Arguments LCopy {_} _ _.
Global Arguments LAssign {_} _ _.
Global Arguments LPushBack {_} _ _.
Global Arguments LPushFront {_} _ _.
Global Arguments LPushBackRv {_} _ _.
Global Arguments LPushFrontRv {_} _ _.
Global Arguments LEmplaceBack {_} _ _.
Global Arguments LEmplaceFront {_} _ _.
Global Arguments LInsert {_} _ _ _.
Global Arguments LEmplace {_} _ _ _.
Global Arguments LInsertElem {_} _ _ _ _.
Global Arguments LErase {_} _ _.
Global Arguments LPopBack {_} _.
Global Arguments LPopFront {_} _.
Global Arguments LSet {_} _ _ _.
Global Arguments LClear {_} _.
Global Arguments LDestroy {_} _.
Global Arguments LSize {_} _.
Global Arguments LEmpty {_} _.
Global Arguments LFront {_} _.
Global Arguments LBack {_} _.
Global Arguments LGet {_} _ _.
Global Arguments LIter {_} _.
Global Arguments LRIter {_} _.

(** Answers; an iterator is reported as its distance from begin(). *)
Inductive lout (V : Type) :=
  | LoUnit | LoNat (n : nat) | LoBool (b : bool) | LoVal (v : V) | LoList (vs : list V).
Global Arguments LoUnit {_}.
Global Arguments LoNat {_} _.
Global Arguments LoBool {_} _.
Global Arguments LoVal {_} _.
Global Arguments LoList {_} _.

Definition l_run {V} (e : gmap nat loc) (op : lop V) : M (lcell V) (gmap nat loc * lout V) :=
  match op with
  | LNew h => decl e h l_new LoUnit
  | LCopy h g => decl e h (l <- obj e g ;; l_copy l) LoUnit
  | LAssign h g => act2 e h g l_assign (λ _, LoUnit)
  | LPushBack h v => act1 e h (λ l, l_push_back l (LVal v)) (λ _, LoUnit)
  | LPushFront h v => act1 e h (λ l, l_push_front l (LVal v)) (λ _, LoUnit)
  | LPushBackRv h v => act1 e h (λ l, l_push_back_rv l (LVal v)) (λ _, LoUnit)
  | LPushFrontRv h v => act1 e h (λ l, l_push_front_rv l (LVal v)) (λ _, LoUnit)
  | LEmplaceBack h v => act1 e h (λ l, l_emplace_back l (LVal v)) LoVal
  | LEmplaceFront h v => act1 e h (λ l, l_emplace_front l (LVal v)) LoVal
  | LInsert h i v => act1 e h (λ l, p <- l_nth l i ;; r <- l_insert l p (LVal v) ;; l_distance l r) LoNat
  | LEmplace h i v => act1 e h (λ l, p <- l_nth l i ;; r <- l_emplace l p (LVal v) ;; l_distance l r) LoNat
  | LInsertElem h i g j =>
      act2 e h g (λ l l', q <- l_nth l' j ;; p <- l_nth l i ;; r <- l_insert l p (LElem q) ;; l_distance l r) LoNat
  | LErase h i => act1 e h (λ l, p <- l_nth l i ;; r <- l_erase l p ;; l_distance l r) LoNat
  | LPopBack h => act1 e h l_pop_back (λ _, LoUnit)
  | LPopFront h => act1 e h l_pop_front (λ _, LoUnit)
  | LSet h i v => act1 e h (λ l, p <- l_nth l i ;; l_set p v) (λ _, LoUnit)
  | LClear h => act1 e h l_clear (λ _, LoUnit)
  | LDestroy h => drop_obj e h l_dtor LoUnit
  | LSize h => act1 e h l_size LoNat
  | LEmpty h => act1 e h l_empty LoBool
  | LFront h => act1 e h l_front LoVal
  | LBack h => act1 e h l_back LoVal
  | LGet h i => act1 e h (λ l, p <- l_nth l i ;; l_value p) LoVal
  | LIter h => act1 e h l_iterate LoList
  | LRIter h => act1 e h l_riterate LoList
  end.
