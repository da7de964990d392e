(** Model of cest::set and cest::map — /repo/include/cest/set.hpp and
    /repo/include/cest/map.hpp.

    The two headers are the same code except for the key of an element (set: the
    element; map: x.first) and the test with which operator++ recognises a right
    child (set: node addresses, set.hpp 60; map: operator== on the keys, map.hpp
    65, 120).  One model serves both: [key] gives an element's key, [comp] is
    the comparator and [eqn] is [None] for set and [Some eqk] for map.
    Line numbers are given as set / map.

    Simplifications:
    - m_size is an unbounded natural;
    - the allocator is std::allocator, stateless and not represented; the
      comparator is a pure function, the same for all containers of a type
      (m_comp is always default-constructed, never copied);
    - insert's [const value_type&] argument is read once at the start; insert
      changes no existing element, so this is the same as reading it each time;
    - the locals [added] and [ret_node], captured by reference, are the result
      of the recursive lambda;
    - tree_iter and const_tree_iter behave alike and are a [node*];
    - copies of elements throw at the oracle's will;
    - deallocating a node that was not destroyed is reported as UB. *)
From Verif Require Export Mem Client ModelSwap.

(** enum eCol: 90 / 150 *)
Inductive color := Red | Black.
Global Instance color_eq_dec : EqDecision color.
Proof. solve_decision. Defined.

(** The object: m_root, m_begin, m_size (268-270 / 326-328).  A node (92-98 /
    152-158); [x] is [None] once destroyed.  [TRaw]: storage of a node in which
    nothing was constructed. *)
Inductive tcell (X : Type) :=
  | THead (root bgn : option loc) (size : nat)
  | TNode (x : option X) (l r p : option loc) (c : color)
  | TRaw.
Global Arguments THead {_} _ _ _.
Global Arguments TNode {_} _ _ _ _ _.
Global Arguments TRaw {_}.

(** What a reference of type [node*&] can be bound to: m_root, a link field of
    a node, or a local variable holding [v]. *)
Inductive place :=
  | PRoot (this : loc)
  | PL (n : loc) | PR (n : loc) | PP (n : loc)
  | PLocal (v : option loc).

Section tree.
  Context {X K : Type} (key : X → K) (comp : K → K → bool) (eqn : option (K → K → bool)).
  Notation MT := (M (tcell X)).
  Implicit Types (n m : loc) (p it : option loc).

  (** ** Field access *)
  Definition rd (pl : place) : MT (option loc) :=
    match pl with
    | PRoot this => c <- load this ;; match c with THead r _ _ => ret r | _ => ub end
    | PL n => c <- load n ;; match c with TNode (Some _) l _ _ _ => ret l | _ => ub end
    | PR n => c <- load n ;; match c with TNode (Some _) _ r _ _ => ret r | _ => ub end
    | PP n => c <- load n ;; match c with TNode (Some _) _ _ p _ => ret p | _ => ub end
    | PLocal v => ret v
    end.
  (** Assigning to a local variable that is not used again has no effect. *)
  Definition wr (pl : place) (v : option loc) : MT unit :=
    match pl with
    | PRoot this => c <- load this ;; match c with THead _ b k => store this (THead v b k) | _ => ub end
    | PL n => c <- load n ;; match c with TNode (Some x) _ r p c => store n (TNode (Some x) v r p c) | _ => ub end
    | PR n => c <- load n ;; match c with TNode (Some x) l _ p c => store n (TNode (Some x) l v p c) | _ => ub end
    | PP n => c <- load n ;; match c with TNode (Some x) l r _ c => store n (TNode (Some x) l r v c) | _ => ub end
    | PLocal _ => ret tt
    end.
  (** Dereferencing a pointer. *)
  Definition node p : MT loc := match p with Some n => ret n | None => ub end.
  (** n->x, n->c *)
  Definition t_elem n : MT X :=
    c <- load n ;; match c with TNode (Some x) _ _ _ _ => ret x | _ => ub end.
  Definition t_color n : MT color :=
    c <- load n ;; match c with TNode (Some _) _ _ _ c => ret c | _ => ub end.
  Definition t_paint n (c : color) : MT unit :=
    o <- load n ;; match o with TNode (Some x) l r p _ => store n (TNode (Some x) l r p c) | _ => ub end.
  (** m_begin, m_size *)
  Definition t_bgn (this : loc) : MT (option loc) :=
    c <- load this ;; match c with THead _ b _ => ret b | _ => ub end.
  Definition t_set_bgn (this : loc) (b : option loc) : MT unit :=
    c <- load this ;; match c with THead r _ k => store this (THead r b k) | _ => ub end.
  Definition t_size (this : loc) : MT nat :=
    c <- load this ;; match c with THead _ _ k => ret k | _ => ub end.
  Definition t_set_size (this : loc) (k : nat) : MT unit :=
    c <- load this ;; match c with THead r b _ => store this (THead r b k) | _ => ub end.

  (** begin, end: 121-126 / 180-188; size, empty: 127-128 / 189-191 *)
  Definition t_begin (this : loc) : MT (option loc) := t_bgn this.
  Definition t_end : option loc := None.
  Definition t_empty (this : loc) : MT bool := k <- t_size this ;; ret (k =? 0).

  (** ** Iterators.  operator*: 46-47 / 51-52, 106-107 *)
  Definition t_value it : MT X := n <- node it ;; t_elem n.
  (** it->second = ... (map only: tree_iter::operator-> is not const); the
      element is replaced as a whole, clients keep the key *)
  Definition t_set it (x : X) : MT unit :=
    n <- node it ;;
    o <- load n ;;
    match o with
    | TNode (Some _) l r p c => may_throw ;;; store n (TNode (Some x) l r p c)
    | _ => ub
    end.

  (** while (curr_node->l) curr_node = curr_node->l: 54-55 / 59-60 *)
  Fixpoint t_down (fuel : nat) n : MT loc :=
    match fuel with
    | O => diverge
    | S fuel => l <- rd (PL n) ;; match l with None => ret n | Some l => t_down fuel l end
    end.
  (** [curr_node == pn->r] (60) / [curr_node->x.first == pn->r->x.first] (65) *)
  Definition t_same n m : MT bool :=
    match eqn with
    | None => ret (bool_decide (n = m))
    | Some e => x <- t_elem n ;; y <- t_elem m ;; ret (e (key x) (key y))
    end.
  (** the climbing loop: 59-65 / 64-70 *)
  Fixpoint t_climb (fuel : nat) n (pn : option loc) : MT (option loc) :=
    match fuel with
    | O => diverge
    | S fuel =>
        match pn with
        | None => ret None
        | Some q =>
            r <- rd (PR q) ;;
            match r with
            | None => ret (Some q)
            | Some r =>
                b <- t_same n r ;;
                if b : bool then pp <- rd (PP q) ;; t_climb fuel q pp else ret (Some q)
            end
        end
    end.
  (** operator++: 49-68 / 54-73, 109-128 *)
  Definition t_succ it : MT (option loc) :=
    n <- node it ;;
    r <- rd (PR n) ;;
    match r with
    | Some r => m <- with_fuel (λ fuel, t_down fuel r) ;; ret (Some m)
    | None => pn <- rd (PP n) ;; with_fuel (λ fuel, t_climb fuel n pn)
    end.

  (** ** find: 147-171 / 211-235 (the heterogeneous overloads, 173-199 /
      237-263, have the same loop) *)
  Fixpoint t_find_loop (fuel : nat) (k : K) p : MT (option loc) :=
    match fuel with
    | O => diverge
    | S fuel =>
        match p with
        | None => ret None
        | Some n =>
            x <- t_elem n ;;
            if comp k (key x) then l <- rd (PL n) ;; t_find_loop fuel k l
            else if comp (key x) k then r <- rd (PR n) ;; t_find_loop fuel k r
            else ret (Some n)
        end
    end.
  Definition t_find (this : loc) (k : K) : MT (option loc) :=
    e <- t_empty this ;;
    if e : bool then ret t_end else
    root <- rd (PRoot this) ;; with_fuel (λ fuel, t_find_loop fuel k root).

  (** ** rotate_left: 201-205 / 265-269; the arguments of swap are lvalues,
      determined before any of them is changed *)
  Definition t_rotate_left (pl : place) : MT unit :=
    n <- rd pl ;; n <- node n ;;
    nr <- rd (PR n) ;; nr <- node nr ;;
    nrl <- rd (PL nr) ;;
    let nrlp := match nrl with Some l => PP l | None => PLocal (Some nr) end in
    nary_swap rd wr [pl; PR n; PL nr; PP nr; PP n; nrlp].
  (** ** rotate_right: 207-211 / 271-275 *)
  Definition t_rotate_right (pl : place) : MT unit :=
    n <- rd pl ;; n <- node n ;;
    nl <- rd (PL n) ;; nl <- node nl ;;
    nlr <- rd (PR nl) ;;
    let nlrp := match nlr with Some r => PP r | None => PLocal (Some nl) end in
    nary_swap rd wr [pl; PL n; PR nl; PP nl; PP n; nlrp].

  (** [q && q->c == RED] *)
  Definition t_is_red p : MT bool :=
    match p with
    | None => ret false
    | Some n => c <- t_color n ;; ret (bool_decide (c = Red))
    end.
  (** [n->a && n->a->c == RED && n->a->b && n->a->b->c == RED] *)
  Definition t_red_red (a : loc → place) (b : loc → place) n : MT bool :=
    q <- rd (a n) ;;
    r <- t_is_red q ;;
    if r : bool then q <- node q ;; qq <- rd (b q) ;; t_is_red qq else ret false.
  (** ** The end of the insertion lambda: 237-254 / 301-317 *)
  Definition t_fix (pl : place) : MT unit :=
    n <- rd pl ;; n <- node n ;;
    c <- t_color n ;;
    if decide (c = Red) then ret tt else
    ll <- t_red_red PL PL n ;;
    if ll : bool then
      l <- rd (PL n) ;; l <- node l ;; q <- rd (PL l) ;; q <- node q ;; t_paint q Black ;;;
      t_rotate_right pl
    else
    lr <- t_red_red PL PR n ;;
    if lr : bool then
      l <- rd (PL n) ;; l <- node l ;; t_paint l Black ;;;
      t_rotate_left (PL n) ;;; t_rotate_right pl
    else
    rl <- t_red_red PR PL n ;;
    if rl : bool then
      r <- rd (PR n) ;; r <- node r ;; t_paint r Black ;;;
      t_rotate_right (PR n) ;;; t_rotate_left pl
    else
    rr <- t_red_red PR PR n ;;
    if rr : bool then
      r <- rd (PR n) ;; r <- node r ;; q <- rd (PR r) ;; q <- node q ;; t_paint q Black ;;;
      t_rotate_left pl
    else ret tt.

  (** std::construct_at(ret_node, value, nullptr, nullptr, p, RED): the node
      constructor (93-94 / 153-154) takes the value by value and copies it *)
  Definition t_construct n (v : X) p : MT unit :=
    c <- load n ;;
    match c with
    | TRaw => may_throw ;;; may_throw ;;; store n (TNode (Some v) None None p Red)
    | _ => ub
    end.
  (** the case of a null link: 218-224 / 282-288 *)
  Definition t_attach (this : loc) (v : X) (pl : place) p : MT (loc * bool) :=
    n <- alloc TRaw ;;
    wr pl (Some n) ;;;
    t_construct n v p ;;;
    b <- t_bgn this ;;
    (match b with
     | None => n <- rd pl ;; t_set_bgn this n
     | Some m =>
         y <- t_elem m ;;
         if comp (key v) (key y) then n <- rd pl ;; t_set_bgn this n else t_set_bgn this b
     end) ;;;
    k <- t_size this ;; t_set_size this (S k) ;;;
    ret (n, true).
  (** ** The insertion lambda: 217-255 / 281-318; gives ret_node and added *)
  Fixpoint t_ins (fuel : nat) (this : loc) (v : X) (pl : place) p : MT (loc * bool) :=
    match fuel with
    | O => diverge
    | S fuel =>
        n <- rd pl ;;
        match n with
        | None => t_attach this v pl p
        | Some n =>
            x <- t_elem n ;;
            if comp (key v) (key x) then
              r <- t_ins fuel this v (PL n) (Some n) ;; t_fix pl ;;; ret r
            else if comp (key x) (key v) then
              r <- t_ins fuel this v (PR n) (Some n) ;; t_fix pl ;;; ret r
            else ret (n, false)
        end
    end.
  (** ** insert: 213-260 / 277-324; insert with hint: 264-266 (the hint is not
      used) *)
  Definition t_insert (this : loc) (v : X) : MT (loc * bool) :=
    r <- with_fuel (λ fuel, t_ins fuel this v (PRoot this) None) ;;
    root <- rd (PRoot this) ;; root <- node root ;; t_paint root Black ;;;
    ret r.
  Definition t_insert_hint (this : loc) (hint : option loc) (v : X) : MT loc :=
    r <- t_insert this v ;; ret r.1.

  (** ** clear: 130-145 / 193-208 *)
  Definition t_destroy n : MT unit :=
    c <- load n ;;
    match c with TNode (Some _) l r p c => store n (TNode None l r p c) | _ => ub end.
  Definition t_dealloc n : MT unit :=
    c <- load n ;; match c with TNode None _ _ _ _ | TRaw => free n | _ => ub end.
  Fixpoint t_dd (fuel : nat) p : MT unit :=
    match fuel with
    | O => diverge
    | S fuel =>
        match p with
        | None => ret tt
        | Some n =>
            l <- rd (PL n) ;; t_dd fuel l ;;;
            r <- rd (PR n) ;; t_dd fuel r ;;;
            t_destroy n ;;; t_dealloc n
        end
    end.
  Definition t_clear (this : loc) : MT unit :=
    root <- rd (PRoot this) ;;
    with_fuel (λ fuel, t_dd fuel root) ;;;
    wr (PRoot this) None ;;; t_set_bgn this None ;;; t_set_size this 0.

  (** ** Constructors, destructor, assignment: 100-116 / 160-175 *)
  Definition t_new : MT loc := new (THead None None 0).
  Definition t_dtor (this : loc) : MT unit := t_clear this ;;; free this.
  (** for (it = other.begin(); it != other.end(); ++it) insert( *it ) *)
  Fixpoint t_fill_loop (fuel : nat) (this : loc) it : MT unit :=
    match fuel with
    | O => diverge
    | S fuel =>
        if decide (it = t_end) then ret tt else
        x <- t_value it ;; t_insert this x ;;;
        it <- t_succ it ;; t_fill_loop fuel this it
    end.
  Definition t_fill (this other : loc) : MT unit :=
    it <- t_begin other ;; with_fuel (λ fuel, t_fill_loop fuel this it).
  (** The copy constructor delegates to the default one, so an exception runs
      the destructor. *)
  Definition t_copy (other : loc) : MT loc :=
    this <- t_new ;; on_throw (t_fill this other) (t_dtor this) ;;; ret this.
  Definition t_assign (this other : loc) : MT unit := t_clear this ;;; t_fill this other.

  (** ** Client loops: the elements from begin() to end() *)
  Fixpoint t_walk (fuel : nat) it : MT (list X) :=
    match fuel with
    | O => diverge
    | S fuel =>
        if decide (it = t_end) then ret [] else
        x <- t_value it ;; it <- t_succ it ;; xs <- t_walk fuel it ;; ret (x :: xs)
    end.
  Definition t_iterate (this : loc) : MT (list X) :=
    b <- t_begin this ;; with_fuel (λ fuel, t_walk fuel b).
  (** the element an iterator designates, if it is not end() *)
  Definition t_at it : MT (option X) :=
    match it with None => ret None | Some n => x <- t_elem n ;; ret (Some x) end.
End tree.

(** ** Client operations on named containers. *)
Inductive top (X K : Type) :=
  | TNew (h : nat)
  | TCopy (h g : nat)
  | TAssign (h g : nat)                (* h = g; *)
  | TInsert (h : nat) (v : X)          (* h.insert(v); *)
  | TInsertHint (h : nat) (k : K) (v : X)   (* h.insert(h.find(k), v); *)
  | TFind (h : nat) (k : K)
  | TUpdate (h : nat) (k : K) (x : X)  (* h.find(k)->second = x.second; (map) *)
  | TClear (h : nat)
  | TDestroy (h : nat)
  | TSize (h : nat)
  | TEmpty (h : nat)
  | TBegin (h : nat)                   (* *h.begin(), if not end() *)
  | TIter (h : nat).
Global Arguments TNew {_ _} _.
Global Arguments TCopy {_ _} _ _.
Global Arguments TAssign {_ _} _ _.
Global Arguments TInsert {_ _} _ _.
Global Arguments TInsertHint {_ _} _ _ _.
Global Arguments TFind {_ _} _ _.
Global Arguments TUpdate {_ _} _ _ _.
Global Arguments TClear {_ _} _.
Global Arguments TDestroy {_ _} _.
Global Arguments TSize {_ _} _.
Global Arguments TEmpty {_ _} _.
Global Arguments TBegin {_ _} _.
Global Arguments TIter {_ _} _.

(** Answers; an iterator is reported as the element it designates. *)
Inductive tout (X : Type) :=
  | ToUnit | ToNat (n : nat) | ToBool (b : bool) | ToElem (x : option X)
  | ToIns (x : X) (added : bool) | ToList (xs : list X).
Global Arguments ToUnit {_}.
Global Arguments ToNat {_} _.
Global Arguments ToBool {_} _.
Global Arguments ToElem {_} _.
Global Arguments ToIns {_} _ _.
Global Arguments ToList {_} _.

Definition t_run {X K} (key : X → K) (comp : K → K → bool) (eqn : option (K → K → bool))
    (e : gmap nat loc) (op : top X K) : M (tcell X) (gmap nat loc * tout X) :=
  match op with
  | TNew h => decl e h t_new ToUnit
  | TCopy h g => decl e h (l <- obj e g ;; t_copy key comp eqn l) ToUnit
  | TAssign h g => act2 e h g (t_assign key comp eqn) (λ _, ToUnit)
  | TInsert h v =>
      act1 e h (λ l, r <- t_insert key comp l v ;; x <- t_elem r.1 ;; ret (x, r.2)) (λ r, ToIns r.1 r.2)
  | TInsertHint h k v =>
      act1 e h (λ l, hint <- t_find key comp l k ;; n <- t_insert_hint key comp l hint v ;; t_elem n)
        (λ x, ToElem (Some x))
  | TFind h k => act1 e h (λ l, it <- t_find key comp l k ;; t_at it) ToElem
  | TUpdate h k x => act1 e h (λ l, it <- t_find key comp l k ;; t_set it x) (λ _, ToUnit)
  | TClear h => act1 e h t_clear (λ _, ToUnit)
  | TDestroy h => drop_obj e h t_dtor ToUnit
  | TSize h => act1 e h t_size ToNat
  | TEmpty h => act1 e h t_empty ToBool
  | TBegin h => act1 e h (λ l, it <- t_begin l ;; t_at it) ToElem
  | TIter h => act1 e h (t_iterate key eqn) ToList
  end.

(** cest::set<K, Compare> and cest::map<K, T, Compare> (with the keys'
    operator==) *)
Definition set_run {K} (comp : K → K → bool) := t_run (X:=K) (λ k, k) comp None.
Definition map_run {K T} (comp eqk : K → K → bool) := t_run (X:=K * T) fst comp (Some eqk).
