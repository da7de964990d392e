(** Model of cest::deque — /repo/include/cest/deque.hpp — and cest::queue —
    /repo/include/cest/queue.hpp.

    Simplifications:
    - CHUNK_SIZE (1024, line 9) is a parameter [K]; [CHUNK_SIZE] below is its
      value in the header;
    - m_chunks, a cest::vector<value_type*>, is one cell holding its capacity and
      its elements; push_back on it allocates when it is full exactly as in
      vector.hpp 187-195 (see ModelVector.v for the vector itself);
    - indices and sizes are unbounded; m_back_chunk is an integer, because
      pop_back may decrement it below 0 (in the code it becomes 2^64-1, which as
      an index is out of bounds just as -1 is, and incrementing it gives 0);
    - moves of elements (push_back(T&&), push_front(T&&)) are copies;
    - iter and const_iter are the same code and share one model. *)
From Verif Require Export Mem Client.

(** A deque object (m_front, m_back, m_front_chunk, m_back_chunk, m_size and the
    storage of m_chunks: 347-353), the storage of m_chunks, or a chunk of slots. *)
Inductive dcell (V : Type) :=
  | DHdr (front back fchunk : nat) (bchunk : Z) (size : nat) (chunks : ptr)
  | DVec (cap : nat) (ps : list loc)
  | DArr (els : list (option V)).
Global Arguments DHdr {_} _ _ _ _ _ _.
Global Arguments DVec {_} _ _.
Global Arguments DArr {_} _.

Definition CHUNK_SIZE : nat := 1024.

(** An argument of type [const T&]: an object outside all deques, or a slot. *)
Inductive dref (V : Type) := DVal (v : V) | DSlot (r : loc * nat).
Global Arguments DVal {_} _.
Global Arguments DSlot {_} _.

(** iter: 36-90.  m_p: a chunk and an index in it; m_ppchunk: the storage of
    m_chunks and an index in it. *)
Record diter := DIter { di_p : loc * nat; di_vec : loc; di_idx : Z }.

Section deque.
  Context {V : Type} (K : nat).
  Notation MD := (M (dcell V)).

  (** ** Members *)
  Definition d_hdr (this : loc) : MD (nat * nat * nat * Z * nat * ptr) :=
    c <- load this ;;
    match c with DHdr f b fc bc n v => ret (f, b, fc, bc, n, v) | _ => ub end.
  Definition d_front_ (this : loc) : MD nat := h <- d_hdr this ;; let '(f, b, fc, bc, n, v) := h in ret f.
  Definition d_back_ (this : loc) : MD nat := h <- d_hdr this ;; let '(f, b, fc, bc, n, v) := h in ret b.
  Definition d_fchunk (this : loc) : MD nat := h <- d_hdr this ;; let '(f, b, fc, bc, n, v) := h in ret fc.
  Definition d_bchunk (this : loc) : MD Z := h <- d_hdr this ;; let '(f, b, fc, bc, n, v) := h in ret bc.
  Definition d_size (this : loc) : MD nat := h <- d_hdr this ;; let '(f, b, fc, bc, n, v) := h in ret n.
  Definition d_chunks (this : loc) : MD ptr := h <- d_hdr this ;; let '(f, b, fc, bc, n, v) := h in ret v.
  Definition d_set_front (this : loc) (x : nat) : MD unit :=
    h <- d_hdr this ;; let '(f, b, fc, bc, n, v) := h in store this (DHdr x b fc bc n v).
  Definition d_set_back (this : loc) (x : nat) : MD unit :=
    h <- d_hdr this ;; let '(f, b, fc, bc, n, v) := h in store this (DHdr f x fc bc n v).
  Definition d_set_fchunk (this : loc) (x : nat) : MD unit :=
    h <- d_hdr this ;; let '(f, b, fc, bc, n, v) := h in store this (DHdr f b x bc n v).
  Definition d_set_bchunk (this : loc) (x : Z) : MD unit :=
    h <- d_hdr this ;; let '(f, b, fc, bc, n, v) := h in store this (DHdr f b fc x n v).
  Definition d_set_size (this : loc) (x : nat) : MD unit :=
    h <- d_hdr this ;; let '(f, b, fc, bc, n, v) := h in store this (DHdr f b fc bc x v).
  Definition d_set_chunks (this : loc) (x : ptr) : MD unit :=
    h <- d_hdr this ;; let '(f, b, fc, bc, n, v) := h in store this (DHdr f b fc bc n x).

  (** ** m_chunks *)
  Definition d_vec (v : loc) : MD (nat * list loc) :=
    c <- load v ;; match c with DVec cap ps => ret (cap, ps) | _ => ub end.
  (** the pointers in m_chunks *)
  Definition d_ps (this : loc) : MD (list loc) :=
    v <- d_chunks this ;;
    match v with None => ret [] | Some v => h <- d_vec v ;; ret h.2 end.
  (** m_chunks[j]; beyond its size: undefined *)
  Definition d_chunk (this : loc) (j : Z) : MD loc :=
    ps <- d_ps this ;;
    if decide (0 ≤ j)%Z then
      match ps !! Z.to_nat j with Some c => ret c | None => ub end
    else ub.
  (** m_chunks.push_back(p): vector.hpp 187-195 *)
  Definition d_vec_push (this : loc) (p : loc) : MD unit :=
    v <- d_chunks this ;;
    match v with
    | None => l <- alloc (DVec 1 [p]) ;; d_set_chunks this (Some l)
    | Some v =>
        h <- d_vec v ;;
        if length h.2 =? h.1 then
          l <- alloc (DVec (h.1 * 2) (h.2 ++ [p])) ;; free v ;;; d_set_chunks this (Some l)
        else store v (DVec h.1 (h.2 ++ [p]))
    end.
  (** std::rotate(m_chunks.rbegin(), m_chunks.rbegin() + 1, m_chunks.rend()):
      the last element goes to the front *)
  Definition d_vec_rotate (this : loc) : MD unit :=
    v <- d_chunks this ;;
    match v with
    | None => ub
    | Some v =>
        h <- d_vec v ;;
        match rev h.2 with
        | [] => ub
        | p :: r => store v (DVec h.1 (p :: rev r))
        end
    end.

  (** ** Slots of a chunk *)
  Definition d_els (c : loc) : MD (list (option V)) :=
    a <- load c ;; match a with DArr els => ret els | _ => ub end.
  Definition d_get (r : loc * nat) : MD V :=
    els <- d_els r.1 ;; match els !! r.2 with Some (Some v) => ret v | _ => ub end.
  Definition d_construct (r : loc * nat) (v : V) : MD unit :=
    may_throw ;;;
    els <- d_els r.1 ;;
    match els !! r.2 with Some None => store r.1 (DArr (<[r.2 := Some v]> els)) | _ => ub end.
  Definition d_assign_at (r : loc * nat) (v : V) : MD unit :=
    may_throw ;;;
    els <- d_els r.1 ;;
    match els !! r.2 with Some (Some _) => store r.1 (DArr (<[r.2 := Some v]> els)) | _ => ub end.
  Definition d_destroy_at (r : loc * nat) : MD unit :=
    els <- d_els r.1 ;;
    match els !! r.2 with Some (Some _) => store r.1 (DArr (<[r.2 := None]> els)) | _ => ub end.
  Definition d_allocate : MD loc := alloc (DArr (replicate K None)).
  (** The size must be the allocated one and no element may be alive. *)
  Definition d_deallocate (c : loc) : MD unit :=
    els <- d_els c ;;
    if decide (length els = K ∧ Forall (λ o, o = None) els) then free c else ub.
  Definition d_deref (r : dref V) : MD V :=
    match r with DVal v => ret v | DSlot r => d_get r end.

  (** ** operator[]: 286-297 *)
  Definition d_index (this : loc) (pos : nat) : MD (loc * nat) :=
    f <- d_front_ this ;; fc <- d_fchunk this ;;
    let chunk := (f + pos) mod K in
    let chunk_offset := (f + pos) / K in
    c <- d_chunk this (Z.of_nat (fc + chunk_offset)) ;; ret (c, chunk).
  (** ** front: 271-276, back: 277-282, empty, size: 283-284 *)
  Definition d_front (this : loc) : MD (loc * nat) :=
    fc <- d_fchunk this ;; c <- d_chunk this (Z.of_nat fc) ;; f <- d_front_ this ;; ret (c, f).
  Definition d_back (this : loc) : MD (loc * nat) :=
    bc <- d_bchunk this ;; c <- d_chunk this bc ;; b <- d_back_ this ;; ret (c, b).
  Definition d_empty (this : loc) : MD bool := n <- d_size this ;; ret (n =? 0).

  (** ** push_front_helper: 301-324 *)
  Definition d_push_front_helper (this : loc) : MD unit :=
    f <- d_front_ this ;;
    (if f =? 0 then
       fc <- d_fchunk this ;;
       (if fc =? 0 then
          p <- d_allocate ;; d_vec_push this p ;;; d_vec_rotate this ;;;
          bc <- d_bchunk this ;; d_set_bchunk this (bc + 1)
        else d_set_fchunk this (fc - 1)) ;;;
       d_set_front this (K - 1)
     else d_set_front this (f - 1)) ;;;
    n <- d_size this ;; d_set_size this (n + 1).
  (** ** push_back_helper: 326-345 *)
  Definition d_push_back_helper (this : loc) : MD unit :=
    b <- d_back_ this ;;
    (if b =? K - 1 then
       bc <- d_bchunk this ;; ps <- d_ps this ;;
       (if (bc =? Z.of_nat (length ps) - 1)%Z then
          p <- d_allocate ;; d_vec_push this p ;;;
          bc <- d_bchunk this ;; d_set_bchunk this (bc + 1)
        else ret tt) ;;;
       d_set_back this 0
     else d_set_back this (b + 1)) ;;;
    n <- d_size this ;; d_set_size this (n + 1).
  (** ** push_front: 201-211 *)
  Definition d_push_front (this : loc) (value : dref V) : MD unit :=
    d_push_front_helper this ;;;
    r <- d_front this ;; v <- d_deref value ;; d_construct r v.
  (** ** push_back: 213-223 *)
  Definition d_push_back (this : loc) (value : dref V) : MD unit :=
    d_push_back_helper this ;;;
    r <- d_back this ;; v <- d_deref value ;; d_construct r v.
  (** ** pop_back: 225-237 *)
  Definition d_pop_back (this : loc) : MD unit :=
    e <- d_empty this ;;
    if e : bool then ret tt else
    r <- d_back this ;; d_destroy_at r ;;;
    b <- d_back_ this ;;
    (if b =? 0 then
       d_set_back this (K - 1) ;;; bc <- d_bchunk this ;; d_set_bchunk this (bc - 1)
     else d_set_back this (b - 1)) ;;;
    n <- d_size this ;; d_set_size this (n - 1).
  (** ** pop_front: 239-251 *)
  Definition d_pop_front (this : loc) : MD unit :=
    e <- d_empty this ;;
    if e : bool then ret tt else
    r <- d_front this ;; d_destroy_at r ;;;
    f <- d_front_ this ;;
    (if f =? K - 1 then
       d_set_front this 0 ;;; fc <- d_fchunk this ;; d_set_fchunk this (fc + 1)
     else d_set_front this (f + 1)) ;;;
    n <- d_size this ;; d_set_size this (n - 1).

  (** ** clear: 190-199 *)
  Definition d_clear (this : loc) : MD unit :=
    n <- d_size this ;;
    for_up 0 n (λ i, r <- d_index this i ;; d_destroy_at r) ;;;
    d_set_front this (K / 2) ;;;
    d_set_back this (K / 2 - 1) ;;;
    ps <- d_ps this ;;
    d_set_bchunk this (Z.of_nat (length ps / 2)) ;;;
    d_set_fchunk this (length ps / 2) ;;;
    d_set_size this 0.

  (** ** default constructor: 153-161.  The members that are not yet set are
      indeterminate, and are not read.  When the body throws, m_chunks is
      destroyed (it has no storage then) and the object's storage ends. *)
  Definition d_new : MD loc :=
    this <- new (DHdr 0 0 0 0 0 None) ;;
    on_throw
      (p <- d_allocate ;;
       d_set_front this (K / 2) ;;; d_set_back this (K / 2 - 1) ;;;
       d_vec_push this p ;;;
       d_set_bchunk this 0 ;;; d_set_fchunk this 0 ;;; d_set_size this 0)
      (free this) ;;;
    ret this.
  (** ** destructor: 175-180, then m_chunks' destructor, then the end of the
      object's storage *)
  Fixpoint d_dealloc_all (ps : list loc) : MD unit :=
    match ps with [] => ret tt | p :: ps => d_deallocate p ;;; d_dealloc_all ps end.
  Definition d_dtor (this : loc) : MD unit :=
    d_clear this ;;;
    ps <- d_ps this ;; d_dealloc_all ps ;;;
    v <- d_chunks this ;;
    (match v with None => ret tt | Some v => free v end) ;;;
    free this.
  (** for (i = 0; i < other.size(); ++i) push_back(other[i]).  other.size() does
      not change: it is another object, or 0 (self-assignment). *)
  Definition d_append (this other : loc) : MD unit :=
    n <- d_size other ;;
    for_up 0 n (λ i, r <- d_index other i ;; d_push_back this (DSlot r)).
  (** ** copy constructor: 163-167, and from an initializer list: 169-173; both
      delegate, so the destructor runs if they throw *)
  Definition d_copy (other : loc) : MD loc :=
    this <- d_new ;; on_throw (d_append this other) (d_dtor this) ;;; ret this.
  Fixpoint d_push_all (this : loc) (vs : list V) : MD unit :=
    match vs with [] => ret tt | v :: vs => d_push_back this (DVal v) ;;; d_push_all this vs end.
  Definition d_init (vs : list V) : MD loc :=
    this <- d_new ;; on_throw (d_push_all this vs) (d_dtor this) ;;; ret this.
  (** ** operator=: 182-188 *)
  Definition d_assign (this other : loc) : MD unit := d_clear this ;;; d_append this other.

  (** ** Iterators *)
  (** *m_ppchunk *)
  Definition d_pp (v : loc) (j : Z) : MD loc :=
    h <- d_vec v ;;
    if decide (0 ≤ j)%Z then
      match h.2 !! Z.to_nat j with Some c => ret c | None => ub end
    else ub.
  (** begin: 253-261, end: 262-270 *)
  Definition d_begin (this : loc) : MD diter :=
    fc <- d_fchunk this ;; c <- d_chunk this (Z.of_nat fc) ;; f <- d_front_ this ;;
    v <- d_chunks this ;;
    match v with None => ub | Some v => ret (DIter (c, f) v (Z.of_nat fc)) end.
  Definition d_end (this : loc) : MD diter :=
    bc <- d_bchunk this ;; c <- d_chunk this bc ;; b <- d_back_ this ;;
    v <- d_chunks this ;;
    match v with None => ub | Some v => ret (DIter (c, b + 1) v bc) end.
  (** operator++: 46-55; a pointer goes up to one past the end of its array *)
  Definition d_incr (it : diter) : MD diter :=
    c <- d_pp (di_vec it) (di_idx it) ;;
    if decide (di_p it = (c, K - 1)) then
      c <- d_pp (di_vec it) (di_idx it + 1) ;; ret (DIter (c, 0) (di_vec it) (di_idx it + 1))
    else if decide ((di_p it).2 < K) then ret (DIter ((di_p it).1, (di_p it).2 + 1) (di_vec it) (di_idx it))
    else ub.
  (** operator--: 61-70 *)
  Definition d_decr (it : diter) : MD diter :=
    c <- d_pp (di_vec it) (di_idx it) ;;
    if decide (di_p it = (c, 0)) then
      c <- d_pp (di_vec it) (di_idx it - 1) ;; ret (DIter (c, 0) (di_vec it) (di_idx it - 1))
    else if decide ((di_p it).2 = 0) then ub
    else ret (DIter ((di_p it).1, (di_p it).2 - 1) (di_vec it) (di_idx it)).
  (** operator==: 76-78 *)
  Definition d_eq (x y : diter) : bool := bool_decide (di_p x = di_p y).
  (** operator-: 80-86; pointers into different arrays cannot be subtracted *)
  Definition d_diff (x y : diter) : MD Z :=
    cx <- d_pp (di_vec x) (di_idx x) ;;
    cy <- d_pp (di_vec y) (di_idx y) ;;
    if decide ((di_p x).1 = cx ∧ (di_p y).1 = cy) then
      ret (Z.of_nat K * (di_idx x - di_idx x - 1) + Z.of_nat (di_p x).2 + (Z.of_nat K - Z.of_nat (di_p y).2))%Z
    else ub.
  (** Client loop: the elements from begin() to end() *)
  Fixpoint d_walk (fuel : nat) (it e : diter) : MD (list V) :=
    match fuel with
    | O => diverge
    | S fuel =>
        if d_eq it e then ret [] else
        v <- d_get (di_p it) ;; it <- d_incr it ;; vs <- d_walk fuel it e ;; ret (v :: vs)
    end.
  (** one chunk holds [K] elements *)
  Definition d_iterate (this : loc) : MD (list V) :=
    b <- d_begin this ;; e <- d_end this ;; with_fuel (λ fuel, d_walk (fuel * K) b e).
End deque.

(** ** Client operations on named deques.  The [...Own] operations pass a
    reference to the deque's own element. *)
Inductive dop (V : Type) :=
  | DNew (h : nat)
  | DInit (h : nat) (vs : list V)
  | DCopy (h g : nat)
  | DAssign (h g : nat)
  | DPushFront (h : nat) (v : V)
  | DPushBack (h : nat) (v : V)
  | DPushFrontOwn (h i : nat)
  | DPushBackOwn (h i : nat)
  | DPopFront (h : nat)
  | DPopBack (h : nat)
  | DClear (h : nat)
  | DDestroy (h : nat)
  | DSize (h : nat)
  | DEmpty (h : nat)
  | DAt (h i : nat)
  | DSet (h i : nat) (v : V)
  | DFront (h : nat)
  | DBack (h : nat)
  | DIterate (h : nat).
Global Arguments DNew {_} _.
Global Arguments DInit {_} _ _.
Global Arguments DCopy {_} _ _.
Global Arguments DAssign {_} _ _.
Global Arguments DPushFront {_} _ _.
Global Arguments DPushBack {_} _ _.
Global Arguments DPushFrontOwn {_} _ _.
Global Arguments DPushBackOwn {_} _ _.
Global Arguments DPopFront {_} _.
Global Arguments DPopBack {_} _.
Global Arguments DClear {_} _.
Global Arguments DDestroy {_} _.
Global Arguments DSize {_} _.
Global Arguments DEmpty {_} _.
Global Arguments DAt {_} _ _.
Global Arguments DSet {_} _ _ _.
Global Arguments DFront {_} _.
Global Arguments DBack {_} _.
Global Arguments DIterate {_} _.

Inductive dout (V : Type) :=
  | DoUnit | DoNat (n : nat) | DoBool (b : bool) | DoElem (v : V) | DoList (vs : list V).
Global Arguments DoUnit {_}.
Global Arguments DoNat {_} _.
Global Arguments DoBool {_} _.
Global Arguments DoElem {_} _.
Global Arguments DoList {_} _.

Definition d_run {V} (K : nat) (e : gmap nat loc) (op : dop V) : M (dcell V) (gmap nat loc * dout V) :=
  match op with
  | DNew h => decl e h (d_new K) DoUnit
  | DInit h vs => decl e h (d_init K vs) DoUnit
  | DCopy h g => decl e h (l <- obj e g ;; d_copy K l) DoUnit
  | DAssign h g => act2 e h g (d_assign K) (λ _, DoUnit)
  | DPushFront h v => act1 e h (λ l, d_push_front K l (DVal v)) (λ _, DoUnit)
  | DPushBack h v => act1 e h (λ l, d_push_back K l (DVal v)) (λ _, DoUnit)
  | DPushFrontOwn h i => act1 e h (λ l, r <- d_index K l i ;; d_push_front K l (DSlot r)) (λ _, DoUnit)
  | DPushBackOwn h i => act1 e h (λ l, r <- d_index K l i ;; d_push_back K l (DSlot r)) (λ _, DoUnit)
  | DPopFront h => act1 e h (d_pop_front K) (λ _, DoUnit)
  | DPopBack h => act1 e h (d_pop_back K) (λ _, DoUnit)
  | DClear h => act1 e h (d_clear K) (λ _, DoUnit)
  | DDestroy h => drop_obj e h (d_dtor K) DoUnit
  | DSize h => act1 e h d_size DoNat
  | DEmpty h => act1 e h d_empty DoBool
  | DAt h i => act1 e h (λ l, r <- d_index K l i ;; d_get r) DoElem
  | DSet h i v => act1 e h (λ l, r <- d_index K l i ;; d_assign_at r v) (λ _, DoUnit)
  | DFront h => act1 e h (λ l, r <- d_front l ;; d_get r) DoElem
  | DBack h => act1 e h (λ l, r <- d_back l ;; d_get r) DoElem
  | DIterate h => act1 e h (d_iterate K) DoList
  end.

(** ** queue: queue.hpp 22-39.  The only member is the deque [c]; copying a
    queue, or making one from a deque (also "moved": deque has no move
    constructor), copies it. *)
Section queue.
  Context {V : Type} (K : nat).
  Notation MD := (M (dcell V)).
  Definition q_new : MD loc := d_new K.
  Definition q_copy (other : loc) : MD loc := d_copy K other.
  Definition q_dtor (this : loc) : MD unit := d_dtor K this.
  Definition q_empty (this : loc) : MD bool := d_empty this.
  Definition q_size (this : loc) : MD nat := d_size this.
  Definition q_front (this : loc) : MD (loc * nat) := d_front this.
  Definition q_back (this : loc) : MD (loc * nat) := d_back this.
  Definition q_push (this : loc) (value : dref V) : MD unit := d_push_back K this value.
  Definition q_pop (this : loc) : MD unit := d_pop_front K this.
End queue.

Inductive qop (V : Type) :=
  | QNew (h : nat) | QCopy (h g : nat) | QPush (h : nat) (v : V) | QPop (h : nat)
  | QFront (h : nat) | QBack (h : nat) | QSize (h : nat) | QEmpty (h : nat) | QDestroy (h : nat).
Global Arguments QNew {_} _.
Global Arguments QCopy {_} _ _.
Global Arguments QPush {_} _ _.
Global Arguments QPop {_} _.
Global Arguments QFront {_} _.
Global Arguments QBack {_} _.
Global Arguments QSize {_} _.
Global Arguments QEmpty {_} _.
Global Arguments QDestroy {_} _.
Definition q_run {V} (K : nat) (e : gmap nat loc) (op : qop V) : M (dcell V) (gmap nat loc * dout V) :=
  match op with
  | QNew h => decl e h (q_new K) DoUnit
  | QCopy h g => decl e h (l <- obj e g ;; q_copy K l) DoUnit
  | QPush h v => act1 e h (λ l, q_push K l (DVal v)) (λ _, DoUnit)
  | QPop h => act1 e h (q_pop K) (λ _, DoUnit)
  | QFront h => act1 e h (λ l, r <- q_front l ;; d_get r) DoElem
  | QBack h => act1 e h (λ l, r <- q_back l ;; d_get r) DoElem
  | QSize h => act1 e h q_size DoNat
  | QEmpty h => act1 e h q_empty DoBool
  | QDestroy h => drop_obj e h (q_dtor K) DoUnit
  end.
