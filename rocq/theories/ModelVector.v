(** Model of cest::vector — /repo/include/cest/vector.hpp.

    Simplifications:
    - sizes are unbounded naturals (no 2^64 wrap; [m_capacity * 2] would need
      2^63 elements to overflow);
    - the allocator is std::allocator: [allocate(n)] yields [n] raw slots or throws
      std::bad_alloc; [m_alloc] itself is stateless and not represented;
    - element moves are modelled as copies (a moved-from element is only ever
      destroyed afterwards in this header), user element operations may throw
      at the oracle's will ([may_throw]). *)
From Verif Require Export Mem.

(** A cell is either a vector object (m_size, m_capacity, m_p: vector.hpp
    219-222) or an allocated array whose slots are raw ([None]) or hold a live
    element ([Some v]). *)
Inductive vcell (V : Type) :=
  | VHdr (size cap : nat) (p : ptr)
  | VArr (els : list (option V)).
Global Arguments VHdr {_} _ _ _.
Global Arguments VArr {_} _.

(** Argument passed by [const T&]: an object outside every vector's storage, or
    the [i]-th slot of an allocated array. *)
Inductive vref (V : Type) := RVal (v : V) | RElem (blk : loc) (i : nat).
Global Arguments RVal {_} _.
Global Arguments RElem {_} _ _.

Section vector.
  Context {V : Type} (dflt : V) (veq : V → V → bool).
  Notation MV := (M (vcell V)).

  (** ** Member access: vector.hpp 219-222 *)
  Definition v_hdr (this : loc) : MV (nat * nat * ptr) :=
    c <- load this ;;
    match c with VHdr n k p => ret (n, k, p) | VArr _ => ub end.
  Definition v_size (this : loc) : MV nat := h <- v_hdr this ;; ret h.1.1.
  Definition v_cap (this : loc) : MV nat := h <- v_hdr this ;; ret h.1.2.
  Definition v_p (this : loc) : MV ptr := h <- v_hdr this ;; ret h.2.
  Definition set_size (this : loc) (n : nat) : MV unit :=
    h <- v_hdr this ;; store this (VHdr n h.1.2 h.2).
  Definition set_cap (this : loc) (k : nat) : MV unit :=
    h <- v_hdr this ;; store this (VHdr h.1.1 k h.2).
  Definition set_p (this : loc) (p : ptr) : MV unit :=
    h <- v_hdr this ;; store this (VHdr h.1.1 h.1.2 p).

  (** ** Array slots (language level: [m_p[i]], std::construct_at,
      std::destroy_at, element assignment, allocator calls) *)
  Definition a_els (p : ptr) : MV (loc * list (option V)) :=
    match p with
    | None => ub
    | Some l => c <- load l ;; match c with VArr els => ret (l, els) | VHdr _ _ _ => ub end
    end.
  Definition a_get (p : ptr) (i : nat) : MV V :=
    le <- a_els p ;;
    match le.2 !! i with Some (Some v) => ret v | _ => ub end.
  Definition a_construct (p : ptr) (i : nat) (v : V) : MV unit :=
    may_throw ;;;
    le <- a_els p ;;
    match le.2 !! i with
    | Some None => store le.1 (VArr (<[i := Some v]> le.2))
    | _ => ub
    end.
  Definition a_assign (p : ptr) (i : nat) (v : V) : MV unit :=
    may_throw ;;;
    le <- a_els p ;;
    match le.2 !! i with
    | Some (Some _) => store le.1 (VArr (<[i := Some v]> le.2))
    | _ => ub
    end.
  Definition a_destroy (p : ptr) (i : nat) : MV unit :=
    le <- a_els p ;;
    match le.2 !! i with
    | Some (Some _) => store le.1 (VArr (<[i := None]> le.2))
    | _ => ub
    end.
  (** std::destroy_n(p + from, n) *)
  Definition destroy_n (p : ptr) (from n : nat) : MV unit :=
    for_up from n (a_destroy p).
  Definition allocate (n : nat) : MV ptr :=
    l <- alloc (VArr (replicate n None)) ;; ret (Some l).
  (** Deallocating requires the size used for allocation and no live element. *)
  Definition deallocate (p : ptr) (n : nat) : MV unit :=
    le <- a_els p ;;
    if decide (length le.2 = n ∧ Forall (λ o, o = None) le.2)
    then free le.1 else ub.
  Definition deref (r : vref V) : MV V :=
    match r with RVal v => ret v | RElem l i => a_get (Some l) i end.

  (** ** reserve: vector.hpp 108-122 *)
  Definition v_reserve (this : loc) (new_cap : nat) : MV unit :=
    cap <- v_cap this ;;
    if cap <? new_cap then
      p <- allocate new_cap ;;
      n <- v_size this ;;
      for_up 0 n (λ i, mp <- v_p this ;; v <- a_get mp i ;; a_construct p i v) ;;;
      mp <- v_p this ;;
      (if cap =? 0 then ret tt
       else destroy_n mp 0 n ;;; deallocate mp cap) ;;;
      set_p this p ;;;
      set_cap this new_cap
    else ret tt.

  (** ** clear: 181-185 *)
  Definition v_clear (this : loc) : MV unit :=
    p <- v_p this ;; n <- v_size this ;;
    destroy_n p 0 n ;;; set_size this 0.

  (** ** destructor: 72-76, followed by the end of the object's storage *)
  Definition v_dtor (this : loc) : MV unit :=
    v_clear this ;;;
    cap <- v_cap this ;; p <- v_p this ;;
    (if cap =? 0 then ret tt else deallocate p cap) ;;;
    free this.

  (** ** default constructor: 31 *)
  Definition v_new : MV loc := new (VHdr 0 0 None).

  (** ** swap: 33-40 (member by member) *)
  Definition v_swap (this other : loc) : MV unit :=
    a <- v_size this ;; b <- v_size other ;; set_size this b ;;; set_size other a ;;;
    a <- v_cap this ;; b <- v_cap other ;; set_cap this b ;;; set_cap other a ;;;
    a <- v_p this ;; b <- v_p other ;; set_p this b ;;; set_p other a.

  (** ** copy constructor: 42-48.  It delegates to vector(), so if the body
      throws the destructor runs. *)
  Definition v_copy (other : loc) : MV loc :=
    this <- v_new ;;
    on_throw
      (cap <- v_cap other ;; v_reserve this cap ;;;
       n <- v_size other ;; set_size this n ;;;
       for_up 0 n (λ i, p <- v_p this ;; q <- v_p other ;; v <- a_get q i ;;
                        a_construct p i v))
      (v_dtor this) ;;;
    ret this.

  (** ** move constructor: 50-53 *)
  Definition v_move (other : loc) : MV loc :=
    this <- v_new ;; v_swap this other ;;; ret this.

  (** ** count constructor: 55-63.  Not delegating: when the body throws, the
      destructor does not run and only the object's storage ends. *)
  Definition v_count (count : nat) : MV loc :=
    this <- v_new ;;
    on_throw
      (v_reserve this count ;;; set_size this count ;;;
       for_up 0 count (λ i, p <- v_p this ;; a_construct p i dflt))
      (free this) ;;;
    ret this.

  (** ** push_back(const value_type&): 187-195.  [m_size++] is evaluated before
      the construction and the argument is read only then. *)
  Definition v_push_back (this : loc) (r : vref V) : MV unit :=
    cap <- v_cap this ;; n <- v_size this ;;
    (if cap =? 0 then v_reserve this 1
     else if cap =? n then v_reserve this (cap * 2) else ret tt) ;;;
    p <- v_p this ;; n <- v_size this ;; set_size this (S n) ;;;
    v <- deref r ;; a_construct p n v.

  (** ** initializer-list constructor: 65-70.  Not delegating. *)
  Fixpoint v_push_all (this : loc) (vs : list V) : MV unit :=
    match vs with
    | [] => ret tt
    | v :: vs => v_push_back this (RVal v) ;;; v_push_all this vs
    end.
  Definition v_init (vs : list V) : MV loc :=
    this <- v_new ;;
    on_throw (v_push_all this vs) (free this) ;;;
    ret this.

  (** ** move assignment: 78-82 *)
  Definition v_move_assign (this other : loc) : MV unit := v_swap this other.

  (** ** copy assignment: 84-102 *)
  Definition v_assign (this other : loc) : MV unit :=
    cap <- v_cap other ;; v_reserve this cap ;;;
    no <- v_size other ;; n <- v_size this ;;
    let asg i := (p <- v_p this ;; q <- v_p other ;; v <- a_get q i ;; a_assign p i v) in
    let con i := (p <- v_p this ;; q <- v_p other ;; v <- a_get q i ;; a_construct p i v) in
    (if n <=? no then
       for_up 0 n asg ;;; for_up n (no - n) con
     else
       for_up 0 no asg ;;; (p <- v_p this ;; destroy_n p no (n - no))) ;;;
    no <- v_size other ;; set_size this no.

  (** ** resize: 124-135 *)
  Definition v_resize (this : loc) (count : nat) : MV unit :=
    n <- v_size this ;;
    (if n <? count then
       v_reserve this count ;;;
       for_up n (count - n) (λ i, p <- v_p this ;; a_construct p i dflt)
     else if count <? n then p <- v_p this ;; destroy_n p count (n - count)
     else ret tt) ;;;
    set_size this count.

  (** ** pop_back: 162; on an empty vector [--m_size] wraps: undefined *)
  Definition v_pop_back (this : loc) : MV unit :=
    n <- v_size this ;;
    match n with
    | O => ub
    | S n' => set_size this n' ;;; p <- v_p this ;; destroy_n p n' 1
    end.

  (** ** at: 164-176, operator[]: 178-179, front/back: 143-146.  References are
      modelled as the address (array, index) they denote. *)
  Definition v_index (this : loc) (pos : nat) : MV (ptr * nat) :=
    p <- v_p this ;; ret (p, pos).
  Definition v_at (this : loc) (pos : nat) : MV (ptr * nat) :=
    n <- v_size this ;;
    if n <=? pos then throw OutOfRange else v_index this pos.
  Definition v_front (this : loc) : MV (ptr * nat) := v_index this 0.
  Definition v_back (this : loc) : MV (ptr * nat) :=
    n <- v_size this ;;
    match n with O => ub | S n' => v_index this n' end.
  Definition v_read (r : ptr * nat) : MV V := a_get r.1 r.2.
  Definition v_write (r : ptr * nat) (v : V) : MV unit := a_assign r.1 r.2 v.

  (** ** empty/size/capacity/data: 105-107, 147-148 *)
  Definition v_empty (this : loc) : MV bool := n <- v_size this ;; ret (n =? 0).
  Definition v_data (this : loc) : MV ptr := v_p this.

  (** ** erase: 207-217.  Iterators into this vector are offsets from m_p; the
      loop runs until [end()], so [last] past the end or [last < first] is
      undefined. *)
  Fixpoint v_shift (this : loc) (it1 it2 n : nat) : MV unit :=
    match n with
    | O => ret tt
    | S n' => p <- v_p this ;; v <- a_get p it2 ;; a_assign p it1 v ;;;
              v_shift this (S it1) (S it2) n'
    end.
  Definition v_erase (this : loc) (first last : nat) : MV nat :=
    n <- v_size this ;;
    if decide (first ≤ last ≤ n) then
      v_shift this first last (n - last) ;;;
      p <- v_p this ;;
      destroy_n p (n - (last - first)) (last - first) ;;;
      set_size this (n - (last - first)) ;;;
      ret first
    else ub.

  (** ** operator==: 225-229 *)
  Fixpoint v_equal (p q : ptr) (i n : nat) : MV bool :=
    match n with
    | O => ret true
    | S n' => a <- a_get p i ;; b <- a_get q i ;;
              if veq a b then v_equal p q (S i) n' else ret false
    end.
  Definition v_eq (x y : loc) : MV bool :=
    a <- v_size x ;; b <- v_size y ;;
    if a =? b then p <- v_p x ;; q <- v_p y ;; v_equal p q 0 a else ret false.

  (** ** iteration begin()..end(): 137-142 *)
  Fixpoint v_walk (p : ptr) (i n : nat) : MV (list V) :=
    match n with
    | O => ret []
    | S n' => v <- a_get p i ;; vs <- v_walk p (S i) n' ;; ret (v :: vs)
    end.
  Definition v_iterate (this : loc) : MV (list V) :=
    p <- v_p this ;; n <- v_size this ;; v_walk p 0 n.
  (** reverse iteration rbegin()..rend(): 150-160; std::reverse_iterator reads
      the element before its base *)
  Fixpoint v_rwalk (p : ptr) (n : nat) : MV (list V) :=
    match n with
    | O => ret []
    | S n' => v <- a_get p n' ;; vs <- v_rwalk p n' ;; ret (v :: vs)
    end.
  Definition v_riterate (this : loc) : MV (list V) :=
    p <- v_p this ;; n <- v_size this ;; v_rwalk p n.
End vector.

(** ** Client operations on named vectors *)
Inductive vop (V : Type) :=
  | VNew (h : nat)                 (* vector<T> h; *)
  | VCount (h n : nat)             (* vector<T> h(n); *)
  | VInit (h : nat) (vs : list V)  (* vector<T> h{...}; *)
  | VCopy (h g : nat)              (* vector<T> h(g); *)
  | VMove (h g : nat)              (* vector<T> h(std::move(g)); *)
  | VAssign (h g : nat)            (* h = g; *)
  | VMoveAssign (h g : nat)        (* h = std::move(g); *)
  | VSwap (h g : nat)              (* h.swap(g); *)
  | VPush (h : nat) (v : V)        (* h.push_back(v); *)
  | VPushElem (h g i : nat)        (* h.push_back(g[i]); *)
  | VPop (h : nat)                 (* h.pop_back(); *)
  | VResize (h n : nat)
  | VReserve (h n : nat)
  | VClear (h : nat)
  | VErase (h i j : nat)           (* h.erase(h.begin()+i, h.begin()+j); *)
  | VSet (h i : nat) (v : V)       (* h[i] = v; *)
  | VDestroy (h : nat)
  | VSize (h : nat)
  | VEmpty (h : nat)
  | VGet (h i : nat)               (* h[i] *)
  | VAt (h i : nat)
  | VFront (h : nat)
  | VBack (h : nat)
  | VIter (h : nat)                (* for (auto& x : h) *)
  | VRIter (h : nat)               (* rbegin()..rend() *)
  | VEq (h g : nat).
Global Arguments VNew {_} _.
Global Arguments VCount {_} _ _.
Global Arguments VInit {_} _ _.
Global Arguments VCopy {_} _ _.
Global Arguments VMove {_} _ _.
Global Arguments VAssign {_} _ _.
Global Arguments VMoveAssign {_} _ _.
Global Arguments VSwap {_} _ _.
Global Arguments VPush {_} _ _.
Global Arguments VPushElem {_} _ _ _.
Global Arguments VPop {_} _.
Global Arguments VResize {_} _ _.
Global Arguments VReserve {_} _ _.
Global Arguments VClear {_} _.
Global Arguments VErase {_} _ _ _.
Global Arguments VSet {_} _ _ _.
Global Arguments VDestroy {_} _.
Global Arguments VSize {_} _.
Global Arguments VEmpty {_} _.
Global Arguments VGet {_} _ _.
Global Arguments VAt {_} _ _.
Global Arguments VFront {_} _.
Global Arguments VBack {_} _.
Global Arguments VIter {_} _.
Global Arguments VRIter {_} _.
Global Arguments VEq {_} _ _.

(** Answers. [OThrow]: the call threw std::out_of_range. *)
Inductive out (V : Type) :=
  | OUnit | ONat (n : nat) | OBool (b : bool) | OVal (v : V) | OList (vs : list V) | OThrow.
Global Arguments OUnit {_}.
Global Arguments ONat {_} _.
Global Arguments OBool {_} _.
Global Arguments OVal {_} _.
Global Arguments OList {_} _.
Global Arguments OThrow {_}.

Section run.
  Context {V : Type} (dflt : V) (veq : V → V → bool).
  Notation MV := (M (vcell V)).
  Notation env := (gmap nat loc).

  (** Using an unknown handle, or declaring a handle twice, is not a C++ program;
      the specification never allows it. *)
  Definition obj (e : env) (h : nat) : MV loc :=
    match e !! h with Some l => ret l | None => ub end.
  Definition decl (e : env) (h : nat) (mk : MV loc) : MV (env * out V) :=
    match e !! h with
    | Some _ => ub
    | None => l <- mk ;; ret (<[h := l]> e, OUnit)
    end.
  Definition act {A} (e : env) (f : MV A) (o : A → out V) : MV (env * out V) :=
    a <- f ;; ret (e, o a).

  Definition v_run (e : env) (op : vop V) : MV (env * out V) :=
    match op with
    | VNew h => decl e h v_new
    | VCount h n => decl e h (v_count dflt n)
    | VInit h vs => decl e h (v_init vs)
    | VCopy h g => decl e h (lg <- obj e g ;; v_copy lg)
    | VMove h g => decl e h (lg <- obj e g ;; v_move lg)
    | VAssign h g => act e (lh <- obj e h ;; lg <- obj e g ;; v_assign lh lg) (λ _, OUnit)
    | VMoveAssign h g => act e (lh <- obj e h ;; lg <- obj e g ;; v_move_assign lh lg) (λ _, OUnit)
    | VSwap h g => act e (lh <- obj e h ;; lg <- obj e g ;; v_swap lh lg) (λ _, OUnit)
    | VPush h v => act e (lh <- obj e h ;; v_push_back lh (RVal v)) (λ _, OUnit)
    | VPushElem h g i =>
        act e (lh <- obj e h ;; lg <- obj e g ;; r <- v_index lg i ;;
               match r.1 with Some b => v_push_back lh (RElem b r.2) | None => ub end) (λ _, OUnit)
    | VPop h => act e (lh <- obj e h ;; v_pop_back lh) (λ _, OUnit)
    | VResize h n => act e (lh <- obj e h ;; v_resize dflt lh n) (λ _, OUnit)
    | VReserve h n => act e (lh <- obj e h ;; v_reserve lh n) (λ _, OUnit)
    | VClear h => act e (lh <- obj e h ;; v_clear lh) (λ _, OUnit)
    | VErase h i j => act e (lh <- obj e h ;; v_erase lh i j) ONat
    | VSet h i v => act e (lh <- obj e h ;; r <- v_index lh i ;; v_write r v) (λ _, OUnit)
    | VDestroy h => lh <- obj e h ;; v_dtor lh ;;; ret (delete h e, OUnit)
    | VSize h => act e (lh <- obj e h ;; v_size lh) ONat
    | VEmpty h => act e (lh <- obj e h ;; v_empty lh) OBool
    | VGet h i => act e (lh <- obj e h ;; r <- v_index lh i ;; v_read r) OVal
    | VAt h i =>
        lh <- obj e h ;;
        catch (r <- v_at lh i ;; v <- v_read r ;; ret (e, OVal v))
              (λ x, match x with OutOfRange => ret (e, OThrow) | _ => throw x end)
    | VFront h => act e (lh <- obj e h ;; r <- v_front lh ;; v_read r) OVal
    | VBack h => act e (lh <- obj e h ;; r <- v_back lh ;; v_read r) OVal
    | VIter h => act e (lh <- obj e h ;; v_iterate lh) OList
    | VRIter h => act e (lh <- obj e h ;; v_riterate lh) OList
    | VEq h g => act e (lh <- obj e h ;; lg <- obj e g ;; v_eq veq lh lg) OBool
    end.
End run.
