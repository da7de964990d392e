(** Model of cest::shared_ptr — /repo/include/cest/shared_ptr.hpp.

    Both shared_ptr<T> and shared_ptr<T[]> are modelled: they only differ in the
    default deleter and in operator[].  Not modelled: the stream operator
    (164-171), pointers to elements other than the first of an array, aliasing
    between different element types (the constructor 86-88 only compiles for the
    same one, because the control blocks of different ones are unrelated
    protected types), and deleters whose copy throws.  The count is unbounded
    here; it is a long in the code, so 2^63 handles would overflow it.
    Line numbers refer to shared_ptr.hpp. *)
From Verif Require Export Mem Client.

(** What a pointer points to: an object made by new T, an array made by new T[n],
    or an object of a class derived from [T], where [T] has no virtual
    destructor.  (With a virtual destructor an object of a derived class is as
    good as one of class [T].) *)
Inductive okind := KOne | KArr | KSub.
Global Instance okind_eq_dec : EqDecision okind.
Proof. solve_decision. Defined.
(** The type Y of the pointer given to a constructor (75, 79): [T], or a class
    derived from [T]. *)
Inductive yptr := YSame | YSub.
Global Instance yptr_eq_dec : EqDecision yptr.
Proof. solve_decision. Defined.
(** What a control block does with the object in the end: default_delete<T>
    (14-23), default_delete<T[]> (25-35), or a deleter of the client's, which has
    a type, here a number, and only changes the object by a function that is its
    state (so that running it twice, or not at all, can be seen). *)
Inductive deleter (T : Type) := DDelete (y : yptr) | DDeleteArr | DRun (y : yptr) (ty : nat) (f : T → T).
Global Arguments DDelete {_} _.
Global Arguments DDeleteArr {_}.
Global Arguments DRun {_} _ _ _.

(** a shared_ptr object (ptr_ and pctrl_, 114-115), a control block (46-63), or
    a dynamically allocated object or array with its elements *)
Inductive scell (T : Type) :=
  | SHandle (p c : ptr)
  | SCtrl (n : Z) (p : ptr) (d : deleter T)
  | SObj (k : okind) (vs : list T).
Global Arguments SHandle {_} _ _.
Global Arguments SCtrl {_} _ _ _.
Global Arguments SObj {_} _ _.

Section shared.
  Context {T : Type}.
  Notation MS := (M (scell T)).

  (** new T(v), new T[n]{...}: the elements are constructed one by one, and the
      storage is released if that throws; p[i], p[i] = v; and delete, which
      must be the one that fits, as used by clients and deleters *)
  Fixpoint s_construct (vs : list T) : MS unit :=
    match vs with [] => ret tt | _ :: vs => may_throw ;;; s_construct vs end.
  Definition s_new_obj (k : okind) (vs : list T) : MS loc :=
    l <- alloc (SObj k vs) ;; on_throw (s_construct vs) (free l) ;;; ret l.
  Definition s_obj (l : loc) : MS (okind * list T) :=
    c <- load l ;; match c with SObj k vs => ret (k, vs) | _ => ub end.
  Definition s_elem (l : loc) (i : Z) : MS T :=
    x <- s_obj l ;;
    match (if (0 <=? i)%Z then x.2 !! Z.to_nat i else None) with Some v => ret v | None => ub end.
  Definition s_set_elem (l : loc) (i : Z) (v : T) : MS unit :=
    _v <- s_elem l i ;; x <- s_obj l ;; store l (SObj x.1 (<[Z.to_nat i := v]> x.2)).
  Definition s_delete_obj (k : okind) (l : loc) : MS unit :=
    x <- s_obj l ;; if decide (x.1 = k) then free l else ub.

  Definition s_handle (this : loc) : MS (ptr * ptr) :=
    c <- load this ;; match c with SHandle p c => ret (p, c) | _ => ub end.
  Definition s_ctrl (c : ptr) : MS (Z * ptr * deleter T) :=
    match c with
    | None => ub
    | Some l => x <- load l ;; match x with SCtrl n p d => ret (n, p, d) | _ => ub end
    end.
  Definition s_set_count (c : ptr) (n : Z) : MS unit :=
    x <- s_ctrl c ;; match c with Some l => store l (SCtrl n x.1.2 x.2) | None => ub end.

  (** shared_ptr_base(): 72-73 *)
  Definition s_new : MS loc := new (SHandle None None).
  (** shared_ptr_base(Y* ) and shared_ptr_base(Y*, Deleter): 75-81 with 48, 58 *)
  Definition s_from (p : ptr) (d : deleter T) : MS loc := c <- alloc (SCtrl 1 p d) ;; new (SHandle p (Some c)).
  (** ++pctrl_->count_ *)
  Definition s_incr (c : ptr) : MS unit := x <- s_ctrl c ;; s_set_count c (x.1.1 + 1).
  (** copy constructor: 83-84 *)
  Definition s_copy (r : loc) : MS loc :=
    x <- s_handle r ;; this <- new (SHandle x.1 x.2) ;; s_incr x.2 ;;; ret this.
  (** aliasing constructor: 86-88 *)
  Definition s_alias (r : loc) (p : ptr) : MS loc :=
    x <- s_handle r ;; this <- new (SHandle p x.2) ;; s_incr x.2 ;;; ret this.
  (** Moving from a shared_ptr: no move constructor is declared (83 suppresses
      it), so the copy constructor is used. *)
  Definition s_move (r : loc) : MS loc := s_copy r.
  (** The implicitly defined copy assignment copies both members; a move
      assignment is not declared either. *)
  Definition s_assign (this r : loc) : MS unit :=
    x <- s_handle r ;; _y <- s_handle this ;; store this (SHandle x.1 x.2).
  (** del_(ptr_): 59; default_delete<T>::operator() (22) takes a T*, whatever Y is *)
  Definition s_run_deleter (p : ptr) (d : deleter T) : MS unit :=
    match d, p with
    | DDelete _, None | DDeleteArr, None => ret tt
    | DDelete _, Some l => s_delete_obj KOne l
    | DDeleteArr, Some l => s_delete_obj KArr l
    | DRun _ _ f, Some l => v <- s_elem l 0 ;; s_set_elem l 0 (f v)
    | DRun _ _ _, None => ub
    end.
  (** destructor: 90-97 *)
  Definition s_dtor (this : loc) : MS unit :=
    x <- s_handle this ;;
    match x.2 with
    | None => free this
    | Some c =>
        y <- s_ctrl (Some c) ;; s_set_count (Some c) (y.1.1 - 1) ;;;
        (if decide (y.1.1 - 1 = 0)%Z then s_run_deleter y.1.2 y.2 ;;; free c else ret tt) ;;; free this
    end.
  (** use_count: 99-101 *)
  Definition s_use_count (this : loc) : MS Z :=
    x <- s_handle this ;; match x.2 with None => ret 0%Z | Some c => y <- s_ctrl (Some c) ;; ret y.1.1 end.
  (** get: 103; operator*: 105, read and assigned through; operator bool: 108 *)
  Definition s_get (this : loc) : MS ptr := x <- s_handle this ;; ret x.1.
  Definition s_deref (this : loc) : MS loc := p <- s_get this ;; match p with Some l => ret l | None => ub end.
  Definition s_read (this : loc) : MS T := l <- s_deref this ;; s_elem l 0.
  Definition s_write (this : loc) (v : T) : MS unit :=
    l <- s_deref this ;; _v <- s_elem l 0 ;; may_throw ;;; s_set_elem l 0 v.
  (** shared_ptr<T[]>::operator[]: 159-161, read and assigned through *)
  Definition s_at (this : loc) (i : Z) : MS T := l <- s_deref this ;; s_elem l i.
  Definition s_put (this : loc) (i : Z) (v : T) : MS unit :=
    l <- s_deref this ;; _v <- s_elem l i ;; may_throw ;;; s_set_elem l i v.
  (** get_deleter: 118-132, for a deleter type of number [ty]: the dynamic_cast is
      to ctrl_derived<T, Deleter>, so it fails if Y was not [T]; the type of the
      default deleter (66) is protected and cannot be asked for.  Whether the
      result is not null, and assignment to what it points to. *)
  Definition s_get_deleter (this : loc) (ty : nat) : MS bool :=
    x <- s_handle this ;;
    match x.2 with
    | None => ret false
    | Some c =>
        y <- s_ctrl (Some c) ;;
        ret (match y.2 with DRun YSame ty' _ => bool_decide (ty' = ty) | _ => false end)
    end.
  Definition s_set_deleter (this : loc) (ty : nat) (f : T → T) : MS unit :=
    b <- s_get_deleter this ty ;; x <- s_handle this ;;
    match b, x.2 with
    | true, Some c => y <- s_ctrl (Some c) ;; store c (SCtrl y.1.1 y.1.2 (DRun YSame ty f))
    | _, _ => ub
    end.
  Definition s_bool (this : loc) : MS bool := p <- s_get this ;; ret (bool_decide (p ≠ None)).
  (** There is no operator== : [a == b] converts both operands with operator
      bool, which is not explicit, and compares the results. *)
  Definition s_eq (a b : loc) : MS bool := x <- s_bool a ;; y <- s_bool b ;; ret (bool_decide (x = y)).
End shared.

(** ** Client programs: [h], [g] name shared_ptr variables, [o] names pointers
    the client has obtained. *)
Inductive sop (T : Type) :=
  | SNew (h : nat)                                       (** shared_ptr<T> h; *)
  | SRaw (o : nat) (v : T)                               (** T* o = new T(v); *)
  | SRawArr (o : nat) (vs : list T)                      (** T* o = new T[n]{...}; *)
  | SRawSub (o : nat) (v : T)                            (** Sub* o = new Sub(v); *)
  | SFrom (h : nat) (o : option nat) (d : deleter T)     (** shared_ptr<T> h(o), h((T* )nullptr), h(o, d); or T[] *)
  | SCopy (h g : nat)                                    (** shared_ptr<T> h(g); *)
  | SMove (h g : nat)                                    (** shared_ptr<T> h(std::move(g)); *)
  | SAlias (h g : nat) (o : option nat)                  (** shared_ptr<T> h(g, o); *)
  | SAssign (h g : nat)                                  (** h = g; *)
  | SCount (h : nat)                                     (** h.use_count() *)
  | SIs (h o : nat)                                      (** h.get() == o *)
  | SEq (h g : nat)                                      (** h == g *)
  | SBool (h : nat)                                      (** bool(h) *)
  | SRead (h : nat)                                      (** *h *)
  | SWrite (h : nat) (v : T)                             (** *h = v; *)
  | SAt (h : nat) (i : Z)                                (** h[i] *)
  | SPut (h : nat) (i : Z) (v : T)                       (** h[i] = v; *)
  | SGetDel (h : nat) (ty : nat)                         (** get_deleter<D>(h) != nullptr *)
  | SSetDel (h : nat) (ty : nat) (f : T → T)             (** *get_deleter<D>(h) = f; *)
  | SReadRaw (o : nat)                                   (** *o *)
  | SDelete (k : okind) (o : nat)                        (** delete o; delete[] o; delete (Sub* )o; *)
  | SDestroy (h : nat).                                  (** end of h's lifetime *)
Global Arguments SNew {_} _.
Global Arguments SRaw {_} _ _.
Global Arguments SFrom {_} _ _ _.
Global Arguments SCopy {_} _ _.
Global Arguments SMove {_} _ _.
Global Arguments SAlias {_} _ _ _.
Global Arguments SAssign {_} _ _.
Global Arguments SCount {_} _.
Global Arguments SIs {_} _ _.
Global Arguments SEq {_} _ _.
Global Arguments SBool {_} _.
Global Arguments SRead {_} _.
Global Arguments SWrite {_} _ _.
Global Arguments SRawArr {_} _ _.
Global Arguments SRawSub {_} _ _.
Global Arguments SAt {_} _ _.
Global Arguments SPut {_} _ _ _.
Global Arguments SGetDel {_} _ _.
Global Arguments SSetDel {_} _ _ _.
Global Arguments SReadRaw {_} _.
Global Arguments SDelete {_} _ _.
Global Arguments SDestroy {_} _.
Inductive sout (T : Type) := SoUnit | SoBool (b : bool) | SoVal (v : T) | SoNum (n : Z).
Global Arguments SoUnit {_}.
Global Arguments SoBool {_} _.
Global Arguments SoVal {_} _.
Global Arguments SoNum {_} _.

(** The client's variables: shared_ptrs and plain pointers. *)
Definition senv : Type := gmap nat loc * gmap nat loc.

Section run.
  Context {T : Type}.
  Notation MS := (M (scell T)).
  Definition s_on (e : senv) (f : MS (gmap nat loc * sout T)) : MS (senv * sout T) :=
    r <- f ;; ret ((r.1, e.2), r.2).
  (** a plain pointer of the client, or nullptr *)
  Definition s_raw (e : gmap nat loc) (o : option nat) : MS ptr :=
    match o with None => ret None | Some o => l <- obj e o ;; ret (Some l) end.
  Definition s_create (e : senv) (o : nat) (k : okind) (vs : list T) : MS (senv * sout T) :=
    match e.2 !! o with
    | Some _ => ub
    | None => x <- s_new_obj k vs ;; ret ((e.1, <[o := x]> e.2), SoUnit)
    end.
  Definition s_exec (e : senv) (op : sop T) : MS (senv * sout T) :=
    match op with
    | SNew h => s_on e (decl e.1 h s_new SoUnit)
    | SRaw o v => s_create e o KOne [v]
    | SRawArr o vs => s_create e o KArr vs
    | SRawSub o v => s_create e o KSub [v]
    | SFrom h o d => p <- s_raw e.2 o ;; s_on e (decl e.1 h (s_from p d) SoUnit)
    | SCopy h g => l <- obj e.1 g ;; s_on e (decl e.1 h (s_copy l) SoUnit)
    | SMove h g => l <- obj e.1 g ;; s_on e (decl e.1 h (s_move l) SoUnit)
    | SAlias h g o => l <- obj e.1 g ;; p <- s_raw e.2 o ;; s_on e (decl e.1 h (s_alias l p) SoUnit)
    | SAssign h g => s_on e (act2 e.1 h g s_assign (λ _, SoUnit))
    | SCount h => s_on e (act1 e.1 h s_use_count SoNum)
    | SIs h o => x <- obj e.2 o ;; s_on e (act1 e.1 h s_get (λ p, SoBool (bool_decide (p = Some x))))
    | SEq h g => s_on e (act2 e.1 h g s_eq SoBool)
    | SBool h => s_on e (act1 e.1 h s_bool SoBool)
    | SRead h => s_on e (act1 e.1 h s_read SoVal)
    | SWrite h v => s_on e (act1 e.1 h (λ l, s_write l v) (λ _, SoUnit))
    | SAt h i => s_on e (act1 e.1 h (λ l, s_at l i) SoVal)
    | SPut h i v => s_on e (act1 e.1 h (λ l, s_put l i v) (λ _, SoUnit))
    | SGetDel h ty => s_on e (act1 e.1 h (λ l, s_get_deleter l ty) SoBool)
    | SSetDel h ty f => s_on e (act1 e.1 h (λ l, s_set_deleter l ty f) (λ _, SoUnit))
    | SReadRaw o => x <- obj e.2 o ;; v <- s_elem x 0 ;; ret (e, SoVal v)
    | SDelete k o => x <- obj e.2 o ;; s_delete_obj k x ;;; ret (e, SoUnit)
    | SDestroy h => s_on e (drop_obj e.1 h s_dtor SoUnit)
    end.
End run.
