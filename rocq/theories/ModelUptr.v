(** Model of cest::unique_ptr — /repo/include/cest/memory.hpp.

    Not modelled: the ordering comparisons (108-134), which compare addresses,
    operator-> (85, the same pointer as get), the stream operator (144-151), and
    conversions between element types in the move constructor (39-42).
    Line numbers refer to memory.hpp. *)
From Verif Require Export Mem Client.

(** a unique_ptr object (its member ptr_), or a dynamically allocated [T] *)
Inductive ucell (T : Type) :=
  | UPtr (p : ptr)
  | UObj (v : T).
Global Arguments UPtr {_} _.
Global Arguments UObj {_} _.

Section uptr.
  Context {T : Type}.
  Notation MU := (M (ucell T)).

  (** new T(v) and delete p, as used by the class and by its clients; if the
      constructor throws, the storage is given back *)
  Definition new_obj (v : T) : MU loc := l <- alloc (UObj v) ;; on_throw may_throw (free l) ;;; ret l.
  Definition delete_obj (l : loc) : MU unit :=
    c <- load l ;; match c with UObj _ => free l | UPtr _ => ub end.

  Definition u_ptr (this : loc) : MU ptr :=
    c <- load this ;; match c with UPtr p => ret p | UObj _ => ub end.
  Definition u_set_ptr (this : loc) (p : ptr) : MU unit :=
    c <- load this ;; match c with UPtr _ => store this (UPtr p) | UObj _ => ub end.

  (** unique_ptr(): 31-33, unique_ptr(T* ): 35-37 *)
  Definition u_new : MU loc := new (UPtr None).
  Definition u_from (p : ptr) : MU loc := new (UPtr p).
  (** get: 61 *)
  Definition u_get (this : loc) : MU ptr := u_ptr this.
  (** release: 63-68 *)
  Definition u_release (this : loc) : MU ptr := p <- u_ptr this ;; u_set_ptr this None ;;; ret p.
  (** unique_ptr(unique_ptr&&): 39-42 *)
  Definition u_move (other : loc) : MU loc := p <- u_release other ;; u_from p.
  (** operator=(unique_ptr&&): 44-49, with std::swap of the pointers *)
  Definition u_assign (this other : loc) : MU unit :=
    tmp <- u_ptr other ;; p <- u_ptr this ;; u_set_ptr other p ;;; u_set_ptr this tmp.
  (** destructor: 53-57 *)
  Definition u_dtor (this : loc) : MU unit :=
    p <- u_ptr this ;; (match p with Some l => delete_obj l | None => ret tt end) ;;; free this.
  (** reset: 70-78 *)
  Definition u_reset (this : loc) (n : ptr) : MU unit :=
    p <- u_ptr this ;; u_set_ptr this n ;;;
    match p with Some l => delete_obj l | None => ret tt end.
  (** operator*: 80-84, read and assigned through *)
  Definition u_deref (this : loc) : MU loc :=
    p <- u_ptr this ;; match p with Some l => ret l | None => ub end.
  Definition u_read (this : loc) : MU T :=
    l <- u_deref this ;; c <- load l ;; match c with UObj v => ret v | UPtr _ => ub end.
  Definition u_write (this : loc) (v : T) : MU unit :=
    l <- u_deref this ;; c <- load l ;; match c with UObj _ => may_throw ;;; store l (UObj v) | UPtr _ => ub end.
  (** operator bool: 87; operator==: 93-98 *)
  Definition u_bool (this : loc) : MU bool := p <- u_ptr this ;; ret (bool_decide (p ≠ None)).
  Definition u_eq (a b : loc) : MU bool := p <- u_get a ;; q <- u_get b ;; ret (bool_decide (p = q)).
  (** make_unique: 135-139 *)
  Definition u_make (v : T) : MU loc := l <- new_obj v ;; u_from (Some l).
End uptr.

(** ** Client programs: [h], [g] name unique_ptr variables, [o] names pointers
    the client has obtained. *)
Inductive uop (T : Type) :=
  | UNew (h : nat)                     (** unique_ptr<T> h; *)
  | UMake (h : nat) (o : nat) (v : T)  (** auto h = make_unique<T>(v); T* o = h.get(); *)
  | URaw (o : nat) (v : T)             (** T* o = new T(v); *)
  | UFrom (h o : nat)                  (** unique_ptr<T> h(o); *)
  | UMove (h g : nat)                  (** unique_ptr<T> h(std::move(g)); *)
  | UAssign (h g : nat)                (** h = std::move(g); *)
  | UReset (h : nat)                   (** h.reset(); *)
  | UResetTo (h o : nat)               (** h.reset(o); *)
  | URelease (h : nat)                 (** h.release(); *)
  | UDelete (o : nat)                  (** delete o; *)
  | UIs (h o : nat)                    (** h.get() == o *)
  | USame (h g : nat)                  (** h == g *)
  | UBool (h : nat)                    (** bool(h) *)
  | URead (h : nat)                    (** *h *)
  | UWrite (h : nat) (v : T)           (** *h = v; *)
  | UReadRaw (o : nat)                 (** *o *)
  | UDestroy (h : nat).                (** end of h's lifetime *)
Global Arguments UNew {_} _.
Global Arguments UMake {_} _ _ _.
Global Arguments URaw {_} _ _.
Global Arguments UFrom {_} _ _.
Global Arguments UMove {_} _ _.
Global Arguments UAssign {_} _ _.
Global Arguments UReset {_} _.
Global Arguments UResetTo {_} _ _.
Global Arguments URelease {_} _.
Global Arguments UDelete {_} _.
Global Arguments UIs {_} _ _.
Global Arguments USame {_} _ _.
Global Arguments UBool {_} _.
Global Arguments URead {_} _.
Global Arguments UWrite {_} _ _.
Global Arguments UReadRaw {_} _.
Global Arguments UDestroy {_} _.
Inductive uout (T : Type) := UoUnit | UoBool (b : bool) | UoVal (v : T).
Global Arguments UoUnit {_}.
Global Arguments UoBool {_} _.
Global Arguments UoVal {_} _.

(** The client's variables: unique_ptrs and plain pointers. *)
Definition uenv : Type := gmap nat loc * gmap nat loc.

Section run.
  Context {T : Type}.
  (** a call that touches only the unique_ptr variables *)
  Definition on_handles (e : uenv) (f : M (ucell T) (gmap nat loc * uout T)) : M (ucell T) (uenv * uout T) :=
    r <- f ;; ret ((r.1, e.2), r.2).
  Definition fresh_name {A} (e : gmap nat loc) (o : nat) (k : M (ucell T) A) : M (ucell T) A :=
    match e !! o with Some _ => ub | None => k end.
  Definition u_run (e : uenv) (op : uop T) : M (ucell T) (uenv * uout T) :=
    match op with
    | UNew h => on_handles e (decl e.1 h u_new UoUnit)
    | UMake h o v =>
        fresh_name e.2 o (
        r <- decl e.1 h (u_make v) (UoUnit (T:=T)) ;;
        l <- obj r.1 h ;; p <- u_get l ;;
        match p with Some x => ret ((r.1, <[o := x]> e.2), UoUnit) | None => ub end)
    | URaw o v => fresh_name e.2 o (x <- new_obj v ;; ret ((e.1, <[o := x]> e.2), UoUnit))
    | UFrom h o => x <- obj e.2 o ;; on_handles e (decl e.1 h (u_from (Some x)) UoUnit)
    | UMove h g => l <- obj e.1 g ;; on_handles e (decl e.1 h (u_move l) UoUnit)
    | UAssign h g => on_handles e (act2 e.1 h g u_assign (λ _, UoUnit))
    | UReset h => on_handles e (act1 e.1 h (λ l, u_reset l None) (λ _, UoUnit))
    | UResetTo h o => x <- obj e.2 o ;; on_handles e (act1 e.1 h (λ l, u_reset l (Some x)) (λ _, UoUnit))
    | URelease h => on_handles e (act1 e.1 h u_release (λ _, UoUnit))
    | UDelete o => x <- obj e.2 o ;; delete_obj x ;;; ret (e, UoUnit)
    | UIs h o => x <- obj e.2 o ;; on_handles e (act1 e.1 h u_get (λ p, UoBool (bool_decide (p = Some x))))
    | USame h g => on_handles e (act2 e.1 h g u_eq UoBool)
    | UBool h => on_handles e (act1 e.1 h u_bool UoBool)
    | URead h => on_handles e (act1 e.1 h u_read UoVal)
    | UWrite h v => on_handles e (act1 e.1 h (λ l, u_write l v) (λ _, UoUnit))
    | UReadRaw o =>
        x <- obj e.2 o ;; c <- load x ;; match c with UObj v => ret (e, UoVal v) | UPtr _ => ub end
    | UDestroy h => on_handles e (drop_obj e.1 h u_dtor UoUnit)
    end.
End run.
