(** Model of cest::function — /repo/include/cest/functional.hpp.  Line numbers
    refer to that file unless another is given.

    A callable type is its state type [S], with what a call does to the state
    and answers: [call : S → A → S * R] (arguments [A], result [R]; [R := unit]
    for void, 34-45 and 66-80, which differ from 21-32 and 50-64 only in that).
    A call that throws is one whose answer is the exception ([R := result + exn]):
    neither impl_f nor function catches anything or is noexcept.  The deduction
    guide (82-84) and conversions between argument or result types are not
    modelled.

    The memory is that of unique_ptr: a function object is its only member f_,
    a unique_ptr (54, 70), hence a [UPtr] cell; an impl_f object is its only
    member f_ (31, 44), hence a [UObj] cell, like the client's own callables. *)
From Verif Require Export Mem Client ModelUptr.

Section fn.
  Context {S A R : Type} (call : S → A → S * R).
  Notation MF := (M (ucell S)).

  (** calling the callable stored at [l]: f_(std::forward<Args>(args)...), 27-29 *)
  Definition c_call (l : loc) (a : A) : MF R :=
    c <- load l ;;
    match c with UObj s => store l (UObj (call s a).1) ;;; ret (call s a).2 | UPtr _ => ub end.

  (** operator(): 56-58, through unique_ptr::operator-> (memory.hpp 85), which
      for an empty unique_ptr gives the null pointer *)
  Definition f_call (this : loc) (a : A) : MF R :=
    p <- u_ptr this ;; match p with Some l => c_call l a | None => ub end.

  (** function(F&& f) for a callable at [c] that is not itself a function: 60-63.
      make_unique (memory.hpp 135-139) allocates the impl_f, whose constructor
      (25) copies the callable, also when it could be moved: [f] is an lvalue
      there.  The result is a temporary unique_ptr<impl_f>, from which f_ is
      move-constructed (memory.hpp 39-42). *)
  Definition f_wrap (c : loc) : MF loc :=
    v <- load c ;;
    match v with
    | UObj s => tmp <- u_make s ;; this <- u_move tmp ;; u_dtor tmp ;;; ret this
    | UPtr _ => ub
    end.

  (** The same constructor for a non-const function lvalue at [c]: it is a better
      match than the (deleted) implicit copy constructor.  It allocates an
      impl_f<function> and constructs its member f_ from the lvalue [f] (25), by
      the very same constructor, which allocates an impl_f<function>, ...  The
      recursion has no end; here it is cut off after [n] levels.  If an inner
      level throws, the storage is given back.  [raw] stands for the contents of
      the storage, of which no member is ever constructed. *)
  Fixpoint f_copy (raw : ucell S) (n : nat) (c : loc) : MF loc :=
    match n with
    | O => diverge
    | Datatypes.S n =>
        l <- alloc raw ;;
        inner <- on_throw (f_copy raw n c) (free l) ;;
        store l (UPtr (Some inner)) ;;; u_from (Some l)
    end.

  (** implicit move constructor, move assignment and destructor: those of the
      member (memory.hpp 39-42, 44-49, 53-57) *)
  Definition f_move (other : loc) : MF loc := u_move other.
  Definition f_assign (this other : loc) : MF unit := u_assign this other.
  Definition f_dtor (this : loc) : MF unit := u_dtor this.
End fn.

(** ** Client programs with callables and functions *)
Inductive fop (S A : Type) :=
  | FCallable (c : nat) (s : S)  (** F c{s}; *)
  | FWrap (h c : nat)            (** function<R(A)> h(c); *)
  | FMove (h g : nat)            (** function<R(A)> h(std::move(g)); *)
  | FAssign (h g : nat)          (** h = std::move(g); *)
  | FCall (h : nat) (a : A)      (** h(a), h a function *)
  | FCallC (c : nat) (a : A)     (** c(a), c a callable *)
  | FEnd (h : nat)               (** end of a function's lifetime *)
  | FEndC (c : nat).             (** end of a callable's lifetime *)
Global Arguments FCallable {_ _} _ _.
Global Arguments FWrap {_ _} _ _.
Global Arguments FMove {_ _} _ _.
Global Arguments FAssign {_ _} _ _.
Global Arguments FCall {_ _} _ _.
Global Arguments FCallC {_ _} _ _.
Global Arguments FEnd {_ _} _.
Global Arguments FEndC {_ _} _.

Section run.
  Context {S A R : Type} (call : S → A → S * R).
  Definition f_run (e : gmap nat loc) (op : fop S A) : M (ucell S) (gmap nat loc * option R) :=
    match op with
    | FCallable c s => decl e c (new (UObj s)) None
    | FWrap h c => decl e h (l <- obj e c ;; f_wrap l) None
    | FMove h g => decl e h (l <- obj e g ;; f_move l) None
    | FAssign h g => act2 e h g f_assign (λ _, None)
    | FCall h a => act1 e h (λ l, f_call call l a) Some
    | FCallC c a => act1 e c (λ l, c_call call l a) Some
    | FEnd h => drop_obj e h f_dtor None
    | FEndC c => drop_obj e c free None
    end.
End run.
