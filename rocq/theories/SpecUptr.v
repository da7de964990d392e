(** What unique_ptrs are supposed to be: variables of which at most one owns any
    object. *)
From Verif Require Import Hist ModelUptr.

Section spec.
  Context {T : Type}.
  (** [u_hs]: which object each unique_ptr variable owns, if any;
      [u_os]: the objects that have been created, [None] when deleted *)
  Record ustate := UState { u_hs : gmap nat (option nat); u_os : gmap nat (option T) }.

  Definition owned (hs : gmap nat (option nat)) (o : nat) : Prop := map_Exists (λ _ x, x = Some o) hs.
  Definition alive (s : ustate) (o : nat) : option T := given v := u_os s !! o ;; v.
  (** deleting what a variable owned *)
  Definition kill (x : option nat) (os : gmap nat (option T)) : gmap nat (option T) :=
    match x with Some o => <[o := None]> os | None => os end.
  Definition set_h (s : ustate) (h : nat) (x : option nat) : ustate := UState (<[h := x]> (u_hs s)) (u_os s).
  Definition udecl (s : ustate) (h : nat) (s' : ustate) : option (ustate * uout T) :=
    match u_hs s !! h with Some _ => None | None => Some (s', UoUnit) end.

  Definition uspec (s : ustate) (op : uop T) : option (ustate * uout T) :=
    match op with
    | UNew h => udecl s h (set_h s h None)
    | UMake h o v =>
        match u_os s !! o with Some _ => None | None =>
        udecl s h (UState (<[h := Some o]> (u_hs s)) (<[o := Some v]> (u_os s))) end
    | URaw o v =>
        match u_os s !! o with Some _ => None | None =>
        Some (UState (u_hs s) (<[o := Some v]> (u_os s)), UoUnit) end
    | UFrom h o =>
        given _v := alive s o ;;
        if decide (owned (u_hs s) o) then None else udecl s h (set_h s h (Some o))
    | UMove h g =>
        given x := u_hs s !! g ;;
        udecl s h (UState (<[h := x]> (<[g := None]> (u_hs s))) (u_os s))
    | UAssign h g =>
        given x := u_hs s !! h ;; given y := u_hs s !! g ;;
        Some (UState (<[h := y]> (<[g := x]> (u_hs s))) (u_os s), UoUnit)
    | UReset h =>
        given x := u_hs s !! h ;; Some (UState (<[h := None]> (u_hs s)) (kill x (u_os s)), UoUnit)
    | UResetTo h o =>
        given _v := alive s o ;; given x := u_hs s !! h ;;
        if decide (owned (u_hs s) o) then None else
        Some (UState (<[h := Some o]> (u_hs s)) (kill x (u_os s)), UoUnit)
    | URelease h => given _x := u_hs s !! h ;; Some (set_h s h None, UoUnit)
    | UDelete o =>
        given _v := alive s o ;;
        if decide (owned (u_hs s) o) then None else
        Some (UState (u_hs s) (<[o := None]> (u_os s)), UoUnit)
    | UIs h o =>
        given _v := alive s o ;; given x := u_hs s !! h ;; Some (s, UoBool (bool_decide (x = Some o)))
    | USame h g =>
        given x := u_hs s !! h ;; given y := u_hs s !! g ;; Some (s, UoBool (bool_decide (x = y)))
    | UBool h => given x := u_hs s !! h ;; Some (s, UoBool (bool_decide (x ≠ None)))
    | URead h =>
        given x := u_hs s !! h ;; given o := x ;; given v := alive s o ;; Some (s, UoVal v)
    | UWrite h v =>
        given x := u_hs s !! h ;; given o := x ;; given _v := alive s o ;;
        Some (UState (u_hs s) (<[o := Some v]> (u_os s)), UoUnit)
    | UReadRaw o => given v := alive s o ;; Some (s, UoVal v)
    | UDestroy h =>
        given x := u_hs s !! h ;; Some (UState (delete h (u_hs s)) (kill x (u_os s)), UoUnit)
    end.
  (** The standard's move assignment: the target's object is deleted at once and
      the source is left empty; assigning a variable to itself changes nothing.
      Without [full], only to itself or if the target owns nothing. *)
  Definition uspec_std (full : bool) (s : ustate) (op : uop T) : option (ustate * uout T) :=
    match op with
    | UAssign h g =>
        given x := u_hs s !! h ;; given y := u_hs s !! g ;;
        if decide (full = true ∨ h = g ∨ x = None) then
          Some (UState (<[h := y]> (<[g := None]> (u_hs s))) (if decide (h = g) then u_os s else kill x (u_os s)), UoUnit)
        else None
    | _ => uspec s op
    end.
  Definition u_init : ustate := UState ∅ ∅.
  (** every variable's lifetime has ended and every object is deleted *)
  Definition u_gone (s : ustate) : Prop := u_hs s = ∅ ∧ map_Forall (λ _ v, v = None) (u_os s).
End spec.
Global Arguments ustate : clear implicits.
