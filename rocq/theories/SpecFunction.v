(** What functions are supposed to be: variables holding a callable of their
    own, or none. *)
From Verif Require Import Hist ModelFunction.

Section spec.
  Context {S A R : Type} (call : S → A → S * R).
  Inductive fobj := Callable (s : S) | Func (s : option S).
  Notation fstate := (gmap nat fobj).

  Definition fspec (s : fstate) (op : fop S A) : option (fstate * option R) :=
    match op with
    | FCallable c x => match s !! c with None => Some (<[c := Callable x]> s, None) | Some _ => None end
    | FWrap h c =>
        match s !! h, s !! c with
        | None, Some (Callable x) => Some (<[h := Func (Some x)]> s, None)
        | _, _ => None
        end
    | FMove h g =>
        match s !! h, s !! g with
        | None, Some (Func x) => Some (<[h := Func x]> (<[g := Func None]> s), None)
        | _, _ => None
        end
    | FAssign h g =>
        match s !! h, s !! g with
        | Some (Func x), Some (Func y) => Some (<[h := Func y]> (<[g := Func x]> s), None)
        | _, _ => None
        end
    | FCall h a =>
        match s !! h with
        | Some (Func (Some x)) => Some (<[h := Func (Some (call x a).1)]> s, Some (call x a).2)
        | _ => None
        end
    | FCallC c a =>
        match s !! c with
        | Some (Callable x) => Some (<[c := Callable (call x a).1]> s, Some (call x a).2)
        | _ => None
        end
    | FEnd h => match s !! h with Some (Func _) => Some (delete h s, None) | _ => None end
    | FEndC c => match s !! c with Some (Callable _) => Some (delete c s, None) | _ => None end
    end.

  (** the answers to consecutive calls of a callable in state [x] *)
  Fixpoint calls (x : S) (args : list A) : list R :=
    match args with [] => [] | a :: args => (call x a).2 :: calls (call x a).1 args end.
  Fixpoint after (x : S) (args : list A) : S :=
    match args with [] => x | a :: args => after (call x a).1 args end.
End spec.
Global Arguments fobj : clear implicits.
