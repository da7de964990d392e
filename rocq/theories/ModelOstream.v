(** Model of the output streams and of printf/fprintf:
    /repo/include/cest/ostream.hpp, runtime_ostream.hpp, ios_base.hpp 202-204,
    string.hpp 365-373, cstdio.hpp 20-67.

    What is observable is what happens to the standard streams std::cout,
    std::cerr and std::clog: a list of events, in order.  Characters are
    numbers.  Flags, locales and the buffers of cest's own streams are not
    modelled: nothing here reads them.  Not modelled: operator<<(long), whose
    _M_insert needs a sentry whose constructor is not defined; flush, which
    touches only cest's own buffer; the inserters of smart pointers, which need
    an inserter for pointers that does not exist (except for char). *)
From stdpp Require Export list numbers.
Open Scope Z_scope.

Notation text := (list Z).
(** the standard streams *)
Inductive dev := StdOut | StdErr | StdLog.
Global Instance dev_eq_dec : EqDecision dev.
Proof. solve_decision. Defined.
(** what is done to a standard stream *)
Inductive event :=
  | EInt (n : Z) | EUnsigned (n : Z) | EChar (c : Z) | EText (t : text)     (** << value *)
  | EEndl | EBase (b : Z).                                                  (** << manipulator *)
(** events so far *)
Notation trace := (list (dev * event)).
(** a C string is what comes before the first null character *)
Fixpoint c_str (t : text) : text :=
  match t with [] => [] | c :: t => if c =? 0 then [] else c :: c_str t end.

(** The address of an ostream object; three of them are cest::cout, cest::cerr
    and cest::clog (iostream.hpp 17-19). *)
Definition ostream := positive.
Record globals := Globals { cout : ostream; cerr : ostream; clog : ostream }.
(** an action: reads whether it is part of a constant evaluation, and may add events *)
Definition act (A : Type) := bool → trace → A * trace.

Section ostream.
  Context (g : globals).
  (** std::is_constant_evaluated() *)
  Definition std_print (d : dev) (e : event) : act unit := λ _ tr, (tt, tr ++ [(d, e)]).
  (** impl::runtime_ostream: runtime_ostream.hpp 11-35, both overloads *)
  Definition runtime_ostream (os : ostream) (e : event) : act unit := λ ce tr,
    if ce then (tt, tr) else
    if Pos.eqb (cout g) os then std_print StdOut e ce tr else
    if Pos.eqb (cerr g) os then std_print StdErr e ce tr else
    if Pos.eqb (clog g) os then std_print StdLog e ce tr else (tt, tr).
  Definition then_return {A} (f : act unit) (a : A) : act A := λ ce tr, (a, (f ce tr).2).

  (** what can be inserted *)
  Inductive item :=
    | Int (n : Z) | Unsigned (n : Z) | Char (c : Z)
    | CStr (t : text)            (** a pointer to [t] followed by a null *)
    | String (t : text)          (** a cest::string holding [t] *)
    | Endl | Hex | Dec | Oct.
  (** operator<<: ostream.hpp 42-73, 89-111, string.hpp 365-373.  The
      manipulators hex, dec, oct (ios_base.hpp 202-204) return their argument. *)
  Definition insert (os : ostream) (x : item) : act ostream :=
    match x with
    | Int n => then_return (runtime_ostream os (EInt n)) os
    | Unsigned n => then_return (runtime_ostream os (EUnsigned n)) os
    | Char c => then_return (runtime_ostream os (EChar c)) os
    | CStr t => then_return (runtime_ostream os (EText (c_str t))) os
    | String t => then_return (runtime_ostream os (EText (c_str t))) os
    | Endl => then_return (runtime_ostream os EEndl) os
    | Hex | Dec | Oct => λ _ tr, (os, tr)
    end.
  (** os << x1 << x2 << ...: each is applied to what the one before returned *)
  Fixpoint chain (os : ostream) (xs : list item) : act ostream := λ ce tr,
    match xs with
    | [] => (os, tr)
    | x :: xs => let '(os, tr) := insert os x ce tr in chain os xs ce tr
    end.
  (** statements, one after the other *)
  Fixpoint statements (p : list (ostream * list item)) : act unit := λ ce tr,
    match p with
    | [] => (tt, tr)
    | (os, xs) :: p => statements p ce (chain os xs ce tr).2
    end.

  (** std::printf("%s", p) returns the number of characters written *)
  Definition std_printf_s (t : text) : act Z := λ _ tr,
    (Z.of_nat (length (c_str t)), tr ++ [(StdOut, EText (c_str t))]).
  (** printf(format): cstdio.hpp 20-29 *)
  Definition printf0 (format : text) : act Z := λ ce tr,
    if ce then (0, tr) else std_printf_s format ce tr.
  (** fprintf(stream, format): 42-50 *)
  Definition fprintf0 (os : ostream) (format : text) : act Z := λ ce tr,
    if ce then (0, tr) else (0, (insert os (CStr format) ce tr).2).
  (** With arguments, [out] is what the standard's formatting produces.
      printf: 31-40; fprintf: 52-67 (snprintf into a buffer of its own, which is
      then inserted as a C string) *)
  Definition printf (out : text) : act Z := λ ce tr,
    if ce then (0, tr) else (Z.of_nat (length out), tr ++ [(StdOut, EText out)]).
  Definition fprintf (os : ostream) (out : text) : act Z := λ ce tr,
    if ce then (0, tr) else (Z.of_nat (length out), (insert os (CStr out) ce tr).2).
End ostream.
