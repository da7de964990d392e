(** What the same program does with the standard streams themselves. *)
From Verif Require Import ModelOstream.

Definition std_event (x : item) : event :=
  match x with
  | Int n => EInt n | Unsigned n => EUnsigned n | Char c => EChar c
  | CStr t => EText (c_str t)
  | String t => EText t                        (** all size() characters *)
  | Endl => EEndl | Hex => EBase 16 | Dec => EBase 10 | Oct => EBase 8
  end.
(** the standard stream that a cest stream stands for, if any *)
Definition dev_of (g : globals) (os : ostream) : option dev :=
  if decide (os = cout g) then Some StdOut else
  if decide (os = cerr g) then Some StdErr else
  if decide (os = clog g) then Some StdLog else None.
Definition std_events (g : globals) (p : list (ostream * list item)) : trace :=
  os ← p; match dev_of g os.1 with Some d => (λ x, (d, std_event x)) <$> os.2 | None => [] end.
(** the items for which cest does what the standard does *)
Definition plain (x : item) : Prop :=
  match x with String t => 0 ∉ t | Hex | Dec | Oct => False | _ => True end.

(** what a standard stream shows *)
Definition shown (d : dev) (tr : trace) : list event := snd <$> filter (λ e, e.1 = d) tr.

(** printf without arguments: %% is a percent sign, any other conversion would
    need an argument *)
Fixpoint std_format (t : text) : option text :=
  match t with
  | [] => Some []
  | 37 :: 37 :: t => cons 37 <$> std_format t
  | 37 :: _ => None
  | c :: t => cons c <$> std_format t
  end.

(** the program that, with the standard streams, does what cest does: strings cut
    at their first null, no manipulators *)
Definition cut (x : item) : list item :=
  match x with String t => [String (c_str t)] | Hex | Dec | Oct => [] | _ => [x] end.
Definition cut_program (p : list (ostream * list item)) : list (ostream * list item) :=
  (λ s, (s.1, x ← s.2; cut x)) <$> p.
