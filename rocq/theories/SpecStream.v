(** What input streams are supposed to be: a text, a position in it, three state
    flags, a mask of flags that raise an exception, and the size of the last
    unformatted read. *)
From Verif Require Import Hist ModelStream SpecString.

Record flags := Flags { f_bad : bool; f_eof : bool; f_fail : bool }.
Definition none_set (f : flags) : bool := negb (f_bad f || f_eof f || f_fail f).
Definition both (f g : flags) : flags := Flags (f_bad f || f_bad g) (f_eof f || f_eof g) (f_fail f || f_fail g).
Definition meet (f g : flags) : bool := f_bad f && f_bad g || f_eof f && f_eof g || f_fail f && f_fail g.
Definition no_flags : flags := Flags false false false.
(** as numbers: badbit 1, eofbit 2, failbit 4 *)
Definition num (f : flags) : Z :=
  ((if f_bad f then 1 else 0) + (if f_eof f then 2 else 0) + (if f_fail f then 4 else 0))%Z.
Definition bits (z : Z) : flags := Flags (Z.testbit z 0) (Z.testbit z 1) (Z.testbit z 2).

(** Where the text comes from: nowhere; a string, which can be replaced, in a
    stream that is open for reading or not; a FILE. *)
Inductive source := NoBuffer | OfString (readable : bool) | OfFile.
Record xstream := X {
  x_txt : list N; x_pos : nat; x_st : flags; x_mask : flags; x_count : nat; x_src : source }.
Definition x_set (x : xstream) (st : flags) : xstream := X (x_txt x) (x_pos x) st (x_mask x) (x_count x) (x_src x).
Definition x_at (x : xstream) (pos count : nat) : xstream := X (x_txt x) pos (x_st x) (x_mask x) count (x_src x).
Definition x_open (txt : list N) (src : source) : xstream := X txt 0 no_flags no_flags 0 src.

(** set the state to [f]; without a buffer bad stays set; [false]: an exception *)
Definition x_clear (x : xstream) (f : flags) : xstream * bool :=
  let f := match x_src x with NoBuffer => both f (Flags true false false) | _ => f end in
  (x_set x f, negb (meet f (x_mask x))).
Definition x_setstate (x : xstream) (f : flags) : xstream * bool := x_clear x (both (x_st x) f).

Definition x_get (x : xstream) (c0 : N) : xstream * N * bool :=
  let x := x_at x (x_pos x) 0 in
  if none_set (x_st x) then
    match x_txt x !! x_pos x with
    | Some c => (x_at x (x_pos x + 1) 1, c, true)
    | None => let r := x_setstate x (Flags false true true) in (r.1, c0, r.2)
    end
  else let r := x_setstate x (Flags false false true) in (r.1, c0, r.2).
Definition x_unget (x : xstream) : xstream * bool :=
  let x := x_at x (x_pos x) 0 in
  let r := x_clear x (Flags (f_bad (x_st x)) false (f_fail (x_st x))) in
  if r.2 then
    let x := r.1 in
    if none_set (x_st x) then
      match x_pos x with
      | S pos => (x_at x pos 0, true)
      | O => x_setstate x (Flags true false false)
      end
    else x_setstate x (Flags false false true)
  else r.
Definition x_read (x : xstream) (n : nat) : xstream * list N * bool :=
  if none_set (x_st x) then
    let cs := take n (drop (x_pos x) (x_txt x)) in
    let x := x_at x (x_pos x + length cs) (length cs) in
    if decide (length cs = n) then (x, cs, true)
    else let r := x_setstate x (Flags false true true) in (r.1, cs, r.2)
  else let r := x_setstate (x_at x (x_pos x) 0) (Flags false false true) in (r.1, [], r.2).

(** the buffer by itself: the character at [pos], or -1 *)
Definition x_char (x : xstream) (pos : nat) : Z :=
  match x_txt x !! pos with Some c => Z.of_N c | None => (-1)%Z end.
Definition x_move (x : xstream) (pos : nat) : xstream := x_at x (Nat.min pos (length (x_txt x))) (x_count x).
Definition has_buffer (x : xstream) : bool := match x_src x with NoBuffer => false | _ => true end.

(** istream::sentry(h): skip white space; good if a character is left.  [GoUnit
    false] is an ios failure. *)
Definition is_space (c : N) : bool := bool_decide (c ∈ [9; 10; 11; 12; 13; 32]%N).
Fixpoint spaces (cs : list N) : nat :=
  match cs with c :: cs => if is_space c then S (spaces cs) else 0 | [] => 0 end.
Definition x_fail (x : xstream) (f : flags) : xstream * gout :=
  let r := x_setstate x f in (r.1, if r.2 then GoBool false else GoUnit false).
Definition skips (x : xstream) : xstream * gout :=
  let pos := x_pos x + spaces (drop (x_pos x) (x_txt x)) in
  let x := x_at x pos (x_count x) in
  if pos <? length (x_txt x) then (x, GoBool true) else x_fail x (Flags false true true).
(** what it does instead *)
Definition no_skip (x : xstream) : xstream * gout :=
  if f_bad (x_mask x) then (x_set x (both (x_st x) (Flags true false false)), GoBadCast)
  else x_fail x (Flags true false true).

Section spec.
  (** [cut cs]: what str(cs) puts into the stream; should be [cs] *)
  Context (cut : list N → list N).
  (** what skipping white space does; should be [skips] *)
  Context (skip : xstream → xstream * gout).
  Notation gstate := (gmap nat xstream).
  Definition xdecl (s : gstate) (h : nat) (x : xstream) : option (gstate * gout) :=
    match s !! h with Some _ => None | None => Some (<[h := x]> s, GoUnit true) end.
  Definition xcall {A} (s : gstate) (h : nat) (f : xstream → xstream * A) (o : A → gout) : option (gstate * gout) :=
    given x := s !! h ;; Some (<[h := (f x).1]> s, o (f x).2).
  Definition xread (s : gstate) (h : nat) (o : xstream → gout) : option (gstate * gout) :=
    given x := s !! h ;; Some (s, o x).
  (** through the buffer, if there is one: the flags and the count stay *)
  Definition xbuf (s : gstate) (h : nat) (f : xstream → nat * gout) : option (gstate * gout) :=
    given x := s !! h ;;
    if has_buffer x then Some (<[h := x_move x (f x).1]> s, (f x).2) else None.
  Definition is_iostate (z : Z) : bool := (0 <=? z)%Z && (z <? 8)%Z.

  Definition gspec (s : gstate) (op : gop) : option (gstate * gout) :=
    match op with
    | GOpenI h cs _ => xdecl s h (x_open cs (OfString true))
    | GOpenS h cs mode =>
        let readable := Z.testbit mode 3 in
        xdecl s h (x_open (if readable then cs else []) (OfString readable))
    | GNewI h | GNewS h => xdecl s h (x_open [] (OfString true))
    | GNull h => xdecl s h (x_set (x_open [] NoBuffer) (Flags true false false))
    | GFile h cs => xdecl s h (x_open cs OfFile)
    | GGet h c0 => xcall s h (λ x, let r := x_get x c0 in (r.1.1, (r.1.2, r.2))) (λ r, GoChar r.1 r.2)
    | GUnget h => xcall s h x_unget GoUnit
    | GRead h n => xcall s h (λ x, let r := x_read x n in (r.1.1, (r.1.2, r.2))) (λ r, GoChars r.1 r.2)
    | GGcount h => xread s h (λ x, GoNum (Z.of_nat (x_count x)))
    | GRdstate h => xread s h (λ x, GoNum (num (x_st x)))
    | GGood h => xread s h (λ x, GoBool (none_set (x_st x)))
    | GEof h => xread s h (λ x, GoBool (f_eof (x_st x)))
    | GFail h | GNot h => xread s h (λ x, GoBool (f_bad (x_st x) || f_fail (x_st x)))
    | GBool h => xread s h (λ x, GoBool (negb (f_bad (x_st x) || f_fail (x_st x))))
    | GClear h z => if is_iostate z then xcall s h (λ x, x_clear x (bits z)) GoUnit else None
    | GSetstate h z => if is_iostate z then xcall s h (λ x, x_setstate x (bits z)) GoUnit else None
    | GMask h z =>
        if is_iostate z then
          xcall s h (λ x, x_clear (X (x_txt x) (x_pos x) (x_st x) (bits z) (x_count x) (x_src x)) (x_st x)) GoUnit
        else None
    | GGetMask h => xread s h (λ x, GoNum (num (x_mask x)))
    | GStr h cs =>
        given x := s !! h ;;
        match x_src x with
        | OfString readable =>
            Some (<[h := X (if readable then cut cs else []) 0 (x_st x) (x_mask x) (x_count x) (x_src x)]> s, GoUnit true)
        | _ => None
        end
    | GPeek h => xbuf s h (λ x, (x_pos x, GoNum (x_char x (x_pos x))))
    | GBump h => xbuf s h (λ x, (x_pos x + 1, GoNum (x_char x (x_pos x))))
    | GNext h => xbuf s h (λ x, (x_pos x + 1, GoNum (x_char x (x_pos x + 1))))
    | GBack h => xbuf s h (λ x, match x_pos x with S pos => (pos, GoNum (x_char x pos)) | O => (0, GoNum (-1)) end)
    | GGetn h n => xbuf s h (λ x, (x_pos x + n, GoChars (take n (drop (x_pos x) (x_txt x))) true))
    | GSync h => xbuf s h (λ x, (x_pos x, GoNum 0))
    | GRdbuf h => xread s h (λ x, GoBool (has_buffer x))
    | GFlush h => xread s h (λ _, GoUnit true)
    | GSentry h noskip =>
        xcall s h (λ x, if none_set (x_st x) then if noskip : bool then (x, GoBool true) else skip x
                        else x_fail x (Flags false false true)) (λ o, o)
    | GFlags h => xread s h (λ _, GoNum 4098)
    | GCin h => xdecl s h (x_open [99; 105; 110]%N (OfString true))
    | GFread h size n =>
        if decide (size = 1) then
          xcall s h (λ x, let r := x_read x n in (r.1.1, (r.1.2, r.2)))
            (λ r, GoRead r.1 (if r.2 then Some (length r.1) else None))
        else None
    | GEnd h =>
        given x := s !! h ;;
        match x_src x with OfFile => None | _ => Some (delete h s, GoUnit true) end
    | GFclose h =>
        given x := s !! h ;;
        match x_src x with OfFile => Some (delete h s, GoUnit true) | _ => None end
    end.
End spec.

Notation xspec := (gspec (λ cs, cs) skips).

(** calls with a string without a null inside, or that skip no white space *)
Definition plain_op (op : gop) : Prop :=
  match op with GStr _ cs => no_null cs | GSentry _ noskip => noskip = true | _ => True end.
(** calls other than those that construct an empty string (which is noexcept,
    though it allocates) or assign to one, and that skip no white space *)
Definition strong_op (op : gop) : Prop :=
  match op with GStr _ _ | GNewI _ | GNewS _ => False | GSentry _ noskip => noskip = true | _ => True end.

(** A state that a client program can reach when no allocation fails. *)
Definition g_state (s : gmap nat xstream) (env : genv) (m : mem scell) : Prop :=
  ∃ ao evs, no_fail ao ∧ hist (gspec until_null no_skip) g_run ∅ ∅ (mem0 ao []) evs s env m.
(** From there the calls [ops] answer [os], and lead to [s']. *)
Definition g_gives s env m (ops : list gop) (os : list gout) s' : Prop :=
  ∃ env' m', exec (gspec until_null no_skip) g_run s env m ops = Some (zip ops (Ret <$> os), s', env', m').

(** Reading as moving a cursor through a text: what each request delivers, and
    where the cursor is afterwards; no answer if the cursor would leave the text *)
Inductive request := RGet | RUnget | RRead (n : nat).
Fixpoint cursor (txt : list N) (pos : nat) (rs : list request) : option (list (list N) * nat) :=
  match rs with
  | [] => Some ([], pos)
  | r :: rs =>
      given d := match r with
                 | RGet => given c := txt !! pos ;; Some ([c], pos + 1)
                 | RUnget => match pos with S pos => Some ([], pos) | O => None end
                 | RRead n => if decide (pos + n ≤ length txt) then Some (take n (drop pos txt), pos + n) else None
                 end ;;
      given r := cursor txt d.2 rs ;; Some (d.1 :: r.1, r.2)
  end.
(** a request as a call, followed by a call to gcount() *)
Definition calls_of (h : nat) (r : request) : list gop :=
  [match r with RGet => GGet h 0%N | RUnget => GUnget h | RRead n => GRead h n end; GGcount h].
Definition answers_to (r : request) (cs : list N) : list gout :=
  [match r with RGet => GoChar (default 0%N (head cs)) true | RUnget => GoUnit true | RRead _ => GoChars cs true end;
   GoNum (Z.of_nat (length cs))].

(** what successive requests for [ns] characters deliver *)
Fixpoint slices (txt : list N) (ns : list nat) : list (list N) :=
  match ns with [] => [] | n :: ns => take n txt :: slices (drop n txt) ns end.

(** Reading through the buffer, as moving through a text split in two: what is
    before the cursor, the nearest first, and what is after it. *)
Inductive brequest := BPeek | BBump | BNext | BBack | BGetn (n : nat).
Definition first_of (cs : list N) : gout := GoNum (match cs with c :: _ => Z.of_N c | [] => (-1)%Z end).
Fixpoint split_read (before after : list N) (rs : list brequest) : list gout * (list N * list N) :=
  match rs with
  | [] => ([], (before, after))
  | r :: rs =>
      let '(o, before, after) :=
        match r, before, after with
        | BPeek, _, _ => (first_of after, before, after)
        | BBump, _, c :: cs => (GoNum (Z.of_N c), c :: before, cs)
        | BNext, _, c :: cs => (first_of cs, c :: before, cs)
        | BBack, c :: cs, _ => (GoNum (Z.of_N c), cs, c :: after)
        | BGetn n, _, _ => (GoChars (take n after) true, rev (take n after) ++ before, drop n after)
        | _, _, _ => (GoNum (-1), before, after)
        end in
      let '(os, sp) := split_read before after rs in (o :: os, sp)
  end.
Definition bcall (h : nat) (r : brequest) : gop :=
  match r with BPeek => GPeek h | BBump => GBump h | BNext => GNext h | BBack => GBack h | BGetn n => GGetn h n end.
