(** Specification vocabulary for strings: plain sequences of character codes.
    Independent of the model's functions. *)
From Verif Require Import Hist ModelString.

(** The part of a sequence before its first null character. *)
Fixpoint until_null (xs : list N) : list N :=
  match xs with
  | [] => []
  | c :: xs => if N.eqb c 0 then [] else c :: until_null xs
  end.
Definition no_null (xs : list N) : Prop := Forall (λ c, c ≠ 0%N) xs.

(** [t] occurs in [xs] at position [i]. *)
Definition occurs (xs t : list N) (i : nat) : Prop :=
  ∃ a b, xs = a ++ t ++ b ∧ length a = i.
(** [r] is the first position at or after [pos] satisfying [P]. *)
Definition first_from (P : nat → Prop) (pos : nat) (r : option nat) : Prop :=
  match r with
  | Some i => pos ≤ i ∧ P i ∧ ∀ j, pos ≤ j < i → ¬ P j
  | None => ∀ j, pos ≤ j → ¬ P j
  end.

(** Lexicographic order. *)
Inductive lex_lt : list N → list N → Prop :=
  | lex_nil y ys : lex_lt [] (y :: ys)
  | lex_head x y xs ys : (x < y)%N → lex_lt (x :: xs) (y :: ys)
  | lex_tail x xs ys : lex_lt xs ys → lex_lt (x :: xs) (x :: ys).

(** Sign of the lexicographic comparison, as a function. *)
Fixpoint lex_sign (xs ys : list N) : Z :=
  match xs, ys with
  | [], [] => 0
  | [], _ :: _ => -1
  | _ :: _, [] => 1
  | x :: xs, y :: ys => if decide (x = y) then lex_sign xs ys else if decide (x < y)%N then -1 else 1
  end%Z.

(** First occurrence as a function: try all positions in order. *)
Definition occursb (xs t : list N) (i : nat) : bool :=
  bool_decide (i ≤ length xs ∧ take (length t) (drop i xs) = t).
Definition find_from (xs t : list N) (pos : nat) : option nat :=
  head (filter (λ i, occursb xs t i = true) (seq pos (S (length xs) - pos))).

Definition sbecomes (s : gmap nat (list N)) (h : nat) (xs : list N) := Some (<[h := xs]> s, ROk).
Definition sfresh (s : gmap nat (list N)) (h : nat) (xs : list N) :=
  match s !! h with Some _ => None | None => Some (<[h := xs]> s, ROk) end.

(** Copying and assigning strings go through a null-terminated pointer
    (string.hpp 65, 238), so they cut at the first null; that is what the
    histories are specified to do (property C12 is about the difference). *)
Definition sspec (s : gmap nat (list N)) (op : sop) : option (gmap nat (list N) * sout) :=
  match op with
  | SNew h => sfresh s h []
  | SMake h cs n => if decide (n ≤ length cs) then sfresh s h (take n cs) else None
  | SCstr h cs => sfresh s h (until_null cs)
  | SCopy h g => given ys := s !! g ;; sfresh s h (until_null ys)
  | SRange h cs => match cs with [] => None | _ => sfresh s h cs end
  | SPush h c => given xs := s !! h ;; sbecomes s h (xs ++ [c])
  | SPushElem h g i =>
      if decide (h = g) then None else
      given xs := s !! h ;; given ys := s !! g ;; given y := ys !! i ;; sbecomes s h (xs ++ [y])
  | SAppend h cs n => if decide (n ≤ length cs) then given xs := s !! h ;; sbecomes s h (xs ++ take n cs) else None
  | SAppendStr h g => given xs := s !! h ;; given ys := s !! g ;; sbecomes s h (xs ++ ys)
  | SPop h => given xs := s !! h ;; match xs with [] => None | _ => sbecomes s h (removelast xs) end
  | SClear h => given xs := s !! h ;; sbecomes s h []
  | SReserve h _ => given xs := s !! h ;; Some (s, ROk)
  | SAssignC h cs => given xs := s !! h ;; sbecomes s h (until_null cs)
  | SAssign h g =>
      if decide (h = g) then None else
      given xs := s !! h ;; given ys := s !! g ;; sbecomes s h (until_null ys)
  | SPut h i c => given xs := s !! h ;; given x := xs !! i ;; sbecomes s h (<[i := c]> xs)
  | SDestroy h => given xs := s !! h ;; Some (delete h s, ROk)
  | SSize h => given xs := s !! h ;; Some (s, RNat (length xs))
  | SEmpty h => given xs := s !! h ;; Some (s, RBool (match xs with [] => true | _ => false end))
  | SGet h i => given xs := s !! h ;; given c := (xs ++ [0%N]) !! i ;; Some (s, RCh c)
  | SFront h => given xs := s !! h ;; given x := head xs ;; Some (s, RCh x)
  | SBack h => given xs := s !! h ;; given x := last xs ;; Some (s, RCh x)
  | SIter h => given xs := s !! h ;; Some (s, RStr xs)
  | SFind h cs pos n =>
      if decide (n ≤ length cs) then given xs := s !! h ;; Some (s, RPos (find_from xs (take n cs) pos)) else None
  | SFindStr h g pos => given xs := s !! h ;; given ys := s !! g ;;
      Some (s, RPos (find_from xs (until_null ys) pos))
  | SCompare h g => given xs := s !! h ;; given ys := s !! g ;; Some (s, RInt (lex_sign xs ys))
  | SCompareC h cs => given xs := s !! h ;; Some (s, RInt (lex_sign xs (until_null cs)))
  | SEq h g => given xs := s !! h ;; given ys := s !! g ;; Some (s, RBool (bool_decide (xs = ys)))
  | SLt h g => given xs := s !! h ;; given ys := s !! g ;; Some (s, RBool (bool_decide (lex_sign xs ys = -1)%Z))
  end.

(** ** Memory-level vocabulary *)

(** In [m] the string at [this] is [xs] with capacity [k] and buffer [p]; the
    buffer is the characters, a null, and the unused rest. *)
Definition s_holds (m : mem scell) (this : loc) (xs : list N) (k : nat) (p : loc) : Prop :=
  blk m !! this = Some (SHdr (length xs) k (Some p)) ∧ 0 < k ∧
  ∃ rest, blk m !! p = Some (SBuf (xs ++ 0%N :: rest)) ∧ length xs + length rest = k.

(** Pointer [s] can be read in [m] and the characters from it to the end of its
    array are [cs]. *)
Definition reads_as (m : mem scell) (s : cptr) (cs : list N) : Prop :=
  match s with
  | CExt ds => cs = ds
  | CBlk l off => ∃ ds, blk m !! l = Some (SBuf ds) ∧ off ≤ length ds ∧ cs = drop off ds
  end.

(** Copying is [s_copy]; what a copy of [xs] at [this]/[p] made from [g]/[q] is. *)
Definition s_apart (this p g q : loc) : Prop := this ≠ g ∧ this ≠ q ∧ p ≠ g ∧ p ≠ q.

(** Result [r] of a comparison is right for [xs] and [ys], and fits in int. *)
Definition agrees (r : Z) (xs ys : list N) : Prop :=
  ((r < 0)%Z ↔ lex_lt xs ys) ∧ (r = 0%Z ↔ xs = ys) ∧ ((0 < r)%Z ↔ lex_lt ys xs) ∧
  (-2147483648 ≤ r ≤ 2147483647)%Z.
