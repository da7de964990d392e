(** Model of cest::basic_string — /repo/include/cest/string.hpp.

    Simplifications:
    - a character is its unsigned code ([N]); [CharT()] is 0 and
      [traits_type::lt/compare] is the order of codes (this is what
      std::char_traits prescribes for char, char8_t, char16_t, char32_t);
    - sizes are unbounded naturals; [npos] is [None];
    - the std::char_traits functions are modelled by their standard contracts:
      reading outside an array is UB, [copy] between partially overlapping
      ranges is UB (copying a range onto itself is taken to be harmless);
    - [deallocate(nullptr, n)] is taken to be harmless, as in libstdc++;
    - the noexcept constructor 41-48 calls std::terminate when the allocator
      throws: modelled as UB. *)
From Verif Require Export Mem.
From Coq Require Export NArith ZArith.

(** A string object (m_size, m_capacity, m_p: 293-296) or an array of characters
    (always completely initialised by std::construct_at). *)
Inductive scell :=
  | SHdr (size cap : nat) (p : ptr)
  | SBuf (cs : list N).

(** A [const CharT *]: into an array outside all strings, or into a buffer. *)
Inductive cptr := CExt (cs : list N) | CBlk (l : loc) (off : nat).

Notation MS := (M scell).

(** ** Members *)
Definition s_hdr (this : loc) : MS (nat * nat * ptr) :=
  c <- load this ;; match c with SHdr n k p => ret (n, k, p) | SBuf _ => ub end.
Definition s_size (this : loc) : MS nat := h <- s_hdr this ;; ret h.1.1.
Definition s_cap (this : loc) : MS nat := h <- s_hdr this ;; ret h.1.2.
Definition s_p (this : loc) : MS ptr := h <- s_hdr this ;; ret h.2.
Definition s_set_size (this : loc) (n : nat) : MS unit :=
  h <- s_hdr this ;; store this (SHdr n h.1.2 h.2).
Definition s_set_cap (this : loc) (k : nat) : MS unit :=
  h <- s_hdr this ;; store this (SHdr h.1.1 k h.2).
Definition s_set_p (this : loc) (p : ptr) : MS unit :=
  h <- s_hdr this ;; store this (SHdr h.1.1 h.1.2 p).

(** ** Arrays and std::char_traits *)
Definition b_chars (p : ptr) : MS (loc * list N) :=
  match p with
  | None => ub
  | Some l => c <- load l ;; match c with SBuf cs => ret (l, cs) | SHdr _ _ _ => ub end
  end.
(** [p[i]] *)
Definition b_get (p : ptr) (i : nat) : MS N :=
  lc <- b_chars p ;; match lc.2 !! i with Some c => ret c | None => ub end.
(** traits::assign(p[i], c) *)
Definition b_set (p : ptr) (i : nat) (c : N) : MS unit :=
  lc <- b_chars p ;;
  if decide (i < length lc.2) then store lc.1 (SBuf (<[i := c]> lc.2)) else ub.
(** m_alloc.allocate(n), every element then value-initialised by construct_at *)
Definition b_allocate (n : nat) : MS ptr :=
  l <- alloc (SBuf (replicate n 0%N)) ;; ret (Some l).
Definition b_deallocate (p : ptr) (n : nat) : MS unit :=
  match p with
  | None => ret tt
  | Some _ => lc <- b_chars p ;; if decide (length lc.2 = n) then free lc.1 else ub
  end.

(** the characters from a pointer to the end of its array *)
Definition chars (s : cptr) : MS (list N) :=
  match s with
  | CExt cs => ret cs
  | CBlk l off => lc <- b_chars (Some l) ;; if decide (off ≤ length lc.2) then ret (drop off lc.2) else ub
  end.
(** traits::length: index of the first null *)
Fixpoint strlen (cs : list N) : option nat :=
  match cs with
  | [] => None
  | c :: cs => if N.eqb c 0 then Some 0 else match strlen cs with Some n => Some (S n) | None => None end
  end.
Definition t_length (s : cptr) : MS nat :=
  cs <- chars s ;; match strlen cs with Some n => ret n | None => ub end.
(** source [s] and the [n] characters at index [i] of block [d] do not partially
    overlap *)
Definition no_overlap (s : cptr) (d : loc) (i n : nat) : bool :=
  match s with
  | CExt _ => true
  | CBlk l off => negb (Pos.eqb l d) || (off =? i) || (off + n <=? i) || (i + n <=? off)
  end.
(** traits::copy(p + i, s, n) *)
Definition t_copy (p : ptr) (i : nat) (s : cptr) (n : nat) : MS unit :=
  if n =? 0 then ret tt else
  cs <- chars s ;;
  lc <- b_chars p ;;
  if decide (n ≤ length cs ∧ i + n ≤ length lc.2 ∧ no_overlap s lc.1 i n = true)
  then store lc.1 (SBuf (take i lc.2 ++ take n cs ++ drop (i + n) lc.2)) else ub.
(** traits::find(s, n, c) *)
Fixpoint index_of (c : N) (cs : list N) : option nat :=
  match cs with
  | [] => None
  | d :: cs => if N.eqb d c then Some 0 else match index_of c cs with Some i => Some (S i) | None => None end
  end.
Definition t_find (s : cptr) (n : nat) (c : N) : MS (option nat) :=
  cs <- chars s ;; if decide (n ≤ length cs) then ret (index_of c (take n cs)) else ub.
(** traits::compare(s, t, n): the sign of the first difference *)
Fixpoint cmp (xs ys : list N) : Z :=
  match xs, ys with
  | x :: xs, y :: ys => if N.ltb x y then (-1)%Z else if N.ltb y x then 1%Z else cmp xs ys
  | _, _ => 0%Z
  end.
Definition t_compare (s t : cptr) (n : nat) : MS Z :=
  xs <- chars s ;; ys <- chars t ;;
  if decide (n ≤ length xs ∧ n ≤ length ys) then ret (cmp (take n xs) (take n ys)) else ub.

(** [this->data()] as an argument *)
Definition s_data (this : loc) : MS cptr :=
  p <- s_p this ;; match p with Some l => ret (CBlk l 0) | None => ub end.

(** ** Default constructor: 37-48 (noexcept) *)
Definition s_new : MS loc :=
  this <- new (SHdr 0 1 None) ;;
  p <- catch (b_allocate 2) (λ _, ub) ;; s_set_p this p ;;;
  b_set p 0 0%N ;;;
  ret this.

(** ** (pointer, count) constructor: 50-60.  Not delegating; the allocation is
    its only throw point. *)
Definition s_make (s : cptr) (count : nat) : MS loc :=
  this <- new (SHdr 0 (count + 1) None) ;;
  on_throw
    (cap <- s_cap this ;;
     p <- b_allocate (cap + 1) ;; s_set_p this p ;;;
     t_copy p 0 s count ;;;
     s_set_size this count ;;; p <- s_p this ;; b_set p count 0%N)
    (free this) ;;;
  ret this.

(** ** C-string constructor: 62-63 *)
Definition s_cstr (s : cptr) : MS loc := n <- t_length s ;; s_make s n.

(** ** Copy constructor: 65 *)
Definition s_copy (str : loc) : MS loc := s <- s_data str ;; s_cstr s.

(** ** Input-iterator constructor: 67-104.  The range is the list of characters
    it delivers.  [fill1] is the first loop, [fill2] the second. *)
Fixpoint s_fill1 (this : loc) (len cap : nat) (cs : list N) : MS (nat * list N) :=
  match cs with
  | [] => ret (len, [])
  | c :: cs' => if len <? cap then p <- s_p this ;; b_set p len c ;;; s_fill1 this (S len) cap cs'
                else ret (len, cs)
  end.
Fixpoint s_fill2 (this : loc) (len cap : nat) (cs : list N) : MS nat :=
  match cs with
  | [] => ret len
  | c :: cs' =>
      cap' <- (if len =? cap then
                 let cap := (len + 1) * 2 in
                 another <- b_allocate (cap + 1) ;;
                 mp <- s_p this ;;
                 (if len =? 0 then ret tt
                  else match mp with Some l => t_copy another 0 (CBlk l 0) len | None => ub end) ;;;
                 k <- s_cap this ;; b_deallocate mp (k + 1) ;;;
                 s_set_p this another ;;; s_set_cap this cap ;;; ret cap
               else ret cap) ;;
      p <- s_p this ;; b_set p len c ;;;
      s_fill2 this (S len) cap' cs'
  end.
Definition s_range (cs : list N) : MS loc :=
  this <- new (SHdr 0 0 None) ;;
  on_throw
    (cap <- s_cap this ;;
     lr <- s_fill1 this 0 cap cs ;;
     len <- s_fill2 this lr.1 cap lr.2 ;;
     s_set_size this len ;;; p <- s_p this ;; b_set p len 0%N)
    (free this) ;;;
  ret this.

(** ** Destructor: 106 *)
Definition s_dtor (this : loc) : MS unit :=
  p <- s_p this ;; k <- s_cap this ;; b_deallocate p (k + 1) ;;; free this.

(** ** empty, front, back, operator[]: 119, 123-126, 134-135 *)
Definition s_empty (this : loc) : MS bool := n <- s_size this ;; ret (n =? 0).
Definition s_get (this : loc) (pos : nat) : MS N := p <- s_p this ;; b_get p pos.
Definition s_put (this : loc) (pos : nat) (c : N) : MS unit := p <- s_p this ;; b_set p pos c.
Definition s_front (this : loc) : MS N := s_get this 0.
Definition s_back (this : loc) : MS N :=
  n <- s_size this ;; match n with O => ub | S n' => s_get this n' end.
(** iteration begin()..end(): 113-118 *)
Fixpoint s_walk (p : ptr) (i n : nat) : MS (list N) :=
  match n with
  | O => ret []
  | S n' => c <- b_get p i ;; cs <- s_walk p (S i) n' ;; ret (c :: cs)
  end.
Definition s_iterate (this : loc) : MS (list N) :=
  p <- s_p this ;; n <- s_size this ;; s_walk p 0 n.

(** ** clear, pop_back: 128-133 *)
Definition s_clear (this : loc) : MS unit :=
  s_set_size this 0 ;;; p <- s_p this ;; b_set p 0 0%N.
Definition s_pop_back (this : loc) : MS unit :=
  n <- s_size this ;;
  match n with
  | O => ub
  | S n' => s_set_size this n' ;;; p <- s_p this ;; b_set p n' 0%N
  end.

(** ** find: 137-178 *)
Definition s_find_ch (this : loc) (ch : N) (pos : nat) : MS (option nat) :=
  s <- s_data this ;; n <- s_size this ;; t_find s n ch.
Fixpoint s_find_loop (fuel : nat) (l : loc) (s : cptr) (elem0 : N) (count first last len : nat)
    : MS (option nat) :=
  match fuel with
  | O => diverge
  | S fuel =>
      if count <=? len then
        r <- t_find (CBlk l first) (len - count + 1) elem0 ;;
        match r with
        | None => ret None
        | Some i =>
            let first := first + i in
            c <- t_compare (CBlk l first) s count ;;
            if Z.eqb c 0 then ret (Some first)
            else s_find_loop fuel l s elem0 count (S first) last (last - S first)
        end
      else ret None
  end.
Definition s_find (this : loc) (s : cptr) (pos count : nat) : MS (option nat) :=
  size <- s_size this ;;
  if count =? 0 then ret (if pos <=? size then Some pos else None)
  else if size <=? pos then ret None
  else
    cs <- chars s ;;
    match head cs with
    | None => ub
    | Some elem0 =>
        p <- s_p this ;;
        match p with
        | None => ub
        | Some l => s_find_loop (S (size - pos)) l s elem0 count pos size (size - pos)
        end
    end.
Definition s_find_c (this : loc) (s : cptr) (pos : nat) : MS (option nat) :=
  n <- t_length s ;; s_find this s pos n.
Definition s_find_str (this str : loc) (pos : nat) : MS (option nat) :=
  s <- s_data str ;; s_find_c this s pos.

(** ** reserve: 241-253 *)
Definition s_reserve (this : loc) (new_cap : nat) : MS unit :=
  cap <- s_cap this ;;
  if cap <? new_cap then
    p <- b_allocate (new_cap + 1) ;;
    mp <- s_p this ;; n <- s_size this ;;
    match mp with
    | None => ub
    | Some l => t_copy p 0 (CBlk l 0) (n + 1)
    end ;;;
    b_deallocate mp (cap + 1) ;;;
    s_set_p this p ;;;
    s_set_cap this new_cap
  else ret tt.

(** ** push_back(const value_type&): 180-185.  The argument is a character
    outside all strings or a buffer element, read after reserve. *)
Inductive cref := CVal (c : N) | CElem (l : loc) (i : nat).
Definition c_read (r : cref) : MS N :=
  match r with CVal c => ret c | CElem l i => b_get (Some l) i end.
Definition s_push_back (this : loc) (r : cref) : MS unit :=
  n <- s_size this ;; cap <- s_cap this ;;
  (if cap <? n + 1 then s_reserve this (cap * 2) else ret tt) ;;;
  p <- s_p this ;; n <- s_size this ;; c <- c_read r ;; b_set p n c ;;;
  s_set_size this (S n) ;;; p <- s_p this ;; b_set p (S n) 0%N.

(** ** append: 187-212 *)
Definition s_append (this : loc) (s : cptr) (count : nat) : MS unit :=
  n <- s_size this ;;
  let len := count + n in
  cap <- s_cap this ;;
  (if len <=? cap then
     if count =? 0 then ret tt else p <- s_p this ;; t_copy p n s count
   else
     p <- b_allocate (len + 1) ;;
     mp <- s_p this ;;
     match mp with
     | None => ub
     | Some l => t_copy p 0 (CBlk l 0) n
     end ;;;
     t_copy p n s count ;;;
     b_deallocate mp (cap + 1) ;;;
     s_set_p this p ;;; s_set_size this len ;;; s_set_cap this len) ;;;
  s_set_size this len ;;; p <- s_p this ;; b_set p len 0%N.
Definition s_append_str (this str : loc) : MS unit :=
  s <- s_data str ;; n <- s_size str ;; s_append this s n.

(** ** operator= from a C string or a string: 219-239.  The old
    buffer is released before the new one is requested. *)
Definition s_assign (this : loc) (s : cptr) : MS unit :=
  count <- t_length s ;;
  cap <- s_cap this ;;
  (if cap <? count + 1 then
     p <- s_p this ;; b_deallocate p (cap + 1) ;;;
     s_set_cap this (count + 1) ;;;
     p <- b_allocate (count + 1 + 1) ;; s_set_p this p
   else ret tt) ;;;
  p <- s_p this ;; t_copy p 0 s (count + 1) ;;;
  s_set_size this count.
Definition s_assign_str (this str : loc) : MS unit :=
  s <- s_data str ;; s_assign this s.

(** ** compare: 255-291.  [difference_type(n1 - n2)] is the exact difference for
    lengths below 2^63. *)
Definition int_max : Z := 2147483647.
Definition int_min : Z := (-2147483648).
Definition S_compare (n1 n2 : nat) : Z :=
  let d := (Z.of_nat n1 - Z.of_nat n2)%Z in
  if Z.ltb int_max d then int_max else if Z.ltb d int_min then int_min else d.
Definition s_compare_c (this : loc) (s : cptr) : MS Z :=
  size <- s_size this ;; osize <- t_length s ;;
  d <- s_data this ;;
  r <- t_compare d s (size `min` osize) ;;
  ret (if Z.eqb r 0 then S_compare size osize else r).
Definition s_compare (this str : loc) : MS Z :=
  size <- s_size this ;; osize <- s_size str ;;
  d <- s_data this ;; s <- s_data str ;;
  r <- t_compare d s (size `min` osize) ;;
  ret (if Z.eqb r 0 then S_compare size osize else r).

(** ** operator== (generic 299-304 and char 306-313), C string 314-324,
    operator< 345-362; the operator!= negate. *)
Definition s_eq (x y : loc) : MS bool := r <- s_compare x y ;; ret (Z.eqb r 0).
Definition s_eq_char (x y : loc) : MS bool :=
  a <- s_size x ;; b <- s_size y ;;
  if a =? b then
    d <- s_data x ;; s <- s_data y ;; r <- t_compare d s a ;; ret (Z.eqb r 0)
  else ret false.
Definition s_eq_c (x : loc) (s : cptr) : MS bool := r <- s_compare_c x s ;; ret (Z.eqb r 0).
Definition s_ne (x y : loc) : MS bool := b <- s_eq x y ;; ret (negb b).
Definition s_ne_c (x : loc) (s : cptr) : MS bool := b <- s_eq_c x s ;; ret (negb b).
Definition s_lt (x y : loc) : MS bool := r <- s_compare x y ;; ret (Z.ltb r 0).
Definition s_lt_c (x : loc) (s : cptr) : MS bool := r <- s_compare_c x s ;; ret (Z.ltb r 0).
Definition c_lt_s (s : cptr) (x : loc) : MS bool := r <- s_compare_c x s ;; ret (Z.ltb 0 r).

(** ** Client operations on named strings.  [cs] arguments are arrays outside
    all strings; a C string argument is [cs] followed by a null. *)
Inductive sop :=
  | SNew (h : nat)                         (* string h; *)
  | SMake (h : nat) (cs : list N) (n : nat)(* string h(p, n); *)
  | SCstr (h : nat) (cs : list N)          (* string h(p); *)
  | SCopy (h g : nat)                      (* string h(g); *)
  | SRange (h : nat) (cs : list N)         (* string h(first, last); *)
  | SPush (h : nat) (c : N)
  | SPushElem (h g i : nat)                (* h.push_back(g[i]); *)
  | SAppend (h : nat) (cs : list N) (n : nat)
  | SAppendStr (h g : nat)                 (* h += g, possibly g = h *)
  | SPop (h : nat)
  | SClear (h : nat)
  | SReserve (h n : nat)
  | SAssignC (h : nat) (cs : list N)
  | SAssign (h g : nat)
  | SPut (h i : nat) (c : N)               (* h[i] = c; *)
  | SDestroy (h : nat)
  | SSize (h : nat)
  | SEmpty (h : nat)
  | SGet (h i : nat)                       (* h[i], i <= size() *)
  | SFront (h : nat)
  | SBack (h : nat)
  | SIter (h : nat)
  | SFind (h : nat) (cs : list N) (pos n : nat)
  | SFindStr (h g pos : nat)
  | SCompare (h g : nat)
  | SCompareC (h : nat) (cs : list N)
  | SEq (h g : nat)
  | SLt (h g : nat).

Inductive sout :=
  | ROk | RNat (n : nat) | RBool (b : bool) | RCh (c : N) | RStr (cs : list N)
  | RPos (i : option nat) | RInt (z : Z).

Notation senv := (gmap nat loc).
Definition sobj_of (e : senv) (h : nat) : MS loc :=
  match e !! h with Some l => ret l | None => ub end.
Definition sdecl (e : senv) (h : nat) (mk : MS loc) : MS (senv * sout) :=
  match e !! h with
  | Some _ => ub
  | None => l <- mk ;; ret (<[h := l]> e, ROk)
  end.
Definition sact {A} (e : senv) (f : MS A) (o : A → sout) : MS (senv * sout) :=
  a <- f ;; ret (e, o a).
Definition cstring (cs : list N) : cptr := CExt (cs ++ [0%N]).

Definition s_run (e : senv) (op : sop) : MS (senv * sout) :=
  match op with
  | SNew h => sdecl e h s_new
  | SMake h cs n => sdecl e h (s_make (CExt cs) n)
  | SCstr h cs => sdecl e h (s_cstr (cstring cs))
  | SCopy h g => sdecl e h (lg <- sobj_of e g ;; s_copy lg)
  | SRange h cs => sdecl e h (s_range cs)
  | SPush h c => sact e (lh <- sobj_of e h ;; s_push_back lh (CVal c)) (λ _, ROk)
  | SPushElem h g i =>
      sact e (lh <- sobj_of e h ;; lg <- sobj_of e g ;; p <- s_p lg ;;
              match p with Some b => s_push_back lh (CElem b i) | None => ub end) (λ _, ROk)
  | SAppend h cs n => sact e (lh <- sobj_of e h ;; s_append lh (CExt cs) n) (λ _, ROk)
  | SAppendStr h g => sact e (lh <- sobj_of e h ;; lg <- sobj_of e g ;; s_append_str lh lg) (λ _, ROk)
  | SPop h => sact e (lh <- sobj_of e h ;; s_pop_back lh) (λ _, ROk)
  | SClear h => sact e (lh <- sobj_of e h ;; s_clear lh) (λ _, ROk)
  | SReserve h n => sact e (lh <- sobj_of e h ;; s_reserve lh n) (λ _, ROk)
  | SAssignC h cs => sact e (lh <- sobj_of e h ;; s_assign lh (cstring cs)) (λ _, ROk)
  | SAssign h g => sact e (lh <- sobj_of e h ;; lg <- sobj_of e g ;; s_assign_str lh lg) (λ _, ROk)
  | SPut h i c => sact e (lh <- sobj_of e h ;; s_put lh i c) (λ _, ROk)
  | SDestroy h => lh <- sobj_of e h ;; s_dtor lh ;;; ret (delete h e, ROk)
  | SSize h => sact e (lh <- sobj_of e h ;; s_size lh) RNat
  | SEmpty h => sact e (lh <- sobj_of e h ;; s_empty lh) RBool
  | SGet h i => sact e (lh <- sobj_of e h ;; s_get lh i) RCh
  | SFront h => sact e (lh <- sobj_of e h ;; s_front lh) RCh
  | SBack h => sact e (lh <- sobj_of e h ;; s_back lh) RCh
  | SIter h => sact e (lh <- sobj_of e h ;; s_iterate lh) RStr
  | SFind h cs pos n => sact e (lh <- sobj_of e h ;; s_find lh (CExt cs) pos n) RPos
  | SFindStr h g pos => sact e (lh <- sobj_of e h ;; lg <- sobj_of e g ;; s_find_str lh lg pos) RPos
  | SCompare h g => sact e (lh <- sobj_of e h ;; lg <- sobj_of e g ;; s_compare lh lg) (λ r, RInt (Z.sgn r))
  | SCompareC h cs => sact e (lh <- sobj_of e h ;; s_compare_c lh (cstring cs)) (λ r, RInt (Z.sgn r))
  | SEq h g => sact e (lh <- sobj_of e h ;; lg <- sobj_of e g ;; s_eq lh lg) RBool
  | SLt h g => sact e (lh <- sobj_of e h ;; lg <- sobj_of e g ;; s_lt lh lg) RBool
  end.
