(** Model of the input streams: basic_ios.hpp, istream.hpp, streambuf.hpp,
    sstream.hpp and fmemopen/fread/fclose of cstdio.hpp in /repo/include/cest,
    for [char].

    A stream object is a record (its members), passed and returned; the string
    it owns lives in the memory of the string model.  A character is an [N], and
    traits::to_int_type(c) is [Z.of_N c], so that it differs from eof() = -1.

    Not modelled: the put area (set by sstream.hpp 95-119, but nothing in /repo
    reads it), the formatting members of ios_base other than the flags (width,
    precision; nothing reads them), the tie (always null: nothing sets it),
    copying streams, and the catch clauses of get, unget and read (nothing
    inside their try blocks throws).  The sentry is that for libstdc++ (istream.hpp
    106-107), where __check_facet(nullptr) throws std::bad_cast.
    str() (sstream.hpp 158, 197) calls a member that does not exist.  A virtual
    function that no class in /repo overrides is called directly. *)
From Verif Require Export Mem ModelString.

Notation eof := (-1)%Z (only parsing).
(** iostate: ios_base.hpp 100-109 *)
Definition goodbit : Z := 0.
Definition badbit : Z := 1.
Definition eofbit : Z := 2.
Definition failbit : Z := 4.
(** openmode: ios_base.hpp 59-70 *)
Definition m_app : Z := 1.
Definition m_ate : Z := 2.
Definition m_in : Z := 8.
Definition m_out : Z := 16.

(** a pointer into a buffer: block and index *)
Definition bptr : Type := option (loc * nat).

Record stream := Stream {
  _M_streambuf : bool;          (** is rdbuf() non-null?  If so it is the own buffer *)
  _M_streambuf_state : Z;
  _M_exception : Z;
  _M_gcount : nat;
  _M_in_beg : bptr; _M_in_cur : bptr; _M_in_end : bptr;  (** streambuf.hpp 21-23 *)
  _M_mode : Z; _M_string : option loc;                   (** sstream.hpp 33-34 *)
}.
Definition set_state (s : stream) (x : Z) : stream :=
  Stream (_M_streambuf s) x (_M_exception s) (_M_gcount s) (_M_in_beg s) (_M_in_cur s) (_M_in_end s) (_M_mode s) (_M_string s).
Definition set_exception (s : stream) (x : Z) : stream :=
  Stream (_M_streambuf s) (_M_streambuf_state s) x (_M_gcount s) (_M_in_beg s) (_M_in_cur s) (_M_in_end s) (_M_mode s) (_M_string s).
Definition set_gcount (s : stream) (n : nat) : stream :=
  Stream (_M_streambuf s) (_M_streambuf_state s) (_M_exception s) n (_M_in_beg s) (_M_in_cur s) (_M_in_end s) (_M_mode s) (_M_string s).
(** setg: streambuf.hpp 111-117 *)
Definition setg (s : stream) (b c e : bptr) : stream :=
  Stream (_M_streambuf s) (_M_streambuf_state s) (_M_exception s) (_M_gcount s) b c e (_M_mode s) (_M_string s).

(** A member function takes the object to the object afterwards and a result or
    an ios failure; std::bad_alloc and undefined behaviour are those of memory. *)
Inductive sres (A : Type) := SRet (a : A) | SFailure.
Global Arguments SRet {_} _.
Global Arguments SFailure {_}.
Definition SM (A : Type) : Type := stream → MS (stream * sres A).
Definition sret {A} (a : A) : SM A := λ s, ret (s, SRet a).
Definition sbind {A B} (f : SM A) (k : A → SM B) : SM B := λ s,
  r <- f s ;; match r.2 with SRet a => k a r.1 | SFailure => ret (r.1, SFailure) end.
Notation "x <~ f ;; k" := (sbind f (λ x, k)) (at level 100, f at next level, right associativity).
Notation "f ~;; k" := (sbind f (λ _, k)) (at level 100, right associativity).
Definition sget : SM stream := λ s, ret (s, SRet s).
Definition smod (f : stream → stream) : SM unit := λ s, ret (f s, SRet tt).
Definition slift {A} (f : MS A) : SM A := λ s, a <- f ;; ret (s, SRet a).

(** ** basic_ios.hpp *)
(** rdstate: 80-82, exceptions(): 110-112, good, eof, fail: 98-108, operator
    bool and !: 73-78 *)
Definition rdstate : SM Z := s <~ sget ;; sret (_M_streambuf_state s).
Definition exceptions : SM Z := s <~ sget ;; sret (_M_exception s).
Definition is_good : SM bool := x <~ rdstate ;; sret (Z.eqb x 0).
Definition is_eof : SM bool := x <~ rdstate ;; sret (negb (Z.eqb (Z.land x eofbit) 0)).
Definition is_fail : SM bool := x <~ rdstate ;; sret (negb (Z.eqb (Z.land x (Z.lor badbit failbit)) 0)).
Definition op_bool : SM bool := b <~ is_fail ;; sret (negb b).
Definition op_not : SM bool := is_fail.
(** clear: 147-164 *)
Definition clear (st : Z) : SM unit :=
  s <~ sget ;;
  smod (λ s, set_state s (if _M_streambuf s then st else Z.lor st badbit)) ~;;
  e <~ exceptions ;; x <~ rdstate ;;
  λ s, ret (s, if Z.eqb (Z.land e x) 0 then SRet tt else SFailure).
(** setstate: 86-88 *)
Definition setstate (st : Z) : SM unit := x <~ rdstate ;; clear (Z.lor x st).
(** exceptions(mask): 114-119 *)
Definition set_exceptions (e : Z) : SM unit :=
  smod (λ s, set_exception s e) ~;; s <~ sget ;; clear (_M_streambuf_state s).
(** init: 166-182, with the stream's own buffer or without one *)
Definition ios_init (has_buf : bool) (s : stream) : stream :=
  Stream has_buf (if has_buf then goodbit else badbit) goodbit (_M_gcount s)
    (_M_in_beg s) (_M_in_cur s) (_M_in_end s) (_M_mode s) (_M_string s).

(** ** streambuf.hpp *)
(** gptr() < egptr(), eback() < gptr(), egptr() - gptr() *)
Definition p_lt (p q : bptr) : MS bool :=
  match p, q with
  | Some (l, i), Some (l', j) => if decide (l = l') then ret (i <? j) else ub
  | None, None => ret false
  | _, _ => ub
  end.
Definition p_diff (q p : bptr) : MS nat :=
  match q, p with
  | Some (l', j), Some (l, i) => if decide (l = l' ∧ i ≤ j) then ret (j - i) else ub
  | None, None => ret 0
  | _, _ => ub
  end.
(** the character at p *)
Definition p_get (p : bptr) : MS N := match p with Some (l, i) => b_get (Some l) i | None => ub end.
(** gbump, __safe_gbump: 108-109, 148-149 *)
Definition gbump (n : nat) : SM unit := λ s,
  match _M_in_cur s with
  | Some (l, i) => ret (setg s (_M_in_beg s) (Some (l, i + n)) (_M_in_end s), SRet tt)
  | None => ub
  end.
Definition gback : SM unit := λ s,
  match _M_in_cur s with
  | Some (l, S i) => ret (setg s (_M_in_beg s) (Some (l, i)) (_M_in_end s), SRet tt)
  | _ => ub
  end.
(** underflow: 130-132, uflow: 134-146, pbackfail: 184-186 *)
Definition underflow : SM Z := sret eof.
Definition uflow : SM Z :=
  x <~ underflow ;;
  if Z.eqb x eof then sret eof else
  s <~ sget ;; c <~ slift (p_get (_M_in_cur s)) ;; gbump 1 ~;; sret (Z.of_N c).
Definition pbackfail : SM Z := sret eof.
(** sbumpc: 47-59 *)
Definition sbumpc : SM Z :=
  s <~ sget ;; b <~ slift (p_lt (_M_in_cur s) (_M_in_end s)) ;;
  if b : bool then c <~ slift (p_get (_M_in_cur s)) ;; gbump 1 ~;; sret (Z.of_N c) else uflow.
(** sgetc: 61-70, snextc: 37-45 *)
Definition sgetc : SM Z :=
  s <~ sget ;; b <~ slift (p_lt (_M_in_cur s) (_M_in_end s)) ;;
  if b : bool then c <~ slift (p_get (_M_in_cur s)) ;; sret (Z.of_N c) else underflow.
Definition snextc : SM Z :=
  x <~ sbumpc ;; if negb (Z.eqb x eof) then sgetc else sret eof.
(** pubsync: 34-35, sync: 126-127 *)
Definition pubsync : SM Z := sret 0%Z.
(** sungetc: 76-88 *)
Definition sungetc : SM Z :=
  s <~ sget ;; b <~ slift (p_lt (_M_in_beg s) (_M_in_cur s)) ;;
  if b : bool then gback ~;; s <~ sget ;; c <~ slift (p_get (_M_in_cur s)) ;; sret (Z.of_N c) else pbackfail.
(** xsgetn: 152-182, sgetn: 72-74.  The characters delivered; the loop counts [ret] (here
    [done]) up to [n].  If none is left the buffer gives eof. *)
Fixpoint xsgetn_loop (fuel : nat) (n done : nat) (acc : list N) : SM (list N) :=
  match fuel with
  | O => λ _, diverge
  | S fuel =>
      if done <? n then
        s <~ sget ;; buf_len <~ slift (p_diff (_M_in_end s) (_M_in_cur s)) ;;
        got <~
        (if buf_len =? 0 then sret [] else
         let len := Nat.min buf_len (n - done) in
         cs <~ slift (match _M_in_cur s with Some (l, i) => chars (CBlk l i) | None => ub end) ;;
         (if decide (len ≤ length cs) then sret tt else λ _, ub) ~;;
         gbump len ~;; sret (take len cs)) ;;
        let done := done + length got in
        if done <? n then
          c <~ uflow ;;
          if negb (Z.eqb c eof) then xsgetn_loop fuel n (done + 1) (acc ++ got ++ [Z.to_N c]) else sret (acc ++ got)
        else xsgetn_loop fuel n done (acc ++ got)
      else sret acc
  end.
Definition sgetn (n : nat) : SM (list N) := xsgetn_loop (n + 1) n 0 [].

(** ** istream.hpp *)
(** sentry( *this, true), as get, unget and read call it: 89-148; the answer is
    its operator bool *)
Definition sentry : SM bool :=
  g <~ is_good ;;
  if g : bool then sret true else setstate failbit ~;; sret false.
(** this->rdbuf()->..., undefined without a buffer *)
Definition deref_rdbuf : SM unit := λ s, if _M_streambuf s then ret (s, SRet tt) else ub.
(** flags(): ios_base.hpp 191-193.  init sets skipws | dec (184), and nothing
    else sets them *)
Definition skipws : Z := 4096.
Definition f_dec : Z := 2.
Definition _M_flags (_ : stream) : Z := Z.lor skipws f_dec.
(** sentry( *this, noskip): 89-148.  _M_ctype is null from the constructors on
    (basic_ios.hpp 121-124, 138-140), so __check_facet throws after sgetc and the
    loop (120-123) is not reached.  The exception is caught (140-141), and thrown
    again by _M_setstate (basic_ios.hpp 90-96) if bad is in the mask. *)
Inductive sentry_result := SenRet (b : bool) | SenFailure | SenBadCast.
Definition as_sentry (r : sres bool) : sentry_result := match r with SRet b => SenRet b | SFailure => SenFailure end.
Definition full_sentry (noskip : bool) : stream → MS (stream * sentry_result) := λ s,
  if Z.eqb (_M_streambuf_state s) 0 then
    if negb noskip && negb (Z.eqb (Z.land (_M_flags s) skipws) 0) then
      r <- (deref_rdbuf ~;; sgetc) s ;;
      let s := set_state r.1 (Z.lor (_M_streambuf_state r.1) badbit) in
      if negb (Z.eqb (Z.land (_M_exception s) badbit) 0) then ret (s, SenBadCast) else
      r <- (setstate failbit ~;; sret false) s ;; ret (r.1, as_sentry r.2)
    else ret (s, SenRet true)
  else r <- (setstate failbit ~;; sret false) s ;; ret (r.1, as_sentry r.2).
(** get: 151-188.  [c0] is what the argument holds before; the answer is what it
    holds afterwards, also if setstate throws. *)
Definition get_body (c0 : N) : SM (N * Z) :=
  smod (λ s, set_gcount s 0) ~;;
  ok <~ sentry ;;
  r <~ (if ok : bool then
          deref_rdbuf ~;; cb <~ sbumpc ;;
          if negb (Z.eqb cb eof) then smod (λ s, set_gcount s 1) ~;; sret (Z.to_N cb, goodbit)
          else sret (c0, eofbit)
        else sret (c0, goodbit)) ;;
  s <~ sget ;;
  sret (r.1, if _M_gcount s =? 0 then Z.lor r.2 failbit else r.2).
Definition get (c0 : N) : stream → MS (stream * (N * sres unit)) := λ s,
  r <- get_body c0 s ;;
  match r.2 with
  | SRet (c, err) =>
      r' <- (if Z.eqb err 0 then sret tt else setstate err) r.1 ;; ret (r'.1, (c, r'.2))
  | SFailure => ret (r.1, (c0, SFailure))
  end.
(** unget: 191-226 *)
Definition unget : SM unit :=
  smod (λ s, set_gcount s 0) ~;;
  x <~ rdstate ;; clear (Z.land x (Z.lnot eofbit)) ~;;
  ok <~ sentry ;;
  if ok : bool then
    s <~ sget ;;
    c <~ (if _M_streambuf s then sungetc else sret eof) ;;
    if Z.eqb c eof then setstate badbit else sret tt
  else sret tt.
(** read: 229-258.  The answer is what was stored at the start of the array,
    also if setstate throws. *)
Definition read (n : nat) : stream → MS (stream * (list N * sres unit)) := λ s,
  r <- (smod (λ s, set_gcount s 0) ~;; sentry) s ;;
  match r.2 with
  | SRet true =>
      r' <- (deref_rdbuf ~;; sgetn n) r.1 ;;
      match r'.2 with
      | SRet cs =>
          let s' := set_gcount r'.1 (length cs) in
          r'' <- (if negb (length cs =? n) then setstate (Z.lor eofbit failbit) else sret tt) s' ;;
          ret (r''.1, (cs, r''.2))
      | SFailure => ret (r'.1, ([], SFailure))
      end
  | SRet false => ret (r.1, ([], SRet tt))
  | SFailure => ret (r.1, ([], SFailure))
  end.
(** flush: ostream.hpp 145-176 *)
Definition flush : SM unit :=
  s <~ sget ;;
  r <~ (if _M_streambuf s then pubsync else sret 0%Z) ;;
  if Z.eqb r (-1) then setstate badbit else sret tt.

(** ** sstream.hpp *)
(** the members before any constructor body: streambuf.hpp 91-95, istream.hpp
    60-62 *)
Definition fresh (mode : Z) (str : option loc) : stream :=
  Stream false badbit goodbit 0 None None None mode str.
(** _M_sync(data(), 0, o): 75-103, the get area; __base == _M_string.data() *)
Definition sync : stream → MS stream := λ s,
  match _M_string s with
  | None => ub
  | Some str =>
      d <- s_data str ;;
      match d with
      | CExt _ => ub
      | CBlk base off =>
          size <- s_size str ;;
          let testin := negb (Z.eqb (Z.land (_M_mode s) m_in) 0) in
          let testout := negb (Z.eqb (Z.land (_M_mode s) m_out) 0) in
          let endg := Some (base, off + size) in
          ret (if testin then setg s (Some (base, off)) (Some (base, off)) endg
               else if testout then setg s endg endg endg else s)
      end
  end.
(** basic_stringbuf(str, mode) and the streams over it: 47-52, 62-69, 145-149
    (mode | in), 191-195; [str] is the client's string *)
Definition open_str (mode : Z) (str : loc) : MS stream :=
  d <- s_data str ;; n <- s_size str ;;
  own <- s_make d n ;;
  s <- sync (fresh mode (Some own)) ;;
  ret (ios_init true s).
(** basic_stringbuf(mode) and the default constructors: 42-45, 140-142, 187-189 *)
Definition open_empty (mode : Z) : MS stream :=
  own <- s_new ;; ret (ios_init true (fresh mode (Some own))).
(** basic_istream(nullptr): istream.hpp 31-34 *)
Definition open_null : stream := ios_init false (fresh 0 None).
(** str(s): 54-58, 159, 198 *)
Definition set_str (str : loc) : stream → MS stream := λ s,
  match _M_string s with
  | Some own => s_assign_str own str ;;; sync s
  | None => ub
  end.
(** destructors *)
Definition close (s : stream) : MS unit :=
  match _M_string s with Some own => s_dtor own | None => ret tt end.

(** ** cstdio.hpp *)
(** fmemopen: 69-72.  One cell stands for the storage of the stream object. *)
Definition fmemopen (buf : cptr) (size : nat) : MS (stream * loc) :=
  l <- alloc (SHdr 0 0 None) ;;
  s <- on_throw
         (tmp <- s_make buf size ;;
          s <- on_throw (open_str (Z.lor m_out m_in) tmp) (s_dtor tmp) ;;
          s_dtor tmp ;;; ret s)
         (free l) ;;
  ret (s, l).
(** fread: 79-85; a failed assertion is undefined here *)
Definition fread (size count : nat) : stream → MS (stream * (list N * sres nat)) := λ s,
  if size =? 1 then
    r <- read (size * count) s ;;
    ret (r.1, (r.2.1, match r.2.2 with SRet _ => SRet (_M_gcount r.1 / size) | SFailure => SFailure end))
  else ub.
(** fclose: 87-91 *)
Definition fclose (s : stream) (l : loc) : MS unit := close s ;;; free l.

(** ** Client programs: [h] names a stream variable or a FILE* variable.  An ios
    failure is caught by the client and reported. *)
Inductive gop :=
  | GOpenI (h : nat) (cs : list N) (mode : Z) (** istringstream h(string(cs), mode); *)
  | GOpenS (h : nat) (cs : list N) (mode : Z) (** stringstream h(string(cs), mode); *)
  | GNewI (h : nat)                (** istringstream h; *)
  | GNewS (h : nat)                (** stringstream h; *)
  | GNull (h : nat)                (** istream h(nullptr); *)
  | GFile (h : nat) (cs : list N)  (** FILE* h = fmemopen(cs, n, "r"); *)
  | GGet (h : nat) (c0 : N)        (** char c = c0; h.get(c);  -> c *)
  | GUnget (h : nat)               (** h.unget(); *)
  | GRead (h : nat) (n : nat)      (** h.read(a, n);  -> what was stored in a *)
  | GGcount (h : nat)              (** h.gcount() *)
  | GRdstate (h : nat)             (** h.rdstate() *)
  | GGood (h : nat) | GEof (h : nat) | GFail (h : nat) | GBool (h : nat) | GNot (h : nat)
  | GClear (h : nat) (st : Z)      (** h.clear(st); *)
  | GSetstate (h : nat) (st : Z)   (** h.setstate(st); *)
  | GMask (h : nat) (e : Z)        (** h.exceptions(e); *)
  | GGetMask (h : nat)             (** h.exceptions() *)
  | GStr (h : nat) (cs : list N)   (** h.str(string(cs)); *)
  | GPeek (h : nat)                (** h.rdbuf()->sgetc() *)
  | GBump (h : nat)                (** h.rdbuf()->sbumpc() *)
  | GNext (h : nat)                (** h.rdbuf()->snextc() *)
  | GBack (h : nat)                (** h.rdbuf()->sungetc() *)
  | GGetn (h : nat) (n : nat)      (** h.rdbuf()->sgetn(a, n);  -> what was stored in a; its length is the result *)
  | GSync (h : nat)                (** h.rdbuf()->pubsync() *)
  | GRdbuf (h : nat)               (** h.rdbuf() != nullptr *)
  | GFlush (h : nat)               (** h.flush(); for a stringstream *)
  | GSentry (h : nat) (noskip : bool) (** istream::sentry k(h, noskip); bool(k) *)
  | GFlags (h : nat)               (** h.flags() *)
  | GCin (h : nat)                 (** istream& h = cin; the first use of cin *)
  | GFread (h : nat) (size n : nat) (** fread(a, size, n, h)  -> stored, result *)
  | GEnd (h : nat)                 (** end of the stream's lifetime *)
  | GFclose (h : nat).             (** fclose(h); *)
Inductive gout :=
  | GoUnit (ok : bool)                         (** [ok]: no ios failure *)
  | GoBool (b : bool) | GoNum (n : Z)
  | GoChar (c : N) (ok : bool)
  | GoChars (cs : list N) (ok : bool)
  | GoRead (cs : list N) (r : option nat)
  | GoBadCast.                                 (** std::bad_cast, caught by the client *)
Definition sentry_out (r : sentry_result) : gout :=
  match r with SenRet b => GoBool b | SenFailure => GoUnit false | SenBadCast => GoBadCast end.
Definition no_failure {A} (r : sres A) : bool := match r with SRet _ => true | SFailure => false end.

(** a stream, and the storage of its object if it is a FILE *)
Definition genv : Type := gmap nat (stream * option loc).

(** with a temporary string holding [cs] *)
Definition with_string {A} (cs : list N) (f : loc → MS A) : MS A :=
  tmp <- s_make (CExt cs) (length cs) ;;
  a <- on_throw (f tmp) (s_dtor tmp) ;; s_dtor tmp ;;; ret a.
(** cin: iostream.hpp 14, 20, a stream over a buffer of its own that holds the
    characters of "cin"; opened for both (sstream.hpp 47-49) *)
Definition open_cin : MS stream := with_string [99; 105; 110]%N (open_str (Z.lor m_in m_out)).
Definition g_decl (e : genv) (h : nat) (f : MS (stream * option loc)) : MS (genv * gout) :=
  match e !! h with Some _ => ub | None => s <- f ;; ret (<[h := s]> e, GoUnit true) end.
Definition g_call {A} (e : genv) (h : nat) (f : stream → MS (stream * A)) (o : stream → A → gout) : MS (genv * gout) :=
  match e !! h with
  | Some (s, l) => r <- f s ;; ret (<[h := (r.1, l)]> e, o r.1 r.2)
  | None => ub
  end.
Definition g_read {A} (e : genv) (h : nat) (f : SM A) (o : A → gout) : MS (genv * gout) :=
  match e !! h with
  | Some (s, l) => r <- f s ;; match r.2 with SRet a => ret (<[h := (r.1, l)]> e, o a) | SFailure => ub end
  | None => ub
  end.
(** a call through rdbuf() *)
Definition g_buf {A} (e : genv) (h : nat) (f : SM A) (o : A → gout) : MS (genv * gout) := g_read e h (deref_rdbuf ~;; f) o.
Definition g_run (e : genv) (op : gop) : MS (genv * gout) :=
  match op with
  | GOpenI h cs mode => g_decl e h (s <- with_string cs (open_str (Z.lor mode m_in)) ;; ret (s, None))
  | GOpenS h cs mode => g_decl e h (s <- with_string cs (open_str mode) ;; ret (s, None))
  | GNewI h => g_decl e h (s <- open_empty m_in ;; ret (s, None))
  | GNewS h => g_decl e h (s <- open_empty (Z.lor m_out m_in) ;; ret (s, None))
  | GNull h => g_decl e h (ret (open_null, None))
  | GFile h cs => g_decl e h (s <- fmemopen (CExt cs) (length cs) ;; ret (s.1, Some s.2))
  | GGet h c0 => g_call e h (get c0) (λ _ r, GoChar r.1 (no_failure r.2))
  | GUnget h => g_call e h unget (λ _ r, GoUnit (no_failure r))
  | GRead h n => g_call e h (read n) (λ _ r, GoChars r.1 (no_failure r.2))
  | GGcount h => g_read e h sget (λ s, GoNum (Z.of_nat (_M_gcount s)))
  | GRdstate h => g_read e h rdstate GoNum
  | GGood h => g_read e h is_good GoBool
  | GEof h => g_read e h is_eof GoBool
  | GFail h => g_read e h is_fail GoBool
  | GBool h => g_read e h op_bool GoBool
  | GNot h => g_read e h op_not GoBool
  | GClear h st => g_call e h (clear st) (λ _ r, GoUnit (no_failure r))
  | GSetstate h st => g_call e h (setstate st) (λ _ r, GoUnit (no_failure r))
  | GMask h m => g_call e h (set_exceptions m) (λ _ r, GoUnit (no_failure r))
  | GGetMask h => g_read e h exceptions GoNum
  | GStr h cs => g_call e h (λ s, s' <- with_string cs (λ l, set_str l s) ;; ret (s', tt)) (λ _ _, GoUnit true)
  | GPeek h => g_buf e h sgetc GoNum
  | GBump h => g_buf e h sbumpc GoNum
  | GNext h => g_buf e h snextc GoNum
  | GBack h => g_buf e h sungetc GoNum
  | GGetn h n => g_buf e h (sgetn n) (λ cs, GoChars cs true)
  | GSync h => g_buf e h pubsync GoNum
  | GRdbuf h => g_read e h sget (λ s, GoBool (_M_streambuf s))
  | GFlush h => g_call e h flush (λ _ r, GoUnit (no_failure r))
  | GSentry h noskip => g_call e h (full_sentry noskip) (λ _ r, sentry_out r)
  | GFlags h => g_read e h sget (λ s, GoNum (_M_flags s))
  | GCin h => g_decl e h (s <- open_cin ;; ret (s, None))
  | GFread h size n =>
      g_call e h (fread size n) (λ _ r, GoRead r.1 (match r.2 with SRet k => Some k | SFailure => None end))
  | GEnd h =>
      match e !! h with Some (s, None) => close s ;;; ret (delete h e, GoUnit true) | _ => ub end
  | GFclose h =>
      match e !! h with Some (s, Some l) => fclose s l ;;; ret (delete h e, GoUnit true) | _ => ub end
  end.
