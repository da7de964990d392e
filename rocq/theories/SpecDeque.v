(** What deques and queues are supposed to be: sequences. *)
From Verif Require Import Hist ModelDeque.

Section spec.
  Context {V : Type}.
  Notation st := (gmap nat (list V)).

  Definition dfresh {X} (s : gmap nat X) (h : nat) (x : X) : option (gmap nat X * dout V) :=
    match s !! h with Some _ => None | None => Some (<[h := x]> s, DoUnit) end.

  (** Popping from an empty deque does nothing.  Assigning a deque to itself is
      left out. *)
  Definition dseq (s : st) (op : dop V) : option (st * dout V) :=
    match op with
    | DNew h => dfresh s h []
    | DInit h vs => dfresh s h vs
    | DCopy h g => given ys := s !! g ;; dfresh s h ys
    | DAssign h g =>
        if decide (h = g) then None else
        given xs := s !! h ;; given ys := s !! g ;; Some (<[h := ys]> s, DoUnit)
    | DPushFront h v => given xs := s !! h ;; Some (<[h := v :: xs]> s, DoUnit)
    | DPushBack h v => given xs := s !! h ;; Some (<[h := xs ++ [v]]> s, DoUnit)
    | DPushFrontOwn h i => given xs := s !! h ;; given v := xs !! i ;; Some (<[h := v :: xs]> s, DoUnit)
    | DPushBackOwn h i => given xs := s !! h ;; given v := xs !! i ;; Some (<[h := xs ++ [v]]> s, DoUnit)
    | DPopFront h => given xs := s !! h ;; Some (<[h := tail xs]> s, DoUnit)
    | DPopBack h => given xs := s !! h ;; Some (<[h := removelast xs]> s, DoUnit)
    | DClear h => given xs := s !! h ;; Some (<[h := []]> s, DoUnit)
    | DDestroy h => given xs := s !! h ;; Some (delete h s, DoUnit)
    | DSize h => given xs := s !! h ;; Some (s, DoNat (length xs))
    | DEmpty h => given xs := s !! h ;; Some (s, DoBool (match xs with [] => true | _ => false end))
    | DAt h i => given xs := s !! h ;; given v := xs !! i ;; Some (s, DoElem v)
    | DSet h i v => given xs := s !! h ;; given _u := xs !! i ;; Some (<[h := <[i := v]> xs]> s, DoUnit)
    | DFront h => given xs := s !! h ;; given v := head xs ;; Some (s, DoElem v)
    | DBack h => given xs := s !! h ;; given v := last xs ;; Some (s, DoElem v)
    | DIterate h => given xs := s !! h ;; Some (s, DoList xs)
    end.
  (** the operations that neither shrink a deque at the back nor empty it *)
  Definition d_safe (op : dop V) : Prop :=
    match op with
    | DPopBack _ | DClear _ | DAssign _ _ | DIterate _ => False
    | _ => True
    end.

  (** ** Queues *)
  Definition qseq (s : st) (op : qop V) : option (st * dout V) :=
    match op with
    | QNew h => dfresh s h []
    | QCopy h g => given ys := s !! g ;; dfresh s h ys
    | QPush h v => given xs := s !! h ;; Some (<[h := xs ++ [v]]> s, DoUnit)
    | QPop h => given xs := s !! h ;; Some (<[h := tail xs]> s, DoUnit)
    | QFront h => given xs := s !! h ;; given v := head xs ;; Some (s, DoElem v)
    | QBack h => given xs := s !! h ;; given v := last xs ;; Some (s, DoElem v)
    | QSize h => given xs := s !! h ;; Some (s, DoNat (length xs))
    | QEmpty h => given xs := s !! h ;; Some (s, DoBool (match xs with [] => true | _ => false end))
    | QDestroy h => given xs := s !! h ;; Some (delete h s, DoUnit)
    end.
End spec.

(** ** Where the elements are.  A deque's storage is a row of chunks of [K] slots;
    the elements are in consecutive slots, the first one [dq_lo] slots from the
    beginning of the first chunk.  This is needed to say which histories the
    header handles. *)
Record dstate (V : Type) := DState { dq_els : list V; dq_lo : nat; dq_chunks : nat }.
Global Arguments DState {_} _ _ _.
Global Arguments dq_els {_} _.
Global Arguments dq_lo {_} _.
Global Arguments dq_chunks {_} _.

Section pos.
  Context {V : Type} (K : nat).
  Notation st := (gmap nat (dstate V)).

  (** the slot after the last element *)
  Definition dq_end (d : dstate V) : nat := dq_lo d + length (dq_els d).
  (** the elements end exactly where a chunk ends *)
  Definition at_boundary (d : dstate V) : Prop := dq_end d mod K = 0.
  Definition dq_fresh : dstate V := DState [] (K / 2) 1.
  (** [None]: the elements end at a chunk's end and there is another chunk after
      it; the header goes wrong in this case (see C37). *)
  Definition dq_push_back (v : V) (d : dstate V) : option (dstate V) :=
    if decide (dq_end d = dq_chunks d * K)
    then Some (DState (dq_els d ++ [v]) (dq_lo d) (dq_chunks d + 1))
    else if decide (at_boundary d) then None
    else Some (DState (dq_els d ++ [v]) (dq_lo d) (dq_chunks d)).
  Definition dq_push_front (v : V) (d : dstate V) : dstate V :=
    if decide (dq_lo d = 0) then DState (v :: dq_els d) (K - 1) (dq_chunks d + 1)
    else DState (v :: dq_els d) (dq_lo d - 1) (dq_chunks d).
  Definition dq_pop_front (d : dstate V) : dstate V :=
    match dq_els d with [] => d | _ :: xs => DState xs (dq_lo d + 1) (dq_chunks d) end.
  Definition dq_pop_back (d : dstate V) : dstate V :=
    DState (removelast (dq_els d)) (dq_lo d) (dq_chunks d).
  Definition dq_clear (d : dstate V) : dstate V :=
    DState [] (dq_chunks d / 2 * K + K / 2) (dq_chunks d).
  Definition dq_set (i : nat) (v : V) (d : dstate V) : dstate V :=
    DState (<[i := v]> (dq_els d)) (dq_lo d) (dq_chunks d).
  Fixpoint dq_append (vs : list V) (d : dstate V) : option (dstate V) :=
    match vs with [] => Some d | v :: vs => given d' := dq_push_back v d ;; dq_append vs d' end.

  (** Sequences with positions: [dseq], undefined where the header fails *)
  Definition dpos (s : st) (op : dop V) : option (st * dout V) :=
    match op with
    | DNew h => dfresh s h dq_fresh
    | DInit h vs => given d := dq_append vs dq_fresh ;; dfresh s h d
    | DCopy h g => given e := s !! g ;; given d := dq_append (dq_els e) dq_fresh ;; dfresh s h d
    | DAssign h g =>
        if decide (h = g) then None else
        given d := s !! h ;; given e := s !! g ;;
        given d' := dq_append (dq_els e) (dq_clear d) ;; Some (<[h := d']> s, DoUnit)
    | DPushFront h v => given d := s !! h ;; Some (<[h := dq_push_front v d]> s, DoUnit)
    | DPushBack h v => given d := s !! h ;; given d' := dq_push_back v d ;; Some (<[h := d']> s, DoUnit)
    | DPushFrontOwn h i =>
        given d := s !! h ;; given v := dq_els d !! i ;; Some (<[h := dq_push_front v d]> s, DoUnit)
    | DPushBackOwn h i =>
        given d := s !! h ;; given v := dq_els d !! i ;;
        given d' := dq_push_back v d ;; Some (<[h := d']> s, DoUnit)
    | DPopFront h => given d := s !! h ;; Some (<[h := dq_pop_front d]> s, DoUnit)
    | DPopBack h => given d := s !! h ;; Some (<[h := dq_pop_back d]> s, DoUnit)
    | DClear h => given d := s !! h ;; Some (<[h := dq_clear d]> s, DoUnit)
    | DDestroy h => given d := s !! h ;; Some (delete h s, DoUnit)
    | DSize h => given d := s !! h ;; Some (s, DoNat (length (dq_els d)))
    | DEmpty h => given d := s !! h ;; Some (s, DoBool (match dq_els d with [] => true | _ => false end))
    | DAt h i => given d := s !! h ;; given v := dq_els d !! i ;; Some (s, DoElem v)
    | DSet h i v => given d := s !! h ;; given _u := dq_els d !! i ;; Some (<[h := dq_set i v d]> s, DoUnit)
    | DFront h => given d := s !! h ;; given v := head (dq_els d) ;; Some (s, DoElem v)
    | DBack h => given d := s !! h ;; given v := last (dq_els d) ;; Some (s, DoElem v)
    | DIterate h => given d := s !! h ;; if decide (at_boundary d) then None else Some (s, DoList (dq_els d))
    end.

  (** ** Deques in memory *)
  (** what is in slot [p]: a live element or nothing *)
  Definition slot (d : dstate V) (p : nat) : option V :=
    if decide (p < dq_lo d) then None else dq_els d !! (p - dq_lo d).
  Definition chunk_at (d : dstate V) (j : nat) : list (option V) := slot d <$> seq (j * K) K.
  (** the members: m_front, m_back, m_front_chunk, m_back_chunk, m_size *)
  Definition hdr_of (d : dstate V) (v : loc) : dcell V :=
    DHdr (dq_lo d mod K) ((dq_end d + (K - 1)) mod K) (dq_lo d / K)
      (Z.of_nat ((dq_end d + (K - 1)) / K) - 1) (length (dq_els d)) (Some v).
  (** [v]: the storage of m_chunks, with room for [cap] pointers, holding [cs] *)
  Definition d_holds (m : mem (dcell V)) (this v : loc) (cap : nat) (cs : list loc) (d : dstate V) : Prop :=
    NoDup (this :: v :: cs) ∧ length cs = dq_chunks d ∧ dq_end d ≤ dq_chunks d * K ∧
    blk m !! this = Some (hdr_of d v) ∧ blk m !! v = Some (DVec cap cs) ∧
    ∀ j c, cs !! j = Some c → blk m !! c = Some (DArr (chunk_at d j)).
  Definition d_cells (this v : loc) (cs : list loc) : list loc := this :: v :: cs.
  (** an iterator at the element (or free slot) [p] slots from the beginning *)
  Definition iter_at (v : loc) (cs : list loc) (p : nat) (it : diter) : Prop :=
    ∃ c, cs !! (p / K) = Some c ∧ it = DIter (c, p mod K) v (Z.of_nat (p / K)).
End pos.

(** A client that pushes to a queue and pops, [n] times. *)
Definition churn {V} (K : nat) (x : V) (n : nat) : M (dcell V) loc :=
  q <- q_new K ;; for_up 0 n (λ _, q_push K q (DVal x) ;;; q_pop K q) ;;; ret q.

(** What push_back and push_front may do when the allocator may fail: get the
    deque from [d] to [post], or throw bad_alloc, leaving everything as it was
    except that one unused chunk may be left allocated. *)
Definition push_outcome {V} (K : nat) (m : mem (dcell V)) (this v : loc) (cs : list loc) (d post : dstate V) (r : res (dcell V) unit) : Prop :=
  match r with
  | Ok _ m' => may_fail_alloc m' ∧ ∃ v' cap' cs', d_holds K m' this v' cap' cs' post ∧
      replaces (d_cells this v cs) m (d_cells this v' cs') m'
  | Exn e m' => e = BadAlloc ∧ may_fail_alloc m' ∧ ∃ cap zs, d_holds K m' this v cap cs d ∧
      length zs ≤ 1 ∧ (∀ q, q ∈ zs → blk m !! q = None ∧ blk m' !! q = Some (DArr (replicate K None))) ∧
      replaces (d_cells this v cs) m (d_cells this v cs ++ zs) m'
  | UB | Div => False
  end.

(** A client that pushes [x] ([Some x]) and pops ([None]). *)
Fixpoint q_steps {V} (K : nat) (q : loc) (ops : list (option V)) : M (dcell V) unit :=
  match ops with
  | [] => ret tt
  | Some x :: ops => q_push K q (DVal x) ;;; q_steps K q ops
  | None :: ops => q_pop K q ;;; q_steps K q ops
  end.
Definition q_drive {V} (K : nat) (ops : list (option V)) : M (dcell V) loc :=
  q <- q_new K ;; q_steps K q ops ;;; ret q.
Definition pushes {V} (ops : list (option V)) : nat := length (omap id ops).
(** what is then in the queue *)
Fixpoint q_contents {V} (xs : list V) (ops : list (option V)) : list V :=
  match ops with
  | [] => xs
  | Some x :: ops => q_contents (xs ++ [x]) ops
  | None :: ops => q_contents (tail xs) ops
  end.

(** A deque whose members say [d'] while its chunks hold what [d] says: after an
    element's copy threw in a push. *)
Definition d_broken {V} (K : nat) (m : mem (dcell V)) (this v : loc) (cap : nat) (cs : list loc) (d d' : dstate V) : Prop :=
  NoDup (this :: v :: cs) ∧ length cs = dq_chunks d' ∧ dq_end d' ≤ dq_chunks d' * K ∧
  blk m !! this = Some (hdr_of K d' v) ∧ blk m !! v = Some (DVec cap cs) ∧
  ∀ j c, cs !! j = Some c → blk m !! c = Some (DArr (chunk_at K d j)).
(** The table of chunks after a push: its block [v] and capacity [cap] stay,
    unless a chunk is added to a full table; then it moves and its capacity
    doubles. *)
Definition table_after (v : loc) (cap : nat) (cs : list loc) (v' : loc) (cap' : nat) (cs' : list loc) : Prop :=
  if decide (length cs' ≠ length cs ∧ length cs = cap) then cap' = 2 * cap else v' = v ∧ cap' = cap.
(** What a push may do when allocations may fail and copies may throw; [d0]:
    where the elements are when the copy throws. *)
Definition push_outcome_any {V} (K : nat) (m : mem (dcell V)) (this v : loc) (cap : nat) (cs : list loc) (d d0 post : dstate V) (r : res (dcell V) unit) : Prop :=
  match r with
  | Ok _ m' => ∃ v' cap' cs', d_holds K m' this v' cap' cs' post ∧ table_after v cap cs v' cap' cs' ∧
      replaces (d_cells this v cs) m (d_cells this v' cs') m'
  | Exn BadAlloc m' => ∃ zs, d_holds K m' this v cap cs d ∧
      length zs ≤ 1 ∧ (∀ q, q ∈ zs → blk m !! q = None ∧ blk m' !! q = Some (DArr (replicate K None))) ∧
      replaces (d_cells this v cs) m (d_cells this v cs ++ zs) m'
  | Exn CopyThrow m' => ∃ v' cap' cs', d_broken K m' this v' cap' cs' d0 post ∧ table_after v cap cs v' cap' cs' ∧
      replaces (d_cells this v cs) m (d_cells this v' cs') m'
  | _ => False
  end.
