(** cest::deque and cest::queue: property theorems C37-C42, C72-C74, C119 and the
    corresponding part of C23 (see /verif/properties.jsonl).  [K] is the chunk
    size; deque.hpp has 1024 ([CHUNK_SIZE]). *)
From Verif Require Import Hist HistProofs ModelDeque SpecDeque DequeHist DequeIter DequeProps DequeExact DequeThrow.

Example chunk_size_ok : 2 ≤ CHUNK_SIZE.
Proof. unfold CHUNK_SIZE. lia. Qed.

(** ** C37: refuted.  After 513 push_backs, a pop_back and a push_back the last
    element is not where operator[] looks for it. *)
Theorem C37_deque_refuted :
  ¬ refines_from (dseq (V:=nat)) (d_run CHUNK_SIZE) ∅ ∅ (λ s, s = ∅) (λ _, True) [] [].
Proof. exact (goes_wrong_refutes _ _ _ _ _ _ _ _ _ push_pop_push). Qed.
Print Assumptions C37_deque_refuted.
(** When exactly: the elements end at the end of a chunk that is not the last
    one.  Then push_back overwrites an element (a construction over a live
    element is undefined in the model), goes below the first chunk, or puts the
    new element where operator[] does not find it. *)
Theorem C37_push_back_refuted {V} K (m : mem (dcell V)) this v cap cs d x :
  2 ≤ K → d_holds K m this v cap cs d → no_fail (corc m) → at_boundary K d → dq_end d ≠ dq_chunks d * K →
  let f := r <- d_index K this (length (dq_els d)) ;; d_get r in
  if decide (K ≤ dq_end d < dq_lo d + K)
  then ∃ m', d_push_back K this (DVal x) m = Ok tt m' ∧ f m' = UB
  else d_push_back K this (DVal x) m = UB.
Proof. exact (λ HK, push_boundary_wrong K HK m this v cap cs d x). Qed.
Print Assumptions C37_push_back_refuted.
(** Except in this case and when iterating with the elements ending at a
    chunk's end, every history behaves as specified: [dpos] gives the sequence
    together with the place of its first element and is undefined exactly
    there, *)
Theorem C37_deque_partial {V} K ao co :
  2 ≤ K → no_fail ao → no_fail co →
  refines_from (dpos (V:=V) K) (d_run K) ∅ ∅ (λ s, s = ∅) (λ _, True) ao co.
Proof. exact (λ HK, dpos_refines K HK ao co). Qed.
Print Assumptions C37_deque_partial.
(** and its answers are those of plain sequences. *)
Theorem C37_positions_partial {V} K (s : gmap nat (dstate V)) op s' o :
  dpos K s op = Some (s', o) → dseq (dq_els <$> s) op = Some (dq_els <$> s', o).
Proof. exact (dpos_dseq K s op s' o). Qed.
Print Assumptions C37_positions_partial.
(** push_back is the only operation (besides iteration) it excludes: *)
Theorem C37_defined_partial {V} K (s : gmap nat (dstate V)) op so :
  dseq (dq_els <$> s) op = Some so →
  is_Some (dpos K s op) ∨
  match op with
  | DInit _ _ | DCopy _ _ | DAssign _ _ | DPushBack _ _ | DPushBackOwn _ _ => True
  | DIterate h => ∃ d, s !! h = Some d ∧ at_boundary K d
  | _ => False
  end.
Proof. exact (dpos_defined K s op so). Qed.
Print Assumptions C37_defined_partial.
Theorem C37_push_back_defined_partial {V} K (x : V) d :
  dq_push_back K x d = None ↔ at_boundary K d ∧ dq_end d ≠ dq_chunks d * K.
Proof. exact (push_back_undefined K x d). Qed.
Print Assumptions C37_push_back_defined_partial.
(** [push_back] twice, [pop_back] (leaving the elements to end at a chunk's end),
    [pop_back] again, [push_back]: fine *)
Example C37_example :
  answers_of (dpos 2) (d_run 2) ∅ ∅ (mem0 [] [])
    [DNew 0; DPushBack 0 5; DPushBack 0 6; DPopBack 0; DPopBack 0; DPushBack 0 8; DPushFront 0 4; DAt 0 1; DSize 0;
     DCopy 1 0; DClear 0; DPushBack 0 9; DAssign 0 1; DBack 0; DFront 0; DDestroy 0; DDestroy 1] =
  Some (Ret <$> [DoUnit; DoUnit; DoUnit; DoUnit; DoUnit; DoUnit; DoUnit; DoElem 8; DoNat 2;
     DoUnit; DoUnit; DoUnit; DoUnit; DoElem 8; DoElem 4; DoUnit; DoUnit]).
Proof. vm_compute. reflexivity. Qed.

(** ** C38 *)
Theorem C38_deque_refines {V} K ao co :
  2 ≤ K → no_fail ao → no_fail co →
  refines_from (dseq (V:=V)) (d_run K) ∅ ∅ (λ s, s = ∅) d_safe ao co.
Proof. exact (λ HK, dseq_refines K HK ao co). Qed.
Print Assumptions C38_deque_refines.
(** the elements are in the chunks, one after the other *)
Theorem C38_deque_memory {V} K ao co evs s env m :
  2 ≤ K → no_fail ao → no_fail co → hist (dseq (V:=V)) (d_run K) ∅ ∅ (mem0 ao co) evs s env m →
  Forall (λ ev, d_safe ev.1) evs →
  ∀ h xs, s !! h = Some xs → ∃ l v cap cs d, env !! h = Some l ∧ d_holds K m l v cap cs d ∧ dq_els d = xs.
Proof. exact (λ HK, dseq_reach K HK ao co evs s env m). Qed.
Print Assumptions C38_deque_memory.
Example C38_example :
  answers_of dseq (d_run 2) ∅ ∅ (mem0 [] [])
    [DNew 0; DPushBack 0 5; DPushBack 0 6; DPushBack 0 7; DPushFront 0 4; DPushFront 0 3; DPopFront 0;
     DAt 0 0; DAt 0 3; DSet 0 1 50; DPopFront 0; DFront 0; DBack 0; DSize 0; DEmpty 0; DDestroy 0] =
  Some (Ret <$> [DoUnit; DoUnit; DoUnit; DoUnit; DoUnit; DoUnit; DoUnit;
     DoElem 4; DoElem 7; DoUnit; DoUnit; DoElem 50; DoElem 7; DoNat 3; DoBool false; DoUnit]).
Proof. vm_compute. reflexivity. Qed.

(** A deque for the examples: chunks of 3 slots, the elements 10 20 30 40 in
    slots 1 to 4. *)
Definition ex_d : dstate nat := DState [10; 20; 30; 40] 1 3.
Definition ex_mem ao co : mem (dcell nat) :=
  Mem {[ 1%positive := DHdr 1 1 0 1 4 (Some 2%positive); 2%positive := DVec 4 [3%positive; 4%positive; 5%positive];
         3%positive := DArr [None; Some 10; Some 20]; 4%positive := DArr [Some 30; Some 40; None];
         5%positive := DArr [None; None; None] ]} 6%positive ao co.
Definition ex_cs : list loc := [3%positive; 4%positive; 5%positive].
Example ex_holds ao co : d_holds 3 (ex_mem ao co) 1%positive 2%positive 4 ex_cs ex_d.
Proof.
  split; [by apply (bool_decide_unpack _); vm_compute|]. split; [done|]. split; [vm_compute; lia|].
  split; [done|]. split; [done|]. intros [|[|[|j]]] c Hc; vm_compute in Hc; simplify_eq; reflexivity.
Qed.
Example ex_mem_ok ao co : no_fail co → may_fail_alloc (ex_mem ao co).
Proof. split; [apply mem_wf_check; vm_compute; reflexivity|done]. Qed.

(** ** C39 *)
Theorem C39_iterate_partial {V} K (m : mem (dcell V)) this v cap cs d :
  2 ≤ K → may_fail_alloc m → d_holds K m this v cap cs d → ¬ at_boundary K d →
  ∃ m', d_iterate K this m = Ok (dq_els d) m' ∧ may_fail_alloc m' ∧ d_holds K m' this v cap cs d ∧
     replaces (d_cells this v cs) m (d_cells this v cs) m'.
Proof. exact (λ HK, iterate_run K HK m this v cap cs d). Qed.
Print Assumptions C39_iterate_partial.
(** [iter_at p it]: [it] is at the [p]-th slot *)
Theorem C39_iterators_partial {V} K (m : mem (dcell V)) this v cap cs d :
  2 ≤ K → d_holds K m this v cap cs d →
  (∀ p it, iter_at K v cs p it → p + 1 < length cs * K →
    ∃ it', d_incr K it m = Ok it' m ∧ iter_at K v cs (p + 1) it') ∧
  (∀ p it, iter_at K v cs p it → p mod K ≠ 0 → ∃ it', d_decr it m = Ok it' m ∧ iter_at K v cs (p - 1) it') ∧
  (∀ p q x y, iter_at K v cs p x → iter_at K v cs q y → p / K = q / K →
    d_diff K x y m = Ok (Z.of_nat p - Z.of_nat q)%Z m) ∧
  (∀ p q x y, iter_at K v cs p x → iter_at K v cs q y → d_eq x y = bool_decide (p = q)) ∧
  (∀ p it, iter_at K v cs p it → d_get (di_p it) m = match slot d p with Some x => Ok x m | None => UB end).
Proof. exact (λ HK, iter_facts K HK m this v cap cs d). Qed.
Print Assumptions C39_iterators_partial.
(** When the last element is the last one of its chunk, end() is not reached. *)
Theorem C39_iterate_refuted {V} K (m : mem (dcell V)) this v cap cs d :
  2 ≤ K → d_holds K m this v cap cs d → at_boundary K d → d_iterate K this m = UB.
Proof. exact (λ HK, iterate_boundary K HK m this v cap cs d). Qed.
Print Assumptions C39_iterate_refuted.
(** From the first slot of a chunk, -- goes to the first slot of the chunk before. *)
Theorem C39_decrement_refuted {V} K (m : mem (dcell V)) this v cap cs d p it :
  2 ≤ K → d_holds K m this v cap cs d → iter_at K v cs p it → p mod K = 0 → p ≠ 0 →
  ∃ it', d_decr it m = Ok it' m ∧ iter_at K v cs (p - K) it'.
Proof. exact (λ HK Hh, iter_prev_wrong K HK m this v cap cs d Hh p it). Qed.
Print Assumptions C39_decrement_refuted.
(** The difference of iterators into different chunks is never right. *)
Theorem C39_difference_refuted {V} K (m : mem (dcell V)) this v cap cs d p q x y :
  2 ≤ K → d_holds K m this v cap cs d →
  iter_at K v cs p x → iter_at K v cs q y → p / K ≠ q / K →
  ∃ z, d_diff K x y m = Ok z m ∧ z ≠ (Z.of_nat p - Z.of_nat q)%Z.
Proof. exact (λ HK, diff_wrong K HK m this v cap cs d p q x y). Qed.
Print Assumptions C39_difference_refuted.
Example C39_example :
  d_holds 3 (ex_mem [] []) 1%positive 2%positive 4 ex_cs ex_d ∧ ¬ at_boundary 3 ex_d ∧
  iter_at 3 2%positive ex_cs 2 (DIter (3%positive, 2) 2%positive 0) ∧
  d_iterate 3 1%positive (ex_mem [] []) = Ok [10; 20; 30; 40] (ex_mem [] []).
Proof.
  split; [apply ex_holds|]. split; [by vm_compute|]. split; [by exists 3%positive|vm_compute; reflexivity].
Qed.
(** popping one element brings the end to slot 3 when there are two elements *)
Example C39_boundary_example :
  d_iterate 3 1%positive
    (Mem {[ 1%positive := DHdr 1 2 0 0 2 (Some 2%positive); 2%positive := DVec 1 [3%positive];
            3%positive := DArr [None; Some 10; Some 20] ]} 4%positive [] []) = UB.
Proof. vm_compute. reflexivity. Qed.

(** ** C40.  A chunk can only be returned to the allocator when no element is
    alive in it, and only a live element can be destroyed; otherwise the
    outcome would be [UB]. *)
Theorem C40_destroy {V} K (m : mem (dcell V)) this v cap cs d :
  2 ≤ K → may_fail_alloc m → d_holds K m this v cap cs d → dq_chunks d ≠ 0 →
  ∃ m', d_dtor K this m = Ok tt m' ∧ may_fail_alloc m' ∧ replaces (d_cells this v cs) m [] m'.
Proof. exact (λ HK, dtor_run K HK m this v cap cs d). Qed.
Print Assumptions C40_destroy.
Theorem C40_clear {V} K (m : mem (dcell V)) this v cap cs d :
  2 ≤ K → may_fail_alloc m → d_holds K m this v cap cs d → dq_chunks d ≠ 0 →
  ∃ m', d_clear K this m = Ok tt m' ∧ may_fail_alloc m' ∧ d_holds K m' this v cap cs (dq_clear K d) ∧
     replaces (d_cells this v cs) m (d_cells this v cs) m'.
Proof. exact (λ HK, clear_run K HK m this v cap cs d). Qed.
Print Assumptions C40_clear.
Theorem C40_pop {V} K (m : mem (dcell V)) this v cap cs d :
  2 ≤ K → may_fail_alloc m → d_holds K m this v cap cs d →
  (∃ m', d_pop_front K this m = Ok tt m' ∧ may_fail_alloc m' ∧ d_holds K m' this v cap cs (dq_pop_front d) ∧
     replaces (d_cells this v cs) m (d_cells this v cs) m') ∧
  (∃ m', d_pop_back K this m = Ok tt m' ∧ may_fail_alloc m' ∧ d_holds K m' this v cap cs (dq_pop_back d) ∧
     replaces (d_cells this v cs) m (d_cells this v cs) m').
Proof. exact (λ HK, pop_run K HK m this v cap cs d). Qed.
Print Assumptions C40_pop.
(** At any point of a history the memory consists of the deques' headers, chunk
    tables and chunks, and the live elements are those of the sequences. *)
Theorem C40_history {V} K ao co evs s env m :
  2 ≤ K → no_fail ao → no_fail co → hist (dpos (V:=V) K) (d_run K) ∅ ∅ (mem0 ao co) evs s env m →
  (∀ h d, s !! h = Some d → ∃ l v cap cs, env !! h = Some l ∧ d_holds K m l v cap cs d) ∧
  size (blk m) = map_fold (λ _ d n, 2 + dq_chunks d + n) 0 s.
Proof. exact (λ HK, dpos_reach K HK ao co evs s env m). Qed.
Print Assumptions C40_history.
Example C40_example :
  may_fail_alloc (ex_mem [true] []) ∧ d_holds 3 (ex_mem [true] []) 1%positive 2%positive 4 ex_cs ex_d ∧
  match d_dtor 3 1%positive (ex_mem [true] []) with Ok _ m' => map_to_list (blk m') = [] | _ => False end.
Proof. split; [apply ex_mem_ok; constructor|]. split; [apply ex_holds|]. vm_compute. reflexivity. Qed.

(** ** C41 *)
Theorem C41_queue_refines {V} K ao co :
  2 ≤ K → no_fail ao → no_fail co →
  refines_from (qseq (V:=V)) (q_run K) ∅ ∅ (λ s, s = ∅) (λ _, True) ao co.
Proof. exact (λ HK, qseq_refines K HK ao co). Qed.
Print Assumptions C41_queue_refines.
(** the same, said without a specification: pushing [xs] onto an empty queue and
    popping as often, reading the front each time, gives [xs] *)
Theorem C41_fifo {V} K ao co (xs : list V) evs s env m :
  2 ≤ K → no_fail ao → no_fail co →
  hist qseq (q_run K) ∅ ∅ (mem0 ao co) evs s env m →
  map fst evs = QNew 0 :: (QPush 0 <$> xs) ++ concat (replicate (length xs) [QFront 0; QPop 0]) →
  map snd evs = Ret DoUnit :: ((λ _, Ret DoUnit) <$> xs) ++ concat ((λ x, [Ret (DoElem x); Ret DoUnit]) <$> xs).
Proof. exact (λ HK Ha Hc, fifo K HK ao co Ha Hc xs evs s env m). Qed.
Print Assumptions C41_fifo.
Example C41_example :
  answers_of qseq (q_run 2) ∅ ∅ (mem0 [] [])
    [QNew 0; QPush 0 5; QPush 0 6; QFront 0; QPop 0; QPush 0 7; QFront 0; QBack 0; QSize 0; QCopy 1 0; QPop 0; QPop 0;
     QEmpty 0; QFront 1; QDestroy 1; QDestroy 0] =
  Some (Ret <$> [DoUnit; DoUnit; DoUnit; DoElem 5; DoUnit; DoUnit; DoElem 6; DoElem 7; DoNat 2; DoUnit; DoUnit; DoUnit;
     DoBool true; DoElem 6; DoUnit; DoUnit]).
Proof. vm_compute. reflexivity. Qed.

(** ** C42: refuted.  A queue that is empty may hold any number of chunks. *)
Theorem C42_queue_memory_refuted {V} K (x : V) c :
  2 ≤ K →
  ∃ n q m v cap cs d, churn K x n (mem0 [] []) = Ok q m ∧ d_holds K m q v cap cs d ∧ dq_els d = [] ∧ c ≤ length cs.
Proof. exact (λ HK, churn_grows K HK x c). Qed.
Print Assumptions C42_queue_memory_refuted.
Example C42_example :
  match churn 2 7 9 (mem0 [] []) with Ok _ m => size (blk m) = 7 | _ => False end.
Proof. vm_compute. reflexivity. Qed.

(** ** C23 for deques: assigning a deque to itself empties it. *)
Theorem C23_deque_self_assignment_refuted {V} K (m : mem (dcell V)) this v cap cs d :
  2 ≤ K → may_fail_alloc m → d_holds K m this v cap cs d → dq_chunks d ≠ 0 →
  ∃ m', d_assign K this this m = Ok tt m' ∧ may_fail_alloc m' ∧ d_holds K m' this v cap cs (dq_clear K d).
Proof. exact (λ HK, self_assign_run K HK m this v cap cs d). Qed.
Print Assumptions C23_deque_self_assignment_refuted.
Example C23_deque_example : dq_els (dq_clear 3 ex_d) = [].
Proof. reflexivity. Qed.

(** ** C72 *)
Theorem C72_push_back_partial {V} K (m : mem (dcell V)) this v cap cs d d' x :
  2 ≤ K → may_fail_alloc m → d_holds K m this v cap cs d → dq_push_back K x d = Some d' →
  push_outcome K m this v cs d d' (d_push_back K this (DVal x) m).
Proof. exact (λ HK, push_back_run K HK m this v cap cs d d' x). Qed.
Print Assumptions C72_push_back_partial.
Theorem C72_push_front_partial {V} K (m : mem (dcell V)) this v cap cs d x :
  2 ≤ K → may_fail_alloc m → d_holds K m this v cap cs d →
  push_outcome K m this v cs d (dq_push_front K x d) (d_push_front K this (DVal x) m).
Proof. exact (λ HK, push_front_run K HK m this v cap cs d x). Qed.
Print Assumptions C72_push_front_partial.
(** A chunk is lost when the table of chunks cannot grow: here the second chunk,
    after 512 elements, *)
Theorem C72_push_back_refuted :
  match (q <- d_new CHUNK_SIZE ;; for_up 0 512 (λ _, d_push_back CHUNK_SIZE q (DVal 7)) ;;;
         catch (d_push_back CHUNK_SIZE q (DVal 7)) (λ _, ret tt) ;;; d_dtor CHUNK_SIZE q)
        (mem0 [false; false; false; true] []) with
  | Ok _ m => blk m ≠ ∅
  | _ => False
  end.
Proof. exact (push_back_leaks). Qed.
Print Assumptions C72_push_back_refuted.
(** and the first one when the constructor cannot allocate the table. *)
Theorem C72_new_refuted {V} K (m : mem (dcell V)) ao :
  mem_wf m → aorc m = false :: true :: ao →
  ∃ m' p, d_new K m = Exn BadAlloc m' ∧ blk m !! p = None ∧ blk m' = <[p := DArr (replicate K None)]> (blk m).
Proof. exact (new_leaks K m ao). Qed.
Print Assumptions C72_new_refuted.
Example C72_example :
  may_fail_alloc (ex_mem [true] []) ∧ dq_push_back 3 50 ex_d = Some (DState [10; 20; 30; 40; 50] 1 3).
Proof. split; [apply ex_mem_ok; constructor|]. reflexivity. Qed.
Example C72_new_example : mem_wf (mem0 (C:=dcell nat) [false; true] []).
Proof. apply mem_wf_check. vm_compute. reflexivity. Qed.

(** ** C73 *)
Theorem C73_push_own {V} K (m : mem (dcell V)) this v cap cs d d' i x :
  2 ≤ K → may_fail_alloc m → d_holds K m this v cap cs d → dq_els d !! i = Some x → dq_push_back K x d = Some d' →
  push_outcome K m this v cs d d' ((r <- d_index K this i ;; d_push_back K this (DSlot r)) m) ∧
  push_outcome K m this v cs d (dq_push_front K x d) ((r <- d_index K this i ;; d_push_front K this (DSlot r)) m).
Proof. exact (λ HK, push_own_run K HK m this v cap cs d d' i x). Qed.
Print Assumptions C73_push_own.
Example C73_example :
  answers_of dseq (d_run 2) ∅ ∅ (mem0 [] [])
    [DInit 0 [5; 6]; DPushBackOwn 0 1; DPushFrontOwn 0 2; DPushFrontOwn 0 0; DAt 0 0; DAt 0 1; DAt 0 4] =
  Some (Ret <$> [DoUnit; DoUnit; DoUnit; DoUnit; DoElem 6; DoElem 6; DoElem 6]).
Proof. vm_compute. reflexivity. Qed.

(** ** C74: refuted.  The size is increased before the element is copied: when
    the copy throws, the deque counts an element that does not exist, and its
    destructor destroys it. *)
Theorem C74_throwing_copy_refuted {V} K (x : V) :
  2 ≤ K →
  ∃ q m, (q <- d_new K ;; catch (d_push_back K q (DVal x)) (λ _, ret tt) ;;; ret q) (mem0 [] [true]) = Ok q m ∧
    d_size q m = Ok 1 m ∧ d_dtor K q m = UB.
Proof. exact (λ HK, push_throw K HK x). Qed.
Print Assumptions C74_throwing_copy_refuted.

(** ** C119: what a push does when the copy of the element throws.  The members
    count the new element, its slot is empty: the other elements can be read,
    but clearing, destroying the deque and popping at that end are undefined. *)
Theorem C119_push_back_throwing {V} K (m : mem (dcell V)) this v cap cs d d' x b co :
  2 ≤ K → mem_wf m → d_holds K m this v cap cs d → dq_push_back K x d = Some d' → corc m = b :: co →
  push_outcome_any K m this v cap cs d d d' (d_push_back K this (DVal x) m) ∧
  match d_push_back K this (DVal x) m with Ok _ _ => b = false | Exn CopyThrow _ => b = true | _ => True end.
Proof. exact (λ HK, c119_back K HK m this v cap cs d d' x b co). Qed.
Print Assumptions C119_push_back_throwing.
Theorem C119_push_back_leaves {V} K (m : mem (dcell V)) this v cap cs d d' x :
  2 ≤ K → d_broken K m this v cap cs d d' → dq_push_back K x d = Some d' →
  d_size this m = Ok (S (length (dq_els d))) m ∧
  (∀ i y, dq_els d !! i = Some y → (r <- d_index K this i ;; d_get r) m = Ok y m) ∧
  (r <- d_index K this (length (dq_els d)) ;; d_get r) m = UB ∧
  d_pop_back K this m = UB ∧ d_clear K this m = UB ∧ d_dtor K this m = UB.
Proof. exact (λ HK, push_back_broken K HK m this v cap cs d d' x). Qed.
Print Assumptions C119_push_back_leaves.
Theorem C119_push_front_throwing {V} K (m : mem (dcell V)) this v cap cs d x b co :
  2 ≤ K → mem_wf m → d_holds K m this v cap cs d → corc m = b :: co →
  push_outcome_any K m this v cap cs d (dq_pop_front (dq_push_front K x d)) (dq_push_front K x d)
    (d_push_front K this (DVal x) m) ∧
  match d_push_front K this (DVal x) m with Ok _ _ => b = false | Exn CopyThrow _ => b = true | _ => True end.
Proof. exact (λ HK, c119_front K HK m this v cap cs d x b co). Qed.
Print Assumptions C119_push_front_throwing.
Theorem C119_push_front_leaves {V} K (m : mem (dcell V)) this v cap cs d x :
  2 ≤ K → d_broken K m this v cap cs (dq_pop_front (dq_push_front K x d)) (dq_push_front K x d) →
  d_size this m = Ok (S (length (dq_els d))) m ∧
  (∀ i y, dq_els d !! i = Some y → (r <- d_index K this (S i) ;; d_get r) m = Ok y m) ∧
  (r <- d_index K this 0 ;; d_get r) m = UB ∧
  d_pop_front K this m = UB ∧ d_clear K this m = UB ∧ d_dtor K this m = UB.
Proof. exact (λ HK, c119_front_leaves K HK m this v cap cs d x). Qed.
Print Assumptions C119_push_front_leaves.
Example C119_example :
  mem_wf (ex_mem [] [true]) ∧ d_holds 3 (ex_mem [] [true]) 1%positive 2%positive 4 ex_cs ex_d ∧
  dq_push_back 3 50 ex_d = Some (DState [10; 20; 30; 40; 50] 1 3) ∧
  match d_push_back 3 1%positive (DVal 50) (ex_mem [] [true]) with
  | Exn CopyThrow m => d_size 1%positive m = Ok 5 m ∧ d_dtor 3 1%positive m = UB ∧
      (r <- d_index 3 1%positive 3 ;; d_get r) m = Ok 40 m
  | _ => False
  end ∧
  match d_push_front 3 1%positive (DVal 5) (ex_mem [] [true]) with
  | Exn CopyThrow m => d_size 1%positive m = Ok 5 m ∧ d_dtor 3 1%positive m = UB ∧
      (r <- d_index 3 1%positive 1 ;; d_get r) m = Ok 10 m
  | _ => False
  end.
Proof.
  split; [apply mem_wf_check; vm_compute; reflexivity|]. split; [apply ex_holds|]. split; [reflexivity|].
  vm_compute. done.
Qed.

(** ** C89: push_back in every state: where it is right, where it is undefined and
    where it leaves the new element unreadable *)
Theorem C89_push_back_every_state {V} K (m : mem (dcell V)) this v cap cs d x :
  2 ≤ K → may_fail_alloc m → d_holds K m this v cap cs d →
  match dq_push_back K x d with
  | Some d' => push_outcome K m this v cs d d' (d_push_back K this (DVal x) m)
  | None =>
      if decide (K ≤ dq_end d < dq_lo d + K)
      then ∃ m', d_push_back K this (DVal x) m = Ok tt m' ∧ (r <- d_index K this (length (dq_els d)) ;; d_get r) m' = UB
      else d_push_back K this (DVal x) m = UB
  end.
Proof. exact (λ HK, push_every K HK m this v cap cs d x). Qed.
Print Assumptions C89_push_back_every_state.
Example C89_example : may_fail_alloc (ex_mem [] []) ∧ d_holds 3 (ex_mem [] []) 1%positive 2%positive 4 ex_cs ex_d ∧ dq_push_back 3 50 ex_d = Some (DState [10; 20; 30; 40; 50] 1 3) ∧
  dq_push_back 3 60 (DState [10; 20; 30; 40; 50] 1 3) = None.
Proof. split; [split; [apply mem_wf_check; vm_compute; reflexivity|constructor]|]. split; [apply ex_holds|]. split; reflexivity. Qed.

(** ** C90: iteration is right exactly if the elements do not end at the end of a
    chunk; -- goes a whole chunk back at the beginning of a chunk; differences
    are right exactly within a chunk *)
Theorem C90_iterate {V} K (m : mem (dcell V)) this v cap cs d :
  2 ≤ K → may_fail_alloc m → d_holds K m this v cap cs d →
  if decide (dq_end d mod K = 0) then d_iterate K this m = UB
  else ∃ m', d_iterate K this m = Ok (dq_els d) m' ∧ may_fail_alloc m' ∧ d_holds K m' this v cap cs d ∧
     replaces (d_cells this v cs) m (d_cells this v cs) m'.
Proof. exact (λ HK, iterate_exact K HK m this v cap cs d). Qed.
Print Assumptions C90_iterate.
Theorem C90_decrement {V} K (m : mem (dcell V)) this v cap cs d p it :
  2 ≤ K → d_holds K m this v cap cs d → iter_at K v cs p it → p ≠ 0 →
  ∃ it', d_decr it m = Ok it' m ∧ iter_at K v cs (if decide (p mod K = 0) then p - K else p - 1) it'.
Proof. exact (λ HK, decr_exact K HK m this v cap cs d p it). Qed.
Print Assumptions C90_decrement.
Theorem C90_difference {V} K (m : mem (dcell V)) this v cap cs d p q x y :
  2 ≤ K → d_holds K m this v cap cs d → iter_at K v cs p x → iter_at K v cs q y →
  ∃ z, d_diff K x y m = Ok z m ∧ (z = (Z.of_nat p - Z.of_nat q)%Z ↔ p / K = q / K).
Proof. exact (λ HK, diff_exact K HK m this v cap cs d p q x y). Qed.
Print Assumptions C90_difference.
Example C90_example :
  d_holds 3 (ex_mem [] []) 1%positive 2%positive 4 ex_cs ex_d ∧ ¬ at_boundary 3 ex_d ∧
  iter_at 3 2%positive ex_cs 3 (DIter (4%positive, 0) 2%positive 1) ∧ 3 mod 3 = 0.
Proof. split; [apply ex_holds|]. split; [vm_compute; lia|]. split; [by exists 4%positive|done]. Qed.

(** ** C91: the storage of a queue is that of one slot for every push ever made,
    wherever the pops were *)
Theorem C91_queue_chunks {V} K (ops : list (option V)) :
  2 ≤ K →
  ∃ q m v cap cs d, q_drive K ops (mem0 [] []) = Ok q m ∧ d_holds K m q v cap cs d ∧ dq_els d = q_contents [] ops ∧
    length cs = (K / 2 + pushes ops + K - 1) / K.
Proof. exact (λ HK, drive_run K HK ops). Qed.
Print Assumptions C91_queue_chunks.
Example C91_example : q_contents [] [Some 5; Some 6; None; Some 7; None] = [7] ∧ (2 / 2 + pushes [Some 5; Some 6; None; Some 7; None] + 2 - 1) / 2 = 2 ∧
  match q_drive 2 [Some 5; Some 6; None; Some 7; None] (mem0 [] []) with Ok _ m => size (blk m) = 4 | _ => False end.
Proof. vm_compute. done. Qed.
