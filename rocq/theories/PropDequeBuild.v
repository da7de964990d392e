(** Constructing and assigning deques when a copy throws or an allocation fails:
    property theorems C124, C125 (see /verif/properties.jsonl). *)
From Verif Require Import Hist HistProofs ModelDeque SpecDeque SpecDequeGrowth SpecDequeBuild DequeBuild DequeAlloc.

(** ** C124: the [j]-th copy is the first that throws.  The constructors delegate
    to deque(), so the destructor runs, and destroys an element that does not
    exist. *)
Theorem C124_init_throwing {V} K (m : mem (dcell V)) vs j co :
  2 ≤ K → mem_wf m → no_fail (aorc m) → corc m = replicate j false ++ true :: co → j < length vs →
  d_init K vs m = UB.
Proof. exact (λ HK, init_throws K HK m vs j co). Qed.
Print Assumptions C124_init_throwing.
Theorem C124_copy_throwing {V} K (m : mem (dcell V)) other v1 cap1 cs1 d1 j co :
  2 ≤ K → mem_wf m → no_fail (aorc m) → d_holds K m other v1 cap1 cs1 d1 →
  corc m = replicate j false ++ true :: co → j < length (dq_els d1) →
  d_copy K other m = UB.
Proof. exact (λ HK, copy_throws K HK m other v1 cap1 cs1 d1 j co). Qed.
Print Assumptions C124_copy_throwing.
(** Assignment leaves the first [j] elements and counts one more, which does not
    exist (see C119 for what can still be done with such a deque). *)
Theorem C124_assign_throwing {V} K (m : mem (dcell V)) this v cap cs d other v1 cap1 cs1 d1 j co di dj x :
  2 ≤ K → mem_wf m → no_fail (aorc m) →
  d_holds K m this v cap cs d → d_holds K m other v1 cap1 cs1 d1 → d_cells this v cs ## d_cells other v1 cs1 →
  0 < dq_chunks d → corc m = replicate j false ++ true :: co → dq_els d1 !! j = Some x →
  dq_append K (take j (dq_els d1)) (dq_clear K d) = Some di → dq_push_back K x di = Some dj →
  ∃ m' v' cap' cs', d_assign K this other m = Exn CopyThrow m' ∧ d_broken K m' this v' cap' cs' di dj ∧
    d_holds K m' other v1 cap1 cs1 d1 ∧
    replaces (d_cells this v cs ++ d_cells other v1 cs1) m (d_cells this v' cs' ++ d_cells other v1 cs1) m'.
Proof. exact (λ HK, assign_throws K HK m this v cap cs d other v1 cap1 cs1 d1 j co di dj x). Qed.
Print Assumptions C124_assign_throwing.

(** Two deques with chunks of 2 slots: an empty one and 5, 6, 7. *)
Definition two_deques (ao co : list bool) : mem (dcell nat) :=
  Mem {[ 1%positive := DHdr 1 0 0 0 0 (Some 3%positive); 2%positive := DArr [None; None]; 3%positive := DVec 1 [2%positive];
         4%positive := DHdr 1 1 0 1 3 (Some 6%positive); 5%positive := DArr [None; Some 5]; 7%positive := DArr [Some 6; Some 7];
         6%positive := DVec 2 [5%positive; 7%positive] ]} 8%positive ao co.
Example two_deques_hold ao co :
  mem_wf (two_deques ao co) ∧ d_holds 2 (two_deques ao co) 1%positive 3%positive 1 [2%positive] (dq_fresh 2) ∧
  d_holds 2 (two_deques ao co) 4%positive 6%positive 2 [5%positive; 7%positive] (DState [5; 6; 7] 1 2) ∧
  d_cells 1%positive 3%positive [2%positive] ## d_cells 4%positive 6%positive [5%positive; 7%positive].
Proof.
  split; [apply mem_wf_check; vm_compute; reflexivity|]. split; [|split].
  - split; [repeat constructor; set_solver|]. split; [reflexivity|]. split; [vm_compute; lia|]. split; [reflexivity|]. split; [reflexivity|].
    intros [|j] c; simpl; [intros [= <-]; done|done].
  - split; [repeat constructor; set_solver|]. split; [reflexivity|]. split; [vm_compute; lia|]. split; [reflexivity|]. split; [reflexivity|].
    intros [|[|j]] c; simpl; [intros [= <-]; done|intros [= <-]; done|done].
  - unfold d_cells. set_solver.
Qed.
Example C124_example :
  dq_append 2 (take 1 [5; 6; 7]) (dq_clear 2 (dq_fresh 2)) = Some (DState [5] 1 1) ∧
  dq_push_back 2 6 (DState [5] 1 1) = Some (DState [5; 6] 1 2) ∧
  match d_assign 2 1%positive 4%positive (two_deques [] [false; true]) with
  | Exn CopyThrow m => d_size 1%positive m = Ok 2 m ∧ d_dtor 2 1%positive m = UB ∧
      (r <- d_index 2 1%positive 0 ;; d_get r) m = Ok 5 m
  | _ => False
  end ∧
  d_copy 2 4%positive (two_deques [] [false; false; true]) = UB ∧
  d_init 2 [5; 6; 7] (two_deques [] [true]) = UB.
Proof.
  split; [reflexivity|]. split; [reflexivity|]. vm_compute. repeat split; reflexivity.
Qed.

(** ** C125: allocations that fail *)
Theorem C125_init_failing {V} K (m : mem (dcell V)) vs :
  2 ≤ K → may_fail_alloc m →
  build_outcome K m (DState vs (K / 2) (chunks_for K (length vs))) (d_init K vs m).
Proof. exact (λ HK, init_outcome K HK m vs). Qed.
Print Assumptions C125_init_failing.
Theorem C125_copy_failing {V} K (m : mem (dcell V)) other v1 cap1 cs1 d1 :
  2 ≤ K → may_fail_alloc m → d_holds K m other v1 cap1 cs1 d1 →
  build_outcome K m (DState (dq_els d1) (K / 2) (chunks_for K (length (dq_els d1)))) (d_copy K other m).
Proof. exact (λ HK, copy_outcome K HK m other v1 cap1 cs1 d1). Qed.
Print Assumptions C125_copy_failing.
Theorem C125_assign_failing {V} K (m : mem (dcell V)) this v cap cs d other v1 cap1 cs1 d1 d' :
  2 ≤ K → may_fail_alloc m →
  d_holds K m this v cap cs d → d_holds K m other v1 cap1 cs1 d1 → d_cells this v cs ## d_cells other v1 cs1 →
  0 < dq_chunks d → dq_append K (dq_els d1) (dq_clear K d) = Some d' →
  assign_result K m (d_cells this v cs) this d d' other v1 cap1 cs1 d1 (d_assign K this other m).
Proof. exact (λ HK, assign_outcome K HK m this v cap cs d other v1 cap1 cs1 d1 d'). Qed.
Print Assumptions C125_assign_failing.
(** The table of chunks cannot grow: the new chunk is lost. *)
Example C125_example :
  may_fail_alloc (two_deques [false; true] []) ∧
  dq_append 2 [5; 6; 7] (dq_clear 2 (dq_fresh 2)) = Some (DState [5; 6; 7] 1 2) ∧
  match d_assign 2 1%positive 4%positive (two_deques [false; true] []) with
  | Exn BadAlloc m => d_size 1%positive m = Ok 1 m ∧ blk m !! 8%positive = Some (DArr [None; None])
  | _ => False
  end ∧
  match d_copy 2 4%positive (two_deques [false; false; false; true] []) with
  | Exn BadAlloc m => size (blk m) = 8
  | _ => False
  end ∧
  match d_init 2 [5; 6] (two_deques [true] []) with
  | Exn BadAlloc m => size (blk m) = 7
  | _ => False
  end.
Proof.
  split; [split; [apply mem_wf_check; vm_compute; reflexivity|constructor]|]. split; [reflexivity|].
  vm_compute. repeat split; reflexivity.
Qed.
