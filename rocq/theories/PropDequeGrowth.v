(** What it costs to grow a deque: property theorems C123 (see
    /verif/properties.jsonl). *)
From Verif Require Import Mem Hist HistProofs ModelDeque SpecDeque SpecGrowth SpecDequeGrowth DequeGrowth.

(** A push copies one element, the new one, and allocates only when a chunk is
    added. *)
Theorem C123_push_back_cost {V} K (m : mem (dcell V)) this v cap cs d d' x :
  2 ≤ K → fair m → d_holds K m this v cap cs d → dq_push_back K x d = Some d' → corc m ≠ [] →
  ∃ m' v' cap' cs', d_push_back K this (DVal x) m = Ok tt m' ∧ d_holds K m' this v' cap' cs' d' ∧
    allocs m m' = push_allocs d d' cap ∧ constructions m m' = 1.
Proof. exact (λ HK, c123_back K HK m this v cap cs d d' x). Qed.
Print Assumptions C123_push_back_cost.
Theorem C123_push_front_cost {V} K (m : mem (dcell V)) this v cap cs d x :
  2 ≤ K → fair m → d_holds K m this v cap cs d → corc m ≠ [] →
  ∃ m' v' cap' cs', d_push_front K this (DVal x) m = Ok tt m' ∧ d_holds K m' this v' cap' cs' (dq_push_front K x d) ∧
    allocs m m' = push_allocs d (dq_push_front K x d) cap ∧ constructions m m' = 1.
Proof. exact (λ HK, c123_front K HK m this v cap cs d x). Qed.
Print Assumptions C123_push_front_cost.
(** Appending to a newly constructed deque. *)
Theorem C123_deque_growth {V} K (m : mem (dcell V)) this v cs vs :
  2 ≤ K → fair m → d_holds K m this v 1 cs (dq_fresh K) → length vs ≤ length (corc m) →
  let c := chunks_for K (length vs) in
  ∃ m' v' cs', d_push_all K this vs m = Ok tt m' ∧
    d_holds K m' this v' (2 ^ Nat.log2_up c) cs' (DState vs (K / 2) c) ∧
    allocs m m' = c - 1 + Nat.log2_up c ∧ constructions m m' = length vs.
Proof. exact (λ HK, growth K HK m this v cs vs). Qed.
Print Assumptions C123_deque_growth.
(** Chunks of 2 slots: 6 elements need 4 chunks, the table grows from 1 to 2 to 4. *)
Example C123_example :
  let m : mem (dcell nat) := Mem {[ 1%positive := DHdr 1 0 0 0 0 (Some 3%positive); 2%positive := DArr [None; None];
             3%positive := DVec 1 [2%positive] ]} 4%positive [] (replicate 7 false) in
  fair m ∧ d_holds 2 m 1%positive 3%positive 1 [2%positive] (dq_fresh 2) ∧ corc m ≠ [] ∧
  dq_push_back 2 5 (dq_fresh 2) = Some (DState [5] 1 1) ∧
  chunks_for 2 6 = 4 ∧
  match d_new 2 (mem0 [] (replicate 7 false)) with
  | Ok this m' => this = 1%positive ∧ blk m' !! 1%positive = blk m !! 1%positive ∧
      blk m' !! 2%positive = blk m !! 2%positive ∧ blk m' !! 3%positive = blk m !! 3%positive
  | _ => False
  end ∧
  match d_push_all 2 1%positive [5; 6; 7; 8; 9; 10] m with
  | Ok _ m' => allocs m m' = 5 ∧ constructions m m' = 6
  | _ => False
  end.
Proof.
  cbv zeta. split; [split; [apply mem_wf_check; vm_compute; reflexivity|split; by repeat constructor]|].
  split.
  { split; [repeat constructor; set_solver|]. split; [reflexivity|]. split; [vm_compute; lia|]. split; [reflexivity|]. split; [reflexivity|].
    intros [|j] c; simpl; [intros [= <-]; done|done]. }
  split; [done|]. split; [reflexivity|]. split; [reflexivity|].
  split; vm_compute; repeat split; reflexivity.
Qed.
