(** cest::vector: property theorems C01-C10 (see /verif/properties.jsonl). *)
From Verif Require Import Mem Hist HistProofs ModelVector SpecVector VectorHist VectorProps VectorExact.

(** Element type for the examples: nat, default 0, equality [Nat.eqb]. *)
Notation nspec := (vspec 0 Nat.eqb).
Notation nrun := (v_run 0 Nat.eqb).

(** ** C01 *)
Theorem C01_vector_refines_sequences {V : Type} (dflt : V) (veq : V → V → bool) ao co :
  no_fail ao → no_fail co →
  refines_from (vspec dflt veq) (v_run dflt veq) ∅ ∅ (λ s, s = ∅) (λ _, True) ao co.
Proof. exact (v_refines_fair dflt veq ao co). Qed.
Print Assumptions C01_vector_refines_sequences.

Example C01_example :
  answers_of nspec nrun ∅ ∅ (mem0 [] [])
    [VInit 1 [5; 6; 7]; VCopy 2 1; VPush 1 8; VAssign 1 1; VErase 1 1 3; VSwap 1 2;
     VIter 1; VIter 2; VMove 3 2; VSize 2; VRIter 3; VEq 1 3; VAt 1 9; VDestroy 1; VDestroy 2; VDestroy 3]
  = Some [Ret OUnit; Ret OUnit; Ret OUnit; Ret OUnit; Ret (ONat 1); Ret OUnit;
     Ret (OList [5; 6; 7]); Ret (OList [5; 8]); Ret OUnit; Ret (ONat 0); Ret (OList [8; 5]);
     Ret (OBool false); Ret OThrow; Ret OUnit; Ret OUnit; Ret OUnit].
Proof. vm_compute. reflexivity. Qed.

(** ** C02: at every moment the number of live elements in memory is the number
    of elements the vectors should have, and nothing is left at the end.
    (Reading, assigning or destroying a raw slot, constructing over a live one,
    deallocating with a wrong size or with live elements are all UB in the
    model, hence excluded by [safe] in C01.)  This holds even when allocations
    fail, except for initializer lists longer than 1. *)
Theorem C02_vector_live_elements {V : Type} (dflt : V) (veq : V → V → bool) ao co evs s env m :
  no_fail co →
  hist (vspec dflt veq) (v_run dflt veq) ∅ ∅ (mem0 ao co) evs s env m →
  Forall (λ ev, v_ok true ev.1) evs →
  live (blk m) = total s ∧ (s = ∅ → blk m = ∅).
Proof. exact (v_live dflt veq ao co evs s env m). Qed.
Print Assumptions C02_vector_live_elements.

Example C02_example :
  ∃ evs s env m,
    hist nspec nrun ∅ ∅ (mem0 [false; true] []) evs s env m ∧
    Forall (λ ev, v_ok true ev.1) evs ∧ length evs = 5 ∧
    live (blk m) = 3 ∧ total s = 3 ∧ size (blk m) = 3.
Proof.
  destruct (exec nspec nrun ∅ ∅ (mem0 [false; true] [])
    [VCount 1 3; VCopy 2 1; VNew 2; VReserve 1 2; VSet 1 0 4]) as [[[[evs s] env] m]|] eqn:E;
    [|vm_compute in E; discriminate].
  exists evs, s, env, m. split; [by eapply exec_hist|].
  vm_compute in E. injection E as <- <- <- <-. repeat split. repeat constructor.
Qed.

(** ** C03 *)
Theorem C03_vector_size_le_capacity {V : Type} (dflt : V) (veq : V → V → bool) ao co evs s env m h xs :
  no_fail co →
  hist (vspec dflt veq) (v_run dflt veq) ∅ ∅ (mem0 ao co) evs s env m →
  Forall (λ ev, v_ok true ev.1) evs →
  s !! h = Some xs →
  ∃ l k p, env !! h = Some l ∧ holds m l xs k p ∧ length xs ≤ k.
Proof. exact (v_holds dflt veq ao co evs s env m h xs). Qed.
Print Assumptions C03_vector_size_le_capacity.

Theorem C03_vector_capacity_never_shrinks {V : Type} (dflt : V) (m : mem (vcell V)) this xs k p :
  may_fail_alloc m → holds m this xs k p →
  (∀ n, effect m this p (v_reserve this n m) (λ _, True) xs
          (λ k' p', k' = k `max` n ∧ (n ≤ k → p' = p))) ∧
  (∀ v, effect m this p (v_push_back this (RVal v) m) (λ _, True) (xs ++ [v])
          (λ k' p', k ≤ k' ∧ (length xs < k → k' = k ∧ p' = p))) ∧
  (∀ n, effect m this p (v_resize dflt this n m) (λ _, True) (resized dflt n xs)
          (λ k' p', k' = k `max` n ∧ (n ≤ k → p' = p))) ∧
  effect m this p (v_clear this m) (λ _, True) [] (λ k' p', k' = k ∧ p' = p) ∧
  (∀ ys y, xs = ys ++ [y] →
     effect m this p (v_pop_back this m) (λ _, True) ys (λ k' p', k' = k ∧ p' = p)) ∧
  (∀ i j, i ≤ j ≤ length xs →
     effect m this p (v_erase this i j m) (λ r, r = i) (take i xs ++ drop j xs)
       (λ k' p', k' = k ∧ p' = p)) ∧
  (∀ other ys k' q, holds m other ys k' q → apart this other p q →
     effect m this p (v_assign this other m) (λ _, True) ys
       (λ k1 q1, k1 = k `max` k' ∧ (k' ≤ k → q1 = p))).
Proof. exact (e_all dflt (λ _ _, true) m this xs k p). Qed.
Print Assumptions C03_vector_capacity_never_shrinks.

Theorem C03_vector_push_within_capacity {V : Type} (m : mem (vcell V)) this xs ws k p :
  may_fail_alloc m → holds m this xs k p → length xs + length ws ≤ k →
  effect m this p (v_push_all this ws m) (λ _, True) (xs ++ ws) (λ k' p', k' = k ∧ p' = p).
Proof. exact (e_push_fit m this xs ws k p). Qed.
Print Assumptions C03_vector_push_within_capacity.

(** a concrete memory with a vector of 3 elements and capacity 4 *)
Definition example_mem : mem (vcell nat) :=
  Mem {[ 1%positive := VHdr 3 4 (Some 2%positive);
         2%positive := VArr [Some 5; Some 6; Some 7; None] ]} 3%positive [] [].
Lemma example_wf : mem_wf example_mem.
Proof. apply mem_wf_check. vm_compute. reflexivity. Qed.
Example C03_example :
  may_fail_alloc example_mem ∧ holds example_mem 1%positive [5; 6; 7] 4 (Some 2%positive) ∧
  length [5; 6; 7] + length [8] ≤ 4.
Proof. split; [split; [apply example_wf|constructor]|]. repeat split; simpl; lia. Qed.

(** ** C04 *)
Theorem C04_vector_growth_is_geometric {V : Type} (m : mem (vcell V)) this ws :
  fair m → holds m this [] 0 None → ws ≠ [] →
  ∃ m' p k, v_push_all this ws m = Ok tt m' ∧ holds m' this ws k p ∧
    k = 2 ^ Nat.log2_up (length ws) ∧ length ws ≤ k ≤ 2 * length ws - 1 ∧
    allocs m m' = 1 + Nat.log2_up (length ws).
Proof. exact (push_growth' (λ _ _, true) m this ws). Qed.
Print Assumptions C04_vector_growth_is_geometric.

Example C04_example :
  let m := Mem {[ 1%positive := VHdr 0 0 None ]} 2%positive [] [] : mem (vcell nat) in
  fair m ∧ holds m 1%positive [] 0 None ∧
  match v_push_all 1%positive [1; 2; 3; 4; 5] m with
  | Ok _ m' => allocs m m' = 4 ∧ holds m' 1%positive [1; 2; 3; 4; 5] 8 (Some 5%positive)
  | _ => False
  end.
Proof.
  split; [split; [apply mem_wf_check; vm_compute; reflexivity|by repeat constructor]|].
  split; [by repeat split|]. vm_compute. repeat split; lia.
Qed.

(** ** C05: the result and the memory (unchanged) of [at] and of reading through
    the reference it returns *)
Theorem C05_vector_at_total {V : Type} (m : mem (vcell V)) this xs k p i :
  holds m this xs k p →
  match xs !! i with
  | Some x => v_at this i m = Ok (p, i) m ∧ v_read (p, i) m = Ok x m
  | None => v_at this i m = Exn OutOfRange m
  end.
Proof. exact (v_at_eq m this xs k p i). Qed.
Print Assumptions C05_vector_at_total.

Example C05_example :
  holds example_mem 1%positive [5; 6; 7] 4 (Some 2%positive) ∧
  v_at 1%positive 3 example_mem = Exn OutOfRange example_mem ∧
  v_at 1%positive 2 example_mem = Ok (Some 2%positive, 2) example_mem.
Proof. repeat split; simpl; lia. Qed.

(** ** C06: [effect]/[constructs] say that any exception is std::bad_alloc and
    leaves the memory as it was. *)
Theorem C06_vector_alloc_failure_histories {V : Type} (dflt : V) (veq : V → V → bool) ao co :
  no_fail co →
  refines_from (vspec dflt veq) (v_run dflt veq) ∅ ∅ (λ s, s = ∅) (v_ok true) ao co.
Proof. exact (v_refines_fail dflt veq ao co). Qed.
Print Assumptions C06_vector_alloc_failure_histories.

Theorem C06_vector_strong_guarantee {V : Type} (dflt : V) (m : mem (vcell V)) this xs k p :
  may_fail_alloc m → holds m this xs k p →
  (∀ n, effect m this p (v_reserve this n m) (λ _, True) xs (λ _ _, True)) ∧
  (∀ v, effect m this p (v_push_back this (RVal v) m) (λ _, True) (xs ++ [v]) (λ _ _, True)) ∧
  (∀ n, effect m this p (v_resize dflt this n m) (λ _, True) (resized dflt n xs) (λ _ _, True)) ∧
  (∀ other ys k' q, holds m other ys k' q → apart this other p q →
     effect m this p (v_assign this other m) (λ _, True) ys (λ _ _, True)) ∧
  constructs m (v_copy this m) xs (λ k' _, k' = k) ∧
  (∀ n, constructs m (v_count dflt n m) (replicate n dflt) (λ k' _, k' = n)).
Proof. exact (c06_all dflt (λ _ _, true) m this xs k p). Qed.
Print Assumptions C06_vector_strong_guarantee.

(** and a failing allocator does make the growing calls throw *)
Theorem C06_vector_alloc_failure_propagates {V : Type} (m : mem (vcell V)) this xs k p o :
  holds m this xs k p → aorc m = true :: o →
  (∀ n, k < n → ∃ m', v_reserve this n m = Exn BadAlloc m') ∧
  (∀ v, length xs = k → ∃ m', v_push_back this (RVal v) m = Exn BadAlloc m').
Proof. exact (c06_throws m this xs k p o). Qed.
Print Assumptions C06_vector_alloc_failure_propagates.

(** The non-delegating initializer-list constructor (vector.hpp 65-70) leaks its
    first block when the second allocation fails. *)
Theorem C06_vector_init_list_refuted :
  ∃ m', v_init [1; 2] (mem0 [false; true] []) = Exn BadAlloc m' ∧ blk m' ≠ ∅.
Proof. exact init_leaks. Qed.
Print Assumptions C06_vector_init_list_refuted.

Example C06_example :
  let m := Mem (blk example_mem) (nxt example_mem) [false; true] [] in
  may_fail_alloc m ∧ holds m 1%positive [5; 6; 7] 4 (Some 2%positive) ∧
  match v_push_all 1%positive [8; 9; 1; 2; 3; 4] m with
  | Exn BadAlloc m' => holds m' 1%positive [5; 6; 7; 8; 9; 1; 2; 3] 8 (Some 3%positive)
  | _ => False
  end.
Proof.
  split; [split; [apply mem_wf_check; vm_compute; reflexivity|constructor]|].
  split; [repeat split; simpl; lia|]. vm_compute. repeat split; lia.
Qed.

(** ** C07 does not hold: three witnesses. *)
(** copy construction of a 2-element vector whose second element copy throws
    destroys an element that was never constructed: undefined behaviour *)
Theorem C07_vector_copy_ctor_refuted :
  ∃ m, mem_wf m ∧ holds m 1%positive [5; 6; 7] 4 (Some 2%positive) ∧ v_copy 1%positive m = UB.
Proof. exact copy_throw_ub. Qed.
Print Assumptions C07_vector_copy_ctor_refuted.
(** push_back whose element copy throws leaves a counted but unconstructed
    element, so destroying the vector is undefined *)
Theorem C07_vector_push_back_refuted :
  ∃ m m', mem_wf m ∧ holds m 1%positive [5; 6; 7] 4 (Some 2%positive) ∧
    v_push_back 1%positive (RVal 8) m = Exn CopyThrow m' ∧ v_dtor 1%positive m' = UB.
Proof. exact push_throw_ub. Qed.
Print Assumptions C07_vector_push_back_refuted.
(** count construction leaks its block *)
Theorem C07_vector_count_ctor_refuted :
  ∃ m', v_count 0 2 (mem0 [] [true]) = Exn CopyThrow m' ∧ blk m' ≠ ∅.
Proof. exact count_throw_leak. Qed.
Print Assumptions C07_vector_count_ctor_refuted.
(** What does hold: reallocation (reserve) under arbitrary failures of the
    allocator and of element copies keeps the vector and all other existing
    memory as it was; missing: the new block is not returned. *)
Theorem C07_vector_reserve_partial {V : Type} (m : mem (vcell V)) this xs k p n :
  mem_wf m → holds m this xs k p →
  match v_reserve this n m with
  | Ok _ m' => ∃ p', holds m' this xs (k `max` n) p'
  | Exn _ m' => holds m' this xs k p ∧ ∀ l c, blk m !! l = Some c → blk m' !! l = Some c
  | UB | Div => False
  end.
Proof. exact (reserve_copy_throws m this xs k p n). Qed.
Print Assumptions C07_vector_reserve_partial.
(** clear, pop_back and the destructor never throw, whatever the oracles *)
Theorem C07_vector_noexcept_partial {V : Type} (m : mem (vcell V)) this xs k p :
  mem_wf m → holds m this xs k p →
  (∃ a m', v_clear this m = Ok a m' ∧ mem_wf m' ∧ holds m' this [] k p ∧
     replaces (own_cells this p) m (own_cells this p) m') ∧
  (∀ ys y, xs = ys ++ [y] →
     ∃ a m', v_pop_back this m = Ok a m' ∧ mem_wf m' ∧ holds m' this ys k p ∧
       replaces (own_cells this p) m (own_cells this p) m') ∧
  (∃ a m', v_dtor this m = Ok a m' ∧ mem_wf m' ∧ replaces (own_cells this p) m [] m').
Proof. exact (all_noexcept m this xs k p). Qed.
Print Assumptions C07_vector_noexcept_partial.
Example C07_example :
  let m := Mem (blk example_mem) (nxt example_mem) [] [false; true] in
  mem_wf m ∧ holds m 1%positive [5; 6; 7] 4 (Some 2%positive) ∧
  match v_reserve 1%positive 9 m with Exn CopyThrow m' => size (blk m') = 3 | _ => False end.
Proof.
  split; [apply mem_wf_check; vm_compute; reflexivity|].
  split; [repeat split; simpl; lia|]. vm_compute. reflexivity.
Qed.

(** ** C08 does not hold for a full vector: the element is read after the block
    holding it was freed. *)
Theorem C08_vector_push_own_element_refuted :
  ∃ m, fair m ∧ holds m 1%positive [5; 6] 2 (Some 2%positive) ∧
    v_push_back 1%positive (RElem 2%positive 0) m = UB.
Proof. exact push_own_ub. Qed.
Print Assumptions C08_vector_push_own_element_refuted.
(** With spare capacity it does. *)
Theorem C08_vector_push_own_element_partial {V : Type} (m : mem (vcell V)) this xs k b i v :
  may_fail_alloc m → holds m this xs k (Some b) → xs !! i = Some v → length xs < k →
  effect m this (Some b) (v_push_back this (RElem b i) m) (λ _, True) (xs ++ [v])
    (λ k' p', k' = k ∧ p' = Some b).
Proof. exact (e_push_own m this xs k b i v). Qed.
Print Assumptions C08_vector_push_own_element_partial.
Example C08_example :
  may_fail_alloc example_mem ∧ holds example_mem 1%positive [5; 6; 7] 4 (Some 2%positive) ∧
  [5; 6; 7] !! 1 = Some 6 ∧ length [5; 6; 7] < 4.
Proof. split; [split; [apply example_wf|constructor]|]. repeat split; simpl; lia. Qed.

(** ** C09: memory is literally unchanged *)
Theorem C09_vector_equality {V : Type} (veq : V → V → bool) (m : mem (vcell V)) x y xs ys k p k' q :
  holds m x xs k p → holds m y ys k' q →
  ∃ b, v_eq veq x y m = Ok b m ∧ (b = true ↔ Forall2 (λ a b, veq a b = true) xs ys).
Proof. exact (v_eq_eq veq m x y xs ys k p k' q). Qed.
Print Assumptions C09_vector_equality.
Example C09_example :
  let m := Mem (<[3%positive := VHdr 3 3 (Some 4%positive)]>
               (<[4%positive := VArr [Some 5; Some 6; Some 7]]> (blk example_mem))) 5%positive [] [] in
  holds m 1%positive [5; 6; 7] 4 (Some 2%positive) ∧ holds m 3%positive [5; 6; 7] 3 (Some 4%positive) ∧
  v_eq Nat.eqb 1%positive 3%positive m = Ok true m ∧ v_eq Nat.eqb 1%positive 1%positive m = Ok true m.
Proof. repeat split; simpl; lia. Qed.

(** ** C10 *)
Theorem C10_vector_erase {V : Type} (m : mem (vcell V)) this xs k p i j :
  may_fail_alloc m → holds m this xs k p → i ≤ j ≤ length xs →
  effect m this p (v_erase this i j m) (λ r, r = i) (take i xs ++ drop j xs)
    (λ k' p', k' = k ∧ p' = p).
Proof. exact (e_erase m this xs k p i j). Qed.
Print Assumptions C10_vector_erase.
Example C10_example :
  may_fail_alloc example_mem ∧ holds example_mem 1%positive [5; 6; 7] 4 (Some 2%positive) ∧
  match v_erase 1%positive 0 2 example_mem with
  | Ok 0 m' => holds m' 1%positive [7] 4 (Some 2%positive)
  | _ => False
  end.
Proof.
  split; [split; [apply example_wf|constructor]|]. split; [repeat split; simpl; lia|].
  vm_compute. repeat split; lia.
Qed.

(** ** C84: what push_back does with a reference to an own element: right with
    spare capacity; on a full vector undefined, unless the allocation fails. *)
Theorem C84_vector_push_own {V : Type} (m : mem (vcell V)) this xs k b i v :
  may_fail_alloc m → holds m this xs k (Some b) → xs !! i = Some v →
  if decide (length xs < k)
  then effect m this (Some b) (v_push_back this (RElem b i) m) (λ _, True) (xs ++ [v]) (λ k' p', k' = k ∧ p' = Some b)
  else v_push_back this (RElem b i) m = UB ∨
    ∃ m', v_push_back this (RElem b i) m = Exn BadAlloc m' ∧ may_fail_alloc m' ∧ blk m' = blk m.
Proof. exact (push_own_exact m this xs k b i v). Qed.
Print Assumptions C84_vector_push_own.
Example C84_example :
  let m := Mem (<[1%positive := VHdr 3 3 (Some 2%positive)]> (<[2%positive := VArr [Some 5; Some 6; Some 7]]> ∅)) 3%positive [] [] in
  may_fail_alloc m ∧ holds m 1%positive [5; 6; 7] 3 (Some 2%positive) ∧ v_push_back 1%positive (RElem 2%positive 1) m = UB.
Proof.
  split; [split; [apply mem_wf_check; vm_compute; reflexivity|constructor]|]. split; [repeat split; simpl; lia|]. vm_compute. reflexivity.
Qed.
