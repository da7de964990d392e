(** cest::list: property theorems C20-C24, C71 and C118 (see /verif/properties.jsonl). *)
From Verif Require Import Mem Hist HistThrow HistProofs ModelList SpecList ListHist ListProps.

Notation l_hist ao co evs s env m := (hist lspec l_run ∅ ∅ (mem0 ao co) evs s env m).
(** the list at 1 with the elements 10 (at 2) and 20 (at 3) *)
Notation ex_list ao co := (Mem {[ 1%positive := LHead 2%positive 3%positive 2;
                                  2%positive := LNode 3%positive 1%positive (Some 10);
                                  3%positive := LNode 1%positive 2%positive (Some 20) ]} 4%positive ao co).
Notation ex_nodes := [(2%positive, 10); (3%positive, 20)].
Example ex_list_holds ao co : l_holds (ex_list ao co) 1%positive ex_nodes.
Proof.
  split; [simpl; repeat constructor; set_solver|]. split; [done|].
  intros [|a [|b [|c xs]]] n v ys E; by simplify_eq/=.
Qed.

(** ** C20 *)
Theorem C20_list_refines_sequences {V} ao co :
  no_fail ao → no_fail co →
  refines_from (lspec (V:=V)) l_run ∅ ∅ (λ s, s = ∅) (λ _, True) ao co.
Proof. exact (l_refines_fair ao co). Qed.
Print Assumptions C20_list_refines_sequences.

(** the links are right in every reachable state, also after failed
    allocations *)
Theorem C20_list_links {V} (b : bool) ao co evs (s : gmap nat (list V)) env m h vs :
  (b = false → no_fail ao) → no_fail co →
  l_hist ao co evs s env m → Forall (λ ev, l_ok b ev.1) evs → s !! h = Some vs →
  ∃ l nvs, env !! h = Some l ∧ l_holds m l nvs ∧ nvs.*2 = vs.
Proof. exact (λ Hb Hco Hh Ho, proj1 (l_reach b ao co evs s env m Hb Hco Hh Ho) h vs). Qed.
Print Assumptions C20_list_links.

Example C20_example :
  answers_of lspec l_run ∅ ∅ (mem0 [] [])
    [LNew 1; LPushBack 1 10; LPushFront 1 5; LInsert 1 1 7; LInsertElem 1 3 1 0; LIter 1; LRIter 1;
     LCopy 2 1; LErase 1 1; LPopBack 1; LPopFront 1; LIter 1; LAssign 1 2; LSet 1 0 6; LIter 1; LIter 2;
     LEmplaceBack 2 8; LEmplaceFront 2 9; LEmplace 2 6 4; LBack 2; LFront 2; LGet 2 1; LSize 2; LClear 2;
     LEmpty 2; LDestroy 1; LDestroy 2]
  = Some [Ret LoUnit; Ret LoUnit; Ret LoUnit; Ret (LoNat 1); Ret (LoNat 3); Ret (LoList [5; 7; 10; 5]);
     Ret (LoList [5; 10; 7; 5]); Ret LoUnit; Ret (LoNat 1); Ret LoUnit; Ret LoUnit; Ret (LoList [10]); Ret LoUnit;
     Ret LoUnit; Ret (LoList [6; 7; 10; 5]); Ret (LoList [5; 7; 10; 5]); Ret (LoVal 8); Ret (LoVal 9);
     Ret (LoNat 6); Ret (LoVal 4); Ret (LoVal 9); Ret (LoVal 5); Ret (LoNat 7); Ret LoUnit; Ret (LoBool true);
     Ret LoUnit; Ret LoUnit].
Proof. vm_compute. reflexivity. Qed.
Example C20_example_state :
  ∃ evs s env m, l_hist [false; true] [] evs s env m ∧ Forall (λ ev, l_ok true ev.1) evs ∧
    s !! 1 = Some [10; 20] ∧ length evs = 4.
Proof.
  destruct (exec lspec l_run ∅ ∅ (mem0 [false; true] [])
    [LNew 1; LPushBack 1 10; LPushBack 1 15; LPushBack 1 20]) as [[[[evs s] env] m]|] eqn:E;
    [|vm_compute in E; discriminate].
  exists evs, s, env, m. split; [by eapply exec_hist|].
  vm_compute in E. injection E as <- <- <- <-. repeat split. repeat constructor.
Qed.

(** ** C21.  The nodes [xs] and [ys] keep their addresses, values and relative
    positions; held iterators are node addresses. *)
Theorem C21_list_insert {V} (m : mem (lcell V)) this xs ys v :
  may_fail_alloc m → l_holds m this (xs ++ ys) →
  runs_to m (l_cells this (xs ++ ys)) (l_insert this (first ys this) (LVal v) m) (λ r m' new, ∃ n,
    (r = n ∧ l_holds m' this (xs ++ (n, v) :: ys)) ∧ new = l_cells this (xs ++ (n, v) :: ys)).
Proof. exact (c21_insert m this xs ys v). Qed.
Print Assumptions C21_list_insert.
(** the inserted value may be an element of the list itself *)
Theorem C21_list_insert_own_element {V} (m : mem (lcell V)) this xs ys n0 v i :
  may_fail_alloc m → l_holds m this (xs ++ ys) → (xs ++ ys) !! i = Some (n0, v) →
  runs_to m (l_cells this (xs ++ ys)) (l_insert this (first ys this) (LElem n0) m) (λ r m' new, ∃ n,
    (r = n ∧ l_holds m' this (xs ++ (n, v) :: ys)) ∧ new = l_cells this (xs ++ (n, v) :: ys)).
Proof. exact (c21_insert_own m this xs ys n0 v i). Qed.
Print Assumptions C21_list_insert_own_element.
Theorem C21_list_emplace {V} (m : mem (lcell V)) this xs ys v :
  may_fail_alloc m → l_holds m this (xs ++ ys) →
  runs_to m (l_cells this (xs ++ ys)) (l_emplace this (first ys this) (LVal v) m) (λ r m' new, ∃ n,
    (r = n ∧ l_holds m' this (xs ++ (n, v) :: ys)) ∧ new = l_cells this (xs ++ (n, v) :: ys)).
Proof. exact (c21_emplace m this xs ys v). Qed.
Print Assumptions C21_list_emplace.
Theorem C21_list_erase {V} (m : mem (lcell V)) this xs n v ys :
  may_fail_alloc m → l_holds m this (xs ++ (n, v) :: ys) →
  ∃ m', l_erase this n m = Ok (first ys this) m' ∧ may_fail_alloc m' ∧ l_holds m' this (xs ++ ys) ∧
    replaces (l_cells this (xs ++ (n, v) :: ys)) m (l_cells this (xs ++ ys)) m'.
Proof. exact (c21_erase m this xs n v ys). Qed.
Print Assumptions C21_list_erase.
(** what a held iterator sees *)
Theorem C21_list_iterator {V} (m : mem (lcell V)) this xs n v ys :
  l_holds m this (xs ++ (n, v) :: ys) →
  l_value n m = Ok v m ∧ l_next n m = Ok (first ys this) m ∧ l_prev n m = Ok (final xs this) m.
Proof. exact (c21_iter m this xs n v ys). Qed.
Print Assumptions C21_list_iterator.
Example C21_example :
  may_fail_alloc (ex_list [] []) ∧ l_holds (ex_list [] []) 1%positive (take 1 ex_nodes ++ drop 1 ex_nodes) ∧
  match l_insert 1%positive 3%positive (LElem 2%positive) (ex_list [] []) with
  | Ok r m => r = 4%positive ∧ l_iterate 1%positive m = Ok [10; 10; 20] m ∧ l_value 3%positive m = Ok 20 m
  | _ => False
  end.
Proof.
  split; [split; [apply mem_wf_check; vm_compute; reflexivity|by repeat constructor]|].
  split; [apply ex_list_holds|]. vm_compute. done.
Qed.

(** ** C22.  In every reachable state there is one node per element and one
    sentinel per list, and nothing else; destroying a value twice, freeing a
    node twice or freeing one whose value is still alive is undefined behaviour
    in the model, and excluded by [refines_from]. *)
Theorem C22_list_no_leak {V} ao co :
  no_fail co → refines_from (lspec (V:=V)) l_run ∅ ∅ (λ s, s = ∅) (l_ok true) ao co.
Proof. exact (l_refines_fail ao co). Qed.
Print Assumptions C22_list_no_leak.
Theorem C22_list_nodes {V} (b : bool) ao co evs (s : gmap nat (list V)) env m :
  (b = false → no_fail ao) → no_fail co →
  l_hist ao co evs s env m → Forall (λ ev, l_ok b ev.1) evs →
  size (blk m) = map_fold (λ _ vs n, S (length vs) + n) 0 s.
Proof. exact (λ Hb Hco Hh Ho, proj2 (l_reach b ao co evs s env m Hb Hco Hh Ho)). Qed.
Print Assumptions C22_list_nodes.
Example C22_example :
  ∃ evs s env m, l_hist [false; true] [] evs (s : gmap nat (list nat)) env m ∧ Forall (λ ev, l_ok true ev.1) evs ∧
    size (blk m) = 3 ∧ length evs = 6.
Proof.
  destruct (exec lspec l_run ∅ ∅ (mem0 [false; true] [])
    [LNew 1; LPushBack 1 10; LPushBack 1 15; LPushBack 1 20; LNew 2; LErase 1 1]) as [[[[evs s] env] m]|] eqn:E;
    [|vm_compute in E; discriminate].
  exists evs, s, env, m. split; [by eapply exec_hist|].
  vm_compute in E. injection E as <- <- <- <-.
  split; [repeat constructor|]. split; vm_compute; reflexivity.
Qed.

(** ** C23 for lists: assigning a list to itself empties it. *)
Theorem C23_list_self_assignment_refuted {V} (m : mem (lcell V)) this nvs :
  may_fail_alloc m → l_holds m this nvs →
  ∃ m', l_assign this this m = Ok tt m' ∧ may_fail_alloc m' ∧ l_holds m' this [] ∧
    replaces (l_cells this nvs) m [this] m'.
Proof. exact (c23_self m this nvs). Qed.
Print Assumptions C23_list_self_assignment_refuted.
Example C23_list_example :
  may_fail_alloc (ex_list [] []) ∧ l_holds (ex_list [] []) 1%positive ex_nodes ∧
  match l_assign 1%positive 1%positive (ex_list [] []) with
  | Ok _ m => l_iterate 1%positive m = Ok [] m
  | _ => False
  end.
Proof.
  split; [split; [apply mem_wf_check; vm_compute; reflexivity|by repeat constructor]|].
  split; [apply ex_list_holds|]. vm_compute. done.
Qed.

(** ** C24.  [runs_to]: after a failed allocation the memory is exactly as
    before; see also C21_list_insert, C21_list_emplace and C22_list_no_leak. *)
Theorem C24_list_push {V} (m : mem (lcell V)) this nvs v :
  may_fail_alloc m → l_holds m this nvs →
  (∀ f, f ∈ [l_push_back this (LVal v); l_push_back_rv this (LVal v)] →
     runs_to m (l_cells this nvs) (f m) (λ _ m' new, ∃ n,
       (True ∧ l_holds m' this (nvs ++ [(n, v)])) ∧ new = l_cells this (nvs ++ [(n, v)]))) ∧
  (∀ f, f ∈ [l_push_front this (LVal v); l_push_front_rv this (LVal v)] →
     runs_to m (l_cells this nvs) (f m) (λ _ m' new, ∃ n,
       (True ∧ l_holds m' this ((n, v) :: nvs)) ∧ new = l_cells this ((n, v) :: nvs))) ∧
  runs_to m (l_cells this nvs) (l_emplace_back this (LVal v) m) (λ r m' new, ∃ n,
    (r = v ∧ l_holds m' this (nvs ++ [(n, v)])) ∧ new = l_cells this (nvs ++ [(n, v)])) ∧
  runs_to m (l_cells this nvs) (l_emplace_front this (LVal v) m) (λ r m' new, ∃ n,
    (r = v ∧ l_holds m' this ((n, v) :: nvs)) ∧ new = l_cells this ((n, v) :: nvs)).
Proof. exact (c24_push m this nvs v). Qed.
Print Assumptions C24_list_push.
(** the copy is complete and separate, or everything is as before *)
Theorem C24_list_copy {V} (m : mem (lcell V)) other ys :
  may_fail_alloc m → l_holds m other ys →
  runs_to m (l_cells other ys) (l_copy other m) (λ this m' new, ∃ xs,
    (xs.*2 = ys.*2 ∧ l_holds m' this xs ∧ l_holds m' other ys ∧
     (∀ l, l ∈ l_cells this xs → l ∉ l_cells other ys)) ∧ new = l_cells this xs ++ l_cells other ys).
Proof. exact (c24_copy m other ys). Qed.
Print Assumptions C24_list_copy.
(** An assignment in which an allocation fails leaves a valid list holding a
    prefix of the source. *)
Theorem C24_list_assign {V} (m : mem (lcell V)) this xs other ys :
  may_fail_alloc m → l_holds m this xs → l_holds m other ys →
  (∀ l, l ∈ l_cells this xs → l ∉ l_cells other ys) →
  match l_assign this other m with
  | Ok _ m' => ∃ zs, zs.*2 = ys.*2 ∧ l_holds m' this zs ∧ l_holds m' other ys ∧
      replaces (l_cells this xs ++ l_cells other ys) m (l_cells this zs ++ l_cells other ys) m'
  | Exn e m' => e = BadAlloc ∧ ∃ zs, zs.*2 `prefix_of` ys.*2 ∧ l_holds m' this zs ∧ l_holds m' other ys ∧
      replaces (l_cells this xs ++ l_cells other ys) m (l_cells this zs ++ l_cells other ys) m'
  | UB | Div => False
  end.
Proof. exact (c24_assign m this xs other ys). Qed.
Print Assumptions C24_list_assign.
(** failures are reported *)
Theorem C24_list_propagates {V} (m : mem (lcell V)) this nvs pos r o :
  aorc m = true :: o →
  (∃ m', l_insert this pos r m = Exn BadAlloc m') ∧
  (∃ m', l_emplace this pos r m = Exn BadAlloc m') ∧
  (l_holds m this nvs → ∃ m', l_push_front this r m = Exn BadAlloc m') ∧
  (∃ m', l_push_back this r m = Exn BadAlloc m').
Proof. exact (c24_throws m this nvs pos r o). Qed.
Print Assumptions C24_list_propagates.
Example C24_example :
  may_fail_alloc (ex_list [false; true] []) ∧ l_holds (ex_list [false; true] []) 1%positive ex_nodes ∧
  match l_copy 1%positive (ex_list [false; true] []) with
  | Exn e m => e = BadAlloc ∧ map_to_list (blk m) = map_to_list (blk (ex_list [] []))
  | _ => False
  end.
Proof.
  split; [split; [apply mem_wf_check; vm_compute; reflexivity|by repeat constructor]|].
  split; [apply ex_list_holds|]. vm_compute. done.
Qed.

(** ** C71 for lists: when copying the element throws, the list is as before
    but the new node's storage is never returned. *)
Theorem C71_list_insert_leaks_refuted {V} (m : mem (lcell V)) this pos v ao co :
  aorc m = ao → head ao ≠ Some true → corc m = true :: co →
  ∃ m', l_insert this pos (LVal v) m = Exn CopyThrow m' ∧
    blk m' = <[nxt m := LRaw]> (blk m).
Proof. exact (c71_leak m this pos v ao co). Qed.
Print Assumptions C71_list_insert_leaks_refuted.
Example C71_list_example :
  match l_push_back 1%positive (LVal 30) (ex_list [] [true]) with
  | Exn e m => size (blk m) = 4 ∧ l_iterate 1%positive m = Ok [10; 20] m
  | _ => False
  end.
Proof. vm_compute. done. Qed.

(** ** C118: with elements whose copies throw, every operation but assignment
    still behaves like the sequence, an operation that throws changes nothing,
    and all that can be left is one unused node for every throwing operation. *)
Theorem C118_list_refines_throwing {V} ao co :
  refines_leaking (lspec (V:=V)) l_run ∅ ∅ (λ s, s = ∅) (l_ok true) (λ c, c = LRaw) ao co.
Proof. exact (l_refines_leaking ao co). Qed.
Print Assumptions C118_list_refines_throwing.
Theorem C118_list_links_throwing {V} ao co evs (s : gmap nat (list V)) env m h vs :
  l_hist ao co evs s env m → Forall (λ ev, l_ok true ev.1) evs → s !! h = Some vs →
  ∃ l nvs, env !! h = Some l ∧ l_holds m l nvs ∧ nvs.*2 = vs.
Proof. exact (λ Hh Ho, proj1 (l_reach_any ao co evs s env m Hh Ho) h vs). Qed.
Print Assumptions C118_list_links_throwing.
(** the memory in use: a header per list, a node per element, and the lost nodes *)
Theorem C118_list_memory_throwing {V} ao co evs (s : gmap nat (list V)) env m :
  l_hist ao co evs s env m → Forall (λ ev, l_ok true ev.1) evs →
  size (blk m) ≤ map_fold (λ _ vs n, S (length vs) + n) 0 s + copy_throws evs.
Proof. exact (λ Hh Ho, proj2 (l_reach_any ao co evs s env m Hh Ho)). Qed.
Print Assumptions C118_list_memory_throwing.
(** a push, the assignment to an element and a copy of the list throw; then an
    allocation fails *)
Example C118_list_example :
  answers_of lspec l_run ∅ ∅ (mem0 [false; false; false; false; false; true] [false; true; false; true; false; true])
    [LNew 1; LPushBack 1 10; LPushFront 1 5; LPushBack 1 20; LSet 1 0 6; LCopy 2 1; LPushBack 1 30; LIter 1; LCopy 2 1;
     LIter 2; LDestroy 1; LDestroy 2]
  = Some [Ret LoUnit; Ret LoUnit; Threw CopyThrow; Ret LoUnit; Threw CopyThrow; Threw CopyThrow; Threw BadAlloc;
     Ret (LoList [10; 20]); Ret LoUnit; Ret (LoList [10; 20]); Ret LoUnit; Ret LoUnit].
Proof. vm_compute. reflexivity. Qed.
Example C118_list_example_state :
  ∃ evs s env m, l_hist [] [false; true; false; true] evs s env m ∧ Forall (λ ev, l_ok true ev.1) evs ∧
    s !! 1 = Some [10; 20] ∧ copy_throws evs = 2 ∧ size (blk m) = 4.
Proof.
  destruct (exec lspec l_run ∅ ∅ (mem0 [] [false; true; false; true])
    [LNew 1; LPushBack 1 10; LPushFront 1 5; LPushBack 1 20; LSet 1 0 6]) as [[[[evs s] env] m]|] eqn:E;
    [|vm_compute in E; discriminate].
  exists evs, s, env, m. split; [by eapply exec_hist|].
  vm_compute in E. injection E as <- <- <- <-. by repeat constructor.
Qed.
