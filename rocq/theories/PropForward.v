(** cest::forward_list: property theorems C25-C27, C23, C71 and C118 (see
    /verif/properties.jsonl). *)
From Verif Require Import Mem Hist HistThrow HistProofs ModelForward SpecForward ForwardHist ForwardProps.

Notation f_hist ao co evs s env m := (hist fspec f_run ∅ ∅ (mem0 ao co) evs s env m).
(** the list at 1 with the elements 10 (at 2) and 20 (at 3) *)
Notation ex_flist ao co := (Mem {[ 1%positive := FHead (Some 2%positive);
                                   2%positive := FNode (Some 3%positive) (Some 10);
                                   3%positive := FNode None (Some 20) ]} 4%positive ao co).
Notation ex_fnodes := [(2%positive, 10); (3%positive, 20)].
Example ex_flist_holds ao co : f_holds (ex_flist ao co) 1%positive ex_fnodes.
Proof.
  split; [simpl; repeat constructor; set_solver|]. split; [done|].
  intros [|a [|b [|c xs]]] n v ys E; by simplify_eq/=.
Qed.

(** ** C25 *)
Theorem C25_forward_list_refines_sequences {V} ao co :
  no_fail ao → no_fail co →
  refines_from (fspec (V:=V)) f_run ∅ ∅ (λ s, s = ∅) (λ _, True) ao co.
Proof. exact (f_refines_fair ao co). Qed.
Print Assumptions C25_forward_list_refines_sequences.
(** the links are right in every reachable state *)
Theorem C25_forward_list_links {V} (b : bool) ao co evs (s : gmap nat (list V)) env m h vs :
  (b = false → no_fail ao) → no_fail co →
  f_hist ao co evs s env m → Forall (λ ev, f_ok b ev.1) evs → s !! h = Some vs →
  ∃ l nvs, env !! h = Some l ∧ f_holds m l nvs ∧ nvs.*2 = vs.
Proof. exact (λ Hb Hco Hh Ho, proj1 (f_reach b ao co evs s env m Hb Hco Hh Ho) h vs). Qed.
Print Assumptions C25_forward_list_links.
(** inserting moves nothing, and undoes itself if the allocation fails *)
Theorem C25_forward_list_insert {V} (m : mem (fcell V)) this xs ys v :
  may_fail_alloc m → f_holds m this (xs ++ ys) →
  runs_to m (f_cells this (xs ++ ys)) (f_insert_after (Some (flast xs this)) (FVal v) m) (λ r m' new, ∃ n,
    (r = n ∧ f_holds m' this (xs ++ (n, v) :: ys)) ∧ new = f_cells this (xs ++ (n, v) :: ys)).
Proof. exact (c25_insert m this xs ys v). Qed.
Print Assumptions C25_forward_list_insert.

Example C25_example :
  answers_of fspec f_run ∅ ∅ (mem0 [] [])
    [FNew 1; FPushFront 1 3; FPushFront 1 1; FInsertAfter 1 1 2; FInsertElem 1 3 1 0; FIter 1; FCopy 2 1;
     FEraseRange 1 1 4; FIter 1; FSwap 1 2; FSwap 2 2; FIter 1; FIter 2; FAssign 1 1; FIter 1; FAssign 1 2; FSet 1 0 7;
     FEraseAfter 2 1; FPopFront 2; FEmpty 2; FFront 1; FGet 1 1; FEraseRange 1 0 3; FEmpty 1; FDestroy 1; FClear 2;
     FDestroy 2]
  = Some [Ret FoUnit; Ret FoUnit; Ret FoUnit; Ret (FoNat 1); Ret (FoNat 3); Ret (FoList [1; 2; 3; 1]);
     Ret FoUnit; Ret (FoNat 1); Ret (FoList [1; 1]); Ret FoUnit; Ret FoUnit; Ret (FoList [1; 2; 3; 1]);
     Ret (FoList [1; 1]); Ret FoUnit; Ret (FoList [1; 2; 3; 1]); Ret FoUnit; Ret FoUnit; Ret (FoNat 1);
     Ret FoUnit; Ret (FoBool true); Ret (FoVal 7); Ret (FoVal 1); Ret (FoNat 0); Ret (FoBool true); Ret FoUnit;
     Ret FoUnit; Ret FoUnit].
Proof. vm_compute. reflexivity. Qed.
Example C25_example_state :
  ∃ evs s env m, f_hist [false; true] [] evs s env m ∧ Forall (λ ev, f_ok true ev.1) evs ∧
    s !! 1 = Some [20; 10] ∧ length evs = 4.
Proof.
  destruct (exec fspec f_run ∅ ∅ (mem0 [false; true] [])
    [FNew 1; FPushFront 1 10; FPushFront 1 15; FPushFront 1 20]) as [[[[evs s] env] m]|] eqn:E;
    [|vm_compute in E; discriminate].
  exists evs, s, env, m. split; [by eapply exec_hist|].
  vm_compute in E. injection E as <- <- <- <-. repeat split. repeat constructor.
Qed.

(** ** C26.  Destroying a value twice, freeing a node twice or freeing one whose
    value is still alive is undefined behaviour in the model.  With failing
    allocations copies are excluded, see C27. *)
Theorem C26_forward_list_no_leak {V} ao co :
  no_fail co → refines_from (fspec (V:=V)) f_run ∅ ∅ (λ s, s = ∅) (f_ok true) ao co.
Proof. exact (f_refines_fail ao co). Qed.
Print Assumptions C26_forward_list_no_leak.
(** one node per element, in every reachable state *)
Theorem C26_forward_list_nodes {V} (b : bool) ao co evs (s : gmap nat (list V)) env m :
  (b = false → no_fail ao) → no_fail co →
  f_hist ao co evs s env m → Forall (λ ev, f_ok b ev.1) evs →
  size (blk m) = map_fold (λ _ vs n, S (length vs) + n) 0 s.
Proof. exact (λ Hb Hco Hh Ho, proj2 (f_reach b ao co evs s env m Hb Hco Hh Ho)). Qed.
Print Assumptions C26_forward_list_nodes.
(** exactly the nodes strictly between are freed *)
Theorem C26_forward_list_erase_range {V} (m : mem (fcell V)) this xs ys zs :
  may_fail_alloc m → f_holds m this (xs ++ ys ++ zs) →
  ∃ m', f_erase_range (Some (flast xs this)) (ffirst zs None) m = Ok (ffirst zs None) m' ∧
    may_fail_alloc m' ∧ f_holds m' this (xs ++ zs) ∧
    replaces (f_cells this (xs ++ ys ++ zs)) m (f_cells this (xs ++ zs)) m'.
Proof. exact (c26_erase_range m this xs ys zs). Qed.
Print Assumptions C26_forward_list_erase_range.
Theorem C26_forward_list_erase_after {V} (m : mem (fcell V)) this xs n v ys :
  may_fail_alloc m → f_holds m this (xs ++ (n, v) :: ys) →
  ∃ m', f_erase_after (Some (flast xs this)) m = Ok (ffirst ys None) m' ∧
    may_fail_alloc m' ∧ f_holds m' this (xs ++ ys) ∧
    replaces (f_cells this (xs ++ (n, v) :: ys)) m (f_cells this (xs ++ ys)) m'.
Proof. exact (c26_erase_after m this xs n v ys). Qed.
Print Assumptions C26_forward_list_erase_after.
Example C26_example :
  may_fail_alloc (ex_flist [] []) ∧ f_holds (ex_flist [] []) 1%positive (take 1 ex_fnodes ++ drop 1 ex_fnodes ++ []) ∧
  match f_erase_range (Some 2%positive) None (ex_flist [] []) with
  | Ok r m => r = None ∧ map_to_list (blk m) = [(1%positive, FHead (Some 2%positive)); (2%positive, FNode None (Some 10))]
  | _ => False
  end.
Proof.
  split; [split; [apply mem_wf_check; vm_compute; reflexivity|by repeat constructor]|].
  split; [apply ex_flist_holds|]. vm_compute. done.
Qed.

(** ** C27 does not hold: a copy interrupted by a failed allocation leaks the
    nodes made so far. *)
Theorem C27_forward_list_copy_leaks_refuted :
  ∃ m, may_fail_alloc m ∧ f_holds m 1%positive ex_fnodes ∧
    match f_copy 1%positive m with
    | Exn e m' => e = BadAlloc ∧ size (blk m) = 3 ∧ size (blk m') = 4 ∧
        blk m' !! 5%positive = Some (FNode None (Some 10))
    | _ => False
    end.
Proof.
  exists (ex_flist [false; true] []).
  split; [split; [apply mem_wf_check; vm_compute; reflexivity|by repeat constructor]|].
  split; [apply ex_flist_holds|]. vm_compute. done.
Qed.
Print Assumptions C27_forward_list_copy_leaks_refuted.
(** What does hold: the source is as before, and what leaks is exactly the
    nodes [zs] copied so far. *)
Theorem C27_forward_list_copy_partial {V} (m : mem (fcell V)) other ys :
  may_fail_alloc m → f_holds m other ys →
  match f_copy other m with
  | Ok this m' => ∃ zs, (zs.*2 = ys.*2 ∧ f_holds m' this zs ∧ f_holds m' other ys) ∧
      replaces (f_cells other ys) m (f_cells this zs ++ f_cells other ys) m'
  | Exn e m' => ∃ zs, (e = BadAlloc ∧ zs.*2 `prefix_of` ys.*2 ∧ f_holds m' other ys) ∧
      replaces (f_cells other ys) m (zs.*1 ++ f_cells other ys) m'
  | UB | Div => False
  end.
Proof. exact (c27_copy m other ys). Qed.
Print Assumptions C27_forward_list_copy_partial.
Theorem C27_forward_list_assign_partial {V} (m : mem (fcell V)) this xs other ys :
  may_fail_alloc m → f_holds m this xs → f_holds m other ys →
  (∀ l, l ∈ f_cells this xs → l ∉ f_cells other ys) →
  match f_assign this other m with
  | Ok _ m' => ∃ zs, (zs.*2 = ys.*2 ∧ f_holds m' this zs ∧ f_holds m' other ys) ∧
      replaces (f_cells this xs ++ f_cells other ys) m (f_cells this zs ++ f_cells other ys) m'
  | Exn e m' => ∃ zs, (e = BadAlloc ∧ zs.*2 `prefix_of` ys.*2 ∧ f_holds m' this xs ∧ f_holds m' other ys) ∧
      replaces (f_cells this xs ++ f_cells other ys) m (zs.*1 ++ f_cells this xs ++ f_cells other ys) m'
  | UB | Div => False
  end.
Proof. exact (c27_assign m this xs other ys). Qed.
Print Assumptions C27_forward_list_assign_partial.

(** ** C23 for forward_list: self-assignment keeps the contents. *)
Theorem C23_forward_list_self_assignment {V} (m : mem (fcell V)) this xs :
  may_fail_alloc m → f_holds m this xs →
  match f_assign this this m with
  | Ok _ m' => ∃ zs, (zs.*2 = xs.*2 ∧ f_holds m' this zs) ∧ replaces (f_cells this xs) m (f_cells this zs) m'
  | Exn e m' => ∃ zs, (e = BadAlloc ∧ zs.*2 `prefix_of` xs.*2 ∧ f_holds m' this xs) ∧
      replaces (f_cells this xs) m (zs.*1 ++ f_cells this xs) m'
  | UB | Div => False
  end.
Proof. exact (c23_fself m this xs). Qed.
Print Assumptions C23_forward_list_self_assignment.
Example C23_forward_list_example :
  match f_assign 1%positive 1%positive (ex_flist [] []) with
  | Ok _ m => f_iterate 1%positive m = Ok [10; 20] m
  | _ => False
  end ∧
  match f_assign 1%positive 1%positive (ex_flist [false; true] []) with
  | Exn _ m => f_iterate 1%positive m = Ok [10; 20] m
  | _ => False
  end.
Proof. vm_compute. done. Qed.

(** ** C71 for forward_list: when copying the element throws, the list is as
    before but the new node's storage is never returned. *)
Theorem C71_forward_list_insert_leaks_refuted {V} (m : mem (fcell V)) p nx v ao co :
  mem_wf m → f_next p m = Ok nx m →
  aorc m = ao → head ao ≠ Some true → corc m = true :: co →
  ∃ m', f_insert_after p (FVal v) m = Exn CopyThrow m' ∧ blk m' = <[nxt m := FRaw]> (blk m).
Proof. exact (c71_fleak m p nx v ao co). Qed.
Print Assumptions C71_forward_list_insert_leaks_refuted.
Example C71_forward_list_example :
  f_next (Some 2%positive) (ex_flist [] [true]) = Ok (Some 3%positive) (ex_flist [] [true]) ∧
  match f_push_front 1%positive (FVal 30) (ex_flist [] [true]) with
  | Exn e m => size (blk m) = 4 ∧ f_iterate 1%positive m = Ok [10; 20] m
  | _ => False
  end.
Proof. split; [reflexivity|]. vm_compute. done. Qed.

(** ** C118 for forward_list: with elements whose copies throw, every operation
    but the copy constructor and assignment (C27) still behaves like the
    sequence, an operation that throws changes nothing, and all that can be left
    is one unused node for every throwing operation. *)
Theorem C118_forward_list_refines_throwing {V} ao co :
  refines_leaking (fspec (V:=V)) f_run ∅ ∅ (λ s, s = ∅) (f_ok true) (λ c, c = FRaw) ao co.
Proof. exact (f_refines_leaking ao co). Qed.
Print Assumptions C118_forward_list_refines_throwing.
Theorem C118_forward_list_links_throwing {V} ao co evs (s : gmap nat (list V)) env m h vs :
  f_hist ao co evs s env m → Forall (λ ev, f_ok true ev.1) evs → s !! h = Some vs →
  ∃ l nvs, env !! h = Some l ∧ f_holds m l nvs ∧ nvs.*2 = vs.
Proof. exact (λ Hh Ho, proj1 (f_reach_any ao co evs s env m Hh Ho) h vs). Qed.
Print Assumptions C118_forward_list_links_throwing.
(** the memory in use: a header per list, a node per element, and the lost nodes *)
Theorem C118_forward_list_memory_throwing {V} ao co evs (s : gmap nat (list V)) env m :
  f_hist ao co evs s env m → Forall (λ ev, f_ok true ev.1) evs →
  size (blk m) ≤ map_fold (λ _ vs n, S (length vs) + n) 0 s + copy_throws evs.
Proof. exact (λ Hh Ho, proj2 (f_reach_any ao co evs s env m Hh Ho)). Qed.
Print Assumptions C118_forward_list_memory_throwing.
Example C118_forward_list_example :
  answers_of fspec f_run ∅ ∅ (mem0 [false; false; false; true] [false; true; false; true])
    [FNew 1; FPushFront 1 10; FInsertAfter 1 1 5; FInsertAfter 1 1 20; FSet 1 0 6; FPushFront 1 30; FIter 1;
     FDestroy 1]
  = Some [Ret FoUnit; Ret FoUnit; Threw CopyThrow; Ret (FoNat 1); Threw CopyThrow; Threw BadAlloc;
     Ret (FoList [10; 20]); Ret FoUnit].
Proof. vm_compute. reflexivity. Qed.
Example C118_forward_list_example_state :
  ∃ evs s env m, f_hist [] [false; true; false; true] evs s env m ∧ Forall (λ ev, f_ok true ev.1) evs ∧
    s !! 1 = Some [10; 20] ∧ copy_throws evs = 2 ∧ size (blk m) = 4.
Proof.
  destruct (exec fspec f_run ∅ ∅ (mem0 [] [false; true; false; true])
    [FNew 1; FPushFront 1 10; FInsertAfter 1 1 5; FInsertAfter 1 1 20; FSet 1 0 6]) as [[[[evs s] env] m]|] eqn:E;
    [|vm_compute in E; discriminate].
  exists evs, s, env, m. split; [by eapply exec_hist|].
  vm_compute in E. injection E as <- <- <- <-. by repeat constructor.
Qed.
