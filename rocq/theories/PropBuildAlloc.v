(** Copying and assigning lists, forward_lists, sets and maps when the [j]-th
    allocation is the first to fail: property theorems C128 (see
    /verif/properties.jsonl).  Copies of elements do not throw here. *)
From Verif Require Import Mem Hist HistProofs ModelList SpecList ListProps ModelForward SpecForward ForwardProps.
From Verif Require Import ModelTree SpecTree TreeFacts TreeProps ListAlloc TreeAlloc.

(** ** C128: the copy fails when the allocation for one of the elements does,
    and gives everything back *)
Theorem C128_list_copy_failing {V} (m : mem (lcell V)) other ys j ao :
  may_fail_alloc m → l_holds m other ys → aorc m = replicate j false ++ true :: ao → j < length ys →
  ∃ m', l_copy other m = Exn BadAlloc m' ∧ blk m' = blk m.
Proof. exact (c128_copy m other ys j ao). Qed.
Print Assumptions C128_list_copy_failing.
(** the target is left with the first [j] elements of the source *)
Theorem C128_list_assign_failing {V} (m : mem (lcell V)) this xs other ys j ao :
  may_fail_alloc m → l_holds m this xs → l_holds m other ys →
  (∀ l, l ∈ l_cells this xs → l ∉ l_cells other ys) →
  aorc m = replicate j false ++ true :: ao → j < length ys →
  ∃ m' zs, l_assign this other m = Exn BadAlloc m' ∧ zs.*2 = take j ys.*2 ∧
    l_holds m' this zs ∧ l_holds m' other ys ∧
    replaces (l_cells this xs ++ l_cells other ys) m (l_cells this zs ++ l_cells other ys) m'.
Proof. exact (c128_assign m this xs other ys j ao). Qed.
Print Assumptions C128_list_assign_failing.
(** forward_list loses the [j] nodes it has made, their elements alive *)
Theorem C128_forward_list_copy_failing {V} (m : mem (fcell V)) other ys j ao :
  may_fail_alloc m → f_holds m other ys → aorc m = replicate j false ++ true :: ao → j < length ys →
  ∃ m' zs, f_copy other m = Exn BadAlloc m' ∧ zs.*2 = take j ys.*2 ∧ NoDup zs.*1 ∧
    (∀ as_ n v bs, zs = as_ ++ (n, v) :: bs → blk m' !! n = Some (FNode (ffirst bs None) (Some v))) ∧
    replaces [] m zs.*1 m'.
Proof. exact (c128_f_copy m other ys j ao). Qed.
Print Assumptions C128_forward_list_copy_failing.
Theorem C128_forward_list_assign_failing {V} (m : mem (fcell V)) this other ys j ao :
  may_fail_alloc m → f_holds m other ys → aorc m = replicate j false ++ true :: ao → j < length ys →
  ∃ m', f_copy other m = Exn BadAlloc m' ∧ f_assign this other m = Exn BadAlloc m' ∧
    ∀ xs, f_holds m this xs → f_holds m' this xs.
Proof. exact (c128_f_assign m this other ys j ao). Qed.
Print Assumptions C128_forward_list_assign_failing.
(** set and map *)
Theorem C128_tree_copy_failing {X K} (key : X → K) comp eqn (m : mem (tcell X)) other t0 j ao :
  strict_weak comp → iter_ok comp eqn → may_fail_alloc m →
  t_holds m other t0 → increasing key comp (nodes t0).*2 → red_black t0 →
  aorc m = replicate j false ++ true :: ao → j < length (nodes t0) →
  ∃ m', t_copy key comp eqn other m = Exn BadAlloc m' ∧ blk m' = blk m.
Proof. exact (λ Hsw, c128_t_copy key comp Hsw eqn m other t0 j ao). Qed.
Print Assumptions C128_tree_copy_failing.
Theorem C128_tree_assign_failing {X K} (key : X → K) comp eqn (m : mem (tcell X)) this t other t0 j ao :
  strict_weak comp → iter_ok comp eqn → may_fail_alloc m →
  t_holds m this t → t_holds m other t0 → increasing key comp (nodes t0).*2 → red_black t0 →
  (∀ l, l ∈ t_cells this t → l ∉ t_cells other t0) →
  aorc m = replicate j false ++ true :: ao → j < length (nodes t0) →
  ∃ m' t', t_assign key comp eqn this other m = Exn BadAlloc m' ∧
    (nodes t').*2 = take j (nodes t0).*2 ∧ red_black t' ∧ t_holds m' this t' ∧ t_holds m' other t0 ∧
    replaces (t_cells this t ++ t_cells other t0) m (t_cells this t' ++ t_cells other t0) m'.
Proof. exact (λ Hsw, c128_t_assign key comp Hsw eqn m this t other t0 j ao). Qed.
Print Assumptions C128_tree_assign_failing.

(** {10, 20, 30} at address 1 and {7} at address 5; [two_lists], [two_flists]
    and [two_sets] hold them as in PropListBuild.v and PropTreeBuild.v *)
Definition two_lists (ao : list bool) : mem (lcell nat) :=
  Mem {[ 1%positive := LHead 2%positive 4%positive 3;
         2%positive := LNode 3%positive 1%positive (Some 10);
         3%positive := LNode 4%positive 2%positive (Some 20);
         4%positive := LNode 1%positive 3%positive (Some 30);
         5%positive := LHead 6%positive 6%positive 1;
         6%positive := LNode 5%positive 5%positive (Some 7) ]} 7%positive ao [].
Definition two_flists (ao : list bool) : mem (fcell nat) :=
  Mem {[ 1%positive := FHead (Some 2%positive);
         2%positive := FNode (Some 3%positive) (Some 10);
         3%positive := FNode (Some 4%positive) (Some 20);
         4%positive := FNode None (Some 30);
         5%positive := FHead (Some 6%positive);
         6%positive := FNode None (Some 7) ]} 7%positive ao [].
Definition two_sets (ao : list bool) : mem (tcell nat) :=
  Mem {[ 1%positive := THead (Some 2%positive) (Some 3%positive) 3;
         2%positive := TNode (Some 20) (Some 3%positive) (Some 4%positive) None Black;
         3%positive := TNode (Some 10) None None (Some 2%positive) Red;
         4%positive := TNode (Some 30) None None (Some 2%positive) Red;
         5%positive := THead (Some 6%positive) (Some 6%positive) 1;
         6%positive := TNode (Some 7) None None None Black ]} 7%positive ao [].
Definition ex_src : list (loc * nat) := [(2%positive, 10); (3%positive, 20); (4%positive, 30)].
Definition src_tree : tree nat := T 2%positive 20 Black (T 3%positive 10 Red E E) (T 4%positive 30 Red E E).
Example C128_hypotheses ao :
  may_fail_alloc (two_lists ao) ∧ l_holds (two_lists ao) 1%positive ex_src ∧
  may_fail_alloc (two_flists ao) ∧ f_holds (two_flists ao) 1%positive ex_src ∧
  may_fail_alloc (two_sets ao) ∧ t_holds (two_sets ao) 1%positive src_tree ∧
  t_holds (two_sets ao) 5%positive (T 6%positive 7 Black E E) ∧
  strict_weak Nat.ltb ∧ iter_ok Nat.ltb None ∧ increasing (λ k, k) Nat.ltb (nodes src_tree).*2 ∧ red_black src_tree.
Proof.
  split; [split; [apply mem_wf_check; vm_compute; reflexivity|by repeat constructor]|].
  split; [split; [simpl; repeat constructor; set_solver|]; split; [done|];
    unfold ex_src; intros [|a [|b [|c [|d xs]]]] n v ys E; by simplify_eq/=|].
  split; [split; [apply mem_wf_check; vm_compute; reflexivity|by repeat constructor]|].
  split; [split; [simpl; repeat constructor; set_solver|]; split; [done|];
    unfold ex_src; intros [|a [|b [|c [|d xs]]]] n v ys E; by simplify_eq/=|].
  split; [split; [apply mem_wf_check; vm_compute; reflexivity|by repeat constructor]|].
  split; [split; [simpl; repeat constructor; set_solver|done]|].
  split; [split; [simpl; repeat constructor; set_solver|done]|].
  split; [split; intros *; rewrite ?Nat.ltb_irrefl, ?Nat.ltb_lt, ?Nat.ltb_ge; first [reflexivity|lia]|]. split; [exact I|].
  split; [simpl; repeat constructor|].
  apply red_black_rb. split; [done|]. exists 1. repeat constructor.
Qed.
(** the third allocation fails *)
Example C128_example :
  match l_copy 1%positive (two_lists [false; false; true]) with Exn BadAlloc m => size (blk m) = 6 | _ => False end ∧
  match l_assign 5%positive 1%positive (two_lists [false; false; true]) with
  | Exn BadAlloc m => size (blk m) = 7 ∧ l_iterate 5%positive m = Ok [10; 20] m
  | _ => False
  end ∧
  match f_assign 5%positive 1%positive (two_flists [false; false; true]) with
  | Exn BadAlloc m => size (blk m) = 8 ∧ f_iterate 5%positive m = Ok [7] m ∧
      blk m !! 8%positive = Some (FNode (Some 9%positive) (Some 10)) ∧ blk m !! 9%positive = Some (FNode None (Some 20))
  | _ => False
  end ∧
  match t_copy (λ k, k) Nat.ltb None 1%positive (two_sets [false; false; true]) with
  | Exn BadAlloc m => size (blk m) = 6
  | _ => False
  end ∧
  match t_assign (λ k, k) Nat.ltb None 5%positive 1%positive (two_sets [false; false; true]) with
  | Exn BadAlloc m => size (blk m) = 7 ∧ t_iterate (λ k, k) None 5%positive m = Ok [10; 20] m
  | _ => False
  end.
Proof. vm_compute. repeat split; reflexivity. Qed.
