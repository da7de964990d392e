(** How many allocations and copies of elements copying and assigning lists,
    forward_lists, sets and maps takes: property theorems C129 (see
    /verif/properties.jsonl).  What happens after those is not restricted:
    [ao] and [co] are arbitrary. *)
From Verif Require Import Mem Hist HistProofs ModelList SpecList ListProps ModelForward SpecForward ForwardProps.
From Verif Require Import ModelTree SpecTree TreeFacts TreeProps ListCost TreeCost.

(** ** C129: copying [n] elements takes [n] allocations and [n] copies, and
    succeeds when those do *)
Theorem C129_list_copy_cost {V} (m : mem (lcell V)) other ys ao co :
  mem_wf m → l_holds m other ys →
  aorc m = replicate (length ys) false ++ ao → corc m = replicate (length ys) false ++ co →
  ∃ this m' zs, l_copy other m = Ok this m' ∧ aorc m' = ao ∧ corc m' = co ∧ zs.*2 = ys.*2 ∧
    l_holds m' this zs ∧ replaces [] m (l_cells this zs) m'.
Proof. exact (c129_copy m other ys ao co). Qed.
Print Assumptions C129_list_copy_cost.
Theorem C129_list_assign_cost {V} (m : mem (lcell V)) this xs other ys ao co :
  mem_wf m → l_holds m this xs → l_holds m other ys →
  (∀ l, l ∈ l_cells this xs → l ∉ l_cells other ys) →
  aorc m = replicate (length ys) false ++ ao → corc m = replicate (length ys) false ++ co →
  ∃ m' zs, l_assign this other m = Ok tt m' ∧ aorc m' = ao ∧ corc m' = co ∧ zs.*2 = ys.*2 ∧
    l_holds m' this zs ∧ l_holds m' other ys ∧
    replaces (l_cells this xs ++ l_cells other ys) m (l_cells this zs ++ l_cells other ys) m'.
Proof. exact (c129_assign m this xs other ys ao co). Qed.
Print Assumptions C129_list_assign_cost.
Theorem C129_forward_list_copy_cost {V} (m : mem (fcell V)) other ys ao co :
  mem_wf m → f_holds m other ys →
  aorc m = replicate (length ys) false ++ ao → corc m = replicate (length ys) false ++ co →
  ∃ this m' zs, f_copy other m = Ok this m' ∧ aorc m' = ao ∧ corc m' = co ∧ zs.*2 = ys.*2 ∧
    f_holds m' this zs ∧ replaces [] m (f_cells this zs) m'.
Proof. exact (c129_f_copy m other ys ao co). Qed.
Print Assumptions C129_forward_list_copy_cost.
(** [this] may be [other] here *)
Theorem C129_forward_list_assign_cost {V} (m : mem (fcell V)) this xs other ys ao co :
  mem_wf m → f_holds m this xs → f_holds m other ys →
  aorc m = replicate (length ys) false ++ ao → corc m = replicate (length ys) false ++ co →
  ∃ m' zs, f_assign this other m = Ok tt m' ∧ aorc m' = ao ∧ corc m' = co ∧ zs.*2 = ys.*2 ∧
    f_holds m' this zs ∧ replaces (f_cells this xs) m (f_cells this zs) m'.
Proof. exact (c129_f_assign m this xs other ys ao co). Qed.
Print Assumptions C129_forward_list_assign_cost.
(** set and map copy every element twice *)
Theorem C129_tree_copy_cost {X K} (key : X → K) comp eqn (m : mem (tcell X)) other t0 ao co :
  strict_weak comp → iter_ok comp eqn → mem_wf m →
  t_holds m other t0 → increasing key comp (nodes t0).*2 → red_black t0 →
  aorc m = replicate (length (nodes t0)) false ++ ao → corc m = replicate (2 * length (nodes t0)) false ++ co →
  ∃ this m' t, t_copy key comp eqn other m = Ok this m' ∧ aorc m' = ao ∧ corc m' = co ∧
    (nodes t).*2 = (nodes t0).*2 ∧ red_black t ∧ t_holds m' this t ∧ replaces [] m (t_cells this t) m'.
Proof. exact (λ Hsw, c129_t_copy key comp Hsw eqn m other t0 ao co). Qed.
Print Assumptions C129_tree_copy_cost.
Theorem C129_tree_assign_cost {X K} (key : X → K) comp eqn (m : mem (tcell X)) this t other t0 ao co :
  strict_weak comp → iter_ok comp eqn → mem_wf m →
  t_holds m this t → t_holds m other t0 → increasing key comp (nodes t0).*2 → red_black t0 →
  (∀ l, l ∈ t_cells this t → l ∉ t_cells other t0) →
  aorc m = replicate (length (nodes t0)) false ++ ao → corc m = replicate (2 * length (nodes t0)) false ++ co →
  ∃ m' t', t_assign key comp eqn this other m = Ok tt m' ∧ aorc m' = ao ∧ corc m' = co ∧
    (nodes t').*2 = (nodes t0).*2 ∧ red_black t' ∧ t_holds m' this t' ∧ t_holds m' other t0 ∧
    replaces (t_cells this t ++ t_cells other t0) m (t_cells this t' ++ t_cells other t0) m'.
Proof. exact (λ Hsw, c129_t_assign key comp Hsw eqn m this t other t0 ao co). Qed.
Print Assumptions C129_tree_assign_cost.

(** {10, 20} at address 1 and {7} at address 4 *)
Definition pair_lists (ao co : list bool) : mem (lcell nat) :=
  Mem {[ 1%positive := LHead 2%positive 3%positive 2;
         2%positive := LNode 3%positive 1%positive (Some 10);
         3%positive := LNode 1%positive 2%positive (Some 20);
         4%positive := LHead 5%positive 5%positive 1;
         5%positive := LNode 4%positive 4%positive (Some 7) ]} 6%positive ao co.
Definition pair_flists (ao co : list bool) : mem (fcell nat) :=
  Mem {[ 1%positive := FHead (Some 2%positive);
         2%positive := FNode (Some 3%positive) (Some 10);
         3%positive := FNode None (Some 20);
         4%positive := FHead (Some 5%positive);
         5%positive := FNode None (Some 7) ]} 6%positive ao co.
Definition pair_sets (ao co : list bool) : mem (tcell nat) :=
  Mem {[ 1%positive := THead (Some 2%positive) (Some 3%positive) 2;
         2%positive := TNode (Some 20) (Some 3%positive) None None Black;
         3%positive := TNode (Some 10) None None (Some 2%positive) Red;
         4%positive := THead (Some 5%positive) (Some 5%positive) 1;
         5%positive := TNode (Some 7) None None None Black ]} 6%positive ao co.
Definition ex_two : list (loc * nat) := [(2%positive, 10); (3%positive, 20)].
Definition two_tree : tree nat := T 2%positive 20 Black (T 3%positive 10 Red E E) E.
Example C129_hypotheses ao co :
  mem_wf (pair_lists ao co) ∧ l_holds (pair_lists ao co) 1%positive ex_two ∧ l_holds (pair_lists ao co) 4%positive [(5%positive, 7)] ∧
  mem_wf (pair_flists ao co) ∧ f_holds (pair_flists ao co) 1%positive ex_two ∧ f_holds (pair_flists ao co) 4%positive [(5%positive, 7)] ∧
  mem_wf (pair_sets ao co) ∧ t_holds (pair_sets ao co) 1%positive two_tree ∧
  t_holds (pair_sets ao co) 4%positive (T 5%positive 7 Black E E) ∧
  strict_weak Nat.ltb ∧ iter_ok Nat.ltb None ∧ increasing (λ k, k) Nat.ltb (nodes two_tree).*2 ∧ red_black two_tree.
Proof.
  split; [apply mem_wf_check; vm_compute; reflexivity|].
  split; [split; [simpl; repeat constructor; set_solver|]; split; [done|];
    unfold ex_two; intros [|a [|b [|c xs]]] n v ys E; by simplify_eq/=|].
  split; [split; [simpl; repeat constructor; set_solver|]; split; [done|]; intros [|a [|b xs]] n v ys E; by simplify_eq/=|].
  split; [apply mem_wf_check; vm_compute; reflexivity|].
  split; [split; [simpl; repeat constructor; set_solver|]; split; [done|];
    unfold ex_two; intros [|a [|b [|c xs]]] n v ys E; by simplify_eq/=|].
  split; [split; [simpl; repeat constructor; set_solver|]; split; [done|]; intros [|a [|b xs]] n v ys E; by simplify_eq/=|].
  split; [apply mem_wf_check; vm_compute; reflexivity|].
  split; [split; [simpl; repeat constructor; set_solver|done]|].
  split; [split; [simpl; repeat constructor; set_solver|done]|].
  split; [split; intros *; rewrite ?Nat.ltb_irrefl, ?Nat.ltb_lt, ?Nat.ltb_ge; first [reflexivity|lia]|]. split; [exact I|].
  split; [simpl; repeat constructor|].
  apply red_black_rb. split; [done|]. exists 1. repeat constructor.
Qed.
(** the third allocation and the third copy (the fifth, for the set) would fail *)
Definition third : list bool := [false; false; true].
Definition fifth : list bool := [false; false; false; false; true].
Example C129_example :
  match l_copy 1%positive (pair_lists third third) with
  | Ok this m => l_iterate this m = Ok [10; 20] m ∧ aorc m = [true] ∧ corc m = [true] | _ => False end ∧
  match l_assign 4%positive 1%positive (pair_lists third third) with
  | Ok _ m => l_iterate 4%positive m = Ok [10; 20] m ∧ aorc m = [true] ∧ corc m = [true] | _ => False end ∧
  match f_copy 1%positive (pair_flists third third) with
  | Ok this m => f_iterate this m = Ok [10; 20] m ∧ aorc m = [true] ∧ corc m = [true] | _ => False end ∧
  match f_assign 4%positive 1%positive (pair_flists third third) with
  | Ok _ m => f_iterate 4%positive m = Ok [10; 20] m ∧ aorc m = [true] ∧ corc m = [true] | _ => False end ∧
  match t_copy (λ k, k) Nat.ltb None 1%positive (pair_sets third fifth) with
  | Ok this m => t_iterate (λ k, k) None this m = Ok [10; 20] m ∧ aorc m = [true] ∧ corc m = [true] | _ => False end ∧
  match t_assign (λ k, k) Nat.ltb None 4%positive 1%positive (pair_sets third fifth) with
  | Ok _ m => t_iterate (λ k, k) None 4%positive m = Ok [10; 20] m ∧ aorc m = [true] ∧ corc m = [true] | _ => False end.
Proof. vm_compute. repeat split; reflexivity. Qed.
