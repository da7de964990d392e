(** How many allocations and copies of elements an insertion into a list,
    forward_list, set or map takes: property theorems C130 (see
    /verif/properties.jsonl).  Later allocations and copies ([ao], [co]) may
    fail. *)
From Verif Require Import Mem Hist HistProofs ModelList SpecList ListProps ModelForward SpecForward ForwardProps.
From Verif Require Import ModelTree SpecTree TreeFacts TreeProps ListInsertCost TreeInsertCost.

(** ** C130: one allocation and one copy for list and forward_list *)
Theorem C130_list_insert_cost {V} (m : mem (lcell V)) this xs ys v ao co :
  mem_wf m → l_holds m this (xs ++ ys) → aorc m = false :: ao → corc m = false :: co →
  ∃ n m', l_insert this (first ys this) (LVal v) m = Ok n m' ∧ aorc m' = ao ∧ corc m' = co ∧
    l_holds m' this (xs ++ (n, v) :: ys) ∧ replaces (l_cells this (xs ++ ys)) m (l_cells this (xs ++ (n, v) :: ys)) m'.
Proof. exact (c130_l_insert m this xs ys v ao co). Qed.
Print Assumptions C130_list_insert_cost.
Theorem C130_forward_list_insert_cost {V} (m : mem (fcell V)) this xs ys v ao co :
  mem_wf m → f_holds m this (xs ++ ys) → aorc m = false :: ao → corc m = false :: co →
  ∃ n m', f_insert_after (Some (flast xs this)) (FVal v) m = Ok n m' ∧ aorc m' = ao ∧ corc m' = co ∧
    f_holds m' this (xs ++ (n, v) :: ys) ∧ replaces (f_cells this (xs ++ ys)) m (f_cells this (xs ++ (n, v) :: ys)) m'.
Proof. exact (c130_f_insert m this xs ys v ao co). Qed.
Print Assumptions C130_forward_list_insert_cost.
(** set and map: nothing is allocated or copied, and nothing can throw, if an
    equivalent key is there *)
Theorem C130_tree_insert_found {X K} (key : X → K) comp (m : mem (tcell X)) this t v x :
  strict_weak comp → mem_wf m → t_holds m this t → increasing key comp (nodes t).*2 → red_black t →
  lookup_key key comp (key v) (nodes t).*2 = Some x →
  ∃ q m', t_insert key comp this v m = Ok (q, false) m' ∧ (q, x) ∈ nodes t ∧
    blk m' = blk m ∧ aorc m' = aorc m ∧ corc m' = corc m.
Proof. exact (λ Hsw, c130_found key comp Hsw m this t v x). Qed.
Print Assumptions C130_tree_insert_found.
(** if not, and the allocation succeeds, the next two copies decide; C120 says
    what memory is like in each case *)
Theorem C130_tree_insert_absent {X K} (key : X → K) comp (m : mem (tcell X)) this t v ao b1 b2 co :
  strict_weak comp → mem_wf m → t_holds m this t → increasing key comp (nodes t).*2 → red_black t →
  lookup_key key comp (key v) (nodes t).*2 = None → aorc m = false :: ao → corc m = b1 :: b2 :: co →
  if b1 || b2 then ∃ m', t_insert key comp this v m = Exn CopyThrow m'
  else ∃ n m', t_insert key comp this v m = Ok (n, true) m' ∧ aorc m' = ao ∧ corc m' = co.
Proof. exact (λ Hsw, c130_absent key comp Hsw m this t v ao b1 b2 co). Qed.
Print Assumptions C130_tree_insert_absent.

(** {10, 20} at address 1 *)
Definition cost_list (ao co : list bool) : mem (lcell nat) :=
  Mem {[ 1%positive := LHead 2%positive 3%positive 2;
         2%positive := LNode 3%positive 1%positive (Some 10);
         3%positive := LNode 1%positive 2%positive (Some 20) ]} 4%positive ao co.
Definition cost_flist (ao co : list bool) : mem (fcell nat) :=
  Mem {[ 1%positive := FHead (Some 2%positive);
         2%positive := FNode (Some 3%positive) (Some 10);
         3%positive := FNode None (Some 20) ]} 4%positive ao co.
Definition cost_set (ao co : list bool) : mem (tcell nat) :=
  Mem {[ 1%positive := THead (Some 2%positive) (Some 3%positive) 2;
         2%positive := TNode (Some 20) (Some 3%positive) None None Black;
         3%positive := TNode (Some 10) None None (Some 2%positive) Red ]} 4%positive ao co.
Definition cost_tree : tree nat := T 2%positive 20 Black (T 3%positive 10 Red E E) E.
Example C130_hypotheses ao co :
  mem_wf (cost_list ao co) ∧ l_holds (cost_list ao co) 1%positive ([(2%positive, 10)] ++ [(3%positive, 20)]) ∧
  mem_wf (cost_flist ao co) ∧ f_holds (cost_flist ao co) 1%positive ([(2%positive, 10)] ++ [(3%positive, 20)]) ∧
  mem_wf (cost_set ao co) ∧ t_holds (cost_set ao co) 1%positive cost_tree ∧
  strict_weak Nat.ltb ∧ increasing (λ k, k) Nat.ltb (nodes cost_tree).*2 ∧ red_black cost_tree ∧
  lookup_key (λ k, k) Nat.ltb 20 (nodes cost_tree).*2 = Some 20 ∧ lookup_key (λ k, k) Nat.ltb 15 (nodes cost_tree).*2 = None.
Proof.
  split; [apply mem_wf_check; vm_compute; reflexivity|].
  split; [split; [simpl; repeat constructor; set_solver|]; split; [done|]; intros [|a [|b [|c xs]]] n v ys E; by simplify_eq/=|].
  split; [apply mem_wf_check; vm_compute; reflexivity|].
  split; [split; [simpl; repeat constructor; set_solver|]; split; [done|]; intros [|a [|b [|c xs]]] n v ys E; by simplify_eq/=|].
  split; [apply mem_wf_check; vm_compute; reflexivity|].
  split; [split; [simpl; repeat constructor; set_solver|done]|].
  split; [split; intros *; rewrite ?Nat.ltb_irrefl, ?Nat.ltb_lt, ?Nat.ltb_ge; first [reflexivity|lia]|].
  split; [simpl; repeat constructor|].
  split; [apply red_black_rb; split; [done|]; exists 1; repeat constructor|]. split; reflexivity.
Qed.
Example C130_example :
  match l_insert 1%positive 3%positive (LVal 15) (cost_list [false; true] [false; true]) with
  | Ok _ m => l_iterate 1%positive m = Ok [10; 15; 20] m ∧ aorc m = [true] ∧ corc m = [true] | _ => False end ∧
  match f_insert_after (Some 2%positive) (FVal 15) (cost_flist [false; true] [false; true]) with
  | Ok _ m => f_iterate 1%positive m = Ok [10; 15; 20] m ∧ aorc m = [true] ∧ corc m = [true] | _ => False end ∧
  match t_insert (λ k, k) Nat.ltb 1%positive 15 (cost_set [false; true] [false; false; true]) with
  | Ok (_, true) m => t_iterate (λ k, k) None 1%positive m = Ok [10; 15; 20] m ∧ aorc m = [true] ∧ corc m = [true] | _ => False end ∧
  match t_insert (λ k, k) Nat.ltb 1%positive 20 (cost_set [true] [true]) with
  | Ok (q, false) m => q = 2%positive ∧ aorc m = [true] ∧ corc m = [true] | _ => False end ∧
  match t_insert (λ k, k) Nat.ltb 1%positive 15 (cost_set [false] [false; true]) with Exn CopyThrow _ => True | _ => False end.
Proof. vm_compute. repeat split; reflexivity. Qed.
