(** Copying and assigning lists and forward_lists when the copy of an element
    throws: property theorems C127 (see /verif/properties.jsonl). *)
From Verif Require Import Mem Hist HistProofs ModelList SpecList ListProps ModelForward SpecForward ForwardProps ListBuild ForwardBuild.

(** ** C127: the [j]-th copy is the first that throws.
    list: the constructor delegates to list(), so the destructor runs and gives
    back all nodes but the one in which nothing was constructed. *)
Theorem C127_list_copy_throwing {V} (m : mem (lcell V)) other ys j co :
  mem_wf m → no_fail (aorc m) → l_holds m other ys →
  corc m = replicate j false ++ true :: co → j < length ys →
  ∃ m' r, l_copy other m = Exn CopyThrow m' ∧ blk m !! r = None ∧ blk m' = <[r := LRaw]> (blk m).
Proof. exact (c127_copy m other ys j co). Qed.
Print Assumptions C127_list_copy_throwing.
(** Assignment has destroyed the old elements by then: the target is left with
    the first [j] elements of the source. *)
Theorem C127_list_assign_throwing {V} (m : mem (lcell V)) this xs other ys j co :
  mem_wf m → no_fail (aorc m) → l_holds m this xs → l_holds m other ys →
  (∀ l, l ∈ l_cells this xs → l ∉ l_cells other ys) →
  corc m = replicate j false ++ true :: co → j < length ys →
  ∃ m' zs r, l_assign this other m = Exn CopyThrow m' ∧ zs.*2 = take j ys.*2 ∧
    l_holds m' this zs ∧ l_holds m' other ys ∧ blk m' !! r = Some LRaw ∧
    replaces (l_cells this xs ++ l_cells other ys) m (r :: l_cells this zs ++ l_cells other ys) m'.
Proof. exact (c127_assign m this xs other ys j co). Qed.
Print Assumptions C127_list_assign_throwing.
(** forward_list: the constructor does not delegate, so the destructor does not
    run: the [j] nodes made, their elements still alive, and the one in which
    nothing was constructed are all lost.  Nothing else changes. *)
Theorem C127_forward_list_copy_throwing {V} (m : mem (fcell V)) other ys j co :
  mem_wf m → no_fail (aorc m) → f_holds m other ys →
  corc m = replicate j false ++ true :: co → j < length ys →
  ∃ m' zs r, f_copy other m = Exn CopyThrow m' ∧ zs.*2 = take j ys.*2 ∧ NoDup (r :: zs.*1) ∧
    blk m' !! r = Some FRaw ∧
    (∀ as_ n v bs, zs = as_ ++ (n, v) :: bs → blk m' !! n = Some (FNode (ffirst bs None) (Some v))) ∧
    replaces [] m (r :: zs.*1) m'.
Proof. exact (c127_f_copy m other ys j co). Qed.
Print Assumptions C127_forward_list_copy_throwing.
(** Assignment copies first: the same, so the target keeps its elements. *)
Theorem C127_forward_list_assign_throwing {V} (m : mem (fcell V)) this other ys j co :
  mem_wf m → no_fail (aorc m) → f_holds m other ys →
  corc m = replicate j false ++ true :: co → j < length ys →
  ∃ m', f_copy other m = Exn CopyThrow m' ∧ f_assign this other m = Exn CopyThrow m' ∧
    ∀ xs, f_holds m this xs → f_holds m' this xs.
Proof. exact (c127_f_assign m this other ys j co). Qed.
Print Assumptions C127_forward_list_assign_throwing.

(** {10, 20, 30} at address 1 and {7} at address 5 *)
Definition ex_src : list (loc * nat) := [(2%positive, 10); (3%positive, 20); (4%positive, 30)].
Definition ex_dst : list (loc * nat) := [(6%positive, 7)].
Definition two_lists (co : list bool) : mem (lcell nat) :=
  Mem {[ 1%positive := LHead 2%positive 4%positive 3;
         2%positive := LNode 3%positive 1%positive (Some 10);
         3%positive := LNode 4%positive 2%positive (Some 20);
         4%positive := LNode 1%positive 3%positive (Some 30);
         5%positive := LHead 6%positive 6%positive 1;
         6%positive := LNode 5%positive 5%positive (Some 7) ]} 7%positive [] co.
Definition two_flists (co : list bool) : mem (fcell nat) :=
  Mem {[ 1%positive := FHead (Some 2%positive);
         2%positive := FNode (Some 3%positive) (Some 10);
         3%positive := FNode (Some 4%positive) (Some 20);
         4%positive := FNode None (Some 30);
         5%positive := FHead (Some 6%positive);
         6%positive := FNode None (Some 7) ]} 7%positive [] co.
Example two_lists_hold co :
  mem_wf (two_lists co) ∧ l_holds (two_lists co) 1%positive ex_src ∧ l_holds (two_lists co) 5%positive ex_dst ∧
  (∀ l, l ∈ l_cells 5%positive ex_dst → l ∉ l_cells 1%positive ex_src) ∧
  mem_wf (two_flists co) ∧ f_holds (two_flists co) 1%positive ex_src ∧ f_holds (two_flists co) 5%positive ex_dst.
Proof.
  split; [apply mem_wf_check; vm_compute; reflexivity|].
  split; [split; [simpl; repeat constructor; set_solver|]; split; [done|];
    unfold ex_src; intros [|a [|b [|c [|d xs]]]] n v ys E; by simplify_eq/=|].
  split; [split; [simpl; repeat constructor; set_solver|]; split; [done|];
    unfold ex_dst; intros [|a [|b xs]] n v ys E; by simplify_eq/=|].
  split; [unfold l_cells; simpl; set_solver|].
  split; [apply mem_wf_check; vm_compute; reflexivity|].
  split; [split; [simpl; repeat constructor; set_solver|]; split; [done|];
    unfold ex_src; intros [|a [|b [|c [|d xs]]]] n v ys E; by simplify_eq/=|].
  split; [simpl; repeat constructor; set_solver|]; split; [done|];
    unfold ex_dst; intros [|a [|b xs]] n v ys E; by simplify_eq/=.
Qed.
(** the third copy throws *)
Example C127_example :
  match l_copy 1%positive (two_lists [false; false; true]) with
  | Exn CopyThrow m => size (blk m) = 7 ∧ blk m !! 10%positive = Some LRaw
  | _ => False
  end ∧
  match l_assign 5%positive 1%positive (two_lists [false; false; true]) with
  | Exn CopyThrow m => size (blk m) = 8 ∧ l_iterate 5%positive m = Ok [10; 20] m ∧ l_iterate 1%positive m = Ok [10; 20; 30] m
  | _ => False
  end ∧
  match f_assign 5%positive 1%positive (two_flists [false; false; true]) with
  | Exn CopyThrow m => size (blk m) = 9 ∧ f_iterate 5%positive m = Ok [7] m ∧ f_iterate 1%positive m = Ok [10; 20; 30] m ∧
      blk m !! 8%positive = Some (FNode (Some 9%positive) (Some 10)) ∧
      blk m !! 9%positive = Some (FNode None (Some 20)) ∧ blk m !! 10%positive = Some FRaw
  | _ => False
  end.
Proof. vm_compute. repeat split; reflexivity. Qed.
