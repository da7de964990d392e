(** Copying and assigning sets and maps when the copy of an element throws:
    property theorems C126 (see /verif/properties.jsonl).  As in PropTree.v,
    [key] gives the key of an element and [eqn] the test used by operator++. *)
From Verif Require Import Mem Hist HistProofs ModelTree SpecTree TreeFacts TreeProps TreeThrow TreeBuild.

(** ** C126: the [j]-th copy is the first that throws; every element is copied
    twice.  The copy constructor delegates to the default one, so the destructor
    runs, and reads the node in which nothing was constructed. *)
Theorem C126_copy_throwing {X K} (key : X → K) comp eqn (m : mem (tcell X)) other t0 j co :
  strict_weak comp → iter_ok comp eqn → mem_wf m → no_fail (aorc m) →
  t_holds m other t0 → increasing key comp (nodes t0).*2 → red_black t0 →
  corc m = replicate j false ++ true :: co → j < 2 * length (nodes t0) →
  t_copy key comp eqn other m = UB.
Proof. exact (λ Hsw, c126_copy key comp Hsw eqn m other t0 j co). Qed.
Print Assumptions C126_copy_throwing.
(** Assignment leaves the elements before the one that could not be copied, and
    a node in which nothing was constructed, hanging where that element belongs
    (C120_torn_readable, C120_torn_undefined: what can still be done with it). *)
Theorem C126_assign_throwing {X K} (key : X → K) comp eqn (m : mem (tcell X)) this t other t0 j co q x :
  strict_weak comp → iter_ok comp eqn → mem_wf m → no_fail (aorc m) →
  t_holds m this t → t_holds m other t0 → increasing key comp (nodes t0).*2 → red_black t0 →
  (∀ l, l ∈ t_cells this t → l ∉ t_cells other t0) →
  corc m = replicate j false ++ true :: co → nodes t0 !! (j / 2) = Some (q, x) →
  ∃ m' zs n, t_assign key comp eqn this other m = Exn CopyThrow m' ∧
    (nodes (fill zs E)).*2 = take (j / 2) (nodes t0).*2 ∧ red_black (fill zs E) ∧ belongs key comp (key x) zs ∧
    t_torn m' this zs n x ∧ t_holds m' other t0 ∧
    replaces (t_cells this t ++ t_cells other t0) m ((n :: t_cells this (fill zs E)) ++ t_cells other t0) m'.
Proof. exact (λ Hsw, c126_assign key comp Hsw eqn m this t other t0 j co q x). Qed.
Print Assumptions C126_assign_throwing.

(** Two sets: {10, 20, 30} at address 1 and {7} at address 5. *)
Definition src_tree : tree nat := T 2%positive 20 Black (T 3%positive 10 Red E E) (T 4%positive 30 Red E E).
Definition dst_tree : tree nat := T 6%positive 7 Black E E.
Definition two_sets (co : list bool) : mem (tcell nat) :=
  Mem {[ 1%positive := THead (Some 2%positive) (Some 3%positive) 3;
         2%positive := TNode (Some 20) (Some 3%positive) (Some 4%positive) None Black;
         3%positive := TNode (Some 10) None None (Some 2%positive) Red;
         4%positive := TNode (Some 30) None None (Some 2%positive) Red;
         5%positive := THead (Some 6%positive) (Some 6%positive) 1;
         6%positive := TNode (Some 7) None None None Black ]} 7%positive [] co.
Example two_sets_hold co :
  strict_weak Nat.ltb ∧ iter_ok Nat.ltb None ∧ mem_wf (two_sets co) ∧
  t_holds (two_sets co) 1%positive src_tree ∧ t_holds (two_sets co) 5%positive dst_tree ∧
  increasing (λ k, k) Nat.ltb (nodes src_tree).*2 ∧ red_black src_tree ∧
  (∀ l, l ∈ t_cells 5%positive dst_tree → l ∉ t_cells 1%positive src_tree).
Proof.
  split; [split; intros *; rewrite ?Nat.ltb_irrefl, ?Nat.ltb_lt, ?Nat.ltb_ge; first [reflexivity|lia]|]. split; [exact I|].
  split; [apply mem_wf_check; vm_compute; reflexivity|].
  split; [split; [simpl; repeat constructor; set_solver|done]|].
  split; [split; [simpl; repeat constructor; set_solver|done]|].
  split; [simpl; repeat constructor|]. split; [|unfold t_cells; simpl; set_solver].
  apply red_black_rb. split; [done|]. exists 1. repeat constructor.
Qed.
(** the fourth copy throws: 10 is there, 20 is not *)
Example C126_example :
  nodes src_tree !! (3 / 2) = Some (2%positive, 20) ∧
  match t_assign (λ k, k) Nat.ltb None 5%positive 1%positive (two_sets [false; false; false; true]) with
  | Exn CopyThrow m => t_size 5%positive m = Ok 1 m ∧ t_begin 5%positive m = Ok (Some 7%positive) m ∧
      t_value (Some 7%positive) m = Ok 10 m ∧ blk m !! 8%positive = Some TRaw ∧ t_dtor 5%positive m = UB
  | _ => False
  end ∧
  t_copy (λ k, k) Nat.ltb None 1%positive (two_sets [false; false; false; true]) = UB ∧
  t_copy (λ k, k) Nat.ltb None 1%positive (two_sets [true]) = UB ∧
  match t_copy (λ k, k) Nat.ltb None 1%positive (two_sets (replicate 6 false ++ [true])) with Ok _ m => corc m = [true] | _ => False end.
Proof. split; [reflexivity|]. vm_compute. repeat split; reflexivity. Qed.
