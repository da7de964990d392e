(** nary::swap and nary::swapr: property theorems for C50. *)
From Verif Require Import Mem ModelSwap SpecSwap SwapProofs.

(** three variables holding 10, 20 and 30, and one more *)
Definition ex_vars : mem (option nat) :=
  Mem {[ 1%positive := Some 10; 2%positive := Some 20; 3%positive := Some 30; 4%positive := Some 40 ]} 5%positive [] [].

Theorem C50_swap_rotates {T} (ls : list loc) (m : mem (option T)) vs :
  NoDup ls → var_holds m ls vs →
  ∃ m', swap_vars ls m = Ok tt m' ∧ var_holds m' ls (rotate_left vs) ∧ only_writes ls m m'.
Proof. exact (swap_ok ls m vs). Qed.
Print Assumptions C50_swap_rotates.
Theorem C50_swapr_rotates {T} (ls : list loc) (m : mem (option T)) vs :
  NoDup ls → var_holds m ls vs →
  ∃ m', swapr_vars ls m = Ok tt m' ∧ var_holds m' ls (rotate_right vs) ∧ only_writes ls m m'.
Proof. exact (swapr_ok ls m vs). Qed.
Print Assumptions C50_swapr_rotates.
Theorem C50_swapr_after_swap {T} (ls : list loc) (m : mem (option T)) vs :
  NoDup ls → var_holds m ls vs →
  ∃ m', (swap_vars ls ;;; swapr_vars ls) m = Ok tt m' ∧ var_holds m' ls vs ∧ only_writes ls m m'.
Proof. exact (inverse_ok ls m vs). Qed.
Print Assumptions C50_swapr_after_swap.
Theorem C50_swap_after_swapr {T} (ls : list loc) (m : mem (option T)) vs :
  NoDup ls → var_holds m ls vs →
  ∃ m', (swapr_vars ls ;;; swap_vars ls) m = Ok tt m' ∧ var_holds m' ls vs ∧ only_writes ls m m'.
Proof. exact (inverse'_ok ls m vs). Qed.
Print Assumptions C50_swap_after_swapr.
Theorem C50_two_arguments {T} (m : mem (option T)) x y v w :
  x ≠ y → blk m !! x = Some (Some v) → blk m !! y = Some (Some w) →
  (∃ m', swap_vars [x; y] m = Ok tt m' ∧ blk m' = <[x := Some w]> (<[y := Some v]> (blk m))) ∧
  (∃ m', swapr_vars [x; y] m = Ok tt m' ∧ blk m' = <[x := Some w]> (<[y := Some v]> (blk m))).
Proof. exact (two_ok m x y v w). Qed.
Print Assumptions C50_two_arguments.
Theorem C50_at_most_one_argument {T} (m : mem (option T)) ls vs :
  length ls ≤ 1 → var_holds m ls vs →
  ∃ m1 m2, swap_vars ls m = Ok tt m1 ∧ swapr_vars ls m = Ok tt m2 ∧ blk m1 = blk m ∧ blk m2 = blk m.
Proof. exact (small_ok m ls vs). Qed.
Print Assumptions C50_at_most_one_argument.
Example C50_example :
  NoDup [1%positive; 2%positive; 3%positive] ∧ var_holds ex_vars [1%positive; 2%positive; 3%positive] [10; 20; 30] ∧
  match swap_vars [1%positive; 2%positive; 3%positive] ex_vars with
  | Ok _ m => blk m !! 1%positive = Some (Some 20) ∧ blk m !! 2%positive = Some (Some 30) ∧
      blk m !! 3%positive = Some (Some 10) ∧ blk m !! 4%positive = Some (Some 40)
  | _ => False
  end ∧
  match swapr_vars [1%positive; 2%positive; 3%positive] ex_vars with
  | Ok _ m => blk m !! 1%positive = Some (Some 30) ∧ blk m !! 2%positive = Some (Some 10) ∧
      blk m !! 3%positive = Some (Some 20) ∧ blk m !! 4%positive = Some (Some 40)
  | _ => False
  end.
Proof. split; [repeat constructor; set_solver|]. split; [repeat constructor|]. vm_compute. done. Qed.
Example C50_rotations : rotate_left [1; 2; 3; 4] = [2; 3; 4; 1] ∧ rotate_right [1; 2; 3; 4] = [4; 1; 2; 3].
Proof. done. Qed.
