(** cest::unique_ptr: property theorems C43, C44 and C116 (see
    /verif/properties.jsonl). *)
From Verif Require Import Mem Hist HistThrow HistProofs HistMore ModelUptr SpecUptr UptrProps.

Notation u_hist ao co evs s env m := (hist uspec u_run u_init (∅, ∅) (mem0 ao co) evs s env m).

(** ** C43.  Deleting an object twice, and using one that is deleted, is undefined
    behaviour in the model.  Allocations may fail. *)
Theorem C43_unique_ptr_refines {T} ao co :
  no_fail co → refines_from (uspec (T:=T)) u_run u_init (∅, ∅) u_gone (λ _, True) ao co.
Proof. exact (u_refines ao co). Qed.
Print Assumptions C43_unique_ptr_refines.
(** The same if the objects' constructors and assignments may throw: an operation
    that throws has no effect. *)
Theorem C43_unique_ptr_refines_throwing {T} ao co :
  refines_throwing (uspec (T:=T)) u_run u_init (∅, ∅) u_gone (λ _, True) ao co.
Proof. exact (u_refines_throwing ao co). Qed.
Print Assumptions C43_unique_ptr_refines_throwing.
Example C43_example_throwing :
  answers_of uspec u_run u_init (∅, ∅) (mem0 [false; true] [true; false; true])
    [UMake 0 0 5; UMake 0 0 5; UMake 0 0 5; UWrite 0 7; URead 0; UWrite 0 7; URead 0; UDestroy 0]
  = Some [Threw CopyThrow; Threw BadAlloc; Ret UoUnit; Threw CopyThrow; Ret (UoVal 5); Ret UoUnit; Ret (UoVal 7); Ret UoUnit].
Proof. vm_compute. reflexivity. Qed.
(** no two unique_ptrs own the same object, and what is owned is alive *)
Theorem C43_unique_ptr_one_owner {T} ao co evs (s : ustate T) env m h g o :
  u_hist ao co evs s env m →
  u_hs s !! h = Some (Some o) → u_hs s !! g = Some (Some o) → h = g ∧ is_Some (alive s o).
Proof. exact (u_unique ao co evs s env m h g o). Qed.
Print Assumptions C43_unique_ptr_one_owner.
(** In every reachable state memory holds the variables and the objects that
    are not yet deleted, and nothing else. *)
Theorem C43_unique_ptr_memory {T} ao co evs (s : ustate T) env m :
  u_hist ao co evs s env m →
  (∀ h x, u_hs s !! h = Some x →
     ∃ l, env.1 !! h = Some l ∧ blk m !! l = Some (UPtr (given o := x ;; env.2 !! o))) ∧
  (∀ o v, u_os s !! o = Some (Some v) → ∃ l, env.2 !! o = Some l ∧ blk m !! l = Some (UObj v)) ∧
  size (blk m) = size (u_hs s) + live_objs (u_os s).
Proof. exact (u_memory ao co evs s env m). Qed.
Print Assumptions C43_unique_ptr_memory.
(** Deletion, single calls: reset and the destructor delete exactly the owned
    object, release deletes nothing. *)
Theorem C43_unique_ptr_reset {T} (m : mem (ucell T)) l p n :
  blk m !! l = Some (UPtr p) → (∀ x, p = Some x → ∃ v, blk m !! x = Some (UObj v)) →
  ∃ m', u_reset l n m = Ok tt m' ∧
    blk m' = (match p with Some x => delete x | None => id end) (<[l := UPtr n]> (blk m)).
Proof. exact (ev_u_reset m l p n). Qed.
Print Assumptions C43_unique_ptr_reset.
Theorem C43_unique_ptr_destructor {T} (m : mem (ucell T)) l p :
  blk m !! l = Some (UPtr p) → (∀ x, p = Some x → ∃ v, blk m !! x = Some (UObj v)) →
  ∃ m', u_dtor l m = Ok tt m' ∧
    blk m' = delete l ((match p with Some x => delete x | None => id end) (blk m)).
Proof. exact (ev_u_dtor m l p). Qed.
Print Assumptions C43_unique_ptr_destructor.
Theorem C43_unique_ptr_release {T} (m : mem (ucell T)) l p :
  blk m !! l = Some (UPtr p) →
  ∃ m', u_release l m = Ok p m' ∧ blk m' = <[l := UPtr None]> (blk m).
Proof. exact (ev_u_release m l p). Qed.
Print Assumptions C43_unique_ptr_release.
(** make_unique: if allocation fails or the constructor throws, nothing is left *)
Theorem C43_make_unique {T} (m : mem (ucell T)) v :
  mem_wf m →
  match u_make v m with
  | Ok l m' => ∃ x, x ≠ l ∧ blk m !! x = None ∧ blk m !! l = None ∧
                    blk m' = <[l := UPtr (Some x)]> (<[x := UObj v]> (blk m))
  | Exn _ m' => blk m' = blk m
  | UB | Div => False
  end.
Proof. exact (ev_u_make m v). Qed.
Print Assumptions C43_make_unique.
Example C43_example :
  answers_of uspec u_run u_init (∅, ∅) (mem0 [false; true] [])
    [UMake 0 0 5; UMake 1 1 6; UMake 1 1 6; UNew 2; UMove 3 0; UIs 3 0; UBool 0; UAssign 2 3; UBool 3; URead 2; UAssign 1 2;
     URead 1; USame 1 2; UAssign 1 1; UWrite 1 9; URaw 2 7; UResetTo 1 2; URead 1; URelease 1; UReadRaw 2; USame 0 1;
     UDelete 2; UReset 2; UDestroy 0; UDestroy 1; UDestroy 2; URaw 3 4; UFrom 4 3; UDestroy 4; UDestroy 3]
  = Some [Ret UoUnit; Threw BadAlloc; Ret UoUnit; Ret UoUnit; Ret UoUnit; Ret (UoBool true); Ret (UoBool false); Ret UoUnit;
     Ret (UoBool false); Ret (UoVal 5); Ret UoUnit;
     Ret (UoVal 5); Ret (UoBool false); Ret UoUnit; Ret UoUnit; Ret UoUnit; Ret UoUnit; Ret (UoVal 7); Ret UoUnit;
     Ret (UoVal 7); Ret (UoBool true);
     Ret UoUnit; Ret UoUnit; Ret UoUnit; Ret UoUnit; Ret UoUnit; Ret UoUnit; Ret UoUnit; Ret UoUnit; Ret UoUnit].
Proof. vm_compute. reflexivity. Qed.
Example C43_example_state :
  ∃ evs s env m, u_hist [] [] evs s env m ∧ u_hs s !! 3 = Some (Some 0) ∧ u_hs s !! 0 = Some None ∧
    u_os s !! 0 = Some (Some 5) ∧ u_os s !! 1 = Some None.
Proof.
  destruct (exec uspec u_run u_init (∅, ∅) (mem0 [] []) [UMake 0 0 5; UMove 3 0; UMake 1 1 6; UReset 1])
    as [[[[evs s] env] m]|] eqn:E; [|vm_compute in E; discriminate].
  exists evs, s, env, m. split; [by eapply exec_hist|].
  vm_compute in E. injection E as <- <- <- <-. repeat split.
Qed.
(** a unique_ptr at 1 that owns the object 5 at 2, and an empty one at 3 *)
Notation ex_uptr := (Mem {[ 1%positive := UPtr (Some 2%positive); 2%positive := UObj 5; 3%positive := UPtr None ]} 4%positive [] []).
Example C43_example_calls :
  (∃ m, u_reset 1%positive None ex_uptr = Ok tt m ∧ blk m !! 1%positive = Some (UPtr None) ∧ size (blk m) = 2) ∧
  (∃ m, u_dtor 1%positive ex_uptr = Ok tt m ∧ size (blk m) = 1) ∧ mem_wf ex_uptr.
Proof.
  split; [eexists; repeat split; vm_compute; reflexivity|].
  split; [eexists; split; vm_compute; reflexivity|].
  apply mem_wf_check. vm_compute. reflexivity.
Qed.

(** ** C44: move construction empties the source and keeps the address, *)
Theorem C44_unique_ptr_move {T} (m : mem (ucell T)) l p :
  mem_wf m → blk m !! l = Some (UPtr p) →
  ∃ l' m', u_move l m = Ok l' m' ∧ blk m !! l' = None ∧ blk m' = <[l' := UPtr p]> (<[l := UPtr None]> (blk m)).
Proof. exact (ev_u_move m l p). Qed.
Print Assumptions C44_unique_ptr_move.
(** move assignment exchanges (also with itself) and deletes nothing. *)
Theorem C44_unique_ptr_assign {T} (m : mem (ucell T)) l l' p q :
  blk m !! l = Some (UPtr p) → blk m !! l' = Some (UPtr q) →
  ∃ m', u_assign l l' m = Ok tt m' ∧ blk m' = <[l := UPtr q]> (<[l' := UPtr p]> (blk m)).
Proof. exact (ev_u_assign m l l' p q). Qed.
Print Assumptions C44_unique_ptr_assign.
Example C44_example :
  (∃ l m, u_move 1%positive ex_uptr = Ok l m ∧ blk m !! l = Some (UPtr (Some 2%positive)) ∧ blk m !! 1%positive = Some (UPtr None)) ∧
  (∃ m, u_assign 3%positive 1%positive ex_uptr = Ok tt m ∧ blk m !! 3%positive = Some (UPtr (Some 2%positive))) ∧
  (∃ m, u_assign 1%positive 1%positive ex_uptr = Ok tt m ∧ blk m !! 1%positive = Some (UPtr (Some 2%positive))).
Proof.
  split; [do 2 eexists; repeat split; vm_compute; reflexivity|].
  split; eexists; split; vm_compute; reflexivity.
Qed.

(** ** C116: refuted.  After a = std::move(b) the standard's b is empty and a's
    former object is deleted; here b owns it. *)
Theorem C116_unique_ptr_assign_refuted :
  ¬ refines_from (uspec_std true) u_run u_init (∅, ∅) u_gone (λ op : uop nat, True) [] [].
Proof. exact (wrong_refutes _ _ _ _ _ _ _ _ _ _ _ _ u_assign_wrong uneq_refl (λ _ _, I)). Qed.
Print Assumptions C116_unique_ptr_assign_refuted.
(** It holds for assignments to variables that own nothing, and to itself. *)
Theorem C116_unique_ptr_assign_partial {T} ao co :
  refines_throwing (uspec_std (T:=T) false) u_run u_init (∅, ∅) u_gone (λ _, True) ao co.
Proof. exact (u_std_partial ao co). Qed.
Print Assumptions C116_unique_ptr_assign_partial.
Example C116_example :
  answers_of (uspec_std false) u_run u_init (∅, ∅) (mem0 [] [])
    [UMake 0 0 5; UNew 1; UAssign 1 0; UBool 0; URead 1; UAssign 1 1; URead 1; UDestroy 0; UDestroy 1]
  = Some [Ret UoUnit; Ret UoUnit; Ret UoUnit; Ret (UoBool false); Ret (UoVal 5); Ret UoUnit; Ret (UoVal 5); Ret UoUnit; Ret UoUnit].
Proof. vm_compute. reflexivity. Qed.
