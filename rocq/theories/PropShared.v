(** cest::shared_ptr: property theorems C45-C48, C76-C78 and C113-C115 (see
    /verif/properties.jsonl). *)
From Verif Require Import Mem Hist HistThrow HistProofs HistMore ModelShared ModelRace SpecShared SharedProps.

Notation s_hist ao co evs s env m := (hist (sspec false) s_exec s_init (∅, ∅) (mem0 ao co) evs s env m).

(** ** C45.  [sspec false] is the standard's shared_ptr without copying an empty
    one (C47), assigning between groups (C46), moving (C77), == (C76) and what
    C114 and C115 refute.
    Running a deleter or a destructor twice on an object shows in its value, or
    is undefined; a deleter that does not run leaves the object behind.
    Allocations may fail. *)
Theorem C45_shared_ptr_refines {T} ao co :
  no_fail co → refines_from (sspec (T:=T) false) s_exec s_init (∅, ∅) s_gone (λ _, True) ao co.
Proof. exact (s_refines ao co). Qed.
Print Assumptions C45_shared_ptr_refines.
(** The same if the objects' constructors and assignments may throw: an operation
    that throws has no effect. *)
Theorem C45_shared_ptr_refines_throwing {T} ao co :
  refines_throwing (sspec (T:=T) false) s_exec s_init (∅, ∅) s_gone (λ _, True) ao co.
Proof. exact (s_refines_throwing ao co). Qed.
Print Assumptions C45_shared_ptr_refines_throwing.
Example C45_example_throwing :
  answers_of (sspec false) s_exec s_init (∅, ∅) (mem0 [false; false; true] [false; true; false; false; true])
    [SRawArr 0 [4; 5]; SRawArr 0 [4; 5]; SFrom 0 (Some 0) DDeleteArr; SFrom 0 (Some 0) DDeleteArr; SPut 0 1 7; SAt 0 1; SPut 0 1 7; SAt 0 1;
     SDestroy 0]
  = Some [Threw CopyThrow; Ret SoUnit; Threw BadAlloc; Ret SoUnit; Threw CopyThrow; Ret (SoVal 5); Ret SoUnit; Ret (SoVal 7); Ret SoUnit].
Proof. vm_compute. reflexivity. Qed.
(** In every reachable state a control block's count is the number of
    variables in its group, and holds the pointer and the deleter originally
    given; memory holds nothing else. *)
Theorem C45_shared_ptr_memory {T} ao co evs (s : sstate T) env m :
  s_hist ao co evs s env m →
  (∀ h g o, s_hs s !! h = Some (Some (g, o)) →
     ∃ l c o' d, env.1 !! h = Some l ∧ s_gs s !! g = Some (o', d) ∧
       blk m !! l = Some (SHandle (given o := o ;; env.2 !! o) (Some c)) ∧
       blk m !! c = Some (SCtrl (Z.of_nat (owners (s_hs s) g)) (given o := o' ;; env.2 !! o) d)) ∧
  (∀ h, s_hs s !! h = Some None → ∃ l, env.1 !! h = Some l ∧ blk m !! l = Some (SHandle None None)) ∧
  (∀ o v, s_os s !! o = Some (Some v) → ∃ l, env.2 !! o = Some l ∧ blk m !! l = Some (SObj v.1 v.2)) ∧
  size (blk m) = size (s_hs s) + size (s_gs s) + s_live_objs (s_os s).
Proof. exact (s_memory ao co evs s env m). Qed.
Print Assumptions C45_shared_ptr_memory.
(** a group exists exactly as long as it has variables *)
Theorem C45_shared_ptr_groups {T} ao co evs (s : sstate T) env m g :
  s_hist ao co evs s env m → is_Some (s_gs s !! g) ↔ 0 < owners (s_hs s) g.
Proof. exact (s_groups ao co evs s env m g). Qed.
Print Assumptions C45_shared_ptr_groups.
Theorem C45_shared_ptr_copy {T} (m : mem (scell T)) l p c n q d :
  mem_wf m → blk m !! l = Some (SHandle p (Some c)) → blk m !! c = Some (SCtrl n q d) →
  ∃ l' m', s_copy l m = Ok l' m' ∧ blk m !! l' = None ∧
    blk m' = <[c := SCtrl (n + 1) q d]> (<[l' := SHandle p (Some c)]> (blk m)).
Proof. exact (ev_s_copy m l p c n q d). Qed.
Print Assumptions C45_shared_ptr_copy.
(** a deleter that adds 100 to the object, and the default one *)
Example C45_example :
  answers_of (sspec false) s_exec s_init (∅, ∅) (mem0 [false; true] [])
    [SRaw 0 5; SFrom 0 (Some 0) (DDelete YSame); SFrom 0 (Some 0) (DRun YSame 3 (λ n, n + 100)); SCopy 1 0; SRaw 1 7; SAlias 2 1 (Some 1); SCount 0; SRead 2;
     SDestroy 0; SAssign 2 1; SRead 2; SCount 2; SDestroy 1; SReadRaw 0; SDestroy 2; SReadRaw 0;
     SFrom 3 (Some 1) (DDelete YSame); SFrom 4 None (DDelete YSame); SBool 4; SCount 4; SNew 5; SCount 5; SAssign 5 5; SCopy 6 3; SIs 6 1; SWrite 3 8; SDestroy 3;
     SRead 6; SDestroy 6; SDelete KOne 0; SDestroy 4; SDestroy 5]
  = Some [Ret SoUnit; Threw BadAlloc; Ret SoUnit; Ret SoUnit; Ret SoUnit; Ret SoUnit; Ret (SoNum 3); Ret (SoVal 7);
     Ret SoUnit; Ret SoUnit; Ret (SoVal 5); Ret (SoNum 2); Ret SoUnit; Ret (SoVal 5); Ret SoUnit; Ret (SoVal 105);
     Ret SoUnit; Ret SoUnit; Ret (SoBool false); Ret (SoNum 1); Ret SoUnit; Ret (SoNum 0); Ret SoUnit; Ret SoUnit; Ret (SoBool true); Ret SoUnit;
     Ret SoUnit; Ret (SoVal 8); Ret SoUnit; Ret SoUnit; Ret SoUnit; Ret SoUnit].
Proof. vm_compute. reflexivity. Qed.
Example C45_example_state :
  ∃ evs s env m, s_hist [] [] evs s env m ∧ s_hs s !! 1 = Some (Some (0, Some 0)) ∧ s_hs s !! 2 = Some (Some (0, None)) ∧
    owners (s_hs s) 0 = 2 ∧ s_os s !! 0 = Some (Some (KOne, [5])).
Proof.
  destruct (exec (sspec false) s_exec s_init (∅, ∅) (mem0 [] [])
    [SRaw 0 5; SFrom 0 (Some 0) (DDelete YSame); SCopy 1 0; SAlias 2 1 None; SDestroy 0])
    as [[[[evs s] env] m]|] eqn:E; [|vm_compute in E; discriminate].
  exists evs, s, env, m. split; [by eapply exec_hist|].
  vm_compute in E. injection E as <- <- <- <-. repeat split.
Qed.
Notation ex_shared := (Mem {[ 1%positive := SHandle (Some 2%positive) (Some 3%positive); 2%positive := SObj KOne [5];
                              3%positive := SCtrl 1 (Some 2%positive) (DDelete YSame); 4%positive := SHandle None None ]} 5%positive [] []).
Example C45_example_copy :
  mem_wf ex_shared ∧ ∃ l m, s_copy 1%positive ex_shared = Ok l m ∧ blk m !! 3%positive = Some (SCtrl 2 (Some 2%positive) (DDelete YSame)).
Proof. split; [apply mem_wf_check; vm_compute; reflexivity|]. do 2 eexists. split; vm_compute; reflexivity. Qed.

(** ** C46: refuted.  Assignment copies the two pointers and leaves both counts
    alone, whatever they are. *)
Theorem C46_shared_ptr_assign_refuted :
  ¬ refines_from (sspec true) s_exec s_init (∅, ∅) s_gone (λ op, only is_assign op = true) [] [].
Proof. exact (wrong_refutes _ _ _ _ _ _ _ _ _ _ _ _ assign_wrong sneq_refl (λ _ H, H)). Qed.
Print Assumptions C46_shared_ptr_assign_refuted.
Theorem C46_shared_ptr_dangling_refuted :
  wrong (sspec true) s_exec sneq (only is_assign) s_init (∅, ∅) (mem0 [] [])
    [SRaw 0 5; SRaw 1 6; SFrom 0 (Some 0) (DDelete YSame); SFrom 1 (Some 1) (DDelete YSame); SAssign 0 1; SDestroy 1] (SRead 0) = true.
Proof. exact assign_dangling. Qed.
Print Assumptions C46_shared_ptr_dangling_refuted.
Theorem C46_shared_ptr_assign_effect {T} (m : mem (scell T)) l l' p c p' c' :
  blk m !! l = Some (SHandle p c) → blk m !! l' = Some (SHandle p' c') →
  ∃ m', s_assign l l' m = Ok tt m' ∧ blk m' = <[l := SHandle p' c']> (blk m).
Proof. exact (ev_s_assign m l l' p c p' c'). Qed.
Print Assumptions C46_shared_ptr_assign_effect.
(** Within a group, between empty ones and to itself assignment is right; this
    is part of [sspec false]. *)
Theorem C46_shared_ptr_assign_partial {T} ao co :
  no_fail co → refines_from (sspec (T:=T) false) s_exec s_init (∅, ∅) s_gone (λ _, True) ao co.
Proof. exact (s_refines ao co). Qed.
Print Assumptions C46_shared_ptr_assign_partial.
Example C46_example :
  answers_of (sspec false) s_exec s_init (∅, ∅) (mem0 [] [])
    [SRaw 0 5; SRaw 1 6; SFrom 0 (Some 0) (DDelete YSame); SAlias 1 0 (Some 1); SAssign 1 0; SRead 1; SCount 1; SAssign 0 0; SDestroy 0; SCount 1; SDestroy 1;
     SDelete KOne 1]
  = Some [Ret SoUnit; Ret SoUnit; Ret SoUnit; Ret SoUnit; Ret SoUnit; Ret (SoVal 5); Ret (SoNum 2); Ret SoUnit; Ret SoUnit; Ret (SoNum 1); Ret SoUnit;
     Ret SoUnit].
Proof. vm_compute. reflexivity. Qed.

(** ** C47: refuted, for every empty shared_ptr *)
Theorem C47_shared_ptr_copy_empty_refuted {T} (m : mem (scell T)) l p :
  blk m !! l = Some (SHandle p None) → s_copy l m = UB.
Proof. exact (ev_s_copy_empty m l p). Qed.
Print Assumptions C47_shared_ptr_copy_empty_refuted.
Theorem C47_shared_ptr_history_refuted :
  ¬ refines_from (sspec true) s_exec s_init (∅, ∅) s_gone (λ op, only (λ _, false) op = true) [] [].
Proof. exact (wrong_refutes _ _ _ _ _ _ _ _ _ _ _ _ copy_empty_wrong sneq_refl (λ _ H, H)). Qed.
Print Assumptions C47_shared_ptr_history_refuted.
Example C47_example : blk ex_shared !! 4%positive = Some (SHandle None None) ∧ s_copy 4%positive ex_shared = UB.
Proof. split; vm_compute; reflexivity. Qed.

(** ** C48: refuted.  Two threads destroy their own variables; both read the
    count 2 and write 1, so that nobody deletes the object. *)
Theorem C48_shared_ptr_leak_refuted :
  match schedule [dtor_thr 1%positive TDone; dtor_thr 2%positive TDone] [0; 1; 0; 1] race_mem with
  | Ok [TDone; TDone] m =>
      map_to_list (blk m) = [(3%positive, SCtrl 1 (Some 4%positive) (DDelete YSame)); (4%positive, SObj KOne [5])] ∨
      map_to_list (blk m) = [(4%positive, SObj KOne [5]); (3%positive, SCtrl 1 (Some 4%positive) (DDelete YSame))]
  | _ => False
  end.
Proof. exact race_leak. Qed.
Print Assumptions C48_shared_ptr_leak_refuted.
(** Two threads copy and destroy; an increment is lost, and a destructor meets a
    deleted control block. *)
Theorem C48_shared_ptr_dangling_refuted :
  schedule [copy_thr 1%positive (λ l, dtor_thr l (dtor_thr 1%positive TDone));
            copy_thr 2%positive (λ l, dtor_thr l (dtor_thr 2%positive TDone))]
    [0; 1; 0; 1; 0; 0; 0; 0; 1; 1; 1; 1] race_mem = UB.
Proof. exact race_dangling. Qed.
Print Assumptions C48_shared_ptr_dangling_refuted.
(** These threads do what the sequential model does, if not interrupted. *)
Theorem C48_shared_ptr_threads_model {T} (m : mem (scell T)) r k :
  alone (copy_thr r k) m = (l <- s_copy r ;; alone (k l)) m.
Proof. exact (alone_copy r k m). Qed.
Print Assumptions C48_shared_ptr_threads_model.
Theorem C48_shared_ptr_threads_model' {T} (m : mem (scell T)) l k :
  alone (dtor_thr l k) m = (s_dtor l ;;; alone k) m.
Proof. exact (alone_dtor l k m). Qed.
Print Assumptions C48_shared_ptr_threads_model'.
(** If each copy and each destruction is uninterrupted, every schedule of any
    number of threads works: [own] says which thread a variable belongs to,
    [L i] are the variables thread [i] has at first and [F i] at last. *)
Theorem C48_shared_ptr_atomic_partial {T} ao co evs (s : sstate T) env m (own : nat → nat) g o v sched (L F : nat → gset nat) :
  no_fail ao → no_fail co → s_hist ao co evs s env m →
  (∀ h x, s_hs s !! h = Some x → in_group g x) → s_hs s ≠ ∅ →
  s_gs s !! g = Some (Some o, (DDelete YSame)) → s_os s !! o = Some (Some (KOne, v)) →
  (∀ h, is_Some (s_hs s !! h) ↔ h ∈ L (own h)) →
  Forall (λ p, Forall (λ h, own h = p.1) (mentions p.2)) sched →
  (∀ i, live_run (L i) (ops_of i sched) = Some (F i)) →
  ∃ evs' s' env' m', exec (sspec false) s_exec s env m sched.*2 = Some (evs', s', env', m') ∧
    Forall (λ ev, ¬ threw ev) evs' ∧
    (∀ h, is_Some (s_hs s' !! h) ↔ h ∈ F (own h)) ∧ owners (s_hs s') g = size (s_hs s') ∧
    if decide (s_hs s' = ∅) then s_os s' = <[o := None]> (s_os s) ∧ s_gs s' = delete g (s_gs s)
    else s_os s' = s_os s ∧ s_gs s' = s_gs s.
Proof. exact (threads_run ao co evs s env m own g o v sched L F). Qed.
Print Assumptions C48_shared_ptr_atomic_partial.
(** threads 0 (even variables) and 1 (odd ones) *)
Example C48_example :
  let own h := Nat.modulo h 2 in
  let L i := match i with 0 => {[ 0 ]} | 1 => {[ 1 ]} | _ => ∅ end : gset nat in
  let sched := [(0, SCopy 2 0); (1, SCopy 3 1); (1, SCount 3); (0, SDestroy 0); (1, SDestroy 3); (0, SDestroy 2); (1, SDestroy 1)] in
  (∀ i, live_run (T:=nat) (L i) (ops_of i sched) = Some ∅) ∧
  Forall (λ p, Forall (λ h, own h = p.1) (mentions p.2)) sched ∧
  (answers_of (sspec false) s_exec s_init (∅, ∅) (mem0 [] []) ([SRaw 0 5; SFrom 0 (Some 0) (DDelete YSame); SCopy 1 0] ++ sched.*2) =
   Some (Ret <$> [SoUnit; SoUnit; SoUnit; SoUnit; SoUnit; SoNum 4; SoUnit; SoUnit; SoUnit; SoUnit])).
Proof.
  split; [intros [|[|i]]; [apply (bool_decide_unpack _); vm_compute; exact I..|reflexivity]|]. split; [repeat constructor|vm_compute; reflexivity].
Qed.

(** ** C76: refuted.  a == b compares whether they are null. *)
Theorem C76_shared_ptr_eq_refuted :
  ¬ refines_from (sspec true) s_exec s_init (∅, ∅) s_gone (λ op, only is_eq op = true) [] [].
Proof. exact (wrong_refutes _ _ _ _ _ _ _ _ _ _ _ _ eq_wrong sneq_refl (λ _ H, H)). Qed.
Print Assumptions C76_shared_ptr_eq_refuted.
Theorem C76_shared_ptr_eq_effect {T} (m : mem (scell T)) l l' p c p' c' :
  blk m !! l = Some (SHandle p c) → blk m !! l' = Some (SHandle p' c') →
  s_eq l l' m = Ok (bool_decide (p = None ↔ p' = None)) m.
Proof. exact (ev_s_eq m l l' p c p' c'). Qed.
Print Assumptions C76_shared_ptr_eq_effect.
Example C76_example : s_eq 1%positive 4%positive ex_shared = Ok false ex_shared.
Proof. vm_compute. reflexivity. Qed.

(** ** C77: refuted.  Moving is copying; the source keeps its share. *)
Theorem C77_shared_ptr_move_refuted :
  ¬ refines_from (sspec true) s_exec s_init (∅, ∅) s_gone (λ op, only is_move op = true) [] [].
Proof. exact (wrong_refutes _ _ _ _ _ _ _ _ _ _ _ _ move_wrong sneq_refl (λ _ H, H)). Qed.
Print Assumptions C77_shared_ptr_move_refuted.

(** ** C78: refuted.  If the control block cannot be allocated, the object is
    left alone. *)
Theorem C78_shared_ptr_leak_refuted {T} (m : mem (scell T)) p d o :
  aorc m = true :: o → ∃ m', s_from p d m = Exn BadAlloc m' ∧ blk m' = blk m.
Proof. exact (ev_s_from_fail m p d o). Qed.
Print Assumptions C78_shared_ptr_leak_refuted.
Example C78_example :
  let m := Mem {[ 1%positive := SObj KOne [5] ]} 2%positive [true] [] in
  ∃ m', s_from (Some 1%positive) (DDelete YSame) m = Exn BadAlloc m' ∧ blk m' !! 1%positive = Some (SObj KOne [5]).
Proof. eexists. split; vm_compute; reflexivity. Qed.

(** ** C113.  shared_ptr<T[]>: arrays are part of [sspec false].  An array is
    deleted with delete[], as a whole, when the last variable goes, and the
    elements are where operator[] says. *)
Theorem C113_shared_array_refines {T} ao co :
  refines_throwing (sspec (T:=T) false) s_exec s_init (∅, ∅) s_gone (λ _, True) ao co.
Proof. exact (s_refines_throwing ao co). Qed.
Print Assumptions C113_shared_array_refines.
(** The wrong default deleter is undefined behaviour. *)
Theorem C113_shared_array_wrong_deleter {T} (m : mem (scell T)) l p c q n k vs d :
  blk m !! l = Some (SHandle p (Some c)) → blk m !! c = Some (SCtrl n (Some q) d) → blk m !! q = Some (SObj k vs) → n = 1%Z →
  (∃ y, d = DDelete y ∧ k ≠ KOne) ∨ (d = DDeleteArr ∧ k ≠ KArr) →
  s_dtor l m = UB.
Proof. exact (ev_s_dtor_kind m l p c q n k vs d). Qed.
Print Assumptions C113_shared_array_wrong_deleter.
Example C113_example :
  answers_of (sspec false) s_exec s_init (∅, ∅) (mem0 [] [])
    [SRawArr 0 [4; 5; 6]; SFrom 0 (Some 0) DDeleteArr; SCopy 1 0; SAt 1 2; SPut 0 2 7; SAt 1 2; SRead 1; SDestroy 0; SAt 1 0; SDestroy 1;
     SRawArr 1 []; SFrom 2 (Some 1) DDeleteArr; SBool 2; SDestroy 2]
  = Some [Ret SoUnit; Ret SoUnit; Ret SoUnit; Ret (SoVal 6); Ret SoUnit; Ret (SoVal 7); Ret (SoVal 4); Ret SoUnit; Ret (SoVal 4); Ret SoUnit;
     Ret SoUnit; Ret SoUnit; Ret (SoBool true); Ret SoUnit].
Proof. vm_compute. reflexivity. Qed.
Notation ex_kind k d := (Mem {[ 1%positive := SHandle (Some 2%positive) (Some 3%positive); 2%positive := SObj k [5];
                                3%positive := SCtrl 1 (Some 2%positive) d ]} 4%positive [] []).
Example C113_example_wrong :
  s_dtor 1%positive (ex_kind KArr (DDelete YSame)) = UB ∧ s_dtor 1%positive (ex_kind KOne DDeleteArr) = UB ∧
  match s_dtor 1%positive (ex_kind KArr DDeleteArr) with Ok _ m => size (blk m) = 0 | _ => False end.
Proof. split; [|split]; vm_compute; reflexivity. Qed.

(** ** C114: refuted.  shared_ptr<Base>(Derived* ) deletes a Base*, although the
    standard's deletes a Derived*; without a virtual destructor of Base that is
    undefined behaviour. *)
Theorem C114_shared_ptr_derived_refuted :
  ¬ refines_from (sspec true) s_exec s_init (∅, ∅) s_gone (λ op, only is_sub op = true) [] [].
Proof. exact (wrong_refutes _ _ _ _ _ _ _ _ _ _ _ _ sub_wrong sneq_refl (λ _ H, H)). Qed.
Print Assumptions C114_shared_ptr_derived_refuted.
Theorem C114_shared_ptr_derived_effect {T} (m : mem (scell T)) l p c q vs y :
  blk m !! l = Some (SHandle p (Some c)) → blk m !! c = Some (SCtrl 1 (Some q) (DDelete y)) → blk m !! q = Some (SObj KSub vs) →
  s_dtor l m = UB.
Proof. exact (ev_s_dtor_sub m l p c q vs y). Qed.
Print Assumptions C114_shared_ptr_derived_effect.
Example C114_example : s_dtor 1%positive (ex_kind KSub (DDelete YSub)) = UB.
Proof. vm_compute. reflexivity. Qed.

(** ** C115: refuted.  get_deleter answers null if the group was made with a
    pointer to a derived class, whatever the type asked for. *)
Theorem C115_get_deleter_refuted :
  wrong (sspec true) s_exec sneq (only is_sub) s_init (∅, ∅) (mem0 [] []) [SRawSub 0 5; SFrom 0 (Some 0) (DRun YSub 3 S)] (SGetDel 0 3) = true.
Proof. exact get_deleter_wrong. Qed.
Print Assumptions C115_get_deleter_refuted.
(** Otherwise it answers with the deleter, if and only if the type is right;
    assigning to it changes what is done in the end.  This is part of
    [sspec false]. *)
Theorem C115_get_deleter_effect {T} (m : mem (scell T)) l p c q n d ty :
  blk m !! l = Some (SHandle p (Some c)) → blk m !! c = Some (SCtrl n q d) →
  s_get_deleter l ty m = Ok (match d with DRun YSame ty' _ => bool_decide (ty' = ty) | _ => false end) m.
Proof. exact (ev_s_get_deleter m l p c q n d ty). Qed.
Print Assumptions C115_get_deleter_effect.
Theorem C115_get_deleter_partial {T} ao co :
  refines_throwing (sspec (T:=T) false) s_exec s_init (∅, ∅) s_gone (λ _, True) ao co.
Proof. exact (s_refines_throwing ao co). Qed.
Print Assumptions C115_get_deleter_partial.
Example C115_example :
  answers_of (sspec false) s_exec s_init (∅, ∅) (mem0 [] [])
    [SRaw 0 5; SFrom 0 (Some 0) (DRun YSame 3 (λ n, n + 100)); SGetDel 0 3; SGetDel 0 4; SNew 1; SGetDel 1 3; SAlias 2 0 None; SGetDel 2 3;
     SSetDel 2 3 (λ n, n + 200); SDestroy 0; SReadRaw 0; SDestroy 2; SReadRaw 0; SRawSub 1 6; SFrom 3 (Some 1) (DRun YSub 3 S); SGetDel 3 4;
     SDestroy 3; SReadRaw 1; SDelete KSub 1; SFrom 4 (Some 0) (DDelete YSame); SGetDel 4 3; SDestroy 4; SDestroy 1]
  = Some [Ret SoUnit; Ret SoUnit; Ret (SoBool true); Ret (SoBool false); Ret SoUnit; Ret (SoBool false); Ret SoUnit; Ret (SoBool true);
     Ret SoUnit; Ret SoUnit; Ret (SoVal 5); Ret SoUnit; Ret (SoVal 205); Ret SoUnit; Ret SoUnit; Ret (SoBool false);
     Ret SoUnit; Ret (SoVal 7); Ret SoUnit; Ret SoUnit; Ret (SoBool false); Ret SoUnit; Ret SoUnit].
Proof. vm_compute. reflexivity. Qed.
