(** cest::function: property theorems C49, C75 and C117 (see /verif/properties.jsonl). *)
From Verif Require Import Mem Hist HistGen HistThrow ModelFunction SpecFunction FunctionProofs.

Section fn.
  Context {S A R : Type} (call : S → A → S * R).
  Notation f_hist ao co evs s env m := (hist (fspec call) (f_run call) ∅ ∅ (mem0 ao co) evs s env m).

  (** ** C49, for every callable: whatever its state, arguments and results.
      Destroying a stored copy twice would be undefined, not destroying it would
      leave it behind. *)
  Theorem C49_function_refines ao co :
    no_fail co → refines_from (fspec call) (f_run call) ∅ ∅ (λ s, s = ∅) (λ _, True) ao co.
  Proof. exact (f_refines call ao co). Qed.
  (** The same if copying the callable may throw: an operation that throws has no
      effect. *)
  Theorem C49_function_refines_throwing ao co :
    refines_throwing (fspec call) (f_run call) ∅ ∅ (λ s, s = ∅) (λ _, True) ao co.
  Proof. exact (f_refines_throwing call ao co). Qed.
  (** In every reachable state each function has its own copy; there is nothing
      else in memory. *)
  Theorem C49_function_memory ao co evs s env m :
    f_hist ao co evs s env m →
    size (blk m) = sum_of (λ x, match x with Func (Some _) => 2 | _ => 1 end) s ∧
    ∀ h x, s !! h = Some x → ∃ l, env !! h = Some l ∧
      match x with
      | Callable v => blk m !! l = Some (UObj v)
      | Func None => blk m !! l = Some (UPtr None)
      | Func (Some v) => ∃ l', blk m !! l = Some (UPtr (Some l')) ∧ blk m !! l' = Some (UObj v)
      end.
  Proof. exact (f_memory call ao co evs s env m). Qed.
  (** Any sequence of calls answers as the callable would. *)
  Theorem C49_function_calls ao co evs s env m h x args :
    no_fail ao → no_fail co → f_hist ao co evs s env m →
    s !! h = Some (Func (Some x)) →
    ∃ evs' env' m',
      exec (fspec call) (f_run call) s env m (FCall h <$> args) =
        Some (evs', <[h := Func (Some (after call x args))]> s, env', m') ∧
      snd <$> evs' = (λ r, Ret (Some r)) <$> calls call x args.
  Proof. exact (f_calls call ao co evs s env m h x args). Qed.

  (** ** C117: refuted.  Calling a function that holds nothing does not throw
      std::bad_function_call: it calls a virtual function through a null
      pointer. *)
  Theorem C117_empty_call_refuted ao co evs s env m h a :
    f_hist ao co evs s env m → s !! h = Some (Func None) →
    f_run call env (FCall h a) m = UB.
  Proof. exact (f_call_empty call ao co evs s env m h a). Qed.
  (** A function holding a callable answers, and does not throw. *)
  Theorem C117_empty_call_partial ao co evs s env m h x a :
    f_hist ao co evs s env m → s !! h = Some (Func (Some x)) →
    ∃ m', f_run call env (FCall h a) m = Ok (env, Some (call x a).2) m'.
  Proof. exact (f_call_full call ao co evs s env m h x a). Qed.
End fn.
Print Assumptions C49_function_refines.
Print Assumptions C49_function_refines_throwing.
Print Assumptions C117_empty_call_refuted.
Print Assumptions C117_empty_call_partial.
Print Assumptions C49_function_memory.
Print Assumptions C49_function_calls.
(** an accumulator: adds its argument to its state, and answers the sum *)
Example C49_example :
  answers_of (fspec (λ s a, (s + a, s + a))) (f_run (λ s a, (s + a, s + a))) ∅ ∅ (mem0 [false; true] [])
    [FCallable 0 10; FWrap 1 0; FWrap 2 0; FCall 1 1; FCall 1 1; FCallC 0 5; FWrap 2 0; FCall 2 1; FCall 1 1; FMove 3 1; FCall 3 1;
     FEndC 0; FAssign 1 2; FCall 1 100; FAssign 1 1; FCall 1 0; FAssign 3 1; FCall 3 0; FCall 1 0; FEnd 2; FEnd 1; FEnd 3]
  = Some [Ret None; Ret None; Threw BadAlloc; Ret (Some 11); Ret (Some 12); Ret (Some 15); Ret None; Ret (Some 16); Ret (Some 13); Ret None;
     Ret (Some 14); Ret None; Ret None; Ret (Some 116); Ret None; Ret (Some 116); Ret None; Ret (Some 116); Ret (Some 14); Ret None; Ret None; Ret None].
Proof. vm_compute. reflexivity. Qed.
(** copying the callable throws once, then an allocation fails *)
Example C49_example_throwing :
  answers_of (fspec (λ s a, (s + a, s + a))) (f_run (λ s a, (s + a, s + a))) ∅ ∅ (mem0 [false; true] [true])
    [FCallable 0 10; FWrap 1 0; FWrap 1 0; FWrap 1 0; FCall 1 1; FEndC 0; FEnd 1]
  = Some [Ret None; Threw CopyThrow; Threw BadAlloc; Ret None; Ret (Some 11); Ret None; Ret None].
Proof. vm_compute. reflexivity. Qed.
Example C117_example :
  ∃ evs s env m, hist (fspec (λ s a, (s + a, s + a))) (f_run (λ s a, (s + a, s + a))) ∅ ∅ (mem0 [] []) evs s env m ∧
    s !! 1 = Some (Func None) ∧ s !! 2 = Some (Func (Some 11)).
Proof.
  destruct (exec (fspec (λ s a, (s + a, s + a))) (f_run (λ s a, (s + a, s + a))) ∅ ∅ (mem0 [] [])
    [FCallable 0 10; FWrap 1 0; FCall 1 1; FMove 2 1]) as [[[[evs s] env] m]|] eqn:E; [|vm_compute in E; discriminate].
  exists evs, s, env, m. split; [by eapply exec_hist|].
  vm_compute in E. injection E as <- <- <- <-. repeat split.
Qed.
Example C49_example_state :
  ∃ evs s env m, hist (fspec (λ s a, (s + a, s + a))) (f_run (λ s a, (s + a, s + a))) ∅ ∅ (mem0 [] []) evs s env m ∧
    s !! 1 = Some (Func (Some 11)) ∧ s !! 0 = Some (Callable 10).
Proof.
  destruct (exec (fspec (λ s a, (s + a, s + a))) (f_run (λ s a, (s + a, s + a))) ∅ ∅ (mem0 [] []) [FCallable 0 10; FWrap 1 0; FCall 1 1])
    as [[[[evs s] env] m]|] eqn:E; [|vm_compute in E; discriminate].
  exists evs, s, env, m. split; [by eapply exec_hist|].
  vm_compute in E. injection E as <- <- <- <-. repeat split.
Qed.

(** ** C75: refuted.  Constructing a function from a function lvalue calls the
    same constructor again, and never returns: however many levels one waits, it
    has not finished, unless an allocation fails meanwhile. *)
Theorem C75_function_copy_refuted {S} raw n c (m : mem (ucell S)) :
  Forall (λ b, b = false) (take n (aorc m)) → f_copy raw n c m = Div.
Proof. exact (f_copy_div raw n c m). Qed.
Print Assumptions C75_function_copy_refuted.
(** the third allocation fails: bad_alloc, and the first two are given back *)
Example C75_example :
  match f_copy (UPtr None) 10 1%positive (Mem {[ 1%positive := UObj 5 ]} 2%positive [false; false; true] []) with
  | Exn BadAlloc m => map_to_list (blk m) = [(1%positive, UObj 5)]
  | _ => False
  end ∧ f_copy (UPtr None) 10 1%positive (Mem {[ 1%positive := UObj 5 ]} 2%positive [false; false] []) = Div.
Proof. split; vm_compute; reflexivity. Qed.
