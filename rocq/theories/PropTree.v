(** cest::set and cest::map: property theorems C28-C36, C120 and the
    corresponding part of C23 (see /verif/properties.jsonl).  Most are stated for both at
    once: [key] gives the key of an element, [eqn] the test used by operator++
    ([set_run] and [map_run] in ModelTree.v give the two instances). *)
From Verif Require Import Mem Hist HistProofs ModelTree SpecTree TreeFacts TreeHist TreeProps TreeThrow.

Notation ident := (λ k, k) (only parsing).
Notation t_hist key comp eqn ao co evs s env m :=
  (hist (tspec key comp) (t_run key comp eqn) ∅ ∅ (mem0 ao co) evs s env m).

(** Comparators of the examples: the usual order on numbers, and the order by
    tens (so that 11 and 17 are equivalent). *)
Example lt_strict_weak : strict_weak Nat.ltb.
Proof.
  split.
  - intros a. apply Nat.ltb_irrefl.
  - intros a b c. rewrite !Nat.ltb_lt. lia.
  - intros a b c. rewrite !Nat.ltb_ge. lia.
Qed.
Definition by_tens (a b : nat) : bool := a / 10 <? b / 10.
Example by_tens_strict_weak : strict_weak by_tens.
Proof.
  unfold by_tens. split.
  - intros a. apply Nat.ltb_irrefl.
  - intros a b c. rewrite !Nat.ltb_lt. lia.
  - intros a b c. rewrite !Nat.ltb_ge. lia.
Qed.
(** the set {10, 20, 30} at address 1, nodes at 2, 3, 4 *)
Definition ex_tree : tree nat :=
  T 2%positive 20 Black (T 3%positive 10 Red E E) (T 4%positive 30 Red E E).
Definition ex_set ao co : mem (tcell nat) :=
  Mem {[ 1%positive := THead (Some 2%positive) (Some 3%positive) 3;
         2%positive := TNode (Some 20) (Some 3%positive) (Some 4%positive) None Black;
         3%positive := TNode (Some 10) None None (Some 2%positive) Red;
         4%positive := TNode (Some 30) None None (Some 2%positive) Red ]} 5%positive ao co.
Example ex_tree_good ao co :
  t_holds (ex_set ao co) 1%positive ex_tree ∧ increasing ident by_tens (nodes ex_tree).*2 ∧ red_black ex_tree.
Proof.
  split; [|split].
  - split; [simpl; repeat constructor; set_solver|]. done.
  - simpl. repeat constructor.
  - apply red_black_rb. split; [done|]. exists 1. repeat constructor.
Qed.
Example ex_set_ok ao co : no_fail co → may_fail_alloc (ex_set ao co).
Proof. split; [apply mem_wf_check; vm_compute; reflexivity|done]. Qed.

(** ** C28 *)
Theorem C28_set_refines {K} (comp : K → K → bool) ao co :
  strict_weak comp → no_fail ao → no_fail co →
  refines_from (tspec ident comp) (set_run comp) ∅ ∅ (λ s, s = ∅) (λ _, True) ao co.
Proof. exact (λ Hsw, t_refines_fair ident comp None Hsw ao co I). Qed.
Print Assumptions C28_set_refines.
Theorem C28_map_refines {K V} (comp eqk : K → K → bool) ao co :
  strict_weak comp → eq_compatible comp eqk → no_fail ao → no_fail co →
  refines_from (tspec (fst (A:=K) (B:=V)) comp) (map_run comp eqk) ∅ ∅ (λ s, s = ∅) (λ _, True) ao co.
Proof. exact (λ Hsw Heq, t_refines_fair fst comp (Some eqk) Hsw ao co Heq). Qed.
Print Assumptions C28_map_refines.
(** without iteration and copying, whatever the keys' operator== is, and with
    failing allocations *)
Theorem C28_map_refines_any_eq {K V} (comp eqk : K → K → bool) ao co :
  strict_weak comp → no_fail co →
  refines_from (tspec (fst (A:=K) (B:=V)) comp) (map_run comp eqk) ∅ ∅ (λ s, s = ∅)
    (t_ok (eq_compatible comp eqk) true) ao co.
Proof. exact (λ Hsw, t_refines_fail fst comp (Some eqk) Hsw ao co). Qed.
Print Assumptions C28_map_refines_any_eq.
Theorem C28_find {X K} (key : X → K) comp (m : mem (tcell X)) this t k :
  strict_weak comp →
  may_fail_alloc m → t_holds m this t → increasing key comp (nodes t).*2 →
  ∃ it m', t_find key comp this k m = Ok it m' ∧ may_fail_alloc m' ∧ t_holds m' this t ∧
    replaces (t_cells this t) m (t_cells this t) m' ∧
    match it with
    | None => lookup_key key comp k (nodes t).*2 = None
    | Some n => ∃ x, (n, x) ∈ nodes t ∧ lookup_key key comp k (nodes t).*2 = Some x
    end.
Proof. exact (λ Hsw, c28_find key comp Hsw m this t k). Qed.
Print Assumptions C28_find.
Example C28_set_example :
  answers_of (tspec ident by_tens) (set_run by_tens) ∅ ∅ (mem0 [] [])
    [TNew 1; TInsert 1 30; TInsert 1 11; TInsert 1 25; TInsert 1 17; TFind 1 18; TFind 1 40; TSize 1; TBegin 1;
     TIter 1; TCopy 2 1; TInsertHint 2 25 5; TInsertHint 2 25 6; TIter 2; TIter 1; TAssign 1 2; TIter 1;
     TClear 2; TEmpty 2; TInsert 2 1; TDestroy 1; TDestroy 2]
  = Some [Ret ToUnit; Ret (ToIns 30 true); Ret (ToIns 11 true); Ret (ToIns 25 true); Ret (ToIns 11 false);
     Ret (ToElem (Some 11)); Ret (ToElem None); Ret (ToNat 3); Ret (ToElem (Some 11)); Ret (ToList [11; 25; 30]);
     Ret ToUnit; Ret (ToElem (Some 5)); Ret (ToElem (Some 5)); Ret (ToList [5; 11; 25; 30]);
     Ret (ToList [11; 25; 30]); Ret ToUnit; Ret (ToList [5; 11; 25; 30]); Ret ToUnit; Ret (ToBool true);
     Ret (ToIns 1 true); Ret ToUnit; Ret ToUnit].
Proof. vm_compute. reflexivity. Qed.
Example C28_map_example :
  eq_compatible by_tens Nat.eqb ∧
  answers_of (tspec fst by_tens) (map_run by_tens Nat.eqb) ∅ ∅ (mem0 [] [])
    [TNew 1; TInsert 1 (30, 0); TInsert 1 (11, 1); TInsert 1 (25, 2); TInsert 1 (17, 3); TUpdate 1 35 (30, 4);
     TIter 1; TCopy 2 1; TUpdate 2 25 (25, 7); TFind 1 25; TFind 2 25; TIter 2]
  = Some [Ret ToUnit; Ret (ToIns (30, 0) true); Ret (ToIns (11, 1) true); Ret (ToIns (25, 2) true);
     Ret (ToIns (11, 1) false); Ret ToUnit; Ret (ToList [(11, 1); (25, 2); (30, 4)]); Ret ToUnit; Ret ToUnit;
     Ret (ToElem (Some (25, 2))); Ret (ToElem (Some (25, 7))); Ret (ToList [(11, 1); (25, 7); (30, 4)])].
Proof.
  split; [|vm_compute; reflexivity]. split; [apply Nat.eqb_refl|].
  intros a b ->%Nat.eqb_eq. unfold by_tens. by rewrite Nat.ltb_irrefl.
Qed.

(** ** C29.  Iteration gives the elements of the specification's list
    ([TIter] in C28_set_refines and C28_map_refines), which is increasing. *)
Theorem C29_elements_increasing {X K} (key : X → K) comp eqn (b : bool) ao co evs s env m h xs :
  strict_weak comp →
  (b = false → no_fail ao) → no_fail co →
  t_hist key comp eqn ao co evs s env m → Forall (λ ev, t_ok (iter_ok comp eqn) b ev.1) evs →
  s !! h = Some xs → increasing key comp xs.
Proof. exact (λ Hsw Hb Hco Hh Ho Hs, proj1 (proj1 (t_reach key comp eqn Hsw b ao co evs s env m Hb Hco Hh Ho) h xs Hs)). Qed.
Print Assumptions C29_elements_increasing.
Theorem C29_iterate {X K} (key : X → K) comp eqn (m : mem (tcell X)) this t :
  strict_weak comp → iter_ok comp eqn →
  may_fail_alloc m → t_holds m this t → increasing key comp (nodes t).*2 →
  ∃ m', t_iterate key eqn this m = Ok (nodes t).*2 m' ∧ may_fail_alloc m' ∧ t_holds m' this t ∧
    replaces (t_cells this t) m (t_cells this t) m'.
Proof. exact (λ Hsw, c29_iterate key comp eqn Hsw m this t). Qed.
Print Assumptions C29_iterate.
(** one ++ *)
Theorem C29_next {X K} (key : X → K) comp eqn (m : mem (tcell X)) this t a n x b :
  strict_weak comp → iter_ok comp eqn →
  may_fail_alloc m → t_holds m this t → increasing key comp (nodes t).*2 →
  nodes t = a ++ (n, x) :: b →
  ∃ m', t_succ key eqn (Some n) m = Ok (fst <$> head b) m' ∧ may_fail_alloc m' ∧ t_holds m' this t ∧
    replaces (t_cells this t) m (t_cells this t) m'.
Proof. exact (λ Hsw, c29_next key comp eqn Hsw m this t a n x b). Qed.
Print Assumptions C29_next.
Example C29_example :
  match t_iterate ident None 1%positive (ex_set [] []) with Ok xs _ => xs = [10; 20; 30] | _ => False end ∧
  match t_succ ident None (Some 3%positive) (ex_set [] []) with Ok it _ => it = Some 2%positive | _ => False end.
Proof. vm_compute. done. Qed.
Example C29_example_state :
  ∃ evs s env m, t_hist (λ k, k) by_tens None [false; true] [] evs s env m ∧
    Forall (λ ev, t_ok (iter_ok by_tens None) true ev.1) evs ∧ s !! 1 = Some [10; 20] ∧ length evs = 4.
Proof.
  destruct (exec (tspec ident by_tens) (t_run ident by_tens None) ∅ ∅ (mem0 [false; true] [])
    [TNew 1; TInsert 1 20; TInsert 1 15; TInsert 1 10]) as [[[[evs s] env] m]|] eqn:E;
    [|vm_compute in E; discriminate].
  exists evs, s, env, m. split; [by eapply exec_hist|].
  vm_compute in E. injection E as <- <- <- <-. repeat split. repeat constructor.
Qed.

(** ** C30 *)
Theorem C30_red_black {X K} (key : X → K) comp eqn (b : bool) ao co evs s env m h xs :
  strict_weak comp →
  (b = false → no_fail ao) → no_fail co →
  t_hist key comp eqn ao co evs s env m → Forall (λ ev, t_ok (iter_ok comp eqn) b ev.1) evs →
  s !! h = Some xs →
  ∃ l t, env !! h = Some l ∧ t_holds m l t ∧ (nodes t).*2 = xs ∧ red_black t.
Proof. exact (λ Hsw Hb Hco Hh Ho Hs, proj2 (proj1 (t_reach key comp eqn Hsw b ao co evs s env m Hb Hco Hh Ho) h xs Hs)). Qed.
Print Assumptions C30_red_black.
Theorem C30_height {X} (t : tree X) : red_black t → height t ≤ 2 * Nat.log2 (S (length (nodes t))).
Proof. exact (red_black_height t). Qed.
Print Assumptions C30_height.
(** The loops of find, insert and ++ finish within 2 log2(n+1)+1 rounds: the
    model's loops take the number of rounds as a parameter and give [Div] when
    they need more. *)
Theorem C30_find_rounds {X K} (key : X → K) comp (m : mem (tcell X)) this t k fuel :
  strict_weak comp →
  may_fail_alloc m → t_holds m this t → red_black t → increasing key comp (nodes t).*2 →
  2 * Nat.log2 (S (length (nodes t))) < fuel →
  ∃ it m', t_find_loop key comp fuel k (troot t) m = Ok it m' ∧
    match it with
    | None => lookup_key key comp k (nodes t).*2 = None
    | Some n => ∃ x, (n, x) ∈ nodes t ∧ lookup_key key comp k (nodes t).*2 = Some x
    end.
Proof. exact (λ Hsw, c30_find' key comp Hsw m this t k fuel). Qed.
Print Assumptions C30_find_rounds.
Theorem C30_insert_rounds {X K} (key : X → K) comp (m : mem (tcell X)) this t v fuel :
  may_fail_alloc m → t_holds m this t → red_black t → 2 * Nat.log2 (S (length (nodes t))) < fuel →
  match t_ins key comp fuel this v (PRoot this) None m with Ok _ _ | Exn _ _ => True | UB | Div => False end.
Proof. exact (c30_insert key comp m this t v fuel). Qed.
Print Assumptions C30_insert_rounds.
(** ++ at the node [n] at the position [zs]: the way up, to the first node after
    the subtree, and the way down, to the subtree's first node *)
Theorem C30_next_rounds {X K} (key : X → K) comp eqn (m : mem (tcell X)) this zs n x c l r fuel :
  strict_weak comp → iter_ok comp eqn → may_fail_alloc m →
  t_holds m this (fill zs (T n x c l r)) → red_black (fill zs (T n x c l r)) →
  increasing key comp (nodes (fill zs (T n x c l r))).*2 →
  2 * Nat.log2 (S (length (nodes (fill zs (T n x c l r))))) < fuel →
  (∃ m' a b, t_climb key eqn fuel n (parent zs) m = Ok (fst <$> head b) m' ∧
     nodes (fill zs (T n x c l r)) = a ++ nodes (T n x c l r) ++ b) ∧
  (∃ q m', t_down fuel n m = Ok q m' ∧ least (T n x c l r) = Some q).
Proof. exact (λ Hsw, c30_next' key comp eqn Hsw m this zs n x c l r fuel). Qed.
Print Assumptions C30_next_rounds.
(** 12 more increasing insertions: 8 = 2 log2(15+1) rounds and one more are
    enough to find the last element *)
Definition ex_insert_all (this : loc) (vs : list nat) : M (tcell nat) unit :=
  for_up 0 (length vs) (λ i, t_insert ident Nat.ltb this (nth i vs 0) ;;; ret tt).
Definition ex_find_rounds : M (tcell nat) (nat * option nat) :=
  ex_insert_all 1%positive (seq 40 12) ;;;
  k <- t_size 1%positive ;;
  root <- rd (PRoot 1%positive) ;; it <- t_find_loop ident Nat.ltb 9 51 root ;; x <- t_at it ;; ret (k, x).
Example C30_example :
  match ex_find_rounds (ex_set [] []) with Ok r _ => Some r | _ => None end = Some (15, Some 51).
Proof. vm_compute. reflexivity. Qed.

(** ** C31.  [fill zs t]: the tree with [t] at the position [zs]; [at_pos] is the
    pointer there: m_root, some n->l or some n->r. *)
Theorem C31_rotate_left {X} (m : mem (tcell X)) this zs n x c l rn rx rc rl rr :
  may_fail_alloc m → t_holds m this (fill zs (T n x c l (T rn rx rc rl rr))) →
  ∃ m', t_rotate_left (at_pos this zs) m = Ok tt m' ∧ may_fail_alloc m' ∧
    t_holds m' this (fill zs (T rn rx rc (T n x c l rl) rr)) ∧
    (∀ q, q ∉ t_cells this (fill zs (T n x c l (T rn rx rc rl rr))) → blk m' !! q = blk m !! q).
Proof. exact (c31_left m this zs n x c l rn rx rc rl rr). Qed.
Print Assumptions C31_rotate_left.
Theorem C31_rotate_right {X} (m : mem (tcell X)) this zs n x c ln lx lc ll lr r :
  may_fail_alloc m → t_holds m this (fill zs (T n x c (T ln lx lc ll lr) r)) →
  ∃ m', t_rotate_right (at_pos this zs) m = Ok tt m' ∧ may_fail_alloc m' ∧
    t_holds m' this (fill zs (T ln lx lc ll (T n x c lr r))) ∧
    (∀ q, q ∉ t_cells this (fill zs (T n x c (T ln lx lc ll lr) r)) → blk m' !! q = blk m !! q).
Proof. exact (c31_right m this zs n x c ln lx lc ll lr r). Qed.
Print Assumptions C31_rotate_right.
(** the order of the nodes is the same before and after *)
Theorem C31_same_order {X} zs n (x : X) c l rn rx rc rl rr :
  nodes (fill zs (T n x c l (T rn rx rc rl rr))) = nodes (fill zs (T rn rx rc (T n x c l rl) rr)).
Proof. exact (rotation_nodes zs n x c l rn rx rc rl rr). Qed.
Print Assumptions C31_same_order.
Example C31_example :
  t_holds (ex_set [] []) 1%positive (fill [] (T 2%positive 20 Black (T 3%positive 10 Red E E) (T 4%positive 30 Red E E))) ∧
  match t_rotate_left (PRoot 1%positive) (ex_set [] []) with
  | Ok _ m =>
      match t_rotate_right (PL 4%positive) m with
      | Ok _ m => t_iterate ident None 1%positive m = Ok [10; 20; 30] m ∧ rd (PRoot 1%positive) m = Ok (Some 4%positive) m ∧
          rd (PP 2%positive) m = Ok (Some 3%positive) m
      | _ => False
      end
  | _ => False
  end.
Proof. split; [apply (ex_tree_good [] [])|]. vm_compute. done. Qed.

(** ** C32.  The nodes before are the nodes after, with the new one put in
    between; nothing is moved or changed.  C34: [runs_to]: when the allocation
    fails, memory is exactly as before. *)
Theorem C32_insert {X K} (key : X → K) comp (m : mem (tcell X)) this t v :
  strict_weak comp →
  may_fail_alloc m → t_holds m this t → increasing key comp (nodes t).*2 → red_black t →
  runs_to m (t_cells this t) (t_insert key comp this v m) (λ r m' new, ∃ t',
    ((increasing key comp (nodes t').*2 ∧ red_black t' ∧
      match r with
      | (n, true) => lookup_key key comp (key v) (nodes t).*2 = None ∧
          ∃ a b, nodes t = a ++ b ∧ nodes t' = a ++ (n, v) :: b
      | (n, false) => t' = t ∧ ∃ x, (n, x) ∈ nodes t ∧ equiv_key comp (key v) (key x) = true
      end) ∧ t_holds m' this t') ∧ new = t_cells this t').
Proof. exact (λ Hsw, c32_insert key comp Hsw m this t v). Qed.
Print Assumptions C32_insert.
Theorem C32_iterator {X} (m : mem (tcell X)) this t n x :
  t_holds m this t → (n, x) ∈ nodes t → t_value (Some n) m = Ok x m.
Proof. exact (c29_value m this t n x). Qed.
Print Assumptions C32_iterator.
Theorem C32_begin {X} (m : mem (tcell X)) this t :
  t_holds m this t → t_begin this m = Ok (fst <$> head (nodes t)) m.
Proof. exact (c32_begin m this t). Qed.
Print Assumptions C32_begin.
Example C32_example :
  may_fail_alloc (ex_set [] []) ∧ t_holds (ex_set [] []) 1%positive ex_tree ∧
  match t_insert ident by_tens 1%positive 5 (ex_set [] []) with
  | Ok r m => r = (5%positive, true) ∧ t_begin 1%positive m = Ok (Some 5%positive) m ∧
      t_value (Some 2%positive) m = Ok 20 m ∧ t_value (Some 3%positive) m = Ok 10 m ∧ t_value (Some 4%positive) m = Ok 30 m
  | _ => False
  end.
Proof. split; [apply ex_set_ok; constructor|]. split; [apply ex_tree_good|]. vm_compute. done. Qed.

(** ** C33 *)
Theorem C33_copy {X K} (key : X → K) comp eqn (m : mem (tcell X)) other t0 :
  strict_weak comp → iter_ok comp eqn →
  may_fail_alloc m → t_holds m other t0 → increasing key comp (nodes t0).*2 → red_black t0 →
  runs_to m (t_cells other t0) (t_copy key comp eqn other m) (λ this m' new, ∃ t,
    ((nodes t).*2 = (nodes t0).*2 ∧ red_black t ∧ t_holds m' this t ∧ t_holds m' other t0 ∧
     (∀ l, l ∈ t_cells this t → l ∉ t_cells other t0)) ∧ new = t_cells this t ++ t_cells other t0).
Proof. exact (λ Hsw, c33_copy key comp eqn Hsw m other t0). Qed.
Print Assumptions C33_copy.
Theorem C33_assign {X K} (key : X → K) comp eqn (m : mem (tcell X)) this t other t0 :
  strict_weak comp → iter_ok comp eqn →
  may_fail_alloc m → t_holds m this t → t_holds m other t0 → increasing key comp (nodes t0).*2 → red_black t0 →
  (∀ l, l ∈ t_cells this t → l ∉ t_cells other t0) →
  match t_assign key comp eqn this other m with
  | Ok _ m' => ∃ t', (nodes t').*2 = (nodes t0).*2 ∧ red_black t' ∧ t_holds m' this t' ∧ t_holds m' other t0 ∧
      replaces (t_cells this t ++ t_cells other t0) m (t_cells this t' ++ t_cells other t0) m'
  | Exn e m' => e = BadAlloc ∧ ∃ t' j, (nodes t').*2 = take j (nodes t0).*2 ∧ red_black t' ∧
      t_holds m' this t' ∧ t_holds m' other t0 ∧
      replaces (t_cells this t ++ t_cells other t0) m (t_cells this t' ++ t_cells other t0) m'
  | UB | Div => False
  end.
Proof. exact (λ Hsw, c33_assign key comp eqn Hsw m this t other t0). Qed.
Print Assumptions C33_assign.
Theorem C33_clear {X} (m : mem (tcell X)) this t :
  may_fail_alloc m → t_holds m this t →
  (∃ m', t_clear this m = Ok tt m' ∧ may_fail_alloc m' ∧ t_holds m' this E ∧ replaces (t_cells this t) m [this] m') ∧
  (∃ m', t_dtor this m = Ok tt m' ∧ may_fail_alloc m' ∧ replaces (t_cells this t) m [] m').
Proof. exact (c33_clear m this t). Qed.
Print Assumptions C33_clear.
(** in every reachable state there is one node per element and one object per
    container, and nothing else *)
Theorem C33_nodes {X K} (key : X → K) comp eqn (b : bool) ao co evs s env m :
  strict_weak comp →
  (b = false → no_fail ao) → no_fail co →
  t_hist key comp eqn ao co evs s env m → Forall (λ ev, t_ok (iter_ok comp eqn) b ev.1) evs →
  size (blk m) = map_fold (λ _ xs n, S (length xs) + n) 0 s.
Proof. exact (λ Hsw Hb Hco Hh Ho, proj2 (t_reach key comp eqn Hsw b ao co evs s env m Hb Hco Hh Ho)). Qed.
Print Assumptions C33_nodes.
Example C33_example :
  may_fail_alloc (ex_set [false; true] []) ∧ t_holds (ex_set [false; true] []) 1%positive ex_tree ∧
  match t_copy ident by_tens None 1%positive (ex_set [false; true] []) with
  | Exn e m => e = BadAlloc ∧ map_to_list (blk m) = map_to_list (blk (ex_set [] []))
  | _ => False
  end ∧
  match t_dtor 1%positive (ex_set [] []) with Ok _ m => size (blk m) = 0 | _ => False end.
Proof. split; [apply ex_set_ok; constructor|]. split; [apply ex_tree_good|]. vm_compute. done. Qed.

(** ** C34: see C32_insert for one insertion; histories with failing
    allocations: *)
Theorem C34_set_refines {K} (comp : K → K → bool) ao co :
  strict_weak comp → no_fail co →
  refines_from (tspec ident comp) (set_run comp) ∅ ∅ (λ s, s = ∅) (t_ok True true) ao co.
Proof. exact (λ Hsw, t_refines_fail ident comp None Hsw ao co). Qed.
Print Assumptions C34_set_refines.
Theorem C34_throws {X K} (key : X → K) comp (m : mem (tcell X)) this t v o :
  strict_weak comp → may_fail_alloc m → t_holds m this t → increasing key comp (nodes t).*2 → red_black t →
  aorc m = true :: o → lookup_key key comp (key v) (nodes t).*2 = None →
  ∃ m', t_insert key comp this v m = Exn BadAlloc m'.
Proof. exact (λ Hsw, c34_throws key comp Hsw m this t v o). Qed.
Print Assumptions C34_throws.
Example C34_example :
  may_fail_alloc (ex_set [true] []) ∧ t_holds (ex_set [true] []) 1%positive ex_tree ∧
  lookup_key ident by_tens 40 (nodes ex_tree).*2 = None ∧
  match t_insert ident by_tens 1%positive 40 (ex_set [true] []) with
  | Exn e m => e = BadAlloc ∧ map_to_list (blk m) = map_to_list (blk (ex_set [] []))
  | _ => False
  end.
Proof. split; [apply ex_set_ok; constructor|]. split; [apply ex_tree_good|]. vm_compute. done. Qed.

(** ** C35: when copying the element throws, the node without an element stays
    linked; destroying the container, or inserting again, is undefined. *)
Theorem C35_insert_throwing_copy_refuted {X K} (key : X → K) comp (m : mem (tcell X)) this v ao co :
  mem_wf m → t_holds m this (E (X:=X)) → aorc m = ao → head ao ≠ Some true → corc m = true :: co →
  ∃ m', t_insert key comp this v m = Exn CopyThrow m' ∧
    blk m' = <[this := THead (Some (nxt m)) None 0]> (<[nxt m := TRaw]> (blk m)) ∧
    t_dtor this m' = UB ∧ ∀ w, t_insert key comp this w m' = UB.
Proof. exact (c35_raw key comp m this v ao co). Qed.
Print Assumptions C35_insert_throwing_copy_refuted.
Example C35_example :
  match t_insert ident by_tens 1%positive 40 (ex_set [] [true]) with
  | Exn CopyThrow m => t_iterate ident None 1%positive m = UB ∧ t_dtor 1%positive m = UB ∧ t_size 1%positive m = Ok 3 m
  | _ => False
  end.
Proof. vm_compute. done. Qed.

(** ** C120: what an insertion does when the copy of the element throws, for
    every tree: the new node, in which nothing was constructed, hangs where the
    element belongs. *)
Theorem C120_insert_throwing {X K} (key : X → K) comp (m : mem (tcell X)) this t v :
  strict_weak comp → mem_wf m → t_holds m this t → increasing key comp (nodes t).*2 → red_black t →
  insert_outcome_any key comp m this t v (t_insert key comp this v m).
Proof. exact (λ Hsw, c120_outcome key comp Hsw m this t v). Qed.
Print Assumptions C120_insert_throwing.
(** an insertion copies the element twice *)
Theorem C120_insert_told {X K} (key : X → K) comp (m : mem (tcell X)) this v b1 b2 co :
  corc m = b1 :: b2 :: co →
  match t_insert key comp this v m with
  | Ok (_, true) _ => b1 || b2 = false
  | Exn CopyThrow _ => b1 || b2 = true
  | _ => True
  end.
Proof. exact (c120_told key comp b1 b2 co this v m). Qed.
Print Assumptions C120_insert_told.
Theorem C120_torn_readable {X K} (key : X → K) comp (m : mem (tcell X)) this zs n v :
  strict_weak comp →
  t_torn m this zs n v → belongs key comp (key v) zs → increasing key comp (nodes (fill zs E)).*2 →
  t_size this m = Ok (length (nodes (fill zs E))) m ∧
  t_begin this m = Ok (fst <$> head (nodes (fill zs E))) m ∧
  (∀ q x, (q, x) ∈ nodes (fill zs E) → t_value (Some q) m = Ok x m) ∧
  (∀ k, ¬ same_gap key comp k (key v) (nodes (fill zs E)).*2 →
     ∃ it, t_find key comp this k m = Ok it m ∧
       match it with
       | None => lookup_key key comp k (nodes (fill zs E)).*2 = None
       | Some q => ∃ x, (q, x) ∈ nodes (fill zs E) ∧ lookup_key key comp k (nodes (fill zs E)).*2 = Some x
       end).
Proof. exact (λ Hsw, c120_readable key comp Hsw m this zs n v). Qed.
Print Assumptions C120_torn_readable.
Theorem C120_torn_undefined {X K} (key : X → K) comp eqn (m : mem (tcell X)) this zs n v :
  strict_weak comp →
  t_torn m this zs n v → belongs key comp (key v) zs → increasing key comp (nodes (fill zs E)).*2 →
  (∀ k, nodes (fill zs E) ≠ [] → same_gap key comp k (key v) (nodes (fill zs E)).*2 → t_find key comp this k m = UB) ∧
  (∀ w, same_gap key comp (key w) (key v) (nodes (fill zs E)).*2 → t_insert key comp this w m = UB) ∧
  (∀ a q x b, nodes (fill zs E) = a ++ (q, x) :: b → comp (key x) (key v) = true →
     (∀ y, y ∈ b.*2 → comp (key v) (key y) = true) → t_succ key eqn (Some q) m = UB) ∧
  t_clear this m = UB ∧ t_dtor this m = UB.
Proof. exact (λ Hsw, c120_undefined key comp Hsw eqn m this zs n v). Qed.
Print Assumptions C120_torn_undefined.
(** 25 is equivalent to none of 10, 30: after the insertion of 20 into {10, 30}
    failed, 25 cannot be looked up, 35 can *)
Definition ex_torn : list (frame nat) := [Lft 3%positive 30 Red E; Rgt 2%positive 10 Black E].
Example C120_example :
  let m0 := Mem (<[1%positive := THead (Some 2%positive) (Some 2%positive) 2]>
    (<[2%positive := TNode (Some 10) None (Some 3%positive) None Black]>
    {[3%positive := TNode (Some 30) None None (Some 2%positive) Red]})) 4%positive [] [false; true] in
  mem_wf m0 ∧ t_holds m0 1%positive (fill ex_torn E) ∧ increasing ident by_tens (nodes (fill ex_torn E)).*2 ∧
  red_black (fill ex_torn E) ∧ belongs ident by_tens 20 ex_torn ∧
  same_gap ident by_tens 25 20 [10; 30] ∧ ¬ same_gap ident by_tens 35 20 [10; 30] ∧
  match t_insert ident by_tens 1%positive 20 m0 with
  | Exn CopyThrow m => t_torn m 1%positive ex_torn 4%positive 20 ∧
      t_find ident by_tens 1%positive 25 m = UB ∧ t_find ident by_tens 1%positive 35 m = Ok (Some 3%positive) m ∧
      t_succ ident None (Some 2%positive) m = UB
  | _ => False
  end.
Proof.
  split; [apply mem_wf_check; vm_compute; reflexivity|].
  split; [split; [by apply (bool_decide_unpack _)|done]|].
  split; [simpl; repeat constructor|].
  split; [apply red_black_rb; split; [done|]; exists 1; repeat constructor|].
  split; [by repeat constructor|].
  split; [intros x Hx; repeat (apply elem_of_cons in Hx as [->|Hx]; [done|]); by apply elem_of_nil in Hx|].
  split; [intros H; by destruct (H 30 ltac:(set_solver)) as [? _]|].
  vm_compute. split; [split; [|done]|done].
  repeat (constructor; [intros H; repeat (inversion H as [|? ? ? H1]; subst; clear H; rename H1 into H)|]); constructor.
Qed.

(** ** C36: three keys in order, the first and the last equal for operator==:
    iteration stops after the first element.  (Under [eq_compatible] iteration
    is right: C29_iterate, C28_map_refines.  The example reaches such a map by
    insertions.) *)
Theorem C36_map_iteration_refuted {K V} (comp eqk : K → K → bool) (m : mem (tcell (K * V)))
    this na nb nc ca cb cc a b c x y z :
  increasing fst comp [(a, x); (b, y); (c, z)] →
  t_holds m this (T nb (b, y) cb (T na (a, x) ca E E) (T nc (c, z) cc E E)) → eqk a c = true →
  t_size this m = Ok 3 m ∧ t_iterate fst (Some eqk) this m = Ok [(a, x)] m.
Proof. exact (λ _, c36_stops eqk m this na nb nc ca cb cc a b c x y z). Qed.
Print Assumptions C36_map_iteration_refuted.
(** the keys are equal when they agree modulo 2 *)
Example C36_example :
  let eqk a b := Bool.eqb (Nat.even a) (Nat.even b) in
  answers_of (tspec fst Nat.ltb) (map_run Nat.ltb eqk) ∅ ∅ (mem0 [] [])
    [TNew 1; TInsert 1 (2, 0); TInsert 1 (1, 1); TInsert 1 (3, 2); TSize 1; TIter 1]
  = Some [Ret ToUnit; Ret (ToIns (2, 0) true); Ret (ToIns (1, 1) true); Ret (ToIns (3, 2) true); Ret (ToNat 3);
          Ret (ToList [(1, 1)])].
Proof. vm_compute. reflexivity. Qed.

(** ** C23 for sets and maps: assigning a container to itself empties it. *)
Theorem C23_set_self_assignment_refuted {X K} (key : X → K) comp eqn (m : mem (tcell X)) this t :
  may_fail_alloc m → t_holds m this t →
  ∃ m', t_assign key comp eqn this this m = Ok tt m' ∧ may_fail_alloc m' ∧ t_holds m' this E ∧
    replaces (t_cells this t) m [this] m'.
Proof. exact (c23_self key comp eqn m this t). Qed.
Print Assumptions C23_set_self_assignment_refuted.
Example C23_set_example :
  may_fail_alloc (ex_set [] []) ∧ t_holds (ex_set [] []) 1%positive ex_tree ∧
  match t_assign ident by_tens None 1%positive 1%positive (ex_set [] []) with
  | Ok _ m => t_iterate ident None 1%positive m = Ok [] m
  | _ => False
  end.
Proof. split; [apply ex_set_ok; constructor|]. split; [apply ex_tree_good|]. vm_compute. done. Qed.
