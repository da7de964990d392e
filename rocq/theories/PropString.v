(** cest::basic_string: property theorems C11-C19 (see /verif/properties.jsonl). *)
From Verif Require Import Mem Hist HistProofs ModelString SpecString StringHist StringProps StringExact.

Notation s_hist ao evs s env m := (hist sspec s_run ∅ ∅ (mem0 ao []) evs s env m).
(** "abc" with capacity 4; characters are their codes *)
Notation ex_str := (Mem {[ 1%positive := SHdr 3 4 (Some 2%positive);
                           2%positive := SBuf [97; 98; 99; 0; 0]%N ]} 3%positive [] []).

(** ** C11.  Copying, assigning and the input-iterator constructor are part of
    the histories too, with the meaning [sspec] gives them. *)
Theorem C11_string_refines_sequences ao co :
  no_fail ao → refines_from sspec s_run ∅ ∅ (λ s, s = ∅) (λ _, True) ao co.
Proof. exact (s_refines_fair ao co). Qed.
Print Assumptions C11_string_refines_sequences.

(** size <= capacity, and the buffer is contents, null, rest: in every
    reachable state, also after failed allocations *)
Theorem C11_string_terminated (b : bool) ao evs s env m h xs :
  (b = false → no_fail ao) →
  s_hist ao evs s env m → Forall (λ ev, s_ok b ev.1) evs →
  s !! h = Some xs →
  ∃ l k p, env !! h = Some l ∧ s_holds m l xs k p ∧ length xs ≤ k.
Proof. exact (s_reach b ao evs s env m h xs). Qed.
Print Assumptions C11_string_terminated.

Example C11_example :
  answers_of sspec s_run ∅ ∅ (mem0 [] [])
    [SCstr 1 [97; 98]%N; SMake 2 [120; 0; 121]%N 3; SAppendStr 1 2; SAppendStr 1 1; SIter 1; SSize 1;
     SGet 1 10; SPush 2 122%N; SPop 1; SRange 3 [99; 99]%N; SLt 1 3; SFind 1 [98; 120]%N 3 2;
     SClear 1; SGet 1 0; SNew 4; SEq 1 4; SDestroy 1; SDestroy 2; SDestroy 3; SDestroy 4]
  = Some [Ret ROk; Ret ROk; Ret ROk; Ret ROk; Ret (RStr [97; 98; 120; 0; 121; 97; 98; 120; 0; 121]%N);
     Ret (RNat 10); Ret (RCh 0%N); Ret ROk; Ret ROk; Ret ROk; Ret (RBool true); Ret (RPos (Some 6));
     Ret ROk; Ret (RCh 0%N); Ret ROk; Ret (RBool true); Ret ROk; Ret ROk; Ret ROk; Ret ROk].
Proof. vm_compute. reflexivity. Qed.
Example C11_example_state :
  ∃ evs s env m, s_hist [false; true] evs s env m ∧ Forall (λ ev, s_ok true ev.1) evs ∧
    s !! 1 = Some [97; 98; 99]%N ∧ length evs = 3.
Proof.
  destruct (exec sspec s_run ∅ ∅ (mem0 [false; true] [])
    [SCstr 1 [97; 98]%N; SReserve 1 50; SPush 1 99%N]) as [[[[evs s] env] m]|] eqn:E;
    [|vm_compute in E; discriminate].
  exists evs, s, env, m. split; [by eapply exec_hist|].
  vm_compute in E. injection E as <- <- <- <-. repeat split. repeat constructor.
Qed.

(** ** C12 does not hold when there is a null inside: the copy is cut there. *)
Theorem C12_string_copy_refuted :
  ∃ m, fair m ∧ s_holds m 1%positive [97; 0; 98]%N 4 2%positive ∧
    match s_copy 1%positive m with
    | Ok this m' => s_holds m' this [97]%N 2 4%positive ∧ s_eq this 1%positive m' = Ok false m'
    | _ => False
    end.
Proof.
  exists (Mem {[ 1%positive := SHdr 3 4 (Some 2%positive); 2%positive := SBuf [97; 0; 98; 0; 0]%N ]} 3%positive [] []).
  split; [split; [apply mem_wf_check; vm_compute; reflexivity|by repeat constructor]|].
  split; [repeat split; [simpl; lia|by exists [0%N]]|]. vm_compute.
  repeat split; [lia|]. exists [0%N]. done.
Qed.
Print Assumptions C12_string_copy_refuted.
(** Without one the copy is equal, separate, and the source is as before. *)
Theorem C12_string_copy_construction_partial m g ys k q :
  may_fail_alloc m → s_holds m g ys k q → no_null ys →
  runs_to m [g; q] (s_copy g m) (λ this m' new, ∃ k' p,
    s_holds m' this ys k' p ∧ s_holds m' g ys k q ∧ s_apart this p g q ∧ new = [this; p; g; q] ∧
    s_eq this g m' = Ok true m').
Proof. exact (c12_copy m g ys k q). Qed.
Print Assumptions C12_string_copy_construction_partial.
Theorem C12_string_copy_assignment_partial m this xs k p g ys k' q :
  fair m → s_holds m this xs k p → s_holds m g ys k' q → s_apart this p g q → no_null ys →
  unthrown (s_assign_str this g m) (λ _ m', fair m' ∧ ∃ k1 p1,
    s_holds m' this ys k1 p1 ∧ s_holds m' g ys k' q ∧ s_apart this p1 g q ∧
    replaces [this; p; g; q] m [this; p1; g; q] m' ∧ s_eq this g m' = Ok true m').
Proof. exact (c12_assign m this xs k p g ys k' q). Qed.
Print Assumptions C12_string_copy_assignment_partial.
Example C12_example :
  let m := Mem (<[3%positive := SHdr 0 1 (Some 4%positive)]> (<[4%positive := SBuf [0; 0]%N]> (blk ex_str)))
             5%positive [] [] in
  fair m ∧ s_holds m 1%positive [97; 98; 99]%N 4 2%positive ∧ s_holds m 3%positive [] 1 4%positive ∧
  s_apart 3%positive 4%positive 1%positive 2%positive ∧ no_null [97; 98; 99]%N.
Proof.
  split; [split; [apply mem_wf_check; vm_compute; reflexivity|by repeat constructor]|].
  split; [repeat split; [simpl; lia|by exists [0%N]]|].
  split; [repeat split; [simpl; lia|by exists [0%N]]|]. split; [done|]. by repeat constructor.
Qed.

(** ** C13 does not hold: a string built by ordinary operations whose capacity
    equals its size is read after its buffer was freed when assigned to itself *)
Theorem C13_string_self_assignment_refuted :
  ∃ evs s env m l, s_hist [] evs s env m ∧ s !! 1 = Some [97; 98; 99; 100]%N ∧ env !! 1 = Some l ∧
    s_assign_str l l m = UB.
Proof.
  destruct (exec sspec s_run ∅ ∅ (mem0 [] [])
    [SMake 1 [97; 98]%N 2; SAppend 1 [99; 100]%N 2]) as [[[[evs s] env] m]|] eqn:E;
    [|vm_compute in E; discriminate].
  exists evs, s, env, m, 1%positive. split; [by eapply exec_hist|].
  vm_compute in E. injection E as <- <- <- <-. repeat split.
Qed.
Print Assumptions C13_string_self_assignment_refuted.
(** Exactly when [s = p] with [p] pointing at character [off] of [s] works
    ([off = 0] is [s = s]): the characters up to the first null must fit in the
    current capacity and must not partially overlap their destination. *)
Theorem C13_string_self_assignment_partial m this xs k p off :
  fair m → s_holds m this xs k p → off ≤ length xs →
  let ts := until_null (drop off xs) in
  (length ts < k ∧ (off = 0 ∨ length ts < off) →
     unthrown (s_assign this (CBlk p off) m) (λ _ m', fair m' ∧ ∃ k' p',
       s_holds m' this ts k' p' ∧ p' = p ∧ replaces [this; p] m [this; p'] m')) ∧
  (¬ (length ts < k ∧ (off = 0 ∨ length ts < off)) → s_assign this (CBlk p off) m = UB).
Proof. exact (c13 m this xs k p off). Qed.
Print Assumptions C13_string_self_assignment_partial.
Example C13_example :
  fair ex_str ∧ s_holds ex_str 1%positive [97; 98; 99]%N 4 2%positive ∧ 2 ≤ 3 ∧
  match s_assign 1%positive (CBlk 2%positive 2) ex_str with
  | Ok _ m' => s_holds m' 1%positive [99]%N 4 2%positive | _ => False end ∧
  s_assign 1%positive (CBlk 2%positive 1) ex_str = UB.
Proof.
  split; [split; [apply mem_wf_check; vm_compute; reflexivity|by repeat constructor]|].
  split; [repeat split; [simpl; lia|by exists [0%N]]|]. split; [lia|]. vm_compute.
  split; [|done]. repeat split; [lia|]. by exists [99; 0; 0]%N.
Qed.

(** ** C14: (pointer, pos, count) and (C string, pos); memory is literally
    unchanged and the pointer may be into any buffer, the string's own included *)
Theorem C14_string_find m this xs k p s cs pos n :
  s_holds m this xs k p → reads_as m s cs → n ≤ length cs →
  ∃ r, s_find this s pos n m = Ok r m ∧ first_from (occurs xs (take n cs)) pos r.
Proof. exact (c14_find m this xs k p s cs pos n). Qed.
Print Assumptions C14_string_find.
Theorem C14_string_find_cstring m this xs k p s ts zs pos :
  s_holds m this xs k p → reads_as m s (ts ++ 0%N :: zs) → no_null ts →
  ∃ r, s_find_c this s pos m = Ok r m ∧ first_from (occurs xs ts) pos r.
Proof. exact (c14_find_c m this xs k p s ts zs pos). Qed.
Print Assumptions C14_string_find_cstring.
(** the overload taking a string is right only if that string has no null inside *)
Theorem C14_string_find_string_partial m this xs k p g ts k' q pos :
  s_holds m this xs k p → s_holds m g ts k' q → no_null ts →
  ∃ r, s_find_str this g pos m = Ok r m ∧ first_from (occurs xs ts) pos r.
Proof. exact (c14_find_str m this xs k p g ts k' q pos). Qed.
Print Assumptions C14_string_find_string_partial.
Theorem C14_string_find_string_refuted :
  ∃ m, s_holds m 1%positive [97; 98; 99]%N 4 2%positive ∧ s_holds m 3%positive [97; 0; 99]%N 4 4%positive ∧
    ∃ r, s_find_str 1%positive 3%positive 0 m = Ok r m ∧ ¬ first_from (occurs [97; 98; 99]%N [97; 0; 99]%N) 0 r.
Proof.
  exists (Mem (<[3%positive := SHdr 3 4 (Some 4%positive)]> (<[4%positive := SBuf [97; 0; 99; 0; 0]%N]> (blk ex_str)))
             5%positive [] []).
  split; [repeat split; [simpl; lia|by exists [0%N]]|].
  split; [repeat split; [simpl; lia|by exists [0%N]]|].
  exists (Some 0). split; [vm_compute; reflexivity|]. intros (_ & (a & b & E & Ha) & _).
  destruct a; [|done]. discriminate E.
Qed.
Print Assumptions C14_string_find_string_refuted.
Example C14_example :
  s_holds ex_str 1%positive [97; 98; 99]%N 4 2%positive ∧
  reads_as ex_str (CBlk 2%positive 1) [98; 99; 0; 0]%N ∧
  s_find 1%positive (CBlk 2%positive 1) 0 2 ex_str = Ok (Some 1) ex_str ∧
  s_find 1%positive (CBlk 2%positive 1) 2 2 ex_str = Ok None ex_str.
Proof.
  split; [repeat split; [simpl; lia|by exists [0%N]]|].
  split; [by exists [97; 98; 99; 0; 0]%N; repeat split; simpl; lia|]. vm_compute. done.
Qed.

(** ** C15 does not hold: the start position is ignored. *)
Theorem C15_string_find_char_refuted :
  ∃ m, s_holds m 1%positive [97; 98; 97]%N 4 2%positive ∧
    ∃ r, s_find_ch 1%positive 97%N 1 m = Ok r m ∧
      ¬ first_from (λ i, [97; 98; 97]%N !! i = Some 97%N) 1 r.
Proof.
  exists (Mem {[ 1%positive := SHdr 3 4 (Some 2%positive); 2%positive := SBuf [97; 98; 97; 0; 0]%N ]} 3%positive [] []).
  split; [repeat split; [simpl; lia|by exists [0%N]]|].
  exists (Some 0). split; [vm_compute; reflexivity|]. intros [H _]. lia.
Qed.
Print Assumptions C15_string_find_char_refuted.
(** It returns the first occurrence from the start, whatever [pos]; so it is
    right for [pos = 0]. *)
Theorem C15_string_find_char_partial m this xs k p ch pos :
  s_holds m this xs k p →
  ∃ r, s_find_ch this ch pos m = Ok r m ∧ first_from (λ i, xs !! i = Some ch) 0 r.
Proof. exact (c15_find_ch m this xs k p ch pos). Qed.
Print Assumptions C15_string_find_char_partial.
Example C15_example :
  s_holds ex_str 1%positive [97; 98; 99]%N 4 2%positive ∧
  s_find_ch 1%positive 99%N 0 ex_str = Ok (Some 2) ex_str.
Proof. split; [repeat split; [simpl; lia|by exists [0%N]]|]. done. Qed.

(** ** C16: [agrees r xs ys] says r<0, r=0, r>0 exactly when xs is less, equal,
    greater, and that r fits in int *)
Theorem C16_string_compare m x xs k p y ys k' q :
  s_holds m x xs k p → s_holds m y ys k' q →
  (∃ r, s_compare x y m = Ok r m ∧ agrees r xs ys) ∧
  (∃ b, s_eq x y m = Ok b m ∧ (b = true ↔ xs = ys)) ∧
  (∃ b, s_eq_char x y m = Ok b m ∧ (b = true ↔ xs = ys)) ∧
  (∃ b, s_ne x y m = Ok b m ∧ (b = true ↔ xs ≠ ys)) ∧
  (∃ b, s_lt x y m = Ok b m ∧ (b = true ↔ lex_lt xs ys)).
Proof. exact (c16_strings m x xs k p y ys k' q). Qed.
Print Assumptions C16_string_compare.
Theorem C16_string_compare_array m x xs k p s ts zs :
  s_holds m x xs k p → reads_as m s (ts ++ 0%N :: zs) → no_null ts →
  (∃ r, s_compare_c x s m = Ok r m ∧ agrees r xs ts) ∧
  (∃ b, s_eq_c x s m = Ok b m ∧ (b = true ↔ xs = ts)) ∧
  (∃ b, s_ne_c x s m = Ok b m ∧ (b = true ↔ xs ≠ ts)) ∧
  (∃ b, s_lt_c x s m = Ok b m ∧ (b = true ↔ lex_lt xs ts)) ∧
  (∃ b, c_lt_s s x m = Ok b m ∧ (b = true ↔ lex_lt ts xs)).
Proof. exact (c16_arrays m x xs k p s ts zs). Qed.
Print Assumptions C16_string_compare_array.
Theorem C16_string_order_total :
  (∀ xs, ¬ lex_lt xs xs) ∧ (∀ xs ys zs, lex_lt xs ys → lex_lt ys zs → lex_lt xs zs) ∧
  (∀ xs ys, lex_lt xs ys ∨ xs = ys ∨ lex_lt ys xs).
Proof. exact lex_strict_total. Qed.
Print Assumptions C16_string_order_total.
(** the clamped length difference, for any lengths *)
Theorem C16_string_clamp_sign n1 n2 :
  Z.sgn (S_compare n1 n2) = Z.sgn (Z.of_nat n1 - Z.of_nat n2) ∧ (-2147483648 ≤ S_compare n1 n2 ≤ 2147483647)%Z.
Proof. exact (conj (StringFacts.S_compare_sgn n1 n2) (StringFacts.S_compare_range n1 n2)). Qed.
Print Assumptions C16_string_clamp_sign.
Example C16_example :
  s_holds ex_str 1%positive [97; 98; 99]%N 4 2%positive ∧
  reads_as ex_str (CExt [97; 98; 0; 7]%N) ([97; 98] ++ 0 :: [7])%N ∧
  s_compare_c 1%positive (CExt [97; 98; 0; 7]%N) ex_str = Ok 1%Z ex_str ∧
  s_compare 1%positive 1%positive ex_str = Ok 0%Z ex_str ∧
  lex_lt [97; 98]%N [97; 98; 99]%N.
Proof.
  split; [repeat split; [simpl; lia|by exists [0%N]]|]. split; [done|]. repeat split.
  apply lex_tail, lex_tail, lex_nil.
Qed.

(** ** C17 does not hold for the empty range, where it is always undefined;
    and it leaks if an allocation fails. *)
Theorem C17_string_empty_range_refuted m : s_range [] m = UB.
Proof. exact (c17_empty m). Qed.
Print Assumptions C17_string_empty_range_refuted.
Theorem C17_string_range_leak_refuted :
  ∃ m', s_range [97; 98; 99]%N (mem0 [false; true] []) = Exn BadAlloc m' ∧ blk m' ≠ ∅.
Proof. eexists. split; [vm_compute; reflexivity|]. vm_compute. discriminate. Qed.
Print Assumptions C17_string_range_leak_refuted.
Theorem C17_string_range_partial m cs :
  fair m → cs ≠ [] →
  unthrown (s_range cs m) (λ this m', fair m' ∧ ∃ k p, s_holds m' this cs k p ∧ replaces [] m [this; p] m').
Proof. exact (c17_range m cs). Qed.
Print Assumptions C17_string_range_partial.
Example C17_example :
  fair (mem0 [] [] : mem scell) ∧ [97; 0; 98; 99; 1; 2; 3]%N ≠ [] ∧
  match s_range [97; 0; 98; 99; 1; 2; 3]%N (mem0 [] []) with
  | Ok this m' => s_holds m' this [97; 0; 98; 99; 1; 2; 3]%N 14 4%positive ∧ size (blk m') = 2 | _ => False end.
Proof.
  split; [split; [apply mem_wf_check; vm_compute; reflexivity|by repeat constructor]|].
  split; [done|]. vm_compute. repeat split; [lia|]. by exists [0; 0; 0; 0; 0; 0; 0]%N.
Qed.

(** ** C18 does not hold for a full string, whatever the element *)
Theorem C18_string_push_own_refuted m this xs k p i :
  fair m → s_holds m this xs k p → length xs = k → s_push_back this (CElem p i) m = UB.
Proof. exact (c18_full m this xs k p i). Qed.
Print Assumptions C18_string_push_own_refuted.
Theorem C18_string_push_own_partial m this xs k p i c :
  may_fail_alloc m → s_holds m this xs k p → xs !! i = Some c → length xs < k →
  runs_to m [this; p] (s_push_back this (CElem p i) m) (λ _ m' new, ∃ k' p',
    s_holds m' this (xs ++ [c]) k' p' ∧ (k' = k ∧ p' = p) ∧ new = [this; p']).
Proof. exact (c18_spare m this xs k p i c). Qed.
Print Assumptions C18_string_push_own_partial.
Example C18_example :
  fair ex_str ∧ s_holds ex_str 1%positive [97; 98; 99]%N 4 2%positive ∧
  match s_push_back 1%positive (CElem 2%positive 1) ex_str with
  | Ok _ m' => s_holds m' 1%positive [97; 98; 99; 98]%N 4 2%positive ∧
      s_push_back 1%positive (CElem 2%positive 1) m' = UB
  | _ => False
  end.
Proof.
  split; [split; [apply mem_wf_check; vm_compute; reflexivity|by repeat constructor]|].
  split; [repeat split; [simpl; lia|by exists [0%N]]|]. vm_compute. repeat split; [lia|]. by exists [].
Qed.

(** ** C19: [runs_to] says that the only exception is std::bad_alloc, leaving
    memory as it was *)
Theorem C19_string_alloc_failure_histories ao co :
  refines_from sspec s_run ∅ ∅ (λ s, s = ∅) (s_ok true) ao co.
Proof. exact (s_refines_fail ao co). Qed.
Print Assumptions C19_string_alloc_failure_histories.
Theorem C19_string_strong_guarantee_partial m this xs k p :
  may_fail_alloc m → s_holds m this xs k p →
  (∀ n, runs_to m [this; p] (s_reserve this n m) (λ _ m' new, ∃ k' p',
     s_holds m' this xs k' p' ∧ (k' = k `max` n ∧ (n ≤ k → p' = p)) ∧ new = [this; p'])) ∧
  (∀ c, runs_to m [this; p] (s_push_back this (CVal c) m) (λ _ m' new, ∃ k' p',
     s_holds m' this (xs ++ [c]) k' p' ∧ (length xs < k → k' = k ∧ p' = p) ∧ new = [this; p'])) ∧
  (∀ cs n, n ≤ length cs → runs_to m [this; p] (s_append this (CExt cs) n m) (λ _ m' new, ∃ k' p',
     s_holds m' this (xs ++ take n cs) k' p' ∧ True ∧ new = [this; p'])) ∧
  runs_to m [this; p] (s_append_str this this m) (λ _ m' new, ∃ k' p',
     s_holds m' this (xs ++ xs) k' p' ∧ True ∧ new = [this; p']).
Proof. exact (c19_all m this xs k p). Qed.
Print Assumptions C19_string_strong_guarantee_partial.
Theorem C19_string_alloc_failure_propagates m this xs k p o :
  s_holds m this xs k p → aorc m = true :: o →
  (∀ n, k < n → ∃ m', s_reserve this n m = Exn BadAlloc m') ∧
  (∀ c, length xs = k → ∃ m', s_push_back this (CVal c) m = Exn BadAlloc m') ∧
  (∀ cs n, k < length xs + n → ∃ m', s_append this (CExt cs) n m = Exn BadAlloc m').
Proof. exact (c19_throws m this xs k p o). Qed.
Print Assumptions C19_string_alloc_failure_propagates.
(** An assignment whose allocation fails leaves a pointer to the freed buffer. *)
Theorem C19_string_assignment_refuted :
  ∃ m m', may_fail_alloc m ∧ s_holds m 1%positive [97; 98; 99]%N 4 2%positive ∧
    s_assign 1%positive (cstring [1; 2; 3; 4; 5]%N) m = Exn BadAlloc m' ∧
    s_get 1%positive 0 m' = UB ∧ s_dtor 1%positive m' = UB.
Proof.
  exists (Mem (blk ex_str) 3%positive [true] []). eexists.
  split; [split; [apply mem_wf_check; vm_compute; reflexivity|constructor]|].
  split; [repeat split; [simpl; lia|by exists [0%N]]|]. repeat split.
Qed.
Print Assumptions C19_string_assignment_refuted.
Example C19_example :
  let m := Mem (blk ex_str) 3%positive [true] [] in
  may_fail_alloc m ∧ s_holds m 1%positive [97; 98; 99]%N 4 2%positive ∧
  match s_append 1%positive (CExt [1; 2]%N) 2 m with
  | Exn BadAlloc m' => s_holds m' 1%positive [97; 98; 99]%N 4 2%positive
  | _ => False
  end.
Proof.
  split; [split; [apply mem_wf_check; vm_compute; reflexivity|constructor]|].
  split; [repeat split; [simpl; lia|by exists [0%N]]|]. vm_compute. repeat split; [lia|]. by exists [0%N].
Qed.

(** ** C85: every copy holds the characters before the first null of its source,
    and compares equal to it if and only if there is no null. *)
Theorem C85_string_copy_construction m g ys k q :
  may_fail_alloc m → s_holds m g ys k q →
  runs_to m [g; q] (s_copy g m) (λ this m' new, ∃ k' p,
    s_holds m' this (until_null ys) k' p ∧ s_holds m' g ys k q ∧ s_apart this p g q ∧ new = [this; p; g; q] ∧
    s_eq this g m' = Ok (bool_decide (no_null ys)) m').
Proof. exact (c85_copy m g ys k q). Qed.
Print Assumptions C85_string_copy_construction.
Theorem C85_string_copy_assignment m this xs k p g ys k' q :
  fair m → s_holds m this xs k p → s_holds m g ys k' q → s_apart this p g q →
  unthrown (s_assign_str this g m) (λ _ m', fair m' ∧ ∃ k1 p1,
    s_holds m' this (until_null ys) k1 p1 ∧ s_holds m' g ys k' q ∧ s_apart this p1 g q ∧
    replaces [this; p; g; q] m [this; p1; g; q] m' ∧ s_eq this g m' = Ok (bool_decide (no_null ys)) m').
Proof. exact (c85_assign m this xs k p g ys k' q). Qed.
Print Assumptions C85_string_copy_assignment.
Example C85_example :
  let m := Mem {[ 1%positive := SHdr 3 4 (Some 2%positive); 2%positive := SBuf [97; 0; 99; 0; 0]%N ]} 3%positive [] [] in
  may_fail_alloc m ∧ s_holds m 1%positive [97; 0; 99]%N 4 2%positive ∧ until_null [97; 0; 99]%N = [97]%N.
Proof.
  split; [split; [apply mem_wf_check; vm_compute; reflexivity|constructor]|].
  split; [repeat split; [simpl; lia|by exists [0%N]]|]. done.
Qed.

(** ** C86: when [s = p], with [p] pointing at character [off] of [s], is defined
    and what it gives; [off = 0] is [s = s]. *)
Theorem C86_string_aliasing_assignment m this xs k p off :
  fair m → s_holds m this xs k p → off ≤ length xs →
  let ts := until_null (drop off xs) in
  if decide (length ts < k ∧ (off = 0 ∨ length ts < off))
  then unthrown (s_assign this (CBlk p off) m) (λ _ m', fair m' ∧ ∃ k' p',
         s_holds m' this ts k' p' ∧ p' = p ∧ replaces [this; p] m [this; p'] m')
  else s_assign this (CBlk p off) m = UB.
Proof. exact (c86 m this xs k p off). Qed.
Print Assumptions C86_string_aliasing_assignment.
Example C86_example :
  fair ex_str ∧ s_holds ex_str 1%positive [97; 98; 99]%N 4 2%positive ∧ 0 ≤ 3 ∧
  length (until_null [97; 98; 99]%N) < 4.
Proof.
  split; [split; [apply mem_wf_check; vm_compute; reflexivity|by repeat constructor]|].
  split; [repeat split; [simpl; lia|by exists [0%N]]|]. simpl. lia.
Qed.

(** ** C87: find(ch, pos), which gives the first occurrence in the whole string
    (C15_string_find_char_partial), is the first occurrence from [pos] exactly if there is none
    before. *)
Theorem C87_string_find_char_right m this xs k p ch pos :
  s_holds m this xs k p →
  (∃ r, s_find_ch this ch pos m = Ok r m ∧ first_from (λ i, xs !! i = Some ch) pos r) ↔ ch ∉ take pos xs.
Proof. exact (c87_right m this xs k p ch pos). Qed.
Print Assumptions C87_string_find_char_right.
Example C87_example :
  s_holds ex_str 1%positive [97; 98; 99]%N 4 2%positive ∧ 98%N ∉ take 1 [97; 98; 99]%N ∧
  s_find_ch 1%positive 98%N 1 ex_str = Ok (Some 1) ex_str.
Proof. split; [repeat split; [simpl; lia|by exists [0%N]]|]. split; [set_solver by lia|done]. Qed.

(** ** C88: push_back of an own character *)
Theorem C88_string_push_own m this xs k p i c :
  fair m → s_holds m this xs k p → xs !! i = Some c →
  if decide (length xs < k)
  then runs_to m [this; p] (s_push_back this (CElem p i) m) (λ _ m' new, ∃ k' p',
         s_holds m' this (xs ++ [c]) k' p' ∧ (k' = k ∧ p' = p) ∧ new = [this; p'])
  else s_push_back this (CElem p i) m = UB.
Proof. exact (c88 m this xs k p i c). Qed.
Print Assumptions C88_string_push_own.
Example C88_example :
  fair ex_str ∧ s_holds ex_str 1%positive [97; 98; 99]%N 4 2%positive ∧ [97; 98; 99]%N !! 1 = Some 98%N ∧ 3 < 4.
Proof.
  split; [split; [apply mem_wf_check; vm_compute; reflexivity|by repeat constructor]|].
  split; [repeat split; [simpl; lia|by exists [0%N]]|]. split; [done|lia].
Qed.
