(** cest::vector with elements whose copies throw: property theorems C121 (see
    /verif/properties.jsonl). *)
From Verif Require Import Mem Hist HistProofs ModelVector SpecVector SpecVectorThrow VectorThrow.

(** A vector 5, 6, 7 of capacity 4 at address 1 and a vector 8, 9, 10, 11 (full)
    at address 3; two copies succeed, the third throws. *)
Definition throw_mem (co : list bool) : mem (vcell nat) :=
  Mem {[ 1%positive := VHdr 3 4 (Some 2%positive);
         2%positive := VArr [Some 5; Some 6; Some 7; None];
         3%positive := VHdr 4 4 (Some 4%positive);
         4%positive := VArr [Some 8; Some 9; Some 10; Some 11] ]} 5%positive [] co.

(** ** reserve: the vector is unchanged, the new block and the elements copied
    to it are lost. *)
Theorem C121_reserve {V : Type} (m : mem (vcell V)) this xs k p n t rest :
  mem_wf m → holds m this xs k p → next_alloc_ok m → k < n → t < length xs → throws_at m t rest →
  threw (v_reserve this n m) (<[nxt m := filled (take t xs) n]> (blk m)) rest.
Proof. exact (t_reserve m this xs k p n t rest). Qed.
Print Assumptions C121_reserve.
Example C121_reserve_example :
  let m := throw_mem [false; false; true] in
  mem_wf m ∧ holds m 1%positive [5; 6; 7] 4 (Some 2%positive) ∧ next_alloc_ok m ∧ 4 < 9 ∧
  2 < length [5; 6; 7] ∧ throws_at m 2 [] ∧
  match v_reserve 1%positive 9 m with
  | Exn CopyThrow m' => size (blk m') = 5 ∧ blk m' !! 5%positive = Some (filled [5; 6] 9)
  | _ => False
  end.
Proof.
  cbv zeta. split; [apply mem_wf_check; vm_compute; reflexivity|].
  split; [repeat split; simpl; lia|]. split; [done|]. split; [simpl; lia|]. split; [simpl; lia|]. split; [done|]. vm_compute. repeat split; reflexivity.
Qed.

(** ** push_back with room: the element is counted but missing. *)
Theorem C121_push_back_room {V : Type} (m : mem (vcell V)) this xs k b v rest :
  holds m this xs k (Some b) → length xs < k → throws_at m 0 rest →
  ∃ m', v_push_back this (RVal v) m = Exn CopyThrow m' ∧ corc m' = rest ∧
    blk m' = <[this := VHdr (S (length xs)) k (Some b)]> (blk m) ∧ v_torn m' this xs k b.
Proof. exact (t_push_room m this xs k b v rest). Qed.
Print Assumptions C121_push_back_room.
Example C121_push_back_room_example :
  let m := throw_mem [true] in
  holds m 1%positive [5; 6; 7] 4 (Some 2%positive) ∧ length [5; 6; 7] < 4 ∧ throws_at m 0 [].
Proof. repeat split; simpl; lia. Qed.

(** ** push_back to a full vector: if one of the old elements' copies throws, the
    vector is unchanged and the new block is lost ... *)
Theorem C121_push_back_lost {V : Type} (m : mem (vcell V)) this xs k p v t rest :
  mem_wf m → holds m this xs k p → length xs = k → next_alloc_ok m → t < k → throws_at m t rest →
  threw (v_push_back this (RVal v) m) (<[nxt m := filled (take t xs) (2 * k)]> (blk m)) rest.
Proof. exact (t_push_lost m this xs k p v t rest). Qed.
Print Assumptions C121_push_back_lost.
(** ... and if the copy of the new element throws, the vector has grown and
    counts an element it does not have. *)
Theorem C121_push_back_grown {V : Type} (m : mem (vcell V)) this xs k p v rest :
  mem_wf m → holds m this xs k p → length xs = k → next_alloc_ok m → throws_at m k rest →
  ∃ m', v_push_back this (RVal v) m = Exn CopyThrow m' ∧ corc m' = rest ∧
    blk m' = <[this := VHdr (S k) (next_cap k) (Some (nxt m))]>
               (regrown this xs (next_cap k) p (nxt m) (blk m)) ∧
    v_torn m' this xs (next_cap k) (nxt m).
Proof. exact (t_push_grown m this xs k p v rest). Qed.
Print Assumptions C121_push_back_grown.
Example C121_push_back_full_example :
  let m2 := throw_mem [false; false; true] in
  let m4 := throw_mem [false; false; false; false; true] in
  mem_wf m2 ∧ holds m2 3%positive [8; 9; 10; 11] 4 (Some 4%positive) ∧ next_alloc_ok m2 ∧ throws_at m2 2 [] ∧
  mem_wf m4 ∧ holds m4 3%positive [8; 9; 10; 11] 4 (Some 4%positive) ∧ next_alloc_ok m4 ∧ throws_at m4 4 [] ∧
  match v_push_back 3%positive (RVal 12) m4 with
  | Exn CopyThrow m' => v_size 3%positive m' = Ok 5 m'
  | _ => False
  end.
Proof.
  cbv zeta. split; [apply mem_wf_check; vm_compute; reflexivity|].
  split; [repeat split; simpl; lia|]. split; [done|]. split; [done|].
  split; [apply mem_wf_check; vm_compute; reflexivity|].
  split; [repeat split; simpl; lia|]. split; [done|]. split; [done|].
  vm_compute. reflexivity.
Qed.

(** ** A vector that counts a missing element: the others can be read ... *)
Theorem C121_torn_readable {V : Type} (m : mem (vcell V)) this xs k b :
  v_torn m this xs k b →
  v_size this m = Ok (S (length xs)) m ∧
  ∀ i, i ≤ length xs →
    (r <- v_index this i ;; v_read r) m = match xs !! i with Some v => Ok v m | None => UB end.
Proof. intros H. exact (conj (torn_size m this xs k b H) (torn_read m this xs k b H)). Qed.
Print Assumptions C121_torn_readable.
(** ... and iterating, clear, pop_back and the destructor are undefined. *)
Theorem C121_torn_undefined {V : Type} (m : mem (vcell V)) this xs k b :
  v_torn m this xs k b →
  v_iterate this m = UB ∧ v_clear this m = UB ∧ v_pop_back this m = UB ∧ v_dtor this m = UB.
Proof. exact (torn_undefined m this xs k b). Qed.
Print Assumptions C121_torn_undefined.
Example C121_torn_example :
  let m := Mem {[ 1%positive := VHdr 3 4 (Some 2%positive);
                  2%positive := VArr [Some 5; Some 6; None; None] ]} 3%positive [] [] in
  v_torn m 1%positive [5; 6] 4 2%positive.
Proof. repeat split; simpl; lia. Qed.

(** ** The copy constructor: undefined whichever element's copy throws. *)
Theorem C121_copy_constructor {V : Type} (m : mem (vcell V)) other xs k p t rest :
  mem_wf m → holds m other xs k p → next_alloc_ok m → t < length xs → throws_at m t rest →
  v_copy other m = UB.
Proof. exact (copy_throw_undefined m other xs k p t rest). Qed.
Print Assumptions C121_copy_constructor.
(** ** vector(n): the block and the elements constructed in it are lost. *)
Theorem C121_count_constructor {V : Type} (dflt : V) (m : mem (vcell V)) n t rest :
  mem_wf m → next_alloc_ok m → t < n → throws_at m t rest →
  threw (v_count dflt n m) (<[Pos.succ (nxt m) := filled (replicate t dflt) n]> (blk m)) rest.
Proof. exact (t_count dflt m n t rest). Qed.
Print Assumptions C121_count_constructor.
Example C121_constructor_example :
  let m := throw_mem [false; false; true] in
  mem_wf m ∧ holds m 1%positive [5; 6; 7] 4 (Some 2%positive) ∧ next_alloc_ok m ∧
  2 < length [5; 6; 7] ∧ throws_at m 2 [].
Proof.
  cbv zeta. split; [apply mem_wf_check; vm_compute; reflexivity|].
  split; [repeat split; simpl; lia|]. split; [done|]. split; [simpl; lia|]. done.
Qed.

(** ** resize: the elements appended before the throw exist but are not counted. *)
Theorem C121_resize_room {V : Type} (dflt : V) (m : mem (vcell V)) this xs k b n t rest :
  holds m this xs k (Some b) → length xs < n ≤ k → t < n - length xs → throws_at m t rest →
  ∃ m', v_resize dflt this n m = Exn CopyThrow m' ∧ corc m' = rest ∧
    blk m' = <[b := filled (xs ++ replicate t dflt) k]> (blk m) ∧
    v_surplus m' this (length xs) (xs ++ replicate t dflt) k b.
Proof. exact (t_resize_room dflt m this xs k b n t rest). Qed.
Print Assumptions C121_resize_room.
Theorem C121_resize_lost {V : Type} (dflt : V) (m : mem (vcell V)) this xs k p n t rest :
  mem_wf m → holds m this xs k p → next_alloc_ok m → k < n → t < length xs → throws_at m t rest →
  threw (v_resize dflt this n m) (<[nxt m := filled (take t xs) n]> (blk m)) rest.
Proof. exact (t_resize_lost dflt m this xs k p n t rest). Qed.
Print Assumptions C121_resize_lost.
Theorem C121_resize_grown {V : Type} (dflt : V) (m : mem (vcell V)) this xs k p n t rest :
  mem_wf m → holds m this xs k p → next_alloc_ok m → k < n → t < n - length xs →
  throws_at m (length xs + t) rest →
  ∃ m', v_resize dflt this n m = Exn CopyThrow m' ∧ corc m' = rest ∧
    blk m' = <[nxt m := filled (xs ++ replicate t dflt) n]> (regrown this xs n p (nxt m) (blk m)) ∧
    v_surplus m' this (length xs) (xs ++ replicate t dflt) n (nxt m).
Proof. exact (t_resize_grown dflt m this xs k p n t rest). Qed.
Print Assumptions C121_resize_grown.
Example C121_resize_example :
  let m := throw_mem [false; false; false; false; true] in
  mem_wf m ∧ holds m 1%positive [5; 6; 7] 4 (Some 2%positive) ∧ next_alloc_ok m ∧ 4 < 6 ∧
  1 < 6 - length [5; 6; 7] ∧ throws_at m (length [5; 6; 7] + 1) [] ∧
  match v_resize 0 1%positive 6 m with
  | Exn CopyThrow m' => v_size 1%positive m' = Ok 3 m' ∧ blk m' !! 5%positive = Some (filled [5; 6; 7; 0] 6)
  | _ => False
  end.
Proof.
  cbv zeta. split; [apply mem_wf_check; vm_compute; reflexivity|].
  split; [repeat split; simpl; lia|]. split; [done|]. split; [simpl; lia|]. split; [simpl; lia|]. split; [done|]. vm_compute. repeat split; reflexivity.
Qed.

(** ** A vector with more elements than it counts: those counted can be read;
    clear destroys only these, so the others are never destroyed. *)
Theorem C121_surplus_readable {V : Type} (m : mem (vcell V)) this n ys k b i :
  v_surplus m this n ys k b → i < n →
  ∃ y, ys !! i = Some y ∧ (r <- v_index this i ;; v_read r) m = Ok y m.
Proof. exact (surplus_read m this n ys k b i). Qed.
Print Assumptions C121_surplus_readable.
Theorem C121_surplus_clear {V : Type} (m : mem (vcell V)) this n ys k b :
  v_surplus m this n ys k b →
  v_clear this m = Ok tt (Mem (<[this := VHdr 0 k (Some b)]>
    (<[b := VArr (replicate n None ++ map Some (drop n ys) ++ replicate (k - length ys) None)]> (blk m)))
    (nxt m) (aorc m) (corc m)).
Proof. exact (surplus_clear m this n ys k b). Qed.
Print Assumptions C121_surplus_clear.
Example C121_surplus_example :
  let m := Mem {[ 1%positive := VHdr 2 4 (Some 2%positive);
                  2%positive := VArr [Some 5; Some 6; Some 7; None] ]} 3%positive [] [] in
  v_surplus m 1%positive 2 [5; 6; 7] 4 2%positive.
Proof. repeat split; simpl; lia. Qed.

(** ** erase: a vector of the old size, in which [t] elements have been moved. *)
Theorem C121_erase {V : Type} (m : mem (vcell V)) this xs k b i j t rest :
  holds m this xs k (Some b) → i ≤ j ≤ length xs → t < length xs - j → throws_at m t rest →
  ∃ m', v_erase this i j m = Exn CopyThrow m' ∧ corc m' = rest ∧
    blk m' = <[b := filled (take i xs ++ take t (drop j xs) ++ drop (i + t) xs) k]> (blk m) ∧
    holds m' this (take i xs ++ take t (drop j xs) ++ drop (i + t) xs) k (Some b).
Proof. exact (t_erase m this xs k b i j t rest). Qed.
Print Assumptions C121_erase.
Example C121_erase_example :
  let m := throw_mem [false; false; true] in
  holds m 3%positive [8; 9; 10; 11] 4 (Some 4%positive) ∧ 0 ≤ 1 ≤ length [8; 9; 10; 11] ∧
  2 < length [8; 9; 10; 11] - 1 ∧ throws_at m 2 [] ∧
  match v_erase 3%positive 0 1 m with
  | Exn CopyThrow m' => blk m' !! 4%positive = Some (filled [9; 10; 10; 11] 4)
  | _ => False
  end.
Proof.
  cbv zeta. split; [repeat split; simpl; lia|]. split; [simpl; lia|]. split; [simpl; lia|]. split; [done|]. vm_compute. repeat split; reflexivity.
Qed.

(** ** Copy assignment with room: while old elements are being assigned the
    vector stays whole; afterwards there are elements it does not count. *)
Theorem C121_assign_room {V : Type} (m : mem (vcell V)) this other xs ys k k' b q t rest :
  holds m this xs k (Some b) → holds m other ys k' q → apart this other (Some b) q →
  k' ≤ k → t < length ys → throws_at m t rest →
  ∃ m', v_assign this other m = Exn CopyThrow m' ∧ corc m' = rest ∧
    blk m' = <[b := filled (take t ys ++ drop t xs) k]> (blk m) ∧
    if decide (t < length xs) then holds m' this (take t ys ++ drop t xs) k (Some b)
    else v_surplus m' this (length xs) (take t ys) k b.
Proof. exact (t_assign_room m this other xs ys k k' b q t rest). Qed.
Print Assumptions C121_assign_room.
Theorem C121_assign_lost {V : Type} (m : mem (vcell V)) this other xs ys k k' p q t rest :
  mem_wf m → holds m this xs k p → holds m other ys k' q → next_alloc_ok m → k < k' →
  t < length xs → throws_at m t rest →
  threw (v_assign this other m) (<[nxt m := filled (take t xs) k']> (blk m)) rest.
Proof. exact (t_assign_lost m this other xs ys k k' p q t rest). Qed.
Print Assumptions C121_assign_lost.
Theorem C121_assign_grown {V : Type} (m : mem (vcell V)) this other xs ys k k' p q t rest :
  mem_wf m → holds m this xs k p → holds m other ys k' q → apart this other p q → next_alloc_ok m →
  k < k' → t < length ys → throws_at m (length xs + t) rest →
  ∃ m', v_assign this other m = Exn CopyThrow m' ∧ corc m' = rest ∧
    blk m' = <[nxt m := filled (take t ys ++ drop t xs) k']> (regrown this xs k' p (nxt m) (blk m)) ∧
    if decide (t < length xs) then holds m' this (take t ys ++ drop t xs) k' (Some (nxt m))
    else v_surplus m' this (length xs) (take t ys) k' (nxt m).
Proof. exact (t_assign_grown m this other xs ys k k' p q t rest). Qed.
Print Assumptions C121_assign_grown.
Example C121_assign_example :
  let m := throw_mem [false; false; false; true] in
  holds m 1%positive [5; 6; 7] 4 (Some 2%positive) ∧ holds m 3%positive [8; 9; 10; 11] 4 (Some 4%positive) ∧
  4 ≤ 4 ∧ 3 < length [8; 9; 10; 11] ∧ throws_at m 3 [] ∧
  match v_assign 1%positive 3%positive m with
  | Exn CopyThrow m' => v_size 1%positive m' = Ok 3 m' ∧ blk m' !! 2%positive = Some (filled [8; 9; 10] 4)
  | _ => False
  end.
Proof.
  cbv zeta. split; [repeat split; simpl; lia|]. split; [repeat split; simpl; lia|]. split; [simpl; lia|]. split; [simpl; lia|]. split; [done|]. vm_compute. repeat split; reflexivity.
Qed.
Example C121_assign_apart : apart 1%positive 3%positive (Some 2%positive) (Some 4%positive).
Proof. intros l. cbn [own_cells]. rewrite !elem_of_cons, !elem_of_nil. naive_solver. Qed.
Example C121_assign_grown_example :
  let m := Mem {[ 1%positive := VHdr 1 1 (Some 2%positive); 2%positive := VArr [Some 5];
                  3%positive := VHdr 3 4 (Some 4%positive);
                  4%positive := VArr [Some 8; Some 9; Some 10; None] ]} 5%positive [] [false; false; false; true] in
  mem_wf m ∧ holds m 1%positive [5] 1 (Some 2%positive) ∧ holds m 3%positive [8; 9; 10] 4 (Some 4%positive) ∧
  next_alloc_ok m ∧ 1 < 4 ∧ 2 < length [8; 9; 10] ∧ throws_at m (length [5] + 2) [] ∧
  match v_assign 1%positive 3%positive m with
  | Exn CopyThrow m' => v_size 1%positive m' = Ok 1 m' ∧ blk m' !! 5%positive = Some (filled [8; 9] 4)
  | _ => False
  end.
Proof.
  cbv zeta. split; [apply mem_wf_check; vm_compute; reflexivity|].
  split; [repeat split; simpl; lia|]. split; [repeat split; simpl; lia|]. split; [done|]. split; [simpl; lia|]. split; [simpl; lia|]. split; [done|]. vm_compute. repeat split; reflexivity.
Qed.
