(** cest::vector with elements whose copies throw, continued: property theorems
    C122 (see /verif/properties.jsonl). *)
From Verif Require Import Mem Hist HistProofs ModelVector SpecVector SpecVectorThrow SpecVectorInit VectorThrow VectorInit.

(** ** The initializer-list constructor.  If the copy of the element at [i] itself
    throws, the block with the [i] elements before it is lost ... *)
Theorem C122_init_element {V : Type} (m : mem (vcell V)) (vs : list V) i rest :
  mem_wf m → allocs_ok m → i < length vs → throws_at m (copies_for (S i) - 1) rest →
  ∃ b, unused m b ∧ threw (v_init vs m) (<[b := filled (take i vs) (cap_after (S i))]> (blk m)) rest.
Proof. exact (init_new m vs i rest). Qed.
Print Assumptions C122_init_element.
(** ... and if a copy made while the first [i] elements are moved throws, two
    blocks are lost. *)
Theorem C122_init_moving {V : Type} (m : mem (vcell V)) (vs : list V) i t rest :
  mem_wf m → allocs_ok m → i < length vs → cap_after i = i → t < i → throws_at m (copies_for i + t) rest →
  ∃ b b', unused m b ∧ unused m b' ∧ b ≠ b' ∧
    threw (v_init vs m) (<[b' := filled (take t vs) (2 * i)]> (<[b := filled (take i vs) i]> (blk m))) rest.
Proof. exact (init_lost m vs i t rest). Qed.
Print Assumptions C122_init_moving.
(** Every copy the constructor makes is one of these. *)
Theorem C122_init_points n t : t < copies_for n →
  ∃ i, i < n ∧ (t = copies_for (S i) - 1 ∨ cap_after i = i ∧ ∃ s, s < i ∧ t = copies_for i + s).
Proof. exact (copies_points n t). Qed.
Print Assumptions C122_init_points.
(** Five elements: 12 copies.  The copy numbered 8 (from 0) is the second one made while
    moving the first 4 elements, that numbered 11 the one of the fifth element. *)
Example C122_init_example :
  let m co : mem (vcell nat) := Mem {[ 1%positive := VHdr 0 0 None ]} 2%positive [false; false; false; false] co in
  let c8 := m (replicate 8 false ++ [true]) in
  let c11 := m (replicate 11 false ++ [true]) in
  mem_wf c8 ∧ allocs_ok c8 ∧ 4 < length [5; 6; 7; 8; 9] ∧ cap_after 4 = 4 ∧ 1 < 4 ∧
  throws_at c8 (copies_for 4 + 1) [] ∧ throws_at c11 (copies_for 5 - 1) [] ∧ copies_for 5 = 12 ∧
  match v_init [5; 6; 7; 8; 9] c8 with
  | Exn CopyThrow m' => size (blk m') = 3 ∧ blk m' !! 5%positive = Some (filled [5; 6; 7; 8] 4) ∧
      blk m' !! 6%positive = Some (filled [5] 8)
  | _ => False
  end ∧
  match v_init [5; 6; 7; 8; 9] c11 with
  | Exn CopyThrow m' => size (blk m') = 2 ∧ blk m' !! 6%positive = Some (filled [5; 6; 7; 8] 8)
  | _ => False
  end.
Proof.
  cbv zeta. split; [apply mem_wf_check; vm_compute; reflexivity|]. split; [repeat constructor|].
  split; [simpl; lia|]. split; [reflexivity|]. split; [lia|]. split; [reflexivity|]. split; [reflexivity|].
  split; [reflexivity|]. split; vm_compute; repeat split; reflexivity.
Qed.

(** ** Self-assignment: nothing changes. *)
Theorem C122_self_assignment {V : Type} (m : mem (vcell V)) this xs k p t rest :
  holds m this xs k p → t < length xs → throws_at m t rest → threw (v_assign this this m) (blk m) rest.
Proof. exact (self_assign_throw m this xs k p t rest). Qed.
Print Assumptions C122_self_assignment.
(** ** push_back of an own element: with room the vector counts an element it
    does not have; a copy made while moving loses the new block. *)
Theorem C122_push_own_room {V : Type} (m : mem (vcell V)) this xs k b i rest :
  holds m this xs k (Some b) → i < length xs < k → throws_at m 0 rest →
  ∃ m', v_push_back this (RElem b i) m = Exn CopyThrow m' ∧ corc m' = rest ∧
    blk m' = <[this := VHdr (S (length xs)) k (Some b)]> (blk m) ∧ v_torn m' this xs k b.
Proof. exact (own_push_room m this xs k b i rest). Qed.
Print Assumptions C122_push_own_room.
Theorem C122_push_own_lost {V : Type} (m : mem (vcell V)) this xs k b i t rest :
  mem_wf m → holds m this xs k (Some b) → length xs = k → next_alloc_ok m → t < k → throws_at m t rest →
  threw (v_push_back this (RElem b i) m) (<[nxt m := filled (take t xs) (2 * k)]> (blk m)) rest.
Proof. exact (own_push_lost m this xs k b i t rest). Qed.
Print Assumptions C122_push_own_lost.
Example C122_own_example :
  let m : mem (vcell nat) :=
    Mem {[ 1%positive := VHdr 2 2 (Some 2%positive); 2%positive := VArr [Some 5; Some 6];
           3%positive := VHdr 2 3 (Some 4%positive); 4%positive := VArr [Some 7; Some 8; None] ]} 5%positive [] [false; true] in
  mem_wf m ∧ holds m 1%positive [5; 6] 2 (Some 2%positive) ∧ next_alloc_ok m ∧ 1 < 2 ∧ throws_at m 1 [] ∧
  holds m 3%positive [7; 8] 3 (Some 4%positive) ∧ 1 < length [7; 8] < 3 ∧
  match v_push_back 1%positive (RElem 2%positive 0) m with
  | Exn CopyThrow m' => blk m' !! 5%positive = Some (filled [5] 4)
  | _ => False
  end.
Proof.
  cbv zeta. split; [apply mem_wf_check; vm_compute; reflexivity|]. split; [repeat split; simpl; lia|].
  split; [done|]. split; [lia|]. split; [done|]. split; [repeat split; simpl; lia|]. split; [simpl; lia|]. vm_compute. reflexivity.
Qed.
