(** Vocabulary for constructing deques when allocations may fail. *)
From Verif Require Import Hist ModelDeque SpecDeque.

(** The constructor makes a deque [d] in new memory, or throws bad_alloc and
    leaves everything as it was, except that one unused chunk may be left
    allocated. *)
Definition build_outcome {V} (K : nat) (m : mem (dcell V)) (d : dstate V) (r : res (dcell V) loc) : Prop :=
  match r with
  | Ok this m' => ∃ v cap cs, d_holds K m' this v cap cs d ∧ replaces [] m (d_cells this v cs) m'
  | Exn e m' => e = BadAlloc ∧ ∃ zs, length zs ≤ 1 ∧
      (∀ q, q ∈ zs → blk m' !! q = Some (DArr (replicate K None))) ∧ replaces [] m zs m'
  | UB | Div => False
  end.
(** Assigning [other] to another deque [this], which holds [d] in [cells]: it gets
    the elements, or bad_alloc is thrown when it has the first [i] of them; one
    unused chunk may be left allocated. *)
Definition assign_result {V} (K : nat) (m : mem (dcell V)) (cells : list loc) (this : loc) (d d' : dstate V)
    (other v1 : loc) (cap1 : nat) (cs1 : list loc) (d1 : dstate V) (r : res (dcell V) unit) : Prop :=
  match r with
  | Ok _ m' => ∃ v' cap' cs', d_holds K m' this v' cap' cs' d' ∧ d_holds K m' other v1 cap1 cs1 d1 ∧
      replaces (cells ++ d_cells other v1 cs1) m (d_cells this v' cs' ++ d_cells other v1 cs1) m'
  | Exn e m' => e = BadAlloc ∧ ∃ i di zs v' cap' cs', i < length (dq_els d1) ∧
      dq_append K (take i (dq_els d1)) (dq_clear K d) = Some di ∧
      d_holds K m' this v' cap' cs' di ∧ d_holds K m' other v1 cap1 cs1 d1 ∧
      length zs ≤ 1 ∧ (∀ q, q ∈ zs → blk m' !! q = Some (DArr (replicate K None))) ∧
      replaces (cells ++ d_cells other v1 cs1) m (d_cells this v' cs' ++ d_cells other v1 cs1 ++ zs) m'
  | UB | Div => False
  end.
