(** What it costs to grow a vector or a string: property theorems C105-C107 (see
    /verif/properties.jsonl). *)
From Verif Require Import Mem Hist HistProofs ModelVector SpecVector ModelString SpecString SpecGrowth GrowthProofs.

(** ** C105 *)
Theorem C105_push_back_constructions {V : Type} (m : mem (vcell V)) this xs k p v :
  fair m → holds m this xs k p → length xs < length (corc m) →
  ∃ m' k' p', v_push_back this (RVal v) m = Ok tt m' ∧ holds m' this (xs ++ [v]) k' p' ∧
    constructions m m' = if decide (length xs = k) then length xs + 1 else 1.
Proof. exact (c105_push m this xs k p v). Qed.
Print Assumptions C105_push_back_constructions.

Theorem C105_vector_growth_constructions {V : Type} (m : mem (vcell V)) this ws :
  fair m → holds m this [] 0 None → ws ≠ [] → 3 * length ws ≤ length (corc m) →
  ∃ m' p k, v_push_all this ws m = Ok tt m' ∧ holds m' this ws k p ∧
    constructions m m' = length ws + (2 ^ Nat.log2_up (length ws) - 1) ∧
    constructions m m' ≤ 3 * length ws - 2.
Proof. exact (c105_vector m this ws). Qed.
Print Assumptions C105_vector_growth_constructions.

Example C105_example :
  let m := Mem {[ 1%positive := VHdr 0 0 None ]} 2%positive [] (replicate 15 false) : mem (vcell nat) in
  fair m ∧ holds m 1%positive [] 0 None ∧ 3 * length [1; 2; 3; 4; 5] ≤ length (corc m) ∧
  match v_push_all 1%positive [1; 2; 3; 4; 5] m with
  | Ok _ m' => constructions m m' = 12 ∧ length (corc m') = 3
  | _ => False
  end.
Proof.
  split; [split; [apply mem_wf_check; vm_compute; reflexivity|by repeat constructor]|].
  split; [by repeat split|]. split; [vm_compute; lia|]. vm_compute. repeat split; lia.
Qed.

(** ** C106 *)
Theorem C106_string_push_back_growth m this xs k p cs :
  fair m → s_holds m this xs k p →
  ∃ m' p' j, s_push_all this cs m = Ok tt m' ∧ fair m' ∧ s_holds m' this (xs ++ cs) (k * 2 ^ j) p' ∧
    allocs m m' = j ∧ length (xs ++ cs) ≤ k * 2 ^ j ∧ (j = 0 ∨ k * 2 ^ (j - 1) < length (xs ++ cs)).
Proof. exact (c106_push m this xs k p cs). Qed.
Print Assumptions C106_string_push_back_growth.

(** The string object itself is the first of the allocations. *)
Theorem C106_string_range_growth m cs :
  fair m → cs ≠ [] →
  ∃ this m' k p, s_range cs m = Ok this m' ∧ s_holds m' this cs k p ∧
    allocs m m' = 1 + (Nat.log2_up (length cs + 2) - 1).
Proof. exact (c106_range m cs). Qed.
Print Assumptions C106_string_range_growth.

Example C106_example :
  let m := Mem {[ 1%positive := SHdr 0 1 (Some 2%positive); 2%positive := SBuf [0; 0]%N ]} 3%positive [] [] in
  fair m ∧ s_holds m 1%positive [] 1 2%positive ∧
  match s_push_all 1%positive [97; 98; 99; 100; 101]%N m with
  | Ok _ m' => allocs m m' = 3 ∧ s_holds m' 1%positive [97; 98; 99; 100; 101]%N 8 5%positive
  | _ => False
  end ∧
  match s_range [97; 0; 98; 99; 1; 2; 3]%N m with
  | Ok _ m' => allocs m m' = 4
  | _ => False
  end.
Proof.
  split; [split; [apply mem_wf_check; vm_compute; reflexivity|by repeat constructor]|].
  split; [split; [done|split; [lia|]]; by exists [0%N]|].
  split; [|vm_compute; lia].
  vm_compute. split; [lia|]. split; [done|]. split; [lia|]. exists [0; 0; 0]%N. done.
Qed.

(** ** C107 *)
Theorem C107_string_append_growth_refuted n :
  ∃ m this xs k p, fair m ∧ s_holds m this xs k p ∧
  ∃ m' p', s_append_all this (replicate n [97%N]) m = Ok tt m' ∧
    s_holds m' this (xs ++ replicate n 97%N) (k + n) p' ∧ allocs m m' = n.
Proof. exact (c107_refuted n). Qed.
Print Assumptions C107_string_append_growth_refuted.

Theorem C107_string_append_partial m this xs k p ps :
  fair m → s_holds m this xs k p →
  ∃ m' p', s_append_all this ps m = Ok tt m' ∧ fair m' ∧
    s_holds m' this (xs ++ concat ps) (k `max` length (xs ++ concat ps)) p' ∧
    allocs m m' = record_count (length xs) k (length <$> ps).
Proof. exact (c106_append m this xs k p ps). Qed.
Print Assumptions C107_string_append_partial.

Theorem C107_string_append_full_partial m this xs p ps :
  fair m → s_holds m this xs (length xs) p → Forall (λ cs, cs ≠ []) ps →
  ∃ m' p', s_append_all this ps m = Ok tt m' ∧
    s_holds m' this (xs ++ concat ps) (length (xs ++ concat ps)) p' ∧ allocs m m' = length ps.
Proof. exact (c106_append_full m this xs p ps). Qed.
Print Assumptions C107_string_append_full_partial.

Example C107_example :
  let m := Mem {[ 1%positive := SHdr 3 4 (Some 2%positive);
                  2%positive := SBuf [97; 98; 99; 0; 0]%N ]} 3%positive [] [] in
  fair m ∧ s_holds m 1%positive [97; 98; 99]%N 4 2%positive ∧
  match s_append_all 1%positive [[100]; [101]; []; [102; 103]]%N m with
  | Ok _ m' => allocs m m' = 2 ∧ record_count 3 4 [1; 1; 0; 2] = 2 ∧
               s_holds m' 1%positive [97; 98; 99; 100; 101; 102; 103]%N 7 4%positive
  | _ => False
  end.
Proof.
  split; [split; [apply mem_wf_check; vm_compute; reflexivity|by repeat constructor]|].
  split; [split; [done|split; [lia|]]; by exists [0%N]|].
  vm_compute. split; [lia|]. split; [done|]. split; [done|]. split; [lia|]. exists []. done.
Qed.
