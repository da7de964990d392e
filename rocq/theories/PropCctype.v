(** isalnum and isupper: property theorem C51 (see /verif/properties.jsonl). *)
From Verif Require Import Mem Hist HistProofs ModelString ModelCctype CctypeProofs.

(** ** C51, for every int [ch] (and any integer); nothing stays allocated *)
Theorem C51_isalnum m ch :
  fair m →
  unthrown (isalnum ch m) (λ r m',
    (r = 8 ∧ (48 ≤ ch ≤ 57 ∨ 65 ≤ ch ≤ 90 ∨ 97 ≤ ch ≤ 122) ∨ r = 0 ∧ ¬ (48 ≤ ch ≤ 57 ∨ 65 ≤ ch ≤ 90 ∨ 97 ≤ ch ≤ 122))%Z ∧
    blk m' = blk m).
Proof. exact (isalnum_fair m ch). Qed.
Print Assumptions C51_isalnum.
Theorem C51_isupper m ch :
  fair m →
  unthrown (isupper ch m) (λ r m', (r = 256 ∧ 65 ≤ ch ≤ 90 ∨ r = 0 ∧ ¬ 65 ≤ ch ≤ 90)%Z ∧ blk m' = blk m).
Proof. exact (isupper_fair m ch). Qed.
Print Assumptions C51_isupper.
(** They allocate a string; if that fails they throw bad_alloc, without effect. *)
Theorem C51_isalnum_failing_allocation m ch :
  may_fail_alloc m →
  runs_to m [] (isalnum ch m) (λ r _ new,
    (r = 8 ∧ (48 ≤ ch ≤ 57 ∨ 65 ≤ ch ≤ 90 ∨ 97 ≤ ch ≤ 122) ∨ r = 0 ∧ ¬ (48 ≤ ch ≤ 57 ∨ 65 ≤ ch ≤ 90 ∨ 97 ≤ ch ≤ 122))%Z ∧
    new = []).
Proof. exact (isalnum_runs m ch). Qed.
Print Assumptions C51_isalnum_failing_allocation.
Theorem C51_isupper_failing_allocation m ch :
  may_fail_alloc m →
  runs_to m [] (isupper ch m) (λ r _ new, (r = 256 ∧ 65 ≤ ch ≤ 90 ∨ r = 0 ∧ ¬ 65 ≤ ch ≤ 90)%Z ∧ new = []).
Proof. exact (isupper_runs m ch). Qed.
Print Assumptions C51_isupper_failing_allocation.
Example C51_example :
  fair (mem0 (C:=scell) [] []) ∧
  (λ ch, match isalnum ch (mem0 [] []) with Ok r _ => Some r | _ => None end) <$> [-1; 0; 47; 48; 57; 58; 64; 65; 90; 91; 97; 122; 123; 304; -208]%Z =
    (Some <$> [0; 0; 0; 8; 8; 0; 0; 8; 8; 0; 8; 8; 0; 0; 0])%Z ∧
  (λ ch, match isupper ch (mem0 [] []) with Ok r _ => Some r | _ => None end) <$> [-1; 64; 65; 90; 91; 97; 321]%Z =
    (Some <$> [0; 0; 256; 256; 0; 0; 0])%Z ∧
  match isupper 65 (mem0 [true] []) with Exn BadAlloc m => map_to_list (blk m) = [] | _ => False end.
Proof.
  split; [|split; [|split]; vm_compute; reflexivity].
  split; [apply mem_wf_check; vm_compute; reflexivity|]. split; constructor.
Qed.
