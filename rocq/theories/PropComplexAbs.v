(** C62: abs over the reals, with an exact square root. *)
From Verif Require Import Mem Hist ModelComplex HistProofs SpecComplex ComplexAbs.
From Coq Require Import Reals.

Theorem C62_complex_abs (m : mem (R * R)) z v :
  mem_wf m → blk m !! z = Some v →
  yields (c_abs Rarith Rabs Rmax (λ x, ret (sqrt x)) z) (sqrt (v.1 * v.1 + v.2 * v.2))%R m.
Proof. exact (abs_ok m z v). Qed.
Print Assumptions C62_complex_abs.

(** The reals meet the hypotheses of C59-C61. *)
Theorem C62_complex_reals : exact_field Rarith ∧ definite Rarith.
Proof. exact (conj R_exact R_definite). Qed.
Print Assumptions C62_complex_reals.

(** the scaling keeps the argument of sqrt between 1 and 2 (no overflow, no division by zero) *)
Theorem C62_complex_abs_scaled x y : let s := Rmax (Rabs x) (Rabs y) in
  s ≠ 0%R → (1 <= x / s * (x / s) + y / s * (y / s) <= 2)%R.
Proof. exact (abs_arg x y). Qed.
Print Assumptions C62_complex_abs_scaled.

Example C62_complex_abs_ex : mem_wf (Mem {[ 1%positive := (3, -4)%R ]} 2%positive [] []).
Proof. apply mem_wf_check. vm_compute. reflexivity. Qed.
