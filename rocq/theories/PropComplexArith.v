(** C110-C112: the operators and norm of complex<double>, with rounding. *)
From Verif Require Import Mem Hist ModelComplex HistProofs SpecComplex ComplexAbs ModelComplexFun SpecComplexFun ModelCmath SpecCmath
  ModelComplexDouble SpecComplexDouble ComplexArithDouble.
From Coq Require Import Reals Lra.
From Coq.Floats Require Import SpecFloat.
Open Scope R_scope.

(** ** C110 *)
(** the operands may be the same object *)
Theorem C110_sum : ∀ m x v, mem_wf m → blk m !! x = Some v → is_number2 v → ∀ y w, blk m !! y = Some w → is_number2 w →
  ∃ r, yields (op_add darith x y) r m ∧ c_add_c darith x y m = Ok tt (assigned m x r) ∧
    rounded (dval v.1 + dval w.1) r.1 ∧ rounded (dval v.2 + dval w.2) r.2.
Proof. exact add_ok. Qed.
Print Assumptions C110_sum.
Theorem C110_difference : ∀ m x v, mem_wf m → blk m !! x = Some v → is_number2 v → ∀ y w, blk m !! y = Some w → is_number2 w →
  ∃ r, yields (op_sub darith x y) r m ∧ c_sub_c darith x y m = Ok tt (assigned m x r) ∧
    rounded (dval v.1 - dval w.1) r.1 ∧ rounded (dval v.2 - dval w.2) r.2.
Proof. exact sub_ok. Qed.
Print Assumptions C110_difference.
Theorem C110_negation : ∀ m x v, mem_wf m → blk m !! x = Some v → is_number2 v →
  ∃ r, yields (op_neg darith x) r m ∧ is_number2 r ∧ cval r = copp Rarith (cval v).
Proof. exact neg_ok. Qed.
Print Assumptions C110_negation.
(** the error of a product is relative to its modulus, not to its parts *)
Theorem C110_product : ∀ m x v, mem_wf m → blk m !! x = Some v → is_number2 v → ∀ y w, blk m !! y = Some w → is_number2 w →
  modulus (cval v) * modulus (cval w) <= powerRZ 2 1022 →
  ∃ r, yields (op_mul darith x y) r m ∧ c_mul_c darith x y m = Ok tt (assigned m x r) ∧ is_number2 r ∧
    near2 ((powerRZ 2 (-52) + powerRZ 2 (-106)) * (modulus (cval v) * modulus (cval w)) + 3 * powerRZ 2 (-1075))
      ((powerRZ 2 (-52) + powerRZ 2 (-106)) * (modulus (cval v) * modulus (cval w)) + 3 * powerRZ 2 (-1075))
      (cval r) (cmul Rarith (cval v) (cval w)).
Proof. exact mul_ok. Qed.
Print Assumptions C110_product.
Theorem C110_scalar_product : ∀ m x v, mem_wf m → blk m !! x = Some v → is_number2 v → ∀ t, is_number t →
  Rabs (dval v.1 * dval t) < powerRZ 2 1023 → Rabs (dval v.2 * dval t) < powerRZ 2 1023 →
  ∃ r, yields (op_mul_t darith x t) r m ∧ yields (t_op_mul darith t x) r m ∧ c_mul_t darith x t m = Ok tt (assigned m x r) ∧ is_number2 r ∧
    near2 (powerRZ 2 (-53) * Rabs (dval v.1 * dval t) + powerRZ 2 (-1075)) (powerRZ 2 (-53) * Rabs (dval v.2 * dval t) + powerRZ 2 (-1075))
      (cval r) (dval v.1 * dval t, dval v.2 * dval t).
Proof. exact mul_scal. Qed.
Print Assumptions C110_scalar_product.
Theorem C110_scalar_quotient : ∀ m x v, mem_wf m → blk m !! x = Some v → is_number2 v → ∀ t, is_number t → dval t ≠ 0 →
  Rabs (dval v.1 / dval t) < powerRZ 2 1023 → Rabs (dval v.2 / dval t) < powerRZ 2 1023 →
  ∃ r, yields (op_div_t darith x t) r m ∧ c_div_t darith x t m = Ok tt (assigned m x r) ∧ is_number2 r ∧
    near2 (powerRZ 2 (-53) * Rabs (dval v.1 / dval t) + powerRZ 2 (-1075)) (powerRZ 2 (-53) * Rabs (dval v.2 / dval t) + powerRZ 2 (-1075))
      (cval r) (dval v.1 / dval t, dval v.2 / dval t).
Proof. exact div_scal. Qed.
Print Assumptions C110_scalar_quotient.
(** (2^53 + 3i) + (1 - 4i) loses the 1; (1 + 2i) * (3 - 4i) = 11 + 2i *)
Definition mem4 : mem (spec_float * spec_float) :=
  Mem (list_to_map [(1%positive, (S754_finite false 4503599627370496 1, dint 3)); (2%positive, (dint 1, dint (-4)));
    (3%positive, (dint 1, dint 2)); (4%positive, (dint 3, dint (-4)))]) 5%positive [] [].
Example C110_example : mem_wf mem4 ∧
  match op_add darith 1%positive 2%positive mem4, op_mul darith 3%positive 4%positive mem4 with
  | Ok r _, Ok s _ => r = (S754_finite false 4503599627370496 1, dint (-1)) ∧ s = (dint 11, dint 2)
  | _, _ => False
  end.
Proof. split; [apply mem_wf_check; vm_compute; reflexivity|]. vm_compute. split; reflexivity. Qed.

(** ** C111 *)
Theorem C111_norm : ∀ m x v, mem_wf m → blk m !! x = Some v → is_number2 v → modulus (cval v) <= powerRZ 2 511 →
  ∃ r, yields (c_norm darith x) r m ∧ is_number r ∧
    within ((powerRZ 2 (-52) + powerRZ 2 (-106)) * (modulus (cval v) * modulus (cval v)) + 3 * powerRZ 2 (-1075)) (dval r)
      (modulus (cval v) * modulus (cval v)).
Proof. exact norm_ok'. Qed.
Print Assumptions C111_norm.
Theorem C111_norm_overflow : ∀ m x v, mem_wf m → blk m !! x = Some v → is_number2 v →
  powerRZ 2 1025 <= modulus (cval v) * modulus (cval v) → yields (c_norm darith x) (S754_infinity false) m.
Proof. exact norm_over'. Qed.
Print Assumptions C111_norm_overflow.
Theorem C111_norm_underflow : ∀ m x v, mem_wf m → blk m !! x = Some v → is_number2 v →
  modulus (cval v) * modulus (cval v) <= powerRZ 2 (-1076) → yields (c_norm darith x) (S754_zero false) m.
Proof. exact norm_under'. Qed.
Print Assumptions C111_norm_underflow.
Example C111_example : match c_norm darith 4%positive mem4 with Ok r _ => r = dint 25 | _ => False end.
Proof. vm_compute. reflexivity. Qed.

(** ** C112 *)
(** Refuted: a quotient of numbers, where it is a moderate number, is a number.  2^600
    over itself has NaN as real part. *)
Theorem C112_quotient_refuted : ∃ m x v, mem_wf m ∧ blk m !! x = Some v ∧ is_number2 v ∧ modulus (cval v) = powerRZ 2 600 ∧
  cdiv Rarith (cval v) (cval v) = (1, 0) ∧ yields (op_div darith x x) (S754_nan, S754_zero false) m.
Proof. exact div_refuted. Qed.
Print Assumptions C112_quotient_refuted.
(** Missing: it holds for divisors of modulus from 2^-480 to 2^511, and |v| |w| below 2^1022 *)
Theorem C112_quotient_partial : ∀ m x v, mem_wf m → blk m !! x = Some v → is_number2 v → ∀ y w, blk m !! y = Some w → is_number2 w →
  powerRZ 2 (-480) <= modulus (cval w) <= powerRZ 2 511 → modulus (cval v) * modulus (cval w) <= powerRZ 2 1022 →
  modulus (cval v) <= powerRZ 2 1021 * modulus (cval w) →
  let e := 6 * powerRZ 2 (-53) * (modulus (cval v) / modulus (cval w)) +
    4 * (powerRZ 2 (-1075) / (modulus (cval w) * modulus (cval w))) + powerRZ 2 (-1075) in
  ∃ r, yields (op_div darith x y) r m ∧ c_div_c darith x y m = Ok tt (assigned m x r) ∧ is_number2 r ∧
    near2 e e (cval r) (cdiv Rarith (cval v) (cval w)).
Proof. exact div_ok. Qed.
Print Assumptions C112_quotient_partial.
(** whatever the dividend *)
Theorem C112_large_divisor : ∀ m x v, mem_wf m → blk m !! x = Some v → ∀ y w, blk m !! y = Some w → is_number2 w →
  powerRZ 2 1025 <= modulus (cval w) * modulus (cval w) →
  ∃ r, yields (op_div darith x y) r m ∧ c_div_c darith x y m = Ok tt (assigned m x r) ∧ zero_or_nan r.1 ∧ zero_or_nan r.2.
Proof. exact div_over. Qed.
Print Assumptions C112_large_divisor.
Theorem C112_small_divisor : ∀ m x v, mem_wf m → blk m !! x = Some v → ∀ y w, blk m !! y = Some w → is_number2 w →
  modulus (cval w) * modulus (cval w) <= powerRZ 2 (-1076) →
  ∃ r, yields (op_div darith x y) r m ∧ c_div_c darith x y m = Ok tt (assigned m x r) ∧ infinite_or_nan r.1 ∧ infinite_or_nan r.2.
Proof. exact div_under. Qed.
Print Assumptions C112_small_divisor.
(** (1 + 2i) / (3 - 4i) = -0.2 + 0.4i *)
Example C112_example : match op_div darith 3%positive 4%positive mem4 with
  | Ok r _ => r = (S754_finite true 7205759403792794 (-55), S754_finite false 7205759403792794 (-54)) | _ => False end.
Proof. vm_compute. split; reflexivity. Qed.
