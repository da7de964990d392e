(** C59-C61: complex arithmetic, for any scalar type whose arithmetic is exact
    (a field, or a commutative ring where nothing is divided). *)
From Verif Require Import Mem Hist ModelComplex SpecComplex ComplexProofs ComplexExact.

(** The compound assignments; [this] and [z] may be the same object. *)
Theorem C59_complex_compound {T} (A : arith T) (m : mem (T * T)) this v z w :
  exact_field A → blk m !! this = Some v → blk m !! z = Some w →
  c_assign this z m = Ok tt (assigned m this w) ∧
  c_add_c A this z m = Ok tt (assigned m this (cadd A v w)) ∧
  c_sub_c A this z m = Ok tt (assigned m this (csub A v w)) ∧
  c_mul_c A this z m = Ok tt (assigned m this (cmul A v w)) ∧
  c_div_c A this z m = Ok tt (assigned m this (cdiv A v w)).
Proof. exact (compound_all A m this v z w). Qed.
Print Assumptions C59_complex_compound.

(** A scalar on the right is as good as the complex number with imaginary part 0. *)
Theorem C59_complex_compound_scalar {T} (A : arith T) (m : mem (T * T)) this v t :
  exact_field A → blk m !! this = Some v →
  c_assign_t A this t m = Ok tt (assigned m this (of_t A t)) ∧
  c_add_t A this t m = Ok tt (assigned m this (cadd A v (of_t A t))) ∧
  c_sub_t A this t m = Ok tt (assigned m this (csub A v (of_t A t))) ∧
  c_mul_t A this t m = Ok tt (assigned m this (cmul A v (of_t A t))) ∧
  (t ≠ t0 A → c_div_t A this t m = Ok tt (assigned m this (cdiv A v (of_t A t)))).
Proof. exact (compound_scalar_all A m this v t). Qed.
Print Assumptions C59_complex_compound_scalar.

(** The operators; [x] and [y] may be the same object. *)
Theorem C59_complex_operators {T} (A : arith T) (m : mem (T * T)) x v y w :
  exact_field A → mem_wf m → blk m !! x = Some v → blk m !! y = Some w →
  yields (op_add A x y) (cadd A v w) m ∧ yields (op_sub A x y) (csub A v w) m ∧
  yields (op_mul A x y) (cmul A v w) m ∧ yields (op_div A x y) (cdiv A v w) m ∧
  yields (op_neg A x) (copp A v) m.
Proof. exact (operators_all A m x v y w). Qed.
Print Assumptions C59_complex_operators.

Theorem C59_complex_operators_scalar {T} (A : arith T) (m : mem (T * T)) x v t :
  exact_field A → mem_wf m → blk m !! x = Some v →
  yields (op_add_t A x t) (cadd A v (of_t A t)) m ∧ yields (t_op_add A t x) (cadd A (of_t A t) v) m ∧
  yields (op_sub_t A x t) (csub A v (of_t A t)) m ∧ yields (t_op_sub A t x) (csub A (of_t A t) v) m ∧
  yields (op_mul_t A x t) (cmul A v (of_t A t)) m ∧ yields (t_op_mul A t x) (cmul A (of_t A t) v) m ∧
  (t ≠ t0 A → yields (op_div_t A x t) (cdiv A v (of_t A t)) m) ∧ yields (t_op_div A t x) (cdiv A (of_t A t) v) m.
Proof. exact (operators_scalar_all A m x v t). Qed.
Print Assumptions C59_complex_operators_scalar.

(** What these compute is a field, in which (0, 1) is a root of -1. *)
Theorem C59_complex_field {T} (A : arith T) :
  exact_field A → definite A →
  field_theory (c0 A) (c1 A) (cadd A) (cmul A) (csub A) (copp A) (cdiv A) (cdiv A (c1 A)) eq ∧
  (∀ v w, w ≠ c0 A → cmul A (cdiv A v w) w = v) ∧
  cmul A (t0 A, t1 A) (t0 A, t1 A) = copp A (c1 A) ∧
  (∀ v, v = cadd A (of_t A v.1) (cmul A (of_t A v.2) (t0 A, t1 A))).
Proof. exact (field_all A). Qed.
Print Assumptions C59_complex_field.

(** The rationals are such scalars. *)
Example C59_complex_field_ex : exact_field Qcarith ∧ definite Qcarith ∧ exact_ring Zarith.
Proof. exact (conj Qc_exact (conj Qc_definite Z_exact)). Qed.

(** (1 + 2i)² = -3 + 4i, with the object as its own argument; (5 + 5i) / (1 + 2i) = 3 - i *)
Local Definition ex_mem : mem (Z * Z) :=
  Mem {[ 1%positive := (1, 2)%Z; 2%positive := (5, 5)%Z ]} 3%positive [] [].
Local Definition after {B} (r : res (Z * Z) B) l : option (Z * Z) := match r with Ok _ m => blk m !! l | _ => None end.
Example C59_complex_ex :
  after (c_mul_c Zarith 1%positive 1%positive ex_mem) 1%positive = Some (-3, 4)%Z ∧
  after (c_div_c Zarith 2%positive 1%positive ex_mem) 2%positive = Some (3, -1)%Z ∧
  after (c_div_c Zarith 1%positive 1%positive ex_mem) 1%positive = Some (1, 0)%Z.
Proof. vm_compute. repeat split. Qed.

Theorem C60_complex_norm_conj_eq {T} (A : arith T) (m : mem (T * T)) x v y w t :
  exact_ring A → mem_wf m → blk m !! x = Some v → blk m !! y = Some w →
  yields (c_norm A x) (tadd A (tmul A v.1 v.1) (tmul A v.2 v.2)) m ∧
  yields (c_conj A x) (v.1, topp A v.2) m ∧
  (∃ b, yields (op_eq A x y) b m ∧ (b = true ↔ v = w)) ∧
  (∃ b, yields (op_ne A x y) b m ∧ (b = true ↔ v ≠ w)) ∧
  (∃ b, yields (op_eq_t A x t) b m ∧ (b = true ↔ v = of_t A t)) ∧
  (∃ b, yields (t_op_eq A t x) b m ∧ (b = true ↔ v = of_t A t)).
Proof. exact (norm_conj_eq_all A m x v y w t). Qed.
Print Assumptions C60_complex_norm_conj_eq.

Theorem C60_complex_norm_laws {T} (A : arith T) :
  exact_ring A →
  (∀ v, cmul A v (cconj A v) = of_t A (norm2 A v)) ∧
  (∀ v w, norm2 A (cmul A v w) = tmul A (norm2 A v) (norm2 A w)) ∧
  (∀ v, cconj A (cconj A v) = v) ∧
  (∀ v w, cconj A (cadd A v w) = cadd A (cconj A v) (cconj A w)) ∧
  (∀ v w, cconj A (cmul A v w) = cmul A (cconj A v) (cconj A w)).
Proof. exact (norm_laws_all A). Qed.
Print Assumptions C60_complex_norm_laws.

Example C60_complex_ex :
  c_norm Zarith 1%positive ex_mem = Ok 5%Z ex_mem ∧ c_conj Zarith 1%positive ex_mem = Ok (1, -2)%Z ex_mem ∧
  op_eq Zarith 1%positive 2%positive ex_mem = Ok false ex_mem.
Proof. repeat split. Qed.

Theorem C61_complex_pow {T} (A : arith T) (m : mem (T * T)) z v n :
  exact_ring A → mem_wf m → blk m !! z = Some v → (0 <= n < 2 ^ 31)%Z →
  yields (c_pow A z n) (cpow A v (Z.to_nat n)) m.
Proof. exact (pow_nonneg A m z v n). Qed.
Print Assumptions C61_complex_pow.

Theorem C61_complex_pow_negative {T} (A : arith T) (m : mem (T * T)) z v n :
  exact_field A → mem_wf m → blk m !! z = Some v → (- 2 ^ 31 <= n < 0)%Z →
  yields (c_pow A z n) (cdiv A (c1 A) (cpow A v (Z.to_nat (- n)))) m.
Proof. exact (pow_neg A m z v n). Qed.
Print Assumptions C61_complex_pow_negative.

(** (1 + 2i)^5 = 41 - 38i *)
Example C61_complex_pow_ex :
  ∃ m', c_pow Zarith 1%positive 5 ex_mem = Ok (41, -38)%Z m' ∧ blk m' !! 1%positive = Some (1, 2)%Z ∧
        blk m' !! 3%positive = None ∧ blk m' !! 4%positive = None.
Proof. eexists. split; [vm_compute; reflexivity|]. repeat split. Qed.
