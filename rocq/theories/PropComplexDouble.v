(** C102-C104: abs, exp, sin, cos, sinh, cosh, polar, arg and log of complex<double>,
    with rounding and with the scalar functions of cmath.hpp. *)
From Verif Require Import Mem Hist ModelComplex HistProofs SpecComplex ModelComplexFun SpecComplexFun ModelCmath SpecCmath
  ModelComplexDouble SpecComplexDouble ComplexDouble.
From Coq Require Import Reals Lra.
From Coq.Floats Require Import SpecFloat.
Open Scope R_scope.

(** ** C102 *)
Theorem C102_abs_accuracy : ∀ m z v, mem_wf m → blk m !! z = Some v → is_number2 v → cval v ≠ (0, 0) →
  ∃ r, comes (λ n, cd_abs n z) r m ∧
    ((is_number r ∧ 0 < dval r ∧ within (56 / 10 ^ 5 * modulus (cval v) + powerRZ 2 (-1075)) (dval r) (modulus (cval v))) ∨
     (r = S754_infinity false ∧ powerRZ 2 1024 <= (1 + 56 / 10 ^ 5) * modulus (cval v))).
Proof. exact c102_abs. Qed.
Print Assumptions C102_abs_accuracy.
(** the zeros: the sign is that of the real part *)
Theorem C102_abs_zero : ∀ m z v, mem_wf m → blk m !! z = Some v → is_number2 v → cval v = (0, 0) → comes (λ n, cd_abs n z) v.1 m.
Proof. exact c102_zero. Qed.
Print Assumptions C102_abs_zero.
(** the infinities and NaN: 0 + NaN i has modulus 0, and no other call returns *)
Theorem C102_abs_special : ∀ m z v, mem_wf m → blk m !! z = Some v → is_double2 v → ¬ is_number2 v →
  (is_number v.1 ∧ dval v.1 = 0 ∧ v.2 = S754_nan ∧ comes (λ n, cd_abs n z) v.1 m) ∨
  (¬ (is_number v.1 ∧ dval v.1 = 0 ∧ v.2 = S754_nan) ∧ never (λ n, cd_abs n z) m).
Proof. exact c102_special. Qed.
Print Assumptions C102_abs_special.
(** abs of 3 - 4i, off in the fourth decimal *)
Definition z34 : spec_float * spec_float := (dint 3, dint (-4)).
Definition mem34 : mem (spec_float * spec_float) := Mem {[ 1%positive := z34 ]} 2%positive [] [].
Example C102_example : mem_wf mem34 ∧ is_number2 z34 ∧ cval z34 ≠ (0, 0) ∧
  cd_abs 30 1%positive mem34 = Ok (S754_finite false 5631215845046722 (-50)) mem34.
Proof.
  split; [apply mem_wf_check; vm_compute; reflexivity|]. split; [repeat split|]. split; [|vm_compute; reflexivity].
  intros E. injection E as E _. simpl in E. lra.
Qed.

(** ** C103 *)
Theorem C103_exp_accuracy : ∀ e m z v, is_exp e → mem_wf m → blk m !! z = Some v → is_number2 v → -710 < dval v.1 <= 1419 / 2 →
  ∃ r, comes (λ n, c_exp darith (dfuns n) z) r m ∧ is_number2 r ∧
    near2 ((81 / 10 ^ 6 + err_cos (dval v.2)) * exp (dval v.1)) ((81 / 10 ^ 6 + err_sin (dval v.2)) * exp (dval v.1)) (cval r) (e (cval v)).
Proof. exact c103_exp. Qed.
Print Assumptions C103_exp_accuracy.
(** out of that range: zero, infinities and NaN, undefined *)
Theorem C103_exp_underflow : ∀ m z v, mem_wf m → blk m !! z = Some v → is_number2 v → -2147483647 < dval v.1 <= -710 →
  ∃ r, comes (λ n, c_exp darith (dfuns n) z) r m ∧ is_number2 r ∧ cval r = (0, 0).
Proof. exact c103_exp_under. Qed.
Print Assumptions C103_exp_underflow.
Theorem C103_exp_overflow : ∀ m z v c s, mem_wf m → blk m !! z = Some v → is_number2 v → 1419 / 2 < dval v.1 < 2147483647 →
  returns (λ n, m_cos dbl n v.2) c → returns (λ n, m_sin dbl n v.2) s →
  ∃ r, comes (λ n, c_exp darith (dfuns n) z) r m ∧ infinity_times (dval c) r.1 ∧ infinity_times (dval s) r.2.
Proof. exact c103_exp_over. Qed.
Print Assumptions C103_exp_overflow.
Theorem C103_exp_undefined : ∀ n m z v, blk m !! z = Some v → is_double v.1 → ¬ is_number v.1 ∨ 2147483649 <= Rabs (dval v.1) →
  c_exp darith (dfuns n) z m = UB.
Proof. exact c103_exp_undefined. Qed.
Print Assumptions C103_exp_undefined.
Theorem C103_exp_never : ∀ m z v, blk m !! z = Some v → is_double v.2 → ¬ is_number v.2 → never (λ n, c_exp darith (dfuns n) z) m.
Proof. exact c103_exp_never. Qed.
Print Assumptions C103_exp_never.
Theorem C103_polar_accuracy : ∀ (m : mem (spec_float * spec_float)) r t, mem_wf m → is_number r → is_number t →
  ∃ w, comes (λ n, c_polar darith (dfuns n) r t) w m ∧ is_number2 w ∧
    near2 ((err_cos (dval t) + / 10 ^ 15) * Rabs (dval r) + powerRZ 2 (-1075)) ((err_sin (dval t) + / 10 ^ 15) * Rabs (dval r) + powerRZ 2 (-1075))
      (cval w) (dval r * cos (dval t), dval r * sin (dval t)).
Proof. exact c103_polar. Qed.
Print Assumptions C103_polar_accuracy.
Theorem C103_polar_never : ∀ (m : mem (spec_float * spec_float)) r t, is_double t → ¬ is_number t → never (λ n, c_polar darith (dfuns n) r t) m.
Proof. exact c103_polar_never. Qed.
Print Assumptions C103_polar_never.
Theorem C103_sin_accuracy : ∀ e f m z v, is_exp e → is_sin e f → mem_wf m → blk m !! z = Some v → is_number2 v → Rabs (dval v.2) <= 355 →
  ∃ r, comes (λ n, c_sin darith (dfuns n) z) r m ∧ is_number2 r ∧
    near2 ((err_cosh (dval v.2) + err_sin (dval v.1)) * cosh (dval v.2)) ((err_sinh (dval v.2) + err_cos (dval v.1)) * cosh (dval v.2)) (cval r) (f (cval v)).
Proof. exact c103_sin. Qed.
Print Assumptions C103_sin_accuracy.
Theorem C103_cos_accuracy : ∀ e f m z v, is_exp e → is_cos e f → mem_wf m → blk m !! z = Some v → is_number2 v → Rabs (dval v.2) <= 355 →
  ∃ r, comes (λ n, c_cos darith (dfuns n) z) r m ∧ is_number2 r ∧
    near2 ((err_cosh (dval v.2) + err_cos (dval v.1)) * cosh (dval v.2)) ((err_sinh (dval v.2) + err_sin (dval v.1)) * cosh (dval v.2)) (cval r) (f (cval v)).
Proof. exact c103_cos. Qed.
Print Assumptions C103_cos_accuracy.
Theorem C103_sinh_accuracy : ∀ e f m z v, is_exp e → is_sinh e f → mem_wf m → blk m !! z = Some v → is_number2 v → Rabs (dval v.1) <= 355 →
  ∃ r, comes (λ n, c_sinh darith (dfuns n) z) r m ∧ is_number2 r ∧
    near2 ((err_sinh (dval v.1) + err_cos (dval v.2)) * cosh (dval v.1)) ((err_cosh (dval v.1) + err_sin (dval v.2)) * cosh (dval v.1)) (cval r) (f (cval v)).
Proof. exact c103_sinh. Qed.
Print Assumptions C103_sinh_accuracy.
Theorem C103_cosh_accuracy : ∀ e f m z v, is_exp e → is_cosh e f → mem_wf m → blk m !! z = Some v → is_number2 v → Rabs (dval v.1) <= 355 →
  ∃ r, comes (λ n, c_cosh darith (dfuns n) z) r m ∧ is_number2 r ∧
    near2 ((err_cosh (dval v.1) + err_cos (dval v.2)) * cosh (dval v.1)) ((err_sinh (dval v.1) + err_sin (dval v.2)) * cosh (dval v.1)) (cval r) (f (cval v)).
Proof. exact c103_cosh. Qed.
Print Assumptions C103_cosh_accuracy.
(** never returning: for infinities and NaN, and beyond 356 where cosh does not return *)
Theorem C103_sin_cos_never : ∀ m z v, blk m !! z = Some v → is_double2 v → ¬ (is_number2 v ∧ Rabs (dval v.2) < 356) →
  never (λ n, c_sin darith (dfuns n) z) m ∧ never (λ n, c_cos darith (dfuns n) z) m.
Proof. exact c103_trig_never. Qed.
Print Assumptions C103_sin_cos_never.
Theorem C103_sinh_cosh_never : ∀ m z v, blk m !! z = Some v → is_double2 v → ¬ (is_number2 v ∧ Rabs (dval v.1) < 356) →
  never (λ n, c_sinh darith (dfuns n) z) m ∧ never (λ n, c_cosh darith (dfuns n) z) m.
Proof. exact c103_hyp_never. Qed.
Print Assumptions C103_sinh_cosh_never.
(** sin of (2 - i) / 512 *)
Definition zh : spec_float * spec_float := (S754_finite false 4503599627370496 (-60), S754_finite true 4503599627370496 (-61)).
Definition memh : mem (spec_float * spec_float) := Mem {[ 1%positive := zh ]} 2%positive [] [].
Example C103_example : mem_wf memh ∧ is_number2 zh ∧
  c_sin darith (dfuns 20) 1%positive memh = Ok (S754_finite false 9007176631060289 (-61), S754_finite true 9007135630360787 (-62)) memh.
Proof. split; [apply mem_wf_check; vm_compute; reflexivity|]. split; [repeat split|]. vm_compute. reflexivity. Qed.

(** ** C104 *)
Theorem C104_arg_accuracy : ∀ m z v t, mem_wf m → blk m !! z = Some v → is_number2 v → cval v ≠ (0, 0) → is_angle (cval v) t →
  ∃ r, comes (λ n, c_arg (dfuns n) z) r m ∧ is_number r ∧ within (56 / 10 ^ 6) (dval r) t.
Proof. exact c104_arg. Qed.
Print Assumptions C104_arg_accuracy.
Theorem C104_log_accuracy : ∀ m z v t, mem_wf m → blk m !! z = Some v → is_number2 v → is_angle (cval v) t →
  powerRZ 2 (-1022) <= modulus (cval v) <= powerRZ 2 1023 →
  ∃ r, comes (λ n, c_log darith (dfuns n) z) r m ∧ is_number2 r ∧ near2 (17 / 10 ^ 4) (56 / 10 ^ 6) (cval r) (ln (modulus (cval v)), t).
Proof. exact c104_log. Qed.
Print Assumptions C104_log_accuracy.
(** below 2^-1022 abs is off by up to half, and only the angle is accurate *)
Theorem C104_log_small : ∀ m z v t, mem_wf m → blk m !! z = Some v → is_number2 v → cval v ≠ (0, 0) → is_angle (cval v) t → modulus (cval v) <= powerRZ 2 1023 →
  ∃ r, comes (λ n, c_log darith (dfuns n) z) r m ∧ is_number2 r ∧ within (56 / 10 ^ 6) (dval r.2) t.
Proof. exact c104_log_small. Qed.
Print Assumptions C104_log_small.
(** of zero: minus infinity and angle 0, whatever the signs *)
Theorem C104_zero : ∀ m z v, mem_wf m → blk m !! z = Some v → is_number2 v → cval v = (0, 0) →
  comes (λ n, c_log darith (dfuns n) z) (S754_infinity true, S754_zero false) m ∧ comes (λ n, c_arg (dfuns n) z) (S754_zero false) m.
Proof. exact c104_log_zero. Qed.
Print Assumptions C104_zero.
(** log never returns when the modulus overflows *)
Theorem C104_log_overflow : ∀ m z v, blk m !! z = Some v → is_number2 v → powerRZ 2 1024 * (1001 / 1000) <= modulus (cval v) →
  ∀ r, ¬ comes (λ n, c_log darith (dfuns n) z) r m.
Proof. exact c104_log_over. Qed.
Print Assumptions C104_log_overflow.
(** log of 3 - 4i *)
Example C104_example : mem_wf mem34 ∧ is_number2 z34 ∧
  c_log darith (dfuns 40) 1%positive mem34 = Ok (S754_finite false 7249634671209018 (-52), S754_finite true 8352125058076949 (-53)) mem34.
Proof. split; [apply mem_wf_check; vm_compute; reflexivity|]. split; [repeat split|]. vm_compute. reflexivity. Qed.
