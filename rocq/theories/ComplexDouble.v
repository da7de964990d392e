(** The functions of complex numbers on doubles, as called. *)
From iris.prelude Require Import prelude.
From Verif Require Import Mem Hist ModelComplex SpecComplex ComplexProofs ComplexAbs ModelComplexFun SpecComplexFun ComplexFun
  ModelCmath SpecCmath ModelComplexDouble SpecComplexDouble DoubleComplex.
From Coq Require Import Reals Lra.
From Coq.Floats Require Import SpecFloat.
Open Scope R_scope.

Notation D := (spec_float * spec_float)%type.
Lemma lift_bind {C A B} (o : outcome A) (g : A → outcome B) (m : mem C) :
  bind (lift o) (λ v, lift (g v)) m = lift (obind o g) m.
Proof. by destruct o. Qed.
Lemma lift_returns {B} (f : nat → M D B) (g : nat → outcome B) (m : mem D) v :
  mem_wf m → (∀ n, f n m = lift (g n) m) → returns g v → comes f v m.
Proof. intros Hm E [n Hn]. exists n. intros k Hk. exists m. by rewrite E Hn. Qed.
Lemma lift_never {B} (f : nat → M D B) (g : nat → outcome B) (m : mem D) :
  (∀ n, f n m = lift (g n) m) → never_returns g → never f m.
Proof. intros E H n b m'. rewrite E. pose proof (H n) as Hn. destruct (g n) as [v| |] eqn:Eg; simpl; [by destruct (Hn v)|done..]. Qed.
Lemma lift_not {B} (f : nat → M D B) (g : nat → outcome B) (m : mem D) :
  (∀ n, f n m = lift (g n) m) → (∀ v, ¬ returns g v) → ∀ v, ¬ comes f v m.
Proof.
  intros E H v [n Hn]. apply (H v). exists n. intros k Hk. destruct (Hn k Hk) as (m' & Ek & _). rewrite E in Ek.
  destruct (g k); simpl in Ek; [by injection Ek as -> _|done..].
Qed.

Section calls.
  Variables (m : mem D) (z : loc) (v : D).
  Hypothesis Hz : blk m !! z = Some v.
  Ltac parts := first [erewrite bind_ok; [|by apply real_ok] | erewrite bind_ok; [|by apply imag_ok]].
  Lemma run_o {A B} (o : outcome A) (k : A → M D B) (g : A → outcome B) : (∀ a, k a m = lift (g a) m) → bind (lift o) k m = lift (obind o g) m.
  Proof. intros H. destruct o; [apply H|done..]. Qed.
  Lemma abs_run n : cd_abs n z m = lift (p_abs n v.1 v.2) m.
  Proof.
    unfold cd_abs, c_abs. parts. parts. unfold p_abs. cbv zeta. change (d_max) with p_max. cbn [teqb t0 tdiv tmul tadd darith].
    destruct (n_eq dbl _ _); [done|]. apply run_o. done.
  Qed.
  Lemma arg_run n : c_arg (dfuns n) z m = lift (m_atan2 dbl n v.2 v.1) m.
  Proof. unfold c_arg. parts. by parts. Qed.
  Lemma polar_run n r t : c_polar darith (dfuns n) r t m = lift (p_polar n r t) m.
  Proof. unfold c_polar, p_polar. do 2 (apply run_o; intros ?). done. Qed.
  Lemma exp_run n : c_exp darith (dfuns n) z m = lift (p_exp n v.1 v.2) m.
  Proof. unfold c_exp, p_exp. parts. apply run_o. intros e. parts. apply polar_run. Qed.
  Lemma sin_run n : c_sin darith (dfuns n) z m = lift (p_sin n v.1 v.2) m.
  Proof. unfold c_sin, p_sin. parts. parts. do 4 (apply run_o; intros ?). done. Qed.
  Lemma cos_run n : c_cos darith (dfuns n) z m = lift (p_cos n v.1 v.2) m.
  Proof. unfold c_cos, p_cos. parts. parts. do 4 (apply run_o; intros ?). done. Qed.
  Lemma sinh_run n : c_sinh darith (dfuns n) z m = lift (p_sinh n v.1 v.2) m.
  Proof. unfold c_sinh, p_sinh. parts. parts. do 4 (apply run_o; intros ?). done. Qed.
  Lemma cosh_run n : c_cosh darith (dfuns n) z m = lift (p_cosh n v.1 v.2) m.
  Proof. unfold c_cosh, p_cosh. parts. parts. do 4 (apply run_o; intros ?). done. Qed.
  Lemma log_run n : c_log darith (dfuns n) z m = lift (p_log n v.1 v.2) m.
  Proof.
    unfold c_log, p_log. pose proof (abs_run n) as Ha. unfold cd_abs in Ha. unfold bind at 1. cbn [f_abs f_max f_sqrt dfuns]. rewrite Ha.
    destruct (p_abs n v.1 v.2) as [a| |]; [|done..]. cbn [lift ret obind]. apply run_o. intros l.
    unfold bind at 1. rewrite arg_run. destruct (m_atan2 dbl n v.2 v.1) as [t| |]; done.
  Qed.
End calls.

(** ** Uniqueness of the functions *)
Lemma scale2 (p q : R * R) : cmul (2, 0) p = cmul (2, 0) q → p = q.
Proof. destruct p as [a b], q as [c d]. unfold SpecComplex.cmul. simpl. intros H. injection H as H1 H2. f_equal; lra. Qed.
Lemma scale2i (p q : R * R) : cmul (0, 2) p = cmul (0, 2) q → p = q.
Proof. destruct p as [a b], q as [c d]. unfold SpecComplex.cmul. simpl. intros H. injection H as H1 H2. f_equal; lra. Qed.
Lemma cos_is e f v : is_exp e → is_cos e f → f v = v_cos v.
Proof. intros He Hf. apply scale2. rewrite (Hf v) (cos_euler v). by rewrite !(euler_with e He). Qed.
Lemma sin_is e f v : is_exp e → is_sin e f → f v = v_sin v.
Proof. intros He Hf. apply scale2i. rewrite (Hf v) (sin_euler v). by rewrite !(euler_with e He). Qed.
Lemma cosh_is e f v : is_exp e → is_cosh e f → f v = v_cosh v.
Proof. intros He Hf. apply scale2. rewrite (Hf v) (cosh_euler v). by rewrite !(euler_with e He). Qed.
Lemma sinh_is e f v : is_exp e → is_sinh e f → f v = v_sinh v.
Proof. intros He Hf. apply scale2. rewrite (Hf v) (sinh_euler v). by rewrite !(euler_with e He). Qed.
Lemma angle_is (v : D) t : is_angle (cval v) t → cval v ≠ (0, 0) → angle t (dval v.1) (dval v.2).
Proof. intros (H1 & H2 & H3) Hn. split; [done|]. exists (modulus (cval v)). split; [by apply modulus_nz|]. done. Qed.
Lemma nonzero (v : D) : cval v ≠ (0, 0) → dval v.1 ≠ 0 ∨ dval v.2 ≠ 0.
Proof. intros H. destruct (Req_dec (dval v.1) 0) as [E|]; [|by left]. right. intros E2. apply H. unfold cval. by rewrite E E2. Qed.

(** ** abs *)
Lemma c102_abs m z v : mem_wf m → blk m !! z = Some v → is_number2 v → cval v ≠ (0, 0) →
  ∃ r, comes (λ n, cd_abs n z) r m ∧
    ((is_number r ∧ 0 < dval r ∧ within (56 / 10 ^ 5 * modulus (cval v) + powerRZ 2 (-1075)) (dval r) (modulus (cval v))) ∨
     (r = S754_infinity false ∧ powerRZ 2 1024 <= (1 + 56 / 10 ^ 5) * modulus (cval v))).
Proof.
  intros Hm Hz [Hx Hy] Hn. destruct (p_abs_number v.1 v.2 Hx Hy (nonzero v Hn)) as (r & Hr & H). exists r.
  split. { eapply lift_returns; [done| |exact Hr]. intros n. by apply abs_run. }
  change (hyp (dval v.1) (dval v.2)) with (modulus (cval v)) in H. unfold abs_err in H.
  rewrite (Flocq.Core.Raux.bpow_powerRZ Flocq.Core.Zaux.radix2 1024 : DoubleArith.big = _) in H.
  rewrite (Flocq.Core.Raux.bpow_powerRZ Flocq.Core.Zaux.radix2 (-1075) : DoubleSqrt.eta0 = _) in H. exact H.
Qed.
Lemma c102_zero m z v : mem_wf m → blk m !! z = Some v → is_number2 v → cval v = (0, 0) → comes (λ n, cd_abs n z) v.1 m.
Proof.
  intros Hm Hz [Hx Hy] E. injection E as E1 E2. eapply lift_returns; [done|intros n; by apply abs_run|].
  exists 0%nat. intros k _. by apply p_abs_zero.
Qed.
Lemma c102_special m z v : mem_wf m → blk m !! z = Some v → is_double2 v → ¬ is_number2 v →
  (is_number v.1 ∧ dval v.1 = 0 ∧ v.2 = S754_nan ∧ comes (λ n, cd_abs n z) v.1 m) ∨
  (¬ (is_number v.1 ∧ dval v.1 = 0 ∧ v.2 = S754_nan) ∧ never (λ n, cd_abs n z) m).
Proof.
  intros Hm Hz [Hx Hy] Hn. destruct (p_abs_special v.1 v.2 Hx Hy Hn) as [(s & E1 & E2)|H].
  - left. rewrite E1 in Hx |- *. split; [by split|]. split; [done|]. split; [done|]. eapply lift_returns; [done|intros n; by apply abs_run|].
    exists 0%nat. intros k _. rewrite E1 E2. apply p_abs_zero_nan.
  - right. split.
    + intros (H1 & H2 & H3). destruct (DoublePow.number_zero v.1 H1 H2) as [s E]. pose proof (H 0%nat) as H0. cbv beta in H0. rewrite E H3 p_abs_zero_nan in H0. done.
    + eapply lift_never; [intros n; by apply abs_run|]. by apply forever_never.
Qed.

(** ** exp and polar *)
Lemma c103_exp e m z v : is_exp e → mem_wf m → blk m !! z = Some v → is_number2 v → -710 < dval v.1 <= 1419 / 2 →
  ∃ r, comes (λ n, c_exp darith (dfuns n) z) r m ∧ is_number2 r ∧
    near2 ((81 / 10 ^ 6 + err_cos (dval v.2)) * exp (dval v.1)) ((81 / 10 ^ 6 + err_sin (dval v.2)) * exp (dval v.1)) (cval r) (e (cval v)).
Proof.
  intros He Hm Hz [Hx Hy] B. destruct (p_exp_ok v.1 v.2 Hx Hy B) as (re & im & R & H1 & H2 & H3 & H4). exists (re, im).
  split. { eapply lift_returns; [done|intros n; by apply exp_run|exact R]. } split; [by split|]. rewrite -(euler_with e He). by split.
Qed.
Lemma c103_exp_under m z v : mem_wf m → blk m !! z = Some v → is_number2 v → -2147483647 < dval v.1 <= -710 →
  ∃ r, comes (λ n, c_exp darith (dfuns n) z) r m ∧ is_number2 r ∧ cval r = (0, 0).
Proof.
  intros Hm Hz [Hx Hy] B. destruct (p_exp_under v.1 v.2 Hx Hy B) as (s & s' & R). eexists.
  split. { eapply lift_returns; [done|intros n; by apply exp_run|exact R]. } done.
Qed.
Lemma c103_exp_over m z v c s : mem_wf m → blk m !! z = Some v → is_number2 v → 1419 / 2 < dval v.1 < 2147483647 →
  returns (λ n, m_cos dbl n v.2) c → returns (λ n, m_sin dbl n v.2) s →
  ∃ r, comes (λ n, c_exp darith (dfuns n) z) r m ∧ infinity_times (dval c) r.1 ∧ infinity_times (dval s) r.2.
Proof.
  intros Hm Hz [Hx Hy] B Rc Rs. destruct (p_exp_over v.1 v.2 c s Hx Hy B Rc Rs) as (re & im & R & H). exists (re, im).
  split; [|exact H]. eapply lift_returns; [done|intros n; by apply exp_run|exact R].
Qed.
Lemma c103_exp_undefined n m z v : blk m !! z = Some v → is_double v.1 → ¬ is_number v.1 ∨ 2147483649 <= Rabs (dval v.1) →
  c_exp darith (dfuns n) z m = UB.
Proof. intros Hz Hx H. rewrite (exp_run m z v Hz). by rewrite p_exp_undef. Qed.
Lemma sin_never x : is_double x → ¬ is_number x → never_returns (λ n, m_sin dbl n x).
Proof. intros H1 H2. apply forever_never. by apply DoubleSin.sin_special. Qed.
Lemma c103_exp_never m z v : blk m !! z = Some v → is_double v.2 → ¬ is_number v.2 → never (λ n, c_exp darith (dfuns n) z) m.
Proof. intros Hz H1 H2. eapply lift_never; [intros n; by apply exp_run|]. apply p_exp_never. by apply sin_never. Qed.
Lemma c103_polar (m : mem D) r t : mem_wf m → is_number r → is_number t →
  ∃ w, comes (λ n, c_polar darith (dfuns n) r t) w m ∧ is_number2 w ∧
    near2 ((err_cos (dval t) + / 10 ^ 15) * Rabs (dval r) + powerRZ 2 (-1075)) ((err_sin (dval t) + / 10 ^ 15) * Rabs (dval r) + powerRZ 2 (-1075))
      (cval w) (dval r * cos (dval t), dval r * sin (dval t)).
Proof.
  intros Hm Hr Ht. destruct (p_polar_ok r t (Rabs (dval r)) (dval r) 0 Hr Ht) as (re & im & R & H1 & H2 & H3 & H4).
  { rewrite Rminus_eq_0 Rabs_R0. lra. } { lra. } { lra. }
  exists (re, im). split. { eapply lift_returns; [done|intros n; by apply polar_run|exact R]. } split; [by split|].
  rewrite -(Flocq.Core.Raux.bpow_powerRZ Flocq.Core.Zaux.radix2 (-1075) : DoubleSqrt.eta0 = _). pose proof (Rabs_pos (dval r)) as P.
  assert (2 * DoubleSqrt.u <= / 10 ^ 15) as Hu by (unfold DoubleSqrt.u; lra).
  change cos_err with err_cos in H3. change sin_err with err_sin in H4.
  split; unfold within; simpl; [eapply Rle_trans; [exact H3|]|eapply Rle_trans; [exact H4|]]; apply Rplus_le_compat_r, Rmult_le_compat_r; lra.
Qed.
Lemma c103_polar_never (m : mem D) r t : is_double t → ¬ is_number t → never (λ n, c_polar darith (dfuns n) r t) m.
Proof. intros H1 H2. eapply lift_never; [intros n; by apply polar_run|]. apply p_polar_never. by apply sin_never. Qed.

(** ** sin, cos, sinh, cosh *)
Ltac trig ok run lem := intros He Hf Hm Hz [Hx Hy] B; destruct ok as (re & im & R & H1 & H2 & H3 & H4); [done..|]; exists (re, im);
  (split; [eapply lift_returns; [done|intros n; by apply run|exact R]|]); (split; [by split|]); erewrite lem by done; by split.
Lemma c103_sin e f m z v : is_exp e → is_sin e f → mem_wf m → blk m !! z = Some v → is_number2 v → Rabs (dval v.2) <= 355 →
  ∃ r, comes (λ n, c_sin darith (dfuns n) z) r m ∧ is_number2 r ∧
    near2 ((err_cosh (dval v.2) + err_sin (dval v.1)) * cosh (dval v.2)) ((err_sinh (dval v.2) + err_cos (dval v.1)) * cosh (dval v.2)) (cval r) (f (cval v)).
Proof. trig (p_sin_ok v.1 v.2) sin_run sin_is. Qed.
Lemma c103_cos e f m z v : is_exp e → is_cos e f → mem_wf m → blk m !! z = Some v → is_number2 v → Rabs (dval v.2) <= 355 →
  ∃ r, comes (λ n, c_cos darith (dfuns n) z) r m ∧ is_number2 r ∧
    near2 ((err_cosh (dval v.2) + err_cos (dval v.1)) * cosh (dval v.2)) ((err_sinh (dval v.2) + err_sin (dval v.1)) * cosh (dval v.2)) (cval r) (f (cval v)).
Proof. trig (p_cos_ok v.1 v.2) cos_run cos_is. Qed.
Lemma c103_sinh e f m z v : is_exp e → is_sinh e f → mem_wf m → blk m !! z = Some v → is_number2 v → Rabs (dval v.1) <= 355 →
  ∃ r, comes (λ n, c_sinh darith (dfuns n) z) r m ∧ is_number2 r ∧
    near2 ((err_sinh (dval v.1) + err_cos (dval v.2)) * cosh (dval v.1)) ((err_cosh (dval v.1) + err_sin (dval v.2)) * cosh (dval v.1)) (cval r) (f (cval v)).
Proof. trig (p_sinh_ok v.1 v.2) sinh_run sinh_is. Qed.
Lemma c103_cosh e f m z v : is_exp e → is_cosh e f → mem_wf m → blk m !! z = Some v → is_number2 v → Rabs (dval v.1) <= 355 →
  ∃ r, comes (λ n, c_cosh darith (dfuns n) z) r m ∧ is_number2 r ∧
    near2 ((err_cosh (dval v.1) + err_cos (dval v.2)) * cosh (dval v.1)) ((err_sinh (dval v.1) + err_sin (dval v.2)) * cosh (dval v.1)) (cval r) (f (cval v)).
Proof. trig (p_cosh_ok v.1 v.2) cosh_run cosh_is. Qed.
Lemma cosh_never x : is_double x → ¬ (is_number x ∧ Rabs (dval x) < 356) → never_returns (λ n, m_cosh dbl n x).
Proof.
  intros Hd H. apply forever_never. destruct (DoublePow.double_cases x Hd) as [Hx|Hx].
  - apply DoubleSinh.cosh_over; [done|]. destruct (Rlt_or_le (Rabs (dval x)) 356); [by destruct H|done].
  - apply DoubleSinh.cosh_special; [done|]. intros [_ Hn]. destruct Hx as [[s ->]| ->]; done.
Qed.
Lemma c103_trig_never m z v : blk m !! z = Some v → is_double2 v →
  ¬ (is_number2 v ∧ Rabs (dval v.2) < 356) → never (λ n, c_sin darith (dfuns n) z) m ∧ never (λ n, c_cos darith (dfuns n) z) m.
Proof.
  intros Hz [Hx Hy] H.
  assert (never_returns (λ n, m_cosh dbl n v.2) ∨ never_returns (λ n, m_sin dbl n v.1)) as Hn.
  { destruct (DoublePow.double_cases v.1 Hx) as [Nx|Nx].
    - left. apply cosh_never; [done|]. intros [H1 H2]. by destruct H.
    - right. apply sin_never; [done|]. intros [_ Hn]. destruct Nx as [[s E]|E]; rewrite E in Hn; done. }
  split; eapply lift_never.
  - intros n. by apply sin_run. - by apply p_sin_never. - intros n. by apply cos_run. - by apply p_cos_never.
Qed.
Lemma c103_hyp_never m z v : blk m !! z = Some v → is_double2 v →
  ¬ (is_number2 v ∧ Rabs (dval v.1) < 356) → never (λ n, c_sinh darith (dfuns n) z) m ∧ never (λ n, c_cosh darith (dfuns n) z) m.
Proof.
  intros Hz [Hx Hy] H.
  assert (never_returns (λ n, m_cosh dbl n v.1) ∨ never_returns (λ n, m_sin dbl n v.2)) as Hn.
  { destruct (DoublePow.double_cases v.2 Hy) as [Nx|Nx].
    - left. apply cosh_never; [done|]. intros [H1 H2]. by destruct H.
    - right. apply sin_never; [done|]. intros [_ Hn]. destruct Nx as [[s E]|E]; rewrite E in Hn; done. }
  split; eapply lift_never.
  - intros n. by apply sinh_run. - by apply p_sinh_never. - intros n. by apply cosh_run. - by apply p_cosh_never.
Qed.

(** ** arg and log *)
Lemma c104_arg m z v t : mem_wf m → blk m !! z = Some v → is_number2 v → cval v ≠ (0, 0) → is_angle (cval v) t →
  ∃ r, comes (λ n, c_arg (dfuns n) z) r m ∧ is_number r ∧ within (56 / 10 ^ 6) (dval r) t.
Proof.
  intros Hm Hz [Hx Hy] Hn Ha. destruct (DoubleAtan.atan2_double v.2 v.1 t Hy Hx (angle_is v t Ha Hn)) as (r & R & H1 & H2 & _). exists r.
  split; [|done]. eapply lift_returns; [done|intros n; by apply arg_run|exact R].
Qed.
Lemma c104_log m z v t : mem_wf m → blk m !! z = Some v → is_number2 v → is_angle (cval v) t →
  powerRZ 2 (-1022) <= modulus (cval v) <= powerRZ 2 1023 →
  ∃ r, comes (λ n, c_log darith (dfuns n) z) r m ∧ is_number2 r ∧ near2 (17 / 10 ^ 4) (56 / 10 ^ 6) (cval r) (ln (modulus (cval v)), t).
Proof.
  intros Hm Hz [Hx Hy] Ha B.
  assert (cval v ≠ (0, 0)) as Hn.
  { intros E. rewrite E in B. unfold modulus in B. simpl in B. rewrite Rmult_0_l Rplus_0_l sqrt_0 in B. pose proof (powerRZ_lt 2 (-1022) ltac:(lra)) as P. simpl in P. lra. }
  destruct (p_log_ok v.1 v.2 t Hx Hy (angle_is v t Ha Hn) B) as (re & im & R & H1 & H2 & H3 & H4). exists (re, im).
  split. { eapply lift_returns; [done|intros n; by apply log_run|exact R]. } split; [by split|]. by split.
Qed.
Lemma c104_log_small m z v t : mem_wf m → blk m !! z = Some v → is_number2 v → cval v ≠ (0, 0) → is_angle (cval v) t → modulus (cval v) <= powerRZ 2 1023 →
  ∃ r, comes (λ n, c_log darith (dfuns n) z) r m ∧ is_number2 r ∧ within (56 / 10 ^ 6) (dval r.2) t.
Proof.
  intros Hm Hz [Hx Hy] Hn Ha B.
  destruct (p_log_number v.1 v.2 t Hx Hy (angle_is v t Ha Hn) B) as (re & im & R & H1 & H2 & H3). exists (re, im).
  split. { eapply lift_returns; [done|intros n; by apply log_run|exact R]. } by split.
Qed.
Lemma c104_log_zero m z v : mem_wf m → blk m !! z = Some v → is_number2 v → cval v = (0, 0) →
  comes (λ n, c_log darith (dfuns n) z) (S754_infinity true, S754_zero false) m ∧ comes (λ n, c_arg (dfuns n) z) (S754_zero false) m.
Proof.
  intros Hm Hz [Hx Hy] E. injection E as E1 E2. destruct (DoublePow.number_zero _ Hx E1) as [s Es]. destruct (DoublePow.number_zero _ Hy E2) as [s' Es'].
  split; eapply lift_returns; try done.
  - intros n. by apply log_run. - rewrite Es Es'. apply p_log_zero. - intros n. by apply arg_run. - rewrite Es Es'. apply DoubleAtan.atan2_zero.
Qed.
Lemma c104_log_over m z v : blk m !! z = Some v → is_number2 v → powerRZ 2 1024 * (1001 / 1000) <= modulus (cval v) →
  ∀ r, ¬ comes (λ n, c_log darith (dfuns n) z) r m.
Proof. intros Hz [Hx Hy] L. eapply lift_not; [intros n; by apply log_run|]. by apply p_log_over. Qed.
