(** C94, C95: exp, log, sin, cos, sinh, cosh, polar and arg of complex numbers, over
    the reals with the exact scalar functions. *)
From Verif Require Import Mem Hist ModelComplex HistProofs SpecComplex ComplexAbs ModelComplexFun SpecComplexFun ComplexFun.
From Coq Require Import Reals Lra.
Open Scope R_scope.

(** ** C94 *)
Theorem C94_complex_exp at2 : ∃ e, is_exp e ∧ computes (c_exp Rarith (Rfuns at2)) e.
Proof. exact (c94_exp at2). Qed.
Print Assumptions C94_complex_exp.
(** There is no other such function. *)
Theorem C94_complex_exp_unique e e' : is_exp e → is_exp e' → ∀ v, e v = e' v.
Proof. exact (exp_unique e e'). Qed.
Print Assumptions C94_complex_exp_unique.
Theorem C94_complex_trig at2 e : is_exp e →
  (∃ f, is_cos e f ∧ computes (c_cos Rarith (Rfuns at2)) f) ∧ (∃ f, is_sin e f ∧ computes (c_sin Rarith (Rfuns at2)) f) ∧
  (∃ f, is_cosh e f ∧ computes (c_cosh Rarith (Rfuns at2)) f) ∧ (∃ f, is_sinh e f ∧ computes (c_sinh Rarith (Rfuns at2)) f).
Proof. exact (c94_trig at2 e). Qed.
Print Assumptions C94_complex_trig.
Example C94_example : is_exp v_exp ∧ v_exp (0, PI) = (-1, 0) ∧
  mem_wf (Mem {[ 1%positive := (0, PI) ]} 2%positive [] []).
Proof.
  split; [exact v_exp_is_exp|]. split; [|apply mem_wf_check; vm_compute; reflexivity].
  unfold v_exp. simpl. rewrite exp_0, cos_PI, sin_PI. f_equal; ring.
Qed.

(** ** C95 *)
Theorem C95_complex_log at2 e m z v : right_atan2 at2 → is_exp e → mem_wf m → blk m !! z = Some v → v ≠ (0, 0) →
  ∃ w, yields (c_log Rarith (Rfuns at2) z) w m ∧ e w = v ∧ - PI < w.2 <= PI ∧
    (∀ u, e u = v → - PI < u.2 <= PI → u = w).
Proof. exact (c95_log at2 e m z v). Qed.
Print Assumptions C95_complex_log.
Theorem C95_complex_polar at2 r t m : mem_wf m → 0 <= r →
  ∃ v, yields (c_polar Rarith (Rfuns at2) r t) v m ∧ modulus v = r ∧ (- PI < t <= PI → is_angle v t).
Proof. exact (c95_polar at2 r t m). Qed.
Print Assumptions C95_complex_polar.
Theorem C95_complex_abs_arg at2 m z v : right_atan2 at2 → mem_wf m → blk m !! z = Some v → v ≠ (0, 0) →
  ∃ r t, yields (c_abs Rarith Rabs Rmax (λ x, ret (sqrt x)) z) r m ∧ yields (c_arg (Rfuns at2) z) t m ∧
    is_angle v t ∧ yields (c_polar Rarith (Rfuns at2) r t) v m.
Proof. exact (c95_abs_arg at2 m z v). Qed.
Print Assumptions C95_complex_abs_arg.
Example C95_example : right_atan2 ratan2 ∧ (-3, -4) ≠ (0, 0) ∧ modulus (-3, -4) = 5 ∧
  mem_wf (Mem {[ 1%positive := (-3, -4) ]} 2%positive [] []).
Proof.
  split; [exact ratan2_right|]. split; [intros [=]; lra|]. split; [|apply mem_wf_check; vm_compute; reflexivity].
  unfold modulus. simpl. replace (-3 * -3 + -4 * -4) with (5 * 5) by ring. apply sqrt_square. lra.
Qed.
