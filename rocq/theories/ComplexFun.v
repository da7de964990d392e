(** exp, log, sin, cos, ... of complex numbers over the reals. *)
From iris.prelude Require Import prelude.
From Verif Require Import Mem Hist ModelComplex SpecComplex ComplexProofs ComplexAbs ModelComplexFun SpecComplexFun.
From Coq Require Import Reals Lra.
Open Scope R_scope.

Notation cadd := (cadd Rarith). Notation csub := (csub Rarith). Notation cmul := (cmul Rarith).
(** ** What the functions compute *)
Definition v_exp (v : R * R) : R * R := (exp v.1 * cos v.2, exp v.1 * sin v.2).
Definition v_cos (v : R * R) : R * R := (cos v.1 * cosh v.2, - sin v.1 * sinh v.2).
Definition v_sin (v : R * R) : R * R := (sin v.1 * cosh v.2, cos v.1 * sinh v.2).
Definition v_cosh (v : R * R) : R * R := (cosh v.1 * cos v.2, sinh v.1 * sin v.2).
Definition v_sinh (v : R * R) : R * R := (sinh v.1 * cos v.2, cosh v.1 * sin v.2).
Definition v_log (at2 : R → R → R) (v : R * R) : R * R := (ln (modulus v), at2 v.2 v.1).

Section runs.
  Context (at2 : R → R → R) (m : mem (R * R)) (z : loc) (v : R * R).
  Lemma run2 {B} (k : R → R → B) : mem_wf m → blk m !! z = Some v →
    yields (x <- c_real z ;; y <- c_imag z ;; ret (k x y)) (k v.1 v.2) m.
  Proof.
    intros Hm Hz. exists m. split; [|done].
    erewrite bind_ok; [|by apply real_ok]. by erewrite bind_ok; [|by apply imag_ok].
  Qed.
  Lemma run_arg : mem_wf m → blk m !! z = Some v → c_arg (Rfuns at2) z m = Ok (at2 v.2 v.1) m.
  Proof.
    intros Hm Hz. unfold c_arg.
    erewrite bind_ok; [|by apply imag_ok]. by erewrite bind_ok; [|by apply real_ok].
  Qed.
  Lemma run_log : mem_wf m → blk m !! z = Some v → yields (c_log Rarith (Rfuns at2) z) (v_log at2 v) m.
  Proof.
    intros Hm Hz. destruct (abs_ok m z v Hm Hz) as (m' & E & Hb & Hm').
    exists m'. split; [|done]. unfold c_log. erewrite bind_ok; [|exact E].
    erewrite bind_ok; [|reflexivity]. rewrite -Hb in Hz. unfold c_arg, bind. rewrite (imag_ok _ _ _ Hz) (real_ok _ _ _ Hz). done.
  Qed.
End runs.

(** ** Bounds near 0 *)
Lemma Rabs_le_inv a b : Rabs a <= b → - b <= a <= b.
Proof. intros H. unfold Rabs in H. destruct (Rcase_abs a); lra. Qed.
Lemma modulus_ge v : Rabs v.1 <= modulus v ∧ Rabs v.2 <= modulus v.
Proof.
  unfold modulus. split; apply Rsqr_incr_0_var; try apply sqrt_pos; rewrite -Rsqr_abs Rsqr_sqrt; unfold Rsqr; nra.
Qed.
Lemma modulus_pos v : 0 <= modulus v.
Proof. apply sqrt_pos. Qed.
Lemma modulus_sq v : modulus v * modulus v = v.1 * v.1 + v.2 * v.2.
Proof. apply sqrt_def. nra. Qed.
Lemma modulus_le v : modulus v <= Rabs v.1 + Rabs v.2.
Proof.
  apply Rsqr_incr_0_var; [|pose proof (Rabs_pos v.1); pose proof (Rabs_pos v.2); lra].
  unfold Rsqr. rewrite modulus_sq. pose proof (Rabs_pos v.1). pose proof (Rabs_pos v.2).
  pose proof (Rsqr_abs v.1) as H1. pose proof (Rsqr_abs v.2) as H2. unfold Rsqr in H1, H2. nra.
Qed.
Lemma exp_near a : Rabs a <= 1 / 2 → 0 <= exp a - 1 - a <= 2 * (a * a).
Proof.
  intros Ha%Rabs_le_inv. pose proof (exp_ineq1_le a) as H1. pose proof (exp_ineq1_le (- a)) as H2.
  split; [lra|]. rewrite exp_Ropp in H2. pose proof (exp_pos a) as Hp.
  assert (exp a * (1 - a) <= 1) as H3.
  { apply (Rmult_le_compat_l (exp a)) in H2; [|lra]. rewrite Rinv_r in H2; [|lra]. lra. }
  assert (exp a <= 2) by nra. nra.
Qed.
Lemma cos_near b : 0 <= 1 - cos b <= b * b / 2.
Proof.
  assert (∀ x, Rabs (sin x) <= Rabs x) as Hs.
  { assert (∀ x, 0 <= x → sin x <= x) as H0.
    { intros x [Hx| <-]; [left; by apply sin_lt_x|rewrite sin_0; lra]. }
    intros x. unfold Rabs at 2. destruct (Rcase_abs x).
    - rewrite -Rabs_Ropp -sin_neg. apply Rabs_le. pose proof (H0 (- x)). pose proof (SIN_bound (- x)).
      destruct (Rle_dec (- x) PI). { assert (0 <= sin (- x)) by (apply sin_ge_0; lra). lra. }
      pose proof PI_RGT_0. pose proof PI2_1. lra.
    - apply Rabs_le. pose proof (H0 x). pose proof (SIN_bound x).
      destruct (Rle_dec x PI). { assert (0 <= sin x) by (apply sin_ge_0; lra). lra. }
      pose proof PI_RGT_0. pose proof PI2_1. lra. }
  pose proof (COS_bound b). split; [lra|].
  replace (cos b) with (cos (2 * (b / 2))) by (f_equal; field). rewrite cos_2a_sin.
  pose proof (Hs (b / 2)) as H1. apply Rsqr_le_abs_1 in H1. unfold Rsqr in H1. lra.
Qed.
Lemma sin_near b : Rabs (sin b - b) <= Rabs b * (b * b).
Proof.
  destruct (Req_dec b 0) as [->|Hb]. { rewrite sin_0 Rminus_0_r Rabs_R0. lra. }
  assert (∃ c, sin b - b = b * (cos c - 1) ∧ c * c <= b * b) as (c & -> & Hc).
  { destruct (Rtotal_order 0 b) as [Hlt|[He|Hlt]]; [|done|].
    - destruct (MVT_cor2 sin cos 0 b Hlt) as (c & E & Hc); [intros; apply derivable_pt_lim_sin|].
      rewrite sin_0 in E. exists c. split; [lra|nra].
    - destruct (MVT_cor2 sin cos b 0 Hlt) as (c & E & Hc); [intros; apply derivable_pt_lim_sin|].
      rewrite sin_0 in E. exists c. split; [lra|nra]. }
  rewrite Rabs_mult. apply Rmult_le_compat_l; [apply Rabs_pos|]. pose proof (cos_near c).
  rewrite Rabs_left1; lra.
Qed.
Lemma v_exp_is_exp : is_exp v_exp.
Proof.
  split.
  - intros [a b] [c d]. unfold v_exp, SpecComplex.cadd, SpecComplex.cmul. simpl.
    rewrite exp_plus cos_plus sin_plus. f_equal; ring.
  - exists 12. intros [a b] Hh. pose proof (modulus_ge (a, b)) as [Ha Hb]. simpl in Ha, Hb.
    eapply Rle_trans; [apply modulus_le|]. rewrite modulus_sq. unfold v_exp. simpl.
    pose proof (exp_near a ltac:(lra)) as He. pose proof (cos_near b) as Hc. pose proof (sin_near b) as Hs.
    assert (Rabs b * (b * b) <= 1 / 2 * (b * b)) as Hb3.
    { apply Rmult_le_compat_r; [nra|lra]. }
    apply Rabs_le_inv in Ha, Hb. apply Rabs_le_inv in Hs.
    assert (0 < exp a <= 2) as He2. { split; [apply exp_pos|nra]. }
    assert (Rabs (exp a * cos b - 1 - a) <= 4 * (a * a + b * b)) as H1.
    { replace (exp a * cos b - 1 - a) with ((exp a - 1 - a) - exp a * (1 - cos b)) by ring. apply Rabs_le.
      assert (0 <= exp a * (1 - cos b) <= 2 * (b * b / 2)) by (split; [nra|apply Rmult_le_compat; lra]). nra. }
    assert (Rabs (exp a * sin b - 0 - b) <= 8 * (a * a + b * b)) as H2.
    { replace (exp a * sin b - 0 - b) with (exp a * (sin b - b) + (exp a - 1) * b) by ring.
      eapply Rle_trans; [apply Rabs_triang|].
      assert (Rabs (exp a * (sin b - b)) <= 2 * (1 / 2 * (b * b))).
      { rewrite Rabs_mult. apply Rmult_le_compat; [apply Rabs_pos..|rewrite Rabs_right; lra|]. apply Rabs_le. lra. }
      assert (Rabs ((exp a - 1) * b) <= 2 * (a * a + b * b)).
      { rewrite Rabs_mult. assert (Rabs (exp a - 1) <= 2 * Rabs a) as H3.
        { replace (exp a - 1) with (exp a - 1 - a + a) by ring. eapply Rle_trans; [apply Rabs_triang|].
          rewrite (Rabs_right (exp a - 1 - a)); [|lra]. pose proof (Rabs_pos a).
          assert (a * a = Rabs a * Rabs a) as Haa by (rewrite -Rabs_mult Rabs_right; nra).
          assert (Rabs a <= 1 / 2) by (apply Rabs_le; lra). nra. }
        pose proof (Rabs_pos a). pose proof (Rabs_pos b).
        assert (a * a = Rabs a * Rabs a) as -> by (rewrite -Rabs_mult Rabs_right; nra).
        assert (b * b = Rabs b * Rabs b) as -> by (rewrite -Rabs_mult Rabs_right; nra).
        assert (Rabs (exp a - 1) * Rabs b <= 2 * Rabs a * Rabs b) by (apply Rmult_le_compat_r; lra).
        nra. }
      nra. }
    lra.
Qed.

(** ** There is one exponential *)
Lemma modulus_mul v w : modulus (cmul v w) = modulus v * modulus w.
Proof. unfold modulus. rewrite -sqrt_mult_alt; [|nra]. f_equal. simpl. ring. Qed.
Lemma modulus_0 v : modulus v = 0 → v = (0, 0).
Proof.
  intros H. pose proof (modulus_sq v) as E. rewrite H in E. destruct v as [a b]. simpl in E. f_equal; nra.
Qed.
Lemma modulus_triang v w : modulus (cadd v w) <= modulus v + modulus w.
Proof.
  apply Rsqr_incr_0_var; [|pose proof (modulus_pos v); pose proof (modulus_pos w); lra]. unfold Rsqr.
  pose proof (modulus_sq (cadd v w)) as E. pose proof (modulus_sq v) as E1. pose proof (modulus_sq w) as E2.
  rewrite E. simpl. pose proof (modulus_pos v). pose proof (modulus_pos w).
  assert (v.1 * w.1 + v.2 * w.2 <= modulus v * modulus w) as H1.
  { apply Rsqr_incr_0_var; [|nra]. unfold Rsqr.
    replace (modulus v * modulus w * (modulus v * modulus w)) with (modulus v * modulus v * (modulus w * modulus w)) by ring.
    rewrite E1 E2. pose proof (Rle_0_sqr (v.1 * w.2 - v.2 * w.1)) as Hq. unfold Rsqr in Hq. nra. }
  nra.
Qed.
Definition scale (n : nat) (v : R * R) : R * R := (INR n * v.1, INR n * v.2).
Lemma scale_S n v : scale (S n) v = cadd (scale n v) v.
Proof. unfold scale, SpecComplex.cadd. rewrite S_INR. simpl. f_equal; ring. Qed.
Lemma exp_at_0 f : is_exp f → f (0, 0) = (1, 0).
Proof.
  intros [_ (c & Hc)]. specialize (Hc (0, 0)).
  assert (modulus (0, 0) = 0) as E. { unfold modulus. simpl. rewrite Rmult_0_l Rplus_0_l. apply sqrt_0. }
  rewrite E in Hc. specialize (Hc ltac:(lra)). pose proof (modulus_pos (csub (csub (f (0, 0)) (1, 0)) (0, 0))).
  assert (csub (csub (f (0, 0)) (1, 0)) (0, 0) = (0, 0)) as H1 by (apply modulus_0; lra).
  destruct (f (0, 0)) as [a b]. unfold SpecComplex.csub in H1. simpl in H1. injection H1 as H1 H2. f_equal; lra.
Qed.
Lemma scale_0 v : scale 0 v = (0, 0).
Proof. unfold scale. simpl. f_equal; ring. Qed.
Lemma powers f g h M D n :
  is_exp f → is_exp g → 1 <= M → modulus (f h) <= M → modulus (g h) <= M → modulus (csub (f h) (g h)) <= D →
  modulus (f (scale n h)) <= M ^ n ∧ modulus (csub (f (scale n h)) (g (scale n h))) <= INR n * (M ^ n * D).
Proof.
  intros Hf Hg HM H1 H2 HD. induction n as [|n [IH1 IH2]].
  - rewrite scale_0 !exp_at_0 //. split.
    + unfold modulus. simpl. replace (1 * 1 + 0 * 0) with 1 by ring. rewrite sqrt_1. lra.
    + unfold modulus. simpl. replace ((1 - 1) * (1 - 1) + (0 - 0) * (0 - 0)) with 0 by ring. rewrite sqrt_0. lra.
  - rewrite scale_S !(proj1 Hf) !(proj1 Hg). rewrite modulus_mul. pose proof (pow_R1_Rle M n HM) as Hp.
    pose proof (modulus_pos (f (scale n h))). pose proof (modulus_pos (f h)). pose proof (modulus_pos (g h)).
    pose proof (modulus_pos (csub (f h) (g h))). pose proof (modulus_pos (csub (f (scale n h)) (g (scale n h)))).
    split; [simpl; rewrite (Rmult_comm M); by apply Rmult_le_compat|].
    replace (csub (cmul (f (scale n h)) (f h)) (cmul (g (scale n h)) (g h)))
      with (cadd (cmul (f (scale n h)) (csub (f h) (g h))) (cmul (csub (f (scale n h)) (g (scale n h))) (g h))).
    2:{ unfold SpecComplex.cadd, SpecComplex.cmul, SpecComplex.csub. simpl. f_equal; ring. }
    eapply Rle_trans; [apply modulus_triang|]. rewrite !modulus_mul S_INR.
    assert (modulus (f (scale n h)) * modulus (csub (f h) (g h)) <= M ^ n * D) by (by apply Rmult_le_compat).
    assert (modulus (csub (f (scale n h)) (g (scale n h))) * modulus (g h) <= INR n * (M ^ n * D) * M)
      by (by apply Rmult_le_compat).
    pose proof (pos_INR n). simpl. assert (0 <= D) by lra.
    assert (0 <= M ^ n * D) by nra.
    assert (M ^ n * D <= M ^ n * D * M) by nra. nra.
Qed.
Lemma INR_unbounded x : ∃ n, x < INR n.
Proof.
  destruct (archimed x) as [H _]. exists (Z.to_nat (Z.max 0 (up x))). rewrite INR_IZR_INZ Z2Nat.id; [|lia].
  pose proof (IZR_le (up x) (Z.max 0 (up x)) ltac:(lia)). lra.
Qed.
Lemma small_0 X K N : 0 <= X → (∀ n : nat, (N < n)%nat → X <= K / INR n) → X = 0.
Proof.
  intros [HX|]; [|done]. intros H. exfalso. destruct (INR_unbounded (Rmax (INR N) (K / X))) as [n Hn].
  pose proof (Rmax_l (INR N) (K / X)). pose proof (Rmax_r (INR N) (K / X)).
  assert (0 < INR n) by (pose proof (pos_INR N); lra).
  assert (N < n)%nat as HN by (apply INR_lt; lra). specialize (H n HN).
  apply (Rmult_le_compat_r (INR n)) in H; [|lra]. replace (K / INR n * INR n) with K in H by (field; lra).
  assert (K / X * X < INR n * X) as H3 by (apply Rmult_lt_compat_r; lra).
  replace (K / X * X) with K in H3 by (field; lra). lra.
Qed.
Lemma modulus_div n v : (0 < n)%nat → scale n (v.1 / INR n, v.2 / INR n) = v ∧ modulus (v.1 / INR n, v.2 / INR n) = modulus v / INR n.
Proof.
  intros Hn%lt_INR. simpl in Hn. split.
  - destruct v as [a b]. unfold scale. simpl. f_equal; field; lra.
  - unfold modulus. simpl. replace (v.1 / INR n * (v.1 / INR n) + v.2 / INR n * (v.2 / INR n))
      with ((v.1 * v.1 + v.2 * v.2) / (INR n * INR n)) by (field; lra).
    rewrite sqrt_div_alt; [|nra]. rewrite sqrt_square //. lra.
Qed.
Lemma near_bound c f h : is_exp f → (∀ h, modulus h <= 1 / 2 → modulus (csub (csub (f h) (1, 0)) h) <= c * (modulus h * modulus h)) →
  0 <= c → modulus h <= 1 / 2 → modulus (f h) <= 1 + (1 + c) * modulus h.
Proof.
  intros Hf Hc H0 Hh. specialize (Hc h Hh).
  replace (f h) with (cadd (cadd (1, 0) h) (csub (csub (f h) (1, 0)) h)) at 1.
  2:{ destruct (f h), h. unfold SpecComplex.cadd, SpecComplex.csub. simpl. f_equal; ring. }
  pose proof (modulus_triang (cadd (1, 0) h) (csub (csub (f h) (1, 0)) h)).
  pose proof (modulus_triang (1, 0) h).
  assert (modulus (1, 0) = 1) as E. { unfold modulus. simpl. replace (1 * 1 + 0 * 0) with 1 by ring. apply sqrt_1. }
  pose proof (modulus_pos h). assert (c * (modulus h * modulus h) <= c * modulus h) by (apply Rmult_le_compat_l; nra). lra.
Qed.
Lemma modulus_opp v : modulus (csub (0, 0) v) = modulus v.
Proof. unfold modulus. f_equal. simpl. ring. Qed.
Lemma exp_pow_INR x n : exp x ^ n = exp (INR n * x).
Proof.
  induction n as [|n IH]; [simpl; by rewrite Rmult_0_l exp_0|]. rewrite S_INR Rmult_plus_distr_r exp_plus -IH Rmult_1_l. simpl. ring.
Qed.
Lemma exp_unique f g : is_exp f → is_exp g → ∀ v, f v = g v.
Proof.
  intros Hf Hg v. pose proof Hf as [Hf1 [c1 Hf2]]. pose proof Hg as [Hg1 [c2 Hg2]].
  set (c := Rmax 0 (Rmax c1 c2)). assert (0 <= c) as H0 by apply Rmax_l.
  assert (c1 <= c ∧ c2 <= c) as [Hc1 Hc2].
  { unfold c. pose proof (Rmax_r 0 (Rmax c1 c2)). pose proof (Rmax_l c1 c2). pose proof (Rmax_r c1 c2). lra. }
  assert (∀ h, modulus h <= 1 / 2 → modulus (csub (csub (f h) (1, 0)) h) <= c * (modulus h * modulus h)) as Hf3.
  { intros h Hh. eapply Rle_trans; [by apply Hf2|]. apply Rmult_le_compat_r; [|done]. pose proof (modulus_pos h). nra. }
  assert (∀ h, modulus h <= 1 / 2 → modulus (csub (csub (g h) (1, 0)) h) <= c * (modulus h * modulus h)) as Hg3.
  { intros h Hh. eapply Rle_trans; [by apply Hg2|]. apply Rmult_le_compat_r; [|done]. pose proof (modulus_pos h). nra. }
  clear Hf2 Hg2 Hc1 Hc2.
  set (r := modulus v). assert (0 <= r) as Hr by apply modulus_pos.
  destruct (INR_unbounded (2 * r)) as [N HN].
  assert (modulus (csub (f v) (g v)) = 0) as H%modulus_0.
  { apply (small_0 _ (exp ((1 + c) * r) * (2 * c * (r * r))) N); [apply modulus_pos|]. intros n Hn.
    assert (INR N < INR n) as HNn by by apply lt_INR.
    assert (0 < INR n) as Hn0 by lra.
    destruct (modulus_div n v ltac:(lia)) as [Es Em]. fold r in Em.
    set (h := (v.1 / INR n, v.2 / INR n)) in *.
    assert (modulus h <= 1 / 2) as Hh.
    { rewrite Em. apply (Rmult_le_reg_r (INR n)); [done|]. replace (r / INR n * INR n) with r by (field; lra). lra. }
    set (M := 1 + (1 + c) * modulus h). pose proof (modulus_pos h) as Hh0. assert (1 <= M) as HM by (unfold M; nra).
    destruct (powers f g h M (2 * c * (modulus h * modulus h)) n) as [_ HP]; [done..|by apply near_bound|by apply near_bound| |].
    { replace (csub (f h) (g h)) with (cadd (csub (csub (f h) (1, 0)) h) (csub (0, 0) (csub (csub (g h) (1, 0)) h))).
      2:{ destruct (f h), (g h), h. unfold SpecComplex.cadd, SpecComplex.csub. simpl. f_equal; ring. }
      eapply Rle_trans; [apply modulus_triang|]. rewrite modulus_opp.
      pose proof (Hf3 h Hh). pose proof (Hg3 h Hh). lra. }
    rewrite Es in HP. eapply Rle_trans; [exact HP|].
    assert (M ^ n <= exp ((1 + c) * r)) as HMn.
    { replace ((1 + c) * r) with (INR n * ((1 + c) * modulus h)) by (rewrite Em; field; lra).
      rewrite -exp_pow_INR. apply pow_incr. split; [lra|]. apply exp_ineq1_le. }
    rewrite Em. replace (exp ((1 + c) * r) * (2 * c * (r * r)) / INR n)
      with (INR n * (exp ((1 + c) * r) * (2 * c * (r / INR n * (r / INR n))))) by (field; lra).
    apply Rmult_le_compat_l; [lra|]. apply Rmult_le_compat_r; [|done].
    assert (0 <= r / INR n) by (rewrite -Em; done). apply Rmult_le_pos; [lra|]. by apply Rmult_le_pos. }
  destruct (f v), (g v). unfold SpecComplex.csub in H. simpl in H. injection H as H1 H2. f_equal; lra.
Qed.

(** ** Euler's formulas *)
Ltac euler := intros [a b]; unfold v_exp, v_cos, v_sin, v_cosh, v_sinh, SpecComplex.cadd, SpecComplex.csub, SpecComplex.cmul, sinh, cosh; cbn [fst snd tadd tsub tmul Rarith];
  repeat match goal with
  | |- context [exp (?x * ?p - ?y * ?q)] => first [replace (x * p - y * q) with (- q) by ring | replace (x * p - y * q) with q by ring | replace (x * p - y * q) with (- p) by ring]
  | |- context [cos (?x * ?p + ?y * ?q)] => first [replace (x * p + y * q) with (- q) by ring | replace (x * p + y * q) with q by ring | replace (x * p + y * q) with (- p) by ring | replace (x * p + y * q) with p by ring]
  end; rewrite ?cos_neg ?sin_neg; f_equal; field.
Lemma cos_euler : is_cos v_exp v_cos.
Proof. euler. Qed.
Lemma sin_euler : is_sin v_exp v_sin.
Proof. euler. Qed.
Lemma cosh_euler : is_cosh v_exp v_cosh.
Proof. euler. Qed.
Lemma sinh_euler : is_sinh v_exp v_sinh.
Proof. euler. Qed.

(** ** Polar form and logarithm *)
Lemma modulus_nz v : v ≠ (0, 0) → 0 < modulus v.
Proof. intros H. destruct (modulus_pos v) as [|E]; [done|]. by destruct H; apply modulus_0. Qed.
Lemma modulus_polar r t : 0 <= r → modulus (r * cos t, r * sin t) = r.
Proof.
  intros Hr. unfold modulus. simpl. replace (r * cos t * (r * cos t) + r * sin t * (r * sin t)) with (r * r * (cos t * cos t + sin t * sin t)) by ring.
  pose proof (sin2_cos2 t) as H. unfold Rsqr in H. rewrite Rplus_comm H Rmult_1_r. by apply sqrt_square.
Qed.
Lemma angle_unique s t : - PI < s <= PI → - PI < t <= PI → cos s = cos t → sin s = sin t → s = t.
Proof.
  intros Hs Ht Hc Hi.
  assert (cos (s - t) = 1) as H1.
  { rewrite cos_minus Hc Hi. pose proof (sin2_cos2 t) as H. unfold Rsqr in H. lra. }
  assert (sin ((s - t) / 2) = 0) as H2.
  { replace (s - t) with (2 * ((s - t) / 2)) in H1 by field. rewrite cos_2a_sin in H1. nra. }
  destruct (Rtotal_order s t) as [H|[H|H]]; [|done|].
  - assert (0 < sin (- ((s - t) / 2))) as H3 by (apply sin_gt_0; lra). rewrite sin_neg in H3. lra.
  - assert (0 < sin ((s - t) / 2)) as H3 by (apply sin_gt_0; lra). lra.
Qed.
Lemma is_angle_unique v s t : v ≠ (0, 0) → is_angle v s → is_angle v t → s = t.
Proof.
  intros Hv%modulus_nz (Hs & H1 & H2) (Ht & H3 & H4). apply angle_unique; [done..| |];
    apply (Rmult_eq_reg_l (modulus v)); lra.
Qed.
Lemma exp_log at2 v : right_atan2 at2 → v ≠ (0, 0) → v_exp (v_log at2 v) = v.
Proof.
  intros Ha Hv. destruct v as [a b]. destruct (Ha a b Hv) as (_ & H1 & H2). simpl in H1, H2.
  unfold v_exp, v_log. cbn [fst snd]. rewrite exp_ln; [|by apply modulus_nz]. by rewrite -H1 -H2.
Qed.
Lemma exp_nz v : v_exp v ≠ (0, 0) ∧ modulus (v_exp v) = exp v.1.
Proof.
  assert (modulus (v_exp v) = exp v.1) as E by (apply modulus_polar; left; apply exp_pos). split; [|done].
  intros H. rewrite H in E. pose proof (exp_pos v.1). unfold modulus in E. simpl in E.
  rewrite Rmult_0_l Rplus_0_l sqrt_0 in E. lra.
Qed.
Lemma log_exp at2 v : right_atan2 at2 → - PI < v.2 <= PI → v_log at2 (v_exp v) = v.
Proof.
  intros Ha Hv. destruct (exp_nz v) as [Hn Hm]. unfold v_log. rewrite Hm ln_exp. destruct v as [a b]. f_equal. simpl in Hv.
  apply (is_angle_unique (v_exp (a, b))); [done| |].
  - pose proof (Ha (v_exp (a, b)).1 (v_exp (a, b)).2) as H. by rewrite -surjective_pairing in H; apply H.
  - split; [done|]. by rewrite Hm.
Qed.

(** ** An atan2 *)
Definition ratan2 (y x : R) : R :=
  if Rlt_dec 0 x then atan (y / x)
  else if Rlt_dec x 0 then if Rle_dec 0 y then atan (y / x) + PI else atan (y / x) - PI
  else if Rlt_dec 0 y then PI / 2 else - (PI / 2).
Lemma cos_sin_atan x y : 0 < x → modulus (x, y) * cos (atan (y / x)) = x ∧ modulus (x, y) * sin (atan (y / x)) = y.
Proof.
  intros Hx. rewrite cos_atan sin_atan. unfold modulus. cbn [fst snd].
  assert (sqrt (1 + (y / x)²) = sqrt (x * x + y * y) / x) as ->.
  { replace (1 + (y / x)²) with ((x * x + y * y) / (x * x)) by (unfold Rsqr; field; lra).
    rewrite sqrt_div_alt; [|nra]. by rewrite sqrt_square; [|lra]. }
  assert (0 < sqrt (x * x + y * y)) by (apply sqrt_lt_R0; nra). split; field; lra.
Qed.
Lemma ratan2_right : right_atan2 ratan2.
Proof.
  intros x y Hn. pose proof PI_RGT_0 as HP. unfold is_angle, ratan2. cbn [fst snd].
  assert (∀ x y, modulus (x, y) = modulus (- x, - y)) as Hm.
  { intros. unfold modulus. f_equal. simpl. ring. }
  destruct (Rlt_dec 0 x) as [Hx|Hx]; [|destruct (Rlt_dec x 0) as [Hx'|Hx']].
  - destruct (cos_sin_atan x y Hx) as [H1 H2]. pose proof (atan_bound (y / x)). split; [lra|]. by rewrite H1 H2.
  - destruct (cos_sin_atan (- x) (- y)) as [H1 H2]; [lra|]. rewrite -Hm in H1, H2.
    replace (- y / - x) with (y / x) in H1, H2 by (field; lra). pose proof (atan_bound (y / x)).
    destruct (Rle_dec 0 y).
    + assert (y / x <= 0).
      { apply (Rmult_le_reg_r (- x)); [lra|]. replace (y / x * - x) with (- y) by (field; lra). lra. }
      assert (atan (y / x) <= 0).
      { destruct (Req_dec (y / x) 0) as [->|]; [rewrite atan_0; lra|]. rewrite -atan_0. left. apply atan_increasing. lra. }
      split; [lra|]. rewrite neg_cos neg_sin. lra.
    + assert (0 < y / x).
      { apply (Rmult_lt_reg_r (- x)); [lra|]. replace (y / x * - x) with (- y) by (field; lra). lra. }
      assert (0 < atan (y / x)). { rewrite -atan_0. by apply atan_increasing. }
      split; [lra|]. replace (atan (y / x) - PI) with (- (PI - atan (y / x))) by ring. rewrite cos_neg sin_neg.
      rewrite Rtrigo_facts.cos_pi_minus sin_PI_x. lra.
  - assert (x = 0) as -> by lra. assert (y ≠ 0) as Hy by (intros ->; by destruct Hn).
    assert (modulus (0, y) = Rabs y) as ->.
    { unfold modulus. simpl. rewrite Rmult_0_l Rplus_0_l. change (y * y) with (y²). apply sqrt_Rsqr_abs. }
    destruct (Rlt_dec 0 y).
    + split; [lra|]. rewrite cos_PI2 sin_PI2 Rabs_right; lra.
    + split; [lra|]. rewrite cos_neg sin_neg cos_PI2 sin_PI2 Rabs_left; lra.
Qed.

(** ** The functions as called *)
Lemma exp_calls at2 : computes (c_exp Rarith (Rfuns at2)) v_exp.
Proof. intros m z v. apply (run2 m z v (λ x y, (exp x * cos y, exp x * sin y))). Qed.
Lemma cos_calls at2 : computes (c_cos Rarith (Rfuns at2)) v_cos.
Proof. intros m z v. apply (run2 m z v (λ x y, (cos x * cosh y, - sin x * sinh y))). Qed.
Lemma sin_calls at2 : computes (c_sin Rarith (Rfuns at2)) v_sin.
Proof. intros m z v. apply (run2 m z v (λ x y, (sin x * cosh y, cos x * sinh y))). Qed.
Lemma cosh_calls at2 : computes (c_cosh Rarith (Rfuns at2)) v_cosh.
Proof. intros m z v. apply (run2 m z v (λ x y, (cosh x * cos y, sinh x * sin y))). Qed.
Lemma sinh_calls at2 : computes (c_sinh Rarith (Rfuns at2)) v_sinh.
Proof. intros m z v. apply (run2 m z v (λ x y, (sinh x * cos y, cosh x * sin y))). Qed.

Lemma c94_exp at2 : ∃ e, is_exp e ∧ computes (c_exp Rarith (Rfuns at2)) e.
Proof. exists v_exp. split; [apply v_exp_is_exp|apply exp_calls]. Qed.
Lemma euler_with e : is_exp e → ∀ v, v_exp v = e v.
Proof. intros He. apply exp_unique; [apply v_exp_is_exp|done]. Qed.
Lemma c94_trig at2 e : is_exp e →
  (∃ f, is_cos e f ∧ computes (c_cos Rarith (Rfuns at2)) f) ∧ (∃ f, is_sin e f ∧ computes (c_sin Rarith (Rfuns at2)) f) ∧
  (∃ f, is_cosh e f ∧ computes (c_cosh Rarith (Rfuns at2)) f) ∧ (∃ f, is_sinh e f ∧ computes (c_sinh Rarith (Rfuns at2)) f).
Proof.
  intros He. pose proof (euler_with e He) as E. split; [|split; [|split]].
  - exists v_cos. split; [|apply cos_calls]. intros v. rewrite -!E. apply cos_euler.
  - exists v_sin. split; [|apply sin_calls]. intros v. rewrite -!E. apply sin_euler.
  - exists v_cosh. split; [|apply cosh_calls]. intros v. rewrite -!E. apply cosh_euler.
  - exists v_sinh. split; [|apply sinh_calls]. intros v. rewrite -!E. apply sinh_euler.
Qed.
Lemma c95_log at2 e m z v : right_atan2 at2 → is_exp e → mem_wf m → blk m !! z = Some v → v ≠ (0, 0) →
  ∃ w, yields (c_log Rarith (Rfuns at2) z) w m ∧ e w = v ∧ - PI < w.2 <= PI ∧
    (∀ u, e u = v → - PI < u.2 <= PI → u = w).
Proof.
  intros Ha He Hm Hz Hv. exists (v_log at2 v). split; [by apply run_log|]. rewrite -(euler_with e He). split; [by apply exp_log|].
  split. { destruct v as [a b]. by destruct (Ha a b Hv). }
  intros u Hu Hr. rewrite -(euler_with e He) in Hu. rewrite -Hu. symmetry. by apply log_exp.
Qed.
Lemma c95_polar at2 r t m : mem_wf m → 0 <= r →
  ∃ v, yields (c_polar Rarith (Rfuns at2) r t) v m ∧ modulus v = r ∧ (- PI < t <= PI → is_angle v t).
Proof.
  intros Hm Hr. exists (r * cos t, r * sin t). split; [by exists m|]. pose proof (modulus_polar r t Hr) as E.
  split; [done|]. intros Ht. split; [done|]. by rewrite E.
Qed.
Lemma c95_abs_arg at2 m z v : right_atan2 at2 → mem_wf m → blk m !! z = Some v → v ≠ (0, 0) →
  ∃ r t, yields (c_abs Rarith Rabs Rmax (λ x, ret (sqrt x)) z) r m ∧ yields (c_arg (Rfuns at2) z) t m ∧
    is_angle v t ∧ yields (c_polar Rarith (Rfuns at2) r t) v m.
Proof.
  intros Ha Hm Hz Hv. exists (modulus v), (at2 v.2 v.1). split; [by apply abs_ok|].
  split; [exists m; split; [by apply run_arg|done]|].
  destruct v as [a b]. pose proof (Ha a b Hv) as Hang. split; [done|]. destruct Hang as (_ & H1 & H2).
  exists m. split; [|done]. unfold c_polar, bind, ret. simpl in *. by rewrite -H1 -H2.
Qed.
