(** sin, cos, sinh and cosh in exact arithmetic. *)
From stdpp Require Import base tactics.
From Verif Require Import ModelCmath SpecCmath CmathBounds CmathReal.
From Coq Require Import ZArith Reals Lra Lia Psatz.
Open Scope R_scope.

Lemma three_pow c : ∃ n : nat, c < 3 ^ n.
Proof.
  destruct (two_pow (c + 1)) as [n Hn]. exists n. assert (2 ^ n <= 3 ^ n) by (apply pow_incr; lra). lra.
Qed.
Lemma sin_3 a : sin (3 * a) = 3 * sin a - 4 * sin a ^ 3.
Proof.
  replace (3 * a) with (2 * a + a) by ring. rewrite sin_plus, sin_2a, cos_2a_sin.
  pose proof (sin2_cos2 a) as H. unfold Rsqr in H.
  assert (cos a * cos a = 1 - sin a * sin a) as E by lra.
  replace (2 * sin a * cos a * cos a) with (2 * sin a * (cos a * cos a)) by ring. rewrite E. ring.
Qed.
Lemma sinh_3 a : sinh (3 * a) = 3 * sinh a + 4 * sinh a ^ 3.
Proof.
  unfold sinh. replace (- (3 * a)) with (- a + (- a + - a)) by ring. replace (3 * a) with (a + (a + a)) by ring.
  rewrite !exp_plus. assert (exp a * exp (- a) = 1) as H. { rewrite <- exp_plus, Rplus_opp_r. apply exp_0. }
  set (u := exp a) in *. set (v := exp (- a)) in *. 
  replace (4 * ((u - v) / 2) ^ 3) with ((u * (u * u) - 3 * u * (u * v) + 3 * v * (u * v) - v * (v * v)) / 2) by field.
  rewrite H. field.
Qed.

Lemma sin_unroll n x :
  sin_helper exact (S n) x =
  if Rlt_dec x (1 / 1000) then Value x
  else obind (sin_helper exact n (x / 3)) (λ a, Value (3 * a - 4 * a ^ 3)).
Proof.
  cbn [sin_helper]. rewrite x_tol. cbn [obind]. change (nint exact 3) with 3. rewrite x_div by lra. cbn [obind].
  destruct (Rlt_dec _ _); [now rewrite x_lt|]. rewrite x_nlt by lra.
  destruct (sin_helper exact n (x / 3)); simpl; try reflexivity. f_equal. unfold cube. simpl. ring.
Qed.
Lemma sinh_unroll n x :
  sinh_helper exact (S n) x =
  if Rlt_dec x (1 / 1000) then Value x
  else obind (sinh_helper exact n (x / 3)) (λ a, Value (3 * a + 4 * a ^ 3)).
Proof.
  cbn [sinh_helper]. rewrite x_tol. cbn [obind]. change (nint exact 3) with 3. rewrite x_div by lra. cbn [obind].
  destruct (Rlt_dec _ _); [now rewrite x_lt|]. rewrite x_nlt by lra.
  destruct (sinh_helper exact n (x / 3)); simpl; try reflexivity. f_equal. unfold cube. simpl. ring.
Qed.
Lemma sin_small x : 0 <= x < 1 / 1000 → ∃ t, 0 <= t <= 11 / 10000 ∧ sin t = x ∧ 0 <= t - x <= 168 / 10 ^ 9 * x.
Proof.
  intros Hx. exists (asin x). set (t := asin x).
  assert (sin t = x) as Hs by (apply sin_asin; lra).
  assert (0 <= t) as Ht0.
  { destruct (Rle_dec 0 t) as [|H]; [assumption|]. pose proof (asin_bound x) as Hb. fold t in Hb.
    assert (sin t < 0); [|lra]. apply sin_lt_0_var; pose proof PI_RGT_0; lra. }
  assert (t <= 11 / 10000) as Ht1.
  { destruct (Rle_dec t (11 / 10000)) as [|H]; [assumption|].
    assert (sin (11 / 10000) <= sin t) as H1.
    { pose proof (asin_bound x) as Hb. fold t in Hb. pose proof PI2_1. left. apply sin_increasing_1; lra. }
    pose proof (sin_lower (11 / 10000)). lra. }
  assert (x <= t) as Hxt. { rewrite <- Hs. destruct (Req_dec t 0) as [->|]; [rewrite sin_0; lra|]. left. apply sin_lt_x. lra. }
  pose proof (sin_lower t Ht0) as Hl. rewrite Hs in Hl.
  assert (t <= 100001 / 100000 * x) as Hr by nra.
  split; [lra|]. split; [assumption|]. split; [lra|].
  assert (t ^ 3 <= (100001 / 100000 * x) ^ 3) as H3 by (apply pow_incr; lra).
  assert (0 <= x ^ 2 <= 1 / 10 ^ 6) as H4 by nra.
  assert ((100001 / 100000 * x) ^ 3 <= 1003 / 1000 * (1 / 10 ^ 6) * x) as H5; [|lra].
  replace ((100001 / 100000 * x) ^ 3) with ((100001 / 100000) ^ 3 * (x ^ 2 * x)) by ring.
  assert (x ^ 2 * x <= 1 / 10 ^ 6 * x) by (apply Rmult_le_compat_r; lra). lra.
Qed.
Lemma sin_helper_ok n x : 0 <= x → x < 1 / 1000 * 3 ^ n →
  ∃ t, 0 <= t - x <= 168 / 10 ^ 9 * x ∧ ∀ k, (n < k)%nat → sin_helper exact k x = Value (sin t).
Proof.
  revert x. induction n as [|n IH]; intros x Hx Hn.
  - simpl in Hn. destruct (sin_small x) as (t & _ & Hs & Ht); [lra|]. exists t. split; [exact Ht|].
    intros [|k] Hk; [lia|]. rewrite sin_unroll. destruct (Rlt_dec _ _); [|lra]. now rewrite Hs.
  - destruct (Rlt_dec x (1 / 1000)) as [L|L].
    + destruct (sin_small x) as (t & _ & Hs & Ht); [lra|]. exists t. split; [exact Ht|].
      intros [|k] Hk; [lia|]. rewrite sin_unroll. destruct (Rlt_dec _ _); [|lra]. now rewrite Hs.
    + simpl in Hn. destruct (IH (x / 3)) as (t & Ht & He); [lra|lra|]. exists (3 * t). split; [lra|].
      intros [|k] Hk; [lia|]. rewrite sin_unroll. destruct (Rlt_dec _ _); [lra|]. rewrite He by lia. simpl obind.
      rewrite sin_3. reflexivity.
Qed.
Lemma sin_helper_near x : 0 <= x → ∃ v, returns (λ n, sin_helper exact n x) v ∧ within (17 / 10 ^ 8 * x) v (sin x).
Proof.
  intros Hx. destruct (three_pow (1000 * x)) as [n Hn]. destruct (sin_helper_ok n x Hx) as (t & Ht & He); [lra|].
  exists (sin t). split; [exists (S n); intros k Hk; apply He; lia|].
  unfold within. pose proof (sin_lip t x) as H. rewrite (Rabs_right (t - x)) in H by lra. lra.
Qed.
Lemma sin_pos_ok x : 0 <= x → ∃ v, returns (λ n, m_sin exact n x) v ∧ within (17 / 10 ^ 8 * x) v (sin x).
Proof.
  intros Hx. destruct (sin_helper_near x Hx) as (v & Hv & Hw). exists v. split; [|exact Hw].
  eapply ret_ext; [|exact Hv]. intros n. unfold m_sin. rewrite x_pi. cbn [obind]. rewrite x_nlt by (simpl; lra). reflexivity.
Qed.
Lemma sin_neg_ok x : x < 0 → ∃ v, returns (λ n, m_sin exact n x) v ∧ within (17 / 10 ^ 8 * (4 - x)) v (sin x).
Proof.
  intros Hx. set (p := 3141592653589793 / 1000000000000000). assert (0 <= - x + p) as Hp by (unfold p; lra).
  destruct (sin_helper_near _ Hp) as (v & Hv & Hw). exists v. split.
  - eapply ret_ext; [|exact Hv]. intros n. unfold m_sin. rewrite x_pi. cbn [obind]. rewrite x_lt by (simpl; lra). reflexivity.
  - unfold within in *. pose proof (sin_lip (- x + p) (- x + PI)) as H.
    assert (sin (- x + PI) = sin x) as E. { rewrite neg_sin, sin_neg. ring. } rewrite E in H.
    pose proof pi_ok as Hpi. replace (- x + p - (- x + PI)) with (p - PI) in H by ring.
    apply abs_between in Hpi. assert (Rabs (p - PI) <= 3 / 10 ^ 16) as Hq by (apply Rabs_le; unfold p; lra).
    replace (v - sin x) with ((v - sin (- x + p)) + (sin (- x + p) - sin x)) by ring.
    eapply Rle_trans; [apply Rabs_triang|]. unfold p in *. lra.
Qed.
Lemma sin_ok x : ∃ v, returns (λ n, m_sin exact n x) v ∧ within (17 / 10 ^ 8 * (Rabs x + 4)) v (sin x).
Proof.
  destruct (Rle_dec 0 x) as [H|H].
  - destruct (sin_pos_ok x H) as (v & Hv & Hw). exists v. split; [exact Hv|]. unfold within in *. rewrite (Rabs_right x) by lra. lra.
  - destruct (sin_neg_ok x) as (v & Hv & Hw); [lra|]. exists v. split; [exact Hv|]. unfold within in *. rewrite (Rabs_left x) by lra. lra.
Qed.
Lemma cos_ok x : ∃ v, returns (λ n, m_cos exact n x) v ∧ within (17 / 10 ^ 8 * (Rabs x + 6)) v (cos x).
Proof.
  set (h := 1570796326794897 / 1000000000000000). destruct (sin_ok (h - x)) as (v & Hv & Hw). exists v. split.
  - eapply ret_ext; [|exact Hv]. intros n. unfold m_cos. rewrite x_pi_2. reflexivity.
  - unfold within in *. pose proof (sin_lip (h - x) (PI / 2 - x)) as H. rewrite sin_shift in H.
    replace (h - x - (PI / 2 - x)) with (h - PI / 2) in H by ring.
    pose proof pi_ok as Hpi. apply abs_between in Hpi.
    assert (Rabs (h - PI / 2) <= 7 / 10 ^ 16) as Hq by (apply Rabs_le; unfold h; lra).
    replace (v - cos x) with ((v - sin (h - x)) + (sin (h - x) - cos x)) by ring.
    eapply Rle_trans; [apply Rabs_triang|].
    assert (Rabs (h - x) <= h + Rabs x) as Ht.
    { unfold Rminus. eapply Rle_trans; [apply Rabs_triang|]. rewrite Rabs_Ropp, (Rabs_right h) by (unfold h; lra). lra. }
    unfold h in *. lra.
Qed.

(** hyperbolic functions *)
Lemma sinh_small x : 0 <= x < 1 / 1000 → 0 <= x - arcsinh x <= 17 / 10 ^ 8 * x ∧ 0 <= arcsinh x.
Proof.
  intros Hx. pose proof (arcsinh_upper x (proj1 Hx)). pose proof (arcsinh_lower x (proj1 Hx)).
  pose proof (arcsinh_pos x (proj1 Hx)).
  assert (0 <= x ^ 2 <= 1 / 10 ^ 6) as H4 by nra.
  assert (x ^ 3 <= 1 / 10 ^ 6 * x). { replace (x ^ 3) with (x ^ 2 * x) by ring. apply Rmult_le_compat_r; lra. }
  lra.
Qed.
Lemma sinh_helper_ok n x : 0 <= x → x < 1 / 1000 * 3 ^ n →
  ∃ t, 0 <= t ∧ 0 <= x - t <= 17 / 10 ^ 8 * x ∧ ∀ k, (n < k)%nat → sinh_helper exact k x = Value (sinh t).
Proof.
  revert x. induction n as [|n IH]; intros x Hx Hn.
  - simpl in Hn. destruct (sinh_small x) as [Ht Hp]; [lra|]. exists (arcsinh x). split; [exact Hp|]. split; [exact Ht|].
    intros [|k] Hk; [lia|]. rewrite sinh_unroll. destruct (Rlt_dec _ _); [|lra]. now rewrite sinh_arcsinh.
  - destruct (Rlt_dec x (1 / 1000)) as [L|L].
    + destruct (sinh_small x) as [Ht Hp]; [lra|]. exists (arcsinh x). split; [exact Hp|]. split; [exact Ht|].
      intros [|k] Hk; [lia|]. rewrite sinh_unroll. destruct (Rlt_dec _ _); [|lra]. now rewrite sinh_arcsinh.
    + simpl in Hn. destruct (IH (x / 3)) as (t & Hp & Ht & He); [lra|lra|]. exists (3 * t). split; [lra|]. split; [lra|].
      intros [|k] Hk; [lia|]. rewrite sinh_unroll. destruct (Rlt_dec _ _); [lra|]. rewrite He by lia. simpl obind.
      rewrite sinh_3. reflexivity.
Qed.
Lemma sinh_helper_near x : 0 <= x → ∃ v, returns (λ n, sinh_helper exact n x) v ∧ within (17 / 10 ^ 8 * x * cosh x) v (sinh x).
Proof.
  intros Hx. destruct (three_pow (1000 * x)) as [n Hn]. destruct (sinh_helper_ok n x Hx) as (t & Hp & Ht & He); [lra|].
  exists (sinh t). split; [exists (S n); intros k Hk; apply He; lia|].
  unfold within. destruct (sinh_lip t x) as [H1 H2]; [lra|]. pose proof (cosh_1 x).
  assert ((x - t) * cosh x <= 17 / 10 ^ 8 * x * cosh x) by (apply Rmult_le_compat_r; lra). apply Rabs_le. lra.
Qed.
Lemma sinh_neg x : sinh (- x) = - sinh x.
Proof. unfold sinh. rewrite Ropp_involutive. field. Qed.
Lemma cosh_neg x : cosh (- x) = cosh x.
Proof. unfold cosh. rewrite Ropp_involutive. field. Qed.
Lemma sinh_ok x : ∃ v, returns (λ n, m_sinh exact n x) v ∧ within (17 / 10 ^ 8 * Rabs x * cosh x) v (sinh x).
Proof.
  destruct (Rle_dec 0 x) as [H|H].
  - destruct (sinh_helper_near x H) as (v & Hv & Hw). exists v. split.
    + eapply ret_ext; [|exact Hv]. intros n. unfold m_sinh. rewrite x_nlt by (simpl; lra). reflexivity.
    + rewrite (Rabs_right x) by lra. exact Hw.
  - destruct (sinh_helper_near (- x)) as (v & Hv & Hw); [lra|]. exists (- v). split.
    + eapply ret_ext. { intros n. unfold m_sinh. rewrite x_lt by (simpl; lra). reflexivity. }
      eapply ret_bind; [exact Hv|]. apply ret_val.
    + rewrite (Rabs_left x) by lra. unfold within in *. rewrite sinh_neg, cosh_neg in Hw.
      replace (- v - sinh x) with (- (v - - sinh x)) by ring. rewrite Rabs_Ropp. exact Hw.
Qed.
Lemma sinh_odd x v : 0 < x → returns (λ n, m_sinh exact n x) v → returns (λ n, m_sinh exact n (- x)) (- v).
Proof.
  intros Hx Hv. eapply ret_ext. { intros n. unfold m_sinh. rewrite x_lt by (simpl; lra). reflexivity. }
  eapply ret_bind; [|apply ret_val]. simpl nopp. rewrite Ropp_involutive.
  eapply ret_ext; [|exact Hv]. intros n. unfold m_sinh. rewrite x_nlt by (simpl; lra). reflexivity.
Qed.
Lemma hyp_lip a b : Rabs (sqrt (1 + a ^ 2) - sqrt (1 + b ^ 2)) <= Rabs (a - b).
Proof.
  set (p := sqrt (1 + a ^ 2)). set (q := sqrt (1 + b ^ 2)).
  assert (p * p = 1 + a ^ 2) as Hp by (apply sqrt_sqrt; nra). assert (q * q = 1 + b ^ 2) as Hq by (apply sqrt_sqrt; nra).
  assert (0 < p) as Hp0 by (apply sqrt_lt_R0; nra). assert (0 < q) as Hq0 by (apply sqrt_lt_R0; nra).
  assert (Rabs a <= p) as Ha. { apply Rsqr_incr_0_var; [|lra]. unfold Rsqr. rewrite <- Rabs_mult. rewrite Rabs_right; nra. }
  assert (Rabs b <= q) as Hb. { apply Rsqr_incr_0_var; [|lra]. unfold Rsqr. rewrite <- Rabs_mult. rewrite Rabs_right; nra. }
  apply (Rmult_le_reg_r (p + q)); [lra|]. rewrite <- (Rabs_right (p + q)) at 1 by lra. rewrite <- Rabs_mult.
  replace ((p - q) * (p + q)) with ((a - b) * (a + b)) by nra. rewrite Rabs_mult.
  apply Rmult_le_compat_l; [apply Rabs_pos|]. pose proof (Rabs_triang a b). lra.
Qed.
Lemma cosh_ok x : ∃ v, returns (λ n, m_cosh exact n x) v ∧ within ((11 / 10000 + 2 / 10 ^ 7 * Rabs x) * cosh x) v (cosh x).
Proof.
  destruct (sinh_ok x) as (s & Hs & Hw). destruct (sqrt_ok (1 + s ^ 2)) as (g & Hg & Hg0 & _ & Hg2); [nra|].
  exists g. split.
  - unfold m_cosh. eapply ret_bind; [exact Hs|]. eapply ret_ext; [|exact Hg]. intros n. unfold square. change (nadd exact (nint exact 1) (nmul exact s s)) with (1 + s * s). replace (1 + s * s) with (1 + s ^ 2) by ring. reflexivity.
  - apply sqrt_rel in Hg2; [|nra|exact Hg0]. unfold within in *.
    pose proof (hyp_lip s (sinh x)) as Hl. rewrite <- cosh_sq in Hl. pose proof (cosh_1 x) as Hc.
    replace (sqrt (cosh x ^ 2)) with (cosh x) in Hl by (rewrite sqrt_pow2; lra).
    pose proof (Rabs_pos x) as Hx. apply abs_between in Hg2, Hl, Hw.
    set (q := sqrt (1 + s ^ 2)) in *.
    assert (Rabs (s - sinh x) <= 17 / 10 ^ 8 * Rabs x * cosh x) as Hw' by (apply Rabs_le; lra).
    assert (0 <= Rabs x * cosh x) by (apply Rmult_le_pos; lra).
    apply Rabs_le. lra.
Qed.
