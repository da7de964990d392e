(** mantissa, exponent and log in exact arithmetic. *)
From stdpp Require Import base tactics.
From Verif Require Import ModelCmath SpecCmath CmathBounds CmathReal.
From Coq Require Import ZArith Reals Lra Lia Psatz.
Open Scope R_scope.

Lemma mant_in m n : 1 <= m < 10 → mantissa exact (S n) m = Value m.
Proof.
  intros Hm. cbn [mantissa]. change (nint exact 10) with 10. change (nint exact 1) with 1.
  rewrite x_nle, x_nlt by lra. reflexivity.
Qed.
Lemma expo_in m n e : 1 <= m < 10 → exponent_helper exact (S n) m e = Value e.
Proof.
  intros Hm. cbn [exponent_helper]. change (nint exact 10) with 10. change (nint exact 1) with 1.
  rewrite x_nle, x_nlt by lra. reflexivity.
Qed.
Lemma mant_up m e n : 1 <= m < 10 → mantissa exact (S (e + n)) (m * 10 ^ e) = Value m.
Proof.
  intros Hm. induction e as [|e IH].
  - simpl pow. rewrite Rmult_1_r. simpl Nat.add. now apply mant_in.
  - change (S e + n)%nat with (S (e + n)). remember (S (e + n)) as k. cbn [mantissa].
    change (nint exact 10) with 10. change (nint exact 1) with 1. change (nmul exact) with Rmult.
    assert (1 <= 10 ^ e) by (apply pow_R1_Rle; lra). simpl pow.
    rewrite x_le by nra. rewrite x_tenth. cbn [obind].
    replace (m * (10 * 10 ^ e) * (1 / 10)) with (m * 10 ^ e) by field. exact IH.
Qed.
Lemma mant_down m e n : 1 <= m < 10 → mantissa exact (S (e + n)) (m * / 10 ^ e) = Value m.
Proof.
  intros Hm. induction e as [|e IH].
  - simpl pow. rewrite Rinv_1, Rmult_1_r. simpl Nat.add. now apply mant_in.
  - change (S e + n)%nat with (S (e + n)). remember (S (e + n)) as k. cbn [mantissa].
    change (nint exact 10) with 10. change (nint exact 1) with 1. change (nmul exact) with Rmult.
    assert (1 <= 10 ^ e) by (apply pow_R1_Rle; lra). simpl pow.
    assert (0 < / (10 * 10 ^ e)) by (apply Rinv_0_lt_compat; lra).
    assert (m * / (10 * 10 ^ e) < 1).
    { apply (Rmult_lt_reg_r (10 * 10 ^ e)); [lra|]. rewrite Rmult_assoc, Rinv_l by lra. nra. }
    rewrite x_nle, x_lt by lra.
    replace (m * / (10 * 10 ^ e) * 10) with (m * / 10 ^ e) by (field; lra). exact IH.
Qed.
Lemma expo_up m e n a : 1 <= m < 10 → (int_min <= a)%Z → (a + Z.of_nat e <= int_max)%Z →
  exponent_helper exact (S (e + n)) (m * 10 ^ e) a = Value (a + Z.of_nat e)%Z.
Proof.
  intros Hm. revert a. induction e as [|e IH]; intros a Ha He.
  - simpl pow. rewrite Rmult_1_r. simpl Nat.add. rewrite Z.add_0_r. now apply expo_in.
  - change (S e + n)%nat with (S (e + n)). remember (S (e + n)) as k. cbn [exponent_helper].
    change (nint exact 10) with 10. change (nint exact 1) with 1. change (nmul exact) with Rmult.
    assert (1 <= 10 ^ e) by (apply pow_R1_Rle; lra). simpl pow.
    rewrite x_le by nra. rewrite x_tenth. cbn [obind]. rewrite int_ok_in by lia. cbn [obind].
    replace (m * (10 * 10 ^ e) * (1 / 10)) with (m * 10 ^ e) by field. rewrite IH by lia. f_equal. lia.
Qed.
Lemma expo_down m e n a : 1 <= m < 10 → (int_min <= a - Z.of_nat e)%Z → (a <= int_max)%Z →
  exponent_helper exact (S (e + n)) (m * / 10 ^ e) a = Value (a - Z.of_nat e)%Z.
Proof.
  intros Hm. revert a. induction e as [|e IH]; intros a Ha He.
  - simpl pow. rewrite Rinv_1, Rmult_1_r. simpl Nat.add. rewrite Z.sub_0_r. now apply expo_in.
  - change (S e + n)%nat with (S (e + n)). remember (S (e + n)) as k. cbn [exponent_helper].
    change (nint exact 10) with 10. change (nint exact 1) with 1. change (nmul exact) with Rmult.
    assert (1 <= 10 ^ e) by (apply pow_R1_Rle; lra). simpl pow.
    assert (0 < / (10 * 10 ^ e)) by (apply Rinv_0_lt_compat; lra).
    assert (m * / (10 * 10 ^ e) < 1).
    { apply (Rmult_lt_reg_r (10 * 10 ^ e)); [lra|]. rewrite Rmult_assoc, Rinv_l by lra. nra. }
    rewrite x_nle, x_lt by lra. rewrite int_ok_in by lia. cbn [obind].
    replace (m * / (10 * 10 ^ e) * 10) with (m * / 10 ^ e) by (field; lra). rewrite IH by lia. f_equal. lia.
Qed.
Lemma mant_ok m e : 1 <= m < 10 → returns (λ n, mantissa exact n (m * powerRZ 10 e)) m.
Proof.
  intros Hm. exists (S (Z.to_nat (Z.abs e))). intros k Hk.
  replace k with (S (Z.to_nat (Z.abs e) + (k - S (Z.to_nat (Z.abs e)))))%nat by lia.
  destruct e as [|p|p]; cbn [powerRZ].
  - rewrite Rmult_1_r. now apply mant_in.
  - change (Z.to_nat (Z.abs (Z.pos p))) with (Pos.to_nat p). now apply mant_up.
  - change (Z.to_nat (Z.abs (Z.neg p))) with (Pos.to_nat p). now apply mant_down.
Qed.
Lemma expo_ok m e : 1 <= m < 10 → (int_min <= e <= int_max)%Z → returns (λ n, exponent exact n (m * powerRZ 10 e)) e.
Proof.
  intros Hm He. exists (S (Z.to_nat (Z.abs e))). intros k Hk.
  replace k with (S (Z.to_nat (Z.abs e) + (k - S (Z.to_nat (Z.abs e)))))%nat by lia.
  unfold exponent. unfold int_min, int_max in He. destruct e as [|p|p]; cbn [powerRZ].
  - rewrite Rmult_1_r. now apply expo_in.
  - change (Z.to_nat (Z.abs (Z.pos p))) with (Pos.to_nat p). rewrite expo_up; unfold int_min, int_max; try lia; [|exact Hm]. f_equal; lia.
  - change (Z.to_nat (Z.abs (Z.neg p))) with (Pos.to_nat p). rewrite expo_down; unfold int_min, int_max; try lia; [|exact Hm]. f_equal; lia.
Qed.
Lemma decimal_exists x : 0 < x → ∃ m e, 1 <= m < 10 ∧ x = m * powerRZ 10 e.
Proof.
  intros Hx. assert (0 < ln 10) as H10. { rewrite <- ln_1. apply ln_increasing; lra. }
  destruct (base_Int_part (ln x / ln 10)) as [H1 H2]. set (e := Int_part (ln x / ln 10)) in *.
  exists (x * powerRZ 10 (- e)), e. assert (0 < powerRZ 10 e) by (apply powerRZ_lt; lra).
  assert (powerRZ 10 (- e) * powerRZ 10 e = 1) as E.
  { rewrite <- powerRZ_add by lra. rewrite Z.add_opp_diag_l. reflexivity. }
  assert (powerRZ 10 e = exp (IZR e * ln 10)) as Ep. { rewrite powerRZ_Rpower by lra. reflexivity. }
  assert (IZR e * ln 10 <= ln x) as L1.
  { apply (Rmult_le_compat_r (ln 10)) in H1; [|lra]. unfold Rdiv in H1. rewrite Rmult_assoc, Rinv_l in H1 by lra. lra. }
  assert (ln x < IZR e * ln 10 + ln 10) as L2.
  { assert (ln x / ln 10 < IZR e + 1) as H3 by lra. apply (Rmult_lt_compat_r (ln 10)) in H3; [|lra].
    unfold Rdiv in H3. rewrite Rmult_assoc, Rinv_l in H3 by lra. lra. }
  assert (powerRZ 10 e <= x) as P1.
  { rewrite Ep. rewrite <- (exp_ln x) by lra. destruct L1 as [L1| ->]; [left; now apply exp_increasing|lra]. }
  assert (x < 10 * powerRZ 10 e) as P2.
  { rewrite Ep. apply exp_increasing in L2. rewrite exp_ln, exp_plus, exp_ln in L2 by lra. lra. }
  split; [|rewrite Rmult_assoc, E; ring].
  assert (0 < powerRZ 10 (- e)) by (apply powerRZ_lt; lra). split; nra.
Qed.
Lemma log_helper_ok g : 0 < g → returns (λ n, log_helper exact n g) (ln_series ((g - 1) / (g + 1))).
Proof.
  intros Hg. unfold log_helper, log_helper2. eapply ret_bind.
  { apply ret_eq. intros n. change (nint exact 1) with 1.
    change (nsub exact) with Rminus. change (nadd exact) with Rplus. apply x_div. lra. }
  set (y := (g - 1) / (g + 1)).
  assert (∀ c z, c ≠ 0 → (0 <= z)%Z → ∀ B (k : nat → R → outcome B) v, returns (λ n, k n (y ^ Z.to_nat z / c)) v →
    returns (λ n, (p <~ m_pow exact n y z ;; p <~ ndiv exact p c ;; k n p)%out) v) as H.
  { intros c z Hc Hz B k v Hk. eapply ret_bind; [now apply pow_lit|]. eapply ret_bind; [|exact Hk].
    apply ret_eq. intros n. now apply x_div. }
  do 5 (apply H; [simpl; lra|lia|]). apply ret_val.
Qed.
Lemma log_ok m e :
  1 <= m < 10 → (int_min <= e <= int_max)%Z →
  ∃ v, returns (λ n, m_log exact n (m * powerRZ 10 e)) v ∧
    within (11 / 10000 + 71 / 10 ^ 10 * IZR (Z.abs e)) v (ln (m * powerRZ 10 e)).
Proof.
  intros Hm He. set (x := m * powerRZ 10 e). assert (0 < powerRZ 10 e) as Hp by (apply powerRZ_lt; lra).
  assert (0 < x) as Hx by (unfold x; nra).
  destruct (sqrt_ok m) as (g & Hg & Hg0 & Hg1 & Hg2); [lra|].
  exists (2 * ln_series ((g - 1) / (g + 1)) + 23025851 / 10000000 * IZR e). split.
  - eapply ret_ext. { intros n. unfold m_log. change (nint exact 0) with 0. rewrite x_neq, x_nlt by lra. reflexivity. }
    eapply ret_bind; [now apply mant_ok|]. eapply ret_bind; [exact Hg|].
    eapply ret_bind; [now apply log_helper_ok|]. rewrite x_ln10. cbn [obind]. eapply ret_bind; [now apply expo_ok|].
    apply ret_val.
  - assert (1 <= g) as Hg3. { destruct Hg1 as [->|Hs]; [lra|]. assert (sqrt 1 <= sqrt m) by (apply sqrt_le_1; lra). rewrite sqrt_1 in *. lra. }
    apply Rabs_def2 in Hg2 as Hg4. assert (g <= 3165 / 1000) as Hg5. { destruct (Rle_dec g (3165 / 1000)); [lra|nra]. }
    assert (Rabs (ln m - ln (g * g)) <= (1 / 1000) / (1 - 1 / 1000)) as H1.
    { apply ln_close; [lra|nra|lra|]. lra. }
    set (y := (g - 1) / (g + 1)). assert (0 <= y <= 52 / 100) as Hy.
    { unfold y. split; [apply Rmult_le_pos; [lra|left; apply Rinv_0_lt_compat; lra]|].
      apply (Rmult_le_reg_r (g + 1)); [lra|]. unfold Rdiv at 1. rewrite Rmult_assoc, Rinv_l by lra. lra. }
    destruct (ln_series_ok (52 / 100) y Hy) as [L1 L2]; [lra|].
    replace ((1 + y) / (1 - y)) with g in L1, L2 by (unfold y; field; lra).
    assert (y ^ 13 <= (52 / 100) ^ 13) as L3 by (apply pow_incr; lra).
    assert (Rabs (ln g - ln_series y) <= 43 / 10 ^ 6) as L4.
    { replace (13 * (1 - (52 / 100) ^ 2)) with (1 / (625 / 5928)) in L2 by field.
      replace (2 * y ^ 13 / (1 / (625 / 5928))) with (2 * (625 / 5928) * y ^ 13) in L2 by field.
      apply Rabs_le. lra. }
    rewrite ln_mult in H1 by lra. unfold within. unfold x. rewrite ln_mult by lra.
    assert (ln (powerRZ 10 e) = IZR e * ln 10) as ->. { rewrite powerRZ_Rpower by lra. unfold Rpower. apply ln_exp. }
    pose proof ln10_ok as L5. apply abs_between in L4, L5, H1.
    assert (Rabs ((23025851 / 10000000 - ln 10) * IZR e) <= 71 / 10 ^ 10 * IZR (Z.abs e)) as L6.
    { rewrite Rabs_mult, abs_IZR. apply Rmult_le_compat_r; [apply Rabs_pos|apply ln10_ok]. }
    apply abs_between in L6. apply Rabs_le. lra.
Qed.
