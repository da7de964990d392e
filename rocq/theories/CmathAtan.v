(** atan and atan2 in exact arithmetic. *)
From stdpp Require Import base tactics.
From Verif Require Import ModelCmath SpecCmath CmathBounds CmathReal.
From Coq Require Import ZArith Reals Lra Lia Psatz Machin.
Open Scope R_scope.

Lemma hpi_ok : Rabs (hpi - PI / 2) <= 1 / 10 ^ 15.
Proof. pose proof pi_ok as H. apply abs_between in H. apply Rabs_le. unfold hpi. lra. Qed.
Lemma cpi_ok : Rabs (cpi - PI) <= 1 / 10 ^ 15.
Proof. pose proof pi_ok as H. apply abs_between in H. apply Rabs_le. unfold cpi. lra. Qed.

Lemma aph_unroll n res num den d : den + 2 ≠ 0 → den ≠ 0 →
  atan_poly_helper exact (S n) res num den d =
  if Rlt_dec res (1 / 1000) then Value res
  else obind (atan_poly_helper exact n (num * d / (den + 2) - num / den) (num * d * d) (den + 4) d) (λ r, Value (res + r)).
Proof.
  intros H1 H2. cbn [atan_poly_helper]. rewrite x_tol. cbn [obind]. change (nadd exact) with Rplus. change (nmul exact) with Rmult.
  change (nsub exact) with Rminus. change (nint exact) with IZR. rewrite !x_div by assumption. cbn [obind].
  destruct (Rlt_dec _ _); [now rewrite x_lt|]. rewrite x_nlt by lra. reflexivity.
Qed.
Lemma apoly_run x r :
  returns (λ n, atan_poly_helper exact n (x ^ 5 / 5 - x ^ 3 / 3) (x ^ 7) 7 (x * x)) r →
  returns (λ n, atan_poly exact n x) (x + r).
Proof.
  intros H. unfold atan_poly.
  assert (∀ c z, c ≠ 0 → (0 <= z)%Z → ∀ B (k : nat → R → outcome B) v, returns (λ n, k n (x ^ Z.to_nat z / c)) v →
    returns (λ n, (p <~ m_pow exact n x z ;; p <~ ndiv exact p c ;; k n p)%out) v) as Hp.
  { intros c z Hc Hz B k v Hk. eapply ret_bind; [now apply pow_lit|]. eapply ret_bind; [|exact Hk].
    apply ret_eq. intros n. now apply x_div. }
  do 2 (apply Hp; [simpl; lra|lia|]). eapply ret_bind; [apply pow_lit; lia|]. eapply ret_bind; [|apply ret_val]. exact H.
Qed.
Lemma apoly_pos x : 0 <= x <= 28 / 100 → returns (λ n, atan_poly exact n x) (x + (x ^ 5 / 5 - x ^ 3 / 3)).
Proof.
  intros Hx. apply apoly_run. exists 1%nat. intros [|k] Hk; [lia|]. rewrite aph_unroll by lra.
  destruct (Rlt_dec _ _) as [|L]; [reflexivity|]. exfalso. apply L.
  assert (0 <= x ^ 3) by (apply pow_le; lra). replace (x ^ 5) with (x ^ 2 * x ^ 3) by ring.
  assert (x ^ 2 * x ^ 3 <= 1 * x ^ 3) by (apply Rmult_le_compat_r; nra). lra.
Qed.
Lemma pow7 x : 0 <= x <= 28 / 100 → 0 <= x ^ 7 <= 14 / 10 ^ 5.
Proof.
  intros Hx. split; [apply pow_le; lra|]. assert (x ^ 7 <= (28 / 100) ^ 7) by (apply pow_incr; lra). lra.
Qed.
Lemma apoly_ok x : Rabs x <= 28 / 100 →
  ∃ v, returns (λ n, atan_poly exact n x) v ∧ within (2 / 10 ^ 5) v (atan x) ∧ (0 < x → 0 < v) ∧ (x = 0 → v = 0).
Proof.
  intros Hx. apply abs_between in Hx. destruct (Rle_dec 0 x) as [H|H].
  - exists (x + (x ^ 5 / 5 - x ^ 3 / 3)). split; [apply apoly_pos; lra|].
    pose proof (atan_upper x H). pose proof (atan_lower x H). pose proof (pow7 x). split; [apply Rabs_le; lra|]. split.
    + intros Hp. assert (0 <= x ^ 5) by (apply pow_le; lra). replace (x ^ 3) with (x * x ^ 2) by ring. nra.
    + intros ->. field.
  - set (t := - x). assert (0 <= t <= 28 / 100) as Ht by (unfold t; lra). assert (x = - t) as E by (unfold t; ring).
    pose proof (atan_upper t (proj1 Ht)) as Hu. pose proof (atan_lower t (proj1 Ht)) as Hl. pose proof (pow7 t Ht) as H7.
    assert (0 <= t ^ 9) as H9 by (apply pow_le; lra).
    assert (t ^ 9 <= 1 / 10 * t ^ 7) as H97. { replace (t ^ 9) with (t ^ 2 * t ^ 7) by ring. apply Rmult_le_compat_r; nra. }
    rewrite E, atan_opp.
    destruct (Rlt_dec ((- t) ^ 5 / 5 - (- t) ^ 3 / 3) (1 / 1000)) as [L|L].
    + exists (- t + ((- t) ^ 5 / 5 - (- t) ^ 3 / 3)). split; [|split; [|lra]].
      * apply apoly_run. exists 1%nat. intros [|k] Hk; [lia|]. rewrite aph_unroll by lra. destruct (Rlt_dec _ _); [reflexivity|lra].
      * apply Rabs_le. replace ((- t) ^ 5) with (- t ^ 5) by ring. replace ((- t) ^ 3) with (- t ^ 3) by ring. lra.
    + exists (- t + ((- t) ^ 5 / 5 - (- t) ^ 3 / 3 + ((- t) ^ 7 * (- t * - t) / (7 + 2) - (- t) ^ 7 / 7))). split; [|split; [|lra]].
      * apply apoly_run. exists 2%nat. intros [|[|k]] Hk; [lia|lia|]. rewrite aph_unroll by lra. destruct (Rlt_dec _ _); [lra|].
        rewrite aph_unroll by lra. destruct (Rlt_dec _ _) as [|L']; [reflexivity|]. exfalso. apply L'.
        replace ((- t) ^ 7) with (- t ^ 7) by ring. replace (- t ^ 7 * (- t * - t)) with (- t ^ 9) by ring. lra.
      * apply Rabs_le. replace ((- t) ^ 7 * (- t * - t)) with (- t ^ 9) by ring. replace ((- t) ^ 5) with (- t ^ 5) by ring.
        replace ((- t) ^ 3) with (- t ^ 3) by ring. replace ((- t) ^ 7) with (- t ^ 7) by ring. lra.
Qed.
(** the square root of 3 *)
Lemma sqrt_3 : returns (λ n, m_sqrt exact n 3) (97 / 56).
Proof.
  unfold m_sqrt. change (nint exact 1) with 1. exists 4%nat. intros [|[|[|[|k]]]] Hk; try lia.
  rewrite sqrt_unroll by lra. destruct (Rlt_dec _ _) as [L|_]; [rewrite Rabs_left in L; lra|].
  replace ((1 + 3 / 1) / 2) with 2 by field.
  rewrite sqrt_unroll by lra. destruct (Rlt_dec _ _) as [L|_]; [rewrite Rabs_right in L; lra|].
  replace ((2 + 3 / 2) / 2) with (7 / 4) by field.
  rewrite sqrt_unroll by lra. replace (3 / (7 / 4)) with (12 / 7) by field.
  destruct (Rlt_dec _ _) as [L|_]; [rewrite Rabs_right in L; lra|].
  replace ((7 / 4 + 12 / 7) / 2) with (97 / 56) by field.
  rewrite sqrt_unroll by lra. replace (3 / (97 / 56)) with (168 / 97) by field.
  destruct (Rlt_dec _ _) as [_|L]; [reflexivity|]. exfalso. apply L. rewrite Rabs_right; lra.
Qed.
Lemma pi_6 : Rabs (atan (56 / 97) - PI / 6) <= 31 / 10 ^ 6.
Proof.
  assert (PI / 6 = atan (1 / sqrt 3)) as ->. { rewrite <- tan_PI6. symmetry. apply atan_tan. pose proof PI_RGT_0. lra. }
  assert (0 < sqrt 3) as H0 by (apply sqrt_lt_R0; lra). assert (sqrt 3 * sqrt 3 = 3) as H1 by (apply sqrt_sqrt; lra).
  assert (1 / sqrt 3 = sqrt 3 / 3) as ->. { apply (Rmult_eq_reg_r (sqrt 3)); [|lra].
    replace (1 / sqrt 3 * sqrt 3) with 1 by (field; lra). replace (sqrt 3 / 3 * sqrt 3) with (sqrt 3 * sqrt 3 / 3) by field. lra. }
  assert (173205 / 100000 < sqrt 3 < 1732051 / 1000000) as H2.
  { split; [destruct (Rlt_dec (173205 / 100000) (sqrt 3)); [lra|nra]|destruct (Rlt_dec (sqrt 3) (1732051 / 1000000)); [lra|nra]]. }
  destruct (atan_lip (56 / 97) (sqrt 3 / 3)); [lra|]. apply Rabs_le. lra.
Qed.
Lemma atan_shift x s : 0 < s → 0 <= x → atan x = atan (1 / s) + atan ((s * x - 1) / (s + x)).
Proof.
  intros Hs Hx. assert (0 < 1 / s) as Hi by (apply Rdiv_lt_0_compat; lra).
  assert (0 <= x * (1 / s)) by (apply Rmult_le_pos; lra).
  replace ((s * x - 1) / (s + x)) with (atan_sub x (1 / s)) by (unfold atan_sub; field; repeat split; try lra; nra).
  pose proof (atan_bound x). pose proof (atan_bound (1 / s)). pose proof (atan_bound (atan_sub x (1 / s))).
  assert (0 <= atan x). { destruct (atan_lip 0 x Hx). rewrite atan_0 in *. lra. }
  assert (0 <= atan (1 / s)). { destruct (atan_lip 0 (1 / s)); [lra|]. rewrite atan_0 in *. lra. }
  apply atan_sub_correct; lra.
Qed.
Lemma ident_ok x : 0 <= x <= 1 →
  ∃ v, returns (λ n, atan_identity exact n x) v ∧ within (53 / 10 ^ 6) v (atan x) ∧ (0 < x → 0 < v) ∧ (x = 0 → v = 0).
Proof.
  intros Hx. destruct (Rle_dec x (2 - 97 / 56)) as [L|L].
  - destruct (apoly_ok x) as (v & Hv & Hw & Hp); [rewrite Rabs_right; lra|]. exists v. split; [|split; [unfold within in *; lra|exact Hp]].
    unfold atan_identity. eapply ret_bind; [apply sqrt_3|]. change (nsub exact (nint exact 2) (97 / 56)) with (2 - 97 / 56).
    rewrite x_le by lra. exact Hv.
  - set (q := (97 / 56 * x - 1) / (97 / 56 + x)).
    assert (q * (97 / 56 + x) = 97 / 56 * x - 1) as Eq by (unfold q; field; lra).
    destruct (apoly_ok q) as (v & Hv & Hw & _); [apply Rabs_le; split; nra|].
    exists (hpi / 3 + v). split; [|split].
    + unfold atan_identity. eapply ret_bind; [apply sqrt_3|]. change (nsub exact (nint exact 2) (97 / 56)) with (2 - 97 / 56).
      rewrite x_nle by lra. rewrite x_pi_2. cbn [obind]. change (nint exact) with IZR. rewrite x_div by lra. cbn [obind].
      eapply ret_bind; [apply sqrt_3|]. eapply ret_bind; [apply sqrt_3|].
      change (nsub exact) with Rminus. change (nmul exact) with Rmult. change (nadd exact) with Rplus.
      rewrite x_div by lra. cbn [obind]. eapply ret_bind; [exact Hv|]. apply ret_val.
    + unfold within in *. rewrite (atan_shift x (97 / 56)) by lra. fold q.
      replace (1 / (97 / 56)) with (56 / 97) by field. pose proof pi_6 as H6. pose proof hpi_ok as Hh.
      apply abs_between in H6, Hh, Hw. apply Rabs_le. lra.
    + split; [|lra]. intros _. unfold within in Hw. apply abs_between in Hw.
      assert (-28 / 100 <= q) as Hq1 by nra. destruct (atan_lip (-28 / 100) q Hq1) as [Ha _].
      destruct (atan_lip (-28 / 100) 0) as [_ Hb]; [lra|]. rewrite atan_0 in Hb. unfold hpi. lra.
Qed.
Lemma ident_le x v : 0 <= x <= 1 → within (53 / 10 ^ 6) v (atan x) → v <= 8 / 10.
Proof.
  intros Hx Hw. apply abs_between in Hw. destruct (atan_lip x 1) as [H _]; [lra|]. rewrite atan_1 in H.
  pose proof pi_ok as H2. apply abs_between in H2. lra.
Qed.
Lemma cmpl_ok x : 0 <= x →
  ∃ v, returns (λ n, atan_cmplmntry exact n x) v ∧ within (54 / 10 ^ 6) v (atan x) ∧ (0 < x → 0 < v < hpi) ∧ (x = 0 → v = 0).
Proof.
  intros Hx. unfold atan_cmplmntry. change (nint exact 1) with 1. destruct (Rlt_dec x 1) as [L|L].
  - destruct (ident_ok x) as (v & Hv & Hw & Hp & H0); [lra|]. exists v. rewrite x_lt by lra. split; [exact Hv|].
    pose proof (ident_le x v ltac:(lra) Hw) as H8. split; [unfold within in *; lra|]. split; [|exact H0]. intros H. specialize (Hp H). unfold hpi. lra.
  - assert (0 < 1 / x <= 1) as Hi.
    { split; [apply Rdiv_lt_0_compat; lra|]. apply (Rmult_le_reg_r x); [lra|]. replace (1 / x * x) with 1 by (field; lra). lra. }
    destruct (ident_ok (1 / x)) as (v & Hv & Hw & Hp & _); [lra|]. exists (hpi - v). rewrite x_nlt by lra. split.
    + rewrite x_pi_2. cbn [obind]. rewrite x_div by lra. cbn [obind]. eapply ret_bind; [exact Hv|]. apply ret_val.
    + pose proof (ident_le (1 / x) v ltac:(lra) Hw) as H8. specialize (Hp (proj1 Hi)).
      split; [|split; [intros _; unfold hpi in *; lra|lra]].
      assert (atan (1 / x) = PI / 2 - atan x) as E. { replace (1 / x) with (/ x) by (field; lra). apply atan_inv. lra. }
      unfold within in *. rewrite E in Hw. pose proof hpi_ok as Hh. apply abs_between in Hh, Hw. apply Rabs_le. lra.
Qed.
Lemma atan_ok x :
  ∃ v, returns (λ n, m_atan exact n x) v ∧ within (54 / 10 ^ 6) v (atan x) ∧
    (0 < x → 0 < v < hpi) ∧ (x < 0 → - hpi < v < 0) ∧ (x = 0 → v = 0).
Proof.
  unfold m_atan. change (nint exact 0) with 0. destruct (Rle_dec 0 x) as [H|H].
  - destruct (cmpl_ok x H) as (v & Hv & Hw & Hp & H0). exists v. rewrite x_le by lra. repeat split; try assumption; try lra; now apply Hp.
  - destruct (cmpl_ok (- x)) as (v & Hv & Hw & Hp & H0); [lra|]. specialize (Hp ltac:(lra)). exists (- v). rewrite x_nle by lra. split.
    + eapply ret_bind; [exact Hv|]. apply ret_val.
    + unfold within in *. rewrite atan_opp in Hw. apply abs_between in Hw. split; [apply Rabs_le; lra|]. repeat split; lra.
Qed.
Lemma atan_odd x v : returns (λ n, m_atan exact n x) v → returns (λ n, m_atan exact n (- x)) (- v).
Proof.
  intros Hv. destruct (Req_dec x 0) as [->|Hx0].
  - rewrite Ropp_0. destruct (atan_ok 0) as (w & Hw & _ & _ & _ & H0). rewrite (ret_fun _ _ _ Hv Hw).
    rewrite (H0 eq_refl) in *. rewrite Ropp_0. exact Hw.
  - unfold m_atan in *. change (nint exact 0) with 0 in *. destruct (Rlt_dec 0 x) as [H|H].
    + assert (returns (λ n, atan_cmplmntry exact n x) v) as Hc.
      { eapply ret_ext; [|exact Hv]. intros n. cbv beta. rewrite x_le by (simpl; lra). reflexivity. }
      eapply ret_ext. { intros n. rewrite x_nle by lra. reflexivity. }
      eapply ret_bind; [|apply ret_val]. simpl nopp. rewrite Ropp_involutive. exact Hc.
    + destruct (cmpl_ok (- x)) as (w & Hw & _); [lra|].
      assert (returns (λ n, if n_le exact 0 x then atan_cmplmntry exact n x else (r <~ atan_cmplmntry exact n (nopp exact x);; Value (nopp exact r))%out) (- w)) as Hw'.
      { rewrite x_nle by lra. eapply ret_bind; [exact Hw|]. apply ret_val. }
      rewrite (ret_fun _ _ _ Hv Hw'), (Ropp_involutive w). eapply ret_ext; [|exact Hw]. intros n. cbv beta. rewrite x_le by (simpl; lra). reflexivity.
Qed.

(** angles *)
Lemma atan_unique a b : - (PI / 2) < b < PI / 2 → sin b = a * cos b → b = atan a.
Proof.
  intros Hb E. assert (0 < cos b) as Hc by (apply cos_gt_0; lra). rewrite <- (atan_tan b) by lra. f_equal.
  unfold tan. rewrite E. field. lra.
Qed.
Lemma angle_right t x y : angle t x y → 0 < x → t = atan (y / x).
Proof.
  intros ((H1 & H2) & d & Hd & -> & ->) Hx. pose proof PI_RGT_0. assert (0 < cos t) as Hc by nra.
  apply atan_unique.
  - split.
    + destruct (Rlt_dec (- (PI / 2)) t) as [|L]; [assumption|]. exfalso.
      assert (cos (- t) <= 0); [|rewrite cos_neg in *; lra]. apply cos_le_0; lra.
    + destruct (Rlt_dec t (PI / 2)) as [|L]; [assumption|]. exfalso. assert (cos t <= 0); [|lra]. apply cos_le_0; lra.
  - field. nra.
Qed.
Lemma angle_up t x y : angle t x y → 0 <= y → x < 0 → t = atan (y / x) + PI.
Proof.
  intros ((H1 & H2) & d & Hd & -> & ->) Hy Hx. pose proof PI_RGT_0. assert (cos t < 0) as Hc by nra. assert (0 <= sin t) as Hs by nra.
  assert (0 <= t) as Ht0. { destruct (Rle_dec 0 t) as [|L]; [assumption|]. exfalso. assert (sin t < 0); [|lra]. apply sin_lt_0_var; lra. }
  assert (t - PI = atan (d * sin t / (d * cos t))); [|lra]. apply atan_unique.
  - split; [|lra]. destruct (Rlt_dec (PI / 2) t); [lra|]. exfalso. assert (0 <= cos t); [|lra]. apply cos_ge_0; lra.
  - replace (t - PI) with (- (PI - t)) by ring. rewrite sin_neg, cos_neg.
    rewrite <- Rtrigo_facts.sin_pi_minus. replace (cos (PI - t)) with (- cos t).
    + replace (PI - (PI - t)) with t by ring. field. nra.
    + rewrite cos_minus, cos_PI, sin_PI. ring.
Qed.
Lemma angle_down t x y : angle t x y → y < 0 → x < 0 → t = atan (y / x) - PI.
Proof.
  intros ((H1 & H2) & d & Hd & -> & ->) Hy Hx. pose proof PI_RGT_0. assert (cos t < 0) as Hc by nra. assert (sin t < 0) as Hs by nra.
  assert (t < 0) as Ht0. { destruct (Rlt_dec t 0) as [|L]; [assumption|]. exfalso. assert (0 <= sin t); [|lra]. apply sin_ge_0; lra. }
  assert (t + PI = atan (d * sin t / (d * cos t))); [|lra]. apply atan_unique.
  - split; [lra|]. destruct (Rlt_dec t (- (PI / 2))); [lra|]. exfalso. assert (0 <= cos t); [|lra]. apply cos_ge_0; lra.
  - rewrite neg_sin, neg_cos. field. nra.
Qed.
Lemma angle_vert t y : angle t 0 y → t = (if Rlt_dec 0 y then PI / 2 else - (PI / 2)) ∧ y ≠ 0.
Proof.
  intros ((H1 & H2) & d & Hd & Hx & ->). pose proof PI_RGT_0. assert (cos t = 0) as Hc by nra.
  assert (sin t ≠ 0) as Hs. { intros E. pose proof (sin2_cos2 t) as H3. unfold Rsqr in H3. rewrite E, Hc in H3. lra. }
  split; [|nra]. destruct (Rlt_dec 0 (d * sin t)) as [L|L].
  - assert (0 < sin t) by nra.
    assert (0 < t). { destruct (Rlt_dec 0 t) as [|L']; [assumption|]. exfalso. destruct (Req_dec t 0) as [->|]; [rewrite sin_0 in *; lra|].
      assert (sin t < 0); [|lra]. apply sin_lt_0_var; lra. }
    destruct (Rtotal_order t (PI / 2)) as [L'|[E|L']]; [|exact E|].
    + assert (0 < cos t); [|lra]. apply cos_gt_0; lra.
    + assert (cos t < 0); [|lra]. apply cos_lt_0; lra.
  - assert (sin t < 0) by nra.
    assert (t < 0). { destruct (Rlt_dec t 0) as [|L']; [assumption|]. exfalso. assert (0 <= sin t); [|lra]. apply sin_ge_0; lra. }
    destruct (Rtotal_order t (- (PI / 2))) as [L'|[E|L']]; [|exact E|].
    + assert (cos (- t) < 0); [|rewrite cos_neg in *; lra]. apply cos_lt_0; lra.
    + assert (0 < cos t); [|lra]. apply cos_gt_0; lra.
Qed.
Lemma div_sign_pos y x : 0 < x → (0 < y → 0 < y / x) ∧ (y < 0 → y / x < 0) ∧ (y = 0 → y / x = 0).
Proof.
  intros Hx. assert (0 < / x) by (apply Rinv_0_lt_compat; lra). unfold Rdiv. repeat split; intros; try nra. 
Qed.
Lemma div_sign_neg y x : x < 0 → (0 < y → y / x < 0) ∧ (y < 0 → 0 < y / x) ∧ (y = 0 → y / x = 0).
Proof.
  intros Hx. assert (/ x < 0) by (apply Rinv_lt_0_compat; lra). unfold Rdiv. repeat split; intros; try nra. 
Qed.
Lemma atan2_ok y x t : angle t x y →
  ∃ v, returns (λ n, m_atan2 exact n y x) v ∧ within (55 / 10 ^ 6) v t ∧
    (0 < y → 0 < v) ∧ (y < 0 → v < 0) ∧ (0 < x → Rabs v < hpi) ∧ (x < 0 → cpi - hpi < Rabs v <= cpi).
Proof.
  intros Ha. unfold m_atan2. change (nint exact 0) with 0.
  destruct (Rtotal_order x 0) as [Hx|[->|Hx]].
  - rewrite (x_nlt 0 x) by lra. rewrite (x_lt x 0) by lra. destruct (div_sign_neg y x Hx) as (D1 & D2 & D3).
    destruct (atan_ok (y / x)) as (v & Hv & Hw & V1 & V2 & V3). destruct (Rle_dec 0 y) as [Hy|Hy].
    + exists (v + cpi). rewrite (x_le 0 y) by lra. cbn [andb]. rewrite x_div by lra. cbn [obind].
      assert (- hpi < v <= 0) as Hr. { destruct (Req_dec y 0) as [E|E]; [specialize (V3 (D3 E)); unfold hpi; lra|]. specialize (V2 (D1 ltac:(lra))). lra. }
      split; [|split].
      * eapply ret_bind; [exact Hv|]. rewrite x_pi. cbn [obind]. apply ret_val.
      * rewrite (angle_up t x y Ha Hy Hx). unfold within in *. pose proof cpi_ok as Hc. apply abs_between in Hw, Hc. apply Rabs_le. lra.
      * assert (0 < v + cpi) by (unfold cpi, hpi in *; lra). rewrite Rabs_right by lra. repeat split; try lra.
    + exists (v - cpi). rewrite (x_nle 0 y), (x_lt y 0) by lra. cbn [andb]. rewrite x_div by lra. cbn [obind].
      specialize (V1 (D2 ltac:(lra))). split; [|split].
      * eapply ret_bind; [exact Hv|]. rewrite x_pi. cbn [obind]. apply ret_val.
      * rewrite (angle_down t x y Ha) by lra. unfold within in *. pose proof cpi_ok as Hc. apply abs_between in Hw, Hc. apply Rabs_le. lra.
      * assert (v - cpi < 0) by (unfold cpi, hpi in *; lra). rewrite Rabs_left by lra. repeat split; try lra.
  - rewrite (x_nlt 0 0) by lra. rewrite (x_eq 0 0) by lra. rewrite !andb_false_r. destruct (angle_vert t y Ha) as [-> Hy].
    pose proof hpi_ok as Hh. apply abs_between in Hh. destruct (Rlt_dec 0 y) as [L|L].
    + exists hpi. rewrite x_lt by lra. simpl andb. cbn iota. split; [apply ret_eq; reflexivity|]. split; [apply Rabs_le; lra|].
      repeat split; try lra. unfold hpi; lra.
    + exists (- hpi). rewrite (x_nlt 0 y), (x_lt y 0) by lra. simpl andb. cbn iota. split; [apply ret_eq; reflexivity|]. split; [apply Rabs_le; lra|].
      repeat split; try lra. unfold hpi; lra.
  - rewrite (x_lt 0 x) by lra. destruct (div_sign_pos y x Hx) as (D1 & D2 & D3).
    destruct (atan_ok (y / x)) as (v & Hv & Hw & V1 & V2 & V3). exists v. rewrite x_div by lra. cbn [obind].
    split; [exact Hv|]. split; [rewrite (angle_right t x y Ha Hx); unfold within in *; lra|].
    split; [intros; now apply V1, D1|]. split; [intros; now apply V2, D2|]. split; [|lra]. intros _.
    destruct (Rtotal_order y 0) as [L|[L|L]].
    + specialize (V2 (D2 L)). rewrite Rabs_left; lra.
    + rewrite (V3 (D3 L)), Rabs_R0. unfold hpi. lra.
    + specialize (V1 (D1 L)). rewrite Rabs_right; lra.
Qed.
