(** <cmath> in exact arithmetic. *)
From stdpp Require Import base tactics.
From Verif Require Import ModelCmath SpecCmath CmathBounds.
From Coq Require Import ZArith Reals Lra Lia Psatz.
Open Scope R_scope.

(** returning *)
Lemma ret_val {A} (v : A) : returns (λ _, Value v) v.
Proof. exists O. intros k _. reflexivity. Qed.
Lemma ret_bind {A B} (f : nat → outcome A) a (k : nat → A → outcome B) v :
  returns f a → returns (λ n, k n a) v → returns (λ n, obind (f n) (k n)) v.
Proof.
  intros [n Hn] [m Hm]. exists (n + m)%nat. intros i Hi. rewrite Hn by lia. simpl. apply Hm. lia.
Qed.
Lemma ret_ext {A} (f g : nat → outcome A) v : (∀ n, g n = f n) → returns f v → returns g v.
Proof. intros E [n Hn]. exists n. intros k Hk. rewrite E. auto. Qed.
Lemma ret_eq {A} (f : nat → outcome A) v : (∀ n, f n = Value v) → returns f v.
Proof. intros E. exists O. intros k _. apply E. Qed.
Lemma ret_S {A} (f : nat → outcome A) v : returns (λ n, f (S n)) v → returns f v.
Proof. intros [n Hn]. exists (S n). intros [|k] Hk; [lia|]. apply Hn. lia. Qed.
Lemma ret_fun {A} (f : nat → outcome A) v w : returns f v → returns f w → v = w.
Proof. intros [n Hn] [m Hm]. specialize (Hn (n + m)%nat ltac:(lia)). specialize (Hm (n + m)%nat ltac:(lia)). congruence. Qed.

(** the operations *)
Lemma x_lt x y : x < y → n_lt exact x y = true.
Proof. intros H. simpl. destruct (Rlt_dec x y); [reflexivity|lra]. Qed.
Lemma x_nlt x y : y <= x → n_lt exact x y = false.
Proof. intros H. simpl. destruct (Rlt_dec x y); [lra|reflexivity]. Qed.
Lemma x_le x y : x <= y → n_le exact x y = true.
Proof. intros H. simpl. destruct (Rle_dec x y); [reflexivity|lra]. Qed.
Lemma x_nle x y : y < x → n_le exact x y = false.
Proof. intros H. simpl. destruct (Rle_dec x y); [lra|reflexivity]. Qed.
Lemma x_eq x y : x = y → n_eq exact x y = true.
Proof. intros H. simpl. destruct (Req_EM_T x y); [reflexivity|lra]. Qed.
Lemma x_neq x y : x ≠ y → n_eq exact x y = false.
Proof. intros H. simpl. destruct (Req_EM_T x y); [lra|reflexivity]. Qed.
Lemma x_div x y : y ≠ 0 → ndiv exact x y = Value (x / y).
Proof. intros H. simpl. destruct (Req_EM_T y 0); [lra|reflexivity]. Qed.
Lemma x_abs x : m_abs exact x = Rabs x.
Proof.
  unfold m_abs. simpl. unfold Rabs. destruct (Rlt_dec x 0), (Rcase_abs x); lra.
Qed.
Lemma x_tol : tol exact = Value (1 / 1000). Proof. reflexivity. Qed.
Lemma x_half : half exact = Value (5 / 10). Proof. reflexivity. Qed.
Lemma x_tenth : tenth exact = Value (1 / 10). Proof. reflexivity. Qed.
Lemma x_ln10 : ln10 exact = Value (23025851 / 10000000). Proof. reflexivity. Qed.
Lemma x_pi : m_pi exact = Value (3141592653589793 / 1000000000000000). Proof. reflexivity. Qed.
Lemma x_pi_2 : m_pi_2 exact = Value (1570796326794897 / 1000000000000000). Proof. reflexivity. Qed.
Lemma x_e : m_e exact = Value (2718281828459045 / 1000000000000000). Proof. reflexivity. Qed.
Lemma int_ok_in z : (int_min <= z <= int_max)%Z → int_ok z = Value z.
Proof. unfold int_ok. intros [H1 H2]. apply Z.leb_le in H1, H2. rewrite H1, H2. reflexivity. Qed.

(** pow *)
Lemma pow_nat b n k : (n < k)%nat → m_pow exact k b (Z.of_nat n) = Value (b ^ n).
Proof.
  revert n. induction k as [|k IH]; intros n Hn; [lia|]. simpl.
  destruct (Z.ltb_spec (Z.of_nat n) 0); [lia|]. destruct (Z.eqb_spec (Z.of_nat n) 0).
  { assert (n = O) as -> by lia. reflexivity. }
  destruct (Z.eqb_spec (Z.of_nat n) 1). { assert (n = 1%nat) as -> by lia. simpl. f_equal. ring. }
  replace (Z.of_nat n - 1)%Z with (Z.of_nat (n - 1)) by lia. rewrite IH by lia. simpl. f_equal.
  destruct n as [|n]; [lia|]. simpl. rewrite Nat.sub_0_r. reflexivity.
Qed.
Lemma pow_lit b z : (0 <= z)%Z → returns (λ n, m_pow exact n b z) (b ^ Z.to_nat z).
Proof.
  intros Hz. exists (S (Z.to_nat z)). intros k Hk. rewrite <- (Z2Nat.id z) at 1 by lia. apply pow_nat. lia.
Qed.
Lemma pow_ok b z :
  (int_min < z <= int_max)%Z → ((z < 0)%Z → b ≠ 0) → returns (λ n, m_pow exact n b z) (powerRZ b z).
Proof.
  intros Hz Hb. destruct (Z.lt_ge_cases z 0) as [Hn|Hn].
  - apply ret_S. simpl. destruct (Z.ltb_spec z 0); [|lia]. unfold int_min, int_max in Hz.
    rewrite int_ok_in by (unfold int_min, int_max; lia). simpl. eapply ret_bind; [apply pow_lit; lia|].
    apply (ret_ext (λ _, Value (1 / b ^ Z.to_nat (- z)))).
    + intros _. apply x_div. apply pow_nonzero. auto.
    + replace (powerRZ b z) with (1 / b ^ Z.to_nat (- z)); [apply ret_val|].
      destruct z as [|p|p]; try lia. simpl. unfold Rdiv. rewrite Rmult_1_l. reflexivity.
  - replace (powerRZ b z) with (b ^ Z.to_nat z); [apply pow_lit; lia|].
    destruct z as [|p|p]; try lia; reflexivity.
Qed.
Lemma pow_zero z : (int_min < z < 0)%Z → ∃ n, ∀ k, (n ≤ k)%nat → m_pow exact k 0 z = Undefined.
Proof.
  intros Hz. destruct (pow_lit 0 (- z)) as [n Hn]; [lia|]. exists (S n). intros [|k] Hk; [lia|]. simpl.
  destruct (Z.ltb_spec z 0); [|lia]. unfold int_min, int_max in *. rewrite int_ok_in by (unfold int_min, int_max; lia).
  cbn [obind]. rewrite Hn by lia. cbn [obind]. rewrite pow_i by lia.
  destruct (Req_EM_T 0 0); [reflexivity|lra].
Qed.
Lemma pow_min {T} (N : number T) b n : (0 < n)%nat → m_pow N n b int_min = Undefined.
Proof. destruct n; [lia|]. reflexivity. Qed.

(** sqrt *)
Lemma two_pow c : ∃ n : nat, c <= 2 ^ n.
Proof.
  assert (∀ n, INR n <= 2 ^ n) as H.
  { intros n. induction n as [|n IH]; [simpl; lra|]. rewrite S_INR. simpl. assert (1 <= 2 ^ n) by (apply pow_R1_Rle; lra). lra. }
  exists (Z.to_nat (up c)). specialize (H (Z.to_nat (up c))). destruct (archimed c) as [Hu _].
  rewrite INR_IZR_INZ in H. assert (IZR (up c) <= IZR (Z.of_nat (Z.to_nat (up c)))) by (apply IZR_le; lia). lra.
Qed.
Lemma sqrt_stop x g : 0 < g → Rabs (g - x / g) < 1 / 1000 * g ↔ Rabs (g * g - x) < 1 / 1000 * (g * g).
Proof.
  intros Hg. replace (g * g - x) with ((g - x / g) * g) by (field; lra).
  rewrite Rabs_mult, (Rabs_right g) by lra. split; intros H; [nra|].
  apply (Rmult_lt_reg_r g); [lra|]. lra.
Qed.
Lemma sqrt_unroll k x g : g ≠ 0 →
  sqrt_helper exact (S k) x g =
  if Rlt_dec (Rabs (g - x / g)) (1 / 1000 * g) then Value g else sqrt_helper exact k x ((g + x / g) / 2).
Proof.
  intros Hg. cbn [sqrt_helper]. rewrite x_tol. cbn [obind]. rewrite x_div by exact Hg. cbn [obind].
  rewrite x_abs. change (nsub exact) with Rminus. change (nmul exact) with Rmult. change (nadd exact) with Rplus.
  change (nint exact 2) with 2. rewrite x_div by lra.
  destruct (Rlt_dec _ _) as [L|L]; [now rewrite x_lt|]. rewrite x_nlt by lra. reflexivity.
Qed.
Lemma newton x g : 0 < x → 0 < g → let s := sqrt x in (g + x / g) / 2 - s = (g - s) ^ 2 / (2 * g).
Proof.
  intros Hx Hg s. assert (s * s = x) as E by (apply sqrt_sqrt; lra). rewrite <- E at 1. field. lra.
Qed.
Lemma sqrt_loop x n g : 0 < x → sqrt x <= g → g - sqrt x <= 4 / 10000 * sqrt x * 2 ^ n →
  ∃ r, (∀ k, (n < k)%nat → sqrt_helper exact k x g = Value r) ∧ sqrt x <= r ∧ Rabs (r * r - x) < 1 / 1000 * (r * r).
Proof.
  intros Hx. assert (0 < sqrt x) as Hs by (apply sqrt_lt_R0; lra).
  assert (sqrt x * sqrt x = x) as Hss by (apply sqrt_sqrt; lra).
  revert g. induction n as [|n IH]; intros g Hg Hd.
  - assert (Rabs (g * g - x) < 1 / 1000 * (g * g)) as Hr. { simpl in Hd. rewrite Rabs_right; nra. }
    exists g. split; [|tauto]. intros [|k] Hk; [lia|]. rewrite sqrt_unroll by lra.
    apply sqrt_stop in Hr; [|lra]. destruct (Rlt_dec _ _); [reflexivity|lra].
  - destruct (Rlt_dec (Rabs (g - x / g)) (1 / 1000 * g)) as [L|L].
    + exists g. apply sqrt_stop in L as L'; [|lra]. split; [|tauto]. intros [|k] Hk; [lia|]. rewrite sqrt_unroll by lra.
      destruct (Rlt_dec _ _); [reflexivity|lra].
    + pose proof (newton x g Hx ltac:(lra)) as Hn. simpl in Hn.
      assert (0 < / (2 * g)) as Hi by (apply Rinv_0_lt_compat; lra).
      assert ((g - sqrt x) ^ 2 / (2 * g) <= (g - sqrt x) / 2) as Hb.
      { apply (Rmult_le_reg_r (2 * g)); [lra|]. unfold Rdiv. rewrite Rmult_assoc, Rinv_l by lra. nra. }
      assert (0 <= (g - sqrt x) ^ 2 / (2 * g)) as Hp by (apply Rmult_le_pos; [apply pow2_ge_0|lra]).
      destruct (IH ((g + x / g) / 2)) as (r & Hr & ?).
      * simpl in *; lra.
      * simpl in *; lra.
      * exists r. split; [|tauto]. intros [|k] Hk; [lia|]. rewrite sqrt_unroll by lra.
        destruct (Rlt_dec _ _); [lra|]. apply Hr. lia.
Qed.
Lemma sqrt_ok x : 0 < x →
  ∃ g, returns (λ n, m_sqrt exact n x) g ∧ 0 < g ∧ (g = 1 ∨ sqrt x <= g) ∧ Rabs (g * g - x) < 1 / 1000 * (g * g).
Proof.
  intros Hx. unfold m_sqrt. change (nint exact 1) with 1.
  assert (0 < sqrt x) as Hs by (apply sqrt_lt_R0; lra).
  destruct (Rlt_dec (Rabs (1 - x / 1)) (1 / 1000 * 1)) as [L|L].
  - exists 1. apply sqrt_stop in L as L'; [|lra]. split; [|auto using Rlt_0_1].
    exists 1%nat. intros [|k] Hk; [lia|]. rewrite sqrt_unroll by lra. destruct (Rlt_dec _ _); [reflexivity|lra].
  - set (g := (1 + x / 1) / 2). pose proof (newton x 1 Hx Rlt_0_1) as Hn. cbv zeta in Hn. fold g in Hn.
    assert (sqrt x <= g) as Hg. { assert (0 <= (1 - sqrt x) ^ 2) by apply pow2_ge_0. lra. }
    destruct (two_pow ((g - sqrt x) / (4 / 10000 * sqrt x))) as [n Hp].
    destruct (sqrt_loop x n g Hx Hg) as (r & Hr & Hr1 & Hr2).
    { apply (Rmult_le_compat_r (4 / 10000 * sqrt x)) in Hp; [|lra]. unfold Rdiv at 1 in Hp.
      rewrite Rmult_assoc, Rinv_l in Hp by lra. lra. }
    exists r. split; [|split; [lra|auto]]. exists (S (S n)). intros [|k] Hk; [lia|]. rewrite sqrt_unroll by lra.
    destruct (Rlt_dec _ _); [lra|]. apply Hr. lia.
Qed.
Lemma sqrt_zero : runs_forever (λ n, m_sqrt exact n 0).
Proof.
  intros n. unfold m_sqrt. change (nint exact 1) with 1. assert (0 < 1) as H by lra. revert H. generalize 1.
  induction n as [|n IH]; intros g Hg; [reflexivity|]. rewrite sqrt_unroll by lra.
  replace (0 / g) with 0 by (field; lra). rewrite Rminus_0_r, Rabs_right by lra.
  destruct (Rlt_dec _ _); [lra|]. apply IH. lra.
Qed.
Lemma sqrt_negative x : x < 0 → never_returns (λ n, m_sqrt exact n x).
Proof.
  intros Hx n v. unfold m_sqrt. generalize (nint exact 1). induction n as [|n IH]; intros g; [discriminate|].
  destruct (Req_EM_T g 0) as [->|Hg].
  { cbn [sqrt_helper]. rewrite x_tol. simpl. destruct (Req_EM_T 0 0); [discriminate|lra]. }
  rewrite sqrt_unroll by lra. destruct (Rlt_dec _ _) as [L|L]; [exfalso|apply IH].
  destruct (Rlt_dec g 0) as [G|G]; [pose proof (Rabs_pos (g - x / g)); lra|].
  apply sqrt_stop in L; [|lra]. rewrite Rabs_right in L by nra. nra.
Qed.
Lemma sqrt_rel x g : 0 < x → 0 < g → Rabs (g * g - x) < 1 / 1000 * (g * g) → Rabs (g - sqrt x) <= 6 / 10000 * sqrt x.
Proof.
  intros Hx Hg H. assert (0 < sqrt x) as Hs by (apply sqrt_lt_R0; lra).
  assert (sqrt x * sqrt x = x) as Hss by (apply sqrt_sqrt; lra).
  remember (sqrt x) as s. apply Rabs_def2 in H. apply Rabs_le.
  assert (g <= s + 6 / 10000 * s). { destruct (Rle_dec g (s + 6 / 10000 * s)); [lra|]. nra. }
  assert (s - 6 / 10000 * s <= g). { destruct (Rle_dec (s - 6 / 10000 * s) g); [lra|]. nra. }
  lra.
Qed.
