(** nearest, fraction, exp, floor and ceil in exact arithmetic. *)
From stdpp Require Import base tactics.
From Verif Require Import ModelCmath SpecCmath CmathBounds CmathReal.
From Coq Require Import ZArith Reals Lra Lia Psatz.
Open Scope R_scope.

Definition in_int (n : Z) : Prop := (int_min <= n <= int_max)%Z.
Lemma int_part_spec r z : r - 1 < IZR z <= r → z = Int_part r.
Proof.
  intros H. unfold Int_part. rewrite <- (tech_up r (z + 1)); [lia| |]; rewrite plus_IZR; lra.
Qed.
Lemma trunc_pos x n : 0 <= x → IZR n <= x < IZR n + 1 → in_int n → ntrunc exact x = Value n.
Proof.
  intros Hx Hn Hi. simpl. destruct (Rle_dec 0 x); [|lra]. rewrite <- (int_part_spec x n) by lra. now apply int_ok_in.
Qed.
Lemma trunc_neg x n : x < 0 → IZR n - 1 < x <= IZR n → in_int n → ntrunc exact x = Value n.
Proof.
  intros Hx Hn Hi. simpl. destruct (Rle_dec 0 x); [lra|].
  rewrite <- (int_part_spec (- x) (- n)) by (rewrite opp_IZR; lra). rewrite Z.opp_involutive. now apply int_ok_in.
Qed.
Lemma trunc_int n : in_int n → ntrunc exact (IZR n) = Value n.
Proof.
  intros Hn. destruct (Rle_dec 0 (IZR n)); [apply trunc_pos|apply trunc_neg]; try assumption; lra.
Qed.
Lemma int_of_real x : Rabs x < 2147483647 → 0 <= x → ∃ n, IZR n <= x < IZR n + 1 ∧ (0 <= n < int_max)%Z.
Proof.
  intros Hx H0. destruct (base_Int_part x) as [H1 H2]. exists (Int_part x). split; [lra|].
  rewrite Rabs_right in Hx by lra. unfold int_max. split.
  - assert (-1 < IZR (Int_part x)) as H by lra. apply lt_IZR in H. lia.
  - apply lt_IZR. lra.
Qed.
(** the two parts of the argument of exp *)
Lemma split_ok x : Rabs x < 2147483647 →
  ∃ n f, nearest exact x = Value (IZR n) ∧ fraction exact x = Value f ∧ IZR n + f = x ∧ -1 < f <= 1 / 2 ∧
    (- int_max < n <= int_max)%Z.
Proof.
  intros Hx. unfold nearest, fraction. rewrite x_half. cbn [obind].
  change (nsub exact) with Rminus. change (nadd exact) with Rplus. change (nint exact) with IZR. change (nopp exact) with Ropp.
  destruct (Rle_dec 0 x) as [H0|H0].
  - destruct (int_of_real x Hx H0) as (n & Hn & Hi).
    rewrite (trunc_pos x n) by (unfold in_int, int_min, int_max in *; first [lra|lia]). cbn [obind].
    destruct (Rlt_dec (IZR n) (x - 5 / 10)) as [L|L].
    + exists (n + 1)%Z, (- (IZR (n + 1) - x)). rewrite !x_lt by lra.
      rewrite (trunc_pos (x + 5 / 10) (n + 1)); [| lra | rewrite plus_IZR; lra | unfold in_int, int_min in *; lia].
      cbn [obind]. rewrite plus_IZR. repeat split; try reflexivity; try lra; unfold int_max in *; lia.
    + exists n, (x - IZR n). rewrite !x_nlt by lra. cbn [obind].
      repeat split; try reflexivity; try lra; unfold int_max in *; lia.
  - destruct (int_of_real (- x)) as (n & Hn & Hi); [rewrite Rabs_Ropp; exact Hx|lra|].
    rewrite (trunc_neg x (- n)); [|lra|rewrite opp_IZR; lra|unfold in_int, int_min, int_max in *; lia]. cbn [obind].
    exists (- n)%Z, (x - IZR (- n)). rewrite opp_IZR. rewrite !x_nlt by lra. cbn [obind].
    repeat split; try reflexivity; try lra; unfold int_max in *; lia.
Qed.
Lemma exp_helper_val r : returns (λ n, exp_helper exact n r) (ep 7 r).
Proof.
  unfold exp_helper.
  assert (∀ c z, c ≠ 0 → (0 <= z)%Z → ∀ B (k : nat → R → outcome B) v, returns (λ n, k n (r ^ Z.to_nat z / c)) v →
    returns (λ n, (p <~ m_pow exact n r z ;; p <~ ndiv exact p c ;; k n p)%out) v) as H.
  { intros c z Hc Hz B k v Hk. eapply ret_bind; [now apply pow_lit|]. eapply ret_bind; [|exact Hk].
    apply ret_eq. intros n. now apply x_div. }
  do 6 (apply H; [simpl; lra|lia|]). apply ret_eq. intros n. f_equal. unfold ep.
  rewrite !fact_S. change (INR (fact 0)) with 1. rewrite !INR_IZR_INZ. simpl. field.
Qed.
Lemma ep7_rel r : -1 < r <= 1 / 2 → Rabs (ep 7 r - exp r) <= 7 / 10 ^ 5 * exp r.
Proof.
  intros Hr. assert (INR (fact 8) = 40320) as E8. { rewrite !fact_S. change (INR (fact 0)) with 1. rewrite !INR_IZR_INZ. simpl. ring. }
  pose proof (exp_pos r) as He. destruct (Rle_dec 0 r) as [H|H].
  - destruct (ep_pos 7 r H) as [H1 H2]. rewrite E8 in H2.
    assert (r ^ 8 <= 1 ^ 8) as H3 by (apply pow_incr; lra). rewrite pow1 in H3.
    assert (r ^ 8 / 40320 * exp r <= 7 / 10 ^ 5 * exp r) by (apply Rmult_le_compat_r; lra). apply Rabs_le. lra.
  - pose proof (ep_neg 7 (- r)) as H1. rewrite Ropp_involutive, E8 in H1. specialize (H1 ltac:(lra)).
    assert ((- r) ^ 8 <= 1 ^ 8) as H3 by (apply pow_incr; lra). rewrite pow1 in H3.
    assert (exp (-1) <= exp r) as H4 by (left; apply exp_increasing; lra).
    assert (exp (-1) * exp 1 = 1) as H5. { rewrite <- exp_plus. replace (-1 + 1) with 0 by ring. apply exp_0. }
    pose proof e_ok as He1. apply abs_between in He1. pose proof (exp_pos (-1)).
    assert (36 / 100 <= exp (-1)) by nra. rewrite Rabs_minus_sym. lra.
Qed.
Lemma e_power n : (- int_max < n <= int_max)%Z →
  Rabs (powerRZ (2718281828459045 / 1000000000000000) n - exp (IZR n)) <= 1 / 10 ^ 6 * exp (IZR n).
Proof.
  intros Hn. set (c := 2718281828459045 / 1000000000000000).
  assert (0 < c) as Hc by (unfold c; lra).
  assert (powerRZ c n = exp (IZR n) * exp (IZR n * (ln c - 1))) as ->.
  { rewrite powerRZ_Rpower by exact Hc. unfold Rpower. rewrite <- exp_plus. f_equal. ring. }
  pose proof e_ok as He. apply abs_between in He.
  assert (Rabs (ln c - ln (exp 1)) <= (2 / 10 ^ 16) / (1 - 2 / 10 ^ 16)) as Hl.
  { apply ln_close; [exact Hc|apply exp_pos|lra|]. apply Rabs_le. unfold c. lra. }
  rewrite ln_exp in Hl. assert (Rabs (ln c - 1) <= 3 / 10 ^ 16) as Hl' by lra.
  assert (Rabs (IZR n) <= 2147483647) as Ha.
  { rewrite <- abs_IZR. apply IZR_le. unfold int_max in Hn. lia. }
  set (t := IZR n * (ln c - 1)). assert (Rabs t <= 7 / 10 ^ 7) as Ht.
  { unfold t. rewrite Rabs_mult. assert (Rabs (IZR n) * Rabs (ln c - 1) <= 2147483647 * (3 / 10 ^ 16)); [|lra].
    apply Rmult_le_compat; try apply Rabs_pos; assumption. }
  apply abs_between in Ht. pose proof (exp_pos (IZR n)) as Hp.
  replace (exp (IZR n) * exp t - exp (IZR n)) with ((exp t - 1) * exp (IZR n)) by ring.
  rewrite Rabs_mult, (Rabs_right (exp (IZR n))) by lra. apply Rmult_le_compat_r; [lra|].
  pose proof (exp_ineq1_le t) as H1. pose proof (exp_ineq1_le (- t)) as H2. pose proof (exp_pos t) as H3.
  assert (exp t * exp (- t) = 1) as H4. { rewrite <- exp_plus, Rplus_opp_r. apply exp_0. }
  apply Rabs_le. nra.
Qed.
Lemma exp_ok x : Rabs x < 2147483647 →
  ∃ v, returns (λ n, m_exp exact n x) v ∧ within (8 / 10 ^ 5 * exp x) v (exp x).
Proof.
  intros Hx. destruct (split_ok x Hx) as (n & f & Hn & Hf & E & Hfr & Hr).
  exists (powerRZ (2718281828459045 / 1000000000000000) n * ep 7 f). split.
  - unfold m_exp. rewrite x_e, Hn, Hf. cbn [obind]. rewrite trunc_int by (unfold in_int, int_min, int_max in *; lia).
    cbn [obind]. eapply ret_bind.
    { apply pow_ok; [unfold int_min, int_max in *; lia|]. intros _. lra. }
    eapply ret_bind; [apply exp_helper_val|]. apply ret_val.
  - unfold within. pose proof (e_power n Hr) as H1. pose proof (ep7_rel f Hfr) as H2. rewrite <- E, exp_plus.
    set (p := powerRZ _ n) in *. set (q := ep 7 f) in *. set (u := exp (IZR n)) in *. set (w := exp f) in *.
    assert (0 < u) by apply exp_pos. assert (0 < w) by apply exp_pos.
    replace (p * q - u * w) with ((p - u) * q + u * (q - w)) by ring.
    eapply Rle_trans; [apply Rabs_triang|]. rewrite !Rabs_mult, (Rabs_right u) by lra.
    assert (Rabs q <= 11 / 10 * w) as Hq. { apply abs_between in H2. apply Rabs_le. lra. }
    assert (Rabs (p - u) * Rabs q <= 1 / 10 ^ 6 * u * (11 / 10 * w)) by (apply Rmult_le_compat; try apply Rabs_pos; assumption).
    assert (u * Rabs (q - w) <= u * (7 / 10 ^ 5 * w)) by (apply Rmult_le_compat_l; lra).
    assert (0 < u * w) by (apply Rmult_lt_0_compat; lra). lra.
Qed.
