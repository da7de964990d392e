(** Bounds on elementary functions of real numbers. *)
From Coq Require Import Reals Lra Lia Psatz Machin.
From Coquelicot Require Import Coquelicot.
Open Scope R_scope.

Lemma abs_between x a : Rabs x <= a -> - a <= x <= a.
Proof. apply Rabs_le_between. Qed.
(** a function with a non-negative derivative grows *)
Lemma grow (f f' : R -> R) a b :
  a <= b -> (forall x, a <= x <= b -> is_derive f x (f' x)) ->
  (forall x, a <= x <= b -> 0 <= f' x) -> f a <= f b.
Proof.
  intros Hab Hd Hp. destruct Hab as [Hab|<-]; [|lra].
  destruct (MVT_gen f a b f') as (c & Hc & E).
  - intros x Hx. rewrite Rmin_left, Rmax_right in Hx by lra. apply Hd. lra.
  - intros x Hx. rewrite Rmin_left, Rmax_right in Hx by lra.
    apply continuity_pt_filterlim. apply (ex_derive_continuous f). exists (f' x). apply Hd. lra.
  - rewrite Rmin_left, Rmax_right in Hc by lra. specialize (Hp c Hc). nra.
Qed.

(** arctangent *)
Lemma atan_upper x : 0 <= x -> atan x <= x - x ^ 3 / 3 + x ^ 5 / 5.
Proof.
  intros Hx.
  assert (0 - 0 ^ 3 / 3 + 0 ^ 5 / 5 - atan 0 <= x - x ^ 3 / 3 + x ^ 5 / 5 - atan x) as H.
  { apply (grow (fun t => t - t ^ 3 / 3 + t ^ 5 / 5 - atan t) (fun t => t ^ 6 / (1 + t ^ 2)) 0 x Hx).
    - intros t _. auto_derive; [trivial|]. unfold Rsqr. field. nra.
    - intros t _. apply Rmult_le_pos; [|left; apply Rinv_0_lt_compat; nra].
      replace (t ^ 6) with ((t ^ 3) ^ 2) by ring. apply pow2_ge_0. }
  rewrite atan_0 in H. lra.
Qed.
Lemma atan_lower x : 0 <= x -> x - x ^ 3 / 3 + x ^ 5 / 5 - x ^ 7 / 7 <= atan x.
Proof.
  intros Hx.
  assert (atan 0 - (0 - 0 ^ 3 / 3 + 0 ^ 5 / 5 - 0 ^ 7 / 7) <= atan x - (x - x ^ 3 / 3 + x ^ 5 / 5 - x ^ 7 / 7)) as H.
  { apply (grow (fun t => atan t - (t - t ^ 3 / 3 + t ^ 5 / 5 - t ^ 7 / 7)) (fun t => t ^ 8 / (1 + t ^ 2)) 0 x Hx).
    - intros t _. auto_derive; [trivial|]. unfold Rsqr. field. nra.
    - intros t _. apply Rmult_le_pos; [|left; apply Rinv_0_lt_compat; nra].
      replace (t ^ 8) with ((t ^ 4) ^ 2) by ring. apply pow2_ge_0. }
  rewrite atan_0 in H. lra.
Qed.
Lemma atan_lip x y : x <= y -> 0 <= atan y - atan x <= y - x.
Proof.
  intros Hxy. split.
  - destruct Hxy as [H|<-]; [|lra]. apply Rlt_le, Rlt_Rminus. now apply atan_increasing.
  - assert (x - atan x <= y - atan y); [|lra].
    apply (grow (fun t => t - atan t) (fun t => t ^ 2 / (1 + t ^ 2)) x y Hxy).
    + intros t _. auto_derive; [trivial|]. unfold Rsqr. field. nra.
    + intros t _. apply Rmult_le_pos; [nra|left; apply Rinv_0_lt_compat; nra].
Qed.

(** sine near zero *)
Lemma cos_lower x : 0 <= x -> 1 - x ^ 2 / 2 <= cos x.
Proof.
  intros Hx. assert (cos 0 - (1 - 0 ^ 2 / 2) <= cos x - (1 - x ^ 2 / 2)) as H.
  { apply (grow (fun t => cos t - (1 - t ^ 2 / 2)) (fun t => t - sin t) 0 x Hx).
    - intros t _. auto_derive; [trivial|]. field.
    - intros t Ht. destruct (Req_dec t 0) as [->|Hn]; [rewrite sin_0; lra|]. pose proof (sin_lt_x t). lra. }
  rewrite cos_0 in H. lra.
Qed.
Lemma sin_lower x : 0 <= x -> x - x ^ 3 / 6 <= sin x.
Proof.
  intros Hx. assert (sin 0 - (0 - 0 ^ 3 / 6) <= sin x - (x - x ^ 3 / 6)) as H.
  { apply (grow (fun t => sin t - (t - t ^ 3 / 6)) (fun t => cos t - (1 - t ^ 2 / 2)) 0 x Hx).
    - intros t _. auto_derive; [trivial|]. field.
    - intros t Ht. pose proof (cos_lower t). lra. }
  rewrite sin_0 in H. lra.
Qed.
Lemma sin_lip x y : Rabs (sin x - sin y) <= Rabs (x - y).
Proof.
  enough (forall x y, x <= y -> Rabs (sin x - sin y) <= y - x) as H.
  { destruct (Rle_dec x y) as [L|L].
    - rewrite (Rabs_left1 (x - y)) by lra. specialize (H x y L). lra.
    - rewrite Rabs_minus_sym, (Rabs_right (x - y)) by lra. apply H. lra. }
  clear. intros x y Hxy.
  assert (x - sin x <= y - sin y).
  { apply (grow (fun t => t - sin t) (fun t => 1 - cos t) x y Hxy); [intros t _; auto_derive; [trivial|ring]|].
    intros t _. pose proof (COS_bound t). lra. }
  assert (x + sin x <= y + sin y).
  { apply (grow (fun t => t + sin t) (fun t => 1 + cos t) x y Hxy); [intros t _; auto_derive; [trivial|ring]|].
    intros t _. pose proof (COS_bound t). lra. }
  apply Rabs_le. lra.
Qed.

(** hyperbolic sine near zero *)
Lemma derive_sinh x : is_derive sinh x (cosh x).
Proof. apply is_derive_Reals, derivable_pt_lim_sinh. Qed.
Lemma derive_cosh x : is_derive cosh x (sinh x).
Proof. apply is_derive_Reals, derivable_pt_lim_cosh. Qed.
Lemma cosh_1 x : 1 <= cosh x.
Proof.
  unfold cosh. pose proof (exp_pos x) as H1. pose proof (exp_pos (- x)) as H2.
  assert (exp x * exp (- x) = 1) as H3. { rewrite <- exp_plus, Rplus_opp_r. apply exp_0. }
  assert (0 <= (exp x - exp (- x)) ^ 2) as H4 by apply pow2_ge_0.
  assert (0 <= (exp x + exp (- x) + 2) * (exp x + exp (- x) - 2)) as H5 by nra.
  destruct (Rle_dec 0 (exp x + exp (- x) - 2)); [lra|]. nra.
Qed.
Lemma cosh_sq x : cosh x ^ 2 = 1 + sinh x ^ 2.
Proof.
  unfold cosh, sinh. assert (exp x * exp (- x) = 1) as H3. { rewrite <- exp_plus, Rplus_opp_r. apply exp_0. } nra.
Qed.
Lemma sinh_lower x : 0 <= x -> x <= sinh x.
Proof.
  intros Hx. assert (sinh 0 - 0 <= sinh x - x) as H.
  { apply (grow (fun t => sinh t - t) (fun t => cosh t - 1) 0 x Hx).
    - intros t _. apply (is_derive_minus sinh (fun t => t)); [apply derive_sinh|]. apply @is_derive_id.
    - intros t _. pose proof (cosh_1 t). lra. }
  rewrite sinh_0 in H. lra.
Qed.
Lemma sinh_lip x y : 0 <= x <= y -> 0 <= sinh y - sinh x <= (y - x) * cosh y.
Proof.
  intros [Hx Hxy].
  assert (forall s t, 0 <= s <= t -> cosh s <= cosh t) as Hc.
  { intros s t [Hs Hst]. apply (grow cosh sinh s t Hst); [intros; apply derive_cosh|].
    intros u Hu. pose proof (sinh_lower u). lra. }
  split.
  - assert (sinh x <= sinh y); [|lra]. apply (grow sinh cosh x y Hxy); [intros; apply derive_sinh|].
    intros t _. pose proof (cosh_1 t). lra.
  - assert (x * cosh y - sinh x <= y * cosh y - sinh y); [|lra].
    apply (grow (fun t => t * cosh y - sinh t) (fun t => cosh y - cosh t) x y Hxy).
    + intros t _. apply (is_derive_minus (fun t => t * cosh y) sinh); [|apply derive_sinh]. auto_derive; [trivial|ring].
    + intros t Ht. specialize (Hc t y). lra.
Qed.
Lemma arcsinh_upper x : 0 <= x -> arcsinh x <= x.
Proof.
  intros Hx. rewrite <- (arcsinh_sinh x) at 2. apply arcsinh_le. now apply sinh_lower.
Qed.
Lemma arcsinh_lower x : 0 <= x -> x - x ^ 3 / 6 <= arcsinh x.
Proof.
  intros Hx. assert (arcsinh 0 - (0 - 0 ^ 3 / 6) <= arcsinh x - (x - x ^ 3 / 6)) as H.
  { apply (grow (fun t => arcsinh t - (t - t ^ 3 / 6)) (fun t => / sqrt (t ^ 2 + 1) - (1 - t ^ 2 / 2)) 0 x Hx).
    - intros t _. apply (is_derive_minus arcsinh (fun t => t - t ^ 3 / 6)).
      + apply is_derive_Reals, derivable_pt_lim_arcsinh.
      + auto_derive; [trivial|field].
    - intros t Ht. set (s := sqrt (t ^ 2 + 1)). assert (s * s = t ^ 2 + 1) as Hs by (apply sqrt_sqrt; nra).
      assert (0 < s) as Hs0 by (apply sqrt_lt_R0; nra).
      apply (Rmult_le_reg_l s); [lra|]. rewrite Rmult_minus_distr_l, Rinv_r by lra.
      destruct (Rle_dec (t ^ 2) 2); [|nra].
      assert (s <= 1 + t ^ 2 / 2). { destruct (Rle_dec s (1 + t ^ 2 / 2)); [lra|]. nra. }
      nra. }
  rewrite arcsinh_0 in H. lra.
Qed.
Lemma arcsinh_pos x : 0 <= x -> 0 <= arcsinh x.
Proof. intros Hx. rewrite <- arcsinh_0. now apply arcsinh_le. Qed.

(** logarithm: the series of ln((1+y)/(1-y)) *)
Definition ln_series (y : R) : R :=
  2 * (y + y ^ 3 / 3 + y ^ 5 / 5 + y ^ 7 / 7 + y ^ 9 / 9 + y ^ 11 / 11).
Lemma ln_series_ok b y : 0 <= y <= b -> b < 1 ->
  0 <= ln ((1 + y) / (1 - y)) - ln_series y <= 2 * y ^ 13 / (13 * (1 - b ^ 2)).
Proof.
  intros Hy Hb. rewrite ln_div by lra. unfold ln_series.
  set (h := fun t => ln (1 + t) - ln (1 - t) - 2 * (t + t ^ 3 / 3 + t ^ 5 / 5 + t ^ 7 / 7 + t ^ 9 / 9 + t ^ 11 / 11)).
  assert (h 0 = 0) as H0. { unfold h. replace (1 + 0) with 1 by ring. replace (1 - 0) with 1 by ring. rewrite ln_1. field. }
  assert (forall t, 0 <= t <= y -> is_derive h t (2 * t ^ 12 / (1 - t ^ 2))) as Hd.
  { intros t Ht. unfold h. auto_derive; [lra|]. field. repeat split; nra. }
  assert (forall t, 0 <= t <= y -> 0 <= t ^ 12) as H12.
  { intros t _. replace (t ^ 12) with ((t ^ 6) ^ 2) by ring. apply pow2_ge_0. }
  assert (0 < 1 - b ^ 2) as Hb2 by nra. split.
  - change (0 <= h y). rewrite <- H0. apply (grow h (fun t => 2 * t ^ 12 / (1 - t ^ 2)) 0 y); [lra|exact Hd|].
    intros t Ht. apply Rmult_le_pos; [specialize (H12 t Ht); lra|]. left. apply Rinv_0_lt_compat. nra.
  - change (h y <= 2 * y ^ 13 / (13 * (1 - b ^ 2))).
    assert (2 * 0 ^ 13 / (13 * (1 - b ^ 2)) - h 0 <= 2 * y ^ 13 / (13 * (1 - b ^ 2)) - h y) as H.
    { apply (grow (fun t => 2 * t ^ 13 / (13 * (1 - b ^ 2)) - h t)
        (fun t => 2 * t ^ 12 / (1 - b ^ 2) - 2 * t ^ 12 / (1 - t ^ 2)) 0 y); [lra| |].
      - intros t Ht. apply (is_derive_minus (fun t => 2 * t ^ 13 / (13 * (1 - b ^ 2))) h); [|now apply Hd].
        auto_derive; [nra|]. field. nra.
      - intros t Ht. specialize (H12 t Ht). assert (0 < 1 - t ^ 2) by nra. assert (1 - b ^ 2 <= 1 - t ^ 2) by nra.
        assert (/ (1 - t ^ 2) <= / (1 - b ^ 2)) by (apply Rinv_le_contravar; lra). unfold Rdiv. nra. }
    rewrite H0 in H. replace (2 * 0 ^ 13 / (13 * (1 - b ^ 2))) with 0 in H by (field; lra). lra.
Qed.
Lemma ln10_ok : Rabs (23025851 / 10000000 - ln 10) <= 71 / 10 ^ 10.
Proof.
  pose proof (ln_series_ok (1 / 7) (1 / 7)) as HA. pose proof (ln_series_ok (1 / 17) (1 / 17)) as HB.
  pose proof (ln_series_ok (1 / 9) (1 / 9)) as HC.
  replace ((1 + 1 / 7) / (1 - 1 / 7)) with (4 / 3) in HA by field.
  replace ((1 + 1 / 17) / (1 - 1 / 17)) with (9 / 8) in HB by field.
  replace ((1 + 1 / 9) / (1 - 1 / 9)) with (5 / 4) in HC by field.
  assert (ln 10 = 6 * ln (4 / 3) + 3 * ln (9 / 8) + ln (5 / 4)) as ->.
  { replace (ln 10) with (ln (2 * 5)) by (f_equal; ring). rewrite ln_mult, !ln_div by lra.
    replace (ln 9) with (ln (3 * 3)) by (f_equal; ring). replace (ln 8) with (ln (2 * (2 * 2))) by (f_equal; ring).
    replace (ln 4) with (ln (2 * 2)) by (f_equal; ring).
    rewrite !ln_mult by lra. lra. }
  apply Rabs_le. unfold ln_series in *. lra.
Qed.
Lemma ln_close a b c : 0 < a -> 0 < b -> 0 <= c < 1 -> Rabs (b - a) <= c * b -> Rabs (ln a - ln b) <= c / (1 - c).
Proof.
  intros Ha Hb Hc H. apply Rabs_le_between in H.
  assert (forall t, 0 < t -> ln t <= t - 1) as Hl.
  { intros t Ht. destruct (Req_dec t 1) as [->|Hn]; [rewrite ln_1; lra|].
    destruct (Rlt_dec (t - 1) (ln t)) as [L|L]; [|lra].
    pose proof (exp_ineq1 (ln t)) as He. rewrite exp_ln in He by lra.
    assert (ln t <> 0). { intros E. apply Hn. rewrite <- (exp_ln t), E by lra. apply exp_0. }
    specialize (He H0). lra. }
  assert (0 < / b) by (now apply Rinv_0_lt_compat). assert (0 < / a) by (now apply Rinv_0_lt_compat).
  pose proof (Hl (a / b)) as L1. pose proof (Hl (b / a)) as L2. rewrite ln_div in L1, L2 by lra.
  assert (a / b - 1 <= c) as L3. { unfold Rdiv. apply (Rmult_le_reg_r b); [lra|]. rewrite Rmult_minus_distr_r, Rmult_assoc, Rinv_l; lra. }
  assert (b / a - 1 <= c / (1 - c)) as L4.
  { apply (Rmult_le_reg_r a); [lra|]. replace ((b / a - 1) * a) with (b - a) by (field; lra).
    replace (c / (1 - c) * a) with (a * c / (1 - c)) by (field; lra).
    apply (Rmult_le_reg_r (1 - c)); [lra|]. replace (a * c / (1 - c) * (1 - c)) with (a * c) by (field; lra). nra. }
  assert (c <= c / (1 - c)). { apply (Rmult_le_reg_r (1 - c)); [lra|]. replace (c / (1 - c) * (1 - c)) with c by (field; lra). nra. }
  assert (0 < a / b) by (apply Rdiv_lt_0_compat; lra). assert (0 < b / a) by (apply Rdiv_lt_0_compat; lra).
  specialize (L1 ltac:(lra)). specialize (L2 ltac:(lra)).
  apply Rabs_le. lra.
Qed.

(** the Taylor polynomials of exp *)
Fixpoint ep (n : nat) (r : R) : R :=
  match n with O => 1 | S k => ep k r + r ^ S k / INR (fact (S k)) end.
Lemma fact_S k : INR (fact (S k)) = INR (S k) * INR (fact k).
Proof. change (fact (S k)) with (S k * fact k)%nat. apply mult_INR. Qed.
Lemma fact_pos k : 0 < INR (fact k).
Proof. apply lt_0_INR, lt_O_fact. Qed.
Lemma derive_mono k r : is_derive (fun r => r ^ S k / INR (fact (S k))) r (r ^ k / INR (fact k)).
Proof.
  pose proof (fact_S k) as E. pose proof (fact_pos k) as H1. pose proof (fact_pos (S k)) as H2.
  remember (INR (fact (S k))) as c. remember (INR (fact k)) as d. clear Heqc Heqd.
  assert (0 < INR (S k)) as H3 by (apply lt_0_INR; lia).
  auto_derive; [trivial|]. simpl pred. subst c. change (match k with O => 1 | S _ => INR k + 1 end) with (INR (S k)). field. lra.
Qed.
Lemma derive_ep n r : is_derive (ep (S n)) r (ep n r).
Proof.
  induction n as [|n IH].
  - simpl. auto_derive; [trivial|]. simpl. field.
  - change (ep (S (S n))) with (fun r => ep (S n) r + r ^ S (S n) / INR (fact (S (S n)))).
    change (ep (S n) r) with (ep n r + r ^ S n / INR (fact (S n))).
    apply (is_derive_plus (ep (S n)) (fun r => r ^ S (S n) / INR (fact (S (S n))))); [exact IH|apply derive_mono].
Qed.
Lemma ep_0 n : ep n 0 = 1.
Proof. induction n as [|n IH]; simpl; [reflexivity|]. rewrite IH. unfold Rdiv. ring. Qed.
Lemma ep_pos n r : 0 <= r -> 0 <= exp r - ep n r <= r ^ S n / INR (fact (S n)) * exp r.
Proof.
  revert r. induction n as [|n IH]; intros r Hr.
  - simpl. split; [pose proof (exp_ineq1_le r); lra|].
    assert (0 * exp 0 - exp 0 <= r * exp r - exp r).
    { apply (grow (fun t => t * exp t - exp t) (fun t => t * exp t) 0 r Hr).
      - intros t _. auto_derive; [trivial|ring].
      - intros t Ht. apply Rmult_le_pos; [lra|left; apply exp_pos]. }
    rewrite exp_0 in H. replace (r * 1 / 1 * exp r) with (r * exp r) by field. lra.
  - split.
    + assert (exp 0 - ep (S n) 0 <= exp r - ep (S n) r) as H.
      { apply (grow (fun t => exp t - ep (S n) t) (fun t => exp t - ep n t) 0 r Hr).
        - intros t _. apply (is_derive_minus exp (ep (S n))); [apply is_derive_exp|apply derive_ep].
        - intros t Ht. apply IH. lra. }
      rewrite exp_0, ep_0 in H. lra.
    + set (g := fun t => t ^ S (S n) / INR (fact (S (S n)))).
      assert (g 0 * exp 0 - (exp 0 - ep (S n) 0) <= g r * exp r - (exp r - ep (S n) r)) as H.
      { apply (grow (fun t => g t * exp t - (exp t - ep (S n) t))
          (fun t => (t ^ S n / INR (fact (S n)) * exp t + g t * exp t) - (exp t - ep n t)) 0 r Hr).
        - intros t _. apply (is_derive_minus (fun t => g t * exp t) (fun t => exp t - ep (S n) t)).
          + apply (is_derive_mult g exp); [apply derive_mono|apply is_derive_exp|apply Rmult_comm].
          + apply (is_derive_minus exp (ep (S n))); [apply is_derive_exp|apply derive_ep].
        - intros t Ht. destruct (IH t); [lra|]. assert (0 <= g t * exp t); [|lra].
          apply Rmult_le_pos; [|left; apply exp_pos]. apply Rmult_le_pos; [apply pow_le; lra|].
          left. apply Rinv_0_lt_compat, fact_pos. }
      rewrite exp_0, ep_0 in H. replace (g 0) with 0 in H; [|unfold g; simpl; unfold Rdiv; ring]. unfold g in H. lra.
Qed.
Lemma ep_neg n s : 0 <= s -> Rabs (exp (- s) - ep n (- s)) <= s ^ S n / INR (fact (S n)).
Proof.
  revert s. induction n as [|n IH]; intros s Hs.
  - simpl. replace (s * 1 / 1) with s by field. pose proof (exp_ineq1_le (- s)).
    assert (exp (- s) <= exp 0) as H1. { destruct Hs as [Hs|<-]; [left; apply exp_increasing; lra|]. rewrite Ropp_0. lra. }
    rewrite exp_0 in H1. apply Rabs_le. lra.
  - set (g := fun t => t ^ S (S n) / INR (fact (S (S n)))). set (h := fun t => exp (- t) - ep (S n) (- t)).
    assert (forall t, is_derive h t (- (exp (- t) - ep n (- t)))) as Hd.
    { intros t. replace (- (exp (- t) - ep n (- t))) with (-1 * exp (- t) - -1 * ep n (- t)) by ring.
      apply (is_derive_minus (fun t => exp (- t)) (fun t => ep (S n) (- t))).
      - apply (is_derive_comp exp Ropp); [apply is_derive_exp|]. auto_derive; [trivial|ring].
      - apply (is_derive_comp (ep (S n)) Ropp); [apply derive_ep|]. auto_derive; [trivial|ring]. }
    assert (h 0 = 0) as H0. { unfold h. rewrite Ropp_0, exp_0, ep_0. ring. }
    assert (g 0 = 0) as G0. { unfold g; simpl; unfold Rdiv; ring. }
    assert (g 0 - h 0 <= g s - h s) as H1.
    { apply (grow (fun t => g t - h t) (fun t => t ^ S n / INR (fact (S n)) - - (exp (- t) - ep n (- t))) 0 s Hs).
      - intros t _. apply (is_derive_minus g h); [apply derive_mono|apply Hd].
      - intros t Ht. specialize (IH t (proj1 Ht)). apply Rabs_le_between in IH. lra. }
    assert (g 0 + h 0 <= g s + h s) as H2.
    { apply (grow (fun t => g t + h t) (fun t => t ^ S n / INR (fact (S n)) + - (exp (- t) - ep n (- t))) 0 s Hs).
      - intros t _. apply (is_derive_plus g h); [apply derive_mono|apply Hd].
      - intros t Ht. specialize (IH t (proj1 Ht)). apply Rabs_le_between in IH. lra. }
    apply Rabs_le. unfold h, g in *. lra.
Qed.
Lemma e_ok : Rabs (exp 1 - 2718281828459045 / 10 ^ 15) <= 3 / 10 ^ 16.
Proof.
  assert (exp 1 <= 3) as H3 by apply exp_le_3.
  destruct (ep_pos 18 1 ltac:(lra)) as [H1 H2].
  assert (1 ^ 19 / INR (fact 19) * exp 1 <= 3 / INR (fact 19)) as H4.
  { rewrite pow1. pose proof (Rinv_0_lt_compat _ (fact_pos 19)). unfold Rdiv. nra. }
  apply (Rle_trans _ _ _ H2) in H4. clear H2.
  unfold ep in H1, H4. rewrite !pow1 in H1, H4. rewrite !fact_S in H1, H4. change (INR (fact 0)) with 1 in *.
  rewrite !INR_IZR_INZ in H1, H4. cbn [Z.of_nat Pos.of_succ_nat Pos.succ] in H1, H4.
  rewrite <- !mult_IZR in H1, H4. cbv [Z.mul Pos.mul Pos.add Pos.add_carry Pos.succ] in H1, H4.
  assert (INR (fact 19) = 121645100408832000) as E19.
  { rewrite !fact_S. change (INR (fact 0)) with 1. rewrite !INR_IZR_INZ.
    cbn [Z.of_nat Pos.of_succ_nat Pos.succ]. rewrite <- !mult_IZR. reflexivity. }
  rewrite E19 in H4. apply Rabs_le. lra.
Qed.
Lemma pi_ok : Rabs (PI - 3141592653589793 / 10 ^ 15) <= 3 / 10 ^ 16.
Proof.
  pose proof (PI_2_3_7_ineq 8) as H.
  cbn [sum_f_R0 Nat.mul Nat.add] in H. unfold tg_alt, PI_2_3_7_tg, Ratan_seq in H.
  rewrite !INR_IZR_INZ in H.
  cbn [pow Nat.mul Nat.add Z.of_nat Pos.of_succ_nat Pos.succ] in H. 
  assert (PI <= 3141592653589793 / 10 ^ 15 + 3 / 10 ^ 16) by lra.
  assert (3141592653589793 / 10 ^ 15 - 3 / 10 ^ 16 <= PI) by lra.
  apply Rabs_le. lra.
Qed.
