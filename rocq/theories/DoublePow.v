(** pow(double, int) on doubles *)
From Coq Require Import ZArith Reals Lra Lia Psatz.
From Coq.Floats Require Import SpecFloat.
From Flocq Require Import Core BinarySingleNaN.
From Verif Require Import ModelCmath SpecCmath CmathBounds CmathReal DoubleArith DoubleRound DoubleSqrt DoubleNear DoubleLog DoubleExp.
Open Scope R_scope.

(** ** Products and quotients, overflow included *)
Lemma sign_B2SF (b : binary_float 53 1024) : is_nan b = false -> sign_of (B2SF b) = Bsign b.
Proof. now destruct b. Qed.
Lemma nan_B2SF (b : binary_float 53 1024) : is_nan b = false <-> B2SF b <> S754_nan.
Proof. now destruct b. Qed.
Lemma finite_nan (b : binary_float 53 1024) : is_finite b = true -> is_nan b = false.
Proof. now destruct b. Qed.
Lemma mul_any x y : is_number x -> is_number y ->
  (Rabs (rnd (dval x * dval y)) < big /\ is_number (nmul dbl x y) /\ dval (nmul dbl x y) = rnd (dval x * dval y) /\
   sign_of (nmul dbl x y) = xorb (sign_of x) (sign_of y)) \/
  (big <= Rabs (rnd (dval x * dval y)) /\ nmul dbl x y = S754_infinity (xorb (sign_of x) (sign_of y))).
Proof.
  intros Hx Hy. destruct (Rlt_or_le (Rabs (rnd (dval x * dval y))) big) as [L|L].
  - left. split; [exact L|]. destruct (dmul_ok x y Hx Hy L) as [H E]. split; [exact H|split; [exact E|]]. clear H E.
    destruct (number_B2SF x Hx) as (bx & <- & Fx & Ex). destruct (number_B2SF y Hy) as (by_ & <- & Fy & Ey).
    rewrite <- Ex, <- Ey in L. change (nmul dbl) with (SFmul 53 1024). rewrite mul_equiv.
    pose proof (Bmult_correct 53 1024 Hprec Hmax mode_NE bx by_) as H. unfold rnd, big in L. simpl round_mode in H.
    rewrite Rlt_bool_true in H by exact L. destruct H as (_ & H2 & H3). rewrite Fx, Fy in H2.
    pose proof (finite_nan _ H2) as N. rewrite !sign_B2SF by (assumption || now apply finite_nan). now apply H3.
  - right. split; [exact L|]. destruct (number_B2SF x Hx) as (bx & <- & Fx & Ex). destruct (number_B2SF y Hy) as (by_ & <- & Fy & Ey).
    rewrite <- Ex, <- Ey in L. change (nmul dbl) with (SFmul 53 1024). rewrite mul_equiv.
    pose proof (Bmult_correct 53 1024 Hprec Hmax mode_NE bx by_) as H. unfold rnd, big in L. simpl round_mode in H.
    rewrite Rlt_bool_false in H by exact L. rewrite H. rewrite !sign_B2SF by now apply finite_nan. reflexivity.
Qed.
Lemma div_any x y : is_number x -> is_number y -> dval y <> 0 ->
  exists q, ndiv dbl x y = Value q /\
  ((Rabs (rnd (dval x / dval y)) < big /\ is_number q /\ dval q = rnd (dval x / dval y) /\
   sign_of q = xorb (sign_of x) (sign_of y)) \/
  (big <= Rabs (rnd (dval x / dval y)) /\ q = S754_infinity (xorb (sign_of x) (sign_of y)))).
Proof.
  intros Hx Hy H0. eexists. split; [reflexivity|]. change (SFdiv dprec demax x y) with (SFdiv 53 1024 x y).
  destruct (number_B2SF x Hx) as (bx & <- & Fx & Ex). destruct (number_B2SF y Hy) as (by_ & <- & Fy & Ey).
  rewrite <- Ex, <- Ey in *. rewrite div_equiv. rewrite (sign_B2SF bx), (sign_B2SF by_) by now apply finite_nan.
  pose proof (Bdiv_correct 53 1024 Hprec Hmax mode_NE bx by_ H0) as H. simpl round_mode in H. unfold rnd, big.
  destruct (Rlt_or_le (Rabs (rnd (B2R bx / B2R by_))) big) as [L|L]; unfold rnd, big in L.
  - left. rewrite Rlt_bool_true in H by exact L. destruct H as (H1 & H2 & H3). rewrite Fx in H2.
    destruct (B2SF_number _ H2) as [H4 H5]. split; [exact L|split; [exact H4|split; [rewrite H5; exact H1|]]].
    rewrite sign_B2SF by now apply finite_nan. apply H3. now apply finite_nan.
  - right. rewrite Rlt_bool_false in H by exact L. split; [exact L|]. rewrite H. reflexivity.
Qed.
Lemma number_double x : is_number x -> is_double x. Proof. now intros []. Qed.
Lemma double_cases x : is_double x -> is_number x \/ (exists s, x = S754_infinity s) \/ x = S754_nan.
Proof. intros H. destruct x as [s|s| |s m e]; [now left|right; left; now exists s|now right; right|now left]. Qed.
Lemma number_not_nan x : is_number x -> x <> S754_nan.
Proof. intros [_ H] ->. exact H. Qed.

(** ** The product computed *)
Fixpoint ppow {T} (num : number T) (b : T) (k : nat) : T :=
  match k with O => nint num 1 | S k => match k with O => b | S _ => nmul num b (ppow num b k) end end.
Lemma ppow_S {T} (num : number T) b k : (1 <= k)%nat -> ppow num b (S k) = nmul num b (ppow num b k).
Proof. destruct k; [lia|reflexivity]. Qed.
Lemma pow_run {T} (num : number T) b k N : (1 <= k)%nat -> m_pow num N b (Z.of_nat k) = if (k <=? N)%nat then Value (ppow num b k) else Unfinished.
Proof.
  intros Hk. revert k Hk. induction N as [|N IH]; intros k Hk; [destruct (Nat.leb_spec k 0); [lia|reflexivity]|].
  destruct k as [|[|k]]; [lia|reflexivity|]. rewrite pow_lit_S by lia. replace (Z.of_nat (S (S k)) - 1)%Z with (Z.of_nat (S k)) by lia.
  rewrite IH by lia. change (S (S k) <=? S N)%nat with (S k <=? N)%nat. destruct (S k <=? N)%nat; reflexivity.
Qed.
Lemma pow_neg_run {T} (num : number T) b k N : (1 <= k)%nat -> (Z.of_nat k <= int_max)%Z ->
  m_pow num N b (- Z.of_nat k) = if (k <? N)%nat then ndiv num (nint num 1) (ppow num b k) else Unfinished.
Proof.
  intros Hk Hm. destruct N as [|N]; [destruct (Nat.ltb_spec k 0); [lia|reflexivity]|]. cbn [m_pow].
  destruct (Z.ltb_spec (- Z.of_nat k) 0); [|lia]. rewrite Z.opp_involutive. rewrite int_ok_in by (unfold int_min, int_max in *; lia).
  cbn [obind]. rewrite pow_run by exact Hk. change (k <? S N)%nat with (k <=? N)%nat. destruct (k <=? N)%nat; reflexivity.
Qed.
Lemma int_nat n : (0 < n <= int_max)%Z -> exists k, n = Z.of_nat k /\ (1 <= k)%nat /\ INR k <= 2147483647.
Proof.
  intros H. exists (Z.to_nat n). split; [lia|split; [lia|]]. rewrite INR_IZR_INZ. rewrite Z2Nat.id by lia. apply IZR_le. unfold int_max in H. lia.
Qed.

(** ** Signs, infinities, zeros, NaN *)
Lemma one_dbl : is_number (nint dbl 1) /\ sign_of (nint dbl 1) = false. Proof. split; [apply one_ok|reflexivity]. Qed.
Definition soft (x : spec_float) : Prop := is_number x /\ dval x <> 0.
Lemma number_zero x : is_number x -> dval x = 0 -> exists s, x = S754_zero s.
Proof.
  intros [_ H] E. destruct x as [s|s| |s m e]; [now exists s|elim H|elim H|]. exfalso. unfold dval in E.
  assert (0 < powerRZ 2 e) by (apply powerRZ_lt; lra). assert (0 < IZR (Zpos m)) by (apply IZR_lt; lia). destruct s; nra.
Qed.
Lemma soft_finite x : soft x -> exists s m e, x = S754_finite s m e.
Proof. intros [[_ H] E]. destruct x as [s|s| |s m e]; [now elim E|elim H|elim H|now exists s, m, e]. Qed.
Definition odd_sign (b : spec_float) (k : nat) : bool := andb (sign_of b) (Nat.odd k).
Lemma odd_sign_S b k : odd_sign b (S k) = xorb (sign_of b) (odd_sign b k).
Proof. unfold odd_sign. rewrite Nat.odd_succ, <- Nat.negb_odd. now destruct (sign_of b), (Nat.odd k). Qed.
Lemma odd_sign_1 b : odd_sign b 1 = sign_of b.
Proof. unfold odd_sign. now destruct (sign_of b). Qed.
Lemma ppow_inf s k : (1 <= k)%nat -> ppow dbl (S754_infinity s) k = S754_infinity (odd_sign (S754_infinity s) k).
Proof.
  induction k as [|k IH]; intros Hk; [lia|]. destruct k as [|k]; [rewrite odd_sign_1; reflexivity|].
  rewrite ppow_S, IH, (odd_sign_S _ (S k)) by lia. reflexivity.
Qed.
Lemma ppow_zero s k : (1 <= k)%nat -> ppow dbl (S754_zero s) k = S754_zero (odd_sign (S754_zero s) k).
Proof.
  induction k as [|k IH]; intros Hk; [lia|]. destruct k as [|k]; [rewrite odd_sign_1; reflexivity|].
  rewrite ppow_S, IH, (odd_sign_S _ (S k)) by lia. reflexivity.
Qed.
Lemma ppow_nan k : (1 <= k)%nat -> ppow dbl S754_nan k = S754_nan.
Proof. destruct k as [|[|k]]; [lia|reflexivity|intros _; rewrite ppow_S by lia; reflexivity]. Qed.
Lemma ppow_soft b k : soft b -> (1 <= k)%nat ->
  (is_number (ppow dbl b k) /\ sign_of (ppow dbl b k) = odd_sign b k) \/ ppow dbl b k = S754_infinity (odd_sign b k).
Proof.
  intros Hb. induction k as [|k IH]; intros Hk; [lia|]. destruct k as [|k]; [left; split; [apply Hb|rewrite odd_sign_1; reflexivity]|].
  rewrite ppow_S, (odd_sign_S _ (S k)) by lia. destruct IH as [[H1 H2]|H]; [lia| |].
  - rewrite <- H2. destruct (mul_any b _ (proj1 Hb) H1) as [(_ & A & _ & B)|[_ A]]; [left; now split|now right].
  - right. rewrite H. destruct (soft_finite b Hb) as (s & m & e & ->). reflexivity.
Qed.
Lemma ppow_sign b k : is_double b -> b <> S754_nan -> (1 <= k)%nat ->
  is_double (ppow dbl b k) /\ ppow dbl b k <> S754_nan /\ sign_of (ppow dbl b k) = odd_sign b k.
Proof.
  intros Hd Hn Hk. destruct (double_cases b Hd) as [H|[[s ->]| ->]]; [|rewrite ppow_inf by exact Hk; easy|easy].
  destruct (Req_dec (dval b) 0) as [E|E].
  - destruct (number_zero b H E) as [s ->]. rewrite ppow_zero by exact Hk. easy.
  - destruct (ppow_soft b k (conj H E) Hk) as [[A B]| ->]; [|easy]. split; [now apply number_double|]. split; [now apply number_not_nan|exact B].
Qed.
Lemma inv_any p : is_double p -> p <> S754_nan -> exists v, ndiv dbl (nint dbl 1) p = Value v /\ is_double v /\ v <> S754_nan /\ sign_of v = sign_of p.
Proof.
  intros Hd Hn. destruct (double_cases p Hd) as [H|[[s ->]| ->]]; [|exists (S754_zero s); split; [now destruct s|easy]|easy].
  destruct (Req_dec (dval p) 0) as [E|E].
  - destruct (number_zero p H E) as [s ->]. exists (S754_infinity s). split; [now destruct s|easy].
  - destruct (div_any (nint dbl 1) p (proj1 one_ok) H E) as (q & E1 & [(_ & A & _ & B)|[_ ->]]).
    + exists q. split; [exact E1|]. split; [now apply number_double|]. split; [now apply number_not_nan|]. rewrite B. now destruct (sign_of p).
    + eexists. split; [exact E1|]. split; [easy|split; [easy|]]. simpl. now destruct (sign_of p).
Qed.

(** ** Accuracy *)
Definition tinyd : R := bpow radix2 (-1022).
Definition low : R := (1 + / 10 ^ 6) * tinyd.
Definition high : R := (1 - / 10 ^ 6) * big.
Lemma low_pos : 0 < tinyd < / 10 ^ 20. Proof.
  split; [apply bpow_gt_0|]. apply Rlt_trans with (bpow radix2 (-80)); [apply bpow_lt; lia|].
  change (bpow radix2 (-80)) with (/ IZR (2 ^ 80)). apply Rinv_lt_contravar; [|change (2 ^ 80)%Z with 1208925819614629174706176%Z; lra].
  change (2 ^ 80)%Z with 1208925819614629174706176%Z. lra.
Qed.
Definition rel (k : nat) : R := (1 + u) ^ (k - 1) - 1.
Lemma rel_1 : rel 1 = 0. Proof. unfold rel. simpl. ring. Qed.
Lemma rel_S k : (1 <= k)%nat -> rel (S k) = u + rel k + u * rel k.
Proof. intros Hk. unfold rel. replace (S k - 1)%nat with (S (k - 1)) by lia. simpl pow. ring. Qed.
Lemma rel_pos k : 0 <= rel k.
Proof. unfold rel. pose proof u_pos. assert (1 <= (1 + u) ^ (k - 1)); [|lra]. apply pow_R1_Rle. lra. Qed.
Lemma bernoulli_inv x n : 0 < x -> INR n * x < 1 -> (1 + x) ^ n <= / (1 - INR n * x).
Proof.
  intros Hx. induction n as [|n IH]; intros Hn; [simpl; rewrite Rmult_0_l, Rminus_0_r, Rinv_1; lra|]. rewrite S_INR in *. pose proof (pos_INR n) as P.
  assert (INR n * x < 1) as Hn' by lra. specialize (IH Hn'). simpl pow.
  apply Rle_trans with ((1 + x) * / (1 - INR n * x)); [apply Rmult_le_compat_l; lra|].
  assert (0 < 1 - (INR n + 1) * x) as Q by lra. assert (0 < 1 - INR n * x) as Q' by lra.
  apply Rmult_le_reg_r with ((1 - INR n * x) * (1 - (INR n + 1) * x)); [now apply Rmult_lt_0_compat|].
  replace ((1 + x) * / (1 - INR n * x) * ((1 - INR n * x) * (1 - (INR n + 1) * x))) with ((1 + x) * (1 - (INR n + 1) * x)) by (field; lra).
  replace (/ (1 - (INR n + 1) * x) * ((1 - INR n * x) * (1 - (INR n + 1) * x))) with (1 - INR n * x) by (field; lra).
  assert (0 <= INR n * (x * x)) by (apply Rmult_le_pos; [lra|nra]). nra.
Qed.
Lemma rel_lin k : (1 <= k)%nat -> INR k <= 2147483647 -> rel k <= INR (k - 1) * (1110224 / 10 ^ 22) /\ rel k <= 3 / 10 ^ 7.
Proof.
  intros Hk Hm. pose proof u_pos as Hu. set (m := (k - 1)%nat). assert (0 <= INR m <= 2147483646) as Bm.
  { split; [apply pos_INR|]. unfold m. rewrite minus_INR by lia. simpl INR. lra. }
  assert (INR m * u <= 24 / 10 ^ 8) as S. { apply Rle_trans with (2147483646 * u); [apply Rmult_le_compat_r; lra|unfold u; lra]. }
  assert (0 <= INR m * u) by (apply Rmult_le_pos; lra).
  pose proof (bernoulli_inv u m Hu ltac:(lra)) as B. unfold rel. fold m.
  assert (/ (1 - INR m * u) <= 1 + (1 + 25 / 10 ^ 8) * (INR m * u)) as B2.
  { apply Rmult_le_reg_l with (1 - INR m * u); [lra|]. rewrite Rinv_r by lra. nra. }
  split; [|lra]. apply Rle_trans with ((1 + 25 / 10 ^ 8) * (INR m * u)); [lra|].
  replace ((1 + 25 / 10 ^ 8) * (INR m * u)) with (INR m * ((1 + 25 / 10 ^ 8) * u)) by ring. apply Rmult_le_compat_l; [lra|]. unfold u. lra.
Qed.
(** a product of the base and an approximate power *)
Lemma step_rel B p X e : 0 <= e -> Rabs (p - X) <= e * Rabs X -> tinyd <= Rabs (B * p) ->
  Rabs (rnd (B * p) - B * X) <= (u + e + u * e) * Rabs (B * X).
Proof.
  intros He H L. pose proof (rnd_rel_normal (B * p) L) as R. pose proof u_pos as Hu.
  assert (Rabs (B * p - B * X) <= e * Rabs (B * X)) as D.
  { replace (B * p - B * X) with (B * (p - X)) by ring. rewrite !Rabs_mult. pose proof (Rabs_pos B). pose proof (Rmult_le_compat_l (Rabs B) _ _ H0 H). lra. }
  assert (Rabs (B * p) <= (1 + e) * Rabs (B * X)) as M.
  { replace (B * p) with ((B * p - B * X) + B * X) by ring. eapply Rle_trans; [apply Rabs_triang|]. lra. }
  replace (rnd (B * p) - B * X) with ((rnd (B * p) - B * p) + (B * p - B * X)) by ring. eapply Rle_trans; [apply Rabs_triang|].
  pose proof (Rmult_le_compat_l u _ _ ltac:(lra) M). lra.
Qed.
Lemma near_low p X e : 0 <= e <= 3 / 10 ^ 7 -> Rabs (p - X) <= e * Rabs X -> (1 - 3 / 10 ^ 7) * Rabs X <= Rabs p <= (1 + 3 / 10 ^ 7) * Rabs X.
Proof.
  intros He H. pose proof (Rabs_pos X) as PX. assert (e * Rabs X <= 3 / 10 ^ 7 * Rabs X) by (apply Rmult_le_compat_r; lra).
  pose proof (Rabs_triang_inv X p) as A. pose proof (Rabs_triang_inv p X) as C. rewrite (Rabs_minus_sym X p) in A. lra.
Qed.
Lemma big_round r : big <= Rabs (rnd r) -> (1 - / 10 ^ 9) * big <= Rabs r.
Proof.
  intros H. pose proof (rnd_err r eta0 (Rle_refl _)) as E. pose proof u_pos as Hu.
  destruct (Rle_or_lt ((1 - / 10 ^ 9) * big) (Rabs r)) as [L|L]; [exact L|exfalso].
  assert (eta0 < 1) as Et. { unfold eta0. change 1 with (bpow radix2 0). apply bpow_lt. lia. }
  assert (1000000000000 < big) as Bb. { apply Rlt_le_trans with (bpow radix2 40); [|apply bpow_le; lia]. change (bpow radix2 40) with 1099511627776. lra. }
  pose proof (Rabs_triang_inv (rnd r) r) as T. assert (u * Rabs r <= / 10 ^ 15 * Rabs r). { apply Rmult_le_compat_r; [apply Rabs_pos|unfold u; lra]. } lra.
Qed.
Definition fine (B : R) (j : nat) : Prop := low <= Rabs (B ^ j).
Lemma pow_acc b k : soft b -> (1 <= k)%nat -> INR k <= 2147483647 -> fine (dval b) k ->
  (ppow dbl b k = S754_infinity (odd_sign b k) /\ high < Rabs (dval b ^ k)) \/
  (is_number (ppow dbl b k) /\ Rabs (dval (ppow dbl b k) - dval b ^ k) <= rel k * Rabs (dval b ^ k)).
Proof.
  intros Hb. set (B := dval b). pose proof low_pos as LP.
  assert (0 < Rabs B) as PB by (apply Rabs_pos_lt, Hb).
  induction k as [|k IH]; intros Hk Hm Hf; [lia|]. destruct k as [|k].
  - right. split; [apply Hb|]. simpl ppow. fold B. rewrite rel_1. simpl pow. rewrite Rmult_1_r, Rminus_eq_0, Rabs_R0. lra.
  - assert (INR (S k) <= 2147483647) as Hm' by (rewrite (S_INR (S k)) in Hm; lra).
    assert (Rabs (B ^ S (S k)) = Rabs B * Rabs (B ^ S k)) as EB by (simpl; now rewrite Rabs_mult).
    assert (0 < Rabs (B ^ S k)) as PX by (apply Rabs_pos_lt, pow_nonzero, Hb).
    assert (fine B (S k)) as Hf'.
    { unfold fine in *. destruct (Rle_or_lt (Rabs B) 1) as [L|L].
      - rewrite EB in Hf. eapply Rle_trans; [exact Hf|]. rewrite <- (Rmult_1_l (Rabs (B ^ S k))) at 2. apply Rmult_le_compat_r; lra.
      - rewrite <- RPow_abs. apply Rle_trans with 1; [unfold low; lra|]. apply pow_R1_Rle. lra. }
    rewrite ppow_S, (odd_sign_S _ (S k)) by lia. destruct (IH ltac:(lia) Hm' Hf') as [[E H]|[Hp Ep]].
    + left. rewrite E. split; [destruct (soft_finite b Hb) as (s & m & e & ->); reflexivity|]. rewrite EB.
      assert (1 < Rabs B) as L1.
      { destruct (Rle_or_lt (Rabs B) 1) as [L|L]; [exfalso|exact L]. assert (Rabs (B ^ S k) <= 1). { rewrite <- RPow_abs. rewrite <- (pow1 (S k)). apply pow_incr. lra. }
        assert (10 < big). { apply Rlt_le_trans with (bpow radix2 4); [simpl; lra|apply bpow_le; lia]. } unfold high in H. lra. }
      eapply Rlt_le_trans; [exact H|]. rewrite <- (Rmult_1_l (Rabs (B ^ S k))) at 1. apply Rmult_le_compat_r; lra.
    + destruct (rel_lin (S k) ltac:(lia) Hm') as [_ R3]. pose proof (rel_pos (S k)) as R0.
      pose proof (near_low _ _ _ (conj R0 R3) Ep) as [NL NU].
      assert (Rabs (B * dval (ppow dbl b (S k))) = Rabs B * Rabs (dval (ppow dbl b (S k)))) as EP by apply Rabs_mult.
      assert (tinyd <= Rabs (B * dval (ppow dbl b (S k)))) as LT.
      { rewrite EP. unfold fine, low in Hf. rewrite EB in Hf. pose proof (Rmult_le_compat_l (Rabs B) _ _ ltac:(lra) NL). lra. }
      pose proof (step_rel B _ _ _ R0 Ep LT) as ST.
      assert ((u + rel (S k) + u * rel (S k)) = rel (S (S k))) as ER by (rewrite (rel_S (S k)) by lia; reflexivity). rewrite ER in ST.
      destruct (mul_any b _ (proj1 Hb) Hp) as [(_ & A & E & _)|[L E]].
      * right. split; [exact A|]. rewrite E. exact ST.
      * left. rewrite E. destruct (ppow_soft b (S k) Hb ltac:(lia)) as [[_ Sg]|I]; [|exfalso; rewrite I in Hp; now destruct Hp].
        split; [now rewrite Sg|]. fold B in L. apply big_round in L. rewrite EP in L. rewrite EB.
        pose proof (Rmult_le_compat_l (Rabs B) _ _ ltac:(lra) NU). assert (0 < big) by apply bpow_gt_0. unfold high.
        assert (0 < Rabs B * Rabs (B ^ S k)) by now apply Rmult_lt_0_compat. lra.
Qed.
Lemma rnd_pow2 e : (-1074 <= e)%Z -> rnd (bpow radix2 e) = bpow radix2 e.
Proof. intros H. apply rnd_id. replace (bpow radix2 e) with (IZR 1 * bpow radix2 e) by ring. apply fmt_FLT; [reflexivity|exact H]. Qed.
Lemma rnd_abs_le r e : (-1074 <= e)%Z -> Rabs r <= bpow radix2 e -> Rabs (rnd r) <= bpow radix2 e.
Proof.
  intros He H. apply Rabs_le_inv in H. apply Rabs_le. split.
  - rewrite <- (rnd_pow2 e He) at 1. rewrite <- rnd_opp. apply rnd_le. lra.
  - rewrite <- (rnd_pow2 e He). apply rnd_le. lra.
Qed.
Lemma p1021 : bpow radix2 (-1021) = 2 * tinyd.
Proof. unfold tinyd. replace (-1021)%Z with (1 + -1022)%Z by lia. rewrite bpow_plus. reflexivity. Qed.
(** powers too small *)
Lemma pow_under b k : soft b -> (1 <= k)%nat -> INR k <= 2147483647 -> Rabs (dval b ^ k) < low ->
  is_number (ppow dbl b k) /\ Rabs (dval (ppow dbl b k)) <= bpow radix2 (-1021).
Proof.
  intros Hb. set (B := dval b). pose proof low_pos as LP. assert (0 < Rabs B) as PB by (apply Rabs_pos_lt, Hb).
  induction k as [|k IH]; intros Hk Hm Hf; [lia|]. destruct k as [|k].
  - split; [apply Hb|]. simpl ppow. fold B. simpl pow in Hf. rewrite Rmult_1_r in Hf. rewrite p1021. unfold low in Hf. lra.
  - assert (INR (S k) <= 2147483647) as Hm' by (rewrite (S_INR (S k)) in Hm; lra).
    assert (Rabs (B ^ S (S k)) = Rabs B * Rabs (B ^ S k)) as EB by (simpl; now rewrite Rabs_mult).
    assert (Rabs B < 1) as L1.
    { destruct (Rlt_or_le (Rabs B) 1) as [L|L]; [exact L|exfalso]. assert (1 <= Rabs (B ^ S (S k))) by (rewrite <- RPow_abs; apply pow_R1_Rle; exact L). unfold low in Hf. lra. }
    rewrite ppow_S by lia.
    assert (is_number (ppow dbl b (S k)) /\ Rabs (B * dval (ppow dbl b (S k))) <= bpow radix2 (-1021)) as [Hp Ep].
    { rewrite Rabs_mult. destruct (Rlt_or_le (Rabs (B ^ S k)) low) as [L|L].
      - destruct (IH ltac:(lia) Hm' L) as [Hp Ep]. split; [exact Hp|]. rewrite <- (Rmult_1_l (bpow _ _)). apply Rmult_le_compat; try apply Rabs_pos; lra.
      - destruct (pow_acc b (S k) Hb ltac:(lia) Hm' L) as [[_ H]|[Hp Ep]].
        + exfalso. fold B in H. assert (Rabs (B ^ S k) <= 1). { rewrite <- RPow_abs. rewrite <- (pow1 (S k)). apply pow_incr. lra. }
          assert (10 < big). { apply Rlt_le_trans with (bpow radix2 4); [simpl; lra|apply bpow_le; lia]. } unfold high in H. lra.
        + split; [exact Hp|]. fold B in Ep. destruct (rel_lin (S k) ltac:(lia) Hm') as [_ R3]. pose proof (rel_pos (S k)) as R0.
          pose proof (near_low _ _ _ (conj R0 R3) Ep) as [NL NU]. pose proof (Rmult_le_compat_l (Rabs B) _ _ ltac:(lra) NU).
          rewrite p1021. rewrite EB in Hf. unfold low in Hf. lra. }
    assert (Rabs (rnd (B * dval (ppow dbl b (S k)))) <= bpow radix2 (-1021)) as ER by (apply rnd_abs_le; [lia|exact Ep]).
    destruct (dmul_ok b _ (proj1 Hb) Hp) as [A E].
    + eapply Rle_lt_trans; [exact ER|]. apply bpow_lt. lia.
    + split; [exact A|]. rewrite E. exact ER.
Qed.

(** ** pow *)
Lemma pow_ret b n k : n = Z.of_nat k -> (1 <= k)%nat -> returns (fun N => m_pow dbl N b n) (ppow dbl b k).
Proof. intros -> Hk. exists k. intros N HN. rewrite pow_run by exact Hk. destruct (Nat.leb_spec k N); [reflexivity|lia]. Qed.
Lemma pow_neg_ret b n k v : n = (- Z.of_nat k)%Z -> (1 <= k)%nat -> (Z.of_nat k <= int_max)%Z -> ndiv dbl (nint dbl 1) (ppow dbl b k) = Value v ->
  returns (fun N => m_pow dbl N b n) v.
Proof. intros -> Hk Hm E. exists (S k). intros N HN. rewrite pow_neg_run by assumption. destruct (Nat.ltb_spec k N); [exact E|lia]. Qed.
Lemma neg_nat n : (int_min < n < 0)%Z -> exists k, n = (- Z.of_nat k)%Z /\ (1 <= k)%nat /\ INR k <= 2147483647 /\ (Z.of_nat k <= int_max)%Z.
Proof. intros H. destruct (int_nat (- n)) as (k & E & Hk & Hm); [unfold int_min, int_max in *; lia|]. exists k. split; [lia|split; [exact Hk|split; [exact Hm|unfold int_min, int_max in *; lia]]]. Qed.
Lemma odd_of k : Z.odd (Z.of_nat k) = Nat.odd k.
Proof.
  induction k as [|k IH]; [reflexivity|]. rewrite Nat2Z.inj_succ, Z.odd_succ, Nat.odd_succ, <- Z.negb_odd, <- Nat.negb_odd, IH. reflexivity.
Qed.
Lemma pow_to_0 b : returns (fun N => m_pow dbl N b 0) (nint dbl 1).
Proof. exists 1%nat. intros [|N] HN; [lia|reflexivity]. Qed.
Lemma pow_to_1 b : returns (fun N => m_pow dbl N b 1) b.
Proof. exists 1%nat. intros [|N] HN; [lia|reflexivity]. Qed.
Lemma pow_nan_any n : (int_min < n <= int_max)%Z -> n <> 0%Z -> returns (fun N => m_pow dbl N S754_nan n) S754_nan.
Proof.
  intros H H0. destruct (Z.lt_total n 0) as [L|[L|L]]; [|lia|].
  - destruct (neg_nat n ltac:(lia)) as (k & E & Hk & _ & Hm). apply (pow_neg_ret _ _ k); try assumption. rewrite ppow_nan by exact Hk. reflexivity.
  - destruct (int_nat n ltac:(lia)) as (k & E & Hk & _). pose proof (pow_ret S754_nan n k E Hk) as R. now rewrite ppow_nan in R by exact Hk.
Qed.
Lemma pow_any b n : is_double b -> b <> S754_nan -> (int_min < n <= int_max)%Z -> n <> 0%Z ->
  exists v, returns (fun N => m_pow dbl N b n) v /\ is_double v /\ v <> S754_nan /\ sign_of v = (sign_of b && Z.odd n)%bool.
Proof.
  intros Hb Hn H H0. destruct (Z.lt_total n 0) as [L|[L|L]]; [|lia|].
  - destruct (neg_nat n ltac:(lia)) as (k & E & Hk & _ & Hm). destruct (ppow_sign b k Hb Hn Hk) as (A & B & C).
    destruct (inv_any _ A B) as (v & E1 & A' & B' & C'). exists v. split; [now apply (pow_neg_ret _ _ k)|]. split; [exact A'|split; [exact B'|]].
    rewrite C', C, E, Z.odd_opp, odd_of. reflexivity.
  - destruct (int_nat n ltac:(lia)) as (k & E & Hk & _). destruct (ppow_sign b k Hb Hn Hk) as (A & B & C). exists (ppow dbl b k).
    split; [now apply pow_ret|]. split; [exact A|split; [exact B|]]. rewrite C, E, odd_of. reflexivity.
Qed.
Lemma pow_inf_pos s n : (0 < n <= int_max)%Z -> returns (fun N => m_pow dbl N (S754_infinity s) n) (S754_infinity (s && Z.odd n)).
Proof.
  intros H. destruct (int_nat n H) as (k & -> & Hk & _). rewrite odd_of. change (s && Nat.odd k)%bool with (odd_sign (S754_infinity s) k).
  rewrite <- ppow_inf by exact Hk. now apply pow_ret.
Qed.
Lemma pow_zero_pos s n : (0 < n <= int_max)%Z -> returns (fun N => m_pow dbl N (S754_zero s) n) (S754_zero (s && Z.odd n)).
Proof.
  intros H. destruct (int_nat n H) as (k & -> & Hk & _). rewrite odd_of. change (s && Nat.odd k)%bool with (odd_sign (S754_zero s) k).
  rewrite <- ppow_zero by exact Hk. now apply pow_ret.
Qed.
Lemma pow_inf_neg s n : (int_min < n < 0)%Z -> returns (fun N => m_pow dbl N (S754_infinity s) n) (S754_zero (s && Z.odd n)).
Proof.
  intros H. destruct (neg_nat n H) as (k & -> & Hk & _ & Hm). rewrite Z.odd_opp, odd_of. apply (pow_neg_ret _ _ k); try easy.
  rewrite ppow_inf by exact Hk. change (odd_sign (S754_infinity s) k) with (s && Nat.odd k)%bool. now destruct (s && Nat.odd k)%bool.
Qed.
Lemma pow_zero_neg s n : (int_min < n < 0)%Z -> returns (fun N => m_pow dbl N (S754_zero s) n) (S754_infinity (s && Z.odd n)).
Proof.
  intros H. destruct (neg_nat n H) as (k & -> & Hk & _ & Hm). rewrite Z.odd_opp, odd_of. apply (pow_neg_ret _ _ k); try easy.
  rewrite ppow_zero by exact Hk. change (odd_sign (S754_zero s) k) with (s && Nat.odd k)%bool. now destruct (s && Nat.odd k)%bool.
Qed.
(** accuracy *)
Lemma soft_of b : is_number b -> dval b <> 0 -> soft b. Proof. now split. Qed.
Lemma low_soft B k : (1 <= k)%nat -> low <= Rabs (B ^ k) -> B <> 0.
Proof. intros Hk H ->. rewrite pow_ne_zero, Rabs_R0 in H by lia. pose proof low_pos. unfold low in H. lra. Qed.
Lemma zr k B : powerRZ B (Z.of_nat k) = B ^ k. Proof. symmetry. apply pow_powerRZ. Qed.
Lemma zr_neg k B : B <> 0 -> powerRZ B (- Z.of_nat k) = / B ^ k.
Proof. intros H. now rewrite powerRZ_neg', zr. Qed.
Lemma tiny_zr : tinyd = powerRZ 2 (-1022). Proof. apply (bpow_powerRZ radix2). Qed.
Lemma big_zr : big = powerRZ 2 1024. Proof. apply (bpow_powerRZ radix2). Qed.
Lemma pow_good b n : is_number b -> (0 < n <= int_max)%Z ->
  (1 + / 10 ^ 6) * powerRZ 2 (-1022) <= Rabs (powerRZ (dval b) n) <= (1 - / 10 ^ 6) * powerRZ 2 1024 ->
  exists v, returns (fun N => m_pow dbl N b n) v /\ is_number v /\
    within (IZR (n - 1) * (1110224 / 10 ^ 22) * Rabs (powerRZ (dval b) n)) (dval v) (powerRZ (dval b) n).
Proof.
  intros Hb Hn [L H]. rewrite <- tiny_zr in L. rewrite <- big_zr in H. destruct (int_nat n Hn) as (k & -> & Hk & Hm). rewrite zr in *.
  pose proof (low_soft _ _ Hk L) as H0. exists (ppow dbl b k). split; [now apply pow_ret|].
  destruct (pow_acc b k (soft_of b Hb H0) Hk Hm L) as [[_ A]|[A E]]; [unfold high in A; lra|]. split; [exact A|].
  eapply Rle_trans; [exact E|]. apply Rmult_le_compat_r; [apply Rabs_pos|]. destruct (rel_lin k Hk Hm) as [R _].
  replace (IZR (Z.of_nat k - 1)) with (INR (k - 1)); [exact R|]. rewrite INR_IZR_INZ. f_equal. lia.
Qed.
Lemma pow_over b n : is_number b -> (0 < n <= int_max)%Z -> (1 + / 10 ^ 6) * powerRZ 2 1024 <= Rabs (powerRZ (dval b) n) ->
  returns (fun N => m_pow dbl N b n) (S754_infinity (sign_of b && Z.odd n)).
Proof.
  intros Hb Hn H. rewrite <- big_zr in H. destruct (int_nat n Hn) as (k & -> & Hk & Hm). rewrite zr in *. rewrite odd_of.
  assert (low <= Rabs (dval b ^ k)) as L.
  { pose proof low_pos. assert (10 < big). { apply Rlt_le_trans with (bpow radix2 4); [simpl; lra|apply bpow_le; lia]. } unfold low. lra. }
  pose proof (low_soft _ _ Hk L) as H0. destruct (pow_acc b k (soft_of b Hb H0) Hk Hm L) as [[E _]|[A E]].
  - change (sign_of b && Nat.odd k)%bool with (odd_sign b k). rewrite <- E. now apply pow_ret.
  - exfalso. destruct (rel_lin k Hk Hm) as [_ R3]. pose proof (near_low _ _ _ (conj (rel_pos k) R3) E) as [NL _]. pose proof (max_below _ A). assert (0 < big) by apply bpow_gt_0. lra.
Qed.
Lemma pow_small b n : is_number b -> dval b <> 0 -> (0 < n <= int_max)%Z -> Rabs (powerRZ (dval b) n) < (1 + / 10 ^ 6) * powerRZ 2 (-1022) ->
  exists v, returns (fun N => m_pow dbl N b n) v /\ is_number v /\ Rabs (dval v) <= powerRZ 2 (-1021).
Proof.
  intros Hb H0 Hn H. rewrite <- tiny_zr in H. destruct (int_nat n Hn) as (k & -> & Hk & Hm). rewrite zr in *.
  destruct (pow_under b k (soft_of b Hb H0) Hk Hm H) as [A B]. exists (ppow dbl b k). split; [now apply pow_ret|]. split; [exact A|].
  rewrite <- (bpow_powerRZ radix2). exact B.
Qed.
(** reciprocals *)
Lemma inv_rel p X e : 0 <= e <= 3 / 10 ^ 7 -> X <> 0 -> Rabs (p - X) <= e * Rabs X -> p <> 0 /\ Rabs (1 / p - / X) <= (1 + 4 / 10 ^ 7) * e * / Rabs X.
Proof.
  intros He HX H. pose proof (near_low p X e He H) as [NL _]. pose proof (Rabs_pos_lt X HX) as PX. assert (0 < Rabs p) as PP by lra.
  assert (p <> 0) as Hp by (intros ->; rewrite Rabs_R0 in PP; lra). split; [exact Hp|].
  replace (1 / p - / X) with (- (p - X) * (/ p * / X)) by (field; now split). rewrite Rabs_mult, Rabs_Ropp, Rabs_mult, !Rabs_inv.
  apply Rle_trans with (e * Rabs X * (/ ((1 - 3 / 10 ^ 7) * Rabs X) * / Rabs X)).
  - apply Rmult_le_compat; [apply Rabs_pos| |exact H|].
    + apply Rmult_le_pos; left; apply Rinv_0_lt_compat; assumption.
    + apply Rmult_le_compat_r; [left; now apply Rinv_0_lt_compat|]. apply Rinv_le_contravar; [|exact NL]. apply Rmult_lt_0_compat; lra.
  - replace (e * Rabs X * (/ ((1 - 3 / 10 ^ 7) * Rabs X) * / Rabs X)) with (/ (1 - 3 / 10 ^ 7) * e * / Rabs X) by (field; lra).
    apply Rmult_le_compat_r; [left; now apply Rinv_0_lt_compat|]. apply Rmult_le_compat_r; lra.
Qed.
Lemma pow_neg_good b n : is_number b -> (int_min < n < 0)%Z ->
  (1 + / 10 ^ 6) * powerRZ 2 (-1022) <= Rabs (powerRZ (dval b) (- n)) <= (1 - / 10 ^ 6) * powerRZ 2 1024 ->
  exists v, returns (fun N => m_pow dbl N b n) v /\ is_number v /\
    within (IZR (- n) * (111023 / 10 ^ 21) * Rabs (powerRZ (dval b) n) + powerRZ 2 (-1075)) (dval v) (powerRZ (dval b) n).
Proof.
  intros Hb Hn [L H]. rewrite <- tiny_zr in L. rewrite <- big_zr in H. destruct (neg_nat n Hn) as (k & -> & Hk & Hm & Hi).
  rewrite Z.opp_involutive in *. rewrite zr in *. pose proof (low_soft _ _ Hk L) as H0. rewrite zr_neg by exact H0. set (B := dval b) in *. set (X := B ^ k) in *.
  destruct (pow_acc b k (soft_of b Hb H0) Hk Hm L) as [[_ A]|[A E]]; [unfold high in A; fold B X in A; lra|]. fold B X in E.
  destruct (rel_lin k Hk Hm) as [R1 R3]. pose proof (rel_pos k) as R0. assert (X <> 0) as HX by now apply pow_nonzero.
  destruct (inv_rel _ X _ (conj R0 R3) HX E) as [Hp IE]. set (p := ppow dbl b k) in *. rewrite Rabs_inv. pose proof (Rabs_pos_lt X HX) as PX. set (Y := / Rabs X) in *.
  assert (0 < Y) as PY by now apply Rinv_0_lt_compat.
  set (m := INR (k - 1)) in *. assert (0 <= m) as Pm by apply pos_INR. assert (INR k = m + 1) as Ek. { unfold m. rewrite minus_INR by lia. simpl INR. ring. }
  assert ((1 + 4 / 10 ^ 7) * rel k <= m * (11102245 / 10 ^ 23)) as RR by lra.
  assert (Rabs (1 / dval p - / X) <= m * (11102245 / 10 ^ 23) * Y) as IE2 by (eapply Rle_trans; [exact IE|apply Rmult_le_compat_r; lra]).
  assert (m * (11102245 / 10 ^ 23) <= 3 / 10 ^ 7) as SM by lra.
  assert (Rabs (1 / dval p) <= (1 + 3 / 10 ^ 7) * Y) as AB.
  { replace (1 / dval p) with ((1 / dval p - / X) + / X) by ring. eapply Rle_trans; [apply Rabs_triang|]. rewrite (Rabs_inv X). fold Y.
    assert (m * (11102245 / 10 ^ 23) * Y <= 3 / 10 ^ 7 * Y) by (apply Rmult_le_compat_r; lra). lra. }
  pose proof (rnd_err (1 / dval p) eta0 (Rle_refl _)) as RE. pose proof u_pos as Hu. pose proof low_pos as LP.
  assert (u * Rabs (1 / dval p) <= (1110223 / 10 ^ 22 + 4 / 10 ^ 23) * Y) as UE.
  { apply Rle_trans with (u * ((1 + 3 / 10 ^ 7) * Y)); [apply Rmult_le_compat_l; lra|]. rewrite <- Rmult_assoc. apply Rmult_le_compat_r; [lra|]. unfold u. lra. }
  assert (Y <= / tinyd) as BY. { unfold Y. apply Rinv_le_contravar; [lra|]. unfold low in L. lra. }
  assert (/ tinyd = bpow radix2 1022) as TI. { unfold tinyd. rewrite <- bpow_opp. reflexivity. }
  destruct one_ok as [O1 O2]. destruct (ddiv_ok (nint dbl 1) p O1 A Hp) as (q & Eq & Hq & Vq).
  { rewrite O2. apply max_1023. eapply Rle_trans; [exact AB|]. replace (bpow radix2 1023) with (2 * bpow radix2 1022) by (change 1023%Z with (1 + 1022)%Z; rewrite bpow_plus; reflexivity).
    rewrite TI in BY. pose proof (bpow_gt_0 radix2 1022). lra. }
  exists q. split; [now apply (pow_neg_ret _ _ k)|]. split; [exact Hq|]. red. rewrite Vq, O2.
  replace (rnd (1 / dval p) - / X) with ((rnd (1 / dval p) - 1 / dval p) + (1 / dval p - / X)) by ring. eapply Rle_trans; [apply Rabs_triang|].
  rewrite <- INR_IZR_INZ, Ek. replace (powerRZ 2 (-1075)) with eta0 by apply (bpow_powerRZ radix2).
  assert (0 <= m * Y) by (apply Rmult_le_pos; lra). lra.
Qed.
Lemma pow_neg_over b n : is_number b -> (int_min < n < 0)%Z -> (1 + / 10 ^ 6) * powerRZ 2 1024 <= Rabs (powerRZ (dval b) (- n)) ->
  returns (fun N => m_pow dbl N b n) (S754_zero (sign_of b && Z.odd n)).
Proof.
  intros Hb Hn H. rewrite <- big_zr in H. destruct (neg_nat n Hn) as (k & -> & Hk & Hm & Hi). rewrite Z.opp_involutive in H. rewrite zr in H. rewrite Z.odd_opp, odd_of.
  assert (low <= Rabs (dval b ^ k)) as L.
  { pose proof low_pos. assert (10 < big). { apply Rlt_le_trans with (bpow radix2 4); [simpl; lra|apply bpow_le; lia]. } unfold low. lra. }
  pose proof (low_soft _ _ Hk L) as H0. destruct (pow_acc b k (soft_of b Hb H0) Hk Hm L) as [[E _]|[A E]].
  - change (sign_of b && Nat.odd k)%bool with (odd_sign b k). apply (pow_neg_ret _ _ k); try easy. rewrite E. now destruct (odd_sign b k).
  - exfalso. destruct (rel_lin k Hk Hm) as [_ R3]. pose proof (near_low _ _ _ (conj (rel_pos k) R3) E) as [NL _]. pose proof (max_below _ A). assert (0 < big) by apply bpow_gt_0. lra.
Qed.
Lemma pow_neg_small b n : is_number b -> dval b <> 0 -> (int_min < n < 0)%Z -> Rabs (powerRZ (dval b) (- n)) < (1 + / 10 ^ 6) * powerRZ 2 (-1022) ->
  exists v, returns (fun N => m_pow dbl N b n) v /\ (v = S754_infinity (sign_of b && Z.odd n) \/ (is_number v /\ powerRZ 2 1021 <= Rabs (dval v))).
Proof.
  intros Hb H0 Hn H. rewrite <- tiny_zr in H. destruct (neg_nat n Hn) as (k & -> & Hk & Hm & Hi). rewrite Z.opp_involutive in H. rewrite zr in H. rewrite Z.odd_opp, odd_of.
  destruct (pow_under b k (soft_of b Hb H0) Hk Hm H) as [A B]. change (sign_of b && Nat.odd k)%bool with (odd_sign b k).
  destruct (ppow_sign b k (proj1 Hb) (number_not_nan b Hb) Hk) as (_ & _ & Sg). set (p := ppow dbl b k) in *.
  destruct (Req_dec (dval p) 0) as [E|E].
  - destruct (number_zero p A E) as [s Es]. exists (S754_infinity s). split; [apply (pow_neg_ret _ _ k); try easy; fold p; rewrite Es; now destruct s|]. left. rewrite <- Sg, Es. reflexivity.
  - destruct one_ok as [O1 O2]. destruct (div_any (nint dbl 1) p O1 A E) as (q & Eq & C). exists q. split; [now apply (pow_neg_ret _ _ k)|].
    destruct C as [(_ & Hq & Vq & _)|[_ ->]].
    + right. split; [exact Hq|]. rewrite Vq, O2. replace (powerRZ 2 1021) with (bpow radix2 1021) by apply (bpow_powerRZ radix2).
      assert (bpow radix2 1021 <= Rabs (1 / dval p)) as G.
      { unfold Rdiv. rewrite Rmult_1_l, Rabs_inv. replace (bpow radix2 1021) with (/ bpow radix2 (-1021)) by (rewrite <- bpow_opp; reflexivity).
        apply Rinv_le_contravar; [now apply Rabs_pos_lt|exact B]. }
      destruct (Rle_or_lt 0 (1 / dval p)) as [P|P].
      * rewrite Rabs_right in G by lra. eapply Rle_trans; [|apply Rle_abs]. rewrite <- (rnd_pow2 1021) by lia. now apply rnd_le.
      * rewrite Rabs_left in G by lra. rewrite <- Rabs_Ropp, <- rnd_opp. eapply Rle_trans; [|apply Rle_abs]. rewrite <- (rnd_pow2 1021) by lia. now apply rnd_le.
    + left. rewrite Sg. now destruct (odd_sign b k).
Qed.
(** how deep it recurses *)
Lemma pow_depth b n N : (0 < n <= int_max)%Z -> m_pow dbl N b n = Unfinished <-> (Z.of_nat N < n)%Z.
Proof.
  intros H. destruct (int_nat n H) as (k & -> & Hk & _). rewrite pow_run by exact Hk. destruct (Nat.leb_spec k N); split; intros; try lia; easy.
Qed.
Lemma pow_neg_depth b n N : (int_min < n < 0)%Z -> m_pow dbl N b n = Unfinished <-> (Z.of_nat N < 1 - n)%Z.
Proof.
  intros H. destruct (neg_nat n H) as (k & -> & Hk & _ & Hi). rewrite pow_neg_run by assumption. destruct (Nat.ltb_spec k N); split; intros; try lia; easy.
Qed.
(** repeated rounding gets stuck above zero: 0.9^10000 is below 2^-1500 *)
Definition d09 : spec_float := S754_finite false 8106479329266893 (-53).
Lemma pow_stuck : returns (fun N => m_pow dbl N d09 10000) (S754_finite false 5 (-1074)).
Proof.
  assert (ppow dbl d09 (Z.to_nat 10000) = S754_finite false 5 (-1074)) as <- by (vm_compute; reflexivity).
  apply pow_ret; [now rewrite Z2Nat.id|lia].
Qed.
Lemma two_ok : is_number (nint dbl 2) /\ dval (nint dbl 2) = 2.
Proof. apply (dint_ok 2). reflexivity. Qed.
(** 2^-1030 is a double, but 2^1030 is not *)
Lemma pow_lost : is_number (S754_finite false (2 ^ 44) (-1074)) /\ dval (S754_finite false (2 ^ 44) (-1074)) = powerRZ 2 (-1030) /\
  returns (fun N => m_pow dbl N (nint dbl 2) (-1030)) (S754_zero false).
Proof.
  split; [split; [vm_compute; reflexivity|exact I]|]. split.
  - unfold dval. replace (IZR (Zpos (2 ^ 44))) with (powerRZ 2 44).
    + rewrite <- powerRZ_add by lra. reflexivity.
    + rewrite <- (bpow_powerRZ radix2). rewrite <- IZR_Zpower by lia. reflexivity.
  - apply (pow_neg_over (nint dbl 2) (-1030) (proj1 two_ok)); [unfold int_min; lia|]. rewrite (proj2 two_ok).
    change (- -1030)%Z with (6 + 1024)%Z. rewrite powerRZ_add by lra. replace (powerRZ 2 6) with 64 by (simpl; lra).
    assert (0 < powerRZ 2 1024) by (apply powerRZ_lt; lra). rewrite Rabs_right; lra.
Qed.
Lemma range_8 : (1 + / 10 ^ 6) * powerRZ 2 (-1022) <= Rabs (powerRZ 2 3) <= (1 - / 10 ^ 6) * powerRZ 2 1024.
Proof.
  replace (powerRZ 2 3) with 8 by (simpl; lra). rewrite <- tiny_zr, <- big_zr, Rabs_right by lra. pose proof low_pos.
  assert (10 < big). { apply Rlt_le_trans with (bpow radix2 4); [simpl; lra|apply bpow_le; lia]. } lra.
Qed.
