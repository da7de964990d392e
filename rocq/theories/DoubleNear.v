(** Absolute error bounds for computations on doubles of moderate size *)
From Coq Require Import ZArith Reals Lra Lia Psatz.
From Coq.Floats Require Import SpecFloat.
From Flocq Require Import Core BinarySingleNaN.
From Verif Require Import ModelCmath SpecCmath CmathReal DoubleArith DoubleRound DoubleSqrt.
Open Scope R_scope.

Definition near (e : R) (v : spec_float) (A : R) : Prop := is_number v /\ Rabs (dval v - A) <= e.
Lemma near_exact v : is_number v -> near 0 v (dval v).
Proof. intros H. split; [exact H|]. rewrite Rminus_eq_0, Rabs_R0. lra. Qed.
Lemma near_int z : (Z.abs z < 2 ^ 53)%Z -> near 0 (nint dbl z) (IZR z).
Proof. intros Hz. destruct (dint_ok z Hz) as [H E]. rewrite <- E. now apply near_exact. Qed.
Lemma near_weaken e e' v A : near e v A -> e <= e' -> near e' v A.
Proof. intros [H1 H2] H. split; [exact H1|lra]. Qed.
Lemma near_pos e v A : near e v A -> 0 <= e.
Proof. intros [_ H]. eapply Rle_trans; [apply Rabs_pos|exact H]. Qed.
Lemma near_opp e v A : near e v A -> near e (nopp dbl v) (- A).
Proof.
  intros [H1 H2]. destruct (dopp_ok v H1) as [Ho Eo]. split; [exact Ho|]. rewrite Eo.
  replace (- dval v - - A) with (- (dval v - A)) by ring. now rewrite Rabs_Ropp.
Qed.
Lemma eta_u : eta0 <= u.
Proof.
  unfold eta0, u. replace (/ 9007199254740992) with (bpow radix2 (-53)) by exact (bpow_opp radix2 53). apply bpow_le. lia.
Qed.
Lemma rnd_near r M : Rabs r <= M -> 1 <= M -> Rabs (rnd r - r) <= 2 * u * M.
Proof.
  intros H HM. pose proof (rnd_err r u eta_u) as E. assert (u * Rabs r <= u * M) by (apply Rmult_le_compat_l; [left; apply u_pos|exact H]).
  assert (u * 1 <= u * M) by (apply Rmult_le_compat_l; [left; apply u_pos|exact HM]). lra.
Qed.
Definition mbig : R := 1125899906842624.
Lemma fits r M : Rabs r <= M -> M <= mbig -> Rabs (rnd r) < big.
Proof. intros H HM. apply small_big. change (IZR (2 ^ 60)) with 1152921504606846976. unfold mbig in HM. lra. Qed.
Lemma near_add M a b v w A B : near a v A -> near b w B -> Rabs (A + B) + a + b <= M -> 1 <= M <= mbig ->
  near (a + b + 2 * u * M) (nadd dbl v w) (A + B).
Proof.
  intros [Hv Ev] [Hw Ew] HM [H1 H2].
  assert (Rabs ((dval v + dval w) - (A + B)) <= a + b) as E.
  { replace (dval v + dval w - (A + B)) with ((dval v - A) + (dval w - B)) by ring. eapply Rle_trans; [apply Rabs_triang|lra]. }
  assert (Rabs (dval v + dval w) <= M) as HB.
  { replace (dval v + dval w) with ((dval v + dval w - (A + B)) + (A + B)) by ring. eapply Rle_trans; [apply Rabs_triang|lra]. }
  destruct (dadd_ok v w Hv Hw) as [H E']; [now apply (fits _ M)|]. split; [exact H|]. rewrite E'.
  pose proof (rnd_near _ M HB H1) as R.
  replace (rnd (dval v + dval w) - (A + B)) with ((rnd (dval v + dval w) - (dval v + dval w)) + (dval v + dval w - (A + B))) by ring.
  eapply Rle_trans; [apply Rabs_triang|lra].
Qed.
Lemma near_sub M a b v w A B : near a v A -> near b w B -> Rabs (A - B) + a + b <= M -> 1 <= M <= mbig ->
  near (a + b + 2 * u * M) (nsub dbl v w) (A - B).
Proof.
  intros [Hv Ev] [Hw Ew] HM [H1 H2].
  assert (Rabs ((dval v - dval w) - (A - B)) <= a + b) as E.
  { replace (dval v - dval w - (A - B)) with ((dval v - A) + - (dval w - B)) by ring. eapply Rle_trans; [apply Rabs_triang|]. rewrite Rabs_Ropp. lra. }
  assert (Rabs (dval v - dval w) <= M) as HB.
  { replace (dval v - dval w) with ((dval v - dval w - (A - B)) + (A - B)) by ring. eapply Rle_trans; [apply Rabs_triang|lra]. }
  destruct (dsub_ok v w Hv Hw) as [H E']; [now apply (fits _ M)|]. split; [exact H|]. rewrite E'.
  pose proof (rnd_near _ M HB H1) as R.
  replace (rnd (dval v - dval w) - (A - B)) with ((rnd (dval v - dval w) - (dval v - dval w)) + (dval v - dval w - (A - B))) by ring.
  eapply Rle_trans; [apply Rabs_triang|lra].
Qed.
Lemma near_mul M a b v w A B MA MB : near a v A -> near b w B -> Rabs A <= MA -> Rabs B <= MB ->
  MA * MB + (MA * b + MB * a + a * b) <= M -> 1 <= M <= mbig ->
  near (MA * b + MB * a + a * b + 2 * u * M) (nmul dbl v w) (A * B).
Proof.
  intros Nv Nw HA HB HM [H1 H2]. pose proof (near_pos _ _ _ Nv) as Pa. pose proof (near_pos _ _ _ Nw) as Pb.
  destruct Nv as [Hv Ev], Nw as [Hw Ew].
  assert (Rabs (dval v * dval w - A * B) <= MA * b + MB * a + a * b) as E.
  { replace (dval v * dval w - A * B) with (A * (dval w - B) + B * (dval v - A) + (dval v - A) * (dval w - B)) by ring.
    eapply Rle_trans; [apply Rabs_triang|]. apply Rplus_le_compat; [eapply Rle_trans; [apply Rabs_triang|]; apply Rplus_le_compat|];
      rewrite Rabs_mult; apply Rmult_le_compat; try apply Rabs_pos; assumption. }
  assert (Rabs (A * B) <= MA * MB) as E2 by (rewrite Rabs_mult; apply Rmult_le_compat; try apply Rabs_pos; assumption).
  assert (Rabs (dval v * dval w) <= M) as HB'.
  { replace (dval v * dval w) with ((dval v * dval w - A * B) + A * B) by ring. eapply Rle_trans; [apply Rabs_triang|lra]. }
  destruct (dmul_ok v w Hv Hw) as [H E']; [now apply (fits _ M)|]. split; [exact H|]. rewrite E'.
  pose proof (rnd_near _ M HB' H1) as R.
  replace (rnd (dval v * dval w) - A * B) with ((rnd (dval v * dval w) - dval v * dval w) + (dval v * dval w - A * B)) by ring.
  eapply Rle_trans; [apply Rabs_triang|lra].
Qed.
(** division by an integer *)
Lemma near_div_int M a v A c : near a v A -> (0 < c < 2 ^ 53)%Z -> Rabs (A / IZR c) + a <= M -> 1 <= M <= mbig ->
  exists q, ndiv dbl v (nint dbl c) = Value q /\ near (a + 2 * u * M) q (A / IZR c).
Proof.
  intros Nv Hc HM [H1 H2]. pose proof (near_pos _ _ _ Nv) as Pa. destruct Nv as [Hv Ev].
  destruct (dint_ok c ltac:(lia)) as [Hi Ei]. assert (1 <= IZR c) as Hc1 by (apply IZR_le; lia).
  assert (forall r, Rabs (r / IZR c) <= Rabs r) as Sh.
  { intros r. unfold Rdiv. rewrite Rabs_mult, (Rabs_right (/ IZR c)) by (left; apply Rinv_0_lt_compat; lra).
    rewrite <- (Rmult_1_r (Rabs r)) at 2. apply Rmult_le_compat_l; [apply Rabs_pos|]. rewrite <- Rinv_1. apply Rinv_le_contravar; lra. }
  assert (Rabs (dval v / IZR c - A / IZR c) <= a) as E.
  { replace (dval v / IZR c - A / IZR c) with ((dval v - A) / IZR c) by (field; lra). eapply Rle_trans; [apply Sh|exact Ev]. }
  assert (Rabs (dval v / IZR c) <= M) as HB.
  { replace (dval v / IZR c) with ((dval v / IZR c - A / IZR c) + A / IZR c) by ring. eapply Rle_trans; [apply Rabs_triang|lra]. }
  destruct (ddiv_ok v (nint dbl c) Hv Hi) as (q & Eq & Hq & Vq); [rewrite Ei; lra|rewrite Ei; now apply (fits _ M)|].
  exists q. split; [exact Eq|]. split; [exact Hq|]. rewrite Vq, Ei. pose proof (rnd_near _ M HB H1) as R.
  replace (rnd (dval v / IZR c) - A / IZR c) with ((rnd (dval v / IZR c) - dval v / IZR c) + (dval v / IZR c - A / IZR c)) by ring.
  eapply Rle_trans; [apply Rabs_triang|lra].
Qed.
(** division by a number not near zero *)
Lemma near_div M a b v w A B L : near a v A -> near b w B -> 0 < L -> L <= Rabs B -> L <= Rabs B - b ->
  Rabs A / L + (a + Rabs (A / B) * b) / L <= M -> 1 <= M <= mbig ->
  exists q, ndiv dbl v w = Value q /\ near ((a + Rabs (A / B) * b) / L + 2 * u * M) q (A / B).
Proof.
  intros Nv Nw HL HB Hb HM [H1 H2]. pose proof (near_pos _ _ _ Nv) as Pa. pose proof (near_pos _ _ _ Nw) as Pb.
  destruct Nv as [Hv Ev], Nw as [Hw Ew].
  assert (L <= Rabs (dval w)) as Lw.
  { pose proof (Rabs_triang (B - dval w) (dval w)) as T. replace (B - dval w + dval w) with B in T by ring. rewrite (Rabs_minus_sym B) in T. lra. }
  assert (dval w <> 0) as W0 by (intros E; rewrite E, Rabs_R0 in Lw; lra).
  assert (B <> 0) as B0 by (intros E; rewrite E, Rabs_R0 in HB; lra).
  assert (Rabs (dval v / dval w - A / B) <= (a + Rabs (A / B) * b) / L) as E.
  { replace (dval v / dval w - A / B) with (((dval v - A) + - (A / B * (dval w - B))) / dval w) by (field; split; assumption).
    unfold Rdiv at 1 3. rewrite Rabs_mult. apply Rmult_le_compat; try apply Rabs_pos.
    - eapply Rle_trans; [apply Rabs_triang|]. rewrite Rabs_Ropp, Rabs_mult. apply Rplus_le_compat; [exact Ev|].
      apply Rmult_le_compat_l; [apply Rabs_pos|exact Ew].
    - rewrite Rabs_inv. apply Rinv_le_contravar; assumption. }
  assert (Rabs (A / B) <= Rabs A / L) as EAB.
  { unfold Rdiv. rewrite Rabs_mult. apply Rmult_le_compat_l; [apply Rabs_pos|]. rewrite Rabs_inv. apply Rinv_le_contravar; assumption. }
  assert (Rabs (dval v / dval w) <= M) as HBd.
  { replace (dval v / dval w) with ((dval v / dval w - A / B) + A / B) by ring. eapply Rle_trans; [apply Rabs_triang|lra]. }
  destruct (ddiv_ok v w Hv Hw W0) as (q & Eq & Hq & Vq); [now apply (fits _ M)|].
  exists q. split; [exact Eq|]. split; [exact Hq|]. rewrite Vq. pose proof (rnd_near _ M HBd H1) as R.
  replace (rnd (dval v / dval w) - A / B) with ((rnd (dval v / dval w) - dval v / dval w) + (dval v / dval w - A / B)) by ring.
  eapply Rle_trans; [apply Rabs_triang|lra].
Qed.
(** powers of a number of size at most 1 *)
Lemma pow_lit_S N (T : Type) (num : number T) b k : (2 <= k)%Z ->
  m_pow num (S N) b k = obind (m_pow num N b (k - 1)%Z) (fun p => Value (nmul num b p)).
Proof.
  intros Hk. cbn [m_pow]. destruct (Z.ltb_spec k 0); [lia|]. destruct (Z.eqb_spec k 0); [lia|]. destruct (Z.eqb_spec k 1); [lia|]. reflexivity.
Qed.
Lemma near_pow e y Y k : near e y Y -> Rabs Y + e <= 1 -> (1 <= k)%nat -> INR k * (e + 4 * u) <= / 100 ->
  exists p, (forall N, (k <= N)%nat -> m_pow dbl N y (Z.of_nat k) = Value p) /\ near (INR k * (e + 4 * u)) p (Y ^ k).
Proof.
  intros Ny HY. pose proof (near_pos _ _ _ Ny) as He. pose proof u_pos as Hu. pose proof (Rabs_pos Y) as PY.
  induction k as [|k IH]; intros Hk Hs; [lia|]. destruct k as [|k].
  - exists y. split.
    + intros [|N] HN; [lia|]. reflexivity.
    + simpl pow. rewrite Rmult_1_r. apply (near_weaken e); [exact Ny|]. simpl. lra.
  - rewrite S_INR in Hs. destruct IH as (p & Hp & Np); [lia|lra|]. exists (nmul dbl y p). split.
    + intros [|N] HN; [lia|]. rewrite pow_lit_S by lia. replace (Z.of_nat (S (S k)) - 1)%Z with (Z.of_nat (S k)) by lia.
      rewrite Hp by lia. reflexivity.
    + change (Y ^ S (S k)) with (Y * Y ^ S k). rewrite S_INR. set (E := INR (S k) * (e + 4 * u)) in *.
      assert (0 <= E) as PE by (pose proof (near_pos _ _ _ Np); lra).
      assert (Rabs (Y ^ S k) <= 1) as HYk. { rewrite <- RPow_abs. rewrite <- (pow1 (S k)). apply pow_incr. lra. }
      assert (Rabs Y * E <= E) by (rewrite <- (Rmult_1_l E) at 2; apply Rmult_le_compat_r; lra).
      assert (e * E <= E) by (rewrite <- (Rmult_1_l E) at 2; apply Rmult_le_compat_r; lra).
      assert (Rabs Y * E + e * E <= E) by (rewrite <- Rmult_plus_distr_r; rewrite <- (Rmult_1_l E) at 2; apply Rmult_le_compat_r; lra).
      eapply near_weaken; [apply (near_mul 2 e E y p Y (Y ^ S k) (Rabs Y) 1 Ny Np (Rle_refl _) HYk)|].
      * unfold E in *. lra.
      * unfold mbig. lra.
      * unfold E in *. lra.
Qed.

(** a decimal literal *)
Lemma near_dec M m k : (Z.abs m < 2 ^ 53)%Z -> (0 < 10 ^ k < 2 ^ 53)%Z -> Rabs (IZR m / IZR (10 ^ k)) <= M -> 1 <= M <= mbig ->
  exists q, ndec dbl m k = Value q /\ near (2 * u * M) q (IZR m / IZR (10 ^ k)).
Proof.
  intros Hm Hk HM H1. destruct (near_div_int M 0 (nint dbl m) (IZR m) (10 ^ k) (near_int m Hm) Hk) as (q & E & Nq); [lra|exact H1|].
  exists q. split; [exact E|]. eapply near_weaken; [exact Nq|]. lra.
Qed.
(** the same with the size of the result given by an interval and the error by a multiple of u *)
Lemma near_add_u m a b c v w A B : near (a * u) v A -> near (b * u) w B -> - m <= A + B <= m -> 1 <= m <= 1000000 ->
  a <= 1000000 -> b <= 1000000 -> a + b + 2 * m + 1 <= c -> near (c * u) (nadd dbl v w) (A + B).
Proof.
  intros H1 H2 H3 H4 H5 H6 H7. eapply near_weaken; [apply (near_add (m + / 1000) _ _ _ _ _ _ H1 H2)|].
  - assert (Rabs (A + B) <= m) by now apply Rabs_le. unfold u. lra.
  - unfold mbig. lra.
  - pose proof u_pos. assert (0 <= (c - (a + b + 2 * m + 1)) * u) by (apply Rmult_le_pos; lra). lra.
Qed.
Lemma near_sub_u m a b c v w A B : near (a * u) v A -> near (b * u) w B -> - m <= A - B <= m -> 1 <= m <= 1000000 ->
  a <= 1000000 -> b <= 1000000 -> a + b + 2 * m + 1 <= c -> near (c * u) (nsub dbl v w) (A - B).
Proof.
  intros H1 H2 H3 H4 H5 H6 H7. eapply near_weaken; [apply (near_sub (m + / 1000) _ _ _ _ _ _ H1 H2)|].
  - assert (Rabs (A - B) <= m) by now apply Rabs_le. unfold u. lra.
  - unfold mbig. lra.
  - pose proof u_pos. assert (0 <= (c - (a + b + 2 * m + 1)) * u) by (apply Rmult_le_pos; lra). lra.
Qed.
Lemma near_div_int_u m a c v A d : near (a * u) v A -> (0 < d < 2 ^ 53)%Z -> - m <= A / IZR d <= m -> 1 <= m <= 1000000 ->
  a <= 1000000 -> a + 2 * m + 1 <= c ->
  exists q, ndiv dbl v (nint dbl d) = Value q /\ near (c * u) q (A / IZR d).
Proof.
  intros H1 Hd H3 H4 H5 H7. destruct (near_div_int (m + / 1000) _ _ _ d H1 Hd) as (q & E & Nq).
  - assert (Rabs (A / IZR d) <= m) by now apply Rabs_le. unfold u. lra.
  - unfold mbig. lra.
  - exists q. split; [exact E|]. eapply near_weaken; [exact Nq|].
    pose proof u_pos. assert (0 <= (c - (a + 2 * m + 1)) * u) by (apply Rmult_le_pos; lra). lra.
Qed.
(** multiplication: MA and MB bound the factors *)
Lemma near_mul_u MA MB a b c v w A B : near (a * u) v A -> near (b * u) w B -> - MA <= A <= MA -> - MB <= B <= MB ->
  1 <= MA <= 1000 -> 1 <= MB <= 1000 -> a <= 1000000 -> b <= 1000000 -> MA * b + MB * a + 2 * (MA * MB) + 1 <= c ->
  near (c * u) (nmul dbl v w) (A * B).
Proof.
  intros H1 H2 HA HB HMA HMB Ha Hb H7. pose proof u_pos as Hu.
  pose proof (near_pos _ _ _ H1) as P1. pose proof (near_pos _ _ _ H2) as P2.
  assert (0 <= a) as Pa by (apply (Rmult_le_reg_r u); lra). assert (0 <= b) as Pb by (apply (Rmult_le_reg_r u); lra).
  assert (a * b <= 1000000 * 1000000) as Q1 by (apply Rmult_le_compat; lra).
  assert (MA * b <= 1000 * 1000000) as Q2 by (apply Rmult_le_compat; lra).
  assert (MB * a <= 1000 * 1000000) as Q3 by (apply Rmult_le_compat; lra).
  assert (1 * 1 <= MA * MB <= 1000 * 1000) as Q4 by (split; apply Rmult_le_compat; lra).
  assert (0 <= a * b) as Q5 by now apply Rmult_le_pos. assert (0 <= MA * b) as Q6 by (apply Rmult_le_pos; lra).
  assert (0 <= MB * a) as Q7 by (apply Rmult_le_pos; lra).
  assert (a * u * (b * u) <= u / 1000) as E1.
  { replace (a * u * (b * u)) with (a * b * u * u) by ring. assert (a * b * u <= / 1000) by (unfold u; lra). unfold Rdiv. rewrite (Rmult_comm u).
    apply Rmult_le_compat_r; lra. }
  eapply near_weaken; [apply (near_mul (MA * MB + / 100) _ _ _ _ _ _ MA MB H1 H2)|].
  - now apply Rabs_le. - now apply Rabs_le.
  - replace (MA * (b * u) + MB * (a * u)) with ((MA * b + MB * a) * u) by ring. assert ((MA * b + MB * a) * u <= / 1000) by (unfold u; lra).
    unfold u in *. lra.
  - unfold mbig. lra.
  - replace (MA * (b * u) + MB * (a * u)) with ((MA * b + MB * a) * u) by ring.
    assert (0 <= (c - (MA * b + MB * a + 2 * (MA * MB) + 1)) * u) by (apply Rmult_le_pos; lra). lra.
Qed.
Lemma near_pow_u e y Y k : near (e * u) y Y -> -1 <= Y + 1000000 * u <= 1 -> -1 <= Y - 1000000 * u <= 1 -> e <= 1000000 -> (1 <= k <= 100)%nat ->
  exists p, (forall N, (k <= N)%nat -> m_pow dbl N y (Z.of_nat k) = Value p) /\ near (INR k * (e + 4) * u) p (Y ^ k).
Proof.
  intros H1 H2 H3 He Hk. destruct (near_pow (e * u) y Y k H1) as (p & Hp & Np).
  - assert (Rabs Y <= 1 - 1000000 * u) by (apply Rabs_le; lra). pose proof u_pos.
    assert (e * u <= 1000000 * u) by (apply Rmult_le_compat_r; lra). lra.
  - lia.
  - assert (1 <= INR k <= 100) as B by (split; [apply (le_INR 1)|replace 100 with (INR 100) by (rewrite INR_IZR_INZ; reflexivity); apply le_INR]; lia).
    pose proof (near_pos _ _ _ H1) as Pe. apply Rle_trans with (100 * (e * u + 4 * u)); [apply Rmult_le_compat_r; [pose proof u_pos; lra|lra]|].
    unfold u in *. lra.
  - exists p. split; [exact Hp|]. replace (INR k * (e + 4) * u) with (INR k * (e * u + 4 * u)) by ring. exact Np.
Qed.
Lemma near_int_u z : (Z.abs z < 2 ^ 53)%Z -> near (0 * u) (nint dbl z) (IZR z).
Proof. rewrite Rmult_0_l. apply near_int. Qed.
Lemma near_exact_u v : is_number v -> near (0 * u) v (dval v).
Proof. rewrite Rmult_0_l. apply near_exact. Qed.
Lemma near_dec_u m c k r : ndec dbl k r = Value c -> (Z.abs k < 2 ^ 53)%Z -> (0 < 10 ^ r < 2 ^ 53)%Z -> - m <= IZR k / IZR (10 ^ r) <= m -> 1 <= m <= 1000000 ->
  near (2 * m * u) c (IZR k / IZR (10 ^ r)).
Proof.
  intros E Hk Hr H1 H2. destruct (near_dec m k r Hk Hr) as (q & Eq & Nq); [now apply Rabs_le|unfold mbig; lra|].
  assert (c = q) as -> by exact (f_equal (fun o => match o with Value v => v | _ => c end) (eq_trans (eq_sym E) Eq)).
  replace (2 * m * u) with (2 * u * m) by ring. exact Nq.
Qed.
