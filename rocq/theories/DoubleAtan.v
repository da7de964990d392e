(** atan and atan2 on doubles *)
From stdpp Require Import base tactics.
From Coq Require Import ZArith Reals Lra Lia Psatz.
From Coq.Floats Require Import SpecFloat.
From Flocq Require Import Core BinarySingleNaN.
From Verif Require Import ModelCmath SpecCmath CmathBounds CmathReal CmathAtan DoubleArith DoubleRound DoubleSqrt DoubleNear DoubleLog.
Open Scope R_scope.

Lemma one_big r : Rabs r <= 4 -> Rabs (rnd r) < big.
Proof. intros H. apply (fits r 4 H). unfold mbig. lra. Qed.
Lemma rnd_0 : rnd 0 = 0.
Proof. apply rnd_id. apply (fmt_int 0). reflexivity. Qed.
Lemma rnd_1 : rnd 1 = 1.
Proof. apply rnd_id. apply (fmt_int 1). reflexivity. Qed.
Lemma rnd_pos r : 0 <= r -> 0 <= rnd r.
Proof. intros H. rewrite <- rnd_0. now apply rnd_le. Qed.
Lemma rnd_num x : is_number x -> rnd (dval x) = dval x.
Proof. intros H. now apply rnd_id, rnd_format. Qed.
(** a positive sum of doubles is not rounded to zero *)
Lemma sum_pos x y : is_number x -> is_number y -> 0 < dval x + dval y -> 0 < rnd (dval x + dval y).
Proof.
  intros Hx Hy H. destruct (number_mult x Hx) as [m Em]. destruct (number_mult y Hy) as [k Ek].
  rewrite Em, Ek, <- Rmult_plus_distr_r, <- plus_IZR in *.
  assert (0 < bpow radix2 (-1074)) as P by apply bpow_gt_0.
  assert (1 <= m + k)%Z as L. { apply lt_IZR in H || idtac. assert (0 < IZR (m + k)) as H' by nra. apply lt_IZR in H'. lia. }
  apply IZR_le in L. apply Rlt_le_trans with (bpow radix2 (-1074)); [exact P|].
  replace (bpow radix2 (-1074)) with (rnd (bpow radix2 (-1074))) at 1.
  - apply rnd_le. nra.
  - apply rnd_id. replace (bpow radix2 (-1074)) with (IZR 1 * bpow radix2 (-1074)) by ring. apply fmt_FLT; lia.
Qed.
(** a third of a positive double is less than the double *)
Lemma third_less x : is_number x -> 0 < dval x -> rnd (dval x / 3) < dval x.
Proof.
  intros Hx Hp. pose proof (positive_min x Hx Hp) as Hm.
  pose proof (rnd_err (dval x / 3) eta0 (Rle_refl _)) as E. rewrite (Rabs_right (dval x / 3)) in E by lra.
  assert (eta0 = / 2 * bpow radix2 (-1074)) as Ee.
  { unfold eta0. replace (-1075)%Z with (-1 + -1074)%Z by lia. rewrite bpow_plus. f_equal. }
  apply Rabs_le_inv in E. unfold u in *. lra.
Qed.
Lemma dmul_small x y : is_number x -> is_number y -> Rabs (dval x) <= 1 -> Rabs (dval y) <= 1 ->
  is_number (nmul dbl x y) /\ dval (nmul dbl x y) = rnd (dval x * dval y).
Proof.
  intros Hx Hy Bx By. apply dmul_ok; [assumption..|]. apply one_big. rewrite Rabs_mult.
  pose proof (Rabs_pos (dval x)). pose proof (Rabs_pos (dval y)). nra.
Qed.
Lemma mul_unit x y : is_number x -> is_number y -> 0 <= dval x <= 1 -> 0 <= dval y <= 1 ->
  is_number (nmul dbl x y) /\ 0 <= dval (nmul dbl x y) <= dval x.
Proof.
  intros Hx Hy Bx By. destruct (dmul_small x y Hx Hy) as [H E]; [rewrite Rabs_right; lra..|].
  split; [exact H|]. rewrite E. split; [apply rnd_pos; nra|]. rewrite <- (rnd_num x Hx) at 2. apply rnd_le. nra.
Qed.
Lemma div_int_val x c : is_number x -> (0 < c < 2 ^ 53)%Z -> Rabs (dval x) <= 1 ->
  exists q, ndiv dbl x (nint dbl c) = Value q /\ is_number q /\ dval q = rnd (dval x / IZR c).
Proof.
  intros Hx Hc Bx. destruct (dint_ok c ltac:(lia)) as [Hi Ei]. rewrite <- Ei. apply ddiv_ok; [assumption..| |].
  - rewrite Ei. apply not_0_IZR. lia.
  - rewrite Ei. assert (1 <= IZR c) by (apply IZR_le; lia). apply one_big. unfold Rdiv. rewrite Rabs_mult, Rabs_inv.
    assert (/ Rabs (IZR c) <= 1). { rewrite Rabs_right by lra. rewrite <- Rinv_1. apply Rinv_le_contravar; lra. }
    assert (0 < / Rabs (IZR c)). { apply Rinv_0_lt_compat. rewrite Rabs_right; lra. }
    pose proof (Rabs_pos (dval x)). nra.
Qed.

Lemma val_inj {A} (x y : A) : Value x = Value y -> x = y.
Proof. congruence. Qed.

(** ** The polynomial *)
Lemma tol_near : exists t, tol dbl = Value t /\ near (2 * u) t (1 / 1000).
Proof.
  destruct (near_dec 1 1 3) as (t & E & Nt); [reflexivity|split; reflexivity|apply Rabs_le; simpl; lra|unfold mbig; lra|].
  exists t. split; [exact E|]. eapply near_weaken; [exact Nt|lra].
Qed.
Lemma poly_pos Y : 0 <= Y <= 28 / 100 -> Y ^ 5 / 5 - Y ^ 3 / 3 <= 0.
Proof.
  intros H. assert (0 <= Y ^ 3) by (apply pow_le; lra). replace (Y ^ 5) with (Y ^ 2 * Y ^ 3) by ring.
  assert (Y ^ 2 * Y ^ 3 <= 1 * Y ^ 3) by (apply Rmult_le_compat_r; nra). lra.
Qed.
Lemma small_pow Y k : - (28 / 100) <= Y <= 28 / 100 -> (3 <= k)%nat -> - (3 / 100) <= Y ^ k <= 3 / 100.
Proof.
  intros HY Hk. apply Rabs_le_inv. rewrite <- RPow_abs. assert (Rabs Y <= 28 / 100) as H by (apply Rabs_le; lra).
  pose proof (Rabs_pos Y) as P. replace k with (3 + (k - 3))%nat by lia. rewrite pow_add.
  assert (0 <= Rabs Y ^ (k - 3) <= 1). { split; [now apply pow_le|]. rewrite <- (pow1 (k - 3)). apply pow_incr. lra. }
  assert (0 <= Rabs Y ^ 3 <= (28 / 100) ^ 3). { split; [now apply pow_le|]. apply pow_incr. lra. }
  nra.
Qed.
(** the partial sums of the series of atan *)
Lemma atan_sum5 Y : - (28 / 100) <= Y <= 28 / 100 -> Rabs (Y + (Y ^ 5 / 5 - Y ^ 3 / 3) - atan Y) <= 2 / 10 ^ 5 /\
  Rabs (Y + (Y ^ 5 / 5 - Y ^ 3 / 3 + (Y ^ 7 * (Y * Y) / 9 - Y ^ 7 / 7)) - atan Y) <= 2 / 10 ^ 5.
Proof.
  assert (forall Y, 0 <= Y <= 28 / 100 -> Rabs (Y + (Y ^ 5 / 5 - Y ^ 3 / 3) - atan Y) <= 2 / 10 ^ 5 /\
    Rabs (Y + (Y ^ 5 / 5 - Y ^ 3 / 3 + (Y ^ 7 * (Y * Y) / 9 - Y ^ 7 / 7)) - atan Y) <= 2 / 10 ^ 5) as P.
  { clear Y. intros Y H. pose proof (atan_upper Y (proj1 H)). pose proof (atan_lower Y (proj1 H)). pose proof (pow7 Y H).
    replace (Y ^ 7 * (Y * Y)) with (Y ^ 9) by ring.
    assert (0 <= Y ^ 9) as H9 by (apply pow_le; lra).
    assert (Y ^ 9 <= 1 / 10 * Y ^ 7) as H97. { replace (Y ^ 9) with (Y ^ 2 * Y ^ 7) by ring. apply Rmult_le_compat_r; nra. }
    split; apply Rabs_le; lra. }
  intros H. destruct (Rle_or_lt 0 Y) as [L|L]; [apply P; lra|].
  destruct (P (- Y) ltac:(lra)) as [P1 P2]. rewrite atan_opp in P1, P2.
  replace (- Y + ((- Y) ^ 5 / 5 - (- Y) ^ 3 / 3) - - atan Y) with (- (Y + (Y ^ 5 / 5 - Y ^ 3 / 3) - atan Y)) in P1 by field.
  replace (- Y + ((- Y) ^ 5 / 5 - (- Y) ^ 3 / 3 + ((- Y) ^ 7 * (- Y * - Y) / 9 - (- Y) ^ 7 / 7)) - - atan Y)
    with (- (Y + (Y ^ 5 / 5 - Y ^ 3 / 3 + (Y ^ 7 * (Y * Y) / 9 - Y ^ 7 / 7)) - atan Y)) in P2 by field.
  rewrite Rabs_Ropp in P1, P2. now split.
Qed.
Lemma aph_dbl K res num1 den1 delta t : tol dbl = Value t -> atan_poly_helper dbl (S K) res num1 den1 delta =
  if n_lt dbl res t then Value res else
  (a <~ ndiv dbl (nmul dbl num1 delta) (nadd dbl den1 (nint dbl 2)) ;; b <~ ndiv dbl num1 den1 ;;
   r <~ atan_poly_helper dbl K (nsub dbl a b) (nmul dbl (nmul dbl num1 delta) delta) (nadd dbl den1 (nint dbl 4)) delta ;;
   Value (nadd dbl res r))%out.
Proof. intros E. cbn [atan_poly_helper]. rewrite E. reflexivity. Qed.
Lemma apoly_dbl y : is_number y -> - (28 / 100) <= dval y <= 28 / 100 ->
  exists v, (forall K, (7 <= K)%nat -> atan_poly dbl K y = Value v) /\ is_number v /\ within (21 / 10 ^ 6) (dval v) (atan (dval y)) /\
    (0 < dval y -> 0 < dval v).
Proof.
  intros Hy By. set (Y := dval y) in *. pose proof u_pos as Hu.
  pose proof (near_exact_u y Hy) as Ny. fold Y in Ny.
  assert (forall k, (1 <= k <= 100)%nat -> exists p, (forall N, (k <= N)%nat -> m_pow dbl N y (Z.of_nat k) = Value p) /\ near (INR k * (0 + 4) * u) p (Y ^ k)) as T.
  { intros k Hk. apply near_pow_u; try assumption; try (unfold u; lra). }
  destruct (T 3%nat ltac:(lia)) as (p3 & E3 & N3). destruct (T 5%nat ltac:(lia)) as (p5 & E5 & N5). destruct (T 7%nat ltac:(lia)) as (p7 & E7 & N7). clear T.
  simpl INR in N3, N5, N7. simpl Z.of_nat in E3, E5, E7.
  pose proof (small_pow Y 3 By ltac:(lia)) as B3. pose proof (small_pow Y 5 By ltac:(lia)) as B5. pose proof (small_pow Y 7 By ltac:(lia)) as B7.
  assert (near (12 * u) p3 (Y ^ 3)) as N3' by (eapply near_weaken; [exact N3|lra]).
  assert (near (20 * u) p5 (Y ^ 5)) as N5' by (eapply near_weaken; [exact N5|lra]).
  assert (near (28 * u) p7 (Y ^ 7)) as N7' by (eapply near_weaken; [exact N7|lra]). clear N3 N5 N7.
  destruct (near_div_int_u 1 20 23 p5 (Y ^ 5) 5 N5') as (q5 & F5 & M5); try lra; try lia.
  destruct (near_div_int_u 1 12 15 p3 (Y ^ 3) 3 N3') as (q3 & F3 & M3); try lra; try lia.
  assert (near (41 * u) (nsub dbl q5 q3) (Y ^ 5 / 5 - Y ^ 3 / 3)) as NR by (apply (near_sub_u 1 23 15); lra || assumption).
  set (res := nsub dbl q5 q3) in *. destruct tol_near as (t & Et & Nt). destruct (atan_sum5 Y By) as [S1 S2].
  assert (forall K, (7 <= K)%nat -> atan_poly dbl K y =
    (r <~ atan_poly_helper dbl K res p7 (nint dbl 7) (nmul dbl y y) ;; Value (nadd dbl y r))%out) as EK.
  { intros K HK. unfold atan_poly. rewrite E5 by lia. cbn [obind]. rewrite F5. cbn [obind]. rewrite E3 by lia. cbn [obind].
    rewrite F3. cbn [obind]. rewrite E7 by lia. reflexivity. }
  destruct (n_lt dbl res t) eqn:L.
  - exists (nadd dbl y res). assert (near (44 * u) (nadd dbl y res) (Y + (Y ^ 5 / 5 - Y ^ 3 / 3))) as NV
      by (apply (near_add_u 1 0 41); lra || assumption).
    split; [|split; [apply NV|split]].
    + intros [|K] HK; [lia|]. rewrite EK by exact HK. rewrite (aph_dbl _ _ _ _ _ t Et), L. reflexivity.
    + destruct NV as [_ NV]. unfold within. apply Rabs_le_inv in NV, S1. apply Rabs_le. unfold u in *. lra.
    + intros Hp.
      assert (is_number (nmul dbl y y) /\ 0 <= dval (nmul dbl y y) <= Y) as [Hyy Byy] by (apply mul_unit; fold Y; assumption || lra).
      assert (is_number (nmul dbl y (nmul dbl y y)) /\ 0 <= dval (nmul dbl y (nmul dbl y y)) <= Y) as [H3 C3] by (apply mul_unit; fold Y; assumption || lra).
      assert (p3 = nmul dbl y (nmul dbl y y)) as G3 by (specialize (E3 3%nat ltac:(lia)); symmetry; apply val_inj; exact E3).
      set (y4 := nmul dbl y (nmul dbl y (nmul dbl y y))).
      assert (is_number y4 /\ 0 <= dval y4 <= Y) as [H4 C4] by (apply mul_unit; fold Y; assumption || lra).
      assert (is_number (nmul dbl y y4) /\ 0 <= dval (nmul dbl y y4) <= Y) as [H5 C5] by (apply mul_unit; fold Y; assumption || lra).
      assert (p5 = nmul dbl y y4) as G5 by (specialize (E5 5%nat ltac:(lia)); symmetry; apply val_inj; exact E5).
      destruct (div_int_val p5 5) as (q5' & A1 & A2 & A3); [now rewrite G5|lia|rewrite G5, Rabs_right; lra|].
      assert (q5' = q5) as -> by congruence.
      destruct (div_int_val p3 3) as (q3' & C1 & C2 & C3'); [now rewrite G3|lia|rewrite G3, Rabs_right; lra|].
      assert (q3' = q3) as -> by congruence.
      assert (0 <= dval q5) as Q5 by (rewrite A3; apply rnd_pos; rewrite G5; lra).
      assert (0 <= dval q3 < Y) as Q3.
      { rewrite C3'. split; [apply rnd_pos; rewrite G3; lra|]. eapply Rle_lt_trans; [|apply (third_less y Hy Hp)]. apply rnd_le. rewrite G3. fold Y. lra. }
      assert (dval q5 <= 1) as Q5'. { rewrite A3, <- rnd_1. apply rnd_le. rewrite G5. lra. }
      destruct (dsub_ok q5 q3 A2 C2) as [D1 D2]; [apply one_big; apply Rabs_le; lra|].
      assert (- dval q3 <= dval res) as QR. { unfold res. rewrite D2. rewrite <- (rnd_num q3 C2) at 1. rewrite <- rnd_opp. apply rnd_le. lra. }
      assert (dval res <= 1) as QR'. { unfold res. rewrite D2, <- rnd_1. apply rnd_le. lra. }
      destruct (dadd_ok y res Hy D1) as [D3 D4]; [apply one_big; fold Y; apply Rabs_le; lra|].
      rewrite D4. apply sum_pos; [assumption..|]. fold Y. lra.
  - assert (Y < 0) as HY.
    { rewrite dlt in L by (apply NR || apply Nt). apply Rnot_le_lt. intros H0. destruct NR as [_ NR], Nt as [_ Nt].
      pose proof (poly_pos Y ltac:(lra)) as PP. apply Rabs_le_inv in NR, Nt. rewrite Rlt_bool_true in L; [discriminate|]. unfold u in *. lra. }
    assert (near (3 * u) (nmul dbl y y) (Y * Y)) as ND by (apply (near_mul_u 1 1 0 0); lra || assumption).
    assert (0 <= Y * Y <= 1) as BYY by nra.
    assert (near (34 * u) (nmul dbl p7 (nmul dbl y y)) (Y ^ 7 * (Y * Y))) as NM by (apply (near_mul_u 1 1 28 3); lra || assumption).
    pose proof (small_pow Y 9 By ltac:(lia)) as B9. assert (Y ^ 7 * (Y * Y) = Y ^ 9) as E9 by ring.
    destruct (near_div_int_u 1 34 37 _ _ 9 NM) as (a & Fa & Ma); try (rewrite ?E9; lra); try lia.
    destruct (near_div_int_u 1 28 31 _ _ 7 N7') as (b & Fb & Mb); try lra; try lia.
    assert (near (71 * u) (nsub dbl a b) (Y ^ 7 * (Y * Y) / 9 - Y ^ 7 / 7)) as NS by (apply (near_sub_u 1 37 31); first [assumption | rewrite ?E9; lra]).
    assert (n_lt dbl (nsub dbl a b) t = true) as L2.
    { rewrite dlt by (apply NS || apply Nt). apply Rlt_bool_true. destruct NS as [_ NS], Nt as [_ Nt]. apply Rabs_le_inv in NS, Nt.
      assert (- Y ^ 7 <= 14 / 10 ^ 5) as P7. { replace (- Y ^ 7) with ((- Y) ^ 7) by ring. apply pow7. lra. }
      assert (Y ^ 9 <= 0) as P9. { replace (Y ^ 9) with (- ((- Y) ^ 9)) by ring. assert (0 <= (- Y) ^ 9) by (apply pow_le; lra). lra. }
      rewrite E9 in NS. unfold u in *. lra. }
    exists (nadd dbl y (nadd dbl res (nsub dbl a b))).
    assert (near (115 * u) (nadd dbl res (nsub dbl a b)) (Y ^ 5 / 5 - Y ^ 3 / 3 + (Y ^ 7 * (Y * Y) / 9 - Y ^ 7 / 7))) as NA
      by (apply (near_add_u 1 41 71); first [assumption | rewrite ?E9; lra]).
    assert (near (118 * u) (nadd dbl y (nadd dbl res (nsub dbl a b))) (Y + (Y ^ 5 / 5 - Y ^ 3 / 3 + (Y ^ 7 * (Y * Y) / 9 - Y ^ 7 / 7)))) as NV
      by (apply (near_add_u 1 0 115); first [assumption | rewrite ?E9; lra]).
    split; [|split; [apply NV|split; [|lra]]].
    + intros [|[|K]] HK; try lia. rewrite EK by exact HK. rewrite (aph_dbl _ _ _ _ _ t Et), L.
      change (nadd dbl (nint dbl 7) (nint dbl 2)) with (nint dbl 9). rewrite Fa. cbn [obind]. rewrite Fb. cbn [obind].
      rewrite (aph_dbl _ _ _ _ _ t Et), L2. reflexivity.
    + destruct NV as [_ NV]. unfold within. apply Rabs_le_inv in NV, S2. apply Rabs_le. unfold u in *. lra.
Qed.

Lemma dval_zero x : is_number x -> dval x = 0 -> exists s, x = S754_zero s.
Proof.
  intros [_ Hn] E. destruct x as [s|s| |s m e]; try easy; [now exists s|]. exfalso. unfold dval in E.
  assert (0 < powerRZ 2 e) by (apply powerRZ_lt; lra). assert (0 < IZR (Zpos m)) by (apply IZR_lt; lia). destruct s; nra.
Qed.
Lemma apoly_zero s : atan_poly dbl 7 (S754_zero s) = Value (S754_zero s) \/ atan_poly dbl 7 (S754_zero s) = Value (S754_zero false).
Proof. destruct s; vm_compute; tauto. Qed.
Lemma apoly_dbl0 y v : is_number y -> dval y = 0 -> (forall K, (7 <= K)%nat -> atan_poly dbl K y = Value v) -> dval v = 0.
Proof.
  intros Hy H0 H. destruct (dval_zero y Hy H0) as [s ->]. specialize (H 7%nat ltac:(lia)).
  destruct (apoly_zero s) as [E|E]; rewrite E in H; apply val_inj in H; subst v; reflexivity.
Qed.

(** ** The identity with pi/6 *)
Definition s3 := S754_finite false 7800877925981038 (-52).
Lemma sqrt3_dbl K : m_sqrt dbl (6 + K) (nint dbl 3) = Value s3.
Proof. vm_compute. reflexivity. Qed.
Lemma sqrt3_dbl' K : (6 <= K)%nat -> m_sqrt dbl K (nint dbl 3) = Value s3.
Proof. intros H. replace K with (6 + (K - 6))%nat by lia. apply sqrt3_dbl. Qed.
Definition ds3 := S754_finite false 4825285315039816 (-54).
Lemma ds3_eq : nsub dbl (nint dbl 2) s3 = ds3.
Proof. vm_compute. reflexivity. Qed.
Definition h2 := S754_finite false 7074237752028442 (-52).
Lemma h2_eq : m_pi_2 dbl = Value h2.
Proof. vm_compute. reflexivity. Qed.
Definition h6 := S754_finite false 4716158501352295 (-53).
Lemma h6_eq : ndiv dbl h2 (nint dbl 3) = Value h6.
Proof. vm_compute. reflexivity. Qed.
Definition h1 := S754_finite false 7074237752028440 (-51).
Lemma h1_eq : m_pi dbl = Value h1.
Proof. vm_compute. reflexivity. Qed.
Lemma pw k : powerRZ 2 (Z.neg k) = / IZR (2 ^ Zpos k).
Proof. unfold powerRZ. rewrite pow_IZR, positive_nat_Z. reflexivity. Qed.
Ltac lit := unfold dval; rewrite pw; match goal with |- context [IZR (2 ^ ?k)] => let v := eval vm_compute in (2 ^ k)%Z in change (2 ^ k)%Z with v end.
Lemma s3_val : dval s3 = 7800877925981038 / 4503599627370496.
Proof. unfold s3. lit. lra. Qed.
Lemma ds3_val : dval ds3 = 4825285315039816 / 18014398509481984.
Proof. unfold ds3. lit. lra. Qed.
Lemma h2_val : dval h2 = 7074237752028442 / 4503599627370496.
Proof. unfold h2. lit. lra. Qed.
Lemma h6_val : dval h6 = 4716158501352295 / 9007199254740992.
Proof. unfold h6. lit. lra. Qed.
Lemma h1_val : dval h1 = 7074237752028440 / 2251799813685248.
Proof. unfold h1. lit. lra. Qed.
Lemma h_num : is_number s3 /\ is_number ds3 /\ is_number h2 /\ is_number h6 /\ is_number h1.
Proof. repeat split. Qed.
Lemma s3_near : near (1 * u) s3 (97 / 56).
Proof. split; [apply h_num|]. rewrite s3_val. unfold u. apply Rabs_le. lra. Qed.

Lemma ident_dbl x : is_number x -> 0 <= dval x <= 1 ->
  exists v, (forall K, (7 <= K)%nat -> atan_identity dbl K x = Value v) /\ is_number v /\ within (54 / 10 ^ 6) (dval v) (atan (dval x)) /\
    (0 < dval x -> 0 < dval v) /\ (dval x = 0 -> dval v = 0).
Proof.
  intros Hx Bx. set (X := dval x) in *. pose proof u_pos as Hu. destruct h_num as (Ns & Nd & Nh & N6 & _).
  destruct (n_le dbl x ds3) eqn:L.
  - assert (X <= dval ds3) as L'. { rewrite dle in L by assumption. destruct (Rle_bool_spec (dval x) (dval ds3)); [assumption|discriminate]. }
    rewrite ds3_val in L'. destruct (apoly_dbl x Hx) as (v & Ev & Hv & Wv & Pv); [fold X; lra|]. exists v. split.
    + intros K HK. unfold atan_identity. rewrite sqrt3_dbl' by lia. cbn [obind]. rewrite ds3_eq, L. now apply Ev.
    + split; [exact Hv|]. split; [unfold within in *; fold X in Wv; lra|]. split; [exact Pv|]. intros H0. now apply (apoly_dbl0 x v).
  - assert (dval ds3 < X) as L'. { rewrite dle in L by assumption. destruct (Rle_bool_spec (dval x) (dval ds3)); [discriminate|assumption]. }
    rewrite ds3_val in L'. pose proof s3_near as N3. pose proof (near_exact_u x Hx) as Nx. fold X in Nx.
    assert (near (8 * u) (nmul dbl s3 x) (97 / 56 * X)) as NM by (apply (near_mul_u 2 1 1 0); lra || assumption).
    assert (near (11 * u) (nsub dbl (nmul dbl s3 x) (nint dbl 1)) (97 / 56 * X - 1)) as NN
      by (apply (near_sub_u 1 8 0); first [exact NM|apply (near_int_u 1); reflexivity|lra]).
    assert (near (8 * u) (nadd dbl s3 x) (97 / 56 + X)) as NDn by (apply (near_add_u 3 1 0); first [assumption|lra]).
    set (q0 := (97 / 56 * X - 1) / (97 / 56 + X)).
    assert (q0 * (97 / 56 + X) = 97 / 56 * X - 1) as Eq by (unfold q0; field; lra).
    assert (- (271 / 1000) <= q0 <= 271 / 1000) as Bq by (split; nra).
    destruct (near_div 1 (11 * u) (8 * u) _ _ _ _ 1 NN NDn) as (q & Fq & Nq).
    { lra. } { rewrite Rabs_right; lra. } { rewrite Rabs_right by lra. unfold u. lra. }
    { fold q0. assert (Rabs (97 / 56 * X - 1) <= 75 / 100) by (apply Rabs_le; lra). assert (Rabs q0 <= 1) by (apply Rabs_le; lra).
      pose proof (Rabs_pos q0). unfold u. lra. }
    { unfold mbig. lra. }
    fold q0 in Nq. destruct Nq as [Hq Dq].
    assert (Rabs (dval q - q0) <= 30 * u) as Dq'. { eapply Rle_trans; [exact Dq|]. assert (Rabs q0 <= 1) by (apply Rabs_le; lra). pose proof (Rabs_pos q0). nra. }
    clear Dq. apply Rabs_le_inv in Dq'.
    destruct (apoly_dbl q Hq) as (v & Ev & Hv & Wv & _); [unfold u in *; lra|].
    assert (Rabs (atan (dval q) - atan q0) <= 30 * u) as Da.
    { destruct (Rle_or_lt q0 (dval q)) as [G|G]; [destruct (atan_lip _ _ G)|destruct (atan_lip (dval q) q0 ltac:(lra))]; apply Rabs_le; lra. }
    assert (-28 / 100 <= atan q0 <= 28 / 100) as Aq.
    { destruct (atan_lip (-28 / 100) q0 ltac:(lra)) as [G1 _]. destruct (atan_lip (-28 / 100) 0 ltac:(lra)) as [_ G2].
      destruct (atan_lip q0 (28 / 100) ltac:(lra)) as [G3 _]. destruct (atan_lip 0 (28 / 100) ltac:(lra)) as [_ G4]. rewrite atan_0 in *. lra. }
    unfold within in Wv. apply Rabs_le_inv in Wv, Da.
    assert (near (0 * u) v (dval v)) as Nv by now apply near_exact_u.
    assert (near (0 * u) h6 (dval h6)) as Nh6 by now apply near_exact_u.
    assert (near (3 * u) (nadd dbl h6 v) (dval h6 + dval v)) as NV by (apply (near_add_u 1 0 0); rewrite ?h6_val; first [rewrite <- h6_val; assumption|assumption|unfold u in *; lra]).
    exists (nadd dbl h6 v). split; [|split; [apply NV|]].
    + intros K HK. unfold atan_identity. rewrite sqrt3_dbl' by lia. cbn [obind]. rewrite ds3_eq, L, h2_eq. cbn [obind]. rewrite h6_eq. cbn [obind].
      rewrite Fq. cbn [obind]. rewrite Ev by exact HK. reflexivity.
    + destruct NV as [_ NV]. apply Rabs_le_inv in NV. rewrite h6_val in NV. split; [|split; [intros _; unfold u in *; lra|lra]].
      unfold within. rewrite (atan_shift X (97 / 56)) by lra. fold q0. replace (1 / (97 / 56)) with (56 / 97) by field.
      pose proof pi_6 as H6. pose proof hpi_ok as Hh. unfold hpi in Hh. apply Rabs_le_inv in H6, Hh. apply Rabs_le. unfold u in *. lra.
Qed.
Lemma ident_dbl_le x v : 0 <= dval x <= 1 -> within (54 / 10 ^ 6) (dval v) (atan (dval x)) -> dval v <= 8 / 10.
Proof.
  intros Hx Hw. apply abs_between in Hw. destruct (atan_lip (dval x) 1) as [H _]; [lra|]. rewrite atan_1 in H.
  pose proof pi_ok as H2. apply abs_between in H2. lra.
Qed.

(** ** Arguments above 1 *)
Lemma atan_big X : 1 <= X -> atan (1 / X) = PI / 2 - atan X.
Proof. intros H. replace (1 / X) with (/ X) by (field; lra). apply atan_inv. lra. Qed.
Lemma cmpl_dbl x : is_number x -> 0 <= dval x ->
  exists v, (forall K, (7 <= K)%nat -> atan_cmplmntry dbl K x = Value v) /\ is_number v /\ within (55 / 10 ^ 6) (dval v) (atan (dval x)) /\
    (0 < dval x -> 0 < dval v <= dval h2) /\ (dval x = 0 -> dval v = 0).
Proof.
  intros Hx Bx. set (X := dval x) in *. pose proof u_pos as Hu. destruct h_num as (_ & _ & Nh & _). destruct (dint_ok 1 eq_refl) as [H1 E1].
  unfold atan_cmplmntry. rewrite dlt by assumption. rewrite E1. fold X. destruct (Rlt_bool_spec X 1) as [L|L].
  - destruct (ident_dbl x Hx) as (v & Ev & Hv & Wv & Pv & Zv); [fold X; lra|]. exists v. pose proof (ident_dbl_le x v ltac:(fold X; lra) Wv) as H8.
    split; [exact Ev|]. split; [exact Hv|]. split; [unfold within in *; fold X in Wv; lra|]. split; [|exact Zv].
    intros H. specialize (Pv H). rewrite h2_val. lra.
  - assert (0 < 1 / X <= 1) as Hi.
    { split; [apply Rdiv_lt_0_compat; lra|]. apply (Rmult_le_reg_r X); [lra|]. replace (1 / X * X) with 1 by (field; lra). lra. }
    destruct (ddiv_ok (nint dbl 1) x H1 Hx) as (q & Fq & Hq & Vq); [fold X; lra|rewrite E1; fold X; apply one_big; rewrite Rabs_right; lra|].
    rewrite E1 in Vq. fold X in Vq.
    assert (0 <= dval q <= 1) as Bq. { rewrite Vq. split; [apply rnd_pos; lra|]. eapply Rle_trans; [apply (rnd_le _ 1); lra|rewrite rnd_1; lra]. }
    assert (Rabs (dval q - 1 / X) <= 2 * u) as Dq. { rewrite Vq. replace (2 * u) with (2 * u * 1) by ring. apply rnd_near; [rewrite Rabs_right; lra|lra]. }
    destruct (ident_dbl q Hq Bq) as (v & Ev & Hv & Wv & Pv & Zv). pose proof (ident_dbl_le q v Bq Wv) as H8.
    assert (0 <= dval v) as V0. { destruct (Req_dec (dval q) 0) as [E|E]; [rewrite Zv by exact E; lra|]. left. apply Pv. lra. }
    assert (near (0 * u) v (dval v)) as Nv by now apply near_exact_u.
    assert (near (0 * u) h2 (dval h2)) as Nh2 by now apply near_exact_u.
    assert (near (5 * u) (nsub dbl h2 v) (dval h2 - dval v)) as NV by (apply (near_sub_u 2 0 0); first [assumption|rewrite ?h2_val; lra]).
    assert (dval (nsub dbl h2 v) = rnd (dval h2 - dval v)) as EV.
    { apply dsub_ok; [assumption..|]. apply one_big. rewrite h2_val. apply Rabs_le. lra. }
    exists (nsub dbl h2 v). split; [|split; [apply NV|split; [|split; [intros _; split|lra]]]].
    + intros K HK. rewrite h2_eq. cbn [obind]. rewrite Fq. cbn [obind]. rewrite Ev by exact HK. reflexivity.
    + assert (Rabs (atan (dval q) - atan (1 / X)) <= 2 * u) as Da.
      { apply Rabs_le_inv in Dq. destruct (Rle_or_lt (1 / X) (dval q)) as [G|G]; [destruct (atan_lip _ _ G)|destruct (atan_lip (dval q) (1 / X) ltac:(lra))]; apply Rabs_le; lra. }
      rewrite atan_big in Da by exact L. destruct NV as [_ NV]. rewrite h2_val in NV. unfold within in *. pose proof hpi_ok as Hh. unfold hpi in Hh.
      apply Rabs_le_inv in Da, NV, Wv, Hh. apply Rabs_le. unfold u in *. lra.
    + destruct NV as [_ NV]. rewrite h2_val in NV. apply Rabs_le_inv in NV. unfold u in *. lra.
    + rewrite EV. rewrite <- (rnd_num h2 Nh) at 2. apply rnd_le. lra.
Qed.

(** ** atan *)
Lemma h2_pi : PI / 2 - 2 / 10 ^ 15 <= dval h2 <= PI / 2 + 2 / 10 ^ 15.
Proof. rewrite h2_val. pose proof hpi_ok as Hh. apply Rabs_le_inv in Hh. unfold hpi in Hh. lra. Qed.
Lemma atan_dbl x : is_number x ->
  exists v, (forall K, (7 <= K)%nat -> m_atan dbl K x = Value v) /\ is_number v /\ within (55 / 10 ^ 6) (dval v) (atan (dval x)) /\
    (0 < dval x -> 0 < dval v <= dval h2) /\ (dval x < 0 -> - dval h2 <= dval v < 0) /\ (dval x = 0 -> dval v = 0).
Proof.
  intros Hx. set (X := dval x) in *. destruct (dint_ok 0 eq_refl) as [H0 E0]. unfold m_atan.
  rewrite dle by assumption. rewrite E0. fold X. destruct (Rle_bool_spec 0 X) as [L|L].
  - destruct (cmpl_dbl x Hx) as (v & Ev & Hv & Wv & Pv & Zv); [exact L|]. exists v.
    split; [exact Ev|]. split; [exact Hv|]. split; [exact Wv|]. split; [exact Pv|]. split; [lra|exact Zv].
  - destruct (dopp_ok x Hx) as [Ho Eo]. fold X in Eo. destruct (cmpl_dbl (nopp dbl x) Ho) as (v & Ev & Hv & Wv & Pv & Zv); [lra|].
    rewrite Eo in *. specialize (Pv ltac:(lra)). destruct (dopp_ok v Hv) as [Hv' Ev']. exists (nopp dbl v).
    split; [|split; [exact Hv'|rewrite Ev'; split; [|repeat split; lra]]].
    + intros K HK. rewrite Ev by exact HK. reflexivity.
    + unfold within in *. rewrite atan_opp in Wv. apply Rabs_le_inv in Wv. apply Rabs_le. lra.
Qed.
Lemma atan_double x : is_number x ->
  exists v, returns (fun n => m_atan dbl n x) v /\ is_number v /\ within (55 / 10 ^ 6) (dval v) (atan (dval x)) /\
    (0 < dval x -> 0 < dval v) /\ (dval x < 0 -> dval v < 0) /\ (dval x = 0 -> dval v = 0) /\ Rabs (dval v) <= PI / 2 + 2 / 10 ^ 15.
Proof.
  intros Hx. destruct (atan_dbl x Hx) as (v & Ev & Hv & Wv & P1 & P2 & P3). exists v. split; [now exists 7%nat|].
  split; [exact Hv|]. split; [exact Wv|]. split; [apply P1|]. split; [apply P2|]. split; [exact P3|].
  pose proof h2_pi. assert (0 < dval h2) by (rewrite h2_val; lra). apply Rabs_le. destruct (Rtotal_order (dval x) 0) as [G|[G|G]]; [specialize (P2 G)|specialize (P3 G)|specialize (P1 G)]; lra.
Qed.
(** exactly odd, except that atan of either zero is +0 *)
Lemma opp_opp x : nopp dbl (nopp dbl x) = x.
Proof. destruct x as [[]|[]| |[]]; reflexivity. Qed.
Lemma atan_odd_pos x v : n_lt dbl (nint dbl 0) x = true -> returns (fun n => m_atan dbl n x) v -> returns (fun n => m_atan dbl n (nopp dbl x)) (nopp dbl v).
Proof.
  intros H [n Hn]. exists n. intros k Hk. specialize (Hn k Hk). unfold m_atan in *.
  assert (n_le dbl (nint dbl 0) x = true) as L by (destruct x as [s|[]| |[] m e]; try discriminate H; reflexivity).
  assert (n_le dbl (nint dbl 0) (nopp dbl x) = false) as L' by (destruct x as [s|[]| |[] m e]; try discriminate H; reflexivity).
  rewrite L in Hn. rewrite L', opp_opp, Hn. reflexivity.
Qed.
Lemma atan_opp_double x v : n_eq dbl x (nint dbl 0) = false -> n_eq dbl x x = true ->
  returns (fun n => m_atan dbl n x) v -> returns (fun n => m_atan dbl n (nopp dbl x)) (nopp dbl v).
Proof.
  intros H0 Hn Hv. assert (n_lt dbl (nint dbl 0) x = true \/ n_lt dbl (nint dbl 0) (nopp dbl x) = true) as [C|C].
  { destruct x as [s|[]| |[] m e]; try discriminate H0; try discriminate Hn; (left; reflexivity) || (right; reflexivity). }
  - now apply atan_odd_pos.
  - destruct Hv as [n Hv]. unfold m_atan in Hv.
    assert (n_le dbl (nint dbl 0) x = false) as L by (destruct x as [s|[]| |[] m e]; try discriminate C; reflexivity).
    assert (n_le dbl (nint dbl 0) (nopp dbl x) = true) as L' by (destruct x as [s|[]| |[] m e]; try discriminate C; reflexivity).
    rewrite L in Hv. exists n. intros k Hk. specialize (Hv k Hk). unfold m_atan. rewrite L'.
    destruct (atan_cmplmntry dbl k (nopp dbl x)) as [w| |]; try discriminate Hv. cbn [obind] in Hv. apply val_inj in Hv. subst v. now rewrite opp_opp.
Qed.
Lemma atan_zero s : returns (fun n => m_atan dbl n (S754_zero s)) (S754_zero false).
Proof.
  destruct (atan_dbl (S754_zero s)) as (v & Ev & _); [split; [reflexivity|exact I]|]. exists 7%nat. intros k Hk. rewrite Ev by exact Hk. rewrite <- (Ev 7%nat (le_n _)).
  destruct s; vm_compute; reflexivity.
Qed.
Lemma ident_zero : exists v, dval v = 0 /\ (forall K, (7 <= K)%nat -> atan_identity dbl K (S754_zero false) = Value v).
Proof. destruct (ident_dbl (S754_zero false)) as (v & Ev & _ & _ & _ & Zv); [split; [reflexivity|exact I]|simpl; lra|]. exists v. split; [now apply Zv|exact Ev]. Qed.
Lemma atan_inf s : forall K, (7 <= K)%nat -> m_atan dbl K (S754_infinity s) = Value (if s then nopp dbl h2 else h2).
Proof.
  intros K HK. destruct ident_zero as (v & _ & Ev).
  assert (atan_cmplmntry dbl K (S754_infinity false) = Value h2) as E.
  { unfold atan_cmplmntry. change (n_lt dbl (S754_infinity false) (nint dbl 1)) with false. cbv iota. rewrite h2_eq. cbn [obind].
    change (ndiv dbl (nint dbl 1) (S754_infinity false)) with (Value (S754_zero false)). cbn [obind]. rewrite Ev by exact HK. rewrite <- (Ev 7%nat (le_n _)).
    vm_compute. reflexivity. }
  unfold m_atan. destruct s; cbn -[atan_cmplmntry h2]; rewrite E; reflexivity.
Qed.
Lemma aph_nan n : forall den delta, atan_poly_helper dbl n S754_nan S754_nan den delta = Unfinished.
Proof.
  induction n as [|n IH]; intros den delta; [reflexivity|]. destruct tol_near as (t & Et & _). rewrite (aph_dbl _ _ _ _ _ t Et).
  change (n_lt dbl S754_nan t) with false. cbv iota. change (nmul dbl S754_nan delta) with S754_nan.
  change (ndiv dbl S754_nan (nadd dbl den (nint dbl 2))) with (@Value spec_float S754_nan). change (ndiv dbl S754_nan den) with (@Value spec_float S754_nan).
  cbn [obind]. change (nsub dbl S754_nan S754_nan) with S754_nan. change (nmul dbl S754_nan delta) with S754_nan. now rewrite IH.
Qed.
Lemma pow_nan n k : (1 <= k)%nat -> m_pow dbl n S754_nan (Z.of_nat k) = Value S754_nan \/ m_pow dbl n S754_nan (Z.of_nat k) = Unfinished.
Proof.
  revert n. induction k as [|k IH]; [lia|]. intros [|n] _; [now right|]. destruct k as [|k]; [left; reflexivity|].
  rewrite pow_lit_S by lia. replace (Z.of_nat (S (S k)) - 1)%Z with (Z.of_nat (S k)) by lia.
  destruct (IH n ltac:(lia)) as [->| ->]; [left|right]; reflexivity.
Qed.
Lemma apoly_nan n : atan_poly dbl n S754_nan = Unfinished.
Proof.
  unfold atan_poly. destruct (pow_nan n 5 ltac:(lia)) as [E|E]; simpl Z.of_nat in E; rewrite E; cbn [obind]; [|reflexivity].
  destruct (pow_nan n 3 ltac:(lia)) as [E3|E3]; simpl Z.of_nat in E3; rewrite E3; cbn -[atan_poly_helper m_pow]; [|reflexivity].
  destruct (pow_nan n 7 ltac:(lia)) as [E7|E7]; simpl Z.of_nat in E7; rewrite E7; cbn -[atan_poly_helper m_pow]; [|reflexivity].
  now rewrite aph_nan.
Qed.
Lemma sqrt3_any n : m_sqrt dbl n (nint dbl 3) = Value s3 \/ m_sqrt dbl n (nint dbl 3) = Unfinished.
Proof. do 6 (destruct n as [|n]; [vm_compute; tauto|]). left. apply (sqrt3_dbl n). Qed.
Lemma atan_nan : runs_forever (fun n => m_atan dbl n S754_nan).
Proof.
  intros n. unfold m_atan, atan_cmplmntry. change (n_le dbl (nint dbl 0) S754_nan) with false. change (nopp dbl S754_nan) with S754_nan.
  change (n_lt dbl S754_nan (nint dbl 1)) with false. cbv iota. rewrite h2_eq. cbn [obind]. change (ndiv dbl (nint dbl 1) S754_nan) with (@Value spec_float S754_nan). cbn [obind].
  unfold atan_identity. destruct (sqrt3_any n) as [E|E]; rewrite E; cbn [obind]; [|reflexivity].
  change (n_le dbl S754_nan (nsub dbl (nint dbl 2) s3)) with false. cbv iota. rewrite h2_eq. cbn [obind]. rewrite h6_eq. cbn [obind].
  replace (nmul dbl s3 S754_nan) with S754_nan by reflexivity. replace (nadd dbl s3 S754_nan) with S754_nan by reflexivity.
  change (ndiv dbl (nsub dbl S754_nan (nint dbl 1)) S754_nan) with (@Value spec_float S754_nan). cbn [obind]. now rewrite apoly_nan.
Qed.

(** ** atan2 *)
(** rounding the argument *)
Lemma atan_rnd_pos r : 0 <= r -> Rabs (atan (rnd r) - atan r) <= 4 * u.
Proof.
  intros H. pose proof u_pos as Hu. destruct (Rle_or_lt r 2) as [L|L].
  - pose proof (rnd_near r 2) as E. rewrite (Rabs_right r) in E by lra. specialize (E L ltac:(lra)). apply Rabs_le_inv in E.
    destruct (Rle_or_lt r (rnd r)) as [G|G]; [destruct (atan_lip _ _ G)|destruct (atan_lip (rnd r) r ltac:(lra))]; apply Rabs_le; lra.
  - assert (2 <= rnd r) as L2. { replace 2 with (rnd 2) by (apply rnd_id, (fmt_int 2); reflexivity). apply rnd_le. lra. }
    pose proof (rnd_err r u eta_u) as E. rewrite (Rabs_right r) in E by lra. assert (Rabs (rnd r - r) <= 2 * u * r) as E2 by nra. apply Rabs_le_inv in E2.
    assert (forall a b, 2 <= a -> 2 <= b -> b <= a -> a - b <= 4 * u * b -> Rabs (atan a - atan b) <= 4 * u) as W.
    { intros a b Ha Hb Hab Hd. replace (atan a - atan b) with (atan (1 / b) - atan (1 / a)) by (rewrite !atan_big by lra; ring).
      assert (0 <= 1 / b - 1 / a <= 4 * u).
      { replace (1 / b - 1 / a) with ((a - b) / (a * b)) by (field; lra). split; [apply Rmult_le_pos; [lra|left; apply Rinv_0_lt_compat; nra]|].
        apply (Rmult_le_reg_r (a * b)); [nra|]. replace ((a - b) / (a * b) * (a * b)) with (a - b) by (field; lra).
        assert (4 * u * b * 1 <= 4 * u * b * a) by (apply Rmult_le_compat_l; nra). nra. }
      destruct (atan_lip (1 / a) (1 / b)); [lra|]. apply Rabs_le. lra. }
    assert (0 <= u * r) as Hur by (apply Rmult_le_pos; lra).
    destruct (Rle_or_lt r (rnd r)) as [G|G].
    + apply W; lra.
    + rewrite Rabs_minus_sym. apply W; try lra. assert (r <= 2 * rnd r) by (unfold u in *; nra). nra.
Qed.
Lemma atan_rnd r : Rabs (atan (rnd r) - atan r) <= 4 * u.
Proof.
  destruct (Rle_or_lt 0 r) as [H|H]; [now apply atan_rnd_pos|]. pose proof (atan_rnd_pos (- r) ltac:(lra)) as P. rewrite rnd_opp, !atan_opp in P.
  rewrite <- Rabs_Ropp. replace (- (atan (rnd r) - atan r)) with (- atan (rnd r) - - atan r) by ring. exact P.
Qed.
Lemma div_any y x : is_number y -> is_number x -> dval x <> 0 -> exists q, ndiv dbl y x = Value q /\
  ((is_number q /\ dval q = rnd (dval y / dval x)) \/ (q = S754_infinity false /\ bpow radix2 1023 <= dval y / dval x) \/
   (q = S754_infinity true /\ dval y / dval x <= - bpow radix2 1023)).
Proof.
  intros Hy Hx H0. destruct (Rlt_or_le (Rabs (rnd (dval y / dval x))) big) as [L|L].
  { destruct (ddiv_ok y x Hy Hx H0 L) as (q & E & H). exists q. tauto. }
  assert (bpow radix2 1023 <= Rabs (dval y / dval x)) as B. { apply Rnot_lt_le. intros C. apply bpow_big in C. lra. }
  destruct (number_B2SF _ Hx) as (bx & Bx & Fx & Ex). destruct (number_B2SF _ Hy) as (by_ & By & Fy & Ey).
  change (ndiv dbl y x) with (Value (SFdiv 53 1024 y x)). eexists. split; [reflexivity|]. right.
  rewrite <- Ex, <- Ey in L, B |- *. rewrite <- Ex in H0. rewrite <- Bx, <- By, div_equiv. pose proof (Bdiv_correct 53 1024 Hprec Hmax mode_NE by_ bx H0) as H.
  unfold rnd, big in L. simpl round_mode in H. rewrite Rlt_bool_false in H by exact L. rewrite H. clear H.
  pose proof (bpow_gt_0 radix2 1023) as P.
  assert (forall b : binary_float 53 1024, is_finite b = true -> B2R b <> 0 -> (Bsign b = false /\ 0 < B2R b) \/ (Bsign b = true /\ B2R b < 0)) as S.
  { intros [s|s| |s m e Bd] F N; try discriminate F; [now elim N|]. clear N. unfold B2R, F2R. cbn [Fnum Fexp]. pose proof (bpow_gt_0 radix2 e).
    destruct s; [right|left]; (split; [reflexivity|]); cbn [cond_Zopp Z.opp]; [assert (IZR (Zneg m) < 0) by (apply IZR_lt; lia)|assert (0 < IZR (Zpos m)) by (apply IZR_lt; lia)]; nra. }
  assert (B2R by_ <> 0) as Ny. { intros C. rewrite C in B. unfold Rdiv in B. rewrite Rmult_0_l, Rabs_R0 in B. lra. }
  destruct (S bx Fx H0) as [[-> Px]|[-> Px]], (S by_ Fy Ny) as [[-> Py]|[-> Py]]; [left|right|right|left]; (split; [reflexivity|]).
  - destruct (div_sign_pos (B2R by_) (B2R bx) Px) as (D1 & D2 & _). specialize (D1 Py). rewrite Rabs_right in B; lra.
  - destruct (div_sign_pos (B2R by_) (B2R bx) Px) as (D1 & D2 & _). specialize (D2 Py). rewrite Rabs_left in B; lra.
  - destruct (div_sign_neg (B2R by_) (B2R bx) Px) as (D1 & D2 & _). specialize (D1 Py). rewrite Rabs_left in B; lra.
  - destruct (div_sign_neg (B2R by_) (B2R bx) Px) as (D1 & D2 & _). specialize (D2 Py). rewrite Rabs_right in B; lra.
Qed.
Lemma atan_huge r : bpow radix2 1023 <= r -> PI / 2 - 1 / 10 ^ 9 <= atan r <= PI / 2.
Proof.
  intros H. assert (bpow radix2 60 <= r) as H' by (eapply Rle_trans; [apply (bpow_le radix2 60 1023); lia|exact H]).
  change (bpow radix2 60) with 1152921504606846976 in H'. assert (0 <= 1 / r <= 1 / 10 ^ 9) as B.
  { split; [left; apply Rdiv_lt_0_compat; lra|]. apply (Rmult_le_reg_r r); [lra|]. replace (1 / r * r) with 1 by (field; lra). lra. }
  pose proof (atan_big r ltac:(lra)) as E. destruct (atan_lip 0 (1 / r)); [lra|]. rewrite atan_0 in *. lra.
Qed.
Lemma atan_quot y x : is_number y -> is_number x -> dval x <> 0 ->
  exists q a, ndiv dbl y x = Value q /\ (forall K, (7 <= K)%nat -> m_atan dbl K q = Value a) /\ is_number a /\
    within (56 / 10 ^ 6 - 1 / 10 ^ 10) (dval a) (atan (dval y / dval x)) /\
    (0 <= dval y / dval x -> 0 <= dval a <= dval h2) /\ (dval y / dval x <= 0 -> - dval h2 <= dval a <= 0).
Proof.
  intros Hy Hx H0. destruct (div_any y x Hy Hx H0) as (q & Eq & [[Hq Vq]|[[-> B]|[-> B]]]).
  - destruct (atan_dbl q Hq) as (a & Ea & Ha & Wa & P1 & P2 & P3). exists q, a. split; [exact Eq|]. split; [exact Ea|]. split; [exact Ha|].
    assert (0 < dval h2) by (rewrite h2_val; lra). split; [|split].
    + rewrite Vq in Wa. pose proof (atan_rnd (dval y / dval x)) as R. unfold within in *. apply Rabs_le_inv in Wa, R. apply Rabs_le. unfold u in *. lra.
    + intros P. pose proof (rnd_pos _ P) as P'. rewrite <- Vq in P'. destruct (Req_dec (dval q) 0) as [E|E]; [rewrite P3 by exact E; lra|].
      specialize (P1 ltac:(lra)). lra.
    + intros P. pose proof (rnd_pos (- (dval y / dval x)) ltac:(lra)) as P'. rewrite rnd_opp, <- Vq in P'.
      destruct (Req_dec (dval q) 0) as [E|E]; [rewrite P3 by exact E; lra|]. specialize (P2 ltac:(lra)). lra.
  - exists (S754_infinity false), h2. split; [exact Eq|]. split; [apply (atan_inf false)|]. split; [apply h_num|]. pose proof (bpow_gt_0 radix2 1023).
    pose proof h2_pi. pose proof (atan_huge _ B). assert (0 < dval h2) by (rewrite h2_val; lra). split; [apply Rabs_le; lra|]. split; lra.
  - exists (S754_infinity true), (nopp dbl h2). split; [exact Eq|]. split; [apply (atan_inf true)|]. destruct (dopp_ok h2) as [Ho Eo]; [apply h_num|]. split; [exact Ho|].
    rewrite Eo. pose proof (bpow_gt_0 radix2 1023). pose proof h2_pi. pose proof (atan_huge (- (dval y / dval x)) ltac:(lra)) as A. rewrite atan_opp in A.
    assert (0 < dval h2) by (rewrite h2_val; lra). split; [apply Rabs_le; lra|]. split; lra.
Qed.
Lemma h1_pi : PI - 2 / 10 ^ 15 <= dval h1 <= PI + 2 / 10 ^ 15.
Proof. rewrite h1_val. pose proof cpi_ok as Hh. apply Rabs_le_inv in Hh. unfold cpi in Hh. lra. Qed.
(** adding or taking away pi *)
Lemma turn_add a : is_number a -> - dval h2 <= dval a <= 0 ->
  is_number (nadd dbl a h1) /\ Rabs (dval (nadd dbl a h1) - (dval a + dval h1)) <= 9 * u /\ dval (nadd dbl a h1) <= dval h1.
Proof.
  intros Ha B. rewrite h2_val in B. assert (near (0 * u) a (dval a)) as Na by now apply near_exact_u. assert (is_number h1) as H1 by apply h_num.
  assert (near (0 * u) h1 (dval h1)) as Nh by now apply near_exact_u.
  assert (near (9 * u) (nadd dbl a h1) (dval a + dval h1)) as NV by (apply (near_add_u 4 0 0); first [assumption|rewrite ?h1_val; lra]).
  destruct NV as [NV1 NV2]. split; [exact NV1|]. split; [exact NV2|].
  destruct (dadd_ok a h1 Ha H1) as [_ E]; [apply one_big; rewrite h1_val; apply Rabs_le; lra|]. rewrite E. rewrite <- (rnd_num h1 H1) at 2. apply rnd_le. lra.
Qed.
Lemma turn_sub a : is_number a -> 0 <= dval a <= dval h2 ->
  is_number (nsub dbl a h1) /\ Rabs (dval (nsub dbl a h1) - (dval a - dval h1)) <= 9 * u /\ - dval h1 <= dval (nsub dbl a h1).
Proof.
  intros Ha B. rewrite h2_val in B. assert (near (0 * u) a (dval a)) as Na by now apply near_exact_u. assert (is_number h1) as H1 by apply h_num.
  assert (near (0 * u) h1 (dval h1)) as Nh by now apply near_exact_u.
  assert (near (9 * u) (nsub dbl a h1) (dval a - dval h1)) as NV by (apply (near_sub_u 4 0 0); first [assumption|rewrite ?h1_val; lra]).
  destruct NV as [NV1 NV2]. split; [exact NV1|]. split; [exact NV2|].
  destruct (dsub_ok a h1 Ha H1) as [_ E]; [apply one_big; rewrite h1_val; apply Rabs_le; lra|]. rewrite E. rewrite <- (rnd_num h1 H1) at 1. rewrite <- rnd_opp. apply rnd_le. lra.
Qed.
Lemma atan2_double y x t : is_number y -> is_number x -> angle t (dval x) (dval y) ->
  exists v, returns (fun n => m_atan2 dbl n y x) v /\ is_number v /\ within (56 / 10 ^ 6) (dval v) t /\
    (0 <= dval y -> 0 <= dval v) /\ (dval y < 0 -> dval v <= 0) /\
    (0 < dval x -> Rabs (dval v) <= PI / 2 + 1 / 10 ^ 14) /\ (dval x < 0 -> PI / 2 - 1 / 10 ^ 14 <= Rabs (dval v) <= PI + 1 / 10 ^ 14).
Proof.
  intros Hy Hx Ha. destruct (dint_ok 0 eq_refl) as [H0 E0]. pose proof h2_pi as B2. pose proof h1_pi as B1. pose proof u_pos as Hu.
  assert (3 < PI < 4) as BP by (rewrite h1_val in B1; lra).
  set (X := dval x) in *. set (Y := dval y) in *. destruct (Rtotal_order X 0) as [LX|[LX|LX]].
  - destruct (div_sign_neg Y X LX) as (D1 & D2 & D3). destruct (atan_quot y x Hy Hx) as (q & a & Eq & Ea & Hna & Wa & P1 & P2); [fold X; lra|]. fold X Y in Wa, P1, P2.
    destruct (Rle_or_lt 0 Y) as [LY|LY].
    + assert (- dval h2 <= dval a <= 0) as Ba. { apply P2. destruct LY as [LY|LY]; [specialize (D1 LY); lra|symmetry in LY; rewrite (D3 LY); lra]. }
      destruct (turn_add a Hna Ba) as (V1 & V2 & V3). exists (nadd dbl a h1). split; [|split; [exact V1|]].
      * exists 7%nat. intros k Hk. unfold m_atan2. rewrite !dlt, dle by assumption. rewrite E0. fold X Y. rewrite (Rlt_bool_false 0 X), (Rle_bool_true 0 Y), (Rlt_bool_true X 0) by lra.
        cbn [andb]. rewrite Eq. cbn [obind]. rewrite Ea by exact Hk. cbn [obind]. rewrite h1_eq. reflexivity.
      * rewrite (angle_up t X Y Ha LY LX). unfold within in *. apply Rabs_le_inv in Wa, V2. unfold u in *. split; [apply Rabs_le; lra|].
        split; [lra|]. split; [lra|]. split; [lra|]. intros _. rewrite Rabs_right; lra.
    + assert (0 <= dval a <= dval h2) as Ba by (apply P1; specialize (D2 LY); lra).
      destruct (turn_sub a Hna Ba) as (V1 & V2 & V3). exists (nsub dbl a h1). split; [|split; [exact V1|]].
      * exists 7%nat. intros k Hk. unfold m_atan2. rewrite !dlt, dle by assumption. rewrite E0. fold X Y. rewrite (Rlt_bool_false 0 X), (Rle_bool_false 0 Y), (Rlt_bool_true X 0), (Rlt_bool_true Y 0) by lra.
        cbn [andb]. rewrite Eq. cbn [obind]. rewrite Ea by exact Hk. cbn [obind]. rewrite h1_eq. reflexivity.
      * rewrite (angle_down t X Y Ha LY LX). unfold within in *. apply Rabs_le_inv in Wa, V2. unfold u in *. split; [apply Rabs_le; lra|].
        split; [lra|]. split; [lra|]. split; [lra|]. intros _. rewrite Rabs_left; lra.
  - rewrite LX in Ha. destruct (angle_vert t Y Ha) as [Et NY]. destruct (Rlt_dec 0 Y) as [LY|LY].
    + exists h2. split; [|split; [apply h_num|]].
      * exists 0%nat. intros k _. unfold m_atan2. rewrite !dlt, dle, deq by assumption. rewrite E0. fold X Y. rewrite (Rlt_bool_false 0 X), (Rle_bool_true 0 Y), (Rlt_bool_false X 0), (Rlt_bool_true 0 Y), (Req_bool_true X 0) by lra.
        rewrite andb_false_r, andb_false_r. cbn [andb]. apply h2_eq.
      * rewrite Et. unfold within. split; [apply Rabs_le; lra|]. split; [lra|]. split; [lra|]. split; lra.
    + destruct (dopp_ok h2) as [Ho Eo]; [apply h_num|]. exists (nopp dbl h2). split; [|split; [exact Ho|]].
      * exists 0%nat. intros k _. unfold m_atan2. rewrite !dlt, dle, deq by assumption. rewrite E0. fold X Y. rewrite (Rlt_bool_false 0 X), (Rle_bool_false 0 Y), (Rlt_bool_false X 0), (Rlt_bool_false 0 Y), (Req_bool_true X 0), (Rlt_bool_true Y 0) by lra.
        cbn [andb]. rewrite h2_eq. reflexivity.
      * rewrite Et, Eo. unfold within. split; [apply Rabs_le; lra|]. split; [lra|]. split; [lra|]. split; lra.
  - destruct (div_sign_pos Y X LX) as (D1 & D2 & D3). destruct (atan_quot y x Hy Hx) as (q & a & Eq & Ea & Hna & Wa & P1 & P2); [fold X; lra|]. fold X Y in Wa, P1, P2.
    exists a. split; [|split; [exact Hna|]].
    + exists 7%nat. intros k Hk. unfold m_atan2. rewrite dlt by assumption. rewrite E0. fold X. rewrite (Rlt_bool_true 0 X) by lra. rewrite Eq. cbn [obind]. now apply Ea.
    + rewrite (angle_right t X Y Ha LX). unfold within in *. split; [lra|].
      destruct (Rle_or_lt 0 Y) as [LY|LY].
      * assert (0 <= dval a <= dval h2) as Ba. { apply P1. destruct LY as [LY|LY]; [specialize (D1 LY); lra|symmetry in LY; rewrite (D3 LY); lra]. }
        split; [lra|]. split; [lra|]. split; [intros _; apply Rabs_le; lra|lra].
      * assert (- dval h2 <= dval a <= 0) as Ba by (apply P2; specialize (D2 LY); lra).
        split; [lra|]. split; [lra|]. split; [intros _; apply Rabs_le; lra|lra].
Qed.
(** infinities and NaN *)
Lemma atan2_inf_y s x : is_number x ->
  exists v, returns (fun n => m_atan2 dbl n (S754_infinity s) x) v /\ is_number v /\ within (1 / 10 ^ 14) (dval v) (if s then - (PI / 2) else PI / 2).
Proof.
  intros [Hd Hx]. pose proof h2_pi as B2. pose proof h1_pi as B1. destruct (dopp_ok h2) as [Ho Eo]; [apply h_num|].
  exists (match x with S754_finite true _ _ => (if s then nsub dbl h2 h1 else nadd dbl (nopp dbl h2) h1) | _ => (if s then nopp dbl h2 else h2) end).
  assert (forall s' : bool, is_number (if s' then nopp dbl h2 else h2) /\ within (1 / 10 ^ 14) (dval (if s' then nopp dbl h2 else h2)) (if s' then - (PI / 2) else PI / 2)) as T.
  { intros []; (split; [exact Ho || apply h_num|]); unfold within; apply Rabs_le; rewrite ?Eo; lra. }
  split; [|destruct x as [[]|[]| |[] m e]; try now elim Hx; try apply T].
  - exists 7%nat. intros k Hk. unfold m_atan2. pose proof (atan_inf true k Hk) as I1. pose proof (atan_inf false k Hk) as I2.
    destruct x as [s'|[]| |s' m e]; try now elim Hx.
    + destruct s', s; cbn -[m_atan m_pi m_pi_2 h2]; rewrite h2_eq; reflexivity.
    + destruct s', s; cbn -[m_atan m_pi m_pi_2 h2 h1 SFadd SFsub]; rewrite ?I1, ?I2; cbn -[m_atan m_pi m_pi_2 h2 h1 SFadd SFsub]; rewrite ?h1_eq; reflexivity.
  - assert (0 < dval h2) by (rewrite h2_val; lra). pose proof u_pos. destruct s.
    + destruct (turn_sub h2) as (V1 & V2 & _); [apply h_num|lra|]. split; [exact V1|]. apply Rabs_le_inv in V2. unfold within. apply Rabs_le. unfold u in *. lra.
    + destruct (turn_add (nopp dbl h2)) as (V1 & V2 & _); [apply Ho|lra|]. split; [exact V1|]. apply Rabs_le_inv in V2. unfold within. apply Rabs_le. rewrite Eo in V2. unfold u in *. lra.
Qed.
Lemma atan_zero7 s K : (7 <= K)%nat -> m_atan dbl K (S754_zero s) = Value (S754_zero false).
Proof.
  intros HK. destruct (atan_dbl (S754_zero s)) as (v & Ev & _); [split; [reflexivity|exact I]|]. rewrite Ev by exact HK. rewrite <- (Ev 7%nat (le_n _)).
  destruct s; vm_compute; reflexivity.
Qed.
Lemma atan2_inf_x_pos y : is_number y -> returns (fun n => m_atan2 dbl n y (S754_infinity false)) (S754_zero false).
Proof.
  intros [_ Hy]. exists 7%nat. intros k Hk. unfold m_atan2. destruct y as [s|[]| |s m e]; try now elim Hy; destruct s; now apply atan_zero7.
Qed.
Lemma atan2_inf_x_neg y : is_number y ->
  exists v, returns (fun n => m_atan2 dbl n y (S754_infinity true)) v /\ is_number v /\ within (1 / 10 ^ 14) (dval v) (if n_lt dbl y (nint dbl 0) then - PI else PI).
Proof.
  intros [_ Hy]. pose proof h1_pi as B1. destruct (dopp_ok h1) as [Ho Eo]; [apply h_num|].
  assert (nadd dbl (S754_zero false) h1 = h1) as A1 by reflexivity. assert (nsub dbl (S754_zero false) h1 = nopp dbl h1) as A2 by reflexivity.
  exists (if n_lt dbl y (nint dbl 0) then nopp dbl h1 else h1). split; [|destruct (n_lt dbl y (nint dbl 0)); (split; [apply Ho || apply h_num|]); unfold within; apply Rabs_le; lra].
  exists 7%nat. intros k Hk. unfold m_atan2. pose proof (atan_zero7 true k Hk) as Z1. pose proof (atan_zero7 false k Hk) as Z2.
  destruct y as [s|[]| |s m e]; try now elim Hy.
  - destruct s; cbn -[m_atan m_pi m_pi_2 h1 SFadd SFsub]; rewrite ?Z1, ?Z2; cbn -[m_atan m_pi m_pi_2 h1 SFadd SFsub]; rewrite h1_eq; reflexivity.
  - destruct s; cbn -[m_atan m_pi m_pi_2 h1 SFadd SFsub]; rewrite ?Z1, ?Z2; cbn -[m_atan m_pi m_pi_2 h1 SFadd SFsub]; rewrite h1_eq; reflexivity.
Qed.
Lemma atan2_inf_both s s' : runs_forever (fun n => m_atan2 dbl n (S754_infinity s) (S754_infinity s')).
Proof. intros n. pose proof (atan_nan n) as H. cbv beta in H. unfold m_atan2. destruct s, s'; cbn -[m_atan m_pi m_pi_2]; rewrite H; reflexivity. Qed.
Lemma atan2_nan_x y n : m_atan2 dbl n y S754_nan = Value (S754_zero false).
Proof. unfold m_atan2. destruct y as [[]|[]| |[] m e]; reflexivity. Qed.
Lemma atan2_nan_y x : is_double x ->
  if n_lt dbl (nint dbl 0) x then runs_forever (fun n => m_atan2 dbl n S754_nan x)
  else returns (fun n => m_atan2 dbl n S754_nan x) (S754_zero false).
Proof.
  intros _. destruct (n_lt dbl (nint dbl 0) x) eqn:L.
  - intros n. unfold m_atan2. rewrite L. change (ndiv dbl S754_nan x) with (@Value spec_float S754_nan). cbn [obind]. apply (atan_nan n).
  - exists 0%nat. intros n _. unfold m_atan2. rewrite L. reflexivity.
Qed.
Lemma atan2_zero s s' : returns (fun n => m_atan2 dbl n (S754_zero s) (S754_zero s')) (S754_zero false).
Proof. exists 0%nat. intros n _. destruct s, s'; reflexivity. Qed.
(** atan(1) is wrong in the fifth decimal *)
Lemma atan_1_wrong : exists v, returns (fun n => m_atan dbl n (nint dbl 1)) v /\ dval (nint dbl 1) = 1 /\ 3 / 10 ^ 5 < Rabs (dval v - atan 1).
Proof.
  destruct (dint_ok 1 eq_refl) as [H1 E1]. exists (S754_finite false 7073909534860246 (-53)).
  destruct (atan_dbl _ H1) as (v & Ev & _). assert (m_atan dbl 7 (nint dbl 1) = Value (S754_finite false 7073909534860246 (-53))) as E by (vm_compute; reflexivity).
  split; [exists 7%nat; intros k Hk; rewrite Ev by exact Hk; rewrite <- E; symmetry; apply Ev; lia|]. split; [exact E1|].
  rewrite atan_1. pose proof h2_pi as B. rewrite h2_val in B. rewrite Rabs_left; lit; lra.
Qed.
(** a positive angle underflows to zero *)
Definition dmin := S754_finite false 1 (-1074).
Lemma atan2_underflow : is_number dmin /\ 0 < dval dmin /\ dval (nint dbl 2) = 2 /\ returns (fun n => m_atan2 dbl n dmin (nint dbl 2)) (S754_zero false).
Proof.
  split; [split; [reflexivity|exact I]|]. split; [unfold dmin, dval; apply Rmult_lt_0_compat; [lra|apply powerRZ_lt; lra]|]. split; [apply (dint_ok 2); reflexivity|].
  exists 7%nat. intros k Hk. unfold m_atan2. change (n_lt dbl (nint dbl 0) (nint dbl 2)) with true. cbv iota.
  replace (ndiv dbl dmin (nint dbl 2)) with (Value (S754_zero false)) by (vm_compute; reflexivity). cbn [obind]. now apply atan_zero7.
Qed.
Lemma atan_infinity s :
  exists v, returns (fun n => m_atan dbl n (S754_infinity s)) v /\ is_number v /\ within (2 / 10 ^ 15) (dval v) (if s then - (PI / 2) else PI / 2).
Proof.
  pose proof h2_pi as B2. destruct (dopp_ok h2) as [Ho Eo]; [apply h_num|]. exists (if s then nopp dbl h2 else h2). split; [exists 7%nat; apply atan_inf|].
  destruct s; (split; [exact Ho || apply h_num|]); unfold within; apply Rabs_le; rewrite ?Eo; lra.
Qed.
Lemma atan2_inf_x y : is_number y ->
  returns (fun n => m_atan2 dbl n y (S754_infinity false)) (S754_zero false) /\
  exists v, returns (fun n => m_atan2 dbl n y (S754_infinity true)) v /\ is_number v /\
    within (1 / 10 ^ 14) (dval v) (if n_lt dbl y (nint dbl 0) then - PI else PI).
Proof. intros H. split; [now apply atan2_inf_x_pos|now apply atan2_inf_x_neg]. Qed.
