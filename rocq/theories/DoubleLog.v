(** mantissa, exponent and log on doubles *)
From Coq Require Import ZArith Reals Lra Lia Psatz.
From Coq.Floats Require Import SpecFloat.
From Flocq Require Import Core BinarySingleNaN Relative.
From Verif Require Import ModelCmath SpecCmath CmathBounds CmathReal CmathLog DoubleArith DoubleRound DoubleSqrt DoubleNear.
Open Scope R_scope.

(** ** Relative error *)
Lemma rnd_rel_normal r : bpow radix2 (-1022) <= Rabs r -> Rabs (rnd r - r) <= u * Rabs r.
Proof.
  intros H. eapply Rle_trans; [apply (relative_error_N_FLT radix2 (-1074) 53 eq_refl (fun x => negb (Z.even x)) r); exact H|].
  right. f_equal. unfold u. replace (bpow radix2 (- (53) + 1)) with (/ 4503599627370496) by (symmetry; exact (bpow_opp radix2 52)). field.
Qed.
Lemma number_mult x : is_number x -> exists m, dval x = IZR m * bpow radix2 (-1074).
Proof.
  intros [Hv Hn]. destruct x as [s|s| |s m e]; try easy.
  - exists 0%Z. simpl. ring.
  - assert (-1074 <= e)%Z as He.
    { unfold is_double in Hv. simpl in Hv. apply andb_prop in Hv. destruct Hv as [Hv _]. apply (canonical_canonical_mantissa 53 1024 s) in Hv.
      rewrite Hv. unfold cexp. unfold SpecFloat.fexp, SpecFloat.emin. simpl Fexp. lia. }
    exists (cond_Zopp s (Zpos m) * 2 ^ (e + 1074))%Z. rewrite mult_IZR.
    replace (IZR (2 ^ (e + 1074))) with (bpow radix2 (e + 1074)) by (rewrite <- IZR_Zpower by lia; reflexivity).
    rewrite Rmult_assoc, <- bpow_plus. replace (e + 1074 + -1074)%Z with e by ring. unfold dval. rewrite <- (bpow_powerRZ radix2).
    destruct s; simpl cond_Zopp; [rewrite <- (opp_IZR (Zpos m))|]; reflexivity.
Qed.
Lemma times10_rel x : is_number x -> Rabs (rnd (dval x * 10) - dval x * 10) <= u * Rabs (dval x * 10).
Proof.
  intros Hx. destruct (Rle_or_lt (bpow radix2 (-1022)) (Rabs (dval x * 10))) as [L|L].
  - now apply rnd_rel_normal.
  - destruct (number_mult x Hx) as [m Hm].
    assert (dval x * 10 = IZR (m * 10) * bpow radix2 (-1074)) as E by (rewrite Hm, mult_IZR; ring). rewrite E in *.
    rewrite rnd_id.
    + rewrite Rminus_eq_0, Rabs_R0. apply Rmult_le_pos; [left; apply u_pos|apply Rabs_pos].
    + apply fmt_FLT; [|lia]. rewrite Rabs_mult, (Rabs_right (bpow radix2 (-1074))) in L by (apply Rle_ge, bpow_ge_0).
      replace (bpow radix2 (-1022)) with (4503599627370496 * bpow radix2 (-1074)) in L.
      2:{ change 4503599627370496 with (bpow radix2 52). rewrite <- bpow_plus. reflexivity. }
      apply Rmult_lt_reg_r in L; [|apply bpow_gt_0]. rewrite <- abs_IZR in L. apply lt_IZR in L. rewrite p53. lia.
Qed.
Lemma ten_ok : is_number (nint dbl 10) /\ dval (nint dbl 10) = 10.
Proof. apply (dint_ok 10). reflexivity. Qed.
Lemma tenth_ok : exists t, ndec dbl 1 1 = Value t /\ is_number t /\ 1 / 10 <= dval t <= 1 / 10 + / 100000000000000000.
Proof.
  unfold dbl, ndec, ddec. eexists. split; [reflexivity|].
  assert (exists m e, SFdiv dprec demax (dint 1) (dint (10 ^ 1)) = S754_finite false m e /\ m = 7205759403792794%positive /\ e = (-56)%Z) as H.
  { do 2 eexists. split; [vm_compute; reflexivity|split; reflexivity]. }
  destruct H as (m & e & -> & -> & ->). split; [split; [vm_compute; reflexivity|exact I]|].
  unfold dval. rewrite <- (bpow_powerRZ radix2). replace (bpow radix2 (-56)) with (/ 72057594037927936) by (symmetry; exact (bpow_opp radix2 56)).
  lra.
Qed.
(** a double below 1 *)
Lemma below_one x : is_number x -> 0 <= dval x < 1 -> dval x <= 1 - u.
Proof.
  intros Hx [H0 H1]. destruct (Rle_or_lt (/ 2) (dval x)) as [L|L]; [|unfold u; lra].
  pose proof (rnd_format x Hx) as F. set (r := dval x) in *. clearbody r.
  red in F. set (c := cexp radix2 (SpecFloat.fexp 53 1024) r) in *.
  assert (-53 <= c)%Z as Hc.
  { unfold c, cexp, SpecFloat.fexp, SpecFloat.emin. assert (0 <= mag radix2 r)%Z; [|lia].
    apply mag_ge_bpow. simpl. rewrite Rabs_right; lra. }
  set (m := (Ztrunc (scaled_mantissa radix2 (SpecFloat.fexp 53 1024) r) * 2 ^ (c + 53))%Z).
  assert (r = IZR m * u) as E.
  { unfold m, u. replace (/ 9007199254740992) with (bpow radix2 (-53)) by exact (bpow_opp radix2 53).
    rewrite mult_IZR. change 2%Z with (radix_val radix2) at 1. rewrite IZR_Zpower by lia.
    rewrite Rmult_assoc, <- bpow_plus. replace (c + 53 + -53)%Z with c by ring. exact F. }
  rewrite E in *. unfold u in *. assert (IZR m < 9007199254740992) as Hm by lra. apply lt_IZR in Hm.
  assert (IZR m <= 9007199254740991) by (apply IZR_le; lia). lra.
Qed.
Lemma ten_below : rnd ((1 - u) * 10) < 10.
Proof.
  pose (x := S754_finite false 9007199254740991 (-53)).
  assert (is_number x) as Hx by (split; [vm_compute; reflexivity|exact I]).
  assert (dval x = 1 - u) as Ex by (unfold x; rewrite almost_one by reflexivity; unfold u; reflexivity).
  destruct (dmul_ok x (nint dbl 10) Hx (proj1 ten_ok)) as [H1 H2].
  { apply small_big. rewrite Ex, (proj2 ten_ok). change (IZR (2 ^ 60)) with 1152921504606846976. unfold u. apply Rabs_def1; lra. }
  rewrite (proj2 ten_ok), Ex in H2. rewrite <- H2.
  assert (n_lt dbl (nmul dbl x (nint dbl 10)) (nint dbl 10) = true) as L by (vm_compute; reflexivity).
  rewrite dlt in L by (assumption || apply ten_ok). rewrite (proj2 ten_ok) in L.
  destruct (Rlt_bool_spec (dval (nmul dbl x (nint dbl 10))) 10); [assumption|discriminate].
Qed.

(** ** The loop, for mantissa and exponent together *)
Definition scaled (x : spec_float) (N : nat) (m : spec_float) (k : Z) : Prop :=
  (forall K, (N < K)%nat -> mantissa dbl K x = Value m) /\
  (forall K a, (N < K)%nat -> (Z.abs a + Z.of_nat N <= 1000000)%Z -> exponent_helper dbl K x a = Value (a + k)%Z) /\
  is_number m /\ 1 <= dval m < 10 /\ (Z.abs k <= Z.of_nat N)%Z /\
  Rabs (dval m * powerRZ 10 k - dval x) <= 4 * u * IZR (Z.abs k) * dval x.
Lemma mantissa_S K x : mantissa dbl (S K) x =
  if n_le dbl (nint dbl 10) x then obind (ndec dbl 1 1) (fun t => mantissa dbl K (nmul dbl x t))
  else if n_lt dbl x (nint dbl 1) then mantissa dbl K (nmul dbl x (nint dbl 10)) else Value x.
Proof. reflexivity. Qed.
Lemma exponent_S K x e : exponent_helper dbl (S K) x e =
  if n_le dbl (nint dbl 10) x then obind (ndec dbl 1 1) (fun t => obind (int_ok (e + 1)%Z) (fun e => exponent_helper dbl K (nmul dbl x t) e))
  else if n_lt dbl x (nint dbl 1) then obind (int_ok (e - 1)%Z) (fun e => exponent_helper dbl K (nmul dbl x (nint dbl 10)) e) else Value e.
Proof. reflexivity. Qed.
Lemma scaled_in x N : is_number x -> 1 <= dval x < 10 -> scaled x N x 0.
Proof.
  intros Hx Hr.
  assert (n_le dbl (nint dbl 10) x = false) as E1 by (rewrite dle by (assumption || apply ten_ok); rewrite (proj2 ten_ok); apply Rle_bool_false; lra).
  assert (n_lt dbl x (nint dbl 1) = false) as E2 by (rewrite dlt by (assumption || apply one_ok); rewrite (proj2 one_ok); apply Rlt_bool_false; lra).
  split; [|split; [|split; [exact Hx|split; [exact Hr|split; [simpl; lia|]]]]].
  - intros [|K] HK; [lia|]. rewrite mantissa_S, E1, E2. reflexivity.
  - intros [|K] a HK _; [lia|]. rewrite exponent_S, E1, E2. f_equal. lia.
  - simpl. rewrite Rmult_1_r, Rminus_eq_0, Rabs_R0. lra.
Qed.
Lemma scaled_up N : (Z.of_nat N <= 10000)%Z -> forall x, is_number x -> 1 <= dval x -> dval x < 10 * 9 ^ N -> exists m k, (0 <= k)%Z /\ scaled x N m k.
Proof.
  induction N as [|N IH]; intros HN x Hx H1 H2.
  { exists x, 0%Z. split; [lia|]. apply scaled_in; [exact Hx|]. simpl in H2. lra. }
  destruct (Rlt_or_le (dval x) 10) as [L|L].
  { exists x, 0%Z. split; [lia|]. apply scaled_in; [exact Hx|]. lra. }
  destruct tenth_ok as (t & Et & Ht & Vt). pose proof (max_below x Hx) as Hmax. rewrite Rabs_right in Hmax by lra.
  assert (1 <= dval x * dval t <= dval x) as B by nra.
  destruct (dmul_ok x t Hx Ht) as [Hy Vy].
  { apply near_big. rewrite Rabs_right by lra. eapply Rle_trans; [apply B|apply le_max, Hx]. }
  set (y := nmul dbl x t) in *.
  assert (1 <= dval y) as Y1. { rewrite Vy. rewrite <- (rnd_id (IZR 1)) at 1 by (apply fmt_int; reflexivity). apply rnd_le. apply B. }
  assert (Rabs (dval y - dval x / 10) <= 3 * u * (dval x / 10)) as Y2.
  { pose proof (rnd_rel_normal (dval x * dval t)) as R. rewrite <- Vy in R. rewrite (Rabs_right (dval x * dval t)) in R by lra.
    assert (bpow radix2 (-1022) <= dval x * dval t) as R0.
    { eapply Rle_trans; [|apply B]. change 1 with (bpow radix2 0). apply bpow_le. lia. }
    specialize (R R0). apply Rabs_le_inv in R.
    assert (dval x * dval t - dval x / 10 <= dval x * / 100000000000000000) as D by nra.
    assert (0 <= dval x * dval t - dval x / 10) as D' by nra. apply Rabs_le. unfold u in *. lra. }
  apply Rabs_le_inv in Y2. destruct (IH ltac:(lia) y Hy Y1) as (m & k & Hk & S1 & S2 & S3 & S4 & S5 & S6).
  { simpl in H2. unfold u in Y2. lra. }
  exists m, (k + 1)%Z. split; [lia|].
  assert (n_le dbl (nint dbl 10) x = true) as E1 by (rewrite dle by (assumption || apply ten_ok); rewrite (proj2 ten_ok); apply Rle_bool_true; lra).
  split; [|split; [|split; [exact S3|split; [exact S4|split; [lia|]]]]].
  - intros [|K] HK; [lia|]. rewrite mantissa_S, E1, Et. cbn [obind]. apply S1. lia.
  - intros [|K] a HK Ha; [lia|]. rewrite exponent_S, E1, Et. cbn [obind]. rewrite int_ok_in by (unfold int_min, int_max; lia). cbn [obind].
    unfold y in S2. rewrite S2 by lia. f_equal. lia.
  - rewrite powerRZ_add by lra. change (powerRZ 10 1) with (10 * 1). rewrite (Z.abs_eq (k + 1)), (Z.abs_eq k) in * by lia. rewrite plus_IZR.
    assert (0 <= IZR k <= 10000) as Bk by (split; apply IZR_le; lia).
    set (P := dval m * powerRZ 10 k) in *. replace (dval m * (powerRZ 10 k * (10 * 1)) - dval x) with (10 * (P - dval y) + (10 * dval y - dval x)) by (unfold P; ring).
    apply Rabs_le_inv in S6. set (X := dval x) in *. set (Y := dval y) in *.
    assert (u * IZR k * Y <= u * IZR k * (X / 10) + u * 10000 * (3 * u * (X / 10))) as Hb.
    { replace (u * IZR k * Y) with (u * IZR k * (X / 10) + u * IZR k * (Y - X / 10)) by ring. apply Rplus_le_compat_l.
      apply Rle_trans with (u * IZR k * (3 * u * (X / 10))).
      - apply Rmult_le_compat_l; [apply Rmult_le_pos; [left; apply u_pos|lra]|lra].
      - apply Rmult_le_compat_r; [unfold u; lra|]. apply Rmult_le_compat_l; [left; apply u_pos|lra]. }
    apply Rabs_le. unfold u in *. lra.
Qed.
Lemma scaled_down N : (Z.of_nat N <= 10000)%Z -> forall x, is_number x -> 0 < dval x < 10 -> 1 <= dval x * 9 ^ N -> exists m k, (k <= 0)%Z /\ scaled x N m k.
Proof.
  induction N as [|N IH]; intros HN x Hx [H1 H1'] H2.
  { exists x, 0%Z. split; [lia|]. apply scaled_in; [exact Hx|]. simpl in H2. lra. }
  destruct (Rlt_or_le (dval x) 1) as [L|L].
  2:{ exists x, 0%Z. split; [lia|]. apply scaled_in; [exact Hx|]. lra. }
  destruct (dmul_ok x (nint dbl 10) Hx (proj1 ten_ok)) as [Hy Vy].
  { apply small_big. rewrite (proj2 ten_ok). change (IZR (2 ^ 60)) with 1152921504606846976. apply Rabs_def1; lra. }
  rewrite (proj2 ten_ok) in Vy. set (y := nmul dbl x (nint dbl 10)) in *.
  assert (dval y < 10) as Y1.
  { rewrite Vy. eapply Rle_lt_trans; [|apply ten_below]. apply rnd_le. pose proof (below_one x Hx ltac:(lra)). lra. }
  pose proof (times10_rel x Hx) as Y2. rewrite <- Vy in Y2. rewrite (Rabs_right (dval x * 10)) in Y2 by lra. apply Rabs_le_inv in Y2.
  destruct (IH ltac:(lia) y Hy) as (m & k & Hk & S1 & S2 & S3 & S4 & S5 & S6).
  { unfold u in Y2. lra. }
  { eapply Rle_trans; [exact H2|]. simpl. rewrite <- Rmult_assoc. apply Rmult_le_compat_r; [apply pow_le; lra|]. unfold u in Y2. lra. }
  exists m, (k - 1)%Z. split; [lia|].
  assert (n_le dbl (nint dbl 10) x = false) as E1 by (rewrite dle by (assumption || apply ten_ok); rewrite (proj2 ten_ok); apply Rle_bool_false; lra).
  assert (n_lt dbl x (nint dbl 1) = true) as E2 by (rewrite dlt by (assumption || apply one_ok); rewrite (proj2 one_ok); apply Rlt_bool_true; lra).
  split; [|split; [|split; [exact S3|split; [exact S4|split; [lia|]]]]].
  - intros [|K] HK; [lia|]. rewrite mantissa_S, E1, E2. apply S1. lia.
  - intros [|K] a HK Ha; [lia|]. rewrite exponent_S, E1, E2. rewrite int_ok_in by (unfold int_min, int_max; lia). cbn [obind].
    unfold y in S2. rewrite S2 by lia. f_equal. lia.
  - unfold Z.sub. rewrite powerRZ_add by lra. change (powerRZ 10 (- (1))) with (/ (10 * 1)). rewrite Rmult_1_r.
    rewrite (Z.abs_neq k) in * by lia. rewrite (Z.abs_neq (k + - (1))) by lia. replace (- (k + - (1)))%Z with (- k + 1)%Z by ring. rewrite plus_IZR.
    assert (0 <= IZR (- k) <= 10000) as Bk by (split; apply IZR_le; lia).
    set (P := dval m * powerRZ 10 k) in *. replace (dval m * (powerRZ 10 k * / 10) - dval x) with ((P - dval y) / 10 + (dval y / 10 - dval x)) by (unfold P; field).
    apply Rabs_le_inv in S6. set (X := dval x) in *. set (Y := dval y) in *. set (j := IZR (- k)) in *.
    assert (u * j * Y <= u * j * (X * 10) + u * 10000 * (u * (X * 10))) as Hb.
    { replace (u * j * Y) with (u * j * (X * 10) + u * j * (Y - X * 10)) by ring. apply Rplus_le_compat_l.
      apply Rle_trans with (u * j * (u * (X * 10))).
      - apply Rmult_le_compat_l; [apply Rmult_le_pos; [left; apply u_pos|lra]|lra].
      - apply Rmult_le_compat_r; [unfold u; lra|]. apply Rmult_le_compat_l; [left; apply u_pos|lra]. }
    apply Rabs_le. unfold u in *. lra.
Qed.
(** every positive double *)
Lemma scaled_all x : is_number x -> 0 < dval x -> exists m k, scaled x 340 m k.
Proof.
  intros Hx Hp. destruct (Rlt_or_le (dval x) 10) as [L|L].
  - destruct (scaled_down 340 ltac:(simpl; lia) x Hx (conj Hp L)) as (m & k & _ & S); [|now exists m, k].
    pose proof (positive_min x Hx Hp) as M. apply Rle_trans with (bpow radix2 (-1074) * 9 ^ 340).
    + replace (9 ^ 340) with (IZR (9 ^ 340)) by (rewrite pow_IZR; reflexivity).
      apply (Rmult_le_reg_l (bpow radix2 1074)); [apply bpow_gt_0|]. rewrite <- Rmult_assoc, <- bpow_plus, Rmult_1_r. simpl (1074 + -1074)%Z.
      change (bpow radix2 0) with 1. rewrite Rmult_1_l, <- IZR_Zpower by lia. apply IZR_le. vm_compute. discriminate.
    + apply Rmult_le_compat_r; [apply pow_le; lra|exact M].
  - destruct (scaled_up 340 ltac:(simpl; lia) x Hx ltac:(lra)) as (m & k & _ & S); [|now exists m, k].
    pose proof (max_below x Hx) as M. rewrite Rabs_right in M by lra. eapply Rlt_le_trans; [exact M|]. unfold big.
    replace (10 * 9 ^ 340) with (IZR (10 * 9 ^ 340)) by (rewrite mult_IZR, pow_IZR; reflexivity).
    rewrite <- IZR_Zpower by lia. apply IZR_le. vm_compute. discriminate.
Qed.

(** ** The series *)
Lemma pow_unit Y k : -1 <= Y <= 1 -> (1 <= k)%nat -> - Rabs Y <= Y ^ k <= Rabs Y.
Proof.
  intros HY Hk. apply Rabs_le_inv. rewrite <- RPow_abs. destruct k as [|k]; [lia|]. simpl.
  assert (Rabs Y <= 1) as H by now apply Rabs_le. assert (Rabs Y ^ k <= 1).
  { rewrite <- (pow1 k). apply pow_incr. split; [apply Rabs_pos|exact H]. }
  pose proof (Rabs_pos Y). nra.
Qed.
Lemma log_helper_double g : is_number g -> 99 / 100 <= dval g <= 317 / 100 ->
  exists v, (forall K, (11 <= K)%nat -> log_helper dbl K g = Value v) /\
    near (2400 * u) v (ln_series ((dval g - 1) / (dval g + 1))).
Proof.
  intros Hg Bg. pose proof u_pos as Hu. set (G := dval g) in *.
  assert (near (6 * u) (nsub dbl g (nint dbl 1)) (G - 1)) as N1.
  { apply (near_sub_u (22 / 10) 0 0); try lra; [now apply near_exact_u|apply (near_int_u 1); reflexivity]. }
  assert (near (12 * u) (nadd dbl g (nint dbl 1)) (G + 1)) as N2.
  { apply (near_add_u 5 0 0); try lra; [now apply near_exact_u|apply (near_int_u 1); reflexivity]. }
  set (Y := (G - 1) / (G + 1)).
  assert (Y * (G + 1) = G - 1) as EY by (unfold Y; field; lra).
  assert (- (1 / 100) <= Y <= 53 / 100) as BY by nra.
  destruct (near_div 2 _ _ _ _ _ _ (198 / 100) N1 N2) as (y & Ey & Ny); try (rewrite ?(Rabs_right (G + 1)) by lra; unfold u; lra).
  { assert (Rabs ((G - 1) / (G + 1)) <= 53 / 100) as A by (apply Rabs_le; fold Y; lra).
    assert (Rabs (G - 1) <= 22 / 10) by (apply Rabs_le; lra). unfold u. lra. }
  { unfold mbig. lra. }
  assert (near (16 * u) y Y) as Ny'.
  { eapply near_weaken; [exact Ny|]. assert (Rabs ((G - 1) / (G + 1)) <= 53 / 100) as A by (apply Rabs_le; fold Y; lra). unfold u. lra. }
  assert (Rabs Y <= 53 / 100) as AY by (apply Rabs_le; lra).
  assert (forall k c, (1 <= k <= 11)%nat -> (1 < c < 20)%Z -> exists p q, (forall N, (11 <= N)%nat -> m_pow dbl N y (Z.of_nat k) = Value p) /\
    ndiv dbl p (nint dbl c) = Value q /\ near (224 * u) q (Y ^ k / IZR c) /\ - (27 / 100) <= Y ^ k / IZR c <= 27 / 100) as T.
  { intros k c Hk Hc. destruct (near_pow_u 16 y Y k Ny') as (p & Hp & Np); [unfold u; lra|unfold u; lra|lra|lia|].
    pose proof (pow_unit Y k ltac:(lra) ltac:(lia)) as B. assert (2 <= IZR c) as C2 by (apply IZR_le; lia).
    assert (0 < / IZR c <= / 2) as Ci by (split; [apply Rinv_0_lt_compat; lra|apply Rinv_le_contravar; lra]).
    assert (- (27 / 100) <= Y ^ k / IZR c <= 27 / 100) as B' by (unfold Rdiv; nra).
    assert (INR k * (16 + 4) <= 220) as Bk.
    { assert (INR k <= 11) by (replace 11 with (INR 11) by (rewrite INR_IZR_INZ; reflexivity); apply le_INR; lia). lra. }
    destruct (near_div_int_u 1 220 224 p (Y ^ k) c) as (q & Eq & Nq); try lra; try lia.
    { eapply near_weaken; [exact Np|]. apply Rmult_le_compat_r; lra. }
    exists p, q. split; [intros N HN; apply Hp; lia|]. split; [exact Eq|split; [exact Nq|exact B']]. }
  destruct (T 3%nat 3%Z ltac:(lia) ltac:(lia)) as (p3 & q3 & E3 & F3 & N3 & B3).
  destruct (T 5%nat 5%Z ltac:(lia) ltac:(lia)) as (p5 & q5 & E5 & F5 & N5 & B5).
  destruct (T 7%nat 7%Z ltac:(lia) ltac:(lia)) as (p7 & q7 & E7 & F7 & N7 & B7).
  destruct (T 9%nat 9%Z ltac:(lia) ltac:(lia)) as (p9 & q9 & E9 & F9 & N9 & B9).
  destruct (T 11%nat 11%Z ltac:(lia) ltac:(lia)) as (p11 & q11 & E11 & F11 & N11 & B11). clear T.
  eexists. split.
  - intros K HK. unfold log_helper, log_helper2. rewrite Ey. cbn [obind].
    specialize (E3 K HK). specialize (E5 K HK). specialize (E7 K HK). specialize (E9 K HK). specialize (E11 K HK).
    simpl Z.of_nat in *.
    rewrite E3. cbn [obind]. rewrite F3. cbn [obind]. rewrite E5. cbn [obind]. rewrite F5. cbn [obind]. rewrite E7. cbn [obind]. rewrite F7. cbn [obind].
    rewrite E9. cbn [obind]. rewrite F9. cbn [obind]. rewrite E11. cbn [obind]. rewrite F11. cbn [obind]. reflexivity.
  - unfold ln_series. fold Y.
    assert (near (246 * u) (nadd dbl y q3) (Y + Y ^ 3 / 3)) as S3' by (apply (near_add_u 2 16 224); lra || assumption).
    assert (near (476 * u) (nadd dbl (nadd dbl y q3) q5) (Y + Y ^ 3 / 3 + Y ^ 5 / 5)) as S5 by (apply (near_add_u 2 246 224); lra || assumption).
    assert (near (706 * u) (nadd dbl (nadd dbl (nadd dbl y q3) q5) q7) (Y + Y ^ 3 / 3 + Y ^ 5 / 5 + Y ^ 7 / 7)) as S7
      by (apply (near_add_u 2 476 224); lra || assumption).
    assert (near (936 * u) (nadd dbl (nadd dbl (nadd dbl (nadd dbl y q3) q5) q7) q9) (Y + Y ^ 3 / 3 + Y ^ 5 / 5 + Y ^ 7 / 7 + Y ^ 9 / 9)) as S9
      by (apply (near_add_u 2 706 224); lra || assumption).
    assert (near (1166 * u) (nadd dbl (nadd dbl (nadd dbl (nadd dbl (nadd dbl y q3) q5) q7) q9) q11)
      (Y + Y ^ 3 / 3 + Y ^ 5 / 5 + Y ^ 7 / 7 + Y ^ 9 / 9 + Y ^ 11 / 11)) as S11 by (apply (near_add_u 2 936 224); lra || assumption).
    apply (near_mul_u 2 2 0 1166 2400 _ _ 2 _ (near_int_u 2 eq_refl) S11); lra.
Qed.

Lemma ln_quot a b : 0 < a -> 0 < b -> ln (a / b) = ln a - ln b.
Proof. intros Ha Hb. unfold Rdiv. rewrite ln_mult, ln_Rinv by (assumption || now apply Rinv_0_lt_compat). ring. Qed.
Lemma ln_series_near y : - (52 / 100) <= y <= 52 / 100 -> Rabs (ln ((1 + y) / (1 - y)) - ln_series y) <= 43 / 10 ^ 6.
Proof.
  assert (forall y, 0 <= y <= 52 / 100 -> Rabs (ln ((1 + y) / (1 - y)) - ln_series y) <= 43 / 10 ^ 6) as P.
  { clear y. intros y Hy. destruct (ln_series_ok (52 / 100) y Hy) as [L1 L2]; [lra|].
    assert (y ^ 13 <= (52 / 100) ^ 13) as L3 by (apply pow_incr; lra).
    replace (13 * (1 - (52 / 100) ^ 2)) with (1 / (625 / 5928)) in L2 by field.
    replace (2 * y ^ 13 / (1 / (625 / 5928))) with (2 * (625 / 5928) * y ^ 13) in L2 by field. apply Rabs_le. lra. }
  intros Hy. destruct (Rle_or_lt 0 y) as [H|H]; [apply P; lra|]. specialize (P (- y) ltac:(lra)).
  replace (ln ((1 + y) / (1 - y))) with (- ln ((1 + - y) / (1 - - y))).
  - replace (ln_series y) with (- ln_series (- y)) by (unfold ln_series; field).
    rewrite <- Rabs_Ropp. replace (- (- ln ((1 + - y) / (1 - - y)) - - ln_series (- y))) with (ln ((1 + - y) / (1 - - y)) - ln_series (- y)) by ring. exact P.
  - rewrite !ln_quot by lra. replace (1 + - y) with (1 - y) by ring. replace (1 - - y) with (1 + y) by ring. ring.
Qed.
Lemma ln10_dbl : exists c, ndec dbl 23025851 7 = Value c /\ near (5 * u) c (23025851 / 10000000).
Proof.
  destruct (near_dec (25 / 10) 23025851 7) as (c & E & Nc); [reflexivity|split; reflexivity|apply Rabs_le; simpl; lra|unfold mbig; lra|].
  exists c. split; [exact E|]. eapply near_weaken; [exact Nc|]. lra.
Qed.
(** ** log *)
Lemma log_double x : is_number x -> 0 < dval x ->
  exists v, returns (fun n => m_log dbl n x) v /\ is_number v /\ within (11 / 10000) (dval v) (ln (dval x)).
Proof.
  intros Hx Hp. pose proof u_pos as Hu. destruct (scaled_all x Hx Hp) as (m & k & S1 & S2 & Hm & Bm & Bk & Em).
  destruct (sqrt_double m Hm ltac:(lra)) as (g & Rg & Hg & Pg & Eg & Lg).
  set (X := dval x) in *. set (M := dval m) in *. set (G := dval g) in *.
  assert (1 <= R_sqrt.sqrt M) as HS. { rewrite <- sqrt_1. apply sqrt_le_1; lra. }
  assert (1 - dl <= G) as G1.
  { destruct Lg as [->|Lg]; [unfold dl; lra|]. eapply Rle_trans; [|exact Lg]. unfold dl in *. nra. }
  apply Rabs_le_inv in Eg as Eg'. assert (G <= 3165 / 1000) as G2 by (apply Rnot_lt_le; intros L; nra).
  destruct (log_helper_double g Hg) as (l & El & Nl); [fold G; unfold dl in *; lra|].
  destruct ln10_dbl as (c & Ec & Nc).
  assert (Rabs (IZR k) <= 340) as Bk'. { rewrite <- abs_IZR. apply IZR_le. exact Bk. }
  apply Rabs_le_inv in Bk' as Bk2.
  fold G in Nl. set (Y := (G - 1) / (G + 1)) in *.
  assert (Y * (G + 1) = G - 1) as EY by (unfold Y; field; lra).
  assert (- (52 / 100) <= Y <= 52 / 100) as BY by (unfold dl in *; nra).
  pose proof (ln_series_near Y BY) as LS.
  replace ((1 + Y) / (1 - Y)) with G in LS by (unfold Y; field; lra).
  assert (Rabs (ln M - ln (G * G)) <= (1000001 / 1000000000) / (1 - 1000001 / 1000000000)) as LM.
  { apply ln_close; [lra|nra|lra|]. exact Eg. }
  rewrite ln_mult in LM by lra.
  assert (0 < powerRZ 10 k) as Pk by (apply powerRZ_lt; lra).
  assert (Rabs (ln X - ln (M * powerRZ 10 k)) <= / 1000000000) as LX.
  { eapply Rle_trans; [apply (ln_close X (M * powerRZ 10 k) (/ 10000000000))|lra]; try lra; [nra|].
    rewrite abs_IZR in Em. apply Rabs_le_inv in Em as Em2.
    assert (4 * u * Rabs (IZR k) * X <= / 100000000000 * X) as Z1 by (apply Rmult_le_compat_r; unfold u; lra).
    apply Rabs_le. lra. }
  rewrite ln_mult in LX by lra.
  assert (ln (powerRZ 10 k) = IZR k * ln 10) as Elk. { rewrite powerRZ_Rpower by lra. unfold Rpower. apply ln_exp. }
  rewrite Elk in LX.
  assert (Rabs ((23025851 / 10000000 - ln 10) * IZR k) <= 71 / 10 ^ 10 * 340) as L10.
  { rewrite Rabs_mult. apply Rmult_le_compat; try apply Rabs_pos; [apply ln10_ok|exact Bk']. }
  apply Rabs_le_inv in LM, LX, L10, LS.
  assert (Rabs (ln G) <= 4) as LG.
  { assert (ln G <= 4) as U1. { apply Rnot_lt_le. intros L. apply exp_increasing in L. rewrite exp_ln in L by lra.
      pose proof (exp_ineq1 4 ltac:(lra)). lra. }
    assert (- (1) <= ln G) as U2. { apply Rnot_lt_le. intros L. apply exp_increasing in L. rewrite exp_ln in L by lra.
      rewrite exp_Ropp in L. pose proof (exp_ineq1 1 ltac:(lra)). assert (/ exp 1 <= / 2) by (apply Rinv_le_contravar; lra). unfold dl in *. lra. }
    apply Rabs_le. lra. }
  apply Rabs_le_inv in LG.
  assert (near (5000 * u) (nmul dbl (nint dbl 2) l) (2 * ln_series Y)) as N1.
  { apply (near_mul_u 2 5 0 2400); try lra; [apply (near_int_u 2); reflexivity|exact Nl]. }
  assert (near (10000 * u) (nmul dbl c (nint dbl k)) (23025851 / 10000000 * IZR k)) as N2.
  { apply (near_mul_u 3 340 5 0); try lra; [exact Nc|apply near_int_u; lia]. }
  assert (near (20000 * u) (nadd dbl (nmul dbl (nint dbl 2) l) (nmul dbl c (nint dbl k))) (2 * ln_series Y + 23025851 / 10000000 * IZR k)) as [N3 N4].
  { apply (near_add_u 1000 5000 10000); lra || assumption. }
  exists (nadd dbl (nmul dbl (nint dbl 2) l) (nmul dbl c (nint dbl k))). split; [|split; [exact N3|]].
  - assert (n_eq dbl x (nint dbl 0) = false) as E0.
    { rewrite deq by (assumption || apply zero_ok). rewrite (proj2 zero_ok). apply Req_bool_false. apply Rgt_not_eq. exact Hp. }
    assert (n_lt dbl x (nint dbl 0) = false) as E1.
    { rewrite dlt by (assumption || apply zero_ok). rewrite (proj2 zero_ok). apply Rlt_bool_false. left. exact Hp. }
    eapply ret_ext. { intros n. unfold m_log. rewrite E0, E1. reflexivity. }
    eapply ret_bind. { exists 341%nat. intros n Hn. apply S1. exact Hn. }
    eapply ret_bind; [exact Rg|]. eapply ret_bind. { exists 11%nat. exact El. }
    eapply ret_bind; [apply ret_eq; intros n; exact Ec|]. eapply ret_bind; [|apply ret_val].
    exists 341%nat. intros n Hn. apply (S2 n 0%Z); [exact Hn|]. simpl. lia.
  - apply Rabs_le_inv in N4. unfold within. apply Rabs_le. unfold u in N4. fold X. lra.
Qed.
Lemma mantissa_exponent x : is_number x -> 0 < dval x ->
  exists m e, returns (fun n => mantissa dbl n x) m /\ returns (fun n => exponent dbl n x) e /\
    is_number m /\ 1 <= dval m < 10 /\ Rabs (dval m * powerRZ 10 e - dval x) <= 2 / 10 ^ 13 * dval x.
Proof.
  intros Hx Hp. destruct (scaled_all x Hx Hp) as (m & k & S1 & S2 & Hm & Bm & Bk & Em). exists m, k.
  split; [exists 341%nat; intros n Hn; apply S1; exact Hn|].
  split; [exists 341%nat; intros n Hn; apply (S2 n 0%Z); [exact Hn|simpl; lia]|].
  split; [exact Hm|split; [exact Bm|]]. eapply Rle_trans; [exact Em|].
  assert (IZR (Z.abs k) <= 340) as Bk' by (apply IZR_le; exact Bk). apply Rmult_le_compat_r; [lra|].
  unfold u. lra.
Qed.
(** ** The other doubles *)
Lemma log_zero s : returns (fun n => m_log dbl n (S754_zero s)) (S754_infinity true).
Proof. exists 0%nat. intros n _. now destruct s. Qed.
Lemma log_neg m e : returns (fun n => m_log dbl n (S754_finite true m e)) S754_nan.
Proof. exists 0%nat. intros n _. reflexivity. Qed.
Lemma log_neg_inf : returns (fun n => m_log dbl n (S754_infinity true)) S754_nan.
Proof. exists 0%nat. intros n _. reflexivity. Qed.
Lemma mantissa_inf n : mantissa dbl n (S754_infinity false) = Unfinished.
Proof. induction n as [|n IH]; [reflexivity|]. rewrite mantissa_S. exact IH. Qed.
Lemma log_inf : runs_forever (fun n => m_log dbl n (S754_infinity false)).
Proof. intros n. unfold m_log. change (n_eq dbl (S754_infinity false) (nint dbl 0)) with false. change (n_lt dbl (S754_infinity false) (nint dbl 0)) with false. cbv iota. now rewrite mantissa_inf. Qed.
Lemma log_nan : runs_forever (fun n => m_log dbl n S754_nan).
Proof.
  intros [|n]; [reflexivity|]. unfold m_log. change (n_eq dbl S754_nan (nint dbl 0)) with false. change (n_lt dbl S754_nan (nint dbl 0)) with false.
  cbv iota. rewrite mantissa_S. change (n_le dbl (nint dbl 10) S754_nan) with false. change (n_lt dbl S754_nan (nint dbl 1)) with false. cbv iota. cbn [obind].
  pose proof (sqrt_zero_inf S754_nan) as H. rewrite H by tauto. reflexivity.
Qed.
Lemma log_negative x : is_double x -> n_lt dbl x (nint dbl 0) = true -> returns (fun n => m_log dbl n x) S754_nan.
Proof. intros Hx H. destruct x as [s|[]| |[] m e]; try discriminate H; [apply log_neg_inf|apply log_neg]. Qed.
Lemma log_cases x : is_double x ->
  (is_number x /\ 0 < dval x) \/ (exists s, x = S754_zero s) \/ n_lt dbl x (nint dbl 0) = true \/
  x = S754_infinity false \/ x = S754_nan.
Proof.
  intros Hx. destruct x as [s|[]| |[] m e]; eauto.
  left. split; [now split|]. unfold dval. apply Rmult_lt_0_compat; [apply IZR_lt; lia|apply powerRZ_lt; lra].
Qed.
Lemma mantissa_1250 : is_number (dint 1250) /\ dval (dint 1250) = 1250 /\
  mantissa dbl 4 (dint 1250) = Value (S754_finite false 5629499534213120 (-52)) /\ exponent dbl 4 (dint 1250) = Value 3%Z.
Proof.
  destruct (dint_ok 1250 eq_refl) as [H1 H2]. split; [exact H1|split; [exact H2|split; vm_compute; reflexivity]].
Qed.
Lemma log_2_double : is_number (dint 2) /\ dval (dint 2) = 2 /\
  m_log dbl 12 (dint 2) = Value (S754_finite false 6243341822303222 (-53)).
Proof.
  destruct (dint_ok 2 eq_refl) as [H1 H2]. split; [exact H1|split; [exact H2|vm_compute; reflexivity]].
Qed.
(** 11 is split into the double nearest to 1.1, and 1 *)
Lemma mantissa_11 : exists m e, is_number (dint 11) /\ dval (dint 11) = 11 /\
  returns (fun n => mantissa dbl n (dint 11)) m /\ returns (fun n => exponent dbl n (dint 11)) e /\ dval m * powerRZ 10 e <> dval (dint 11).
Proof.
  exists (S754_finite false 4953959590107546 (-52)), 1%Z. destruct (dint_ok 11 eq_refl) as [H1 H2]. change (nint dbl 11) with (dint 11) in H1, H2.
  split; [exact H1|split; [exact H2|split; [|split]]].
  - exists 6%nat. intros k Hk. replace k with (6 + (k - 6))%nat by lia. generalize (k - 6)%nat as j. intros j. vm_compute. reflexivity.
  - exists 6%nat. intros k Hk. replace k with (6 + (k - 6))%nat by lia. generalize (k - 6)%nat as j. intros j. vm_compute. reflexivity.
  - rewrite H2. unfold dval. simpl powerRZ. lra.
Qed.
