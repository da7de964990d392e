(** nearest, fraction and exp on doubles *)
From Coq Require Import ZArith Reals Lra Lia Psatz.
From Coq.Floats Require Import SpecFloat.
From Flocq Require Import Core BinarySingleNaN.
From Verif Require Import ModelCmath SpecCmath CmathBounds CmathReal CmathExp DoubleArith DoubleRound DoubleSqrt DoubleNear.
Open Scope R_scope.

(** ** nearest and fraction *)
Lemma p2 e : (0 <= e)%Z -> IZR (2 ^ e) = bpow radix2 e.
Proof. intros H. rewrite <- IZR_Zpower by exact H. reflexivity. Qed.
(** subtracting a multiple of 1/2 is exact if the result is not larger *)
Lemma fmt_half x z : is_number x -> Rabs (dval x) < 2147483648 -> Rabs (dval x - IZR z / 2) <= Rabs (dval x) ->
  generic_format radix2 (SpecFloat.fexp 53 1024) (dval x - IZR z / 2).
Proof.
  intros Hx Hl Hs. pose proof (rnd_format x Hx) as F. set (X := dval x) in *. clearbody X. red in F.
  set (c := cexp radix2 (SpecFloat.fexp 53 1024) X) in *. set (m := Ztrunc (scaled_mantissa radix2 (SpecFloat.fexp 53 1024) X)) in *.
  assert (-1074 <= c)%Z as Hc by (unfold c, cexp, SpecFloat.fexp, SpecFloat.emin; lia).
  unfold F2R in F. simpl in F.
  assert (exists m' c', (c' <= -1)%Z /\ (-1074 <= c')%Z /\ X = IZR m' * bpow radix2 c' /\ Rabs X < 9007199254740992 * bpow radix2 c') as (m' & c' & H1 & H2 & H3 & H4).
  { destruct (Z_le_gt_dec c (-1)) as [L|L].
    - exists m, c. split; [exact L|split; [exact Hc|split; [exact F|]]].
      pose proof (bpow_mag_gt radix2 X) as B. unfold c, cexp, SpecFloat.fexp, SpecFloat.emin in *.
      change 9007199254740992 with (bpow radix2 53). rewrite <- bpow_plus. eapply Rlt_le_trans; [exact B|]. apply bpow_le. lia.
    - exists (m * 2 ^ (c + 1))%Z, (-1)%Z. split; [lia|split; [lia|split]].
      + rewrite mult_IZR. rewrite p2 by lia. rewrite Rmult_assoc, <- bpow_plus.
        replace (c + 1 + -1)%Z with c by ring. exact F.
      + replace (bpow radix2 (-1)) with (/ 2) by (symmetry; exact (bpow_opp radix2 1)). lra. }
  set (k := (z * 2 ^ (-1 - c'))%Z).
  assert (IZR z / 2 = IZR k * bpow radix2 c') as E.
  { unfold k. rewrite mult_IZR. rewrite p2 by lia. rewrite Rmult_assoc, <- bpow_plus.
    replace (-1 - c' + c')%Z with (-1)%Z by ring. replace (bpow radix2 (-1)) with (/ 2) by (symmetry; exact (bpow_opp radix2 1)). reflexivity. }
  assert (X - IZR z / 2 = IZR (m' - k) * bpow radix2 c') as E2 by (rewrite E, H3, minus_IZR; ring).
  rewrite E2 in *. apply fmt_FLT; [|exact H2].
  assert (Rabs (IZR (m' - k)) < 9007199254740992) as B.
  { rewrite Rabs_mult, (Rabs_right (bpow radix2 c')) in Hs by (apply Rle_ge, bpow_ge_0).
    apply (Rmult_lt_reg_r (bpow radix2 c')); [apply bpow_gt_0|]. lra. }
  rewrite <- abs_IZR in B. apply lt_IZR in B. rewrite p53. exact B.
Qed.
Lemma half_dbl : exists h, half dbl = Value h /\ is_number h /\ dval h = 1 / 2.
Proof.
  unfold half, dbl, ndec, ddec. eexists. split; [reflexivity|].
  assert (exists m e, SFdiv dprec demax (dint 5) (dint (10 ^ 1)) = S754_finite false m e /\ m = 4503599627370496%positive /\ e = (-53)%Z) as H.
  { do 2 eexists. split; [vm_compute; reflexivity|split; reflexivity]. }
  destruct H as (m & e & -> & -> & ->). split; [split; [vm_compute; reflexivity|exact I]|].
  unfold dval. rewrite <- (bpow_powerRZ radix2). replace (bpow radix2 (-53)) with (/ 9007199254740992) by (symmetry; exact (bpow_opp radix2 53)). lra.
Qed.
Lemma trunc_facts r : (0 <= r -> IZR (Ztrunc r) <= r < IZR (Ztrunc r) + 1) /\ (r < 0 -> IZR (Ztrunc r) - 1 < r <= IZR (Ztrunc r) /\ IZR (Ztrunc r) <= 0).
Proof.
  split; intros H.
  - rewrite Ztrunc_floor by exact H. apply gb_Zfloor.
  - rewrite Ztrunc_ceil by lra. split; [apply la_Zceil|]. apply IZR_le. rewrite <- (Zceil_IZR 0). apply Zceil_le. lra.
Qed.
Lemma sub_int x z : is_number x -> Rabs (dval x) < 2147483648 -> (Z.abs z <= 2147483648)%Z -> Rabs (dval x - IZR z) <= Rabs (dval x) ->
  is_number (nsub dbl x (nint dbl z)) /\ dval (nsub dbl x (nint dbl z)) = dval x - IZR z.
Proof.
  intros Hx Hl Hz Hs. destruct (dint_ok z) as [Hi Ei]; [rewrite p53; lia|].
  assert (rnd (dval x - IZR z) = dval x - IZR z) as R.
  { apply rnd_id. replace (IZR z) with (IZR (2 * z) / 2) by (rewrite mult_IZR; field). apply fmt_half; [exact Hx|exact Hl|].
    replace (IZR (2 * z) / 2) with (IZR z) by (rewrite mult_IZR; field). exact Hs. }
  destruct (dsub_ok x (nint dbl z) Hx Hi) as [H E]; rewrite Ei in *.
  - rewrite R. eapply Rle_lt_trans; [exact Hs|]. now apply max_below.
  - split; [exact H|]. now rewrite E.
Qed.
Lemma split_double x : is_number x -> Rabs (dval x) < 2147483647 ->
  exists n f, nearest dbl x = Value (nint dbl n) /\ fraction dbl x = Value f /\ is_number f /\
    IZR n + dval f = dval x /\ -1 < dval f <= 1 / 2 /\ (0 <= dval x -> - (1 / 2) < dval f) /\ (dval x < 0 -> dval f <= 0) /\
    (- int_max < n <= int_max)%Z.
Proof.
  intros Hx Hl. destruct half_dbl as (h & Eh & Hh & Vh). set (X := dval x) in *. set (i := Ztrunc X).
  pose proof (small_trunc X Hl) as Bi. fold i in Bi. destruct (trunc_facts X) as [TP TN]. fold i in TP, TN.
  assert (ntrunc dbl x = Value i) as Et by (apply dtrunc_num; [exact Hx|reflexivity|unfold int_min, int_max; lia]).
  destruct (dint_ok i) as [Hi Ei]; [rewrite p53; lia|]. pose proof (Rabs_def2 _ _ Hl) as Hl2.
  destruct (dsub_ok x h Hx Hh) as [Hs Es]; [apply small_big; change (IZR (2 ^ 60)) with 1152921504606846976; fold X; rewrite Vh; apply Rabs_def1; lra|].
  fold X in Es. rewrite Vh in Es.
  assert (n_lt dbl (nint dbl i) (nsub dbl x h) = Rlt_bool (IZR i) (rnd (X - 1 / 2))) as Etest by (rewrite dlt, Ei, Es by assumption; reflexivity).
  unfold nearest, fraction. rewrite Eh. cbn [obind]. rewrite Et. cbn [obind].
  destruct (Rlt_or_le (IZR i) (X - 1 / 2)) as [L|L].
  - assert (0 <= X) as X0. { apply Rnot_lt_le. intros N. destruct (TN N). lra. }
    specialize (TP X0). assert (0 <= IZR i) as I0 by (apply IZR_le; unfold i; rewrite Ztrunc_floor by exact X0; apply Zfloor_lub; exact X0).
    assert (rnd (X - 1 / 2) = X - 1 / 2) as R.
    { apply rnd_id. apply (fmt_half x 1 Hx); [fold X; lra|fold X]. rewrite !Rabs_right; lra. }
    rewrite R, Rlt_bool_true in Etest by exact L. rewrite Etest.
    destruct (dadd_ok x h Hx Hh) as [Ha Ea]; [apply small_big; change (IZR (2 ^ 60)) with 1152921504606846976; fold X; rewrite Vh; apply Rabs_def1; lra|].
    fold X in Ea. rewrite Vh in Ea.
    assert (IZR (i + 1) <= dval (nadd dbl x h) < IZR (i + 1) + 1) as Ba.
    { rewrite Ea, plus_IZR. split.
      - rewrite <- plus_IZR. rewrite <- (rnd_id (IZR (i + 1))) at 1 by (apply fmt_int; rewrite p53; lia). apply rnd_le. rewrite plus_IZR. lra.
      - pose proof (rnd_near (X + 1 / 2) 2147483648 ltac:(apply Rabs_le; lra) ltac:(lra)) as RN. apply Rabs_le_inv in RN. unfold u in RN. lra. }
    assert (ntrunc dbl (nadd dbl x h) = Value (i + 1)%Z) as Et2.
    { apply dtrunc_num; [exact Ha| |unfold int_min, int_max; lia]. rewrite Ztrunc_floor by (rewrite plus_IZR in Ba; lra). apply Zfloor_gb. exact Ba. }
    rewrite Et2. cbn [obind]. destruct (dint_ok (i + 1)) as [Hj Ej]; [rewrite p53; lia|].
    assert (rnd (IZR (i + 1) - X) = IZR (i + 1) - X) as R2.
    { replace (IZR (i + 1) - X) with (- (X - IZR (i + 1))) by ring. rewrite rnd_opp. f_equal. apply rnd_id.
      replace (IZR (i + 1)) with (IZR (2 * (i + 1)) / 2) by (rewrite mult_IZR; field). apply fmt_half; [exact Hx|fold X; lra|].
      fold X. replace (IZR (2 * (i + 1)) / 2) with (IZR i + 1) by (rewrite mult_IZR, plus_IZR; field). rewrite (Rabs_right X) by lra. apply Rabs_le. lra. }
    destruct (dsub_ok (nint dbl (i + 1)) x Hj Hx) as [Hd Ed].
    { rewrite Ej. fold X. rewrite R2, plus_IZR. apply Rlt_trans with 2; [apply Rabs_def1; lra|]. unfold big. apply (bpow_lt radix2 1). lia. }
    destruct (dopp_ok _ Hd) as [Ho Eo].
    exists (i + 1)%Z, (nopp dbl (nsub dbl (nint dbl (i + 1)) x)). split; [reflexivity|split; [reflexivity|split; [exact Ho|]]].
    rewrite Eo, Ed, Ej. fold X. rewrite R2, plus_IZR. unfold int_max. split; [ring|split; [lra|split; [intros _; lra|split; [intros N; lra|lia]]]].
  - assert (Rlt_bool (IZR i) (rnd (X - 1 / 2)) = false) as F.
    { apply Rlt_bool_false. rewrite <- (rnd_id (IZR i)) by (apply fmt_int; rewrite p53; lia). apply rnd_le. exact L. }
    rewrite F in Etest. rewrite Etest. cbn [obind].
    destruct (sub_int x i Hx) as [Hd Ed]; [fold X; lra|lia| |].
    { fold X. destruct (Rle_or_lt 0 X) as [P|P].
      - specialize (TP P). assert (0 <= IZR i) as I0 by (apply IZR_le; unfold i; rewrite Ztrunc_floor by exact P; apply Zfloor_lub; exact P).
        rewrite !Rabs_right; lra.
      - destruct (TN P). rewrite (Rabs_left X) by exact P. apply Rabs_le. lra. }
    exists i, (nsub dbl x (nint dbl i)). split; [reflexivity|split; [reflexivity|split; [exact Hd|]]].
    rewrite Ed. fold X. split; [ring|]. split; [|split; [|split; [|unfold int_max; lia]]].
    2: intros P; specialize (TP P); lra. 2: intros P; destruct (TN P); lra.
    destruct (Rle_or_lt 0 X) as [P|P]; [specialize (TP P); lra|destruct (TN P); lra].
Qed.

(** ** The series *)
Lemma ep7_eq r : 1 + r + r ^ 2 / 2 + r ^ 3 / 6 + r ^ 4 / 24 + r ^ 5 / 120 + r ^ 6 / 720 + r ^ 7 / 5040 = ep 7 r.
Proof. unfold ep. rewrite !fact_S. change (INR (fact 0)) with 1. rewrite !INR_IZR_INZ. simpl. field. Qed.
Lemma exp_helper_double f : is_number f -> -1 <= dval f <= 1 ->
  exists v, (forall K, (7 <= K)%nat -> exp_helper dbl K f = Value v) /\ near (1000 * u) v (ep 7 (dval f)).
Proof.
  intros Hf Bf. pose proof u_pos as Hu. set (F := dval f) in *.
  assert (forall k c, (2 <= k <= 7)%nat -> (1 < c < 10000)%Z -> exists p q, (forall N, (7 <= N)%nat -> m_pow dbl N f (Z.of_nat k) = Value p) /\
    ndiv dbl p (nint dbl c) = Value q /\ near (31 * u) q (F ^ k / IZR c) /\ - (1 / 2) <= F ^ k / IZR c <= 1 / 2) as T.
  { intros k c Hk Hc.
    assert (INR k <= 7) as Bk by (replace 7 with (INR 7) by (rewrite INR_IZR_INZ; reflexivity); apply le_INR; lia).
    assert (Rabs F <= 1) as AF by now apply Rabs_le.
    destruct (near_pow 0 f F k) as (p & Hp & Np); [now apply near_exact|lra|lia|unfold u; lra|].
    assert (-1 <= F ^ k <= 1) as B.
    { apply Rabs_le_inv. rewrite <- RPow_abs. rewrite <- (pow1 k). apply pow_incr. split; [apply Rabs_pos|exact AF]. }
    assert (2 <= IZR c) as C2 by (apply IZR_le; lia).
    assert (0 < / IZR c <= / 2) as Ci by (split; [apply Rinv_0_lt_compat; lra|apply Rinv_le_contravar; lra]).
    assert (- (1 / 2) <= F ^ k / IZR c <= 1 / 2) as B' by (unfold Rdiv; nra).
    destruct (near_div_int_u 1 28 31 p (F ^ k) c) as (q & Eq & Nq); try lra; try lia.
    { eapply near_weaken; [exact Np|]. rewrite Rplus_0_l. replace (INR k * (4 * u)) with (INR k * 4 * u) by ring. apply Rmult_le_compat_r; lra. }
    exists p, q. split; [intros N HN; apply Hp; lia|]. split; [exact Eq|split; [exact Nq|exact B']]. }
  destruct (T 2%nat 2%Z ltac:(lia) ltac:(lia)) as (p2 & q2 & E2 & F2 & N2 & B2).
  destruct (T 3%nat 6%Z ltac:(lia) ltac:(lia)) as (p3 & q3 & E3 & F3 & N3 & B3).
  destruct (T 4%nat 24%Z ltac:(lia) ltac:(lia)) as (p4 & q4 & E4 & F4 & N4 & B4).
  destruct (T 5%nat 120%Z ltac:(lia) ltac:(lia)) as (p5 & q5 & E5 & F5 & N5 & B5).
  destruct (T 6%nat 720%Z ltac:(lia) ltac:(lia)) as (p6 & q6 & E6 & F6 & N6 & B6).
  destruct (T 7%nat 5040%Z ltac:(lia) ltac:(lia)) as (p7 & q7 & E7 & F7 & N7 & B7). clear T.
  assert (near (10 * u) (nadd dbl (nint dbl 1) f) (1 + F)) as S1.
  { apply (near_add_u 2 0 0); try lra; [apply (near_int_u 1); reflexivity|now apply near_exact_u]. }
  assert (near (60 * u) (nadd dbl (nadd dbl (nint dbl 1) f) q2) (1 + F + F ^ 2 / 2)) as S2 by (apply (near_add_u 5 10 31); lra || assumption).
  assert (near (110 * u) (nadd dbl (nadd dbl (nadd dbl (nint dbl 1) f) q2) q3) (1 + F + F ^ 2 / 2 + F ^ 3 / 6)) as S3 by (apply (near_add_u 5 60 31); lra || assumption).
  match type of S3 with near _ ?a ?A => assert (near (160 * u) (nadd dbl a q4) (A + F ^ 4 / 24)) as S4 by (apply (near_add_u 5 110 31); lra || assumption) end.
  match type of S4 with near _ ?a ?A => assert (near (210 * u) (nadd dbl a q5) (A + F ^ 5 / 120)) as S5 by (apply (near_add_u 5 160 31); lra || assumption) end.
  match type of S5 with near _ ?a ?A => assert (near (260 * u) (nadd dbl a q6) (A + F ^ 6 / 720)) as S6 by (apply (near_add_u 6 210 31); lra || assumption) end.
  match type of S6 with near _ ?a ?A => assert (near (1000 * u) (nadd dbl a q7) (A + F ^ 7 / 5040)) as S7 by (apply (near_add_u 6 260 31); lra || assumption) end.
  eexists. split; [|rewrite <- ep7_eq; exact S7].
  intros K HK. unfold exp_helper.
  specialize (E2 K HK). specialize (E3 K HK). specialize (E4 K HK). specialize (E5 K HK). specialize (E6 K HK). specialize (E7 K HK).
  simpl Z.of_nat in *.
  rewrite E2. cbn [obind]. rewrite F2. cbn [obind]. rewrite E3. cbn [obind]. rewrite F3. cbn [obind]. rewrite E4. cbn [obind]. rewrite F4. cbn [obind].
  rewrite E5. cbn [obind]. rewrite F5. cbn [obind]. rewrite E6. cbn [obind]. rewrite F6. cbn [obind]. rewrite E7. cbn [obind]. rewrite F7. cbn [obind]. reflexivity.
Qed.

(** ** The power of e *)
Lemma exp_nat k : exp (INR k) = exp 1 ^ k.
Proof. induction k as [|k IH]; [apply exp_0|]. rewrite S_INR, exp_plus, IH. simpl. ring. Qed.
(** bounds on e^k as m 2^e, with m cut to 41 bits at each step *)
Fixpoint e_up (k : nat) (m e : Z) : Z * Z :=
  match k with
  | O => (m, e)
  | S k => let q := (m * 27183 / 10000 + 1)%Z in if (q <? 2199023255552)%Z then e_up k q e else e_up k (q / 2 + 1)%Z (e + 1)%Z
  end.
Fixpoint e_dn (k : nat) (m e : Z) : Z * Z :=
  match k with
  | O => (m, e)
  | S k => let q := (m * 27182 / 10000)%Z in if (q <? 2199023255552)%Z then e_dn k q e else e_dn k (q / 2)%Z (e + 1)%Z
  end.
Lemma div_bounds a b : (0 < b)%Z -> IZR (a / b) * IZR b <= IZR a <= (IZR (a / b) + 1) * IZR b.
Proof.
  intros Hb. pose proof (Z.div_mod a b ltac:(lia)) as E. pose proof (Z.mod_pos_bound a b Hb) as B.
  split; [|rewrite <- plus_IZR]; rewrite <- mult_IZR; apply IZR_le; nia.
Qed.
Lemma bpow_S e : bpow radix2 (e + 1) = 2 * bpow radix2 e.
Proof. rewrite bpow_plus. change (bpow radix2 1) with 2. ring. Qed.
Lemma e_up_ok k : forall m e r, 0 <= r <= IZR m * bpow radix2 e -> let (m', e') := e_up k m e in exp (INR k) * r <= IZR m' * bpow radix2 e'.
Proof.
  pose proof e_ok as E. apply abs_between in E. pose proof (exp_pos 1) as P1.
  induction k as [|k IH]; intros m e r [P H]. { simpl. rewrite exp_0. lra. }
  cbn [e_up]. set (q := (m * 27183 / 10000 + 1)%Z). pose proof (bpow_gt_0 radix2 e) as Pe.
  assert (0 <= exp 1 * r <= IZR q * bpow radix2 e) as Hq.
  { split; [nra|]. pose proof (div_bounds (m * 27183) 10000 ltac:(lia)) as D. rewrite mult_IZR in D. unfold q. rewrite plus_IZR.
    apply Rle_trans with (27183 / 10000 * (IZR m * bpow radix2 e)); [nra|]. replace (27183 / 10000 * (IZR m * bpow radix2 e)) with (27183 / 10000 * IZR m * bpow radix2 e) by ring.
    apply Rmult_le_compat_r; lra. }
  assert (exp (INR (S k)) * r = exp (INR k) * (exp 1 * r)) as -> by (rewrite S_INR, exp_plus; ring).
  destruct (q <? 2199023255552)%Z; apply IH; [exact Hq|]. split; [lra|]. eapply Rle_trans; [apply Hq|]. rewrite bpow_S, plus_IZR.
  pose proof (div_bounds q 2 ltac:(lia)) as D. nra.
Qed.
Lemma e_dn_ok k : forall m e r, IZR m * bpow radix2 e <= r -> 0 <= r -> (0 <= m)%Z -> let (m', e') := e_dn k m e in IZR m' * bpow radix2 e' <= exp (INR k) * r.
Proof.
  pose proof e_ok as E. apply abs_between in E. pose proof (exp_pos 1) as P1.
  induction k as [|k IH]; intros m e r H P Pm. { simpl. rewrite exp_0. lra. }
  cbn [e_dn]. set (q := (m * 27182 / 10000)%Z). pose proof (bpow_gt_0 radix2 e) as Pe.
  assert (0 <= q)%Z as Pq by (apply Z.div_pos; lia).
  assert (IZR q * bpow radix2 e <= exp 1 * r) as Hq.
  { pose proof (div_bounds (m * 27182) 10000 ltac:(lia)) as D. rewrite mult_IZR in D. fold q in D.
    apply Rle_trans with (27182 / 10000 * (IZR m * bpow radix2 e)); [|nra]. replace (27182 / 10000 * (IZR m * bpow radix2 e)) with (27182 / 10000 * IZR m * bpow radix2 e) by ring.
    apply Rmult_le_compat_r; lra. }
  assert (exp (INR (S k)) * r = exp (INR k) * (exp 1 * r)) as -> by (rewrite S_INR, exp_plus; ring).
  assert (0 <= exp 1 * r) by nra.
  destruct (q <? 2199023255552)%Z; apply IH; try assumption; [|apply Z.div_pos; lia]. eapply Rle_trans; [|apply Hq]. rewrite bpow_S.
  pose proof (div_bounds q 2 ltac:(lia)) as D. nra.
Qed.
Lemma exp_le_pow2 k j c : (let (m, e) := e_up k 1099511627776 (-40) in andb (e <=? j) (m <=? c * 2 ^ (j - e)))%Z = true -> exp (INR k) <= IZR c * bpow radix2 j.
Proof.
  intros H. pose proof (e_up_ok k 1099511627776 (-40) 1) as U. destruct (e_up k 1099511627776 (-40)) as [m e]. apply andb_prop in H as [H1 H2].
  apply Z.leb_le in H1, H2. apply IZR_le in H2. rewrite mult_IZR in H2. change (2 ^ (j - e))%Z with (Zpower radix2 (j - e)) in H2. rewrite IZR_Zpower in H2 by lia.
  rewrite Rmult_1_r in U. eapply Rle_trans; [apply U|].
  - split; [lra|]. replace (bpow radix2 (-40)) with (/ 1099511627776) by (symmetry; exact (bpow_opp radix2 40)). lra.
  - replace j with ((j - e) + e)%Z at 1 by lia. rewrite bpow_plus, <- Rmult_assoc. apply Rmult_le_compat_r; [apply bpow_ge_0|exact H2].
Qed.
Lemma exp_ge_pow2 k j : (let (m, e) := e_dn k 1099511627776 (-40) in andb (e <=? j) (11 * 2 ^ (j - e) <=? 10 * m))%Z = true -> 11 * bpow radix2 j <= 10 * exp (INR k).
Proof.
  intros H. pose proof (e_dn_ok k 1099511627776 (-40) 1) as U. destruct (e_dn k 1099511627776 (-40)) as [m e]. apply andb_prop in H as [H1 H2].
  apply Z.leb_le in H1, H2. apply IZR_le in H2. rewrite !mult_IZR in H2. change (2 ^ (j - e))%Z with (Zpower radix2 (j - e)) in H2. rewrite IZR_Zpower in H2 by lia.
  rewrite Rmult_1_r in U. apply Rle_trans with (10 * (IZR m * bpow radix2 e)).
  - replace j with ((j - e) + e)%Z at 1 by lia. rewrite bpow_plus, <- !Rmult_assoc. apply Rmult_le_compat_r; [apply bpow_ge_0|exact H2].
  - apply Rmult_le_compat_l; [lra|]. apply U; [|lra|lia]. replace (bpow radix2 (-40)) with (/ 1099511627776) by (symmetry; exact (bpow_opp radix2 40)). lra.
Qed.
Lemma exp_709 : exp 709 <= bpow radix2 1023.
Proof. rewrite <- (Rmult_1_l (bpow _ _)). replace 709 with (INR 709) by (rewrite INR_IZR_INZ; reflexivity). apply exp_le_pow2. vm_compute. reflexivity. Qed.
Lemma exp_711 : exp 711 <= bpow radix2 1026.
Proof. rewrite <- (Rmult_1_l (bpow _ _)). replace 711 with (INR 711) by (rewrite INR_IZR_INZ; reflexivity). apply exp_le_pow2. vm_compute. reflexivity. Qed.
Lemma exp_710 : 11 * bpow radix2 1024 <= 10 * exp 710.
Proof. replace 710 with (INR 710) by (rewrite INR_IZR_INZ; reflexivity). apply exp_ge_pow2. vm_compute. reflexivity. Qed.
Lemma exp_mono a b : a <= b -> exp a <= exp b.
Proof. intros [H| ->]; [left; now apply exp_increasing|lra]. Qed.
Definition tiny : R := / 281474976710656.   (* 2^-48 *)
Lemma eta_exp x : -711 <= x -> eta0 <= tiny * exp x.
Proof.
  intros H. apply Rle_trans with (tiny * exp (-711)); [|apply Rmult_le_compat_l; [unfold tiny; lra|now apply exp_mono]].
  apply Rle_trans with (bpow radix2 (-48) * bpow radix2 (-1026)); [unfold eta0; rewrite <- bpow_plus; apply bpow_le; lia|].
  replace tiny with (bpow radix2 (-48)) by exact (bpow_opp radix2 48). apply Rmult_le_compat_l; [apply bpow_ge_0|].
  replace (bpow radix2 (-1026)) with (/ bpow radix2 1026) by (symmetry; exact (bpow_opp radix2 1026)).
  replace (-711) with (Ropp 711) by lra. rewrite exp_Ropp. apply Rinv_le_contravar; [apply exp_pos|apply exp_711].
Qed.
Definition ed : spec_float := S754_finite false 6121026514868073 (-51).
Lemma ed_ok : m_e dbl = Value ed /\ is_number ed /\ Rabs (dval ed - exp 1) <= 2 * u * exp 1 /\ 2 <= dval ed <= 3.
Proof.
  split; [vm_compute; reflexivity|]. split; [split; [vm_compute; reflexivity|exact I]|].
  pose proof e_ok as E. apply abs_between in E. unfold ed, dval. rewrite <- (bpow_powerRZ radix2).
  replace (bpow radix2 (-51)) with (/ 2251799813685248) by (symmetry; exact (bpow_opp radix2 51)).
  split; [|lra]. apply Rabs_le. unfold u. lra.
Qed.
Lemma mul_rel a b x y X Y : Rabs (x - X) <= a * X -> Rabs (y - Y) <= b * Y -> 0 < X -> 0 < Y -> 0 <= a -> 0 <= b ->
  Rabs (x * y - X * Y) <= (a + b + a * b) * (X * Y).
Proof.
  intros H1 H2 PX PY Pa Pb. replace (x * y - X * Y) with ((x - X) * (y - Y) + (X * (y - Y) + Y * (x - X))) by ring.
  eapply Rle_trans; [apply Rabs_triang|]. pose proof (Rabs_triang (X * (y - Y)) (Y * (x - X))) as T.
  rewrite !Rabs_mult, (Rabs_right X), (Rabs_right Y) in * by lra.
  assert (Rabs (x - X) * Rabs (y - Y) <= a * X * (b * Y)) by (apply Rmult_le_compat; try apply Rabs_pos; assumption).
  assert (X * Rabs (y - Y) <= X * (b * Y)) by (apply Rmult_le_compat_l; lra).
  assert (Y * Rabs (x - X) <= Y * (a * X)) by (apply Rmult_le_compat_l; lra). lra.
Qed.
Lemma max_1023 r : Rabs r <= 19 / 10 * bpow radix2 1023 -> Rabs (rnd r) < big.
Proof.
  intros H. apply near_big. rewrite dmax_val. eapply Rle_trans; [exact H|]. apply Rmult_le_compat_r; [apply bpow_ge_0|lra].
Qed.
Lemma e_pow k : (1 <= k <= 709)%nat -> exists p, (forall N, (k <= N)%nat -> m_pow dbl N ed (Z.of_nat k) = Value p) /\
  is_number p /\ Rabs (dval p - exp (INR k)) <= 4 * u * INR k * exp (INR k).
Proof.
  destruct ed_ok as (_ & Hd & Vd & Bd). pose proof u_pos as Hu.
  induction k as [|k IH]; intros Hk; [lia|]. destruct k as [|k].
  - exists ed. split; [intros [|N] HN; [lia|reflexivity]|split; [exact Hd|]]. simpl INR. rewrite Rmult_1_r. pose proof (exp_pos 1). unfold u in *. lra.
  - destruct IH as (p & Hp & Np & Vp); [lia|]. set (E := exp (INR (S k))) in *. assert (0 < E) as PE by apply exp_pos.
    assert (INR (S k) <= 708) as Bk. { rewrite INR_IZR_INZ. apply IZR_le. lia. } assert (0 < INR (S k)) as Bk0 by (apply lt_0_INR; lia).
    assert (exp (INR (S (S k))) = exp 1 * E) as EE by (rewrite S_INR, exp_plus; unfold E; ring).
    assert (exp 1 * E <= bpow radix2 1023) as Bt.
    { rewrite <- EE. eapply Rle_trans; [|apply exp_709]. apply exp_mono. rewrite S_INR. lra. }
    pose proof (exp_pos 1) as P1. set (T := exp 1 * E) in *. assert (0 < T) as PT by (apply Rmult_lt_0_compat; assumption).
    pose proof (mul_rel (2 * u) (4 * u * INR (S k)) (dval ed) (dval p) (exp 1) E Vd Vp P1 PE ltac:(lra) ltac:(apply Rmult_le_pos; lra)) as MR. fold T in MR.
    assert (2 * u * (4 * u * INR (S k)) <= u / 100) as Sm. { apply Rle_trans with (2 * u * (4 * u * 708)); [apply Rmult_le_compat_l; [lra|]; apply Rmult_le_compat_l; lra|unfold u; lra]. }
    assert (Rabs (dval ed * dval p - T) <= (201 / 100 * u + 4 * u * INR (S k)) * T) as MR2.
    { eapply Rle_trans; [exact MR|]. apply Rmult_le_compat_r; lra. }
    assert ((201 / 100 * u + 4 * u * INR (S k)) <= / 100) as Sm2. { apply Rle_trans with (201 / 100 * u + 4 * u * 708); [apply Rplus_le_compat_l; apply Rmult_le_compat_l; lra|unfold u; lra]. }
    assert (Rabs (dval ed * dval p - T) <= / 100 * T) as MR3 by (eapply Rle_trans; [exact MR2|apply Rmult_le_compat_r; lra]).
    apply Rabs_le_inv in MR3.
    destruct (dmul_ok ed p Hd Np) as [Hq Vq]. { apply max_1023. rewrite Rabs_right by lra. lra. }
    exists (nmul dbl ed p). split; [|split; [exact Hq|]].
    + intros [|N] HN; [lia|]. rewrite pow_lit_S by lia. replace (Z.of_nat (S (S k)) - 1)%Z with (Z.of_nat (S k)) by lia. rewrite Hp by lia. reflexivity.
    + rewrite Vq, EE. pose proof (rnd_err (dval ed * dval p) (tiny * u * T)) as RE.
      assert (eta0 <= tiny * u * T) as Het.
      { apply Rle_trans with (tiny * u * 1).
        - rewrite Rmult_1_r. unfold eta0, tiny, u. replace (/ 281474976710656) with (bpow radix2 (-48)) by exact (bpow_opp radix2 48).
          replace (/ 9007199254740992) with (bpow radix2 (-53)) by exact (bpow_opp radix2 53). rewrite <- bpow_plus. apply bpow_le. lia.
        - apply Rmult_le_compat_l; [apply Rmult_le_pos; unfold tiny, u; lra|]. rewrite <- EE, <- exp_0. apply exp_mono. apply pos_INR. }
      specialize (RE Het). rewrite (Rabs_right (dval ed * dval p)) in RE by lra.
      replace (rnd (dval ed * dval p) - T) with ((rnd (dval ed * dval p) - dval ed * dval p) + (dval ed * dval p - T)) by ring.
      eapply Rle_trans; [apply Rabs_triang|]. rewrite (S_INR (S k)).
      assert (u * (dval ed * dval p) <= u * (101 / 100 * T)) by (apply Rmult_le_compat_l; lra).
      assert (0 < u * T) by (apply Rmult_lt_0_compat; assumption). unfold tiny in *. lra.
Qed.
Definition prec_e : R := / 100000000000.   (* 10^-11 *)
Lemma e_pow_nat k : (1 <= k <= 709)%nat -> exists p, (forall N, (k <= N)%nat -> m_pow dbl N ed (Z.of_nat k) = Value p) /\
  is_number p /\ Rabs (dval p - exp (INR k)) <= prec_e / 10 * exp (INR k).
Proof.
  intros Hk. destruct (e_pow k Hk) as (p & H1 & H2 & H3). exists p. split; [exact H1|split; [exact H2|]].
  eapply Rle_trans; [exact H3|]. apply Rmult_le_compat_r; [left; apply exp_pos|].
  assert (INR k <= 709) as Bk. { rewrite INR_IZR_INZ. apply IZR_le. lia. }
  apply Rle_trans with (4 * u * 709); [apply Rmult_le_compat_l; [pose proof u_pos; lra|exact Bk]|unfold u, prec_e; lra].
Qed.
Lemma e_power_double n : (-709 <= n <= 709)%Z -> exists p, returns (fun N => m_pow dbl N ed n) p /\
  is_number p /\ Rabs (dval p - exp (IZR n)) <= prec_e * exp (IZR n).
Proof.
  intros Hn. destruct (Z.lt_trichotomy n 0) as [L|[->|L]].
  - destruct (e_pow_nat (Z.to_nat (- n)) ltac:(lia)) as (p & H1 & H2 & H3). rewrite INR_IZR_INZ, Z2Nat.id in H3 by lia.
    rewrite Z2Nat.id in H1 by lia. set (E := exp (IZR (- n))) in *. assert (0 < E) as PE by apply exp_pos.
    apply Rabs_le_inv in H3 as H4. assert (0 < dval p) as Pp by (unfold prec_e in H4; lra).
    assert (exp (IZR n) = / E) as EE. { unfold E. rewrite opp_IZR, exp_Ropp, Rinv_inv. reflexivity. }
    assert (Rabs (1 / dval p - / E) <= prec_e / 9 * / E) as Q.
    { replace (1 / dval p - / E) with ((E - dval p) * (/ dval p * / E)) by (field; lra).
      assert (0 < / E) by now apply Rinv_0_lt_compat. assert (0 < / dval p) by now apply Rinv_0_lt_compat.
      rewrite Rabs_mult, (Rabs_right (/ dval p * / E)) by (left; now apply Rmult_lt_0_compat). rewrite <- Rmult_assoc. apply Rmult_le_compat_r; [lra|].
      apply (Rmult_le_reg_r (dval p)); [exact Pp|]. rewrite Rmult_assoc, Rinv_l, Rmult_1_r by lra.
      rewrite Rabs_minus_sym. eapply Rle_trans; [exact H3|]. unfold prec_e in *. lra. }
    pose proof (exp_pos (IZR n)) as Pn. rewrite <- EE in Q. apply Rabs_le_inv in Q as Q'.
    assert (exp (IZR n) <= 1) as U1. { rewrite <- exp_0. apply exp_mono. apply IZR_le. lia. }
    destruct (ddiv_ok (nint dbl 1) p (proj1 one_ok) H2) as (q & Eq & Hq & Vq).
    { lra. } { rewrite (proj2 one_ok). apply small_big. change (IZR (2 ^ 60)) with 1152921504606846976. unfold prec_e in *. apply Rabs_def1; lra. }
    rewrite (proj2 one_ok) in Vq. exists q. split; [|split; [exact Hq|]].
    + exists (S (Z.to_nat (- n))). intros [|N] HN; [lia|]. cbn [m_pow]. destruct (Z.ltb_spec n 0); [|lia].
      rewrite int_ok_in by (unfold int_min, int_max; lia). cbn [obind]. rewrite H1 by lia. exact Eq.
    + rewrite Vq. pose proof (rnd_err (1 / dval p) (tiny * exp (IZR n)) (eta_exp (IZR n) ltac:(apply IZR_le; lia))) as RE.
      assert (0 < 1 / dval p) as P1 by (apply Rdiv_lt_0_compat; lra). rewrite (Rabs_right (1 / dval p)) in RE by lra.
      apply Rabs_le_inv in RE. unfold tiny, u, prec_e in *. apply Rabs_le. lra.
  - exists (nint dbl 1). split; [exists 1%nat; intros [|N] HN; [lia|reflexivity]|]. split; [apply one_ok|].
    rewrite (proj2 one_ok), exp_0. unfold prec_e. rewrite Rminus_eq_0, Rabs_R0. lra.
  - destruct (e_pow_nat (Z.to_nat n) ltac:(lia)) as (p & H1 & H2 & H3). rewrite INR_IZR_INZ, Z2Nat.id in H3 by lia. rewrite Z2Nat.id in H1 by lia.
    exists p. split; [eexists; exact H1|]. split; [exact H2|]. eapply Rle_trans; [exact H3|]. apply Rmult_le_compat_r; [left; apply exp_pos|unfold prec_e; lra].
Qed.
(** the value of the series is positive and precise *)
Lemma series_rel f : is_number f -> -1 < dval f <= 1 / 2 ->
  exists q, (forall K, (7 <= K)%nat -> exp_helper dbl K f = Value q) /\ is_number q /\ 0 < dval q /\ Rabs (dval q - exp (dval f)) <= 701 / 10 ^ 7 * exp (dval f).
Proof.
  intros Hf Bf. destruct (exp_helper_double f Hf ltac:(lra)) as (q & Eq & Hq & Nq). exists q. split; [exact Eq|split; [exact Hq|]].
  pose proof (ep7_rel (dval f) Bf) as R. apply Rabs_le_inv in R, Nq. set (F := dval f) in *.
  assert (36 / 100 <= exp F) as L.
  { eapply Rle_trans; [|apply (exp_mono (-1)); lra]. assert (exp (-1) * exp 1 = 1) as H5. { rewrite <- exp_plus. replace (-1 + 1) with 0 by ring. apply exp_0. }
    pose proof e_ok as He1. apply abs_between in He1. pose proof (exp_pos (-1)). nra. }
  unfold u in Nq. split; [lra|]. apply Rabs_le. lra.
Qed.
Lemma conv_back n : (- int_max < n <= int_max)%Z -> ntrunc dbl (nint dbl n) = Value n.
Proof.
  intros Hn. unfold int_max in Hn. destruct (dint_ok n) as [Hi Ei]; [rewrite p53; lia|].
  apply dtrunc_num; [exact Hi|rewrite Ei; apply Ztrunc_IZR|unfold int_min, int_max; lia].
Qed.
Lemma exp_unfold x n f : nearest dbl x = Value (nint dbl n) -> fraction dbl x = Value f -> (- int_max < n <= int_max)%Z -> forall N,
  m_exp dbl N x = obind (m_pow dbl N ed n) (fun p => obind (exp_helper dbl N f) (fun q => Value (nmul dbl p q))).
Proof.
  intros H1 H2 H3 N. unfold m_exp. rewrite (proj1 ed_ok). cbn [obind]. rewrite H1. cbn [obind]. rewrite conv_back by exact H3. cbn [obind].
  rewrite H2. reflexivity.
Qed.
Lemma exp_double x : is_number x -> -710 < dval x <= 1419 / 2 ->
  exists v, returns (fun n => m_exp dbl n x) v /\ is_number v /\ within (8 / 10 ^ 5 * exp (dval x)) (dval v) (exp (dval x)).
Proof.
  intros Hx Bx. destruct (split_double x Hx) as (n & f & En & Ef & Hf & Sum & Bf & Bp & Bn & Hn); [apply Rabs_def1; lra|].
  assert (-709 <= n <= 709)%Z as Bn2.
  { destruct (Rle_or_lt 0 (dval x)) as [P|P].
    - specialize (Bp P). split; [apply le_IZR|apply Zlt_succ_le, lt_IZR; unfold Z.succ; rewrite plus_IZR]; lra.
    - specialize (Bn P). split; [|apply le_IZR; lra]. apply Zlt_succ_le, lt_IZR. unfold Z.succ. rewrite plus_IZR. lra. }
  destruct (e_power_double n Bn2) as (p & Rp & Hp & Vp). destruct (series_rel f Hf Bf) as (q & Rq & Hq & Pq & Vq).
  pose proof (exp_pos (IZR n)) as PE. pose proof (exp_pos (dval f)) as PF.
  pose proof (mul_rel prec_e (701 / 10 ^ 7) (dval p) (dval q) _ _ Vp Vq PE PF ltac:(unfold prec_e; lra) ltac:(lra)) as M.
  rewrite <- exp_plus, Sum in M. set (X := dval x) in *. set (T := exp X) in *. assert (0 < T) as PT by apply exp_pos.
  assert (Rabs (dval p * dval q - T) <= 702 / 10 ^ 7 * T) as M2 by (eapply Rle_trans; [exact M|]; apply Rmult_le_compat_r; unfold prec_e; lra).
  apply Rabs_le_inv in M2.
  assert (T <= 165 / 100 * bpow radix2 1023) as BT.
  { unfold T. apply Rle_trans with (exp (1 / 2 + 709)); [apply exp_mono; lra|]. rewrite exp_plus.
    apply Rmult_le_compat; [left; apply exp_pos|left; apply exp_pos| |apply exp_709].
    assert (exp (1 / 2) * exp (1 / 2) = exp 1) as Eh by (rewrite <- exp_plus; f_equal; field).
    pose proof e_ok as E1. apply abs_between in E1. pose proof (exp_pos (1 / 2)). apply Rnot_lt_le. intros L. nra. }
  destruct (dmul_ok p q Hp Hq) as [Hv Vv]. { apply max_1023. rewrite Rabs_right by lra. lra. }
  exists (nmul dbl p q). split; [|split; [exact Hv|]].
  - eapply ret_ext; [intros N; apply (exp_unfold x n f En Ef Hn)|]. eapply ret_bind; [exact Rp|]. eapply ret_bind; [exists 7%nat; exact Rq|]. apply ret_val.
  - rewrite Vv. pose proof (rnd_err (dval p * dval q) (tiny * T) (eta_exp X ltac:(lra))) as RE. rewrite (Rabs_right (dval p * dval q)) in RE by lra.
    apply Rabs_le_inv in RE. unfold within. fold T. apply Rabs_le. unfold tiny, u in *. lra.
Qed.

(** ** Overflow and underflow *)
Lemma mul_over p q : is_number p -> is_number q -> 0 < dval p -> 0 < dval q -> big <= rnd (dval p * dval q) -> nmul dbl p q = S754_infinity false.
Proof.
  intros Hx Hy Px Py L. destruct (number_B2SF _ Hx) as (bx & Bx & Fx & Ex). destruct (number_B2SF _ Hy) as (by_ & By & Fy & Ey).
  change (nmul dbl) with (SFmul 53 1024). rewrite <- Bx, <- By, mul_equiv. rewrite <- Ex, <- Ey in L.
  pose proof (Bmult_correct 53 1024 Hprec Hmax mode_NE bx by_) as H. unfold rnd, big in L. simpl round_mode in H.
  rewrite Rlt_bool_false in H by (eapply Rle_trans; [exact L|apply Rle_abs]). rewrite H.
  assert (forall b : binary_float 53 1024, is_finite b = true -> 0 < B2R b -> Bsign b = false) as S.
  { intros [s|s| |s m e B] F P; try discriminate F; [simpl in P; lra|]. destruct s; [|reflexivity]. exfalso. simpl in P. unfold F2R in P. simpl in P.
    pose proof (bpow_gt_0 radix2 e). assert (IZR (Zneg m) < 0) by (apply IZR_lt; lia). nra. }
  rewrite !S; try assumption; [reflexivity|rewrite Ey|rewrite Ex]; assumption.
Qed.
Lemma big_up r : big <= r -> big <= rnd r.
Proof.
  intros H. rewrite <- (rnd_id big); [now apply rnd_le|]. unfold big. replace (bpow radix2 1024) with (IZR 1 * bpow radix2 1024) by ring. apply fmt_FLT; [reflexivity|lia].
Qed.
Lemma e_pow_inf k : (710 <= k)%nat -> forall N, (k <= N)%nat -> m_pow dbl N ed (Z.of_nat k) = Value (S754_infinity false).
Proof.
  intros Hk. induction Hk as [|k Hk IH]; intros [|N] HN; try lia.
  - rewrite pow_lit_S by lia. destruct (e_pow_nat 709 ltac:(lia)) as (p & H1 & H2 & H3). replace (Z.of_nat 710 - 1)%Z with (Z.of_nat 709) by lia.
    rewrite H1 by lia. cbn [obind]. f_equal. destruct ed_ok as (_ & Hd & Vd & Bd).
    replace (INR 709) with 709 in H3 by (rewrite INR_IZR_INZ; reflexivity). pose proof (exp_pos 709) as P7. apply Rabs_le_inv in H3 as H4.
    apply mul_over; [exact Hd|exact H2|lra|unfold prec_e in H4; lra|]. apply big_up.
    pose proof (mul_rel (2 * u) (prec_e / 10) _ _ _ _ Vd H3 (exp_pos 1) P7 ltac:(pose proof u_pos; lra) ltac:(unfold prec_e; lra)) as M.
    rewrite <- exp_plus in M. replace (1 + 709) with 710 in M by ring. pose proof exp_710 as H710. pose proof (exp_pos 710) as P710.
    assert (Rabs (dval ed * dval p - exp 710) <= / 100 * exp 710) as M2 by (eapply Rle_trans; [exact M|]; apply Rmult_le_compat_r; unfold u, prec_e; lra).
    apply Rabs_le_inv in M2. unfold big. pose proof (bpow_gt_0 radix2 1024). lra.
  - rewrite pow_lit_S by lia. replace (Z.of_nat (S k) - 1)%Z with (Z.of_nat k) by lia. rewrite IH by lia. reflexivity.
Qed.
Lemma pos_finite q : is_number q -> 0 < dval q -> exists m e, q = S754_finite false m e.
Proof.
  intros [_ H] P. destruct q as [s|s| |[] m e]; try easy; [simpl in P; lra| |now exists m, e].
  exfalso. unfold dval in P. assert (0 < powerRZ 2 e) by (apply powerRZ_lt; lra). assert (0 < IZR (Zpos m)) by (apply IZR_lt; lia). nra.
Qed.
Lemma exp_over x : is_number x -> 1419 / 2 < dval x < 2147483647 -> returns (fun n => m_exp dbl n x) (S754_infinity false).
Proof.
  intros Hx Bx. destruct (split_double x Hx) as (n & f & En & Ef & Hf & Sum & Bf & Bp & Bn & Hn); [apply Rabs_def1; lra|].
  assert (710 <= n)%Z as Bn2. { apply Zlt_succ_le, lt_IZR. unfold Z.succ. rewrite plus_IZR. lra. }
  destruct (series_rel f Hf Bf) as (q & Rq & Hq & Pq & Vq). destruct (pos_finite q Hq Pq) as (m & e & ->).
  eapply ret_ext; [intros N; apply (exp_unfold x n f En Ef Hn)|].
  eapply ret_bind. { exists (Z.to_nat n). intros N HN. rewrite <- (Z2Nat.id n) by lia. apply e_pow_inf; lia. }
  eapply ret_bind; [exists 7%nat; exact Rq|]. apply ret_val.
Qed.
Lemma exp_under x : is_number x -> -2147483647 < dval x <= -710 -> returns (fun n => m_exp dbl n x) (S754_zero false).
Proof.
  intros Hx Bx. destruct (split_double x Hx) as (n & f & En & Ef & Hf & Sum & Bf & Bp & Bn & Hn); [apply Rabs_def1; lra|].
  assert (n <= -710)%Z as Bn2. { apply Zlt_succ_le, lt_IZR. unfold Z.succ. rewrite plus_IZR. lra. }
  destruct (series_rel f Hf Bf) as (q & Rq & Hq & Pq & Vq). destruct (pos_finite q Hq Pq) as (m & e & ->).
  eapply ret_ext; [intros N; apply (exp_unfold x n f En Ef Hn)|].
  eapply ret_bind.
  { exists (S (Z.to_nat (- n))). intros [|N] HN; [lia|]. cbn [m_pow]. destruct (Z.ltb_spec n 0); [|lia].
    rewrite int_ok_in by (unfold int_min, int_max in *; lia). cbn [obind]. rewrite <- (Z2Nat.id (- n)) by lia. rewrite e_pow_inf by lia. reflexivity. }
  eapply ret_bind; [exists 7%nat; exact Rq|]. apply ret_val.
Qed.
Lemma nearest_special x : is_double x -> ~ is_number x -> nearest dbl x = Undefined.
Proof. intros Hx Hn. destruct half_dbl as (h & Eh & _). unfold nearest. rewrite Eh. cbn [obind]. now rewrite (trunc_special x Hn Hx). Qed.
Lemma nearest_out x : is_number x -> 2147483649 <= Rabs (dval x) -> nearest dbl x = Undefined.
Proof.
  intros Hx Hl. destruct half_dbl as (h & Eh & _). unfold nearest. rewrite Eh. cbn [obind]. rewrite dtrunc_eq by exact Hx.
  assert (2147483649 <= Z.abs (Ztrunc (dval x)))%Z as B. { rewrite <- Ztrunc_abs. rewrite Ztrunc_floor by apply Rabs_pos. apply Zfloor_lub. exact Hl. }
  unfold int_ok, int_min, int_max. destruct (Z.leb_spec (-2147483648) (Ztrunc (dval x))), (Z.leb_spec (Ztrunc (dval x)) 2147483647); try reflexivity; lia.
Qed.
Lemma exp_undef x : nearest dbl x = Undefined -> forall n, m_exp dbl n x = Undefined.
Proof. intros H n. unfold m_exp. rewrite (proj1 ed_ok). cbn [obind]. rewrite H. reflexivity. Qed.
Lemma exp_out x : is_double x -> ~ is_number x \/ 2147483649 <= Rabs (dval x) -> forall n, m_exp dbl n x = Undefined.
Proof.
  intros Hx [H|H]; [now apply exp_undef, nearest_special|]. assert (is_number x \/ ~ is_number x) as [N|N] by (destruct x; [left|right|right|left]; unfold is_number; tauto).
  - now apply exp_undef, nearest_out. - now apply exp_undef, nearest_special.
Qed.
Lemma exp_1_double : is_number (dint 1) /\ dval (dint 1) = 1 /\ m_exp dbl 8 (dint 1) = Value (S754_finite false 6121026514868073 (-51)) /\
  nearest dbl (dint 1) = Value (dint 1).
Proof. destruct (dint_ok 1 eq_refl) as [H1 H2]. split; [exact H1|split; [exact H2|split; vm_compute; reflexivity]]. Qed.
(** 709.625 = 5677/8: the power overflows although exp(709.625) is below 2^1024 *)
Definition x709 : spec_float := S754_finite false 6241927510884352 (-43).
Lemma x709_ok : is_number x709 /\ dval x709 = 5677 / 8.
Proof.
  split; [split; [vm_compute; reflexivity|exact I]|]. unfold x709, dval. change (powerRZ 2 (-43)) with (/ 2 ^ 43). lra.
Qed.
Lemma sq_le a b : 0 <= b -> a * a <= b * b -> a <= b.
Proof. intros Hb H. apply Rnot_lt_le. intros L. nra. Qed.
Lemma exp_x709 : exp (5677 / 8) < bpow radix2 1024.
Proof.
  replace (5677 / 8) with (5 / 8 + 709) by field. rewrite exp_plus. set (b := exp (1 / 8)). pose proof (exp_pos (1 / 8)) as P. fold b in P.
  assert (exp (5 / 8) = b * b * (b * b) * b) as E by (unfold b; rewrite <- !exp_plus; f_equal; field).
  assert (b * b * (b * b) * (b * b * (b * b)) = exp 1) as E8 by (unfold b; rewrite <- !exp_plus; f_equal; field).
  pose proof e_ok as E1. apply abs_between in E1.
  assert (b * b * (b * b) <= 1649 / 1000) as B4 by (apply sq_le; [lra|rewrite E8; lra]).
  assert (b * b <= 1285 / 1000) as B2 by (apply sq_le; lra). assert (b <= 1134 / 1000) as B1 by (apply sq_le; lra).
  assert (exp (5 / 8) <= 19 / 10) as B5.
  { rewrite E. apply Rle_trans with (1649 / 1000 * (1134 / 1000)); [|lra]. apply Rmult_le_compat; [|lra|exact B4|exact B1].
    left. repeat apply Rmult_lt_0_compat; exact P. }
  pose proof exp_709 as H. pose proof (exp_pos 709) as P7. change 1024%Z with (1 + 1023)%Z. rewrite bpow_plus. change (bpow radix2 1) with 2.
  pose proof (bpow_gt_0 radix2 1023). apply Rle_lt_trans with (19 / 10 * bpow radix2 1023); [|lra].
  apply Rmult_le_compat; [left; apply exp_pos|lra|exact B5|exact H].
Qed.
Lemma max_value : bpow radix2 1024 = powerRZ 2 1024.
Proof. apply (bpow_powerRZ radix2). Qed.
Lemma exp_early : is_number x709 /\ dval x709 = 5677 / 8 /\ exp (dval x709) < powerRZ 2 1024 /\ returns (fun n => m_exp dbl n x709) (S754_infinity false).
Proof.
  destruct x709_ok as [H1 H2]. split; [exact H1|split; [exact H2|split]].
  - rewrite H2, <- max_value. apply exp_x709. - apply exp_over; [exact H1|rewrite H2; lra].
Qed.
Lemma split_double_sum x : is_number x -> Rabs (dval x) < 2147483647 ->
  exists n f, nearest dbl x = Value (dint n) /\ fraction dbl x = Value f /\ is_number f /\ IZR n + dval f = dval x /\ Rabs (dval f) < 1.
Proof.
  intros Hx Hl. destruct (split_double x Hx Hl) as (n & f & H1 & H2 & H3 & H4 & H5 & _). exists n, f. repeat split; try assumption; try apply H3. apply Rabs_def1; lra.
Qed.
