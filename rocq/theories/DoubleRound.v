(** floor, ceil and abs on doubles *)
From Coq Require Import ZArith Reals Lra Lia Psatz.
From Coq.Floats Require Import SpecFloat.
From Flocq Require Import Core BinarySingleNaN.
From Verif Require Import ModelCmath SpecCmath CmathReal CmathExp DoubleArith.
Open Scope R_scope.

(** ** Truncation *)
Lemma Ztrunc_opp_pos m e : (e < 0)%Z -> Ztrunc (IZR (Zpos m) * powerRZ 2 e) = (Zpos m / 2 ^ (- e))%Z.
Proof.
  intros He. assert (powerRZ 2 e = / IZR (2 ^ (- e))) as E.
  { rewrite <- (bpow_powerRZ radix2). replace e with (- - e)%Z at 1 by lia. rewrite bpow_opp, <- IZR_Zpower by lia. reflexivity. }
  rewrite E. assert (0 < 2 ^ (- e))%Z by (apply Z.pow_pos_nonneg; lia).
  rewrite Ztrunc_floor.
  - apply Zfloor_div. lia.
  - apply Rmult_le_pos; [apply IZR_le; lia|]. left. apply Rinv_0_lt_compat, IZR_lt. assumption.
Qed.
Lemma dtrunc_eq v : is_number v -> ntrunc dbl v = int_ok (Ztrunc (dval v)).
Proof.
  intros [Hv Hn]. destruct v as [s|s| |s m e]; try easy.
  - simpl. change 0 with (IZR 0). rewrite Ztrunc_IZR. reflexivity.
  - change (ntrunc dbl (S754_finite s m e)) with
      (int_ok (cond_Zopp s (if (0 <=? e)%Z then (Zpos m * 2 ^ e)%Z else (Zpos m / 2 ^ (- e))%Z))). unfold dval.
    assert (Ztrunc (IZR (Zpos m) * powerRZ 2 e) = if (0 <=? e)%Z then (Zpos m * 2 ^ e)%Z else (Zpos m / 2 ^ (- e))%Z) as E.
    { destruct (Z.leb_spec 0 e).
      - replace (IZR (Zpos m) * powerRZ 2 e) with (IZR (Zpos m * 2 ^ e)); [apply Ztrunc_IZR|].
        rewrite mult_IZR. f_equal. rewrite <- (bpow_powerRZ radix2), <- IZR_Zpower by lia. reflexivity.
      - apply Ztrunc_opp_pos. lia. }
    f_equal. destruct s; unfold cond_Zopp; rewrite <- E; [|reflexivity].
    rewrite Ropp_mult_distr_l_reverse, Ztrunc_opp. reflexivity.
Qed.
Lemma dtrunc_num v z : is_number v -> Ztrunc (dval v) = z -> (int_min <= z <= int_max)%Z -> ntrunc dbl v = Value z.
Proof. intros Hv <- Hz. rewrite dtrunc_eq by assumption. apply int_ok_in. exact Hz. Qed.
Lemma trunc_special v : ~ is_number v -> is_double v -> ntrunc dbl v = Undefined.
Proof. intros Hn Hd. destruct v; try easy; now elim Hn. Qed.

(** ** floor and ceil *)
Lemma Zfloor_gb r z : greatest_below z r -> Zfloor r = z.
Proof. intros H. apply Zfloor_imp. rewrite plus_IZR. exact H. Qed.
Lemma gb_Zfloor r : greatest_below (Zfloor r) r.
Proof. split; [apply Zfloor_lb|apply Zfloor_ub]. Qed.
Lemma la_Zceil r : least_above (Zceil r) r.
Proof. split; [|apply Zceil_ub]. unfold Zceil. rewrite opp_IZR. pose proof (Zfloor_ub (- r)). lra. Qed.
Lemma small_trunc r : Rabs r < 2147483647 -> (Z.abs (Ztrunc r) < 2147483647)%Z.
Proof.
  intros H. rewrite <- Ztrunc_abs. apply lt_IZR. rewrite Ztrunc_floor by apply Rabs_pos.
  eapply Rle_lt_trans; [apply Zfloor_lb|exact H].
Qed.
Lemma double_int r : r = IZR (Ztrunc r) \/ (0 < r /\ greatest_below (Ztrunc r) r /\ r <> IZR (Ztrunc r))
  \/ (r < 0 /\ least_above (Ztrunc r) r /\ r <> IZR (Ztrunc r)).
Proof.
  destruct (Req_dec r (IZR (Ztrunc r))) as [E|E]; [now left|right].
  destruct (Rtotal_order r 0) as [L|[->|L]].
  - right. split; [exact L|]. split; [|exact E]. rewrite Ztrunc_ceil by lra. apply la_Zceil.
  - elim E. change 0 with (IZR 0). rewrite Ztrunc_IZR. reflexivity.
  - left. split; [exact L|]. split; [|exact E]. rewrite Ztrunc_floor by lra. apply gb_Zfloor.
Qed.
Lemma p53 : (2 ^ 53 = 9007199254740992)%Z. Proof. reflexivity. Qed.
(** a double between 2^30 and 2^31 is a multiple of 2^-22 *)
Lemma large_mult v : is_number v -> 1073741824 <= Rabs (dval v) -> exists m, dval v = IZR m * bpow radix2 (-22).
Proof.
  intros Hv Hl. pose proof (rnd_format v Hv) as F. set (r := dval v) in *. clearbody r.
  red in F. set (c := cexp radix2 (SpecFloat.fexp 53 1024) r) in *.
  assert (-22 <= c)%Z as Hc.
  { unfold c, cexp, SpecFloat.fexp, SpecFloat.emin. assert (31 <= mag radix2 r)%Z; [|lia].
    apply mag_ge_bpow. change (31 - 1)%Z with 30%Z. rewrite <- IZR_Zpower by lia. exact Hl. }
  exists (Ztrunc (scaled_mantissa radix2 (SpecFloat.fexp 53 1024) r) * 2 ^ (c + 22))%Z.
  rewrite mult_IZR. change 2%Z with (radix_val radix2) at 1. rewrite IZR_Zpower by lia.
  rewrite Rmult_assoc, <- bpow_plus. replace (c + 22 + -22)%Z with c by ring. exact F.
Qed.
(** the sum of a double and 1 lies strictly below the next integer but one unless
    the double is closer than 2^-21 to the next integer *)
Lemma step_up r k : Rabs r < 2147483647 -> 0 <= r -> IZR k - 1 < r <= IZR k - bpow radix2 (-21) ->
  rnd (r + 1) < IZR k + 1.
Proof.
  intros Hr H0 H. rewrite Rabs_right in Hr by lra.
  assert (IZR k < 2147483648) as Hk by lra. apply (lt_IZR k 2147483648) in Hk.
  assert (-1 < IZR k) as Hk' by (pose proof (bpow_gt_0 radix2 (-21)); lra). apply (lt_IZR (-1) k) in Hk'.
  assert (bpow radix2 (-21) = / 2097152) as E21 by exact (bpow_opp radix2 21).
  replace (IZR k - bpow radix2 (-21)) with (IZR (k * 2 ^ 21 - 1) * bpow radix2 (-21)) in H.
  2:{ rewrite E21, minus_IZR, mult_IZR. change (IZR (2 ^ 21)) with 2097152. field. }
  apply Rle_lt_trans with (IZR ((k + 1) * 2 ^ 21 - 1) * bpow radix2 (-21)).
  - rewrite <- (rnd_id (IZR ((k + 1) * 2 ^ 21 - 1) * bpow radix2 (-21))) by (apply fmt_FLT; rewrite ?p53; lia).
    apply rnd_le. rewrite E21, !minus_IZR, !mult_IZR, plus_IZR in *. change (IZR (2 ^ 21)) with 2097152 in *. lra.
  - rewrite E21, !minus_IZR, !mult_IZR, plus_IZR in *. change (IZR (2 ^ 21)) with 2097152 in *. lra.
Qed.
Lemma step_range v k : is_number v -> Rabs (dval v) < 2147483647 -> 0 <= dval v -> IZR k - 1 < dval v < IZR k ->
  k = 2147483647%Z -> rnd (dval v + 1) < IZR k + 1.
Proof.
  intros Hv Hr H0 H ->. destruct (large_mult v Hv) as [m Hm]; [rewrite Rabs_right; lra|].
  assert (bpow radix2 (-22) = / 4194304) as E by exact (bpow_opp radix2 22).
  replace (dval v + 1) with (IZR (m + 4194304) * bpow radix2 (-22)) by (rewrite Hm, E, plus_IZR; field).
  rewrite Hm, E in H, H0, Hr.
  assert (IZR m < 2147483647 * 4194304) as Hm2 by lra.
  rewrite <- mult_IZR in Hm2. apply lt_IZR in Hm2.
  assert (0 <= IZR m) as Hm1 by lra. apply le_IZR in Hm1.
  rewrite rnd_id.
  - rewrite plus_IZR, E. lra.
  - apply fmt_FLT; rewrite ?p53; lia.
Qed.
Lemma rnd_up_range r k : IZR k - 1 < r < IZR k -> (0 <= k <= 2147483647)%Z -> IZR k <= rnd (r + 1) <= IZR k + 1.
Proof.
  intros H Hk. rewrite <- plus_IZR. rewrite <- (rnd_id (IZR k)) at 1 by (apply fmt_int; rewrite p53; lia).
  rewrite <- (rnd_id (IZR (k + 1))) by (apply fmt_int; rewrite p53; lia).
  split; apply rnd_le; rewrite ?plus_IZR; lra.
Qed.
Lemma one_ok : is_number (nint dbl 1) /\ dval (nint dbl 1) = 1.
Proof. apply (dint_ok 1). reflexivity. Qed.
Lemma zero_ok : is_number (nint dbl 0) /\ dval (nint dbl 0) = 0.
Proof. apply (dint_ok 0). reflexivity. Qed.
Lemma rnd_opp r : rnd (- r) = - rnd r.
Proof. apply round_NE_opp. Qed.
Lemma within_int r : Rabs r < 2147483647 -> (int_min <= Ztrunc r <= int_max)%Z.
Proof. intros H. apply small_trunc in H. unfold int_min, int_max. lia. Qed.

(** what ceil does *)
Lemma ceil_gen v : is_number v -> Rabs (dval v) < 2147483647 ->
  exists z, m_ceil dbl v = Value z /\ (least_above z (dval v) \/ least_above (z - 1) (dval v)) /\
    (dval v <= 0 \/ is_integer (dval v) -> least_above z (dval v)) /\
    (forall k, least_above k (dval v) -> bpow radix2 (-21) <= IZR k - dval v -> z = k).
Proof.
  intros Hv Hr. unfold m_ceil. rewrite (dtrunc_num v _ Hv eq_refl) by now apply within_int. cbn [obind].
  destruct (dint_ok (Ztrunc (dval v))) as [Hi Ei].
  { apply small_trunc in Hr. rewrite p53. lia. }
  rewrite deq, dlt, Ei by (assumption || apply zero_ok). rewrite (proj2 zero_ok).
  assert (forall z, dval v = IZR z -> least_above z (dval v)) as Hint by (intros z ->; split; lra).
  assert (forall k k', least_above k (dval v) -> least_above k' (dval v) -> k' = k) as Huniq.
  { intros k k' [A1 A2] [B1 B2]. assert (k < k' + 1)%Z by (apply lt_IZR; rewrite plus_IZR; lra).
    assert (k' < k + 1)%Z by (apply lt_IZR; rewrite plus_IZR; lra). lia. }
  assert (forall z : Z, least_above z (dval v) -> exists z',
    @Value Z z = Value z' /\ (least_above z' (dval v) \/ least_above (z' - 1) (dval v)) /\
    (dval v <= 0 \/ is_integer (dval v) -> least_above z' (dval v)) /\
    (forall k, least_above k (dval v) -> bpow radix2 (-21) <= IZR k - dval v -> z' = k)) as Hgood.
  { intros z Hz. exists z. split; [reflexivity|]. split; [now left|]. split; [easy|]. intros k Hk _. now apply Huniq. }
  destruct (double_int (dval v)) as [E|[(L & G & E)|(L & G & E)]].
  - rewrite Req_bool_true by congruence. simpl negb. cbn [andb].
    rewrite (dtrunc_num v _ Hv eq_refl) by now apply within_int. apply Hgood, Hint. exact E.
  - rewrite Req_bool_false by congruence. rewrite Rlt_bool_true by exact L. simpl negb. cbn [andb].
    set (k := (Ztrunc (dval v) + 1)%Z). assert (IZR k - 1 < dval v < IZR k) as Hk.
    { unfold k. rewrite plus_IZR. destruct G. split; [|lra]. destruct (Req_dec (dval v) (IZR (Ztrunc (dval v)))); [easy|lra]. }
    assert (0 <= k <= 2147483647)%Z as Hk2.
    { pose proof (small_trunc _ Hr). assert (-1 < k)%Z; [|unfold k in *; lia]. apply lt_IZR. lra. }
    assert (least_above k (dval v)) as Hla by (split; lra).
    pose proof (rnd_up_range _ _ Hk Hk2) as [R1 R2].
    destruct (dadd_ok v (nint dbl 1) Hv (proj1 one_ok)) as [Ha Ea].
    { apply small_big. rewrite (proj2 one_ok). change (IZR (2 ^ 60)) with 1152921504606846976.
      apply Rabs_def2 in Hr. apply Rabs_def1; lra. }
    rewrite (proj2 one_ok) in Ea.
    destruct (Rle_lt_or_eq_dec _ _ R2) as [R3|R3].
    + rewrite (dtrunc_num _ k Ha).
      * apply Hgood. exact Hla.
      * rewrite Ea. rewrite Ztrunc_floor by (eapply Rle_trans; [apply IZR_le; apply Hk2|exact R1]).
        apply Zfloor_imp. rewrite plus_IZR. split; assumption.
      * unfold int_min, int_max. lia.
    + assert (k <> 2147483647)%Z as Hne.
      { intros Hkk. pose proof (step_range v k Hv Hr (Rlt_le _ _ L) Hk Hkk). lra. }
      rewrite (dtrunc_num _ (k + 1) Ha).
      * assert (~ bpow radix2 (-21) <= IZR k - dval v) as Hno.
        { intros Hc. pose proof (step_up (dval v) k Hr (Rlt_le _ _ L)). lra. }
        exists (k + 1)%Z. split; [reflexivity|]. split; [right; replace (k + 1 - 1)%Z with k by ring; exact Hla|]. split.
        -- intros [C|[z C]].
           ++ lra.
           ++ exfalso. apply E. rewrite C, Ztrunc_IZR. reflexivity.
        -- intros k' Hk' Hc. rewrite (Huniq k k' Hla Hk') in Hc. lra.
      * rewrite Ea, R3, <- plus_IZR. apply Ztrunc_IZR.
      * unfold int_min, int_max. lia.
  - rewrite Req_bool_false by congruence. rewrite Rlt_bool_false by lra. simpl negb. cbn [andb].
    rewrite (dtrunc_num v _ Hv eq_refl) by now apply within_int. now apply Hgood.
Qed.
(** floor v = - ceil (- v) *)
Lemma ceil_form v : is_number v -> Rabs (dval v) < 2147483647 ->
  m_ceil dbl v = int_ok (Ztrunc (if (negb (Req_bool (IZR (Ztrunc (dval v))) (dval v)) && Rlt_bool 0 (dval v))%bool
                                  then rnd (dval v + 1) else dval v)).
Proof.
  intros Hv Hr. unfold m_ceil. rewrite (dtrunc_num v _ Hv eq_refl) by now apply within_int. cbn [obind].
  destruct (dint_ok (Ztrunc (dval v))) as [Hi Ei].
  { apply small_trunc in Hr. rewrite p53. lia. }
  rewrite deq, dlt, Ei by (assumption || apply zero_ok). rewrite (proj2 zero_ok).
  destruct (_ && _)%bool; [|apply dtrunc_eq, Hv].
  destruct (dadd_ok v (nint dbl 1) Hv (proj1 one_ok)) as [Ha Ea].
  { apply small_big. rewrite (proj2 one_ok). change (IZR (2 ^ 60)) with 1152921504606846976.
    apply Rabs_def2 in Hr. apply Rabs_def1; lra. }
  rewrite (proj2 one_ok) in Ea. rewrite dtrunc_eq by exact Ha. rewrite Ea. reflexivity.
Qed.
Lemma floor_form v : is_number v -> Rabs (dval v) < 2147483647 ->
  m_floor dbl v = int_ok (Ztrunc (if (negb (Req_bool (IZR (Ztrunc (dval v))) (dval v)) && Rlt_bool (dval v) 0)%bool
                                  then rnd (dval v - 1) else dval v)).
Proof.
  intros Hv Hr. unfold m_floor. rewrite (dtrunc_num v _ Hv eq_refl) by now apply within_int. cbn [obind].
  destruct (dint_ok (Ztrunc (dval v))) as [Hi Ei].
  { apply small_trunc in Hr. rewrite p53. lia. }
  rewrite deq, dlt, Ei by (assumption || apply zero_ok). rewrite (proj2 zero_ok).
  destruct (_ && _)%bool; [|apply dtrunc_eq, Hv].
  destruct (dsub_ok v (nint dbl 1) Hv (proj1 one_ok)) as [Ha Ea].
  { apply small_big. rewrite (proj2 one_ok). change (IZR (2 ^ 60)) with 1152921504606846976.
    apply Rabs_def2 in Hr. apply Rabs_def1; lra. }
  rewrite (proj2 one_ok) in Ea. rewrite dtrunc_eq by exact Ha. rewrite Ea. reflexivity.
Qed.
Lemma floor_ceil v z : is_number v -> Rabs (dval v) < 2147483647 -> (int_min < z)%Z ->
  m_ceil dbl (nopp dbl v) = Value z -> m_floor dbl v = Value (- z)%Z.
Proof.
  intros Hv Hr Hz. destruct (dopp_ok v Hv) as [Ho Eo].
  rewrite ceil_form, floor_form by (rewrite ?Eo, ?Rabs_Ropp; assumption). rewrite Eo, Ztrunc_opp, opp_IZR.
  replace (Req_bool (- IZR (Ztrunc (dval v))) (- dval v)) with (Req_bool (IZR (Ztrunc (dval v))) (dval v)).
  2:{ destruct (Req_bool_spec (IZR (Ztrunc (dval v))) (dval v)); destruct (Req_bool_spec (- IZR (Ztrunc (dval v))) (- dval v)); lra || reflexivity. }
  replace (Rlt_bool 0 (- dval v)) with (Rlt_bool (dval v) 0).
  2:{ destruct (Rlt_bool_spec (dval v) 0); destruct (Rlt_bool_spec 0 (- dval v)); lra || reflexivity. }
  assert (forall r, int_ok (Ztrunc (- r)) = Value z -> int_ok (Ztrunc r) = Value (- z)%Z) as H.
  { intros r. rewrite Ztrunc_opp. unfold int_ok at 1. destruct (_ && _)%bool eqn:E; [|discriminate]. intros [= <-].
    rewrite Z.opp_involutive. apply int_ok_in. apply andb_prop in E. destruct E as [E1 E2].
    apply Z.leb_le in E1. apply Z.leb_le in E2. unfold int_min, int_max in *. lia. }
  destruct (_ && _)%bool; [|apply H]. replace (- dval v + 1) with (- (dval v - 1)) by ring. rewrite rnd_opp. apply H.
Qed.
Lemma la_opp z r : least_above z (- r) -> greatest_below (- z) r.
Proof. intros [A B]. split; rewrite opp_IZR; lra. Qed.
Lemma gb_opp z r : greatest_below z r -> least_above (- z) (- r).
Proof. intros [A B]. split; rewrite opp_IZR; lra. Qed.
Lemma floor_gen v : is_number v -> Rabs (dval v) < 2147483647 ->
  exists z, m_floor dbl v = Value z /\ (greatest_below z (dval v) \/ greatest_below (z + 1) (dval v)) /\
    (0 <= dval v \/ is_integer (dval v) -> greatest_below z (dval v)) /\
    (forall k, greatest_below k (dval v) -> bpow radix2 (-21) <= dval v - IZR k -> z = k).
Proof.
  intros Hv Hr. destruct (dopp_ok v Hv) as [Ho Eo].
  destruct (ceil_gen (nopp dbl v) Ho) as (z & E & H1 & H2 & H3); [now rewrite Eo, Rabs_Ropp|]. rewrite Eo in *.
  exists (- z)%Z. split; [apply floor_ceil; try assumption|].
  { apply lt_IZR. change (IZR int_min) with (-2147483648). apply Rabs_def2 in Hr.
    destruct H1 as [[_ H1]|[_ H1]]; rewrite ?minus_IZR in H1; lra. }
  split; [|split].
  - destruct H1 as [H1|H1]; [left; now apply la_opp|right]. replace (- z + 1)%Z with (- (z - 1))%Z by ring. now apply la_opp.
  - intros H. apply la_opp, H2. destruct H as [H|[n H]]; [left; lra|right; exists (- n)%Z; rewrite H, opp_IZR; reflexivity].
  - intros k Hk Hd. rewrite <- (Z.opp_involutive k). f_equal. apply H3; [now apply gb_opp|rewrite opp_IZR; lra].
Qed.
(** outside the range of int the conversion is undefined *)
Lemma out_trunc r : 2147483649 <= Rabs r -> int_ok (Ztrunc r) = Undefined.
Proof.
  intros H. unfold int_ok. assert (2147483649 <= Z.abs (Ztrunc r))%Z as L.
  { rewrite <- Ztrunc_abs, Ztrunc_floor by apply Rabs_pos. apply Zfloor_lub. exact H. }
  destruct (_ && _)%bool eqn:E; [|reflexivity]. apply andb_prop in E. destruct E as [E1 E2].
  apply Z.leb_le in E1. apply Z.leb_le in E2. unfold int_min, int_max in *. lia.
Qed.
Lemma floor_out v : is_number v -> 2147483649 <= Rabs (dval v) -> m_floor dbl v = Undefined /\ m_ceil dbl v = Undefined.
Proof.
  intros Hv H. unfold m_floor, m_ceil. rewrite dtrunc_eq, out_trunc by assumption. split; reflexivity.
Qed.
Lemma floor_special v : is_double v -> ~ is_number v -> m_floor dbl v = Undefined /\ m_ceil dbl v = Undefined.
Proof. intros Hd Hn. unfold m_floor, m_ceil. rewrite trunc_special by assumption. split; reflexivity. Qed.

(** in exact arithmetic they are right *)
Lemma ceil_exact x : Rabs x < 2147483647 -> exists z, m_ceil exact x = Value z /\ least_above z x.
Proof.
  intros Hx. unfold m_ceil. pose proof (small_trunc x Hx) as Hs.
  assert (ntrunc exact x = Value (Ztrunc x)) as Et.
  { destruct (Rle_dec 0 x).
    - apply trunc_pos; [assumption| |unfold in_int, int_min, int_max; lia]. rewrite Ztrunc_floor by assumption. apply gb_Zfloor.
    - apply trunc_neg; [lra| |unfold in_int, int_min, int_max; lia]. rewrite Ztrunc_ceil by lra. apply la_Zceil. }
  rewrite Et. cbn [obind]. change (n_eq exact) with (fun x y => if Req_EM_T x y then true else false).
  change (n_lt exact) with (fun x y => if Rlt_dec x y then true else false). change (nint exact) with IZR. cbn beta.
  destruct (double_int x) as [E|[(L & G & E)|(L & G & E)]].
  - destruct (Req_EM_T _ _); [|congruence]. cbn [negb andb]. exists (Ztrunc x). split; [exact Et|]. split; lra.
  - destruct (Req_EM_T _ _); [congruence|]. destruct (Rlt_dec 0 x); [|lra]. cbn [negb andb]. exists (Ztrunc x + 1)%Z.
    destruct G as [G1 G2]. assert (IZR (Ztrunc x) <> x) by congruence. split.
    + change (nadd exact) with Rplus. apply trunc_pos; [lra|rewrite plus_IZR; lra|unfold in_int, int_min, int_max; lia].
    + split; rewrite plus_IZR; lra.
  - destruct (Req_EM_T _ _); [congruence|]. destruct (Rlt_dec 0 x); [lra|]. cbn [negb andb]. exists (Ztrunc x). split; [exact Et|exact G].
Qed.
Lemma floor_exact x : Rabs x < 2147483647 -> exists z, m_floor exact x = Value z /\ greatest_below z x.
Proof.
  intros Hx. unfold m_floor. pose proof (small_trunc x Hx) as Hs.
  assert (ntrunc exact x = Value (Ztrunc x)) as Et.
  { destruct (Rle_dec 0 x).
    - apply trunc_pos; [assumption| |unfold in_int, int_min, int_max; lia]. rewrite Ztrunc_floor by assumption. apply gb_Zfloor.
    - apply trunc_neg; [lra| |unfold in_int, int_min, int_max; lia]. rewrite Ztrunc_ceil by lra. apply la_Zceil. }
  rewrite Et. cbn [obind]. change (n_eq exact) with (fun x y => if Req_EM_T x y then true else false).
  change (n_lt exact) with (fun x y => if Rlt_dec x y then true else false). change (nint exact) with IZR. cbn beta.
  destruct (double_int x) as [E|[(L & G & E)|(L & G & E)]].
  - destruct (Req_EM_T _ _); [|congruence]. cbn [negb andb]. exists (Ztrunc x). split; [exact Et|]. split; lra.
  - destruct (Req_EM_T _ _); [congruence|]. destruct (Rlt_dec x 0); [lra|]. cbn [negb andb]. exists (Ztrunc x). split; [exact Et|exact G].
  - destruct (Req_EM_T _ _); [congruence|]. destruct (Rlt_dec x 0); [|lra]. cbn [negb andb]. exists (Ztrunc x - 1)%Z.
    destruct G as [G1 G2]. assert (IZR (Ztrunc x) <> x) by congruence. split.
    + change (nsub exact) with Rminus. apply trunc_neg; [lra|rewrite minus_IZR; lra|unfold in_int, int_min, int_max; lia].
    + split; rewrite minus_IZR; lra.
Qed.

(** ** abs *)
Lemma abs_cases x : is_double x -> m_abs dbl x = x \/ m_abs dbl x = nopp dbl x.
Proof. intros _. unfold m_abs. destruct (n_lt dbl x (nint dbl 0)); auto. Qed.
Lemma abs_sf x : m_abs dbl x = match x with
  | S754_zero s => S754_zero s | S754_infinity _ => S754_infinity false | S754_nan => S754_nan
  | S754_finite _ m e => S754_finite false m e end.
Proof. destruct x as [[]|[]| |[] m e]; reflexivity. Qed.
Lemma abs_double x : is_double x -> is_double (m_abs dbl x).
Proof. rewrite abs_sf. now destruct x. Qed.
Lemma abs_nonneg x : x <> S754_nan -> n_le dbl (nint dbl 0) (m_abs dbl x) = true.
Proof. rewrite abs_sf. destruct x as [[]|[]| |[] m e]; try easy. Qed.
Lemma abs_even x : x <> S754_nan -> n_eq dbl (m_abs dbl (nopp dbl x)) (m_abs dbl x) = true.
Proof.
  rewrite !abs_sf. destruct x as [[]|[]| |[] m e]; try easy; intros _; simpl nopp; cbn -[Z.compare Pos.compare_cont Pos.compare];
    unfold SFeqb, SFcompare; rewrite Z.compare_refl, Pos.compare_cont_refl; reflexivity.
Qed.
Lemma abs_value x : is_number x -> is_number (m_abs dbl x) /\ dval (m_abs dbl x) = Rabs (dval x).
Proof.
  rewrite abs_sf. intros Hx. destruct x as [s|s| |s m e]; try now destruct Hx.
  - split; [exact Hx|]. simpl. now rewrite Rabs_R0.
  - split; [exact Hx|]. unfold dval. rewrite Rabs_mult, (Rabs_right (powerRZ 2 e)) by (apply Rle_ge, powerRZ_le; lra).
    f_equal. destruct s; rewrite ?Rabs_Ropp, Rabs_right; try reflexivity; apply Rle_ge, IZR_le; lia.
Qed.

(** ** The statements *)
Lemma p21 : bpow radix2 (-21) = / 2097152. Proof. exact (bpow_opp radix2 21). Qed.
Lemma floor_double v : is_number v -> Rabs (dval v) < 2147483647 ->
  exists z, m_floor dbl v = Value z /\
    (greatest_below z (dval v) \/ greatest_below (z + 1) (dval v)) /\
    (0 <= dval v \/ is_integer (dval v) -> greatest_below z (dval v)) /\
    (forall k, greatest_below k (dval v) -> / 2097152 <= dval v - IZR k -> z = k).
Proof. rewrite <- p21. apply floor_gen. Qed.
Lemma ceil_double v : is_number v -> Rabs (dval v) < 2147483647 ->
  exists z, m_ceil dbl v = Value z /\
    (least_above z (dval v) \/ least_above (z - 1) (dval v)) /\
    (dval v <= 0 \/ is_integer (dval v) -> least_above z (dval v)) /\
    (forall k, least_above k (dval v) -> / 2097152 <= IZR k - dval v -> z = k).
Proof. rewrite <- p21. apply ceil_gen. Qed.
Lemma almost_one m : m = 9007199254740991%positive -> dval (S754_finite false m (-53)) = 1 - / 9007199254740992.
Proof.
  intros ->. unfold dval. rewrite <- (bpow_powerRZ radix2).
  replace (bpow radix2 (-53)) with (/ 9007199254740992) by (symmetry; exact (bpow_opp radix2 53)). field.
Qed.
Lemma ceil_refuted : exists v, is_number v /\ 0 < dval v < 1 /\ m_ceil dbl v = Value 2%Z.
Proof.
  exists (S754_finite false 9007199254740991 (-53)). split; [split; [vm_compute; reflexivity|exact I]|]. split.
  - rewrite almost_one by reflexivity. lra.
  - vm_compute. reflexivity.
Qed.
Lemma floor_refuted : exists v, is_number v /\ -1 < dval v < 0 /\ m_floor dbl v = Value (-2)%Z.
Proof.
  exists (nopp dbl (S754_finite false 9007199254740991 (-53))). split; [split; [vm_compute; reflexivity|exact I]|]. split.
  - rewrite (proj2 (dopp_ok (S754_finite false 9007199254740991 (-53)) ltac:(split; [vm_compute; reflexivity|exact I]))), almost_one by reflexivity. lra.
  - vm_compute. reflexivity.
Qed.
