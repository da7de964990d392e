(** sqrt on doubles *)
From Coq Require Import ZArith Reals Lra Lia Psatz.
From Coq.Floats Require Import SpecFloat.
From Flocq Require Import Core BinarySingleNaN Relative.
From Verif Require Import ModelCmath SpecCmath CmathReal DoubleArith DoubleRound.
Open Scope R_scope.

Definition u : R := / 9007199254740992.
Definition eta0 : R := bpow radix2 (-1075).
Lemma rnd_err r e : eta0 <= e -> Rabs (rnd r - r) <= u * Rabs r + e.
Proof.
  intros He. destruct (error_N_FLT radix2 (-1074) 53 eq_refl (fun x => negb (Z.even x)) r) as (ep & et & H1 & H2 & _ & H4).
  change (rnd r = r * (1 + ep) + et) in H4. rewrite H4. replace (r * (1 + ep) + et - r) with (ep * r + et) by ring.
  eapply Rle_trans; [apply Rabs_triang|]. rewrite Rabs_mult. apply Rplus_le_compat.
  - apply Rmult_le_compat_r; [apply Rabs_pos|]. eapply Rle_trans; [exact H1|]. right. unfold u.
    replace (bpow radix2 (- (53) + 1)) with (/ 4503599627370496) by (symmetry; exact (bpow_opp radix2 52)). lra.
  - eapply Rle_trans; [exact H2|]. eapply Rle_trans; [|exact He]. right. unfold eta0.
    change (-1075)%Z with (-1 + -1074)%Z. rewrite bpow_plus. reflexivity.
Qed.
Lemma rnd_abs_up r e B : eta0 <= e -> Rabs r <= B -> Rabs (rnd r) <= B * (1 + u) + e.
Proof.
  intros He HB. pose proof (rnd_err r e He) as H. pose proof (Rabs_triang (rnd r - r) r) as H2.
  replace (rnd r - r + r) with (rnd r) in H2 by ring. assert (0 < u) by (unfold u; lra).
  assert (u * Rabs r <= u * B) by (apply Rmult_le_compat_l; lra). lra.
Qed.
Lemma positive_min x : is_number x -> 0 < dval x -> bpow radix2 (-1074) <= dval x.
Proof.
  intros [Hv Hn] Hp. destruct x as [s|s| |s m e]; try easy; [simpl in Hp; lra|].
  assert (-1074 <= e)%Z as He.
  { unfold is_double in Hv. simpl in Hv. apply andb_prop in Hv. destruct Hv as [Hv _]. apply (canonical_canonical_mantissa 53 1024 s) in Hv.
    rewrite Hv. unfold cexp. unfold SpecFloat.fexp, SpecFloat.emin. simpl Fexp. lia. }
  destruct s; unfold dval in *.
  - assert (0 < powerRZ 2 e) by (apply powerRZ_lt; lra). assert (0 < IZR (Zpos m)) by (apply IZR_lt; lia). nra.
  - assert (1 <= IZR (Zpos m)) by (apply IZR_le; lia). rewrite <- (bpow_powerRZ radix2).
    assert (bpow radix2 (-1074) <= bpow radix2 e) by now apply bpow_le. pose proof (bpow_gt_0 radix2 e). nra.
Qed.
Lemma max_below x : is_number x -> Rabs (dval x) < big.
Proof. intros Hx. destruct (number_B2SF x Hx) as (b & <- & F & <-). apply abs_B2R_lt_emax. Qed.

(** adding 1 to a double does not overflow *)
Definition dmax : spec_float := S754_finite false 9007199254740991 971.
Lemma add_one_max : Rabs (rnd (dval dmax + 1)) < big.
Proof.
  assert (is_number dmax) as Hm by (split; [vm_compute; reflexivity|exact I]).
  destruct (number_B2SF _ Hm) as (bx & E1 & Fx & Ex). destruct (number_B2SF _ (proj1 one_ok)) as (by_ & E2 & Fy & Ey).
  assert (SFadd 53 1024 dmax (nint dbl 1) = dmax) as A by (vm_compute; reflexivity).
  rewrite <- E1, <- E2, add_equiv in A at 1.
  pose proof (Bplus_correct 53 1024 Hprec Hmax mode_NE bx by_ Fx Fy) as H. cbv zeta in H. simpl round_mode in H.
  rewrite Ex, Ey, (proj2 one_ok) in H. fold (rnd (dval dmax + 1)) in H.
  destruct (Rlt_bool_spec (Rabs (rnd (dval dmax + 1))) big) as [L|L]; [exact L|].
  unfold rnd in L. unfold big in L. rewrite Rlt_bool_false in H by exact L. destruct H as [H _].
  rewrite H in A. discriminate A.
Qed.
Lemma le_max x : is_number x -> dval x <= dval dmax.
Proof.
  intros Hx. destruct (number_B2SF x Hx) as (b & <- & F & E). rewrite <- E.
  eapply Rle_trans; [apply Rle_abs|]. eapply Rle_trans; [apply (abs_B2R_le_emax_minus_prec 53 1024); exact eq_refl|].
  right. unfold dmax, dval. rewrite <- (bpow_powerRZ radix2). change (1024 - 53)%Z with 971%Z.
  change 1024%Z with (53 + 971)%Z. rewrite bpow_plus. change (bpow radix2 53) with 9007199254740992. ring.
Qed.
Lemma add_one x : is_number x -> 0 <= dval x -> Rabs (rnd (1 + dval x)) < big.
Proof.
  intros Hx H0. pose proof (le_max x Hx) as L. pose proof add_one_max as M.
  assert (0 <= rnd (1 + dval x)) as P.
  { rewrite <- (rnd_id (IZR 0)) by (apply fmt_int; reflexivity). apply rnd_le. lra. }
  rewrite Rabs_right by lra. eapply Rle_lt_trans; [|exact M]. eapply Rle_trans; [|apply Rle_abs]. apply rnd_le. lra.
Qed.

(** the constant 0.001 *)
Lemma tol_ok : exists t, ndec dbl 1 3 = Value t /\ is_number t /\ Rabs (dval t - 1 / 1000) <= / 1000000000000000000.
Proof.
  unfold dbl, ndec, ddec. eexists. split; [reflexivity|].
  assert (exists m e, SFdiv dprec demax (dint 1) (dint (10 ^ 3)) = S754_finite false m e /\ m = 4611686018427388%positive /\ e = (-62)%Z) as H.
  { do 2 eexists. split; [vm_compute; reflexivity|split; reflexivity]. }
  destruct H as (m & e & -> & -> & ->). split; [split; [vm_compute; reflexivity|exact I]|].
  unfold dval. rewrite <- (bpow_powerRZ radix2). replace (bpow radix2 (-62)) with (/ 4611686018427387904) by (symmetry; exact (bpow_opp radix2 62)).
  apply Rabs_le. lra.
Qed.
Lemma two_ok : is_number (nint dbl 2) /\ dval (nint dbl 2) = 2.
Proof. apply (dint_ok 2). reflexivity. Qed.

(** ** One step. [G] is the estimate, [P] is X/G, [S] the root. *)
Definition dl : R := / 1099511627776.   (* 2^-40 *)
Lemma div_1 r : r / 1 = r. Proof. field. Qed.
Lemma u_pos : 0 < u. Proof. unfold u. lra. Qed.
Lemma am_gm S G P : 0 < S -> 0 < G -> 0 < P -> G * P = S * S -> 2 * S <= G + P.
Proof.
  intros HS HG HP E. apply Rnot_lt_le. intros L.
  assert ((G + P) * (G + P) < 2 * S * (2 * S)) by (apply Rmult_le_0_lt_compat; lra).
  pose proof (Rle_0_sqr (G - P)) as Q. unfold Rsqr in Q. lra.
Qed.
Lemma quot_up S G P : 0 < S -> 0 < G -> 0 < P -> G * P = S * S -> S * (1 - dl) <= G -> P <= G * (1 + 3 * dl).
Proof.
  unfold dl. intros HS HG HP E H. assert (S <= G * (1 + 11 / 10 * / 1099511627776)) as H2 by lra.
  assert (S * S <= G * (1 + 11 / 10 * / 1099511627776) * (G * (1 + 11 / 10 * / 1099511627776))) as H3 by (apply Rmult_le_compat; lra).
  apply Rmult_le_reg_l with G; [exact HG|]. rewrite E. eapply Rle_trans; [exact H3|].
  assert (0 < G * G) by (apply Rmult_lt_0_compat; assumption). lra.
Qed.
Lemma quot_lo S G P : 0 < S -> 0 < G -> 0 < P -> G * P = S * S -> S * (1 - dl) <= G -> P <= S * (1 + 3 * dl).
Proof.
  unfold dl. intros HS HG HP E H. apply Rmult_le_reg_l with G; [exact HG|]. rewrite E.
  assert (S * (1 - / 1099511627776) * (S * (1 + 3 * / 1099511627776)) <= G * (S * (1 + 3 * / 1099511627776))).
  { apply Rmult_le_compat_r; [|exact H]. apply Rmult_le_pos; lra. }
  assert (0 < S * S) by (apply Rmult_lt_0_compat; assumption). lra.
Qed.
(** the next estimate is not below the root (but for rounding) *)
Lemma next_lower S G P Q A G' : 0 < S -> 0 < G -> 0 < P -> G * P = S * S ->
  Rabs (Q - P) <= u * Rabs P + u * S -> Rabs (A - (G + Q)) <= u * Rabs (G + Q) + u * S ->
  Rabs (G' - A / 2) <= u * Rabs (A / 2) + u * S -> S * (1 - dl) <= G'.
Proof.
  intros HS HG HP E HQ HA HG'. pose proof (am_gm S G P HS HG HP E) as HM.
  rewrite (Rabs_right P) in HQ by lra. apply Rabs_le_inv in HQ. destruct HQ as [HQ _].
  assert ((G + P) * (1 - 2 * u) <= G + Q) as H1 by (unfold u in *; lra).
  assert (0 < G + Q) as H1' by (unfold u in *; lra).
  rewrite (Rabs_right (G + Q)) in HA by lra. apply Rabs_le_inv in HA. destruct HA as [HA _].
  assert ((G + P) * (1 - 4 * u) <= A) as H2 by (unfold u in *; lra).
  assert (0 < A / 2) as H2' by (unfold u in *; lra).
  rewrite (Rabs_right (A / 2)) in HG' by lra. apply Rabs_le_inv in HG'. destruct HG' as [HG' _].
  unfold dl, u in *. lra.
Qed.
(** and, unless the test ends the loop, it is smaller by a factor *)
Lemma next_upper S G P Q D W T A G' : 0 < S -> 0 < G -> 0 < P -> G * P = S * S -> S * (1 - dl) <= G ->
  Rabs (Q - P) <= u * Rabs P + u * S -> Rabs (D - (G - Q)) <= u * Rabs (G - Q) + u * S ->
  Rabs (T - 1 / 1000) <= / 1000000000000000000 -> Rabs (W - T * G) <= u * Rabs (T * G) + u * S ->
  W <= Rabs D -> Rabs (A - (G + Q)) <= u * Rabs (G + Q) + u * S ->
  Rabs (G' - A / 2) <= u * Rabs (A / 2) + u * S -> G' <= 9996 / 10000 * G /\ G + Q <= 19992 / 10000 * G /\ 0 < G + Q.
Proof.
  intros HS HG HP E HSG HQ HD HT HW Hno HA HG'. pose proof (quot_up S G P HS HG HP E HSG) as HPu.
  assert (S <= 2 * G) as HS2 by (unfold dl in *; lra).
  rewrite (Rabs_right P) in HQ by lra. apply Rabs_le_inv in HQ. destruct HQ as [HQ1 HQ2].
  apply Rabs_le_inv in HT. destruct HT as [HT1 HT2].
  assert (99 / 100000 * G <= T * G) as HTG by (apply Rmult_le_compat_r; lra).
  assert (T * G <= 101 / 100000 * G) as HTG2 by (apply Rmult_le_compat_r; lra).
  rewrite (Rabs_right (T * G)) in HW by lra. apply Rabs_le_inv in HW. destruct HW as [HW1 HW2].
  assert (985 / 1000000 * G <= W) as HWl by (unfold u in *; lra).
  assert (- (u * S) <= Q) as HQl by (unfold u in *; lra).
  assert (Q <= G * (1 + 4 * dl)) as HQu by (unfold u, dl in *; lra).
  assert (Rabs D <= Rabs (G - Q) * (1 + u) + u * S) as HDu.
  { pose proof (Rabs_triang (D - (G - Q)) (G - Q)) as Ht. replace (D - (G - Q) + (G - Q)) with D in Ht by ring. lra. }
  destruct (Rle_or_lt 0 (G - Q)) as [L|L].
  2:{ exfalso. rewrite (Rabs_left (G - Q)) in HDu by lra. unfold u, dl in *. lra. }
  rewrite (Rabs_right (G - Q)) in HDu by lra.
  assert (98 / 100000 * G <= G - Q) as HGQ by (unfold u in *; lra).
  assert (0 < G + Q) as HGQ0 by (unfold u in *; lra).
  rewrite (Rabs_right (G + Q)) in HA by lra. apply Rabs_le_inv in HA. destruct HA as [HA1 HA2].
  assert (0 < A / 2) as HA0 by (unfold u in *; lra).
  rewrite (Rabs_right (A / 2)) in HG' by lra. apply Rabs_le_inv in HG'. destruct HG' as [HG1 HG2].
  split; [unfold u in *; lra|]. split; lra.
Qed.
(** when the test ends the loop the estimate is good *)
Lemma test_good e S G P Q D W T : 0 < S -> 0 < G -> 0 < P -> G * P = S * S -> 0 <= e <= / 10000000000 * G ->
  Rabs (Q - P) <= u * Rabs P + e -> Rabs (D - (G - Q)) <= u * Rabs (G - Q) + e ->
  Rabs (T - 1 / 1000) <= / 1000000000000000000 -> Rabs (W - T * G) <= u * Rabs (T * G) + e ->
  Rabs D < W -> Rabs (G * G - S * S) <= 1000001 / 1000000000 * (G * G).
Proof.
  intros HS HG HP E He HQ HD HT HW Hyes.
  rewrite (Rabs_right P) in HQ by lra. apply Rabs_le_inv in HQ. destruct HQ as [HQ1 HQ2].
  apply Rabs_le_inv in HT. destruct HT as [HT1 HT2].
  assert (0 <= T * G) as HTG by (apply Rmult_le_pos; lra).
  assert (T * G <= 10000001 / 10000000000 * G) as HTG2 by (apply Rmult_le_compat_r; lra).
  rewrite (Rabs_right (T * G)) in HW by lra. apply Rabs_le_inv in HW. destruct HW as [HW1 HW2].
  assert (W <= 10000003 / 10000000000 * G) as HWu by (unfold u in *; lra).
  assert (Rabs (G - Q) * (1 - u) <= Rabs D + e) as HDl.
  { pose proof (Rabs_triang ((G - Q) - D) D) as Ht. replace (G - Q - D + D) with (G - Q) in Ht by ring.
    rewrite (Rabs_minus_sym (G - Q) D) in Ht. lra. }
  assert (Rabs (G - Q) <= 10000005 / 10000000000 * G) as HGQ by (unfold u in *; lra).
  apply Rabs_le_inv in HGQ. destruct HGQ as [HGQ1 HGQ2].
  assert (P <= 2 * G) as HP2 by (unfold u in *; lra).
  assert (Rabs (G - P) <= 1000001 / 1000000000 * G) as HGP by (apply Rabs_le; unfold u in *; lra).
  rewrite <- E. replace (G * G - G * P) with (G * (G - P)) by ring. rewrite Rabs_mult, (Rabs_right G) by lra.
  replace (1000001 / 1000000000 * (G * G)) with (G * (1000001 / 1000000000 * G)) by ring. apply Rmult_le_compat_l; lra.
Qed.

(** ** The loop *)
Lemma near_big a : Rabs a <= dval dmax -> Rabs (rnd a) < big.
Proof.
  assert (is_number dmax) as Hm by (split; [vm_compute; reflexivity|exact I]).
  intros H. apply Rle_lt_trans with (dval dmax); [|eapply Rle_lt_trans; [apply Rle_abs|apply max_below, Hm]].
  apply Rabs_le_inv in H. apply Rabs_le. rewrite <- (rnd_id (dval dmax)) by now apply rnd_format. rewrite <- rnd_opp.
  split; apply rnd_le; lra.
Qed.
Lemma dmax_val : dval dmax = (2 - / 4503599627370496) * bpow radix2 1023.
Proof.
  unfold dmax, dval. rewrite <- (bpow_powerRZ radix2). change 1023%Z with (52 + 971)%Z. rewrite bpow_plus.
  change (bpow radix2 52) with 4503599627370496. field.
Qed.
Section sqrt.
  Variable x : spec_float.
  Hypothesis Hx : is_number x.
  Hypothesis Hpos : 0 < dval x.
  Let X := dval x.
  Let S := R_sqrt.sqrt X.
  Lemma S_pos : 0 < S. Proof. apply sqrt_lt_R0. exact Hpos. Qed.
  Lemma S_sqr : S * S = X. Proof. apply sqrt_sqrt. left. exact Hpos. Qed.
  Lemma S_low : bpow radix2 (-537) <= S.
  Proof.
    unfold S. rewrite <- (sqrt_square (bpow radix2 (-537))) by apply bpow_ge_0. apply sqrt_le_1.
    - apply Rmult_le_pos; apply bpow_ge_0. - left. exact Hpos.
    - rewrite <- bpow_plus. apply positive_min; assumption.
  Qed.
  Lemma S_high : S < bpow radix2 512.
  Proof.
    unfold S. rewrite <- (sqrt_square (bpow radix2 512)) by apply bpow_ge_0. apply sqrt_lt_1.
    - left. exact Hpos. - apply Rmult_le_pos; apply bpow_ge_0.
    - rewrite <- bpow_plus. eapply Rle_lt_trans; [apply Rle_abs|]. apply max_below. exact Hx.
  Qed.
  Lemma eta_S : eta0 <= u * S.
  Proof.
    pose proof S_low as H. apply Rle_trans with (u * bpow radix2 (-537)).
    - unfold eta0, u. replace (/ 9007199254740992) with (bpow radix2 (-53)) by exact (bpow_opp radix2 53).
      rewrite <- bpow_plus. apply bpow_le. lia.
    - apply Rmult_le_compat_l; [left; apply u_pos|exact H].
  Qed.
  Definition good (r : spec_float) : Prop :=
    is_number r /\ 0 < dval r /\ Rabs (dval r * dval r - X) <= 1000001 / 1000000000 * (dval r * dval r) /\
    (dval r = 1 \/ S * (1 - dl) <= dval r).
  Lemma helper_S k y g : sqrt_helper dbl (Datatypes.S k) y g =
    obind (ndec dbl 1 3) (fun t => obind (ndiv dbl y g) (fun q =>
      if n_lt dbl (m_abs dbl (nsub dbl g q)) (nmul dbl t g) then Value g
      else obind (ndiv dbl y g) (fun q => obind (ndiv dbl (nadd dbl g q) (nint dbl 2)) (fun g' => sqrt_helper dbl k y g')))).
  Proof. reflexivity. Qed.
  Lemma sqrt_loop N g : is_number g -> S * (1 - dl) <= dval g -> dval g <= bpow radix2 1023 ->
    dval g * (9996 / 10000) ^ N < S / 2 -> exists r, (forall k, (N <= k)%nat -> sqrt_helper dbl k x g = Value r) /\ good r.
  Proof.
    revert g. induction N as [|N IH]; intros g Hg Hlo Hhi Hsm.
    { exfalso. simpl in Hsm. pose proof S_pos. unfold dl in Hlo. lra. }
    pose proof S_pos as HS. pose proof S_sqr as HSS. pose proof S_high as HSh. pose proof eta_S as Het. pose proof u_pos as Hu.
    set (G := dval g) in *. assert (0 < G) as HG by (unfold dl in *; lra).
    pose (P := X / G). assert (0 < P) as HP by (apply Rdiv_lt_0_compat; [exact Hpos|exact HG]).
    assert (G * P = S * S) as HE by (rewrite HSS; unfold P; field; lra).
    pose proof (quot_lo S G P HS HG HP HE Hlo) as HPs. pose proof (quot_up S G P HS HG HP HE Hlo) as HPg.
    assert (bpow radix2 512 * 2 <= bpow radix2 1023) as Hb by (change 2 with (bpow radix2 1); rewrite <- bpow_plus; apply bpow_le; lia).
    destruct (ddiv_ok x g Hx Hg) as (q & Eq & Hq & Vq); [fold G; lra| |].
    { fold X G P. apply bpow_big. rewrite Rabs_right by lra. unfold dl in *. lra. }
    fold X G P in Vq. pose proof (rnd_err P (u * S) Het) as Q1. rewrite <- Vq in Q1. set (Q := dval q) in *.
    assert (- (u * S) <= Q <= G * (1 + 4 * dl)) as HQb.
    { rewrite (Rabs_right P) in Q1 by lra. apply Rabs_le_inv in Q1. unfold u, dl in *. lra. }
    destruct (dsub_ok g q Hg Hq) as [Hd Vd].
    { fold G Q. apply near_big. rewrite dmax_val. apply Rabs_le. unfold u, dl in *. lra. }
    fold G Q in Vd. pose proof (rnd_err (G - Q) (u * S) Het) as D1. rewrite <- Vd in D1.
    destruct tol_ok as (t & Et & Ht & Vt).
    assert (0 < dval t * G <= / 2 * G) as HtG.
    { apply Rabs_le_inv in Vt. split; [apply Rmult_lt_0_compat; lra|apply Rmult_le_compat_r; lra]. }
    destruct (dmul_ok t g Ht Hg) as [Hw Vw].
    { fold G. apply near_big. rewrite dmax_val. apply Rabs_le. unfold u, dl in *. lra. }
    fold G in Vw. pose proof (rnd_err (dval t * G) (u * S) Het) as W1. rewrite <- Vw in W1.
    destruct (abs_value _ Hd) as [Ha Va].
    destruct (Rlt_bool_spec (Rabs (dval (nsub dbl g q))) (dval (nmul dbl t g))) as [L|L].
    - exists g. split.
      + intros [|k] Hk; [lia|]. rewrite helper_S, Et. cbn [obind]. rewrite Eq. cbn [obind].
        rewrite dlt by assumption. rewrite Va, Rlt_bool_true by exact L. reflexivity.
      + split; [exact Hg|]. split; [exact HG|]. split; [|now right]. fold G. rewrite <- HSS.
        apply (test_good (u * S) S G P Q (dval (nsub dbl g q)) (dval (nmul dbl t g)) (dval t)); try assumption.
        unfold u, dl in *. lra.
    - destruct (dadd_ok g q Hg Hq) as [Hs Vs].
      { fold G Q. apply near_big. rewrite dmax_val.
        destruct (next_upper S G P Q (dval (nsub dbl g q)) (dval (nmul dbl t g)) (dval t) (G + Q) ((G + Q) / 2)) as (_ & U1 & U2); try assumption.
        - rewrite Rminus_eq_0, Rabs_R0. apply Rplus_le_le_0_compat; apply Rmult_le_pos; try lra; apply Rabs_pos.
        - rewrite Rminus_eq_0, Rabs_R0. apply Rplus_le_le_0_compat; apply Rmult_le_pos; try lra; apply Rabs_pos.
        - apply Rabs_le. lra. }
      fold G Q in Vs. pose proof (rnd_err (G + Q) (u * S) Het) as A1. rewrite <- Vs in A1. set (A := dval (nadd dbl g q)) in *.
      destruct (ddiv_ok (nadd dbl g q) (nint dbl 2) Hs (proj1 two_ok)) as (g' & Eg & Hg' & Vg).
      { rewrite (proj2 two_ok). lra. }
      { rewrite (proj2 two_ok). fold A. apply near_big. pose proof (max_below _ Hs) as M. fold A in M. rewrite dmax_val.
        unfold big in M. change 1024%Z with (1 + 1023)%Z in M. rewrite bpow_plus in M. change (bpow radix2 1) with 2 in M.
        pose proof (bpow_gt_0 radix2 1023). apply Rabs_def2 in M. apply Rabs_le. lra. }
      rewrite (proj2 two_ok) in Vg. fold A in Vg. pose proof (rnd_err (A / 2) (u * S) Het) as G1. rewrite <- Vg in G1.
      destruct (next_upper S G P Q (dval (nsub dbl g q)) (dval (nmul dbl t g)) (dval t) A (dval g')) as (U0 & _ & _); try assumption.
      pose proof (next_lower S G P Q A (dval g') HS HG HP HE Q1 A1 G1) as Lo.
      destruct (IH g' Hg' Lo) as (r & Hr & Gr); [lra| |].
      { eapply Rle_lt_trans; [|exact Hsm]. simpl. rewrite <- Rmult_assoc. apply Rmult_le_compat_r; [apply pow_le; lra|lra]. }
      exists r. split; [|exact Gr]. intros [|k] Hk; [lia|]. rewrite helper_S, Et. cbn [obind]. rewrite Eq. cbn [obind].
      rewrite dlt by assumption. rewrite Va, Rlt_bool_false by exact L. rewrite Eg. cbn [obind]. apply Hr. lia.
  Qed.
  Lemma sqrt_double : exists r, returns (fun n => m_sqrt dbl n x) r /\ good r.
  Proof.
    pose proof S_pos as HS. pose proof S_sqr as HSS. pose proof S_high as HSh. pose proof eta_S as Het. pose proof u_pos as Hu.
    pose proof Hpos as HX. fold X in HX. unfold m_sqrt. destruct one_ok as [H1 V1].
    destruct (ddiv_ok x (nint dbl 1) Hx H1) as (q & Eq & Hq & Vq); [rewrite V1; lra| |].
    { rewrite V1, div_1, rnd_id by now apply rnd_format. now apply max_below. }
    rewrite V1, div_1, rnd_id in Vq by now apply rnd_format. fold X in Vq.
    destruct (dsub_ok (nint dbl 1) q H1 Hq) as [Hd Vd].
    { rewrite V1, Vq. replace (1 - X) with (- (X - 1)) by ring. rewrite rnd_opp, Rabs_Ropp. apply near_big.
      pose proof (le_max x Hx) as M. fold X in M. apply Rabs_le. rewrite dmax_val in *.
      assert (1 <= bpow radix2 1023) by (apply (bpow_le radix2 0 1023); lia). lra. }
    rewrite V1 in Vd. assert (eta0 <= / 10000000000) as Het2.
    { unfold eta0. eapply Rle_trans; [apply (bpow_le radix2 (-1075) (-40)); lia|]. replace (bpow radix2 (-40)) with (/ 1099511627776) by (symmetry; exact (bpow_opp radix2 40)). lra. }
    assert (0 <= eta0) as Het0 by apply bpow_ge_0.
    pose proof (rnd_err (1 - dval q) eta0 (Rle_refl _)) as D1. rewrite <- Vd in D1.
    destruct tol_ok as (t & Et & Ht & Vt).
    assert (0 < dval t * 1 <= / 2) as HtG by (apply Rabs_le_inv in Vt; lra).
    destruct (dmul_ok t (nint dbl 1) Ht H1) as [Hw Vw].
    { rewrite V1. apply small_big. change (IZR (2 ^ 60)) with 1152921504606846976. apply Rabs_def1; lra. }
    rewrite V1 in Vw. pose proof (rnd_err (dval t * 1) eta0 (Rle_refl _)) as W1. rewrite <- Vw in W1.
    destruct (abs_value _ Hd) as [Ha Va].
    destruct (Rlt_bool_spec (Rabs (dval (nsub dbl (nint dbl 1) q))) (dval (nmul dbl t (nint dbl 1)))) as [L|L].
    - exists (nint dbl 1). split.
      + exists 1%nat. intros [|k] Hk; [lia|]. rewrite helper_S, Et. cbn [obind]. rewrite Eq. cbn [obind].
        rewrite dlt by assumption. rewrite Va, Rlt_bool_true by exact L. reflexivity.
      + split; [exact H1|]. rewrite V1. split; [lra|]. split; [|now left]. rewrite <- HSS.
        apply (test_good eta0 S 1 X (dval q) (dval (nsub dbl (nint dbl 1) q)) (dval (nmul dbl t (nint dbl 1))) (dval t)); try assumption; try lra.
        rewrite Vq, Rminus_eq_0, Rabs_R0. pose proof (Rabs_pos X). apply Rplus_le_le_0_compat; [apply Rmult_le_pos; lra|lra].
    - destruct (dadd_ok (nint dbl 1) q H1 Hq) as [Hs Vs].
      { rewrite V1, Vq. apply add_one; [exact Hx|left; exact Hpos]. }
      rewrite V1 in Vs. pose proof (rnd_err (1 + dval q) (u * S) Het) as A1. rewrite <- Vs in A1.
      destruct (ddiv_ok (nadd dbl (nint dbl 1) q) (nint dbl 2) Hs (proj1 two_ok)) as (g' & Eg & Hg' & Vg).
      { rewrite (proj2 two_ok). lra. }
      { rewrite (proj2 two_ok). apply near_big. pose proof (max_below _ Hs) as M. rewrite dmax_val.
        unfold big in M. change 1024%Z with (1 + 1023)%Z in M. rewrite bpow_plus in M. change (bpow radix2 1) with 2 in M.
        pose proof (bpow_gt_0 radix2 1023). apply Rabs_def2 in M. apply Rabs_le. lra. }
      rewrite (proj2 two_ok) in Vg. pose proof (rnd_err (dval (nadd dbl (nint dbl 1) q) / 2) (u * S) Het) as G1. rewrite <- Vg in G1.
      assert (S * (1 - dl) <= dval g') as Lo.
      { apply (next_lower S 1 X (dval q) (dval (nadd dbl (nint dbl 1) q)) (dval g')); try assumption; try lra.
        rewrite Vq, Rminus_eq_0, Rabs_R0. pose proof (Rabs_pos X). apply Rplus_le_le_0_compat; apply Rmult_le_pos; lra. }
      assert (dval g' <= bpow radix2 1023) as Hi.
      { rewrite Vg. rewrite <- (rnd_id (bpow radix2 1023)).
        - apply rnd_le. pose proof (max_below _ Hs) as M. unfold big in M. change 1024%Z with (1 + 1023)%Z in M.
          rewrite bpow_plus in M. change (bpow radix2 1) with 2 in M. apply Rabs_def2 in M. lra.
        - replace (bpow radix2 1023) with (IZR 1 * bpow radix2 1023) by ring. apply fmt_FLT; lia. }
      destruct (pow_lt_1_zero (9996 / 10000) ltac:(apply Rabs_def1; lra) (S / 2 / (bpow radix2 1023))) as [N HN].
      { apply Rdiv_lt_0_compat; [lra|apply bpow_gt_0]. }
      specialize (HN N (Nat.le_refl N)). rewrite Rabs_right in HN by (apply Rle_ge, pow_le; lra).
      assert (0 < dval g') as Hgp by (unfold dl in Lo; lra).
      destruct (sqrt_loop N g' Hg' Lo Hi) as (r & Hr & Gr).
      { apply Rle_lt_trans with (bpow radix2 1023 * (9996 / 10000) ^ N).
        - apply Rmult_le_compat_r; [apply pow_le; lra|exact Hi].
        - apply Rmult_lt_reg_r with (/ bpow radix2 1023); [apply Rinv_0_lt_compat, bpow_gt_0|].
          eapply Rle_lt_trans; [|exact HN]. right. field. pose proof (bpow_gt_0 radix2 1023). lra. }
      exists r. split; [|exact Gr]. exists (Datatypes.S N). intros [|k] Hk; [lia|]. rewrite helper_S, Et. cbn [obind]. rewrite Eq. cbn [obind].
      rewrite dlt by assumption. rewrite Va, Rlt_bool_false by exact L. rewrite Eg. cbn [obind]. apply Hr. lia.
  Qed.
End sqrt.

(** ** Where it does not return *)
Definition step_test (x g : spec_float) : bool :=
  n_lt dbl (m_abs dbl (nsub dbl g (SFdiv dprec demax x g))) (nmul dbl (SFdiv dprec demax (dint 1) (dint (10 ^ 3))) g).
Definition step_next (x g : spec_float) : spec_float :=
  SFdiv dprec demax (nadd dbl g (SFdiv dprec demax x g)) (dint 2).
Lemma helper_step k x g : sqrt_helper dbl (Datatypes.S k) x g =
  if step_test x g then Value g else sqrt_helper dbl k x (step_next x g).
Proof. reflexivity. Qed.
Lemma nan_test x : step_test x S754_nan = false.
Proof. destruct x; reflexivity. Qed.
Lemma nan_next x : step_next x S754_nan = S754_nan.
Proof. destruct x; reflexivity. Qed.
Lemma nan_forever k x : sqrt_helper dbl k x S754_nan = Unfinished.
Proof. induction k as [|k IH]; [reflexivity|]. rewrite helper_step, nan_test, nan_next. exact IH. Qed.
Fixpoint to_nan (n : nat) (x g : spec_float) : bool :=
  match n with
  | O => match g with S754_nan => true | _ => false end
  | Datatypes.S n => if step_test x g then false else to_nan n x (step_next x g)
  end.
Lemma to_nan_forever n x : forall g, to_nan n x g = true -> forall k, sqrt_helper dbl k x g = Unfinished.
Proof.
  induction n as [|n IH]; intros g H k.
  - destruct g; try discriminate. apply nan_forever.
  - destruct k as [|k]; [reflexivity|]. rewrite helper_step. simpl in H. destruct (step_test x g); [discriminate|]. now apply IH.
Qed.
Lemma sqrt_zero_inf x : x = S754_zero true \/ x = S754_zero false \/ x = S754_infinity false \/ x = S754_infinity true \/ x = S754_nan ->
  runs_forever (fun n => m_sqrt dbl n x).
Proof.
  intros H k. apply (to_nan_forever 1100). destruct H as [->|[->|[->|[->| ->]]]]; vm_compute; reflexivity.
Qed.
(** negative numbers *)
Lemma div_neg_pos m e m' e' : is_number (S754_finite true m e) -> is_number (S754_finite false m' e') ->
  let q := SFdiv dprec demax (S754_finite true m e) (S754_finite false m' e') in
  (is_number q /\ dval q <= 0) \/ q = S754_infinity true.
Proof.
  intros Hx Hy q. assert (0 < dval (S754_finite false m' e')) as Py.
  { unfold dval. apply Rmult_lt_0_compat; [apply IZR_lt; lia|apply powerRZ_lt; lra]. }
  assert (dval (S754_finite true m e) <= 0) as Nx.
  { unfold dval. assert (0 < powerRZ 2 e) by (apply powerRZ_lt; lra). assert (0 < IZR (Zpos m)) by (apply IZR_lt; lia). nra. }
  assert (dval (S754_finite true m e) / dval (S754_finite false m' e') <= 0) as Nq.
  { unfold Rdiv. assert (0 < / dval (S754_finite false m' e')) by now apply Rinv_0_lt_compat. nra. }
  destruct (Rlt_or_le (Rabs (rnd (dval (S754_finite true m e) / dval (S754_finite false m' e')))) big) as [L|L].
  - left. destruct (ddiv_ok _ _ Hx Hy (Rgt_not_eq _ _ Py) L) as (q' & E & Hq & Vq).
    assert (q = q') as <- by exact (f_equal (fun o => match o with Value v => v | _ => q end) E). split; [exact Hq|].
    rewrite Vq. rewrite <- (rnd_id (IZR 0)) by (apply fmt_int; reflexivity). apply rnd_le. exact Nq.
  - right. destruct (number_B2SF _ Hx) as (bx & Bx & Fx & Ex). destruct (number_B2SF _ Hy) as (by_ & By & Fy & Ey).
    unfold q, dprec, demax. rewrite <- Bx, <- By, div_equiv. rewrite <- Ex, <- Ey in L. rewrite <- Ey in Py.
    pose proof (Bdiv_correct 53 1024 Hprec Hmax mode_NE bx by_ (Rgt_not_eq _ _ Py)) as H. unfold rnd, big in L. simpl round_mode in H.
    rewrite Rlt_bool_false in H by exact L. rewrite H.
    destruct bx; try discriminate; destruct by_; try discriminate. injection Bx as -> -> ->. injection By as -> -> ->. reflexivity.
Qed.
Lemma sub_large g q : is_number g -> 0 < dval g -> is_number q -> dval q <= 0 ->
  (is_number (nsub dbl g q) /\ dval g <= dval (nsub dbl g q)) \/ nsub dbl g q = S754_infinity false.
Proof.
  intros Hg Pg Hq Nq. destruct (Rlt_or_le (Rabs (rnd (dval g - dval q))) big) as [L|L].
  - left. destruct (dsub_ok g q Hg Hq L) as [Hd Vd]. split; [exact Hd|]. rewrite Vd.
    rewrite <- (rnd_id (dval g)) at 1 by now apply rnd_format. apply rnd_le. lra.
  - right. destruct (number_B2SF _ Hg) as (bx & Bx & Fx & Ex). destruct (number_B2SF _ Hq) as (by_ & By & Fy & Ey).
    change (nsub dbl) with (SFsub 53 1024). rewrite <- Bx, <- By, sub_equiv. rewrite <- Ex, <- Ey in L. rewrite <- Ex in Pg.
    pose proof (Bminus_correct 53 1024 Hprec Hmax mode_NE bx by_ Fx Fy) as H. unfold rnd, big in L. simpl round_mode in H.
    rewrite Rlt_bool_false in H by exact L. destruct H as [H _]. rewrite H.
    replace (Bsign bx) with false; [reflexivity|]. destruct bx as [s|s| |s m e B]; try discriminate.
    + simpl in Pg. lra.
    + simpl. destruct s; [|reflexivity]. exfalso. simpl in Pg. unfold F2R in Pg. simpl in Pg.
      pose proof (bpow_gt_0 radix2 e). assert (IZR (Zneg m) < 0) by (apply IZR_lt; lia). nra.
Qed.
Lemma mul_small t g : is_number t -> 0 <= dval t <= 1 -> is_number g ->
  is_number (nmul dbl t g) /\ (0 <= dval g -> dval (nmul dbl t g) <= dval g) /\ (dval g <= 0 -> dval (nmul dbl t g) <= 0).
Proof.
  intros Ht Vt Hg. destruct (dmul_ok t g Ht Hg) as [Hw Vw].
  - apply Rle_lt_trans with (Rabs (dval g)); [|now apply max_below].
    assert (rnd (dval g) = dval g) as E by now apply rnd_id, rnd_format.
    destruct (Rle_or_lt 0 (dval g)) as [P|P].
    + pose proof (rnd_le (dval t * dval g) (dval g) ltac:(nra)) as U. pose proof (rnd_le (- dval g) (dval t * dval g) ltac:(nra)) as U'.
      rewrite rnd_opp in U'. rewrite E in U, U'. rewrite (Rabs_right (dval g)) by lra. apply Rabs_le. lra.
    + pose proof (rnd_le (dval g) (dval t * dval g) ltac:(nra)) as U. pose proof (rnd_le (dval t * dval g) (- dval g) ltac:(nra)) as U'.
      rewrite rnd_opp in U'. rewrite E in U, U'. rewrite (Rabs_left (dval g)) by lra. apply Rabs_le. lra.
  - split; [exact Hw|]. rewrite Vw. split; intros P.
    + rewrite <- (rnd_id (dval g)) at 2 by now apply rnd_format. apply rnd_le. nra.
    + rewrite <- (rnd_id (IZR 0)) by (apply fmt_int; reflexivity). apply rnd_le. simpl. nra.
Qed.
Lemma lt_false_le0 d w : is_double d -> is_number w -> dval w <= 0 -> n_lt dbl (m_abs dbl d) w = false.
Proof.
  intros Hd Hw Nw. assert (is_number d \/ ~ is_number d) as [Nd|Nd] by (destruct d; [left|right|right|left]; unfold is_number; tauto).
  - destruct (abs_value d Nd) as [Ha Va]. rewrite dlt by assumption. rewrite Va. apply Rlt_bool_false. pose proof (Rabs_pos (dval d)). lra.
  - rewrite abs_sf. destruct d as [s|s| |s m e]; try (elim Nd; split; easy); destruct w as [s'|s'| |[] m' e']; now destruct Hw.
Qed.
Lemma double_sub x y : is_double x -> is_double y -> is_double (nsub dbl x y).
Proof.
  intros Hx Hy. change (nsub dbl) with (SFsub 53 1024). rewrite <- (B2SF_SF2B 53 1024 x Hx), <- (B2SF_SF2B 53 1024 y Hy), sub_equiv.
  apply valid_binary_B2SF.
Qed.
Lemma double_add x y : is_double x -> is_double y -> is_double (nadd dbl x y).
Proof.
  intros Hx Hy. change (nadd dbl) with (SFadd 53 1024). rewrite <- (B2SF_SF2B 53 1024 x Hx), <- (B2SF_SF2B 53 1024 y Hy), add_equiv.
  apply valid_binary_B2SF.
Qed.
Lemma double_div x y : is_double x -> is_double y -> is_double (SFdiv dprec demax x y).
Proof.
  intros Hx Hy. unfold dprec, demax. rewrite <- (B2SF_SF2B 53 1024 x Hx), <- (B2SF_SF2B 53 1024 y Hy), div_equiv.
  apply valid_binary_B2SF.
Qed.
Lemma neg_test m e g : is_double (S754_finite true m e) -> is_double g -> step_test (S754_finite true m e) g = false.
Proof.
  intros Hx Hg. assert (is_number (S754_finite true m e)) as Hxn by now split.
  unfold step_test. destruct tol_ok as (t & Et0 & Ht & Vt).
  assert (SFdiv dprec demax (dint 1) (dint (10 ^ 3)) = t) as Et
    by exact (f_equal (fun o => match o with Value v => v | _ => t end) Et0). rewrite Et.
  assert (0 <= dval t <= 1) as Vt' by (apply Rabs_le_inv in Vt; lra). clear Vt.
  destruct g as [s|s| |s mg eg].
  - apply lt_false_le0.
    + apply double_sub; [exact Hg|now apply double_div].
    + now apply mul_small.
    + destruct (mul_small t (S754_zero s) Ht Vt') as (_ & _ & H); [now split|]. apply H. simpl. lra.
  - rewrite <- Et. destruct s; reflexivity.
  - reflexivity.
  - assert (is_number (S754_finite s mg eg)) as Hgn by now split.
    destruct (mul_small t _ Ht Vt' Hgn) as (Hw & W1 & W2).
    assert (0 < IZR (Zpos mg) * powerRZ 2 eg) as Pm by (apply Rmult_lt_0_compat; [apply IZR_lt; lia|apply powerRZ_lt; lra]).
    destruct s.
    + apply lt_false_le0; [apply double_sub; [exact Hg|now apply double_div]|exact Hw|]. apply W2. unfold dval. lra.
    + assert (0 < dval (S754_finite false mg eg)) as Pg by exact Pm. specialize (W1 (Rlt_le _ _ Pg)).
      destruct (div_neg_pos m e mg eg Hxn Hgn) as [[Hq Nq]|Hq].
      * destruct (sub_large _ _ Hgn Pg Hq Nq) as [[Hd Vd]|Hd].
        -- destruct (abs_value _ Hd) as [Ha Va]. rewrite dlt by assumption. rewrite Va. apply Rlt_bool_false.
           eapply Rle_trans; [exact W1|]. eapply Rle_trans; [exact Vd|apply Rle_abs].
        -- rewrite Hd. rewrite abs_sf. destruct (nmul dbl t (S754_finite false mg eg)) as [?|?| |[] ? ?]; try reflexivity; now destruct Hw.
      * rewrite Hq. change (nsub dbl (S754_finite false mg eg) (S754_infinity true)) with (S754_infinity false). rewrite abs_sf.
        destruct (nmul dbl t (S754_finite false mg eg)) as [?|?| |[] ? ?]; try reflexivity; now destruct Hw.
Qed.
Lemma sqrt_neg m e : is_double (S754_finite true m e) -> runs_forever (fun n => m_sqrt dbl n (S754_finite true m e)).
Proof.
  intros Hx k. unfold m_sqrt. assert (is_double (nint dbl 1)) as H1 by apply one_ok. revert H1. generalize (nint dbl 1) as g.
  induction k as [|k IH]; intros g Hg; [reflexivity|]. rewrite helper_step, neg_test by assumption. apply IH.
  unfold step_next. apply double_div; [apply double_add; [exact Hg|now apply double_div]|vm_compute; reflexivity].
Qed.
(** sqrt returns exactly on the positive numbers *)
Lemma sqrt_iff x : is_double x -> (exists r, returns (fun n => m_sqrt dbl n x) r) <-> (is_number x /\ 0 < dval x).
Proof.
  intros Hx. split.
  - intros (r & n & H). specialize (H n (Nat.le_refl n)).
    assert (runs_forever (fun n => m_sqrt dbl n x) -> is_number x /\ 0 < dval x) as Hf.
    { intros Hf. rewrite (Hf n) in H. discriminate. }
    destruct x as [[]|[]| |[] m e].
    1-5: apply Hf, sqrt_zero_inf; tauto.
    + now apply Hf, sqrt_neg.
    + split; [now split|]. unfold dval. apply Rmult_lt_0_compat; [apply IZR_lt; lia|apply powerRZ_lt; lra].
  - intros [Hn Hp]. destruct (sqrt_double x Hn Hp) as (r & Hr & _). now exists r.
Qed.
Lemma sqrt_or x : is_double x -> (is_number x /\ 0 < dval x) \/ runs_forever (fun n => m_sqrt dbl n x).
Proof.
  intros Hx. destruct x as [[]|[]| |[] m e].
  1-5: right; apply sqrt_zero_inf; tauto.
  + right. now apply sqrt_neg.
  + left. split; [now split|]. unfold dval. apply Rmult_lt_0_compat; [apply IZR_lt; lia|apply powerRZ_lt; lra].
Qed.
Lemma sqrt_double_ok x : is_number x -> 0 < dval x ->
  exists g, returns (fun n => m_sqrt dbl n x) g /\ is_number g /\ 0 < dval g /\
    Rabs (dval g * dval g - dval x) <= 1000001 / 1000000000 * (dval g * dval g).
Proof.
  intros Hx Hp. destruct (sqrt_double x Hx Hp) as (r & H1 & H2 & H3 & H4 & _). exists r. auto.
Qed.
Lemma sqrt_zero_double : is_number (S754_zero false) /\ dval (S754_zero false) = 0 /\
  runs_forever (fun n => m_sqrt dbl n (S754_zero false)).
Proof. split; [now split|]. split; [reflexivity|]. apply sqrt_zero_inf. auto. Qed.
Lemma sqrt_2_double : is_number (dint 2) /\ dval (dint 2) = 2 /\
  m_sqrt dbl 10 (dint 2) = Value (S754_finite false 6369061237727392 (-52)).
Proof. split; [apply two_ok|]. split; [apply two_ok|]. vm_compute. reflexivity. Qed.
Lemma sqrt_error x g : is_number x -> 0 < dval x -> returns (fun n => m_sqrt dbl n x) g ->
  is_number g /\ 0 < dval g /\
  Rabs (dval g * dval g - dval x) <= 1000001 / 1000000000 * (dval g * dval g).
Proof.
  intros Hx Hp [n Hg]. destruct (sqrt_double_ok x Hx Hp) as (r & [n' Hr] & H).
  specialize (Hg (n + n')%nat ltac:(lia)). specialize (Hr (n + n')%nat ltac:(lia)). cbn beta in Hg, Hr.
  rewrite Hr in Hg. injection Hg as <-. exact H.
Qed.
