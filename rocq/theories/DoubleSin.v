(** sin, cos, sinh and cosh on doubles *)
From stdpp Require Import base tactics.
From Coq Require Import ZArith Reals Lra Lia Psatz.
From Coq.Floats Require Import SpecFloat.
From Flocq Require Import Core BinarySingleNaN.
From Verif Require Import ModelCmath SpecCmath CmathBounds CmathReal CmathSin DoubleArith DoubleRound DoubleSqrt DoubleNear DoubleLog DoubleAtan.
Open Scope R_scope.

(** ** 3a - 4a^3 stays in [-1, 1], rounding included *)
Lemma rnd_grid e z : bpow radix2 (e - 1) <= Rabs z < bpow radix2 e -> (-1021 <= e)%Z ->
  exists k : Z, rnd z = IZR k * bpow radix2 (e - 53) /\ Rabs (rnd z - z) <= / 2 * bpow radix2 (e - 53).
Proof.
  intros Hz He. assert (z <> 0) as Nz. { intros ->. rewrite Rabs_R0 in Hz. pose proof (bpow_gt_0 radix2 (e - 1)). lra. }
  assert (mag radix2 z = e :> Z) as Hm by now apply mag_unique.
  assert (cexp radix2 (SpecFloat.fexp 53 1024) z = (e - 53)%Z) as Hc.
  { unfold cexp. rewrite Hm. unfold SpecFloat.fexp, SpecFloat.emin. lia. }
  exists (ZnearestE (scaled_mantissa radix2 (SpecFloat.fexp 53 1024) z)). split.
  - unfold rnd, round, F2R. cbn [Fnum Fexp]. now rewrite Hc.
  - assert (Valid_exp (SpecFloat.fexp 53 1024)) as V by (apply fexp_correct; reflexivity).
    pose proof (error_le_half_ulp radix2 (SpecFloat.fexp 53 1024) (fun x => negb (Z.even x)) z) as H. rewrite ulp_neq_0, Hc in H by exact Nz. exact H.
Qed.
Lemma rnd_4 c : generic_format radix2 (SpecFloat.fexp 53 1024) c -> rnd (4 * c) = 4 * c.
Proof.
  intros F. apply rnd_id. destruct (@FLT_format_generic radix2 (-1074) 53 eq_refl c) as [[m e] E1 E2 E3]; [exact F|]. subst c.
  unfold F2R. cbn [Fnum Fexp] in *. replace (4 * (IZR m * bpow radix2 e)) with (IZR m * bpow radix2 (e + 2)) by (rewrite bpow_plus; change (bpow radix2 2) with 4; ring).
  apply fmt_FLT; [exact E2|lia].
Qed.

(** the step of sin on the value [A] *)
Definition gstep (A : R) : R := rnd (rnd (3 * A) - rnd (4 * rnd (rnd (A * A) * A))).
Lemma gstep_opp A : gstep (- A) = - gstep A.
Proof.
  unfold gstep. replace (3 * - A) with (- (3 * A)) by ring. replace (- A * - A) with (A * A) by ring. rewrite rnd_opp.
  replace (rnd (A * A) * - A) with (- (rnd (A * A) * A)) by ring. rewrite rnd_opp.
  replace (4 * - rnd (rnd (A * A) * A)) with (- (4 * rnd (rnd (A * A) * A))) by ring. rewrite rnd_opp.
  replace (- rnd (3 * A) - - rnd (4 * rnd (rnd (A * A) * A))) with (- (rnd (3 * A) - rnd (4 * rnd (rnd (A * A) * A)))) by ring. apply rnd_opp.
Qed.
Lemma u_bpow : bpow radix2 (-53) = u.
Proof. unfold u. exact (bpow_opp radix2 53). Qed.
Lemma one_u : rnd (1 + u) = 1.
Proof.
  assert (is_number (S754_finite false 4503599627370496 (-105))) as Hu by (split; [reflexivity|exact I]).
  assert (dval (S754_finite false 4503599627370496 (-105)) = u) as Eu. { lit. unfold u. lra. }
  destruct (dint_ok 1 eq_refl) as [H1 E1]. pose proof u_pos. destruct (dadd_ok _ _ H1 Hu) as [_ E]; rewrite E1, Eu in *.
  - apply one_big. unfold u. apply Rabs_le. lra.
  - rewrite <- E. replace (nadd dbl (nint dbl 1) (S754_finite false 4503599627370496 (-105))) with (nint dbl 1) by (vm_compute; reflexivity). exact E1.
Qed.
Lemma fmt_rnd r : generic_format radix2 (SpecFloat.fexp 53 1024) (rnd r).
Proof. apply generic_format_round; [apply fexp_correct; reflexivity|apply valid_rnd_N]. Qed.
(** the crude bound *)
Lemma gstep_near A : -1 <= A <= 1 -> Rabs (gstep A - (3 * A - 4 * A ^ 3)) <= 40 * u /\ Rabs (rnd (3 * A) - rnd (4 * rnd (rnd (A * A) * A))) <= 2.
Proof.
  intros HA. unfold gstep. set (p := rnd (A * A)). set (c := rnd (p * A)). set (q := rnd (4 * c)). set (m := rnd (3 * A)).
  assert (Rabs (p - A * A) <= 2 * u * 1) as E1 by (apply rnd_near; [apply Rabs_le; nra|lra]).
  assert (Rabs p <= 1001 / 1000) as B1. { apply Rabs_le_inv in E1. apply Rabs_le. assert (0 <= A * A <= 1) by nra. unfold u in *. lra. }
  assert (Rabs A <= 1) as BA by (apply Rabs_le; lra).
  assert (Rabs (p * A) <= 1001 / 1000) as B2. { rewrite Rabs_mult. pose proof (Rabs_pos p). nra. }
  assert (Rabs (c - p * A) <= 2 * u * (1001 / 1000)) as E2 by (apply rnd_near; [exact B2|lra]).
  assert (Rabs ((p - A * A) * A) <= 2 * u) as E3. { rewrite Rabs_mult. pose proof (Rabs_pos (p - A * A)). pose proof u_pos. nra. }
  assert (Rabs (c - A ^ 3) <= 5 * u) as E4.
  { replace (c - A ^ 3) with ((c - p * A) + (p - A * A) * A) by ring. eapply Rle_trans; [apply Rabs_triang|]. pose proof u_pos. lra. }
  assert (-1 <= A ^ 3 <= 1) as B3 by (simpl; nra).
  assert (Rabs (4 * c) <= 401 / 100) as B4. { apply Rabs_le_inv in E4. apply Rabs_le. unfold u in *. lra. }
  assert (Rabs (q - 4 * c) <= 2 * u * (401 / 100)) as E5 by (apply rnd_near; [exact B4|lra]).
  assert (Rabs (m - 3 * A) <= 2 * u * 3) as E6 by (apply rnd_near; [apply Rabs_le; lra|lra]).
  assert (-1 <= 3 * A - 4 * A ^ 3 <= 1) as B5.
  { assert (0 <= (1 + A) * ((1 - 2 * A) * (1 - 2 * A))) by (apply Rmult_le_pos; [lra|apply Rle_0_sqr]).
    assert (0 <= (1 - A) * ((1 + 2 * A) * (1 + 2 * A))) by (apply Rmult_le_pos; [lra|apply Rle_0_sqr]). lra. }
  apply Rabs_le_inv in E4, E5, E6.
  assert (Rabs (m - q) <= 2) as B6. { apply Rabs_le. unfold u in *. lra. }
  assert (Rabs (rnd (m - q) - (m - q)) <= 2 * u * 2) as E7 by (apply rnd_near; [exact B6|lra]).
  split; [|exact B6]. apply Rabs_le_inv in E7. apply Rabs_le. pose proof u_pos. lra.
Qed.
(** the cases next to 1/2 and 1 *)
Lemma grid z e r : bpow radix2 (e - 1) = r -> (-1021 <= e)%Z -> r <= z < 2 * r -> exists k : Z, rnd z = IZR k * (r * 2 * u) /\ Rabs (rnd z - z) <= r * u.
Proof.
  intros Er He Hz. assert (0 < r) as Hr by (rewrite <- Er; apply bpow_gt_0).
  assert (bpow radix2 e = 2 * r) as E2. { replace e with (1 + (e - 1))%Z by lia. rewrite bpow_plus, Er. reflexivity. }
  assert (bpow radix2 (e - 53) = r * 2 * u) as E3. { replace (e - 53)%Z with (e + -53)%Z by lia. rewrite bpow_plus, u_bpow, E2. ring. }
  destruct (rnd_grid e z) as (k & H1 & H2); [rewrite Rabs_right by lra; rewrite Er, E2; lra|exact He|].
  exists k. rewrite E3 in *. split; [exact H1|lra].
Qed.
Lemma grid_le k j : IZR k * u < IZR j * u -> IZR k * u <= IZR (j - 1) * u.
Proof. intros H. pose proof u_pos. apply Rmult_le_compat_r; [lra|]. apply Rmult_lt_reg_r in H; [|assumption]. apply lt_IZR in H. apply IZR_le. lia. Qed.
Lemma gstep_above A : 1 / 2 <= A < 501 / 1000 -> generic_format radix2 (SpecFloat.fexp 53 1024) A -> gstep A <= 1.
Proof.
  intros HA F. pose proof u_pos as Hu. destruct (Req_dec A (1 / 2)) as [->|N].
  { unfold gstep. eapply Rle_trans; [apply (rnd_le _ 1)|rewrite rnd_1; lra].
    assert (forall m e r, (Z.abs m < 2 ^ 53)%Z -> (-1074 <= e)%Z -> r = IZR m * bpow radix2 e -> rnd r = r) as X by (intros m e r H1 H2 ->; now apply rnd_id, fmt_FLT).
    rewrite (X 3%Z (-1)%Z (3 * (1 / 2))); [|easy|easy|simpl; lra]. rewrite (X 1%Z (-2)%Z (1 / 2 * (1 / 2))); [|easy|easy|simpl; lra].
    rewrite (X 1%Z (-3)%Z (1 / 2 * (1 / 2) * (1 / 2))); [|easy|easy|simpl; lra]. rewrite (X 1%Z (-1)%Z (4 * (1 / 2 * (1 / 2) * (1 / 2)))); [|easy|easy|simpl; lra]. lra. }
  destruct (grid A 0 (1 / 2)) as (k0 & G0 & _); [simpl; lra|lia|lra|]. rewrite (rnd_id A F) in G0.
  assert (A = IZR k0 * u) as EA by lra. clear G0.
  assert (1 / 2 + u <= A) as LA.
  { assert (IZR 4503599627370496 * u < IZR k0 * u) as L by (rewrite <- EA; unfold u; lra).
    apply Rmult_lt_reg_r in L; [|exact Hu]. apply lt_IZR in L. assert (4503599627370497 <= k0)%Z as L' by lia. apply IZR_le in L'. rewrite EA. unfold u in *. lra. }
  clear EA N. unfold gstep. set (p := rnd (A * A)). set (c := rnd (p * A)). set (m := rnd (3 * A)).
  destruct (grid (A * A) (-1) (1 / 4)) as (k1 & _ & E1); [simpl; lra|lia|nra|]. fold p in E1.
  assert (1 / 4 <= p) as Lp. { unfold p. replace (1 / 4) with (rnd (1 / 4)); [apply rnd_le; nra|]. apply rnd_id. replace (1 / 4) with (IZR 1 * bpow radix2 (-2)) by (simpl; lra). apply fmt_FLT; lia. }
  apply Rabs_le_inv in E1. assert (p < 26 / 100) as Up by (unfold u in *; nra).
  destruct (grid (p * A) (-2) (1 / 8)) as (k2 & G2 & E2); [simpl; lra|lia|nra|]. fold c in G2, E2.
  destruct (grid (3 * A) 1 1) as (k3 & G3 & E3); [reflexivity|lia|lra|]. fold m in G3, E3. apply Rabs_le_inv in E2, E3.
  rewrite rnd_4 by apply fmt_rnd. rewrite <- one_u. apply rnd_le.
  assert (m - 4 * c = IZR (2 * k3 - k2) * u) as ED. { rewrite minus_IZR, mult_IZR, G2, G3. field. }
  assert (m - 4 * c < IZR 9007199254740994 * u) as LD.
  { replace (IZR 9007199254740994 * u) with (1 + 2 * u) by (unfold u; lra). set (d := A - 1 / 2). assert (A = 1 / 2 + d) as Ed by (unfold d; ring).
    assert (u <= d < 1 / 1000) as Bd by (unfold d; lra). clearbody d.
    assert (A * A * A - 1 / 4 * u * A <= p * A) as L1 by nra.
    assert (3 * A - 4 * (A * A * A) = 1 - (6 + 4 * d) * (d * d)) as L2 by (rewrite Ed; field).
    assert (u * d <= d * d) as L3 by (apply Rmult_le_compat_r; lra). assert (0 < d * d) by nra.
    assert (1 / 4 * u * A = 1 / 8 * u + 1 / 4 * (u * d)) as L4 by (rewrite Ed; field).
    assert (6 * (d * d) <= (6 + 4 * d) * (d * d)) as L5 by (apply Rmult_le_compat_r; lra). lra. }
  rewrite ED in *. eapply Rle_trans; [apply (grid_le _ _ LD)|]. change (9007199254740994 - 1)%Z with 9007199254740993%Z. unfold u. lra.
Qed.
Lemma gstep_below A : 499 / 1000 < A < 1 / 2 -> gstep A <= 1.
Proof.
  intros HA. pose proof u_pos as Hu. unfold gstep. set (p := rnd (A * A)). set (c := rnd (p * A)). set (m := rnd (3 * A)).
  destruct (grid (A * A) (-2) (1 / 8)) as (k1 & _ & E1); [simpl; lra|lia|nra|]. fold p in E1.
  assert (p <= 1 / 4) as Lp. { unfold p. replace (1 / 4) with (rnd (1 / 4)); [apply rnd_le; nra|]. apply rnd_id. replace (1 / 4) with (IZR 1 * bpow radix2 (-2)) by (simpl; lra). apply fmt_FLT; lia. }
  apply Rabs_le_inv in E1. assert (24 / 100 < p) as Up by (unfold u in *; nra).
  destruct (grid (p * A) (-3) (1 / 16)) as (k2 & G2 & E2); [simpl; lra|lia|nra|]. fold c in G2, E2.
  destruct (grid (3 * A) 1 1) as (k3 & G3 & E3); [reflexivity|lia|lra|]. fold m in G3, E3. apply Rabs_le_inv in E2, E3.
  rewrite rnd_4 by apply fmt_rnd. rewrite <- one_u. apply rnd_le.
  assert (2 * (m - 4 * c) = IZR (4 * k3 - k2) * u) as ED. { rewrite minus_IZR, mult_IZR, G2, G3. field. }
  assert (2 * (m - 4 * c) < IZR 18014398509481987 * u) as LD.
  { replace (IZR 18014398509481987 * u) with (2 + 3 * u) by (unfold u; lra). set (d := 1 / 2 - A). assert (A = 1 / 2 - d) as Ed by (unfold d; ring).
    assert (0 < d < 1 / 1000) as Bd by (unfold d; lra). clearbody d.
    assert (A * A * A - 1 / 8 * u * A <= p * A) as L1 by nra.
    assert (3 * A - 4 * (A * A * A) = 1 - (6 - 4 * d) * (d * d)) as L2 by (rewrite Ed; field).
    assert (0 <= (6 - 4 * d) * (d * d)) as L5 by (apply Rmult_le_pos; nra).
    assert (u * A < u * (1 / 2)) as L6 by (apply Rmult_lt_compat_l; lra). lra. }
  rewrite ED in LD. pose proof (grid_le _ _ LD) as L. rewrite <- ED in L. change (18014398509481987 - 1)%Z with 18014398509481986%Z in L. unfold u in *. lra.
Qed.
Lemma gstep_one A : 999 / 1000 < A <= 1 -> generic_format radix2 (SpecFloat.fexp 53 1024) A -> -1 <= gstep A.
Proof.
  intros HA F. pose proof u_pos as Hu. destruct (Req_dec A 1) as [->|N].
  { unfold gstep. replace (1 * 1) with 1 by ring. rewrite rnd_1. replace (1 * 1) with 1 by ring. rewrite rnd_1. rewrite !Rmult_1_r.
    rewrite (rnd_id 3) by (apply (fmt_int 3); reflexivity). rewrite (rnd_id 4) by (apply (fmt_int 4); reflexivity).
    replace (3 - 4) with (IZR (-1)) by lra. rewrite rnd_id by (apply fmt_int; reflexivity). lra. }
  destruct (grid A 0 (1 / 2)) as (k0 & G0 & _); [simpl; lra|lia|lra|]. rewrite (rnd_id A F) in G0.
  assert (A = IZR k0 * u) as EA by lra. clear G0.
  assert (A <= 1 - u) as LA.
  { assert (IZR k0 * u < IZR 9007199254740992 * u) as L by (rewrite <- EA; unfold u; lra). pose proof (grid_le _ _ L) as L'. rewrite <- EA in L'.
    change (9007199254740992 - 1)%Z with 9007199254740991%Z in L'. unfold u in *. lra. }
  clear EA N. unfold gstep. set (p := rnd (A * A)). set (c := rnd (p * A)). set (m := rnd (3 * A)).
  destruct (grid (A * A) 0 (1 / 2)) as (k1 & _ & E1); [simpl; lra|lia|nra|]. fold p in E1. apply Rabs_le_inv in E1.
  assert (p <= 1) as Lp. { unfold p. rewrite <- rnd_1. apply rnd_le. nra. } assert (9 / 10 < p) as Up by (unfold u in *; nra).
  destruct (grid (p * A) 0 (1 / 2)) as (k2 & G2 & E2); [simpl; lra|lia|nra|]. fold c in G2, E2.
  destruct (grid (3 * A) 2 2) as (k3 & G3 & E3); [reflexivity|lia|lra|]. fold m in G3, E3. apply Rabs_le_inv in E2, E3.
  rewrite rnd_4 by apply fmt_rnd. replace (-1) with (rnd (-1)) by (apply rnd_id, (fmt_int (-1)); reflexivity). apply rnd_le.
  set (d := 1 - A). assert (A = 1 - d) as Ed by (unfold d; ring). assert (u <= d < 1 / 1000) as Bd by (unfold d; lra). clearbody d.
  assert (p * A <= A * A * A + 1 / 2 * u * A) as L1 by nra.
  assert (3 * A - 4 * (A * A * A) = -1 + (3 - 2 * d) * (3 - 2 * d) * d) as L2 by (rewrite Ed; ring).
  assert (8 * d <= (3 - 2 * d) * (3 - 2 * d) * d) as L3 by (apply Rmult_le_compat_r; nra). assert (u * A <= u * 1) as L4 by (apply Rmult_le_compat_l; lra). lra.
Qed.
Lemma gstep_range A : -1 <= A <= 1 -> generic_format radix2 (SpecFloat.fexp 53 1024) A -> -1 <= gstep A <= 1.
Proof.
  assert (forall A, 0 <= A <= 1 -> generic_format radix2 (SpecFloat.fexp 53 1024) A -> -1 <= gstep A <= 1) as P.
  { clear A. intros A HA F. destruct (gstep_near A ltac:(lra)) as [E _]. apply Rabs_le_inv in E. pose proof u_pos as Hu. split.
    - destruct (Rlt_or_le (999 / 1000) A) as [L|L]; [now apply gstep_one|].
      assert (3 * A - 4 * A ^ 3 = -1 + (3 - 2 * (1 - A)) * (3 - 2 * (1 - A)) * (1 - A)) as E2 by ring.
      assert (1 * (1 / 1000) <= (3 - 2 * (1 - A)) * (3 - 2 * (1 - A)) * (1 - A)) by (apply Rmult_le_compat; nra). unfold u in *. lra.
    - destruct (Rlt_or_le A (1 / 2)) as [L|L].
      + destruct (Rlt_or_le (499 / 1000) A) as [L'|L']; [now apply gstep_below|].
        assert (3 * A - 4 * A ^ 3 = 1 - (1 + A) * ((1 - 2 * A) * (1 - 2 * A))) as E2 by ring.
        assert (1 * (1 / 500 * (1 / 500)) <= (1 + A) * ((1 - 2 * A) * (1 - 2 * A))) by (apply Rmult_le_compat; nra). unfold u in *. lra.
      + destruct (Rlt_or_le A (501 / 1000)) as [L'|L']; [now apply gstep_above|].
        assert (3 * A - 4 * A ^ 3 = 1 - (1 + A) * ((2 * A - 1) * (2 * A - 1))) as E2 by ring.
        assert (1 * (1 / 500 * (1 / 500)) <= (1 + A) * ((2 * A - 1) * (2 * A - 1))) by (apply Rmult_le_compat; nra). unfold u in *. lra. }
  intros HA F. destruct (Rle_or_lt 0 A) as [L|L]; [apply P; [lra|exact F]|].
  destruct (P (- A)) as [P1 P2]; [lra|now apply generic_format_opp|]. rewrite gstep_opp in *. lra.
Qed.

(** ** The recursion of sin *)
Definition td := S754_finite false 4611686018427388 (-62).
Lemma td_eq : tol dbl = Value td.
Proof. vm_compute. reflexivity. Qed.
Lemma td_num : is_number td.
Proof. split; [reflexivity|exact I]. Qed.
Lemma td_rnd : dval td = rnd (1 / 1000).
Proof.
  destruct (dint_ok 1 eq_refl) as [H1 E1]. destruct (dint_ok 1000 eq_refl) as [H2 E2].
  destruct (ddiv_ok _ _ H1 H2) as (q & Eq & Hq & Vq); [rewrite E2; lra|rewrite E1, E2; apply one_big, Rabs_le; lra|]. rewrite E1, E2 in Vq.
  assert (q = td) as -> by (apply val_inj; rewrite <- Eq; vm_compute; reflexivity). exact Vq.
Qed.
Lemma td_val : dval td = 4611686018427388 / 4611686018427387904.
Proof. unfold td. lit. lra. Qed.
(** the comparison with tol *)
Lemma lt_td x : is_number x -> n_lt dbl x td = true <-> dval x < 1 / 1000.
Proof.
  intros Hx. rewrite dlt by (assumption || apply td_num). split.
  - intros H. apply Rnot_le_lt. intros C. destruct (Rlt_bool_spec (dval x) (dval td)) as [L|L]; [|discriminate].
    apply rnd_le in C. rewrite (rnd_num x Hx), <- td_rnd in C. lra.
  - intros H. apply Rlt_bool_true. rewrite td_val. lra.
Qed.
Lemma third_dbl x : is_number x -> 1 / 1000 <= dval x ->
  exists y, ndiv dbl x (nint dbl 3) = Value y /\ is_number y /\ Rabs (3 * dval y - dval x) <= u * dval x.
Proof.
  intros Hx Lx. destruct (dint_ok 3 eq_refl) as [H3 E3].
  destruct (ddiv_ok x (nint dbl 3) Hx H3) as (y & Ey & Hy & Vy); [rewrite E3; lra| |].
  - rewrite E3. rewrite Rabs_right by (apply Rle_ge, rnd_pos; lra). apply Rle_lt_trans with (rnd (dval x)); [apply rnd_le; lra|].
    rewrite (rnd_num x Hx). pose proof (max_below x Hx) as M. rewrite Rabs_right in M by lra. exact M.
  - exists y. split; [exact Ey|]. split; [exact Hy|]. rewrite E3 in Vy. rewrite Vy.
    assert (Rabs (rnd (dval x / 3) - dval x / 3) <= u * Rabs (dval x / 3)) as E.
    { apply rnd_rel_normal. rewrite Rabs_right by lra. apply Rle_trans with (bpow radix2 (-12)); [apply bpow_le; lia|]. simpl. lra. }
    rewrite (Rabs_right (dval x / 3)) in E by lra. apply Rabs_le_inv in E. apply Rabs_le. lra.
Qed.
Lemma sin_S n x y : ndiv dbl x (nint dbl 3) = Value y -> sin_helper dbl (S n) x =
  if n_lt dbl x td then Value x else
  obind (sin_helper dbl n y) (fun a => Value (nsub dbl (nmul dbl (nint dbl 3) a) (nmul dbl (nint dbl 4) (cube dbl a)))).
Proof.
  intros E. cbn [sin_helper]. rewrite td_eq. cbn [obind]. destruct (n_lt dbl x td); [reflexivity|]. rewrite E. cbn [obind].
  destruct (sin_helper dbl n y); reflexivity.
Qed.
Lemma step_dbl a : is_number a -> -1 <= dval a <= 1 ->
  let v := nsub dbl (nmul dbl (nint dbl 3) a) (nmul dbl (nint dbl 4) (cube dbl a)) in
  is_number v /\ -1 <= dval v <= 1 /\ Rabs (dval v - (3 * dval a - 4 * dval a ^ 3)) <= 40 * u.
Proof.
  intros Ha Ba. cbv zeta. destruct (dint_ok 3 eq_refl) as [H3 E3]. destruct (dint_ok 4 eq_refl) as [H4 E4].
  destruct (gstep_near (dval a) Ba) as [N B]. pose proof (gstep_range _ Ba (rnd_format a Ha)) as G. unfold gstep in N, G.
  assert (Rabs (dval a) <= 1) as Ba' by now apply Rabs_le. pose proof (Rabs_pos (dval a)) as Pa.
  destruct (dmul_small a a Ha Ha Ba' Ba') as [Hp Ep].
  assert (0 <= dval a * dval a <= 1) as Bq by nra.
  assert (Rabs (dval (nmul dbl a a)) <= 1) as Bp.
  { rewrite Ep. rewrite Rabs_right by (apply Rle_ge, rnd_pos; lra). rewrite <- rnd_1 at 1. apply Rle_trans with (rnd 1); [apply rnd_le; lra|rewrite !rnd_1; lra]. }
  destruct (dmul_small (nmul dbl a a) a Hp Ha Bp Ba') as [Hc Ec]. fold (cube dbl a) in Hc, Ec.
  assert (Rabs (dval (nmul dbl a a) * dval a) <= 1) as Bc'. { rewrite Rabs_mult. pose proof (Rabs_pos (dval (nmul dbl a a))). nra. }
  assert (Rabs (dval (cube dbl a)) <= 1) as Bc.
  { rewrite Ec. apply Rabs_le_inv in Bc'. apply Rabs_le. split; [rewrite <- rnd_1, <- rnd_opp|rewrite <- rnd_1]; apply rnd_le; lra. }
  destruct (dmul_ok (nint dbl 3) a H3 Ha) as [Hm Em]; [rewrite E3; apply one_big; rewrite Rabs_mult, (Rabs_right 3); lra|].
  destruct (dmul_ok (nint dbl 4) (cube dbl a) H4 Hc) as [Hq Eq]; [rewrite E4; apply one_big; rewrite Rabs_mult, (Rabs_right 4); lra|].
  destruct (dsub_ok _ _ Hm Hq) as [Hv Ev]; [rewrite Em, Eq, E3, E4, Ec, Ep; apply one_big; lra|]. rewrite Em, Eq, E3, E4, Ec, Ep in Ev.
  split; [exact Hv|]. rewrite Ev. split; [exact G|exact N].
Qed.
Lemma cubic_lip a s : -1 <= a <= 1 -> -1 <= s <= 1 -> Rabs ((3 * a - 4 * a ^ 3) - (3 * s - 4 * s ^ 3)) <= 9 * Rabs (a - s).
Proof.
  intros Ha Hs. replace ((3 * a - 4 * a ^ 3) - (3 * s - 4 * s ^ 3)) with ((3 - 4 * (a * a + a * s + s * s)) * (a - s)) by ring.
  rewrite Rabs_mult. apply Rmult_le_compat_r; [apply Rabs_pos|]. apply Rabs_le. split; nra.
Qed.
Lemma cubic_lip3 a s : -701 / 1000 <= a <= 701 / 1000 -> -701 / 1000 <= s <= 701 / 1000 -> Rabs ((3 * a - 4 * a ^ 3) - (3 * s - 4 * s ^ 3)) <= 3 * Rabs (a - s).
Proof.
  intros Ha Hs. replace ((3 * a - 4 * a ^ 3) - (3 * s - 4 * s ^ 3)) with ((3 - 4 * (a * a + a * s + s * s)) * (a - s)) by ring.
  rewrite Rabs_mult. apply Rmult_le_compat_r; [apply Rabs_pos|]. apply Rabs_le. split; nra.
Qed.
Lemma sin_abs t : 0 <= t -> Rabs (sin t) <= t.
Proof.
  intros H. destruct (Req_dec t 0) as [->|N]; [rewrite sin_0, Rabs_R0; lra|]. apply Rabs_le. split; [|left; apply sin_lt_x; lra].
  destruct (Rle_or_lt t 1) as [L|L]; [|pose proof (SIN_bound t); lra]. assert (0 <= sin t); [|lra]. apply sin_ge_0; [lra|]. pose proof PI2_1. lra.
Qed.
Lemma sin_help n : forall x, is_number x -> 0 <= dval x < 1 / 1000 * 2 ^ n -> INR n <= 2000 ->
  exists v t, (forall k, (n < k)%nat -> sin_helper dbl k x = Value v) /\ is_number v /\ -1 <= dval v <= 1 /\
    Rabs (t - dval x) <= (168 / 10 ^ 9 + INR n * (4 * u)) * dval x /\
    (dval x < 1 / 1000 -> dval v = sin t) /\
    (1 / 1000 <= dval x -> t <= 21 / 10 -> Rabs (dval v - sin t) <= 40 * u * (1600 * t - 1 / 2)) /\
    (21 / 10 < t -> Rabs (dval v - sin t) <= 40 * u * (2300 * t ^ 2 - 1 / 8)).
Proof.
  pose proof u_pos as Hu.
  assert (forall n x, is_number x -> 0 <= dval x < 1 / 1000 -> exists v t, (forall k, (n < k)%nat -> sin_helper dbl k x = Value v) /\ is_number v /\ -1 <= dval v <= 1 /\
    Rabs (t - dval x) <= (168 / 10 ^ 9 + INR n * (4 * u)) * dval x /\
    (dval x < 1 / 1000 -> dval v = sin t) /\
    (1 / 1000 <= dval x -> t <= 21 / 10 -> Rabs (dval v - sin t) <= 40 * u * (1600 * t - 1 / 2)) /\
    (21 / 10 < t -> Rabs (dval v - sin t) <= 40 * u * (2300 * t ^ 2 - 1 / 8))) as Base.
  { clear n. intros n x Hx Bx. destruct (sin_small _ Bx) as (t & T1 & T2 & T3). exists x, t. split; [|split; [exact Hx|split; [lra|split; [|split; [now intros _|split; lra]]]]].
    - intros [|k] Hk; [lia|]. cbn [sin_helper]. rewrite td_eq. cbn [obind]. rewrite (proj2 (lt_td x Hx)) by lra. reflexivity.
    - rewrite Rabs_right by lra. assert (0 <= INR n * (4 * u) * dval x) by (repeat apply Rmult_le_pos; try lra; apply pos_INR). lra. }
  induction n as [|n IH]; intros x Hx Bx Bn.
  { apply Base; [exact Hx|]. simpl in Bx. lra. }
  destruct (Rlt_or_le (dval x) (1 / 1000)) as [L|L]; [apply Base; [exact Hx|lra]|].
  rewrite S_INR in Bn. pose proof (pos_INR n) as Pn. set (X := dval x) in *. simpl pow in Bx.
  destruct (third_dbl x Hx L) as (y & Ey & Hy & Vy). fold X in Vy. set (Y := dval y) in *. apply Rabs_le_inv in Vy.
  assert (u * X <= / 1000000 * X) as Hux by (apply Rmult_le_compat_r; [lra|unfold u; lra]).
  destruct (IH y Hy) as (a & t0 & Ea & Ha & Ba & Ht & C1 & C2 & C3); [fold Y; lra|lra|]. fold Y in Ht, C1, C2. clear IH Base.
  destruct (step_dbl a Ha Ba) as (Hv & Bv & Nv). set (v := nsub dbl _ _) in *. exists v, (3 * t0).
  set (eta := 168 / 10 ^ 9 + INR n * (4 * u)) in *.
  assert (0 <= eta <= 2 / 10 ^ 7) as Beta.
  { unfold eta. assert (0 <= INR n * (4 * u) <= 2000 * (4 * u)) as B by (split; [apply Rmult_le_pos; lra|apply Rmult_le_compat_r; lra]). unfold u in *. lra. }
  assert (eta * Y <= 2 / 10 ^ 7 * Y) as HeY by (apply Rmult_le_compat_r; lra).
  assert (eta * (3 * Y) <= eta * ((1 + u) * X)) as HeX by (apply Rmult_le_compat_l; lra).
  assert (eta * (u * X) <= 1 * (u * X)) as HeX2 by (apply Rmult_le_compat_r; [apply Rmult_le_pos; lra|lra]).
  apply Rabs_le_inv in Ht.
  assert (Rabs (3 * t0 - X) <= (eta + 2 * u) * X) as HT by (apply Rabs_le; lra).
  assert (0 < t0) as Pt by lra.
  assert (sin (3 * t0) = 3 * sin t0 - 4 * sin t0 ^ 3) as Es by apply sin_3.
  pose proof (SIN_bound t0) as Bs.
  split; [|split; [exact Hv|split; [exact Bv|split; [|split; [lra|]]]]].
  - intros [|k] Hk; [lia|]. rewrite (sin_S k x y Ey). replace (n_lt dbl x td) with false.
    + rewrite Ea by lia. reflexivity.
    + destruct (n_lt dbl x td) eqn:C; [|reflexivity]. apply (lt_td x Hx) in C. fold X in C. lra.
  - rewrite S_INR. eapply Rle_trans; [exact HT|]. apply Rmult_le_compat_r; [lra|]. unfold eta. lra.
  - assert (Rabs (dval v - sin (3 * t0)) <= 40 * u + Rabs ((3 * dval a - 4 * dval a ^ 3) - (3 * sin t0 - 4 * sin t0 ^ 3))) as ET.
    { rewrite Es. replace (dval v - (3 * sin t0 - 4 * sin t0 ^ 3)) with ((dval v - (3 * dval a - 4 * dval a ^ 3)) + ((3 * dval a - 4 * dval a ^ 3) - (3 * sin t0 - 4 * sin t0 ^ 3))) by ring.
      eapply Rle_trans; [apply Rabs_triang|]. lra. }
    pose proof (cubic_lip _ _ Ba Bs) as L9. apply Rabs_le_inv in HT.
    assert ((eta + 2 * u) * X <= 3 / 10 ^ 7 * X) as HTX by (apply Rmult_le_compat_r; [lra|unfold u; lra]).
    destruct (Rlt_or_le Y (1 / 1000)) as [LY|LY].
    + rewrite (C1 LY), Rminus_eq_0, Rabs_R0 in ET. split; [|lra]. intros _ _. eapply Rle_trans; [exact ET|].
      assert (40 * u * 1 <= 40 * u * (1600 * (3 * t0) - 1 / 2)) by (apply Rmult_le_compat_l; lra). lra.
    + destruct (Rle_or_lt t0 (21 / 10)) as [L2|L2].
      * specialize (C2 LY L2). destruct (Rle_or_lt t0 (7 / 10)) as [L7|L7].
        -- assert (Rabs (sin t0) <= 7 / 10) as S7 by (pose proof (sin_abs t0); lra).
           assert (40 * u * (1600 * t0 - 1 / 2) <= 40 * u * 1120) as U by (apply Rmult_le_compat_l; lra).
           assert (Rabs (dval a - sin t0) <= 1 / 1000) as D by (unfold u in *; lra). apply Rabs_le_inv in S7, D.
           pose proof (cubic_lip3 (dval a) (sin t0) ltac:(lra) ltac:(lra)) as L3. split; [|lra]. intros _ _.
           replace (40 * u * (1600 * (3 * t0) - 1 / 2)) with (40 * u + 3 * (40 * u * (1600 * t0 - 1 / 2))) by field. lra.
        -- split; [lra|]. intros _. assert (7 / 10 * t0 <= t0 * t0) as Q by (apply Rmult_le_compat_r; lra).
           eapply Rle_trans; [exact ET|]. eapply Rle_trans; [apply Rplus_le_compat_l; exact L9|].
           assert (40 * u * (9 * (1600 * t0 - 1 / 2) + 1) <= 40 * u * (2300 * (3 * t0) ^ 2 - 1 / 8)) as F; [|lra].
           apply Rmult_le_compat_l; [lra|]. replace ((3 * t0) ^ 2) with (9 * (t0 * t0)) by ring. lra.
      * specialize (C3 L2). split; [lra|]. intros _. eapply Rle_trans; [exact ET|]. eapply Rle_trans; [apply Rplus_le_compat_l; exact L9|].
        replace (40 * u * (2300 * (3 * t0) ^ 2 - 1 / 8)) with (40 * u + 9 * (40 * u * (2300 * t0 ^ 2 - 1 / 8))) by field. lra.
Qed.
Lemma big_levels : big <= 1 / 1000 * 2 ^ 1034.
Proof.
  unfold big. replace (1 / 1000 * 2 ^ 1034) with (1024 / 1000 * bpow radix2 1024).
  - pose proof (bpow_gt_0 radix2 1024). lra.
  - rewrite (bpow_powerRZ radix2). change (powerRZ (IZR radix2) 1024) with (2 ^ Pos.to_nat 1024). replace 1034%nat with (10 + Pos.to_nat 1024)%nat by reflexivity.
    rewrite pow_add. simpl (2 ^ 10). field.
Qed.
Lemma sin_helper_double x : is_number x -> 0 <= dval x ->
  exists v, (forall k, (1034 < k)%nat -> sin_helper dbl k x = Value v) /\ is_number v /\ -1 <= dval v <= 1 /\
    within (18 / 10 ^ 8 * dval x + 11 / 10 ^ 12 * dval x ^ 2) (dval v) (sin (dval x)).
Proof.
  intros Hx H0. pose proof u_pos as Hu. pose proof (max_below x Hx) as M. rewrite Rabs_right in M by lra.
  assert (INR 1034 = 1034) as EN by (rewrite INR_IZR_INZ; reflexivity).
  destruct (sin_help 1034 x Hx) as (v & t & Ev & Hv & Bv & Ht & C1 & C2 & C3); [pose proof big_levels; lra|rewrite EN; lra|].
  exists v. split; [exact Ev|]. split; [exact Hv|]. split; [exact Bv|]. rewrite EN in Ht. set (X := dval x) in *.
  assert ((168 / 10 ^ 9 + 1034 * (4 * u)) * X <= 169 / 10 ^ 9 * X) as HX by (apply Rmult_le_compat_r; [exact H0|unfold u; lra]).
  assert (Rabs (sin t - sin X) <= 169 / 10 ^ 9 * X) as S. { eapply Rle_trans; [apply sin_lip|]. lra. }
  apply Rabs_le_inv in Ht. assert (t <= 1001 / 1000 * X) as Tx by lra. assert (0 <= t) as T0 by lra.
  assert (t ^ 2 <= 1003 / 1000 * X ^ 2) as T2. { assert (t ^ 2 <= (1001 / 1000 * X) ^ 2) by (apply pow_incr; lra). assert (0 <= X ^ 2) by nra. lra. }
  assert (Rabs (dval v - sin t) <= 40 * u * (1602 * X + 2310 * X ^ 2)) as V.
  { assert (0 <= X ^ 2) by nra. destruct (Rlt_or_le X (1 / 1000)) as [L|L].
    - rewrite (C1 L), Rminus_eq_0, Rabs_R0. apply Rmult_le_pos; lra.
    - destruct (Rle_or_lt t (21 / 10)) as [L2|L2]; [eapply Rle_trans; [apply (C2 L L2)|]|eapply Rle_trans; [apply (C3 L2)|]]; (apply Rmult_le_compat_l; lra). }
  unfold within. replace (dval v - sin X) with ((dval v - sin t) + (sin t - sin X)) by ring. eapply Rle_trans; [apply Rabs_triang|].
  assert (40 * u * (1602 * X + 2310 * X ^ 2) <= 1 / 10 ^ 10 * X + 11 / 10 ^ 12 * X ^ 2) as U; [|lra].
  assert (0 <= X ^ 2) by nra. unfold u. lra.
Qed.

(** ** sin and cos *)
Lemma add_four_max : Rabs (rnd (dval dmax + 4)) < big.
Proof.
  assert (is_number dmax) as Hm by (split; [vm_compute; reflexivity|exact I]). destruct (dint_ok 4 eq_refl) as [H4 E4].
  destruct (number_B2SF _ Hm) as (bx & E1 & Fx & Ex). destruct (number_B2SF _ H4) as (by_ & E2 & Fy & Ey).
  assert (SFadd 53 1024 dmax (nint dbl 4) = dmax) as A by (vm_compute; reflexivity).
  rewrite <- E1, <- E2, add_equiv in A at 1.
  pose proof (Bplus_correct 53 1024 Hprec Hmax mode_NE bx by_ Fx Fy) as H. cbv zeta in H. simpl round_mode in H.
  rewrite Ex, Ey, E4 in H. fold (rnd (dval dmax + 4)) in H.
  destruct (Rlt_bool_spec (Rabs (rnd (dval dmax + 4))) big) as [L|L]; [exact L|].
  unfold rnd in L. unfold big in L. rewrite Rlt_bool_false in H by exact L. destruct H as [H _].
  rewrite H in A. discriminate A.
Qed.
Lemma add_four x c : is_number x -> -4 <= c <= 4 -> Rabs (rnd (dval x + c)) < big.
Proof.
  intros Hx Hc. pose proof (le_max x Hx) as L. pose proof add_four_max as M. destruct (dopp_ok x Hx) as [Ho Eo]. pose proof (le_max _ Ho) as L'. rewrite Eo in L'.
  apply Rabs_lt. apply Rabs_lt_inv in M. split.
  - assert (- rnd (dval dmax + 4) <= rnd (dval x + c)); [|lra]. rewrite <- rnd_opp. apply rnd_le. lra.
  - assert (rnd (dval x + c) <= rnd (dval dmax + 4)); [|lra]. apply rnd_le. lra.
Qed.
(** rounding of an argument *)
Lemma arg_err z : Rabs (rnd z - z) <= u * Rabs z + / 10 ^ 30.
Proof.
  eapply Rle_trans; [apply (rnd_err z (/ 10 ^ 30))|lra]. unfold eta0. apply Rle_trans with (bpow radix2 (-100)); [apply bpow_le; lia|]. simpl. lra.
Qed.
Lemma square_le Y W : 0 <= Y -> Y <= (1 + / 10 ^ 10) * W -> Y ^ 2 <= (1 + / 10 ^ 9) * W ^ 2.
Proof.
  intros H0 H. assert (0 <= W) by lra. assert (Y ^ 2 <= ((1 + / 10 ^ 10) * W) ^ 2) by (apply pow_incr; lra). assert (0 <= W ^ 2) by nra. lra.
Qed.
Lemma sin_dbl x : is_number x -> exists v, (forall k, (1034 < k)%nat -> m_sin dbl k x = Value v) /\ is_number v /\ -1 <= dval v <= 1 /\
  within (19 / 10 ^ 8 * (Rabs (dval x) + 4) + 12 / 10 ^ 12 * (Rabs (dval x) + 4) ^ 2) (dval v) (sin (dval x)).
Proof.
  intros Hx. destruct (dint_ok 0 eq_refl) as [H0 E0]. pose proof u_pos as Hu. pose proof h1_pi as B1. assert (is_number h1) as Hh by apply h_num.
  unfold m_sin. rewrite h1_eq. cbn [obind]. rewrite dlt by assumption. rewrite E0. set (X := dval x) in *. destruct (Rlt_bool_spec X 0) as [L|L].
  - destruct (dopp_ok x Hx) as [Ho Eo]. fold X in Eo. assert (3 < dval h1 < 4) as Bh by (rewrite h1_val; lra).
    destruct (dadd_ok (nopp dbl x) h1 Ho Hh) as [Hy Ey]; [apply add_four; [exact Ho|lra]|]. rewrite Eo in Ey. set (y := nadd dbl (nopp dbl x) h1) in *.
    pose proof (arg_err (- X + dval h1)) as R. rewrite <- Ey in R. rewrite (Rabs_right (- X + dval h1)) in R by lra.
    assert (0 <= dval y) as Y0 by (rewrite Ey; apply rnd_pos; lra).
    destruct (sin_helper_double y Hy Y0) as (v & Ev & Hv & Bv & Wv). exists v. split; [exact Ev|]. split; [exact Hv|]. split; [exact Bv|].
    rewrite (Rabs_left X) by exact L. clear Ey. set (Y := dval y) in *. set (W := - X + 4). apply Rabs_le_inv in R.
    assert (u * (- X + dval h1) <= / 10 ^ 11 * (- X + dval h1)) as U by (apply Rmult_le_compat_r; [lra|unfold u; lra]).
    assert (4 < W) as LW by (unfold W; lra).
    assert (Y <= (1 + / 10 ^ 10) * W) as BY by (unfold W; lra). pose proof (square_le Y W Y0 BY) as BY2.
    assert (sin X = sin (- X + PI)) as ES by (rewrite neg_sin, sin_neg; ring).
    assert (Rabs (sin Y - sin X) <= / 10 ^ 10 * W) as S. { rewrite ES. eapply Rle_trans; [apply sin_lip|]. apply Rabs_le. unfold W. lra. }
    unfold within in *. replace (dval v - sin X) with ((dval v - sin Y) + (sin Y - sin X)) by ring. eapply Rle_trans; [apply Rabs_triang|]. assert (0 <= W ^ 2) by nra. lra.
  - destruct (sin_helper_double x Hx L) as (v & Ev & Hv & Bv & Wv). exists v. split; [exact Ev|]. split; [exact Hv|]. split; [exact Bv|].
    rewrite (Rabs_right X) by lra. unfold within in *. fold X in Wv. eapply Rle_trans; [exact Wv|]. assert (0 <= X ^ 2) by (apply pow_le; lra). assert (X ^ 2 <= (X + 4) ^ 2) by (apply pow_incr; lra). lra.
Qed.
Lemma cos_dbl x : is_number x -> exists v, (forall k, (1034 < k)%nat -> m_cos dbl k x = Value v) /\ is_number v /\ -1 <= dval v <= 1 /\
  within (2 / 10 ^ 7 * (Rabs (dval x) + 6) + 13 / 10 ^ 12 * (Rabs (dval x) + 6) ^ 2) (dval v) (cos (dval x)).
Proof.
  intros Hx. pose proof u_pos as Hu. pose proof h2_pi as B2. assert (is_number h2) as Hh by apply h_num. set (X := dval x) in *.
  assert (15 / 10 < dval h2 < 16 / 10) as Bh by (rewrite h2_val; lra). destruct (dopp_ok x Hx) as [Ho Eo]. fold X in Eo.
  destruct (dsub_ok h2 x Hh Hx) as [Hy Ey].
  { replace (dval h2 - dval x) with (dval (nopp dbl x) + dval h2) by (rewrite Eo; unfold X; ring). apply add_four; [exact Ho|lra]. }
  fold X in Ey. destruct (sin_dbl (nsub dbl h2 x) Hy) as (v & Ev & Hv & Bv & Wv). exists v.
  split; [intros k Hk; unfold m_cos; rewrite h2_eq; cbn [obind]; now apply Ev|]. split; [exact Hv|]. split; [exact Bv|].
  pose proof (arg_err (dval h2 - X)) as R. rewrite <- Ey in R. set (Y := dval (nsub dbl h2 x)) in *. clearbody Y. set (W := Rabs X + 6).
  pose proof (Rabs_pos X) as PX. assert (Rabs (dval h2 - X) <= Rabs X + 16 / 10) as T.
  { unfold Rminus. eapply Rle_trans; [apply Rabs_triang|]. rewrite Rabs_Ropp, (Rabs_right (dval h2)) by lra. lra. }
  assert (u * Rabs (dval h2 - X) <= / 10 ^ 11 * (Rabs X + 16 / 10)) as U by (apply Rmult_le_compat; [lra|apply Rabs_pos|unfold u; lra|exact T]).
  assert (Rabs Y <= (1 + / 10 ^ 10) * (Rabs X + 16 / 10)) as BY.
  { replace Y with ((Y - (dval h2 - X)) + (dval h2 - X)) by ring. eapply Rle_trans; [apply Rabs_triang|]. lra. }
  pose proof (Rabs_pos Y) as PY.
  assert (Rabs Y + 4 <= (1 + / 10 ^ 10) * W) as BW by (unfold W; lra). pose proof (square_le (Rabs Y + 4) W ltac:(lra) BW) as BY2.
  assert (Rabs (sin Y - cos X) <= / 10 ^ 10 * W) as S.
  { rewrite <- sin_shift. eapply Rle_trans; [apply sin_lip|]. apply Rabs_le_inv in R. apply Rabs_le. unfold W. lra. }
  unfold within in *. replace (dval v - cos X) with ((dval v - sin Y) + (sin Y - cos X)) by ring. eapply Rle_trans; [apply Rabs_triang|]. assert (6 <= W) by (unfold W; lra). assert (0 <= W ^ 2) by nra. lra.
Qed.

(** infinities and NaN *)
Lemma sin_nan n : sin_helper dbl n S754_nan = Unfinished.
Proof. induction n as [|n IH]; [reflexivity|]. rewrite (sin_S n _ S754_nan) by reflexivity. change (n_lt dbl S754_nan td) with false. cbv iota. now rewrite IH. Qed.
Lemma sin_inf n : sin_helper dbl n (S754_infinity false) = Unfinished.
Proof. induction n as [|n IH]; [reflexivity|]. rewrite (sin_S n _ (S754_infinity false)) by reflexivity. change (n_lt dbl (S754_infinity false) td) with false. cbv iota. now rewrite IH. Qed.
Lemma sin_special x : is_double x -> ~ is_number x -> runs_forever (fun n => m_sin dbl n x).
Proof.
  intros Hd Hn n. unfold m_sin. rewrite h1_eq. cbn [obind]. destruct x as [s|[]| |s m e]; try (now elim Hn; split).
  - apply sin_inf.
  - apply sin_inf.
  - apply sin_nan.
Qed.
Lemma cos_special x : is_double x -> ~ is_number x -> runs_forever (fun n => m_cos dbl n x).
Proof.
  intros Hd Hn n. unfold m_cos. rewrite h2_eq. cbn [obind]. destruct x as [s|[]| |s m e]; try (now elim Hn; split).
  - apply (sin_special (S754_infinity false)); [reflexivity|now intros [_ ?]].
  - apply (sin_special (S754_infinity true)); [reflexivity|now intros [_ ?]].
  - apply (sin_special S754_nan); [reflexivity|now intros [_ ?]].
Qed.
(** arguments below tol are returned unchanged *)
Lemma sin_tiny x : is_number x -> 0 <= dval x < 1 / 1000 -> returns (fun n => m_sin dbl n x) x.
Proof.
  intros Hx Bx. exists 1%nat. intros [|k] Hk; [lia|]. unfold m_sin. rewrite h1_eq. cbn [obind]. destruct (dint_ok 0 eq_refl) as [H0 E0].
  rewrite dlt by assumption. rewrite E0, Rlt_bool_false by lra. cbn [sin_helper]. rewrite td_eq. cbn [obind]. rewrite (proj2 (lt_td x Hx)) by lra. reflexivity.
Qed.
(** bits of the results *)
Lemma run_value (f : nat -> outcome spec_float) v : f 40%nat = Value v -> (forall n k w, f n = Value w -> (n <= k)%nat -> f k = Value w) -> returns f v.
Proof. intros H M. exists 40%nat. intros k Hk. now apply (M _ _ _ H). Qed.
Lemma sin_helper_more n : forall k x w, sin_helper dbl n x = Value w -> (n <= k)%nat -> sin_helper dbl k x = Value w.
Proof.
  induction n as [|n IH]; intros k x w H Hk; [discriminate|]. destruct k as [|k]; [lia|]. cbn [sin_helper] in *. rewrite td_eq in *. cbn [obind] in *.
  destruct (n_lt dbl x td); [exact H|]. destruct (ndiv dbl x (nint dbl 3)) as [y| |]; try discriminate. cbn [obind] in *.
  destruct (sin_helper dbl n y) as [a| |] eqn:E; try discriminate. rewrite (IH k y a E) by lia. exact H.
Qed.
Lemma sin_more n k x w : m_sin dbl n x = Value w -> (n <= k)%nat -> m_sin dbl k x = Value w.
Proof. unfold m_sin. rewrite h1_eq. cbn [obind]. apply sin_helper_more. Qed.
Lemma cos_more n k x w : m_cos dbl n x = Value w -> (n <= k)%nat -> m_cos dbl k x = Value w.
Proof. unfold m_cos. rewrite h2_eq. cbn [obind]. apply sin_more. Qed.
Lemma sin_double x : is_number x -> exists v, returns (fun n => m_sin dbl n x) v /\ is_number v /\ -1 <= dval v <= 1 /\
  within (19 / 10 ^ 8 * (Rabs (dval x) + 4) + 12 / 10 ^ 12 * (Rabs (dval x) + 4) ^ 2) (dval v) (sin (dval x)).
Proof. intros Hx. destruct (sin_dbl x Hx) as (v & E & R). exists v. split; [exists 1035%nat; intros k Hk; apply E; lia|exact R]. Qed.
Lemma cos_double x : is_number x -> exists v, returns (fun n => m_cos dbl n x) v /\ is_number v /\ -1 <= dval v <= 1 /\
  within (2 / 10 ^ 7 * (Rabs (dval x) + 6) + 13 / 10 ^ 12 * (Rabs (dval x) + 6) ^ 2) (dval v) (cos (dval x)).
Proof. intros Hx. destruct (cos_dbl x Hx) as (v & E & R). exists v. split; [exists 1035%nat; intros k Hk; apply E; lia|exact R]. Qed.
Lemma sin_least : exists x v, is_number x /\ - / 10 ^ 200 < dval x < 0 /\ returns (fun n => m_sin dbl n x) v /\ dval v < - / 10 ^ 7.
Proof.
  exists (S754_finite true 1 (-1074)), (S754_finite true 4535320796200960 (-75)). split; [split; [reflexivity|exact I]|].
  split; [lit; lra|]. split.
  - apply run_value; [vm_compute; reflexivity|]. intros n k w. apply sin_more.
  - lit. lra.
Qed.
Lemma sin_not_odd : exists x v w, is_number x /\ returns (fun n => m_sin dbl n x) v /\ returns (fun n => m_sin dbl n (nopp dbl x)) w /\ w <> nopp dbl v.
Proof.
  exists (dint 1), (S754_finite false 7579296996829092 (-53)), (S754_finite true 7579298165806484 (-53)).
  split; [apply (dint_ok 1); reflexivity|]. split; [apply run_value; [vm_compute; reflexivity|intros n k w; apply sin_more]|].
  split; [apply run_value; [vm_compute; reflexivity|intros n k w; apply sin_more]|discriminate].
Qed.
Lemma cos_not_even : exists x v w, is_number x /\ returns (fun n => m_cos dbl n x) v /\ returns (fun n => m_cos dbl n (nopp dbl x)) w /\ w <> v.
Proof.
  exists (dint 2), (S754_finite true 7496637839571576 (-54)), (S754_finite true 7496637839571624 (-54)).
  split; [apply (dint_ok 2); reflexivity|]. split; [apply run_value; [vm_compute; reflexivity|intros n k w; apply cos_more]|].
  split; [apply run_value; [vm_compute; reflexivity|intros n k w; apply cos_more]|discriminate].
Qed.
Lemma cos_zero s : exists v, returns (fun n => m_cos dbl n (S754_zero s)) v /\ dval v < 1.
Proof.
  exists (S754_finite false 9007199254740910 (-53)). split.
  - apply run_value; [destruct s; vm_compute; reflexivity|intros n k w; apply cos_more].
  - lit. lra.
Qed.
