(** sinh and cosh on doubles *)
From stdpp Require Import base tactics.
From Coq Require Import ZArith Reals Lra Lia Psatz.
From Coq.Floats Require Import SpecFloat.
From Coquelicot Require Import Coquelicot.
From Flocq Require Import Core BinarySingleNaN.
From Verif Require Import ModelCmath SpecCmath CmathBounds CmathReal CmathSin DoubleArith DoubleRound DoubleSqrt DoubleNear DoubleLog DoubleExp DoubleAtan DoubleSin.
Open Scope R_scope.

(** ** sinh of reals *)
Lemma cosh_mono a b : 0 <= a <= b -> cosh a <= cosh b.
Proof. intros H. apply (grow cosh sinh a b); [lra|intros; apply derive_cosh|]. intros t Ht. pose proof (sinh_lower t). lra. Qed.
Lemma sinh_scale c t : 0 <= c <= 1 -> 0 <= t -> sinh (c * t) <= c * sinh t.
Proof.
  intros Hc Ht. assert (c * sinh 0 - sinh (c * 0) <= c * sinh t - sinh (c * t)) as H.
  { apply (grow (fun t => c * sinh t - sinh (c * t)) (fun t => c * cosh t - c * cosh (c * t)) 0 t Ht).
    - intros s _. apply (is_derive_minus (fun s => c * sinh s) (fun s => sinh (c * s))).
      + apply (is_derive_scal sinh s c (cosh s)). apply derive_sinh.
      + apply (is_derive_comp sinh (fun s => c * s) s (cosh (c * s)) c); [apply derive_sinh|]. auto_derive; [trivial|ring].
    - intros s Hs. assert (cosh (c * s) <= cosh s) by (apply cosh_mono; nra). assert (c * cosh (c * s) <= c * cosh s) by (apply Rmult_le_compat_l; lra). lra. }
  rewrite Rmult_0_r, sinh_0 in H. lra.
Qed.
Lemma sinh_mono a b : a <= b -> sinh a <= sinh b.
Proof. intros H. apply (grow sinh cosh a b H); [intros; apply derive_sinh|]. intros t _. pose proof (cosh_1 t). lra. Qed.
(** a relative change of sinh t changes t by no more *)
Lemma arcsinh_rel V t d : 0 <= t -> 0 <= d <= 1 -> Rabs (V - sinh t) <= d * sinh t -> Rabs (arcsinh V - t) <= d * t.
Proof.
  intros Ht Hd H. apply Rabs_le_inv in H. apply Rabs_le.
  assert (V <= sinh ((1 + d) * t)) as U.
  { pose proof (sinh_scale (/ (1 + d)) ((1 + d) * t)) as S. replace (/ (1 + d) * ((1 + d) * t)) with t in S by (field; lra).
    assert (sinh t <= / (1 + d) * sinh ((1 + d) * t)) as S1.
    { apply S; [|nra]. split; [left; apply Rinv_0_lt_compat; lra|]. apply Rle_trans with (/ 1); [apply Rinv_le_contravar; lra|rewrite Rinv_1; lra]. }
    assert ((1 + d) * sinh t <= (1 + d) * (/ (1 + d) * sinh ((1 + d) * t))) as S2 by (apply Rmult_le_compat_l; lra).
    rewrite <- Rmult_assoc, Rinv_r, Rmult_1_l in S2 by lra. lra. }
  assert (sinh ((1 - d) * t) <= V) as L by (pose proof (sinh_scale (1 - d) t ltac:(lra) Ht); lra).
  apply arcsinh_le in U, L. rewrite arcsinh_sinh in U, L. lra.
Qed.
Lemma exp_small d : 0 <= d < 1 -> exp d <= / (1 - d).
Proof.
  intros H. pose proof (exp_ineq1_le (- d)) as E. rewrite exp_Ropp in E. pose proof (exp_pos d) as P.
  rewrite <- (Rinv_inv (exp d)). apply Rinv_le_contravar; lra.
Qed.
Lemma cosh_shift t x : x <= t -> cosh t <= exp (t - x) * cosh x.
Proof.
  intros H. unfold cosh. replace t with ((t - x) + x) at 1 by ring. rewrite exp_plus.
  assert (exp (- t) <= exp (t - x) * exp (- x)); [|lra]. rewrite <- exp_plus. apply exp_mono. lra.
Qed.
(** the error of sinh from the error of its argument *)
Lemma sinh_arg t x d : 0 <= t -> 0 <= x -> Rabs (t - x) <= d -> d <= / 1000 -> Rabs (sinh t - sinh x) <= 1002 / 1000 * (d * cosh x).
Proof.
  intros Ht Hx H Hd. apply Rabs_le_inv in H. assert (0 <= d) as Pd by lra. pose proof (cosh_1 x) as C1.
  assert (0 <= d * cosh x) by (apply Rmult_le_pos; lra). destruct (Rle_or_lt t x) as [L|L].
  - destruct (sinh_lip t x) as [A B]; [lra|]. assert ((x - t) * cosh x <= d * cosh x) by (apply Rmult_le_compat_r; lra). apply Rabs_le. lra.
  - destruct (sinh_lip x t) as [A B]; [lra|]. pose proof (cosh_shift t x ltac:(lra)) as S.
    assert (exp (t - x) <= 1002 / 1000) as E.
    { eapply Rle_trans; [apply exp_small; lra|]. apply Rle_trans with (/ (999 / 1000)); [apply Rinv_le_contravar; lra|lra]. }
    assert (exp (t - x) * cosh x <= 1002 / 1000 * cosh x) by (apply Rmult_le_compat_r; lra).
    pose proof (cosh_1 t). assert ((t - x) * cosh t <= d * (1002 / 1000 * cosh x)) by (apply Rmult_le_compat; lra). apply Rabs_le. lra.
Qed.

(** ** Positive results, overflow included *)
Definition dinf := S754_infinity false.
Lemma add_over p q : is_number p -> is_number q -> 0 < dval p -> 0 < dval q -> big <= rnd (dval p + dval q) -> nadd dbl p q = dinf.
Proof.
  intros Hx Hy Px Py L. destruct (number_B2SF _ Hx) as (bx & Bx & Fx & Ex). destruct (number_B2SF _ Hy) as (by_ & By & Fy & Ey).
  change (nadd dbl) with (SFadd 53 1024). rewrite <- Bx, <- By, add_equiv. rewrite <- Ex, <- Ey in L.
  pose proof (Bplus_correct 53 1024 Hprec Hmax mode_NE bx by_ Fx Fy) as H. unfold rnd, big in L. simpl round_mode in H.
  rewrite Rlt_bool_false in H by (eapply Rle_trans; [exact L|apply Rle_abs]). destruct H as [H _]. rewrite H.
  assert (forall b : binary_float 53 1024, is_finite b = true -> 0 < B2R b -> Bsign b = false) as S.
  { intros [s|s| |s m e B] F P; try discriminate F; [simpl in P; lra|]. destruct s; [|reflexivity]. exfalso. simpl in P. unfold F2R in P. simpl in P.
    pose proof (bpow_gt_0 radix2 e). assert (IZR (Zneg m) < 0) by (apply IZR_lt; lia). nra. }
  rewrite S; [reflexivity|exact Fx|rewrite Ex; exact Px].
Qed.
Definition app (k : R) (r : R) (v : spec_float) : Prop :=
  (v = dinf /\ big <= 1001 / 1000 * r) \/ (is_number v /\ Rabs (dval v - r) <= k * u * r).
Lemma small_k k r : 0 <= k <= 30 -> 0 < r -> 0 <= k * u * r <= / 10 ^ 10 * r.
Proof.
  intros Hk Hr. pose proof u_pos. assert (k * u <= 30 * u) by (apply Rmult_le_compat_r; lra). assert (0 <= k * u) by (apply Rmult_le_pos; lra).
  split; [apply Rmult_le_pos; lra|]. apply Rmult_le_compat_r; [lra|]. unfold u in *. lra.
Qed.
Lemma app_mul i j x y X Y : is_number x -> is_number y -> 0 < X -> 0 < Y -> 0 <= i <= 10 -> 0 <= j <= 10 -> / 10 ^ 30 <= X * Y ->
  Rabs (dval x - X) <= i * u * X -> Rabs (dval y - Y) <= j * u * Y -> app (i + j + 2) (X * Y) (nmul dbl x y).
Proof.
  intros Hx Hy PX PY Hi Hj L E1 E2. pose proof u_pos as Hu. destruct (small_k i X ltac:(lra) PX) as [_ S1]. destruct (small_k j Y ltac:(lra) PY) as [_ S2].
  pose proof (mul_rel (i * u) (j * u) _ _ X Y E1 E2 PX PY ltac:(apply Rmult_le_pos; lra) ltac:(apply Rmult_le_pos; lra)) as M.
  apply Rabs_le_inv in E1 as F1, E2 as F2. set (P := X * Y) in *. set (p := dval x * dval y) in *. assert (0 < P) as PP by (apply Rmult_lt_0_compat; assumption).
  assert (i * u * (j * u) <= / 10 * u) as Q.
  { replace (i * u * (j * u)) with (i * j * u * u) by ring. apply Rmult_le_compat_r; [lra|]. assert (i * j <= 10 * 10) by (apply Rmult_le_compat; lra).
    assert (i * j * u <= 100 * u) by (apply Rmult_le_compat_r; lra). unfold u in *. lra. }
  assert (Rabs (p - P) <= (i + j + / 10) * u * P) as M2. { eapply Rle_trans; [exact M|]. apply Rmult_le_compat_r; lra. }
  destruct (small_k (i + j + / 10) P) as [_ S3]; [lra|lra|]. apply Rabs_le_inv in M2 as M3.
  assert (0 < p) as Pp by lra.
  assert (Rabs (rnd p - p) <= u * Rabs p) as R.
  { apply rnd_rel_normal. rewrite Rabs_right by lra. apply Rle_trans with (/ 10 ^ 31); [|lra].
    apply Rle_trans with (bpow radix2 (-110)); [apply bpow_le; lia|]. simpl. lra. }
  rewrite (Rabs_right p) in R by lra. assert (u * p <= u * (11 / 10 * P)) as U by (apply Rmult_le_compat_l; lra). apply Rabs_le_inv in R.
  assert (Rabs (rnd p - P) <= (i + j + 2) * u * P) as F by (apply Rabs_le; lra).
  destruct (Rlt_or_le (rnd p) big) as [B|B].
  - right. destruct (dmul_ok x y Hx Hy) as [Hv Ev]; [fold p; rewrite Rabs_right; [exact B|]; apply Rle_ge, rnd_pos; lra|]. split; [exact Hv|]. rewrite Ev. exact F.
  - left. destruct (small_k (i + j + 2) P) as [_ S4]; [lra|lra|]. apply Rabs_le_inv in F. split; [|lra]. apply mul_over; [exact Hx|exact Hy|lra|lra|exact B].
Qed.
Lemma app_add i x y X Y : is_number x -> is_number y -> 0 < X -> 0 < Y -> 0 <= i <= 10 -> / 10 ^ 30 <= X + Y ->
  Rabs (dval x - X) <= i * u * X -> Rabs (dval y - Y) <= i * u * Y -> app (i + 2) (X + Y) (nadd dbl x y).
Proof.
  intros Hx Hy PX PY Hi L E1 E2. pose proof u_pos as Hu. destruct (small_k i X ltac:(lra) PX) as [_ S1]. destruct (small_k i Y ltac:(lra) PY) as [_ S2].
  apply Rabs_le_inv in E1, E2. set (P := X + Y) in *. set (p := dval x + dval y) in *.
  assert (Rabs (p - P) <= i * u * P) as M2 by (unfold p, P; apply Rabs_le; lra).
  destruct (small_k i P) as [_ S3]; [lra|lra|]. apply Rabs_le_inv in M2 as M3. assert (0 < p) as Pp by lra.
  assert (Rabs (rnd p - p) <= u * Rabs p) as R.
  { apply rnd_rel_normal. rewrite Rabs_right by lra. apply Rle_trans with (/ 10 ^ 31); [|lra].
    apply Rle_trans with (bpow radix2 (-110)); [apply bpow_le; lia|]. simpl. lra. }
  rewrite (Rabs_right p) in R by lra. assert (u * p <= u * (11 / 10 * P)) as U by (apply Rmult_le_compat_l; lra). apply Rabs_le_inv in R.
  assert (Rabs (rnd p - P) <= (i + 2) * u * P) as F by (apply Rabs_le; lra).
  destruct (Rlt_or_le (rnd p) big) as [B|B].
  - right. destruct (dadd_ok x y Hx Hy) as [Hv Ev]; [fold p; rewrite Rabs_right; [exact B|]; apply Rle_ge, rnd_pos; lra|]. split; [exact Hv|]. rewrite Ev. exact F.
  - left. destruct (small_k (i + 2) P) as [_ S4]; [lra|lra|]. apply Rabs_le_inv in F. split; [|lra]. apply add_over; [exact Hx|exact Hy|lra|lra|exact B].
Qed.
Lemma inf_mul a : is_number a -> 0 < dval a -> nmul dbl dinf a = dinf.
Proof. intros H P. destruct (pos_finite a H P) as (m & e & ->). reflexivity. Qed.
Lemma add_inf k r m : app k r m -> nadd dbl m dinf = dinf.
Proof. intros [[-> _]|[[_ H] _]]; [reflexivity|]. now destruct m as [s|s| |s m e]. Qed.
Lemma inf_add k r m : app k r m -> nadd dbl dinf m = dinf.
Proof. intros [[-> _]|[[_ H] _]]; [reflexivity|]. now destruct m as [s|s| |s m e]. Qed.
Lemma self_app x : Rabs (dval x - dval x) <= 0 * u * dval x.
Proof. rewrite Rminus_eq_0, Rabs_R0. lra. Qed.
Lemma sinh_step a : is_number a -> / 10 ^ 4 <= dval a ->
  app 8 (3 * dval a + 4 * dval a ^ 3) (nadd dbl (nmul dbl (nint dbl 3) a) (nmul dbl (nint dbl 4) (cube dbl a))).
Proof.
  intros Ha La. set (A := dval a) in *. destruct (dint_ok 3 eq_refl) as [H3 E3]. destruct (dint_ok 4 eq_refl) as [H4 E4]. pose proof u_pos as Hu.
  assert (/ 10 ^ 8 <= A * A) as L2. { apply Rle_trans with (/ 10 ^ 4 * / 10 ^ 4); [lra|]. apply Rmult_le_compat; lra. }
  assert (/ 10 ^ 12 <= A * A * A) as L3. { apply Rle_trans with (/ 10 ^ 8 * / 10 ^ 4); [lra|]. apply Rmult_le_compat; lra. }
  replace (A ^ 3) with (A * A * A) by ring.
  assert (app 2 (3 * A) (nmul dbl (nint dbl 3) a)) as M.
  { replace 2 with (0 + 0 + 2) by ring. apply app_mul; try assumption; try lra; [rewrite E3, Rminus_eq_0, Rabs_R0; lra|apply self_app]. }
  assert (app 2 (A * A) (nmul dbl a a)) as P.
  { replace 2 with (0 + 0 + 2) by ring. apply app_mul; try assumption; try lra; apply self_app. }
  assert (app 4 (A * A * A) (cube dbl a)) as C.
  { unfold cube. destruct P as [[-> P]|[Hp P]].
    - left. split; [apply inf_mul; [exact Ha|fold A; lra]|]. assert (1 <= A).
      { apply Rnot_lt_le. intros N. assert (1 <= big) by (unfold big; apply (bpow_le radix2 0 1024); lia). assert (A * A <= A * 1) by (apply Rmult_le_compat_l; lra).
        unfold big in P. assert (4 <= bpow radix2 1024) by (apply (bpow_le radix2 2 1024); lia). lra. }
      assert (A * A * 1 <= A * A * A) by (apply Rmult_le_compat_l; lra). lra.
    - replace 4 with (2 + 0 + 2) by ring. apply app_mul; try assumption; try lra; apply self_app. }
  assert (app 6 (4 * (A * A * A)) (nmul dbl (nint dbl 4) (cube dbl a))) as Q.
  { destruct C as [[-> C]|[Hc C]]; [left; split; [reflexivity|lra]|].
    replace 6 with (0 + 4 + 2) by ring. apply app_mul; try assumption; try lra. rewrite E4, Rminus_eq_0, Rabs_R0. lra. }
  destruct Q as [[-> Q]|[Hq Q]]; [left; split; [apply (add_inf _ _ _ M)|lra]|].
  destruct M as [[-> M]|[Hm M]]; [left; split; [apply (inf_add 6 (4 * (A * A * A))); right; now split|lra]|].
  replace 8 with (6 + 2) by ring. apply app_add; try assumption; try lra. eapply Rle_trans; [exact M|]. apply Rmult_le_compat_r; lra.
Qed.

(** ** The recursion *)
Lemma sinh_S n x y : ndiv dbl x (nint dbl 3) = Value y -> sinh_helper dbl (S n) x =
  if n_lt dbl x td then Value x else
  obind (sinh_helper dbl n y) (fun a => Value (nadd dbl (nmul dbl (nint dbl 3) a) (nmul dbl (nint dbl 4) (cube dbl a)))).
Proof.
  intros E. cbn [sinh_helper]. rewrite td_eq. cbn [obind]. destruct (n_lt dbl x td); [reflexivity|]. rewrite E. cbn [obind].
  destruct (sinh_helper dbl n y); reflexivity.
Qed.
Lemma exp_710_up : exp 710 <= 3 / 4 * bpow radix2 1025.
Proof.
  replace (3 / 4 * bpow radix2 1025) with (3 * bpow radix2 1023) by (change 1025%Z with (2 + 1023)%Z; rewrite bpow_plus; change (bpow radix2 2) with 4; field).
  replace 710 with (INR 710) by (rewrite INR_IZR_INZ; reflexivity). apply exp_le_pow2. vm_compute. reflexivity.
Qed.
Lemma exp_711_low : 11 * bpow radix2 1025 <= 10 * exp 711.
Proof. replace 711 with (INR 711) by (rewrite INR_IZR_INZ; reflexivity). apply exp_ge_pow2. vm_compute. reflexivity. Qed.
Lemma big_1025 : bpow radix2 1025 = 2 * big.
Proof. unfold big. change 1025%Z with (1 + 1024)%Z. rewrite bpow_plus. reflexivity. Qed.
Lemma big_pos : 1000 < big.
Proof. unfold big. apply Rlt_le_trans with (bpow radix2 10); [simpl; lra|apply bpow_le; lia]. Qed.
Lemma sinh_below t : 0 <= t <= 710001 / 1000 -> sinh t <= 8 / 10 * big.
Proof.
  intros Ht. unfold sinh. pose proof (exp_pos (- t)). assert (exp t <= exp 710 * exp (/ 1000)) as E. { rewrite <- exp_plus. apply exp_mono. lra. }
  pose proof (exp_small (/ 1000) ltac:(lra)) as S. pose proof exp_710_up as U. rewrite big_1025 in U.
  assert (exp 710 * exp (/ 1000) <= 3 / 4 * (2 * big) * (101 / 100)) as M.
  { apply Rmult_le_compat; [left; apply exp_pos|left; apply exp_pos|exact U|]. eapply Rle_trans; [exact S|]. lra. }
  pose proof big_pos. lra.
Qed.
Lemma sinh_above t : 710999 / 1000 <= t -> big <= sinh t.
Proof.
  intros Ht. unfold sinh. pose proof (exp_711_low) as L. rewrite big_1025 in L. pose proof big_pos.
  assert (exp (- t) <= 1) as N. { rewrite <- exp_0. apply exp_mono. lra. }
  assert (exp 711 * exp (- / 1000) <= exp t) as E. { rewrite <- exp_plus. apply exp_mono. lra. }
  pose proof (exp_ineq1_le (- / 1000)) as S. assert (exp 711 * (999 / 1000) <= exp 711 * exp (- / 1000)) by (apply Rmult_le_compat_l; [left; apply exp_pos|lra]). lra.
Qed.
Lemma sinh_help n : forall x, is_number x -> 0 <= dval x < 1 / 1000 * 2 ^ n -> INR n <= 2000 ->
  exists v, (forall k, (n < k)%nat -> sinh_helper dbl k x = Value v) /\
    ((v = dinf /\ 710 < dval x) \/
     (is_number v /\ exists t, 0 <= t /\ dval v = sinh t /\ Rabs (t - dval x) <= (17 / 10 ^ 8 + INR n * (12 * u)) * dval x)).
Proof.
  pose proof u_pos as Hu.
  assert (forall n x, is_number x -> 0 <= dval x < 1 / 1000 -> exists v, (forall k, (n < k)%nat -> sinh_helper dbl k x = Value v) /\
    ((v = dinf /\ 710 < dval x) \/
     (is_number v /\ exists t, 0 <= t /\ dval v = sinh t /\ Rabs (t - dval x) <= (17 / 10 ^ 8 + INR n * (12 * u)) * dval x))) as Base.
  { clear n. intros n x Hx Bx. exists x. split.
    - intros [|k] Hk; [lia|]. cbn [sinh_helper]. rewrite td_eq. cbn [obind]. rewrite (proj2 (lt_td x Hx)) by lra. reflexivity.
    - right. split; [exact Hx|]. destruct (sinh_small _ Bx) as [T1 T2]. exists (arcsinh (dval x)). rewrite sinh_arcsinh. split; [exact T2|]. split; [reflexivity|].
      rewrite Rabs_left1 by lra. assert (0 <= INR n * (12 * u) * dval x) by (repeat apply Rmult_le_pos; try lra; apply pos_INR). lra. }
  induction n as [|n IH]; intros x Hx Bx Bn.
  { apply Base; [exact Hx|]. simpl in Bx. lra. }
  destruct (Rlt_or_le (dval x) (1 / 1000)) as [L|L]; [apply Base; [exact Hx|lra]|].
  rewrite S_INR in Bn. pose proof (pos_INR n) as Pn. set (X := dval x) in *. simpl pow in Bx.
  destruct (third_dbl x Hx L) as (y & Ey & Hy & Vy). fold X in Vy. set (Y := dval y) in *. apply Rabs_le_inv in Vy.
  assert (u * X <= / 1000000 * X) as Hux by (apply Rmult_le_compat_r; [lra|unfold u; lra]).
  destruct (IH y Hy) as (a & Ea & Ca); [fold Y; lra|lra|]. fold Y in Ca. clear IH Base.
  exists (nadd dbl (nmul dbl (nint dbl 3) a) (nmul dbl (nint dbl 4) (cube dbl a))). split.
  { intros [|k] Hk; [lia|]. rewrite (sinh_S k x y Ey). replace (n_lt dbl x td) with false.
    + rewrite Ea by lia. reflexivity.
    + destruct (n_lt dbl x td) eqn:C; [|reflexivity]. apply (lt_td x Hx) in C. fold X in C. lra. }
  destruct Ca as [[-> BY]|[Ha (t & Pt & Et & Ht)]].
  { left. split; [reflexivity|]. lra. }
  set (eta := 17 / 10 ^ 8 + INR n * (12 * u)) in *.
  assert (0 <= eta <= 2 / 10 ^ 7) as Beta.
  { unfold eta. assert (0 <= INR n * (12 * u) <= 2000 * (12 * u)) as B by (split; [apply Rmult_le_pos; lra|apply Rmult_le_compat_r; lra]). unfold u in *. lra. }
  assert (eta * Y <= 2 / 10 ^ 7 * Y) as HeY by (apply Rmult_le_compat_r; lra).
  assert (eta * (3 * Y) <= eta * ((1 + u) * X)) as HeX by (apply Rmult_le_compat_l; lra).
  assert (eta * (u * X) <= 1 * (u * X)) as HeX2 by (apply Rmult_le_compat_r; [apply Rmult_le_pos; lra|lra]).
  apply Rabs_le_inv in Ht. assert (Rabs (3 * t - X) <= (eta + 2 * u) * X) as HT by (apply Rabs_le; lra). apply Rabs_le_inv in HT.
  assert ((eta + 2 * u) * X <= 3 / 10 ^ 7 * X) as HTX by (apply Rmult_le_compat_r; [lra|unfold u; lra]).
  pose proof (sinh_lower t Pt) as Lt.
  assert (3 * dval a + 4 * dval a ^ 3 = sinh (3 * t)) as E3 by (rewrite Et, sinh_3; reflexivity).
  destruct (sinh_step a Ha) as [[-> O]|[Hv Nv]]; [rewrite Et; lra| |].
  - left. split; [reflexivity|]. apply Rnot_le_lt. intros C. rewrite E3 in O. pose proof (sinh_below (3 * t) ltac:(lra)). pose proof big_pos. lra.
  - right. split; [exact Hv|]. set (v := nadd dbl _ _) in *. rewrite E3 in Nv. exists (arcsinh (dval v)). rewrite sinh_arcsinh.
    pose proof (arcsinh_rel (dval v) (3 * t) (8 * u) ltac:(lra) ltac:(unfold u; lra) Nv) as R. apply Rabs_le_inv in R.
    assert (8 * u * (3 * t) <= 8 * u * (11 / 10 * X)) as U by (apply Rmult_le_compat_l; lra).
    assert (8 * u * (3 * t) <= 1 * (3 * t)) as U1 by (apply Rmult_le_compat_r; [lra|unfold u; lra]).
    split; [lra|]. split; [reflexivity|]. rewrite S_INR. assert (0 <= u * X) by (apply Rmult_le_pos; lra).
    replace ((17 / 10 ^ 8 + (INR n + 1) * (12 * u)) * X) with (eta * X + 12 * (u * X)) by (unfold eta; ring). apply Rabs_le. lra.
Qed.
(** ** sinh *)
Lemma sinh_pos x : is_number x -> 0 <= dval x -> exists v, returns (fun n => sinh_helper dbl n x) v /\
  ((v = dinf /\ 710 < dval x) \/
   (is_number v /\ dval x < 711 /\ exists t, 0 <= t /\ dval v = sinh t /\ Rabs (t - dval x) <= 171 / 10 ^ 9 * dval x)).
Proof.
  intros Hx H0. pose proof u_pos as Hu. pose proof (max_below x Hx) as M. rewrite Rabs_right in M by lra.
  assert (INR 1034 = 1034) as EN by (rewrite INR_IZR_INZ; reflexivity).
  destruct (sinh_help 1034 x Hx) as (v & Ev & C); [pose proof big_levels; lra|rewrite EN; lra|]. rewrite EN in C.
  exists v. split; [exists 1035%nat; intros k Hk; apply Ev; lia|]. destruct C as [C|[Hv (t & Pt & Et & Ht)]]; [now left|right]. split; [exact Hv|].
  assert ((17 / 10 ^ 8 + 1034 * (12 * u)) * dval x <= 171 / 10 ^ 9 * dval x) as HX by (apply Rmult_le_compat_r; [exact H0|unfold u; lra]).
  split; [|exists t; repeat split; try assumption; lra]. apply Rnot_le_lt. intros C. apply Rabs_le_inv in Ht.
  pose proof (sinh_above t ltac:(lra)) as B. pose proof (max_below v Hv) as Mv. rewrite Et in Mv. pose proof big_pos. rewrite Rabs_right in Mv by lra. lra.
Qed.
Lemma lt_zero x : is_number x -> n_lt dbl x (nint dbl 0) = Rlt_bool (dval x) 0.
Proof. intros Hx. destruct (dint_ok 0 eq_refl) as [H0 E0]. rewrite dlt by assumption. now rewrite E0. Qed.
Lemma sinh_inf n : sinh_helper dbl n dinf = Unfinished.
Proof. induction n as [|n IH]; [reflexivity|]. rewrite (sinh_S n _ dinf) by reflexivity. change (n_lt dbl dinf td) with false. cbv iota. now rewrite IH. Qed.
Lemma sinh_nan n : sinh_helper dbl n S754_nan = Unfinished.
Proof. induction n as [|n IH]; [reflexivity|]. rewrite (sinh_S n _ S754_nan) by reflexivity. change (n_lt dbl S754_nan td) with false. cbv iota. now rewrite IH. Qed.
Lemma sinh_special x : is_double x -> ~ is_number x -> runs_forever (fun n => m_sinh dbl n x).
Proof.
  intros Hd Hn n. unfold m_sinh. destruct x as [s|[]| |s m e]; try (now elim Hn; split).
  - change (n_lt dbl (S754_infinity true) (nint dbl 0)) with true. cbv iota. change (nopp dbl (S754_infinity true)) with dinf. now rewrite sinh_inf.
  - apply sinh_inf.
  - apply sinh_nan.
Qed.
Lemma opp_opp x : nopp dbl (nopp dbl x) = x.
Proof. destruct x as [[]|[]| |[] m e]; reflexivity. Qed.
(** odd, fuel by fuel *)
Lemma sinh_opp n x : m_sinh dbl n (nopp dbl x) = obind (m_sinh dbl n x) (fun r => Value (nopp dbl r)).
Proof.
  destruct x as [s|[]| |[] m e].
  - unfold m_sinh. replace (n_lt dbl (nopp dbl (S754_zero s)) (nint dbl 0)) with false by now destruct s. replace (n_lt dbl (S754_zero s) (nint dbl 0)) with false by now destruct s.
    destruct n as [|n]; [reflexivity|]. cbn [sinh_helper]. rewrite td_eq. cbn [obind].
    replace (n_lt dbl (nopp dbl (S754_zero s)) td) with true by now destruct s. replace (n_lt dbl (S754_zero s) td) with true by now destruct s. reflexivity.
  - rewrite (sinh_special (S754_infinity true)) by (reflexivity || now intros [_ ?]). now rewrite (sinh_special (nopp dbl (S754_infinity true))) by (reflexivity || now intros [_ ?]).
  - rewrite (sinh_special (S754_infinity false)) by (reflexivity || now intros [_ ?]). now rewrite (sinh_special (nopp dbl (S754_infinity false))) by (reflexivity || now intros [_ ?]).
  - rewrite (sinh_special S754_nan) by (reflexivity || now intros [_ ?]). now rewrite (sinh_special (nopp dbl S754_nan)) by (reflexivity || now intros [_ ?]).
  - unfold m_sinh. change (n_lt dbl (S754_finite true m e) (nint dbl 0)) with true. change (n_lt dbl (nopp dbl (S754_finite true m e)) (nint dbl 0)) with false. cbv iota.
    destruct (sinh_helper dbl n (nopp dbl (S754_finite true m e))); cbn [obind]; [now rewrite opp_opp|reflexivity|reflexivity].
  - unfold m_sinh. change (n_lt dbl (S754_finite false m e) (nint dbl 0)) with false. change (n_lt dbl (nopp dbl (S754_finite false m e)) (nint dbl 0)) with true. cbv iota. now rewrite opp_opp.
Qed.
Lemma sinh_odd_double x v : returns (fun n => m_sinh dbl n x) v -> returns (fun n => m_sinh dbl n (nopp dbl x)) (nopp dbl v).
Proof. intros [n H]. exists n. intros k Hk. rewrite sinh_opp, H by exact Hk. reflexivity. Qed.
(** a statement about sinh of positive numbers gives one about all numbers *)
Lemma by_sign (P : spec_float -> Prop) : (forall x, is_number x -> 0 <= dval x -> P x) -> (forall x, is_number x -> P (nopp dbl x) -> P x) -> forall x, is_number x -> P x.
Proof.
  intros H1 H2 x Hx. destruct (Rle_or_lt 0 (dval x)) as [L|L]; [now apply H1|]. apply H2; [exact Hx|]. destruct (dopp_ok x Hx) as [Ho Eo]. apply H1; [exact Ho|]. rewrite Eo. lra.
Qed.
Lemma sinh_nonneg x n : is_number x -> 0 <= dval x -> m_sinh dbl n x = sinh_helper dbl n x.
Proof. intros Hx L. unfold m_sinh. rewrite lt_zero, Rlt_bool_false by assumption. reflexivity. Qed.
Lemma sinh_double x : is_number x -> Rabs (dval x) <= 710 ->
  exists v, returns (fun n => m_sinh dbl n x) v /\ is_number v /\ within (18 / 10 ^ 8 * Rabs (dval x) * cosh (dval x)) (dval v) (sinh (dval x)).
Proof.
  revert x. apply (by_sign (fun x => Rabs (dval x) <= 710 -> exists v, returns (fun n => m_sinh dbl n x) v /\ is_number v /\ within (18 / 10 ^ 8 * Rabs (dval x) * cosh (dval x)) (dval v) (sinh (dval x)))).
  - intros x Hx L B. rewrite Rabs_right in * by lra. destruct (sinh_pos x Hx L) as (v & Rv & [[_ C]|[Hv (_ & t & Pt & Et & Ht)]]); [lra|].
    exists v. split; [eapply ret_ext; [|exact Rv]; intros n; now apply sinh_nonneg|]. split; [exact Hv|]. rewrite Et.
    pose proof (sinh_arg t (dval x) _ Pt L Ht ltac:(lra)) as S. unfold within. eapply Rle_trans; [exact S|].
    assert (0 <= dval x * cosh (dval x)) by (apply Rmult_le_pos; [exact L|pose proof (cosh_1 (dval x)); lra]). lra.
  - intros x Hx IH B. destruct (dopp_ok x Hx) as [Ho Eo]. rewrite Eo, Rabs_Ropp, cosh_neg, sinh_neg in IH. destruct (IH B) as (v & Rv & Hv & W).
    exists (nopp dbl v). destruct (dopp_ok v Hv) as [Hov Eov]. split; [rewrite <- (opp_opp x); now apply sinh_odd_double|]. split; [exact Hov|].
    unfold within in *. rewrite Eov. replace (- dval v - sinh (dval x)) with (- (dval v - - sinh (dval x))) by ring. now rewrite Rabs_Ropp.
Qed.
Lemma sinh_over x : is_number x -> 711 <= dval x -> returns (fun n => m_sinh dbl n x) dinf.
Proof.
  intros Hx L. destruct (sinh_pos x Hx ltac:(lra)) as (v & Rv & [[-> _]|[_ [C _]]]); [|lra]. eapply ret_ext; [|exact Rv]. intros n. apply sinh_nonneg; [exact Hx|lra].
Qed.
Lemma sinh_over_neg x : is_number x -> dval x <= -711 -> returns (fun n => m_sinh dbl n x) (S754_infinity true).
Proof.
  intros Hx L. destruct (dopp_ok x Hx) as [Ho Eo]. rewrite <- (opp_opp x). apply (sinh_odd_double _ dinf). apply sinh_over; [exact Ho|lra].
Qed.
Lemma sinh_between x : is_number x -> 710 < Rabs (dval x) < 711 -> exists v, returns (fun n => m_sinh dbl n x) v /\
  (v = S754_infinity (Rlt_bool (dval x) 0) \/ (is_number v /\ within (18 / 10 ^ 8 * Rabs (dval x) * cosh (dval x)) (dval v) (sinh (dval x)))).
Proof.
  revert x. apply (by_sign (fun x => 710 < Rabs (dval x) < 711 -> exists v, returns (fun n => m_sinh dbl n x) v /\
   (v = S754_infinity (Rlt_bool (dval x) 0) \/ (is_number v /\ within (18 / 10 ^ 8 * Rabs (dval x) * cosh (dval x)) (dval v) (sinh (dval x)))))).
  - intros x Hx L B. rewrite Rabs_right in * by lra. destruct (sinh_pos x Hx L) as (v & Rv & C). exists v. split; [eapply ret_ext; [|exact Rv]; intros n; now apply sinh_nonneg|].
    destruct C as [[-> C]|[Hv (_ & t & Pt & Et & Ht)]]; [left; rewrite Rlt_bool_false by lra; reflexivity|right]. split; [exact Hv|]. rewrite Et.
    pose proof (sinh_arg t (dval x) _ Pt L Ht ltac:(lra)) as S. unfold within. eapply Rle_trans; [exact S|].
    assert (0 <= dval x * cosh (dval x)) by (apply Rmult_le_pos; [exact L|pose proof (cosh_1 (dval x)); lra]). lra.
  - intros x Hx IH B. destruct (dopp_ok x Hx) as [Ho Eo]. rewrite Eo, Rabs_Ropp, cosh_neg, sinh_neg in IH. destruct (IH B) as (v & Rv & C).
    exists (nopp dbl v). split; [rewrite <- (opp_opp x); now apply sinh_odd_double|]. destruct C as [-> |[Hv W]]; [left|right].
    + change (nopp dbl (S754_infinity (Rlt_bool (- dval x) 0))) with (S754_infinity (negb (Rlt_bool (- dval x) 0))). f_equal.
      destruct (Rle_or_lt 0 (dval x)) as [L|L].
      * rewrite (Rabs_right (dval x)) in B by lra. rewrite Rlt_bool_true, Rlt_bool_false by lra. reflexivity.
      * rewrite Rlt_bool_false, Rlt_bool_true by lra. reflexivity.
    + destruct (dopp_ok v Hv) as [Hov Eov]. split; [exact Hov|].
      unfold within in *. rewrite Eov. replace (- dval v - sinh (dval x)) with (- (dval v - - sinh (dval x))) by ring. now rewrite Rabs_Ropp.
Qed.
Lemma sinh_tiny x : is_number x -> Rabs (dval x) < 1 / 1000 -> returns (fun n => m_sinh dbl n x) x.
Proof.
  revert x. apply (by_sign (fun x => Rabs (dval x) < 1 / 1000 -> returns (fun n => m_sinh dbl n x) x)).
  - intros x Hx L B. rewrite Rabs_right in B by lra. exists 1%nat. intros [|k] Hk; [lia|]. rewrite sinh_nonneg by assumption. cbn [sinh_helper]. rewrite td_eq. cbn [obind]. rewrite (proj2 (lt_td x Hx)) by lra. reflexivity.
  - intros x Hx IH B. destruct (dopp_ok x Hx) as [Ho Eo]. rewrite Eo, Rabs_Ropp in IH. apply sinh_odd_double in IH; [|exact B]. now rewrite !opp_opp in IH.
Qed.

(** ** cosh *)
Lemma cosh_even n x : m_cosh dbl n (nopp dbl x) = m_cosh dbl n x.
Proof.
  unfold m_cosh. rewrite sinh_opp. destruct (m_sinh dbl n x) as [s| |]; cbn [obind]; [|reflexivity|reflexivity].
  replace (square dbl (nopp dbl s)) with (square dbl s) by (destruct s as [[]|[]| |[] m e]; reflexivity). reflexivity.
Qed.
Lemma root_close g c w : 0 < g -> 0 < c -> Rabs (g * g - w) <= 1000001 / 1000000000 * (g * g) -> Rabs (w - c * c) <= / 10 ^ 9 * (c * c) -> Rabs (g - c) <= 51 / 100000 * c.
Proof.
  intros Pg Pc H1 H2. apply Rabs_le_inv in H1, H2. assert (0 < g * g) by nra. assert (0 < c * c) by nra.
  assert (g * g <= (1002 / 1000 * c) * (1002 / 1000 * c)) as U by lra. assert ((999 / 1000 * c) * (999 / 1000 * c) <= g * g) as L by lra.
  apply sq_le in U; [|lra]. apply sq_le in L; [|lra].
  assert (g * g - c * c <= 10052 / 10000000 * (c * c)) as D1 by lra. assert (c * c - g * g <= 10052 / 10000000 * (c * c)) as D2 by lra.
  apply Rabs_le. split.
  - apply Rnot_lt_le. intros C. assert ((c - g) * (c + g) <= 10052 / 10000000 * (c * c)) as D by lra.
    assert (51 / 100000 * c * (1999 / 1000 * c) <= (c - g) * (c + g)) by (apply Rmult_le_compat; lra). lra.
  - apply Rnot_lt_le. intros C. assert ((g - c) * (g + c) <= 10052 / 10000000 * (c * c)) as D by lra.
    assert (51 / 100000 * c * (1999 / 1000 * c) <= (g - c) * (g + c)) by (apply Rmult_le_compat; lra). lra.
Qed.
Lemma sinh_half t : 0 <= t <= 355001 / 1000 -> 0 <= sinh t * sinh t <= 4 / 10 * big.
Proof.
  intros Ht. pose proof (sinh_lower t ltac:(lra)). split; [apply Rmult_le_pos; lra|]. assert (sinh t <= exp t / 2) as E by (unfold sinh; pose proof (exp_pos (- t)); lra).
  assert (sinh t * sinh t <= exp t / 2 * (exp t / 2)) as M by (apply Rmult_le_compat; lra). replace (exp t / 2 * (exp t / 2)) with (exp (t + t) / 4) in M by (rewrite exp_plus; field).
  assert (exp (t + t) <= exp 710 * exp (/ 500)) as F. { rewrite <- exp_plus. apply exp_mono. lra. }
  pose proof (exp_small (/ 500) ltac:(lra)) as S. pose proof exp_710_up as U. rewrite big_1025 in U.
  assert (exp 710 * exp (/ 500) <= 3 / 4 * (2 * big) * (101 / 100)) as N.
  { apply Rmult_le_compat; [left; apply exp_pos|left; apply exp_pos|exact U|]. eapply Rle_trans; [exact S|]. lra. }
  pose proof big_pos. lra.
Qed.
Lemma sinh_half_over t : 355999 / 1000 <= t -> big <= sinh t * sinh t.
Proof.
  intros Ht. assert (exp (- t) <= / 1000 * exp t) as N.
  { assert (exp (- t) <= 1) by (rewrite <- exp_0; apply exp_mono; lra). pose proof (exp_ineq1_le t). assert (1 <= / 1000 * exp t); [|lra].
    assert (exp 100 <= exp t) by (apply exp_mono; lra). assert (1 + 99 <= exp 99) by (apply exp_ineq1_le). replace (exp 100) with (exp (50 + 50)) in * by (f_equal; lra). rewrite exp_plus in *.
    pose proof (exp_ineq1_le 50). assert (51 * 51 <= exp 50 * exp 50) by (apply Rmult_le_compat; lra). lra. }
  pose proof (exp_pos t). assert (499 / 1000 * exp t <= sinh t) as L by (unfold sinh; lra).
  assert (499 / 1000 * exp t * (499 / 1000 * exp t) <= sinh t * sinh t) as M by (apply Rmult_le_compat; lra).
  replace (499 / 1000 * exp t * (499 / 1000 * exp t)) with (499 * 499 / 1000000 * exp (t + t)) in M by (rewrite exp_plus; field).
  assert (exp 711 * exp (998 / 1000) <= exp (t + t)) as E. { rewrite <- exp_plus. apply exp_mono. lra. }
  pose proof (exp_ineq1_le (998 / 1000)) as S. pose proof exp_711_low as U. rewrite big_1025 in U. pose proof big_pos.
  assert (22 / 10 * big * (1998 / 1000) <= exp 711 * exp (998 / 1000)) by (apply Rmult_le_compat; lra). lra.
Qed.
Lemma cosh_double x : is_number x -> Rabs (dval x) <= 355 ->
  exists v, returns (fun n => m_cosh dbl n x) v /\ is_number v /\ 0 < dval v /\ within ((6 / 10000 + 2 / 10 ^ 7 * Rabs (dval x)) * cosh (dval x)) (dval v) (cosh (dval x)).
Proof.
  revert x. apply (by_sign (fun x => Rabs (dval x) <= 355 ->
    exists v, returns (fun n => m_cosh dbl n x) v /\ is_number v /\ 0 < dval v /\ within ((6 / 10000 + 2 / 10 ^ 7 * Rabs (dval x)) * cosh (dval x)) (dval v) (cosh (dval x)))).
  - intros x Hx L B. rewrite Rabs_right in * by lra. destruct (sinh_pos x Hx L) as (s & Rs & [[_ C]|[Hs (_ & t & Pt & Et & Ht)]]); [lra|].
    pose proof (sinh_arg t (dval x) _ Pt L Ht ltac:(lra)) as SA. apply Rabs_le_inv in Ht. set (X := dval x) in *.
    destruct (sinh_half t ltac:(lra)) as [S0 S1]. set (Q := sinh t * sinh t) in *. pose proof u_pos as Hu.
    destruct (dmul_ok s s Hs Hs) as [Hq Eq]. { rewrite Et. fold Q. apply max_1023. rewrite Rabs_right by lra. unfold big in S1. change 1024%Z with (1 + 1023)%Z in S1. rewrite bpow_plus in S1. change (bpow radix2 1) with 2 in S1. pose proof (bpow_gt_0 radix2 1023). lra. }
    rewrite Et in Eq. fold Q in Eq. pose proof (arg_err Q) as E1. rewrite <- Eq, (Rabs_right Q) in E1 by lra. fold (square dbl s) in Hq, Eq, E1. set (q := dval (square dbl s)) in *.
    assert (0 <= q) as Pq by (rewrite Eq; now apply rnd_pos). apply Rabs_le_inv in E1.
    assert (u * Q <= / 10 ^ 10 * Q) as U1 by (apply Rmult_le_compat_r; [lra|unfold u; lra]).
    destruct (dint_ok 1 eq_refl) as [H1 V1].
    destruct (dadd_ok (nint dbl 1) (square dbl s) H1 Hq) as [Hw Ew]. { rewrite V1. fold q. apply max_1023. rewrite Rabs_right by lra. unfold big in S1. change 1024%Z with (1 + 1023)%Z in S1. rewrite bpow_plus in S1. change (bpow radix2 1) with 2 in S1.
      assert (8 <= bpow radix2 1023) by (apply (bpow_le radix2 3 1023); lia). lra. }
    rewrite V1 in Ew. fold q in Ew. pose proof (arg_err (1 + q)) as E2. rewrite <- Ew, (Rabs_right (1 + q)) in E2 by lra. apply Rabs_le_inv in E2.
    set (w := nadd dbl (nint dbl 1) (square dbl s)) in *.
    assert (u * (1 + q) <= / 10 ^ 10 * (1 + q)) as U2 by (apply Rmult_le_compat_r; [lra|unfold u; lra]).
    assert (cosh t * cosh t = 1 + Q) as EC by (pose proof (cosh_sq t) as C; unfold Q; simpl in C; lra). pose proof (cosh_1 t) as C1.
    assert (Rabs (dval w - cosh t * cosh t) <= / 10 ^ 9 * (cosh t * cosh t)) as EW by (rewrite EC; apply Rabs_le; lra).
    destruct (sqrt_double_ok w Hw) as (g & Rg & Hg & Pg & Eg); [apply Rabs_le_inv in EW; rewrite EC in EW; lra|].
    pose proof (root_close (dval g) (cosh t) (dval w) Pg ltac:(lra) Eg EW) as RC. exists g. split.
    { unfold m_cosh. eapply ret_bind; [eapply ret_ext; [|exact Rs]; intros n; now apply sinh_nonneg|]. exact Rg. }
    split; [exact Hg|]. split; [exact Pg|].
    pose proof (hyp_lip (sinh t) (sinh X)) as HL. rewrite <- !cosh_sq in HL. pose proof (cosh_1 X) as CX. rewrite !sqrt_pow2 in HL by lra.
    assert (0 <= X * cosh X) by (apply Rmult_le_pos; lra). apply Rabs_le_inv in RC.
    assert (Rabs (cosh t - cosh X) <= 1002 / 1000 * (171 / 10 ^ 9 * X * cosh X)) as D by lra. apply Rabs_le_inv in D. unfold within. apply Rabs_le.
    assert (X * cosh X <= 355 * cosh X) by (apply Rmult_le_compat_r; lra). lra.
  - intros x Hx IH B. destruct (dopp_ok x Hx) as [Ho Eo]. rewrite Eo, Rabs_Ropp, cosh_neg in IH. destruct (IH B) as (v & Rv & W). exists v. split; [|exact W].
    eapply ret_ext; [|exact Rv]. intros n. symmetry. apply cosh_even.
Qed.
Lemma sinh_more n : forall k x w, sinh_helper dbl n x = Value w -> (n <= k)%nat -> sinh_helper dbl k x = Value w.
Proof.
  induction n as [|n IH]; intros k x w H Hk; [discriminate|]. destruct k as [|k]; [lia|]. cbn [sinh_helper] in *. rewrite td_eq in *. cbn [obind] in *.
  destruct (n_lt dbl x td); [exact H|]. destruct (ndiv dbl x (nint dbl 3)) as [y| |]; try discriminate. cbn [obind] in *.
  destruct (sinh_helper dbl n y) as [a| |] eqn:E; try discriminate. rewrite (IH k y a E) by lia. exact H.
Qed.
Lemma sinh_defined n : forall x, sinh_helper dbl n x <> Undefined.
Proof.
  induction n as [|n IH]; intros x; [discriminate|]. cbn [sinh_helper]. rewrite td_eq. cbn [obind]. destruct (n_lt dbl x td); [discriminate|].
  change (ndiv dbl x (nint dbl 3)) with (Value (SFdiv 53 1024 x (nint dbl 3))). cbn [obind]. specialize (IH (SFdiv 53 1024 x (nint dbl 3))).
  destruct (sinh_helper dbl n (SFdiv 53 1024 x (nint dbl 3))); cbn [obind]; [discriminate|congruence|discriminate].
Qed.
Lemma cosh_over x : is_number x -> 356 <= Rabs (dval x) -> runs_forever (fun n => m_cosh dbl n x).
Proof.
  revert x. apply (by_sign (fun x => 356 <= Rabs (dval x) -> runs_forever (fun n => m_cosh dbl n x))).
  - intros x Hx L B n. rewrite Rabs_right in B by lra. destruct (sinh_pos x Hx L) as (s & [k Rs] & C). unfold m_cosh. rewrite sinh_nonneg by assumption.
    destruct (sinh_helper dbl n x) as [w| |] eqn:E; cbn [obind]; [|exfalso; now apply (sinh_defined n x)|reflexivity].
    assert (w = s) as ->. { specialize (Rs (n + k)%nat ltac:(lia)). rewrite (sinh_more n (n + k) x w E) in Rs by lia. congruence. }
    assert (square dbl s = dinf) as ->.
    { destruct C as [[-> _]|[Hs (_ & t & Pt & Et & Ht)]]; [reflexivity|]. apply Rabs_le_inv in Ht. pose proof (sinh_lower t Pt).
      apply mul_over; try assumption; rewrite Et; try lra. apply big_up, sinh_half_over.
      destruct (Rle_or_lt (dval x) 1000) as [L1|L1]; lra. }
    apply sqrt_zero_inf. auto.
  - intros x Hx IH B n. destruct (dopp_ok x Hx) as [Ho Eo]. rewrite Eo, Rabs_Ropp in IH. rewrite <- cosh_even. now apply IH.
Qed.
Lemma cosh_special x : is_double x -> ~ is_number x -> runs_forever (fun n => m_cosh dbl n x).
Proof. intros Hd Hn n. unfold m_cosh. now rewrite sinh_special. Qed.
Lemma sinh_edge x : is_number x -> 710 < Rabs (dval x) < 711 -> exists v, returns (fun n => m_sinh dbl n x) v /\
  ((v = S754_infinity false /\ 0 < dval x) \/ (v = S754_infinity true /\ dval x < 0) \/
   (is_number v /\ within (18 / 10 ^ 8 * Rabs (dval x) * cosh (dval x)) (dval v) (sinh (dval x)))).
Proof.
  intros Hx B. destruct (sinh_between x Hx B) as (v & Rv & C). exists v. split; [exact Rv|]. destruct C as [-> |C]; [|tauto].
  destruct (Rlt_bool_spec (dval x) 0) as [L|L]; [right; left; now split|left]. split; [reflexivity|]. rewrite Rabs_right in B by lra. lra.
Qed.
