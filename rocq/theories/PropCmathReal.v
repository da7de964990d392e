(** C65-C70: <cmath> in exact arithmetic (the numbers are the reals; only the
    algorithm and its constants, not the rounding of double). *)
From Verif Require Import ModelCmath SpecCmath CmathBounds CmathReal CmathLog CmathSin CmathExp CmathAtan.
From Coq Require Import ZArith Reals Lra.
Open Scope R_scope.

(** C65 *)
Theorem C65_pow_is_power : forall (b : R) (n : Z),
  (int_min < n <= int_max)%Z -> ((n < 0)%Z -> b <> 0) ->
  returns (fun k => m_pow exact k b n) (powerRZ b n).
Proof. exact pow_ok. Qed.
Print Assumptions C65_pow_is_power.
Theorem C65_pow_zero_negative : forall n : Z, (int_min < n < 0)%Z ->
  exists d, forall k, (d <= k)%nat -> m_pow exact k 0 n = Undefined.
Proof. exact pow_zero. Qed.
Print Assumptions C65_pow_zero_negative.
(** the property does not extend to INT_MIN: its negation overflows *)
Theorem C65_pow_int_min_refuted : forall (b : R) k, (0 < k)%nat -> m_pow exact k b int_min = Undefined.
Proof. exact (pow_min exact). Qed.
Print Assumptions C65_pow_int_min_refuted.
Example C65_example : (int_min < -3 <= int_max)%Z /\ powerRZ 2 (-3) = 1 / 8.
Proof. split; [easy|]. simpl. field. Qed.

(** C66. Missing: rounding (see PropCmathDouble), and 0. *)
Theorem C66_sqrt_exact_partial : forall x : R, 0 < x ->
  exists g, returns (fun n => m_sqrt exact n x) g /\ 0 < g /\ (g = 1 \/ sqrt x <= g) /\
    Rabs (g * g - x) < 1 / 1000 * (g * g).
Proof. exact sqrt_ok. Qed.
Print Assumptions C66_sqrt_exact_partial.
Theorem C66_sqrt_close_partial : forall x g : R, 0 < x -> 0 < g ->
  Rabs (g * g - x) < 1 / 1000 * (g * g) -> Rabs (g - sqrt x) <= 6 / 10000 * sqrt x.
Proof. exact sqrt_rel. Qed.
Print Assumptions C66_sqrt_close_partial.
Theorem C66_sqrt_exact_zero_refuted : runs_forever (fun n => m_sqrt exact n 0).
Proof. exact sqrt_zero. Qed.
Print Assumptions C66_sqrt_exact_zero_refuted.
Theorem C66_sqrt_exact_negative : forall x : R, x < 0 -> never_returns (fun n => m_sqrt exact n x).
Proof. exact sqrt_negative. Qed.
Print Assumptions C66_sqrt_exact_negative.
Example C66_example : returns (fun n => m_sqrt exact n 3) (97 / 56).
Proof. exact sqrt_3. Qed.

(** C67. Missing: the rounding of double. *)
Theorem C67_decimal_exists : forall x : R, 0 < x -> exists m e, 1 <= m < 10 /\ x = m * powerRZ 10 e.
Proof. exact decimal_exists. Qed.
Print Assumptions C67_decimal_exists.
Theorem C67_mantissa_partial : forall (m : R) (e : Z), 1 <= m < 10 ->
  returns (fun n => mantissa exact n (m * powerRZ 10 e)) m.
Proof. exact mant_ok. Qed.
Print Assumptions C67_mantissa_partial.
Theorem C67_exponent_partial : forall (m : R) (e : Z), 1 <= m < 10 -> (int_min <= e <= int_max)%Z ->
  returns (fun n => exponent exact n (m * powerRZ 10 e)) e.
Proof. exact expo_ok. Qed.
Print Assumptions C67_exponent_partial.
Theorem C67_log_partial : forall (m : R) (e : Z), 1 <= m < 10 -> (int_min <= e <= int_max)%Z ->
  exists v, returns (fun n => m_log exact n (m * powerRZ 10 e)) v /\
    within (11 / 10000 + 71 / 10 ^ 10 * IZR (Z.abs e)) v (ln (m * powerRZ 10 e)).
Proof. exact log_ok. Qed.
Print Assumptions C67_log_partial.
Example C67_example : 1 <= 25 / 10 < 10 /\ 25 / 10 * powerRZ 10 3 = 2500.
Proof. split; [lra|]. simpl. lra. Qed.

(** C68 *)
Theorem C68_sin : forall x : R,
  exists v, returns (fun n => m_sin exact n x) v /\ within (17 / 10 ^ 8 * (Rabs x + 4)) v (sin x).
Proof. exact sin_ok. Qed.
Print Assumptions C68_sin.
Theorem C68_sin_positive : forall x : R, 0 <= x ->
  exists v, returns (fun n => m_sin exact n x) v /\ within (17 / 10 ^ 8 * x) v (sin x).
Proof. exact sin_pos_ok. Qed.
Print Assumptions C68_sin_positive.
Theorem C68_cos : forall x : R,
  exists v, returns (fun n => m_cos exact n x) v /\ within (17 / 10 ^ 8 * (Rabs x + 6)) v (cos x).
Proof. exact cos_ok. Qed.
Print Assumptions C68_cos.
Theorem C68_sinh : forall x : R,
  exists v, returns (fun n => m_sinh exact n x) v /\ within (17 / 10 ^ 8 * Rabs x * cosh x) v (sinh x).
Proof. exact sinh_ok. Qed.
Print Assumptions C68_sinh.
Theorem C68_cosh : forall x : R,
  exists v, returns (fun n => m_cosh exact n x) v /\
    within ((11 / 10000 + 2 / 10 ^ 7 * Rabs x) * cosh x) v (cosh x).
Proof. exact cosh_ok. Qed.
Print Assumptions C68_cosh.
Example C68_example : exists v, returns (fun n => m_sin exact n 1) v /\ within (17 / 10 ^ 8) v (sin 1).
Proof.
  destruct (sin_pos_ok 1) as (v & Hv & Hw); [lra|]. exists v. split; [exact Hv|]. rewrite Rmult_1_r in Hw. exact Hw.
Qed.

(** C69. Missing: the rounding of double. *)
Theorem C69_split_partial : forall x : R, Rabs x < 2147483647 ->
  exists n f, nearest exact x = Value (IZR n) /\ fraction exact x = Value f /\ IZR n + f = x /\
    -1 < f <= 1 / 2 /\ (- int_max < n <= int_max)%Z.
Proof. exact split_ok. Qed.
Print Assumptions C69_split_partial.
Theorem C69_exp_partial : forall x : R, Rabs x < 2147483647 ->
  exists v, returns (fun n => m_exp exact n x) v /\ within (8 / 10 ^ 5 * exp x) v (exp x).
Proof. exact exp_ok. Qed.
Print Assumptions C69_exp_partial.
Example C69_example : Rabs (-17 / 10) < 2147483647.
Proof. rewrite Rabs_left; lra. Qed.

(** C70 in exact arithmetic; on doubles, see PropDoubleAtan.v. *)
Theorem C70_atan_exact : forall x : R,
  exists v, returns (fun n => m_atan exact n x) v /\ within (54 / 10 ^ 6) v (atan x) /\
    (0 < x -> 0 < v < hpi) /\ (x < 0 -> - hpi < v < 0) /\ (x = 0 -> v = 0).
Proof. exact atan_ok. Qed.
Print Assumptions C70_atan_exact.
Theorem C70_atan_odd_exact : forall x v : R,
  returns (fun n => m_atan exact n x) v -> returns (fun n => m_atan exact n (- x)) (- v).
Proof. exact atan_odd. Qed.
Print Assumptions C70_atan_odd_exact.
Theorem C70_atan2_exact : forall y x t : R, angle t x y ->
  exists v, returns (fun n => m_atan2 exact n y x) v /\ within (55 / 10 ^ 6) v t /\
    (0 < y -> 0 < v) /\ (y < 0 -> v < 0) /\ (0 < x -> Rabs v < hpi) /\ (x < 0 -> cpi - hpi < Rabs v <= cpi).
Proof. exact atan2_ok. Qed.
Print Assumptions C70_atan2_exact.
Example C70_example : angle (PI / 2) 0 2.
Proof.
  split; [pose proof PI_RGT_0; lra|]. exists 2. split; [lra|]. rewrite cos_PI2, sin_PI2. lra.
Qed.
