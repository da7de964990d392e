(** The number of calls of sin and sinh *)
From stdpp Require Import base tactics.
From Coq Require Import ZArith Reals Lra Lia Psatz.
From Coq.Floats Require Import SpecFloat.
From Flocq Require Import Core.
From Verif Require Import ModelCmath SpecCmath ModelCmathCost CmathBounds CmathReal CmathSin DoubleArith DoubleRound DoubleSqrt DoubleNear DoubleLog DoubleAtan DoubleSin DoubleSinh.
Open Scope R_scope.

Lemma calls_S n x y : ndiv dbl x (nint dbl 3) = Value y -> helper_calls dbl (S n) x =
  if n_lt dbl x td then Value 1%Z else obind (helper_calls dbl n y) (fun i => Value (1 + i + i)%Z).
Proof.
  intros E. cbn [helper_calls]. rewrite td_eq. cbn [obind]. destruct (n_lt dbl x td); [reflexivity|]. rewrite E. cbn [obind].
  destruct (helper_calls dbl n y); reflexivity.
Qed.
(** a call makes 2^(d+1)-1 calls, for a depth d *)
Lemma helper_calls_double n : forall x, is_number x -> 0 <= dval x < 1 / 1000 * 2 ^ n ->
  exists d : nat, (d <= n)%nat /\ (forall k, (n < k)%nat -> helper_calls dbl k x = Value (2 ^ (Z.of_nat d + 1) - 1)%Z) /\
    (forall k, 1 / 1000 * (3 + / 10 ^ 9) ^ k <= dval x -> (k < d)%nat) /\ (forall k, dval x <= 1 / 1000 * (3 - / 10 ^ 9) ^ k -> (d <= S k)%nat).
Proof.
  pose proof u_pos as Hu.
  assert (forall n x, is_number x -> 0 <= dval x < 1 / 1000 -> exists d : nat, (d <= n)%nat /\ (forall k, (n < k)%nat -> helper_calls dbl k x = Value (2 ^ (Z.of_nat d + 1) - 1)%Z) /\
    (forall k, 1 / 1000 * (3 + / 10 ^ 9) ^ k <= dval x -> (k < d)%nat) /\ (forall k, dval x <= 1 / 1000 * (3 - / 10 ^ 9) ^ k -> (d <= S k)%nat)) as Base.
  { clear n. intros n x Hx Bx. exists 0%nat. split; [lia|]. split; [|split; [|lia]].
    - intros [|k] Hk; [lia|]. cbn [helper_calls]. rewrite td_eq. cbn [obind]. rewrite (proj2 (lt_td x Hx)) by lra. reflexivity.
    - intros k Hk. assert (1 <= (3 + / 10 ^ 9) ^ k) by (apply pow_R1_Rle; lra). lra. }
  induction n as [|n IH]; intros x Hx Bx.
  { apply Base; [exact Hx|]. simpl in Bx. lra. }
  destruct (Rlt_or_le (dval x) (1 / 1000)) as [L|L]; [apply Base; [exact Hx|lra]|].
  simpl pow in Bx. destruct (third_dbl x Hx L) as (y & Ey & Hy & Vy). apply Rabs_le_inv in Vy.
  assert (u * dval x <= / 10 ^ 10 * dval x) as Hux by (apply Rmult_le_compat_r; [lra|unfold u; lra]).
  destruct (IH y Hy) as (d & Hd & C & Lo & Up); [lra|]. exists (S d). split; [lia|]. split; [|split].
  - intros [|k] Hk; [lia|]. rewrite (calls_S k x y Ey). replace (n_lt dbl x td) with false.
    + rewrite C by lia. cbn [obind]. f_equal. replace (Z.of_nat (S d) + 1)%Z with (Z.of_nat d + 1 + 1)%Z by lia. rewrite (Z.pow_add_r 2 (Z.of_nat d + 1)) by lia. lia.
    + destruct (n_lt dbl x td) eqn:F; [|reflexivity]. apply (lt_td x Hx) in F. lra.
  - intros [|k] Hk; [lia|]. apply -> Nat.succ_lt_mono. apply Lo. rewrite <- tech_pow_Rmult in Hk. assert (0 < (3 + / 10 ^ 9) ^ k) by (apply pow_lt; lra). set (p := (3 + / 10 ^ 9) ^ k) in *. lra.
  - intros [|k] Hk.
    + assert (d <= 0)%nat; [|lia]. destruct d as [|d]; [lia|]. exfalso. simpl in Hk.
      assert (dval y < 1 / 1000) as Ly by lra. specialize (C (S n) ltac:(lia)). cbn [helper_calls] in C. rewrite td_eq in C. cbn [obind] in C. rewrite (proj2 (lt_td y Hy)) in C by lra.
      injection C as C. assert (2 ^ (Z.of_nat (S d) + 1) >= 4)%Z; [|lia]. replace (Z.of_nat (S d) + 1)%Z with (Z.of_nat d + 2)%Z by lia. rewrite Z.pow_add_r by lia. assert (0 < 2 ^ Z.of_nat d)%Z by lia. lia.
    + apply le_n_S. apply Up. rewrite <- tech_pow_Rmult in Hk. assert (0 < (3 - / 10 ^ 9) ^ k) by (apply pow_lt; lra). set (p := (3 - / 10 ^ 9) ^ k) in *. lra.
Qed.
Definition counts (c : Z) (x : R) : Prop :=
  (forall k : nat, 1 / 1000 * (3 + / 10 ^ 9) ^ k <= x -> (2 ^ (Z.of_nat k + 2) - 1 <= c)%Z) /\
  (forall k : nat, x <= 1 / 1000 * (3 - / 10 ^ 9) ^ k -> (c <= 2 ^ (Z.of_nat k + 2) - 1)%Z).
Lemma calls_pos x : is_number x -> 0 <= dval x -> exists c, returns (fun n => helper_calls dbl n x) c /\ counts c (dval x).
Proof.
  intros Hx H0. pose proof (max_below x Hx) as M. rewrite Rabs_right in M by lra.
  destruct (helper_calls_double 1034 x Hx) as (d & _ & C & Lo & Up); [pose proof big_levels; lra|].
  exists (2 ^ (Z.of_nat d + 1) - 1)%Z. split; [exists 1035%nat; intros k Hk; apply C; lia|]. split; intros k Hk.
  - apply Lo in Hk. apply Z.sub_le_mono_r, Z.pow_le_mono_r; lia.
  - apply Up in Hk. apply Z.sub_le_mono_r, Z.pow_le_mono_r; lia.
Qed.
(** the count is of the calls that sin_helper and sinh_helper make: one returns
    with the fuel with which the other does *)
Lemma calls_sin n : forall x, (exists v, sin_helper dbl n x = Value v) <-> (exists c, helper_calls dbl n x = Value c).
Proof.
  induction n as [|n IH]; intros x; [now split; intros [v H]|]. cbn [sin_helper helper_calls]. rewrite td_eq. cbn [obind]. destruct (n_lt dbl x td); [split; eauto|].
  change (ndiv dbl x (nint dbl 3)) with (Value (SFdiv 53 1024 x (nint dbl 3))). cbn [obind]. specialize (IH (SFdiv 53 1024 x (nint dbl 3))).
  destruct (sin_helper dbl n (SFdiv 53 1024 x (nint dbl 3))), (helper_calls dbl n (SFdiv 53 1024 x (nint dbl 3))); cbn [obind]; split; intros [r H]; try discriminate; eauto.
  all: destruct IH as [I1 I2]; try (destruct (I1 (ex_intro _ _ eq_refl)); discriminate); destruct (I2 (ex_intro _ _ eq_refl)); discriminate.
Qed.
Lemma calls_sinh n : forall x, (exists v, sinh_helper dbl n x = Value v) <-> (exists c, helper_calls dbl n x = Value c).
Proof.
  induction n as [|n IH]; intros x; [now split; intros [v H]|]. cbn [sinh_helper helper_calls]. rewrite td_eq. cbn [obind]. destruct (n_lt dbl x td); [split; eauto|].
  change (ndiv dbl x (nint dbl 3)) with (Value (SFdiv 53 1024 x (nint dbl 3))). cbn [obind]. specialize (IH (SFdiv 53 1024 x (nint dbl 3))).
  destruct (sinh_helper dbl n (SFdiv 53 1024 x (nint dbl 3))), (helper_calls dbl n (SFdiv 53 1024 x (nint dbl 3))); cbn [obind]; split; intros [r H]; try discriminate; eauto.
  all: destruct IH as [I1 I2]; try (destruct (I1 (ex_intro _ _ eq_refl)); discriminate); destruct (I2 (ex_intro _ _ eq_refl)); discriminate.
Qed.
Lemma calls_sin_n n x : (exists v, m_sin dbl n x = Value v) <-> (exists c, sin_calls dbl n x = Value c).
Proof. unfold m_sin, sin_calls. rewrite h1_eq. cbn [obind]. apply calls_sin. Qed.
Lemma calls_sinh_n n x : (exists v, m_sinh dbl n x = Value v) <-> (exists c, sinh_calls dbl n x = Value c).
Proof.
  unfold m_sinh, sinh_calls. destruct (n_lt dbl x (nint dbl 0)); [|apply calls_sinh]. rewrite <- calls_sinh. destruct (sinh_helper dbl n (nopp dbl x)); split; intros [v H]; try discriminate; eauto; cbn [obind]; eauto.
Qed.
Lemma sin_calls_pos x : is_number x -> 0 <= dval x -> exists c, returns (fun n => sin_calls dbl n x) c /\ counts c (dval x).
Proof.
  intros Hx H0. destruct (calls_pos x Hx H0) as (c & Rc & C). exists c. split; [|exact C]. eapply ret_ext; [|exact Rc].
  intros n. unfold sin_calls. rewrite h1_eq. cbn [obind]. rewrite lt_zero, Rlt_bool_false by assumption. reflexivity.
Qed.
Lemma sin_calls_neg x : is_number x -> dval x < 0 -> exists c, returns (fun n => sin_calls dbl n x) c /\
  (forall k : nat, 1 / 1000 * (3 + / 10 ^ 9) ^ k <= - dval x -> (2 ^ (Z.of_nat k + 2) - 1 <= c)%Z).
Proof.
  intros Hx H0. destruct (dopp_ok x Hx) as [Ho Eo]. pose proof h1_pi as B1. assert (is_number h1) as Hh by apply h_num.
  assert (3 < dval h1 < 4) as Bh by (rewrite h1_val; lra).
  destruct (dadd_ok (nopp dbl x) h1 Ho Hh) as [Hy Ey]; [apply add_four; [exact Ho|lra]|]. rewrite Eo in Ey.
  assert (- dval x <= dval (nadd dbl (nopp dbl x) h1)) as LY. { rewrite Ey. rewrite <- Eo. rewrite <- (rnd_num _ Ho) at 1. apply rnd_le. lra. }
  destruct (calls_pos _ Hy ltac:(lra)) as (c & Rc & [C _]). exists c. split.
  - eapply ret_ext; [|exact Rc]. intros n. unfold sin_calls. rewrite h1_eq. cbn [obind]. rewrite lt_zero, Rlt_bool_true by assumption. reflexivity.
  - intros k Hk. apply C. lra.
Qed.
Lemma sinh_calls_all x : is_number x -> exists c, returns (fun n => sinh_calls dbl n x) c /\ counts c (Rabs (dval x)).
Proof.
  intros Hx. destruct (Rle_or_lt 0 (dval x)) as [L|L].
  - destruct (calls_pos x Hx L) as (c & Rc & C). exists c. rewrite Rabs_right by lra. split; [|exact C]. eapply ret_ext; [|exact Rc]. intros n. unfold sinh_calls. now rewrite lt_zero, Rlt_bool_false.
  - destruct (dopp_ok x Hx) as [Ho Eo]. destruct (calls_pos _ Ho ltac:(lra)) as (c & Rc & C). exists c. rewrite Rabs_left, <- Eo by exact L. split; [|exact C].
    eapply ret_ext; [|exact Rc]. intros n. unfold sinh_calls. now rewrite lt_zero, Rlt_bool_true.
Qed.
Definition e18 := S754_finite false 7812500000000000 7.
Lemma e18_ok : is_number e18 /\ dval e18 = 10 ^ 18.
Proof. split; [split; [vm_compute; reflexivity|exact I]|]. unfold dval, e18, powerRZ. simpl. lra. Qed.
Lemma sin_e18 : exists c, returns (fun n => sin_calls dbl n e18) c /\ (70 * 10 ^ 12 <= c)%Z.
Proof.
  destruct e18_ok as [H E]. destruct (sin_calls_pos e18 H) as (c & Rc & [C _]); [rewrite E; apply pow_le; lra|]. exists c. split; [exact Rc|].
  etransitivity; [|apply (C 44%nat)]; [vm_compute; discriminate|]. rewrite E.
  apply Rle_trans with (1 / 1000 * (30001 / 10000) ^ 44).
  - apply Rmult_le_compat_l; [lra|]. apply pow_incr. lra.
  - lra.
Qed.
