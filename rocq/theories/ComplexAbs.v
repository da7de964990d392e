(** abs of a complex number, over the reals. *)
From iris.prelude Require Import prelude.
From Verif Require Import Mem Hist ModelComplex SpecComplex ComplexProofs.
From Coq Require Import Reals Lra.
Open Scope R_scope.

Definition Rarith : arith R :=
  Arith R 0 1 Rplus Rminus Rmult Rdiv Ropp (λ x y, if Req_EM_T x y then true else false).
Lemma R_eqb x y : teqb Rarith x y = true ↔ x = y.
Proof. simpl. destruct (Req_EM_T x y); naive_solver. Qed.
Lemma R_exact : exact_field Rarith.
Proof.
  split; [|exact R_eqb]. destruct RealField.Rfield as [R1 R2 R3 R4]. split; [exact R1|exact R2| |]; simpl.
  - intros p q. unfold Rdiv. ring.
  - intros p Hp. unfold Rdiv. rewrite Rmult_1_l. by apply R4.
Qed.
Lemma R_definite : definite Rarith.
Proof. intros x y. simpl. intros H. split; nra. Qed.

Lemma abs_lemma x y : let s := Rmax (Rabs x) (Rabs y) in
  s ≠ 0 → s * sqrt (x / s * (x / s) + y / s * (y / s)) = sqrt (x * x + y * y).
Proof.
  intros s Hs. assert (0 <= s) as Hs0. { unfold s. pose proof (Rabs_pos x). pose proof (Rmax_l (Rabs x) (Rabs y)). lra. }
  replace (x / s * (x / s) + y / s * (y / s)) with ((x * x + y * y) / (s * s)) by (field; done).
  rewrite -{1}(sqrt_square s) //. rewrite -sqrt_mult_alt; [|nra]. f_equal. field. done.
Qed.
Lemma abs_ok (m : mem (R * R)) z v :
  mem_wf m → blk m !! z = Some v →
  yields (c_abs Rarith Rabs Rmax (λ x, ret (sqrt x)) z) (sqrt (v.1 * v.1 + v.2 * v.2)) m.
Proof.
  intros Hm Hz. exists m. split; [|done]. unfold c_abs.
  erewrite bind_ok; [|by apply real_ok]. erewrite bind_ok; [|by apply imag_ok].
  destruct (teqb Rarith _ _) eqn:E.
  - apply R_eqb in E. simpl in E. unfold ret. f_equal.
    pose proof (Rabs_pos (v.1)). pose proof (Rabs_pos (v.2)).
    pose proof (Rmax_l (Rabs (v.1)) (Rabs (v.2))). pose proof (Rmax_r (Rabs (v.1)) (Rabs (v.2))). rewrite E.
    destruct (Req_dec (v.1) 0) as [->|Hn]; [|apply Rabs_pos_lt in Hn; lra].
    destruct (Req_dec (v.2) 0) as [->|Hn]; [|apply Rabs_pos_lt in Hn; lra].
    replace (0 * 0 + 0 * 0) with 0 by ring. by rewrite sqrt_0.
  - unfold bind, ret. f_equal. apply abs_lemma. intros H. apply R_eqb in H. simpl in *. congruence.
Qed.
(** the square root is taken of a number between 1 and 2 *)
Lemma abs_arg x y : let s := Rmax (Rabs x) (Rabs y) in
  s ≠ 0 → 1 <= x / s * (x / s) + y / s * (y / s) <= 2.
Proof.
  intros s Hs. pose proof (Rabs_pos x) as Hx. pose proof (Rabs_pos y) as Hy.
  pose proof (Rmax_l (Rabs x) (Rabs y)) as H1. pose proof (Rmax_r (Rabs x) (Rabs y)) as H2. fold s in H1, H2.
  assert (∀ t, Rabs t <= s → t / s * (t / s) = (Rabs t / s)² ∧ 0 <= Rabs t / s <= 1) as Hq.
  { intros t Ht. pose proof (Rabs_pos t). split.
    - unfold Rdiv, Rsqr. pose proof (Rsqr_abs t) as E. unfold Rsqr in E. nra.
    - split; [apply Rmult_le_pos; [lra|left; apply Rinv_0_lt_compat; lra]|].
      apply (Rmult_le_reg_r s); [lra|]. unfold Rdiv. rewrite Rmult_assoc Rinv_l; lra. }
  destruct (Hq x H1) as [-> ?]. destruct (Hq y H2) as [-> ?]. unfold Rsqr.
  assert (Rabs x / s = 1 ∨ Rabs y / s = 1) as [E|E].
  { unfold s in *. destruct (Rle_dec (Rabs x) (Rabs y)) as [Hle|Hle].
    - rewrite Rmax_right // in Hs |- *. right. by field.
    - assert (Rabs y <= Rabs x) as Hle' by lra. rewrite Rmax_left // in Hs |- *. left. by field. }
  - rewrite E. nra.
  - rewrite E. nra.
Qed.
