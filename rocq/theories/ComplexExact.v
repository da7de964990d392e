(** Scalar types: the rationals and the reals are exact; abs over the reals. *)
From iris.prelude Require Import prelude.
From Coq Require Import Qcanon.
From Verif Require Import Mem Hist ModelComplex SpecComplex ComplexProofs.

(** machine integers as long as nothing overflows; division only when exact *)
Definition Zarith : arith Z := Arith Z 0%Z 1%Z Z.add Z.sub Z.mul Z.div Z.opp Z.eqb.
Definition Qcarith : arith Qc := Arith Qc 0%Qc 1%Qc Qcplus Qcminus Qcmult Qcdiv Qcopp Qc_eq_bool.

Lemma Z_exact : exact_ring Zarith.
Proof. split; [exact InitialRing.Zth|]. exact Z.eqb_eq. Qed.
Lemma Qc_exact : exact_field Qcarith.
Proof.
  split.
  - destruct Qcft as [R1 R2 R3 R4]. split; [exact R1|exact R2| |]; simpl.
    + intros p q. unfold Qcdiv. by rewrite Qcmult_1_l.
    + intros p Hp. unfold Qcdiv. rewrite Qcmult_1_l. by apply R4.
  - intros x y. change (Qc_eq_bool x y = true ↔ x = y). split; [apply Qc_eq_bool_correct|]. intros ->. unfold Qc_eq_bool. 
by destruct (Qcanon.Qc_eq_dec y y) as [e|n].
Qed.
Lemma Qc_definite : definite Qcarith.
Proof.
  assert (∀ x : Qc, 0 <= x * x)%Qc as Hsq.
  { intros x. destruct (Qclt_le_dec x 0) as [H|H].
    - replace (x * x)%Qc with ((- x) * (- x))%Qc by ring.
      assert (0 <= - x)%Qc as H' by (apply Qclt_le_weak, Qcopp_le_compat in H; exact H).
      replace 0%Qc with (0 * - x)%Qc by ring. by apply Qcmult_le_compat_r.
    - replace 0%Qc with (0 * x)%Qc by ring. by apply Qcmult_le_compat_r. }
  assert (∀ x y : Qc, x * x + y * y = 0 → x = 0)%Qc as H.
  { intros x y H. assert (x * x = 0)%Qc as H0.
    { apply Qcle_antisym; [|apply Hsq]. rewrite -H. pose proof (Qcplus_le_compat _ _ _ _ (Qcle_refl (x * x)) (Hsq y)) as H'.
      by rewrite Qcplus_0_r in H'. }
    by apply Qcmult_integral in H0 as [|]. }
  intros x y Hn. simpl in *. split; [by eapply H|]. rewrite Qcplus_comm in Hn. by eapply H.
Qed.
