(** Code that copies no elements. *)
From iris.proofmode Require Import tactics.
From Verif Require Import SLTac Hist.

Section copies.
  Context {C : Type}.
  (** copies no elements *)
  Definition no_copy {A} (f : M C A) : Prop :=
    ∀ m, match f m with Ok _ m' => corc m' = corc m | Exn e _ => e = BadAlloc | _ => True end.
  Lemma nc_bind {A B} (f : M C A) (k : A → M C B) : no_copy f → (∀ a, no_copy (k a)) → no_copy (bind f k).
  Proof.
    intros Hf Hk m. unfold bind. specialize (Hf m). destruct (f m) as [a m'| | |]; [|done..].
    specialize (Hk a m'). destruct (k a m'); [congruence|done..].
  Qed.
  Lemma nc_ret {A} (a : A) : no_copy (ret a).
  Proof. done. Qed.
  Lemma nc_ub {A} : no_copy (A:=A) ub.
  Proof. done. Qed.
  Lemma nc_load l : no_copy (load l).
  Proof. intros m. unfold load. by destruct (blk m !! l). Qed.
  Lemma nc_store l c : no_copy (store l c).
  Proof. intros m. unfold store. by destruct (blk m !! l). Qed.
  Lemma nc_free l : no_copy (free l).
  Proof. intros m. unfold free. by destruct (blk m !! l). Qed.
  Lemma nc_alloc c : no_copy (alloc c).
  Proof. intros m. unfold alloc. by destruct (aorc m) as [|[] ?]. Qed.
End copies.
Ltac nc := repeat first
  [ apply nc_ret | apply nc_ub | apply nc_load | apply nc_store | apply nc_free | apply nc_alloc
  | apply nc_bind; [|intros ?] | progress cbv zeta | case_match | case_decide ].
