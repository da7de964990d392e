(** Small tactics and derived rules for symbolic execution with [wp]. *)
From iris.proofmode Require Export environments tactics.
From Verif Require Export SL.

(** [wstep lem "H"]: execute the next call with specification [lem] of shape
    [pre -∗ (pre' -∗ Q r) -∗ wp ...]. *)
Ltac wbinds :=
  repeat lazymatch goal with
  | |- envs_entails _ (wp _ (bind _ _) _ _) => iApply wp_bind
  end.
(** unfold the head symbol of the program *)
Ltac whead t :=
  lazymatch t with
  | ?f _ => whead f
  | _ => t
  end.
Ltac wunfold :=
  lazymatch goal with
  | |- envs_entails _ (wp _ ?f _ _) => let h := whead f in unfold h
  end.
Tactic Notation "wbind" := wbinds.
Tactic Notation "wstep" open_constr(lem) constr(H) :=
  wbinds; iApply (lem with H); iIntros H.
Tactic Notation "wret" := wbinds; iApply wp_ret.

Section derived.
  Context {C : Type} (md : mode).
  Implicit Types R : exn → hprop C.

  Lemma wp_load' l (c : C) Q R :
    l ↦ c -∗ (l ↦ c -∗ Q c) -∗ wp md (load l) Q R.
  Proof. iIntros "H HQ". iApply wp_load. iFrame. Qed.
  Lemma wp_store' l (c c' : C) Q R :
    l ↦ c -∗ (l ↦ c' -∗ Q tt) -∗ wp md (store l c') Q R.
  Proof. iIntros "H HQ". iApply wp_store. iFrame. Qed.
  Lemma wp_free' l (c : C) Q R :
    l ↦ c -∗ (emp -∗ Q tt) -∗ wp md (free l) Q R.
  Proof. iIntros "H HQ". iApply wp_free. iFrame. by iApply "HQ". Qed.
  Lemma wp_new' (c : C) Q R :
    (∀ l, l ↦ c -∗ Q l) -∗ wp md (new c) Q R.
  Proof. iIntros "HQ". by iApply wp_new. Qed.
  Lemma wp_may_throw' Q R :
    mC md = false → Q tt -∗ wp md (may_throw (C:=C)) Q R.
  Proof. iIntros (H) "HQ". iApply wp_may_throw. iSplit; [|done]. iIntros (?). congruence. Qed.

  (** Loops that do not throw. *)
  Lemma wp_for_up (I : nat → hprop C) from n body Q R :
    (∀ i, from ≤ i < from + n → I i ⊢ wp md (body i) (λ _, I (S i)) (λ _, False)) →
    I from -∗ (I (from + n) -∗ Q tt) -∗ wp md (for_up from n body) Q R.
  Proof.
    iIntros (Hb) "HI HQ". iInduction n as [|n] "IH" forall (from Hb).
    - simpl. rewrite Nat.add_0_r. iApply wp_ret. by iApply "HQ".
    - simpl. iApply wp_bind. iApply (wp_wand with "[HI]").
      { iApply (Hb with "HI"). lia. }
      iSplit; [|by iIntros (?) "[]"]. iIntros (_) "HI".
      iApply ("IH" with "[%] HI").
      + intros i Hi. apply Hb. lia.
      + rewrite -Nat.add_succ_comm. done.
  Qed.

  (** Loops whose body may throw. *)
  Lemma wp_for_up_throw (I : nat → hprop C) (E : exn → hprop C) from n body Q R :
    (∀ i, from ≤ i < from + n → I i ⊢ wp md (body i) (λ _, I (S i)) E) →
    I from -∗ ((∀ e, E e -∗ R e) ∧ (I (from + n) -∗ Q tt)) -∗ wp md (for_up from n body) Q R.
  Proof.
    iIntros (Hb) "HI HQ". iInduction n as [|n] "IH" forall (from Hb).
    - simpl. rewrite Nat.add_0_r. iApply wp_ret. iDestruct "HQ" as "[_ HQ]". by iApply "HQ".
    - simpl. iApply wp_bind. iApply (wp_wand with "[HI]").
      { iApply (Hb with "HI"). lia. }
      iSplit.
      + iIntros (_) "HI". iApply ("IH" with "[%] HI").
        * intros i Hi. apply Hb. lia.
        * rewrite -Nat.add_succ_comm. done.
      + iDestruct "HQ" as "[HQ _]". iIntros (e) "HE". by iApply "HQ".
  Qed.
End derived.
