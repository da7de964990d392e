(** Histories with throwing elements: from single operations to histories. *)
From iris.proofmode Require Import tactics.
From Verif Require Import SLTac HistGen.
From Verif Require Export HistThrow.

(** the exceptions possible in a mode *)
Definition throws (md : mode) (e : exn) : Prop := e = BadAlloc ∧ mA md = true ∨ e = CopyThrow ∧ mC md = true.

Section sim.
  Context {C Op Out S Env : Type}.
  Context (step : S → Op → option (S * Out)) (run : Env → Op → M C (Env * Out)).
  Context (s0 : S) (env0 : Env) (gone : S → Prop) (ok : Op → Prop).
  Context (rep : Env → S → hprop C).

  Definition op_spec_any (md : mode) : Prop :=
    ∀ env s op s' o, ok op → step s op = Some (s', o) →
      rep env s ⊢ wp md (run env op) (λ eo, ⌞eo.2 = o⌟ ∗ rep eo.1 s') (λ e, ⌞throws md e⌟ ∗ rep env s).

  Lemma op_spec_any_no_copy md : op_spec_any md → mC md = false → op_spec step run ok rep md.
  Proof.
    intros H Hc env s op s' o Hok Hs. etrans; [by apply H|]. apply wp_mono; [done|].
    intros e. iIntros "[%Ht $]". iPureIntro. destruct Ht as [?|[_ ?]]; [done|congruence].
  Qed.

  (** a specification that allows less *)
  Lemma op_spec_any_less (step' : S → Op → option (S * Out)) md :
    op_spec_any md → (∀ s op r, step' s op = Some r → step s op = Some r) →
    ∀ env s op s' o, ok op → step' s op = Some (s', o) →
      rep env s ⊢ wp md (run env op) (λ eo, ⌞eo.2 = o⌟ ∗ rep eo.1 s') (λ e, ⌞throws md e⌟ ∗ rep env s).
  Proof. intros H Hs env s op s' o Hok Hst. apply H; auto. Qed.

  Lemma hist_sim_any md s env m evs s' env' m' :
    op_spec_any md →
    hist step run s env m evs s' env' m' →
    Forall (λ ev, ok ev.1) evs →
    good md m → rep env s (blk m) →
    accepts_any step s evs s' ∧
    (∀ op e, (op, Threw e) ∈ evs → throws md e) ∧
    good md m' ∧ rep env' s' (blk m').
  Proof.
    intros Hop. induction 1 as [|s env m op s1 o env1 o1 m1 evs s2 env2 m2 Hs Hr Hh IH
                                |s env m op [s1 o] e m1 evs s2 env2 m2 Hs Hr Hh IH]; intros Hok Hm HP.
    - split; [constructor|]. split; [|done]. intros op e H. by apply elem_of_nil in H.
    - apply Forall_cons_1 in Hok as [Hok1 Hok2].
      pose proof (wp_adequate _ _ _ _ _ _ (Hop _ _ _ _ _ Hok1 Hs) Hm HP) as Hw.
      rewrite Hr in Hw. destruct Hw as (Hm1 & Hw).
      destruct Hw as (h1 & h2 & Hb & _ & Ho & Hrep).
      apply hprop_affinely_pure_eq in Ho as [-> Ho]. rewrite left_id_L in Hb; subst h2.
      change (o1 = o) in Ho. subst o. specialize (IH Hok2 Hm1 Hrep) as (?&IH&?&?).
      split; [by econstructor|]. split; [|done]. intros op' e'. rewrite elem_of_cons. intros [?|?]; [done|by eapply IH].
    - apply Forall_cons_1 in Hok as [Hok1 Hok2].
      pose proof (wp_adequate _ _ _ _ _ _ (Hop _ _ _ _ _ Hok1 Hs) Hm HP) as Hw.
      rewrite Hr in Hw. destruct Hw as (Hm1 & Hw).
      destruct Hw as (h1 & h2 & Hb & _ & Ho & Hrep).
      apply hprop_affinely_pure_eq in Ho as [-> Ht]. rewrite left_id_L in Hb; subst h2.
      specialize (IH Hok2 Hm1 Hrep) as (?&IH&?&?).
      split; [by econstructor|]. split; [|done]. intros op' e'. rewrite elem_of_cons. intros [[= -> ->]|?]; [done|by eapply IH].
  Qed.

  Lemma refines_throwing_sim ao co :
    op_spec_any (Mode (bool_decide (¬ no_fail ao)) (bool_decide (¬ no_fail co))) →
    (emp ⊢ rep env0 s0) →
    (∀ env s, gone s → rep env s ⊢ emp) →
    refines_throwing step run s0 env0 gone ok ao co.
  Proof.
    intros Hop H0 Hgone evs s env m Hh Hok.
    pose proof (hist_sim_any _ _ _ _ _ _ _ _ Hop Hh Hok (good_mem0 ao co)) as Hs.
    feed specialize Hs.
    { apply (proj1 (hprop_entails_eq _ _) H0). by apply hprop_emp_eq. }
    destruct Hs as (Hacc & Hthr & Hm & Hrep). split; [done|]. split.
    { intros op e He. apply Hthr in He. unfold throws in He. simpl in He. by rewrite !bool_decide_eq_true in He. }
    split.
    - intros op Hokop [[s' o] Hst].
      pose proof (wp_adequate _ _ _ _ _ _ (Hop _ _ _ _ _ Hokop Hst) Hm Hrep) as Hw.
      destruct (run env op m); done.
    - intros Hg. apply (proj1 (hprop_entails_eq _ _) (Hgone _ _ Hg)) in Hrep.
      by apply hprop_emp_eq in Hrep.
  Qed.
End sim.

(** the same with cells that are lost: [rep n] holds if that happened [n] times at
    most *)
Section leak.
  Context {C Op Out S Env : Type}.
  Context (step : S → Op → option (S * Out)) (run : Env → Op → M C (Env * Out)).
  Context (s0 : S) (env0 : Env) (gone : S → Prop) (ok : Op → Prop).
  Context (rep : nat → Env → S → hprop C).

  Definition op_spec_leak (md : mode) : Prop :=
    ∀ n env s op s' o, ok op → step s op = Some (s', o) →
      rep n env s ⊢ wp md (run env op) (λ eo, ⌞eo.2 = o⌟ ∗ rep n eo.1 s')
                      (λ e, ⌞throws md e⌟ ∗ rep (copy_thrown e + n) env s).

  Lemma hist_sim_leak md n s env m evs s' env' m' :
    op_spec_leak md →
    hist step run s env m evs s' env' m' →
    Forall (λ ev, ok ev.1) evs →
    good md m → rep n env s (blk m) →
    accepts_any step s evs s' ∧
    (∀ op e, (op, Threw e) ∈ evs → throws md e) ∧
    good md m' ∧ rep (copy_throws evs + n) env' s' (blk m').
  Proof.
    intros Hop Hh. revert n. induction Hh as [|s env m op s1 o env1 o1 m1 evs s2 env2 m2 Hs Hr Hh IH
                                |s env m op [s1 o] e m1 evs s2 env2 m2 Hs Hr Hh IH]; intros n Hok Hm HP.
    - split; [constructor|]. split; [|done]. intros op e H. by apply elem_of_nil in H.
    - apply Forall_cons_1 in Hok as [Hok1 Hok2].
      pose proof (wp_adequate _ _ _ _ _ _ (Hop _ _ _ _ _ _ Hok1 Hs) Hm HP) as Hw.
      rewrite Hr in Hw. destruct Hw as (Hm1 & Hw).
      destruct Hw as (h1 & h2 & Hb & _ & Ho & Hrep).
      apply hprop_affinely_pure_eq in Ho as [-> Ho]. rewrite left_id_L in Hb; subst h2.
      change (o1 = o) in Ho. subst o. specialize (IH n Hok2 Hm1 Hrep) as (?&IH&?&?).
      split; [by econstructor|]. split; [|done]. intros op' e'. rewrite elem_of_cons. intros [?|?]; [done|by eapply IH].
    - apply Forall_cons_1 in Hok as [Hok1 Hok2].
      pose proof (wp_adequate _ _ _ _ _ _ (Hop _ _ _ _ _ _ Hok1 Hs) Hm HP) as Hw.
      rewrite Hr in Hw. destruct Hw as (Hm1 & Hw).
      destruct Hw as (h1 & h2 & Hb & _ & Ho & Hrep).
      apply hprop_affinely_pure_eq in Ho as [-> Ht]. rewrite left_id_L in Hb; subst h2.
      specialize (IH _ Hok2 Hm1 Hrep) as (?&IH&?&Hr2).
      split; [by econstructor|]. split.
      + intros op' e'. rewrite elem_of_cons. intros [[= -> ->]|?]; [done|by eapply IH].
      + split; [done|]. simpl. replace (copy_thrown e + copy_throws evs + n) with (copy_throws evs + (copy_thrown e + n)) by lia. done.
  Qed.

  Lemma refines_leaking_sim (raw : C → Prop) ao co :
    op_spec_leak (Mode (bool_decide (¬ no_fail ao)) (bool_decide (¬ no_fail co))) →
    (emp ⊢ rep 0 env0 s0) →
    (∀ n env s h, gone s → rep n env s h → size h ≤ n ∧ map_Forall (λ _ c, raw c) h) →
    refines_leaking step run s0 env0 gone ok raw ao co.
  Proof.
    intros Hop H0 Hgone evs s env m Hh Hok.
    pose proof (hist_sim_leak _ 0 _ _ _ _ _ _ _ Hop Hh Hok (good_mem0 ao co)) as Hs.
    feed specialize Hs.
    { apply (proj1 (hprop_entails_eq _ _) H0). by apply hprop_emp_eq. }
    destruct Hs as (Hacc & Hthr & Hm & Hrep). rewrite Nat.add_0_r in Hrep. split; [done|]. split.
    { intros op e He. apply Hthr in He. unfold throws in He. simpl in He. by rewrite !bool_decide_eq_true in He. }
    split.
    - intros op Hokop [[s' o] Hst].
      pose proof (wp_adequate _ _ _ _ _ _ (Hop _ _ _ _ _ _ Hokop Hst) Hm Hrep) as Hw.
      destruct (run env op m); done.
    - intros Hg. by eapply Hgone.
  Qed.
End leak.

(** throwing, with the ways it can happen in one hypothesis *)
Section rules.
  Context {C : Type} (md : mode).
  Lemma wp_may_throw_any (Q : unit → hprop C) R :
    ((∀ e, ⌜throws md e⌝ → R e) ∧ Q tt) -∗ wp md may_throw Q R.
  Proof.
    iIntros "H". iApply wp_may_throw. iSplit; [|by iDestruct "H" as "[_ $]"].
    iIntros (Hc). iDestruct "H" as "[H _]". iApply "H". iPureIntro. by right.
  Qed.
  Lemma wp_alloc_any (c : C) (Q : loc → hprop C) R :
    ((∀ e, ⌜throws md e⌝ → R e) ∧ (∀ l, l ↦ c -∗ Q l)) -∗ wp md (alloc c) Q R.
  Proof.
    iIntros "H". iApply wp_alloc. iSplit; [|by iDestruct "H" as "[_ $]"].
    iIntros (Hc). iDestruct "H" as "[H _]". iApply "H". iPureIntro. by left.
  Qed.
End rules.
