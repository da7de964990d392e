(** Generic simulation lemma behind the history theorems. *)
From iris.proofmode Require Import tactics.
From Verif Require Import SL Hist.

Lemma wp_adequate {C A} md (P : hprop C) (f : M C A) Q R m :
  (P ⊢ wp md f Q R) → good md m → P (blk m) →
  match f m with
  | Ok a m' => good md m' ∧ Q a (blk m')
  | Exn e m' => good md m' ∧ R e (blk m')
  | UB | Div => False
  end.
Proof.
  intros H Hm HP. apply (proj1 (hprop_entails_eq _ _) H) in HP.
  specialize (HP m ∅ Hm (map_disjoint_empty_r _)).
  rewrite right_id_L in HP. specialize (HP eq_refl).
  destruct (f m); [| |done..].
  - destruct HP as (? & h' & _ & Hb & ?). rewrite right_id_L in Hb. by subst.
  - destruct HP as (? & h' & _ & Hb & ?). rewrite right_id_L in Hb. by subst.
Qed.

Lemma wp_frame_adequate {C A} md (P : hprop C) (f : M C A) Q R m h hf :
  (P ⊢ wp md f Q R) → good md m → blk m = h ∪ hf → h ##ₘ hf → P h →
  match f m with
  | Ok a m' => good md m' ∧ ∃ h', h' ##ₘ hf ∧ blk m' = h' ∪ hf ∧ Q a h'
  | Exn e m' => good md m' ∧ ∃ h', h' ##ₘ hf ∧ blk m' = h' ∪ hf ∧ R e h'
  | UB | Div => False
  end.
Proof.
  intros H Hm Hb Hd HP. apply (proj1 (hprop_entails_eq _ _) H) in HP.
  by apply HP.
Qed.

Lemma good_may_fail {C} (m : mem C) : may_fail_alloc m → good (Mode true false) m.
Proof. intros [Hw Hc]. split; [done|]. split; [done|]. intros _. exact Hc. Qed.
Lemma good_fair {C} (m : mem C) : fair m → good (Mode false false) m.
Proof. intros (Hw & Ha & Hc). split; [done|]. by split. Qed.
Lemma good_may_fail' {C} (m : mem C) : good (Mode true false) m → may_fail_alloc m.
Proof. intros [Hw [_ Hc]]. split; [done|]. by apply Hc. Qed.
Lemma good_fair' {C} (m : mem C) : good (Mode false false) m → fair m.
Proof. intros (Hw & Ha & Hc). split; [done|]. split; [by apply Ha|by apply Hc]. Qed.

Lemma good_mem0 {C} ao co :
  good (C:=C) (Mode (bool_decide (¬ no_fail ao)) (bool_decide (¬ no_fail co))) (mem0 ao co).
Proof.
  split; [by intros l; rewrite lookup_empty; intros []|].
  split; simpl; intros Hf%bool_decide_eq_false.
  - destruct (decide (no_fail ao)); [done|by destruct Hf].
  - destruct (decide (no_fail co)); [done|by destruct Hf].
Qed.

Section sim.
  Context {C Op Out S Env : Type}.
  Context (step : S → Op → option (S * Out)) (run : Env → Op → M C (Env * Out)).
  Context (s0 : S) (env0 : Env) (gone : S → Prop) (ok : Op → Prop).
  Context (rep : Env → S → hprop C).

  Definition op_spec (md : mode) : Prop :=
    ∀ env s op s' o, ok op → step s op = Some (s', o) →
      rep env s ⊢ wp md (run env op) (λ eo, ⌞eo.2 = o⌟ ∗ rep eo.1 s')
                    (λ e, ⌞e = BadAlloc ∧ mA md = true⌟ ∗ rep env s).

  Lemma hist_sim md s env m evs s' env' m' :
    op_spec md →
    hist step run s env m evs s' env' m' →
    Forall (λ ev, ok ev.1) evs →
    good md m → rep env s (blk m) →
    accepts step s evs s' ∧
    (mA md = false → Forall (λ ev, ¬ threw ev) evs) ∧
    good md m' ∧ rep env' s' (blk m').
  Proof.
    intros Hop. induction 1 as [|s env m op s1 o env1 o1 m1 evs s2 env2 m2 Hs Hr Hh IH
                                |s env m op [s1 o] e m1 evs s2 env2 m2 Hs Hr Hh IH]; intros Hok Hm HP.
    - split; [constructor|]. by split.
    - apply Forall_cons_1 in Hok as [Hok1 Hok2].
      pose proof (wp_adequate _ _ _ _ _ _ (Hop _ _ _ _ _ Hok1 Hs) Hm HP) as Hw.
      rewrite Hr in Hw. destruct Hw as (Hm1 & Hw).
      destruct Hw as (h1 & h2 & Hb & _ & Ho & Hrep).
      apply hprop_affinely_pure_eq in Ho as [-> Ho]. rewrite left_id_L in Hb; subst h2.
      change (o1 = o) in Ho. subst o. specialize (IH Hok2 Hm1 Hrep) as (?&?&?&?).
      split; [by econstructor|]. split; [|done]. intros. constructor; [by intros []|auto].
    - apply Forall_cons_1 in Hok as [Hok1 Hok2].
      pose proof (wp_adequate _ _ _ _ _ _ (Hop _ _ _ _ _ Hok1 Hs) Hm HP) as Hw.
      rewrite Hr in Hw. destruct Hw as (Hm1 & Hw).
      destruct Hw as (h1 & h2 & Hb & _ & Ho & Hrep).
      apply hprop_affinely_pure_eq in Ho as [-> [-> HA]]. rewrite left_id_L in Hb; subst h2.
      specialize (IH Hok2 Hm1 Hrep) as (?&?&?&?).
      split; [by econstructor|]. split; [|done]. intros. congruence.
  Qed.

  Lemma refines_sim ao co :
    op_spec (Mode (bool_decide (¬ no_fail ao)) (bool_decide (¬ no_fail co))) →
    (emp ⊢ rep env0 s0) →
    (∀ env s, gone s → rep env s ⊢ emp) →
    refines_from step run s0 env0 gone ok ao co.
  Proof.
    intros Hop H0 Hgone evs s env m Hh Hok.
    pose proof (hist_sim _ _ _ _ _ _ _ _ Hop Hh Hok (good_mem0 ao co)) as Hs.
    feed specialize Hs.
    { apply (proj1 (hprop_entails_eq _ _) H0). by apply hprop_emp_eq. }
    destruct Hs as (Hacc & Hthr & Hm & Hrep). split; [done|]. split.
    { intros Hnf. apply Hthr. simpl. apply bool_decide_eq_false. tauto. }
    split.
    - intros op Hokop [[s' o] Hst].
      pose proof (wp_adequate _ _ _ _ _ _ (Hop _ _ _ _ _ Hokop Hst) Hm Hrep) as Hw.
      destruct (run env op m); done.
    - intros Hg. apply (proj1 (hprop_entails_eq _ _) (Hgone _ _ Hg)) in Hrep.
      by apply hprop_emp_eq in Hrep.
  Qed.
End sim.

Lemma exec_hist {C Op Out S Env} (step : S → Op → option (S * Out)) (run : Env → Op → M C (Env * Out))
    s env m ops evs s' env' m' :
  exec step run s env m ops = Some (evs, s', env', m') → hist step run s env m evs s' env' m'.
Proof.
  revert s env m evs. induction ops as [|op ops IH]; intros s env m evs; simpl.
  - intros [= <- <- <- <-]. constructor.
  - destruct (step s op) as [[s1 o]|] eqn:Es; [|done].
    destruct (run env op m) as [[env1 o1] m1|e m1| |] eqn:Er; [| |done..].
    + destruct (exec step run _ env1 m1 ops) as [[[[evs1 s2] env2] m2]|] eqn:Ee; [|done].
      intros [= <- <- <- <-]. simpl. eapply hist_ret; [done..|]. by apply IH.
    + destruct (exec step run s env m1 ops) as [[[[evs1 s2] env2] m2]|] eqn:Ee; [|done].
      intros [= <- <- <- <-]. simpl. eapply hist_thr; [done..|]. by apply IH.
Qed.

(** checking [mem_wf] by computation *)
Lemma mem_wf_check {C} (m : mem C) :
  bool_decide (map_Forall (λ l _, (l < nxt m)%positive) (blk m)) = true → mem_wf m.
Proof. intros H%bool_decide_eq_true l [c Hl]. by eapply H. Qed.
