(** Proof rules for client operations that may leave something behind when they
    throw. *)
From iris.proofmode Require Import tactics.
From Verif Require Export SLTac Hist HistProofs Objs Client ClientProofs MemRun HistThrowProofs.

(** What holds after exception [e]: [X e], and the state before. *)
Definition keep {C} (X : exn → hprop C) (P : hprop C) (e : exn) : hprop C := (X e ∗ P)%I.

(** The operation failed, and lost a cell [c] at most. *)
Definition lost {C} (md : mode) (c : C) (e : exn) : hprop C :=
  (⌞e = BadAlloc ∧ mA md = true⌟ ∨ (⌞e = CopyThrow ∧ mC md = true⌟ ∗ (emp ∨ ∃ l, l ↦ c)))%I.
(** [n] lost cells at most *)
Definition junk {C} (c : C) (n : nat) : hprop C := (∃ ls, ⌞length ls ≤ n⌟ ∗ [∗ list] l ∈ ls, l ↦ c)%I.

Section lost.
  Context {C : Type} (md : mode) (c : C).
  Lemma lost_bad : mA md = true → ⊢ lost md c BadAlloc.
  Proof. iIntros (H). iLeft. done. Qed.
  Lemma lost_copy : mC md = true → ⊢ lost md c CopyThrow.
  Proof. iIntros (H). iRight. iSplitR; [done|]. by iLeft. Qed.
  Lemma lost_cell l : mC md = true → l ↦ c ⊢ lost md c CopyThrow.
  Proof. iIntros (H) "Hl". iRight. iSplitR; [done|]. iRight. by iExists l. Qed.
  Lemma lost_alloc e : mC md = false → lost md c e ⊢ ⌞e = BadAlloc ∧ mA md = true⌟.
  Proof. iIntros (H) "[$|[%Hc Hx]]". destruct Hc. congruence. Qed.
  Lemma lost_nothing e : mA md = false → mC md = false → lost md c e ⊢ False.
  Proof. iIntros (H H') "[%Hc|[%Hc Hx]]"; destruct Hc; congruence. Qed.
  Lemma junk_lost n e : lost md c e -∗ junk c n -∗ ⌞throws md e⌟ ∗ junk c (copy_thrown e + n).
  Proof.
    iIntros "[%Hc|[%Hc H]] (%ls & %Hl & Hj)"; destruct Hc as [-> Hm]; simpl.
    - iSplitR; [iPureIntro; by left|]. iExists ls. by iFrame.
    - iSplitR; [iPureIntro; by right|]. iDestruct "H" as "[_|(%l & H)]".
      + iExists ls. iFrame. iPureIntro. lia.
      + iExists (l :: ls). simpl. iFrame. iPureIntro. lia.
  Qed.
  Lemma junk_inv n h : junk c n h → size h ≤ n ∧ map_Forall (λ _ x, x = c) h.
  Proof.
    intros (ls & Hj). apply pure_sep_inv in Hj as [Hl Hj].
    cut (size h = length ls ∧ map_Forall (λ _ x, x = c) h); [intuition lia|]. clear Hl. revert h Hj.
    induction ls as [|l ls IH]; intros h Hj; simpl in Hj.
    - assert (h = ∅) as -> by (by apply hprop_emp_eq). split; [apply map_size_empty|apply map_Forall_empty].
    - apply hprop_sep_eq in Hj as (h1 & h2 & -> & Hd & H1 & H2). apply (proj1 (pt_eq _ _ _)) in H1. subst h1.
      destruct (IH _ H2) as [Hs Hf]. split.
      + by rewrite map_size_disj_union // map_size_singleton Hs.
      + intros l' x. rewrite lookup_union_Some //. intros [[-> ->]%lookup_singleton_Some|Hx]; [done|by eapply Hf].
  Qed.
End lost.

Section rules.
  Context {C X0 Out : Type} (Φ : loc → X0 → hprop C) (md : mode) (X : exn → hprop C).
  Implicit Types (env : gmap nat loc) (s : gmap nat X0) (out : Out).
  Notation rep := (objs Φ).

  Lemma op_act1_any {A} env s h x x' (f : loc → M C A) (o : A → Out) out :
    s !! h = Some x →
    (∀ l, Φ l x ⊢ wp md (f l) (λ a, ⌞o a = out⌟ ∗ Φ l x') (keep X (Φ l x))) →
    rep env s ⊢ wp md (act1 env h f o) (λ eo, ⌞eo.2 = out⌟ ∗ rep eo.1 (<[h := x']> s))
                  (keep X (rep env s)).
  Proof.
    iIntros (Hh Hf) "H". iDestruct (objs_acc with "H") as (l Hl) "[Hx H]"; [done|].
    rewrite /act1. wbind. iApply wp_obj; [done|]. wbind. iApply (wp_wand with "[Hx]"); [by iApply Hf|].
    iSplit.
    - iIntros (a) "[% Hx]". wret. iSplitR; [done|]. simpl. by iApply "H".
    - iIntros (e) "[$ Hx]". iSpecialize ("H" with "Hx"). by rewrite insert_id.
  Qed.
  Lemma op_read1_any {A} env s h x (f : loc → M C A) (o : A → Out) out :
    s !! h = Some x →
    (∀ l, Φ l x ⊢ wp md (f l) (λ a, ⌞o a = out⌟ ∗ Φ l x) (keep X (Φ l x))) →
    rep env s ⊢ wp md (act1 env h f o) (λ eo, ⌞eo.2 = out⌟ ∗ rep eo.1 s) (keep X (rep env s)).
  Proof.
    intros Hh Hf. rewrite -{2}(insert_id s h x) //. by eapply op_act1_any.
  Qed.
  Lemma op_act2_any {A} env s h g x y x' y' (f : loc → loc → M C A) (o : A → Out) out :
    h ≠ g → s !! h = Some x → s !! g = Some y →
    (∀ l l', Φ l x ∗ Φ l' y ⊢
       wp md (f l l') (λ a, ⌞o a = out⌟ ∗ Φ l x' ∗ Φ l' y') (keep X (Φ l x ∗ Φ l' y))) →
    rep env s ⊢ wp md (act2 env h g f o) (λ eo, ⌞eo.2 = out⌟ ∗ rep eo.1 (<[h := x']> (<[g := y']> s)))
                  (keep X (rep env s)).
  Proof.
    iIntros (Hne Hh Hg Hf) "H". iDestruct (objs_acc2 with "H") as (l l' [Hl Hl']) "(Hx & Hy & H)"; [done..|].
    rewrite /act2. wbind. iApply wp_obj; [done|]. wbind. iApply wp_obj; [done|].
    wbind. iApply (wp_wand with "[Hx Hy]"); [iApply Hf; iFrame|].
    iSplit.
    - iIntros (a) "(% & Hx & Hy)". wret. iSplitR; [done|]. simpl. by iApply ("H" with "Hx Hy").
    - iIntros (e) "($ & Hx & Hy)". iSpecialize ("H" with "Hx Hy").
      by rewrite (insert_id s g) // (insert_id s h).
  Qed.
  (** the second object is only read *)
  Lemma op_act2_l_any {A} env s h g x y x' (f : loc → loc → M C A) (o : A → Out) out :
    h ≠ g → s !! h = Some x → s !! g = Some y →
    (∀ l l', Φ l x ∗ Φ l' y ⊢
       wp md (f l l') (λ a, ⌞o a = out⌟ ∗ Φ l x' ∗ Φ l' y) (keep X (Φ l x ∗ Φ l' y))) →
    rep env s ⊢ wp md (act2 env h g f o) (λ eo, ⌞eo.2 = out⌟ ∗ rep eo.1 (<[h := x']> s))
                  (keep X (rep env s)).
  Proof.
    intros. rewrite -{2}(insert_id s g y) //. by eapply op_act2_any.
  Qed.
  Lemma op_read2_any {A} env s h g x y (f : loc → loc → M C A) (o : A → Out) out :
    h ≠ g → s !! h = Some x → s !! g = Some y →
    (∀ l l', Φ l x ∗ Φ l' y ⊢
       wp md (f l l') (λ a, ⌞o a = out⌟ ∗ Φ l x ∗ Φ l' y) (keep X (Φ l x ∗ Φ l' y))) →
    rep env s ⊢ wp md (act2 env h g f o) (λ eo, ⌞eo.2 = out⌟ ∗ rep eo.1 s) (keep X (rep env s)).
  Proof.
    intros. rewrite -{2}(insert_id s h x) //. by eapply op_act2_l_any.
  Qed.
  (** both arguments are the same object *)
  Lemma op_same_any {A} env s h x x' (f : loc → loc → M C A) (o : A → Out) out :
    s !! h = Some x →
    (∀ l, Φ l x ⊢ wp md (f l l) (λ a, ⌞o a = out⌟ ∗ Φ l x') (keep X (Φ l x))) →
    rep env s ⊢ wp md (act2 env h h f o) (λ eo, ⌞eo.2 = out⌟ ∗ rep eo.1 (<[h := x']> s))
                  (keep X (rep env s)).
  Proof.
    iIntros (Hh Hf) "H". iDestruct (objs_acc with "H") as (l Hl) "[Hx H]"; [done|].
    rewrite /act2. wbind. iApply wp_obj; [done|]. wbind. iApply wp_obj; [done|].
    wbind. iApply (wp_wand with "[Hx]"); [by iApply Hf|].
    iSplit.
    - iIntros (a) "[% Hx]". wret. iSplitR; [done|]. simpl. by iApply "H".
    - iIntros (e) "[$ Hx]". iSpecialize ("H" with "Hx"). by rewrite insert_id.
  Qed.
  Lemma op_decl_any env s h x (mk : M C loc) out :
    s !! h = None →
    (emp ⊢ wp md mk (λ l, Φ l x) (keep X emp)) →
    rep env s ⊢ wp md (decl env h mk out) (λ eo, ⌞eo.2 = out⌟ ∗ rep eo.1 (<[h := x]> s))
                  (keep X (rep env s)).
  Proof.
    iIntros (Hh Hf) "H". iDestruct (objs_none with "H") as %He; [done|].
    rewrite /decl He. wbind. iApply (wp_wand with "[]"); [by iApply Hf|]. iSplit.
    - iIntros (l) "Hx". wret. iSplitR; [done|]. simpl. iApply objs_add; [done|]. iFrame.
    - iIntros (e) "[$ _]". iFrame.
  Qed.
  (** made from another object, which may change *)
  Lemma op_decl_from_any env s h g y y' x (mk : loc → M C loc) out :
    s !! h = None → s !! g = Some y →
    (∀ l', Φ l' y ⊢ wp md (mk l') (λ l, Φ l x ∗ Φ l' y') (keep X (Φ l' y))) →
    rep env s ⊢ wp md (decl env h (l <- obj env g ;; mk l) out)
                  (λ eo, ⌞eo.2 = out⌟ ∗ rep eo.1 (<[h := x]> (<[g := y']> s)))
                  (keep X (rep env s)).
  Proof.
    iIntros (Hh Hg Hf) "H". iDestruct (objs_none with "H") as %He; [done|].
    iDestruct (objs_acc with "H") as (l' Hl) "[Hy H]"; [done|].
    rewrite /decl He. wbind. iApply wp_obj; [done|].
    iApply (wp_wand with "[Hy]"); [by iApply Hf|]. iSplit.
    - iIntros (l) "[Hx Hy]". wret. iSplitR; [done|]. simpl. iApply objs_add.
      { destruct (decide (h = g)); [congruence|]. by rewrite lookup_insert_ne. }
      iFrame. by iApply "H".
    - iIntros (e) "[$ Hy]". iSpecialize ("H" with "Hy"). by rewrite insert_id.
  Qed.
  Lemma op_copy_any env s h g y (mk : loc → M C loc) out :
    s !! h = None → s !! g = Some y →
    (∀ l', Φ l' y ⊢ wp md (mk l') (λ l, Φ l y ∗ Φ l' y) (keep X (Φ l' y))) →
    rep env s ⊢ wp md (decl env h (l <- obj env g ;; mk l) out)
                  (λ eo, ⌞eo.2 = out⌟ ∗ rep eo.1 (<[h := y]> s)) (keep X (rep env s)).
  Proof.
    intros Hh Hg Hf. rewrite -{2}(insert_id s g y) //. by eapply op_decl_from_any.
  Qed.
  Lemma op_drop_any env s h x (f : loc → M C unit) out :
    s !! h = Some x →
    (∀ l, Φ l x ⊢ wp md (f l) (λ _, emp) (λ _, False)) →
    rep env s ⊢ wp md (drop_obj env h f out) (λ eo, ⌞eo.2 = out⌟ ∗ rep eo.1 (delete h s))
                  (keep X (rep env s)).
  Proof.
    iIntros (Hh Hf) "H". iDestruct (objs_del with "H") as (l Hl) "[Hx H]"; [done|].
    rewrite /drop_obj. wbind. iApply wp_obj; [done|]. wbind.
    iApply (wp_wand with "[Hx]"); [by iApply Hf|]. iSplit; [|by iIntros (?) "[]"].
    iIntros (_) "_". wret. iSplitR; [done|]. iFrame.
  Qed.
End rules.
