(** Proof rules for client operations. *)
From iris.proofmode Require Import tactics.
From Verif Require Export SLTac Hist HistProofs Objs Client.

(** Exceptional postcondition of an operation with the strong guarantee. *)
Definition unch {C} (md : mode) (P : hprop C) (e : exn) : hprop C :=
  (⌞e = BadAlloc ∧ mA md = true⌟ ∗ P)%I.

Section rules.
  Context {C X Out : Type} (Φ : loc → X → hprop C) (md : mode).
  Implicit Types (env : gmap nat loc) (s : gmap nat X) (out : Out).
  Notation rep := (objs Φ).

  Lemma wp_obj env h l (Q : loc → hprop C) R :
    env !! h = Some l → Q l -∗ wp md (obj env h) Q R.
  Proof. iIntros (H) "HQ". rewrite /obj H. by wret. Qed.

  Lemma op_act1 {A} env s h x x' (f : loc → M C A) (o : A → Out) out :
    s !! h = Some x →
    (∀ l, Φ l x ⊢ wp md (f l) (λ a, ⌞o a = out⌟ ∗ Φ l x') (unch md (Φ l x))) →
    rep env s ⊢ wp md (act1 env h f o) (λ eo, ⌞eo.2 = out⌟ ∗ rep eo.1 (<[h := x']> s))
                  (unch md (rep env s)).
  Proof.
    iIntros (Hh Hf) "H". iDestruct (objs_acc with "H") as (l Hl) "[Hx H]"; [done|].
    rewrite /act1. wbind. iApply wp_obj; [done|]. wbind. iApply (wp_wand with "[Hx]"); [by iApply Hf|].
    iSplit.
    - iIntros (a) "[% Hx]". wret. iSplitR; [done|]. simpl. by iApply "H".
    - iIntros (e) "[$ Hx]". iSpecialize ("H" with "Hx"). by rewrite insert_id.
  Qed.
  Lemma op_read1 {A} env s h x (f : loc → M C A) (o : A → Out) out :
    s !! h = Some x →
    (∀ l, Φ l x ⊢ wp md (f l) (λ a, ⌞o a = out⌟ ∗ Φ l x) (unch md (Φ l x))) →
    rep env s ⊢ wp md (act1 env h f o) (λ eo, ⌞eo.2 = out⌟ ∗ rep eo.1 s) (unch md (rep env s)).
  Proof.
    intros Hh Hf. rewrite -{2}(insert_id s h x) //. by eapply op_act1.
  Qed.
  Lemma op_act2 {A} env s h g x y x' y' (f : loc → loc → M C A) (o : A → Out) out :
    h ≠ g → s !! h = Some x → s !! g = Some y →
    (∀ l l', Φ l x ∗ Φ l' y ⊢
       wp md (f l l') (λ a, ⌞o a = out⌟ ∗ Φ l x' ∗ Φ l' y') (unch md (Φ l x ∗ Φ l' y))) →
    rep env s ⊢ wp md (act2 env h g f o) (λ eo, ⌞eo.2 = out⌟ ∗ rep eo.1 (<[h := x']> (<[g := y']> s)))
                  (unch md (rep env s)).
  Proof.
    iIntros (Hne Hh Hg Hf) "H". iDestruct (objs_acc2 with "H") as (l l' [Hl Hl']) "(Hx & Hy & H)"; [done..|].
    rewrite /act2. wbind. iApply wp_obj; [done|]. wbind. iApply wp_obj; [done|].
    wbind. iApply (wp_wand with "[Hx Hy]"); [iApply Hf; iFrame|].
    iSplit.
    - iIntros (a) "(% & Hx & Hy)". wret. iSplitR; [done|]. simpl. by iApply ("H" with "Hx Hy").
    - iIntros (e) "($ & Hx & Hy)". iSpecialize ("H" with "Hx Hy").
      by rewrite (insert_id s g) // (insert_id s h).
  Qed.
  (** the second object is only read *)
  Lemma op_act2_l {A} env s h g x y x' (f : loc → loc → M C A) (o : A → Out) out :
    h ≠ g → s !! h = Some x → s !! g = Some y →
    (∀ l l', Φ l x ∗ Φ l' y ⊢
       wp md (f l l') (λ a, ⌞o a = out⌟ ∗ Φ l x' ∗ Φ l' y) (unch md (Φ l x ∗ Φ l' y))) →
    rep env s ⊢ wp md (act2 env h g f o) (λ eo, ⌞eo.2 = out⌟ ∗ rep eo.1 (<[h := x']> s))
                  (unch md (rep env s)).
  Proof.
    intros. rewrite -{2}(insert_id s g y) //. by eapply op_act2.
  Qed.
  Lemma op_read2 {A} env s h g x y (f : loc → loc → M C A) (o : A → Out) out :
    h ≠ g → s !! h = Some x → s !! g = Some y →
    (∀ l l', Φ l x ∗ Φ l' y ⊢
       wp md (f l l') (λ a, ⌞o a = out⌟ ∗ Φ l x ∗ Φ l' y) (unch md (Φ l x ∗ Φ l' y))) →
    rep env s ⊢ wp md (act2 env h g f o) (λ eo, ⌞eo.2 = out⌟ ∗ rep eo.1 s) (unch md (rep env s)).
  Proof.
    intros. rewrite -{2}(insert_id s h x) //. by eapply op_act2_l.
  Qed.
  (** both arguments are the same object *)
  Lemma op_same {A} env s h x x' (f : loc → loc → M C A) (o : A → Out) out :
    s !! h = Some x →
    (∀ l, Φ l x ⊢ wp md (f l l) (λ a, ⌞o a = out⌟ ∗ Φ l x') (unch md (Φ l x))) →
    rep env s ⊢ wp md (act2 env h h f o) (λ eo, ⌞eo.2 = out⌟ ∗ rep eo.1 (<[h := x']> s))
                  (unch md (rep env s)).
  Proof.
    iIntros (Hh Hf) "H". iDestruct (objs_acc with "H") as (l Hl) "[Hx H]"; [done|].
    rewrite /act2. wbind. iApply wp_obj; [done|]. wbind. iApply wp_obj; [done|].
    wbind. iApply (wp_wand with "[Hx]"); [by iApply Hf|].
    iSplit.
    - iIntros (a) "[% Hx]". wret. iSplitR; [done|]. simpl. by iApply "H".
    - iIntros (e) "[$ Hx]". iSpecialize ("H" with "Hx"). by rewrite insert_id.
  Qed.
  Lemma op_decl env s h x (mk : M C loc) out :
    s !! h = None →
    (emp ⊢ wp md mk (λ l, Φ l x) (unch md emp)) →
    rep env s ⊢ wp md (decl env h mk out) (λ eo, ⌞eo.2 = out⌟ ∗ rep eo.1 (<[h := x]> s))
                  (unch md (rep env s)).
  Proof.
    iIntros (Hh Hf) "H". iDestruct (objs_none with "H") as %He; [done|].
    rewrite /decl He. wbind. iApply (wp_wand with "[]"); [by iApply Hf|]. iSplit.
    - iIntros (l) "Hx". wret. iSplitR; [done|]. simpl. iApply objs_add; [done|]. iFrame.
    - iIntros (e) "[$ _]". iFrame.
  Qed.
  (** made from another object, which may change *)
  Lemma op_decl_from env s h g y y' x (mk : loc → M C loc) out :
    s !! h = None → s !! g = Some y →
    (∀ l', Φ l' y ⊢ wp md (mk l') (λ l, Φ l x ∗ Φ l' y') (unch md (Φ l' y))) →
    rep env s ⊢ wp md (decl env h (l <- obj env g ;; mk l) out)
                  (λ eo, ⌞eo.2 = out⌟ ∗ rep eo.1 (<[h := x]> (<[g := y']> s)))
                  (unch md (rep env s)).
  Proof.
    iIntros (Hh Hg Hf) "H". iDestruct (objs_none with "H") as %He; [done|].
    iDestruct (objs_acc with "H") as (l' Hl) "[Hy H]"; [done|].
    rewrite /decl He. wbind. iApply wp_obj; [done|].
    iApply (wp_wand with "[Hy]"); [by iApply Hf|]. iSplit.
    - iIntros (l) "[Hx Hy]". wret. iSplitR; [done|]. simpl. iApply objs_add.
      { destruct (decide (h = g)); [congruence|]. by rewrite lookup_insert_ne. }
      iFrame. by iApply "H".
    - iIntros (e) "[$ Hy]". iSpecialize ("H" with "Hy"). by rewrite insert_id.
  Qed.
  Lemma op_copy env s h g y (mk : loc → M C loc) out :
    s !! h = None → s !! g = Some y →
    (∀ l', Φ l' y ⊢ wp md (mk l') (λ l, Φ l y ∗ Φ l' y) (unch md (Φ l' y))) →
    rep env s ⊢ wp md (decl env h (l <- obj env g ;; mk l) out)
                  (λ eo, ⌞eo.2 = out⌟ ∗ rep eo.1 (<[h := y]> s)) (unch md (rep env s)).
  Proof.
    intros Hh Hg Hf. rewrite -{2}(insert_id s g y) //. by eapply op_decl_from.
  Qed.
  Lemma op_drop env s h x (f : loc → M C unit) out :
    s !! h = Some x →
    (∀ l, Φ l x ⊢ wp md (f l) (λ _, emp) (λ _, False)) →
    rep env s ⊢ wp md (drop_obj env h f out) (λ eo, ⌞eo.2 = out⌟ ∗ rep eo.1 (delete h s))
                  (unch md (rep env s)).
  Proof.
    iIntros (Hh Hf) "H". iDestruct (objs_del with "H") as (l Hl) "[Hx H]"; [done|].
    rewrite /drop_obj. wbind. iApply wp_obj; [done|]. wbind.
    iApply (wp_wand with "[Hx]"); [by iApply Hf|]. iSplit; [|by iIntros (?) "[]"].
    iIntros (_) "_". wret. iSplitR; [done|]. iFrame.
  Qed.
End rules.
