(** A client's named objects: handles map to addresses in the model and to
    abstract values in the specification. *)
From iris.proofmode Require Import tactics.
From Verif Require Export SLTac.

Section objs.
  Context {C L X : Type} (Φ : L → X → hprop C).
  Implicit Types (env : gmap nat L) (s : gmap nat X).

  Definition objs env s : hprop C := [∗ map] l;x ∈ env;s, Φ l x.

  Lemma objs_empty : emp ⊢ objs ∅ ∅.
  Proof. by rewrite /objs big_sepM2_empty. Qed.
  Lemma objs_gone env : objs env ∅ ⊢ emp.
  Proof. rewrite /objs. iIntros "H". iDestruct (big_sepM2_empty_l with "H") as %->
      || iDestruct (big_sepM2_empty_r with "H") as %->. by rewrite big_sepM2_empty. Qed.

  Lemma objs_dom env s h x :
    s !! h = Some x → objs env s ⊢ ⌜∃ l, env !! h = Some l⌝.
  Proof.
    iIntros (Hh) "H". rewrite /objs. iDestruct (big_sepM2_lookup_iff with "H") as %Hi.
    iPureIntro. destruct (Hi h) as [_ H2]. destruct H2 as [l Hl]; [by eexists|]. by exists l.
  Qed.
  Lemma objs_none env s h :
    s !! h = None → objs env s ⊢ ⌜env !! h = None⌝.
  Proof.
    iIntros (Hh) "H". rewrite /objs. iDestruct (big_sepM2_lookup_iff with "H") as %Hi.
    iPureIntro. apply eq_None_not_Some. rewrite Hi Hh. apply is_Some_None.
  Qed.

  Lemma objs_acc env s h x :
    s !! h = Some x →
    objs env s ⊢ ∃ l, ⌞env !! h = Some l⌟ ∗ Φ l x ∗ (∀ x', Φ l x' -∗ objs env (<[h := x']> s)).
  Proof.
    iIntros (Hh) "H". iDestruct (objs_dom with "H") as %[l Hl]; [done|].
    iExists l. iSplitR; [done|]. rewrite /objs.
    rewrite big_sepM2_insert_acc //. iDestruct "H" as "[$ H]". iIntros (x') "Hx".
    iSpecialize ("H" $! l x' with "Hx"). by rewrite (insert_id env).
  Qed.
  Lemma objs_upd env s h x :
    s !! h = Some x →
    objs env s ⊢ ∃ l, ⌞env !! h = Some l⌟ ∗ Φ l x ∗ (∀ l' x', Φ l' x' -∗ objs (<[h := l']> env) (<[h := x']> s)).
  Proof.
    iIntros (Hh) "H". iDestruct (objs_dom with "H") as %[l Hl]; [done|].
    iExists l. iSplitR; [done|]. rewrite /objs.
    rewrite big_sepM2_insert_acc //.
  Qed.
  Lemma objs_read env s h x :
    s !! h = Some x →
    objs env s ⊢ ∃ l, ⌞env !! h = Some l⌟ ∗ Φ l x ∗ (Φ l x -∗ objs env s).
  Proof.
    iIntros (Hh) "H". iDestruct (objs_acc with "H") as (l Hl) "[Hx H]"; [done|].
    iExists l. iFrame "Hx". iSplitR; [done|]. iIntros "Hx". iSpecialize ("H" with "Hx").
    by rewrite insert_id.
  Qed.

  Lemma objs_acc2 env s h g x y :
    h ≠ g → s !! h = Some x → s !! g = Some y →
    objs env s ⊢ ∃ l l', ⌞env !! h = Some l ∧ env !! g = Some l'⌟ ∗ Φ l x ∗ Φ l' y ∗
      (∀ x' y', Φ l x' -∗ Φ l' y' -∗ objs env (<[h := x']> (<[g := y']> s))).
  Proof.
    iIntros (Hne Hh Hg) "H". iDestruct (objs_dom env s h with "H") as %[l Hl]; [done|].
    iDestruct (objs_dom env s g with "H") as %[l' Hl']; [done|].
    rewrite /objs. rewrite (big_sepM2_delete _ env s h) //. iDestruct "H" as "[Hx H]".
    rewrite (big_sepM2_insert_acc _ _ _ g l' y); [|by rewrite lookup_delete_ne..].
    iDestruct "H" as "[Hy H]". iExists l, l'. iSplitR; [done|]. iFrame "Hx Hy".
    iIntros (x' y') "Hx Hy". iSpecialize ("H" $! l' y' with "Hy").
    rewrite insert_id; [|by rewrite lookup_delete_ne].
    iAssert (objs (<[h := l]> (delete h env)) (<[h := x']> (<[g := y']> (delete h s)))) with "[Hx H]" as "H".
    { rewrite /objs. rewrite big_sepM2_insert; [iFrame|by rewrite lookup_delete|].
      by rewrite lookup_insert_ne // lookup_delete. }
    rewrite /objs insert_delete_insert insert_id //.
    rewrite -(delete_insert_ne s) // insert_delete_insert. done.
  Qed.

  Lemma objs_add env s h l x :
    s !! h = None → objs env s ∗ Φ l x ⊢ objs (<[h := l]> env) (<[h := x]> s).
  Proof.
    iIntros (Hh) "[H Hx]". iDestruct (objs_none with "H") as %He; [done|].
    rewrite /objs. rewrite big_sepM2_insert //. iFrame.
  Qed.
  Lemma objs_del env s h x :
    s !! h = Some x →
    objs env s ⊢ ∃ l, ⌞env !! h = Some l⌟ ∗ Φ l x ∗ objs (delete h env) (delete h s).
  Proof.
    iIntros (Hh) "H". iDestruct (objs_dom with "H") as %[l Hl]; [done|].
    iExists l. iSplitR; [done|]. rewrite /objs. by rewrite (big_sepM2_delete _ env s h).
  Qed.
End objs.
