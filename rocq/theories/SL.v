(** Linear separation logic over [Mem.M].  No axioms: heap predicates with an
    Iris BI structure (used only for the proof mode) and a weakest precondition
    that quantifies over all memories, frames and oracles. *)
From stdpp Require Import gmap.
From iris.bi Require Import interface big_op.
From iris.proofmode Require Import tactics.
From Verif Require Export Mem.

Section hprop.
  Context (C : Type).

  Record hprop := HProp { hprop_holds :> gmap loc C → Prop }.

  Inductive hprop_equiv' (P Q : hprop) : Prop :=
    { hprop_in_equiv : ∀ h, P h ↔ Q h }.
  Global Instance hprop_equiv : Equiv hprop := hprop_equiv'.
  Global Instance hprop_equivalence : Equivalence (≡@{hprop}).
  Proof.
    split; repeat destruct 1; constructor; naive_solver.
  Qed.
  Canonical Structure hpropO := discreteO hprop.

  Inductive hprop_entails (P Q : hprop) : Prop :=
    { hprop_in_entails : ∀ h, P h → Q h }.

  Definition hprop_emp : hprop := HProp (λ h, h = ∅).
  Definition hprop_pure (φ : Prop) : hprop := HProp (λ _, φ).
  Definition hprop_and (P Q : hprop) : hprop := HProp (λ h, P h ∧ Q h).
  Definition hprop_or (P Q : hprop) : hprop := HProp (λ h, P h ∨ Q h).
  Definition hprop_impl (P Q : hprop) : hprop := HProp (λ h, P h → Q h).
  Definition hprop_forall (A : Type) (Φ : A → hprop) : hprop := HProp (λ h, ∀ a, Φ a h).
  Definition hprop_exist (A : Type) (Φ : A → hprop) : hprop := HProp (λ h, ∃ a, Φ a h).
  Definition hprop_sep (P Q : hprop) : hprop :=
    HProp (λ h, ∃ h1 h2, h = h1 ∪ h2 ∧ h1 ##ₘ h2 ∧ P h1 ∧ Q h2).
  Definition hprop_wand (P Q : hprop) : hprop :=
    HProp (λ h, ∀ h', h ##ₘ h' → P h' → Q (h ∪ h')).
  Definition hprop_persistently (P : hprop) : hprop := HProp (λ _, P ∅).

  Lemma hprop_bi_mixin : BiMixin hprop_entails hprop_emp hprop_pure hprop_and
    hprop_or hprop_impl hprop_forall hprop_exist hprop_sep hprop_wand
    hprop_persistently.
  Proof.
    split.
    - split; [by intros P; split|]. intros P Q R [H1] [H2]; split; naive_solver.
    - intros P Q; split.
      + intros [H]; split; split; naive_solver.
      + intros [[H1] [H2]]; split; naive_solver.
    - intros n φ1 φ2 Hφ; split; naive_solver.
    - intros n P1 P2 [HP] Q1 Q2 [HQ]; split; simpl; naive_solver.
    - intros n P1 P2 [HP] Q1 Q2 [HQ]; split; simpl; naive_solver.
    - intros n P1 P2 [HP] Q1 Q2 [HQ]; split; simpl; naive_solver.
    - intros A n Φ1 Φ2 HΦ; split; simpl; intros h; split; intros H a;
        destruct (HΦ a) as [HΦa]; apply HΦa, H.
    - intros A n Φ1 Φ2 HΦ; split; simpl; intros h; split; intros [a H]; exists a;
        destruct (HΦ a) as [HΦa]; apply HΦa, H.
    - intros n P1 P2 [HP] Q1 Q2 [HQ]; split; simpl; naive_solver.
    - intros n P1 P2 [HP] Q1 Q2 [HQ]; split; simpl; naive_solver.
    - intros n P1 P2 [HP]; split; simpl; naive_solver.
    - intros φ P Hφ; split; simpl; naive_solver.
    - intros φ P Hφ; split; simpl. intros h ?. by apply Hφ.
    - intros P Q; split; simpl; naive_solver.
    - intros P Q; split; simpl; naive_solver.
    - intros P Q R [H1] [H2]; split; simpl; naive_solver.
    - intros P Q; split; simpl; naive_solver.
    - intros P Q; split; simpl; naive_solver.
    - intros P Q R [H1] [H2]; split; simpl; naive_solver.
    - intros P Q R [H1]; split; simpl; naive_solver.
    - intros P Q R [H1]; split; simpl; naive_solver.
    - intros A P Φ H; split; simpl. intros h HP a. by apply H.
    - intros A Φ a; split; simpl; naive_solver.
    - intros A Φ a; split; simpl; naive_solver.
    - intros A Φ Q H; split; simpl. intros h [a Ha]. by apply (H a).
    - intros P P' Q Q' [H1] [H2]; split; simpl; naive_solver.
    - intros P; split; simpl. intros h HP. exists ∅, h.
      rewrite left_id_L. split; [done|]. split; [apply map_disjoint_empty_l|done].
    - intros P; split; simpl. intros h (h1 & h2 & -> & ? & -> & HP). by rewrite left_id_L.
    - intros P Q; split; simpl. intros h (h1 & h2 & -> & ? & ? & ?).
      exists h2, h1. by rewrite map_union_comm.
    - intros P Q R; split; simpl.
      intros h (h12 & h3 & -> & Hd & (h1 & h2 & -> & ? & ? & ?) & ?).
      apply map_disjoint_union_l in Hd as [??].
      exists h1, (h2 ∪ h3). rewrite assoc_L. split; [done|].
      split; [by apply map_disjoint_union_r|]. split; [done|]. by exists h2, h3.
    - intros P Q R [H]; split; simpl. intros h HP h' Hd HQ. apply H. by exists h, h'.
    - intros P Q R [H]; split; simpl. intros h (h1 & h2 & -> & Hd & HP & HQ).
      by apply H.
    - intros P Q [H]; split; simpl; naive_solver.
    - intros P; split; simpl; naive_solver.
    - split; simpl; naive_solver.
    - intros P Q; split; simpl; naive_solver.
    - intros A Φ; split; simpl; naive_solver.
    - intros P Q; split; simpl; naive_solver.
    - intros P Q; split; simpl. intros h [HP HQ]. exists ∅, h.
      rewrite left_id_L. split; [done|]. split; [apply map_disjoint_empty_l|done].
  Qed.

  Lemma hprop_bi_later_mixin : BiLaterMixin hprop_entails hprop_pure hprop_or
    hprop_impl hprop_forall hprop_exist hprop_sep hprop_persistently id.
  Proof. eapply bi_later_mixin_id; [done|apply hprop_bi_mixin]. Qed.

  Canonical Structure hpropI : bi :=
    {| bi_ofe_mixin := ofe_mixin_of hprop;
       bi_bi_mixin := hprop_bi_mixin; bi_bi_later_mixin := hprop_bi_later_mixin |}.

  Global Instance hprop_pure_forall : BiPureForall hpropI.
  Proof. intros A φ. split; simpl. naive_solver. Qed.
End hprop.
Global Arguments HProp {_} _.
Bind Scope bi_scope with hprop.
Global Arguments hprop_holds {_} _ _.

(** Unfolding lemmas used to leave the logic. *)
Section unfold.
  Context {C : Type}.
  Implicit Types P Q : hprop C.
  Lemma hprop_entails_eq P Q : (P ⊢ Q) ↔ ∀ h, P h → Q h.
  Proof. split; [by intros [H]|by intros H; constructor]. Qed.
  Lemma hprop_sep_eq P Q h :
    (P ∗ Q)%I h ↔ ∃ h1 h2, h = h1 ∪ h2 ∧ h1 ##ₘ h2 ∧ P h1 ∧ Q h2.
  Proof. done. Qed.
  Lemma hprop_pure_eq (φ : Prop) h : (⌜ φ ⌝ : hprop C)%I h ↔ φ.
  Proof. done. Qed.
  Lemma hprop_emp_eq h : (emp : hprop C)%I h ↔ h = ∅.
  Proof. done. Qed.
  Lemma hprop_exist_eq {A} (Φ : A → hprop C) h : (∃ a, Φ a)%I h ↔ ∃ a, Φ a h.
  Proof. done. Qed.
  Lemma hprop_and_eq P Q h : (P ∧ Q)%I h ↔ P h ∧ Q h.
  Proof. done. Qed.
  Lemma hprop_wand_eq P Q h : (P -∗ Q)%I h ↔ ∀ h', h ##ₘ h' → P h' → Q (h ∪ h').
  Proof. done. Qed.
  Lemma hprop_affinely_pure_eq (φ : Prop) h : (<affine> ⌜ φ ⌝ : hprop C)%I h ↔ h = ∅ ∧ φ.
  Proof. done. Qed.
End unfold.

(** Pure facts owning no memory (the plain [⌜ φ ⌝] would own anything). *)
Notation "⌞ φ ⌟" := (<affine> ⌜ φ ⌝)%I (at level 1, φ at level 200) : bi_scope.

(** Points-to and "heap has at least [n] cells". *)
Definition pt {C} (l : loc) (c : C) : hprop C := HProp (λ h, h = {[ l := c ]}).
Notation "l ↦ c" := (pt l c) (at level 20, format "l  ↦  c") : bi_scope.

Lemma pt_eq {C} l (c : C) h : pt l c h ↔ h = {[ l := c ]}.
Proof. done. Qed.

Definition sz {C} (n : nat) : hprop C := HProp (λ h, n ≤ size h).

(** What the environment may do: [mA]: allocation may fail, [mC]: element
    copies may throw. *)
Record mode := Mode { mA : bool; mC : bool }.

Definition mode_ok {C} (md : mode) (m : mem C) : Prop :=
  (mA md = false → Forall (.= false) (aorc m)) ∧
  (mC md = false → Forall (.= false) (corc m)).

Definition wf {C} (m : mem C) : Prop :=
  ∀ l, is_Some (blk m !! l) → (l < nxt m)%positive.

Definition good {C} (md : mode) (m : mem C) : Prop := wf m ∧ mode_ok md m.

Definition wp {C A} (md : mode) (f : M C A) (Q : A → hprop C) (R : exn → hprop C) : hprop C :=
  HProp (λ h, ∀ m hf, good md m → h ##ₘ hf → blk m = h ∪ hf →
    match f m with
    | Ok a m' => good md m' ∧ ∃ h', h' ##ₘ hf ∧ blk m' = h' ∪ hf ∧ Q a h'
    | Exn e m' => good md m' ∧ ∃ h', h' ##ₘ hf ∧ blk m' = h' ∪ hf ∧ R e h'
    | UB | Div => False
    end).

Section rules.
  Context {C : Type}.
  Implicit Types (P : hprop C) (md : mode) (R : exn → hprop C).

  Lemma pt_excl l (c1 c2 : C) : l ↦ c1 -∗ l ↦ c2 -∗ False.
  Proof.
    apply bi.wand_intro_l. split.
    intros h (h1 & h2 & -> & Hd & H1 & H2). apply (proj1 (pt_eq _ _ _)) in H1, H2. subst.
    by apply map_disjoint_singleton_l in Hd; rewrite lookup_singleton in Hd.
  Qed.

  Lemma pt_ne l1 l2 (c1 c2 : C) : l1 ↦ c1 -∗ l2 ↦ c2 -∗ ⌜l1 ≠ l2⌝.
  Proof.
    iIntros "H1 H2". destruct (decide (l1 = l2)) as [->|]; [|by iPureIntro].
    iDestruct (pt_excl with "H1 H2") as %[].
  Qed.

  Lemma sz_pt l (c : C) : l ↦ c ⊢ sz 1.
  Proof. split. intros h Hh. apply (proj1 (pt_eq _ _ _)) in Hh. subst. simpl. by rewrite map_size_singleton. Qed.
  Lemma sz_sep n1 n2 : (sz n1 ∗ sz n2 : hprop C) ⊢ sz (n1 + n2).
  Proof.
    split. intros h (h1 & h2 & -> & Hd & H1 & H2). simpl in *.
    rewrite map_size_disj_union //. lia.
  Qed.
  Lemma sz_0 P : P ⊢ sz 0.
  Proof. split. intros h _. simpl. lia. Qed.
  Lemma sz_mono n1 n2 : n2 ≤ n1 → (sz n1 : hprop C) ⊢ sz n2.
  Proof. intros. split. intros h. simpl. lia. Qed.
  Global Instance sz_absorbing n : Absorbing (sz n : hprop C).
  Proof.
    rewrite /Absorbing /bi_absorbingly. etrans; [|apply (sz_sep 0 n)].
    apply bi.sep_mono; [apply sz_0|done].
  Qed.

  Lemma wp_ret {A} md (a : A) Q R : Q a ⊢ wp md (ret a) Q R.
  Proof.
    split. intros h HQ m hf Hm Hd Hb. simpl. split; [done|]. by exists h.
  Qed.

  Lemma wp_throw {A} md e (Q : A → hprop C) R : R e ⊢ wp md (throw e) Q R.
  Proof.
    split. intros h HQ m hf Hm Hd Hb. simpl. split; [done|]. by exists h.
  Qed.

  Lemma wp_bind {A B} md (f : M C A) (k : A → M C B) Q R :
    wp md f (λ a, wp md (k a) Q R) R ⊢ wp md (bind f k) Q R.
  Proof.
    split. intros h H m hf Hm Hd Hb. specialize (H m hf Hm Hd Hb). unfold bind.
    destruct (f m) as [a m'|e m'| |]; [|done..].
    destruct H as (Hm' & h' & Hd' & Hb' & HQ). exact (HQ m' hf Hm' Hd' Hb').
  Qed.

  Lemma wp_catch {A} md (f : M C A) (k : exn → M C A) Q R :
    wp md f Q (λ e, wp md (k e) Q R) ⊢ wp md (catch f k) Q R.
  Proof.
    split. intros h H m hf Hm Hd Hb. specialize (H m hf Hm Hd Hb). unfold catch.
    destruct (f m) as [a m'|e m'| |]; [done| |done..].
    destruct H as (Hm' & h' & Hd' & Hb' & HQ). exact (HQ m' hf Hm' Hd' Hb').
  Qed.

  Lemma wp_wand {A} md (f : M C A) Q Q' R R' :
    wp md f Q R -∗ ((∀ a, Q a -∗ Q' a) ∧ (∀ e, R e -∗ R' e)) -∗ wp md f Q' R'.
  Proof.
    apply bi.wand_intro_l.
    split. intros h (h2 & h1 & -> & Hd12 & [HQ HR] & H) m hf Hm Hd Hb.
    apply map_disjoint_union_l in Hd as [Hd2 Hd1].
    specialize (H m (h2 ∪ hf) Hm).
    feed specialize H.
    { apply map_disjoint_union_r; split; [done|done]. }
    { rewrite Hb. rewrite (map_union_comm h2 h1) //. by rewrite assoc_L. }
    destruct (f m) as [a m'|e m'| |]; [| |done..].
    - destruct H as (Hm' & h' & Hd' & Hb' & HQ'). split; [done|].
      apply map_disjoint_union_r in Hd' as [??].
      exists (h2 ∪ h'). split; [apply map_disjoint_union_l; split; done|].
      split.
      + rewrite Hb' assoc_L. f_equal. by apply map_union_comm.
      + by apply (HQ a).
    - destruct H as (Hm' & h' & Hd' & Hb' & HQ'). split; [done|].
      apply map_disjoint_union_r in Hd' as [??].
      exists (h2 ∪ h'). split; [apply map_disjoint_union_l; split; done|].
      split.
      + rewrite Hb' assoc_L. f_equal. by apply map_union_comm.
      + by apply (HR e).
  Qed.

  Lemma wp_mono {A} md (f : M C A) Q Q' R R' :
    (∀ a, Q a ⊢ Q' a) → (∀ e, R e ⊢ R' e) → wp md f Q R ⊢ wp md f Q' R'.
  Proof.
    iIntros (HQ HR) "H". iApply (wp_wand with "H"). iSplit.
    - iIntros (a) "H". by iApply HQ.
    - iIntros (a) "H". by iApply HR.
  Qed.

  Lemma wp_on_throw {A} md (f : M C A) (k : M C unit) Q R :
    wp md f Q (λ e, wp md k (λ _, R e) R) ⊢ wp md (on_throw f k) Q R.
  Proof.
    etrans; [|apply wp_catch]. apply wp_mono; [done|]. intros e.
    etrans; [|apply wp_bind]. apply wp_mono; [|done]. intros _. apply wp_throw.
  Qed.

  Lemma wp_frame_r {A} md (f : M C A) Q R P :
    wp md f Q R ∗ P ⊢ wp md f (λ a, Q a ∗ P) (λ e, R e ∗ P).
  Proof.
    iIntros "[H HP]". iApply (wp_wand with "H"). iSplit; iIntros (a) "H"; iFrame.
  Qed.

  Lemma wp_alloc md (c : C) Q R :
    ((⌜mA md = true⌝ → R BadAlloc) ∧ (∀ l, l ↦ c -∗ Q l)) ⊢ wp md (alloc c) Q R.
  Proof.
    split. intros h [HR HQ] m hf [Hwf [Hm1 Hm2]] Hd Hb. unfold alloc.
    destruct (aorc m) as [|[] o] eqn:Ho.
    2: { split; [split|].
      - intros l. simpl. apply Hwf.
      - split; simpl; [|done]. intros Hf. specialize (Hm1 Hf).
        rewrite ?Ho in Hm1. by inversion Hm1.
      - exists h. split; [done|]. split; [done|]. apply HR. simpl.
        destruct (mA md); [done|]. specialize (Hm1 eq_refl). by inversion Hm1. }
    all: assert (blk m !! nxt m = None) as Hn by
      (apply eq_None_not_Some; intros ?%Hwf; lia);
      rewrite Hb in Hn; apply lookup_union_None in Hn as [Hn1 Hn2].
    all: split; [split|].
    1,4: intros l [c' Hl]; simpl in *; apply lookup_insert_Some in Hl as [[<- _]|[_ Hl]];
        [lia|]; assert (l < nxt m)%positive by (apply Hwf; eauto); lia.
    1,3: split; simpl; intros Hf; [specialize (Hm1 Hf); try inversion Hm1; subst; try constructor; done
                                   |by apply Hm2].
    all: exists (h ∪ {[nxt m := c]}); split;
      [apply map_disjoint_union_l; split; [done|]; by apply map_disjoint_singleton_l|].
    all: split; [|apply (HQ (nxt m)); [by apply map_disjoint_singleton_r|done]].
    all: simpl; rewrite Hb; rewrite insert_union_l insert_union_singleton_r; done.
  Qed.

  Lemma wp_new md (c : C) Q R :
    (∀ l, l ↦ c -∗ Q l) ⊢ wp md (new c) Q R.
  Proof.
    split. intros h HQ m hf [Hwf [Hm1 Hm2]] Hd Hb. unfold new.
    assert (blk m !! nxt m = None) as Hn by
      (apply eq_None_not_Some; intros ?%Hwf; lia).
    rewrite Hb in Hn; apply lookup_union_None in Hn as [Hn1 Hn2].
    split; [split|].
    - intros l [c' Hl]; simpl in *; apply lookup_insert_Some in Hl as [[<- _]|[_ Hl]];
        [lia|]; assert (l < nxt m)%positive by (apply Hwf; eauto); lia.
    - done.
    - exists (h ∪ {[nxt m := c]}); split;
      [apply map_disjoint_union_l; split; [done|]; by apply map_disjoint_singleton_l|].
      split; [|apply (HQ (nxt m)); [by apply map_disjoint_singleton_r|done]].
      simpl; rewrite Hb; rewrite insert_union_l insert_union_singleton_r; done.
  Qed.

  Lemma wp_free md l (c : C) Q R :
    l ↦ c ∗ Q tt ⊢ wp md (free l) Q R.
  Proof.
    split. intros h (h1 & h2 & -> & Hd12 & H1 & HQ) m hf [Hwf Hm] Hd Hb.
    apply (proj1 (pt_eq _ _ _)) in H1; subst h1. apply map_disjoint_union_l in Hd as [Hd1 Hd2].
    unfold free. rewrite Hb. rewrite -assoc_L -insert_union_singleton_l lookup_insert.
    split; [split|].
    - intros l' Hl; simpl in *. rewrite lookup_delete_is_Some in Hl.
      apply Hwf. rewrite Hb -assoc_L -insert_union_singleton_l. by destruct Hl as [_ Hl].
    - done.
    - exists h2. split; [done|]. split; [|done]. simpl.
      rewrite delete_insert //. apply lookup_union_None; split.
      + by apply map_disjoint_singleton_l in Hd12.
      + by apply map_disjoint_singleton_l in Hd1.
  Qed.

  Lemma wp_load md l (c : C) Q R :
    l ↦ c ∗ (l ↦ c -∗ Q c) ⊢ wp md (load l) Q R.
  Proof.
    split. intros h (h1 & h2 & -> & Hd12 & H1 & HQ) m hf [Hwf Hm] Hd Hb.
    apply (proj1 (pt_eq _ _ _)) in H1; subst h1. unfold load. rewrite Hb -assoc_L -insert_union_singleton_l lookup_insert.
    split; [done|]. exists ({[l:=c]} ∪ h2). split; [done|]. split; [done|].
    rewrite map_union_comm //. by apply HQ.
  Qed.

  Lemma wp_store md l (c c' : C) Q R :
    l ↦ c ∗ (l ↦ c' -∗ Q tt) ⊢ wp md (store l c') Q R.
  Proof.
    split. intros h (h1 & h2 & -> & Hd12 & H1 & HQ) m hf [Hwf Hm] Hd Hb.
    apply (proj1 (pt_eq _ _ _)) in H1; subst h1. unfold store.
    apply map_disjoint_union_l in Hd as [Hd1 Hd2].
    rewrite Hb -assoc_L -insert_union_singleton_l lookup_insert.
    apply map_disjoint_singleton_l in Hd1. apply map_disjoint_singleton_l in Hd12.
    split; [split|].
    - intros l' Hl; simpl in *. rewrite insert_insert lookup_insert_is_Some' in Hl.
      apply Hwf. rewrite Hb -assoc_L -insert_union_singleton_l.
      by rewrite lookup_insert_is_Some'.
    - done.
    - exists (h2 ∪ {[l:=c']}). split.
      { apply map_disjoint_union_l; split; [done|]. by apply map_disjoint_singleton_l. }
      split.
      + simpl. rewrite insert_insert insert_union_l insert_union_singleton_r //.
      + apply HQ; [|done]. by apply map_disjoint_singleton_r.
  Qed.

  Lemma wp_may_throw md Q R :
    ((⌜mC md = true⌝ → R CopyThrow) ∧ Q tt) ⊢ wp md (may_throw (C:=C)) Q R.
  Proof.
    split. intros h [HR HQ] m hf [Hwf [Hm1 Hm2]] Hd Hb. unfold may_throw.
    destruct (corc m) as [|[] o] eqn:Ho.
    2: { split; [split|].
      - intros l. simpl. apply Hwf.
      - split; simpl; [done|]. intros Hf. specialize (Hm2 Hf).
        by inversion Hm2.
      - exists h. split; [done|]. split; [done|]. apply HR. simpl.
        destruct (mC md); [done|]. specialize (Hm2 eq_refl). by inversion Hm2. }
    all: split; [split; [exact Hwf|]|by exists h].
    all: split; simpl; [done|]; intros Hf; specialize (Hm2 Hf); try inversion Hm2; subst; try constructor; done.
  Qed.

  Lemma wp_with_fuel {A} md (k : nat → M C A) n Q R :
    sz n ∧ (∀ fuel, ⌜n < fuel⌝ → wp md (k fuel) Q R) ⊢ wp md (with_fuel k) Q R.
  Proof.
    split. intros h [Hsz H] m hf Hm Hd Hb. unfold with_fuel.
    assert (n ≤ size h) as Hn by exact Hsz.
    assert (n < S (size (blk m))) as Hn' by (rewrite Hb map_size_disj_union //; lia).
    by apply (H (S (size (blk m))) Hn').
  Qed.
End rules.

