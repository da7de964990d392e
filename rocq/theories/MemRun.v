(** From separation-logic triples to statements about memories. *)
From iris.proofmode Require Import tactics.
From Verif Require Import SLTac Hist HistProofs.

Section exact.
  Context {C : Type}.
  Implicit Types (P : hprop C) (h : gmap loc C) (m : mem C).

  Definition exact P h0 : Prop := ∀ h, P h ↔ h = h0.
  Lemma exact_emp : exact emp ∅.
  Proof. intros h. apply hprop_emp_eq. Qed.
  Lemma exact_pure (φ : Prop) : φ → exact ⌞φ⌟ ∅.
  Proof. intros Hφ h. rewrite hprop_affinely_pure_eq. naive_solver. Qed.
  Lemma exact_pt l (c : C) : exact (l ↦ c) {[l := c]}.
  Proof. intros h. apply pt_eq. Qed.
  Lemma exact_sep P Q hP hQ : exact P hP → exact Q hQ → hP ##ₘ hQ → exact (P ∗ Q) (hP ∪ hQ).
  Proof.
    intros HP HQ Hd h. rewrite hprop_sep_eq. split.
    - intros (h1 & h2 & -> & _ & ->%HP & ->%HQ). done.
    - intros ->. exists hP, hQ. rewrite HP HQ. done.
  Qed.

  Lemma pure_sep_inv (φ : Prop) P h : (⌞φ⌟ ∗ P)%I h → φ ∧ P h.
  Proof.
    intros (h1 & h2 & -> & _ & H1 & H2)%hprop_sep_eq.
    apply (proj1 (hprop_affinely_pure_eq _ _)) in H1 as [-> ?]. by rewrite left_id_L.
  Qed.
  Lemma owned_replaces m m' h h' old new :
    h ⊆ blk m → (∀ l, l ∈ old ↔ is_Some (h !! l)) → (∀ l, l ∈ new ↔ is_Some (h' !! l)) →
    h' ##ₘ blk m ∖ h → blk m' = h' ∪ blk m ∖ h → replaces old m new m'.
  Proof.
    intros Hs Ho Hn Hd Hb l. destruct (decide (l ∈ new)) as [Hin|Hin].
    - destruct (decide (l ∈ old)) as [Hi|Hi]; [by left|right].
      apply Hn in Hin as [c Hc]. eapply map_disjoint_Some_l in Hc; [|done].
      apply lookup_difference_None in Hc as [?|Hc]; [done|]. destruct Hi. by apply Ho.
    - assert (h' !! l = None) by (apply eq_None_not_Some; by rewrite -Hn).
      rewrite Hb lookup_union_r //. destruct (decide (l ∈ old)) as [Hi|Hi].
      + apply lookup_difference_None. right. by apply Ho.
      + rewrite Ho -eq_None_not_Some in Hi. apply option_eq. intros c. rewrite lookup_difference_Some. naive_solver.
  Qed.

  Lemma run_exact {A} md P h m (f : M C A) Q R :
    good md m → exact P h → h ⊆ blk m → (P ⊢ wp md f Q R) →
    match f m with
    | Ok a m' => good md m' ∧ ∃ h', Q a h' ∧ h' ##ₘ blk m ∖ h ∧ blk m' = h' ∪ blk m ∖ h
    | Exn e m' => good md m' ∧ ∃ h', R e h' ∧ h' ##ₘ blk m ∖ h ∧ blk m' = h' ∪ blk m ∖ h
    | UB | Div => False
    end.
  Proof.
    intros Hm HP Hs Hw. apply map_difference_union in Hs as HU.
    assert (h ##ₘ blk m ∖ h) as Hd by by apply map_disjoint_difference_r.
    pose proof (wp_frame_adequate _ _ _ _ _ _ h (blk m ∖ h) Hw Hm (eq_sym HU) Hd (proj2 (HP h) eq_refl)) as H.
    destruct (f m); [| |done..]; destruct H as (? & h' & ? & ? & ?); split; [done|by exists h'|done|by exists h'].
  Qed.

  Lemma run_to {T X} P h m old (f : M C T) (Φ : T → X → hprop C) (cells : T → X → list loc)
      (post : T → X → mem C → Prop) :
    may_fail_alloc m → exact P h → h ⊆ blk m → (∀ l, l ∈ old ↔ is_Some (h !! l)) →
    (∀ a x h' m', Φ a x h' → h' ⊆ blk m' → post a x m' ∧ ∀ l, l ∈ cells a x ↔ is_Some (h' !! l)) →
    (P ⊢ wp (Mode true false) f (λ a, ∃ x, Φ a x) (λ e, ⌞e = BadAlloc⌟ ∗ P)) →
    runs_to m old (f m) (λ a m' new, ∃ x, post a x m' ∧ new = cells a x).
  Proof.
    intros Hm%good_may_fail HP Hs Ho HΦ Hw.
    pose proof (run_exact _ _ _ _ _ _ _ Hm HP Hs Hw) as H. unfold runs_to.
    destruct (f m) as [a m'|e m'| |]; [| |done..].
    - destruct H as (Hm' & h' & (x & Hx) & Hd & Hb). split; [by apply good_may_fail'|].
      destruct (HΦ a x h' m' Hx) as [Hpost Hc]; [rewrite Hb; apply map_union_subseteq_l|].
      exists (cells a x). split; [by exists x|]. by eapply owned_replaces.
    - destruct H as (Hm' & h' & HE & Hd & Hb). apply hprop_sep_eq in HE as (h1 & h2 & -> & _ & H1 & H2).
      apply hprop_affinely_pure_eq in H1 as [-> H1]. apply HP in H2 as ->.
      rewrite left_id_L in Hb. rewrite map_difference_union // in Hb.
      split; [done|]. split; [by apply good_may_fail'|done].
  Qed.

  Lemma run_fair {T X} P h m old (f : M C T) (Φ : T → X → hprop C) (cells : T → X → list loc)
      (post : T → X → mem C → Prop) :
    fair m → exact P h → h ⊆ blk m → (∀ l, l ∈ old ↔ is_Some (h !! l)) →
    (∀ a x h' m', Φ a x h' → h' ⊆ blk m' → post a x m' ∧ ∀ l, l ∈ cells a x ↔ is_Some (h' !! l)) →
    (P ⊢ wp (Mode false false) f (λ a, ∃ x, Φ a x) (λ e, False)) →
    unthrown (f m) (λ a m', fair m' ∧ ∃ x, post a x m' ∧ replaces old m (cells a x) m').
  Proof.
    intros Hm%good_fair HP Hs Ho HΦ Hw.
    pose proof (run_exact _ _ _ _ _ _ _ Hm HP Hs Hw) as H. unfold unthrown.
    destruct (f m) as [a m'|e m'| |]; [| |done..].
    - destruct H as (Hm' & h' & (x & Hx) & Hd & Hb). split; [by apply good_fair'|].
      destruct (HΦ a x h' m' Hx) as [Hpost Hc]; [rewrite Hb; apply map_union_subseteq_l|].
      exists x. split; [done|]. by eapply owned_replaces.
    - destruct H as (_ & h' & HE & _). done.
  Qed.

  (** a computation that only reads *)
  Lemma wp_read {A} md P (f : M C A) a Q R :
    (∀ m h, P h → h ⊆ blk m → f m = Ok a m) → P -∗ (P -∗ Q a) -∗ wp md f Q R.
  Proof.
    intros Hf. apply bi.wand_intro_r. split.
    intros h (h1 & h2 & -> & Hd & HP & HQ) m hf Hm Hdf Hb.
    rewrite (Hf m h1 HP); last first.
    { rewrite Hb -assoc_L. apply map_union_subseteq_l. }
    split; [done|]. exists (h1 ∪ h2). split; [done|]. split; [done|].
    rewrite map_union_comm //. by apply HQ.
  Qed.
  Lemma wp_read_some {A} md P (f : M C A) (φ : A → Prop) Q R :
    (∀ m h, P h → h ⊆ blk m → ∃ a, f m = Ok a m ∧ φ a) →
    P -∗ (∀ a, ⌞φ a⌟ -∗ P -∗ Q a) -∗ wp md f Q R.
  Proof.
    intros Hf. apply bi.wand_intro_r. split.
    intros h (h1 & h2 & -> & Hd & HP & HQ) m hf Hm Hdf Hb.
    destruct (Hf m h1 HP) as (a & -> & Ha).
    { rewrite Hb -assoc_L. apply map_union_subseteq_l. }
    split; [done|]. exists (h1 ∪ h2). split; [done|]. split; [done|].
    assert ((P ∗ (∀ a, ⌞φ a⌟ -∗ P -∗ Q a) ⊢ Q a)%I) as HE.
    { apply bi.wand_elim_r'. rewrite (bi.forall_elim a). iIntros "H HP". iApply ("H" with "[//] HP"). }
    apply (proj1 (hprop_entails_eq _ _) HE). apply hprop_sep_eq. by exists h1, h2.
  Qed.
  Lemma wp_read_throw {A} md P (f : M C A) e Q R :
    (∀ m h, P h → h ⊆ blk m → f m = Exn e m) → P -∗ (P -∗ R e) -∗ wp md f Q R.
  Proof.
    intros Hf. apply bi.wand_intro_r. split.
    intros h (h1 & h2 & -> & Hd & HP & HQ) m hf Hm Hdf Hb.
    rewrite (Hf m h1 HP); last first.
    { rewrite Hb -assoc_L. apply map_union_subseteq_l. }
    split; [done|]. exists (h1 ∪ h2). split; [done|]. split; [done|].
    rewrite map_union_comm //. by apply HQ.
  Qed.

  Lemma pt_lookup l (c : C) h m : (l ↦ c)%I h → h ⊆ blk m → blk m !! l = Some c.
  Proof.
    intros ->%pt_eq Hs. eapply lookup_weaken; [apply lookup_singleton|done].
  Qed.
  Lemma sep_sub P Q h m : (P ∗ Q)%I h → h ⊆ blk m → ∃ h1 h2, P h1 ∧ Q h2 ∧ h1 ⊆ blk m ∧ h2 ⊆ blk m.
  Proof.
    intros (h1 & h2 & -> & Hd & HP & HQ)%hprop_sep_eq Hs. exists h1, h2. split; [done|]. split; [done|].
    split; (etrans; [|exact Hs]); [apply map_union_subseteq_l|by apply map_union_subseteq_r].
  Qed.
End exact.
