(** History theorems for any component whose operations meet [op_spec]. *)
From iris.proofmode Require Import tactics.
From Verif Require Export ClientProofs MemRun.

Notation mT := (Mode true false) (only parsing).
Notation mF := (Mode false false) (only parsing).

Section gen.
  Context {C L X Op Out : Type} (Φ : L → X → hprop C).
  Context (step : gmap nat X → Op → option (gmap nat X * Out)).
  Context (run : gmap nat L → Op → M C (gmap nat L * Out)).
  Context (ok : bool → Op → Prop).
  Context (ok_mono : ∀ b op, ok true op → ok b op).
  Context (ok_false : ∀ op, ok false op).
  Context (ops : ∀ md, mC md = false → op_spec step run (ok (mA md)) (objs Φ) md).
  Notation refines k := (refines_from step run ∅ ∅ (λ s, s = ∅) k).

  Lemma gen_refines ao co : no_fail co → refines (ok (bool_decide (¬ no_fail ao))) ao co.
  Proof using ops.
    intros Hco. apply (refines_sim _ _ _ _ _ _ (objs Φ)).
    - apply (ops (Mode _ _)). simpl. apply bool_decide_eq_false. tauto.
    - apply objs_empty.
    - intros env s ->. apply objs_gone.
  Qed.
  Lemma gen_fair ao co : no_fail ao → no_fail co → refines (λ _, True) ao co.
  Proof using ok_false ops.
    intros Hao Hco evs s env m Hh Hok.
    assert (bool_decide (¬ no_fail ao) = false) as Eb by (apply bool_decide_eq_false; tauto).
    destruct (gen_refines ao co Hco evs s env m Hh) as (H1 & H2 & H3 & H4).
    { rewrite Eb. eapply Forall_impl; [exact Hok|]. intros ev _. apply ok_false. }
    split; [done|]. split; [done|]. split; [|done].
    intros op _. apply H3. rewrite Eb. apply ok_false.
  Qed.
  Lemma gen_fail ao co : no_fail co → refines (ok true) ao co.
  Proof using ok_mono ops.
    intros Hco evs s env m Hh Hok.
    destruct (gen_refines ao co Hco evs s env m Hh) as (H1 & H2 & H3 & H4).
    { eapply Forall_impl; [exact Hok|]. intros ev. apply ok_mono. }
    split; [done|]. split; [done|]. split; [|done].
    intros op Hop. apply H3. by apply ok_mono.
  Qed.
  Lemma gen_reach (b : bool) ao co evs s env m :
    (b = false → no_fail ao) → no_fail co →
    hist step run ∅ ∅ (mem0 ao co) evs s env m →
    Forall (λ ev, ok b ev.1) evs →
    objs Φ env s (blk m) ∧ good (Mode b false) m.
  Proof using ops.
    intros Hb Hco Hh Hok.
    destruct (hist_sim _ _ _ _ (Mode b false) ∅ ∅ (mem0 ao co) evs s env m (ops (Mode b false) eq_refl) Hh Hok)
      as (_ & _ & Hg & Hr).
    - split; [by intros l; rewrite lookup_empty; intros []|]. split; [exact Hb|]. intros _. done.
    - apply (proj1 (hprop_entails_eq _ _) (objs_empty Φ)). by apply hprop_emp_eq.
    - done.
  Qed.
  (** one object of a reachable state *)
  Lemma objs_at env s h x hp :
    objs Φ env s hp → s !! h = Some x →
    ∃ l h', env !! h = Some l ∧ Φ l x h' ∧ h' ⊆ hp.
  Proof.
    intros Hr Hs. apply (proj1 (hprop_entails_eq _ _) (objs_read _ _ _ _ _ Hs)) in Hr as (l & Hr).
    apply pure_sep_inv in Hr as [Hl Hr]. apply hprop_sep_eq in Hr as (h3 & h4 & -> & Hd & Hv & _).
    exists l, h3. split; [done|]. split; [done|]. apply map_union_subseteq_l.
  Qed.
End gen.

(** Counting: if an object with abstract value [x] always owns [f x] (of some
    measure additive on disjoint memories), all objects own the sum. *)
Definition sum_of {X} (f : X → nat) (s : gmap nat X) : nat := map_fold (λ _ x n, f x + n) 0 s.
Lemma sum_of_empty {X} (f : X → nat) : sum_of f ∅ = 0.
Proof. apply map_fold_empty. Qed.
Lemma sum_of_insert {X} (f : X → nat) h x s :
  s !! h = None → sum_of f (<[h := x]> s) = f x + sum_of f s.
Proof.
  intros. unfold sum_of. rewrite (map_fold_insert_L (λ _ x n, f x + n)); [done|intros; lia|done].
Qed.

Section count.
  Context {C L X : Type} (Φ : L → X → hprop C) (f : X → nat) (meas : gmap loc C → nat).
  Context (meas_empty : meas ∅ = 0).
  Context (meas_union : ∀ h1 h2, h1 ##ₘ h2 → meas (h1 ∪ h2) = meas h1 + meas h2).
  Context (meas_obj : ∀ l x h, Φ l x h → meas h = f x).
  Lemma objs_count env s h : objs Φ env s h → meas h = sum_of f s.
  Proof using meas_empty meas_union meas_obj.
    revert env h. induction s as [|k x s Hk IH] using map_ind; intros env h Ho.
    - apply (proj1 (hprop_entails_eq _ _) (objs_gone Φ env)) in Ho. apply hprop_emp_eq in Ho as ->.
      by rewrite sum_of_empty.
    - apply (proj1 (hprop_entails_eq _ _) (objs_del Φ env (<[k := x]> s) k x (lookup_insert s k x))) in Ho as (l & Ho).
      apply pure_sep_inv in Ho as [Hl Ho]. apply hprop_sep_eq in Ho as (h1 & h2 & -> & Hd & H1 & H2).
      rewrite delete_insert // in H2. rewrite meas_union // sum_of_insert //.
      by rewrite (meas_obj _ _ _ H1) (IH _ _ H2).
  Qed.
End count.

(** A call whose failure may change things too. *)
Lemma run_both {C T X Y} md (P : hprop C) h m old (f : M C T) (Φ : T → X → hprop C) (cells : T → X → list loc)
    (post : T → X → mem C → Prop) (Ψ : exn → Y → hprop C) (cellsE : exn → Y → list loc)
    (postE : exn → Y → mem C → Prop) :
  good md m → exact P h → h ⊆ blk m → (∀ l, l ∈ old ↔ is_Some (h !! l)) →
  (∀ a x h' m', Φ a x h' → h' ⊆ blk m' → post a x m' ∧ ∀ l, l ∈ cells a x ↔ is_Some (h' !! l)) →
  (∀ e y h' m', Ψ e y h' → h' ⊆ blk m' → postE e y m' ∧ ∀ l, l ∈ cellsE e y ↔ is_Some (h' !! l)) →
  (P ⊢ wp md f (λ a, ∃ x, Φ a x) (λ e, ∃ y, Ψ e y)) →
  match f m with
  | Ok a m' => good md m' ∧ ∃ x, post a x m' ∧ replaces old m (cells a x) m'
  | Exn e m' => good md m' ∧ ∃ y, postE e y m' ∧ replaces old m (cellsE e y) m'
  | UB | Div => False
  end.
Proof.
  intros Hm HP Hs Ho HΦ HΨ Hw.
  pose proof (run_exact _ _ _ _ _ _ _ Hm HP Hs Hw) as H.
  destruct (f m) as [a m'|e m'| |]; [| |done..].
  - destruct H as (Hm' & h' & (x & Hx) & Hd & Hb). split; [done|].
    destruct (HΦ a x h' m' Hx) as [Hpost Hc]; [rewrite Hb; apply map_union_subseteq_l|].
    exists x. split; [done|]. by eapply owned_replaces.
  - destruct H as (Hm' & h' & (x & Hx) & Hd & Hb). split; [done|].
    destruct (HΨ e x h' m' Hx) as [Hpost Hc]; [rewrite Hb; apply map_union_subseteq_l|].
    exists x. split; [done|]. by eapply owned_replaces.
Qed.
