(** Sets and maps as memories: [t_holds] and the separation-logic predicate. *)
From iris.proofmode Require Import tactics.
From Verif Require Import HistGen ModelTree SpecTree TreeFacts TreeProofs.

Section mem.
  Context {X : Type}.
  Implicit Types (t l r : tree X) (m : mem (tcell X)).

  Fixpoint bheap (p : option loc) t : gmap loc (tcell X) :=
    match t with
    | E => ∅
    | T n x c l r => <[n := TNode (Some x) (troot l) (troot r) p c]> (bheap (Some n) l ∪ bheap (Some n) r)
    end.
  Definition theap (this : loc) t : gmap loc (tcell X) :=
    <[this := THead (troot t) (least t) (length (nodes t))]> (bheap None t).

  Lemma bheap_dom p t q : is_Some (bheap p t !! q) ↔ q ∈ (nodes t).*1.
  Proof.
    revert p. induction t as [|n x c l IHl r IHr]; intros p; simpl.
    - rewrite lookup_empty. split; [by intros []|by intros ?%elem_of_nil].
    - rewrite lookup_insert_is_Some' lookup_union_is_Some IHl IHr fmap_app fmap_cons elem_of_app elem_of_cons.
      naive_solver.
  Qed.
  Lemma nodes_nodup n x c l r :
    NoDup (nodes (T n x c l r)).*1 →
    NoDup (nodes l).*1 ∧ NoDup (nodes r).*1 ∧ n ∉ (nodes l).*1 ∧ n ∉ (nodes r).*1 ∧
    (∀ q, q ∈ (nodes l).*1 → q ∉ (nodes r).*1).
  Proof.
    simpl. rewrite fmap_app fmap_cons NoDup_app NoDup_cons. intros (H1 & H2 & H3 & H4).
    split; [done|]. split; [done|]. split; [|split; [done|]].
    - intros Hn. apply (H2 _ Hn). apply elem_of_list_here.
    - intros q Hq Hr. apply (H2 _ Hq). by apply elem_of_list_further.
  Qed.
  Lemma bheap_disj p l q r :
    (∀ n, n ∈ (nodes l).*1 → n ∉ (nodes r).*1) → bheap p l ##ₘ bheap q r.
  Proof.
    intros H. apply map_disjoint_spec. intros n c1 c2 H1 H2. apply (H n); eapply bheap_dom; eauto.
  Qed.
  Lemma bheap_exact p t : NoDup (nodes t).*1 → exact (tseg p t) (bheap p t).
  Proof.
    revert p. induction t as [|n x c l IHl r IHr]; intros p Hnd; [apply exact_emp|].
    apply nodes_nodup in Hnd as (H1 & H2 & H3 & H4 & H5). simpl. rewrite insert_union_singleton_l.
    apply exact_sep; [apply exact_pt|apply exact_sep; [by apply IHl|by apply IHr|by apply bheap_disj]|].
    apply map_disjoint_singleton_l, eq_None_not_Some. rewrite lookup_union_is_Some !bheap_dom. naive_solver.
  Qed.
  Lemma theap_exact this t : NoDup (this :: (nodes t).*1) → exact (tobj this t) (theap this t).
  Proof.
    rewrite NoDup_cons. intros [Hn Hnd]. rewrite /theap insert_union_singleton_l.
    apply exact_sep; [apply exact_pt|by apply bheap_exact|].
    apply map_disjoint_singleton_l, eq_None_not_Some. by rewrite bheap_dom.
  Qed.
  Lemma theap_dom this t q : q ∈ t_cells this t ↔ is_Some (theap this t !! q).
  Proof. rewrite /theap lookup_insert_is_Some' bheap_dom /t_cells elem_of_cons. naive_solver. Qed.
  Lemma below_heap m p t : NoDup (nodes t).*1 → t_below m p t ↔ bheap p t ⊆ blk m.
  Proof.
    revert p. induction t as [|n x c l IHl r IHr]; intros p Hnd.
    - simpl. split; [intros _; apply map_empty_subseteq|done].
    - apply nodes_nodup in Hnd as (H1 & H2 & H3 & H4 & H5). simpl. rewrite IHl // IHr //.
      assert (bheap (Some n) l ##ₘ bheap (Some n) r) as Hd by by apply bheap_disj.
      assert ((bheap (Some n) l ∪ bheap (Some n) r) !! n = None) as Hnone.
      { apply eq_None_not_Some. rewrite lookup_union_is_Some !bheap_dom. naive_solver. }
      split.
      + intros (Hn & Hl & Hr). apply insert_subseteq_l; [done|]. by apply map_union_least.
      + intros Hs. assert (bheap (Some n) l ∪ bheap (Some n) r ⊆ blk m) as Hs'.
        { etrans; [|exact Hs]. by apply insert_subseteq. }
        split; [|split].
        * eapply lookup_weaken; [apply lookup_insert|exact Hs].
        * etrans; [apply map_union_subseteq_l|exact Hs'].
        * etrans; [by apply map_union_subseteq_r|exact Hs'].
  Qed.
  Lemma t_holds_heap m this t :
    t_holds m this t ↔ NoDup (this :: (nodes t).*1) ∧ theap this t ⊆ blk m.
  Proof.
    unfold t_holds. split.
    - intros (Hnd & Ht & Hb). split; [done|]. apply NoDup_cons in Hnd as [Hn Hnd].
      apply insert_subseteq_l; [done|]. by apply below_heap.
    - intros [Hnd Hs]. split; [done|]. apply NoDup_cons in Hnd as [Hn Hnd]. split.
      + eapply lookup_weaken; [apply lookup_insert|exact Hs].
      + apply below_heap; [done|]. etrans; [|exact Hs]. apply insert_subseteq, eq_None_not_Some. by rewrite bheap_dom.
  Qed.
  Lemma tobj_nodup this t h : tobj this t h → NoDup (this :: (nodes t).*1).
  Proof. intros Hl. by apply (proj1 (hprop_entails_eq _ _) (W_nodup this t _ _)) in Hl. Qed.
  Lemma tobj_holds this t h m : tobj this t h → h ⊆ blk m → t_holds m this t ∧ h = theap this t.
  Proof.
    intros Hl Hs. pose proof (tobj_nodup _ _ _ Hl) as Hnd.
    apply (theap_exact _ _ Hnd) in Hl as ->. split; [|done]. by apply t_holds_heap.
  Qed.
  Lemma tobj_cells this t h : tobj this t h → ∀ q, q ∈ t_cells this t ↔ is_Some (h !! q).
  Proof.
    intros Hl q. destruct (tobj_holds _ _ _ (Mem h 1%positive [] []) Hl) as [_ ->]; [done|]. apply theap_dom.
  Qed.
  Lemma bheap_size p t : NoDup (nodes t).*1 → size (bheap p t) = length (nodes t).
  Proof.
    revert p. induction t as [|n x c l IHl r IHr]; intros p Hnd; [apply map_size_empty|].
    apply nodes_nodup in Hnd as (H1 & H2 & H3 & H4 & H5). simpl.
    rewrite map_size_insert_None; [|apply eq_None_not_Some; rewrite lookup_union_is_Some !bheap_dom; naive_solver].
    rewrite map_size_disj_union; [|by apply bheap_disj]. rewrite IHl // IHr // app_length /=. lia.
  Qed.
  Lemma tobj_size this t h : tobj this t h → size h = S (length (nodes t)).
  Proof.
    intros Hl. pose proof (tobj_nodup _ _ _ Hl) as Hnd.
    apply (theap_exact _ _ Hnd) in Hl as ->. apply NoDup_cons in Hnd as [Hn Hnd].
    rewrite /theap map_size_insert_None; [|apply eq_None_not_Some; by rewrite bheap_dom]. by rewrite bheap_size.
  Qed.

  (** calls on one container *)
  Lemma t_run_to {A} m this t (f : M (tcell X) A) (post : A → tree X → Prop) :
    may_fail_alloc m → t_holds m this t →
    (tobj this t ⊢ wp mT f (λ a, ∃ t', ⌞post a t'⌟ ∗ tobj this t') (unch mT (tobj this t))) →
    runs_to m (t_cells this t) (f m) (λ a m' new, ∃ t',
      (post a t' ∧ t_holds m' this t') ∧ new = t_cells this t').
  Proof.
    intros Hm [Hnd Hs]%t_holds_heap Hw.
    eapply (run_to (tobj this t) (theap this t) m _ f
             (λ a t', ⌞post a t'⌟ ∗ tobj this t')%I (λ a t', t_cells this t')
             (λ a t' m', post a t' ∧ t_holds m' this t')); [done|by apply theap_exact|done|apply theap_dom| |].
    - intros a x h' m' [Hp Hl]%pure_sep_inv Hs'. split; [split; [done|]; by eapply tobj_holds|].
      by apply tobj_cells.
    - etrans; [exact Hw|]. apply wp_mono; [done|]. intros e. iIntros "[[-> _] $]". done.
  Qed.
  Lemma t_run_quiet {A} m this t (f : M (tcell X) A) a t' md :
    good md m → t_holds m this t →
    (tobj this t ⊢ wp md f (λ b, ⌞b = a⌟ ∗ tobj this t') (λ _, False)) →
    ∃ m', f m = Ok a m' ∧ good md m' ∧ t_holds m' this t' ∧
      replaces (t_cells this t) m (t_cells this t') m'.
  Proof.
    intros Hm [Hnd Hs]%t_holds_heap Hw.
    pose proof (run_exact _ _ _ _ _ _ _ Hm (theap_exact _ _ Hnd) Hs Hw) as H.
    destruct (f m) as [b m'|e m'| |]; [| |done..].
    - destruct H as (Hm' & h' & [-> Hl]%pure_sep_inv & Hd & Hb). exists m'. split; [done|]. split; [done|].
      split.
      + eapply tobj_holds; [done|]. rewrite Hb. apply map_union_subseteq_l.
      + eapply owned_replaces; [exact Hs|apply theap_dom|by apply tobj_cells|done|done].
    - by destruct H as (_ & h' & [] & _).
  Qed.
End mem.
