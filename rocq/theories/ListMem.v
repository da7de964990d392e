(** Lists as memories: [l_holds] and the separation-logic predicate. *)
From iris.proofmode Require Import tactics.
From Verif Require Import HistGen ModelList SpecList ListProofs ListHist.

Section mem.
  Context {V : Type}.
  Implicit Types (nvs xs ys : list (loc * V)) (m : mem (lcell V)).

  Fixpoint dheap (p : loc) nvs (e : loc) : gmap loc (lcell V) :=
    match nvs with
    | [] => ∅
    | (n, v) :: r => <[n := LNode (first r e) p (Some v)]> (dheap n r e)
    end.
  Definition lheap (this : loc) nvs : gmap loc (lcell V) :=
    <[this := LHead (first nvs this) (final nvs this) (length nvs)]> (dheap this nvs this).

  Lemma dheap_dom p nvs e l : is_Some (dheap p nvs e !! l) ↔ l ∈ nvs.*1.
  Proof.
    revert p. induction nvs as [|[n v] r IH]; intros p; simpl.
    - rewrite lookup_empty. split; [by intros []|by intros ?%elem_of_nil].
    - rewrite lookup_insert_is_Some' IH elem_of_cons. naive_solver.
  Qed.
  Lemma dheap_exact p nvs e : NoDup nvs.*1 → exact (dls p nvs e) (dheap p nvs e).
  Proof.
    revert p. induction nvs as [|[n v] r IH]; intros p Hnd; simpl; [apply exact_emp|].
    rewrite fmap_cons NoDup_cons in Hnd. destruct Hnd as [Hn Hnd]. rewrite insert_union_singleton_l.
    apply exact_sep; [apply exact_pt|by apply IH|].
    apply map_disjoint_singleton_l, eq_None_not_Some. by rewrite dheap_dom.
  Qed.
  Lemma lheap_exact this nvs : NoDup (this :: nvs.*1) → exact (lobj this nvs) (lheap this nvs).
  Proof.
    rewrite NoDup_cons. intros [Hn Hnd]. rewrite /lheap insert_union_singleton_l.
    apply exact_sep; [apply exact_pt|by apply dheap_exact|].
    apply map_disjoint_singleton_l, eq_None_not_Some. by rewrite dheap_dom.
  Qed.
  Lemma lheap_dom this nvs l : l ∈ l_cells this nvs ↔ is_Some (lheap this nvs !! l).
  Proof. rewrite /lheap lookup_insert_is_Some' dheap_dom /l_cells elem_of_cons. naive_solver. Qed.

  Lemma dheap_lookup p xs n v ys e :
    NoDup (xs ++ (n, v) :: ys).*1 →
    dheap p (xs ++ (n, v) :: ys) e !! n = Some (LNode (first ys e) (final xs p) (Some v)).
  Proof.
    revert p. induction xs as [|[x vx] xs IH]; intros p Hnd; simpl.
    - by rewrite lookup_insert.
    - rewrite -app_comm_cons fmap_cons NoDup_cons in Hnd. destruct Hnd as [Hx Hnd]. rewrite lookup_insert_ne.
      + rewrite IH // final_cons //.
      + intros ->. apply Hx. rewrite fmap_app fmap_cons. set_solver.
  Qed.
  Lemma l_holds_heap m this nvs :
    l_holds m this nvs ↔ NoDup (this :: nvs.*1) ∧ lheap this nvs ⊆ blk m.
  Proof.
    split.
    - intros (Hnd & Ht & Hn). split; [done|]. apply map_subseteq_spec. intros l c Hl.
      rewrite /lheap in Hl. apply lookup_insert_Some in Hl as [[<- <-]|[Hne Hl]]; [done|].
      assert (l ∈ nvs.*1) as Hin by by eapply dheap_dom.
      apply elem_of_list_fmap in Hin as ([n v] & -> & Hin). apply elem_of_list_split in Hin as (xs & ys & ->).
      rewrite dheap_lookup in Hl; [|by apply NoDup_cons in Hnd as [_ ?]]. simplify_eq. by apply Hn.
    - intros [Hnd Hs]. split; [done|]. split.
      + eapply lookup_weaken; [|exact Hs]. apply lookup_insert.
      + intros xs n v ys ->. eapply lookup_weaken; [|exact Hs]. rewrite /lheap lookup_insert_ne.
        * apply dheap_lookup. by apply NoDup_cons in Hnd as [_ ?].
        * intros ->. apply NoDup_cons in Hnd as [Hni _]. apply Hni. rewrite fmap_app fmap_cons. set_solver.
  Qed.
  Lemma lobj_holds this nvs h m : lobj this nvs h → h ⊆ blk m → l_holds m this nvs ∧ h = lheap this nvs.
  Proof.
    intros Hl Hs. assert (NoDup (this :: nvs.*1)) as Hnd.
    { apply (proj1 (hprop_entails_eq _ _) (lobj_nodup this nvs)) in Hl. done. }
    apply (lheap_exact _ _ Hnd) in Hl as ->. split; [|done]. by apply l_holds_heap.
  Qed.
  Lemma lobj_cells this nvs h : lobj this nvs h → ∀ l, l ∈ l_cells this nvs ↔ is_Some (h !! l).
  Proof.
    intros Hl l. destruct (lobj_holds _ _ _ (Mem h 1%positive [] []) Hl) as [_ ->]; [done|]. apply lheap_dom.
  Qed.
  Lemma lobj_size this nvs h : lobj this nvs h → size h = S (length nvs).
  Proof.
    intros Hl. assert (NoDup (this :: nvs.*1)) as Hnd.
    { apply (proj1 (hprop_entails_eq _ _) (lobj_nodup this nvs)) in Hl. done. }
    apply (lheap_exact _ _ Hnd) in Hl as ->. apply NoDup_cons in Hnd as [Hn Hnd].
    rewrite /lheap map_size_insert_None; [|apply eq_None_not_Some; by rewrite dheap_dom]. f_equal. clear Hn.
    generalize this at 1. induction nvs as [|[n v] r IH]; intros p; simpl; [by rewrite map_size_empty|].
    rewrite fmap_cons NoDup_cons in Hnd. destruct Hnd as [Hn Hnd].
    rewrite map_size_insert_None; [|apply eq_None_not_Some; by rewrite dheap_dom]. by rewrite IH.
  Qed.

  (** calls on one list *)
  Lemma l_run_to {A} m this nvs (f : M (lcell V) A) (nvs' : loc → list (loc * V)) (post : A → loc → Prop) :
    may_fail_alloc m → l_holds m this nvs →
    (lobj this nvs ⊢ wp mT f (λ a, ∃ x, ⌞post a x⌟ ∗ lobj this (nvs' x)) (unch mT (lobj this nvs))) →
    runs_to m (l_cells this nvs) (f m) (λ a m' new, ∃ x : loc,
      (post a x ∧ l_holds m' this (nvs' x)) ∧ new = l_cells this (nvs' x)).
  Proof.
    intros Hm [Hnd Hs]%l_holds_heap Hw.
    eapply (run_to (lobj this nvs) (lheap this nvs) m _ f
             (λ a x, ⌞post a x⌟ ∗ lobj this (nvs' x))%I (λ a x, l_cells this (nvs' x))
             (λ a x m', post a x ∧ l_holds m' this (nvs' x))); [done|by apply lheap_exact|done|apply lheap_dom| |].
    - intros a x h' m' [Hp Hl]%pure_sep_inv Hs'. split; [split; [done|]; by eapply lobj_holds|].
      by apply lobj_cells.
    - etrans; [exact Hw|]. apply wp_mono; [done|]. intros e. iIntros "[[-> _] $]". done.
  Qed.
  Lemma l_run_quiet {A} m this nvs (f : M (lcell V) A) a nvs' md :
    good md m → l_holds m this nvs →
    (lobj this nvs ⊢ wp md f (λ b, ⌞b = a⌟ ∗ lobj this nvs') (λ _, False)) →
    ∃ m', f m = Ok a m' ∧ good md m' ∧ l_holds m' this nvs' ∧
      replaces (l_cells this nvs) m (l_cells this nvs') m'.
  Proof.
    intros Hm [Hnd Hs]%l_holds_heap Hw.
    pose proof (run_exact _ _ _ _ _ _ _ Hm (lheap_exact _ _ Hnd) Hs Hw) as H.
    destruct (f m) as [b m'|e m'| |]; [| |done..].
    - destruct H as (Hm' & h' & [-> Hl]%pure_sep_inv & Hd & Hb). exists m'. split; [done|]. split; [done|].
      split.
      + eapply lobj_holds; [done|]. rewrite Hb. apply map_union_subseteq_l.
      + eapply owned_replaces; [exact Hs|apply lheap_dom|by apply lobj_cells|done|done].
    - by destruct H as (_ & h' & [] & _).
  Qed.
End mem.
