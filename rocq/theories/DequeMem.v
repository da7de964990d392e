(** Deques as memories: [d_holds] and the separation-logic predicate. *)
From iris.proofmode Require Import tactics.
From Verif Require Import SLTac HistGen ModelDeque SpecDeque DequeProofs.

Section mem.
  Context {V : Type} (K : nat) (HK : 2 ≤ K).
  Implicit Types (d : dstate V) (cs : list loc) (g : nat → option V) (m : mem (dcell V)).

  Fixpoint cheap cs g : gmap loc (dcell V) :=
    match cs with
    | [] => ∅
    | c :: cs => <[c := DArr (g <$> seq 0 K)]> (cheap cs (λ p, g (K + p)))
    end.
  Definition dheap (this v : loc) cap cs d : gmap loc (dcell V) :=
    <[this := hdr_of K d v]> (<[v := DVec cap cs]> (cheap cs (slot d))).

  Lemma cheap_dom cs g q : is_Some (cheap cs g !! q) ↔ q ∈ cs.
  Proof using.
    revert g. induction cs as [|c cs IH]; intros g; simpl.
    - rewrite lookup_empty. split; [by intros []|by intros ?%elem_of_nil].
    - rewrite lookup_insert_is_Some' IH elem_of_cons. naive_solver.
  Qed.
  Lemma cheap_exact cs g : NoDup cs → exact (dcs K cs g) (cheap cs g).
  Proof using.
    revert g. induction cs as [|c cs IH]; intros g; [intros; apply exact_emp|].
    intros [Hc Hnd]%NoDup_cons. intros h.
    assert (dcs K (c :: cs) g h ↔ (c ↦ DArr (g <$> seq 0 K) ∗ dcs K cs (λ p, g (K + p)))%I h) as ->.
    { pose proof (dcs_cons K cs c g) as [E1 E2]%bi.equiv_entails. split; [apply (proj1 (hprop_entails_eq _ _) E1)|apply (proj1 (hprop_entails_eq _ _) E2)]. }
    simpl. rewrite insert_union_singleton_l. apply exact_sep; [apply exact_pt|by apply IH|].
    apply map_disjoint_singleton_l, eq_None_not_Some. by rewrite cheap_dom.
  Qed.
  Lemma cheap_sub cs g m : NoDup cs →
    cheap cs g ⊆ blk m ↔ ∀ j c, cs !! j = Some c → blk m !! c = Some (DArr (g <$> seq (j * K) K)).
  Proof using.
    revert g. induction cs as [|c cs IH]; intros g Hnd; simpl.
    - split; [done|]. intros _. apply map_empty_subseteq.
    - apply NoDup_cons in Hnd as [Hc Hnd].
      assert (cheap cs (λ p, g (K + p)) !! c = None) as Hn by (apply eq_None_not_Some; by rewrite cheap_dom).
      split.
      + intros Hs [|j] c' Hj; simplify_eq/=.
        * eapply lookup_weaken; [apply lookup_insert|exact Hs].
        * rewrite -(fmap_add_seq K (j * K) K) -list_fmap_compose.
          apply (IH (λ p, g (K + p)) Hnd); [|done]. etrans; [|exact Hs]. by apply insert_subseteq.
      + intros H. apply insert_subseteq_l; [by apply (H 0 c)|]. apply IH; [done|]. intros j c' Hj.
        rewrite (H (S j) c' Hj) /= -(fmap_add_seq K (j * K) K) -list_fmap_compose //.
  Qed.
  Lemma dheap_exact this v cap cs d : NoDup (this :: v :: cs) → dfits K d cs →
    exact (dobj K this v cap cs d) (dheap this v cap cs d).
  Proof using.
    intros Hnd Hf. rewrite !NoDup_cons not_elem_of_cons in Hnd. destruct Hnd as [[Hn1 Hn2] [Hn3 Hnd]].
    rewrite /dheap /dobj /dhv /hv -(left_id_L ∅ (∪) (<[this:=_]> _)). apply exact_sep; [by apply exact_pure| |apply map_disjoint_empty_l].
    rewrite insert_union_singleton_l insert_union_singleton_l. rewrite (assoc_L (∪)).
    apply exact_sep; [apply exact_sep; [apply exact_pt|apply exact_pt|]|by apply cheap_exact|].
    - by apply map_disjoint_singleton_l_2, lookup_singleton_ne.
    - apply map_disjoint_union_l. split; apply map_disjoint_singleton_l, eq_None_not_Some; by rewrite cheap_dom.
  Qed.
  Lemma dheap_dom this v cap cs d q : q ∈ d_cells this v cs ↔ is_Some (dheap this v cap cs d !! q).
  Proof using. rewrite /dheap !lookup_insert_is_Some' cheap_dom /d_cells !elem_of_cons. naive_solver. Qed.
  Lemma d_holds_heap m this v cap cs d :
    d_holds K m this v cap cs d ↔ NoDup (this :: v :: cs) ∧ dfits K d cs ∧ dheap this v cap cs d ⊆ blk m.
  Proof using.
    unfold d_holds, dfits. split.
    - intros (Hnd & H1 & H2 & Ht & Hv & Hc). split; [done|]. split; [done|].
      rewrite !NoDup_cons not_elem_of_cons in Hnd. destruct Hnd as [[Hn1 Hn2] [Hn3 Hnd]].
      apply insert_subseteq_l; [done|]. apply insert_subseteq_l; [done|]. by apply cheap_sub.
    - intros (Hnd & [H1 H2] & Hs). split; [done|]. split; [done|]. split; [done|].
      rewrite !NoDup_cons not_elem_of_cons in Hnd. destruct Hnd as [[Hn1 Hn2] [Hn3 Hnd]].
      assert (cheap cs (slot d) !! v = None) as Hv by (apply eq_None_not_Some; by rewrite cheap_dom).
      assert (<[v := DVec cap cs]> (cheap cs (slot d)) !! this = None) as Ht.
      { rewrite lookup_insert_ne //. apply eq_None_not_Some; by rewrite cheap_dom. }
      assert (<[v := DVec cap cs]> (cheap cs (slot d)) ⊆ blk m) as Hs'.
      { etrans; [|exact Hs]. by apply insert_subseteq. }
      split; [eapply lookup_weaken; [apply lookup_insert|exact Hs]|].
      split; [eapply lookup_weaken; [apply lookup_insert|exact Hs']|].
      apply cheap_sub; [done|]. etrans; [|exact Hs']. by apply insert_subseteq.
  Qed.
  Lemma dobj_nodup_all this v cap cs d : dobj K this v cap cs d ⊢ ⌜NoDup (this :: v :: cs)⌝.
  Proof using.
    iIntros "(_ & [H G] & HD)". iDestruct (dcs_nodup with "HD") as %Hnd. rewrite !NoDup_cons not_elem_of_cons.
    iAssert ⌜∀ q (c : dcell V), q ∈ cs → q ↦ c -∗ dcs K cs (slot d) -∗ False⌝%I as %Hex.
    { iPureIntro. intros q c [j Hj]%elem_of_list_lookup. iIntros "H HD".
      iDestruct (dcs_acc_ro _ _ _ _ _ Hj with "HD") as "[HD _]". iDestruct (pt_excl with "H HD") as %[]. }
    iDestruct (pt_ne with "H G") as %Hne.
    iAssert ⌜this ∉ cs⌝%I as %H1. { iIntros (Hin). iApply (Hex with "H HD"). done. }
    iAssert ⌜v ∉ cs⌝%I as %H2. { iIntros (Hin). iApply (Hex with "G HD"). done. }
    done.
  Qed.
  Lemma dobj_holds this v cap cs d h m :
    dobj K this v cap cs d h → h ⊆ blk m → d_holds K m this v cap cs d ∧ h = dheap this v cap cs d.
  Proof using.
    intros Hl Hs. pose proof (proj1 (hprop_entails_eq _ _) (dobj_nodup_all _ _ _ _ _) _ Hl) as Hnd.
    apply hprop_pure_eq in Hnd. pose proof Hl as [Hf _]%pure_sep_inv.
    apply (dheap_exact _ _ _ _ _ Hnd Hf) in Hl as ->. split; [|done]. by apply d_holds_heap.
  Qed.
  Lemma dobj_cells this v cap cs d h : dobj K this v cap cs d h → ∀ q, q ∈ d_cells this v cs ↔ is_Some (h !! q).
  Proof using.
    intros Hl q. destruct (dobj_holds _ _ _ _ _ _ (Mem h 1%positive [] []) Hl) as [_ ->]; [done|]. apply dheap_dom.
  Qed.
  Lemma cheap_size cs g : NoDup cs → size (cheap cs g) = length cs.
  Proof using.
    revert g. induction cs as [|c cs IH]; intros g; [intros; apply map_size_empty|].
    intros [Hc Hnd]%NoDup_cons. simpl. rewrite map_size_insert_None; [by rewrite IH|].
    apply eq_None_not_Some. by rewrite cheap_dom.
  Qed.
  Lemma dobj_size this v cap cs d h : dobj K this v cap cs d h → size h = 2 + dq_chunks d.
  Proof using.
    intros Hl. pose proof (proj1 (hprop_entails_eq _ _) (dobj_nodup_all _ _ _ _ _) _ Hl) as Hnd.
    apply hprop_pure_eq in Hnd. pose proof Hl as [Hf _]%pure_sep_inv.
    apply (dheap_exact _ _ _ _ _ Hnd Hf) in Hl as ->.
    rewrite !NoDup_cons not_elem_of_cons in Hnd. destruct Hnd as [[Hn1 Hn2] [Hn3 Hnd]].
    rewrite /dheap !map_size_insert_None; last first.
    { rewrite lookup_insert_ne //. apply eq_None_not_Some; by rewrite cheap_dom. }
    { apply eq_None_not_Some. by rewrite cheap_dom. }
    rewrite cheap_size // (proj1 Hf). done.
  Qed.

  (** a call on one deque that cannot fail *)
  Lemma d_run_quiet {A} m this v cap cs d (f : M (dcell V) A) a d' md :
    good md m → d_holds K m this v cap cs d →
    (dobj K this v cap cs d ⊢ wp md f (λ b, ⌞b = a⌟ ∗ dobj K this v cap cs d') (λ _, False)) →
    ∃ m', f m = Ok a m' ∧ good md m' ∧ d_holds K m' this v cap cs d' ∧
      replaces (d_cells this v cs) m (d_cells this v cs) m'.
  Proof using.
    intros Hm (Hnd & Hf & Hs)%d_holds_heap Hw.
    pose proof (run_exact _ _ _ _ _ _ _ Hm (dheap_exact _ _ _ _ _ Hnd Hf) Hs Hw) as H.
    destruct (f m) as [b m'|e m'| |]; [| |done..].
    - destruct H as (Hm' & h' & [-> Hl]%pure_sep_inv & Hd & Hb). exists m'. split; [done|]. split; [done|].
      split.
      + eapply dobj_holds; [done|]. rewrite Hb. apply map_union_subseteq_l.
      + eapply owned_replaces; [exact Hs|apply (dheap_dom this v cap cs d)|by eapply dobj_cells|done|done].
    - by destruct H as (_ & h' & [] & _).
  Qed.
End mem.
