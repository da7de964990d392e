(** Proofs behind the list theorems of PropList.v. *)
From iris.proofmode Require Import tactics.
From Verif Require Import HistGen ClientThrow ModelList SpecList ListProofs ListHist ListMem.

Section props.
  Context {V : Type}.
  Implicit Types (nvs xs ys : list (loc * V)) (m : mem (lcell V)).
  Notation refines k := (refines_from (lspec (V:=V)) l_run ∅ ∅ (λ s, s = ∅) k).

  Lemma l_ok_mono b (op : lop V) : l_ok true op → l_ok b op.
  Proof. by destruct op. Qed.
  Lemma l_ok_false (op : lop V) : l_ok false op.
  Proof. by destruct op. Qed.
  Lemma l_refines_fair ao co : no_fail ao → no_fail co → refines (λ _, True) ao co.
  Proof. apply (gen_fair (lst (V:=V)) _ _ l_ok l_ok_false). apply l_op_spec. Qed.
  Lemma l_refines_fail ao co : no_fail co → refines (l_ok true) ao co.
  Proof. apply (gen_fail (lst (V:=V)) _ _ l_ok l_ok_mono). apply l_op_spec. Qed.
  Lemma l_reach (b : bool) ao co evs s env m :
    (b = false → no_fail ao) → no_fail co →
    hist (lspec (V:=V)) l_run ∅ ∅ (mem0 ao co) evs s env m →
    Forall (λ ev, l_ok b ev.1) evs →
    (∀ h vs, s !! h = Some vs → ∃ l nvs, env !! h = Some l ∧ l_holds m l nvs ∧ nvs.*2 = vs) ∧
    size (blk m) = map_fold (λ _ vs n, S (length vs) + n) 0 s.
  Proof.
    intros Hb Hco Hh Hok.
    destruct (gen_reach (lst (V:=V)) _ _ l_ok l_op_spec b ao co evs s env m Hb Hco Hh Hok) as [Hr _].
    split.
    - intros h vs Hs. destruct (objs_at _ _ _ _ _ _ Hr Hs) as (l & h' & Hl & (nvs & Hn) & Hsub).
      apply pure_sep_inv in Hn as [Hvs Hn].
      exists l, nvs. split; [done|]. split; [|done]. by eapply lobj_holds.
    - eapply (objs_count _ (λ vs, S (length vs)) size); [apply map_size_empty|by apply map_size_disj_union| |done].
      intros l x h (nvs & Hn). apply pure_sep_inv in Hn as [<- Hn]. rewrite fmap_length. by eapply lobj_size.
  Qed.

  (** ** Elements that throw *)
  Lemma l_refines_leaking ao co :
    refines_leaking (lspec (V:=V)) l_run ∅ ∅ (λ s, s = ∅) (l_ok true) (λ c, c = LRaw) ao co.
  Proof.
    apply (refines_leaking_sim _ _ _ _ _ _ (λ n env s, objs (lst (V:=V)) env s ∗ junk (LRaw (V:=V)) n)%I).
    - intros n env s op s' o Hok. apply l_op_leak. by apply l_ok_mono.
    - iIntros "_". iSplitL; [by iApply objs_empty|]. iExists []. by iSplit.
    - intros n env s h -> Hr. apply hprop_sep_eq in Hr as (h1 & h2 & -> & Hd & H1 & H2).
      apply (proj1 (hprop_entails_eq _ _) (objs_gone (lst (V:=V)) env)) in H1.
      assert (h1 = ∅) as -> by by apply hprop_emp_eq. rewrite left_id_L. by apply junk_inv.
  Qed.
  Lemma l_reach_any ao co evs s env m :
    hist (lspec (V:=V)) l_run ∅ ∅ (mem0 ao co) evs s env m →
    Forall (λ ev, l_ok true ev.1) evs →
    (∀ h vs, s !! h = Some vs → ∃ l nvs, env !! h = Some l ∧ l_holds m l nvs ∧ nvs.*2 = vs) ∧
    size (blk m) ≤ map_fold (λ _ vs n, S (length vs) + n) 0 s + copy_throws evs.
  Proof.
    intros Hh Hok.
    destruct (hist_sim_leak _ _ (l_ok true) (λ n env s, objs (lst (V:=V)) env s ∗ junk (LRaw (V:=V)) n)%I (Mode true true)
      0 ∅ ∅ (mem0 ao co) evs s env m (l_op_leak (Mode true true)) Hh Hok) as (_ & _ & _ & Hr).
    - split; [by intros l; rewrite lookup_empty; intros []|]. done.
    - apply (proj1 (hprop_entails_eq emp%I _)); [|by apply hprop_emp_eq].
      iIntros "_". iSplitL; [by iApply objs_empty|]. iExists []. by iSplit.
    - rewrite Nat.add_0_r in Hr. apply hprop_sep_eq in Hr as (h1 & h2 & Hb & Hd & H1 & H2). split.
      + intros h vs Hs. destruct (objs_at _ _ _ _ _ _ H1 Hs) as (l & h' & Hl & (nvs & Hn) & Hsub).
        apply pure_sep_inv in Hn as [Hvs Hn].
        exists l, nvs. split; [done|]. split; [|done]. eapply lobj_holds; [done|]. rewrite Hb.
        etrans; [done|]. apply map_union_subseteq_l.
      + rewrite Hb map_size_disj_union //. apply junk_inv in H2 as [H2 _].
        cut (size h1 = map_fold (λ _ vs n, S (length vs) + n) 0 s); [lia|].
        eapply (objs_count _ (λ vs, S (length vs)) size); [apply map_size_empty|by apply map_size_disj_union| |done].
        intros l x h (nvs & Hn). apply pure_sep_inv in Hn as [<- Hn]. rewrite fmap_length. by eapply lobj_size.
  Qed.

  (** ** Single calls *)
  Lemma c21_insert m this xs ys v :
    may_fail_alloc m → l_holds m this (xs ++ ys) →
    runs_to m (l_cells this (xs ++ ys)) (l_insert this (first ys this) (LVal v) m) (λ r m' new, ∃ n,
      (r = n ∧ l_holds m' this (xs ++ (n, v) :: ys)) ∧ new = l_cells this (xs ++ (n, v) :: ys)).
  Proof.
    intros Hm Hh. apply (l_run_to m this (xs ++ ys) _ (λ n, xs ++ (n, v) :: ys) (λ r n, r = n)); [done..|].
    iIntros "H". iApply (wp_l_insert_val mT with "H"). iSplit.
    - iIntros (e) "He $". by iApply lost_alloc.
    - iIntros (n) "H". iExists n. by iFrame.
  Qed.
  Lemma c21_insert_own m this xs ys n0 v i :
    may_fail_alloc m → l_holds m this (xs ++ ys) → (xs ++ ys) !! i = Some (n0, v) →
    runs_to m (l_cells this (xs ++ ys)) (l_insert this (first ys this) (LElem n0) m) (λ r m' new, ∃ n,
      (r = n ∧ l_holds m' this (xs ++ (n, v) :: ys)) ∧ new = l_cells this (xs ++ (n, v) :: ys)).
  Proof.
    intros Hm Hh Hi. apply (l_run_to m this (xs ++ ys) _ (λ n, xs ++ (n, v) :: ys) (λ r n, r = n)); [done..|].
    iIntros "H". iApply (wp_l_insert_own mT with "H"); [done|]. iSplit.
    - iIntros (e) "He $". by iApply lost_alloc.
    - iIntros (n) "H". iExists n. by iFrame.
  Qed.
  Lemma c21_emplace m this xs ys v :
    may_fail_alloc m → l_holds m this (xs ++ ys) →
    runs_to m (l_cells this (xs ++ ys)) (l_emplace this (first ys this) (LVal v) m) (λ r m' new, ∃ n,
      (r = n ∧ l_holds m' this (xs ++ (n, v) :: ys)) ∧ new = l_cells this (xs ++ (n, v) :: ys)).
  Proof.
    intros Hm Hh. apply (l_run_to m this (xs ++ ys) _ (λ n, xs ++ (n, v) :: ys) (λ r n, r = n)); [done..|].
    iIntros "H". iApply (wp_l_emplace mT with "H"). iSplit.
    - iIntros (e) "He $". by iApply lost_alloc.
    - iIntros (n) "H". iExists n. by iFrame.
  Qed.
  Lemma c24_push m this nvs v :
    may_fail_alloc m → l_holds m this nvs →
    (∀ f, f ∈ [l_push_back this (LVal v); l_push_back_rv this (LVal v)] →
       runs_to m (l_cells this nvs) (f m) (λ _ m' new, ∃ n,
         (True ∧ l_holds m' this (nvs ++ [(n, v)])) ∧ new = l_cells this (nvs ++ [(n, v)]))) ∧
    (∀ f, f ∈ [l_push_front this (LVal v); l_push_front_rv this (LVal v)] →
       runs_to m (l_cells this nvs) (f m) (λ _ m' new, ∃ n,
         (True ∧ l_holds m' this ((n, v) :: nvs)) ∧ new = l_cells this ((n, v) :: nvs))) ∧
    runs_to m (l_cells this nvs) (l_emplace_back this (LVal v) m) (λ r m' new, ∃ n,
      (r = v ∧ l_holds m' this (nvs ++ [(n, v)])) ∧ new = l_cells this (nvs ++ [(n, v)])) ∧
    runs_to m (l_cells this nvs) (l_emplace_front this (LVal v) m) (λ r m' new, ∃ n,
      (r = v ∧ l_holds m' this ((n, v) :: nvs)) ∧ new = l_cells this ((n, v) :: nvs)).
  Proof.
    intros Hm Hh. repeat split.
    - intros f Hf. apply (l_run_to m this nvs _ (λ n, nvs ++ [(n, v)]) (λ _ _, True)); [done..|].
      rewrite !elem_of_cons elem_of_nil in Hf. iIntros "H".
      destruct Hf as [->|[->|[]]];
        [iApply (wp_l_push_back mT with "H")|iApply (wp_l_push_back_rv mT with "H")]; iSplit.
      all: first [by iIntros (e) "He $"; iApply lost_alloc|iIntros (n) "H"; iExists n; by iFrame].
    - intros f Hf. apply (l_run_to m this nvs _ (λ n, (n, v) :: nvs) (λ _ _, True)); [done..|].
      rewrite !elem_of_cons elem_of_nil in Hf. iIntros "H".
      destruct Hf as [->|[->|[]]];
        [iApply (wp_l_push_front mT with "H")|iApply (wp_l_push_front_rv mT with "H")]; iSplit.
      all: first [by iIntros (e) "He $"; iApply lost_alloc|iIntros (n) "H"; iExists n; by iFrame].
    - apply (l_run_to m this nvs _ (λ n, nvs ++ [(n, v)]) (λ r _, r = v)); [done..|].
      iIntros "H". iApply (wp_l_emplace_back mT with "H"); iSplit.
      all: first [by iIntros (e) "He $"; iApply lost_alloc|iIntros (n) "H"; iExists n; by iFrame].
    - apply (l_run_to m this nvs _ (λ n, (n, v) :: nvs) (λ r _, r = v)); [done..|].
      iIntros "H". iApply (wp_l_emplace_front mT with "H"); iSplit.
      all: first [by iIntros (e) "He $"; iApply lost_alloc|iIntros (n) "H"; iExists n; by iFrame].
  Qed.
  Lemma c21_erase m this xs n v ys :
    may_fail_alloc m → l_holds m this (xs ++ (n, v) :: ys) →
    ∃ m', l_erase this n m = Ok (first ys this) m' ∧ may_fail_alloc m' ∧ l_holds m' this (xs ++ ys) ∧
      replaces (l_cells this (xs ++ (n, v) :: ys)) m (l_cells this (xs ++ ys)) m'.
  Proof.
    intros Hm Hh. destruct (l_run_quiet m this (xs ++ (n, v) :: ys) (l_erase this n) (first ys this) (xs ++ ys) mT) as (m' & ?&?&?&?);
      [by apply good_may_fail|done| |].
    - iIntros "H". iApply (wp_l_erase with "H"). iIntros "$". done.
    - exists m'. split; [done|]. split; [by apply good_may_fail'|done].
  Qed.
  (** a held iterator: the element, its neighbours *)
  Lemma c21_iter m this xs n v ys :
    l_holds m this (xs ++ (n, v) :: ys) →
    l_value n m = Ok v m ∧ l_next n m = Ok (first ys this) m ∧ l_prev n m = Ok (final xs this) m.
  Proof.
    intros (_ & _ & Hn). specialize (Hn _ _ _ _ eq_refl).
    by rewrite /l_value /l_next /l_prev /bind /load /= Hn.
  Qed.

  (** ** Copy and assignment *)
  Lemma c24_copy m other ys :
    may_fail_alloc m → l_holds m other ys →
    runs_to m (l_cells other ys) (l_copy other m) (λ this m' new, ∃ xs,
      (xs.*2 = ys.*2 ∧ l_holds m' this xs ∧ l_holds m' other ys ∧
       (∀ l, l ∈ l_cells this xs → l ∉ l_cells other ys)) ∧ new = l_cells this xs ++ l_cells other ys).
  Proof.
    intros Hm [Hnd Hs]%l_holds_heap.
    eapply (run_to (lobj other ys) (lheap other ys) m _ (l_copy other)
             (λ this xs, ⌞xs.*2 = ys.*2⌟ ∗ lobj this xs ∗ lobj other ys)%I
             (λ this xs, l_cells this xs ++ l_cells other ys)
             (λ this xs m', xs.*2 = ys.*2 ∧ l_holds m' this xs ∧ l_holds m' other ys ∧
                (∀ l, l ∈ l_cells this xs → l ∉ l_cells other ys)));
      [done|by apply lheap_exact|done|apply lheap_dom| |].
    - intros this xs h' m' [Hp Hl]%pure_sep_inv Hs'.
      apply hprop_sep_eq in Hl as (h1 & h2 & -> & Hd & H1 & H2).
      assert (h1 ⊆ blk m') as Hs1 by (etrans; [apply map_union_subseteq_l|done]).
      assert (h2 ⊆ blk m') as Hs2 by (etrans; [by apply map_union_subseteq_r|done]).
      destruct (lobj_holds _ _ _ _ H1 Hs1) as [Hh1 _]. destruct (lobj_holds _ _ _ _ H2 Hs2) as [Hh2 _].
      split; [repeat (split; [done|])|].
      + intros l. rewrite (lobj_cells _ _ _ H1) (lobj_cells _ _ _ H2). intros [c1 E1] [c2 E2].
        by eapply map_disjoint_spec in Hd.
      + intros l. rewrite elem_of_app (lobj_cells _ _ _ H1) (lobj_cells _ _ _ H2) lookup_union_is_Some //.
    - iIntros "G". iApply (wp_l_copy mT with "G"). iSplit.
      + iIntros (e) "He $". iPoseProof (lost_alloc with "He") as "He"; [done|]. iDestruct "He" as %[-> _]. done.
      + iIntros (this xs Hx) "H G". iExists xs. by iFrame.
  Qed.

  (** assigning from another list: whatever happens the target is valid, and it
      has a prefix of the source, all of it if nothing failed *)
  Lemma c24_assign m this xs other ys :
    may_fail_alloc m → l_holds m this xs → l_holds m other ys →
    (∀ l, l ∈ l_cells this xs → l ∉ l_cells other ys) →
    match l_assign this other m with
    | Ok _ m' => ∃ zs, zs.*2 = ys.*2 ∧ l_holds m' this zs ∧ l_holds m' other ys ∧
        replaces (l_cells this xs ++ l_cells other ys) m (l_cells this zs ++ l_cells other ys) m'
    | Exn e m' => e = BadAlloc ∧ ∃ zs, zs.*2 `prefix_of` ys.*2 ∧ l_holds m' this zs ∧ l_holds m' other ys ∧
        replaces (l_cells this xs ++ l_cells other ys) m (l_cells this zs ++ l_cells other ys) m'
    | UB | Div => False
    end.
  Proof.
    intros Hm%good_may_fail [Hnd Hs]%l_holds_heap [Hnd' Hs']%l_holds_heap Hap.
    assert (lheap this xs ##ₘ lheap other ys) as Hd.
    { apply map_disjoint_spec. intros l c1 c2 H1 H2. apply (Hap l); apply lheap_dom; eauto. }
    assert (exact (lobj this xs ∗ lobj other ys) (lheap this xs ∪ lheap other ys)) as HE.
    { apply exact_sep; [by apply lheap_exact..|done]. }
    assert (lheap this xs ∪ lheap other ys ⊆ blk m) as Hsub by by apply map_union_least.
    assert (∀ l, l ∈ l_cells this xs ++ l_cells other ys ↔ is_Some ((lheap this xs ∪ lheap other ys) !! l)) as Hc.
    { intros l. rewrite elem_of_app !lheap_dom lookup_union_is_Some //. }
    assert (∀ zs h' m', (lobj this zs ∗ lobj other ys)%I h' →
      h' ##ₘ blk m ∖ (lheap this xs ∪ lheap other ys) →
      blk m' = h' ∪ blk m ∖ (lheap this xs ∪ lheap other ys) →
      l_holds m' this zs ∧ l_holds m' other ys ∧
      replaces (l_cells this xs ++ l_cells other ys) m (l_cells this zs ++ l_cells other ys) m') as Hfin.
    { intros zs h' m' Hl Hd' Hb. apply hprop_sep_eq in Hl as (h1 & h2 & -> & Hd12 & H1 & H2).
      assert (h1 ∪ h2 ⊆ blk m') as Hs12 by (rewrite Hb; apply map_union_subseteq_l).
      assert (h1 ⊆ blk m') as Hs1 by (etrans; [apply map_union_subseteq_l|done]).
      assert (h2 ⊆ blk m') as Hs2 by (etrans; [by apply map_union_subseteq_r|done]).
      split; [by eapply lobj_holds|]. split; [by eapply lobj_holds|].
      eapply owned_replaces; [exact Hsub|exact Hc| |exact Hd'|exact Hb].
      intros l. rewrite elem_of_app (lobj_cells _ _ _ H1) (lobj_cells _ _ _ H2) lookup_union_is_Some //. }
    pose proof (run_exact mT _ _ m (l_assign this other)
      (λ _, ∃ zs, ⌞zs.*2 = ys.*2⌟ ∗ lobj this zs ∗ lobj other ys)%I
      (λ e, ∃ zs, ⌞e = BadAlloc ∧ zs.*2 `prefix_of` ys.*2⌟ ∗ lobj this zs ∗ lobj other ys)%I Hm HE Hsub) as H.
    feed specialize H.
    { iIntros "[H G]". iApply (wp_l_assign mT with "H G"). iSplit.
      - iIntros (e zs Hz) "He H G". iPoseProof (lost_alloc with "He") as "He"; [done|]. iDestruct "He" as %[-> _]. iExists zs. by iFrame.
      - iIntros (zs Hz) "H G". iExists zs. by iFrame. }
    destruct (l_assign this other m) as [b m'|e m'| |]; [| |done..].
    - destruct H as (_ & h' & (zs & [Hz Hl]%pure_sep_inv) & Hd' & Hb). exists zs. split; [done|]. by eapply Hfin.
    - destruct H as (_ & h' & (zs & [[-> Hz] Hl]%pure_sep_inv) & Hd' & Hb). split; [done|].
      exists zs. split; [done|]. by eapply Hfin.
  Qed.
  Lemma c23_self m this xs :
    may_fail_alloc m → l_holds m this xs →
    ∃ m', l_assign this this m = Ok tt m' ∧ may_fail_alloc m' ∧ l_holds m' this [] ∧
      replaces (l_cells this xs) m [this] m'.
  Proof.
    intros Hm Hh. destruct (l_run_quiet m this xs (l_assign this this) tt [] mT) as (m' & ?&?&?&?);
      [by apply good_may_fail|done| |].
    - iIntros "H". iApply (wp_l_assign_self with "H"). iIntros "$". done.
    - exists m'. split; [done|]. split; [by apply good_may_fail'|done].
  Qed.

  (** failing allocations are reported *)
  Lemma c24_throws m this nvs pos r o :
    aorc m = true :: o →
    (∃ m', l_insert (V:=V) this pos r m = Exn BadAlloc m') ∧
    (∃ m', l_emplace (V:=V) this pos r m = Exn BadAlloc m') ∧
    (l_holds m this nvs → ∃ m', l_push_front this r m = Exn BadAlloc m') ∧
    (∃ m', l_push_back (V:=V) this r m = Exn BadAlloc m').
  Proof.
    intros Ho. repeat split.
    - eexists. by rewrite /l_insert /bind /alloc Ho.
    - eexists. by rewrite /l_emplace /bind /alloc Ho.
    - intros (_ & Ht & _). eexists. by rewrite /l_push_front /l_begin /l_next /l_insert /bind /load Ht /= /alloc Ho.
    - eexists. by rewrite /l_push_back /l_insert /bind /alloc Ho.
  Qed.

  (** a throwing element copy *)
  Lemma c71_leak m this pos v ao co :
    aorc m = ao → head ao ≠ Some true → corc m = true :: co →
    ∃ m', l_insert this pos (LVal v) m = Exn CopyThrow m' ∧ blk m' = <[nxt m := LRaw]> (blk m).
  Proof.
    intros Ha Hh Hc. assert (∀ c : lcell V, alloc c m = Ok (nxt m) (Mem (<[nxt m := c]> (blk m)) (Pos.succ (nxt m))
      (tail ao) (corc m))) as E.
    { intros c. unfold alloc. rewrite Ha. by destruct ao as [|[] ?]. }
    eexists. rewrite /l_insert {1}/bind E /l_construct /bind /load /= lookup_insert /= /may_throw /= Hc. done.
  Qed.
End props.
