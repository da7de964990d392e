(** Copying and assigning lists and forward_lists when the [j]-th allocation
    fails. *)
From iris.proofmode Require Import tactics.
From Verif Require Import SLTac Hist HistGen HistProofs MemRun AllocCount ClientThrow.
From Verif Require Import ModelList SpecList ListProofs ListMem ListProps.
From Verif Require Import ModelForward SpecForward ForwardProofs ForwardMem ForwardProps.

Lemma prefix_take {X} (xs ys : list X) : xs `prefix_of` ys → xs = take (length xs) ys.
Proof. intros [k ->]. by rewrite take_app. Qed.

Section list.
  Context {V : Type}.
  Implicit Types (m : mem (lcell V)) (xs ys zs : list (loc * V)).
  Lemma ta_push_back this it : tally (l_push_back (V:=V) this it).
  Proof.
    unfold l_push_back, l_insert, l_construct, l_hook, set_next, set_prev, l_prev, l_next, l_size, set_lsize.
    ta; unfold l_deref, l_value; ta.
  Qed.
  Lemma ta_append this other : tally (l_append (V:=V) this other).
  Proof.
    unfold l_append. apply ta_bind; [unfold l_begin, l_next; ta|]. intros it. apply ta_fuel. intros fuel. revert it.
    induction fuel as [|fuel IH]; intros it; [done|]. cbn [l_append_loop]. case_decide; [ta|].
    apply ta_bind; [apply ta_push_back|]. intros _. apply ta_bind; [unfold l_next; ta|]. done.
  Qed.
  Lemma na_l_clear this : no_alloc (l_clear (V:=V) this).
  Proof.
    unfold l_clear. apply na_bind; [unfold l_next; na|]. intros c. apply na_bind.
    - intros m. unfold with_fuel. generalize (S (size (blk m))). intros fuel. revert m. change (no_alloc (l_clear_loop (V:=V) fuel this c)).
      revert c. induction fuel as [|fuel IH]; intros c; [done|]. cbn [l_clear_loop]. case_decide; [na|].
      unfold l_next, l_destroy, l_dealloc. repeat first [apply IH | progress na].
    - intros _. unfold set_next, set_prev, set_lsize. na.
  Qed.
  Lemma na_l_new : no_alloc (l_new (V:=V)).
  Proof. unfold l_new. apply na_bind; [done|]. intros. na. Qed.
  Lemma append_fails j ao this other ys m h hf :
    good mT m → blk m = h ∪ hf → h ##ₘ hf → (lobj this [] ∗ lobj other ys)%I h →
    aorc m = replicate j false ++ true :: ao → j < length ys →
    ∃ m' h' zs, l_append this other m = Exn BadAlloc m' ∧ good mT m' ∧
      zs.*2 = take j ys.*2 ∧ (lobj this zs ∗ lobj other ys)%I h' ∧ h' ##ₘ hf ∧ blk m' = h' ∪ hf.
  Proof.
    intros Hg Hb Hd HP Ho Hj.
    destruct (tally_run (l_append this other) (lobj this [] ∗ lobj other ys)%I (λ _, ∃ zs, ⌞zs.*2 = ys.*2⌟ ∗ lobj this zs ∗ lobj other ys)%I
      (λ e, ⌞e = BadAlloc⌟ ∗ ∃ zs, ⌞zs.*2 `prefix_of` ys.*2⌟ ∗ lobj this zs ∗ lobj other ys)%I m h hf j ao (ta_append this other))
      as (m' & h' & El & Hg' & Hd' & Hb' & HR & Hs); [|done..| | |].
    - iIntros "[H G]". iApply (wp_l_append mT with "H G"). iSplit.
      + iIntros (e zs Hz) "He H G". iPoseProof (lost_alloc with "He") as "He"; [done|]. iDestruct "He" as %[-> _].
        iSplitR; [done|]. iExists zs. by iFrame.
      + iIntros (zs Hz) "H G". iExists zs. by iFrame.
    - intros _ h' (zs & [Hz Hl]%pure_sep_inv).
      apply hprop_sep_eq in HP as (h1 & h2 & -> & Hd1 & H1%lobj_size & H2%lobj_size).
      apply hprop_sep_eq in Hl as (h3 & h4 & -> & Hd2 & H3%lobj_size & H4%lobj_size).
      apply (f_equal length) in Hz. rewrite !fmap_length in Hz. rewrite !map_size_disj_union //. cbn in H1. lia.
    - by intros e h' [-> _]%pure_sep_inv.
    - apply pure_sep_inv in HR as [_ (zs & [Hz Hl]%pure_sep_inv)]. exists m', h', zs. split; [done|]. split; [done|]. split; [|done].
      assert (length zs = j) as Hlen.
      { apply hprop_sep_eq in HP as (h1 & h2 & -> & Hd1 & H1%lobj_size & H2%lobj_size).
        apply hprop_sep_eq in Hl as (h3 & h4 & -> & Hd2 & H3%lobj_size & H4%lobj_size).
        rewrite !map_size_disj_union // in Hs. cbn in H1. lia. }
      apply prefix_take in Hz. by rewrite fmap_length Hlen in Hz.
  Qed.
  Lemma c128_copy m other ys j ao :
    may_fail_alloc m → l_holds m other ys → aorc m = replicate j false ++ true :: ao → j < length ys →
    ∃ m', l_copy other m = Exn BadAlloc m' ∧ blk m' = blk m.
  Proof.
    intros Hm Hh Ho Hj. pose proof (c24_copy m other ys Hm Hh) as Hr. unfold runs_to in Hr.
    destruct (l_copy other m) as [r m'|e m'| |] eqn:El; [exfalso| |done..].
    2: { destruct Hr as (-> & _ & ?). by exists m'. }
    clear Hr. apply l_holds_heap in Hh as [Hnd Hs]. apply good_may_fail in Hm.
    unfold l_copy in El. assert (emp ⊢ wp mT (l_new (V:=V)) (λ this, lobj this []) (λ _, False))%I as Hwp.
    { iIntros "_". iApply wp_l_new. by iIntros (this) "$". }
    pose proof (wp_frame_adequate _ _ _ _ _ m ∅ (blk m) Hwp Hm) as H. feed specialize H.
    { by rewrite left_id_L. } { apply map_disjoint_empty_l. } { by apply hprop_emp_eq. }
    unfold bind at 1 in El. pose proof (na_l_new m) as Hcc.
    destruct (l_new m) as [this m1|e m1| |]; [|done..].
    destruct H as (Hg1 & h1 & Hd1 & Hb1 & HP1). set (h2 := lheap other ys) in *.
    destruct (append_fails j ao this other ys m1 (h1 ∪ h2) (blk m ∖ h2)) as (m2 & h' & zs & E2 & _);
      [done| | | |congruence|done|].
    - by rewrite Hb1 -assoc_L map_difference_union.
    - apply map_disjoint_union_l. split; [|by apply map_disjoint_difference_r].
      eapply map_disjoint_weaken_r; [done|]. by apply map_subseteq_difference_l.
    - apply hprop_sep_eq. exists h1, h2. split; [done|]. split; [by eapply map_disjoint_weaken_r|]. split; [done|].
      by apply lheap_exact.
    - unfold bind, on_throw, catch in El. rewrite E2 in El. unfold bind in El. by destruct (l_dtor this m2).
  Qed.
  Lemma c128_assign m this xs other ys j ao :
    may_fail_alloc m → l_holds m this xs → l_holds m other ys →
    (∀ l, l ∈ l_cells this xs → l ∉ l_cells other ys) →
    aorc m = replicate j false ++ true :: ao → j < length ys →
    ∃ m' zs, l_assign this other m = Exn BadAlloc m' ∧ zs.*2 = take j ys.*2 ∧
      l_holds m' this zs ∧ l_holds m' other ys ∧
      replaces (l_cells this xs ++ l_cells other ys) m (l_cells this zs ++ l_cells other ys) m'.
  Proof.
    intros Hm%good_may_fail [Hnd Hs1]%l_holds_heap [Hnd' Hs2]%l_holds_heap Hap Ho Hj.
    set (h1 := lheap this xs) in *. set (h2 := lheap other ys) in *.
    assert (h1 ##ₘ h2) as Hd12.
    { apply map_disjoint_spec. intros l c1 c2 H1 H2. apply (Hap l); apply lheap_dom; eauto. }
    assert (h1 ∪ h2 ⊆ blk m) as Hs12 by by apply map_union_least.
    set (hf := blk m ∖ (h1 ∪ h2)).
    assert (blk m = (h1 ∪ h2) ∪ hf) as Hb by (symmetry; by apply map_difference_union).
    assert (h1 ∪ h2 ##ₘ hf) as Hd by by apply map_disjoint_difference_r.
    assert (lobj this xs ∗ lobj other ys ⊢ wp mT (l_clear (V:=V) this) (λ _, lobj this [] ∗ lobj other ys) (λ _, False))%I as Hwp.
    { iIntros "[H G]". iApply (wp_l_clear with "H"). iIntros "H". by iFrame. }
    pose proof (wp_frame_adequate _ _ _ _ _ m (h1 ∪ h2) hf Hwp Hm Hb Hd) as H. feed specialize H.
    { apply hprop_sep_eq. exists h1, h2. split; [done|]. split; [done|]. split; by apply lheap_exact. }
    pose proof (na_l_clear this m) as Hcc. unfold l_assign, bind.
    destruct (l_clear this m) as [[] m1|e m1| |]; [| |done|done].
    2: { by destruct H as (_ & ? & _ & _ & []). }
    destruct H as (Hg1 & h3 & Hd3 & Hb3 & HP3).
    destruct (append_fails j ao this other ys m1 h3 hf) as (m' & h' & zs & El & _ & Hz & HP' & Hd' & Hb');
      [done..|congruence|done|].
    apply hprop_sep_eq in HP' as (h6 & h7 & -> & Hd67 & H6 & H7).
    assert (h6 ∪ h7 ⊆ blk m') as Hs67.
    { rewrite Hb'. apply map_union_subseteq_l. }
    exists m', zs. split; [done|]. split; [done|].
    split; [eapply lobj_holds; [done|]; etrans; [apply map_union_subseteq_l|done]|].
    split; [eapply lobj_holds; [done|]; etrans; [by apply map_union_subseteq_r|done]|].
    eapply owned_replaces; [exact Hs12| | |exact Hd'|exact Hb'].
    - intros l. rewrite elem_of_app !lheap_dom lookup_union_is_Some //.
    - intros l. rewrite elem_of_app lookup_union_is_Some (lobj_cells _ _ _ H6) (lobj_cells _ _ _ H7) //.
  Qed.
End list.

Section forward.
  Context {V : Type}.
  Implicit Types (m : mem (fcell V)) (xs ys zs : list (loc * V)).
  Lemma ta_copy_loop fuel from to : tally (f_copy_loop (V:=V) fuel from to).
  Proof.
    revert from to. induction fuel as [|fuel IH]; intros from to; [done|]. cbn [f_copy_loop].
    apply ta_bind; [unfold f_next; ta|]. intros [q|]; [|ta]. apply ta_bind; [ta|]. intros n.
    apply ta_bind; [unfold f_construct, f_deref, f_value; ta|]. intros _.
    apply ta_bind; [unfold f_set_next; ta|]. intros _.
    apply ta_bind; [unfold f_next; ta|]. intros from'. apply ta_bind; [unfold f_next; ta|]. done.
  Qed.
  Lemma c128_f_copy m other ys j ao :
    may_fail_alloc m → f_holds m other ys → aorc m = replicate j false ++ true :: ao → j < length ys →
    ∃ m' zs, f_copy other m = Exn BadAlloc m' ∧ zs.*2 = take j ys.*2 ∧ NoDup zs.*1 ∧
      (∀ as_ n v bs, zs = as_ ++ (n, v) :: bs → blk m' !! n = Some (FNode (ffirst bs None) (Some v))) ∧
      replaces [] m zs.*1 m'.
  Proof.
    intros Hm%good_may_fail [Hnd Hs]%f_holds_heap Ho Hj.
    unfold f_copy. assert (emp ⊢ wp mT (f_new (V:=V)) (λ this, fobj this []) (λ _, False))%I as Hwp.
    { iIntros "_". iApply wp_f_new. by iIntros (this) "$". }
    pose proof (wp_frame_adequate _ _ _ _ _ m ∅ (blk m) Hwp Hm) as H. feed specialize H.
    { by rewrite left_id_L. } { apply map_disjoint_empty_l. } { by apply hprop_emp_eq. }
    assert (no_alloc (f_new (V:=V))) as Hna by done.
    unfold bind at 1. specialize (Hna m).
    destruct (f_new m) as [this m1|e m1| |]; [| |done|done].
    2: { by destruct H as (_ & ? & _ & _ & []). }
    destruct H as (Hg1 & h1 & Hd1 & Hb1 & HP1). set (h2 := fheap other ys) in *.
    assert (fobj other ys h2) as HP2 by by apply fheap_exact.
    assert (h1 ##ₘ h2) as Hd12 by by eapply map_disjoint_weaken_r.
    destruct (tally_run (with_fuel (λ fuel, f_copy_loop fuel (Some other) (Some this))) (fobj this [] ∗ fobj other ys)%I
      (λ _, ∃ zs, ⌞zs.*2 = ys.*2⌟ ∗ fobj this zs ∗ fobj other ys)%I
      (λ e, ⌞e = BadAlloc⌟ ∗ ∃ zs, ⌞zs.*2 `prefix_of` ys.*2⌟ ∗ fobj this zs ∗ fobj other ys)%I m1 (h1 ∪ h2) (blk m ∖ h2) j ao)
      as (m2 & h' & El & Hg2 & Hd' & Hb' & HR & Hsz).
    - apply ta_fuel. intros fuel. apply ta_copy_loop.
    - iIntros "[H G]". iApply (wp_with_fuel _ _ (length ys)). iSplit; [iClear "H"; by iApply sz_fobj|].
      iIntros (fuel Hf). iApply (wp_f_copy_loop mT fuel this [] other [] ys with "H G"); [done|]. iSplit.
      + iIntros (e zs Hz) "He H G". iPoseProof (lost_alloc with "He") as "He"; [done|]. iDestruct "He" as %[-> _].
        iSplitR; [done|]. iExists zs. by iFrame.
      + iIntros (zs Hz) "H G". iExists zs. by iFrame.
    - done.
    - by rewrite Hb1 -assoc_L map_difference_union.
    - apply map_disjoint_union_l. split; [|by apply map_disjoint_difference_r].
      eapply map_disjoint_weaken_r; [exact Hd1|]. by apply map_subseteq_difference_l.
    - apply hprop_sep_eq. by exists h1, h2.
    - congruence.
    - intros _ h' (zs & [Hz Hl]%pure_sep_inv). apply fobj_size in HP1, HP2.
      apply hprop_sep_eq in Hl as (h3 & h4 & -> & Hd2 & H3%fobj_size & H4%fobj_size).
      apply (f_equal length) in Hz. rewrite !fmap_length in Hz. rewrite !map_size_disj_union //. cbn in HP1. lia.
    - by intros e h' [-> _]%pure_sep_inv.
    - apply pure_sep_inv in HR as [_ (zs & [Hz HP']%pure_sep_inv)].
      assert (length zs = j) as Hlen.
      { pose proof HP' as (h3 & h4 & -> & Hd2 & H3%fobj_size & H4%fobj_size)%hprop_sep_eq. apply fobj_size in HP1, HP2.
        rewrite !map_size_disj_union // in Hsz. cbn in HP1. lia. }
      apply prefix_take in Hz. rewrite fmap_length Hlen in Hz.
      assert (fobj this zs ∗ fobj other ys ⊢ wp mT (free this) (λ _, ⌞NoDup zs.*1⌟ ∗ fls zs None ∗ fobj other ys) (λ _, False))%I as Hwd.
      { iIntros "([H Z] & G)". iDestruct (fls_nodup with "Z") as %Hndz. iApply (wp_free' with "H"). iIntros "_". by iFrame. }
      pose proof (wp_frame_adequate _ _ _ _ _ _ _ _ Hwd Hg2 Hb' Hd' HP') as H.
      unfold bind, on_throw, catch. rewrite El. unfold bind.
      destruct (free this m2) as [[] m3|e m3| |]; [| |done|done].
      2: { by destruct H as (_ & ? & _ & _ & []). }
      destruct H as (_ & h3 & Hd3 & Hb3 & [Hndz HP3]%pure_sep_inv).
      apply hprop_sep_eq in HP3 as (h6 & h7 & -> & Hd67 & H6 & H7).
      apply (fheap_exact _ _ Hnd) in H7 as ->. apply (sheap_exact _ _ Hndz) in H6 as ->. fold h2 in Hd67, Hd3, Hb3.
      apply map_disjoint_union_l in Hd3 as [Hd3b Hd3c].
      assert (sheap zs None ##ₘ blk m) as Hdm.
      { rewrite -(map_difference_union h2 (blk m)) //. by apply map_disjoint_union_r. }
      assert (blk m3 = sheap zs None ∪ blk m) as Hb4.
      { by rewrite Hb3 -!assoc_L map_difference_union. }
      exists m3, zs. split; [done|]. split; [done|]. split; [done|]. split.
      + intros as_ n v bs ->. rewrite Hb4. apply lookup_union_Some_l. by apply sheap_lookup.
      + apply (owned_replaces m m3 ∅ (sheap zs None)).
        * apply map_empty_subseteq.
        * intros l. rewrite lookup_empty. split; [by intros ?%elem_of_nil|by intros []].
        * intros l. by rewrite (sheap_dom zs None).
        * by rewrite map_difference_empty.
        * by rewrite map_difference_empty.
  Qed.
  Lemma c128_f_assign m this other ys j ao :
    may_fail_alloc m → f_holds m other ys → aorc m = replicate j false ++ true :: ao → j < length ys →
    ∃ m', f_copy other m = Exn BadAlloc m' ∧ f_assign this other m = Exn BadAlloc m' ∧
      ∀ xs, f_holds m this xs → f_holds m' this xs.
  Proof.
    intros Hm Ho Hc Hj. destruct (c128_f_copy m other ys j ao Hm Ho Hc Hj) as (m' & zs & E & _ & _ & _ & Hr).
    exists m'. split; [done|]. split; [unfold f_assign, bind; by rewrite E|].
    intros xs (Hnd & Hh & Hn).
    assert (∀ l c, blk m !! l = Some c → blk m' !! l = Some c) as Hk.
    { intros l c El. specialize (Hr l). case_decide as E1.
      - destruct Hr as [?%elem_of_nil|Hr]; [done|]. by rewrite Hr in El.
      - case_decide as E2; [by apply elem_of_nil in E2|]. by rewrite Hr. }
    split; [done|]. split; [by apply Hk|]. intros as_ n v bs ->. apply Hk. by eapply Hn.
  Qed.
End forward.
