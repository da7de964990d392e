(** How many allocations and copies copying and assigning lists and
    forward_lists takes. *)
From iris.proofmode Require Import tactics.
From Verif Require Import SLTac Hist HistGen HistProofs MemRun AllocCount NoCopy DequeBuild.
From Verif Require Import ModelList SpecList ListProofs ListMem ListProps ListBuild.
From Verif Require Import ModelForward SpecForward ForwardProofs ForwardMem ForwardProps ForwardBuild ListAlloc.
Notation mA := (Mode true true) (only parsing).

Lemma good_any {C} (m : mem C) : mem_wf m → good mA m.
Proof. intros Hw. split; [done|]. by split; intros [=]. Qed.

Section list.
  Context {V : Type}.
  Implicit Types (m : mem (lcell V)) (xs ys zs : list (loc * V)).
  Lemma wp_turn_any this zs other xs n v ys :
    lobj this zs ∗ lobj other (xs ++ (n, v) :: ys) ⊢ wp mA (l_turn this n)
      (λ it, ∃ n', ⌞it = first ys other⌟ ∗ lobj this (zs ++ [(n', v)]) ∗ lobj other (xs ++ (n, v) :: ys))
      (λ e, ⌞e = BadAlloc⌟ ∗ lobj this zs ∗ lobj other (xs ++ (n, v) :: ys) ∨
         ∃ r, ⌞e = CopyThrow⌟ ∗ r ↦ LRaw ∗ lobj this zs ∗ lobj other (xs ++ (n, v) :: ys)).
  Proof.
    iIntros "[H G]". unfold l_turn, l_push_back, l_end. wbind. wbind.
    assert (lreads mA (LElem n) v (lobj this zs ∗ lobj other (xs ++ (n, v) :: ys))) as Hr.
    { iIntros (Q' R') "[H F] HQ'". iApply (lreads_elem _ _ _ (length xs) with "F").
      { by rewrite lookup_app_r // Nat.sub_diag. }
      iIntros "F". iApply "HQ'". iFrame. }
    rewrite /l_insert. wbind. iApply wp_alloc. iSplit; [iIntros (_); iLeft; by iFrame|]. iIntros (r) "Hn".
    wbind. iApply (wp_l_construct _ _ _ _ _ _ _ Hr with "Hn [$H $G]"). iSplit.
    { iIntros (_) "Hn [H G]". iRight. iExists r. by iFrame. }
    iIntros "Hn [H G]". wbind. iApply (wp_l_hook mA this r r r v zs [] with "Hn [H]"); [by rewrite app_nil_r|]. iIntros "[Ht Hd]".
    wstep wp_l_size "Ht". wstep wp_set_lsize "Ht". wret. wret.
    iApply (wp_next_at with "G"). iIntros "G". iExists r. iSplitR; [done|]. iFrame "G".
    rewrite /lobj /ring !app_length /= Nat.add_comm. iFrame.
  Qed.
  Lemma ta_turn this n : tally (l_turn (V:=V) this n).
  Proof. unfold l_turn. apply ta_bind; [apply ta_push_back|]. intros _. unfold l_next. ta. Qed.
  Lemma pair_size this zs other ys h : (lobj this zs ∗ lobj other ys)%I h → size h = length zs + length ys + 2.
  Proof.
    intros (h1 & h2 & -> & Hd & H1%lobj_size & H2%lobj_size)%hprop_sep_eq. rewrite map_size_disj_union //. lia.
  Qed.
  Lemma loop_done fuel ao co this zs other xs ys m h hf :
    good mA m → blk m = h ∪ hf → h ##ₘ hf → (lobj this zs ∗ lobj other (xs ++ ys))%I h →
    aorc m = replicate (length ys) false ++ ao → corc m = replicate (length ys) false ++ co → length ys < fuel →
    ∃ m' h' zs', l_append_loop fuel this other (first ys other) m = Ok tt m' ∧ zs'.*2 = zs.*2 ++ ys.*2 ∧
      (lobj this zs' ∗ lobj other (xs ++ ys))%I h' ∧ h' ##ₘ hf ∧ blk m' = h' ∪ hf ∧ good mA m' ∧ aorc m' = ao ∧ corc m' = co.
  Proof.
    revert fuel zs xs m h. induction ys as [|[n v] ys IH]; intros [|fuel] zs xs m h Hg Hb Hd HP Ha Hc Hf; try (cbn in Hf; lia);
      cbn [first fst].
    { cbn [l_append_loop]. unfold l_end. rewrite decide_True //. exists m, h, zs. split; [done|].
      split; [by rewrite /= app_nil_r|]. by repeat (split; [done|]). }
    assert (n ≠ other) as Hne.
    { pose proof HP as (h1 & h2 & _ & _ & _ & H2)%hprop_sep_eq;
      pose proof (proj1 (hprop_entails_eq _ _) (lobj_nodup other (xs ++ (n, v) :: ys)) _ H2) as Hnd;
      by destruct (first_ne _ _ _ _ _ Hnd) as [_ ?]. }
    rewrite l_loop_turn //. unfold bind. cbn [length replicate app] in Ha, Hc.
    pose proof (wp_frame_adequate _ _ _ _ _ _ _ _ (wp_turn_any this zs other xs n v ys) Hg Hb Hd HP) as Hw.
    pose proof (takes_turn this n false _ m Hc) as Ht. pose proof (pair_size _ _ _ _ _ HP) as Hs.
    destruct (l_turn this n m) as [it m1|e m1| |] eqn:Et; [| |done|done].
    2: { exfalso. destruct Hw as (_ & h' & Hd' & Hb' & [[-> HQ]%pure_sep_inv|(r & [-> _]%pure_sep_inv)]); [|done].
         pose proof (tally_thrown _ _ _ _ (ta_turn this n) (proj1 Hg) Ha Et) as Hlt. apply pair_size in HQ.
         rewrite Hb Hb' !map_size_disj_union // in Hlt. lia. }
    destruct Hw as (Hg' & h' & Hd' & Hb' & (n' & [-> HQ]%pure_sep_inv)). destruct Ht as [_ Hc'].
    pose proof (pair_size _ _ _ _ _ HQ) as Hs'.
    assert (aorc m1 = replicate (length ys) false ++ ao) as Ha'.
    { apply (tally_done _ m 1 _ _ _ (ta_turn this n) (proj1 Hg) Ha Et).
      rewrite Hb Hb' !map_size_disj_union //. rewrite app_length in Hs'. cbn in Hs'. lia. }
    destruct (IH fuel (zs ++ [(n', v)]) (xs ++ [(n, v)]) m1 h') as (m' & h'' & zs' & El & Hz & Hrest);
      [done|done|done|by rewrite -assoc_L|done|done|cbn in Hf; lia|].
    exists m', h'', zs'. split; [done|]. rewrite -assoc_L in Hrest. split; [|done].
    by rewrite Hz fmap_app -assoc_L.
  Qed.
  Lemma append_done ao co this other ys m h hf :
    good mA m → blk m = h ∪ hf → h ##ₘ hf → (lobj this [] ∗ lobj other ys)%I h →
    aorc m = replicate (length ys) false ++ ao → corc m = replicate (length ys) false ++ co →
    ∃ m' h' zs, l_append this other m = Ok tt m' ∧ zs.*2 = ys.*2 ∧
      (lobj this zs ∗ lobj other ys)%I h' ∧ h' ##ₘ hf ∧ blk m' = h' ∪ hf ∧ good mA m' ∧ aorc m' = ao ∧ corc m' = co.
  Proof.
    intros Hg Hb Hd HP Ha Hc.
    assert (lobj this [] ∗ lobj other ys ⊢ wp mA (l_begin other)
      (λ it, ⌞it = first ys other⌟ ∗ lobj this [] ∗ lobj other ys) (λ _, False))%I as Hwp.
    { iIntros "[H G]". iApply (wp_l_begin with "G"). iIntros "G". by iFrame. }
    pose proof (wp_frame_adequate _ _ _ _ _ _ _ _ Hwp Hg Hb Hd HP) as H.
    assert (no_alloc (l_next (V:=V) other)) as Hna by (unfold l_next; na).
    specialize (Hna m). pose proof (nc_l_next other m) as Hn. unfold l_append, bind. unfold l_begin in *.
    destruct (l_next other m) as [it m1|e m1| |]; [| |done|done].
    2: { by destruct H as (_ & ? & _ & _ & []). }
    destruct H as (Hg1 & h3 & Hd3 & Hb3 & [-> HP3]%pure_sep_inv). unfold with_fuel.
    destruct (loop_done (S (size (blk m1))) ao co this [] other [] ys m1 h3 hf) as (m' & h' & zs & El & Hrest);
      [done|done|done|done|congruence|congruence| |by exists m', h', zs].
    apply pair_size in HP3. rewrite Hb3 map_size_disj_union //. cbn in HP3. lia.
  Qed.
  Lemma c129_copy m other ys ao co :
    mem_wf m → l_holds m other ys →
    aorc m = replicate (length ys) false ++ ao → corc m = replicate (length ys) false ++ co →
    ∃ this m' zs, l_copy other m = Ok this m' ∧ aorc m' = ao ∧ corc m' = co ∧ zs.*2 = ys.*2 ∧
      l_holds m' this zs ∧ replaces [] m (l_cells this zs) m'.
  Proof.
    intros Hw [Hnd Hs]%l_holds_heap Ha Hc.
    unfold l_copy. assert (emp ⊢ wp mA (l_new (V:=V)) (λ this, lobj this []) (λ _, False))%I as Hwp.
    { iIntros "_". iApply wp_l_new. by iIntros (this) "$". }
    pose proof (wp_frame_adequate _ _ _ _ _ m ∅ (blk m) Hwp (good_any _ Hw)) as H. feed specialize H.
    { by rewrite left_id_L. } { apply map_disjoint_empty_l. } { by apply hprop_emp_eq. }
    unfold bind at 1. pose proof (nc_l_new m) as Hcc. pose proof (na_l_new m) as Haa.
    destruct (l_new m) as [this m1|e m1| |]; [| |done|done].
    2: { by destruct H as (_ & ? & _ & _ & []). }
    destruct H as (Hg1 & h1 & Hd1 & Hb1 & HP1). set (h2 := lheap other ys) in *.
    destruct (append_done ao co this other ys m1 (h1 ∪ h2) (blk m ∖ h2)) as (m2 & h' & zs & El & Hz & HP' & Hd' & Hb' & Hg2 & Ha2 & Hc2);
      [done| | | |congruence|congruence|].
    - by rewrite Hb1 -assoc_L map_difference_union.
    - apply map_disjoint_union_l. split; [|by apply map_disjoint_difference_r].
      eapply map_disjoint_weaken_r; [exact Hd1|]. by apply map_subseteq_difference_l.
    - apply hprop_sep_eq. exists h1, h2. split; [done|]. split; [by eapply map_disjoint_weaken_r|]. split; [done|].
      by apply lheap_exact.
    - unfold bind, on_throw, catch. rewrite El. exists this, m2, zs. do 4 (split; [done|]).
      apply hprop_sep_eq in HP' as (h6 & h7 & -> & Hd67 & H6 & H7). apply (lheap_exact _ _ Hnd) in H7 as ->. fold h2 in Hd67, Hd', Hb'.
      apply map_disjoint_union_l in Hd' as [Hd6 Hd7].
      assert (blk m2 = h6 ∪ blk m) as Hb4 by by rewrite Hb' -assoc_L map_difference_union.
      split; [eapply lobj_holds; [done|]; rewrite Hb4; apply map_union_subseteq_l|].
      apply (owned_replaces m m2 ∅ h6).
      + apply map_empty_subseteq.
      + intros l. rewrite lookup_empty. split; [by intros ?%elem_of_nil|by intros []].
      + intros l. by rewrite (lobj_cells _ _ _ H6).
      + rewrite map_difference_empty -(map_difference_union h2 (blk m)) //. by apply map_disjoint_union_r.
      + by rewrite map_difference_empty.
  Qed.
  Lemma c129_assign m this xs other ys ao co :
    mem_wf m → l_holds m this xs → l_holds m other ys →
    (∀ l, l ∈ l_cells this xs → l ∉ l_cells other ys) →
    aorc m = replicate (length ys) false ++ ao → corc m = replicate (length ys) false ++ co →
    ∃ m' zs, l_assign this other m = Ok tt m' ∧ aorc m' = ao ∧ corc m' = co ∧ zs.*2 = ys.*2 ∧
      l_holds m' this zs ∧ l_holds m' other ys ∧
      replaces (l_cells this xs ++ l_cells other ys) m (l_cells this zs ++ l_cells other ys) m'.
  Proof.
    intros Hm%good_any [Hnd Hs1]%l_holds_heap [Hnd' Hs2]%l_holds_heap Hap Ha Hc.
    set (h1 := lheap this xs) in *. set (h2 := lheap other ys) in *.
    assert (h1 ##ₘ h2) as Hd12.
    { apply map_disjoint_spec. intros l c1 c2 H1 H2. apply (Hap l); apply lheap_dom; eauto. }
    assert (h1 ∪ h2 ⊆ blk m) as Hs12 by by apply map_union_least.
    set (hf := blk m ∖ (h1 ∪ h2)).
    assert (blk m = (h1 ∪ h2) ∪ hf) as Hb by (symmetry; by apply map_difference_union).
    assert (h1 ∪ h2 ##ₘ hf) as Hd by by apply map_disjoint_difference_r.
    assert (lobj this xs ∗ lobj other ys ⊢ wp mA (l_clear (V:=V) this) (λ _, lobj this [] ∗ lobj other ys) (λ _, False))%I as Hwp.
    { iIntros "[H G]". iApply (wp_l_clear with "H"). iIntros "H". by iFrame. }
    pose proof (wp_frame_adequate _ _ _ _ _ m (h1 ∪ h2) hf Hwp Hm Hb Hd) as H. feed specialize H.
    { apply hprop_sep_eq. exists h1, h2. split; [done|]. split; [done|]. split; by apply lheap_exact. }
    pose proof (na_l_clear this m) as Haa. pose proof (nc_l_clear this m) as Hcc. unfold l_assign, bind.
    destruct (l_clear this m) as [[] m1|e m1| |]; [| |done|done].
    2: { by destruct H as (_ & ? & _ & _ & []). }
    destruct H as (Hg1 & h3 & Hd3 & Hb3 & HP3).
    destruct (append_done ao co this other ys m1 h3 hf) as (m' & h' & zs & El & Hz & HP' & Hd' & Hb' & _ & Ha2 & Hc2);
      [done..|congruence|congruence|].
    apply hprop_sep_eq in HP' as (h6 & h7 & -> & Hd67 & H6 & H7).
    assert (h6 ∪ h7 ⊆ blk m') as Hs67.
    { rewrite Hb'. apply map_union_subseteq_l. }
    exists m', zs. do 4 (split; [done|]).
    split; [eapply lobj_holds; [done|]; etrans; [apply map_union_subseteq_l|done]|].
    split; [eapply lobj_holds; [done|]; etrans; [by apply map_union_subseteq_r|done]|].
    eapply owned_replaces; [exact Hs12| | |exact Hd'|exact Hb'].
    - intros l. rewrite elem_of_app !lheap_dom lookup_union_is_Some //.
    - intros l. rewrite elem_of_app lookup_union_is_Some (lobj_cells _ _ _ H6) (lobj_cells _ _ _ H7) //.
  Qed.
End list.

Section forward.
  Context {V : Type}.
  Implicit Types (m : mem (fcell V)) (xs ys zs : list (loc * V)).
  Lemma wp_f_turn_any this zs other xs n v ys :
    fobj this zs ∗ fobj other (xs ++ (n, v) :: ys) ⊢ wp mA (f_turn (Some (flast xs other)) (Some (flast zs this)))
      (λ o, ∃ n', ⌞o = Some (Some n, Some n')⌟ ∗ fobj this (zs ++ [(n', v)]) ∗ fobj other (xs ++ (n, v) :: ys))
      (λ e, ⌞e = BadAlloc⌟ ∗ fobj this zs ∗ fobj other (xs ++ (n, v) :: ys) ∨
         ∃ r, ⌞e = CopyThrow⌟ ∗ r ↦ FRaw ∗ fobj this zs ∗ fobj other (xs ++ (n, v) :: ys)).
  Proof.
    iIntros "[H G]". unfold f_turn.
    iEval (rewrite /fobj fchain_app) in "G". iDestruct "G" as "[Gx Gy]". wstep wp_f_next "Gx".
    iAssert (fobj other (xs ++ (n, v) :: ys)) with "[Gx Gy]" as "G"; [rewrite /fobj fchain_app; iFrame|]. simpl.
    wbind. iApply wp_alloc. iSplit; [iIntros (_); iLeft; by iFrame|]. iIntros (n') "Hn".
    wbind. iApply (wp_f_construct mA (fobj other (xs ++ (n, v) :: ys)) _ _ v with "Hn G").
    { apply (freads_elem mA _ _ (length xs)). by rewrite lookup_app_r // Nat.sub_diag. }
    iSplit.
    { iIntros (_) "Hn G". iRight. iExists n'. by iFrame. }
    iIntros "Hn G". wstep wp_f_set_next "H".
    iEval (rewrite /fobj fchain_app) in "G". iDestruct "G" as "[Gx Gy]". wstep wp_f_next "Gx".
    iAssert (fobj other (xs ++ (n, v) :: ys)) with "[Gx Gy]" as "G"; [rewrite /fobj fchain_app; iFrame|].
    wstep wp_f_next "H".
    iAssert (fobj this (zs ++ [(n', v)])) with "[H Hn]" as "H"; [rewrite /fobj fchain_app /=; iFrame|].
    wret. iExists n'. by iFrame.
  Qed.
  Lemma wp_f_last this zs other xs :
    fobj this zs ∗ fobj other xs ⊢ wp mA (f_turn (Some (flast xs other)) (Some (flast zs this)))
      (λ o, ⌞o = None⌟ ∗ fobj this zs ∗ fobj other xs) (λ _, False).
  Proof.
    iIntros "[H G]". unfold f_turn. rewrite -{1 2}(app_nil_r xs). iEval (rewrite /fobj fchain_app) in "G".
    iDestruct "G" as "[Gx Gy]". rewrite app_nil_r. wstep wp_f_next "Gx".
    iAssert (fobj other xs) with "[Gx Gy]" as "G"; [rewrite -{2}(app_nil_r xs) /fobj fchain_app; iFrame|]. simpl.
    wret. by iFrame.
  Qed.
  Lemma ta_f_turn from to : tally (f_turn (V:=V) from to).
  Proof.
    unfold f_turn.
    apply ta_bind; [unfold f_next; ta|]. intros [q|]; [|ta]. apply ta_bind; [ta|]. intros n.
    apply ta_bind; [unfold f_construct, f_deref, f_value; ta|]. intros _.
    apply ta_bind; [unfold f_set_next; ta|]. intros _.
    apply ta_bind; [unfold f_next; ta|]. intros from'. apply ta_bind; [unfold f_next; ta|]. intros. ta.
  Qed.
  Lemma f_pair_size this zs other ys h : (fobj this zs ∗ fobj other ys)%I h → size h = length zs + length ys + 2.
  Proof.
    intros (h1 & h2 & -> & Hd & H1%fobj_size & H2%fobj_size)%hprop_sep_eq. rewrite map_size_disj_union //. lia.
  Qed.
  Lemma nc_f_turn_none from to m m' : f_turn (V:=V) from to m = Ok None m' → aorc m' = aorc m ∧ corc m' = corc m.
  Proof.
    unfold f_turn, bind. assert (no_alloc (f_next (V:=V) from)) as Hna by (unfold f_next; destruct from; na).
    specialize (Hna m). pose proof (nc_f_next from m) as Hn. destruct (f_next from m) as [[q|] m1|? ?| |]; [|by intros [= ->]|done..].
    destruct (alloc FRaw m1) as [n m2|? ?| |]; [|done..].
    destruct (f_construct n (FElem (Some q)) None m2) as [? m3|? ?| |]; [|done..].
    destruct (f_set_next to (Some n) m3) as [? m4|? ?| |]; [|done..].
    destruct (f_next from m4) as [from' m5|? ?| |]; [|done..].
    by destruct (f_next to m5) as [to' m6|? ?| |].
  Qed.
  Lemma f_loop_done fuel ao co this zs other xs ys m h hf :
    good mA m → blk m = h ∪ hf → h ##ₘ hf → (fobj this zs ∗ fobj other (xs ++ ys))%I h →
    aorc m = replicate (length ys) false ++ ao → corc m = replicate (length ys) false ++ co → length ys < fuel →
    ∃ m' h' zs', f_copy_loop fuel (Some (flast xs other)) (Some (flast zs this)) m = Ok tt m' ∧ zs'.*2 = zs.*2 ++ ys.*2 ∧
      (fobj this zs' ∗ fobj other (xs ++ ys))%I h' ∧ h' ##ₘ hf ∧ blk m' = h' ∪ hf ∧ good mA m' ∧ aorc m' = ao ∧ corc m' = co.
  Proof.
    revert fuel zs xs m h. induction ys as [|[n v] ys IH]; intros [|fuel] zs xs m h Hg Hb Hd HP Ha Hc Hf; try (cbn in Hf; lia);
      rewrite f_loop_turn; unfold bind.
    { rewrite app_nil_r in HP.
      pose proof (wp_frame_adequate _ _ _ _ _ _ _ _ (wp_f_last this zs other xs) Hg Hb Hd HP) as Hw.
      destruct (f_turn _ _ m) as [o m1|e m1| |] eqn:Et; [| |done|done].
      2: { by destruct Hw as (_ & ? & _ & _ & []). }
      destruct Hw as (Hg' & h' & Hd' & Hb' & [-> HQ]%pure_sep_inv). apply nc_f_turn_none in Et as [Ha1 Hc1].
      exists m1, h', zs. split; [done|]. rewrite !app_nil_r. repeat (split; [done|]). by rewrite Ha1 Hc1. }
    cbn [length replicate app] in Ha, Hc.
    pose proof (wp_frame_adequate _ _ _ _ _ _ _ _ (wp_f_turn_any this zs other xs n v ys) Hg Hb Hd HP) as Hw.
    pose proof (takes_f_turn (Some (flast xs other)) (Some (flast zs this)) false _ m Hc) as Ht.
    pose proof (f_pair_size _ _ _ _ _ HP) as Hs.
    destruct (f_turn _ _ m) as [o m1|e m1| |] eqn:Et; [| |done|done].
    2: { exfalso. destruct Hw as (_ & h' & Hd' & Hb' & [[-> HQ]%pure_sep_inv|(r & [-> _]%pure_sep_inv)]); [|done].
         pose proof (tally_thrown _ _ _ _ (ta_f_turn _ _) (proj1 Hg) Ha Et) as Hlt. apply f_pair_size in HQ.
         rewrite Hb Hb' !map_size_disj_union // in Hlt. lia. }
    destruct Hw as (Hg' & h' & Hd' & Hb' & (n' & [-> HQ]%pure_sep_inv)). destruct Ht as [_ Hc'].
    pose proof (f_pair_size _ _ _ _ _ HQ) as Hs'.
    assert (aorc m1 = replicate (length ys) false ++ ao) as Ha'.
    { apply (tally_done _ m 1 _ _ _ (ta_f_turn _ _) (proj1 Hg) Ha Et).
      rewrite Hb Hb' !map_size_disj_union //. rewrite app_length in Hs'. cbn in Hs'. lia. }
    destruct (IH fuel (zs ++ [(n', v)]) (xs ++ [(n, v)]) m1 h') as (m' & h'' & zs' & El & Hz & Hrest);
      [done|done|done|by rewrite -assoc_L|done|done|cbn in Hf; lia|].
    rewrite !flast_snoc in El. exists m', h'', zs'. split; [done|]. rewrite -assoc_L in Hrest. split; [|done].
    by rewrite Hz fmap_app -assoc_L.
  Qed.
  Lemma f_copy_done m other ys ao co :
    mem_wf m → f_holds m other ys →
    aorc m = replicate (length ys) false ++ ao → corc m = replicate (length ys) false ++ co →
    ∃ this m' zs h', f_copy other m = Ok this m' ∧ aorc m' = ao ∧ corc m' = co ∧ zs.*2 = ys.*2 ∧
      fobj this zs h' ∧ h' ##ₘ blk m ∧ blk m' = h' ∪ blk m ∧ good mA m'.
  Proof.
    intros Hw [Hnd Hs]%f_holds_heap Ha Hc.
    unfold f_copy. assert (emp ⊢ wp mA (f_new (V:=V)) (λ this, fobj this []) (λ _, False))%I as Hwp.
    { iIntros "_". iApply wp_f_new. by iIntros (this) "$". }
    pose proof (wp_frame_adequate _ _ _ _ _ m ∅ (blk m) Hwp (good_any _ Hw)) as H. feed specialize H.
    { by rewrite left_id_L. } { apply map_disjoint_empty_l. } { by apply hprop_emp_eq. }
    assert (no_alloc (f_new (V:=V))) as Haa by done. specialize (Haa m).
    unfold bind at 1. pose proof (nc_new (FHead (V:=V) None) m) as Hcc. unfold f_new in *.
    destruct (new (FHead None) m) as [this m1|e m1| |]; [| |done|done].
    2: { by destruct H as (_ & ? & _ & _ & []). }
    destruct H as (Hg1 & h1 & Hd1 & Hb1 & HP1). set (h2 := fheap other ys) in *.
    assert (fobj other ys h2) as HP2 by by apply fheap_exact.
    assert (h1 ##ₘ h2) as Hd12 by by eapply map_disjoint_weaken_r.
    destruct (f_loop_done (S (size (blk m1))) ao co this [] other [] ys m1 (h1 ∪ h2) (blk m ∖ h2))
      as (m2 & h' & zs & El & Hz & HP' & Hd' & Hb' & Hg2 & Ha2 & Hc2); [done| | | |congruence|congruence| |].
    - by rewrite Hb1 -assoc_L map_difference_union.
    - apply map_disjoint_union_l. split; [|by apply map_disjoint_difference_r].
      eapply map_disjoint_weaken_r; [exact Hd1|]. by apply map_subseteq_difference_l.
    - apply hprop_sep_eq. by exists h1, h2.
    - apply fobj_size in HP2. rewrite Hb1 map_size_disj_union // -(map_difference_union h2 (blk m)) // map_size_disj_union; [lia|].
      by apply map_disjoint_difference_r.
    - cbn [flast last] in El. unfold bind, on_throw, catch, with_fuel. rewrite El. apply hprop_sep_eq in HP' as (h6 & h7 & -> & Hd67 & H6 & H7). cbn [app] in H7. apply (fheap_exact _ _ Hnd) in H7 as ->. fold h2 in Hd67, Hd', Hb'.
      apply map_disjoint_union_l in Hd' as [Hd6 Hd7]. exists this, m2, zs, h6. do 5 (split; [done|]).
      split; [rewrite -(map_difference_union h2 (blk m)) //; by apply map_disjoint_union_r|].
      split; [by rewrite Hb' -assoc_L map_difference_union|done].
  Qed.
  Lemma c129_f_copy m other ys ao co :
    mem_wf m → f_holds m other ys →
    aorc m = replicate (length ys) false ++ ao → corc m = replicate (length ys) false ++ co →
    ∃ this m' zs, f_copy other m = Ok this m' ∧ aorc m' = ao ∧ corc m' = co ∧ zs.*2 = ys.*2 ∧
      f_holds m' this zs ∧ replaces [] m (f_cells this zs) m'.
  Proof.
    intros Hw Hh Ha Hc. destruct (f_copy_done m other ys ao co Hw Hh Ha Hc) as (this & m' & zs & h' & El & Ha' & Hc' & Hz & HP & Hd & Hb & _).
    exists this, m', zs. do 4 (split; [done|]).
    split; [eapply fobj_holds; [done|]; rewrite Hb; apply map_union_subseteq_l|].
    apply (owned_replaces m m' ∅ h').
    - apply map_empty_subseteq.
    - intros l. rewrite lookup_empty. split; [by intros ?%elem_of_nil|by intros []].
    - intros l. by rewrite (fobj_cells _ _ _ HP).
    - by rewrite map_difference_empty.
    - by rewrite map_difference_empty.
  Qed.
  Lemma na_f_clear this : no_alloc (f_clear (V:=V) this).
  Proof.
    unfold f_clear. apply na_bind; [|intros; na]. unfold f_erase_range. apply na_bind; [unfold f_next; na|]. intros c. apply na_bind.
    - intros m. unfold with_fuel. generalize (S (size (blk m))). intros fuel. revert m. change (no_alloc (f_erase_loop (V:=V) fuel c None)).
      revert c. induction fuel as [|fuel IH]; intros c; [done|]. cbn [f_erase_loop]. case_decide; [na|].
      unfold f_next, f_destroy, f_dealloc. repeat first [apply IH | apply na_free | progress na].
    - intros _. unfold f_set_next. na.
  Qed.
  Lemma nc_f_clear this : no_copy (f_clear (V:=V) this).
  Proof.
    unfold f_clear. apply nc_bind; [|intros; nc]. unfold f_erase_range. apply nc_bind; [unfold f_next; nc|]. intros c. apply nc_bind.
    - intros m. unfold with_fuel. generalize (S (size (blk m))). intros fuel. revert m. change (no_copy (f_erase_loop (V:=V) fuel c None)).
      revert c. induction fuel as [|fuel IH]; intros c; [done|]. cbn [f_erase_loop]. case_decide; [nc|].
      unfold f_next, f_destroy, f_dealloc. repeat first [apply IH | apply nc_free | progress nc].
    - intros _. unfold f_set_next. nc.
  Qed.
  (** [this] may be [other] *)
  Lemma c129_f_assign m this xs other ys ao co :
    mem_wf m → f_holds m this xs → f_holds m other ys →
    aorc m = replicate (length ys) false ++ ao → corc m = replicate (length ys) false ++ co →
    ∃ m' zs, f_assign this other m = Ok tt m' ∧ aorc m' = ao ∧ corc m' = co ∧ zs.*2 = ys.*2 ∧
      f_holds m' this zs ∧ replaces (f_cells this xs) m (f_cells this zs) m'.
  Proof.
    intros Hw Hh Hh' Ha Hc. destruct (f_copy_done m other ys ao co Hw Hh' Ha Hc) as (tmp & m1 & zs & h6 & El & Ha1 & Hc1 & Hz & HP & Hd & Hb & Hg1).
    apply f_holds_heap in Hh as [Hnd Hs]. set (h1 := fheap this xs) in *.
    assert (fobj this xs ∗ fobj tmp zs ⊢ wp mA (f_swap this tmp ;;; f_dtor tmp) (λ _, fobj this zs) (λ _, False))%I as Hwp.
    { iIntros "[H T]". wbind. iApply (wp_f_swap with "H T"). iIntros "H T". iApply (wp_f_dtor with "T"). by iIntros "_". }
    pose proof (wp_frame_adequate _ _ _ _ _ m1 (h1 ∪ h6) (blk m ∖ h1) Hwp Hg1) as H.
    assert (h6 ##ₘ h1) as Hd61 by by eapply map_disjoint_weaken_r.
    feed specialize H.
    { rewrite Hb (map_union_comm h1 h6) // -assoc_L map_difference_union //. }
    { apply map_disjoint_union_l. split; [by apply map_disjoint_difference_r|].
      eapply map_disjoint_weaken_r; [exact Hd|]. by apply map_subseteq_difference_l. }
    { apply hprop_sep_eq. exists h1, h6. split; [done|]. split; [done|]. split; [by apply fheap_exact|done]. }
    assert (no_alloc (f_swap (V:=V) this tmp ;;; f_dtor tmp)) as Haa.
    { apply na_bind; [unfold f_swap, f_next, f_set_next; na|]. intros _. unfold f_dtor. apply na_bind; [apply na_f_clear|]. intros _. apply na_free. }
    assert (no_copy (f_swap (V:=V) this tmp ;;; f_dtor tmp)) as Hcc.
    { apply nc_bind; [unfold f_swap, f_next, f_set_next; nc|]. intros _. unfold f_dtor. apply nc_bind; [apply nc_f_clear|]. intros _. apply nc_free. }
    specialize (Haa m1). specialize (Hcc m1). unfold f_assign, bind at 1. rewrite El.
    destruct ((f_swap this tmp ;;; f_dtor tmp) m1) as [[] m'|e m'| |]; [| |done|done].
    2: { by destruct H as (_ & ? & _ & _ & []). }
    destruct H as (_ & h' & Hd' & Hb' & HP'). exists m', zs. split; [done|]. split; [congruence|]. split; [congruence|]. split; [done|].
    split; [eapply fobj_holds; [done|]; rewrite Hb'; apply map_union_subseteq_l|].
    apply (owned_replaces m m' h1 h'); [done| | |done|done].
    - intros l. by rewrite fheap_dom.
    - intros l. by rewrite (fobj_cells _ _ _ HP').
  Qed.
End forward.
