(** How many allocations and copies copying and assigning sets and maps takes. *)
From iris.proofmode Require Import tactics.
From Verif Require Import SLTac Hist HistGen HistProofs MemRun AllocCount NoCopy ModelTree SpecTree TreeFacts TreeProofs TreeMem TreeProps TreeThrow.
From Verif Require Import TreeBuild TreeAlloc.
Notation mA := (Mode true true) (only parsing).

Section cost.
  Context {X K : Type} (key : X → K) (comp : K → K → bool) (Hsw : strict_weak comp).
  Context (eqn : option (K → K → bool)).
  Implicit Types (t : tree X) (m : mem (tcell X)).
  Local Notation search := (search key comp).
  Local Notation tgood := (tgood key comp).
  Local Notation insert_t := (insert_t key comp).
  Lemma good_any_t m : mem_wf m → good mA m.
  Proof using. intros Hw. split; [done|]. by split; intros [=]. Qed.
  Lemma wp_turn_any this other t t0 a q x b :
    same_ok key eqn t0 → nodes t0 = a ++ (q, x) :: b → tgood t → search (key x) t = None →
    tobj this t ∗ tobj other t0 ⊢ wp mA (turn key comp eqn this q)
      (λ r, ∃ n, ⌞r = (n, true, fst <$> head b)⌟ ∗ tobj this (insert_t n x t) ∗ tobj other t0)
      (λ e, ⌞e = BadAlloc⌟ ∗ tobj this t ∗ tobj other t0 ∨ ∃ n, ⌞e = CopyThrow⌟ ∗ torn key comp this t x n ∗ tobj other t0).
  Proof using Hsw.
    iIntros (Hs E Hg Hx) "[H G]". unfold turn. wbind. iApply (wp_t_value _ _ _ q x with "G"); [rewrite E; set_solver +|]. iIntros "G".
    wbind. iApply (wp_t_insert_any key comp Hsw mA with "H"); [done|]. rewrite Hx. iSplit; [|iSplit].
    - iIntros (_) "H". iLeft. by iFrame.
    - iIntros (_ n) "H R". iRight. iExists n. by iFrame.
    - iIntros (n) "H". wbind. iApply (wp_t_succ key eqn mA _ _ _ q x b with "G"); [done..|]. iIntros "G". wret.
      iExists n. by iFrame.
  Qed.
  Lemma ta_turn this q : tally (turn key comp eqn this q).
  Proof using.
    unfold turn, t_value. apply ta_bind; [apply ta_bind; [apply ta_node|]; intros; apply ta_elem|]. intros x.
    apply ta_bind; [apply ta_insert|]. intros r. apply ta_bind; [apply ta_succ|]. intros it. ta.
  Qed.
  Lemma pair_size this t other t0 h : (tobj this t ∗ tobj other t0)%I h → size h = length (nodes t) + length (nodes t0) + 2.
  Proof using.
    intros (h1 & h2 & -> & Hd & H1%tobj_size & H2%tobj_size)%hprop_sep_eq. rewrite map_size_disj_union //. lia.
  Qed.
  Lemma fill_loop_done fuel ao co this other t t0 a b m h hf :
    same_ok key eqn t0 → tgood t0 → nodes t0 = a ++ b → tgood t → (nodes t).*2 = a.*2 →
    good mA m → blk m = h ∪ hf → h ##ₘ hf → (tobj this t ∗ tobj other t0)%I h →
    aorc m = replicate (length b) false ++ ao → corc m = replicate (2 * length b) false ++ co → length b < fuel →
    ∃ m' h' t', t_fill_loop key comp eqn fuel this (fst <$> head b) m = Ok tt m' ∧
      tgood t' ∧ (nodes t').*2 = (nodes t0).*2 ∧
      (tobj this t' ∗ tobj other t0)%I h' ∧ h' ##ₘ hf ∧ blk m' = h' ∪ hf ∧ aorc m' = ao ∧ corc m' = co.
  Proof using Hsw.
    intros Hs Hg0. revert fuel t a m h. induction b as [|[q0 x0] b IH]; intros [|fuel] t a m h E Hg Ht Hgm Hb Hd HP Ha Hc Hf;
      try (cbn in Hf; lia); cbn [head fmap option_fmap option_map fst].
    { cbn [t_fill_loop]. destruct (decide _) as [_|Hn]; [|by destruct Hn]. exists m, h, t. split; [done|]. split; [done|].
      split; [by rewrite E app_nil_r|]. by repeat (split; [done|]). }
    rewrite fill_turn; unfold bind.
    destruct (next_absent key comp Hsw t t0 a q0 x0 b Hg0 E Hg Ht) as [Hx0 Hins].
    cbn [length] in Ha, Hc. replace (2 * S (length b)) with (S (S (2 * length b))) in Hc by lia. cbn [replicate app] in Ha, Hc.
    pose proof (turn_told key comp eqn _ this q0 m Hc) as Htold. pose proof (pair_size _ _ _ _ _ HP) as Hsz.
    pose proof (wp_frame_adequate _ _ _ _ _ _ _ _ (wp_turn_any this other t t0 a q0 x0 b Hs E Hg Hx0) Hgm Hb Hd HP) as Hw.
    destruct (turn key comp eqn this q0 m) as [[[n ins] it] m1|e m1| |] eqn:Et; [| |done|done].
    2: { exfalso. destruct Hw as (_ & h' & Hd' & Hb' & [[-> HQ]%pure_sep_inv|(r & [-> _]%pure_sep_inv)]); [|done].
         pose proof (tally_thrown _ _ _ _ (ta_turn this q0) (proj1 Hgm) Ha Et) as Hlt. apply pair_size in HQ.
         rewrite Hb Hb' !map_size_disj_union // in Hlt. lia. }
    destruct Hw as (Hg1 & h' & Hd' & Hb' & (n' & [[= -> -> ->] HQ]%pure_sep_inv)). destruct Htold as [_ Hc']. cbn [tail] in Hc'.
    destruct (Hins n') as [Hg' Hz']. pose proof (pair_size _ _ _ _ _ HQ) as Hsz'.
    assert (aorc m1 = replicate (length b) false ++ ao) as Ha'.
    { apply (tally_done _ m 1 _ _ _ (ta_turn this q0) (proj1 Hgm) Ha Et).
      rewrite Hb Hb' !map_size_disj_union //. apply (f_equal length) in Hz', Ht. rewrite !fmap_length ?app_length in Hz', Ht.
      cbn in Hz'. lia. }
    destruct (IH fuel (insert_t n' x0 t) (a ++ [(q0, x0)]) m1 h') as (m' & h'' & t' & El & Hrest);
      [by rewrite -assoc_L|done..|cbn in Hf; lia|].
    by exists m', h'', t'.
  Qed.
  Lemma fill_done ao co this other t0 m h hf :
    same_ok key eqn t0 → tgood t0 → good mA m → blk m = h ∪ hf → h ##ₘ hf → (tobj this E ∗ tobj other t0)%I h →
    aorc m = replicate (length (nodes t0)) false ++ ao → corc m = replicate (2 * length (nodes t0)) false ++ co →
    ∃ m' h' t', t_fill key comp eqn this other m = Ok tt m' ∧ tgood t' ∧ (nodes t').*2 = (nodes t0).*2 ∧
      (tobj this t' ∗ tobj other t0)%I h' ∧ h' ##ₘ hf ∧ blk m' = h' ∪ hf ∧ aorc m' = ao ∧ corc m' = co.
  Proof using Hsw.
    intros Hs Hg0 Hg Hb Hd HP Ha Hc.
    pose proof HP as (h1 & h2 & Eh & Hd12 & HP1 & HP2)%hprop_sep_eq.
    assert (h2 ⊆ blk m) as Hs2.
    { rewrite Hb Eh. etrans; [by apply map_union_subseteq_r|apply map_union_subseteq_l]. }
    unfold t_fill, bind. destruct (tobj_holds _ _ _ _ HP2 Hs2) as [Hh _]. rewrite (c32_begin m other t0 Hh). unfold with_fuel.
    apply (fill_loop_done (S (size (blk m))) ao co this other E t0 [] (nodes t0) m h hf); try done.
    - apply good_E.
    - apply pair_size in HP. rewrite Hb map_size_disj_union //. lia.
  Qed.
  Lemma c129_t_copy m other t0 ao co :
    iter_ok comp eqn → mem_wf m → t_holds m other t0 → increasing key comp (nodes t0).*2 → red_black t0 →
    aorc m = replicate (length (nodes t0)) false ++ ao → corc m = replicate (2 * length (nodes t0)) false ++ co →
    ∃ this m' t, t_copy key comp eqn other m = Ok this m' ∧ aorc m' = ao ∧ corc m' = co ∧
      (nodes t).*2 = (nodes t0).*2 ∧ red_black t ∧ t_holds m' this t ∧ replaces [] m (t_cells this t) m'.
  Proof using Hsw.
    intros Hit Hw Hh Hi Hr Ha Hc.
    assert (same_ok key eqn t0) as Hsame.
    { apply (same_ok_good key comp Hsw eqn); [done..|]. by destruct Hh as [[_ ?]%NoDup_cons _]. }
    apply t_holds_heap in Hh as [Hnd Hs].
    unfold t_copy. assert (emp ⊢ wp mA (t_new (X:=X)) (λ this, tobj this E) (λ _, False))%I as Hwp.
    { iIntros "_". iApply wp_t_new. by iIntros (this) "$". }
    pose proof (wp_frame_adequate _ _ _ _ _ m ∅ (blk m) Hwp (good_any_t _ Hw)) as H. feed specialize H.
    { by rewrite left_id_L. } { apply map_disjoint_empty_l. } { by apply hprop_emp_eq. }
    assert (no_alloc (t_new (X:=X))) as Haa by done. specialize (Haa m).
    unfold bind at 1. pose proof (nc_new_t m) as Hcc.
    destruct (t_new m) as [this m1|e m1| |]; [| |done|done].
    2: { by destruct H as (_ & ? & _ & _ & []). }
    destruct H as (Hg1 & h1 & Hd1 & Hb1 & HP1). set (h2 := theap other t0) in *.
    destruct (fill_done ao co this other t0 m1 (h1 ∪ h2) (blk m ∖ h2)) as (m2 & h' & t & El & [_ Hrt] & Hz & HP' & Hd' & Hb' & Ha2 & Hc2);
      [done|done|done| | | |congruence|congruence|].
    - by rewrite Hb1 -assoc_L map_difference_union.
    - apply map_disjoint_union_l. split; [|by apply map_disjoint_difference_r].
      eapply map_disjoint_weaken_r; [exact Hd1|]. by apply map_subseteq_difference_l.
    - apply hprop_sep_eq. exists h1, h2. split; [done|]. split; [by eapply map_disjoint_weaken_r|]. split; [done|].
      by apply theap_exact.
    - unfold bind, on_throw, catch. rewrite El. exists this, m2, t. do 5 (split; [done|]).
      apply hprop_sep_eq in HP' as (h6 & h7 & -> & Hd67 & H6 & H7). apply (theap_exact _ _ Hnd) in H7 as ->. fold h2 in Hd67, Hd', Hb'.
      apply map_disjoint_union_l in Hd' as [Hd6 Hd7].
      assert (blk m2 = h6 ∪ blk m) as Hb4 by by rewrite Hb' -assoc_L map_difference_union.
      split; [eapply tobj_holds; [done|]; rewrite Hb4; apply map_union_subseteq_l|].
      apply (owned_replaces m m2 ∅ h6).
      + apply map_empty_subseteq.
      + intros l. rewrite lookup_empty. split; [by intros ?%elem_of_nil|by intros []].
      + intros l. by rewrite (tobj_cells _ _ _ H6).
      + rewrite map_difference_empty -(map_difference_union h2 (blk m)) //. by apply map_disjoint_union_r.
      + by rewrite map_difference_empty.
  Qed.
  Lemma c129_t_assign m this t other t0 ao co :
    iter_ok comp eqn → mem_wf m → t_holds m this t → t_holds m other t0 →
    increasing key comp (nodes t0).*2 → red_black t0 →
    (∀ l, l ∈ t_cells this t → l ∉ t_cells other t0) →
    aorc m = replicate (length (nodes t0)) false ++ ao → corc m = replicate (2 * length (nodes t0)) false ++ co →
    ∃ m' t', t_assign key comp eqn this other m = Ok tt m' ∧ aorc m' = ao ∧ corc m' = co ∧
      (nodes t').*2 = (nodes t0).*2 ∧ red_black t' ∧ t_holds m' this t' ∧ t_holds m' other t0 ∧
      replaces (t_cells this t ++ t_cells other t0) m (t_cells this t' ++ t_cells other t0) m'.
  Proof using Hsw.
    intros Hit Hm%good_any_t Hh Hh' Hi Hr Hap Ha Hc.
    assert (same_ok key eqn t0) as Hsame.
    { apply (same_ok_good key comp Hsw eqn); [done..|]. by destruct Hh' as [[_ ?]%NoDup_cons _]. }
    apply t_holds_heap in Hh as [Hnd Hs1]. apply t_holds_heap in Hh' as [Hnd' Hs2].
    set (h1 := theap this t) in *. set (h2 := theap other t0) in *.
    assert (h1 ##ₘ h2) as Hd12.
    { apply map_disjoint_spec. intros l c1 c2 H1 H2. apply (Hap l); apply theap_dom; eauto. }
    assert (h1 ∪ h2 ⊆ blk m) as Hs12 by by apply map_union_least.
    set (hf := blk m ∖ (h1 ∪ h2)).
    assert (blk m = (h1 ∪ h2) ∪ hf) as Hb by (symmetry; by apply map_difference_union).
    assert (h1 ∪ h2 ##ₘ hf) as Hd by by apply map_disjoint_difference_r.
    assert (tobj this t ∗ tobj other t0 ⊢ wp mA (t_clear (X:=X) this) (λ _, tobj this E ∗ tobj other t0) (λ _, False))%I as Hwp.
    { iIntros "[H G]". iApply (wp_t_clear with "H"). iIntros "H". by iFrame. }
    pose proof (wp_frame_adequate _ _ _ _ _ m (h1 ∪ h2) hf Hwp Hm Hb Hd) as H. feed specialize H.
    { apply hprop_sep_eq. exists h1, h2. split; [done|]. split; [done|]. split; by apply theap_exact. }
    pose proof (na_t_clear this m) as Haa. pose proof (nc_t_clear this m) as Hcc. unfold t_assign, bind.
    destruct (t_clear this m) as [[] m1|e m1| |]; [| |done|done].
    2: { by destruct H as (_ & ? & _ & _ & []). }
    destruct H as (Hg1 & h3 & Hd3 & Hb3 & HP3).
    destruct (fill_done ao co this other t0 m1 h3 hf) as (m' & h' & t' & El & [_ Hr'] & Hz & HP' & Hd' & Hb' & Ha2 & Hc2);
      [done..|congruence|congruence|].
    apply hprop_sep_eq in HP' as (h6 & h7 & -> & Hd67 & H6 & H7).
    assert (h6 ∪ h7 ⊆ blk m') as Hs67.
    { rewrite Hb'. apply map_union_subseteq_l. }
    exists m', t'. do 5 (split; [done|]).
    split; [eapply tobj_holds; [done|]; etrans; [apply map_union_subseteq_l|done]|].
    split; [eapply tobj_holds; [done|]; etrans; [by apply map_union_subseteq_r|done]|].
    eapply owned_replaces; [exact Hs12| | |exact Hd'|exact Hb'].
    - intros l. rewrite elem_of_app !theap_dom lookup_union_is_Some //.
    - intros l. rewrite elem_of_app lookup_union_is_Some (tobj_cells _ _ _ H6) (tobj_cells _ _ _ H7) //.
  Qed.
End cost.
