(** Copying and assigning sets and maps when the [j]-th allocation fails. *)
From iris.proofmode Require Import tactics.
From Verif Require Import SLTac Hist HistGen HistProofs MemRun AllocCount ModelSwap ModelTree SpecTree TreeFacts TreeProofs TreeMem TreeProps.

Section tallies.
  Context {X K : Type} (key : X → K) (comp : K → K → bool) (eqn : option (K → K → bool)).
  Lemma ta_rd pl : tally (rd (X:=X) pl).
  Proof using. unfold rd. destruct pl; ta. Qed.
  Lemma ta_wr pl w : tally (wr (X:=X) pl w).
  Proof using. unfold wr. destruct pl; ta. Qed.
  Lemma ta_elem n : tally (t_elem (X:=X) n).
  Proof using. unfold t_elem. ta. Qed.
  Lemma ta_color n : tally (t_color (X:=X) n).
  Proof using. unfold t_color. ta. Qed.
  Lemma ta_paint n c : tally (t_paint (X:=X) n c).
  Proof using. unfold t_paint. ta. Qed.
  Lemma ta_node p : tally (node (X:=X) p).
  Proof using. unfold node. ta. Qed.
  Lemma ta_bgn n : tally (t_bgn (X:=X) n).
  Proof using. unfold t_bgn. ta. Qed.
  Lemma ta_set_bgn n b : tally (t_set_bgn (X:=X) n b).
  Proof using. unfold t_set_bgn. ta. Qed.
  Lemma ta_size n : tally (t_size (X:=X) n).
  Proof using. unfold t_size. ta. Qed.
  Lemma ta_set_size n b : tally (t_set_size (X:=X) n b).
  Proof using. unfold t_set_size. ta. Qed.
  Ltac tat := repeat first [ apply ta_rd | apply ta_wr | apply ta_elem | apply ta_color | apply ta_paint | apply ta_node
    | apply ta_bgn | apply ta_set_bgn | apply ta_size | apply ta_set_size | progress ta ].
  Lemma ta_swap pls : tally (nary_swap (rd (X:=X)) wr pls).
  Proof using.
    unfold nary_swap. destruct pls as [|p pls]; [ta|]. apply ta_bind; [apply ta_rd|]. intros w.
    revert p. induction pls as [|p' pls IH]; intros p; cbn [fold_left_wrap]; [apply ta_wr|].
    apply ta_bind; [apply ta_rd|]. intros u. apply ta_bind; [apply ta_wr|]. intros _. apply IH.
  Qed.
  Lemma ta_rotate pl : tally (t_rotate_left (X:=X) pl) ∧ tally (t_rotate_right (X:=X) pl).
  Proof using. unfold t_rotate_left, t_rotate_right. split; repeat first [apply ta_swap | progress tat]. Qed.
  Lemma ta_fix pl : tally (t_fix (X:=X) pl).
  Proof using. unfold t_fix, t_red_red, t_is_red. repeat first [apply ta_rotate | progress tat]. Qed.
  Lemma ta_attach this v pl p : tally (t_attach key comp this v pl p).
  Proof using. unfold t_attach, t_construct. tat. Qed.
  Lemma ta_ins fuel this v pl p : tally (t_ins key comp fuel this v pl p).
  Proof using.
    revert pl p. induction fuel as [|fuel IH]; intros pl p; [done|]. cbn [t_ins].
    apply ta_bind; [apply ta_rd|]. intros [n|]; [|apply ta_attach]. apply ta_bind; [apply ta_elem|]. intros x.
    destruct (comp (key v) (key x)); [|destruct (comp (key x) (key v)); [|ta]];
      (apply ta_bind; [apply IH|]; intros r; apply ta_bind; [apply ta_fix|]; intros _; ta).
  Qed.
  Lemma ta_insert this v : tally (t_insert key comp this v).
  Proof using.
    unfold t_insert. apply ta_bind; [apply ta_fuel; intros; apply ta_ins|]. intros r. tat.
  Qed.
  Lemma ta_down fuel n : tally (t_down (X:=X) fuel n).
  Proof using. revert n. induction fuel as [|fuel IH]; intros n; cbn [t_down]; [done|]. repeat first [apply IH | progress tat]. Qed.
  Lemma ta_climb fuel n p : tally (t_climb (X:=X) key eqn fuel n p).
  Proof using.
    revert n p. induction fuel as [|fuel IH]; intros n p; cbn [t_climb]; [done|]. unfold t_same.
    repeat first [apply IH | progress tat].
  Qed.
  Lemma ta_succ it : tally (t_succ (X:=X) key eqn it).
  Proof using.
    unfold t_succ. apply ta_bind; [apply ta_node|]. intros n. apply ta_bind; [apply ta_rd|]. intros [r|].
    - apply ta_bind; [|intros; ta]. apply ta_fuel. intros. apply ta_down.
    - apply ta_bind; [apply ta_rd|]. intros pn. apply ta_fuel. intros. apply ta_climb.
  Qed.
  Lemma ta_fill this other : tally (t_fill key comp eqn this other).
  Proof using.
    unfold t_fill. apply ta_bind; [apply ta_bgn|]. intros it. apply ta_fuel. intros fuel. revert it.
    induction fuel as [|fuel IH]; intros it; [done|]. cbn [t_fill_loop]. case_decide; [ta|]. unfold t_value.
    apply ta_bind; [apply ta_bind; [apply ta_node|]; intros; apply ta_elem|]. intros x.
    apply ta_bind; [apply ta_insert|]. intros _. apply ta_bind; [apply ta_succ|]. done.
  Qed.
  Lemma na_rd pl : no_alloc (rd (X:=X) pl).
  Proof using. unfold rd. destruct pl; na. Qed.
  Lemma na_t_clear this : no_alloc (t_clear (X:=X) this).
  Proof using.
    unfold t_clear. apply na_bind; [apply na_rd|]. intros r. apply na_bind.
    - assert (∀ fuel p, no_alloc (t_dd (X:=X) fuel p)) as Hdd.
      { induction fuel as [|fuel IH]; intros p; cbn [t_dd]; [done|]. unfold t_destroy, t_dealloc.
        repeat first [apply IH | apply na_rd | progress na]. }
      intros m. unfold with_fuel. apply Hdd.
    - intros _. unfold wr, t_set_bgn, t_set_size. na.
  Qed.
End tallies.

Section build.
  Context {X K : Type} (key : X → K) (comp : K → K → bool) (Hsw : strict_weak comp).
  Context (eqn : option (K → K → bool)).
  Implicit Types (t : tree X) (m : mem (tcell X)).
  Local Notation tgood := (tgood key comp).
  Lemma fill_fails j ao this other t0 m h hf :
    same_ok key eqn t0 → tgood t0 → good mT m → blk m = h ∪ hf → h ##ₘ hf → (tobj this E ∗ tobj other t0)%I h →
    aorc m = replicate j false ++ true :: ao → j < length (nodes t0) →
    ∃ m' h' t', t_fill key comp eqn this other m = Exn BadAlloc m' ∧ good mT m' ∧
      tgood t' ∧ (nodes t').*2 = take j (nodes t0).*2 ∧ (tobj this t' ∗ tobj other t0)%I h' ∧ h' ##ₘ hf ∧ blk m' = h' ∪ hf.
  Proof using Hsw.
    intros Hsm Hg0 Hg Hb Hd HP Ho Hj.
    destruct (tally_run (t_fill key comp eqn this other) (tobj this E ∗ tobj other t0)%I
      (λ _, ∃ t, ⌞tgood t ∧ (nodes t).*2 = (nodes t0).*2⌟ ∗ tobj this t ∗ tobj other t0)%I
      (λ e, ⌞e = BadAlloc⌟ ∗ ∃ t, ⌞tgood t ∧ ∃ i, (nodes t).*2 = take i (nodes t0).*2⌟ ∗ tobj this t ∗ tobj other t0)%I
      m h hf j ao (ta_fill key comp eqn this other))
      as (m' & h' & El & Hg' & Hd' & Hb' & HR & Hs); [|done..| | |].
    - iIntros "[H G]". iApply (wp_t_fill key comp Hsw eqn mT eq_refl with "H G"); [done..|]. iSplit.
      + iIntros (t i (_ & Hgt & Hz)) "H G". iSplitR; [done|]. iExists t. iFrame. iPureIntro. split; [done|]. by exists i.
      + iIntros (t Hz) "H G". iExists t. by iFrame.
    - intros _ h' (t & [[_ Hz] Hl]%pure_sep_inv).
      apply hprop_sep_eq in HP as (h1 & h2 & -> & Hd1 & H1%tobj_size & H2%tobj_size).
      apply hprop_sep_eq in Hl as (h3 & h4 & -> & Hd2 & H3%tobj_size & H4%tobj_size).
      apply (f_equal length) in Hz. rewrite !fmap_length in Hz. rewrite !map_size_disj_union //. cbn in H1. lia.
    - by intros e h' [-> _]%pure_sep_inv.
    - apply pure_sep_inv in HR as [_ (t & [[Hgt [i Hz]] Hl]%pure_sep_inv)]. exists m', h', t. split; [done|]. split; [done|].
      split; [done|]. split; [|done].
      assert (length (nodes t) = j) as Hlen.
      { apply hprop_sep_eq in HP as (h1 & h2 & -> & Hd1 & H1%tobj_size & H2%tobj_size).
        apply hprop_sep_eq in Hl as (h3 & h4 & -> & Hd2 & H3%tobj_size & H4%tobj_size).
        rewrite !map_size_disj_union // in Hs. cbn in H1. lia. }
      rewrite Hz. pose proof (f_equal length Hz) as Hlz. rewrite take_length !fmap_length in Hlz.
      destruct (decide (i ≤ length (nodes t0))); [f_equal; lia|lia].
  Qed.
  Lemma c128_t_copy m other t0 j ao :
    iter_ok comp eqn → may_fail_alloc m → t_holds m other t0 → increasing key comp (nodes t0).*2 → red_black t0 →
    aorc m = replicate j false ++ true :: ao → j < length (nodes t0) →
    ∃ m', t_copy key comp eqn other m = Exn BadAlloc m' ∧ blk m' = blk m.
  Proof using Hsw.
    intros Hit Hm Hh Hi Hrb Ho Hj. pose proof (c33_copy key comp eqn Hsw m other t0 Hit Hm Hh Hi Hrb) as Hr. unfold runs_to in Hr.
    destruct (t_copy key comp eqn other m) as [r m'|e m'| |] eqn:El; [exfalso| |done..].
    2: { destruct Hr as (-> & _ & ?). by exists m'. }
    clear Hr. assert (same_ok key eqn t0) as Hsame.
    { apply (same_ok_good key comp Hsw eqn); [done..|]. by destruct Hh as [[_ ?]%NoDup_cons _]. }
    apply t_holds_heap in Hh as [Hnd Hs]. apply good_may_fail in Hm.
    unfold t_copy in El. assert (emp ⊢ wp mT (t_new (X:=X)) (λ this, tobj this E) (λ _, False))%I as Hwp.
    { iIntros "_". iApply wp_t_new. by iIntros (this) "$". }
    pose proof (wp_frame_adequate _ _ _ _ _ m ∅ (blk m) Hwp Hm) as H. feed specialize H.
    { by rewrite left_id_L. } { apply map_disjoint_empty_l. } { by apply hprop_emp_eq. }
    assert (no_alloc (t_new (X:=X))) as Hna by done. specialize (Hna m). unfold bind at 1 in El.
    destruct (t_new m) as [this m1|e m1| |]; [|done..].
    destruct H as (Hg1 & h1 & Hd1 & Hb1 & HP1). set (h2 := theap other t0) in *.
    destruct (fill_fails j ao this other t0 m1 (h1 ∪ h2) (blk m ∖ h2)) as (m2 & h' & t & E2 & _);
      [done|done|done| | | |congruence|done|].
    - by rewrite Hb1 -assoc_L map_difference_union.
    - apply map_disjoint_union_l. split; [|by apply map_disjoint_difference_r].
      eapply map_disjoint_weaken_r; [exact Hd1|]. by apply map_subseteq_difference_l.
    - apply hprop_sep_eq. exists h1, h2. split; [done|]. split; [by eapply map_disjoint_weaken_r|]. split; [done|].
      by apply theap_exact.
    - unfold bind, on_throw, catch in El. rewrite E2 in El. unfold bind in El. by destruct (t_dtor this m2).
  Qed.
  Lemma c128_t_assign m this t other t0 j ao :
    iter_ok comp eqn → may_fail_alloc m → t_holds m this t → t_holds m other t0 →
    increasing key comp (nodes t0).*2 → red_black t0 →
    (∀ l, l ∈ t_cells this t → l ∉ t_cells other t0) →
    aorc m = replicate j false ++ true :: ao → j < length (nodes t0) →
    ∃ m' t', t_assign key comp eqn this other m = Exn BadAlloc m' ∧
      (nodes t').*2 = take j (nodes t0).*2 ∧ red_black t' ∧ t_holds m' this t' ∧ t_holds m' other t0 ∧
      replaces (t_cells this t ++ t_cells other t0) m (t_cells this t' ++ t_cells other t0) m'.
  Proof using Hsw.
    intros Hit Hm%good_may_fail Hh Hh' Hi Hr Hap Ho Hj.
    assert (same_ok key eqn t0) as Hsame.
    { apply (same_ok_good key comp Hsw eqn); [done..|]. by destruct Hh' as [[_ ?]%NoDup_cons _]. }
    apply t_holds_heap in Hh as [Hnd Hs1]. apply t_holds_heap in Hh' as [Hnd' Hs2].
    set (h1 := theap this t) in *. set (h2 := theap other t0) in *.
    assert (h1 ##ₘ h2) as Hd12.
    { apply map_disjoint_spec. intros l c1 c2 H1 H2. apply (Hap l); apply theap_dom; eauto. }
    assert (h1 ∪ h2 ⊆ blk m) as Hs12 by by apply map_union_least.
    set (hf := blk m ∖ (h1 ∪ h2)).
    assert (blk m = (h1 ∪ h2) ∪ hf) as Hb by (symmetry; by apply map_difference_union).
    assert (h1 ∪ h2 ##ₘ hf) as Hd by by apply map_disjoint_difference_r.
    assert (tobj this t ∗ tobj other t0 ⊢ wp mT (t_clear (X:=X) this) (λ _, tobj this E ∗ tobj other t0) (λ _, False))%I as Hwp.
    { iIntros "[H G]". iApply (wp_t_clear with "H"). iIntros "H". by iFrame. }
    pose proof (wp_frame_adequate _ _ _ _ _ m (h1 ∪ h2) hf Hwp Hm Hb Hd) as H. feed specialize H.
    { apply hprop_sep_eq. exists h1, h2. split; [done|]. split; [done|]. split; by apply theap_exact. }
    pose proof (na_t_clear this m) as Hcc. unfold t_assign, bind.
    destruct (t_clear this m) as [[] m1|e m1| |]; [| |done|done].
    2: { by destruct H as (_ & ? & _ & _ & []). }
    destruct H as (Hg1 & h3 & Hd3 & Hb3 & HP3).
    destruct (fill_fails j ao this other t0 m1 h3 hf) as (m' & h' & t' & El & _ & [_ Hr'] & Hz & HP' & Hd' & Hb');
      [done..|congruence|done|].
    apply hprop_sep_eq in HP' as (h6 & h7 & -> & Hd67 & H6 & H7).
    assert (h6 ∪ h7 ⊆ blk m') as Hs67.
    { rewrite Hb'. apply map_union_subseteq_l. }
    exists m', t'. split; [done|]. split; [done|]. split; [done|].
    split; [eapply tobj_holds; [done|]; etrans; [apply map_union_subseteq_l|done]|].
    split; [eapply tobj_holds; [done|]; etrans; [by apply map_union_subseteq_r|done]|].
    eapply owned_replaces; [exact Hs12| | |exact Hd'|exact Hb'].
    - intros l. rewrite elem_of_app !theap_dom lookup_union_is_Some //.
    - intros l. rewrite elem_of_app lookup_union_is_Some (tobj_cells _ _ _ H6) (tobj_cells _ _ _ H7) //.
  Qed.
End build.
