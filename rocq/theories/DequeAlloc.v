(** Building deques when allocations fail. *)
From iris.proofmode Require Import tactics.
From Verif Require Import SLTac HistGen HistProofs MemRun ModelDeque SpecDeque SpecDequeBuild DequeProofs DequeMem DequeIter DequeProps SpecDequeGrowth DequeGrowth DequeBuild.

Section alloc.
  Context {V : Type} (K : nat) (HK : 2 ≤ K).
  Implicit Types (d : dstate V) (m : mem (dcell V)).
  Notation mT := (Mode true false).

  Lemma wp_d_new_any md Q R :
    ((leak K -∗ R BadAlloc) ∧ (∀ this v cap cs, dobj K this v cap cs (dq_fresh K) -∗ Q this)) -∗ wp md (d_new (V:=V) K) Q R.
  Proof using HK.
    iIntros "HQ". rewrite /d_new. wbind. iApply wp_new'. iIntros (this) "H". wbind.
    iApply wp_on_throw. wbind. rewrite /d_allocate. iApply wp_alloc. iSplit.
    { iIntros (_). iApply (wp_free' with "H"). iIntros "_". iDestruct "HQ" as "[HQ _]". iApply "HQ". by iLeft. }
    iIntros (p) "Hp". wstep wp_set_front "H". wstep wp_set_back "H".
    rewrite {1}/d_vec_push. wstep wp_chunks "H". wbind. iApply wp_alloc. iSplit.
    { iIntros (_). iApply (wp_free' with "H"). iIntros "_". iDestruct "HQ" as "[HQ _]". iApply "HQ". iRight. by iExists p. }
    iDestruct "HQ" as "[_ HQ]".
    iIntros (v) "G". wstep wp_set_chunks "H". wstep wp_set_bchunk "H". wstep wp_set_fchunk "H".
    iApply (wp_set_size with "H"). iIntros "H". wret. iApply ("HQ" $! this v 1 [p]).
    destruct (half K HK). iSplitR.
    { iPureIntro. split; [done|]. unfold dq_end. cbn [dq_lo dq_fresh dq_els dq_chunks length]. lia. }
    iSplitL "H G".
    - unfold dhv, hv, dq_end. cbn [dq_lo dq_fresh dq_els length].
      destruct (fresh_hdr K HK 0) as (E1 & E2 & E3 & E4). rewrite Nat.mul_0_l Nat.add_0_l in E1, E2, E3, E4.
      rewrite Nat.add_0_r E1 E2 E3 E4. iFrame.
    - rewrite dcs_cons dcs_nil. iSplitL; [|done]. rewrite (row_none K _ 0) //.
      intros o _. rewrite /slot. by case_decide.
  Qed.
  Lemma wp_push_all_any this d d' vs Q R : dq_chunks d ≠ 0 → dq_append K vs d = Some d' →
    dq K this d -∗ ((∀ e di, ⌞e = BadAlloc⌟ -∗ ⌞dq_chunks di ≠ 0⌟ -∗ dq K this di -∗ leak K -∗ R e) ∧ (dq K this d' -∗ Q tt)) -∗
    wp mT (d_push_all K this vs) Q R.
  Proof using HK.
    iIntros (Hch Happ) "H HQ". iInduction vs as [|x vs] "IH" forall (d Hch Happ); simpl in *.
    - wret. simplify_eq. iDestruct "HQ" as "[_ HQ]". by iApply "HQ".
    - destruct (dq_push_back K x d) as [dj|] eqn:Ej; [|done]. iDestruct "H" as (v cap cs) "H".
      wbind. iApply (wp_d_push_back K HK mT eq_refl emp with "[//] H"); [done|by apply reads_val|]. iSplit.
      { iIntros (_) "_ H Hl". iDestruct "HQ" as "[HQ _]". iApply ("HQ" with "[//] [//] [H] Hl"). iExists v, cap, cs. done. }
      iIntros "_ H". iApply ("IH" with "[] [//] H HQ"). iPureIntro. pose proof (push_back_chunks K _ _ _ Ej). lia.
  Qed.
  Lemma wp_append_any this d d' other v1 cap1 cs1 d1 Q R : dq_chunks d ≠ 0 →
    dq_append K (dq_els d1) d = Some d' →
    dq K this d -∗ dobj K other v1 cap1 cs1 d1 -∗
    ((∀ e i di, ⌞e = BadAlloc⌟ -∗ ⌞dq_chunks di ≠ 0 ∧ i < length (dq_els d1) ∧ dq_append K (take i (dq_els d1)) d = Some di⌟ -∗ dq K this di -∗ dobj K other v1 cap1 cs1 d1 -∗ leak K -∗ R e) ∧
     (dq K this d' -∗ dobj K other v1 cap1 cs1 d1 -∗ Q tt)) -∗ wp mT (d_append K this other) Q R.
  Proof using HK.
    iIntros (Hch Happ) "H (%Hf1 & [H1 G1] & HD1) HQ". rewrite /d_append. wstep wp_size "H1".
    assert (∀ n k di, (k + n = length (dq_els d1))%nat → dq_chunks di ≠ 0 → dq_append K (take k (dq_els d1)) d = Some di → dq_append K (drop k (dq_els d1)) di = Some d' →
      dq K this di -∗ dhv K other v1 cap1 cs1 d1 -∗ dcs K cs1 (slot d1) -∗
      ((∀ e i di, ⌞e = BadAlloc⌟ -∗ ⌞dq_chunks di ≠ 0 ∧ i < length (dq_els d1) ∧ dq_append K (take i (dq_els d1)) d = Some di⌟ -∗ dq K this di -∗ dobj K other v1 cap1 cs1 d1 -∗ leak K -∗ R e) ∧
       (dq K this d' -∗ dobj K other v1 cap1 cs1 d1 -∗ Q tt)) -∗
      wp mT (for_up k n (λ i, r <- d_index K other i ;; d_push_back K this (DSlot r))) Q R) as Hl.
    2: { iApply (Hl _ 0 d with "H [$H1 $G1] HD1 HQ"); done. }
    clear Hch Happ. intros n. induction n as [|n IH]; intros k d0 Hk Hch Hpre Happ; iIntros "H H1 HD1 HQ".
    - cbn [for_up]. wret. rewrite drop_ge in Happ; [|lia]. simplify_eq/=. iDestruct "HQ" as "[_ HQ]".
      iApply ("HQ" with "H"). by iFrame.
    - cbn [for_up]. destruct (lookup_lt_is_Some_2 (dq_els d1) k) as [x Hx]; [lia|].
      destruct (elem_chunk K HK _ _ _ _ Hf1 Hx) as [c Hc]. rewrite (drop_S _ _ _ Hx) in Happ. simpl in Happ.
      destruct (dq_push_back K x d0) as [dj|] eqn:Ej; [|done]. iDestruct "H" as (v cap cs) "H".
      wbind. wbind. iApply (wp_d_index K HK with "H1"); [done|]. iIntros "H1".
      iApply (wp_d_push_back K HK mT eq_refl (dcs K cs1 (slot d1)) with "HD1 H"); [done|by apply reads_other|]. iSplit.
      { iIntros (_) "HD1 H Hl". iDestruct "HQ" as "[HQ _]". iApply ("HQ" $! _ k d0 with "[//] [] [H] [H1 HD1] Hl").
        - iPureIntro. split; [done|]. split; [lia|done].
        - iExists v, cap, cs. done.
        - by iFrame. }
      iIntros "HD1 H". iApply (IH (S k) dj with "H H1 HD1 HQ"); [lia| | |done].
      2: { rewrite (take_S_r _ _ x) //. by eapply dq_append_snoc. }
      pose proof (push_back_chunks K _ _ _ Ej). lia.
  Qed.

  Lemma build_run m P h d (f : M (dcell V) loc) : may_fail_alloc m → exact P h → h ⊆ blk m →
    (P ⊢ wp mT f (λ this, dq K this d ∗ P) (λ e, ⌞e = BadAlloc⌟ ∗ leak K ∗ P)) → build_outcome K m d (f m).
  Proof using.
    intros Hm%good_may_fail HP Hs Hw. pose proof (run_exact _ _ _ _ _ _ _ Hm HP Hs Hw) as H. unfold build_outcome.
    assert (∀ q, q ∈ ([] : list loc) ↔ is_Some ((∅ : gmap loc (dcell V)) !! q)) as Hnil.
    { intros q. rewrite elem_of_nil lookup_empty. split; [done|by intros []]. }
    assert (∀ h1 m' (new : list loc), h1 ∪ h ##ₘ blk m ∖ h → h1 ##ₘ h → blk m' = (h1 ∪ h) ∪ blk m ∖ h →
      (∀ q, q ∈ new ↔ is_Some (h1 !! q)) → replaces [] m new m') as Hrep.
    { intros h1 m' new Hd Hd1 Hb Hn.
      assert (blk m ∖ ∅ = blk m) as E0 by apply map_difference_empty.
      assert (h ∪ blk m ∖ h = blk m) as E1 by by apply map_difference_union.
      eapply (owned_replaces m m' ∅ h1); [apply map_empty_subseteq|exact Hnil|exact Hn| |].
      - rewrite E0 -E1. apply map_disjoint_union_r. split; [done|]. by apply map_disjoint_union_l in Hd as [? _].
      - by rewrite E0 Hb -assoc_L E1. }
    destruct (f m) as [this m'|e m'| |]; [| |done..].
    - destruct H as (_ & h' & HQ & Hd & Hb). apply hprop_sep_eq in HQ as (h1 & h2 & -> & Hd12 & (v & cap & cs & H1) & H2).
      apply HP in H2 as ->. exists v, cap, cs. split.
      + eapply dobj_holds; [done|]. rewrite Hb -assoc_L. apply map_union_subseteq_l.
      + eapply Hrep; [done..|]. by eapply dobj_cells.
    - destruct H as (_ & h' & [-> HQ]%pure_sep_inv & Hd & Hb). split; [done|].
      apply hprop_sep_eq in HQ as (h1 & h2 & -> & Hd12 & H1 & H2). apply HP in H2 as ->.
      apply leak_inv in H1 as (zs & Hzs & Hdom & Hval). exists zs. split; [done|]. split.
      + intros q Hq. rewrite Hb -assoc_L. apply lookup_union_Some_l. by apply Hval.
      + by eapply Hrep.
  Qed.
  Lemma fresh_state (vs : list V) : dq_append K vs (dq_fresh K) = Some (DState vs (K / 2) (chunks_for K (length vs))).
  Proof using HK. by apply fresh_append. Qed.
  Lemma init_outcome m vs : may_fail_alloc m →
    build_outcome K m (DState vs (K / 2) (chunks_for K (length vs))) (d_init K vs m).
  Proof using HK.
    intros Hm. eapply (build_run m emp ∅); [done| |apply map_empty_subseteq|].
    { intros h. apply hprop_emp_eq. }
    iIntros "_". rewrite /d_init. wbind. iApply wp_d_new_any. iSplit.
    { iIntros "Hl". iSplitR; [done|]. by iFrame. }
    iIntros (this v cap cs) "H". wbind. iApply wp_on_throw.
    iApply (wp_push_all_any _ (dq_fresh K) with "[H]"); [done|by apply fresh_state|by iExists v, cap, cs|]. iSplit.
    - iIntros (e di -> Hch) "(%v' & %cap' & %cs' & H) Hl". iApply (wp_d_dtor with "H"); [done|done|].
      iIntros "_". iSplitR; [done|]. by iFrame.
    - iIntros "H". wret. by iFrame.
  Qed.
  Lemma copy_outcome m other v1 cap1 cs1 d1 : may_fail_alloc m → d_holds K m other v1 cap1 cs1 d1 →
    build_outcome K m (DState (dq_els d1) (K / 2) (chunks_for K (length (dq_els d1)))) (d_copy K other m).
  Proof using HK.
    intros Hm (Hnd & Hf & Hs)%d_holds_heap. eapply build_run; [done|by apply dheap_exact|done|].
    iIntros "H1". rewrite /d_copy. wbind. iApply wp_d_new_any. iSplit.
    { iIntros "Hl". iSplitR; [done|]. iFrame. }
    iIntros (this v cap cs) "H". wbind. iApply wp_on_throw.
    iApply (wp_append_any _ (dq_fresh K) with "[H] H1"); [done|by apply fresh_state|by iExists v, cap, cs|]. iSplit.
    - iIntros (e i di -> (Hch & _)) "(%v' & %cap' & %cs' & H) H1 Hl". iApply (wp_d_dtor with "H"); [done|done|].
      iIntros "_". iSplitR; [done|]. iFrame.
    - iIntros "H H1". wret. iFrame.
  Qed.
  Lemma assign_outcome m this v cap cs d other v1 cap1 cs1 d1 d' : may_fail_alloc m →
    d_holds K m this v cap cs d → d_holds K m other v1 cap1 cs1 d1 → d_cells this v cs ## d_cells other v1 cs1 →
    0 < dq_chunks d → dq_append K (dq_els d1) (dq_clear K d) = Some d' →
    assign_result K m (d_cells this v cs) this d d' other v1 cap1 cs1 d1 (d_assign K this other m).
  Proof using HK.
    intros Hm%good_may_fail (Hnd & Hf & Hs)%d_holds_heap (Hnd1 & Hf1 & Hs1)%d_holds_heap Hdisj Hch Happ.
    set (h1 := dheap K this v cap cs d) in *. set (h2 := dheap K other v1 cap1 cs1 d1) in *.
    pose proof (dheap_dom K this v cap cs d : ∀ q, q ∈ _ ↔ is_Some (h1 !! q)) as D1.
    pose proof (dheap_dom K other v1 cap1 cs1 d1 : ∀ q, q ∈ _ ↔ is_Some (h2 !! q)) as D2.
    assert (h1 ##ₘ h2) as Hd12.
    { apply map_disjoint_spec. intros q c1 c2 E1 E2. apply (Hdisj q); [apply D1|apply D2]; by eexists. }
    assert (h1 ∪ h2 ⊆ blk m) as Hs12 by by apply map_union_least.
    assert (exact (dobj K this v cap cs d ∗ dobj K other v1 cap1 cs1 d1)%I (h1 ∪ h2)) as Hex.
    { apply exact_sep; [by apply dheap_exact..|done]. }
    assert (dobj K this v cap cs d ∗ dobj K other v1 cap1 cs1 d1 ⊢ wp mT (d_assign K this other)
      (λ _, dq K this d' ∗ dobj K other v1 cap1 cs1 d1)
      (λ e, ∃ i di, ⌞e = BadAlloc ∧ i < length (dq_els d1) ∧ dq_append K (take i (dq_els d1)) (dq_clear K d) = Some di⌟ ∗
        dq K this di ∗ dobj K other v1 cap1 cs1 d1 ∗ leak K))%I as Hwp.
    { iIntros "[H G]". rewrite /d_assign. wbind. iApply (wp_d_clear with "H"); [done|lia|]. iIntros "H".
      iApply (wp_append_any _ (dq_clear K d) with "[H] G"); [cbn; lia|done|by iExists v, cap, cs|]. iSplit.
      - iIntros (e i di -> (_ & Hi & Hdi)) "H G Hl". iExists i, di. iFrame. done.
      - iIntros "H G". iFrame. }
    pose proof (run_exact _ _ _ _ _ _ _ Hm Hex Hs12 Hwp) as H. unfold assign_result.
    assert (∀ q, q ∈ d_cells this v cs ++ d_cells other v1 cs1 ↔ is_Some ((h1 ∪ h2) !! q)) as Ho.
    { intros q. by rewrite elem_of_app lookup_union_is_Some D1 D2. }
    destruct (d_assign K this other m) as [[] m'|e m'| |]; [| |done..].
    - destruct H as (_ & h' & HQ & Hd & Hb). apply hprop_sep_eq in HQ as (h3 & h4 & -> & Hd34 & (v' & cap' & cs' & H3) & H4).
      exists v', cap', cs'. split; [|split].
      + eapply dobj_holds; [done|]. rewrite Hb -assoc_L. apply map_union_subseteq_l.
      + eapply dobj_holds; [done|]. rewrite Hb. etrans; [by apply map_union_subseteq_r|apply map_union_subseteq_l].
      + eapply owned_replaces; [exact Hs12|exact Ho| |exact Hd|exact Hb].
        intros q. by rewrite elem_of_app lookup_union_is_Some (dobj_cells K _ _ _ _ _ _ H3 q) (dobj_cells K _ _ _ _ _ _ H4 q).
    - destruct H as (_ & h' & (i & di & [(-> & Hi & Hdi) HQ]%pure_sep_inv) & Hd & Hb). split; [done|].
      apply hprop_sep_eq in HQ as (h3 & h4 & -> & Hd34 & (v' & cap' & cs' & H3) & H4).
      apply hprop_sep_eq in H4 as (h5 & h6 & -> & Hd56 & H5 & H6).
      apply leak_inv in H6 as (zs & Hzs & Hdom & Hval). exists i, di, zs, v', cap', cs'.
      assert (h5 ##ₘ h3) as Hd53. { apply map_disjoint_union_r in Hd34 as [? _]. done. }
      assert (h6 ##ₘ h3) as Hd63. { apply map_disjoint_union_r in Hd34 as [_ ?]. done. }
      split; [done|]. split; [done|]. split; [|split; [|split; [done|split]]].
      + eapply dobj_holds; [done|]. rewrite Hb -assoc_L. apply map_union_subseteq_l.
      + eapply dobj_holds; [done|]. rewrite Hb. etrans; [|apply map_union_subseteq_l].
        etrans; [|by apply map_union_subseteq_r]. apply map_union_subseteq_l.
      + intros q Hq. specialize (Hval q Hq). rewrite Hb. apply lookup_union_Some_l.
        assert (h3 !! q = None) as E3 by exact (map_disjoint_Some_l _ _ _ _ Hd63 Hval).
        assert (h5 !! q = None) as E5 by exact (map_disjoint_Some_r _ _ _ _ Hd56 Hval).
        by rewrite !lookup_union E3 E5 Hval.
      + eapply owned_replaces; [exact Hs12|exact Ho| |exact Hd|exact Hb].
        intros q. by rewrite !elem_of_app !lookup_union_is_Some (dobj_cells K _ _ _ _ _ _ H3 q) (dobj_cells K _ _ _ _ _ _ H5 q) Hdom.
  Qed.
End alloc.
