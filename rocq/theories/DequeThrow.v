(** Pushing elements whose copies throw to a deque. *)
From iris.proofmode Require Import tactics.
From Verif Require Import SLTac HistGen ModelDeque SpecDeque DequeProofs DequeMem DequeIter DequeProps NoCopy.

Section ev.
  Context {V : Type} (K : nat) (HK : 2 ≤ K).
  Implicit Types (d : dstate V) (m : mem (dcell V)) (g : nat → option V).

  (** ** By computation *)
  Section at_d.
    Context (this v : loc) (cap : nat) (cs : list loc) (d : dstate V).
    Definition shape g m : Prop :=
      NoDup (this :: v :: cs) ∧ blk m !! this = Some (hdr_of K d v) ∧ blk m !! v = Some (DVec cap cs) ∧
      ∀ j c, cs !! j = Some c → blk m !! c = Some (DArr (g <$> seq (j * K) K)).
    Lemma shape_head g m : shape g m →
      head_at this (dq_lo d mod K) ((dq_end d + (K - 1)) mod K) (dq_lo d / K)
        (Z.of_nat ((dq_end d + (K - 1)) / K) - 1) (length (dq_els d)) v cap cs m.
    Proof using. by intros (_ & ? & ? & _). Qed.
    Lemma ev_index g m i c : shape g m → cs !! ((dq_lo d + i) / K) = Some c →
      d_index K this i m = Ok (c, (dq_lo d + i) mod K) m.
    Proof using HK.
      intros Hs%shape_head Hc. unfold d_index. rewrite (bind_ok _ _ _ _ _ (ev_front_ _ _ _ _ _ _ _ _ _ _ Hs)).
      rewrite (bind_ok _ _ _ _ _ (ev_fchunk _ _ _ _ _ _ _ _ _ _ Hs)). cbv zeta.
      assert (dq_lo d / K + (dq_lo d mod K + i) / K = (dq_lo d + i) / K) as ->.
      { rewrite -Nat.div_add_l; [|lia]. f_equal. rewrite {3}(pos_eq K HK (dq_lo d)). lia. }
      erewrite bind_ok; [|rewrite (ev_chunk _ _ _ _ _ _ _ _ _ _ Hs); by apply (at_ptr_ok K HK)].
      rewrite Nat.add_mod_idemp_l //. lia.
    Qed.
    Lemma ev_els g m j c : shape g m → cs !! j = Some c → d_els c m = Ok (g <$> seq (j * K) K) m.
    Proof using. intros (_ & _ & _ & H) Hc. unfold d_els. by rewrite (bind_ok _ _ _ _ _ (load_ok _ _ _ (H _ _ Hc))). Qed.
    Lemma ev_get g m p c : shape g m → cs !! (p / K) = Some c →
      d_get (c, p mod K) m = match g p with Some x => Ok x m | None => UB end.
    Proof using HK.
      intros Hs Hc. unfold d_get. cbn [fst snd]. rewrite (bind_ok _ _ _ _ _ (ev_els _ _ _ _ Hs Hc)).
      rewrite row_lookup; [|by apply pos_mod]. rewrite -pos_eq //. by destruct (g p).
    Qed.
    Lemma ev_destroy_none g m p c : shape g m → cs !! (p / K) = Some c → g p = None → d_destroy_at (c, p mod K) m = UB.
    Proof using HK.
      intros Hs Hc Hg. unfold d_destroy_at. cbn [fst snd]. rewrite (bind_ok _ _ _ _ _ (ev_els _ _ _ _ Hs Hc)).
      rewrite row_lookup; [|by apply pos_mod]. by rewrite -pos_eq // Hg.
    Qed.
    Lemma ev_destroy_some g m p c x : shape g m → cs !! (p / K) = Some c → g p = Some x →
      ∃ m', d_destroy_at (c, p mod K) m = Ok tt m' ∧ shape (upd g p None) m'.
    Proof using HK.
      intros Hs Hc Hg. unfold d_destroy_at. cbn [fst snd]. rewrite (bind_ok _ _ _ _ _ (ev_els _ _ _ _ Hs Hc)).
      rewrite row_lookup; [|by apply pos_mod]. rewrite -pos_eq // Hg.
      destruct Hs as (Hnd & H1 & H2 & H3). unfold store. rewrite (H3 _ _ Hc). eexists. split; [done|].
      split; [done|]. rewrite !NoDup_cons not_elem_of_cons in Hnd. destruct Hnd as [[Hn1 Hn2] [Hn3 Hnd]].
      pose proof (elem_of_list_lookup_2 _ _ _ Hc) as Hin. cbn [blk].
      split; [rewrite lookup_insert_ne //; by intros ->|]. split; [rewrite lookup_insert_ne //; by intros ->|].
      intros j c' Hc'. destruct (decide (j = p / K)) as [->|Hne].
      - assert (c' = c) as -> by congruence. rewrite lookup_insert row_upd; [|by apply pos_mod]. by rewrite -pos_eq.
      - rewrite lookup_insert_ne; [|intros ->; by destruct Hne; eapply NoDup_lookup].
        rewrite (H3 _ _ Hc'). do 2 f_equal. apply row_ext. intros o Ho. rewrite /upd decide_False //.
        intros E. apply Hne. by rewrite -E; destruct (div_mod_at K HK j o Ho).
    Qed.
    Lemma ev_clear_loop n k g m i : shape g m → (∀ i, k ≤ i < k + n → is_Some (cs !! ((dq_lo d + i) / K))) →
      k ≤ i < k + n → g (dq_lo d + i) = None →
      for_up k n (λ i, r <- d_index K this i ;; d_destroy_at r) m = UB.
    Proof using HK.
      revert k g m. induction n as [|n IH]; intros k g m Hs Hcs Hi Hg; [lia|]. cbn [for_up].
      destruct (Hcs k) as [c Hc]; [lia|].
      assert ((r <- d_index K this k ;; d_destroy_at r) m = d_destroy_at (c, (dq_lo d + k) mod K) m) as E.
      { by rewrite (bind_ok _ _ _ _ _ (ev_index _ _ _ _ Hs Hc)). }
      destruct (g (dq_lo d + k)) as [x|] eqn:Ek.
      - destruct (ev_destroy_some _ _ _ _ _ Hs Hc Ek) as (m' & E' & Hs'). rewrite E' in E.
        rewrite (bind_ok _ _ _ _ _ E). assert (i ≠ k) by congruence. eapply IH; [done| |lia|].
        + intros i' Hi'. apply Hcs. lia.
        + rewrite /upd decide_False //. lia.
      - rewrite (ev_destroy_none _ _ _ _ Hs Hc Ek) in E. by rewrite (bind_ub _ _ _ E).
    Qed.
  End at_d.

  (** ** A deque with a missing element *)
  Lemma broken_shape m this v cap cs d d' : d_broken K m this v cap cs d d' → shape this v cap cs d' (slot d) m.
  Proof using. by intros (? & _ & _ & ? & ? & ?). Qed.
  Lemma broken_chunk m this v cap cs d d' i : d_broken K m this v cap cs d d' → i < length (dq_els d') →
    ∃ c, cs !! ((dq_lo d' + i) / K) = Some c.
  Proof using HK.
    intros (_ & Hl & He & _) Hi. apply (chunk_some K HK). rewrite Hl. unfold dq_end in He. lia.
  Qed.
  Lemma broken_size m this v cap cs d d' : d_broken K m this v cap cs d d' → d_size this m = Ok (length (dq_els d')) m.
  Proof using. intros Hs%broken_shape%shape_head. by apply (ev_size _ _ _ _ _ _ _ _ _ _ Hs). Qed.
  Lemma broken_read m this v cap cs d d' i : d_broken K m this v cap cs d d' → i < length (dq_els d') →
    (r <- d_index K this i ;; d_get r) m = match slot d (dq_lo d' + i) with Some x => Ok x m | None => UB end.
  Proof using HK.
    intros Hb Hi. destruct (broken_chunk _ _ _ _ _ _ _ _ Hb Hi) as [c Hc]. apply broken_shape in Hb.
    rewrite (bind_ok _ _ _ _ _ (ev_index _ _ _ _ _ _ _ _ _ Hb Hc)). by eapply ev_get.
  Qed.
  Lemma broken_clear m this v cap cs d d' i : d_broken K m this v cap cs d d' → i < length (dq_els d') →
    slot d (dq_lo d' + i) = None → d_clear K this m = UB ∧ d_dtor K this m = UB.
  Proof using HK.
    intros Hb Hi Hn. cut (d_clear K this m = UB); [intros E; split; [done|]; by apply bind_ub|].
    unfold d_clear. rewrite (bind_ok _ _ _ _ _ (broken_size _ _ _ _ _ _ _ Hb)). apply bind_ub.
    eapply ev_clear_loop; [by eapply broken_shape| |split; [lia|exact Hi]|done].
    intros i' Hi'. destruct (broken_chunk _ _ _ _ _ _ _ i' Hb) as [c Hc]; [lia|by eexists].
  Qed.
  Lemma broken_pop_front m this v cap cs d d' : d_broken K m this v cap cs d d' → dq_els d' ≠ [] →
    slot d (dq_lo d') = None → d_pop_front K this m = UB.
  Proof using HK.
    intros Hb Hne Hn. assert (0 < length (dq_els d')) as Hlt by (destruct (dq_els d'); simpl; [done|lia]).
    destruct (broken_chunk _ _ _ _ _ _ _ 0 Hb Hlt) as [c Hc]. rewrite Nat.add_0_r in Hc.
    pose proof (broken_shape _ _ _ _ _ _ _ Hb) as Hs. pose proof (shape_head _ _ _ _ _ _ _ Hs) as Hh.
    unfold d_pop_front, d_empty. erewrite bind_ok; [|by rewrite (bind_ok _ _ _ _ _ (broken_size _ _ _ _ _ _ _ Hb))].
    rewrite (proj2 (Nat.eqb_neq _ _)); [|lia]. unfold d_front. erewrite bind_ok.
    2: { rewrite (bind_ok _ _ _ _ _ (ev_fchunk _ _ _ _ _ _ _ _ _ _ Hh)).
         erewrite bind_ok; [|rewrite (ev_chunk _ _ _ _ _ _ _ _ _ _ Hh); by apply (at_ptr_ok K HK)].
         by rewrite (bind_ok _ _ _ _ _ (ev_front_ _ _ _ _ _ _ _ _ _ _ Hh)). }
    apply bind_ub. by eapply ev_destroy_none.
  Qed.
  Lemma broken_pop_back m this v cap cs d d' : d_broken K m this v cap cs d d' → dq_els d' ≠ [] →
    slot d (dq_end d' - 1) = None → d_pop_back K this m = UB.
  Proof using HK.
    intros Hb Hne Hn. assert (0 < length (dq_els d')) as Hlt by (destruct (dq_els d'); simpl; [done|lia]).
    destruct (broken_chunk _ _ _ _ _ _ _ (length (dq_els d') - 1) Hb) as [c Hc]; [lia|].
    pose proof (broken_shape _ _ _ _ _ _ _ Hb) as Hs. pose proof (shape_head _ _ _ _ _ _ _ Hs) as Hh.
    set (e := dq_lo d' + (length (dq_els d') - 1)) in *.
    assert (dq_end d' = e + 1) as He by (unfold dq_end, e; lia). rewrite He Nat.add_sub in Hn.
    rewrite He in Hh. destruct (backs K HK e) as [E1 E2]. rewrite E1 E2 in Hh.
    unfold d_pop_back, d_empty. erewrite bind_ok; [|by rewrite (bind_ok _ _ _ _ _ (broken_size _ _ _ _ _ _ _ Hb))].
    rewrite (proj2 (Nat.eqb_neq _ _)); [|lia]. unfold d_back. erewrite bind_ok.
    2: { rewrite (bind_ok _ _ _ _ _ (ev_bchunk _ _ _ _ _ _ _ _ _ _ Hh)).
         replace (Z.of_nat (e / K + 1) - 1)%Z with (Z.of_nat (e / K)) by lia.
         erewrite bind_ok; [|rewrite (ev_chunk _ _ _ _ _ _ _ _ _ _ Hh); by apply (at_ptr_ok K HK)].
         by rewrite (bind_ok _ _ _ _ _ (ev_back_ _ _ _ _ _ _ _ _ _ _ Hh)). }
    apply bind_ub. by eapply ev_destroy_none.
  Qed.
End ev.

Section push.
  Context {V : Type} (K : nat) (HK : 2 ≤ K).
  Implicit Types (d : dstate V) (m : mem (dcell V)).
  Notation mX := (Mode true true).
  Definition dbroken (this v : loc) cap cs d d' : hprop (dcell V) :=
    (⌞dfits K d' cs⌟ ∗ dhv K this v cap cs d' ∗ dcs K cs (slot d))%I.

  Definition bheap (this v : loc) cap cs d d' : gmap loc (dcell V) :=
    <[this := hdr_of K d' v]> (<[v := DVec cap cs]> (cheap K cs (slot d))).
  Lemma dbroken_nodup this v cap cs d d' : dbroken this v cap cs d d' ⊢ ⌜NoDup (this :: v :: cs)⌝.
  Proof using.
    iIntros "(_ & [H G] & HD)". iDestruct (dcs_nodup with "HD") as %Hnd. rewrite !NoDup_cons not_elem_of_cons.
    iAssert ⌜∀ q (c : dcell V), q ∈ cs → q ↦ c -∗ dcs K cs (slot d) -∗ False⌝%I as %Hex.
    { iPureIntro. intros q c [j Hj]%elem_of_list_lookup. iIntros "H HD".
      iDestruct (dcs_acc_ro _ _ _ _ _ Hj with "HD") as "[HD _]". iDestruct (pt_excl with "H HD") as %[]. }
    iDestruct (pt_ne with "H G") as %Hne.
    iAssert ⌜this ∉ cs⌝%I as %H1. { iIntros (Hin). iApply (Hex with "H HD"). done. }
    iAssert ⌜v ∉ cs⌝%I as %H2. { iIntros (Hin). iApply (Hex with "G HD"). done. }
    done.
  Qed.
  Lemma dbroken_holds this v cap cs d d' h m :
    dbroken this v cap cs d d' h → h ⊆ blk m →
    d_broken K m this v cap cs d d' ∧ ∀ q, q ∈ d_cells this v cs ↔ is_Some (h !! q).
  Proof using.
    intros Hl Hs. pose proof (proj1 (hprop_entails_eq _ _) (dbroken_nodup _ _ _ _ _ _) _ Hl) as Hnd.
    apply hprop_pure_eq in Hnd. apply pure_sep_inv in Hl as [Hf Hl].
    assert (h = bheap this v cap cs d d') as ->.
    { pose proof Hnd as Hnd'. rewrite !NoDup_cons not_elem_of_cons in Hnd'. destruct Hnd' as [[Hn1 Hn2] [Hn3 Hnd']].
      revert h Hs Hl. cut (exact (dhv K this v cap cs d' ∗ dcs K cs (slot d))%I (bheap this v cap cs d d')); [intros He h _; apply He|].
      rewrite /bheap /dhv /hv insert_union_singleton_l insert_union_singleton_l (assoc_L (∪)).
      apply exact_sep; [apply exact_sep; [apply exact_pt|apply exact_pt|]|by apply cheap_exact|].
      - by apply map_disjoint_singleton_l_2, lookup_singleton_ne.
      - apply map_disjoint_union_l. split; apply map_disjoint_singleton_l, eq_None_not_Some; by rewrite cheap_dom. }
    split.
    - destruct Hf as [H1 H2]. split; [done|]. split; [done|]. split; [done|].
      rewrite !NoDup_cons not_elem_of_cons in Hnd. destruct Hnd as [[Hn1 Hn2] [Hn3 Hnd]].
      assert (cheap K cs (slot d) !! v = None) as Hv by (apply eq_None_not_Some; by rewrite cheap_dom).
      assert (<[v := DVec cap cs]> (cheap K cs (slot d)) !! this = None) as Ht.
      { rewrite lookup_insert_ne //. apply eq_None_not_Some; by rewrite cheap_dom. }
      assert (<[v := DVec cap cs]> (cheap K cs (slot d)) ⊆ blk m) as Hs'.
      { etrans; [|exact Hs]. by apply insert_subseteq. }
      split; [eapply lookup_weaken; [apply lookup_insert|exact Hs]|].
      split; [eapply lookup_weaken; [apply lookup_insert|exact Hs']|].
      apply cheap_sub; [done|]. etrans; [|exact Hs']. by apply insert_subseteq.
    - intros q. rewrite /bheap !lookup_insert_is_Some' cheap_dom /d_cells !elem_of_cons. naive_solver.
  Qed.

  Lemma wp_d_construct_any md cs (g : nat → option V) p c Q R x : cs !! (p / K) = Some c → g p = None →
    dcs K cs g -∗ ((dcs K cs g -∗ R CopyThrow) ∧ (dcs K cs (upd g p (Some x)) -∗ Q tt)) -∗
    wp md (d_construct (c, p mod K) x) Q R.
  Proof using HK.
    iIntros (Hc Hg) "H HQ". rewrite /d_construct /d_els /=. wbind. iApply wp_may_throw. iSplit.
    { iIntros (_). iDestruct "HQ" as "[HQ _]". by iApply "HQ". }
    iDestruct "HQ" as "[_ HQ]". iDestruct (dcs_acc _ HK _ _ _ _ Hc with "H") as "[Hc H]".
    wstep wp_load' "Hc". wret. rewrite row_lookup; [|by apply pos_mod].
    rewrite -pos_eq // Hg. iApply (wp_store' with "Hc"). iIntros "Hc". iApply "HQ".
    iDestruct ("H" with "[%] Hc") as "H"; [by apply pos_mod|]. rewrite -pos_eq //.
  Qed.

  Definition outcome_any this v cap cs d d0 d' (e : exn) : hprop (dcell V) :=
    match e with
    | BadAlloc => dobj K this v cap cs d ∗ leak K
    | CopyThrow => ∃ v' cap' cs', ⌞table_after v cap cs v' cap' cs'⌟ ∗ dbroken this v' cap' cs' d0 d'
    | _ => False
    end%I.
  Lemma push_run_any m this v cap cs d d0 d' (f : M (dcell V) unit) :
    mem_wf m → d_holds K m this v cap cs d →
    (dobj K this v cap cs d ⊢ wp mX f (λ _, ∃ v' cap' cs', ⌞table_after v cap cs v' cap' cs'⌟ ∗ dobj K this v' cap' cs' d') (outcome_any this v cap cs d d0 d')) →
    push_outcome_any K m this v cap cs d d0 d' (f m).
  Proof using.
    intros Hm (Hnd & Hf & Hs)%d_holds_heap Hw. assert (good mX m) as Hg by done.
    pose proof (run_exact _ _ _ _ _ _ _ Hg (dheap_exact K _ _ _ _ _ Hnd Hf) Hs Hw) as H. unfold push_outcome_any.
    destruct (f m) as [[] m'|e m'| |]; [| |done..].
    - destruct H as (_ & h' & (v' & cap' & cs' & [Hta Hx]%pure_sep_inv) & Hd & Hb).
      exists v', cap', cs'. split; [|split; [done|]].
      + eapply dobj_holds; [done|]. rewrite Hb. apply map_union_subseteq_l.
      + eapply owned_replaces; [exact Hs|apply dheap_dom|by eapply dobj_cells|done|done].
    - destruct H as (_ & h' & HE & Hd & Hb). destruct e; simpl in HE; [| |done..].
      + apply hprop_sep_eq in HE as (h1 & h2 & -> & Hd12 & H1 & H2).
        apply leak_inv in H2 as (zs & Hzs & Hdom & Hval). exists zs.
        split; [eapply dobj_holds; [done|]; rewrite Hb -assoc_L; apply map_union_subseteq_l|]. split; [done|].
        pose proof (dobj_cells K _ _ _ _ _ _ H1) as Hc1.
        pose proof (dobj_holds K _ _ _ _ _ _ (Mem h1 1%positive [] []) H1 (reflexivity _)) as [_ ->].
        split.
        * intros q Hq. specialize (Hval q Hq). split.
          -- assert (dheap K this v cap cs d !! q = None) as Hq1 by (by eapply map_disjoint_Some_r).
             assert ((blk m ∖ dheap K this v cap cs d) !! q = None) as Hq2.
             { eapply map_disjoint_Some_l; [exact Hd|]. by rewrite lookup_union_r. }
             apply lookup_difference_None in Hq2 as [?|[? ?]]; [done|congruence].
          -- rewrite Hb. apply lookup_union_Some_l. by rewrite lookup_union_r; [|by eapply map_disjoint_Some_r].
        * eapply owned_replaces; [exact Hs|apply (dheap_dom K this v cap cs d)| |done|done].
          intros q. rewrite elem_of_app lookup_union_is_Some Hdom -Hc1. done.
      + destruct HE as (v' & cap' & cs' & [Hta HE]%pure_sep_inv). exists v', cap', cs'.
        destruct (dbroken_holds _ _ _ _ _ _ _ m' HE) as [Hx Hc]; [rewrite Hb; apply map_union_subseteq_l|].
        split; [done|]. split; [done|]. eapply owned_replaces; [exact Hs|apply (dheap_dom K this v cap cs d)|done..].
  Qed.

  Lemma push_back_run_any m this v cap cs d d' x :
    mem_wf m → d_holds K m this v cap cs d → dq_push_back K x d = Some d' →
    push_outcome_any K m this v cap cs d d d' (d_push_back K this (DVal x) m).
  Proof using HK.
    intros Hm Hh Hp. eapply push_run_any; [done..|].
    iIntros "(%Hf & H & HD)". rewrite /d_push_back. wbind.
    iApply (wp_d_push_back_helper K HK with "H HD"); [done..|]. iSplit.
    { iIntros (HA) "H HD Hl". iFrame "Hl". iFrame. done. }
    iIntros (v' cap' cs') "([%Hpre [%Hf' %Hta]] & H & HD)".
    pose proof (push_back_end K _ _ _ Hp) as Hend.
    destruct (chunk_some K HK cs' (dq_end d)) as [c Hc].
    { destruct Hf' as [-> Hf']. lia. }
    wbind. iApply (wp_d_back with "H"); [done..|]. iIntros "H". wbind. simpl. wret.
    iApply (wp_d_construct_any with "HD"); [done|by apply slot_end|]. iSplit.
    - iIntros "HD". iExists v', cap', cs'. iSplitR; [done|]. iFrame. done.
    - iIntros "HD". iExists v', cap', cs'. iSplitR; [done|]. iSplitR; [done|]. iFrame "H".
      iApply (dcs_ext with "HD"). intros p _. by apply (slot_push_back K).
  Qed.
  Lemma push_front_run_any m this v cap cs d x :
    mem_wf m → d_holds K m this v cap cs d →
    push_outcome_any K m this v cap cs d (shifted d (dq_push_front K x d)) (dq_push_front K x d)
      (d_push_front K this (DVal x) m).
  Proof using HK.
    intros Hm Hh. eapply push_run_any; [done..|].
    iIntros "(%Hf & H & HD)". rewrite /d_push_front. wbind.
    iApply (wp_d_push_front_helper _ HK _ _ _ _ _ _ x with "H HD"); [done..|]. iSplit.
    { iIntros (HA) "H HD Hl". iFrame "Hl". iFrame. done. }
    iIntros (v' cap' cs') "([%Hf' [%Hta %Hcs]] & H & HD)".
    destruct (chunk_some K HK cs' (dq_lo (dq_push_front K x d))) as [c Hc].
    { destruct Hf' as [-> Hf']. unfold dq_end in Hf'.
      assert (length (dq_els (dq_push_front K x d)) = S (length (dq_els d))).
      { unfold dq_push_front. by case_decide. } lia. }
    wbind. iApply (wp_d_front with "H"); [done..|]. iIntros "H". wbind. simpl. wret.
    iApply (wp_d_construct_any with "HD"); [done|apply slot_low; simpl; lia|]. iSplit.
    - iIntros "HD". iExists v', cap', cs'. iSplitR; [done|]. iFrame. done.
    - iIntros "HD". iExists v', cap', cs'. iSplitR; [done|]. iSplitR; [done|]. iFrame "H".
      iApply (dcs_ext with "HD"). intros p _. by apply (slot_push_front K).
  Qed.

  (** ** What a throwing copy leaves *)
  Lemma push_back_broken m this v cap cs d d' x :
    d_broken K m this v cap cs d d' → dq_push_back K x d = Some d' →
    d_size this m = Ok (S (length (dq_els d))) m ∧
    (∀ i y, dq_els d !! i = Some y → (r <- d_index K this i ;; d_get r) m = Ok y m) ∧
    (r <- d_index K this (length (dq_els d)) ;; d_get r) m = UB ∧
    d_pop_back K this m = UB ∧ d_clear K this m = UB ∧ d_dtor K this m = UB.
  Proof using HK.
    intros Hb Hp. pose proof (push_back_end K _ _ _ Hp) as Hend.
    assert (dq_els d' = dq_els d ++ [x] ∧ dq_lo d' = dq_lo d) as [E1 E2].
    { unfold dq_push_back in Hp. repeat case_decide; by simplify_eq. }
    assert (length (dq_els d') = S (length (dq_els d))) as El by (rewrite E1 app_length /=; lia).
    assert (slot d (dq_lo d' + length (dq_els d)) = None) as Hn.
    { rewrite E2. apply slot_end. done. }
    split; [rewrite -El; by eapply broken_size|]. split; [|split; [|split]].
    - intros i y Hi. rewrite (broken_read K HK _ _ _ _ _ _ _ _ Hb).
      + by rewrite E2 slot_in Hi.
      + apply lookup_lt_Some in Hi. lia.
    - rewrite (broken_read K HK _ _ _ _ _ _ _ _ Hb); [by rewrite Hn|lia].
    - eapply broken_pop_back; [done..|by rewrite E1; destruct (dq_els d)|]. rewrite Hend Nat.add_sub. by apply slot_end.
    - eapply broken_clear; [done..| |done]. lia.
  Qed.
  Lemma push_front_broken m this v cap cs d x :
    d_broken K m this v cap cs (shifted d (dq_push_front K x d)) (dq_push_front K x d) →
    d_size this m = Ok (S (length (dq_els d))) m ∧
    (∀ i y, dq_els d !! i = Some y → (r <- d_index K this (S i) ;; d_get r) m = Ok y m) ∧
    (r <- d_index K this 0 ;; d_get r) m = UB ∧
    d_pop_front K this m = UB ∧ d_clear K this m = UB ∧ d_dtor K this m = UB.
  Proof using HK.
    intros Hb. set (d' := dq_push_front K x d) in *.
    assert (dq_els d' = x :: dq_els d) as E1 by (unfold d', dq_push_front; by case_decide).
    assert (length (dq_els d') = S (length (dq_els d))) as El by by rewrite E1.
    assert (slot (shifted d d') (dq_lo d') = None) as Hn by (apply slot_low; simpl; lia).
    split; [rewrite -El; by eapply broken_size|]. split; [|split; [|split]].
    - intros i y Hi. rewrite (broken_read K HK _ _ _ _ _ _ _ _ Hb).
      + replace (dq_lo d' + S i) with (dq_lo (shifted d d') + i) by (simpl; lia). by rewrite slot_in Hi.
      + apply lookup_lt_Some in Hi. lia.
    - rewrite (broken_read K HK _ _ _ _ _ _ _ _ Hb); [by rewrite Nat.add_0_r Hn|lia].
    - eapply broken_pop_front; [done..|by rewrite E1|done].
    - apply (broken_clear K HK _ _ _ _ _ _ _ 0 Hb); [lia|by rewrite Nat.add_0_r].
  Qed.
  Lemma shifted_pop d x : shifted d (dq_push_front K x d) = dq_pop_front (dq_push_front K x d).
  Proof using. clear HK. unfold shifted, dq_push_front. by case_decide. Qed.
End push.

(** ** Whether the copy throws *)
Section throws.
  Context {V : Type} (K : nat).
  Lemma nc_hdr this : no_copy (d_hdr (V:=V) this).
  Proof. unfold d_hdr. nc. Qed.
  Lemma nc_push_back_helper this : no_copy (d_push_back_helper (V:=V) K this).
  Proof.
    unfold d_push_back_helper, d_ps, d_back_, d_set_back, d_bchunk, d_set_bchunk, d_size, d_set_size, d_vec_push,
      d_allocate, d_chunks, d_set_chunks, d_vec. nc; apply nc_hdr.
  Qed.
  Lemma nc_push_front_helper this : no_copy (d_push_front_helper (V:=V) K this).
  Proof.
    unfold d_push_front_helper, d_ps, d_front_, d_set_front, d_fchunk, d_set_fchunk, d_bchunk, d_set_bchunk, d_size, d_set_size, d_vec_push,
      d_vec_rotate, d_allocate, d_chunks, d_set_chunks, d_vec. nc; apply nc_hdr.
  Qed.
  Lemma nc_ends this : no_copy (d_back (V:=V) this) ∧ no_copy (d_front (V:=V) this).
  Proof.
    unfold d_back, d_front, d_bchunk, d_fchunk, d_back_, d_front_, d_chunk, d_ps, d_chunks, d_vec.
    split; nc; apply nc_hdr.
  Qed.
  (** the next copy throws: [b] *)
  Definition as_told {A} (b : bool) (r : res (dcell V) A) : Prop :=
    match r with Ok _ _ => b = false | Exn CopyThrow _ => b = true | _ => True end.
  Lemma told_bind {A B} (f : M (dcell V) A) (k : A → M (dcell V) B) b co :
    no_copy f → (∀ a m, corc m = b :: co → as_told b (k a m)) →
    ∀ m, corc m = b :: co → as_told b (bind f k m).
  Proof.
    intros Hf Hk m Hm. unfold bind. specialize (Hf m). destruct (f m) as [a m'|e m'| |]; [|by subst|done..].
    apply Hk. congruence.
  Qed.
  Lemma told_construct r (x : V) b co m : corc m = b :: co → as_told b (d_construct r x m).
  Proof.
    intros Hm. unfold d_construct, bind at 1, may_throw. rewrite Hm. destruct b; [done|].
    unfold d_els, bind, load. cbn [blk]. destruct (blk m !! r.1) as [c|] eqn:E; [|done]. destruct c; try done.
    cbn [ret]. destruct (_ !! r.2) as [[]|]; try done. unfold store. cbn [blk]. by rewrite E.
  Qed.
  Lemma push_told this (x : V) b co m : corc m = b :: co →
    as_told b (d_push_back K this (DVal x) m) ∧ as_told b (d_push_front K this (DVal x) m).
  Proof.
    intros Hm. split; (eapply told_bind; [first [apply nc_push_back_helper|apply nc_push_front_helper]|clear m Hm; intros _ m Hm|done]);
      (eapply told_bind; [apply nc_ends|clear m Hm; intros r m Hm|done]); by eapply told_construct.
  Qed.
End throws.

Section c119.
  Context {V : Type} (K : nat) (HK : 2 ≤ K).
  Implicit Types (d : dstate V) (m : mem (dcell V)).
  Lemma c119_back m this v cap cs d d' x b co :
    mem_wf m → d_holds K m this v cap cs d → dq_push_back K x d = Some d' → corc m = b :: co →
    push_outcome_any K m this v cap cs d d d' (d_push_back K this (DVal x) m) ∧
    match d_push_back K this (DVal x) m with Ok _ _ => b = false | Exn CopyThrow _ => b = true | _ => True end.
  Proof using HK.
    intros Hm Hh Hp Hc. split; [by eapply push_back_run_any|]. by apply (push_told K this x b co m Hc).
  Qed.
  Lemma c119_front m this v cap cs d x b co :
    mem_wf m → d_holds K m this v cap cs d → corc m = b :: co →
    push_outcome_any K m this v cap cs d (dq_pop_front (dq_push_front K x d)) (dq_push_front K x d)
      (d_push_front K this (DVal x) m) ∧
    match d_push_front K this (DVal x) m with Ok _ _ => b = false | Exn CopyThrow _ => b = true | _ => True end.
  Proof using HK.
    intros Hm Hh Hc. split; [|by apply (push_told K this x b co m Hc)].
    rewrite -shifted_pop. by eapply push_front_run_any.
  Qed.
  Lemma c119_front_leaves m this v cap cs d x :
    d_broken K m this v cap cs (dq_pop_front (dq_push_front K x d)) (dq_push_front K x d) →
    d_size this m = Ok (S (length (dq_els d))) m ∧
    (∀ i y, dq_els d !! i = Some y → (r <- d_index K this (S i) ;; d_get r) m = Ok y m) ∧
    (r <- d_index K this 0 ;; d_get r) m = UB ∧
    d_pop_front K this m = UB ∧ d_clear K this m = UB ∧ d_dtor K this m = UB.
  Proof using HK. rewrite -shifted_pop. by apply (push_front_broken K HK). Qed.
End c119.
