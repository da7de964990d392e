(** How many allocations and copies an insertion into a list or forward_list
    takes. *)
From iris.proofmode Require Import tactics.
From Verif Require Import SLTac Hist HistGen HistProofs MemRun AllocCount NoCopy DequeBuild ClientThrow.
From Verif Require Import ModelList SpecList ListProofs ListMem ListProps ListBuild.
From Verif Require Import ModelForward SpecForward ForwardProofs ForwardMem ForwardProps ForwardBuild ListAlloc ListCost.

Section list.
  Context {V : Type}.
  Implicit Types (m : mem (lcell V)) (xs ys : list (loc * V)).
  Lemma takes_l_insert this pos v b co m : corc m = b :: co → takes b co (l_insert (V:=V) this pos (LVal v) m).
  Proof.
    intros Hm. unfold l_insert. eapply takes_bind; [apply nc_alloc| |done]. clear m Hm. intros n m Hm.
    apply takes_then; [|intros; unfold l_hook, set_next, set_prev, l_prev, l_next, l_size, set_lsize; nc].
    unfold l_construct, bind at 1, load. destruct (blk m !! n) as [c|] eqn:E; [|done]. destruct c; try done.
    cbn [l_deref]. unfold bind, ret, may_throw. rewrite Hm. destruct b; [done|]. unfold store. cbn [blk]. by rewrite E.
  Qed.
  Lemma ta_l_insert this pos v : tally (l_insert (V:=V) this pos (LVal v)).
  Proof.
    unfold l_insert, l_construct, l_hook, set_next, set_prev, l_prev, l_next, l_size, set_lsize. ta; unfold l_deref; ta.
  Qed.
  Lemma c130_l_insert m this xs ys v ao co :
    mem_wf m → l_holds m this (xs ++ ys) → aorc m = false :: ao → corc m = false :: co →
    ∃ n m', l_insert this (first ys this) (LVal v) m = Ok n m' ∧ aorc m' = ao ∧ corc m' = co ∧
      l_holds m' this (xs ++ (n, v) :: ys) ∧ replaces (l_cells this (xs ++ ys)) m (l_cells this (xs ++ (n, v) :: ys)) m'.
  Proof.
    intros Hm Hh Ha Hc. pose proof Hh as [Hnd Hs]%l_holds_heap.
    assert (lobj this (xs ++ ys) ⊢ wp mA (l_insert this (first ys this) (LVal v))
      (λ n, lobj this (xs ++ (n, v) :: ys)) (λ e, ⌞e = BadAlloc⌟ ∗ lobj this (xs ++ ys) ∨ ⌞e = CopyThrow⌟ ∗ lost mA LRaw e ∗ lobj this (xs ++ ys)))%I as Hwp.
    { iIntros "H". iApply (wp_l_insert_val mA with "H"). iSplit.
      - iIntros (e) "He H". destruct (decide (e = BadAlloc)) as [->|Hne].
        + iLeft. iSplitR; [done|]. unfold lost. iDestruct "He" as "[%He|[%He G]]"; [done|by destruct He].
        + iRight. iAssert (⌞e = CopyThrow⌟ ∗ lost mA LRaw e)%I with "[He]" as "[$ $]"; [|done].
          unfold lost. iDestruct "He" as "[%He|[%He G]]"; destruct He; [done|]. iSplitR; [done|]. iRight. by iFrame.
      - by iIntros (n) "H". }
    pose proof (run_exact _ _ _ _ _ _ _ (good_any _ Hm) (lheap_exact _ _ Hnd) Hs Hwp) as H.
    pose proof (takes_l_insert this (first ys this) v false co m Hc) as Ht.
    pose proof (map_difference_union _ _ Hs) as Hbm. pose proof (lobj_size _ _ _ (proj2 (lheap_exact _ _ Hnd _) eq_refl)) as Hsz.
    destruct (l_insert _ _ _ m) as [n m'|e m'| |] eqn:El; [| |done..].
    - destruct H as (_ & h' & HQ & Hd & Hb). destruct Ht as [_ Hc']. exists n, m'. split; [done|].
      split; [|split; [done|split]].
      + apply (tally_done _ m 1 _ _ _ (ta_l_insert _ _ v) Hm Ha El).
        pose proof (lobj_size _ _ _ HQ) as Hsz'. rewrite !app_length /= in Hsz, Hsz'.
        rewrite Hb -{2}Hbm !map_size_disj_union //; [lia|]. by apply map_disjoint_difference_r.
      + eapply lobj_holds; [done|]. rewrite Hb. apply map_union_subseteq_l.
      + eapply owned_replaces; [exact Hs|apply lheap_dom| |done|done]. by intros l; rewrite (lobj_cells _ _ _ HQ).
    - exfalso. destruct H as (_ & h' & [[-> HQ]%pure_sep_inv|[-> _]%pure_sep_inv] & Hd & Hb); [|done].
      pose proof (tally_thrown _ _ _ _ (ta_l_insert _ _ v) Hm Ha El) as Hlt.
      apply lobj_size in HQ. rewrite Hb -{1}Hbm !map_size_disj_union // in Hlt; [lia|]. by apply map_disjoint_difference_r.
  Qed.
End list.

Section forward.
  Context {V : Type}.
  Implicit Types (m : mem (fcell V)) (xs ys : list (loc * V)).
  Lemma takes_f_insert pos v b co m : corc m = b :: co → takes b co (f_insert_after (V:=V) pos (FVal v) m).
  Proof.
    intros Hm. unfold f_insert_after. eapply takes_bind; [apply nc_alloc| |done]. clear m Hm. intros n m Hm.
    eapply takes_bind; [apply nc_f_next| |done]. clear m Hm. intros nx m Hm.
    assert (takes b co (f_construct n (FVal v) nx m)) as H.
    { unfold f_construct, bind at 1, load. destruct (blk m !! n) as [c|] eqn:E; [|done]. destruct c; try done.
      cbn [f_deref]. unfold bind, ret, may_throw. rewrite Hm. destruct b; [done|]. unfold store. cbn [blk]. by rewrite E. }
    unfold bind at 1. destruct (f_construct n (FVal v) nx m) as [? m1|e m1| |]; [|done..]. destruct H as [-> H].
    unfold bind. pose proof (nc_f_set_next pos (Some n) m1) as H1. destruct (f_set_next pos (Some n) m1) as [? m2|e m2| |]; [|by subst|done..].
    split; [done|]. cbn. congruence.
  Qed.
  Lemma ta_f_insert pos v : tally (f_insert_after (V:=V) pos (FVal v)).
  Proof. unfold f_insert_after, f_construct, f_next, f_set_next. ta; unfold f_deref; ta. Qed.
  Lemma c130_f_insert m this xs ys v ao co :
    mem_wf m → f_holds m this (xs ++ ys) → aorc m = false :: ao → corc m = false :: co →
    ∃ n m', f_insert_after (Some (flast xs this)) (FVal v) m = Ok n m' ∧ aorc m' = ao ∧ corc m' = co ∧
      f_holds m' this (xs ++ (n, v) :: ys) ∧ replaces (f_cells this (xs ++ ys)) m (f_cells this (xs ++ (n, v) :: ys)) m'.
  Proof.
    intros Hm Hh Ha Hc. pose proof Hh as [Hnd Hs]%f_holds_heap.
    assert (fobj this (xs ++ ys) ⊢ wp mA (f_insert_after (Some (flast xs this)) (FVal v))
      (λ n, fobj this (xs ++ (n, v) :: ys)) (λ e, ⌞e = BadAlloc⌟ ∗ fobj this (xs ++ ys) ∨ ⌞e = CopyThrow⌟ ∗ lost mA FRaw e ∗ fobj this (xs ++ ys)))%I as Hwp.
    { iIntros "H". iApply (wp_f_insert_val mA with "H"). iSplit.
      - iIntros (e) "He H". destruct (decide (e = BadAlloc)) as [->|Hne].
        + iLeft. iSplitR; [done|]. unfold lost. iDestruct "He" as "[%He|[%He G]]"; [done|by destruct He].
        + iRight. iAssert (⌞e = CopyThrow⌟ ∗ lost mA FRaw e)%I with "[He]" as "[$ $]"; [|done].
          unfold lost. iDestruct "He" as "[%He|[%He G]]"; destruct He; [done|]. iSplitR; [done|]. iRight. by iFrame.
      - by iIntros (n) "H". }
    pose proof (run_exact _ _ _ _ _ _ _ (good_any _ Hm) (fheap_exact _ _ Hnd) Hs Hwp) as H.
    pose proof (takes_f_insert (Some (flast xs this)) v false co m Hc) as Ht.
    pose proof (map_difference_union _ _ Hs) as Hbm. pose proof (fobj_size _ _ _ (proj2 (fheap_exact _ _ Hnd _) eq_refl)) as Hsz.
    destruct (f_insert_after _ _ m) as [n m'|e m'| |] eqn:El; [| |done..].
    - destruct H as (_ & h' & HQ & Hd & Hb). destruct Ht as [_ Hc']. exists n, m'. split; [done|].
      split; [|split; [done|split]].
      + apply (tally_done _ m 1 _ _ _ (ta_f_insert _ v) Hm Ha El).
        pose proof (fobj_size _ _ _ HQ) as Hsz'. rewrite !app_length /= in Hsz, Hsz'.
        rewrite Hb -{2}Hbm !map_size_disj_union //; [lia|]. by apply map_disjoint_difference_r.
      + eapply fobj_holds; [done|]. rewrite Hb. apply map_union_subseteq_l.
      + eapply owned_replaces; [exact Hs|apply fheap_dom| |done|done]. by intros l; rewrite (fobj_cells _ _ _ HQ).
    - exfalso. destruct H as (_ & h' & [[-> HQ]%pure_sep_inv|[-> _]%pure_sep_inv] & Hd & Hb); [|done].
      pose proof (tally_thrown _ _ _ _ (ta_f_insert _ v) Hm Ha El) as Hlt.
      apply fobj_size in HQ. rewrite Hb -{1}Hbm !map_size_disj_union // in Hlt; [lia|]. by apply map_disjoint_difference_r.
  Qed.
End forward.
