(** Proofs behind the forward_list theorems of PropForward.v. *)
From iris.proofmode Require Import tactics.
From Verif Require Import HistGen ClientThrow ModelForward SpecForward ForwardProofs ForwardHist ForwardMem.

Section props.
  Context {V : Type}.
  Implicit Types (nvs xs ys zs : list (loc * V)) (m : mem (fcell V)).
  Notation refines k := (refines_from (fspec (V:=V)) f_run ∅ ∅ (λ s, s = ∅) k).

  Lemma f_ok_mono b (op : fop V) : f_ok true op → f_ok b op.
  Proof. by destruct op. Qed.
  Lemma f_ok_false (op : fop V) : f_ok false op.
  Proof. by destruct op. Qed.
  Lemma f_refines_fair ao co : no_fail ao → no_fail co → refines (λ _, True) ao co.
  Proof. apply (gen_fair (flst (V:=V)) _ _ f_ok f_ok_false). apply f_op_spec. Qed.
  Lemma f_refines_fail ao co : no_fail co → refines (f_ok true) ao co.
  Proof. apply (gen_fail (flst (V:=V)) _ _ f_ok f_ok_mono). apply f_op_spec. Qed.
  Lemma f_reach (b : bool) ao co evs s env m :
    (b = false → no_fail ao) → no_fail co →
    hist (fspec (V:=V)) f_run ∅ ∅ (mem0 ao co) evs s env m →
    Forall (λ ev, f_ok b ev.1) evs →
    (∀ h vs, s !! h = Some vs → ∃ l nvs, env !! h = Some l ∧ f_holds m l nvs ∧ nvs.*2 = vs) ∧
    size (blk m) = map_fold (λ _ vs n, S (length vs) + n) 0 s.
  Proof.
    intros Hb Hco Hh Hok.
    destruct (gen_reach (flst (V:=V)) _ _ f_ok f_op_spec b ao co evs s env m Hb Hco Hh Hok) as [Hr _].
    split.
    - intros h vs Hs. destruct (objs_at _ _ _ _ _ _ Hr Hs) as (l & h' & Hl & (nvs & Hn) & Hsub).
      apply pure_sep_inv in Hn as [Hvs Hn].
      exists l, nvs. split; [done|]. split; [|done]. by eapply fobj_holds.
    - eapply (objs_count _ (λ vs, S (length vs)) size); [apply map_size_empty|by apply map_size_disj_union| |done].
      intros l x h (nvs & Hn). apply pure_sep_inv in Hn as [<- Hn]. rewrite fmap_length. by eapply fobj_size.
  Qed.

  (** ** Elements that throw *)
  Lemma f_refines_leaking ao co :
    refines_leaking (fspec (V:=V)) f_run ∅ ∅ (λ s, s = ∅) (f_ok true) (λ c, c = FRaw) ao co.
  Proof.
    apply (refines_leaking_sim _ _ _ _ _ _ (λ n env s, objs (flst (V:=V)) env s ∗ junk (FRaw (V:=V)) n)%I).
    - intros n env s op s' o Hok. apply f_op_leak. by apply f_ok_mono.
    - iIntros "_". iSplitL; [by iApply objs_empty|]. iExists []. by iSplit.
    - intros n env s h -> Hr. apply hprop_sep_eq in Hr as (h1 & h2 & -> & Hd & H1 & H2).
      apply (proj1 (hprop_entails_eq _ _) (objs_gone (flst (V:=V)) env)) in H1.
      assert (h1 = ∅) as -> by by apply hprop_emp_eq. rewrite left_id_L. by apply junk_inv.
  Qed.
  Lemma f_reach_any ao co evs s env m :
    hist (fspec (V:=V)) f_run ∅ ∅ (mem0 ao co) evs s env m →
    Forall (λ ev, f_ok true ev.1) evs →
    (∀ h vs, s !! h = Some vs → ∃ l nvs, env !! h = Some l ∧ f_holds m l nvs ∧ nvs.*2 = vs) ∧
    size (blk m) ≤ map_fold (λ _ vs n, S (length vs) + n) 0 s + copy_throws evs.
  Proof.
    intros Hh Hok.
    destruct (hist_sim_leak _ _ (f_ok true) (λ n env s, objs (flst (V:=V)) env s ∗ junk (FRaw (V:=V)) n)%I (Mode true true)
      0 ∅ ∅ (mem0 ao co) evs s env m (f_op_leak (Mode true true)) Hh Hok) as (_ & _ & _ & Hr).
    - split; [by intros l; rewrite lookup_empty; intros []|]. done.
    - apply (proj1 (hprop_entails_eq emp%I _)); [|by apply hprop_emp_eq].
      iIntros "_". iSplitL; [by iApply objs_empty|]. iExists []. by iSplit.
    - rewrite Nat.add_0_r in Hr. apply hprop_sep_eq in Hr as (h1 & h2 & Hb & Hd & H1 & H2). split.
      + intros h vs Hs. destruct (objs_at _ _ _ _ _ _ H1 Hs) as (l & h' & Hl & (nvs & Hn) & Hsub).
        apply pure_sep_inv in Hn as [Hvs Hn].
        exists l, nvs. split; [done|]. split; [|done]. eapply fobj_holds; [done|]. rewrite Hb.
        etrans; [done|]. apply map_union_subseteq_l.
      + rewrite Hb map_size_disj_union //. apply junk_inv in H2 as [H2 _].
        cut (size h1 = map_fold (λ _ vs n, S (length vs) + n) 0 s); [lia|].
        eapply (objs_count _ (λ vs, S (length vs)) size); [apply map_size_empty|by apply map_size_disj_union| |done].
        intros l x h (nvs & Hn). apply pure_sep_inv in Hn as [<- Hn]. rewrite fmap_length. by eapply fobj_size.
  Qed.

  (** ** Single calls *)
  Lemma c25_insert m this xs ys v :
    may_fail_alloc m → f_holds m this (xs ++ ys) →
    runs_to m (f_cells this (xs ++ ys)) (f_insert_after (Some (flast xs this)) (FVal v) m) (λ r m' new, ∃ n,
      (r = n ∧ f_holds m' this (xs ++ (n, v) :: ys)) ∧ new = f_cells this (xs ++ (n, v) :: ys)).
  Proof.
    intros Hm Hh. apply (f_run_to m this (xs ++ ys) _ (λ n, xs ++ (n, v) :: ys) (λ r n, r = n)); [done..|].
    iIntros "H". iApply (wp_f_insert_val mT with "H"). iSplit.
    - iIntros (e) "He $". by iApply lost_alloc.
    - iIntros (n) "H". iExists n. by iFrame.
  Qed.
  Lemma c26_erase_range m this xs ys zs :
    may_fail_alloc m → f_holds m this (xs ++ ys ++ zs) →
    ∃ m', f_erase_range (Some (flast xs this)) (ffirst zs None) m = Ok (ffirst zs None) m' ∧
      may_fail_alloc m' ∧ f_holds m' this (xs ++ zs) ∧
      replaces (f_cells this (xs ++ ys ++ zs)) m (f_cells this (xs ++ zs)) m'.
  Proof.
    intros Hm Hh. destruct (f_run_quiet m this (xs ++ ys ++ zs)
      (f_erase_range (Some (flast xs this)) (ffirst zs None)) (ffirst zs None) (xs ++ zs) mT) as (m' & ?&?&?&?);
      [by apply good_may_fail|done| |].
    - iIntros "H". iApply (wp_f_erase_range with "H"). iIntros "$". done.
    - exists m'. split; [done|]. split; [by apply good_may_fail'|done].
  Qed.
  Lemma c26_erase_after m this xs n v ys :
    may_fail_alloc m → f_holds m this (xs ++ (n, v) :: ys) →
    ∃ m', f_erase_after (Some (flast xs this)) m = Ok (ffirst ys None) m' ∧
      may_fail_alloc m' ∧ f_holds m' this (xs ++ ys) ∧
      replaces (f_cells this (xs ++ (n, v) :: ys)) m (f_cells this (xs ++ ys)) m'.
  Proof.
    intros Hm Hh. destruct (f_run_quiet m this (xs ++ (n, v) :: ys)
      (f_erase_after (Some (flast xs this))) (ffirst ys None) (xs ++ ys) mT) as (m' & ?&?&?&?);
      [by apply good_may_fail|done| |].
    - iIntros "H". iApply (wp_f_erase_after with "H"). iIntros "$". done.
    - exists m'. split; [done|]. split; [by apply good_may_fail'|done].
  Qed.

  (** ** Copies *)
  Lemma fls_cells zs h : fls zs None h → ∀ l, l ∈ zs.*1 ↔ is_Some (h !! l).
  Proof.
    intros Hl l. assert (NoDup zs.*1) as Hnd.
    { apply (proj1 (hprop_entails_eq _ _) (fls_nodup zs None)) in Hl. done. }
    apply (sheap_exact _ _ Hnd) in Hl as ->. by rewrite sheap_dom.
  Qed.
  Lemma c27_copy m other ys :
    may_fail_alloc m → f_holds m other ys →
    match f_copy other m with
    | Ok this m' => ∃ zs, (zs.*2 = ys.*2 ∧ f_holds m' this zs ∧ f_holds m' other ys) ∧
        replaces (f_cells other ys) m (f_cells this zs ++ f_cells other ys) m'
    | Exn e m' => ∃ zs, (e = BadAlloc ∧ zs.*2 `prefix_of` ys.*2 ∧ f_holds m' other ys) ∧
        replaces (f_cells other ys) m (zs.*1 ++ f_cells other ys) m'
    | UB | Div => False
    end.
  Proof.
    intros Hm%good_may_fail [Hnd Hs]%f_holds_heap.
    pose proof (run_both mT (fobj other ys) (fheap other ys) m (f_cells other ys) (f_copy other)
      (λ this zs, ⌞zs.*2 = ys.*2⌟ ∗ fobj this zs ∗ fobj other ys)%I (λ this zs, f_cells this zs ++ f_cells other ys)
      (λ this zs m', zs.*2 = ys.*2 ∧ f_holds m' this zs ∧ f_holds m' other ys)
      (λ e zs, ⌞e = BadAlloc ∧ zs.*2 `prefix_of` ys.*2⌟ ∗ fls zs None ∗ fobj other ys)%I
      (λ e zs, zs.*1 ++ f_cells other ys)
      (λ e zs m', e = BadAlloc ∧ zs.*2 `prefix_of` ys.*2 ∧ f_holds m' other ys)) as H.
    feed specialize H; [done|by apply fheap_exact|done|apply fheap_dom| | | |].
    - intros this zs h' m' [Hp Hl]%pure_sep_inv Hs'.
      destruct (sep_sub _ _ _ _ Hl Hs') as (hA & hB & HA & HB & HsA & HsB).
      split; [split; [done|]; split; by eapply fobj_holds|].
      apply hprop_sep_eq in Hl as (h1 & h2 & -> & Hd & H1 & H2).
      intros l. rewrite elem_of_app (fobj_cells _ _ _ H1) (fobj_cells _ _ _ H2) lookup_union_is_Some //.
    - intros e zs h' m' [[-> Hp] Hl]%pure_sep_inv Hs'.
      destruct (sep_sub _ _ _ _ Hl Hs') as (hA & hB & HA & HB & HsA & HsB).
      split; [split; [done|]; split; [done|]; by eapply fobj_holds|].
      apply hprop_sep_eq in Hl as (h1 & h2 & -> & Hd & H1 & H2).
      intros l. rewrite elem_of_app (fls_cells _ _ H1) (fobj_cells _ _ _ H2) lookup_union_is_Some //.
    - iIntros "G". iApply (wp_f_copy mT with "G"). iSplit.
      + iIntros (e new Hp) "He H G". iPoseProof (lost_alloc with "He") as "He"; [done|]. iDestruct "He" as %[-> _]. iExists new. by iFrame.
      + iIntros (this new Hn) "H G". iExists new. by iFrame.
    - destruct (f_copy other m); [by destruct H..|done|done].
  Qed.

  Lemma c27_assign m this xs other ys :
    may_fail_alloc m → f_holds m this xs → f_holds m other ys →
    (∀ l, l ∈ f_cells this xs → l ∉ f_cells other ys) →
    match f_assign this other m with
    | Ok _ m' => ∃ zs, (zs.*2 = ys.*2 ∧ f_holds m' this zs ∧ f_holds m' other ys) ∧
        replaces (f_cells this xs ++ f_cells other ys) m (f_cells this zs ++ f_cells other ys) m'
    | Exn e m' => ∃ zs, (e = BadAlloc ∧ zs.*2 `prefix_of` ys.*2 ∧ f_holds m' this xs ∧ f_holds m' other ys) ∧
        replaces (f_cells this xs ++ f_cells other ys) m (zs.*1 ++ f_cells this xs ++ f_cells other ys) m'
    | UB | Div => False
    end.
  Proof.
    intros Hm%good_may_fail [Hnd Hs]%f_holds_heap [Hnd' Hs']%f_holds_heap Hap.
    assert (fheap this xs ##ₘ fheap other ys) as Hd.
    { apply map_disjoint_spec. intros l c1 c2 H1 H2. apply (Hap l); apply fheap_dom; eauto. }
    pose proof (run_both mT (fobj this xs ∗ fobj other ys)%I (fheap this xs ∪ fheap other ys) m
      (f_cells this xs ++ f_cells other ys) (f_assign this other)
      (λ _ zs, ⌞zs.*2 = ys.*2⌟ ∗ fobj this zs ∗ fobj other ys)%I (λ _ zs, f_cells this zs ++ f_cells other ys)
      (λ _ zs m', zs.*2 = ys.*2 ∧ f_holds m' this zs ∧ f_holds m' other ys)
      (λ e zs, ⌞e = BadAlloc ∧ zs.*2 `prefix_of` ys.*2⌟ ∗ fls zs None ∗ fobj this xs ∗ fobj other ys)%I
      (λ e zs, zs.*1 ++ f_cells this xs ++ f_cells other ys)
      (λ e zs m', e = BadAlloc ∧ zs.*2 `prefix_of` ys.*2 ∧ f_holds m' this xs ∧ f_holds m' other ys)) as H.
    feed specialize H; [done|by apply exact_sep; [apply fheap_exact..|]|by apply map_union_least| | | | |].
    - intros l. rewrite elem_of_app !fheap_dom lookup_union_is_Some //.
    - intros _ zs h' m' [Hp Hl]%pure_sep_inv Hsub.
      destruct (sep_sub _ _ _ _ Hl Hsub) as (hA & hB & HA & HB & HsA & HsB).
      split; [split; [done|]; split; by eapply fobj_holds|].
      apply hprop_sep_eq in Hl as (h1 & h2 & -> & Hd' & H1 & H2).
      intros l. rewrite elem_of_app (fobj_cells _ _ _ H1) (fobj_cells _ _ _ H2) lookup_union_is_Some //.
    - intros e zs h' m' [[-> Hp] Hl]%pure_sep_inv Hsub.
      destruct (sep_sub _ _ _ _ Hl Hsub) as (hC & hD & HC & Hl2 & HsC & HsD).
      destruct (sep_sub _ _ _ _ Hl2 ltac:(done)) as (hA & hB & HA & HB & HsA & HsB).
      split; [split; [done|]; split; [done|]; split; by eapply fobj_holds|].
      apply hprop_sep_eq in Hl as (h1 & h2 & -> & Hd' & H1 & H2).
      apply hprop_sep_eq in H2 as (h3 & h4 & -> & Hd'' & H3 & H4).
      intros l. rewrite !elem_of_app (fls_cells _ _ H1) (fobj_cells _ _ _ H3) (fobj_cells _ _ _ H4) !lookup_union_is_Some //.
    - iIntros "[H G]". iApply (wp_f_assign mT with "H G"). iSplit.
      + iIntros (e new Hp) "He N H G". iPoseProof (lost_alloc with "He") as "He"; [done|]. iDestruct "He" as %[-> _]. iExists new. by iFrame.
      + iIntros (new Hn) "H G". iExists new. by iFrame.
    - destruct (f_assign this other m); [by destruct H..|done|done].
  Qed.
  Lemma c23_fself m this xs :
    may_fail_alloc m → f_holds m this xs →
    match f_assign this this m with
    | Ok _ m' => ∃ zs, (zs.*2 = xs.*2 ∧ f_holds m' this zs) ∧ replaces (f_cells this xs) m (f_cells this zs) m'
    | Exn e m' => ∃ zs, (e = BadAlloc ∧ zs.*2 `prefix_of` xs.*2 ∧ f_holds m' this xs) ∧
        replaces (f_cells this xs) m (zs.*1 ++ f_cells this xs) m'
    | UB | Div => False
    end.
  Proof.
    intros Hm%good_may_fail [Hnd Hs]%f_holds_heap.
    pose proof (run_both mT (fobj this xs) (fheap this xs) m (f_cells this xs) (f_assign this this)
      (λ _ zs, ⌞zs.*2 = xs.*2⌟ ∗ fobj this zs)%I (λ _ zs, f_cells this zs)
      (λ _ zs m', zs.*2 = xs.*2 ∧ f_holds m' this zs)
      (λ e zs, ⌞e = BadAlloc ∧ zs.*2 `prefix_of` xs.*2⌟ ∗ fls zs None ∗ fobj this xs)%I
      (λ e zs, zs.*1 ++ f_cells this xs)
      (λ e zs m', e = BadAlloc ∧ zs.*2 `prefix_of` xs.*2 ∧ f_holds m' this xs)) as H.
    feed specialize H; [done|by apply fheap_exact|done|apply fheap_dom| | | |].
    - intros _ zs h' m' [Hp Hl]%pure_sep_inv Hsub.
      split; [split; [done|]; by eapply fobj_holds|]. by apply fobj_cells.
    - intros e zs h' m' [[-> Hp] Hl]%pure_sep_inv Hsub.
      destruct (sep_sub _ _ _ _ Hl Hsub) as (hA & hB & HA & HB & HsA & HsB).
      split; [split; [done|]; split; [done|]; by eapply fobj_holds|].
      apply hprop_sep_eq in Hl as (h1 & h2 & -> & Hd & H1 & H2).
      intros l. rewrite elem_of_app (fls_cells _ _ H1) (fobj_cells _ _ _ H2) lookup_union_is_Some //.
    - iIntros "G". iApply (wp_f_assign_self mT with "G"). iSplit.
      + iIntros (e new Hp) "He H G". iPoseProof (lost_alloc with "He") as "He"; [done|]. iDestruct "He" as %[-> _]. iExists new. by iFrame.
      + iIntros (new Hn) "H". iExists new. by iFrame.
    - destruct (f_assign this this m); [by destruct H..|done|done].
  Qed.

  (** a throwing element copy *)
  Lemma c71_fleak m p nx v ao co :
    mem_wf m → f_next p m = Ok nx m →
    aorc m = ao → head ao ≠ Some true → corc m = true :: co →
    ∃ m', f_insert_after p (FVal v) m = Exn CopyThrow m' ∧ blk m' = <[nxt m := FRaw]> (blk m).
  Proof.
    intros Hwf Hn Ha Hh Hc.
    assert (∀ c : fcell V, alloc c m = Ok (nxt m) (Mem (<[nxt m := c]> (blk m)) (Pos.succ (nxt m))
      (tail ao) (corc m))) as E.
    { intros c. unfold alloc. rewrite Ha. by destruct ao as [|[] ?]. }
    destruct p as [l|]; [|done]. rewrite /f_next /bind /load in Hn. destruct (blk m !! l) as [c|] eqn:Hl; [|done].
    assert (l ≠ nxt m) as Hne.
    { intros ->. pose proof (Hwf _ (ex_intro _ _ Hl)). lia. }
    eexists. rewrite /f_insert_after {1}/bind E {1}/bind /f_next {1}/bind {1}/load /= lookup_insert_ne // Hl.
    destruct c; simplify_eq/=.
    all: rewrite /f_construct /bind /load /= lookup_insert /= /may_throw /= Hc; done.
  Qed.
End props.
