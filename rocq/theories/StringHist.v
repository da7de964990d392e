(** Every client operation on strings refines the sequence specification. *)
From iris.proofmode Require Import tactics.
From Verif Require Import SLTac Hist HistProofs Objs MemRun ModelString SpecString StringFacts StringProofs StringMem.

(** With a failing allocator the histories leave out what the code does not
    survive: the noexcept default constructor, assignment (C19) and the
    input-iterator constructor. *)
Definition s_ok (may_fail : bool) (op : sop) : Prop :=
  match op with
  | SNew _ | SAssignC _ _ | SAssign _ _ | SRange _ _ => may_fail = false
  | _ => True
  end.

Section hist.
  Context (md : mode).
  Notation rep := (objs str).
  Implicit Types (s : gmap nat (list N)) (env : senv).

  Lemma wp_sobj_of env h l Q R :
    env !! h = Some l → Q l -∗ wp md (sobj_of env h) Q R.
  Proof. iIntros (H) "HQ". rewrite /sobj_of H. by wret. Qed.
  Lemma str_intro l xs rest p : sobj l xs rest p -∗ str l xs.
  Proof. iIntros "H". iExists _, _. iFrame. Qed.

  Lemma read1 {A} env s h xs (f : loc → MS A) a o R :
    s !! h = Some xs →
    (∀ m l k p rest, sview m l xs k p rest → f l m = Ok a m) →
    rep env s ⊢ wp md (sact env (lh <- sobj_of env h ;; f lh) o) (λ eo, ⌞eo.2 = o a⌟ ∗ rep eo.1 s) R.
  Proof.
    iIntros (Hh Hf) "H". unfold sact.
    iDestruct (objs_read with "H") as (l Hl) "[(%rest & %p & Hx) H]"; [done|].
    wbind. iApply wp_sobj_of; [done|].
    iApply (wp_read _ _ _ a with "Hx").
    { intros m' h' Hv Hs. eapply Hf. by eapply sobj_view. }
    iIntros "Hx". wret. iSplitR; [done|]. iApply "H". by iApply str_intro.
  Qed.
  Lemma read2 {A} env s h g xs ys (f : loc → loc → MS A) a o R :
    s !! h = Some xs → s !! g = Some ys →
    (∀ m l k p rest l' k' p' rest', sview m l xs k p rest → sview m l' ys k' p' rest' → f l l' m = Ok a m) →
    rep env s ⊢ wp md (sact env (lh <- sobj_of env h ;; lg <- sobj_of env g ;; f lh lg) o)
      (λ eo, ⌞eo.2 = o a⌟ ∗ rep eo.1 s) R.
  Proof.
    iIntros (Hh Hg Hf) "H". unfold sact. destruct (decide (h = g)) as [->|Hne].
    - simplify_eq. iDestruct (objs_read with "H") as (l Hl) "[(%rest & %p & Hx) H]"; [done|].
      wbind. iApply wp_sobj_of; [done|]. wbind. iApply wp_sobj_of; [done|].
      iApply (wp_read _ _ _ a with "Hx").
      { intros m' h' Hv Hs. eapply Hf; by eapply sobj_view. }
      iIntros "Hx". wret. iSplitR; [done|]. iApply "H". by iApply str_intro.
    - iDestruct (objs_acc2 with "H") as (l l' [Hl Hl']) "((%rest & %p & Hx) & (%rest' & %p' & Hy) & H)"; [done..|].
      wbind. iApply wp_sobj_of; [done|]. wbind. iApply wp_sobj_of; [done|].
      iCombine "Hx Hy" as "Hx".
      iApply (wp_read _ _ _ a with "Hx").
      { intros m' h' Hv Hs. destruct (sep_sub _ _ _ _ Hv Hs) as (h1 & h2 & H1 & H2 & S1 & S2).
        eapply Hf; by eapply sobj_view. }
      iIntros "[Hx Hy]". wret. iSplitR; [done|]. simpl.
      iSpecialize ("H" with "[Hx] [Hy]"); [by iApply str_intro..|].
      rewrite (insert_id s g) // (insert_id s h) //.
  Qed.

  Ltac solve_pure := iSplitR; [by iPureIntro|].
  Ltac one h xs := lazymatch goal with
    | Hs : context [?s !! h] |- _ => destruct (s !! h) as [xs|] eqn:?; [|done] end.

  Lemma s_op_spec : op_spec sspec s_run (s_ok (mA md)) rep md.
  Proof.
    intros env s op s' o Hok Hs. iIntros "H". destruct op; simpl in Hs.
    - (* SNew *)
      unfold sfresh in Hs. destruct (s !! h) eqn:Eh; simplify_eq.
      simpl. iDestruct (objs_none with "H") as %He; [done|]. rewrite /sdecl He.
      wbind. iApply wp_s_new; [done|]. iIntros (l p) "Hl". wret. solve_pure. simpl.
      iApply objs_add; [done|]. iFrame. by iApply str_intro.
    - (* SMake *)
      destruct (decide _) as [Hn|]; [|done].
      unfold sfresh in Hs. destruct (s !! h) eqn:Eh; simplify_eq.
      simpl. iDestruct (objs_none with "H") as %He; [done|]. rewrite /sdecl He.
      wbind. iApply (wp_s_make md emp with "[//]"); [apply reads_ext|done|]. iSplit.
      { iIntros (HA) "_". solve_pure. iFrame. }
      iIntros (l p) "_ Hl". wret. solve_pure. simpl.
      iApply objs_add; [done|]. iFrame. by iApply str_intro.
    - (* SCstr *)
      unfold sfresh in Hs. destruct (s !! h) eqn:Eh; simplify_eq.
      simpl. iDestruct (objs_none with "H") as %He; [done|]. rewrite /sdecl He.
      wbind. iApply (wp_s_cstr md emp with "[//]"); [apply reads_ext|]. iSplit.
      { iIntros (HA) "_". solve_pure. iFrame. }
      iIntros (l p) "_ Hl". wret. solve_pure. simpl.
      iApply objs_add; [done|]. iFrame. by iApply str_intro.
    - (* SCopy *)
      destruct (s !! g) as [ys|] eqn:Eg; [|done].
      unfold sfresh in Hs. destruct (s !! h) eqn:Eh; simplify_eq.
      simpl. iDestruct (objs_none with "H") as %He; [done|]. rewrite /sdecl He.
      iDestruct (objs_read with "H") as (l Hl) "[(%rest & %p & Hx) H]"; [done|].
      wbind. iApply wp_sobj_of; [done|].
      iApply (wp_s_copy with "Hx"). iSplit.
      { iIntros (HA) "Hx". solve_pure. iApply "H". by iApply str_intro. }
      iIntros (l' p') "Hx Hl". wret. solve_pure. simpl.
      iApply objs_add; [done|]. iSplitR "Hl"; [iApply "H"|]; by iApply str_intro.
    - (* SRange *)
      destruct cs as [|c cs]; [done|].
      unfold sfresh in Hs. destruct (s !! h) eqn:Eh; simplify_eq.
      simpl. iDestruct (objs_none with "H") as %He; [done|]. rewrite /sdecl He.
      wbind. iApply wp_s_range; [done..|]. iIntros (l) "Hl". wret. solve_pure. simpl.
      iApply objs_add; [done|]. iFrame.
    - (* SPush *)
      destruct (s !! h) as [xs|] eqn:Eh; [|done]. unfold sbecomes in Hs. simplify_eq. simpl. unfold sact.
      iDestruct (objs_acc with "H") as (l Hl) "[(%rest & %p & Hx) H]"; [done|].
      wbind. iApply wp_sobj_of; [done|]. iApply (wp_s_push_val with "Hx"). iSplit.
      + iIntros (HA) "Hx". solve_pure. iSpecialize ("H" with "[Hx]"); [by iApply str_intro|].
        rewrite insert_id //.
      + iIntros (rest' p' _) "Hx". wret. solve_pure. iApply "H". by iApply str_intro.
    - (* SPushElem *)
      destruct (decide (h = g)) as [->|Hne]; [done|].
      destruct (s !! h) as [xs|] eqn:Eh; [|done].
      destruct (s !! g) as [ys|] eqn:Eg; [|done].
      destruct (ys !! i) as [y|] eqn:Ei; [|done]. unfold sbecomes in Hs. simplify_eq. simpl. unfold sact.
      iDestruct (objs_acc2 with "H") as (l l' [Hl Hl']) "((%rest & %p & Hx) & (%rest' & %p' & Hy & Hb) & H)"; [done..|].
      wbind. iApply wp_sobj_of; [done|]. wbind. iApply wp_sobj_of; [done|].
      wstep wp_s_p "Hy". iCombine "Hy Hb" as "Hy".
      iApply (wp_s_push_back md (sobj l' ys rest' p') with "Hy Hx").
      { iIntros (rest0 p0 Q0 R0) "(Hy & Hb & Hk) Hx HQ". unfold c_read. iApply (wp_b_get with "Hb").
        { by apply lookup_app_l_Some. }
        iIntros "Hb". iApply ("HQ" with "[Hy Hb Hk] Hx"). iFrame. }
      iSplit.
      + iIntros (HA) "Hy Hx". solve_pure. iSpecialize ("H" $! xs ys with "[Hx] [Hy]"); [by iApply str_intro..|].
        rewrite (insert_id s g) // (insert_id s h) //.
      + iIntros (rest0 p0 _) "Hy Hx". wret. solve_pure. simpl.
        iSpecialize ("H" $! _ ys with "[Hx] [Hy]"); [by iApply str_intro..|].
        rewrite (insert_id s g) //.
    - (* SAppend *)
      destruct (decide _) as [Hn|]; [|done].
      destruct (s !! h) as [xs|] eqn:Eh; [|done]. unfold sbecomes in Hs. simplify_eq. simpl. unfold sact.
      iDestruct (objs_acc with "H") as (l Hl) "[(%rest & %p & Hx) H]"; [done|].
      wbind. iApply wp_sobj_of; [done|].
      assert (length (take n cs) = n) as Ht by (rewrite take_length; lia).
      pose proof (wp_s_append md emp l xs rest p (CExt cs) (take n cs)) as Hap. rewrite Ht in Hap.
      iApply (Hap with "[//] Hx"); [apply copies_reads; [apply reads_ext|done]|]. iSplit.
      + iIntros (HA) "_ Hx". solve_pure. iSpecialize ("H" with "[Hx]"); [by iApply str_intro|].
        rewrite insert_id //.
      + iIntros (rest' p') "_ Hx". wret. solve_pure. iApply "H". by iApply str_intro.
    - (* SAppendStr *)
      destruct (s !! h) as [xs|] eqn:Eh; [|done].
      destruct (s !! g) as [ys|] eqn:Eg; [|done]. unfold sbecomes in Hs. simplify_eq. simpl. unfold sact.
      destruct (decide (h = g)) as [->|Hne].
      + simplify_eq. iDestruct (objs_acc with "H") as (l Hl) "[(%rest & %p & Hx) H]"; [done|].
        wbind. iApply wp_sobj_of; [done|]. wbind. iApply wp_sobj_of; [done|].
        iApply (wp_s_append_self with "Hx"). iSplit.
        * iIntros (HA) "Hx". solve_pure. iSpecialize ("H" with "[Hx]"); [by iApply str_intro|].
          rewrite insert_id //.
        * iIntros (rest' p') "Hx". wret. solve_pure. iApply "H". by iApply str_intro.
      + iDestruct (objs_acc2 with "H") as (l l' [Hl Hl']) "((%rest & %p & Hx) & (%rest' & %p' & Hy) & H)"; [done..|].
        wbind. iApply wp_sobj_of; [done|]. wbind. iApply wp_sobj_of; [done|].
        iApply (wp_s_append_str with "Hx Hy"). iSplit.
        * iIntros (HA) "Hx Hy". solve_pure. iSpecialize ("H" $! xs ys with "[Hx] [Hy]"); [by iApply str_intro..|].
          rewrite (insert_id s g) // (insert_id s h) //.
        * iIntros (rest0 p0) "Hx Hy". wret. solve_pure. simpl.
          iSpecialize ("H" $! _ ys with "[Hx] [Hy]"); [by iApply str_intro..|].
          rewrite (insert_id s g) //.
    - (* SPop *)
      destruct (s !! h) as [xs|] eqn:Eh; [|done].
      destruct xs as [|x xs _] using rev_ind; [done|].
      assert (sbecomes s h xs = Some (s', o)) as Hs'.
      { rewrite removelast_last in Hs. by destruct (xs ++ [x]) eqn:E; [destruct xs|]. }
      clear Hs. unfold sbecomes in Hs'. simplify_eq. simpl. unfold sact.
      iDestruct (objs_acc with "H") as (l Hl) "[(%rest & %p & Hx) H]"; [done|].
      wbind. iApply wp_sobj_of; [done|]. iApply (wp_s_pop_back with "Hx").
      iIntros "Hx". wret. solve_pure. iApply "H". by iApply str_intro.
    - (* SClear *)
      destruct (s !! h) as [xs|] eqn:Eh; [|done]. unfold sbecomes in Hs. simplify_eq. simpl. unfold sact.
      iDestruct (objs_acc with "H") as (l Hl) "[(%rest & %p & Hx) H]"; [done|].
      wbind. iApply wp_sobj_of; [done|]. iApply (wp_s_clear with "Hx").
      iIntros "Hx". wret. solve_pure. iApply "H". by iApply str_intro.
    - (* SReserve *)
      destruct (s !! h) as [xs|] eqn:Eh; [|done]. simplify_eq. simpl. unfold sact.
      iDestruct (objs_read with "H") as (l Hl) "[(%rest & %p & Hx) H]"; [done|].
      wbind. iApply wp_sobj_of; [done|]. iApply (wp_s_reserve with "Hx"). iSplit.
      + iIntros ([HA _]) "Hx". solve_pure. iApply "H". by iApply str_intro.
      + iIntros (rest' p' _) "Hx". wret. solve_pure. iApply "H". by iApply str_intro.
    - (* SAssignC *)
      destruct (s !! h) as [xs|] eqn:Eh; [|done]. unfold sbecomes in Hs. simplify_eq. simpl. unfold sact.
      iDestruct (objs_acc with "H") as (l Hl) "[(%rest & %p & Hx) H]"; [done|].
      wbind. iApply wp_sobj_of; [done|].
      iApply (wp_s_assign md emp with "[//] Hx"); [apply reads_ext|by left|].
      iIntros (rest' p') "_ Hx". wret. solve_pure. iApply "H". by iApply str_intro.
    - (* SAssign *)
      destruct (decide (h = g)) as [->|Hne]; [done|].
      destruct (s !! h) as [xs|] eqn:Eh; [|done].
      destruct (s !! g) as [ys|] eqn:Eg; [|done]. unfold sbecomes in Hs. simplify_eq. simpl. unfold sact.
      iDestruct (objs_acc2 with "H") as (l l' [Hl Hl']) "((%rest & %p & Hx) & (%rest' & %p' & Hy) & H)"; [done..|].
      wbind. iApply wp_sobj_of; [done|]. wbind. iApply wp_sobj_of; [done|].
      iApply (wp_s_assign_str with "Hx Hy"); [by left|].
      iIntros (rest0 p0) "Hx Hy". wret. solve_pure. simpl.
      iSpecialize ("H" $! _ ys with "[Hx] [Hy]"); [by iApply str_intro..|].
      rewrite (insert_id s g) //.
    - (* SPut *)
      destruct (s !! h) as [xs|] eqn:Eh; [|done]. destruct (xs !! i) eqn:Ei; [|done].
      unfold sbecomes in Hs. simplify_eq. simpl. unfold sact.
      iDestruct (objs_acc with "H") as (l Hl) "[(%rest & %p & Hx) H]"; [done|].
      wbind. iApply wp_sobj_of; [done|]. iApply (wp_s_put with "Hx"); [by eapply lookup_lt_Some|].
      iIntros "Hx". wret. solve_pure. iApply "H". by iApply str_intro.
    - (* SDestroy *)
      destruct (s !! h) as [xs|] eqn:Eh; [|done]. simplify_eq. simpl.
      iDestruct (objs_del with "H") as (l Hl) "[(%rest & %p & Hx) H]"; [done|].
      wbind. iApply wp_sobj_of; [done|]. wbind. iApply (wp_s_dtor with "Hx").
      iIntros "_". wret. solve_pure. iFrame.
    - destruct (s !! h) as [xs|] eqn:Eh; [|done]. simplify_eq.
      iApply (read1 with "H"); [done|]. intros. by eapply s_size_eq.
    - destruct (s !! h) as [xs|] eqn:Eh; [|done]. simplify_eq.
      replace (match xs with [] => true | _ => false end) with (length xs =? 0) by by destruct xs.
      iApply (read1 with "H"); [done|]. intros. by eapply s_empty_eq.
    - destruct (s !! h) as [xs|] eqn:Eh; [|done].
      destruct ((xs ++ [0%N]) !! i) eqn:Ei; [|done]. simplify_eq.
      iApply (read1 with "H"); [done|]. intros. by eapply s_get_eq.
    - destruct (s !! h) as [xs|] eqn:Eh; [|done].
      destruct (head xs) eqn:Ei; [|done]. simplify_eq.
      iApply (read1 with "H"); [done|]. intros. by eapply s_front_eq.
    - destruct (s !! h) as [xs|] eqn:Eh; [|done].
      destruct (last xs) eqn:Ei; [|done]. simplify_eq.
      iApply (read1 with "H"); [done|]. intros. by eapply s_back_eq.
    - destruct (s !! h) as [xs|] eqn:Eh; [|done]. simplify_eq.
      iApply (read1 with "H"); [done|]. intros. by eapply s_iterate_eq.
    - destruct (decide _) as [Hn|]; [|done]. destruct (s !! h) as [xs|] eqn:Eh; [|done]. simplify_eq.
      iApply (read1 with "H"); [done|]. intros. by eapply s_find_eq.
    - destruct (s !! h) as [xs|] eqn:Eh; [|done]. destruct (s !! g) as [ys|] eqn:Eg; [|done]. simplify_eq.
      iApply (read2 _ _ _ _ _ _ (λ a b, s_find_str a b pos) with "H"); [done..|]. intros. by eapply s_find_str_eq.
    - destruct (s !! h) as [xs|] eqn:Eh; [|done]. destruct (s !! g) as [ys|] eqn:Eg; [|done]. simplify_eq.
      rewrite -compare_fun_sgn.
      iApply (read2 _ _ _ _ _ _ s_compare _ (λ r, RInt (Z.sgn r)) with "H"); [done..|]. intros. by eapply s_compare_eq.
    - destruct (s !! h) as [xs|] eqn:Eh; [|done]. simplify_eq.
      rewrite -compare_fun_sgn.
      iApply (read1 _ _ _ _ _ _ (λ r, RInt (Z.sgn r)) with "H"); [done|]. intros. by eapply s_compare_c_eq.
    - destruct (s !! h) as [xs|] eqn:Eh; [|done]. destruct (s !! g) as [ys|] eqn:Eg; [|done]. simplify_eq.
      iApply (read2 with "H"); [done..|]. intros. by eapply s_eq_eq.
    - destruct (s !! h) as [xs|] eqn:Eh; [|done]. destruct (s !! g) as [ys|] eqn:Eg; [|done]. simplify_eq.
      iApply (read2 with "H"); [done..|]. intros. by eapply s_lt_eq.
  Qed.
End hist.
