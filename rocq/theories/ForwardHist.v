(** Every client operation on forward_lists refines the sequence specification. *)
From iris.proofmode Require Import tactics.
From Verif Require Import SLTac Hist HistProofs Objs ClientThrow ModelForward SpecForward ForwardProofs.

(** Copies are excluded when something may fail: then they leak. *)
Definition f_ok {V} (may_fail : bool) (op : fop V) : Prop :=
  match op with FCopy _ _ | FAssign _ _ => may_fail = false | _ => True end.

Section hist.
  Context {V : Type} (md : mode).
  Notation lost := (lost md (FRaw (V:=V))).
  Notation rep := (objs (flst (V:=V))).

  Lemma fsplit_at (nvs : list (loc * V)) i :
    i < length nvs → ∃ xs n v ys, nvs = xs ++ (n, v) :: ys ∧ i = length xs.
  Proof.
    intros Hi. destruct (lookup_lt_is_Some_2 _ _ Hi) as [[n v] Hl].
    apply elem_of_list_split_length in Hl as (xs & ys & -> & ->). by exists xs, n, v, ys.
  Qed.
  Lemma fcut (nvs : list (loc * V)) i :
    i ≤ length nvs → ∃ xs ys, nvs = xs ++ ys ∧ i = length xs ∧
      take i nvs.*2 = xs.*2 ∧ drop i nvs.*2 = ys.*2.
  Proof.
    intros Hi. exists (take i nvs), (drop i nvs). rewrite take_drop take_length fmap_take fmap_drop.
    split; [done|]. split; [lia|done].
  Qed.
  Lemma fail_flst l (nvs : list (loc * V)) vs e :
    nvs.*2 = vs → lost e -∗ fobj l nvs -∗ keep lost (flst l vs) e.
  Proof. iIntros (<-) "$ H". by iApply flst_intro. Qed.
  Lemma done_flst l (nvs : list (loc * V)) vs (φ : Prop) : nvs.*2 = vs → φ → fobj l nvs ⊢ ⌞φ⌟ ∗ flst l vs.
  Proof. iIntros (<- Hφ) "H". iSplitR; [done|]. by iApply flst_intro. Qed.
  Lemma wp_f_distance_at this xs n (v : V) ys Q R :
    fobj this (xs ++ (n, v) :: ys) -∗ (fobj this (xs ++ (n, v) :: ys) -∗ Q (length xs)) -∗
    wp md (f_distance this (Some n)) Q R.
  Proof. apply (wp_f_distance md this xs ((n, v) :: ys)). Qed.
  Lemma wp_f_before_at this xs (ys : list (loc * V)) Q R :
    fobj this (xs ++ ys) -∗ (fobj this (xs ++ ys) -∗ Q (Some (flast xs this))) -∗
    wp md (f_advance (f_before this) (length xs)) Q R.
  Proof.
    iIntros "H HQ". iApply (wp_f_advance_before with "H"); [rewrite app_length; lia|]. by rewrite take_app.
  Qed.
  Lemma wp_f_elem_at this xs n (v : V) ys (Q : option loc → _) R :
    fobj this (xs ++ (n, v) :: ys) -∗ (fobj this (xs ++ (n, v) :: ys) -∗ Q (Some n)) -∗
    wp md (b <- f_begin this ;; f_advance b (length xs)) Q R.
  Proof.
    iIntros "H HQ". wstep wp_f_begin "H". iApply (wp_f_advance md this [] with "H"); [rewrite app_length; lia|].
    by rewrite drop_app.
  Qed.
  Lemma bind_assoc_wp {A B C} (f : M (fcell V) A) (g : A → M (fcell V) B) (k : B → M (fcell V) C) Q R :
    wp md (b <- (a <- f ;; g a) ;; k b) Q R ⊢ wp md (a <- f ;; b <- g a ;; k b) Q R.
  Proof.
    assert (∀ m, (a <- f ;; b <- g a ;; k b) m = (b <- (a <- f ;; g a) ;; k b) m) as E.
    { intros m. unfold bind. by destruct (f m). }
    split. intros h H m hf Hm Hd Hb. rewrite E. by apply H.
  Qed.

  Lemma f_op_any env s op s' o :
    f_ok (mA md || mC md) op → fspec s op = Some (s', o) →
    rep env s ⊢ wp md (f_run env op) (λ eo, ⌞eo.2 = o⌟ ∗ rep eo.1 s') (keep lost (rep env s)).
  Proof.
    intros Hok Hs. destruct op; simpl in Hs |- *.
    - (* FNew *)
      unfold ffresh in Hs. destruct (s !! h) eqn:Eh; simplify_eq.
      apply op_decl_any; [done|]. iIntros "_". iApply wp_f_new. iIntros (l) "H". by iApply (flst_intro l []).
    - (* FCopy *)
      destruct (s !! g) as [ys|] eqn:Eg; [|done]. unfold ffresh in Hs. destruct (s !! h) eqn:Eh; simplify_eq.
      apply op_copy_any; [done..|]. intros l. iIntros "(%nvs & <- & H)". iApply (wp_f_copy with "H"). iSplit.
      + iIntros (e new _) "He". simpl in Hok. apply orb_false_iff in Hok as [??]. by iDestruct (lost_nothing with "He") as "[]".
      + iIntros (this xs Hxs) "H G". iSplitL "H".
        * rewrite -Hxs. by iApply flst_intro.
        * by iApply flst_intro.
    - (* FAssign *)
      destruct (s !! h) as [xs|] eqn:Eh; [|done]. destruct (s !! g) as [ys|] eqn:Eg; [|done]. simplify_eq.
      destruct (decide (h = g)) as [->|Hne].
      + simplify_eq. eapply op_same_any; [done|]. intros l. iIntros "(%nvs & <- & H)".
        iApply (wp_f_assign_self with "H"). iSplit.
        * iIntros (e new _) "He". simpl in Hok. apply orb_false_iff in Hok as [??]. by iDestruct (lost_nothing with "He") as "[]".
        * iIntros (new Hn) "H". by iApply (done_flst with "H").
      + eapply op_act2_l_any; [done..|]. intros l l'. iIntros "[(%nvs & <- & H) (%nvs' & <- & G)]".
        iApply (wp_f_assign with "H G"). iSplit.
        * iIntros (e new _) "He". simpl in Hok. apply orb_false_iff in Hok as [??]. by iDestruct (lost_nothing with "He") as "[]".
        * iIntros (new Hn) "H G". iSplitR; [done|]. iSplitL "H".
          -- rewrite -Hn. by iApply flst_intro.
          -- by iApply flst_intro.
    - (* FSwap *)
      destruct (s !! h) as [xs|] eqn:Eh; [|done]. destruct (s !! g) as [ys|] eqn:Eg; [|done]. simplify_eq.
      destruct (decide (h = g)) as [->|Hne].
      + simplify_eq. rewrite insert_insert. eapply op_same_any; [done|]. intros l. iIntros "(%nvs & <- & H)".
        iApply (wp_f_swap_self with "H"). iIntros "H". by iApply (done_flst with "H").
      + eapply op_act2_any; [done..|]. intros l l'. iIntros "[(%nvs & <- & H) (%nvs' & <- & G)]".
        iApply (wp_f_swap with "H G"). iIntros "H G". iSplitR; [done|]. iSplitL "H"; by iApply flst_intro.
    - (* FPushFront *)
      destruct (s !! h) as [xs|] eqn:Eh; [|done]. simplify_eq. eapply op_act1_any; [done|]. intros l.
      iIntros "(%nvs & <- & H)". iApply (wp_f_push_front with "H"). iSplit.
      + iIntros (e) "He H". by iApply (fail_flst with "He").
      + iIntros (n) "H". by iApply (done_flst with "H").
    - (* FInsertAfter *)
      destruct (s !! h) as [vs|] eqn:Eh; [|done]. destruct (decide _) as [Hi|]; [|done]. simplify_eq.
      eapply op_act1_any; [done|]. intros l. iIntros "(%nvs & <- & H)". rewrite fmap_length in Hi.
      destruct (fcut nvs i Hi) as (xs & ys & -> & -> & -> & ->).
      wstep wp_f_before_at "H".
      wbind. iApply (wp_f_insert_val with "H"). iSplit.
      { iIntros (e) "He H". by iApply (fail_flst with "He"). }
      iIntros (n) "H". iApply (wp_f_distance_at with "H"). iIntros "H".
      iApply (done_flst with "H"); [|done]. by rewrite fmap_app.
    - (* FInsertElem *)
      destruct (s !! h) as [vs|] eqn:Eh; [|done]. destruct (s !! g) as [us|] eqn:Eg; [|done].
      destruct (us !! j) as [y|] eqn:Ej; [|done]. destruct (decide _) as [Hi|]; [|done]. simplify_eq.
      destruct (decide (h = g)) as [->|Hne].
      + simplify_eq. eapply op_same_any; [done|]. intros l. iIntros "(%nvs & <- & H)".
        rewrite fmap_length in Hi. apply list_lookup_fmap_inv in Ej as ([n0 y'] & -> & Ej).
        pose proof (lookup_lt_Some _ _ _ Ej) as Hj.
        wstep wp_f_begin "H". wbind. iApply (wp_f_advance md l [] with "H"); [lia|]. iIntros "H".
        rewrite (drop_S _ _ _ Ej) /=.
        destruct (fcut nvs i Hi) as (xs & ys & -> & -> & -> & ->).
        wstep wp_f_before_at "H".
        wbind. iApply (wp_f_insert_own with "H"); [done|]. iSplit.
        { iIntros (e) "He H". by iApply (fail_flst with "He"). }
        iIntros (n) "H". iApply (wp_f_distance_at with "H"). iIntros "H".
        iApply (done_flst with "H"); [|done]. by rewrite fmap_app.
      + eapply op_act2_l_any; [done..|]. intros l l'. iIntros "[(%nvs & <- & H) (%zs & <- & G)]".
        rewrite fmap_length in Hi. apply list_lookup_fmap_inv in Ej as ([n0 y'] & -> & Ej).
        pose proof (lookup_lt_Some _ _ _ Ej) as Hj.
        wstep wp_f_begin "G". wbind. iApply (wp_f_advance md l' [] with "G"); [lia|]. iIntros "G".
        rewrite (drop_S _ _ _ Ej) /=.
        destruct (fcut nvs i Hi) as (xs & ys & -> & -> & -> & ->).
        wstep wp_f_before_at "H".
        wbind. iApply (wp_f_insert_other with "H G"); [done|]. iSplit.
        { iIntros (e) "$ H G". iSplitL "H"; by iApply flst_intro. }
        iIntros (n) "H G". iApply (wp_f_distance_at with "H"). iIntros "H".
        iSplitR; [done|]. iSplitL "H"; [|by iApply flst_intro].
        iExists _. iFrame. by rewrite fmap_app.
    - (* FEraseAfter *)
      destruct (s !! h) as [vs|] eqn:Eh; [|done]. destruct (decide _) as [Hi|]; [|done]. simplify_eq.
      eapply op_act1_any; [done|]. intros l. iIntros "(%nvs & <- & H)". rewrite fmap_length in Hi.
      destruct (fsplit_at nvs i Hi) as (xs & n & v & ys & -> & ->).
      wstep wp_f_before_at "H".
      wstep wp_f_erase_after "H". iApply (wp_f_distance with "H"). iIntros "H".
      iApply (done_flst with "H"); [|done]. rewrite !fmap_app -(fmap_length snd xs) take_app.
      f_equal. rewrite fmap_cons cons_middle assoc_L drop_app_alt //. rewrite app_length /=. lia.
    - (* FEraseRange *)
      destruct (s !! h) as [vs|] eqn:Eh; [|done]. destruct (decide _) as [[Hi Hj]|]; [|done]. simplify_eq.
      eapply op_act1_any; [done|]. intros l. iIntros "(%nvs & <- & H)". rewrite fmap_length in Hj.
      assert (∃ xs ys zs, nvs = xs ++ ys ++ zs ∧ i = length xs ∧ j = S (length xs + length ys)) as
        (xs & ys & zs & -> & -> & ->).
      { exists (take i nvs), (take (j - 1 - i) (drop i nvs)), (drop (j - 1 - i) (drop i nvs)).
        rewrite !take_drop !take_length !drop_length. split; [done|]. lia. }
      wstep wp_f_before_at "H". wbind.
      iApply (wp_wand _ _ (λ q, ⌞q = ffirst zs None⌟ ∗ fobj l (xs ++ ys ++ zs))%I _ (λ _, False)%I with "[H]").
      { destruct zs as [|[z vz] zs].
        - rewrite app_nil_r -app_length. iApply (wp_f_advance_end with "H"). iIntros "$". done.
        - rewrite -Nat.add_succ_r. assert (length xs + S (length ys) = length (xs ++ ys ++ [(z, vz)])) as ->.
          { rewrite !app_length /=. lia. }
          assert (xs ++ ys ++ (z, vz) :: zs = (xs ++ ys ++ [(z, vz)]) ++ zs) as -> by by rewrite -!assoc_L.
          iApply (wp_f_before_at with "H"). iIntros "$". rewrite assoc_L flast_snoc. done. }
      iSplit; [|by iIntros (?) "[]"]. iIntros (q) "[-> H]".
      wstep wp_f_erase_range "H". iApply (wp_f_distance with "H"). iIntros "H".
      iApply (done_flst with "H"); [|done]. rewrite !fmap_app -{1}(fmap_length snd xs) take_app.
      f_equal. rewrite assoc_L drop_app_alt //. rewrite app_length !fmap_length /=. lia.
    - (* FPopFront *)
      destruct (s !! h) as [vs|] eqn:Eh; [|done]. destruct vs as [|x vs]; [done|]. simplify_eq.
      eapply op_act1_any; [done|]. intros l. iIntros "(%nvs & %E & H)". destruct nvs as [|[n v] nvs]; [done|].
      simplify_eq/=. iApply (wp_f_pop_front with "H"). iIntros "H". by iApply (done_flst with "H").
    - (* FSet *)
      destruct (s !! h) as [vs|] eqn:Eh; [|done]. destruct (decide _) as [Hi|]; [|done]. simplify_eq.
      eapply op_act1_any; [done|]. intros l. iIntros "(%nvs & <- & H)". rewrite fmap_length in Hi.
      destruct (fsplit_at nvs i Hi) as (xs & n & v0 & ys & -> & ->).
      iApply bind_assoc_wp. iApply wp_bind. iApply (wp_f_elem_at with "H"). iIntros "H".
      iApply (wp_f_set with "H"). iSplit.
      { iIntros (e) "He H". by iApply (fail_flst with "He"). }
      iIntros "H". iApply (done_flst with "H"); [|done].
      rewrite !fmap_app !fmap_cons /= -(fmap_length snd xs) insert_app_r_alt // Nat.sub_diag //.
    - (* FClear *)
      destruct (s !! h) as [vs|] eqn:Eh; [|done]. simplify_eq.
      eapply op_act1_any; [done|]. intros l. iIntros "(%nvs & <- & H)". iApply (wp_f_clear with "H").
      iIntros "H". by iApply (done_flst with "H").
    - (* FDestroy *)
      destruct (s !! h) as [vs|] eqn:Eh; [|done]. simplify_eq.
      eapply op_drop_any; [done|]. intros l. iIntros "(%nvs & <- & H)". iApply (wp_f_dtor with "H"). auto.
    - (* FEmpty *)
      destruct (s !! h) as [vs|] eqn:Eh; [|done]. simplify_eq.
      eapply op_read1_any; [done|]. intros l. iIntros "(%nvs & <- & H)". rewrite /f_empty.
      wstep wp_f_begin "H". wret. iApply (done_flst _ nvs with "H"); [done|]. by destruct nvs.
    - (* FFront *)
      destruct (s !! h) as [vs|] eqn:Eh; [|done]. destruct vs as [|x vs]; [done|]. simplify_eq/=.
      eapply op_read1_any; [done|]. intros l. iIntros "(%nvs & %E & H)". destruct nvs as [|[n v] nvs]; [done|].
      simplify_eq/=. rewrite /f_front. wstep wp_f_begin "H". iApply (wp_fvalue_at md l [] with "H"). iIntros "H".
      by iApply (done_flst with "H").
    - (* FGet *)
      destruct (s !! h) as [vs|] eqn:Eh; [|done]. destruct (vs !! i) as [x|] eqn:Ei; [|done]. simplify_eq.
      eapply op_read1_any; [done|]. intros l. iIntros "(%nvs & <- & H)".
      pose proof (lookup_lt_Some _ _ _ Ei) as Hi. rewrite fmap_length in Hi.
      destruct (fsplit_at nvs i Hi) as (xs & n & v0 & ys & -> & ->).
      iApply bind_assoc_wp. iApply wp_bind. iApply (wp_f_elem_at with "H"). iIntros "H".
      iApply (wp_fvalue_at with "H"). iIntros "H". iApply (done_flst with "H"); [done|].
      rewrite fmap_app fmap_cons /= lookup_app_r fmap_length // Nat.sub_diag in Ei. by simplify_eq/=.
    - (* FIter *)
      destruct (s !! h) as [vs|] eqn:Eh; [|done]. simplify_eq.
      eapply op_read1_any; [done|]. intros l. iIntros "(%nvs & <- & H)". iApply (wp_f_iterate with "H").
      iIntros "H". by iApply (done_flst with "H").
  Qed.

  Lemma f_op_spec : mC md = false → op_spec fspec f_run (f_ok (mA md)) rep md.
  Proof.
    intros Hmc env s op s' o Hok Hs. etrans; [apply f_op_any; [|done]|].
    - by rewrite Hmc orb_false_r.
    - apply wp_mono; [done|]. iIntros (e) "[He $]". by iApply lost_alloc.
  Qed.

  (** with the cells that were lost *)
  Lemma f_op_leak :
    op_spec_leak fspec f_run (f_ok (mA md || mC md)) (λ n env s, rep env s ∗ junk (FRaw (V:=V)) n)%I md.
  Proof.
    intros n env s op s' o Hok Hs. iIntros "[H Hj]". iApply (wp_wand with "[H]"); [by iApply f_op_any|]. iSplit.
    - iIntros (a) "[$ $]". iFrame.
    - iIntros (e) "[He $]". iApply (junk_lost with "He Hj").
  Qed.
End hist.
