(** Every client operation on lists refines the sequence specification. *)
From iris.proofmode Require Import tactics.
From Verif Require Import SLTac Hist HistProofs Objs ClientThrow ModelList SpecList ListProofs.

(** Assignment is excluded when allocations may fail: then it keeps a prefix. *)
Definition l_ok {V} (may_fail : bool) (op : lop V) : Prop :=
  match op with LAssign _ _ => may_fail = false | _ => True end.

Section hist.
  Context {V : Type} (md : mode).
  Notation lost := (lost md (LRaw (V:=V))).
  Notation rep := (objs (lst (V:=V))).

  Lemma split_at (nvs : list (loc * V)) i :
    i < length nvs → ∃ xs n v ys, nvs = xs ++ (n, v) :: ys ∧ i = length xs.
  Proof.
    intros Hi. destruct (lookup_lt_is_Some_2 _ _ Hi) as [[n v] Hl].
    apply elem_of_list_split_length in Hl as (xs & ys & -> & ->). by exists xs, n, v, ys.
  Qed.
  Lemma pos_split xs n (v : V) ys this : l_pos this (xs ++ (n, v) :: ys) (length xs) = n.
  Proof. by rewrite /l_pos drop_app. Qed.
  Lemma pos_split' (xs ys : list (loc * V)) this : l_pos this (xs ++ ys) (length xs) = first ys this.
  Proof. by rewrite /l_pos drop_app. Qed.

  Lemma wp_l_distance_at' this (xs ys : list (loc * V)) Q R :
    lobj this (xs ++ ys) -∗ (lobj this (xs ++ ys) -∗ Q (length xs)) -∗
    wp md (l_distance this (first ys this)) Q R.
  Proof.
    iIntros "H HQ". pose proof (wp_l_distance md this (xs ++ ys) (length xs)) as Hd.
    rewrite pos_split' in Hd. iApply (Hd with "H"); [|done]. rewrite app_length. lia.
  Qed.
  Lemma wp_l_distance_at this xs n (v : V) ys Q R :
    lobj this (xs ++ (n, v) :: ys) -∗ (lobj this (xs ++ (n, v) :: ys) -∗ Q (length xs)) -∗
    wp md (l_distance this n) Q R.
  Proof. apply (wp_l_distance_at' this xs ((n, v) :: ys)). Qed.

  Lemma fail_lst l (nvs : list (loc * V)) vs e :
    nvs.*2 = vs → lost e -∗ lobj l nvs -∗ keep lost (lst l vs) e.
  Proof. iIntros (<-) "$ H". by iApply lst_intro. Qed.
  Lemma done_lst l (nvs : list (loc * V)) vs (φ : Prop) : nvs.*2 = vs → φ → lobj l nvs ⊢ ⌞φ⌟ ∗ lst l vs.
  Proof. iIntros (<- Hφ) "H". iSplitR; [done|]. by iApply lst_intro. Qed.

  (** position [i] splits the nodes *)
  Lemma cut (nvs : list (loc * V)) i :
    i ≤ length nvs → ∃ xs ys, nvs = xs ++ ys ∧ i = length xs ∧
      take i nvs.*2 = xs.*2 ∧ drop i nvs.*2 = ys.*2.
  Proof.
    intros Hi. exists (take i nvs), (drop i nvs). rewrite take_drop take_length fmap_take fmap_drop.
    split; [done|]. split; [lia|done].
  Qed.

  Lemma l_op_any env s op s' o :
    l_ok (mA md || mC md) op → lspec s op = Some (s', o) →
    rep env s ⊢ wp md (l_run env op) (λ eo, ⌞eo.2 = o⌟ ∗ rep eo.1 s') (keep lost (rep env s)).
  Proof.
    intros Hok Hs. destruct op; simpl in Hs |- *.
    - (* LNew *)
      unfold lfresh in Hs. destruct (s !! h) eqn:Eh; simplify_eq.
      apply op_decl_any; [done|]. iIntros "_". iApply wp_l_new. iIntros (l) "H". by iApply (lst_intro l []).
    - (* LCopy *)
      destruct (s !! g) as [ys|] eqn:Eg; [|done]. unfold lfresh in Hs. destruct (s !! h) eqn:Eh; simplify_eq.
      apply op_copy_any; [done..|]. intros l. iIntros "(%nvs & <- & H)". iApply (wp_l_copy with "H"). iSplit.
      + iIntros (e) "He H". by iApply (fail_lst with "He").
      + iIntros (this xs Hxs) "H G". iSplitL "H".
        * rewrite -Hxs. by iApply lst_intro.
        * by iApply lst_intro.
    - (* LAssign *)
      destruct (decide (h = g)); [done|].
      destruct (s !! h) as [xs|] eqn:Eh; [|done]. destruct (s !! g) as [ys|] eqn:Eg; [|done]. simplify_eq.
      eapply op_act2_l_any; [done..|]. intros l l'. iIntros "[(%nvs & <- & H) (%nvs' & <- & G)]".
      iApply (wp_l_assign with "H G"). iSplit.
      + iIntros (e new _) "He". simpl in Hok. apply orb_false_iff in Hok as [??]. by iDestruct (lost_nothing with "He") as "[]".
      + iIntros (new Hn) "H G". iSplitR; [done|]. iSplitL "H".
        * rewrite -Hn. by iApply lst_intro.
        * by iApply lst_intro.
    - (* LPushBack *)
      destruct (s !! h) as [xs|] eqn:Eh; [|done]. simplify_eq. eapply op_act1_any; [done|]. intros l.
      iIntros "(%nvs & <- & H)". iApply (wp_l_push_back with "H"). iSplit.
      + iIntros (e) "He H". by iApply (fail_lst with "He").
      + iIntros (n) "H". iApply (done_lst with "H"); [|done]. by rewrite fmap_app.
    - (* LPushFront *)
      destruct (s !! h) as [xs|] eqn:Eh; [|done]. simplify_eq. eapply op_act1_any; [done|]. intros l.
      iIntros "(%nvs & <- & H)". iApply (wp_l_push_front with "H"). iSplit.
      + iIntros (e) "He H". by iApply (fail_lst with "He").
      + iIntros (n) "H". by iApply (done_lst with "H").
    - (* LPushBackRv *)
      destruct (s !! h) as [xs|] eqn:Eh; [|done]. simplify_eq. eapply op_act1_any; [done|]. intros l.
      iIntros "(%nvs & <- & H)". iApply (wp_l_push_back_rv with "H"). iSplit.
      + iIntros (e) "He H". by iApply (fail_lst with "He").
      + iIntros (n) "H". iApply (done_lst with "H"); [|done]. by rewrite fmap_app.
    - (* LPushFrontRv *)
      destruct (s !! h) as [xs|] eqn:Eh; [|done]. simplify_eq. eapply op_act1_any; [done|]. intros l.
      iIntros "(%nvs & <- & H)". iApply (wp_l_push_front_rv with "H"). iSplit.
      + iIntros (e) "He H". by iApply (fail_lst with "He").
      + iIntros (n) "H". by iApply (done_lst with "H").
    - (* LEmplaceBack *)
      destruct (s !! h) as [xs|] eqn:Eh; [|done]. simplify_eq. eapply op_act1_any; [done|]. intros l.
      iIntros "(%nvs & <- & H)". iApply (wp_l_emplace_back with "H"). iSplit.
      + iIntros (e) "He H". by iApply (fail_lst with "He").
      + iIntros (n) "H". iApply (done_lst with "H"); [|done]. by rewrite fmap_app.
    - (* LEmplaceFront *)
      destruct (s !! h) as [xs|] eqn:Eh; [|done]. simplify_eq. eapply op_act1_any; [done|]. intros l.
      iIntros "(%nvs & <- & H)". iApply (wp_l_emplace_front with "H"). iSplit.
      + iIntros (e) "He H". by iApply (fail_lst with "He").
      + iIntros (n) "H". by iApply (done_lst with "H").
    - (* LInsert *)
      destruct (s !! h) as [vs|] eqn:Eh; [|done]. destruct (decide _) as [Hi|]; [|done]. simplify_eq.
      eapply op_act1_any; [done|]. intros l. iIntros "(%nvs & <- & H)". rewrite fmap_length in Hi.
      wbind. iApply (wp_l_nth with "H"); [done|]. iIntros "H".
      destruct (cut nvs i Hi) as (xs & ys & -> & -> & -> & ->). rewrite pos_split'.
      wbind. iApply (wp_l_insert_val with "H"). iSplit.
      { iIntros (e) "He H". by iApply (fail_lst with "He"). }
      iIntros (n) "H". iApply (wp_l_distance_at with "H"). iIntros "H".
      iApply (done_lst with "H"); [|done]. by rewrite fmap_app.
    - (* LEmplace *)
      destruct (s !! h) as [vs|] eqn:Eh; [|done]. destruct (decide _) as [Hi|]; [|done]. simplify_eq.
      eapply op_act1_any; [done|]. intros l. iIntros "(%nvs & <- & H)". rewrite fmap_length in Hi.
      wbind. iApply (wp_l_nth with "H"); [done|]. iIntros "H".
      destruct (cut nvs i Hi) as (xs & ys & -> & -> & -> & ->). rewrite pos_split'.
      wbind. iApply (wp_l_emplace with "H"). iSplit.
      { iIntros (e) "He H". by iApply (fail_lst with "He"). }
      iIntros (n) "H". iApply (wp_l_distance_at with "H"). iIntros "H".
      iApply (done_lst with "H"); [|done]. by rewrite fmap_app.
    - (* LInsertElem *)
      destruct (s !! h) as [vs|] eqn:Eh; [|done]. destruct (s !! g) as [us|] eqn:Eg; [|done].
      destruct (us !! j) as [y|] eqn:Ej; [|done]. destruct (decide _) as [Hi|]; [|done]. simplify_eq.
      destruct (decide (h = g)) as [->|Hne].
      + simplify_eq. eapply op_same_any; [done|]. intros l. iIntros "(%nvs & <- & H)".
        rewrite fmap_length in Hi. apply list_lookup_fmap_inv in Ej as ([n0 y'] & -> & Ej).
        pose proof (lookup_lt_Some _ _ _ Ej) as Hj.
        wbind. iApply (wp_l_nth with "H"); [lia|]. iIntros "H".
        assert (l_pos l nvs j = n0) as ->.
        { rewrite /l_pos. by rewrite (drop_S _ _ _ Ej). }
        wbind. iApply (wp_l_nth with "H"); [done|]. iIntros "H".
        destruct (cut nvs i Hi) as (xs & ys & -> & -> & -> & ->). rewrite pos_split'.
        wbind. iApply (wp_l_insert_own with "H"); [done|]. iSplit.
        { iIntros (e) "He H". by iApply (fail_lst with "He"). }
        iIntros (n) "H". iApply (wp_l_distance_at with "H"). iIntros "H".
        iApply (done_lst with "H"); [|done]. by rewrite fmap_app.
      + eapply op_act2_l_any; [done..|]. intros l l'. iIntros "[(%nvs & <- & H) (%zs & <- & G)]".
        rewrite fmap_length in Hi. apply list_lookup_fmap_inv in Ej as ([n0 y'] & -> & Ej).
        pose proof (lookup_lt_Some _ _ _ Ej) as Hj.
        wbind. iApply (wp_l_nth with "G"); [lia|]. iIntros "G".
        assert (l_pos l' zs j = n0) as ->.
        { rewrite /l_pos. by rewrite (drop_S _ _ _ Ej). }
        wbind. iApply (wp_l_nth with "H"); [done|]. iIntros "H".
        destruct (cut nvs i Hi) as (xs & ys & -> & -> & -> & ->). rewrite pos_split'.
        wbind. iApply (wp_l_insert_other with "H G"); [done|]. iSplit.
        { iIntros (e) "$ H G". iSplitL "H"; by iApply lst_intro. }
        iIntros (n) "H G". iApply (wp_l_distance_at with "H"). iIntros "H".
        iSplitR; [done|]. iSplitL "H"; [|by iApply lst_intro].
        iExists _. iFrame. by rewrite fmap_app.
    - (* LErase *)
      destruct (s !! h) as [vs|] eqn:Eh; [|done]. destruct (decide _) as [Hi|]; [|done]. simplify_eq.
      eapply op_act1_any; [done|]. intros l. iIntros "(%nvs & <- & H)". rewrite fmap_length in Hi.
      wbind. iApply (wp_l_nth with "H"); [lia|]. iIntros "H".
      destruct (split_at nvs i Hi) as (xs & n & v & ys & -> & ->). rewrite pos_split.
      wbind. iApply (wp_l_erase with "H"). iIntros "H". iApply (wp_l_distance_at' with "H"). iIntros "H".
      iApply (done_lst with "H"); [|done]. rewrite !fmap_app -(fmap_length snd xs) take_app.
      f_equal. rewrite fmap_cons drop_app_alt; [done|lia] || rewrite fmap_cons cons_middle assoc_L drop_app_alt //.
      rewrite app_length /=. lia.
    - (* LPopBack *)
      destruct (s !! h) as [vs|] eqn:Eh; [|done].
      destruct vs as [|x vs _] using rev_ind; [done|].
      assert (Some (<[h := vs]> s, LoUnit) = Some (s', o)) as Hs'.
      { rewrite removelast_last in Hs. by destruct (vs ++ [x]) eqn:E; [destruct vs|]. }
      clear Hs. simplify_eq. eapply op_act1_any; [done|]. intros l. iIntros "(%nvs & %E & H)".
      destruct nvs as [|[n v] nvs _] using rev_ind; [by destruct vs|].
      rewrite fmap_app /= in E. apply app_inj_tail in E as [<- <-].
      iApply (wp_l_pop_back with "H"). iIntros "H". by iApply (done_lst with "H").
    - (* LPopFront *)
      destruct (s !! h) as [vs|] eqn:Eh; [|done]. destruct vs as [|x vs]; [done|]. simplify_eq.
      eapply op_act1_any; [done|]. intros l. iIntros "(%nvs & %E & H)". destruct nvs as [|[n v] nvs]; [done|].
      simplify_eq/=. iApply (wp_l_pop_front with "H"). iIntros "H". by iApply (done_lst with "H").
    - (* LSet *)
      destruct (s !! h) as [vs|] eqn:Eh; [|done]. destruct (decide _) as [Hi|]; [|done]. simplify_eq.
      eapply op_act1_any; [done|]. intros l. iIntros "(%nvs & <- & H)". rewrite fmap_length in Hi.
      wbind. iApply (wp_l_nth with "H"); [lia|]. iIntros "H".
      destruct (split_at nvs i Hi) as (xs & n & v0 & ys & -> & ->). rewrite pos_split.
      iApply (wp_l_set with "H"). iSplit.
      { iIntros (e) "He H". by iApply (fail_lst with "He"). }
      iIntros "H". iApply (done_lst with "H"); [|done].
      rewrite !fmap_app !fmap_cons /= -(fmap_length snd xs) insert_app_r_alt // Nat.sub_diag //.
    - (* LClear *)
      destruct (s !! h) as [vs|] eqn:Eh; [|done]. simplify_eq.
      eapply op_act1_any; [done|]. intros l. iIntros "(%nvs & <- & H)". iApply (wp_l_clear with "H").
      iIntros "H". by iApply (done_lst with "H").
    - (* LDestroy *)
      destruct (s !! h) as [vs|] eqn:Eh; [|done]. simplify_eq.
      eapply op_drop_any; [done|]. intros l. iIntros "(%nvs & <- & H)". iApply (wp_l_dtor with "H"). auto.
    - (* LSize *)
      destruct (s !! h) as [vs|] eqn:Eh; [|done]. simplify_eq.
      eapply op_read1_any; [done|]. intros l. iIntros "(%nvs & <- & Ht & H)". iApply (wp_l_size with "Ht").
      iIntros "Ht". iApply (done_lst _ nvs); [done|by rewrite fmap_length|iFrame].
    - (* LEmpty *)
      destruct (s !! h) as [vs|] eqn:Eh; [|done]. simplify_eq.
      eapply op_read1_any; [done|]. intros l. iIntros "(%nvs & <- & Ht & H)". rewrite /l_empty.
      wstep wp_l_size "Ht". wret. iApply (done_lst _ nvs); [done|by destruct nvs|iFrame].
    - (* LFront *)
      destruct (s !! h) as [vs|] eqn:Eh; [|done]. destruct vs as [|x vs]; [done|]. simplify_eq/=.
      eapply op_read1_any; [done|]. intros l. iIntros "(%nvs & %E & H)". destruct nvs as [|[n v] nvs]; [done|].
      simplify_eq/=. iApply (wp_l_front with "H"). iIntros "H". by iApply (done_lst with "H").
    - (* LBack *)
      destruct (s !! h) as [vs|] eqn:Eh; [|done]. destruct vs as [|x vs _] using rev_ind; [done|].
      rewrite last_snoc in Hs. simplify_eq/=.
      eapply op_read1_any; [done|]. intros l. iIntros "(%nvs & %E & H)".
      destruct nvs as [|[n v] nvs _] using rev_ind; [by destruct vs|].
      rewrite fmap_app /= in E. apply app_inj_tail in E as [<- <-].
      iApply (wp_l_back with "H"). iIntros "H". iApply (done_lst with "H"); [by rewrite fmap_app|done].
    - (* LGet *)
      destruct (s !! h) as [vs|] eqn:Eh; [|done]. destruct (vs !! i) as [x|] eqn:Ei; [|done]. simplify_eq.
      eapply op_read1_any; [done|]. intros l. iIntros "(%nvs & <- & H)".
      pose proof (lookup_lt_Some _ _ _ Ei) as Hi. rewrite fmap_length in Hi.
      wbind. iApply (wp_l_nth with "H"); [lia|]. iIntros "H".
      destruct (split_at nvs i Hi) as (xs & n & v0 & ys & -> & ->). rewrite pos_split.
      iApply (wp_value_at with "H"). iIntros "H". iApply (done_lst with "H"); [done|].
      rewrite fmap_app fmap_cons /= lookup_app_r fmap_length // Nat.sub_diag in Ei. by simplify_eq/=.
    - (* LIter *)
      destruct (s !! h) as [vs|] eqn:Eh; [|done]. simplify_eq.
      eapply op_read1_any; [done|]. intros l. iIntros "(%nvs & <- & H)". iApply (wp_l_iterate with "H").
      iIntros "H". by iApply (done_lst with "H").
    - (* LRIter *)
      destruct (s !! h) as [vs|] eqn:Eh; [|done]. simplify_eq.
      eapply op_read1_any; [done|]. intros l. iIntros "(%nvs & <- & H)". iApply (wp_l_riterate with "H").
      iIntros "H". by iApply (done_lst with "H").
  Qed.

  Lemma l_op_spec : mC md = false → op_spec lspec l_run (l_ok (mA md)) rep md.
  Proof.
    intros Hmc env s op s' o Hok Hs. etrans; [apply l_op_any; [|done]|].
    - by rewrite Hmc orb_false_r.
    - apply wp_mono; [done|]. iIntros (e) "[He $]". by iApply lost_alloc.
  Qed.

  (** with the cells that were lost *)
  Lemma l_op_leak :
    op_spec_leak lspec l_run (l_ok (mA md || mC md)) (λ n env s, rep env s ∗ junk (LRaw (V:=V)) n)%I md.
  Proof.
    intros n env s op s' o Hok Hs. iIntros "[H Hj]". iApply (wp_wand with "[H]"); [by iApply l_op_any|]. iSplit.
    - iIntros (a) "[$ $]". iFrame.
    - iIntros (e) "[He $]". iApply (junk_lost with "He Hj").
  Qed.
End hist.
