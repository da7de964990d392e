(** Every client operation on sets and maps refines the specification. *)
From iris.proofmode Require Import tactics.
From Verif Require Import SLTac Hist HistProofs Objs ClientProofs ModelTree SpecTree TreeFacts TreeProofs.

(** Assignment is excluded when allocations may fail: then it keeps a prefix.
    The operations that iterate need [it]. *)
Definition t_ok {X K} (it : Prop) (may_fail : bool) (op : top X K) : Prop :=
  match op with
  | TAssign _ _ => it ∧ may_fail = false
  | TCopy _ _ | TIter _ => it
  | _ => True
  end.

Section hist.
  Context {X K : Type} (key : X → K) (comp : K → K → bool) (Hsw : strict_weak comp).
  Context (eqn : option (K → K → bool)).
  Context (md : mode) (Hmc : mC md = false).
  Notation rep := (objs (tset key comp)).

  Lemma tobj_same this t : iter_ok comp eqn → tgood key comp t → tobj this t ⊢ ⌜same_ok key eqn t⌝.
  Proof using Hsw.
    iIntros (Heq [Hi _]) "H". iDestruct (W_nodup with "H") as %[_ Hnd]%NoDup_cons. iPureIntro.
    by eapply same_ok_good.
  Qed.
  Lemma fail_tset l t xs :
    tgood key comp t → (nodes t).*2 = xs → mA md = true → tobj l t ⊢ unch md (tset key comp l xs) BadAlloc.
  Proof using. iIntros (Hg <- HA) "H". iSplitR; [done|]. by iApply tset_intro. Qed.
  Lemma done_tset l t xs (φ : Prop) :
    tgood key comp t → (nodes t).*2 = xs → φ → tobj l t ⊢ ⌞φ⌟ ∗ tset key comp l xs.
  Proof using. iIntros (Hg <- Hφ) "H". iSplitR; [done|]. by iApply tset_intro. Qed.
  Lemma search_found k t n x : search key comp k t = Some (n, x) → (n, x) ∈ nodes t.
  Proof using. by intros [? _]%search_in. Qed.
  Lemma lookup_search k t xs :
    tgood key comp t → (nodes t).*2 = xs → lookup_key key comp k xs = snd <$> search key comp k t.
  Proof using Hsw. intros [Hi _] <-. by rewrite search_lookup. Qed.

  Lemma t_op_spec : op_spec (tspec key comp) (t_run key comp eqn) (t_ok (iter_ok comp eqn) (mA md)) rep md.
  Proof using Hmc Hsw.
    intros env s op s' o Hok Hs. destruct op; simpl in Hs |- *.
    - (* TNew *)
      unfold tfresh in Hs. destruct (s !! h) eqn:Eh; simplify_eq.
      apply op_decl; [done|]. iIntros "_". iApply wp_t_new. iIntros (l) "H".
      iApply (tset_intro _ _ l E with "H"). apply good_E.
    - (* TCopy *)
      destruct (s !! g) as [ys|] eqn:Eg; [|done]. unfold tfresh in Hs. destruct (s !! h) eqn:Eh; simplify_eq.
      apply op_copy; [done..|]. intros l. iIntros "(%t & [%Hg <-] & H)".
      iDestruct (tobj_same with "H") as %Hs; [done..|].
      iApply (wp_t_copy with "H"); [done..|]. iSplit.
      + iIntros (HA) "H". by iApply fail_tset.
      + iIntros (this t' [Hg' Ht]) "H G". iSplitL "H".
        * rewrite -Ht. by iApply tset_intro.
        * by iApply tset_intro.
    - (* TAssign *)
      destruct (decide (h = g)); [done|].
      destruct (s !! h) as [xs|] eqn:Eh; [|done]. destruct (s !! g) as [ys|] eqn:Eg; [|done]. simplify_eq.
      eapply op_act2_l; [done..|]. intros l l'. iIntros "[(%t & [%Hg <-] & H) (%t0 & [%Hg0 <-] & G)]".
      iDestruct (tobj_same with "G") as %Hs; [apply Hok|done|].
      iApply (wp_t_assign with "H G"); [done..|]. iSplit.
      + iIntros (t' j [HA _]). destruct Hok. congruence.
      + iIntros (t' [Hg' Ht]) "H G". iSplitR; [done|]. iSplitL "H".
        * rewrite -Ht. by iApply tset_intro.
        * by iApply tset_intro.
    - (* TInsert *)
      destruct (s !! h) as [xs|] eqn:Eh; [|done]. simplify_eq.
      destruct (lookup_key key comp (key v) xs) as [y|] eqn:El; simplify_eq.
      + eapply op_read1; [done|]. intros l. iIntros "(%t & [%Hg <-] & H)".
        rewrite (lookup_search _ t) // in El. destruct (search key comp (key v) t) as [[n y']|] eqn:Es; [|done].
        simplify_eq/=. wbind. iApply (wp_t_insert with "H"); [done..|]. rewrite Es. iSplit.
        { iIntros (HA) "H". by iApply fail_tset. }
        iIntros "H". wbind. iApply (wp_t_elem_obj with "H"); [by eapply search_found|].
        iIntros "H". wret. by iApply (done_tset with "H").
      + eapply op_act1; [done|]. intros l. iIntros "(%t & [%Hg <-] & H)".
        rewrite (lookup_search _ t) // in El. destruct (search key comp (key v) t) as [[n y']|] eqn:Es; [done|].
        wbind. iApply (wp_t_insert with "H"); [done..|]. rewrite Es. iSplit.
        { iIntros (HA) "H". by iApply fail_tset. }
        iIntros (n) "H". wbind. iApply (wp_t_elem_obj with "H").
        { rewrite /insert_t paint_nodes. destruct (ins_split key comp Hsw n v t (proj1 Hg) Es) as (a & b & _ & -> & _).
          apply elem_of_app. right. apply elem_of_list_here. }
        iIntros "H". wret. iApply (done_tset with "H"); [by apply insert_good| |done].
        by rewrite insert_elems.
    - (* TInsertHint *)
      destruct (s !! h) as [xs|] eqn:Eh; [|done]. simplify_eq.
      destruct (lookup_key key comp (key v) xs) as [y|] eqn:El; simplify_eq.
      + eapply op_read1; [done|]. intros l. iIntros "(%t & [%Hg <-] & H)".
        rewrite (lookup_search _ t) // in El. destruct (search key comp (key v) t) as [[n y']|] eqn:Es; [|done].
        simplify_eq/=. wbind. iApply (wp_t_find with "H"). iIntros "H". rewrite /t_insert_hint.
        wbind. iApply (wp_t_insert with "H"); [done..|]. rewrite Es. iSplit.
        { iIntros (HA) "H". by iApply fail_tset. }
        iIntros "H". wret. iApply (wp_t_elem_obj with "H"); [by eapply search_found|].
        iIntros "H". by iApply (done_tset with "H").
      + eapply op_act1; [done|]. intros l. iIntros "(%t & [%Hg <-] & H)".
        rewrite (lookup_search _ t) // in El. destruct (search key comp (key v) t) as [[n y']|] eqn:Es; [done|].
        wbind. iApply (wp_t_find with "H"). iIntros "H". rewrite /t_insert_hint.
        wbind. iApply (wp_t_insert with "H"); [done..|]. rewrite Es. iSplit.
        { iIntros (HA) "H". by iApply fail_tset. }
        iIntros (n) "H". wret. iApply (wp_t_elem_obj with "H").
        { rewrite /insert_t paint_nodes. destruct (ins_split key comp Hsw n v t (proj1 Hg) Es) as (a & b & _ & -> & _).
          apply elem_of_app. right. apply elem_of_list_here. }
        iIntros "H". iApply (done_tset with "H"); [by apply insert_good| |done].
        by rewrite insert_elems.
    - (* TFind *)
      destruct (s !! h) as [xs|] eqn:Eh; [|done]. simplify_eq.
      eapply op_read1; [done|]. intros l. iIntros "(%t & [%Hg <-] & H)".
      wbind. iApply (wp_t_find with "H"). iIntros "H". rewrite (lookup_search _ t) //.
      destruct (search key comp k t) as [[n y]|] eqn:Es; simpl fmap.
      + iApply (wp_t_at with "H"); [by eapply search_found|]. iIntros "H". by iApply (done_tset with "H").
      + iApply wp_t_at_none. by iApply (done_tset with "H").
    - (* TUpdate *)
      destruct (s !! h) as [xs|] eqn:Eh; [|done].
      destruct (lookup_key key comp k xs) as [y|] eqn:El; [|done].
      destruct (equiv_key comp (key y) (key x)) eqn:Ee; [|done]. simplify_eq.
      eapply op_act1; [done|]. intros l. iIntros "(%t & [%Hg <-] & H)".
      rewrite (lookup_search _ t) // in El. destruct (search key comp k t) as [[n y']|] eqn:Es; [|done].
      simplify_eq/=. wbind. iApply (wp_t_find with "H"). rewrite Es. iIntros "H".
      iApply (wp_t_set with "H"); [done..|]. iIntros "H".
      destruct (put_elems key comp Hsw k x t n y (proj1 Hg) Es Ee) as [Hp Hi].
      iApply (done_tset with "H"); [|done..]. split; [done|].
      destruct Hg as [_ [Hc [kk Hr]]%red_black_rb]. apply red_black_rb. rewrite put_color. split; [done|].
      exists kk. by apply put_rb.
    - (* TClear *)
      destruct (s !! h) as [xs|] eqn:Eh; [|done]. simplify_eq.
      eapply op_act1; [done|]. intros l. iIntros "(%t & [%Hg <-] & H)". iApply (wp_t_clear with "H").
      iIntros "H". iApply (done_tset with "H"); [apply good_E|done..].
    - (* TDestroy *)
      destruct (s !! h) as [xs|] eqn:Eh; [|done]. simplify_eq.
      eapply op_drop; [done|]. intros l. iIntros "(%t & [%Hg <-] & H)". iApply (wp_t_dtor with "H"). auto.
    - (* TSize *)
      destruct (s !! h) as [xs|] eqn:Eh; [|done]. simplify_eq.
      eapply op_read1; [done|]. intros l. iIntros "(%t & [%Hg <-] & H)". iApply (wp_t_size_obj with "H").
      iIntros "H". iApply (done_tset with "H"); [done..|]. by rewrite fmap_length.
    - (* TEmpty *)
      destruct (s !! h) as [xs|] eqn:Eh; [|done]. simplify_eq.
      eapply op_read1; [done|]. intros l. iIntros "(%t & [%Hg <-] & H)". iApply (wp_t_empty with "H").
      iIntros "H". iApply (done_tset with "H"); [done..|]. by destruct (nodes t).
    - (* TBegin *)
      destruct (s !! h) as [xs|] eqn:Eh; [|done]. simplify_eq.
      eapply op_read1; [done|]. intros l. iIntros "(%t & [%Hg <-] & H)". wstep wp_t_begin "H".
      rewrite /least. destruct (nodes t) as [|[n x] r] eqn:En; simpl.
      + iApply wp_t_at_none. iApply (done_tset with "H"); [done|by rewrite En|done].
      + iApply (wp_t_at _ _ _ n x with "H"); [rewrite En; apply elem_of_list_here|]. iIntros "H".
        iApply (done_tset with "H"); [done|by rewrite En|done].
    - (* TIter *)
      destruct (s !! h) as [xs|] eqn:Eh; [|done]. simplify_eq.
      eapply op_read1; [done|]. intros l. iIntros "(%t & [%Hg <-] & H)".
      iDestruct (tobj_same with "H") as %Hs; [done..|].
      iApply (wp_t_iterate with "H"); [done..|]. iIntros "H". by iApply (done_tset with "H").
  Qed.
End hist.
