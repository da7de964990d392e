(** Proofs behind the set and map theorems of PropTree.v. *)
From iris.proofmode Require Import tactics.
From Verif Require Import HistGen ModelTree SpecTree TreeFacts TreeProofs TreeHist TreeMem.

Section props.
  Context {X K : Type} (key : X → K) (comp : K → K → bool) (eqn : option (K → K → bool)).
  Context (Hsw : strict_weak comp).
  Implicit Types (t : tree X) (m : mem (tcell X)).
  Notation refines k := (refines_from (tspec key comp) (t_run key comp eqn) ∅ ∅ (λ s, s = ∅) k).

  Lemma t_ok_mono (it : Prop) b (op : top X K) : t_ok it true op → t_ok it b op.
  Proof. destruct op; naive_solver. Qed.
  Lemma t_ok_false (it : Prop) (op : top X K) : it → t_ok it false op.
  Proof. by destruct op. Qed.
  Lemma t_refines_fair ao co : iter_ok comp eqn → no_fail ao → no_fail co → refines (λ _, True) ao co.
  Proof.
    intros Hit. apply (gen_fair (tset key comp) _ _ (t_ok (iter_ok comp eqn))).
    - intros op. by apply t_ok_false.
    - by apply t_op_spec.
  Qed.
  Lemma t_refines_fail ao co : no_fail co → refines (t_ok (iter_ok comp eqn) true) ao co.
  Proof.
    apply (gen_fail (tset key comp) _ _ (t_ok (iter_ok comp eqn))).
    - intros b op. by apply t_ok_mono.
    - by apply t_op_spec.
  Qed.
  Lemma t_reach (b : bool) ao co evs s env m :
    (b = false → no_fail ao) → no_fail co →
    hist (tspec key comp) (t_run key comp eqn) ∅ ∅ (mem0 ao co) evs s env m →
    Forall (λ ev, t_ok (iter_ok comp eqn) b ev.1) evs →
    (∀ h xs, s !! h = Some xs → increasing key comp xs ∧
       ∃ l t, env !! h = Some l ∧ t_holds m l t ∧ (nodes t).*2 = xs ∧ red_black t) ∧
    size (blk m) = map_fold (λ _ xs n, S (length xs) + n) 0 s.
  Proof.
    intros Hb Hco Hh Hok.
    destruct (gen_reach (tset key comp) _ _ (t_ok (iter_ok comp eqn)) (t_op_spec key comp Hsw eqn) b ao co evs s env m Hb Hco Hh Hok) as [Hr _].
    split.
    - intros h vs Hs. destruct (objs_at _ _ _ _ _ _ Hr Hs) as (l & h' & Hl & (t & Hn) & Hsub).
      apply pure_sep_inv in Hn as [[[Hi Hrb] <-] Hn]. split; [done|].
      exists l, t. split; [done|]. split; [by eapply tobj_holds|done].
    - eapply (objs_count _ (λ vs, S (length vs)) size); [apply map_size_empty|by apply map_size_disj_union| |done].
      intros l x h (t & Hn). apply pure_sep_inv in Hn as [[_ <-] Hn]. rewrite fmap_length. by eapply tobj_size.
  Qed.

  (** ** Single calls *)
  Lemma t_quiet {A} m this t (f : M (tcell X) A) a t' :
    may_fail_alloc m → t_holds m this t →
    (tobj this t ⊢ wp mT f (λ b, ⌞b = a⌟ ∗ tobj this t') (λ _, False)) →
    ∃ m', f m = Ok a m' ∧ may_fail_alloc m' ∧ t_holds m' this t' ∧
      replaces (t_cells this t) m (t_cells this t') m'.
  Proof.
    intros Hm Hh Hw. destruct (t_run_quiet m this t f a t' mT) as (m' & ? & ? & ? & ?); [by apply good_may_fail|done..|].
    exists m'. split; [done|]. split; [by apply good_may_fail'|done].
  Qed.
  Lemma c32_insert m this t v :
    may_fail_alloc m → t_holds m this t → increasing key comp (nodes t).*2 → red_black t →
    runs_to m (t_cells this t) (t_insert key comp this v m) (λ r m' new, ∃ t',
      ((increasing key comp (nodes t').*2 ∧ red_black t' ∧
        match r with
        | (n, true) => lookup_key key comp (key v) (nodes t).*2 = None ∧
            ∃ a b, nodes t = a ++ b ∧ nodes t' = a ++ (n, v) :: b
        | (n, false) => t' = t ∧ ∃ x, (n, x) ∈ nodes t ∧ equiv_key comp (key v) (key x) = true
        end) ∧ t_holds m' this t') ∧ new = t_cells this t').
  Proof using Hsw.
    intros Hm Hh Hi Hr. apply (t_run_to m this t); [done..|].
    iIntros "H". iApply (wp_t_insert key comp Hsw mT eq_refl with "H"); [done..|].
    destruct (search key comp (key v) t) as [[n x]|] eqn:Es; iSplit.
    - by iIntros (_) "$".
    - iIntros "H". iExists t. iFrame. iPureIntro. split; [done|]. split; [done|]. split; [done|].
      exists x. by apply (search_in key comp).
    - by iIntros (_) "$".
    - iIntros (n) "H". iExists _. iFrame. iPureIntro.
      destruct (insert_good key comp Hsw n v t (conj Hi Hr) Es) as [H1 H2]. split; [done|]. split; [done|]. split.
      + by rewrite -(search_lookup key comp Hsw) // Es.
      + rewrite /insert_t paint_nodes.
        destruct (ins_split key comp Hsw n v t Hi Es) as (a & b & -> & -> & _). by exists a, b.
  Qed.
  Lemma c28_find m this t k :
    may_fail_alloc m → t_holds m this t → increasing key comp (nodes t).*2 →
    ∃ it m', t_find key comp this k m = Ok it m' ∧ may_fail_alloc m' ∧ t_holds m' this t ∧
      replaces (t_cells this t) m (t_cells this t) m' ∧
      match it with
      | None => lookup_key key comp k (nodes t).*2 = None
      | Some n => ∃ x, (n, x) ∈ nodes t ∧ lookup_key key comp k (nodes t).*2 = Some x
      end.
  Proof using Hsw.
    intros Hm Hh Hi.
    destruct (t_quiet m this t (t_find key comp this k) (fst <$> search key comp k t) t)
      as (m' & ? & ? & ? & ?); [done..| |].
    { iIntros "H". iApply (wp_t_find with "H"). iIntros "$". done. }
    eexists _, m'. repeat (split; [done|]). rewrite -(search_lookup key comp Hsw) //.
    destruct (search key comp k t) as [[n x]|] eqn:Es; simpl; [|done]. exists x. split; [|done].
    by apply search_in in Es as [? _].
  Qed.
  Lemma c32_begin m this t : t_holds m this t → t_begin this m = Ok (fst <$> head (nodes t)) m.
  Proof. intros (_ & Ht & _). by rewrite /t_begin /t_bgn /bind /load Ht. Qed.
  Lemma c29_next m this t a n x b :
    iter_ok comp eqn → may_fail_alloc m → t_holds m this t → increasing key comp (nodes t).*2 →
    nodes t = a ++ (n, x) :: b →
    ∃ m', t_succ key eqn (Some n) m = Ok (fst <$> head b) m' ∧ may_fail_alloc m' ∧ t_holds m' this t ∧
      replaces (t_cells this t) m (t_cells this t) m'.
  Proof using Hsw.
    intros Hit Hm Hh Hi Hn. apply t_quiet; [done..|]. iIntros "H".
    iApply (wp_t_succ key eqn mT with "H"); [|done|iIntros "$"; done].
    apply (same_ok_good key comp Hsw eqn); [done..|]. by destruct Hh as [[_ ?]%NoDup_cons _].
  Qed.
  Lemma c29_value m this t n x : t_holds m this t → (n, x) ∈ nodes t → t_value (Some n) m = Ok x m.
  Proof.
    intros (_ & _ & Hb). generalize (@None loc) Hb. clear Hb. induction t as [|n' x' c l IHl r IHr]; simpl; intros p.
    - by intros _ ?%elem_of_nil.
    - intros (H1 & H2 & H3) [?|[?|?]%elem_of_cons]%elem_of_app; [by eapply IHl| |by eapply IHr].
      simplify_eq. unfold t_value, node, bind, ret, t_elem, load. cbn. unfold bind. by rewrite H1.
  Qed.
  Lemma c29_iterate m this t :
    iter_ok comp eqn → may_fail_alloc m → t_holds m this t → increasing key comp (nodes t).*2 →
    ∃ m', t_iterate key eqn this m = Ok (nodes t).*2 m' ∧ may_fail_alloc m' ∧ t_holds m' this t ∧
      replaces (t_cells this t) m (t_cells this t) m'.
  Proof using Hsw.
    intros Hit Hm Hh Hi. apply t_quiet; [done..|]. iIntros "H".
    iApply (wp_t_iterate key eqn mT with "H"); [|iIntros "$"; done].
    apply (same_ok_good key comp Hsw eqn); [done..|]. by destruct Hh as [[_ ?]%NoDup_cons _].
  Qed.
  Lemma c33_clear m this t :
    may_fail_alloc m → t_holds m this t →
    (∃ m', t_clear this m = Ok tt m' ∧ may_fail_alloc m' ∧ t_holds m' this E ∧ replaces (t_cells this t) m [this] m') ∧
    (∃ m', t_dtor this m = Ok tt m' ∧ may_fail_alloc m' ∧ replaces (t_cells this t) m [] m').
  Proof.
    intros Hm Hh. split.
    - apply (t_quiet m this t _ tt E); [done..|]. iIntros "H".
      iApply (wp_t_clear mT with "H"). iIntros "$". done.
    - apply t_holds_heap in Hh as [Hnd Hs].
      pose proof (run_exact mT _ _ m (t_dtor (X:=X) this) (λ _, emp)%I (λ _, False)%I (good_may_fail _ Hm) (theap_exact _ _ Hnd) Hs) as H.
      feed specialize H. { iIntros "H". iApply (wp_t_dtor mT with "H"). auto. }
      destruct (t_dtor this m) as [[] m'|e m'| |]; [| |done..].
      + destruct H as (Hm' & h' & ->%hprop_emp_eq & Hd & Hb). exists m'. split; [done|]. split; [by apply good_may_fail'|].
        eapply owned_replaces; [exact Hs|apply theap_dom| |done|done].
        intros q. rewrite lookup_empty. split; [by intros ?%elem_of_nil|by intros []].
      + by destruct H as (_ & h' & [] & _).
  Qed.
  Lemma c33_copy m other t0 :
    iter_ok comp eqn → may_fail_alloc m → t_holds m other t0 → increasing key comp (nodes t0).*2 → red_black t0 →
    runs_to m (t_cells other t0) (t_copy key comp eqn other m) (λ this m' new, ∃ t,
      ((nodes t).*2 = (nodes t0).*2 ∧ red_black t ∧ t_holds m' this t ∧ t_holds m' other t0 ∧
       (∀ l, l ∈ t_cells this t → l ∉ t_cells other t0)) ∧ new = t_cells this t ++ t_cells other t0).
  Proof using Hsw.
    intros Hit Hm Hh Hi Hr.
    assert (same_ok key eqn t0) as Hsame.
    { apply (same_ok_good key comp Hsw eqn); [done..|]. by destruct Hh as [[_ ?]%NoDup_cons _]. }
    apply t_holds_heap in Hh as [Hnd Hs].
    eapply (run_to (tobj other t0) (theap other t0) m _ (t_copy key comp eqn other)
             (λ this t, ⌞(nodes t).*2 = (nodes t0).*2 ∧ red_black t⌟ ∗ tobj this t ∗ tobj other t0)%I
             (λ this t, t_cells this t ++ t_cells other t0)
             (λ this t m', (nodes t).*2 = (nodes t0).*2 ∧ red_black t ∧ t_holds m' this t ∧ t_holds m' other t0 ∧
                (∀ l, l ∈ t_cells this t → l ∉ t_cells other t0)));
      [done|by apply theap_exact|done|apply theap_dom| |].
    - intros this t h' m' [[Hp Hp'] Hl]%pure_sep_inv Hs'.
      apply hprop_sep_eq in Hl as (h1 & h2 & -> & Hd & H1 & H2).
      assert (h1 ⊆ blk m') as Hs1 by (etrans; [apply map_union_subseteq_l|done]).
      assert (h2 ⊆ blk m') as Hs2 by (etrans; [by apply map_union_subseteq_r|done]).
      destruct (tobj_holds _ _ _ _ H1 Hs1) as [Hh1 _]. destruct (tobj_holds _ _ _ _ H2 Hs2) as [Hh2 _].
      split; [repeat (split; [done|])|].
      + intros l. rewrite (tobj_cells _ _ _ H1) (tobj_cells _ _ _ H2). intros [c1 E1] [c2 E2].
        by eapply map_disjoint_spec in Hd.
      + intros l. rewrite elem_of_app (tobj_cells _ _ _ H1) (tobj_cells _ _ _ H2) lookup_union_is_Some //.
    - iIntros "G". iApply (wp_t_copy key comp Hsw eqn mT eq_refl with "G"); [done..|]. iSplit.
      + by iIntros (_) "$".
      + iIntros (this t [[_ Hr'] Hx]) "H G". iExists t. by iFrame.
  Qed.
  (** assigning from another container: whatever happens the target is valid *)
  Lemma c33_assign m this t other t0 :
    iter_ok comp eqn → may_fail_alloc m → t_holds m this t → t_holds m other t0 →
    increasing key comp (nodes t0).*2 → red_black t0 →
    (∀ l, l ∈ t_cells this t → l ∉ t_cells other t0) →
    match t_assign key comp eqn this other m with
    | Ok _ m' => ∃ t', (nodes t').*2 = (nodes t0).*2 ∧ red_black t' ∧ t_holds m' this t' ∧ t_holds m' other t0 ∧
        replaces (t_cells this t ++ t_cells other t0) m (t_cells this t' ++ t_cells other t0) m'
    | Exn e m' => e = BadAlloc ∧ ∃ t' j, (nodes t').*2 = take j (nodes t0).*2 ∧ red_black t' ∧
        t_holds m' this t' ∧ t_holds m' other t0 ∧
        replaces (t_cells this t ++ t_cells other t0) m (t_cells this t' ++ t_cells other t0) m'
    | UB | Div => False
    end.
  Proof using Hsw.
    intros Hit Hm%good_may_fail Hh Hh' Hi Hr Hap.
    assert (same_ok key eqn t0) as Hsame.
    { apply (same_ok_good key comp Hsw eqn); [done..|]. by destruct Hh' as [[_ ?]%NoDup_cons _]. }
    apply t_holds_heap in Hh as [Hnd Hs]. apply t_holds_heap in Hh' as [Hnd' Hs'].
    assert (theap this t ##ₘ theap other t0) as Hd.
    { apply map_disjoint_spec. intros l c1 c2 H1 H2. apply (Hap l); apply theap_dom; eauto. }
    assert (exact (tobj this t ∗ tobj other t0) (theap this t ∪ theap other t0)) as HE.
    { apply exact_sep; [by apply theap_exact..|done]. }
    assert (theap this t ∪ theap other t0 ⊆ blk m) as Hsub by by apply map_union_least.
    assert (∀ l, l ∈ t_cells this t ++ t_cells other t0 ↔ is_Some ((theap this t ∪ theap other t0) !! l)) as Hc.
    { intros l. rewrite elem_of_app !theap_dom lookup_union_is_Some //. }
    assert (∀ t' h' m', (tobj this t' ∗ tobj other t0)%I h' →
      h' ##ₘ blk m ∖ (theap this t ∪ theap other t0) →
      blk m' = h' ∪ blk m ∖ (theap this t ∪ theap other t0) →
      t_holds m' this t' ∧ t_holds m' other t0 ∧
      replaces (t_cells this t ++ t_cells other t0) m (t_cells this t' ++ t_cells other t0) m') as Hfin.
    { intros t' h' m' Hl Hd' Hb. apply hprop_sep_eq in Hl as (h1 & h2 & -> & Hd12 & H1 & H2).
      assert (h1 ∪ h2 ⊆ blk m') as Hs12 by (rewrite Hb; apply map_union_subseteq_l).
      assert (h1 ⊆ blk m') as Hs1 by (etrans; [apply map_union_subseteq_l|done]).
      assert (h2 ⊆ blk m') as Hs2 by (etrans; [by apply map_union_subseteq_r|done]).
      split; [by eapply tobj_holds|]. split; [by eapply tobj_holds|].
      eapply owned_replaces; [exact Hsub|exact Hc| |exact Hd'|exact Hb].
      intros l. rewrite elem_of_app (tobj_cells _ _ _ H1) (tobj_cells _ _ _ H2) lookup_union_is_Some //. }
    pose proof (run_exact mT _ _ m (t_assign key comp eqn this other)
      (λ _, ∃ t', ⌞(nodes t').*2 = (nodes t0).*2 ∧ red_black t'⌟ ∗ tobj this t' ∗ tobj other t0)%I
      (λ e, ∃ t', ⌞e = BadAlloc ∧ ∃ j, (nodes t').*2 = take j (nodes t0).*2 ∧ red_black t'⌟ ∗ tobj this t' ∗ tobj other t0)%I
      Hm HE Hsub) as H.
    feed specialize H.
    { iIntros "[H G]". iApply (wp_t_assign key comp Hsw eqn mT eq_refl with "H G"); [done..|]. iSplit.
      - iIntros (t' j (_ & [_ Hg] & Hz)) "H G". iExists t'. iFrame. iPureIntro. split; [done|]. by exists j.
      - iIntros (t' [[_ Hg] Hz]) "H G". iExists t'. by iFrame. }
    destruct (t_assign key comp eqn this other m) as [b m'|e m'| |]; [| |done..].
    - destruct H as (_ & h' & (t' & [[Hz Hg] Hl]%pure_sep_inv) & Hd' & Hb). exists t'. split; [done|]. split; [done|].
      by eapply Hfin.
    - destruct H as (_ & h' & (t' & [[-> (j & Hz & Hg)] Hl]%pure_sep_inv) & Hd' & Hb). split; [done|].
      exists t', j. split; [done|]. split; [done|]. by eapply Hfin.
  Qed.
  Lemma c23_self m this t :
    may_fail_alloc m → t_holds m this t →
    ∃ m', t_assign key comp eqn this this m = Ok tt m' ∧ may_fail_alloc m' ∧ t_holds m' this E ∧
      replaces (t_cells this t) m [this] m'.
  Proof.
    intros Hm Hh. apply (t_quiet m this t _ tt E); [done..|]. iIntros "H".
    iApply (wp_t_assign_self with "H"). iIntros "$". done.
  Qed.

  (** ** Rotations *)
  Lemma c31_left m this zs n x c l rn rx rc rl rr :
    may_fail_alloc m → t_holds m this (fill zs (T n x c l (T rn rx rc rl rr))) →
    ∃ m', t_rotate_left (at_pos this zs) m = Ok tt m' ∧ may_fail_alloc m' ∧
      t_holds m' this (fill zs (T rn rx rc (T n x c l rl) rr)) ∧
      (∀ q, q ∉ t_cells this (fill zs (T n x c l (T rn rx rc rl rr))) → blk m' !! q = blk m !! q).
  Proof.
    intros Hm Hh.
    assert (nodes (fill zs (T n x c l (T rn rx rc rl rr))) = nodes (fill zs (T rn rx rc (T n x c l rl) rr))) as En.
    { rewrite !nodes_fill /=. by repeat rewrite -!app_assoc /=. }
    destruct (t_quiet m this (fill zs (T n x c l (T rn rx rc rl rr))) (t_rotate_left (at_pos this zs)) tt
      (fill zs (T rn rx rc (T n x c l rl) rr))) as (m' & H1 & H2 & H3 & H4); [done..| |].
    { rewrite {1}/tobj -(W_fill this zs). iIntros "H". iApply (wp_rotate_left mT with "H"). iIntros "H".
      iSplitR; [done|]. by rewrite (W_fill this zs) /least En. }
    exists m'. split; [done|]. split; [done|]. split; [done|]. intros q Hq.
    specialize (H4 q). rewrite decide_False in H4; [by rewrite decide_False in H4|].
    by rewrite /t_cells -En.
  Qed.
  Lemma c31_right m this zs n x c ln lx lc ll lr r :
    may_fail_alloc m → t_holds m this (fill zs (T n x c (T ln lx lc ll lr) r)) →
    ∃ m', t_rotate_right (at_pos this zs) m = Ok tt m' ∧ may_fail_alloc m' ∧
      t_holds m' this (fill zs (T ln lx lc ll (T n x c lr r))) ∧
      (∀ q, q ∉ t_cells this (fill zs (T n x c (T ln lx lc ll lr) r)) → blk m' !! q = blk m !! q).
  Proof.
    intros Hm Hh.
    assert (nodes (fill zs (T n x c (T ln lx lc ll lr) r)) = nodes (fill zs (T ln lx lc ll (T n x c lr r)))) as En.
    { rewrite !nodes_fill /=. by repeat rewrite -!app_assoc /=. }
    destruct (t_quiet m this (fill zs (T n x c (T ln lx lc ll lr) r)) (t_rotate_right (at_pos this zs)) tt
      (fill zs (T ln lx lc ll (T n x c lr r)))) as (m' & H1 & H2 & H3 & H4); [done..| |].
    { rewrite {1}/tobj -(W_fill this zs). iIntros "H". iApply (wp_rotate_right mT with "H"). iIntros "H".
      iSplitR; [done|]. by rewrite (W_fill this zs) /least En. }
    exists m'. split; [done|]. split; [done|]. split; [done|]. intros q Hq.
    specialize (H4 q). rewrite decide_False in H4; [by rewrite decide_False in H4|].
    by rewrite /t_cells -En.
  Qed.

  (** ** Steps *)
  Lemma height_zs zs t : length zs + height t ≤ height (fill zs t).
  Proof.
    revert t. induction zs as [|[n x c r|n x c l] zs IH]; intros t; simpl; [done|..];
      (etrans; [|apply IH]); simpl; lia.
  Qed.
  Lemma c30_find m this t k fuel :
    may_fail_alloc m → t_holds m this t → red_black t → 2 * Nat.log2 (S (length (nodes t))) < fuel →
    ∃ it m', t_find_loop key comp fuel k (troot t) m = Ok it m' ∧ it = fst <$> search key comp k t.
  Proof.
    intros Hm Hh Hr%red_black_height Hf.
    destruct (t_quiet m this t (t_find_loop key comp fuel k (troot t)) (fst <$> search key comp k t) t)
      as (m' & ? & ? & ? & ?); [done..| |].
    { iIntros "H". iApply (wp_t_find_loop key comp mT fuel this k [] t with "H"); [lia|]. iIntros "$". done. }
    by exists (fst <$> search key comp k t), m'.
  Qed.
  Lemma t_terminates {A} m this t (f : M (tcell X) A) :
    may_fail_alloc m → t_holds m this t → (tobj this t ⊢ wp mT f (λ _, True) (λ _, True)) →
    match f m with Ok _ _ | Exn _ _ => True | UB | Div => False end.
  Proof.
    intros Hm [Hnd Hs]%t_holds_heap Hw.
    pose proof (run_exact mT _ _ m f _ _ (good_may_fail _ Hm) (theap_exact _ _ Hnd) Hs Hw) as H.
    by destruct (f m).
  Qed.
  Lemma c30_insert m this t v fuel :
    may_fail_alloc m → t_holds m this t → red_black t → 2 * Nat.log2 (S (length (nodes t))) < fuel →
    match t_ins key comp fuel this v (PRoot this) None m with Ok _ _ | Exn _ _ => True | UB | Div => False end.
  Proof.
    intros Hm Hh Hr%red_black_height Hf. apply (t_terminates _ _ _ _ Hm Hh).
    iIntros "H". iApply (wp_t_ins_any key comp mT fuel this v [] t with "H"); [lia|].
    destruct (search key comp (key v) t) as [[? ?]|]; auto.
  Qed.
  Lemma c30_next m this zs n x c l r fuel :
    iter_ok comp eqn → may_fail_alloc m →
    t_holds m this (fill zs (T n x c l r)) → red_black (fill zs (T n x c l r)) →
    increasing key comp (nodes (fill zs (T n x c l r))).*2 →
    2 * Nat.log2 (S (length (nodes (fill zs (T n x c l r))))) < fuel →
    (∃ m', t_climb key eqn fuel n (parent zs) m = Ok (fst <$> head (rights zs)) m') ∧
    (∃ q m', t_down fuel n m = Ok q m' ∧ least (T n x c l r) = Some q).
  Proof using Hsw.
    intros Hit Hm Hh Hr%red_black_height Hi Hf.
    pose proof (height_zs zs (T n x c l r)) as Hz.
    assert (same_ok key eqn (fill zs (T n x c l r))) as Hsame.
    { apply (same_ok_good key comp Hsw eqn); [done..|]. by destruct Hh as [[_ ?]%NoDup_cons _]. }
    split.
    - destruct (t_quiet m this _ (t_climb key eqn fuel n (parent zs)) (fst <$> head (rights zs)) (fill zs (T n x c l r)) Hm Hh)
        as (m' & ? & _); [|by exists m'].
      rewrite {1}/tobj -(W_fill this zs). iIntros "H". iApply (wp_t_climb key eqn mT with "H"); [lia|done|].
      rewrite W_fill. iIntros "$". done.
    - assert (∃ q, least (T n x c l r) = Some q) as [q Eq].
      { rewrite /least /=. destruct (nodes l); eauto. }
      destruct (t_quiet m this _ (t_down fuel n) q (fill zs (T n x c l r)) Hm Hh)
        as (m' & ? & _); [|by exists q, m'].
      rewrite {1}/tobj -(W_fill this zs). iIntros "H". iApply (wp_t_down mT with "H"); [lia|].
      iIntros (q' Hq) "H". rewrite W_fill. iFrame. rewrite Hq in Eq. by simplify_eq.
  Qed.

  (** ** A throwing element copy *)
  Lemma c35_raw m this v ao co :
    mem_wf m → t_holds m this (E (X:=X)) → aorc m = ao → head ao ≠ Some true → corc m = true :: co →
    ∃ m', t_insert key comp this v m = Exn CopyThrow m' ∧
      blk m' = <[this := THead (Some (nxt m)) None 0]> (<[nxt m := TRaw]> (blk m)) ∧
      t_dtor this m' = UB ∧ ∀ w, t_insert key comp this w m' = UB.
  Proof.
    intros Hwf (_ & Ht & _) Ha Hh Hc. simpl in Ht.
    assert (this ≠ nxt m) as Hne.
    { intros ->. specialize (Hwf (nxt m)). rewrite Ht in Hwf. specialize (Hwf ltac:(eauto)). lia. }
    assert (∀ c : tcell X, alloc c m = Ok (nxt m) (Mem (<[nxt m := c]> (blk m)) (Pos.succ (nxt m))
      (tail ao) (corc m))) as Eal.
    { intros c. unfold alloc. rewrite Ha. by destruct ao as [|[] ?]. }
    set (m' := Mem (<[this := THead (Some (nxt m)) None 0]> (<[nxt m := TRaw]> (blk m))) (Pos.succ (nxt m)) (tail ao) co).
    assert (load this m' = Ok (THead (Some (nxt m)) None 0) m') as L1.
    { by rewrite /load /= lookup_insert. }
    assert (load (nxt m) m' = Ok TRaw m') as L2.
    { by rewrite /load /= lookup_insert_ne // lookup_insert. }
    set (m1 := Mem (<[nxt m := TRaw]> (blk m)) (Pos.succ (nxt m)) (tail ao) (corc m)) in *.
    set (m2 := Mem (<[this := THead (Some (nxt m)) None 0]> (<[nxt m := TRaw]> (blk m))) (Pos.succ (nxt m)) (tail ao) (corc m)).
    assert (load this m = Ok (THead None None 0) m) as L3 by by rewrite /load Ht.
    assert (load this m1 = Ok (THead None None 0) m1) as L4 by by rewrite /load /= lookup_insert_ne // Ht.
    assert (store this (THead (Some (nxt m)) None 0) m1 = Ok tt m2) as L5 by by rewrite /store /= lookup_insert_ne // Ht.
    assert (load (nxt m) m2 = Ok TRaw m2) as L6 by by rewrite /load /= lookup_insert_ne // lookup_insert.
    assert (may_throw m2 = Exn CopyThrow m') as L7 by by rewrite /may_throw /= Hc.
    exists m'. split; [|split; [done|split]].
    - unfold t_insert, with_fuel, bind at 1. cbn [t_ins]. unfold rd. unfold bind. rewrite L3. cbn.
      unfold t_attach, bind. rewrite Eal. unfold wr, bind. rewrite L4 L5. unfold t_construct, bind. by rewrite L6 L7.
    - unfold t_dtor, t_clear, bind at 1 2. unfold rd, bind at 1. rewrite L1. unfold ret, with_fuel, bind at 1.
      cbn [t_dd]. unfold rd, bind. by rewrite L2.
    - intros w. unfold t_insert, with_fuel, bind at 1. cbn [t_ins]. unfold rd. unfold bind at 1 2. rewrite L1.
      unfold ret, t_elem, bind. by rewrite L2.
  Qed.

  (** ** A failing allocation *)
  Lemma t_ins_throws fuel m this v pl p t o :
    rd pl m = Ok (troot t) m → t_below m p t → aorc m = true :: o → search key comp (key v) t = None →
    (∃ m', t_ins key comp fuel this v pl p m = Exn BadAlloc m') ∨ t_ins key comp fuel this v pl p m = Div.
  Proof using.
    intros Hrd Hb Ho. revert m pl p t Hrd Hb Ho. induction fuel as [|fuel IH]; intros m pl p t Hrd Hb Ho Hs; [by right|].
    cut (∀ r, t_ins key comp (S fuel) this v pl p m = r → (∃ m', r = Exn BadAlloc m') ∨ r = Div).
    { intros H. by apply H. }
    intros res. cbn [t_ins]. unfold bind at 1. rewrite Hrd. destruct t as [|n x c l r]; cbn [troot].
    - unfold t_attach, bind at 1, alloc. rewrite Ho. intros <-. left. by eexists.
    - destruct Hb as (Hn & Hl & Hr). cbn [search] in Hs.
      assert (load n m = Ok (TNode (Some x) (troot l) (troot r) p c) m) as Ln by by rewrite /load Hn.
      assert (t_elem n m = Ok x m) as L0 by by rewrite /t_elem /bind Ln.
      assert (rd (PL n) m = Ok (troot l) m) as L1 by by rewrite /rd /bind Ln.
      assert (rd (PR n) m = Ok (troot r) m) as L2 by by rewrite /rd /bind Ln.
      unfold bind. rewrite L0. destruct (comp (key v) (key x)); [|destruct (comp (key x) (key v)); [|done]].
      + destruct (IH m (PL n) (Some n) l L1 Hl Ho Hs) as [[m' ->]| ->]; intros <-; [left; by eexists|by right].
      + destruct (IH m (PR n) (Some n) r L2 Hr Ho Hs) as [[m' ->]| ->]; intros <-; [left; by eexists|by right].
  Qed.
  Lemma c34_throws m this t v o :
    may_fail_alloc m → t_holds m this t → increasing key comp (nodes t).*2 → red_black t →
    aorc m = true :: o → lookup_key key comp (key v) (nodes t).*2 = None →
    ∃ m', t_insert key comp this v m = Exn BadAlloc m'.
  Proof using Hsw.
    intros Hm Hh Hi Hr Ho Hl.
    pose proof (c32_insert m this t v Hm Hh Hi Hr) as Ht.
    assert (rd (PRoot this) m = Ok (troot t) m) as L by (destruct Hh as (_ & Hh & _); by rewrite /rd /bind /load Hh).
    destruct (t_ins_throws (S (size (blk m))) m this v (PRoot this) None t o) as [[m' E]|E]; [done|by apply Hh|done|..].
    - apply (search_lookup _ _ Hsw) with (k:=key v) in Hi. rewrite Hl in Hi. by destruct (search _ _ _ t).
    - exists m'. unfold t_insert, bind at 1, with_fuel. by rewrite E.
    - exfalso. unfold t_insert, bind at 1, with_fuel in Ht. by rewrite E in Ht.
  Qed.

  Lemma c30_find' m this t k fuel :
    may_fail_alloc m → t_holds m this t → red_black t → increasing key comp (nodes t).*2 →
    2 * Nat.log2 (S (length (nodes t))) < fuel →
    ∃ it m', t_find_loop key comp fuel k (troot t) m = Ok it m' ∧
      match it with
      | None => lookup_key key comp k (nodes t).*2 = None
      | Some n => ∃ x, (n, x) ∈ nodes t ∧ lookup_key key comp k (nodes t).*2 = Some x
      end.
  Proof using Hsw.
    intros Hm Hh Hr Hi Hf. destruct (c30_find m this t k fuel Hm Hh Hr Hf) as (it & m' & E & ->).
    eexists _, m'. split; [exact E|]. rewrite -(search_lookup _ _ Hsw) //.
    destruct (search key comp k t) as [[n x]|] eqn:Es; [|done]. exists x. split; [|done].
    by apply search_in in Es as [? _].
  Qed.
  Lemma c30_next' m this zs n x c l r fuel :
    iter_ok comp eqn → may_fail_alloc m →
    t_holds m this (fill zs (T n x c l r)) → red_black (fill zs (T n x c l r)) →
    increasing key comp (nodes (fill zs (T n x c l r))).*2 →
    2 * Nat.log2 (S (length (nodes (fill zs (T n x c l r))))) < fuel →
    (∃ m' a b, t_climb key eqn fuel n (parent zs) m = Ok (fst <$> head b) m' ∧
       nodes (fill zs (T n x c l r)) = a ++ nodes (T n x c l r) ++ b) ∧
    (∃ q m', t_down fuel n m = Ok q m' ∧ least (T n x c l r) = Some q).
  Proof using Hsw.
    intros Hit Hm Hh Hr Hi Hf. destruct (c30_next m this zs n x c l r fuel Hit Hm Hh Hr Hi Hf) as [(m' & E) ?].
    split; [|done]. exists m', (lefts zs), (rights zs). split; [done|]. apply nodes_fill.
  Qed.
End props.

Lemma rotation_nodes {X} zs n (x : X) c l rn rx rc rl rr :
  nodes (fill zs (T n x c l (T rn rx rc rl rr))) = nodes (fill zs (T rn rx rc (T n x c l rl) rr)).
Proof. rewrite !nodes_fill /=. by rewrite -?app_assoc /= -?app_assoc. Qed.

Lemma c36_stops {K V} (eqk : K → K → bool) (m : mem (tcell (K * V))) this na nb nc ca cb cc a b c x y z :
  t_holds m this (T nb (b, y) cb (T na (a, x) ca E E) (T nc (c, z) cc E E)) → eqk a c = true →
  t_size this m = Ok 3 m ∧ t_iterate fst (Some eqk) this m = Ok [(a, x)] m.
Proof.
  intros (Hd & Ht & Hb & (Ha & _) & (Hc & _)) He. cbn in Ht.
  assert (load this m = Ok (THead (Some nb) (Some na) 3) m) as L by by rewrite /load Ht.
  assert (load nb m = Ok (TNode (Some (b, y)) (Some na) (Some nc) None cb) m) as Lb by by rewrite /load Hb.
  assert (load na m = Ok (TNode (Some (a, x)) None None (Some nb) ca) m) as La by by rewrite /load Ha.
  assert (load nc m = Ok (TNode (Some (c, z)) None None (Some nb) cc) m) as Lc by by rewrite /load Hc.
  split; [by rewrite /t_size /bind L|].
  assert (∃ f, size (blk m) = S (S f)) as [f Ef].
  { assert (2 ≤ size (blk m)) as Hs; [|by destruct (size (blk m)) as [|[|f]]; [lia..|exists f]].
    rewrite -size_dom. trans (size ({[na; nb]} : gset loc)).
    - rewrite size_union; [|cbn in Hd; set_solver]. by rewrite !size_singleton.
    - apply subseteq_size. intros l Hl. apply elem_of_dom.
      by apply elem_of_union in Hl as [->%elem_of_singleton| ->%elem_of_singleton]; eexists. }
  unfold t_iterate, t_begin, t_bgn, bind at 1 2. rewrite L. unfold ret, with_fuel. rewrite Ef.
  assert (t_value (Some na) m = Ok (a, x) m) as E1 by by rewrite /t_value /node /t_elem /bind /ret La.
  assert (t_succ fst (Some eqk) (Some na) m = Ok None m) as E2.
  { assert (rd (PR na) m = Ok None m) as R1 by by rewrite /rd /bind La.
    assert (rd (PP na) m = Ok (Some nb) m) as R2 by by rewrite /rd /bind La.
    assert (rd (PR nb) m = Ok (Some nc) m) as R3 by by rewrite /rd /bind Lb.
    assert (rd (PP nb) m = Ok None m) as R4 by by rewrite /rd /bind Lb.
    assert (t_same fst (Some eqk) na nc m = Ok true m) as R5.
    { unfold t_same, t_elem, bind. rewrite La. unfold ret. rewrite Lc. by rewrite /= He. }
    unfold t_succ, node, ret, bind. rewrite R1 R2. unfold with_fuel. rewrite Ef.
    cbn [t_climb]. unfold bind. by rewrite R3 R5 R4. }
  change (t_walk fst (Some eqk) (S (S (S f))) (Some na) m) with
    ((x <- t_value (Some na) ;; it <- t_succ fst (Some eqk) (Some na) ;;
      xs <- t_walk fst (Some eqk) (S (S f)) it ;; ret (x :: xs)) m).
  unfold bind. by rewrite E1 E2.
Qed.
