(** Inserting elements whose copies throw. *)
From iris.proofmode Require Import tactics.
From Verif Require Import SLTac Hist HistGen MemRun NoCopy ModelTree SpecTree TreeFacts TreeProofs TreeMem TreeProps.

Section outcome.
  Context {X K : Type} (key : X → K) (comp : K → K → bool) (Hsw : strict_weak comp).
  Implicit Types (t l r : tree X) (zs : list (frame X)) (m : mem (tcell X)).
  Local Notation search := (search key comp).
  Local Notation descend := (descend key comp).
  Local Notation mX := (Mode true true).

  Lemma descend_fill k t zs : search k t = None → fill (descend k t zs) E = fill zs t.
  Proof.
    revert zs. induction t as [|n x c l IHl r IHr]; intros zs; [done|]. cbn [TreeFacts.search TreeProofs.descend].
    destruct (comp k (key x)); [intros H; by rewrite IHl|]. destruct (comp (key x) k); [intros H; by rewrite IHr|done].
  Qed.
  Lemma descend_belongs k t zs : belongs key comp k zs → belongs key comp k (descend k t zs).
  Proof.
    revert zs. induction t as [|n x c l IHl r IHr]; intros zs Hz; [done|]. cbn [TreeProofs.descend].
    destruct (comp k (key x)) eqn:E1; [apply IHl; by constructor|].
    destruct (comp (key x) k) eqn:E2; [apply IHr; by constructor|done].
  Qed.

  (** the heap of a torn tree *)
  Definition rawheap (this : loc) zs (n : loc) v b k : gmap loc (tcell X) :=
    <[n := TRaw]> (<[this := THead (troot (fill zs (T n v Red E E))) b k]> (bheap None (fill zs (T n v Red E E)))).
  Lemma torn_heap this zs n v b k h :
    (zctx this zs (Some n) b k ∗ n ↦ TRaw)%I h →
    NoDup (t_cells this (fill zs (T n v Red E E))) ∧ h = rawheap this zs n v b k.
  Proof using.
    intros (h1 & h2 & -> & Hd & H1 & ->%pt_eq)%hprop_sep_eq.
    apply map_disjoint_singleton_r in Hd as Hn.
    assert (W this [] (fill zs (T n v Red E E)) b k (h1 ∪ {[n := TNode (Some v) None None (parent zs) Red]})) as HW.
    { apply (proj1 (hprop_entails_eq _ _) (proj1 (proj1 (bi.equiv_entails _ _) (W_fill this zs (T n v Red E E) b k)))).
      apply hprop_sep_eq. exists h1, {[n := TNode (Some v) None None (parent zs) Red]}. split; [done|].
      split; [by apply map_disjoint_singleton_r|]. split; [done|].
      apply hprop_sep_eq. exists {[n := TNode (Some v) None None (parent zs) Red]}, ∅. rewrite right_id_L. split; [done|].
      split; [apply map_disjoint_empty_r|]. split; [by apply pt_eq|].
      apply hprop_sep_eq. exists ∅, ∅. rewrite right_id_L. split; [done|].
      split; [apply map_disjoint_empty_r|]. split; by apply hprop_emp_eq. }
    pose proof (proj1 (hprop_entails_eq _ _) (W_nodup this _ _ _) _ HW) as Hnd.
    split; [done|].
    assert (h1 ∪ {[n := TNode (Some v) None None (parent zs) Red]} =
      <[this := THead (troot (fill zs (T n v Red E E))) b k]> (bheap None (fill zs (T n v Red E E)))) as Hh.
    { rewrite insert_union_singleton_l. apply NoDup_cons in Hnd as [Hnt Hnd].
      refine (proj1 (exact_sep _ _ _ _ (exact_pt _ _) (bheap_exact None _ Hnd) _ _) HW).
      apply map_disjoint_singleton_l, eq_None_not_Some. by rewrite bheap_dom. }
    unfold rawheap. by rewrite -Hh insert_union_r // insert_singleton.
  Qed.
  Lemma in_fill zs n v : n ∈ (nodes (fill zs (T n v Red E E))).*1.
  Proof using. clear Hsw comp key. rewrite nodes_fill !fmap_app /=. set_solver. Qed.
  Lemma rawheap_dom this zs n v b k q :
    is_Some (rawheap this zs n v b k !! q) ↔ q ∈ t_cells this (fill zs (T n v Red E E)).
  Proof.
    unfold rawheap, t_cells. rewrite !lookup_insert_is_Some' bheap_dom elem_of_cons. pose proof (in_fill zs n v). naive_solver.
  Qed.
  Lemma below_raw m m' n p t : t_below m p t → blk m' = <[n := TRaw]> (blk m) → t_below_raw m' n p t.
  Proof.
    intros Hb Hm. revert p Hb. induction t as [|q x c l IHl r IHr]; intros p; [done|].
    intros (H1 & H2 & H3). cbn [t_below_raw]. split; [|by split; [apply IHl|apply IHr]].
    rewrite Hm. case_decide as E; [subst; by rewrite lookup_insert|by rewrite lookup_insert_ne].
  Qed.
  Lemma rawheap_torn m this zs n v :
    NoDup (t_cells this (fill zs (T n v Red E E))) →
    rawheap this zs n v (least (fill zs E)) (length (nodes (fill zs E))) ⊆ blk m → t_torn m this zs n v.
  Proof.
    intros Hnd Hs. split; [done|]. pose proof Hnd as [Hnt Hnd']%NoDup_cons.
    assert (this ≠ n) as Hne by (intros ->; by apply Hnt, in_fill). split.
    - eapply lookup_weaken; [|exact Hs]. unfold rawheap. by rewrite lookup_insert_ne // lookup_insert.
    - set (tt := fill zs (T n v Red E E)) in *.
      apply (below_raw (Mem (<[n := default TRaw (bheap None tt !! n)]> (blk m)) xH [] [])).
      + apply below_heap; [done|]. apply map_subseteq_spec. intros q c Hq. simpl.
        destruct (decide (q = n)) as [->|Hqn]; [by rewrite lookup_insert Hq|].
        rewrite lookup_insert_ne //. eapply lookup_weaken; [|exact Hs]. unfold rawheap.
        rewrite lookup_insert_ne // lookup_insert_ne //. intros <-. apply Hnt, bheap_dom with (p:=None). eauto.
      + simpl. rewrite insert_insert insert_id //. eapply lookup_weaken; [|exact Hs]. apply lookup_insert.
  Qed.
  Lemma cells_fill this zs n v q :
    q ∈ t_cells this (fill zs (T n v Red E E)) ↔ q ∈ n :: t_cells this (fill zs E).
  Proof. unfold t_cells. rewrite !elem_of_cons !nodes_fill !fmap_app /= !elem_of_app. set_solver. Qed.

  Lemma c120_outcome m this t v :
    mem_wf m → t_holds m this t → increasing key comp (nodes t).*2 → red_black t →
    insert_outcome_any key comp m this t v (t_insert key comp this v m).
  Proof using Hsw.
    intros Hm Hh Hi Hr. pose proof Hh as [Hnd Hs]%t_holds_heap.
    assert (tobj this t ⊢ wp mX (t_insert key comp this v)
      (λ rr : loc * bool, match search (key v) t with
            | Some (q, _) => ⌞rr = (q, false)⌟ ∗ tobj this t
            | None => ∃ n, ⌞rr = (n, true)⌟ ∗ tobj this (insert_t key comp n v t)
            end)
      (λ e, ⌞search (key v) t = None⌟ ∗
            ((⌞e = BadAlloc⌟ ∗ tobj this t) ∨
             ∃ n, ⌞e = CopyThrow⌟ ∗ zctx this (descend (key v) t []) (Some n) (least t) (length (nodes t)) ∗ n ↦ TRaw)))%I as Hw.
    { iIntros "H". iApply (wp_t_insert_any key comp Hsw mX with "H"); [done|].
      destruct (search (key v) t) as [[q y]|] eqn:Es; [by iIntros "$"|]. iSplit; [|iSplit].
      - iIntros (_) "H". iSplit; [done|]. iLeft. by iFrame.
      - iIntros (_ n) "H G". iSplit; [done|]. iRight. iExists n. by iFrame.
      - iIntros (n) "H". iExists n. by iFrame. }
    assert (good mX m) as Hg by (split; [done|by split]).
    pose proof (run_exact _ _ _ _ _ _ _ Hg (theap_exact _ _ Hnd) Hs Hw) as H.
    destruct (t_insert key comp this v m) as [[q a] m'|e m'| |]; [| |done..].
    - destruct H as (_ & h' & HQ & Hd & Hb). destruct (search (key v) t) as [[q' y]|] eqn:Es.
      + apply pure_sep_inv in HQ as [[= -> ->] HQ]. apply (theap_exact _ _ Hnd) in HQ as ->. split.
        * by rewrite Hb map_difference_union.
        * exists y. by apply (search_in key comp).
      + destruct HQ as [n HQ]. apply pure_sep_inv in HQ as [[= -> ->] HQ].
        split; [by rewrite -(search_lookup key comp Hsw) // Es|].
        destruct (insert_good key comp Hsw n v t (conj Hi Hr) Es) as [H1 H2].
        destruct (ins_split key comp Hsw n v t Hi Es) as (a & b & Ha & Hb' & _).
        eexists _, a, b. split; [done|]. split; [by rewrite -Hb' -(paint_nodes (ins_t key comp n v t))|].
        split; [done|]. split; [done|]. split.
        * eapply tobj_holds; [done|]. rewrite Hb. apply map_union_subseteq_l.
        * eapply owned_replaces; [exact Hs|apply theap_dom|by apply tobj_cells|done|done].
    - destruct H as (_ & h' & HQ & Hd & Hb). apply pure_sep_inv in HQ as [Es HQ].
      assert (lookup_key key comp (key v) (nodes t).*2 = None) as Hl.
      { by rewrite -(search_lookup key comp Hsw) // Es. }
      destruct HQ as [HQ|[n HQ]]; apply pure_sep_inv in HQ as [-> HQ].
      + apply (theap_exact _ _ Hnd) in HQ as ->. split; [done|]. by rewrite Hb map_difference_union.
      + split; [done|]. exists (descend (key v) t []), n. pose proof (descend_fill (key v) t [] Es) as Hf.
        apply (torn_heap _ _ _ v) in HQ as [Hnd' ->]. split; [done|]. split; [apply descend_belongs; constructor|].
        change (fill [] t) with t in Hf. split.
        * apply rawheap_torn; [done|]. rewrite Hb Hf. apply map_union_subseteq_l.
        * eapply owned_replaces; [exact Hs|apply theap_dom| |done|done].
          intros q. by rewrite rawheap_dom cells_fill Hf.
  Qed.
End outcome.

(** ** What can be done with a torn tree *)
Section leaves.
  Context {X : Type}.
  Implicit Types (t l r : tree X) (zs : list (frame X)) (m : mem (tcell X)).

  Lemma t_bind_ok {A B} (f : M (tcell X) A) (k : A → M (tcell X) B) m a m' : f m = Ok a m' → bind f k m = k a m'.
  Proof. intros H. unfold bind. by rewrite H. Qed.
  Lemma t_bind_ub {A B} (f : M (tcell X) A) (k : A → M (tcell X) B) m : f m = UB → bind f k m = UB.
  Proof. intros H. unfold bind. by rewrite H. Qed.
  Lemma t_load_ok q (c : tcell X) m : blk m !! q = Some c → load q m = Ok c m.
  Proof. intros H. unfold load. by rewrite H. Qed.
  Section node.
    Context m q (x : X) (a b p : option loc) c (H : blk m !! q = Some (TNode (Some x) a b p c)).
    Lemma rd_l : rd (PL q) m = Ok a m. Proof using H. unfold rd. by rewrite (t_bind_ok _ _ _ _ _ (t_load_ok _ _ _ H)). Qed.
    Lemma rd_r : rd (PR q) m = Ok b m. Proof using H. unfold rd. by rewrite (t_bind_ok _ _ _ _ _ (t_load_ok _ _ _ H)). Qed.
    Lemma rd_x : t_elem q m = Ok x m. Proof using H. unfold t_elem. by rewrite (t_bind_ok _ _ _ _ _ (t_load_ok _ _ _ H)). Qed.
  End node.
  Section raw.
    Context m q (H : blk m !! q = Some (TRaw (X:=X))).
    Lemma raw_l : rd (PL q) m = UB. Proof using H. unfold rd. by rewrite (t_bind_ok _ _ _ _ _ (t_load_ok _ _ _ H)). Qed.
    Lemma raw_x : t_elem q m = UB. Proof using H. unfold t_elem. by rewrite (t_bind_ok _ _ _ _ _ (t_load_ok _ _ _ H)). Qed.
  End raw.

  Lemma below_eq m m' p t : t_below m p t → (∀ q, q ∈ (nodes t).*1 → blk m' !! q = blk m !! q) → t_below m' p t.
  Proof.
    revert p. induction t as [|q x c l IHl r IHr]; intros p; [done|]. intros (H1 & H2 & H3) Hq.
    cbn [nodes] in Hq. rewrite fmap_app fmap_cons in Hq. cbn [t_below]. split; [|split].
    - rewrite Hq //. set_solver.
    - apply IHl; [done|]. intros q' ?. apply Hq. set_solver.
    - apply IHr; [done|]. intros q' ?. apply Hq. set_solver.
  Qed.
  Lemma raw_eq m m' n p t : t_below_raw m n p t → (∀ q, q ∈ (nodes t).*1 → blk m' !! q = blk m !! q) → t_below_raw m' n p t.
  Proof.
    revert p. induction t as [|q x c l IHl r IHr]; intros p; [done|]. intros (H1 & H2 & H3) Hq.
    cbn [nodes] in Hq. rewrite fmap_app fmap_cons in Hq. cbn [t_below_raw]. split; [|split].
    - rewrite Hq //. set_solver.
    - apply IHl; [done|]. intros q' ?. apply Hq. set_solver.
    - apply IHr; [done|]. intros q' ?. apply Hq. set_solver.
  Qed.
  Lemma raw_below m n p t : t_below_raw m n p t → n ∉ (nodes t).*1 → t_below m p t.
  Proof.
    revert p. induction t as [|q x c l IHl r IHr]; intros p; [done|]. intros (H1 & H2 & H3) Hq.
    cbn [nodes] in Hq. rewrite fmap_app fmap_cons in Hq. cbn [t_below]. split; [|split].
    - rewrite H1. case_decide; [set_solver|done].
    - apply IHl; [done|]. set_solver.
    - apply IHr; [done|]. set_solver.
  Qed.

  (** *** clear *)
  Lemma dd_below fuel m p t : height t < fuel → NoDup (nodes t).*1 → t_below m p t →
    ∃ m', t_dd fuel (troot t) m = Ok tt m' ∧ ∀ q, q ∉ (nodes t).*1 → blk m' !! q = blk m !! q.
  Proof.
    revert m p t. induction fuel as [|fuel IH]; intros m p t Hf; [lia|].
    destruct t as [|n x c l r]; cbn [troot t_dd]; [intros _ _; by exists m|].
    intros (H1 & H2 & H3 & H4 & H5)%nodes_nodup (Hn & Hl & Hr). cbn [height] in Hf.
    rewrite (t_bind_ok _ _ _ _ _ (rd_l _ _ _ _ _ _ _ Hn)).
    destruct (IH m (Some n) l) as (m1 & E1 & F1); [lia|done..|]. rewrite (t_bind_ok _ _ _ _ _ E1).
    assert (blk m1 !! n = Some (TNode (Some x) (troot l) (troot r) p c)) as Hn1 by by rewrite F1.
    rewrite (t_bind_ok _ _ _ _ _ (rd_r _ _ _ _ _ _ _ Hn1)).
    destruct (IH m1 (Some n) r) as (m2 & E2 & F2); [lia|done| |].
    { apply (below_eq m); [done|]. intros q Hq. apply F1. intros Hq'. by apply (H5 q). }
    rewrite (t_bind_ok _ _ _ _ _ E2).
    assert (blk m2 !! n = Some (TNode (Some x) (troot l) (troot r) p c)) as Hn2 by by rewrite F2.
    erewrite t_bind_ok; [|unfold t_destroy; rewrite (t_bind_ok _ _ _ _ _ (t_load_ok _ _ _ Hn2)); unfold store; by rewrite Hn2].
    unfold t_dealloc. erewrite t_bind_ok; [|apply t_load_ok; simpl; apply lookup_insert].
    unfold free. cbn [blk]. rewrite lookup_insert. eexists. split; [done|]. intros q Hq. cbn [nodes] in Hq.
    rewrite fmap_app fmap_cons in Hq. cbn [blk].
    rewrite lookup_delete_ne; [|set_solver]. rewrite lookup_insert_ne; [|set_solver].
    rewrite F2; [|set_solver]. apply F1. set_solver.
  Qed.
  Lemma dd_raw fuel m n p t : height t < fuel → NoDup (nodes t).*1 → n ∈ (nodes t).*1 → t_below_raw m n p t →
    t_dd fuel (troot t) m = UB.
  Proof.
    revert m p t. induction fuel as [|fuel IH]; intros m p t Hf; [lia|].
    destruct t as [|q x c l r]; cbn [troot t_dd]; [by intros _ ?%elem_of_nil|].
    intros (H1 & H2 & H3 & H4 & H5)%nodes_nodup Hin (Hq & Hl & Hr). cbn [height] in Hf.
    case_decide as Eq; [by rewrite (t_bind_ub _ _ _ (raw_l _ _ Hq))|].
    rewrite (t_bind_ok _ _ _ _ _ (rd_l _ _ _ _ _ _ _ Hq)).
    cbn [nodes] in Hin. rewrite fmap_app fmap_cons elem_of_app elem_of_cons in Hin.
    destruct (decide (n ∈ (nodes l).*1)) as [Hnl|Hnl].
    { apply t_bind_ub. apply (IH m (Some q)); [lia|done..]. }
    destruct Hin as [?|[?|Hnr]]; [done|done|].
    destruct (dd_below fuel m (Some q) l) as (m1 & E1 & F1); [lia|done|by eapply raw_below|].
    rewrite (t_bind_ok _ _ _ _ _ E1).
    assert (blk m1 !! q = Some (TNode (Some x) (troot l) (troot r) p c)) as Hq1 by by rewrite F1.
    rewrite (t_bind_ok _ _ _ _ _ (rd_r _ _ _ _ _ _ _ Hq1)). apply t_bind_ub.
    apply (IH m1 (Some q)); [lia|done|done|]. apply (raw_eq m); [done|]. intros q' Hq'. apply F1. intros ?. by apply (H5 q').
  Qed.

  Lemma nodup_size {A} (h : gmap loc A) (ls : list loc) : NoDup ls → (∀ q, q ∈ ls → is_Some (h !! q)) → length ls ≤ size h.
  Proof.
    intros Hnd Hs. rewrite -size_dom -(size_list_to_set (C:=gset loc) ls) //. apply subseteq_size.
    intros q Hq%elem_of_list_to_set. by apply elem_of_dom, Hs.
  Qed.

  Lemma raw_dom m n p t q : t_below_raw m n p t → q ∈ (nodes t).*1 → is_Some (blk m !! q).
  Proof.
    revert p. induction t as [|q' x c l IHl r IHr]; intros p; [by intros _ ?%elem_of_nil|].
    intros (H1 & H2 & H3). cbn [nodes]. rewrite fmap_app fmap_cons elem_of_app elem_of_cons.
    intros [Hq|[->|Hq]]; [by eapply IHl|eauto|by eapply IHr].
  Qed.
  Lemma torn_fuel m this zs n v : t_torn m this zs n v → height (fill zs (T n v Red E E)) < S (size (blk m)).
  Proof.
    intros (Hnd & Hh & Hb). pose proof (height_nodes (fill zs (T n v Red E E))).
    enough (length (t_cells this (fill zs (T n v Red E E))) ≤ size (blk m)) as Hl.
    { unfold t_cells in Hl. simpl in Hl. rewrite fmap_length in Hl. lia. }
    apply nodup_size; [done|]. intros q [->|Hq]%elem_of_cons; [eauto|by eapply raw_dom].
  Qed.
  Lemma torn_root m this zs n v : t_torn m this zs n v → rd (PRoot this) m = Ok (troot (fill zs (T n v Red E E))) m.
  Proof. intros (_ & Hh & _). unfold rd. by rewrite (t_bind_ok _ _ _ _ _ (t_load_ok _ _ _ Hh)). Qed.
  Lemma torn_size m this zs n v : t_torn m this zs n v → t_size this m = Ok (length (nodes (fill zs E))) m.
  Proof. intros (_ & Hh & _). unfold t_size. by rewrite (t_bind_ok _ _ _ _ _ (t_load_ok _ _ _ Hh)). Qed.
  Lemma torn_begin m this zs n v : t_torn m this zs n v → t_begin this m = Ok (fst <$> head (nodes (fill zs E))) m.
  Proof. intros (_ & Hh & _). unfold t_begin, t_bgn. by rewrite (t_bind_ok _ _ _ _ _ (t_load_ok _ _ _ Hh)). Qed.
  Lemma torn_clear m this zs n v : t_torn m this zs n v → t_clear this m = UB.
  Proof.
    intros Ht. unfold t_clear. rewrite (t_bind_ok _ _ _ _ _ (torn_root _ _ _ _ _ Ht)). apply t_bind_ub.
    unfold with_fuel. pose proof Ht as ([_ Hnd]%NoDup_cons & _ & Hb).
    eapply (dd_raw _ _ n); [by eapply torn_fuel|done|apply in_fill|done].
  Qed.
  Lemma torn_dtor m this zs n v : t_torn m this zs n v → t_dtor this m = UB.
  Proof. intros Ht. apply t_bind_ub. by eapply torn_clear. Qed.

  (** *** operator++ *)
  Lemma down_raw fuel m n p t q : height t < fuel → least t = Some n → t_below_raw m n p t → troot t = Some q →
    t_down fuel q m = UB.
  Proof.
    revert p t q. induction fuel as [|fuel IH]; intros p t q Hf Hl Hb Hq; [lia|].
    destruct t as [|q' x c l r]; [done|]. simpl in Hq. simplify_eq. destruct Hb as (Hb & Hbl & _). cbn [t_down].
    case_decide as E; [by rewrite (t_bind_ub _ _ _ (raw_l _ _ Hb))|].
    rewrite (t_bind_ok _ _ _ _ _ (rd_l _ _ _ _ _ _ _ Hb)). simpl in Hf.
    destruct l as [|ln lx lc ll lr]; [by unfold least in Hl; simpl in Hl; simplify_eq|].
    cbn [troot]. apply (IH (Some q) (T ln lx lc ll lr)); [lia| |done|done].
    revert Hl. unfold least. cbn [nodes]. by destruct (nodes ll).
  Qed.
  Lemma fill_raw m n p zs t : t_below_raw m n p (fill zs t) → ∃ p', t_below_raw m n p' t.
  Proof.
    revert t. induction zs as [|[q x c r|q x c l] zs IH]; intros t Hb; [by exists p|..];
      apply IH in Hb as (p' & _ & H1 & H2); eauto.
  Qed.
  Lemma height_le zs t : height t ≤ height (fill zs t).
  Proof.
    revert t. induction zs as [|[q x c r|q x c l] zs IH]; intros t; [done|..]; (etrans; [|apply IH]); simpl; lia.
  Qed.
  Lemma pred_raw m n p zs t a q x :
    t_below_raw m n p (fill zs t) → least t = Some n → lefts zs = a ++ [(q, x)] →
    ∃ c l t2 p', t_below_raw m n p' (T q x c l t2) ∧ least t2 = Some n ∧ height t2 ≤ height (fill zs t).
  Proof.
    revert t. induction zs as [|[q' x' c r|q' x' c l] zs IH]; intros t Hb Hl; simpl.
    - by intros ?%app_cons_not_nil.
    - apply IH; [done|]. revert Hl. unfold least. simpl. by destruct (nodes t).
    - rewrite app_assoc. intros [_ [= -> ->]]%app_inj_2; [|done].
      destruct (fill_raw _ _ _ zs _ Hb) as [p' Hb']. exists c, l, t, p'. split; [done|]. split; [done|].
      etrans; [|apply (height_le zs)]. simpl. lia.
  Qed.
End leaves.

Section ordered.
  Context {X K : Type} (key : X → K) (comp : K → K → bool) (Hsw : strict_weak comp).
  Context (eqn : option (K → K → bool)).
  Implicit Types (t l r : tree X) (zs : list (frame X)) (m : mem (tcell X)).
  Local Notation search := (search key comp).
  Local Notation belongs := (belongs key comp).
  Local Notation increasing := (increasing key comp).

  Lemma torn_succ m this zs n v a q x :
    t_torn m this zs n v → lefts zs = a ++ [(q, x)] → q ≠ n → t_succ key eqn (Some q) m = UB.
  Proof using.
    intros Ht Hl Hqn. pose proof (torn_fuel _ _ _ _ _ Ht) as Hf. destruct Ht as (_ & _ & Hb).
    destruct (pred_raw _ _ _ _ _ _ _ _ Hb eq_refl Hl) as (c & l & t2 & p & (Hq & _ & H2) & H3 & H4).
    unfold t_succ, node. rewrite (t_bind_ok _ _ _ _ _ (eq_refl : ret q m = Ok q m)).
    case_decide; [done|]. rewrite (t_bind_ok _ _ _ _ _ (rd_r _ _ _ _ _ _ _ Hq)).
    destruct t2 as [|n2 x2 c2 l2 r2]; [done|]. cbn [troot]. apply t_bind_ub. unfold with_fuel.
    eapply down_raw; [|exact H3|exact H2|done]. lia.
  Qed.

  (** *** Paths *)
  Fixpoint hits (n : loc) (k : K) t : bool :=
    match t with
    | E => false
    | T q x c l r =>
        if decide (q = n) then true else
        if comp k (key x) then hits n k l else if comp (key x) k then hits n k r else false
    end.
  Lemma hits_not n k t : n ∉ (nodes t).*1 → hits n k t = false.
  Proof using.
    clear Hsw. induction t as [|q x c l IHl r IHr]; [done|]. cbn [nodes hits]. rewrite fmap_app fmap_cons. intros Hn.
    rewrite decide_False; [|set_solver]. rewrite IHl; [|set_solver]. rewrite IHr; [|set_solver].
    by destruct (comp k (key x)), (comp (key x) k).
  Qed.
  Lemma asym a b : comp a b = true → comp b a = false.
  Proof using Hsw.
    intros H. destruct (comp b a) eqn:E; [|done]. rewrite -(sw_irrefl _ Hsw a). symmetry. by eapply (sw_trans _ Hsw).
  Qed.
  Lemma nodup_fill zs t : NoDup (nodes (fill zs t)).*1 → NoDup (nodes t).*1.
  Proof using.
    rewrite nodes_fill. intros H. rewrite fmap_app in H. apply NoDup_app in H as (_ & _ & H).
    rewrite fmap_app in H. by apply NoDup_app in H as [H _].
  Qed.
  Lemma hits_fill n k zs t : NoDup (nodes (fill zs t)).*1 → n ∈ (nodes t).*1 →
    hits n k (fill zs t) = true ↔ belongs k zs ∧ hits n k t = true.
  Proof using Hsw.
    unfold SpecTree.belongs. revert t. induction zs as [|[q x c r|q x c l] zs IH]; intros t Hnd Hn.
    - simpl. naive_solver.
    - change (fill (Lft q x c r :: zs) t) with (fill zs (T q x c t r)) in *.
      rewrite IH //; [|cbn [nodes]; rewrite fmap_app; set_solver]. rewrite Forall_cons. cbn [hits].
      assert (NoDup (nodes (T q x c t r)).*1) as (H1 & H2 & H3 & H4 & H5)%nodes_nodup.
      { by eapply nodup_fill. }
      rewrite decide_False; [|by intros ->]. rewrite (hits_not n k r); [|by apply H5].
      destruct (comp k (key x)), (comp (key x) k); naive_solver.
    - change (fill (Rgt q x c l :: zs) t) with (fill zs (T q x c l t)) in *.
      rewrite IH //; [|cbn [nodes]; rewrite fmap_app fmap_cons; set_solver]. rewrite Forall_cons. cbn [hits].
      assert (NoDup (nodes (T q x c l t)).*1) as (H1 & H2 & H3 & H4 & H5)%nodes_nodup.
      { by eapply nodup_fill. }
      rewrite decide_False; [|by intros ->]. rewrite (hits_not n k l); [|intros ?; by apply (H5 n)].
      pose proof (asym (key x) k). destruct (comp k (key x)), (comp (key x) k); naive_solver.
  Qed.
  Lemma hits_torn n k zs v : NoDup (nodes (fill zs (T n v Red E E))).*1 →
    hits n k (fill zs (T n v Red E E)) = true ↔ belongs k zs.
  Proof using Hsw.
    intros Hnd. rewrite hits_fill // /=; [|set_solver]. rewrite decide_True //. naive_solver.
  Qed.
  Lemma search_fill k zs t t' : search k t = search k t' ∨ ¬ belongs k zs →
    search k (fill zs t) = search k (fill zs t').
  Proof using Hsw.
    unfold SpecTree.belongs. revert t t'. induction zs as [|[q x c r|q x c l] zs IH]; intros t t' H.
    - destruct H as [H|[]]; [done|constructor].
    - apply IH. rewrite Forall_cons in H. cbn [plug TreeFacts.search].
      destruct (comp k (key x)); [|by left]. destruct H as [->|H]; [by left|right]. naive_solver.
    - apply IH. rewrite Forall_cons in H. cbn [plug TreeFacts.search]. pose proof (asym (key x) k).
      destruct (comp k (key x)); [by left|].
      destruct (comp (key x) k); [|by left]. destruct H as [->|H]; [by left|right]. naive_solver.
  Qed.
  Lemma find_raw fuel m n k p t : height t < fuel → t_below_raw m n p t →
    t_find_loop key comp fuel k (troot t) m = if hits n k t then UB else Ok (fst <$> search k t) m.
  Proof using.
    revert p t. induction fuel as [|fuel IH]; intros p t Hf; [lia|].
    destruct t as [|q x c l r]; [done|]. intros (Hq & Hl & Hr). cbn [troot t_find_loop hits TreeFacts.search].
    simpl in Hf. case_decide as E; [by rewrite (t_bind_ub _ _ _ (raw_x _ _ Hq))|].
    rewrite (t_bind_ok _ _ _ _ _ (rd_x _ _ _ _ _ _ _ Hq)). destruct (comp k (key x)).
    { rewrite (t_bind_ok _ _ _ _ _ (rd_l _ _ _ _ _ _ _ Hq)). apply (IH (Some q)); [lia|done]. }
    destruct (comp (key x) k); [|done].
    rewrite (t_bind_ok _ _ _ _ _ (rd_r _ _ _ _ _ _ _ Hq)). apply (IH (Some q)); [lia|done].
  Qed.
  Lemma ins_raw fuel m this n v pl p t : height t < fuel → t_below_raw m n p t → rd pl m = Ok (troot t) m →
    hits n (key v) t = true → t_ins key comp fuel this v pl p m = UB.
  Proof using.
    revert pl p t. induction fuel as [|fuel IH]; intros pl p t Hf; [lia|].
    destruct t as [|q x c l r]; [done|]. intros (Hq & Hl & Hr) Hrd. cbn [troot t_ins hits] in *.
    simpl in Hf. rewrite (t_bind_ok _ _ _ _ _ Hrd).
    case_decide as E; [by rewrite (t_bind_ub _ _ _ (raw_x _ _ Hq))|].
    rewrite (t_bind_ok _ _ _ _ _ (rd_x _ _ _ _ _ _ _ Hq)). destruct (comp (key v) (key x)).
    { intros H. apply t_bind_ub. apply (IH _ _ l); [lia|done| |done]. by rewrite (rd_l _ _ _ _ _ _ _ Hq). }
    destruct (comp (key x) (key v)); [|done].
    intros H. apply t_bind_ub. apply (IH _ _ r); [lia|done| |done]. by rewrite (rd_r _ _ _ _ _ _ _ Hq).
  Qed.

  (** *** Gaps *)
  Lemma belongs_sides k zs : belongs k zs → increasing (lefts zs ++ rights zs).*2 →
    Forall (λ x, comp (key x) k = true) (lefts zs).*2 ∧ Forall (λ x, comp k (key x) = true) (rights zs).*2.
  Proof using Hsw.
    unfold SpecTree.belongs. induction zs as [|[q x c r|q x c l] zs IH]; intros Hb Hi; [by split; constructor|..];
      apply Forall_cons in Hb as [Hx Hb]; cbn [lefts rights] in *; rewrite !fmap_app ?fmap_cons ?fmap_app in Hi.
    - apply increasing_app in Hi as (H1 & H2 & H3).
      pose proof H2 as H2'. rewrite app_comm_cons in H2'. apply increasing_app in H2' as (H4 & H5 & _).
      destruct IH as [IH1 IH2]; [done| |].
      { rewrite fmap_app. apply increasing_app. split; [done|]. split; [done|]. eapply Forall_impl; [exact H3|].
        simpl. intros y [_ [_ ?]%Forall_app]%Forall_cons. done. }
      split; [done|]. rewrite fmap_cons fmap_app. constructor; [done|]. apply Forall_app. split; [|done].
      apply StronglySorted_inv in H4 as [_ H4]. eapply Forall_impl; [exact H4|].
      intros y Hy. unfold before in Hy. by eapply (sw_trans _ Hsw).
    - rewrite -!app_assoc in Hi. apply increasing_app in Hi as (H1 & H2 & H3). simpl in H2.
      apply (increasing_mid key comp Hsw) in H2 as (H4 & H5 & H6 & H7).
      destruct IH as [IH1 IH2]; [done| |].
      { rewrite fmap_app. apply increasing_app. split; [done|]. split; [done|]. eapply Forall_impl; [exact H3|].
        simpl. intros y [_ [_ ?]%Forall_cons]%Forall_app. done. }
      split; [|done]. rewrite !fmap_app. apply Forall_app. split; [done|]. apply Forall_app. split; [|by constructor].
      eapply Forall_impl; [exact H6|]. intros y Hy. unfold before in Hy. by eapply (sw_trans _ Hsw).
  Qed.
  Lemma fill_sides zs : nodes (fill zs E) = lefts zs ++ rights zs.
  Proof. by rewrite nodes_fill. Qed.
  Lemma gap_belongs k k' zs : belongs k' zs → increasing (nodes (fill zs E)).*2 →
    belongs k zs ↔ same_gap key comp k k' (nodes (fill zs E)).*2.
  Proof using Hsw.
    intros Hb' Hi. rewrite fill_sides in Hi. rewrite fill_sides. split.
    - intros Hb. destruct (belongs_sides _ _ Hb Hi) as [H1 H2]. destruct (belongs_sides _ _ Hb' Hi) as [H3 H4].
      rewrite !Forall_forall in H1, H2, H3, H4.
      intros x. rewrite fmap_app elem_of_app. intros [Hx|Hx].
      + rewrite (H1 _ Hx) (H3 _ Hx) (asym _ _ (H1 _ Hx)) (asym _ _ (H3 _ Hx)). done.
      + rewrite (H2 _ Hx) (H4 _ Hx) (asym _ _ (H2 _ Hx)) (asym _ _ (H4 _ Hx)). done.
    - intros Hg. unfold SpecTree.belongs in *. assert (∀ x, x ∈ (lefts zs ++ rights zs).*2 → comp k (key x) = comp k' (key x) ∧ comp (key x) k = comp (key x) k') as Hg' by done.
      clear Hg Hi. revert Hg'. induction zs as [|[q x c r|q x c l] zs IH]; intros Hg; [constructor|..];
        apply Forall_cons in Hb' as [Hx Hb']; cbn [lefts rights] in Hg; rewrite !fmap_app ?fmap_cons ?fmap_app in Hg; constructor.
      + rewrite (proj1 (Hg x ltac:(set_solver))). done.
      + apply IH; [done|]. intros y Hy. apply Hg. rewrite fmap_app in Hy. set_solver.
      + rewrite (proj2 (Hg x ltac:(set_solver))). done.
      + apply IH; [done|]. intros y Hy. apply Hg. rewrite fmap_app in Hy. set_solver.
  Qed.

  Lemma raw_value m n p t q x : t_below_raw m n p t → (q, x) ∈ nodes t → q ≠ n → t_elem q m = Ok x m.
  Proof using.
    clear Hsw comp key. revert p. induction t as [|q' y c l IHl r IHr]; intros p; [by intros _ ?%elem_of_nil|].
    intros (H1 & H2 & H3). cbn [nodes]. rewrite elem_of_app elem_of_cons.
    intros [Hq|[[= -> ->]|Hq]] Hne; [by eapply IHl| |by eapply IHr].
    case_decide; [done|]. by eapply rd_x.
  Qed.
  Lemma torn_ne zs n v q x : NoDup (nodes (fill zs (T n v Red E E))).*1 → (q, x) ∈ nodes (fill zs E) →
    q ≠ n ∧ (q, x) ∈ nodes (fill zs (T n v Red E E)).
  Proof using.
    clear Hsw comp key. rewrite !nodes_fill. cbn [nodes app]. rewrite !fmap_app fmap_cons. intros Hnd Hq. split; [|set_solver].
    intros ->. apply NoDup_app in Hnd as (_ & H1 & H2). apply NoDup_cons in H2 as [H2 _].
    apply elem_of_app in Hq as [Hq|Hq].
    - apply (H1 n); [|by left]. apply elem_of_list_fmap. by exists (n, x).
    - apply H2. apply elem_of_list_fmap. by exists (n, x).
  Qed.

  Lemma c120_readable m this zs n v :
    t_torn m this zs n v → belongs (key v) zs → increasing (nodes (fill zs E)).*2 →
    t_size this m = Ok (length (nodes (fill zs E))) m ∧
    t_begin this m = Ok (fst <$> head (nodes (fill zs E))) m ∧
    (∀ q x, (q, x) ∈ nodes (fill zs E) → t_value (Some q) m = Ok x m) ∧
    (∀ k, ¬ same_gap key comp k (key v) (nodes (fill zs E)).*2 →
       ∃ it, t_find key comp this k m = Ok it m ∧
         match it with
         | None => lookup_key key comp k (nodes (fill zs E)).*2 = None
         | Some q => ∃ x, (q, x) ∈ nodes (fill zs E) ∧ lookup_key key comp k (nodes (fill zs E)).*2 = Some x
         end).
  Proof using Hsw.
    intros Ht Hb Hi. split; [by eapply torn_size|]. split; [by eapply torn_begin|].
    pose proof Ht as ([_ Hnd]%NoDup_cons & _ & Hr). split.
    - intros q x Hq. unfold t_value, node. rewrite (t_bind_ok _ _ _ _ _ (eq_refl : ret q m = Ok q m)).
      destruct (torn_ne _ _ v _ _ Hnd Hq) as [??]. by eapply raw_value.
    - intros k Hg. rewrite -(gap_belongs k _ zs Hb Hi) in Hg.
      exists (fst <$> search k (fill zs E)). split.
      + unfold t_find, t_empty. rewrite (t_bind_ok _ _ _ (length (nodes (fill zs E)) =? 0) m); last first.
        { by rewrite (t_bind_ok _ _ _ _ _ (torn_size _ _ _ _ _ Ht)). }
        destruct (length (nodes (fill zs E)) =? 0) eqn:E0.
        { apply Nat.eqb_eq in E0. destruct (fill zs E); [done|]. cbn [nodes] in E0. rewrite app_length /= in E0. lia. }
        rewrite (t_bind_ok _ _ _ _ _ (torn_root _ _ _ _ _ Ht)). unfold with_fuel.
        rewrite (find_raw _ _ n k None); [|by eapply torn_fuel|done].
        destruct (hits n k (fill zs (T n v Red E E))) eqn:Eh; [by apply hits_torn in Eh|].
        by rewrite (search_fill k zs (T n v Red E E) E); [|by right].
      + rewrite -(search_lookup key comp Hsw) //.
        destruct (search k (fill zs E)) as [[q x]|] eqn:Es; simpl; [|done]. exists x. split; [|done].
        by apply search_in in Es as [? _].
  Qed.

  Lemma split_last {A} (P : A → bool) (l1 l2 a : list A) (y : A) b :
    l1 ++ l2 = a ++ y :: b → Forall (λ x, P x = true) l1 → Forall (λ x, P x = false) l2 →
    P y = true → Forall (λ x, P x = false) b → l1 = a ++ [y].
  Proof using.
    clear Hsw. revert a. induction l1 as [|z l1 IH]; intros a E H1 H2 Hy Hb.
    - simpl in E. subst l2. apply Forall_app in H2 as [_ H2]. apply Forall_cons in H2 as [H2 _]. congruence.
    - apply Forall_cons in H1 as [Hz H1]. destruct a as [|z' a]; simpl in E; injection E as -> E.
      + destruct l1 as [|w l1]; [done|]. exfalso. simpl in E. subst b.
        apply Forall_cons in Hb as [Hb _]. apply Forall_cons in H1 as [H1 _]. congruence.
      + simpl. f_equal. by apply IH.
  Qed.
  Lemma c120_undefined m this zs n v :
    t_torn m this zs n v → belongs (key v) zs → increasing (nodes (fill zs E)).*2 →
    (∀ k, nodes (fill zs E) ≠ [] → same_gap key comp k (key v) (nodes (fill zs E)).*2 → t_find key comp this k m = UB) ∧
    (∀ w, same_gap key comp (key w) (key v) (nodes (fill zs E)).*2 → t_insert key comp this w m = UB) ∧
    (∀ a q x b, nodes (fill zs E) = a ++ (q, x) :: b → comp (key x) (key v) = true →
       (∀ y, y ∈ b.*2 → comp (key v) (key y) = true) → t_succ key eqn (Some q) m = UB) ∧
    t_clear this m = UB ∧ t_dtor this m = UB.
  Proof using Hsw.
    intros Ht Hb Hi. pose proof Ht as ([_ Hnd]%NoDup_cons & _ & Hr). split; [|split; [|split; [|split]]].
    - intros k Hne Hg. apply (gap_belongs k _ zs Hb Hi) in Hg.
      unfold t_find, t_empty. rewrite (t_bind_ok _ _ _ (length (nodes (fill zs E)) =? 0) m); last first.
      { by rewrite (t_bind_ok _ _ _ _ _ (torn_size _ _ _ _ _ Ht)). }
      destruct (length (nodes (fill zs E)) =? 0) eqn:E0.
      { apply Nat.eqb_eq in E0. by destruct (nodes (fill zs E)). }
      rewrite (t_bind_ok _ _ _ _ _ (torn_root _ _ _ _ _ Ht)). unfold with_fuel.
      rewrite (find_raw _ _ n k None); [|by eapply torn_fuel|done].
      apply (hits_torn n k zs v Hnd) in Hg. by rewrite Hg.
    - intros w Hg. apply (gap_belongs _ _ zs Hb Hi) in Hg. unfold t_insert. apply t_bind_ub. unfold with_fuel.
      eapply ins_raw; [by eapply torn_fuel|done|by eapply torn_root|by apply hits_torn].
    - intros a q x b Hs Hx Hy. assert ((q, x) ∈ nodes (fill zs E)) as Hin by (rewrite Hs; set_solver +).
      destruct (torn_ne _ _ v _ _ Hnd Hin) as [Hqn _].
      rewrite fill_sides in Hs. rewrite fill_sides in Hi. destruct (belongs_sides _ _ Hb Hi) as [H1 H2].
      eapply (torn_succ m this zs n v a q x); [done| |done].
      apply (split_last (λ y, comp (key y.2) (key v)) _ _ _ _ _ Hs); [| |done|].
      + by rewrite Forall_fmap in H1.
      + rewrite Forall_fmap in H2. eapply Forall_impl; [exact H2|]. intros y Hyv. by apply asym.
      + rewrite Forall_forall. intros [q' y] Hin'. apply asym, Hy. apply elem_of_list_fmap. by exists (q', y).
    - by eapply torn_clear.
    - by eapply torn_dtor.
  Qed.
End ordered.

(** ** The exception is the element's *)
Section told.
  Context {X : Type}.
  Lemma nc_rd pl : no_copy (rd (X:=X) pl).
  Proof. unfold rd. destruct pl; nc. Qed.
  Lemma nc_wr pl w : no_copy (wr (X:=X) pl w).
  Proof. unfold wr. destruct pl; nc. Qed.
  Lemma nc_elem n : no_copy (t_elem (X:=X) n).
  Proof. unfold t_elem. nc. Qed.
  Lemma nc_color n : no_copy (t_color (X:=X) n).
  Proof. unfold t_color. nc. Qed.
  Lemma nc_paint n c : no_copy (t_paint (X:=X) n c).
  Proof. unfold t_paint. nc. Qed.
  Lemma nc_node p : no_copy (node (X:=X) p).
  Proof. unfold node. nc. Qed.
  Lemma nc_bgn n : no_copy (t_bgn (X:=X) n).
  Proof. unfold t_bgn. nc. Qed.
  Lemma nc_set_bgn n b : no_copy (t_set_bgn (X:=X) n b).
  Proof. unfold t_set_bgn. nc. Qed.
  Lemma nc_size n : no_copy (t_size (X:=X) n).
  Proof. unfold t_size. nc. Qed.
  Lemma nc_set_size n b : no_copy (t_set_size (X:=X) n b).
  Proof. unfold t_set_size. nc. Qed.
  Ltac nct := repeat first [ apply nc_rd | apply nc_wr | apply nc_elem | apply nc_color | apply nc_paint | apply nc_node
    | apply nc_bgn | apply nc_set_bgn | apply nc_size | apply nc_set_size | progress nc ].
  Lemma nc_swap pls : no_copy (nary_swap (rd (X:=X)) wr pls).
  Proof.
    unfold nary_swap. destruct pls as [|p pls]; [nc|]. apply nc_bind; [apply nc_rd|]. intros w.
    revert p. induction pls as [|p' pls IH]; intros p; cbn [fold_left_wrap]; [apply nc_wr|].
    apply nc_bind; [apply nc_rd|]. intros u. apply nc_bind; [apply nc_wr|]. intros _. apply IH.
  Qed.
  Lemma nc_rotate pl : no_copy (t_rotate_left (X:=X) pl) ∧ no_copy (t_rotate_right (X:=X) pl).
  Proof. unfold t_rotate_left, t_rotate_right. split; repeat first [apply nc_swap | progress nct]. Qed.
  Lemma nc_fix pl : no_copy (t_fix (X:=X) pl).
  Proof.
    unfold t_fix, t_red_red, t_is_red. repeat first [apply nc_rotate | progress nct].
  Qed.

  Context {K : Type} (key : X → K) (comp : K → K → bool).
  (** the copies throw: [b] *)
  Definition ins_told (b : bool) (rr : res (tcell X) (loc * bool)) : Prop :=
    match rr with Ok (_, true) _ => b = false | Exn CopyThrow _ => b = true | _ => True end.
  Lemma told_after {A} (f : M (tcell X) A) (k : A → M (tcell X) (loc * bool)) b co m :
    no_copy f → (∀ a m, corc m = co → ins_told b (k a m)) → corc m = co → ins_told b (bind f k m).
  Proof using.
    intros Hf Hk Hm. unfold bind. specialize (Hf m). destruct (f m) as [a m'|e m'| |]; [|by subst|done..].
    apply Hk. congruence.
  Qed.
  Lemma told_before {A} (f : M (tcell X) (loc * bool)) (g : M (tcell X) A) b m :
    ins_told b (f m) → no_copy g → ins_told b ((rr <- f ;; g ;;; ret rr) m).
  Proof using.
    intros Hf Hg. unfold bind. destruct (f m) as [[n a] m'|e m'| |]; [|done..]. specialize (Hg m').
    destruct (g m') as [? ?|e ?| |]; [done|by subst|done..].
  Qed.
  Lemma told_construct b1 b2 co n v p m : corc m = b1 :: b2 :: co →
    match t_construct (X:=X) n v p m with
    | Ok _ m' => b1 || b2 = false ∧ corc m' = co
    | Exn CopyThrow _ => b1 || b2 = true
    | Exn _ _ => False
    | _ => True
    end.
  Proof using.
    intros Hm. unfold t_construct, bind at 1, load. destruct (blk m !! n) as [[| |]|] eqn:En; try done.
    unfold bind, may_throw. rewrite Hm. destruct b1; [done|]. simpl. destruct b2; [done|]. unfold store. simpl. by rewrite En.
  Qed.
  Lemma told_attach b1 b2 co this v pl p m : corc m = b1 :: b2 :: co → ins_told (b1 || b2) (t_attach key comp this v pl p m).
  Proof using.
    intros Hm. unfold t_attach. eapply told_after; [apply nc_alloc| |exact Hm]. clear m Hm. intros n m Hm.
    eapply told_after; [apply nc_wr| |exact Hm]. clear m Hm. intros _ m Hm.
    pose proof (told_construct b1 b2 co n v p m Hm) as Hc. unfold bind at 1.
    destruct (t_construct n v p m) as [? m'|[] m'| |]; try done. destruct Hc as [-> Hm'].
    eapply (told_after _ _ _ co); [apply nc_bgn| |exact Hm']. intros bb m1 Hm1.
    eapply (told_after _ _ _ co); [|clear|exact Hm1]; [destruct bb; nct|]. intros _ m1 Hm1.
    eapply (told_after _ _ _ co); [apply nc_size| |exact Hm1]. intros kk m2 Hm2.
    eapply (told_after _ _ _ co); [apply nc_set_size| |exact Hm2]. done.
  Qed.
  Lemma told_ins b1 b2 co fuel this v pl p m : corc m = b1 :: b2 :: co → ins_told (b1 || b2) (t_ins key comp fuel this v pl p m).
  Proof using.
    revert pl p m. induction fuel as [|fuel IH]; intros pl p m Hm; [done|]. cbn [t_ins].
    eapply told_after; [apply nc_rd| |exact Hm]. clear m Hm. intros [n|] m Hm; [|by apply told_attach with co].
    eapply told_after; [apply nc_elem| |exact Hm]. clear m Hm. intros x m Hm.
    destruct (comp (key v) (key x)); [apply told_before; [by apply IH|apply nc_fix]|].
    destruct (comp (key x) (key v)); [apply told_before; [by apply IH|apply nc_fix]|done].
  Qed.
  Lemma c120_told b1 b2 co this v m : corc m = b1 :: b2 :: co →
    match t_insert key comp this v m with
    | Ok (_, true) _ => b1 || b2 = false
    | Exn CopyThrow _ => b1 || b2 = true
    | _ => True
    end.
  Proof using.
    intros Hm. change (ins_told (b1 || b2) (t_insert key comp this v m)). unfold t_insert.
    assert (ins_told (b1 || b2) (with_fuel (λ fuel, t_ins key comp fuel this v (PRoot this) None) m)) as H.
    { unfold with_fuel. by apply told_ins with co. }
    unfold bind at 1. destruct (with_fuel _ m) as [[n a] m'|e m'| |]; [|done..].
    pose proof (nc_bind (rd (X:=X) (PRoot this)) (λ root, root <- node root ;; t_paint root Black) (nc_rd _)) as Hn.
    specialize (Hn ltac:(intros; nct) m').
    unfold bind at 1. unfold bind at 1 in Hn. destruct (rd (PRoot this) m') as [q m1|e m1| |]; [|by subst|done..].
    unfold bind at 1. unfold bind at 1 in Hn. destruct (node q m1) as [q' m2|e m2| |]; [|by subst|done..].
    unfold bind. destruct (t_paint q' Black m2) as [? ?|e m3| |]; [done|by subst|done..].
  Qed.
End told.
