(** Copying and assigning lists whose elements' copies throw. *)
From iris.proofmode Require Import tactics.
From Verif Require Import SLTac Hist HistGen HistProofs MemRun NoCopy ModelList SpecList ListProofs ListMem ListProps DequeBuild.

Section build.
  Context {V : Type}.
  Implicit Types (m : mem (lcell V)) (xs ys zs : list (loc * V)).
  Notation mN := (Mode false true).

  (** ** Which functions copy elements *)
  Lemma nc_l_next l : no_copy (l_next (V:=V) l).
  Proof. unfold l_next. nc. Qed.
  Lemma nc_l_prev l : no_copy (l_prev (V:=V) l).
  Proof. unfold l_prev. nc. Qed.
  Lemma nc_set_next l n : no_copy (set_next (V:=V) l n).
  Proof. unfold set_next. nc. Qed.
  Lemma nc_set_prev l n : no_copy (set_prev (V:=V) l n).
  Proof. unfold set_prev. nc. Qed.
  Lemma nc_l_size l : no_copy (l_size (V:=V) l).
  Proof. unfold l_size. nc. Qed.
  Lemma nc_set_lsize l k : no_copy (set_lsize (V:=V) l k).
  Proof. unfold set_lsize. nc. Qed.
  Ltac ncl := repeat first [ apply nc_l_next | apply nc_l_prev | apply nc_set_next | apply nc_set_prev
    | apply nc_l_size | apply nc_set_lsize | apply nc_free | progress nc ].
  Lemma nc_clear_loop fuel this c : no_copy (l_clear_loop (V:=V) fuel this c).
  Proof.
    revert c. induction fuel as [|fuel IH]; intros c; cbn [l_clear_loop]; [done|]. destruct (decide _); [nc|].
    unfold l_destroy, l_dealloc. repeat first [apply IH | progress ncl].
  Qed.
  Lemma nc_l_clear this : no_copy (l_clear (V:=V) this).
  Proof.
    unfold l_clear. apply nc_bind; [apply nc_l_next|]. intros c.
    apply nc_bind; [intros m; unfold with_fuel; apply nc_clear_loop|]. intros _. ncl.
  Qed.
  Lemma nc_l_new : no_copy (l_new (V:=V)).
  Proof. unfold l_new. apply nc_bind; [apply nc_new|]. intros this. nc. Qed.

  (** ** One turn of the loop *)
  Definition l_turn (this it : loc) : M (lcell V) loc := l_push_back this (LElem it) ;;; l_next it.
  Lemma takes_then {A B} (f : M (lcell V) A) (k : A → M (lcell V) B) b co m :
    takes b co (f m) → (∀ a, no_copy (k a)) → takes b co (bind f k m).
  Proof.
    intros Hf Hk. unfold bind. destruct (f m) as [a m1|e m1| |]; [|done..]. specialize (Hk a m1).
    destruct (k a m1) as [? m2|e m2| |]; [|by subst|done..]. destruct Hf. split; [done|]. congruence.
  Qed.
  Lemma takes_l_construct n it b co m : corc m = b :: co → takes b co (l_construct (V:=V) n (LElem it) m).
  Proof.
    intros Hm. unfold l_construct, bind at 1, load. destruct (blk m !! n) as [c|] eqn:E; [|done]. destruct c; try done.
    cbn [l_deref]. unfold l_value, load, bind at 2. unfold bind at 1.
    destruct (blk m !! it) as [c|]; [|done]. destruct c as [| ? ? [v|]|]; try done.
    cbn [ret]. unfold bind, may_throw. rewrite Hm. destruct b; [done|]. unfold store. cbn [blk]. by rewrite E.
  Qed.
  Lemma takes_turn this it b co m : corc m = b :: co → takes b co (l_turn this it m).
  Proof.
    intros Hm. unfold l_turn, l_push_back. apply takes_then; [|intros; apply nc_l_next].
    apply takes_then; [|intros; nc]. unfold l_insert.
    eapply takes_bind; [apply nc_alloc| |done]. clear m Hm. intros n m Hm.
    apply takes_then; [by apply takes_l_construct|]. intros _. unfold l_hook. ncl.
  Qed.
  Lemma wp_turn this zs other xs n v ys :
    lobj this zs ∗ lobj other (xs ++ (n, v) :: ys) ⊢ wp mN (l_turn this n)
      (λ it, ∃ n', ⌞it = first ys other⌟ ∗ lobj this (zs ++ [(n', v)]) ∗ lobj other (xs ++ (n, v) :: ys))
      (λ e, ∃ r, ⌞e = CopyThrow⌟ ∗ r ↦ LRaw ∗ lobj this zs ∗ lobj other (xs ++ (n, v) :: ys)).
  Proof.
    iIntros "[H G]". unfold l_turn, l_push_back, l_end. wbind. wbind.
    assert (lreads mN (LElem n) v (lobj this zs ∗ lobj other (xs ++ (n, v) :: ys))) as Hr.
    { iIntros (Q' R') "[H F] HQ'". iApply (lreads_elem _ _ _ (length xs) with "F").
      { by rewrite lookup_app_r // Nat.sub_diag. }
      iIntros "F". iApply "HQ'". iFrame. }
    rewrite /l_insert. wbind. iApply wp_alloc. iSplit; [by iIntros ([=])|]. iIntros (r) "Hn".
    wbind. iApply (wp_l_construct _ _ _ _ _ _ _ Hr with "Hn [$H $G]"). iSplit.
    { iIntros (_) "Hn [H G]". iExists r. by iFrame. }
    iIntros "Hn [H G]". wbind. iApply (wp_l_hook mN this r r r v zs [] with "Hn [H]"); [by rewrite app_nil_r|]. iIntros "[Ht Hd]".
    wstep wp_l_size "Ht". wstep wp_set_lsize "Ht". wret. wret.
    iApply (wp_next_at with "G"). iIntros "G". iExists r. iSplitR; [done|]. iFrame "G".
    rewrite /lobj /ring !app_length /= Nat.add_comm. iFrame.
  Qed.

  (** ** The loop *)
  Lemma l_loop_turn fuel this other it m : it ≠ other →
    l_append_loop (V:=V) (S fuel) this other it m = bind (l_turn this it) (l_append_loop fuel this other) m.
  Proof.
    intros Hne. cbn [l_append_loop]. unfold l_end. rewrite decide_False //. unfold l_turn, bind.
    destruct (l_push_back this (LElem it) m) as [? m1|? ?| |]; [|done..]. by destruct (l_next it m1).
  Qed.
  Definition left_over (this : loc) zs other ys (r : loc) : hprop (lcell V) :=
    (r ↦ LRaw ∗ lobj this zs ∗ lobj other ys)%I.
  Lemma loop_throws j fuel co this zs other xs ys m h hf :
    good mN m → blk m = h ∪ hf → h ##ₘ hf → (lobj this zs ∗ lobj other (xs ++ ys))%I h →
    corc m = replicate j false ++ true :: co → j < length ys → length ys < fuel →
    ∃ m' h' r zs', l_append_loop fuel this other (first ys other) m = Exn CopyThrow m' ∧
      zs'.*2 = zs.*2 ++ take j ys.*2 ∧ left_over this zs' other (xs ++ ys) r h' ∧ h' ##ₘ hf ∧ blk m' = h' ∪ hf ∧ good mN m'.
  Proof.
    revert fuel zs xs ys m h. induction j as [|j IH]; intros [|fuel] zs xs ys m h Hg Hb Hd HP Hc Hj Hf; try lia;
      (destruct ys as [|[n v] ys]; [cbn in Hj; lia|]); cbn [first fst].
    all: assert (n ≠ other) as Hne.
    1, 3: pose proof HP as (h1 & h2 & _ & _ & _ & H2)%hprop_sep_eq;
      pose proof (proj1 (hprop_entails_eq _ _) (lobj_nodup other (xs ++ (n, v) :: ys)) _ H2) as Hnd;
      by destruct (first_ne _ _ _ _ _ Hnd) as [_ ?].
    all: rewrite l_loop_turn //; unfold bind.
    all: pose proof (wp_frame_adequate _ _ _ _ _ _ _ _ (wp_turn this zs other xs n v ys) Hg Hb Hd HP) as Hw.
    - pose proof (takes_turn this n true co m Hc) as Ht. destruct (l_turn this n m) as [it m1|e m1| |]; [by destruct Ht|..|done|done].
      destruct Hw as (Hg' & h' & Hd' & Hb' & (r & [-> HQ]%pure_sep_inv)). exists m1, h', r, zs. split; [done|]. rewrite take_0 app_nil_r. by repeat (split; [done|]).
    - pose proof (takes_turn this n false _ m Hc) as Ht. destruct (l_turn this n m) as [it m1|e m1| |]; [| |done|done].
      2: { destruct Hw as (_ & h' & _ & _ & (r & [-> _]%pure_sep_inv)). done. }
      destruct Hw as (Hg' & h' & Hd' & Hb' & (n' & [-> HQ]%pure_sep_inv)). destruct Ht as [_ Hc'].
      destruct (IH fuel (zs ++ [(n', v)]) (xs ++ [(n, v)]) ys m1 h') as (m' & h'' & r & zs' & El & Hz & Hrest);
        [done|done|done|by rewrite -assoc_L|done|cbn in Hj; lia|cbn in Hf; lia|].
      exists m', h'', r, zs'. split; [done|]. rewrite -assoc_L in Hrest. split; [|done].
      by rewrite Hz fmap_app -assoc_L.
  Qed.
  Lemma append_throws j co this other ys m h hf :
    good mN m → blk m = h ∪ hf → h ##ₘ hf → (lobj this [] ∗ lobj other ys)%I h →
    corc m = replicate j false ++ true :: co → j < length ys →
    ∃ m' h' r zs, l_append this other m = Exn CopyThrow m' ∧
      zs.*2 = take j ys.*2 ∧ left_over this zs other ys r h' ∧ h' ##ₘ hf ∧ blk m' = h' ∪ hf ∧ good mN m'.
  Proof.
    intros Hg Hb Hd HP Hc Hj. pose proof HP as (h1 & h2 & Eh & Hd12 & HP1 & HP2)%hprop_sep_eq.
    assert (lobj this [] ∗ lobj other ys ⊢ wp mN (l_begin other)
      (λ it, ⌞it = first ys other⌟ ∗ lobj this [] ∗ lobj other ys) (λ _, False))%I as Hwp.
    { iIntros "[H G]". iApply (wp_l_begin with "G"). iIntros "G". by iFrame. }
    pose proof (wp_frame_adequate _ _ _ _ _ _ _ _ Hwp Hg Hb Hd HP) as H.
    pose proof (nc_l_next other m) as Hn. unfold l_append, bind. unfold l_begin in *.
    destruct (l_next other m) as [it m1|e m1| |]; [| |done|done].
    2: { by destruct H as (_ & ? & _ & _ & []). }
    destruct H as (Hg1 & h3 & Hd3 & Hb3 & [-> HP3]%pure_sep_inv). unfold with_fuel.
    destruct (loop_throws j (S (size (blk m1))) co this [] other [] ys m1 h3 hf) as (m' & h' & r & zs & El & Hrest);
      [done|done|done|done|congruence|done| |by exists m', h', r, zs].
    apply hprop_sep_eq in HP3 as (h4 & h5 & -> & Hd45 & _ & H5). apply lobj_size in H5.
    rewrite Hb3 map_size_disj_union // map_size_disj_union //. lia.
  Qed.
  Lemma good_N m : mem_wf m → no_fail (aorc m) → good mN m.
  Proof. intros Hw Ha. split; [done|]. split; [done|]. by intros [=]. Qed.

  Lemma c127_copy m other ys j co :
    mem_wf m → no_fail (aorc m) → l_holds m other ys →
    corc m = replicate j false ++ true :: co → j < length ys →
    ∃ m' r, l_copy other m = Exn CopyThrow m' ∧ blk m !! r = None ∧ blk m' = <[r := LRaw]> (blk m).
  Proof.
    intros Hw Ha [Hnd Hs]%l_holds_heap Hc Hj.
    unfold l_copy. assert (emp ⊢ wp mN (l_new (V:=V)) (λ this, lobj this []) (λ _, False))%I as Hwp.
    { iIntros "_". iApply wp_l_new. by iIntros (this) "$". }
    pose proof (wp_frame_adequate _ _ _ _ _ m ∅ (blk m) Hwp (good_N _ Hw Ha)) as H. feed specialize H.
    { by rewrite left_id_L. } { apply map_disjoint_empty_l. } { by apply hprop_emp_eq. }
    unfold bind at 1. pose proof (nc_l_new m) as Hcc.
    destruct (l_new m) as [this m1|e m1| |]; [| |done|done].
    2: { by destruct H as (_ & ? & _ & _ & []). }
    destruct H as (Hg1 & h1 & Hd1 & Hb1 & HP1). set (h2 := lheap other ys) in *.
    destruct (append_throws j co this other ys m1 (h1 ∪ h2) (blk m ∖ h2)) as (m2 & h' & r & zs & El & _ & HP' & Hd' & Hb' & Hg2);
      [done| | | |congruence|done|].
    - by rewrite Hb1 -assoc_L map_difference_union.
    - apply map_disjoint_union_l. split; [|by apply map_disjoint_difference_r].
      eapply map_disjoint_weaken_r; [done|]. by apply map_subseteq_difference_l.
    - apply hprop_sep_eq. exists h1, h2. split; [done|]. split; [by eapply map_disjoint_weaken_r|]. split; [done|].
      by apply lheap_exact.
    - assert (left_over this zs other ys r ⊢ wp mN (l_dtor this) (λ _, r ↦ LRaw ∗ lobj other ys) (λ _, False))%I as Hwd.
      { iIntros "(R & H & G)". iApply (wp_l_dtor with "H"). iIntros "_". iFrame. }
      pose proof (wp_frame_adequate _ _ _ _ _ _ _ _ Hwd Hg2 Hb' Hd' HP') as H.
      unfold bind, on_throw, catch. rewrite El. unfold bind. destruct (l_dtor this m2) as [[] m3|e m3| |]; [| |done|done].
      2: { by destruct H as (_ & ? & _ & _ & []). }
      destruct H as (_ & h3 & Hd3 & Hb3 & (h4 & h5 & -> & Hd45 & ->%pt_eq & H5)%hprop_sep_eq).
      apply (lheap_exact _ _ Hnd) in H5 as ->. fold h2 in Hd45, Hd3, Hb3.
      assert (blk m3 = <[r := LRaw]> (blk m)) as Hb4.
      { by rewrite Hb3 -assoc_L map_difference_union // insert_union_singleton_l. }
      exists m3, r. split; [done|]. split; [|done].
      apply map_disjoint_singleton_l in Hd45. apply map_disjoint_union_l in Hd3 as [Hd3 _].
      apply map_disjoint_singleton_l in Hd3. rewrite lookup_difference_None in Hd3.
      destruct Hd3 as [?|[c Hd3]]; [done|]. congruence.
  Qed.
  Lemma c127_assign m this xs other ys j co :
    mem_wf m → no_fail (aorc m) → l_holds m this xs → l_holds m other ys →
    (∀ l, l ∈ l_cells this xs → l ∉ l_cells other ys) →
    corc m = replicate j false ++ true :: co → j < length ys →
    ∃ m' zs r, l_assign this other m = Exn CopyThrow m' ∧ zs.*2 = take j ys.*2 ∧
      l_holds m' this zs ∧ l_holds m' other ys ∧ blk m' !! r = Some LRaw ∧
      replaces (l_cells this xs ++ l_cells other ys) m (r :: l_cells this zs ++ l_cells other ys) m'.
  Proof.
    intros Hw Ha [Hnd Hs1]%l_holds_heap [Hnd' Hs2]%l_holds_heap Hap Hc Hj.
    set (h1 := lheap this xs) in *. set (h2 := lheap other ys) in *.
    assert (h1 ##ₘ h2) as Hd12.
    { apply map_disjoint_spec. intros l c1 c2 H1 H2. apply (Hap l); apply lheap_dom; eauto. }
    assert (h1 ∪ h2 ⊆ blk m) as Hs12 by by apply map_union_least.
    set (hf := blk m ∖ (h1 ∪ h2)).
    assert (blk m = (h1 ∪ h2) ∪ hf) as Hb by (symmetry; by apply map_difference_union).
    assert (h1 ∪ h2 ##ₘ hf) as Hd by by apply map_disjoint_difference_r.
    assert (lobj this xs ∗ lobj other ys ⊢ wp mN (l_clear (V:=V) this) (λ _, lobj this [] ∗ lobj other ys) (λ _, False))%I as Hwp.
    { iIntros "[H G]". iApply (wp_l_clear with "H"). iIntros "H". by iFrame. }
    pose proof (wp_frame_adequate _ _ _ _ _ m (h1 ∪ h2) hf Hwp (good_N _ Hw Ha) Hb Hd) as H. feed specialize H.
    { apply hprop_sep_eq. exists h1, h2. split; [done|]. split; [done|]. split; by apply lheap_exact. }
    pose proof (nc_l_clear this m) as Hcc. unfold l_assign, bind.
    destruct (l_clear this m) as [[] m1|e m1| |]; [| |done|done].
    2: { by destruct H as (_ & ? & _ & _ & []). }
    destruct H as (Hg1 & h3 & Hd3 & Hb3 & HP3).
    destruct (append_throws j co this other ys m1 h3 hf) as (m' & h' & r & zs & El & Hz & HP' & Hd' & Hb' & _);
      [done..|congruence|done|].
    apply hprop_sep_eq in HP' as (h4 & h5 & -> & Hd45 & ->%pt_eq & (h6 & h7 & -> & Hd67 & H6 & H7)%hprop_sep_eq).
    assert (h6 ∪ h7 ⊆ blk m') as Hs67.
    { rewrite Hb'. etrans; [by apply map_union_subseteq_r|apply map_union_subseteq_l]. }
    exists m', zs, r. split; [done|]. split; [done|].
    split; [eapply lobj_holds; [done|]; etrans; [apply map_union_subseteq_l|done]|].
    split; [eapply lobj_holds; [done|]; etrans; [by apply map_union_subseteq_r|done]|].
    split; [rewrite Hb' -assoc_L; apply lookup_union_Some_l, lookup_singleton|].
    eapply owned_replaces; [exact Hs12| | |exact Hd'|exact Hb'].
    - intros l. rewrite elem_of_app !lheap_dom lookup_union_is_Some //.
    - intros l. rewrite elem_of_cons elem_of_app !lookup_union_is_Some (lobj_cells _ _ _ H6) (lobj_cells _ _ _ H7).
      assert (is_Some (({[r := LRaw]} : gmap loc (lcell V)) !! l) ↔ l = r) as Hr.
      { split; [intros [c [-> _]%lookup_singleton_Some]; done|intros ->; rewrite lookup_singleton; by eexists]. }
      by rewrite Hr.
  Qed.
End build.
