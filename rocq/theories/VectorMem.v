(** From separation logic to statements about memories. *)
From iris.proofmode Require Import tactics.
From Verif Require Import SLTac Hist HistProofs Objs ModelVector SpecVector VectorProofs VectorHist.

Section mem.
  Context {V : Type}.
  Implicit Types (m : mem (vcell V)) (xs : list V).

  Lemma vobj_inv this xs k p (h : gmap loc (vcell V)) :
    vobj this xs k p h ↔
    match p with
    | None => h = {[this := VHdr (length xs) k p]} ∧ k = 0 ∧ xs = []
    | Some b => this ≠ b ∧ h = {[this := VHdr (length xs) k p; b := VArr (slots xs k)]} ∧
        0 < k ∧ length xs ≤ k
    end.
  Proof.
    unfold vobj. rewrite hprop_sep_eq. split.
    - intros (h1 & h2 & -> & Hd & H1 & H2). apply (proj1 (pt_eq _ _ _)) in H1. subst h1.
      destruct p as [b|]; simpl in H2.
      + apply hprop_sep_eq in H2 as (h3 & h4 & -> & _ & H3 & H4).
        apply (proj1 (hprop_affinely_pure_eq _ _)) in H3 as [-> [??]].
        apply (proj1 (pt_eq _ _ _)) in H4. subst h4. rewrite left_id_L in Hd |- *.
        split; [|split; [|done]].
        * intros ->. apply map_disjoint_singleton_l in Hd. by rewrite lookup_singleton in Hd.
        * by rewrite insert_union_singleton_l.
      + apply (proj1 (hprop_affinely_pure_eq _ _)) in H2 as [-> [??]].
        by rewrite right_id_L.
    - destruct p as [b|].
      + intros (Hne & -> & Hk & Hl). exists {[this := VHdr (length xs) k (Some b)]}, {[b := VArr (slots xs k)]}.
        split; [by rewrite insert_union_singleton_l|].
        split; [by apply map_disjoint_singleton_l; rewrite lookup_singleton_ne|].
        split; [by apply pt_eq|]. unfold arr. apply hprop_sep_eq.
        exists ∅, {[b := VArr (slots xs k)]}. rewrite left_id_L. split; [done|].
        split; [apply map_disjoint_empty_l|]. split; [|by apply pt_eq].
        by apply hprop_affinely_pure_eq.
      + intros (-> & Hk & Hl). exists {[this := VHdr (length xs) k None]}, ∅.
        rewrite right_id_L. split; [done|]. split; [apply map_disjoint_empty_r|].
        split; [by apply pt_eq|]. by apply hprop_affinely_pure_eq.
  Qed.

  (** the part of the memory outside a vector *)
  Definition outside m this p : gmap loc (vcell V) :=
    match p with None => delete this (blk m) | Some b => delete this (delete b (blk m)) end.

  Lemma holds_split m this xs k p :
    holds m this xs k p →
    ∃ h, vobj this xs k p h ∧ h ##ₘ outside m this p ∧ blk m = h ∪ outside m this p.
  Proof.
    intros [Hh Hp]. destruct p as [b|].
    - destruct Hp as (Hk & Hl & Hb). assert (this ≠ b) by congruence.
      exists {[this := VHdr (length xs) k (Some b); b := VArr (slots xs k)]}.
      split; [by apply vobj_inv|]. split.
      + simpl. apply map_disjoint_insert_l. split; [by rewrite lookup_delete|].
        apply map_disjoint_singleton_l. rewrite lookup_delete_ne // lookup_delete //.
      + simpl. rewrite -insert_union_l -insert_union_singleton_l.
        rewrite -(delete_insert_ne (delete b (blk m))) // insert_delete_insert.
        rewrite (insert_delete (blk m) b) // insert_id //.
    - destruct Hp as (-> & ->). exists {[this := VHdr 0 0 None]}.
      split; [by apply vobj_inv|]. split.
      + simpl. apply map_disjoint_singleton_l. by rewrite lookup_delete.
      + simpl. rewrite -insert_union_singleton_l. by rewrite insert_delete.
  Qed.

  Lemma vobj_holds m this xs k p h hf :
    vobj this xs k p h → h ##ₘ hf → blk m = h ∪ hf → holds m this xs k p.
  Proof.
    intros Hv Hd Hb. apply vobj_inv in Hv. unfold holds. destruct p as [b|].
    - destruct Hv as (Hne & -> & Hk & Hl). rewrite Hb. split.
      + rewrite (lookup_union_Some_l _ _ _ (VHdr (length xs) k (Some b))) //.
        by rewrite lookup_insert.
      + split; [done|]. split; [done|].
        rewrite (lookup_union_Some_l _ _ _ (VArr (slots xs k))) //.
        by rewrite lookup_insert_ne // lookup_singleton.
    - destruct Hv as (-> & -> & ->). rewrite Hb. split; [|done].
      rewrite (lookup_union_Some_l _ _ _ (VHdr 0 0 None)) //. by rewrite lookup_singleton.
  Qed.

  Lemma outside_lookup m this p l :
    l ∉ own_cells this p → outside m this p !! l = blk m !! l.
  Proof.
    destruct p as [b|]; simpl; rewrite ?not_elem_of_cons; intros.
    - rewrite !lookup_delete_ne //; naive_solver.
    - rewrite !lookup_delete_ne //; naive_solver.
  Qed.
  Lemma outside_own m this p l :
    l ∈ own_cells this p → outside m this p !! l = None.
  Proof.
    destruct p as [b|]; simpl; rewrite ?elem_of_cons elem_of_nil.
    - intros [->|[->|[]]]; [by rewrite lookup_delete|].
      destruct (decide (this = b)) as [->|]; [by rewrite lookup_delete|].
      by rewrite lookup_delete_ne // lookup_delete.
    - intros [->|[]]. by rewrite lookup_delete.
  Qed.
  Lemma vobj_dom this xs k p h l : vobj (V:=V) this xs k p h → is_Some (h !! l) → l ∈ own_cells this p.
  Proof.
    intros Hv [c Hl]. apply vobj_inv in Hv. destruct p as [b|].
    - destruct Hv as (Hne & -> & _). apply lookup_insert_Some in Hl as [[<- _]|[_ Hl]].
      + set_solver.
      + apply lookup_singleton_Some in Hl as [<- _]. set_solver.
    - destruct Hv as (-> & _). apply lookup_singleton_Some in Hl as [<- _]. set_solver.
  Qed.


  Lemma outside_replaces m m' this p this' p' (h : gmap loc (vcell V)) xs' k' :
    vobj this' xs' k' p' h → h ##ₘ outside m this p → blk m' = h ∪ outside m this p →
    replaces (own_cells this p) m (own_cells this' p') m'.
  Proof.
    intros Hv Hd Hb l. destruct (decide (l ∈ own_cells this' p')) as [Hn|Hn].
    - destruct (decide (l ∈ own_cells this p)) as [Ho|Ho]; [by left|right].
      rewrite -(outside_lookup m this p) //.
      assert (is_Some (h !! l)) as [c Hc].
      { apply vobj_inv in Hv. destruct p' as [b|]; simpl in Hn.
        - destruct Hv as (Hne & -> & _). apply elem_of_cons in Hn as [->|Hn].
          + rewrite lookup_insert; eauto.
          + apply elem_of_list_singleton in Hn as ->. rewrite lookup_insert_ne // lookup_singleton; eauto.
        - destruct Hv as (-> & _). apply elem_of_list_singleton in Hn as ->.
          rewrite lookup_singleton; eauto. }
      by eapply map_disjoint_Some_l.
    - assert (h !! l = None) as Hl.
      { destruct (h !! l) eqn:El; [|done]. destruct Hn. eapply vobj_dom; eauto. }
      rewrite Hb lookup_union_r //. destruct (decide (l ∈ own_cells this p)).
      + by apply outside_own.
      + by apply outside_lookup.
  Qed.

  Lemma vobj_precise this xs k p h1 h2 : vobj this xs k p h1 → vobj this xs k p h2 → h1 = h2.
  Proof.
    intros H1%vobj_inv H2%vobj_inv.
    destruct p; [by destruct H1 as (_ & -> & _), H2 as (_ & -> & _)|].
    by destruct H1 as (-> & _), H2 as (-> & _).
  Qed.
  Definition exact (P : hprop (vcell V)) (h0 : gmap loc (vcell V)) : Prop := ∀ h, P h ↔ h = h0.
  Lemma vobj_exact this xs k p h : vobj this xs k p h → exact (vobj this xs k p) h.
  Proof.
    intros Hv h'. split.
    - intros Hv'. by eapply vobj_precise.
    - by intros ->.
  Qed.
  Lemma emp_exact : exact emp ∅.
  Proof. intros h. apply hprop_emp_eq. Qed.

  (** Running a vector operation with a triple, in any well-formed memory; [P]
      describes further memory the operation reads. *)
  Lemma run_effect_with {T} P hP m this xs k p (f : M (vcell V) T) (A : T → Prop) xs' (K : nat → ptr → Prop) :
    may_fail_alloc m → holds m this xs k p → exact P hP → hP ⊆ outside m this p →
    (vobj this xs k p ∗ P ⊢ wp (Mode true false) f
       (λ a, ∃ k' p', ⌞A a ∧ K k' p'⌟ ∗ vobj this xs' k' p' ∗ P)
       (λ e, ⌞e = BadAlloc⌟ ∗ vobj this xs k p ∗ P)) →
    effect m this p (f m) A xs' K.
  Proof.
    intros Hm%good_may_fail Hh HPe HP Hw. destruct (holds_split _ _ _ _ _ Hh) as (h & Hv & Hd & Hb).
    apply map_difference_union in HP as HU. set (hr := outside m this p ∖ hP) in *.
    assert (hP ##ₘ hr) as Hdr by by apply map_disjoint_difference_r.
    rewrite -HU in Hd. rewrite -HU in Hb. apply map_disjoint_union_r in Hd as [Hd1 Hd2].
    rewrite assoc_L in Hb.
    assert ((vobj this xs k p ∗ P)%I (h ∪ hP)) as Hpre by (apply hprop_sep_eq; exists h, hP; by rewrite HPe).
    pose proof (wp_frame_adequate _ _ _ _ _ _ (h ∪ hP) hr Hw Hm Hb) as H.
    feed specialize H; [by apply map_disjoint_union_l|done|].
    unfold effect. destruct (f m) as [a m'|e m'| |]; [| |done..].
    - destruct H as (Hm' & h' & Hd' & Hb' & k' & p' & HQ).
      apply hprop_sep_eq in HQ as (h1 & h2 & -> & _ & HQ1 & HQ2).
      apply (proj1 (hprop_affinely_pure_eq _ _)) in HQ1 as [-> [HA HK]].
      rewrite left_id_L in Hd' Hb'. split; [by apply good_may_fail'|]. split; [done|].
      apply hprop_sep_eq in HQ2 as (h3 & h4 & -> & Hd3 & HQ2 & HQ3).
      apply HPe in HQ3. subst h4. apply map_disjoint_union_l in Hd' as [Hd4 _].
      rewrite -assoc_L HU in Hb'.
      assert (h3 ##ₘ outside m this p) by (rewrite -HU; by apply map_disjoint_union_r).
      exists k', p'. split; [done|]. split; [by eapply vobj_holds|].
      by eapply outside_replaces.
    - destruct H as (Hm' & h' & Hd' & Hb' & HQ).
      apply hprop_sep_eq in HQ as (h1 & h2 & -> & _ & HQ1 & HQ2).
      apply (proj1 (hprop_affinely_pure_eq _ _)) in HQ1 as [-> HQ1].
      rewrite left_id_L in Hd' Hb'. split; [done|]. split; [by apply good_may_fail'|].
      apply hprop_sep_eq in HQ2 as (h3 & h4 & -> & Hd3 & HQ2 & HQ3).
      apply HPe in HQ3. subst h4. rewrite Hb' Hb.
      by rewrite (vobj_precise _ _ _ _ _ _ HQ2 Hv).
  Qed.
  Lemma run_effect {T} m this xs k p (f : M (vcell V) T) (A : T → Prop) xs' (K : nat → ptr → Prop) :
    may_fail_alloc m → holds m this xs k p →
    (vobj this xs k p ⊢ wp (Mode true false) f
       (λ a, ∃ k' p', ⌞A a ∧ K k' p'⌟ ∗ vobj this xs' k' p') (λ e, ⌞e = BadAlloc⌟ ∗ vobj this xs k p)) →
    effect m this p (f m) A xs' K.
  Proof.
    intros Hm Hh Hw. apply (run_effect_with emp ∅ m this xs k p); [done..|apply emp_exact|apply map_empty_subseteq|].
    iIntros "[H _]". iDestruct (Hw with "H") as "H". iApply (wp_wand with "H"). iSplit.
    - iIntros (a) "(%k' & %p' & H1 & H2)". iExists k', p'. iFrame.
    - iIntros (e) "[H1 H2]". iFrame.
  Qed.

  (** the other vector is outside this one *)
  Lemma holds_outside m this p other ys k q h :
    vobj other ys k q h → holds m other ys k q → apart this other p q → h ⊆ outside m this p.
  Proof.
    intros Hv Hh Ha. destruct (holds_split _ _ _ _ _ Hh) as (h' & Hv' & Hd & Hb).
    rewrite -(vobj_precise _ _ _ _ _ _ Hv Hv') in Hb.
    apply map_subseteq_spec. intros l c Hl. rewrite outside_lookup.
    - rewrite Hb. by apply lookup_union_Some_l.
    - intros Hin. apply (Ha l Hin). apply (vobj_dom _ _ _ _ _ _ Hv). by eexists.
  Qed.

  Lemma run_ctor P hP m (f : M (vcell V) loc) xs' (K : nat → ptr → Prop) :
    may_fail_alloc m → exact P hP → hP ⊆ blk m →
    (P ⊢ wp (Mode true false) f
       (λ l, ∃ k' p', ⌞K k' p'⌟ ∗ vobj l xs' k' p' ∗ P)
       (λ e, ⌞e = BadAlloc⌟ ∗ P)) →
    constructs m (f m) xs' K.
  Proof.
    intros Hm%good_may_fail HPe HP Hw. apply map_difference_union in HP as HU.
    set (hr := blk m ∖ hP) in *.
    assert (hP ##ₘ hr) as Hdr by by apply map_disjoint_difference_r.
    pose proof (wp_frame_adequate _ _ _ _ _ _ hP hr Hw Hm (eq_sym HU) Hdr (proj2 (HPe hP) eq_refl)) as H.
    unfold constructs. destruct (f m) as [l m'|e m'| |]; [| |done..].
    - destruct H as (Hm' & h' & Hd' & Hb' & k' & p' & HQ).
      apply hprop_sep_eq in HQ as (h1 & h2 & -> & _ & HQ1 & HQ2).
      apply (proj1 (hprop_affinely_pure_eq _ _)) in HQ1 as [-> HK].
      rewrite left_id_L in Hd' Hb'. split; [by apply good_may_fail'|].
      apply hprop_sep_eq in HQ2 as (h3 & h4 & -> & Hd3 & HQ2 & HQ3).
      apply HPe in HQ3. subst h4. apply map_disjoint_union_l in Hd' as [Hd4 _].
      rewrite -assoc_L HU in Hb'.
      assert (h3 ##ₘ blk m) as Hd5 by (rewrite -HU; by apply map_disjoint_union_r).
      exists k', p'. split; [done|]. split; [by eapply vobj_holds|].
      intros l'. destruct (decide (l' ∈ own_cells l p')) as [Hn|Hn].
      + right. destruct (blk m !! l') as [c|] eqn:El; [|done]. exfalso.
        assert (is_Some (h3 !! l')) as [c' Hc]; [|by eapply map_disjoint_spec].
        apply vobj_inv in HQ2. destruct p' as [b|]; simpl in Hn.
        * destruct HQ2 as (Hne & -> & _). apply elem_of_cons in Hn as [->|Hn].
          { rewrite lookup_insert; eauto. }
          apply elem_of_list_singleton in Hn as ->. rewrite lookup_insert_ne // lookup_singleton; eauto.
        * destruct HQ2 as (-> & _). apply elem_of_list_singleton in Hn as ->.
          rewrite lookup_singleton; eauto.
      + destruct (decide (l' ∈ [])) as [Hi|]; [by apply elem_of_nil in Hi|].
        rewrite Hb' lookup_union_r //. destruct (h3 !! l') eqn:El; [|done].
        destruct Hn. eapply vobj_dom; eauto.
    - destruct H as (Hm' & h' & Hd' & Hb' & HQ).
      apply hprop_sep_eq in HQ as (h1 & h2 & -> & _ & HQ1 & HQ2).
      apply (proj1 (hprop_affinely_pure_eq _ _)) in HQ1 as [-> HQ1].
      apply HPe in HQ2. subst h2. rewrite left_id_L HU in Hb'.
      split; [done|]. split; [by apply good_may_fail'|done].
  Qed.

  (** Live-element accounting. *)
  Lemma live_empty : live (V:=V) ∅ = 0.
  Proof. apply map_fold_empty. Qed.
  Lemma live_insert (h : gmap loc (vcell V)) l c :
    h !! l = None → live (<[l := c]> h) = cell_live c + live h.
  Proof. intros. unfold live. rewrite map_fold_insert_L //. intros; lia. Qed.
  Lemma live_union (h1 h2 : gmap loc (vcell V)) :
    h1 ##ₘ h2 → live (h1 ∪ h2) = live h1 + live h2.
  Proof.
    induction h1 as [|l c h1 Hl IH] using map_ind; intros Hd.
    - rewrite left_id_L live_empty //.
    - apply map_disjoint_insert_l in Hd as [Hn Hd].
      rewrite -insert_union_l live_insert; [|by apply lookup_union_None].
      rewrite IH // live_insert //. lia.
  Qed.
  Lemma live_slots xs k : cell_live (VArr (slots xs k)) = length xs.
  Proof.
    unfold cell_live, slots. rewrite filter_app app_length.
    assert (length (filter (λ o : option V, is_Some o) (Some <$> xs)) = length xs) as ->.
    { induction xs as [|x xs IH]; [done|]. rewrite fmap_cons filter_cons_True /=; [by rewrite IH|by eauto]. }
    assert (filter (λ o : option V, is_Some o) (replicate (k - length xs) None) = []) as ->; [|simpl; lia].
    induction (k - length xs) as [|n IH]; [done|]. simpl. rewrite filter_cons_False //.
  Qed.
  Lemma live_vec this xs h : vec (V:=V) this xs h → live h = length xs.
  Proof.
    intros (k & p & Hv). apply vobj_inv in Hv. destruct p as [b|].
    - destruct Hv as (Hne & -> & _). rewrite live_insert; [|by rewrite lookup_singleton_ne].
      rewrite -insert_empty live_insert // live_empty live_slots /=. lia.
    - destruct Hv as (-> & -> & ->). rewrite -insert_empty live_insert // live_empty //.
  Qed.

  Definition livep (n : nat) : hprop (vcell V) := HProp (λ h, live h = n).
  Lemma livep_sep a b : livep a ∗ livep b ⊢ livep (a + b).
  Proof.
    split. intros h (h1 & h2 & -> & Hd & H1 & H2). simpl in *. by rewrite live_union // H1 H2.
  Qed.
  Lemma objs_live env s : objs (vec (V:=V)) env s ⊢ livep (total s).
  Proof.
    revert env. induction s as [|h xs s Hh IH] using map_ind; intros env; iIntros "H".
    - iDestruct (objs_gone with "H") as "H". iStopProof. split.
      intros h ->%hprop_emp_eq. unfold total. rewrite map_fold_empty. apply live_empty.
    - iDestruct (objs_del with "H") as (l Hl) "[Hx H]"; [apply lookup_insert|].
      rewrite delete_insert // IH.
      unfold total. rewrite map_fold_insert_L //; [|intros; lia].
      rewrite -/(total s). iApply livep_sep. iFrame "H".
      iStopProof. split. intros h' Hv. by eapply live_vec.
  Qed.
End mem.
