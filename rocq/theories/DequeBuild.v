(** Building and assigning deques of elements whose copies throw. *)
From iris.proofmode Require Import tactics.
From Verif Require Import SLTac HistGen HistProofs ModelDeque SpecDeque DequeProofs DequeMem DequeIter DequeProps NoCopy DequeThrow SpecDequeGrowth DequeGrowth.

(** ** How many copies throw *)
Section takes.
  Context {C : Type}.
  (** makes one copy, which throws if [b] *)
  Definition takes {A} (b : bool) (co : list bool) (r : res C A) : Prop :=
    match r with
    | Ok _ m' => b = false ∧ corc m' = co
    | Exn CopyThrow _ => b = true
    | _ => True
    end.
  Lemma takes_bind {A B} (f : M C A) (k : A → M C B) b co :
    no_copy f → (∀ a m, corc m = b :: co → takes b co (k a m)) →
    ∀ m, corc m = b :: co → takes b co (bind f k m).
  Proof.
    intros Hf Hk m Hm. unfold bind. specialize (Hf m). destruct (f m) as [a m'|e m'| |]; [|by subst|done..].
    apply Hk. congruence.
  Qed.
  Lemma nc_new (c : C) : no_copy (new c).
  Proof. done. Qed.
  Lemma nc_on_throw {A} (f : M C A) g : no_copy f → no_copy g → no_copy (on_throw f g).
  Proof.
    intros Hf Hg m. unfold on_throw, catch, bind. specialize (Hf m). destruct (f m) as [a m'|e m'| |]; [done| |done..].
    subst e. specialize (Hg m'). by destruct (g m').
  Qed.
End takes.

Section build.
  Context {V : Type} (K : nat) (HK : 2 ≤ K).
  Implicit Types (d : dstate V) (m : mem (dcell V)).
  Notation mN := (Mode false true).

  Lemma takes_construct r (x : V) b co m : corc m = b :: co → takes b co (d_construct r x m).
  Proof.
    intros Hm. unfold d_construct, bind at 1, may_throw. rewrite Hm. destruct b; [done|].
    unfold d_els, bind, load. cbn [blk]. destruct (blk m !! r.1) as [c|] eqn:E; [|done]. destruct c; try done.
    cbn [ret]. destruct (_ !! r.2) as [[]|]; try done. unfold store. cbn [blk]. by rewrite E.
  Qed.
  Lemma nc_deref (r : dref V) : no_copy (d_deref r).
  Proof. destruct r; simpl; unfold d_get, d_els; nc. Qed.
  Lemma takes_push this (r : dref V) b co m : corc m = b :: co → takes b co (d_push_back K this r m).
  Proof.
    intros Hm. eapply takes_bind; [apply nc_push_back_helper|clear m Hm; intros _ m Hm|done].
    eapply takes_bind; [apply nc_ends|clear m Hm; intros q m Hm|done].
    eapply takes_bind; [apply nc_deref|clear m Hm; intros x m Hm|done]. by apply takes_construct.
  Qed.
  Lemma nc_index this i : no_copy (d_index (V:=V) K this i).
  Proof. unfold d_index, d_front_, d_fchunk, d_chunk, d_ps, d_chunks, d_vec. nc; apply nc_hdr. Qed.
  Lemma nc_d_new : no_copy (d_new (V:=V) K).
  Proof.
    unfold d_new. apply nc_bind; [apply nc_new|]. intros this. apply nc_bind; [|intros; apply nc_ret].
    apply nc_on_throw; [|apply nc_free].
    unfold d_allocate, d_set_front, d_set_back, d_set_bchunk, d_set_fchunk, d_set_size, d_vec_push, d_chunks, d_set_chunks, d_vec.
    nc; apply nc_hdr.
  Qed.
  Lemma nc_for_up k n (f : nat → M (dcell V) unit) : (∀ i, no_copy (f i)) → no_copy (for_up k n f).
  Proof. intros Hf. revert k. induction n as [|n IH]; intros k; simpl; [apply nc_ret|]. apply nc_bind; [apply Hf|]. intros. apply IH. Qed.
  Lemma nc_clear this : no_copy (d_clear (V:=V) K this).
  Proof.
    unfold d_clear. apply nc_bind; [unfold d_size; nc; apply nc_hdr|]. intros n. apply nc_bind.
    { apply nc_for_up. intros i. apply nc_bind; [apply nc_index|]. intros r. unfold d_destroy_at, d_els. nc. }
    intros _. unfold d_set_front, d_set_back, d_set_bchunk, d_set_fchunk, d_set_size, d_ps, d_chunks, d_vec.
    nc; apply nc_hdr.
  Qed.

  (** ** One push *)
  Definition made this d : hprop (dcell V) := (∃ v cap cs, dobj K this v cap cs d)%I.
  Definition half_made this d d' : hprop (dcell V) := (∃ v cap cs, dbroken K this v cap cs d d')%I.
  Lemma wp_push_any X this d d' r x :
    dq_push_back K x d = Some d' → (∀ cs, reads (V:=V) K mN X cs d r x) →
    made this d ∗ X ⊢ wp mN (d_push_back K this r) (λ _, made this d' ∗ X) (λ e, ⌞e = CopyThrow⌟ ∗ half_made this d d' ∗ X).
  Proof using HK.
    iIntros (Hp Hr) "[(%v & %cap & %cs & %Hf & H & HD) X]". rewrite /d_push_back. wbind.
    iApply (wp_d_push_back_helper K HK with "H HD"); [done..|]. iSplit.
    { by iIntros (HA). }
    iIntros (v' cap' cs') "([%Hpre [%Hf' %Hta]] & H & HD)".
    pose proof (push_back_end K _ _ _ Hp) as Hend.
    destruct (chunk_some K HK cs' (dq_end d)) as [c Hc].
    { destruct Hf' as [-> Hf']. lia. }
    wbind. iApply (wp_d_back with "H"); [done..|]. iIntros "H". wbind.
    iApply (Hr cs with "X HD"); [done| |].
    { intros i c' Hc'. split; [|done]. by eapply prefix_lookup. }
    iIntros "X HD".
    iApply (wp_d_construct_any K HK with "HD"); [done|by apply slot_end|]. iSplit.
    - iIntros "HD". iSplitR; [done|]. iFrame "X". iExists v', cap', cs'. iFrame. done.
    - iIntros "HD". iFrame "X". iExists v', cap', cs'. iSplitR; [done|]. iFrame "H".
      iApply (dcs_ext with "HD"). intros p _. by apply (slot_push_back K).
  Qed.

  (** ** Several *)
  Section loop.
    Context (this : loc) (F : hprop (dcell V)) (vs : list V) (step : nat → M (dcell V) unit).
    Context (Hstep : ∀ i x d d', vs !! i = Some x → dq_push_back K x d = Some d' →
      made this d ∗ F ⊢ wp mN (step i) (λ _, made this d' ∗ F) (λ e, ⌞e = CopyThrow⌟ ∗ half_made this d d' ∗ F)).
    Context (Htakes : ∀ i b co m, corc m = b :: co → takes b co (step i m)).
    Lemma loop_throws j n k co m d d1 d2 x h hf :
      good mN m → blk m = h ∪ hf → h ##ₘ hf → (made this d ∗ F)%I h →
      corc m = replicate j false ++ true :: co → j < n → vs !! (k + j) = Some x →
      dq_append K (take j (drop k vs)) d = Some d1 → dq_push_back K x d1 = Some d2 →
      ∃ m' h', for_up k n step m = Exn CopyThrow m' ∧ (half_made this d1 d2 ∗ F)%I h' ∧
        h' ##ₘ hf ∧ blk m' = h' ∪ hf.
    Proof using HK Hstep Htakes.
      revert k n m d h. induction j as [|j IH]; intros k [|n] m d h Hg Hb Hd HP Hc Hj Hx Happ Hp; [lia| |lia|].
      - cbn in Happ. injection Happ as ->. rewrite Nat.add_0_r in Hx.
        pose proof (Htakes k true co m Hc) as Ht.
        pose proof (wp_frame_adequate _ _ _ _ _ _ _ _ (Hstep _ _ _ _ Hx Hp) Hg Hb Hd HP) as Hw.
        cbn [for_up]. unfold bind. destruct (step k m) as [[] m'|e m'| |]; [by destruct Ht|..|done|done].
        destruct Hw as (_ & h' & Hd' & Hb' & [-> HQ]%pure_sep_inv). by exists m', h'.
      - cbn in Hc. pose proof (Htakes k false _ m Hc) as Ht.
        destruct (lookup_lt_is_Some_2 vs k) as [y Hy].
        { apply lookup_lt_Some in Hx. lia. }
        rewrite (drop_S _ _ _ Hy) in Happ. cbn in Happ. destruct (dq_push_back K y d) as [d'|] eqn:Ed; [|done].
        pose proof (wp_frame_adequate _ _ _ _ _ _ _ _ (Hstep _ _ _ _ Hy Ed) Hg Hb Hd HP) as Hw.
        cbn [for_up]. unfold bind. destruct (step k m) as [[] m'|e m'| |]; [| |done|done].
        + destruct Hw as (Hg' & h' & Hd' & Hb' & HQ). destruct Ht as [_ Hc'].
          eapply (IH (S k)); [done..|lia| |done|done]. rewrite -Hx. f_equal. lia.
        + destruct Hw as (_ & h' & _ & _ & [-> _]%pure_sep_inv). done.
    Qed.
  End loop.

  Lemma fresh_append vs : dq_append K vs (dq_fresh K) = Some (DState (V:=V) vs (K / 2) (chunks_for K (length vs))).
  Proof using HK.
    induction vs as [|x vs IH] using rev_ind.
    - cbn. unfold dq_fresh. by rewrite chunks_0.
    - eapply dq_append_snoc; [done|]. by apply append_step.
  Qed.
  Lemma half_made_inv this d d' F h m : (half_made this d d' ∗ F)%I h → h ⊆ blk m →
    ∃ v cap cs, d_broken K m this v cap cs d d'.
  Proof using.
    intros (h1 & h2 & -> & Hd & (v & cap & cs & H1) & _)%hprop_sep_eq Hs. exists v, cap, cs.
    eapply dbroken_holds; [done|]. etrans; [|done]. apply map_union_subseteq_l.
  Qed.
  Lemma d_new_ok m h : good mN m → h ⊆ blk m →
    ∃ this m1 h1, d_new K m = Ok this m1 ∧ good mN m1 ∧ corc m1 = corc m ∧ made this (dq_fresh K) h1 ∧
      h1 ##ₘ blk m ∧ blk m1 = h1 ∪ blk m.
  Proof using HK.
    intros Hg Hs. assert ((emp : hprop (dcell V)) ⊢ wp mN (d_new K) (λ this, made this (dq_fresh K)) (λ _, False%I)) as Hw.
    { iIntros "_". iApply (wp_d_new K HK mN); [done|]. iIntros (this v cap cs) "H". iExists v, cap, cs. done. }
    pose proof (wp_frame_adequate _ _ _ _ _ m ∅ (blk m) Hw Hg) as H. feed specialize H.
    { by rewrite left_id_L. } { apply map_disjoint_empty_l. } { by apply hprop_emp_eq. }
    pose proof (nc_d_new m) as Hc. destruct (d_new K m) as [this m1|e m1| |]; [| |done|done].
    - destruct H as (Hg1 & h1 & Hd1 & Hb1 & HQ). by exists this, m1, h1.
    - by destruct H as (_ & ? & _ & _ & []).
  Qed.

  Lemma good_mN m : mem_wf m → no_fail (aorc m) → good mN m.
  Proof using. intros Hw Ha. split; [done|]. split; [done|]. by intros [=]. Qed.
  (** the constructors *)
  Lemma throw_then_dtor this d d' x m v cap cs (f : M (dcell V) unit) m0 (k : unit → M (dcell V) loc) :
    f m0 = Exn CopyThrow m → d_broken K m this v cap cs d d' → dq_push_back K x d = Some d' →
    bind (on_throw f (d_dtor K this)) k m0 = UB.
  Proof using HK.
    intros E Hb Hp. apply bind_ub. unfold on_throw, catch. rewrite E. apply bind_ub.
    by destruct (push_back_broken K HK _ _ _ _ _ _ _ _ Hb Hp) as (_ & _ & _ & _ & _ & ?).
  Qed.
  Lemma push_all_for this vs us k m : drop k vs = us →
    d_push_all K this us m = for_up k (length us) (λ i, match vs !! i with Some x => d_push_back K this (DVal x) | None => ub end) m.
  Proof using.
    revert k m. induction us as [|u us IH]; intros k m Hd; [done|]. cbn [d_push_all length for_up].
    assert (vs !! k = Some u) as Hk.
    { rewrite -(Nat.add_0_r k) -lookup_drop Hd. done. }
    rewrite Hk. unfold bind. destruct (d_push_back K this (DVal u) m); [|done..]. apply IH.
    rewrite (drop_S _ _ _ Hk) in Hd. by injection Hd.
  Qed.
  Lemma init_throws m vs j co : mem_wf m → no_fail (aorc m) →
    corc m = replicate j false ++ true :: co → j < length vs → d_init K vs m = UB.
  Proof using HK.
    intros Hw Ha Hc Hj. destruct (d_new_ok m ∅ (good_mN _ Hw Ha) (map_empty_subseteq _)) as (this & m1 & h1 & E & Hg1 & Hc1 & HP & Hd & Hb).
    unfold d_init. rewrite (bind_ok _ _ _ _ _ E). destruct (lookup_lt_is_Some_2 vs j Hj) as [x Hx].
    pose proof (fresh_append (take j vs)) as Happ. set (d1 := DState _ _ _) in Happ.
    assert (∃ d2, dq_push_back K x d1 = Some d2) as [d2 Hp].
    { unfold d1. rewrite append_step //. by eexists. }
    set (step := λ i, match vs !! i with Some x => d_push_back K this (DVal x) | None => ub end).
    destruct (loop_throws this emp vs step) with
      (j := j) (n := length vs) (k := 0) (co := co) (m := m1) (d := dq_fresh K (V:=V)) (d1 := d1) (d2 := d2) (x := x) (h := h1) (hf := blk m)
      as (m' & h' & El & HP' & Hd' & Hb').
    - intros i y d d' Hy Hyp. unfold step. rewrite Hy. apply (wp_push_any _ _ _ _ _ y); [done|]. intros cs. apply reads_val.
    - intros i b co' m2 Hm2. unfold step. destruct (vs !! i); [by apply takes_push|done].
    - done.
    - done.
    - done.
    - apply hprop_sep_eq. exists h1, ∅. rewrite right_id_L. split; [done|]. split; [apply map_disjoint_empty_r|].
      split; [done|by apply hprop_emp_eq].
    - congruence.
    - done.
    - done.
    - done.
    - done.
    - rewrite -(push_all_for this vs vs 0) in El; [|done].
      destruct (half_made_inv _ _ _ _ _ m' HP') as (v & cap & cs & Hbr); [rewrite Hb'; apply map_union_subseteq_l|].
      by eapply throw_then_dtor.
  Qed.

  (** copying from another deque *)
  Definition copy_step this other (i : nat) : M (dcell V) unit := r <- d_index K other i ;; d_push_back K this (DSlot r).
  Lemma copy_step_wp this other v1 cap1 cs1 d1 i x d d' : dq_els d1 !! i = Some x → dq_push_back K x d = Some d' →
    made this d ∗ dobj K other v1 cap1 cs1 d1 ⊢ wp mN (copy_step this other i) (λ _, made this d' ∗ dobj K other v1 cap1 cs1 d1)
      (λ e, ⌞e = CopyThrow⌟ ∗ half_made this d d' ∗ dobj K other v1 cap1 cs1 d1).
  Proof using HK.
    iIntros (Hx Hp) "[H (%Hf1 & H1 & HD1)]". destruct (elem_chunk K HK _ _ _ _ Hf1 Hx) as [c Hc]. unfold copy_step.
    wbind. iApply (wp_d_index with "H1"); [done|done|]. iIntros "H1".
    iApply (wp_wand with "[H HD1]").
    { iApply (wp_push_any (dcs K cs1 (slot d1)) with "[$H $HD1]"); [done|]. intros cs. by apply reads_other. }
    iSplit; [iIntros ([]) "[$ HD1]"; by iFrame|]. iIntros (e) "($ & $ & HD1)". by iFrame.
  Qed.
  Lemma copy_step_takes this other i b co m : corc m = b :: co → takes b co (copy_step this other i m).
  Proof using. intros Hm. eapply takes_bind; [apply nc_index| |done]. intros r m' Hm'. by apply takes_push. Qed.
  Lemma append_throws m h hf this other v1 cap1 cs1 d1 d j co di dj x :
    good mN m → blk m = h ∪ hf → h ##ₘ hf → (made this d ∗ dobj K other v1 cap1 cs1 d1)%I h →
    corc m = replicate j false ++ true :: co → dq_els d1 !! j = Some x →
    dq_append K (take j (dq_els d1)) d = Some di → dq_push_back K x di = Some dj →
    ∃ m' h', d_append K this other m = Exn CopyThrow m' ∧ (half_made this di dj ∗ dobj K other v1 cap1 cs1 d1)%I h' ∧
      h' ##ₘ hf ∧ blk m' = h' ∪ hf.
  Proof using HK.
    intros Hg Hb Hd HP Hc Hx Happ Hp. unfold d_append.
    assert (d_size other m = Ok (length (dq_els d1)) m) as Es.
    { apply hprop_sep_eq in HP as (h1 & h2 & -> & Hd12 & _ & H2).
      destruct (dobj_holds K _ _ _ _ _ _ m H2) as [Hh _].
      { rewrite Hb. etrans; [by apply map_union_subseteq_r|apply map_union_subseteq_l]. }
      apply d_holds_head in Hh. exact (ev_size _ _ _ _ _ _ _ _ _ _ Hh). }
    rewrite (bind_ok _ _ _ _ _ Es).
    apply (loop_throws this (dobj K other v1 cap1 cs1 d1) (dq_els d1) (copy_step this other)) with (co := co) (d := d) (j := j) (x := x) (h := h);
      [|by apply copy_step_takes|done..|by eapply lookup_lt_Some|done|done|done].
    intros i y d0 d0' Hy Hyp. by apply (copy_step_wp _ _ _ _ _ _ _ y).
  Qed.
  Lemma copy_throws m other v1 cap1 cs1 d1 j co : mem_wf m → no_fail (aorc m) → d_holds K m other v1 cap1 cs1 d1 →
    corc m = replicate j false ++ true :: co → j < length (dq_els d1) → d_copy K other m = UB.
  Proof using HK.
    intros Hw Ha (Hnd & Hf & Hs)%d_holds_heap Hc Hj.
    destruct (d_new_ok m ∅ (good_mN _ Hw Ha) (map_empty_subseteq _)) as (this & m1 & h1 & E & Hg1 & Hc1 & HP & Hd & Hb).
    unfold d_copy. rewrite (bind_ok _ _ _ _ _ E). destruct (lookup_lt_is_Some_2 _ j Hj) as [x Hx].
    pose proof (fresh_append (take j (dq_els d1))) as Happ. set (di := DState _ _ _) in Happ.
    assert (∃ dj, dq_push_back K x di = Some dj) as [dj Hp].
    { unfold di. rewrite append_step //. by eexists. }
    set (h2 := dheap K other v1 cap1 cs1 d1) in *.
    destruct (append_throws m1 (h1 ∪ h2) (blk m ∖ h2) this other v1 cap1 cs1 d1 (dq_fresh K) j co di dj x) as (m' & h' & El & HP' & Hd' & Hb');
      [done| | | |congruence|done..|].
    - by rewrite Hb -assoc_L map_difference_union.
    - apply map_disjoint_union_l. split; [|by apply map_disjoint_difference_r].
      eapply map_disjoint_weaken_r; [done|]. by apply map_subseteq_difference_l.
    - apply hprop_sep_eq. exists h1, h2. split; [done|]. split; [by eapply map_disjoint_weaken_r|]. split; [done|].
      by apply (dheap_exact K _ _ _ _ _ Hnd Hf).
    - destruct (half_made_inv _ _ _ _ _ m' HP') as (v & cap & cs & Hbr); [rewrite Hb'; apply map_union_subseteq_l|].
      by eapply throw_then_dtor.
  Qed.
  Lemma assign_throws m this v cap cs d other v1 cap1 cs1 d1 j co di dj x : mem_wf m → no_fail (aorc m) →
    d_holds K m this v cap cs d → d_holds K m other v1 cap1 cs1 d1 → d_cells this v cs ## d_cells other v1 cs1 →
    0 < dq_chunks d → corc m = replicate j false ++ true :: co → dq_els d1 !! j = Some x →
    dq_append K (take j (dq_els d1)) (dq_clear K d) = Some di → dq_push_back K x di = Some dj →
    ∃ m' v' cap' cs', d_assign K this other m = Exn CopyThrow m' ∧ d_broken K m' this v' cap' cs' di dj ∧
      d_holds K m' other v1 cap1 cs1 d1 ∧
      replaces (d_cells this v cs ++ d_cells other v1 cs1) m (d_cells this v' cs' ++ d_cells other v1 cs1) m'.
  Proof using HK.
    intros Hw Ha (Hnd & Hf & Hs)%d_holds_heap (Hnd1 & Hf1 & Hs1)%d_holds_heap Hdisj Hch Hc Hx Happ Hp.
    set (h1 := dheap K this v cap cs d) in *. set (h2 := dheap K other v1 cap1 cs1 d1) in *.
    pose proof (dheap_dom K this v cap cs d : ∀ q, q ∈ _ ↔ is_Some (h1 !! q)) as D1.
    pose proof (dheap_dom K other v1 cap1 cs1 d1 : ∀ q, q ∈ _ ↔ is_Some (h2 !! q)) as D2.
    assert (h1 ##ₘ h2) as Hd12.
    { apply map_disjoint_spec. intros q c1 c2 E1 E2. apply (Hdisj q); [apply D1|apply D2]; by eexists. }
    assert (h1 ∪ h2 ⊆ blk m) as Hs12 by by apply map_union_least.
    set (hf := blk m ∖ (h1 ∪ h2)).
    assert (blk m = (h1 ∪ h2) ∪ hf) as Hb by (symmetry; by apply map_difference_union).
    assert (h1 ∪ h2 ##ₘ hf) as Hd by by apply map_disjoint_difference_r.
    assert (dobj K this v cap cs d h1) as HP1 by by apply (dheap_exact K _ _ _ _ _ Hnd Hf).
    assert (dobj K other v1 cap1 cs1 d1 h2) as HP2 by by apply (dheap_exact K _ _ _ _ _ Hnd1 Hf1).
    assert (dobj K this v cap cs d ∗ dobj K other v1 cap1 cs1 d1 ⊢ wp mN (d_clear K this)
      (λ _, made this (dq_clear K d) ∗ dobj K other v1 cap1 cs1 d1) (λ _, False))%I as Hwp.
    { iIntros "[H G]". iApply (wp_d_clear with "H"); [done|lia|]. iIntros "H". iFrame "G". iExists v, cap, cs. done. }
    pose proof (wp_frame_adequate _ _ _ _ _ m (h1 ∪ h2) hf Hwp (good_mN _ Hw Ha) Hb Hd) as H. feed specialize H.
    { apply hprop_sep_eq. by exists h1, h2. }
    pose proof (nc_clear this m) as Hcc. unfold d_assign, bind.
    destruct (d_clear K this m) as [[] m1|e m1| |]; [| |done|done].
    2: { by destruct H as (_ & ? & _ & _ & []). }
    destruct H as (Hg1 & h3 & Hd3 & Hb3 & HP3).
    destruct (append_throws m1 h3 hf this other v1 cap1 cs1 d1 (dq_clear K d) j co di dj x) as (m' & h' & El & HP' & Hd' & Hb');
      [done..|congruence|done|done|done|].
    apply hprop_sep_eq in HP' as (h4 & h5 & -> & Hd45 & (v' & cap' & cs' & H4) & H5).
    destruct (dbroken_holds K _ _ _ _ _ _ _ m' H4) as [Hbr Hdom4].
    { rewrite Hb' -assoc_L. apply map_union_subseteq_l. }
    destruct (dobj_holds K _ _ _ _ _ _ m' H5) as [Hho _].
    { rewrite Hb'. etrans; [by apply map_union_subseteq_r|apply map_union_subseteq_l]. }
    exists m', v', cap', cs'. split; [done|]. split; [done|]. split; [done|].
    eapply owned_replaces; [exact Hs12| | |exact Hd'|exact Hb'].
    - intros q. by rewrite elem_of_app lookup_union_is_Some D1 D2.
    - intros q. by rewrite elem_of_app lookup_union_is_Some Hdom4 (dobj_cells K _ _ _ _ _ _ H5 q).
  Qed.
End build.
