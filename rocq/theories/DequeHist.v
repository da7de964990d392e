(** Every client operation on deques and queues refines the specification. *)
From iris.proofmode Require Import tactics.
From Verif Require Import SLTac Hist HistProofs Objs ClientProofs ModelDeque SpecDeque DequeProofs.

(** histories in which no allocation fails *)
Definition d_ok {V} (may_fail : bool) (op : dop V) : Prop := may_fail = false.
Definition d_oks {V} (may_fail : bool) (op : dop V) : Prop := may_fail = false ∧ d_safe op.
Definition q_ok {V} (may_fail : bool) (op : qop V) : Prop := may_fail = false.

Section calls.
  Context {V : Type} (K : nat) (HK : 2 ≤ K).
  Context (md : mode) (Hmc : mC md = false) (HA : mA md = false).
  Implicit Types (d : dstate V) (R : exn → hprop (dcell V)).

  Lemma wp_dq_size l d Q R : dq K l d -∗ (dq K l d -∗ Q (length (dq_els d))) -∗ wp md (d_size l) Q R.
  Proof using.
    iIntros "(%v & %cap & %cs & %Hf & [H G] & HD) HQ". iApply (wp_size with "H"). iIntros "H". iApply "HQ".
    iExists v, cap, cs. by iFrame.
  Qed.
  Lemma wp_dq_empty l d Q R :
    dq K l d -∗ (dq K l d -∗ Q (match dq_els d with [] => true | _ => false end)) -∗ wp md (d_empty l) Q R.
  Proof using.
    iIntros "H HQ". rewrite /d_empty. wstep wp_dq_size "H". wret. destruct (dq_els d); by iApply "HQ".
  Qed.
  Lemma wp_dq_at l d i x Q R : dq_els d !! i = Some x →
    dq K l d -∗ (dq K l d -∗ Q x) -∗ wp md (r <- d_index K l i ;; d_get r) Q R.
  Proof using HK.
    iIntros (Hi) "(%v & %cap & %cs & %Hf & H & HD) HQ". destruct (elem_chunk K HK _ _ _ _ Hf Hi) as [c Hc].
    wbind. iApply (wp_d_index with "H"); [done..|]. iIntros "H".
    iApply (wp_d_get with "HD"); [done|done|by rewrite slot_in|]. iIntros "HD". iApply "HQ".
    iExists v, cap, cs. by iFrame.
  Qed.
  Lemma slot_set d i x p : i < length (dq_els d) → upd (slot d) (dq_lo d + i) (Some x) p = slot (dq_set i x d) p.
  Proof using. clear HK.
    intros Hi. rewrite /upd /slot /=. case_decide.
    - subst p. rewrite decide_False; [|lia]. replace (dq_lo d + i - dq_lo d) with i by lia.
      by rewrite list_lookup_insert.
    - case_decide; [done|]. rewrite list_lookup_insert_ne //. lia.
  Qed.
  Lemma wp_dq_set l d i x y Q R : dq_els d !! i = Some y →
    dq K l d -∗ (dq K l (dq_set i x d) -∗ Q tt) -∗ wp md (r <- d_index K l i ;; d_assign_at r x) Q R.
  Proof using HK Hmc.
    iIntros (Hi) "(%v & %cap & %cs & %Hf & H & HD) HQ". destruct (elem_chunk K HK _ _ _ _ Hf Hi) as [c Hc].
    wbind. iApply (wp_d_index with "H"); [done..|]. iIntros "H".
    iApply (wp_d_assign_at with "HD"); [done|done|done|by rewrite slot_in|]. iIntros "HD". iApply "HQ".
    iExists v, cap, cs. iSplitR.
    { iPureIntro. by rewrite /dfits /dq_end /= insert_length. }
    iSplitL "H".
    - rewrite /dhv /dq_end /= insert_length. done.
    - iApply (dcs_ext with "HD"). intros p _. apply slot_set. by eapply lookup_lt_Some.
  Qed.
  Lemma wp_dq_front l d x Q R : head (dq_els d) = Some x →
    dq K l d -∗ (dq K l d -∗ Q x) -∗ wp md (r <- d_front l ;; d_get r) Q R.
  Proof using HK.
    iIntros (Hi) "(%v & %cap & %cs & %Hf & H & HD) HQ". rewrite head_lookup in Hi.
    destruct (elem_chunk K HK _ _ _ _ Hf Hi) as [c Hc]. rewrite Nat.add_0_r in Hc.
    wbind. iApply (wp_d_front with "H"); [done..|]. iIntros "H".
    iApply (wp_d_get with "HD"); [done|done|by rewrite -(Nat.add_0_r (dq_lo d)) slot_in|]. iIntros "HD". iApply "HQ".
    iExists v, cap, cs. by iFrame.
  Qed.
  Lemma wp_dq_back l d x Q R : last (dq_els d) = Some x →
    dq K l d -∗ (dq K l d -∗ Q x) -∗ wp md (r <- d_back l ;; d_get r) Q R.
  Proof using HK.
    iIntros (Hi) "(%v & %cap & %cs & %Hf & H & HD) HQ". rewrite last_lookup in Hi.
    destruct (elem_chunk K HK _ _ _ _ Hf Hi) as [c Hc]. pose proof (lookup_lt_Some _ _ _ Hi) as Hlt.
    wbind. iApply (wp_d_back with "H"); [done| |done|]. { unfold dq_end. lia. } iIntros "H".
    iApply (wp_d_get with "HD"); [done|done|by rewrite slot_in|]. iIntros "HD". iApply "HQ".
    iExists v, cap, cs. by iFrame.
  Qed.
  Lemma wp_dq_push_back l d d' x Q R : dq_push_back K x d = Some d' →
    dq K l d -∗ (dq K l d' -∗ Q tt) -∗ wp md (d_push_back K l (DVal x)) Q R.
  Proof using HK Hmc HA.
    iIntros (Hp) "(%v & %cap & %cs & H) HQ".
    iApply (wp_d_push_back _ HK _ Hmc emp with "[//] H"); [done|apply reads_val|]. iSplit; [iIntros (?); congruence|].
    iIntros "_". done.
  Qed.
  Lemma wp_dq_push_front l d x Q R :
    dq K l d -∗ (dq K l (dq_push_front K x d) -∗ Q tt) -∗ wp md (d_push_front K l (DVal x)) Q R.
  Proof using HK Hmc HA.
    iIntros "(%v & %cap & %cs & H) HQ".
    iApply (wp_d_push_front _ HK _ Hmc emp with "[//] H"); [apply reads_val|]. iSplit; [iIntros (?); congruence|].
    iIntros "_". done.
  Qed.
  Lemma wp_dq_push_back_own l d d' i x Q R : dq_els d !! i = Some x → dq_push_back K x d = Some d' →
    dq K l d -∗ (dq K l d' -∗ Q tt) -∗ wp md (r <- d_index K l i ;; d_push_back K l (DSlot r)) Q R.
  Proof using HK Hmc HA.
    iIntros (Hi Hp) "(%v & %cap & %cs & %Hf & H & HD) HQ".
    destruct (elem_chunk K HK _ _ _ _ Hf Hi) as [c Hc].
    wbind. iApply (wp_d_index with "H"); [done..|]. iIntros "H".
    iApply (wp_d_push_back _ HK _ Hmc emp with "[//] [$H $HD //]"); [done|by apply reads_own|].
    iSplit; [iIntros (?); congruence|]. iIntros "_". done.
  Qed.
  Lemma wp_dq_push_front_own l d i x Q R : dq_els d !! i = Some x →
    dq K l d -∗ (dq K l (dq_push_front K x d) -∗ Q tt) -∗ wp md (r <- d_index K l i ;; d_push_front K l (DSlot r)) Q R.
  Proof using HK Hmc HA.
    iIntros (Hi) "(%v & %cap & %cs & %Hf & H & HD) HQ".
    destruct (elem_chunk K HK _ _ _ _ Hf Hi) as [c Hc].
    wbind. iApply (wp_d_index with "H"); [done..|]. iIntros "H".
    iApply (wp_d_push_front _ HK _ Hmc emp with "[//] [$H $HD //]"); [by apply reads_own|].
    iSplit; [iIntros (?); congruence|]. iIntros "_". done.
  Qed.
  Lemma wp_dq_pop_front l d Q R :
    dq K l d -∗ (dq K l (dq_pop_front d) -∗ Q tt) -∗ wp md (d_pop_front K l) Q R.
  Proof using HK.
    iIntros "(%v & %cap & %cs & H) HQ". iApply (wp_d_pop_front with "H"); [done|]. iIntros "H". iApply "HQ".
    iExists v, cap, cs. by iFrame.
  Qed.
  Lemma wp_dq_pop_back l d Q R :
    dq K l d -∗ (dq K l (dq_pop_back d) -∗ Q tt) -∗ wp md (d_pop_back K l) Q R.
  Proof using HK.
    iIntros "(%v & %cap & %cs & H) HQ". iApply (wp_d_pop_back with "H"); [done|]. iIntros "H". iApply "HQ".
    iExists v, cap, cs. by iFrame.
  Qed.
  Lemma wp_dq_clear l d Q R : dq_chunks d ≠ 0 →
    dq K l d -∗ (dq K l (dq_clear K d) -∗ Q tt) -∗ wp md (d_clear K l) Q R.
  Proof using HK.
    iIntros (Hc) "(%v & %cap & %cs & H) HQ". iApply (wp_d_clear with "H"); [done..|]. iIntros "H". iApply "HQ".
    iExists v, cap, cs. by iFrame.
  Qed.
  Lemma wp_dq_dtor l d Q R : dq_chunks d ≠ 0 →
    dq K l d -∗ (emp -∗ Q tt) -∗ wp md (d_dtor K l) Q R.
  Proof using HK. iIntros (Hc) "(%v & %cap & %cs & H) HQ". by iApply (wp_d_dtor with "H"). Qed.
  Lemma wp_dq_new Q R : (∀ l, dq K l (dq_fresh K) -∗ Q l) -∗ wp md (d_new K) Q R.
  Proof using HK HA.
    iIntros "HQ". iApply wp_d_new; [done..|]. iIntros (l v cap cs) "H". iApply "HQ". iExists v, cap, cs. iFrame.
  Qed.
  Lemma wp_dq_copy l' d1 d' Q R : dq_append K (dq_els d1) (dq_fresh K) = Some d' →
    dq K l' d1 -∗ (∀ l, dq K l d' -∗ dq K l' d1 -∗ Q l) -∗ wp md (d_copy K l') Q R.
  Proof using HK HA Hmc.
    iIntros (Ha) "(%v & %cap & %cs & H) HQ". iApply (wp_d_copy with "H"); [done..|]. iIntros (l) "H G".
    iApply ("HQ" with "H"). iExists v, cap, cs. iFrame.
  Qed.
  Lemma wp_dq_assign l d l' d1 d' Q R : dq_chunks d ≠ 0 → dq_append K (dq_els d1) (dq_clear K d) = Some d' →
    dq K l d -∗ dq K l' d1 -∗ (dq K l d' -∗ dq K l' d1 -∗ Q tt) -∗ wp md (d_assign K l l') Q R.
  Proof using HK HA Hmc.
    iIntros (Hc Ha) "(%v & %cap & %cs & H) (%v1 & %cap1 & %cs1 & H1) HQ".
    iApply (wp_d_assign with "H H1"); [done..|]. iIntros "H G".
    iApply ("HQ" with "H"). iExists v1, cap1, cs1. iFrame.
  Qed.
  Lemma wp_dq_iterate l d Q R : ¬ at_boundary K d →
    dq K l d -∗ (dq K l d -∗ Q (dq_els d)) -∗ wp md (d_iterate K l) Q R.
  Proof using HK.
    iIntros (Hb) "(%v & %cap & %cs & H) HQ". iApply (wp_d_iterate with "H"); [done..|]. iIntros "H". iApply "HQ".
    iExists v, cap, cs. by iFrame.
  Qed.
End calls.

Section facts.
  Context {V : Type} (K : nat) (HK : 2 ≤ K).
  Implicit Types (d : dstate V).
  (** the elements end in the last chunk *)
  Definition tight d : Prop := dq_chunks d ≠ 0 ∧ dq_chunks d * K < dq_end d + K ∧ dq_end d ≤ dq_chunks d * K.

  Lemma tight_fresh : tight (dq_fresh K).
  Proof using HK.
    destruct (half K HK). unfold tight, dq_end. cbn [dq_fresh dq_els dq_lo dq_chunks length]. lia.
  Qed.
  Lemma tight_push_back x d : tight d → ∃ d', dq_push_back K x d = Some d' ∧ tight d' ∧ dq_els d' = dq_els d ++ [x].
  Proof using HK.
    intros (H1 & H2 & H3). unfold dq_push_back. case_decide as He.
    - eexists. split; [done|]. split; [|done]. unfold tight, dq_end in *. simpl. rewrite app_length /=. lia.
    - rewrite decide_False.
      + eexists. split; [done|]. split; [|done]. unfold tight, dq_end in *. simpl. rewrite app_length /=. lia.
      + unfold at_boundary. intros Hb. pose proof (pos_eq K HK (dq_end d)) as Hp. rewrite Hb in Hp.
        set (q := dq_end d / K) in *. assert (q = dq_chunks d ∨ q < dq_chunks d ∨ dq_chunks d < q) as [?|[?|?]] by lia.
        * subst q. lia.
        * assert ((q + 1) * K ≤ dq_chunks d * K) by (apply Nat.mul_le_mono_r; lia). lia.
        * assert ((dq_chunks d + 1) * K ≤ q * K) by (apply Nat.mul_le_mono_r; lia). lia.
  Qed.
  Lemma tight_push_front x d : tight d → tight (dq_push_front K x d).
  Proof using HK.
    intros (H1 & H2 & H3). unfold dq_push_front, tight, dq_end in *. case_decide; simpl.
    - split; [lia|]. rewrite Nat.mul_add_distr_r. lia.
    - lia.
  Qed.
  Lemma tight_pop_front d : tight d → tight (dq_pop_front d).
  Proof using. clear HK.
    intros (H1 & H2 & H3). unfold dq_pop_front, tight, dq_end in *. destruct (dq_els d) eqn:E; simpl in *; rewrite ?E //=.
    lia.
  Qed.
  Lemma tight_set i x d : tight d → tight (dq_set i x d).
  Proof using. clear HK. unfold tight, dq_end. simpl. by rewrite insert_length. Qed.
  Lemma tight_append vs d : tight d → ∃ d', dq_append K vs d = Some d' ∧ tight d' ∧ dq_els d' = dq_els d ++ vs.
  Proof using HK.
    revert d. induction vs as [|x vs IH]; intros d Ht; simpl.
    - exists d. by rewrite app_nil_r.
    - destruct (tight_push_back x d Ht) as (d1 & -> & Ht1 & E1). destruct (IH d1 Ht1) as (d2 & -> & Ht2 & E2).
      exists d2. by rewrite E2 E1 -app_assoc.
  Qed.
  Lemma push_front_els x d : dq_els (dq_push_front K x d) = x :: dq_els d.
  Proof using. clear HK. unfold dq_push_front. by case_decide. Qed.
  Lemma pop_front_els d : dq_els (dq_pop_front d) = tail (dq_els d).
  Proof using. clear HK. unfold dq_pop_front. destruct (dq_els d) eqn:E; by rewrite ?E. Qed.
  Lemma push_front_chunks x d : dq_chunks d ≤ dq_chunks (dq_push_front K x d).
  Proof using. clear HK. unfold dq_push_front. case_decide; simpl; lia. Qed.
  Lemma pop_front_chunks d : dq_chunks (dq_pop_front d) = dq_chunks d.
  Proof using. clear HK. unfold dq_pop_front. by destruct (dq_els d). Qed.
End facts.

Section hist.
  Context {V : Type} (K : nat) (HK : 2 ≤ K).
  Context (md : mode) (Hmc : mC md = false).
  Implicit Types (d : dstate V).
  (** with positions *)
  Definition dqp (l : loc) d : hprop (dcell V) := (⌞dq_chunks d ≠ 0⌟ ∗ dq K l d)%I.
  (** without *)
  Definition dqs (l : loc) (xs : list V) : hprop (dcell V) := (∃ d, ⌞dq_els d = xs ∧ tight K d⌟ ∗ dq K l d)%I.

  Ltac fresh_s Hs h := unfold dfresh in Hs; destruct (_ !! h) eqn:?; simplify_eq.
  Ltac got Hs h := match type of Hs with context [?s !! h] =>
    let d := fresh "d" in let E := fresh "E" in destruct (s !! h) as [d|] eqn:E; [|done] end.

  Lemma dpos_op_spec : op_spec (dpos K) (d_run K) (d_ok (mA md)) (objs dqp) md.
  Proof using HK Hmc.
    intros env s op s' o HA Hs. unfold d_ok in HA. destruct op; simpl in Hs |- *.
    - fresh_s Hs h. apply op_decl; [done|]. iIntros "_". iApply wp_dq_new; [done..|]. iIntros (l) "H". by iFrame.
    - destruct (dq_append K vs _) as [d|] eqn:Ea; [|done]. fresh_s Hs h.
      apply op_decl; [done|]. iIntros "_". iApply wp_d_init; [done..|]. iIntros (l) "H". iFrame. iPureIntro.
      pose proof (dq_append_chunks _ _ _ _ Ea). simpl in *. lia.
    - got Hs g. destruct (dq_append K _ _) as [d'|] eqn:Ea; [|done]. fresh_s Hs h.
      rewrite -{2}(insert_id s g d) //. eapply op_decl_from; [done..|]. intros l'. iIntros "[%Hc H]".
      iApply (wp_dq_copy with "H"); [done..|]. iIntros (l) "H G". iFrame "H G". iSplit; [|done]. iPureIntro.
      pose proof (dq_append_chunks _ _ _ _ Ea). simpl in *. lia.
    - destruct (decide (h = g)); [done|]. got Hs h. got Hs g. destruct (dq_append K _ _) as [d'|] eqn:Ea; [|done].
      simplify_eq. eapply op_act2_l; [done..|]. intros l l'. iIntros "[[%Hc H] [%Hc' G]]".
      iApply (wp_dq_assign with "H G"); [done..|]. iIntros "H G". iSplitR; [done|]. iFrame "H G". iSplit; [|done]. iPureIntro.
      pose proof (dq_append_chunks _ _ _ _ Ea). simpl in *. lia.
    - got Hs h. simplify_eq. eapply op_act1; [done|]. intros l. iIntros "[%Hc H]".
      iApply (wp_dq_push_front with "H"); [done..|]. iIntros "H". iSplitR; [done|]. iFrame. iPureIntro.
      pose proof (push_front_chunks K v d). lia.
    - got Hs h. destruct (dq_push_back K _ _) as [d'|] eqn:Ea; [|done]. simplify_eq.
      eapply op_act1; [done|]. intros l. iIntros "[%Hc H]".
      iApply (wp_dq_push_back with "H"); [done..|]. iIntros "H". iSplitR; [done|]. iFrame. iPureIntro.
      pose proof (push_back_chunks _ _ _ _ Ea). lia.
    - got Hs h. destruct (dq_els d !! i) as [x|] eqn:Ei; [|done]. simplify_eq.
      eapply op_act1; [done|]. intros l. iIntros "[%Hc H]".
      iApply (wp_dq_push_front_own with "H"); [done..|]. iIntros "H". iSplitR; [done|]. iFrame. iPureIntro.
      pose proof (push_front_chunks K x d). lia.
    - got Hs h. destruct (dq_els d !! i) as [x|] eqn:Ei; [|done].
      destruct (dq_push_back K _ _) as [d'|] eqn:Ea; [|done]. simplify_eq.
      eapply op_act1; [done|]. intros l. iIntros "[%Hc H]".
      iApply (wp_dq_push_back_own with "H"); [done..|]. iIntros "H". iSplitR; [done|]. iFrame. iPureIntro.
      pose proof (push_back_chunks _ _ _ _ Ea). lia.
    - got Hs h. simplify_eq. eapply op_act1; [done|]. intros l. iIntros "[%Hc H]".
      iApply (wp_dq_pop_front with "H"); [done..|]. iIntros "H". iSplitR; [done|]. iFrame. by rewrite pop_front_chunks.
    - got Hs h. simplify_eq. eapply op_act1; [done|]. intros l. iIntros "[%Hc H]".
      iApply (wp_dq_pop_back with "H"); [done..|]. iIntros "H". iSplitR; [done|]. by iFrame.
    - got Hs h. simplify_eq. eapply op_act1; [done|]. intros l. iIntros "[%Hc H]".
      iApply (wp_dq_clear with "H"); [done..|]. iIntros "H". iSplitR; [done|]. by iFrame.
    - got Hs h. simplify_eq. eapply op_drop; [done|]. intros l. iIntros "[%Hc H]".
      iApply (wp_dq_dtor with "H"); [done..|]. auto.
    - got Hs h. simplify_eq. eapply op_read1; [done|]. intros l. iIntros "[%Hc H]".
      iApply (wp_dq_size with "H"). iIntros "H". by iFrame.
    - got Hs h. simplify_eq. eapply op_read1; [done|]. intros l. iIntros "[%Hc H]".
      iApply (wp_dq_empty with "H"). iIntros "H". by iFrame.
    - got Hs h. destruct (dq_els d !! i) as [x|] eqn:Ei; [|done]. simplify_eq.
      eapply op_read1; [done|]. intros l. iIntros "[%Hc H]".
      iApply (wp_dq_at with "H"); [done..|]. iIntros "H". by iFrame.
    - got Hs h. destruct (dq_els d !! i) as [x|] eqn:Ei; [|done]. simplify_eq.
      eapply op_act1; [done|]. intros l. iIntros "[%Hc H]".
      iApply (wp_dq_set with "H"); [done..|]. iIntros "H". by iFrame.
    - got Hs h. destruct (head (dq_els d)) as [x|] eqn:Ei; [|done]. simplify_eq.
      eapply op_read1; [done|]. intros l. iIntros "[%Hc H]".
      iApply (wp_dq_front with "H"); [done..|]. iIntros "H". by iFrame.
    - got Hs h. destruct (last (dq_els d)) as [x|] eqn:Ei; [|done]. simplify_eq.
      eapply op_read1; [done|]. intros l. iIntros "[%Hc H]".
      iApply (wp_dq_back with "H"); [done..|]. iIntros "H". by iFrame.
    - got Hs h. case_decide; [done|]. simplify_eq.
      eapply op_read1; [done|]. intros l. iIntros "[%Hc H]".
      iApply (wp_dq_iterate with "H"); [done..|]. iIntros "H". by iFrame.
  Qed.

  Lemma dqs_done l d (φ : Prop) : φ → tight K d → dq K l d ⊢ ⌞φ⌟ ∗ dqs l (dq_els d).
  Proof using. iIntros (Hφ Ht) "H". iSplitR; [done|]. iExists d. by iFrame. Qed.
  Lemma dqs_intro l d xs : dq_els d = xs → tight K d → dq K l d ⊢ dqs l xs.
  Proof using. iIntros (<- Ht) "H". iExists d. by iFrame. Qed.

  Section same.
    Context (HA : mA md = false).
    Lemma dqs_new l' : dq K l' (dq_fresh (V:=V) K) ⊢ dqs l' [].
    Proof using HK. apply dqs_intro; [done|by apply tight_fresh]. Qed.
    Lemma wp_dqs_copy l ys :
      dqs l ys ⊢ wp md (d_copy K l) (λ l', dqs l' ys ∗ dqs l ys) (unch md (dqs l ys)).
    Proof using HK HA Hmc.
      iIntros "H". iDestruct "H" as (d [<- Ht]) "H".
      destruct (tight_append K HK (dq_els d) (dq_fresh K)) as (d' & Ea & Ht' & E); [by apply tight_fresh|].
      iApply (wp_dq_copy with "H"); [done..|]. iIntros (l') "H G". iSplitL "H".
      - by iApply (dqs_intro with "H").
      - by iApply (dqs_intro with "G").
    Qed.
    Lemma wp_dqs_push_back l xs x : 
      dqs l xs ⊢ wp md (d_push_back K l (DVal x)) (λ _, dqs l (xs ++ [x])) (unch md (dqs l xs)).
    Proof using HK HA Hmc.
      iIntros "H". iDestruct "H" as (d [<- Ht]) "H". destruct (tight_push_back K HK x d Ht) as (d' & Ea & Ht' & E).
      iApply (wp_dq_push_back with "H"); [done..|]. iIntros "H". by iApply (dqs_intro with "H").
    Qed.
    Lemma wp_dqs_pop_front l xs : 
      dqs l xs ⊢ wp md (d_pop_front K l) (λ _, dqs l (tail xs)) (unch md (dqs l xs)).
    Proof using HK HA Hmc.
      iIntros "H". iDestruct "H" as (d [<- Ht]) "H". iApply (wp_dq_pop_front with "H"); [done..|]. iIntros "H".
      iApply (dqs_intro with "H"); [by rewrite pop_front_els|by apply tight_pop_front].
    Qed.
  End same.

  Lemma dseq_op_spec : op_spec dseq (d_run K) (d_oks (mA md)) (objs dqs) md.
  Proof using HK Hmc.
    intros env s op s' o [HA Hsafe] Hs. destruct op; simpl in Hs, Hsafe |- *; try done.
    - fresh_s Hs h. apply op_decl; [done|]. iIntros "_". iApply wp_dq_new; [done..|]. iIntros (l) "H".
      by iApply (dqs_new with "H").
    - fresh_s Hs h. destruct (tight_append K HK vs (dq_fresh K)) as (d' & Ea & Ht' & E); [by apply tight_fresh|].
      apply op_decl; [done|]. iIntros "_". iApply wp_d_init; [done..|]. iIntros (l) "H". by iApply (dqs_intro with "H").
    - got Hs g. fresh_s Hs h. eapply op_copy; [done..|]. intros l'. by apply wp_dqs_copy.
    - got Hs h. simplify_eq. eapply op_act1; [done|]. intros l. iIntros "H". iDestruct "H" as (d' [<- Ht]) "H".
      iApply (wp_dq_push_front with "H"); [done..|]. iIntros "H". iSplitR; [done|].
      iApply (dqs_intro with "H"); [by rewrite push_front_els|by apply tight_push_front].
    - got Hs h. simplify_eq. eapply op_act1; [done|]. intros l. iIntros "H".
      iApply (wp_wand with "[H]"); [by iApply wp_dqs_push_back|]. iSplit; [|auto]. iIntros (_) "$". done.
    - got Hs h. destruct (_ !! i) as [x|] eqn:Ei; [|done]. simplify_eq. eapply op_act1; [done|]. intros l.
      iIntros "H". iDestruct "H" as (d' [<- Ht]) "H".
      iApply (wp_dq_push_front_own with "H"); [done..|]. iIntros "H". iSplitR; [done|].
      iApply (dqs_intro with "H"); [by rewrite push_front_els|by apply tight_push_front].
    - got Hs h. destruct (_ !! i) as [x|] eqn:Ei; [|done]. simplify_eq. eapply op_act1; [done|]. intros l.
      iIntros "H". iDestruct "H" as (d' [<- Ht]) "H". destruct (tight_push_back K HK x d' Ht) as (d'' & Ea & Ht' & E').
      iApply (wp_dq_push_back_own with "H"); [done..|]. iIntros "H". iSplitR; [done|].
      by iApply (dqs_intro with "H").
    - got Hs h. simplify_eq. eapply op_act1; [done|]. intros l. iIntros "H".
      iApply (wp_wand with "[H]"); [by iApply wp_dqs_pop_front|]. iSplit; [|auto]. iIntros (_) "$". done.
    - got Hs h. simplify_eq. eapply op_drop; [done|]. intros l. iIntros "H". iDestruct "H" as (d' [<- Ht]) "H".
      iApply (wp_dq_dtor with "H"); [done|apply Ht|]. auto.
    - got Hs h. simplify_eq. eapply op_read1; [done|]. intros l. iIntros "H". iDestruct "H" as (d' [<- Ht]) "H".
      iApply (wp_dq_size with "H"). iIntros "H". by iApply (dqs_done with "H").
    - got Hs h. simplify_eq. eapply op_read1; [done|]. intros l. iIntros "H". iDestruct "H" as (d' [<- Ht]) "H".
      iApply (wp_dq_empty with "H"). iIntros "H". by iApply (dqs_done with "H").
    - got Hs h. destruct (_ !! i) as [x|] eqn:Ei; [|done]. simplify_eq.
      eapply op_read1; [done|]. intros l. iIntros "H". iDestruct "H" as (d' [<- Ht]) "H".
      iApply (wp_dq_at with "H"); [done..|]. iIntros "H". by iApply (dqs_done with "H").
    - got Hs h. destruct (_ !! i) as [x|] eqn:Ei; [|done]. simplify_eq.
      eapply op_act1; [done|]. intros l. iIntros "H". iDestruct "H" as (d' [<- Ht]) "H".
      iApply (wp_dq_set with "H"); [done..|]. iIntros "H". iSplitR; [done|].
      iApply (dqs_intro with "H"); [done|by apply tight_set].
    - got Hs h. destruct (head d) as [x|] eqn:Ei; [|done]. simplify_eq.
      eapply op_read1; [done|]. intros l. iIntros "H". iDestruct "H" as (d' [<- Ht]) "H".
      iApply (wp_dq_front with "H"); [done..|]. iIntros "H". by iApply (dqs_done with "H").
    - got Hs h. destruct (last d) as [x|] eqn:Ei; [|done]. simplify_eq.
      eapply op_read1; [done|]. intros l. iIntros "H". iDestruct "H" as (d' [<- Ht]) "H".
      iApply (wp_dq_back with "H"); [done..|]. iIntros "H". by iApply (dqs_done with "H").
  Qed.

  Lemma qseq_op_spec : op_spec qseq (q_run K) (q_ok (mA md)) (objs dqs) md.
  Proof using HK Hmc.
    intros env s op s' o HA Hs. unfold q_ok in HA. destruct op; simpl in Hs |- *.
    - fresh_s Hs h. apply op_decl; [done|]. iIntros "_". iApply wp_dq_new; [done..|]. iIntros (l) "H".
      by iApply (dqs_new with "H").
    - got Hs g. fresh_s Hs h. eapply op_copy; [done..|]. intros l'. by apply wp_dqs_copy.
    - got Hs h. simplify_eq. eapply op_act1; [done|]. intros l. iIntros "H".
      iApply (wp_wand with "[H]"); [by iApply wp_dqs_push_back|]. iSplit; [|auto]. iIntros (_) "$". done.
    - got Hs h. simplify_eq. eapply op_act1; [done|]. intros l. iIntros "H".
      iApply (wp_wand with "[H]"); [by iApply wp_dqs_pop_front|]. iSplit; [|auto]. iIntros (_) "$". done.
    - got Hs h. destruct (head d) as [x|] eqn:Ei; [|done]. simplify_eq.
      eapply op_read1; [done|]. intros l. iIntros "H". iDestruct "H" as (d' [<- Ht]) "H".
      iApply (wp_dq_front with "H"); [done..|]. iIntros "H". by iApply (dqs_done with "H").
    - got Hs h. destruct (last d) as [x|] eqn:Ei; [|done]. simplify_eq.
      eapply op_read1; [done|]. intros l. iIntros "H". iDestruct "H" as (d' [<- Ht]) "H".
      iApply (wp_dq_back with "H"); [done..|]. iIntros "H". by iApply (dqs_done with "H").
    - got Hs h. simplify_eq. eapply op_read1; [done|]. intros l. iIntros "H". iDestruct "H" as (d' [<- Ht]) "H".
      iApply (wp_dq_size with "H"). iIntros "H". by iApply (dqs_done with "H").
    - got Hs h. simplify_eq. eapply op_read1; [done|]. intros l. iIntros "H". iDestruct "H" as (d' [<- Ht]) "H".
      iApply (wp_dq_empty with "H"). iIntros "H". by iApply (dqs_done with "H").
    - got Hs h. simplify_eq. eapply op_drop; [done|]. intros l. iIntros "H". iDestruct "H" as (d' [<- Ht]) "H".
      iApply (wp_dq_dtor with "H"); [done|apply Ht|]. auto.
  Qed.
End hist.
