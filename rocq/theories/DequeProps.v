(** Proofs behind the deque and queue theorems of PropDeque.v. *)
From iris.proofmode Require Import tactics.
From Verif Require Import SLTac HistGen ModelDeque SpecDeque DequeProofs DequeHist DequeMem DequeIter.

(** ** Positions and sequences agree *)
Section erase.
  Context {V : Type} (K : nat).
  Implicit Types (s : gmap nat (dstate V)) (d : dstate V).
  Notation er s := (dq_els <$> s : gmap nat (list V)).
  Lemma push_back_els (x : V) d d' : dq_push_back K x d = Some d' → dq_els d' = dq_els d ++ [x].
  Proof. unfold dq_push_back. intros. repeat case_decide; by simplify_eq. Qed.
  Lemma append_els vs d d' : dq_append K vs d = Some d' → dq_els d' = dq_els d ++ vs.
  Proof.
    revert d. induction vs as [|x vs IH]; intros d; simpl.
    - intros [= ->]. by rewrite app_nil_r.
    - destruct (dq_push_back K x d) as [d1|] eqn:E; [|done]. intros ->%IH.
      by rewrite (push_back_els _ _ _ E) -app_assoc.
  Qed.
  Lemma dfresh_erase s h d s' o :
    dfresh s h d = Some (s', o) → dfresh (V:=V) (er s) h (dq_els d) = Some (er s', o).
  Proof.
    unfold dfresh. rewrite lookup_fmap. destruct (s !! h); [done|]. intros. simplify_eq/=. by rewrite fmap_insert.
  Qed.
  Lemma dpos_dseq s op s' o : dpos K s op = Some (s', o) → dseq (er s) op = Some (er s', o).
  Proof.
    destruct op; simpl; rewrite ?lookup_fmap;
    repeat match goal with
         | |- context [s !! ?h] => destruct (s !! h) as [?d|] eqn:?; simpl; [|done]
         | |- context [decide (?h = ?g)] => destruct (decide (h = g)); [done|]
         | |- context [dq_els ?d !! ?i] => destruct (dq_els d !! i) as [?x|] eqn:?; simpl; [|done]
         | |- context [head (dq_els ?d)] => destruct (head (dq_els d)) as [?x|] eqn:?; simpl; [|done]
         | |- context [last (dq_els ?d)] => destruct (last (dq_els d)) as [?x|] eqn:?; simpl; [|done]
         | |- context [dq_append K ?vs ?t] => destruct (dq_append K vs t) as [?d|] eqn:?; simpl; [|done]
         | |- context [dq_push_back K ?x ?d] => destruct (dq_push_back K x d) as [?d|] eqn:?; simpl; [|done]
         end.
    all: repeat match goal with
         | H : dq_append _ _ _ = Some _ |- _ => apply append_els in H; simpl in H
         | H : dq_push_back _ _ _ = Some _ |- _ => apply push_back_els in H; simpl in H
         end.
    all: try (intros H%dfresh_erase; first [exact H|congruence]).
    all: try (case_decide; [done|]).
    all: try (intros [= <- <-]; rewrite ?fmap_insert ?fmap_delete; try done;
              rewrite ?push_front_els ?pop_front_els; congruence).
  Qed.
End erase.

Section hists.
  Context {V : Type} (K : nat) (HK : 2 ≤ K).
  Lemma dpos_refines ao co : no_fail ao → no_fail co →
    refines_from (dpos (V:=V) K) (d_run K) ∅ ∅ (λ s, s = ∅) (λ _, True) ao co.
  Proof using HK.
    apply (gen_fair (dqp K) _ _ d_ok); [done|]. intros md Hmc. by apply dpos_op_spec.
  Qed.
  Lemma dseq_refines ao co : no_fail ao → no_fail co →
    refines_from (dseq (V:=V)) (d_run K) ∅ ∅ (λ s, s = ∅) d_safe ao co.
  Proof using HK.
    intros Hao Hco evs s env m Hh Hok.
    assert (bool_decide (¬ no_fail ao) = false) as Eb by (apply bool_decide_eq_false; tauto).
    destruct (gen_refines (dqs K) dseq (d_run K) d_oks (λ md Hmc, dseq_op_spec K HK md Hmc) ao co Hco evs s env m Hh)
      as (H1 & H2 & H3 & H4).
    { rewrite Eb. eapply Forall_impl; [exact Hok|]. done. }
    split; [done|]. split; [done|]. split; [|done].
    intros op Hop. apply H3. by rewrite Eb.
  Qed.
  Lemma qseq_refines ao co : no_fail ao → no_fail co →
    refines_from (qseq (V:=V)) (q_run K) ∅ ∅ (λ s, s = ∅) (λ _, True) ao co.
  Proof using HK.
    apply (gen_fair (dqs K) _ _ q_ok); [done|]. intros md Hmc. by apply qseq_op_spec.
  Qed.
  Lemma dpos_reach ao co evs s env m :
    no_fail ao → no_fail co → hist (dpos (V:=V) K) (d_run K) ∅ ∅ (mem0 ao co) evs s env m →
    (∀ h d, s !! h = Some d → ∃ l v cap cs, env !! h = Some l ∧ d_holds K m l v cap cs d) ∧
    size (blk m) = map_fold (λ _ d n, 2 + dq_chunks d + n) 0 s.
  Proof using HK.
    intros Hao Hco Hh.
    destruct (gen_reach (dqp K) _ _ d_ok (λ md Hmc, dpos_op_spec K HK md Hmc) false ao co evs s env m) as [Hr _];
      [done|done|done|by apply Forall_true|].
    split.
    - intros h d Hs. destruct (objs_at _ _ _ _ _ _ Hr Hs) as (l & h' & Hl & Hn & Hsub).
      apply pure_sep_inv in Hn as [_ (v & cap & cs & Hn)].
      exists l, v, cap, cs. split; [done|]. by eapply dobj_holds.
    - eapply (objs_count _ (λ d, 2 + dq_chunks d) size); [apply map_size_empty|by apply map_size_disj_union| |done].
      intros l x h Hn. apply pure_sep_inv in Hn as [_ (v & cap & cs & Hn)]. by eapply dobj_size.
  Qed.
  (** all elements in bounds, at their place *)
  Lemma dseq_reach ao co evs s env m :
    no_fail ao → no_fail co → hist (dseq (V:=V)) (d_run K) ∅ ∅ (mem0 ao co) evs s env m →
    Forall (λ ev, d_safe ev.1) evs →
    ∀ h xs, s !! h = Some xs → ∃ l v cap cs d, env !! h = Some l ∧ d_holds K m l v cap cs d ∧ dq_els d = xs.
  Proof using HK.
    intros Hao Hco Hh Hok.
    destruct (gen_reach (dqs K) _ _ d_oks (λ md Hmc, dseq_op_spec K HK md Hmc) false ao co evs s env m) as [Hr _];
      [done|done|done|by eapply Forall_impl|].
    intros h d Hs. destruct (objs_at _ _ _ _ _ _ Hr Hs) as (l & h' & Hl & (x & Hn) & Hsub).
    apply pure_sep_inv in Hn as [[<- _] (v & cap & cs & Hn)].
    exists l, v, cap, cs, x. split; [done|]. split; [|done]. by eapply dobj_holds.
  Qed.
End hists.

(** ** Single calls *)
Section calls.
  Context {V : Type} (K : nat) (HK : 2 ≤ K).
  Implicit Types (d : dstate V) (m : mem (dcell V)).

  Lemma leak_inv h : leak (V:=V) K h → ∃ zs : list loc, length zs ≤ 1 ∧
    (∀ q, q ∈ zs ↔ is_Some (h !! q)) ∧ ∀ q, q ∈ zs → h !! q = Some (DArr (replicate K None)).
  Proof using.
    clear HK. intros [H|[p H]].
    - apply hprop_emp_eq in H as ->. exists []. split; [simpl; lia|]. split; [|by intros q ?%elem_of_nil].
      intros q. rewrite lookup_empty. split; [by intros ?%elem_of_nil|by intros []].
    - apply pt_eq in H as ->. exists [p]. split; [done|]. split.
      + intros q. rewrite elem_of_list_singleton /is_Some. setoid_rewrite lookup_singleton_Some. naive_solver.
      + intros q ->%elem_of_list_singleton. apply lookup_singleton.
  Qed.

  (** pushing when the allocator may fail *)
  Lemma push_run m this v cap cs d d' (f : M (dcell V) unit) :
    may_fail_alloc m → d_holds K m this v cap cs d →
    (dobj K this v cap cs d ⊢ wp mT f (λ _, dq K this d') (λ e, ⌞e = BadAlloc⌟ ∗ dobj K this v cap cs d ∗ leak K)) →
    push_outcome K m this v cs d d' (f m).
  Proof using.
    intros Hm (Hnd & Hf & Hs)%d_holds_heap Hw. apply good_may_fail in Hm.
    pose proof (run_exact _ _ _ _ _ _ _ Hm (dheap_exact K _ _ _ _ _ Hnd Hf) Hs Hw) as H. unfold push_outcome.
    destruct (f m) as [[] m'|e m'| |]; [| |done..].
    - destruct H as (Hm' & h' & (v' & cap' & cs' & Hx) & Hd & Hb). split; [by apply good_may_fail'|].
      exists v', cap', cs'. split.
      + eapply dobj_holds; [done|]. rewrite Hb. apply map_union_subseteq_l.
      + eapply owned_replaces; [exact Hs|apply dheap_dom|by eapply dobj_cells|done|done].
    - destruct H as (Hm' & h' & HE & Hd & Hb). apply pure_sep_inv in HE as [-> HE].
      split; [done|]. split; [by apply good_may_fail'|].
      apply hprop_sep_eq in HE as (h1 & h2 & -> & Hd12 & H1 & H2).
      apply leak_inv in H2 as (zs & Hzs & Hdom & Hval). exists cap, zs.
      split; [eapply dobj_holds; [done|]; rewrite Hb -assoc_L; apply map_union_subseteq_l|]. split; [done|].
      pose proof (dobj_cells K _ _ _ _ _ _ H1) as Hc1.
      pose proof (dobj_holds K _ _ _ _ _ _ (Mem h1 1%positive [] []) H1 (reflexivity _)) as [_ ->].
      split.
      + intros q Hq. specialize (Hval q Hq). split.
        * assert (dheap K this v cap cs d !! q = None) as Hq1 by (by eapply map_disjoint_Some_r).
          assert ((blk m ∖ dheap K this v cap cs d) !! q = None) as Hq2.
          { eapply map_disjoint_Some_l; [exact Hd|]. by rewrite lookup_union_r. }
          apply lookup_difference_None in Hq2 as [?|[? ?]]; [done|congruence].
        * rewrite Hb. apply lookup_union_Some_l. by rewrite lookup_union_r; [|by eapply map_disjoint_Some_r].
      + eapply owned_replaces; [exact Hs|apply (dheap_dom K this v cap cs d)| |done|done].
        intros q. rewrite elem_of_app lookup_union_is_Some Hdom -Hc1. done.
  Qed.
  Lemma push_back_run m this v cap cs d d' x :
    may_fail_alloc m → d_holds K m this v cap cs d → dq_push_back K x d = Some d' →
    push_outcome K m this v cs d d' (d_push_back K this (DVal x) m).
  Proof using HK.
    intros Hm Hh Hp. eapply push_run; [done..|]. iIntros "H".
    iApply (wp_d_push_back _ HK mT eq_refl emp with "[//] H"); [done|apply reads_val|]. iSplit.
    - iIntros (_) "_ H G". by iFrame.
    - by iIntros "_ H".
  Qed.
  Lemma push_front_run m this v cap cs d x :
    may_fail_alloc m → d_holds K m this v cap cs d →
    push_outcome K m this v cs d (dq_push_front K x d) (d_push_front K this (DVal x) m).
  Proof using HK.
    intros Hm Hh. eapply push_run; [done..|]. iIntros "H".
    iApply (wp_d_push_front _ HK mT eq_refl emp with "[//] H"); [apply reads_val|]. iSplit.
    - iIntros (_) "_ H G". by iFrame.
    - by iIntros "_ H".
  Qed.
  (** the argument is a reference to one of the deque's own elements *)
  Lemma push_own_run m this v cap cs d d' i x :
    may_fail_alloc m → d_holds K m this v cap cs d → dq_els d !! i = Some x → dq_push_back K x d = Some d' →
    push_outcome K m this v cs d d' ((r <- d_index K this i ;; d_push_back K this (DSlot r)) m) ∧
    push_outcome K m this v cs d (dq_push_front K x d) ((r <- d_index K this i ;; d_push_front K this (DSlot r)) m).
  Proof using HK.
    intros Hm Hh Hi Hp. split; (eapply push_run; [done..|]); iIntros "(%Hf & H & HD)";
      destruct (elem_chunk K HK _ _ _ _ Hf Hi) as [c Hc]; wbind;
      (iApply (wp_d_index with "H"); [done..|]); iIntros "H".
    - iApply (wp_d_push_back _ HK mT eq_refl emp with "[//] [$H $HD //]"); [done|by apply reads_own|]. iSplit.
      + iIntros (_) "_ H G". by iFrame.
      + by iIntros "_ H".
    - iApply (wp_d_push_front _ HK mT eq_refl emp with "[//] [$H $HD //]"); [by apply reads_own|]. iSplit.
      + iIntros (_) "_ H G". by iFrame.
      + by iIntros "_ H".
  Qed.

  (** popping destroys one element and changes nothing else *)
  Lemma pop_run m this v cap cs d :
    may_fail_alloc m → d_holds K m this v cap cs d →
    (∃ m', d_pop_front K this m = Ok tt m' ∧ may_fail_alloc m' ∧ d_holds K m' this v cap cs (dq_pop_front d) ∧
       replaces (d_cells this v cs) m (d_cells this v cs) m') ∧
    (∃ m', d_pop_back K this m = Ok tt m' ∧ may_fail_alloc m' ∧ d_holds K m' this v cap cs (dq_pop_back d) ∧
       replaces (d_cells this v cs) m (d_cells this v cs) m').
  Proof using HK.
    intros Hm%good_may_fail Hh. split.
    - destruct (d_run_quiet K m this v cap cs d (d_pop_front K this) tt (dq_pop_front d) mT) as (m' & ? & ? & ? & ?);
        [done..| |exists m'; split; [done|]; split; [by apply good_may_fail'|done]].
      iIntros "H". iApply (wp_d_pop_front with "H"); [done|]. by iIntros "$".
    - destruct (d_run_quiet K m this v cap cs d (d_pop_back K this) tt (dq_pop_back d) mT) as (m' & ? & ? & ? & ?);
        [done..| |exists m'; split; [done|]; split; [by apply good_may_fail'|done]].
      iIntros "H". iApply (wp_d_pop_back with "H"); [done|]. by iIntros "$".
  Qed.
  Lemma clear_run m this v cap cs d :
    may_fail_alloc m → d_holds K m this v cap cs d → dq_chunks d ≠ 0 →
    ∃ m', d_clear K this m = Ok tt m' ∧ may_fail_alloc m' ∧ d_holds K m' this v cap cs (dq_clear K d) ∧
       replaces (d_cells this v cs) m (d_cells this v cs) m'.
  Proof using HK.
    intros Hm%good_may_fail Hh Hc.
    destruct (d_run_quiet K m this v cap cs d (d_clear K this) tt (dq_clear K d) mT) as (m' & ? & ? & ? & ?);
        [done..| |exists m'; split; [done|]; split; [by apply good_may_fail'|done]].
    iIntros "H". iApply (wp_d_clear with "H"); [done..|]. by iIntros "$".
  Qed.
  (** assigning a deque to itself empties it *)
  Lemma self_assign_run m this v cap cs d :
    may_fail_alloc m → d_holds K m this v cap cs d → dq_chunks d ≠ 0 →
    ∃ m', d_assign K this this m = Ok tt m' ∧ may_fail_alloc m' ∧ d_holds K m' this v cap cs (dq_clear K d).
  Proof using HK.
    intros Hm%good_may_fail Hh Hc.
    destruct (d_run_quiet K m this v cap cs d (d_assign K this this) tt (dq_clear K d) mT) as (m' & ? & ? & ? & ?);
        [done..| |exists m'; split; [done|]; split; [by apply good_may_fail'|done]].
    iIntros "H". rewrite /d_assign. wbind. iApply (wp_d_clear with "H"); [done..|]. iIntros "(%Hf & [H G] & HD)".
    rewrite /d_append. wstep wp_size "H". simpl. wret. iSplitR; [done|]. iSplitR; [done|]. iFrame.
  Qed.
  (** destruction *)
  Lemma dtor_run m this v cap cs d :
    may_fail_alloc m → d_holds K m this v cap cs d → dq_chunks d ≠ 0 →
    ∃ m', d_dtor K this m = Ok tt m' ∧ may_fail_alloc m' ∧ replaces (d_cells this v cs) m [] m'.
  Proof using HK.
    intros Hm%good_may_fail (Hnd & Hf & Hs)%d_holds_heap Hc.
    assert (dobj K this v cap cs d ⊢ wp mT (d_dtor K this) (λ _, emp) (λ _, False)) as Hw.
    { iIntros "H". iApply (wp_d_dtor with "H"); [done..|]. auto. }
    pose proof (run_exact _ _ _ _ _ _ _ Hm (dheap_exact K _ _ _ _ _ Hnd Hf) Hs Hw) as H.
    destruct (d_dtor K this m) as [[] m'|e m'| |]; [| |done..].
    - destruct H as (Hm' & h' & He & Hd & Hb). exists m'. split; [done|]. split; [by apply good_may_fail'|].
      eapply owned_replaces; [exact Hs|apply (dheap_dom K this v cap cs d)| |done|done].
      assert (h' = ∅) as -> by (by apply hprop_emp_eq). intros l. rewrite lookup_empty.
      split; [by intros ?%elem_of_nil|by intros []].
    - by destruct H as (_ & h' & [] & _).
  Qed.
  (** ** A queue that is repeatedly pushed to and popped from *)
  Lemma wp_churn x n md Q R : mC md = false → mA md = false →
    (∀ l d, ⌞dq_els d = [] ∧ tight K d ∧ dq_lo d = (K / 2 + n)%nat⌟ ∗ dq K l d -∗ Q l) -∗ wp md (churn K x n) Q R.
  Proof using HK.
    iIntros (Hmc HA) "HQ". rewrite /churn /q_new. wbind. iApply wp_dq_new; [done..|]. iIntros (l) "H". wbind.
    iApply (wp_for_up _ (λ i, ∃ d, ⌞dq_els d = [] ∧ tight K d ∧ dq_lo d = (K / 2 + i)%nat⌟ ∗ dq K l d)%I with "[H]").
    - intros i Hi. iIntros "H". iDestruct "H" as (d (Hd & Ht & Hlo)) "H".
      destruct (tight_push_back K HK x d Ht) as (d' & Ea & Ht' & E). rewrite /q_push /q_pop.
      wbind. iApply (wp_dq_push_back with "H"); [done..|]. iIntros "H".
      iApply (wp_dq_pop_front with "H"); [done..|]. iIntros "H". iExists _. iFrame. iPureIntro.
      rewrite pop_front_els E Hd. split; [done|]. split; [by apply tight_pop_front|].
      unfold dq_pop_front. rewrite E Hd. cbn [app dq_lo].
      assert (dq_lo d' = dq_lo d) as -> by (unfold dq_push_back in Ea; repeat case_decide; by simplify_eq). rewrite Hlo. lia.
    - iExists (dq_fresh K). iFrame. iPureIntro. split; [done|]. split; [by apply tight_fresh|].
      cbn [dq_fresh dq_lo]. lia.
    - iIntros "H". iDestruct "H" as (d (Hd & Ht & Hlo)) "H". wret. iApply ("HQ" $! l d). by iFrame.
  Qed.
  Lemma churn_run x n :
    ∃ q m v cap cs d, churn K x n (mem0 [] []) = Ok q m ∧ d_holds K m q v cap cs d ∧ dq_els d = [] ∧
      n ≤ dq_chunks d * K.
  Proof using HK.
    assert (good mF (mem0 (C:=dcell V) [] [])) as Hm.
    { apply good_fair. split; [by intros l; rewrite lookup_empty; intros []|]. split; constructor. }
    assert (emp ⊢ wp mF (churn K x n) (λ q, ∃ d, ⌞dq_els d = [] ∧ tight K d ∧ dq_lo d = (K / 2 + n)%nat⌟ ∗ dq K q d) (λ _, False)) as Hw.
    { iIntros "_". iApply wp_churn; [done..|]. iIntros (l d) "H". by iExists d. }
    pose proof (run_exact _ _ _ _ _ _ _ Hm exact_emp (map_empty_subseteq _) Hw) as H.
    destruct (churn K x n (mem0 [] [])) as [q m'|e m'| |]; [| |done..].
    - destruct H as (Hm' & h' & (d & Hx) & Hd & Hb).
      apply pure_sep_inv in Hx as [(E & (_ & Ht & Ht') & Hlo) (v & cap & cs & Hx)].
      exists q, m', v, cap, cs, d. split; [done|]. split; [|split; [done|]].
      + eapply dobj_holds; [done|]. rewrite Hb. apply map_union_subseteq_l.
      + unfold dq_end in Ht'. lia.
    - by destruct H as (_ & h' & [] & _).
  Qed.
End calls.

(** ** Iteration *)
Section iter.
  Context {V : Type} (K : nat) (HK : 2 ≤ K).
  Implicit Types (d : dstate V) (m : mem (dcell V)).
  Lemma iterate_run m this v cap cs d :
    may_fail_alloc m → d_holds K m this v cap cs d → ¬ at_boundary K d →
    ∃ m', d_iterate K this m = Ok (dq_els d) m' ∧ may_fail_alloc m' ∧ d_holds K m' this v cap cs d ∧
       replaces (d_cells this v cs) m (d_cells this v cs) m'.
  Proof using HK.
    intros Hm%good_may_fail Hh Hc.
    destruct (d_run_quiet K m this v cap cs d (d_iterate K this) (dq_els d) d mT) as (m' & ? & ? & ? & ?);
        [done..| |exists m'; split; [done|]; split; [by apply good_may_fail'|done]].
    iIntros "H". iApply (wp_d_iterate with "H"); [done..|]. by iIntros "$".
  Qed.
  Lemma iter_facts m this v cap cs d : d_holds K m this v cap cs d →
    (∀ p it, iter_at K v cs p it → p + 1 < length cs * K →
      ∃ it', d_incr K it m = Ok it' m ∧ iter_at K v cs (p + 1) it') ∧
    (∀ p it, iter_at K v cs p it → p mod K ≠ 0 → ∃ it', d_decr it m = Ok it' m ∧ iter_at K v cs (p - 1) it') ∧
    (∀ p q x y, iter_at K v cs p x → iter_at K v cs q y → p / K = q / K →
      d_diff K x y m = Ok (Z.of_nat p - Z.of_nat q)%Z m) ∧
    (∀ p q x y, iter_at K v cs p x → iter_at K v cs q y → d_eq x y = bool_decide (p = q)) ∧
    (∀ p it, iter_at K v cs p it → d_get (di_p it) m = match slot d p with Some x => Ok x m | None => UB end).
  Proof using HK.
    intros Hh. split; [intros; by eapply (iter_next K HK)|]. split; [intros; by eapply (iter_prev K HK)|].
    split; [|split; [intros; by eapply (iter_eq K HK)|intros; by eapply (iter_get K HK)]].
    intros p q x y Hx Hy E. rewrite (iter_diff K HK _ _ _ _ _ _ Hh _ _ _ _ Hx Hy). f_equal.
    pose proof (pos_eq K HK p). pose proof (pos_eq K HK q). rewrite E in H. lia.
  Qed.
  Lemma diff_wrong m this v cap cs d p q x y : d_holds K m this v cap cs d →
    iter_at K v cs p x → iter_at K v cs q y → p / K ≠ q / K →
    ∃ z, d_diff K x y m = Ok z m ∧ z ≠ (Z.of_nat p - Z.of_nat q)%Z.
  Proof using HK.
    intros Hh Hx Hy Hne. eexists. split; [by apply (iter_diff K HK _ _ _ _ _ _ Hh)|].
    pose proof (pos_eq K HK p). pose proof (pos_eq K HK q). intros E. apply Hne.
    pose proof (pos_mod K HK p). pose proof (pos_mod K HK q). nia.
  Qed.
End iter.

(** ** Histories that go wrong *)
Section bad.
  Context {C Op Out S Env : Type}.
  Context (step : S → Op → option (S * Out)) (run : Env → Op → M C (Env * Out)).
  Definition goes_wrong (s : S) (env : Env) (m : mem C) (ops : list Op) (op : Op) : bool :=
    match exec step run s env m ops with
    | Some (_, s', env', m') =>
        match step s' op, run env' op m' with Some _, UB => true | _, _ => false end
    | None => false
    end.
  Lemma goes_wrong_refutes s env ao co ops op gone :
    goes_wrong s env (mem0 ao co) ops op = true →
    ¬ refines_from step run s env gone (λ _, True) ao co.
  Proof.
    unfold goes_wrong. intros H Hr.
    destruct (exec step run s env (mem0 ao co) ops) as [[[[evs s'] env'] m']|] eqn:E; [|done].
    destruct (step s' op) as [so|] eqn:Es; [|done]. destruct (run env' op m') eqn:Er; try done.
    destruct (Hr evs s' env' m') as (_ & _ & Hs & _); [by eapply exec_hist|by apply Forall_true|].
    specialize (Hs op I). rewrite Es Er in Hs. apply Hs. eauto.
  Qed.
End bad.

(** ** Which histories are covered *)
Section defined.
  Context {V : Type} (K : nat).
  Lemma push_back_undefined (x : V) d :
    dq_push_back K x d = None ↔ at_boundary K d ∧ dq_end d ≠ dq_chunks d * K.
  Proof. unfold dq_push_back. repeat case_decide; naive_solver. Qed.
  Lemma dpos_defined (s : gmap nat (dstate V)) op so :
    dseq (dq_els <$> s) op = Some so →
    is_Some (dpos K s op) ∨
    match op with
    | DInit _ _ | DCopy _ _ | DAssign _ _ | DPushBack _ _ | DPushBackOwn _ _ => True
    | DIterate h => ∃ d, s !! h = Some d ∧ at_boundary K d
    | _ => False
    end.
  Proof.
    destruct op; simpl; try (by right); rewrite ?lookup_fmap /dfresh ?lookup_fmap;
      destruct (s !! h) as [d|] eqn:E; simpl; try done; try (intros _; left; eauto; fail).
    all: try (destruct (dq_els d !! i) as [x|] eqn:Ei; simpl; [|done]; intros _; left; eauto; fail).
    all: try (destruct (head (dq_els d)) as [x|] eqn:Ei; simpl; [|done]; intros _; left; eauto; fail).
    all: try (destruct (last (dq_els d)) as [x|] eqn:Ei; simpl; [|done]; intros _; left; eauto; fail).
    intros _. case_decide; [right; eauto|left; eauto].
  Qed.
End defined.

(** ** First in, first out *)
Section fifo.
  Context {V : Type} (K : nat) (HK : 2 ≤ K).
  Notation event := (qop V * outcome (dout V))%type.
  Lemma acc_inv s (ev : event) evs s2 : accepts qseq s (ev :: evs) s2 → Forall (λ ev, ¬ threw ev) (ev :: evs) →
    ∃ s1 o, ev.2 = Ret o ∧ qseq s ev.1 = Some (s1, o) ∧ accepts qseq s1 evs s2 ∧ Forall (λ ev, ¬ threw ev) evs.
  Proof using.
    intros Ha [Ht1 Ht]%Forall_cons. inversion Ha; simplify_eq/=; [eauto 10|]. by destruct Ht1.
  Qed.
  Lemma acc_push (xs : list V) : ∀ s (evs : list event) s2 ops ys,
    accepts qseq s evs s2 → map fst evs = (QPush 0 <$> xs) ++ ops → Forall (λ ev, ¬ threw ev) evs → s !! 0 = Some ys →
    ∃ evs', map snd evs = ((λ _, Ret DoUnit) <$> xs) ++ map snd evs' ∧ accepts qseq (<[0 := ys ++ xs]> s) evs' s2 ∧
      map fst evs' = ops ∧ Forall (λ ev, ¬ threw ev) evs'.
  Proof using.
    clear HK. induction xs as [|x xs IH]; intros s evs s2 ops ys Ha Hm Ht Hs; simpl in *.
    - exists evs. rewrite app_nil_r insert_id //.
    - destruct evs as [|[op o] evs]; [done|]. injection Hm as -> Hm.
      destruct (acc_inv _ _ _ _ Ha Ht) as (s1 & o1 & Ho1 & Hq & Ha1 & Ht1). simpl in Hq, Ho1. subst o. rewrite Hs /= in Hq. simplify_eq.
      destruct (IH _ _ _ _ (ys ++ [x]) Ha1 Hm Ht1) as (evs' & E & Ha' & ? & ?); [by rewrite lookup_insert|].
      exists evs'. simpl. rewrite E. rewrite insert_insert -app_assoc in Ha'. done.
  Qed.
  Lemma acc_pop (xs : list V) : ∀ s (evs : list event) s2,
    accepts qseq s evs s2 → map fst evs = concat (replicate (length xs) [QFront 0; QPop 0]) →
    Forall (λ ev, ¬ threw ev) evs → s !! 0 = Some xs →
    map snd evs = concat ((λ x, [Ret (DoElem x); Ret DoUnit]) <$> xs).
  Proof using.
    clear HK. induction xs as [|x xs IH]; intros s evs s2 Ha Hm Ht Hs; simpl in *.
    - by destruct evs.
    - destruct evs as [|[op o] [|[op' o'] evs]]; [done..|]. injection Hm as -> -> Hm.
      destruct (acc_inv _ _ _ _ Ha Ht) as (s1 & o1 & Ho1 & Hq & Ha1 & Ht1). simpl in Hq, Ho1. subst o. rewrite Hs /= in Hq. simplify_eq.
      destruct (acc_inv _ _ _ _ Ha1 Ht1) as (s3 & o3 & Ho & Hq & Ha2 & Ht2). simpl in Hq, Ho. rewrite Hs /= in Hq. simplify_eq.
      simpl. do 2 f_equal. eapply IH; [done..|]. by rewrite lookup_insert.
  Qed.
  Lemma fifo ao co : no_fail ao → no_fail co → ∀ (xs : list V) evs s env m,
    hist qseq (q_run K) ∅ ∅ (mem0 ao co) evs s env m →
    map fst evs = QNew 0 :: (QPush 0 <$> xs) ++ concat (replicate (length xs) [QFront 0; QPop 0]) →
    map snd evs = Ret DoUnit :: ((λ _, Ret DoUnit) <$> xs) ++ concat ((λ x, [Ret (DoElem x); Ret DoUnit]) <$> xs).
  Proof using HK.
    intros Hao Hco xs evs s env m Hh Hm.
    destruct (qseq_refines K HK ao co Hao Hco evs s env m Hh) as (Ha & Ht & _); [by apply Forall_true|].
    specialize (Ht Hao). destruct evs as [|[op o] evs]; [done|]. injection Hm as -> Hm.
    destruct (acc_inv _ _ _ _ Ha Ht) as (s1 & o1 & Ho1 & Hq & Ha1 & Ht1). simpl in Hq, Ho1. subst o.
    unfold dfresh in Hq. rewrite lookup_empty in Hq. simplify_eq.
    destruct (acc_push _ _ _ _ _ [] Ha1 Hm Ht1) as (evs' & E & Ha' & Hm' & Ht'); [by rewrite lookup_insert|].
    simpl. rewrite E. f_equal. f_equal. eapply acc_pop; [done..|]. by rewrite lookup_insert.
  Qed.
  Lemma churn_grows (x : V) c :
    ∃ n q m v cap cs d, churn K x n (mem0 [] []) = Ok q m ∧ d_holds K m q v cap cs d ∧ dq_els d = [] ∧ c ≤ length cs.
  Proof using HK.
    exists (c * K). destruct (churn_run K HK x (c * K)) as (q & m & v & cap & cs & d & E & Hh & Hd & Hc).
    exists q, m, v, cap, cs, d. split; [done|]. split; [done|]. split; [done|].
    destruct Hh as (_ & -> & _). nia.
  Qed.
End fifo.

(** ** Failures *)
Lemma push_back_leaks :
  match (q <- d_new CHUNK_SIZE ;; for_up 0 512 (λ _, d_push_back CHUNK_SIZE q (DVal 7)) ;;;
         catch (d_push_back CHUNK_SIZE q (DVal 7)) (λ _, ret tt) ;;; d_dtor CHUNK_SIZE q)
        (mem0 [false; false; false; true] []) with
  | Ok _ m => blk m ≠ ∅
  | _ => False
  end.
Proof.
  match goal with |- match ?f with _ => _ end =>
    assert (match f with Ok _ m => negb (bool_decide (size (blk m) = 0)) | _ => false end = true) as H
  end; [vm_compute; reflexivity|].
  match goal with |- match ?f with _ => _ end => destruct f as [u m|e m| |] end; try done.
  intros E. rewrite E map_size_empty in H. done.
Qed.
Section ev.
  Context {V : Type}.
  Definition st (m : mem (dcell V)) (l : loc) (c : dcell V) : mem (dcell V) := Mem (<[l := c]> (blk m)) (nxt m) (aorc m) (corc m).
  Lemma st_at m l c : blk (st m l c) !! l = Some c.
  Proof. apply lookup_insert. Qed.
  Lemma st_st m l c c' : st (st m l c) l c' = st m l c'.
  Proof. unfold st. simpl. by rewrite insert_insert. Qed.
  Section one.
    Context (m : mem (dcell V)) (this : loc) (f b fc : nat) (bc : Z) (n : nat) (v : ptr).
    Context (H : blk m !! this = Some (DHdr f b fc bc n v)).
    Lemma ev_h : d_hdr this m = Ok (f, b, fc, bc, n, v) m.
    Proof using H. unfold d_hdr. by rewrite (bind_ok _ _ _ _ _ (load_ok _ _ _ H)). Qed.
    Lemma ev_chunks0 : d_chunks this m = Ok v m.
    Proof using H. unfold d_chunks. by rewrite (bind_ok _ _ _ _ _ ev_h). Qed.
    Lemma ev_set_front x : d_set_front this x m = Ok tt (st m this (DHdr x b fc bc n v)).
    Proof using H. unfold d_set_front. by rewrite (bind_ok _ _ _ _ _ ev_h) (store_ok _ _ _ _ H). Qed.
    Lemma ev_set_back x : d_set_back this x m = Ok tt (st m this (DHdr f x fc bc n v)).
    Proof using H. unfold d_set_back. by rewrite (bind_ok _ _ _ _ _ ev_h) (store_ok _ _ _ _ H). Qed.
    Lemma ev_set_fchunk x : d_set_fchunk this x m = Ok tt (st m this (DHdr f b x bc n v)).
    Proof using H. unfold d_set_fchunk. by rewrite (bind_ok _ _ _ _ _ ev_h) (store_ok _ _ _ _ H). Qed.
    Lemma ev_set_bchunk x : d_set_bchunk this x m = Ok tt (st m this (DHdr f b fc x n v)).
    Proof using H. unfold d_set_bchunk. by rewrite (bind_ok _ _ _ _ _ ev_h) (store_ok _ _ _ _ H). Qed.
    Lemma ev_set_size x : d_set_size this x m = Ok tt (st m this (DHdr f b fc bc x v)).
    Proof using H. unfold d_set_size. by rewrite (bind_ok _ _ _ _ _ ev_h) (store_ok _ _ _ _ H). Qed.
    Lemma ev_set_chunks x : d_set_chunks this x m = Ok tt (st m this (DHdr f b fc bc n x)).
    Proof using H. unfold d_set_chunks. by rewrite (bind_ok _ _ _ _ _ ev_h) (store_ok _ _ _ _ H). Qed.
  End one.
End ev.
Lemma new_leaks {V} K (m : mem (dcell V)) ao :
  mem_wf m → aorc m = false :: true :: ao →
  ∃ m' p, d_new K m = Exn BadAlloc m' ∧ blk m !! p = None ∧ blk m' = <[p := DArr (replicate K None)]> (blk m).
Proof.
  intros Hw Ha. set (this := nxt m). set (p := Pos.succ (nxt m)).
  assert (∀ l, (nxt m ≤ l)%positive → blk m !! l = None) as Hf.
  { intros l Hl. apply eq_None_not_Some. intros Hs%Hw. lia. }
  set (m1 := Mem (<[this := DHdr 0 0 0 0 0 None]> (blk m)) p (aorc m) (corc m)).
  set (m2 := Mem (<[p := DArr (replicate K None)]> (blk m1)) (Pos.succ p) (true :: ao) (corc m)).
  assert (d_allocate K m1 = Ok p m2) as E1 by (unfold d_allocate, alloc; simpl; by rewrite Ha).
  assert (blk m2 !! this = Some (DHdr 0 0 0 0 0 None)) as H2.
  { simpl. rewrite lookup_insert_ne; [apply lookup_insert|]. unfold p, this. lia. }
  set (m3 := st m2 this (DHdr (K / 2) (K / 2 - 1) 0 0 0 None)).
  eexists (Mem (delete this (blk m3)) (nxt m3) ao (corc m3)), p. split; [|split; [apply Hf; unfold p; lia|]].
  - unfold d_new. rewrite (bind_ok (new _) _ m this m1 eq_refl). unfold bind at 1, on_throw, catch.
    rewrite (bind_ok _ _ _ _ _ E1).
    rewrite (bind_ok _ _ _ _ _ (ev_set_front _ _ _ _ _ _ _ _ H2 _)).
    rewrite (bind_ok _ _ _ _ _ (ev_set_back _ _ _ _ _ _ _ _ (st_at _ _ _) _)). rewrite st_st.
    fold m3. assert (d_vec_push this p m3 = Exn BadAlloc (Mem (blk m3) (nxt m3) ao (corc m3))) as E3.
    { unfold d_vec_push. by rewrite (bind_ok _ _ _ _ _ (ev_chunks0 _ _ _ _ _ _ _ _ (st_at _ _ _))). }
    unfold bind at 1. rewrite E3. unfold bind, free. cbn [blk]. by rewrite st_at.
  - cbn [blk m3 st]. rewrite delete_insert_delete. cbn [blk m2 m1].
    rewrite delete_insert_ne; [|unfold p, this; lia]. f_equal. apply delete_insert. apply Hf. unfold this. lia.
Qed.
Lemma push_throw {V} K (HK : 2 ≤ K) (x : V) :
  ∃ q m, (q <- d_new K ;; catch (d_push_back K q (DVal x)) (λ _, ret tt) ;;; ret q) (mem0 [] [true]) = Ok q m ∧
    d_size q m = Ok 1 m ∧ d_dtor K q m = UB.
Proof.
  destruct (half K HK) as [Hh1 Hh2].
  set (this := 1%positive). set (p := 2%positive). set (v := 3%positive).
  set (mm b n co := Mem (<[this := DHdr (V:=V) (K / 2) b 0 0 n (Some v)]> (<[v := DVec 1 [p]]>
    (<[p := DArr (replicate K None)]> (<[this := DHdr 0 0 0 0 0 None]> ∅)))) 4%positive [] co).
  assert (∀ b n co, head_at this (K / 2) b 0 0 n v 1 [p] (mm b n co)) as Hd.
  { intros b n co. split; simpl; [apply lookup_insert|]. rewrite lookup_insert_ne; [|done]. apply lookup_insert. }
  assert (∀ b n co, blk (mm b n co) !! p = Some (DArr (replicate K None))) as Hp.
  { intros b n co. simpl. rewrite lookup_insert_ne; [|done]. rewrite lookup_insert_ne; [|done]. apply lookup_insert. }
  assert (∀ b n co b' n', st (mm b n co) this (DHdr (K / 2) b' 0 0 n' (Some v)) = mm b' n' co) as Hst.
  { intros. unfold st, mm. simpl. by rewrite insert_insert. }
  assert (d_new (V:=V) K (mem0 [] [true]) = Ok this (mm (K / 2 - 1) 0 [true])) as En.
  { unfold d_new. set (m1 := Mem (<[this := DHdr (V:=V) 0 0 0 0 0 None]> ∅) p [] [true]).
    rewrite (bind_ok (new _) _ (mem0 [] [true]) this m1 eq_refl).
    set (m2 := Mem (<[p := DArr (replicate K None)]> (blk m1)) v [] [true]).
    assert (d_allocate K m1 = Ok p m2) as E1 by done.
    assert (blk m2 !! this = Some (DHdr 0 0 0 0 0 None)) as H2 by done.
    unfold bind at 1, on_throw, catch. rewrite (bind_ok _ _ _ _ _ E1).
    rewrite (bind_ok _ _ _ _ _ (ev_set_front _ _ _ _ _ _ _ _ H2 _)).
    rewrite (bind_ok _ _ _ _ _ (ev_set_back _ _ _ _ _ _ _ _ (st_at _ _ _) _)). rewrite st_st.
    set (m3 := st m2 this (DHdr (K / 2) (K / 2 - 1) 0 0 0 None)).
    assert (d_vec_push this p m3 = Ok tt (mm (K / 2 - 1) 0 [true])) as E3.
    { unfold d_vec_push. rewrite (bind_ok _ _ _ _ _ (ev_chunks0 _ _ _ _ _ _ _ _ (st_at _ _ _))).
      set (m4 := Mem (<[v := DVec 1 [p]]> (blk m3)) 4%positive [] [true]).
      rewrite (bind_ok (alloc _) _ m3 v m4 eq_refl).
      assert (blk m4 !! this = Some (DHdr (K / 2) (K / 2 - 1) 0 0 0 None)) as H4.
      { unfold m4. cbn [blk]. rewrite lookup_insert_ne; [|done]. apply st_at. }
      rewrite (ev_set_chunks _ _ _ _ _ _ _ _ H4). f_equal. unfold st, m4, mm, m3, st. cbn [blk nxt aorc corc].
      f_equal. rewrite (insert_commute _ v this) // insert_insert. done. }
    rewrite (bind_ok _ _ _ _ _ E3).
    rewrite (bind_ok _ _ _ _ _ (ev_set_bchunk _ _ _ _ _ _ _ _ (proj1 (Hd _ _ _)) _)) Hst.
    rewrite (bind_ok _ _ _ _ _ (ev_set_fchunk _ _ _ _ _ _ _ _ (proj1 (Hd _ _ _)) _)) Hst.
    rewrite (ev_set_size _ _ _ _ _ _ _ _ (proj1 (Hd _ _ _)) _) Hst. done. }
  assert (d_push_back K this (DVal x) (mm (K / 2 - 1) 0 [true]) = Exn CopyThrow (mm (K / 2) 1 [])) as Ep.
  { unfold d_push_back.
    assert (d_push_back_helper K this (mm (K / 2 - 1) 0 [true]) = Ok tt (mm (K / 2) 1 [true])) as Eh.
    { unfold d_push_back_helper. rewrite (bind_ok _ _ _ _ _ (ev_back_ _ _ _ _ _ _ _ _ _ _ (Hd _ _ _))).
      rewrite (proj2 (Nat.eqb_neq _ _)); [|lia]. unfold bind at 1.
      rewrite (ev_set_back _ _ _ _ _ _ _ _ (proj1 (Hd _ _ _)) _) Hst.
      rewrite (bind_ok _ _ _ _ _ (ev_size _ _ _ _ _ _ _ _ _ _ (Hd _ _ _))).
      rewrite (ev_set_size _ _ _ _ _ _ _ _ (proj1 (Hd _ _ _)) _) Hst.
      by replace (K / 2 - 1 + 1) with (K / 2) by lia. }
    rewrite (bind_ok _ _ _ _ _ Eh).
    assert (d_back this (mm (K / 2) 1 [true]) = Ok (p, K / 2) (mm (K / 2) 1 [true])) as Eb.
    { unfold d_back. rewrite (bind_ok _ _ _ _ _ (ev_bchunk _ _ _ _ _ _ _ _ _ _ (Hd _ _ _))).
      erewrite bind_ok; [|rewrite (ev_chunk _ _ _ _ _ _ _ _ _ _ (Hd _ _ _)); reflexivity].
      by rewrite (bind_ok _ _ _ _ _ (ev_back_ _ _ _ _ _ _ _ _ _ _ (Hd _ _ _))). }
    rewrite (bind_ok _ _ _ _ _ Eb). rewrite (bind_ok _ _ _ _ _ eq_refl). done. }
  exists this, (mm (K / 2) 1 []). split; [|split].
  - rewrite (bind_ok _ _ _ _ _ En). unfold bind at 1, catch. by rewrite Ep.
  - apply (ev_size _ _ _ _ _ _ _ _ _ _ (Hd _ _ _)).
  - unfold d_dtor, d_clear. apply bind_ub. rewrite (bind_ok _ _ _ _ _ (ev_size _ _ _ _ _ _ _ _ _ _ (Hd _ _ _))).
    apply bind_ub. cbn [for_up]. apply bind_ub. unfold d_index.
    erewrite bind_ok.
    2: { rewrite (bind_ok _ _ _ _ _ (ev_front_ _ _ _ _ _ _ _ _ _ _ (Hd _ _ _))).
         rewrite (bind_ok _ _ _ _ _ (ev_fchunk _ _ _ _ _ _ _ _ _ _ (Hd _ _ _))). cbv zeta.
         rewrite Nat.add_0_r (Nat.div_small (K / 2) K Hh1) (Nat.mod_small (K / 2) K Hh1).
         erewrite bind_ok; [|rewrite (ev_chunk _ _ _ _ _ _ _ _ _ _ (Hd _ _ _)); reflexivity]. reflexivity. }
    unfold d_destroy_at, d_els. cbn [fst snd].
    rewrite (bind_ok (bind (load p) _) _ _ (replicate K None) (mm (K / 2) 1 [])).
    2: by rewrite (bind_ok _ _ _ _ _ (load_ok _ _ _ (Hp _ _ _))).
    by rewrite lookup_replicate_2.
Qed.
Lemma push_pop_push :
  goes_wrong (dseq (V:=nat)) (d_run CHUNK_SIZE) ∅ ∅ (mem0 [] [])
    (DNew 0 :: replicate 513 (DPushBack 0 7) ++ [DPopBack 0; DPushBack 0 8]) (DAt 0 512) = true.
Proof. vm_compute. reflexivity. Qed.
