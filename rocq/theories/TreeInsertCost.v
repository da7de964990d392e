(** What decides the outcome of an insertion into a set or map. *)
From iris.proofmode Require Import tactics.
From Verif Require Import SLTac Hist HistGen HistProofs MemRun AllocCount NoCopy ModelTree SpecTree TreeFacts TreeProofs TreeMem TreeProps TreeThrow.
From Verif Require Import TreeBuild TreeAlloc TreeCost.

Section found.
  Context {X K : Type} (key : X → K) (comp : K → K → bool).
  (** no copy is made if the key is found *)
  Definition told0 (c : list bool) (rr : res (tcell X) (loc * bool)) : Prop :=
    match rr with Ok (_, false) m' => corc m' = c | _ => True end.
  Lemma told0_after {A} (f : M (tcell X) A) (k : A → M (tcell X) (loc * bool)) c m :
    no_copy f → (∀ a m, corc m = c → told0 c (k a m)) → corc m = c → told0 c (bind f k m).
  Proof using.
    intros Hf Hk Hm. unfold bind. specialize (Hf m). destruct (f m) as [a m'|e m'| |]; [|by subst|done..].
    apply Hk. congruence.
  Qed.
  Lemma told0_before {A} (f : M (tcell X) (loc * bool)) (g : M (tcell X) A) c m :
    told0 c (f m) → no_copy g → told0 c ((rr <- f ;; g ;;; ret rr) m).
  Proof using.
    intros Hf Hg. unfold bind. destruct (f m) as [[n a] m'|e m'| |]; [|done..]. specialize (Hg m').
    destruct (g m') as [? ?|e ?| |]; [|by subst|done..]. destruct a; [done|]. cbn in *. congruence.
  Qed.
  Lemma told0_true {A} (f : M (tcell X) A) (k : A → M (tcell X) (loc * bool)) c m :
    (∀ a m, told0 c (k a m)) → told0 c (bind f k m).
  Proof using. intros Hk. unfold bind. by destruct (f m). Qed.
  Lemma told0_ins c fuel this v pl p m : corc m = c → told0 c (t_ins key comp fuel this v pl p m).
  Proof using.
    revert pl p m. induction fuel as [|fuel IH]; intros pl p m Hm; [done|]. cbn [t_ins].
    eapply told0_after; [apply nc_rd| |exact Hm]. clear m Hm. intros [n|] m Hm.
    2: { unfold t_attach. by repeat (apply told0_true; intros ? ?). }
    eapply told0_after; [apply nc_elem| |exact Hm]. clear m Hm. intros x m Hm.
    destruct (comp (key v) (key x)); [apply told0_before; [by apply IH|apply nc_fix]|].
    destruct (comp (key x) (key v)); [apply told0_before; [by apply IH|apply nc_fix]|done].
  Qed.
  Lemma told0_insert c this v m : corc m = c → told0 c (t_insert key comp this v m).
  Proof using.
    intros Hm. unfold t_insert.
    assert (told0 c (with_fuel (λ fuel, t_ins key comp fuel this v (PRoot this) None) m)) as H.
    { unfold with_fuel. by apply told0_ins. }
    unfold bind at 1. destruct (with_fuel _ m) as [[n a] m'|e m'| |]; [|done..].
    pose proof (nc_rd (X:=X) (PRoot this) m') as H1.
    unfold bind at 1. destruct (rd (PRoot this) m') as [q m1|e m1| |]; [|by subst|done..].
    pose proof (nc_node (X:=X) q m1) as H2.
    unfold bind at 1. destruct (node q m1) as [q' m2|e m2| |]; [|by subst|done..].
    pose proof (nc_paint (X:=X) q' Black m2) as H3.
    unfold bind. destruct (t_paint q' Black m2) as [? ?|e m3| |]; [|by subst|done..].
    destruct a; [done|]. cbn in *. congruence.
  Qed.
End found.

Section cost.
  Context {X K : Type} (key : X → K) (comp : K → K → bool) (Hsw : strict_weak comp).
  Implicit Types (t : tree X) (m : mem (tcell X)).
  Local Notation search := (search key comp).
  Lemma wp_insert_size this t v :
    tgood key comp t →
    tobj this t ⊢ wp (Mode true true) (t_insert key comp this v)
      (λ rr : loc * bool, match search (key v) t with
            | Some (q, _) => ⌞rr = (q, false)⌟ ∗ tobj this t
            | None => ∃ n, ⌞rr = (n, true)⌟ ∗ tobj this (insert_t key comp n v t)
            end)
      (λ e, ⌞search (key v) t = None⌟ ∗
            ((⌞e = BadAlloc⌟ ∗ tobj this t) ∨
             ∃ n, ⌞e = CopyThrow⌟ ∗ zctx this (descend key comp (key v) t []) (Some n) (least t) (length (nodes t)) ∗ n ↦ TRaw))%I.
  Proof using Hsw.
    iIntros (Hg) "H". iApply (wp_t_insert_any key comp Hsw (Mode true true) with "H"); [done|].
    destruct (search (key v) t) as [[q y]|] eqn:Es; [by iIntros "$"|]. iSplit; [|iSplit].
    - iIntros (_) "H". iSplit; [done|]. iLeft. by iFrame.
    - iIntros (_ n) "H G". iSplit; [done|]. iRight. iExists n. by iFrame.
    - iIntros (n) "H". iExists n. by iFrame.
  Qed.
  Lemma c130_found m this t v x :
    mem_wf m → t_holds m this t → increasing key comp (nodes t).*2 → red_black t →
    lookup_key key comp (key v) (nodes t).*2 = Some x →
    ∃ q m', t_insert key comp this v m = Ok (q, false) m' ∧ (q, x) ∈ nodes t ∧
      blk m' = blk m ∧ aorc m' = aorc m ∧ corc m' = corc m.
  Proof using Hsw.
    intros Hm Hh Hi Hr Hl. pose proof Hh as [Hnd Hs]%t_holds_heap.
    pose proof (run_exact _ _ _ _ _ _ _ (good_any_t _ Hm) (theap_exact _ _ Hnd) Hs (wp_insert_size this t v (conj Hi Hr))) as H.
    pose proof (told0_insert key comp _ this v m eq_refl) as H0.
    rewrite -(search_lookup key comp Hsw) // in Hl. destruct (search (key v) t) as [[q y]|] eqn:Es; [|done]. injection Hl as ->.
    destruct (t_insert key comp this v m) as [rr m'|e m'| |] eqn:El; [| |done..].
    2: { by destruct H as (_ & h' & [? _]%pure_sep_inv & _). }
    destruct H as (_ & h' & [-> HQ]%pure_sep_inv & Hd & Hb). apply (theap_exact _ _ Hnd) in HQ as ->.
    assert (blk m' = blk m) as Hbm by by rewrite Hb map_difference_union.
    exists q, m'. split; [done|]. split; [by apply (search_in key comp) in Es as [??]|]. split; [done|]. split; [|done].
    apply (tally_done _ m 0 _ _ _ (ta_insert key comp this v) Hm eq_refl El). by rewrite Hbm Nat.add_0_r.
  Qed.
  Lemma c130_absent m this t v ao b1 b2 co :
    mem_wf m → t_holds m this t → increasing key comp (nodes t).*2 → red_black t →
    lookup_key key comp (key v) (nodes t).*2 = None → aorc m = false :: ao → corc m = b1 :: b2 :: co →
    if b1 || b2 then ∃ m', t_insert key comp this v m = Exn CopyThrow m'
    else ∃ n m', t_insert key comp this v m = Ok (n, true) m' ∧ aorc m' = ao ∧ corc m' = co.
  Proof using Hsw.
    intros Hm Hh Hi Hr Hl Ha Hc. pose proof Hh as [Hnd Hs]%t_holds_heap.
    pose proof (run_exact _ _ _ _ _ _ _ (good_any_t _ Hm) (theap_exact _ _ Hnd) Hs (wp_insert_size this t v (conj Hi Hr))) as H.
    pose proof (told2_insert key comp _ this v m Hc) as H0.
    rewrite -(search_lookup key comp Hsw) // in Hl. destruct (search (key v) t) as [[q y]|] eqn:Es; [done|].
    pose proof (map_difference_union _ _ Hs) as Hbm. pose proof (tobj_size _ _ _ (proj2 (theap_exact _ _ Hnd _) eq_refl)) as Hsz.
    destruct (t_insert key comp this v m) as [rr m'|e m'| |] eqn:El; [| |done..].
    - destruct H as (_ & h' & (n & [-> HQ]%pure_sep_inv) & Hd & Hb). destruct H0 as [H2 Hc']. cbn in Hc'. change (b1 || b2 = false) in H2. rewrite H2.
      exists n, m'. split; [done|]. split; [|done].
      apply (tally_done _ m 1 _ _ _ (ta_insert key comp this v) Hm Ha El).
      pose proof (tobj_size _ _ _ HQ) as Hsz'. destruct (ins_split key comp Hsw n v t Hi Es) as (a & b & Ea & Eb & _).
      assert (length (nodes (insert_t key comp n v t)) = S (length (nodes t))) as Hlen.
      { unfold insert_t. rewrite paint_nodes Eb Ea !app_length /=. lia. }
      rewrite Hb -{2}Hbm !map_size_disj_union //; [lia|]. by apply map_disjoint_difference_r.
    - destruct H as (_ & h' & [_ [[-> HQ]%pure_sep_inv|(n & [-> _]%pure_sep_inv)]]%pure_sep_inv & Hd & Hb).
      + exfalso. pose proof (tally_thrown _ _ _ _ (ta_insert key comp this v) Hm Ha El) as Hlt.
        apply tobj_size in HQ. rewrite Hb -{1}Hbm !map_size_disj_union // in Hlt; [lia|]. by apply map_disjoint_difference_r.
      + change (b1 || b2 = true) in H0. rewrite H0. by exists m'.
  Qed.
End cost.
