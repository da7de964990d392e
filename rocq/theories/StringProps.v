(** Proofs behind the string theorems of PropString.v. *)
From iris.proofmode Require Import tactics.
From Verif Require Import SLTac Hist HistProofs Objs MemRun ModelString SpecString
  StringFacts StringProofs StringMem StringHist.

Notation mT := (Mode true false) (only parsing).
Notation mF := (Mode false false) (only parsing).
Notation s_refines ok := (refines_from sspec s_run ∅ ∅ (λ s, s = ∅) ok).

(** ** Histories *)
Lemma s_refines_gen ao co :
  s_refines (s_ok (bool_decide (¬ no_fail ao))) ao co.
Proof.
  apply (refines_sim _ _ _ _ _ _ (objs str)).
  - apply (s_op_spec (Mode _ _)).
  - apply objs_empty.
  - intros env s ->. apply objs_gone.
Qed.
Lemma s_refines_fair ao co : no_fail ao → s_refines (λ _, True) ao co.
Proof.
  intros Hao evs s env m Hh Hok.
  assert (bool_decide (¬ no_fail ao) = false) as Eb by (apply bool_decide_eq_false; tauto).
  destruct (s_refines_gen ao co evs s env m Hh) as (H1 & H2 & H3 & H4).
  { rewrite Eb. eapply Forall_impl; [exact Hok|]. intros [op ?] _. by destruct op. }
  split; [done|]. split; [done|]. split; [|done].
  intros op _. apply H3. rewrite Eb. by destruct op.
Qed.
Lemma s_refines_fail ao co : s_refines (s_ok true) ao co.
Proof.
  intros evs s env m Hh Hok.
  assert (∀ b op, s_ok true op → s_ok b op) as Hmono.
  { intros b op. by destruct op. }
  destruct (s_refines_gen ao co evs s env m Hh) as (H1 & H2 & H3 & H4).
  { eapply Forall_impl; [exact Hok|]. intros [op ?]. apply Hmono. }
  split; [done|]. split; [done|]. split; [|done].
  intros op Hop. apply H3. by apply Hmono.
Qed.
Lemma s_reach (b : bool) ao evs s env m h xs :
  (b = false → no_fail ao) →
  hist sspec s_run ∅ ∅ (mem0 ao []) evs s env m →
  Forall (λ ev, s_ok b ev.1) evs →
  s !! h = Some xs →
  ∃ l k p, env !! h = Some l ∧ s_holds m l xs k p ∧ length xs ≤ k.
Proof.
  intros Hb Hh Hok Hs.
  destruct (hist_sim _ _ _ _ (Mode b false) ∅ ∅ (mem0 ao []) evs s env m (s_op_spec (Mode b false)) Hh Hok)
    as (_ & _ & Hg & Hr).
  - split; [by intros l; rewrite lookup_empty; intros []|]. split; [exact Hb|]. intros _. by constructor.
  - apply (proj1 (hprop_entails_eq _ _) (objs_empty str)). by apply hprop_emp_eq.
  - apply (proj1 (hprop_entails_eq _ _) (objs_read _ _ _ _ _ Hs)) in Hr as (l & Hr).
    apply hprop_sep_eq in Hr as (h1 & h2 & Hb' & _ & H1 & H2).
    apply (proj1 (hprop_affinely_pure_eq _ _)) in H1 as [-> Hl]. rewrite left_id_L in Hb'.
    subst h2. apply hprop_sep_eq in H2 as (h3 & h4 & Hb' & Hd & (rest & p & Hv) & _).
    exists l, (length xs + length rest), p. split; [done|]. split; [|lia].
    eapply sobj_holds; [done|]. rewrite Hb'. apply map_union_subseteq_l.
Qed.

(** ** Single calls on one string *)
Lemma s_run_to {A} m this xs k p (f : MS A) xs' (E : nat → loc → Prop) :
  may_fail_alloc m → s_holds m this xs k p →
  (∀ rest, length xs + length rest = k →
     sobj this xs rest p ⊢ wp mT f
       (λ _, ∃ rest' p', ⌞E (length xs' + length rest')%nat p'⌟ ∗ sobj this xs' rest' p')
       (λ e, ⌞e = BadAlloc⌟ ∗ sobj this xs rest p)) →
  runs_to m [this; p] (f m) (λ _ m' new, ∃ k' p', s_holds m' this xs' k' p' ∧ E k' p' ∧ new = [this; p']).
Proof.
  intros Hm Hh Hw. destruct (s_holds_sobj _ _ _ _ _ Hh) as (rest & Hk & Hne & Hex & Hsub).
  pose proof (run_to (X := list N * loc) _ _ m [this; p] f
    (λ _ x, ⌞E (length xs' + length x.1)%nat x.2⌟ ∗ sobj this xs' x.1 x.2)%I
    (λ _ x, [this; x.2])
    (λ _ x m', s_holds m' this xs' (length xs' + length x.1) x.2 ∧ E (length xs' + length x.1) x.2)
    Hm Hex Hsub ltac:(intros l; apply two_cells)) as H.
  feed specialize H.
  - intros a [rest' p'] h' m' Hx Hs. simpl in *.
    apply pure_sep_inv in Hx as [HE Hx]. split; [split; [by eapply sobj_holds|done]|].
    intros l. rewrite (sobj_inv _ _ _ _ _ Hx). apply two_cells.
  - iIntros "H". iApply (wp_wand with "[H]"); [by iApply Hw|]. iSplit; [|by iIntros (?) "$"].
    iIntros (a) "(%rest' & %p' & HE & H)". iExists (rest', p'). iFrame.
  - unfold runs_to in *. destruct (f m); [|done..]. destruct H as (H1 & new & (x & [? ?] & ->) & H2).
    split; [done|]. exists [this; x.2]. split; [|done]. by eexists _, _.
Qed.
Lemma s_run_fair {A} m this xs k p (f : MS A) xs' (E : nat → loc → Prop) :
  fair m → s_holds m this xs k p →
  (∀ rest, length xs + length rest = k →
     sobj this xs rest p ⊢ wp mF f
       (λ _, ∃ rest' p', ⌞E (length xs' + length rest')%nat p'⌟ ∗ sobj this xs' rest' p') (λ e, False)) →
  unthrown (f m) (λ _ m', fair m' ∧ ∃ k' p', s_holds m' this xs' k' p' ∧ E k' p' ∧ replaces [this; p] m [this; p'] m').
Proof.
  intros Hm Hh Hw. destruct (s_holds_sobj _ _ _ _ _ Hh) as (rest & Hk & Hne & Hex & Hsub).
  pose proof (run_fair (X := list N * loc) _ _ m [this; p] f
    (λ _ x, ⌞E (length xs' + length x.1)%nat x.2⌟ ∗ sobj this xs' x.1 x.2)%I
    (λ _ x, [this; x.2])
    (λ _ x m', s_holds m' this xs' (length xs' + length x.1) x.2 ∧ E (length xs' + length x.1) x.2)
    Hm Hex Hsub ltac:(intros l; apply two_cells)) as H.
  feed specialize H.
  - intros a [rest' p'] h' m' Hx Hs. simpl in *.
    apply pure_sep_inv in Hx as [HE Hx]. split; [split; [by eapply sobj_holds|done]|].
    intros l. rewrite (sobj_inv _ _ _ _ _ Hx). apply two_cells.
  - iIntros "H". iApply (wp_wand with "[H]"); [by iApply Hw|]. iSplit; [|by iIntros (?) "$"].
    iIntros (a) "(%rest' & %p' & HE & H)". iExists (rest', p'). iFrame.
  - unfold unthrown in *. destruct (f m); [|done..]. destruct H as (H1 & x & [? ?] & H2).
    split; [done|]. by eexists _, _.
Qed.

Lemma c19_all m this xs k p :
  may_fail_alloc m → s_holds m this xs k p →
  (∀ n, runs_to m [this; p] (s_reserve this n m) (λ _ m' new, ∃ k' p',
     s_holds m' this xs k' p' ∧ (k' = k `max` n ∧ (n ≤ k → p' = p)) ∧ new = [this; p'])) ∧
  (∀ c, runs_to m [this; p] (s_push_back this (CVal c) m) (λ _ m' new, ∃ k' p',
     s_holds m' this (xs ++ [c]) k' p' ∧ (length xs < k → k' = k ∧ p' = p) ∧ new = [this; p'])) ∧
  (∀ cs n, n ≤ length cs → runs_to m [this; p] (s_append this (CExt cs) n m) (λ _ m' new, ∃ k' p',
     s_holds m' this (xs ++ take n cs) k' p' ∧ True ∧ new = [this; p'])) ∧
  runs_to m [this; p] (s_append_str this this m) (λ _ m' new, ∃ k' p',
     s_holds m' this (xs ++ xs) k' p' ∧ True ∧ new = [this; p']).
Proof.
  intros Hm Hh. split_and!.
  - intros n. eapply s_run_to; [done..|]. iIntros (rest Hk) "H".
    iApply (wp_s_reserve mT with "H"). iSplit; [by iIntros (_) "$"|].
    iIntros (rest' p' Hr) "H". iExists _, _. iFrame "H". iPureIntro.
    destruct Hr as [(? & -> & ->)|(? & ?)]; split; try done; lia.
  - intros c. eapply s_run_to; [done..|]. iIntros (rest Hk) "H".
    iApply (wp_s_push_val mT with "H"). iSplit; [by iIntros (_) "$"|].
    iIntros (rest' p' Hr) "H". iExists _, _. iFrame "H". iPureIntro.
    intros Hlt. destruct Hr as [-> ->]; [lia|]. rewrite app_length drop_length /=. lia.
  - intros cs n Hn. eapply s_run_to; [done..|]. iIntros (rest Hk) "H".
    assert (length (take n cs) = n) as Ht by (rewrite take_length; lia).
    pose proof (wp_s_append mT emp this xs rest p (CExt cs) (take n cs)) as Hap. rewrite Ht in Hap.
    iApply (Hap with "[//] H"); [apply copies_reads; [apply reads_ext|done]|].
    iSplit; [by iIntros (_) "_ $"|].
    iIntros (rest' p') "_ H". iExists _, _. by iFrame "H".
  - eapply s_run_to; [done..|]. iIntros (rest Hk) "H".
    iApply (wp_s_append_self mT with "H"). iSplit; [by iIntros (_) "$"|].
    iIntros (rest' p') "H". iExists _, _. by iFrame "H".
Qed.
Lemma c19_throws m this xs k p o :
  s_holds m this xs k p → aorc m = true :: o →
  (∀ n, k < n → ∃ m', s_reserve this n m = Exn BadAlloc m') ∧
  (∀ c, length xs = k → ∃ m', s_push_back this (CVal c) m = Exn BadAlloc m') ∧
  (∀ cs n, k < length xs + n → ∃ m', s_append this (CExt cs) n m = Exn BadAlloc m').
Proof.
  intros Hh Ho. pose proof Hh as (H1 & Hk & rest & H2 & Hr).
  assert (∀ n, k < n → ∃ m', s_reserve this n m = Exn BadAlloc m') as Hres.
  { intros n Hn. eexists. rewrite /s_reserve /s_cap /s_hdr /bind /load /= H1 /=.
    assert (k <? n = true) as -> by by apply Nat.ltb_lt.
    by rewrite /b_allocate /alloc /bind Ho. }
  split_and!; [done| |].
  - intros c Hc. destruct (Hres (k * 2)) as [m' Hm']; [lia|]. exists m'.
    rewrite /s_push_back /s_size /s_cap /s_hdr /bind /load /= H1 /= H1 /=.
    assert (k <? length xs + 1 = true) as -> by (apply Nat.ltb_lt; lia). by rewrite Hm'.
  - intros cs n Hn. eexists. rewrite /s_append /s_size /s_cap /s_hdr /bind /load /= H1 /= H1 /=.
    assert (n + length xs <=? k = false) as -> by (apply Nat.leb_gt; lia).
    by rewrite /b_allocate /alloc /bind Ho.
Qed.

(** ** copies *)
Lemma four_cells {this p g q : loc} {c1 c2 c3 c4 : scell} l :
  l ∈ [this; p; g; q] ↔
  is_Some ((({[this := c1]} ∪ {[p := c2]}) ∪ ({[g := c3]} ∪ {[q := c4]}) : gmap loc scell) !! l).
Proof.
  rewrite (lookup_union_is_Some (_ ∪ _)) -!two_cells !elem_of_cons. naive_solver.
Qed.
Lemma sobj2_apart this xs rest p g ys restg q h :
  (sobj this xs rest p ∗ sobj g ys restg q)%I h →
  s_apart this p g q ∧ h = ({[this := SHdr (length xs) (length xs + length rest) (Some p)]} ∪ {[p := SBuf (xs ++ 0%N :: rest)]})
   ∪ ({[g := SHdr (length ys) (length ys + length restg) (Some q)]} ∪ {[q := SBuf (ys ++ 0%N :: restg)]}).
Proof.
  intros (h1 & h2 & -> & Hd & H1 & H2)%hprop_sep_eq.
  pose proof (sobj_inv _ _ _ _ _ H1) as E1. pose proof (sobj_inv _ _ _ _ _ H2) as E2.
  subst h1 h2. split; [|done].
  rewrite !map_disjoint_union_l !map_disjoint_union_r in Hd.
  destruct Hd as [[A B] [C D]].
  unfold s_apart. split_and!; intros ->.
  - apply map_disjoint_singleton_l in A. by rewrite lookup_singleton in A.
  - apply map_disjoint_singleton_l in B. by rewrite lookup_singleton in B.
  - apply map_disjoint_singleton_l in C. by rewrite lookup_singleton in C.
  - apply map_disjoint_singleton_l in D. by rewrite lookup_singleton in D.
Qed.
Lemma sobj2_holds this xs rest p g ys restg q h m :
  (sobj this xs rest p ∗ sobj g ys restg q)%I h → h ⊆ blk m →
  s_holds m this xs (length xs + length rest) p ∧ s_holds m g ys (length ys + length restg) q.
Proof.
  intros H Hs. destruct (sep_sub _ _ _ _ H Hs) as (h1 & h2 & H1 & H2 & S1 & S2).
  split; by eapply sobj_holds.
Qed.

Lemma s_copy_effect m g ys k q :
  may_fail_alloc m → s_holds m g ys k q →
  runs_to m [g; q] (s_copy g m) (λ this m' new, ∃ k' p,
    s_holds m' this (until_null ys) k' p ∧ s_holds m' g ys k q ∧ s_apart this p g q ∧ new = [this; p; g; q]).
Proof.
  intros Hm Hh. destruct (s_holds_sobj _ _ _ _ _ Hh) as (rest & <- & Hne & Hex & Hsub).
  pose proof (run_to (X := loc) _ _ m [g; q] (s_copy g)
    (λ this p, sobj this (until_null ys) [0%N] p ∗ sobj g ys rest q)%I
    (λ this p, [this; p; g; q])
    (λ this p m', s_holds m' this (until_null ys) (length (until_null ys) + 1) p ∧
       s_holds m' g ys (length ys + length rest) q ∧ s_apart this p g q)
    Hm Hex Hsub ltac:(intros l; apply two_cells)) as H.
  feed specialize H.
  - intros this p h' m' Hx Hs. destruct (sobj2_apart _ _ _ _ _ _ _ _ _ Hx) as [Ha E].
    destruct (sobj2_holds _ _ _ _ _ _ _ _ _ _ Hx Hs). split; [done|].
    intros l. rewrite E. apply four_cells.
  - iIntros "H". iApply (wp_s_copy mT with "H"). iSplit; [by iIntros (_) "$"|].
    iIntros (this p) "H1 H2". iExists p. iFrame.
  - unfold runs_to in *. destruct (s_copy g m); [|done..]. destruct H as (H1 & new & (x & (? & ? & ?) & ->) & H2).
    split; [done|]. eexists. split; [|done]. eexists _, _. by split_and!.
Qed.
Lemma s_assign_effect m this xs k p g ys k' q :
  fair m → s_holds m this xs k p → s_holds m g ys k' q → s_apart this p g q →
  unthrown (s_assign_str this g m) (λ _ m', fair m' ∧ ∃ k1 p1,
    s_holds m' this (until_null ys) k1 p1 ∧ s_holds m' g ys k' q ∧ s_apart this p1 g q ∧
    replaces [this; p; g; q] m [this; p1; g; q] m').
Proof.
  intros Hm H1 H2 Ha.
  destruct (s_holds_sobj _ _ _ _ _ H1) as (rest & <- & Hne & Hex & Hsub).
  destruct (s_holds_sobj _ _ _ _ _ H2) as (restg & <- & Hneg & Hexg & Hsubg).
  pose proof (exact_sep _ _ _ _ Hex Hexg) as Hex2. feed specialize Hex2.
  { destruct Ha as (A & B & C & D).
    rewrite !map_disjoint_union_l !map_disjoint_union_r.
    split_and!; apply map_disjoint_singleton_l; by rewrite lookup_singleton_ne. }
  pose proof (run_fair (X := list N * loc) _ _ m [this; p; g; q] (s_assign_str this g)
    (λ _ x, sobj this (until_null ys) x.1 x.2 ∗ sobj g ys restg q)%I
    (λ _ x, [this; x.2; g; q])
    (λ _ x m', s_holds m' this (until_null ys) (length (until_null ys) + length x.1) x.2 ∧
       s_holds m' g ys (length ys + length restg) q ∧ s_apart this x.2 g q)
    Hm Hex2 ltac:(by apply map_union_least) ltac:(intros l; apply four_cells)) as H.
  feed specialize H.
  - intros _ [r p'] h' m' Hx Hs. simpl in *. destruct (sobj2_apart _ _ _ _ _ _ _ _ _ Hx) as [Ha' E].
    destruct (sobj2_holds _ _ _ _ _ _ _ _ _ _ Hx Hs). split; [done|].
    intros l. rewrite E. apply four_cells.
  - iIntros "[H Hg]". iApply (wp_s_assign_str mF with "H Hg"); [by left|].
    iIntros (r p') "H1 H2". iExists (r, p'). iFrame.
  - unfold unthrown in *. destruct (s_assign_str this g m); [|done..].
    destruct H as (Hf & x & (? & ? & ?) & ?). split; [done|]. eexists _, _. by split_and!.
Qed.
Lemma c12_copy m g ys k q :
  may_fail_alloc m → s_holds m g ys k q → no_null ys →
  runs_to m [g; q] (s_copy g m) (λ this m' new, ∃ k' p,
    s_holds m' this ys k' p ∧ s_holds m' g ys k q ∧ s_apart this p g q ∧ new = [this; p; g; q] ∧
    s_eq this g m' = Ok true m').
Proof.
  intros Hm Hh Hn. pose proof (s_copy_effect _ _ _ _ _ Hm Hh) as H. unfold runs_to in *.
  destruct (s_copy g m); [|done..]. destruct H as (H1 & new & (k' & p & A & B & ? & ?) & H2).
  rewrite until_null_id // in A. split; [done|]. exists new. split; [|done].
  exists k', p. split_and!; [done..|].
  apply s_holds_view in A as [? A]. apply s_holds_view in B as [? B].
  rewrite (s_eq_eq _ _ _ _ _ _ _ _ _ _ _ A B). by rewrite bool_decide_eq_true_2.
Qed.
Lemma c12_assign m this xs k p g ys k' q :
  fair m → s_holds m this xs k p → s_holds m g ys k' q → s_apart this p g q → no_null ys →
  unthrown (s_assign_str this g m) (λ _ m', fair m' ∧ ∃ k1 p1,
    s_holds m' this ys k1 p1 ∧ s_holds m' g ys k' q ∧ s_apart this p1 g q ∧
    replaces [this; p; g; q] m [this; p1; g; q] m' ∧ s_eq this g m' = Ok true m').
Proof.
  intros Hm H1 H2 Ha Hn. pose proof (s_assign_effect _ _ _ _ _ _ _ _ _ Hm H1 H2 Ha) as H.
  unfold unthrown in *. destruct (s_assign_str this g m); [|done..].
  destruct H as (Hf & k1 & p1 & A & B & ? & ?). rewrite until_null_id // in A. split; [done|].
  exists k1, p1. split_and!; [done..|].
  apply s_holds_view in A as [? A]. apply s_holds_view in B as [? B].
  rewrite (s_eq_eq _ _ _ _ _ _ _ _ _ _ _ A B). by rewrite bool_decide_eq_true_2.
Qed.

Lemma alloc_fair {C} (m : mem C) c :
  fair m → ∃ o, alloc c m = Ok (nxt m) (Mem (<[nxt m := c]> (blk m)) (Pos.succ (nxt m)) o (corc m)).
Proof.
  intros (_ & Ha & _). unfold alloc. destruct (aorc m) as [|[] o]; [by eexists|by inversion Ha|by eexists].
Qed.

(** ** C13 *)
Lemma c13 m this xs k p off :
  fair m → s_holds m this xs k p → off ≤ length xs →
  let ts := until_null (drop off xs) in
  (length ts < k ∧ (off = 0 ∨ length ts < off) →
     unthrown (s_assign this (CBlk p off) m) (λ _ m', fair m' ∧ ∃ k' p',
       s_holds m' this ts k' p' ∧ p' = p ∧ replaces [this; p] m [this; p'] m')) ∧
  (¬ (length ts < k ∧ (off = 0 ∨ length ts < off)) → s_assign this (CBlk p off) m = UB).
Proof.
  intros Hm Hh Hoff ts. split.
  - intros [Hk Hov].
    apply (s_run_fair m this xs k p _ ts (λ _ p', p' = p)); [done..|]. iIntros (rest <-) "H".
    iApply (wp_s_assign_own mF with "H"); [done..|].
    iIntros (rest') "H". iExists _, _. by iFrame "H".
  - intros Hn. destruct Hh as (H1 & Hk & rest & H2 & <-).
    assert (chars (CBlk p off) m = Ok (drop off xs ++ 0%N :: rest) m) as Hc.
    { rewrite (chars_eq _ _ _ _ H2); [|rewrite app_length; lia]. by rewrite drop_app_le. }
    pose proof (until_null_length (drop off xs) : length ts ≤ _) as Hl. rewrite drop_length in Hl.
    assert (length (xs ++ 0%N :: rest) = length xs + length rest + 1) as Hlen by (rewrite app_length /=; lia).
    rewrite /s_assign /bind (t_length_eq _ _ _ _ Hc) -/ts /s_cap /s_hdr /bind /load /= H1 /=.
    destruct (Nat.ltb_spec (length xs + length rest) (length ts + 1)) as [Hlt|Hge].
    + rewrite /s_p /s_hdr /bind /load /= H1 /= /b_deallocate /bind /b_chars /bind /load /= H2 /=.
      rewrite decide_True; [|done]. rewrite /free H2 /=.
      assert (this ≠ p) by congruence.
      rewrite /s_set_cap /s_hdr /bind /load /= lookup_delete_ne // H1 /= /store /= lookup_delete_ne // H1 /=.
      assert ((p < nxt m)%positive) as Hp by (apply Hm; eauto).
      assert ((this < nxt m)%positive) as Ht by (apply Hm; eauto).
      rewrite /b_allocate /bind. set (m1 := Mem _ _ _ _).
      destruct (alloc_fair m1 (SBuf (replicate (length ts + 1 + 1) 0%N))) as (o & Ho).
      { split; [|apply Hm]. intros l [c Hlk]. simpl in *. apply lookup_insert_Some in Hlk as [[<- _]|[_ Hlk]]; [done|].
        apply lookup_delete_Some in Hlk as [_ Hlk]. apply Hm. eauto. }
      rewrite Ho /=.
      rewrite /s_set_p /s_hdr /bind /load /= lookup_insert_ne; [|lia]. rewrite lookup_insert /=.
      rewrite /store /= lookup_insert_ne; [|lia]. rewrite lookup_insert /=.
      rewrite lookup_insert /=.
      rewrite /t_copy Nat.add_1_r /=. rewrite /bind /b_chars /bind /load /=.
      rewrite lookup_insert_ne // lookup_insert_ne; [|lia].
      rewrite lookup_insert_ne // lookup_delete //.
    + rewrite /s_p /s_hdr /bind /load /= H1 /= /t_copy Nat.add_1_r. change (S (length ts) =? 0) with false.
      cbv iota. rewrite /bind Hc (b_chars_eq _ _ _ H2) /=. rewrite decide_False //.
      intros (_ & _ & Ho). rewrite Pos.eqb_refl /= in Ho. apply Hn. split; [lia|].
      destruct (Nat.eqb_spec off 0); [by left|right]. simpl in Ho.
      rewrite orb_true_iff in Ho. destruct Ho as [Ho|Ho].
      * apply Nat.leb_le in Ho. lia.
      * destruct off; [done|]. apply Nat.leb_le in Ho. lia.
Qed.

(** ** C14-C16 *)
Lemma reads_as_chars m s cs : reads_as m s cs → chars s m = Ok cs m.
Proof.
  destruct s; simpl; [by intros ->|]. intros (ds & H & Ho & ->). by apply chars_eq.
Qed.
Lemma c14_find m this xs k p s cs pos n :
  s_holds m this xs k p → reads_as m s cs → n ≤ length cs →
  ∃ r, s_find this s pos n m = Ok r m ∧ first_from (occurs xs (take n cs)) pos r.
Proof.
  intros [rest Hv]%s_holds_view Hs%reads_as_chars Hn. by eapply s_find_spec.
Qed.
Lemma c14_find_c m this xs k p s ts zs pos :
  s_holds m this xs k p → reads_as m s (ts ++ 0%N :: zs) → no_null ts →
  ∃ r, s_find_c this s pos m = Ok r m ∧ first_from (occurs xs ts) pos r.
Proof.
  intros [rest Hv]%s_holds_view Hs%reads_as_chars Hn. eexists.
  split; [by eapply s_find_c_eq|]. rewrite until_null_id //. apply find_from_spec.
Qed.
Lemma c14_find_str m this xs k p g ts k' q pos :
  s_holds m this xs k p → s_holds m g ts k' q → no_null ts →
  ∃ r, s_find_str this g pos m = Ok r m ∧ first_from (occurs xs ts) pos r.
Proof.
  intros [rest Hv]%s_holds_view [rest' Hv']%s_holds_view Hn. eexists.
  split; [by eapply s_find_str_eq|]. rewrite until_null_id //. apply find_from_spec.
Qed.
Lemma c15_find_ch m this xs k p ch pos :
  s_holds m this xs k p →
  ∃ r, s_find_ch this ch pos m = Ok r m ∧ first_from (λ i, xs !! i = Some ch) 0 r.
Proof.
  intros [rest Hv]%s_holds_view. eexists. split; [by eapply s_find_ch_eq|].
  destruct (index_of ch xs) as [i|] eqn:E; simpl.
  - apply index_of_Some in E as [? H]. split; [lia|]. split; [done|]. intros j [_ Hj]. by apply H.
  - intros j _. by apply index_of_None.
Qed.

Lemma cmp_range xs ys : (-1 ≤ cmp xs ys ≤ 1)%Z.
Proof.
  revert ys. induction xs as [|x xs IH]; intros [|y ys]; simpl; try lia.
  destruct (N.ltb x y); [lia|]. destruct (N.ltb y x); [lia|]. apply IH.
Qed.
Lemma compare_fun_agrees xs ys : agrees (compare_fun xs ys) xs ys.
Proof.
  unfold agrees. rewrite -lex_sign_lt -lex_sign_gt -lex_sign_eq -!compare_fun_sgn.
  split_and!; try (destruct (Z.sgn_spec (compare_fun xs ys)) as [[? ->]|[[? ->]|[? ->]]]; lia).
  - unfold compare_fun. pose proof (S_compare_range (length xs) (length ys)).
    set (n := _ `min` _). pose proof (cmp_range (take n xs) (take n ys)).
    destruct (Z.eqb _ _); unfold int_min, int_max in *; lia.
  - unfold compare_fun. pose proof (S_compare_range (length xs) (length ys)).
    set (n := _ `min` _). pose proof (cmp_range (take n xs) (take n ys)).
    destruct (Z.eqb _ _); unfold int_min, int_max in *; lia.
Qed.
Lemma c16_strings m x xs k p y ys k' q :
  s_holds m x xs k p → s_holds m y ys k' q →
  (∃ r, s_compare x y m = Ok r m ∧ agrees r xs ys) ∧
  (∃ b, s_eq x y m = Ok b m ∧ (b = true ↔ xs = ys)) ∧
  (∃ b, s_eq_char x y m = Ok b m ∧ (b = true ↔ xs = ys)) ∧
  (∃ b, s_ne x y m = Ok b m ∧ (b = true ↔ xs ≠ ys)) ∧
  (∃ b, s_lt x y m = Ok b m ∧ (b = true ↔ lex_lt xs ys)).
Proof.
  intros [rest Hx]%s_holds_view [rest' Hy]%s_holds_view. split_and!; eexists.
  - split; [by eapply s_compare_eq|]. apply compare_fun_agrees.
  - split; [by eapply s_eq_eq|]. apply bool_decide_eq_true.
  - split; [by eapply s_eq_char_eq|]. apply bool_decide_eq_true.
  - split.
    { rewrite /s_ne /bind. by rewrite (s_eq_eq _ _ _ _ _ _ _ _ _ _ _ Hx Hy). }
    by rewrite negb_true_iff bool_decide_eq_false.
  - split; [by eapply s_lt_eq|]. by rewrite bool_decide_eq_true lex_sign_lt.
Qed.
Lemma c16_arrays m x xs k p s ts zs :
  s_holds m x xs k p → reads_as m s (ts ++ 0%N :: zs) → no_null ts →
  (∃ r, s_compare_c x s m = Ok r m ∧ agrees r xs ts) ∧
  (∃ b, s_eq_c x s m = Ok b m ∧ (b = true ↔ xs = ts)) ∧
  (∃ b, s_ne_c x s m = Ok b m ∧ (b = true ↔ xs ≠ ts)) ∧
  (∃ b, s_lt_c x s m = Ok b m ∧ (b = true ↔ lex_lt xs ts)) ∧
  (∃ b, c_lt_s s x m = Ok b m ∧ (b = true ↔ lex_lt ts xs)).
Proof.
  intros [rest Hx]%s_holds_view Hs%reads_as_chars Hn.
  pose proof (s_compare_c_eq _ _ _ _ _ _ _ _ _ Hx Hs) as Hc. rewrite until_null_id // in Hc.
  pose proof (compare_fun_agrees xs ts) as (A & B & C & D).
  split_and!; eexists.
  - split; [done|]. apply compare_fun_agrees.
  - split; [by rewrite /s_eq_c /bind Hc|]. rewrite Z.eqb_eq. done.
  - split; [by rewrite /s_ne_c /s_eq_c /bind Hc|]. rewrite negb_true_iff Z.eqb_neq. tauto.
  - split; [by rewrite /s_lt_c /bind Hc|]. rewrite Z.ltb_lt. done.
  - split; [by rewrite /c_lt_s /bind Hc|]. rewrite Z.ltb_lt. done.
Qed.
Lemma lex_total xs ys : lex_lt xs ys ∨ xs = ys ∨ lex_lt ys xs.
Proof.
  destruct (lex_sign_cases xs ys) as [H|[H|H]].
  - left. by apply lex_sign_lt.
  - right. left. by apply lex_sign_eq.
  - right. right. by apply lex_sign_gt.
Qed.
Lemma lex_strict_total :
  (∀ xs, ¬ lex_lt xs xs) ∧ (∀ xs ys zs, lex_lt xs ys → lex_lt ys zs → lex_lt xs zs) ∧
  (∀ xs ys, lex_lt xs ys ∨ xs = ys ∨ lex_lt ys xs).
Proof. split_and!; [apply lex_lt_irrefl|apply lex_lt_trans|apply lex_total]. Qed.

(** ** C17 *)
Lemma c17_range m cs :
  fair m → cs ≠ [] →
  unthrown (s_range cs m) (λ this m', fair m' ∧ ∃ k p, s_holds m' this cs k p ∧ replaces [] m [this; p] m').
Proof.
  intros Hm Hcs.
  pose proof (run_fair (X := list N * loc) emp ∅ m [] (s_range cs)
    (λ this x, sobj this cs x.1 x.2)
    (λ this x, [this; x.2])
    (λ this x m', s_holds m' this cs (length cs + length x.1) x.2)
    Hm exact_emp ltac:(apply map_empty_subseteq)) as H.
  feed specialize H.
  - intros l. rewrite lookup_empty elem_of_nil. split; [done|by intros []].
  - intros this [rest p] h' m' Hx Hs. simpl in *. split; [by eapply sobj_holds|].
    intros l. rewrite (sobj_inv _ _ _ _ _ Hx). apply two_cells.
  - iIntros "_". iApply wp_s_range; [done..|]. iIntros (this) "(%rest & %p & H)".
    iExists (rest, p). iFrame.
  - unfold unthrown in *. destruct (s_range cs m); [|done..].
    destruct H as (Hf & x & ? & ?). split; [done|]. by eexists _, _.
Qed.
Lemma c17_empty m : s_range [] m = UB.
Proof.
  rewrite /s_range /new /bind /on_throw /catch /bind /s_cap /s_hdr /bind /load /= lookup_insert /=.
  rewrite /s_set_size /s_hdr /bind /load /= lookup_insert /= /store /= lookup_insert /=.
  by rewrite /s_p /s_hdr /bind /load /= lookup_insert.
Qed.

(** ** C18 *)
Lemma c18_spare m this xs k p i c :
  may_fail_alloc m → s_holds m this xs k p → xs !! i = Some c → length xs < k →
  runs_to m [this; p] (s_push_back this (CElem p i) m) (λ _ m' new, ∃ k' p',
    s_holds m' this (xs ++ [c]) k' p' ∧ (k' = k ∧ p' = p) ∧ new = [this; p']).
Proof.
  intros Hm Hh Hi Hk. eapply s_run_to; [done..|]. iIntros (rest Hr) "H".
  iApply (wp_s_push_own mT with "H"); [lia|done|].
  iIntros "H". iExists _, _. iFrame "H". iPureIntro. rewrite app_length drop_length /=. lia.
Qed.
Lemma c18_full m this xs k p i :
  fair m → s_holds m this xs k p → length xs = k → s_push_back this (CElem p i) m = UB.
Proof.
  intros Hm Hh Hk. pose proof Hh as (H1 & Hk0 & rest & H2 & Hr).
  assert (rest = []) as -> by (apply nil_length_inv; lia).
  assert (this ≠ p) by congruence.
  rewrite /s_push_back /s_size /s_cap /s_hdr /bind /load /= H1 /= H1 /=.
  assert (k <? length xs + 1 = true) as -> by (apply Nat.ltb_lt; lia).
  rewrite /s_reserve /s_cap /s_hdr /bind /load /= H1 /=.
  assert (k <? k * 2 = true) as -> by (apply Nat.ltb_lt; lia).
  assert ((p < nxt m)%positive) as Hp by (apply Hm; eauto).
  assert ((this < nxt m)%positive) as Ht by (apply Hm; eauto).
  destruct (alloc_fair m (SBuf (replicate (k * 2 + 1) 0%N))) as (o & Ho); [done|].
  rewrite /b_allocate /bind Ho /=.
  rewrite /s_p /s_size /s_hdr /bind /load /= lookup_insert_ne; [|lia]. rewrite H1 /=.
  rewrite lookup_insert_ne; [|lia]. rewrite H1 /=.
  rewrite /t_copy Nat.add_1_r. change (S (length xs) =? 0) with false. cbv iota.
  rewrite /bind /chars /b_chars /bind /load /= lookup_insert_ne; [|lia]. rewrite H2 /= lookup_insert /=.
  rewrite decide_True; last first.
  { rewrite app_length replicate_length /=. assert (Pos.eqb p (nxt m) = false) as -> by (apply Pos.eqb_neq; lia).
    split_and!; simpl; [lia|lia|done]. }
  rewrite /store /= lookup_insert /= /b_deallocate /bind /b_chars /bind /load /= lookup_insert_ne; [|lia].
  rewrite lookup_insert_ne; [|lia]. rewrite H2 /=. rewrite decide_True; [|rewrite app_length /=; lia].
  rewrite /free /= lookup_insert_ne; [|lia]. rewrite lookup_insert_ne; [|lia]. rewrite H2 /=.
  rewrite /s_set_p /s_set_cap /s_hdr /bind /load /= lookup_delete_ne // lookup_insert_ne; [|lia].
  rewrite lookup_insert_ne; [|lia]. rewrite H1 /= /store /= lookup_delete_ne // lookup_insert_ne; [|lia].
  rewrite lookup_insert_ne; [|lia]. rewrite H1 /= lookup_insert /= lookup_insert /=.
  rewrite lookup_insert /= lookup_insert /=.
  rewrite /b_get /b_chars /bind /load /= lookup_insert_ne // lookup_insert_ne // lookup_delete //.
Qed.
