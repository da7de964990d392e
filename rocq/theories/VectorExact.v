(** push_back of an own element when the vector is full: the block is freed
    before the element is read. *)
From iris.proofmode Require Import tactics.
From Verif Require Import SLTac Hist HistProofs Objs ModelVector SpecVector
  VectorProofs VectorHist VectorMem VectorProps.

Lemma reserve_new {V} (m : mem (vcell V)) this xs k p n :
  may_fail_alloc m → holds m this xs k p → k < n →
  effect m this p (v_reserve this n m) (λ _, True) xs (λ k' p', k' = k `max` n ∧ p' ≠ p).
Proof.
  intros Hm Hh Hn. eapply run_effect; [done..|]. iIntros "H".
  iApply (wp_v_reserve (Mode true false) eq_refl with "H"). iSplit; [by iIntros (_) "$"|].
  iIntros (p') "[%Hp H]". iExists _, p'. iFrame. iPureIntro. naive_solver.
Qed.
(** the allocator may fail: then nothing happens *)
Lemma push_own_full {V} (m : mem (vcell V)) this xs k b i :
  may_fail_alloc m → holds m this xs k (Some b) → length xs = k →
  v_push_back this (RElem b i) m = UB ∨
  ∃ m', v_push_back this (RElem b i) m = Exn BadAlloc m' ∧ may_fail_alloc m' ∧ blk m' = blk m.
Proof.
  intros Hm Hh Hk. pose proof Hh as (H1 & Hk0 & _ & H2).
  rewrite /v_push_back. rewrite /bind (v_cap_eq _ _ _ _ _ Hh) (v_size_eq _ _ _ _ _ Hh).
  destruct (Nat.eqb_spec k 0); [lia|]. rewrite Hk Nat.eqb_refl.
  pose proof (reserve_new m this xs k (Some b) (k * 2) Hm Hh ltac:(lia)) as He. unfold effect in He.
  destruct (v_reserve this (k * 2) m) as [[] m'|e m'| |]; [|right|done..].
  - left. destruct He as (Hm' & _ & k' & p' & [-> Hp] & Hh' & Hr).
    rewrite /v_p /v_size /bind (v_hdr_eq _ _ _ _ _ Hh') /=.
    assert (blk m' !! b = None) as Hb.
    { specialize (Hr b). destruct (decide (b ∈ own_cells this p')) as [Hin|].
      - exfalso. destruct p' as [q|]; simpl in Hin; set_solver.
      - by rewrite decide_True in Hr; [|set_unfold; auto]. }
    assert (this ≠ b) as Hne by congruence. rewrite (v_hdr_eq _ _ _ _ _ Hh') /ret /set_size /bind (v_hdr_eq _ _ _ _ _ Hh').
    destruct Hh' as [Hh' _]. rewrite /store Hh' /a_get /a_els /bind /load /=. by rewrite lookup_insert_ne // Hb.
  - destruct He as (-> & ? & ?). by eexists.
Qed.

Lemma push_own_exact {V} (m : mem (vcell V)) this xs k b i v :
  may_fail_alloc m → holds m this xs k (Some b) → xs !! i = Some v →
  if decide (length xs < k)
  then effect m this (Some b) (v_push_back this (RElem b i) m) (λ _, True) (xs ++ [v]) (λ k' p', k' = k ∧ p' = Some b)
  else v_push_back this (RElem b i) m = UB ∨
    ∃ m', v_push_back this (RElem b i) m = Exn BadAlloc m' ∧ may_fail_alloc m' ∧ blk m' = blk m.
Proof.
  intros Hm Hh Hi. case_decide; [by apply e_push_own|]. eapply push_own_full; [done..|].
  destruct Hh as (_ & Hh). simpl in Hh. destruct Hh as (? & ?). lia.
Qed.
