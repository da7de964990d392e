(** How many chunks a queue has: one for every [K] pushes. *)
From iris.proofmode Require Import tactics.
From Verif Require Import SLTac HistGen ModelDeque SpecDeque DequeProofs DequeHist DequeMem DequeIter DequeProps.

Section drive.
  Context {V : Type} (K : nat) (HK : 2 ≤ K).
  Implicit Types (d : dstate V) (ops : list (option V)).
  Notation mF := (Mode false false) (only parsing).
  Lemma end_push x d d' : dq_push_back K x d = Some d' → dq_end d' = dq_end d + 1.
  Proof. unfold dq_push_back. intros H. repeat case_decide; simplify_eq; unfold dq_end; cbn [dq_lo dq_els]; rewrite app_length /=; lia. Qed.
  Lemma end_pop d : dq_end (dq_pop_front d) = dq_end d.
  Proof. unfold dq_pop_front, dq_end. destruct (dq_els d) eqn:E; rewrite ?E /=; lia. Qed.
  Lemma wp_steps ops l md Q R : mC md = false → mA md = false → ∀ d, tight K d → dq K l d -∗
    (∀ d', ⌞tight K d' ∧ dq_end d' = (dq_end d + pushes ops)%nat ∧ dq_els d' = q_contents (dq_els d) ops⌟ ∗ dq K l d' -∗ Q tt) -∗
    wp md (q_steps K l ops) Q R.
  Proof using HK.
    intros Hmc HA. induction ops as [|[x|] ops IH]; intros d Ht; iIntros "H HQ"; cbn [q_steps].
    - wret. iApply ("HQ" $! d). iFrame. iPureIntro. split; [done|]. split; [cbn; lia|done].
    - destruct (tight_push_back K HK x d Ht) as (d' & Ea & Ht' & E). rewrite /q_push.
      wbind. iApply (wp_dq_push_back with "H"); [done..|]. iIntros "H". iApply (IH with "H"); [done|].
      iIntros (e) "[(%H1 & %H2 & %H3) H]". iApply ("HQ" $! e). iFrame. iPureIntro. split; [done|].
      split; [rewrite H2 (end_push _ _ _ Ea); change (pushes (Some x :: ops)) with (S (pushes ops)); lia|]. rewrite H3 E. done.
    - rewrite /q_pop. wbind. iApply (wp_dq_pop_front with "H"); [done..|]. iIntros "H".
      iApply (IH with "H"); [by apply tight_pop_front|].
      iIntros (e) "[(%H1 & %H2 & %H3) H]". iApply ("HQ" $! e). iFrame. iPureIntro. split; [done|].
      split; [rewrite H2 end_pop //|]. rewrite H3 pop_front_els. done.
  Qed.
  Lemma drive_run ops :
    ∃ q m v cap cs d, q_drive K ops (mem0 [] []) = Ok q m ∧ d_holds K m q v cap cs d ∧ dq_els d = q_contents [] ops ∧
      length cs = (K / 2 + pushes ops + K - 1) / K.
  Proof using HK.
    assert (good mF (mem0 (C:=dcell V) [] [])) as Hm.
    { apply good_fair. split; [by intros l; rewrite lookup_empty; intros []|]. split; constructor. }
    assert (emp ⊢ wp mF (q_drive K ops) (λ q, ∃ d, ⌞tight K d ∧ dq_end d = (K / 2 + pushes ops)%nat ∧ dq_els d = q_contents [] ops⌟ ∗ dq K q d) (λ _, False)) as Hw.
    { iIntros "_". rewrite /q_drive /q_new. wbind. iApply wp_dq_new; [done..|]. iIntros (l) "H". wbind.
      iApply (wp_steps with "H"); [done..|by apply tight_fresh|]. iIntros (d) "[%Hd H]". wret. iExists d. iFrame. iPureIntro.
      destruct Hd as (H1 & H2 & H3). split; [done|]. split; [|done]. rewrite H2. unfold dq_end. cbn [dq_fresh dq_lo dq_els length]. lia. }
    pose proof (run_exact _ _ _ _ _ _ _ Hm exact_emp (map_empty_subseteq _) Hw) as H.
    destruct (q_drive K ops (mem0 [] [])) as [q m'|e m'| |]; [| |done..].
    - destruct H as (Hm' & h' & (d & Hx) & Hd & Hb).
      apply pure_sep_inv in Hx as [((H0 & Ht & Ht') & H2 & H3) (v & cap & cs & Hx)].
      exists q, m', v, cap, cs, d. split; [done|].
      assert (d_holds K m' q v cap cs d) as Hh. { eapply dobj_holds; [done|]. rewrite Hb. apply map_union_subseteq_l. }
      split; [done|]. split; [done|]. destruct Hh as (_ & -> & _). rewrite H2 in Ht, Ht'.
      apply (Nat.div_unique _ _ _ (K / 2 + pushes ops + K - 1 - dq_chunks d * K)); nia.
    - by destruct H as (_ & h' & [] & _).
  Qed.
End drive.

Section iter.
  Context {V : Type} (K : nat) (HK : 2 ≤ K).
  Implicit Types (d : dstate V) (m : mem (dcell V)).
  Lemma iterate_exact m this v cap cs d :
    may_fail_alloc m → d_holds K m this v cap cs d →
    if decide (dq_end d mod K = 0) then d_iterate K this m = UB
    else ∃ m', d_iterate K this m = Ok (dq_els d) m' ∧ may_fail_alloc m' ∧ d_holds K m' this v cap cs d ∧
       replaces (d_cells this v cs) m (d_cells this v cs) m'.
  Proof using HK. intros Hm Hh. case_decide; [by eapply iterate_boundary|by eapply iterate_run]. Qed.
  Lemma decr_exact m this v cap cs d p it :
    d_holds K m this v cap cs d → iter_at K v cs p it → p ≠ 0 →
    ∃ it', d_decr it m = Ok it' m ∧ iter_at K v cs (if decide (p mod K = 0) then p - K else p - 1) it'.
  Proof using HK.
    intros Hh Hi Hp. case_decide as Hd; [by eapply iter_prev_wrong|].
    by apply (proj1 (proj2 (iter_facts K HK m this v cap cs d Hh))).
  Qed.
  Lemma diff_exact m this v cap cs d p q x y :
    d_holds K m this v cap cs d → iter_at K v cs p x → iter_at K v cs q y →
    ∃ z, d_diff K x y m = Ok z m ∧ (z = (Z.of_nat p - Z.of_nat q)%Z ↔ p / K = q / K).
  Proof using HK.
    intros Hh Hx Hy. destruct (decide (p / K = q / K)) as [E|E].
    - exists (Z.of_nat p - Z.of_nat q)%Z. split; [|done]. by apply (proj1 (proj2 (proj2 (iter_facts K HK m this v cap cs d Hh)))).
    - destruct (diff_wrong K HK m this v cap cs d p q x y Hh Hx Hy E) as (z & Hz & Hn). exists z. split; [done|]. naive_solver.
  Qed.
  Lemma push_every m this v cap cs d x :
    may_fail_alloc m → d_holds K m this v cap cs d →
    match dq_push_back K x d with
    | Some d' => push_outcome K m this v cs d d' (d_push_back K this (DVal x) m)
    | None =>
        if decide (K ≤ dq_end d < dq_lo d + K)
        then ∃ m', d_push_back K this (DVal x) m = Ok tt m' ∧ (r <- d_index K this (length (dq_els d)) ;; d_get r) m' = UB
        else d_push_back K this (DVal x) m = UB
    end.
  Proof using HK.
    intros (Hwf & Hc) Hh. destruct (dq_push_back K x d) eqn:E.
    - eapply push_back_run; [done|by split|done..].
    - apply push_back_undefined in E as [??]. by eapply push_boundary_wrong.
  Qed.
End iter.
