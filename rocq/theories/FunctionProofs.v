(** cest::function: the model does what the specification says. *)
From iris.proofmode Require Import tactics.
From Verif Require Import SLTac HistGen HistMore HistThrowProofs ModelUptr UptrProofs ModelFunction SpecFunction.

Section proofs.
  Context {S A R : Type} (call : S → A → S * R).
  Notation hp := (hprop (ucell S)).

  Definition frep (l : loc) (x : fobj S) : hp :=
    match x with
    | Callable s => l ↦ UObj s
    | Func o => ∃ p, l ↦ UPtr p ∗ own p o
    end%I.

  Section md.
  Context (md : mode).
  Lemma wp_c_call l s a (Q : R → hp) Re :
    l ↦ UObj s -∗ (l ↦ UObj (call s a).1 -∗ Q (call s a).2) -∗ wp md (c_call call l a) Q Re.
  Proof using.
    iIntros "H HQ". rewrite /c_call. wstep wp_load' "H". wstep wp_store' "H". wret. by iApply "HQ".
  Qed.
  Lemma wp_f_wrap c s (Q : loc → hp) Re :
    c ↦ UObj s -∗
    ((∀ e, ⌜throws md e⌝ → c ↦ UObj s -∗ Re e) ∧ (∀ l, c ↦ UObj s -∗ frep l (Func (Some s)) -∗ Q l)) -∗
    wp md (f_wrap c) Q Re.
  Proof using.
    iIntros "H HQ". rewrite /f_wrap. wstep wp_load' "H". wbind. rewrite /u_make. wbind.
    iApply wp_new_obj. iSplit.
    - iIntros (e Ht). iDestruct "HQ" as "[HQ _]". by iApply ("HQ" with "[//] H").
    - iDestruct "HQ" as "[_ HQ]". iIntros (l) "Hl". rewrite /u_from. iApply wp_new'. iIntros (t) "Ht".
      wbind. iApply (wp_u_move with "Ht"). iIntros (this) "Ht Hthis".
      wbind. iApply (wp_u_dtor _ _ None None with "Ht"); [done|]. iIntros "_". wret.
      iApply ("HQ" with "H"). simpl. iExists _. iFrame.
  Qed.
  Lemma unch_throws (P : hp) e : unch md P e ⊢ ⌞throws md e⌟ ∗ P.
  Proof using. iIntros "[%H $]". iPureIntro. by left. Qed.
  Lemma exn_mono {X} (P : hp) (f : M (ucell S) X) Q (Re Re' : exn → hp) :
    (P ⊢ wp md f Q Re) → (∀ e, Re e ⊢ Re' e) → P ⊢ wp md f Q Re'.
  Proof using. intros H HR. etrans; [exact H|]. by apply wp_mono. Qed.
  Lemma fspec_op_spec : op_spec_any (fspec call) (f_run call) (λ _, True) (objs frep) md.
  Proof using.
    intros env s op s' o _ Hs. destruct op as [c x|h c|h g|h g|h a|c a|h|c]; simpl in Hs.
    - destruct (s !! c) eqn:E; simplify_eq. eapply exn_mono; [|apply unch_throws]. apply (op_decl frep); [done|].
      iIntros "_". iApply wp_new'. by iIntros (l) "$".
    - destruct (s !! h) eqn:E; [done|]. destruct (s !! c) as [[x|]|] eqn:Ec; simplify_eq.
      iIntros "H". iDestruct (objs_none with "H") as %He; [done|].
      iDestruct (objs_acc with "H") as (l' Hl) "[Hc H]"; [done|]. simpl.
      rewrite /decl He. wbind. iApply wp_obj; [done|]. iApply (wp_f_wrap with "Hc"). iSplit.
      + iIntros (e Ht) "Hc". iSplitR; [done|]. iSpecialize ("H" $! (Callable x) with "Hc"). by rewrite insert_id.
      + iIntros (l) "Hc Hx". wret. iSplitR; [done|]. simpl. iApply objs_add; [done|]. iFrame.
        iSpecialize ("H" $! (Callable x) with "Hc"). by rewrite insert_id.
    - destruct (s !! h) eqn:E; [done|]. destruct (s !! g) as [[|x]|] eqn:Eg; simplify_eq.
      eapply exn_mono; [|apply unch_throws]. apply (op_decl_from frep) with (y := Func x); [done..|]. iIntros (l') "H". simpl. iDestruct "H" as (p) "[H Ho]".
      iApply (wp_u_move with "H"). iIntros (l) "H Hl". iSplitL "Hl Ho".
      + iExists p. iFrame.
      + iExists None. by iFrame.
    - destruct (s !! h) as [[|x]|] eqn:E; [done| |done]. destruct (s !! g) as [[|y]|] eqn:Eg; simplify_eq.
      destruct (decide (h = g)) as [->|Hne].
      + rewrite E in Eg. simplify_eq. rewrite insert_insert.
        eapply exn_mono; [|apply unch_throws]. apply (op_same frep) with (x := Func y); [done|]. iIntros (l) "H". simpl. iDestruct "H" as (p) "[H Ho]".
        iApply (wp_u_assign_self with "H"). iIntros "H". iSplitR; [done|]. iExists p. iFrame.
      + eapply exn_mono; [|apply unch_throws]. apply (op_act2 frep) with (x := Func x) (y := Func y); [done..|]. iIntros (l l') "[H H']". simpl.
        iDestruct "H" as (p) "[H Ho]". iDestruct "H'" as (p') "[H' Ho']".
        iApply (wp_u_assign with "H H'"). iIntros "H H'". iSplitR; [done|].
        iSplitL "H Ho'"; iExists _; iFrame.
    - destruct (s !! h) as [[|[x|]]|] eqn:E; simplify_eq.
      eapply exn_mono; [|apply unch_throws]. apply (op_act1 frep) with (x := Func (Some x)); [done|]. iIntros (l) "H". simpl. iDestruct "H" as (p) "[H Ho]".
      destruct p as [p|]; simpl; [|done]. rewrite /f_call. wstep wp_u_ptr "H".
      iApply (wp_c_call with "Ho"). iIntros "Ho". iSplitR; [done|]. iExists (Some p). iFrame.
    - destruct (s !! c) as [[x|]|] eqn:E; simplify_eq.
      eapply exn_mono; [|apply unch_throws]. apply (op_act1 frep) with (x := Callable x); [done|]. iIntros (l) "H". simpl.
      iApply (wp_c_call with "H"). iIntros "Ho". by iSplitR.
    - destruct (s !! h) as [[|x]|] eqn:E; simplify_eq.
      eapply exn_mono; [|apply unch_throws]. apply (op_drop frep) with (x := Func x); [done|]. iIntros (l) "H". simpl. iDestruct "H" as (p) "[H Ho]".
      iApply (wp_u_dtor with "H Ho"). by iIntros "_".
    - destruct (s !! c) as [[x|]|] eqn:E; simplify_eq.
      eapply exn_mono; [|apply unch_throws]. apply (op_drop frep) with (x := Callable x); [done|]. iIntros (l) "H". simpl.
      iApply (wp_free' with "H"). by iIntros "_".
  Qed.
  End md.

  Lemma f_refines_throwing ao co : refines_throwing (fspec call) (f_run call) ∅ ∅ (λ s, s = ∅) (λ _, True) ao co.
  Proof using.
    apply (refines_throwing_sim _ _ _ _ _ _ (objs frep)); [apply fspec_op_spec|apply objs_empty|].
    intros env s ->. apply objs_gone.
  Qed.
  Lemma f_refines ao co : no_fail co → refines_from (fspec call) (f_run call) ∅ ∅ (λ s, s = ∅) (λ _, True) ao co.
  Proof using.
    intros Hco. apply (gen_refines frep _ _ (λ _ _, True)); [|done]. intros md Hmc.
    apply op_spec_any_no_copy; [apply fspec_op_spec|done].
  Qed.
  Lemma f_reach ao co evs s env m :
    hist (fspec call) (f_run call) ∅ ∅ (mem0 ao co) evs s env m → objs frep env s (blk m).
  Proof using.
    intros Hh.
    destruct (hist_sim_any _ _ (λ _, True) (objs frep) (Mode true true) ∅ ∅ (mem0 ao co) evs s env m
      (fspec_op_spec (Mode true true)) Hh) as (_ & _ & _ & Hr).
    - apply Forall_forall. done.
    - split; [by intros l; rewrite lookup_empty; intros []|]. done.
    - apply (proj1 (hprop_entails_eq _ _) (objs_empty frep)). by apply hprop_emp_eq.
    - done.
  Qed.

  (** memory in reachable states *)
  Definition fcells (x : fobj S) : nat := match x with Func (Some _) => 2 | _ => 1 end.
  Lemma f_memory ao co evs s env m :
    hist (fspec call) (f_run call) ∅ ∅ (mem0 ao co) evs s env m →
    size (blk m) = sum_of fcells s ∧
    ∀ h x, s !! h = Some x → ∃ l, env !! h = Some l ∧
      match x with
      | Callable v => blk m !! l = Some (UObj v)
      | Func None => blk m !! l = Some (UPtr None)
      | Func (Some v) => ∃ l', blk m !! l = Some (UPtr (Some l')) ∧ blk m !! l' = Some (UObj v)
      end.
  Proof using.
    intros Hh. pose proof (f_reach _ _ _ _ _ _ Hh) as Ho.
    split.
    - apply (objs_count (C:=ucell S) frep fcells (λ h, size h)) with (env := env); [by rewrite map_size_empty| | |done].
      + intros h1 h2 Hd. by apply map_size_disj_union.
      + intros l [v|[v|]] h; simpl.
        * intros Hp. apply (proj1 (pt_eq _ _ _)) in Hp. subst h. by rewrite map_size_singleton.
        * intros (p & Hp). apply hprop_sep_eq in Hp as (h1 & h2 & -> & Hd & H1 & H2).
          destruct p as [p|]; simpl in H2; [|by destruct H2]. apply (proj1 (pt_eq _ _ _)) in H1, H2. subst.
          by rewrite map_size_disj_union // !map_size_singleton.
        * intros (p & Hp). apply hprop_sep_eq in Hp as (h1 & h2 & -> & Hd & H1 & H2).
          destruct p as [p|]; simpl in H2; [by destruct H2|]. apply (proj1 (pt_eq _ _ _)) in H1. assert (h2 = ∅) as -> by (by apply hprop_emp_eq). subst.
          by rewrite right_id_L map_size_singleton.
    - intros h x Hx. destruct (objs_at frep env s h x (blk m) Ho Hx) as (l & h' & Hl & Hp & Hs).
      exists l. split; [done|]. destruct x as [v|[v|]]; simpl in Hp.
      + apply (proj1 (pt_eq _ _ _)) in Hp. subst h'. eapply lookup_weaken; [|done]. apply lookup_singleton.
      + destruct Hp as (p & Hp). apply hprop_sep_eq in Hp as (h1 & h2 & -> & Hd & H1 & H2).
        destruct p as [p|]; simpl in H2; [|by destruct H2]. apply (proj1 (pt_eq _ _ _)) in H1, H2. subst.
        exists p. split; (eapply lookup_weaken; [|done]).
        * apply lookup_union_Some_l, lookup_singleton.
        * apply lookup_union_Some_r; [done|]. apply lookup_singleton.
      + destruct Hp as (p & Hp). apply hprop_sep_eq in Hp as (h1 & h2 & -> & Hd & H1 & H2).
        destruct p as [p|]; simpl in H2; [by destruct H2|]. apply (proj1 (pt_eq _ _ _)) in H1. subst.
        eapply lookup_weaken; [|done]. apply lookup_union_Some_l, lookup_singleton.
  Qed.

  (** a call of an empty function reads through a null pointer *)
  Lemma f_call_empty ao co evs s env m h a :
    hist (fspec call) (f_run call) ∅ ∅ (mem0 ao co) evs s env m → s !! h = Some (Func None) →
    f_run call env (FCall h a) m = UB.
  Proof using.
    intros Hh Hs. destruct (f_memory _ _ _ _ _ _ Hh) as [_ Hm]. destruct (Hm _ _ Hs) as (l & Hl & Hb).
    simpl. rewrite /act1 /obj Hl. unfold bind, ret. rewrite /f_call /u_ptr /load. unfold bind. by rewrite Hb.
  Qed.

  Lemma f_call_full ao co evs s env m h x a :
    hist (fspec call) (f_run call) ∅ ∅ (mem0 ao co) evs s env m → s !! h = Some (Func (Some x)) →
    ∃ m', f_run call env (FCall h a) m = Ok (env, Some (call x a).2) m'.
  Proof using.
    intros Hh Hs. destruct (f_memory _ _ _ _ _ _ Hh) as [_ Hm]. destruct (Hm _ _ Hs) as (l & Hl & l' & Hb & Hb').
    simpl. rewrite /act1 /obj Hl. unfold bind, ret. rewrite /f_call /u_ptr /load. unfold bind. rewrite Hb.
    rewrite /c_call /load /store. unfold bind, ret. rewrite Hb' /=. by rewrite Hb'; eexists.
  Qed.

  (** a sequence of calls of one function *)
  Lemma f_calls ao co evs s env m h x args :
    no_fail ao → no_fail co → hist (fspec call) (f_run call) ∅ ∅ (mem0 ao co) evs s env m →
    s !! h = Some (Func (Some x)) →
    ∃ evs' env' m', exec (fspec call) (f_run call) s env m (FCall h <$> args) =
        Some (evs', <[h := Func (Some (after call x args))]> s, env', m') ∧
      snd <$> evs' = (λ r, Ret (Some r)) <$> calls call x args.
  Proof using.
    intros Hao Hco Hh Hx.
    assert (spec_run (fspec call) s (FCall h <$> args) =
            Some (<[h := Func (Some (after call x args))]> s, Some <$> calls call x args)) as Hr.
    { clear Hh. revert s x Hx. induction args as [|a args IH]; intros s x Hx; simpl.
      - by rewrite insert_id.
      - rewrite Hx. erewrite IH; [|by rewrite lookup_insert]. by rewrite insert_insert. }
    destruct (exec_spec_run (fspec call) (f_run call) ∅ ∅ (λ s, s = ∅) (λ _, True) ao co evs s env m
      (FCall h <$> args) _ _ (f_refines ao co Hco) Hao Hh ltac:(by apply Forall_forall) ltac:(by apply Forall_forall) Hr) as (env' & m' & He).
    exists (zip (FCall h <$> args) (Ret <$> (Some <$> calls call x args))), env', m'. split; [done|].
    clear. revert x. induction args as [|a args IH]; intros x; simpl; [done|]. f_equal. apply IH.
  Qed.

  (** copying a function: never ends unless an allocation fails *)
  Lemma f_copy_div raw n c (m : mem (ucell S)) : Forall (λ b, b = false) (take n (aorc m)) → f_copy raw n c m = Div.
  Proof using.
    revert m. induction n as [|n IH]; intros m Hf; [done|]. simpl.
    rewrite /bind /alloc. destruct (aorc m) as [|b o] eqn:E; simpl in *.
    - unfold on_throw, catch. rewrite IH //=. by rewrite take_nil.
    - apply Forall_cons in Hf as [-> Hf]. unfold on_throw, catch. rewrite IH //=.
  Qed.
End proofs.
