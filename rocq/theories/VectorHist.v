(** Every client operation on vectors refines the sequence specification. *)
From iris.proofmode Require Import tactics.
From Verif Require Import SLTac Hist HistProofs Objs ModelVector SpecVector VectorProofs.

Definition v_ok {V} (may_fail : bool) (op : vop V) : Prop :=
  match op with
  | VInit _ vs => may_fail = true → length vs ≤ 1
  | _ => True
  end.

Section hist.
  Context {V : Type} (dflt : V) (veq : V → V → bool).
  Context (md : mode) (Hmc : mC md = false).
  Notation rep := (objs (vec (V:=V))).

  Lemma wp_obj env h l Q R :
    env !! h = Some l → Q l -∗ wp md (obj (V:=V) env h) Q R.
  Proof. iIntros (H) "HQ". rewrite /obj H. by wret. Qed.

  (** open one object, run, close *)
  Lemma vec_intro l xs k p : vobj l xs k p -∗ vec (V:=V) l xs.
  Proof. iIntros "H". iExists _, _. iFrame. Qed.

  Ltac solve_pure := iSplitR; [by iPureIntro|].

  Lemma v_op_spec : op_spec (vspec dflt veq) (v_run dflt veq) (v_ok (mA md)) rep md.
  Proof using Hmc.
    intros env s op s' o Hok Hs. iIntros "H". destruct op; simpl in Hs.
    - (* VNew *)
      unfold fresh_as in Hs. destruct (s !! h) eqn:Eh; simplify_eq.
      simpl. iDestruct (objs_none with "H") as %He; [done|]. rewrite /decl He.
      wbind. iApply wp_v_new. iIntros (l) "Hl". wret. solve_pure. simpl.
      iApply objs_add; [done|]. iFrame. by iApply vec_intro.
    - (* VCount *)
      unfold fresh_as in Hs. destruct (s !! h) eqn:Eh; simplify_eq.
      simpl. iDestruct (objs_none with "H") as %He; [done|]. rewrite /decl He.
      wbind. iApply (wp_v_count _ _ Hmc). iSplit.
      { iIntros (HA). solve_pure. iFrame. }
      iIntros (l p) "Hl". wret. solve_pure. simpl.
      iApply objs_add; [done|]. iFrame. by iApply vec_intro.
    - (* VInit *)
      unfold fresh_as in Hs. destruct (s !! h) eqn:Eh; simplify_eq.
      simpl. iDestruct (objs_none with "H") as %He; [done|]. rewrite /decl He.
      wbind. iApply (wp_v_init _ Hmc); [done|]. iSplit.
      { iIntros (HA). solve_pure. iFrame. }
      iIntros (l) "Hl". wret. solve_pure. simpl.
      iApply objs_add; [done|]. iFrame.
    - (* VCopy *)
      destruct (s !! g) as [ys|] eqn:Eg; [|done]. unfold fresh_as in Hs.
      destruct (s !! h) eqn:Eh; simplify_eq.
      simpl. iDestruct (objs_none with "H") as %He; [done|]. rewrite /decl He.
      iDestruct (objs_read with "H") as (lg Hlg) "[(%k & %p & Hy) H]"; [done|].
      wbind. iApply wp_obj; [done|]. iApply (wp_v_copy _ Hmc with "Hy"). iSplit.
      { iIntros (HA) "Hy". solve_pure. iApply "H". by iApply vec_intro. }
      iIntros (l q) "Hl Hy". wret. solve_pure. simpl.
      iApply objs_add; [done|]. iSplitR "Hl"; [iApply "H"|]; by iApply vec_intro.
    - (* VMove *)
      destruct (s !! g) as [ys|] eqn:Eg; [|done].
      destruct (s !! h) eqn:Eh; simplify_eq.
      simpl. iDestruct (objs_none with "H") as %He; [done|]. rewrite /decl He.
      iDestruct (objs_acc with "H") as (lg Hlg) "[(%k & %p & Hy) H]"; [done|].
      wbind. iApply wp_obj; [done|]. iApply (wp_v_move with "Hy").
      iIntros (l) "Hl Hy". wret. solve_pure. simpl.
      iApply objs_add.
      { destruct (decide (h = g)); [congruence|]. by rewrite lookup_insert_ne. }
      iSplitR "Hl"; [iApply "H"|]; by iApply vec_intro.
    - (* VAssign *)
      destruct (s !! h) as [xs|] eqn:Eh; [|done].
      destruct (s !! g) as [ys|] eqn:Eg; [|done]. unfold becomes in Hs. simplify_eq.
      simpl. unfold act. destruct (decide (h = g)) as [->|Hne].
      + simplify_eq. rewrite insert_id //.
        iDestruct (objs_read with "H") as (l Hl) "[(%k & %p & Hx) H]"; [done|].
        wbind. iApply wp_obj; [done|]. wbind. iApply wp_obj; [done|].
        iApply (wp_v_assign_self _ Hmc with "Hx").
        iIntros "Hx". wret. solve_pure. iApply "H". by iApply vec_intro.
      + iDestruct (objs_acc2 with "H") as (l l' [Hl Hl']) "((%k & %p & Hx) & (%k' & %p' & Hy) & H)"; [done..|].
        wbind. iApply wp_obj; [done|]. wbind. iApply wp_obj; [done|].
        iApply (wp_v_assign _ Hmc with "Hx Hy"). iSplit.
        * iIntros (HA) "Hx Hy". solve_pure. iSpecialize ("H" with "[Hx] [Hy]"); [by iApply vec_intro..|].
          rewrite (insert_id s g) // (insert_id s h) //.
        * iIntros (q) "_ Hx Hy". wret. solve_pure. simpl.
          iSpecialize ("H" with "[Hx] [Hy]"); [by iApply vec_intro..|].
          rewrite (insert_id s g) //.
    - (* VMoveAssign *)
      destruct (s !! h) as [xs|] eqn:Eh; [|done].
      destruct (s !! g) as [ys|] eqn:Eg; [|done]. simplify_eq.
      simpl. unfold act, v_move_assign. destruct (decide (h = g)) as [->|Hne].
      + simplify_eq. rewrite insert_insert insert_id //.
        iDestruct (objs_read with "H") as (l Hl) "[(%k & %p & Hx & Ha) H]"; [done|].
        wbind. iApply wp_obj; [done|]. wbind. iApply wp_obj; [done|].
        iApply (wp_v_swap_self with "Hx").
        iIntros "Hx". wret. solve_pure. iApply "H". iApply vec_intro. iFrame.
      + iDestruct (objs_acc2 with "H") as (l l' [Hl Hl']) "((%k & %p & Hx & Ha) & (%k' & %p' & Hy & Hb) & H)"; [done..|].
        wbind. iApply wp_obj; [done|]. wbind. iApply wp_obj; [done|].
        iApply (wp_v_swap_ne with "Hx Hy"). iIntros "Hx Hy". wret. solve_pure. simpl.
        iApply ("H" with "[Hx Hb] [Hy Ha]"); iApply vec_intro; iFrame.
    - (* VSwap *)
      destruct (s !! h) as [xs|] eqn:Eh; [|done].
      destruct (s !! g) as [ys|] eqn:Eg; [|done]. simplify_eq.
      simpl. unfold act. destruct (decide (h = g)) as [->|Hne].
      + simplify_eq. rewrite insert_insert insert_id //.
        iDestruct (objs_read with "H") as (l Hl) "[(%k & %p & Hx & Ha) H]"; [done|].
        wbind. iApply wp_obj; [done|]. wbind. iApply wp_obj; [done|].
        iApply (wp_v_swap_self with "Hx").
        iIntros "Hx". wret. solve_pure. iApply "H". iApply vec_intro. iFrame.
      + iDestruct (objs_acc2 with "H") as (l l' [Hl Hl']) "((%k & %p & Hx & Ha) & (%k' & %p' & Hy & Hb) & H)"; [done..|].
        wbind. iApply wp_obj; [done|]. wbind. iApply wp_obj; [done|].
        iApply (wp_v_swap_ne with "Hx Hy"). iIntros "Hx Hy". wret. solve_pure. simpl.
        iApply ("H" with "[Hx Hb] [Hy Ha]"); iApply vec_intro; iFrame.
    - (* VPush *)
      destruct (s !! h) as [xs|] eqn:Eh; [|done]. unfold becomes in Hs. simplify_eq. simpl. unfold act.
      iDestruct (objs_acc with "H") as (l Hl) "[(%k & %p & Hx) H]"; [done|].
      wbind. iApply wp_obj; [done|]. iApply (wp_v_push_back _ Hmc with "Hx"). iSplit.
      + iIntros ([HA _]) "Hx". solve_pure. iSpecialize ("H" with "[Hx]"); [by iApply vec_intro|].
        rewrite insert_id //.
      + iIntros (q) "_ Hx". wret. solve_pure. iApply "H". by iApply vec_intro.
    - (* VPushElem *)
      destruct (decide (h = g)) as [->|Hne]; [done|].
      destruct (s !! h) as [xs|] eqn:Eh; [|done].
      destruct (s !! g) as [ys|] eqn:Eg; [|done].
      destruct (ys !! i) as [y|] eqn:Ei; [|done]. unfold becomes in Hs. simplify_eq. simpl. unfold act.
      iDestruct (objs_acc2 with "H") as (l l' [Hl Hl']) "((%k & %p & Hx) & (%k' & %p' & Hy & Hb) & H)"; [done..|].
      wbind. iApply wp_obj; [done|]. wbind. iApply wp_obj; [done|].
      wbind. iApply (wp_v_index with "[$Hy $Hb]"). iIntros "[Hy Hb]". simpl.
      destruct p' as [b|]; [|by iDestruct "Hb" as %[_ ->]].
      iApply (wp_v_push_gen _ Hmc (arr (Some b) k' ys) with "Hb Hx").
      { iIntros (Q') "Hb HQ". unfold deref. by iApply (wp_a_get_arr with "Hb"). }
      iSplit.
      + iIntros ([HA _]) "Hb Hx". solve_pure. iSpecialize ("H" $! xs ys with "[Hx] [Hy Hb]"); [iApply vec_intro; iFrame..|].
        rewrite (insert_id s g) // (insert_id s h) //.
      + iIntros (q) "_ Hb Hx". wret. solve_pure. simpl.
        iSpecialize ("H" $! _ ys with "[Hx] [Hy Hb]"); [iApply vec_intro; iFrame..|].
        rewrite (insert_id s g) //.
    - (* VPop *)
      destruct (s !! h) as [xs|] eqn:Eh; [|done].
      destruct xs as [|x xs _] using rev_ind; [done|].
      assert (becomes s h xs = Some (s', o)) as Hs'.
      { rewrite removelast_last in Hs. by destruct (xs ++ [x]) eqn:E; [destruct xs|]. }
      clear Hs. unfold becomes in Hs'. simplify_eq. simpl. unfold act.
      iDestruct (objs_acc with "H") as (l Hl) "[(%k & %p & Hx) H]"; [done|].
      wbind. iApply wp_obj; [done|]. iApply (wp_v_pop_back with "Hx").
      iIntros "Hx". wret. solve_pure. iApply "H". by iApply vec_intro.
    - (* VResize *)
      destruct (s !! h) as [xs|] eqn:Eh; [|done]. unfold becomes in Hs. simplify_eq. simpl. unfold act.
      iDestruct (objs_acc with "H") as (l Hl) "[(%k & %p & Hx) H]"; [done|].
      wbind. iApply wp_obj; [done|]. iApply (wp_v_resize _ _ Hmc with "Hx"). iSplit.
      + iIntros (HA) "Hx". solve_pure. iSpecialize ("H" with "[Hx]"); [by iApply vec_intro|].
        rewrite insert_id //.
      + iIntros (q) "_ Hx". wret. solve_pure. iApply "H". by iApply vec_intro.
    - (* VReserve *)
      destruct (s !! h) as [xs|] eqn:Eh; [|done]. unfold answers in Hs. simplify_eq. simpl. unfold act.
      iDestruct (objs_read with "H") as (l Hl) "[(%k & %p & Hx) H]"; [done|].
      wbind. iApply wp_obj; [done|]. iApply (wp_v_reserve _ Hmc with "Hx"). iSplit.
      + iIntros ([HA _]) "Hx". solve_pure. iApply "H". by iApply vec_intro.
      + iIntros (q) "[_ Hx]". wret. solve_pure. iApply "H". by iApply vec_intro.
    - (* VClear *)
      destruct (s !! h) as [xs|] eqn:Eh; [|done]. unfold becomes in Hs. simplify_eq. simpl. unfold act.
      iDestruct (objs_acc with "H") as (l Hl) "[(%k & %p & Hx) H]"; [done|].
      wbind. iApply wp_obj; [done|]. iApply (wp_v_clear with "Hx").
      iIntros "Hx". wret. solve_pure. iApply "H". by iApply vec_intro.
    - (* VErase *)
      destruct (s !! h) as [xs|] eqn:Eh; [|done]. destruct (decide _) as [Hij|]; [|done]. simplify_eq.
      simpl. unfold act. iDestruct (objs_acc with "H") as (l Hl) "[(%k & %p & Hx) H]"; [done|].
      wbind. iApply wp_obj; [done|]. iApply (wp_v_erase _ Hmc with "Hx"); [done|].
      iIntros "Hx". wret. solve_pure. iApply "H". by iApply vec_intro.
    - (* VSet *)
      destruct (s !! h) as [xs|] eqn:Eh; [|done]. destruct (xs !! i) eqn:Ei; [|done].
      unfold becomes in Hs. simplify_eq. simpl. unfold act.
      iDestruct (objs_acc with "H") as (l Hl) "[(%k & %p & Hx) H]"; [done|].
      wbind. iApply wp_obj; [done|]. wstep wp_v_index "Hx".
      iApply (wp_v_write _ Hmc with "Hx"); [by eapply lookup_lt_Some|].
      iIntros "Hx". wret. solve_pure. iApply "H". by iApply vec_intro.
    - (* VDestroy *)
      destruct (s !! h) as [xs|] eqn:Eh; [|done]. simplify_eq. simpl.
      iDestruct (objs_del with "H") as (l Hl) "[Hx H]"; [done|].
      wbind. iApply wp_obj; [done|]. wbind. iApply (wp_v_dtor with "Hx").
      iIntros "_". wret. solve_pure. iFrame.
    - (* VSize *)
      destruct (s !! h) as [xs|] eqn:Eh; [|done]. unfold answers in Hs. simplify_eq. simpl. unfold act.
      iDestruct (objs_read with "H") as (l Hl) "[(%k & %p & Hx & Ha) H]"; [done|].
      wbind. iApply wp_obj; [done|]. wstep wp_v_size "Hx". wret. solve_pure.
      iApply "H". iApply vec_intro. iFrame.
    - (* VEmpty *)
      destruct (s !! h) as [xs|] eqn:Eh; [|done]. unfold answers in Hs. simplify_eq. simpl. unfold act.
      iDestruct (objs_read with "H") as (l Hl) "[(%k & %p & Hx & Ha) H]"; [done|].
      wbind. iApply wp_obj; [done|]. unfold v_empty. wstep wp_v_size "Hx". wret. wret.
      iSplitR; [by destruct xs|]. iApply "H". iApply vec_intro. iFrame.
    - (* VGet *)
      destruct (s !! h) as [xs|] eqn:Eh; [|done]. destruct (xs !! i) eqn:Ei; [|done].
      unfold answers in Hs. simplify_eq. simpl. unfold act.
      iDestruct (objs_read with "H") as (l Hl) "[(%k & %p & Hx) H]"; [done|].
      wbind. iApply wp_obj; [done|]. wstep wp_v_index "Hx".
      iApply (wp_v_read with "Hx"); [done|].
      iIntros "Hx". wret. solve_pure. iApply "H". by iApply vec_intro.
    - (* VAt *)
      destruct (s !! h) as [xs|] eqn:Eh; [|done].
      unfold answers in Hs. simplify_eq. simpl.
      iDestruct (objs_read with "H") as (l Hl) "[(%k & %p & Hx) H]"; [done|].
      wbind. iApply wp_obj; [done|]. iApply wp_catch. wbind. iApply (wp_v_at with "Hx"). iSplit.
      + iIntros (Hge) "Hx". wret. rewrite lookup_ge_None_2 //. solve_pure. iApply "H". by iApply vec_intro.
      + iIntros (Hlt) "Hx". destruct (lookup_lt_is_Some_2 xs i Hlt) as [v Hv]. rewrite Hv.
        wbind. iApply (wp_v_read with "Hx"); [done|].
        iIntros "Hx". wret. solve_pure. iApply "H". by iApply vec_intro.
    - (* VFront *)
      destruct (s !! h) as [xs|] eqn:Eh; [|done]. destruct xs as [|x xs]; [done|].
      unfold answers in Hs. simplify_eq/=. unfold act, v_front.
      iDestruct (objs_read with "H") as (l Hl) "[(%k & %p & Hx) H]"; [done|].
      wbind. iApply wp_obj; [done|]. wstep wp_v_index "Hx".
      iApply (wp_v_read with "Hx"); [done|].
      iIntros "Hx". wret. solve_pure. iApply "H". by iApply vec_intro.
    - (* VBack *)
      destruct (s !! h) as [xs|] eqn:Eh; [|done]. destruct xs as [|x xs _] using rev_ind; [done|].
      rewrite last_snoc in Hs. unfold answers in Hs. simplify_eq/=. unfold act, v_back.
      iDestruct (objs_read with "H") as (l Hl) "[(%k & %p & Hx & Ha) H]"; [done|].
      wbind. iApply wp_obj; [done|]. wstep wp_v_size "Hx". rewrite app_length Nat.add_1_r.
      iAssert (vobj l (xs ++ [x]) k p) with "[Hx Ha]" as "Hx".
      { rewrite /vobj app_length Nat.add_1_r. iFrame. }
      wstep wp_v_index "Hx".
      iApply (wp_v_read with "Hx").
      { rewrite lookup_app_r // Nat.sub_diag //. }
      iIntros "Hx". wret. solve_pure. iApply "H". by iApply vec_intro.
    - (* VIter *)
      destruct (s !! h) as [xs|] eqn:Eh; [|done]. unfold answers in Hs. simplify_eq. simpl. unfold act.
      iDestruct (objs_read with "H") as (l Hl) "[(%k & %p & Hx) H]"; [done|].
      wbind. iApply wp_obj; [done|]. wstep wp_v_iterate "Hx". wret. solve_pure.
      iApply "H". by iApply vec_intro.
    - (* VRIter *)
      destruct (s !! h) as [xs|] eqn:Eh; [|done]. unfold answers in Hs. simplify_eq. simpl. unfold act.
      iDestruct (objs_read with "H") as (l Hl) "[(%k & %p & Hx) H]"; [done|].
      wbind. iApply wp_obj; [done|]. wstep wp_v_riterate "Hx". wret. solve_pure.
      iApply "H". by iApply vec_intro.
    - (* VEq *)
      destruct (s !! h) as [xs|] eqn:Eh; [|done].
      destruct (s !! g) as [ys|] eqn:Eg; [|done]. unfold answers in Hs. simplify_eq.
      simpl. unfold act. destruct (decide (h = g)) as [->|Hne].
      + simplify_eq.
        iDestruct (objs_read with "H") as (l Hl) "[(%k & %p & Hx) H]"; [done|].
        wbind. iApply wp_obj; [done|]. wbind. iApply wp_obj; [done|].
        iApply (wp_v_eq_self with "Hx").
        iIntros "Hx". wret. solve_pure. iApply "H". by iApply vec_intro.
      + iDestruct (objs_acc2 with "H") as (l l' [Hl Hl']) "((%k & %p & Hx) & (%k' & %p' & Hy) & H)"; [done..|].
        wbind. iApply wp_obj; [done|]. wbind. iApply wp_obj; [done|].
        iApply (wp_v_eq_ne with "Hx Hy"). iIntros "Hx Hy". wret. solve_pure. simpl.
        iSpecialize ("H" with "[Hx] [Hy]"); [by iApply vec_intro..|].
        rewrite (insert_id s' g) // (insert_id s' h) //.
  Qed.
End hist.
