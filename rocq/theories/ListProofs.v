(** Separation-logic specifications of the list model. *)
From iris.proofmode Require Import tactics.
From Verif Require Import SLTac Hist HistProofs ClientProofs ClientThrow ModelList SpecList.

Section first.
  Context {V : Type}.
  Implicit Types nvs xs ys : list (loc * V).
  Lemma final_cons nv xs d : final (nv :: xs) d = final xs nv.1.
  Proof. unfold final. rewrite last_cons. by destruct (last xs). Qed.
  Lemma final_snoc nv xs d : final (xs ++ [nv]) d = nv.1.
  Proof. unfold final. by rewrite last_snoc. Qed.
  Lemma first_app xs ys d : first (xs ++ ys) d = first xs (first ys d).
  Proof. by destruct xs. Qed.
  Lemma final_app xs ys d : final (xs ++ ys) d = final ys (final xs d).
  Proof. unfold final. rewrite last_app. by destruct (last ys). Qed.
End first.

Section proofs.
  Context {V : Type} (md : mode).
  Notation lost := (lost md (LRaw (V:=V))).
  Implicit Types (nvs xs ys : list (loc * V)) (R : exn → hprop (lcell V)).

  (** Nodes [nvs] linked from [p] to [e]. *)
  Fixpoint dls (p : loc) nvs (e : loc) : hprop (lcell V) :=
    match nvs with
    | [] => emp
    | (n, v) :: r => n ↦ LNode (first r e) p (Some v) ∗ dls n r e
    end%I.
  Definition ring (this : loc) nvs (k : nat) : hprop (lcell V) :=
    (this ↦ LHead (first nvs this) (final nvs this) k ∗ dls this nvs this)%I.
  Definition lobj (this : loc) nvs : hprop (lcell V) := ring this nvs (length nvs).
  Definition lst (this : loc) (vs : list V) : hprop (lcell V) :=
    (∃ nvs, ⌞nvs.*2 = vs⌟ ∗ lobj this nvs)%I.

  Lemma dls_app p xs ys e :
    dls p (xs ++ ys) e ⊣⊢ dls p xs (first ys e) ∗ dls (final xs p) ys e.
  Proof.
    revert p. induction xs as [|[n v] xs IH]; intros p; simpl.
    - by rewrite left_id.
    - rewrite IH first_app final_cons /=. by rewrite assoc.
  Qed.
  Lemma lst_intro this nvs : lobj this nvs -∗ lst this nvs.*2.
  Proof. iIntros "H". iExists nvs. by iFrame. Qed.

  (** ** Fields *)
  Lemma wp_next_h l n p k Q R :
    l ↦ LHead n p k -∗ (l ↦ LHead n p k -∗ Q n) -∗ wp md (l_next l) Q R.
  Proof. iIntros "H HQ". rewrite /l_next. wstep wp_load' "H". wret. by iApply "HQ". Qed.
  Lemma wp_next_n l n p v Q R :
    l ↦ LNode n p v -∗ (l ↦ LNode n p v -∗ Q n) -∗ wp md (l_next l) Q R.
  Proof. iIntros "H HQ". rewrite /l_next. wstep wp_load' "H". wret. by iApply "HQ". Qed.
  Lemma wp_prev_h l n p k Q R :
    l ↦ LHead n p k -∗ (l ↦ LHead n p k -∗ Q p) -∗ wp md (l_prev l) Q R.
  Proof. iIntros "H HQ". rewrite /l_prev. wstep wp_load' "H". wret. by iApply "HQ". Qed.
  Lemma wp_prev_n l n p v Q R :
    l ↦ LNode n p v -∗ (l ↦ LNode n p v -∗ Q p) -∗ wp md (l_prev l) Q R.
  Proof. iIntros "H HQ". rewrite /l_prev. wstep wp_load' "H". wret. by iApply "HQ". Qed.
  Lemma wp_set_next_h l n p k n' Q R :
    l ↦ LHead n p k -∗ (l ↦ LHead n' p k -∗ Q tt) -∗ wp md (set_next l n') Q R.
  Proof. iIntros "H HQ". rewrite /set_next. wstep wp_load' "H". by iApply (wp_store' with "H"). Qed.
  Lemma wp_set_next_n l n p v n' Q R :
    l ↦ LNode n p v -∗ (l ↦ LNode n' p v -∗ Q tt) -∗ wp md (set_next l n') Q R.
  Proof. iIntros "H HQ". rewrite /set_next. wstep wp_load' "H". by iApply (wp_store' with "H"). Qed.
  Lemma wp_set_prev_h l n p k p' Q R :
    l ↦ LHead n p k -∗ (l ↦ LHead n p' k -∗ Q tt) -∗ wp md (set_prev l p') Q R.
  Proof. iIntros "H HQ". rewrite /set_prev. wstep wp_load' "H". by iApply (wp_store' with "H"). Qed.
  Lemma wp_set_prev_n l n p v p' Q R :
    l ↦ LNode n p v -∗ (l ↦ LNode n p' v -∗ Q tt) -∗ wp md (set_prev l p') Q R.
  Proof. iIntros "H HQ". rewrite /set_prev. wstep wp_load' "H". by iApply (wp_store' with "H"). Qed.
  Lemma wp_l_size this n p k Q R :
    this ↦ LHead n p k -∗ (this ↦ LHead n p k -∗ Q k) -∗ wp md (l_size this) Q R.
  Proof. iIntros "H HQ". rewrite /l_size. wstep wp_load' "H". wret. by iApply "HQ". Qed.
  Lemma wp_set_lsize this n p k k' Q R :
    this ↦ LHead n p k -∗ (this ↦ LHead n p k' -∗ Q tt) -∗ wp md (set_lsize this k') Q R.
  Proof. iIntros "H HQ". rewrite /set_lsize. wstep wp_load' "H". by iApply (wp_store' with "H"). Qed.
  Lemma wp_l_value l n p v Q R :
    l ↦ LNode n p (Some v) -∗ (l ↦ LNode n p (Some v) -∗ Q v) -∗ wp md (l_value l) Q R.
  Proof. iIntros "H HQ". rewrite /l_value. wstep wp_load' "H". wret. by iApply "HQ". Qed.
  Lemma wp_l_destroy l n p v Q R :
    l ↦ LNode n p (Some v) -∗ (l ↦ LNode n p None -∗ Q tt) -∗ wp md (l_destroy l) Q R.
  Proof. iIntros "H HQ". rewrite /l_destroy. wstep wp_load' "H". by iApply (wp_store' with "H"). Qed.
  Lemma wp_l_dealloc l n p Q R :
    l ↦ LNode n p None -∗ (emp -∗ Q tt) -∗ wp md (l_dealloc l) Q R.
  Proof. iIntros "H HQ". rewrite /l_dealloc. wstep wp_load' "H". by iApply (wp_free' with "H"). Qed.

  (** ** Linking in and out *)
  Lemma wp_l_hook this n a b v xs ys k Q R :
    n ↦ LNode a b (Some v) -∗ ring this (xs ++ ys) k -∗
    (ring this (xs ++ (n, v) :: ys) k -∗ Q tt) -∗ wp md (l_hook n (first ys this)) Q R.
  Proof.
    iIntros "Hn [Ht Hd] HQ". rewrite /l_hook /ring !dls_app !first_app !final_app.
    iDestruct "Hd" as "[Hx Hy]". wstep wp_set_next_n "Hn".
    destruct ys as [|[y vy] ys]; simpl.
    - rewrite /final /= -/(final xs this). wstep wp_prev_h "Ht". wstep wp_set_prev_n "Hn".
      wstep wp_prev_h "Ht". destruct xs as [|[x vx] xs _] using rev_ind.
      + unfold final; simpl. wstep wp_set_next_h "Ht". iApply (wp_set_prev_h with "Ht"). iIntros "Ht".
        iApply "HQ". iFrame.
      + rewrite !final_snoc /= !dls_app /=. iDestruct "Hx" as "(Hx & Hl & _)".
        wstep wp_set_next_n "Hl". iApply (wp_set_prev_h with "Ht"). iIntros "Ht".
        iApply "HQ". rewrite !first_app /=. iFrame.
    - iDestruct "Hy" as "[Hy Hr]". wstep wp_prev_n "Hy". wstep wp_set_prev_n "Hn".
      wstep wp_prev_n "Hy". destruct xs as [|[x vx] xs _] using rev_ind.
      + unfold final; simpl. rewrite -/(final ((y,vy) :: ys) this) -/(final ((n, v) :: (y,vy) :: ys) this).
        wstep wp_set_next_h "Ht". iApply (wp_set_prev_n with "Hy"). iIntros "Hy".
        iApply "HQ". rewrite !final_cons /=. iFrame.
      + rewrite !final_snoc /= !dls_app /=. iDestruct "Hx" as "(Hx & Hl & _)".
        wstep wp_set_next_n "Hl". iApply (wp_set_prev_n with "Hy"). iIntros "Hy".
        iApply "HQ". rewrite !final_cons !first_app /=. iFrame.
  Qed.

  Lemma wp_l_unhook this n v xs ys k Q R :
    ring this (xs ++ (n, v) :: ys) k -∗
    (ring this (xs ++ ys) k -∗ (∃ a b, n ↦ LNode a b (Some v)) -∗ Q tt) -∗ wp md (l_unhook n) Q R.
  Proof.
    iIntros "[Ht Hd] HQ". rewrite /l_unhook /ring !dls_app !first_app !final_app /= !final_cons /=.
    iDestruct "Hd" as "(Hx & Hn & Hy)". wstep wp_next_n "Hn". wstep wp_prev_n "Hn".
    destruct ys as [|[y vy] ys]; simpl.
    - rewrite /final /= -/(final xs this).
      destruct xs as [|[x vx] xs _] using rev_ind.
      + unfold final; simpl. wstep wp_set_next_h "Ht". iApply (wp_set_prev_h with "Ht"). iIntros "Ht".
        iApply ("HQ" with "[-Hn]"); [iFrame|by iExists _, _].
      + rewrite !final_snoc /= !dls_app /=. iDestruct "Hx" as "(Hx & Hl & _)".
        wstep wp_set_next_n "Hl". iApply (wp_set_prev_h with "Ht"). iIntros "Ht".
        iApply ("HQ" with "[-Hn]"); [rewrite !first_app /=; iFrame|by iExists _, _].
    - iDestruct "Hy" as "[Hy Hr]". destruct xs as [|[x vx] xs _] using rev_ind.
      + unfold final; simpl. rewrite -/(final ((y,vy) :: ys) this) -/(final ((y,vy) :: ys) n).
        wstep wp_set_next_h "Ht". iApply (wp_set_prev_n with "Hy"). iIntros "Hy".
        iApply ("HQ" with "[-Hn]"); [rewrite !final_cons /=; iFrame|by iExists _, _].
      + rewrite !final_snoc /= !dls_app /=. iDestruct "Hx" as "(Hx & Hl & _)".
        wstep wp_set_next_n "Hl". iApply (wp_set_prev_n with "Hy"). iIntros "Hy".
        iApply ("HQ" with "[-Hn]"); [rewrite !final_cons !first_app /=; iFrame|by iExists _, _].
  Qed.

  (** ** Reading the argument *)
  Definition lreads (r : lref V) (v : V) (F : hprop (lcell V)) : Prop :=
    ∀ (Q : V → hprop (lcell V)) R, F -∗ (F -∗ Q v) -∗ wp md (l_deref r) Q R.
  Lemma lreads_val v : lreads (LVal v) v emp.
  Proof. iIntros (Q R) "F HQ". simpl. wret. by iApply "HQ". Qed.
  Lemma lreads_elem this nvs i n v :
    nvs !! i = Some (n, v) → lreads (LElem n) v (lobj this nvs).
  Proof.
    intros Hi. apply elem_of_list_split_length in Hi as (xs & ys & -> & _).
    iIntros (Q R) "[Ht F] HQ". simpl. rewrite dls_app /=. iDestruct "F" as "(Hx & Hn & Hy)".
    iApply (wp_l_value with "Hn"). iIntros "Hn". iApply "HQ". rewrite /lobj /ring dls_app /=. iFrame.
  Qed.

  Lemma wp_l_construct F r n v Q R :
    lreads r v F →
    n ↦ LRaw -∗ F -∗
    ((⌜mC md = true⌝ → n ↦ LRaw -∗ F -∗ R CopyThrow) ∧
     (n ↦ LNode n n (Some v) -∗ F -∗ Q tt)) -∗ wp md (l_construct n r) Q R.
  Proof.
    iIntros (Hr) "Hn F HQ". rewrite /l_construct. wstep wp_load' "Hn". wbind. iApply (Hr with "F").
    iIntros "F". wbind. iApply wp_may_throw. iSplit.
    - iIntros (HC). iDestruct "HQ" as "[HQ _]". iApply ("HQ" with "[//] Hn F").
    - iDestruct "HQ" as "[_ HQ]". iApply (wp_store' with "Hn"). iIntros "Hn". iApply ("HQ" with "Hn F").
  Qed.

  (** ** insert.  Reading the argument may need the list itself and/or [F]. *)
  Lemma wp_l_insert F this xs ys r v Q R :
    lreads r v (lobj this (xs ++ ys) ∗ F) →
    lobj this (xs ++ ys) -∗ F -∗
    ((∀ e, lost e -∗ lobj this (xs ++ ys) -∗ F -∗ R e) ∧
     (∀ n, lobj this (xs ++ (n, v) :: ys) -∗ F -∗ Q n)) -∗
    wp md (l_insert this (first ys this) r) Q R.
  Proof.
    iIntros (Hr) "H F HQ". rewrite /l_insert. wbind. iApply wp_alloc. iSplit.
    { iIntros (HA). iDestruct "HQ" as "[HQ _]". iApply ("HQ" with "[] H F"). by iApply lost_bad. }
    iIntros (n) "Hn".
    wbind. iApply (wp_l_construct _ _ _ _ _ _ Hr with "Hn [$H $F]"). iSplit.
    { iIntros (HC) "Hn [H F]". iDestruct "HQ" as "[HQ _]". iApply ("HQ" with "[Hn] H F"). by iApply (lost_cell with "Hn"). }
    iDestruct "HQ" as "[_ HQ]". iIntros "Hn [H F]". wbind. iApply (wp_l_hook with "Hn H"). iIntros "[Ht Hd]".
    wstep wp_l_size "Ht". wstep wp_set_lsize "Ht". wret.
    iApply ("HQ" with "[Ht Hd] F"). rewrite /lobj /ring !app_length /= Nat.add_succ_r. iFrame.
  Qed.
  (** the common cases *)
  Lemma wp_l_insert_val this xs ys v Q R :
    lobj this (xs ++ ys) -∗
    ((∀ e, lost e -∗ lobj this (xs ++ ys) -∗ R e) ∧
     (∀ n, lobj this (xs ++ (n, v) :: ys) -∗ Q n)) -∗
    wp md (l_insert this (first ys this) (LVal v)) Q R.
  Proof.
    iIntros "H HQ". iApply (wp_l_insert emp with "H []"); [|done|].
    - iIntros (Q' R') "F HQ'". simpl. wret. by iApply "HQ'".
    - iSplit.
      + iIntros (e) "He H _". iDestruct "HQ" as "[HQ _]". by iApply ("HQ" with "He").
      + iIntros (n) "H _". iDestruct "HQ" as "[_ HQ]". by iApply "HQ".
  Qed.
  Lemma wp_l_insert_own this xs ys n0 v i Q R :
    (xs ++ ys) !! i = Some (n0, v) →
    lobj this (xs ++ ys) -∗
    ((∀ e, lost e -∗ lobj this (xs ++ ys) -∗ R e) ∧
     (∀ n, lobj this (xs ++ (n, v) :: ys) -∗ Q n)) -∗
    wp md (l_insert this (first ys this) (LElem n0)) Q R.
  Proof.
    iIntros (Hi) "H HQ". iApply (wp_l_insert emp with "H []"); [|done|].
    - iIntros (Q' R') "[F _] HQ'". iApply (lreads_elem _ _ _ _ _ Hi with "F").
      iIntros "F". iApply "HQ'". by iFrame.
    - iSplit.
      + iIntros (e) "He H _". iDestruct "HQ" as "[HQ _]". by iApply ("HQ" with "He").
      + iIntros (n) "H _". iDestruct "HQ" as "[_ HQ]". by iApply "HQ".
  Qed.
  Lemma wp_l_insert_other this xs ys other zs n0 v i Q R :
    zs !! i = Some (n0, v) →
    lobj this (xs ++ ys) -∗ lobj other zs -∗
    ((∀ e, lost e -∗ lobj this (xs ++ ys) -∗ lobj other zs -∗ R e) ∧
     (∀ n, lobj this (xs ++ (n, v) :: ys) -∗ lobj other zs -∗ Q n)) -∗
    wp md (l_insert this (first ys this) (LElem n0)) Q R.
  Proof.
    iIntros (Hi) "H G HQ". iApply (wp_l_insert (lobj other zs) with "H G"); [|done].
    iIntros (Q' R') "[H F] HQ'". iApply (lreads_elem _ _ _ _ _ Hi with "F").
    iIntros "F". iApply "HQ'". iFrame.
  Qed.

  (** emplace of an outside value *)
  Lemma wp_l_emplace this xs ys v Q R :
    lobj this (xs ++ ys) -∗
    ((∀ e, lost e -∗ lobj this (xs ++ ys) -∗ R e) ∧
     (∀ n, lobj this (xs ++ (n, v) :: ys) -∗ Q n)) -∗
    wp md (l_emplace this (first ys this) (LVal v)) Q R.
  Proof.
    iIntros "H HQ". rewrite /l_emplace. wbind. iApply wp_alloc. iSplit.
    { iIntros (HA). iDestruct "HQ" as "[HQ _]". iApply ("HQ" with "[] H"). by iApply lost_bad. }
    iIntros (n) "Hn". simpl. wret. wbind. iApply wp_may_throw. iSplit.
    { iIntros (HC). iDestruct "HQ" as "[HQ _]". iApply ("HQ" with "[Hn] H"). by iApply (lost_cell with "Hn"). }
    wbind. iApply (wp_l_construct emp with "Hn []"); [apply lreads_val|done|]. iSplit.
    { iIntros (HC) "Hn _". iDestruct "HQ" as "[HQ _]". iApply ("HQ" with "[Hn] H"). by iApply (lost_cell with "Hn"). }
    iDestruct "HQ" as "[_ HQ]". iIntros "Hn _".
    wbind. iApply (wp_l_hook with "Hn H"). iIntros "[Ht Hd]".
    wstep wp_l_size "Ht". wstep wp_set_lsize "Ht". wret.
    iApply "HQ". rewrite /lobj /ring !app_length /= Nat.add_succ_r. iFrame.
  Qed.

  (** ** erase *)
  Lemma wp_l_erase this xs n v ys Q R :
    lobj this (xs ++ (n, v) :: ys) -∗ (lobj this (xs ++ ys) -∗ Q (first ys this)) -∗
    wp md (l_erase this n) Q R.
  Proof.
    iIntros "[Ht Hd] HQ". rewrite /l_erase. wstep wp_l_size "Ht". wstep wp_set_lsize "Ht".
    iAssert (ring this (xs ++ (n, v) :: ys) (length (xs ++ ys))) with "[Ht Hd]" as "H".
    { rewrite /ring !app_length /= Nat.add_succ_r /= Nat.sub_0_r. iFrame. }
    wbind. iApply (wp_wand _ _ (λ r, ⌞r = first ys this⌟ ∗ ring this (xs ++ (n, v) :: ys) (length (xs ++ ys)))%I
                     _ (λ _, False)%I with "[H]").
    { iDestruct "H" as "(Ht & Hd)". iEval (rewrite dls_app /=) in "Hd". iDestruct "Hd" as "(Hx & Hn & Hy)".
      iApply (wp_next_n with "Hn"). iIntros "Hn". iSplitR; [done|]. rewrite /ring dls_app /=. iFrame. }
    iSplit; [|by iIntros (?) "[]"]. iIntros (r) "[-> H]".
    wbind. iApply (wp_l_unhook with "H"). iIntros "H (%a & %b & Hn)".
    wstep wp_l_destroy "Hn". wbind. iApply (wp_l_dealloc with "Hn"). iIntros "_".
    wret. by iApply "HQ".
  Qed.

  (** ** push and pop *)
  Lemma wp_l_push_back this nvs v Q R :
    lobj this nvs -∗
    ((∀ e, lost e -∗ lobj this nvs -∗ R e) ∧ (∀ n, lobj this (nvs ++ [(n, v)]) -∗ Q tt)) -∗
    wp md (l_push_back this (LVal v)) Q R.
  Proof.
    iIntros "H HQ". rewrite /l_push_back /l_end. wbind.
    iApply (wp_l_insert_val this nvs [] v with "[H]"); [by rewrite app_nil_r|]. rewrite app_nil_r. iSplit.
    - iIntros (e) "He H". iDestruct "HQ" as "[HQ _]". by iApply ("HQ" with "He").
    - iIntros (n) "H". wret. iDestruct "HQ" as "[_ HQ]". by iApply "HQ".
  Qed.
  Lemma wp_l_push_back_other this nvs other zs i n0 v Q R :
    zs !! i = Some (n0, v) →
    lobj this nvs -∗ lobj other zs -∗
    ((∀ e, lost e -∗ lobj this nvs -∗ lobj other zs -∗ R e) ∧
     (∀ n, lobj this (nvs ++ [(n, v)]) -∗ lobj other zs -∗ Q tt)) -∗
    wp md (l_push_back this (LElem n0)) Q R.
  Proof.
    iIntros (Hi) "H G HQ". rewrite /l_push_back /l_end. wbind.
    iApply (wp_l_insert_other this nvs [] other zs with "[H] G"); [done|by rewrite app_nil_r|].
    rewrite app_nil_r. iSplit.
    - iIntros (e) "He H G". iDestruct "HQ" as "[HQ _]". iApply ("HQ" with "He H G").
    - iIntros (n) "H G". wret. iDestruct "HQ" as "[_ HQ]". iApply ("HQ" with "H G").
  Qed.
  Lemma wp_l_push_back_rv this nvs v Q R :
    lobj this nvs -∗
    ((∀ e, lost e -∗ lobj this nvs -∗ R e) ∧ (∀ n, lobj this (nvs ++ [(n, v)]) -∗ Q tt)) -∗
    wp md (l_push_back_rv this (LVal v)) Q R.
  Proof.
    iIntros "H HQ". rewrite /l_push_back_rv /l_end. wbind.
    iApply (wp_l_emplace this nvs [] v with "[H]"); [by rewrite app_nil_r|]. rewrite app_nil_r. iSplit.
    - iIntros (e) "He H". iDestruct "HQ" as "[HQ _]". by iApply ("HQ" with "He").
    - iIntros (n) "H". wret. iDestruct "HQ" as "[_ HQ]". by iApply "HQ".
  Qed.
  Lemma wp_l_begin this nvs Q R :
    lobj this nvs -∗ (lobj this nvs -∗ Q (first nvs this)) -∗ wp md (l_begin this) Q R.
  Proof.
    iIntros "[Ht Hd] HQ". rewrite /l_begin. iApply (wp_next_h with "Ht"). iIntros "Ht".
    iApply "HQ". iFrame.
  Qed.
  Lemma wp_l_push_front this nvs v Q R :
    lobj this nvs -∗
    ((∀ e, lost e -∗ lobj this nvs -∗ R e) ∧ (∀ n, lobj this ((n, v) :: nvs) -∗ Q tt)) -∗
    wp md (l_push_front this (LVal v)) Q R.
  Proof.
    iIntros "H HQ". rewrite /l_push_front. wstep wp_l_begin "H". wbind.
    iApply (wp_l_insert_val this [] nvs v with "H"). iSplit.
    - iIntros (e) "He H". iDestruct "HQ" as "[HQ _]". by iApply ("HQ" with "He").
    - iIntros (n) "H". wret. iDestruct "HQ" as "[_ HQ]". by iApply "HQ".
  Qed.
  Lemma wp_l_push_front_rv this nvs v Q R :
    lobj this nvs -∗
    ((∀ e, lost e -∗ lobj this nvs -∗ R e) ∧ (∀ n, lobj this ((n, v) :: nvs) -∗ Q tt)) -∗
    wp md (l_push_front_rv this (LVal v)) Q R.
  Proof.
    iIntros "H HQ". rewrite /l_push_front_rv. wstep wp_l_begin "H". wbind.
    iApply (wp_l_emplace this [] nvs v with "H"). iSplit.
    - iIntros (e) "He H". iDestruct "HQ" as "[HQ _]". by iApply ("HQ" with "He").
    - iIntros (n) "H". wret. iDestruct "HQ" as "[_ HQ]". by iApply "HQ".
  Qed.
  Lemma wp_l_front this n v nvs Q R :
    lobj this ((n, v) :: nvs) -∗ (lobj this ((n, v) :: nvs) -∗ Q v) -∗ wp md (l_front this) Q R.
  Proof.
    iIntros "H HQ". rewrite /l_front. wstep wp_l_begin "H". simpl. iDestruct "H" as "(Ht & Hn & Hd)".
    iApply (wp_l_value with "Hn"). iIntros "Hn". iApply "HQ". iFrame.
  Qed.
  Lemma wp_l_back this n v nvs Q R :
    lobj this (nvs ++ [(n, v)]) -∗ (lobj this (nvs ++ [(n, v)]) -∗ Q v) -∗ wp md (l_back this) Q R.
  Proof.
    iIntros "[Ht Hd] HQ". rewrite /l_back /l_end. wstep wp_prev_h "Ht". rewrite final_snoc /= dls_app /=.
    iDestruct "Hd" as "(Hd & Hn & _)".
    iApply (wp_l_value with "Hn"). iIntros "Hn". iApply "HQ". rewrite /lobj /ring final_snoc dls_app /=. iFrame.
  Qed.
  Lemma wp_l_emplace_front this nvs v Q R :
    lobj this nvs -∗
    ((∀ e, lost e -∗ lobj this nvs -∗ R e) ∧ (∀ n, lobj this ((n, v) :: nvs) -∗ Q v)) -∗
    wp md (l_emplace_front this (LVal v)) Q R.
  Proof.
    iIntros "H HQ". rewrite /l_emplace_front /=. wret. wbind. iApply wp_may_throw. iSplit.
    { iIntros (HC). iDestruct "HQ" as "[HQ _]". iApply ("HQ" with "[] H"). by iApply lost_copy. }
    wstep wp_l_begin "H". wbind. iApply (wp_l_emplace this [] nvs v with "H"). iSplit.
    - iIntros (e) "He H". iDestruct "HQ" as "[HQ _]". by iApply ("HQ" with "He").
    - iIntros (n) "H". iDestruct "HQ" as "[_ HQ]". iApply (wp_l_front with "H"). iApply "HQ".
  Qed.
  Lemma wp_l_emplace_back this nvs v Q R :
    lobj this nvs -∗
    ((∀ e, lost e -∗ lobj this nvs -∗ R e) ∧ (∀ n, lobj this (nvs ++ [(n, v)]) -∗ Q v)) -∗
    wp md (l_emplace_back this (LVal v)) Q R.
  Proof.
    iIntros "H HQ". rewrite /l_emplace_back /l_end /=. wret. wbind. iApply wp_may_throw. iSplit.
    { iIntros (HC). iDestruct "HQ" as "[HQ _]". iApply ("HQ" with "[] H"). by iApply lost_copy. }
    wbind. iApply (wp_l_emplace this nvs [] v with "[H]"); [by rewrite app_nil_r|]. rewrite app_nil_r. iSplit.
    - iIntros (e) "He H". iDestruct "HQ" as "[HQ _]". by iApply ("HQ" with "He").
    - iIntros (n) "H". iDestruct "HQ" as "[_ HQ]". iApply (wp_l_back with "H"). iApply "HQ".
  Qed.
  Lemma wp_l_pop_front this n v nvs Q R :
    lobj this ((n, v) :: nvs) -∗ (lobj this nvs -∗ Q tt) -∗ wp md (l_pop_front this) Q R.
  Proof.
    iIntros "H HQ". rewrite /l_pop_front. wstep wp_l_begin "H". simpl. wbind.
    iApply (wp_l_erase this [] with "H"). iIntros "H". wret. by iApply "HQ".
  Qed.
  Lemma wp_l_pop_back this n v nvs Q R :
    lobj this (nvs ++ [(n, v)]) -∗ (lobj this nvs -∗ Q tt) -∗ wp md (l_pop_back this) Q R.
  Proof.
    iIntros "[Ht Hd] HQ". rewrite /l_pop_back. wstep wp_prev_h "Ht". rewrite final_snoc /=. wbind.
    iApply (wp_l_erase this nvs n v [] with "[Ht Hd]").
    { rewrite /lobj /ring final_snoc. iFrame. }
    iIntros "H". rewrite app_nil_r. wret. by iApply "HQ".
  Qed.

  (** ** clear and destruction *)
  Lemma dls_ne this c xs p e : this ↦ c -∗ dls p xs e -∗ ⌜this ∉ xs.*1⌝.
  Proof. clear md.
    iIntros "Ht Hd". iInduction xs as [|[n v] xs] "IH" forall (p); simpl; [iPureIntro; set_solver|].
    iDestruct "Hd" as "[Hn Hd]". iDestruct (pt_ne with "Ht Hn") as %Hne.
    iDestruct ("IH" with "Ht Hd") as %Hni. iPureIntro. set_solver.
  Qed.
  Lemma sz_dls p xs e : dls p xs e ⊢ sz (length xs).
  Proof.
    revert p. induction xs as [|[n v] xs IH]; intros p; simpl; [apply sz_0|].
    rewrite IH sz_pt. apply (sz_sep 1).
  Qed.
  Lemma wp_l_clear_loop fuel this c xs p Q R :
    length xs < fuel →
    this ↦ c -∗ dls p xs this -∗ (this ↦ c -∗ Q tt) -∗ wp md (l_clear_loop fuel this (first xs this)) Q R.
  Proof.
    iIntros (Hf) "Ht Hd HQ". iInduction fuel as [|fuel] "IH" forall (xs p Hf); [lia|].
    destruct xs as [|[n v] xs]; simpl.
    - rewrite decide_True //. wret. by iApply "HQ".
    - iDestruct "Hd" as "[Hn Hd]". iDestruct (pt_ne with "Ht Hn") as %Hne.
      rewrite decide_False //. wstep wp_next_n "Hn". wstep wp_l_destroy "Hn".
      wbind. iApply (wp_l_dealloc with "Hn"). iIntros "_".
      iApply ("IH" with "[%] Ht Hd HQ"). simpl in Hf. lia.
  Qed.
  Lemma wp_l_clear this xs Q R :
    lobj this xs -∗ (lobj this [] -∗ Q tt) -∗ wp md (l_clear this) Q R.
  Proof.
    iIntros "[Ht Hd] HQ". rewrite /l_clear. wstep wp_next_h "Ht".
    wbind. iApply (wp_with_fuel _ _ (length xs)). iSplit.
    { iClear "Ht HQ". by iApply sz_dls. } 
    iIntros (fuel Hf). iApply (wp_l_clear_loop with "Ht Hd"); [done|]. iIntros "Ht".
    wstep wp_set_next_h "Ht". wstep wp_set_prev_h "Ht". iApply (wp_set_lsize with "Ht").
    iIntros "Ht". iApply "HQ". rewrite /lobj /ring /=. iFrame.
  Qed.
  Lemma wp_l_dtor this xs Q R :
    lobj this xs -∗ (emp -∗ Q tt) -∗ wp md (l_dtor this) Q R.
  Proof.
    iIntros "H HQ". rewrite /l_dtor. wstep wp_l_clear "H". iDestruct "H" as "[Ht _]".
    iApply (wp_free' with "Ht"). done.
  Qed.
  Lemma wp_l_new Q R :
    (∀ this, lobj this [] -∗ Q this) -∗ wp md l_new Q R.
  Proof.
    iIntros "HQ". rewrite /l_new. wbind. iApply wp_new'. iIntros (this) "Ht".
    wstep wp_store' "Ht". wret. iApply "HQ". rewrite /lobj /ring /=. iFrame.
  Qed.

  (** ** Looking at one node *)
  Lemma lobj_node this xs n v ys :
    lobj this (xs ++ (n, v) :: ys) ⊢
    n ↦ LNode (first ys this) (final xs this) (Some v) ∗
    (∀ v', n ↦ LNode (first ys this) (final xs this) (Some v') -∗ lobj this (xs ++ (n, v') :: ys)).
  Proof.
    iIntros "[Ht Hd]". iEval (rewrite dls_app /=) in "Hd". iDestruct "Hd" as "(Hx & $ & Hy)".
    iIntros (v') "Hn". rewrite /lobj /ring dls_app /= !first_app !final_app !app_length !final_cons /=. iFrame.
  Qed.
  Lemma wp_value_at this xs n v ys Q R :
    lobj this (xs ++ (n, v) :: ys) -∗ (lobj this (xs ++ (n, v) :: ys) -∗ Q v) -∗ wp md (l_value n) Q R.
  Proof.
    iIntros "H HQ". iDestruct (lobj_node with "H") as "[Hn H]".
    iApply (wp_l_value with "Hn"). iIntros "Hn". iApply "HQ". by iApply "H".
  Qed.
  Lemma wp_next_at this xs n v ys Q R :
    lobj this (xs ++ (n, v) :: ys) -∗
    (lobj this (xs ++ (n, v) :: ys) -∗ Q (first ys this)) -∗ wp md (l_next n) Q R.
  Proof.
    iIntros "H HQ". iDestruct (lobj_node with "H") as "[Hn H]".
    iApply (wp_next_n with "Hn"). iIntros "Hn". iApply "HQ". by iApply "H".
  Qed.
  Lemma wp_prev_at this xs ys Q R :
    lobj this (xs ++ ys) -∗
    (lobj this (xs ++ ys) -∗ Q (final xs this)) -∗ wp md (l_prev (first ys this)) Q R.
  Proof.
    iIntros "H HQ". destruct ys as [|[n v] ys]; simpl.
    - rewrite app_nil_r. iDestruct "H" as "[Ht Hd]". iApply (wp_prev_h with "Ht").
      iIntros "Ht". iApply "HQ". iFrame.
    - iDestruct (lobj_node with "H") as "[Hn H]".
      iApply (wp_prev_n with "Hn"). iIntros "Hn". iApply "HQ". by iApply "H".
  Qed.
  Lemma wp_l_set this xs n v ys v' Q R :
    lobj this (xs ++ (n, v) :: ys) -∗
    ((∀ e, lost e -∗ lobj this (xs ++ (n, v) :: ys) -∗ R e) ∧ (lobj this (xs ++ (n, v') :: ys) -∗ Q tt)) -∗
    wp md (l_set n v') Q R.
  Proof.
    iIntros "H HQ". iDestruct (lobj_node with "H") as "[Hn H]". rewrite /l_set.
    wstep wp_load' "Hn". wbind. iApply wp_may_throw. iSplit.
    - iIntros (HC). iDestruct "HQ" as "[HQ _]". iApply ("HQ" with "[]"); [by iApply lost_copy|by iApply "H"].
    - iDestruct "HQ" as "[_ HQ]". iApply (wp_store' with "Hn"). iIntros "Hn". iApply "HQ". by iApply "H".
  Qed.
  Lemma dls_nodup p xs e : dls p xs e ⊢ ⌜NoDup xs.*1⌝.
  Proof.
    iIntros "H". iInduction xs as [|[n v] xs] "IH" forall (p); simpl; [iPureIntro; constructor|].
    iDestruct "H" as "[Hn H]". iDestruct (dls_ne with "Hn H") as %?.
    iDestruct ("IH" with "H") as %?. iPureIntro. by constructor.
  Qed.
  Lemma lobj_nodup this xs : lobj this xs ⊢ ⌜NoDup (this :: xs.*1)⌝.
  Proof.
    iIntros "[Ht H]". iDestruct (dls_ne with "Ht H") as %?.
    iDestruct (dls_nodup with "H") as %?. iPureIntro. by constructor.
  Qed.
  Lemma sz_lobj this xs : lobj this xs ⊢ sz (length xs).
  Proof. iIntros "[Ht H]". iClear "Ht". by iApply sz_dls. Qed.
  Lemma first_in xs this : first xs this ∈ this :: xs.*1.
  Proof. clear md. destruct xs as [|[n v] xs]; simpl; set_solver. Qed.
  Lemma first_ne xs n v ys this :
    NoDup (this :: (xs ++ (n, v) :: ys).*1) → n ≠ first ys this ∧ n ≠ this.
  Proof. clear md.
    rewrite fmap_app fmap_cons /= !NoDup_cons NoDup_app NoDup_cons elem_of_app elem_of_cons.
    intros (H1 & _ & _ & H2 & _). pose proof (first_in ys this) as Hi. rewrite elem_of_cons in Hi.
    split; [|naive_solver]. intros ->. naive_solver.
  Qed.

  (** ** The copying loop.  On failure the target has a prefix of the source. *)
  Lemma wp_l_append_loop fuel this nvs other xs ys Q R :
    length ys < fuel →
    lobj this nvs -∗ lobj other (xs ++ ys) -∗
    ((∀ e new, ⌜new.*2 `prefix_of` ys.*2⌝ →
        lost e -∗ lobj this (nvs ++ new) -∗ lobj other (xs ++ ys) -∗ R e) ∧
     (∀ new, ⌜new.*2 = ys.*2⌝ →
        lobj this (nvs ++ new) -∗ lobj other (xs ++ ys) -∗ Q tt)) -∗
    wp md (l_append_loop fuel this other (first ys other)) Q R.
  Proof.
    iIntros (Hf) "H G HQ". iInduction fuel as [|fuel] "IH" forall (nvs xs ys Hf); [lia|].
    iDestruct (lobj_nodup with "G") as %Hnd. destruct ys as [|[n v] ys]; simpl; unfold l_end.
    - rewrite decide_True //. wret. iDestruct "HQ" as "[_ HQ]". iApply ("HQ" $! [] with "[//] [H] G").
      by rewrite app_nil_r.
    - destruct (first_ne _ _ _ _ _ Hnd) as [_ Hne]. rewrite decide_False //. wbind.
      iApply (wp_l_push_back_other _ _ _ _ (length xs) with "H G").
      { by rewrite lookup_app_r // Nat.sub_diag. }
      iSplit.
      { iIntros (e) "He H G". iDestruct "HQ" as "[HQ _]". iApply ("HQ" $! e [] with "[%] He [H] G").
        - apply prefix_nil.
        - by rewrite app_nil_r. }
      iIntros (n') "H G". wbind. iApply (wp_next_at with "G"). iIntros "G".
      iEval (rewrite cons_middle assoc_L) in "G".
      iApply ("IH" $! (nvs ++ [(n', v)]) (xs ++ [(n, v)]) ys with "[%] H G"); [simpl in Hf; lia|].
      iSplit.
      + iIntros (e new Hp) "He H G". iDestruct "HQ" as "[HQ _]".
        iApply ("HQ" $! e ((n', v) :: new) with "[%] He [H] [G]").
        * by apply prefix_cons.
        * by rewrite -assoc_L.
        * by rewrite -assoc_L.
      + iIntros (new Hp) "H G". iDestruct "HQ" as "[_ HQ]".
        iApply ("HQ" $! ((n', v) :: new) with "[%] [H] [G]").
        * by rewrite fmap_cons Hp.
        * by rewrite -assoc_L.
        * by rewrite -assoc_L.
  Qed.
  Lemma wp_l_append this nvs other ys Q R :
    lobj this nvs -∗ lobj other ys -∗
    ((∀ e new, ⌜new.*2 `prefix_of` ys.*2⌝ →
        lost e -∗ lobj this (nvs ++ new) -∗ lobj other ys -∗ R e) ∧
     (∀ new, ⌜new.*2 = ys.*2⌝ → lobj this (nvs ++ new) -∗ lobj other ys -∗ Q tt)) -∗
    wp md (l_append this other) Q R.
  Proof.
    iIntros "H G HQ". rewrite /l_append. wstep wp_l_begin "G".
    iApply (wp_with_fuel _ _ (length ys)). iSplit.
    { iClear "H HQ". by iApply sz_lobj. }
    iIntros (fuel Hf). iApply (wp_l_append_loop _ _ _ _ [] ys with "H G"); done.
  Qed.
  Lemma wp_l_copy other ys Q R :
    lobj other ys -∗
    ((∀ e, lost e -∗ lobj other ys -∗ R e) ∧
     (∀ this xs, ⌜xs.*2 = ys.*2⌝ → lobj this xs -∗ lobj other ys -∗ Q this)) -∗
    wp md (l_copy other) Q R.
  Proof.
    iIntros "G HQ". rewrite /l_copy. wbind. iApply wp_l_new. iIntros (this) "H".
    wbind. iApply wp_on_throw. iApply (wp_l_append with "H G"). iSplit.
    - iIntros (e new _) "He H G". iDestruct "HQ" as "[HQ _]". iApply (wp_l_dtor with "H"). iIntros "_".
      by iApply ("HQ" with "He").
    - iIntros (new Hn) "H G". wret. iDestruct "HQ" as "[_ HQ]". iApply ("HQ" with "[//] H G").
  Qed.
  Lemma wp_l_assign this xs other ys Q R :
    lobj this xs -∗ lobj other ys -∗
    ((∀ e new, ⌜new.*2 `prefix_of` ys.*2⌝ → lost e -∗ lobj this new -∗ lobj other ys -∗ R e) ∧
     (∀ new, ⌜new.*2 = ys.*2⌝ → lobj this new -∗ lobj other ys -∗ Q tt)) -∗
    wp md (l_assign this other) Q R.
  Proof.
    iIntros "H G HQ". rewrite /l_assign. wstep wp_l_clear "H". iApply (wp_l_append with "H G"). done.
  Qed.
  Lemma wp_l_assign_self this xs Q R :
    lobj this xs -∗ (lobj this [] -∗ Q tt) -∗ wp md (l_assign this this) Q R.
  Proof.
    iIntros "H HQ". rewrite /l_assign /l_append. wstep wp_l_clear "H". wstep wp_l_begin "H".
    iApply (wp_with_fuel _ _ 0). iSplit; [iStopProof; apply sz_0|].
    iIntros (fuel Hf). destruct fuel; [lia|]. simpl. unfold l_end. rewrite decide_True //. wret. by iApply "HQ".
  Qed.

  (** ** Traversals *)
  Lemma wp_l_advance this xs ys i Q R :
    i ≤ length ys →
    lobj this (xs ++ ys) -∗ (lobj this (xs ++ ys) -∗ Q (first (drop i ys) this)) -∗
    wp md (l_advance (first ys this) i) Q R.
  Proof.
    iIntros (Hi) "H HQ". iInduction i as [|i] "IH" forall (xs ys Hi); simpl.
    - wret. by iApply "HQ".
    - destruct ys as [|[n v] ys]; simpl in *; [lia|]. wstep wp_next_at "H".
      iEval (rewrite cons_middle assoc_L) in "H". iApply ("IH" with "[%] H"); [lia|].
      rewrite -assoc_L. done.
  Qed.
  Lemma wp_l_nth this nvs i Q R :
    i ≤ length nvs →
    lobj this nvs -∗ (lobj this nvs -∗ Q (l_pos this nvs i)) -∗ wp md (l_nth this i) Q R.
  Proof.
    iIntros (Hi) "H HQ". rewrite /l_nth. wstep wp_l_begin "H". by iApply (wp_l_advance this [] nvs with "H").
  Qed.
  Lemma wp_l_walk fuel this xs ys Q R :
    length ys < fuel →
    lobj this (xs ++ ys) -∗ (lobj this (xs ++ ys) -∗ Q ys.*2) -∗ wp md (l_walk fuel this (first ys this)) Q R.
  Proof.
    iIntros (Hf) "H HQ". iInduction fuel as [|fuel] "IH" forall (xs ys Q Hf); [lia|].
    iDestruct (lobj_nodup with "H") as %Hnd. destruct ys as [|[n v] ys]; simpl; unfold l_end.
    - rewrite decide_True //. wret. by iApply "HQ".
    - destruct (first_ne _ _ _ _ _ Hnd) as [_ Hne]. rewrite decide_False //.
      wstep wp_value_at "H". wstep wp_next_at "H". wbind.
      iEval (rewrite cons_middle assoc_L) in "H". iApply ("IH" with "[%] H"); [simpl in *; lia|].
      iIntros "H". wret. iApply "HQ". by rewrite -assoc_L.
  Qed.
  Lemma wp_l_iterate this nvs Q R :
    lobj this nvs -∗ (lobj this nvs -∗ Q nvs.*2) -∗ wp md (l_iterate this) Q R.
  Proof.
    iIntros "H HQ". rewrite /l_iterate. wstep wp_l_begin "H".
    iApply (wp_with_fuel _ _ (length nvs)). iSplit; [iClear "HQ"; by iApply sz_lobj|].
    iIntros (fuel Hf). by iApply (wp_l_walk _ _ [] with "H").
  Qed.
  Lemma wp_l_rwalk fuel this xs ys Q R :
    length xs < fuel →
    lobj this (xs ++ ys) -∗ (lobj this (xs ++ ys) -∗ Q (rev xs.*2)) -∗
    wp md (l_rwalk fuel (first (xs ++ ys) this) (first ys this)) Q R.
  Proof.
    iIntros (Hf) "H HQ". iInduction fuel as [|fuel] "IH" forall (xs ys Q Hf); [lia|].
    iDestruct (lobj_nodup with "H") as %Hnd. destruct xs as [|[n v] xs _] using rev_ind; simpl; unfold l_end.
    - rewrite decide_True //. wret. by iApply "HQ".
    - rewrite decide_False; last first.
      { intros Hfirst. rewrite -assoc_L /= in Hnd, Hfirst. destruct (first_ne _ _ _ _ _ Hnd) as [Hne Hne'].
        destruct xs as [|[n1 v1] xs]; simpl in Hfirst; [congruence|].
        rewrite fmap_app !fmap_cons /= !NoDup_cons in Hnd. destruct Hnd as (Ha & Hb & _).
        pose proof (first_in ys this) as Hi. rewrite Hfirst in Hi. set_solver. }
      wstep wp_prev_at "H". rewrite final_snoc /=. iEval (rewrite -assoc_L /=) in "H".
      wstep wp_value_at "H". wbind.
      rewrite app_length /= in Hf. rewrite -assoc_L /=.
      iApply ("IH" $! xs ((n, v) :: ys) with "[%] H"); [lia|].
      iIntros "H". wret. rewrite fmap_app rev_app_distr /=. by iApply "HQ".
  Qed.
  Lemma wp_l_riterate this nvs Q R :
    lobj this nvs -∗ (lobj this nvs -∗ Q (rev nvs.*2)) -∗ wp md (l_riterate this) Q R.
  Proof.
    iIntros "H HQ". rewrite /l_riterate. wstep wp_l_begin "H".
    iApply (wp_with_fuel _ _ (length nvs)). iSplit; [iClear "HQ"; by iApply sz_lobj|].
    iIntros (fuel Hf). pose proof (wp_l_rwalk fuel this nvs []) as Hr. rewrite app_nil_r in Hr.
    by iApply (Hr with "H").
  Qed.
  Lemma wp_l_count fuel this xs ys i Q R :
    i < fuel → i ≤ length ys →
    lobj this (xs ++ ys) -∗ (lobj this (xs ++ ys) -∗ Q i) -∗
    wp md (l_count fuel (first ys this) (first (drop i ys) this)) Q R.
  Proof.
    iIntros (Hf Hi) "H HQ". iInduction fuel as [|fuel] "IH" forall (xs ys i Q Hf Hi); [lia|].
    iDestruct (lobj_nodup with "H") as %Hnd. destruct i as [|i]; simpl.
    - rewrite decide_True //. wret. by iApply "HQ".
    - destruct ys as [|[n v] ys]; simpl in *; [lia|]. rewrite decide_False; last first.
      { intros Hfirst. destruct (first_ne _ _ _ _ _ Hnd) as [_ Hne].
        pose proof (first_in (drop i ys) this) as Hin. rewrite -Hfirst in Hin.
        rewrite -fmap_drop elem_of_cons in Hin || rewrite fmap_drop elem_of_cons in Hin.
        destruct Hin as [->|Hin]; [done|].
        assert (n ∈ ys.*1) as Hin'.
        { apply elem_of_list_lookup in Hin as [j Hj]. rewrite lookup_drop in Hj. by eapply elem_of_list_lookup_2. }
        rewrite fmap_app !fmap_cons /= !NoDup_cons NoDup_app NoDup_cons in Hnd. naive_solver. }
      wstep wp_next_at "H". wbind. iEval (rewrite cons_middle assoc_L) in "H".
      iApply ("IH" with "[%] [%] H"); [lia..|]. iIntros "H". wret. iApply "HQ". by rewrite -assoc_L.
  Qed.
  Lemma wp_l_distance this nvs i Q R :
    i ≤ length nvs →
    lobj this nvs -∗ (lobj this nvs -∗ Q i) -∗ wp md (l_distance this (l_pos this nvs i)) Q R.
  Proof.
    iIntros (Hi) "H HQ". rewrite /l_distance. wstep wp_l_begin "H".
    iApply (wp_with_fuel _ _ (length nvs)). iSplit; [iClear "HQ"; by iApply sz_lobj|].
    iIntros (fuel Hf). iApply (wp_l_count _ _ [] with "H"); [lia|done|done].
  Qed.
End proofs.
