(** Separation-logic specifications of the forward_list model. *)
From iris.proofmode Require Import tactics.
From Verif Require Import SLTac Hist HistProofs ClientThrow ModelForward SpecForward.

Global Arguments f_next : simpl never.
Global Arguments f_set_next : simpl never.
Global Arguments f_value : simpl never.
Global Arguments f_set : simpl never.
Global Arguments f_destroy : simpl never.
Global Arguments f_dealloc : simpl never.

Section first.
  Context {V : Type}.
  Implicit Types nvs xs ys : list (loc * V).
  Lemma ffirst_app xs ys d : ffirst (xs ++ ys) d = ffirst xs (ffirst ys d).
  Proof. by destruct xs. Qed.
  Lemma flast_snoc nv xs d : flast (xs ++ [nv]) d = nv.1.
  Proof. unfold flast. by rewrite last_snoc. Qed.
  Lemma flast_cons nv xs d : flast (nv :: xs) d = flast xs nv.1.
  Proof. unfold flast. rewrite last_cons. by destruct (last xs). Qed.
End first.

Section proofs.
  Context {V : Type} (md : mode).
  Notation lost := (lost md (FRaw (V:=V))).
  Implicit Types (nvs xs ys zs : list (loc * V)) (R : exn → hprop (fcell V)).

  (** Nodes [nvs], the last one pointing to [e]. *)
  Fixpoint fls nvs (e : option loc) : hprop (fcell V) :=
    match nvs with
    | [] => emp
    | (n, v) :: r => n ↦ FNode (ffirst r e) (Some v) ∗ fls r e
    end%I.
  (** The head node and then [xs]. *)
  Definition fchain (this : loc) xs (e : option loc) : hprop (fcell V) :=
    (this ↦ FHead (ffirst xs e) ∗ fls xs e)%I.
  Definition fobj (this : loc) nvs : hprop (fcell V) := fchain this nvs None.
  Definition flst (this : loc) (vs : list V) : hprop (fcell V) :=
    (∃ nvs, ⌞nvs.*2 = vs⌟ ∗ fobj this nvs)%I.

  Lemma fls_app xs ys e : fls (xs ++ ys) e ⊣⊢ fls xs (ffirst ys e) ∗ fls ys e.
  Proof.
    induction xs as [|[n v] xs IH]; simpl.
    - by rewrite left_id.
    - rewrite IH ffirst_app /=. by rewrite assoc.
  Qed.
  Lemma fchain_app this xs ys e : fchain this (xs ++ ys) e ⊣⊢ fchain this xs (ffirst ys e) ∗ fls ys e.
  Proof. rewrite /fchain fls_app ffirst_app assoc //. Qed.
  Lemma flst_intro this nvs : fobj this nvs -∗ flst this nvs.*2.
  Proof. iIntros "H". iExists nvs. by iFrame. Qed.

  Lemma fls_ne this c xs e : this ↦ c -∗ fls xs e -∗ ⌜this ∉ xs.*1⌝.
  Proof. clear md.
    iIntros "Ht Hd". iInduction xs as [|[n v] xs] "IH"; simpl; [iPureIntro; set_solver|].
    iDestruct "Hd" as "[Hn Hd]". iDestruct (pt_ne with "Ht Hn") as %Hne.
    iDestruct ("IH" with "Ht Hd") as %Hni. iPureIntro. set_solver.
  Qed.
  Lemma fls_nodup xs e : fls xs e ⊢ ⌜NoDup xs.*1⌝.
  Proof.
    iIntros "H". iInduction xs as [|[n v] xs] "IH"; simpl; [iPureIntro; constructor|].
    iDestruct "H" as "[Hn H]". iDestruct (fls_ne with "Hn H") as %?.
    iDestruct ("IH" with "H") as %?. iPureIntro. by constructor.
  Qed.
  Lemma fobj_nodup this xs : fobj this xs ⊢ ⌜NoDup (this :: xs.*1)⌝.
  Proof.
    iIntros "[Ht H]". iDestruct (fls_ne with "Ht H") as %?.
    iDestruct (fls_nodup with "H") as %?. iPureIntro. by constructor.
  Qed.
  Lemma sz_fls xs e : fls xs e ⊢ sz (length xs).
  Proof.
    induction xs as [|[n v] xs IH]; simpl; [apply sz_0|].
    rewrite IH sz_pt. apply (sz_sep 1).
  Qed.
  Lemma sz_fobj this xs : fobj this xs ⊢ sz (length xs).
  Proof. iIntros "[Ht H]". iClear "Ht". by iApply sz_fls. Qed.

  (** ** Fields *)
  Lemma wp_fnext_h l n Q R :
    l ↦ FHead n -∗ (l ↦ FHead n -∗ Q n) -∗ wp md (f_next (Some l)) Q R.
  Proof. iIntros "H HQ". rewrite /f_next. wstep wp_load' "H". wret. by iApply "HQ". Qed.
  Lemma wp_fnext_n l n v Q R :
    l ↦ FNode n v -∗ (l ↦ FNode n v -∗ Q n) -∗ wp md (f_next (Some l)) Q R.
  Proof. iIntros "H HQ". rewrite /f_next. wstep wp_load' "H". wret. by iApply "HQ". Qed.
  Lemma wp_f_value l n v Q R :
    l ↦ FNode n (Some v) -∗ (l ↦ FNode n (Some v) -∗ Q v) -∗ wp md (f_value (Some l)) Q R.
  Proof. iIntros "H HQ". rewrite /f_value. wstep wp_load' "H". wret. by iApply "HQ". Qed.
  Lemma wp_f_destroy l n v Q R :
    l ↦ FNode n (Some v) -∗ (l ↦ FNode n None -∗ Q tt) -∗ wp md (f_destroy (Some l)) Q R.
  Proof. iIntros "H HQ". rewrite /f_destroy. wstep wp_load' "H". by iApply (wp_store' with "H"). Qed.
  Lemma wp_f_dealloc l n Q R :
    l ↦ FNode n None -∗ (emp -∗ Q tt) -∗ wp md (f_dealloc (Some l)) Q R.
  Proof. iIntros "H HQ". rewrite /f_dealloc. wstep wp_load' "H". by iApply (wp_free' with "H"). Qed.
  (** the link out of a chain *)
  Lemma wp_f_next this xs e Q R :
    fchain this xs e -∗ (fchain this xs e -∗ Q e) -∗ wp md (f_next (Some (flast xs this))) Q R.
  Proof.
    iIntros "H HQ". destruct xs as [|[n v] xs _] using rev_ind.
    - iDestruct "H" as "[H Hx]". iApply (wp_fnext_h with "H"). iIntros "H". iApply "HQ". iFrame.
    - rewrite flast_snoc fchain_app /=. iDestruct "H" as "(H & Hn & _)".
      iApply (wp_fnext_n with "Hn"). iIntros "Hn". iApply "HQ". iFrame.
  Qed.
  Lemma wp_f_set_next this xs e e' Q R :
    fchain this xs e -∗ (fchain this xs e' -∗ Q tt) -∗ wp md (f_set_next (Some (flast xs this)) e') Q R.
  Proof.
    iIntros "H HQ". rewrite /f_set_next. destruct xs as [|[n v] xs _] using rev_ind.
    - iDestruct "H" as "[H Hx]". wstep wp_load' "H". iApply (wp_store' with "H"). iIntros "H". iApply "HQ". iFrame.
    - rewrite flast_snoc !fchain_app /=. iDestruct "H" as "(H & Hn & _)".
      wstep wp_load' "Hn". iApply (wp_store' with "Hn"). iIntros "Hn". iApply "HQ". iFrame.
  Qed.

  (** ** Looking at one node *)
  Lemma fobj_node this xs n v ys :
    fobj this (xs ++ (n, v) :: ys) ⊢
    n ↦ FNode (ffirst ys None) (Some v) ∗
    (∀ v', n ↦ FNode (ffirst ys None) (Some v') -∗ fobj this (xs ++ (n, v') :: ys)).
  Proof.
    iIntros "H". iEval (rewrite /fobj fchain_app /=) in "H". iDestruct "H" as "(Hx & $ & Hy)".
    iIntros (v') "Hn". rewrite /fobj fchain_app /=. iFrame.
  Qed.
  Lemma wp_fvalue_at this xs n v ys Q R :
    fobj this (xs ++ (n, v) :: ys) -∗ (fobj this (xs ++ (n, v) :: ys) -∗ Q v) -∗ wp md (f_value (Some n)) Q R.
  Proof.
    iIntros "H HQ". iDestruct (fobj_node with "H") as "[Hn H]".
    iApply (wp_f_value with "Hn"). iIntros "Hn". iApply "HQ". by iApply "H".
  Qed.
  Lemma wp_fnext_at this xs n v ys Q R :
    fobj this (xs ++ (n, v) :: ys) -∗
    (fobj this (xs ++ (n, v) :: ys) -∗ Q (ffirst ys None)) -∗ wp md (f_next (Some n)) Q R.
  Proof.
    iIntros "H HQ". iDestruct (fobj_node with "H") as "[Hn H]".
    iApply (wp_fnext_n with "Hn"). iIntros "Hn". iApply "HQ". by iApply "H".
  Qed.
  Lemma wp_f_set this xs n v ys v' Q R :
    fobj this (xs ++ (n, v) :: ys) -∗
    ((∀ e, lost e -∗ fobj this (xs ++ (n, v) :: ys) -∗ R e) ∧ (fobj this (xs ++ (n, v') :: ys) -∗ Q tt)) -∗
    wp md (f_set (Some n) v') Q R.
  Proof.
    iIntros "H HQ". iDestruct (fobj_node with "H") as "[Hn H]". rewrite /f_set.
    wstep wp_load' "Hn". wbind. iApply wp_may_throw. iSplit.
    - iIntros (HC). iDestruct "HQ" as "[HQ _]". iApply ("HQ" with "[]"); [by iApply lost_copy|by iApply "H"].
    - iDestruct "HQ" as "[_ HQ]". iApply (wp_store' with "Hn"). iIntros "Hn". iApply "HQ". by iApply "H".
  Qed.

  (** ** insert_after *)
  Definition freads (r : fref V) (v : V) (F : hprop (fcell V)) : Prop :=
    ∀ (Q : V → hprop (fcell V)) R, F -∗ (F -∗ Q v) -∗ wp md (f_deref r) Q R.
  Lemma freads_elem this nvs i n v :
    nvs !! i = Some (n, v) → freads (FElem (Some n)) v (fobj this nvs).
  Proof.
    intros Hi. apply elem_of_list_split_length in Hi as (xs & ys & -> & _).
    iIntros (Q R) "F HQ". by iApply (wp_fvalue_at with "F").
  Qed.
  Lemma wp_f_construct F r n v nx Q R :
    freads r v F →
    n ↦ FRaw -∗ F -∗
    ((⌜mC md = true⌝ → n ↦ FRaw -∗ F -∗ R CopyThrow) ∧ (n ↦ FNode nx (Some v) -∗ F -∗ Q tt)) -∗
    wp md (f_construct n r nx) Q R.
  Proof.
    iIntros (Hr) "Hn F HQ". rewrite /f_construct. wstep wp_load' "Hn". wbind. iApply (Hr with "F").
    iIntros "F". wbind. iApply wp_may_throw. iSplit.
    - iIntros (HC). iDestruct "HQ" as "[HQ _]". by iApply ("HQ" with "[//] Hn F").
    - iDestruct "HQ" as "[_ HQ]". iApply (wp_store' with "Hn"). iIntros "Hn". iApply ("HQ" with "Hn F").
  Qed.
  Lemma wp_f_insert_gen F this xs ys r v Q R :
    freads r v (fobj this (xs ++ ys) ∗ F) →
    fobj this (xs ++ ys) -∗ F -∗
    ((∀ e, lost e -∗ fobj this (xs ++ ys) -∗ F -∗ R e) ∧
     (∀ n, fobj this (xs ++ (n, v) :: ys) -∗ F -∗ Q n)) -∗
    wp md (f_insert_after (Some (flast xs this)) r) Q R.
  Proof.
    iIntros (Hr) "H F HQ". rewrite /f_insert_after. wbind. iApply wp_alloc. iSplit.
    { iIntros (HA). iDestruct "HQ" as "[HQ _]". iApply ("HQ" with "[] H F"). by iApply lost_bad. }
    iIntros (n) "Hn".
    iEval (rewrite /fobj fchain_app) in "H". iDestruct "H" as "[Hx Hy]". wstep wp_f_next "Hx".
    wbind. iApply (wp_f_construct _ _ _ _ _ _ _ Hr with "Hn [Hx Hy F]").
    { rewrite /fobj fchain_app. iFrame. }
    iSplit.
    { iIntros (HC) "Hn [H F]". iDestruct "HQ" as "[HQ _]". iApply ("HQ" with "[Hn] H F"). by iApply (lost_cell with "Hn"). }
    iDestruct "HQ" as "[_ HQ]". iIntros "Hn [H F]". iEval (rewrite /fobj fchain_app) in "H". iDestruct "H" as "[Hx Hy]".
    wstep wp_f_set_next "Hx". wret. iApply ("HQ" with "[-F] F"). rewrite /fobj fchain_app /=. iFrame.
  Qed.
  Lemma wp_f_insert_val this xs ys v Q R :
    fobj this (xs ++ ys) -∗
    ((∀ e, lost e -∗ fobj this (xs ++ ys) -∗ R e) ∧
     (∀ n, fobj this (xs ++ (n, v) :: ys) -∗ Q n)) -∗
    wp md (f_insert_after (Some (flast xs this)) (FVal v)) Q R.
  Proof.
    iIntros "H HQ". iApply (wp_f_insert_gen emp _ _ _ _ v with "H []"); [|done|].
    { iIntros (Q' R') "F HQ". simpl. wret. by iApply "HQ". }
    iSplit.
    - iIntros (e) "He H _". iDestruct "HQ" as "[HQ _]". by iApply ("HQ" with "He").
    - iIntros (n) "H _". iDestruct "HQ" as "[_ HQ]". by iApply "HQ".
  Qed.
  Lemma wp_f_insert_own this xs ys i n0 v Q R :
    (xs ++ ys) !! i = Some (n0, v) →
    fobj this (xs ++ ys) -∗
    ((∀ e, lost e -∗ fobj this (xs ++ ys) -∗ R e) ∧
     (∀ n, fobj this (xs ++ (n, v) :: ys) -∗ Q n)) -∗
    wp md (f_insert_after (Some (flast xs this)) (FElem (Some n0))) Q R.
  Proof.
    iIntros (Hi) "H HQ". iApply (wp_f_insert_gen emp _ _ _ _ v with "H []"); [|done|].
    { iIntros (Q' R') "[F _] HQ". iApply (freads_elem _ _ _ _ _ Hi with "F"). iIntros "F". iApply "HQ". by iFrame. }
    iSplit.
    - iIntros (e) "He H _". iDestruct "HQ" as "[HQ _]". by iApply ("HQ" with "He").
    - iIntros (n) "H _". iDestruct "HQ" as "[_ HQ]". by iApply "HQ".
  Qed.
  Lemma wp_f_insert_other this xs ys other zs i n0 v Q R :
    zs !! i = Some (n0, v) →
    fobj this (xs ++ ys) -∗ fobj other zs -∗
    ((∀ e, lost e -∗ fobj this (xs ++ ys) -∗ fobj other zs -∗ R e) ∧
     (∀ n, fobj this (xs ++ (n, v) :: ys) -∗ fobj other zs -∗ Q n)) -∗
    wp md (f_insert_after (Some (flast xs this)) (FElem (Some n0))) Q R.
  Proof.
    iIntros (Hi) "H G HQ". iApply (wp_f_insert_gen (fobj other zs) _ _ _ _ v with "H G"); [|done].
    iIntros (Q' R') "[F G] HQ". iApply (freads_elem _ _ _ _ _ Hi with "G"). iIntros "G". iApply "HQ". by iFrame.
  Qed.
  Lemma wp_f_push_front this nvs v Q R :
    fobj this nvs -∗
    ((∀ e, lost e -∗ fobj this nvs -∗ R e) ∧ (∀ n, fobj this ((n, v) :: nvs) -∗ Q tt)) -∗
    wp md (f_push_front this (FVal v)) Q R.
  Proof.
    iIntros "H HQ". rewrite /f_push_front. wbind. iApply (wp_f_insert_val this [] nvs with "H"). iSplit.
    - iDestruct "HQ" as "[$ _]".
    - iIntros (n) "H". wret. iDestruct "HQ" as "[_ HQ]". by iApply "HQ".
  Qed.

  (** ** erase_after *)
  Lemma wp_f_erase_loop fuel ys e Q R :
    length ys < fuel → (∀ n, Some n = e → n ∉ ys.*1) →
    fls ys e -∗ (emp -∗ Q tt) -∗ wp md (f_erase_loop fuel (ffirst ys e) e) Q R.
  Proof.
    iIntros (Hf He) "Hd HQ". iInduction fuel as [|fuel] "IH" forall (ys Hf He); [lia|].
    destruct ys as [|[n v] ys]; simpl.
    - rewrite decide_True //. wret. by iApply "HQ".
    - rewrite decide_False; last first.
      { intros Hn. apply (He _ Hn). rewrite /=. set_solver. }
      iDestruct "Hd" as "[Hn Hd]". wstep wp_fnext_n "Hn". wstep wp_f_destroy "Hn".
      wbind. iApply (wp_f_dealloc with "Hn"). iIntros "_". iApply ("IH" with "[%] [%] Hd HQ"); [simpl in *; lia|].
      intros n' Hn' Hin. apply (He _ Hn'). rewrite /=. set_solver.
  Qed.
  Lemma wp_f_erase_range this xs ys zs Q R :
    fobj this (xs ++ ys ++ zs) -∗ (fobj this (xs ++ zs) -∗ Q (ffirst zs None)) -∗
    wp md (f_erase_range (Some (flast xs this)) (ffirst zs None)) Q R.
  Proof.
    iIntros "H HQ". iDestruct (fobj_nodup with "H") as %Hnd. rewrite /f_erase_range.
    iEval (rewrite /fobj fchain_app fls_app) in "H". iDestruct "H" as "(Hx & Hy & Hz)". wstep wp_f_next "Hx".
    wbind. iApply (wp_with_fuel _ _ (length ys)). iSplit; [iClear "HQ Hx Hz"; by iApply sz_fls|].
    iIntros (fuel Hf). rewrite ffirst_app. iApply (wp_f_erase_loop with "Hy"); [done| |].
    { clear -Hnd. intros n Hn Hin. destruct zs as [|[z vz] zs]; simplify_eq/=.
      apply NoDup_cons in Hnd as [_ Hnd]. rewrite !fmap_app fmap_cons !NoDup_app in Hnd.
      destruct Hnd as (_ & _ & _ & Hnd & _). apply (Hnd _ Hin). rewrite /=. set_solver. }
    iIntros "_". wstep wp_f_set_next "Hx". wret. iApply "HQ". rewrite /fobj fchain_app. iFrame.
  Qed.
  Lemma wp_f_erase_after this xs n v ys Q R :
    fobj this (xs ++ (n, v) :: ys) -∗ (fobj this (xs ++ ys) -∗ Q (ffirst ys None)) -∗
    wp md (f_erase_after (Some (flast xs this))) Q R.
  Proof.
    iIntros "H HQ". rewrite /f_erase_after. iEval (rewrite /fobj fchain_app /=) in "H".
    iDestruct "H" as "(Hx & Hn & Hy)". wstep wp_f_next "Hx". wstep wp_fnext_n "Hn". wstep wp_f_set_next "Hx".
    wstep wp_f_destroy "Hn". wbind. iApply (wp_f_dealloc with "Hn"). iIntros "_".
    iApply (wp_f_next with "Hx"). iIntros "Hx". iApply "HQ". rewrite /fobj fchain_app. iFrame.
  Qed.
  Lemma wp_f_clear this xs Q R :
    fobj this xs -∗ (fobj this [] -∗ Q tt) -∗ wp md (f_clear this) Q R.
  Proof.
    iIntros "H HQ". rewrite /f_clear. wbind.
    iApply (wp_f_erase_range this [] xs [] with "[H]"); [by rewrite /= app_nil_r|].
    iIntros "H". wret. by iApply "HQ".
  Qed.
  Lemma wp_f_pop_front this n v ys Q R :
    fobj this ((n, v) :: ys) -∗ (fobj this ys -∗ Q tt) -∗ wp md (f_pop_front this) Q R.
  Proof.
    iIntros "H HQ". rewrite /f_pop_front. wbind. iApply (wp_f_erase_after this [] n v ys with "H").
    iIntros "H". wret. by iApply "HQ".
  Qed.
  Lemma wp_f_dtor this xs Q R : fobj this xs -∗ (emp -∗ Q tt) -∗ wp md (f_dtor this) Q R.
  Proof.
    iIntros "H HQ". rewrite /f_dtor. wstep wp_f_clear "H". iDestruct "H" as "[H _]". by iApply (wp_free' with "H").
  Qed.
  Lemma wp_f_begin this xs Q R :
    fobj this xs -∗ (fobj this xs -∗ Q (ffirst xs None)) -∗ wp md (f_begin this) Q R.
  Proof.
    iIntros "[H Hx] HQ". iApply (wp_fnext_h with "H"). iIntros "H". iApply "HQ". iFrame.
  Qed.
  Lemma wp_f_new Q R : (∀ this, fobj this [] -∗ Q this) -∗ wp md f_new Q R.
  Proof. iIntros "HQ". iApply wp_new'. iIntros (this) "H". iApply "HQ". rewrite /fobj /fchain /=. iFrame. Qed.

  (** ** Copying.  On failure the nodes made so far stay behind. *)
  Lemma wp_f_copy_loop fuel this zs other xs ys Q R :
    length ys < fuel →
    fobj this zs -∗ fobj other (xs ++ ys) -∗
    ((∀ e new, ⌜new.*2 `prefix_of` ys.*2⌝ →
        lost e -∗ fobj this (zs ++ new) -∗ fobj other (xs ++ ys) -∗ R e) ∧
     (∀ new, ⌜new.*2 = ys.*2⌝ →
        fobj this (zs ++ new) -∗ fobj other (xs ++ ys) -∗ Q tt)) -∗
    wp md (f_copy_loop fuel (Some (flast xs other)) (Some (flast zs this))) Q R.
  Proof.
    iIntros (Hf) "H G HQ". iInduction fuel as [|fuel] "IH" forall (zs xs ys Hf); [lia|].
    simpl. iEval (rewrite /fobj fchain_app) in "G". iDestruct "G" as "[Gx Gy]". wstep wp_f_next "Gx".
    iAssert (fobj other (xs ++ ys)) with "[Gx Gy]" as "G"; [rewrite /fobj fchain_app; iFrame|].
    destruct ys as [|[n v] ys]; simpl.
    - wret. iDestruct "HQ" as "[_ HQ]". iApply ("HQ" $! [] with "[//] [H] G"). by rewrite app_nil_r.
    - wbind. iApply wp_alloc. iSplit.
      { iIntros (HA). iDestruct "HQ" as "[HQ _]". iApply ("HQ" $! BadAlloc [] with "[%] [] [H] G").
        - apply prefix_nil.
        - by iApply lost_bad.
        - by rewrite app_nil_r. }
      iIntros (n') "Hn". wbind. iApply (wp_f_construct (fobj other (xs ++ (n, v) :: ys)) _ _ v with "Hn G").
      { apply (freads_elem _ _ (length xs)). by rewrite lookup_app_r // Nat.sub_diag. }
      iSplit.
      { iIntros (HC) "Hn G". iDestruct "HQ" as "[HQ _]". iApply ("HQ" $! CopyThrow [] with "[%] [Hn] [H] G").
        - apply prefix_nil.
        - by iApply (lost_cell with "Hn").
        - by rewrite app_nil_r. }
      iIntros "Hn G". wstep wp_f_set_next "H".
      iEval (rewrite /fobj fchain_app) in "G". iDestruct "G" as "[Gx Gy]". wstep wp_f_next "Gx".
      iAssert (fobj other (xs ++ (n, v) :: ys)) with "[Gx Gy]" as "G"; [rewrite /fobj fchain_app; iFrame|].
      wstep wp_f_next "H".
      iAssert (fobj this (zs ++ [(n', v)])) with "[H Hn]" as "H"; [rewrite /fobj fchain_app /=; iFrame|].
      iEval (rewrite cons_middle assoc_L) in "G".
      iSpecialize ("IH" $! (zs ++ [(n', v)]) (xs ++ [(n, v)]) ys with "[%] H G"); [simpl in Hf; lia|].
      rewrite !flast_snoc /=. iApply "IH".
      iSplit.
      + iIntros (e new Hp) "He H G". iDestruct "HQ" as "[HQ _]".
        iApply ("HQ" $! e ((n', v) :: new) with "[%] He [H] [G]").
        * by apply prefix_cons.
        * by rewrite -assoc_L.
        * by rewrite -assoc_L.
      + iIntros (new Hp) "H G". iDestruct "HQ" as "[_ HQ]".
        iApply ("HQ" $! ((n', v) :: new) with "[%] [H] [G]").
        * by rewrite fmap_cons Hp.
        * by rewrite -assoc_L.
        * by rewrite -assoc_L.
  Qed.
  Lemma wp_f_copy other ys Q R :
    fobj other ys -∗
    ((∀ e new, ⌜new.*2 `prefix_of` ys.*2⌝ → lost e -∗ fls new None -∗ fobj other ys -∗ R e) ∧
     (∀ this new, ⌜new.*2 = ys.*2⌝ → fobj this new -∗ fobj other ys -∗ Q this)) -∗
    wp md (f_copy other) Q R.
  Proof.
    iIntros "G HQ". rewrite /f_copy. wbind. iApply wp_f_new. iIntros (this) "H". wbind. iApply wp_on_throw.
    iApply (wp_with_fuel _ _ (length ys)). iSplit; [iClear "H HQ"; by iApply sz_fobj|].
    iIntros (fuel Hf). iApply (wp_f_copy_loop _ _ [] _ [] ys with "H G"); [done|]. iSplit.
    - iIntros (e new Hn) "He [H Hn] G". iDestruct "HQ" as "[HQ _]". iApply (wp_free' with "H"). iIntros "_".
      iApply ("HQ" with "[//] He Hn G").
    - iIntros (new Hn) "H G". wret. iDestruct "HQ" as "[_ HQ]". iApply ("HQ" with "[//] H G").
  Qed.
  Lemma wp_f_swap this xs other ys Q R :
    fobj this xs -∗ fobj other ys -∗ (fobj this ys -∗ fobj other xs -∗ Q tt) -∗ wp md (f_swap this other) Q R.
  Proof.
    iIntros "[H Hx] [G Gy] HQ". rewrite /f_swap. wstep wp_fnext_h "H". wstep wp_fnext_h "G".
    rewrite /f_set_next. wstep wp_load' "H". wstep wp_store' "H". wstep wp_load' "G".
    iApply (wp_store' with "G"). iIntros "G". iApply ("HQ" with "[H Gy] [G Hx]"); iFrame.
  Qed.
  Lemma wp_f_swap_self this xs Q R :
    fobj this xs -∗ (fobj this xs -∗ Q tt) -∗ wp md (f_swap this this) Q R.
  Proof.
    iIntros "[H Hx] HQ". rewrite /f_swap. wstep wp_fnext_h "H". wstep wp_fnext_h "H".
    rewrite /f_set_next. wstep wp_load' "H". wstep wp_store' "H". wstep wp_load' "H".
    iApply (wp_store' with "H"). iIntros "H". iApply "HQ". iFrame.
  Qed.
  Lemma wp_f_assign this xs other ys Q R :
    fobj this xs -∗ fobj other ys -∗
    ((∀ e new, ⌜new.*2 `prefix_of` ys.*2⌝ →
        lost e -∗ fls new None -∗ fobj this xs -∗ fobj other ys -∗ R e) ∧
     (∀ new, ⌜new.*2 = ys.*2⌝ → fobj this new -∗ fobj other ys -∗ Q tt)) -∗
    wp md (f_assign this other) Q R.
  Proof.
    iIntros "H G HQ". rewrite /f_assign. wbind. iApply (wp_f_copy with "G"). iSplit.
    - iIntros (e new Hn) "He Hn G". iDestruct "HQ" as "[HQ _]". iApply ("HQ" with "[//] He Hn H G").
    - iIntros (tmp new Hn) "T G". iDestruct "HQ" as "[_ HQ]". wbind. iApply (wp_f_swap with "H T").
      iIntros "H T". iApply (wp_f_dtor with "T"). iIntros "_". iApply ("HQ" with "[//] H G").
  Qed.
  Lemma wp_f_assign_self this xs Q R :
    fobj this xs -∗
    ((∀ e new, ⌜new.*2 `prefix_of` xs.*2⌝ → lost e -∗ fls new None -∗ fobj this xs -∗ R e) ∧
     (∀ new, ⌜new.*2 = xs.*2⌝ → fobj this new -∗ Q tt)) -∗
    wp md (f_assign this this) Q R.
  Proof.
    iIntros "H HQ". rewrite /f_assign. wbind. iApply (wp_f_copy with "H"). iSplit.
    - iIntros (e new Hn) "He Hn H". iDestruct "HQ" as "[HQ _]". iApply ("HQ" with "[//] He Hn H").
    - iIntros (tmp new Hn) "T H". iDestruct "HQ" as "[_ HQ]". wbind. iApply (wp_f_swap with "H T").
      iIntros "H T". iApply (wp_f_dtor with "T"). iIntros "_". iApply ("HQ" with "[//] H").
  Qed.

  (** ** Traversals *)
  Lemma wp_f_advance this xs ys i Q R :
    i ≤ length ys →
    fobj this (xs ++ ys) -∗ (fobj this (xs ++ ys) -∗ Q (ffirst (drop i ys) None)) -∗
    wp md (f_advance (ffirst ys None) i) Q R.
  Proof.
    iIntros (Hi) "H HQ". iInduction i as [|i] "IH" forall (xs ys Hi); simpl.
    - wret. by iApply "HQ".
    - destruct ys as [|[n v] ys]; simpl in *; [lia|]. wstep wp_fnext_at "H".
      iEval (rewrite cons_middle assoc_L) in "H". iApply ("IH" with "[%] H"); [lia|].
      rewrite -assoc_L. done.
  Qed.
  (** [i] steps from before_begin() *)
  Lemma wp_f_advance_before this nvs i Q R :
    i ≤ length nvs →
    fobj this nvs -∗ (fobj this nvs -∗ Q (Some (flast (take i nvs) this))) -∗
    wp md (f_advance (f_before this) i) Q R.
  Proof.
    iIntros (Hi) "H HQ". destruct i as [|i]; simpl.
    - wret. by iApply "HQ".
    - wstep wp_f_begin "H". iApply (wp_f_advance this [] nvs with "H"); [lia|]. iIntros "H".
      destruct (lookup_lt_is_Some_2 nvs i) as [[n v] Hn]; [lia|].
      rewrite (drop_S _ _ _ Hn) (take_S_r _ _ _ Hn) flast_snoc /=. by iApply "HQ".
  Qed.
  Lemma wp_f_advance_end this nvs Q R :
    fobj this nvs -∗ (fobj this nvs -∗ Q None) -∗
    wp md (f_advance (f_before this) (S (length nvs))) Q R.
  Proof.
    iIntros "H HQ". simpl. wstep wp_f_begin "H". iApply (wp_f_advance this [] nvs with "H"); [lia|].
    rewrite drop_all. done.
  Qed.
  Lemma wp_f_walk fuel this xs ys Q R :
    length ys < fuel →
    fobj this (xs ++ ys) -∗ (fobj this (xs ++ ys) -∗ Q ys.*2) -∗ wp md (f_walk fuel (ffirst ys None)) Q R.
  Proof.
    iIntros (Hf) "H HQ". iInduction fuel as [|fuel] "IH" forall (xs ys Q Hf); [lia|].
    destruct ys as [|[n v] ys]; simpl.
    - wret. by iApply "HQ".
    - wstep wp_fvalue_at "H". wstep wp_fnext_at "H". wbind.
      iEval (rewrite cons_middle assoc_L) in "H". iApply ("IH" with "[%] H"); [simpl in *; lia|].
      iIntros "H". wret. iApply "HQ". by rewrite -assoc_L.
  Qed.
  Lemma wp_f_iterate this nvs Q R :
    fobj this nvs -∗ (fobj this nvs -∗ Q nvs.*2) -∗ wp md (f_iterate this) Q R.
  Proof.
    iIntros "H HQ". rewrite /f_iterate. wstep wp_f_begin "H".
    iApply (wp_with_fuel _ _ (length nvs)). iSplit; [iClear "HQ"; by iApply sz_fobj|].
    iIntros (fuel Hf). by iApply (wp_f_walk _ _ [] with "H").
  Qed.
  Lemma ffirst_ne n v ys zs this :
    NoDup (this :: (zs ++ (n, v) :: ys).*1) → Some n ≠ ffirst ys None.
  Proof. clear md.
    intros Hnd Hn. destruct ys as [|[m w] ys]; simplify_eq/=.
    rewrite fmap_app !fmap_cons /= !NoDup_cons NoDup_app NoDup_cons in Hnd. set_solver.
  Qed.
  Lemma wp_f_count fuel this xs ys zs Q R :
    length ys < fuel →
    fobj this (xs ++ ys ++ zs) -∗ (fobj this (xs ++ ys ++ zs) -∗ Q (length ys)) -∗
    wp md (f_count fuel (ffirst (ys ++ zs) None) (ffirst zs None)) Q R.
  Proof.
    iIntros (Hf) "H HQ". iInduction fuel as [|fuel] "IH" forall (xs ys Q Hf); [lia|].
    iDestruct (fobj_nodup with "H") as %Hnd. destruct ys as [|[n v] ys]; simpl.
    - rewrite decide_True //. wret. by iApply "HQ".
    - rewrite decide_False; last first.
      { intros Hfirst. destruct zs as [|[z vz] zs]; simplify_eq/=. clear -Hnd.
        rewrite fmap_app fmap_cons fmap_app !fmap_cons /= !NoDup_cons NoDup_app NoDup_cons in Hnd. set_solver. }
      wstep wp_fnext_at "H". wbind. iEval (rewrite cons_middle assoc_L) in "H".
      iApply ("IH" with "[%] H"); [simpl in *; lia|]. iIntros "H". wret. iApply "HQ". by rewrite -assoc_L.
  Qed.
  Lemma wp_f_distance this ys zs Q R :
    fobj this (ys ++ zs) -∗ (fobj this (ys ++ zs) -∗ Q (length ys)) -∗
    wp md (f_distance this (ffirst zs None)) Q R.
  Proof.
    iIntros "H HQ". rewrite /f_distance. wstep wp_f_begin "H".
    iApply (wp_with_fuel _ _ (length (ys ++ zs))). iSplit; [iClear "HQ"; by iApply sz_fobj|].
    iIntros (fuel Hf). iApply (wp_f_count _ _ [] ys zs with "H"); [|done]. rewrite app_length in Hf. lia.
  Qed.
End proofs.
