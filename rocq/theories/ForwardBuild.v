(** Copying and assigning forward_lists whose elements' copies throw. *)
From iris.proofmode Require Import tactics.
From Verif Require Import SLTac Hist HistGen HistProofs MemRun NoCopy ModelForward SpecForward ForwardProofs ForwardMem ForwardProps DequeBuild.

Section build.
  Context {V : Type}.
  Implicit Types (m : mem (fcell V)) (xs ys zs : list (loc * V)).
  Notation mN := (Mode false true).

  (** ** Which functions copy elements *)
  Lemma nc_f_next p : no_copy (f_next (V:=V) p).
  Proof. unfold f_next. destruct p; nc. Qed.
  Lemma nc_f_set_next p n : no_copy (f_set_next (V:=V) p n).
  Proof. unfold f_set_next. destruct p; nc. Qed.

  (** ** One turn of the loop *)
  Definition f_turn (from to : option loc) : M (fcell V) (option (option loc * option loc)) :=
    nextf <- f_next from ;;
    match nextf with
    | None => ret None
    | Some _ =>
        n <- alloc FRaw ;; f_construct n (FElem nextf) None ;;; f_set_next to (Some n) ;;;
        from <- f_next from ;; to <- f_next to ;; ret (Some (from, to))
    end.
  Lemma f_loop_turn fuel from to m :
    f_copy_loop (V:=V) (S fuel) from to m =
    bind (f_turn from to) (λ o, match o with None => ret tt | Some (from, to) => f_copy_loop fuel from to end) m.
  Proof.
    cbn [f_copy_loop]. unfold f_turn, bind. destruct (f_next from m) as [[q|] m1|? ?| |]; [|done..].
    destruct (alloc FRaw m1) as [n m2|? ?| |]; [|done..].
    destruct (f_construct n (FElem (Some q)) None m2) as [? m3|? ?| |]; [|done..].
    destruct (f_set_next to (Some n) m3) as [? m4|? ?| |]; [|done..].
    destruct (f_next from m4) as [from' m5|? ?| |]; [|done..].
    by destruct (f_next to m5) as [to' m6|? ?| |].
  Qed.
  Definition f_takes (b : bool) (co : list bool) (r : res (fcell V) (option (option loc * option loc))) : Prop :=
    match r with
    | Ok (Some _) m' => b = false ∧ corc m' = co
    | Exn CopyThrow _ => b = true
    | _ => True
    end.
  Lemma takes_f_construct n q b co m : corc m = b :: co → takes b co (f_construct (V:=V) n (FElem q) None m).
  Proof.
    intros Hm. unfold f_construct, bind at 1, load. destruct (blk m !! n) as [c|] eqn:E; [|done]. destruct c; try done.
    cbn [f_deref]. unfold f_value. destruct q as [q|]; [|done]. unfold load, bind at 2. unfold bind at 1.
    destruct (blk m !! q) as [c|]; [|done]. destruct c as [|? [v|]|]; try done.
    cbn [ret]. unfold bind, may_throw. rewrite Hm. destruct b; [done|]. unfold store. cbn [blk]. by rewrite E.
  Qed.
  Lemma takes_f_turn from to b co m : corc m = b :: co → f_takes b co (f_turn from to m).
  Proof.
    intros Hm. unfold f_turn, bind. pose proof (nc_f_next from m) as H1.
    destruct (f_next from m) as [[q|] m1|? ?| |]; [|done|by subst|done..].
    pose proof (nc_alloc (C:=fcell V) FRaw m1) as H2. destruct (alloc FRaw m1) as [n m2|? ?| |]; [|by subst|done..].
    pose proof (takes_f_construct n (Some q) b co m2 ltac:(congruence)) as H3.
    destruct (f_construct n (FElem (Some q)) None m2) as [? m3|? ?| |]; [|done..]. destruct H3 as [-> H3].
    pose proof (nc_f_set_next to (Some n) m3) as H4. destruct (f_set_next to (Some n) m3) as [? m4|? ?| |]; [|by subst|done..].
    pose proof (nc_f_next from m4) as H5. destruct (f_next from m4) as [from' m5|? ?| |]; [|by subst|done..].
    pose proof (nc_f_next to m5) as H6. destruct (f_next to m5) as [to' m6|? ?| |]; [|by subst|done..].
    split; [done|]. congruence.
  Qed.
  Lemma wp_f_turn this zs other xs n v ys :
    fobj this zs ∗ fobj other (xs ++ (n, v) :: ys) ⊢ wp mN (f_turn (Some (flast xs other)) (Some (flast zs this)))
      (λ o, ∃ n', ⌞o = Some (Some n, Some n')⌟ ∗ fobj this (zs ++ [(n', v)]) ∗ fobj other (xs ++ (n, v) :: ys))
      (λ e, ∃ r, ⌞e = CopyThrow⌟ ∗ r ↦ FRaw ∗ fobj this zs ∗ fobj other (xs ++ (n, v) :: ys)).
  Proof.
    iIntros "[H G]". unfold f_turn.
    iEval (rewrite /fobj fchain_app) in "G". iDestruct "G" as "[Gx Gy]". wstep wp_f_next "Gx".
    iAssert (fobj other (xs ++ (n, v) :: ys)) with "[Gx Gy]" as "G"; [rewrite /fobj fchain_app; iFrame|]. simpl.
    wbind. iApply wp_alloc. iSplit; [by iIntros ([=])|]. iIntros (n') "Hn".
    wbind. iApply (wp_f_construct mN (fobj other (xs ++ (n, v) :: ys)) _ _ v with "Hn G").
    { apply (freads_elem mN _ _ (length xs)). by rewrite lookup_app_r // Nat.sub_diag. }
    iSplit.
    { iIntros (_) "Hn G". iExists n'. by iFrame. }
    iIntros "Hn G". wstep wp_f_set_next "H".
    iEval (rewrite /fobj fchain_app) in "G". iDestruct "G" as "[Gx Gy]". wstep wp_f_next "Gx".
    iAssert (fobj other (xs ++ (n, v) :: ys)) with "[Gx Gy]" as "G"; [rewrite /fobj fchain_app; iFrame|].
    wstep wp_f_next "H".
    iAssert (fobj this (zs ++ [(n', v)])) with "[H Hn]" as "H"; [rewrite /fobj fchain_app /=; iFrame|].
    wret. iExists n'. by iFrame.
  Qed.

  (** ** The loop *)
  Definition f_left (this : loc) zs other ys (r : loc) : hprop (fcell V) :=
    (r ↦ FRaw ∗ fobj this zs ∗ fobj other ys)%I.
  Lemma f_loop_throws j fuel co this zs other xs ys m h hf :
    good mN m → blk m = h ∪ hf → h ##ₘ hf → (fobj this zs ∗ fobj other (xs ++ ys))%I h →
    corc m = replicate j false ++ true :: co → j < length ys → length ys < fuel →
    ∃ m' h' r zs', f_copy_loop fuel (Some (flast xs other)) (Some (flast zs this)) m = Exn CopyThrow m' ∧
      zs'.*2 = zs.*2 ++ take j ys.*2 ∧ f_left this zs' other (xs ++ ys) r h' ∧ h' ##ₘ hf ∧ blk m' = h' ∪ hf ∧ good mN m'.
  Proof.
    revert fuel zs xs ys m h. induction j as [|j IH]; intros [|fuel] zs xs ys m h Hg Hb Hd HP Hc Hj Hf; try lia;
      (destruct ys as [|[n v] ys]; [cbn in Hj; lia|]); rewrite f_loop_turn; unfold bind;
      pose proof (wp_frame_adequate _ _ _ _ _ _ _ _ (wp_f_turn this zs other xs n v ys) Hg Hb Hd HP) as Hw.
    - pose proof (takes_f_turn (Some (flast xs other)) (Some (flast zs this)) true co m Hc) as Ht.
      destruct (f_turn _ _ m) as [o m1|e m1| |]; [..|done|done].
      + destruct Hw as (_ & h' & _ & _ & (n' & [-> _]%pure_sep_inv)). by destruct Ht.
      + destruct Hw as (Hg' & h' & Hd' & Hb' & (r & [-> HQ]%pure_sep_inv)). exists m1, h', r, zs.
        split; [done|]. rewrite take_0 app_nil_r. by repeat (split; [done|]).
    - pose proof (takes_f_turn (Some (flast xs other)) (Some (flast zs this)) false _ m Hc) as Ht.
      destruct (f_turn _ _ m) as [o m1|e m1| |]; [| |done|done].
      2: { destruct Hw as (_ & h' & _ & _ & (r & [-> _]%pure_sep_inv)). done. }
      destruct Hw as (Hg' & h' & Hd' & Hb' & (n' & [-> HQ]%pure_sep_inv)). destruct Ht as [_ Hc'].
      destruct (IH fuel (zs ++ [(n', v)]) (xs ++ [(n, v)]) ys m1 h') as (m' & h'' & r & zs' & El & Hz & Hrest);
        [done|done|done|by rewrite -assoc_L|done|cbn in Hj; lia|cbn in Hf; lia|].
      rewrite !flast_snoc in El. exists m', h'', r, zs'. split; [done|]. rewrite -assoc_L in Hrest. split; [|done].
      by rewrite Hz fmap_app -assoc_L.
  Qed.
  Lemma f_good_N m : mem_wf m → no_fail (aorc m) → good mN m.
  Proof. intros Hw Ha. split; [done|]. split; [done|]. by intros [=]. Qed.

  Lemma c127_f_copy m other ys j co :
    mem_wf m → no_fail (aorc m) → f_holds m other ys →
    corc m = replicate j false ++ true :: co → j < length ys →
    ∃ m' zs r, f_copy other m = Exn CopyThrow m' ∧ zs.*2 = take j ys.*2 ∧ NoDup (r :: zs.*1) ∧
      blk m' !! r = Some FRaw ∧
      (∀ as_ n v bs, zs = as_ ++ (n, v) :: bs → blk m' !! n = Some (FNode (ffirst bs None) (Some v))) ∧
      replaces [] m (r :: zs.*1) m'.
  Proof.
    intros Hw Ha [Hnd Hs]%f_holds_heap Hc Hj.
    unfold f_copy. assert (emp ⊢ wp mN (f_new (V:=V)) (λ this, fobj this []) (λ _, False))%I as Hwp.
    { iIntros "_". iApply wp_f_new. by iIntros (this) "$". }
    pose proof (wp_frame_adequate _ _ _ _ _ m ∅ (blk m) Hwp (f_good_N _ Hw Ha)) as H. feed specialize H.
    { by rewrite left_id_L. } { apply map_disjoint_empty_l. } { by apply hprop_emp_eq. }
    unfold bind at 1. pose proof (nc_new (FHead (V:=V) None) m) as Hcc. unfold f_new in *.
    destruct (new (FHead None) m) as [this m1|e m1| |]; [| |done|done].
    2: { by destruct H as (_ & ? & _ & _ & []). }
    destruct H as (Hg1 & h1 & Hd1 & Hb1 & HP1). set (h2 := fheap other ys) in *.
    destruct (f_loop_throws j (S (size (blk m1))) co this [] other [] ys m1 (h1 ∪ h2) (blk m ∖ h2))
      as (m2 & h' & r & zs & El & Hz & HP' & Hd' & Hb' & Hg2); [done| | | |congruence|done| |].
    - by rewrite Hb1 -assoc_L map_difference_union.
    - apply map_disjoint_union_l. split; [|by apply map_disjoint_difference_r].
      eapply map_disjoint_weaken_r; [done|]. by apply map_subseteq_difference_l.
    - apply hprop_sep_eq. exists h1, h2. split; [done|]. split; [by eapply map_disjoint_weaken_r|]. split; [done|].
      by apply fheap_exact.
    - assert (fobj other ys h2) as H2 by by apply fheap_exact. apply fobj_size in H2.
      rewrite Hb1 map_size_disj_union // -(map_difference_union h2 (blk m)) // map_size_disj_union; [lia|].
      by apply map_disjoint_difference_r.
    - assert (f_left this zs other ys r ⊢ wp mN (free this) (λ _, ⌞NoDup zs.*1⌟ ∗ r ↦ FRaw ∗ fls zs None ∗ fobj other ys) (λ _, False))%I as Hwd.
      { iIntros "(R & [H Z] & G)". iDestruct (fls_nodup with "Z") as %Hndz. iApply (wp_free' with "H"). iIntros "_". by iFrame. }
      pose proof (wp_frame_adequate _ _ _ _ _ _ _ _ Hwd Hg2 Hb' Hd' HP') as H.
      cbn [flast last] in El. unfold bind, on_throw, catch, with_fuel. rewrite El. unfold bind.
      destruct (free this m2) as [[] m3|e m3| |]; [| |done|done].
      2: { by destruct H as (_ & ? & _ & _ & []). }
      destruct H as (_ & h3 & Hd3 & Hb3 & [Hndz HP3]%pure_sep_inv).
      apply hprop_sep_eq in HP3 as (h4 & h5 & -> & Hd45 & ->%pt_eq & (h6 & h7 & -> & Hd67 & H6 & H7)%hprop_sep_eq).
      apply (fheap_exact _ _ Hnd) in H7 as ->. apply (sheap_exact _ _ Hndz) in H6 as ->. fold h2 in Hd67, Hd45, Hd3, Hb3.
      apply map_disjoint_union_r in Hd45 as [Hd46 Hd47].
      apply map_disjoint_union_l in Hd3 as [Hd3a [Hd3b Hd3c]%map_disjoint_union_l].
      assert ({[r := FRaw]} ∪ sheap zs None ##ₘ blk m) as Hdm.
      { rewrite -(map_difference_union h2 (blk m)) //. apply map_disjoint_union_l. split; by apply map_disjoint_union_r. }
      assert (blk m3 = ({[r := FRaw]} ∪ sheap zs None) ∪ blk m) as Hb4.
      { by rewrite Hb3 -!assoc_L map_difference_union. }
      exists m3, zs, r. split; [done|]. split; [done|].
      assert (r ∉ zs.*1) as Hr.
      { apply map_disjoint_singleton_l in Hd46. intros Hr%(sheap_dom zs None). rewrite Hd46 in Hr. by destruct Hr. }
      split; [by constructor|]. split; [|split].
      + rewrite Hb4 -assoc_L. apply lookup_union_Some_l, lookup_singleton.
      + intros as_ n v bs ->. rewrite Hb4. apply lookup_union_Some_l, lookup_union_Some_r; [done|]. by apply sheap_lookup.
      + apply (owned_replaces m m3 ∅ ({[r := FRaw]} ∪ sheap zs None)).
        * apply map_empty_subseteq.
        * intros l. rewrite lookup_empty. split; [by intros ?%elem_of_nil|by intros []].
        * intros l. rewrite elem_of_cons lookup_union_is_Some (sheap_dom zs None).
          assert (is_Some (({[r := FRaw]} : gmap loc (fcell V)) !! l) ↔ l = r) as El'.
          { split; [intros [c [-> _]%lookup_singleton_Some]; done|intros ->; rewrite lookup_singleton; by eexists]. }
          by rewrite El'.
        * by rewrite map_difference_empty.
        * by rewrite map_difference_empty.
  Qed.
  Lemma c127_f_assign m this other ys j co :
    mem_wf m → no_fail (aorc m) → f_holds m other ys →
    corc m = replicate j false ++ true :: co → j < length ys →
    ∃ m', f_copy other m = Exn CopyThrow m' ∧ f_assign this other m = Exn CopyThrow m' ∧
      ∀ xs, f_holds m this xs → f_holds m' this xs.
  Proof.
    intros Hw Ha Ho Hc Hj. destruct (c127_f_copy m other ys j co Hw Ha Ho Hc Hj) as (m' & zs & r & E & _ & _ & _ & _ & Hr).
    exists m'. split; [done|]. split; [unfold f_assign, bind; by rewrite E|].
    intros xs (Hnd & Hh & Hn).
    assert (∀ l c, blk m !! l = Some c → blk m' !! l = Some c) as Hk.
    { intros l c El. specialize (Hr l). case_decide as E1.
      - destruct Hr as [?%elem_of_nil|Hr]; [done|]. by rewrite Hr in El.
      - case_decide as E2; [by apply elem_of_nil in E2|]. by rewrite Hr. }
    split; [done|]. split; [by apply Hk|]. intros as_ n v bs ->. apply Hk. by eapply Hn.
  Qed.
End build.
