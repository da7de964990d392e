(** Copying and assigning sets and maps whose elements' copies throw. *)
From iris.proofmode Require Import tactics.
From Verif Require Import SLTac Hist HistGen HistProofs MemRun NoCopy ModelTree SpecTree TreeFacts TreeProofs TreeMem TreeProps TreeThrow.

(** ** How many copies an insertion makes *)
Section counted.
  Context {X K : Type} (key : X → K) (comp : K → K → bool) (eqn : option (K → K → bool)).
  Ltac nct := repeat first [ apply nc_rd | apply nc_wr | apply nc_elem | apply nc_color | apply nc_paint | apply nc_node
    | apply nc_bgn | apply nc_set_bgn | apply nc_size | apply nc_set_size | progress nc ].
  (** one of the next two copies throws *)
  Definition two (c : list bool) : bool := hd false c || hd false (tail c).
  Definition told2 (c : list bool) (rr : res (tcell X) (loc * bool)) : Prop :=
    match rr with
    | Ok (_, true) m' => two c = false ∧ corc m' = tail (tail c)
    | Exn CopyThrow _ => two c = true
    | _ => True
    end.
  Lemma told2_after {A} (f : M (tcell X) A) (k : A → M (tcell X) (loc * bool)) c m :
    no_copy f → (∀ a m, corc m = c → told2 c (k a m)) → corc m = c → told2 c (bind f k m).
  Proof using.
    intros Hf Hk Hm. unfold bind. specialize (Hf m). destruct (f m) as [a m'|e m'| |]; [|by subst|done..].
    apply Hk. congruence.
  Qed.
  Lemma told2_before {A} (f : M (tcell X) (loc * bool)) (g : M (tcell X) A) c m :
    told2 c (f m) → no_copy g → told2 c ((rr <- f ;; g ;;; ret rr) m).
  Proof using.
    intros Hf Hg. unfold bind. destruct (f m) as [[n a] m'|e m'| |]; [|done..]. specialize (Hg m').
    destruct (g m') as [? ?|e ?| |]; [|by subst|done..]. destruct a; [|done]. destruct Hf. split; [done|]. cbn. congruence.
  Qed.
  Lemma told2_construct c n v p m : corc m = c →
    match t_construct (X:=X) n v p m with
    | Ok _ m' => two c = false ∧ corc m' = tail (tail c)
    | Exn CopyThrow _ => two c = true
    | Exn _ _ => False
    | _ => True
    end.
  Proof using.
    intros Hm. unfold t_construct, bind at 1, load. destruct (blk m !! n) as [[| |]|] eqn:En; try done.
    unfold bind, may_throw. rewrite Hm. unfold two. destruct c as [|[] c]; [|done|].
    - simpl. unfold store. simpl. by rewrite En.
    - simpl. destruct c as [|[] c]; [|done|]; unfold store; simpl; by rewrite En.
  Qed.
  Lemma told2_attach c this v pl p m : corc m = c → told2 c (t_attach key comp this v pl p m).
  Proof using.
    intros Hm. unfold t_attach. eapply told2_after; [apply nc_alloc| |exact Hm]. clear m Hm. intros n m Hm.
    eapply told2_after; [apply nc_wr| |exact Hm]. clear m Hm. intros _ m Hm.
    pose proof (told2_construct c n v p m Hm) as Hc. unfold bind at 1.
    destruct (t_construct n v p m) as [? m'|[] m'| |]; try done. destruct Hc as [H2 Hm'].
    match goal with |- told2 c (?g m') => assert (no_copy g) as Hn end.
    { apply nc_bind; [apply nc_bgn|]. intros bb. apply nc_bind; [destruct bb; nct|]. intros _. nct. }
    specialize (Hn m'). unfold told2. match goal with |- match ?g with _ => _ end => destruct g as [[n' []] m1|[] m1| |] eqn:Eg end; try done.
    split; [done|]. congruence.
  Qed.
  Lemma told2_ins c fuel this v pl p m : corc m = c → told2 c (t_ins key comp fuel this v pl p m).
  Proof using.
    revert pl p m. induction fuel as [|fuel IH]; intros pl p m Hm; [done|]. cbn [t_ins].
    eapply told2_after; [apply nc_rd| |exact Hm]. clear m Hm. intros [n|] m Hm; [|by apply told2_attach].
    eapply told2_after; [apply nc_elem| |exact Hm]. clear m Hm. intros x m Hm.
    destruct (comp (key v) (key x)); [apply told2_before; [by apply IH|apply nc_fix]|].
    destruct (comp (key x) (key v)); [apply told2_before; [by apply IH|apply nc_fix]|done].
  Qed.
  Lemma told2_insert c this v m : corc m = c → told2 c (t_insert key comp this v m).
  Proof using.
    intros Hm. unfold t_insert.
    assert (told2 c (with_fuel (λ fuel, t_ins key comp fuel this v (PRoot this) None) m)) as H.
    { unfold with_fuel. by apply told2_ins. }
    unfold bind at 1. destruct (with_fuel _ m) as [[n a] m'|e m'| |]; [|done..].
    pose proof (nc_bind (rd (X:=X) (PRoot this)) (λ root, root <- node root ;; t_paint root Black) (nc_rd _)) as Hn.
    specialize (Hn ltac:(intros; nct) m').
    unfold bind at 1. unfold bind at 1 in Hn. destruct (rd (PRoot this) m') as [q m1|e m1| |]; [|by subst|done..].
    unfold bind at 1. unfold bind at 1 in Hn. destruct (node q m1) as [q' m2|e m2| |]; [|by subst|done..].
    unfold bind. destruct (t_paint q' Black m2) as [? ?|e m3| |]; [|by subst|done..].
    destruct a; [|done]. destruct H. split; [done|]. cbn. congruence.
  Qed.

  (** ** One turn of the loop *)
  Definition turn (this q : loc) : M (tcell X) (loc * bool * option loc) :=
    x <- t_value (Some q) ;; rr <- t_insert key comp this x ;; it <- t_succ key eqn (Some q) ;; ret (rr, it).
  Lemma nc_down fuel n : no_copy (t_down (X:=X) fuel n).
  Proof using. revert n. induction fuel as [|fuel IH]; intros n; cbn [t_down]; [done|]. repeat first [apply IH | progress nct]. Qed.
  Lemma nc_climb fuel n p : no_copy (t_climb (X:=X) key eqn fuel n p).
  Proof using.
    revert n p. induction fuel as [|fuel IH]; intros n p; cbn [t_climb]; [done|]. unfold t_same.
    repeat first [apply IH | progress nct].
  Qed.
  Lemma nc_succ it : no_copy (t_succ (X:=X) key eqn it).
  Proof using.
    unfold t_succ. apply nc_bind; [apply nc_node|]. intros n. apply nc_bind; [apply nc_rd|]. intros [r|].
    - apply nc_bind; [|nct]. intros m. unfold with_fuel. apply nc_down.
    - apply nc_bind; [apply nc_rd|]. intros pn m. unfold with_fuel. apply nc_climb.
  Qed.
  Lemma nc_value it : no_copy (t_value (X:=X) it).
  Proof using. unfold t_value. nct. Qed.
  Lemma turn_told c this q m : corc m = c →
    match turn this q m with
    | Ok (_, true, _) m' => two c = false ∧ corc m' = tail (tail c)
    | Exn CopyThrow _ => two c = true
    | _ => True
    end.
  Proof using.
    intros Hm. unfold turn, bind. pose proof (nc_value (Some q) m) as H1.
    destruct (t_value (Some q) m) as [x m1|e m1| |]; [|by subst|done..].
    pose proof (told2_insert c this x m1 ltac:(congruence)) as H2.
    destruct (t_insert key comp this x m1) as [[n a] m2|e m2| |]; [|done..].
    pose proof (nc_succ (Some q) m2) as H3. destruct (t_succ key eqn (Some q) m2) as [it m3|e m3| |]; [|by subst|done..].
    cbn. destruct a; [|done]. destruct H2. split; [done|congruence].
  Qed.
  Lemma fill_turn fuel this q m :
    t_fill_loop key comp eqn (S fuel) this (Some q) m =
    bind (turn this q) (λ a, t_fill_loop key comp eqn fuel this a.2) m.
  Proof using.
    cbn [t_fill_loop]. destruct (decide _); [done|]. unfold turn, bind. destruct (t_value (Some q) m) as [x m1|e m1| |]; [|done..].
    destruct (t_insert key comp this x m1) as [rr m2|e m2| |]; [|done..].
    by destruct (t_succ key eqn (Some q) m2).
  Qed.
  Lemma nc_new_t : no_copy (t_new (X:=X)).
  Proof using. done. Qed.
  Lemma nc_dd fuel p : no_copy (t_dd (X:=X) fuel p).
  Proof using.
    revert p. induction fuel as [|fuel IH]; intros p; cbn [t_dd]; [done|]. unfold t_destroy, t_dealloc.
    repeat first [apply IH | apply nc_free | progress nct].
  Qed.
  Lemma nc_t_clear this : no_copy (t_clear (X:=X) this).
  Proof using.
    unfold t_clear. apply nc_bind; [apply nc_rd|]. intros r. apply nc_bind; [intros m; unfold with_fuel; apply nc_dd|]. intros _. nct.
  Qed.
End counted.

(** ** The loop *)
Section build.
  Context {X K : Type} (key : X → K) (comp : K → K → bool) (Hsw : strict_weak comp).
  Context (eqn : option (K → K → bool)).
  Implicit Types (t : tree X) (m : mem (tcell X)).
  Local Notation search := (search key comp).
  Local Notation descend := (descend key comp).
  Local Notation tgood := (tgood key comp).
  Local Notation insert_t := (insert_t key comp).
  Notation mN := (Mode false true).
  (** [x] could not be copied into the tree [t] *)
  Definition torn (this : loc) t (x : X) (n : loc) : hprop (tcell X) :=
    (zctx this (descend (key x) t []) (Some n) (least t) (length (nodes t)) ∗ n ↦ TRaw)%I.

  Lemma next_absent t t0 a q x b :
    tgood t0 → nodes t0 = a ++ (q, x) :: b → tgood t → (nodes t).*2 = a.*2 →
    search (key x) t = None ∧ ∀ n, tgood (insert_t n x t) ∧ (nodes (insert_t n x t)).*2 = (a ++ [(q, x)]).*2.
  Proof using Hsw.
    intros Hg0 E Hg Ht. destruct (add_elem_last key comp Hsw a.*2 x) as [H1 H2].
    { pose proof (proj1 Hg0) as Hi. rewrite E fmap_app fmap_cons in Hi.
      rewrite (cons_middle _ _ (b.*2)) assoc_L in Hi. by apply increasing_app in Hi as [Hi _]. }
    assert (search (key x) t = None) as Hx.
    { pose proof (search_lookup key comp Hsw (key x) t (proj1 Hg)) as Hl. rewrite Ht H1 in Hl.
      by destruct (search (key x) t). }
    split; [done|]. intros n. split; [by apply insert_good|]. by rewrite insert_elems // Ht H2 fmap_app.
  Qed.
  Lemma wp_turn this other t t0 a q x b :
    same_ok key eqn t0 → nodes t0 = a ++ (q, x) :: b → tgood t → search (key x) t = None →
    tobj this t ∗ tobj other t0 ⊢ wp mN (turn key comp eqn this q)
      (λ r, ∃ n, ⌞r = (n, true, fst <$> head b)⌟ ∗ tobj this (insert_t n x t) ∗ tobj other t0)
      (λ e, ∃ n, ⌞e = CopyThrow⌟ ∗ torn this t x n ∗ tobj other t0).
  Proof using Hsw.
    iIntros (Hs E Hg Hx) "[H G]". unfold turn. wbind. iApply (wp_t_value _ _ _ q x with "G"); [rewrite E; set_solver +|]. iIntros "G".
    wbind. iApply (wp_t_insert_any key comp Hsw mN with "H"); [done|]. rewrite Hx. iSplit; [by iIntros ([=])|]. iSplit.
    - iIntros (_ n) "H R". iExists n. by iFrame.
    - iIntros (n) "H". wbind. iApply (wp_t_succ key eqn mN _ _ _ q x b with "G"); [done..|]. iIntros "G". wret.
      iExists n. by iFrame.
  Qed.
  Lemma fill_throws i fuel c this other t t0 a b q x m h hf :
    same_ok key eqn t0 → tgood t0 → nodes t0 = a ++ b → tgood t → (nodes t).*2 = a.*2 →
    good mN m → blk m = h ∪ hf → h ##ₘ hf → (tobj this t ∗ tobj other t0)%I h →
    corc m = replicate (2 * i) false ++ c → two c = true → b !! i = Some (q, x) → length b < fuel →
    ∃ m' h' t' n, t_fill_loop key comp eqn fuel this (fst <$> head b) m = Exn CopyThrow m' ∧
      tgood t' ∧ (nodes t').*2 = take (length a + i) (nodes t0).*2 ∧ search (key x) t' = None ∧
      (torn this t' x n ∗ tobj other t0)%I h' ∧ h' ##ₘ hf ∧ blk m' = h' ∪ hf.
  Proof using Hsw.
    intros Hs Hg0. revert fuel t a b m h. induction i as [|i IH]; intros [|fuel] t a b m h E Hg Ht Hgm Hb Hd HP Hc H2 Hx Hf; try lia;
      (destruct b as [|[q0 x0] b]; [done|]); cbn [head fmap option_fmap option_map fst]; rewrite fill_turn; unfold bind;
      destruct (next_absent t t0 a q0 x0 b Hg0 E Hg Ht) as [Hx0 Hins];
      pose proof (turn_told key comp eqn _ this q0 m Hc) as Htold;
      pose proof (wp_frame_adequate _ _ _ _ _ _ _ _ (wp_turn this other t t0 a q0 x0 b Hs E Hg Hx0) Hgm Hb Hd HP) as Hw;
      destruct (turn key comp eqn this q0 m) as [[[n ins] it] m1|e m1| |]; try done.
    - destruct Hw as (_ & h' & _ & _ & (n' & [[= -> -> ->] _]%pure_sep_inv)). destruct Htold as [Htold _].
      cbn in Htold. congruence.
    - destruct Hw as (_ & h' & Hd' & Hb' & (n' & [-> HQ]%pure_sep_inv)). injection Hx as <- <-.
      exists m1, h', t, n'. split; [done|]. split; [done|]. split; [|done].
      by rewrite Nat.add_0_r E fmap_app take_app_alt ?fmap_length.
    - destruct Hw as (Hg1 & h' & Hd' & Hb' & (n' & [[= -> -> ->] HQ]%pure_sep_inv)). destruct Htold as [_ Hc'].
      replace (2 * S i) with (S (S (2 * i))) in Hc' by lia. cbn [replicate app tail] in Hc'.
      destruct (Hins n') as [Hg' Hz'].
      destruct (IH fuel (insert_t n' x0 t) (a ++ [(q0, x0)]) b m1 h') as (m' & h'' & t' & n & El & Hgt & Hzt & Hrest);
        [by rewrite -assoc_L|done..|cbn in Hf; lia|].
      exists m', h'', t', n. split; [exact El|]. split; [done|]. split; [|done].
      rewrite Hzt app_length. cbn. f_equal. lia.
    - destruct Hw as (_ & h' & _ & _ & (n' & [-> _]%pure_sep_inv)).
      replace (2 * S i) with (S (S (2 * i))) in Htold by lia. done.
  Qed.
  Lemma throws_pair j co : ∃ c, replicate j false ++ true :: co = replicate (2 * (j / 2)) false ++ c ∧ two c = true.
  Proof using.
    clear. exists (replicate (j mod 2) false ++ true :: co). split.
    - rewrite assoc_L -replicate_add. f_equal. f_equal. apply Nat.div_mod. lia.
    - pose proof (Nat.mod_upper_bound j 2). destruct (j mod 2) as [|[|]]; [done|done|lia].
  Qed.
  Lemma torn_inv this other t t0 x n m h' hf :
    search (key x) t = None → (torn this t x n ∗ tobj other t0)%I h' → h' ##ₘ hf → blk m = h' ∪ hf →
    fill (descend (key x) t []) E = t ∧ belongs key comp (key x) (descend (key x) t []) ∧
    t_torn m this (descend (key x) t []) n x ∧ t_holds m other t0 ∧
    ∀ l, l ∈ (n :: t_cells this t) ++ t_cells other t0 ↔ is_Some (h' !! l).
  Proof using Hsw.
    intros Es (h1 & h2 & -> & Hd12 & H1 & H2)%hprop_sep_eq Hd Hb.
    pose proof (descend_fill key comp (key x) t [] Es) as Hf. change (fill [] t) with t in Hf.
    assert (h1 ⊆ blk m) as Hs1 by (rewrite Hb -assoc_L; apply map_union_subseteq_l).
    assert (h2 ⊆ blk m) as Hs2.
    { rewrite Hb. etrans; [by apply map_union_subseteq_r|apply map_union_subseteq_l]. }
    split; [done|]. split; [apply descend_belongs; constructor|].
    unfold torn in H1. apply (torn_heap _ _ _ x) in H1 as [Hnd' ->]. split; [|split].
    - apply rawheap_torn; [done|]. by rewrite Hf.
    - by eapply tobj_holds.
    - intros l. rewrite elem_of_app lookup_union_is_Some -(tobj_cells _ _ _ H2).
      pose proof (rawheap_dom key this (descend (key x) t []) n x (least t) (length (nodes t)) l) as Hr.
      pose proof (cells_fill key comp Hsw this (descend (key x) t []) n x l) as Hr'. rewrite Hf in Hr'. tauto.
  Qed.
  Lemma good_N m : mem_wf m → no_fail (aorc m) → good mN m.
  Proof using. intros Hw Ha. split; [done|]. split; [done|]. by intros [=]. Qed.
  Lemma fill_all this other t0 j co q x m h hf :
    same_ok key eqn t0 → tgood t0 → good mN m → blk m = h ∪ hf → h ##ₘ hf → (tobj this E ∗ tobj other t0)%I h →
    corc m = replicate j false ++ true :: co → nodes t0 !! (j / 2) = Some (q, x) →
    ∃ m' h' t' n, t_fill key comp eqn this other m = Exn CopyThrow m' ∧
      tgood t' ∧ (nodes t').*2 = take (j / 2) (nodes t0).*2 ∧ search (key x) t' = None ∧
      (torn this t' x n ∗ tobj other t0)%I h' ∧ h' ##ₘ hf ∧ blk m' = h' ∪ hf.
  Proof using Hsw.
    intros Hs Hg0 Hg Hb Hd HP Hc Hx. destruct (throws_pair j co) as (c & Ec & H2). rewrite Ec in Hc.
    pose proof HP as (h1 & h2 & Eh & Hd12 & HP1 & HP2)%hprop_sep_eq.
    assert (h2 ⊆ blk m) as Hs2.
    { rewrite Hb Eh. etrans; [by apply map_union_subseteq_r|apply map_union_subseteq_l]. }
    unfold t_fill, bind. destruct (tobj_holds _ _ _ _ HP2 Hs2) as [Hh _]. rewrite (c32_begin m other t0 Hh). unfold with_fuel.
    assert (length (nodes t0) < S (size (blk m))) as Hlen.
    { pose proof (proj1 (hprop_entails_eq _ _) (sz_W other t0 _ _) _ HP2) as Hz. change (S (length (nodes t0)) ≤ size h2) in Hz.
      rewrite Hb map_size_disj_union // Eh map_size_disj_union //. lia. }
    destruct (fill_throws (j / 2) (S (size (blk m))) c this other E t0 [] (nodes t0) q x m h hf) as (m' & h' & t' & n & El & Hrest); try done.
    - apply good_E.
    - by exists m', h', t', n.
  Qed.

  Lemma c126_copy m other t0 j co :
    iter_ok comp eqn → mem_wf m → no_fail (aorc m) → t_holds m other t0 → increasing key comp (nodes t0).*2 → red_black t0 →
    corc m = replicate j false ++ true :: co → j < 2 * length (nodes t0) →
    t_copy key comp eqn other m = UB.
  Proof using Hsw.
    intros Hit Hw Ha Hh Hi Hr Hc Hj.
    assert (same_ok key eqn t0) as Hsame.
    { apply (same_ok_good key comp Hsw eqn); [done..|]. by destruct Hh as [[_ ?]%NoDup_cons _]. }
    apply t_holds_heap in Hh as [Hnd Hs].
    destruct (lookup_lt_is_Some_2 (nodes t0) (j / 2)) as [[q x] Hx]; [apply Nat.div_lt_upper_bound; lia|].
    unfold t_copy. assert (emp ⊢ wp mN (t_new (X:=X)) (λ this, tobj this E) (λ _, False))%I as Hwp.
    { iIntros "_". iApply wp_t_new. by iIntros (this) "$". }
    pose proof (wp_frame_adequate _ _ _ _ _ m ∅ (blk m) Hwp (good_N _ Hw Ha)) as H. feed specialize H.
    { by rewrite left_id_L. } { apply map_disjoint_empty_l. } { by apply hprop_emp_eq. }
    unfold bind at 1. pose proof (nc_new_t m) as Hcc.
    destruct (t_new m) as [this m1|e m1| |]; [| |done|done].
    2: { by destruct H as (_ & ? & _ & _ & []). }
    destruct H as (Hg1 & h1 & Hd1 & Hb1 & HP1). set (h2 := theap other t0) in *.
    destruct (fill_all this other t0 j co q x m1 (h1 ∪ h2) (blk m ∖ h2)) as (m' & h' & t' & n & El & _ & _ & Es & HP' & Hd' & Hb');
      [done|done|done| | | |congruence|done|].
    - by rewrite Hb1 -assoc_L map_difference_union.
    - apply map_disjoint_union_l. split; [|by apply map_disjoint_difference_r].
      eapply map_disjoint_weaken_r; [done|]. by apply map_subseteq_difference_l.
    - apply hprop_sep_eq. exists h1, h2. split; [done|]. split; [by eapply map_disjoint_weaken_r|]. split; [done|].
      by apply theap_exact.
    - destruct (torn_inv _ _ _ _ _ _ m' _ _ Es HP' Hd' Hb') as (_ & _ & Ht & _).
      apply t_bind_ub. unfold on_throw, catch. rewrite El. apply t_bind_ub. by eapply torn_dtor.
  Qed.
  Lemma c126_assign m this t other t0 j co q x :
    iter_ok comp eqn → mem_wf m → no_fail (aorc m) → t_holds m this t → t_holds m other t0 →
    increasing key comp (nodes t0).*2 → red_black t0 →
    (∀ l, l ∈ t_cells this t → l ∉ t_cells other t0) →
    corc m = replicate j false ++ true :: co → nodes t0 !! (j / 2) = Some (q, x) →
    ∃ m' zs n, t_assign key comp eqn this other m = Exn CopyThrow m' ∧
      (nodes (fill zs E)).*2 = take (j / 2) (nodes t0).*2 ∧ red_black (fill zs E) ∧ belongs key comp (key x) zs ∧
      t_torn m' this zs n x ∧ t_holds m' other t0 ∧
      replaces (t_cells this t ++ t_cells other t0) m ((n :: t_cells this (fill zs E)) ++ t_cells other t0) m'.
  Proof using Hsw.
    intros Hit Hw Ha Hh Hh' Hi Hr Hap Hc Hx.
    assert (same_ok key eqn t0) as Hsame.
    { apply (same_ok_good key comp Hsw eqn); [done..|]. by destruct Hh' as [[_ ?]%NoDup_cons _]. }
    apply t_holds_heap in Hh as [Hnd Hs1]. apply t_holds_heap in Hh' as [Hnd' Hs2].
    set (h1 := theap this t) in *. set (h2 := theap other t0) in *.
    assert (h1 ##ₘ h2) as Hd12.
    { apply map_disjoint_spec. intros l c1 c2 H1 H2. apply (Hap l); apply theap_dom; eauto. }
    assert (h1 ∪ h2 ⊆ blk m) as Hs12 by by apply map_union_least.
    set (hf := blk m ∖ (h1 ∪ h2)).
    assert (blk m = (h1 ∪ h2) ∪ hf) as Hb by (symmetry; by apply map_difference_union).
    assert (h1 ∪ h2 ##ₘ hf) as Hd by by apply map_disjoint_difference_r.
    assert (tobj this t ∗ tobj other t0 ⊢ wp mN (t_clear (X:=X) this) (λ _, tobj this E ∗ tobj other t0) (λ _, False))%I as Hwp.
    { iIntros "[H G]". iApply (wp_t_clear with "H"). iIntros "H". by iFrame. }
    pose proof (wp_frame_adequate _ _ _ _ _ m (h1 ∪ h2) hf Hwp (good_N _ Hw Ha) Hb Hd) as H. feed specialize H.
    { apply hprop_sep_eq. exists h1, h2. split; [done|]. split; [done|]. split; by apply theap_exact. }
    pose proof (nc_t_clear this m) as Hcc. unfold t_assign, bind.
    destruct (t_clear this m) as [[] m1|e m1| |]; [| |done|done].
    2: { by destruct H as (_ & ? & _ & _ & []). }
    destruct H as (Hg1 & h3 & Hd3 & Hb3 & HP3).
    destruct (fill_all this other t0 j co q x m1 h3 hf) as (m' & h' & t' & n & El & [_ Hr'] & Hz & Es & HP' & Hd' & Hb');
      [done..|congruence|done|].
    destruct (torn_inv _ _ _ _ _ _ m' _ _ Es HP' Hd' Hb') as (Hf & Hbel & Ht & Hho & Hdom).
    exists m', (descend (key x) t' []), n. rewrite Hf. do 6 (split; [done|]).
    eapply owned_replaces; [exact Hs12| |exact Hdom|exact Hd'|exact Hb'].
    intros l. rewrite elem_of_app !theap_dom lookup_union_is_Some //.
  Qed.
End build.
