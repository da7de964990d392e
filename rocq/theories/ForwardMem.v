(** forward_lists as memories: [f_holds] and the separation-logic predicate. *)
From iris.proofmode Require Import tactics.
From Verif Require Import HistGen ModelForward SpecForward ForwardProofs ForwardHist.

Section mem.
  Context {V : Type}.
  Implicit Types (nvs xs ys : list (loc * V)) (m : mem (fcell V)).

  Fixpoint sheap nvs (e : option loc) : gmap loc (fcell V) :=
    match nvs with
    | [] => ∅
    | (n, v) :: r => <[n := FNode (ffirst r e) (Some v)]> (sheap r e)
    end.
  Definition fheap (this : loc) nvs : gmap loc (fcell V) :=
    <[this := FHead (ffirst nvs None)]> (sheap nvs None).

  Lemma sheap_dom nvs e l : is_Some (sheap nvs e !! l) ↔ l ∈ nvs.*1.
  Proof.
    induction nvs as [|[n v] r IH]; simpl.
    - rewrite lookup_empty. split; [by intros []|by intros ?%elem_of_nil].
    - rewrite lookup_insert_is_Some' IH elem_of_cons. naive_solver.
  Qed.
  Lemma sheap_exact nvs e : NoDup nvs.*1 → exact (fls nvs e) (sheap nvs e).
  Proof.
    induction nvs as [|[n v] r IH]; intros Hnd; simpl; [apply exact_emp|].
    rewrite fmap_cons NoDup_cons in Hnd. destruct Hnd as [Hn Hnd]. rewrite insert_union_singleton_l.
    apply exact_sep; [apply exact_pt|by apply IH|].
    apply map_disjoint_singleton_l, eq_None_not_Some. by rewrite sheap_dom.
  Qed.
  Lemma fheap_exact this nvs : NoDup (this :: nvs.*1) → exact (fobj this nvs) (fheap this nvs).
  Proof.
    rewrite NoDup_cons. intros [Hn Hnd]. rewrite /fheap insert_union_singleton_l.
    apply exact_sep; [apply exact_pt|by apply sheap_exact|].
    apply map_disjoint_singleton_l, eq_None_not_Some. by rewrite sheap_dom.
  Qed.
  Lemma fheap_dom this nvs l : l ∈ f_cells this nvs ↔ is_Some (fheap this nvs !! l).
  Proof. rewrite /fheap lookup_insert_is_Some' sheap_dom /f_cells elem_of_cons. naive_solver. Qed.
  Lemma sheap_lookup xs n v ys e :
    NoDup (xs ++ (n, v) :: ys).*1 →
    sheap (xs ++ (n, v) :: ys) e !! n = Some (FNode (ffirst ys e) (Some v)).
  Proof.
    induction xs as [|[x vx] xs IH]; intros Hnd; simpl.
    - by rewrite lookup_insert.
    - rewrite -app_comm_cons fmap_cons NoDup_cons in Hnd. destruct Hnd as [Hx Hnd]. rewrite lookup_insert_ne.
      + by apply IH.
      + intros ->. apply Hx. rewrite fmap_app fmap_cons. set_solver.
  Qed.
  Lemma f_holds_heap m this nvs :
    f_holds m this nvs ↔ NoDup (this :: nvs.*1) ∧ fheap this nvs ⊆ blk m.
  Proof.
    split.
    - intros (Hnd & Ht & Hn). split; [done|]. apply map_subseteq_spec. intros l c Hl.
      rewrite /fheap in Hl. apply lookup_insert_Some in Hl as [[<- <-]|[Hne Hl]]; [done|].
      assert (l ∈ nvs.*1) as Hin by by eapply sheap_dom.
      apply elem_of_list_fmap in Hin as ([n v] & -> & Hin). apply elem_of_list_split in Hin as (xs & ys & ->).
      rewrite sheap_lookup in Hl; [|by apply NoDup_cons in Hnd as [_ ?]]. simplify_eq. by eapply Hn.
    - intros [Hnd Hs]. split; [done|]. split.
      + eapply lookup_weaken; [|exact Hs]. apply lookup_insert.
      + intros xs n v ys ->. eapply lookup_weaken; [|exact Hs]. rewrite /fheap lookup_insert_ne.
        * apply sheap_lookup. by apply NoDup_cons in Hnd as [_ ?].
        * intros ->. apply NoDup_cons in Hnd as [Hni _]. apply Hni. rewrite fmap_app fmap_cons. set_solver.
  Qed.
  Lemma fobj_holds this nvs h m : fobj this nvs h → h ⊆ blk m → f_holds m this nvs ∧ h = fheap this nvs.
  Proof.
    intros Hl Hs. assert (NoDup (this :: nvs.*1)) as Hnd.
    { apply (proj1 (hprop_entails_eq _ _) (fobj_nodup this nvs)) in Hl. done. }
    apply (fheap_exact _ _ Hnd) in Hl as ->. split; [|done]. by apply f_holds_heap.
  Qed.
  Lemma fobj_cells this nvs h : fobj this nvs h → ∀ l, l ∈ f_cells this nvs ↔ is_Some (h !! l).
  Proof.
    intros Hl l. destruct (fobj_holds _ _ _ (Mem h 1%positive [] []) Hl) as [_ ->]; [done|]. apply fheap_dom.
  Qed.
  Lemma sheap_size nvs e : NoDup nvs.*1 → size (sheap nvs e) = length nvs.
  Proof.
    induction nvs as [|[n v] r IH]; intros Hnd; simpl; [by rewrite map_size_empty|].
    rewrite fmap_cons NoDup_cons in Hnd. destruct Hnd as [Hn Hnd].
    rewrite map_size_insert_None; [|apply eq_None_not_Some; by rewrite sheap_dom]. by rewrite IH.
  Qed.
  Lemma fls_size nvs e h : fls nvs e h → size h = length nvs.
  Proof.
    intros Hl. assert (NoDup nvs.*1) as Hnd.
    { apply (proj1 (hprop_entails_eq _ _) (fls_nodup nvs e)) in Hl. done. }
    apply (sheap_exact _ _ Hnd) in Hl as ->. by apply sheap_size.
  Qed.
  Lemma fobj_size this nvs h : fobj this nvs h → size h = S (length nvs).
  Proof.
    intros Hl. assert (NoDup (this :: nvs.*1)) as Hnd.
    { apply (proj1 (hprop_entails_eq _ _) (fobj_nodup this nvs)) in Hl. done. }
    apply (fheap_exact _ _ Hnd) in Hl as ->. apply NoDup_cons in Hnd as [Hn Hnd].
    rewrite /fheap map_size_insert_None; [|apply eq_None_not_Some; by rewrite sheap_dom]. by rewrite sheap_size.
  Qed.

  (** calls on one list *)
  Lemma f_run_to {A} m this nvs (f : M (fcell V) A) (nvs' : loc → list (loc * V)) (post : A → loc → Prop) :
    may_fail_alloc m → f_holds m this nvs →
    (fobj this nvs ⊢ wp mT f (λ a, ∃ x, ⌞post a x⌟ ∗ fobj this (nvs' x)) (unch mT (fobj this nvs))) →
    runs_to m (f_cells this nvs) (f m) (λ a m' new, ∃ x : loc,
      (post a x ∧ f_holds m' this (nvs' x)) ∧ new = f_cells this (nvs' x)).
  Proof.
    intros Hm [Hnd Hs]%f_holds_heap Hw.
    eapply (run_to (fobj this nvs) (fheap this nvs) m _ f
             (λ a x, ⌞post a x⌟ ∗ fobj this (nvs' x))%I (λ a x, f_cells this (nvs' x))
             (λ a x m', post a x ∧ f_holds m' this (nvs' x))); [done|by apply fheap_exact|done|apply fheap_dom| |].
    - intros a x h' m' [Hp Hl]%pure_sep_inv Hs'. split; [split; [done|]; by eapply fobj_holds|].
      by apply fobj_cells.
    - etrans; [exact Hw|]. apply wp_mono; [done|]. intros e. iIntros "[[-> _] $]". done.
  Qed.
  Lemma f_run_quiet {A} m this nvs (f : M (fcell V) A) a nvs' md :
    good md m → f_holds m this nvs →
    (fobj this nvs ⊢ wp md f (λ b, ⌞b = a⌟ ∗ fobj this nvs') (λ _, False)) →
    ∃ m', f m = Ok a m' ∧ good md m' ∧ f_holds m' this nvs' ∧
      replaces (f_cells this nvs) m (f_cells this nvs') m'.
  Proof.
    intros Hm [Hnd Hs]%f_holds_heap Hw.
    pose proof (run_exact _ _ _ _ _ _ _ Hm (fheap_exact _ _ Hnd) Hs Hw) as H.
    destruct (f m) as [b m'|e m'| |]; [| |done..].
    - destruct H as (Hm' & h' & [-> Hl]%pure_sep_inv & Hd & Hb). exists m'. split; [done|]. split; [done|].
      split.
      + eapply fobj_holds; [done|]. rewrite Hb. apply map_union_subseteq_l.
      + eapply owned_replaces; [exact Hs|apply fheap_dom|by apply fobj_cells|done|done].
    - by destruct H as (_ & h' & [] & _).
  Qed.
End mem.
