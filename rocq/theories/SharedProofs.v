(** shared_ptr: the model does what the specification says. *)
From iris.proofmode Require Import tactics.
From stdpp Require Import fin_sets infinite.
From Verif Require Import SLTac HistGen HistThrowProofs ModelShared SpecShared.

Section owners.
  Implicit Types (hs : gmap nat (option (nat * option nat))) (x : option (nat * option nat)).
  Definition one g x : nat := if decide (in_group g x) then 1 else 0.
  Lemma owners_new hs h x g : hs !! h = None → owners (<[h := x]> hs) g = one g x + owners hs g.
  Proof.
    intros Hh. unfold owners, one. case_decide as Hg.
    - rewrite map_filter_insert_True //. rewrite map_size_insert_None; [done|]. by rewrite map_filter_lookup_None; left.
    - rewrite map_filter_insert_False //. rewrite delete_notin //.
  Qed.
  Lemma owners_delete hs h x g : hs !! h = Some x → owners hs g = one g x + owners (delete h hs) g.
  Proof.
    intros Hh. rewrite -(owners_new _ h); [|by rewrite lookup_delete]. by rewrite insert_delete.
  Qed.
  Lemma owners_replace hs h x y g : hs !! h = Some x → one g x + owners (<[h := y]> hs) g = one g y + owners hs g.
  Proof.
    intros Hh. rewrite (owners_delete hs h x g Hh). rewrite -(insert_delete_insert hs h y).
    rewrite (owners_new _ h); [lia|by rewrite lookup_delete].
  Qed.
  Lemma owners_zero hs g h x : owners hs g = 0 → hs !! h = Some x → ¬ in_group g x.
  Proof.
    intros Hz Hh Hg. rewrite (owners_delete hs h x g Hh) /one decide_True // in Hz.
  Qed.
  Lemma owners_none hs g : (∀ h x, hs !! h = Some x → ¬ in_group g x) → owners hs g = 0.
  Proof.
    intros H. unfold owners. rewrite map_size_empty_iff. apply map_filter_empty_iff. exact H.
  Qed.
  Lemma one_some g g' o : one g (Some (g', o)) = if decide (g' = g) then 1 else 0.
  Proof. done. Qed.
  Lemma one_none g : one g None = 0.
  Proof. done. Qed.
End owners.

Local Arguments s_ctrl : simpl never.
Local Arguments s_set_count : simpl never.
Section proofs.
  Context {T : Type} (md : mode).
  Notation hp := (hprop (scell T)).

  Lemma wp_s_construct (vs : list T) (Q : unit → hp) R :
    ((∀ e, ⌜throws md e⌝ → R e) ∧ Q tt) -∗ wp md (s_construct vs) Q R.
  Proof using.
    iInduction vs as [|v vs] "IH"; iIntros "HQ"; simpl.
    - wret. by iDestruct "HQ" as "[_ $]".
    - wbind. iApply wp_may_throw_any. iSplit; [by iDestruct "HQ" as "[$ _]"|]. by iApply "IH".
  Qed.
  Lemma wp_s_new_obj k vs (Q : loc → hp) R :
    ((∀ e, ⌜throws md e⌝ → R e) ∧ (∀ l, l ↦ SObj k vs -∗ Q l)) -∗ wp md (s_new_obj k vs) Q R.
  Proof using.
    iIntros "HQ". rewrite /s_new_obj. wbind. iApply wp_alloc_any. iSplit.
    - by iDestruct "HQ" as "[$ _]".
    - iIntros (l) "H". wbind. iApply wp_on_throw. iApply wp_s_construct. iSplit.
      + iIntros (e He). iApply (wp_free' with "H"). iIntros "_". iDestruct "HQ" as "[HQ _]". by iApply "HQ".
      + iDestruct "HQ" as "[_ HQ]". wret. by iApply "HQ".
  Qed.
  Lemma wp_s_obj l k vs (Q : okind * list T → hp) R : l ↦ SObj k vs -∗ (l ↦ SObj k vs -∗ Q (k, vs)) -∗ wp md (s_obj l) Q R.
  Proof using. iIntros "H HQ". rewrite /s_obj. wstep wp_load' "H". wret. by iApply "HQ". Qed.
  Lemma wp_s_elem l i k vs v (Q : T → hp) R : elem i (k, vs) = Some v →
    l ↦ SObj k vs -∗ (l ↦ SObj k vs -∗ Q v) -∗ wp md (s_elem l i) Q R.
  Proof using.
    iIntros (Hv) "H HQ". rewrite /s_elem. wstep wp_s_obj "H". rewrite /elem /= in Hv.
    case_decide as Hi; [|done]. rewrite (proj2 (Z.leb_le 0 i) Hi) /= Hv. wret. by iApply "HQ".
  Qed.
  Lemma wp_s_set_elem l i k vs v v' (Q : unit → hp) R : elem i (k, vs) = Some v →
    l ↦ SObj k vs -∗ (l ↦ SObj k (set_elem i v' (k, vs)).2 -∗ Q tt) -∗ wp md (s_set_elem l i v') Q R.
  Proof using.
    iIntros (Hv) "H HQ". rewrite /s_set_elem. wbind. iApply (wp_s_elem with "H"); [done|]. iIntros "H".
    wstep wp_s_obj "H". by iApply (wp_store' with "H").
  Qed.
  Lemma wp_s_delete_obj l k vs (Q : unit → hp) R : l ↦ SObj k vs -∗ (emp -∗ Q tt) -∗ wp md (s_delete_obj k l) Q R.
  Proof using. iIntros "H HQ". rewrite /s_delete_obj. wstep wp_s_obj "H". rewrite decide_True //. by iApply (wp_free' with "H"). Qed.
  Lemma wp_s_handle l p c (Q : ptr * ptr → hp) R :
    l ↦ SHandle p c -∗ (l ↦ SHandle p c -∗ Q (p, c)) -∗ wp md (s_handle l) Q R.
  Proof using. iIntros "H HQ". rewrite /s_handle. wstep wp_load' "H". wret. by iApply "HQ". Qed.
  Lemma wp_s_ctrl l n p d (Q : Z * ptr * deleter T → hp) R :
    l ↦ SCtrl n p d -∗ (l ↦ SCtrl n p d -∗ Q (n, p, d)) -∗ wp md (s_ctrl (Some l)) Q R.
  Proof using. iIntros "H HQ". rewrite /s_ctrl. wstep wp_load' "H". wret. by iApply "HQ". Qed.
  Lemma wp_s_set_count l n n' p d (Q : unit → hp) R :
    l ↦ SCtrl n p d -∗ (l ↦ SCtrl n' p d -∗ Q tt) -∗ wp md (s_set_count (Some l) n') Q R.
  Proof using. iIntros "H HQ". rewrite /s_set_count. wstep wp_s_ctrl "H". by iApply (wp_store' with "H"). Qed.
  Lemma wp_s_incr l n p d (Q : unit → hp) R :
    l ↦ SCtrl n p d -∗ (l ↦ SCtrl (n + 1) p d -∗ Q tt) -∗ wp md (s_incr (Some l)) Q R.
  Proof using. iIntros "H HQ". rewrite /s_incr. wstep wp_s_ctrl "H". by iApply (wp_s_set_count with "H"). Qed.
  Lemma wp_s_from p d (Q : loc → hp) R :
    ((∀ e, ⌜throws md e⌝ → R e) ∧ (∀ l c, l ↦ SHandle p (Some c) -∗ c ↦ SCtrl 1 p d -∗ Q l)) -∗ wp md (s_from p d) Q R.
  Proof using.
    iIntros "HQ". rewrite /s_from. wbind. iApply wp_alloc_any. iSplit.
    - by iDestruct "HQ" as "[$ _]".
    - iDestruct "HQ" as "[_ HQ]". iIntros (c) "Hc". iApply wp_new'. iIntros (l) "Hl". iApply ("HQ" with "Hl Hc").
  Qed.
  Lemma wp_s_copy l p c n p' d (Q : loc → hp) R :
    l ↦ SHandle p (Some c) -∗ c ↦ SCtrl n p' d -∗
    (∀ l', l ↦ SHandle p (Some c) -∗ c ↦ SCtrl (n + 1) p' d -∗ l' ↦ SHandle p (Some c) -∗ Q l') -∗
    wp md (s_copy l) Q R.
  Proof using.
    iIntros "H Hc HQ". rewrite /s_copy. wstep wp_s_handle "H". wbind. iApply wp_new'. iIntros (l') "H'". simpl.
    wstep wp_s_incr "Hc". wret. iApply ("HQ" with "H Hc H'").
  Qed.
  Lemma wp_s_alias l p q c n p' d (Q : loc → hp) R :
    l ↦ SHandle p (Some c) -∗ c ↦ SCtrl n p' d -∗
    (∀ l', l ↦ SHandle p (Some c) -∗ c ↦ SCtrl (n + 1) p' d -∗ l' ↦ SHandle q (Some c) -∗ Q l') -∗
    wp md (s_alias l q) Q R.
  Proof using.
    iIntros "H Hc HQ". rewrite /s_alias. wstep wp_s_handle "H". wbind. iApply wp_new'. iIntros (l') "H'". simpl.
    wstep wp_s_incr "Hc". wret. iApply ("HQ" with "H Hc H'").
  Qed.

  (** ** The whole state *)
  Implicit Types (e : senv) (s : sstate T) (hs : gmap nat (option (nat * option nat))).
  Implicit Types (eo eg : gmap nat loc) (os : gmap nat (option (okind * list T))).
  Definition sptr eo (x : option nat) : ptr := x ≫= (λ o, eo !! o).
  Definition hcell eo eg (x : option (nat * option nat)) : scell T :=
    match x with None => SHandle None None | Some (g, o) => SHandle (sptr eo o) (eg !! g) end.
  Lemma hcell_inv eo eg x : ∃ c, hcell eo eg x = SHandle (sptr eo (s_target x)) c.
  Proof using. destruct x as [[]|]; simpl; eauto. Qed.
  Definition hrep eo eg (l : loc) (x : option (nat * option nat)) : hp :=
    (l ↦ hcell eo eg x)%I.
  Definition crep eo (l : loc) (x : nat * (option nat * deleter T)) : hp :=
    (l ↦ SCtrl (Z.of_nat x.1) (sptr eo x.2.1) x.2.2)%I.
  Definition orep (l : loc) (v : option (okind * list T)) : hp := match v with Some v => l ↦ SObj v.1 v.2 | None => emp end%I.
  Definition counted hs (gs : gmap nat (option nat * deleter T)) : gmap nat (nat * (option nat * deleter T)) :=
    map_imap (λ g od, Some (owners hs g, od)) gs.
  Record sinv hs (gs : gmap nat (option nat * deleter T)) os : Prop := {
    si_pos : ∀ g, is_Some (gs !! g) → 0 < owners hs g;
    si_grp : ∀ h g o, hs !! h = Some (Some (g, o)) → is_Some (gs !! g);
    si_obj : ∀ h g o, hs !! h = Some (Some (g, Some o)) → is_Some (os !! o);
    si_own : ∀ g o d, gs !! g = Some (Some o, d) → is_Some (os !! o);
  }.
  Definition srep e s : hp :=
    (∃ eg, ⌞sinv (s_hs s) (s_gs s) (s_os s)⌟ ∗ objs (hrep e.2 eg) e.1 (s_hs s) ∗
       objs (crep e.2) eg (counted (s_hs s) (s_gs s)) ∗ objs orep e.2 (s_os s))%I.

  Lemma counted_lookup hs gs g : counted hs gs !! g = (λ od, (owners hs g, od)) <$> gs !! g.
  Proof using. unfold counted. rewrite map_lookup_imap. by destruct (gs !! g). Qed.
  Lemma counted_eq hs gs cs : (∀ g, cs !! g = (λ od, (owners hs g, od)) <$> gs !! g) → cs = counted hs gs.
  Proof using. intros H. apply map_eq. intros g. by rewrite H counted_lookup. Qed.
  (** one group's count changes *)
  Lemma counted_upd hs hs' gs g od : gs !! g = Some od →
    (∀ g', g' ≠ g → owners hs' g' = owners hs g') →
    counted hs' gs = <[g := (owners hs' g, od)]> (counted hs gs).
  Proof using.
    intros Hg Ho. symmetry. apply counted_eq. intros g'. destruct (decide (g = g')) as [->|Hne].
    - by rewrite lookup_insert Hg.
    - rewrite lookup_insert_ne // counted_lookup Ho //.
  Qed.
  Lemma counted_same hs hs' gs : (∀ g, owners hs' g = owners hs g) → counted hs' gs = counted hs gs.
  Proof using. intros H. apply counted_eq. intros g. by rewrite counted_lookup H. Qed.

  Lemma os_doms eo os : objs orep eo os ⊢ ⌜∀ o, is_Some (eo !! o) ↔ is_Some (os !! o)⌝.
  Proof using. rewrite /objs. iIntros "H". iDestruct (big_sepM2_lookup_iff with "H") as %H. done. Qed.
  Lemma hs_ext eo eo' eg eg' eh hs :
    (∀ h g o, hs !! h = Some (Some (g, o)) → sptr eo' o = sptr eo o ∧ eg' !! g = eg !! g) →
    objs (hrep eo eg) eh hs ⊢ objs (hrep eo' eg') eh hs.
  Proof using.
    intros H. rewrite /objs. apply big_sepM2_mono. intros h l [[g o]|] _ Hx; rewrite /hrep /=; [|done].
    by destruct (H _ _ _ Hx) as [-> ->].
  Qed.
  Lemma cs_ext eo eo' eg cs :
    (∀ g x, cs !! g = Some x → sptr eo' x.2.1 = sptr eo x.2.1) → objs (crep eo) eg cs ⊢ objs (crep eo') eg cs.
  Proof using.
    intros H. rewrite /objs. apply big_sepM2_mono. intros g l x _ Hx; rewrite /crep. by rewrite (H _ _ Hx).
  Qed.
  Lemma alive_lookup s o v : s_alive s o = Some v ↔ s_os s !! o = Some (Some v).
  Proof using. unfold s_alive. destruct (s_os s !! o) as [[?|]|]; naive_solver. Qed.
  (** live objects have different addresses *)
  Lemma os_inj eo os x y :
    (∀ o, x = Some o → ∃ v, os !! o = Some (Some v)) → (∀ o, y = Some o → ∃ v, os !! o = Some (Some v)) →
    objs orep eo os ⊢ ⌜sptr eo x = sptr eo y ↔ x = y⌝.
  Proof using.
    iIntros (Hx Hy) "H". iDestruct (os_doms with "H") as %Hd.
    destruct x as [o|], y as [o'|]; simpl.
    - destruct (Hx o eq_refl) as [v Hv], (Hy o' eq_refl) as [v' Hv'].
      destruct (decide (o = o')) as [->|Hne]; [by iPureIntro|].
      iDestruct (objs_acc2 with "H") as (l l' [Hl Hl']) "(H1 & H2 & _)"; [done..|]. simpl.
      iDestruct (pt_ne with "H1 H2") as %Hn. iPureIntro. rewrite Hl Hl'. split; congruence.
    - iPureIntro. destruct (Hx o eq_refl) as [v Hv]. destruct (proj2 (Hd o)) as [l ->]; [by eexists|]. done.
    - iPureIntro. destruct (Hy o' eq_refl) as [v Hv]. destruct (proj2 (Hd o')) as [l ->]; [by eexists|]. done.
    - by iPureIntro.
  Qed.
  Lemma usable_alive s o : usable s (Some o) → ∃ v, s_os s !! o = Some (Some v).
  Proof using. intros [v Hv]. exists v. by apply alive_lookup. Qed.

  Lemma wp_remove eo os os' k o (Q : unit → hp) R :
    remove k o os = Some os' → objs orep eo os -∗ (objs orep eo os' -∗ Q tt) -∗
    ∃ l, ⌞eo !! o = Some l⌟ ∗ wp md (s_delete_obj k l) Q R.
  Proof using.
    iIntros (Hd) "H HQ". unfold remove in Hd. destruct (os !! o) as [[[k' vs]|]|] eqn:Ho; try done. simpl in Hd.
    case_decide as Hk; [|done]. subst k'. injection Hd as <-.
    iDestruct (objs_acc with "H") as (l Hl) "[Hv H]"; [done|]. iExists l. iSplitR; [done|].
    iApply (wp_s_delete_obj with "Hv"). iIntros "E". iApply "HQ". iApply ("H" $! None with "E").
  Qed.
  Lemma wp_dispose eo os os' o d (Q : unit → hp) R :
    dispose false o d os = Some os' → objs orep eo os -∗ (objs orep eo os' -∗ Q tt) -∗
    wp md (s_run_deleter (sptr eo o) d) Q R.
  Proof using.
    iIntros (Hd) "H HQ". destruct d as [[]| |y ty f], o as [o|]; simpl in Hd |- *; try done.
    - iDestruct (wp_remove with "H HQ") as (l Hl) "H"; [done|]. by rewrite Hl.
    - injection Hd as <-. wret. by iApply "HQ".
    - injection Hd as <-. wret. by iApply "HQ".
    - iDestruct (wp_remove with "H HQ") as (l Hl) "H"; [done|]. by rewrite Hl.
    - injection Hd as <-. wret. by iApply "HQ".
    - destruct (os !! o) as [[[k vs]|]|] eqn:Ho; try done. destruct (elem 0 (k, vs)) as [v|] eqn:Ev; [|done]. injection Hd as <-.
      iDestruct (objs_acc with "H") as (l Hl) "[Hv H]"; [done|]. rewrite Hl. wbind. iApply (wp_s_elem with "Hv"); [done|]. iIntros "Hv".
      iApply (wp_s_set_elem with "Hv"); [done|]. iIntros "E". iApply "HQ". iApply ("H" $! (Some (set_elem 0 (f v) (k, vs))) with "E").
  Qed.
  Lemma remove_dom k o os os' : remove k o os = Some os' → ∀ n, is_Some (os !! n) → is_Some (os' !! n).
  Proof using.
    unfold remove. intros Hd n Hn. destruct (os !! o) as [[x|]|] eqn:Ho; try done. case_decide; [|done]. injection Hd as <-.
    destruct (decide (o = n)) as [->|]; [by rewrite lookup_insert|by rewrite lookup_insert_ne].
  Qed.
  Lemma dispose_dom full o d os os' : dispose full o d os = Some os' → ∀ k, is_Some (os !! k) → is_Some (os' !! k).
  Proof using.
    intros Hd k Hk. destruct d as [[]| |y ty f], o as [o|]; simpl in Hd; try done; try (by injection Hd as <-);
      try (by eapply remove_dom); try (by destruct full; [eapply remove_dom|]).
    destruct (os !! o) as [[x|]|] eqn:Ho; try done. destruct (elem 0 x) as [v|]; [|done]. injection Hd as <-.
    destruct (decide (o = k)) as [->|]; [by rewrite lookup_insert|by rewrite lookup_insert_ne].
  Qed.

  Lemma wp_obj' {A} (e : gmap nat loc) h l (k : loc → M (scell T) A) (Q : A → hp) R :
    e !! h = Some l → wp md (k l) Q R -∗ wp md (l <- obj e h ;; k l) Q R.
  Proof using. iIntros (H) "HQ". wbind. iApply wp_obj; [done|]. done. Qed.
  Lemma wp_raw' {A} eo (o : option nat) (k : ptr → M (scell T) A) (Q : A → hp) R :
    (∀ o', o = Some o' → is_Some (eo !! o')) → wp md (k (sptr eo o)) Q R -∗ wp md (p <- s_raw eo o ;; k p) Q R.
  Proof using.
    iIntros (H) "HQ". destruct o as [o|]; simpl.
    - destruct (H o eq_refl) as [l Hl]. rewrite Hl. wbind. wbind. iApply wp_obj; [done|]. wret. done.
    - wbind. wret. done.
  Qed.

  (** joining a group *)
  Lemma sinv_join hs gs os h g o o' g' : sinv hs gs os → hs !! h = None → hs !! g' = Some (Some (g, o')) →
    (∀ k, o = Some k → is_Some (os !! k)) → sinv (<[h := Some (g, o)]> hs) gs os.
  Proof using.
    intros [H1 H2 H3 H4] Hh Hg Ho. split.
    - intros k Hk. rewrite owners_new //. specialize (H1 k Hk). lia.
    - intros k k' o''. rewrite lookup_insert_Some. naive_solver.
    - intros k k' o''. rewrite lookup_insert_Some. naive_solver.
    - done.
  Qed.
  Lemma counted_join hs gs h g o od : hs !! h = None → gs !! g = Some od →
    counted (<[h := Some (g, o)]> hs) gs = <[g := (S (owners hs g), od)]> (counted hs gs).
  Proof using.
    intros Hh Hg. rewrite (counted_upd hs _ gs g od) //.
    - rewrite owners_new // one_some decide_True //.
    - intros g' Hne. rewrite owners_new // one_some decide_False //.
  Qed.
  Lemma sinv_join_none hs gs os h : sinv hs gs os → hs !! h = None → sinv (<[h := None]> hs) gs os.
  Proof using.
    intros [H1 H2 H3 H4] Hh. split.
    - intros k Hk. rewrite owners_new //. specialize (H1 k Hk). lia.
    - intros k k' o''. rewrite lookup_insert_Some. naive_solver.
    - intros k k' o''. rewrite lookup_insert_Some. naive_solver.
    - done.
  Qed.
  Lemma counted_none hs gs h : hs !! h = None → counted (<[h := None]> hs) gs = counted hs gs.
  Proof using. intros Hh. apply counted_same. intros g. by rewrite owners_new. Qed.
  Lemma sinv_os hs gs os os' : sinv hs gs os → (∀ k, is_Some (os !! k) → is_Some (os' !! k)) → sinv hs gs os'.
  Proof using. intros [H1 H2 H3 H4] H. split; eauto. Qed.
  Lemma upd_dom os o v k : is_Some (os !! k) → is_Some (<[o := v]> os !! k).
  Proof using. intros. rewrite lookup_insert_is_Some. destruct (decide (o = k)); auto. Qed.
  Lemma usable_known s o k : usable s o → o = Some k → is_Some (s_os s !! k).
  Proof using. intros H ->. apply usable_alive in H as [v ->]. eauto. Qed.

  (** the group of a variable *)
  Lemma cs_acc eo eg hs gs os h g o : sinv hs gs os → hs !! h = Some (Some (g, o)) →
    objs (crep eo) eg (counted hs gs) ⊢ ∃ c od, ⌞eg !! g = Some c ∧ gs !! g = Some od⌟ ∗
      c ↦ SCtrl (Z.of_nat (owners hs g)) (sptr eo od.1) od.2 ∗
      (∀ n d, c ↦ SCtrl (Z.of_nat n) (sptr eo od.1) d -∗ objs (crep eo) eg (<[g := (n, (od.1, d))]> (counted hs gs))).
  Proof using.
    iIntros (Hi Hh) "H". destruct (si_grp _ _ _ Hi _ _ _ Hh) as [od Hg].
    iDestruct (objs_acc _ _ _ g (owners hs g, od) with "H") as (c Hc) "[Hc H]"; [by rewrite counted_lookup Hg|].
    iExists c, od. iSplitR; [done|]. iFrame "Hc". iIntros (n d) "Hc". by iApply ("H" $! (n, (od.1, d))).
  Qed.

  Lemma create_ok e s o k vs s' out : screate s o k vs = Some (s', out) →
    srep e s ⊢ wp md (s_create e o k vs) (λ r, ⌞r.2 = out⌟ ∗ srep r.1 s') (λ x, ⌞throws md x⌟ ∗ srep e s).
  Proof using.
    destruct e as [eh eo], s as [hs gs os]. unfold screate, s_create. simpl.
    destruct (os !! o) eqn:Eo; [done|]. intros [= <- <-]. iIntros "H". iDestruct "H" as (eg Hi) "(Hh & Hg & Ho)". simpl in *.
    iDestruct (objs_none with "Ho") as %Hn; [done|]. rewrite Hn. wbind. iApply wp_s_new_obj. iSplit.
    { iIntros (x HA). iSplitR; [done|]. iExists eg. simpl. by iFrame. }
    iIntros (l) "H". wret. iSplitR; [done|]. iExists eg. simpl.
    assert (∀ x, (∀ k, x = Some k → is_Some (os !! k)) → sptr (<[o := l]> eo) x = sptr eo x) as He.
    { intros [k'|] Hk; [|done]. simpl. rewrite lookup_insert_ne //. intros ->. destruct (Hk k' eq_refl) as [? ?]. congruence. }
    iSplitR; [iPureIntro; eapply sinv_os; [done|]; intros; by apply upd_dom|].
    iSplitL "Hh"; [|iSplitL "Hg"].
    + iApply (hs_ext with "Hh"). intros k' g x Hk. split; [|done]. apply He. intros k1 ->. by eapply si_obj.
    + iApply (cs_ext with "Hg"). intros g x. rewrite counted_lookup. intros ([xo xd] & Hg & ->)%fmap_Some. simpl.
      apply He. intros k1 ->. by eapply si_own.
    + iApply objs_add; [done|]. iFrame.
  Qed.
  Lemma s_read_eq l : s_read (T:=T) l = s_at l 0.
  Proof using. done. Qed.
  Lemma s_write_eq l v : s_write (T:=T) l v = s_put l 0 v.
  Proof using. done. Qed.
  Lemma read_ok e s h i s' out : sread s h i = Some (s', out) →
    srep e s ⊢ wp md (s_on e (act1 e.1 h (λ l, s_at l i) SoVal)) (λ r, ⌞r.2 = out⌟ ∗ srep r.1 s') (λ x, ⌞throws md x⌟ ∗ srep e s).
  Proof using.
    destruct e as [eh eo], s as [hs gs os]. unfold sread. simpl.
    destruct (hs !! h) as [[[k [o|]]|]|] eqn:Eh; simpl; try done.
    destruct (s_alive _ o) as [[ok vs]|] eqn:Ev; [|done]. apply alive_lookup in Ev. simpl in Ev.
    destruct (elem i (ok, vs)) as [v|] eqn:Ee; [|done]. intros [= <- <-].
    iIntros "H". iDestruct "H" as (eg Hi) "(Hh & Hg & Ho)". simpl in *.
    iDestruct (objs_read with "Hh") as (l Hl) "[Hx Hh]"; [done|].
    iDestruct (objs_read with "Ho") as (z Hz) "[Hv Ho]"; [done|]. rewrite /hrep /= Hz /s_on /act1 /s_at /s_deref /s_get.
    wbind. wbind. iApply wp_obj; [done|]. wbind. wbind. wbind. wstep wp_s_handle "Hx". wret. wret.
    iApply (wp_s_elem with "Hv"); [done|]. iIntros "Hv".
    wret. wret. iSplitR; [done|]. iExists eg; simpl; iSplitR; [done|]; iFrame "Hg". iSplitL "Hh Hx"; [by iApply "Hh"|by iApply "Ho"].
  Qed.
  Lemma write_ok e s h i v s' out : swrite s h i v = Some (s', out) →
    srep e s ⊢ wp md (s_on e (act1 e.1 h (λ l, s_put l i v) (λ _, SoUnit))) (λ r, ⌞r.2 = out⌟ ∗ srep r.1 s')
      (λ x, ⌞throws md x⌟ ∗ srep e s).
  Proof using.
    destruct e as [eh eo], s as [hs gs os]. unfold swrite. simpl.
    destruct (hs !! h) as [[[k [o|]]|]|] eqn:Eh; simpl; try done.
    destruct (s_alive _ o) as [[ok vs]|] eqn:Ev; [|done]. apply alive_lookup in Ev. simpl in Ev.
    destruct (elem i (ok, vs)) as [v'|] eqn:Ee; [|done]. intros [= <- <-].
    iIntros "H". iDestruct "H" as (eg Hi) "(Hh & Hg & Ho)". simpl in *.
    iDestruct (objs_read with "Hh") as (l Hl) "[Hx Hh]"; [done|].
    iDestruct (objs_acc with "Ho") as (z Hz) "[Hv Ho]"; [done|]. rewrite /hrep /= Hz /s_on /act1 /s_put /s_deref /s_get.
    wbind. wbind. iApply wp_obj; [done|]. wbind. wbind. wbind. wstep wp_s_handle "Hx". wret. wret.
    wbind. iApply (wp_s_elem with "Hv"); [done|]. iIntros "Hv".
    wbind. iApply wp_may_throw_any. iSplit.
    { iIntros (x HA). iSplitR; [done|]. iExists eg. simpl. iSplitR; [done|]. iFrame "Hg". iSplitL "Hh Hx"; [by iApply "Hh"|].
      rewrite -{2}(insert_id os o (Some (ok, vs))) //. by iApply ("Ho" $! (Some (ok, vs))). }
    iApply (wp_s_set_elem with "Hv"); [done|]. iIntros "Hv".
    wret. wret. iSplitR; [done|]. iExists eg; simpl; iSplitR; [iPureIntro; eapply sinv_os; [done|]; intros; by apply upd_dom|].
    iFrame "Hg". iSplitL "Hh Hx"; [by iApply "Hh"|by iApply ("Ho" $! (Some (set_elem i v (ok, vs))))].
  Qed.
  (** the deleter of a group changes *)
  Lemma counted_del hs gs g o d d' : gs !! g = Some (o, d) →
    counted hs (<[g := (o, d')]> gs) = <[g := (owners hs g, (o, d'))]> (counted hs gs).
  Proof using.
    intros Hg. symmetry. apply counted_eq. intros k. destruct (decide (g = k)) as [->|].
    - by rewrite !lookup_insert.
    - rewrite !lookup_insert_ne // counted_lookup //.
  Qed.
  Lemma sinv_del hs gs os g o d d' : sinv hs gs os → gs !! g = Some (o, d) → sinv hs (<[g := (o, d')]> gs) os.
  Proof using.
    intros [H1 H2 H3 H4] Hg. split.
    - intros k. rewrite lookup_insert_is_Some. intros [<-|[_ ?]]; apply H1; eauto.
    - intros h k o' Hk. rewrite lookup_insert_is_Some. destruct (decide (g = k)); [by left|right; split; [done|by eapply H2]].
    - done.
    - intros k o' d1. rewrite lookup_insert_Some. intros [[<- [= -> <-]]|[_ Hk]]; by eapply H4.
  Qed.

  Theorem sspec_op_spec : op_spec_any (sspec false) s_exec (λ _, True) srep md.
  Proof using.
    intros e s op s' out _. destruct e as [eh eo], s as [hs gs os]. destruct op; simpl; unfold join, sdecl; simpl.
    - (* SNew *)
      destruct (hs !! h) eqn:Eh; [done|]. intros [= <- <-]. iIntros "H". iDestruct "H" as (eg Hi) "(Hh & Hg & Ho)". simpl in *.
      iDestruct (objs_none with "Hh") as %Hn; [done|]. rewrite /s_on /decl Hn /s_new. wbind. wbind.
      iApply wp_new'. iIntros (l) "H". wret. wret. iSplitR; [done|]. iExists eg. simpl.
      iSplitR; [iPureIntro; by apply sinv_join_none|]. rewrite counted_none //. iFrame "Hg Ho".
      iApply objs_add; [done|]. iFrame.
    - (* SRaw *) by apply (create_ok (eh, eo) (SState hs gs os)).
    - (* SRawArr *) by apply (create_ok (eh, eo) (SState hs gs os)).
    - (* SRawSub *) by apply (create_ok (eh, eo) (SState hs gs os)).
    - (* SFrom *)
      case_decide as Hu; [|done]. destruct (hs !! h) eqn:Eh; [done|]. set (g := fresh _). intros [= <- <-].
      assert (gs !! g = None) as Hg.
      { apply not_elem_of_dom. apply is_fresh. }
      clearbody g. iIntros "H". iDestruct "H" as (eg Hi) "(Hh & Hg & Ho)". simpl in *.
      iDestruct (objs_none with "Hh") as %Hn; [done|].
      iDestruct (os_doms with "Ho") as %Hd.
      iApply wp_raw'. { intros k Hk. apply Hd. by eapply (usable_known (SState hs gs os)). }
      rewrite /s_on /decl Hn. wbind. wbind. iApply wp_s_from. iSplit.
      { iIntros (e HA). iSplitR; [done|]. iExists eg. simpl. by iFrame. }
      iIntros (l c) "Hl Hc". wret. wret. iSplitR; [done|]. simpl.
      iDestruct (objs_none _ _ _ g with "Hg") as %Hng; [by rewrite counted_lookup Hg|].
      iExists (<[g := c]> eg). simpl.
      assert (owners hs g = 0) as Hz.
      { apply owners_none. intros k [[k' x']|] Hk; [|by intros []]. intros <-.
        destruct (si_grp _ _ _ Hi _ _ _ Hk) as [? ?]. congruence. }
      iSplitR; [iPureIntro; split|].
      + intros k Hk. rewrite owners_new // one_some. case_decide; [lia|]. rewrite lookup_insert_ne // in Hk.
        pose proof (si_pos _ _ _ Hi _ Hk). lia.
      + intros k k' x'. rewrite lookup_insert_Some. intros [[<- [= <- <-]]|[_ Hk]]; [by rewrite lookup_insert|].
        rewrite lookup_insert_is_Some. destruct (decide (g = k')); [by left|right; split; [done|]]. by eapply si_grp.
      + intros k k' x'. rewrite lookup_insert_Some. intros [[<- [= <- ->]]|[_ Hk]]; [|by eapply si_obj].
        by eapply (usable_known (SState hs gs os)).
      + intros k x' d'. rewrite lookup_insert_Some. intros [[<- [= -> <-]]|[_ Hk]]; [|by eapply si_own].
        by eapply (usable_known (SState hs gs os)).
      + iSplitL "Hh Hl"; [|iSplitL "Hg Hc"; [|done]].
        * iApply objs_add; [done|]. rewrite /hrep /= lookup_insert. iFrame "Hl". iApply (hs_ext with "Hh").
          intros k k' x' Hk. split; [done|]. rewrite lookup_insert_ne //. intros <-.
          destruct (si_grp _ _ _ Hi _ _ _ Hk) as [? ?]. congruence.
        * rewrite -(counted_eq (<[h := Some (g, o)]> hs) (<[g := (o, d)]> gs) (<[g := (1, (o, d))]> (counted hs gs))); last first.
          { intros k. destruct (decide (g = k)) as [<-|Hne].
            - rewrite !lookup_insert /=. rewrite owners_new // one_some decide_True // Hz //.
            - rewrite !lookup_insert_ne // counted_lookup. rewrite owners_new // one_some decide_False //. }
          iApply objs_add; [by rewrite counted_lookup Hg|]. iFrame.
    - (* SCopy *)
      destruct (hs !! g) as [x|] eqn:Eg; [|done]. simpl. case_decide as Hx; [|done]. destruct Hx as [?|Hx]; [done|].
      destruct x as [[k o]|]; [|done]. clear Hx. destruct (hs !! h) eqn:Eh; [done|]. intros [= <- <-].
      iIntros "H". iDestruct "H" as (eg Hi) "(Hh & Hg & Ho)". simpl in *.
      iDestruct (objs_none with "Hh") as %Hn; [done|]. iDestruct (cs_acc with "Hg") as (c [oo od] [Hc Hod]) "[Hc Hg]"; [done..|].
      iDestruct (objs_read with "Hh") as (l Hl) "[Hx Hh]"; [done|]. rewrite /hrep /= Hc.
      iApply wp_obj'; [done|]. rewrite /s_on /decl Hn. wbind. wbind. iApply (wp_s_copy with "Hx Hc").
      iIntros (l') "Hx Hc Hl". wret. wret. iSplitR; [done|]. iExists eg. simpl.
      iSplitR; [iPureIntro; eapply sinv_join; try done; intros k' ->; by eapply si_obj|].
      iFrame "Ho". iSplitL "Hh Hx Hl".
      + iApply objs_add; [done|]. rewrite /hrep /= Hc. iFrame "Hl". by iApply "Hh".
      + erewrite counted_join; [|done..]. iApply ("Hg" $! (S (owners hs k))).
        replace (Z.of_nat (S (owners hs k))) with (Z.of_nat (owners hs k) + 1)%Z by lia. done.
    - (* SMove *) done.
    - (* SAlias *)
      destruct (hs !! g) as [[[k o']|]|] eqn:Eg; [|done..]. simpl. case_decide as Hu; [|done].
      destruct (hs !! h) eqn:Eh; [done|]. intros [= <- <-].
      iIntros "H". iDestruct "H" as (eg Hi) "(Hh & Hg & Ho)". simpl in *.
      iDestruct (objs_none with "Hh") as %Hn; [done|]. iDestruct (cs_acc with "Hg") as (c [oo od] [Hc Hod]) "[Hc Hg]"; [done..|].
      iDestruct (objs_read with "Hh") as (l Hl) "[Hx Hh]"; [done|]. rewrite /hrep /= Hc.
      iDestruct (os_doms with "Ho") as %Hd.
      iApply wp_obj'; [done|]. iApply wp_raw'. { intros k' Hk. apply Hd. by eapply (usable_known (SState hs gs os)). }
      rewrite /s_on /decl Hn. wbind. wbind. iApply (wp_s_alias with "Hx Hc").
      iIntros (l') "Hx Hc Hl". wret. wret. iSplitR; [done|]. iExists eg. simpl.
      iSplitR; [iPureIntro; eapply sinv_join; try done; intros k' Hk; by eapply (usable_known (SState hs gs os))|].
      iFrame "Ho". iSplitL "Hh Hx Hl".
      + iApply objs_add; [done|]. rewrite /hrep /= Hc. iFrame "Hl". by iApply "Hh".
      + erewrite counted_join; [|done..]. iApply ("Hg" $! (S (owners hs k))).
        replace (Z.of_nat (S (owners hs k))) with (Z.of_nat (owners hs k) + 1)%Z by lia. done.
    - (* SAssign *)
      destruct (hs !! h) as [x|] eqn:Eh; [|done]. destruct (hs !! g) as [y|] eqn:Eg; [|done]. simpl.
      case_decide as Hxy; [|done]. destruct Hxy as [?|Hxy]; [done|].
      assert (∀ k, one k x = one k y) as Ho1.
      { intros k. destruct x as [[]|], y as [[]|]; try done. simpl in Hxy. injection Hxy as ->. done. }
      assert (∀ k, owners (<[h := y]> hs) k = owners hs k) as Hoo.
      { intros k. pose proof (owners_replace hs h x y k Eh). rewrite (Ho1 k) in H. lia. }
      assert (sinv hs gs os → leave false x (SState (<[h := y]> hs) gs os) = Some (SState (<[h := y]> hs) gs os)) as Hlv.
      { intros Hi. destruct x as [[k o]|]; [|done]. simpl. unfold cleanup. simpl. rewrite Hoo decide_False //.
        pose proof (si_pos _ _ _ Hi _ (si_grp _ _ _ Hi _ _ _ Eh)). lia. }
      intros Hs. iIntros "H". iDestruct "H" as (eg Hi) "(Hh & Hg & Ho)". simpl in *.
      rewrite (Hlv Hi) in Hs. injection Hs as <- <-.
      assert (sinv (<[h := y]> hs) gs os) as Hi'.
      { split.
        - intros k Hk. rewrite Hoo. by eapply si_pos.
        - intros k k' o. rewrite lookup_insert_Some. intros [[<- ->]|[_ Hk]]; by eapply si_grp.
        - intros k k' o. rewrite lookup_insert_Some. intros [[<- ->]|[_ Hk]]; by eapply si_obj.
        - apply Hi. }
      rewrite /s_on /act2 /s_assign. destruct (decide (h = g)) as [->|Hne].
      + assert (x = y) as -> by congruence. clear Eh. iDestruct (objs_read with "Hh") as (l Hl) "[Hx Hh]"; [done|].
        wbind. wbind. iApply wp_obj; [done|]. wbind. iApply wp_obj; [done|]. wbind.
        destruct (hcell_inv eo eg y) as [c Hpc].
        rewrite /hrep Hpc. wstep wp_s_handle "Hx". wstep wp_s_handle "Hx". iApply (wp_store' with "Hx"). iIntros "Hx".
        wret. wret. iSplitR; [done|]. iExists eg. simpl. rewrite insert_id // in Hi' |- *. iSplitR; [done|]. iFrame "Hg Ho".
        by iApply "Hh".
      + iDestruct (objs_acc2 with "Hh") as (l l' [Hl Hl']) "(Hx & Hy & Hh)"; [done..|].
        wbind. wbind. iApply wp_obj; [done|]. wbind. iApply wp_obj; [done|]. wbind.
        destruct (hcell_inv eo eg y) as [c Hpc], (hcell_inv eo eg x) as [c' Hpc'].
        rewrite /hrep Hpc Hpc'. wstep wp_s_handle "Hy". wstep wp_s_handle "Hx". iApply (wp_store' with "Hx"). iIntros "Hx".
        wret. wret. iSplitR; [done|]. iExists eg. simpl. iSplitR; [done|]. rewrite (counted_same hs) //. iFrame "Hg Ho".
        iSpecialize ("Hh" $! y y with "[Hx] [Hy]"); [by rewrite Hpc..|].
        by rewrite (insert_id hs g).
    - (* SCount *)
      destruct (hs !! h) as [x|] eqn:Eh; [|done]. intros [= <- <-].
      iIntros "H". iDestruct "H" as (eg Hi) "(Hh & Hg & Ho)". simpl in *. rewrite /s_on /act1 /s_use_count.
      iDestruct (objs_read with "Hh") as (l Hl) "[Hx Hh]"; [done|]. wbind. wbind. iApply wp_obj; [done|].
      wbind. destruct x as [[k o]|].
      + iDestruct (cs_acc with "Hg") as (c [oo od] [Hc Hod]) "[Hc Hg]"; [done..|]. rewrite /hrep /= Hc.
        wstep wp_s_handle "Hx". cbn [fst snd]. wstep wp_s_ctrl "Hc". wret. wret. wret. iSplitR; [done|]. iExists eg. simpl.
        iSplitR; [done|]. iFrame "Ho". iSplitL "Hh Hx"; [by iApply "Hh"|].
        iSpecialize ("Hg" $! (owners hs k) with "Hc"). rewrite insert_id; [done|]. by rewrite counted_lookup Hod.
      + rewrite /hrep /=. wstep wp_s_handle "Hx". cbn [fst snd]. wret. wret. wret. iSplitR; [done|]. iExists eg. simpl.
        iSplitR; [done|]. iFrame "Ho Hg". by iApply "Hh".
    - (* SIs *)
      destruct (hs !! h) as [x|] eqn:Eh; [|done]. case_decide as Hu; [|done]. destruct Hu as [Hu Hu']. intros [= <- <-].
      iIntros "H". iDestruct "H" as (eg Hi) "(Hh & Hg & Ho)". simpl in *.
      iDestruct (os_inj _ _ (s_target x) (Some o) with "Ho") as %Hp.
      { intros k Hk. rewrite Hk in Hu'. by apply (usable_alive (SState hs gs os)). }
      { intros k [= <-]. by apply (usable_alive (SState hs gs os)). }
      destruct (usable_alive (SState hs gs os) o Hu) as [v Hv]. simpl in Hv.
      iDestruct (objs_dom with "Ho") as %[z Hz]; [done|]. iApply wp_obj'; [done|].
      iDestruct (objs_read with "Hh") as (l Hl) "[Hx Hh]"; [done|]. rewrite /s_on /act1 /s_get.
      wbind. wbind. iApply wp_obj; [done|]. wbind. simpl in Hp. rewrite Hz in Hp.
      destruct (hcell_inv eo eg x) as [c Hpc].
      rewrite /hrep Hpc. wstep wp_s_handle "Hx". wret. wret. wret. simpl.
      iSplitR; [iPureIntro; f_equal; by apply bool_decide_ext|]. iExists eg. simpl. iSplitR; [done|]. iFrame "Hg Ho". by iApply "Hh".
    - (* SEq *)
      destruct (hs !! h) as [x|] eqn:Eh; [|done]. by destruct (hs !! g).
    - (* SBool *)
      destruct (hs !! h) as [x|] eqn:Eh; [|done]. intros [= <- <-].
      iIntros "H". iDestruct "H" as (eg Hi) "(Hh & Hg & Ho)". simpl in *. iDestruct (os_doms with "Ho") as %Hd.
      iDestruct (objs_read with "Hh") as (l Hl) "[Hx Hh]"; [done|]. rewrite /s_on /act1 /s_bool /s_get.
      wbind. wbind. iApply wp_obj; [done|]. wbind. wbind.
      destruct (hcell_inv eo eg x) as [c Hpc].
      rewrite /hrep Hpc. wstep wp_s_handle "Hx". wret. wret. wret. wret. simpl.
      iSplitR; [|iExists eg; simpl; iSplitR; [done|]; iFrame "Hg Ho"; by iApply "Hh"].
      iPureIntro. f_equal. apply bool_decide_ext. destruct x as [[k [o|]]|]; simpl; try done.
      destruct (proj2 (Hd o)) as [z ->]; [by eapply si_obj|]. done.
    - (* SRead *) by apply (read_ok (eh, eo) (SState hs gs os)).
    - (* SWrite *) by apply (write_ok (eh, eo) (SState hs gs os)).
    - (* SAt *) by apply (read_ok (eh, eo) (SState hs gs os)).
    - (* SPut *) by apply (write_ok (eh, eo) (SState hs gs os)).
    - (* SGetDel *)
      destruct (hs !! h) as [x|] eqn:Eh; [|done]. intros Hs.
      iIntros "H". iDestruct "H" as (eg Hi) "(Hh & Hg & Ho)". simpl in *. rewrite /s_on /act1 /s_get_deleter.
      iDestruct (objs_read with "Hh") as (l Hl) "[Hx Hh]"; [done|]. wbind. wbind. iApply wp_obj; [done|].
      wbind. destruct x as [[k o]|].
      + iDestruct (cs_acc with "Hg") as (c [oo od] [Hc Hod]) "[Hc Hg]"; [done..|]. rewrite Hod in Hs.
        assert (s' = SState hs gs os ∧ out = SoBool (match od with DRun YSame ty' _ => bool_decide (ty' = ty) | _ => false end)) as [-> ->].
        { destruct od; simpl in *; [by simplify_eq..|]. case_decide as Hd; [|done]. simplify_eq. split; [done|].
          f_equal. destruct y; [done|]. apply bool_decide_eq_false. destruct Hd as [?|[?|?]]; done. }
        rewrite /hrep /= Hc.
        wstep wp_s_handle "Hx". cbn [fst snd]. wstep wp_s_ctrl "Hc". wret. wret. wret. iSplitR; [done|]. iExists eg. simpl.
        iSplitR; [done|]. iFrame "Ho". iSplitL "Hh Hx"; [by iApply "Hh"|].
        iSpecialize ("Hg" $! (owners hs k) with "Hc"). rewrite insert_id; [done|]. by rewrite counted_lookup Hod.
      + injection Hs as <- <-.
        rewrite /hrep /=. wstep wp_s_handle "Hx". cbn [fst snd]. wret. wret. wret. iSplitR; [done|]. iExists eg. simpl.
        iSplitR; [done|]. iFrame "Ho Hg". by iApply "Hh".
    - (* SSetDel *)
      destruct (hs !! h) as [[[k o]|]|] eqn:Eh; [|done..]. simpl. intros Hs.
      iIntros "H". iDestruct "H" as (eg Hi) "(Hh & Hg & Ho)". simpl in *. rewrite /s_on /act1 /s_set_deleter /s_get_deleter.
      iDestruct (objs_read with "Hh") as (l Hl) "[Hx Hh]"; [done|].
      iDestruct (cs_acc with "Hg") as (c [oo d] [Hc Hod]) "[Hc Hg]"; [done..|]. rewrite Hod /= in Hs.
      destruct d as [| |y ty' f']; [done..|]. case_decide as Hd; [|done]. destruct Hd as [-> [?| -> ]]; [done|]. injection Hs as <- <-.
      rewrite /hrep /= Hc. wbind. wbind. iApply wp_obj; [done|]. wbind. wbind. wstep wp_s_handle "Hx". cbn [fst snd].
      wstep wp_s_ctrl "Hc". wret. wstep wp_s_handle "Hx". cbn [fst snd]. rewrite bool_decide_true //.
      wstep wp_s_ctrl "Hc". cbn [fst snd]. iApply (wp_store' with "Hc"). iIntros "Hc". wret. wret. iSplitR; [done|]. iExists eg. simpl.
      iSplitR; [iPureIntro; by eapply sinv_del|]. iFrame "Ho". iSplitL "Hh Hx"; [by iApply "Hh"|].
      erewrite counted_del; [|done]. by iApply ("Hg" $! (owners hs k) (DRun YSame ty f)).
    - (* SReadRaw *)
      destruct (s_alive _ o) as [[ok vs]|] eqn:Ev; [|done]. apply alive_lookup in Ev. simpl in Ev.
      destruct (elem 0 (ok, vs)) as [v|] eqn:Ee; [|done]. intros [= <- <-].
      iIntros "H". iDestruct "H" as (eg Hi) "(Hh & Hg & Ho)". simpl in *.
      iDestruct (objs_read with "Ho") as (z Hz) "[Hv Ho]"; [done|]. iApply wp_obj'; [done|].
      wbind. iApply (wp_s_elem with "Hv"); [done|]. iIntros "Hv". wret.
      iSplitR; [done|]. iExists eg; simpl; iSplitR; [done|]; iFrame "Hg Hh". by iApply "Ho".
    - (* SDelete *)
      destruct (remove k o os) as [os'|] eqn:Er; [|done]. intros [= <- <-].
      iIntros "H". iDestruct "H" as (eg Hi) "(Hh & Hg & Ho)". simpl in *.
      iDestruct (wp_remove _ _ _ _ _ (λ _, wp md (ret ((eh, eo), SoUnit)) (λ r, ⌞r.2 = SoUnit⌟ ∗ srep r.1 (SState hs gs os'))
        (λ x, ⌞throws md x⌟ ∗ srep (eh, eo) (SState hs gs os)))%I (λ x, ⌞throws md x⌟ ∗ srep (eh, eo) (SState hs gs os))%I
        with "Ho [Hh Hg]") as (z Hz) "H"; [done| |].
      { iIntros "Ho". wret. iSplitR; [done|]. iExists eg; simpl.
        iSplitR; [iPureIntro; eapply sinv_os; [done|]; by eapply remove_dom|]. by iFrame. }
      iApply wp_obj'; [done|]. wbind. iApply "H".
    - (* SDestroy *)
      destruct (hs !! h) as [x|] eqn:Eh; [|done]. destruct (leave _ _ _) as [s1|] eqn:El; [|done]. intros [= <- <-].
      iIntros "H". iDestruct "H" as (eg Hi) "(Hh & Hg & Ho)". simpl in *.
      rewrite /s_on /drop_obj /s_dtor. destruct x as [[k o]|]; simpl in El.
      + pose proof (owners_delete hs h _ k Eh) as Hod1. rewrite one_some decide_True // in Hod1.
        assert (∀ k', k' ≠ k → owners (delete h hs) k' = owners hs k') as Hod2.
        { intros k' Hne. rewrite (owners_delete hs h _ k' Eh) one_some decide_False //. }
        unfold cleanup in El. simpl in El. destruct (si_grp _ _ _ Hi _ _ _ Eh) as [od Hod].
        iDestruct (objs_del with "Hh") as (l Hl) "[Hx Hh]"; [done|].
        wbind. wbind. iApply wp_obj; [done|]. wbind.
        case_decide as Hz.
        * rewrite Hod /= in El. destruct (dispose false od.1 od.2 os) as [os'|] eqn:Ed; [|done]. injection El as <-.
          iDestruct (objs_del _ _ _ k (owners hs k, od) with "Hg") as (c Hc) "[Hc Hg]"; [by rewrite counted_lookup Hod|].
          rewrite /hrep /= Hc /crep. wstep wp_s_handle "Hx". cbn [fst snd].
          wstep wp_s_ctrl "Hc". wstep wp_s_set_count "Hc". cbn [fst snd]. rewrite decide_True; [|lia].
          wbind. wbind. iApply (wp_dispose with "Ho"); [done|]. iIntros "Ho".
          iApply (wp_free' with "Hc"). iIntros "_".
          iApply (wp_free' with "Hx"). iIntros "_". wret. wret. iSplitR; [done|].
          iExists (delete k eg). simpl.
          assert (∀ h' g' o', delete h hs !! h' = Some (Some (g', o')) → k ≠ g') as Hng.
          { intros h' g' o' Hh' <-. eapply (owners_zero (delete h hs)); [exact Hz|exact Hh'|done]. }
          pose proof (dispose_dom _ _ _ _ _ Ed) as Hdd.
          iSplitR; [iPureIntro; split|].
          { intros k' [Hne Hk]%lookup_delete_is_Some. rewrite Hod2 //. by eapply si_pos. }
          { intros h' k' o' Hk. rewrite lookup_delete_ne; [|by eapply Hng]. apply lookup_delete_Some in Hk as [_ Hk]. by eapply si_grp. }
          { intros h' k' o' [_ Hk]%lookup_delete_Some. apply Hdd. by eapply si_obj. }
          { intros k' o' d' [_ Hk]%lookup_delete_Some. apply Hdd. by eapply si_own. }
          iFrame "Ho". iSplitL "Hh".
          { iApply (hs_ext with "Hh"). intros h' g' o' Hk. split; [done|]. rewrite lookup_delete_ne //. by eapply Hng. }
          rewrite -(counted_eq (delete h hs) (delete k gs) (delete k (counted hs gs))); [done|].
          intros k'. destruct (decide (k = k')) as [<-|Hne].
          { by rewrite !lookup_delete. }
          { rewrite !lookup_delete_ne // counted_lookup Hod2 //. }
        * injection El as <-. iDestruct (cs_acc with "Hg") as (c [oo' od'] [Hc Hod']) "[Hc Hg]"; [done..|]. simplify_eq.
          rewrite /hrep /= Hc. wstep wp_s_handle "Hx". cbn [fst snd].
          wstep wp_s_ctrl "Hc". wstep wp_s_set_count "Hc". cbn [fst snd]. rewrite decide_False; [|lia].
          wbind. wret. iApply (wp_free' with "Hx"). iIntros "E". wret. wret. iSplitR; [done|]. iExists eg. simpl.
          iSplitR; [iPureIntro; split|].
          { intros k' Hk. destruct (decide (k' = k)) as [->|Hne]; [lia|]. rewrite Hod2 //. by eapply si_pos. }
          { intros h' k' o' [_ Hk]%lookup_delete_Some. by eapply si_grp. }
          { intros h' k' o' [_ Hk]%lookup_delete_Some. by eapply si_obj. }
          { apply Hi. }
          iFrame "Hh Ho". erewrite (counted_upd hs (delete h hs)); [|done..]. iApply "Hg".
          replace (Z.of_nat (owners (delete h hs) k)) with (Z.of_nat (owners hs k) - 1)%Z by lia. done.
      + injection El as <-. iDestruct (objs_del with "Hh") as (l Hl) "[Hx Hh]"; [done|]. rewrite /hrep /=.
        wbind. wbind. iApply wp_obj; [done|]. wbind. wstep wp_s_handle "Hx". cbn [fst snd].
        iApply (wp_free' with "Hx"). iIntros "E". wret. wret. iSplitR; [done|]. iExists eg. simpl.
        assert (∀ k, owners (delete h hs) k = owners hs k) as Hod2.
        { intros k. by rewrite (owners_delete hs h _ k Eh). }
        iSplitR; [iPureIntro; split|].
        { intros k' Hk. rewrite Hod2 //. by eapply si_pos. }
        { intros h' k' o' [_ Hk]%lookup_delete_Some. by eapply si_grp. }
        { intros h' k' o' [_ Hk]%lookup_delete_Some. by eapply si_obj. }
        { apply Hi. }
        rewrite (counted_same hs) //. iFrame.
  Qed.
End proofs.
