(** unique_ptr: the model does what the specification says. *)
From iris.proofmode Require Import tactics.
From Verif Require Import SLTac HistGen HistThrowProofs ModelUptr SpecUptr.

Section proofs.
  Context {T : Type} (md : mode).
  Notation hp := (hprop (ucell T)).
  Implicit Types (Q : loc → hp) (R : exn → hp).

  Lemma wp_new_obj v (Q : loc → hp) R :
    ((∀ e, ⌜throws md e⌝ → R e) ∧ (∀ l, l ↦ UObj v -∗ Q l)) -∗ wp md (new_obj v) Q R.
  Proof using.
    iIntros "HQ". rewrite /new_obj. wbind. iApply wp_alloc_any. iSplit.
    - by iDestruct "HQ" as "[$ _]".
    - iIntros (l) "H". wbind. iApply wp_on_throw. iApply wp_may_throw_any. iSplit.
      + iIntros (e He). iApply (wp_free' with "H"). iIntros "_". iDestruct "HQ" as "[HQ _]". by iApply "HQ".
      + iDestruct "HQ" as "[_ HQ]". wret. by iApply "HQ".
  Qed.
  Lemma wp_delete_obj l v (Q : unit → hp) R : l ↦ UObj v -∗ (emp -∗ Q tt) -∗ wp md (delete_obj l) Q R.
  Proof using. iIntros "H HQ". rewrite /delete_obj. wstep wp_load' "H". by iApply (wp_free' with "H"). Qed.
  Lemma wp_u_ptr l p (Q : ptr → hp) R : l ↦ UPtr p -∗ (l ↦ UPtr p -∗ Q p) -∗ wp md (u_ptr l) Q R.
  Proof using. iIntros "H HQ". rewrite /u_ptr. wstep wp_load' "H". wret. by iApply "HQ". Qed.
  Lemma wp_u_set_ptr l p p' (Q : unit → hp) R : l ↦ UPtr p -∗ (l ↦ UPtr p' -∗ Q tt) -∗ wp md (u_set_ptr l p') Q R.
  Proof using. iIntros "H HQ". rewrite /u_set_ptr. wstep wp_load' "H". by iApply (wp_store' with "H"). Qed.

  (** what a pointer owns *)
  Definition own (p : ptr) (v : option T) : hp :=
    match p, v with None, None => emp | Some l, Some v => l ↦ UObj v | _, _ => False end%I.
  Lemma wp_delete_own p v (Q : unit → hp) R :
    own p v -∗ (emp -∗ Q tt) -∗
    wp md (match p with Some l => delete_obj l | None => ret tt end) Q R.
  Proof using.
    iIntros "H HQ". destruct p as [l|], v as [v|]; simpl; try done.
    - by iApply (wp_delete_obj with "H").
    - wret. by iApply "HQ".
  Qed.
  Lemma wp_u_release l p (Q : ptr → hp) R : l ↦ UPtr p -∗ (l ↦ UPtr None -∗ Q p) -∗ wp md (u_release l) Q R.
  Proof using. iIntros "H HQ". rewrite /u_release. wstep wp_u_ptr "H". wstep wp_u_set_ptr "H". wret. by iApply "HQ". Qed.
  Lemma wp_u_move l p (Q : loc → hp) R :
    l ↦ UPtr p -∗ (∀ l', l ↦ UPtr None -∗ l' ↦ UPtr p -∗ Q l') -∗ wp md (u_move l) Q R.
  Proof using.
    iIntros "H HQ". rewrite /u_move. wstep wp_u_release "H". rewrite /u_from. iApply wp_new'. iIntros (l') "H'".
    iApply ("HQ" with "H H'").
  Qed.
  Lemma wp_u_assign l l' p q (Q : unit → hp) R :
    l ↦ UPtr p -∗ l' ↦ UPtr q -∗ (l ↦ UPtr q -∗ l' ↦ UPtr p -∗ Q tt) -∗ wp md (u_assign l l') Q R.
  Proof using.
    iIntros "H H' HQ". rewrite /u_assign. wstep wp_u_ptr "H'". wstep wp_u_ptr "H". wstep wp_u_set_ptr "H'".
    iApply (wp_u_set_ptr with "H"). iIntros "H". iApply ("HQ" with "H H'").
  Qed.
  Lemma wp_u_assign_self l p (Q : unit → hp) R :
    l ↦ UPtr p -∗ (l ↦ UPtr p -∗ Q tt) -∗ wp md (u_assign l l) Q R.
  Proof using.
    iIntros "H HQ". rewrite /u_assign. wstep wp_u_ptr "H". wstep wp_u_ptr "H". wstep wp_u_set_ptr "H".
    by iApply (wp_u_set_ptr with "H").
  Qed.
  Lemma wp_u_dtor l p v (Q : unit → hp) R :
    l ↦ UPtr p -∗ own p v -∗ (emp -∗ Q tt) -∗ wp md (u_dtor l) Q R.
  Proof using.
    iIntros "H Hv HQ". rewrite /u_dtor. wstep wp_u_ptr "H". wbind. iApply (wp_delete_own with "Hv"). iIntros "_".
    by iApply (wp_free' with "H").
  Qed.
  Lemma wp_u_reset l p v n (Q : unit → hp) R :
    l ↦ UPtr p -∗ own p v -∗ (l ↦ UPtr n -∗ Q tt) -∗ wp md (u_reset l n) Q R.
  Proof using.
    iIntros "H Hv HQ". rewrite /u_reset. wstep wp_u_ptr "H". wstep wp_u_set_ptr "H".
    iApply (wp_delete_own with "Hv"). iIntros "_". by iApply "HQ".
  Qed.

  (** ** The whole state *)
  Implicit Types (e : uenv) (s : ustate T) (hs : gmap nat (option nat)) (os : gmap nat (option T)).
  Definition ptr_of (eo : gmap nat loc) (x : option nat) : ptr := x ≫= (λ o, eo !! o).
  Definition uh (eo : gmap nat loc) (l : loc) (x : option nat) : hp := l ↦ UPtr (ptr_of eo x).
  Definition uo (l : loc) (v : option T) : hp := match v with Some v => l ↦ UObj v | None => emp end%I.
  Definition uinv hs os : Prop :=
    (∀ h o, hs !! h = Some (Some o) → ∃ v, os !! o = Some (Some v)) ∧
    (∀ h g o, hs !! h = Some (Some o) → hs !! g = Some (Some o) → h = g).
  Definition urep e s : hp :=
    (⌞uinv (u_hs s) (u_os s)⌟ ∗ objs (uh e.2) e.1 (u_hs s) ∗ objs uo e.2 (u_os s))%I.

  Lemma ptr_of_ext eo o x hs h os :
    (∀ o, is_Some (eo !! o) ↔ is_Some (os !! o)) → uinv hs os → hs !! h = Some x → os !! o = None →
    ∀ l, ptr_of (<[o := l]> eo) x = ptr_of eo x.
  Proof using.
    intros Hd [Hi _] Hx Ho l. destruct x as [o'|]; [|done]. simpl. rewrite lookup_insert_ne; [done|].
    intros ->. destruct (Hi _ _ Hx) as [v Hv]. congruence.
  Qed.
  Lemma objs_ext eo eo' eh hs :
    (∀ h x, hs !! h = Some x → ptr_of eo' x = ptr_of eo x) → objs (uh eo) eh hs ⊢ objs (uh eo') eh hs.
  Proof using.
    intros H. rewrite /objs. apply big_sepM2_mono. intros h l x _ Hx. by rewrite /uh (H _ _ Hx).
  Qed.
  Lemma objs_doms eo os : objs uo eo os ⊢ ⌜∀ o, is_Some (eo !! o) ↔ is_Some (os !! o)⌝.
  Proof using. rewrite /objs. iIntros "H". iDestruct (big_sepM2_lookup_iff with "H") as %H. done. Qed.
  Lemma owned_iff hs o : owned hs o ↔ ∃ h, hs !! h = Some (Some o).
  Proof using. unfold owned, map_Exists. naive_solver. Qed.
  Lemma alive_iff s o v : alive s o = Some v ↔ u_os s !! o = Some (Some v).
  Proof using. unfold alive. destruct (u_os s !! o) as [[?|]|]; naive_solver. Qed.
  (** two live objects have different addresses *)
  Lemma live_inj eo os o o' v v' : os !! o = Some (Some v) → os !! o' = Some (Some v') →
    objs uo eo os ⊢ ⌜eo !! o = eo !! o' → o = o'⌝.
  Proof using.
    iIntros (Ho Ho') "H". destruct (decide (o = o')) as [->|Hne]; [by iPureIntro|].
    iDestruct (objs_acc2 with "H") as (l l' [Hl Hl']) "(H1 & H2 & _)"; [done..|]. simpl.
    iDestruct (pt_ne with "H1 H2") as %Hn. iPureIntro. congruence.
  Qed.
  Lemma ptr_inj eo os x y : (∀ o, x = Some o → ∃ v, os !! o = Some (Some v)) → (∀ o, y = Some o → ∃ v, os !! o = Some (Some v)) →
    objs uo eo os ⊢ ⌜ptr_of eo x = ptr_of eo y ↔ x = y⌝.
  Proof using.
    iIntros (Hx Hy) "H". iDestruct (objs_doms with "H") as %Hd.
    destruct x as [o|], y as [o'|]; simpl.
    - destruct (Hx o eq_refl) as [v Hv], (Hy o' eq_refl) as [v' Hv'].
      iDestruct (live_inj _ _ _ _ _ _ Hv Hv' with "H") as %Hi. iPureIntro. split; [|by intros [= ->]]. intros ->%Hi. done.
    - iPureIntro. destruct (Hx o eq_refl) as [v Hv]. destruct (proj2 (Hd o)) as [l ->]; [by eexists|]. done.
    - iPureIntro. destruct (Hy o' eq_refl) as [v Hv]. destruct (proj2 (Hd o')) as [l ->]; [by eexists|]. done.
    - by iPureIntro.
  Qed.

  (** taking the object of one variable out, to be deleted *)
  Lemma take_own eo hs os h x : uinv hs os → hs !! h = Some x →
    objs uo eo os ⊢ ∃ v, own (ptr_of eo x) v ∗ (emp -∗ objs uo eo (kill x os)).
  Proof using.
    iIntros ([Hi _] Hx) "H". destruct x as [o|]; simpl.
    - destruct (Hi _ _ Hx) as [v Hv]. iDestruct (objs_acc with "H") as (l Hl) "[Hv H]"; [done|].
      iExists (Some v). rewrite Hl /=. iFrame. iIntros "E". iApply ("H" $! None with "E").
    - iExists None. simpl. iFrame. auto.
  Qed.
  Lemma uinv_kill hs os h x : uinv hs os → hs !! h = Some x → uinv (<[h := None]> hs) (kill x os).
  Proof using.
    intros [H1 H2] Hx. split.
    - intros g o. rewrite lookup_insert_Some. intros [[_ ?]|[Hne Hg]]; [done|].
      destruct (H1 _ _ Hg) as [v Hv]. exists v. destruct x as [o'|]; [|done]. simpl.
      rewrite lookup_insert_ne; [done|]. intros ->. destruct Hne. by eapply H2.
    - intros g g' o. rewrite !lookup_insert_Some. intros [[_ ?]|[_ Hg]] [[_ ?]|[_ Hg']]; try done. by eapply H2.
  Qed.
  Lemma uinv_set hs os h o v : uinv hs os → os !! o = Some (Some v) → ¬ owned hs o → uinv (<[h := Some o]> hs) os.
  Proof using.
    intros [H1 H2] Hv Ho. rewrite owned_iff in Ho. split.
    - intros g o'. rewrite lookup_insert_Some. naive_solver.
    - intros g g' o'. rewrite !lookup_insert_Some. naive_solver.
  Qed.
  Lemma uinv_unset hs os h : uinv hs os → uinv (<[h := None]> hs) os.
  Proof using.
    intros [H1 H2]. split; [intros g o|intros g g' o]; rewrite !lookup_insert_Some; naive_solver.
  Qed.
  Lemma uinv_obj hs os o v : uinv hs os → uinv hs (<[o := Some v]> os).
  Proof using.
    intros [H1 H2]. split; [|done]. intros h o' Hh. destruct (H1 _ _ Hh) as [v' Hv'].
    destruct (decide (o = o')) as [->|]; [exists v; by rewrite lookup_insert|exists v'; by rewrite lookup_insert_ne].
  Qed.
  Lemma uinv_del hs os h : uinv (<[h := None]> hs) os → uinv (delete h hs) os.
  Proof using.
    intros [H1 H2]. split.
    - intros g o [Hne Hg]%lookup_delete_Some. apply (H1 g). by rewrite lookup_insert_ne.
    - intros g g' o [Hne Hg]%lookup_delete_Some [Hne' Hg']%lookup_delete_Some. apply (H2 g g' o); by rewrite lookup_insert_ne.
  Qed.
  Lemma uinv_dead hs os o : uinv hs os → ¬ owned hs o → uinv hs (<[o := None]> os).
  Proof using.
    intros [H1 H2] Ho. rewrite owned_iff in Ho. split; [|done]. intros h o' Hh. destruct (H1 _ _ Hh) as [v Hv].
    exists v. rewrite lookup_insert_ne; [done|]. intros ->. eauto.
  Qed.

  Lemma wp_obj' {A} (e : gmap nat loc) h l (k : loc → M (ucell T) A) (Q : A → hp) R :
    e !! h = Some l → wp md (k l) Q R -∗ wp md (l <- obj e h ;; k l) Q R.
  Proof using. iIntros (H) "HQ". wbind. iApply wp_obj; [done|]. done. Qed.

  Notation post s' o := (λ eo, ⌞eo.2 = o⌟ ∗ urep eo.1 s')%I.
  Theorem uspec_op_spec : op_spec_any uspec u_run (λ _, True) urep md.
  Proof using.
    intros e s op s' o _. destruct e as [eh eo], s as [hs os]. destruct op; simpl; unfold udecl, set_h; simpl.
    - (* UNew *)
      destruct (hs !! h) eqn:Eh; [done|]. intros [= <- <-]. iIntros "(%Hi & Hh & Ho)". simpl.
      iDestruct (objs_none with "Hh") as %Hn; [done|]. rewrite /on_handles /decl Hn /u_new. wbind. wbind.
      iApply wp_new'. iIntros (l) "H". wret. wret. iSplitR; [done|]. rewrite /urep /=.
      iSplitR; [iPureIntro; by apply uinv_unset|]. iFrame "Ho". iApply objs_add; [done|]. iFrame.
    - (* UMake *)
      destruct (os !! o0) eqn:Eo; [done|]. destruct (hs !! h) eqn:Eh; [done|]. intros [= <- <-].
      iIntros "(%Hi & Hh & Ho)". simpl.
      iDestruct (objs_none with "Hh") as %Hn; [done|]. iDestruct (objs_none with "Ho") as %Hno; [done|].
      iDestruct (objs_doms with "Ho") as %Hd.
      rewrite /fresh_name Hno /decl Hn /u_make. wbind. iApply wp_new_obj. iSplit.
      { iIntros (x HA). iSplitR; [done|]. rewrite /urep /=. by iFrame. }
      iIntros (x) "Hx". rewrite /u_from. wbind. iApply wp_new'. iIntros (l) "Hl". wret.
      iApply wp_obj'; [by rewrite /= lookup_insert|]. rewrite /u_get. wstep wp_u_ptr "Hl". wret. simpl.
      iSplitR; [done|]. rewrite /urep /=. iSplitR.
      { iPureIntro. apply (uinv_set _ _ _ _ v); [by apply uinv_obj|by rewrite lookup_insert|].
        rewrite owned_iff. intros [g Hg]. destruct Hi as [Hi _]. destruct (Hi _ _ Hg) as [? Hk]. by rewrite Eo in Hk. }
      iSplitL "Hh Hl"; [|iApply objs_add; [done|]; by iFrame].
      iApply objs_add; [done|]. rewrite /uh /=. rewrite lookup_insert. iFrame "Hl".
      iApply (objs_ext with "Hh"). intros g y Hg. by eapply ptr_of_ext.
    - (* URaw *)
      destruct (os !! o0) eqn:Eo; [done|]. intros [= <- <-]. iIntros "(%Hi & Hh & Ho)". simpl.
      iDestruct (objs_none with "Ho") as %Hno; [done|]. iDestruct (objs_doms with "Ho") as %Hd.
      rewrite /fresh_name Hno. wbind. iApply wp_new_obj. iSplit.
      { iIntros (x HA). iSplitR; [done|]. rewrite /urep /=. by iFrame. }
      iIntros (x) "Hx". wret. simpl. iSplitR; [done|]. rewrite /urep /=.
      iSplitR; [iPureIntro; by apply uinv_obj|]. iSplitL "Hh"; [|iApply objs_add; [done|]; by iFrame].
      iApply (objs_ext with "Hh"). intros g y Hg. by eapply ptr_of_ext.
    - (* UFrom *)
      destruct (alive _ o0) as [v|] eqn:Ev; [|done]. apply alive_iff in Ev. simpl in Ev.
      case_decide as Hw; [done|]. destruct (hs !! h) eqn:Eh; [done|]. intros [= <- <-]. iIntros "(%Hi & Hh & Ho)". simpl.
      iDestruct (objs_none with "Hh") as %Hn; [done|]. iDestruct (objs_dom with "Ho") as %[x Hx]; [done|].
      iApply wp_obj'; [done|]. rewrite /on_handles /decl Hn /u_from. wbind. iApply wp_new'. iIntros (l) "Hl". wret. wret.
      iSplitR; [done|]. rewrite /urep /=. iSplitR; [iPureIntro; by eapply uinv_set|]. iFrame "Ho".
      iApply objs_add; [done|]. rewrite /uh /= Hx. iFrame.
    - (* UMove *)
      destruct (hs !! g) as [x|] eqn:Eg; [|done]. destruct (hs !! h) eqn:Eh; [done|]. simpl. intros [= <- <-].
      iIntros "(%Hi & Hh & Ho)". simpl. iDestruct (objs_none with "Hh") as %Hn; [done|].
      iDestruct (objs_acc with "Hh") as (l Hl) "[Hx Hh]"; [done|].
      iApply wp_obj'; [done|]. rewrite /on_handles /decl Hn. wbind. iApply (wp_u_move with "Hx"). iIntros (l') "Hx Hl".
      wret. wret. iSplitR; [done|]. rewrite /urep /=. iFrame "Ho". iSplitR.
      { iPureIntro. destruct x as [o|]; [|by do 2 apply uinv_unset]. destruct (proj1 Hi _ _ Eg) as [v Hv].
        eapply uinv_set; [by apply uinv_unset|done|]. rewrite owned_iff. intros [k Hk].
        apply lookup_insert_Some in Hk as [[_ ?]|[Hne Hk]]; [done|]. apply Hne. by eapply Hi. }
      iApply objs_add; [|iFrame "Hl"; iApply ("Hh" $! None with "Hx")].
      rewrite lookup_insert_ne; [done|]. intros ->. congruence.
    - (* UAssign *)
      destruct (hs !! h) as [x|] eqn:Eh; [|done]. destruct (hs !! g) as [y|] eqn:Eg; [|done]. simpl. intros [= <- <-].
      iIntros "(%Hi & Hh & Ho)". simpl. rewrite /on_handles /act2. destruct (decide (h = g)) as [->|Hne].
      + simplify_eq. iDestruct (objs_acc with "Hh") as (l Hl) "[Hx Hh]"; [done|].
        wbind. wbind. iApply wp_obj; [done|]. wbind. iApply wp_obj; [done|]. wbind. iApply (wp_u_assign_self with "Hx"). iIntros "Hx".
        wret. wret. iSplitR; [done|]. rewrite /urep /=. iFrame "Ho". rewrite insert_insert.
        iSplitR; [by rewrite insert_id|]. by iApply "Hh".
      + iDestruct (objs_acc2 with "Hh") as (l l' [Hl Hl']) "(Hx & Hy & Hh)"; [done..|].
        wbind. wbind. iApply wp_obj; [done|]. wbind. iApply wp_obj; [done|]. wbind. iApply (wp_u_assign with "Hx Hy"). iIntros "Hx Hy".
        wret. wret. iSplitR; [done|]. rewrite /urep /=. iFrame "Ho". iSplitR; [|by iApply ("Hh" with "Hx Hy")].
        iPureIntro. destruct Hi as [H1 H2]. split.
        * intros k o. rewrite !lookup_insert_Some. naive_solver.
        * intros k k' o. rewrite !lookup_insert_Some.
          intros [[<- ->]|[? [[<- ->]|[? Hk]]]] [[<- E']|[? [[<- E']|[? Hk']]]]; simplify_eq; try done;
            try (by exfalso; eauto using eq_sym); try (by eapply H2).
          all: exfalso; match goal with H : _ ≠ _ |- _ => apply H; by eapply H2 end.
    - (* UReset *)
      destruct (hs !! h) as [x|] eqn:Eh; [|done]. simpl. intros [= <- <-]. iIntros "(%Hi & Hh & Ho)". simpl.
      iDestruct (objs_acc with "Hh") as (l Hl) "[Hx Hh]"; [done|].
      iDestruct (take_own with "Ho") as (v) "[Hv Ho]"; [done..|]. rewrite /on_handles /act1. wbind. iApply wp_obj; [done|].
      wbind. iApply (wp_u_reset with "Hx Hv"). iIntros "Hx". wret. wret. iSplitR; [done|]. rewrite /urep /=.
      iSplitR; [iPureIntro; by apply uinv_kill|]. iSplitL "Hh Hx"; [iApply ("Hh" $! None with "Hx")|by iApply "Ho"].
    - (* UResetTo *)
      destruct (alive _ o0) as [v|] eqn:Ev; [|done]. apply alive_iff in Ev. simpl in Ev.
      destruct (hs !! h) as [x|] eqn:Eh; [|done]. simpl. case_decide as Hw; [done|]. intros [= <- <-].
      iIntros "(%Hi & Hh & Ho)". simpl. iDestruct (objs_dom with "Ho") as %[z Hz]; [done|].
      iApply wp_obj'; [done|]. iDestruct (objs_acc with "Hh") as (l Hl) "[Hx Hh]"; [done|].
      iDestruct (take_own with "Ho") as (v') "[Hv Ho]"; [done..|]. rewrite /on_handles /act1. wbind. iApply wp_obj; [done|].
      wbind. iApply (wp_u_reset with "Hx Hv"). iIntros "Hx". wret. wret. iSplitR; [done|]. rewrite /urep /=.
      iSplitR.
      { iPureIntro. rewrite -(insert_insert hs h (Some o0) None).
        apply (uinv_set _ _ _ _ v); [by apply uinv_kill| |].
        - destruct x as [o1|]; [|done]. simpl. rewrite lookup_insert_ne; [done|]. intros ->. apply Hw. rewrite owned_iff. eauto.
        - rewrite owned_iff in Hw. rewrite owned_iff. intros [k Hk]. apply lookup_insert_Some in Hk as [[_ ?]|[_ Hk]]; [done|eauto]. }
      iSplitL "Hh Hx"; [|by iApply "Ho"]. iApply ("Hh" $! (Some o0)). rewrite /uh /= Hz. done.
    - (* URelease *)
      destruct (hs !! h) as [x|] eqn:Eh; [|done]. simpl. intros [= <- <-]. iIntros "(%Hi & Hh & Ho)". simpl.
      iDestruct (objs_acc with "Hh") as (l Hl) "[Hx Hh]"; [done|]. rewrite /on_handles /act1. wbind. iApply wp_obj; [done|].
      wbind. iApply (wp_u_release with "Hx"). iIntros "Hx". wret. wret. iSplitR; [done|]. rewrite /urep /=. iFrame "Ho".
      iSplitR; [iPureIntro; by apply uinv_unset|]. iApply ("Hh" $! None with "Hx").
    - (* UDelete *)
      destruct (alive _ o0) as [v|] eqn:Ev; [|done]. apply alive_iff in Ev. simpl in Ev. simpl.
      case_decide as Hw; [done|]. intros [= <- <-]. iIntros "(%Hi & Hh & Ho)". simpl.
      iDestruct (objs_acc with "Ho") as (x Hx) "[Hx Ho]"; [done|]. iApply wp_obj'; [done|].
      wbind. iApply (wp_delete_obj with "Hx"). iIntros "E". wret. iSplitR; [done|]. rewrite /urep /=. iFrame "Hh".
      iSplitR; [iPureIntro; by apply uinv_dead|]. iApply ("Ho" $! None with "E").
    - (* UIs *)
      destruct (alive _ o0) as [v|] eqn:Ev; [|done]. apply alive_iff in Ev. simpl in Ev. simpl.
      destruct (hs !! h) as [x|] eqn:Eh; [|done]. simpl. intros [= <- <-]. iIntros "(%Hi & Hh & Ho)". simpl.
      iDestruct (objs_dom with "Ho") as %[z Hz]; [done|].
      iDestruct (ptr_inj _ _ x (Some o0) with "Ho") as %Hp; [intros o ->; by eapply Hi|intros o [= <-]; eauto|].
      iApply wp_obj'; [done|]. iDestruct (objs_read with "Hh") as (l Hl) "[Hx Hh]"; [done|].
      rewrite /on_handles /act1 /u_get. wbind. iApply wp_obj; [done|]. wbind. iApply (wp_u_ptr with "Hx"). iIntros "Hx".
      wret. wret. simpl in Hp. rewrite Hz in Hp. iSplitR; [iPureIntro; simpl; f_equal; by apply bool_decide_ext|].
      rewrite /urep /=. iFrame "Ho". iSplitR; [done|]. by iApply "Hh".
    - (* USame *)
      destruct (hs !! h) as [x|] eqn:Eh; [|done]. destruct (hs !! g) as [y|] eqn:Eg; [|done]. simpl. intros [= <- <-].
      iIntros "(%Hi & Hh & Ho)". simpl. rewrite /on_handles /act2 /u_eq /u_get.
      iDestruct (ptr_inj _ _ x y with "Ho") as %Hp; [intros o ->; by eapply Hi..|].
      iDestruct (objs_dom with "Hh") as %[l Hl]; [exact Eh|]. iDestruct (objs_dom with "Hh") as %[l' Hl']; [exact Eg|].
      wbind. wbind. iApply wp_obj; [done|]. wbind. iApply wp_obj; [done|]. wbind.
      iDestruct (objs_read with "Hh") as (l0 Hl0) "[Hx Hh]"; [exact Eh|]. rewrite Hl in Hl0. simplify_eq.
      iApply (wp_u_ptr with "Hx"). iIntros "Hx". iSpecialize ("Hh" with "Hx").
      iDestruct (objs_read with "Hh") as (l1 Hl1) "[Hx Hh]"; [exact Eg|]. rewrite Hl' in Hl1. simplify_eq.
      wbind. iApply (wp_u_ptr with "Hx"). iIntros "Hx". iSpecialize ("Hh" with "Hx").
      wret. wret. wret. iSplitR; [iPureIntro; simpl; f_equal; by apply bool_decide_ext|].
      rewrite /urep /=. by iFrame.
    - (* UBool *)
      destruct (hs !! h) as [x|] eqn:Eh; [|done]. simpl. intros [= <- <-]. iIntros "(%Hi & Hh & Ho)". simpl.
      iDestruct (ptr_inj _ _ x None with "Ho") as %Hp; [intros o ->; by eapply Hi|done|].
      iDestruct (objs_read with "Hh") as (l Hl) "[Hx Hh]"; [done|]. rewrite /on_handles /act1 /u_bool.
      wbind. iApply wp_obj; [done|]. wbind. iApply (wp_u_ptr with "Hx"). iIntros "Hx". wret. wret. wret.
      iSplitR; [iPureIntro; simpl; f_equal; apply bool_decide_ext; by rewrite -Hp|].
      rewrite /urep /=. iFrame "Ho". iSplitR; [done|]. by iApply "Hh".
    - (* URead *)
      destruct (hs !! h) as [[o1|]|] eqn:Eh; [|done..]. simpl.
      destruct (alive _ o1) as [v|] eqn:Ev; [|done]. apply alive_iff in Ev. simpl in Ev. intros [= <- <-].
      iIntros "(%Hi & Hh & Ho)". simpl. iDestruct (objs_read with "Hh") as (l Hl) "[Hx Hh]"; [done|].
      iDestruct (objs_read with "Ho") as (x Hx) "[Hv Ho]"; [done|]. rewrite /uh /= Hx.
      rewrite /on_handles /act1 /u_read /u_deref. wbind. iApply wp_obj; [done|]. wbind.
      iApply (wp_u_ptr with "Hx"). iIntros "Hx". wret. wstep wp_load' "Hv". wret. wret. wret. iSplitR; [done|].
      rewrite /urep /=. iSplitR; [done|]. iSplitL "Hh Hx"; [by iApply "Hh"|by iApply "Ho"].
    - (* UWrite *)
      destruct (hs !! h) as [[o1|]|] eqn:Eh; [|done..]. simpl.
      destruct (alive _ o1) as [v'|] eqn:Ev; [|done]. apply alive_iff in Ev. simpl in Ev. intros [= <- <-].
      iIntros "(%Hi & Hh & Ho)". simpl. iDestruct (objs_read with "Hh") as (l Hl) "[Hx Hh]"; [done|].
      iDestruct (objs_acc with "Ho") as (x Hx) "[Hv Ho]"; [done|]. rewrite /uh /= Hx.
      rewrite /on_handles /act1 /u_write /u_deref. wbind. iApply wp_obj; [done|]. wbind.
      iApply (wp_u_ptr with "Hx"). iIntros "Hx". wret. wstep wp_load' "Hv". wbind. iApply wp_may_throw_any. iSplit.
      { iIntros (x' HA). iSplitR; [done|]. rewrite /urep /=. iSplitR; [done|].
        iSplitL "Hh Hx"; [by iApply "Hh"|]. rewrite -{2}(insert_id os o1 (Some v')) //. by iApply ("Ho" $! (Some v')). }
      iApply (wp_store' with "Hv"). iIntros "Hv". wret. wret. iSplitR; [done|].
      rewrite /urep /=. iSplitR; [iPureIntro; by apply uinv_obj|].
      iSplitL "Hh Hx"; [by iApply "Hh"|by iApply ("Ho" $! (Some v))].
    - (* UReadRaw *)
      destruct (alive _ o0) as [v|] eqn:Ev; [|done]. apply alive_iff in Ev. simpl in Ev. intros [= <- <-].
      iIntros "(%Hi & Hh & Ho)". simpl.
      iDestruct (objs_read with "Ho") as (x Hx) "[Hv Ho]"; [done|]. iApply wp_obj'; [done|].
      wstep wp_load' "Hv". wret. iSplitR; [done|]. rewrite /urep /=. iFrame "Hh". iSplitR; [done|]. by iApply "Ho".
    - (* UDestroy *)
      destruct (hs !! h) as [x|] eqn:Eh; [|done]. simpl. intros [= <- <-]. iIntros "(%Hi & Hh & Ho)". simpl.
      iDestruct (objs_del with "Hh") as (l Hl) "[Hx Hh]"; [done|].
      iDestruct (take_own with "Ho") as (v) "[Hv Ho]"; [done..|]. rewrite /on_handles /drop_obj. wbind. iApply wp_obj; [done|].
      wbind. iApply (wp_u_dtor with "Hx Hv"). iIntros "E". wret. wret. iSplitR; [done|]. rewrite /urep /=. iFrame "Hh".
      iSplitR; [iPureIntro; by apply uinv_del, uinv_kill|]. by iApply "Ho".
  Qed.
End proofs.
