(** shared_ptr: histories, single calls, threads. *)
From iris.proofmode Require Import tactics.
From stdpp Require Import fin_sets infinite.
From Verif Require Import SLTac HistGen HistMore HistThrowProofs ModelShared ModelRace SpecShared SharedProofs.

Section hist.
  Context {T : Type}.
  Notation s_hist ao co evs s env m := (hist (sspec (T:=T) false) s_exec s_init (∅, ∅) (mem0 ao co) evs s env m).

  Lemma srep_init : emp ⊢ srep (T:=T) (∅, ∅) s_init.
  Proof.
    iIntros "_". iExists ∅. simpl.
    iSplitR; [iPureIntro; split; intros *; rewrite lookup_empty; [by intros []|done..]|].
    iSplitR; [by iApply objs_empty|]. iSplitR; by iApply objs_empty.
  Qed.
  Lemma orep_gone eo (os : gmap nat (option (okind * list T))) : map_Forall (λ _ v, v = None) os → objs orep eo os ⊢ emp.
  Proof.
    revert eo. induction os as [|k v os Hk IH] using map_ind; intros eo Hf; [apply objs_gone|].
    apply map_Forall_insert in Hf as [-> Hf]; [|done].
    iIntros "H". iDestruct (objs_del _ _ _ k None with "H") as (l Hl) "[E H]"; [by rewrite lookup_insert|].
    rewrite delete_insert //. iEval (rewrite /orep) in "E". iDestruct "E" as "_". by iApply IH.
  Qed.
  Lemma srep_gone e s : s_gone s → srep (T:=T) e s ⊢ emp.
  Proof.
    destruct s as [hs gs os]. intros [Hh Ho]. simpl in Hh, Ho. subst hs. iIntros "H". iDestruct "H" as (eg Hi) "(Hh & Hg & Ho)". simpl.
    assert (counted ∅ gs = ∅) as ->.
    { apply map_empty. intros g. rewrite counted_lookup. destruct (gs !! g) as [od|] eqn:Eg; [|done].
      pose proof (si_pos _ _ _ Hi g) as Hp. rewrite Eg owners_none in Hp; [|intros *; by rewrite lookup_empty].
      specialize (Hp ltac:(eauto)). lia. }
    iDestruct (objs_gone with "Hh") as "_". iDestruct (objs_gone with "Hg") as "_".
    iDestruct (orep_gone with "Ho") as "_"; done.
  Qed.
  Lemma s_refines_throwing ao co :
    refines_throwing (sspec (T:=T) false) s_exec s_init (∅, ∅) s_gone (λ _, True) ao co.
  Proof. apply (refines_throwing_sim _ _ _ _ _ _ srep); [apply sspec_op_spec|apply srep_init|apply srep_gone]. Qed.
  Lemma s_refines ao co : no_fail co →
    refines_from (sspec (T:=T) false) s_exec s_init (∅, ∅) s_gone (λ _, True) ao co.
  Proof.
    intros Hco. apply (refines_sim _ _ _ _ _ _ srep); [|apply srep_init|apply srep_gone].
    apply op_spec_any_no_copy; [apply sspec_op_spec|]. simpl. apply bool_decide_eq_false. tauto.
  Qed.
  Lemma s_reach ao co evs s env m : s_hist ao co evs s env m → srep env s (blk m).
  Proof.
    intros Hh.
    destruct (hist_sim_any _ _ (λ _, True) srep (Mode true true) s_init (∅, ∅) (mem0 ao co) evs s env m
      (sspec_op_spec (Mode true true)) Hh) as (_ & _ & _ & Hr).
    - apply Forall_forall. done.
    - split; [by intros l; rewrite lookup_empty; intros []|]. done.
    - apply (proj1 (hprop_entails_eq _ _) srep_init). by apply hprop_emp_eq.
    - done.
  Qed.
  Lemma s_groups ao co evs s env m g : s_hist ao co evs s env m →
    is_Some (s_gs s !! g) ↔ 0 < owners (s_hs s) g.
  Proof.
    intros Hh. apply s_reach in Hh as (eg & Hr). apply pure_sep_inv in Hr as [Hi _].
    split; [by eapply si_pos|]. intros Hp. destruct (s_gs s !! g) as [od|] eqn:Eg; [eauto|].
    rewrite owners_none in Hp; [lia|]. intros h [[g' o]|] Hh; [|by intros []]. intros <-.
    pose proof (si_grp _ _ _ Hi _ _ _ Hh) as Hg. rewrite Eg in Hg. by destruct Hg.
  Qed.
  Definition s_live_objs (os : gmap nat (option (okind * list T))) : nat := sum_of (λ v : option (okind * list T), match v with Some _ => 1 | None => 0 end) os.
  Lemma sum_of_one {X} (s : gmap nat X) : sum_of (λ _ : X, 1) s = size s.
  Proof.
    induction s as [|k x s Hk IH] using map_ind; [by rewrite sum_of_empty|].
    rewrite sum_of_insert // map_size_insert_None //. by rewrite IH.
  Qed.
  Lemma size_counted hs (gs : gmap nat (option nat * deleter T)) : size (counted hs gs) = size gs.
  Proof.
    rewrite -!size_dom. f_equal. apply set_eq. intros g. rewrite !elem_of_dom counted_lookup. by rewrite fmap_is_Some.
  Qed.
  Lemma s_memory ao co evs s env m : s_hist ao co evs s env m →
    (∀ h g o, s_hs s !! h = Some (Some (g, o)) →
       ∃ l c o' d, env.1 !! h = Some l ∧ s_gs s !! g = Some (o', d) ∧
         blk m !! l = Some (SHandle (given o := o ;; env.2 !! o) (Some c)) ∧
         blk m !! c = Some (SCtrl (Z.of_nat (owners (s_hs s) g)) (given o := o' ;; env.2 !! o) d)) ∧
    (∀ h, s_hs s !! h = Some None → ∃ l, env.1 !! h = Some l ∧ blk m !! l = Some (SHandle None None)) ∧
    (∀ o v, s_os s !! o = Some (Some v) → ∃ l, env.2 !! o = Some l ∧ blk m !! l = Some (SObj v.1 v.2)) ∧
    size (blk m) = size (s_hs s) + size (s_gs s) + s_live_objs (s_os s).
  Proof.
    intros Hh. apply s_reach in Hh as (eg & Hr). apply pure_sep_inv in Hr as [Hi Hr].
    apply hprop_sep_eq in Hr as (h1 & h0 & Hb & Hd & H1 & Hr).
    apply hprop_sep_eq in Hr as (h2 & h3 & -> & Hd' & H2 & H3).
    apply map_disjoint_union_r in Hd as [Hd1 Hd2].
    assert (h1 ⊆ blk m) as S1 by (rewrite Hb; apply map_union_subseteq_l).
    assert (h2 ⊆ blk m) as S2.
    { rewrite Hb map_union_comm; [|by apply map_disjoint_union_r].
      etrans; [apply (map_union_subseteq_l h2 h3)|apply map_union_subseteq_l]. }
    assert (h3 ⊆ blk m) as S3.
    { rewrite Hb. etrans; [by apply (map_union_subseteq_r h2 h3)|]. apply map_union_subseteq_r. by apply map_disjoint_union_r. }
    split; [|split; [|split]].
    - intros h g o Hx. destruct (objs_at _ _ _ _ _ _ H1 Hx) as (l & h' & Hl & Hp & Hs).
      destruct (si_grp _ _ _ Hi _ _ _ Hx) as [[o' d] Hg].
      destruct (objs_at _ _ _ g (owners (s_hs s) g, (o', d)) _ H2) as (c & h'' & Hc & Hp' & Hs').
      { by rewrite counted_lookup Hg. }
      exists l, c, o', d. split; [done|]. split; [done|]. split.
      + rewrite -Hc. apply (pt_lookup _ _ h'); [exact Hp|]. by etrans.
      + apply (pt_lookup _ _ h''); [exact Hp'|]. by etrans.
    - intros h Hx. destruct (objs_at _ _ _ _ _ _ H1 Hx) as (l & h' & Hl & Hp & Hs).
      exists l. split; [done|]. apply (pt_lookup _ _ h'); [exact Hp|]. by etrans.
    - intros o v Hx. destruct (objs_at _ _ _ _ _ _ H3 Hx) as (l & h' & Hl & Hp & Hs).
      exists l. split; [done|]. apply (pt_lookup _ _ h'); [exact Hp|]. by etrans.
    - rewrite Hb map_size_disj_union; [|by apply map_disjoint_union_r]. rewrite map_size_disj_union //.
      assert (size h1 = size (s_hs s)) as ->.
      { rewrite -sum_of_one. refine (objs_count (hrep env.2 eg) (λ _, 1) size map_size_empty map_size_disj_union _ _ _ _ H1).
        intros l x h ->%pt_eq. by rewrite map_size_singleton. }
      assert (size h2 = size (s_gs s)) as ->.
      { rewrite -(size_counted (s_hs s)) -sum_of_one.
        refine (objs_count (crep env.2) (λ _, 1) size map_size_empty map_size_disj_union _ _ _ _ H2).
        intros l x h ->%pt_eq. by rewrite map_size_singleton. }
      assert (size h3 = s_live_objs (s_os s)) as ->; [|lia].
      refine (objs_count orep _ size map_size_empty map_size_disj_union _ _ _ _ H3).
      intros l [v|] h; simpl.
      * intros ->%pt_eq. by rewrite map_size_singleton.
      * intros E. assert (h = ∅) as -> by (by apply hprop_emp_eq). done.
  Qed.
End hist.

Section calls.
  Context {T : Type}.
  Implicit Types m : mem (scell T).
  Ltac ev := repeat first
    [ progress unfold s_from, s_move, s_copy, s_assign, s_incr, s_use_count, s_ctrl, s_set_count, s_handle, s_bool, s_get, s_eq, load, store,
        free, new, bind, ret, ub
    | progress simpl
    | match goal with H : blk _ !! _ = Some _ |- _ => rewrite H end
    | rewrite lookup_insert | rewrite lookup_insert_ne; [|done] ].
  (** assignment changes the assigned variable only *)
  Lemma ev_s_assign m l l' p c p' c' : blk m !! l = Some (SHandle p c) → blk m !! l' = Some (SHandle p' c') →
    ∃ m', s_assign l l' m = Ok tt m' ∧ blk m' = <[l := SHandle p' c']> (blk m).
  Proof. intros Hl Hl'. eexists. split; [ev; reflexivity|done]. Qed.
  Lemma ev_s_copy m l p c n q d : mem_wf m → blk m !! l = Some (SHandle p (Some c)) → blk m !! c = Some (SCtrl n q d) →
    ∃ l' m', s_copy l m = Ok l' m' ∧ blk m !! l' = None ∧
      blk m' = <[c := SCtrl (n + 1) q d]> (<[l' := SHandle p (Some c)]> (blk m)).
  Proof.
    intros Hw Hl Hc. exists (nxt m). assert (c < nxt m)%positive by (apply Hw; eauto).
    assert (nxt m ≠ c) by lia.
    eexists. split; [ev; reflexivity|]. split; [|done]. apply eq_None_not_Some. intros H'%Hw. lia.
  Qed.
  Lemma ev_s_copy_empty m l p : blk m !! l = Some (SHandle p None) → s_copy l m = UB.
  Proof. intros Hl. ev. done. Qed.
  Lemma ev_s_move m l : s_move l m = s_copy l m.
  Proof. done. Qed.
  Lemma ev_s_eq m l l' p c p' c' : blk m !! l = Some (SHandle p c) → blk m !! l' = Some (SHandle p' c') →
    s_eq l l' m = Ok (bool_decide (p = None ↔ p' = None)) m.
  Proof. intros Hl Hl'. ev. destruct p, p'; done. Qed.
  (** the default deleter of shared_ptr<T> given an object of a derived class, or
      an array; that of shared_ptr<T[]> given an object that is not one *)
  Lemma ev_s_dtor_kind m l p c q n k vs d : blk m !! l = Some (SHandle p (Some c)) → blk m !! c = Some (SCtrl n (Some q) d) →
    blk m !! q = Some (SObj k vs) → n = 1%Z →
    (∃ y, d = DDelete y ∧ k ≠ KOne) ∨ (d = DDeleteArr ∧ k ≠ KArr) →
    s_dtor l m = UB.
  Proof.
    intros Hl Hc Hq -> Hk. unfold s_dtor. assert (c ≠ q) by congruence.
    destruct Hk as [(y & -> & Hk)|[-> Hk]]; ev; unfold s_delete_obj, s_obj; ev; rewrite decide_False //.
  Qed.
  Lemma ev_s_dtor_sub m l p c q vs y : blk m !! l = Some (SHandle p (Some c)) →
    blk m !! c = Some (SCtrl 1 (Some q) (DDelete y)) → blk m !! q = Some (SObj KSub vs) → s_dtor l m = UB.
  Proof. intros Hl Hc Hq. eapply ev_s_dtor_kind; [exact Hl|exact Hc|exact Hq|done|]. left. by exists y. Qed.
  (** get_deleter of a group made with a pointer to a derived class *)
  Lemma ev_s_get_deleter m l p c q n d ty : blk m !! l = Some (SHandle p (Some c)) → blk m !! c = Some (SCtrl n q d) →
    s_get_deleter l ty m = Ok (match d with DRun YSame ty' _ => bool_decide (ty' = ty) | _ => false end) m.
  Proof. intros Hl Hc. unfold s_get_deleter. ev. done. Qed.
  Lemma ev_s_from_fail m p d o : aorc m = true :: o → ∃ m', s_from p d m = Exn BadAlloc m' ∧ blk m' = blk m.
  Proof. intros Ho. unfold s_from, alloc, bind. rewrite Ho. eauto. Qed.
End calls.

(** the answers that differ, for refutations *)
Definition sneq (a b : sout nat) : bool :=
  match a, b with
  | SoUnit, SoUnit => false
  | SoBool x, SoBool y => negb (bool_decide (x = y))
  | SoVal x, SoVal y => negb (bool_decide (x = y))
  | SoNum x, SoNum y => negb (bool_decide (x = y))
  | _, _ => true
  end.
Lemma sneq_refl a : sneq a a = false.
Proof. destruct a; simpl; [done|by rewrite bool_decide_true..]. Qed.
(** only the operations in question, besides the uncontroversial ones *)
Definition only (bad : sop nat → bool) (op : sop nat) : bool :=
  match op with SMove _ _ | SEq _ _ | SAssign _ _ | SRawSub _ _ => bad op | _ => true end.
Definition is_assign (op : sop nat) : bool := match op with SAssign _ _ => true | _ => false end.
Definition is_move (op : sop nat) : bool := match op with SMove _ _ => true | _ => false end.
Definition is_sub (op : sop nat) : bool := match op with SRawSub _ _ => true | _ => false end.
Definition is_eq (op : sop nat) : bool := match op with SEq _ _ => true | _ => false end.
Notation s_wrong okb ops op := (wrong (sspec true) s_exec sneq okb s_init (∅, ∅) (mem0 [] []) ops op = true).
Lemma assign_wrong :
  s_wrong (only is_assign) [SRaw 0 5; SRaw 1 6; SFrom 0 (Some 0) (DDelete YSame); SFrom 1 (Some 1) (DDelete YSame); SAssign 0 1] (SCount 0).
Proof. vm_compute. reflexivity. Qed.
Lemma assign_dangling :
  s_wrong (only is_assign) [SRaw 0 5; SRaw 1 6; SFrom 0 (Some 0) (DDelete YSame); SFrom 1 (Some 1) (DDelete YSame); SAssign 0 1; SDestroy 1] (SRead 0).
Proof. vm_compute. reflexivity. Qed.
Lemma copy_empty_wrong : s_wrong (only (λ _, false)) [SNew 0] (SCopy 1 0).
Proof. vm_compute. reflexivity. Qed.
Lemma move_wrong : s_wrong (only is_move) [SRaw 0 5; SFrom 0 (Some 0) (DDelete YSame); SMove 1 0] (SBool 0).
Proof. vm_compute. reflexivity. Qed.
Lemma sub_wrong : s_wrong (only is_sub) [SRawSub 0 5; SFrom 0 (Some 0) (DDelete YSub)] (SDestroy 0).
Proof. vm_compute. reflexivity. Qed.
Lemma get_deleter_wrong : s_wrong (only is_sub) [SRawSub 0 5; SFrom 0 (Some 0) (DRun YSub 3 S)] (SGetDel 0 3).
Proof. vm_compute. reflexivity. Qed.
Lemma eq_wrong :
  s_wrong (only is_eq) [SRaw 0 5; SRaw 1 5; SFrom 0 (Some 0) (DDelete YSame); SFrom 1 (Some 1) (DDelete YSame)] (SEq 0 1).
Proof. vm_compute. reflexivity. Qed.

(** ** Threads *)
Local Arguments s_ctrl : simpl never.
Local Arguments s_set_count : simpl never.
Local Arguments s_run_deleter : simpl never.
Section threads.
  Context {T : Type}.
  (** alone, a thread's copy and destruction are the sequential ones *)
  Lemma alone_copy r k (m : mem (scell T)) : alone (copy_thr r k) m = (l <- s_copy r ;; alone (k l)) m.
  Proof.
    simpl. unfold s_copy, s_incr, bind. destruct (s_handle r m) as [[p c] m1|e m1| |]; [|done..]. simpl.
    destruct (s_ctrl c _) as [[[n' q] d] m2|e m2| |]; [|done..]. simpl.
    destruct (s_set_count c (n' + 1) m2) as [[] m3|e m3| |]; done.
  Qed.
  Lemma alone_dtor l k (m : mem (scell T)) : alone (dtor_thr l k) m = (s_dtor l ;;; alone k) m.
  Proof.
    simpl. unfold s_dtor, bind. destruct (s_handle l m) as [[p [c|]] m1|e m1| |]; [| |done..]; simpl.
    - destruct (s_ctrl (Some c) m1) as [[[n' q] d] m2|e m2| |]; [|done..]. simpl.
      destruct (s_set_count (Some c) (n' - 1) m2) as [[] m3|e m3| |]; [|done..].
      destruct (decide (n' - 1 = 0)%Z) as [Hz|Hz]; simpl; [|by destruct (free l m3)].
      destruct (s_run_deleter q d m3) as [[] m4|e m4| |]; [|done..].
      destruct (free c m4) as [[] m5|e m5| |]; [|done..]. by destruct (free l m5).
    - by destruct (free l m1).
  Qed.

  Implicit Types (hs : gmap nat (option (nat * option nat))) (s : sstate T).
  Definition all_in hs g : Prop := ∀ h x, hs !! h = Some x → in_group g x.
  Lemma owners_all hs g : all_in hs g → owners hs g = size hs.
  Proof.
    intros H. unfold owners. f_equal. apply map_eq. intros h.
    destruct (hs !! h) as [x|] eqn:E.
    - apply map_filter_lookup_Some. split; [done|]. by eapply H.
    - apply map_filter_lookup_None. by left.
  Qed.
  Lemma threads_spec (own : nat → nat) g o v gs os sched : ∀ hs (L F : nat → gset nat),
    all_in hs g → hs ≠ ∅ → gs !! g = Some (Some o, (DDelete YSame)) → os !! o = Some (Some (KOne, v)) →
    (∀ h, is_Some (hs !! h) ↔ h ∈ L (own h)) →
    Forall (λ p, Forall (λ h, own h = p.1) (mentions p.2)) sched →
    (∀ i, live_run (T:=T) (L i) (ops_of i sched) = Some (F i)) →
    ∃ s' outs, spec_run (sspec false) (SState hs gs os) sched.*2 = Some (s', outs) ∧
      all_in (s_hs s') g ∧ (∀ h, is_Some (s_hs s' !! h) ↔ h ∈ F (own h)) ∧
      if decide (s_hs s' = ∅) then s_os s' = <[o := None]> os ∧ s_gs s' = delete g gs else s_os s' = os ∧ s_gs s' = gs.
  Proof.
    induction sched as [|[i op] sched IH]; intros hs L F Hall Hne Hg Ho HL Hm Hrun.
    { exists (SState hs gs os), []. split; [done|]. split; [done|]. split.
      - intros h. rewrite HL. specialize (Hrun (own h)). simpl in Hrun. by injection Hrun as ->.
      - simpl. by rewrite decide_False. }
    inversion Hm as [|? ? Hop Hms]; subst. simpl in Hop.
    assert (∃ L', live_step (L i) op = Some L' ∧ ∀ j, live_run (if decide (j = i) then L' else L j) (ops_of j sched) = Some (F j))
      as (L' & Hl & Hrun').
    { pose proof (Hrun i) as Hi. unfold ops_of in Hi. rewrite filter_cons_True //= in Hi.
      destruct (live_step (L i) op) as [L'|] eqn:El; [|done]. exists L'. split; [done|]. intros j.
      destruct (decide (j = i)) as [->|Hj]; [done|]. specialize (Hrun j). unfold ops_of in Hrun.
      rewrite filter_cons_False //= in Hrun. }
    clear Hrun. destruct op; simpl in Hl; try done.
    - (* copy *)
      case_decide as Hd; [|done]. injection Hl as <-. destruct Hd as [Hg0 Hh].
      inversion Hop as [|? ? Hoh Hop']; subst. inversion Hop' as [|? ? Hog _]; subst.
      rewrite -Hog in Hg0. apply HL in Hg0 as [x Hx].
      pose proof (Hall _ _ Hx) as Hxg. destruct x as [[g' o']|]; [|done]. simpl in Hxg. subst g'.
      assert (hs !! h = None) as Hn.
      { apply eq_None_not_Some. by rewrite HL. }
      simpl. rewrite Hx. unfold join, sdecl. simpl. rewrite Hn.
      destruct (IH (<[h := Some (g, o')]> hs) (λ j, if decide (j = own h) then {[h]} ∪ L (own h) else L j) F)
        as (s' & outs & Hs & H1 & H2 & H3); try done.
      + intros k x. rewrite lookup_insert_Some. intros [[<- <-]|[_ Hk]]; [done|by eapply Hall].
      + apply insert_non_empty.
      + intros k. rewrite lookup_insert_is_Some. case_decide as Hk.
        * rewrite elem_of_union elem_of_singleton. rewrite HL Hk. destruct (decide (h = k)); naive_solver.
        * rewrite HL. split; [|right; split; [|done]; by intros <-]. intros [->|[_ ?]]; [done|done].
      + rewrite Hs. by exists s', (SoUnit :: outs).
    - (* use_count *)
      case_decide as Hd; [|done]. injection Hl as <-.
      inversion Hop as [|? ? Hoh _]; subst. apply HL in Hd as [x Hx]. simpl. rewrite Hx.
      destruct (IH hs L F) as (s' & outs & Hs & H1 & H2 & H3); try done.
      { intros j. specialize (Hrun' j). case_decide; [by subst|done]. }
      rewrite Hs. by eexists s', (_ :: outs).
    - (* destruction *)
      case_decide as Hd; [|done]. injection Hl as <-.
      inversion Hop as [|? ? Hoh _]; subst. pose proof (proj2 (HL h) Hd) as [x Hx]. simpl. rewrite Hx.
      pose proof (Hall _ _ Hx) as Hxg. destruct x as [[g' o']|]; [|done]. simpl in Hxg. subst g'.
      simpl. unfold cleanup. simpl.
      assert (all_in (delete h hs) g) as Hall'.
      { intros k x [_ Hk]%lookup_delete_Some. by eapply Hall. }
      assert (∀ k, is_Some (delete h hs !! k) ↔ k ∈ (if decide (own k = own h) then L (own h) ∖ {[h]} else L (own k))) as HL'.
      { intros k. rewrite lookup_delete_is_Some HL. case_decide as Hk.
        - rewrite elem_of_difference elem_of_singleton Hk. naive_solver.
        - split; [by intros [_ ?]|]. split; [|done]. by intros <-. }
      rewrite owners_all //. destruct (decide (delete h hs = ∅)) as [He|He].
      + destruct (decide (size (delete h hs) = 0)) as [_|Hz]; [|by rewrite He in Hz]. rewrite He. rewrite Hg. simpl. unfold remove. rewrite Ho. simpl.
        assert (sched = []) as ->.
        { destruct sched as [|[j op] sched]; [done|]. exfalso. specialize (Hrun' j). unfold ops_of in Hrun'.
          rewrite filter_cons_True //= in Hrun'. set (Lj := if decide (j = own h) then _ else _) in Hrun'.
          inversion Hms as [|? ? Hop' _]; subst. simpl in Hop'.
          assert (∀ k, own k = j → k ∉ Lj) as Hno.
          { intros k <-. unfold Lj. rewrite -HL' He lookup_empty. by intros []. }
          destruct op; simpl in Hrun'; try done; repeat case_decide; try done; decompose_Forall_hyps; naive_solver. }
        simpl. eexists _, _. split; [done|]. simpl. split; [by intros ??; rewrite lookup_empty|]. split.
        * intros k. specialize (Hrun' (own k)). simpl in Hrun'. injection Hrun' as <-. rewrite -HL' He. done.
        * by destruct (decide _) as [_|[]].
      + destruct (decide (size (delete h hs) = 0)) as [Hz|_]; [by apply map_size_empty_iff in Hz|].
        destruct (IH (delete h hs) (λ j, if decide (j = own h) then L (own h) ∖ {[h]} else L j) F)
          as (s' & outs & Hs & H1 & H2 & H3); try done.
        rewrite Hs. by exists s', (SoUnit :: outs).
  Qed.
End threads.

Lemma threads_run {T} ao co evs (s : sstate T) env m (own : nat → nat) g o v sched (L F : nat → gset nat) :
  no_fail ao → no_fail co → hist (sspec false) s_exec s_init (∅, ∅) (mem0 ao co) evs s env m →
  (∀ h x, s_hs s !! h = Some x → in_group g x) → s_hs s ≠ ∅ →
  s_gs s !! g = Some (Some o, (DDelete YSame)) → s_os s !! o = Some (Some (KOne, v)) →
  (∀ h, is_Some (s_hs s !! h) ↔ h ∈ L (own h)) →
  Forall (λ p, Forall (λ h, own h = p.1) (mentions p.2)) sched →
  (∀ i, live_run (L i) (ops_of i sched) = Some (F i)) →
  ∃ evs' s' env' m', exec (sspec false) s_exec s env m sched.*2 = Some (evs', s', env', m') ∧
    Forall (λ ev, ¬ threw ev) evs' ∧
    (∀ h, is_Some (s_hs s' !! h) ↔ h ∈ F (own h)) ∧ owners (s_hs s') g = size (s_hs s') ∧
    if decide (s_hs s' = ∅) then s_os s' = <[o := None]> (s_os s) ∧ s_gs s' = delete g (s_gs s)
    else s_os s' = s_os s ∧ s_gs s' = s_gs s.
Proof.
  intros Hao Hco Hh Hall Hne Hg Ho HL Hm Hrun. destruct s as [hs gs os]. simpl in *.
  destruct (threads_spec own g o v gs os sched hs L F) as (s' & outs & Hs & H1 & H2 & H3); try done.
  edestruct (exec_spec_run (sspec (T:=T) false) s_exec) as (env' & m' & He);
    [exact (s_refines ao co Hco)|exact Hao|exact Hh|by apply Forall_forall|by apply Forall_forall|exact Hs|].
  rewrite He. eexists _, s', env', m'. split; [done|].
  split; [|split; [done|]; split; [by apply owners_all|done]].
  clear. generalize (sched.*2). intros ops. revert outs.
  induction ops as [|op ops IH]; intros [|o' outs]; simpl; constructor; auto.
Qed.

(** two variables (1 and 2) sharing the object 5 *)
Notation race_mem := (Mem {[ 1%positive := SHandle (Some 4%positive) (Some 3%positive);
                             2%positive := SHandle (Some 4%positive) (Some 3%positive);
                             3%positive := SCtrl 2 (Some 4%positive) (DDelete YSame); 4%positive := SObj KOne [5] ]} 5%positive [] []).
(** each thread destroys its own: both read 2, both write 1, nobody deletes *)
Lemma race_leak :
  match schedule [dtor_thr 1%positive TDone; dtor_thr 2%positive TDone] [0; 1; 0; 1] race_mem with
  | Ok [TDone; TDone] m => map_to_list (blk m) = [(3%positive, SCtrl 1 (Some 4%positive) (DDelete YSame)); (4%positive, SObj KOne [5])] ∨
                           map_to_list (blk m) = [(4%positive, SObj KOne [5]); (3%positive, SCtrl 1 (Some 4%positive) (DDelete YSame))]
  | _ => False
  end.
Proof. vm_compute. auto. Qed.
Lemma race_sequential :
  match schedule [dtor_thr 1%positive TDone; dtor_thr 2%positive TDone] [0; 0; 1; 1] race_mem with
  | Ok [TDone; TDone] m => map_to_list (blk m) = []
  | _ => False
  end.
Proof. vm_compute. auto. Qed.
(** each thread makes a copy; both read 2, both write 3; the destructions then
    delete the object while a variable is left, whose own destruction is
    undefined *)
Lemma race_dangling :
  schedule [copy_thr 1%positive (λ l, dtor_thr l (dtor_thr 1%positive TDone)); copy_thr 2%positive (λ l, dtor_thr l (dtor_thr 2%positive TDone))]
    [0; 1; 0; 1; 0; 0; 0; 0; 1; 1; 1; 1] race_mem = UB.
Proof. vm_compute. reflexivity. Qed.
