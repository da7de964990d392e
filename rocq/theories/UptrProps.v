(** unique_ptr: histories and single calls. *)
From iris.proofmode Require Import tactics.
From Verif Require Import SLTac HistGen HistMore HistThrowProofs ModelUptr SpecUptr UptrProofs.

Section hist.
  Context {T : Type}.
  Notation u_hist ao co evs s env m := (hist (uspec (T:=T)) u_run u_init (∅, ∅) (mem0 ao co) evs s env m).

  Lemma urep_init : emp ⊢ urep (T:=T) (∅, ∅) u_init.
  Proof.
    rewrite /urep /=. iIntros "_". iSplitR; [iPureIntro; split; intros *; by rewrite lookup_empty|].
    iSplitR; by iApply objs_empty.
  Qed.
  Lemma uo_gone eo (os : gmap nat (option T)) : map_Forall (λ _ v, v = None) os → objs uo eo os ⊢ emp.
  Proof.
    revert eo. induction os as [|k v os Hk IH] using map_ind; intros eo Hf; [apply objs_gone|].
    apply map_Forall_insert in Hf as [-> Hf]; [|done].
    iIntros "H". iDestruct (objs_del _ _ _ k None with "H") as (l Hl) "[E H]"; [by rewrite lookup_insert|].
    rewrite delete_insert //. iEval (rewrite /uo) in "E". iDestruct "E" as "_". by iApply IH.
  Qed.
  Lemma urep_gone e s : u_gone s → urep (T:=T) e s ⊢ emp.
  Proof.
    intros [Hh Ho]. rewrite /urep Hh. iIntros "(_ & Hh & Ho)".
    iDestruct (objs_gone with "Hh") as "_". iDestruct (uo_gone with "Ho") as "_"; done.
  Qed.
  Lemma u_refines_throwing ao co :
    refines_throwing (uspec (T:=T)) u_run u_init (∅, ∅) u_gone (λ _, True) ao co.
  Proof. apply (refines_throwing_sim _ _ _ _ _ _ urep); [apply uspec_op_spec|apply urep_init|apply urep_gone]. Qed.
  Lemma uspec_std_less s op r : uspec_std (T:=T) false s op = Some r → uspec s op = Some r.
  Proof.
    destruct op; try done. simpl. destruct (u_hs s !! h) as [x|] eqn:Eh; [|done]. destruct (u_hs s !! g) as [y|] eqn:Eg; [|done].
    case_decide as Hd; [|done]. intros <-. destruct (decide (h = g)) as [->|Hne].
    - by rewrite !insert_insert.
    - destruct Hd as [?|[?| -> ]]; done.
  Qed.
  Lemma u_std_partial ao co :
    refines_throwing (uspec_std (T:=T) false) u_run u_init (∅, ∅) u_gone (λ _, True) ao co.
  Proof.
    apply (refines_throwing_sim _ _ _ _ _ _ urep); [|apply urep_init|apply urep_gone].
    intros env s op s' o. apply (op_spec_any_less _ _ _ _ _ _ (uspec_op_spec _) uspec_std_less).
  Qed.
  Lemma u_refines ao co : no_fail co →
    refines_from (uspec (T:=T)) u_run u_init (∅, ∅) u_gone (λ _, True) ao co.
  Proof.
    intros Hco. apply (refines_sim _ _ _ _ _ _ urep); [|apply urep_init|apply urep_gone].
    apply op_spec_any_no_copy; [apply uspec_op_spec|]. simpl. apply bool_decide_eq_false. tauto.
  Qed.

  Lemma u_reach ao co evs s env m : u_hist ao co evs s env m → urep env s (blk m).
  Proof.
    intros Hh.
    destruct (hist_sim_any _ _ (λ _, True) urep (Mode true true) u_init (∅, ∅) (mem0 ao co) evs s env m
      (uspec_op_spec (Mode true true)) Hh) as (_ & _ & _ & Hr).
    - apply Forall_forall. done.
    - split; [by intros l; rewrite lookup_empty; intros []|]. done.
    - apply (proj1 (hprop_entails_eq _ _) urep_init). by apply hprop_emp_eq.
    - done.
  Qed.

  (** one owner at most, and what is owned is alive *)
  Lemma u_unique ao co evs s env m h g o : u_hist ao co evs s env m →
    u_hs s !! h = Some (Some o) → u_hs s !! g = Some (Some o) → h = g ∧ is_Some (alive s o).
  Proof.
    intros Hh H1 H2. apply u_reach in Hh. apply pure_sep_inv in Hh as [[Hi Hj] _].
    split; [by eapply Hj|]. destruct (Hi _ _ H1) as [v Hv]. exists v. by apply alive_iff.
  Qed.
  Definition live_objs (os : gmap nat (option T)) : nat := sum_of (λ v : option T, match v with Some _ => 1 | None => 0 end) os.
  Lemma u_memory ao co evs s env m : u_hist ao co evs s env m →
    (∀ h x, u_hs s !! h = Some x →
       ∃ l, env.1 !! h = Some l ∧ blk m !! l = Some (UPtr (given o := x ;; env.2 !! o))) ∧
    (∀ o v, u_os s !! o = Some (Some v) → ∃ l, env.2 !! o = Some l ∧ blk m !! l = Some (UObj v)) ∧
    size (blk m) = size (u_hs s) + live_objs (u_os s).
  Proof.
    intros Hh. apply u_reach in Hh. apply pure_sep_inv in Hh as [_ Hr].
    apply hprop_sep_eq in Hr as (h1 & h2 & Hb & Hd & H1 & H2). split; [|split].
    - intros h x Hx. destruct (objs_at _ _ _ _ _ _ H1 Hx) as (l & h' & Hl & Hp & Hs).
      exists l. split; [done|]. apply (pt_lookup _ _ h'); [exact Hp|]. rewrite Hb. etrans; [done|]. apply map_union_subseteq_l.
    - intros o v Hx. destruct (objs_at _ _ _ _ _ _ H2 Hx) as (l & h' & Hl & Hp & Hs).
      exists l. split; [done|]. apply (pt_lookup _ _ h'); [exact Hp|]. rewrite Hb. etrans; [done|]. by apply map_union_subseteq_r.
    - rewrite Hb map_size_disj_union //. f_equal.
      + assert (size h1 = sum_of (λ _ : option nat, 1) (u_hs s)) as ->.
        { apply (objs_count (uh env.2) (λ _, 1) size map_size_empty map_size_disj_union) in H1; [done|].
          intros l x h ->%pt_eq. by rewrite map_size_singleton. }
        clear. induction (u_hs s) as [|k x hs Hk IH] using map_ind; [by rewrite sum_of_empty|].
        rewrite sum_of_insert // map_size_insert_None //. by rewrite IH.
      + unfold live_objs. refine (objs_count uo _ size map_size_empty map_size_disj_union _ _ _ _ H2).
        intros l [v|] h; simpl.
        * intros ->%pt_eq. by rewrite map_size_singleton.
        * intros E. assert (h = ∅) as -> by (by apply hprop_emp_eq). done.
  Qed.
End hist.

Section calls.
  Context {T : Type}.
  Implicit Types m : mem (ucell T).
  Ltac ev := repeat first
    [ progress unfold u_move, u_from, u_release, u_assign, u_ptr, u_set_ptr, u_reset, u_dtor, delete_obj, u_get, load, store,
        free, new, bind, ret
    | progress simpl
    | match goal with H : blk _ !! _ = Some _ |- _ => rewrite H end
    | rewrite lookup_insert | rewrite lookup_insert_ne; [|done] ].
  Lemma ev_u_move m l p : mem_wf m → blk m !! l = Some (UPtr p) →
    ∃ l' m', u_move l m = Ok l' m' ∧ blk m !! l' = None ∧ blk m' = <[l' := UPtr p]> (<[l := UPtr None]> (blk m)).
  Proof.
    intros Hw Hl. exists (nxt m). eexists. split; [ev; reflexivity|]. split; [|done].
    apply eq_None_not_Some. intros H%Hw. lia.
  Qed.
  Lemma ev_u_assign m l l' p q : blk m !! l = Some (UPtr p) → blk m !! l' = Some (UPtr q) →
    ∃ m', u_assign l l' m = Ok tt m' ∧ blk m' = <[l := UPtr q]> (<[l' := UPtr p]> (blk m)).
  Proof.
    intros Hl Hl'. destruct (decide (l = l')) as [->|Hne].
    - simplify_eq. eexists. split; [ev; reflexivity|done].
    - eexists. split; [ev; reflexivity|done].
  Qed.
  Lemma ev_u_release m l p : blk m !! l = Some (UPtr p) →
    ∃ m', u_release l m = Ok p m' ∧ blk m' = <[l := UPtr None]> (blk m).
  Proof. intros Hl. eexists. split; [ev; reflexivity|done]. Qed.
  Lemma ev_u_reset m l p n : blk m !! l = Some (UPtr p) →
    (∀ x, p = Some x → ∃ v, blk m !! x = Some (UObj v)) →
    ∃ m', u_reset l n m = Ok tt m' ∧
      blk m' = (match p with Some x => delete x | None => id end) (<[l := UPtr n]> (blk m)).
  Proof.
    intros Hl Hp. destruct p as [x|].
    - destruct (Hp x eq_refl) as [v Hv]. assert (l ≠ x) by congruence. eexists. split; [ev; reflexivity|done].
    - eexists. split; [ev; reflexivity|done].
  Qed.
  Lemma ev_u_dtor m l p : blk m !! l = Some (UPtr p) →
    (∀ x, p = Some x → ∃ v, blk m !! x = Some (UObj v)) →
    ∃ m', u_dtor l m = Ok tt m' ∧
      blk m' = delete l ((match p with Some x => delete x | None => id end) (blk m)).
  Proof.
    intros Hl Hp. destruct p as [x|].
    - destruct (Hp x eq_refl) as [v Hv]. assert (x ≠ l) by congruence. eexists. split; [|shelve]. ev.
      rewrite lookup_delete_ne // Hl. reflexivity.
      Unshelve. done.
    - eexists. split; [ev; reflexivity|done].
  Qed.
  (** make_unique gives the storage back if the object cannot be built *)
  Lemma ev_u_make m v : mem_wf m →
    match u_make v m with
    | Ok l m' => ∃ x, x ≠ l ∧ blk m !! x = None ∧ blk m !! l = None ∧ blk m' = <[l := UPtr (Some x)]> (<[x := UObj v]> (blk m))
    | Exn _ m' => blk m' = blk m
    | UB | Div => False
    end.
  Proof.
    intros Hw. assert (∀ l, (nxt m ≤ l)%positive → blk m !! l = None) as Hf.
    { intros l Hl. apply eq_None_not_Some. intros H%Hw. lia. }
    assert (∀ ao co, match u_make v (Mem (blk m) (nxt m) ao co) with
      | Ok l m' => ∃ x, x ≠ l ∧ blk m !! x = None ∧ blk m !! l = None ∧ blk m' = <[l := UPtr (Some x)]> (<[x := UObj v]> (blk m))
      | Exn _ m' => blk m' = blk m
      | UB | Div => False
      end) as H.
    { intros ao co. unfold u_make, new_obj, u_from, alloc, may_throw, on_throw, catch, new, bind, ret, throw, free.
      destruct ao as [|[] ao], co as [|[] co]; simpl; try done; rewrite ?lookup_insert /=;
        try (rewrite delete_insert; [done|by apply Hf]).
      all: exists (nxt m); split; [lia|]; split; [by apply Hf|]; split; [apply Hf; lia|done]. }
    specialize (H (aorc m) (corc m)). by destruct m.
  Qed.
End calls.

(** the answers that differ, for refutations *)
Definition uneq (a b : uout nat) : bool :=
  match a, b with
  | UoUnit, UoUnit => false
  | UoBool x, UoBool y => negb (bool_decide (x = y))
  | UoVal x, UoVal y => negb (bool_decide (x = y))
  | _, _ => true
  end.
Lemma uneq_refl a : uneq a a = false.
Proof. destruct a; simpl; [done|by rewrite bool_decide_true..]. Qed.
Lemma u_assign_wrong :
  wrong (uspec_std true) u_run uneq (λ _, true) u_init (∅, ∅) (mem0 [] []) [UMake 0 0 5; UMake 1 1 6; UAssign 0 1] (UBool 1) = true.
Proof. vm_compute. reflexivity. Qed.
