(** Proofs behind the vector theorems of PropVector.v. *)
From iris.proofmode Require Import tactics.
From Verif Require Import SLTac Hist HistProofs Objs ModelVector SpecVector
  VectorProofs VectorHist VectorMem.

Section props.
  Context {V : Type} (dflt : V) (veq : V → V → bool).
  Notation refines ok := (refines_from (vspec dflt veq) (v_run dflt veq) ∅ ∅ (λ s, s = ∅) ok).
  Notation mT := (Mode true false) (only parsing).
  Implicit Types (m : mem (vcell V)) (xs : list V).

  Lemma v_refines ao co :
    no_fail co → refines (v_ok (bool_decide (¬ no_fail ao))) ao co.
  Proof.
    intros Hco. apply (refines_sim _ _ _ _ _ _ (objs (vec (V:=V)))).
    - apply (v_op_spec dflt veq (Mode _ _)). simpl. apply bool_decide_eq_false. tauto.
    - apply objs_empty.
    - intros env s ->. apply objs_gone.
  Qed.
  Lemma v_refines_fair ao co :
    no_fail ao → no_fail co → refines (λ _, True) ao co.
  Proof.
    intros Hao Hco evs s env m Hh Hok.
    destruct (v_refines ao co Hco evs s env m Hh) as (H1 & H2 & H3 & H4).
    { eapply Forall_impl; [exact Hok|]. intros [op ?] _. destruct op; try done. simpl.
      rewrite bool_decide_eq_true. tauto. }
    split; [done|]. split; [done|]. split; [|done].
    intros op _. apply H3. destruct op; try done. simpl. rewrite bool_decide_eq_true. tauto.
  Qed.
  Lemma v_refines_fail ao co :
    no_fail co → refines (v_ok true) ao co.
  Proof.
    intros Hco evs s env m Hh Hok.
    destruct (v_refines ao co Hco evs s env m Hh) as (H1 & H2 & H3 & H4).
    { eapply Forall_impl; [exact Hok|]. intros [op ?]. destruct op; try done. simpl. auto. }
    split; [done|]. split; [done|]. split; [|done].
    intros op Hop. apply H3. destruct op; try done. simpl in *. auto.
  Qed.

  Lemma v_reach ao co evs s env m :
    no_fail co →
    hist (vspec dflt veq) (v_run dflt veq) ∅ ∅ (mem0 ao co) evs s env m →
    Forall (λ ev, v_ok true ev.1) evs →
    objs (vec (V:=V)) env s (blk m) ∧ may_fail_alloc m.
  Proof.
    intros Hco Hh Hok.
    destruct (hist_sim _ _ _ _ mT ∅ ∅ (mem0 ao co) evs s env m (v_op_spec dflt veq mT eq_refl) Hh Hok)
      as (_ & _ & Hg & Hr).
    - apply good_may_fail. split; [by intros l; rewrite lookup_empty; intros []|done].
    - apply (proj1 (hprop_entails_eq _ _) (objs_empty (vec (V:=V)))). by apply hprop_emp_eq.
    - split; [done|by apply good_may_fail'].
  Qed.

  Lemma v_live ao co evs s env m :
    no_fail co →
    hist (vspec dflt veq) (v_run dflt veq) ∅ ∅ (mem0 ao co) evs s env m →
    Forall (λ ev, v_ok true ev.1) evs →
    live (blk m) = total s ∧ (s = ∅ → blk m = ∅).
  Proof.
    intros Hco Hh Hok. destruct (v_reach _ _ _ _ _ _ Hco Hh Hok) as [Hr Hm]. split.
    - apply (proj1 (hprop_entails_eq _ _) (objs_live env s)) in Hr. done.
    - intros ->. apply (proj1 (hprop_entails_eq _ _) (objs_gone _ env)) in Hr.
      by apply hprop_emp_eq in Hr.
  Qed.

  Lemma v_holds ao co evs s env m h xs :
    no_fail co →
    hist (vspec dflt veq) (v_run dflt veq) ∅ ∅ (mem0 ao co) evs s env m →
    Forall (λ ev, v_ok true ev.1) evs →
    s !! h = Some xs →
    ∃ l k p, env !! h = Some l ∧ holds m l xs k p ∧ length xs ≤ k.
  Proof.
    intros Hco Hh Hok Hs. destruct (v_reach _ _ _ _ _ _ Hco Hh Hok) as [Hr Hm].
    apply (proj1 (hprop_entails_eq _ _) (objs_read _ _ _ _ _ Hs)) in Hr as (l & Hr).
    apply hprop_sep_eq in Hr as (h1 & h2 & Hb & _ & H1 & H2).
    apply (proj1 (hprop_affinely_pure_eq _ _)) in H1 as [-> Hl]. rewrite left_id_L in Hb.
    subst h2. apply hprop_sep_eq in H2 as (h3 & h4 & Hb & Hd & (k & p & Hv) & _).
    exists l, k, p. split; [done|]. assert (holds m l xs k p) as Hho by by eapply vobj_holds.
    split; [done|]. destruct Hho as [_ Hho]. destruct p; naive_solver lia.
  Qed.

  (** single calls *)
  Lemma e_reserve m this xs k p n :
    may_fail_alloc m → holds m this xs k p →
    effect m this p (v_reserve this n m) (λ _, True) xs (λ k' p', k' = k `max` n ∧ (n ≤ k → p' = p)).
  Proof.
    intros Hm Hh. eapply run_effect; [done..|]. iIntros "H".
    iApply (wp_v_reserve mT eq_refl with "H"). iSplit; [by iIntros (_) "$"|].
    iIntros (p') "[%Hp H]". iExists _, p'. iFrame. iPureIntro. naive_solver.
  Qed.
  Lemma e_push m this xs k p v :
    may_fail_alloc m → holds m this xs k p →
    effect m this p (v_push_back this (RVal v) m) (λ _, True) (xs ++ [v])
      (λ k' p', k' = grow (length xs) k ∧ (length xs < k → p' = p)).
  Proof.
    intros Hm Hh. eapply run_effect; [done..|]. iIntros "H".
    iApply (wp_v_push_back mT eq_refl with "H"). iSplit; [by iIntros (_) "$"|].
    iIntros (p') "%Hp H". iExists _, p'. iFrame. iPureIntro. naive_solver.
  Qed.
  Lemma e_resize m this xs k p n :
    may_fail_alloc m → holds m this xs k p →
    effect m this p (v_resize dflt this n m) (λ _, True) (resized dflt n xs)
      (λ k' p', k' = k `max` n ∧ (n ≤ k → p' = p)).
  Proof.
    intros Hm Hh. eapply run_effect; [done..|]. iIntros "H".
    iApply (wp_v_resize _ mT eq_refl with "H"). iSplit; [by iIntros (_) "$"|].
    iIntros (p') "%Hp H". iExists _, p'. iFrame. iPureIntro. naive_solver.
  Qed.
  Lemma e_pop m this xs x k p :
    may_fail_alloc m → holds m this (xs ++ [x]) k p →
    effect m this p (v_pop_back this m) (λ _, True) xs (λ k' p', k' = k ∧ p' = p).
  Proof.
    intros Hm Hh. eapply run_effect; [done..|]. iIntros "H".
    iApply (wp_v_pop_back with "H"). iIntros "H". iExists _, _. by iFrame.
  Qed.
  Lemma e_clear m this xs k p :
    may_fail_alloc m → holds m this xs k p →
    effect m this p (v_clear this m) (λ _, True) [] (λ k' p', k' = k ∧ p' = p).
  Proof.
    intros Hm Hh. eapply run_effect; [done..|]. iIntros "H".
    iApply (wp_v_clear with "H"). iIntros "H". iExists _, _. by iFrame.
  Qed.
  Lemma e_erase m this xs k p i j :
    may_fail_alloc m → holds m this xs k p → i ≤ j ≤ length xs →
    effect m this p (v_erase this i j m) (λ r, r = i) (take i xs ++ drop j xs)
      (λ k' p', k' = k ∧ p' = p).
  Proof.
    intros Hm Hh Hij. eapply run_effect; [done..|]. iIntros "H".
    iApply (wp_v_erase mT eq_refl with "H"); [done|]. iIntros "H". iExists _, _. by iFrame.
  Qed.
  Lemma e_push_own m this xs k b i v :
    may_fail_alloc m → holds m this xs k (Some b) → xs !! i = Some v → length xs < k →
    effect m this (Some b) (v_push_back this (RElem b i) m) (λ _, True) (xs ++ [v])
      (λ k' p', k' = k ∧ p' = Some b).
  Proof.
    intros Hm Hh Hi Hk. eapply run_effect; [done..|]. iIntros "H".
    iApply (wp_v_push_own mT eq_refl with "H"); [done..|]. iIntros "H". iExists _, _. by iFrame.
  Qed.
  Lemma e_push_fit m this xs ws k p :
    may_fail_alloc m → holds m this xs k p → length xs + length ws ≤ k →
    effect m this p (v_push_all this ws m) (λ _, True) (xs ++ ws) (λ k' p', k' = k ∧ p' = p).
  Proof.
    intros Hm Hh Hi. eapply run_effect; [done..|]. iIntros "H".
    iApply (wp_v_push_fit mT eq_refl with "H"); [done..|]. iIntros "H". iExists _, _. by iFrame.
  Qed.

  (** reads *)
  Lemma v_hdr_eq m this xs k p :
    holds m this xs k p → v_hdr this m = Ok (length xs, k, p) m.
  Proof. intros [Hh _]. by rewrite /v_hdr /bind /load Hh. Qed.
  Lemma v_size_eq m this xs k p : holds m this xs k p → v_size this m = Ok (length xs) m.
  Proof. intros Hh. by rewrite /v_size /bind (v_hdr_eq _ _ _ _ _ Hh). Qed.
  Lemma v_cap_eq m this xs k p : holds m this xs k p → v_cap this m = Ok k m.
  Proof. intros Hh. by rewrite /v_cap /bind (v_hdr_eq _ _ _ _ _ Hh). Qed.
  Lemma v_p_eq m this xs k p : holds m this xs k p → v_p this m = Ok p m.
  Proof. intros Hh. by rewrite /v_p /bind (v_hdr_eq _ _ _ _ _ Hh). Qed.
  Lemma a_get_eq m this xs k p i v :
    holds m this xs k p → xs !! i = Some v → a_get p i m = Ok v m.
  Proof.
    intros [_ Hp] Hi. destruct p as [b|]; [|by destruct Hp as [_ ->]].
    destruct Hp as (_ & _ & Hb). rewrite /a_get /a_els /bind /load Hb /=.
    rewrite lookup_app_l; [|rewrite map_length; by eapply lookup_lt_Some].
    change (map Some xs) with (Some <$> xs). by rewrite list_lookup_fmap Hi.
  Qed.
  Lemma v_at_eq m this xs k p i :
    holds m this xs k p →
    match xs !! i with
    | Some x => v_at this i m = Ok (p, i) m ∧ v_read (p, i) m = Ok x m
    | None => v_at this i m = Exn OutOfRange m
    end.
  Proof.
    intros Hh. destruct (xs !! i) as [x|] eqn:Hi.
    - pose proof (lookup_lt_Some _ _ _ Hi). split; [|by eapply a_get_eq].
      rewrite /v_at /bind (v_size_eq _ _ _ _ _ Hh). destruct (Nat.leb_spec (length xs) i); [lia|].
      by rewrite /v_index /bind (v_p_eq _ _ _ _ _ Hh).
    - apply lookup_ge_None in Hi. rewrite /v_at /bind (v_size_eq _ _ _ _ _ Hh).
      by destruct (Nat.leb_spec (length xs) i); [|lia].
  Qed.
  Lemma v_equal_eq m x y xs ys k p k' q i n :
    holds m x xs k p → holds m y ys k' q → length xs = i + n → length ys = i + n →
    v_equal veq p q i n m = Ok (seq_eqb veq (drop i xs) (drop i ys)) m.
  Proof.
    intros Hx Hy. revert i. induction n as [|n IH]; intros i Hl Hl'.
    - by rewrite !drop_ge; [|lia..].
    - destruct (lookup_lt_is_Some_2 xs i) as [a Ha]; [lia|].
      destruct (lookup_lt_is_Some_2 ys i) as [b Hb]; [lia|].
      rewrite (drop_S _ _ _ Ha) (drop_S _ _ _ Hb) /= /bind.
      rewrite (a_get_eq _ _ _ _ _ _ _ Hx Ha) (a_get_eq _ _ _ _ _ _ _ Hy Hb).
      destruct (veq a b); [|done]. apply IH; lia.
  Qed.
  Lemma seq_eqb_spec xs ys : seq_eqb veq xs ys = true ↔ Forall2 (λ a b, veq a b = true) xs ys.
  Proof.
    revert ys. induction xs as [|x xs IH]; intros [|y ys]; simpl.
    - split; [constructor|done].
    - split; [done|]. inversion 1.
    - split; [done|]. inversion 1.
    - rewrite andb_true_iff IH. split; [intros []; by constructor|by inversion 1].
  Qed.
  Lemma v_eq_eq m x y xs ys k p k' q :
    holds m x xs k p → holds m y ys k' q →
    ∃ b, v_eq veq x y m = Ok b m ∧ (b = true ↔ Forall2 (λ a b, veq a b = true) xs ys).
  Proof.
    intros Hx Hy. exists (seq_eqb veq xs ys). split; [|apply seq_eqb_spec].
    rewrite /v_eq /bind (v_size_eq _ _ _ _ _ Hx) (v_size_eq _ _ _ _ _ Hy).
    destruct (Nat.eqb_spec (length xs) (length ys)) as [Heq|Hne].
    - rewrite (v_p_eq _ _ _ _ _ Hx) (v_p_eq _ _ _ _ _ Hy).
      by rewrite (v_equal_eq _ _ _ _ _ _ _ _ _ 0 (length xs) Hx Hy).
    - by rewrite seq_eqb_length.
  Qed.

  (** a failing allocator makes a growing call throw *)
  Lemma v_reserve_throws m this xs k p n o :
    holds m this xs k p → k < n → aorc m = true :: o → ∃ m', v_reserve this n m = Exn BadAlloc m'.
  Proof.
    intros Hh Hn Ho. rewrite /v_reserve /bind (v_cap_eq _ _ _ _ _ Hh).
    destruct (Nat.ltb_spec k n); [|lia]. rewrite /allocate /bind /alloc Ho. eauto.
  Qed.
  Lemma v_push_throws m this xs k p v o :
    holds m this xs k p → length xs = k → aorc m = true :: o →
    ∃ m', v_push_back this (RVal v) m = Exn BadAlloc m'.
  Proof.
    intros Hh Hn Ho. rewrite /v_push_back /bind (v_cap_eq _ _ _ _ _ Hh) (v_size_eq _ _ _ _ _ Hh).
    destruct (Nat.eqb_spec k 0) as [->|].
    - destruct (v_reserve_throws m this xs 0 p 1 o Hh) as [m' ->]; [lia|done|eauto].
    - rewrite (proj2 (Nat.eqb_eq _ _)); [|done].
      destruct (v_reserve_throws m this xs k p (k * 2) o Hh) as [m' ->]; [lia|done|eauto].
  Qed.

  Lemma effect_mono {T} m this p (r : res (vcell V) T) A xs' (K K' : nat → ptr → Prop) :
    (∀ k p, K k p → K' k p) → effect m this p r A xs' K → effect m this p r A xs' K'.
  Proof.
    intros HK. unfold effect. destruct r; [|done..].
    intros (H1 & H2 & k' & p' & H3 & H4). split; [done|]. split; [done|]. exists k', p'. auto.
  Qed.
  Lemma e_push' m this xs k p v :
    may_fail_alloc m → holds m this xs k p →
    effect m this p (v_push_back this (RVal v) m) (λ _, True) (xs ++ [v])
      (λ k' p', k ≤ k' ∧ (length xs < k → k' = k ∧ p' = p)).
  Proof.
    intros Hm Hh. eapply effect_mono; [|by apply e_push]. intros k' p' [-> Hp].
    unfold grow. destruct (Nat.eqb_spec k 0); [split; [lia|intros; lia]|].
    destruct (Nat.eqb_spec k (length xs)); [split; [lia|intros; lia]|]. auto.
  Qed.
  Lemma e_assign m this other xs ys k k' p p' :
    may_fail_alloc m → holds m this xs k p → holds m other ys k' p' → apart this other p p' →
    effect m this p (v_assign this other m) (λ _, True) ys (λ k1 q, k1 = k `max` k' ∧ (k' ≤ k → q = p)).
  Proof.
    intros Hm Hh Ho Ha. destruct (holds_split _ _ _ _ _ Ho) as (hP & Hv & Hd & Hb).
    eapply (run_effect_with _ hP); [done..|by apply vobj_exact|by eapply holds_outside|].
    iIntros "[H1 H2]".
    iApply (wp_v_assign mT eq_refl with "H1 H2"). iSplit; [by iIntros (_) "$ $"|].
    iIntros (q) "%Hq H1 H2". iExists _, q. iFrame. iPureIntro. auto.
  Qed.
  Lemma c_copy m other xs k p :
    may_fail_alloc m → holds m other xs k p →
    constructs m (v_copy other m) xs (λ k' _, k' = k).
  Proof.
    intros Hm Hh. destruct (holds_split _ _ _ _ _ Hh) as (hP & Hv & Hd & Hb).
    eapply (run_ctor _ hP); [done|by apply vobj_exact|rewrite Hb; apply map_union_subseteq_l|].
    iIntros "H".
    iApply (wp_v_copy mT eq_refl with "H"). iSplit; [by iIntros (_) "$"|].
    iIntros (l q) "H1 H2". iExists _, q. by iFrame.
  Qed.
  Lemma c_count m n :
    may_fail_alloc m → constructs m (v_count dflt n m) (replicate n dflt) (λ k' _, k' = n).
  Proof.
    intros Hm. eapply (run_ctor emp ∅); [done|apply emp_exact|apply map_empty_subseteq|].
    iIntros "_". iApply (wp_v_count _ mT eq_refl). iSplit; [by iIntros (_)|].
    iIntros (l q) "H1". iExists _, q. by iFrame.
  Qed.
  (** allocation counting *)
  Definition keeps {A} (f : M (vcell V) A) : Prop :=
    ∀ m a m', f m = Ok a m' → nxt m' = nxt m.
  Lemma keeps_ret {A} (a : A) : keeps (ret a).
  Proof. intros m ? m' [= _ <-]. done. Qed.
  Lemma keeps_ub {A} : keeps (A:=A) ub.
  Proof. by intros m ? m' ?. Qed.
  Lemma keeps_bind {A B} (f : M (vcell V) A) (g : A → M (vcell V) B) :
    keeps f → (∀ a, keeps (g a)) → keeps (bind f g).
  Proof.
    intros Hf Hg m b m'. unfold bind. destruct (f m) as [a m1| | |] eqn:E; [|done..].
    intros H. rewrite (Hg _ _ _ _ H). by eapply Hf.
  Qed.
  Lemma keeps_load l : keeps (load l).
  Proof. intros m a m'. unfold load. destruct (_ !! _); [|done]. by intros [= _ <-]. Qed.
  Lemma keeps_store l c : keeps (store l c).
  Proof. intros m a m'. unfold store. destruct (_ !! _); [|done]. intros H; by simplify_eq. Qed.
  Lemma keeps_free l : keeps (free l).
  Proof. intros m a m'. unfold free. destruct (_ !! _); [|done]. intros H; by simplify_eq. Qed.
  Lemma keeps_may_throw : keeps may_throw.
  Proof. intros m a m'. unfold may_throw. destruct (corc m) as [|[]]; intros H; by simplify_eq. Qed.
  Lemma keeps_for_up from n body : (∀ i, keeps (body i)) → keeps (for_up from n body).
  Proof.
    intros Hb. revert from. induction n as [|n IH]; intros from; simpl; [apply keeps_ret|].
    apply keeps_bind; [apply Hb|intros; apply IH].
  Qed.
  Ltac keeps :=
    repeat first [ progress intros | apply keeps_ret | apply keeps_ub | apply keeps_load
      | apply keeps_store | apply keeps_free | apply keeps_may_throw | apply keeps_for_up
      | apply keeps_bind
      | match goal with |- keeps (match ?x with _ => _ end) => destruct x end
      | match goal with |- keeps ?f => let h := whead f in unfold h end ].
  Lemma keeps_a_construct p i (v : V) : keeps (a_construct p i v).
  Proof. keeps. Qed.
  Lemma keeps_deref (r : vref V) : keeps (deref r).
  Proof. keeps. Qed.
  Lemma allocate_nxt n m a m' : allocate n m = Ok a m' → nxt m' = Pos.succ (nxt m).
  Proof.
    unfold allocate, bind, alloc, ret. destruct (aorc m) as [|[]]; [|done|]; intros H; by simplify_eq.
  Qed.
  Lemma reserve_allocs m this xs k p n m' :
    holds m this xs k p → v_reserve this n m = Ok tt m' →
    nxt m' = if k <? n then Pos.succ (nxt m) else nxt m.
  Proof.
    intros Hh. rewrite /v_reserve {1}/bind (v_cap_eq _ _ _ _ _ Hh).
    destruct (k <? n); [|by intros [= <-]]. rewrite {1}/bind.
    destruct (allocate n m) as [a m1| | |] eqn:E; [|done..]. apply allocate_nxt in E.
    rewrite -E. assert (keeps (n0 <- v_size this ;;
      for_up 0 n0 (λ i, mp <- v_p this ;; v <- a_get mp i ;; a_construct a i v) ;;;
      mp <- v_p this ;;
      (if k =? 0 then ret tt else destroy_n mp 0 n0 ;;; deallocate mp k) ;;;
      set_p this a ;;; set_cap this n)) as Hk by keeps. apply Hk.
  Qed.
  Lemma push_allocs m this xs k p v m' :
    holds m this xs k p → v_push_back this (RVal v) m = Ok tt m' →
    nxt m' = if length xs <? k then nxt m else Pos.succ (nxt m).
  Proof.
    intros Hh. rewrite /v_push_back {1}/bind (v_cap_eq _ _ _ _ _ Hh) {1}/bind (v_size_eq _ _ _ _ _ Hh).
    assert (length xs ≤ k) as Hle.
    { destruct Hh as [_ Hh]. destruct p; naive_solver. }
    assert (keeps (p <- v_p this ;; n <- v_size this ;; set_size this (S n) ;;;
      v <- deref (RVal v) ;; a_construct p n v)) as Hk by keeps.
    rewrite {1}/bind. destruct (Nat.eqb_spec k 0) as [->|Hk0].
    - destruct (v_reserve this 1 m) as [[] m1| | |] eqn:E; [|done..]. intros H%Hk.
      rewrite H. apply (reserve_allocs _ _ _ _ _ _ _ Hh) in E. rewrite E.
      by destruct (Nat.ltb_spec (length xs) 0); [lia|].
    - destruct (Nat.eqb_spec k (length xs)) as [->|Hkn].
      + destruct (v_reserve this (length xs * 2) m) as [[] m1| | |] eqn:E; [|done..]. intros H%Hk.
        rewrite H. apply (reserve_allocs _ _ _ _ _ _ _ Hh) in E. rewrite E Nat.ltb_irrefl.
        by destruct (Nat.ltb_spec (length xs) (length xs * 2)); [|lia].
      + simpl. intros H%Hk. rewrite H. by destruct (Nat.ltb_spec (length xs) k); [|lia].
  Qed.

  Lemma push_all_snoc this ws w m :
    v_push_all this (ws ++ [w]) m = (v_push_all this ws ;;; v_push_back this (RVal w)) m.
  Proof.
    revert m. induction ws as [|x ws IH]; intros m; simpl.
    - rewrite /bind /ret. by destruct (v_push_back _ _ _) as [[]| | |].
    - rewrite /bind. destruct (v_push_back _ _ _); [|done..]. apply IH.
  Qed.
  Lemma push_fair m this xs k p v :
    fair m → holds m this xs k p →
    ∃ m' p', v_push_back this (RVal v) m = Ok tt m' ∧ fair m' ∧
             holds m' this (xs ++ [v]) (grow (length xs) k) p'.
  Proof.
    intros Hm%good_fair Hh. destruct (holds_split _ _ _ _ _ Hh) as (h & Hv & Hd & Hb).
    assert (vobj this xs k p ⊢ wp (Mode false false) (v_push_back this (RVal v))
      (λ _, ∃ p', vobj this (xs ++ [v]) (grow (length xs) k) p') (λ _, False)) as Hw.
    { iIntros "H". iApply (wp_v_push_back (Mode false false) eq_refl with "H"). iSplit.
      { iIntros ([HA _]). done. }
      iIntros (p') "_ H". by iExists p'. }
    pose proof (wp_frame_adequate _ _ _ _ _ _ _ _ Hw Hm Hb Hd Hv) as H.
    destruct (v_push_back this (RVal v) m) as [[] m'|e m'| |]; [| |done..].
    - destruct H as (Hm' & h' & Hd' & Hb' & p' & HQ).
      exists m', p'. split; [done|]. split; [by apply good_fair'|]. by eapply vobj_holds.
    - by destruct H as (Hm' & h' & Hd' & Hb' & HQ).
  Qed.
  Lemma push_growth m this ws :
    fair m → holds m this [] 0 None → ws ≠ [] →
    ∃ m' p j, v_push_all this ws m = Ok tt m' ∧ fair m' ∧ holds m' this ws (2 ^ j) p ∧
      j = Nat.log2_up (length ws) ∧ nxt m' = Pos.of_nat (Pos.to_nat (nxt m) + S j).
  Proof.
    intros Hm Hh Hne. induction ws as [|w ws IH] using rev_ind; [done|]. clear Hne.
    destruct (decide (ws = [])) as [->|Hws].
    - destruct (push_fair m this [] 0 None w Hm Hh) as (m' & p' & Hp & Hm' & Hh').
      exists m', p', 0. rewrite push_all_snoc /bind /= Hp. split; [done|]. split; [done|].
      split; [done|]. split; [done|]. apply (push_allocs _ _ _ _ _ _ _ Hh) in Hp. simpl in Hp.
      rewrite Hp. lia.
    - destruct (IH Hws) as (m1 & p1 & j & Hr & Hm1 & Hh1 & Hj & Hn).
      destruct (push_fair m1 this ws _ p1 w Hm1 Hh1) as (m' & p' & Hp & Hm' & Hh').
      pose proof (push_allocs _ _ _ _ _ _ _ Hh1 Hp) as Hn'.
      assert (0 < length ws) as Hpos by (destruct ws; simpl; [done|lia]).
      rewrite push_all_snoc /bind Hr Hp.
      pose proof (Nat.log2_up_spec (length ws)) as Hls.
      assert (length ws ≤ 2 ^ j) as Hlj.
      { destruct Hh1 as [_ Hh1]. destruct p1; naive_solver. }
      assert (2 ^ j ≠ 0) as Hj0 by (apply Nat.pow_nonzero; lia).
      unfold grow in Hh'. rewrite (proj2 (Nat.eqb_neq _ _) Hj0) in Hh'.
      destruct (Nat.ltb_spec (length ws) (2 ^ j)) as [Hlt|Hge].
      + rewrite (proj2 (Nat.eqb_neq _ _)) in Hh'; [|lia].
        exists m', p', j. split; [done|]. split; [done|]. split; [done|]. split; [|by rewrite Hn'].
        rewrite app_length /= Nat.add_1_r. rewrite Hj.
        destruct (decide (length ws = 1)) as [E1|].
        { rewrite E1 in Hj. rewrite E1 Hj in Hlt. simpl in Hlt. lia. }
        symmetry. apply Nat.log2_up_unique.
        * rewrite -Hj. destruct j; [simpl in Hlt; lia|lia].
        * rewrite -Hj. destruct (Hls ltac:(lia)) as [Hl1 Hl2]. rewrite -Hj in Hl1. lia.
      + assert (length ws = 2 ^ j) as Heq by lia.
        rewrite (proj2 (Nat.eqb_eq _ _)) in Hh'; [|done].
        exists m', p', (S j). split; [done|]. split; [done|].
        split; [by rewrite Nat.pow_succ_r' Nat.mul_comm|]. split.
        * rewrite app_length /= Nat.add_1_r Heq.
          symmetry. apply Nat.log2_up_unique; [lia|]. simpl. lia.
        * rewrite Hn' Hn. lia.
  Qed.

  (** throwing element copies *)
  Lemma wp_a_construct_throw md l (els : list (option V)) i v Q R :
    els !! i = Some None →
    l ↦ VArr els -∗ ((l ↦ VArr els -∗ R CopyThrow) ∧ (l ↦ VArr (<[i := Some v]> els) -∗ Q tt)) -∗
    wp md (a_construct (Some l) i v) Q R.
  Proof.
    iIntros (Hi) "H HQ". wunfold. wbind. iApply wp_may_throw. iSplit.
    { iIntros (_). iDestruct "HQ" as "[HQ _]". by iApply "HQ". }
    iDestruct "HQ" as "[_ HQ]". wstep wp_a_els "H". rewrite /= Hi. by iApply (wp_store' with "H").
  Qed.
  Lemma wp_v_reserve_throw md this xs k p k' Q R :
    vobj this xs k p -∗
    ((vobj this xs k p -∗ R BadAlloc) ∧
     (∀ l els, vobj this xs k p -∗ l ↦ VArr els -∗ R CopyThrow) ∧
     (∀ p', ⌞k' ≤ k → p' = p⌟ -∗ vobj this xs (k `max` k') p' -∗ Q tt)) -∗
    wp md (v_reserve this k') Q R.
  Proof.
    iIntros "[Hh Ha] HQ". wunfold. wstep wp_v_cap "Hh".
    destruct (Nat.ltb_spec k k') as [Hlt|Hge]; last first.
    { wret. iDestruct "HQ" as "(_ & _ & HQ)". iApply "HQ"; [done|]. rewrite Nat.max_l //. iFrame. }
    wbind. iApply wp_allocate. iSplit.
    { iDestruct "HQ" as "[HQ _]". iIntros (HA). iApply "HQ". iFrame. }
    iDestruct "HQ" as "[_ HQ]". iIntros (l) "Hn". wstep wp_v_size "Hh".
    iDestruct (arr_len with "Ha") as %Hlen.
    wbind. iApply (wp_for_up_throw _ (λ i, this ↦ VHdr (length xs) k p ∗ arr p k xs ∗
                           l ↦ VArr (slots (take i xs) k'))%I
      (λ e, ⌞e = CopyThrow⌟ ∗ this ↦ VHdr (length xs) k p ∗ arr p k xs ∗ ∃ els, l ↦ VArr els)%I
      with "[$Hh $Ha Hn]").
    2: { done. }
    { intros i Hi. iIntros "(Hh & Ha & Hn)". wstep wp_v_p "Hh".
      destruct (lookup_lt_is_Some_2 xs i) as [v Hv]; [lia|].
      wbind. iApply (wp_a_get_arr with "Ha"); [done|]. iIntros "Ha".
      iApply (wp_a_construct_throw with "Hn").
      { apply slots_raw'; rewrite take_length; lia. }
      iSplit.
      - iIntros "Hn". iSplitR; [done|]. iFrame. by iExists _.
      - iIntros "Hn". iFrame "Hh Ha".
        rewrite slots_push'; [|rewrite take_length; lia..].
        rewrite -(take_S_r _ _ v) //. }
    iSplit.
    { iIntros (e) "(-> & Hh & Ha & %els & Hl)". iDestruct "HQ" as "[HQ _]".
      iApply ("HQ" with "[$Hh $Ha] Hl"). }
    iDestruct "HQ" as "[_ HQ]".
    iIntros "(Hh & Ha & Hn)". wstep wp_v_p "Hh". rewrite /= take_ge //.
    wbind. iAssert (∀ Q, (emp -∗ Q tt) -∗ wp md
      (if k =? 0 then ret tt else destroy_n p 0 (length xs) ;;; deallocate p k) Q R)%I
      with "[Ha]" as "Hc".
    { iIntros (Q') "HQ". destruct p as [q|].
      - iDestruct "Ha" as ([Hb1 Hb2]) "Ha". destruct (Nat.eqb_spec k 0); [lia|].
        wbind. iApply (wp_destroy_tail md (Some q) k [] xs with "[Ha]"); [by iFrame|].
        iIntros "[_ Ha]". by iApply (wp_deallocate with "Ha").
      - iDestruct "Ha" as %[-> ->]. wret. by iApply "HQ". }
    iApply "Hc". iIntros "_". wstep wp_set_p "Hh". wstep wp_set_cap "Hh".
    iApply ("HQ" $! (Some l)); [iPureIntro; lia|].
    rewrite Nat.max_r; [|lia]. iFrame. iPureIntro. lia.
  Qed.

  Lemma good_any m : mem_wf m → good (Mode true true) m.
  Proof. intros Hw. by split. Qed.

  Lemma reserve_copy_throws m this xs k p n :
    mem_wf m → holds m this xs k p →
    match v_reserve this n m with
    | Ok _ m' => ∃ p', holds m' this xs (k `max` n) p'
    | Exn _ m' => holds m' this xs k p ∧ ∀ l c, blk m !! l = Some c → blk m' !! l = Some c
    | UB | Div => False
    end.
  Proof.
    intros Hm%good_any Hh. destruct (holds_split _ _ _ _ _ Hh) as (h & Hv & Hd & Hb).
    assert (vobj this xs k p ⊢ wp (Mode true true) (v_reserve this n)
      (λ _, ∃ p', vobj this xs (k `max` n) p')
      (λ _, vobj this xs k p ∗ True)) as Hw.
    { iIntros "H". iApply (wp_v_reserve_throw with "H"). iSplit; [by iIntros "$"|]. iSplit.
      - by iIntros (l els) "$ _".
      - iIntros (p') "_ H". by iExists p'. }
    pose proof (wp_frame_adequate _ _ _ _ _ _ _ _ Hw Hm Hb Hd Hv) as H.
    destruct (v_reserve this n m) as [[] m'|e m'| |]; [| |done..].
    - destruct H as (Hm' & h' & Hd' & Hb' & p' & HQ). exists p'. by eapply vobj_holds.
    - destruct H as (Hm' & h' & Hd' & Hb' & HQ).
      apply hprop_sep_eq in HQ as (h1 & h2 & -> & Hd1 & HQ1 & _).
      rewrite (vobj_precise _ _ _ _ _ _ HQ1 Hv) in Hd' Hb' Hd1.
      apply map_disjoint_union_l in Hd' as [Hd2 Hd3]. rewrite -assoc_L in Hb'. split.
      + eapply vobj_holds; [exact Hv| |exact Hb']. by apply map_disjoint_union_r.
      + intros l c Hl. rewrite Hb in Hl. rewrite Hb'.
        apply lookup_union_Some in Hl as [Hl|Hl]; [|..|done].
        * by apply lookup_union_Some_l.
        * assert (h !! l = None) by exact (map_disjoint_Some_r _ _ _ _ Hd Hl).
          rewrite lookup_union_r // lookup_union_r //. exact (map_disjoint_Some_r _ _ _ _ Hd3 Hl).
  Qed.

  (** operations without any throw point *)
  Lemma run_nothrow {T} m this xs k p (f : M (vcell V) T) xs' :
    mem_wf m → holds m this xs k p →
    (vobj this xs k p ⊢ wp (Mode true true) f (λ a, vobj this xs' k p) (λ _, False)) →
    ∃ a m', f m = Ok a m' ∧ mem_wf m' ∧ holds m' this xs' k p ∧
            replaces (own_cells this p) m (own_cells this p) m'.
  Proof.
    intros Hm%good_any Hh Hw. destruct (holds_split _ _ _ _ _ Hh) as (h & Hv & Hd & Hb).
    pose proof (wp_frame_adequate _ _ _ _ _ _ _ _ Hw Hm Hb Hd Hv) as H.
    destruct (f m) as [a m'|e m'| |]; [| |done..].
    - destruct H as ([Hm' _] & h' & Hd' & Hb' & HQ). exists a, m'. split; [done|]. split; [done|].
      split; [by eapply vobj_holds|]. by eapply outside_replaces.
    - by destruct H as (Hm' & h' & Hd' & Hb' & HQ).
  Qed.
  Lemma pop_nothrow m this xs x k p :
    mem_wf m → holds m this (xs ++ [x]) k p →
    ∃ a m', v_pop_back this m = Ok a m' ∧ mem_wf m' ∧ holds m' this xs k p ∧
            replaces (own_cells this p) m (own_cells this p) m'.
  Proof.
    intros Hm Hh. eapply run_nothrow; [done..|]. iIntros "H". iApply (wp_v_pop_back with "H"). by iIntros "H".
  Qed.
  Lemma clear_nothrow m this xs k p :
    mem_wf m → holds m this xs k p →
    ∃ a m', v_clear this m = Ok a m' ∧ mem_wf m' ∧ holds m' this [] k p ∧
            replaces (own_cells this p) m (own_cells this p) m'.
  Proof.
    intros Hm Hh. eapply run_nothrow; [done..|]. iIntros "H". iApply (wp_v_clear with "H"). by iIntros "H".
  Qed.
  Lemma dtor_nothrow m this xs k p :
    mem_wf m → holds m this xs k p →
    ∃ a m', v_dtor this m = Ok a m' ∧ mem_wf m' ∧ replaces (own_cells this p) m [] m'.
  Proof.
    intros Hm%good_any Hh. destruct (holds_split _ _ _ _ _ Hh) as (h & Hv & Hd & Hb).
    assert (vobj this xs k p ⊢ wp (Mode true true) (v_dtor this) (λ _, emp) (λ _, False)) as Hw.
    { iIntros "H". iApply (wp_v_dtor with "[H]"); [by iExists _, _|by iIntros "H"]. }
    pose proof (wp_frame_adequate _ _ _ _ _ _ _ _ Hw Hm Hb Hd Hv) as H.
    destruct (v_dtor this m) as [a m'|e m'| |]; [| |done..].
    - destruct H as ([Hm' _] & h' & Hd' & Hb' & ->%hprop_emp_eq). rewrite left_id_L in Hb'.
      exists a, m'. split; [done|]. split; [done|].
      intros l. destruct (decide (l ∈ [])) as [Hi|]; [by apply elem_of_nil in Hi|].
      rewrite Hb'. destruct (decide _); [by apply outside_own|by apply outside_lookup].
    - by destruct H as (Hm' & h' & Hd' & Hb' & HQ).
  Qed.

  Lemma e_all m this xs k p :
    may_fail_alloc m → holds m this xs k p →
    (∀ n, effect m this p (v_reserve this n m) (λ _, True) xs
            (λ k' p', k' = k `max` n ∧ (n ≤ k → p' = p))) ∧
    (∀ v, effect m this p (v_push_back this (RVal v) m) (λ _, True) (xs ++ [v])
            (λ k' p', k ≤ k' ∧ (length xs < k → k' = k ∧ p' = p))) ∧
    (∀ n, effect m this p (v_resize dflt this n m) (λ _, True) (resized dflt n xs)
            (λ k' p', k' = k `max` n ∧ (n ≤ k → p' = p))) ∧
    effect m this p (v_clear this m) (λ _, True) [] (λ k' p', k' = k ∧ p' = p) ∧
    (∀ ys y, xs = ys ++ [y] →
       effect m this p (v_pop_back this m) (λ _, True) ys (λ k' p', k' = k ∧ p' = p)) ∧
    (∀ i j, i ≤ j ≤ length xs →
       effect m this p (v_erase this i j m) (λ r, r = i) (take i xs ++ drop j xs)
         (λ k' p', k' = k ∧ p' = p)) ∧
    (∀ other ys k' q, holds m other ys k' q → apart this other p q →
       effect m this p (v_assign this other m) (λ _, True) ys
         (λ k1 q1, k1 = k `max` k' ∧ (k' ≤ k → q1 = p))).
  Proof.
    intros Hm Hh. repeat split.
    - intros n. by apply e_reserve.
    - intros v. by apply e_push'.
    - intros n. by apply e_resize.
    - by eapply e_clear.
    - intros ys y ->. by eapply e_pop.
    - intros i j Hij. by apply e_erase.
    - intros other ys k' q Ho Ha. by eapply e_assign.
  Qed.

  Lemma push_growth' m this ws :
    fair m → holds m this [] 0 None → ws ≠ [] →
    ∃ m' p k, v_push_all this ws m = Ok tt m' ∧ holds m' this ws k p ∧
      k = 2 ^ Nat.log2_up (length ws) ∧ length ws ≤ k ≤ 2 * length ws - 1 ∧
      allocs m m' = 1 + Nat.log2_up (length ws).
  Proof.
    intros Hm Hh Hne. destruct (push_growth m this ws Hm Hh Hne) as (m' & p & j & Hr & Hm' & Hh' & -> & Hn).
    exists m', p, (2 ^ Nat.log2_up (length ws)). split; [done|]. split; [done|]. split; [done|].
    split.
    - assert (0 < length ws) as Hpos by (destruct ws; simpl; [done|lia]).
      destruct (decide (length ws = 1)) as [->|]; [simpl; lia|].
      destruct (Nat.log2_up_spec (length ws)) as [H1 H2]; [lia|].
      destruct (Nat.log2_up (length ws)) as [|j] eqn:Ej; simpl in *; lia.
    - unfold allocs. rewrite Hn. lia.
  Qed.

  Lemma all_noexcept m this xs k p :
    mem_wf m → holds m this xs k p →
    (∃ a m', v_clear this m = Ok a m' ∧ mem_wf m' ∧ holds m' this [] k p ∧
       replaces (own_cells this p) m (own_cells this p) m') ∧
    (∀ ys y, xs = ys ++ [y] →
       ∃ a m', v_pop_back this m = Ok a m' ∧ mem_wf m' ∧ holds m' this ys k p ∧
         replaces (own_cells this p) m (own_cells this p) m') ∧
    (∃ a m', v_dtor this m = Ok a m' ∧ mem_wf m' ∧ replaces (own_cells this p) m [] m').
  Proof.
    intros Hm Hh. split; [by eapply clear_nothrow|]. split; [|by eapply dtor_nothrow].
    intros ys y ->. by eapply pop_nothrow.
  Qed.

  Lemma effect_weaken {T} m this p (r : res (vcell V) T) A xs' (K : nat → ptr → Prop) :
    effect m this p r A xs' K → effect m this p r A xs' (λ _ _, True).
  Proof. by apply effect_mono. Qed.
  Lemma c06_all m this xs k p :
    may_fail_alloc m → holds m this xs k p →
    (∀ n, effect m this p (v_reserve this n m) (λ _, True) xs (λ _ _, True)) ∧
    (∀ v, effect m this p (v_push_back this (RVal v) m) (λ _, True) (xs ++ [v]) (λ _ _, True)) ∧
    (∀ n, effect m this p (v_resize dflt this n m) (λ _, True) (resized dflt n xs) (λ _ _, True)) ∧
    (∀ other ys k' q, holds m other ys k' q → apart this other p q →
       effect m this p (v_assign this other m) (λ _, True) ys (λ _ _, True)) ∧
    constructs m (v_copy this m) xs (λ k' _, k' = k) ∧
    (∀ n, constructs m (v_count dflt n m) (replicate n dflt) (λ k' _, k' = n)).
  Proof.
    intros Hm Hh. repeat split.
    - intros n. eapply effect_weaken. by apply e_reserve.
    - intros v. eapply effect_weaken. by apply e_push.
    - intros n. eapply effect_weaken. by apply e_resize.
    - intros other ys k' q Ho Ha. eapply effect_weaken. by eapply e_assign.
    - by eapply c_copy.
    - intros n. by apply c_count.
  Qed.
  Lemma c06_throws m this xs k p o :
    holds m this xs k p → aorc m = true :: o →
    (∀ n, k < n → ∃ m', v_reserve this n m = Exn BadAlloc m') ∧
    (∀ v, length xs = k → ∃ m', v_push_back this (RVal v) m = Exn BadAlloc m').
  Proof. split; intros; [by eapply v_reserve_throws|by eapply v_push_throws]. Qed.
End props.

(** witnesses *)
Definition wit_cells (els : list (option nat)) n k : gmap loc (vcell nat) :=
  {[ 1%positive := VHdr n k (Some 2%positive); 2%positive := VArr els ]}.
Ltac wit := apply mem_wf_check; vm_compute; reflexivity.
Lemma init_leaks : ∃ m', v_init [1; 2] (mem0 [false; true] []) = Exn BadAlloc m' ∧ blk m' ≠ ∅.
Proof. eexists. split; [vm_compute; reflexivity|done]. Qed.
Lemma copy_throw_ub :
  ∃ m, mem_wf m ∧ holds m 1%positive [5; 6; 7] 4 (Some 2%positive) ∧ v_copy 1%positive m = UB.
Proof.
  exists (Mem (wit_cells [Some 5; Some 6; Some 7; None] 3 4) 3%positive [] [false; true]).
  split; [wit|]. split; [by repeat split; simpl; lia|]. vm_compute. reflexivity.
Qed.
Lemma push_throw_ub :
  ∃ m m', mem_wf m ∧ holds m 1%positive [5; 6; 7] 4 (Some 2%positive) ∧
    v_push_back 1%positive (RVal 8) m = Exn CopyThrow m' ∧ v_dtor 1%positive m' = UB.
Proof.
  exists (Mem (wit_cells [Some 5; Some 6; Some 7; None] 3 4) 3%positive [] [true]). eexists.
  split; [wit|]. split; [by repeat split; simpl; lia|]. split; [vm_compute; reflexivity|].
  vm_compute. reflexivity.
Qed.
Lemma count_throw_leak : ∃ m', v_count 0 2 (mem0 [] [true]) = Exn CopyThrow m' ∧ blk m' ≠ ∅.
Proof. eexists. split; [vm_compute; reflexivity|done]. Qed.
Lemma push_own_ub :
  ∃ m, fair m ∧ holds m 1%positive [5; 6] 2 (Some 2%positive) ∧
    v_push_back 1%positive (RElem 2%positive 0) m = UB.
Proof.
  exists (Mem (wit_cells [Some 5; Some 6] 2 2) 3%positive [] []).
  split; [split; [wit|by split; constructor]|]. split; [by repeat split; simpl; lia|].
  vm_compute. reflexivity.
Qed.
