(** Proofs behind PropGrowth.v. *)
From iris.proofmode Require Import tactics.
From Verif Require Import SLTac Hist HistProofs Objs MemRun ModelVector SpecVector
  VectorProofs VectorHist VectorMem VectorProps ModelString SpecString StringFacts StringProofs StringMem
  StringHist StringProps SpecGrowth.

Notation mF := (Mode false false) (only parsing).

(** ** Element constructions *)
Section uses.
  Context {C : Type}.
  Definition uses {A} (n : nat) (f : M C A) : Prop :=
    ∀ m a m', f m = Ok a m' → corc m' = drop n (corc m).
  Lemma uses_ret {A} (a : A) : uses 0 (ret a).
  Proof. intros m ? m' [= _ <-]. done. Qed.
  Lemma uses_ub {A} n : uses n (ub : M C A).
  Proof. by intros m ? m' ?. Qed.
  Lemma uses_bind {A B} n n' (f : M C A) (g : A → M C B) :
    uses n f → (∀ a, uses n' (g a)) → uses (n + n') (bind f g).
  Proof.
    intros Hf Hg m b m'. unfold bind. destruct (f m) as [a m1| | |] eqn:E; [|done..].
    intros H. rewrite (Hg _ _ _ _ H) (Hf _ _ _ E) drop_drop. done.
  Qed.
  Lemma uses_bind_0 {A B} n (f : M C A) (g : A → M C B) :
    uses 0 f → (∀ a, uses n (g a)) → uses n (bind f g).
  Proof. apply (uses_bind 0). Qed.
  Lemma uses_bind_r {A B} n (f : M C A) (g : A → M C B) :
    uses n f → (∀ a, uses 0 (g a)) → uses n (bind f g).
  Proof. intros Hf Hg. rewrite -(Nat.add_0_r n). by apply uses_bind. Qed.
  Lemma uses_load l : uses 0 (load (C:=C) l).
  Proof. intros m a m'. unfold load. destruct (_ !! _); [|done]. by intros [= _ <-]. Qed.
  Lemma uses_store l c : uses 0 (store (C:=C) l c).
  Proof. intros m a m'. unfold store. destruct (_ !! _); [|done]. intros H; by simplify_eq. Qed.
  Lemma uses_free l : uses 0 (free (C:=C) l).
  Proof. intros m a m'. unfold free. destruct (_ !! _); [|done]. intros H; by simplify_eq. Qed.
  Lemma uses_alloc c : uses 0 (alloc (C:=C) c).
  Proof. intros m a m'. unfold alloc. destruct (aorc m) as [|[]]; intros H; by simplify_eq. Qed.
  Lemma uses_may_throw : uses 1 (may_throw (C:=C)).
  Proof.
    intros m a m'. unfold may_throw. destruct (corc m) as [|[]] eqn:E; intros H; simplify_eq; simpl; by rewrite ?drop_0.
  Qed.
  Lemma uses_for_up from n c body : (∀ i, uses c (body i)) → uses (n * c) (for_up (C:=C) from n body).
  Proof.
    intros Hb. revert from. induction n as [|n IH]; intros from; simpl; [apply uses_ret|].
    apply uses_bind; [apply Hb|intros; apply IH].
  Qed.
End uses.

Ltac uses0 :=
  repeat first [ progress intros | apply uses_ret | apply uses_ub | apply uses_load
    | apply uses_store | apply uses_free | apply uses_alloc | apply uses_bind_0
    | match goal with |- uses 0 (for_up _ ?n _) =>
        rewrite -(Nat.mul_0_r n); apply uses_for_up end
    | match goal with |- uses 0 (match ?x with _ => _ end) => destruct x end
    | match goal with |- uses 0 ?f => let h := whead f in unfold h end ].

Section vector.
  Context {V : Type}.
  Implicit Types (m : mem (vcell V)) (xs : list V).

  Lemma uses_construct p i (v : V) : uses 1 (a_construct p i v).
  Proof. apply uses_bind_r; [apply uses_may_throw|uses0]. Qed.
  Lemma uses_reserve m this xs k p n m' :
    fair m → holds m this xs k p → v_reserve this n m = Ok tt m' →
    corc m' = drop (if k <? n then length xs else 0) (corc m).
  Proof.
    intros [Hwf _] Hh. rewrite /v_reserve {1}/bind (v_cap_eq _ _ _ _ _ Hh).
    destruct (k <? n); [|by intros [= <-]]. rewrite {1}/bind.
    destruct (allocate n m) as [a m1| | |] eqn:E; [|done..].
    assert (uses 0 (allocate (V:=V) n)) as Ha by uses0.
    apply Ha in E as Ec. rewrite drop_0 in Ec. rewrite -Ec.
    assert (v_size this m1 = Ok (length xs) m1) as Hs.
    { clear Ec Ha. revert E. rewrite /allocate /bind /alloc. destruct Hh as [Hh _].
      assert (this ≠ nxt m) as Hne.
      { intros ->. assert (nxt m < nxt m)%positive by (apply Hwf; by eexists). lia. }
      destruct (aorc m) as [|[]]; [|done|]; intros [= <- <-];
        by rewrite /v_size /v_hdr /load /bind /= lookup_insert_ne // Hh. }
    rewrite {1}/bind Hs.
    assert (uses (length xs) (for_up 0 (length xs) (λ i, mp <- v_p (V:=V) this ;; v <- a_get mp i ;; a_construct a i v) ;;;
      mp <- v_p this ;;
      (if k =? 0 then ret tt else destroy_n mp 0 (length xs) ;;; deallocate mp k) ;;;
      set_p this a ;;; set_cap this n)) as Hu.
    { apply uses_bind_r.
      - rewrite -{1}(Nat.mul_1_r (length xs)). apply uses_for_up. intros i.
        do 2 (apply uses_bind_0; [uses0|intros ?]). apply uses_construct.
      - uses0. }
    apply Hu.
  Qed.
  Lemma push_uses m this xs k p v m' :
    fair m → holds m this xs k p → v_push_back this (RVal v) m = Ok tt m' →
    corc m' = drop (1 + if length xs <? k then 0 else length xs) (corc m).
  Proof.
    intros Hm Hh. rewrite /v_push_back {1}/bind (v_cap_eq _ _ _ _ _ Hh) {1}/bind (v_size_eq _ _ _ _ _ Hh).
    assert (length xs ≤ k) as Hle.
    { destruct Hh as [_ Hh]. destruct p; naive_solver. }
    assert (uses 1 (p <- v_p this ;; n <- v_size this ;; ModelVector.set_size this (S n) ;;;
      v <- deref (RVal v) ;; a_construct p n v)) as Hk.
    { do 4 (apply uses_bind_0; [uses0|intros ?]). apply uses_construct. }
    rewrite {1}/bind. rewrite Nat.add_comm -drop_drop. destruct (Nat.eqb_spec k 0) as [->|Hk0].
    - destruct (v_reserve this 1 m) as [[] m1| | |] eqn:E; [|done..]. intros H%Hk.
      rewrite H. apply (uses_reserve _ _ _ _ _ _ _ Hm Hh) in E. rewrite E.
      destruct (Nat.ltb_spec (length xs) 0); [lia|]. done.
    - destruct (Nat.eqb_spec k (length xs)) as [->|Hkn].
      + destruct (v_reserve this (length xs * 2) m) as [[] m1| | |] eqn:E; [|done..]. intros H%Hk.
        rewrite H. apply (uses_reserve _ _ _ _ _ _ _ Hm Hh) in E. rewrite E Nat.ltb_irrefl.
        by destruct (Nat.ltb_spec (length xs) (length xs * 2)); [|lia].
      + simpl. intros H%Hk. rewrite H. by destruct (Nat.ltb_spec (length xs) k); [|lia].
  Qed.
  Lemma push_all_uses m this ws :
    fair m → holds m this [] 0 None → ws ≠ [] →
    ∃ m' p, v_push_all this ws m = Ok tt m' ∧ fair m' ∧ holds m' this ws (2 ^ Nat.log2_up (length ws)) p ∧
      corc m' = drop (length ws + (2 ^ Nat.log2_up (length ws) - 1)) (corc m).
  Proof.
    intros Hm Hh Hne. induction ws as [|w ws IH] using rev_ind; [done|]. clear Hne.
    destruct (decide (ws = [])) as [->|Hws].
    - destruct (push_fair m this [] 0 None w Hm Hh) as (m' & p' & Hp & Hm' & Hh').
      exists m', p'. rewrite push_all_snoc /bind /= Hp. split; [done|]. split; [done|].
      split; [done|]. by apply (push_uses _ _ _ _ _ _ _ Hm Hh) in Hp.
    - destruct (IH Hws) as (m1 & p1 & Hr & Hm1 & Hh1 & Hn).
      destruct (push_fair m1 this ws _ p1 w Hm1 Hh1) as (m2 & p2 & Hp & Hm2 & Hh2).
      pose proof (push_uses _ _ _ _ _ _ _ Hm1 Hh1 Hp) as Hn'.
      destruct (push_growth (λ _ _, true) m this (ws ++ [w]) Hm Hh) as (m' & p' & j & Hr' & Hm' & Hh' & -> & _).
      { by destruct ws. }
      assert (m' = m2) as ->.
      { rewrite push_all_snoc /bind Hr Hp in Hr'. by injection Hr'. }
      exists m2, p'. split; [done|]. split; [done|]. split; [done|].
      rewrite Hn' Hn drop_drop. f_equal.
      assert (grow (length ws) (2 ^ Nat.log2_up (length ws)) = 2 ^ Nat.log2_up (length (ws ++ [w]))) as Hg.
      { destruct Hh2 as [Hh2 _], Hh' as [Hh' _]. rewrite Hh2 in Hh'. by injection Hh'. }
      rewrite -Hg app_length /=. unfold grow.
      assert (2 ^ Nat.log2_up (length ws) ≠ 0) as H0 by (apply Nat.pow_nonzero; lia).
      rewrite (proj2 (Nat.eqb_neq _ _) H0).
      assert (length ws ≤ 2 ^ Nat.log2_up (length ws)) as Hlj.
      { destruct Hh1 as [_ Hh1]. destruct p1; naive_solver. }
      destruct (Nat.ltb_spec (length ws) (2 ^ Nat.log2_up (length ws))), (Nat.eqb_spec (2 ^ Nat.log2_up (length ws)) (length ws)); lia.
  Qed.
  Lemma log2_up_lt n : 0 < n → n ≤ 2 ^ Nat.log2_up n ≤ 2 * n - 1.
  Proof.
    intros Hpos. destruct (decide (n = 1)) as [->|]; [simpl; lia|].
    destruct (Nat.log2_up_spec n) as [H1 H2]; [lia|].
    destruct (Nat.log2_up n) as [|j] eqn:Ej; simpl in *; lia.
  Qed.
  Lemma c105_vector m this ws :
    fair m → holds m this [] 0 None → ws ≠ [] → 3 * length ws ≤ length (corc m) →
    ∃ m' p k, v_push_all this ws m = Ok tt m' ∧ holds m' this ws k p ∧
      constructions m m' = length ws + (2 ^ Nat.log2_up (length ws) - 1) ∧
      constructions m m' ≤ 3 * length ws - 2.
  Proof.
    intros Hm Hh Hne Hl. destruct (push_all_uses m this ws Hm Hh Hne) as (m' & p & Hr & Hm' & Hh' & Hc).
    assert (0 < length ws) as Hpos by (destruct ws; simpl; [done|lia]).
    pose proof (log2_up_lt _ Hpos). eexists m', p, _. split; [done|]. split; [done|].
    rewrite /constructions Hc drop_length. lia.
  Qed.
  Lemma c105_push m this xs k p v :
    fair m → holds m this xs k p → length xs < length (corc m) →
    ∃ m' k' p', v_push_back this (RVal v) m = Ok tt m' ∧ holds m' this (xs ++ [v]) k' p' ∧
      constructions m m' = if decide (length xs = k) then length xs + 1 else 1.
  Proof.
    intros Hm Hh Hl. destruct (push_fair m this xs k p v Hm Hh) as (m' & p' & Hp & Hm' & Hh').
    eexists m', _, p'. split; [done|]. split; [done|].
    rewrite /constructions (push_uses _ _ _ _ _ _ _ Hm Hh Hp) drop_length.
    assert (length xs ≤ k) as Hle.
    { destruct Hh as [_ Hh]. destruct p; naive_solver. }
    destruct (Nat.ltb_spec (length xs) k), (decide (length xs = k)); lia.
  Qed.
End vector.

(** ** Allocations of a string *)
Section string.
  Implicit Types (m : mem scell) (xs : list N).
  Definition keepsS {A} (f : MS A) : Prop := ∀ m a m', f m = Ok a m' → nxt m' = nxt m.
  Lemma keepsS_ret {A} (a : A) : keepsS (ret a).
  Proof. intros m ? m' [= _ <-]. done. Qed.
  Lemma keepsS_ub {A} : keepsS (A:=A) ub.
  Proof. by intros m ? m' ?. Qed.
  Lemma keepsS_bind {A B} (f : MS A) (g : A → MS B) : keepsS f → (∀ a, keepsS (g a)) → keepsS (bind f g).
  Proof.
    intros Hf Hg m b m'. unfold bind. destruct (f m) as [a m1| | |] eqn:E; [|done..].
    intros H. rewrite (Hg _ _ _ _ H). by eapply Hf.
  Qed.
  Lemma keepsS_load l : keepsS (load l).
  Proof. intros m a m'. unfold load. destruct (_ !! _); [|done]. by intros [= _ <-]. Qed.
  Lemma keepsS_store l c : keepsS (store l c).
  Proof. intros m a m'. unfold store. destruct (_ !! _); [|done]. intros H; by simplify_eq. Qed.
  Lemma keepsS_free l : keepsS (free l).
  Proof. intros m a m'. unfold free. destruct (_ !! _); [|done]. intros H; by simplify_eq. Qed.
  Ltac keepsS :=
    repeat first [ progress intros | apply keepsS_ret | apply keepsS_ub | apply keepsS_load
      | apply keepsS_store | apply keepsS_free | apply keepsS_bind
      | match goal with |- keepsS (match ?x with _ => _ end) => destruct x end
      | match goal with |- keepsS ?f => let h := whead f in unfold h end ].
  Lemma b_allocate_nxt n m a m' : b_allocate n m = Ok a m' → nxt m' = Pos.succ (nxt m).
  Proof.
    unfold b_allocate, bind, alloc, ret. destruct (aorc m) as [|[]]; [|done|]; intros H; by simplify_eq.
  Qed.
  Lemma s_cap_eq m this xs k p rest : sview m this xs k p rest → s_cap this m = Ok k m.
  Proof. intros [H1 H2]. by rewrite /s_cap /s_hdr /load /bind /= H1. Qed.
  Lemma s_reserve_nxt m this xs k p rest n m' :
    sview m this xs k p rest → s_reserve this n m = Ok tt m' →
    nxt m' = if k <? n then Pos.succ (nxt m) else nxt m.
  Proof.
    intros Hh. rewrite /s_reserve {1}/bind (s_cap_eq _ _ _ _ _ _ Hh).
    destruct (k <? n); [|by intros [= <-]]. rewrite {1}/bind.
    destruct (b_allocate (n + 1) m) as [a m1| | |] eqn:E; [|done..]. apply b_allocate_nxt in E.
    rewrite -E. match goal with |- ?f m1 = _ → _ => assert (keepsS f) as Hk by keepsS end. apply Hk.
  Qed.
  Lemma s_push_nxt m this xs k p rest c m' :
    sview m this xs k p rest → 0 < k → s_push_back this (CVal c) m = Ok tt m' →
    nxt m' = if k <? length xs + 1 then Pos.succ (nxt m) else nxt m.
  Proof.
    intros Hh Hk0. rewrite /s_push_back {1}/bind (s_size_eq _ _ _ _ _ _ Hh) {1}/bind (s_cap_eq _ _ _ _ _ _ Hh).
    rewrite {1}/bind.
    assert (keepsS (p <- s_p this ;; n <- s_size this ;; c <- c_read (CVal c) ;; b_set p n c ;;;
      s_set_size this (S n) ;;; p <- s_p this ;; b_set p (S n) 0%N)) as Hk by keepsS.
    destruct (k <? length xs + 1).
    - destruct (s_reserve this (k * 2) m) as [[] m1| | |] eqn:E; [|done..]. intros H%Hk.
      rewrite H. apply (s_reserve_nxt _ _ _ _ _ _ _ _ Hh) in E. rewrite E.
      by destruct (Nat.ltb_spec k (k * 2)); [|lia].
    - simpl. apply Hk.
  Qed.
  Lemma s_append_nxt m this xs k p rest cs m' :
    sview m this xs k p rest → s_append this (CExt cs) (length cs) m = Ok tt m' →
    nxt m' = if k <? length xs + length cs then Pos.succ (nxt m) else nxt m.
  Proof.
    intros Hh. rewrite /s_append {1}/bind (s_size_eq _ _ _ _ _ _ Hh) {1}/bind (s_cap_eq _ _ _ _ _ _ Hh).
    assert (keepsS (s_set_size this (length cs + length xs) ;;; p <- s_p this ;; b_set p (length cs + length xs) 0%N)) as Hk by keepsS.
    destruct (Nat.leb_spec (length cs + length xs) k), (Nat.ltb_spec k (length xs + length cs)); [lia| | |lia].
    - match goal with |- ?f m = _ → _ => assert (keepsS f) as Hk' by keepsS end. apply Hk'.
    - rewrite {1}/bind {1}/bind. destruct (b_allocate (length cs + length xs + 1) m) as [a m1| | |] eqn:E; [|done..].
      apply b_allocate_nxt in E. rewrite -E.
      match goal with |- context [match ?f m1 with _ => _ end] => assert (keepsS f) as Hk' by keepsS; destruct (f m1) as [[] m2| | |] eqn:E2; [|done..] end.
      intros H'%Hk. rewrite H'. by eapply Hk'.
  Qed.

  Lemma push_cap m this xs k p c :
    fair m → s_holds m this xs k p →
    ∃ m' p', s_push_back this (CVal c) m = Ok tt m' ∧ fair m' ∧
      s_holds m' this (xs ++ [c]) (if decide (length xs = k) then 2 * k else k) p' ∧
      nxt m' = if decide (length xs = k) then Pos.succ (nxt m) else nxt m.
  Proof.
    intros Hm Hh. destruct (s_holds_view _ _ _ _ _ Hh) as [rest0 Hv].
    assert (0 < k ∧ length xs ≤ k) as [Hk0 Hle] by (destruct Hh as (_ & ? & ? & _ & ?); lia).
    pose proof (s_run_fair m this xs k p (s_push_back this (CVal c)) (xs ++ [c])
      (λ k' _, k' = if decide (length xs = k) then 2 * k else k) Hm Hh) as H.
    feed specialize H.
    { iIntros (rest Hk) "H". iApply (wp_s_push_back_cap mF emp with "[//] H").
      { iIntros (rest' p' Q' R') "_ H HQ". wunfold. wret. by iApply ("HQ" with "[//]"). }
      iSplit; [by iIntros (?)|]. iIntros (rest' p' [H1 H2]) "_ H". iExists rest', p'. iFrame. iPureIntro.
      case_decide; [lia|]. destruct H1 as [-> _]; [lia|]. rewrite app_length drop_length /=. lia. }
    unfold unthrown in H. destruct (s_push_back this (CVal c) m) as [[] m'| | |] eqn:E; [|done..].
    destruct H as (Hm' & k' & p' & Hh' & -> & _). exists m', p'. do 3 (split; [done|]).
    rewrite (s_push_nxt _ _ _ _ _ _ _ _ Hv Hk0 E).
    destruct (Nat.ltb_spec k (length xs + 1)); case_decide; (done || lia).
  Qed.
  Lemma append_cap m this xs k p cs :
    fair m → s_holds m this xs k p →
    ∃ m' p', s_append this (CExt cs) (length cs) m = Ok tt m' ∧ fair m' ∧
      s_holds m' this (xs ++ cs) (k `max` (length xs + length cs)) p' ∧
      nxt m' = if decide (k < length xs + length cs) then Pos.succ (nxt m) else nxt m.
  Proof.
    intros Hm Hh. destruct (s_holds_view _ _ _ _ _ Hh) as [rest0 Hv].
    pose proof (s_run_fair m this xs k p (s_append this (CExt cs) (length cs)) (xs ++ cs)
      (λ k' _, k' = k `max` (length xs + length cs)) Hm Hh) as H.
    feed specialize H.
    { iIntros (rest Hk) "H". iApply (wp_s_append_cap mF emp with "[//] H").
      { rewrite -{2}(firstn_all cs). apply copies_reads; [apply reads_ext|done]. }
      iSplit; [by iIntros (?)|]. iIntros (rest' p' H1) "_ H". iExists rest', p'. iFrame. iPureIntro.
      rewrite app_length in H1 |- *. lia. }
    unfold unthrown in H. destruct (s_append this _ _ m) as [[] m'| | |] eqn:E; [|done..].
    destruct H as (Hm' & k' & p' & Hh' & -> & _). exists m', p'. do 3 (split; [done|]).
    rewrite (s_append_nxt _ _ _ _ _ _ _ _ Hv E).
    destruct (Nat.ltb_spec k (length xs + length cs)); case_decide; (done || lia).
  Qed.
  Lemma allocs_0 m : allocs m m = 0.
  Proof. unfold allocs. lia. Qed.

  Lemma c106_push m this xs k p cs :
    fair m → s_holds m this xs k p →
    ∃ m' p' j, s_push_all this cs m = Ok tt m' ∧ fair m' ∧ s_holds m' this (xs ++ cs) (k * 2 ^ j) p' ∧
      allocs m m' = j ∧ length (xs ++ cs) ≤ k * 2 ^ j ∧ (j = 0 ∨ k * 2 ^ (j - 1) < length (xs ++ cs)).
  Proof.
    revert m xs k p. assert (∀ cs m xs k p, fair m → s_holds m this xs k p →
      ∃ m' p' j, s_push_all this cs m = Ok tt m' ∧ fair m' ∧ s_holds m' this (xs ++ cs) (k * 2 ^ j) p' ∧
      Pos.to_nat (nxt m') = Pos.to_nat (nxt m) + j ∧ length (xs ++ cs) ≤ k * 2 ^ j ∧ (j = 0 ∨ k * 2 ^ (j - 1) < length (xs ++ cs))) as Hg.
    { clear cs. induction cs as [|c cs IH]; intros m xs k p Hm Hh.
      { exists m, p, 0. rewrite app_nil_r Nat.mul_1_r. do 3 (split; [done|]).
        split; [lia|]. split; [|by left]. destruct Hh as (_ & ? & ? & _ & ?). lia. }
      destruct (push_cap m this xs k p c Hm Hh) as (m1 & p1 & E1 & Hm1 & Hh1 & Hn1).
      destruct (IH m1 (xs ++ [c]) _ p1 Hm1 Hh1) as (m2 & p2 & j & E2 & Hm2 & Hh2 & Hn2 & Hle & Hj).
      simpl. rewrite /bind E1 E2. rewrite -assoc_L /= in Hh2 Hle Hj.
      assert (length (xs ++ c :: cs) = length xs + S (length cs)) as El by by rewrite app_length.
      assert (0 < k) by apply Hh. case_decide as Hd.
      - exists m2, p2, (S j). assert (k * 2 ^ S j = 2 * k * 2 ^ j) as Ek by (simpl; lia). rewrite Ek.
        do 3 (split; [done|]). split; [rewrite Hn2 Hn1; lia|]. split; [done|]. right.
        rewrite Nat.sub_succ Nat.sub_0_r. destruct Hj as [->|Hj]; [simpl; lia|].
        destruct j as [|j]; [simpl; lia|]. simpl in Hj |- *. rewrite Nat.sub_0_r in Hj. lia.
      - exists m2, p2, j. do 3 (split; [done|]). rewrite Hn2 Hn1. done. }
    intros m xs k p Hm Hh. destruct (Hg cs m xs k p Hm Hh) as (m' & p' & j & H1 & H2 & H3 & H4 & H5).
    exists m', p', j. do 3 (split; [done|]). split; [unfold allocs; lia|done].
  Qed.
  Lemma c106_append m this xs k p ps :
    fair m → s_holds m this xs k p →
    ∃ m' p', s_append_all this ps m = Ok tt m' ∧ fair m' ∧
      s_holds m' this (xs ++ concat ps) (k `max` length (xs ++ concat ps)) p' ∧
      allocs m m' = record_count (length xs) k (length <$> ps).
  Proof.
    revert m xs k p. assert (∀ ps m xs k p, fair m → s_holds m this xs k p →
      ∃ m' p', s_append_all this ps m = Ok tt m' ∧ fair m' ∧
      s_holds m' this (xs ++ concat ps) (k `max` length (xs ++ concat ps)) p' ∧
      Pos.to_nat (nxt m') = Pos.to_nat (nxt m) + record_count (length xs) k (length <$> ps)) as Hg.
    { clear ps. induction ps as [|c cs IH]; intros m xs k p Hm Hh.
      { exists m, p. simpl. rewrite app_nil_r. assert (k `max` length xs = k) as ->.
        { destruct Hh as (_ & ? & ? & _ & ?). lia. }
        do 3 (split; [done|]). lia. }
      destruct (append_cap m this xs k p c Hm Hh) as (m1 & p1 & E1 & Hm1 & Hh1 & Hn1).
      destruct (IH m1 (xs ++ c) _ p1 Hm1 Hh1) as (m2 & p2 & E2 & Hm2 & Hh2 & Hn2).
      exists m2, p2. simpl. rewrite /bind E1 E2. rewrite -assoc_L /= in Hh2.
      do 2 (split; [done|]). split.
      - replace (k `max` length (xs ++ c ++ concat cs))
          with ((k `max` (length xs + length c)) `max` length (xs ++ c ++ concat cs)); [done|].
        rewrite !app_length. lia.
      - change (list_fmap _ _ length cs) with (length <$> cs). rewrite Hn2 Hn1 app_length. case_decide; lia. }
    intros m xs k p Hm Hh. destruct (Hg ps m xs k p Hm Hh) as (m' & p' & H1 & H2 & H3 & H4).
    exists m', p'. do 3 (split; [done|]). unfold allocs; lia.
  Qed.
  Lemma record_full n ps : Forall (λ l, 0 < l) ps → record_count n n ps = length ps.
  Proof.
    revert n. induction ps as [|l ps IH]; intros n H; [done|]. inversion H; subst. simpl.
    case_decide; [|lia]. rewrite Nat.max_r; [|lia]. by rewrite IH.
  Qed.
  Lemma c106_append_full m this xs p ps :
    fair m → s_holds m this xs (length xs) p → Forall (λ cs, cs ≠ []) ps →
    ∃ m' p', s_append_all this ps m = Ok tt m' ∧
      s_holds m' this (xs ++ concat ps) (length (xs ++ concat ps)) p' ∧ allocs m m' = length ps.
  Proof.
    intros Hm Hh Hps. destruct (c106_append m this xs _ p ps Hm Hh) as (m' & p' & H1 & H2 & H3 & H4).
    exists m', p'. split; [done|]. split.
    - rewrite Nat.max_r in H3; [done|rewrite app_length; lia].
    - rewrite H4 record_full ?fmap_length //. apply Forall_fmap. eapply Forall_impl; [exact Hps|].
      intros [|]; [done|simpl; lia].
  Qed.

  (** Input-iterator constructor *)
  Fixpoint fill_allocs (len cap n : nat) : nat :=
    match n with
    | O => 0
    | S n => if len =? cap then S (fill_allocs (S len) ((len + 1) * 2) n) else fill_allocs (S len) cap n
    end.
  Definition gives {A} (k : A) (f : MS A) : Prop := ∀ m a m', f m = Ok a m' → a = k.
  Lemma gives_eq {A} (k a : A) (f : MS A) m m' : gives k f → f m = Ok a m' → a = k.
  Proof. intros H. apply H. Qed.
  Lemma gives_ret {A} (k : A) : gives k (ret k).
  Proof. by intros m a m' [= <- _]. Qed.
  Lemma gives_bind {A B} (k : B) (f : MS A) (g : A → MS B) : (∀ a, gives k (g a)) → gives k (bind f g).
  Proof. intros H m b m'. unfold bind. destruct (f m); [|done..]. apply H. Qed.
  Lemma s_fill2_nxt this cs : ∀ len cap m r m',
    s_fill2 this len cap cs m = Ok r m' →
    Pos.to_nat (nxt m') = Pos.to_nat (nxt m) + fill_allocs len cap (length cs).
  Proof.
    induction cs as [|c cs IH]; intros len cap m r m'; simpl.
    { intros [= <- <-]. lia. }
    rewrite {1}/bind. destruct (len =? cap).
    - rewrite {1}/bind. destruct (b_allocate ((len + 1) * 2 + 1) m) as [a m1| | |] eqn:E; [|done..].
      apply b_allocate_nxt in E.
      match goal with |- context [match ?f m1 with _ => _ end] =>
        destruct (f m1) as [k m2| | |] eqn:E2; [|done..];
        assert (keepsS f ∧ k = (len + 1) * 2) as [Hk ->]
      end.
      { split; [keepsS|]. eapply gives_eq; [|exact E2].
        repeat (apply gives_bind; intros ?). apply gives_ret. }
      apply Hk in E2. rewrite /bind. destruct (s_p this m2) as [p m3| | |] eqn:E3; [|done..].
      destruct (b_set p len c m3) as [[] m4| | |] eqn:E4; [|done..]. intros H. rewrite (IH _ _ _ _ _ H).
      assert (keepsS (s_p this)) as K1 by keepsS. assert (keepsS (b_set p len c)) as K2 by keepsS.
      rewrite (K2 _ _ _ E4) (K1 _ _ _ E3) E2 E. lia.
    - rewrite /ret /bind. destruct (s_p this m) as [p m3| | |] eqn:E3; [|done..].
      destruct (b_set p len c m3) as [[] m4| | |] eqn:E4; [|done..]. intros H. rewrite (IH _ _ _ _ _ H).
      assert (keepsS (s_p this)) as K1 by keepsS. assert (keepsS (b_set p len c)) as K2 by keepsS.
      rewrite (K2 _ _ _ E4) (K1 _ _ _ E3). lia.
  Qed.
  Lemma fill_allocs_bound n : ∀ len j, len ≤ 2 ^ S j - 2 →
    ∃ i, fill_allocs len (2 ^ S j - 2) n = i ∧ len + n ≤ 2 ^ S (j + i) - 2 ∧
         (i = 0 ∨ 2 ^ (j + i) - 2 < len + n).
  Proof.
    induction n as [|n IH]; intros len j Hl; cbn [fill_allocs].
    { exists 0. rewrite !Nat.add_0_r. auto. }
    assert (1 ≤ 2 ^ j) as Hj by (apply Nat.neq_0_lt_0, Nat.pow_nonzero; lia).
    destruct (Nat.eqb_spec len (2 ^ S j - 2)) as [->|].
    - assert ((2 ^ S j - 2 + 1) * 2 = 2 ^ S (S j) - 2) as -> by (simpl; lia).
      destruct (IH (S (2 ^ S j - 2)) (S j)) as (i & -> & H1 & H2); [simpl; lia|].
      exists (S i). split; [done|]. rewrite !(Nat.add_succ_r (2 ^ S j - 2)) !(Nat.add_succ_r j).
      rewrite !Nat.add_succ_l in H1, H2. split; [lia|]. right.
      destruct H2 as [->|H2]; [rewrite Nat.add_0_r; lia|lia].
    - destruct (IH (S len) j) as (i & -> & H1 & H2); [lia|]. exists i. split; [done|]. lia.
  Qed.
  Lemma fill_allocs_log n : 0 < n → fill_allocs 0 0 n = Nat.log2_up (n + 2) - 1.
  Proof.
    intros Hn. destruct (fill_allocs_bound n 0 0) as (i & E & H1 & H2); [simpl; lia|]. simpl in E. rewrite E.
    destruct i as [|i]; [simpl in H1; lia|]. rewrite Nat.add_0_l in H1, H2.
    rewrite (Nat.log2_up_unique (n + 2) (S (S i))); [lia..|].
    assert (1 ≤ 2 ^ i) as Hj by (apply Nat.neq_0_lt_0, Nat.pow_nonzero; lia).
    rewrite Nat.pred_succ. simpl in H1, H2 |- *. lia.
  Qed.
  Lemma c106_range m cs :
    fair m → cs ≠ [] →
    ∃ this m' k p, s_range cs m = Ok this m' ∧ s_holds m' this cs k p ∧
      allocs m m' = 1 + (Nat.log2_up (length cs + 2) - 1).
  Proof.
    intros Hm Hcs. pose proof (c17_range m cs Hm Hcs) as H. unfold unthrown in H.
    destruct (s_range cs m) as [this m'| | |] eqn:E; [|done..]. destruct H as (_ & k & p & Hh & _).
    exists this, m', k, p. split; [done|]. split; [done|].
    rewrite -fill_allocs_log; [|destruct cs; simpl; [done|lia]].
    enough (Pos.to_nat (nxt m') = Pos.to_nat (nxt m) + S (fill_allocs 0 0 (length cs))) by (unfold allocs; lia).
    revert E. rewrite /s_range {1}/bind /new.
    assert (s_fill1 (nxt m) 0 0 cs = ret (0, cs)) as Hf by by destruct cs.
    set (m1 := Mem _ _ _ _).
    assert (s_cap (nxt m) m1 = Ok 0 m1) as Hc.
    { rewrite /s_cap /s_hdr /load /bind /= lookup_insert //. }
    rewrite {1}/bind /on_throw /catch {1}/bind Hc {1}/bind Hf. simpl. rewrite {1}/bind.
    destruct (s_fill2 (nxt m) 0 0 cs m1) as [len m2|e m2| |] eqn:E2; [|by rewrite /bind; destruct (free _ _)|done..].
    apply s_fill2_nxt in E2.
    match goal with |- context [match ?f m2 with _ => _ end] => 
      assert (keepsS f) as Hk by keepsS; destruct (f m2) as [[] m3|e m3| |] eqn:E3; [|by rewrite /bind; destruct (free _ _)|done..] end.
    intros [= <- <-]. rewrite (Hk _ _ _ E3) E2. simpl. lia.
  Qed.
  Lemma c107_refuted n :
    ∃ m this xs k p, fair m ∧ s_holds m this xs k p ∧
    ∃ m' p', s_append_all this (replicate n [97%N]) m = Ok tt m' ∧
      s_holds m' this (xs ++ replicate n 97%N) (k + n) p' ∧ allocs m m' = n.
  Proof.
    set (m := Mem {[ 1%positive := SHdr 1 1 (Some 2%positive); 2%positive := SBuf [97; 0]%N ]} 3%positive [] []).
    assert (fair m) as Hm.
    { split; [apply mem_wf_check; vm_compute; reflexivity|by repeat constructor]. }
    assert (s_holds m 1%positive [97%N] (length [97%N]) 2%positive) as Hh.
    { split; [done|]. split; [simpl; lia|]. by exists []. }
    exists m, 1%positive, [97%N], 1, 2%positive. split; [done|]. split; [done|].
    destruct (c106_append_full m _ _ _ (replicate n [97%N]) Hm Hh) as (m' & p' & H1 & H2 & H3).
    { by apply Forall_replicate. }
    exists m', p'. split; [done|]. rewrite replicate_length in H3. split; [|done].
    assert (concat (replicate n [97%N]) = replicate n 97%N) as Ec.
    { clear. induction n as [|n IH]; [done|]. simpl. by rewrite IH. }
    rewrite Ec in H2. by rewrite app_length replicate_length in H2.
  Qed.
End string.
