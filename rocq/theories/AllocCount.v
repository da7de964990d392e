(** Code in which one of the coming allocations fails. *)
From iris.proofmode Require Import tactics.
From Verif Require Import SLTac Hist HistGen HistProofs.

Section tally.
  Context {C : Type}.
  Implicit Types m : mem C.
  (** makes no allocation *)
  Definition no_alloc {A} (f : M C A) : Prop :=
    ∀ m, match f m with Ok _ m' => aorc m' = aorc m | _ => True end.
  Lemma na_bind {A B} (f : M C A) (k : A → M C B) : no_alloc f → (∀ a, no_alloc (k a)) → no_alloc (bind f k).
  Proof.
    intros Hf Hk m. unfold bind. specialize (Hf m). destruct (f m) as [a m'| | |]; [|done..].
    specialize (Hk a m'). destruct (k a m'); [congruence|done..].
  Qed.
  Lemma na_ret {A} (a : A) : no_alloc (ret a).
  Proof. done. Qed.
  Lemma na_ub {A} : no_alloc (A:=A) ub.
  Proof. done. Qed.
  Lemma na_load l : no_alloc (load l).
  Proof. intros m. unfold load. by destruct (blk m !! l). Qed.
  Lemma na_store l c : no_alloc (store l c).
  Proof. intros m. unfold store. by destruct (blk m !! l). Qed.
  Lemma na_free l : no_alloc (free l).
  Proof. intros m. unfold free. by destruct (blk m !! l). Qed.

  (** frees nothing; every allocation adds one cell and consumes one answer of the
      oracle, up to the one that fails *)
  Definition tally {A} (f : M C A) : Prop :=
    ∀ m n ao, mem_wf m → aorc m = replicate n false ++ ao →
    match f m with
    | Ok _ m' => mem_wf m' ∧ ∃ k, size (blk m') = size (blk m) + k ∧ (k ≤ n → aorc m' = replicate (n - k) false ++ ao) ∧
        (head ao = Some true → k ≤ n)
    | Exn BadAlloc m' => ∃ k, n ≤ k ∧ size (blk m') = size (blk m) + k ∧ (head ao = Some true → k = n)
    | _ => True
    end.
  Lemma ta_bind {A B} (f : M C A) (k : A → M C B) : tally f → (∀ a, tally (k a)) → tally (bind f k).
  Proof.
    intros Hf Hk m n ao Hw Ho. unfold bind. specialize (Hf m n ao Hw Ho). destruct (f m) as [a m1|e m1| |]; [|done..].
    destruct Hf as (Hw1 & k1 & Hs1 & Ho1 & Ha1). destruct (decide (k1 ≤ n)) as [Hk1|Hk1].
    - specialize (Hk a m1 _ ao Hw1 (Ho1 Hk1)). destruct (k a m1) as [b m2|e m2| |]; [| |done..].
      + destruct Hk as (Hw2 & k2 & Hs2 & Ho2 & Ha2). split; [done|]. exists (k1 + k2). split; [lia|].
        replace (n - (k1 + k2)) with (n - k1 - k2) by lia. split; [intros; apply Ho2; lia|]. intros Ht. specialize (Ha2 Ht). lia.
      + destruct e; [|done..]. destruct Hk as (k2 & Hk2 & Hs2 & Ha2). exists (k1 + k2). split; [lia|]. split; [lia|].
        intros Ht. specialize (Ha2 Ht). lia.
    - specialize (Hk a m1 0 (aorc m1) Hw1 eq_refl). destruct (k a m1) as [b m2|e m2| |]; [| |done..].
      + destruct Hk as (Hw2 & k2 & Hs2 & _). split; [done|]. exists (k1 + k2). split; [lia|]. split; [lia|]. intros Ht. specialize (Ha1 Ht). lia.
      + destruct e; [|done..]. destruct Hk as (k2 & _ & Hs2 & _). exists (k1 + k2). split; [lia|]. split; [lia|].
        intros Ht. specialize (Ha1 Ht). lia.
  Qed.
  Lemma ta_same {A} (f : M C A) : 
    (∀ m, match f m with
          | Ok _ m' => nxt m' = nxt m ∧ aorc m' = aorc m ∧ ∀ l, is_Some (blk m' !! l) ↔ is_Some (blk m !! l)
          | Exn BadAlloc _ => False
          | _ => True
          end) → tally f.
  Proof.
    intros H m n ao Hw Ho. specialize (H m). destruct (f m) as [a m1|e m1| |]; [|by destruct e|done..].
    destruct H as (Hn & Ha & Hl). split; [intros l Hl'; rewrite Hn; by apply Hw, Hl|]. exists 0. rewrite Nat.sub_0_r.
    split; [|split; [intros; congruence|lia]]. rewrite Nat.add_0_r -!size_dom. f_equal. apply set_eq. intros l.
    by rewrite !elem_of_dom.
  Qed.
  Lemma ta_ret {A} (a : A) : tally (ret a).
  Proof. by apply ta_same. Qed.
  Lemma ta_ub {A} : tally (A:=A) ub.
  Proof. done. Qed.
  Lemma ta_diverge {A} : tally (A:=A) diverge.
  Proof. done. Qed.
  Lemma ta_load l : tally (load l).
  Proof. apply ta_same. intros m. unfold load. by destruct (blk m !! l). Qed.
  Lemma ta_store l c : tally (store l c).
  Proof.
    apply ta_same. intros m. unfold store. destruct (blk m !! l) eqn:E; [|done]. cbn. split; [done|]. split; [done|].
    intros l'. rewrite lookup_insert_is_Some'. split; [intros [<-|?]; [by eexists|done]|by right].
  Qed.
  Lemma ta_may_throw : tally may_throw.
  Proof. apply ta_same. intros m. unfold may_throw. by destruct (corc m) as [|[] ?]. Qed.
  Lemma ta_alloc c : tally (alloc c).
  Proof.
    intros m n ao Hw Ho. unfold alloc.
    assert (blk m !! nxt m = None) as Hn.
    { apply eq_None_not_Some. intros Hs%Hw. lia. }
    assert (∀ m', blk m' = <[nxt m := c]> (blk m) → nxt m' = Pos.succ (nxt m) → mem_wf m' ∧ size (blk m') = size (blk m) + 1) as Hm'.
    { intros m' Hb Hx. split; [|rewrite Hb map_size_insert_None //; lia].
      intros l. rewrite Hb Hx lookup_insert_is_Some'. intros [<-|Hl]; [lia|]. apply Hw in Hl. lia. }
    destruct n as [|n]; cbn [replicate app] in Ho; rewrite Ho.
    - destruct ao as [|[] ao].
      + edestruct Hm'; [..|split; [eassumption|]]; [done..|]. exists 1. split; [done|]. split; [lia|]. done.
      + exists 0. cbn. split; [lia|]. split; [lia|]. done.
      + edestruct Hm'; [..|split; [eassumption|]]; [done..|]. exists 1. split; [done|]. split; [lia|]. done.
    - edestruct Hm'; [..|split; [eassumption|]]; [done..|]. exists 1. split; [done|]. cbn. rewrite Nat.sub_0_r. split; [done|lia].
  Qed.
  Lemma ta_fuel {A} (k : nat → M C A) : (∀ n, tally (k n)) → tally (with_fuel k).
  Proof. intros H m. apply H. Qed.

  (** [f] has to allocate more than [j] cells and the [j]-th allocation fails *)
  Lemma tally_run {A} (f : M C A) P Q R m h hf j ao :
    tally f → (P ⊢ wp mT f Q R) → good mT m → blk m = h ∪ hf → h ##ₘ hf → P h →
    aorc m = replicate j false ++ true :: ao →
    (∀ a h', Q a h' → size h + j < size h') → (∀ e h', R e h' → e = BadAlloc) →
    ∃ m' h', f m = Exn BadAlloc m' ∧ good mT m' ∧ h' ##ₘ hf ∧ blk m' = h' ∪ hf ∧ R BadAlloc h' ∧ size h' = size h + j.
  Proof.
    intros Ht Hwp Hg Hb Hd HP Ho HQ HR. pose proof (wp_frame_adequate _ _ _ _ _ _ _ _ Hwp Hg Hb Hd HP) as Hw.
    specialize (Ht m j (true :: ao) (proj1 Hg) Ho). destruct (f m) as [a m1|e m1| |]; [| |done..].
    - destruct Hw as (_ & h' & Hd' & Hb' & Hq). destruct Ht as (_ & k & Hs & _ & Hk). specialize (Hk eq_refl). apply HQ in Hq.
      rewrite Hb Hb' !map_size_disj_union // in Hs. lia.
    - destruct Hw as (Hg' & h' & Hd' & Hb' & Hr). pose proof (HR _ _ Hr) as ->. exists m1, h'. repeat (split; [done|]).
      destruct Ht as (k & _ & Hs & Hk). rewrite (Hk eq_refl) Hb Hb' !map_size_disj_union // in Hs. lia.
  Qed.
  (** [f] allocates [n] cells, and the next [n] allocations succeed *)
  Lemma tally_done {A} (f : M C A) m n ao a m' :
    tally f → mem_wf m → aorc m = replicate n false ++ ao → f m = Ok a m' → size (blk m') = size (blk m) + n → aorc m' = ao.
  Proof.
    intros Ht Hw Ho E Hs. specialize (Ht m n ao Hw Ho). rewrite E in Ht. destruct Ht as (_ & k & Hs' & Hk & _).
    assert (k = n) as -> by lia. by rewrite Hk // Nat.sub_diag.
  Qed.
  Lemma tally_thrown {A} (f : M C A) m ao m' :
    tally f → mem_wf m → aorc m = false :: ao → f m = Exn BadAlloc m' → size (blk m) < size (blk m').
  Proof. intros Ht Hw Ho E. specialize (Ht m 1 ao Hw Ho). rewrite E in Ht. destruct Ht as (k & Hk & Hs & _). lia. Qed.
End tally.
Ltac na := repeat first
  [ apply na_ret | apply na_ub | apply na_load | apply na_store | apply na_free
  | apply na_bind; [|intros ?] | progress cbv zeta | case_match | case_decide ].
Ltac ta := repeat first
  [ apply ta_ret | apply ta_ub | apply ta_diverge | apply ta_load | apply ta_store | apply ta_may_throw | apply ta_alloc
  | apply ta_bind; [|intros ?] | progress cbv zeta | case_match | case_decide ].
