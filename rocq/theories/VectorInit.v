(** Throwing element copies: the initializer-list constructor, self-assignment
    and appending an own element. *)
From iris.proofmode Require Import tactics.
From Verif Require Import Hist ModelVector SpecVector SpecVectorThrow SpecVectorInit VectorProofs VectorThrow.

Lemma log2_up_step i : 0 < i → i ≤ 2 ^ Nat.log2_up i ∧
  2 ^ Nat.log2_up (S i) = if 2 ^ Nat.log2_up i =? i then 2 * i else 2 ^ Nat.log2_up i.
Proof.
  intros Hi. destruct (decide (i = 1)) as [->|H1]; [done|].
  destruct (Nat.log2_up_spec i) as [Ha Hb]; [lia|]. split; [done|].
  assert (0 < Nat.log2_up i) as Hp by (apply Nat.log2_up_pos; lia).
  destruct (Nat.eqb_spec (2 ^ Nat.log2_up i) i) as [E|E].
  - assert (Nat.log2_up (S i) = S (Nat.log2_up i)) as ->; [|rewrite Nat.pow_succ_r' E; lia].
    apply Nat.log2_up_unique; [lia|]. cbn [pred]. rewrite Nat.pow_succ_r' E. lia.
  - f_equal. apply Nat.log2_up_unique; lia.
Qed.
Lemma cap_le i : i ≤ cap_after i.
Proof. destruct i; [done|]. apply log2_up_step. lia. Qed.
Lemma cap_step i : cap_after (S i) = if cap_after i =? i then next_cap i else cap_after i.
Proof.
  destruct i as [|i]; [done|]. destruct (log2_up_step (S i) ltac:(lia)) as [_ E]. unfold cap_after, next_cap. exact E.
Qed.
Lemma copies_step i : copies_for (S i) = copies_for i + S (if cap_after i =? i then i else 0).
Proof.
  destruct i as [|i]; [done|]. destruct (log2_up_step (S i) ltac:(lia)) as [Hl E]. unfold copies_for, cap_after.
  rewrite E. destruct (Nat.eqb_spec (2 ^ Nat.log2_up (S i)) (S i)); lia.
Qed.
Lemma copies_points n t : t < copies_for n →
  ∃ i, i < n ∧ (t = copies_for (S i) - 1 ∨ cap_after i = i ∧ ∃ s, s < i ∧ t = copies_for i + s).
Proof.
  induction n as [|n IH]; [cbn; lia|]. intros Ht.
  destruct (decide (t < copies_for n)) as [H|H]; [destruct (IH H) as (i & ? & ?); exists i; split; [lia|done]|].
  exists n. split; [lia|]. rewrite copies_step in Ht. rewrite copies_step.
  destruct (Nat.eqb_spec (cap_after n) n) as [E|E]; [|left; lia].
  destruct (decide (t = copies_for n + n)); [left; lia|]. right. split; [done|]. exists (t - copies_for n). lia.
Qed.

Section init.
  Context {V : Type}.
  Implicit Types (h : gmap loc (vcell V)) (m : mem (vcell V)) (xs ys : list V).

  (** the end of push_back when the copy succeeds *)
  Lemma push_tail_ok m this xs k b v rest : holds m this xs k (Some b) → length xs < k → corc m = false :: rest →
    (p <- v_p this ;; n <- v_size this ;; set_size this (S n) ;;; v <- deref (RVal v) ;; a_construct p n v) m =
    Ok tt (Mem (<[b := filled (xs ++ [v]) k]> (<[this := VHdr (S (length xs)) k (Some b)]> (blk m))) (nxt m) (aorc m) rest).
  Proof.
    intros [H (_ & _ & H2)] Hk Ho. assert (b ≠ this) by congruence.
    rewrite (bind_ok _ _ _ _ _ (ev_p _ _ _ _ _ H)) (bind_ok _ _ _ _ _ (ev_size _ _ _ _ _ H)).
    rewrite (bind_ok _ _ _ _ _ (ev_set_size _ _ _ _ _ _ H)). cbn [deref]. erewrite bind_ok; [|done].
    rewrite Ho. set (h := <[this := _]> (blk m)).
    assert (h = <[b := VArr (slots xs k)]> h) as E.
    { symmetry. apply insert_id. unfold h. by rewrite lookup_insert_ne. }
    rewrite {1}E ev_construct; [|by apply slots_raw]. cbn [tail].
    rewrite slots_push'; [|done..]. done.
  Qed.

  (** the vector at [this] and its block are all there is besides [h] *)
  Definition alone (h : gmap loc (vcell V)) (this : loc) (xs : list V) (k : nat) (p : ptr) (m : mem (vcell V)) : Prop :=
    mem_wf m ∧ allocs_ok m ∧ holds m this xs k p ∧ h !! this = None ∧
    match p with
    | None => blk m = <[this := VHdr 0 0 None]> h
    | Some b => h !! b = None ∧ b ≠ this ∧ blk m = <[b := filled xs k]> (<[this := VHdr (length xs) k p]> h)
    end.
  Lemma alone_fresh h this xs k p m : alone h this xs k p m → h !! nxt m = None ∧ nxt m ≠ this.
  Proof.
    intros (Hw & _ & Hh & Hn & Hp). destruct (holds_lt _ _ _ _ _ Hw Hh) as [Hl Hl2]. split; [|lia].
    destruct (h !! nxt m) as [c|] eqn:E; [|done]. exfalso. assert (blk m !! nxt m = Some c) as E2.
    { destruct p as [b|]; [destruct Hp as (?&?&->)|rewrite Hp]; rewrite ?lookup_insert_ne //; destruct Hl2; lia || lia. }
    specialize (Hw (nxt m) ltac:(by rewrite E2)). lia.
  Qed.
  Lemma allocs_next m : allocs_ok m → next_alloc_ok m.
  Proof. unfold allocs_ok, next_alloc_ok. destruct (aorc m); [done|]. inversion 1; subst. done. Qed.
  Lemma regrown_alone h this xs k p m n : alone h this xs k p m →
    regrown this xs n p (nxt m) (blk m) = <[nxt m := filled xs n]> (<[this := VHdr (length xs) n (Some (nxt m))]> h).
  Proof.
    intros (Hw & _ & Hh & Hn & Hp). unfold regrown. destruct p as [b|]; cbn [drop_data].
    - destruct Hp as (Hb & Hne & ->). rewrite delete_insert; [|rewrite lookup_insert_ne //]. by rewrite insert_insert.
    - by rewrite Hp insert_insert.
  Qed.
  Lemma push_step h this xs k p m v rest : alone h this xs k p m →
    corc m = replicate (if k =? length xs then length xs else 0) false ++ false :: rest →
    ∃ m' p', v_push_back this (RVal v) m = Ok tt m' ∧ corc m' = rest ∧
      alone h this (xs ++ [v]) (if k =? length xs then next_cap k else k) p' m'.
  Proof.
    intros Ha Ho. pose proof Ha as (Hw & Hal & Hh & Hn & Hp). pose proof (holds_len _ _ _ _ _ Hh) as Hlen.
    destruct (alone_fresh _ _ _ _ _ _ Ha) as [Hf1 Hf2]. destruct (holds_lt _ _ _ _ _ Hw Hh) as [Hl Hl2].
    destruct (Nat.eqb_spec k (length xs)) as [E|E].
    - rewrite (push_full_eq _ _ _ _ _ _ Hh (eq_sym E)).
      assert (k < next_cap k) as Hkn by (destruct k; simpl; lia).
      rewrite (bind_ok _ _ _ _ _ (reserve_ok m this xs k p (next_cap k) (false :: rest) Hw Hh (allocs_next _ Hal) Hkn Ho)).
      rewrite (regrown_alone _ _ _ _ _ _ _ Ha).
      erewrite (push_tail_ok _ this xs (next_cap k) (nxt m)); cbn [blk corc nxt aorc]; [| |lia|done].
      2: { split; [cbn; rewrite lookup_insert_ne //; apply lookup_insert|]. split; [lia|]. split; [lia|]. apply lookup_insert. }
      eexists _, (Some (nxt m)). split; [done|]. split; [done|].
      assert (length (xs ++ [v]) = S (length xs)) as El by (rewrite app_length /=; lia).
      assert (<[nxt m := filled (xs ++ [v]) (next_cap k)]>
        (<[this := VHdr (S (length xs)) (next_cap k) (Some (nxt m))]>
          (<[nxt m := filled xs (next_cap k)]> (<[this := VHdr (length xs) (next_cap k) (Some (nxt m))]> h))) =
        <[nxt m := filled (xs ++ [v]) (next_cap k)]> (<[this := VHdr (length (xs ++ [v])) (next_cap k) (Some (nxt m))]> h)) as ->.
      { rewrite El. rewrite (insert_commute _ this (nxt m)) // insert_insert insert_insert. done. }
      split; [|split; [|split; [|split; [done|]]]].
      + intros l Hl'. cbn in *. destruct (decide (l = nxt m)) as [->|]; [lia|]. rewrite lookup_insert_ne // in Hl'.
        destruct (decide (l = this)) as [->|]; [lia|]. rewrite lookup_insert_ne // in Hl'.
        assert (is_Some (blk m !! l)) as Hi; [|apply Hw in Hi; lia].
        destruct p as [b|]; [destruct Hp as (Hb & Hne & ->)|rewrite Hp].
        * destruct (decide (l = b)) as [->|]; [rewrite lookup_insert; eauto|]. rewrite !lookup_insert_ne //.
        * rewrite lookup_insert_ne //.
      + unfold allocs_ok in *. cbn. destruct (aorc m); [done|]. by inversion Hal.
      + split; [cbn; rewrite lookup_insert_ne //; apply lookup_insert|]. split; [lia|]. split; [lia|]. apply lookup_insert.
      + split; [done|]. split; [done|]. done.
    - destruct p as [b|]; [|destruct Hh as [_ [-> ->]]; done]. destruct Hp as (Hb & Hne & Eb).
      unfold v_push_back. destruct Hh as [H1 (Hk & _ & H2)].
      rewrite (bind_ok _ _ _ _ _ (ev_cap _ _ _ _ _ H1)) (bind_ok _ _ _ _ _ (ev_size _ _ _ _ _ H1)).
      destruct (Nat.eqb_spec k 0); [lia|]. destruct (Nat.eqb_spec k (length xs)); [lia|].
      rewrite (bind_ok _ _ _ _ _ (eq_refl : ret tt m = Ok tt m)).
      erewrite (push_tail_ok _ this xs k b); [|by split|lia|exact Ho].
      eexists _, (Some b). split; [done|]. split; [done|].
      assert (length (xs ++ [v]) = S (length xs)) as El by (rewrite app_length /=; lia).
      rewrite Eb. rewrite (insert_commute _ this b) // insert_insert insert_insert.
      split; [|split; [done|split; [|split; [done|]]]].
      + intros l Hl'. cbn in *. apply Hw. rewrite Eb. destruct (decide (l = b)) as [->|]; [rewrite lookup_insert; eauto|].
        rewrite lookup_insert_ne // in Hl'. rewrite lookup_insert_ne //.
        destruct (decide (l = this)) as [->|]; [rewrite lookup_insert; eauto|]. rewrite lookup_insert_ne // in Hl'. by rewrite lookup_insert_ne.
      + split; [cbn; rewrite El lookup_insert_ne //; apply lookup_insert|]. split; [lia|]. split; [lia|]. apply lookup_insert.
      + split; [done|]. split; [done|]. by rewrite El.
  Qed.
  Lemma push_prefix h this ws vs m rest : alone h this [] 0 None m →
    corc m = replicate (copies_for (length ws)) false ++ rest →
    ∃ m' p, v_push_all this (ws ++ vs) m = v_push_all this vs m' ∧ corc m' = rest ∧
      alone h this ws (cap_after (length ws)) p m'.
  Proof.
    intros Ha. revert vs rest. induction ws as [|w ws IH] using rev_ind; intros vs rest Ho.
    - exists m, None. split; [done|]. split; [done|]. done.
    - rewrite last_length copies_step replicate_add -assoc_L in Ho.
      destruct (IH (w :: vs) _ Ho) as (m1 & p1 & E1 & Ho1 & Ha1).
      rewrite replicate_S_end -assoc_L in Ho1.
      destruct (push_step _ _ _ _ _ _ w _ Ha1 Ho1) as (m2 & p2 & E2 & Ho2 & Ha2).
      exists m2, p2. split; [|split; [done|]].
      + rewrite -assoc_L /= E1. cbn [v_push_all]. by rewrite (bind_ok _ _ _ _ _ E2).
      + rewrite last_length cap_step.
        destruct (Nat.eqb_spec (cap_after (length ws)) (length ws)) as [Ec|]; [|done]. by rewrite Ec in Ha2.
  Qed.

  Lemma new_alone m : mem_wf m → allocs_ok m →
    alone (blk m) (nxt m) [] 0 None (Mem (<[nxt m := VHdr 0 0 None]> (blk m)) (Pos.succ (nxt m)) (aorc m) (corc m)).
  Proof.
    intros Hw Ha. split; [by apply new_wf|]. split; [done|]. split; [apply new_holds|]. split; [|done].
    destruct (blk m !! nxt m) eqn:E; [|done]. specialize (Hw (nxt m) ltac:(by rewrite E)). lia.
  Qed.
  (** from the throw in a push to the constructor's *)
  Lemma init_throws m vs m1 rest : 
    v_push_all (nxt m) vs (Mem (<[nxt m := VHdr 0 0 None]> (blk m)) (Pos.succ (nxt m)) (aorc m) (corc m)) = Exn CopyThrow m1 →
    is_Some (blk m1 !! nxt m) → corc m1 = rest →
    threw (v_init vs m) (delete (nxt m) (blk m1)) rest.
  Proof.
    intros E [c Hc] Ho. eexists. split; [|split].
    - unfold v_init, v_new, new. unfold bind at 1. apply bind_exn. unfold on_throw, catch. rewrite E.
      erewrite bind_ok; [reflexivity|]. unfold free. by rewrite Hc.
    - done.
    - done.
  Qed.
  Lemma replicate_split (a b : nat) l : replicate (a + b) false ++ l = replicate a false ++ (replicate b false ++ l).
  Proof using. by rewrite replicate_add -assoc_L. Qed.
  Lemma init_split (vs : list V) i : i < length vs → ∃ v vs', vs = take i vs ++ v :: vs' ∧ length (take i vs) = i.
  Proof using.
    intros Hi. destruct (lookup_lt_is_Some_2 vs i Hi) as [v Hv]. exists v, (drop (S i) vs).
    split; [symmetry; by apply take_drop_middle|rewrite take_length; lia].
  Qed.
  Lemma init_lost m vs i t rest : mem_wf m → allocs_ok m → i < length vs → cap_after i = i → t < i →
    throws_at m (copies_for i + t) rest →
    ∃ b b', unused m b ∧ unused m b' ∧ b ≠ b' ∧
      threw (v_init vs m) (<[b' := filled (take t vs) (2 * i)]> (<[b := filled (take i vs) i]> (blk m))) rest.
  Proof.
    intros Hw Ha Hi Hc Ht Ho. destruct (init_split vs i Hi) as (v & vs' & Ev & El). unfold throws_at in Ho. rewrite replicate_split in Ho.
    pose proof (new_alone m Hw Ha) as H0.
    destruct (push_prefix _ _ (take i vs) (v :: vs') _ (replicate t false ++ true :: rest) H0 ltac:(rewrite El; exact Ho)) as (m1 & p & E1 & Ho1 & Ha1).
    rewrite El Hc in Ha1. pose proof Ha1 as (Hw1 & Hal1 & Hh1 & Hn1 & Hp1).
    destruct (alone_fresh _ _ _ _ _ _ Ha1) as [Hf1 Hf2].
    destruct p as [b|]; [|destruct Hh1 as [_ [? _]]; lia]. destruct Hp1 as (Hb & Hbne & Eb).
    destruct (holds_lt _ _ _ _ _ Hw1 Hh1) as [Hl1 [Hl2 _]].
    exists b, (nxt m1). split; [done|]. split; [done|]. split; [lia|].
    pose proof (push_lost m1 (nxt m) (take i vs) i (Some b) v t rest Hw1 Hh1 El (allocs_next _ Hal1) Ht Ho1) as E2.
    rewrite take_take Nat.min_l in E2; [|lia].
    assert (<[nxt m1 := filled (take t vs) (2 * i)]> (<[b := filled (take i vs) i]> (blk m)) =
      delete (nxt m) (blk (Mem (<[nxt m1 := filled (take t vs) (2 * i)]> (blk m1)) (Pos.succ (nxt m1)) (tail (aorc m1)) rest))) as ->.
    { cbn [blk]. rewrite delete_insert_ne // Eb delete_insert_ne // delete_insert //. }
    apply init_throws; [|cbn; rewrite lookup_insert_ne // Eb lookup_insert_ne // lookup_insert; eauto|done].
    rewrite {1}Ev E1. cbn [v_push_all]. by apply bind_exn.
  Qed.
  Lemma init_new m vs i rest : mem_wf m → allocs_ok m → i < length vs → throws_at m (copies_for (S i) - 1) rest →
    ∃ b, unused m b ∧ threw (v_init vs m) (<[b := filled (take i vs) (cap_after (S i))]> (blk m)) rest.
  Proof.
    intros Hw Ha Hi Ho. destruct (init_split vs i Hi) as (v & vs' & Ev & El). unfold throws_at in Ho.
    rewrite copies_step in Ho. replace (copies_for i + S (if cap_after i =? i then i else 0) - 1) with
      (copies_for i + (if cap_after i =? i then i else 0)) in Ho by lia. rewrite replicate_split in Ho.
    pose proof (new_alone m Hw Ha) as H0.
    destruct (push_prefix _ _ (take i vs) (v :: vs') _ (replicate (if cap_after i =? i then i else 0) false ++ true :: rest) H0 ltac:(rewrite El; exact Ho)) as (m1 & p & E1 & Ho1 & Ha1).
    rewrite El in Ha1. pose proof Ha1 as (Hw1 & Hal1 & Hh1 & Hn1 & Hp1).
    destruct (alone_fresh _ _ _ _ _ _ Ha1) as [Hf1 Hf2]. rewrite cap_step.
    destruct (Nat.eqb_spec (cap_after i) i) as [Ec|Ec].
    - rewrite Ec in Hh1, Ha1. exists (nxt m1). split; [done|].
      pose proof (push_grown m1 (nxt m) (take i vs) i p v rest Hw1 Hh1 El (allocs_next _ Hal1) Ho1) as E2.
      rewrite (regrown_alone _ _ _ _ _ _ _ Ha1) in E2.
      match type of E2 with _ = Exn _ ?m2 => assert (<[nxt m1 := filled (take i vs) (next_cap i)]> (blk m) = delete (nxt m) (blk m2)) as -> end.
      { cbn [blk]. rewrite delete_insert_delete delete_insert_ne // delete_insert //. }
      apply init_throws; [|cbn; rewrite lookup_insert; eauto|done].
      rewrite {1}Ev E1. cbn [v_push_all]. by apply bind_exn.
    - pose proof (cap_le i). destruct p as [b|]; [|destruct Hh1 as [_ [? _]]; lia]. destruct Hp1 as (Hb & Hbne & Eb).
      exists b. split; [done|].
      pose proof (push_fit m1 (nxt m) (take i vs) (cap_after i) (Some b) v rest Hh1 ltac:(lia) Ho1) as E2.
      match type of E2 with _ = Exn _ ?m2 => assert (<[b := filled (take i vs) (cap_after i)]> (blk m) = delete (nxt m) (blk m2)) as -> end.
      { cbn [blk]. rewrite delete_insert_delete Eb delete_insert_ne // delete_insert //. }
      apply init_throws; [|cbn; rewrite lookup_insert; eauto|done].
      rewrite {1}Ev E1. cbn [v_push_all]. by apply bind_exn.
  Qed.

  (** ** Self-assignment *)
  Lemma self_assign_throw m this xs k p t rest : holds m this xs k p → t < length xs → throws_at m t rest →
    threw (v_assign this this m) (blk m) rest.
  Proof.
    intros [H1 H2] Ht Ho. destruct p as [b|]; [|destruct H2 as [_ ->]; simpl in Ht; lia]. destruct H2 as (Hk & Hl & H2).
    assert (b ≠ this) by congruence.
    exists (Mem (<[b := VArr (map Some xs ++ replicate (k - length xs) None)]> (blk m)) (nxt m) (aorc m) rest).
    split; [|split; [|reflexivity]].
    - unfold v_assign. rewrite (bind_ok _ _ _ _ _ (ev_cap _ _ _ _ _ H1)).
      rewrite (bind_ok _ _ _ _ _ (reserve_fits _ _ _ _ _ _ H1 (le_n _))).
      rewrite (bind_ok _ _ _ _ _ (ev_size _ _ _ _ _ H1)) (bind_ok _ _ _ _ _ (ev_size _ _ _ _ _ H1)). cbv zeta.
      destruct (Nat.leb_spec (length xs) (length xs)); [|lia]. apply bind_exn. apply bind_exn.
      rewrite {1}(mem_eta_at m b _ _ H2 Ho).
      apply (loop_throw (λ _, <[b := VArr (map Some xs ++ replicate (k - length xs) None)]> (blk m))); [| |done];
        intros i o Hi; destruct (lookup_lt_is_Some_2 xs i) as [v Hv]; [lia| |lia|];
        (erewrite bind_ok; [|eapply ev_p; cbn; rewrite lookup_insert_ne; [exact H1|done]]);
        (erewrite bind_ok; [|eapply ev_p; cbn; rewrite lookup_insert_ne; [exact H1|done]]);
        (erewrite bind_ok; [|erewrite ev_get; [|apply lookup_insert]; by rewrite (slots_live xs k i v Hv)]);
        erewrite ev_assign; [|by apply slots_live| |by apply slots_live]; [|done].
      cbn [tail]. do 3 f_equal. rewrite list_insert_id //. by apply slots_live.
    - cbn. by apply insert_id.
  Qed.

  (** ** Appending an own element *)
  Lemma own_push_room m this xs k b i rest : holds m this xs k (Some b) → i < length xs < k → throws_at m 0 rest →
    ∃ m', v_push_back this (RElem b i) m = Exn CopyThrow m' ∧ corc m' = rest ∧
      blk m' = <[this := VHdr (S (length xs)) k (Some b)]> (blk m) ∧ v_torn m' this xs k b.
  Proof.
    intros Hh [Hi Hk] Ho. pose proof Hh as [H1 (_ & _ & H2)]. assert (b ≠ this) by congruence.
    destruct (lookup_lt_is_Some_2 xs i Hi) as [v Hv].
    exists (Mem (<[this := VHdr (S (length xs)) k (Some b)]> (blk m)) (nxt m) (aorc m) rest).
    split; [|split; [|split; [|by eapply push_fit_torn]]].
    - unfold v_push_back.
      rewrite (bind_ok _ _ _ _ _ (ev_cap _ _ _ _ _ H1)) (bind_ok _ _ _ _ _ (ev_size _ _ _ _ _ H1)).
      destruct (Nat.eqb_spec k 0); [lia|]. destruct (Nat.eqb_spec k (length xs)); [lia|].
      rewrite (bind_ok _ _ _ _ _ (eq_refl : ret tt m = Ok tt m)).
      rewrite (bind_ok _ _ _ _ _ (ev_p _ _ _ _ _ H1)) (bind_ok _ _ _ _ _ (ev_size _ _ _ _ _ H1)).
      rewrite (bind_ok _ _ _ _ _ (ev_set_size _ _ _ _ _ _ H1)). cbn [deref].
      erewrite bind_ok; [|erewrite ev_get; [|cbn; rewrite lookup_insert_ne; [exact H2|done]]; by rewrite (slots_live xs k i v Hv)].
      unfold a_construct. apply bind_exn. unfold may_throw. cbn [corc blk nxt aorc]. by rewrite Ho.
    - done.
    - done.
  Qed.
  Lemma own_push_full_eq m this xs k p r : holds m this xs k p → length xs = k →
    v_push_back this r m = (v_reserve this (next_cap k) ;;;
      (p <- v_p this ;; n <- v_size this ;; set_size this (S n) ;;; v <- deref r ;; a_construct p n v)) m.
  Proof.
    intros Hh Hk. pose proof Hh as [H1 _]. unfold v_push_back.
    rewrite (bind_ok _ _ _ _ _ (ev_cap _ _ _ _ _ H1)) (bind_ok _ _ _ _ _ (ev_size _ _ _ _ _ H1)).
    rewrite -Hk Nat.eqb_refl. destruct (length xs) as [|n]; [done|]. cbn [Nat.eqb next_cap].
    by rewrite (Nat.mul_comm 2).
  Qed.
  Lemma own_push_lost m this xs k b i t rest : mem_wf m → holds m this xs k (Some b) → length xs = k → next_alloc_ok m →
    t < k → throws_at m t rest →
    threw (v_push_back this (RElem b i) m) (<[nxt m := filled (take t xs) (2 * k)]> (blk m)) rest.
  Proof.
    intros Hw Hh Hk Ha Ht Ho. rewrite (own_push_full_eq _ _ _ _ _ _ Hh Hk). eapply threw_eq. apply bind_exn.
    destruct k as [|k]; [lia|]. cbn [next_cap]. eapply reserve_throw; try done; lia.
  Qed.
End init.
