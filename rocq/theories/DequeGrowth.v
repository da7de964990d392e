(** How many allocations and element copies pushing onto a deque takes. *)
From iris.proofmode Require Import tactics.
From Verif Require Import Hist HistProofs ModelDeque SpecDeque SpecGrowth SpecDequeGrowth VectorThrow DequeProofs DequeIter DequeProps DequeThrow.

Lemma no_fail_drop n l : no_fail l → no_fail (drop n l).
Proof. intros. by apply Forall_drop. Qed.
Lemma log2_up_succ c : 0 < c → c ≤ 2 ^ Nat.log2_up c ∧
  Nat.log2_up (S c) = if decide (c = 2 ^ Nat.log2_up c) then S (Nat.log2_up c) else Nat.log2_up c.
Proof.
  intros Hi. destruct (decide (c = 1)) as [->|H1]; [done|].
  destruct (Nat.log2_up_spec c) as [Ha Hb]; [lia|]. split; [done|].
  assert (0 < Nat.log2_up c) as Hp by (apply Nat.log2_up_pos; lia).
  case_decide as E; apply Nat.log2_up_unique; [lia| |lia|lia]. cbn [pred]. rewrite Nat.pow_succ_r'. lia.
Qed.

Section cnt.
  Context {C : Type}.
  (** [f] takes [a] allocations and [k] copies from [m], unless a copy throws *)
  Definition cnt {A} (a k : nat) (m : mem C) (f : M C A) : Prop :=
    match f m with
    | Ok _ m' => Pos.to_nat (nxt m') = a + Pos.to_nat (nxt m) ∧ aorc m' = drop a (aorc m) ∧ corc m' = drop k (corc m)
    | Exn e _ => e = CopyThrow
    | _ => True
    end.
  Lemma cnt_bind {A B} a a' k k' m (f : M C A) (g : A → M C B) :
    cnt a k m f → (∀ x m', f m = Ok x m' → cnt a' k' m' (g x)) → cnt (a + a') (k + k') m (bind f g).
  Proof.
    unfold cnt, bind. intros H1 H2. destruct (f m) as [x m'| | |] eqn:E; try done. specialize (H2 x m' eq_refl).
    destruct H1 as (E1 & E2 & E3). destruct (g x m') as [y m''| | |]; try done. destruct H2 as (F1 & F2 & F3).
    split; [lia|]. rewrite F2 F3 E2 E3 !drop_drop. done.
  Qed.
  Lemma cnt_seq {A B} a k m (f : M C A) (g : A → M C B) x m' :
    f m = Ok x m' → nxt m' = nxt m → aorc m' = aorc m → corc m' = corc m → cnt a k m' (g x) → cnt a k m (bind f g).
  Proof. unfold cnt, bind. intros -> E1 E2 E3. rewrite E1 E2 E3. done. Qed.
  Definition calm {A} (k : nat) (f : M C A) : Prop := ∀ m, cnt 0 k m f.
  Lemma calm_bind {A B} k k' (f : M C A) (g : A → M C B) : calm k f → (∀ x, calm k' (g x)) → calm (k + k') (bind f g).
  Proof. intros H1 H2 m. apply (cnt_bind 0 0); [apply H1|]. intros. apply H2. Qed.
  Lemma calm_ret {A} (x : A) : calm 0 (ret x).
  Proof. done. Qed.
  Lemma calm_ub {A} k : calm k (ub (A:=A)).
  Proof. done. Qed.
  Lemma calm_load l : calm 0 (load l).
  Proof. intros m. unfold cnt, load. by destruct (blk m !! l). Qed.
  Lemma calm_store l c : calm 0 (store l c).
  Proof. intros m. unfold cnt, store. by destruct (blk m !! l). Qed.
  Lemma calm_throw : calm 1 may_throw.
  Proof. intros m. unfold cnt, may_throw. by destruct (corc m) as [|[] ?]. Qed.
End cnt.

Lemma ev_alloc {C} (c : C) m : no_fail (aorc m) →
  alloc c m = Ok (nxt m) (Mem (<[nxt m := c]> (blk m)) (Pos.succ (nxt m)) (tail (aorc m)) (corc m)).
Proof. intros Ha. unfold alloc. destruct (aorc m) as [|[] ?]; [done| |done]. by inversion Ha. Qed.

Section growth.
  Context {V : Type} (K : nat) (HK : 2 ≤ K).
  Implicit Types (m : mem (dcell V)) (d : dstate V) (x : V).

  Lemma calm_hdr this : calm 0 (d_hdr (V:=V) this).
  Proof. apply (calm_bind 0 0); [apply calm_load|]. intros []; first [apply calm_ub|apply calm_ret]. Qed.
  Local Ltac get := apply (calm_bind 0 0); [apply calm_hdr|]; intros [[[[[? ?] ?] ?] ?] ?]; first [apply calm_ret|apply calm_store].
  Lemma calm_front_ this : calm 0 (d_front_ (V:=V) this). Proof. get. Qed.
  Lemma calm_back_ this : calm 0 (d_back_ (V:=V) this). Proof. get. Qed.
  Lemma calm_fchunk this : calm 0 (d_fchunk (V:=V) this). Proof. get. Qed.
  Lemma calm_bchunk this : calm 0 (d_bchunk (V:=V) this). Proof. get. Qed.
  Lemma calm_size this : calm 0 (d_size (V:=V) this). Proof. get. Qed.
  Lemma calm_chunks this : calm 0 (d_chunks (V:=V) this). Proof. get. Qed.
  Lemma calm_set_front this y : calm 0 (d_set_front (V:=V) this y). Proof. get. Qed.
  Lemma calm_set_back this y : calm 0 (d_set_back (V:=V) this y). Proof. get. Qed.
  Lemma calm_set_fchunk this y : calm 0 (d_set_fchunk (V:=V) this y). Proof. get. Qed.
  Lemma calm_set_bchunk this y : calm 0 (d_set_bchunk (V:=V) this y). Proof. get. Qed.
  Lemma calm_set_size this y : calm 0 (d_set_size (V:=V) this y). Proof. get. Qed.
  Lemma calm_vec v : calm 0 (d_vec (V:=V) v).
  Proof. apply (calm_bind 0 0); [apply calm_load|]. intros []; first [apply calm_ub|apply calm_ret]. Qed.
  Lemma calm_ps this : calm 0 (d_ps (V:=V) this).
  Proof.
    apply (calm_bind 0 0); [apply calm_chunks|]. intros [v|]; [|apply calm_ret].
    apply (calm_bind 0 0); [apply calm_vec|]. intros. apply calm_ret.
  Qed.
  Lemma calm_chunk this j : calm 0 (d_chunk (V:=V) this j).
  Proof. apply (calm_bind 0 0); [apply calm_ps|]. intros ps. case_decide; [|apply calm_ub]. destruct (ps !! _); [apply calm_ret|apply calm_ub]. Qed.
  Lemma calm_els c : calm 0 (d_els (V:=V) c).
  Proof. apply (calm_bind 0 0); [apply calm_load|]. intros []; first [apply calm_ub|apply calm_ret]. Qed.
  Lemma calm_construct r x : calm 1 (d_construct r x).
  Proof.
    apply (calm_bind 1 0); [apply calm_throw|]. intros _. apply (calm_bind 0 0); [apply calm_els|]. intros els.
    destruct (els !! r.2) as [[?|]|]; first [apply calm_store|apply calm_ub].
  Qed.
  Lemma calm_rotate this : calm 0 (d_vec_rotate (V:=V) this).
  Proof.
    apply (calm_bind 0 0); [apply calm_chunks|]. intros [v|]; [|apply calm_ub].
    apply (calm_bind 0 0); [apply calm_vec|]. intros h. destruct (rev h.2); first [apply calm_ub|apply calm_store].
  Qed.
  Lemma calm_grow_size this : calm 0 (n <- d_size (V:=V) this ;; d_set_size this (n + 1)).
  Proof. apply (calm_bind 0 0); [apply calm_size|]. intros. apply calm_set_size. Qed.
  Lemma calm_back_tail this x : calm 1 (r <- d_back (V:=V) this ;; v <- d_deref (DVal x) ;; d_construct r v).
  Proof.
    apply (calm_bind 0 1); [|intros r; apply (calm_bind 0 1); [apply calm_ret|intros; apply calm_construct]].
    apply (calm_bind 0 0); [apply calm_bchunk|]. intros. apply (calm_bind 0 0); [apply calm_chunk|]. intros.
    apply (calm_bind 0 0); [apply calm_back_|]. intros. apply calm_ret.
  Qed.
  Lemma calm_front_tail this x : calm 1 (r <- d_front (V:=V) this ;; v <- d_deref (DVal x) ;; d_construct r v).
  Proof.
    apply (calm_bind 0 1); [|intros r; apply (calm_bind 0 1); [apply calm_ret|intros; apply calm_construct]].
    apply (calm_bind 0 0); [apply calm_fchunk|]. intros. apply (calm_bind 0 0); [apply calm_chunk|]. intros.
    apply (calm_bind 0 0); [apply calm_front_|]. intros. apply calm_ret.
  Qed.

  (** a new chunk *)
  Lemma cnt_chunk m this f b fc bc n v cap cs :
    no_fail (aorc m) → mem_wf m → blk m !! this = Some (DHdr f b fc bc n (Some v)) → blk m !! v = Some (DVec cap cs) →
    cnt (if decide (length cs = cap) then 2 else 1) 0 m (p <- d_allocate (V:=V) K ;; d_vec_push this p).
  Proof.
    intros Ha Hw H1 H2. set (q := nxt m).
    assert (this ≠ q) by (intros ->; specialize (Hw q ltac:(by rewrite H1)); unfold q in *; lia).
    assert (v ≠ q) by (intros ->; specialize (Hw q ltac:(by rewrite H2)); unfold q in *; lia).
    assert (this ≠ v) by congruence.
    unfold cnt, d_allocate. rewrite (bind_ok _ _ _ _ _ (ev_alloc _ _ Ha)).
    cbv beta. unfold d_vec_push. erewrite bind_ok.
    2: { unfold d_chunks. erewrite bind_ok; [|unfold d_hdr; erewrite bind_ok; [|unfold load; cbn; rewrite lookup_insert_ne; [|done]; by rewrite H1]; done]. done. }
    cbv beta iota. erewrite bind_ok.
    2: { unfold d_vec. erewrite bind_ok; [|unfold load; cbn; rewrite lookup_insert_ne; [|done]; by rewrite H2]. done. }
    cbn [fst snd]. fold q. destruct (Nat.eqb_spec (length cs) cap); case_decide; try lia.
    - cbv beta iota. erewrite bind_ok.
      2: { apply ev_alloc. cbn [aorc]. unfold no_fail in *. destruct (aorc m); [done|]. by inversion Ha. }
      cbv beta. erewrite bind_ok.
      2: { unfold free. cbn [blk nxt aorc corc]. fold q. rewrite lookup_insert_ne.
        - rewrite lookup_insert_ne; [|done]. by rewrite H2.
        - specialize (Hw v ltac:(by rewrite H2)). unfold q. lia. }
      cbv beta. unfold d_set_chunks. erewrite bind_ok.
      2: { unfold d_hdr. erewrite bind_ok; [|unfold load; cbn [blk nxt]; fold q; rewrite lookup_delete_ne; [|done];
        rewrite lookup_insert_ne; [|specialize (Hw this ltac:(by rewrite H1)); unfold q; lia];
        rewrite lookup_insert_ne; [|done]; by rewrite H1]. done. }
      unfold store. cbn [blk nxt aorc corc]. fold q. rewrite lookup_delete_ne; [|done].
      rewrite lookup_insert_ne; [|specialize (Hw this ltac:(by rewrite H1)); unfold q; lia].
      rewrite lookup_insert_ne; [|done]. rewrite H1. cbn [nxt aorc corc].
      split; [unfold q; lia|]. split; [by destruct (aorc m) as [|? []]|done].
    - unfold store. cbn [blk nxt aorc corc]. rewrite lookup_insert_ne; [|done]. rewrite H2. cbn [nxt aorc corc].
      split; [unfold q; lia|]. split; [by destruct (aorc m)|done].
  Qed.

  Lemma calm_push_room this b : b ≠ K - 1 →
    calm 0 (if b =? K - 1 then
       bc <- d_bchunk this ;; ps <- d_ps (V:=V) this ;;
       (if (bc =? Z.of_nat (length ps) - 1)%Z then
          p <- d_allocate K ;; d_vec_push this p ;;;
          bc <- d_bchunk this ;; d_set_bchunk this (bc + 1)
        else ret tt) ;;;
       d_set_back this 0
     else d_set_back this (b + 1)).
  Proof. intros Hb. destruct (Nat.eqb_spec b (K - 1)); [done|]. apply calm_set_back. Qed.
  Lemma cnt_push_back m this v cap cs d d' x :
    no_fail (aorc m) → mem_wf m → d_holds K m this v cap cs d → dq_push_back K x d = Some d' →
    cnt (push_allocs d d' cap) 1 m (d_push_back K this (DVal x)).
  Proof using HK.
    intros Ha Hw (Hnd & Hl & He & H1 & H2 & H3) Hp. unfold d_push_back.
    replace (push_allocs d d' cap) with (push_allocs d d' cap + 0) by lia.
    apply (cnt_bind _ 0 0 1); [|intros; apply calm_back_tail]. unfold d_push_back_helper.
    pose proof (conj H1 H2 : head_at this _ _ _ _ _ _ _ _ m) as Hh.
    eapply cnt_seq; [exact (ev_back_ _ _ _ _ _ _ _ _ _ _ Hh)|done..|].
    replace (push_allocs d d' cap) with (push_allocs d d' cap + 0) by lia.
    apply (cnt_bind _ 0 0 0); [|intros; apply calm_grow_size].
    unfold dq_push_back in Hp. unfold push_allocs. case_decide as E1.
    - injection Hp as <-. cbn [dq_chunks]. rewrite (decide_False (P:=dq_chunks d + 1 = dq_chunks d)); [|lia].
      assert (dq_end d mod K = 0) as E0 by (rewrite E1; apply Nat.mod_mul; lia).
      destruct (back0 K HK _ E0) as [Eb1 Eb2]. rewrite E1 Nat.div_mul in Eb1; [|lia].
      rewrite Eb2 Nat.eqb_refl.
      eapply cnt_seq; [exact (ev_bchunk _ _ _ _ _ _ _ _ _ _ Hh)|done..|].
      eapply cnt_seq; [exact (ev_ps _ _ _ _ _ _ _ _ _ _ Hh)|done..|].
      assert ((Z.of_nat ((dq_end d + (K - 1)) / K) - 1 =? Z.of_nat (length cs) - 1)%Z = true) as ->.
      { apply Z.eqb_eq. rewrite {1}E1 Eb1. lia. }
      rewrite -Hl. match goal with |- cnt ?a _ _ _ => replace a with (a + 0) by lia end.
      apply (cnt_bind _ 0 0 0); [|intros; apply calm_set_back].
      pose proof (cnt_chunk m this _ _ _ _ _ v cap cs Ha Hw H1 H2) as Hc. unfold cnt in *. unfold bind in *.
      destruct (d_allocate K m) as [q m1| | |]; try done. destruct (d_vec_push this q m1) as [[] m2| | |]; try done.
      pose proof (calm_bind 0 0 (d_bchunk (V:=V) this) (λ bc, d_set_bchunk this (bc + 1)%Z) (calm_bchunk this) (λ bc, calm_set_bchunk this (bc + 1)) m2) as Hr.
      unfold cnt, bind in Hr. destruct (d_bchunk this m2) as [bc m3| | |]; try done.
      destruct (d_set_bchunk this (bc + 1) m3) as [? m4| | |]; try done.
      destruct Hc as (C1 & C2 & C3), Hr as (R1 & R2 & R3). rewrite R2 R3 C2 C3 !drop_drop. split; [lia|].
      split; [f_equal; lia|done].
    - case_decide as E2; [done|]. injection Hp as <-. cbn [dq_chunks]. rewrite decide_True //.
      apply calm_push_room. destruct (back1 K HK _ E2) as [_ ->]. pose proof (pos_mod K HK (dq_end d)). lia.
  Qed.
  Lemma cnt_push_front m this v cap cs d x :
    no_fail (aorc m) → mem_wf m → d_holds K m this v cap cs d →
    cnt (push_allocs d (dq_push_front K x d) cap) 1 m (d_push_front K this (DVal x)).
  Proof using HK.
    intros Ha Hw (Hnd & Hl & He & H1 & H2 & H3). unfold d_push_front. set (a := push_allocs _ _ _).
    replace a with (a + 0) by lia. apply (cnt_bind _ 0 0 1); [|intros; apply calm_front_tail]. unfold d_push_front_helper.
    pose proof (conj H1 H2 : head_at this _ _ _ _ _ _ _ _ m) as Hh.
    eapply cnt_seq; [exact (ev_front_ _ _ _ _ _ _ _ _ _ _ Hh)|done..|].
    replace a with (a + 0) by lia. apply (cnt_bind _ 0 0 0); [|intros; apply calm_grow_size].
    destruct (decide (dq_lo d = 0)) as [E0|E0].
    - assert (a = if decide (length cs = cap) then 2 else 1) as ->.
      { unfold a, push_allocs, dq_push_front. rewrite (decide_True (P:=dq_lo d = 0)) //. cbn [dq_chunks].
        rewrite (decide_False (P:=dq_chunks d + 1 = dq_chunks d)); [|lia]. by rewrite Hl. }
      rewrite E0 Nat.mod_0_l; [|lia]. cbn [Nat.eqb].
      eapply cnt_seq; [exact (ev_fchunk _ _ _ _ _ _ _ _ _ _ Hh)|done..|]. rewrite E0 Nat.div_0_l; [|lia]. cbn [Nat.eqb].
      match goal with |- cnt ?a _ _ _ => replace a with (a + 0) by lia end.
      apply (cnt_bind _ 0 0 0); [|intros; apply calm_set_front].
      pose proof (cnt_chunk m this _ _ _ _ _ v cap cs Ha Hw H1 H2) as Hc. unfold cnt in *. unfold bind in *.
      destruct (d_allocate K m) as [q m1| | |]; try done. destruct (d_vec_push this q m1) as [[] m2| | |]; try done.
      pose proof (calm_bind 0 0 _ (λ _, bind (d_bchunk (V:=V) this) (λ bc, d_set_bchunk this (bc + 1)%Z)) (calm_rotate this)
        (λ _, calm_bind 0 0 _ _ (calm_bchunk this) (λ bc, calm_set_bchunk this (bc + 1))) m2) as Hr.
      unfold cnt, bind in Hr. destruct (d_vec_rotate this m2) as [? m3| | |]; try done.
      destruct (d_bchunk this m3) as [bc m4| | |]; try done.
      destruct (d_set_bchunk this (bc + 1) m4) as [? m5| | |]; try done.
      destruct Hc as (C1 & C2 & C3), Hr as (R1 & R2 & R3). rewrite R2 R3 C2 C3 !drop_drop. split; [lia|].
      split; [f_equal; lia|done].
    - assert (a = 0) as ->.
      { unfold a, push_allocs, dq_push_front. by rewrite (decide_False (P:=dq_lo d = 0)) // decide_True. }
      destruct (Nat.eqb_spec (dq_lo d mod K) 0) as [Em|Em]; [|apply calm_set_front].
      eapply cnt_seq; [exact (ev_fchunk _ _ _ _ _ _ _ _ _ _ Hh)|done..|].
      destruct (Nat.eqb_spec (dq_lo d / K) 0) as [Ed|Ed]; [pose proof (pos_eq K HK (dq_lo d)); lia|].
      apply (calm_bind 0 0); [apply calm_set_fchunk|]. intros. apply calm_set_front.
  Qed.
  Lemma back_cost m this v cap cs d d' x : fair m → d_holds K m this v cap cs d → dq_push_back K x d = Some d' →
    corc m ≠ [] →
    ∃ m' v' cap' cs', d_push_back K this (DVal x) m = Ok tt m' ∧ fair m' ∧ d_holds K m' this v' cap' cs' d' ∧
      table_after v cap cs v' cap' cs' ∧ allocs m m' = push_allocs d d' cap ∧ corc m' = drop 1 (corc m).
  Proof using HK.
    intros (Hw & Ha & Hc) Hh Hp Hne. destruct (corc m) as [|b co] eqn:Ec; [done|]. clear Hne.
    assert (b = false) as -> by (by inversion Hc).
    destruct (c119_back K HK m this v cap cs d d' x false co Hw Hh Hp Ec) as [Ho Ht].
    pose proof (push_back_run K HK m this v cap cs d d' x ltac:(split; [done|by rewrite Ec]) Hh Hp) as Ho2.
    pose proof (cnt_push_back m this v cap cs d d' x Ha Hw Hh Hp) as Hn. unfold cnt in Hn.
    destruct (d_push_back K this (DVal x) m) as [[] m'|e m'| |] eqn:E; [|by subst e|done|done].
    destruct Ho as (v' & cap' & cs' & Hh' & Ht' & _). destruct Ho2 as [[Hw' Hc'] _]. destruct Hn as (N1 & N2 & N3).
    exists m', v', cap', cs'. split; [done|]. split; [split; [done|split; [rewrite N2; by apply no_fail_drop|done]]|].
    split; [done|]. split; [done|]. split; [unfold allocs; lia|]. by rewrite N3 Ec.
  Qed.
  Lemma front_cost m this v cap cs d x : fair m → d_holds K m this v cap cs d → corc m ≠ [] →
    ∃ m' v' cap' cs', d_push_front K this (DVal x) m = Ok tt m' ∧ fair m' ∧ d_holds K m' this v' cap' cs' (dq_push_front K x d) ∧
      table_after v cap cs v' cap' cs' ∧ allocs m m' = push_allocs d (dq_push_front K x d) cap ∧ corc m' = drop 1 (corc m).
  Proof using HK.
    intros (Hw & Ha & Hc) Hh Hne. destruct (corc m) as [|b co] eqn:Ec; [done|]. clear Hne.
    assert (b = false) as -> by (by inversion Hc).
    destruct (c119_front K HK m this v cap cs d x false co Hw Hh Ec) as [Ho Ht].
    pose proof (push_front_run K HK m this v cap cs d x ltac:(split; [done|by rewrite Ec]) Hh) as Ho2.
    pose proof (cnt_push_front m this v cap cs d x Ha Hw Hh) as Hn. unfold cnt in Hn.
    destruct (d_push_front K this (DVal x) m) as [[] m'|e m'| |] eqn:E; [|by subst e|done|done].
    destruct Ho as (v' & cap' & cs' & Hh' & Ht' & _). destruct Ho2 as [[Hw' Hc'] _]. destruct Hn as (N1 & N2 & N3).
    exists m', v', cap', cs'. split; [done|]. split; [split; [done|split; [rewrite N2; by apply no_fail_drop|done]]|].
    split; [done|]. split; [done|]. split; [unfold allocs; lia|]. by rewrite N3 Ec.
  Qed.

  (** ** From an empty deque *)
  Local Notation chunks_for := (chunks_for K).
  Lemma chunks_step n : chunks_for (n + 1) = if decide (K / 2 + n = chunks_for n * K) then chunks_for n + 1 else chunks_for n.
  Proof using HK.
    unfold SpecDequeGrowth.chunks_for. set (e := K / 2 + n). replace (K / 2 + (n + 1)) with (e + 1) by lia.
    destruct (backs K HK e) as [-> _]. destruct (decide (e mod K = 0)) as [E|E].
    - destruct (back0 K HK e E) as [-> _]. rewrite decide_True; [done|]. rewrite {1}(pos_eq K HK e). lia.
    - destruct (back1 K HK e E) as [-> _]. rewrite decide_False; [done|]. intros E'.
      apply E. rewrite E'. apply Nat.mod_mul. lia.
  Qed.
  Lemma chunks_pos n : 0 < chunks_for n.
  Proof using HK. unfold SpecDequeGrowth.chunks_for. destruct (half K HK). apply Nat.div_str_pos. lia. Qed.
  Lemma chunks_0 : chunks_for 0 = 1.
  Proof using HK. unfold SpecDequeGrowth.chunks_for. destruct (half K HK). rewrite Nat.add_0_r. symmetry. apply (Nat.div_unique _ _ _ (K / 2 - 1)); lia. Qed.
  Lemma append_step (vs : list V) x :
    dq_push_back K x (DState vs (K / 2) (chunks_for (length vs))) =
      Some (DState (vs ++ [x]) (K / 2) (chunks_for (length (vs ++ [x])))).
  Proof using HK.
    unfold dq_push_back, at_boundary, dq_end. cbn [dq_els dq_lo dq_chunks].
    rewrite app_length. cbn [length]. rewrite chunks_step. case_decide as E; [done|].
    rewrite decide_False; [done|]. intros Em. apply E. unfold SpecDequeGrowth.chunks_for.
    destruct (back0 K HK _ Em) as [-> _]. rewrite {1}(pos_eq K HK (K / 2 + length vs)). lia.
  Qed.
  Lemma growth_prefix m this v cs vs ws : fair m → d_holds K m this v 1 cs (dq_fresh K) → length vs ≤ length (corc m) →
    ∃ m' v' cs', d_push_all K this (vs ++ ws) m = d_push_all K this ws m' ∧ fair m' ∧
      d_holds K m' this v' (2 ^ Nat.log2_up (chunks_for (length vs))) cs' (DState vs (K / 2) (chunks_for (length vs))) ∧
      allocs m m' = chunks_for (length vs) - 1 + Nat.log2_up (chunks_for (length vs)) ∧
      corc m' = drop (length vs) (corc m) ∧ (nxt m ≤ nxt m')%positive.
  Proof using HK.
    intros Hf Hh. revert ws. induction vs as [|x vs IH] using rev_ind; intros ws Hl.
    - exists m, v, cs. cbn [length app]. rewrite chunks_0. split; [done|]. split; [done|]. split; [exact Hh|].
      split; [unfold allocs; cbn; lia|]. split; [by rewrite drop_0|lia].
    - rewrite app_length in Hl. cbn [length] in Hl. destruct (IH (x :: ws) ltac:(lia)) as (m1 & v1 & cs1 & E1 & Hf1 & Hh1 & Ha1 & Hc1 & Hx1).
      destruct (back_cost m1 this v1 _ cs1 _ _ x Hf1 Hh1 (append_step vs x)) as (m2 & v2 & cap2 & cs2 & E2 & Hf2 & Hh2 & Ht2 & Ha2 & Hc2).
      { rewrite Hc1. intros E%(f_equal length). rewrite drop_length /= in E. lia. }
      assert (nxt m1 ≤ nxt m2)%positive as Hx2.
      { pose proof (cnt_push_back m1 this v1 _ cs1 _ _ x (proj1 (proj2 Hf1)) (proj1 Hf1) Hh1 (append_step vs x)) as Hn.
        unfold cnt in Hn. rewrite E2 in Hn. lia. }
      exists m2, v2, cs2. rewrite -assoc_L. cbn [app]. rewrite E1. cbn [d_push_all]. rewrite (bind_ok _ _ _ _ _ E2).
      split; [done|]. split; [done|].
      pose proof (chunks_pos (length vs)) as Hpos. destruct (log2_up_succ _ Hpos) as [Hle Hlog].
      destruct Hh1 as (_ & L1 & _). destruct Hh2 as (X1 & L2 & X2). cbn [dq_chunks] in L1, L2.
      assert (allocs m m2 = allocs m m1 + allocs m1 m2) as Hs by (unfold allocs; lia).
      assert (length (vs ++ [x]) = length vs + 1) as El by (rewrite app_length //).
      unfold table_after in Ht2. unfold push_allocs in Ha2. cbn [dq_chunks] in Ha2. rewrite L1 L2 El in Ht2. rewrite El in Ha2.
      pose proof (chunks_step (length vs)) as Hst. set (c := chunks_for (length vs)) in *.
      set (c' := chunks_for (length vs + 1)) in *.
      assert (cap2 = 2 ^ Nat.log2_up c' ∧ allocs m1 m2 = (c' - c) + (Nat.log2_up c' - Nat.log2_up c) ∧
        c ≤ c' ∧ Nat.log2_up c ≤ Nat.log2_up c') as (-> & HA & HB & HC).
      { destruct (decide (K / 2 + length vs = c * K)) as [Eq|Eq].
        - assert (c' = S c) as Ec by lia. rewrite Ec Hlog. rewrite Ec in Ht2, Ha2.
          rewrite decide_False in Ha2; [|lia]. destruct (decide (c = 2 ^ Nat.log2_up c)) as [Ep|Ep].
          + rewrite decide_True in Ht2; [|lia]. rewrite Nat.pow_succ_r'. lia.
          + rewrite decide_False in Ht2; [|lia]. destruct Ht2 as [_ ->]. lia.
        - rewrite Hst. rewrite Hst in Ha2, Ht2. rewrite decide_True // in Ha2. rewrite decide_False in Ht2; [|lia].
          destruct Ht2 as [_ ->]. lia. }
      assert (chunks_for (length (vs ++ [x])) = c') as Ec' by (unfold c'; by rewrite El).
      split; [rewrite {1}Ec'; exact (conj X1 (conj L2 X2))|]. rewrite Ec' El.
      split; [lia|]. split; [rewrite Hc2 Hc1 drop_drop; f_equal; lia|lia].
  Qed.
  Lemma growth m this v cs vs : fair m → d_holds K m this v 1 cs (dq_fresh K) → length vs ≤ length (corc m) →
    ∃ m' v' cs', d_push_all K this vs m = Ok tt m' ∧
      d_holds K m' this v' (2 ^ Nat.log2_up (chunks_for (length vs))) cs' (DState vs (K / 2) (chunks_for (length vs))) ∧
      allocs m m' = chunks_for (length vs) - 1 + Nat.log2_up (chunks_for (length vs)) ∧
      constructions m m' = length vs.
  Proof using HK.
    intros Hf Hh Hl. destruct (growth_prefix m this v cs vs [] Hf Hh Hl) as (m' & v' & cs' & E & _ & H1 & H2 & H3 & _).
    exists m', v', cs'. rewrite app_nil_r in E. split; [done|]. split; [done|]. split; [done|].
    unfold constructions. rewrite H3 drop_length. lia.
  Qed.
  Lemma c123_back m this v cap cs d d' x : fair m → d_holds K m this v cap cs d → dq_push_back K x d = Some d' →
    corc m ≠ [] →
    ∃ m' v' cap' cs', d_push_back K this (DVal x) m = Ok tt m' ∧ d_holds K m' this v' cap' cs' d' ∧
      allocs m m' = push_allocs d d' cap ∧ constructions m m' = 1.
  Proof using HK.
    intros Hf Hh Hp Hc. destruct (back_cost m this v cap cs d d' x Hf Hh Hp Hc) as (m' & v' & cap' & cs' & E & _ & H1 & _ & H2 & H3).
    exists m', v', cap', cs'. split; [done|]. split; [done|]. split; [done|]. unfold constructions. rewrite H3 drop_length.
    destruct (corc m); [done|]. cbn [length]. lia.
  Qed.
  Lemma c123_front m this v cap cs d x : fair m → d_holds K m this v cap cs d → corc m ≠ [] →
    ∃ m' v' cap' cs', d_push_front K this (DVal x) m = Ok tt m' ∧ d_holds K m' this v' cap' cs' (dq_push_front K x d) ∧
      allocs m m' = push_allocs d (dq_push_front K x d) cap ∧ constructions m m' = 1.
  Proof using HK.
    intros Hf Hh Hc. destruct (front_cost m this v cap cs d x Hf Hh Hc) as (m' & v' & cap' & cs' & E & _ & H1 & _ & H2 & H3).
    exists m', v', cap', cs'. split; [done|]. split; [done|]. split; [done|]. unfold constructions. rewrite H3 drop_length.
    destruct (corc m); [done|]. cbn [length]. lia.
  Qed.
End growth.
