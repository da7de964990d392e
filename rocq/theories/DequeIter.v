(** Deque iterators and the deque's end at a chunk boundary, by computation. *)
From iris.prelude Require Import prelude.
From Verif Require Import Hist ModelDeque SpecDeque DequeProofs.

Lemma bind_ok {C A B} (f : M C A) (k : A → M C B) m a m' : f m = Ok a m' → bind f k m = k a m'.
Proof. unfold bind. by intros ->. Qed.
Lemma bind_ub {C A B} (f : M C A) (k : A → M C B) m : f m = UB → bind f k m = UB.
Proof. unfold bind. by intros ->. Qed.
Lemma load_ok {C} l (c : C) m : blk m !! l = Some c → load l m = Ok c m.
Proof. unfold load. by intros ->. Qed.

Section ev.
  Context {V : Type} (K : nat) (HK : 2 ≤ K).
  Implicit Types (d : dstate V) (m : mem (dcell V)).

  Section rd.
    Context (this : loc) (f b fc : nat) (bc : Z) (n : nat) (v : loc) (cap : nat) (cs : list loc).
    Definition head_at m : Prop :=
      blk m !! this = Some (DHdr f b fc bc n (Some v)) ∧ blk m !! v = Some (DVec cap cs).
    Context (m : mem (dcell V)) (Hh : head_at m).
    Lemma ev_hdr : d_hdr this m = Ok (f, b, fc, bc, n, Some v) m.
    Proof using Hh. destruct Hh as [H _]. unfold d_hdr. by rewrite (bind_ok _ _ _ _ _ (load_ok _ _ _ H)). Qed.
    Lemma ev_front_ : d_front_ this m = Ok f m.
    Proof using Hh. unfold d_front_. by rewrite (bind_ok _ _ _ _ _ ev_hdr). Qed.
    Lemma ev_back_ : d_back_ this m = Ok b m.
    Proof using Hh. unfold d_back_. by rewrite (bind_ok _ _ _ _ _ ev_hdr). Qed.
    Lemma ev_fchunk : d_fchunk this m = Ok fc m.
    Proof using Hh. unfold d_fchunk. by rewrite (bind_ok _ _ _ _ _ ev_hdr). Qed.
    Lemma ev_bchunk : d_bchunk this m = Ok bc m.
    Proof using Hh. unfold d_bchunk. by rewrite (bind_ok _ _ _ _ _ ev_hdr). Qed.
    Lemma ev_size : d_size this m = Ok n m.
    Proof using Hh. unfold d_size. by rewrite (bind_ok _ _ _ _ _ ev_hdr). Qed.
    Lemma ev_chunks : d_chunks this m = Ok (Some v) m.
    Proof using Hh. unfold d_chunks. by rewrite (bind_ok _ _ _ _ _ ev_hdr). Qed.
    Lemma ev_vec : d_vec v m = Ok (cap, cs) m.
    Proof using Hh. destruct Hh as [_ H]. unfold d_vec. by rewrite (bind_ok _ _ _ _ _ (load_ok _ _ _ H)). Qed.
    Lemma ev_ps : d_ps this m = Ok cs m.
    Proof using Hh. unfold d_ps. rewrite (bind_ok _ _ _ _ _ ev_chunks). by rewrite (bind_ok _ _ _ _ _ ev_vec). Qed.
    Definition at_ptr (j : Z) : res (dcell V) loc :=
      if decide (0 ≤ j)%Z then match cs !! Z.to_nat j with Some c => Ok c m | None => UB end else UB.
    Lemma ev_chunk j : d_chunk this j m = at_ptr j.
    Proof using Hh.
      unfold d_chunk, at_ptr. rewrite (bind_ok _ _ _ _ _ ev_ps). case_decide; [|done]. by destruct (cs !! _).
    Qed.
    Lemma ev_pp j : d_pp v j m = at_ptr j.
    Proof using Hh.
      unfold d_pp, at_ptr. rewrite (bind_ok _ _ _ _ _ ev_vec). case_decide; [|done]. by destruct (cs !! _) eqn:E; simpl; rewrite E.
    Qed.
    Lemma at_ptr_ok (j : nat) c : cs !! j = Some c → at_ptr (Z.of_nat j) = Ok c m.
    Proof using K HK. intros E. unfold at_ptr. rewrite decide_True; [|lia]. by rewrite Nat2Z.id E. Qed.
    Lemma at_ptr_none (j : nat) : cs !! j = None → at_ptr (Z.of_nat j) = UB.
    Proof using K HK. intros E. unfold at_ptr. rewrite decide_True; [|lia]. by rewrite Nat2Z.id E. Qed.
  End rd.
  Lemma d_holds_head m this v cap cs d : d_holds K m this v cap cs d →
    head_at this (dq_lo d mod K) ((dq_end d + (K - 1)) mod K) (dq_lo d / K)
      (Z.of_nat ((dq_end d + (K - 1)) / K) - 1) (length (dq_els d)) v cap cs m.
  Proof using. by intros (_ & _ & _ & ? & ? & _). Qed.

  Section it.
    Context (m : mem (dcell V)) (this v : loc) (cap : nat) (cs : list loc) (d : dstate V).
    Context (Hh : d_holds K m this v cap cs d).
    Let Hd := d_holds_head _ _ _ _ _ _ Hh.
    Lemma it_pp p it : iter_at K v cs p it → d_pp (di_vec it) (di_idx it) m = Ok (di_p it).1 m.
    Proof using HK Hh Hd.
      intros (c & Hc & ->). simpl. rewrite (ev_pp _ _ _ _ _ _ _ _ _ _ Hd). by apply at_ptr_ok.
    Qed.
    Lemma iter_next p it : iter_at K v cs p it → p + 1 < length cs * K →
      ∃ it', d_incr K it m = Ok it' m ∧ iter_at K v cs (p + 1) it'.
    Proof using HK Hh Hd.
      intros Hit Hp. pose proof (it_pp _ _ Hit) as E. destruct Hit as (c & Hc & ->). simpl in *.
      destruct (lookup_lt_is_Some_2 cs ((p + 1) / K)) as [c' Hc']; [apply Nat.div_lt_upper_bound; lia|].
      unfold d_incr. rewrite (bind_ok _ _ _ _ _ E). simpl. destruct (decide (p mod K = K - 1)) as [Hl|Hl].
      - destruct (succ0 K HK p Hl) as [E1 E2]. rewrite decide_True; [|by rewrite Hl].
        erewrite bind_ok; [|rewrite (ev_pp _ _ _ _ _ _ _ _ _ _ Hd);
          replace (Z.of_nat (p / K) + 1)%Z with (Z.of_nat ((p + 1) / K)) by (rewrite E1; lia); by apply at_ptr_ok].
        eexists. split; [done|]. exists c'. split; [done|]. by rewrite E2 E1 Nat2Z.inj_add.
      - destruct (succ1 K HK p Hl) as [E1 E2]. rewrite decide_False; [|by intros [=]].
        pose proof (Nat.mod_upper_bound p K). rewrite decide_True; [|lia].
        eexists. split; [done|]. exists c'. rewrite E1 in Hc'. simplify_eq. split; [by rewrite E1|]. by rewrite E2 E1.
    Qed.
    Lemma iter_prev p it : iter_at K v cs p it → p mod K ≠ 0 →
      ∃ it', d_decr it m = Ok it' m ∧ iter_at K v cs (p - 1) it'.
    Proof using HK Hh Hd.
      intros Hit Hp. pose proof (it_pp _ _ Hit) as E. destruct Hit as (c & Hc & ->). simpl in *.
      unfold d_decr. rewrite (bind_ok _ _ _ _ _ E). simpl.
      rewrite decide_False; [|by intros [=]]. rewrite decide_False; [|done].
      destruct (pred1 K HK p Hp) as [E1 E2]. eexists. split; [done|]. exists c. by rewrite E1 E2.
    Qed.
    (** at the beginning of a chunk, -- goes back by a whole chunk *)
    Lemma iter_prev_wrong p it : iter_at K v cs p it → p mod K = 0 → p ≠ 0 →
      ∃ it', d_decr it m = Ok it' m ∧ iter_at K v cs (p - K) it'.
    Proof using HK Hh Hd.
      intros Hit Hp Hp0. pose proof (it_pp _ _ Hit) as E. destruct Hit as (c & Hc & ->). simpl in *.
      unfold d_decr. rewrite (bind_ok _ _ _ _ _ E). simpl. rewrite decide_True; [|by rewrite Hp].
      assert (∃ q, p = (q + 1) * K) as [q Hq].
      { exists (p / K - 1). pose proof (Nat.div_mod_eq p K).
        assert (p / K ≠ 0) by (intros E0; rewrite E0 in H; lia). nia. }
      assert (p / K = q + 1) as Hk by (rewrite Hq Nat.div_mul; lia).
      assert (p - K = q * K) as Hk2 by lia.
      assert (q < length cs) as Hlt by (apply lookup_lt_Some in Hc; lia).
      destruct (lookup_lt_is_Some_2 cs q Hlt) as [c' Hc'].
      erewrite bind_ok; [|rewrite (ev_pp _ _ _ _ _ _ _ _ _ _ Hd);
        replace (Z.of_nat (p / K) - 1)%Z with (Z.of_nat q) by lia; by apply at_ptr_ok].
      eexists. split; [done|]. exists c'. rewrite Hk2 Nat.div_mul; [|lia]. split; [done|].
      rewrite Nat.mod_mul; [|lia]. f_equal. lia.
    Qed.
    Lemma iter_prev_first it : iter_at K v cs 0 it → d_decr it m = UB.
    Proof using HK Hh Hd.
      intros Hit. pose proof (it_pp _ _ Hit) as E. destruct Hit as (c & Hc & ->). simpl in *.
      unfold d_decr. rewrite (bind_ok _ _ _ _ _ E). simpl. rewrite Nat.mod_0_l; [|lia]. rewrite decide_True; [|done].
      apply bind_ub. rewrite (ev_pp _ _ _ _ _ _ _ _ _ _ Hd). rewrite Nat.div_0_l; [|lia]. done.
    Qed.
    Lemma iter_diff p q x y : iter_at K v cs p x → iter_at K v cs q y →
      d_diff K x y m = Ok (Z.of_nat (p mod K) - Z.of_nat (q mod K))%Z m.
    Proof using HK Hh Hd.
      intros Hx Hy. pose proof (it_pp _ _ Hx) as E. pose proof (it_pp _ _ Hy) as E'.
      destruct Hx as (c & Hc & ->), Hy as (c' & Hc' & ->). simpl in *.
      unfold d_diff. simpl. rewrite (bind_ok _ _ _ _ _ E) (bind_ok _ _ _ _ _ E') decide_True; [|done].
      unfold ret. f_equal. lia.
    Qed.
    Lemma iter_eq p q x y : iter_at K v cs p x → iter_at K v cs q y → d_eq x y = bool_decide (p = q).
    Proof using HK Hh.
      intros (c & Hc & ->) (c' & Hc' & ->). unfold d_eq. simpl. apply bool_decide_ext. split.
      - intros [= -> Hm].
        assert (p / K = q / K) as Hq.
        { pose proof Hh as (Hnd & _). apply NoDup_cons_1_2, NoDup_cons_1_2 in Hnd. by eapply NoDup_lookup. }
        rewrite (Nat.div_mod_eq p K) (Nat.div_mod_eq q K). congruence.
      - intros ->. by simplify_eq.
    Qed.
    Lemma iter_get p it : iter_at K v cs p it →
      d_get (di_p it) m = match slot d p with Some x => Ok x m | None => UB end.
    Proof using HK Hh.
      intros (c & Hc & ->). pose proof Hh as (_ & _ & _ & _ & _ & Hcs).
      assert (d_els c m = Ok (chunk_at K d (p / K)) m) as E.
      { unfold d_els. rewrite (bind_ok _ _ _ _ _ (load_ok _ _ _ (Hcs _ _ Hc))). done. }
      unfold d_get. rewrite (bind_ok _ _ _ _ _ E). simpl. unfold chunk_at.
      rewrite (row_lookup K) -?(pos_eq K HK); [|apply (pos_mod K HK)]. by destruct (slot d p).
    Qed.
    Lemma walk_off p it ce (e : diter) fuel : di_p e = (ce, K) → at_boundary K d →
      iter_at K v cs p it → dq_lo d ≤ p ≤ dq_end d → dq_end d - p < fuel → d_walk K fuel it e m = UB.
    Proof using HK Hh Hd.
      intros He Hb. revert p it. induction fuel as [|fuel IH]; [lia|]. intros p it Hit Hp Hfu. simpl.
      assert (d_eq it e = false) as ->.
      { unfold d_eq. apply bool_decide_eq_false. rewrite He. destruct Hit as (c & Hc & ->). simpl.
        intros [= _ E]. pose proof (pos_mod K HK p). lia. }
      pose proof (iter_get _ _ Hit) as Hg.
      destruct (decide (p = dq_end d)) as [->|Hne].
      { rewrite slot_end in Hg; [|done]. by apply bind_ub. }
      destruct (lookup_lt_is_Some_2 (dq_els d) (p - dq_lo d)) as [x Hx]; [unfold dq_end in *; lia|].
      rewrite -(slot_in d) in Hx. replace (dq_lo d + (p - dq_lo d)) with p in Hx by lia. rewrite Hx in Hg.
      rewrite (bind_ok _ _ _ _ _ Hg).
      destruct (decide (p + 1 < length cs * K)) as [Hlt|Hlt].
      - destruct (iter_next _ _ Hit Hlt) as (it' & E & Hit'). rewrite (bind_ok _ _ _ _ _ E).
        apply bind_ub. apply (IH (p + 1)); [done|lia|lia].
      - apply bind_ub. pose proof (it_pp _ _ Hit) as E. destruct Hit as (c & Hc & ->).
        assert (p + 1 = length cs * K) as Hp1.
        { pose proof Hh as (_ & Hl & Hle & _). rewrite Hl. rewrite Hl in Hlt. lia. }
        assert (p mod K = K - 1) as Hm.
        { destruct (decide (p mod K = K - 1)) as [|Hn]; [done|]. destruct (succ1 K HK p Hn) as [_ E2].
          rewrite Hp1 Nat.mod_mul in E2; lia. }
        destruct (succ0 K HK p Hm) as [E1 _]. rewrite Hp1 Nat.div_mul in E1; [|lia].
        unfold d_incr. rewrite (bind_ok _ _ _ _ _ E). simpl. rewrite decide_True; [|by rewrite Hm].
        apply bind_ub. rewrite (ev_pp _ _ _ _ _ _ _ _ _ _ Hd).
        replace (Z.of_nat (p / K) + 1)%Z with (Z.of_nat (p / K + 1)) by lia. apply at_ptr_none.
        apply lookup_ge_None_2. lia.
    Qed.
    (** when the last element is the last one of a chunk, iteration goes off *)
    Lemma iterate_boundary : at_boundary K d → d_iterate K this m = UB.
    Proof using HK Hh Hd.
      intros Hb. unfold d_iterate, d_begin, d_end. unfold at_boundary in Hb. destruct (back0 K HK _ Hb) as [E1 E2].
      destruct (cs !! (dq_lo d / K)) as [c|] eqn:Hc.
      2: { apply bind_ub. rewrite (bind_ok _ _ _ _ _ (ev_fchunk _ _ _ _ _ _ _ _ _ _ Hd)). apply bind_ub.
           rewrite (ev_chunk _ _ _ _ _ _ _ _ _ _ Hd). by apply at_ptr_none. }
      assert (d_begin this m = Ok (DIter (c, dq_lo d mod K) v (Z.of_nat (dq_lo d / K))) m) as Eb.
      { unfold d_begin. rewrite (bind_ok _ _ _ _ _ (ev_fchunk _ _ _ _ _ _ _ _ _ _ Hd)).
        erewrite bind_ok; [|rewrite (ev_chunk _ _ _ _ _ _ _ _ _ _ Hd); by apply at_ptr_ok].
        rewrite (bind_ok _ _ _ _ _ (ev_front_ _ _ _ _ _ _ _ _ _ _ Hd)).
        by rewrite (bind_ok _ _ _ _ _ (ev_chunks _ _ _ _ _ _ _ _ _ _ Hd)). }
      unfold d_begin in Eb. rewrite (bind_ok _ _ _ _ _ Eb). clear Eb.
      destruct (decide (dq_end d = 0)) as [E0|E0].
      { apply bind_ub. rewrite (bind_ok _ _ _ _ _ (ev_bchunk _ _ _ _ _ _ _ _ _ _ Hd)). apply bind_ub.
        rewrite (ev_chunk _ _ _ _ _ _ _ _ _ _ Hd) E1 E0. rewrite Nat.div_0_l; [|lia]. done. }
      destruct (pred0 K HK _ E0 Hb) as (_ & _ & Hq).
      destruct (lookup_lt_is_Some_2 cs (dq_end d / K - 1)) as [ce Hce].
      { pose proof Hh as (_ & Hl & Hle & _). rewrite Hl. pose proof (pos_eq K HK (dq_end d)). nia. }
      assert (d_end this m = Ok (DIter (ce, K) v (Z.of_nat (dq_end d / K) - 1)) m) as Ee.
      { unfold d_end. rewrite (bind_ok _ _ _ _ _ (ev_bchunk _ _ _ _ _ _ _ _ _ _ Hd)).
        erewrite bind_ok; [|rewrite (ev_chunk _ _ _ _ _ _ _ _ _ _ Hd) E1;
          replace (Z.of_nat (dq_end d / K) - 1)%Z with (Z.of_nat (dq_end d / K - 1)) by lia; by apply at_ptr_ok].
        rewrite (bind_ok _ _ _ _ _ (ev_back_ _ _ _ _ _ _ _ _ _ _ Hd)).
        rewrite (bind_ok _ _ _ _ _ (ev_chunks _ _ _ _ _ _ _ _ _ _ Hd)). rewrite E1 E2.
        unfold ret. do 3 f_equal. lia. }
      unfold d_end in Ee. rewrite (bind_ok _ _ _ _ _ Ee). unfold with_fuel.
      eapply walk_off; [done|done|by exists c|unfold dq_end; lia|].
      assert (length cs ≤ size (blk m)) as Hsz.
      { pose proof Hh as (Hnd & _ & _ & _ & _ & Hcs). apply NoDup_cons_1_2, NoDup_cons_1_2 in Hnd.
        rewrite -(size_list_to_set (C:=gset loc)) // -size_dom. apply subseteq_size.
        intros q [i Hi]%elem_of_list_to_set%elem_of_list_lookup. apply elem_of_dom. eauto. }
      pose proof Hh as (_ & Hl & Hle & _). rewrite Hl in Hsz. nia.
    Qed.
  End it.

  (** ** Appending at a chunk's end when there is another chunk after it *)
  Lemma store_ok l (c c' : dcell V) m : blk m !! l = Some c →
    store l c' m = Ok tt (Mem (<[l := c']> (blk m)) (nxt m) (aorc m) (corc m)).
  Proof using. unfold store. by intros ->. Qed.
  Lemma push_boundary_wrong m this v cap cs d x :
    d_holds K m this v cap cs d → no_fail (corc m) → at_boundary K d → dq_end d ≠ dq_chunks d * K →
    let f := r <- d_index K this (length (dq_els d)) ;; d_get r in
    if decide (K ≤ dq_end d < dq_lo d + K)
    then ∃ m', d_push_back K this (DVal x) m = Ok tt m' ∧ f m' = UB
    else d_push_back K this (DVal x) m = UB.
  Proof using HK.
    intros Hh Hco Hb Hne f. pose proof (d_holds_head _ _ _ _ _ _ Hh) as Hd.
    destruct (back0 K HK _ Hb) as [E1 E2]. rewrite E1 E2 in Hd.
    destruct Hh as (Hnd & Hl & Hle & Hthis & Hv & Hcs).
    assert (this ∉ v :: cs ∧ v ∉ cs) as [Hnt Hnv] by (by apply NoDup_cons in Hnd as [? [? _]%NoDup_cons]).
    set (m1 := Mem (<[this := DHdr (dq_lo d mod K) 0 (dq_lo d / K) (Z.of_nat (dq_end d / K) - 1)
       (length (dq_els d) + 1) (Some v)]> (blk m)) (nxt m) (aorc m) (corc m)).
    assert (d_push_back_helper K this m = Ok tt m1) as Eh.
    { unfold d_push_back_helper. rewrite (bind_ok _ _ _ _ _ (ev_back_ _ _ _ _ _ _ _ _ _ _ Hd)) Nat.eqb_refl.
      erewrite bind_ok.
      2: { rewrite (bind_ok _ _ _ _ _ (ev_bchunk _ _ _ _ _ _ _ _ _ _ Hd)).
           rewrite (bind_ok _ _ _ _ _ (ev_ps _ _ _ _ _ _ _ _ _ _ Hd)).
           rewrite (proj2 (Z.eqb_neq _ _)).
           2: { pose proof (pos_eq K HK (dq_end d)). unfold at_boundary in Hb. rewrite Hl. nia. }
           rewrite (bind_ok _ _ _ _ _ eq_refl).
           unfold d_set_back. rewrite (bind_ok _ _ _ _ _ (ev_hdr _ _ _ _ _ _ _ _ _ _ Hd)).
           apply (store_ok _ _ _ _ (proj1 Hd)). }
      set (m0 := Mem _ _ _ _). assert (head_at this (dq_lo d mod K) 0 (dq_lo d / K)
        (Z.of_nat (dq_end d / K) - 1) (length (dq_els d)) v cap cs m0) as Hd0.
      { split; simpl; [by rewrite lookup_insert|]. rewrite lookup_insert_ne; [done|]. intros ->. apply Hnt; left. }
      rewrite (bind_ok _ _ _ _ _ (ev_size _ _ _ _ _ _ _ _ _ _ Hd0)). unfold d_set_size.
      rewrite (bind_ok _ _ _ _ _ (ev_hdr _ _ _ _ _ _ _ _ _ _ Hd0)) (store_ok _ _ _ _ (proj1 Hd0)).
      unfold m0, m1. simpl. by rewrite insert_insert. }
    assert (head_at this (dq_lo d mod K) 0 (dq_lo d / K)
        (Z.of_nat (dq_end d / K) - 1) (length (dq_els d) + 1) v cap cs m1) as Hd1.
    { split; simpl; [by rewrite lookup_insert|]. rewrite lookup_insert_ne; [done|]. intros ->. apply Hnt; left. }
    unfold d_push_back. rewrite (bind_ok _ _ _ _ _ Eh). clear Eh. unfold d_back.
    assert (dq_end d = dq_end d / K * K) as Heq.
    { pose proof (pos_eq K HK (dq_end d)). unfold at_boundary in Hb. lia. }
    destruct (decide (dq_end d = 0)) as [E0|E0].
    { rewrite decide_False; [|lia]. apply bind_ub.
      rewrite (bind_ok _ _ _ _ _ (ev_bchunk _ _ _ _ _ _ _ _ _ _ Hd1)). apply bind_ub.
      rewrite (ev_chunk _ _ _ _ _ _ _ _ _ _ Hd1) E0. rewrite Nat.div_0_l; [|lia]. done. }
    set (q := dq_end d / K) in *. assert (q ≠ 0) as Hq by (intros Hq; rewrite Hq in Heq; lia).
    destruct (lookup_lt_is_Some_2 cs (q - 1)) as [ce Hce]; [rewrite Hl; nia|].
    assert (d_back this m1 = Ok (ce, 0) m1) as Eb.
    { unfold d_back. rewrite (bind_ok _ _ _ _ _ (ev_bchunk _ _ _ _ _ _ _ _ _ _ Hd1)).
      erewrite bind_ok; [|rewrite (ev_chunk _ _ _ _ _ _ _ _ _ _ Hd1);
        replace (Z.of_nat q - 1)%Z with (Z.of_nat (q - 1)) by lia; by apply at_ptr_ok].
      by rewrite (bind_ok _ _ _ _ _ (ev_back_ _ _ _ _ _ _ _ _ _ _ Hd1)). }
    unfold d_back in Eb. rewrite (bind_ok _ _ _ _ _ Eb) (bind_ok _ _ _ _ _ eq_refl). clear Eb.
    unfold d_construct.
    assert (∃ co, may_throw m1 = Ok tt (Mem (blk m1) (nxt m1) (aorc m1) co)) as [co Et].
    { unfold may_throw. simpl. destruct (corc m) as [|[] ?]; [eauto| |eauto].
      by apply Forall_cons in Hco as [? _]. }
    rewrite (bind_ok _ _ _ _ _ Et). set (m2 := Mem (blk m1) _ _ _).
    assert (∀ j c, cs !! j = Some c → blk m1 !! c = Some (DArr (chunk_at K d j))) as Hcs1.
    { intros j c Hj. simpl. rewrite lookup_insert_ne; [by apply Hcs|].
      apply elem_of_list_lookup_2 in Hj. intros ->. by apply Hnt; right. }
    assert (d_els ce m2 = Ok (chunk_at K d (q - 1)) m2) as Ee.
    { unfold d_els. assert (blk m2 !! ce = Some (DArr (chunk_at K d (q - 1)))) as Hc2 by (by apply Hcs1).
      by rewrite (bind_ok _ _ _ _ _ (load_ok _ _ _ Hc2)). }
    simpl. rewrite (bind_ok _ _ _ _ _ Ee).
    assert (chunk_at K d (q - 1) !! 0 = Some (slot d ((q - 1) * K))) as Hs.
    { unfold chunk_at. rewrite (row_lookup K); [|lia]. do 2 f_equal. lia. }
    rewrite Hs. destruct (decide (K ≤ dq_end d < dq_lo d + K)) as [Hc|Hc].
    - rewrite slot_low; [|nia].
      erewrite store_ok; [|by apply (Hcs1 _ _ Hce)]. eexists. split; [done|]. unfold f, d_index.
      set (m3 := Mem _ _ _ _).
      assert (head_at this (dq_lo d mod K) 0 (dq_lo d / K)
        (Z.of_nat q - 1) (length (dq_els d) + 1) v cap cs m3) as Hd3.
      { assert (ce ∈ cs) as Hin by (by eapply elem_of_list_lookup_2). destruct Hd1 as [H1 H2].
        split; simpl; (rewrite lookup_insert_ne; [done|intros ->]); [by apply Hnt; right|done]. }
      destruct (lookup_lt_is_Some_2 cs q) as [c Hcq]; [rewrite Hl; nia|].
      assert (dq_lo d mod K + length (dq_els d) = q * K - dq_lo d / K * K) as Epos.
      { rewrite -Heq {1}/dq_end. rewrite {2}(pos_eq K HK (dq_lo d)). lia. }
      assert (dq_lo d / K ≤ q) as Hle2.
      { apply Nat.div_le_mono; [lia|]. unfold dq_end. lia. }
      rewrite -Nat.mul_sub_distr_r in Epos.
      erewrite bind_ok.
      2: { rewrite (bind_ok _ _ _ _ _ (ev_front_ _ _ _ _ _ _ _ _ _ _ Hd3)).
           rewrite (bind_ok _ _ _ _ _ (ev_fchunk _ _ _ _ _ _ _ _ _ _ Hd3)). cbv zeta. rewrite Epos.
           rewrite Nat.div_mul; [|lia]. rewrite Nat.mod_mul; [|lia].
           erewrite bind_ok; [|rewrite (ev_chunk _ _ _ _ _ _ _ _ _ _ Hd3);
             replace (dq_lo d / K + (q - dq_lo d / K)) with q by lia; by apply at_ptr_ok]. done. }
      unfold d_get, d_els. simpl.
      assert (blk m3 !! c = Some (DArr (chunk_at K d q))) as Hc3.
      { simpl. rewrite lookup_insert_ne; [by apply Hcs1|]. intros ->.
        apply NoDup_cons_1_2, NoDup_cons_1_2 in Hnd. pose proof (NoDup_lookup _ _ _ _ Hnd Hce Hcq). lia. }
      rewrite (bind_ok (bind (load c) _) _ _ (chunk_at K d q) m3).
      2: by rewrite (bind_ok _ _ _ _ _ (load_ok _ _ _ Hc3)).
      unfold chunk_at. rewrite (row_lookup K); [|lia]. rewrite slot_end; [done|]. lia.
    - assert (is_Some (slot d ((q - 1) * K))) as [y ->]; [|done].
      unfold slot. rewrite decide_False; [|nia]. apply lookup_lt_is_Some. unfold dq_end in *. nia.
  Qed.
End ev.
