(** cest::complex computes what the plane says. *)
From iris.prelude Require Import prelude.
From Verif Require Import Mem Hist ModelComplex SpecComplex.

Section proofs.
  Context {T : Type} (A : arith T).
  Notation MC := (M (T * T)).
  Implicit Types (m : mem (T * T)) (this z x y l : loc) (v w : T * T) (t : T).
  Notation upd := assigned.

  Lemma upd_upd m l v w : upd (upd m l v) l w = upd m l w.
  Proof. unfold upd. simpl. by rewrite insert_insert. Qed.
  Lemma upd_eq m l v : blk (upd m l v) !! l = Some v.
  Proof. apply lookup_insert. Qed.
  Lemma upd_ne m l l' v : l ≠ l' → blk (upd m l v) !! l' = blk m !! l'.
  Proof. apply lookup_insert_ne. Qed.
  Lemma bind_ok {B D} (f : MC B) (k : B → MC D) m b m' : f m = Ok b m' → bind f k m = k b m'.
  Proof. unfold bind. by intros ->. Qed.
  Lemma load_ok m l v : blk m !! l = Some v → load l m = Ok v m.
  Proof. unfold load. by intros ->. Qed.
  Lemma store_ok m l v w : blk m !! l = Some v → store l w m = Ok tt (upd m l w).
  Proof. unfold store. by intros ->. Qed.
  Lemma real_ok m l v : blk m !! l = Some v → c_real l m = Ok v.1 m.
  Proof. intros H. unfold c_real. by rewrite (bind_ok _ _ _ _ _ (load_ok _ _ _ H)). Qed.
  Lemma imag_ok m l v : blk m !! l = Some v → c_imag l m = Ok v.2 m.
  Proof. intros H. unfold c_imag. by rewrite (bind_ok _ _ _ _ _ (load_ok _ _ _ H)). Qed.
  Lemma set_real_ok m l v t : blk m !! l = Some v → c_set_real l t m = Ok tt (upd m l (t, v.2)).
  Proof. intros H. unfold c_set_real. rewrite (bind_ok _ _ _ _ _ (load_ok _ _ _ H)). by eapply store_ok. Qed.
  Lemma set_imag_ok m l v t : blk m !! l = Some v → c_set_imag l t m = Ok tt (upd m l (v.1, t)).
  Proof. intros H. unfold c_set_imag. rewrite (bind_ok _ _ _ _ _ (load_ok _ _ _ H)). by eapply store_ok. Qed.

  Ltac look := first [exact eq_refl | eassumption | apply upd_eq | rewrite upd_ne; [look|done]].
  Ltac cstep1 lem := erewrite bind_ok; [|eapply lem; look].
  Ltac cstep := first [cstep1 real_ok | cstep1 imag_ok | cstep1 set_real_ok | cstep1 set_imag_ok]; cbn [fst snd].
  Ltac cend := first [erewrite set_imag_ok; [|look] | erewrite set_real_ok; [|look]]; cbn [fst snd]; rewrite ?upd_upd; try reflexivity.
  Ltac alias this z H H' :=
    let Hne := fresh in destruct (decide (this = z)) as [->|Hne]; [rewrite H in H'; injection H' as <-|].

  (** ** compound assignment; [this] and [z] may be the same object *)
  Section assign.
    Context m this v (Hv : blk m !! this = Some v).
    Lemma assign_t_ok t : c_assign_t A this t m = Ok tt (upd m this (of_t A t)).
    Proof using Hv. unfold c_assign_t. cstep. cend. Qed.
    Lemma add_t_ok t : c_add_t A this t m = Ok tt (upd m this (tadd A v.1 t, v.2)).
    Proof using Hv. unfold c_add_t. cstep. cend. Qed.
    Lemma sub_t_ok t : c_sub_t A this t m = Ok tt (upd m this (tsub A v.1 t, v.2)).
    Proof using Hv. unfold c_sub_t. cstep. cend. Qed.
    Lemma mul_t_ok t : c_mul_t A this t m = Ok tt (upd m this (tmul A v.1 t, tmul A v.2 t)).
    Proof using Hv. unfold c_mul_t. do 3 cstep. cend. Qed.
    Lemma div_t_ok t : c_div_t A this t m = Ok tt (upd m this (tdiv A v.1 t, tdiv A v.2 t)).
    Proof using Hv. unfold c_div_t. do 3 cstep. cend. Qed.

  End assign.
  Lemma norm_ok m z w : blk m !! z = Some w → c_norm A z m = Ok (norm2 A w) m.
  Proof. intros Hw. unfold c_norm. do 2 cstep. done. Qed.
  Lemma assign_ok m this v z w : blk m !! this = Some v → blk m !! z = Some w → c_assign this z m = Ok tt (upd m this w).
  Proof. intros Hv Hw. unfold c_assign. alias this z Hv Hw; do 3 cstep; cend; first [by destruct v|by destruct w]. Qed.
  Lemma add_c_ok m this v z w : blk m !! this = Some v → blk m !! z = Some w → c_add_c A this z m = Ok tt (upd m this (cadd A v w)).
  Proof. intros Hv Hw. unfold c_add_c. alias this z Hv Hw; do 5 cstep; cend. Qed.
  Lemma sub_c_ok m this v z w : blk m !! this = Some v → blk m !! z = Some w → c_sub_c A this z m = Ok tt (upd m this (csub A v w)).
  Proof. intros Hv Hw. unfold c_sub_c. alias this z Hv Hw; do 5 cstep; cend. Qed.
  Lemma mul_c_ok m this v z w : blk m !! this = Some v → blk m !! z = Some w → c_mul_c A this z m = Ok tt (upd m this (cmul A v w)).
  Proof. intros Hv Hw. unfold c_mul_c. alias this z Hv Hw; do 9 cstep; cend. Qed.
  Definition quot v w : T * T :=
    (tdiv A (tadd A (tmul A v.1 w.1) (tmul A v.2 w.2)) (norm2 A w),
     tdiv A (tsub A (tmul A v.2 w.1) (tmul A v.1 w.2)) (norm2 A w)).
  Lemma div_c_ok m this v z w : blk m !! this = Some v → blk m !! z = Some w → c_div_c A this z m = Ok tt (upd m this (quot v w)).
  Proof.
    intros Hv Hw. unfold c_div_c.
    alias this z Hv Hw; do 4 cstep; (erewrite bind_ok; [|eapply norm_ok; look]); do 5 cstep; cend.
  Qed.

  (** ** functions that return a value *)
  Lemma fresh_none m : mem_wf m → blk m !! nxt m = None.
  Proof. intros H. apply eq_None_not_Some. intros Hs. apply H in Hs. lia. Qed.
  Lemma upd_wf m l v w : mem_wf m → blk m !! l = Some v → mem_wf (upd m l w).
  Proof.
    intros Hm Hl k. unfold assigned. simpl. destruct (decide (l = k)) as [->|]; [intros _; apply Hm; eauto|].
    rewrite lookup_insert_ne //. apply Hm.
  Qed.
  (** a local object [r] made from [v], changed by [f] to [w], and returned *)
  Lemma local_ok m v w (f : loc → MC unit) :
    mem_wf m →
    (∀ r m1, blk m1 !! r = Some v → (∀ l u, blk m !! l = Some u → blk m1 !! l = Some u) → f r m1 = Ok tt (upd m1 r w)) →
    yields (r <- new v ;; f r ;;; returning r) w m.
  Proof.
    intros Hm Hf. unfold yields.
    set (m1 := Mem (<[nxt m := v]> (blk m)) (Pos.succ (nxt m)) (aorc m) (corc m)).
    assert (new v m = Ok (nxt m) m1) as Hnew by done. rewrite (bind_ok _ _ _ _ _ Hnew).
    assert (blk m1 !! nxt m = Some v) as H1 by apply lookup_insert.
    erewrite bind_ok; [|apply (Hf (nxt m) m1 H1)].
    2: { intros l u Hl. simpl. rewrite lookup_insert_ne //. intros <-. by rewrite (fresh_none _ Hm) in Hl. }
    unfold returning, bind, load. rewrite upd_eq. unfold free. rewrite upd_eq. eexists. split; [done|]. simpl. split.
    - rewrite insert_insert delete_insert //. by apply fresh_none.
    - intros l. simpl. rewrite insert_insert delete_insert; [|by apply fresh_none]. intros Hl. apply Hm in Hl. lia.
  Qed.
  Lemma copy_new m x v {B} (k : loc → MC B) : blk m !! x = Some v → (r <- c_copy x ;; k r) m = (r <- new v ;; k r) m.
  Proof.
    intros H. unfold bind at 1. unfold c_copy. cstep. cstep. by destruct v.
  Qed.
  Lemma yields_ext {B} (f g : MC B) b m : f m = g m → yields g b m → yields f b m.
  Proof. unfold yields. by intros ->. Qed.

  Section ops.
    Context m (Hm : mem_wf m) x v (Hx : blk m !! x = Some v).
    Lemma op_add_t_ok t : yields (op_add_t A x t) (tadd A v.1 t, v.2) m.
    Proof using Hm Hx. eapply yields_ext; [by apply copy_new|]. apply local_ok; [done|]. intros. by apply add_t_ok. Qed.
    Lemma t_op_add_ok t : yields (t_op_add A t x) (tadd A v.1 t, v.2) m.
    Proof using Hm Hx. eapply yields_ext; [by apply copy_new|]. apply local_ok; [done|]. intros. by apply add_t_ok. Qed.
    Lemma op_sub_t_ok t : yields (op_sub_t A x t) (tsub A v.1 t, v.2) m.
    Proof using Hm Hx. eapply yields_ext; [by apply copy_new|]. apply local_ok; [done|]. intros. by apply sub_t_ok. Qed.
    Lemma op_mul_t_ok t : yields (op_mul_t A x t) (tmul A v.1 t, tmul A v.2 t) m.
    Proof using Hm Hx. eapply yields_ext; [by apply copy_new|]. apply local_ok; [done|]. intros. by apply mul_t_ok. Qed.
    Lemma t_op_mul_ok t : yields (t_op_mul A t x) (tmul A v.1 t, tmul A v.2 t) m.
    Proof using Hm Hx. eapply yields_ext; [by apply copy_new|]. apply local_ok; [done|]. intros. by apply mul_t_ok. Qed.
    Lemma op_div_t_ok t : yields (op_div_t A x t) (tdiv A v.1 t, tdiv A v.2 t) m.
    Proof using Hm Hx. eapply yields_ext; [by apply copy_new|]. apply local_ok; [done|]. intros. by apply div_t_ok. Qed.
    Lemma read_ok {B} (f : MC B) b : f m = Ok b m → yields f b m.
    Proof using Hm. intros H. by exists m. Qed.
    Lemma op_neg_ok : yields (op_neg A x) (copp A v) m.
    Proof using Hm Hx. apply read_ok. unfold op_neg. do 2 cstep. done. Qed.
    Lemma c_conj_ok : yields (c_conj A x) (cconj A v) m.
    Proof using Hm Hx. apply read_ok. unfold c_conj. do 2 cstep. done. Qed.
    Lemma c_norm_ok : yields (c_norm A x) (norm2 A v) m.
    Proof using Hm Hx. apply read_ok. by apply norm_ok. Qed.
    Lemma t_op_sub_ok t : yields (t_op_sub A t x) (tadd A (topp A v.1) t, topp A v.2) m.
    Proof using Hm Hx.
      apply (yields_ext _ (r <- new (copp A v) ;; c_add_t A r t ;;; returning r)).
      { unfold t_op_sub. erewrite bind_ok; [reflexivity|]. unfold op_neg. do 2 cstep. done. }
      apply local_ok; [done|]. intros. by apply (add_t_ok _ _ (copp A v)).
    Qed.
    Lemma op_eq_t_ok t : yields (op_eq_t A x t) (teqb A v.1 t && teqb A v.2 (t0 A)) m.
    Proof using Hm Hx. apply read_ok. unfold op_eq_t. do 2 cstep. done. Qed.
    Lemma t_op_eq_ok t : yields (t_op_eq A t x) (teqb A t v.1 && teqb A (t0 A) v.2) m.
    Proof using Hm Hx. apply read_ok. unfold t_op_eq. do 2 cstep. done. Qed.

    Context y w (Hy : blk m !! y = Some w).
    Lemma op_add_ok : yields (op_add A x y) (cadd A v w) m.
    Proof using Hm Hx Hy. eapply yields_ext; [by apply copy_new|]. apply local_ok; [done|]. intros. apply add_c_ok; auto. Qed.
    Lemma op_sub_ok : yields (op_sub A x y) (csub A v w) m.
    Proof using Hm Hx Hy. eapply yields_ext; [by apply copy_new|]. apply local_ok; [done|]. intros. apply sub_c_ok; auto. Qed.
    Lemma op_mul_ok : yields (op_mul A x y) (cmul A v w) m.
    Proof using Hm Hx Hy. eapply yields_ext; [by apply copy_new|]. apply local_ok; [done|]. intros. apply mul_c_ok; auto. Qed.
    Lemma op_div_ok : yields (op_div A x y) (quot v w) m.
    Proof using Hm Hx Hy. eapply yields_ext; [by apply copy_new|]. apply local_ok; [done|]. intros. apply div_c_ok; auto. Qed.
    Lemma t_op_div_ok t : yields (t_op_div A t y) (quot (of_t A t) w) m.
    Proof using Hm Hy. apply local_ok; [done|]. intros. apply (div_c_ok m1 r (of_t A t)); auto. Qed.
    Lemma op_eq_ok : yields (op_eq A x y) (teqb A v.1 w.1 && teqb A v.2 w.2) m.
    Proof using Hm Hx Hy. apply read_ok. unfold op_eq. do 4 cstep. done. Qed.
    Lemma op_ne_ok : yields (op_ne A x y) (negb (teqb A v.1 w.1 && teqb A v.2 w.2)) m.
    Proof using Hm Hx Hy. apply read_ok. unfold op_ne. do 4 cstep. by rewrite negb_andb. Qed.
  End ops.

  (** ** over a ring *)
  Section ring.
    Context (HA : exact_ring A).
    Local Definition RT := proj1 HA.
    Add Ring Tring : RT.
    Ltac cring := intros; repeat match goal with v : (T * T)%type |- _ => destruct v end;
      unfold cadd, cmul, csub, copp, cconj, norm2, c1, c0, of_t; cbn [fst snd]; try (f_equal; ring).
    Lemma plane_ring : ring_theory (c0 A) (c1 A) (cadd A) (cmul A) (csub A) (copp A) eq.
    Proof using HA. split; cring. Qed.
    Lemma norm_conj v : cmul A v (cconj A v) = of_t A (norm2 A v).
    Proof using HA. cring. Qed.
    Lemma norm_mul v w : norm2 A (cmul A v w) = tmul A (norm2 A v) (norm2 A w).
    Proof using HA. cring. Qed.
    Lemma conj_conj v : cconj A (cconj A v) = v.
    Proof using HA. cring. Qed.
    Lemma conj_add v w : cconj A (cadd A v w) = cadd A (cconj A v) (cconj A w).
    Proof using HA. cring. Qed.
    Lemma conj_mul v w : cconj A (cmul A v w) = cmul A (cconj A v) (cconj A w).
    Proof using HA. cring. Qed.
    Lemma i_squared : cmul A (t0 A, t1 A) (t0 A, t1 A) = copp A (c1 A).
    Proof using HA. cring. Qed.
    Lemma cartesian v : v = cadd A (of_t A v.1) (cmul A (of_t A v.2) (t0 A, t1 A)).
    Proof using HA. cring. Qed.
    (** a scalar operand is as good as the complex number (t, 0) *)
    Lemma mixed_add v t : (tadd A v.1 t, v.2) = cadd A v (of_t A t).
    Proof using HA. cring. Qed.
    Lemma mixed_add' v t : (tadd A v.1 t, v.2) = cadd A (of_t A t) v.
    Proof using HA. cring. Qed.
    Lemma mixed_sub v t : (tsub A v.1 t, v.2) = csub A v (of_t A t).
    Proof using HA. cring. Qed.
    Lemma mixed_sub' v t : (tadd A (topp A v.1) t, topp A v.2) = csub A (of_t A t) v.
    Proof using HA. cring. Qed.
    Lemma mixed_mul v t : (tmul A v.1 t, tmul A v.2 t) = cmul A v (of_t A t).
    Proof using HA. cring. Qed.
    Lemma mixed_mul' v t : (tmul A v.1 t, tmul A v.2 t) = cmul A (of_t A t) v.
    Proof using HA. cring. Qed.
    Lemma eqb_spec v w : teqb A v.1 w.1 && teqb A v.2 w.2 = true ↔ v = w.
    Proof using HA. destruct v, w. rewrite andb_true_iff !(proj2 HA). simpl. naive_solver. Qed.

    (** integer powers *)
    Add Ring Cring : plane_ring.
    Lemma cpow_add v i j : cpow A v (i + j) = cmul A (cpow A v i) (cpow A v j).
    Proof using HA. induction i as [|i IH]; simpl; [ring|]. rewrite IH. ring. Qed.
    Lemma cpow_double v i : cpow A (cmul A v v) i = cpow A v (2 * i).
    Proof using HA.
      replace (2 * i) with (i + i) by lia. rewrite cpow_add. induction i as [|i IH]; simpl; [ring|]. rewrite IH. ring.
    Qed.
    Lemma half_odd n : (n mod 2)%N ≠ 0%N → N.to_nat n = S (2 * N.to_nat (n / 2)).
    Proof.
      pose proof (N.div_mod n 2 ltac:(done)) as H. pose proof (N.mod_lt n 2 ltac:(done)) as H0. intros Ev. clear - Ev H H0.
      revert Ev H H0. generalize (n / 2)%N (n mod 2)%N. lia.
    Qed.
    Lemma pow_loop_ok fuel m x y n v w :
      fuel ≠ 0 → (n < 2 ^ N.of_nat fuel)%N → x ≠ y → blk m !! x = Some v → blk m !! y = Some w →
      ∃ u, pow_loop A fuel x y n m = Ok tt (upd (upd m x u) y (cmul A w (cpow A (cmul A v v) (N.to_nat (n / 2))))).
    Proof using HA.
      revert m n v w. induction fuel as [|fuel IH]; intros m n v w Hf Hn Hxy Hv Hw; [done|].
      cbn [pow_loop]. rewrite -N.div2_spec N.div2_div.
      destruct (N.eqb_spec (n / 2) 0) as [E|E].
      - exists v. rewrite E. simpl. unfold ret. f_equal.
        assert (upd (upd m x v) y (cmul A w (c1 A)) = m) as ->; [|done]. unfold assigned. simpl.
        replace (cmul A w (c1 A)) with w by ring. rewrite (insert_id _ x) //. rewrite insert_id //. by destruct m.
      - assert (n / 2 < 2 ^ N.of_nat fuel)%N as Hn'.
        { apply N.div_lt_upper_bound; [done|]. rewrite Nat2N.inj_succ N.pow_succ_r' in Hn. done. }
        assert (fuel ≠ 0) as Hf'. { intros ->. change (N.of_nat 0) with 0%N in Hn'. rewrite N.pow_0_r in Hn'. by apply E, N.lt_1_r. }
        erewrite bind_ok; [|by apply (mul_c_ok m x v x v)].
        set (v2 := cmul A v v). set (m1 := upd m x v2).
        assert (blk m1 !! x = Some v2) as H1 by apply upd_eq.
        assert (blk m1 !! y = Some w) as H2 by (unfold m1; rewrite upd_ne //).
        set (h := (n / 2)%N) in *. destruct (N.eqb_spec (h mod 2) 0) as [Ev|Ev].
        + erewrite bind_ok; [|reflexivity].
          destruct (IH m1 h v2 w Hf' Hn' Hxy H1 H2) as (u & Hu). exists u. rewrite Hu. do 2 f_equal.
          * unfold m1. by rewrite upd_upd.
          * rewrite cpow_double. do 2 f_equal. pose proof (N.div_mod h 2 ltac:(done)). lia.
        + erewrite bind_ok; [|by apply (mul_c_ok m1 y w x v2)].
          destruct (IH (upd m1 y (cmul A w v2)) h v2 (cmul A w v2) Hf' Hn' Hxy) as (u & Hu);
            [by rewrite upd_ne|by apply upd_eq|].
          exists u. rewrite Hu. f_equal. unfold m1, assigned. simpl. f_equal.
          rewrite (insert_commute _ x y) // !insert_insert. f_equal.
          rewrite (half_odd _ Ev). rewrite cpow_double. simpl. ring.
    Qed.
    Lemma pow_unsigned_ok m v n :
      mem_wf m → (n < 2 ^ 32)%N → yields (pow_unsigned A v n) (cpow A v (N.to_nat n)) m.
    Proof using HA.
      intros Hm Hn. unfold pow_unsigned, yields.
      set (x := nxt m). set (y := Pos.succ (nxt m)).
      set (m1 := Mem (<[x := v]> (blk m)) y (aorc m) (corc m)).
      assert (new v m = Ok x m1) as Hnew by done. rewrite (bind_ok _ _ _ _ _ Hnew).
      set (w := if N.eqb (n mod 2) 0 then c1 A else v).
      assert ((if N.eqb (n mod 2) 0 then new (t1 A, t0 A) else c_copy x) m1 =
        Ok y (Mem (<[y := w]> (blk m1)) (Pos.succ y) (aorc m) (corc m))) as Hy.
      { unfold w. destruct (N.eqb (n mod 2) 0); [done|]. unfold c_copy.
        assert (blk m1 !! x = Some v) as H by apply lookup_insert. do 2 cstep. by destruct v. }
      rewrite (bind_ok _ _ _ _ _ Hy). set (m2 := Mem _ _ _ _).
      assert (x ≠ y) as Hxy by (unfold x, y; lia).
      assert (blk m2 !! x = Some v) as H1 by (simpl; rewrite lookup_insert_ne // lookup_insert //).
      assert (blk m2 !! y = Some w) as H2 by apply lookup_insert.
      destruct (pow_loop_ok 32 m2 x y n v w ltac:(done) Hn Hxy H1 H2) as (u & Hu).
      rewrite (bind_ok _ _ _ _ _ Hu). set (r := cmul A w _).
      assert (r = cpow A v (N.to_nat n)) as Er.
      { unfold r, w. rewrite cpow_double. pose proof (N.div_mod n 2 ltac:(done)). pose proof (N.mod_lt n 2 ltac:(done)).
        destruct (N.eqb_spec (n mod 2) 0) as [E|E].
        - replace (N.to_nat n) with (2 * N.to_nat (n / 2)) by lia. ring.
        - by rewrite (half_odd _ E). }
      unfold free at 1. unfold bind at 1. simpl. rewrite lookup_insert_ne // lookup_insert.
      unfold returning, bind, load, free. simpl. rewrite lookup_delete_ne // lookup_insert. simpl.
      rewrite lookup_delete_ne // lookup_insert Er. eexists. split; [done|]. simpl.
      assert (delete y (delete x (<[y:=cpow A v (N.to_nat n)]> (<[x:=u]> (<[y:=w]> (<[x:=v]> (blk m)))))) = blk m) as EB.
      { apply map_eq. intros k. destruct (decide (k = y)) as [->|]; [|destruct (decide (k = x)) as [->|]].
        - rewrite lookup_delete. symmetry. apply eq_None_not_Some. intros Hs. apply Hm in Hs. unfold y in Hs. lia.
        - rewrite lookup_delete_ne // lookup_delete. symmetry. by apply fresh_none.
        - rewrite lookup_delete_ne // lookup_delete_ne // !lookup_insert_ne //. }
      split; [exact EB|]. intros k. simpl. rewrite EB. intros Hk. apply Hm in Hk. unfold y. lia.
    Qed.
  End ring.

  (** ** over a field *)
  Section field.
    Context (HA : exact_field A).
    Local Definition FT := proj1 HA.
    Lemma field_ring : exact_ring A.
    Proof using HA. split; [apply (F_R FT)|apply (proj2 HA)]. Qed.
    Add Field Tfield : FT.
    Lemma quot_ok v w : quot v w = cdiv A v w.
    Proof using HA.
      destruct v as [a b], w as [c d]. unfold quot, cdiv, cinv, cmul, norm2. cbn [fst snd].
      pose proof (Fdiv_def FT) as Hd. set (n := tadd A (tmul A c c) (tmul A d d)).
      rewrite (Hd _ n) (Hd (tsub A _ _) n) (Hd c n) (Hd (topp A d) n).
      generalize (tdiv A (t1 A) n). intros i. f_equal; ring.
    Qed.
    Lemma nz_true t : t ≠ t0 A → teqb A t (t0 A) = false.
    Proof using HA. intros Ht. destruct (teqb A t (t0 A)) eqn:E; [|done]. by apply (proj2 HA) in E. Qed.
    Lemma mixed_div v t : t ≠ t0 A → (tdiv A v.1 t, tdiv A v.2 t) = cdiv A v (of_t A t).
    Proof using HA.
      intros Ht. rewrite -quot_ok. destruct v as [a b]. unfold quot, norm2, of_t. cbn [fst snd]. f_equal; field; done.
    Qed.
    Context (HD : definite A).
    Lemma norm_nz v : v ≠ c0 A → norm2 A v ≠ t0 A.
    Proof using HD. intros Hv Hn. apply HD in Hn as [H1 H2]. destruct v; simpl in *; subst. done. Qed.
    Lemma norm_zero v : norm2 A v = t0 A ↔ v = c0 A.
    Proof using HA HD.
      split; [intros Hn; apply HD in Hn as [H1 H2]; destruct v; simpl in *; by subst|].
      intros ->. unfold norm2, c0, of_t. cbn [fst snd]. ring.
    Qed.
    Lemma plane_field : field_theory (c0 A) (c1 A) (cadd A) (cmul A) (csub A) (copp A) (cdiv A) (cdiv A (c1 A)) eq.
    Proof using HA HD.
      pose proof (plane_ring field_ring) as HR. split; [done| | |].
      - intros [= E]. by apply (F_1_neq_0 FT).
      - intros v w. unfold cdiv. f_equal. by rewrite (Rmul_1_l HR).
      - intros w Hw. pose proof (norm_nz _ Hw) as Hn. destruct w as [c d].
        unfold cdiv, cinv, cmul, c1, of_t, norm2 in *. cbn [fst snd] in *. f_equal; field; done.
    Qed.
    Lemma div_mul v w : w ≠ c0 A → cmul A (cdiv A v w) w = v.
    Proof using HA HD.
      intros Hw. pose proof plane_field as HF. pose proof (F_R HF) as HR. rewrite (Fdiv_def HF).
      rewrite -(Rmul_assoc HR) (Finv_l HF) // (Rmul_comm HR). apply (Rmul_1_l HR).
    Qed.
  End field.

  (** pow(z, n) *)
  Lemma with_val_ok {B} m v (f : loc → MC B) b :
    mem_wf m → (∀ l m1, mem_wf m1 → blk m !! l = None → blk m1 = <[l := v]> (blk m) → yields (f l) b m1) →
    yields (with_val v f) b m.
  Proof.
    intros Hm Hf. set (m1 := Mem (<[nxt m := v]> (blk m)) (Pos.succ (nxt m)) (aorc m) (corc m)).
    assert (new v m = Ok (nxt m) m1) as Hn by done.
    assert (mem_wf m1) as Hm1.
    { intros k. simpl. destruct (decide (nxt m = k)) as [->|]; [lia|]. rewrite lookup_insert_ne //. intros Hk. apply Hm in Hk. lia. }
    destruct (Hf (nxt m) m1 Hm1 (fresh_none _ Hm) eq_refl) as (m2 & Hr & Hb & Hm2).
    unfold yields, with_val. rewrite (bind_ok _ _ _ _ _ Hn) (bind_ok _ _ _ _ _ Hr).
    unfold bind, free. rewrite Hb. simpl. rewrite lookup_insert. eexists. split; [done|]. simpl.
    rewrite delete_insert; [|by apply fresh_none]. split; [done|].
    intros k. simpl. intros Hk. apply Hm2. rewrite Hb. simpl. destruct (decide (nxt m = k)) as [->|]; [rewrite lookup_insert; eauto|].
    by rewrite lookup_insert_ne.
  Qed.
  Lemma bind_yields {B D} (f : MC B) b (k : B → MC D) d m :
    yields f b m → (∀ m', mem_wf m' → blk m' = blk m → yields (k b) d m') → yields (bind f k) d m.
  Proof.
    intros (m' & Hf & Hb & Hw) Hk. destruct (Hk m' Hw Hb) as (m2 & H1 & H2 & H3). exists m2.
    rewrite (bind_ok _ _ _ _ _ Hf). split; [done|]. split; [congruence|done].
  Qed.
  Lemma pow_nonneg m z v n :
    exact_ring A → mem_wf m → blk m !! z = Some v → (0 <= n < 2 ^ 31)%Z →
    yields (c_pow A z n) (cpow A v (Z.to_nat n)) m.
  Proof.
    intros HA Hm Hz Hn. unfold c_pow.
    apply (bind_yields _ v); [exists m; by rewrite (load_ok _ _ _ Hz)|]. intros m' Hm' _.
    destruct (Z.ltb_spec n 0); [lia|]. rewrite -Z_N_nat. apply pow_unsigned_ok; [done..|]. lia.
  Qed.
  Lemma pow_neg m z v n :
    exact_field A → mem_wf m → blk m !! z = Some v → (- 2 ^ 31 <= n < 0)%Z →
    yields (c_pow A z n) (cdiv A (c1 A) (cpow A v (Z.to_nat (- n)))) m.
  Proof.
    intros HA Hm Hz Hn. unfold c_pow.
    apply (bind_yields _ v); [exists m; by rewrite (load_ok _ _ _ Hz)|]. intros m' Hm' _.
    destruct (Z.ltb_spec n 0); [|lia].
    assert ((2 ^ 32 - n mod 2 ^ 32) mod 2 ^ 32 = - n)%Z as ->.
    { rewrite -(Z_mod_plus_full n 1 (2 ^ 32)) (Z.mod_small (n + 1 * 2 ^ 32)); [|lia]. rewrite Z.mod_small; lia. }
    apply (bind_yields _ (cpow A v (Z.to_nat (- n)))).
    { rewrite -Z_N_nat. apply pow_unsigned_ok; [by apply field_ring|done|lia]. }
    intros m1 Hm1 _. apply with_val_ok; [done|]. intros one m2 Hm2 _ Hb2. apply with_val_ok; [done|]. intros l m3 Hm3 Hf3 Hb3.
    rewrite -(quot_ok HA). destruct (decide (one = l)) as [->|].
    { by rewrite Hb2 lookup_insert in Hf3. }
    apply op_div_ok; [done| |]; rewrite Hb3.
    - rewrite lookup_insert_ne // Hb2 lookup_insert //.
    - apply lookup_insert.
  Qed.

  (** ** what the properties say *)
  Lemma compound_all m this v z w :
    exact_field A → blk m !! this = Some v → blk m !! z = Some w →
    c_assign this z m = Ok tt (assigned m this w) ∧
    c_add_c A this z m = Ok tt (assigned m this (cadd A v w)) ∧
    c_sub_c A this z m = Ok tt (assigned m this (csub A v w)) ∧
    c_mul_c A this z m = Ok tt (assigned m this (cmul A v w)) ∧
    c_div_c A this z m = Ok tt (assigned m this (cdiv A v w)).
  Proof.
    intros HA Hv Hw. split_and!; [by eapply assign_ok|by eapply add_c_ok|by eapply sub_c_ok|by eapply mul_c_ok|].
    rewrite -(quot_ok HA). by apply div_c_ok.
  Qed.
  Lemma compound_scalar_all m this v t :
    exact_field A → blk m !! this = Some v →
    c_assign_t A this t m = Ok tt (assigned m this (of_t A t)) ∧
    c_add_t A this t m = Ok tt (assigned m this (cadd A v (of_t A t))) ∧
    c_sub_t A this t m = Ok tt (assigned m this (csub A v (of_t A t))) ∧
    c_mul_t A this t m = Ok tt (assigned m this (cmul A v (of_t A t))) ∧
    (t ≠ t0 A → c_div_t A this t m = Ok tt (assigned m this (cdiv A v (of_t A t)))).
  Proof.
    intros HA Hv. pose proof (field_ring HA) as HR.
    rewrite -(mixed_add HR) -(mixed_sub HR) -(mixed_mul HR).
    split_and!; [by eapply assign_t_ok|by eapply add_t_ok|by eapply sub_t_ok|by eapply mul_t_ok|].
    intros Ht. rewrite -(mixed_div HA) //. by apply div_t_ok.
  Qed.
  Lemma operators_all m x v y w :
    exact_field A → mem_wf m → blk m !! x = Some v → blk m !! y = Some w →
    yields (op_add A x y) (cadd A v w) m ∧ yields (op_sub A x y) (csub A v w) m ∧
    yields (op_mul A x y) (cmul A v w) m ∧ yields (op_div A x y) (cdiv A v w) m ∧
    yields (op_neg A x) (copp A v) m.
  Proof.
    intros HA Hm Hx Hy. rewrite -(quot_ok HA).
    split_and!; [by apply op_add_ok|by apply op_sub_ok|by apply op_mul_ok|by apply op_div_ok|by apply op_neg_ok].
  Qed.
  Lemma operators_scalar_all m x v t :
    exact_field A → mem_wf m → blk m !! x = Some v →
    yields (op_add_t A x t) (cadd A v (of_t A t)) m ∧ yields (t_op_add A t x) (cadd A (of_t A t) v) m ∧
    yields (op_sub_t A x t) (csub A v (of_t A t)) m ∧ yields (t_op_sub A t x) (csub A (of_t A t) v) m ∧
    yields (op_mul_t A x t) (cmul A v (of_t A t)) m ∧ yields (t_op_mul A t x) (cmul A (of_t A t) v) m ∧
    (t ≠ t0 A → yields (op_div_t A x t) (cdiv A v (of_t A t)) m) ∧ yields (t_op_div A t x) (cdiv A (of_t A t) v) m.
  Proof.
    intros HA Hm Hx. pose proof (field_ring HA) as HR.
    rewrite -(mixed_add HR) -(mixed_add' HR) -(mixed_sub HR) -(mixed_sub' HR) -(mixed_mul HR) -(mixed_mul' HR).
    split_and!; [by apply op_add_t_ok|by apply t_op_add_ok|by apply op_sub_t_ok|by apply t_op_sub_ok|
      by apply op_mul_t_ok|by apply t_op_mul_ok| |].
    - intros Ht. rewrite -(mixed_div HA) //. by apply op_div_t_ok.
    - rewrite -(quot_ok HA). by apply t_op_div_ok.
  Qed.
  Lemma field_all :
    exact_field A → definite A →
    field_theory (c0 A) (c1 A) (cadd A) (cmul A) (csub A) (copp A) (cdiv A) (cdiv A (c1 A)) eq ∧
    (∀ v w, w ≠ c0 A → cmul A (cdiv A v w) w = v) ∧
    cmul A (t0 A, t1 A) (t0 A, t1 A) = copp A (c1 A) ∧
    (∀ v, v = cadd A (of_t A v.1) (cmul A (of_t A v.2) (t0 A, t1 A))).
  Proof.
    intros HA HD. pose proof (field_ring HA) as HR.
    split_and!; [by apply plane_field|intros; by apply div_mul|by apply i_squared|by apply cartesian].
  Qed.
  Lemma norm_conj_eq_all m x v y w t :
    exact_ring A → mem_wf m → blk m !! x = Some v → blk m !! y = Some w →
    yields (c_norm A x) (tadd A (tmul A v.1 v.1) (tmul A v.2 v.2)) m ∧
    yields (c_conj A x) (v.1, topp A v.2) m ∧
    (∃ b, yields (op_eq A x y) b m ∧ (b = true ↔ v = w)) ∧
    (∃ b, yields (op_ne A x y) b m ∧ (b = true ↔ v ≠ w)) ∧
    (∃ b, yields (op_eq_t A x t) b m ∧ (b = true ↔ v = of_t A t)) ∧
    (∃ b, yields (t_op_eq A t x) b m ∧ (b = true ↔ v = of_t A t)).
  Proof.
    intros HA Hm Hx Hy. split_and!.
    - by apply c_norm_ok.
    - by apply c_conj_ok.
    - eexists. split; [by apply op_eq_ok|]. by apply eqb_spec.
    - eexists. split; [by apply op_ne_ok|]. rewrite -(eqb_spec HA). destruct (_ && _); naive_solver.
    - eexists. split; [by apply op_eq_t_ok|]. apply (eqb_spec HA v (of_t A t)).
    - eexists. split; [by apply t_op_eq_ok|]. rewrite (eqb_spec HA (of_t A t) v). naive_solver.
  Qed.
  Lemma norm_laws_all :
    exact_ring A →
    (∀ v, cmul A v (cconj A v) = of_t A (norm2 A v)) ∧
    (∀ v w, norm2 A (cmul A v w) = tmul A (norm2 A v) (norm2 A w)) ∧
    (∀ v, cconj A (cconj A v) = v) ∧
    (∀ v w, cconj A (cadd A v w) = cadd A (cconj A v) (cconj A w)) ∧
    (∀ v w, cconj A (cmul A v w) = cmul A (cconj A v) (cconj A w)).
  Proof.
    intros HA. split_and!; intros; [by apply norm_conj|by apply norm_mul|by apply conj_conj|by apply conj_add|by apply conj_mul].
  Qed.
End proofs.
