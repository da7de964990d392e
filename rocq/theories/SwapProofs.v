(** Proofs behind PropSwap.v. *)
From iris.prelude Require Import prelude.
From Verif Require Import Mem ModelSwap SpecSwap.

Section swap.
  Context {T : Type}.
  Implicit Types (m : mem (option T)) (l : loc) (ls xs : list loc) (v : T) (vs : list T).

  Lemma store_ok m l (o : option T) c : blk m !! l = Some o →
    store l c m = Ok tt (Mem (<[l := c]> (blk m)) (nxt m) (aorc m) (corc m)).
  Proof. intros H. by rewrite /store H. Qed.
  Lemma move_ok m l v : blk m !! l = Some (Some v) →
    var_move l m = Ok v (Mem (<[l := None]> (blk m)) (nxt m) (aorc m) (corc m)).
  Proof. intros H. rewrite /var_move /bind /load H /store H. done. Qed.
  Lemma holds_frame m m' ls vs xs : only_writes xs m m' → (∀ l, l ∈ ls → l ∉ xs) →
    var_holds m ls vs → var_holds m' ls vs.
  Proof.
    intros [Hw _] Hd Hh. induction Hh as [|l v ls vs Hl Hh IH]; constructor.
    - rewrite Hw //. apply Hd. constructor.
    - apply IH. intros l' ?. apply Hd. by constructor.
  Qed.
  Lemma writes_trans xs m1 m2 m3 : only_writes xs m1 m2 → only_writes xs m2 m3 → only_writes xs m1 m3.
  Proof.
    intros (H1 & E1 & E2 & E3) (H2 & E4 & E5 & E6). split; [|by rewrite E4 E5 E6].
    intros l Hl. by rewrite H2 // H1.
  Qed.
  Lemma writes_mono xs ys m m' : xs ⊆ ys → only_writes xs m m' → only_writes ys m m'.
  Proof. intros Hs [H1 H2]. split; [|done]. intros l Hl. apply H1. intros ?. by apply Hl, Hs. Qed.
  Lemma writes_store m l (c : option T) : only_writes [l] m (Mem (<[l := c]> (blk m)) (nxt m) (aorc m) (corc m)).
  Proof. split; [|done]. intros l' Hl. rewrite /= lookup_insert_ne //. intros ->. apply Hl. constructor. Qed.
  Lemma holds_app m xs ys vs ws : var_holds m xs vs → var_holds m ys ws → var_holds m (xs ++ ys) (vs ++ ws).
  Proof. apply Forall2_app. Qed.

  Lemma fold_left_ok x xs m vs o tmp :
    NoDup (x :: xs) → blk m !! x = Some o → var_holds m xs vs →
    ∃ m', fold_left_wrap var_move var_assign x xs tmp m = Ok tt m' ∧
      var_holds m' (x :: xs) (vs ++ [tmp]) ∧ only_writes (x :: xs) m m'.
  Proof.
    revert x m vs o. induction xs as [|y ys IH]; intros x m vs o Hd Hx Hh; cbn [fold_left_wrap].
    - inversion Hh; subst. eexists. split; [by apply (store_ok _ _ _ _ Hx)|].
      split; [|apply writes_store]. constructor; [by rewrite /= lookup_insert|constructor].
    - inversion Hh as [|? v ? vs' Hy Hys]; subst.
      apply NoDup_cons in Hd as [Hxy [Hyy Hd]%NoDup_cons].
      assert (x ≠ y) as Hne by (intros ->; apply Hxy; constructor).
      unfold bind at 1. rewrite (move_ok _ _ _ Hy). set (m1 := Mem _ _ _ _).
      assert (blk m1 !! x = Some o) as Hx1 by by rewrite /= lookup_insert_ne.
      unfold bind at 1, var_assign at 1. rewrite (store_ok _ _ _ _ Hx1). set (m2 := Mem _ _ _ _).
      assert (only_writes [y] m m1) as W1 by apply writes_store.
      assert (only_writes [x] m1 m2) as W2 by apply writes_store.
      destruct (IH y m2 vs' None) as (m' & -> & Hh' & W3); [by constructor|by rewrite /= lookup_insert_ne // lookup_insert| |].
      { eapply (holds_frame m1); [exact W2| |eapply (holds_frame m); [exact W1| |done]];
          intros l Hl ->%elem_of_list_singleton; [apply Hxy; by constructor|done]. }
      exists m'. split; [done|]. split.
      + constructor; [|done]. destruct W3 as [-> _]; [by rewrite /= lookup_insert|done].
      + eapply writes_trans; [|eapply writes_trans]; (eapply writes_mono; [|eassumption]); set_solver.
  Qed.
  Lemma swap_ok ls m vs :
    NoDup ls → var_holds m ls vs →
    ∃ m', swap_vars ls m = Ok tt m' ∧ var_holds m' ls (rotate_left vs) ∧ only_writes ls m m'.
  Proof.
    intros Hd Hh. destruct ls as [|x xs]; inversion Hh as [|? v ? vs' Hx Hxs]; subst.
    - exists m. split; [done|]. split; [constructor|done].
    - unfold swap_vars, nary_swap, bind at 1. rewrite (move_ok _ _ _ Hx). set (m1 := Mem _ _ _ _).
      assert (only_writes [x] m m1) as W1 by apply writes_store.
      destruct (fold_left_ok x xs m1 vs' None v) as (m' & -> & Hh' & W2); [done|by rewrite /= lookup_insert| |].
      { eapply (holds_frame m); [exact W1| |done]. apply NoDup_cons in Hd as [? _]. intros l Hl ->%elem_of_list_singleton. done. }
      exists m'. split; [done|]. split; [done|].
      eapply writes_trans; (eapply writes_mono; [|eassumption]); set_solver.
  Qed.

  (** [zs]: all but the last *)
  Lemma fold_right_ok x zs z m vs o :
    NoDup (x :: zs ++ [z]) → var_holds m (x :: zs) vs → blk m !! z = Some o →
    ∃ m', fold_right_wrap var_move var_assign x (zs ++ [z]) m = Ok tt m' ∧
      var_holds m' (zs ++ [z]) vs ∧ blk m' !! x = Some None ∧ only_writes (x :: zs ++ [z]) m m'.
  Proof.
    revert x vs. induction zs as [|y ys IH]; intros x vs Hd Hh Hz.
    - inversion Hh as [|? v ? vs' Hx Hn]; subst. inversion Hn; subst. cbn [fold_right_wrap app].
      assert (x ≠ z) as Hne by (apply NoDup_cons in Hd as [Hd _]; intros ->; apply Hd; constructor).
      unfold bind, ret. rewrite (move_ok _ _ _ Hx). set (m1 := Mem _ _ _ _).
      assert (only_writes [x] m m1) as W1 by apply writes_store.
      assert (blk m1 !! z = Some o) as Hz1 by by rewrite /= lookup_insert_ne.
      unfold var_assign. rewrite (store_ok _ _ _ _ Hz1). set (m2 := Mem _ _ _ _).
      assert (only_writes [z] m1 m2) as W2 by apply writes_store.
      exists m2. split; [done|]. split; [|split].
      + constructor; [by rewrite /= lookup_insert|constructor].
      + by rewrite /= lookup_insert_ne // lookup_insert.
      + eapply writes_trans; (eapply writes_mono; [|eassumption]); set_solver.
    - inversion Hh as [|? v ? vs' Hx Hys]; subst. cbn [fold_right_wrap app].
      apply NoDup_cons in Hd as [Hxy Hd]. assert (x ≠ y) as Hne by (intros ->; apply Hxy; constructor).
      unfold bind at 1. destruct (IH y vs' Hd Hys Hz) as (m1 & -> & Hh1 & Hy1 & W1).
      assert (blk m1 !! x = Some (Some v)) as Hx1 by (destruct W1 as [-> _]; done).
      unfold bind. rewrite (move_ok _ _ _ Hx1). set (m2 := Mem _ _ _ _).
      assert (only_writes [x] m1 m2) as W2 by apply writes_store.
      assert (blk m2 !! y = Some None) as Hy2 by by rewrite /= lookup_insert_ne.
      unfold var_assign. rewrite (store_ok _ _ _ _ Hy2). set (m3 := Mem _ _ _ _).
      assert (only_writes [y] m2 m3) as W3 by apply writes_store.
      exists m3. split; [done|]. apply NoDup_cons in Hd as [Hyy Hd]. split; [|split].
      + constructor; [by rewrite /= lookup_insert|].
        eapply (holds_frame m2); [exact W3| |eapply (holds_frame m1); [exact W2| |done]];
          intros l Hl ->%elem_of_list_singleton; [done|apply Hxy; by constructor].
      + by rewrite /= lookup_insert_ne // lookup_insert.
      + eapply writes_trans; [|eapply writes_trans]; (eapply writes_mono; [|eassumption]); set_solver.
  Qed.
  Lemma swapr_ok ls m vs :
    NoDup ls → var_holds m ls vs →
    ∃ m', swapr_vars ls m = Ok tt m' ∧ var_holds m' ls (rotate_right vs) ∧ only_writes ls m m'.
  Proof.
    intros Hd Hh. destruct ls as [|x xs]; [|destruct xs as [|y ys] using rev_ind].
    - inversion Hh; subst. exists m. split; [done|]. split; [constructor|done].
    - inversion Hh as [|? v ? ? Hx Hn]; subst. inversion Hn; subst.
      exists m. split; [done|]. split; [|done]. by repeat constructor.
    - clear IHys. rename y into z. rename ys into zs.
      rewrite app_comm_cons in Hh. apply Forall2_app_inv_l in Hh as (ws & w' & Hh & Hz & ->).
      inversion Hz as [|? w ? ? Hw Hn]; subst. inversion Hn; subst. clear Hz Hn.
      assert (swapr_vars (x :: zs ++ [z]) = (tmp <- var_move z ;;
        fold_right_wrap (T:=T) var_move var_assign x (zs ++ [z]) ;;; var_assign x tmp)) as ->.
      { unfold swapr_vars, nary_swapr. destruct (zs ++ [z]) as [|a b] eqn:E; [by destruct zs|].
        rewrite -E List.last_last //. }
      unfold bind at 1. rewrite (move_ok _ _ _ Hw). set (m1 := Mem _ _ _ _).
      assert (only_writes [z] m m1) as W1 by apply writes_store.
      destruct (fold_right_ok x zs z m1 ws None Hd) as (m2 & E2 & Hh2 & Hx2 & W2).
      { eapply (holds_frame m); [exact W1| |done]. rewrite app_comm_cons in Hd. apply NoDup_app in Hd as (_ & Hd & _).
        intros l Hl ->%elem_of_list_singleton. apply (Hd z Hl). constructor. }
      { by rewrite /= lookup_insert. }
      unfold bind. rewrite E2. unfold var_assign. rewrite (store_ok _ _ _ _ Hx2). set (m3 := Mem _ _ _ _).
      assert (only_writes [x] m2 m3) as W3 by apply writes_store.
      exists m3. split; [done|]. split.
      + rewrite /rotate_right rev_app_distr /= rev_app_distr rev_involutive /=.
        constructor; [by rewrite /= lookup_insert|].
        eapply (holds_frame m2); [exact W3| |done]. apply NoDup_cons in Hd as [? _].
        intros l Hl ->%elem_of_list_singleton. done.
      + eapply writes_trans; [|eapply writes_trans]; (eapply writes_mono; [|eassumption]); set_solver.
  Qed.

  Lemma rotate_inv1 vs : rotate_right (rotate_left vs) = vs.
  Proof. destruct vs as [|v vs]; [done|]. by rewrite /rotate_right /= rev_app_distr /= rev_app_distr rev_involutive. Qed.
  Lemma rotate_inv2 vs : rotate_left (rotate_right vs) = vs.
  Proof.
    destruct vs as [|v vs] using rev_ind; [done|].
    by rewrite /rotate_right rev_app_distr /= rev_app_distr rev_involutive.
  Qed.
  Lemma inverse_ok ls m vs :
    NoDup ls → var_holds m ls vs →
    ∃ m', (swap_vars ls ;;; swapr_vars ls) m = Ok tt m' ∧ var_holds m' ls vs ∧ only_writes ls m m'.
  Proof.
    intros Hd Hh. destruct (swap_ok ls m vs Hd Hh) as (m1 & E1 & Hh1 & W1).
    destruct (swapr_ok ls m1 _ Hd Hh1) as (m2 & E2 & Hh2 & W2). exists m2.
    rewrite /bind E1 E2. split; [done|]. split; [by rewrite rotate_inv1 in Hh2|]. by eapply writes_trans.
  Qed.
  Lemma inverse'_ok ls m vs :
    NoDup ls → var_holds m ls vs →
    ∃ m', (swapr_vars ls ;;; swap_vars ls) m = Ok tt m' ∧ var_holds m' ls vs ∧ only_writes ls m m'.
  Proof.
    intros Hd Hh. destruct (swapr_ok ls m vs Hd Hh) as (m1 & E1 & Hh1 & W1).
    destruct (swap_ok ls m1 _ Hd Hh1) as (m2 & E2 & Hh2 & W2). exists m2.
    rewrite /bind E1 E2. split; [done|]. split; [by rewrite rotate_inv2 in Hh2|]. by eapply writes_trans.
  Qed.
  Lemma two_ok m x y v w :
    x ≠ y → blk m !! x = Some (Some v) → blk m !! y = Some (Some w) →
    (∃ m', swap_vars [x; y] m = Ok tt m' ∧ blk m' = <[x := Some w]> (<[y := Some v]> (blk m))) ∧
    (∃ m', swapr_vars [x; y] m = Ok tt m' ∧ blk m' = <[x := Some w]> (<[y := Some v]> (blk m))).
  Proof.
    intros Hne Hx Hy.
    assert (NoDup [x; y]) as Hd by (repeat constructor; set_solver).
    assert (var_holds m [x; y] [v; w]) as Hh by by repeat constructor.
    assert (∀ m', var_holds m' [x; y] [w; v] → only_writes [x; y] m m' → blk m' = <[x := Some w]> (<[y := Some v]> (blk m))) as Hfin.
    { intros m' Hh' [Hw _]. inversion Hh' as [|? ? ? ? Hx' Hn]; subst. inversion Hn as [|? ? ? ? Hy' _]; subst.
      apply map_eq. intros l. destruct (decide (l = x)) as [->|]; [by rewrite lookup_insert|].
      rewrite lookup_insert_ne //. destruct (decide (l = y)) as [->|]; [by rewrite lookup_insert|].
      rewrite lookup_insert_ne //. apply Hw. set_solver. }
    split.
    - destruct (swap_ok _ _ _ Hd Hh) as (m' & E & Hh' & Hw). exists m'. split; [done|]. by apply Hfin.
    - destruct (swapr_ok _ _ _ Hd Hh) as (m' & E & Hh' & Hw). exists m'. split; [done|]. by apply Hfin.
  Qed.
  Lemma small_ok m ls vs : length ls ≤ 1 → var_holds m ls vs →
    ∃ m1 m2, swap_vars ls m = Ok tt m1 ∧ swapr_vars ls m = Ok tt m2 ∧ blk m1 = blk m ∧ blk m2 = blk m.
  Proof.
    destruct ls as [|x [|]]; simpl; intros Hl Hh; [by exists m, m| |lia].
    inversion Hh as [|? v ? ? Hx Hn]; subst. inversion Hn; subst.
    exists (Mem (<[x := Some v]> (<[x := None]> (blk m))) (nxt m) (aorc m) (corc m)), m. split.
    - unfold swap_vars, nary_swap, bind. rewrite (move_ok _ _ _ Hx). cbn [fold_left_wrap]. unfold var_assign.
      rewrite (store_ok _ _ None) //= lookup_insert //.
    - split; [done|]. rewrite /= insert_insert insert_id //.
  Qed.
End swap.
