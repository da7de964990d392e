(** Separation-logic specifications of the tree model. *)
From iris.proofmode Require Import tactics.
From Verif Require Import SLTac Hist HistProofs ClientProofs ModelTree SpecTree TreeFacts.

Section proofs.
  Context {X K : Type} (key : X → K) (comp : K → K → bool) (Hsw : strict_weak comp).
  Context (eqn : option (K → K → bool)).
  Context (md : mode) (Hmc : mC md = false).
  Implicit Types (t l r : tree X) (zs : list (frame X)) (R : exn → hprop (tcell X)).

  (** The nodes of [t], hanging below [p]. *)
  Fixpoint tseg (p : option loc) t : hprop (tcell X) :=
    match t with
    | E => emp
    | T n x c l r =>
        n ↦ TNode (Some x) (troot l) (troot r) p c ∗ tseg (Some n) l ∗ tseg (Some n) r
    end%I.
  (** Everything else, the pointer at the position [zs] being [v]. *)
  Fixpoint zctx (this : loc) zs (v b : option loc) (k : nat) : hprop (tcell X) :=
    match zs with
    | [] => this ↦ THead v b k
    | Lft n x c r :: zs =>
        n ↦ TNode (Some x) v (troot r) (parent zs) c ∗ tseg (Some n) r ∗ zctx this zs (Some n) b k
    | Rgt n x c l :: zs =>
        n ↦ TNode (Some x) (troot l) v (parent zs) c ∗ tseg (Some n) l ∗ zctx this zs (Some n) b k
    end%I.
  Definition W (this : loc) zs t (b : option loc) (k : nat) : hprop (tcell X) :=
    (zctx this zs (troot t) b k ∗ tseg (parent zs) t)%I.

  Lemma W_lft this n x c r zs l b k :
    W this (Lft n x c r :: zs) l b k ⊣⊢ W this zs (T n x c l r) b k.
  Proof. rewrite /W /=. iSplit; iIntros "H"; [iDestruct "H" as "(($&$&$)&$)"|iDestruct "H" as "($&($&$&$))"]. Qed.
  Lemma W_rgt this n x c l zs r b k :
    W this (Rgt n x c l :: zs) r b k ⊣⊢ W this zs (T n x c l r) b k.
  Proof. rewrite /W /=. iSplit; iIntros "H"; [iDestruct "H" as "(($&$&$)&$)"|iDestruct "H" as "($&($&$&$))"]. Qed.
  Lemma W_fill this zs t b k : W this zs t b k ⊣⊢ W this [] (fill zs t) b k.
  Proof.
    revert t. induction zs as [|[n x c r|n x c l] zs IH]; intros t; [done|..].
    - by rewrite W_lft IH.
    - by rewrite W_rgt IH.
  Qed.

  (** ** Fields *)
  Lemma wp_rd_l n x a b p c Q R :
    n ↦ TNode (Some x) a b p c -∗ (n ↦ TNode (Some x) a b p c -∗ Q a) -∗ wp md (rd (PL n)) Q R.
  Proof. iIntros "H HQ". rewrite /rd. wstep wp_load' "H". wret. by iApply "HQ". Qed.
  Lemma wp_rd_r n x a b p c Q R :
    n ↦ TNode (Some x) a b p c -∗ (n ↦ TNode (Some x) a b p c -∗ Q b) -∗ wp md (rd (PR n)) Q R.
  Proof. iIntros "H HQ". rewrite /rd. wstep wp_load' "H". wret. by iApply "HQ". Qed.
  Lemma wp_rd_p n x a b p c Q R :
    n ↦ TNode (Some x) a b p c -∗ (n ↦ TNode (Some x) a b p c -∗ Q p) -∗ wp md (rd (PP n)) Q R.
  Proof. iIntros "H HQ". rewrite /rd. wstep wp_load' "H". wret. by iApply "HQ". Qed.
  Lemma wp_wr_l n x a b p c v Q R :
    n ↦ TNode (Some x) a b p c -∗ (n ↦ TNode (Some x) v b p c -∗ Q tt) -∗ wp md (wr (PL n) v) Q R.
  Proof. iIntros "H HQ". rewrite /wr. wstep wp_load' "H". by iApply (wp_store' with "H"). Qed.
  Lemma wp_wr_r n x a b p c v Q R :
    n ↦ TNode (Some x) a b p c -∗ (n ↦ TNode (Some x) a v p c -∗ Q tt) -∗ wp md (wr (PR n) v) Q R.
  Proof. iIntros "H HQ". rewrite /wr. wstep wp_load' "H". by iApply (wp_store' with "H"). Qed.
  Lemma wp_wr_p n x a b p c v Q R :
    n ↦ TNode (Some x) a b p c -∗ (n ↦ TNode (Some x) a b v c -∗ Q tt) -∗ wp md (wr (PP n) v) Q R.
  Proof. iIntros "H HQ". rewrite /wr. wstep wp_load' "H". by iApply (wp_store' with "H"). Qed.
  Lemma wp_rd_ctx this zs v b k Q R :
    zctx this zs v b k -∗ (zctx this zs v b k -∗ Q v) -∗ wp md (rd (at_pos this zs)) Q R.
  Proof.
    iIntros "H HQ". destruct zs as [|[n x c r|n x c l] zs]; simpl.
    - wstep wp_load' "H". wret. by iApply "HQ".
    - iDestruct "H" as "[H G]". wstep wp_load' "H". wret. iApply "HQ". iFrame.
    - iDestruct "H" as "[H G]". wstep wp_load' "H". wret. iApply "HQ". iFrame.
  Qed.
  Lemma wp_wr_ctx this zs v b k v' Q R :
    zctx this zs v b k -∗ (zctx this zs v' b k -∗ Q tt) -∗ wp md (wr (at_pos this zs) v') Q R.
  Proof.
    iIntros "H HQ". destruct zs as [|[n x c r|n x c l] zs]; simpl.
    - wstep wp_load' "H". by iApply (wp_store' with "H").
    - iDestruct "H" as "[H G]". wstep wp_load' "H". iApply (wp_store' with "H"). iIntros "H". iApply "HQ". iFrame.
    - iDestruct "H" as "[H G]". wstep wp_load' "H". iApply (wp_store' with "H"). iIntros "H". iApply "HQ". iFrame.
  Qed.
  Lemma wp_rd_pos this zs t b k Q R :
    W this zs t b k -∗ (W this zs t b k -∗ Q (troot t)) -∗ wp md (rd (at_pos this zs)) Q R.
  Proof. iIntros "[H G] HQ". iApply (wp_rd_ctx with "H"). iIntros "H". iApply "HQ". iFrame. Qed.
  Lemma wp_node n Q R : Q n -∗ wp md (node (X:=X) (Some n)) Q R.
  Proof. iIntros "HQ". by wret. Qed.

  Lemma wp_W_l this zs n x c l r b k Q R :
    W this zs (T n x c l r) b k -∗ (W this zs (T n x c l r) b k -∗ Q (troot l)) -∗ wp md (rd (PL n)) Q R.
  Proof. iIntros "(H & Hn & G) HQ". iApply (wp_rd_l with "Hn"). iIntros "Hn". iApply "HQ". iFrame. Qed.
  Lemma wp_W_r this zs n x c l r b k Q R :
    W this zs (T n x c l r) b k -∗ (W this zs (T n x c l r) b k -∗ Q (troot r)) -∗ wp md (rd (PR n)) Q R.
  Proof. iIntros "(H & Hn & G) HQ". iApply (wp_rd_r with "Hn"). iIntros "Hn". iApply "HQ". iFrame. Qed.
  Lemma wp_W_p this zs n x c l r b k Q R :
    W this zs (T n x c l r) b k -∗ (W this zs (T n x c l r) b k -∗ Q (parent zs)) -∗ wp md (rd (PP n)) Q R.
  Proof. iIntros "(H & Hn & G) HQ". iApply (wp_rd_p with "Hn"). iIntros "Hn". iApply "HQ". iFrame. Qed.
  Lemma wp_W_elem this zs n x c l r b k Q R :
    W this zs (T n x c l r) b k -∗ (W this zs (T n x c l r) b k -∗ Q x) -∗ wp md (t_elem n) Q R.
  Proof.
    iIntros "(H & Hn & G) HQ". rewrite /t_elem. wstep wp_load' "Hn". wret. iApply "HQ". iFrame.
  Qed.
  Lemma wp_W_color this zs n x c l r b k Q R :
    W this zs (T n x c l r) b k -∗ (W this zs (T n x c l r) b k -∗ Q c) -∗ wp md (t_color n) Q R.
  Proof.
    iIntros "(H & Hn & G) HQ". rewrite /t_color. wstep wp_load' "Hn". wret. iApply "HQ". iFrame.
  Qed.
  Lemma wp_W_paint this zs n x c c' l r b k Q R :
    W this zs (T n x c l r) b k -∗ (W this zs (T n x c' l r) b k -∗ Q tt) -∗ wp md (t_paint n c') Q R.
  Proof.
    iIntros "(H & Hn & G) HQ". rewrite /t_paint. wstep wp_load' "Hn". iApply (wp_store' with "Hn").
    iIntros "Hn". iApply "HQ". iFrame.
  Qed.
  Lemma wp_t_bgn this zs t b k Q R :
    W this zs t b k -∗ (W this zs t b k -∗ Q b) -∗ wp md (t_bgn this) Q R.
  Proof.
    iIntros "H HQ". rewrite !(W_fill this zs t). iDestruct "H" as "[H G]". rewrite /t_bgn. wstep wp_load' "H". wret.
    iApply "HQ". iFrame.
  Qed.
  Lemma wp_t_set_bgn this zs t b b' k Q R :
    W this zs t b k -∗ (W this zs t b' k -∗ Q tt) -∗ wp md (t_set_bgn this b') Q R.
  Proof.
    iIntros "H HQ". rewrite !(W_fill this zs t). iDestruct "H" as "[H G]". rewrite /t_set_bgn. wstep wp_load' "H".
    iApply (wp_store' with "H"). iIntros "H". iApply "HQ". iFrame.
  Qed.
  Lemma wp_t_size this zs t b k Q R :
    W this zs t b k -∗ (W this zs t b k -∗ Q k) -∗ wp md (t_size this) Q R.
  Proof.
    iIntros "H HQ". rewrite !(W_fill this zs t). iDestruct "H" as "[H G]". rewrite /t_size. wstep wp_load' "H". wret.
    iApply "HQ". iFrame.
  Qed.
  Lemma wp_t_set_size this zs t b k k' Q R :
    W this zs t b k -∗ (W this zs t b k' -∗ Q tt) -∗ wp md (t_set_size this k') Q R.
  Proof.
    iIntros "H HQ". rewrite !(W_fill this zs t). iDestruct "H" as "[H G]". rewrite /t_set_size. wstep wp_load' "H".
    iApply (wp_store' with "H"). iIntros "H". iApply "HQ". iFrame.
  Qed.

  Local Arguments rd : simpl never.
  Local Arguments wr : simpl never.
  Lemma wp_rd_local v Q R : Q v -∗ wp md (rd (X:=X) (PLocal v)) Q R.
  Proof. iIntros "HQ". rewrite /rd. by wret. Qed.
  Lemma wp_wr_local v v' Q R : Q tt -∗ wp md (wr (X:=X) (PLocal v) v') Q R.
  Proof. iIntros "HQ". rewrite /wr. by wret. Qed.

  (** ** Rotations *)
  Lemma wp_rotate_left this zs n x c l rn rx rc rl rr b k Q R :
    W this zs (T n x c l (T rn rx rc rl rr)) b k -∗
    (W this zs (T rn rx rc (T n x c l rl) rr) b k -∗ Q tt) -∗
    wp md (t_rotate_left (at_pos this zs)) Q R.
  Proof.
    iIntros "(H & Hn & Hl & Hrn & Hrl & Hrr) HQ". rewrite /t_rotate_left.
    wstep wp_rd_ctx "H". wbind. iApply wp_node. wstep wp_rd_r "Hn". wbind. iApply wp_node.
    wstep wp_rd_l "Hrn". rewrite /nary_swap. cbn [fold_left_wrap].
    wstep wp_rd_ctx "H". wstep wp_rd_r "Hn". wstep wp_wr_ctx "H".
    wstep wp_rd_l "Hrn". wstep wp_wr_r "Hn". wstep wp_rd_p "Hrn". wstep wp_wr_l "Hrn".
    wstep wp_rd_p "Hn". wstep wp_wr_p "Hrn".
    destruct rl as [|q qx qc ql qr]; simpl.
    - wbind. iApply wp_rd_local. wstep wp_wr_p "Hn". iApply wp_wr_local.
      iApply "HQ". rewrite /W /=. iFrame.
    - iDestruct "Hrl" as "(Hq & Hql & Hqr)". wstep wp_rd_p "Hq". wstep wp_wr_p "Hn".
      iApply (wp_wr_p with "Hq"). iIntros "Hq". iApply "HQ". rewrite /W /=. iFrame.
  Qed.
  Lemma wp_rotate_right this zs n x c ln lx lc ll lr r b k Q R :
    W this zs (T n x c (T ln lx lc ll lr) r) b k -∗
    (W this zs (T ln lx lc ll (T n x c lr r)) b k -∗ Q tt) -∗
    wp md (t_rotate_right (at_pos this zs)) Q R.
  Proof.
    iIntros "(H & Hn & (Hln & Hll & Hlr) & Hr) HQ". rewrite /t_rotate_right.
    wstep wp_rd_ctx "H". wbind. iApply wp_node. wstep wp_rd_l "Hn". wbind. iApply wp_node.
    wstep wp_rd_r "Hln". rewrite /nary_swap. cbn [fold_left_wrap].
    wstep wp_rd_ctx "H". wstep wp_rd_l "Hn". wstep wp_wr_ctx "H".
    wstep wp_rd_r "Hln". wstep wp_wr_l "Hn". wstep wp_rd_p "Hln". wstep wp_wr_r "Hln".
    wstep wp_rd_p "Hn". wstep wp_wr_p "Hln".
    destruct lr as [|q qx qc ql qr]; simpl.
    - wbind. iApply wp_rd_local. wstep wp_wr_p "Hn". iApply wp_wr_local.
      iApply "HQ". rewrite /W /=. iFrame.
    - iDestruct "Hlr" as "(Hq & Hql & Hqr)". wstep wp_rd_p "Hq". wstep wp_wr_p "Hn".
      iApply (wp_wr_p with "Hq"). iIntros "Hq". iApply "HQ". rewrite /W /=. iFrame.
  Qed.

  (** ** Rebalancing *)
  Definition tred t : bool := bool_decide (tcolor t = Red).
  Definition lft t : tree X := match t with E => E | T _ _ _ l _ => l end.
  Definition rgt t : tree X := match t with E => E | T _ _ _ _ r => r end.
  Lemma wp_is_red this zs t b k Q R :
    W this zs t b k -∗ (W this zs t b k -∗ Q (tred t)) -∗ wp md (t_is_red (troot t)) Q R.
  Proof.
    iIntros "H HQ". destruct t as [|n x c l r]; simpl; [wret; by iApply "HQ"|].
    wstep wp_W_color "H". wret. by iApply "HQ".
  Qed.
  Lemma wp_rr_ll this zs n x c l r b k Q R :
    W this zs (T n x c l r) b k -∗ (W this zs (T n x c l r) b k -∗ Q (tred l && tred (lft l))) -∗
    wp md (t_red_red PL PL n) Q R.
  Proof.
    iIntros "H HQ". rewrite /t_red_red. wstep wp_W_l "H". wbind. rewrite -W_lft.
    iApply (wp_is_red with "H"). iIntros "H". destruct l as [|ln lx [] ll lr]; simpl.
    - wret. by iApply "HQ".
    - wret. wbind. iApply (wp_W_l with "H"). iIntros "H". rewrite -W_lft.
      iApply (wp_is_red with "H"). iIntros "H". rewrite W_lft. by iApply "HQ".
    - wret. by iApply "HQ".
  Qed.
  Lemma wp_rr_lr this zs n x c l r b k Q R :
    W this zs (T n x c l r) b k -∗ (W this zs (T n x c l r) b k -∗ Q (tred l && tred (rgt l))) -∗
    wp md (t_red_red PL PR n) Q R.
  Proof.
    iIntros "H HQ". rewrite /t_red_red. wstep wp_W_l "H". wbind. rewrite -W_lft.
    iApply (wp_is_red with "H"). iIntros "H". destruct l as [|ln lx [] ll lr]; simpl.
    - wret. by iApply "HQ".
    - wret. wbind. iApply (wp_W_r with "H"). iIntros "H". rewrite -W_rgt.
      iApply (wp_is_red with "H"). iIntros "H". rewrite W_rgt. by iApply "HQ".
    - wret. by iApply "HQ".
  Qed.
  Lemma wp_rr_rl this zs n x c l r b k Q R :
    W this zs (T n x c l r) b k -∗ (W this zs (T n x c l r) b k -∗ Q (tred r && tred (lft r))) -∗
    wp md (t_red_red PR PL n) Q R.
  Proof.
    iIntros "H HQ". rewrite /t_red_red. wstep wp_W_r "H". wbind. rewrite -W_rgt.
    iApply (wp_is_red with "H"). iIntros "H". destruct r as [|rn rx [] rl rr]; simpl.
    - wret. by iApply "HQ".
    - wret. wbind. iApply (wp_W_l with "H"). iIntros "H". rewrite -W_lft.
      iApply (wp_is_red with "H"). iIntros "H". rewrite W_lft. by iApply "HQ".
    - wret. by iApply "HQ".
  Qed.
  Lemma wp_rr_rr this zs n x c l r b k Q R :
    W this zs (T n x c l r) b k -∗ (W this zs (T n x c l r) b k -∗ Q (tred r && tred (rgt r))) -∗
    wp md (t_red_red PR PR n) Q R.
  Proof.
    iIntros "H HQ". rewrite /t_red_red. wstep wp_W_r "H". wbind. rewrite -W_rgt.
    iApply (wp_is_red with "H"). iIntros "H". destruct r as [|rn rx [] rl rr]; simpl.
    - wret. by iApply "HQ".
    - wret. wbind. iApply (wp_W_r with "H"). iIntros "H". rewrite -W_rgt.
      iApply (wp_is_red with "H"). iIntros "H". rewrite W_rgt. by iApply "HQ".
    - wret. by iApply "HQ".
  Qed.
  Lemma tred_true t : tred t = true → ∃ n x l r, t = T n x Red l r.
  Proof. destruct t as [|n x [] l r]; [done|eauto|done]. Qed.
  Lemma bal_ll n x ln lx an ax a d e r :
    bal (T n x Black (T ln lx Red (T an ax Red a d) e) r) = T ln lx Red (T an ax Black a d) (T n x Black e r).
  Proof. done. Qed.
  Lemma bal_lr n x ln lx a bn bx e d r :
    tred a = false →
    bal (T n x Black (T ln lx Red a (T bn bx Red e d)) r) = T bn bx Red (T ln lx Black a e) (T n x Black d r).
  Proof. by destruct a as [|? ? [] ? ?]. Qed.
  Lemma bal_rl n x l rn rx bn bx a d e :
    tred l && tred (lft l) = false → tred l && tred (rgt l) = false →
    bal (T n x Black l (T rn rx Red (T bn bx Red a d) e)) = T bn bx Red (T n x Black l a) (T rn rx Black d e).
  Proof. by destruct l as [|? ? [] [|? ? [] ? ?] [|? ? [] ? ?]]. Qed.
  Lemma bal_rr n x l rn rx a dn dx d e :
    tred l && tred (lft l) = false → tred l && tred (rgt l) = false → tred a = false →
    bal (T n x Black l (T rn rx Red a (T dn dx Red d e))) = T rn rx Red (T n x Black l a) (T dn dx Black d e).
  Proof.
    destruct l as [|? ? [] [|? ? [] ? ?] [|? ? [] ? ?]]; try done; by destruct a as [|? ? [] ? ?].
  Qed.
  Lemma bal_not n x l r :
    tred l && tred (lft l) = false → tred l && tred (rgt l) = false →
    tred r && tred (lft r) = false → tred r && tred (rgt r) = false →
    bal (T n x Black l r) = T n x Black l r.
  Proof.
    destruct l as [|? ? [] [|? ? [] ? ?] [|? ? [] ? ?]]; try done;
    by destruct r as [|? ? [] [|? ? [] ? ?] [|? ? [] ? ?]].
  Qed.

  Lemma wp_t_fix this zs n x c l r b k Q R :
    W this zs (T n x c l r) b k -∗
    (W this zs (bal (T n x c l r)) b k -∗ Q tt) -∗
    wp md (t_fix (at_pos this zs)) Q R.
  Proof.
    iIntros "H HQ". rewrite /t_fix. wstep wp_rd_pos "H". wbind. iApply wp_node. wstep wp_W_color "H".
    destruct (decide (c = Red)) as [->|Hc]; [wret; by iApply "HQ"|]. destruct c; [done|].
    wstep wp_rr_ll "H". destruct (tred l && tred (lft l)) eqn:Ell.
    { apply andb_true_iff in Ell as [(ln & lx & la & d & ->)%tred_true H2]. simpl in H2.
      apply tred_true in H2 as (an & ax & a & e & ->).
      wstep wp_W_l "H". wbind. iApply wp_node. rewrite -W_lft. wstep wp_W_l "H". wbind. iApply wp_node.
      rewrite -W_lft. wbind. iApply (wp_W_paint with "H"). iIntros "H". rewrite !W_lft.
      iApply (wp_rotate_right with "H"). rewrite bal_ll. iExact "HQ". }
    wstep wp_rr_lr "H". destruct (tred l && tred (rgt l)) eqn:Elr.
    { pose proof Elr as [(ln & lx & a & d & ->)%tred_true H2]%andb_true_iff. simpl in H2, Ell.
      apply tred_true in H2 as (dn & dx & e & f & ->).
      wstep wp_W_l "H". wbind. iApply wp_node. rewrite -W_lft.
      wbind. iApply (wp_W_paint with "H"). iIntros "H". wbind.
      iApply (wp_rotate_left this (Lft n x Black r :: zs) with "H"). iIntros "H".
      rewrite W_lft. iApply (wp_rotate_right with "H"). rewrite bal_lr //. }
    wstep wp_rr_rl "H". destruct (tred r && tred (lft r)) eqn:Erl.
    { apply andb_true_iff in Erl as [(rn & rx & ra & d & ->)%tred_true H2]. simpl in H2.
      apply tred_true in H2 as (dn & dx & e & f & ->).
      wstep wp_W_r "H". wbind. iApply wp_node. rewrite -W_rgt.
      wbind. iApply (wp_W_paint with "H"). iIntros "H". wbind.
      iApply (wp_rotate_right this (Rgt n x Black l :: zs) with "H"). iIntros "H".
      rewrite W_rgt. iApply (wp_rotate_left with "H"). rewrite bal_rl //. }
    wstep wp_rr_rr "H". destruct (tred r && tred (rgt r)) eqn:Err.
    { pose proof Err as [(rn & rx & a & d & ->)%tred_true H2]%andb_true_iff. simpl in H2, Erl.
      apply tred_true in H2 as (dn & dx & e & f & ->).
      wstep wp_W_r "H". wbind. iApply wp_node. rewrite -W_rgt. wstep wp_W_r "H". wbind. iApply wp_node.
      rewrite -W_rgt. wbind. iApply (wp_W_paint with "H"). iIntros "H". rewrite !W_rgt.
      iApply (wp_rotate_left with "H"). rewrite bal_rr //. }
    wret. iApply "HQ". by rewrite bal_not.
  Qed.

  (** ** Any node *)
  Lemma wp_elem_in this zs t b k m y Q R :
    (m, y) ∈ nodes (fill zs t) →
    W this zs t b k -∗ (W this zs t b k -∗ Q y) -∗ wp md (t_elem m) Q R.
  Proof.
    iIntros (Hin) "H HQ". rewrite !(W_fill this zs t).
    apply elem_of_list_split in Hin as (a1 & a2 & Ha).
    apply split_at_node in Ha as (zs' & c & l & r & -> & _).
    rewrite -!(W_fill this zs'). iApply (wp_W_elem with "H"). done.
  Qed.

  (** ** Insertion *)
  Definition newb (n : loc) (v : X) t : option loc :=
    match head (nodes t) with
    | None => Some n
    | Some (m, y) => if comp (key v) (key y) then Some n else Some m
    end.
  Lemma wp_t_attach_any this v zs k Q R :
    W this zs E (least (fill zs E)) k -∗
    ((⌜mA md = true⌝ → W this zs E (least (fill zs E)) k -∗ R BadAlloc) ∧
     (⌜mC md = true⌝ → ∀ n, zctx this zs (Some n) (least (fill zs E)) k -∗ n ↦ TRaw -∗ R CopyThrow) ∧
     (∀ n, W this zs (T n v Red E E) (newb n v (fill zs E)) (S k) -∗ Q (n, true))) -∗
    wp md (t_attach key comp this v (at_pos this zs) (parent zs)) Q R.
  Proof using.
    iIntros "H HQ". rewrite /t_attach. wbind. iApply wp_alloc. iSplit.
    { iIntros (HA). iDestruct "HQ" as "[HQ _]". by iApply "HQ". }
    iDestruct "HQ" as "[_ HQ]". iIntros (n) "Hn". iDestruct "H" as "[H _]".
    wbind. iApply (wp_wr_ctx with "H"). iIntros "H". rewrite /t_construct. wstep wp_load' "Hn".
    wbind. iApply wp_may_throw. iSplit.
    { iIntros (HC). iDestruct "HQ" as "[HQ _]". iApply ("HQ" with "[//] H Hn"). }
    wbind. iApply wp_may_throw. iSplit.
    { iIntros (HC). iDestruct "HQ" as "[HQ _]". iApply ("HQ" with "[//] H Hn"). }
    iDestruct "HQ" as "[_ HQ]".
    iApply (wp_store' with "Hn"). iIntros "Hn".
    iAssert (W this zs (T n v Red E E) (least (fill zs E)) k) with "[H Hn]" as "H".
    { rewrite /W /=. by iFrame. }
    wstep wp_t_bgn "H". rewrite /newb /least.
    destruct (head (nodes (fill zs E))) as [[m y]|] eqn:Eh; simpl.
    - wbind. iApply (wp_elem_in _ _ _ _ _ m y with "H").
      { apply head_Some_elem_of in Eh. rewrite nodes_fill in Eh. rewrite nodes_fill. set_solver +Eh. }
      iIntros "H". destruct (comp (key v) (key y)).
      + wstep wp_rd_pos "H". iApply (wp_t_set_bgn with "H"). iIntros "H". wstep wp_t_size "H".
        wbind. iApply (wp_t_set_size with "H"). iIntros "H". wret. by iApply "HQ".
      + iApply (wp_t_set_bgn with "H"). iIntros "H". wstep wp_t_size "H".
        wbind. iApply (wp_t_set_size with "H"). iIntros "H". wret. by iApply "HQ".
    - wstep wp_rd_pos "H". iApply (wp_t_set_bgn with "H"). iIntros "H". wstep wp_t_size "H".
      wbind. iApply (wp_t_set_size with "H"). iIntros "H". wret. by iApply "HQ".
  Qed.

  (** where the search for an absent key ends *)
  Fixpoint descend (k : K) t zs : list (frame X) :=
    match t with
    | E => zs
    | T n x c l r =>
        if comp k (key x) then descend k l (Lft n x c r :: zs)
        else if comp (key x) k then descend k r (Rgt n x c l :: zs) else zs
    end.
  Lemma wp_t_ins_any fuel this v zs t k Q R :
    height t < fuel →
    W this zs t (least (fill zs t)) k -∗
    match search key comp (key v) t with
    | Some (m, _) => W this zs (ins_t key comp xH v t) (least (fill zs t)) k -∗ Q (m, false)
    | None =>
        (⌜mA md = true⌝ → W this zs t (least (fill zs t)) k -∗ R BadAlloc) ∧
        (⌜mC md = true⌝ → ∀ n, zctx this (descend (key v) t zs) (Some n) (least (fill zs t)) k -∗ n ↦ TRaw -∗ R CopyThrow) ∧
        (∀ n, W this zs (ins_t key comp n v t) (newb n v (fill zs t)) (S k) -∗ Q (n, true))
    end -∗
    wp md (t_ins key comp fuel this v (at_pos this zs) (parent zs)) Q R.
  Proof using.
    revert zs t Q. induction fuel as [|fuel IH]; intros zs t Q Hf; [lia|].
    iIntros "H HQ". cbn [t_ins]. wstep wp_rd_pos "H".
    destruct t as [|n x c l r]; cbn [troot].
    { by iApply (wp_t_attach_any with "H"). }
    simpl in Hf. cbn [search ins_t descend]. wstep wp_W_elem "H". destruct (comp (key v) (key x)) eqn:E1.
    - iEval (rewrite -W_lft) in "H". wbind.
      iApply (IH (Lft n x c r :: zs) l with "H"); [lia|].
      destruct (search key comp (key v) l) as [[m y]|].
      + iIntros "H". rewrite W_lft. wbind. iApply (wp_t_fix with "H"). iIntros "H". wret. by iApply "HQ".
      + iSplit; [iDestruct "HQ" as "[HQ _]"; by rewrite W_lft|]. iDestruct "HQ" as "[_ HQ]".
        iSplit; [iDestruct "HQ" as "[$ _]"|]. iDestruct "HQ" as "[_ HQ]".
        iIntros (n') "H". rewrite W_lft. wbind. iApply (wp_t_fix with "H"). iIntros "H". wret. by iApply "HQ".
    - destruct (comp (key x) (key v)) eqn:E2.
      + iEval (rewrite -W_rgt) in "H". wbind.
        iApply (IH (Rgt n x c l :: zs) r with "H"); [lia|].
        destruct (search key comp (key v) r) as [[m y]|].
        * iIntros "H". rewrite W_rgt. wbind. iApply (wp_t_fix with "H"). iIntros "H". wret. by iApply "HQ".
        * iSplit; [iDestruct "HQ" as "[HQ _]"; by rewrite W_rgt|]. iDestruct "HQ" as "[_ HQ]".
          iSplit; [iDestruct "HQ" as "[$ _]"|]. iDestruct "HQ" as "[_ HQ]".
          iIntros (n') "H". rewrite W_rgt. wbind. iApply (wp_t_fix with "H"). iIntros "H". wret. by iApply "HQ".
      + wret. by iApply "HQ".
  Qed.

  (** ** Whole objects *)
  Definition tobj (this : loc) t : hprop (tcell X) := W this [] t (least t) (length (nodes t)).
  Definition tgood t : Prop := increasing key comp (nodes t).*2 ∧ red_black t.
  Definition tset (this : loc) (xs : list X) : hprop (tcell X) :=
    (∃ t, ⌞tgood t ∧ (nodes t).*2 = xs⌟ ∗ tobj this t)%I.

  Lemma sz_tseg p t : tseg p t ⊢ sz (length (nodes t)).
  Proof.
    revert p. induction t as [|n x c l IHl r IHr]; intros p; simpl; [apply sz_0|].
    rewrite IHl IHr sz_pt app_length /= (sz_sep (length (nodes l))) (sz_sep 1).
    apply sz_mono. lia.
  Qed.
  Lemma sz_W this t b k : W this [] t b k ⊢ sz (S (length (nodes t))).
  Proof. rewrite /W sz_tseg /= sz_pt. apply (sz_sep 1). Qed.
  Lemma sz_height this t b k : W this [] t b k ⊢ sz (S (height t)).
  Proof. rewrite sz_W. apply sz_mono. pose proof (height_nodes t). lia. Qed.

  Definition insert_t (n : loc) (v : X) t : tree X := paint_black (ins_t key comp n v t).
  Lemma insert_good n v t : tgood t → search key comp (key v) t = None → tgood (insert_t n v t).
  Proof using Hsw.
    intros [Hi [Hc [kk Hr]]%red_black_rb] Hs. split.
    - rewrite /insert_t paint_nodes. by apply ins_increasing.
    - apply red_black_rb. destruct (ins_rb key comp n v t kk Hr) as [_ Hr'].
      specialize (Hr' Hc). unfold insert_t. split; [by destruct (ins_t key comp n v t)|].
      apply (paint_nrb _ kk). by constructor.
  Qed.
  Lemma good_black t : tgood t → paint_black t = t.
  Proof. intros [_ [Hc _]]. destruct t; [done|]. simpl in *. by subst. Qed.
  Lemma paint_least t : least (paint_black t) = least t.
  Proof. by rewrite /least paint_nodes. Qed.

  Lemma wp_t_insert_any this v t Q R :
    tgood t →
    tobj this t -∗
    match search key comp (key v) t with
    | Some (m, _) => tobj this t -∗ Q (m, false)
    | None =>
        (⌜mA md = true⌝ → tobj this t -∗ R BadAlloc) ∧
        (⌜mC md = true⌝ → ∀ n, zctx this (descend (key v) t []) (Some n) (least t) (length (nodes t)) -∗ n ↦ TRaw -∗ R CopyThrow) ∧
        (∀ n, tobj this (insert_t n v t) -∗ Q (n, true))
    end -∗
    wp md (t_insert key comp this v) Q R.
  Proof using Hsw.
    iIntros (Hg) "H HQ". rewrite /t_insert /tobj. wbind. iApply (wp_with_fuel _ _ (S (height t))).
    iSplit; [iClear "HQ"; by iApply sz_height|]. iIntros (fuel Hf).
    iApply (wp_t_ins_any fuel this v [] t with "H"); [lia|]. destruct (search key comp (key v) t) as [[m y]|] eqn:Es.
    - iIntros "H". pose proof Hg as [_ [Hc [kk Hr]]%red_black_rb].
      rewrite (ins_present key comp xH v t kk (m, y) Hr Es). simpl fill.
      wbind. iApply (wp_rd_pos this [] with "H"). iIntros "H". destruct t as [|n x c l r]; [done|].
      cbn [troot]. wbind. iApply wp_node. wbind. iApply (wp_W_paint with "H"). iIntros "H". wret.
      iApply "HQ". simpl in Hc. by subst c.
    - iSplit; [iDestruct "HQ" as "[$ _]"|]. iDestruct "HQ" as "[_ HQ]".
      iSplit; [iDestruct "HQ" as "[$ _]"|]. iDestruct "HQ" as "[_ HQ]".
      iIntros (n) "H". simpl fill. pose proof Hg as [Hi _].
      wbind. iApply (wp_rd_pos this [] with "H"). iIntros "H".
      assert (newb n v t = least (ins_t key comp n v t)) as -> by by rewrite (ins_least key comp Hsw n v t Hi Es).
      rewrite -(ins_length key comp Hsw n v t Hi Es).
      rewrite /insert_t. destruct (ins_t key comp n v t) as [|n' x c l r] eqn:En; [by apply ins_root in En|].
      cbn [troot]. wbind. iApply wp_node. wbind. iApply (wp_W_paint with "H"). iIntros "H". wret.
      iApply "HQ". by rewrite En.
  Qed.

  Lemma wp_t_insert this v t Q R :
    tgood t →
    tobj this t -∗
    ((⌜mA md = true⌝ → tobj this t -∗ R BadAlloc) ∧
     match search key comp (key v) t with
     | Some (m, _) => tobj this t -∗ Q (m, false)
     | None => ∀ n, tobj this (insert_t n v t) -∗ Q (n, true)
     end) -∗
    wp md (t_insert key comp this v) Q R.
  Proof using Hmc Hsw.
    iIntros (Hg) "H HQ". iApply (wp_t_insert_any with "H"); [done|].
    destruct (search key comp (key v) t) as [[m y]|]; [iDestruct "HQ" as "[_ $]"|].
    iSplit; [iDestruct "HQ" as "[$ _]"|]. iSplit; [iIntros (HC); congruence|]. iDestruct "HQ" as "[_ $]".
  Qed.

  (** ** Lookup *)
  Lemma wp_t_find_loop fuel this k0 zs t b k Q R :
    height t < fuel →
    W this zs t b k -∗ (W this zs t b k -∗ Q (fst <$> search key comp k0 t)) -∗
    wp md (t_find_loop key comp fuel k0 (troot t)) Q R.
  Proof.
    revert zs t. induction fuel as [|fuel IH]; intros zs t Hf; [lia|].
    iIntros "H HQ". cbn [t_find_loop]. destruct t as [|n x c l r]; cbn [troot search].
    { wret. by iApply "HQ". }
    simpl in Hf. wstep wp_W_elem "H". destruct (comp k0 (key x)).
    - wstep wp_W_l "H". iEval (rewrite -W_lft) in "H". iApply (IH with "H"); [lia|].
      rewrite W_lft. done.
    - destruct (comp (key x) k0).
      + wstep wp_W_r "H". iEval (rewrite -W_rgt) in "H". iApply (IH with "H"); [lia|].
        rewrite W_rgt. done.
      + wret. by iApply "HQ".
  Qed.
  Lemma wp_t_size_obj this t Q R :
    tobj this t -∗ (tobj this t -∗ Q (length (nodes t))) -∗ wp md (t_size this) Q R.
  Proof. apply wp_t_size. Qed.
  Lemma wp_t_empty this t Q R :
    tobj this t -∗ (tobj this t -∗ Q (length (nodes t) =? 0)) -∗ wp md (t_empty this) Q R.
  Proof. iIntros "H HQ". rewrite /t_empty. wstep wp_t_size_obj "H". wret. by iApply "HQ". Qed.
  Lemma wp_t_find this k0 t Q R :
    tobj this t -∗ (tobj this t -∗ Q (fst <$> search key comp k0 t)) -∗
    wp md (t_find key comp this k0) Q R.
  Proof.
    iIntros "H HQ". rewrite /t_find. wstep wp_t_empty "H".
    destruct (length (nodes t) =? 0) eqn:E0.
    { apply Nat.eqb_eq in E0. wret. destruct t; [|simpl in E0; rewrite app_length /= in E0; lia].
      by iApply "HQ". }
    wbind. iApply (wp_rd_pos this [] with "H"). iIntros "H".
    iApply (wp_with_fuel _ _ (S (height t))).
    iSplit; [iClear "HQ"; by iApply sz_height|]. iIntros (fuel Hf).
    iApply (wp_t_find_loop fuel this k0 [] t with "H"); [lia|]. done.
  Qed.
  Lemma wp_t_begin this t Q R :
    tobj this t -∗ (tobj this t -∗ Q (least t)) -∗ wp md (t_begin this) Q R.
  Proof. apply wp_t_bgn. Qed.
  Lemma wp_t_elem_obj this t m y Q R :
    (m, y) ∈ nodes t → tobj this t -∗ (tobj this t -∗ Q y) -∗ wp md (t_elem m) Q R.
  Proof. apply (wp_elem_in this []). Qed.

  (** ** Iteration *)
  Definition same_ok t : Prop :=
    ∀ n x m y, (n, x) ∈ nodes t → (m, y) ∈ nodes t →
    match eqn with None => True | Some e => e (key x) (key y) = bool_decide (n = m) end.
  Lemma tseg_ne this c p t : this ↦ c -∗ tseg p t -∗ ⌜this ∉ (nodes t).*1⌝.
  Proof using. clear -X.
    iIntros "Ht H". iInduction t as [|n x c' l r] "IH" forall (p); simpl; [iPureIntro; set_solver|].
    iDestruct "H" as "(Hn & Hl & Hr)". iDestruct (pt_ne with "Ht Hn") as %Hne.
    iDestruct ("IH" with "Ht Hl") as %H1. iDestruct ("IH1" with "Ht Hr") as %H2. iPureIntro.
    rewrite fmap_app fmap_cons. set_solver.
  Qed.
  Lemma tseg_disj p1 t1 p2 t2 : tseg p1 t1 -∗ tseg p2 t2 -∗ ⌜∀ q, q ∈ (nodes t1).*1 → q ∉ (nodes t2).*1⌝.
  Proof using. clear -X.
    iIntros "H1 H2". iInduction t1 as [|n x c' l r] "IH" forall (p1); simpl; [iPureIntro; set_solver|].
    iDestruct "H1" as "(Hn & Hl & Hr)". iDestruct (tseg_ne with "Hn H2") as %Hne.
    iDestruct ("IH" with "Hl H2") as %H1. iDestruct ("IH1" with "Hr H2") as %H2. iPureIntro.
    intros q. rewrite fmap_app fmap_cons elem_of_app elem_of_cons. simpl. intros [?|[->|?]]; naive_solver.
  Qed.
  Lemma tseg_nodup p t : tseg p t ⊢ ⌜NoDup (nodes t).*1⌝.
  Proof using. clear -X.
    iIntros "H". iInduction t as [|n x c l r] "IH" forall (p); simpl; [iPureIntro; constructor|].
    iDestruct "H" as "(Hn & Hl & Hr)".
    iDestruct (tseg_ne with "Hn Hl") as %?. iDestruct (tseg_ne with "Hn Hr") as %?.
    iDestruct (tseg_disj with "Hl Hr") as %?.
    iDestruct ("IH" with "Hl") as %?. iDestruct ("IH1" with "Hr") as %?. iPureIntro.
    rewrite fmap_app fmap_cons. apply NoDup_app. split; [done|]. split; [|by constructor].
    intros q. rewrite elem_of_cons. simpl. intros ? [->|?]; naive_solver.
  Qed.
  Lemma W_nodup this t b k : W this [] t b k ⊢ ⌜NoDup (this :: (nodes t).*1)⌝.
  Proof using. clear -X.
    iIntros "[H G]". simpl. iDestruct (tseg_ne with "H G") as %?. iDestruct (tseg_nodup with "G") as %?.
    iPureIntro. by constructor.
  Qed.

  Lemma increasing_split t a n x b :
    increasing key comp (nodes t).*2 → nodes t = a ++ (n, x) :: b →
    (∀ m y, (m, y) ∈ a → comp (key y) (key x) = true) ∧ (∀ m y, (m, y) ∈ b → comp (key x) (key y) = true).
  Proof using Hsw.
    intros Hi E. rewrite E fmap_app fmap_cons /= in Hi. apply (increasing_mid key comp Hsw) in Hi as (_ & _ & H1 & H2).
    rewrite !Forall_forall in H1, H2. split; intros m y Hin.
    - apply H1. apply elem_of_list_fmap. by exists (m, y).
    - apply H2. apply elem_of_list_fmap. by exists (m, y).
  Qed.
  Lemma same_ok_good t :
    iter_ok comp eqn → increasing key comp (nodes t).*2 → NoDup (nodes t).*1 → same_ok t.
  Proof using Hsw.
    intros Hok Hi Hnd n x m y Hn Hm. unfold iter_ok in Hok. destruct eqn as [e|]; [|done].
    destruct Hok as [H1 H2]. apply elem_of_list_split in Hn as (a & b & E).
    pose proof (increasing_split _ _ _ _ _ Hi E) as [Ha Hb].
    rewrite E in Hm, Hnd. rewrite fmap_app fmap_cons /= in Hnd.
    apply NoDup_app in Hnd as (_ & Hd1 & [Hd2 _]%NoDup_cons).
    apply elem_of_app in Hm as [Hm|[Hm|Hm]%elem_of_cons].
    - assert (m ∈ a.*1) by (apply elem_of_list_fmap; by exists (m, y)). apply Ha in Hm.
      rewrite bool_decide_false; [|intros ->; eapply Hd1; [done|apply elem_of_list_here]].
      destruct (e (key x) (key y)) eqn:Ee; [|done]. apply H2 in Ee as [_ ?]. congruence.
    - simplify_eq. by rewrite bool_decide_true // H1.
    - assert (m ∈ b.*1) by (apply elem_of_list_fmap; by exists (m, y)). apply Hb in Hm.
      rewrite bool_decide_false; [|intros ->; done].
      destruct (e (key x) (key y)) eqn:Ee; [|done]. apply H2 in Ee as [? _]. congruence.
  Qed.

  Lemma wp_t_same this zs t b k n x m y Q R :
    same_ok (fill zs t) → (n, x) ∈ nodes (fill zs t) → (m, y) ∈ nodes (fill zs t) →
    W this zs t b k -∗ (W this zs t b k -∗ Q (bool_decide (n = m))) -∗
    wp md (t_same key eqn n m) Q R.
  Proof.
    iIntros (Hs Hn Hm) "H HQ". rewrite /t_same. specialize (Hs n x m y Hn Hm). destruct eqn as [e|].
    - wbind. iApply (wp_elem_in with "H"); [done|]. iIntros "H".
      wbind. iApply (wp_elem_in with "H"); [done|]. iIntros "H". wret. rewrite Hs. by iApply "HQ".
    - wret. by iApply "HQ".
  Qed.
  Lemma W_fill_nodup this zs t b k : W this zs t b k ⊢ ⌜NoDup (nodes (fill zs t)).*1⌝.
  Proof using. clear -X. rewrite W_fill. iIntros "H". iDestruct (W_nodup with "H") as %[_ ?]%NoDup_cons. done. Qed.
  Lemma root_in n x c l r zs : (n, x) ∈ nodes (fill zs (T n x c l r)).
  Proof using. clear -X. rewrite nodes_fill /=. set_solver. Qed.
  Lemma wp_t_climb fuel this zs n x c l r b k Q R :
    length zs < fuel → same_ok (fill zs (T n x c l r)) →
    W this zs (T n x c l r) b k -∗
    (W this zs (T n x c l r) b k -∗ Q (fst <$> head (rights zs))) -∗
    wp md (t_climb key eqn fuel n (parent zs)) Q R.
  Proof using.
    revert zs n x c l r. induction fuel as [|fuel IH]; intros zs n x c l r Hf Hs; [lia|].
    iIntros "H HQ". cbn [t_climb]. destruct zs as [|[q qx qc qr|q qx qc ql] zs]; cbn [parent].
    { wret. by iApply "HQ". }
    - rewrite W_lft. wstep wp_W_r "H". destruct qr as [|m mx mc ml mr]; cbn [troot].
      { wret. by iApply "HQ". }
      iDestruct (W_fill_nodup with "H") as %Hnd.
      wbind. iApply (wp_t_same _ _ _ _ _ n x m mx with "H").
      + exact Hs.
      + rewrite nodes_fill /=. set_solver +.
      + rewrite nodes_fill /=. set_solver +.
      + iIntros "H". rewrite bool_decide_false; [wret; by iApply "HQ"|].
        intros ->. rewrite nodes_fill /= in Hnd.
        rewrite !fmap_app !fmap_cons !fmap_app !fmap_cons /= in Hnd.
        apply NoDup_app in Hnd as (_ & _ & Hnd). rewrite -!assoc_L in Hnd.
        apply NoDup_app in Hnd as (_ & _ & Hnd). apply NoDup_cons in Hnd as [Hnd _]. set_solver +Hnd.
    - rewrite W_rgt. wstep wp_W_r "H". cbn [troot].
      wbind. iApply (wp_t_same _ _ _ _ _ n x n x with "H").
      + exact Hs.
      + rewrite nodes_fill /=. set_solver +.
      + rewrite nodes_fill /=. set_solver +.
      + iIntros "H". rewrite bool_decide_true //. wstep wp_W_p "H".
        iApply (IH with "H"); [simpl in Hf; lia|exact Hs|]. done.
  Qed.
  Lemma wp_t_down fuel this zs n x c l r b k Q R :
    height (T n x c l r) ≤ fuel →
    W this zs (T n x c l r) b k -∗
    (∀ m, ⌜least (T n x c l r) = Some m⌝ → W this zs (T n x c l r) b k -∗ Q m) -∗
    wp md (t_down fuel n) Q R.
  Proof using.
    revert zs n x c l r. induction fuel as [|fuel IH]; intros zs n x c l r Hf; simpl in Hf; [lia|].
    iIntros "H HQ". cbn [t_down]. wstep wp_W_l "H". destruct l as [|ln lx lc ll lr]; cbn [troot].
    { wret. by iApply ("HQ" with "[//] H"). }
    iEval (rewrite -W_lft) in "H". iApply (IH with "H"); [simpl in Hf |- *; lia|]. iIntros (m Hm) "H". rewrite W_lft.
    iApply ("HQ" with "[%] H"). rewrite /least in Hm |- *. simpl in Hm |- *. by destruct (nodes ll).
  Qed.
  Lemma length_zs zs t : length zs ≤ length (nodes (fill zs t)).
  Proof using. clear -X.
    revert t. induction zs as [|[n x c r|n x c l] zs IH]; intros t; simpl; [lia|..];
      rewrite nodes_fill; repeat (simpl; rewrite app_length); specialize (IH E);
      rewrite nodes_fill in IH; repeat (simpl in IH; rewrite app_length in IH); simpl in *; lia.
  Qed.
  Lemma height_fill zs t : height t ≤ length (nodes (fill zs t)).
  Proof using. clear -X. rewrite nodes_fill !app_length. pose proof (height_nodes t). lia. Qed.

  Lemma wp_t_succ this t a n x b' b k Q R :
    same_ok t → nodes t = a ++ (n, x) :: b' →
    W this [] t b k -∗ (W this [] t b k -∗ Q (fst <$> head b')) -∗
    wp md (t_succ key eqn (Some n)) Q R.
  Proof using.
    iIntros (Hs E) "H HQ". rewrite /t_succ. wbind. iApply wp_node.
    apply split_at_node in E as (zs & c & l & r & -> & <-). rewrite -!(W_fill this zs).
    wstep wp_W_r "H". destruct r as [|m mx mc ml mr]; cbn [troot].
    - wstep wp_W_p "H". iApply (wp_with_fuel _ _ (length zs)).
      iSplit.
      { iClear "HQ". rewrite W_fill sz_W. iApply (sz_mono with "H").
        pose proof (length_zs zs (T n x c l E)). lia. }
      iIntros (fuel Hf). iApply (wp_t_climb with "H"); [done..|]. done.
    - iEval (rewrite -W_rgt) in "H". wbind. iApply (wp_with_fuel _ _ (height (T m mx mc ml mr))).
      iSplit.
      { iClear "HQ". rewrite W_fill sz_W. iApply (sz_mono with "H").
        pose proof (height_fill (Rgt n x c l :: zs) (T m mx mc ml mr)). lia. }
      iIntros (fuel Hf). iApply (wp_t_down with "H"); [lia|]. iIntros (m' Hm) "H". rewrite W_rgt. wret.
      rewrite /least in Hm. destruct (nodes (T m mx mc ml mr)) as [|[? ?] ?]; [done|]. simpl in Hm |- *. rewrite Hm.
      by iApply "HQ".
  Qed.
  Lemma wp_t_value this t m y Q R :
    (m, y) ∈ nodes t → tobj this t -∗ (tobj this t -∗ Q y) -∗ wp md (t_value (Some m)) Q R.
  Proof. iIntros (Hm) "H HQ". rewrite /t_value. wbind. iApply wp_node. by iApply (wp_t_elem_obj with "H"). Qed.
  Lemma wp_t_walk fuel this t a b' Q R :
    length b' < fuel → same_ok t → nodes t = a ++ b' →
    tobj this t -∗ (tobj this t -∗ Q b'.*2) -∗
    wp md (t_walk key eqn fuel (fst <$> head b')) Q R.
  Proof using.
    revert a b' Q. induction fuel as [|fuel IH]; intros a b' Q Hf Hs E; [lia|].
    iIntros "H HQ". cbn [t_walk]. destruct b' as [|[n x] b'].
    { destruct (decide _); [|done]. wret. by iApply "HQ". }
    destruct (decide _); [done|]. wbind. iApply (wp_t_value _ _ n x with "H"); [rewrite E; set_solver +|]. iIntros "H".
    wbind. iApply (wp_t_succ _ _ _ n x b' with "H"); [done..|]. iIntros "H".
    wbind. iApply (IH (a ++ [(n, x)]) b' with "H").
    - simpl in Hf. lia.
    - done.
    - by rewrite -assoc_L.
    - iIntros "H". wret. by iApply "HQ".
  Qed.
  Lemma wp_t_iterate this t Q R :
    same_ok t → tobj this t -∗ (tobj this t -∗ Q (nodes t).*2) -∗ wp md (t_iterate key eqn this) Q R.
  Proof using.
    iIntros (Hs) "H HQ". rewrite /t_iterate. wstep wp_t_begin "H". iApply (wp_with_fuel _ _ (S (length (nodes t)))).
    iSplit; [iClear "HQ"; by iApply sz_W|]. iIntros (fuel Hf).
    iApply (wp_t_walk fuel this t [] (nodes t) with "H"); [lia|done..].
  Qed.

  (** ** Replacing an element *)
  Lemma W_put this zs t b k k0 n y :
    search key comp k0 t = Some (n, y) →
    W this zs t b k ⊢ ∃ ln rn p c, n ↦ TNode (Some y) ln rn p c ∗
      (∀ x', n ↦ TNode (Some x') ln rn p c -∗ W this zs (put key comp k0 x' t) b k).
  Proof using.
    revert zs. induction t as [|m x c l IHl r IHr]; intros zs; simpl; [done|].
    destruct (comp k0 (key x)); [|destruct (comp (key x) k0)].
    - intros Hs. rewrite -W_lft (IHl _ Hs). iIntros "(% & % & % & % & Hn & H)". iExists _, _, _, _. iFrame.
      iIntros (x') "Hn". rewrite -W_lft. by iApply "H".
    - intros Hs. rewrite -W_rgt (IHr _ Hs). iIntros "(% & % & % & % & Hn & H)". iExists _, _, _, _. iFrame.
      iIntros (x') "Hn". rewrite -W_rgt. by iApply "H".
    - intros [= -> ->]. iIntros "(H & Hn & G)". iExists _, _, _, _. iFrame "Hn". iIntros (x') "Hn".
      rewrite /W /=. iFrame.
  Qed.
  Lemma wp_t_set this t k0 n y x' Q R :
    search key comp k0 t = Some (n, y) →
    tobj this t -∗ (tobj this (put key comp k0 x' t) -∗ Q tt) -∗ wp md (t_set (Some n) x') Q R.
  Proof using Hmc.
    iIntros (Hs) "H HQ". rewrite /tobj /t_set. wbind. iApply wp_node.
    rewrite (put_least key comp k0 x' t n y Hs) (put_length key comp k0 x' t n y Hs).
    iDestruct (W_put _ _ _ _ _ _ _ _ Hs with "H") as (l r p c) "[Hn H]". wstep wp_load' "Hn".
    wbind. iApply (wp_may_throw' _ _ _ Hmc). iApply (wp_store' with "Hn"). iIntros "Hn".
    iApply "HQ". by iApply "H".
  Qed.

  (** ** Destruction *)
  Lemma wp_t_destroy n x ln rn p c Q R :
    n ↦ TNode (Some x) ln rn p c -∗ (n ↦ TNode None ln rn p c -∗ Q tt) -∗ wp md (t_destroy (X:=X) n) Q R.
  Proof. iIntros "H HQ". rewrite /t_destroy. wstep wp_load' "H". by iApply (wp_store' with "H"). Qed.
  Lemma wp_t_dealloc n ln rn p c Q R :
    n ↦ TNode None ln rn p c -∗ (emp -∗ Q tt) -∗ wp md (t_dealloc (X:=X) n) Q R.
  Proof. iIntros "H HQ". rewrite /t_dealloc. wstep wp_load' "H". by iApply (wp_free' with "H"). Qed.
  Lemma wp_t_dd fuel p t Q R :
    height t < fuel → tseg p t -∗ (emp -∗ Q tt) -∗ wp md (t_dd fuel (troot t)) Q R.
  Proof using.
    revert p t Q. induction fuel as [|fuel IH]; intros p t Q Hf; [lia|].
    iIntros "H HQ". cbn [t_dd]. destruct t as [|n x c l r]; cbn [troot].
    { wret. by iApply "HQ". }
    simpl in Hf. iDestruct "H" as "(Hn & Hl & Hr)". wstep wp_rd_l "Hn".
    wbind. iApply (IH with "Hl"); [lia|]. iIntros "_". wstep wp_rd_r "Hn".
    wbind. iApply (IH with "Hr"); [lia|]. iIntros "_".
    wbind. iApply (wp_t_destroy with "Hn"). iIntros "Hn". by iApply (wp_t_dealloc with "Hn").
  Qed.
  Lemma wp_t_clear this t Q R :
    tobj this t -∗ (tobj this E -∗ Q tt) -∗ wp md (t_clear (X:=X) this) Q R.
  Proof using.
    iIntros "H HQ". rewrite /t_clear. wbind. iApply (wp_rd_pos this [] with "H"). iIntros "H".
    wbind. iApply (wp_with_fuel _ _ (S (height t))). iSplit; [iClear "HQ"; by iApply sz_height|].
    iIntros (fuel Hf). iDestruct "H" as "[H G]". iApply (wp_t_dd with "G"); [lia|]. iIntros "_".
    wbind. iApply (wp_wr_ctx this [] with "H"). iIntros "H".
    iAssert (W this [] E (least t) (length (nodes t))) with "[H]" as "H".
    { rewrite /W /=. by iFrame. }
    wbind. iApply (wp_t_set_bgn with "H"). iIntros "H". iApply (wp_t_set_size with "H"). done.
  Qed.
  Lemma wp_t_new Q R : (∀ this, tobj this E -∗ Q this) -∗ wp md (t_new (X:=X)) Q R.
  Proof using.
    iIntros "HQ". rewrite /t_new. iApply wp_new'. iIntros (l) "H". iApply "HQ". rewrite /tobj /W /=. by iFrame.
  Qed.
  Lemma wp_t_dtor this t Q R : tobj this t -∗ (emp -∗ Q tt) -∗ wp md (t_dtor (X:=X) this) Q R.
  Proof using.
    iIntros "H HQ". rewrite /t_dtor. wbind. iApply (wp_t_clear with "H"). iIntros "[H _]".
    by iApply (wp_free' with "H").
  Qed.

  (** ** Copying *)
  Lemma good_E : tgood E.
  Proof using. split; [constructor|]. apply red_black_rb. split; [done|]. exists 0. constructor. Qed.
  Lemma insert_elems n v t :
    tgood t → search key comp (key v) t = None → (nodes (insert_t n v t)).*2 = add_elem key comp v (nodes t).*2.
  Proof using Hsw. intros [Hi _] Hs. rewrite /insert_t paint_nodes. by apply ins_elems. Qed.

  Lemma wp_t_fill_loop fuel this other t t0 a b Q R :
    length b < fuel → same_ok t0 → tgood t0 → nodes t0 = a ++ b → tgood t → (nodes t).*2 = a.*2 →
    tobj this t -∗ tobj other t0 -∗
    ((∀ t' j, ⌜mA md = true ∧ tgood t' ∧ (nodes t').*2 = take j (nodes t0).*2⌝ →
        tobj this t' -∗ tobj other t0 -∗ R BadAlloc) ∧
     (∀ t', ⌜tgood t' ∧ (nodes t').*2 = (nodes t0).*2⌝ → tobj this t' -∗ tobj other t0 -∗ Q tt)) -∗
    wp md (t_fill_loop key comp eqn fuel this (fst <$> head b)) Q R.
  Proof using Hmc Hsw.
    revert t a b. induction fuel as [|fuel IH]; intros t a b Hf Hs Hg0 E Hg Ht; [lia|].
    iIntros "H G HQ". cbn [t_fill_loop]. destruct b as [|[n x] b].
    { destruct (decide _); [|done]. wret. iDestruct "HQ" as "[_ HQ]". iApply ("HQ" with "[%] H G").
      split; [done|]. by rewrite E app_nil_r. }
    destruct (decide _); [done|].
    wbind. iApply (wp_t_value _ _ n x with "G"); [rewrite E; set_solver +|]. iIntros "G".
    destruct (add_elem_last key comp Hsw a.*2 x) as [H1 H2].
    { pose proof (proj1 Hg0) as Hi. rewrite E fmap_app fmap_cons in Hi.
      rewrite (cons_middle _ _ (b.*2)) assoc_L in Hi. by apply increasing_app in Hi as [Hi _]. }
    assert (search key comp (key x) t = None) as Hx.
    { pose proof (search_lookup key comp Hsw (key x) t (proj1 Hg)) as Hl. rewrite Ht H1 in Hl.
      by destruct (search key comp (key x) t). }
    wbind. iApply (wp_t_insert with "H"); [done|]. iSplit.
    { iIntros (HA) "H". iDestruct "HQ" as "[HQ _]". iApply ("HQ" $! _ (length a) with "[%] H G").
      split; [done|]. split; [done|]. rewrite E fmap_app take_app_alt ?fmap_length //. }
    rewrite Hx. iIntros (m) "H". wbind. iApply (wp_t_succ _ _ _ n x b with "G"); [done..|]. iIntros "G".
    iApply (IH (insert_t m x t) (a ++ [(n, x)]) b with "H G HQ").
    - simpl in Hf. lia.
    - done.
    - done.
    - by rewrite -assoc_L.
    - by apply insert_good.
    - by rewrite insert_elems // Ht H2 fmap_app.
  Qed.
  Lemma wp_t_fill this other t0 Q R :
    same_ok t0 → tgood t0 →
    tobj this E -∗ tobj other t0 -∗
    ((∀ t' j, ⌜mA md = true ∧ tgood t' ∧ (nodes t').*2 = take j (nodes t0).*2⌝ →
        tobj this t' -∗ tobj other t0 -∗ R BadAlloc) ∧
     (∀ t', ⌜tgood t' ∧ (nodes t').*2 = (nodes t0).*2⌝ → tobj this t' -∗ tobj other t0 -∗ Q tt)) -∗
    wp md (t_fill key comp eqn this other) Q R.
  Proof using Hmc Hsw.
    iIntros (Hs Hg) "H G HQ". rewrite /t_fill. wstep wp_t_begin "G".
    iApply (wp_with_fuel _ _ (S (length (nodes t0)))). iSplit; [iClear "HQ H"; by iApply sz_W|].
    iIntros (fuel Hf). iApply (wp_t_fill_loop fuel this other E t0 [] (nodes t0) with "H G HQ"); try done.
    - lia.
    - apply good_E.
  Qed.
  Lemma wp_t_copy other t0 Q R :
    same_ok t0 → tgood t0 →
    tobj other t0 -∗
    ((⌜mA md = true⌝ → tobj other t0 -∗ R BadAlloc) ∧
     (∀ this t', ⌜tgood t' ∧ (nodes t').*2 = (nodes t0).*2⌝ → tobj this t' -∗ tobj other t0 -∗ Q this)) -∗
    wp md (t_copy key comp eqn other) Q R.
  Proof using Hmc Hsw.
    iIntros (Hs Hg) "G HQ". rewrite /t_copy. wbind. iApply wp_t_new. iIntros (this) "H".
    wbind. iApply wp_on_throw. iApply (wp_t_fill with "H G"); [done..|]. iSplit.
    - iIntros (t' j (HA & _ & _)) "H G". iDestruct "HQ" as "[HQ _]". iApply (wp_t_dtor with "H").
      iIntros "_". by iApply "HQ".
    - iIntros (t' Ht) "H G". wret. iDestruct "HQ" as "[_ HQ]". by iApply ("HQ" with "[//] H G").
  Qed.
  Lemma wp_t_assign this t other t0 Q R :
    same_ok t0 → tgood t0 →
    tobj this t -∗ tobj other t0 -∗
    ((∀ t' j, ⌜mA md = true ∧ tgood t' ∧ (nodes t').*2 = take j (nodes t0).*2⌝ →
        tobj this t' -∗ tobj other t0 -∗ R BadAlloc) ∧
     (∀ t', ⌜tgood t' ∧ (nodes t').*2 = (nodes t0).*2⌝ → tobj this t' -∗ tobj other t0 -∗ Q tt)) -∗
    wp md (t_assign key comp eqn this other) Q R.
  Proof using Hmc Hsw.
    iIntros (Hs Hg) "H G HQ". rewrite /t_assign. wbind. iApply (wp_t_clear with "H"). iIntros "H".
    by iApply (wp_t_fill with "H G").
  Qed.
  (** assigning a container to itself empties it *)
  Lemma wp_t_assign_self this t Q R :
    tobj this t -∗ (tobj this E -∗ Q tt) -∗ wp md (t_assign key comp eqn this this) Q R.
  Proof using.
    iIntros "H HQ". rewrite /t_assign. wbind. iApply (wp_t_clear with "H"). iIntros "H".
    rewrite /t_fill. wstep wp_t_begin "H". iApply (wp_with_fuel _ _ 0).
    iSplit; [iClear "HQ"; by iApply (sz_0 with "H")|]. iIntros (fuel Hf). destruct fuel as [|fuel]; [lia|].
    cbn [t_fill_loop]. destruct (decide _); [|done]. wret. by iApply "HQ".
  Qed.

  (** ** Elements reported *)
  Lemma wp_t_at_none Q R : Q None -∗ wp md (t_at (X:=X) None) Q R.
  Proof using. iIntros "HQ". rewrite /t_at. by wret. Qed.
  Lemma wp_t_at this t n x Q R :
    (n, x) ∈ nodes t → tobj this t -∗ (tobj this t -∗ Q (Some x)) -∗ wp md (t_at (Some n)) Q R.
  Proof using.
    iIntros (Hn) "H HQ". rewrite /t_at. wbind. iApply (wp_t_elem_obj with "H"); [done|]. iIntros "H". wret.
    by iApply "HQ".
  Qed.
  Lemma tset_intro this t : tgood t → tobj this t ⊢ tset this (nodes t).*2.
  Proof using. iIntros (Hg) "H". iExists t. by iFrame. Qed.
End proofs.
