(** Exact descriptions of what the string operations of C12, C13, C15 and C18 do. *)
From iris.prelude Require Import prelude.
From Verif Require Import Hist HistProofs ModelString SpecString StringFacts StringMem StringProps.

Lemma until_null_eq ys : until_null ys = ys ↔ no_null ys.
Proof.
  split; [|apply until_null_id]. intros H. induction ys as [|y ys IH]; [constructor|]. simpl in H.
  destruct (N.eqb_spec y 0); [done|]. injection H as H. constructor; [done|by apply IH].
Qed.
Lemma eq_until ys : bool_decide (until_null ys = ys) = bool_decide (no_null ys).
Proof. apply bool_decide_ext, until_null_eq. Qed.
Lemma c85_copy m g ys k q :
  may_fail_alloc m → s_holds m g ys k q →
  runs_to m [g; q] (s_copy g m) (λ this m' new, ∃ k' p,
    s_holds m' this (until_null ys) k' p ∧ s_holds m' g ys k q ∧ s_apart this p g q ∧ new = [this; p; g; q] ∧
    s_eq this g m' = Ok (bool_decide (no_null ys)) m').
Proof.
  intros Hm Hh. pose proof (s_copy_effect _ _ _ _ _ Hm Hh) as H. unfold runs_to in *.
  destruct (s_copy g m); [|done..]. destruct H as (H1 & new & (k' & p & A & B & ? & ?) & H2).
  split; [done|]. exists new. split; [|done]. exists k', p. split_and!; [done..|].
  apply s_holds_view in A as [? A]. apply s_holds_view in B as [? B].
  rewrite (s_eq_eq _ _ _ _ _ _ _ _ _ _ _ A B). by rewrite eq_until.
Qed.
Lemma c85_assign m this xs k p g ys k' q :
  fair m → s_holds m this xs k p → s_holds m g ys k' q → s_apart this p g q →
  unthrown (s_assign_str this g m) (λ _ m', fair m' ∧ ∃ k1 p1,
    s_holds m' this (until_null ys) k1 p1 ∧ s_holds m' g ys k' q ∧ s_apart this p1 g q ∧
    replaces [this; p; g; q] m [this; p1; g; q] m' ∧ s_eq this g m' = Ok (bool_decide (no_null ys)) m').
Proof.
  intros Hm H1 H2 Ha. pose proof (s_assign_effect _ _ _ _ _ _ _ _ _ Hm H1 H2 Ha) as H.
  unfold unthrown in *. destruct (s_assign_str this g m); [|done..].
  destruct H as (Hf & k1 & p1 & A & B & ? & ?). split; [done|]. exists k1, p1. split_and!; [done..|].
  apply s_holds_view in A as [? A]. apply s_holds_view in B as [? B].
  rewrite (s_eq_eq _ _ _ _ _ _ _ _ _ _ _ A B). by rewrite eq_until.
Qed.
Lemma c86 m this xs k p off :
  fair m → s_holds m this xs k p → off ≤ length xs →
  let ts := until_null (drop off xs) in
  if decide (length ts < k ∧ (off = 0 ∨ length ts < off))
  then unthrown (s_assign this (CBlk p off) m) (λ _ m', fair m' ∧ ∃ k' p',
         s_holds m' this ts k' p' ∧ p' = p ∧ replaces [this; p] m [this; p'] m')
  else s_assign this (CBlk p off) m = UB.
Proof. intros Hm Hh Ho ts. destruct (c13 m this xs k p off Hm Hh Ho) as [H1 H2]. case_decide; auto. Qed.
Lemma c87_right m this xs k p ch pos :
  s_holds m this xs k p →
  (∃ r, s_find_ch this ch pos m = Ok r m ∧ first_from (λ i, xs !! i = Some ch) pos r) ↔ ch ∉ take pos xs.
Proof.
  intros Hh. destruct (c15_find_ch m this xs k p ch pos Hh) as (r & E & Hr).
  assert (∀ j, j < pos → xs !! j = Some ch → ch ∈ take pos xs) as Hin.
  { intros j Hj Hx. apply elem_of_list_lookup. exists j. by rewrite lookup_take. }
  split.
  - intros (r' & E' & Hf). rewrite E in E'. injection E' as <-. intros (j & Hj)%elem_of_list_lookup.
    destruct (decide (j < pos)) as [L|L]; [|rewrite lookup_take_ge in Hj; [done|lia]]. rewrite lookup_take // in Hj.
    destruct r as [i|]; [|by apply (Hr j); [lia|]]. destruct Hf as (? & ? & _), Hr as (_ & _ & Hr). apply (Hr j); [lia|done].
  - intros Hn. exists r. split; [done|]. destruct r as [i|].
    + destruct Hr as (_ & Hi & Hr). split; [|split; [done|]].
      * destruct (decide (pos ≤ i)); [done|]. destruct Hn. apply (Hin i); [lia|done].
      * intros j Hj. apply Hr. lia.
    + intros j Hj. apply Hr. lia.
Qed.
Lemma c88 m this xs k p i c :
  fair m → s_holds m this xs k p → xs !! i = Some c →
  if decide (length xs < k)
  then runs_to m [this; p] (s_push_back this (CElem p i) m) (λ _ m' new, ∃ k' p',
         s_holds m' this (xs ++ [c]) k' p' ∧ (k' = k ∧ p' = p) ∧ new = [this; p'])
  else s_push_back this (CElem p i) m = UB.
Proof.
  intros Hm Hh Hi. case_decide as Hk.
  - apply c18_spare; [|done..]. destruct Hm as (? & ? & ?). by split.
  - eapply c18_full; [done..|]. destruct Hh as (_ & _ & rest & _ & Hl). lia.
Qed.
