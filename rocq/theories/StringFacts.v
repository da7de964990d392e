(** Pure facts about the sequences behind strings. *)
From Coq Require Import ssreflect.
From Verif Require Import Hist ModelString SpecString.

Lemma strlen_until ys rest :
  strlen (ys ++ 0%N :: rest) = Some (length (until_null ys)).
Proof.
  induction ys as [|c ys IH]; simpl; [done|].
  destruct (N.eqb c 0); [done|]. by rewrite IH.
Qed.
Lemma until_null_take ys rest :
  take (length (until_null ys)) (ys ++ rest) = until_null ys.
Proof.
  induction ys as [|c ys IH]; simpl; [done|].
  destruct (N.eqb c 0); simpl; [done|]. by rewrite IH.
Qed.
Lemma until_null_take1 ys rest :
  take (length (until_null ys) + 1) (ys ++ 0%N :: rest) = until_null ys ++ [0%N].
Proof.
  induction ys as [|c ys IH]; simpl; [done|].
  destruct (N.eqb_spec c 0) as [->|]; simpl; [done|]. by rewrite IH.
Qed.
Lemma until_null_length ys : length (until_null ys) ≤ length ys.
Proof. induction ys as [|c ys IH]; simpl; [done|]. destruct (N.eqb c 0); simpl; lia. Qed.
Lemma until_null_id ys : no_null ys → until_null ys = ys.
Proof.
  induction 1 as [|c ys Hc _ IH]; simpl; [done|]. destruct (N.eqb_spec c 0); [done|]. by rewrite IH.
Qed.

(** find *)
Lemma occurs_iff xs t i :
  occurs xs t i ↔ i ≤ length xs ∧ take (length t) (drop i xs) = t.
Proof.
  split.
  - intros (a & b & -> & <-). split; [rewrite app_length; lia|].
    rewrite drop_app. by rewrite take_app.
  - intros [Hi Ht]. exists (take i xs), (drop (i + length t) xs). split.
    + rewrite -drop_drop -{1}(take_drop i xs). f_equal.
      by rewrite -{1}(take_drop (length t) (drop i xs)) Ht.
    + rewrite take_length. lia.
Qed.
Lemma occurs_fits xs t i : occurs xs t i → i + length t ≤ length xs.
Proof. intros (a & b & -> & <-). rewrite !app_length. lia. Qed.
Lemma first_from_unique P pos r1 r2 : first_from P pos r1 → first_from P pos r2 → r1 = r2.
Proof.
  destruct r1 as [i|], r2 as [j|]; simpl; [|naive_solver..].
  intros (H1 & H2 & H3) (H4 & H5 & H6). f_equal.
  destruct (Nat.lt_trichotomy i j) as [?|[?|?]]; [|done|].
  - exfalso. apply (H6 i); [lia|done].
  - exfalso. apply (H3 j); [lia|done].
Qed.
Lemma find_from_spec xs t pos : first_from (occurs xs t) pos (find_from xs t pos).
Proof.
  unfold find_from. remember (S (length xs) - pos) as n eqn:Hn.
  revert pos Hn. induction n as [|n IH]; intros pos Hn; simpl.
  - intros j Hj Ho. apply occurs_iff in Ho as [? _]. lia.
  - rewrite filter_cons. destruct (decide _) as [Hb|Hb]; simpl.
    + split; [done|]. split; [|intros; lia]. apply occurs_iff. by apply bool_decide_eq_true in Hb.
    + specialize (IH (S pos)). feed specialize IH; [lia|].
      assert (¬ occurs xs t pos) as Hno.
      { intros Ho%occurs_iff. apply Hb. by apply bool_decide_eq_true. }
      destruct (head _) as [i|] eqn:Ei; simpl in *.
      * destruct IH as (H1 & H2 & H3). split; [lia|]. split; [done|]. intros j Hj.
        destruct (decide (j = pos)) as [->|]; [done|]. apply H3. lia.
      * intros j Hj. destruct (decide (j = pos)) as [->|]; [done|]. apply IH. lia.
Qed.
Lemma index_of_Some c cs i : index_of c cs = Some i → cs !! i = Some c ∧ ∀ j, j < i → cs !! j ≠ Some c.
Proof.
  revert i. induction cs as [|d cs IH]; intros i; simpl; [done|].
  destruct (N.eqb_spec d c) as [->|Hd]; [intros [= <-]; split; [done|intros; lia]|].
  destruct (index_of c cs) as [i'|]; [|done]. intros [= <-].
  destruct (IH i' eq_refl) as [H1 H2]. split; [done|].
  intros [|j] Hj; simpl; [congruence|]. apply H2. lia.
Qed.
Lemma index_of_None c cs : index_of c cs = None → ∀ j, cs !! j ≠ Some c.
Proof.
  induction cs as [|d cs IH]; simpl; [done|].
  destruct (N.eqb_spec d c) as [->|Hd]; [done|].
  destruct (index_of c cs) as [i'|]; [done|]. intros _ [|j]; simpl; [congruence|]. by apply IH.
Qed.

(** comparison *)
Lemma cmp_refl xs : cmp xs xs = 0%Z.
Proof. induction xs; simpl; [done|]. by rewrite N.ltb_irrefl. Qed.
Lemma cmp_0 xs ys : length xs = length ys → cmp xs ys = 0%Z ↔ xs = ys.
Proof.
  revert ys. induction xs as [|x xs IH]; intros [|y ys] Hl; simpl in *; try done.
  destruct (N.ltb_spec x y); [split; [done|]; intros [= -> ->]; lia|].
  destruct (N.ltb_spec y x); [split; [done|]; intros [= -> ->]; lia|].
  rewrite (IH ys ltac:(lia)). assert (x = y) as -> by lia. split; [by intros ->|by intros [=]].
Qed.
Lemma S_compare_sgn n1 n2 : Z.sgn (S_compare n1 n2) = Z.sgn (Z.of_nat n1 - Z.of_nat n2).
Proof.
  unfold S_compare, int_max, int_min.
  destruct (Z.ltb_spec 2147483647 (Z.of_nat n1 - Z.of_nat n2)).
  - rewrite !Z.sgn_pos; lia.
  - destruct (Z.ltb_spec (Z.of_nat n1 - Z.of_nat n2) (-2147483648)); [|done].
    rewrite !Z.sgn_neg; lia.
Qed.
Lemma S_compare_range n1 n2 : (int_min ≤ S_compare n1 n2 ≤ int_max)%Z.
Proof.
  unfold S_compare, int_max, int_min.
  destruct (Z.ltb_spec 2147483647 (Z.of_nat n1 - Z.of_nat n2)); [lia|].
  destruct (Z.ltb_spec (Z.of_nat n1 - Z.of_nat n2) (-2147483648)); lia.
Qed.
(** the result of compare on the full sequences *)
Definition compare_fun (xs ys : list N) : Z :=
  let n := length xs `min` length ys in
  let r := cmp (take n xs) (take n ys) in
  if Z.eqb r 0 then S_compare (length xs) (length ys) else r.
Lemma compare_fun_sgn xs ys : Z.sgn (compare_fun xs ys) = lex_sign xs ys.
Proof.
  unfold compare_fun. revert ys. induction xs as [|x xs IH]; intros [|y ys]; simpl.
  - done.
  - rewrite S_compare_sgn. apply Z.sgn_neg. lia.
  - rewrite S_compare_sgn. apply Z.sgn_pos. lia.
  - destruct (N.ltb_spec x y).
    { destruct (decide (x = y)); [lia|]. destruct (decide _); [done|lia]. }
    destruct (N.ltb_spec y x).
    { destruct (decide (x = y)); [lia|]. destruct (decide _); [lia|done]. }
    assert (x = y) as -> by lia. rewrite decide_True // -IH.
    destruct (Z.eqb _ 0); [|done]. rewrite !S_compare_sgn. f_equal. lia.
Qed.
Lemma lex_sign_lt xs ys : lex_sign xs ys = (-1)%Z ↔ lex_lt xs ys.
Proof.
  revert ys. induction xs as [|x xs IH]; intros [|y ys]; simpl.
  - split; [done|inversion 1].
  - split; [constructor|done].
  - split; [done|inversion 1].
  - destruct (decide (x = y)) as [->|Hne].
    + rewrite IH. split; [by constructor|]. inversion 1; subst; [lia|done].
    + destruct (decide (x < y)%N).
      * split; [by constructor|done].
      * split; [done|]. inversion 1; subst; lia.
Qed.
Lemma lex_sign_eq xs ys : lex_sign xs ys = 0%Z ↔ xs = ys.
Proof.
  revert ys. induction xs as [|x xs IH]; intros [|y ys]; simpl; try done.
  destruct (decide (x = y)) as [->|Hne].
  - rewrite IH. split; [by intros ->|by intros [=]].
  - destruct (decide _); split; try done; by intros [=].
Qed.
Lemma lex_sign_opp xs ys : lex_sign ys xs = (- lex_sign xs ys)%Z.
Proof.
  revert ys. induction xs as [|x xs IH]; intros [|y ys]; simpl; try done.
  destruct (decide (x = y)) as [->|Hne].
  - destruct (decide (y = y)); [by rewrite IH|done].
  - destruct (decide (y = x)); [congruence|].
    destruct (decide (x < y)%N), (decide (y < x)%N); done || lia.
Qed.
Lemma lex_sign_gt xs ys : lex_sign xs ys = 1%Z ↔ lex_lt ys xs.
Proof. rewrite -lex_sign_lt lex_sign_opp. lia. Qed.
Lemma lex_sign_cases xs ys : lex_sign xs ys = (-1)%Z ∨ lex_sign xs ys = 0%Z ∨ lex_sign xs ys = 1%Z.
Proof.
  revert ys. induction xs as [|x xs IH]; intros [|y ys]; simpl; auto.
  destruct (decide _); [by apply IH|]. destruct (decide _); auto.
Qed.
Lemma lex_lt_irrefl xs : ¬ lex_lt xs xs.
Proof. rewrite -lex_sign_lt. by rewrite (proj2 (lex_sign_eq _ _) eq_refl). Qed.
Lemma lex_lt_trans xs ys zs : lex_lt xs ys → lex_lt ys zs → lex_lt xs zs.
Proof.
  intros H. revert zs. induction H as [y ys|x y xs ys Hxy|x xs ys H IH]; intros zs; inversion 1; subst.
  - constructor.
  - constructor.
  - constructor; lia.
  - by constructor.
  - by constructor.
  - apply lex_tail. by apply IH.
Qed.
