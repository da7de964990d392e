(** Read-only string operations as equations on memories. *)
From iris.proofmode Require Import tactics.
From Verif Require Import SLTac Hist HistProofs MemRun ModelString SpecString StringFacts StringProofs.

Section reads.
  Implicit Types (m : mem scell) (xs ys cs : list N).

  (** the part of [s_holds] that reads need *)
  Definition sview m this xs k p rest : Prop :=
    blk m !! this = Some (SHdr (length xs) k (Some p)) ∧ blk m !! p = Some (SBuf (xs ++ 0%N :: rest)).
  Lemma s_holds_view m this xs k p : s_holds m this xs k p → ∃ rest, sview m this xs k p rest.
  Proof. intros (H1 & _ & rest & H2 & _). by exists rest. Qed.
  Lemma sobj_view this xs rest p h m :
    sobj this xs rest p h → h ⊆ blk m → sview m this xs (length xs + length rest) p rest.
  Proof.
    intros H Hs. destruct (sep_sub _ _ _ _ H Hs) as (h1 & h2 & H1 & H2 & S1 & S2).
    destruct (sep_sub _ _ _ _ H2 S2) as (h3 & h4 & H3 & H4 & S3 & S4).
    split; [by eapply pt_lookup|by eapply pt_lookup].
  Qed.
  Lemma sobj_holds this xs rest p h m :
    sobj this xs rest p h → h ⊆ blk m → s_holds m this xs (length xs + length rest) p.
  Proof.
    intros H Hs. destruct (sobj_view _ _ _ _ _ _ H Hs) as [H1 H2].
    destruct (sep_sub _ _ _ _ H Hs) as (h1 & h2 & _ & HH & _ & S2).
    destruct (sep_sub _ _ _ _ HH S2) as (h3 & h4 & _ & H4 & _ & _).
    apply hprop_affinely_pure_eq in H4 as [_ Hk].
    split; [done|]. split; [done|]. by exists rest.
  Qed.

  Lemma s_size_eq m this xs k p rest : sview m this xs k p rest → s_size this m = Ok (length xs) m.
  Proof. intros [H1 H2]. by rewrite /s_size /s_hdr /load /bind /= H1. Qed.
  Lemma s_p_eq m this xs k p rest : sview m this xs k p rest → s_p this m = Ok (Some p) m.
  Proof. intros [H1 H2]. by rewrite /s_p /s_hdr /load /bind /= H1. Qed.
  Lemma s_data_eq m this xs k p rest : sview m this xs k p rest → s_data this m = Ok (CBlk p 0) m.
  Proof. intros H. by rewrite /s_data /bind (s_p_eq _ _ _ _ _ _ H). Qed.
  Lemma b_chars_eq m p cs : blk m !! p = Some (SBuf cs) → b_chars (Some p) m = Ok (p, cs) m.
  Proof. intros H. by rewrite /b_chars /load /bind /= H. Qed.
  Lemma chars_eq m p cs off :
    blk m !! p = Some (SBuf cs) → off ≤ length cs → chars (CBlk p off) m = Ok (drop off cs) m.
  Proof. intros H Ho. rewrite /chars /bind (b_chars_eq _ _ _ H) /=. by rewrite decide_True. Qed.
  Lemma s_empty_eq m this xs k p rest :
    sview m this xs k p rest → s_empty this m = Ok (length xs =? 0) m.
  Proof. intros H. by rewrite /s_empty /bind (s_size_eq _ _ _ _ _ _ H). Qed.
  Lemma b_get_eq m p cs i c :
    blk m !! p = Some (SBuf cs) → cs !! i = Some c → b_get (Some p) i m = Ok c m.
  Proof. intros H Hi. by rewrite /b_get /bind (b_chars_eq _ _ _ H) /= Hi. Qed.
  Lemma s_get_eq m this xs k p rest i c :
    sview m this xs k p rest → (xs ++ [0%N]) !! i = Some c → s_get this i m = Ok c m.
  Proof.
    intros H Hi. rewrite /s_get /bind (s_p_eq _ _ _ _ _ _ H). destruct H as [_ H].
    apply (b_get_eq _ _ _ _ _ H). by rewrite (cons_middle 0%N) assoc_L lookup_app Hi.
  Qed.
  Lemma s_front_eq m this xs k p rest c :
    sview m this xs k p rest → head xs = Some c → s_front this m = Ok c m.
  Proof. intros H Hc. eapply s_get_eq; [done|]. by destruct xs. Qed.
  Lemma s_back_eq m this xs k p rest c :
    sview m this xs k p rest → last xs = Some c → s_back this m = Ok c m.
  Proof.
    intros H Hc. rewrite /s_back /bind (s_size_eq _ _ _ _ _ _ H). rewrite last_lookup in Hc.
    destruct (length xs) as [|n] eqn:En; simpl in Hc.
    { apply lookup_lt_Some in Hc. lia. }
    eapply s_get_eq; [done|]. by apply lookup_app_l_Some.
  Qed.
  Lemma s_walk_eq m p cs i n :
    blk m !! p = Some (SBuf cs) → i + n ≤ length cs → s_walk (Some p) i n m = Ok (take n (drop i cs)) m.
  Proof.
    intros H. revert i. induction n as [|n IH]; intros i Hi; cbn [s_walk take].
    { by destruct (drop i cs). }
    destruct (lookup_lt_is_Some_2 cs i) as [c Hc]; [lia|].
    rewrite /bind (b_get_eq _ _ _ _ _ H Hc). rewrite IH; [|lia]. rewrite (drop_S _ _ _ Hc). done.
  Qed.
  Lemma s_iterate_eq m this xs k p rest : sview m this xs k p rest → s_iterate this m = Ok xs m.
  Proof.
    intros H. rewrite /s_iterate /bind (s_p_eq _ _ _ _ _ _ H) (s_size_eq _ _ _ _ _ _ H).
    destruct H as [_ H]. rewrite (s_walk_eq _ _ _ _ _ H); [|rewrite app_length /=; lia].
    by rewrite drop_0 take_app.
  Qed.
  Lemma t_length_eq m s ys zs :
    chars s m = Ok (ys ++ 0%N :: zs) m → t_length s m = Ok (length (until_null ys)) m.
  Proof. intros H. by rewrite /t_length /bind H strlen_until. Qed.
  Lemma view_chars m this xs k p rest :
    sview m this xs k p rest → chars (CBlk p 0) m = Ok (xs ++ 0%N :: rest) m.
  Proof. intros [_ H]. by rewrite (chars_eq _ _ _ _ H); [|lia]. Qed.

  (** ** find *)
  Lemma t_find_eq m l cs off n c :
    blk m !! l = Some (SBuf cs) → off + n ≤ length cs →
    t_find (CBlk l off) n c m = Ok (index_of c (take n (drop off cs))) m.
  Proof.
    intros H Hn. rewrite /t_find /bind (chars_eq _ _ _ _ H); [|lia].
    rewrite decide_True //. rewrite drop_length. lia.
  Qed.
  Lemma t_compare_eq m s t xs ys n :
    chars s m = Ok xs m → chars t m = Ok ys m → n ≤ length xs → n ≤ length ys →
    t_compare s t n m = Ok (cmp (take n xs) (take n ys)) m.
  Proof. intros H1 H2 ??. by rewrite /t_compare /bind H1 H2 decide_True. Qed.

  Lemma s_find_loop_spec m p xs rest s cs n c0 fuel first :
    blk m !! p = Some (SBuf (xs ++ 0%N :: rest)) → chars s m = Ok cs m →
    0 < n → n ≤ length cs → head cs = Some c0 →
    first ≤ length xs → length xs - first < fuel →
    ∃ r, s_find_loop fuel p s c0 n first (length xs) (length xs - first) m = Ok r m ∧
         first_from (occurs xs (take n cs)) first r.
  Proof.
    intros Hb Hs Hn0 Hn Hc0. revert first. induction fuel as [|fuel IH]; intros first Hf Hfuel; [lia|].
    cbn [s_find_loop]. assert (length (take n cs) = n) as Hlen by (rewrite take_length; lia).
    destruct (Nat.leb_spec n (length xs - first)) as [Hle|Hgt]; last first.
    { exists None. split; [done|]. intros j Hj Ho%occurs_fits. lia. }
    rewrite /bind (t_find_eq _ _ _ _ _ _ Hb); [|rewrite app_length; lia].
    assert (∀ j, j < length xs - first - n + 1 →
      take (length xs - first - n + 1) (drop first (xs ++ 0%N :: rest)) !! j = xs !! (first + j)) as Hlk.
    { intros j Hj. rewrite lookup_take // lookup_drop lookup_app_l //. lia. }
    assert (∀ j, first ≤ j → occurs xs (take n cs) j →
      take (length xs - first - n + 1) (drop first (xs ++ 0%N :: rest)) !! (j - first) = Some c0) as Hocc.
    { intros j Hj Ho. pose proof (occurs_fits _ _ _ Ho). rewrite Hlk; [|lia].
      replace (first + (j - first)) with j by lia.
      destruct Ho as (a & b & -> & <-). rewrite lookup_app_r // Nat.sub_diag.
      destruct cs; [done|]. destruct n; [lia|]. by simplify_eq/=. }
    destruct (index_of c0 _) as [i|] eqn:Ei; last first.
    { exists None. split; [done|]. intros j Hj Ho. eapply index_of_None; [exact Ei|]. by apply Hocc. }
    apply index_of_Some in Ei as [Hi Hmin].
    assert (i < length xs - first - n + 1) as Hil.
    { apply lookup_lt_Some in Hi. rewrite take_length in Hi. lia. }
    assert (∀ j, first ≤ j < first + i → ¬ occurs xs (take n cs) j) as Hbefore.
    { intros j Hj Ho. eapply (Hmin (j - first)); [lia|]. apply Hocc; [lia|done]. }
    erewrite t_compare_eq; [|apply (chars_eq _ _ _ _ Hb); rewrite app_length; lia|done| |done]; last first.
    { rewrite drop_length app_length /=. lia. }
    assert (take n (drop (first + i) (xs ++ 0%N :: rest)) = take n (drop (first + i) xs)) as Htk.
    { rewrite drop_app_le; [|lia]. rewrite take_app_le //. rewrite drop_length. lia. }
    destruct (Z.eqb_spec (cmp (take n (drop (first + i) (xs ++ 0%N :: rest))) (take n cs)) 0) as [E|E].
    - exists (Some (first + i)). split; [done|]. split; [lia|]. split; [|done].
      apply cmp_0 in E; last first.
      { rewrite Htk !take_length drop_length. lia. }
      apply occurs_iff. rewrite Hlen -Htk E. split; [lia|done].
    - destruct (IH (S (first + i))) as (r & Hr & Hfr); [lia..|]. exists r. split; [done|].
      assert (¬ occurs xs (take n cs) (first + i)) as Hno.
      { intros [_ Ho]%occurs_iff. apply E. rewrite Hlen in Ho. rewrite Htk Ho. apply cmp_refl. }
      destruct r as [q|]; simpl in *.
      + destruct Hfr as (? & ? & Hq). split; [lia|]. split; [done|]. intros j Hj.
        destruct (decide (j < first + i)); [apply Hbefore; lia|].
        destruct (decide (j = first + i)) as [->|]; [done|]. apply Hq. lia.
      + intros j Hj. destruct (decide (j < first + i)); [apply Hbefore; lia|].
        destruct (decide (j = first + i)) as [->|]; [done|]. apply Hfr. lia.
  Qed.
  Lemma s_find_spec m this xs k p rest s cs pos n :
    sview m this xs k p rest → chars s m = Ok cs m → n ≤ length cs →
    ∃ r, s_find this s pos n m = Ok r m ∧ first_from (occurs xs (take n cs)) pos r.
  Proof.
    intros H Hs Hn. rewrite /s_find /bind (s_size_eq _ _ _ _ _ _ H).
    destruct (Nat.eqb_spec n 0) as [->|Hn0].
    - eexists. split; [done|]. rewrite firstn_O. destruct (Nat.leb_spec pos (length xs)); simpl.
      + split; [done|]. split; [|lia]. apply occurs_iff. split; [done|]. done.
      + intros j Hj [? _]%occurs_iff. lia.
    - destruct (Nat.leb_spec (length xs) pos) as [Hp|Hp].
      { eexists. split; [done|]. intros j Hj Ho%occurs_fits. rewrite take_length in Ho. lia. }
      rewrite Hs. destruct (head cs) as [c0|] eqn:Eh; [|destruct cs; simpl in *; [lia|done]].
      rewrite (s_p_eq _ _ _ _ _ _ H). destruct H as [_ H].
      eapply s_find_loop_spec; [done..|lia|done|done|lia|lia].
  Qed.
  Lemma s_find_eq m this xs k p rest s cs pos n :
    sview m this xs k p rest → chars s m = Ok cs m → n ≤ length cs →
    s_find this s pos n m = Ok (find_from xs (take n cs) pos) m.
  Proof.
    intros H Hs Hn. destruct (s_find_spec _ _ _ _ _ _ _ _ pos _ H Hs Hn) as (r & Hr & Hf).
    rewrite Hr. f_equal. eapply first_from_unique; [done|]. apply find_from_spec.
  Qed.
  Lemma s_find_c_eq m this xs k p rest s ys zs pos :
    sview m this xs k p rest → chars s m = Ok (ys ++ 0%N :: zs) m →
    s_find_c this s pos m = Ok (find_from xs (until_null ys) pos) m.
  Proof.
    intros H Hs. rewrite /s_find_c /bind (t_length_eq _ _ _ _ Hs).
    erewrite s_find_eq; [|done..|]; last first.
    { rewrite app_length. pose proof (until_null_length ys). lia. }
    by rewrite until_null_take.
  Qed.
  Lemma s_find_str_eq m this xs k p rest g ys k' q rest' pos :
    sview m this xs k p rest → sview m g ys k' q rest' →
    s_find_str this g pos m = Ok (find_from xs (until_null ys) pos) m.
  Proof.
    intros H H'. rewrite /s_find_str /bind (s_data_eq _ _ _ _ _ _ H').
    eapply s_find_c_eq; [done|]. by eapply view_chars.
  Qed.
  Lemma s_find_ch_eq m this xs k p rest ch pos :
    sview m this xs k p rest → s_find_ch this ch pos m = Ok (index_of ch xs) m.
  Proof.
    intros H. rewrite /s_find_ch /bind (s_data_eq _ _ _ _ _ _ H) (s_size_eq _ _ _ _ _ _ H).
    destruct H as [_ H]. rewrite (t_find_eq _ _ _ _ _ _ H); [|rewrite app_length; lia].
    by rewrite drop_0 take_app.
  Qed.

  (** ** compare *)
  Lemma s_compare_eq m this xs k p rest g ys k' q rest' :
    sview m this xs k p rest → sview m g ys k' q rest' →
    s_compare this g m = Ok (compare_fun xs ys) m.
  Proof.
    intros H H'. rewrite /s_compare /bind (s_size_eq _ _ _ _ _ _ H) (s_size_eq _ _ _ _ _ _ H')
      (s_data_eq _ _ _ _ _ _ H) (s_data_eq _ _ _ _ _ _ H').
    erewrite t_compare_eq; [|by eapply view_chars|by eapply view_chars|rewrite app_length; lia..].
    by rewrite !take_app_le; [|lia..].
  Qed.
  Lemma s_compare_c_eq m this xs k p rest s ys zs :
    sview m this xs k p rest → chars s m = Ok (ys ++ 0%N :: zs) m →
    s_compare_c this s m = Ok (compare_fun xs (until_null ys)) m.
  Proof.
    intros H Hs. pose proof (until_null_length ys).
    rewrite /s_compare_c /bind (s_size_eq _ _ _ _ _ _ H) (t_length_eq _ _ _ _ Hs) (s_data_eq _ _ _ _ _ _ H).
    erewrite t_compare_eq; [|by eapply view_chars|done|rewrite app_length; lia..].
    rewrite take_app_le; [|lia]. rewrite take_app_le; [|lia].
    rewrite /compare_fun /ret.
    assert (take (length xs `min` length (until_null ys)) ys
            = take (length xs `min` length (until_null ys)) (until_null ys)) as ->; [|done].
    pose proof (until_null_take ys []) as Ht. rewrite app_nil_r in Ht. rewrite -{3}Ht take_take. f_equal. lia.
  Qed.
  Lemma s_eq_char_eq m this xs k p rest g ys k' q rest' :
    sview m this xs k p rest → sview m g ys k' q rest' →
    s_eq_char this g m = Ok (bool_decide (xs = ys)) m.
  Proof.
    intros H H'. rewrite /s_eq_char /bind (s_size_eq _ _ _ _ _ _ H) (s_size_eq _ _ _ _ _ _ H').
    destruct (Nat.eqb_spec (length xs) (length ys)) as [E|E].
    - rewrite (s_data_eq _ _ _ _ _ _ H) (s_data_eq _ _ _ _ _ _ H').
      erewrite t_compare_eq; [|by eapply view_chars|by eapply view_chars|rewrite app_length; lia..].
      rewrite take_app E take_app. unfold ret. f_equal.
      destruct (Z.eqb_spec (cmp xs ys) 0) as [Hc|Hc].
      + apply cmp_0 in Hc; [|done]. by rewrite bool_decide_eq_true_2.
      + rewrite bool_decide_eq_false_2 //. intros ->. by rewrite cmp_refl in Hc.
    - unfold ret. rewrite bool_decide_eq_false_2 //. by intros ->.
  Qed.
  Lemma compare_fun_eq0 xs ys : Z.eqb (compare_fun xs ys) 0 = bool_decide (xs = ys).
  Proof.
    destruct (Z.eqb_spec (compare_fun xs ys) 0) as [E|E].
    - rewrite bool_decide_eq_true_2 //. apply lex_sign_eq. by rewrite -compare_fun_sgn E.
    - rewrite bool_decide_eq_false_2 //. intros Ex. apply E.
      apply lex_sign_eq in Ex. rewrite -compare_fun_sgn in Ex. by apply Z.sgn_null_iff.
  Qed.
  Lemma compare_fun_lt0 xs ys : Z.ltb (compare_fun xs ys) 0 = bool_decide (lex_sign xs ys = -1)%Z.
  Proof.
    rewrite -compare_fun_sgn. destruct (Z.ltb_spec (compare_fun xs ys) 0).
    - rewrite bool_decide_eq_true_2 //. by apply Z.sgn_neg.
    - rewrite bool_decide_eq_false_2 //. intros E. apply Z.sgn_neg_iff in E. lia.
  Qed.
  Lemma s_eq_eq m this xs k p rest g ys k' q rest' :
    sview m this xs k p rest → sview m g ys k' q rest' →
    s_eq this g m = Ok (bool_decide (xs = ys)) m.
  Proof.
    intros H H'. rewrite /s_eq /bind (s_compare_eq _ _ _ _ _ _ _ _ _ _ _ H H') -compare_fun_eq0 //.
  Qed.
  Lemma s_lt_eq m this xs k p rest g ys k' q rest' :
    sview m this xs k p rest → sview m g ys k' q rest' →
    s_lt this g m = Ok (bool_decide (lex_sign xs ys = -1)%Z) m.
  Proof.
    intros H H'. rewrite /s_lt /bind (s_compare_eq _ _ _ _ _ _ _ _ _ _ _ H H') -compare_fun_lt0 //.
  Qed.

  (** exact heap of a string *)
  Lemma s_holds_sobj m this xs k p :
    s_holds m this xs k p →
    ∃ rest, length xs + length rest = k ∧ this ≠ p ∧
      exact (sobj this xs rest p)
        ({[this := SHdr (length xs) k (Some p)]} ∪ {[p := SBuf (xs ++ 0%N :: rest)]}) ∧
      {[this := SHdr (length xs) k (Some p)]} ∪ {[p := SBuf (xs ++ 0%N :: rest)]} ⊆ blk m.
  Proof.
    intros (H1 & Hk & rest & H2 & <-). exists rest. split; [done|].
    assert (this ≠ p) as Hne by congruence. split; [done|].
    assert ({[this := SHdr (length xs) (length xs + length rest) (Some p)]} ##ₘ
            ({[p := SBuf (xs ++ 0%N :: rest)]} : gmap loc scell)) as Hd.
    { apply map_disjoint_singleton_l. by rewrite lookup_singleton_ne. }
    split.
    - rewrite -(right_id_L ∅ (∪) {[p := SBuf (xs ++ 0%N :: rest)]}).
      apply exact_sep; [apply exact_pt| |by rewrite right_id_L].
      apply exact_sep; [apply exact_pt|by apply exact_pure|apply map_disjoint_empty_r].
    - apply map_union_least; by apply map_singleton_subseteq_l.
  Qed.
  Lemma sobj_inv this xs rest p h :
    sobj this xs rest p h →
    h = {[this := SHdr (length xs) (length xs + length rest) (Some p)]} ∪ {[p := SBuf (xs ++ 0%N :: rest)]}.
  Proof.
    intros (h1 & h2 & -> & Hd & ->%pt_eq & H)%hprop_sep_eq.
    apply hprop_sep_eq in H as (h3 & h4 & -> & _ & ->%pt_eq & H4).
    apply (proj1 (hprop_affinely_pure_eq _ _)) in H4 as [-> _]. by rewrite right_id_L.
  Qed.
  Lemma two_cells {this p : loc} {c1 c2 : scell} l :
    l ∈ [this; p] ↔ is_Some (({[this := c1]} ∪ {[p := c2]} : gmap loc scell) !! l).
  Proof.
    rewrite lookup_union_is_Some elem_of_cons elem_of_list_singleton.
    split; (intros [H|H]; [left|right]); try (subst; rewrite lookup_singleton; by eauto);
      destruct H as [c [-> _]%lookup_singleton_Some]; done.
  Qed.
End reads.
