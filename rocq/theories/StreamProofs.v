(** Input streams: the model does what the specification says. *)
From iris.proofmode Require Import tactics.
From Coq Require Import Btauto.
From Verif Require Import SLTac HistGen ModelString SpecString StringFacts StringProofs StringMem ModelStream SpecStream.

(** ** State flags *)
Lemma num_0 f : Z.eqb (num f) 0 = none_set f.
Proof. by destruct f as [[] [] []]. Qed.
Lemma num_lor f g : Z.lor (num f) (num g) = num (both f g).
Proof. by destruct f as [[] [] []], g as [[] [] []]. Qed.
Lemma num_land f g : Z.eqb (Z.land (num f) (num g)) 0 = negb (meet g f).
Proof. by destruct f as [[] [] []], g as [[] [] []]. Qed.
Lemma num_noteof f : Z.land (num f) (Z.lnot eofbit) = num (Flags (f_bad f) false (f_fail f)).
Proof. by destruct f as [[] [] []]. Qed.
Lemma num_eof f : negb (Z.eqb (Z.land (num f) eofbit) 0) = f_eof f.
Proof. by destruct f as [[] [] []]. Qed.
Lemma num_fail f : negb (Z.eqb (Z.land (num f) (Z.lor badbit failbit)) 0) = f_bad f || f_fail f.
Proof. by destruct f as [[] [] []]. Qed.
Lemma num_bits z : is_iostate z = true → num (bits z) = z.
Proof.
  unfold is_iostate. rewrite andb_true_iff Z.leb_le Z.ltb_lt. intros [H1 H2].
  assert (z = 0 ∨ z = 1 ∨ z = 2 ∨ z = 3 ∨ z = 4 ∨ z = 5 ∨ z = 6 ∨ z = 7)%Z as H by lia.
  by destruct H as [->|[->|[->|[->|[->|[->|[->| ->]]]]]]].
Qed.
Lemma both_assoc f g h : both (both f g) h = both f (both g h).
Proof. by destruct f as [[] [] []], g as [[] [] []], h as [[] [] []]. Qed.

(** ** What a stream object stands for *)
Notation buffer := (option (loc * loc * list N)).
(** the get area, in the buffer [p] holding [xs] *)
Definition area (p : loc) (xs : list N) (s : stream) (x : xstream) : Prop :=
  (_M_in_beg s = None ∧ _M_in_cur s = None ∧ _M_in_end s = None ∧ x_txt x = [] ∧ x_pos x = 0) ∨
  (∃ off, _M_in_beg s = Some (p, off) ∧ _M_in_cur s = Some (p, off + x_pos x) ∧ _M_in_end s = Some (p, length xs) ∧
     off ≤ length xs ∧ x_txt x = drop off xs ∧ x_pos x ≤ length (x_txt x) ∧
     (Z.testbit (_M_mode s) 3 = true ∨ Z.testbit (_M_mode s) 4 = true)).
Definition linked (s : stream) (x : xstream) (b : buffer) : Prop :=
  _M_streambuf_state s = num (x_st x) ∧ _M_exception s = num (x_mask x) ∧ _M_gcount s = x_count x ∧
  match b with
  | None =>
      x_src x = NoBuffer ∧ _M_streambuf s = false ∧ _M_string s = None ∧ f_bad (x_st x) = true ∧
      _M_in_beg s = None ∧ _M_in_cur s = None ∧ _M_in_end s = None ∧ x_txt x = [] ∧ x_pos x = 0
  | Some (own, p, xs) =>
      (x_src x = OfFile ∨ x_src x = OfString (Z.testbit (_M_mode s) 3)) ∧
      _M_streambuf s = true ∧ _M_string s = Some own ∧ area p xs s x
  end.
Definition view_of (m : mem scell) (b : buffer) : Prop :=
  match b with None => True | Some (own, p, xs) => ∃ k rest, sview m own xs k p rest end.

Definition as_res (b : bool) : sres unit := if b then SRet tt else SFailure.

(** ** basic_ios *)
Lemma clear_eq s x b f m :
  linked s x b →
  ∃ s', clear (num f) s m = Ok (s', as_res (x_clear x f).2) m ∧ linked s' (x_clear x f).1 b.
Proof.
  destruct s as [hb st ex gc ib ic ie mo str]. intros (H1 & H2 & H3 & Hb). simpl in *. subst.
  unfold clear, sget, smod, exceptions, rdstate, sret, sbind, bind, ret. simpl.
  destruct b as [[[own p] xs]|].
  - destruct Hb as (Hs & -> & -> & Ha). simpl. rewrite num_land.
    assert (match x_src x with NoBuffer => both f (Flags true false false) | _ => f end = f) as Ef by (by destruct Hs as [-> | ->]).
    unfold x_clear. rewrite Ef. simpl. rewrite /as_res /x_set.
    eexists. split; [by destruct (meet f (x_mask x))|]. split_and!; done.
  - destruct Hb as (Hs & -> & -> & Hbad & -> & -> & -> & Ht & Hp). simpl.
    change badbit with (num (Flags true false false)). rewrite num_lor num_land.
    unfold x_clear. rewrite Hs. simpl. rewrite /as_res /x_set.
    eexists. split; [by destruct (meet (both f _) (x_mask x))|]. split_and!; try done. simpl.
    by rewrite orb_true_r.
Qed.
Lemma setstate_eq s x b f m :
  linked s x b →
  ∃ s', setstate (num f) s m = Ok (s', as_res (x_setstate x f).2) m ∧ linked s' (x_setstate x f).1 b.
Proof.
  intros Hl. destruct (clear_eq s x b (both (x_st x) f) m Hl) as (s' & Hc & Hl').
  exists s'. split; [|done]. unfold setstate, rdstate, sget, sbind, sret, bind, ret. simpl.
  destruct Hl as (-> & _). by rewrite num_lor.
Qed.
Lemma x_setstate_twice x f :
  (x_setstate x f).2 = true → x_setstate (x_setstate x f).1 f = x_setstate x f.
Proof.
  unfold x_setstate, x_clear. intros H. simpl in *.
  assert (∀ g h k : flags, both (both (both g h) k) h = both (both g h) k) as E3
    by (intros [] [] []; unfold both; simpl; f_equal; btauto).
  assert (∀ g h : flags, both (both g h) h = both g h) as E2 by (intros [] []; unfold both; simpl; f_equal; btauto).
  destruct (x_src x); simpl in *; rewrite ?E3 ?E2 ?both_assoc //.
Qed.
Lemma x_clear_src x f : x_src (x_clear x f).1 = x_src x.
Proof. done. Qed.
Lemma x_setstate_count x f : x_count (x_setstate x f).1 = x_count x.
Proof. done. Qed.
Lemma x_setstate_src x f : x_src (x_setstate x f).1 = x_src x.
Proof. done. Qed.
Local Opaque setstate clear x_setstate x_clear.
Lemma linked_count s x b n : linked s x b → linked (set_gcount s n) (x_at x (x_pos x) n) b.
Proof.
  destruct s, x. intros (H1 & H2 & H3 & Hb). simpl in *. subst. split_and!; try done.
Qed.
Lemma sentry_eq s x b m :
  linked s x b →
  if none_set (x_st x) then sentry s m = Ok (s, SRet true) m
  else ∃ s', sentry s m = Ok (s', if (x_setstate x (Flags false false true)).2 then SRet false else SFailure) m ∧
             linked s' (x_setstate x (Flags false false true)).1 b.
Proof.
  intros Hl. unfold sentry, is_good, rdstate, sget, sbind, sret, bind, ret. simpl.
  pose proof Hl as (H1 & _). rewrite H1 num_0. destruct (none_set (x_st x)); [done|].
  destruct (setstate_eq s x b (Flags false false true) m Hl) as (s' & Hs & Hl').
  change failbit with (num (Flags false false true)). rewrite Hs. simpl. exists s'.
  by destruct (x_setstate x _).2.
Qed.

Local Opaque sentry.
(** ** streambuf *)
Lemma good_buffer s x b : linked s x b → none_set (x_st x) = true → ∃ own p xs, b = Some (own, p, xs).
Proof.
  intros (_ & _ & _ & Hb) Hg. destruct b as [[[own p] xs]|]; [by eexists _, _, _|].
  destruct Hb as (_ & _ & _ & Hbad & _). destruct (x_st x) as [[] [] []]; done.
Qed.
Lemma sbind_ok {A B} (f : SM A) (k : A → SM B) s m s' a m' :
  f s m = Ok (s', SRet a) m' → sbind f k s m = k a s' m'.
Proof. unfold sbind, bind. by intros ->. Qed.
Lemma sbind_fail {A B} (f : SM A) (k : A → SM B) s m s' m' :
  f s m = Ok (s', SFailure) m' → sbind f k s m = Ok (s', SFailure) m'.
Proof. unfold sbind, bind. by intros ->. Qed.
Lemma slift_ok {A} (f : MS A) s m a m' : f m = Ok a m' → slift f s m = Ok (s, SRet a) m'.
Proof. unfold slift, bind. by intros ->. Qed.
Lemma p_lt_eq p i j m : p_lt (Some (p, i)) (Some (p, j)) m = Ok (i <? j) m.
Proof. unfold p_lt. by destruct (decide (p = p)). Qed.
Lemma p_diff_eq p i j m : i ≤ j → p_diff (Some (p, j)) (Some (p, i)) m = Ok (j - i) m.
Proof. intros. unfold p_diff. destruct (decide (p = p ∧ i ≤ j)); [done|tauto]. Qed.
Ltac sstep := erewrite sbind_ok; [|reflexivity].

Lemma sbumpc_eq s x own p xs m :
  linked s x (Some (own, p, xs)) → view_of m (Some (own, p, xs)) →
  match x_txt x !! x_pos x with
  | Some c => ∃ s', sbumpc s m = Ok (s', SRet (Z.of_N c)) m ∧ linked s' (x_at x (x_pos x + 1) (x_count x)) (Some (own, p, xs))
  | None => sbumpc s m = Ok (s, SRet (-1)%Z) m
  end.
Proof.
  intros Hl (k & rest & Hv). destruct s as [hb st ex gc ib ic ie mo str].
  destruct Hl as (H1 & H2 & H3 & Hs & Hb & Hstr & Ha). simpl in *. subst.
  unfold sbumpc. sstep. cbn [_M_in_cur _M_in_end].
  destruct Ha as [(Eb & Ec & Ee & Et & Ep)|(off & Eb & Ec & Ee & Ho & Et & Ep & Hm)]; simpl in *; subst.
  - rewrite Et. simpl. done.
  - erewrite sbind_ok; [|apply slift_ok, p_lt_eq]. rewrite Et drop_length in Ep. rewrite {1}Et lookup_drop.
    destruct (xs !! (off + x_pos x)) as [c|] eqn:E.
    + pose proof (lookup_lt_Some _ _ _ E) as Hlt.
      replace (off + x_pos x <? length xs) with true by (symmetry; by apply Nat.ltb_lt). cbv iota.
      destruct Hv as [_ Hp]. erewrite sbind_ok; [|apply slift_ok; apply (b_get_eq m p _ (off + x_pos x) c Hp), lookup_app_l_Some, E].
      sstep. eexists. split; [done|].
      split_and!; try done. simpl. right. exists off. simpl. rewrite Et drop_length. split_and!; try done; [|lia].
      do 2 f_equal. lia.
    + apply lookup_ge_None in E.
      replace (off + x_pos x <? length xs) with false by (symmetry; by apply Nat.ltb_ge). done.
Qed.
Lemma sgetc_eq s x own p xs m :
  linked s x (Some (own, p, xs)) → view_of m (Some (own, p, xs)) → sgetc s m = Ok (s, SRet (x_char x (x_pos x))) m.
Proof.
  intros Hl (k & rest & Hv). destruct s as [hb st ex gc ib ic ie mo str].
  destruct Hl as (H1 & H2 & H3 & Hs & Hb & Hstr & Ha). simpl in *. subst.
  unfold sgetc, x_char. sstep. cbn [_M_in_cur _M_in_end].
  destruct Ha as [(Eb & Ec & Ee & Et & Ep)|(off & Eb & Ec & Ee & Ho & Et & Ep & Hm)]; simpl in *; subst.
  - rewrite Et. simpl. done.
  - erewrite sbind_ok; [|apply slift_ok, p_lt_eq]. rewrite Et drop_length in Ep. rewrite {1}Et lookup_drop.
    destruct (xs !! (off + x_pos x)) as [c|] eqn:E.
    + pose proof (lookup_lt_Some _ _ _ E) as Hlt.
      replace (off + x_pos x <? length xs) with true by (symmetry; by apply Nat.ltb_lt). cbv iota.
      destruct Hv as [_ Hp]. erewrite sbind_ok; [|apply slift_ok; apply (b_get_eq m p _ (off + x_pos x) c Hp), lookup_app_l_Some, E].
      done.
    + apply lookup_ge_None in E.
      replace (off + x_pos x <? length xs) with false by (symmetry; by apply Nat.ltb_ge). done.
Qed.
Lemma linked_pos s x own p xs : linked s x (Some (own, p, xs)) → x_pos x ≤ length (x_txt x).
Proof.
  intros (_ & _ & _ & _ & _ & _ & Ha).
  destruct Ha as [(_ & _ & _ & -> & ->)|(off & _ & _ & _ & _ & _ & H & _)]; [simpl; lia|done].
Qed.
Lemma x_move_id x : x_pos x ≤ length (x_txt x) → x_move x (x_pos x) = x.
Proof. destruct x. unfold x_move, x_at. simpl. intros. f_equal. lia. Qed.
Lemma sungetc_eq s x own p xs m :
  linked s x (Some (own, p, xs)) → view_of m (Some (own, p, xs)) →
  match x_pos x with
  | S pos => ∃ s' c, sungetc s m = Ok (s', SRet (Z.of_N c)) m ∧ x_txt x !! pos = Some c ∧ linked s' (x_at x pos (x_count x)) (Some (own, p, xs))
  | O => sungetc s m = Ok (s, SRet (-1)%Z) m
  end.
Proof.
  intros Hl (k & rest & Hv). destruct s as [hb st ex gc ib ic ie mo str].
  destruct Hl as (H1 & H2 & H3 & Hs & Hb & Hstr & Ha). simpl in *. subst.
  unfold sungetc. sstep. cbn [_M_in_cur _M_in_beg].
  destruct Ha as [(Eb & Ec & Ee & Et & Ep)|(off & Eb & Ec & Ee & Ho & Et & Ep & Hm)]; simpl in *; subst.
  - by rewrite Ep.
  - erewrite sbind_ok; [|apply slift_ok, p_lt_eq]. rewrite Et drop_length in Ep.
    destruct (x_pos x) as [|pos] eqn:E.
    + replace (off <? off + 0) with false by (symmetry; apply Nat.ltb_ge; lia). done.
    + replace (off <? off + S pos) with true by (symmetry; apply Nat.ltb_lt; lia). rewrite Nat.add_succ_r. cbv iota.
      destruct (lookup_lt_is_Some_2 xs (off + pos)) as [c Hc]; [lia|].
      destruct Hv as [_ Hp]. sstep. sstep. cbn [_M_in_cur setg].
      erewrite sbind_ok; [|apply slift_ok; apply (b_get_eq m p _ (off + pos) c Hp), lookup_app_l_Some, Hc].
      eexists _, c. split; [done|]. split; [by rewrite Et lookup_drop|].
      split_and!; try done. simpl. right. exists off. simpl. rewrite Et drop_length. split_and!; try done; lia.
Qed.
Lemma sgetn_eq s x own p xs m n :
  linked s x (Some (own, p, xs)) → view_of m (Some (own, p, xs)) →
  let cs := take n (drop (x_pos x) (x_txt x)) in
  ∃ s', sgetn n s m = Ok (s', SRet cs) m ∧ linked s' (x_at x (x_pos x + length cs) (x_count x)) (Some (own, p, xs)).
Proof.
  intros Hl (k & rest & Hv) cs. destruct s as [hb st ex gc ib ic ie mo str].
  destruct Hl as (H1 & H2 & H3 & Hs & Hb & Hstr & Ha). simpl in *. subst. unfold sgetn.
  rewrite Nat.add_1_r. cbn [xsgetn_loop].
  destruct n as [|n].
  { simpl. eexists. split; [done|]. unfold cs. cbn [take length]; rewrite Nat.add_0_r. split_and!; try done. }
  replace (0 <? S n) with true by done. cbv iota. sstep. cbn [_M_in_cur _M_in_end].
  destruct Ha as [(Eb & Ec & Ee & Et & Ep)|(off & Eb & Ec & Ee & Ho & Et & Ep & Hm)]; cbn [_M_in_beg _M_in_cur _M_in_end] in *; subst.
  - sstep. simpl. eexists. split; [by rewrite /cs Et drop_nil|]. unfold cs. rewrite Et drop_nil /= Nat.add_0_r.
    split_and!; try done. simpl. left. done.
  - rewrite Et drop_length in Ep. assert (drop (x_pos x) (x_txt x) = drop (off + x_pos x) xs) as Ed by (by rewrite Et drop_drop).
    erewrite sbind_ok; [|apply slift_ok, p_diff_eq; lia]. unfold cs. rewrite Ed.
    set (len := length xs - (off + x_pos x)).
    assert (length (take (S n) (drop (off + x_pos x) xs)) = Nat.min (S n) len) as Hlen by (rewrite take_length drop_length; done).
    set (s0 := Stream _ _ _ _ _ _ _ _ _).
    erewrite (sbind_ok _ _ _ _ (setg s0 (Some (p, off)) (Some (p, off + x_pos x + Nat.min len (S n))) (Some (p, length xs)))
      (take (S n) (drop (off + x_pos x) xs)) m); last first.
    {
      destruct (len =? 0) eqn:El.
      - apply Nat.eqb_eq in El. assert (drop (off + x_pos x) xs = []) as -> by (apply drop_ge; lia).
        rewrite El /= Nat.add_0_r. unfold setg. simpl. reflexivity.
      - apply Nat.eqb_neq in El. destruct Hv as [_ Hp].
        erewrite sbind_ok; [|apply slift_ok]; last first.
        { cbn [_M_in_cur]. apply chars_eq; [exact Hp|]. rewrite app_length /=. lia. }
        rewrite Nat.sub_0_r drop_app_le; [|lia].
        erewrite sbind_ok; last first.
        { destruct (decide _) as [_|Hn]; [reflexivity|]. exfalso. apply Hn. rewrite app_length drop_length /=. lia. }
        sstep. unfold sret. rewrite take_app_le; [|rewrite drop_length; lia].
        destruct (decide (S n ≤ len)).
        + rewrite Nat.min_r //.
        + rewrite Nat.min_l; [|lia]. rewrite !take_ge; [done|rewrite drop_length; lia..]. }
    cbn [Nat.add]. rewrite Hlen.
    assert (linked (setg s0 (Some (p, off)) (Some (p, off + x_pos x + Nat.min len (S n))) (Some (p, length xs)))
       (x_at x (x_pos x + Nat.min (S n) len) (x_count x)) (Some (own, p, xs))) as HL.
    { split_and!; try done. right. exists off. cbn [x_txt x_pos x_at _M_in_beg _M_in_cur _M_in_end _M_mode setg s0].
      rewrite Et drop_length. split_and!; try done; [|lia]. do 2 f_equal. lia. }
    destruct (Nat.min (S n) len <? S n) eqn:El.
    + eexists. split; [|exact HL]. done.
    + apply Nat.ltb_ge in El. eexists. split; [|exact HL].
      cbn [xsgetn_loop]. replace (Nat.min (S n) len <? S n) with false by (symmetry; by apply Nat.ltb_ge). done.
Qed.
(** the same, by position *)
Lemma bump_eq s x own p xs m :
  linked s x (Some (own, p, xs)) → view_of m (Some (own, p, xs)) →
  ∃ s', sbumpc s m = Ok (s', SRet (x_char x (x_pos x))) m ∧ linked s' (x_move x (x_pos x + 1)) (Some (own, p, xs)).
Proof.
  intros Hl Hv. pose proof (sbumpc_eq _ _ _ _ _ _ Hl Hv) as Hb. pose proof (linked_pos _ _ _ _ _ Hl) as Hp.
  unfold x_char, x_move. destruct (x_txt x !! x_pos x) as [c|] eqn:E.
  - destruct Hb as (s' & Hb & Hl'). exists s'. split; [done|]. apply lookup_lt_Some in E. by rewrite Nat.min_l; [|lia].
  - exists s. split; [done|]. apply lookup_ge_None in E. rewrite Nat.min_r; [|lia].
    replace (length (x_txt x)) with (x_pos x) by lia. by destruct x.
Qed.
Lemma next_eq s x own p xs m :
  linked s x (Some (own, p, xs)) → view_of m (Some (own, p, xs)) →
  ∃ s', snextc s m = Ok (s', SRet (x_char x (x_pos x + 1))) m ∧ linked s' (x_move x (x_pos x + 1)) (Some (own, p, xs)).
Proof.
  intros Hl Hv. destruct (bump_eq _ _ _ _ _ _ Hl Hv) as (s' & Hb & Hl'). exists s'. split; [|done].
  unfold snextc. erewrite sbind_ok; [|exact Hb]. unfold x_char at 1. destruct (x_txt x !! x_pos x) as [c|] eqn:E.
  - replace (Z.eqb (Z.of_N c) (-1)) with false by (symmetry; apply Z.eqb_neq; lia). cbn [negb].
    rewrite (sgetc_eq _ _ _ _ _ _ Hl' Hv). apply lookup_lt_Some in E. unfold x_move, x_char. cbn [x_txt x_pos x_at].
    by rewrite Nat.min_l; [|lia].
  - apply lookup_ge_None in E. unfold x_char. rewrite lookup_ge_None_2; [done|lia].
Qed.
Lemma back_eq s x own p xs m :
  linked s x (Some (own, p, xs)) → view_of m (Some (own, p, xs)) →
  let r := match x_pos x with S pos => (pos, x_char x pos) | O => (0, (-1)%Z) end in
  ∃ s', sungetc s m = Ok (s', SRet r.2) m ∧ linked s' (x_move x r.1) (Some (own, p, xs)).
Proof.
  intros Hl Hv. pose proof (sungetc_eq _ _ _ _ _ _ Hl Hv) as Hb. pose proof (linked_pos _ _ _ _ _ Hl) as Hp.
  destruct (x_pos x) as [|pos] eqn:E; cbn [fst snd].
  - exists s. split; [done|]. rewrite -E x_move_id //. lia.
  - destruct Hb as (s' & c & Hb & Ec & Hl'). exists s'. unfold x_char. rewrite Ec. split; [done|].
    unfold x_move. by rewrite Nat.min_l; [|lia].
Qed.
Lemma getn_eq s x own p xs m n :
  linked s x (Some (own, p, xs)) → view_of m (Some (own, p, xs)) →
  ∃ s', sgetn n s m = Ok (s', SRet (take n (drop (x_pos x) (x_txt x)))) m ∧ linked s' (x_move x (x_pos x + n)) (Some (own, p, xs)).
Proof.
  intros Hl Hv. destruct (sgetn_eq _ _ _ _ _ _ n Hl Hv) as (s' & Hb & Hl'). pose proof (linked_pos _ _ _ _ _ Hl) as Hp.
  exists s'. split; [done|]. rewrite take_length drop_length in Hl'. unfold x_move.
  by replace (Nat.min (x_pos x + n) (length (x_txt x))) with (x_pos x + Nat.min n (length (x_txt x) - x_pos x)) by lia.
Qed.
Local Opaque sbumpc sungetc sgetn sgetc snextc.

(** ** istream *)
Lemma linked_buf s x own p xs : linked s x (Some (own, p, xs)) → deref_rdbuf s = ret (s, SRet tt).
Proof. intros (_ & _ & _ & _ & Hb & _). unfold deref_rdbuf. by rewrite Hb. Qed.
Lemma x_at_st x i n : x_st (x_at x i n) = x_st x.
Proof. done. Qed.
Lemma get_eq s x b m c0 :
  linked s x b → view_of m b →
  ∃ s', get c0 s m = Ok (s', ((x_get x c0).1.2, as_res (x_get x c0).2)) m ∧ linked s' (x_get x c0).1.1 b.
Proof.
  intros Hl Hv. apply (linked_count _ _ _ 0) in Hl. set (x0 := x_at x (x_pos x) 0) in *.
  unfold get, get_body, x_get. fold x0. pose proof (sentry_eq _ _ _ m Hl) as He.
  destruct (none_set (x_st x0)) eqn:Eg.
  - destruct (good_buffer _ _ _ Hl Eg) as (own & p & xs & ->).
    pose proof (sbumpc_eq _ _ _ _ _ _ Hl Hv) as Hb. unfold bind at 1.
    destruct (x_txt x0 !! x_pos x0) as [c|] eqn:Ec.
    + destruct Hb as (s1 & Hb & Hl1). apply (linked_count _ _ _ 1) in Hl1.
      sstep. erewrite sbind_ok; [|exact He].
      erewrite (sbind_ok _ _ _ _ (set_gcount s1 1) (c, goodbit) m); last first.
      { cbv iota. erewrite sbind_ok; [|by rewrite (linked_buf _ _ _ _ _ Hl)].
        erewrite sbind_ok; [|exact Hb]. replace (Z.eqb (Z.of_N c) (-1)) with false by (symmetry; apply Z.eqb_neq; lia).
        cbn [negb]. sstep. by rewrite N2Z.id. }
      sstep. eexists. split; [reflexivity|]. exact Hl1.
    + sstep. erewrite sbind_ok; [|exact He].
      erewrite (sbind_ok _ _ _ _ (set_gcount s 0) (c0, eofbit) m); last first.
      { cbv iota. erewrite sbind_ok; [|by rewrite (linked_buf _ _ _ _ _ Hl)].
        erewrite sbind_ok; [|exact Hb]. done. }
      sstep. destruct (setstate_eq _ _ _ (Flags false true true) m Hl) as (s2 & Hs & Hl2).
      exists s2. split; [|exact Hl2]. cbn [sret ret fst snd set_gcount _M_gcount Nat.eqb].
      change (Z.eqb (Z.lor eofbit failbit) 0) with false. cbv iota.
      change (Z.lor eofbit failbit) with (num (Flags false true true)). unfold bind. by rewrite Hs.
  - destruct He as (s1 & He & Hl1). destruct (setstate_eq _ _ _ (Flags false false true) m Hl) as (s2 & Hs & Hl2).
    unfold bind at 1. sstep. pose proof (x_setstate_twice x0 (Flags false false true)) as Ht.
    destruct (x_setstate x0 _) as [x1 ok] eqn:Ex. cbn [fst snd] in *. destruct ok.
    + (* the state is set a second time *)
      erewrite sbind_ok; [|exact He]. cbv iota.
      erewrite (sbind_ok _ _ _ _ s1 (c0, goodbit) m); [|done]. sstep.
      assert (_M_gcount s1 = 0) as Hg.
      { destruct Hl1 as (_ & _ & -> & _). change x1 with (x1, true).1. by rewrite -Ex. }
      destruct (setstate_eq _ _ _ (Flags false false true) m Hl1) as (s3 & Hs3 & Hl3). rewrite (Ht eq_refl) in Hs3, Hl3.
      exists s3. split; [|exact Hl3]. rewrite Hg. cbn [sret ret fst snd Nat.eqb].
      change (Z.eqb (Z.lor goodbit failbit) 0) with false. cbv iota.
      change (Z.lor goodbit failbit) with (num (Flags false false true)). unfold bind. by rewrite Hs3.
    + erewrite sbind_fail; [|exact He]. exists s1. done.
Qed.
Lemma unget_eq s x b m :
  linked s x b → view_of m b →
  ∃ s', unget s m = Ok (s', as_res (x_unget x).2) m ∧ linked s' (x_unget x).1 b.
Proof.
  intros Hl Hv. apply (linked_count _ _ _ 0) in Hl. set (x0 := x_at x (x_pos x) 0) in *.
  unfold unget, x_unget. fold x0. sstep. erewrite sbind_ok; last first.
  { unfold rdstate. sstep. reflexivity. }
  replace (_M_streambuf_state (set_gcount s 0)) with (num (x_st x0)) by (by destruct Hl as (-> & _)).
  rewrite num_noteof. set (f := Flags _ _ _).
  destruct (clear_eq _ _ _ f m Hl) as (s1 & Hs1 & Hl1).
  assert (x_pos (x_clear x0 f).1 = x_pos x0 ∧ x_count (x_clear x0 f).1 = 0) as [Epos Ecnt] by done.
  destruct (x_clear x0 f) as [x1 ok]. cbn [fst snd] in *. destruct ok; last first.
  { erewrite sbind_fail; [|exact Hs1]. by exists s1. }
  erewrite sbind_ok; [|exact Hs1]. pose proof (sentry_eq _ _ _ m Hl1) as He.
  destruct (none_set (x_st x1)) eqn:Eg.
  - destruct (good_buffer _ _ _ Hl1 Eg) as (own & p & xs & ->).
    erewrite sbind_ok; [|exact He]. cbv iota. sstep.
    assert (_M_streambuf s1 = true) as -> by (by destruct Hl1 as (_ & _ & _ & _ & Hb & _)).
    pose proof (sungetc_eq _ _ _ _ _ _ Hl1 Hv) as Hb.
    destruct (x_pos x1) as [|pos] eqn:Ep.
    + erewrite sbind_ok; [|exact Hb]. cbn [Z.eqb Pos.eqb].
      apply (setstate_eq _ _ _ (Flags true false false) m Hl1).
    + destruct Hb as (s2 & c & Hb & _ & Hl2). erewrite sbind_ok; [|exact Hb].
      replace (Z.eqb (Z.of_N c) (-1)) with false by (symmetry; apply Z.eqb_neq; lia).
      exists s2. split; [done|]. by rewrite Ecnt in Hl2.
  - destruct He as (s2 & He & Hl2). destruct (x_setstate x1 _) as [x2 ok]. cbn [fst snd] in *. destruct ok.
    + erewrite sbind_ok; [|exact He]. by exists s2.
    + erewrite sbind_fail; [|exact He]. by exists s2.
Qed.
Lemma read_eq s x b m n :
  linked s x b → view_of m b →
  ∃ s', read n s m = Ok (s', ((x_read x n).1.2, as_res (x_read x n).2)) m ∧ linked s' (x_read x n).1.1 b.
Proof.
  intros Hl Hv. apply (linked_count _ _ _ 0) in Hl. set (x0 := x_at x (x_pos x) 0) in *.
  unfold read, x_read. fold x0. pose proof (sentry_eq _ _ _ m Hl) as He. rewrite -(x_at_st x (x_pos x) 0). fold x0.
  unfold bind at 1. sstep. destruct (none_set (x_st x0)) eqn:Eg.
  - destruct (good_buffer _ _ _ Hl Eg) as (own & p & xs & ->).
    rewrite He. cbn [fst snd]. cbv iota.
    destruct (sgetn_eq _ _ _ _ _ _ n Hl Hv) as (s1 & Hs1 & Hl1).
    unfold bind at 1. erewrite sbind_ok; [|by rewrite (linked_buf _ _ _ _ _ Hl)]. rewrite Hs1. cbn [fst snd].
    change (x_pos x0) with (x_pos x) in *. change (x_txt x0) with (x_txt x) in *.
    set (cs := take n (drop (x_pos x) (x_txt x))) in *.
    apply (linked_count _ _ _ (length cs)) in Hl1. set (s2 := set_gcount s1 (length cs)) in *.
    change (x_at (x_at x0 _ _) _ _) with (x_at x (x_pos x + length cs) (length cs)) in Hl1.
    destruct (decide (length cs = n)) as [En|En].
    + apply Nat.eqb_eq in En as ->. exists s2. done.
    + apply Nat.eqb_neq in En as ->. cbn [negb].
      destruct (setstate_eq _ _ _ (Flags false true true) m Hl1) as (s3 & Hs3 & Hl3).
      change (Z.lor eofbit failbit) with (num (Flags false true true)). unfold bind. rewrite Hs3. by exists s3.
  - destruct He as (s2 & He & Hl2). rewrite He. destruct (x_setstate x0 _) as [x2 ok]. cbn [fst snd] in *.
    exists s2. by destruct ok.
Qed.

Lemma x_get_src x c0 : x_src (x_get x c0).1.1 = x_src x.
Proof.
  unfold x_get. destruct (none_set _); [destruct (_ !! _); [done|]|]; cbn [fst]; by rewrite x_setstate_src.
Qed.
Lemma x_unget_src x : x_src (x_unget x).1 = x_src x.
Proof.
  unfold x_unget. set (f := Flags _ _ _). pose proof (x_clear_src (x_at x (x_pos x) 0) f) as E.
  change (x_src (x_at _ _ _)) with (x_src x) in E.
  destruct (x_clear _ f) as [x1 [|]]; cbn [fst snd] in *; rewrite -E.
  - destruct (none_set _); [destruct (x_pos x1)|]; rewrite ?x_setstate_src //.
  - done.
Qed.
Lemma x_read_src x n : x_src (x_read x n).1.1 = x_src x.
Proof.
  unfold x_read. destruct (none_set _); [destruct (decide _); [done|]|]; cbn [fst]; by rewrite x_setstate_src.
Qed.
Lemma x_read_count x n : x_count (x_read x n).1.1 = length (x_read x n).1.2.
Proof.
  unfold x_read. destruct (none_set _); [destruct (decide _); [done|]|]; cbn [fst snd]; by rewrite x_setstate_count.
Qed.
Local Opaque get unget read x_get x_unget x_read.

Lemma no_skip_src x : x_src (no_skip x).1 = x_src x.
Proof. unfold no_skip. destruct (f_bad _); [done|]. apply x_setstate_src. Qed.
Lemma fail_eq s x b f m :
  linked s x b →
  ∃ s', (setstate (num f) ~;; sret false) s m = Ok (s', if (x_setstate x f).2 then SRet false else SFailure) m ∧ linked s' (x_setstate x f).1 b.
Proof.
  intros Hl. destruct (setstate_eq _ _ _ f m Hl) as (s' & E & Hl'). exists s'. split; [|done].
  unfold sbind, bind in *. rewrite E. by destruct (x_setstate x f).2.
Qed.
Lemma full_sentry_eq s x b noskip m :
  linked s x b → view_of m b →
  let x' := if none_set (x_st x) then if noskip : bool then (x, GoBool true) else no_skip x
            else x_fail x (Flags false false true) in
  ∃ s' r, full_sentry noskip s m = Ok (s', r) m ∧ linked s' x'.1 b ∧ sentry_out r = x'.2.
Proof.
  intros Hl Hv. unfold full_sentry. pose proof Hl as (Hst & Hex & _). rewrite Hst num_0.
  assert (∀ x1 s1 f, linked s1 x1 b → ∃ s' r,
    (r <- (setstate (num f) ~;; sret false) s1 ;; ret (r.1, as_sentry r.2)) m = Ok (s', r) m ∧
    linked s' (x_fail x1 f).1 b ∧ sentry_out r = (x_fail x1 f).2) as Hfail.
  { intros x1 s1 f Hl1. destruct (fail_eq _ _ _ f m Hl1) as (s' & E & Hl'). unfold bind. rewrite E.
    exists s'. eexists. split; [reflexivity|]. split; [done|]. unfold x_fail. cbn [fst snd]. by destruct (x_setstate x1 f).2. }
  destruct (none_set (x_st x)) eqn:Hg; [|exact (Hfail x s (Flags false false true) Hl)].
  destruct noskip; [by exists s, (SenRet true)|]. cbn [negb andb].
  change (negb (Z.land (_M_flags s) skipws =? 0)%Z) with true. cbv iota.
  destruct (good_buffer _ _ _ Hl Hg) as (own & p & xs & ->).
  assert ((deref_rdbuf ~;; sgetc) s m = Ok (s, SRet (x_char x (x_pos x))) m) as Es.
  { erewrite sbind_ok; [by eapply sgetc_eq|]. by rewrite (linked_buf _ _ _ _ _ Hl). }
  unfold bind at 1. rewrite Es. cbn [fst snd]. rewrite Hst.
  change badbit with (num (Flags true false false)). rewrite num_lor.
  cbn [set_state _M_exception]. rewrite Hex num_land negb_involutive.
  set (x1 := x_set x (both (x_st x) (Flags true false false))).
  assert (linked (set_state s (num (both (x_st x) (Flags true false false)))) x1 (Some (own, p, xs))) as Hl1.
  { destruct Hl as (A1 & A2 & A3 & A4 & A5 & A6 & A7). by split_and!. }
  assert (meet (Flags true false false) (x_mask x) = f_bad (x_mask x)) as -> by by destruct (x_mask x) as [[] [] []].
  unfold no_skip. destruct (f_bad (x_mask x)) eqn:Eb; [by eexists _, SenBadCast|].
  replace (x_fail x (Flags true false true)) with (x_fail x1 (Flags false false true)); [exact (Hfail x1 _ (Flags false false true) Hl1)|].
  unfold x_fail. replace (x_setstate x1 (Flags false false true)) with (x_setstate x (Flags true false true)); [done|].
  Local Transparent x_setstate x_clear. unfold x_setstate, x_clear. subst x1. cbn [x_st x_set x_src x_mask x_txt x_pos x_count].
  by destruct (x_st x) as [[] [] []].
  Local Opaque x_setstate x_clear.
Qed.

(** ** Memory *)
Definition synced (s : stream) (p : loc) (n : nat) : stream :=
  if Z.testbit (_M_mode s) 3 then setg s (Some (p, 0)) (Some (p, 0)) (Some (p, n))
  else if Z.testbit (_M_mode s) 4 then setg s (Some (p, n)) (Some (p, n)) (Some (p, n)) else s.
Lemma land_bit z k : (0 ≤ k)%Z → negb (Z.eqb (Z.land z (2 ^ k)) 0) = Z.testbit z k.
Proof.
  intros Hk. destruct (Z.testbit z k) eqn:E.
  - apply negb_true_iff, Z.eqb_neq. intros H. apply (f_equal (λ y, Z.testbit y k)) in H.
    rewrite Z.land_spec Z.pow2_bits_true // E Z.bits_0 in H. done.
  - apply negb_false_iff, Z.eqb_eq. apply Z.bits_inj'. intros n Hn. rewrite Z.land_spec Z.bits_0.
    destruct (decide (n = k)) as [->|]; [by rewrite E|]. rewrite Z.pow2_bits_false // andb_false_r //.
Qed.
Lemma linked_sync s x own p0 xs0 p xs :
  linked s x (Some (own, p0, xs0)) →
  linked (synced s p (length xs))
    (X (if Z.testbit (_M_mode s) 3 then xs else []) 0 (x_st x) (x_mask x) (x_count x) (x_src x)) (Some (own, p, xs)).
Proof.
  intros (H1 & H2 & H3 & H4 & H5 & H6 & H7). unfold synced.
  destruct (Z.testbit (_M_mode s) 3) eqn:E3; [|destruct (Z.testbit (_M_mode s) 4) eqn:E4].
  - split_and!; try done. 1: cbn [_M_mode setg]; by rewrite E3. right. exists 0. cbn -[Z.testbit].
    rewrite drop_0. split_and!; try done; [lia..|by left].
  - split_and!; try done. 1: cbn [_M_mode setg]; by rewrite E3. right. exists (length xs). cbn -[Z.testbit].
    rewrite drop_all Nat.add_0_r. split_and!; try done. by right.
  - split_and!; try done. 1: by rewrite E3.
    left. destruct H7 as [(A1 & A2 & A3 & A4 & A5)|(off & _ & _ & _ & _ & _ & _ & [?|?])]; [done|congruence..].
Qed.

Section wp.
  Context (md : mode).
  Implicit Types (Q : stream → hprop scell).
  Lemma wp_sync s own xs rest p Q R :
    _M_string s = Some own →
    sobj own xs rest p -∗ (sobj own xs rest p -∗ Q (synced s p (length xs))) -∗ wp md (sync s) Q R.
  Proof.
    intros Hs. apply wp_read. intros m h HP Hm. pose proof (sobj_view _ _ _ _ _ _ HP Hm) as Hv.
    unfold sync. rewrite Hs /bind (s_data_eq _ _ _ _ _ _ Hv) (s_size_eq _ _ _ _ _ _ Hv).
    change m_in with (2 ^ 3)%Z. change m_out with (2 ^ 4)%Z. rewrite !land_bit //.
  Qed.
  Lemma wp_open_str mode str xs rest q Q R :
    sobj str xs rest q -∗
    ((⌜mA md = true⌝ → sobj str xs rest q -∗ R BadAlloc) ∧
     (∀ own p s, sobj str xs rest q -∗ sobj own xs [0%N] p -∗
        ⌞_M_mode s = mode ∧ linked s (x_open (if Z.testbit mode 3 then xs else []) (OfString (Z.testbit mode 3))) (Some (own, p, xs))⌟ -∗
        Q s)) -∗
    wp md (open_str mode str) Q R.
  Proof.
    iIntros "H HQ". unfold open_str. wbind. iApply (wp_s_data_obj with "H"). iIntros "[H Hb]".
    wstep wp_s_size "H". iAssert (sobj str xs rest q) with "[$H $Hb]" as "H".
    wbind. iApply (wp_s_make with "H"); [apply reads_str|rewrite app_length; lia|].
    rewrite take_app. iSplit; [by iDestruct "HQ" as "[HQ _]"|iDestruct "HQ" as "[_ HQ]"].
    iIntros (own p) "H Ho". wbind. iApply (wp_sync with "Ho"); [done|]. iIntros "Ho".
    wret. iApply ("HQ" $! own p with "H Ho"). iPureIntro. split.
    { unfold synced. cbn [_M_mode fresh]. by destruct (Z.testbit mode 3), (Z.testbit mode 4). }
    assert (linked (ios_init true (fresh mode (Some own))) (x_open [] (OfString (Z.testbit mode 3))) (Some (own, p, xs))) as Hl.
    { split_and!; try done. - by right. - by left. }
    apply (linked_sync _ _ _ _ _ p xs) in Hl. cbn [_M_mode ios_init fresh] in Hl.
    change (X _ _ _ _ _ _) with (x_open (if Z.testbit mode 3 then xs else []) (OfString (Z.testbit mode 3))) in Hl.
    replace (ios_init true (synced _ _ _)) with (synced (ios_init true (fresh mode (Some own))) p (length xs)); [done|].
    unfold synced. cbn [_M_mode ios_init fresh]. by destruct (Z.testbit mode 3), (Z.testbit mode 4).
  Qed.
  Lemma wp_with_string {A} cs (f : loc → MS A) (Q : A → hprop scell) R P :
    P -∗
    ((⌜mA md = true⌝ → P -∗ R BadAlloc) ∧
     (∀ tmp rest q, P -∗ sobj tmp cs rest q -∗
        wp md (f tmp) (λ a, Q a ∗ sobj tmp cs rest q) (λ e, R e ∗ sobj tmp cs rest q))) -∗
    wp md (with_string cs f) Q R.
  Proof.
    iIntros "HP H". unfold with_string. wbind.
    iApply (wp_s_make _ emp%I); [apply reads_ext|done|done|]. rewrite take_ge; [|lia]. iSplit.
    { iDestruct "H" as "[H _]". iIntros (HA) "_". by iApply "H". }
    iDestruct "H" as "[_ H]". iIntros (tmp q) "_ Ht". wbind. iApply wp_on_throw.
    iApply (wp_wand with "[H HP Ht]"); [iApply ("H" with "HP Ht")|]. iSplit.
    - iIntros (a) "[HQ Ht]". wbind. iApply (wp_s_dtor with "Ht"). iIntros "_". by wret.
    - iIntros (e) "[HR Ht]". iApply (wp_s_dtor with "Ht"). by iIntros "_".
  Qed.
End wp.

(** a stream variable or a FILE *)
Definition buf_at (b : buffer) : hprop scell :=
  (match b with None => emp | Some (own, p, xs) => ∃ rest, sobj own xs rest p end)%I.
Definition file_at (ol : option loc) : hprop scell :=
  (match ol with Some l => l ↦ SHdr 0 0 None | None => emp end)%I.
Definition is_file (src : source) : bool := match src with OfFile => true | _ => false end.
Definition strm (sl : stream * option loc) (x : xstream) : hprop scell :=
  (∃ b, ⌞linked sl.1 x b ∧ is_file (x_src x) = bool_decide (is_Some sl.2)⌟ ∗ buf_at b ∗ file_at sl.2)%I.
Lemma buf_at_view b h m : buf_at b h → h ⊆ blk m → view_of m b.
Proof.
  destruct b as [[[own p] xs]|]; [|done]. intros [rest H] Hm. eexists _, rest. by eapply sobj_view.
Qed.

Section ops.
  Context (md : mode).
  Notation rep := (objs strm).
  Implicit Types (env : genv) (s : gmap nat xstream).

  Lemma op_gdecl env s h x (f : MS (stream * option loc)) :
    s !! h = None →
    (emp ⊢ wp md f (λ l, strm l x) (unch md emp)) →
    rep env s ⊢ wp md (g_decl env h f) (λ eo, ⌞eo.2 = GoUnit true⌟ ∗ rep eo.1 (<[h := x]> s)) (unch md (rep env s)).
  Proof.
    iIntros (Hh Hf) "H". iDestruct (objs_none with "H") as %He; [done|].
    rewrite /g_decl He. wbind. iApply (wp_wand with "[]"); [by iApply Hf|]. iSplit.
    - iIntros (l) "Hx". wret. iSplitR; [done|]. simpl. iApply objs_add; [done|]. iFrame.
    - iIntros (e) "[$ _]". iFrame.
  Qed.
  (** a call that leaves the memory alone *)
  Lemma op_gcall {A} env s h x x' (f : stream → MS (stream * A)) (o : stream → A → gout) out :
    s !! h = Some x → is_file (x_src x') = is_file (x_src x) →
    (∀ st b m, linked st x b → view_of m b → ∃ st' a, f st m = Ok (st', a) m ∧ linked st' x' b ∧ o st' a = out) →
    rep env s ⊢ wp md (g_call env h f o) (λ eo, ⌞eo.2 = out⌟ ∗ rep eo.1 (<[h := x']> s)) (unch md (rep env s)).
  Proof.
    iIntros (Hh Hsrc Hf) "H". iDestruct (objs_upd with "H") as ([st l] Hl) "[Hx H]"; [done|].
    rewrite /g_call Hl. iDestruct "Hx" as (b [Hlk Hfile]) "[Hb Hc]". wbind.
    iApply (wp_read_some md (buf_at b) _ (λ r, linked r.1 x' b ∧ o r.1 r.2 = out) with "Hb").
    { intros m hp HP Hm. destruct (Hf st b m Hlk (buf_at_view _ _ _ HP Hm)) as (st' & a & E & Hl' & Ho).
      by exists (st', a). }
    iIntros ([st' a] [Hl' Ho]) "Hb". wret. iSplitR; [done|]. cbn [fst snd]. iApply ("H" $! (st', l) x').
    iExists b. iFrame. iPureIntro. split; [done|]. by rewrite Hsrc.
  Qed.
  Lemma op_gread {A} env s h x (f : SM A) (o : A → gout) out :
    s !! h = Some x →
    (∀ st b m, linked st x b → ∃ a, f st m = Ok (st, SRet a) m ∧ o a = out) →
    rep env s ⊢ wp md (g_read env h f o) (λ eo, ⌞eo.2 = out⌟ ∗ rep eo.1 s) (unch md (rep env s)).
  Proof.
    iIntros (Hh Hf) "H". iDestruct (objs_read with "H") as ([st l] Hl) "[Hx H]"; [done|].
    rewrite /g_read Hl. iDestruct "Hx" as (b [Hlk Hfile]) "[Hb Hc]". wbind.
    iApply (wp_read_some md (buf_at b) _ (λ r, r.1 = st ∧ ∃ a, r.2 = SRet a ∧ o a = out) with "Hb").
    { intros m hp HP Hm. destruct (Hf st b m Hlk) as (a & E & Ho).
      exists (st, SRet a). split; [done|]. split; [done|]. by exists a. }
    iIntros ([st' r] [Hl' (a & Hr & Ho)]) "Hb". simpl in Hl', Hr. subst. cbn [fst snd]. wret. iSplitR; [done|]. cbn [fst].
    rewrite insert_id //. iApply "H". iExists b. by iFrame.
  Qed.
  (** a call through rdbuf() *)
  Lemma op_gbuf {A} env s h x pos (f : SM A) (o : A → gout) out :
    s !! h = Some x → has_buffer x = true →
    (∀ st own p xs m, linked st x (Some (own, p, xs)) → view_of m (Some (own, p, xs)) →
       ∃ st' a, f st m = Ok (st', SRet a) m ∧ linked st' (x_move x pos) (Some (own, p, xs)) ∧ o a = out) →
    rep env s ⊢ wp md (g_buf env h f o) (λ eo, ⌞eo.2 = out⌟ ∗ rep eo.1 (<[h := x_move x pos]> s)) (unch md (rep env s)).
  Proof.
    iIntros (Hh Hbuf Hf) "H". iDestruct (objs_upd with "H") as ([st l] Hl) "[Hx H]"; [done|].
    rewrite /g_buf /g_read Hl. iDestruct "Hx" as (b [Hlk Hfile]) "[Hb Hc]". wbind.
    iApply (wp_read_some md (buf_at b) _ (λ r, linked r.1 (x_move x pos) b ∧ ∃ a, r.2 = SRet a ∧ o a = out) with "Hb").
    { intros m hp HP Hm. destruct b as [[[own p] xs]|].
      - destruct (Hf st own p xs m Hlk (buf_at_view _ _ _ HP Hm)) as (st' & a & E & Hl' & Ho).
        exists (st', SRet a). split; [|split; [done|by exists a]].
        erewrite sbind_ok; [exact E|]. by rewrite (linked_buf _ _ _ _ _ Hlk).
      - destruct Hlk as (_ & _ & _ & Hn & _). unfold has_buffer in Hbuf. by rewrite Hn in Hbuf. }
    iIntros ([st' r] [Hl' (a & Hr & Ho)]) "Hb". simpl in Hr. subst. cbn [fst snd]. wret. iSplitR; [done|]. cbn [fst snd].
    iApply ("H" $! (st', l) (x_move x pos)). iExists b. by iFrame.
  Qed.

  Context (cut : list N → list N) (skip : xstream → xstream * gout).
  Definition gok (fails : bool) (op : gop) : Prop :=
    match op with
    | GStr _ cs => cut cs = until_null cs ∧ fails = false
    | GNewI _ | GNewS _ => fails = false
    | GSentry _ noskip => noskip = true ∨ ∀ x, skip x = no_skip x
    | _ => True
    end.

  Lemma no_failure_as b : no_failure (as_res b) = b.
  Proof. by destruct b. Qed.

  Lemma gspec_op_spec : op_spec (gspec cut skip) g_run (gok (mA md)) rep md.
  Proof.
    intros env s op s' o Hok Hst. change (rep env s ⊢ wp md (g_run env op) (λ eo, ⌞eo.2 = o⌟ ∗ rep eo.1 s') (unch md (rep env s))).
    assert (∀ h cs mode, s !! h = None →
      rep env s ⊢ wp md (g_decl env h (s <- with_string cs (open_str mode);; ret (s, None)))
        (λ eo, ⌞eo.2 = GoUnit true⌟ ∗ rep eo.1 (<[h := x_open (if Z.testbit mode 3 then cs else []) (OfString (Z.testbit mode 3))]> s))
        (unch md (rep env s))) as Hopen.
    { intros h cs mode Hh. apply op_gdecl; [done|]. iIntros "_". wbind.
      iApply (wp_with_string md cs _ _ _ emp%I); [done|]. iSplit; [iIntros (HA) "_"; by iSplit|].
      iIntros (tmp rest q) "_ Ht". iApply (wp_open_str with "Ht"). iSplit.
      { iIntros (HA) "$". by iSplit. }
      iIntros (own p st) "$ Ho [% %Hl]". wret. iExists (Some (own, p, cs)). iSplitR; [done|].
      iSplitL; [|done]. by iExists _. }
    destruct op as [h cs mode|h cs mode|h|h|h|h cs|h c0|h|h n|h|h|h|h|h|h|h|h z|h z|h z|h|h cs|h|h|h|h|h n|h|h|h|h noskip|h|h|h size n|h|h];
      simpl in Hst, Hok |- *;
      unfold xdecl, xcall, xread, xbuf in Hst;
      repeat match type of Hst with
      | match s !! ?h with _ => _ end = _ => destruct (s !! h) as [x|] eqn:Hh; [|]
      | (if has_buffer ?x then _ else _) = _ => destruct (has_buffer x) eqn:Hbuf; [|]
      | (if is_iostate ?z then _ else _) = _ => destruct (is_iostate z) eqn:Hz; [|]
      end; try discriminate Hst.
    - injection Hst as <- <-. pose proof (Hopen h cs (Z.lor mode m_in) Hh) as Ho.
      by replace (Z.testbit (Z.lor mode m_in) 3) with true in Ho by (rewrite Z.lor_spec orb_true_r //).
    - injection Hst as <- <-. by apply Hopen.
    - injection Hst as <- <-. apply op_gdecl; [done|]. iIntros "_". wbind. unfold open_empty. wbind.
      iApply wp_s_new; [done|]. iIntros (own p) "Ho". wret. wret. iExists (Some (own, p, [])).
      iSplitR; [|iSplitL; [by iExists _|done]]. iPureIntro. split; [|done].
      split_and!; try done. + by right. + by left.
    - injection Hst as <- <-. apply op_gdecl; [done|]. iIntros "_". wbind. unfold open_empty. wbind.
      iApply wp_s_new; [done|]. iIntros (own p) "Ho". wret. wret. iExists (Some (own, p, [])).
      iSplitR; [|iSplitL; [by iExists _|done]]. iPureIntro. split; [|done].
      split_and!; try done. + by right. + by left.
    - injection Hst as <- <-. apply op_gdecl; [done|]. iIntros "_". wret. iExists None.
      iSplitR; [|iSplitL; done]. iPureIntro. split; [|done]. split_and!; done.
    - injection Hst as <- <-. apply op_gdecl; [done|]. iIntros "_". wbind. unfold fmemopen. wbind.
      iApply wp_alloc. iSplit; [iIntros (?); by iSplit|]. iIntros (l) "Hl".
      wbind. iApply wp_on_throw. wbind.
      iApply (wp_s_make _ emp%I); [apply reads_ext|done|done|]. rewrite take_ge; [|lia]. iSplit.
      { iIntros (HA) "_". iApply (wp_free' with "Hl"). iIntros "_". by iSplit. }
      iIntros (tmp q) "_ Ht". wbind. iApply wp_on_throw. iApply (wp_open_str with "Ht"). iSplit.
      { iIntros (HA) "Ht". iApply (wp_s_dtor with "Ht"). iIntros "_". iApply (wp_free' with "Hl"). iIntros "_". by iSplit. }
      iIntros (own p st) "Ht Ho [% %Hlk]". wbind. iApply (wp_s_dtor with "Ht"). iIntros "_". wret. wret. wret.
      iExists (Some (own, p, cs)). iFrame "Hl". iSplitR; [|by iExists _]. iPureIntro. split; [|done].
      destruct Hlk as (H1 & H2 & H3 & H4 & H5 & H6 & H7). split_and!; try done. by left.
    - injection Hst as <- <-. apply (op_gcall _ _ _ x); [done|by rewrite /= x_get_src|]. intros st b m Hl Hv.
      destruct (get_eq _ _ _ _ c0 Hl Hv) as (st' & E & Hl'). eexists _, _. split; [exact E|]. split; [done|].
      cbn [fst snd]. by rewrite no_failure_as.
    - injection Hst as <- <-. apply (op_gcall _ _ _ x); [done|by rewrite /= x_unget_src|]. intros st b m Hl Hv.
      destruct (unget_eq _ _ _ _ Hl Hv) as (st' & E & Hl'). eexists _, _. split; [exact E|]. split; [done|].
      by rewrite no_failure_as.
    - injection Hst as <- <-. apply (op_gcall _ _ _ x); [done|by rewrite /= x_read_src|]. intros st b m Hl Hv.
      destruct (read_eq _ _ _ _ n Hl Hv) as (st' & E & Hl'). eexists _, _. split; [exact E|]. split; [done|].
      cbn [fst snd]. by rewrite no_failure_as.
    - injection Hst as <- <-. apply (op_gread _ _ _ x); [done|]. intros st b m Hl. eexists. split; [done|].
      by destruct Hl as (_ & _ & -> & _).
    - injection Hst as <- <-. apply (op_gread _ _ _ x); [done|]. intros st b m Hl. eexists. split; [done|].
      by destruct Hl as (-> & _).
    - injection Hst as <- <-. apply (op_gread _ _ _ x); [done|]. intros st b m Hl. eexists. split; [done|].
      destruct Hl as (-> & _). by rewrite num_0.
    - injection Hst as <- <-. apply (op_gread _ _ _ x); [done|]. intros st b m Hl. eexists. split; [done|].
      destruct Hl as (-> & _). by rewrite num_eof.
    - injection Hst as <- <-. apply (op_gread _ _ _ x); [done|]. intros st b m Hl. eexists. split; [done|].
      destruct Hl as (-> & _). by rewrite num_fail.
    - injection Hst as <- <-. apply (op_gread _ _ _ x); [done|]. intros st b m Hl. eexists. split; [done|].
      destruct Hl as (-> & _). by rewrite num_fail.
    - injection Hst as <- <-. apply (op_gread _ _ _ x); [done|]. intros st b m Hl. eexists. split; [done|].
      destruct Hl as (-> & _). by rewrite num_fail.
    - injection Hst as <- <-. apply (op_gcall _ _ _ x); [done|by rewrite x_clear_src|]. intros st b m Hl Hv.
      destruct (clear_eq _ _ _ (bits z) m Hl) as (st' & E & Hl'). rewrite num_bits // in E.
      eexists _, _. split; [exact E|]. split; [done|]. by rewrite no_failure_as.
    - injection Hst as <- <-. apply (op_gcall _ _ _ x); [done|by rewrite x_setstate_src|]. intros st b m Hl Hv.
      destruct (setstate_eq _ _ _ (bits z) m Hl) as (st' & E & Hl'). rewrite num_bits // in E.
      eexists _, _. split; [exact E|]. split; [done|]. by rewrite no_failure_as.
    - injection Hst as <- <-. apply (op_gcall _ _ _ x); [done|by rewrite x_clear_src|]. intros st b m Hl Hv.
      set (x' := X _ _ _ _ _ _).
      assert (linked (set_exception st z) x' b) as Hl1.
      { destruct Hl as (H1 & H2 & H3 & Hb). split_and!; try done. simpl. by rewrite num_bits. }
      destruct (clear_eq _ _ _ (x_st x) m Hl1) as (st' & E & Hl').
      eexists _, _. split; [|split; [exact Hl'|]].
      + unfold set_exceptions. sstep. sstep. replace (_M_streambuf_state _) with (num (x_st x)); [exact E|].
        symmetry. exact (proj1 Hl).
      + by rewrite no_failure_as.
    - injection Hst as <- <-. apply (op_gread _ _ _ x); [done|]. intros st b m Hl. eexists. split; [done|].
      by destruct Hl as (_ & -> & _).
    - destruct (x_src x) as [|r|] eqn:Esrc; [done| |done]. injection Hst as <- <-. destruct Hok as [Hnul HA]. rewrite Hnul.
      iIntros "H". iDestruct (objs_upd with "H") as ([st l] Hl) "[Hx H]"; [done|].
      rewrite /g_call Hl. iDestruct "Hx" as (b [Hlk Hfile]) "[Hb Hc]". cbn [fst snd] in *. wbind. wbind.
      destruct b as [[[own p] xs]|]; last first.
      { destruct Hlk as (_ & _ & _ & H & _). by rewrite Esrc in H. }
      iDestruct "Hb" as (rest) "Hb". pose proof Hlk as (_ & _ & _ & Hsrc & _ & Hown & _).
      iApply (wp_with_string md cs with "Hb"). iSplit; [iIntros (?); congruence|].
      iIntros (tmp rest' q) "Hb Ht". unfold set_str. rewrite Hown. wbind.
      iApply (wp_s_assign_str with "Hb Ht"); [by left|]. iIntros (rest1 p1) "Hb Ht".
      iApply (wp_sync with "Hb"); [done|]. iIntros "Hb". iFrame "Ht". wret. wret. iSplitR; [done|]. cbn [fst snd].
      iApply ("H" $! (_, l)). iExists (Some (own, p1, until_null cs)). iFrame "Hc". iSplitR; [|by iExists _].
      iPureIntro. split; [|by rewrite /= -Hfile Esrc].
      pose proof (linked_sync _ _ _ _ _ p1 (until_null cs) Hlk) as HL. rewrite Esrc in HL.
      destruct Hsrc as [Hsrc|Hsrc]; rewrite Esrc in Hsrc; [done|]. injection Hsrc as ->. done.
    - injection Hst as <- <-. apply op_gbuf; [done..|]. intros st own p xs m Hl Hv. eexists _, _.
      split; [by eapply sgetc_eq|]. split; [|done]. rewrite x_move_id //. by eapply linked_pos.
    - injection Hst as <- <-. apply op_gbuf; [done..|]. intros st own p xs m Hl Hv.
      destruct (bump_eq _ _ _ _ _ _ Hl Hv) as (st' & E & Hl'). by eexists _, _.
    - injection Hst as <- <-. apply op_gbuf; [done..|]. intros st own p xs m Hl Hv.
      destruct (next_eq _ _ _ _ _ _ Hl Hv) as (st' & E & Hl'). by eexists _, _.
    - injection Hst as <- <-. apply op_gbuf; [done..|]. intros st own p xs m Hl Hv.
      destruct (back_eq _ _ _ _ _ _ Hl Hv) as (st' & E & Hl'). eexists _, _. split; [exact E|].
      destruct (x_pos x); done.
    - injection Hst as <- <-. apply op_gbuf; [done..|]. intros st own p xs m Hl Hv.
      destruct (getn_eq _ _ _ _ _ _ n Hl Hv) as (st' & E & Hl'). by eexists _, _.
    - injection Hst as <- <-. apply op_gbuf; [done..|]. intros st own p xs m Hl Hv. eexists _, _.
      split; [done|]. split; [|done]. rewrite x_move_id //. by eapply linked_pos.
    - injection Hst as <- <-. apply (op_gread _ _ _ x); [done|]. intros st b m Hl. eexists. split; [done|].
      destruct Hl as (_ & _ & _ & Hl). unfold has_buffer. destruct b as [[[own p] xs]|].
      + destruct Hl as ([-> | ->] & -> & _); done.
      + destruct Hl as (-> & -> & _); done.
    - injection Hst as <- <-. rewrite -{2}(insert_id s h x) //. apply (op_gcall _ _ _ x); [done..|]. intros st b m Hl Hv.
      eexists _, _. split; [|split; [exact Hl|]].
      + unfold flush. sstep. erewrite (sbind_ok _ _ _ _ st 0%Z m); [reflexivity|]. by destruct (_M_streambuf st).
      + done.
    - injection Hst as <- <-. apply (op_gcall _ _ _ x); [done| |].
      { destruct Hok as [->|Hok].
        - destruct (none_set _); [done|]. exact (f_equal is_file (x_setstate_src _ _)).
        - rewrite Hok. destruct noskip, (none_set _); try done; try exact (f_equal is_file (x_setstate_src _ _)).
          exact (f_equal is_file (no_skip_src _)). }
      intros st b m Hl Hv. destruct (full_sentry_eq _ _ _ noskip m Hl Hv) as (st' & r & E & Hl' & Hr).
      exists st', r. split; [exact E|]. rewrite Hr.
      destruct Hok as [->|Hok]; [by destruct (none_set _)|]. rewrite Hok. by destruct (none_set _), noskip.
    - injection Hst as <- <-. by apply (op_gread _ _ _ x); [done|]; intros st b m Hl; eexists.
    - injection Hst as <- <-. by apply (Hopen h [99; 105; 110]%N (Z.lor m_in m_out)).
    - destruct (decide (size = 1)) as [->|]; [|done]. destruct (s !! h) as [x|] eqn:Hh; [|done].
      injection Hst as <- <-. apply (op_gcall _ _ _ x); [done|by rewrite /= x_read_src|]. intros st b m Hl Hv.
      destruct (read_eq _ _ _ _ n Hl Hv) as (st' & E & Hl'). eexists _, _. split; [|split; [exact Hl'|]].
      + unfold fread. change (1 =? 1) with true. cbv iota. rewrite Nat.mul_1_l. unfold bind. rewrite E. reflexivity.
      + cbn [fst snd]. rewrite Nat.div_1_r. destruct (x_read x n).2 eqn:Er; [|done]. cbn [as_res].
        by destruct Hl' as (_ & _ & -> & _); rewrite x_read_count.
    - destruct (is_file (x_src x)) eqn:Ef; [by destruct (x_src x)|].
      assert (s' = delete h s ∧ o = GoUnit true) as [-> ->] by (destruct (x_src x); naive_solver).
      iIntros "H". iDestruct (objs_del with "H") as ([st l] Hl) "[Hx H]"; [done|].
      rewrite Hl. iDestruct "Hx" as (b [Hlk Hfile]) "[Hb Hc]". cbn [fst snd] in *.
      destruct l as [l|]; [by rewrite bool_decide_true // Ef in Hfile|]. wbind. unfold close.
      destruct b as [[[own p] xs]|].
      + destruct Hlk as (_ & _ & _ & _ & _ & -> & _). iDestruct "Hb" as (rest) "Hb".
        iApply (wp_s_dtor with "Hb"). iIntros "_". wret. by iFrame.
      + destruct Hlk as (_ & _ & _ & _ & _ & -> & _). wret. wret. by iFrame.
    - destruct (x_src x) eqn:Ef; try done. injection Hst as <- <-.
      iIntros "H". iDestruct (objs_del with "H") as ([st l] Hl) "[Hx H]"; [done|].
      rewrite Hl. iDestruct "Hx" as (b [Hlk Hfile]) "[Hb Hc]". cbn [fst snd] in *. rewrite Ef in Hfile. simpl in Hfile.
      destruct l as [l|]; [|done]. wbind. unfold fclose, close. wbind.
      destruct b as [[[own p] xs]|].
      + destruct Hlk as (_ & _ & _ & _ & _ & -> & _). iDestruct "Hb" as (rest) "Hb".
        iApply (wp_s_dtor with "Hb"). iIntros "_". iApply (wp_free' with "Hc"). iIntros "_". wret. by iFrame.
      + destruct Hlk as (_ & _ & _ & Hb & _). by rewrite Ef in Hb.
  Qed.
End ops.
