(** Input streams: the lemmas behind the property theorems. *)
From iris.proofmode Require Import tactics.
From Verif Require Import SLTac HistGen HistMore ModelString SpecString StringFacts StringProofs ModelStream SpecStream StreamProofs.

Lemma g_refines ao co :
  no_fail ao → no_fail co → refines_from xspec g_run ∅ ∅ (λ s, s = ∅) plain_op ao co.
Proof.
  intros Hao Hco evs s env m Hh Hok.
  assert (bool_decide (¬ no_fail ao) = false) as Eb by (apply bool_decide_eq_false; tauto).
  assert (∀ op, plain_op op → gok (λ cs, cs) skips (bool_decide (¬ no_fail ao)) op) as Hp.
  { rewrite Eb. intros []; try done; intros H; [split; [|done]; by rewrite until_null_id|by left]. }
  destruct (gen_refines strm _ _ _ (λ md H, gspec_op_spec md (λ cs, cs) skips) ao co Hco evs s env m Hh) as (H1 & H2 & H3 & H4).
  { eapply Forall_impl; [exact Hok|]. intros ev. apply Hp. }
  split; [done|]. split; [done|]. split; [|done]. intros op Hop. by apply H3, Hp.
Qed.
Lemma g_refines_failing ao co :
  no_fail co → refines_from xspec g_run ∅ ∅ (λ s, s = ∅) strong_op ao co.
Proof.
  intros Hco evs s env m Hh Hok.
  assert (∀ op, strong_op op → gok (λ cs, cs) skips (bool_decide (¬ no_fail ao)) op) as Hp by (intros []; try done; intros H; by left).
  destruct (gen_refines strm _ _ _ (λ md H, gspec_op_spec md (λ cs, cs) skips) ao co Hco evs s env m Hh) as (H1 & H2 & H3 & H4).
  { eapply Forall_impl; [exact Hok|]. intros ev. apply Hp. }
  split; [done|]. split; [done|]. split; [|done]. intros op Hop. by apply H3, Hp.
Qed.
Lemma g_refines_cut ao co :
  no_fail ao → no_fail co → refines_from (gspec until_null no_skip) g_run ∅ ∅ (λ s, s = ∅) (λ _, True) ao co.
Proof.
  apply (gen_fair strm _ _ (gok until_null no_skip)).
  - intros []; try done. by right.
  - intros md H. apply gspec_op_spec.
Qed.

Lemma g_gives_of s env m ops s' os :
  g_state s env m → spec_run (gspec until_null no_skip) s ops = Some (s', os) → g_gives s env m ops os s'.
Proof.
  intros (ao & evs & Hao & Hh) Hr.
  eapply (exec_spec_run _ _ ∅ ∅ (λ s, s = ∅) (λ _, True) ao []); [|exact Hao|exact Hh|by apply Forall_forall..|exact Hr].
  apply g_refines_cut; [done|constructor].
Qed.
Lemma g_state_inv s env m h x :
  g_state s env m → s !! h = Some x →
  x_pos x ≤ length (x_txt x) ∧ (x_src x = NoBuffer → f_bad (x_st x) = true).
Proof.
  intros (ao & evs & Hao & Hh) Hx.
  destruct (gen_reach strm _ _ (gok until_null no_skip) (λ md H, gspec_op_spec md until_null no_skip) false ao [] evs s env m
    (λ _, Hao) ltac:(constructor) Hh) as [Ho _].
  { apply Forall_forall. intros [[] ?] _; try done. by right. }
  destruct (objs_at _ _ _ _ _ _ Ho Hx) as (l & h' & _ & [b Hs] & _). apply pure_sep_inv in Hs as [[Hl _] _].
  destruct Hl as (_ & _ & _ & Hb). destruct b as [[[own p] xs]|].
  - destruct Hb as (Hsrc & _ & _ & Ha). split.
    + destruct Ha as [(_ & _ & _ & -> & ->)|(off & _ & _ & _ & _ & _ & H & _)]; [simpl; lia|done].
    + intros E. destruct Hsrc; congruence.
  - destruct Hb as (Hsrc & _ & _ & Hbad & _ & _ & _ & -> & ->). split; [simpl; lia|done].
Qed.

Lemma flags_good f : none_set f = true → f = no_flags.
Proof. by destruct f as [[] [] []]. Qed.
Lemma good_src s env m h x :
  g_state s env m → s !! h = Some x → none_set (x_st x) = true → x_src x ≠ NoBuffer.
Proof.
  intros Hs Hx Hg E. destruct (g_state_inv _ _ _ _ _ Hs Hx) as [_ Hb]. specialize (Hb E).
  by destruct (x_st x) as [[] [] []].
Qed.

(** ** The specification, call by call *)
Section calls.
  Context (x : xstream).
  Lemma x_clear_buf f : x_src x ≠ NoBuffer → x_clear x f = (x_set x f, negb (meet f (x_mask x))).
  Proof. unfold x_clear. by destruct (x_src x). Qed.
  Lemma x_clear_bad f : f_bad f = true → x_clear x f = (x_set x f, negb (meet f (x_mask x))).
  Proof. unfold x_clear. destruct (x_src x), f as [[] [] []]; done. Qed.
  Lemma x_get_ok c0 c :
    none_set (x_st x) = true → x_txt x !! x_pos x = Some c → x_get x c0 = (x_at x (x_pos x + 1) 1, c, true).
  Proof. intros Hg Hc. unfold x_get. cbn [x_st x_at x_txt x_pos]. by rewrite Hg Hc. Qed.
  Lemma x_unget_ok p :
    none_set (x_st x) = true → x_src x ≠ NoBuffer → x_pos x = S p → x_unget x = (x_at x p 0, true).
  Proof.
    intros Hg Hs Hp. destruct x as [txt pos st mask count src]. simpl in *. subst. apply flags_good in Hg as ->.
    unfold x_unget, x_clear. simpl. by destruct src.
  Qed.
  Lemma x_read_ok n :
    none_set (x_st x) = true → x_pos x + n ≤ length (x_txt x) →
    x_read x n = (x_at x (x_pos x + n) n, take n (drop (x_pos x) (x_txt x)), true).
  Proof.
    intros Hg Hn. unfold x_read. rewrite Hg.
    assert (length (take n (drop (x_pos x) (x_txt x))) = n) as El by (rewrite take_length drop_length; lia).
    rewrite El. by destruct (decide (n = n)).
  Qed.
End calls.
Lemma spec_run_app {S Op Out} (step : S → Op → option (S * Out)) s ops1 ops2 :
  spec_run step s (ops1 ++ ops2) =
    match spec_run step s ops1 with
    | Some (s1, os1) => match spec_run step s1 ops2 with Some (s2, os2) => Some (s2, os1 ++ os2) | None => None end
    | None => None
    end.
Proof.
  revert s. induction ops1 as [|op ops1 IH]; intros s; simpl.
  { by destruct (spec_run step s ops2) as [[? ?]|]. }
  destruct (step s op) as [[s1 o]|]; [|done]. rewrite IH.
  destruct (spec_run step s1 ops1) as [[s2 os]|]; [|done].
  by destruct (spec_run step s2 ops2) as [[? ?]|].
Qed.
Ltac look := first [rewrite lookup_insert | match goal with H : ?s !! ?h = Some _ |- context [?s !! ?h] => rewrite H end].
Ltac grun := unfold spec_run, gspec, xcall, xread; repeat (look; cbn [fst snd]); rewrite ?insert_insert.

Lemma g_reads s env m h x rs ds pos :
  g_state s env m → s !! h = Some x → none_set (x_st x) = true →
  cursor (x_txt x) (x_pos x) rs = Some (ds, pos) →
  ∃ n, g_gives s env m (concat (calls_of h <$> rs)) (concat (zip_with answers_to rs ds)) (<[h := x_at x pos n]> s).
Proof.
  intros Hs Hx Hg Hc. pose proof (good_src _ _ _ _ _ Hs Hx Hg) as Hb.
  assert (∃ n, spec_run (gspec until_null no_skip) s (concat (calls_of h <$> rs)) =
    Some (<[h := x_at x pos n]> s, concat (zip_with answers_to rs ds))) as [n Hr]; last by exists n; apply g_gives_of.
  clear Hs. revert s x ds Hx Hg Hb Hc. induction rs as [|r rs IH]; intros s x ds Hx Hg Hb Hc.
  { injection Hc as <- <-. exists (x_count x). simpl. by rewrite insert_id; [|destruct x]. }
  simpl in Hc.
  assert (∃ cs p, match r with
      | RGet => given c := x_txt x !! x_pos x ;; Some ([c], x_pos x + 1)
      | RUnget => match x_pos x with S pos => Some ([], pos) | O => None end
      | RRead n => if decide (x_pos x + n ≤ length (x_txt x)) then Some (take n (drop (x_pos x) (x_txt x)), x_pos x + n) else None
      end = Some (cs, p) ∧
      spec_run (gspec until_null no_skip) s (calls_of h r) = Some (<[h := x_at x p (length cs)]> s, answers_to r cs)) as (cs & p & Hd & Hr).
  { destruct r as [| |n].
    - destruct (x_txt x !! x_pos x) as [c|] eqn:Ec; [|done]. exists [c], (x_pos x + 1).
      split; [done|]. unfold calls_of. grun. by rewrite (x_get_ok _ _ _ Hg Ec).
    - destruct (x_pos x) as [|p] eqn:Ep; [done|]. exists [], p. split; [done|].
      unfold calls_of. grun. by rewrite (x_unget_ok _ _ Hg Hb Ep).
    - destruct (decide _) as [Hn|]; [|done]. exists (take n (drop (x_pos x) (x_txt x))), (x_pos x + n). split; [done|].
      unfold calls_of. grun. rewrite (x_read_ok _ _ Hg Hn). unfold answers_to.
      rewrite take_length drop_length Nat.min_l; [done|lia]. }
  rewrite Hd in Hc. cbn [fst snd] in Hc. destruct (cursor (x_txt x) p rs) as [[ds' p']|] eqn:Ec; [|done].
  injection Hc as <- <-. destruct (IH (<[h := x_at x p (length cs)]> s) (x_at x p (length cs)) ds') as [n Hn];
    [by rewrite lookup_insert|done|done|done|].
  exists n. cbn [fmap list_fmap concat zip_with]. rewrite spec_run_app Hr. simpl. rewrite Hn. simpl.
  by rewrite insert_insert.
Qed.

Lemma g_decl_reads s env m d h cs rs ds pos :
  g_state s env m → gspec until_null no_skip s d = Some (<[h := x_open cs (OfString true)]> s, GoUnit true) →
  cursor cs 0 rs = Some (ds, pos) →
  ∃ s', g_gives s env m (d :: concat (calls_of h <$> rs)) (GoUnit true :: concat (zip_with answers_to rs ds)) s'.
Proof.
  intros Hs Hd Hc.
  destruct (g_gives_of s env m [d] (<[h := x_open cs (OfString true)]> s) [GoUnit true] Hs) as (env' & m' & E).
  { unfold spec_run. by rewrite Hd. }
  assert (g_state (<[h := x_open cs (OfString true)]> s) env' m') as Hs'.
  { destruct Hs as (ao & evs & Hao & Hh). exists ao, (evs ++ zip [d] (Ret <$> [GoUnit true])). split; [done|].
    eapply hist_app; [exact Hh|]. by eapply exec_hist. }
  destruct (g_reads _ _ _ h (x_open cs (OfString true)) rs ds pos Hs') as (n & env2 & m2 & E2);
    [by rewrite lookup_insert|done|done|].
  exists (<[h := x_at (x_open cs (OfString true)) pos n]> s), env2, m2.
  rewrite insert_insert in E2. cbn [exec] in E |- *. rewrite Hd in E |- *. cbn [fst snd] in *.
  destruct (g_run env d m) as [[env1 o1] m1|? m1| |]; try done.
  - injection E as -> -> ->. rewrite E2. done.
Qed.
Lemma g_open_reads s env m h cs mode rs ds pos :
  g_state s env m → s !! h = None → cursor cs 0 rs = Some (ds, pos) →
  ∃ s', g_gives s env m (GOpenI h cs mode :: concat (calls_of h <$> rs)) (GoUnit true :: concat (zip_with answers_to rs ds)) s'.
Proof. intros Hs Hx. apply g_decl_reads; [done|]. unfold gspec, xdecl. by rewrite Hx. Qed.

(** the state after an unsuccessful read *)
Section fail.
  Context (s : gmap nat xstream) (env : genv) (m : mem scell) (h : nat) (x : xstream).
  Context (Hs : g_state s env m) (Hx : s !! h = Some x).
  Notation ok f := (Z.eqb (Z.land (num f) (num (x_mask x))) 0).
  Lemma ok_meet f g : Z.eqb (Z.land (num f) (num g)) 0 = negb (meet f g).
  Proof. by destruct f as [[] [] []], g as [[] [] []]. Qed.

  Lemma get_at_end c0 :
    none_set (x_st x) = true → x_pos x = length (x_txt x) →
    g_gives s env m [GGet h c0; GGcount h; GRdstate h]
      [GoChar c0 (Z.eqb (Z.land (eofbit + failbit) (num (x_mask x))) 0); GoNum 0; GoNum (eofbit + failbit)]
      (<[h := X (x_txt x) (x_pos x) (Flags false true true) (x_mask x) 0 (x_src x)]> s).
  Proof.
    intros Hg Hp. pose proof (good_src _ _ _ _ _ Hs Hx Hg) as Hb. apply g_gives_of; [done|].
    assert (x_get x c0 = (X (x_txt x) (x_pos x) (Flags false true true) (x_mask x) 0 (x_src x), c0,
      ok (Flags false true true))) as E.
    { unfold x_get. cbn [x_st x_at x_txt x_pos]. rewrite Hg lookup_ge_None_2; [|lia].
      unfold x_setstate. rewrite x_clear_buf //. cbn [x_st x_at]. rewrite (flags_good _ Hg) ok_meet. done. }
    grun. rewrite E. done.
  Qed.
  Lemma short_read n :
    none_set (x_st x) = true → length (x_txt x) < x_pos x + n →
    g_gives s env m [GRead h n; GGcount h; GRdstate h]
      [GoChars (drop (x_pos x) (x_txt x)) (Z.eqb (Z.land (eofbit + failbit) (num (x_mask x))) 0);
       GoNum (Z.of_nat (length (x_txt x) - x_pos x)); GoNum (eofbit + failbit)]
      (<[h := X (x_txt x) (length (x_txt x)) (Flags false true true) (x_mask x) (length (x_txt x) - x_pos x) (x_src x)]> s).
  Proof.
    intros Hg Hn. pose proof (good_src _ _ _ _ _ Hs Hx Hg) as Hb. destruct (g_state_inv _ _ _ _ _ Hs Hx) as [Hp _].
    apply g_gives_of; [done|].
    assert (x_read x n = (X (x_txt x) (length (x_txt x)) (Flags false true true) (x_mask x) (length (x_txt x) - x_pos x) (x_src x),
      drop (x_pos x) (x_txt x), ok (Flags false true true))) as E.
    { unfold x_read. rewrite Hg take_ge; [|rewrite drop_length; lia]. rewrite drop_length.
      destruct (decide _) as [|_]; [lia|].
      unfold x_setstate. rewrite x_clear_buf //. cbn [x_st x_at]. rewrite (flags_good _ Hg) ok_meet.
      unfold x_set, x_at. cbn [fst snd x_txt x_pos x_mask x_count x_src].
      replace (x_pos x + (length (x_txt x) - x_pos x)) with (length (x_txt x)) by lia. done. }
    grun. rewrite E. done.
  Qed.
  (** nothing is delivered by a stream that is not good *)
  Lemma not_good c0 n :
    none_set (x_st x) = false →
    let f := both (x_st x) (Flags false false true) in
    g_gives s env m [GGet h c0; GGcount h; GRead h n; GGcount h; GRdstate h]
      [GoChar c0 (ok f); GoNum 0; GoChars [] (ok f); GoNum 0; GoNum (Z.lor (num (x_st x)) failbit)]
      (<[h := X (x_txt x) (x_pos x) f (x_mask x) 0 (x_src x)]> s).
  Proof.
    intros Hg f. destruct (g_state_inv _ _ _ _ _ Hs Hx) as [_ Hb].
    change failbit with (num (Flags false false true)). rewrite num_lor. fold f.
    apply g_gives_of; [done|]. set (x1 := X _ _ _ _ _ _).
    assert (∀ y, x_st y = x_st x ∨ x_st y = f → x_src y = x_src x →
      x_setstate y (Flags false false true) = (x_set y f, negb (meet f (x_mask y)))) as HS.
    { intros y Hy Hsrc. unfold x_setstate.
      assert (both (x_st y) (Flags false false true) = f) as ->.
      { destruct Hy as [-> | ->]; [done|]. unfold f. by destruct (x_st x) as [[] [] []]. }
      assert (x_src y = NoBuffer ∨ x_src y ≠ NoBuffer) as [E|E] by (destruct (x_src y); naive_solver); [|by apply x_clear_buf].
      apply x_clear_bad. unfold f. rewrite Hsrc in E. simpl. by rewrite Hb. }
    assert (x_get x c0 = (x1, c0, ok f)) as E1.
    { unfold x_get. cbn [x_st x_at]. rewrite Hg HS; [|by left|done]. by rewrite ok_meet. }
    assert (x_read x1 n = (x1, [], ok f)) as E2.
    { unfold x_read. replace (none_set (x_st x1)) with false by (unfold x1, f; by destruct (x_st x) as [[] [] []]).
      rewrite HS; [|by right|done]. by rewrite ok_meet. }
    grun. rewrite E1. cbn [fst snd]. rewrite E2. done.
  Qed.
  Lemma queries :
    ∃ z, (0 ≤ z < 8)%Z ∧
    g_gives s env m [GRdstate h; GGood h; GEof h; GFail h; GBool h; GNot h]
      [GoNum z; GoBool (Z.eqb z 0); GoBool (Z.testbit z 1); GoBool (Z.testbit z 0 || Z.testbit z 2);
       GoBool (negb (Z.testbit z 0 || Z.testbit z 2)); GoBool (Z.testbit z 0 || Z.testbit z 2)] s.
  Proof.
    exists (num (x_st x)). split; [by destruct (x_st x) as [[] [] []]|].
    apply g_gives_of; [done|]. grun. by destruct (x_st x) as [[] [] []].
  Qed.
  (** unget *)
  Lemma unget_start :
    f_bad (x_st x) = false → f_fail (x_st x) = false → x_pos x = 0 →
    g_gives s env m [GUnget h; GRdstate h]
      [GoUnit (Z.eqb (Z.land badbit (num (x_mask x))) 0); GoNum badbit]
      (<[h := X (x_txt x) 0 (Flags true false false) (x_mask x) 0 (x_src x)]> s).
  Proof.
    intros H1 H2 Hp. destruct (g_state_inv _ _ _ _ _ Hs Hx) as [_ Hb]. apply g_gives_of; [done|].
    assert (x_unget x = (X (x_txt x) 0 (Flags true false false) (x_mask x) 0 (x_src x), ok (Flags true false false))) as E.
    { unfold x_unget. cbn [x_st x_at]. rewrite H1 H2 x_clear_buf; [|intros E; specialize (Hb E); congruence].
      cbn [fst snd]. change (negb (meet _ _)) with true. cbv iota. change (none_set _) with true. cbv iota.
      cbn [x_pos x_set x_at fst snd]. rewrite Hp. unfold x_setstate. rewrite x_clear_bad; [|done]. rewrite ok_meet.
      unfold x_set, x_at. done. }
    grun. by rewrite E.
  Qed.
  Lemma unget_eof p :
    f_bad (x_st x) = false → f_fail (x_st x) = false → x_pos x = S p →
    g_gives s env m [GUnget h; GRdstate h; GGcount h] [GoUnit true; GoNum 0; GoNum 0]
      (<[h := X (x_txt x) p no_flags (x_mask x) 0 (x_src x)]> s).
  Proof.
    intros H1 H2 Hp. destruct (g_state_inv _ _ _ _ _ Hs Hx) as [_ Hb]. apply g_gives_of; [done|].
    assert (x_unget x = (X (x_txt x) p no_flags (x_mask x) 0 (x_src x), true)) as E.
    { unfold x_unget. cbn [x_st x_at]. rewrite H1 H2 x_clear_buf; [|intros E; specialize (Hb E); congruence].
      cbn [fst snd]. change (negb (meet _ _)) with true. cbv iota. change (none_set _) with true. cbv iota.
      cbn [x_pos x_set x_at fst snd]. by rewrite Hp. }
    grun. by rewrite E.
  Qed.
  Lemma unget_failed :
    f_bad (x_st x) || f_fail (x_st x) = true → x_mask x = no_flags →
    g_gives s env m [GUnget h; GRdstate h] [GoUnit true; GoNum (Z.lor (Z.land (num (x_st x)) badbit) failbit)]
      (<[h := X (x_txt x) (x_pos x) (Flags (f_bad (x_st x)) false true) no_flags 0 (x_src x)]> s).
  Proof.
    intros H1 Hm. destruct (g_state_inv _ _ _ _ _ Hs Hx) as [_ Hb]. apply g_gives_of; [done|].
    assert (x_unget x = (X (x_txt x) (x_pos x) (Flags (f_bad (x_st x)) false true) no_flags 0 (x_src x), true)) as E.
    { destruct x as [txt pos [bad e fl] mask cnt src]. simpl in *. subst mask.
      destruct bad, fl, src; try done; unfold x_unget, x_setstate, x_clear; simpl; try done; by specialize (Hb eq_refl). }
    grun. rewrite E. by destruct (x_st x) as [[] [] []].
  Qed.
  Lemma get_unget_get c0 d0 c :
    none_set (x_st x) = true → x_txt x !! x_pos x = Some c →
    let s' := <[h := X (x_txt x) (x_pos x + 1) no_flags (x_mask x) 1 (x_src x)]> s in
    g_gives s env m [GGet h c0] [GoChar c true] s' ∧
    g_gives s env m [GGet h c0; GUnget h; GGet h d0] [GoChar c true; GoUnit true; GoChar c true] s'.
  Proof.
    intros Hg Hc. pose proof (good_src _ _ _ _ _ Hs Hx Hg) as Hb. simpl. rewrite -(flags_good _ Hg).
    pose proof (x_get_ok x c0 c Hg Hc) as E1.
    assert (x_unget (x_at x (x_pos x + 1) 1) = (x_at x (x_pos x) 0, true)) as E2.
    { apply (x_unget_ok (x_at x (x_pos x + 1) 1)); [done..|]. cbn [x_pos x_at]. lia. }
    assert (x_get (x_at x (x_pos x) 0) d0 = (x_at x (x_pos x + 1) 1, c, true)) as E3.
    { by apply (x_get_ok (x_at x (x_pos x) 0)). }
    split; (apply g_gives_of; [done|]); grun; rewrite E1; [done|]. cbn [fst snd]. rewrite E2. cbn [fst snd]. by rewrite E3.
  Qed.
  (** clear, setstate, exceptions *)
  Notation no_buf := (match x_src x with NoBuffer => badbit | _ => 0%Z end).
  Lemma num_bits' z : is_iostate z = true → num (bits z) = z.
  Proof. apply num_bits. Qed.
  Lemma clear_gives z :
    (0 ≤ z < 8)%Z →
    let z' := Z.lor z no_buf in
    ∃ s', g_gives s env m [GClear h z; GRdstate h] [GoUnit (Z.eqb (Z.land z' (num (x_mask x))) 0); GoNum z'] s'.
  Proof.
    intros Hz z'. assert (is_iostate z = true) as Hi by (unfold is_iostate; rewrite andb_true_iff Z.leb_le Z.ltb_lt; lia).
    exists (<[h := (x_clear x (bits z)).1]> s). apply g_gives_of; [done|]. unfold spec_run, gspec. rewrite Hi. unfold xcall, xread. look. look. unfold x_clear.
    cbn [fst snd]. unfold z'. clear z'. pose proof (num_bits z Hi) as Ez. revert Ez. generalize (bits z). intros b <-. destruct (x_src x); cbn [x_st x_set];
      rewrite -?ok_meet ?Z.lor_0_r //.
    change badbit with (num (Flags true false false)). by rewrite num_lor.
  Qed.
  Lemma setstate_gives z :
    (0 ≤ z < 8)%Z →
    let z' := Z.lor (num (x_st x)) z in
    ∃ s', g_gives s env m [GSetstate h z; GRdstate h] [GoUnit (Z.eqb (Z.land z' (num (x_mask x))) 0); GoNum z'] s'.
  Proof.
    intros Hz z'. assert (is_iostate z = true) as Hi by (unfold is_iostate; rewrite andb_true_iff Z.leb_le Z.ltb_lt; lia).
    destruct (g_state_inv _ _ _ _ _ Hs Hx) as [_ Hb].
    exists (<[h := (x_setstate x (bits z)).1]> s). apply g_gives_of; [done|]. unfold spec_run, gspec. rewrite Hi. unfold xcall, xread. look. look. unfold x_setstate, x_clear.
    cbn [fst snd]. unfold z'. clear z'. pose proof (num_bits z Hi) as Ez. revert Ez. generalize (bits z). intros b <-. rewrite num_lor.
    destruct (x_src x); cbn [x_st x_set]; rewrite -?ok_meet //.
    replace (both (both (x_st x) b) (Flags true false false)) with (both (x_st x) b); [done|].
    specialize (Hb eq_refl). destruct (x_st x) as [[] ? ?]; [|done]. unfold both. simpl. by rewrite !orb_false_r.
  Qed.
  Lemma mask_gives z :
    (0 ≤ z < 8)%Z →
    ∃ s', g_gives s env m [GMask h z; GGetMask h; GRdstate h]
      [GoUnit (Z.eqb (Z.land (num (x_st x)) z) 0); GoNum z; GoNum (num (x_st x))] s'.
  Proof.
    intros Hz. assert (is_iostate z = true) as Hi by (unfold is_iostate; rewrite andb_true_iff Z.leb_le Z.ltb_lt; lia).
    destruct (g_state_inv _ _ _ _ _ Hs Hx) as [_ Hb].
    exists (<[h := (x_clear (X (x_txt x) (x_pos x) (x_st x) (bits z) (x_count x) (x_src x)) (x_st x)).1]> s). apply g_gives_of; [done|]. unfold spec_run, gspec. rewrite Hi. unfold xcall, xread. look. look. look. unfold x_clear.
    cbn [fst snd]. pose proof (num_bits z Hi) as Ez. revert Ez. generalize (bits z). intros b <-.
    destruct (x_src x); cbn [x_st x_set x_mask x_src]; rewrite -?ok_meet //.
    replace (both (x_st x) (Flags true false false)) with (x_st x); [done|].
    specialize (Hb eq_refl). by destruct (x_st x) as [[] [] []].
  Qed.
  (** str *)
  Lemma str_gives cs c0 :
    x_src x = OfString true → none_set (x_st x) = true →
    let ds := until_null cs in
    ∃ s', g_gives s env m [GStr h cs; GRead h (length ds); GGet h c0; GEof h]
      [GoUnit true; GoChars ds true; GoChar c0 (Z.eqb (Z.land (eofbit + failbit) (num (x_mask x))) 0); GoBool true] s'.
  Proof.
    intros Hsrc Hg ds. eexists. apply g_gives_of; [done|].
    unfold spec_run, gspec, xcall, xread. look. rewrite Hsrc. do 3 look. fold ds.
    set (x1 := X ds 0 (x_st x) (x_mask x) (x_count x) (OfString true)).
    pose proof (x_read_ok x1 (length ds) Hg ltac:(simpl; lia)) as E1. cbn [x_pos x_txt x1] in E1.
    rewrite drop_0 take_ge // in E1. rewrite E1. cbn [fst snd].
    unfold x_get. cbn [x_st x_at x_txt x_pos x1]. rewrite Hg lookup_ge_None_2; [|lia]. cbn [fst snd].
    unfold x_setstate, x_clear. cbn [x_src x_at x_st x1 fst snd x_mask x_set]. rewrite (flags_good _ Hg).
    change (eofbit + failbit)%Z with (num (Flags false true true)). rewrite ok_meet. reflexivity.
  Qed.
End fail.

Lemma slices_nil ns : slices [] ns = replicate (length ns) [].
Proof. induction ns as [|n ns IH]; [done|]. simpl. by rewrite take_nil drop_nil IH. Qed.
Lemma file_gives s env m h cs ns :
  g_state s env m → s !! h = None →
  g_gives s env m (GFile h cs :: (GFread h 1 <$> ns) ++ [GFclose h])
    (GoUnit true :: ((λ c, GoRead c (Some (length c))) <$> slices cs ns) ++ [GoUnit true]) s.
Proof.
  intros Hs Hx. apply g_gives_of; [done|].
  assert (∀ ns s x, s !! h = Some x → x_src x = OfFile → x_mask x = no_flags → x_pos x ≤ length (x_txt x) →
    (none_set (x_st x) = false → x_pos x = length (x_txt x)) →
    spec_run (gspec until_null no_skip) s ((GFread h 1 <$> ns) ++ [GFclose h]) =
      Some (delete h s, ((λ c, GoRead c (Some (length c))) <$> slices (drop (x_pos x) (x_txt x)) ns) ++ [GoUnit true])) as HR.
  { clear. assert (∀ f, meet f no_flags = false) as Hmeet by (by intros [[] [] []]).
    intros ns. induction ns as [|n ns IH]; intros s x Hx Hsrc Hm Hp Hg.
    - simpl. by rewrite Hx Hsrc.
    - cbn [fmap list_fmap app spec_run gspec]. destruct (decide (1 = 1)); [|done]. unfold xcall. rewrite Hx. cbn [fst snd].
      assert (∃ x', x_read x n = (x', take n (drop (x_pos x) (x_txt x)), true) ∧ x_src x' = OfFile ∧ x_mask x' = no_flags ∧
        x_txt x' = x_txt x ∧ x_pos x' ≤ length (x_txt x) ∧ drop n (drop (x_pos x) (x_txt x)) = drop (x_pos x') (x_txt x) ∧
        (none_set (x_st x') = false → x_pos x' = length (x_txt x))) as (x' & -> & H1 & H2 & H3 & H4 & H5 & H6).
      { unfold x_read. destruct (none_set (x_st x)) eqn:Eg.
        - destruct (decide _) as [El|El].
          + eexists. split; [done|]. rewrite El. cbn [x_src x_mask x_txt x_pos x_at x_st].
            split_and!; try done. * rewrite take_length drop_length in El. lia. * by rewrite drop_drop. * by rewrite Eg.
          + rewrite take_length drop_length in El. unfold x_setstate, x_clear. cbn [x_src x_at x_mask]. rewrite Hsrc Hm.
            eexists. split; [cbn [fst snd]; rewrite Hmeet; reflexivity|].
            cbn [x_src x_mask x_txt x_pos x_at x_st x_set fst]. rewrite take_length drop_length.
            split_and!; try done; [lia|rewrite drop_drop !drop_ge //; lia|lia].
        - specialize (Hg eq_refl). unfold x_setstate, x_clear. cbn [x_src x_at x_mask]. rewrite Hsrc Hm.
          rewrite drop_ge; [|lia]. rewrite take_nil. eexists. split; [cbn [fst snd]; rewrite Hmeet; reflexivity|].
          cbn [x_src x_mask x_txt x_pos x_at x_st x_set fst]. rewrite drop_nil drop_ge; [|lia]. split_and!; done. }
      cbn [fst snd]. rewrite (IH _ x'); [|by rewrite lookup_insert|done|done|by rewrite H3|by rewrite H3].
      rewrite delete_insert_delete H3 -H5. done. }
  cbn [spec_run gspec]. unfold xdecl. rewrite Hx.
  rewrite (HR ns _ (x_open cs OfFile)); [|by rewrite lookup_insert|done|done|simpl; lia|done].
  by rewrite delete_insert.
Qed.

(** ** through the buffer *)
Lemma buffer_reads s env m h before after st mask count src rs os before' after' :
  g_state s env m → s !! h = Some (X (rev before ++ after) (length before) st mask count src) → src ≠ NoBuffer →
  split_read before after rs = (os, (before', after')) →
  g_gives s env m (bcall h <$> rs) os (<[h := X (rev before' ++ after') (length before') st mask count src]> s).
Proof.
  intros Hs Hx Hb Hr. apply g_gives_of; [done|]. clear Hs.
  assert (∀ txt pos, has_buffer (X txt pos st mask count src) = true) as Hbuf by (by destruct src).
  revert s before after os Hx Hr. induction rs as [|r rs IH]; intros s before after os Hx Hr.
  { injection Hr as <- <- <-. simpl. by rewrite insert_id. }
  cbn [split_read] in Hr.
  set (d := match r, before, after with BPeek, _, _ => _ | _, _, _ => _ end) in Hr.
  assert (∃ o b a, d = (o, b, a) ∧ gspec until_null no_skip s (bcall h r) =
    Some (<[h := X (rev b ++ a) (length b) st mask count src]> s, o)) as (o & b & a & Ed & Eg).
  { assert (∀ f, xbuf s h f =
      let x := X (rev before ++ after) (length before) st mask count src in
      Some (<[h := X (rev before ++ after) (Nat.min (f x).1 (length before + length after)) st mask count src]> s, (f x).2)) as Hf.
    { intros f. unfold xbuf. rewrite Hx Hbuf. unfold x_move, x_at. cbn [x_txt x_st x_mask x_count x_src].
      by rewrite app_length rev_length. }
    assert (∀ i, (rev before ++ after) !! (length before + i) = after !! i) as Hi.
    { intros i. rewrite lookup_app_r rev_length; [|lia]. f_equal. lia. }
    assert ((rev before ++ after) !! length before = head after) as H0.
    { pose proof (Hi 0) as H. rewrite Nat.add_0_r in H. rewrite H. by destruct after. }
    subst d. destruct r as [| | | |n]; cbn [bcall gspec]; rewrite Hf; unfold x_char; cbn [fst snd x_pos x_txt].
    - eexists _, _, _. split; [done|]. rewrite H0 Nat.min_l; [|lia]. by destruct after.
    - rewrite H0. destruct after as [|c cs]; (eexists _, _, _; split; [done|]); simpl.
      + by rewrite Nat.min_r; [rewrite Nat.add_0_r|lia].
      + rewrite Nat.min_l; [|lia]. by rewrite -app_assoc Nat.add_1_r.
    - rewrite Hi. destruct after as [|c cs]; (eexists _, _, _; split; [done|]); simpl.
      + by rewrite Nat.min_r; [rewrite Nat.add_0_r|lia].
      + rewrite Nat.min_l; [|lia]. rewrite -app_assoc Nat.add_1_r. by destruct cs.
    - destruct before as [|c cs]; (eexists _, _, _; split; [done|]); cbn [length rev fst snd].
      + done.
      + rewrite Nat.min_l; [|lia]. rewrite -!app_assoc. simpl.
        rewrite lookup_app_r rev_length //. by rewrite Nat.sub_diag.
    - eexists _, _, _. split; [done|]. rewrite drop_app_alt; [|by rewrite rev_length].
      rewrite rev_app_distr rev_involutive app_length rev_length take_length -app_assoc take_drop.
      do 3 f_equal. f_equal. lia. }
  rewrite Ed in Hr. destruct (split_read b a rs) as [os' sp] eqn:Er. injection Hr as <- ->.
  cbn [fmap list_fmap spec_run]. rewrite Eg. rewrite (IH _ b a os'); [|by rewrite lookup_insert|done].
  by rewrite insert_insert.
Qed.
Lemma split_read_txt before after rs os b a :
  split_read before after rs = (os, (b, a)) → rev b ++ a = rev before ++ after.
Proof.
  revert before after os. induction rs as [|r rs IH]; intros before after os Hr; [by injection Hr as <- <- <-|].
  cbn [split_read] in Hr. set (d := match r, before, after with BPeek, _, _ => _ | _, _, _ => _ end) in Hr.
  destruct d as [[o b1] a1] eqn:Ed. destruct (split_read b1 a1 rs) as [os' sp] eqn:Er. injection Hr as <- ->.
  rewrite (IH _ _ _ Er). subst d.
  destruct r, before as [|c1 cs1], after as [|c2 cs2]; injection Ed as <- <- <-; simpl;
    rewrite ?rev_app_distr ?rev_involutive -?app_assoc ?take_nil ?drop_nil ?take_drop //.
Qed.
Lemma buffer_gives s env m h x rs os b a :
  g_state s env m → s !! h = Some x → x_src x ≠ NoBuffer →
  split_read (rev (take (x_pos x) (x_txt x))) (drop (x_pos x) (x_txt x)) rs = (os, (b, a)) →
  g_gives s env m (bcall h <$> rs) os (<[h := X (x_txt x) (length b) (x_st x) (x_mask x) (x_count x) (x_src x)]> s).
Proof.
  intros Hs Hx Hb Hr. destruct (g_state_inv _ _ _ _ _ Hs Hx) as [Hp _].
  pose proof (split_read_txt _ _ _ _ _ _ Hr) as Et. rewrite rev_involutive take_drop in Et. rewrite -Et.
  eapply buffer_reads; [done| |done|done]. rewrite rev_involutive take_drop rev_length take_length Nat.min_l //. by rewrite Hx; destruct x.
Qed.
Lemma flush_gives s env m h x :
  g_state s env m → s !! h = Some x →
  g_gives s env m [GFlush h; GRdbuf h] [GoUnit true; GoBool (has_buffer x)] s.
Proof. intros Hs Hx. apply g_gives_of; [done|]. by grun. Qed.
Lemma sync_gives s env m h x :
  g_state s env m → s !! h = Some x → x_src x ≠ NoBuffer → g_gives s env m [GSync h] [GoNum 0] s.
Proof.
  intros Hs Hx Hb. destruct (g_state_inv _ _ _ _ _ Hs Hx) as [Hp _]. apply g_gives_of; [done|].
  cbn [spec_run gspec]. unfold xbuf. rewrite Hx. assert (has_buffer x = true) as -> by (unfold has_buffer; by destruct (x_src x)).
  cbn [fst snd]. rewrite x_move_id // insert_id //.
Qed.

Definition gneq (o o' : gout) : bool :=
  match o, o' with GoChars cs b, GoChars cs' b' => negb (bool_decide (cs = cs') && eqb b b') | _, _ => false end.
Lemma gneq_refl o : gneq o o = false.
Proof. destruct o; try done. simpl. by rewrite bool_decide_true // eqb_reflx. Qed.
Lemma str_wrong :
  wrong xspec g_run gneq (λ _, true) ∅ ∅ (mem0 [] []) [GNewI 1; GStr 1 [97; 0; 98]%N] (GRead 1 3) = true.
Proof. vm_compute. reflexivity. Qed.

(** ** The sentry *)
Section sentry.
  Context (s : gmap nat xstream) (env : genv) (m : mem scell) (h : nat) (x : xstream).
  Context (Hs : g_state s env m) (Hx : s !! h = Some x).
  Lemma sentry_noskip :
    none_set (x_st x) = true → g_gives s env m [GSentry h true] [GoBool true] s.
  Proof.
    intros Hg. apply g_gives_of; [done|]. unfold spec_run, gspec, xcall. look. cbn [fst snd]. rewrite Hg. cbn [fst snd].
    by rewrite insert_id.
  Qed.
  Lemma sentry_not_good noskip :
    none_set (x_st x) = false →
    let f := both (x_st x) (Flags false false true) in
    g_gives s env m [GSentry h noskip; GRdstate h]
      [if meet f (x_mask x) then GoUnit false else GoBool false; GoNum (Z.lor (num (x_st x)) failbit)]
      (<[h := X (x_txt x) (x_pos x) f (x_mask x) (x_count x) (x_src x)]> s).
  Proof.
    intros Hg f. apply g_gives_of; [done|].
    assert (x_setstate x (Flags false false true) = (x_set x f, negb (meet f (x_mask x)))) as E.
    { unfold x_setstate. fold f. destruct (g_state_inv _ _ _ _ _ Hs Hx) as [_ Hb].
      destruct (x_src x) eqn:Esrc; [|apply x_clear_buf; by rewrite Esrc..].
      apply x_clear_bad. subst f. by rewrite /= Hb. }
    unfold spec_run, gspec, xcall, xread. look. cbn [fst snd]. rewrite Hg. unfold x_fail. rewrite E. cbn [fst snd]. look.
    change failbit with (num (Flags false false true)). rewrite num_lor. cbn [x_st x_set]. fold f.
    by destruct (meet f (x_mask x)).
  Qed.
  Lemma sentry_skip :
    none_set (x_st x) = true →
    let f := Flags true false (negb (f_bad (x_mask x))) in
    g_gives s env m [GSentry h false; GRdstate h]
      [if f_bad (x_mask x) then GoBadCast else if f_fail (x_mask x) then GoUnit false else GoBool false;
       GoNum (if f_bad (x_mask x) then badbit else Z.lor badbit failbit)]
      (<[h := X (x_txt x) (x_pos x) f (x_mask x) (x_count x) (x_src x)]> s).
  Proof.
    intros Hg f. apply g_gives_of; [done|].
    pose proof (good_src _ _ _ _ _ Hs Hx Hg) as Hsrc.
    unfold spec_run, gspec, xcall, xread. look. cbn [fst snd]. rewrite Hg. unfold no_skip.
    rewrite (flags_good _ Hg). subst f. destruct (f_bad (x_mask x)) eqn:Eb.
    - cbn [fst snd]. look. done.
    - unfold x_fail, x_setstate. rewrite x_clear_buf //. cbn [fst snd]. look. rewrite (flags_good _ Hg).
      assert (∀ g, f_bad g = false → meet (both no_flags (Flags true false true)) g = f_fail g) as Hm by by intros [[] [] []].
      rewrite Hm //.
      by destruct (f_fail _).
  Qed.
  Lemma flags_gives : g_gives s env m [GFlags h] [GoNum 4098] s.
  Proof. apply g_gives_of; [done|]. unfold spec_run, gspec, xread. by look. Qed.
End sentry.
Definition bneq (o o' : gout) : bool :=
  match o, o' with GoBool b, GoBool b' => negb (eqb b b') | _, _ => false end.
Lemma bneq_refl o : bneq o o = false.
Proof. destruct o; try done. simpl. by rewrite eqb_reflx. Qed.
Lemma skip_wrong :
  wrong xspec g_run bneq (λ op, match op with GStr _ _ => false | _ => true end) ∅ ∅ (mem0 [] [])
    [GOpenI 1 [32; 97]%N 0] (GSentry 1 false) = true.
Proof. vm_compute. reflexivity. Qed.
Lemma skip_refuted :
  ¬ refines_from xspec g_run ∅ ∅ (λ s, s = ∅) (λ op, match op with GStr _ _ => False | _ => True end) [] [].
Proof. apply (wrong_refutes _ _ _ _ _ _ _ _ _ _ _ _ skip_wrong bneq_refl). by intros []. Qed.
Lemma cin_reads s env m h rs ds pos :
  g_state s env m → s !! h = None → cursor [99; 105; 110]%N 0 rs = Some (ds, pos) →
  ∃ s', g_gives s env m (GCin h :: concat (calls_of h <$> rs)) (GoUnit true :: concat (zip_with answers_to rs ds)) s'.
Proof. intros Hs Hx. apply g_decl_reads; [done|]. unfold gspec, xdecl. by rewrite Hx. Qed.
Lemma cin_read s env m h n :
  g_state s env m → s !! h = None →
  ∃ s', g_gives s env m [GCin h; GRead h n; GRdstate h]
    [GoUnit true; GoChars (take n [99; 105; 110]%N) true; GoNum (if 3 <? n then (eofbit + failbit)%Z else 0%Z)] s'.
Proof.
  intros Hs Hx. eexists. apply g_gives_of; [done|]. unfold spec_run, gspec, xdecl, xcall, xread. rewrite Hx. look. cbn [fst snd].
  look. destruct n as [|[|[|[|n]]]]; done.
Qed.
Lemma g_gives_fun s env m ops os s' os2 s2 :
  g_gives s env m ops os s' → g_gives s env m ops os2 s2 → length os = length ops → length os2 = length ops → os = os2.
Proof.
  intros (e1 & m1 & E1) (e2 & m2 & E2) Hl1 Hl2. rewrite E1 in E2. injection E2 as H _ _ _.
  clear E1. revert os os2 H Hl1 Hl2. induction ops as [|op ops IH]; intros [|o os] [|o2 os2] H Hl1 Hl2; try done.
  cbn in H. injection H as -> H. f_equal. apply IH; [exact H|..]; by injection Hl1; injection Hl2.
Qed.
Lemma cin_other s env m h cs :
  g_state s env m → s !! h = None → cs ≠ [99; 105; 110]%N →
  ¬ ∀ n, ∃ s', g_gives s env m [GCin h; GRead h n; GRdstate h]
    [GoUnit true; GoChars (take n cs) true; GoNum (if length cs <? n then (eofbit + failbit)%Z else 0%Z)] s'.
Proof.
  intros Hs Hx Hne H. destruct (H (3 + length cs)) as [s1 H1]. destruct (cin_read s env m h (3 + length cs) Hs Hx) as [s2 H2].
  pose proof (g_gives_fun _ _ _ _ _ _ _ _ H1 H2 eq_refl eq_refl) as E. injection E as E _.
  rewrite take_nil take_ge in E; [|lia]. done.
Qed.
