(** Output goes where, and in the order in which, the standard would put it. *)
From iris.prelude Require Import prelude.
From Verif Require Import ModelOstream SpecOstream.

Lemma c_str_id t : 0%Z ∉ t → c_str t = t.
Proof.
  induction t as [|c t IH]; intros H; [done|]. simpl. apply not_elem_of_cons in H as [Hc H].
  destruct (Z.eqb_spec c 0); [by subst|]. by rewrite IH.
Qed.
Lemma runtime_const g os e tr : runtime_ostream g os e true tr = (tt, tr).
Proof. done. Qed.
Definition printed g os (e : event) : trace := match dev_of g os with Some d => [(d, e)] | None => [] end.
Lemma runtime_run g os e tr : runtime_ostream g os e false tr = (tt, tr ++ printed g os e).
Proof.
  unfold runtime_ostream, printed, dev_of.
  destruct (Pos.eqb_spec (cout g) os) as [->|]; [rewrite decide_True //|]. rewrite decide_False //.
  destruct (Pos.eqb_spec (cerr g) os) as [->|]; [rewrite decide_True //|]. rewrite decide_False //.
  destruct (Pos.eqb_spec (clog g) os) as [->|]; [rewrite decide_True //|]. rewrite decide_False //.
  by rewrite app_nil_r.
Qed.
Lemma insert_run g os x tr : plain x → insert g os x false tr = (os, tr ++ printed g os (std_event x)).
Proof.
  destruct x; simpl; intros Hp; try done; unfold then_return; rewrite runtime_run //.
  by rewrite c_str_id.
Qed.
Lemma insert_os g os x ce tr : (insert g os x ce tr).1 = os.
Proof. by destruct x. Qed.
Lemma chain_os g os xs ce tr : (chain g os xs ce tr).1 = os.
Proof.
  revert tr. induction xs as [|x xs IH]; intros tr; [done|]. simpl.
  pose proof (insert_os g os x ce tr) as H. destruct (insert g os x ce tr) as [os' tr']. simpl in H. by subst.
Qed.
Definition chain_printed g os (xs : list item) : trace :=
  match dev_of g os with Some d => (λ x, (d, std_event x)) <$> xs | None => [] end.
Lemma chain_run g os xs tr : Forall plain xs → chain g os xs false tr = (os, tr ++ chain_printed g os xs).
Proof.
  revert tr. induction xs as [|x xs IH]; intros tr Hp; simpl.
  - unfold chain_printed. by destruct (dev_of g os); rewrite /= app_nil_r.
  - apply Forall_cons_1 in Hp as [Hx Hp]. rewrite insert_run // IH // -app_assoc. do 2 f_equal.
    unfold printed, chain_printed. by destruct (dev_of g os).
Qed.
Lemma insert_const g os x tr : insert g os x true tr = (os, tr).
Proof. by destruct x. Qed.
Lemma chain_const g os xs tr : chain g os xs true tr = (os, tr).
Proof. induction xs as [|x xs IH]; [done|]. cbn [chain]. by rewrite insert_const. Qed.
Lemma statements_run g p tr :
  Forall (λ s, Forall plain s.2) p → statements g p false tr = (tt, tr ++ std_events g p).
Proof.
  revert tr. induction p as [|[os xs] p IH]; intros tr Hp; simpl; [by rewrite app_nil_r|].
  apply Forall_cons_1 in Hp as [Hx Hp]. rewrite chain_run // IH //. simpl. by rewrite -app_assoc.
Qed.
Lemma statements_const g p tr : statements g p true tr = (tt, tr).
Proof. induction p as [|[os xs] p IH]; [done|]. cbn [statements]. rewrite chain_const. done. Qed.
Lemma other_silent g os xs ce tr : dev_of g os = None → chain g os xs ce tr = (os, tr).
Proof.
  intros Hd. destruct ce; [apply chain_const|]. revert tr. induction xs as [|x xs IH]; intros tr; [done|]. cbn [chain].
  assert (insert g os x false tr = (os, tr)) as ->; [|done].
  destruct x; simpl; try done; unfold then_return; rewrite runtime_run; unfold printed; by rewrite Hd app_nil_r.
Qed.
Lemma shown_app d tr tr' : shown d (tr ++ tr') = shown d tr ++ shown d tr'.
Proof. unfold shown. by rewrite list.filter_app fmap_app. Qed.
Lemma shown_eq d e tr : shown d ((d, e) :: tr) = e :: shown d tr.
Proof. unfold shown. by rewrite filter_cons_True. Qed.
Lemma shown_ne d d' e tr : d' ≠ d → shown d ((d', e) :: tr) = shown d tr.
Proof. intros H. unfold shown. by rewrite filter_cons_False. Qed.
Lemma shown_chain g os xs d :
  shown d (chain_printed g os xs) = if decide (dev_of g os = Some d) then std_event <$> xs else [].
Proof.
  unfold chain_printed. destruct (dev_of g os) as [d'|] eqn:E; [|done].
  destruct (decide (d' = d)) as [->|Hn].
  - destruct (decide (Some d = Some d)) as [_|Hd]; [|by destruct Hd]. induction xs as [|x xs IH]; [done|]. by rewrite !fmap_cons shown_eq IH.
  - destruct (decide (Some d' = Some d)) as [Hd|_]; [congruence|].
    induction xs as [|x xs IH]; [done|]. by rewrite fmap_cons shown_ne.
Qed.
(** what a stream shows afterwards: the items inserted into it, in order *)
Lemma statements_shown g p tr d :
  Forall (λ s, Forall plain s.2) p →
  shown d (statements g p false tr).2 =
    shown d tr ++ (s ← p; if decide (dev_of g s.1 = Some d) then std_event <$> s.2 else []).
Proof.
  intros Hp. rewrite statements_run //. simpl. rewrite shown_app. f_equal.
  clear Hp. induction p as [|[os xs] p IH]; [done|]. simpl. rewrite shown_app IH. f_equal.
  apply (shown_chain g os xs d).
Qed.

Lemma format_plain t : 37%Z ∉ t → std_format t = Some t.
Proof.
  induction t as [|c t IH]; intros H; [done|]. apply not_elem_of_cons in H as [Hc H]. cbn [std_format].
  rewrite (IH H). destruct c as [|c|c]; [done| |done].
  repeat (destruct c as [c|c|]; try done).
Qed.
Lemma printf0_run format tr :
  0%Z ∉ format → 37%Z ∉ format →
  std_format format = Some format ∧
  printf0 format false tr = (Z.of_nat (length format), tr ++ [(StdOut, EText format)]).
Proof.
  intros H0 H37. split; [by apply format_plain|]. unfold printf0, std_printf_s. by rewrite c_str_id.
Qed.
Lemma fprintf_run g os out tr :
  0%Z ∉ out → fprintf g os out false tr = (Z.of_nat (length out), tr ++ printed g os (EText out)).
Proof. intros H0. unfold fprintf. rewrite insert_run //. simpl. by rewrite c_str_id. Qed.
Lemma fprintf0_run g os format tr :
  0%Z ∉ format → fprintf0 g os format false tr = (0%Z, tr ++ printed g os (EText format)).
Proof. intros H0. unfold fprintf0. rewrite insert_run //. simpl. by rewrite c_str_id. Qed.
Lemma fprintf0_zero g os format tr ce : (fprintf0 g os format ce tr).1 = 0%Z.
Proof. by destruct ce. Qed.
