(** What is written, for every program. *)
From iris.prelude Require Import prelude.
From Verif Require Import ModelOstream SpecOstream OstreamProofs.

Lemma c_str_idem t : c_str (c_str t) = c_str t.
Proof. induction t as [|c t IH]; [done|]. simpl. destruct (c =? 0)%Z eqn:E; [done|]. simpl. by rewrite E IH. Qed.
Lemma c_str_eq t : c_str t = t ↔ 0%Z ∉ t.
Proof.
  split; [|apply c_str_id]. induction t as [|c t IH]; intros H; [set_solver|]. simpl in H.
  destruct (Z.eqb_spec c 0) as [|Hc]; [done|]. injection H as H. apply not_elem_of_cons. split; [done|by apply IH].
Qed.
Lemma insert_cut g os x tr : insert g os x false tr = (os, tr ++ chain_printed g os (cut x)).
Proof.
  unfold chain_printed. destruct x; simpl; unfold then_return; rewrite ?runtime_run; unfold printed;
    destruct (dev_of g os); simpl; by rewrite ?app_nil_r.
Qed.
Lemma chain_printed_app g os xs ys : chain_printed g os (xs ++ ys) = chain_printed g os xs ++ chain_printed g os ys.
Proof. unfold chain_printed. destruct (dev_of g os); [by rewrite fmap_app|done]. Qed.
Lemma chain_cut g os xs tr : chain g os xs false tr = (os, tr ++ chain_printed g os (x ← xs; cut x)).
Proof.
  revert tr. induction xs as [|x xs IH]; intros tr.
  - simpl. unfold chain_printed. by destruct (dev_of g os); rewrite /= app_nil_r.
  - cbn [chain]. rewrite insert_cut IH bind_cons chain_printed_app. by rewrite -app_assoc.
Qed.
Lemma statements_cut g p tr : statements g p false tr = (tt, tr ++ std_events g (cut_program p)).
Proof.
  revert tr. induction p as [|[os xs] p IH]; intros tr; simpl; [by rewrite app_nil_r|].
  rewrite chain_cut IH. simpl. by rewrite -app_assoc.
Qed.
Lemma cut_length x : length (cut x) ≤ 1.
Proof. destruct x; simpl; lia. Qed.
Lemma cuts_length xs : length (x ← xs; cut x) ≤ length xs.
Proof. induction xs as [|x xs IH]; [done|]. rewrite bind_cons app_length. pose proof (cut_length x). simpl. lia. Qed.
Lemma cuts_plain xs : std_event <$> (x ← xs; cut x) = std_event <$> xs ↔ Forall plain xs.
Proof.
  induction xs as [|x xs IH]; [done|]. rewrite bind_cons fmap_app Forall_cons_iff -IH fmap_cons. pose proof (cuts_length xs) as Hl.
  assert (std_event <$> (x0 ← xs; cut x0) ≠ std_event x :: (std_event <$> xs)) as Hn.
  { intros H%(f_equal length). simpl in H. rewrite !fmap_length in H. lia. }
  destruct x; simpl; rewrite ?app_nil_l;
    try (split; [intros H; by injection H as H|intros [_ H]; by rewrite H]); try (split; [done|by intros [??]]).
  rewrite -c_str_eq. split; [intros [=]|intros [-> ->]]; done.
Qed.
Lemma chain_printed_cut g os xs :
  chain_printed g os (x ← xs; cut x) = chain_printed g os xs ↔ (dev_of g os ≠ None → Forall plain xs).
Proof.
  unfold chain_printed. destruct (dev_of g os) as [d|]; [|naive_solver]. rewrite -cuts_plain.
  assert (∀ l1 l2 : list item, ((λ x, (d, std_event x)) <$> l1) = ((λ x, (d, std_event x)) <$> l2) ↔ std_event <$> l1 = std_event <$> l2) as H.
  { intros l1 l2. split; intros H.
    - apply (f_equal (fmap snd)) in H. by rewrite -!list_fmap_compose in H.
    - apply (f_equal (fmap (pair d))) in H. by rewrite -!list_fmap_compose in H. }
  rewrite H. naive_solver.
Qed.
Lemma statements_right g p tr :
  statements g p false tr = (tt, tr ++ std_events g p) ↔ Forall (λ s, dev_of g s.1 ≠ None → Forall plain s.2) p.
Proof.
  rewrite statements_cut.
  assert (((tt, tr ++ std_events g (cut_program p)) = (tt, tr ++ std_events g p)) ↔ std_events g (cut_program p) = std_events g p) as ->.
  { split; [|by intros ->]. intros [= H]. by apply app_inv_head in H. }
  assert (∀ p : list (ostream * list item), length (std_events g (cut_program p)) ≤ length (std_events g p)) as Hlen.
  { clear p. intros p. induction p as [|[os xs] p IH]; [done|].
    change (std_events g (cut_program ((os, xs) :: p)))
      with (chain_printed g os (x ← xs; cut x) ++ std_events g (cut_program p)).
    change (std_events g ((os, xs) :: p)) with (chain_printed g os xs ++ std_events g p).
    rewrite !app_length. unfold chain_printed. pose proof (cuts_length xs).
    destruct (dev_of g os); rewrite ?fmap_length; lia. }
  induction p as [|[os xs] p IH]; [done|]. rewrite Forall_cons_iff -IH -chain_printed_cut.
  change (std_events g (cut_program ((os, xs) :: p)))
    with (chain_printed g os (x ← xs; cut x) ++ std_events g (cut_program p)).
  change (std_events g ((os, xs) :: p)) with (chain_printed g os xs ++ std_events g p).
  cbn [fst snd]. split; [|intros [H1 H2]; by rewrite H1 H2]. intros H.
  assert (length (chain_printed g os (x ← xs; cut x)) ≤ length (chain_printed g os xs)) as H1.
  { unfold chain_printed. destruct (dev_of g os); [|done]. rewrite !fmap_length. apply cuts_length. }
  pose proof (Hlen p) as H2. pose proof (f_equal length H) as H3. rewrite !app_length in H3.
  apply app_inj_1 in H; [done|lia].
Qed.
Lemma std_format_length t u : std_format t = Some u → length u ≤ length t ∧ (length u = length t → 37%Z ∉ t).
Proof.
  revert u. induction t as [t IH] using (induction_ltof1 _ length). unfold ltof in IH. intros u H.
  destruct t as [|c t]; [simpl in *; simplify_eq; split; [done|set_solver]|].
  destruct (decide (c = 37%Z)) as [->|Hc].
  - destruct t as [|c t]; [done|]. destruct (decide (c = 37%Z)) as [->|Hc].
    + simpl in H. destruct (std_format t) as [w|] eqn:E; [|done]. simplify_eq/=.
      destruct (IH t ltac:(simpl; lia) w E). split; lia.
    + exfalso. clear IH. simpl in H. repeat (case_match; try done).
  - assert (std_format (c :: t) = cons c <$> std_format t) as E.
    { simpl. repeat (case_match; try done). }
    rewrite E in H. destruct (std_format t) as [w|] eqn:E'; [|done]. simplify_eq/=.
    destruct (IH t ltac:(simpl; lia) w E') as [? Hi]. split; [lia|]. intros ?. apply not_elem_of_cons. split; [done|]. apply Hi. lia.
Qed.
Lemma printf0_exact format tr :
  printf0 format false tr = (Z.of_nat (length (c_str format)), tr ++ [(StdOut, EText (c_str format))]) ∧
  (std_format (c_str format) = Some (c_str format) ↔ 37%Z ∉ c_str format).
Proof.
  split; [done|]. split; [intros H; by apply std_format_length in H as [_ H]; apply H|].
  intros H. assert (0%Z ∉ c_str format) as H0 by (apply c_str_eq, c_str_idem). by destruct (printf0_run (c_str format) tr H0 H).
Qed.
Lemma fprintf_exact g os out tr :
  fprintf g os out false tr = (Z.of_nat (length out), tr ++ printed g os (EText (c_str out))) ∧
  fprintf0 g os out false tr = (0%Z, tr ++ printed g os (EText (c_str out))).
Proof. unfold fprintf, fprintf0. by rewrite insert_run. Qed.
