(** isalnum and isupper *)
From Coq Require String.
From iris.proofmode Require Import tactics.
From Verif Require Import SLTac Hist HistProofs MemRun ModelString SpecString StringFacts StringProofs StringMem ModelCctype.

Lemma wp_found_in md s ch (Q : bool → hprop scell) R :
  no_null (literal s) →
  ((⌜mA md = true⌝ → R BadAlloc) ∧ Q (existsb (λ c, Z.eqb (Z.of_N c) ch) (literal s))) -∗ wp md (found_in s ch) Q R.
Proof.
  iIntros (Hn) "HQ". rewrite /found_in. wbind.
  iApply (wp_s_cstr md emp (cstring (literal s)) (literal s) []); [apply reads_ext|done|]. iSplit.
  - iIntros (HA) "_". iDestruct "HQ" as "[HQ _]". by iApply "HQ".
  - iDestruct "HQ" as "[_ HQ]". iIntros (this p) "_ H". rewrite until_null_id //. wbind.
    iApply (wp_read _ (sobj this (literal s) [0%N] p) with "H").
    { intros m h Hh Hs. eapply s_iterate_eq. by eapply sobj_view. }
    iIntros "H". wbind. iApply (wp_s_dtor with "H"). iIntros "_". by wret.
Qed.

Definition alnum_char (ch : Z) : Prop := (48 ≤ ch ≤ 57 ∨ 65 ≤ ch ≤ 90 ∨ 97 ≤ ch ≤ 122)%Z.
Definition upper_char (ch : Z) : Prop := (65 ≤ ch ≤ 90)%Z.

Lemma run_clean (f : MS Z) z m :
  may_fail_alloc m → (∀ (Q : Z → hprop scell) R, ((⌜mA (Mode true false) = true⌝ → R BadAlloc) ∧ Q z) -∗ wp (Mode true false) f Q R) →
  runs_to m [] (f m) (λ r _ new, r = z ∧ new = []).
Proof.
  intros Hm Hw.
  pose proof (run_to (X:=unit) emp ∅ m [] f (λ r _, ⌞r = z⌟%I) (λ _ _, []) (λ r _ _, r = z)
    Hm exact_emp (map_empty_subseteq _)) as H.
  feed specialize H.
  - intros l. rewrite lookup_empty elem_of_nil. split; [done|by intros []].
  - intros a _ h' m' Hx _. apply (proj1 (hprop_affinely_pure_eq _ _)) in Hx as [-> Hx]. split; [done|].
    intros l. rewrite lookup_empty elem_of_nil. split; [done|by intros []].
  - iIntros "_". iApply Hw. iSplit; [by iIntros|]. by iExists tt.
  - unfold runs_to in *. destruct (f m); [|done..]. destruct H as (H1 & new & (_ & -> & ->) & H2).
    split; [done|]. exists []. done.
Qed.

Lemma run_clean_fair (f : MS Z) z m :
  fair m → (∀ (Q : Z → hprop scell) R, ((⌜mA (Mode false false) = true⌝ → R BadAlloc) ∧ Q z) -∗ wp (Mode false false) f Q R) →
  unthrown (f m) (λ r m', r = z ∧ blk m' = blk m).
Proof.
  intros Hm Hw.
  pose proof (run_fair (X:=unit) emp ∅ m [] f (λ r _, ⌞r = z⌟%I) (λ _ _, []) (λ r _ _, r = z)
    Hm exact_emp (map_empty_subseteq _)) as H.
  feed specialize H.
  - intros l. rewrite lookup_empty elem_of_nil. split; [done|by intros []].
  - intros a _ h' m' Hx _. apply (proj1 (hprop_affinely_pure_eq _ _)) in Hx as [-> Hx]. split; [done|].
    intros l. rewrite lookup_empty elem_of_nil. split; [done|by intros []].
  - iIntros "_". iApply Hw. iSplit; [by iIntros|]. by iExists tt.
  - unfold unthrown in *. destruct (f m); [|done..]. destruct H as (H1 & _ & -> & H2).
    split; [done|]. apply map_eq. intros l. specialize (H2 l).
    destruct (decide (l ∈ [])) as [Hl|]; [by apply elem_of_nil in Hl|]. done.
Qed.
Lemma exists_seqZ l (rs : list Z) ch :
  l = Z.to_N <$> rs → Forall (λ z, 0 ≤ z)%Z rs → existsb (λ c, Z.eqb (Z.of_N c) ch) l = true ↔ ch ∈ rs.
Proof.
  intros -> Hr. rewrite existsb_exists. rewrite Forall_forall in Hr. split.
  - intros (c & Hc & He%Z.eqb_eq). apply elem_of_list_In, elem_of_list_fmap in Hc as (z & -> & Hz).
    rewrite Z2N.id in He; [by subst|by apply Hr].
  - intros Hc. exists (Z.to_N ch). rewrite Z2N.id; [|by apply Hr]. split; [|apply Z.eqb_refl].
    apply elem_of_list_In, elem_of_list_fmap. by exists ch.
Qed.
Lemma seqZ_nonneg a n : (0 ≤ a)%Z → Forall (λ z, 0 ≤ z)%Z (seqZ a n).
Proof. intros. apply Forall_seqZ. lia. Qed.
Lemma alnum_literal ch :
  existsb (λ c, Z.eqb (Z.of_N c) ch)
    (literal (String.append "0123456789" (String.append "ABCDEFGHIJKLMNOPQRSTUVWXYZ" "abcdefghijklmnopqrstuvwxyz"))) = true ↔ alnum_char ch.
Proof.
  rewrite (exists_seqZ _ (seqZ 48 10 ++ seqZ 65 26 ++ seqZ 97 26)); [|vm_compute; reflexivity|].
  - rewrite !elem_of_app !elem_of_seqZ /alnum_char. lia.
  - rewrite !Forall_app. split_and!; by apply seqZ_nonneg.
Qed.
Lemma upper_literal ch :
  existsb (λ c, Z.eqb (Z.of_N c) ch) (literal "ABCDEFGHIJKLMNOPQRSTUVWXYZ") = true ↔ upper_char ch.
Proof.
  rewrite (exists_seqZ _ (seqZ 65 26)); [|vm_compute; reflexivity|by apply seqZ_nonneg].
  rewrite elem_of_seqZ /upper_char. lia.
Qed.
Lemma isalnum_runs m ch :
  may_fail_alloc m → runs_to m [] (isalnum ch m) (λ r _ new, (r = 8 ∧ alnum_char ch ∨ r = 0 ∧ ¬ alnum_char ch)%Z ∧ new = []).
Proof.
  intros Hm. set (b := existsb (λ c, Z.eqb (Z.of_N c) ch) (literal (String.append "0123456789" (String.append "ABCDEFGHIJKLMNOPQRSTUVWXYZ" "abcdefghijklmnopqrstuvwxyz")))).
  pose proof (run_clean (isalnum ch) (if b then 8 else 0)%Z m Hm) as H. feed specialize H.
  { iIntros (Q R) "HQ". rewrite /isalnum. wbind. iApply wp_found_in; [apply (bool_decide_unpack _); vm_compute; exact I|]. iSplit.
    - by iDestruct "HQ" as "[$ _]".
    - iDestruct "HQ" as "[_ HQ]". wret. done. }
  unfold runs_to in *. destruct (isalnum ch m); [|done..]. destruct H as (H1 & new & (-> & ->) & H2). split; [done|].
  exists []. split; [|done]. split; [|done]. pose proof (alnum_literal ch) as Hl. fold b in Hl. destruct b; [left|right]; naive_solver.
Qed.
Lemma isupper_runs m ch :
  may_fail_alloc m → runs_to m [] (isupper ch m) (λ r _ new, (r = 256 ∧ upper_char ch ∨ r = 0 ∧ ¬ upper_char ch)%Z ∧ new = []).
Proof.
  intros Hm. set (b := existsb (λ c, Z.eqb (Z.of_N c) ch) (literal "ABCDEFGHIJKLMNOPQRSTUVWXYZ")).
  pose proof (run_clean (isupper ch) (if b then 256 else 0)%Z m Hm) as H. feed specialize H.
  { iIntros (Q R) "HQ". rewrite /isupper. wbind. iApply wp_found_in; [apply (bool_decide_unpack _); vm_compute; exact I|]. iSplit.
    - by iDestruct "HQ" as "[$ _]".
    - iDestruct "HQ" as "[_ HQ]". wret. done. }
  unfold runs_to in *. destruct (isupper ch m); [|done..]. destruct H as (H1 & new & (-> & ->) & H2). split; [done|].
  exists []. split; [|done]. split; [|done]. pose proof (upper_literal ch) as Hl. fold b in Hl. destruct b; [left|right]; naive_solver.
Qed.
Lemma isalnum_fair m ch :
  fair m → unthrown (isalnum ch m) (λ r m', (r = 8 ∧ alnum_char ch ∨ r = 0 ∧ ¬ alnum_char ch)%Z ∧ blk m' = blk m).
Proof.
  intros Hm. set (b := existsb (λ c, Z.eqb (Z.of_N c) ch) (literal (String.append "0123456789" (String.append "ABCDEFGHIJKLMNOPQRSTUVWXYZ" "abcdefghijklmnopqrstuvwxyz")))).
  pose proof (run_clean_fair (isalnum ch) (if b then 8 else 0)%Z m Hm) as H. feed specialize H.
  { iIntros (Q R) "HQ". rewrite /isalnum. wbind. iApply wp_found_in; [apply (bool_decide_unpack _); vm_compute; exact I|]. iSplit.
    - by iDestruct "HQ" as "[$ _]".
    - iDestruct "HQ" as "[_ HQ]". wret. done. }
  unfold unthrown in *. destruct (isalnum ch m); [|done..]. destruct H as (-> & ->).
  split; [|done]. pose proof (alnum_literal ch) as Hl. fold b in Hl. destruct b; [left|right]; naive_solver.
Qed.
Lemma isupper_fair m ch :
  fair m → unthrown (isupper ch m) (λ r m', (r = 256 ∧ upper_char ch ∨ r = 0 ∧ ¬ upper_char ch)%Z ∧ blk m' = blk m).
Proof.
  intros Hm. set (b := existsb (λ c, Z.eqb (Z.of_N c) ch) (literal "ABCDEFGHIJKLMNOPQRSTUVWXYZ")).
  pose proof (run_clean_fair (isupper ch) (if b then 256 else 0)%Z m Hm) as H. feed specialize H.
  { iIntros (Q R) "HQ". rewrite /isupper. wbind. iApply wp_found_in; [apply (bool_decide_unpack _); vm_compute; exact I|]. iSplit.
    - by iDestruct "HQ" as "[$ _]".
    - iDestruct "HQ" as "[_ HQ]". wret. done. }
  unfold unthrown in *. destruct (isupper ch m); [|done..]. destruct H as (-> & ->).
  split; [|done]. pose proof (upper_literal ch) as Hl. fold b in Hl. destruct b; [left|right]; naive_solver.
Qed.
