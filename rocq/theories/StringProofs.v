(** Separation-logic specifications of the string model. *)
From iris.proofmode Require Import tactics.
From Verif Require Import SLTac Hist HistProofs MemRun ModelString SpecString StringFacts.

Lemma insert_after {A} (a b : list A) c i :
  i = length a → 0 < length b → <[i := c]> (a ++ b) = a ++ c :: drop 1 b.
Proof.
  intros -> Hb. rewrite insert_app_r_alt // Nat.sub_diag. destruct b; simpl in *; [lia|done].
Qed.

Section proofs.
  Context (md : mode).
  Implicit Types (R : exn → hprop scell) (xs ys rest cs ts : list N) (X : hprop scell).

  Definition sobj (this : loc) (xs rest : list N) (p : loc) : hprop scell :=
    this ↦ SHdr (length xs) (length xs + length rest) (Some p) ∗
    p ↦ SBuf (xs ++ 0%N :: rest) ∗ ⌞0 < length xs + length rest⌟.
  Definition str (this : loc) (xs : list N) : hprop scell := ∃ rest p, sobj this xs rest p.

  Lemma wp_s_hdr this n k p Q R :
    this ↦ SHdr n k p -∗ (this ↦ SHdr n k p -∗ Q (n, k, p)) -∗ wp md (s_hdr this) Q R.
  Proof. iIntros "H HQ". wunfold. wstep wp_load' "H". wret. by iApply "HQ". Qed.
  Lemma wp_s_size this n k p Q R :
    this ↦ SHdr n k p -∗ (this ↦ SHdr n k p -∗ Q n) -∗ wp md (s_size this) Q R.
  Proof. iIntros "H HQ". wunfold. wstep wp_s_hdr "H". wret. by iApply "HQ". Qed.
  Lemma wp_s_cap this n k p Q R :
    this ↦ SHdr n k p -∗ (this ↦ SHdr n k p -∗ Q k) -∗ wp md (s_cap this) Q R.
  Proof. iIntros "H HQ". wunfold. wstep wp_s_hdr "H". wret. by iApply "HQ". Qed.
  Lemma wp_s_p this n k p Q R :
    this ↦ SHdr n k p -∗ (this ↦ SHdr n k p -∗ Q p) -∗ wp md (s_p this) Q R.
  Proof. iIntros "H HQ". wunfold. wstep wp_s_hdr "H". wret. by iApply "HQ". Qed.
  Lemma wp_s_set_size this n k p n' Q R :
    this ↦ SHdr n k p -∗ (this ↦ SHdr n' k p -∗ Q tt) -∗ wp md (s_set_size this n') Q R.
  Proof. iIntros "H HQ". wunfold. wstep wp_s_hdr "H". wstep wp_store' "H". by iApply "HQ". Qed.
  Lemma wp_s_set_cap this n k p k' Q R :
    this ↦ SHdr n k p -∗ (this ↦ SHdr n k' p -∗ Q tt) -∗ wp md (s_set_cap this k') Q R.
  Proof. iIntros "H HQ". wunfold. wstep wp_s_hdr "H". wstep wp_store' "H". by iApply "HQ". Qed.
  Lemma wp_s_set_p this n k p p' Q R :
    this ↦ SHdr n k p -∗ (this ↦ SHdr n k p' -∗ Q tt) -∗ wp md (s_set_p this p') Q R.
  Proof. iIntros "H HQ". wunfold. wstep wp_s_hdr "H". wstep wp_store' "H". by iApply "HQ". Qed.

  Lemma wp_b_chars l cs Q R :
    l ↦ SBuf cs -∗ (l ↦ SBuf cs -∗ Q (l, cs)) -∗ wp md (b_chars (Some l)) Q R.
  Proof. iIntros "H HQ". wunfold. wstep wp_load' "H". wret. by iApply "HQ". Qed.
  Lemma wp_b_get l cs i c Q R :
    cs !! i = Some c → l ↦ SBuf cs -∗ (l ↦ SBuf cs -∗ Q c) -∗ wp md (b_get (Some l) i) Q R.
  Proof. iIntros (Hi) "H HQ". wunfold. wstep wp_b_chars "H". simpl. rewrite Hi. wret. by iApply "HQ". Qed.
  Lemma wp_b_set l cs i c Q R :
    i < length cs → l ↦ SBuf cs -∗ (l ↦ SBuf (<[i := c]> cs) -∗ Q tt) -∗ wp md (b_set (Some l) i c) Q R.
  Proof.
    iIntros (Hi) "H HQ". wunfold. wstep wp_b_chars "H". simpl. rewrite decide_True //.
    wstep wp_store' "H". by iApply "HQ".
  Qed.
  Lemma wp_b_allocate n Q R :
    ((⌜mA md = true⌝ → R BadAlloc) ∧ (∀ l, l ↦ SBuf (replicate n 0%N) -∗ Q (Some l))) -∗
    wp md (b_allocate n) Q R.
  Proof.
    iIntros "HQ". wunfold. wbind. iApply wp_alloc. iSplit; [by iDestruct "HQ" as "[$ _]"|].
    iIntros (l) "H". wret. iDestruct "HQ" as "[_ HQ]". by iApply "HQ".
  Qed.
  Lemma wp_b_deallocate l cs n Q R :
    length cs = n → l ↦ SBuf cs -∗ (emp -∗ Q tt) -∗ wp md (b_deallocate (Some l) n) Q R.
  Proof.
    iIntros (Hn) "H HQ". wunfold. wstep wp_b_chars "H". simpl. rewrite decide_True //.
    by iApply (wp_free' with "H").
  Qed.

  (** sources *)
  Definition reads X (s : cptr) cs : Prop :=
    (∀ Q R, X -∗ (X -∗ Q cs) -∗ wp md (chars s) Q R) ∧
    (∀ d c i n, X -∗ d ↦ c -∗ ⌜no_overlap s d i n = true⌝).
  Lemma reads_ext cs : reads emp (CExt cs) cs.
  Proof.
    split; [|by iIntros (????) "_ _"].
    iIntros (Q R) "H HQ". wunfold. wret. by iApply "HQ".
  Qed.
  Lemma wp_chars_blk l cs off Q R :
    off ≤ length cs → l ↦ SBuf cs -∗ (l ↦ SBuf cs -∗ Q (drop off cs)) -∗ wp md (chars (CBlk l off)) Q R.
  Proof.
    iIntros (Hoff) "H HQ". wunfold. wstep wp_b_chars "H". simpl. rewrite decide_True //.
    wret. by iApply "HQ".
  Qed.
  Lemma reads_blk l cs off : off ≤ length cs → reads (l ↦ SBuf cs) (CBlk l off) (drop off cs).
  Proof.
    intros Hoff. split; [intros; by apply wp_chars_blk|].
    iIntros (d c i n) "H1 H2". iDestruct (pt_ne with "H1 H2") as %Hne. iPureIntro. simpl.
    by apply Pos.eqb_neq in Hne as ->.
  Qed.
  Lemma reads_frame X Y s cs : reads X s cs → reads (X ∗ Y) s cs.
  Proof.
    intros [H1 H2]. split.
    - iIntros (Q R) "[H HY] HQ". iApply (H1 with "H"). iIntros "H". iApply "HQ". iFrame.
    - iIntros (d c i n) "[H HY] Hd". iApply (H2 with "H Hd").
  Qed.
  Lemma reads_str g ys rest q : reads (sobj g ys rest q) (CBlk q 0) (ys ++ 0%N :: rest).
  Proof.
    destruct (reads_blk q (ys ++ 0%N :: rest) 0) as [H1 H2]; [lia|]. split.
    - iIntros (Q R) "(H & Hb & Hc) HQ". iApply (H1 with "Hb"). iIntros "Hb". iApply "HQ". iFrame.
    - iIntros (d c i n) "(H & Hb & Hc) Hd". iApply (H2 with "Hb Hd").
  Qed.

  Lemma wp_t_copy X s cs d ds i n Q R :
    reads X s cs → n ≤ length cs → i + n ≤ length ds →
    X -∗ d ↦ SBuf ds -∗
    (X -∗ d ↦ SBuf (take i ds ++ take n cs ++ drop (i + n) ds) -∗ Q tt) -∗
    wp md (t_copy (Some d) i s n) Q R.
  Proof.
    iIntros ([H1 H2] Hn Hi) "HX Hd HQ". unfold t_copy. destruct n as [|n].
    - simpl. wret. rewrite Nat.add_0_r take_drop. iApply ("HQ" with "HX Hd").
    - change (S n =? 0) with false. cbv iota. iDestruct (H2 with "HX Hd") as %Hov. wbind. iApply (H1 with "HX"). iIntros "HX".
      wstep wp_b_chars "Hd". rewrite decide_True //.
      wstep wp_store' "Hd". iApply ("HQ" with "HX Hd").
  Qed.
  Lemma wp_t_copy_own off d ds i n Q R :
    no_overlap (CBlk d off) d i n = true → off + n ≤ length ds → i + n ≤ length ds →
    d ↦ SBuf ds -∗
    (d ↦ SBuf (take i ds ++ take n (drop off ds) ++ drop (i + n) ds) -∗ Q tt) -∗
    wp md (t_copy (Some d) i (CBlk d off) n) Q R.
  Proof.
    iIntros (Hov Hn Hi) "Hd HQ". unfold t_copy. destruct n as [|n].
    - simpl. wret. rewrite Nat.add_0_r take_drop. iApply ("HQ" with "Hd").
    - change (S n =? 0) with false. cbv iota. wbind. iApply (wp_chars_blk with "Hd"); [lia|]. iIntros "Hd".
      wstep wp_b_chars "Hd". rewrite decide_True; last (rewrite drop_length; split_and!; [lia|done|done]).
      wstep wp_store' "Hd". iApply ("HQ" with "Hd").
  Qed.
  Lemma wp_t_length X s ys rest Q R :
    reads X s (ys ++ 0%N :: rest) →
    X -∗ (X -∗ Q (length (until_null ys))) -∗ wp md (t_length s) Q R.
  Proof.
    iIntros ([H1 _]) "HX HQ". wunfold. wbind. iApply (H1 with "HX"). iIntros "HX".
    rewrite strlen_until. wret. by iApply "HQ".
  Qed.

  Lemma wp_s_data this n k p Q R :
    this ↦ SHdr n k (Some p) -∗ (this ↦ SHdr n k (Some p) -∗ Q (CBlk p 0)) -∗ wp md (s_data this) Q R.
  Proof. iIntros "H HQ". wunfold. wstep wp_s_p "H". wret. by iApply "HQ". Qed.
  Lemma wp_s_data_obj this xs rest p Q R :
    sobj this xs rest p -∗ (sobj this xs rest p -∗ Q (CBlk p 0)) -∗ wp md (s_data this) Q R.
  Proof. iIntros "(H & Hb) HQ". wstep wp_s_data "H". iApply "HQ". iFrame. Qed.

  (** ** Constructors, destructor *)
  Lemma wp_s_new Q R :
    mA md = false → (∀ this p, sobj this [] [0%N] p -∗ Q this) -∗ wp md s_new Q R.
  Proof.
    iIntros (HA) "HQ". wunfold. wbind. iApply wp_new'. iIntros (this) "H".
    wbind. iApply wp_catch. iApply wp_b_allocate. iSplit; [iIntros (?); congruence|].
    iIntros (p) "Hp". wstep wp_s_set_p "H".
    wbind. iApply (wp_b_set with "Hp"); [simpl; lia|]. iIntros "Hp". wret.
    iApply ("HQ" $! this p). iFrame. iPureIntro. simpl. lia.
  Qed.
  Lemma wp_s_make X s cs n Q R :
    reads X s cs → n ≤ length cs → X -∗
    ((⌜mA md = true⌝ → X -∗ R BadAlloc) ∧
     (∀ this p, X -∗ sobj this (take n cs) [0%N] p -∗ Q this)) -∗
    wp md (s_make s n) Q R.
  Proof.
    iIntros (Hr Hn) "HX HQ". wunfold. wbind. iApply wp_new'. iIntros (this) "H".
    wbind. iApply wp_on_throw. wstep wp_s_cap "H".
    wbind. iApply wp_b_allocate. iSplit.
    { iIntros (HA). iApply (wp_free' with "H"). iIntros "_".
      iDestruct "HQ" as "[HQ _]". by iApply ("HQ" with "[//] HX"). }
    iDestruct "HQ" as "[_ HQ]". iIntros (p) "Hp". wstep wp_s_set_p "H".
    wbind. iApply (wp_t_copy with "HX Hp"); [done..|rewrite replicate_length; lia|].
    iIntros "HX Hp". wstep wp_s_set_size "H". wstep wp_s_p "H".
    assert (length (take n cs) = n) by (rewrite take_length; lia).
    iApply (wp_b_set with "Hp").
    { rewrite !app_length drop_length replicate_length. simpl. lia. }
    iIntros "Hp". wret. iApply ("HQ" $! this p with "HX").
    rewrite /sobj H. iFrame "H". rewrite /= drop_replicate.
    rewrite insert_after // ?replicate_length; [|lia].
    replace (n + 1 + 1 - n) with 2 by lia. iFrame. iPureIntro. lia.
  Qed.
  Lemma wp_s_cstr X s ys rest Q R :
    reads X s (ys ++ 0%N :: rest) → X -∗
    ((⌜mA md = true⌝ → X -∗ R BadAlloc) ∧
     (∀ this p, X -∗ sobj this (until_null ys) [0%N] p -∗ Q this)) -∗
    wp md (s_cstr s) Q R.
  Proof.
    iIntros (Hr) "HX HQ". wunfold. wbind. iApply (wp_t_length with "HX"); [done|]. iIntros "HX".
    iApply (wp_s_make with "HX"); [done| |].
    { rewrite app_length. pose proof (until_null_length ys). lia. }
    by rewrite until_null_take.
  Qed.
  Lemma wp_s_copy g ys rest q Q R :
    sobj g ys rest q -∗
    ((⌜mA md = true⌝ → sobj g ys rest q -∗ R BadAlloc) ∧
     (∀ this p, sobj g ys rest q -∗ sobj this (until_null ys) [0%N] p -∗ Q this)) -∗
    wp md (s_copy g) Q R.
  Proof.
    iIntros "H HQ". wunfold. wstep wp_s_data_obj "H".
    iApply (wp_s_cstr with "H HQ"). apply reads_str.
  Qed.
  Lemma wp_s_dtor this xs rest p Q R :
    sobj this xs rest p -∗ (emp -∗ Q tt) -∗ wp md (s_dtor this) Q R.
  Proof.
    iIntros "(H & Hb & %) HQ". wunfold. wstep wp_s_p "H". wstep wp_s_cap "H".
    wbind. iApply (wp_b_deallocate with "Hb"); [rewrite app_length /=; lia|]. iIntros "_".
    by iApply (wp_free' with "H").
  Qed.

  (** The buffer during the input-iterator constructor. *)
  Definition filling this (cap : nat) (done : list N) : hprop scell :=
    ⌞cap = 0 ∧ done = []⌟ ∗ this ↦ SHdr 0 0 None ∨
    ∃ p cs, this ↦ SHdr 0 cap (Some p) ∗ p ↦ SBuf (done ++ cs) ∗
            ⌞(length done + length cs = cap + 1)%nat ∧ 0 < cap ∧ length done ≤ cap⌟.
  Lemma wp_s_fill2 this cap done cs Q R :
    mA md = false →
    filling this cap done -∗
    (∀ cap', filling this cap' (done ++ cs) -∗ Q (length done + length cs)) -∗
    wp md (s_fill2 this (length done) cap cs) Q R.
  Proof.
    iIntros (HA) "H HQ". iInduction cs as [|c cs] "IH" forall (cap done).
    - simpl. wret. rewrite Nat.add_0_r. iApply ("HQ" $! cap). by rewrite app_nil_r.
    - simpl. iAssert (∀ cap', ∀ p cs', this ↦ SHdr 0 cap' (Some p) -∗ p ↦ SBuf (done ++ cs') -∗
          ⌞(length done + length cs' = cap' + 1)%nat ∧ length done < cap'⌟ -∗
          wp md (p <- s_p this;; b_set p (length done) c ;;; s_fill2 this (S (length done)) cap' cs) Q R)%I
        with "[IH HQ]" as "K".
      { iIntros (cap' p cs') "H Hb [%Hl %Hc]". wstep wp_s_p "H".
        wbind. iApply (wp_b_set with "Hb"); [rewrite app_length; lia|]. iIntros "Hb".
        rewrite insert_after //; [|lia].
        iSpecialize ("IH" $! cap' (done ++ [c]) with "[H Hb]").
        { iRight. iExists p, (drop 1 cs'). rewrite -assoc_L. iFrame. iPureIntro.
          rewrite drop_length app_length /=. lia. }
        rewrite app_length /= Nat.add_1_r. iApply "IH".
        iIntros (cap'') "H". rewrite -assoc_L /=. iSpecialize ("HQ" with "H").
        by rewrite (Nat.add_succ_r (length done)). }
      iDestruct "H" as "[[%E H]|H]"; [destruct E as [-> ->]|].
      + simpl. wbind. iApply wp_b_allocate. iSplit; [iIntros (?); congruence|]. iIntros (q) "Hq".
        wstep wp_s_p "H". wret. wstep wp_s_cap "H". wret. wstep wp_s_set_p "H". wstep wp_s_set_cap "H".
        wret. iApply ("K" with "H Hq"). iPureIntro. simpl. lia.
      + iDestruct "H" as (p cs') "(H & Hb & %E)". destruct E as (Hl & ? & ?).
        destruct (Nat.eqb_spec (length done) cap) as [<-|Hne].
        * wbind. iApply wp_b_allocate. iSplit; [iIntros (?); congruence|]. iIntros (q) "Hq".
          wstep wp_s_p "H". destruct (Nat.eqb_spec (length done) 0); [lia|].
          wbind. iApply (wp_t_copy with "Hb Hq").
          { by apply reads_blk, Nat.le_0_l. }
          { rewrite drop_0 app_length. lia. }
          { rewrite replicate_length. lia. }
          iIntros "Hb Hq". wstep wp_s_cap "H".
          wbind. iApply (wp_b_deallocate with "Hb"); [rewrite app_length; lia|]. iIntros "_".
          wstep wp_s_set_p "H". wstep wp_s_set_cap "H". wret.
          rewrite drop_0 /= take_app. iApply ("K" with "H Hq"). iPureIntro.
          rewrite drop_replicate replicate_length. lia.
        * wret. iApply ("K" with "H Hb"). iPureIntro. lia.
  Qed.
  Lemma wp_s_range cs Q R :
    mA md = false → cs ≠ [] → (∀ this, str this cs -∗ Q this) -∗ wp md (s_range cs) Q R.
  Proof.
    iIntros (HA Hcs) "HQ". wunfold. wbind. iApply wp_new'. iIntros (this) "H".
    wbind. iApply wp_on_throw. wstep wp_s_cap "H". wbind.
    assert (s_fill1 this 0 0 cs = ret (0, cs)) as -> by by destruct cs.
    wret. simpl. wbind. iApply (wp_s_fill2 this 0 [] with "[H]"); [done| |].
    { iLeft. iFrame. done. }
    iIntros (cap) "[[%E H]|H]"; [by destruct E|]. simpl.
    iDestruct "H" as (p ds) "(H & Hb & %E)". destruct E as (Hl & ? & ?).
    wstep wp_s_set_size "H". wstep wp_s_p "H".
    iApply (wp_b_set with "Hb"); [rewrite app_length; lia|]. iIntros "Hb".
    rewrite insert_after //; [|lia]. wret. iApply "HQ".
    iExists (drop 1 ds), p. rewrite /sobj.
    replace (length cs + length (drop 1 ds)) with cap by (rewrite drop_length; lia).
    iFrame. done.
  Qed.

  (** ** clear, pop_back, element writes *)
  Lemma wp_s_clear this xs rest p Q R :
    sobj this xs rest p -∗
    (sobj this [] (drop 1 (xs ++ 0%N :: rest)) p -∗ Q tt) -∗ wp md (s_clear this) Q R.
  Proof.
    iIntros "(H & Hb & %) HQ". wunfold. wstep wp_s_set_size "H". wstep wp_s_p "H".
    assert (0 < length (xs ++ 0%N :: rest)) by (rewrite app_length /=; lia).
    iApply (wp_b_set with "Hb"); [done|]. iIntros "Hb". iApply "HQ". rewrite /sobj.
    rewrite (insert_after [] (xs ++ _)) // drop_length app_length /=.
    replace (length xs + S (length rest) - 1) with (length xs + length rest) by lia. iFrame. done.
  Qed.
  Lemma wp_s_pop_back this xs x rest p Q R :
    sobj this (xs ++ [x]) rest p -∗ (sobj this xs (0%N :: rest) p -∗ Q tt) -∗
    wp md (s_pop_back this) Q R.
  Proof.
    iIntros "(H & Hb & %) HQ". wunfold. rewrite app_length /= in H |- *. rewrite (Nat.add_comm (length xs) 1) /=.
    wstep wp_s_size "H". wstep wp_s_set_size "H". wstep wp_s_p "H".
    iApply (wp_b_set with "Hb"); [rewrite !app_length /=; lia|]. iIntros "Hb". iApply "HQ".
    rewrite /sobj -assoc_L insert_after //; [|simpl; lia]. simpl. rewrite Nat.add_succ_r.
    iFrame. iPureIntro. lia.
  Qed.
  Lemma wp_s_put this xs rest p i c Q R :
    i < length xs →
    sobj this xs rest p -∗ (sobj this (<[i := c]> xs) rest p -∗ Q tt) -∗
    wp md (s_put this i c) Q R.
  Proof.
    iIntros (Hi) "(H & Hb & %) HQ". wunfold. wstep wp_s_p "H".
    iApply (wp_b_set with "Hb"); [rewrite app_length; lia|]. iIntros "Hb". iApply "HQ".
    rewrite /sobj insert_length insert_app_l //. iFrame. done.
  Qed.

  (** ** reserve, push_back, append *)
  Lemma wp_s_reserve this xs rest p n Q R :
    sobj this xs rest p -∗
    ((⌜mA md = true ∧ length xs + length rest < n⌝ → sobj this xs rest p -∗ R BadAlloc) ∧
     (∀ rest' p', ⌜(n ≤ length xs + length rest ∧ rest' = rest ∧ p' = p) ∨
                   (length xs + length rest < n ∧ (length xs + length rest' = n)%nat)⌝ →
        sobj this xs rest' p' -∗ Q tt)) -∗
    wp md (s_reserve this n) Q R.
  Proof.
    iIntros "(H & Hb & %Hk) HQ". wunfold. wstep wp_s_cap "H".
    destruct (Nat.ltb_spec (length xs + length rest) n) as [Hlt|Hge].
    - wbind. iApply wp_b_allocate. iSplit.
      { iIntros (HA). iDestruct "HQ" as "[HQ _]". iApply ("HQ" with "[//]"). iFrame. done. }
      iDestruct "HQ" as "[_ HQ]". iIntros (q) "Hq". wstep wp_s_p "H". wstep wp_s_size "H".
      wbind. iApply (wp_t_copy with "Hb Hq").
      { by apply reads_blk, Nat.le_0_l. }
      { rewrite drop_0 app_length /=. lia. }
      { rewrite replicate_length. lia. }
      iIntros "Hb Hq". wbind. iApply (wp_b_deallocate with "Hb"); [rewrite app_length /=; lia|]. iIntros "_".
      wstep wp_s_set_p "H". wstep wp_s_set_cap "H".
      rewrite drop_0 /= drop_replicate.
      replace (n + 1 - (length xs + 1)) with (n - length xs) by lia.
      rewrite firstn_app_2 /= firstn_O -assoc_L /=.
      iApply ("HQ" $! (replicate (n - length xs) 0%N) q); [iPureIntro; rewrite replicate_length; lia|].
      rewrite /sobj replicate_length.
      replace (length xs + (n - length xs)) with n by lia. iFrame. iPureIntro. lia.
    - wret. iDestruct "HQ" as "[_ HQ]". iApply ("HQ" $! rest p); [iPureIntro; by left|]. iFrame. done.
  Qed.

  (** the part of push_back after reserve *)
  Lemma wp_push_tail X this xs rest p r c Q R :
    0 < length rest →
    (∀ Q R, X -∗ sobj this xs rest p -∗ (X -∗ sobj this xs rest p -∗ Q c) -∗ wp md (c_read r) Q R) →
    X -∗ sobj this xs rest p -∗
    (X -∗ sobj this (xs ++ [c]) (drop 1 rest) p -∗ Q tt) -∗
    wp md (p <- s_p this ;; n <- s_size this ;; c <- c_read r ;; b_set p n c ;;;
           s_set_size this (S n) ;;; p <- s_p this ;; b_set p (S n) 0%N) Q R.
  Proof.
    iIntros (Hrest Hr) "HX (H & Hb & %) HQ". wstep wp_s_p "H". wstep wp_s_size "H".
    wbind. iApply (Hr with "HX [H Hb]"); [by iFrame|]. iIntros "HX (H & Hb & _)".
    wbind. iApply (wp_b_set with "Hb"); [rewrite app_length /=; lia|]. iIntros "Hb".
    wstep wp_s_set_size "H". wstep wp_s_p "H".
    rewrite insert_after //; [|simpl; lia]. simpl. rewrite drop_0.
    iApply (wp_b_set with "Hb"); [rewrite app_length /=; lia|]. iIntros "Hb".
    iApply ("HQ" with "HX"). rewrite /sobj.
    rewrite (cons_middle c) assoc_L insert_after //; [|rewrite app_length /=; lia].
    rewrite app_length /= drop_length Nat.add_1_r.
    replace (S (length xs) + (length rest - 1)) with (length xs + length rest) by lia.
    iFrame. done.
  Qed.
  Lemma wp_s_push_back_cap X this xs rest p r c Q R :
    (∀ rest p Q R, X -∗ sobj this xs rest p -∗ (X -∗ sobj this xs rest p -∗ Q c) -∗ wp md (c_read r) Q R) →
    X -∗ sobj this xs rest p -∗
    ((⌜mA md = true⌝ → X -∗ sobj this xs rest p -∗ R BadAlloc) ∧
     (∀ rest' p', ⌜(0 < length rest → rest' = drop 1 rest ∧ p' = p) ∧
                   (length rest = 0 → (length (xs ++ [c]) + length rest' = length xs * 2)%nat)⌝ →
        X -∗ sobj this (xs ++ [c]) rest' p' -∗ Q tt)) -∗
    wp md (s_push_back this r) Q R.
  Proof.
    iIntros (Hr) "HX (H & Hb & %Hk) HQ". wunfold. wstep wp_s_size "H". wstep wp_s_cap "H".
    destruct (Nat.ltb_spec (length xs + length rest) (length xs + 1)).
    - iApply wp_bind. iApply (wp_s_reserve with "[H Hb]"); [by iFrame|]. iSplit.
      { iIntros ([HA _]) "H". iDestruct "HQ" as "[HQ _]". by iApply ("HQ" with "[//] HX"). }
      iIntros (rest' p' Hr') "H". iDestruct "HQ" as "[_ HQ]".
      iApply (wp_push_tail with "HX H"); [lia|done|]. iIntros "HX H".
      iApply ("HQ" with "[%] HX H"). split; [lia|]. rewrite app_length drop_length /=. lia.
    - wret. iDestruct "HQ" as "[_ HQ]". iApply (wp_push_tail X this xs rest p with "HX [H Hb]"); [lia|done|by iFrame|].
      iIntros "HX H". iApply ("HQ" with "[%] HX H"). split; [done|lia].
  Qed.
  Lemma wp_s_push_back X this xs rest p r c Q R :
    (∀ rest p Q R, X -∗ sobj this xs rest p -∗ (X -∗ sobj this xs rest p -∗ Q c) -∗ wp md (c_read r) Q R) →
    X -∗ sobj this xs rest p -∗
    ((⌜mA md = true⌝ → X -∗ sobj this xs rest p -∗ R BadAlloc) ∧
     (∀ rest' p', ⌜0 < length rest → rest' = drop 1 rest ∧ p' = p⌝ →
        X -∗ sobj this (xs ++ [c]) rest' p' -∗ Q tt)) -∗
    wp md (s_push_back this r) Q R.
  Proof.
    iIntros (Hr) "HX H HQ". iApply (wp_s_push_back_cap with "HX H"); [done|].
    iSplit; [by iDestruct "HQ" as "[$ _]"|]. iDestruct "HQ" as "[_ HQ]".
    iIntros (rest' p' [Hp _]). by iApply "HQ".
  Qed.
  Lemma wp_s_push_val this xs rest p c Q R :
    sobj this xs rest p -∗
    ((⌜mA md = true⌝ → sobj this xs rest p -∗ R BadAlloc) ∧
     (∀ rest' p', ⌜0 < length rest → rest' = drop 1 rest ∧ p' = p⌝ →
        sobj this (xs ++ [c]) rest' p' -∗ Q tt)) -∗
    wp md (s_push_back this (CVal c)) Q R.
  Proof.
    iIntros "H HQ". iApply (wp_s_push_back emp with "[//] H").
    { iIntros (rest' p' Q' R') "_ H HQ". wunfold. wret. by iApply ("HQ" with "[//]"). }
    iSplit.
    - iIntros (HA) "_ H". iDestruct "HQ" as "[HQ _]". by iApply ("HQ" with "[//]").
    - iIntros (rest' p' Hr) "_ H". iDestruct "HQ" as "[_ HQ]". by iApply ("HQ" with "[//]").
  Qed.
  Lemma wp_s_push_own this xs rest p i c Q R :
    0 < length rest → xs !! i = Some c →
    sobj this xs rest p -∗ (sobj this (xs ++ [c]) (drop 1 rest) p -∗ Q tt) -∗
    wp md (s_push_back this (CElem p i)) Q R.
  Proof.
    iIntros (Hrest Hi) "(H & Hb & %Hk) HQ". wunfold. wstep wp_s_size "H". wstep wp_s_cap "H".
    destruct (Nat.ltb_spec (length xs + length rest) (length xs + 1)); [lia|]. wret.
    iApply (wp_push_tail emp this xs rest p with "[//] [H Hb]"); [lia| |by iFrame|].
    { iIntros (Q' R') "_ (H & Hb & Hk) HQ". wunfold. iApply (wp_b_get with "Hb").
      { apply lookup_app_l_Some, Hi. }
      iIntros "Hb". iApply ("HQ" with "[//]"). iFrame. }
    iIntros "_ H". by iApply "HQ".
  Qed.

  (** append: [X] owns the source *)
  Definition copies X xs rest p s ts : Prop :=
    (∀ Q R, length ts ≤ length rest →
       X -∗ p ↦ SBuf (xs ++ 0%N :: rest) -∗
       (X -∗ p ↦ SBuf (xs ++ ts ++ drop (length ts) (0%N :: rest)) -∗ Q tt) -∗
       wp md (t_copy (Some p) (length xs) s (length ts)) Q R) ∧
    (∀ Q R q ds, length ts ≤ length ds →
       X -∗ p ↦ SBuf (xs ++ 0%N :: rest) -∗ q ↦ SBuf (xs ++ ds) -∗
       (X -∗ p ↦ SBuf (xs ++ 0%N :: rest) -∗ q ↦ SBuf (xs ++ ts ++ drop (length ts) ds) -∗ Q tt) -∗
       wp md (t_copy (Some q) (length xs) s (length ts)) Q R).
  Lemma copies_reads X xs rest p s cs n :
    reads X s cs → n ≤ length cs → copies X xs rest p s (take n cs).
  Proof.
    intros Hr Hn. assert (length (take n cs) = n) as Ht by (rewrite take_length; lia). rewrite /copies Ht. split.
    - iIntros (Q R Hl) "HX Hp HQ". iApply (wp_t_copy with "HX Hp"); [done..|rewrite app_length /=; lia|].
      rewrite take_app drop_add_app; [|done]. iApply "HQ".
    - iIntros (Q R q ds Hl) "HX Hp Hq HQ". iApply (wp_t_copy with "HX Hq"); [done..|rewrite app_length /=; lia|].
      rewrite take_app drop_add_app; [|done]. iIntros "HX Hq". iApply ("HQ" with "HX Hp Hq").
  Qed.
  Lemma copies_self xs rest p : copies emp xs rest p (CBlk p 0) xs.
  Proof.
    split.
    - iIntros (Q R Hl) "_ Hp HQ". iApply (wp_t_copy_own with "Hp").
      { simpl. rewrite Pos.eqb_refl /=. destruct (length xs); [done|]. simpl. by rewrite Nat.leb_refl. }
      { rewrite app_length /=. lia. }
      { rewrite app_length /=. lia. }
      rewrite drop_0 take_app drop_add_app; [|done]. by iApply "HQ".
    - iIntros (Q R q ds Hl) "_ Hp Hq HQ". iApply (wp_t_copy with "Hp Hq").
      { by apply reads_blk, Nat.le_0_l. }
      { rewrite drop_0 app_length. lia. }
      { rewrite app_length. lia. }
      rewrite drop_0 !take_app drop_add_app; [|done]. by iApply "HQ".
  Qed.
  Lemma wp_s_append_cap X this xs rest p s ts Q R :
    copies X xs rest p s ts →
    X -∗ sobj this xs rest p -∗
    ((⌜mA md = true⌝ → X -∗ sobj this xs rest p -∗ R BadAlloc) ∧
     (∀ rest' p', ⌜(length (xs ++ ts) + length rest' = (length xs + length rest) `max` length (xs ++ ts))%nat⌝ →
        X -∗ sobj this (xs ++ ts) rest' p' -∗ Q tt)) -∗
    wp md (s_append this s (length ts)) Q R.
  Proof.
    iIntros ([H1 H2]) "HX (H & Hb & %Hk) HQ". wunfold. wstep wp_s_size "H". wstep wp_s_cap "H".
    destruct (Nat.leb_spec (length ts + length xs) (length xs + length rest)) as [Hle|Hgt].
    - iDestruct "HQ" as "[_ HQ]". iApply wp_bind.
      iAssert (X -∗ this ↦ SHdr (length xs) (length xs + length rest) (Some p) -∗
        p ↦ SBuf (xs ++ ts ++ drop (length ts) (0%N :: rest)) -∗
        wp md (s_set_size this (length ts + length xs);;; p <- s_p this;; b_set p (length ts + length xs) 0%N) Q R)%I
        with "[HQ]" as "K".
      { iIntros "HX H Hb". wstep wp_s_set_size "H". wstep wp_s_p "H".
        assert (0 < length (drop (length ts) (0%N :: rest))) by (rewrite drop_length /=; lia).
        rewrite assoc_L. iApply (wp_b_set with "Hb"); [rewrite !app_length; lia|]. iIntros "Hb".
        rewrite insert_after //; [|rewrite app_length; lia].
        iApply ("HQ" $! (drop (length ts) rest) p with "[%] HX").
        { rewrite app_length drop_length. lia. }
        rewrite /sobj app_length drop_length.
        rewrite (Nat.add_comm (length ts)).
        replace (length xs + length ts + (length rest - length ts)) with (length xs + length rest) by lia.
        rewrite drop_drop Nat.add_1_r /=. iFrame. done. }
      destruct (Nat.eqb_spec (length ts) 0) as [E|].
      + apply nil_length_inv in E as ->. simpl. wret. iApply ("K" with "HX H Hb").
      + wstep wp_s_p "H". iApply (H1 with "HX Hb"); [lia|]. iIntros "HX Hb". iApply ("K" with "HX H Hb").
    - wbind. iApply wp_b_allocate. iSplit.
      { iIntros (HA). iDestruct "HQ" as "[HQ _]". iApply ("HQ" with "[//] HX"). iFrame. done. }
      iDestruct "HQ" as "[_ HQ]". iIntros (q) "Hq". wstep wp_s_p "H".
      wbind. iApply (wp_t_copy with "Hb Hq").
      { by apply reads_blk, Nat.le_0_l. }
      { rewrite drop_0 app_length /=. lia. }
      { rewrite replicate_length. lia. }
      iIntros "Hb Hq". rewrite drop_0 firstn_O app_nil_l Nat.add_0_l take_app drop_replicate.
      wbind. iApply (H2 with "HX Hb Hq"); [rewrite replicate_length; lia|]. iIntros "HX Hb Hq".
      wbind. iApply (wp_b_deallocate with "Hb"); [rewrite app_length /=; lia|]. iIntros "_".
      wstep wp_s_set_p "H". wstep wp_s_set_size "H". wstep wp_s_set_cap "H".
      wstep wp_s_set_size "H". wstep wp_s_p "H".
      rewrite drop_replicate. replace (length ts + length xs + 1 - length xs - length ts) with 1 by lia.
      rewrite assoc_L. iApply (wp_b_set with "Hq"); [rewrite !app_length /=; lia|]. iIntros "Hq".
      rewrite insert_after //; [|rewrite app_length; lia|simpl; lia].
      iApply ("HQ" $! [] q with "[%] HX").
      { rewrite app_length /=. lia. }
      rewrite /sobj app_length /= Nat.add_0_r (Nat.add_comm (length ts)).
      iFrame. iPureIntro. lia.
  Qed.
  Lemma wp_s_append X this xs rest p s ts Q R :
    copies X xs rest p s ts →
    X -∗ sobj this xs rest p -∗
    ((⌜mA md = true⌝ → X -∗ sobj this xs rest p -∗ R BadAlloc) ∧
     (∀ rest' p', X -∗ sobj this (xs ++ ts) rest' p' -∗ Q tt)) -∗
    wp md (s_append this s (length ts)) Q R.
  Proof.
    iIntros (Hc) "HX H HQ". iApply (wp_s_append_cap with "HX H"); [done|].
    iSplit; [by iDestruct "HQ" as "[$ _]"|]. iDestruct "HQ" as "[_ HQ]".
    iIntros (rest' p' _). by iApply "HQ".
  Qed.
  Lemma wp_s_append_str this g xs ys rest restg p q Q R :
    sobj this xs rest p -∗ sobj g ys restg q -∗
    ((⌜mA md = true⌝ → sobj this xs rest p -∗ sobj g ys restg q -∗ R BadAlloc) ∧
     (∀ rest' p', sobj this (xs ++ ys) rest' p' -∗ sobj g ys restg q -∗ Q tt)) -∗
    wp md (s_append_str this g) Q R.
  Proof.
    iIntros "H Hg HQ". wunfold. wstep wp_s_data_obj "Hg". iDestruct "Hg" as "(Hg & Hr)".
    wstep wp_s_size "Hg". iCombine "Hg Hr" as "Hg".
    iApply (wp_s_append with "Hg H").
    { assert (length ys ≤ length (ys ++ 0%N :: restg)) as Hl by (rewrite app_length; lia).
      pose proof (copies_reads _ xs rest p _ _ _ (reads_str g ys restg q) Hl) as Hc.
      by rewrite take_app in Hc. }
    iSplit.
    - iIntros (HA) "Hg H". iDestruct "HQ" as "[HQ _]". by iApply ("HQ" with "[//] H Hg").
    - iIntros (??) "Hg H". iDestruct "HQ" as "[_ HQ]". by iApply ("HQ" with "H Hg").
  Qed.
  Lemma wp_s_append_self this xs rest p Q R :
    sobj this xs rest p -∗
    ((⌜mA md = true⌝ → sobj this xs rest p -∗ R BadAlloc) ∧
     (∀ rest' p', sobj this (xs ++ xs) rest' p' -∗ Q tt)) -∗
    wp md (s_append_str this this) Q R.
  Proof.
    iIntros "H HQ". wunfold. wstep wp_s_data_obj "H". iDestruct "H" as "(H & Hr)".
    wstep wp_s_size "H". iCombine "H Hr" as "H".
    iApply (wp_s_append emp with "[//] H"); [by apply copies_self|].
    iSplit.
    - iIntros (HA) "_ H". iDestruct "HQ" as "[HQ _]". by iApply ("HQ" with "[//] H").
    - iIntros (??) "_ H". iDestruct "HQ" as "[_ HQ]". by iApply ("HQ" with "H").
  Qed.

  (** ** operator= *)
  Lemma wp_s_assign X this xs rest p s ys zs Q R :
    reads X s (ys ++ 0%N :: zs) →
    mA md = false ∨ length (until_null ys) < length xs + length rest →
    X -∗ sobj this xs rest p -∗
    (∀ rest' p', X -∗ sobj this (until_null ys) rest' p' -∗ Q tt) -∗
    wp md (s_assign this s) Q R.
  Proof.
    iIntros (Hr HA) "HX (H & Hb & %Hk) HQ". wunfold.
    wbind. iApply (wp_t_length with "HX"); [done|]. iIntros "HX". wstep wp_s_cap "H".
    set (ts := until_null ys) in *.
    iAssert (∀ k q ds, X -∗ this ↦ SHdr (length xs) k (Some q) -∗ q ↦ SBuf ds -∗
        ⌞length ts + 1 ≤ k ∧ (length ds = k + 1)%nat⌟ -∗
        wp md (p <- s_p this;; t_copy p 0 s (length ts + 1);;; s_set_size this (length ts)) Q R)%I
      with "[HQ]" as "K".
    { iIntros (k q ds) "HX H Hq [%Hk' %Hd]". wstep wp_s_p "H".
      wbind. iApply (wp_t_copy with "HX Hq"); [done| |simpl; lia|].
      { rewrite app_length /=. pose proof (until_null_length ys : length ts ≤ _). lia. }
      iIntros "HX Hq". wstep wp_s_set_size "H".
      rewrite /= until_null_take1 -assoc_L /=.
      iApply ("HQ" $! (drop (length ts + 1) ds) q with "HX").
      rewrite /sobj drop_length. replace (length ts + (length ds - (length ts + 1))) with k by lia.
      iFrame. iPureIntro. lia. }
    destruct (Nat.ltb_spec (length xs + length rest) (length ts + 1)) as [Hlt|Hge].
    - destruct HA as [HA|]; [|lia]. wstep wp_s_p "H".
      wbind. iApply (wp_b_deallocate with "Hb"); [rewrite app_length /=; lia|]. iIntros "_".
      wstep wp_s_set_cap "H". wbind. iApply wp_b_allocate. iSplit; [iIntros (?); congruence|].
      iIntros (q) "Hq". wstep wp_s_set_p "H". iApply ("K" with "HX H Hq").
      iPureIntro. rewrite replicate_length. lia.
    - wret. iApply ("K" with "HX H Hb"). iPureIntro. rewrite app_length /=. lia.
  Qed.
  Lemma wp_s_assign_str this g xs ys rest restg p q Q R :
    mA md = false ∨ length (until_null ys) < length xs + length rest →
    sobj this xs rest p -∗ sobj g ys restg q -∗
    (∀ rest' p', sobj this (until_null ys) rest' p' -∗ sobj g ys restg q -∗ Q tt) -∗
    wp md (s_assign_str this g) Q R.
  Proof.
    iIntros (HA) "H Hg HQ". wunfold. wstep wp_s_data_obj "Hg".
    iApply (wp_s_assign with "Hg H"); [apply reads_str|done|].
    iIntros (??) "Hg H". iApply ("HQ" with "H Hg").
  Qed.
  (** from a suffix of its own buffer *)
  Lemma wp_s_assign_own this xs rest p off Q R :
    off ≤ length xs →
    length (until_null (drop off xs)) < length xs + length rest →
    (off = 0 ∨ length (until_null (drop off xs)) < off) →
    sobj this xs rest p -∗
    (∀ rest', sobj this (until_null (drop off xs)) rest' p -∗ Q tt) -∗
    wp md (s_assign this (CBlk p off)) Q R.
  Proof.
    iIntros (Hoff Hk Hov) "(H & Hb & %Hk0) HQ". wunfold. set (ts := until_null (drop off xs)) in *.
    assert (drop off (xs ++ 0%N :: rest) = drop off xs ++ 0%N :: rest) as Ed.
    { rewrite drop_app_le //. }
    pose proof (until_null_length (drop off xs)) as Hl. rewrite drop_length -/ts in Hl.
    wbind. iApply (wp_t_length _ _ (drop off xs) rest with "Hb").
    { rewrite -Ed. apply reads_blk. rewrite app_length. lia. }
    iIntros "Hb". fold ts. wstep wp_s_cap "H".
    destruct (Nat.ltb_spec (length xs + length rest) (length ts + 1)); [lia|]. wret. wstep wp_s_p "H".
    wbind. iApply (wp_t_copy_own with "Hb").
    { simpl. rewrite Pos.eqb_refl /=. destruct Hov as [->|Hov]; [done|].
      assert (length ts + 1 <=? off = true) as -> by (apply Nat.leb_le; lia). by rewrite orb_true_r. }
    { rewrite app_length /=. lia. }
    { rewrite app_length /=. lia. }
    iIntros "Hb". wstep wp_s_set_size "H".
    rewrite /= Ed until_null_take1 -assoc_L /=.
    iApply ("HQ" $! (drop (length ts + 1) (xs ++ 0%N :: rest))). rewrite /sobj drop_length app_length /=.
    replace (length ts + (length xs + S (length rest) - (length ts + 1))) with (length xs + length rest) by lia.
    iFrame. iPureIntro. lia.
  Qed.
End proofs.
