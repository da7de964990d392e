(** Separation-logic specifications of the deque model. *)
From iris.proofmode Require Import tactics.
From Verif Require Import SLTac Hist HistProofs ClientProofs ModelDeque SpecDeque.

(** ** Arithmetic of slots *)
Lemma table_same v cap cs : table_after v cap cs v cap cs.
Proof. rewrite /table_after decide_False; [done|]. naive_solver. Qed.
Lemma table_full v cap cs v' p : length cs = cap → table_after v cap cs v' (cap * 2) (cs ++ [p]).
Proof. intros ?. rewrite /table_after app_length /= decide_True; lia. Qed.
Lemma table_room v cap cs p : length cs ≠ cap → table_after v cap cs v cap (cs ++ [p]).
Proof. intros ?. rewrite /table_after decide_False; [done|]. naive_solver. Qed.

Section arith.
  Context (K : nat) (HK : 2 ≤ K).

  Lemma div_mod_at j o : o < K → (j * K + o) / K = j ∧ (j * K + o) mod K = o.
  Proof using HK.
    intros Ho. split.
    - rewrite Nat.div_add_l; [|lia]. rewrite Nat.div_small; lia.
    - rewrite Nat.add_comm Nat.mod_add; [|lia]. by apply Nat.mod_small.
  Qed.
  Lemma div_mod_uniq x j o : o < K → x = j * K + o → x / K = j ∧ x mod K = o.
  Proof using HK. intros Ho ->. by apply div_mod_at. Qed.
  Lemma pos_eq x : x = x / K * K + x mod K.
  Proof using HK. rewrite {1}(Nat.div_mod x K); lia. Qed.
  Lemma pos_mod x : x mod K < K.
  Proof using HK. apply Nat.mod_upper_bound. lia. Qed.
  Lemma pos_div x n : x < n * K → x / K < n.
  Proof using HK. intros. apply Nat.div_lt_upper_bound; lia. Qed.
  Lemma back0 e : e mod K = 0 → (e + (K - 1)) / K = e / K ∧ (e + (K - 1)) mod K = K - 1.
  Proof using HK. intros. apply div_mod_uniq; [lia|]. rewrite {1}(pos_eq e). lia. Qed.
  Lemma back1 e : e mod K ≠ 0 → (e + (K - 1)) / K = e / K + 1 ∧ (e + (K - 1)) mod K = e mod K - 1.
  Proof using HK. intros. pose proof (pos_mod e). apply div_mod_uniq; [lia|]. rewrite {1}(pos_eq e). lia. Qed.
  Lemma backs e : (e + 1 + (K - 1)) / K = e / K + 1 ∧ (e + 1 + (K - 1)) mod K = e mod K.
  Proof using HK. pose proof (pos_mod e). apply div_mod_uniq; [lia|]. rewrite {1}(pos_eq e). lia. Qed.
  Lemma succ0 x : x mod K = K - 1 → (x + 1) / K = x / K + 1 ∧ (x + 1) mod K = 0.
  Proof using HK. intros. apply div_mod_uniq; [lia|]. rewrite {1}(pos_eq x). lia. Qed.
  Lemma succ1 x : x mod K ≠ K - 1 → (x + 1) / K = x / K ∧ (x + 1) mod K = x mod K + 1.
  Proof using HK. intros. pose proof (pos_mod x). apply div_mod_uniq; [lia|]. rewrite {1}(pos_eq x). lia. Qed.
  Lemma pred0 x : x ≠ 0 → x mod K = 0 → (x - 1) / K = x / K - 1 ∧ (x - 1) mod K = K - 1 ∧ x / K ≠ 0.
  Proof using HK.
    intros Hx H. pose proof (pos_eq x) as Hp. rewrite H in Hp.
    assert (x / K ≠ 0) by (intros E; rewrite E in Hp; lia).
    rewrite and_assoc. split; [|done]. apply div_mod_uniq; [lia|]. nia.
  Qed.
  Lemma pred1 x : x mod K ≠ 0 → (x - 1) / K = x / K ∧ (x - 1) mod K = x mod K - 1.
  Proof using HK. intros. pose proof (pos_mod x). apply div_mod_uniq; [lia|]. rewrite {1}(pos_eq x). lia. Qed.
  Lemma half : K / 2 < K ∧ 1 ≤ K / 2.
  Proof using HK. split; [apply Nat.div_lt; lia|]. by apply (Nat.div_le_mono 2 K 2). Qed.
  Lemma fresh_hdr j : (j * K + K / 2) / K = j ∧ (j * K + K / 2) mod K = K / 2 ∧
    (j * K + K / 2 + (K - 1)) / K = j + 1 ∧ (j * K + K / 2 + (K - 1)) mod K = K / 2 - 1.
  Proof using HK.
    destruct half. rewrite and_assoc. split; [by apply div_mod_at|].
    apply div_mod_uniq; lia.
  Qed.
End arith.

Section proofs.
  Context {V : Type} (K : nat) (HK : 2 ≤ K).
  Context (md : mode) (Hmc : mC md = false).
  Implicit Types (d : dstate V) (g : nat → option V) (cs : list loc) (R : exn → hprop (dcell V)).

  (** ** The chunks [cs], with contents [g] *)
  Definition dcs cs g : hprop (dcell V) :=
    ([∗ list] j ↦ c ∈ cs, c ↦ DArr (g <$> seq (j * K) K))%I.
  Definition upd g (p : nat) (o : option V) : nat → option V := λ q, if decide (q = p) then o else g q.

  Lemma row_lookup g j o : o < K → (g <$> seq (j * K) K) !! o = Some (g (j * K + o)).
  Proof using. clear HK. intros. rewrite list_lookup_fmap lookup_seq_lt //. Qed.
  Lemma row_ext g g' j : (∀ o, o < K → g (j * K + o) = g' (j * K + o)) → g <$> seq (j * K) K = g' <$> seq (j * K) K.
  Proof using. clear HK.
    intros H. apply list_fmap_ext. intros i x [-> Hi]%lookup_seq. by apply H.
  Qed.
  Lemma row_upd g j o x : o < K → <[o := x]> (g <$> seq (j * K) K) = upd g (j * K + o) x <$> seq (j * K) K.
  Proof using. clear HK.
    intros Ho. apply list_eq. intros i. destruct (decide (i < K)) as [Hi|Hi].
    - rewrite row_lookup // /upd. destruct (decide (i = o)) as [->|Hne].
      + rewrite list_lookup_insert; [|rewrite fmap_length seq_length //]. by rewrite decide_True.
      + rewrite list_lookup_insert_ne // row_lookup // decide_False //. lia.
    - rewrite !lookup_ge_None_2 //; rewrite ?insert_length fmap_length seq_length; lia.
  Qed.
  Lemma row_len g j : length (g <$> seq (j * K) K) = K.
  Proof using. clear HK. by rewrite fmap_length seq_length. Qed.

  Lemma dcs_ext cs g g' : (∀ p, p < length cs * K → g p = g' p) → dcs cs g ⊢ dcs cs g'.
  Proof using. clear HK.
    intros H. rewrite /dcs. apply big_sepL_mono. intros j c Hj. apply lookup_lt_Some in Hj.
    rewrite (row_ext g g'); [done|]. intros o Ho. apply H. nia.
  Qed.
  Lemma dcs_acc cs g j c : cs !! j = Some c →
    dcs cs g ⊢ c ↦ DArr (g <$> seq (j * K) K) ∗
      (∀ o x, ⌜o < K⌝ → c ↦ DArr (<[o := x]> (g <$> seq (j * K) K)) -∗ dcs cs (upd g (j * K + o) x)).
  Proof using HK.
    intros Hj. rewrite /dcs {1}(big_sepL_delete _ _ _ _ Hj). iIntros "[$ H]" (o x Ho) "Hc".
    rewrite row_upd //. iApply (big_sepL_delete _ cs _ _ Hj). iFrame. iApply (big_sepL_mono with "H").
    iIntros (k y Hk) "H". case_decide as Hkj; [done|]. rewrite (row_ext (upd g _ x) g); [done|].
    intros o' Ho'. rewrite /upd decide_False //. intros E. apply Hkj.
    destruct (div_mod_at K HK k o' Ho') as [<- _]. rewrite E. by apply div_mod_at.
  Qed.
  Lemma dcs_acc_ro cs g j c : cs !! j = Some c →
    dcs cs g ⊢ c ↦ DArr (g <$> seq (j * K) K) ∗ (c ↦ DArr (g <$> seq (j * K) K) -∗ dcs cs g).
  Proof using. apply (big_sepL_lookup_acc (λ j c, c ↦ DArr (g <$> seq (j * K) K))%I). Qed.
  Lemma dcs_nil g : dcs [] g ⊣⊢ emp.
  Proof using. done. Qed.
  Lemma dcs_snoc cs c g : dcs (cs ++ [c]) g ⊣⊢ dcs cs g ∗ c ↦ DArr (g <$> seq (length cs * K) K).
  Proof using. rewrite /dcs big_sepL_snoc. done. Qed.
  Lemma dcs_cons cs c g : dcs (c :: cs) g ⊣⊢ c ↦ DArr (g <$> seq 0 K) ∗ dcs cs (λ p, g (K + p)).
  Proof using.
    rewrite /dcs big_sepL_cons. apply bi.sep_proper; [done|]. apply big_sepL_proper. intros j y _.
    rewrite (_ : S j * K = K + j * K) // -fmap_add_seq -list_fmap_compose //.
  Qed.
  Lemma row_none g j : (∀ o, o < K → g (j * K + o) = None) → g <$> seq (j * K) K = replicate K None.
  Proof using. clear HK.
    intros H. apply list_eq. intros i. destruct (decide (i < K)) as [Hi|Hi].
    - by rewrite row_lookup // lookup_replicate_2 // H.
    - rewrite !lookup_ge_None_2 //; rewrite ?replicate_length ?fmap_length ?seq_length; lia.
  Qed.

  (** ** Slots *)
  Lemma wp_d_get cs g p c Q R v : cs !! (p / K) = Some c → g p = Some v →
    dcs cs g -∗ (dcs cs g -∗ Q v) -∗ wp md (d_get (c, p mod K)) Q R.
  Proof using HK.
    iIntros (Hc Hg) "H HQ". iDestruct (dcs_acc_ro _ _ _ _ Hc with "H") as "[Hc H]".
    rewrite /d_get /d_els /=. wstep wp_load' "Hc". wret. rewrite row_lookup; [|by apply pos_mod].
    rewrite -pos_eq // Hg. wret. iApply "HQ". by iApply "H".
  Qed.
  Lemma wp_d_construct cs g p c Q R v : cs !! (p / K) = Some c → g p = None →
    dcs cs g -∗ (dcs cs (upd g p (Some v)) -∗ Q tt) -∗ wp md (d_construct (c, p mod K) v) Q R.
  Proof using HK Hmc.
    iIntros (Hc Hg) "H HQ". iDestruct (dcs_acc _ _ _ _ Hc with "H") as "[Hc H]".
    rewrite /d_construct /d_els /=. wbind. iApply (wp_may_throw' _ _ _ Hmc).
    wstep wp_load' "Hc". wret. rewrite row_lookup; [|by apply pos_mod].
    rewrite -pos_eq // Hg. iApply (wp_store' with "Hc"). iIntros "Hc". iApply "HQ".
    iDestruct ("H" with "[%] Hc") as "H"; [by apply pos_mod|]. rewrite -pos_eq //.
  Qed.
  Lemma wp_d_assign_at cs g p c Q R v u : cs !! (p / K) = Some c → g p = Some u →
    dcs cs g -∗ (dcs cs (upd g p (Some v)) -∗ Q tt) -∗ wp md (d_assign_at (c, p mod K) v) Q R.
  Proof using HK Hmc.
    iIntros (Hc Hg) "H HQ". iDestruct (dcs_acc _ _ _ _ Hc with "H") as "[Hc H]".
    rewrite /d_assign_at /d_els /=. wbind. iApply (wp_may_throw' _ _ _ Hmc).
    wstep wp_load' "Hc". wret. rewrite row_lookup; [|by apply pos_mod].
    rewrite -pos_eq // Hg. iApply (wp_store' with "Hc"). iIntros "Hc". iApply "HQ".
    iDestruct ("H" with "[%] Hc") as "H"; [by apply pos_mod|]. rewrite -pos_eq //.
  Qed.
  Lemma wp_d_destroy_at cs g p c Q R u : cs !! (p / K) = Some c → g p = Some u →
    dcs cs g -∗ (dcs cs (upd g p None) -∗ Q tt) -∗ wp md (d_destroy_at (c, p mod K)) Q R.
  Proof using HK.
    iIntros (Hc Hg) "H HQ". iDestruct (dcs_acc _ _ _ _ Hc with "H") as "[Hc H]".
    rewrite /d_destroy_at /d_els /=. wstep wp_load' "Hc". wret. rewrite row_lookup; [|by apply pos_mod].
    rewrite -pos_eq // Hg. iApply (wp_store' with "Hc"). iIntros "Hc". iApply "HQ".
    iDestruct ("H" with "[%] Hc") as "H"; [by apply pos_mod|]. rewrite -pos_eq //.
  Qed.

  (** ** Members *)
  Section hdr.
    Context (this : loc) (f b fc : nat) (bc : Z) (n : nat) (v : ptr).
    Notation H := (this ↦ DHdr f b fc bc n v)%I.
    Lemma wp_d_hdr Q R : H -∗ (H -∗ Q (f, b, fc, bc, n, v)) -∗ wp md (d_hdr (V:=V) this) Q R.
    Proof using. iIntros "H HQ". rewrite /d_hdr. wstep wp_load' "H". wret. by iApply "HQ". Qed.
    Lemma wp_front_ Q R : H -∗ (H -∗ Q f) -∗ wp md (d_front_ (V:=V) this) Q R.
    Proof using. iIntros "H HQ". rewrite /d_front_. wstep wp_d_hdr "H". wret. by iApply "HQ". Qed.
    Lemma wp_back_ Q R : H -∗ (H -∗ Q b) -∗ wp md (d_back_ (V:=V) this) Q R.
    Proof using. iIntros "H HQ". rewrite /d_back_. wstep wp_d_hdr "H". wret. by iApply "HQ". Qed.
    Lemma wp_fchunk Q R : H -∗ (H -∗ Q fc) -∗ wp md (d_fchunk (V:=V) this) Q R.
    Proof using. iIntros "H HQ". rewrite /d_fchunk. wstep wp_d_hdr "H". wret. by iApply "HQ". Qed.
    Lemma wp_bchunk Q R : H -∗ (H -∗ Q bc) -∗ wp md (d_bchunk (V:=V) this) Q R.
    Proof using. iIntros "H HQ". rewrite /d_bchunk. wstep wp_d_hdr "H". wret. by iApply "HQ". Qed.
    Lemma wp_size Q R : H -∗ (H -∗ Q n) -∗ wp md (d_size (V:=V) this) Q R.
    Proof using. iIntros "H HQ". rewrite /d_size. wstep wp_d_hdr "H". wret. by iApply "HQ". Qed.
    Lemma wp_chunks Q R : H -∗ (H -∗ Q v) -∗ wp md (d_chunks (V:=V) this) Q R.
    Proof using. iIntros "H HQ". rewrite /d_chunks. wstep wp_d_hdr "H". wret. by iApply "HQ". Qed.
    Lemma wp_empty Q R : H -∗ (H -∗ Q (n =? 0)) -∗ wp md (d_empty (V:=V) this) Q R.
    Proof using. iIntros "H HQ". rewrite /d_empty. wstep wp_size "H". wret. by iApply "HQ". Qed.
    Lemma wp_set_front x Q R : H -∗ (this ↦ DHdr x b fc bc n v -∗ Q tt) -∗ wp md (d_set_front (V:=V) this x) Q R.
    Proof using. iIntros "H HQ". rewrite /d_set_front. wstep wp_d_hdr "H". by iApply (wp_store' with "H"). Qed.
    Lemma wp_set_back x Q R : H -∗ (this ↦ DHdr f x fc bc n v -∗ Q tt) -∗ wp md (d_set_back (V:=V) this x) Q R.
    Proof using. iIntros "H HQ". rewrite /d_set_back. wstep wp_d_hdr "H". by iApply (wp_store' with "H"). Qed.
    Lemma wp_set_fchunk x Q R : H -∗ (this ↦ DHdr f b x bc n v -∗ Q tt) -∗ wp md (d_set_fchunk (V:=V) this x) Q R.
    Proof using. iIntros "H HQ". rewrite /d_set_fchunk. wstep wp_d_hdr "H". by iApply (wp_store' with "H"). Qed.
    Lemma wp_set_bchunk x Q R : H -∗ (this ↦ DHdr f b fc x n v -∗ Q tt) -∗ wp md (d_set_bchunk (V:=V) this x) Q R.
    Proof using. iIntros "H HQ". rewrite /d_set_bchunk. wstep wp_d_hdr "H". by iApply (wp_store' with "H"). Qed.
    Lemma wp_set_size x Q R : H -∗ (this ↦ DHdr f b fc bc x v -∗ Q tt) -∗ wp md (d_set_size (V:=V) this x) Q R.
    Proof using. iIntros "H HQ". rewrite /d_set_size. wstep wp_d_hdr "H". by iApply (wp_store' with "H"). Qed.
    Lemma wp_set_chunks x Q R : H -∗ (this ↦ DHdr f b fc bc n x -∗ Q tt) -∗ wp md (d_set_chunks (V:=V) this x) Q R.
    Proof using. iIntros "H HQ". rewrite /d_set_chunks. wstep wp_d_hdr "H". by iApply (wp_store' with "H"). Qed.
  End hdr.

  (** header and chunk vector *)
  Definition hv (this : loc) f b fc bc n (v : loc) cap cs : hprop (dcell V) :=
    (this ↦ DHdr f b fc bc n (Some v) ∗ v ↦ DVec cap cs)%I.
  Section hv.
    Context (this : loc) (f b fc : nat) (bc : Z) (n : nat) (v : loc) (cap : nat) (cs : list loc).
    Notation H := (hv this f b fc bc n v cap cs).
    Lemma wp_ps Q R : H -∗ (H -∗ Q cs) -∗ wp md (d_ps (V:=V) this) Q R.
    Proof using.
      iIntros "[H G] HQ". rewrite /d_ps /d_vec. wstep wp_chunks "H". wstep wp_load' "G". wret. wret.
      iApply "HQ". iFrame.
    Qed.
    Lemma wp_chunk (j : nat) c Q R : cs !! j = Some c → H -∗ (H -∗ Q c) -∗ wp md (d_chunk (V:=V) this (Z.of_nat j)) Q R.
    Proof using K HK.
      iIntros (Hc) "H HQ". rewrite /d_chunk. wstep wp_ps "H". rewrite decide_True; [|lia].
      rewrite Nat2Z.id Hc. wret. by iApply "HQ".
    Qed.
    Lemma wp_pp (j : nat) c Q R : cs !! j = Some c →
      H -∗ (H -∗ Q c) -∗ wp md (d_pp (V:=V) v (Z.of_nat j)) Q R.
    Proof using K HK.
      iIntros (Hc) "[H G] HQ". rewrite /d_pp /d_vec. wstep wp_load' "G". wret. rewrite decide_True; [|lia].
      rewrite Nat2Z.id Hc. wret. iApply "HQ". iFrame.
    Qed.
    (** may fail when the vector is full *)
    Lemma wp_vec_push p Q R :
      H -∗ ((⌜mA md = true⌝ → H -∗ R BadAlloc) ∧
            (∀ v' cap', ⌞table_after v cap cs v' cap' (cs ++ [p])⌟ -∗ hv this f b fc bc n v' cap' (cs ++ [p]) -∗ Q tt)) -∗
      wp md (d_vec_push (V:=V) this p) Q R.
    Proof using.
      iIntros "[H G] HQ". rewrite /d_vec_push /d_vec. wstep wp_chunks "H". wstep wp_load' "G". wret. simpl.
      destruct (Nat.eqb_spec (length cs) cap) as [Hc|Hc].
      - wbind. iApply wp_alloc. iSplit.
        + iIntros (HA). iDestruct "HQ" as "[HQ _]". iApply ("HQ" with "[//]"). iFrame.
        + iIntros (l) "Hl". wstep wp_free' "G". iClear "G". iApply (wp_set_chunks with "H"). iIntros "H".
          iDestruct "HQ" as "[_ HQ]". iApply "HQ"; [|iFrame]. iPureIntro. by apply table_full.
      - iApply (wp_store' with "G"). iIntros "G". iDestruct "HQ" as "[_ HQ]". iApply "HQ"; [|iFrame].
        iPureIntro. by apply table_room.
    Qed.
  End hv.
  Lemma wp_vec_rotate this f b fc bc n v cap cs p Q R :
    hv this f b fc bc n v cap (cs ++ [p]) -∗
    (hv this f b fc bc n v cap (p :: cs) -∗ Q tt) -∗ wp md (d_vec_rotate (V:=V) this) Q R.
  Proof using.
    iIntros "[H G] HQ". rewrite /d_vec_rotate /d_vec. wstep wp_chunks "H". wstep wp_load' "G". wret. simpl.
    rewrite rev_unit rev_involutive. iApply (wp_store' with "G"). iIntros "G". iApply "HQ". iFrame.
  Qed.

  (** ** Deques *)
  Definition dhv (this v : loc) cap cs d : hprop (dcell V) :=
    hv this (dq_lo d mod K) ((dq_end d + (K - 1)) mod K) (dq_lo d / K)
      (Z.of_nat ((dq_end d + (K - 1)) / K) - 1) (length (dq_els d)) v cap cs.
  Definition dfits d cs : Prop := length cs = dq_chunks d ∧ dq_end d ≤ dq_chunks d * K.
  Definition dobj (this v : loc) cap cs d : hprop (dcell V) :=
    (⌞dfits d cs⌟ ∗ dhv this v cap cs d ∗ dcs cs (slot d))%I.
  Definition dq (this : loc) d : hprop (dcell V) := (∃ v cap cs, dobj this v cap cs d)%I.

  Lemma slot_in d i : slot d (dq_lo d + i) = dq_els d !! i.
  Proof using. clear HK. rewrite /slot decide_False; [|lia]. f_equal. lia. Qed.
  Lemma slot_end d p : dq_end d ≤ p → slot d p = None.
  Proof using. clear HK.
    rewrite /slot /dq_end => H. case_decide; [done|]. apply lookup_ge_None_2. lia.
  Qed.
  Lemma slot_low d p : p < dq_lo d → slot d p = None.
  Proof using. clear HK. rewrite /slot => H. by rewrite decide_True. Qed.
  Lemma chunk_some cs p : p < length cs * K → ∃ c, cs !! (p / K) = Some c.
  Proof using HK. intros. apply lookup_lt_is_Some. by apply pos_div. Qed.
  Lemma elem_chunk d cs i x : dfits d cs → dq_els d !! i = Some x →
    ∃ c, cs !! ((dq_lo d + i) / K) = Some c.
  Proof using HK.
    intros [Hl He] Hi%lookup_lt_Some. apply chunk_some. rewrite Hl. unfold dq_end in He. lia.
  Qed.

  (** ** operator[], front, back *)
  Lemma wp_d_index this v cap cs d i c Q R : cs !! ((dq_lo d + i) / K) = Some c →
    dhv this v cap cs d -∗ (dhv this v cap cs d -∗ Q (c, (dq_lo d + i) mod K)) -∗ wp md (d_index K this i) Q R.
  Proof using HK.
    iIntros (Hc) "[H G] HQ". rewrite /d_index. wstep wp_front_ "H". wstep wp_fchunk "H".
    assert (dq_lo d / K + (dq_lo d mod K + i) / K = (dq_lo d + i) / K) as ->.
    { rewrite -Nat.div_add_l; [|lia]. f_equal. rewrite {3}(pos_eq K HK (dq_lo d)). lia. }
    wbind. iApply (wp_chunk with "[$H $G]"); [done|]. iIntros "[H G]". wret.
    rewrite Nat.add_mod_idemp_l; [|lia]. iApply "HQ". iFrame.
  Qed.
  Lemma wp_d_front this v cap cs d c Q R : cs !! (dq_lo d / K) = Some c →
    dhv this v cap cs d -∗ (dhv this v cap cs d -∗ Q (c, dq_lo d mod K)) -∗ wp md (d_front this) Q R.
  Proof using HK.
    iIntros (Hc) "[H G] HQ". rewrite /d_front. wstep wp_fchunk "H".
    wbind. iApply (wp_chunk with "[$H $G]"); [done|]. iIntros "[H G]". wstep wp_front_ "H". wret.
    iApply "HQ". iFrame.
  Qed.
  Lemma wp_d_back this v cap cs d c e Q R : dq_end d = e + 1 → cs !! (e / K) = Some c →
    dhv this v cap cs d -∗ (dhv this v cap cs d -∗ Q (c, e mod K)) -∗ wp md (d_back this) Q R.
  Proof using HK.
    iIntros (He Hc) "[H G] HQ". rewrite /d_back. wstep wp_bchunk "H". rewrite He.
    destruct (backs K HK e) as [-> ->]. replace (Z.of_nat (e / K + 1) - 1)%Z with (Z.of_nat (e / K)) by lia.
    wbind. iApply (wp_chunk with "[$H $G]"); [done|]. iIntros "[H G]". wstep wp_back_ "H". wret.
    iApply "HQ". rewrite /dhv He. destruct (backs K HK e) as [-> ->].
    replace (Z.of_nat (e / K + 1) - 1)%Z with (Z.of_nat (e / K)) by lia. iFrame.
  Qed.

  (** ** push_back *)
  Definition leak : hprop (dcell V) := (emp ∨ ∃ p, p ↦ DArr (replicate K None))%I.
  Lemma fits_new d cs p : dfits d cs → dfits (DState (dq_els d) (dq_lo d) (dq_chunks d + 1)) (cs ++ [p]).
  Proof using. clear HK. intros [H1 H2]. split; rewrite ?app_length /= /dq_end /= in H2 |- *; lia. Qed.

  Lemma wp_d_push_back_helper this v cap cs d d' x Q R : dq_push_back K x d = Some d' → dfits d cs →
    dhv this v cap cs d -∗ dcs cs (slot d) -∗
    ((⌜mA md = true⌝ → dhv this v cap cs d -∗ dcs cs (slot d) -∗ leak -∗ R BadAlloc) ∧
     (∀ v' cap' cs', ⌞cs `prefix_of` cs' ∧ dfits d' cs' ∧ table_after v cap cs v' cap' cs'⌟ ∗ dhv this v' cap' cs' d' ∗ dcs cs' (slot d) -∗ Q tt)) -∗
    wp md (d_push_back_helper K this) Q R.
  Proof using HK.
    iIntros (Hp [Hl He]) "[H G] HD HQ". rewrite /d_push_back_helper. wstep wp_back_ "H".
    unfold dq_push_back, at_boundary in Hp. case_decide as Hfull.
    - simplify_eq. assert (dq_end d mod K = 0) as Hm by (rewrite Hfull; apply Nat.mod_mul; lia).
      assert (dq_end d / K = dq_chunks d) as Hd by (rewrite Hfull; apply Nat.div_mul; lia).
      destruct (back0 K HK _ Hm) as [E1 E2].
      rewrite (proj2 (Nat.eqb_eq _ _) E2).
      wstep wp_bchunk "H". wbind. iApply (wp_ps with "[$H $G]"). iIntros "H".
      assert ((Z.of_nat ((dq_end d + (K - 1)) / K) - 1 =? Z.of_nat (length cs) - 1)%Z = true) as ->
        by (rewrite E1 Hd Hl; apply Z.eqb_refl). wbind. rewrite /d_allocate. iApply wp_alloc. iSplit.
      { iIntros (HA). iDestruct "HQ" as "[HQ _]". iApply ("HQ" with "[//] H HD"). by iLeft. }
      iIntros (p) "Hp". wbind. iApply (wp_vec_push with "H"). iSplit.
      { iIntros (HA) "H". iDestruct "HQ" as "[HQ _]". iApply ("HQ" with "[//] H HD"). iRight. by iExists p. }
      iIntros (v' cap' Hta) "[H G]". wstep wp_bchunk "H". wstep wp_set_bchunk "H". wstep wp_set_back "H".
      wstep wp_size "H". iApply (wp_set_size with "H"). iIntros "H".
      iDestruct "HQ" as "[_ HQ]". iApply ("HQ" $! v' cap' (cs ++ [p])).
      iSplitR.
      { iPureIntro. split; [by apply prefix_app_r|]. split; [|done]. split; rewrite ?app_length /=; [lia|].
        rewrite /dq_end app_length /= in Hfull |- *. lia. }
      iSplitL "H G".
      + rewrite /dhv /hv /dq_end app_length /=. rewrite Nat.add_assoc. fold (dq_end d).
        destruct (backs K HK (dq_end d)) as [-> ->]. rewrite E1 Hm.
        replace (Z.of_nat (dq_end d / K) - 1 + 1)%Z with (Z.of_nat (dq_end d / K + 1) - 1)%Z by lia. iFrame.
      + rewrite dcs_snoc. iFrame. rewrite row_none; [done|]. intros o _. apply slot_end. rewrite Hfull Hl. lia.
    - case_decide as Hb; [done|]. simplify_eq. destruct (back1 K HK _ Hb) as [E1 E2].
      pose proof (pos_mod K HK (dq_end d)).
      assert (((dq_end d + (K - 1)) mod K =? K - 1) = false) as -> by (apply Nat.eqb_neq; lia).
      wstep wp_set_back "H". wstep wp_size "H". iApply (wp_set_size with "H"). iIntros "H".
      iDestruct "HQ" as "[_ HQ]". iApply ("HQ" $! v cap cs). iFrame "HD".
      iSplitR.
      { iPureIntro. split; [done|]. split; [|apply table_same]. split; [done|]. rewrite /dq_end app_length /= in He Hfull |- *. lia. }
      rewrite /dhv /hv /dq_end app_length /=. rewrite Nat.add_assoc. fold (dq_end d).
      destruct (backs K HK (dq_end d)) as [-> ->]. rewrite E1 E2.
      replace (dq_end d mod K - 1 + 1) with (dq_end d mod K) by lia. iFrame.
  Qed.

  (** [r] denotes [x], whose storage is in [X] or is one of the deque's slots;
      these keep their chunk *)
  Definition reads (X : hprop (dcell V)) cs d (r : dref V) (x : V) : Prop :=
    ∀ cs' d0 Q R, dq_els d0 = dq_els d →
      (∀ i c, cs !! ((dq_lo d + i) / K) = Some c →
              cs' !! ((dq_lo d0 + i) / K) = Some c ∧ (dq_lo d0 + i) mod K = (dq_lo d + i) mod K) →
      X -∗ dcs cs' (slot d0) -∗ (X -∗ dcs cs' (slot d0) -∗ Q x) -∗ wp md (d_deref r) Q R.
  Lemma reads_val cs d x : reads emp cs d (DVal x) x.
  Proof using. iIntros (cs' d0 Q R _ _) "X H HQ". wret. by iApply ("HQ" with "X"). Qed.
  Lemma reads_own cs d i x c : dq_els d !! i = Some x → cs !! ((dq_lo d + i) / K) = Some c →
    reads emp cs d (DSlot (c, (dq_lo d + i) mod K)) x.
  Proof using HK.
    iIntros (Hx Hc cs' d0 Q R Hd0 Hcs) "X H HQ". destruct (Hcs _ _ Hc) as [Hc' <-]. simpl.
    iApply (wp_d_get with "H"); [done| |by iApply "HQ"]. by rewrite slot_in Hd0.
  Qed.
  Lemma reads_other cs d cs1 d1 i x c : dq_els d1 !! i = Some x → cs1 !! ((dq_lo d1 + i) / K) = Some c →
    reads (dcs cs1 (slot d1)) cs d (DSlot (c, (dq_lo d1 + i) mod K)) x.
  Proof using HK.
    iIntros (Hx Hc cs' d0 Q R Hd0 Hcs) "X H HQ". simpl.
    iApply (wp_d_get with "X"); [done| |]. { by rewrite slot_in. } iIntros "X". by iApply ("HQ" with "X").
  Qed.

  Lemma slot_push_back d x d' : dq_push_back K x d = Some d' →
    ∀ p, upd (slot d) (dq_end d) (Some x) p = slot d' p.
  Proof using. clear HK.
    intros Hp p.
    assert (dq_els d' = dq_els d ++ [x] ∧ dq_lo d' = dq_lo d) as [E1 E2].
    { unfold dq_push_back in Hp. repeat case_decide; by simplify_eq. }
    rewrite /upd /slot E1 E2 /dq_end. case_decide as H1.
    - subst p. rewrite decide_False; [|lia].
      replace (dq_lo d + length (dq_els d) - dq_lo d) with (length (dq_els d) + 0) by lia.
      by rewrite lookup_app_r ?Nat.add_0_r ?Nat.sub_diag; [|lia].
    - case_decide; [done|]. destruct (decide (p - dq_lo d < length (dq_els d))).
      + by rewrite lookup_app_l.
      + rewrite !lookup_ge_None_2 // ?app_length /=; lia.
  Qed.

  Lemma push_back_end x d d' : dq_push_back K x d = Some d' → dq_end d' = dq_end d + 1.
  Proof using. clear HK.
    rewrite /dq_push_back /dq_end => H. repeat case_decide; simplify_eq; rewrite /= app_length /=; lia.
  Qed.

  Lemma wp_d_push_back X this v cap cs d d' r x Q R :
    dq_push_back K x d = Some d' → reads X cs d r x →
    X -∗ dobj this v cap cs d -∗
    ((⌜mA md = true⌝ → X -∗ dobj this v cap cs d -∗ leak -∗ R BadAlloc) ∧
     (X -∗ dq this d' -∗ Q tt)) -∗
    wp md (d_push_back K this r) Q R.
  Proof using HK Hmc.
    iIntros (Hp Hr) "X (%Hf & H & HD) HQ". rewrite /d_push_back. wbind.
    iApply (wp_d_push_back_helper with "H HD"); [done..|]. iSplit.
    { iIntros (HA) "H HD Hl". iDestruct "HQ" as "[HQ _]". iApply ("HQ" with "[//] X [$H $HD //] Hl"). }
    iIntros (v' cap' cs') "([%Hpre [%Hf' _]] & H & HD)".
    pose proof (push_back_end _ _ _ Hp) as Hend.
    destruct (chunk_some cs' (dq_end d)) as [c Hc].
    { destruct Hf' as [-> Hf']. lia. }
    wbind. iApply (wp_d_back with "H"); [done..|]. iIntros "H". wbind.
    iApply (Hr with "X HD"); [done| |].
    { intros i c' Hc'. split; [|done]. by eapply prefix_lookup. }
    iIntros "X HD". iApply (wp_d_construct with "HD"); [done|by apply slot_end|]. iIntros "HD".
    iDestruct "HQ" as "[_ HQ]". iApply ("HQ" with "X"). iExists v', cap', cs'. iSplitR; [done|]. iFrame "H".
    iApply (dcs_ext with "HD"). intros p _. by apply slot_push_back.
  Qed.

  (** ** push_front *)
  Definition shifted d d' : dstate V := DState (dq_els d) (dq_lo d' + 1) (dq_chunks d').
  Lemma wp_d_push_front_helper this v cap cs d x Q R : dfits d cs →
    dhv this v cap cs d -∗ dcs cs (slot d) -∗
    ((⌜mA md = true⌝ → dhv this v cap cs d -∗ dcs cs (slot d) -∗ leak -∗ R BadAlloc) ∧
     (∀ v' cap' cs',
        ⌞dfits (dq_push_front K x d) cs' ∧ table_after v cap cs v' cap' cs' ∧
         ∀ i c, cs !! ((dq_lo d + i) / K) = Some c →
           cs' !! ((dq_lo (dq_push_front K x d) + 1 + i) / K) = Some c ∧
           (dq_lo (dq_push_front K x d) + 1 + i) mod K = (dq_lo d + i) mod K⌟ ∗
        dhv this v' cap' cs' (dq_push_front K x d) ∗ dcs cs' (slot (shifted d (dq_push_front K x d))) -∗ Q tt)) -∗
    wp md (d_push_front_helper K this) Q R.
  Proof using HK.
    iIntros ([Hl He]) "[H G] HD HQ". rewrite /d_push_front_helper. wstep wp_front_ "H".
    unfold dq_push_front. case_decide as Hlo; simpl.
    - rewrite Hlo Nat.mod_0_l; [|lia]. rewrite /= Nat.div_0_l; [|lia]. wstep wp_fchunk "H". simpl.
      wbind. rewrite /d_allocate. iApply wp_alloc. iSplit.
      { iIntros (HA). iDestruct "HQ" as "[HQ _]". iApply ("HQ" with "[//] [H G] HD").
        - rewrite /dhv Hlo Nat.mod_0_l; [|lia]. rewrite Nat.div_0_l; [|lia]. iFrame.
        - by iLeft. }
      iIntros (p) "Hp". wbind. iApply (wp_vec_push with "[$H $G]"). iSplit.
      { iIntros (HA) "H". iDestruct "HQ" as "[HQ _]". iApply ("HQ" with "[//] [H] HD").
        - rewrite /dhv Hlo Nat.mod_0_l; [|lia]. rewrite Nat.div_0_l; [|lia]. iFrame.
        - iRight. by iExists p. }
      iIntros (v' cap' Hta) "H". wstep wp_vec_rotate "H". iDestruct "H" as "[H G]".
      wstep wp_bchunk "H". wstep wp_set_bchunk "H". wstep wp_set_front "H".
      wstep wp_size "H". iApply (wp_set_size with "H"). iIntros "H".
      iDestruct "HQ" as "[_ HQ]". iApply ("HQ" $! v' cap' (p :: cs)). iSplitR.
      { iPureIntro. rewrite /dfits /dq_end /= Hl. unfold dq_end in He. split; [split; [lia|rewrite Nat.mul_add_distr_r; lia]|].
        split. { rewrite /table_after app_length /= Nat.add_1_r in Hta. exact Hta. }
        intros i c Hc. replace (K - 1 + 1 + i) with (i + 1 * K) by lia.
        rewrite Nat.div_add; [|lia]. rewrite Nat.mod_add; [|lia]. by rewrite Nat.add_1_r. }
      iSplitL "H G".
      + rewrite /dhv /hv /dq_end /=. rewrite (Nat.div_small (K - 1) K); [|lia].
        rewrite (Nat.mod_small (K - 1) K); [|lia]. rewrite Hlo /=.
        replace (K - 1 + S (length (dq_els d)) + (K - 1)) with (length (dq_els d) + (K - 1) + 1 * K) by lia.
        rewrite Nat.div_add; [|lia]. rewrite Nat.mod_add; [|lia].
        replace (S (length (dq_els d))) with (length (dq_els d) + 1) by lia.
        replace (Z.of_nat ((length (dq_els d) + (K - 1)) / K + 1) - 1)%Z
          with (Z.of_nat ((length (dq_els d) + (K - 1)) / K) - 1 + 1)%Z by lia. iFrame.
      + rewrite dcs_cons. iSplitL "Hp".
        * rewrite (row_none _ 0) //. intros o Ho. apply slot_low. simpl. lia.
        * iApply (dcs_ext with "HD"). intros q _. rewrite /slot /= Hlo. rewrite !decide_False; [|lia..].
          f_equal. lia.
    - destruct (decide (dq_lo d mod K = 0)) as [Hm|Hm].
      + destruct (pred0 K HK _ Hlo Hm) as (E1 & E2 & Hne). rewrite Hm /=. wstep wp_fchunk "H".
        rewrite (proj2 (Nat.eqb_neq _ _) Hne). wstep wp_set_fchunk "H". wstep wp_set_front "H".
        wstep wp_size "H". iApply (wp_set_size with "H"). iIntros "H".
        iDestruct "HQ" as "[_ HQ]". iApply ("HQ" $! v cap cs). iSplitR.
        { iPureIntro. rewrite /dfits /dq_end /=. unfold dq_end in He. split; [lia|]. split; [apply table_same|].
          replace (dq_lo d - 1 + 1) with (dq_lo d) by lia. done. }
        iSplitL "H G".
        * rewrite /dhv /hv /dq_end /= E1 E2. replace (dq_lo d - 1 + S (length (dq_els d)))
            with (dq_lo d + length (dq_els d)) by lia. rewrite Nat.add_1_r. iFrame.
        * rewrite /shifted /=. replace (dq_lo d - 1 + 1) with (dq_lo d) by lia. by destruct d.
      + destruct (pred1 K HK _ Hm) as (E1 & E2).
        rewrite (proj2 (Nat.eqb_neq _ _) Hm). wstep wp_set_front "H".
        wstep wp_size "H". iApply (wp_set_size with "H"). iIntros "H".
        iDestruct "HQ" as "[_ HQ]". iApply ("HQ" $! v cap cs). iSplitR.
        { iPureIntro. rewrite /dfits /dq_end /=. unfold dq_end in He. split; [lia|]. split; [apply table_same|].
          replace (dq_lo d - 1 + 1) with (dq_lo d) by lia. done. }
        iSplitL "H G".
        * rewrite /dhv /hv /dq_end /= E1 E2. replace (dq_lo d - 1 + S (length (dq_els d)))
            with (dq_lo d + length (dq_els d)) by lia. rewrite Nat.add_1_r. iFrame.
        * rewrite /shifted /=. replace (dq_lo d - 1 + 1) with (dq_lo d) by lia. by destruct d.
  Qed.
  Lemma slot_push_front d x :
    ∀ p, upd (slot (shifted d (dq_push_front K x d))) (dq_lo (dq_push_front K x d)) (Some x) p = slot (dq_push_front K x d) p.
  Proof using. clear HK.
    intros p. rewrite /upd /slot /=. assert (dq_els (dq_push_front K x d) = x :: dq_els d) as ->.
    { unfold dq_push_front. by case_decide. }
    set (lo := dq_lo (dq_push_front K x d)). case_decide as H1.
    - subst p. rewrite decide_False; [|lia]. by rewrite Nat.sub_diag.
    - destruct (decide (p < lo + 1)); [rewrite decide_True //; lia|]. rewrite decide_False; [|lia].
      replace (p - lo) with (S (p - (lo + 1))) by lia. done.
  Qed.

  Lemma wp_d_push_front X this v cap cs d r x Q R :
    reads X cs d r x →
    X -∗ dobj this v cap cs d -∗
    ((⌜mA md = true⌝ → X -∗ dobj this v cap cs d -∗ leak -∗ R BadAlloc) ∧
     (X -∗ dq this (dq_push_front K x d) -∗ Q tt)) -∗
    wp md (d_push_front K this r) Q R.
  Proof using HK Hmc.
    iIntros (Hr) "X (%Hf & H & HD) HQ". rewrite /d_push_front. wbind.
    iApply (wp_d_push_front_helper _ _ _ _ _ x with "H HD"); [done..|]. iSplit.
    { iIntros (HA) "H HD Hl". iDestruct "HQ" as "[HQ _]". iApply ("HQ" with "[//] X [$H $HD //] Hl"). }
    iIntros (v' cap' cs') "([%Hf' [_ %Hcs]] & H & HD)".
    destruct (chunk_some cs' (dq_lo (dq_push_front K x d))) as [c Hc].
    { destruct Hf' as [-> Hf']. unfold dq_end in Hf'.
      assert (length (dq_els (dq_push_front K x d)) = S (length (dq_els d))).
      { unfold dq_push_front. by case_decide. } lia. }
    wbind. iApply (wp_d_front with "H"); [done..|]. iIntros "H". wbind.
    iApply (Hr with "X HD"); [done|done|].
    iIntros "X HD". iApply (wp_d_construct with "HD"); [done|apply slot_low; simpl; lia|]. iIntros "HD".
    iDestruct "HQ" as "[_ HQ]". iApply ("HQ" with "X"). iExists v', cap', cs'. iSplitR; [done|]. iFrame "H".
    iApply (dcs_ext with "HD"). intros p _. by apply slot_push_front.
  Qed.

  (** ** pop_back, pop_front *)
  Lemma slot_pop_back d p : dq_els d ≠ [] →
    upd (slot d) (dq_end d - 1) None p = slot (dq_pop_back d) p.
  Proof using. clear HK.
    intros Hne. destruct d as [xs lo n]; simpl in *.
    destruct xs as [|y xs _] using rev_ind; [done|]. rewrite /upd /slot /dq_end /= removelast_last app_length /=.
    case_decide as H1.
    - case_decide; [done|]. rewrite lookup_ge_None_2 //. lia.
    - case_decide; [done|]. destruct (decide (p - lo < length xs)).
      + by rewrite lookup_app_l.
      + rewrite !lookup_ge_None_2 // ?app_length /=; lia.
  Qed.
  Lemma slot_pop_front d p : dq_els d ≠ [] → upd (slot d) (dq_lo d) None p = slot (dq_pop_front d) p.
  Proof using. clear HK.
    intros Hne. destruct d as [[|y xs] lo n]; [done|]. rewrite /upd /slot /=. case_decide.
    - rewrite decide_True //. lia.
    - destruct (decide (p < lo)); [rewrite decide_True //; lia|]. rewrite decide_False; [|lia].
      replace (p - lo) with (S (p - (lo + 1))) by lia. done.
  Qed.
  Lemma wp_d_pop_back this v cap cs d Q R :
    dobj this v cap cs d -∗ (dobj this v cap cs (dq_pop_back d) -∗ Q tt) -∗ wp md (d_pop_back K this) Q R.
  Proof using HK.
    iIntros "(%Hf & [H G] & HD) HQ". rewrite /d_pop_back. wstep wp_empty "H".
    destruct (decide (dq_els d = [])) as [E|Hne].
    { assert (dq_pop_back d = d) as Hd by (destruct d; simpl in *; by subst). rewrite E /=.
      wret. iApply "HQ". rewrite Hd. iSplitR; [done|]. iFrame. rewrite E. iFrame. }
    assert (length (dq_els d) ≠ 0) as Hn by (by destruct (dq_els d)).
    assert (dq_end d = dq_end d - 1 + 1) as He by (unfold dq_end; lia).
    destruct (chunk_some cs (dq_end d - 1)) as [c Hc].
    { destruct Hf as [-> Hf]. lia. }
    destruct (lookup_lt_is_Some_2 (dq_els d) (length (dq_els d) - 1)) as [x Hx]; [lia|].
    rewrite (proj2 (Nat.eqb_neq _ _) Hn). wbind. iApply (wp_d_back with "[$H $G]"); [done..|]. iIntros "[H G]".
    wbind. iApply (wp_d_destroy_at with "HD"); [done| |].
    { replace (dq_end d - 1) with (dq_lo d + (length (dq_els d) - 1)) by (unfold dq_end; lia). by rewrite slot_in. }
    iIntros "HD". wstep wp_back_ "H".
    assert (length (removelast (dq_els d)) = length (dq_els d) - 1) as Hlen.
    { destruct (dq_els d) as [|y l _] using rev_ind; [done|]. rewrite removelast_last app_length /=. lia. }
    assert (dq_end (dq_pop_back d) = dq_end d - 1) as He' by (rewrite /dq_end /= Hlen; lia).
    assert ((dq_end d + (K - 1)) mod K = (dq_end d - 1) mod K ∧ (dq_end d + (K - 1)) / K = (dq_end d - 1) / K + 1) as [E1 E2].
    { rewrite {1 3}He. destruct (backs K HK (dq_end d - 1)) as [-> ->]. done. }
    iAssert (this ↦ DHdr (dq_lo d mod K) ((dq_end (dq_pop_back d) + (K - 1)) mod K) (dq_lo d / K)
      (Z.of_nat ((dq_end (dq_pop_back d) + (K - 1)) / K) - 1) (length (dq_els d)) (Some v) -∗
      wp md (n <- d_size this ;; d_set_size this (n - 1)) Q R)%I with "[G HD HQ]" as "K".
    { iIntros "H". wstep wp_size "H". iApply (wp_set_size with "H"). iIntros "H". iApply "HQ".
      iSplitR. { iPureIntro. destruct Hf as [Hf1 Hf2]. split; [done|]. rewrite He' /=. lia. }
      iSplitL "H G".
      - rewrite /dhv /hv /= Hlen. iFrame.
      - iApply (dcs_ext with "HD"). intros p _. by apply slot_pop_back. }
    rewrite E1 E2. destruct (decide ((dq_end d - 1) mod K = 0)) as [Hm|Hm].
    - destruct (back0 K HK _ Hm) as [E3 E4]. rewrite He' E3 E4 Hm /=. wstep wp_set_back "H".
      wstep wp_bchunk "H". wstep wp_set_bchunk "H". iApply "K".
      replace (Z.of_nat ((dq_end d - 1) / K) - 1)%Z with (Z.of_nat ((dq_end d - 1) / K + 1) - 1 - 1)%Z by lia.
      done.
    - destruct (back1 K HK _ Hm) as [E3 E4]. rewrite He' E3 E4 (proj2 (Nat.eqb_neq _ _) Hm). wstep wp_set_back "H".
      by iApply "K".
  Qed.
  Lemma wp_d_pop_front this v cap cs d Q R :
    dobj this v cap cs d -∗ (dobj this v cap cs (dq_pop_front d) -∗ Q tt) -∗ wp md (d_pop_front K this) Q R.
  Proof using HK.
    iIntros "(%Hf & [H G] & HD) HQ". rewrite /d_pop_front. wstep wp_empty "H".
    destruct (decide (dq_els d = [])) as [E|Hne].
    { assert (dq_pop_front d = d) as Hd by (unfold dq_pop_front; by rewrite E). rewrite E /=.
      wret. iApply "HQ". rewrite Hd. iSplitR; [done|]. iFrame. rewrite E. iFrame. }
    assert (length (dq_els d) ≠ 0) as Hn by (by destruct (dq_els d)).
    destruct (chunk_some cs (dq_lo d)) as [c Hc].
    { destruct Hf as [-> Hf]. unfold dq_end in Hf. lia. }
    destruct (lookup_lt_is_Some_2 (dq_els d) 0) as [x Hx]; [lia|].
    rewrite (proj2 (Nat.eqb_neq _ _) Hn). wbind. iApply (wp_d_front with "[$H $G]"); [done..|]. iIntros "[H G]".
    wbind. iApply (wp_d_destroy_at with "HD"); [done| |].
    { rewrite -(Nat.add_0_r (dq_lo d)). by rewrite slot_in. }
    iIntros "HD". wstep wp_front_ "H".
    assert (dq_lo (dq_pop_front d) = dq_lo d + 1 ∧ length (dq_els (dq_pop_front d)) = length (dq_els d) - 1 ∧
      dq_chunks (dq_pop_front d) = dq_chunks d) as (Hlo & Hlen & Hch).
    { unfold dq_pop_front. destruct (dq_els d); [done|]. simpl. split; [done|]. split; [lia|done]. }
    assert (dq_end (dq_pop_front d) = dq_end d) as He' by (rewrite /dq_end Hlen Hlo; lia).
    iAssert (this ↦ DHdr ((dq_lo d + 1) mod K) ((dq_end d + (K - 1)) mod K) ((dq_lo d + 1) / K)
      (Z.of_nat ((dq_end d + (K - 1)) / K) - 1) (length (dq_els d)) (Some v) -∗
      wp md (n <- d_size this ;; d_set_size this (n - 1)) Q R)%I with "[G HD HQ]" as "K".
    { iIntros "H". wstep wp_size "H". iApply (wp_set_size with "H"). iIntros "H". iApply "HQ".
      iSplitR. { iPureIntro. destruct Hf as [Hf1 Hf2]. split; rewrite Hch ?He' //. }
      iSplitL "H G".
      - rewrite /dhv /hv /= He' Hlen Hlo. iFrame.
      - iApply (dcs_ext with "HD"). intros p _. by apply slot_pop_front. }
    destruct (decide (dq_lo d mod K = K - 1)) as [Hm|Hm].
    - destruct (succ0 K HK _ Hm) as [E3 E4]. rewrite E3 E4 Hm Nat.eqb_refl. wstep wp_set_front "H".
      wstep wp_fchunk "H". wstep wp_set_fchunk "H". by iApply "K".
    - destruct (succ1 K HK _ Hm) as [E3 E4]. rewrite E3 E4 (proj2 (Nat.eqb_neq _ _) Hm). wstep wp_set_front "H".
      by iApply "K".
  Qed.

  (** ** clear *)
  Definition from (g : nat → option V) (k p : nat) : option V := if decide (p < k) then None else g p.
  Lemma wp_d_clear_loop this v cap cs d Q R : dfits d cs →
    dhv this v cap cs d -∗ dcs cs (slot d) -∗
    (dhv this v cap cs d -∗ dcs cs (λ _, None) -∗ Q tt) -∗
    wp md (for_up 0 (length (dq_els d)) (λ i, r <- d_index K this i ;; d_destroy_at r)) Q R.
  Proof using HK.
    iIntros (Hf) "H HD HQ".
    iApply (wp_for_up _ (λ i, dhv this v cap cs d ∗ dcs cs (from (slot d) (dq_lo d + i)))%I with "[$H HD]").
    - intros i Hi. iIntros "[H HD]".
      destruct (lookup_lt_is_Some_2 (dq_els d) i) as [x Hx]; [lia|].
      destruct (elem_chunk _ _ _ _ Hf Hx) as [c Hc].
      wbind. iApply (wp_d_index with "H"); [done|]. iIntros "H".
      iApply (wp_d_destroy_at with "HD"); [done| |].
      { rewrite /from decide_False; [|lia]. by rewrite slot_in. }
      iIntros "HD". iFrame "H". iApply (dcs_ext with "HD"). intros p _. rewrite /upd /from.
      destruct (decide (p = dq_lo d + i)); [rewrite decide_True //; lia|].
      destruct (decide (p < dq_lo d + i)); [rewrite decide_True //; lia|]. rewrite decide_False //. lia.
    - iApply (dcs_ext with "HD"). intros p _. rewrite /from. case_decide; [|done]. apply slot_low. lia.
    - iIntros "[H HD]". iApply ("HQ" with "H"). iApply (dcs_ext with "HD"). intros p _. rewrite /from.
      case_decide; [done|]. apply slot_end. unfold dq_end. lia.
  Qed.
  Lemma slot_clear d p : slot (dq_clear K d) p = None.
  Proof using. rewrite /slot /=. by case_decide. Qed.
  Lemma clear_fits d cs : dfits d cs → dq_chunks d ≠ 0 → dfits (dq_clear K d) cs.
  Proof using HK.
    intros [H1 H2] Hc. split; [done|]. unfold dq_end. cbn [dq_lo dq_clear dq_els dq_chunks length]. destruct (half K HK).
    assert (dq_chunks d / 2 < dq_chunks d) by (apply Nat.div_lt; lia).
    pose proof (Nat.mul_le_mono_r (dq_chunks d / 2 + 1) (dq_chunks d) K). lia.
  Qed.
  Lemma wp_d_clear this v cap cs d Q R : dq_chunks d ≠ 0 →
    dobj this v cap cs d -∗ (dobj this v cap cs (dq_clear K d) -∗ Q tt) -∗ wp md (d_clear K this) Q R.
  Proof using HK.
    iIntros (Hch) "(%Hf & [H G] & HD) HQ". rewrite /d_clear. wstep wp_size "H".
    wbind. iApply (wp_d_clear_loop with "[$H $G] HD"); [done|]. iIntros "[H G] HD".
    wstep wp_set_front "H". wstep wp_set_back "H". wbind. iApply (wp_ps with "[$H $G]"). iIntros "[H G]".
    wstep wp_set_bchunk "H". wstep wp_set_fchunk "H". iApply (wp_set_size with "H"). iIntros "H".
    iApply "HQ". iSplitR; [iPureIntro; by apply clear_fits|]. iSplitL "H G".
    - unfold dhv, hv, dq_end. cbn [dq_lo dq_clear dq_els length]. rewrite Nat.add_0_r. destruct Hf as [-> _].
      destruct (fresh_hdr K HK (dq_chunks d / 2)) as (-> & -> & -> & ->).
      replace (Z.of_nat (dq_chunks d / 2 + 1) - 1)%Z with (Z.of_nat (dq_chunks d / 2)) by lia. iFrame.
    - iApply (dcs_ext with "HD"). intros p _. by rewrite slot_clear.
  Qed.

  (** ** Constructors (allocations succeed) and destructor *)
  Lemma wp_d_new Q R : mA md = false →
    (∀ this v cap cs, dobj this v cap cs (dq_fresh K) -∗ Q this) -∗ wp md (d_new K) Q R.
  Proof using HK.
    iIntros (HA) "HQ". rewrite /d_new. wbind. iApply wp_new'. iIntros (this) "H". wbind.
    iApply wp_on_throw. wbind. rewrite /d_allocate. iApply wp_alloc. iSplit; [iIntros (?); congruence|].
    iIntros (p) "Hp". wstep wp_set_front "H". wstep wp_set_back "H".
    rewrite {1}/d_vec_push. wstep wp_chunks "H". wbind. iApply wp_alloc. iSplit; [iIntros (?); congruence|].
    iIntros (v) "G". wstep wp_set_chunks "H". wstep wp_set_bchunk "H". wstep wp_set_fchunk "H".
    iApply (wp_set_size with "H"). iIntros "H". wret. iApply ("HQ" $! this v 1 [p]).
    destruct (half K HK). iSplitR.
    { iPureIntro. split; [done|]. unfold dq_end. cbn [dq_lo dq_fresh dq_els dq_chunks length]. lia. }
    iSplitL "H G".
    - unfold dhv, hv, dq_end. cbn [dq_lo dq_fresh dq_els length].
      destruct (fresh_hdr K HK 0) as (E1 & E2 & E3 & E4). rewrite Nat.mul_0_l Nat.add_0_l in E1, E2, E3, E4.
      rewrite Nat.add_0_r E1 E2 E3 E4. iFrame.
    - rewrite dcs_cons dcs_nil. iSplitL; [|done]. rewrite (row_none _ 0) //.
      intros o _. rewrite /slot. by case_decide.
  Qed.
  Lemma wp_d_dealloc_all cs Q R :
    dcs cs (λ _, None) -∗ (emp -∗ Q tt) -∗ wp md (d_dealloc_all (V:=V) K cs) Q R.
  Proof using.
    iInduction cs as [|c cs] "IH"; iIntros "H HQ"; simpl.
    - wret. by iApply "HQ".
    - rewrite dcs_cons. iDestruct "H" as "[H G]". rewrite /d_deallocate /d_els. wstep wp_load' "H". wret.
      rewrite decide_True.
      { wbind. iApply (wp_free' with "H"). iIntros "_". iApply ("IH" with "G HQ"). }
      split; [by rewrite fmap_length seq_length|]. apply Forall_fmap. by apply Forall_true.
  Qed.
  Lemma wp_d_dtor this v cap cs d Q R : dq_chunks d ≠ 0 →
    dobj this v cap cs d -∗ (emp -∗ Q tt) -∗ wp md (d_dtor K this) Q R.
  Proof using HK.
    iIntros (Hch) "H HQ". rewrite /d_dtor. wbind. iApply (wp_d_clear with "H"); [done|].
    iIntros "(%Hf & H & HD)". wbind. iApply (wp_ps with "H"). iIntros "[H G]".
    wbind. iApply (wp_d_dealloc_all with "[HD]").
    { iApply (dcs_ext with "HD"). intros p _. apply slot_clear. }
    iIntros "_". wstep wp_chunks "H". wbind. iApply (wp_free' with "G"). iIntros "_".
    iApply (wp_free' with "H"). done.
  Qed.

  Lemma dq_append_nil d : dq_append K [] d = Some d.
  Proof using. done. Qed.
  Lemma dq_append_snoc vs x d d1 d2 :
    dq_append K vs d = Some d1 → dq_push_back K x d1 = Some d2 → dq_append K (vs ++ [x]) d = Some d2.
  Proof using.
    revert d. induction vs as [|y vs IH]; intros d; simpl.
    - by intros [= ->] ->.
    - destruct (dq_push_back K y d); [|done]. apply IH.
  Qed.
  Lemma dq_append_app vs ws d d2 :
    dq_append K (vs ++ ws) d = Some d2 → ∃ d1, dq_append K vs d = Some d1 ∧ dq_append K ws d1 = Some d2.
  Proof using.
    revert d. induction vs as [|y vs IH]; intros d; simpl; [by eauto|].
    destruct (dq_push_back K y d); [|done]. apply IH.
  Qed.
  Lemma dq_append_chunks vs d d' : dq_append K vs d = Some d' → dq_chunks d ≤ dq_chunks d'.
  Proof using. clear HK.
    revert d. induction vs as [|y vs IH]; intros d; simpl; [by intros [= ->]|].
    destruct (dq_push_back K y d) as [d1|] eqn:E; [|done]. intros H%IH. etrans; [|exact H].
    unfold dq_push_back in E. repeat case_decide; simplify_eq/=; lia.
  Qed.
  Lemma push_back_chunks x d d' : dq_push_back K x d = Some d' → dq_chunks d ≤ dq_chunks d'.
  Proof using. clear HK. intros E. apply (dq_append_chunks [x]). by rewrite /= E. Qed.

  Lemma wp_d_append this d d' other v1 cap1 cs1 d1 Q R : mA md = false →
    dq_append K (dq_els d1) d = Some d' →
    dq this d -∗ dobj other v1 cap1 cs1 d1 -∗
    (dq this d' -∗ dobj other v1 cap1 cs1 d1 -∗ Q tt) -∗ wp md (d_append K this other) Q R.
  Proof using HK Hmc.
    iIntros (HA Happ) "H (%Hf1 & [H1 G1] & HD1) HQ". rewrite /d_append. wstep wp_size "H1".
    iApply (wp_for_up _ (λ i, ∃ di, ⌞dq_append K (take i (dq_els d1)) d = Some di⌟ ∗ dq this di ∗
      dhv other v1 cap1 cs1 d1 ∗ dcs cs1 (slot d1))%I with "[H $H1 $G1 $HD1]").
    - intros i Hi. iIntros "(%di & %Hdi & (%v & %cap & %cs & H) & H1 & HD1)".
      destruct (lookup_lt_is_Some_2 (dq_els d1) i) as [x Hx]; [lia|].
      destruct (elem_chunk _ _ _ _ Hf1 Hx) as [c Hc].
      rewrite -(take_drop i (dq_els d1)) (drop_S _ _ _ Hx) in Happ.
      apply dq_append_app in Happ as (di' & Hdi' & Happ). simplify_eq. simpl in Happ.
      destruct (dq_push_back K x di) as [dj|] eqn:Ej; [|done].
      wbind. iApply (wp_d_index with "H1"); [done|]. iIntros "H1".
      iApply (wp_d_push_back (dcs cs1 (slot d1)) with "HD1 H"); [done|by apply reads_other|]. iSplit.
      { iIntros (?). congruence. }
      iIntros "HD1 H". iExists dj. iFrame. iPureIntro. rewrite (take_S_r _ _ x) //. by eapply dq_append_snoc.
    - iExists d. iFrame. done.
    - iIntros "(%di & %Hdi & H & H1 & HD1)". rewrite /= firstn_all Happ in Hdi. simplify_eq.
      iApply ("HQ" with "H"). iFrame. done.
  Qed.
  Lemma wp_d_push_all this d d' vs Q R : mA md = false →
    dq_append K vs d = Some d' →
    dq this d -∗ (dq this d' -∗ Q tt) -∗ wp md (d_push_all K this vs) Q R.
  Proof using HK Hmc.
    iIntros (HA Happ) "H HQ". iInduction vs as [|x vs] "IH" forall (d Happ); simpl in *.
    - wret. simplify_eq. by iApply "HQ".
    - destruct (dq_push_back K x d) as [dj|] eqn:Ej; [|done]. iDestruct "H" as (v cap cs) "H".
      wbind. iApply (wp_d_push_back emp with "[//] H"); [done|by apply reads_val|]. iSplit.
      { iIntros (?). congruence. }
      iIntros "_ H". iApply ("IH" with "[//] H HQ").
  Qed.
  Lemma wp_d_copy d' other v1 cap1 cs1 d1 Q R : mA md = false →
    dq_append K (dq_els d1) (dq_fresh K) = Some d' →
    dobj other v1 cap1 cs1 d1 -∗
    (∀ this, dq this d' -∗ dobj other v1 cap1 cs1 d1 -∗ Q this) -∗ wp md (d_copy K other) Q R.
  Proof using HK Hmc.
    iIntros (HA Happ) "H1 HQ". rewrite /d_copy. wbind. iApply wp_d_new; [done|]. iIntros (this v cap cs) "H".
    wbind. iApply wp_on_throw. iApply (wp_d_append with "[H] H1"); [done..| |].
    { iExists v, cap, cs. iFrame. }
    iIntros "H H1". wret. iApply ("HQ" with "H H1").
  Qed.
  Lemma wp_d_init d' vs Q R : mA md = false →
    dq_append K vs (dq_fresh K) = Some d' →
    (∀ this, dq this d' -∗ Q this) -∗ wp md (d_init K vs) Q R.
  Proof using HK Hmc.
    iIntros (HA Happ) "HQ". rewrite /d_init. wbind. iApply wp_d_new; [done|]. iIntros (this v cap cs) "H".
    wbind. iApply wp_on_throw. iApply (wp_d_push_all with "[H]"); [done..| |].
    { iExists v, cap, cs. iFrame. }
    iIntros "H". wret. iApply ("HQ" with "H").
  Qed.
  Lemma wp_d_assign this v cap cs d d' other v1 cap1 cs1 d1 Q R : mA md = false → dq_chunks d ≠ 0 →
    dq_append K (dq_els d1) (dq_clear K d) = Some d' →
    dobj this v cap cs d -∗ dobj other v1 cap1 cs1 d1 -∗
    (dq this d' -∗ dobj other v1 cap1 cs1 d1 -∗ Q tt) -∗ wp md (d_assign K this other) Q R.
  Proof using HK Hmc.
    iIntros (HA Hch Happ) "H H1 HQ". rewrite /d_assign. wbind. iApply (wp_d_clear with "H"); [done|].
    iIntros "H". iApply (wp_d_append with "[H] H1 HQ"); [done..|]. iExists v, cap, cs. iFrame.
  Qed.

  (** ** Iteration *)
  Lemma dcs_nodup cs g : dcs cs g ⊢ ⌜NoDup cs⌝.
  Proof using.
    iIntros "H". rewrite NoDup_alt. iIntros (i j c Hi Hj). destruct (decide (i = j)) as [|Hne]; [done|].
    rewrite /dcs (big_sepL_delete _ _ _ _ Hi) (big_sepL_delete _ _ _ _ Hj).
    iDestruct "H" as "(Hi & Hj & _)". rewrite decide_False //.
    iDestruct (pt_excl with "Hi Hj") as %[].
  Qed.
  Lemma dobj_nodup this v cap cs d : dobj this v cap cs d ⊢ ⌜NoDup cs⌝.
  Proof using. iIntros "(_ & _ & H)". by iApply dcs_nodup. Qed.
  Lemma wp_d_incr this f b fc bc n v cap cs p c c' Q R :
    NoDup cs → cs !! (p / K) = Some c → cs !! ((p + 1) / K) = Some c' →
    hv this f b fc bc n v cap cs -∗
    (hv this f b fc bc n v cap cs -∗ Q (DIter (c', (p + 1) mod K) v (Z.of_nat ((p + 1) / K)))) -∗
    wp md (d_incr (V:=V) K (DIter (c, p mod K) v (Z.of_nat (p / K)))) Q R.
  Proof using HK.
    iIntros (Hnd Hc Hc') "H HQ". rewrite /d_incr /=. wbind. iApply (wp_pp with "H"); [done|]. iIntros "H".
    destruct (decide (p mod K = K - 1)) as [Hm|Hm].
    - rewrite decide_True; [|by rewrite Hm]. destruct (succ0 K HK p Hm) as [E1 E2]. rewrite E1 in Hc'. rewrite E1 E2.
      replace (Z.of_nat (p / K) + 1)%Z with (Z.of_nat (p / K + 1)) by lia.
      wbind. iApply (wp_pp with "H"); [done|]. iIntros "H". wret. by iApply "HQ".
    - rewrite decide_False; [|by intros [=]]. destruct (succ1 K HK p Hm) as [E1 E2]. rewrite E1 in Hc'. simplify_eq.
      rewrite decide_True; [|by apply pos_mod]. rewrite E1 E2. wret. by iApply "HQ".
  Qed.
  Lemma wp_d_walk this f b fc bc n v cap cs g p k xs ce fuel Q R :
    NoDup cs → (∀ i, i < k → ∃ x, xs !! i = Some x ∧ g (p + i) = Some x) → length xs = k → k < fuel →
    p + k < length cs * K → cs !! ((p + k) / K) = Some ce →
    ∀ c, cs !! (p / K) = Some c →
    hv this f b fc bc n v cap cs -∗ dcs cs g -∗
    (hv this f b fc bc n v cap cs -∗ dcs cs g -∗ Q xs) -∗
    wp md (d_walk K fuel (DIter (c, p mod K) v (Z.of_nat (p / K)))
             (DIter (ce, (p + k) mod K) v (Z.of_nat ((p + k) / K)))) Q R.
  Proof using HK.
    intros Hnd. revert fuel p k Q. induction xs as [|x xs IH]; intros fuel p k Q Hg Hk Hf He Hce c Hc;
      (destruct fuel as [|fuel]; [lia|]); iIntros "H HD HQ"; cbn [d_walk]; unfold d_eq; cbn [di_p]; simpl in Hk.
    - subst k. rewrite Nat.add_0_r in Hce |- *. simplify_eq. rewrite bool_decide_eq_true_2 //. wret.
      iApply ("HQ" with "H HD").
    - subst k. rewrite bool_decide_eq_false_2.
      2:{ intros [= -> Hm]. assert (p / K = (p + S (length xs)) / K) as Hd by (by eapply NoDup_lookup).
          pose proof (pos_eq K HK p). pose proof (pos_eq K HK (p + S (length xs))). nia. }
      destruct (Hg 0) as (x' & [= <-] & Hx); [lia|]. rewrite Nat.add_0_r in Hx.
      wbind. iApply (wp_d_get with "HD"); [done..|]. iIntros "HD".
      destruct (chunk_some cs (p + 1)) as [c' Hc']; [lia|].
      wbind. iApply (wp_d_incr with "H"); [done..|]. iIntros "H".
      replace (p + S (length xs)) with (p + 1 + length xs) in Hce |- * by lia.
      wbind. iApply (IH with "H HD"); [|done|lia|lia|done|done|].
      { intros i Hi. destruct (Hg (S i)) as (y & Hy & Hy'); [lia|]. exists y. split; [done|].
        rewrite -Hy'. f_equal. lia. }
      iIntros "H HD". wret. iApply ("HQ" with "H HD").
  Qed.
  Lemma sz_dcs cs g : dcs cs g ⊢ sz (length cs).
  Proof using.
    revert g. induction cs as [|c cs IH]; intros g; [apply sz_0|].
    rewrite dcs_cons IH sz_pt sz_sep. by apply sz_mono.
  Qed.
  Lemma wp_d_begin this v cap cs d c Q R : cs !! (dq_lo d / K) = Some c →
    dhv this v cap cs d -∗
    (dhv this v cap cs d -∗ Q (DIter (c, dq_lo d mod K) v (Z.of_nat (dq_lo d / K)))) -∗ wp md (d_begin this) Q R.
  Proof using HK.
    iIntros (Hc) "[H G] HQ". rewrite /d_begin. wstep wp_fchunk "H".
    wbind. iApply (wp_chunk with "[$H $G]"); [done|]. iIntros "[H G]". wstep wp_front_ "H". wstep wp_chunks "H".
    wret. iApply "HQ". iFrame.
  Qed.
  Lemma wp_d_end this v cap cs d c Q R : ¬ at_boundary K d → cs !! (dq_end d / K) = Some c →
    dhv this v cap cs d -∗
    (dhv this v cap cs d -∗ Q (DIter (c, dq_end d mod K) v (Z.of_nat (dq_end d / K)))) -∗ wp md (d_end this) Q R.
  Proof using HK.
    iIntros (Hb Hc) "[H G] HQ". rewrite /d_end. wstep wp_bchunk "H". unfold at_boundary in Hb.
    destruct (back1 K HK _ Hb) as [E1 E2].
    assert (Z.of_nat ((dq_end d + (K - 1)) / K) - 1 = Z.of_nat (dq_end d / K))%Z as -> by lia.
    wbind. iApply (wp_chunk with "[$H $G]"); [done|]. iIntros "[H G]". wstep wp_back_ "H". wstep wp_chunks "H".
    wret. assert ((dq_end d + (K - 1)) mod K + 1 = dq_end d mod K) as -> by lia. iApply "HQ".
    rewrite /dhv. assert (Z.of_nat ((dq_end d + (K - 1)) / K) - 1 = Z.of_nat (dq_end d / K))%Z as -> by lia. iFrame.
  Qed.
  Lemma wp_d_iterate this v cap cs d Q R : ¬ at_boundary K d →
    dobj this v cap cs d -∗ (dobj this v cap cs d -∗ Q (dq_els d)) -∗ wp md (d_iterate K this) Q R.
  Proof using HK.
    iIntros (Hb) "H HQ". iDestruct (dobj_nodup with "H") as %Hnd. iDestruct "H" as "(%Hf & H & HD)".
    assert (dq_end d < length cs * K) as Hlt.
    { destruct Hf as [-> Hf]. destruct (decide (dq_end d = dq_chunks d * K)) as [E|]; [|lia].
      exfalso. apply Hb. rewrite /at_boundary E. apply Nat.mod_mul. lia. }
    destruct (chunk_some cs (dq_lo d)) as [c Hc]; [unfold dq_end in Hlt; lia|].
    destruct (chunk_some cs (dq_end d)) as [c' Hc']; [done|].
    rewrite /d_iterate. wbind. iApply (wp_d_begin with "H"); [done|]. iIntros "H".
    wbind. iApply (wp_d_end with "H"); [done..|]. iIntros "H".
    iApply (wp_with_fuel _ _ (length cs)). iSplit.
    { iClear "HQ". iAssert (sz (0 + length cs)) with "[H HD]" as "H".
      { iApply sz_sep. iSplitL "H"; [by iApply (sz_0 with "H")|by iApply sz_dcs]. } done. }
    iIntros (fuel Hfu). rewrite /dq_end.
    iApply (wp_d_walk with "H HD"); [done| |done| |exact Hlt|exact Hc'|exact Hc|].
    - intros i Hi. destruct (lookup_lt_is_Some_2 (dq_els d) i) as [x Hx]; [lia|]. exists x. by rewrite slot_in.
    - unfold dq_end in Hlt. nia.
    - iIntros "H HD". iApply "HQ". by iFrame.
  Qed.
End proofs.
