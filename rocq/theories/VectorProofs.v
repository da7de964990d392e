(** Separation-logic specifications of the vector model. *)
From iris.proofmode Require Import tactics.
From Verif Require Import SLTac Hist HistProofs ModelVector SpecVector.

(** Array contents: live elements then raw slots, [k] in total. *)
Definition slots {V} (vs : list V) (k : nat) : list (option V) :=
  (Some <$> vs) ++ replicate (k - length vs) None.

Section slots.
  Context {V : Type}.
  Implicit Types vs : list V.
  Lemma slots_length vs k : length vs ≤ k → length (slots vs k) = k.
  Proof. intros. rewrite /slots app_length fmap_length replicate_length. lia. Qed.
  Lemma slots_live vs k i v : vs !! i = Some v → slots vs k !! i = Some (Some v).
  Proof.
    intros Hi. rewrite /slots lookup_app_l ?fmap_length; [|by eapply lookup_lt_Some].
    by rewrite list_lookup_fmap Hi.
  Qed.
  Lemma slots_raw vs k : length vs < k → slots vs k !! length vs = Some None.
  Proof.
    intros. rewrite /slots lookup_app_r ?fmap_length // Nat.sub_diag.
    apply lookup_replicate_2. lia.
  Qed.
  Lemma slots_push vs k v : length vs < k →
    <[length vs := Some v]> (slots vs k) = slots (vs ++ [v]) k.
  Proof.
    intros. rewrite /slots insert_app_r_alt ?fmap_length // Nat.sub_diag.
    rewrite fmap_app -assoc_L. f_equal. rewrite app_length /=.
    destruct (k - length vs) as [|n] eqn:E; [lia|].
    replace (k - (length vs + 1)) with n by lia. done.
  Qed.
  Lemma slots_set vs k i v : i < length vs →
    <[i := Some v]> (slots vs k) = slots (<[i := v]> vs) k.
  Proof.
    intros. rewrite /slots insert_app_l ?fmap_length // list_fmap_insert insert_length //.
  Qed.
  Lemma slots_raw' vs k i : i = length vs → length vs < k → slots vs k !! i = Some None.
  Proof. intros ->. apply slots_raw. Qed.
  Lemma slots_push' vs k v i : i = length vs → length vs < k →
    <[i := Some v]> (slots vs k) = slots (vs ++ [v]) k.
  Proof. intros ->. apply slots_push. Qed.
  Lemma slots_nil k : slots (V:=V) [] k = replicate k None.
  Proof. rewrite /slots /=. by rewrite Nat.sub_0_r. Qed.
  Lemma slots_full vs k : length vs ≤ k →
    slots vs k = (Some <$> vs) ++ replicate (k - length vs) None.
  Proof. done. Qed.
End slots.

Section proofs.
  Context {V : Type} (dflt : V) (veq : V → V → bool).
  Context (md : mode) (Hmc : mC md = false).
  Implicit Types (vs : list V) (R : exn → hprop (vcell V)).

  (** The array behind [m_p]. *)
  Definition arr (p : ptr) (k : nat) (vs : list V) : hprop (vcell V) :=
    match p with
    | None => ⌞ k = 0 ∧ vs = [] ⌟
    | Some l => ⌞ 0 < k ∧ length vs ≤ k ⌟ ∗ l ↦ VArr (slots vs k)
    end.
  Definition vobj (this : loc) (vs : list V) (k : nat) (p : ptr) : hprop (vcell V) :=
    this ↦ VHdr (length vs) k p ∗ arr p k vs.
  Definition vec (this : loc) (vs : list V) : hprop (vcell V) :=
    ∃ k p, vobj this vs k p.

  Lemma wp_v_hdr this n k p Q R :
    this ↦ VHdr n k p -∗ (this ↦ VHdr n k p -∗ Q (n, k, p)) -∗ wp md (v_hdr (V:=V) this) Q R.
  Proof. iIntros "H HQ". wunfold. wstep wp_load' "H". wret. by iApply "HQ". Qed.
  Lemma wp_v_size this n k p Q R :
    this ↦ VHdr n k p -∗ (this ↦ VHdr n k p -∗ Q n) -∗ wp md (v_size (V:=V) this) Q R.
  Proof. iIntros "H HQ". wunfold. wstep wp_v_hdr "H". wret. by iApply "HQ". Qed.
  Lemma wp_v_cap this n k p Q R :
    this ↦ VHdr n k p -∗ (this ↦ VHdr n k p -∗ Q k) -∗ wp md (v_cap (V:=V) this) Q R.
  Proof. iIntros "H HQ". wunfold. wstep wp_v_hdr "H". wret. by iApply "HQ". Qed.
  Lemma wp_v_p this n k p Q R :
    this ↦ VHdr n k p -∗ (this ↦ VHdr n k p -∗ Q p) -∗ wp md (v_p (V:=V) this) Q R.
  Proof. iIntros "H HQ". wunfold. wstep wp_v_hdr "H". wret. by iApply "HQ". Qed.
  Lemma wp_set_size this n k p n' Q R :
    this ↦ VHdr n k p -∗ (this ↦ VHdr n' k p -∗ Q tt) -∗ wp md (set_size (V:=V) this n') Q R.
  Proof. iIntros "H HQ". wunfold. wstep wp_v_hdr "H". wstep wp_store' "H". by iApply "HQ". Qed.
  Lemma wp_set_cap this n k p k' Q R :
    this ↦ VHdr n k p -∗ (this ↦ VHdr n k' p -∗ Q tt) -∗ wp md (set_cap (V:=V) this k') Q R.
  Proof. iIntros "H HQ". wunfold. wstep wp_v_hdr "H". wstep wp_store' "H". by iApply "HQ". Qed.
  Lemma wp_set_p this n k p p' Q R :
    this ↦ VHdr n k p -∗ (this ↦ VHdr n k p' -∗ Q tt) -∗ wp md (set_p (V:=V) this p') Q R.
  Proof. iIntros "H HQ". wunfold. wstep wp_v_hdr "H". wstep wp_store' "H". by iApply "HQ". Qed.

  (** Array slots. *)
  Lemma wp_a_els l (els : list (option V)) Q R :
    l ↦ VArr els -∗ (l ↦ VArr els -∗ Q (l, els)) -∗ wp md (a_els (Some l)) Q R.
  Proof. iIntros "H HQ". wunfold. wstep wp_load' "H". wret. by iApply "HQ". Qed.
  Lemma wp_a_get l (els : list (option V)) i v Q R :
    els !! i = Some (Some v) →
    l ↦ VArr els -∗ (l ↦ VArr els -∗ Q v) -∗ wp md (a_get (Some l) i) Q R.
  Proof.
    iIntros (Hi) "H HQ". wunfold. wstep wp_a_els "H". simpl. rewrite Hi. wret. by iApply "HQ".
  Qed.
  Lemma wp_a_construct l (els : list (option V)) i v Q R :
    els !! i = Some None →
    l ↦ VArr els -∗ (l ↦ VArr (<[i := Some v]> els) -∗ Q tt) -∗
    wp md (a_construct (Some l) i v) Q R.
  Proof.
    iIntros (Hi) "H HQ". wunfold. wbind. iApply (wp_may_throw' _ _ _ Hmc).
    wstep wp_a_els "H". simpl. rewrite Hi. wstep wp_store' "H". by iApply "HQ".
  Qed.
  Lemma wp_a_assign l (els : list (option V)) i v v0 Q R :
    els !! i = Some (Some v0) →
    l ↦ VArr els -∗ (l ↦ VArr (<[i := Some v]> els) -∗ Q tt) -∗
    wp md (a_assign (Some l) i v) Q R.
  Proof.
    iIntros (Hi) "H HQ". wunfold. wbind. iApply (wp_may_throw' _ _ _ Hmc).
    wstep wp_a_els "H". simpl. rewrite Hi. wstep wp_store' "H". by iApply "HQ".
  Qed.
  Lemma wp_a_destroy l (els : list (option V)) i v0 Q R :
    els !! i = Some (Some v0) →
    l ↦ VArr els -∗ (l ↦ VArr (<[i := None]> els) -∗ Q tt) -∗
    wp md (a_destroy (Some l) i) Q R.
  Proof.
    iIntros (Hi) "H HQ". wunfold.
    wstep wp_a_els "H". simpl. rewrite Hi. wstep wp_store' "H". by iApply "HQ".
  Qed.
  Lemma wp_destroy_n_gen l (pre post : list (option V)) vs Q R :
    l ↦ VArr (pre ++ (Some <$> vs) ++ post) -∗
    (l ↦ VArr (pre ++ replicate (length vs) None ++ post) -∗ Q tt) -∗
    wp md (destroy_n (Some l) (length pre) (length vs)) Q R.
  Proof.
    iIntros "H HQ". wunfold. iInduction vs as [|v vs] "IH" forall (pre).
    - wret. by iApply "HQ".
    - simpl. wbind. iApply (wp_a_destroy with "H").
      { rewrite lookup_app_r // Nat.sub_diag //. }
      rewrite insert_app_r_alt // Nat.sub_diag /=. iIntros "H".
      iSpecialize ("IH" $! (pre ++ [None])).
      rewrite app_length /= Nat.add_1_r -!assoc_L /=.
      iApply ("IH" with "H HQ").
  Qed.
  (** Destroying the tail [vs2] of the elements. *)
  Lemma wp_destroy_tail p k vs1 vs2 Q R :
    arr p k (vs1 ++ vs2) -∗ (arr p k vs1 -∗ Q tt) -∗
    wp md (destroy_n p (length vs1) (length vs2)) Q R.
  Proof.
    iIntros "H HQ". destruct p as [l|].
    - iDestruct "H" as ([Hk Hl]) "H". rewrite app_length in Hl.
      rewrite {1}/slots fmap_app -assoc_L.
      rewrite -{1}(fmap_length Some vs1). iApply (wp_destroy_n_gen with "H").
      iIntros "H". iApply "HQ". iSplit; [iPureIntro; lia|].
      rewrite /slots -replicate_add app_length.
      replace (length vs2 + (k - (length vs1 + length vs2))) with (k - length vs1) by lia. done.
    - iDestruct "H" as %[-> [-> ->]%app_eq_nil]. wret. by iApply "HQ".
  Qed.
  Lemma wp_destroy_tail' p k vs1 vs2 from cnt Q R :
    from = length vs1 → cnt = length vs2 →
    arr p k (vs1 ++ vs2) -∗ (arr p k vs1 -∗ Q tt) -∗
    wp md (destroy_n p from cnt) Q R.
  Proof. intros -> ->. apply wp_destroy_tail. Qed.
  Lemma wp_deallocate l k Q R :
    l ↦ VArr (slots (V:=V) [] k) -∗ (emp -∗ Q tt) -∗ wp md (deallocate (V:=V) (Some l) k) Q R.
  Proof.
    iIntros "H HQ". wunfold. wstep wp_a_els "H". simpl. rewrite decide_True.
    - by iApply (wp_free' with "H").
    - rewrite slots_length; [|simpl; lia]. split; [done|]. rewrite slots_nil.
      by apply Forall_replicate.
  Qed.
  Lemma wp_allocate k Q R :
    (⌜mA md = true⌝ → R BadAlloc) ∧ (∀ l, l ↦ VArr (slots [] k) -∗ Q (Some l)) -∗
    wp md (allocate (V:=V) k) Q R.
  Proof.
    iIntros "HQ". wunfold. wbind. iApply wp_alloc. iSplit.
    - by iDestruct "HQ" as "[HQ _]".
    - iDestruct "HQ" as "[_ HQ]". iIntros (l) "H". wret. iApply "HQ". by rewrite slots_nil.
  Qed.

  (** reserve; on allocation failure nothing has changed. *)
  Lemma wp_v_reserve this vs k p k' Q R :
    vobj this vs k p -∗
    ((⌜mA md = true ∧ k < k'⌝ → vobj this vs k p -∗ R BadAlloc) ∧
     (∀ p', ⌞(k' ≤ k → p' = p) ∧ (k < k' → is_Some p' ∧ p' ≠ p)⌟ ∗ vobj this vs (k `max` k') p' -∗ Q tt)) -∗
    wp md (v_reserve this k') Q R.
  Proof.
    iIntros "[Hh Ha] HQ". wunfold. wstep wp_v_cap "Hh".
    destruct (Nat.ltb_spec k k') as [Hlt|Hge]; last first.
    { wret. iDestruct "HQ" as "[_ HQ]". iApply "HQ". rewrite Nat.max_l //.
      iSplit; [|by iFrame]. iPureIntro. split; [done|lia]. }
    wbind. iApply wp_allocate. iSplit.
    { iDestruct "HQ" as "[HQ _]". iIntros (HA). iApply "HQ"; [done|]. iFrame. }
    iDestruct "HQ" as "[_ HQ]". iIntros (l) "Hn". wstep wp_v_size "Hh".
    iAssert (⌜Some l ≠ p⌝)%I as %Hnew.
    { destruct p as [q|]; [|by iPureIntro]. iDestruct "Ha" as (_) "Ha". iDestruct (pt_ne with "Hn Ha") as %?. iPureIntro. congruence. }
    iAssert (⌜length vs ≤ k⌝)%I as %Hlen.
    { destruct p; [by iDestruct "Ha" as ([??]) "_"|by iDestruct "Ha" as %[-> ->]]. }
    wbind. iApply (wp_for_up _ (λ i, this ↦ VHdr (length vs) k p ∗ arr p k vs ∗
                           l ↦ VArr (slots (take i vs) k'))%I with "[$Hh $Ha Hn]").
    2: { done. }
    { intros i Hi. iIntros "(Hh & Ha & Hn)". wstep wp_v_p "Hh".
      destruct p as [q|]; [|iDestruct "Ha" as %[-> ->]; simpl in *; lia].
      iDestruct "Ha" as (Hb) "Ha". destruct (lookup_lt_is_Some_2 vs i) as [v Hv]; [lia|].
      wbind. iApply (wp_a_get with "Ha"); [by apply slots_live|]. iIntros "Ha".
      iApply (wp_a_construct with "Hn").
      { apply slots_raw'; rewrite take_length; lia. }
      iIntros "Hn". iFrame "Hh Ha". iSplit; [done|].
      rewrite slots_push'; [|rewrite take_length; lia..].
      rewrite -(take_S_r _ _ v) //. }
    iIntros "(Hh & Ha & Hn)". wstep wp_v_p "Hh". rewrite /= take_ge //.
    wbind. iAssert (∀ Q, (emp -∗ Q tt) -∗ wp md
      (if k =? 0 then ret tt else destroy_n p 0 (length vs) ;;; deallocate p k) Q R)%I
      with "[Ha]" as "Hc".
    { iIntros (Q') "HQ". destruct p as [q|].
      - iDestruct "Ha" as ([Hb1 Hb2]) "Ha". destruct (Nat.eqb_spec k 0); [lia|].
        wbind. iApply (wp_destroy_tail (Some q) k [] vs with "[Ha]"); [by iFrame|].
        iIntros "[_ Ha]". by iApply (wp_deallocate with "Ha").
      - iDestruct "Ha" as %[-> ->]. wret. by iApply "HQ". }
    iApply "Hc". iIntros "_". wstep wp_set_p "Hh". wstep wp_set_cap "Hh".
    iApply ("HQ" $! (Some l)). iSplit; [iPureIntro; split; [lia|eauto]|].
    rewrite Nat.max_r; [|lia]. iFrame. iPureIntro. lia.
  Qed.

  Lemma arr_len p k vs : arr p k vs -∗ ⌜length vs ≤ k⌝.
  Proof.
    destruct p; [by iIntros "[%H _]"; iPureIntro; lia|].
    by iIntros ([-> ->]).
  Qed.

  Lemma wp_v_new Q R : (∀ l, vobj l [] 0 None -∗ Q l) -∗ wp md (v_new (V:=V)) Q R.
  Proof.
    iIntros "HQ". wunfold. iApply wp_new'. iIntros (l) "H". iApply "HQ". iFrame. done.
  Qed.

  Lemma wp_v_clear this vs k p Q R :
    vobj this vs k p -∗ (vobj this [] k p -∗ Q tt) -∗ wp md (v_clear (V:=V) this) Q R.
  Proof.
    iIntros "[Hh Ha] HQ". wunfold. wstep wp_v_p "Hh". wstep wp_v_size "Hh".
    wbind. iApply (wp_destroy_tail p k [] vs with "Ha"). iIntros "Ha".
    wstep wp_set_size "Hh". iApply "HQ". iFrame.
  Qed.

  Lemma wp_v_dtor this vs Q R :
    vec this vs -∗ (emp -∗ Q tt) -∗ wp md (v_dtor (V:=V) this) Q R.
  Proof.
    iIntros "(%k & %p & H) HQ". wunfold. wstep wp_v_clear "H". iDestruct "H" as "[Hh Ha]".
    wstep wp_v_cap "Hh". wstep wp_v_p "Hh". destruct p as [l|].
    - iDestruct "Ha" as ([Hk _]) "Ha". destruct (Nat.eqb_spec k 0); [lia|].
      wbind. iApply (wp_deallocate with "Ha"). iIntros "_".
      by iApply (wp_free' with "Hh").
    - iDestruct "Ha" as %[-> _]. wret. by iApply (wp_free' with "Hh").
  Qed.

  Lemma wp_v_swap_ne this other n k p n' k' p' Q R :
    this ↦ VHdr n k p -∗ other ↦ VHdr n' k' p' -∗
    (this ↦ VHdr n' k' p' -∗ other ↦ VHdr n k p -∗ Q tt) -∗
    wp md (v_swap (V:=V) this other) Q R.
  Proof.
    iIntros "H1 H2 HQ". wunfold.
    wstep wp_v_size "H1". wstep wp_v_size "H2". wstep wp_set_size "H1". wstep wp_set_size "H2".
    wstep wp_v_cap "H1". wstep wp_v_cap "H2". wstep wp_set_cap "H1". wstep wp_set_cap "H2".
    wstep wp_v_p "H1". wstep wp_v_p "H2". wstep wp_set_p "H1". wstep wp_set_p "H2".
    iApply ("HQ" with "H1 H2").
  Qed.
  Lemma wp_v_swap_self this n k p Q R :
    this ↦ VHdr n k p -∗ (this ↦ VHdr n k p -∗ Q tt) -∗ wp md (v_swap (V:=V) this this) Q R.
  Proof.
    iIntros "H HQ". wunfold.
    wstep wp_v_size "H". wstep wp_v_size "H". wstep wp_set_size "H". wstep wp_set_size "H".
    wstep wp_v_cap "H". wstep wp_v_cap "H". wstep wp_set_cap "H". wstep wp_set_cap "H".
    wstep wp_v_p "H". wstep wp_v_p "H". wstep wp_set_p "H". wstep wp_set_p "H".
    iApply ("HQ" with "H").
  Qed.

  (** Fill raw slots [from ..] of an array whose live elements are [vs1] with
      values obtained by [rd], owning [X]. *)
  Lemma wp_fill (X : hprop (vcell V)) this n k p vs1 vs2 (body : nat → M (vcell V) unit) Q R :
    length (vs1 ++ vs2) ≤ k →
    (∀ i v l els, vs2 !! i = Some v → p = Some l → els !! (length vs1 + i) = Some None →
      X ∗ this ↦ VHdr n k p ∗ l ↦ VArr els ⊢
      wp md (body (length vs1 + i))
        (λ _, X ∗ this ↦ VHdr n k p ∗ l ↦ VArr (<[length vs1 + i := Some v]> els))
        (λ _, False)) →
    X -∗ this ↦ VHdr n k p -∗ arr p k vs1 -∗
    (X -∗ this ↦ VHdr n k p -∗ arr p k (vs1 ++ vs2) -∗ Q tt) -∗
    wp md (for_up (length vs1) (length vs2) body) Q R.
  Proof.
    iIntros (Hlen Hb) "HX Hh Ha HQ". rewrite app_length in Hlen.
    iApply (wp_for_up _ (λ j, X ∗ this ↦ VHdr n k p ∗ arr p k (vs1 ++ take (j - length vs1) vs2))%I
      with "[$HX $Hh Ha]").
    - intros j Hj. iIntros "(HX & Hh & Ha)".
      destruct p as [l|]; last first.
      { iDestruct "Ha" as %[-> _]. lia. }
      iDestruct "Ha" as (Hk) "Ha".
      destruct (lookup_lt_is_Some_2 vs2 (j - length vs1)) as [v Hv]; [lia|].
      assert (j = length vs1 + (j - length vs1)) as Ej by lia.
      set (els := slots _ _).
      assert (els !! (length vs1 + (j - length vs1)) = Some None) as Hels.
      { apply slots_raw'; rewrite app_length take_length; lia. }
      iPoseProof (Hb (j - length vs1) v l _ Hv eq_refl Hels with "[$HX $Hh $Ha]") as "Hb".
      rewrite -Ej. iApply (wp_wand with "Hb"). iSplit; [|by iIntros (?) "[]"].
      iIntros ([]) "(HX & Hh & Ha)". iFrame "HX Hh".
      rewrite slots_push'; [|rewrite app_length take_length; lia..].
      rewrite -assoc_L Nat.sub_succ_l; [|lia]. rewrite (take_S_r _ _ v) //. iFrame. iPureIntro.
      rewrite !app_length take_length /=. lia.
    - rewrite Nat.sub_diag take_0 right_id_L. done.
    - iIntros "(HX & Hh & Ha)". iApply ("HQ" with "HX Hh").
      replace (length vs1 + length vs2 - length vs1) with (length vs2) by lia.
      by rewrite firstn_all.
  Qed.

  Lemma wp_fill' (X : hprop (vcell V)) this n k p vs1 vs2 from cnt (body : nat → M (vcell V) unit) Q R :
    from = length vs1 → cnt = length vs2 →
    length (vs1 ++ vs2) ≤ k →
    (∀ i v l els, vs2 !! i = Some v → p = Some l → els !! (length vs1 + i) = Some None →
      X ∗ this ↦ VHdr n k p ∗ l ↦ VArr els ⊢
      wp md (body (length vs1 + i))
        (λ _, X ∗ this ↦ VHdr n k p ∗ l ↦ VArr (<[length vs1 + i := Some v]> els))
        (λ _, False)) →
    X -∗ this ↦ VHdr n k p -∗ arr p k vs1 -∗
    (X -∗ this ↦ VHdr n k p -∗ arr p k (vs1 ++ vs2) -∗ Q tt) -∗
    wp md (for_up from cnt body) Q R.
  Proof. intros -> ->. apply wp_fill. Qed.

  Lemma wp_v_copy other vs k p Q R :
    vobj other vs k p -∗
    ((⌜mA md = true⌝ → vobj other vs k p -∗ R BadAlloc) ∧
     (∀ l q, vobj l vs k q -∗ vobj other vs k p -∗ Q l)) -∗
    wp md (v_copy (V:=V) other) Q R.
  Proof.
    iIntros "[Ho Ha] HQ". wunfold. wbind. iApply wp_v_new. iIntros (this) "H".
    wbind. iApply wp_on_throw. wstep wp_v_cap "Ho". wbind.
    iApply (wp_v_reserve with "H"). iSplit.
    { iDestruct "HQ" as "[HQ _]". iIntros ([HA _]) "H". iApply (wp_v_dtor with "[H]").
      { iExists _, _. iFrame. }
      iIntros "_". iApply "HQ"; [done|]. iFrame. }
    iDestruct "HQ" as "[_ HQ]". iIntros (q) "[%Hq [Hh Hr]]". rewrite Nat.max_r; [|lia].
    wstep wp_v_size "Ho". wstep wp_set_size "Hh".
    iDestruct (arr_len with "Ha") as %Hlen.
    iApply (wp_fill (other ↦ VHdr (length vs) k p ∗ arr p k vs)%I this _ k q [] vs with "[$Ho $Ha] Hh Hr").
    { done. }
    { intros i v l els Hi -> Hels. iIntros "([Ho Ha] & Hh & Hn)". simpl in *.
      wstep wp_v_p "Hh". wstep wp_v_p "Ho".
      destruct p as [l'|]; [|iDestruct "Ha" as %[_ ->]; done].
      iDestruct "Ha" as (Hk) "Ha".
      wbind. iApply (wp_a_get with "Ha"); [by apply slots_live|]. iIntros "Ha".
      iApply (wp_a_construct with "Hn"); [done|]. iIntros "Hn". by iFrame. }
    iIntros "[Ho Ha] Hh Hr". wret. iApply ("HQ" with "[Hh Hr]"); iFrame.
  Qed.

  Lemma wp_v_move other vs k p Q R :
    vobj other vs k p -∗
    (∀ l, vobj l vs k p -∗ vobj other [] 0 None -∗ Q l) -∗
    wp md (v_move (V:=V) other) Q R.
  Proof.
    iIntros "[Ho Ha] HQ". wunfold. wbind. iApply wp_v_new. iIntros (this) "[H Hn]".
    wbind. iApply (wp_v_swap_ne with "H Ho"). iIntros "H Ho". wret.
    iApply ("HQ" with "[H Ha]"); iFrame.
  Qed.

  Lemma wp_v_count n Q R :
    ((⌜mA md = true⌝ → R BadAlloc) ∧ (∀ l p, vobj l (replicate n dflt) n p -∗ Q l)) -∗
    wp md (v_count dflt n) Q R.
  Proof.
    iIntros "HQ". wunfold. wbind. iApply wp_v_new. iIntros (this) "H".
    wbind. iApply wp_on_throw. wbind. iApply (wp_v_reserve with "H"). iSplit.
    { iDestruct "HQ" as "[HQ _]". iIntros ([HA _]) "[Hh %Ha]". iApply (wp_free' with "Hh").
      iIntros "_". by iApply "HQ". }
    iDestruct "HQ" as "[_ HQ]". iIntros (q) "[%Hq [Hh Hr]]". rewrite Nat.max_r; [|lia].
    wstep wp_set_size "Hh".
    iApply (wp_fill' emp%I this _ n q [] (replicate n dflt) with "[] Hh Hr").
    { done. }
    { by rewrite replicate_length. }
    { by rewrite /= replicate_length. }
    { intros i v l els Hi -> Hels. iIntros "(_ & Hh & Hn)".
      apply lookup_replicate in Hi as [-> Hi]. wstep wp_v_p "Hh".
      iApply (wp_a_construct with "Hn"); [done|]. iIntros "Hn". by iFrame. }
    { done. }
    iIntros "_ Hh Hr". wret. iApply "HQ". iFrame. by rewrite replicate_length.
  Qed.

  Definition grow (n k : nat) : nat :=
    if k =? 0 then 1 else if k =? n then k * 2 else k.

  Lemma wp_v_push_gen (X : hprop (vcell V)) this vs k p r v Q R :
    (∀ Q, X -∗ (X -∗ Q v) -∗ wp md (deref r) Q R) →
    X -∗ vobj this vs k p -∗
    ((⌜mA md = true ∧ k = length vs⌝ → X -∗ vobj this vs k p -∗ R BadAlloc) ∧
     (∀ p', ⌞length vs < k → p' = p⌟ -∗ X -∗ vobj this (vs ++ [v]) (grow (length vs) k) p' -∗ Q tt)) -∗
    wp md (v_push_back (V:=V) this r) Q R.
  Proof.
    iIntros (HX) "HX [Hh Ha] HQ". wunfold. wstep wp_v_cap "Hh". wstep wp_v_size "Hh".
    iDestruct (arr_len with "Ha") as %Hlen.
    iAssert (∀ Q', ((⌜mA md = true ∧ k = length vs⌝ → vobj this vs k p -∗ R BadAlloc) ∧
      (∀ p', ⌞length vs < k → p' = p⌟ -∗ vobj this vs (grow (length vs) k) p' -∗ Q' tt)) -∗
      wp md (if k =? 0 then v_reserve this 1
             else if k =? length vs then v_reserve this (k * 2) else ret tt) Q' R)%I
      with "[Hh Ha]" as "Hr".
    { iIntros (Q') "HQ". rewrite /grow.
      destruct (Nat.eqb_spec k 0) as [->|Hk]; [|destruct (Nat.eqb_spec k (length vs)) as [->|Hk']].
      - iApply (wp_v_reserve with "[$Hh $Ha]"). iSplit.
        + iDestruct "HQ" as "[HQ _]". iIntros ([HA _]) "H". iApply ("HQ" with "[%] H"). split; [done|lia].
        + iDestruct "HQ" as "[_ HQ]". iIntros (p') "[%Hp' H]". iApply ("HQ" with "[%] H"). lia.
      - iApply (wp_v_reserve with "[$Hh $Ha]"). iSplit.
        + iDestruct "HQ" as "[HQ _]". iIntros ([HA _]) "H". iApply ("HQ" with "[//] H").
        + iDestruct "HQ" as "[_ HQ]". iIntros (p') "[%Hp' H]". rewrite Nat.max_r; [|lia].
          iApply ("HQ" with "[%] H"). lia.
      - wret. iDestruct "HQ" as "[_ HQ]". iApply "HQ"; [done|]. iFrame. }
    wbind. iApply "Hr". iSplit.
    { iDestruct "HQ" as "[HQ _]". iIntros (HA) "H". iApply ("HQ" with "[//] HX H"). }
    iDestruct "HQ" as "[_ HQ]". iIntros (p') "%Hp' [Hh Ha]".
    wstep wp_v_p "Hh". wstep wp_v_size "Hh". wstep wp_set_size "Hh".
    wbind. iApply (HX with "HX"). iIntros "HX".
    assert (length vs < grow (length vs) k) as Hg.
    { rewrite /grow. destruct (Nat.eqb_spec k 0); [lia|].
      destruct (Nat.eqb_spec k (length vs)); lia. }
    destruct p' as [l|]; last first.
    { iDestruct "Ha" as %[Hz _]. lia. }
    iDestruct "Ha" as (_) "Ha". iApply (wp_a_construct with "Ha"); [by apply slots_raw|].
    iIntros "Ha". iApply ("HQ" with "[%//] HX"). rewrite slots_push //.
    rewrite /vobj app_length Nat.add_1_r /=. iFrame. rewrite app_length /=. iPureIntro. lia.
  Qed.

  Lemma wp_v_push_back this vs k p v Q R :
    vobj this vs k p -∗
    ((⌜mA md = true ∧ k = length vs⌝ → vobj this vs k p -∗ R BadAlloc) ∧
     (∀ p', ⌞length vs < k → p' = p⌟ -∗ vobj this (vs ++ [v]) (grow (length vs) k) p' -∗ Q tt)) -∗
    wp md (v_push_back (V:=V) this (RVal v)) Q R.
  Proof.
    iIntros "H HQ". iApply (wp_v_push_gen emp%I with "[//] H").
    { iIntros (Q') "_ HQ". wunfold. wret. by iApply "HQ". }
    iSplit.
    - iDestruct "HQ" as "[HQ _]". iIntros (HA) "_ H". by iApply ("HQ" with "[//] H").
    - iDestruct "HQ" as "[_ HQ]". iIntros (p') "%Hp _ H". by iApply ("HQ" with "[//] H").
  Qed.

  (** push_back(v[i]) when there is spare capacity. *)
  Lemma wp_v_push_own this vs k l i v Q R :
    vs !! i = Some v → length vs < k →
    vobj this vs k (Some l) -∗
    (vobj this (vs ++ [v]) k (Some l) -∗ Q tt) -∗
    wp md (v_push_back (V:=V) this (RElem l i)) Q R.
  Proof.
    iIntros (Hi Hk) "[Hh [%Hb Ha]] HQ". wunfold. wstep wp_v_cap "Hh". wstep wp_v_size "Hh".
    destruct (Nat.eqb_spec k 0); [lia|]. destruct (Nat.eqb_spec k (length vs)); [lia|].
    wret. wstep wp_v_p "Hh". wstep wp_v_size "Hh". wstep wp_set_size "Hh".
    wbind. wunfold. iApply (wp_a_get with "Ha"); [by apply slots_live|]. iIntros "Ha".
    iApply (wp_a_construct with "Ha"); [by apply slots_raw|]. iIntros "Ha". rewrite slots_push //.
    iApply "HQ". rewrite /vobj app_length Nat.add_1_r /=. iFrame. rewrite app_length /=. iPureIntro. lia.
  Qed.

  Lemma wp_v_push_all this vs ws k p Q R :
    mA md = false →
    vobj this vs k p -∗ (vec this (vs ++ ws) -∗ Q tt) -∗
    wp md (v_push_all (V:=V) this ws) Q R.
  Proof.
    iIntros (HA) "H HQ". iInduction ws as [|w ws] "IH" forall (vs k p).
    - wunfold. wret. rewrite right_id_L. iApply "HQ". iExists _, _. iFrame.
    - simpl. wbind. iApply (wp_v_push_back with "H"). iSplit; [iIntros ([??]); congruence|].
      iIntros (p') "_ H". iApply ("IH" with "H"). rewrite -assoc_L. done.
  Qed.
  (** Pushes that fit never reallocate (and so never throw). *)
  Lemma wp_v_push_fit this vs ws k p Q R :
    length vs + length ws ≤ k →
    vobj this vs k p -∗ (vobj this (vs ++ ws) k p -∗ Q tt) -∗
    wp md (v_push_all (V:=V) this ws) Q R.
  Proof.
    iIntros (Hk) "H HQ". iInduction ws as [|w ws] "IH" forall (vs Hk).
    - wunfold. wret. rewrite right_id_L. by iApply "HQ".
    - simpl in *. wbind. iApply (wp_v_push_back with "H"). iSplit; [iIntros ([??]); lia|].
      iIntros (p') "%Hp H". rewrite Hp; [|lia].
      rewrite /grow. destruct (Nat.eqb_spec k 0); [lia|]. destruct (Nat.eqb_spec k (length vs)); [lia|].
      iApply ("IH" with "[%] H"); [rewrite app_length /=; lia|]. rewrite -assoc_L. done.
  Qed.
  Lemma wp_v_init ws Q R :
    (mA md = true → length ws ≤ 1) →
    ((⌜mA md = true⌝ → R BadAlloc) ∧ (∀ l, vec l ws -∗ Q l)) -∗
    wp md (v_init (V:=V) ws) Q R.
  Proof.
    iIntros (HA) "HQ". wunfold. wbind. iApply wp_v_new. iIntros (this) "H".
    wbind. iApply wp_on_throw. destruct (mA md) eqn:E.
    - destruct ws as [|w [|]]; [| |by simpl in HA; specialize (HA eq_refl); lia].
      + simpl. wret. wret. iDestruct "HQ" as "[_ HQ]". iApply "HQ". iExists _, _. iFrame.
      + simpl. wbind. iApply (wp_v_push_back with "H"). iSplit.
        * iDestruct "HQ" as "[HQ _]". iIntros (_) "[H _]". iApply (wp_free' with "H").
          iIntros "_". by iApply "HQ".
        * iDestruct "HQ" as "[_ HQ]". iIntros (p') "_ H". wret. wret. iApply "HQ".
          iExists _, _. iFrame.
    - iApply (wp_v_push_all with "H"); [done|]. iIntros "H". wret.
      iDestruct "HQ" as "[_ HQ]". by iApply "HQ".
  Qed.
  (** Reading an element through the array. *)
  Lemma wp_a_get_arr p k vs i v Q R :
    vs !! i = Some v →
    arr p k vs -∗ (arr p k vs -∗ Q v) -∗ wp md (a_get (V:=V) p i) Q R.
  Proof.
    iIntros (Hi) "Ha HQ". destruct p as [l|]; [|by iDestruct "Ha" as %[_ ->]].
    iDestruct "Ha" as (Hk) "Ha". iApply (wp_a_get with "Ha"); [by apply slots_live|].
    iIntros "Ha". iApply "HQ". by iFrame.
  Qed.
  Lemma wp_a_assign_arr p k vs i v Q R :
    i < length vs →
    arr p k vs -∗ (arr p k (<[i := v]> vs) -∗ Q tt) -∗ wp md (a_assign (V:=V) p i v) Q R.
  Proof.
    iIntros (Hi) "Ha HQ". destruct p as [l|]; [|by iDestruct "Ha" as %[_ ->]; simpl in *; lia].
    iDestruct "Ha" as (Hk) "Ha". destruct (lookup_lt_is_Some_2 vs i Hi) as [w Hw].
    iApply (wp_a_assign with "Ha"); [by apply slots_live|].
    iIntros "Ha". iApply "HQ". rewrite slots_set //. iFrame. by rewrite insert_length.
  Qed.

  Lemma wp_asg_loop this other xs ys k k' p p' n n1 n2 Q R :
    n ≤ length xs → n ≤ length ys →
    this ↦ VHdr n1 k p -∗ arr p k xs -∗ other ↦ VHdr n2 k' p' -∗ arr p' k' ys -∗
    (this ↦ VHdr n1 k p -∗ arr p k (take n ys ++ drop n xs) -∗
     other ↦ VHdr n2 k' p' -∗ arr p' k' ys -∗ Q tt) -∗
    wp md (for_up 0 n (λ i, p <- v_p (V:=V) this ;; q <- v_p other ;; v <- a_get q i ;; a_assign p i v)) Q R.
  Proof.
    iIntros (Hx Hy) "Hh Ha Ho Hb HQ".
    iApply (wp_for_up _ (λ i, this ↦ VHdr n1 k p ∗ arr p k (take i ys ++ drop i xs) ∗
       other ↦ VHdr n2 k' p' ∗ arr p' k' ys)%I with "[$Hh Ha $Ho $Hb]").
    - intros i Hi. iIntros "(Hh & Ha & Ho & Hb)".
      wstep wp_v_p "Hh". wstep wp_v_p "Ho".
      destruct (lookup_lt_is_Some_2 ys i) as [v Hv]; [lia|].
      wbind. iApply (wp_a_get_arr with "Hb"); [done|]. iIntros "Hb".
      iApply (wp_a_assign_arr with "Ha").
      { rewrite app_length take_length drop_length. lia. }
      iIntros "Ha". iFrame.
      rewrite insert_app_r_alt take_length_le; [|lia..]. rewrite Nat.sub_diag.
      destruct (lookup_lt_is_Some_2 xs i) as [w Hw]; [lia|].
      rewrite (drop_S xs w i) //= (take_S_r _ _ v) // -assoc_L. done.
    - done.
    - iIntros "(Hh & Ha & Ho & Hb)". iApply ("HQ" with "Hh Ha Ho Hb").
  Qed.

  Lemma wp_v_assign this other xs ys k k' p p' Q R :
    vobj this xs k p -∗ vobj other ys k' p' -∗
    ((⌜mA md = true⌝ → vobj this xs k p -∗ vobj other ys k' p' -∗ R BadAlloc) ∧
     (∀ q, ⌞k' ≤ k → q = p⌟ -∗ vobj this ys (k `max` k') q -∗ vobj other ys k' p' -∗ Q tt)) -∗
    wp md (v_assign (V:=V) this other) Q R.
  Proof.
    iIntros "H [Ho Hb] HQ". wunfold. wstep wp_v_cap "Ho". wbind.
    iApply (wp_v_reserve with "H"). iSplit.
    { iDestruct "HQ" as "[HQ _]". iIntros ([HA _]) "H". iApply ("HQ" with "[//] H"). iFrame. }
    iDestruct "HQ" as "[_ HQ]". iIntros (q) "[%Hq [Hh Ha]]".
    wstep wp_v_size "Ho". wstep wp_v_size "Hh". cbv zeta.
    iDestruct (arr_len with "Ha") as %Hl. iDestruct (arr_len with "Hb") as %Hl'.
    wbind. destruct (Nat.leb_spec (length xs) (length ys)) as [Hle|Hlt].
    - wbind. iApply (wp_asg_loop with "Hh Ha Ho Hb"); [lia..|]. iIntros "Hh Ha Ho Hb".
      rewrite drop_ge // right_id_L.
      iApply (wp_fill' (other ↦ VHdr (length ys) k' p' ∗ arr p' k' ys)%I this _ _ q
                (take (length xs) ys) (drop (length xs) ys) with "[$Ho $Hb] Hh Ha").
      { rewrite take_length. lia. }
      { by rewrite drop_length. }
      { rewrite take_drop. lia. }
      { intros i v l els Hi -> Hels. iIntros "([Ho Hb] & Hh & Hn)".
        rewrite lookup_drop in Hi. rewrite take_length_le // in Hels |- *.
        wstep wp_v_p "Hh". wstep wp_v_p "Ho".
        wbind. iApply (wp_a_get_arr with "Hb"); [done|]. iIntros "Hb".
        iApply (wp_a_construct with "Hn"); [done|]. iIntros "Hn". by iFrame. }
      iIntros "[Ho Hb] Hh Ha". rewrite take_drop.
      wstep wp_v_size "Ho". wstep wp_set_size "Hh".
      iApply ("HQ" $! q with "[%] [$Hh $Ha] [$Ho $Hb]"). naive_solver.
    - wbind. iApply (wp_asg_loop with "Hh Ha Ho Hb"); [lia..|]. iIntros "Hh Ha Ho Hb".
      rewrite firstn_all. wstep wp_v_p "Hh".
      rewrite -(drop_length xs (length ys)). iApply (wp_destroy_tail with "Ha").
      iIntros "Ha". wstep wp_v_size "Ho". wstep wp_set_size "Hh".
      iApply ("HQ" $! q with "[%] [$Hh $Ha] [$Ho $Hb]"). naive_solver.
  Qed.

  Lemma wp_v_assign_self this xs k p Q R :
    vobj this xs k p -∗ (vobj this xs k p -∗ Q tt) -∗
    wp md (v_assign (V:=V) this this) Q R.
  Proof.
    iIntros "[Hh Ha] HQ". wunfold. wstep wp_v_cap "Hh". wbind.
    iApply (wp_v_reserve with "[$Hh $Ha]"). iSplit.
    { iIntros ([_ Hlt]). lia. }
    iIntros (q) "[%Hq [Hh Ha]]". destruct Hq as [-> _]; [|lia]. rewrite Nat.max_id.
    wstep wp_v_size "Hh". wstep wp_v_size "Hh". cbv zeta.
    wbind. rewrite Nat.leb_refl Nat.sub_diag. wbind.
    iApply (wp_for_up _ (λ i, this ↦ VHdr (length xs) k p ∗ arr p k xs)%I with "[$Hh $Ha]").
    { intros i Hi. iIntros "[Hh Ha]". wstep wp_v_p "Hh". wstep wp_v_p "Hh".
      destruct (lookup_lt_is_Some_2 xs i) as [v Hv]; [lia|].
      wbind. iApply (wp_a_get_arr with "Ha"); [done|]. iIntros "Ha".
      iApply (wp_a_assign_arr with "Ha"); [lia|]. rewrite list_insert_id //. iIntros "Ha". iFrame. }
    iIntros "[Hh Ha]". wret. wstep wp_v_size "Hh". wstep wp_set_size "Hh". iApply "HQ". iFrame.
  Qed.

  Lemma wp_v_resize this xs k p n Q R :
    vobj this xs k p -∗
    ((⌜mA md = true⌝ → vobj this xs k p -∗ R BadAlloc) ∧
     (∀ q, ⌞n ≤ k → q = p⌟ -∗ vobj this (resized dflt n xs) (k `max` n) q -∗ Q tt)) -∗
    wp md (v_resize dflt this n) Q R.
  Proof.
    iIntros "[Hh Ha] HQ". wunfold. wstep wp_v_size "Hh".
    iDestruct (arr_len with "Ha") as %Hl.
    wbind. destruct (Nat.ltb_spec (length xs) n) as [Hlt|Hge].
    - wbind. iApply (wp_v_reserve with "[$Hh $Ha]"). iSplit.
      { iDestruct "HQ" as "[HQ _]". iIntros ([HA _]) "H". iApply ("HQ" with "[//] H"). }
      iDestruct "HQ" as "[_ HQ]". iIntros (q) "[%Hq [Hh Ha]]".
      iApply (wp_fill' emp%I this _ _ q xs (replicate (n - length xs) dflt) with "[] Hh Ha").
      { done. }
      { by rewrite replicate_length. }
      { rewrite app_length replicate_length. lia. }
      { intros i v l els Hi -> Hels. iIntros "(_ & Hh & Hn)".
        apply lookup_replicate in Hi as [-> Hi]. wstep wp_v_p "Hh".
        iApply (wp_a_construct with "Hn"); [done|]. iIntros "Hn". by iFrame. }
      { done. }
      iIntros "_ Hh Ha". wstep wp_set_size "Hh". iApply ("HQ" $! q with "[%]"); [naive_solver|].
      rewrite /resized take_ge; [|lia]. rewrite /vobj app_length replicate_length.
      replace (length xs + (n - length xs)) with n by lia. iFrame.
    - iDestruct "HQ" as "[_ HQ]". destruct (Nat.ltb_spec n (length xs)) as [Hlt'|Hge'].
      + wstep wp_v_p "Hh".
        iApply (wp_destroy_tail' p k (take n xs) (drop n xs) with "[Ha]").
        { rewrite take_length. lia. }
        { by rewrite drop_length. }
        { by rewrite take_drop. }
        iIntros "Ha".
        wstep wp_set_size "Hh". iApply ("HQ" with "[%//]").
        rewrite /resized. replace (n - length xs) with 0 by lia. rewrite right_id_L Nat.max_l; [|lia].
        rewrite /vobj take_length_le; [|lia]. iFrame.
      + wret. wstep wp_set_size "Hh". iApply ("HQ" with "[%//]").
        rewrite /resized. replace (n - length xs) with 0 by lia. rewrite right_id_L Nat.max_l; [|lia].
        assert (n = length xs) as -> by lia. rewrite firstn_all. iFrame.
  Qed.

  Lemma wp_v_pop_back this xs x k p Q R :
    vobj this (xs ++ [x]) k p -∗ (vobj this xs k p -∗ Q tt) -∗ wp md (v_pop_back (V:=V) this) Q R.
  Proof.
    iIntros "[Hh Ha] HQ". wunfold. wstep wp_v_size "Hh". rewrite app_length Nat.add_1_r /=.
    wstep wp_set_size "Hh". wstep wp_v_p "Hh".
    iApply (wp_destroy_tail p k xs [x] with "Ha"). iIntros "Ha". iApply "HQ". iFrame.
  Qed.

  Lemma wp_v_shift this n k p (A B D : list V) Q R :
    this ↦ VHdr n k p -∗ arr p k (A ++ B ++ D) -∗
    (∀ B', ⌞length B' = length B⌟ -∗ this ↦ VHdr n k p -∗ arr p k (A ++ D ++ B') -∗ Q tt) -∗
    wp md (v_shift (V:=V) this (length A) (length A + length B) (length D)) Q R.
  Proof.
    iIntros "Hh Ha HQ". iInduction D as [|d D] "IH" forall (A B).
    - simpl. wret. iApply ("HQ" $! B with "[//] Hh"). by rewrite right_id_L.
    - simpl. wstep wp_v_p "Hh". wbind. iApply (wp_a_get_arr with "Ha").
      { rewrite lookup_app_r; [|lia]. rewrite lookup_app_r; [|lia].
        replace (length A + length B - length A - length B) with 0 by lia. done. }
      iIntros "Ha". wbind. iApply (wp_a_assign_arr with "Ha").
      { rewrite !app_length /=. lia. }
      iIntros "Ha". rewrite insert_app_r_alt // Nat.sub_diag.
      destruct B as [|b B]; simpl.
      + iSpecialize ("IH" $! (A ++ [d]) []). rewrite /= app_length /=.
        replace (S (length A + 0)) with (length A + 1 + 0) by lia.
        replace (S (length A)) with (length A + 1) by lia.
        rewrite -assoc_L /=. iApply ("IH" with "Hh Ha").
        iIntros (B') "%HB Hh Ha". iApply ("HQ" with "[//] Hh"). by rewrite -assoc_L.
      + iSpecialize ("IH" $! (A ++ [d]) (B ++ [d])). rewrite /= !app_length /=.
        replace (S (length A + S (length B))) with (length A + 1 + (length B + 1)) by lia.
        replace (S (length A)) with (length A + 1) by lia.
        rewrite -!assoc_L /=. iApply ("IH" with "Hh Ha").
        iIntros (B') "%HB Hh Ha". iApply ("HQ" $! B' with "[%] Hh"); [simpl in *; lia|]. by rewrite -assoc_L.
  Qed.

  Lemma wp_v_erase this xs k p i j Q R :
    i ≤ j ≤ length xs →
    vobj this xs k p -∗ (vobj this (take i xs ++ drop j xs) k p -∗ Q i) -∗
    wp md (v_erase (V:=V) this i j) Q R.
  Proof.
    iIntros (Hij) "[Hh Ha] HQ". wunfold. wstep wp_v_size "Hh". rewrite decide_True //.
    assert (xs = take i xs ++ take (j - i) (drop i xs) ++ drop j xs) as Ex.
    { rewrite -{1}(take_drop i xs). f_equal. rewrite -{1}(take_drop (j - i) (drop i xs)).
      f_equal. rewrite drop_drop. f_equal. lia. }
    set (A := take i xs). set (B := take (j - i) (drop i xs)). set (D := drop j xs).
    assert (length A = i) as HA by (rewrite take_length; lia).
    assert (length B = j - i) as HB by (rewrite take_length drop_length; lia).
    assert (length D = length xs - j) as HD by (rewrite drop_length; lia).
    iEval (rewrite Ex -/A -/B -/D) in "Ha". wbind.
    iPoseProof (wp_v_shift with "Hh Ha") as "Hs".
    rewrite HA HB HD. replace (i + (j - i)) with j by lia. iApply "Hs".
    iIntros (B') "%HB' Hh Ha". wstep wp_v_p "Hh".
    rewrite assoc_L. iPoseProof (wp_destroy_tail with "Ha") as "Hs".
    rewrite app_length HA HD HB'.
    replace (i + (length xs - j)) with (length xs - (j - i)) by lia.
    wbind. iApply "Hs". iIntros "Ha". wstep wp_set_size "Hh". wret. iApply "HQ".
    rewrite /vobj app_length HA HD.
    replace (i + (length xs - j)) with (length xs - (j - i)) by lia. iFrame.
  Qed.

  (** operator== through any two readable ranges (possibly the same). *)
  Lemma wp_v_equal (X : hprop (vcell V)) p q xs ys Q R :
    (∀ i v Q, xs !! i = Some v → X -∗ (X -∗ Q v) -∗ wp md (a_get p i) Q R) →
    (∀ i v Q, ys !! i = Some v → X -∗ (X -∗ Q v) -∗ wp md (a_get q i) Q R) →
    length xs = length ys →
    X -∗ (X -∗ Q (seq_eqb veq xs ys)) -∗
    wp md (v_equal veq p q 0 (length xs)) Q R.
  Proof.
    iIntros (Hp Hq Hl) "HX HQ".
    assert (∃ A B, length A = length B ∧ xs = A ++ xs ∧ ys = B ++ ys ∧ 0 = length A)
      as (A & B & HAB & Ex & Ey & ->) by (by exists [], []).
    rewrite Ex in Hp. rewrite Ey in Hq. clear Ex Ey.
    iInduction xs as [|x xs] "IH" forall (A B ys Hl HAB Hp Hq).
    - destruct ys; [|done]. wret. by iApply "HQ".
    - destruct ys as [|y ys]; [done|]. simpl.
      wbind. iApply (Hp with "HX").
      { rewrite lookup_app_r // Nat.sub_diag //. }
      iIntros "HX". wbind. iApply (Hq with "HX").
      { rewrite HAB lookup_app_r // Nat.sub_diag //. }
      iIntros "HX". destruct (veq x y); simpl; [|wret; by iApply "HQ"].
      iSpecialize ("IH" $! (A ++ [x]) (B ++ [y]) ys with "[%] [%] [%] [%] HX HQ").
      { simpl in Hl. lia. }
      { rewrite !app_length HAB //. }
      { rewrite -assoc_L. done. }
      { rewrite -assoc_L. done. }
      rewrite app_length Nat.add_1_r. done.
  Qed.

  Lemma seq_eqb_length xs ys : length xs ≠ length ys → seq_eqb veq xs ys = false.
  Proof.
    revert ys. induction xs as [|x xs IH]; intros [|y ys]; simpl; try done.
    intros H. rewrite IH; [|lia]. by rewrite andb_false_r.
  Qed.

  Lemma wp_v_eq_ne x y xs ys k p k' p' Q R :
    vobj x xs k p -∗ vobj y ys k' p' -∗
    (vobj x xs k p -∗ vobj y ys k' p' -∗ Q (seq_eqb veq xs ys)) -∗
    wp md (v_eq veq x y) Q R.
  Proof.
    iIntros "[Hh Ha] [Ho Hb] HQ". wunfold. wstep wp_v_size "Hh". wstep wp_v_size "Ho".
    destruct (Nat.eqb_spec (length xs) (length ys)) as [Heq|Hne].
    - wstep wp_v_p "Hh". wstep wp_v_p "Ho".
      iApply (wp_v_equal (arr p k xs ∗ arr p' k' ys)%I p p' xs ys with "[$Ha $Hb]"); [| |done|].
      + iIntros (i v Q' Hi) "[Ha Hb] HQ". iApply (wp_a_get_arr with "Ha"); [done|].
        iIntros "Ha". iApply "HQ". iFrame.
      + iIntros (i v Q' Hi) "[Ha Hb] HQ". iApply (wp_a_get_arr with "Hb"); [done|].
        iIntros "Hb". iApply "HQ". iFrame.
      + iIntros "[Ha Hb]". iApply ("HQ" with "[$Hh $Ha] [$Ho $Hb]").
    - wret. rewrite seq_eqb_length //. iApply ("HQ" with "[$Hh $Ha] [$Ho $Hb]").
  Qed.
  Lemma wp_v_eq_self x xs k p Q R :
    vobj x xs k p -∗ (vobj x xs k p -∗ Q (seq_eqb veq xs xs)) -∗
    wp md (v_eq veq x x) Q R.
  Proof.
    iIntros "[Hh Ha] HQ". wunfold. wstep wp_v_size "Hh". wstep wp_v_size "Hh".
    rewrite Nat.eqb_refl. wstep wp_v_p "Hh". wstep wp_v_p "Hh".
    iApply (wp_v_equal (arr p k xs)%I p p xs xs with "[$Ha]"); [| |done|].
    - iIntros (i v Q' Hi) "Ha HQ". by iApply (wp_a_get_arr with "Ha").
    - iIntros (i v Q' Hi) "Ha HQ". by iApply (wp_a_get_arr with "Ha").
    - iIntros "Ha". iApply ("HQ" with "[$Hh $Ha]").
  Qed.

  Lemma wp_v_iterate this xs k p Q R :
    vobj this xs k p -∗ (vobj this xs k p -∗ Q xs) -∗ wp md (v_iterate (V:=V) this) Q R.
  Proof.
    iIntros "[Hh Ha] HQ". wunfold. wstep wp_v_p "Hh". wstep wp_v_size "Hh".
    iAssert (∀ A B Q, ⌜xs = A ++ B⌝ → arr p k xs -∗ (arr p k xs -∗ Q B) -∗
       wp md (v_walk p (length A) (length B)) Q R)%I as "Hw".
    { iIntros (A B Q' Ex) "Ha HQ". iInduction B as [|b B] "IH" forall (A Q' Ex).
      - wret. by iApply "HQ".
      - simpl. wbind. iApply (wp_a_get_arr with "Ha").
        { rewrite Ex lookup_app_r // Nat.sub_diag //. }
        iIntros "Ha". wbind. iSpecialize ("IH" $! (A ++ [b])).
        rewrite app_length Nat.add_1_r. iApply ("IH" with "[%] Ha").
        { by rewrite -assoc_L. }
        iIntros "Ha". wret. by iApply "HQ". }
    iApply ("Hw" $! [] xs with "[//] Ha"). iIntros "Ha". iApply "HQ". iFrame.
  Qed.
  Lemma wp_v_riterate this xs k p Q R :
    vobj this xs k p -∗ (vobj this xs k p -∗ Q (rev xs)) -∗ wp md (v_riterate (V:=V) this) Q R.
  Proof.
    iIntros "[Hh Ha] HQ". wunfold. wstep wp_v_p "Hh". wstep wp_v_size "Hh".
    iAssert (∀ A B Q, ⌜xs = A ++ B⌝ → arr p k xs -∗ (arr p k xs -∗ Q (rev A)) -∗
       wp md (v_rwalk p (length A)) Q R)%I as "Hw".
    { iIntros (A B Q' Ex) "Ha HQ". iInduction A as [|a A] "IH" using rev_ind forall (B Q' Ex).
      - wret. by iApply "HQ".
      - rewrite app_length Nat.add_1_r /=. wbind. iApply (wp_a_get_arr with "Ha").
        { rewrite Ex -assoc_L lookup_app_r // Nat.sub_diag //. }
        iIntros "Ha". wbind. iApply ("IH" $! (a :: B) with "[%] Ha").
        { by rewrite Ex -assoc_L. }
        iIntros "Ha". wret. rewrite rev_app_distr /=. by iApply "HQ". }
    iApply ("Hw" $! xs [] with "[%] Ha"). { by rewrite right_id_L. }
    iIntros "Ha". iApply "HQ". iFrame.
  Qed.

  Lemma wp_v_index this xs k p i Q R :
    vobj this xs k p -∗ (vobj this xs k p -∗ Q (p, i)) -∗ wp md (v_index (V:=V) this i) Q R.
  Proof.
    iIntros "[Hh Ha] HQ". wunfold. wstep wp_v_p "Hh". wret. iApply "HQ". iFrame.
  Qed.
  Lemma wp_v_at this xs k p i Q R :
    vobj this xs k p -∗
    (⌜length xs ≤ i⌝ → vobj this xs k p -∗ R OutOfRange) ∧
    (⌜i < length xs⌝ → vobj this xs k p -∗ Q (p, i)) -∗ wp md (v_at (V:=V) this i) Q R.
  Proof.
    iIntros "[Hh Ha] HQ". wunfold. wstep wp_v_size "Hh".
    destruct (Nat.leb_spec (length xs) i).
    - iApply wp_throw. iDestruct "HQ" as "[HQ _]". iApply "HQ"; [done|]. iFrame.
    - iApply (wp_v_index with "[$Hh $Ha]"). iDestruct "HQ" as "[_ HQ]". by iApply "HQ".
  Qed.
  Lemma wp_v_read this xs k p i v Q R :
    xs !! i = Some v →
    vobj this xs k p -∗ (vobj this xs k p -∗ Q v) -∗ wp md (v_read (V:=V) (p, i)) Q R.
  Proof.
    iIntros (Hi) "[Hh Ha] HQ". wunfold. iApply (wp_a_get_arr with "Ha"); [done|].
    iIntros "Ha". iApply "HQ". iFrame.
  Qed.
  Lemma wp_v_write this xs k p i v Q R :
    i < length xs →
    vobj this xs k p -∗ (vobj this (<[i := v]> xs) k p -∗ Q tt) -∗
    wp md (v_write (V:=V) (p, i) v) Q R.
  Proof.
    iIntros (Hi) "[Hh Ha] HQ". wunfold. iApply (wp_a_assign_arr with "Ha"); [done|].
    iIntros "Ha". iApply "HQ". rewrite /vobj insert_length. iFrame.
  Qed.
End proofs.

Global Arguments arr : simpl never.
