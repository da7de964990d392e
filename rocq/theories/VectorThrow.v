(** The effect of throwing element copies on a vector, by computation. *)
From iris.proofmode Require Import tactics.
From Verif Require Import Hist ModelVector SpecVector SpecVectorThrow VectorProofs.

Lemma bind_ok {C A B} (f : M C A) (k : A → M C B) m a m' : f m = Ok a m' → bind f k m = k a m'.
Proof. unfold bind. by intros ->. Qed.
Lemma bind_ub {C A B} (f : M C A) (k : A → M C B) m : f m = UB → bind f k m = UB.
Proof. unfold bind. by intros ->. Qed.
Lemma bind_exn {C A B} (f : M C A) (k : A → M C B) m e m' : f m = Exn e m' → bind f k m = Exn e m'.
Proof. unfold bind. by intros ->. Qed.

(** ** Loops *)
Section loops.
  Context {C : Type} (I : nat → gmap loc C) (nx : loc) (ao : list bool) (body : nat → M C unit).
  Lemma loop_plain from n co :
    (∀ i, from ≤ i < from + n → body i (Mem (I i) nx ao co) = Ok tt (Mem (I (S i)) nx ao co)) →
    for_up from n body (Mem (I from) nx ao co) = Ok tt (Mem (I (from + n)) nx ao co).
  Proof.
    revert from. induction n as [|n IH]; intros from H; cbn [for_up]; [by rewrite Nat.add_0_r|].
    rewrite (bind_ok _ _ _ _ _ (H from ltac:(lia))) IH; [do 3 f_equal; lia|]. intros. apply H. lia.
  Qed.
  Lemma loop_ok from n rest :
    (∀ i o, from ≤ i < from + n → body i (Mem (I i) nx ao (false :: o)) = Ok tt (Mem (I (S i)) nx ao o)) →
    for_up from n body (Mem (I from) nx ao (replicate n false ++ rest)) = Ok tt (Mem (I (from + n)) nx ao rest).
  Proof.
    revert from. induction n as [|n IH]; intros from H; cbn [for_up replicate app]; [by rewrite Nat.add_0_r|].
    rewrite (bind_ok _ _ _ _ _ (H from _ ltac:(lia))) IH; [do 3 f_equal; lia|]. intros. apply H. lia.
  Qed.
  Lemma loop_throw from n t rest :
    (∀ i o, from ≤ i < from + n → body i (Mem (I i) nx ao (false :: o)) = Ok tt (Mem (I (S i)) nx ao o)) →
    (∀ i o, from ≤ i < from + n → body i (Mem (I i) nx ao (true :: o)) = Exn CopyThrow (Mem (I i) nx ao o)) →
    t < n →
    for_up from n body (Mem (I from) nx ao (replicate t false ++ true :: rest)) = Exn CopyThrow (Mem (I (from + t)) nx ao rest).
  Proof.
    revert from n. induction t as [|t IH]; intros from n H1 H2 Ht; destruct n as [|n]; [lia| |lia|]; cbn [for_up replicate app].
    - rewrite Nat.add_0_r. apply bind_exn. apply H2. lia.
    - rewrite (bind_ok _ _ _ _ _ (H1 from _ ltac:(lia))) IH; [do 3 f_equal; lia| | |lia]; intros; [apply H1|apply H2]; lia.
  Qed.
End loops.

Section ev.
  Context {V : Type} (dflt : V).
  Implicit Types (h : gmap loc (vcell V)) (m : mem (vcell V)) (xs ys : list V) (els : list (option V)).

  Lemma ev_hdr m this n k p : blk m !! this = Some (VHdr n k p) → v_hdr this m = Ok (n, k, p) m.
  Proof. intros H. by rewrite /v_hdr /bind /load H. Qed.
  Lemma ev_size m this n k p : blk m !! this = Some (VHdr n k p) → v_size this m = Ok n m.
  Proof. intros H. by rewrite /v_size (bind_ok _ _ _ _ _ (ev_hdr _ _ _ _ _ H)). Qed.
  Lemma ev_cap m this n k p : blk m !! this = Some (VHdr n k p) → v_cap this m = Ok k m.
  Proof. intros H. by rewrite /v_cap (bind_ok _ _ _ _ _ (ev_hdr _ _ _ _ _ H)). Qed.
  Lemma ev_p m this n k p : blk m !! this = Some (VHdr n k p) → v_p this m = Ok p m.
  Proof. intros H. by rewrite /v_p (bind_ok _ _ _ _ _ (ev_hdr _ _ _ _ _ H)). Qed.
  Lemma ev_store m l c c' : blk m !! l = Some c →
    store l c' m = Ok tt (Mem (<[l := c']> (blk m)) (nxt m) (aorc m) (corc m)).
  Proof. intros H. by rewrite /store H. Qed.
  Lemma ev_set_size m this n k p n' : blk m !! this = Some (VHdr n k p) →
    set_size this n' m = Ok tt (Mem (<[this := VHdr n' k p]> (blk m)) (nxt m) (aorc m) (corc m)).
  Proof. intros H. rewrite /set_size (bind_ok _ _ _ _ _ (ev_hdr _ _ _ _ _ H)). by eapply ev_store. Qed.
  Lemma ev_set_cap m this n k p k' : blk m !! this = Some (VHdr n k p) →
    set_cap this k' m = Ok tt (Mem (<[this := VHdr n k' p]> (blk m)) (nxt m) (aorc m) (corc m)).
  Proof. intros H. rewrite /set_cap (bind_ok _ _ _ _ _ (ev_hdr _ _ _ _ _ H)). by eapply ev_store. Qed.
  Lemma ev_set_p m this n k p p' : blk m !! this = Some (VHdr n k p) →
    set_p this p' m = Ok tt (Mem (<[this := VHdr n k p']> (blk m)) (nxt m) (aorc m) (corc m)).
  Proof. intros H. rewrite /set_p (bind_ok _ _ _ _ _ (ev_hdr _ _ _ _ _ H)). by eapply ev_store. Qed.

  Lemma ev_els m b els : blk m !! b = Some (VArr els) → a_els (Some b) m = Ok (b, els) m.
  Proof. intros H. by rewrite /a_els /bind /load H. Qed.
  Lemma ev_get m b els i : blk m !! b = Some (VArr els) →
    a_get (Some b) i m = match els !! i with Some (Some v) => Ok v m | _ => UB end.
  Proof. intros H. rewrite /a_get (bind_ok _ _ _ _ _ (ev_els _ _ _ H)) /=. by repeat case_match. Qed.
  Lemma ev_construct h b els i v nx ao co : els !! i = Some None →
    a_construct (Some b) i v (Mem (<[b := VArr els]> h) nx ao co) =
      match co with
      | true :: o => Exn CopyThrow (Mem (<[b := VArr els]> h) nx ao o)
      | _ => Ok tt (Mem (<[b := VArr (<[i := Some v]> els)]> h) nx ao (tail co))
      end.
  Proof.
    intros Hi. unfold a_construct, may_throw, bind at 1. cbn [corc blk nxt aorc].
    assert (∀ co', bind (a_els (Some b)) (λ le, match le.2 !! i with Some None => store le.1 (VArr (<[i := Some v]> le.2)) | _ => ub end)
      (Mem (<[b := VArr els]> h) nx ao co') = Ok tt (Mem (<[b := VArr (<[i := Some v]> els)]> h) nx ao co')) as E.
    { intros co'. erewrite bind_ok; [|apply ev_els, lookup_insert]. cbn [fst snd]. rewrite Hi.
      erewrite ev_store; [|apply lookup_insert]. cbn [corc blk nxt aorc]. by rewrite insert_insert. }
    by destruct co as [|[] co]; rewrite ?E.
  Qed.
  Lemma ev_assign h b els i v v0 nx ao co : els !! i = Some (Some v0) →
    a_assign (Some b) i v (Mem (<[b := VArr els]> h) nx ao co) =
      match co with
      | true :: o => Exn CopyThrow (Mem (<[b := VArr els]> h) nx ao o)
      | _ => Ok tt (Mem (<[b := VArr (<[i := Some v]> els)]> h) nx ao (tail co))
      end.
  Proof.
    intros Hi. unfold a_assign, may_throw, bind at 1. cbn [corc blk nxt aorc].
    assert (∀ co', bind (a_els (Some b)) (λ le, match le.2 !! i with Some (Some _) => store le.1 (VArr (<[i := Some v]> le.2)) | _ => ub end)
      (Mem (<[b := VArr els]> h) nx ao co') = Ok tt (Mem (<[b := VArr (<[i := Some v]> els)]> h) nx ao co')) as E.
    { intros co'. erewrite bind_ok; [|apply ev_els, lookup_insert]. cbn [fst snd]. rewrite Hi.
      erewrite ev_store; [|apply lookup_insert]. cbn [corc blk nxt aorc]. by rewrite insert_insert. }
    by destruct co as [|[] co]; rewrite ?E.
  Qed.
  Lemma ev_destroy h b els i nx ao co :
    a_destroy (Some b) i (Mem (<[b := VArr els]> h) nx ao co) =
      match els !! i with
      | Some (Some _) => Ok tt (Mem (<[b := VArr (<[i := None]> els)]> h) nx ao co)
      | _ => UB
      end.
  Proof.
    unfold a_destroy. erewrite bind_ok; [|apply ev_els, lookup_insert]. cbn [fst snd].
    destruct (els !! i) as [[?|]|]; [|done..].
    erewrite ev_store; [|apply lookup_insert]. cbn [corc blk nxt aorc]. by rewrite insert_insert.
  Qed.
  Lemma ev_destroy_n_ub h b els from n j nx ao co :
    from ≤ j < from + n → els !! j = Some None →
    destroy_n (Some b) from n (Mem (<[b := VArr els]> h) nx ao co) = UB.
  Proof.
    unfold destroy_n. revert from els. induction n as [|n IH]; intros from els Hj Hn; [lia|]. cbn [for_up].
    destruct (decide (j = from)) as [->|Hne].
    - apply bind_ub. by rewrite ev_destroy Hn.
    - destruct (els !! from) as [[v|]|] eqn:E.
      + erewrite bind_ok; [|by rewrite ev_destroy E]. apply IH; [lia|]. by rewrite list_lookup_insert_ne.
      + apply bind_ub. by rewrite ev_destroy E.
      + apply bind_ub. by rewrite ev_destroy E.
  Qed.
  Lemma ev_destroy_all h b xs k nx ao co :
    destroy_n (Some b) 0 (length xs) (Mem (<[b := filled xs k]> h) nx ao co) =
      Ok tt (Mem (<[b := VArr (replicate (length xs + (k - length xs)) None)]> h) nx ao co).
  Proof.
    set (I i := <[b := VArr (replicate i None ++ map Some (drop i xs) ++ replicate (k - length xs) None)]> h).
    assert (<[b := filled xs k]> h = I 0) as -> by (rewrite /I /filled drop_0 //).
    unfold destroy_n. rewrite (loop_plain I).
    - cbn [Nat.add]. unfold I. by rewrite drop_all /= -replicate_add.
    - intros i Hi. unfold I. destruct (lookup_lt_is_Some_2 xs i) as [v Hv]; [lia|].
      rewrite (drop_S _ _ _ Hv) /=. rewrite ev_destroy. rewrite lookup_app_r replicate_length // Nat.sub_diag /=.
      rewrite insert_app_r_alt replicate_length // Nat.sub_diag /=.
      do 4 f_equal. change (None :: ?l) with ([None] ++ l). rewrite assoc_L -replicate_S_end. done.
  Qed.
  Lemma ev_deallocate h b k nx ao co :
    deallocate (Some b) k (Mem (<[b := VArr (replicate k None)]> h) nx ao co) = Ok tt (Mem (delete b h) nx ao co).
  Proof.
    unfold deallocate. erewrite bind_ok; [|apply ev_els, lookup_insert]. cbn [fst snd].
    rewrite decide_True; [|split; [apply replicate_length|by apply Forall_replicate]].
    rewrite /free /= lookup_insert /=. by rewrite delete_insert_delete.
  Qed.

  (** ** Filling slots from the end of the live ones *)
  Section fill.
    Context (h : gmap loc (vcell V)) (b : loc) (nx : loc) (ao : list bool) (k : nat) (ys : list V).
    Context (body : nat → M (vcell V) unit).
    Context (Hk : length ys ≤ k).
    Context (Hbody : ∀ i v els co, ys !! i = Some v →
      body i (Mem (<[b := VArr els]> h) nx ao co) = a_construct (Some b) i v (Mem (<[b := VArr els]> h) nx ao co)).
    Definition I_fill (i : nat) := <[b := filled (take i ys) k]> h.
    Lemma fill_step i o : i < length ys →
      body i (Mem (I_fill i) nx ao (false :: o)) = Ok tt (Mem (I_fill (S i)) nx ao o) ∧
      body i (Mem (I_fill i) nx ao (true :: o)) = Exn CopyThrow (Mem (I_fill i) nx ao o).
    Proof using Hk Hbody.
      intros Hi. destruct (lookup_lt_is_Some_2 ys i Hi) as [v Hv]. unfold I_fill.
      change (filled ?l k) with (VArr (slots l k)).
      assert (slots (take i ys) k !! i = Some None) as HN by (apply slots_raw'; rewrite take_length; lia).
      rewrite !(Hbody _ _ _ _ Hv) !(ev_construct _ _ _ _ _ _ _ _ HN). split; [|done]. cbn [tail].
      rewrite slots_push'; [|rewrite take_length; lia..]. by rewrite -(take_S_r _ _ v).
    Qed.
    Lemma fill_ok from n rest : from + n ≤ length ys →
      for_up from n body (Mem (I_fill from) nx ao (replicate n false ++ rest)) = Ok tt (Mem (I_fill (from + n)) nx ao rest).
    Proof using Hk Hbody. intros Hn. apply loop_ok. intros i o Hi. apply fill_step. lia. Qed.
    Lemma fill_throw from n t rest : from + n ≤ length ys → t < n →
      for_up from n body (Mem (I_fill from) nx ao (replicate t false ++ true :: rest)) = Exn CopyThrow (Mem (I_fill (from + t)) nx ao rest).
    Proof using Hk Hbody. intros Hn Ht. apply loop_throw; [| |done]; intros i o Hi; apply fill_step; lia. Qed.
  End fill.

  (** ** reserve *)
  Lemma holds_lt m this xs k p : mem_wf m → holds m this xs k p →
    (this < nxt m)%positive ∧ match p with Some b => (b < nxt m)%positive ∧ b ≠ this | None => True end.
  Proof.
    intros Hw [H1 H2]. split; [apply Hw; by rewrite H1|]. destruct p as [b|]; [|done].
    destruct H2 as (_ & _ & H2). split; [apply Hw; by rewrite H2|]. congruence.
  Qed.
  Lemma ev_allocate (n : nat) m : next_alloc_ok m →
    allocate n m = Ok (Some (nxt m)) (Mem (<[nxt m := VArr (replicate n None)]> (blk m)) (Pos.succ (nxt m)) (tail (aorc m)) (corc m)).
  Proof. unfold next_alloc_ok, allocate, alloc, bind. by destruct (aorc m) as [|[] ?]. Qed.

  Definition body_reserve (this : loc) (p : ptr) (i : nat) : M (vcell V) unit :=
    mp <- v_p this ;; v <- a_get mp i ;; a_construct p i v.
  Lemma body_reserve_eq m this xs k p n : mem_wf m → holds m this xs k p → ∀ i v els co, xs !! i = Some v →
    let m' := Mem (<[nxt m := VArr els]> (blk m)) (Pos.succ (nxt m)) (tail (aorc m)) co in
    body_reserve this (Some n) i m' = a_construct (Some n) i v m'.
  Proof using.
    intros Hw Hh i v els co Hv m'. destruct (holds_lt _ _ _ _ _ Hw Hh) as [Hl1 Hl2]. destruct Hh as [H1 H2].
    destruct p as [b|]; [|by destruct H2 as [_ ->]]. destruct H2 as (_ & _ & H2). destruct Hl2 as [Hl2 _].
    unfold body_reserve. erewrite bind_ok; [|eapply ev_p; rewrite lookup_insert_ne; [exact H1|lia]].
    erewrite bind_ok; [done|]. erewrite ev_get; [|rewrite lookup_insert_ne; [exact H2|lia]].
    by rewrite (slots_live xs k i v Hv).
  Qed.
  Lemma reserve_throw m this xs k p n t rest : mem_wf m → holds m this xs k p → next_alloc_ok m →
    k < n → t < length xs → throws_at m t rest →
    v_reserve this n m = Exn CopyThrow (Mem (<[nxt m := filled (take t xs) n]> (blk m)) (Pos.succ (nxt m)) (tail (aorc m)) rest).
  Proof.
    intros Hw Hh Ha Hn Ht Ho. pose proof Hh as [H1 H2]. unfold v_reserve.
    rewrite (bind_ok _ _ _ _ _ (ev_cap _ _ _ _ _ H1)). destruct (Nat.ltb_spec k n); [|lia].
    rewrite (bind_ok _ _ _ _ _ (ev_allocate _ _ Ha)).
    destruct (holds_lt _ _ _ _ _ Hw Hh) as [Hl1 Hl2].
    erewrite bind_ok; [|eapply ev_size; rewrite lookup_insert_ne; [exact H1|lia]].
    apply bind_exn. change (for_up 0 (length xs) (body_reserve this (Some (nxt m)))
      (Mem (<[nxt m := VArr (replicate n None)]> (blk m)) (Pos.succ (nxt m)) (tail (aorc m)) (corc m)) =
      Exn CopyThrow (Mem (<[nxt m := filled (take t xs) n]> (blk m)) (Pos.succ (nxt m)) (tail (aorc m)) rest)).
    assert (length xs ≤ n).
    { destruct p; simpl in H2; [lia|]. destruct H2 as [_ ->]. simpl. lia. }
    rewrite Ho. pose proof (fill_throw (blk m) (nxt m) (Pos.succ (nxt m)) (tail (aorc m)) n xs
      (body_reserve this (Some (nxt m))) ltac:(done) (body_reserve_eq m this xs k p _ Hw Hh) 0 (length xs) t rest ltac:(lia) Ht) as E.
    rewrite /I_fill /filled take_0 /= Nat.sub_0_r in E. exact E.
  Qed.
  Lemma reserve_ok m this xs k p n rest : mem_wf m → holds m this xs k p → next_alloc_ok m →
    k < n → corc m = replicate (length xs) false ++ rest →
    v_reserve this n m = Ok tt (Mem (regrown this xs n p (nxt m) (blk m)) (Pos.succ (nxt m)) (tail (aorc m)) rest).
  Proof.
    intros Hw Hh Ha Hn Ho. pose proof Hh as [H1 H2]. unfold v_reserve.
    rewrite (bind_ok _ _ _ _ _ (ev_cap _ _ _ _ _ H1)). destruct (Nat.ltb_spec k n); [|lia].
    rewrite (bind_ok _ _ _ _ _ (ev_allocate _ _ Ha)).
    destruct (holds_lt _ _ _ _ _ Hw Hh) as [Hl1 Hl2].
    erewrite bind_ok; [|eapply ev_size; rewrite lookup_insert_ne; [exact H1|lia]].
    assert (length xs ≤ n).
    { destruct p; simpl in H2; [lia|]. destruct H2 as [_ ->]. simpl. lia. }
    rewrite Ho. pose proof (fill_ok (blk m) (nxt m) (Pos.succ (nxt m)) (tail (aorc m)) n xs
      (body_reserve this (Some (nxt m))) ltac:(done) (body_reserve_eq m this xs k p _ Hw Hh) 0 (length xs) rest ltac:(lia)) as E.
    rewrite /I_fill /filled take_0 /= Nat.sub_0_r take_ge // in E.
    rewrite (bind_ok _ _ _ _ _ E). clear E.
    set (m1 := Mem (<[nxt m := _]> (blk m)) _ _ _).
    assert (blk m1 !! this = Some (VHdr (length xs) k p)) as Hm1.
    { unfold m1. cbn [blk]. rewrite lookup_insert_ne; [exact H1|lia]. }
    rewrite (bind_ok _ _ _ _ _ (ev_p _ _ _ _ _ Hm1)).
    assert ((if k =? 0 then ret tt else destroy_n p 0 (length xs) ;;; deallocate p k) m1 =
      Ok tt (Mem (<[nxt m := filled xs n]> (drop_data p (blk m))) (Pos.succ (nxt m)) (tail (aorc m)) rest)) as E.
    { destruct p as [b|].
      - destruct H2 as (Hk & Hxk & H2). destruct (Nat.eqb_spec k 0); [lia|]. destruct Hl2 as [Hl2 Hl3].
        assert (m1 = Mem (<[b := filled xs k]> (blk m1)) (Pos.succ (nxt m)) (tail (aorc m)) rest) as ->.
        { unfold m1. cbn [blk]. f_equal. symmetry. apply insert_id. rewrite lookup_insert_ne; [exact H2|lia]. }
        rewrite (bind_ok _ _ _ _ _ (ev_destroy_all _ _ _ _ _ _ _)).
        replace (length xs + (k - length xs)) with k by lia.
        rewrite ev_deallocate. unfold m1. cbn [blk drop_data]. rewrite delete_insert_ne; [done|lia].
      - by destruct H2 as [-> ->]. }
    rewrite (bind_ok _ _ _ _ _ E). clear E.
    assert (<[nxt m := filled xs n]> (drop_data p (blk m)) !! this = Some (VHdr (length xs) k p)) as H3.
    { rewrite lookup_insert_ne; [|lia]. destruct p as [b|]; [|done]. cbn [drop_data].
      rewrite lookup_delete_ne; [exact H1|by destruct Hl2]. }
    erewrite bind_ok; [|eapply ev_set_p; exact H3].
    erewrite ev_set_cap; [|apply lookup_insert]. cbn [blk nxt aorc corc]. rewrite insert_insert.
    unfold regrown. by rewrite insert_commute; [|lia].
  Qed.
  Lemma reserve_fits m this n k p k' : blk m !! this = Some (VHdr n k p) → k' ≤ k → v_reserve this k' m = Ok tt m.
  Proof.
    intros H Hk. unfold v_reserve. rewrite (bind_ok _ _ _ _ _ (ev_cap _ _ _ _ _ H)).
    by destruct (Nat.ltb_spec k k'); [lia|].
  Qed.
  Lemma regrown_hdr this xs n p b h : this ≠ b → regrown this xs n p b h !! this = Some (VHdr (length xs) n (Some b)).
  Proof. intros. unfold regrown. rewrite lookup_insert_ne; [|done]. apply lookup_insert. Qed.

  (** ** push_back *)
  Lemma push_tail m this n k p v rest : blk m !! this = Some (VHdr n k p) → corc m = true :: rest →
    (p <- v_p this ;; n <- v_size this ;; set_size this (S n) ;;; v <- deref (RVal v) ;; a_construct p n v) m =
    Exn CopyThrow (Mem (<[this := VHdr (S n) k p]> (blk m)) (nxt m) (aorc m) rest).
  Proof.
    intros H Ho. rewrite (bind_ok _ _ _ _ _ (ev_p _ _ _ _ _ H)) (bind_ok _ _ _ _ _ (ev_size _ _ _ _ _ H)).
    rewrite (bind_ok _ _ _ _ _ (ev_set_size _ _ _ _ _ _ H)). cbn [deref]. erewrite bind_ok; [|done].
    unfold a_construct. apply bind_exn. unfold may_throw. cbn [corc blk nxt aorc]. by rewrite Ho.
  Qed.
  Lemma holds_len m this xs k p : holds m this xs k p → length xs ≤ k.
  Proof. intros [_ H]. destruct p; [lia|]. destruct H as [_ ->]. simpl. lia. Qed.
  Lemma push_fit m this xs k p v rest : holds m this xs k p → length xs < k → throws_at m 0 rest →
    v_push_back this (RVal v) m = Exn CopyThrow (Mem (<[this := VHdr (S (length xs)) k p]> (blk m)) (nxt m) (aorc m) rest).
  Proof.
    intros Hh Hk Ho. pose proof Hh as [H1 _]. unfold v_push_back.
    rewrite (bind_ok _ _ _ _ _ (ev_cap _ _ _ _ _ H1)) (bind_ok _ _ _ _ _ (ev_size _ _ _ _ _ H1)).
    destruct (Nat.eqb_spec k 0); [lia|]. destruct (Nat.eqb_spec k (length xs)); [lia|].
    rewrite (bind_ok _ _ _ _ _ (eq_refl : ret tt m = Ok tt m)). by apply push_tail.
  Qed.
  Lemma push_full_eq m this xs k p v : holds m this xs k p → length xs = k →
    v_push_back this (RVal v) m = (v_reserve this (next_cap k) ;;;
      (p <- v_p this ;; n <- v_size this ;; set_size this (S n) ;;; v <- deref (RVal v) ;; a_construct p n v)) m.
  Proof.
    intros Hh Hk. pose proof Hh as [H1 _]. unfold v_push_back.
    rewrite (bind_ok _ _ _ _ _ (ev_cap _ _ _ _ _ H1)) (bind_ok _ _ _ _ _ (ev_size _ _ _ _ _ H1)).
    rewrite -Hk Nat.eqb_refl. destruct (length xs) as [|n]; [done|]. cbn [Nat.eqb next_cap].
    by rewrite (Nat.mul_comm 2).
  Qed.
  Lemma push_lost m this xs k p v t rest : mem_wf m → holds m this xs k p → length xs = k → next_alloc_ok m →
    t < k → throws_at m t rest →
    v_push_back this (RVal v) m =
      Exn CopyThrow (Mem (<[nxt m := filled (take t xs) (2 * k)]> (blk m)) (Pos.succ (nxt m)) (tail (aorc m)) rest).
  Proof.
    intros Hw Hh Hk Ha Ht Ho. rewrite (push_full_eq _ _ _ _ _ _ Hh Hk). apply bind_exn.
    destruct k as [|k]; [lia|]. cbn [next_cap]. eapply reserve_throw; try done; lia.
  Qed.
  Lemma push_grown m this xs k p v rest : mem_wf m → holds m this xs k p → length xs = k → next_alloc_ok m →
    throws_at m k rest →
    v_push_back this (RVal v) m =
      Exn CopyThrow (Mem (<[this := VHdr (S k) (next_cap k) (Some (nxt m))]> (regrown this xs (next_cap k) p (nxt m) (blk m)))
        (Pos.succ (nxt m)) (tail (aorc m)) rest).
  Proof.
    intros Hw Hh Hk Ha Ho. rewrite (push_full_eq _ _ _ _ _ _ Hh Hk).
    destruct (holds_lt _ _ _ _ _ Hw Hh) as [Hl _].
    rewrite (bind_ok _ _ _ _ _ (reserve_ok m this xs k p (next_cap k) (true :: rest) Hw Hh Ha
      ltac:(destruct k; simpl; lia) ltac:(rewrite Hk; exact Ho))).
    erewrite push_tail; [|apply regrown_hdr; lia|done]. by rewrite Hk.
  Qed.

  Lemma push_fit_torn m this xs k b : holds m this xs k (Some b) → length xs < k →
    ∀ m', blk m' = <[this := VHdr (S (length xs)) k (Some b)]> (blk m) → v_torn m' this xs k b.
  Proof.
    intros [H1 (_ & _ & H2)] Hk m' E. assert (this ≠ b) by congruence. unfold v_torn. rewrite E.
    split; [apply lookup_insert|]. split; [done|]. by rewrite lookup_insert_ne.
  Qed.
  Lemma push_grown_torn m this xs k p : mem_wf m → holds m this xs k p → length xs = k →
    ∀ m', blk m' = <[this := VHdr (S k) (next_cap k) (Some (nxt m))]> (regrown this xs (next_cap k) p (nxt m) (blk m)) →
    v_torn m' this xs (next_cap k) (nxt m).
  Proof.
    intros Hw Hh Hk m' E. destruct (holds_lt _ _ _ _ _ Hw Hh) as [Hl _]. unfold v_torn. rewrite E -Hk.
    split; [apply lookup_insert|]. split; [destruct (length xs); simpl; lia|].
    rewrite lookup_insert_ne; [|lia]. apply lookup_insert.
  Qed.

  (** ** A vector that counts a missing element *)
  Section torn.
    Context (m : mem (vcell V)) (this : loc) (xs : list V) (k : nat) (b : loc) (H : v_torn m this xs k b).
    Lemma torn_missing : slots xs k !! length xs = Some None.
    Proof using H. apply slots_raw. by destruct H as (_ & ? & _). Qed.
    Lemma torn_size : v_size this m = Ok (S (length xs)) m.
    Proof using H. destruct H as (H1 & _). by eapply ev_size. Qed.
    Lemma torn_read i : i ≤ length xs →
      (r <- v_index this i ;; v_read r) m = match xs !! i with Some v => Ok v m | None => UB end.
    Proof using H.
      intros Hi. destruct H as (H1 & H2 & H3). unfold v_index, v_read.
      erewrite bind_ok; [|by rewrite (bind_ok _ _ _ _ _ (ev_p _ _ _ _ _ H1))]. cbn [fst snd].
      rewrite (ev_get _ _ _ _ H3). destruct (xs !! i) as [v|] eqn:E.
      - by rewrite (slots_live xs k i v E).
      - apply lookup_ge_None in E. assert (i = length xs) as -> by lia.
        by rewrite torn_missing.
    Qed.
    Lemma torn_eta : m = Mem (<[b := VArr (slots xs k)]> (blk m)) (nxt m) (aorc m) (corc m).
    Proof using H. destruct m. destruct H as (_ & _ & H3). cbn in *. by rewrite insert_id. Qed.
    Lemma torn_clear : v_clear this m = UB.
    Proof using H.
      destruct H as (H1 & H2 & H3). unfold v_clear.
      rewrite (bind_ok _ _ _ _ _ (ev_p _ _ _ _ _ H1)) (bind_ok _ _ _ _ _ (ev_size _ _ _ _ _ H1)).
      apply bind_ub. rewrite torn_eta. eapply (ev_destroy_n_ub _ _ _ _ _ (length xs)); [lia|]. apply torn_missing.
    Qed.
    Lemma torn_dtor : v_dtor this m = UB.
    Proof using H. unfold v_dtor. apply bind_ub, torn_clear. Qed.
    Lemma torn_pop : v_pop_back this m = UB.
    Proof using H.
      pose proof H as (H1 & H2 & H3). unfold v_pop_back. rewrite (bind_ok _ _ _ _ _ (ev_size _ _ _ _ _ H1)).
      rewrite (bind_ok _ _ _ _ _ (ev_set_size _ _ _ _ _ _ H1)).
      erewrite bind_ok; [|eapply ev_p, lookup_insert]. assert (this ≠ b) by (unfold filled in *; congruence).
      assert (<[this := VHdr (length xs) k (Some b)]> (blk m) =
        <[b := VArr (slots xs k)]> (<[this := VHdr (length xs) k (Some b)]> (blk m))) as ->.
      { symmetry. apply insert_id. by rewrite lookup_insert_ne. }
      eapply (ev_destroy_n_ub _ _ _ _ _ (length xs)); [lia|]. apply torn_missing.
    Qed.
    Lemma torn_walk i : i ≤ length xs → v_walk (Some b) i (S (length xs) - i) m = UB.
    Proof using H.
      intros Hi. remember (length xs - i) as d eqn:Hd. revert i Hi Hd.
      induction d as [|d IH]; intros i Hi Hd.
      - assert (i = length xs) as -> by lia. replace (S (length xs) - length xs) with 1 by lia.
        cbn [v_walk]. apply bind_ub. destruct H as (H1 & H2 & H3). rewrite (ev_get _ _ _ _ H3).
        by rewrite torn_missing.
      - replace (S (length xs) - i) with (S (S (length xs) - S i)) by lia. cbn [v_walk].
        destruct (lookup_lt_is_Some_2 xs i) as [v Hv]; [lia|].
        erewrite bind_ok; [|destruct H as (H1 & H2 & H3); rewrite (ev_get _ _ _ _ H3); by rewrite (slots_live xs k i v Hv)].
        apply bind_ub. apply IH; lia.
    Qed.
    Lemma torn_iterate : v_iterate this m = UB.
    Proof using H.
      pose proof H as (H1 & H2 & H3). unfold v_iterate.
      rewrite (bind_ok _ _ _ _ _ (ev_p _ _ _ _ _ H1)) (bind_ok _ _ _ _ _ (ev_size _ _ _ _ _ H1)).
      pose proof (torn_walk 0 ltac:(lia)) as E. by rewrite Nat.sub_0_r in E.
    Qed.
    Lemma torn_undefined : v_iterate this m = UB ∧ v_clear this m = UB ∧ v_pop_back this m = UB ∧ v_dtor this m = UB.
    Proof using H. split_and!; [apply torn_iterate|apply torn_clear|apply torn_pop|apply torn_dtor]. Qed.
  End torn.

  (** ** Constructors *)
  Lemma new_holds m : holds (Mem (<[nxt m := VHdr 0 0 None]> (blk m)) (Pos.succ (nxt m)) (aorc m) (corc m)) (nxt m) ([] : list V) 0 None.
  Proof. split; [apply lookup_insert|done]. Qed.
  Lemma new_wf m (c : vcell V) co : mem_wf m → mem_wf (Mem (<[nxt m := c]> (blk m)) (Pos.succ (nxt m)) (aorc m) co).
  Proof.
    intros Hw l Hl. cbn in *. destruct (decide (l = nxt m)) as [->|]; [lia|].
    rewrite lookup_insert_ne // in Hl. apply Hw in Hl. lia.
  Qed.
  Lemma empty_reserve m (n : nat) co rest : mem_wf m → next_alloc_ok m → 0 < n → co = rest →
    v_reserve (nxt m) n (Mem (<[nxt m := VHdr 0 0 None]> (blk m)) (Pos.succ (nxt m)) (aorc m) co) =
    Ok tt (Mem (<[Pos.succ (nxt m) := filled ([] : list V) n]> (<[nxt m := VHdr 0 n (Some (Pos.succ (nxt m)))]> (blk m)))
      (Pos.succ (Pos.succ (nxt m))) (tail (aorc m)) rest).
  Proof.
    intros Hw Ha Hn ->. set (m1 := Mem _ _ _ _).
    assert (holds m1 (nxt m) ([] : list V) 0 None) as Hh by (split; [apply lookup_insert|done]).
    rewrite (reserve_ok m1 (nxt m) [] 0 None n rest); [|by apply new_wf|done..].
    unfold regrown, m1. cbn. by rewrite insert_insert.
  Qed.
  Lemma copy_throw_undefined m other xs k p t rest : mem_wf m → holds m other xs k p → next_alloc_ok m →
    t < length xs → throws_at m t rest → v_copy other m = UB.
  Proof.
    intros Hw Hh Ha Ht Ho. pose proof (holds_len _ _ _ _ _ Hh) as Hk.
    destruct (holds_lt _ _ _ _ _ Hw Hh) as [Hl1 Hl2]. destruct Hh as [H1 H2].
    destruct p as [b|]; [|destruct H2 as [_ ->]; simpl in Ht; lia]. destruct H2 as (Hk0 & _ & H2). destruct Hl2 as [Hl2 _].
    unfold v_copy, v_new, new. unfold bind at 1. apply bind_ub. unfold on_throw, catch.
    set (m1 := Mem _ _ _ _).
    assert (blk m1 !! other = Some (VHdr (length xs) k (Some b))) as Hm1 by (cbn; rewrite lookup_insert_ne //; lia).
    rewrite (bind_ok _ _ _ _ _ (ev_cap _ _ _ _ _ Hm1)). unfold m1.
    rewrite (bind_ok _ _ _ _ _ (empty_reserve m k (corc m) _ Hw Ha Hk0 eq_refl)).
    set (this := nxt m) in *. set (nb := Pos.succ this) in *.
    set (h0 := <[this := VHdr 0 k (Some nb)]> (blk m)).
    assert (this ≠ nb) by lia.
    erewrite bind_ok; [|eapply ev_size; cbn; rewrite lookup_insert_ne; [rewrite lookup_insert_ne; [exact H1|lia]|lia]].
    erewrite bind_ok; [|eapply ev_set_size; cbn; rewrite lookup_insert_ne; [apply lookup_insert|done]].
    cbn [blk nxt aorc corc]. rewrite (insert_commute _ this nb) // /h0 insert_insert.
    set (h := <[this := VHdr (length xs) k (Some nb)]> (blk m)).
    assert (h !! this = Some (VHdr (length xs) k (Some nb))) as Hh1 by apply lookup_insert.
    assert (h !! other = Some (VHdr (length xs) k (Some b))) as Hh2 by (unfold h; rewrite lookup_insert_ne; [exact H1|lia]).
    assert (h !! b = Some (VArr (slots xs k))) as Hh3 by (unfold h; rewrite lookup_insert_ne; [exact H2|lia]).
    pose proof (fill_throw h nb (Pos.succ nb) (tail (aorc m)) k xs
      (λ i, p <- v_p this ;; q <- v_p other ;; v <- a_get q i ;; a_construct p i v) Hk) as E.
    specialize (E ltac:(
      intros i v els co Hv; cbv beta;
      erewrite bind_ok; [|eapply ev_p; cbn; rewrite lookup_insert_ne; [exact Hh1|done]];
      erewrite bind_ok; [|eapply ev_p; cbn; rewrite lookup_insert_ne; [exact Hh2|lia]];
      erewrite bind_ok; [reflexivity|]; erewrite ev_get; [|cbn; rewrite lookup_insert_ne; [exact Hh3|lia]];
      by rewrite (slots_live xs k i v Hv)) 0 (length xs) t rest ltac:(lia) Ht).
    rewrite /I_fill take_0 in E. rewrite Ho E. cbn [Nat.add].
    apply bind_ub. unfold v_dtor. apply bind_ub. unfold v_clear.
    erewrite bind_ok; [|eapply ev_p; cbn; rewrite lookup_insert_ne; [exact Hh1|done]].
    erewrite bind_ok; [|eapply ev_size; cbn; rewrite lookup_insert_ne; [exact Hh1|done]].
    apply bind_ub. eapply (ev_destroy_n_ub _ _ _ _ _ t); [lia|].
    change (map Some ?l ++ _) with (slots l k). apply slots_raw'; rewrite take_length; lia.
  Qed.
  Lemma count_throw m n t rest : mem_wf m → next_alloc_ok m → t < n → throws_at m t rest →
    v_count dflt n m = Exn CopyThrow (Mem (<[Pos.succ (nxt m) := filled (replicate t dflt) n]> (blk m))
      (Pos.succ (Pos.succ (nxt m))) (tail (aorc m)) rest).
  Proof.
    intros Hw Ha Ht Ho. unfold v_count, v_new, new. unfold bind at 1. apply bind_exn. unfold on_throw, catch.
    rewrite (bind_ok _ _ _ _ _ (empty_reserve m n (corc m) _ Hw Ha ltac:(lia) eq_refl)).
    set (this := nxt m) in *. set (nb := Pos.succ this) in *. assert (this ≠ nb) by lia.
    erewrite bind_ok; [|eapply ev_set_size; cbn; rewrite lookup_insert_ne; [apply lookup_insert|done]].
    cbn [blk nxt aorc corc]. rewrite (insert_commute _ this nb) // insert_insert.
    set (h := <[this := VHdr n n (Some nb)]> (blk m)).
    assert (h !! this = Some (VHdr n n (Some nb))) as Hh1 by apply lookup_insert.
    pose proof (fill_throw h nb (Pos.succ nb) (tail (aorc m)) n (replicate n dflt)
      (λ i, p <- v_p this ;; a_construct p i dflt) ltac:(rewrite replicate_length; lia)) as E.
    specialize (E ltac:(
      intros i v els co Hv; apply lookup_replicate in Hv as [-> _]; cbv beta;
      erewrite bind_ok; [reflexivity|]; eapply ev_p; cbn; rewrite lookup_insert_ne; [exact Hh1|done])
      0 n t rest ltac:(rewrite replicate_length; lia) Ht).
    rewrite /I_fill take_0 in E. rewrite Ho E. cbn [Nat.add]. rewrite take_replicate Nat.min_l; [|lia].
    erewrite bind_ok.
    2: { unfold free. cbn. rewrite lookup_insert_ne; [|done]. by rewrite Hh1. }
    unfold throw. cbn [blk nxt aorc corc]. do 2 f_equal.
    rewrite delete_insert_ne // /h delete_insert //.
    destruct (blk m !! this) eqn:E'; [|done]. exfalso. specialize (Hw this ltac:(by rewrite E')). unfold this in Hw. lia.
  Qed.

  (** ** resize *)
  Lemma resize_fill h this b nx ao k xs n t rest :
    this ≠ b → h !! this = Some (VHdr (length xs) k (Some b)) → length xs < n ≤ k → t < n - length xs →
    for_up (length xs) (n - length xs) (λ i, p <- v_p this ;; a_construct p i dflt)
      (Mem (<[b := filled xs k]> h) nx ao (replicate t false ++ true :: rest)) =
    Exn CopyThrow (Mem (<[b := filled (xs ++ replicate t dflt) k]> h) nx ao rest).
  Proof.
    intros Hne Hh Hn Ht. set (ys := xs ++ replicate (n - length xs) dflt).
    assert (length ys = n) as Hly by (unfold ys; rewrite app_length replicate_length; lia).
    assert (∀ i v, ys !! i = Some v → length xs ≤ i → v = dflt) as Hd.
    { unfold ys. intros i v Hv Hi. rewrite lookup_app_r // in Hv. by apply lookup_replicate in Hv as [-> _]. }
    set (I i := <[b := filled (take i ys) k]> h).
    assert (∀ i o, length xs ≤ i < length xs + (n - length xs) →
      (p <- v_p this ;; a_construct p i dflt) (Mem (I i) nx ao (false :: o)) = Ok tt (Mem (I (S i)) nx ao o) ∧
      (p <- v_p this ;; a_construct p i dflt) (Mem (I i) nx ao (true :: o)) = Exn CopyThrow (Mem (I i) nx ao o)) as Hs.
    { intros i o Hi. destruct (lookup_lt_is_Some_2 ys i) as [v Hv]; [lia|].
      assert (v = dflt) as -> by (eapply (Hd i v); [done|lia]).
      assert (∀ els co, (p <- v_p this ;; a_construct p i dflt) (Mem (<[b := VArr els]> h) nx ao co) =
        a_construct (Some b) i dflt (Mem (<[b := VArr els]> h) nx ao co)) as E.
      { intros els co. erewrite bind_ok; [reflexivity|]. eapply ev_p. cbn. by rewrite lookup_insert_ne. }
      unfold I. change (filled ?l k) with (VArr (slots l k)). rewrite !E.
      assert (slots (take i ys) k !! i = Some None) as HN by (apply slots_raw'; rewrite take_length; lia).
      rewrite !(ev_construct _ _ _ _ _ _ _ _ HN). split; [|done]. cbn [tail].
      rewrite slots_push'; [|rewrite take_length; lia..]. by rewrite -(take_S_r _ _ dflt). }
    assert (<[b := filled xs k]> h = I (length xs)) as -> by (unfold I, ys; by rewrite take_app).
    rewrite (loop_throw I); [|intros i o Hi; by apply Hs..|done]. do 2 f_equal. unfold I, ys.
    by rewrite take_add_app // take_replicate Nat.min_l; [|lia].
  Qed.
  Lemma holds_some m this xs k p : holds m this xs k p → 0 < k → ∃ b, p = Some b ∧ b ≠ this ∧ blk m !! b = Some (filled xs k).
  Proof.
    intros [H1 H2] Hk. destruct p as [b|]; [|lia]. destruct H2 as (_ & _ & H2). exists b. split; [done|]. split; [congruence|done].
  Qed.
  Lemma mem_eta_at m (b : loc) c co : blk m !! b = Some c → corc m = co → m = Mem (<[b := c]> (blk m)) (nxt m) (aorc m) co.
  Proof. intros H <-. destruct m. cbn in *. by rewrite insert_id. Qed.
  Lemma resize_fit m this xs k b n t rest : holds m this xs k (Some b) → length xs < n ≤ k → t < n - length xs →
    throws_at m t rest →
    v_resize dflt this n m = Exn CopyThrow (Mem (<[b := filled (xs ++ replicate t dflt) k]> (blk m)) (nxt m) (aorc m) rest).
  Proof.
    intros Hh Hn Ht Ho. pose proof Hh as [H1 (_ & _ & H2)]. unfold v_resize.
    rewrite (bind_ok _ _ _ _ _ (ev_size _ _ _ _ _ H1)). destruct (Nat.ltb_spec (length xs) n); [|lia].
    apply bind_exn. rewrite (bind_ok _ _ _ _ _ (reserve_fits _ _ _ _ _ n H1 ltac:(lia))).
    rewrite {1}(mem_eta_at m b _ _ H2 Ho). apply resize_fill; [congruence|done..].
  Qed.
  Lemma resize_lost m this xs k p n t rest : mem_wf m → holds m this xs k p → next_alloc_ok m → k < n → t < length xs →
    throws_at m t rest →
    v_resize dflt this n m =
      Exn CopyThrow (Mem (<[nxt m := filled (take t xs) n]> (blk m)) (Pos.succ (nxt m)) (tail (aorc m)) rest).
  Proof.
    intros Hw Hh Ha Hn Ht Ho. pose proof Hh as [H1 _]. pose proof (holds_len _ _ _ _ _ Hh). unfold v_resize.
    rewrite (bind_ok _ _ _ _ _ (ev_size _ _ _ _ _ H1)). destruct (Nat.ltb_spec (length xs) n); [|lia].
    apply bind_exn, bind_exn. by eapply reserve_throw.
  Qed.
  Lemma resize_grown m this xs k p n t rest : mem_wf m → holds m this xs k p → next_alloc_ok m → k < n →
    t < n - length xs → throws_at m (length xs + t) rest →
    v_resize dflt this n m =
      Exn CopyThrow (Mem (<[nxt m := filled (xs ++ replicate t dflt) n]> (regrown this xs n p (nxt m) (blk m)))
        (Pos.succ (nxt m)) (tail (aorc m)) rest).
  Proof.
    intros Hw Hh Ha Hn Ht Ho. pose proof Hh as [H1 _]. pose proof (holds_len _ _ _ _ _ Hh).
    destruct (holds_lt _ _ _ _ _ Hw Hh) as [Hl _]. unfold v_resize.
    rewrite (bind_ok _ _ _ _ _ (ev_size _ _ _ _ _ H1)). destruct (Nat.ltb_spec (length xs) n); [|lia].
    apply bind_exn. rewrite /throws_at replicate_add -assoc_L in Ho.
    rewrite (bind_ok _ _ _ _ _ (reserve_ok m this xs k p n _ Hw Hh Ha Hn Ho)).
    unfold regrown. rewrite (resize_fill _ this); [|lia|apply lookup_insert|lia|lia]. by rewrite insert_insert.
  Qed.

  (** ** erase *)
  Lemma shift_throw h this b nx ao n k (A B D : list V) t rest i1 i2 cnt :
    this ≠ b → h !! this = Some (VHdr n k (Some b)) → t < length D →
    i1 = length A → i2 = length A + length B → cnt = length D →
    v_shift this i1 i2 cnt (Mem (<[b := filled (A ++ B ++ D) k]> h) nx ao (replicate t false ++ true :: rest)) =
    Exn CopyThrow (Mem (<[b := filled (A ++ take t D ++ drop t (B ++ D)) k]> h) nx ao rest).
  Proof.
    intros Hne Hh. revert A B D i1 i2 cnt. induction t as [|t IH]; intros A B D i1 i2 cnt Ht -> -> ->;
      (destruct D as [|d D]; [simpl in Ht; lia|]); cbn [length v_shift].
    all: (erewrite bind_ok; [|eapply ev_p; cbn; rewrite lookup_insert_ne; [exact Hh|done]]).
    all: (erewrite bind_ok; [|erewrite ev_get; [|apply lookup_insert];
      change (map Some ?l ++ _) with (slots l k); rewrite (slots_live _ _ _ d); [reflexivity|];
      rewrite assoc_L lookup_app_r app_length // Nat.sub_diag //]).
    all: change (filled ?l k) with (VArr (slots l k)).
    all: assert (∃ c E, B ++ d :: D = c :: E) as (c & E & HE)
      by (destruct B as [|c B]; [by exists d, D|by exists c, (B ++ d :: D)]).
    all: assert (slots (A ++ B ++ d :: D) k !! length A = Some (Some c)) as Hs
      by (apply slots_live; rewrite HE lookup_app_r // Nat.sub_diag //).
    - cbn [replicate app]. apply bind_exn. rewrite (ev_assign _ _ _ _ _ _ _ _ _ Hs). done.
    - cbn [replicate app]. erewrite bind_ok; [|by rewrite (ev_assign _ _ _ _ _ _ _ _ _ Hs)]. cbn [tail].
      rewrite slots_set; [|rewrite !app_length /=; lia].
      rewrite HE insert_app_r_alt // Nat.sub_diag /=.
      destruct B as [|c' B]; injection HE as <- <-.
      + change (VArr (slots ?l k)) with (filled l k). specialize (IH (A ++ [d]) [] D (S (length A)) (S (length A + 0)) (length D)).
        rewrite /= -!assoc_L /= in IH. apply IH; rewrite ?app_length /=; simpl in Ht; lia.
      + change (VArr (slots ?l k)) with (filled l k).
        specialize (IH (A ++ [d]) (B ++ [d]) D (S (length A)) (S (length A + length (c' :: B))) (length D)).
        rewrite /= -!assoc_L /= in IH. apply IH; rewrite ?app_length /=; simpl in Ht; lia.
  Qed.
  Lemma erase_throw m this xs k b i j t rest : holds m this xs k (Some b) → i ≤ j ≤ length xs → t < length xs - j →
    throws_at m t rest →
    v_erase this i j m =
      Exn CopyThrow (Mem (<[b := filled (take i xs ++ take t (drop j xs) ++ drop (i + t) xs) k]> (blk m)) (nxt m) (aorc m) rest).
  Proof.
    intros Hh Hij Ht Ho. pose proof Hh as [H1 (_ & _ & H2)]. unfold v_erase.
    rewrite (bind_ok _ _ _ _ _ (ev_size _ _ _ _ _ H1)). rewrite decide_True //. apply bind_exn.
    rewrite {1}(mem_eta_at m b _ _ H2 Ho).
    assert (xs = take i xs ++ (take (j - i) (drop i xs)) ++ drop j xs) as E.
    { rewrite -{1}(take_drop i xs) -{1}(take_drop (j - i) (drop i xs)) drop_drop. repeat f_equal. lia. }
    change (VArr (map Some ?l ++ replicate (k - length ?l) None)) with (filled l k).
    rewrite {2}E. rewrite (shift_throw (blk m) this b (nxt m) (aorc m) (length xs) k _ _ _ t rest); first last.
    - rewrite drop_length. done.
    - rewrite !take_length drop_length. lia.
    - rewrite take_length. lia.
    - rewrite drop_length. lia.
    - done.
    - congruence.
    - assert (drop t (take (j - i) (drop i xs) ++ drop j xs) = drop (i + t) xs) as ->; [|done].
      rewrite -drop_drop. f_equal. rewrite -{2}(take_drop (j - i) (drop i xs)) drop_drop. do 2 f_equal. lia.
  Qed.
  Lemma erase_holds m this xs k b i j t : holds m this xs k (Some b) → i ≤ j ≤ length xs → t < length xs - j →
    ∀ m', blk m' = <[b := filled (take i xs ++ take t (drop j xs) ++ drop (i + t) xs) k]> (blk m) →
    holds m' this (take i xs ++ take t (drop j xs) ++ drop (i + t) xs) k (Some b).
  Proof.
    intros [H1 (Hk & Hl & H2)] Hij Ht m' E. assert (b ≠ this) by congruence.
    assert (length (take i xs ++ take t (drop j xs) ++ drop (i + t) xs) = length xs) as El.
    { rewrite !app_length !take_length !drop_length. lia. }
    unfold holds. rewrite El E. split; [by rewrite lookup_insert_ne|]. split; [done|]. split; [done|].
    by rewrite lookup_insert /filled El.
  Qed.

  (** ** copy assignment *)
  Definition assign_rest (this other : loc) : M (vcell V) unit :=
    no <- v_size other ;; n <- v_size this ;;
    let asg i := (p <- v_p this ;; q <- v_p other ;; v <- a_get q i ;; a_assign p i v) in
    let con i := (p <- v_p this ;; q <- v_p other ;; v <- a_get q i ;; a_construct p i v) in
    (if n <=? no then
       for_up 0 n asg ;;; for_up n (no - n) con
     else
       for_up 0 no asg ;;; (p <- v_p this ;; destroy_n p no (n - no))) ;;;
    no <- v_size other ;; set_size this no.
  Section assign.
    Context (h : gmap loc (vcell V)) (this other b q nx : loc) (ao : list bool) (K k' : nat) (xs ys : list V).
    Context (H1 : h !! this = Some (VHdr (length xs) K (Some b))) (H2 : h !! other = Some (VHdr (length ys) k' (Some q)))
      (H3 : h !! q = Some (filled ys k')) (N1 : this ≠ b) (N2 : other ≠ b) (N3 : q ≠ b) (L2 : length ys ≤ K).
    Lemma src_ev {B} (k : ptr → V → M (vcell V) B) i y els co : ys !! i = Some y →
      let m := Mem (<[b := VArr els]> h) nx ao co in
      (p <- v_p this ;; q <- v_p other ;; v <- a_get q i ;; k p v) m = k (Some b) y m.
    Proof using H1 H2 H3 N1 N2 N3 L2.
      intros Hy m.
      erewrite bind_ok; [|eapply ev_p; cbn; rewrite lookup_insert_ne; [exact H1|done]].
      erewrite bind_ok; [|eapply ev_p; cbn; rewrite lookup_insert_ne; [exact H2|done]].
      erewrite bind_ok; [reflexivity|]. erewrite ev_get; [|cbn; rewrite lookup_insert_ne; [exact H3|done]].
      by rewrite (slots_live ys k' i y Hy).
    Qed.
    Definition I_asg (i : nat) := <[b := filled (take i ys ++ drop i xs) K]> h.
    Lemma asg_step i o : i < length xs → i < length ys →
      let body i := (p <- v_p this ;; q <- v_p other ;; v <- a_get q i ;; a_assign p i v) in
      body i (Mem (I_asg i) nx ao (false :: o)) = Ok tt (Mem (I_asg (S i)) nx ao o) ∧
      body i (Mem (I_asg i) nx ao (true :: o)) = Exn CopyThrow (Mem (I_asg i) nx ao o).
    Proof using H1 H2 H3 N1 N2 N3 L2.
      intros Hx Hy body. destruct (lookup_lt_is_Some_2 ys i Hy) as [y Ey]. destruct (lookup_lt_is_Some_2 xs i Hx) as [x Ex].
      unfold I_asg, body. change (filled ?l K) with (VArr (slots l K)).
      rewrite !(src_ev (λ p v, a_assign p i v) i y _ _ Ey).
      assert (length (take i ys) = i) as Hl by (rewrite take_length; lia).
      assert (slots (take i ys ++ drop i xs) K !! i = Some (Some x)) as Hs.
      { apply slots_live. rewrite lookup_app_r Hl // Nat.sub_diag lookup_drop Nat.add_0_r //. }
      rewrite !(ev_assign _ _ _ _ _ _ _ _ _ Hs). split; [|done]. cbn [tail]. do 4 f_equal.
      rewrite slots_set; [|rewrite app_length Hl drop_length; lia]. f_equal.
      rewrite insert_app_r_alt Hl // Nat.sub_diag (drop_S _ _ _ Ex) /= (take_S_r _ _ _ Ey) -assoc_L //.
    Qed.
    Lemma assign_rest_throw t rest : t < length ys → t < length xs →
      assign_rest this other (Mem (<[b := filled xs K]> h) nx ao (replicate t false ++ true :: rest)) =
      Exn CopyThrow (Mem (<[b := filled (take t ys ++ drop t xs) K]> h) nx ao rest).
    Proof using H1 H2 H3 N1 N2 N3 L2.
      intros Ht Hx. unfold assign_rest.
      erewrite bind_ok; [|eapply ev_size; cbn; rewrite lookup_insert_ne; [exact H2|done]].
      erewrite bind_ok; [|eapply ev_size; cbn; rewrite lookup_insert_ne; [exact H1|done]].
      cbv zeta. apply bind_exn.
      assert (<[b := filled xs K]> h = I_asg 0) as -> by (unfold I_asg; by rewrite take_0 drop_0).
      destruct (Nat.leb_spec (length xs) (length ys)); apply bind_exn;
        (rewrite (loop_throw I_asg); [done| | |lia]); intros i o Hi; apply asg_step; lia.
    Qed.
    Lemma assign_rest_throw' t rest : length xs ≤ t < length ys →
      assign_rest this other (Mem (<[b := filled xs K]> h) nx ao (replicate t false ++ true :: rest)) =
      Exn CopyThrow (Mem (<[b := filled (take t ys) K]> h) nx ao rest).
    Proof using H1 H2 H3 N1 N2 N3 L2.
      intros Ht. unfold assign_rest.
      erewrite bind_ok; [|eapply ev_size; cbn; rewrite lookup_insert_ne; [exact H2|done]].
      erewrite bind_ok; [|eapply ev_size; cbn; rewrite lookup_insert_ne; [exact H1|done]].
      cbv zeta. apply bind_exn. destruct (Nat.leb_spec (length xs) (length ys)); [|lia].
      assert (<[b := filled xs K]> h = I_asg 0) as -> by (unfold I_asg; by rewrite take_0 drop_0).
      replace t with (length xs + (t - length xs)) at 1 by lia. rewrite replicate_add -assoc_L.
      erewrite bind_ok; [|apply (loop_ok I_asg); intros i o Hi; apply asg_step; lia]. cbn [Nat.add].
      assert (I_asg (length xs) = I_fill h b K ys (length xs)) as -> by (unfold I_asg, I_fill; by rewrite drop_all app_nil_r).
      rewrite (fill_throw h b nx ao K ys); [|done| |lia|lia].
      - do 2 f_equal. unfold I_fill. do 3 f_equal. lia.
      - intros i v els co Hv. apply (src_ev (λ p v, a_construct p i v) i v els co Hv).
    Qed.
  End assign.
  Lemma assign_eq m this other n k q : blk m !! other = Some (VHdr n k q) →
    v_assign this other m = (v_reserve this k ;;; assign_rest this other) m.
  Proof. intros H. unfold v_assign. by rewrite (bind_ok _ _ _ _ _ (ev_cap _ _ _ _ _ H)). Qed.
  Lemma apart_ne this other p q : apart this other p q →
    this ≠ other ∧ (∀ b, p = Some b → b ≠ other) ∧ (∀ b, q = Some b → b ≠ this ∧ p ≠ Some b).
  Proof.
    intros Ha. split_and!.
    - intros ->. apply (Ha other); [destruct p|destruct q]; set_solver.
    - intros b -> ->. apply (Ha other); [|destruct q]; set_solver.
    - intros b ->. split; [intros ->|intros ->]; [apply (Ha this)|apply (Ha b)]; first [destruct p|idtac]; set_solver.
  Qed.
  Lemma assign_fit m this other xs ys k k' b q t rest :
    holds m this xs k (Some b) → holds m other ys k' q → apart this other (Some b) q → k' ≤ k → t < length ys → throws_at m t rest →
    v_assign this other m =
      Exn CopyThrow (Mem (<[b := filled (take t ys ++ drop t xs) k]> (blk m)) (nxt m) (aorc m) rest).
  Proof.
    intros Hh Hg Ha Hk Ht Ho. destruct (apart_ne _ _ _ _ Ha) as (A1 & A2 & A3).
    pose proof (holds_len _ _ _ _ _ Hg). destruct (holds_some _ _ _ _ _ Hg) as (c & -> & _ & G3); [lia|].
    destruct Hh as [H1 (_ & Hl & H2)]. destruct Hg as [G1 _].
    rewrite (assign_eq _ _ _ _ _ _ G1) (bind_ok _ _ _ _ _ (reserve_fits _ _ _ _ _ k' H1 Hk)).
    rewrite {1}(mem_eta_at m b _ _ H2 Ho). change (VArr (map Some ?l ++ replicate (k - length ?l) None)) with (filled l k).
    assert (this ≠ b) by congruence. assert (other ≠ b) by (intros ->; by apply (A2 b)).
    assert (c ≠ b) by (intros ->; by apply (A3 b)).
    destruct (decide (length xs ≤ t)).
    - rewrite (drop_ge xs) // app_nil_r. by eapply assign_rest_throw'; eauto; lia.
    - eapply assign_rest_throw; eauto; lia.
  Qed.
  Lemma assign_lost m this other xs ys k k' p q t rest :
    mem_wf m → holds m this xs k p → holds m other ys k' q → next_alloc_ok m → k < k' → t < length xs → throws_at m t rest →
    v_assign this other m =
      Exn CopyThrow (Mem (<[nxt m := filled (take t xs) k']> (blk m)) (Pos.succ (nxt m)) (tail (aorc m)) rest).
  Proof.
    intros Hw Hh [G1 _] Ha Hk Ht Ho. rewrite (assign_eq _ _ _ _ _ _ G1). apply bind_exn. by eapply reserve_throw.
  Qed.
  Lemma assign_grown m this other xs ys k k' p q t rest :
    mem_wf m → holds m this xs k p → holds m other ys k' q → apart this other p q → next_alloc_ok m → k < k' → t < length ys →
    throws_at m (length xs + t) rest →
    v_assign this other m =
      Exn CopyThrow (Mem (<[nxt m := filled (take t ys ++ drop t xs) k']> (regrown this xs k' p (nxt m) (blk m)))
        (Pos.succ (nxt m)) (tail (aorc m)) rest).
  Proof.
    intros Hw Hh Hg Ha Hal Hk Ht Ho. destruct (apart_ne _ _ _ _ Ha) as (A1 & A2 & A3).
    pose proof (holds_len _ _ _ _ _ Hg). destruct (holds_lt _ _ _ _ _ Hw Hh) as [L1 L2].
    destruct (holds_lt _ _ _ _ _ Hw Hg) as [L3 L4].
    destruct (holds_some _ _ _ _ _ Hg) as (c & -> & _ & G3); [lia|]. destruct Hg as [G1 _]. destruct L4 as [L4 L5].
    rewrite (assign_eq _ _ _ _ _ _ G1). rewrite /throws_at replicate_add -assoc_L in Ho.
    rewrite (bind_ok _ _ _ _ _ (reserve_ok m this xs k p k' _ Hw Hh Hal Hk Ho)).
    unfold regrown. rewrite insert_insert. set (h := <[this := _]> _).
    assert (h !! this = Some (VHdr (length xs) k' (Some (nxt m)))) as E1 by apply lookup_insert.
    assert (∀ l, l ≠ this → p ≠ Some l → h !! l = blk m !! l) as E.
    { intros l Hl Hp. unfold h. rewrite lookup_insert_ne //. destruct p as [b|]; [|done]. cbn [drop_data].
      rewrite lookup_delete_ne //. congruence. }
    assert (h !! other = Some (VHdr (length ys) k' (Some c))) as E2.
    { rewrite E //. intros ->. by eapply A2. }
    assert (h !! c = Some (filled ys k')) as E3.
    { destruct (A3 c eq_refl). rewrite E //. }
    destruct (decide (length xs ≤ t)).
    - rewrite (drop_ge xs) // app_nil_r. eapply assign_rest_throw'; eauto; lia.
    - eapply assign_rest_throw; eauto; lia.
  Qed.

  (** ** A vector with more elements than it counts *)
  Lemma surplus_read m this n ys k b i : v_surplus m this n ys k b → i < n →
    ∃ y, ys !! i = Some y ∧ (r <- v_index this i ;; v_read r) m = Ok y m.
  Proof.
    intros (H1 & H2 & H3) Hi. destruct (lookup_lt_is_Some_2 ys i) as [y Hy]; [lia|]. exists y. split; [done|].
    unfold v_index, v_read. erewrite bind_ok; [|by rewrite (bind_ok _ _ _ _ _ (ev_p _ _ _ _ _ H1))]. cbn [fst snd].
    rewrite (ev_get _ _ _ _ H3). by rewrite (slots_live ys k i y Hy).
  Qed.
  Lemma surplus_clear m this n ys k b : v_surplus m this n ys k b →
    v_clear this m = Ok tt (Mem (<[this := VHdr 0 k (Some b)]>
      (<[b := VArr (replicate n None ++ map Some (drop n ys) ++ replicate (k - length ys) None)]> (blk m))) (nxt m) (aorc m) (corc m)).
  Proof.
    intros (H1 & H2 & H3). assert (this ≠ b) by (unfold filled in *; congruence). unfold v_clear.
    rewrite (bind_ok _ _ _ _ _ (ev_p _ _ _ _ _ H1)) (bind_ok _ _ _ _ _ (ev_size _ _ _ _ _ H1)).
    set (I i := <[b := VArr (replicate i None ++ map Some (drop i ys) ++ replicate (k - length ys) None)]> (blk m)).
    assert (m = Mem (I 0) (nxt m) (aorc m) (corc m)) as E by (unfold I; rewrite drop_0; by apply mem_eta_at).
    assert (destroy_n (Some b) 0 n m = Ok tt (Mem (I n) (nxt m) (aorc m) (corc m))) as ED.
    { rewrite {1}E. unfold destroy_n. rewrite (loop_plain I); [done|].
      intros i Hi. unfold I. destruct (lookup_lt_is_Some_2 ys i) as [v Hv]; [lia|].
      rewrite (drop_S _ _ _ Hv) /=. rewrite ev_destroy. rewrite lookup_app_r replicate_length // Nat.sub_diag /=.
      rewrite insert_app_r_alt replicate_length // Nat.sub_diag /=.
      do 4 f_equal. change (None :: ?l) with ([None] ++ l). rewrite assoc_L -replicate_S_end. done. }
    rewrite (bind_ok _ _ _ _ _ ED). erewrite ev_set_size; [done|]. cbn. unfold I. rewrite lookup_insert_ne; [exact H1|done].
  Qed.

  (** ** Statements about the memory left behind *)
  Lemma threw_eq {A} (r : res (vcell V) A) h nx ao rest : r = Exn CopyThrow (Mem h nx ao rest) → threw r h rest.
  Proof. intros ->. by eexists. Qed.
  Lemma t_reserve m this xs k p n t rest : mem_wf m → holds m this xs k p → next_alloc_ok m →
    k < n → t < length xs → throws_at m t rest →
    threw (v_reserve this n m) (<[nxt m := filled (take t xs) n]> (blk m)) rest.
  Proof. intros. eapply threw_eq. by eapply reserve_throw. Qed.
  Lemma t_push_room m this xs k b v rest : holds m this xs k (Some b) → length xs < k → throws_at m 0 rest →
    ∃ m', v_push_back this (RVal v) m = Exn CopyThrow m' ∧ corc m' = rest ∧
      blk m' = <[this := VHdr (S (length xs)) k (Some b)]> (blk m) ∧ v_torn m' this xs k b.
  Proof.
    intros H1 H2 H3. eexists. split; [by eapply push_fit|]. split; [done|]. split; [done|]. by eapply push_fit_torn.
  Qed.
  Lemma t_push_lost m this xs k p v t rest : mem_wf m → holds m this xs k p → length xs = k → next_alloc_ok m →
    t < k → throws_at m t rest →
    threw (v_push_back this (RVal v) m) (<[nxt m := filled (take t xs) (2 * k)]> (blk m)) rest.
  Proof. intros. eapply threw_eq. by eapply push_lost. Qed.
  Lemma t_push_grown m this xs k p v rest : mem_wf m → holds m this xs k p → length xs = k → next_alloc_ok m →
    throws_at m k rest →
    ∃ m', v_push_back this (RVal v) m = Exn CopyThrow m' ∧ corc m' = rest ∧
      blk m' = <[this := VHdr (S k) (next_cap k) (Some (nxt m))]> (regrown this xs (next_cap k) p (nxt m) (blk m)) ∧
      v_torn m' this xs (next_cap k) (nxt m).
  Proof.
    intros H1 H2 H3 H4 H5. eexists. split; [by eapply push_grown|]. split; [done|]. split; [done|]. by eapply push_grown_torn.
  Qed.
  Lemma t_count m n t rest : mem_wf m → next_alloc_ok m → t < n → throws_at m t rest →
    threw (v_count dflt n m) (<[Pos.succ (nxt m) := filled (replicate t dflt) n]> (blk m)) rest.
  Proof. intros. eapply threw_eq. by eapply count_throw. Qed.
  Lemma t_resize_room m this xs k b n t rest : holds m this xs k (Some b) → length xs < n ≤ k → t < n - length xs →
    throws_at m t rest →
    ∃ m', v_resize dflt this n m = Exn CopyThrow m' ∧ corc m' = rest ∧
      blk m' = <[b := filled (xs ++ replicate t dflt) k]> (blk m) ∧
      v_surplus m' this (length xs) (xs ++ replicate t dflt) k b.
  Proof.
    intros Hh Hn Ht Ho. eexists. split; [by eapply resize_fit|]. split; [done|]. split; [done|].
    destruct Hh as [H1 (_ & _ & H2)]. assert (b ≠ this) by congruence.
    split; [cbn; by rewrite lookup_insert_ne|]. split; [rewrite app_length replicate_length; lia|apply lookup_insert].
  Qed.
  Lemma t_resize_lost m this xs k p n t rest : mem_wf m → holds m this xs k p → next_alloc_ok m → k < n → t < length xs →
    throws_at m t rest →
    threw (v_resize dflt this n m) (<[nxt m := filled (take t xs) n]> (blk m)) rest.
  Proof. intros. eapply threw_eq. by eapply resize_lost. Qed.
  Lemma t_resize_grown m this xs k p n t rest : mem_wf m → holds m this xs k p → next_alloc_ok m → k < n →
    t < n - length xs → throws_at m (length xs + t) rest →
    ∃ m', v_resize dflt this n m = Exn CopyThrow m' ∧ corc m' = rest ∧
      blk m' = <[nxt m := filled (xs ++ replicate t dflt) n]> (regrown this xs n p (nxt m) (blk m)) ∧
      v_surplus m' this (length xs) (xs ++ replicate t dflt) n (nxt m).
  Proof.
    intros Hw Hh Ha Hn Ht Ho. eexists. split; [by eapply resize_grown|]. split; [done|]. split; [done|].
    destruct (holds_lt _ _ _ _ _ Hw Hh) as [Hl _]. pose proof (holds_len _ _ _ _ _ Hh).
    split; [cbn; rewrite lookup_insert_ne; [apply regrown_hdr|]; lia|].
    split; [rewrite app_length replicate_length; lia|apply lookup_insert].
  Qed.
  Lemma t_erase m this xs k b i j t rest : holds m this xs k (Some b) → i ≤ j ≤ length xs → t < length xs - j →
    throws_at m t rest →
    ∃ m', v_erase this i j m = Exn CopyThrow m' ∧ corc m' = rest ∧
      blk m' = <[b := filled (take i xs ++ take t (drop j xs) ++ drop (i + t) xs) k]> (blk m) ∧
      holds m' this (take i xs ++ take t (drop j xs) ++ drop (i + t) xs) k (Some b).
  Proof.
    intros H1 H2 H3 H4. eexists. split; [by eapply erase_throw|]. split; [done|]. split; [done|]. by eapply erase_holds.
  Qed.
  (** what an interrupted assignment leaves: a whole vector while old elements
      are being assigned, surplus elements afterwards *)
  Lemma assigned m' this xs ys K b t :
    this ≠ b → 0 < K → length xs ≤ K → length ys ≤ K → t < length ys → blk m' !! this = Some (VHdr (length xs) K (Some b)) →
    blk m' !! b = Some (filled (take t ys ++ drop t xs) K) →
    if decide (t < length xs) then holds m' this (take t ys ++ drop t xs) K (Some b)
    else v_surplus m' this (length xs) (take t ys) K b.
  Proof.
    intros Hne HK Hx Hy Ht H1 H2. case_decide.
    - assert (length (take t ys ++ drop t xs) = length xs) as El by (rewrite app_length take_length drop_length; lia).
      unfold holds. rewrite El. split; [done|]. split; [done|]. split; [done|]. by rewrite H2 /filled El.
    - rewrite (drop_ge xs) in H2; [|lia]. rewrite app_nil_r in H2. split; [done|]. split; [rewrite take_length; lia|done].
  Qed.
  Lemma t_assign_room m this other xs ys k k' b q t rest :
    holds m this xs k (Some b) → holds m other ys k' q → apart this other (Some b) q → k' ≤ k → t < length ys → throws_at m t rest →
    ∃ m', v_assign this other m = Exn CopyThrow m' ∧ corc m' = rest ∧
      blk m' = <[b := filled (take t ys ++ drop t xs) k]> (blk m) ∧
      if decide (t < length xs) then holds m' this (take t ys ++ drop t xs) k (Some b)
      else v_surplus m' this (length xs) (take t ys) k b.
  Proof.
    intros H1 H2 H3 H4 H5 H6. eexists. split; [by eapply assign_fit|]. split; [done|]. split; [done|].
    pose proof (holds_len _ _ _ _ _ H2). destruct H1 as [E1 (Hk & Hl & E2)]. assert (this ≠ b) by congruence.
    apply assigned; [done|done|done|lia|done| |apply lookup_insert]. cbn. by rewrite lookup_insert_ne.
  Qed.
  Lemma t_assign_lost m this other xs ys k k' p q t rest :
    mem_wf m → holds m this xs k p → holds m other ys k' q → next_alloc_ok m → k < k' → t < length xs → throws_at m t rest →
    threw (v_assign this other m) (<[nxt m := filled (take t xs) k']> (blk m)) rest.
  Proof. intros. eapply threw_eq. by eapply assign_lost. Qed.
  Lemma t_assign_grown m this other xs ys k k' p q t rest :
    mem_wf m → holds m this xs k p → holds m other ys k' q → apart this other p q → next_alloc_ok m → k < k' → t < length ys →
    throws_at m (length xs + t) rest →
    ∃ m', v_assign this other m = Exn CopyThrow m' ∧ corc m' = rest ∧
      blk m' = <[nxt m := filled (take t ys ++ drop t xs) k']> (regrown this xs k' p (nxt m) (blk m)) ∧
      if decide (t < length xs) then holds m' this (take t ys ++ drop t xs) k' (Some (nxt m))
      else v_surplus m' this (length xs) (take t ys) k' (nxt m).
  Proof.
    intros H1 H2 H3 H4 H5 H6 H7 H8. eexists. split; [by eapply assign_grown|]. split; [done|]. split; [done|].
    pose proof (holds_len _ _ _ _ _ H3). pose proof (holds_len _ _ _ _ _ H2). destruct (holds_lt _ _ _ _ _ H1 H2) as [Hl _].
    apply assigned; [lia..| |apply lookup_insert]. cbn. rewrite lookup_insert_ne; [apply regrown_hdr|]; lia.
  Qed.
End ev.
