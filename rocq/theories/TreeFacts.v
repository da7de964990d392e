(** Facts about binary trees: order, balance, insertion. *)
From iris.prelude Require Import prelude.
From Verif Require Import Hist ModelTree SpecTree.

Global Arguments equiv_key : simpl never.

Section lists.
  Context {A : Type}.
  Implicit Types (f : A → bool) (xs ys : list A).
  Lemma find_app f xs ys :
    List.find f (xs ++ ys) = match List.find f xs with Some x => Some x | None => List.find f ys end.
  Proof. induction xs as [|x xs IH]; simpl; [done|]. by destruct (f x). Qed.
  Lemma find_none f xs : Forall (λ x, f x = false) xs → List.find f xs = None.
  Proof. induction 1 as [|x xs Hx _ IH]; simpl; [done|]. by rewrite Hx. Qed.
  Lemma filter_all f xs : Forall (λ x, f x = true) xs → List.filter f xs = xs.
  Proof. induction 1 as [|x xs Hx _ IH]; simpl; [done|]. by rewrite Hx IH. Qed.
  Lemma filter_none f xs : Forall (λ x, f x = false) xs → List.filter f xs = [].
  Proof. induction 1 as [|x xs Hx _ IH]; simpl; [done|]. by rewrite Hx. Qed.
End lists.

Section order.
  Context {X K : Type} (key : X → K) (comp : K → K → bool) (Hsw : strict_weak comp).
  Implicit Types (t l r : tree X) (xs ys : list X) (k : K).
  Notation increasing := (increasing key comp).
  Notation before := (before key comp).
  Notation lookup_key := (lookup_key key comp).

  Lemma sw_cotrans a b c : comp a c = true → comp a b = true ∨ comp b c = true.
  Proof.
    clear key. intros Hac. destruct (comp a b) eqn:Hab; [by left|]. destruct (comp b c) eqn:Hbc; [by right|].
    destruct (comp b a) eqn:Hba.
    { rewrite (sw_trans _ Hsw b a c) // in Hbc. }
    destruct (comp c b) eqn:Hcb.
    { rewrite (sw_trans _ Hsw a c b) // in Hab. }
    destruct (sw_equiv _ Hsw a b c Hab Hba Hbc Hcb). congruence.
  Qed.
  Lemma sw_asym a b : comp a b = true → comp b a = false.
  Proof.
    intros H. destruct (comp b a) eqn:E; [|done]. pose proof (sw_trans _ Hsw _ _ _ H E).
    by rewrite (sw_irrefl _ Hsw) in H0.
  Qed.
  Lemma equiv_key_true a b : equiv_key comp a b = true ↔ comp a b = false ∧ comp b a = false.
  Proof. unfold equiv_key. destruct (comp a b), (comp b a); naive_solver. Qed.
  Lemma equiv_key_false a b : equiv_key comp a b = false ↔ comp a b = true ∨ comp b a = true.
  Proof. unfold equiv_key. destruct (comp a b), (comp b a); naive_solver. Qed.

  Lemma increasing_app xs ys :
    increasing (xs ++ ys) ↔
    increasing xs ∧ increasing ys ∧ Forall (λ x, Forall (before x) ys) xs.
  Proof.
    clear Hsw. induction xs as [|x xs IH]; simpl.
    - split; [|naive_solver]. intros. repeat split; [constructor|done|constructor].
    - split.
      + intros [H1 H2]%StronglySorted_inv. apply IH in H1 as (H1 & H3 & H4).
        apply Forall_app in H2 as [H2 H5]. repeat split; [by constructor|done|by constructor].
      + intros ([H1 H2]%StronglySorted_inv & H3 & [H4 H5]%Forall_cons).
        constructor; [by apply IH|]. by apply Forall_app.
  Qed.
  Lemma increasing_mid xs x ys :
    increasing (xs ++ x :: ys) ↔
    increasing xs ∧ increasing ys ∧ Forall (λ y, before y x) xs ∧ Forall (before x) ys.
  Proof.
    rewrite increasing_app. split.
    - intros (H1 & [H2 H3]%StronglySorted_inv & H4). repeat split; [done..| |done].
      eapply Forall_impl; [exact H4|]. by intros y [? _]%Forall_cons.
    - intros (H1 & H2 & H3 & H4). repeat split; [done|by constructor|].
      eapply Forall_impl; [exact H3|]. intros y Hy. constructor; [done|].
      eapply Forall_impl; [exact H4|]. intros z Hz. unfold SpecTree.before in *. unfold SpecTree.before in *; eapply (sw_trans _ Hsw); eassumption.
  Qed.

  (** ** Lookup *)
  Lemma not_equiv_r k x : comp k (key x) = true → equiv_key comp k (key x) = false.
  Proof. intros. apply equiv_key_false. by left. Qed.
  Lemma not_equiv_l k x : comp (key x) k = true → equiv_key comp k (key x) = false.
  Proof. intros. apply equiv_key_false. by right. Qed.

  Lemma lookup_key_lt k xs x ys :
    increasing (xs ++ x :: ys) → comp k (key x) = true →
    lookup_key k (xs ++ x :: ys) = lookup_key k xs.
  Proof.
    intros (_ & _ & _ & H)%increasing_mid Hk. unfold SpecTree.lookup_key. rewrite find_app.
    destruct (List.find _ xs); [done|]. apply find_none. constructor; [by apply not_equiv_r|].
    eapply Forall_impl; [exact H|]. intros y Hy. apply not_equiv_r. unfold SpecTree.before in *; eapply (sw_trans _ Hsw); eassumption.
  Qed.
  Lemma lookup_key_gt k xs x ys :
    increasing (xs ++ x :: ys) → comp (key x) k = true →
    lookup_key k (xs ++ x :: ys) = lookup_key k ys.
  Proof.
    intros (_ & _ & H & _)%increasing_mid Hk. unfold SpecTree.lookup_key.
    rewrite find_app (find_none _ xs); [by rewrite /= not_equiv_l|].
    eapply Forall_impl; [exact H|]. intros y Hy. apply not_equiv_l. unfold SpecTree.before in *; eapply (sw_trans _ Hsw); eassumption.
  Qed.
  Lemma lookup_key_eq k xs x ys :
    increasing (xs ++ x :: ys) → comp k (key x) = false → comp (key x) k = false →
    lookup_key k (xs ++ x :: ys) = Some x.
  Proof.
    intros (_ & _ & H & _)%increasing_mid H1 H2. unfold SpecTree.lookup_key.
    rewrite find_app (find_none _ xs) /=.
    - by rewrite (proj2 (equiv_key_true _ _)).
    - eapply Forall_impl; [exact H|]. intros y Hy. apply not_equiv_l.
      destruct (sw_cotrans _ k _ Hy); [done|congruence].
  Qed.

  (** ** Search *)
  Fixpoint search k t : option (loc * X) :=
    match t with
    | E => None
    | T n x _ l r =>
        if comp k (key x) then search k l
        else if comp (key x) k then search k r else Some (n, x)
    end.
  Lemma search_lookup k t :
    increasing (nodes t).*2 → snd <$> search k t = lookup_key k (nodes t).*2.
  Proof.
    induction t as [|n x c l IHl r IHr]; simpl; [done|]. rewrite fmap_app fmap_cons /=. intros Hi.
    pose proof Hi as (H1 & H2 & _)%increasing_mid.
    destruct (comp k (key x)) eqn:E1; [by rewrite lookup_key_lt // IHl|].
    destruct (comp (key x) k) eqn:E2; [by rewrite lookup_key_gt // IHr|].
    by rewrite lookup_key_eq.
  Qed.
  Lemma search_in k t n x :
    search k t = Some (n, x) → (n, x) ∈ nodes t ∧ equiv_key comp k (key x) = true.
  Proof.
    clear Hsw. induction t as [|m y c l IHl r IHr]; simpl; [done|].
    destruct (comp k (key y)) eqn:E1; [intros [? ?]%IHl; split; [set_solver|done]|].
    destruct (comp (key y) k) eqn:E2; [intros [? ?]%IHr; split; [set_solver|done]|].
    intros [= -> ->]. split; [set_solver|]. by apply equiv_key_true.
  Qed.

  (** ** Insertion *)
  Definition bal t : tree X :=
    match t with
    | T n x Black l r =>
        match l with
        | T ln lx Red (T an ax Red a b) d => T ln lx Red (T an ax Black a b) (T n x Black d r)
        | T ln lx Red a (T bn bx Red b d) => T bn bx Red (T ln lx Black a b) (T n x Black d r)
        | _ =>
          match r with
          | T rn rx Red (T bn bx Red b d) e => T bn bx Red (T n x Black l b) (T rn rx Black d e)
          | T rn rx Red b (T dn dx Red d e) => T rn rx Red (T n x Black l b) (T dn dx Black d e)
          | _ => T n x Black l r
          end
        end
    | _ => t
    end.
  Fixpoint ins_t (n : loc) (v : X) t : tree X :=
    match t with
    | E => T n v Red E E
    | T m x c l r =>
        if comp (key v) (key x) then bal (T m x c (ins_t n v l) r)
        else if comp (key x) (key v) then bal (T m x c l (ins_t n v r))
        else t
    end.
  Definition paint_black t : tree X :=
    match t with E => E | T n x _ l r => T n x Black l r end.

  Ltac dt t := destruct t as [|? ? [] ? ?].
  Lemma bal_nodes t : nodes (bal t) = nodes t.
  Proof.
    clear Hsw. destruct t as [|n x [] l r]; [done..|].
    destruct l as [|ln lx [] [|an ax [] a b] [|bn bx [] b' d]];
      try (simpl; repeat rewrite -?app_assoc /=; done);
    destruct r as [|rn rx [] [|bn' bx' [] b'' d'] [|dn dx [] d'' e]];
      simpl; repeat rewrite -?app_assoc /=; done.
  Qed.
  Lemma paint_nodes t : nodes (paint_black t) = nodes t.
  Proof. by destruct t. Qed.
  Lemma bal_root t : t ≠ E → bal t ≠ E.
  Proof.
    clear Hsw. destruct t as [|n x [] l r]; [done..|]. intros _.
    destruct l as [|ln lx [] [|an ax [] a b] [|bn bx [] b' d]]; try done;
    destruct r as [|rn rx [] [|bn' bx' [] b'' d'] [|dn dx [] d'' e]]; done.
  Qed.
  Local Arguments bal : simpl never.
  Lemma ins_root n v t : ins_t n v t ≠ E.
  Proof.
    destruct t as [|m x c l r]; simpl; [done|].
    destruct (comp _ _); [by apply bal_root|]. destruct (comp _ _); [by apply bal_root|done].
  Qed.

  (** the new node is put at one place in the order *)
  Lemma ins_split n v t :
    increasing (nodes t).*2 → search (key v) t = None →
    ∃ a b, nodes t = a ++ b ∧ nodes (ins_t n v t) = a ++ (n, v) :: b ∧
      Forall (λ x, before x v) a.*2 ∧ Forall (before v) b.*2.
  Proof.
    induction t as [|m x c l IHl r IHr]; simpl.
    - intros _ _. exists [], []. split; [done|]. split; [done|]. split; constructor.
    - rewrite fmap_app fmap_cons /=. intros (H1 & H2 & H3 & H4)%increasing_mid.
      destruct (comp (key v) (key x)) eqn:E1; [|destruct (comp (key x) (key v)) eqn:E2; [|done]].
      + intros Hs. destruct (IHl H1 Hs) as (a & b & Ha & Hb & Hl & Hr).
        exists a, (b ++ (m, x) :: nodes r). rewrite bal_nodes /= Ha Hb -!app_assoc /=. split; [done|].
        split; [done|]. split; [done|]. rewrite fmap_app fmap_cons. apply Forall_app. split; [done|].
        constructor; [done|]. eapply Forall_impl; [exact H4|]. intros y Hy. unfold SpecTree.before in *; eapply (sw_trans _ Hsw); eassumption.
      + intros Hs. destruct (IHr H2 Hs) as (a & b & Ha & Hb & Hl & Hr).
        exists (nodes l ++ (m, x) :: a), b. rewrite bal_nodes /= Ha Hb -!app_assoc /=. split; [done|].
        split; [done|]. split; [|done]. rewrite fmap_app fmap_cons. apply Forall_app. split.
        * eapply Forall_impl; [exact H3|]. intros y Hy. unfold SpecTree.before in *; eapply (sw_trans _ Hsw); eassumption.
        * by constructor.
  Qed.
  Lemma add_elem_split v xs ys :
    Forall (λ x, before x v) xs → Forall (before v) ys →
    add_elem key comp v (xs ++ ys) = xs ++ v :: ys.
  Proof.
    intros H1 H2. unfold add_elem. rewrite !List.filter_app.
    rewrite (filter_all _ xs); [|done]. rewrite (filter_none (λ x, comp _ _) ys).
    - rewrite (filter_none _ xs); [|by eapply Forall_impl; [exact H1|]; intros ? ->].
      rewrite (filter_all _ ys); [by rewrite app_nil_r|].
      eapply Forall_impl; [exact H2|]. intros y Hy. by rewrite (sw_asym _ _ Hy).
    - eapply Forall_impl; [exact H2|]. intros y Hy. by apply sw_asym.
  Qed.
  Lemma ins_elems n v t :
    increasing (nodes t).*2 → search (key v) t = None →
    (nodes (ins_t n v t)).*2 = add_elem key comp v (nodes t).*2.
  Proof.
    intros Hi Hs. destruct (ins_split n v t Hi Hs) as (a & b & -> & -> & Ha & Hb).
    rewrite !fmap_app fmap_cons add_elem_split //.
  Qed.
  Lemma ins_increasing n v t :
    increasing (nodes t).*2 → search (key v) t = None → increasing (nodes (ins_t n v t)).*2.
  Proof.
    intros Hi Hs. destruct (ins_split n v t Hi Hs) as (a & b & E & -> & Ha & Hb).
    rewrite E fmap_app in Hi. rewrite fmap_app fmap_cons. apply increasing_app in Hi as (H1 & H2 & _).
    by apply increasing_mid.
  Qed.
  Lemma ins_least n v t :
    increasing (nodes t).*2 → search (key v) t = None →
    least (ins_t n v t) = match head (nodes t) with
      | None => Some n
      | Some (m, y) => if comp (key v) (key y) then Some n else Some m end.
  Proof.
    intros Hi Hs. destruct (ins_split n v t Hi Hs) as (a & b & Et & En & Ha & Hb). rewrite /least Et En.
    destruct a as [|[m y] a]; simpl.
    - destruct b as [|[m y] b]; [done|]. apply Forall_cons in Hb as [Hb _]. simpl in Hb |- *. by rewrite Hb.
    - apply Forall_cons in Ha as [Ha _]. simpl in Ha |- *. by rewrite (sw_asym _ _ Ha).
  Qed.
  Lemma ins_length n v t :
    increasing (nodes t).*2 → search (key v) t = None → length (nodes (ins_t n v t)) = S (length (nodes t)).
  Proof.
    intros Hi Hs. destruct (ins_split n v t Hi Hs) as (a & b & -> & -> & _). rewrite !app_length /=. lia.
  Qed.

  (** the last of increasing elements *)
  Lemma add_elem_last xs x :
    increasing (xs ++ [x]) → lookup_key (key x) xs = None ∧ add_elem key comp x xs = xs ++ [x].
  Proof.
    intros (_ & _ & H & _)%increasing_mid. split.
    - apply find_none. eapply Forall_impl; [exact H|]. intros y Hy. by apply not_equiv_l.
    - rewrite -{1}(app_nil_r xs). by apply add_elem_split.
  Qed.

  (** ** Replacing an element *)
  Fixpoint put k (x' : X) t : tree X :=
    match t with
    | E => E
    | T n x c l r =>
        if comp k (key x) then T n x c (put k x' l) r
        else if comp (key x) k then T n x c l (put k x' r) else T n x' c l r
    end.
  Lemma put_root k x' t : troot (put k x' t) = troot t.
  Proof. destruct t as [|n x c l r]; simpl; [done|]. repeat destruct (comp _ _); done. Qed.
  Lemma put_color k x' t : tcolor (put k x' t) = tcolor t.
  Proof. destruct t as [|n x c l r]; simpl; [done|]. repeat destruct (comp _ _); done. Qed.
  Lemma put_nodes k x' t n y :
    search k t = Some (n, y) →
    ∃ a b, nodes t = a ++ (n, y) :: b ∧ nodes (put k x' t) = a ++ (n, x') :: b.
  Proof.
    induction t as [|m x c l IHl r IHr]; simpl; [done|].
    destruct (comp k (key x)); [|destruct (comp (key x) k)].
    - intros (a & b & -> & E2)%IHl. exists a, (b ++ (m, x) :: nodes r). simpl. by rewrite E2 -!app_assoc.
    - intros (a & b & -> & E2)%IHr. exists (nodes l ++ (m, x) :: a), b. simpl. by rewrite E2 -!app_assoc.
    - intros [= -> ->]. by exists (nodes l), (nodes r).
  Qed.
  Lemma before_equiv_l x y z : equiv_key comp (key x) (key y) = true → before x z → before y z.
  Proof.
    intros [E1 E2]%equiv_key_true H. destruct (sw_cotrans _ (key y) _ H); [congruence|done].
  Qed.
  Lemma before_equiv_r x y z : equiv_key comp (key x) (key y) = true → before z x → before z y.
  Proof.
    intros [E1 E2]%equiv_key_true H. destruct (sw_cotrans _ (key y) _ H); [done|congruence].
  Qed.
  Lemma put_elems k x' t n y :
    increasing (nodes t).*2 → search k t = Some (n, y) → equiv_key comp (key y) (key x') = true →
    (nodes (put k x' t)).*2 = replace_elem key comp k x' (nodes t).*2 ∧
    increasing (nodes (put k x' t)).*2.
  Proof.
    intros Hi Hs He. destruct (put_nodes k x' t n y Hs) as (a & b & Et & ->).
    apply search_in in Hs as [_ Hk]. rewrite Et !fmap_app !fmap_cons /= in Hi |- *.
    apply increasing_mid in Hi as (H1 & H2 & H3 & H4). split.
    - unfold replace_elem. rewrite map_app /= Hk. f_equal; [|f_equal].
      + clear -H3 Hk Hsw. induction H3 as [|z xs Hz _ IH]; simpl; [done|]. rewrite not_equiv_l -?IH //.
        apply equiv_key_true in Hk as [E1 E2]. destruct (sw_cotrans _ k _ Hz); [done|congruence].
      + clear -H4 Hk Hsw. induction H4 as [|z xs Hz _ IH]; simpl; [done|]. rewrite not_equiv_r -?IH //.
        apply equiv_key_true in Hk as [E1 E2]. destruct (sw_cotrans _ k _ Hz); [congruence|done].
    - apply increasing_mid. repeat split; [done..| |].
      + eapply Forall_impl; [exact H3|]. intros z. by apply before_equiv_r.
      + eapply Forall_impl; [exact H4|]. intros z. by apply before_equiv_l.
  Qed.
  Lemma put_least k x' t n y : search k t = Some (n, y) → least (put k x' t) = least t.
  Proof.
    intros Hs. destruct (put_nodes k x' t n y Hs) as (a & b & Et & En). rewrite /least Et En.
    by destruct a.
  Qed.
  Lemma put_length k x' t n y : search k t = Some (n, y) → length (nodes (put k x' t)) = length (nodes t).
  Proof.
    intros Hs. destruct (put_nodes k x' t n y Hs) as (a & b & -> & ->). by rewrite !app_length.
  Qed.
End order.

(** ** Balance *)
Section balance.
  Context {X : Type}.
  Implicit Types (t l r : tree X) (k : nat).
  Inductive rb : tree X → nat → Prop :=
    | rb_E : rb E 0
    | rb_B n x l r k : rb l k → rb r k → rb (T n x Black l r) (S k)
    | rb_R n x l r k : rb l k → rb r k → tcolor l = Black → tcolor r = Black → rb (T n x Red l r) k.
  (** as [rb], but a red root may have red children *)
  Inductive nrb : tree X → nat → Prop :=
    | nrb_rb t k : rb t k → nrb t k
    | nrb_R n x l r k : rb l k → rb r k → (tcolor l = Black ∨ tcolor r = Black) → nrb (T n x Red l r) k.

  Ltac inv H := inversion H; clear H; subst.
  Lemma bal_id t k : rb t k → bal t = t.
  Proof.
    intros H. inv H; [done| |done]. simpl.
    inv H0; inv H1; simpl in *; try done;
    repeat match goal with
    | |- context [match ?t with E => _ | T _ _ _ _ _ => _ end] => destruct t as [|? ? [] ? ?]; simpl in *; try done
    end.
  Qed.
  Lemma bal_same n x l r k : rb l k → rb r k → rb (bal (T n x Black l r)) (S k).
  Proof.
    intros Hl Hr. assert (rb (T n x Black l r) (S k)) as H by by constructor. by rewrite (bal_id _ _ H).
  Qed.
  Lemma bal_l n x l r k : nrb l k → rb r k → rb (bal (T n x Black l r)) (S k).
  Proof.
    intros Hl Hr. inv Hl.
    { by apply bal_same. }
    destruct l0 as [|ln lx [] la lb]; simpl in H1.
    - destruct r0 as [|rn rx [] ra rc].
      + apply bal_same; [by constructor|done].
      + inv H0. simpl. by repeat constructor.
      + apply bal_same; [by constructor|done].
    - inv H. simpl. repeat constructor; try done.
    - destruct r0 as [|rn rx [] ra rc].
      + apply bal_same; [by constructor|done].
      + inv H0. simpl. by repeat constructor.
      + apply bal_same; [by constructor|done].
  Qed.
  Ltac rbs := first [assumption | reflexivity | constructor; rbs].
  Lemma bal_r n x l r k : rb l k → nrb r k → rb (bal (T n x Black l r)) (S k).
  Proof.
    intros Hl Hr. inv Hr.
    { by apply bal_same. }
    destruct l0 as [|ln lx [] la lb]; simpl in H1.
    - destruct r0 as [|rn rx [] ra rc].
      + apply bal_same; [done|by constructor].
      + inv H0. destruct l as [|? ? [] [|? ? [] ? ?] [|? ? [] ? ?]]; try (simpl; rbs); inv Hl; done.
      + apply bal_same; [done|by constructor].
    - inv H. destruct l as [|? ? [] [|? ? [] ? ?] [|? ? [] ? ?]]; try (simpl; rbs); inv Hl; done.
    - destruct r0 as [|rn rx [] ra rc].
      + apply bal_same; [done|by constructor].
      + inv H0. destruct l as [|? ? [] [|? ? [] ? ?] [|? ? [] ? ?]]; try (simpl; rbs); inv Hl; done.
      + apply bal_same; [done|by constructor].
  Qed.
  Global Arguments bal : simpl never.

  Lemma paint_nrb t k : nrb t k → ∃ k', rb (paint_black t) k'.
  Proof.
    intros H. inv H; [inv H0|]; simpl; eexists; by constructor.
  Qed.
  Lemma rb_blacks t k : rb t k → no_red_red t ∧ ∀ p, p ∈ paths t → blacks p = k.
  Proof.
    induction 1 as [|n x l r k _ [IH1 IH2] _ [IH3 IH4]|n x l r k _ [IH1 IH2] _ [IH3 IH4] Hl Hr]; simpl.
    - split; [done|]. by intros p ->%elem_of_list_singleton.
    - split; [done|]. intros p (q & -> & [Hq|Hq]%elem_of_app)%elem_of_list_fmap; unfold blacks in *; simpl.
      + by rewrite IH2.
      + by rewrite IH4.
    - split; [done|]. intros p (q & -> & [Hq|Hq]%elem_of_app)%elem_of_list_fmap; unfold blacks in *; simpl.
      + by rewrite IH2.
      + by rewrite IH4.
  Qed.
  Lemma paths_some t : ∃ p, p ∈ paths t.
  Proof.
    induction t as [|n x c l [p Hp] r _]; simpl; [eexists; by apply elem_of_list_singleton|].
    exists (c :: p). apply elem_of_list_fmap. exists p. split; [done|]. apply elem_of_app. by left.
  Qed.
  Lemma blacks_rb t k : no_red_red t → (∀ p, p ∈ paths t → blacks p = k) → rb t k.
  Proof.
    revert k. induction t as [|n x c l IHl r IHr]; intros k; simpl.
    - intros _ H. rewrite -(H []); [constructor|by apply elem_of_list_singleton].
    - intros (Hc & Hl & Hr) H.
      assert (∀ p, p ∈ paths l ∨ p ∈ paths r → blacks (c :: p) = k) as H'.
      { intros p Hp. apply H. apply elem_of_list_fmap. exists p. split; [done|]. by apply elem_of_app. }
      destruct c.
      + destruct Hc as [? ?]; [done|]. constructor; [apply IHl|apply IHr|..]; try done; intros p Hp.
        * apply (H' p). by left.
        * apply (H' p). by right.
      + destruct (paths_some l) as [p0 Hp0]. pose proof (H' p0 (or_introl Hp0)) as Hk.
        destruct k as [|k]; [done|].
        constructor; [apply IHl|apply IHr]; try done; intros p Hp.
        * specialize (H' p (or_introl Hp)). by injection H'.
        * specialize (H' p (or_intror Hp)). by injection H'.
  Qed.
  Lemma red_black_rb t : red_black t ↔ tcolor t = Black ∧ ∃ k, rb t k.
  Proof.
    split.
    - intros (Hc & Hr & Hp). split; [done|]. destruct (paths_some t) as [p0 H0].
      exists (blacks p0). apply blacks_rb; [done|]. intros p ?. by apply Hp.
    - intros (Hc & k & [H1 H2]%rb_blacks). split; [done|]. split; [done|]. intros p q Hp Hq. by rewrite !H2.
  Qed.

  Lemma rb_height t k : rb t k → height t ≤ 2 * k + (if tcolor t then 1 else 0) ∧ 2 ^ k ≤ S (length (nodes t)).
  Proof.
    induction 1 as [|n x l r k _ [IH1 IH2] _ [IH3 IH4]|n x l r k _ [IH1 IH2] _ [IH3 IH4] Hl Hr]; simpl.
    - lia.
    - rewrite app_length /=. destruct (tcolor l), (tcolor r); lia.
    - rewrite app_length /=. rewrite Hl in IH1. rewrite Hr in IH3. lia.
  Qed.
  Lemma red_black_height t : red_black t → height t ≤ 2 * Nat.log2 (S (length (nodes t))).
  Proof.
    intros (Hc & k & [H1 H2]%rb_height)%red_black_rb. rewrite Hc in H1.
    assert (k ≤ Nat.log2 (S (length (nodes t)))) as H; [|lia]. apply Nat.log2_le_pow2; lia.
  Qed.
End balance.

Section ins_balance.
  Context {X K : Type} (key : X → K) (comp : K → K → bool).
  Implicit Types t l r : tree X.
  Lemma ins_rb n v t k :
    rb t k → nrb (ins_t key comp n v t) k ∧ (tcolor t = Black → rb (ins_t key comp n v t) k).
  Proof.
    induction 1 as [|m x l r k Hl [IH1 IH2] Hr [IH3 IH4]|m x l r k Hl [IH1 IH2] Hr [IH3 IH4] El Er]; simpl.
    - split; [constructor|intros _]; by repeat constructor.
    - assert (rb (if comp (key v) (key x) then bal (T m x Black (ins_t key comp n v l) r)
        else if comp (key x) (key v) then bal (T m x Black l (ins_t key comp n v r)) else T m x Black l r) (S k)).
      { destruct (comp _ _); [by apply bal_l|]. destruct (comp _ _); [by apply bal_r|by constructor]. }
      split; [by constructor|done].
    - split; [|done]. specialize (IH2 El). specialize (IH4 Er).
      destruct (comp _ _); [unfold bal; constructor; [done..|by right]|].
      destruct (comp _ _); [unfold bal; constructor; [done..|by left]|]. constructor. by constructor.
  Qed.
  Lemma ins_present n v t k nx : rb t k → search key comp (key v) t = Some nx → ins_t key comp n v t = t.
  Proof.
    intros H. revert nx. induction H as [|m x l r k Hl IHl Hr IHr|m x l r k Hl IHl Hr IHr El Er]; simpl; intros nx;
      [done|..]; destruct (comp _ _).
    all: try (intros Hs; rewrite (IHl _ Hs); by eapply bal_id; constructor).
    all: destruct (comp _ _); [intros Hs; rewrite (IHr _ Hs); by eapply bal_id; constructor|done].
  Qed.
  Lemma put_rb k' x t k : rb t k → rb (put key comp k' x t) k.
  Proof.
    induction 1 as [|m y l r k Hl IHl Hr IHr|m y l r k Hl IHl Hr IHr El Er]; simpl; [constructor|..].
    - destruct (comp _ _); [by constructor|]. destruct (comp _ _); by constructor.
    - destruct (comp _ _); [by constructor; rewrite ?put_color|].
      destruct (comp _ _); constructor; rewrite ?put_color; done.
  Qed.
End ins_balance.

(** ** Positions *)
Section zipper.
  Context {X : Type}.
  Implicit Types (t l r : tree X) (zs : list (frame X)).
  Fixpoint rights zs : list (loc * X) :=
    match zs with
    | [] => []
    | Lft n x _ r :: zs => (n, x) :: nodes r ++ rights zs
    | Rgt _ _ _ _ :: zs => rights zs
    end.
  Fixpoint lefts zs : list (loc * X) :=
    match zs with
    | [] => []
    | Lft _ _ _ _ :: zs => lefts zs
    | Rgt n x _ l :: zs => lefts zs ++ nodes l ++ [(n, x)]
    end.
  Lemma nodes_fill zs t : nodes (fill zs t) = lefts zs ++ nodes t ++ rights zs.
  Proof.
    revert t. induction zs as [|[n x c r|n x c l] zs IH]; intros t; simpl.
    - by rewrite app_nil_r.
    - by rewrite IH /= -!app_assoc.
    - by rewrite IH /= -!app_assoc.
  Qed.
  Lemma split_fill zs0 t a n x b :
    nodes t = a ++ (n, x) :: b →
    ∃ zs c l r, fill zs0 t = fill zs (T n x c l r) ∧ nodes r ++ rights zs = b ++ rights zs0.
  Proof.
    revert zs0 a b. induction t as [|m y c l IHl r IHr]; intros zs0 a b; simpl; [by destruct a|].
    intros E. apply app_eq_inv in E as [(k & Ea & Ek)|(k & Ea & Ek)].
    - destruct k as [|[kn ky] k]; simpl in Ek.
      + injection Ek as -> -> ->. exists zs0, c, l, r. done.
      + injection Ek as <- <- ->. destruct (IHl (Lft m y c r :: zs0) a k) as (zs & c' & l' & r' & E1 & E2).
        { by rewrite Ea. }
        exists zs, c', l', r'. split; [done|]. rewrite E2 /= -app_assoc //.
    - destruct k as [|[kn ky] k]; simpl in Ek.
      + simplify_eq. exists zs0, c, l, r. done.
      + injection Ek as <- <- Ek. destruct (IHr (Rgt m y c l :: zs0) k b) as (zs & c' & l' & r' & E1 & E2); [done|].
        exists zs, c', l', r'. done.
  Qed.
  Lemma split_at_node t a n x b :
    nodes t = a ++ (n, x) :: b →
    ∃ zs c l r, t = fill zs (T n x c l r) ∧ nodes r ++ rights zs = b.
  Proof.
    intros (zs & c & l & r & E1 & E2)%(split_fill []). rewrite app_nil_r in E2. by exists zs, c, l, r.
  Qed.
  Lemma height_nodes t : height t ≤ length (nodes t).
  Proof. induction t as [|n x c l IHl r IHr]; simpl; [done|]. rewrite app_length /=. lia. Qed.
End zipper.
