(** More about histories: refuting [refines_from] by a concrete one, and running
    what the specification allows. *)
From iris.prelude Require Import prelude.
From Verif Require Import Hist HistProofs.

Section more.
  Context {C Op Out S Env : Type}.
  Context (step : S → Op → option (S * Out)) (run : Env → Op → M C (Env * Out)).
  Implicit Types (s : S) (env : Env) (m : mem C) (evs : list (Op * outcome Out)).

  Lemma hist_app s env m evs1 s1 env1 m1 evs2 s2 env2 m2 :
    hist step run s env m evs1 s1 env1 m1 → hist step run s1 env1 m1 evs2 s2 env2 m2 →
    hist step run s env m (evs1 ++ evs2) s2 env2 m2.
  Proof. induction 1; simpl; [done|..]; intros; econstructor; eauto. Qed.
  Lemma accepts_app_inv s evs1 evs2 s2 :
    accepts step s (evs1 ++ evs2) s2 → ∃ s1, accepts step s evs1 s1 ∧ accepts step s1 evs2 s2.
  Proof.
    revert s. induction evs1 as [|ev evs1 IH]; intros s; simpl.
    - intros H. exists s. split; [constructor|done].
    - inversion 1 as [|? op s1 o ? ? Hs Ha|? op ? ? Ha]; subst; apply IH in Ha as (s3 & H1 & H2);
        exists s3; (split; [by econstructor|done]).
  Qed.
  Lemma accepts_fun s evs s1 s2 : accepts step s evs s1 → accepts step s evs s2 → s1 = s2.
  Proof.
    intros H. revert s2. induction H as [s|s op s1 o evs s3 Hs Ha IH|s op evs s3 Ha IH]; intros s2.
    - by inversion 1.
    - inversion 1 as [|? ? s1' ? ? ? Hs' Ha'|]; subst. rewrite Hs in Hs'. injection Hs' as <-. by apply IH.
    - inversion 1; subst. by apply IH.
  Qed.
  Lemma accepts_one s op o s' : accepts step s [(op, Ret o)] s' → step s op = Some (s', o).
  Proof. inversion 1 as [|? ? ? ? ? ? Hs Ha|]; subst. by inversion Ha; subst. Qed.
  Lemma exec_ops s env m ops evs s' env' m' :
    exec step run s env m ops = Some (evs, s', env', m') → evs.*1 = ops.
  Proof.
    revert s env m evs. induction ops as [|op ops IH]; intros s env m evs; simpl.
    - by intros [= <- <- <- <-].
    - destruct (step s op) as [[s1 o]|]; [|done]. destruct (run env op m) as [[env1 o1] m1|e m1| |]; [| |done..].
      + destruct (exec step run _ env1 m1 ops) as [[[[evs1 s2] env2] m2]|] eqn:E; [|done].
        intros [= <- <- <- <-]. simpl. f_equal. by eapply IH.
      + destruct (exec step run _ env m1 ops) as [[[[evs1 s2] env2] m2]|] eqn:E; [|done].
        intros [= <- <- <- <-]. simpl. f_equal. by eapply IH.
  Qed.

  (** a history after which [op] is undefined or answers wrongly *)
  Definition wrong (neq : Out → Out → bool) (okb : Op → bool) s env m (ops : list Op) (op : Op) : bool :=
    forallb okb (op :: ops) &&
    match exec step run s env m ops with
    | Some (_, s', env', m') =>
        match step s' op, run env' op m' with
        | Some _, UB => true
        | Some (_, o), Ok (_, o') _ => neq o o'
        | _, _ => false
        end
    | None => false
    end.
  Lemma wrong_refutes neq okb s env ao co ops op gone (ok : Op → Prop) :
    wrong neq okb s env (mem0 ao co) ops op = true → (∀ o, neq o o = false) → (∀ op, okb op = true → ok op) →
    ¬ refines_from step run s env gone ok ao co.
  Proof.
    unfold wrong. intros [Ho H]%andb_true_iff Hneq Hok Hr. simpl in Ho.
    apply andb_true_iff in Ho as [Hop Hops].
    destruct (exec step run s env (mem0 ao co) ops) as [[[[evs s'] env'] m']|] eqn:E; [|done].
    destruct (step s' op) as [[s1 o]|] eqn:Es; [|done].
    assert (Forall (λ ev, ok ev.1) evs) as Hoks.
    { apply exec_ops in E. apply Forall_forall. intros ev Hev. apply Hok.
      rewrite forallb_forall in Hops. apply Hops. rewrite -E. apply elem_of_list_In. by apply elem_of_list_fmap_1. }
    destruct (Hr evs s' env' m') as (Ha & _ & Hs & _); [by eapply exec_hist|done|].
    destruct (run env' op m') as [[env2 o2] m2|e m2| |] eqn:Er; [|done| |done].
    - destruct (Hr (evs ++ [(op, Ret o2)]) s1 env2 m2) as (Ha' & _).
      + eapply hist_app; [by eapply exec_hist|]. eapply hist_ret; [done..|constructor].
      + apply Forall_app. split; [done|]. constructor; [by apply Hok|constructor].
      + apply accepts_app_inv in Ha' as (s3 & H1 & H2). rewrite (accepts_fun _ _ _ _ H1 Ha) in H2.
        apply accepts_one in H2. rewrite Es in H2. injection H2 as ->. by rewrite Hneq in H.
    - specialize (Hs op (Hok _ Hop)). rewrite Es Er in Hs. apply Hs. eauto.
  Qed.

  (** running operations on the specification alone *)
  Fixpoint spec_run s (ops : list Op) : option (S * list Out) :=
    match ops with
    | [] => Some (s, [])
    | op :: ops =>
        match step s op with
        | Some (s1, o) => match spec_run s1 ops with Some (s2, os) => Some (s2, o :: os) | None => None end
        | None => None
        end
    end.
  (** if nothing fails, the model can do what the specification does *)
  Lemma exec_spec_run s0 env0 gone (ok : Op → Prop) ao co evs s env m ops s' os :
    refines_from step run s0 env0 gone ok ao co → no_fail ao →
    hist step run s0 env0 (mem0 ao co) evs s env m → Forall (λ ev, ok ev.1) evs → Forall ok ops →
    spec_run s ops = Some (s', os) →
    ∃ env' m', exec step run s env m ops = Some (zip ops (Ret <$> os), s', env', m').
  Proof.
    intros Hr Hao. revert evs s env m os. induction ops as [|op ops IH]; intros evs s env m os Hh He Hok; simpl.
    - intros [= <- <-]. by exists env, m.
    - inversion Hok as [|? ? Hop Hops]; subst.
      destruct (step s op) as [[s1 o]|] eqn:Es; [|done].
      destruct (spec_run s1 ops) as [[s2 os2]|] eqn:Eo; [|done]. intros [= <- <-].
      destruct (Hr evs s env m Hh He) as (Ha & _ & Hs & _). specialize (Hs op Hop). rewrite Es in Hs.
      destruct (run env op m) as [[env1 o1] m1|e m1| |] eqn:Er; try (by destruct Hs; eauto).
      + assert (hist step run s0 env0 (mem0 ao co) (evs ++ [(op, Ret o1)]) s1 env1 m1) as Hh'.
        { eapply hist_app; [done|]. eapply hist_ret; [done..|constructor]. }
        assert (Forall (λ ev, ok ev.1) (evs ++ [(op, Ret o1)])) as He'.
        { apply Forall_app. split; [done|]. by constructor. }
        destruct (Hr _ _ _ _ Hh' He') as (Ha' & _).
        apply accepts_app_inv in Ha' as (s3 & H1 & H2). rewrite (accepts_fun _ _ _ _ H1 Ha) in H2.
        apply accepts_one in H2. rewrite Es in H2. injection H2 as ->.
        destruct (IH _ _ _ _ _ Hh' He' Hops Eo) as (env2 & m2 & E2). simpl. rewrite E2. simpl. eauto.
      + exfalso. assert (hist step run s0 env0 (mem0 ao co) (evs ++ [(op, Threw e)]) s env m1) as Hh'.
        { eapply hist_app; [done|]. eapply hist_thr; [done..|constructor]. }
        assert (Forall (λ ev, ok ev.1) (evs ++ [(op, Threw e)])) as He'.
        { apply Forall_app. split; [done|]. by constructor. }
        destruct (Hr _ _ _ _ Hh' He') as (_ & Ht & _). specialize (Ht Hao). apply Forall_app in Ht as [_ Ht].
        inversion Ht as [|? ? Hx]. by apply Hx.
  Qed.
End more.
