(** Client histories in which elements' constructors and assignments may throw
    too.  Nothing here models /repo code. *)
From Verif Require Export Hist.

Section hist.
  Context {C Op Out S Env : Type}.
  Context (step : S → Op → option (S * Out)) (run : Env → Op → M C (Env * Out)).
  Context (s0 : S) (env0 : Env) (gone : S → Prop) (ok : Op → Prop).

  (** What the specification alone allows: every answer is the specified one,
      and an operation that throws has no effect. *)
  Inductive accepts_any : S → list (Op * outcome Out) → S → Prop :=
    | aca_nil s : accepts_any s [] s
    | aca_ret s op s1 o evs s2 :
        step s op = Some (s1, o) → accepts_any s1 evs s2 → accepts_any s ((op, Ret o) :: evs) s2
    | aca_thr s op e evs s2 : accepts_any s evs s2 → accepts_any s ((op, Threw e) :: evs) s2.

  (** [refines_from] without a condition on the copy oracle: operations throw
      std::bad_alloc only if the allocator may fail, and what an element throws
      only if elements may throw. *)
  Definition refines_throwing (ao co : list bool) : Prop :=
    ∀ evs s env m,
      hist step run s0 env0 (mem0 ao co) evs s env m →
      Forall (λ ev, ok ev.1) evs →
      accepts_any s0 evs s ∧
      (∀ op e, (op, Threw e) ∈ evs → e = BadAlloc ∧ ¬ no_fail ao ∨ e = CopyThrow ∧ ¬ no_fail co) ∧
      (∀ op, ok op → is_Some (step s op) → safe (run env op m)) ∧
      (gone s → blk m = ∅).

  (** [refines_throwing] for operations that may lose cells satisfying [raw] when
      an element throws, one each at most. *)
  Definition copy_thrown (e : exn) : nat := match e with CopyThrow => 1 | _ => 0 end.
  Definition copy_throws (evs : list (Op * outcome Out)) : nat :=
    foldr (λ ev n, match ev.2 with Threw e => copy_thrown e + n | Ret _ => n end) 0 evs.
  Definition refines_leaking (raw : C → Prop) (ao co : list bool) : Prop :=
    ∀ evs s env m,
      hist step run s0 env0 (mem0 ao co) evs s env m →
      Forall (λ ev, ok ev.1) evs →
      accepts_any s0 evs s ∧
      (∀ op e, (op, Threw e) ∈ evs → e = BadAlloc ∧ ¬ no_fail ao ∨ e = CopyThrow ∧ ¬ no_fail co) ∧
      (∀ op, ok op → is_Some (step s op) → safe (run env op m)) ∧
      (gone s → size (blk m) ≤ copy_throws evs ∧ map_Forall (λ _ c, raw c) (blk m)).
End hist.
