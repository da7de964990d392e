(** Client histories: a vocabulary shared by the container theorems.  Nothing
    here models /repo code; it says what "any history of operations" means. *)
From Verif Require Export Mem.

(** [given x := o ;; k]: undefined ([None]) unless [o] is defined. *)
Notation "'given' x := o ;; k" :=
  (match o with Some x => k | None => None end)
  (at level 100, x name, o at next level, right associativity).

(** A client issues operations [Op] on objects it knows by handles.
    [step] is the specification: [None] means the operation's precondition does
    not hold (e.g. pop on empty), otherwise it gives the next abstract state and
    the answer.  [run] is the model of the code. *)
Section hist.
  Context {C Op Out S Env : Type}.
  Context (step : S → Op → option (S * Out)).
  Context (run : Env → Op → M C (Env * Out)).

  (** [hist s env m evs s' env' m']: starting from memory [m], the client
      issues operations whose preconditions hold according to the specification;
      [evs] are the operations with what the code actually answered.  An
      operation that throws leaves the specification state where it was. *)
  Inductive hist : S → Env → mem C → list (Op * outcome Out) → S → Env → mem C → Prop :=
    | hist_nil s env m : hist s env m [] s env m
    | hist_ret s env m op s1 o env1 o1 m1 evs s2 env2 m2 :
        step s op = Some (s1, o) →
        run env op m = Ok (env1, o1) m1 →
        hist s1 env1 m1 evs s2 env2 m2 →
        hist s env m ((op, Ret o1) :: evs) s2 env2 m2
    | hist_thr s env m op so e m1 evs s2 env2 m2 :
        step s op = Some so →
        run env op m = Exn e m1 →
        hist s env m1 evs s2 env2 m2 →
        hist s env m ((op, Threw e) :: evs) s2 env2 m2.

  (** What the specification alone allows: every answer is the specified one,
      and only [std::bad_alloc] may be thrown, without effect. *)
  Inductive accepts : S → list (Op * outcome Out) → S → Prop :=
    | acc_nil s : accepts s [] s
    | acc_ret s op s1 o evs s2 :
        step s op = Some (s1, o) → accepts s1 evs s2 →
        accepts s ((op, Ret o) :: evs) s2
    | acc_thr s op evs s2 :
        accepts s evs s2 → accepts s ((op, Threw BadAlloc) :: evs) s2.
End hist.

(** Running a list of operations, as long as the specification allows them and
    the code is defined; used for examples. *)
Section exec.
  Context {C Op Out S Env : Type}.
  Context (step : S → Op → option (S * Out)) (run : Env → Op → M C (Env * Out)).
  Fixpoint exec (s : S) (env : Env) (m : mem C) (ops : list Op)
      : option (list (Op * outcome Out) * S * Env * mem C) :=
    match ops with
    | [] => Some ([], s, env, m)
    | op :: ops =>
        given so := step s op ;;
        match run env op m with
        | Ok (env1, o1) m1 =>
            given r := exec so.1 env1 m1 ops ;;
            Some ((op, Ret o1) :: r.1.1.1, r.1.1.2, r.1.2, r.2)
        | Exn e m1 =>
            given r := exec s env m1 ops ;;
            Some ((op, Threw e) :: r.1.1.1, r.1.1.2, r.1.2, r.2)
        | UB | Div => None
        end
    end.
  (** just the answers *)
  Definition answers_of (s : S) (env : Env) (m : mem C) (ops : list Op) : option (list (outcome Out)) :=
    given r := exec s env m ops ;; Some (map snd r.1.1.1).
End exec.

(** Neither undefined behaviour nor non-termination. *)
Definition safe {C A} (r : res C A) : Prop :=
  match r with Ok _ _ | Exn _ _ => True | UB | Div => False end.

Definition threw {A B} (ev : A * outcome B) : Prop :=
  match ev.2 with Threw _ => True | Ret _ => False end.

(** [no_fail o]: the oracle never reports a failure. *)
Definition no_fail (o : list bool) : Prop := Forall (λ b, b = false) o.
Global Instance no_fail_dec o : Decision (no_fail o).
Proof. unfold no_fail. apply _. Defined.

Section refines.
  Context {C Op Out S Env : Type}.
  Context (step : S → Op → option (S * Out)) (run : Env → Op → M C (Env * Out)).
  Context (s0 : S) (env0 : Env) (gone : S → Prop) (ok : Op → Prop).

  (** The history property: from the empty memory, with allocation oracle [ao]
      and copy oracle [co], every history of operations satisfying [ok]
      - answers exactly as the specification does,
      - throws only if the allocator may fail,
      - never gets to a point where an operation whose precondition holds is
        undefined or does not terminate,
      - leaves nothing allocated once all objects are gone. *)
  Definition refines_from (ao co : list bool) : Prop :=
    ∀ evs s env m,
      hist step run s0 env0 (mem0 ao co) evs s env m →
      Forall (λ ev, ok ev.1) evs →
      accepts step s0 evs s ∧
      (no_fail ao → Forall (λ ev, ¬ threw ev) evs) ∧
      (∀ op, ok op → is_Some (step s op) → safe (run env op m)) ∧
      (gone s → blk m = ∅).
End refines.

(** ** Vocabulary for statements about single calls *)

(** [replaces old m new m']: going from [m] to [m'], the cells [old] were given
    up for the cells [new]; cells in [new] were already in [old] or did not
    exist, cells in [old] but not [new] are freed, all others are untouched. *)
Definition replaces {C} (old : list loc) (m : mem C) (new : list loc) (m' : mem C) : Prop :=
  ∀ l, if decide (l ∈ new) then l ∈ old ∨ blk m !! l = None
       else if decide (l ∈ old) then blk m' !! l = None
       else blk m' !! l = blk m !! l.

(** Addresses handed out are below the fresh counter (true initially and kept by
    every operation). *)
Definition mem_wf {C} (m : mem C) : Prop :=
  ∀ l, is_Some (blk m !! l) → (l < nxt m)%positive.

(** A memory in which the allocator may fail but element copies do not throw. *)
Definition may_fail_alloc {C} (m : mem C) : Prop := mem_wf m ∧ no_fail (corc m).
(** A memory in which neither happens. *)
Definition fair {C} (m : mem C) : Prop := mem_wf m ∧ no_fail (aorc m) ∧ no_fail (corc m).
(** Nothing throws in the two kinds of memory. *)
Definition unthrown {C A} (r : res C A) (Q : A → mem C → Prop) : Prop :=
  match r with Ok a m => Q a m | Exn _ _ | UB | Div => False end.
(** Number of allocations (of any kind) between two memories. *)
Definition allocs {C} (m m' : mem C) : nat := Pos.to_nat (nxt m') - Pos.to_nat (nxt m).

(** The result [r] of a call made in memory [m] that owns the cells [old]: it
    returned with [post] holding of the answer, the new memory and the cells now
    owned, everything else untouched; or it threw [std::bad_alloc] and memory is
    as before. *)
Definition runs_to {C T} (m : mem C) (old : list loc) (r : res C T)
    (post : T → mem C → list loc → Prop) : Prop :=
  match r with
  | Ok a m' => may_fail_alloc m' ∧ ∃ new, post a m' new ∧ replaces old m new m'
  | Exn e m' => e = BadAlloc ∧ may_fail_alloc m' ∧ blk m' = blk m
  | UB | Div => False
  end.
