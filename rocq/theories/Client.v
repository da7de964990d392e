(** A client program's named objects, on the model side: handles are mapped to
    addresses.  Nothing here models /repo code.  Using an unknown handle, or
    declaring one twice, is not a C++ program; the specifications never allow
    it. *)
From Verif Require Export Mem.

Section client.
  Context {C Out : Type}.
  Notation env := (gmap nat loc).

  Definition obj (e : env) (h : nat) : M C loc :=
    match e !! h with Some l => ret l | None => ub end.
  (** declare [h], made by [mk]; the answer is [o] *)
  Definition decl (e : env) (h : nat) (mk : M C loc) (o : Out) : M C (env * Out) :=
    match e !! h with
    | Some _ => ub
    | None => l <- mk ;; ret (<[h := l]> e, o)
    end.
  (** a call on object [h], or on [h] and [g] *)
  Definition act1 {A} (e : env) (h : nat) (f : loc → M C A) (o : A → Out) : M C (env * Out) :=
    l <- obj e h ;; a <- f l ;; ret (e, o a).
  Definition act2 {A} (e : env) (h g : nat) (f : loc → loc → M C A) (o : A → Out) : M C (env * Out) :=
    l <- obj e h ;; l' <- obj e g ;; a <- f l l' ;; ret (e, o a).
  (** end of the lifetime of [h] *)
  Definition drop_obj (e : env) (h : nat) (f : loc → M C unit) (o : Out) : M C (env * Out) :=
    l <- obj e h ;; f l ;;; ret (delete h e, o).
End client.
