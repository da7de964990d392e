(** Threads that copy and destroy shared_ptrs — /repo/include/cest/shared_ptr.hpp,
    83-84 and 90-97 again, but one memory access of the shared control block at
    a time: count_ is a plain long, so ++ and -- read it and then write it. *)
From Verif Require Export ModelShared.

(** a thread: finished, or an uninterrupted piece of work followed by the rest *)
Inductive thr (T : Type) := TDone | TStep (f : M (scell T) (thr T)).
Global Arguments TDone {_}.
Global Arguments TStep {_} _.

Section race.
  Context {T : Type}.
  (** copy constructor: 83-84; [k] is what the thread does with the copy *)
  Definition copy_thr (r : loc) (k : loc → thr T) : thr T :=
    TStep (x <- s_handle r ;; this <- new (SHandle x.1 x.2) ;; y <- s_ctrl x.2 ;;
      ret (TStep (s_set_count x.2 (y.1.1 + 1) ;;; ret (k this)))).
  (** destructor: 90-97; the read and the write of -- are apart *)
  Definition dtor_thr (this : loc) (k : thr T) : thr T :=
    TStep (x <- s_handle this ;;
      match x.2 with
      | None => free this ;;; ret k
      | Some c =>
          y <- s_ctrl (Some c) ;;
          ret (TStep (s_set_count (Some c) (y.1.1 - 1) ;;;
            (if decide (y.1.1 - 1 = 0)%Z then s_run_deleter y.1.2 y.2 ;;; free c else ret tt) ;;; free this ;;; ret k))
      end).

  (** one thread alone *)
  Fixpoint alone (t : thr T) : M (scell T) unit :=
    match t with
    | TDone => ret tt
    | TStep f => λ m,
        match f m with Ok t' m' => alone t' m' | Exn e m' => Exn e m' | UB => UB | Div => Div end
    end.
  (** a schedule says which thread makes the next step; finished threads do
      nothing *)
  Fixpoint schedule (ts : list (thr T)) (sched : list nat) : M (scell T) (list (thr T)) :=
    match sched with
    | [] => ret ts
    | i :: sched =>
        match ts !! i with
        | Some (TStep f) => t' <- f ;; schedule (<[i := t']> ts) sched
        | _ => schedule ts sched
        end
    end.
End race.
