(** What shared_ptrs are supposed to be: variables in groups, each group owning
    one object, given to the group's deleter when the last one of the group
    goes. *)
From stdpp Require Import fin_sets infinite.
From Verif Require Import Hist ModelShared.

Section spec.
  Context {T : Type}.
  (** [s_hs]: for each shared_ptr variable, if it is not empty, its group and
      the object it points to, if any;
      [s_gs]: for each group, the object it owns, if any, and the deleter;
      [s_os]: the objects and arrays that have been created, what they are and
      their elements, [None] when deleted *)
  Record sstate := SState {
    s_hs : gmap nat (option (nat * option nat));
    s_gs : gmap nat (option nat * deleter T);
    s_os : gmap nat (option (okind * list T));
  }.
  Definition in_group (g : nat) (x : option (nat * option nat)) : Prop :=
    match x with Some (g', _) => g' = g | None => False end.
  Global Instance in_group_dec g x : Decision (in_group g x).
  Proof. destruct x as [[]|]; simpl; apply _. Defined.
  (** the number of variables in a group *)
  Definition owners (hs : gmap nat (option (nat * option nat))) (g : nat) : nat :=
    size (filter (λ kx, in_group g kx.2) hs).

  Definition s_alive (s : sstate) (o : nat) : option (okind * list T) := given v := s_os s !! o ;; v.
  Definition s_target (x : option (nat * option nat)) : option nat := given gx := x ;; gx.2.
  Notation objects := (gmap nat (option (okind * list T))).
  (** element [i] *)
  Definition elem (i : Z) (x : okind * list T) : option T := if decide (0 ≤ i)%Z then x.2 !! Z.to_nat i else None.
  Definition set_elem (i : Z) (v : T) (x : okind * list T) : okind * list T := (x.1, <[Z.to_nat i := v]> x.2).
  (** deleting an object, which has to be alive, with the delete that fits it *)
  Definition remove (k : okind) (o : nat) (os : objects) : option objects :=
    given x := os !! o ;; given x := x ;; if decide (x.1 = k) then Some (<[o := None]> os) else None.
  (** giving an object to a deleter; without [full], not an object of a derived
      class to the default one *)
  Definition dispose (full : bool) (o : option nat) (d : deleter T) (os : objects) : option objects :=
    match d, o with
    | DDelete _, None | DDeleteArr, None => Some os
    | DRun _ _ _, None => None
    | DDelete YSame, Some o => remove KOne o os
    | DDelete YSub, Some o => if full then remove KSub o os else None
    | DDeleteArr, Some o => remove KArr o os
    | DRun _ _ f, Some o =>
        given x := os !! o ;; given x := x ;; given v := elem 0 x ;; Some (<[o := Some (set_elem 0 (f v) x)]> os)
    end.
  (** after variables have gone, the group [g] is disposed of if none is left *)
  Definition cleanup (full : bool) (g : nat) (s : sstate) : option sstate :=
    if decide (owners (s_hs s) g = 0) then
      given od := s_gs s !! g ;;
      given os := dispose full od.1 od.2 (s_os s) ;;
      Some (SState (s_hs s) (delete g (s_gs s)) os)
    else Some s.
  Definition leave (full : bool) (x : option (nat * option nat)) (s : sstate) : option sstate :=
    match x with None => Some s | Some (g, _) => cleanup full g s end.
  Definition sdecl (s : sstate) (h : nat) (s' : sstate) : option (sstate * sout T) :=
    match s_hs s !! h with Some _ => None | None => Some (s', SoUnit) end.
  Definition join (s : sstate) (h : nat) (x : option (nat * option nat)) : option (sstate * sout T) :=
    sdecl s h (SState (<[h := x]> (s_hs s)) (s_gs s) (s_os s)).
  (** a plain pointer the client may use: null or to a live object *)
  Definition usable (s : sstate) (o : option nat) : Prop :=
    match o with None => True | Some o => is_Some (s_alive s o) end.
  Global Instance usable_dec s o : Decision (usable s o).
  Proof. destruct o; simpl; apply _. Defined.

  Definition screate (s : sstate) (o : nat) (k : okind) (vs : list T) : option (sstate * sout T) :=
    match s_os s !! o with Some _ => None | None =>
    Some (SState (s_hs s) (s_gs s) (<[o := Some (k, vs)]> (s_os s)), SoUnit) end.
  Definition sread (s : sstate) (h : nat) (i : Z) : option (sstate * sout T) :=
    given x := s_hs s !! h ;; given o := s_target x ;; given y := s_alive s o ;;
    given v := elem i y ;; Some (s, SoVal v).
  Definition swrite (s : sstate) (h : nat) (i : Z) (v : T) : option (sstate * sout T) :=
    given x := s_hs s !! h ;; given o := s_target x ;; given y := s_alive s o ;;
    given _v := elem i y ;;
    Some (SState (s_hs s) (s_gs s) (<[o := Some (set_elem i v y)]> (s_os s)), SoUnit).

  (** [full]: as in the standard; otherwise without
      - copying or moving from an empty shared_ptr,
      - moving from one,
      - assigning one from another that is not in the same group,
      - comparing two with ==,
      - disposing of an object of a derived class, with a base class that has no
        virtual destructor, with the default deleter,
      - getting the deleter, of the right type, of a group that was made with a
        pointer to a derived class *)
  Definition sspec (full : bool) (s : sstate) (op : sop T) : option (sstate * sout T) :=
    match op with
    | SNew h => join s h None
    | SRaw o v => screate s o KOne [v]
    | SRawArr o vs => screate s o KArr vs
    | SRawSub o v => screate s o KSub [v]
    | SFrom h o d =>
        if decide (usable s o) then
          let g := fresh (dom (s_gs s) : gset nat) in
          sdecl s h (SState (<[h := Some (g, o)]> (s_hs s)) (<[g := (o, d)]> (s_gs s)) (s_os s))
        else None
    | SCopy h g =>
        given x := s_hs s !! g ;;
        if decide (full = true ∨ x ≠ None) then join s h x else None
    | SMove h g =>
        if full then
          given x := s_hs s !! g ;;
          sdecl s h (SState (<[h := x]> (<[g := None]> (s_hs s))) (s_gs s) (s_os s))
        else None
    | SAlias h g o =>
        given x := s_hs s !! g ;; given gx := x ;;
        if decide (usable s o) then join s h (Some (gx.1, o)) else None
    | SAssign h g =>
        given x := s_hs s !! h ;; given y := s_hs s !! g ;;
        if decide (full = true ∨ fst <$> x = fst <$> y) then
          given s' := leave full x (SState (<[h := y]> (s_hs s)) (s_gs s) (s_os s)) ;; Some (s', SoUnit)
        else None
    | SCount h =>
        given x := s_hs s !! h ;;
        Some (s, SoNum (match x with None => 0 | Some (g, _) => Z.of_nat (owners (s_hs s) g) end))
    | SIs h o =>
        given x := s_hs s !! h ;;
        if decide (usable s (Some o) ∧ usable s (s_target x)) then Some (s, SoBool (bool_decide (s_target x = Some o))) else None
    | SEq h g =>
        given x := s_hs s !! h ;; given y := s_hs s !! g ;;
        if decide (full = true ∧ usable s (s_target x) ∧ usable s (s_target y))
        then Some (s, SoBool (bool_decide (s_target x = s_target y))) else None
    | SBool h => given x := s_hs s !! h ;; Some (s, SoBool (bool_decide (s_target x ≠ None)))
    | SRead h => sread s h 0
    | SWrite h v => swrite s h 0 v
    | SAt h i => sread s h i
    | SPut h i v => swrite s h i v
    | SGetDel h ty =>
        given x := s_hs s !! h ;;
        match x with
        | None => Some (s, SoBool false)
        | Some (g, _) =>
            given od := s_gs s !! g ;;
            match od.2 with
            | DRun y ty' _ =>
                if decide (full = true ∨ y = YSame ∨ ty' ≠ ty) then Some (s, SoBool (bool_decide (ty' = ty))) else None
            | _ => Some (s, SoBool false)
            end
        end
    | SSetDel h ty f =>
        given x := s_hs s !! h ;; given gx := x ;; given od := s_gs s !! gx.1 ;;
        match od.2 with
        | DRun y ty' _ =>
            if decide (ty' = ty ∧ (full = true ∨ y = YSame)) then
              Some (SState (s_hs s) (<[gx.1 := (od.1, DRun y ty f)]> (s_gs s)) (s_os s), SoUnit)
            else None
        | _ => None
        end
    | SReadRaw o => given x := s_alive s o ;; given v := elem 0 x ;; Some (s, SoVal v)
    | SDelete k o => given os := remove k o (s_os s) ;; Some (SState (s_hs s) (s_gs s) os, SoUnit)
    | SDestroy h =>
        given x := s_hs s !! h ;;
        given s' := leave full x (SState (delete h (s_hs s)) (s_gs s) (s_os s)) ;; Some (s', SoUnit)
    end.
  Definition s_init : sstate := SState ∅ ∅ ∅.
  (** every variable's lifetime has ended and every object is deleted *)
  Definition s_gone (s : sstate) : Prop := s_hs s = ∅ ∧ map_Forall (λ _ v, v = None) (s_os s).
End spec.
Global Arguments sstate : clear implicits.

(** ** Threads that copy and destroy their own variables, all in one group.
    [L]: the thread's variables that are alive. *)
Section threads.
  Context {T : Type}.
  Definition live_step (L : gset nat) (op : sop T) : option (gset nat) :=
    match op with
    | SCopy h g => if decide (g ∈ L ∧ h ∉ L) then Some ({[h]} ∪ L) else None
    | SDestroy h => if decide (h ∈ L) then Some (L ∖ {[h]}) else None
    | SCount h => if decide (h ∈ L) then Some L else None
    | _ => None
    end.
  Fixpoint live_run (L : gset nat) (ops : list (sop T)) : option (gset nat) :=
    match ops with [] => Some L | op :: ops => given L' := live_step L op ;; live_run L' ops end.
  (** the variables an operation mentions *)
  Definition mentions (op : sop T) : list nat :=
    match op with SCopy h g => [h; g] | SDestroy h | SCount h => [h] | _ => [] end.
  (** what thread [i] does in a schedule *)
  Definition ops_of (i : nat) (sched : list (nat * sop T)) : list (sop T) := (filter (λ p, p.1 = i) sched).*2.
End threads.
