(** What a function on the boundary is supposed to be: one value per facet, wherever it is
    stored. *)
From Coq Require Import List Arith ZArith Bool.
Import ListNotations.
From Verif Require Import Base Bmi_Model Bmi_Spec Surf_Model.

Section Surface.
  Context {T : Type} (add : T -> T -> T) (zero : T) (scale : T -> T).
  Variables (owner : Z -> nat) (own : list (list Z)).

  (** A projection in progress: what the particles of each rank have contributed; whether
      every rank had seen as many facets as it owns, and at least one, when the projection
      was initialised; whether the ranks have seen new facets since the last
      contribution. *)
  Record projection := Proj { p_acc : list (list (Z * T)); p_full : bool; p_pending : bool }.

  (** The facets the ranks have seen, the values of the function, and the projection in
      progress. *)
  Record surface := Surface { s_known : list (list Z); s_value : Z -> T; s_proj : option projection }.

  (** The contributions to a facet. *)
  Definition deposited (acc : list (list (Z * T))) (g : Z) : T :=
    sum add zero (map (fun p => scale (snd p)) (filter (fun p => (fst p =? g)%Z) (concat acc))).

  Definition set_values (h_dofs : list (list T)) (value : Z -> T) : Z -> T := fun g =>
    match nth_error own (owner g), nth_error h_dofs (owner g) with
    | Some o, Some h =>
        match filter (fun p => (fst p =? g)%Z) (combine o h) with p :: _ => snd p | [] => value g end
    | _, _ => value g
    end.

  Definition full (known : list (list Z)) : bool :=
    forallb (fun p => Nat.max (length (fst p)) 1 <=? length (nodup Z.eq_dec (snd p))) (combine own known).

  (** One collective call: the new state and what is returned. *)
  Definition step (s : surface) (ev : event T) : surface * option (list (list T)) :=
    match ev with
    | EExtend ids _ =>
        (Surface (extend_known (s_known s) (map ids_of ids)) (s_value s)
           match s_proj s with Some p => Some (Proj (p_acc p) (p_full p) true) | None => None end, None)
    | EFill value => (Surface (s_known s) (fun _ => value) (s_proj s), None)
    | ESetDofs h_dofs => (Surface (s_known s) (set_values h_dofs (s_value s)) (s_proj s), None)
    | EInitialise => (Surface (s_known s) (fun _ => zero) (Some (Proj (map (fun _ => []) own) (full (s_known s)) false)), None)
    | EContribute particles =>
        (Surface (s_known s) (s_value s)
           match s_proj s with
           | Some p => Some (Proj (map (fun q => fst q ++ snd q) (combine (p_acc p) particles)) (p_full p) false)
           | None => None
           end, None)
    | EFinalise =>
        (Surface (s_known s)
           match s_proj s with Some p => fun g => add (s_value s g) (deposited (p_acc p) g) | None => s_value s end None, None)
    | EEvaluate geoms _ => (s, Some (map (map (s_value s)) geoms))
    end.

  (** The calls a user may make: contributions and the end of a projection belong to a
      projection, there are no evaluations during one, particles are on facets their rank
      has seen.  A rank may see new facets during a projection only if all ranks had seen
      as many facets as they own when it was initialised, and then there is a contribution
      (of possibly no particles) before its end. *)
  Definition allowed (s : surface) (ev : event T) : Prop :=
    match ev with
    | EExtend ids gs =>
        length ids = length own /\ (forall l, In l ids -> pairs_ok owner own l) /\
        mpi_neighbours owner (extend_known (s_known s) (map ids_of ids)) gs /\
        match s_proj s with Some p => p_full p = true | None => True end
    | EFill _ => True
    | ESetDofs h_dofs => length h_dofs = length own /\ forall r o h, nth_error own r = Some o -> nth_error h_dofs r = Some h -> length h = length o
    | EInitialise => True
    | EContribute particles =>
        s_proj s <> None /\ length particles = length own /\
        forall r l p, nth_error particles r = Some l -> In p l -> In (fst p) (nth r (s_known s) [])
    | EFinalise => exists p, s_proj s = Some p /\ p_pending p = false
    | EEvaluate geoms values =>
        s_proj s = None /\ length geoms = length own /\ length values = length own /\
        (forall r l g, nth_error geoms r = Some l -> In g l -> In g (nth r (s_known s) [])) /\
        (forall r l v, nth_error geoms r = Some l -> nth_error values r = Some v -> length v = length l)
    end.

  Fixpoint allowed_all (s : surface) (evs : list (event T)) : Prop :=
    match evs with [] => True | ev :: evs' => allowed s ev /\ allowed_all (fst (step s ev)) evs' end.

  Fixpoint steps (s : surface) (evs : list (event T)) : surface * list (list (list T)) :=
    match evs with
    | [] => (s, [])
    | ev :: evs' =>
        let '(s1, o) := step s ev in
        let '(s2, outs) := steps s1 evs' in
        (s2, match o with Some x => [x] | None => [] end ++ outs)
    end.

  Definition surface_zero : surface := Surface (nothing own) (fun _ => zero) None.
End Surface.
Arguments surface : clear implicits.
Arguments projection : clear implicits.
