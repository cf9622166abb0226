(** Model of functions on the boundary of a Cartesian mesh: CartesianHMeshFunction
    (src/cartesian_mesh/cartesian_h_mesh_function.cpp) with the projections and
    evaluations of CartesianTrajectoryIntersection
    (src/cartesian_mesh/cartesian_trajectory_intersection.cpp L123-384), on all ranks, for
    one boundary group.  The functions are DG0 (asserted), so that there is one value per
    facet. *)
From Coq Require Import List Arith ZArith Bool.
Import ListNotations.
From Verif Require Import Base Bmi_Model.

Section Surface.
  Context {T : Type} (add : T -> T -> T) (zero : T).
  (** [k_inverse_width * value], cartesian_trajectory_intersection.cpp L214, L233 *)
  Variable scale : T -> T.

  (** include/neso_particles/device_buffers.hpp L73-91 [realloc_no_copy] without a size
      factor: the contents of a new allocation are arbitrary. *)
  Definition realloc_no_copy (junk : nat -> T) (size : nat) (buf : list T) : list T :=
    if length buf <? size then map junk (seq 0 size) else buf.
  (** L103-125 [realloc] without a size factor *)
  Definition realloc (junk : nat -> T) (size : nat) (buf : list T) : list T :=
    if length buf <? size then buf ++ map junk (seq (length buf) (size - length buf)) else buf.

  (** include/neso_particles/cartesian_mesh/cartesian_h_mesh_function.hpp L25-29 *)
  Record hfun := HFun { f_dofs : list T; f_stage : list T; f_version : nat }.

  (** cartesian_h_mesh_function.cpp L5-40 with cartesian_trajectory_intersection.cpp
      L123-146: the cells are the ones the BoundaryMeshInterface of the group was made
      with (L93-104). *)
  Definition create_function (junk : nat -> T) (cells : list Z) : hfun :=
    HFun (repeat zero (length cells)) (map junk (seq 0 (Nat.max (length cells) 1))) 0.

  (** cartesian_h_mesh_function.cpp L74-83 *)
  Definition fill (value : T) (f : hfun) : hfun := HFun (map (fun _ => value) (f_dofs f)) (f_stage f) 0.
  (** L95-106 *)
  Definition set_dofs (h_dofs : list T) (f : hfun) : option hfun :=
    _ <- assert (length h_dofs =? length (f_dofs f)) ;; Some (HFun h_dofs (f_stage f) 0).
  (** L85-93 *)
  Definition get_dofs (f : hfun) : list T := f_dofs f.

  (** cartesian_trajectory_intersection.cpp L148-173 *)
  Definition function_project_initialise (junk : nat -> T) (b : bmi) (f : hfun) : option hfun :=
    let tmp_buffer_size := length (m_lin b) in
    let stage := realloc_no_copy junk tmp_buffer_size (f_stage f) in
    stage' <- (if 0 <? tmp_buffer_size then blit stage 0 (repeat zero tmp_buffer_size) else Some stage) ;;
    Some (fill zero (HFun (f_dofs f) stage' (f_version f))).

  (** L175-266 on one rank: [particles] are the facets (metadata component 1) and values of
      the particles of the sub-group; a missing sub-group is an empty list.  The
      assertions of debug builds are failures. *)
  Definition function_project_contribute (d : device) (junk : nat -> T) (b : bmi) (particles : list (Z * T)) (f : hfun) : option hfun :=
    let num_accessible_geoms := length (m_lin b) in
    let current_stage_size := length (f_stage f) in
    stage <- (if current_stage_size <? num_accessible_geoms then
        foldM (fun m idx => upd m (current_stage_size + idx) zero)
          (realloc junk num_accessible_geoms (f_stage f)) (ord d 0 (seq 0 (num_accessible_geoms - current_stage_size)))
      else Some (f_stage f)) ;;
    _ <- assert (num_accessible_geoms <=? length stage) ;;
    stage' <- (if 0 <? length (m_lin b) then
        foldM (fun m '(gid, value) =>
            index <- mget Z.eqb gid (m_seq b) ;;
            _ <- assert (index <? num_accessible_geoms) ;;
            old <- rd m index ;; upd m index (add old (scale value)))
          stage (ord d 1 particles)
      else Some stage) ;;
    Some (HFun (f_dofs f) stage' (f_version f)).

  (** The pooled buffers of an exchange, boundary_mesh_interface.hpp L468-492, L539-558. *)
  Definition pooled (junk : nat -> T) (w : list bmi) (size : bmi -> nat) (pool : nat -> list T) : list (list T) :=
    map (fun p => realloc_no_copy junk (size (snd p)) (pool (fst p))) (combine (seq 0 (length w)) w).

  Definition map_ranks (w : list bmi) (fs : list hfun) (g : nat -> bmi -> hfun -> option hfun) : option (list hfun) :=
    on_ranks w (fun r b => f <- rd fs r ;; g r b f).

  (** L268-284 *)
  Definition function_project_finalise (aware : bool) (ds : nat -> device) (junk : nat -> T) (pout pin : nat -> list T)
      (w : list bmi) (fs : list hfun) : option (list hfun) :=
    dofs <- exchange_from_device add zero aware ds w 1 (map f_stage fs) (map f_dofs fs)
              (pooled junk w (fun b => list_sum (m_outc b)) pout) (pooled junk w (fun b => list_sum (m_inc b)) pin) ;;
    map_ranks w fs (fun r b f => x <- rd dofs r ;; Some (HFun x (f_stage f) 0)).

  (** L318-330: the staged values are refreshed when they are older than the exchange
      pattern.  The exchange is collective: ranks which disagree do not return. *)
  Definition refresh (aware host_readable : bool) (ds : nat -> device) (junk : nat -> T) (pout pin : nat -> list T)
      (w : list bmi) (fs : list hfun) : option (list hfun) :=
    stale <- on_ranks w (fun r b => f <- rd fs r ;; Some (f_version f <? m_version b)) ;;
    if forallb negb stale then Some fs
    else
      _ <- assert (forallb (fun x => x) stale) ;;
      stages <- on_ranks w (fun r b => f <- rd fs r ;; Some (realloc_no_copy junk (length (m_lin b)) (f_stage f))) ;;
      stages' <- reverse_exchange_from_device zero aware host_readable ds w 1 (map f_dofs fs) stages
                   (pooled junk w (fun b => length (m_rpack b)) pout) (pooled junk w (fun b => length (m_runpack b)) pin) ;;
      map_ranks w fs (fun r b f => x <- rd stages' r ;; Some (HFun (f_dofs f) x (m_version b))).

  (** L332-380 on one rank: [geoms] are the facets of the particles, [values] the component
      of the particle data which is set. *)
  Definition evaluate_particles (d : device) (b : bmi) (f : hfun) (geoms : list Z) (values : list T) : option (list T) :=
    if 0 <? length (m_lin b) then
      foldM (fun out '(layer, gid) =>
          index <- mget Z.eqb gid (m_seq b) ;;
          v <- rd (f_stage f) index ;;
          upd out layer v)
        values (ord d 2 (combine (seq 0 (length geoms)) geoms))
    else Some values.

  (* ---------------------------------------------------------------- *)
  (** Collective calls. *)

  Inductive event : Type :=
  | EExtend (ids : list (list (nat * Z))) (gs : list graph)     (* post_integration, hpp L479-514 *)
  | EFill (value : T)
  | ESetDofs (h_dofs : list (list T))
  | EInitialise
  | EContribute (particles : list (list (Z * T)))
  | EFinalise
  | EEvaluate (geoms : list (list Z)) (values : list (list T)).

  (** What the environment chooses in a call: the devices, the contents of new
      allocations and of the pools. *)
  Record env := Env { e_ds : nat -> device; e_junk : nat -> nat -> T; e_pout : nat -> list T; e_pin : nat -> list T }.

  Definition exec (aware host_readable : bool) (e : env) (st : list bmi * list hfun) (ev : event)
    : option ((list bmi * list hfun) * option (list (list T))) :=
    let '(w, fs) := st in
    match ev with
    | EExtend ids gs => w' <- extend_exchange_pattern w ids gs ;; Some (w', fs, None)
    | EFill value => Some (w, map (fill value) fs, None)
    | ESetDofs h_dofs => fs' <- map_ranks w fs (fun r _ f => h <- rd h_dofs r ;; set_dofs h f) ;; Some (w, fs', None)
    | EInitialise => fs' <- map_ranks w fs (fun r b f => function_project_initialise (e_junk e r) b f) ;; Some (w, fs', None)
    | EContribute particles =>
        fs' <- map_ranks w fs (fun r b f => l <- rd particles r ;; function_project_contribute (e_ds e r) (e_junk e r) b l f) ;;
        Some (w, fs', None)
    | EFinalise => fs' <- function_project_finalise aware (e_ds e) (e_junk e 0) (e_pout e) (e_pin e) w fs ;; Some (w, fs', None)
    | EEvaluate geoms values =>
        fs' <- refresh aware host_readable (e_ds e) (e_junk e 0) (e_pout e) (e_pin e) w fs ;;
        out <- on_ranks w (fun r b => f <- rd fs' r ;; g <- rd geoms r ;; v <- rd values r ;; evaluate_particles (e_ds e r) b f g v) ;;
        Some (w, fs', Some out)
    end.

  (** A history of calls, with what the evaluations returned. *)
  Definition exec_all (aware host_readable : bool) (st : list bmi * list hfun) (evs : list (env * event))
    : option ((list bmi * list hfun) * list (list (list T))) :=
    foldM (fun s p =>
        r <- exec aware host_readable (fst p) (fst s) (snd p) ;;
        Some (fst r, snd s ++ match snd r with Some o => [o] | None => [] end))
      (st, []) evs.

  Definition surface_start (junk : nat -> nat -> T) (own : list (list Z)) : list bmi * list hfun :=
    (map bmi_create own, map (fun p => create_function (junk (fst p)) (snd p)) (combine (seq 0 (length own)) own)).
End Surface.
Arguments hfun : clear implicits.
Arguments event : clear implicits.
Arguments env : clear implicits.
