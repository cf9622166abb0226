(** Parallel initialisation: particles travel in steps from a point of the rank
    that created them to the positions they were created with.
    src/parallel_initialisation.cpp; NESO_ORIG_POS is a REAL property that exists
    during the call only. *)
From Coq Require Import List Arith ZArith QArith Qabs Bool.
Import ListNotations.
From Verif Require Import Base Group_Model Group_Spec Add_Model Pack_Model Exchange_Model Mesh_Model CartMesh_Model CartMap_Model CartMove_Model.
Local Open Scope nat_scope.

(** include/neso_particles/particle_group.hpp L287-310, L148-160, src/particle_group.cpp
    L253-263 (add_particle_dat): [ncomp] more REAL components with a row per particle; [u] is
    what the new memory holds.  The components come last; the code keeps the
    properties in a map by name, with the same effect.  A property of that name must not
    exist yet. *)
Definition add_dat (ncomp : nat) (u : nat -> nat -> nat -> Q) (g : group Q) : group Q :=
  mk_group (mk_store (reals (st g) ++ map (fun f => map (fun cn => map (u f (fst cn)) (seq 0 (snd cn))) (combine (seq 0 (length (npart_cell g))) (npart_cell g))) (seq 0 ncomp))
                     (ints (st g))) (npart_cell g).
(** src/particle_group.cpp L1131-1140, particle_group.hpp L279-285 (remove_particle_dat): the components from
    [n] on are dropped. *)
Definition remove_dat (n : nat) (g : group Q) : group Q :=
  mk_group (mk_store (firstn n (reals (st g))) (ints (st g))) (npart_cell g).

(** L39-44: the kernel of parallel_advection_store.  [pid], [oid]: the first components of the
    position and of NESO_ORIG_POS. *)
Definition store_kernel (pid oid ncomp : nat) (local_point : list Q) : kernel := fun p =>
  ws <- mapM (fun dx => x <- rd (fst p) (pid + dx) ;; l <- rd local_point dx ;;
                Some [(oid + dx, x); (pid + dx, l)]) (seq 0 ncomp) ;;
  Some (concat ws, []).
(** L27-47 on one rank: the local point is a vector of 3 numbers, zero where
    get_point_in_subdomain writes nothing (L32-33). *)
Definition parallel_advection_store (m : cmesh) (d : device) (u : nat -> nat -> nat -> Q) (pid ncomp rank : nat) (g : group Q) : option (group Q) :=
  pt <- get_point_in_subdomain m rank ;;
  loop_all d 320 (store_kernel pid (length (reals (st g))) ncomp (pt ++ repeat 0%Q (3 - length pt))) (add_dat ncomp u g).

(** L66-78: whether the kernel of parallel_advection_restore is content with one
    component. *)
Definition close_enough (position_original position_current : Q) : bool :=
  let error_abs := Qabs (position_original - position_current) in
  let valid_abs := negb (Qle_bool (1 # 1000000) error_abs) in
  let position_abs := Qabs position_original in
  let error_rel := if Qeq_bool position_abs 0 then 0%Q else (error_abs / position_abs)%Q in
  let valid_rel := negb (Qle_bool (1 # 1000000) error_rel) in
  valid_abs || valid_rel.
Definition restore_kernel (pid oid ncomp : nat) : kernel := fun p =>
  ws <- mapM (fun dx => o <- rd (fst p) (oid + dx) ;; Some (pid + dx, o)) (seq 0 ncomp) ;;
  Some (ws, []).
Definition restore_check (pid oid ncomp : nat) (p : particle Q) : option bool :=
  bs <- mapM (fun dx => o <- rd (fst p) (oid + dx) ;; x <- rd (fst p) (pid + dx) ;; Some (close_enough o x)) (seq 0 ncomp) ;;
  Some (forallb (fun b => b) bs).
(** L56-89 on one rank.  Every particle's check reads that particle only, before
    its components are written: the checks are made before the loop here.
    NESO_KERNEL_ASSERT records a failure, which check_and_throw reports after the loop. *)
Definition parallel_advection_restore (d : device) (pid oid ncomp : nat) (g : group Q) : option (group Q) :=
  checks <- mapM (fun w => p <- particle_at (st g) (fst w) (snd w) ;; restore_check pid oid ncomp p) (all_particles (npart_cell g)) ;;
  g1 <- loop_all d 322 (restore_kernel pid oid ncomp) g ;;
  _ <- assert (forallb (fun b => b) checks) ;;
  Some (remove_dat oid g1).

(** L105-106: C++ 1.0 / (num_steps - step) in double. *)
Definition inverse_steps_left (num_steps step : nat) : Q :=
  (1 / (inject_Z (Z.of_nat num_steps) - inject_Z (Z.of_nat step)))%Q.
(** L111-116 *)
Definition step_kernel (pid oid ncomp : nat) (inv : Q) : kernel := fun p =>
  ws <- mapM (fun dx => o <- rd (fst p) (oid + dx) ;; x <- rd (fst p) (pid + dx) ;;
                let offset := (o - x)%Q in Some (pid + dx, (x + inv * offset)%Q)) (seq 0 ncomp) ;;
  Some (ws, []).
(** L100-120 on one rank. *)
Definition parallel_advection_step (d : device) (pid oid ncomp num_steps step : nat) (g : group Q) : option (group Q) :=
  loop_all d 321 (step_kernel pid oid ncomp (inverse_steps_left num_steps step)) g.

(** L142-152 on all ranks.  [genv], [lenv], [uninit], [garr], [larr]: what the
    call of hybrid_move after step [i] finds, and its arrival orders; [num_steps] for the
    last call.  NESO_ORIG_POS takes part in the moves under the key [orig].  [dev], [u]:
    the devices for the first and last loop and the memory of NESO_ORIG_POS.
    [nR] is the number of REAL components of the group before. *)
Definition parallel_advection_initialisation {byte} (E : encoding Q byte) (spR spZ : pspec) (m : cmesh) (owners : list Z)
    (dev : nat -> device) (u : nat -> nat -> nat -> nat -> Q) (genv lenv : nat -> nat -> rank_env Q byte) (uninit : nat -> nat -> list Z)
    (garr larr : nat -> nat -> list (nat * message) -> list (nat * message))
    (orig nR cid pid ncomp rid num_steps : nat) (gs : list (group Q)) : option (list (group Q)) :=
  gs1 <- on_ranks (fun r => parallel_advection_store m (dev r) (u r) pid ncomp r) gs ;;
  gs2 <- foldM (fun gs step =>
      gs' <- on_ranks (fun r => parallel_advection_step (e_dev (genv step r)) pid nR ncomp num_steps step) gs ;;
      hybrid_move E (spR ++ [(orig, ncomp)]) spZ m owners (genv step) (lenv step) (uninit step) cid pid rid (garr step) (larr step) gs')
    gs1 (seq 0 num_steps) ;;
  gs3 <- on_ranks (fun r => parallel_advection_restore (dev r) pid nR ncomp) gs2 ;;
  hybrid_move E spR spZ m owners (genv num_steps) (lenv num_steps) (uninit num_steps) cid pid rid (garr num_steps) (larr num_steps) gs3.
