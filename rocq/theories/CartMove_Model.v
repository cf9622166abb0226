(** Moving the particles of all ranks to the rank and cell of their position:
    ParticleGroup::hybrid_move, ParticleGroup::cell_move on a Cartesian mesh. *)
From Coq Require Import List Arith ZArith QArith Bool.
Import ListNotations.
From Verif Require Import Base Group_Model Add_Model Pack_Model Exchange_Model Move_Model Mesh_Model CartMesh_Model CartMap_Model.
Local Open Scope nat_scope.

(** Every rank does [f]; [gs] is the list of the groups of the ranks. *)
Definition on_ranks {A B} (f : nat -> A -> option B) (gs : list A) : option (list B) :=
  mapM (fun p => f (fst p) (snd p)) (combine (seq 0 (length gs)) gs).

Section Move.
  Context {byte : Type} (E : encoding Q byte) (spR spZ : pspec) (m : cmesh) (owners : list Z).

  (** src/particle_group.cpp L1099-1101 on one rank.  [pid], [cid], [rid] are the
      first components of the position, the cell id and NESO_MPI_RANK.  The local
      mapper is made by the domain's constructor; its construction is a function
      of the mesh and repeated here. *)
  Definition assign_ranks (d : device) (uninit : list Z) (pid rid rank : nat) (g : group Q) : option (group Q) :=
    g1 <- reset_mpi_ranks d 300 rid g ;;
    mp <- construct_mapper m owners rank ;;
    g2 <- local_map d 301 m mp pid rid None g1 ;;
    global_map d 302 uninit (hier m) owners pid rid g2.
  (** L1109: only the cell in which a move leaves its arrivals. *)
  Definition assign_arrivals (d : device) (pid rid rank : nat) (g : group Q) : option (group Q) :=
    mp <- construct_mapper m owners rank ;;
    local_map d 306 m mp pid rid (Some 0) g.

  (** L1098-1118 on all ranks.  The constructor of the group (L118-122) gave the
      neighbours of the mesh to LocalMove.  [genv], [lenv]: what GlobalMove and
      LocalMove find on each rank (see [rank_env]); [garr], [larr]: the order in
      which their messages arrive.  [set_npart_cell_from_dat] copies counts the
      model keeps once. *)
  Definition hybrid_move (genv lenv : nat -> rank_env Q byte) (uninit : nat -> list Z) (cid pid rid : nat)
      (garr larr : nat -> list (nat * message) -> list (nat * message)) (gs : list (group Q)) : option (list (group Q)) :=
    gs1 <- on_ranks (fun r => assign_ranks (e_dev (genv r)) (uninit r) pid rid r) gs ;;
    gs2 <- global_move E spR spZ genv cid rid garr gs1 ;;
    gs3 <- on_ranks (fun r => assign_arrivals (e_dev (lenv r)) pid rid r) gs2 ;;
    nbrs <- mapM (get_local_communication_neighbours m owners) (seq 0 (length gs)) ;;
    local_move E spR spZ lenv cid (rid + 1) (fun r => nth r nbrs []) larr gs3.

  (** L1124-1129 on one rank. *)
  Definition cell_move_rank (d : device) (pad : nat) (uR : nat -> nat -> nat -> Q) (uZ : nat -> nat -> nat -> Z)
      (pid cid rank : nat) (g : group Q) : option (group Q) :=
    g1 <- map_cells d 310 m rank pid cid g ;;
    Move_Model.cell_move d pad uR uZ cid g1.
  Definition cell_move_all (env : nat -> rank_env Q byte) (pad : nat) (pid cid : nat) (gs : list (group Q)) : option (list (group Q)) :=
    on_ranks (fun r => cell_move_rank (e_dev (env r)) pad (e_uR (env r)) (e_uZ (env r)) pid cid r) gs.

  (** What an application does after it has changed positions (for example
      test/test_particle_group_hybrid_move.cpp): periodic boundary conditions, [hybrid_move],
      [cell_move]. *)
  Definition time_step_move (genv lenv cenv : nat -> rank_env Q byte) (uninit : nat -> list Z) (pad cid pid rid : nat)
      (garr larr : nat -> list (nat * message) -> list (nat * message)) (gs : list (group Q)) : option (list (group Q)) :=
    gs0 <- on_ranks (fun r => cartesian_periodic (e_dev (genv r)) 299 m pid None) gs ;;
    gs1 <- hybrid_move genv lenv uninit cid pid rid garr larr gs0 ;;
    cell_move_all cenv pad pid cid gs1.
End Move.
