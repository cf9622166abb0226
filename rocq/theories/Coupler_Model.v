(** Model of DMPlexMeshCouplerDG0: transfer of piecewise constant functions between two meshes.
    "coupler.cpp" is src/external_interfaces/petsc/dmplex_mesh_coupler_dg0.cpp.  All ranks are modelled together:
    a list has one element per rank.  REAL is [Q]. *)
From Coq Require Import List Arith ZArith QArith Bool.
Import ListNotations.
From Verif Require Import Base Bmi_Model.
Local Open Scope nat_scope.

(** dmplex_mesh_coupler_dg0.hpp L13-21 DMPlexMeshCouplerDG0MapEntry *)
Record entry := Entry { e_cell : Z; e_fwd : Q; e_bwd : Q }.
(** coupling_map of a rank *)
Definition cmap := list (list entry).

(** Mesh B: global_point_min and cell_owners of coupler.cpp L25-26, and on each rank the number of cells and
    map_gobal_point_to_local_point of dmplex_helper.cpp L350-356. *)
Record mesh_b := MeshB { b_min : Z; b_owners : list nat; b_count : list nat; b_local : nat -> Z -> option nat }.

(** coupler.cpp L39-40 *)
Definition owner_of (b : mesh_b) (g : Z) : option nat :=
  if (g <? b_min b)%Z then None else rd (b_owners b) (Z.to_nat (g - b_min b)).

(** coupler.cpp L36-52: the remote rank, the cell of A and the entry, in the order of the calls of push_back.
    The four maps of vectors and remote_ranks_set hold parts of these elements. *)
Definition pushes (b : mesh_b) (m : cmap) : option (list (nat * (nat * entry))) :=
  r <- mapM (fun cell_A => es <- rd m cell_A ;;
         mapM (fun e => remote_rank <- owner_of b (e_cell e) ;; Some (remote_rank, (cell_A, e))) es) (seq 0 (length m)) ;;
  Some (concat r).
(** [.at(rankx)] of the maps of vectors: an error for a rank without elements. *)
Definition at_rank (l : list (nat * (nat * entry))) (rankx : nat) : option (list (nat * entry)) :=
  match map snd (filter (fun p => fst p =? rankx) l) with [] => None | v => Some v end.

(** dmplex_mesh_coupler_dg0.hpp L74-135: the members.  The displacements are the running sums of the counts, and
    are computed where they are used.  The factors sizeof(int) and sizeof(REAL) of displacements in bytes are left out. *)
Record coupler := Coupler {
  k_graph : graph; k_nA : nat; k_nB : nat; k_base : nat;
  k_scf : list nat; k_rcf : list nat; k_cfA : list nat; k_wfA : list Q; k_cfB : list nat;
  k_scb : list nat; k_rcb : list nat; k_cbA : list nat; k_wbA : list Q; k_cbB : list nat
}.

(** coupler.cpp L190-203, L226-235 and L250-261: the part of an array that belongs to a neighbour. *)
Definition part_of {T} (ranks counts : list nat) (data : list T) (rankx : nat) : option (list T) :=
  i <- find_index rankx ranks ;; num_cells <- rd counts i ;; forward_disp <- rd (displs 0 counts) i ;;
  slice data forward_disp (forward_disp + num_cells).

(** coupler.cpp L9-309, the constructor, collective.  [graphs] are the neighbours reported by MPI (Bmi_Model). *)
Definition construct (b : mesh_b) (graphs : list graph) (maps : list cmap) : option (list coupler) :=
  let R := length maps in
  (* L36-52 *)
  ps <- mapM (pushes b) maps ;;
  (* L102-115 *)
  scf <- mapM (fun r => g <- rd graphs r ;; l <- rd ps r ;; mapM (fun d => v <- at_rank l d ;; Some (length v)) (g_dests g)) (seq 0 R) ;;
  rcf <- neighbor_alltoall (map g_dests graphs) (map g_srcs graphs) scf (map (fun g => repeat 0 (length (g_srcs g))) graphs) ;;
  (* L153-171 *)
  sent <- mapM (fun r => g <- rd graphs r ;; l <- rd ps r ;; v <- mapM (at_rank l) (g_dests g) ;; Some (concat v)) (seq 0 R) ;;
  (* L173-190 *)
  cfB <- neighbor_alltoallw (map g_dests graphs) (map g_srcs graphs) scf rcf (map (map (fun p => e_cell (snd p))) sent) (map (fun c => repeat 0%Z (list_sum c)) rcf) ;;
  mapM (fun r =>
    g <- rd graphs r ;; l <- rd ps r ;; m <- rd maps r ;; sc <- rd scf r ;; rc <- rd rcf r ;; sn <- rd sent r ;; cB <- rd cfB r ;; nB <- rd (b_count b) r ;;
    let cA := map fst sn in
    (* L225-246 *)
    back_A <- mapM (fun rankx =>
        cells <- part_of (g_dests g) sc cA rankx ;; wb <- at_rank l rankx ;;
        _ <- assert (length wb =? length cells) ;;
        Some (cells, map (fun p => e_bwd (snd p)) wb)) (g_rsrcs g) ;;
    (* L248-265 *)
    back_B <- mapM (part_of (g_srcs g) rc cB) (g_rdests g) ;;
    (* L280-292 *)
    lf <- mapM (b_local b r) cB ;;
    lb <- mapM (b_local b r) (concat back_B) ;;
    let sb := map (@length Z) back_B in
    Some (Coupler g (length m) nB (max (list_sum sc) (list_sum sb))
            sc rc cA (map (fun p => e_fwd (snd p)) sn) lf
            sb (map (fun p => length (fst p)) back_A) (concat (map fst back_A)) (concat (map snd back_A)) lb)) (seq 0 R).

(** coupler.cpp L311-324 [prepare_transfer]: the buffer is resized if it is too small. *)
Definition prepare (k : coupler) (ncomp : nat) (stage : list Q) : list Q := stage ++ repeat 0%Q (ncomp * k_base k - length stage).

(** Writing the rows of one side to the stage, L336-344 and L391-397; adding rows, L372-379 and L426-435. *)
Definition write_rows (ncomp count : nat) (f : nat -> nat -> option Q) (stage : list Q) : option (list Q) :=
  foldM (fun s ix => foldM (fun s dx => v <- f ix dx ;; upd s (ix * ncomp + dx) v) s (seq 0 ncomp)) stage (seq 0 count).
Definition add_rows (ncomp : nat) (cells : list nat) (f : nat -> nat -> option Q) (dofs : list Q) : option (list Q) :=
  foldM (fun o ix => c <- rd cells ix ;; foldM (fun o dx => v <- f ix dx ;; old <- rd o (c * ncomp + dx) ;; upd o (c * ncomp + dx) (old + v)%Q) o (seq 0 ncomp))
    dofs (seq 0 (length cells)).
Definition scaled (ncomp : nat) (l : list nat) : list nat := map (fun ix => ix * ncomp) l.

(** coupler.cpp L326-380 [forward_transfer], collective; the contents of the stages are arbitrary. *)
Definition forward_transfer (ks : list coupler) (ncomp : nat) (sends recvs dofs_A dofs_B : list (list Q)) : option (list (list Q)) :=
  let R := length ks in
  _ <- assert (0 <? ncomp) ;;
  ss <- mapM (fun r => k <- rd ks r ;; s <- rd sends r ;; a <- rd dofs_A r ;; b <- rd dofs_B r ;;
    _ <- assert (k_nA k * ncomp <=? length a) ;; _ <- assert (k_nB k * ncomp <=? length b) ;;
    write_rows ncomp (length (k_cfA k)) (fun ix dx => index_A <- rd (k_cfA k) ix ;; w <- rd (k_wfA k) ix ;; v <- rd a (index_A * ncomp + dx) ;; Some (v * w)%Q) (prepare k ncomp s)) (seq 0 R) ;;
  rs <- mapM (fun r => k <- rd ks r ;; s <- rd recvs r ;; Some (prepare k ncomp s)) (seq 0 R) ;;
  rs <- neighbor_alltoallw (map (fun k => g_dests (k_graph k)) ks) (map (fun k => g_srcs (k_graph k)) ks)
          (map (fun k => scaled ncomp (k_scf k)) ks) (map (fun k => scaled ncomp (k_rcf k)) ks) ss rs ;;
  mapM (fun r => k <- rd ks r ;; s <- rd rs r ;; b <- rd dofs_B r ;;
    add_rows ncomp (k_cfB k) (fun ix dx => rd s (ix * ncomp + dx)) (repeat 0%Q (length b))) (seq 0 R).

(** coupler.cpp L382-436 [backward_transfer] *)
Definition backward_transfer (ks : list coupler) (ncomp : nat) (sends recvs dofs_B dofs_A : list (list Q)) : option (list (list Q)) :=
  let R := length ks in
  _ <- assert (0 <? ncomp) ;;
  ss <- mapM (fun r => k <- rd ks r ;; s <- rd sends r ;; a <- rd dofs_A r ;; b <- rd dofs_B r ;;
    _ <- assert (k_nA k * ncomp <=? length a) ;; _ <- assert (k_nB k * ncomp <=? length b) ;;
    write_rows ncomp (length (k_cbB k)) (fun ix dx => index_B <- rd (k_cbB k) ix ;; rd b (index_B * ncomp + dx)) (prepare k ncomp s)) (seq 0 R) ;;
  rs <- mapM (fun r => k <- rd ks r ;; s <- rd recvs r ;; Some (prepare k ncomp s)) (seq 0 R) ;;
  rs <- neighbor_alltoallw (map (fun k => g_rdests (k_graph k)) ks) (map (fun k => g_rsrcs (k_graph k)) ks)
          (map (fun k => scaled ncomp (k_scb k)) ks) (map (fun k => scaled ncomp (k_rcb k)) ks) ss rs ;;
  mapM (fun r => k <- rd ks r ;; s <- rd rs r ;; a <- rd dofs_A r ;;
    add_rows ncomp (k_cbA k) (fun ix dx => v <- rd s (ix * ncomp + dx) ;; w <- rd (k_wbA k) ix ;; Some (v * w)%Q) (repeat 0%Q (length a))) (seq 0 R).
