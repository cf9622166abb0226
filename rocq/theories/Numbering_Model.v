(** Model of the map from global cells to ranks.  "helper.cpp" is src/external_interfaces/petsc/dmplex_helper.cpp.  The
    helper of a rank is that of Halo_Model (C71). *)
From Coq Require Import List Arith ZArith Bool.
Import ListNotations.
From Verif Require Import Base Halo_Model.
Local Open Scope nat_scope.

(** The arguments of the constructor of DMPlexHelper on a rank, see Halo_Model. *)
Record plex := Plex { p_dm : dm; p_num : Z -> Z; p_start : Z; p_end : Z }.
Definition make (p : plex) : option helper := make_helper (p_dm p) (p_num p) (p_start p) (p_end p).
(** helper.cpp L305 *)
Definition get_cell_count (h : helper) : nat := length (np_to_petsc h).

Definition int_max : Z := 2147483647.
Definition int_min : Z := (-2147483648)%Z.
(** [std::vector<int>::at] for writing *)
Definition at_put (l : list Z) (i v : Z) : option (list Z) := if (i <? 0)%Z then None else upd l (Z.to_nat i) v.
(** helper.cpp L768-776 and L790-795: the global numbers of the cells of a rank. *)
Definition cell_ids (h : helper) : option (list Z) :=
  mapM (fun cellx => point_index <- get_dmplex_cell_index h (Z.of_nat cellx) ;; get_point_global_index h point_index) (seq 0 (get_cell_count h)).
(** MPI_Allreduce with MPI_MAX of vectors of one length. *)
Definition max_all (n : nat) (ls : list (list Z)) : option (list Z) :=
  match ls with
  | [] => None
  | l :: rest => foldM (fun a l => mapM (fun i => x <- rd a i ;; y <- rd l i ;; Some (Z.max x y)) (seq 0 n)) l rest
  end.
(** helper.cpp L753-805 [get_map_from_global_cell_points_to_ranks], collective; the result is the same on all ranks. *)
Definition get_map (hs : list helper) : option (Z * list Z) :=
  let global_cell_count := list_sum (map get_cell_count hs) in
  ids <- mapM cell_ids hs ;;
  let global_point_min := fold_left Z.min (map (fun l => fold_left Z.min l int_max) ids) int_max in
  let global_point_max := fold_left Z.max (map (fun l => fold_left Z.max l int_min) ids) int_min in
  _ <- assert (global_point_max - global_point_min + 1 =? Z.of_nat global_cell_count)%Z ;;
  locals <- mapM (fun rank => l <- rd ids rank ;;
      foldM (fun o g => at_put o (g - global_point_min) (Z.of_nat rank)) (repeat (-1)%Z global_cell_count) l) (seq 0 (length hs)) ;;
  cell_owners <- max_all global_cell_count locals ;;
  Some (global_point_min, cell_owners).
