(** The set up of an unstructured mesh on all ranks: claims of mesh hierarchy cells, and the halo cells of each rank.
    src/external_interfaces/petsc/dmplex_interface.cpp L63-183 (get_unowned_cells, claim_mesh_hierarchy_cells, create_halos).
    The parts are modelled elsewhere: the claims of a rank (C72), the election of owners (C18), neighbouring cells (C19), the container
    (C69), the cells sent and the mesh made of them (C70). *)
From Coq Require Import List Arith ZArith Bool.
Import ListNotations.
From Verif Require Import Base Mesh_Model Serial_Model MHC_Model CellRep_Model Halo_Model Overlap_Model.
Open Scope Z_scope.

(** What a rank has of the mesh: the helper, the types of its points, and the bounding boxes of its cells in the order of the local
    numbers (dmplex_helper.cpp L371-405). *)
Record rank_mesh := mk_rank { rk_helper : helper; rk_types : Z -> Z; rk_boxes : list box }.

(** L63-89: the claimed cells go to one of two stacks, which are then emptied. *)
Definition get_unowned_cells (owners : list Z) (rank : Z) (cells : list Z) : option (list Z * list Z) :=
  foldM (fun acc c => o <- get_owner owners c ;; Some (if o =? rank then (c :: fst acc, snd acc) else (fst acc, c :: snd acc))) ([], []) cells.

(** L116-131: the elements on each mesh hierarchy cell, as they are sent. *)
Definition element_cells (ni : nat) (rank : nat) (rm : rank_mesh) (lc : claims) : option (list (Z * list cell_msg)) :=
  mapM (fun item => cs <- mapM (copyable_cell ni (rk_helper rm) (Z.of_nat rank) (rk_types rm)) (snd item) ;; Some (fst item, cs)) (geom_map lc).
(** L139-146 *)
Definition cells_to_gather (m : mesh) (owners : list Z) (rank : nat) (lc : claims) : option (list Z) :=
  s <- get_unowned_cells owners (Z.of_nat rank) (claim_cells lc) ;;
  get_neighbour_mh_cells m (fst s) (snd s) 1 false.
(** L151-167.  The set dmplex_cell_ids stays empty, so its test never skips a cell. *)
Definition halo_cells (ni : nat) (rank : nat) (st : mhc) (cells : list Z) : option (list cell_msg) :=
  foldM (fun acc c => l <- get (cell_serial ni) st c ;; Some (acc ++ filter (fun x => negb (owning_rank x =? Z.of_nat rank)) l)) [] cells.
(** L173-186: the set of the remote ranks; there are none without halo. *)
Definition remote_ranks (size : nat) (h : halo) : option (list Z) :=
  foldM (fun s e => let remote_rank := fst (fst (snd e)) in
                    if -1 <? remote_rank then _ <- assert (remote_rank <? Z.of_nat size) ;; Some (Mesh_Model.set_add remote_rank s) else Some s) [] (h_remote h).
(** L114-190, on all ranks. *)
Definition create_halos (ni : nat) (m : mesh) (owners : list Z) (find0 find1 : remote) (ranks : list rank_mesh) (lcs : list claims)
  : option (list (list cell_msg * halo * list Z)) :=
  let size := length ranks in let ids := seq 0 size in
  data <- mapM (fun x => element_cells ni (fst x) (fst (snd x)) (snd (snd x))) (List.combine ids (List.combine ranks lcs)) ;;
  st0 <- construct (cell_serial ni) size (get_owner owners) find0 data ;;
  req <- mapM (fun x => cells_to_gather m owners (fst x) (snd x)) (List.combine ids lcs) ;;
  st <- gather size (get_owner owners) find1 st0 req ;;
  mapM (fun x => cells <- halo_cells ni (fst x) (fst (snd x)) (snd (snd x)) ;;
                 h <- halo_from ni (ndim m) cells ;;
                 nb <- remote_ranks size h ;;
                 Some (cells, h, nb)) (List.combine ids (List.combine st req)).
(** L91-112, then create_halos.  Every rank reads the owners on its node; all nodes have the same map (C18), that of the first is used
    here. *)
Definition set_up (ni : nat) (m : mesh) (nodes : list (list nat)) (sched1 sched2 : nat -> list (nat * Z) -> list (nat * Z)) (maps0 : list (list Z))
    (find0 find1 : remote) (ranks : list rank_mesh) : option (list Z * list (list cell_msg * halo * list Z)) :=
  lcs <- mapM (fun rm => claim_elements m (rk_boxes rm)) ranks ;;
  made <- mapM claims_made lcs ;;
  n <- ncells_global m ;;
  maps <- claim_epoch (Z.to_nat n) nodes (fun r => nth r made []) sched1 sched2 maps0 ;;
  owners <- rd maps 0 ;;
  halos <- create_halos ni m owners find0 find1 ranks lcs ;;
  Some (owners, halos).
