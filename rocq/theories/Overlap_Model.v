(** The cells of the mesh hierarchy that the bounding boxes of mesh elements overlap, and the claims made for them.
    src/external_interfaces/common/local_claim.cpp, include/neso_particles/external_interfaces/common/local_claim.hpp,
    bounding_box.hpp; DMPlexInterface::claim_mesh_hierarchy_cells (src/external_interfaces/petsc/dmplex_interface.cpp L91-112).
    REAL is [Q]; int is [Z] without overflow. *)
From Coq Require Import List Arith ZArith QArith Qminmax Bool.
Import ListNotations.
From Verif Require Import Base Mesh_Model CellRep_Model.
Open Scope Z_scope.

(** bounding_box.hpp L16-60: six numbers, [min_x, min_y, min_z, max_x, max_y, max_z]; the constructor L36-39 checks the number. *)
Definition box := list Q.
Definition make_box (bb : list Q) : option box := _ <- assert (length bb =? 6)%nat ;; Some bb.
Definition lower (b : box) (dimx : nat) : option Q := rd b dimx.
Definition upper (b : box) (dimx : nat) : option Q := rd b (3 + dimx).

(** local_claim.cpp L17-35 *)
Definition overlap_1d (lhs rhs : Q) (cell : Z) (cell_width_fine : Q) : Q :=
  let cell_start := (inject_Z cell * cell_width_fine)%Q in
  let cell_end := (cell_start + cell_width_fine)%Q in
  if Qle_bool rhs cell_start then 0%Q
  else if Qle_bool cell_end lhs then 0%Q
  else
    let interval_start := Qmax cell_start lhs in
    let interval_end := Qmin cell_end rhs in
    let area := (interval_end - interval_start)%Q in
    if negb (Qle_bool area 0) then area else 0%Q.

(** L37-46 *)
Definition mesh_tuple_to_mh_tuple (m : mesh) (index_mesh : list Z) : option (list Z) :=
  coarse <- mapM (fun dimx => x <- rd index_mesh dimx ;; Some (Z.quot x (ncells_dim_fine m))) (seq 0 (ndim m)) ;;
  fine <- mapM (fun dimx => x <- rd index_mesh dimx ;; Some (Z.rem x (ncells_dim_fine m))) (seq 0 (ndim m)) ;;
  Some (coarse ++ fine).

(** L62-81: of one dimension the first cell, the cell after the last one, and the shifted bounds. *)
Definition cell_bounds (m : mesh) (b : box) (dimx : nat) : option ((Z * Z) * (Q * Q)) :=
  lo <- lower b dimx ;; up <- upper b dimx ;; o <- rd (origin m) dimx ;; d <- rd (dims m) dimx ;;
  let lhs_point := (lo - o)%Q in
  let rhs_point := (up - o)%Q in
  let lhs_cell := Qtrunc (lhs_point * inverse_cell_width_fine m)%Q in
  let rhs_cell := Qtrunc (rhs_point * inverse_cell_width_fine m + 1)%Q in
  let ncells_dim_fine_ := ncells_dim_fine m * d in
  let lhs_cell := if lhs_cell <? 0 then 0 else lhs_cell in
  let lhs_cell := if ncells_dim_fine_ <=? lhs_cell then ncells_dim_fine_ else lhs_cell in
  let rhs_cell := if rhs_cell <? 0 then 0 else rhs_cell in
  let rhs_cell := if ncells_dim_fine_ <? rhs_cell then ncells_dim_fine_ else rhs_cell in
  Some ((lhs_cell, rhs_cell), (lhs_point, rhs_point)).

(** L98-118: one cell of the box of cells. *)
Definition overlap_item (m : mesh) (shifted : list (Q * Q)) (cells : list (Z * Q)) (index_mesh : list Z) : option (list (Z * Q)) :=
  let area (dimx : nat) : option Q :=
    if (dimx <? ndim m)%nat then
      s <- rd shifted dimx ;; c <- rd index_mesh dimx ;; Some (overlap_1d (fst s) (snd s) c (cell_width_fine m))
    else Some 1%Q in
  area_z <- area 2%nat ;; area_y <- area 1%nat ;; area_x <- area 0%nat ;;
  let volume := (area_x * area_y * area_z)%Q in
  if negb (Qle_bool volume 0) then
    index_mh <- mesh_tuple_to_mh_tuple m index_mesh ;;
    index_global <- tuple_to_linear_global m index_mh ;;
    Some (cells ++ [(index_global, volume)])
  else Some cells.

(** L48-124.  The arrays have three entries: more dimensions write outside them. *)
Definition bounding_box_map (m : mesh) (b : box) : option (list (Z * Q)) :=
  _ <- assert (ndim m <=? 3)%nat ;;
  bounds <- mapM (cell_bounds m b) (seq 0 (ndim m)) ;;
  let cell_starts := map (fun e => fst (fst e)) bounds ++ repeat 0 (3 - ndim m) in
  let cell_ends := map (fun e => snd (fst e)) bounds ++ repeat 1 (3 - ndim m) in
  s0 <- rd cell_starts 0 ;; s1 <- rd cell_starts 1 ;; s2 <- rd cell_starts 2 ;;
  e0 <- rd cell_ends 0 ;; e1 <- rd cell_ends 1 ;; e2 <- rd cell_ends 2 ;;
  foldM (overlap_item m (map snd bounds)) []
    (flat_map (fun cz => flat_map (fun cy => map (fun cx => [cx; cy; cz]) (zrange s0 e0)) (zrange s1 e1)) (zrange s2 e2)).

(** local_claim.hpp L36-52: LocalClaim, and MHGeomMap (L97). *)
Record claims := mk_claims { claim_weights : zmap (Z * Q); claim_cells : list Z; geom_map : zmap (list Z) }.
Definition no_claims : claims := mk_claims [] [] [].
(** local_claim.cpp L5-15; looking up a weight creates the entry (0, 0). *)
Definition claim (lc : claims) (index weight : Z) (weightf : Q) : claims :=
  if 0 <? weight then
    let current := match map_get (claim_weights lc) index with Some w => w | None => (0, 0%Q) end in
    mk_claims (map_set (claim_weights lc) index (if fst current <? weight then (weight, weightf) else current))
              (set_add index (claim_cells lc)) (geom_map lc)
  else lc.
(** L126-147 *)
Definition bounding_box_claim (m : mesh) (lc : claims) (element : Z * box) : option claims :=
  cells <- bounding_box_map m (snd element) ;;
  let inverse_cell_volume := (1 / Qpower (cell_width_fine m) (Z.of_nat (ndim m)))%Q in
  Some (fold_left (fun lc e =>
    let ratio := (snd e * inverse_cell_volume)%Q in
    let weight := Qtrunc (1000000 * ratio)%Q in
    let lc := claim lc (fst e) weight ratio in
    mk_claims (claim_weights lc) (claim_cells lc)
      (map_set (geom_map lc) (fst e) (match map_get (geom_map lc) (fst e) with Some l => l | None => [] end ++ [fst element]))) cells lc).
(** dmplex_interface.cpp L96-109: of all the cells of a rank, in the order of their local numbers.  The claims passed to
    claim_cell. *)
Definition claim_elements (m : mesh) (boxes : list box) : option claims :=
  foldM (bounding_box_claim m) no_claims (combine (map Z.of_nat (seq 0 (length boxes))) boxes).
Definition claims_made (lc : claims) : option (list (nat * Z)) :=
  mapM (fun c => w <- map_get (claim_weights lc) c ;; Some (Z.to_nat c, fst w)) (claim_cells lc).
