(** Model of MeshHierarchy (src/mesh_hierarchy.cpp,
    include/neso_particles/mesh_hierarchy.hpp).  INT is [Z] with the division of
    C++ ([Z.quot], [Z.rem]); overflow is not modelled.  REAL is [Q]. *)
From Coq Require Import List Arith ZArith QArith Qabs Bool.
Import ListNotations.
From Verif Require Import Base Scan_Model.
Open Scope Z_scope.

(** mesh_hierarchy.hpp L61-86.  [order] is the subdivision order; the vectors
    dims and origin may be longer than ndim (mesh_hierarchy.cpp L38-41). *)
Record mesh := mk_mesh { ndim : nat; dims : list Z; order : nat; origin : list Q; extent : Q }.

(** mesh_hierarchy.cpp L47 *)
Definition ncells_dim_fine (m : mesh) : Z := 2 ^ Z.of_nat (order m).
(** L36 *)
Definition ncells_fine (m : mesh) : Z := ncells_dim_fine m ^ Z.of_nat (ndim m).
(** typedefs.hpp L24-30 reduce_mul, with L35 and L51 of mesh_hierarchy.cpp *)
Definition ncells_coarse (m : mesh) : option Z :=
  foldM (fun v ex => d <- rd (dims m) ex ;; Some (v * d)) 1 (seq 0 (ndim m)).
Definition ncells_global (m : mesh) : option Z := nc <- ncells_coarse m ;; Some (nc * ncells_fine m).

(** The conditions checked by the constructor, L37-49. *)
Definition construct (m : mesh) : option mesh :=
  _ <- assert (0 <? ndim m)%nat ;;
  _ <- assert (ndim m <=? length (dims m))%nat ;;
  _ <- assert (ndim m <=? length (origin m))%nat ;;
  ds <- mapM (rd (dims m)) (seq 0 (ndim m)) ;;
  _ <- assert (forallb (fun d => 0 <? d) ds) ;;
  _ <- assert (negb (Qle_bool (extent m) 0)) ;;
  Some m.

(** ** Index conversions *)

(** L89-96 and L98-105: the two functions differ in the multiplier [width]. *)
Definition tuple_to_linear (width : nat -> option Z) (nd : nat) (index_tuple : list Z) : option Z :=
  match nd with
  | O => None
  | S k =>
      index <- rd index_tuple k ;;
      foldM (fun index dimx => w <- width dimx ;; t <- rd index_tuple dimx ;; Some (index * w + t))
            index (rev (seq 0 k))
  end.
Definition tuple_to_linear_coarse (m : mesh) (index_tuple : list Z) := tuple_to_linear (rd (dims m)) (ndim m) index_tuple.
Definition tuple_to_linear_fine (m : mesh) (index_tuple : list Z) :=
  tuple_to_linear (fun _ => Some (ncells_dim_fine m)) (ndim m) index_tuple.
(** L82-87 *)
Definition tuple_to_linear_global (m : mesh) (index_tuple : list Z) : option Z :=
  index_coarse <- tuple_to_linear_coarse m index_tuple ;;
  index_fine <- tuple_to_linear_fine m (skipn (ndim m) index_tuple) ;;
  Some (index_coarse * ncells_fine m + index_fine).

(** L113-119 and L121-127; division by zero is a failure. *)
Definition linear_to_tuple (width : nat -> option Z) (nd : nat) (linear : Z) : option (list Z) :=
  r <- foldM (fun st dimx =>
         w <- width dimx ;; _ <- assert (negb (w =? 0)) ;;
         Some (Z.quot (fst st) w, snd st ++ [Z.rem (fst st) w])) (linear, []) (seq 0 nd) ;;
  Some (snd r).
Definition linear_to_tuple_coarse (m : mesh) (linear : Z) := linear_to_tuple (rd (dims m)) (ndim m) linear.
Definition linear_to_tuple_fine (m : mesh) (linear : Z) :=
  linear_to_tuple (fun _ => Some (ncells_dim_fine m)) (ndim m) linear.
(** L107-111 *)
Definition linear_to_tuple_global (m : mesh) (linear : Z) : option (list Z) :=
  coarse <- linear_to_tuple_coarse m (Z.quot linear (ncells_fine m)) ;;
  fine <- linear_to_tuple_fine m (Z.rem linear (ncells_fine m)) ;;
  Some (coarse ++ fine).

(** mesh_hierarchy.hpp L341-347 *)
Definition map_tuple_to_cart_tuple (m : mesh) (mh_tuple : list Z) : option (list Z) :=
  mapM (fun dimx => f <- rd mh_tuple (ndim m + dimx) ;; c <- rd mh_tuple dimx ;; Some (f + c * ncells_dim_fine m))
       (seq 0 (ndim m)).
(** mesh_hierarchy.hpp L385-392 *)
Definition cart_tuple_to_tuple (m : mesh) (cart_tuple : list Z) : option (list Z) :=
  coarse <- mapM (fun dimx => x <- rd cart_tuple dimx ;; Some (Z.quot x (ncells_dim_fine m))) (seq 0 (ndim m)) ;;
  fine <- mapM (fun dimx => x <- rd cart_tuple dimx ;; Some (Z.rem x (ncells_dim_fine m))) (seq 0 (ndim m)) ;;
  Some (coarse ++ fine).

(** ** Neighbours *)

(** std::set<INT>::insert *)
Fixpoint set_add (a : Z) (l : list Z) : list Z :=
  match l with
  | [] => [a]
  | b :: t => if a <? b then a :: l else if a =? b then l else b :: set_add a t
  end.

(** [for (o = a; o < b; o++)] *)
Definition zrange (a b : Z) : list Z := map (fun i => a + Z.of_nat i) (seq 0 (Z.to_nat (b - a))).

(** L265-292: one offset [ox]. *)
Definition neighbour_item (m : mesh) (cell : Z) (pbc : bool) (cell_counts global_tuple : list Z) (output : list Z) (ox : list Z)
  : option (list Z) :=
  r <- mapM (fun dimx =>
         x <- rd global_tuple dimx ;; o <- rd ox dimx ;; n <- rd cell_counts dimx ;;
         _ <- assert (negb (n =? 0)) ;;
         let offset_dim_linear_unmapped := x + o in
         let offset_dim_linear := Z.rem (offset_dim_linear_unmapped + n) n in
         Some (pbc || ((0 <=? offset_dim_linear_unmapped) && (offset_dim_linear_unmapped <? n)),
               (Z.quot offset_dim_linear (ncells_dim_fine m), Z.rem offset_dim_linear (ncells_dim_fine m))))
       (seq 0 (ndim m)) ;;
  let valid := forallb fst r in
  offset_linear <- tuple_to_linear_global m (map (fun e => fst (snd e)) r ++ map (fun e => snd (snd e)) r) ;;
  ng <- ncells_global m ;;
  _ <- assert (offset_linear <? ng) ;;
  _ <- assert (-1 <? offset_linear) ;;
  Some (if valid && negb (offset_linear =? cell) then set_add offset_linear output else output).

(** L230-296.  The arrays have three entries: more than three dimensions write
    outside them. *)
Definition get_neighbour_mh_cells_one (m : mesh) (cell offset : Z) (pbc : bool) (output : list Z) : option (list Z) :=
  offset_starts <- foldM (fun a dimx => upd a dimx (- offset)) [0; 0; 0] (seq 0 (ndim m)) ;;
  offset_ends <- foldM (fun a dimx => upd a dimx (offset + 1)) [1; 1; 1] (seq 0 (ndim m)) ;;
  cell_counts <- foldM (fun a dimx => d <- rd (dims m) dimx ;; upd a dimx (d * ncells_dim_fine m)) [1; 1; 1] (seq 0 (ndim m)) ;;
  global_tuple_mh <- linear_to_tuple_global m cell ;;
  global_tuple <- map_tuple_to_cart_tuple m global_tuple_mh ;;
  s0 <- rd offset_starts 0 ;; s1 <- rd offset_starts 1 ;; s2 <- rd offset_starts 2 ;;
  e0 <- rd offset_ends 0 ;; e1 <- rd offset_ends 1 ;; e2 <- rd offset_ends 2 ;;
  foldM (neighbour_item m cell pbc cell_counts global_tuple) output
    (flat_map (fun o2 => flat_map (fun o1 => map (fun o0 => [o0; o1; o2]) (zrange s0 e0)) (zrange s1 e1)) (zrange s2 e2)).

(** L298-320 *)
Definition get_neighbour_mh_cells (m : mesh) (cells cells_extra : list Z) (offset : Z) (pbc : bool) : option (list Z) :=
  let set0 := fold_left (fun s c => set_add c s) cells [] in
  let set1 := fold_left (fun s c => set_add c s) cells_extra set0 in
  foldM (fun s c => get_neighbour_mh_cells_one m c offset pbc s) set1 cells.

(** ** Positions *)

(** Conversion of a REAL to INT: towards zero. *)
Definition Qtrunc (q : Q) : Z := Z.quot (Qnum q) (Z.pos (Qden q)).
(** ABS(a) / ABS(b) <= tol; the division by zero gives no comparison (infinity or
    NaN), that is false. *)
Definition within_tol (a b : Q) : bool :=
  if Qeq_bool b 0 then false else Qle_bool (Qabs a / Qabs b) (1 # 10000000000).

(** mesh_hierarchy.hpp L70-77 and mesh_hierarchy.cpp L30-34 *)
Definition cell_width_coarse (m : mesh) : Q := extent m.
Definition cell_width_fine (m : mesh) : Q := (extent m / inject_Z (ncells_dim_fine m))%Q.
Definition inverse_cell_width_coarse (m : mesh) : Q := (1 / extent m)%Q.
Definition inverse_cell_width_fine (m : mesh) : Q := (inject_Z (ncells_dim_fine m) / extent m)%Q.

(** L287-327 (the same code is in src/global_mapping.cpp L118-164): one
    dimension.  Result: coarse index, fine index, both -2 if they could not be
    determined. *)
Definition map_dim (m : mesh) (dim : Z) (pos : Q) : Z * Z :=
  let cell_coarse0 := Qtrunc (pos * inverse_cell_width_coarse m)%Q in
  let '(cell_coarse, out_coarse) :=
    if dim <=? cell_coarse0 then
      if within_tol (pos - inject_Z dim * cell_width_coarse m)%Q pos then (dim - 1, dim - 1) else (0, -2)
    else (cell_coarse0, cell_coarse0) in
  let pos_fine := (pos - inject_Z cell_coarse * cell_width_coarse m)%Q in
  let cell_fine := Qtrunc (pos_fine * inverse_cell_width_fine m)%Q in
  let out_fine :=
    if ncells_dim_fine m <=? cell_fine then
      if within_tol (pos_fine - inject_Z (ncells_dim_fine m) * cell_width_fine m)%Q pos_fine then ncells_dim_fine m - 1 else -2
    else cell_fine in
  (out_coarse, out_fine).
Definition map_to_tuple (m : mesh) (position : list Q) : option (list Z) :=
  r <- mapM (fun dimx =>
         p <- rd position dimx ;; o <- rd (origin m) dimx ;; d <- rd (dims m) dimx ;;
         Some (map_dim m d (p - o)%Q)) (seq 0 (ndim m)) ;;
  Some (map fst r ++ map snd r).

(** L358-376 *)
Definition cart_dim (m : mesh) (o pos : Q) : Z :=
  if Qle_bool o pos then Qtrunc ((pos - o) * inverse_cell_width_fine m)%Q
  else - (Qtrunc ((o - pos) * inverse_cell_width_fine m)%Q + 1).
Definition map_to_cart_tuple_no_trunc (m : mesh) (position : list Q) : option (list Z) :=
  mapM (fun dimx => p <- rd position dimx ;; o <- rd (origin m) dimx ;; Some (cart_dim m o p)) (seq 0 (ndim m)).

(** ** Claims *)

(** The values stored in the map: C++ [int]; [mask] is the lowest value. *)
Definition mask : Z := - 2 ^ 31.

(** L146-159, the check of the weight; the stored weight is shifted by [mask]. *)
Definition claim_weight (weight : Z) : option Z :=
  _ <- assert (negb (weight =? mask) && (0 <? weight) && (weight <? -1 * (mask + 1))) ;;
  Some (weight + mask).

(** MPI_Get_accumulate with MPI_MAX on the shared window of a node. *)
Definition acc_max (map_ : list Z) (e : nat * Z) : option (list Z) :=
  v <- rd map_ (fst e) ;; upd map_ (fst e) (Z.max v (snd e)).

(** L5-21: all nodes hold the element wise maximum. *)
Definition all_reduce_max (maps : list (list Z)) : option (list (list Z)) :=
  match maps with
  | [] => Some []
  | m0 :: rest =>
      r <- foldM (fun a b => _ <- assert (length a =? length b)%nat ;;
                             Some (map (fun p => Z.max (fst p) (snd p)) (combine a b))) m0 rest ;;
      Some (map (fun _ => r) maps)
  end.

(** L129-144 on one node with [size_intra] ranks: the ranks set disjoint parts. *)
Definition claim_initialise (ncells size_intra : nat) (map0 : list Z) : option (list Z) :=
  foldM (fun m rank => foldM (fun m c => upd m c mask) m
           (seq (decomp_start size_intra ncells rank) (decomp_end size_intra ncells rank - decomp_start size_intra ncells rank)))
        map0 (seq 0 size_intra).

(** A whole epoch: claim_initialise, any number of claim_cell, claim_finalise.
    [nodes]: the ranks (of the parent communicator) on each node.  [claims r]:
    the (cell, weight) pairs rank [r] claims.  [sched1], [sched2]: the order in
    which the accumulates of the ranks of a node take effect in the two phases.
    [maps0]: previous contents of the windows. *)
Section Claims.
  Context (ncells : nat) (nodes : list (list nat)) (claims : nat -> list (nat * Z)).
  Context (sched1 sched2 : nat -> list (nat * Z) -> list (nat * Z)) (maps0 : list (list Z)).

  (** L146-151: the claims of a rank with shifted weights. *)
  Definition rank_claims (r : nat) : option (list (nat * Z)) :=
    mapM (fun e => w <- claim_weight (snd e) ;; Some (fst e, w)) (claims r).

  (** L171-180 and L190-201: the cells for which rank [r] reached the maximum,
      with the value it accumulates. *)
  Definition binned (map_ : list Z) (r : nat) (cs : list (nat * Z)) : option (list (nat * Z)) :=
    b <- mapM (fun e => v <- rd map_ (fst e) ;; Some (v <=? snd e, e)) cs ;;
    Some (map (fun e => (fst (snd e), Z.of_nat r)) (filter fst b)).

  Definition claim_epoch : option (list (list Z)) :=
    let node_ids := seq 0 (length nodes) in
    maps1 <- mapM (fun k => ranks <- rd nodes k ;; m <- rd maps0 k ;; claim_initialise ncells (length ranks) m) node_ids ;;
    maps2 <- mapM (fun k => ranks <- rd nodes k ;; m <- rd maps1 k ;;
               cs <- mapM rank_claims ranks ;; foldM acc_max m (sched1 k (concat cs))) node_ids ;;
    maps3 <- all_reduce_max maps2 ;;
    maps4 <- mapM (fun k => ranks <- rd nodes k ;; m <- rd maps3 k ;;
               bs <- mapM (fun r => cs <- rank_claims r ;; binned m r cs) ranks ;;
               foldM acc_max m (sched2 k (concat bs))) node_ids ;;
    all_reduce_max maps4.
End Claims.

(** L217-228 with L212-215: the owners of cells given as tuples. *)
Definition get_owner (map_ : list Z) (index : Z) : option Z :=
  if index <? 0 then None else rd map_ (Z.to_nat index).
