(** Model of CartesianHMesh without its boundary faces
    (src/cartesian_mesh/cartesian_h_mesh.cpp,
    include/neso_particles/cartesian_mesh/cartesian_h_mesh.hpp) and of the
    functions that choose its decomposition
    (src/communication/communication_utility.cpp L188-275).  [int] and INT are
    [Z]; overflow is not modelled except where a REAL is converted to [int].
    REAL is [Q]. *)
From Coq Require Import List Arith ZArith QArith Bool.
Import ListNotations.
From Verif Require Import Base Scan_Model Mesh_Model.
Open Scope Z_scope.

(** ** The Cartesian communicator

    MPI_Cart_create, MPI_Cart_rank and MPI_Cart_coords: the implementation may
    number the ranks of the new communicator in any way (L98 passes
    reorder = 1). *)
Record cart := mk_cart { csize : nat; cdims : list nat; crank : list nat -> option nat; ccoords : nat -> option (list nat) }.

(** ** The choice of the decomposition *)

(** What the C++ library and MPI leave open: MPI_Dims_create(size, ndim), and
    the order of equal elements in reverse_argsort (typedefs.hpp L141-152,
    std::sort is not stable). *)
Record chooser := mk_chooser { dims_create : nat -> nat -> list nat; reverse_argsort : list nat -> list nat }.

(** std::sort with std::greater: insertion sort gives the same vector. *)
Fixpoint insert_desc (a : nat) (l : list nat) : list nat :=
  match l with
  | [] => [a]
  | b :: t => if (b <=? a)%nat then a :: l else b :: insert_desc a t
  end.
Definition sort_desc (l : list nat) : list nat := fold_right insert_desc [] l.

(** communication_utility.cpp L188-195 *)
Definition get_cart_dims (e : chooser) (size nd : nat) : list nat :=
  if (0 <? nd)%nat then dims_create e size nd else [].

(** L197-210; a position out of range is the exception thrown by at(). *)
Definition get_reordered_cart_decomp (e : chooser) (nd : nat) (mpi_dims cell_counts : list nat) : option (list nat) :=
  let cell_count_ordering := reverse_argsort e cell_counts in
  let sorted := sort_desc mpi_dims in
  foldM (fun a dimx => o <- rd cell_count_ordering dimx ;; v <- rd sorted dimx ;; upd a o v) (repeat 0%nat nd) (seq 0 nd).

(** L222-238: one dimension of the search; the state is effective_ndim,
    effective_size, known_dims (-1 is [None]) and reduced_space. *)
Definition lower_step (cell_counts : list nat) (st : nat * nat * list (option nat) * list nat) (dimx : nat)
  : option (nat * nat * list (option nat) * list nat) :=
  let '(effective_ndim, effective_size, known_dims, reduced_space) := st in
  cell_count <- rd cell_counts dimx ;;
  _ <- assert (negb (cell_count =? 0)%nat) ;;
  if (effective_size mod cell_count =? 0)%nat then
    e <- sub_ effective_ndim 1 ;;
    k <- upd known_dims dimx (Some cell_count) ;;
    Some (e, (effective_size / cell_count)%nat, k, reduced_space)
  else Some (effective_ndim, effective_size, known_dims, reduced_space ++ [cell_count]).

(** L251-256: the unknown entries are filled in order. *)
Definition fill_known (tmp : list nat) (known : list (option nat)) : option (list nat) :=
  r <- foldM (fun st k => match k with
                          | Some v => if (v <? 1)%nat then x <- rd tmp (fst st) ;; Some (S (fst st), snd st ++ [x])
                                      else Some (fst st, snd st ++ [v])
                          | None => x <- rd tmp (fst st) ;; Some (S (fst st), snd st ++ [x])
                          end) (0%nat, []) known ;;
  Some (snd r).

(** L212-260 *)
Definition get_lower_dimension_cart_decomp (e : chooser) (size nd : nat) (cell_counts : list nat) : option (list nat) :=
  st <- foldM (lower_step cell_counts) (nd, size, repeat None nd, []) (seq 0 nd) ;;
  let '(effective_ndim, effective_size, known_dims, reduced_space) := st in
  if (effective_ndim =? 0)%nat then
    mapM (fun k => k) known_dims
  else if negb (effective_ndim =? nd)%nat then
    tmp <- get_reordered_cart_decomp e effective_ndim (get_cart_dims e effective_size effective_ndim) reduced_space ;;
    fill_known tmp known_dims
  else get_reordered_cart_decomp e nd (get_cart_dims e size nd) cell_counts.

(** std::max_element: the first greatest element. *)
Fixpoint max_element (l : list nat) (best i at_ : nat) : nat :=
  match l with
  | [] => best
  | a :: t => if (at_ <? a)%nat then max_element t i (S i) a else max_element t best (S i) at_
  end.
Definition argmax (l : list nat) : nat := match l with [] => 0%nat | a :: t => max_element t 0 1 a end.

(** L262-275 *)
Definition get_single_dimension_cart_decomp (size nd : nat) (cell_counts : list nat) : option (list nat) :=
  upd (repeat 1%nat nd) (argmax cell_counts) size.

(** cartesian_h_mesh.cpp L41-59, lambda_valid_decomp *)
Definition valid_decomp (size nd : nat) (cell_counts mpi_dims : list nat) : option bool :=
  nranks <- foldM (fun n dimx => d <- rd mpi_dims dimx ;; Some (n * d)%nat) 1%nat (seq 0 nd) ;;
  if negb (nranks =? size)%nat then Some false
  else
    l <- mapM (fun dimx => d <- rd mpi_dims dimx ;; c <- rd cell_counts dimx ;; Some (d <=? c)%nat) (seq 0 nd) ;;
    Some (forallb (fun b => b) l).

(** L61-95; [parent]: the dims of the communicator passed by the user if it is a
    Cartesian communicator.  [cell_counts] has three entries, the unused ones
    are 0 (cartesian_h_mesh.hpp L55). *)
Definition choose_decomp (e : chooser) (parent : option (list nat)) (size nd : nat) (cell_counts : list nat) : option (list nat) :=
  mpi_dims <- match parent with
              | Some parent_dims => Some parent_dims
              | None =>
                  d0 <- get_reordered_cart_decomp e nd (get_cart_dims e size nd) cell_counts ;;
                  v0 <- valid_decomp size nd cell_counts d0 ;;
                  d1 <- (if v0 then Some d0 else get_lower_dimension_cart_decomp e size nd cell_counts) ;;
                  v1 <- valid_decomp size nd cell_counts d1 ;;
                  if v1 then Some d1 else get_single_dimension_cart_decomp size nd cell_counts
              end ;;
  v <- valid_decomp size nd cell_counts mpi_dims ;;
  _ <- assert v ;;
  Some mpi_dims.

(** The arrays with three entries of which the first ndim are set; more than
    three dimensions write outside. *)
Definition fill3 {A} (a0 : list A) (f : nat -> option A) (nd : nat) : option (list A) :=
  foldM (fun a dimx => v <- f dimx ;; upd a dimx v) a0 (seq 0 nd).

(** ** The mesh *)
(** [hier] holds ndim, dims, subdivision_order and extent; its origin is 0
    (L113-119). *)
Record cmesh := mk_cmesh { hier : mesh; comm : cart; stencil_width : nat }.

(** L33-36 *)
Definition cell_counts (m : cmesh) : option (list Z) :=
  fill3 [0; 0; 0] (fun dimx => d <- rd (dims (hier m)) dimx ;; Some (d * ncells_dim_fine (hier m))) (ndim (hier m)).
Definition global_extents (m : cmesh) : option (list Q) :=
  fill3 [0%Q; 0%Q; 0%Q] (fun dimx => d <- rd (dims (hier m)) dimx ;; Some (extent (hier m) * inject_Z d)%Q) (ndim (hier m)).

(** L101-110 *)
Definition bound_of (f : nat -> nat -> nat -> nat) (m : cmesh) (counts : list Z) (coords : list nat) (dimx : nat) : option Z :=
  u <- rd (cdims (comm m)) dimx ;; n <- rd counts dimx ;; c <- rd coords dimx ;;
  _ <- assert (negb (u =? 0)%nat) ;;
  Some (Z.of_nat (f u (Z.to_nat n) c)).
Definition cell_starts (m : cmesh) (coords : list nat) : option (list Z) :=
  counts <- cell_counts m ;; fill3 [0; 0; 0] (bound_of decomp_start m counts coords) (ndim (hier m)).
Definition cell_ends (m : cmesh) (coords : list nat) : option (list Z) :=
  counts <- cell_counts m ;; fill3 [1; 1; 1] (bound_of decomp_end m counts coords) (ndim (hier m)).
(** L131-138 *)
Definition cell_counts_local (m : cmesh) (coords : list nat) : option (list Z) :=
  starts <- cell_starts m coords ;; ends <- cell_ends m coords ;;
  fill3 [0; 0; 0] (fun dimx => s <- rd starts dimx ;; e <- rd ends dimx ;;
                                _ <- assert (0 <? e - s) ;; Some (e - s)) (ndim (hier m)).

(** The loops over z, y and x of L142-146, L173-182 and L406-408: the
    triples in the order in which they are visited. *)
Definition box3 (lo hi : list Z) : option (list (list Z)) :=
  l0 <- rd lo 0 ;; l1 <- rd lo 1 ;; l2 <- rd lo 2 ;;
  h0 <- rd hi 0 ;; h1 <- rd hi 1 ;; h2 <- rd hi 2 ;;
  Some (flat_map (fun z => flat_map (fun y => map (fun x => [x; y; z]) (zrange l0 h0)) (zrange l1 h1)) (zrange l2 h2)).

(** L403-417 get_owned_cells and L140-160 cell_count.  The vector has cell_count
    entries, which the same loops counted. *)
Definition get_owned_cells (m : cmesh) (rank : nat) : option (list (list Z)) :=
  coords <- ccoords (comm m) rank ;;
  starts <- cell_starts m coords ;; ends <- cell_ends m coords ;;
  _ <- cell_counts_local m coords ;;
  box3 starts ends.
Definition get_cart_cell_count (m : cmesh) (rank : nat) : option nat :=
  l <- get_owned_cells m rank ;; Some (length l).

(** L366-374 mesh_tuple_to_mh_tuple followed by tuple_to_linear_global. *)
Definition mesh_index (m : cmesh) (index_mesh : list Z) : option Z :=
  index_mh <- cart_tuple_to_tuple (hier m) index_mesh ;; tuple_to_linear_global (hier m) index_mh.

(** L140-160: the claims of a rank, all with weight 1. *)
Definition mesh_claims (m : cmesh) (rank : nat) : option (list (nat * Z)) :=
  cells <- get_owned_cells m rank ;;
  mapM (fun c => i <- mesh_index m c ;; _ <- assert (0 <=? i) ;; Some (Z.to_nat i, 1)) cells.

(** L127 to L162 on all ranks: the map of owners every node ends with. *)
Definition build_owners (m : cmesh) (nodes : list (list nat)) (sched1 sched2 : nat -> list (nat * Z) -> list (nat * Z))
  (maps0 : list (list Z)) : option (list (list Z)) :=
  n <- ncells_global (hier m) ;;
  claims <- mapM (mesh_claims m) (seq 0 (csize (comm m))) ;;
  claim_epoch (Z.to_nat n) nodes (fun r => nth r claims []) sched1 sched2 maps0.

(** L164-203: the ranks of the cells in the stencil, as a sorted vector. *)
Definition stencil_cells (m : cmesh) (counts starts ends : list Z) : option (list (list Z)) :=
  let sw := Z.of_nat (stencil_width m) in
  lo <- fill3 [0; 0; 0] (fun dimx => s <- rd starts dimx ;; Some (s - sw)) (ndim (hier m)) ;;
  hi <- fill3 [1; 1; 1] (fun dimx => e <- rd ends dimx ;; Some (e + sw)) (ndim (hier m)) ;;
  cells <- box3 lo hi ;;
  mapM (fun sc =>
    mapM (fun dimx =>
      s <- rd sc dimx ;; n <- rd counts dimx ;;
      (* L183-184: no MAX in the first dimension *)
      let d := if (dimx =? 0)%nat then n else Z.max n 1 in
      _ <- assert (negb (d =? 0)) ;;
      Some (Z.rem (s + sw * n) d)) [0; 1; 2]%nat) cells.
Definition get_local_communication_neighbours (m : cmesh) (owners : list Z) (rank : nat) : option (list Z) :=
  coords <- ccoords (comm m) rank ;;
  counts <- cell_counts m ;; starts <- cell_starts m coords ;; ends <- cell_ends m coords ;;
  cells <- stencil_cells m counts starts ends ;;
  foldM (fun s c => i <- mesh_index m c ;; o <- get_owner owners i ;; Some (set_add o s)) [] cells.

(** L395-401 *)
Definition get_point_in_subdomain (m : cmesh) (rank : nat) : option (list Q) :=
  coords <- ccoords (comm m) rank ;; starts <- cell_starts m coords ;; ends <- cell_ends m coords ;;
  mapM (fun dimx => s <- rd starts dimx ;; e <- rd ends dimx ;;
          let start := (inject_Z s * cell_width_fine (hier m))%Q in
          let end_ := (inject_Z e * cell_width_fine (hier m))%Q in
          Some ((1 # 2) * (start + end_))%Q) (seq 0 (ndim (hier m))).

(** L419-441 *)
Definition get_global_cell_tuple_index (m : cmesh) (rank : nat) (linear_cell_index : Z) : option (list Z) :=
  coords <- ccoords (comm m) rank ;; starts <- cell_starts m coords ;; ends <- cell_ends m coords ;;
  cell_count <- get_cart_cell_count m rank ;;
  _ <- assert ((0 <=? linear_cell_index) && (linear_cell_index <? Z.of_nat cell_count)) ;;
  r <- foldM (fun st dx =>
         s <- rd starts dx ;; e <- rd ends dx ;;
         let w := e - s in
         _ <- assert (negb (w =? 0)) ;;
         let cx := Z.rem (fst st) w in
         index <- upd (snd st) dx (s + cx) ;;
         Some (Z.quot (fst st - cx) w, index)) (linear_cell_index, [0; 0; 0]) (seq 0 (ndim (hier m))) ;;
  Some (snd r).

(** L443-462 *)
Definition get_mesh_tuple_owning_rank (m : cmesh) (index_mesh : list Z) : option nat :=
  counts <- cell_counts m ;;
  coords_tmp <- mapM (fun dx =>
    i <- rd index_mesh dx ;; d <- rd (dims (hier m)) dx ;; n <- rd counts dx ;; u <- rd (cdims (comm m)) dx ;;
    _ <- assert ((0 <=? i) && (i <? d * ncells_dim_fine (hier m))) ;;
    _ <- assert (negb (u =? 0)%nat) ;;
    decomp_inverse u (Z.to_nat n) (Z.to_nat i)) (seq 0 (ndim (hier m))) ;;
  crank (comm m) coords_tmp.

(** The checks of the constructor, L20-30, L97-102, L131-138 and L284-285
    (compute_owned_face_indices): with [coords] of the rank. *)
Definition construct_cmesh (e : chooser) (parent : option (list nat)) (size : nat) (h : mesh)
  (create : list nat -> cart) (stencil_width : nat) : option cmesh :=
  _ <- assert (0 <? ndim h)%nat ;;
  _ <- assert (ndim h <=? length (dims h))%nat ;;
  ds <- mapM (rd (dims h)) (seq 0 (ndim h)) ;;
  _ <- assert (forallb (fun d => 0 <? d) ds) ;;
  _ <- assert (negb (Qle_bool (extent h) 0)) ;;
  counts <- fill3 [0; 0; 0] (fun dimx => d <- rd (dims h) dimx ;; Some (d * ncells_dim_fine h)) (ndim h) ;;
  mpi_dims <- choose_decomp e parent size (ndim h) (map Z.to_nat counts) ;;
  let m := mk_cmesh h (create mpi_dims) stencil_width in
  _ <- mapM (fun rank => coords <- ccoords (comm m) rank ;; cell_counts_local m coords) (seq 0 (csize (comm m))) ;;
  _ <- assert ((1 <? ndim h) && (ndim h <? 4))%nat ;;
  Some m.
