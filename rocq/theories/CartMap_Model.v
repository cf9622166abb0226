(** Positions on a Cartesian mesh: periodic wrapping, binning into cells, mapping
    to ranks.  Sources, unless stated otherwise: src/cartesian_mesh.cpp. *)
From Coq Require Import List Arith ZArith QArith Bool.
Import ListNotations.
From Verif Require Import Base Group_Model Group_Spec Mesh_Model CartMesh_Model.
Open Scope Z_scope.

(** ** Conversions *)
(** C++ [int]; leaving its range is undefined. *)
Definition i32 (z : Z) : option Z := if (- 2 ^ 31 <=? z) && (z <? 2 ^ 31) then Some z else None.
(** Conversion of a REAL to [int]. *)
Definition to_int (q : Q) : option Z := i32 (Qtrunc q).
(** C fmod: what is left after removing whole multiples towards zero. *)
Definition fmod (x y : Q) : option Q :=
  if Qeq_bool y 0 then None else Some (x - inject_Z (Qtrunc (x / y)) * y)%Q.

(** ** Particle loops whose kernel touches only its own particle *)
(** What a kernel writes: REAL and INT components with their new values. *)
Definition writes : Type := (list (nat * Q) * list (nat * Z))%type.
Definition kernel : Type := particle Q -> option writes.
Definition write_all {V} (D : list (list (list V))) (c l : nat) (ws : list (nat * V)) : option (list (list (list V))) :=
  foldM (fun D w => upd3 D (fst w) c l (snd w)) D ws.
Definition loop_item (K : kernel) (s : store Q) (w : nat * nat) : option (store Q) :=
  p <- particle_at s (fst w) (snd w) ;;
  ws <- K p ;;
  r <- write_all (reals s) (fst w) (snd w) (fst ws) ;;
  z <- write_all (ints s) (fst w) (snd w) (snd ws) ;;
  Some (mk_store r z).
(** [execute()] and [execute(cell)]: the particles in the order of the device
    (each once: property C15). *)
Definition loop_all (d : device) (k : nat) (K : kernel) (g : group Q) : option (group Q) :=
  s <- foldM (loop_item K) (st g) (ord d k (all_particles (npart_cell g))) ;; Some (mk_group s (npart_cell g)).
Definition loop_cell (d : device) (k : nat) (K : kernel) (cell : nat) (g : group Q) : option (group Q) :=
  n <- rd (npart_cell g) cell ;;
  s <- foldM (loop_item K) (st g) (ord d k (map (pair cell) (seq 0 n))) ;; Some (mk_group s (npart_cell g)).

(** ** src/cartesian_mesh/cartesian_periodic.cpp *)
(** L26-36 (and L67-79): one dimension. *)
Definition periodic_dim (E IE pos : Q) : option Q :=
  n <- to_int (pos * IE)%Q ;;
  n_extent_offset_int <- i32 (Z.abs n) ;;
  n2 <- i32 (n_extent_offset_int + 2) ;;
  fmod (pos + inject_Z n2 * E)%Q E.
(** L11-40 without masks, L47-82 with [masks]; [pid] is the first component of
    the position. *)
Definition periodic_kernel (m : cmesh) (pid : nat) (masks : option (list Z)) : kernel := fun p =>
  extents <- global_extents m ;;
  r <- mapM (fun dimx =>
         mk <- match masks with Some l => x <- rd l dimx ;; Some (negb (x =? 0)) | None => Some true end ;;
         if (mk : bool) then
           pos <- rd (fst p) (pid + dimx) ;; E <- rd extents dimx ;;
           v <- periodic_dim E (1 / E)%Q pos ;; Some [((pid + dimx)%nat, v)]
         else Some []) (seq 0 (ndim (hier m))) ;;
  Some (concat r, []).
Definition cartesian_periodic (d : device) (k : nat) (m : cmesh) (pid : nat) (masks : option (list Z)) (g : group Q) : option (group Q) :=
  (* L48-50 *)
  _ <- match masks with Some l => assert (ndim (hier m) <=? length l)%nat | None => Some tt end ;;
  loop_all d k (periodic_kernel m pid masks) g.

(** ** src/cartesian_mesh/cartesian_cell_bin.cpp *)
(** L23-31: one dimension, with the start and the number of cells of this rank. *)
Definition bin_dim (h : mesh) (start count : Z) (position : Q) : option Z :=
  let pos := (position - inject_Z start * cell_width_fine h)%Q in
  cell_tmp <- to_int (pos * inverse_cell_width_fine h)%Q ;;
  let cell_tmp := if cell_tmp <? 0 then 0 else cell_tmp in
  Some (if count <=? cell_tmp then count - 1 else cell_tmp).
(** L34-38: the linear index, last dimension first. *)
Definition bin_linear (nd : nat) (counts cell_tmps : list Z) : option Z :=
  last <- sub_ nd 1 ;;
  linear_index <- rd cell_tmps last ;;
  foldM (fun linear_index dimx =>
    n <- rd counts dimx ;; t <- rd cell_tmps dimx ;;
    a <- i32 (linear_index * n) ;; i32 (a + t)) linear_index (rev (seq 0 last)).
(** L19-40 *)
Definition bin_kernel (m : cmesh) (rank pid cid : nat) : kernel := fun p =>
  coords <- ccoords (comm m) rank ;;
  starts <- cell_starts m coords ;; counts <- cell_counts_local m coords ;;
  cell_tmps <- fill3 [0; 0; 0] (fun dimx =>
    position <- rd (fst p) (pid + dimx) ;; s <- rd starts dimx ;; n <- rd counts dimx ;;
    bin_dim (hier m) s n position) (ndim (hier m)) ;;
  linear_index <- bin_linear (ndim (hier m)) counts cell_tmps ;;
  Some ([], [(cid, linear_index)]).
(** L91-95; the map_cells of the mapper (src/cartesian_mesh.cpp L222-225) calls it. *)
Definition map_cells (d : device) (k : nat) (m : cmesh) (rank pid cid : nat) (g : group Q) : option (group Q) :=
  _ <- assert ((0 <? ndim (hier m)) && (ndim (hier m) <? 4))%nat ;;
  loop_all d k (bin_kernel m rank pid cid) g.

(** ** CartesianHMeshLocalMapperT *)
Record mapper := mk_mapper { cell_lookups : list (list Z); rank_map : list Z; mdims : list Z; mcounts : list Z }.

(** L15-20 and L45-76: the owner's coordinate of every cell index of this
    dimension in the halo, -1 elsewhere. *)
Definition build_lookup (m : cmesh) (owners : list Z) (starts ends counts : list Z) (dimx : nat) : option (list Z) :=
  let sw := Z.of_nat (stencil_width m) in
  n <- rd counts dimx ;; s <- rd starts dimx ;; e <- rd ends dimx ;;
  foldM (fun lk cx =>
    _ <- assert (negb (n =? 0)) ;;
    let cxs := Z.rem (cx + sw * n) n in
    index_mesh <- upd [0; 0; 0] dimx cxs ;;
    index_global <- mesh_index m index_mesh ;;
    remote_rank <- get_owner owners index_global ;;
    coords <- (if remote_rank <? 0 then None else ccoords (comm m) (Z.to_nat remote_rank)) ;;
    coord <- rd coords dimx ;;
    _ <- assert (0 <=? cxs) ;;
    upd lk (Z.to_nat cxs) (Z.of_nat coord)) (repeat (-1) (Z.to_nat n)) (zrange s e).

(** L88-119: from lexicographic to MPI ranks. *)
Definition build_rank_map (m : cmesh) (dims : list Z) : option (list Z) :=
  let size := Z.of_nat (csize (comm m)) in
  d0 <- rd dims 0 ;; d1 <- rd dims 1 ;; d2 <- rd dims 2 ;;
  mp <- foldM (fun mp x =>
         rank_impl <- crank (comm m) (map Z.to_nat (firstn (ndim (hier m)) x)) ;;
         let rank_linear := nth 0 x 0 + nth 1 x 0 * d0 + nth 2 x 0 * d0 * d1 in
         _ <- assert ((0 <=? rank_linear) && (rank_linear <? size)) ;;
         _ <- assert (Z.of_nat rank_impl <? size) ;;
         upd mp (Z.to_nat rank_linear) (Z.of_nat rank_impl))
       (repeat (-1) (csize (comm m)))
       (flat_map (fun x0 => flat_map (fun x1 => map (fun x2 => [x0; x1; x2]) (zrange 0 d2)) (zrange 0 d1)) (zrange 0 d0)) ;;
  _ <- assert (forallb (fun r => 0 <=? r) mp) ;;
  Some mp.

(** L122-165: the mapper tested on every cell of the halo. *)
Definition self_test (m : cmesh) (owners : list Z) (rank : nat) (mp : mapper) (starts ends : list Z) (neighbours : list Z) : option unit :=
  let sw := Z.of_nat (stencil_width m) in
  cells <- box3 starts ends ;;
  r <- mapM (fun sc =>
    index_mesh <- mapM (fun dimx => s <- rd sc dimx ;; n <- rd (mcounts mp) dimx ;; _ <- assert (negb (n =? 0)) ;; Some (Z.rem (s + sw * n) n)) [0; 1; 2]%nat ;;
    index_global <- mesh_index m index_mesh ;;
    remote_rank <- get_owner owners index_global ;;
    coord <- mapM (fun dimx => if (dimx <? ndim (hier m))%nat then
                                 lk <- rd (cell_lookups mp) dimx ;; x <- rd index_mesh dimx ;; _ <- assert (0 <=? x) ;; rd lk (Z.to_nat x)
                               else Some 0) [0; 1; 2]%nat ;;
    d0 <- rd (mdims mp) 0 ;; d1 <- rd (mdims mp) 1 ;;
    let rank_lex := nth 0 coord 0 + nth 1 coord 0 * d0 + nth 2 coord 0 * d0 * d1 in
    _ <- assert (0 <=? rank_lex) ;;
    rank_impl <- rd (rank_map mp) (Z.to_nat rank_lex) ;;
    _ <- assert (rank_impl =? remote_rank) ;;
    if negb (rank_impl =? Z.of_nat rank) then assert (existsb (Z.eqb rank_impl) neighbours) else Some tt) cells ;;
  Some tt.

(** L6-168 *)
Definition construct_mapper (m : cmesh) (owners : list Z) (rank : nat) : option mapper :=
  coords <- ccoords (comm m) rank ;;
  mesh_counts <- cell_counts m ;; mesh_starts <- cell_starts m coords ;; mesh_ends <- cell_ends m coords ;;
  let sw := Z.of_nat (stencil_width m) in
  let nd := ndim (hier m) in
  starts <- fill3 [0; 0; 0] (fun dimx => s <- rd mesh_starts dimx ;; Some (s - sw)) nd ;;
  ends <- fill3 [1; 1; 1] (fun dimx => e <- rd mesh_ends dimx ;; Some (e + sw)) nd ;;
  counts <- fill3 [1; 1; 1] (rd mesh_counts) nd ;;
  lookups <- mapM (build_lookup m owners starts ends counts) (seq 0 nd) ;;
  dims <- fill3 [1; 1; 1] (fun dimx => u <- rd (cdims (comm m)) dimx ;; Some (Z.of_nat u)) nd ;;
  mp <- build_rank_map m dims ;;
  neighbours <- get_local_communication_neighbours m owners rank ;;
  let r := mk_mapper lookups mp dims counts in
  _ <- self_test m owners rank r starts ends neighbours ;;
  Some r.

(** L182-209: the kernel.  [rid] is the first component of NESO_MPI_RANK. *)
Definition local_cell (h : mesh) (count : Z) (pos : Q) : option Z :=
  cell_fine <- to_int (pos * inverse_cell_width_fine h)%Q ;;
  Some (if count <=? cell_fine then count - 1 else if cell_fine <? 0 then 0 else cell_fine).
Definition local_map_kernel (m : cmesh) (mp : mapper) (pid rid : nat) : kernel := fun p =>
  r1 <- rd (snd p) (rid + 1) ;;
  if r1 <? 0 then
    coords <- fill3 [0; 0; 0] (fun dimx =>
      pos <- rd (fst p) (pid + dimx) ;; n <- rd (mcounts mp) dimx ;; lk <- rd (cell_lookups mp) dimx ;;
      cell_fine <- local_cell (hier m) n pos ;;
      _ <- assert (0 <=? cell_fine) ;; rd lk (Z.to_nat cell_fine)) (ndim (hier m)) ;;
    c0 <- rd coords 0 ;; c1 <- rd coords 1 ;; c2 <- rd coords 2 ;; d0 <- rd (mdims mp) 0 ;; d1 <- rd (mdims mp) 1 ;;
    let rank_linear := c0 + c1 * d0 + c2 * d0 * d1 in
    let cell_found := (0 <=? c0) && (0 <=? c1) && (0 <=? c2) in
    remote_rank <- (if cell_found then (if rank_linear <? 0 then None else rd (rank_map mp) (Z.to_nat rank_linear)) else Some (-1)) ;;
    Some ([], [((rid + 1)%nat, remote_rank)])
  else Some ([], []).
(** L170-220: all cells if map_cell is -1. *)
Definition local_map (d : device) (k : nat) (m : cmesh) (mp : mapper) (pid rid : nat) (map_cell : option nat) (g : group Q) : option (group Q) :=
  match map_cell with
  | None => loop_all d k (local_map_kernel m mp pid rid) g
  | Some c => loop_cell d k (local_map_kernel m mp pid rid) c g
  end.

(** ** src/global_mapping.cpp *)
(** L228-237 reset_mpi_ranks *)
Definition reset_kernel (rid : nat) : kernel := fun _ => Some ([], [(rid, -1); ((rid + 1)%nat, -1)]).
Definition reset_mpi_ranks (d : device) (k : nat) (rid : nat) (g : group Q) : option (group Q) := loop_all d k (reset_kernel rid) g.

(** L38-64: one particle of stage 0; the fetch-and-add is indivisible. *)
Definition lookup_item (npart_local rid : nat) (s : store Q) (a : nat * list nat * list nat * bool) (w : nat * nat)
  : option (nat * list nat * list nat * bool) :=
  let '(count, cells, layers, err) := a in
  r1 <- rd3 (ints s) (rid + 1) (fst w) (snd w) ;;
  if r1 <? 0 then
    let err' := err || negb (count <? npart_local)%nat in
    cells' <- upd cells count (fst w) ;; layers' <- upd layers count (snd w) ;;
    Some (S count, cells', layers', err')
  else Some a.
(** L122-164: the branches that set the error flag ([map_dim] gives the indices). *)
Definition map_dim_err (m : mesh) (dim : Z) (pos : Q) : bool :=
  let cell_coarse0 := Qtrunc (pos * inverse_cell_width_coarse m)%Q in
  let above := (dim <=? cell_coarse0) in
  let near := within_tol (pos - inject_Z dim * cell_width_coarse m)%Q pos in
  let cell_coarse := if above then (if near then dim - 1 else 0) else cell_coarse0 in
  let pos_fine := (pos - inject_Z cell_coarse * cell_width_coarse m)%Q in
  let cell_fine := Qtrunc (pos_fine * inverse_cell_width_fine m)%Q in
  (above && negb near) ||
  ((ncells_dim_fine m <=? cell_fine) &&
   negb (within_tol (pos_fine - inject_Z (ncells_dim_fine m) * cell_width_fine m)%Q pos_fine)).
(** L109-167: one query; the tuples of the queries are kept in a list instead of
    one flat array. *)
Definition tuple_item (m : mesh) (pid : nat) (s : store Q) (cells layers : list nat) (a : list (list Z) * bool) (idx : nat)
  : option (list (list Z) * bool) :=
  c <- rd cells idx ;; l <- rd layers idx ;;
  position <- mapM (fun dimx => rd3 (reals s) (pid + dimx) c l) (seq 0 (ndim m)) ;;
  t <- map_to_tuple m position ;;
  e <- mapM (fun dimx => p <- rd position dimx ;; o <- rd (origin m) dimx ;; dm <- rd (dims m) dimx ;;
                         Some (map_dim_err m dm (p - o)%Q)) (seq 0 (ndim m)) ;;
  ts <- upd (fst a) idx t ;;
  Some (ts, snd a || existsb (fun b => b) e).
(** L11-221.  [uninit] is the content of the newly allocated tuples. *)
Definition global_map (d : device) (k : nat) (uninit : list Z) (m : mesh) (owners : list Z) (pid rid : nat) (g : group Q) : option (group Q) :=
  let npart_local := list_sum (npart_cell g) in
  r <- foldM (lookup_item npart_local rid (st g)) (0%nat, fresh d k npart_local, fresh d (S k) npart_local, false)
         (ord d k (all_particles (npart_cell g))) ;;
  let '(npart_query, cells, layers, err) := r in
  _ <- assert (negb err) ;;
  q <- foldM (tuple_item m pid (st g) cells layers) (repeat uninit npart_query, false) (ord d (k + 2) (seq 0 npart_query)) ;;
  _ <- assert (negb (snd q)) ;;
  ranks <- mapM (fun t => i <- tuple_to_linear_global m t ;; get_owner owners i) (fst q) ;;
  z <- foldM (fun z idx => c <- rd cells idx ;; l <- rd layers idx ;; v <- rd ranks idx ;; upd3 z rid c l v)
         (ints (st g)) (ord d (k + 3) (seq 0 npart_query)) ;;
  Some (mk_group (mk_store (reals (st g)) z) (npart_cell g)).
