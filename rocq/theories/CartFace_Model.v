(** Model of the boundary faces of CartesianHMesh
    (src/cartesian_mesh/cartesian_h_mesh.cpp L204-333, L464-605, L627-739).  A face cell is a facet of a fine cell on the boundary of the
    domain.  [int] and INT are [Z]; overflow is not modelled; std::pow(n, 2) is
    exact.  The cache of get_face_id_owning_rank is left out: it only returns
    what the same call computed before. *)
From Coq Require Import List Arith ZArith QArith Bool.
Import ListNotations.
From Verif Require Import Base Mesh_Model CartMesh_Model.
Local Open Scope Z_scope.

(** L206-210 and L229-242; the arrays have six entries, unset ones are 0
    (cartesian_h_mesh.hpp L108-112). *)
Definition num_geoms_per_face (m : cmesh) : option (list Z) :=
  let n := ncells_dim_fine (hier m) in
  if (ndim (hier m) =? 2)%nat then
    d0 <- rd (dims (hier m)) 0 ;; d1 <- rd (dims (hier m)) 1 ;;
    Some [d0 * n; d1 * n; d0 * n; d1 * n; 0; 0]
  else if (ndim (hier m) =? 3)%nat then
    d0 <- rd (dims (hier m)) 0 ;; d1 <- rd (dims (hier m)) 1 ;; d2 <- rd (dims (hier m)) 2 ;;
    Some [d0 * d2 * (n * n); d1 * d2 * (n * n); d0 * d2 * (n * n); d1 * d2 * (n * n); d0 * d1 * (n * n); d0 * d1 * (n * n)]
  else Some (repeat 0 6).
(** L212-217 and L244-252: the total with its assertion. *)
Definition ncells_face_global (m : cmesh) : option Z :=
  let n := ncells_dim_fine (hier m) in
  g <- num_geoms_per_face m ;;
  let total := fold_left Z.add g 0 in
  if (ndim (hier m) =? 2)%nat then
    d0 <- rd (dims (hier m)) 0 ;; d1 <- rd (dims (hier m)) 1 ;;
    _ <- assert (total =? n * (d0 + d1 + d0 + d1)) ;; Some total
  else if (ndim (hier m) =? 3)%nat then
    d0 <- rd (dims (hier m)) 0 ;; d1 <- rd (dims (hier m)) 1 ;; d2 <- rd (dims (hier m)) 2 ;;
    _ <- assert (total =? n * n * (d0 * d2 + d1 * d2 + d0 * d2 + d1 * d2 + d0 * d1 + d0 * d1)) ;; Some total
  else Some 0.
(** L219-226 and L254-266 *)
Definition face_strides0 (m : cmesh) : option (list Z) :=
  let n := ncells_dim_fine (hier m) in
  if (ndim (hier m) =? 2)%nat then
    d0 <- rd (dims (hier m)) 0 ;; d1 <- rd (dims (hier m)) 1 ;; Some [d0 * n; d1 * n; d0 * n; d1 * n; 0; 0]
  else if (ndim (hier m) =? 3)%nat then
    d0 <- rd (dims (hier m)) 0 ;; d1 <- rd (dims (hier m)) 1 ;; d2 <- rd (dims (hier m)) 2 ;;
    Some [d0 * n; d1 * n; d0 * n; d1 * n; d0 * n; d0 * n]
  else Some (repeat 0 6).
Definition face_strides1 (m : cmesh) : option (list Z) :=
  let n := ncells_dim_fine (hier m) in
  if (ndim (hier m) =? 2)%nat then Some [1; 1; 1; 1; 0; 0]
  else if (ndim (hier m) =? 3)%nat then
    d1 <- rd (dims (hier m)) 1 ;; d2 <- rd (dims (hier m)) 2 ;;
    Some [d2 * n; d2 * n; d2 * n; d2 * n; d1 * n; d1 * n]
  else Some (repeat 0 6).
(** L268-273: exclusive and inclusive sums. *)
Definition face_scans (g : list Z) : option (list Z * list Z) :=
  r <- foldM (fun (a : Z * list Z * list Z) ix =>
         let '(total, ex, inc) := a in
         n <- rd g ix ;; ex' <- upd ex ix total ;; inc' <- upd inc ix (total + n) ;; Some (total + n, ex', inc'))
       (0, repeat 0 6, repeat 0 6) (seq 0 6) ;;
  Some (snd (fst r), snd r).

Definition num_faces (m : cmesh) : nat := if (ndim (hier m) =? 2)%nat then 4 else 6.

(** L479-485: the first face whose inclusive sum is greater. *)
Fixpoint find_face (inc : list Z) (face_id : Z) (fs : list nat) : option (option nat) :=
  match fs with
  | [] => Some None
  | f :: t => v <- rd inc f ;; if face_id <? v then Some (Some f) else find_face inc face_id t
  end.
(** L464-507 get_face_id_as_tuple *)
Definition get_face_id_as_tuple (m : cmesh) (face_id : Z) : option (list Z) :=
  g <- num_geoms_per_face m ;;
  let num_face_indices := fold_left Z.add (firstn (num_faces m) g) 0 in
  _ <- assert ((0 <=? face_id) && (face_id <? num_face_indices)) ;;
  sc <- face_scans g ;;
  f <- find_face (snd sc) face_id (seq 0 (num_faces m)) ;;
  face_containing <- f ;;
  ex <- rd (fst sc) face_containing ;;
  let local_face_id := face_id - ex in
  s0 <- face_strides0 m ;; s1 <- face_strides1 m ;;
  w0 <- rd s0 face_containing ;; w1 <- rd s1 face_containing ;;
  _ <- assert (negb (w0 =? 0)) ;;
  let l0 := Z.rem local_face_id w0 in
  let l1 := Z.quot local_face_id w0 in
  _ <- assert ((0 <=? l1) && (l1 <? w1)) ;;
  _ <- assert (l0 + l1 * w0 =? local_face_id) ;;
  _ <- assert (ex + local_face_id =? face_id) ;;
  Some [Z.of_nat face_containing; l0; l1].

(** L509-536 get_mesh_tuple_owning_face_tuple; [mesh_tuple] is the array passed. *)
Definition get_mesh_tuple_owning_face_tuple (m : cmesh) (face_index_tuple mesh_tuple : list Z) : option (list Z) :=
  face_index <- rd face_index_tuple 0 ;; l0 <- rd face_index_tuple 1 ;;
  _ <- assert (0 <=? face_index) ;;
  counts <- cell_counts m ;;
  c0 <- rd counts 0 ;; c1 <- rd counts 1 ;;
  if (ndim (hier m) =? 2)%nat then
    i0 <- rd [0; 1; 0; 1]%nat (Z.to_nat face_index) ;; i1 <- rd [1; 0; 1; 0]%nat (Z.to_nat face_index) ;;
    last <- rd [0; c0 - 1; c1 - 1; 0] (Z.to_nat face_index) ;;
    t <- upd mesh_tuple i0 l0 ;; upd t i1 last
  else
    c2 <- rd counts 2 ;; l1 <- rd face_index_tuple 2 ;;
    i0 <- rd [0; 1; 0; 1; 0; 0]%nat (Z.to_nat face_index) ;; i1 <- rd [2; 2; 2; 2; 1; 1]%nat (Z.to_nat face_index) ;;
    i2 <- rd [1; 0; 1; 0; 2; 2]%nat (Z.to_nat face_index) ;;
    last <- rd [0; c0 - 1; c1 - 1; 0; 0; c2 - 1] (Z.to_nat face_index) ;;
    t <- upd mesh_tuple i0 l0 ;; t <- upd t i1 l1 ;; upd t i2 last.

(** L538-551 get_face_linear_index_from_tuple *)
Definition get_face_linear_index_from_tuple (m : cmesh) (face_index_tuple : list Z) : option Z :=
  f <- rd face_index_tuple 0 ;; t1 <- rd face_index_tuple 1 ;;
  _ <- assert (0 <=? f) ;;
  g <- num_geoms_per_face m ;;
  _ <- assert (Z.to_nat f <=? length g)%nat ;;
  let offset := fold_left Z.add (firstn (Z.to_nat f) g) 0 in
  if (ndim (hier m) =? 2)%nat then Some (offset + t1)
  else t2 <- rd face_index_tuple 2 ;; s0 <- face_strides0 m ;; w <- rd s0 (Z.to_nat f) ;; Some (offset + t1 + t2 * w).

(** L553-570 get_face_id_owning_rank *)
Definition get_face_id_owning_rank (m : cmesh) (face_id : Z) : option nat :=
  _ <- assert ((ndim (hier m) =? 2) || (ndim (hier m) =? 3))%nat ;;
  total <- ncells_face_global m ;;
  _ <- assert ((0 <=? face_id) && (face_id <? total)) ;;
  face_tuple <- get_face_id_as_tuple m face_id ;;
  mesh_tuple <- get_mesh_tuple_owning_face_tuple m face_tuple [0; 0; 0] ;;
  get_mesh_tuple_owning_rank m mesh_tuple.

(** L289-323: the index tuples of the loops, in order. *)
Definition face_candidates (m : cmesh) (starts ends : list Z) : option (list (list Z)) :=
  s0 <- rd starts 0 ;; s1 <- rd starts 1 ;; s2 <- rd starts 2 ;; e0 <- rd ends 0 ;; e1 <- rd ends 1 ;; e2 <- rd ends 2 ;;
  l <- mapM (fun fx =>
         a0 <- rd [s0; s1; s0; s1; s0; s0] fx ;; b0 <- rd [e0; e1; e0; e1; e0; e0] fx ;;
         a1 <- rd [s2; s2; s2; s2; s1; s1] fx ;; b1 <- rd [e2; e2; e2; e2; e1; e1] fx ;;
         Some (flat_map (fun l1 => map (fun l0 => [Z.of_nat fx; l0; l1]) (zrange a0 b0)) (zrange a1 b1))) (seq 0 (num_faces m)) ;;
  Some (concat l).
(** L281-333 compute_owned_face_indices: owned_face_indices and
    map_faces_to_geoms (a std::map; absent keys give an empty vector). *)
Definition owned_face_indices (m : cmesh) (rank : nat) : option (list Z) :=
  _ <- assert ((1 <? ndim (hier m)) && (ndim (hier m) <? 4))%nat ;;
  coords <- ccoords (comm m) rank ;; starts <- cell_starts m coords ;; ends <- cell_ends m coords ;;
  cands <- face_candidates m starts ends ;;
  foldM (fun s t => i <- get_face_linear_index_from_tuple m t ;; r <- get_face_id_owning_rank m i ;;
           Some (if (r =? rank)%nat then set_add i s else s)) [] cands.
Definition map_faces_to_geoms (m : cmesh) (rank : nat) : option (nat -> list Z) :=
  l <- owned_face_indices m rank ;;
  foldM (fun (mp : nat -> list Z) ix => t <- get_face_id_as_tuple m ix ;; f <- rd t 0 ;;
           Some (fun g => if (g =? Z.to_nat f)%nat then mp g ++ [ix] else mp g)) (fun _ => []) l.
(** L726-734 get_all_face_cells_on_face *)
Definition get_all_face_cells_on_face (m : cmesh) (rank : nat) (face_index : Z) : option (list Z) :=
  _ <- assert ((0 <=? face_index) && (face_index <? Z.of_nat (num_faces m))) ;;
  mp <- map_faces_to_geoms m rank ;; Some (mp (Z.to_nat face_index)).
(** cartesian_h_mesh.hpp L358-374 get_face_cells *)
Definition get_face_cells (m : cmesh) (rank : nat) (faces : list nat) : option (list Z) :=
  mp <- map_faces_to_geoms m rank ;; Some (flat_map mp faces).

(** L572-605 get_vtk_cell_points: the corners of a cell, three coordinates each. *)
Definition vtk_offsets (nd : nat) : list (list Z) :=
  [[0; 0; 0]; [1; 0; 0]] ++ (if (1 <? nd)%nat then [[1; 1; 0]; [0; 1; 0]] else []) ++
  (if (2 <? nd)%nat then [[0; 0; 1]; [1; 0; 1]; [1; 1; 1]; [0; 1; 1]] else []).
Definition get_vtk_cell_points (m : cmesh) (index_tuple : list Z) : option (list (list Q)) :=
  mapM (fun ox => mapM (fun dx => i <- rd index_tuple dx ;; o <- rd ox dx ;;
          Some (inject_Z i * cell_width_fine (hier m) + inject_Z o * cell_width_fine (hier m))%Q) [0; 1; 2]%nat) (vtk_offsets (ndim (hier m))).
(** L627-683 get_vtk_face_cell_points: the corners of a face cell. *)
Definition get_vtk_face_cell_points (m : cmesh) (face_index_tuple : list Z) : option (list (list Q)) :=
  cell_tuple <- get_mesh_tuple_owning_face_tuple m face_index_tuple [0; 0; 0] ;;
  cell_points <- get_vtk_cell_points m cell_tuple ;;
  face_index <- rd face_index_tuple 0 ;;
  _ <- assert (0 <=? face_index) ;;
  if (ndim (hier m) =? 2)%nat then
    mapM (fun px => i <- rd [0; 1; 1; 2; 3; 2; 0; 3]%nat (Z.to_nat face_index * 2 + px) ;; rd cell_points i) [0; 1]%nat
  else
    mapM (fun px => i <- rd [0; 1; 5; 4;  1; 2; 6; 5;  3; 2; 6; 7;  0; 3; 7; 4;  0; 1; 2; 3;  4; 5; 6; 7]%nat (Z.to_nat face_index * 4 + px) ;;
                    rd cell_points i) [0; 1; 2; 3]%nat.
(** L685-697 *)
Definition face_points_of_id (m : cmesh) (face_index : Z) : option (list (list Q)) :=
  g <- num_geoms_per_face m ;; sc <- face_scans g ;;
  bound <- rd (snd sc) (if (ndim (hier m) =? 2)%nat then 3 else 5) ;;
  _ <- assert ((0 <=? face_index) && (face_index <? bound)) ;;
  t <- get_face_id_as_tuple m face_index ;; get_vtk_face_cell_points m t.
