(** A Cartesian mesh laid over an unstructured mesh, and finding the cells of particles in linear two-dimensional DMPlex meshes with it.
    src/external_interfaces/common/overlay_cartesian_mesh.cpp, include/neso_particles/external_interfaces/common/overlay_cartesian_mesh.hpp,
    src/external_interfaces/petsc/particle_cell_mapping/dmplex_2d_mapper.cpp; bounding boxes: dmplex_helper.cpp L358-405, bounding_box.hpp.
    REAL is [Q], exact; int is [Z] without overflow. *)
From Coq Require Import List Arith ZArith QArith Qminmax Bool.
Import ListNotations.
From Verif Require Import Base Mesh_Model CellRep_Model Overlap_Model DeviceFn_Model.
Open Scope Z_scope.

(** overlay_cartesian_mesh.hpp L94-100; the widths and their inverses are functions of these. *)
Record overlay := mk_overlay { o_ndim : nat; o_origin : list Q; o_extents : list Q; o_counts : list Z }.
(** overlay_cartesian_mesh.cpp L61-87: constructor *)
Definition make_overlay (nd : nat) (org ext : list Q) (counts : list Z) : option overlay :=
  _ <- assert ((length org =? nd) && (length ext =? nd) && (length counts =? nd))%nat ;;
  _ <- assert (forallb (fun e => rlt 0 e) ext && forallb (fun c => 0 <? c) counts) ;;
  Some (mk_overlay nd org ext counts).
(** L82-86 *)
Definition width (ov : overlay) (dim : nat) : option Q :=
  e <- rd (o_extents ov) dim ;; c <- rd (o_counts ov) dim ;; Some (e / inject_Z c)%Q.
Definition inverse_width (ov : overlay) (dim : nat) : option Q := w <- width ov dim ;; Some (1 / w)%Q.
Definition clamp (count cell : Z) : Z := let cell := if cell <? 0 then 0 else cell in if count <=? cell then count - 1 else cell.
(** overlay_cartesian_mesh.hpp L33-40: OverlayCartesianMeshMapper::get_cell_in_dimension; there is no check of the bounds. *)
Definition mapper_cell (ov : overlay) (dim : nat) (point : Q) : option Z :=
  o <- rd (o_origin ov) dim ;; iw <- inverse_width ov dim ;; n <- rd (o_counts ov) dim ;;
  Some (clamp n (Qtrunc ((point - o) * iw)%Q)).
(** overlay_cartesian_mesh.cpp L121-137: get_cell_in_dimension of the mesh itself checks the bounds. *)
Definition get_cell_in_dimension (ov : overlay) (dim : nat) (point : Q) : option Z :=
  _ <- assert (dim <? o_ndim ov)%nat ;;
  o <- rd (o_origin ov) dim ;; e <- rd (o_extents ov) dim ;;
  _ <- assert (Qle_bool (o - (1 # 100000000)) point && Qle_bool point (o + e + (1 # 100000000)))%Q ;;
  mapper_cell ov dim point.
(** std::numeric_limits<REAL>::epsilon(), 2^-52. *)
Definition epsilon : Q := (1 # 4503599627370496)%Q.
(** L5-23 *)
Definition get_cell_in_dimension_lower (ov : overlay) (dim : nat) (point : Q) : option Z :=
  _ <- assert (dim <? o_ndim ov)%nat ;;
  o <- rd (o_origin ov) dim ;; w <- width ov dim ;; iw <- inverse_width ov dim ;; n <- rd (o_counts ov) dim ;;
  let shifted_point := (point - o)%Q in
  let cell := Qtrunc (shifted_point * iw)%Q in
  let cell_lower := (inject_Z cell * w)%Q in
  Some (clamp n (if Qle_bool (shifted_point - epsilon) cell_lower then cell - 1 else cell)).
(** L25-44 *)
Definition get_cell_in_dimension_upper (ov : overlay) (dim : nat) (point : Q) : option Z :=
  _ <- assert (dim <? o_ndim ov)%nat ;;
  o <- rd (o_origin ov) dim ;; w <- width ov dim ;; iw <- inverse_width ov dim ;; n <- rd (o_counts ov) dim ;;
  let shifted_point := (point - o)%Q in
  let cell := Qtrunc (shifted_point * iw)%Q in
  let cell_upper := (inject_Z (cell + 1) * w)%Q in
  Some (clamp n (if Qle_bool cell_upper (shifted_point + epsilon) then cell + 1 else cell) + 1).
(** hpp L49-57 (and L166-173): the first index runs fastest. *)
Definition get_linear_cell_index (ov : overlay) (cell_tuple : list Z) : option Z :=
  last <- sub_ (o_ndim ov) 1 ;;
  i0 <- rd cell_tuple last ;;
  foldM (fun idx dimx => n <- rd (o_counts ov) dimx ;; t <- rd cell_tuple dimx ;; Some (idx * n + t)) i0 (rev (seq 0 last)).
(** cpp L139-145 *)
Definition get_cell_count (ov : overlay) : option Z := foldM (fun count dimx => n <- rd (o_counts ov) dimx ;; Some (count * n)) 1 (seq 0 (o_ndim ov)).
(** cpp L46-59: get_all_cells.  [index] is changed in place there; every entry is set before it is used.  [k]: dimensions left. *)
Fixpoint get_all_cells (ov : overlay) (k dim : nat) (cell_starts cell_ends index : list Z) : option (list Z) :=
  match k with
  | O => None
  | S k' =>
    s <- rd cell_starts dim ;; e <- rd cell_ends dim ;;
    foldM (fun cells ix =>
      index' <- upd index dim ix ;;
      if (dim <? o_ndim ov - 1)%nat then
        more <- get_all_cells ov k' (S dim) cell_starts cell_ends index' ;; Some (cells ++ more)
      else
        c <- get_linear_cell_index ov index' ;; Some (cells ++ [c])) [] (zrange s e)
  end.
(** cpp L147-165.  L163: the index has two entries whatever the number of dimensions. *)
Definition get_intersecting_cells (ov : overlay) (bounding_box : box) : option (list Z) :=
  cell_starts <- mapM (fun dimx => b <- lower bounding_box dimx ;; get_cell_in_dimension_lower ov dimx b) (seq 0 (o_ndim ov)) ;;
  cell_ends <- mapM (fun dimx => b <- upper bounding_box dimx ;; get_cell_in_dimension_upper ov dimx b) (seq 0 (o_ndim ov)) ;;
  get_all_cells ov (o_ndim ov) 0 cell_starts cell_ends [0; 0].

(** cpp L196-198: std::max_element, the first of the greatest. *)
Fixpoint max_location (widths : list Q) : option nat :=
  match widths with
  | [] => None
  | w :: t => match max_location t with
              | None => Some 0%nat
              | Some i => v <- rd t i ;; Some (if rlt w v then S i else 0%nat)
              end
  end.
(** cpp L194-202.  The fuel is the number of cells asked for: the number of cells doubles in each step. *)
Fixpoint refine (fuel : nat) (ext : list Q) (ncells : Z) (counts : list Z) : option (list Z) :=
  if fold_right Z.mul 1 counts <? ncells then
    match fuel with
    | O => None
    | S f =>
      let widths := map (fun ec => fst ec / inject_Z (snd ec))%Q (List.combine ext counts) in
      i <- max_location widths ;; c <- rd counts i ;; counts' <- upd counts i (c * 2) ;;
      refine f ext ncells counts'
    end
  else Some counts.
(** cpp L167-207 *)
Definition create_overlay_mesh (nd : nat) (bounding_box : box) (ncells : Z) : option overlay :=
  org <- mapM (lower bounding_box) (seq 0 nd) ;;
  up <- mapM (upper bounding_box) (seq 0 nd) ;;
  let ext := map (fun p => snd p - fst p)%Q (List.combine org up) in
  counts <- refine (Z.to_nat ncells) ext ncells (repeat 1 nd) ;;
  make_overlay nd org ext counts.

(** ** The mapper *)
Definition point := (Q * Q)%type.
(** dmplex_2d_mapper.hpp L21-27: Linear2DData.  The faces (cpp L54-76) join each vertex to the next one. *)
Record cell2d := mk_cell2d { c_rank : Z; c_id : Z; c_verts : list point }.
Definition faces (vs : list point) : list (point * point) := match vs with [] => [] | v :: t => List.combine vs (t ++ [v]) end.
(** dmplex_helper.cpp L371-405.  The limits of REAL with which the minima and maxima start are not numbers of [Q]: they start with the
    first vertex here. *)
Definition cell_bounding_box (vs : list point) : option box :=
  match vs with
  | [] => None
  | v :: t =>
    Some [fold_left Qmin (map fst t) (fst v); fold_left Qmin (map snd t) (snd v); 0;
          fold_left Qmax (map fst t) (fst v); fold_left Qmax (map snd t) (snd v); 0]%Q
  end.
(** bounding_box.hpp L91-97 *)
Definition expand (bb other : box) : option box :=
  lo <- mapM (fun d => a <- rd bb d ;; b <- rd other d ;; Some (Qmin a b)) (seq 0 3) ;;
  up <- mapM (fun d => a <- rd bb (d + 3) ;; b <- rd other (d + 3) ;; Some (Qmax a b)) (seq 0 3) ;;
  Some (lo ++ up).
(** dmplex_helper.cpp L358-369 and dmplex_2d_mapper.cpp L19-22: the box of the boxes of all cells, of this rank and of the halo. *)
Definition expand_all (boxes : list box) : option box :=
  match boxes with [] => None | b :: t => foldM expand b t end.

(** dmplex_2d_mapper.cpp L24-160: the overlay mesh, the cells, and for each overlay cell the candidates. *)
Record mapper := mk_mapper { mp_overlay : overlay; mp_cells : list cell2d; mp_candidates : zmap (list nat) }.
Definition push_back (m : zmap (list nat)) (ox : Z) (index : nat) : zmap (list nat) :=
  map_set m ox (match map_get m ox with Some l => l | None => [] end ++ [index]).
Definition make_mapper (cells : list cell2d) : option mapper :=
  (* L49-50 *)
  _ <- assert (forallb (fun c => (length (c_verts c) =? 3)%nat || (length (c_verts c) =? 4)%nat) cells) ;;
  boxes <- mapM (fun c => cell_bounding_box (c_verts c)) cells ;;
  bb <- expand_all boxes ;;
  ov <- create_overlay_mesh 2 bb (Z.of_nat (length cells)) ;;
  (* L83-98, L101-123 *)
  cand <- foldM (fun m ib => ocs <- get_intersecting_cells ov (snd ib) ;; Some (fold_left (fun m ox => push_back m ox (fst ib)) ocs m))
            [] (List.combine (seq 0 (length cells)) boxes) ;;
  Some (mk_mapper ov cells cand).

(** L204-238: one face: the point is on it ([None]), or is there a crossing. *)
Definition face_test (p : point) (f : point * point) : option bool :=
  let '(xi, yi, xj, yj) := consistent_line_orientation_2d (fst (fst f)) (snd (fst f)) (fst (snd f)) (snd (snd f)) in
  let '(x0, x1) := p in
  if Qeq_bool x0 xj && Qeq_bool x1 yj then None
  else if xorb (rlt x1 yj) (rlt x1 yi) then
    let determinate := ((x0 - xj) * (yi - yj) - (xi - xj) * (x1 - yj))%Q in
    if Qeq_bool determinate 0 then None
    else Some (xorb (rlt determinate 0) (rlt yi yj))
  else Some false.
Fixpoint num_crossings (p : point) (fs : list (point * point)) (n : nat) : nat :=
  match fs with
  | [] => n
  | f :: t => match face_test p f with None => 1%nat | Some true => num_crossings p t (S n) | Some false => num_crossings p t n end
  end.
Definition point_in_cell (p : point) (vs : list point) : bool := Nat.odd (num_crossings p (faces vs) 0).
(** L179-245: the kernel.  The pair is the entries CELL.at(0), RANK.at(1) of the particle. *)
Definition map_particle (mp : mapper) (p : point) (old : Z * Z) : option (Z * Z) :=
  c0 <- mapper_cell (mp_overlay mp) 0 (fst p) ;; c1 <- mapper_cell (mp_overlay mp) 1 (snd p) ;;
  overlay_cell <- get_linear_cell_index (mp_overlay mp) [c0; c1] ;;
  let candidates := match map_get (mp_candidates mp) overlay_cell with Some l => l | None => [] end in
  foldM (fun r cx => cell <- rd (mp_cells mp) cx ;; Some (if point_in_cell p (c_verts cell) then (c_id cell, c_rank cell) else r)) old candidates.
