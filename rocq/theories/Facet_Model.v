(** Model of BoundaryInteraction2D: which particles crossed the boundary of a 2D mesh, and where.
    "2d.hpp" and "common.hpp" are boundary_interaction_2d.hpp and boundary_interaction_common.hpp of
    include/neso_particles/external_interfaces/petsc/boundary_interaction, "2d.cpp" and "common.cpp" the
    files of the same names in src/external_interfaces/petsc/boundary_interaction.
    REAL is [Q], INT is [Z]; the int that count cells wrap around. *)
From Coq Require Import List Arith ZArith QArith Qminmax Bool.
Import ListNotations.
From Verif Require Import Base Maps_Model Mesh_Model DeviceFn_Model Overlap_Model.
Local Open Scope nat_scope.

Definition mem (a : Z) (l : list Z) : bool := existsb (Z.eqb a) l.
Definition INT_MAX : Z := 2147483647.
Definition INT_MIN : Z := -2147483648.
Definition wrap (z : Z) : Z := ((z + 2147483648) mod 4294967296 - 2147483648)%Z.

(** ** Set up *)

(** A facet: two vertices and the normal (2d.hpp L67-69; the normal, 2d.cpp L161-168, is taken as
    given: it needs a square root), the label and the global index. *)
Record facet := mk_facet { f_x0 : Q; f_y0 : Q; f_x1 : Q; f_y1 : Q; f_n : Q * Q; f_label : Z; f_id : Z }.

(** common.hpp L36-54 [get_labels]. *)
Definition get_labels (groups : list (Z * list Z)) : option (list Z) :=
  foldM (fun labels item =>
    foldM (fun labels ix => _ <- assert (negb (mem ix labels)) ;; Some (labels ++ [ix])) labels (nodup Z.eq_dec (snd item)))
    [] groups.
(** common.cpp L38-43: map_label_to_groups; a label is in one group only, [get_labels]. *)
Definition group_of (groups : list (Z * list Z)) (label : Z) : option Z :=
  option_map fst (find (fun item => mem label (snd item)) groups).

(** 2d.cpp L8-28.  The first [expand] of the default box gives the box of the first vertex. *)
Definition padding : Q := 1 # 100000000.
Definition get_bounding_box (f : facet) : option box :=
  make_box [Qmin (f_x0 f - padding) (f_x1 f - padding); Qmin (f_y0 f - padding) (f_y1 f - padding); 0;
            Qmax (f_x0 f + padding) (f_x1 f + padding); Qmax (f_y0 f + padding) (f_y1 f + padding); 0]%Q.

(** The constructor, 2d.cpp L117-276 and common.cpp L30-79.  [ranks]: the facets of the labelled face
    sets of all ranks in the order of the gather operations; the shared memory of a node is one list. *)
Record interaction := mk_interaction {
  i_mesh : mesh; i_groups : list (Z * list Z); i_tol : Q; i_max : Q;
  i_facets : list facet;
  i_cells : list (list Z);      (** the mesh hierarchy cells of each facet; map_mh_index_to_index is the inverse *)
  i_bounds : list Z }.
Definition construct (m : mesh) (groups : list (Z * list Z)) (tol max_real : Q) (ranks : list (list (Z * list facet))) : option interaction :=
  _ <- assert (forallb (fun item => 0 <=? fst item)%Z groups) ;;
  bounds <- mapM (fun dimx => d <- rd (dims m) dimx ;; Some (d * ncells_dim_fine m)%Z) (seq 0 (ndim m)) ;;
  labels <- get_labels groups ;;
  let facets := flat_map (fun sets => flat_map (fun item => if mem (fst item) labels then map (fun f => mk_facet (f_x0 f) (f_y0 f) (f_x1 f) (f_y1 f) (f_n f) (fst item) (f_id f)) (snd item) else []) sets) ranks in
  cells <- mapM (fun f => b <- get_bounding_box f ;; cs <- bounding_box_map m b ;; Some (map fst cs)) facets ;;
  Some (mk_interaction m groups tol max_real facets cells (bounds ++ repeat 0%Z (3 - ndim m))).

(** The facets of a mesh hierarchy cell in the order of their indices (2d.cpp L258-268). *)
Definition facets_at (b : interaction) (cell : Z) : list facet :=
  map fst (filter (fun e => mem cell (snd e)) (List.combine (i_facets b) (i_cells b))).

(** ** The mesh hierarchy cells that are needed: find_cells, common.hpp L173-325 *)

Record particle := mk_particle { p_cell : nat; p_prev : list Q; p_cur : list Q }.

(** L186-218: the kernel of one particle; [index]: the layout of CellDatConst with one column. *)
Definition fetch_cells (m : mesh) (cell : nat) (s : list Z * list Z) (position : list Q) : option (list Z * list Z) :=
  cell_cart <- map_to_cart_tuple_no_trunc m position ;;
  foldM (fun s dimx =>
    c <- rd cell_cart dimx ;;
    hi <- rd (snd s) (cell * ndim m + dimx) ;; kmax <- upd (snd s) (cell * ndim m + dimx) (Z.max hi c) ;;
    lo <- rd (fst s) (cell * ndim m + dimx) ;; kmin <- upd (fst s) (cell * ndim m + dimx) (Z.min lo c) ;;
    Some (kmin, kmax)) s (seq 0 (ndim m)).
Definition find_minmax (d : device) (m : mesh) (ncell : nat) (ps : list particle) : option (list Z * list Z) :=
  foldM (fun s p => s' <- fetch_cells m (p_cell p) s (p_cur p) ;; fetch_cells m (p_cell p) s' (p_prev p))
    (repeat INT_MAX (ncell * ndim m), repeat INT_MIN (ncell * ndim m)) (ord d 0 ps).

(** L224-251: the truncated bounds and the greatest volume.  For a cell without particles the width
    bound_max - bound_min + 1 is INT_MIN - INT_MAX + 1, which overflows: here it wraps around. *)
Definition bound_cell (m : mesh) (bounds : list Z) (s : (list Z * list Z) * Z) (idx : nat) : option ((list Z * list Z) * Z) :=
  r <- foldM (fun (s : (list Z * list Z) * Z) dimx =>
    let index := idx * ndim m + dimx in
    lo <- rd (fst (fst s)) index ;; hi <- rd (snd (fst s)) index ;; k <- rd bounds dimx ;;
    let bound_min := Z.max 0 lo in
    let bound_max := Z.min (k - 1) hi in
    kmin <- upd (fst (fst s)) index bound_min ;; kmax <- upd (snd (fst s)) index bound_max ;;
    Some ((kmin, kmax), wrap (snd s * wrap (bound_max - bound_min + 1)))) (fst s, 1%Z) (seq 0 (ndim m)) ;;
  Some (fst r, Z.max (snd s) (snd r)).

(** The loops over a box of cells. *)
Definition grid (starts ends : list Z) : option (list (list Z)) :=
  s0 <- rd starts 0 ;; s1 <- rd starts 1 ;; s2 <- rd starts 2 ;; e0 <- rd ends 0 ;; e1 <- rd ends 1 ;; e2 <- rd ends 2 ;;
  Some (flat_map (fun cz => flat_map (fun cy => map (fun cx => [cx; cy; cz]) (zrange s0 e0)) (zrange s1 e1)) (zrange s2 e2)).
Definition linear_cell (m : mesh) (cell_index : list Z) : option Z :=
  mh_tuple <- cart_tuple_to_tuple m cell_index ;; tuple_to_linear_global m mh_tuple.

(** L257-304: the cells of one work item, then the unused entries. *)
Definition list_cells (m : mesh) (ncell max_box : nat) (k : list Z * list Z) (buf : list Z) (idx : nat) : option (list Z) :=
  starts <- mapM (fun dimx => rd (fst k) (idx * ndim m + dimx)) (seq 0 (ndim m)) ;;
  ends <- mapM (fun dimx => e <- rd (snd k) (idx * ndim m + dimx) ;; Some (e + 1)%Z) (seq 0 (ndim m)) ;;
  cells <- grid (starts ++ repeat 0%Z (3 - ndim m)) (ends ++ repeat 1%Z (3 - ndim m)) ;;
  r <- foldM (fun s c => l <- linear_cell m c ;; buf <- upd (fst s) (snd s) l ;; Some (buf, snd s + ncell)) (buf, idx) cells ;;
  foldM (fun buf j => upd buf (idx + j * ncell) (-1)%Z) (fst r) (seq (length cells) (max_box - length cells)).

(** L173-325.  [junk]: the contents of the buffer after realloc_no_copy. *)
Definition find_cells (d : device) (b : interaction) (ncell : nat) (junk_ : nat -> Z) (collected : list Z) (ps : list particle) : option (list Z) :=
  let m := i_mesh b in
  k <- find_minmax d m ncell ps ;;
  r <- foldM (bound_cell m (i_bounds b)) (k, 0%Z) (ord d 1 (seq 0 ncell)) ;;
  let max_box := Z.to_nat (snd r) in
  buf <- foldM (list_cells m ncell max_box (fst r)) (map junk_ (seq 0 (max_box * ncell))) (ord d 2 (seq 0 ncell)) ;;
  let tmp_cells := fold_left (fun s cell => if (-1 <? cell)%Z then set_add cell s else s) buf [] in
  Some (filter (fun cell => negb (mem cell collected)) tmp_cells).

(** ** The facets of the needed cells on the device: collect_cells, 2d.cpp L30-84 *)

(** One entry of d_real and d_int of a cell (2d.hpp L16-20): the vertices, the group and the index. *)
Record edge := mk_edge { e_x0 : Q; e_y0 : Q; e_x1 : Q; e_y1 : Q; e_group : Z; e_id : Z }.
(** The state: d_map_edge_discovery, d_map_edge_normals, pushed_edge_data, collected_mh_cells. *)
Record store := mk_store { s_edges : tree (list edge); s_normals : tree (Q * Q); s_pushed : list Z; s_collected : list Z }.
Definition width8 : Z := 8.
Section Trees.
Variables (fresh_e : nat -> node (list edge)) (fresh_n : nat -> node (Q * Q)).

(** 2d.cpp L41-66 *)
Definition collect_facet (groups : list (Z * list Z)) (s : list edge * (tree (Q * Q) * list Z)) (f : facet) : option (list edge * (tree (Q * Q) * list Z)) :=
  group_id <- group_of groups (f_label f) ;;
  let es := fst s ++ [mk_edge (f_x0 f) (f_y0 f) (f_x1 f) (f_y1 f) group_id (f_id f)] in
  if mem (f_id f) (snd (snd s)) then Some (es, snd s)
  else t <- add width8 fresh_n (fst (snd s)) (f_id f) (f_n f) ;; Some (es, (t, f_id f :: snd (snd s))).
(** L32-81 *)
Definition collect_cell (b : interaction) (s : store) (cell : Z) : option store :=
  match facets_at b cell with
  | [] => Some (mk_store (s_edges s) (s_normals s) (s_pushed s) (set_add cell (s_collected s)))
  | fs =>
      r <- foldM (collect_facet (i_groups b)) ([], (s_normals s, s_pushed s)) fs ;;
      t <- add width8 fresh_e (s_edges s) cell (fst r) ;;
      Some (mk_store t (fst (snd r)) (snd (snd r)) (set_add cell (s_collected s)))
  end.

(** ** Intersections: TrajectoryIntersect2D, 2d.hpp L99-164, find_intersections_inner, common.hpp L57-169 *)

(** current_distance, P, NORMAL and C. *)
Record hit := mk_hit { h_dist : Q; h_p : Q * Q; h_n : Q * Q; h_c : Z * Z * Z }.
(** 2d.hpp L128-151; without an intersection the values xi, yi may be undefined, and are not used. *)
Definition test_edge (tol : Q) (a b : list Q) (s : hit * bool) (e : edge) : option (hit * bool) :=
  xa <- rd a 0 ;; ya <- rd a 1 ;; xb <- rd b 0 ;; yb <- rd b 1 ;;
  r <- line_segment_intersection_2d (e_x0 e) (e_y0 e) (e_x1 e) (e_y1 e) xa ya xb yb tol ;;
  match r with
  | (true, Some (xi, yi, _)) =>
      let d2 := ((xa - xi) * (xa - xi) + (ya - yi) * (ya - yi))%Q in
      if rlt d2 (h_dist (fst s)) then Some (mk_hit d2 (xi, yi) (h_n (fst s)) (1%Z, e_group e, e_id e), true) else Some s
  | _ => Some s
  end.
(** L115-163.  A missing normal is a failure (the code reads whatever the node holds). *)
Definition find_in_cell (tol : Q) (s : store) (root_ : nat) (a b : list Q) (h : hit) (cell : Z) : option hit :=
  data <- get width8 (heap (s_edges s)) (Some root_) cell ;;
  match data with
  | None => Some h
  | Some es =>
      r <- foldM (test_edge tol a b) (h, false) es ;;
      if snd r then
        root_n <- root (s_normals s) ;;
        n <- get width8 (heap (s_normals s)) (Some root_n) (snd (h_c (fst r))) ;;
        n <- n ;;
        Some (mk_hit (h_dist (fst r)) (h_p (fst r)) n (h_c (fst r)))
      else Some (fst r)
  end.
(** common.hpp L76-110: the box of a trajectory.  [ncomp]: the number of components of the position dat. *)
Definition trajectory_cells (b : interaction) (ncomp : nat) (prev cur : list Q) : option (list (list Z)) :=
  let m := i_mesh b in
  _ <- mapM (rd prev) (seq 0 ncomp) ;; _ <- mapM (rd cur) (seq 0 ncomp) ;;
  s <- map_to_cart_tuple_no_trunc m prev ;; e <- map_to_cart_tuple_no_trunc m cur ;;
  let cell_starts := s ++ repeat 0%Z (3 - ndim m) in
  let cell_ends := e ++ repeat 1%Z (3 - ndim m) in
  bs <- mapM (fun dimx =>
    x <- rd cell_starts dimx ;; y <- rd cell_ends dimx ;; k <- rd (i_bounds b) dimx ;;
    Some (Z.max (Z.min x y) 0, Z.min (k - 1) (Z.max x y) + 1)%Z) (seq 0 ncomp) ;;
  grid (map fst bs ++ repeat 0%Z (3 - ncomp)) (map snd bs ++ repeat 1%Z (3 - ncomp)).
(** L112-165: the result is the contents of k_int and k_real for the particle; None if nothing was found:
    k_int is zero (2d.hpp L196-199). *)
Definition find_intersection (b : interaction) (s : store) (ncomp : nat) (p : particle) : option (option hit) :=
  match root (s_edges s) with
  | None => Some None
  | Some r =>
      cells <- trajectory_cells b ncomp (p_prev p) (p_cur p) ;;
      h <- foldM (fun h c => l <- linear_cell (i_mesh b) c ;; find_in_cell (i_tol b) s r (p_prev p) (p_cur p) h l)
             (mk_hit (i_max b) (0, 0)%Q (0, 0)%Q (0, 0, 0)%Z) cells ;;
      Some (if (fst (fst (h_c h)) =? 0)%Z then None else Some h)
  end.

(** post_integration_inner, 2d.hpp L167-258: the sub group of each boundary group, as particle index and
    INTERSECTION_POINT, INTERSECTION_NORMAL, INTERSECTION_METADATA.  With one group the sub group is taken
    from all particles, otherwise from the particles with an intersection. *)
Definition in_group (g : Z) (e : nat * option hit) : option (nat * ((Q * Q) * (Q * Q) * (Z * Z))) :=
  match snd e with
  | Some h => if (snd (fst (h_c h)) =? g)%Z then Some (fst e, (h_p h, h_n h, (g, snd (h_c h)))) else None
  | None => None
  end.
Fixpoint pick {A B} (f : A -> option B) (l : list A) : list B :=
  match l with [] => [] | a :: l' => match f a with Some b => b :: pick f l' | None => pick f l' end end.
Definition sub_groups (b : interaction) (hits : list (option hit)) : list (Z * list (nat * ((Q * Q) * (Q * Q) * (Z * Z)))) :=
  let indexed := List.combine (seq 0 (length hits)) hits in
  let iteration_set := if length (i_groups b) =? 1 then indexed else filter (fun e => match snd e with Some _ => true | None => false end) indexed in
  map (fun item => (fst item, pick (in_group (fst item)) iteration_set)) (i_groups b).

(** A call: the device, the contents of buffers, the number of components of the positions, the particles. *)
Record call := mk_call { c_dev : device; c_junk : nat -> Z; c_ncomp : nat; c_particles : list particle }.
Definition post_integration (b : interaction) (ncell : nat) (s : store) (c : call) : option (store * list (Z * list (nat * ((Q * Q) * (Q * Q) * (Z * Z))))) :=
  required <- find_cells (c_dev c) b ncell (c_junk c) (s_collected s) (c_particles c) ;;
  s' <- foldM (collect_cell b) s required ;;
  hits <- mapM (find_intersection b s' (c_ncomp c)) (c_particles c) ;;
  Some (s', sub_groups b hits).
Definition new_store : store := mk_store new_tree new_tree [] [].
Definition run_calls (b : interaction) (ncell : nat) (cs : list call) : option (store * list (list (Z * list (nat * ((Q * Q) * (Q * Q) * (Z * Z)))))) :=
  foldM (fun s c => r <- post_integration b ncell (fst s) c ;; Some (fst r, snd s ++ [snd r])) (new_store, []) cs.
End Trees.
