(** Cells of a DMPlex sent to other ranks, and the mesh built from the cells received.
    src/external_interfaces/petsc/dmplex_cell_serialise.cpp L7-90, dmplex_helper.cpp L120-356,
    include/neso_particles/external_interfaces/petsc/dmplex_helper.hpp L65-163, 185-230. *)
From Coq Require Import List Arith ZArith Bool.
Import ListNotations.
From Verif Require Import Base Serial_Model CellRep_Model.

(** A DMPlex as PETSc presents it: the chart, and of each point the oriented cone, the height and (of a vertex) the coordinates. *)
Record dm := mk_dm { pstart : Z; pend : Z; dcone : Z -> list (Z * Z); dheight : Z -> Z; ddepth : Z; dcoords : Z -> list Z }.
Definition in_chart (d : dm) (p : Z) : bool := (pstart d <=? p)%Z && (p <? pend d)%Z.

(** std::set<PetscInt>::insert, and map[k] of a map of containers. *)
Fixpoint set_add (l : list Z) (x : Z) : list Z :=
  match l with [] => [x] | y :: t => if (x <? y)%Z then x :: l else if (x =? y)%Z then l else y :: set_add t x end.
Definition get_or_empty {A} (m : zmap (list A)) (k : Z) : list A := match map_get m k with Some l => l | None => [] end.

(** dmplex_cell_serialise.cpp L7-28.  The fuel bounds the depth of the recursion. *)
Fixpoint traverse (fuel : nat) (d : dm) (index : Z) (per_height : zmap (list Z)) : option (zmap (list Z)) :=
  match fuel with
  | 0 => None
  | S f =>
    _ <- assert (in_chart d index) ;;                                                        (* L12-13 *)
    let h := dheight d index in
    _ <- assert ((0 <=? h)%Z && (h <=? ddepth d)%Z) ;;                                      (* L16 *)
    foldM (fun acc c => traverse f d (fst c) acc) (map_set per_height h (set_add (get_or_empty per_height h) index)) (dcone d index)    (* L18-27 *)
  end.
(** L30-76: the loops that push one entry at a time append here at once. *)
Definition rep_of (d : dm) (rename : Z -> option Z) (index : Z) : option cell_rep :=
  per_height <- traverse (S (Z.to_nat (ddepth d))) d index [] ;;
  r <- foldM (fun r hx =>
         foldM (fun r ix =>
           q <- rename ix ;;
           c <- mapM (fun e => rename (fst e)) (dcone d ix) ;;
           Some (mk_rep (map_set (cones r) q (get_or_empty (cones r) q ++ c))
                        (map_set (orientations r) q (get_or_empty (orientations r) q ++ map snd (dcone d ix))) (vertices r)))
           r (snd hx)) (mk_rep [] [] []) per_height ;;                                       (* L41-60 *)
  foldM (fun r vx =>
    q <- rename vx ;;
    Some (mk_rep (cones r) (orientations r) (map_set (vertices r) q (get_or_empty (vertices r) q ++ dcoords d vx))))
    r (get_or_empty per_height (ddepth d)).                                                  (* L62-75 *)
(** L78-90: the memo map_to_depth holds what the recursion would find.  The fuel is the number of points. *)
Fixpoint depth_fuel (fuel : nat) (r : cell_rep) (point : Z) : option Z :=
  match fuel with
  | 0 => None
  | S f =>
    c <- map_get (cones r) point ;;                                                          (* L79 *)
    match c with [] => Some 0%Z | x :: _ => d <- depth_fuel f r x ;; Some (d + 1)%Z end
  end.
Definition point_depth (r : cell_rep) (point : Z) : option Z := depth_fuel (length (cones r)) r point.

(** DMPlexHelper: dmplex_helper.cpp L265-303.  [num]: DMPlexCreatePointNumbering, negative for the points of other ranks. *)
Record helper := mk_helper { hdm : dm; hnum : Z -> Z; np_to_petsc : list Z; petsc_to_np : zmap Z; global_to_local : zmap Z }.
(** L333-335. *)
Definition abs_id (c : Z) : Z := if (-1 <? c)%Z then c else (c * -1 - 1)%Z.
Definition range (a b : Z) : list Z := map (fun i => (a + Z.of_nat i)%Z) (seq 0 (Z.to_nat (b - a))).
Definition make_helper (d : dm) (num : Z -> Z) (cell_start cell_end : Z) : option helper :=
  let '(np, pn, ix) :=
    fold_left (fun st cx => let '(np, pn, ix) := st in if (-1 <? num cx)%Z then (np ++ [cx], map_set pn cx ix, ix + 1)%Z else st)
      (range cell_start cell_end) ([], [], 0%Z) in                                           (* L277-285 *)
  _ <- assert (ix =? Z.of_nat (length pn))%Z ;;                                              (* L287 *)
  _ <- assert (ix =? Z.of_nat (length np))%Z ;;                                              (* L289 *)
  _ <- assert (negb (length np =? 0)) ;;                                                     (* L292 *)
  Some (mk_helper d num np pn (fold_left (fun m px => map_set m (abs_id (num px)) px) (range (pstart d) (pend d)) [])).       (* L298-302 *)
Definition znth {A} (l : list A) (i : Z) : option A := if (0 <=? i)%Z then nth_error l (Z.to_nat i) else None.
(** L319-356. *)
Definition get_dmplex_cell_index (h : helper) (local : Z) : option Z := znth (np_to_petsc h) local.
Definition get_local_cell_index (h : helper) (petsc : Z) : option Z := map_get (petsc_to_np h) petsc.
Definition get_point_global_index (h : helper) (point : Z) : option Z :=
  _ <- assert (in_chart (hdm h) point) ;; Some (abs_id (hnum h point)).
(** L350-356: count looks for the unsigned number, operator[] for the number as it was passed; it makes an entry 0 if there is none. *)
Definition get_local_point (h : helper) (global : Z) : option Z :=
  _ <- map_get (global_to_local h) (abs_id global) ;;
  match map_get (global_to_local h) global with Some p => Some p | None => Some 0%Z end.
(** L237-261. *)
Definition copyable_cell (ni : nat) (h : helper) (rank : Z) (types : Z -> Z) (local : Z) : option cell_msg :=
  point <- get_dmplex_cell_index h local ;;
  spec <- rep_of (hdm h) (get_point_global_index h) point ;;
  b <- rep_serialise ni spec ;;
  g <- get_point_global_index h point ;;
  Some (mk_cell local g rank (types point) b).

(** HaloDMIndexMapper: dmplex_helper.hpp L65-163. *)
Record mapper := mk_mapper { starts : list Z; ends : list Z; to_local : zmap Z; chart_end : Z }.
Definition depth_points (cells : list cell_rep) : option (zmap (list Z)) :=
  foldM (fun m r => foldM (fun m e => d <- point_depth r (fst e) ;; Some (map_set m d (set_add (get_or_empty m d) (fst e)))) m (cones r)) [] cells.    (* L111-118 *)
(** L129-141: the vectors grow here where the code writes the next entry of vectors of the right length. *)
Definition strata (points : zmap (list Z)) (depth_max : nat) : option (list Z * list Z) :=
  p0 <- map_get points 0%Z ;;
  foldM (fun st depth =>
    prev_end <- nth_error (snd st) (depth - 1) ;;
    p <- map_get points (Z.of_nat depth) ;;
    Some (fst st ++ [prev_end], snd st ++ [(prev_end + Z.of_nat (length p))%Z]))
    ([0%Z], [Z.of_nat (length p0)]) (seq 1 depth_max).
(** L144-151. *)
Definition number_points (points : zmap (list Z)) (starting : list Z) : option (list Z * zmap Z * Z) :=
  foldM (fun st dp =>
    foldM (fun st g =>
      let '(si, m, n) := st in
      k <- as_size (fst dp) ;;
      local <- nth_error si k ;;
      si' <- upd si k (local + 1)%Z ;;
      Some (si', map_set m g local, n + 1)%Z) st (snd dp)) (starting, [], 0%Z) points.
Definition index_mapper (cells : list cell_rep) : option mapper :=
  match cells with
  | [] => Some (mk_mapper [] [] [] 0%Z)                                                      (* L106-109 *)
  | _ =>
    points <- depth_points cells ;;
    match map fst points with
    | [] => None
    | k :: ks =>
      let depth_max := fold_left Z.max ks k in let depth_min := fold_left Z.min ks k in      (* L119-124 *)
      _ <- assert (depth_min =? 0)%Z ;;                                                      (* L125 *)
      se <- strata points (Z.to_nat depth_max) ;;
      st <- number_points points (fst se) ;;
      let '(si, m, n) := st in
      _ <- assert (forallb (fun d => match nth_error (snd se) d, nth_error si d with Some a, Some b => (a =? b)%Z | _, _ => false end)
             (seq 0 (S (Z.to_nat depth_max)))) ;;                                            (* L153-157 *)
      e <- nth_error (snd se) (length (snd se) - 1) ;;
      _ <- assert (n =? e)%Z ;;                                                              (* L158 *)
      Some (mk_mapper (fst se) (snd se) m n)
    end
  end.

(** The new mesh: what the PETSc calls of dm_from_serialised_cells set, and the map of the local ids.  The coordinates are those of the
    vertices from [h_vstart] to [h_vend], None where nothing was written. *)
Record halo := mk_halo { h_chart : Z; h_cones : zmap (list Z); h_ornt : zmap (list Z); h_vstart : Z; h_vend : Z; h_coords : list (option Z);
                         h_remote : zmap (Z * Z * Z) }.
Definition mem_z (x : Z) (l : list Z) : bool := existsb (Z.eqb x) l.
(** dmplex_helper.cpp L163-175. *)
Definition cone_sizes (mp : mapper) (cells : list cell_rep) : option (zmap nat) :=
  st <- foldM (fun st r =>
    foldM (fun st e =>
      let '(seen, sizes) := st in
      if mem_z (fst e) seen then Some st
      else l <- map_get (to_local mp) (fst e) ;;
           _ <- assert ((0 <=? l)%Z && (l <? chart_end mp)%Z) ;;
           Some (set_add seen (fst e), map_set sizes l (length (snd e)))) st (cones r)) ([], []) cells ;;
  Some (snd st).
(** L178-202.  PETSc copies as many numbers as the size of the cone that was set. *)
Definition set_cones (mp : mapper) (sizes : zmap nat) (remote : zmap (Z * Z * Z)) (cells : list cell_rep) : option (list Z * (zmap (list Z) * zmap (list Z)) * zmap (Z * Z * Z)) :=
  foldM (fun st r =>
    foldM (fun st e =>
      let '(seen, (cs, os), remote) := st in
      if mem_z (fst e) seen then Some st
      else l <- map_get (to_local mp) (fst e) ;;
           c <- mapM (map_get (to_local mp)) (snd e) ;;
           s <- map_get sizes l ;;
           c' <- next_n s c ;;
           o <- map_get (orientations r) (fst e) ;;
           o' <- next_n s o ;;
           let remote' := match map_get remote l with Some _ => remote | None => map_set remote l (-1, -1, fst e)%Z end in
           Some (set_add seen (fst e), (map_set cs l (fst c'), map_set os l (fst o')), remote')) st (cones r)) ([], ([], []), remote) cells.
(** L216-227. *)
Definition write_coords (mp : mapper) (ndim : nat) (vertex_start : Z) (coords : list (option Z)) (cells : list cell_rep) : option (list (option Z)) :=
  foldM (fun coords r =>
    foldM (fun coords e =>
      l <- map_get (to_local mp) (fst e) ;;
      vertex_index <- as_size (l - vertex_start)%Z ;;
      foldM (fun coords dimx => x <- nth_error (snd e) dimx ;; upd coords (vertex_index * ndim + dimx) (Some x)) coords (seq 0 ndim)) coords (vertices r)) coords cells.
(** L120-235.  The map is empty when the function is called (dmplex_interface.cpp). *)
Definition halo_from (ni ndim : nat) (cells : list cell_msg) : option halo :=
  reps <- mapM (fun c => rep_deserialise ni (mk_rep [] [] []) (representation c)) cells ;;   (* L125-131 *)
  mp <- index_mapper reps ;;                                                                 (* L133 *)
  remote <- foldM (fun m c => l <- map_get (to_local mp) (global_id c) ;; Some (map_set m l (owning_rank c, local_id c, global_id c))) [] cells ;;   (* L137-145 *)
  match cells with
  | [] => Some (mk_halo 0 [] [] 0 0 [] remote)                                               (* L148-151 *)
  | _ =>
    sizes <- cone_sizes mp reps ;;
    st <- set_cones mp sizes remote reps ;;
    let '(_, (cs, os), remote') := st in
    vs <- nth_error (starts mp) 0 ;; ve <- nth_error (ends mp) 0 ;;                          (* L208 *)
    nv <- as_size (ve - vs)%Z ;;
    coords <- write_coords mp ndim vs (repeat None (nv * ndim)) reps ;;                      (* L209-227 *)
    Some (mk_halo (chart_end mp) cs os vs ve coords remote')
  end.
