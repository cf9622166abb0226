(** Model of CartesianTrajectoryIntersection
    (include/neso_particles/cartesian_mesh/cartesian_trajectory_intersection.hpp,
    src/cartesian_mesh/cartesian_trajectory_intersection.cpp L7-75) and of the
    two functions of include/neso_particles/device_functions.hpp it calls.  REAL
    is [Q], INT is [Z]; rounding and overflow are not modelled.  The exchange
    pattern of the face cells that are hit (L480-514) is not modelled. *)
From Coq Require Import List Arith ZArith QArith Qabs Bool.
Import ListNotations.
From Verif Require Import Base Mesh_Model CartMesh_Model.
Local Open Scope Z_scope.

Definition qlt (a b : Q) : bool := negb (Qle_bool b a).

(** device_functions.hpp L250-272; the result is the return value, xi and yi. *)
Definition line_segment_intersection_2d_x_axis_aligned (xa ya xb yb x0 y0 x1 tol : Q) : bool * Q * Q :=
  let diff_a := (ya - y0)%Q in
  let diff_b := (yb - y0)%Q in
  let is_crossed := Qle_bool (diff_a * diff_b) 0 in
  let width := (Qabs diff_a + Qabs diff_b)%Q in
  let colocated := Qeq_bool width 0 in
  let ratio := if negb colocated then (Qabs diff_a / width)%Q else 0%Q in
  let xi := (xa + ratio * (xb - xa))%Q in
  let in_bounds := (Qle_bool (x0 - tol) xi && Qle_bool xi (x1 + tol)) || (Qle_bool (x1 - tol) xi && Qle_bool xi (x0 + tol)) in
  (is_crossed && negb colocated && in_bounds, xi, y0).

(** L336-360; the result is the return value, xi, yi and zi. *)
Definition plane_intersection_3d_xy_plane_aligned (ax ay az bx by_ bz p0x p0y p0z p1x p2y tol : Q) : bool * Q * Q * Q :=
  let diff_a := (az - p0z)%Q in
  let diff_b := (bz - p0z)%Q in
  let is_crossed := Qle_bool (diff_a * diff_b) 0 in
  let width := (Qabs diff_a + Qabs diff_b)%Q in
  let colocated := Qeq_bool width 0 in
  let ratio := if negb colocated then (Qabs diff_a / width)%Q else 0%Q in
  let xi := (ax + ratio * (bx - ax))%Q in
  let yi := (ay + ratio * (by_ - ay))%Q in
  let in_bounds_x := (Qle_bool (p0x - tol) xi && Qle_bool xi (p1x + tol)) || (Qle_bool (p1x - tol) xi && Qle_bool xi (p0x + tol)) in
  let in_bounds_y := (Qle_bool (p0y - tol) yi && Qle_bool yi (p2y + tol)) || (Qle_bool (p2y - tol) yi && Qle_bool yi (p0y + tol)) in
  (is_crossed && negb colocated && in_bounds_x && in_bounds_y, xi, yi, p0z).

(** L88-91: global_extents has [ndim] entries, the array has three. *)
Definition k_extents (m : cmesh) : option (list Q) := global_extents m.

(** L93-115: the selection of the particles which leave the domain. *)
Definition departing (nd : nat) (ext P : list Q) : option bool :=
  p0 <- rd P 0 ;; p1 <- rd P 1 ;; e0 <- rd ext 0 ;; e1 <- rd ext 1 ;;
  let b := Qle_bool p0 0 || Qle_bool e0 p0 || Qle_bool p1 0 || Qle_bool e1 p1 in
  if (nd =? 2)%nat then Some b
  else p2 <- rd P 2 ;; e2 <- rd ext 2 ;; Some (b || Qle_bool p2 0 || Qle_bool e2 p2).

(** The point, the face and whether one was found, as the kernels write them. *)
Record found_face := mk_found { ff_point : list Q; ff_face : Z; ff_found : bool }.

(** L161-203 *)
Definition intersect_2d (ext : list Q) (tol : Q) (P PP : list Q) : option found_face :=
  p0 <- rd P 0 ;; p1 <- rd P 1 ;; q0 <- rd PP 0 ;; q1 <- rd PP 1 ;; e0 <- rd ext 0 ;; e1 <- rd ext 1 ;;
  let base0 := Qle_bool (p1 - tol) 0 in
  let edges0 := if base0 then 0 else 2 in
  let '(exists_0, xi0, yi0) := line_segment_intersection_2d_x_axis_aligned q0 q1 p0 p1 0 (if base0 then 0%Q else e1) e0 tol in
  let base1 := Qle_bool (p0 - tol) 0 in
  let edges1 := if base1 then 3 else 1 in
  let '(exists_1, yi1, xi1) := line_segment_intersection_2d_x_axis_aligned q1 q0 p1 p0 0 (if base1 then 0%Q else e0) e1 tol in
  Some (mk_found [if exists_0 then xi0 else xi1; if exists_0 then yi0 else yi1] (if exists_0 then edges0 else edges1) (exists_0 || exists_1)).

(** L230-321 *)
Definition intersect_3d (ext : list Q) (tol : Q) (P PP : list Q) : option found_face :=
  p0 <- rd P 0 ;; p1 <- rd P 1 ;; p2 <- rd P 2 ;; q0 <- rd PP 0 ;; q1 <- rd PP 1 ;; q2 <- rd PP 2 ;;
  e0 <- rd ext 0 ;; e1 <- rd ext 1 ;; e2 <- rd ext 2 ;;
  let base0 := Qle_bool (p2 - tol) 0 in
  let faces0 := if base0 then 4 else 5 in
  let '(exists_0, xi0, yi0, zi0) := plane_intersection_3d_xy_plane_aligned q0 q1 q2 p0 p1 p2 0 0 (if base0 then 0%Q else e2) e0 e1 tol in
  let base1 := Qle_bool (p1 - tol) 0 in
  let faces1 := if base1 then 0 else 2 in
  let '(exists_1, xi1, zi1, yi1) := plane_intersection_3d_xy_plane_aligned q0 q2 q1 p0 p2 p1 0 0 (if base1 then 0%Q else e1) e0 e2 tol in
  let base2 := Qle_bool (p0 - tol) 0 in
  let faces2 := if base2 then 3 else 1 in
  let '(exists_2, yi2, zi2, xi2) := plane_intersection_3d_xy_plane_aligned q1 q2 q0 p1 p2 p0 0 0 (if base2 then 0%Q else e0) e1 e2 tol in
  Some (fold_left (fun w c => let '(e, x, y, z, f) := c in
                      mk_found (if e : bool then [x; y; z] else ff_point w) (if e then f else ff_face w) (ff_found w || e))
         [(exists_0, xi0, yi0, zi0, faces0); (exists_1, xi1, yi1, zi1, faces1); (exists_2, xi2, yi2, zi2, faces2)]
         (mk_found [0%Q; 0%Q; 0%Q] (-1) false)).

Definition intersect (nd : nat) := if (nd =? 2)%nat then intersect_2d else intersect_3d.

(** A particle of the group: its local linear index (ParticleLoopIndex), its
    position and its position at the last call to pre_integration. *)
Record tpart := mk_tpart { lin : nat; pos : list Q; prev : list Q }.

(** L65-75 pre_integration, for one particle. *)
Definition pre_integration (nd : nat) (p : tpart) : option tpart :=
  pp <- foldM (fun a dimx => v <- rd (pos p) dimx ;; upd a dimx v) (prev p) (seq 0 nd) ;; Some (mk_tpart (lin p) (pos p) pp).

(** The three temporary buffers: d_buffer, d_buffer_int and d_lut. *)
Record bufs := mk_bufs { k_buffer : list Q; k_buffer_int : list Z; k_lut : list Z }.

(** L151-209 and L218-329: the kernel for the particle with loop linear index
    [i] of the departing particles [dep]. *)
Definition intersect_step (nd : nat) (ext : list Q) (tol : Q) (dep : list tpart) (b : bufs) (i : nat) : option bufs :=
  p <- rd dep i ;;
  w <- intersect nd ext tol (pos p) (prev p) ;;
  kb <- foldM (fun kb dx => v <- rd (ff_point w) dx ;; upd kb (length dep * dx + i) v) (k_buffer b) (seq 0 nd) ;;
  ki <- upd (k_buffer_int b) i (ff_face w) ;;
  kl <- upd (k_lut b) (lin p) (if ff_found w then Z.of_nat i else -1) ;;
  Some (mk_bufs kb ki kl).

(** L20 and L394-406: the map from faces to groups; [groups] is a std::map. *)
Definition MASK_VALUE : Z := - 2 ^ 31.
Definition boundary_group_map (nd : nat) (groups : list (Z * list Z)) : option (list Z) :=
  let max_edge := if (nd =? 2)%nat then 4 else 6 in
  foldM (fun mp (bx : Z * list Z) =>
           foldM (fun mp ex => _ <- assert ((-1 <? ex) && (ex <? max_edge)) ;; upd mp (Z.to_nat ex) (fst bx)) mp (snd bx))
        (repeat MASK_VALUE 6) groups.

(** L413-420: the selection of the particles of a group. *)
Definition in_group (b : bufs) (mp : list Z) (k_group : Z) (p : tpart) : option bool :=
  index <- rd (k_lut b) (lin p) ;; _ <- assert (0 <=? index) ;;
  facet_id <- rd (k_buffer_int b) (Z.to_nat index) ;; _ <- assert (0 <=? facet_id) ;;
  g <- rd mp (Z.to_nat facet_id) ;; Some (g =? k_group).

(** cartesian_trajectory_intersection.cpp L13-74: the offsets and strides. *)
Definition element_counts (m : cmesh) : option (list Z) :=
  let n := ncells_dim_fine (hier m) in
  d0 <- rd (dims (hier m)) 0 ;; d1 <- rd (dims (hier m)) 1 ;;
  if (ndim (hier m) =? 2)%nat then
    let t := [d0 * n; d1 * n; d0 * n; d1 * n; 0; 0] in
    _ <- assert (fold_left Z.add t 0 =? n * (d0 + d1 + d0 + d1)) ;; Some t
  else
    d2 <- rd (dims (hier m)) 2 ;;
    let t := [d0 * d2 * (n * n); d1 * d2 * (n * n); d0 * d2 * (n * n); d1 * d2 * (n * n); d0 * d1 * (n * n); d0 * d1 * (n * n)] in
    _ <- assert (fold_left Z.add t 0 =? n * n * (d0 * d2 + d1 * d2 + d0 * d2 + d1 * d2 + d0 * d1 + d0 * d1)) ;; Some t.
(** std::exclusive_scan *)
Fixpoint exclusive_scan (total : Z) (l : list Z) : list Z :=
  match l with [] => [] | a :: t => total :: exclusive_scan (total + a) t end.
Definition element_offsets (m : cmesh) : option (list Z) := t <- element_counts m ;; Some (exclusive_scan 0 t).
(** In two dimensions the last two entries are never set nor read. *)
Definition element_strides0 (m : cmesh) : option (list Z) :=
  let n := ncells_dim_fine (hier m) in
  d0 <- rd (dims (hier m)) 0 ;; d1 <- rd (dims (hier m)) 1 ;;
  if (ndim (hier m) =? 2)%nat then Some [d0 * n; d1 * n; d0 * n; d1 * n]
  else Some [d0 * n; d1 * n; d0 * n; d1 * n; d0 * n; d0 * n].
Definition element_strides1 (m : cmesh) : option (list Z) :=
  let n := ncells_dim_fine (hier m) in
  if (ndim (hier m) =? 2)%nat then Some [1; 1; 1; 1]
  else d1 <- rd (dims (hier m)) 1 ;; d2 <- rd (dims (hier m)) 2 ;;
       Some [d2 * n; d2 * n; d2 * n; d2 * n; d1 * n; d1 * n].

(** What a particle of a returned sub-group holds: the three ephemeral dats. *)
Record hit := mk_hit { h_part : tpart; h_point : list Q; h_normal : list Q; h_metadata : list Z }.

(** L439-441 *)
Definition normals : list (list Q) :=
  [[0; 1; 0]; [-1 # 1; 0; 0]; [0; -1 # 1; 0]; [1; 0; 0]; [0; 0; 1]; [0; 0; -1 # 1]]%Q.
(** L449-450 *)
Definition facet_to_indices : list (nat * nat) := [(0, 2); (1, 2); (0, 2); (1, 2); (0, 1); (0, 1)]%nat.

(** L430-470: the kernel which writes the ephemeral dats of a particle; [n] is
    npart_leaving. *)
Definition collect_information (m : cmesh) (n : nat) (b : bufs) (mp : list Z) (p : tpart) : option hit :=
  let nd := ndim (hier m) in
  index <- rd (k_lut b) (lin p) ;; _ <- assert (0 <=? index) ;;
  let index := Z.to_nat index in
  facet_id <- rd (k_buffer_int b) index ;; _ <- assert (0 <=? facet_id) ;;
  let facet := Z.to_nat facet_id in
  g <- rd mp facet ;;
  point <- mapM (fun dx => rd (k_buffer b) (n * dx + index)) (seq 0 nd) ;;
  nrow <- rd normals facet ;;
  normal <- mapM (rd nrow) (seq 0 nd) ;;
  fi <- rd facet_to_indices facet ;;
  facet_point0 <- rd point (fst fi) ;;
  facet_point1 <- (if (nd =? 3)%nat then rd point (snd fi) else Some 0%Q) ;;
  s0 <- element_strides0 m ;; s1 <- element_strides1 m ;; offs <- element_offsets m ;;
  w0 <- rd s0 facet ;; w1 <- rd s1 facet ;; off <- rd offs facet ;;
  let facet_cell0 := Z.min (w0 - 1) (Qtrunc (inverse_cell_width_fine (hier m) * facet_point0)) in
  let facet_cell1 := Z.min (w1 - 1) (Qtrunc (inverse_cell_width_fine (hier m) * facet_point1)) in
  Some (mk_hit p point normal [g; off + facet_cell0 + facet_cell1 * w0]).

(** static_particle_sub_group: the particles of [l] for which the kernel returns true. *)
Definition select {A} (f : A -> option bool) (l : list A) : option (list A) :=
  bs <- mapM f l ;; Some (map fst (filter snd (combine l bs))).

(** BufferDevice::realloc_no_copy: a buffer which is large enough is kept;
    [fresh] is what new memory holds. *)
Definition realloc_no_copy {A} (fresh : nat -> A) (buf : list A) (size : nat) : list A :=
  if (length buf <? size)%nat then map fresh (seq 0 size) else buf.

(** L79-522 post_integration_inner: [parts] are the particles it is called with,
    [npart_local] is the number of particles of the group on this rank, [b0] is
    what the three buffers hold before, [sched] the order in which the work
    items of the intersection kernel run.  The result maps each group to its
    sub-group. *)
Definition post_integration (m : cmesh) (tol : Q) (groups : list (Z * list Z)) (parts : list tpart) (npart_local : nat)
  (b0 : bufs) (fresh_real : nat -> Q) (fresh_int : nat -> Z) (sched : list nat -> list nat) : option (list (Z * list hit)) :=
  let nd := ndim (hier m) in
  _ <- assert ((nd =? 2) || (nd =? 3))%nat ;;
  ext <- k_extents m ;;
  dep <- select (fun p => departing nd ext (pos p)) parts ;;
  let b1 := mk_bufs (realloc_no_copy fresh_real (k_buffer b0) (nd * length dep)) (realloc_no_copy fresh_int (k_buffer_int b0) (length dep))
              (realloc_no_copy fresh_int (k_lut b0) npart_local) in
  b <- foldM (intersect_step nd ext tol dep) b1 (sched (seq 0 (length dep))) ;;
  ok <- mapM (fun p => v <- rd (k_lut b) (lin p) ;; Some (-1 <? v)) dep ;;
  _ <- assert (forallb (fun x => x) ok) ;;
  mp <- boundary_group_map nd groups ;;
  mapM (fun bx => sub <- select (in_group b mp (fst bx)) dep ;;
                  hits <- mapM (collect_information m (length dep) b mp) sub ;; Some (fst bx, hits)) groups.
