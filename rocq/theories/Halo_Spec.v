(** The mesh that all ranks share, and what a mesh built from some of its cells is to be. *)
From Coq Require Import List Arith ZArith Bool.
Import ListNotations.
From Verif Require Import Base Serial_Model CellRep_Model CellRep_Spec Halo_Model.

(** A mesh: of each point the points of its boundary with their orientations, the dimension of the point, and of a vertex the coordinates. *)
Record mesh := mk_mesh { gcone : Z -> list (Z * Z); gdepth : Z -> nat; gcoord : Z -> list Z }.
Definition mesh_ok (ndim : nat) (G : mesh) : Prop :=
  forall p, (forall c o, In (c, o) (gcone G p) -> gdepth G p = S (gdepth G c)) /\ (gcone G p = [] -> gdepth G p = 0) /\
            (gdepth G p = 0 -> length (gcoord G p) = ndim).
(** [q] is the point [p] or in its boundary, or in the boundary of a point in its boundary, ... *)
Inductive closure (G : mesh) (p : Z) : Z -> Prop :=
| closure_self : closure G p p
| closure_cone q c o : closure G p q -> In (c, o) (gcone G q) -> closure G p c.
(** The numbers needed for the points of a cell can be counted by an int. *)
Definition small_cell (G : mesh) (p : Z) : Prop :=
  forall l, NoDup l -> (forall q, In q l -> closure G p q) ->
    (Z.of_nat (2 + list_sum (map (fun q => (2 + 2 * length (gcone G q)) + (2 + length (gcoord G q)))%nat l)) < 2 ^ 31)%Z.

(** A rank holds a part of the mesh: point [p] of its DMPlex is point [gid p] of the mesh.  PETSc numbers the points of the rank once. *)
Definition part_of (ni : nat) (G : mesh) (d : dm) (num : Z -> Z) : Prop :=
  let gid p := abs_id (num p) in
  (forall p q, in_chart d p = true -> in_chart d q = true -> gid p = gid q -> p = q) /\
  (forall p, in_chart d p = true ->
     int_ok ni (gid p) /\
     gcone G (gid p) = map (fun e => (gid (fst e), snd e)) (dcone d p) /\
     (forall e, In e (dcone d p) -> in_chart d (fst e) = true /\ int_ok ni (snd e)) /\
     (0 <= dheight d p <= ddepth d)%Z /\ dheight d p = (ddepth d - Z.of_nat (gdepth G (gid p)))%Z /\
     (gdepth G (gid p) = 0 -> dcoords d p = gcoord G (gid p) /\ Forall bits_ok (dcoords d p))).

(** The representation of cell [p]: exactly its points, with what the mesh says of them. *)
Definition represents (G : mesh) (p : Z) (r : cell_rep) : Prop :=
  rep_wf r /\
  (forall q c, map_get (cones r) q = Some c <-> closure G p q /\ c = map fst (gcone G q)) /\
  (forall q o, map_get (orientations r) q = Some o <-> closure G p q /\ o = map snd (gcone G q)) /\
  (forall q x, map_get (vertices r) q = Some x <-> closure G p q /\ gdepth G q = 0 /\ x = gcoord G q).

(** The mesh [h] is the part of [G] that consists of the points of [cells]; [new] gives the new number of a point. *)
Definition points_of (G : mesh) (cells : list cell_msg) (q : Z) : Prop := exists c, In c cells /\ closure G (global_id c) q.
Definition halo_ok (G : mesh) (ndim : nat) (cells : list cell_msg) (h : halo) (new : Z -> Z) : Prop :=
  (* the points are numbered from 0, vertices first, in the order of the global numbers within a dimension *)
  (forall q, points_of G cells q -> 0 <= new q < h_chart h)%Z /\
  (forall i, (0 <= i < h_chart h)%Z -> exists q, points_of G cells q /\ new q = i) /\
  (forall q q', points_of G cells q -> points_of G cells q' -> (new q < new q')%Z <-> gdepth G q < gdepth G q' \/ gdepth G q = gdepth G q' /\ (q < q')%Z) /\
  (* cones and orientations *)
  (forall i c, map_get (h_cones h) i = Some c <-> exists q, points_of G cells q /\ new q = i /\ c = map (fun e => new (fst e)) (gcone G q)) /\
  (forall i o, map_get (h_ornt h) i = Some o <-> exists q, points_of G cells q /\ new q = i /\ o = map snd (gcone G q)) /\
  (* the vertices and their coordinates *)
  h_vstart h = 0%Z /\ (forall q, points_of G cells q -> (new q < h_vend h)%Z <-> gdepth G q = 0) /\
  length (h_coords h) = Z.to_nat (h_vend h) * ndim /\
  (forall q k, points_of G cells q -> gdepth G q = 0 -> k < ndim -> nth_error (h_coords h) (Z.to_nat (new q) * ndim + k) = Some (nth_error (gcoord G q) k)) /\
  (* where the cells come from *)
  (forall c, In c cells -> exists c', In c' cells /\ global_id c' = global_id c /\ map_get (h_remote h) (new (global_id c)) = Some (owning_rank c', local_id c', global_id c)) /\
  (forall q, points_of G cells q -> ~ In q (map global_id cells) -> map_get (h_remote h) (new q) = Some (-1, -1, q)%Z) /\
  (forall i, (~ (0 <= i < h_chart h))%Z -> map_get (h_remote h) i = None).

(** The message [m] is what a rank sends for one of its cells. *)
Definition sent (ni : nat) (G : mesh) (m : cell_msg) : Prop :=
  exists d num cell_start cell_end h rank types local,
    part_of ni G d num /\ (pstart d <= cell_start /\ cell_end <= pend d)%Z /\ make_helper d num cell_start cell_end = Some h /\
    copyable_cell ni h rank types local = Some m /\ small_cell G (global_id m).
