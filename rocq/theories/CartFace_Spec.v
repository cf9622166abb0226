(** Specification of the boundary faces of a Cartesian mesh. *)
From Coq Require Import List Arith ZArith QArith Bool.
Import ListNotations.
From Verif Require Import Base Mesh_Model Mesh_Spec CartMesh_Model CartMesh_Spec CartFace_Model.
Local Open Scope Z_scope.

(** The sides of the domain are numbered: 0 low y, 1 high x, 2 high y, 3 low x,
    4 low z, 5 high z. *)
Definition side_dim (f : nat) : nat := nth f [1; 0; 1; 0; 2; 2]%nat 0%nat.
Definition side_high (f : nat) : bool := nth f [false; true; true; false; false; true] false.
(** The cell [c] has a facet on side [f] of the domain. *)
Definition facet (m : cmesh) (f : nat) (c : list Z) : Prop :=
  (f < 2 * ndim (hier m))%nat /\ grid_cell m c /\
  nth (side_dim f) c 0 = if side_high f then grid m (side_dim f) - 1 else 0.
(** The face cell [id] is the facet of cell [c] on side [f]. *)
Definition face_cell (m : cmesh) (id : Z) (f : nat) (c : list Z) : Prop :=
  exists t, get_face_id_as_tuple m id = Some t /\ nth_error t 0 = Some (Z.of_nat f) /\
    get_mesh_tuple_owning_face_tuple m t [0; 0; 0] = Some c.
(** The number of facets of the boundary: twice the number of cells across each dimension. *)
Definition boundary_size (m : cmesh) : Z :=
  2 * (if (ndim (hier m) =? 2)%nat then grid m 0 + grid m 1 else grid m 0 * grid m 2 + grid m 1 * grid m 2 + grid m 0 * grid m 1).
(** A point of the closed cell [c] on side [f]. *)
Definition on_side (m : cmesh) (f : nat) (c : list Z) (x : list Q) : Prop :=
  length x = 3%nat /\
  (nth (side_dim f) x 0 == if side_high f then inject_Z (grid m (side_dim f)) * fine_width (hier m) else 0)%Q /\
  forall i, (i < ndim (hier m))%nat ->
    (nth i x 0 == inject_Z (nth i c 0%Z) * fine_width (hier m) \/ nth i x 0 == inject_Z (nth i c 0%Z + 1) * fine_width (hier m))%Q.
(** No two of the points are the same. *)
Definition distinct_points (ps : list (list Q)) : Prop :=
  ForallOrdPairs (fun x y => exists i, ~ (nth i x 0 == nth i y 0)%Q) ps.
