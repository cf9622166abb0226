(** Specification of the trajectory intersection with a Cartesian mesh: the
    domain is the box [0, L_0] x ... of the mesh, particles move on the straight
    line from their previous position to their position. *)
From Coq Require Import List Arith ZArith QArith Bool.
Import ListNotations.
From Verif Require Import Base Mesh_Model Mesh_Spec CartMesh_Model CartMesh_Spec CartFace_Model CartFace_Spec CartMap_Spec Traj_Model.
Local Open Scope Q_scope.

Definition at_ (x : list Q) (i : nat) : Q := nth i x 0.
(** Strictly inside the domain; in the closed domain enlarged by [tol]. *)
Definition inside (m : cmesh) (x : nat -> Q) : Prop := forall i, (i < ndim (hier m))%nat -> 0 < x i < length_of m i.
Definition in_domain (m : cmesh) (tol : Q) (x : nat -> Q) : Prop := forall i, (i < ndim (hier m))%nat -> - tol <= x i <= length_of m i + tol.
(** Where the particle is when it has made the part [t] of its way. *)
Definition on_way (p : tpart) (t : Q) (i : nat) : Q := at_ (prev p) i + t * (at_ (pos p) i - at_ (prev p) i).
(** The particle leaves through side [f] (numbered as in CartFace_Spec) at the point [x]. *)
Definition leaves_through (m : cmesh) (tol : Q) (p : tpart) (f : nat) (x : list Q) : Prop :=
  (f < 2 * ndim (hier m))%nat /\ length x = ndim (hier m) /\
  exists t, 0 <= t <= 1 /\ (forall i, (i < ndim (hier m))%nat -> at_ x i == on_way p t i) /\
    at_ x (side_dim f) == (if side_high f then length_of m (side_dim f) else 0) /\ in_domain m tol (at_ x).
(** The unit normal of side [f] which points into the domain. *)
Definition inward_normal (m : cmesh) (f : nat) (v : list Q) : Prop :=
  length v = ndim (hier m) /\
  forall i, (i < ndim (hier m))%nat -> at_ v i == if (i =? side_dim f)%nat then (if side_high f then - 1 else 1) else 0.
(** The cell [c] is the cell at the side whose facet holds the point; points
    outside the side belong to the facet at its rim. *)
Definition facet_of_point (m : cmesh) (f : nat) (c : list Z) (x : list Q) : Prop :=
  facet m f c /\
  forall i, (i < ndim (hier m))%nat -> i <> side_dim f ->
    (at_ x i < 0 -> nth i c 0%Z = 0%Z) /\ (length_of m i <= at_ x i -> nth i c 0%Z = (grid m i - 1)%Z) /\
    (0 <= at_ x i -> at_ x i < length_of m i -> in_cell (hier m) (nth i c 0%Z) (at_ x i)).
(** The group of a side: of the groups which name it, the greatest. *)
Definition group_of (groups : list (Z * list Z)) (f : nat) (g : Z) : Prop :=
  (exists fs, In (g, fs) groups /\ In (Z.of_nat f) fs) /\
  forall g' fs, In (g', fs) groups -> In (Z.of_nat f) fs -> (g' <= g)%Z.

(** Groups as the constructor accepts them. *)
Definition groups_ok (m : cmesh) (groups : list (Z * list Z)) : Prop :=
  ascending (map fst groups) /\
  forall g fs, In (g, fs) groups -> g <> MASK_VALUE /\ forall f, In f fs -> (0 <= f < 2 * Z.of_nat (ndim (hier m)))%Z.
(** The particles of a rank: [npart] is their number in the whole group. *)
Definition parts_ok (m : cmesh) (parts : list tpart) (npart : nat) : Prop :=
  NoDup (map lin parts) /\
  forall p, In p parts -> (lin p < npart)%nat /\ length (pos p) = ndim (hier m) /\ length (prev p) = ndim (hier m).
(** The particle starts in the closed domain, and if it ends outside or on the
    boundary it has moved across or onto it: in one of the dimensions in which
    it is not inside it was elsewhere before. *)
Definition moves (m : cmesh) (p : tpart) : Prop :=
  in_domain m 0 (at_ (prev p)) /\
  (inside m (at_ (pos p)) \/
   exists i, (i < ndim (hier m))%nat /\ ~ (0 < at_ (pos p) i < length_of m i) /\ ~ at_ (prev p) i == at_ (pos p) i).
