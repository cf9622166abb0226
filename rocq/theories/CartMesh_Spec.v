(** Specification of the Cartesian mesh: the grid of cells, its distribution
    over the ranks, neighbourhoods. *)
From Coq Require Import List Arith ZArith QArith Bool.
Import ListNotations.
From Verif Require Import Base Mesh_Model Mesh_Spec CartMesh_Model.
Open Scope Z_scope.

Definition nprod (l : list nat) : nat := fold_right Nat.mul 1%nat l.

(** What MPI guarantees of a Cartesian communicator: ranks and coordinates in
    the grid [cdims] correspond one to one. *)
Definition coords_in (ds x : list nat) : Prop := Forall2 (fun d c => (c < d)%nat) ds x.
Definition cart_ok (c : cart) : Prop :=
  csize c = nprod (cdims c) /\
  (forall x, coords_in (cdims c) x -> exists r, crank c x = Some r /\ (r < csize c)%nat /\ ccoords c r = Some x) /\
  (forall r, (r < csize c)%nat -> exists x, ccoords c r = Some x /\ coords_in (cdims c) x /\ crank c x = Some r).

(** The meshes the constructor makes. *)
Definition cmesh_ok (m : cmesh) : Prop :=
  mesh_ok (hier m) /\ (ndim (hier m) <= 3)%nat /\
  (forall i, (i < ndim (hier m))%nat -> (nth i (origin (hier m)) 0 == 0)%Q) /\
  cart_ok (comm m) /\ length (cdims (comm m)) = ndim (hier m) /\
  forall i, (i < ndim (hier m))%nat -> 1 <= Z.of_nat (nth i (cdims (comm m)) 0%nat) <= extent_cells (hier m) i.

(** The number of fine cells in each of three dimensions, and the cells. *)
Definition grid (m : cmesh) (i : nat) : Z := if (i <? ndim (hier m))%nat then extent_cells (hier m) i else 1.
Definition grid_cell (m : cmesh) (c : list Z) : Prop :=
  length c = 3%nat /\ forall i, (i < 3)%nat -> 0 <= nth i c 0 < grid m i.

(** Rank [r] lists the cell [c] as its own. *)
Definition owns (m : cmesh) (r : nat) (c : list Z) : Prop :=
  (r < csize (comm m))%nat /\ exists cells, get_owned_cells m r = Some cells /\ In c cells.

(** Cells at most [w] apart in every dimension, after shifting by whole domains. *)
Definition within (m : cmesh) (w : Z) (c c' : list Z) : Prop :=
  forall i, (i < ndim (hier m))%nat -> exists k, Z.abs (nth i c 0 + k * grid m i - nth i c' 0) <= w.

(** What is known of MPI_Dims_create and of the sort. *)
Definition chooser_ok (e : chooser) : Prop :=
  (forall size nd, (0 < size)%nat -> (0 < nd)%nat -> length (dims_create e size nd) = nd /\ nprod (dims_create e size nd) = size) /\
  (forall l, length (reverse_argsort e l) = length l /\ NoDup (reverse_argsort e l) /\
     (forall i, In i (reverse_argsort e l) -> (i < length l)%nat) /\
     (forall i j, (i < j < length l)%nat -> (nth (nth j (reverse_argsort e l) 0%nat) l 0 <= nth (nth i (reverse_argsort e l) 0%nat) l 0)%nat)).

(** The map of owners of the mesh hierarchy names, for every cell of the grid,
    the rank that lists the cell as its own. *)
Definition owner_map (m : cmesh) (owners : list Z) : Prop :=
  forall c, grid_cell m c -> exists i r, mesh_index m c = Some i /\ get_owner owners i = Some (Z.of_nat r) /\ owns m r c.
