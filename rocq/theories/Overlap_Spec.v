(** When a box and a cell of the mesh hierarchy overlap, and by how much. *)
From Coq Require Import List Arith ZArith QArith Qminmax Bool.
Import ListNotations.
From Verif Require Import Base Mesh_Model Mesh_Spec CellRep_Model Overlap_Model.
Open Scope Z_scope.

(** The bounds of a box in dimension [i], relative to the origin of the mesh hierarchy. *)
Definition box_lo (m : mesh) (b : box) (i : nat) : Q := (nth i b 0 - nth i (origin m) 0)%Q.
Definition box_hi (m : mesh) (b : box) (i : nat) : Q := (nth (3 + i) b 0 - nth i (origin m) 0)%Q.
Definition cell_lo (m : mesh) (t : list Z) (i : nat) : Q := (inject_Z (coord m t i) * fine_width m)%Q.
Definition cell_hi (m : mesh) (t : list Z) (i : nat) : Q := (inject_Z (coord m t i + 1) * fine_width m)%Q.
(** Some point is in the interior of both the box and the cell. *)
Definition meets (m : mesh) (b : box) (t : list Z) : Prop :=
  exists x : nat -> Q, forall i, (i < ndim m)%nat -> (cell_lo m t i < x i /\ x i < cell_hi m t i /\ box_lo m b i < x i /\ x i < box_hi m b i)%Q.
(** The volume of the common part. *)
Definition common (m : mesh) (b : box) (t : list Z) (i : nat) : Q := (Qmin (cell_hi m t i) (box_hi m b i) - Qmax (cell_lo m t i) (box_lo m b i))%Q.
Definition qprod (l : list Q) : Q := fold_right Qmult 1%Q l.
Definition qsum (l : list Q) : Q := fold_right Qplus 0%Q l.
Definition volume (m : mesh) (b : box) (t : list Z) : Q := qprod (map (common m b t) (seq 0 (ndim m))).
Definition box_volume (m : mesh) (b : box) : Q := qprod (map (fun i => box_hi m b i - box_lo m b i)%Q (seq 0 (ndim m))).
Definition cell_volume (m : mesh) : Q := qprod (map (fun _ => fine_width m) (seq 0 (ndim m))).
(** The box is inside the mesh hierarchy. *)
Definition inside (m : mesh) (b : box) : Prop :=
  forall i, (i < ndim m)%nat -> (0 <= box_lo m b i /\ box_lo m b i <= box_hi m b i /\ box_hi m b i <= domain m i)%Q.
(** Millionths of the cell that the box covers, rounded down. *)
Definition weight_of (m : mesh) (b : box) (t : list Z) (w : Z) : Prop :=
  (inject_Z w * cell_volume m <= 1000000 * volume m b t /\ 1000000 * volume m b t < inject_Z (w + 1) * cell_volume m)%Q.
