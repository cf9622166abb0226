(** Convex polygons, and the cells of a Cartesian mesh. *)
From Coq Require Import List Arith ZArith QArith Qminmax Bool.
Import ListNotations.
From Verif Require Import Base Mesh_Spec Overlap_Model Mapper2D_Model.

(** Twice the area of the triangle, positive if [a], [b], [c] are anticlockwise: positive iff [c] is to the left of the line from [a] to [b]. *)
Definition cross (a b c : point) : Q := ((fst b - fst a) * (snd c - snd a) - (snd b - snd a) * (fst c - fst a))%Q.
Definition vert (vs : list point) (i : nat) : point := nth (i mod length vs) vs (0, 0)%Q.
(** The vertices of a convex polygon in order, anticlockwise ([s] is 1) or clockwise ([s] is -1): of each side all the other vertices are
    strictly on the inner side. *)
Definition convex (s : Q) (vs : list point) : Prop :=
  (s = 1 \/ s = (-1))%Q /\ (length vs = 3 \/ length vs = 4)%nat /\
  forall i k, (i < length vs)%nat -> (k < length vs)%nat -> k <> i -> k <> ((i + 1) mod length vs)%nat ->
    (0 < s * cross (vert vs i) (vert vs (i + 1)) (vert vs k))%Q.
(** A point in the polygon, the boundary included; and in its interior. *)
Definition within (s : Q) (vs : list point) (p : point) : Prop :=
  forall i, (i < length vs)%nat -> (0 <= s * cross (vert vs i) (vert vs (i + 1)) p)%Q.
Definition interior (s : Q) (vs : list point) (p : point) : Prop :=
  forall i, (i < length vs)%nat -> (0 < s * cross (vert vs i) (vert vs (i + 1)) p)%Q.
(** Some vertex is higher than the point. *)
Definition below_top (vs : list point) (p : point) : Prop := exists v, In v vs /\ (snd p < snd v)%Q.
Definition same (p q : point) : Prop := (fst p == fst q /\ snd p == snd q)%Q.
(** To the left of, or below with the same first coordinate. *)
Definition before (p q : point) : Prop := (fst p < fst q \/ fst p == fst q /\ snd p < snd q)%Q.

(** ** The overlay mesh *)
Definition overlay_ok (ov : overlay) : Prop :=
  length (o_origin ov) = o_ndim ov /\ length (o_extents ov) = o_ndim ov /\ length (o_counts ov) = o_ndim ov /\
  Forall (fun e => (0 < e)%Q) (o_extents ov) /\ Forall (fun c => (0 < c)%Z) (o_counts ov).
(** A cell: its index in each dimension.  The first index runs fastest in the number of the cell. *)
Definition overlay_cell (ov : overlay) (t : list Z) : Prop := in_box (o_counts ov) t.
Definition overlay_index (ov : overlay) (t : list Z) : Z := linear_index (o_counts ov) t.
Definition o_width (ov : overlay) (i : nat) : Q := (nth i (o_extents ov) 0 / inject_Z (nth i (o_counts ov) 0%Z))%Q.
(** The bounds of a cell, and of a box, in dimension [i], relative to the origin. *)
Definition o_lo (ov : overlay) (t : list Z) (i : nat) : Q := (inject_Z (nth i t 0%Z) * o_width ov i)%Q.
Definition o_hi (ov : overlay) (t : list Z) (i : nat) : Q := (inject_Z (nth i t 0%Z + 1) * o_width ov i)%Q.
Definition b_lo (ov : overlay) (b : box) (i : nat) : Q := (nth i b 0 - nth i (o_origin ov) 0)%Q.
Definition b_hi (ov : overlay) (b : box) (i : nat) : Q := (nth (3 + i) b 0 - nth i (o_origin ov) 0)%Q.
(** The box lies in the mesh. *)
Definition box_inside (ov : overlay) (b : box) : Prop :=
  length b = 6%nat /\
  forall i, (i < o_ndim ov)%nat -> (0 <= b_lo ov b i /\ b_lo ov b i <= b_hi ov b i /\ b_hi ov b i <= nth i (o_extents ov) 0)%Q.
(** The cell and the box are at most [d] apart in each dimension; they have a point in common if [d] is 0. *)
Definition near (ov : overlay) (d : Q) (b : box) (t : list Z) : Prop :=
  forall i, (i < o_ndim ov)%nat -> (o_lo ov t i <= b_hi ov b i + d /\ b_lo ov b i - d <= o_hi ov t i)%Q.
