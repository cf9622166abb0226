(** Specification: the cell of the Cartesian mesh that contains a position. *)
From Coq Require Import List Arith ZArith QArith Bool.
Import ListNotations.
From Verif Require Import Base Group_Model Group_Spec Mesh_Model Mesh_Spec CartMesh_Model CartMesh_Spec.
Local Open Scope Q_scope.

(** The position of a particle: the components [pid], [pid + 1], ... *)
Definition position (pid : nat) (p : particle Q) (i : nat) : Q := nth (pid + i) (fst p) 0.
(** The length of the domain in dimension [i]. *)
Definition length_of (m : cmesh) (i : nat) : Q := inject_Z (grid m i) * fine_width (hier m).
(** The position is in the closed domain. *)
Definition inside (m : cmesh) (x : nat -> Q) : Prop :=
  forall i, (i < ndim (hier m))%nat -> 0 <= x i /\ x i <= length_of m i.
(** Cell [c] contains the position [x]; the upper end of the domain belongs to
    the last cell. *)
Definition contains (m : cmesh) (c : list Z) (x : nat -> Q) : Prop :=
  grid_cell m c /\ forall i, (i < ndim (hier m))%nat ->
    in_cell (hier m) (nth i c 0%Z) (x i) \/ (x i == length_of m i /\ nth i c 0%Z = (grid m i - 1)%Z).
(** The numbers of cells are C++ ints. *)
Definition int_grid (m : cmesh) : Prop := forall i, (grid m i < 2 ^ 31)%Z.
(** The particle has the components the kernels use. *)
Definition has_components (m : cmesh) (pid rid cid : nat) (p : particle Q) : Prop :=
  (pid + ndim (hier m) <= length (fst p))%nat /\ (rid + 1 < length (snd p))%nat /\ (cid < length (snd p))%nat.
(** [p'] is [p] with component [f] of its INT properties set to [v]. *)
Definition set_int (p p' : particle Q) (f : nat) (v : Z) : Prop :=
  fst p' = fst p /\ length (snd p') = length (snd p) /\
  forall i, (i < length (snd p))%nat -> nth_error (snd p') i = if (i =? f)%nat then Some v else nth_error (snd p) i.

(** The dimensions the periodic map applies to: all, or those with a mask other
    than zero. *)
Definition masked (masks : option (list Z)) (i : nat) : Prop :=
  match masks with None => True | Some l => nth i l 0%Z <> 0%Z end.
(** [p'] is [p] moved into the domain by whole lengths of it in the masked
    dimensions. *)
Definition wrapped (m : cmesh) (pid : nat) (masks : option (list Z)) (p p' : particle Q) : Prop :=
  snd p' = snd p /\ length (fst p') = length (fst p) /\
  (forall i, (i < ndim (hier m))%nat -> masked masks i ->
     0 <= position pid p' i /\ position pid p' i < length_of m i /\
     exists k, position pid p' i == position pid p i + inject_Z k * length_of m i) /\
  (forall j, (forall i, (i < ndim (hier m))%nat -> masked masks i -> j <> (pid + i)%nat) -> nth_error (fst p') j = nth_error (fst p) j).
(** The number of domains the position is away fits in a C++ int. *)
Definition few_domains (m : cmesh) (x : nat -> Q) : Prop :=
  forall i, (i < ndim (hier m))%nat -> - (inject_Z (2 ^ 31 - 2) * length_of m i) < x i /\ x i < inject_Z (2 ^ 31 - 2) * length_of m i.
(** The number of cells the position is away from any cell fits in a C++ int. *)
Definition few_cells (m : cmesh) (x : nat -> Q) : Prop :=
  forall i, (i < ndim (hier m))%nat ->
    - (inject_Z (2 ^ 31 - grid m i) * fine_width (hier m)) < x i /\ x i < inject_Z (2 ^ 31 - grid m i) * fine_width (hier m).
(** The number of cells of the rank is a C++ int. *)
Definition int_cells (m : cmesh) (rank : nat) : Prop :=
  forall n, get_cart_cell_count m rank = Some n -> (Z.of_nat n < 2 ^ 31)%Z.

(** What the maps write.  Reset: both rank components are -1. *)
Definition ranks_reset (rid : nat) (p p' : particle Q) : Prop :=
  fst p' = fst p /\ length (snd p') = length (snd p) /\
  forall i, (i < length (snd p))%nat -> nth_error (snd p') i = if ((i =? rid) || (i =? rid + 1))%nat then Some (-1)%Z else nth_error (snd p) i.
(** The global map: a particle whose second rank is negative gets as first rank
    the rank that owns the cell that contains it; other particles are untouched. *)
Definition mapped (m : cmesh) (pid rid : nat) (p p' : particle Q) : Prop :=
  (0 <= nth (rid + 1) (snd p) 0 -> p' = p)%Z /\
  ((nth (rid + 1) (snd p) 0 < 0)%Z -> forall c, contains m c (position pid p) -> exists r, owns m r c /\ set_int p p' rid (Z.of_nat r)).
(** The local map of a rank: a particle whose second rank is negative gets as
    second rank the rank that owns the cell that contains it, if that cell is
    within the stencil of a cell of this rank, and -1 otherwise. *)
Definition mapped_locally (m : cmesh) (rank pid rid : nat) (p p' : particle Q) : Prop :=
  (0 <= nth (rid + 1) (snd p) 0 -> p' = p)%Z /\
  ((nth (rid + 1) (snd p) 0 < 0)%Z -> exists v, set_int p p' (rid + 1) v /\
     forall c, contains m c (position pid p) ->
       (v = (-1)%Z /\ ~ (exists c0, owns m rank c0 /\ within m (Z.of_nat (stencil_width m)) c0 c)) \/
       (exists r, v = Z.of_nat r /\ owns m r c /\ exists c0, owns m rank c0 /\ within m (Z.of_nat (stencil_width m)) c0 c)).
(** The cell map of a rank: the id is that of one of the cells of the rank, the
    one that contains the particle if there is one. *)
Definition binned (m : cmesh) (rank pid cid : nat) (p p' : particle Q) : Prop :=
  exists l, set_int p p' cid l /\ (exists n, get_cart_cell_count m rank = Some n /\ (0 <= l < Z.of_nat n)%Z) /\
    forall c, owns m rank c -> contains m c (position pid p) -> get_global_cell_tuple_index m rank l = Some c.
