(** Specification of the mesh hierarchy: cells as tuples, linear indices,
    neighbourhoods, positions, owners. *)
From Coq Require Import List Arith ZArith QArith Qabs Bool.
Import ListNotations.
From Verif Require Import Base Mesh_Model.
Open Scope Z_scope.

Definition zprod (l : list Z) : Z := fold_right Z.mul 1 l.
(** sum over i of [t_i * w_0 * ... * w_(i-1)] : the first index runs fastest. *)
Definition linear_index (ws ts : list Z) : Z :=
  fold_right Z.add 0 (map (fun i => nth i ts 0 * zprod (firstn i ws)) (seq 0 (length ws))).
Definition in_box (ws ts : list Z) : Prop := Forall2 (fun w t => 0 <= t < w) ws ts.

(** The extents of the two levels. *)
Definition coarse_widths (m : mesh) : list Z := firstn (ndim m) (dims m).
Definition fine_widths (m : mesh) : list Z := repeat (2 ^ Z.of_nat (order m)) (ndim m).
(** A mesh the constructor accepts. *)
Definition mesh_ok (m : mesh) : Prop :=
  (0 < ndim m <= length (dims m))%nat /\ (ndim m <= length (origin m))%nat /\
  Forall (fun d => 0 < d) (coarse_widths m) /\ (0 < extent m)%Q.
(** The number of cells of the whole hierarchy. *)
Definition ncells (m : mesh) : Z := zprod (coarse_widths m) * zprod (fine_widths m).
(** A cell: its coarse indices followed by its fine indices. *)
Definition cell_tuple (m : mesh) (t : list Z) : Prop :=
  exists tc tf, t = tc ++ tf /\ in_box (coarse_widths m) tc /\ in_box (fine_widths m) tf.
Definition cell_index (m : mesh) (t : list Z) : Z :=
  linear_index (coarse_widths m) (firstn (ndim m) t) * zprod (fine_widths m)
  + linear_index (fine_widths m) (skipn (ndim m) t).

(** The cell [t] seen in the fine Cartesian grid: coordinate in dimension [i]. *)
Definition coord (m : mesh) (t : list Z) (i : nat) : Z :=
  nth i t 0 * 2 ^ Z.of_nat (order m) + nth (ndim m + i) t 0.
(** The number of fine cells in dimension [i]. *)
Definition extent_cells (m : mesh) (i : nat) : Z := nth i (dims m) 0 * 2 ^ Z.of_nat (order m).
(** At most [offset] cells apart in every dimension; with periodic boundaries
    after shifting by a whole number of domains. *)
Definition close (m : mesh) (offset : Z) (pbc : bool) (t1 t2 : list Z) : Prop :=
  forall i, (i < ndim m)%nat -> exists k, (pbc = false -> k = 0) /\
    Z.abs (coord m t1 i + k * extent_cells m i - coord m t2 i) <= offset.
Definition close_cells (m : mesh) (offset : Z) (pbc : bool) (c1 c2 : Z) : Prop :=
  exists t1 t2, cell_tuple m t1 /\ cell_tuple m t2 /\ cell_index m t1 = c1 /\ cell_index m t2 = c2 /\
    close m offset pbc t1 t2.

(** Strictly ascending: sorted without repetition. *)
Fixpoint ascending (l : list Z) : Prop :=
  match l with
  | [] => True
  | a :: t => (forall b, In b t -> a < b) /\ ascending t
  end.

(** ** Positions *)
(** The size of a fine cell and of the domain in dimension [i]. *)
Definition fine_width (m : mesh) : Q := (extent m / inject_Z (2 ^ Z.of_nat (order m)))%Q.
Definition domain (m : mesh) (i : nat) : Q := (inject_Z (nth i (dims m) 0%Z) * extent m)%Q.
(** [x] (relative to the origin) lies in the half open cell with the given
    coordinate. *)
Definition in_cell (m : mesh) (coordinate : Z) (x : Q) : Prop :=
  (inject_Z coordinate * fine_width m <= x)%Q /\ (x < inject_Z (coordinate + 1) * fine_width m)%Q.
Definition rel_pos (m : mesh) (p : list Q) (i : nat) : Q := (nth i p 0%Q - nth i (origin m) 0%Q)%Q.

(** ** Owners *)
(** [r] is the owner of cell [c]: it made the greatest claim, and no rank with
    an equal claim is greater. *)
Definition claimed (ranks : list nat) (claims : nat -> list (nat * Z)) (c r : nat) (w : Z) : Prop :=
  In r ranks /\ In (c, w) (claims r).
Definition owner_of (ranks : list nat) (claims : nat -> list (nat * Z)) (c r : nat) : Prop :=
  exists w, claimed ranks claims c r w /\
    (forall r' w', claimed ranks claims c r' w' -> w' <= w) /\
    (forall r', claimed ranks claims c r' w -> (r' <= r)%nat).
Definition unclaimed (ranks : list nat) (claims : nat -> list (nat * Z)) (c : nat) : Prop :=
  forall r w, ~ claimed ranks claims c r w.
