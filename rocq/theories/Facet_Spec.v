(** What BoundaryInteraction2D is supposed to find. *)
From Coq Require Import List Arith ZArith QArith Bool.
Import ListNotations.
From Verif Require Import Base Mesh_Model Mesh_Spec DeviceFn_Spec Facet_Model.
Open Scope Q_scope.

Definition prev_x (p : particle) : Q := nth 0 (p_prev p) 0.
Definition prev_y (p : particle) : Q := nth 1 (p_prev p) 0.
Definition cur_x (p : particle) : Q := nth 0 (p_cur p) 0.
Definition cur_y (p : particle) : Q := nth 1 (p_cur p) 0.
(** The squared distance of a point from the start of the trajectory. *)
Definition dist2 (p : particle) (x : Q * Q) : Q := (prev_x p - fst x) * (prev_x p - fst x) + (prev_y p - snd x) * (prev_y p - snd x).
(** The trajectory is parallel to the facet. *)
Definition along (f : facet) (p : particle) : Prop := parallel (f_x0 f) (f_y0 f) (f_x1 f) (f_y1 f) (prev_x p) (prev_y p) (cur_x p) (cur_y p).
(** The trajectory crosses or touches the facet in the point [x]. *)
Definition crosses (f : facet) (p : particle) (x : Q * Q) : Prop :=
  ~ along f p /\ on_segment (fst x) (snd x) (f_x0 f) (f_y0 f) (f_x1 f) (f_y1 f) /\ on_segment (fst x) (snd x) (prev_x p) (prev_y p) (cur_x p) (cur_y p).
(** The same up to the tolerance: [x] is the common point of the two lines, at most [tol] (of the length
    of the facet) outside the facet and at most [tol] outside the box of the trajectory. *)
Definition crosses_within (tol : Q) (f : facet) (p : particle) (x : Q * Q) : Prop :=
  ~ along f p /\ exists l0 l1,
    fst x == f_x0 f + l0 * (f_x1 f - f_x0 f) /\ snd x == f_y0 f + l0 * (f_y1 f - f_y0 f) /\
    fst x == prev_x p + l1 * (cur_x p - prev_x p) /\ snd x == prev_y p + l1 * (cur_y p - prev_y p) /\
    - tol <= l0 <= 1 + tol /\
    (prev_x p - tol <= fst x <= cur_x p + tol \/ cur_x p - tol <= fst x <= prev_x p + tol) /\
    (prev_y p - tol <= snd x <= cur_y p + tol \/ cur_y p - tol <= snd x <= prev_y p + tol).

(** A facet of the boundary: in the face set of a label of some group on some rank. *)
Definition boundary_facet (groups : list (Z * list Z)) (ranks : list (list (Z * list facet))) (f : facet) : Prop :=
  exists sets item f0 g labels, In sets ranks /\ In item sets /\ In f0 (snd item) /\ In (g, labels) groups /\ In (fst item) labels /\
    f = mk_facet (f_x0 f0) (f_y0 f0) (f_x1 f0) (f_y1 f0) (f_n f0) (fst item) (f_id f0).

(** The right result for a particle: nothing if the trajectory crosses no facet, otherwise a facet that is
    crossed up to the tolerance (point, normal, group and index), not farther from the start than any crossing. *)
Definition nearest (groups : list (Z * list Z)) (ranks : list (list (Z * list facet))) (tol : Q) (p : particle)
    (r : option ((Q * Q) * (Q * Q) * (Z * Z))) : Prop :=
  match r with
  | None => forall f x, boundary_facet groups ranks f -> ~ crosses f p x
  | Some (x, n, (g, id)) =>
      (exists f labels, boundary_facet groups ranks f /\ f_id f = id /\ f_n f = n /\ In (g, labels) groups /\ In (f_label f) labels /\ crosses_within tol f p x) /\
      forall f x', boundary_facet groups ranks f -> crosses f p x' -> dist2 p x <= dist2 p x'
  end.

(** The output of a call from the results of the particles: for each group the particles that hit it, once each. *)
Definition right_output (groups : list (Z * list Z)) (results : list (option ((Q * Q) * (Q * Q) * (Z * Z))))
    (out : list (Z * list (nat * ((Q * Q) * (Q * Q) * (Z * Z))))) : Prop :=
  map fst out = map fst groups /\
  forall g l, In (g, l) out -> NoDup (map fst l) /\ forall j v, In (j, v) l <-> nth_error results j = Some (Some v) /\ fst (snd v) = g.

(** ** Conditions *)
(** The groups have identifiers that are not negative, and no label is in two groups. *)
Definition groups_ok (groups : list (Z * list Z)) : Prop :=
  Forall (fun item => 0 <= fst item)%Z groups /\ ForallOrdPairs (fun a b => forall l, In l (snd a) -> ~ In l (snd b)) groups.
(** The facet is in the domain of the mesh hierarchy. *)
Definition facet_inside (m : mesh) (f : facet) : Prop :=
  (0 <= rel_pos m [f_x0 f; f_y0 f] 0 <= domain m 0) /\ (0 <= rel_pos m [f_x0 f; f_y0 f] 1 <= domain m 1) /\
  (0 <= rel_pos m [f_x1 f; f_y1 f] 0 <= domain m 0) /\ (0 <= rel_pos m [f_x1 f; f_y1 f] 1 <= domain m 1).
(** Not more than 20000 cells from the origin: the number of cells of a box fits in an int. *)
Definition near (m : mesh) (pos : list Q) : Prop :=
  length pos = 2%nat /\ forall i, (i < 2)%nat -> - (20000 * fine_width m) <= rel_pos m pos i <= 20000 * fine_width m.
(** A particle of a cell of the mesh, with positions near the mesh, whose trajectory starts below the upper
    boundary of the mesh hierarchy; [max_real] stands for the greatest REAL. *)
Definition particle_ok (m : mesh) (ncell : nat) (max_real : Q) (p : particle) : Prop :=
  (p_cell p < ncell)%nat /\ near m (p_prev p) /\ near m (p_cur p) /\ dist2 p (cur_x p, cur_y p) < max_real /\
  (forall i, (i < 2)%nat -> rel_pos m (p_prev p) i < domain m i).
Definition call_ok (m : mesh) (ncell : nat) (max_real : Q) (c : call) : Prop :=
  device_ok (c_dev c) /\ c_ncomp c = 2%nat /\ Forall (particle_ok m ncell max_real) (c_particles c).
