(** Specification: every particle on the rank and in the cell of its position. *)
From Coq Require Import List Arith ZArith QArith Bool Permutation.
Import ListNotations.
From Verif Require Import Base Group_Model Group_Spec Exchange_Spec Mesh_Model Mesh_Spec CartMesh_Model CartMesh_Spec CartMap_Spec.
Local Open Scope nat_scope.

(** [p'] is [p] up to the INT components [free]. *)
Definition same_except (free : list nat) (p p' : particle Q) : Prop :=
  fst p' = fst p /\ length (snd p') = length (snd p) /\
  forall i, ~ In i free -> nth_error (snd p') i = nth_error (snd p) i.
(** The ranks hold the same particles as before, each once, up to the values [free]. *)
Definition conserved (free : list nat) (gs gs' : list (group Q)) : Prop :=
  exists ps, Permutation ps (flat_map particles gs) /\ Forall2 (same_except free) ps (flat_map particles gs').

(** The groups of the ranks of the mesh [m], which can be moved: the mesh's number
    of cells on every rank, the properties [spR], [spZ] with the position at [pid], the
    cell id at [cid], the two ranks at [rid], [rid + 1]; non-negative cell ids. *)
Definition groups_ok (m : cmesh) (spR spZ : list (nat * nat)) (cid pid rid : nat) (gs : list (group Q)) : Prop :=
  length gs = csize (comm m) /\ cid <> rid /\ cid <> rid + 1 /\
  forall r g, nth_error gs r = Some g ->
    wf_group g /\ list_sum (map snd spR) = length (reals (st g)) /\ list_sum (map snd spZ) = length (ints (st g)) /\
    pid + ndim (hier m) <= length (reals (st g)) /\ cid < length (ints (st g)) /\ rid + 1 < length (ints (st g)) /\
    get_cart_cell_count m r = Some (length (npart_cell g)) /\
    forall p, In p (particles g) -> exists z, nth_error (snd p) cid = Some z /\ (0 <= z)%Z.
(** All positions are in the domain. *)
Definition all_inside (m : cmesh) (pid : nat) (gs : list (group Q)) : Prop :=
  forall r g p, nth_error gs r = Some g -> In p (particles g) -> inside m (position pid p).

(** Every particle is on the rank that owns the cell that contains its position. *)
Definition on_its_rank (m : cmesh) (pid : nat) (gs : list (group Q)) : Prop :=
  forall r g p, nth_error gs r = Some g -> In p (particles g) -> exists t, owns m r t /\ contains m t (position pid p).
(** Every particle is in the cell that contains its position. *)
Definition in_its_cell (m : cmesh) (pid : nat) (gs : list (group Q)) : Prop :=
  forall r g c ps p, nth_error gs r = Some g -> cell_particles g c = Some ps -> In p ps ->
    exists t, get_global_cell_tuple_index m r (Z.of_nat c) = Some t /\ contains m t (position pid p).
