(** What the selection of a sub-group is supposed to be. *)
From Coq Require Import List Arith ZArith Bool Permutation.
Import ListNotations.
From Verif Require Import Base Compress_Model SubGroup_Model.

(** The particles of a group or sub-group are written as a list, one entry per
    cell, of the layers (rows) of the particles in that cell.

    A group with counts [np] holds in a cell with [n] particles the layers
    0, ..., n - 1. *)
Definition whole_group (np : list nat) : list (list nat) := map (seq 0) np.

Definition particles_before (content : list (list nat)) (c : nat) : nat :=
  list_sum (map (@length nat) (firstn c content)).
Definition number_of_particles (content : list (list nat)) : nat :=
  list_sum (map (@length nat) content).

(** A loop over the iteration set [P] visits exactly [content]: the counts (on the
    host and on the device) and the exclusive sums are those of [content], and the
    particle visited for (cell, j) is the j-th of [content] in that cell. *)
Definition iterates (P : iset) (content : list (list nat)) : Prop :=
  forall c ls, nth_error content c = Some ls ->
    nth_error (i_hn P) c = Some (length ls) /\
    nth_error (i_dn P) c = Some (length ls) /\
    nth_error (i_es P) c = Some (particles_before content c) /\
    (forall j l, nth_error ls j = Some l -> i_layer P c j = Some l).

(** The selection [s] with its storage [m] holds exactly [content]. *)
Definition selects (s : selection) (m : pmap) (content : list (list nat)) : Prop :=
  s_ncell s = length content /\
  s_npart s = number_of_particles content /\
  iterates (sub_iset m) content /\
  (forall c, c < length content -> nth_error (m_hes m) c = Some (particles_before content c)).

(** The particles of [content] exist in a group with counts [gnp], and none is
    listed twice. *)
Definition content_of_group (gnp : list nat) (content : list (list nat)) : Prop :=
  length content = length gnp /\
  forall c ls n, nth_error content c = Some ls -> nth_error gnp c = Some n ->
    NoDup ls /\ forall l, In l ls -> l < n.

(** [a] and [b] list the same particles of each cell, perhaps in other orders. *)
Definition same_particles (a b : list (list nat)) : Prop :=
  Forall2 (@Permutation nat) a b.

(** Apply [f cell] to the particles of each cell. *)
Definition per_cell (f : nat -> list nat -> list nat) (content : list (list nat)) : list (list nat) :=
  map (fun p => f (fst p) (snd p)) (combine (seq 0 (length content)) content).

(** The particles for which the kernel returned true. *)
Definition chosen (kern : nat -> nat -> bool) : list (list nat) -> list (list nat) :=
  per_cell (fun c ls => filter (kern c) ls).

(** Those of the cells first, ..., last - 1. *)
Definition in_cells (first last : nat) : list (list nat) -> list (list nat) :=
  per_cell (fun c ls => if (first <=? c) && (c <? last) then ls else []).

(** Lists of a common number of cells, joined cell by cell. *)
Definition joined (cc : nat) (contents : list (list (list nat))) : list (list nat) :=
  map (fun c => flat_map (fun content => nth c content []) contents) (seq 0 cc).

(** The sizes of the arrays of a map for [cc] cells
    (src/particle_sub_group/sub_group_particle_map.cpp L11-25). *)
Definition map_sizes (CL cc : nat) (m : pmap) : Prop :=
  length (m_hstarts m) = cc /\ length (m_starts m) = cc /\
  length (m_hes m) = cc /\ length (m_des m) = cc /\
  length (m_hn m) = cc + cc * CL /\ length (m_dn m) = cc + cc * CL.

(** (cell, layer) pairs of [content], cell by cell. *)
Definition pairs_of (content : list (list nat)) : list (nat * nat) :=
  flat_map (fun c => map (pair c) (nth c content [])) (seq 0 (length content)).

(** Particle (c, l) is one of [content]. *)
Definition listed (content : list (list nat)) (c l : nat) : Prop :=
  exists ls, nth_error content c = Some ls /\ In l ls.

(** Rebuild a cell-range sub-group again and again, as the parent changes. *)
Fixpoint range_history (d : device) (cc first last : nat) (m : pmap) (parents : list (nat * iset))
    : option (list (pmap * selection)) :=
  match parents with
  | [] => Some []
  | (k, P) :: rest =>
      r <- cell_selector_create d k cc first last P m ;;
      rs <- range_history d cc first last (fst r) rest ;;
      Some (r :: rs)
  end.
