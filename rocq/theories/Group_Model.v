(** Storage of the particle data of a ParticleGroup. *)
From Coq Require Import List Arith ZArith.
Import ListNotations.
From Verif Require Import Base.

(** The ParticleDats of a group (include/neso_particles/particle_dat.hpp,
    include/neso_particles/containers/cell_dat.hpp L27-110: a CellDat is
    [cell][column][row]).  The columns of all REAL properties are numbered
    consecutively, and those of all INT properties, exactly as in the
    "flattened component" tables of src/particle_group_pointer_map.cpp L60-110,
    so that component [f] of the store is one (property, component) pair.
    [reals[f][cell][layer]] has type [R] (values are only copied); [ints] are
    [Z].  The length of a column is the number of rows of that cell. *)
Record store (R : Type) := mk_store {
  reals : list (list (list R));
  ints : list (list (list Z))
}.
Arguments mk_store {R}. Arguments reals {R}. Arguments ints {R}.

(** A group: the store, the number of particles of each cell
    (include/neso_particles/particle_group.hpp [h_npart_cell], and the per-dat
    copies [h_npart_cell], [d_npart_cell] of particle_dat.hpp, which every
    operation updates together: src/particle_group_pointer_map.cpp and
    include/neso_particles/particle_group_pointer_map.hpp L178-211). *)
Record group (R : Type) := mk_group {
  st : store R;
  npart_cell : list nat
}.
Arguments mk_group {R}. Arguments st {R}. Arguments npart_cell {R}.

(** All (cell, layer) pairs of the existing particles: the iteration set of a
    particle loop over the group (property C15). *)
Definition all_particles (np : list nat) : list (nat * nat) :=
  flat_map (fun c => map (pair c) (seq 0 (nth c np 0))) (seq 0 (length np)).

(** include/neso_particles/particle_dat.hpp L714-720 [trim_cell_dat_rows] and
    containers/cell_dat.hpp L160-202: set the number of rows of each cell to the
    number of particles; never grows here. *)
Definition trim_rows {V} (np : list nat) (d : list (list (list V))) : list (list (list V)) :=
  map (fun comp => map (fun p => firstn (fst p) (snd p)) (combine np comp)) d.

(** Map with the index. *)
Definition mapi {A B} (f : nat -> A -> B) (l : list A) : list B :=
  map (fun p => f (fst p) (snd p)) (combine (seq 0 (length l)) l).

(** A column set to [n] rows: existing rows keep their values, the content of a
    new row [i] is whatever the memory holds, [u i]. *)
Definition resize {V} (u : nat -> V) (n : nat) (col : list V) : list V :=
  map (fun i => nth i col (u i)) (seq 0 n).

(** include/neso_particles/particle_dat.hpp L683-712 [realloc] and
    containers/cell_dat.hpp L160-202 [set_nrow_inner], for every component: set
    the number of rows of cell [c] to [np[c]].  [u f c i] is the arbitrary
    content of the rows that did not exist before.  The growth factor of the
    allocation and the two-step free of the old block are not modelled here
    (property C32 does). *)
Definition realloc_rows {V} (u : nat -> nat -> nat -> V) (np : list nat)
    (D : list (list (list V))) : list (list (list V)) :=
  mapi (fun f comp => mapi (fun c col => resize (u f c) (nth c np 0) col) comp) D.

(** The dat's table of exclusive prefix sums of the cell counts
    (particle_dat.hpp L210-212, filled by the group: property C12) and
    include/neso_particles/loop/particle_loop_index.hpp L47-66
    [get_loop_linear_index] of a loop over all cells (starting_cell = 0, so the
    subtracted prefix sum is 0). *)
Definition npart_cell_es (np : list nat) (c : nat) : nat := list_sum (firstn c np).
Definition loop_linear_index (np : list nat) (c l : nat) : nat :=
  npart_cell_es np c + l - npart_cell_es np 0.
