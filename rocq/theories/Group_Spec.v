(** What a particle is, independently of how operations work. *)
From Coq Require Import List Arith ZArith.
Import ListNotations.
From Verif Require Import Base Group_Model.

(** All property values of one particle: its REAL components and its INT
    components. *)
Definition particle (R : Type) : Type := (list R * list Z)%type.

(** The particle stored at (cell, layer). *)
Definition particle_at {R} (s : store R) (c l : nat) : option (particle R) :=
  match mapM (fun col => rd2 col c l) (reals s), mapM (fun col => rd2 col c l) (ints s) with
  | Some x, Some y => Some (x, y)
  | _, _ => None
  end.

(** The particles of cell [c], in layer order. *)
Definition cell_particles {R} (g : group R) (c : nat) : option (list (particle R)) :=
  n <- nth_error (npart_cell g) c ;; mapM (particle_at (st g) c) (seq 0 n).

(** Every component has one column per cell, with at least as many rows as the
    cell has particles. *)
Definition wf_comp {V} (np : list nat) (col : list (list V)) : Prop :=
  length col = length np /\
  forall c n r, nth_error np c = Some n -> nth_error col c = Some r -> n <= length r.
Definition wf_group {R} (g : group R) : Prop :=
  (forall col, In col (reals (st g)) -> wf_comp (npart_cell g) col) /\
  (forall col, In col (ints (st g)) -> wf_comp (npart_cell g) col).

(** The cell id property of the particle at (cell, layer), component [cid] of
    the INT components. *)
Definition cell_id_of {R} (cid : nat) (g : group R) (c l : nat) : option Z :=
  rd3 (ints (st g)) cid c l.
