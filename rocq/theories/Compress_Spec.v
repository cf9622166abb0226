(** What removing particles is supposed to do. *)
From Coq Require Import List Arith ZArith Bool Permutation.
Import ListNotations.
From Verif Require Import Base Group_Model Group_Spec.

(** (cell, layer) is one of the entries of the removal list. *)
Definition listed (cells layers : list Z) (c l : nat) : bool :=
  existsb (fun e => (Z.eqb (fst e) (Z.of_nat c)) && (Z.eqb (snd e) (Z.of_nat l)))
    (combine cells layers).

(** Layers of a cell with [n] particles that are not listed. *)
Definition kept_layers (cells layers : list Z) (c n : nat) : list nat :=
  filter (fun l => negb (listed cells layers c l)) (seq 0 n).

(** The removal request is meaningful: the two lists have equal length, and an
    entry that names an existing cell and a non-negative layer names an existing
    particle.  Entries with a negative or too large cell, or a negative layer,
    are allowed (they are ignored), and so are repeated entries. *)
Definition valid_request {R} (g : group R) (cells layers : list Z) : Prop :=
  length cells = length layers /\
  forall i c l n, nth_error cells i = Some (Z.of_nat c) -> nth_error layers i = Some (Z.of_nat l) ->
    nth_error (npart_cell g) c = Some n -> l < n.

(** Every particle that is not listed has a non-negative cell id. *)
Definition kept_ids_valid {R} (cid : nat) (g : group R) (cells layers : list Z) : Prop :=
  forall c l n, nth_error (npart_cell g) c = Some n -> l < n -> listed cells layers c l = false ->
    exists z, cell_id_of cid g c l = Some z /\ (0 <= z)%Z.

(** [g'] is [g] without the listed particles, cell by cell: same cells, the
    particles of each cell are those not listed, each exactly once and with all
    its values, in some order, and the cell's count is their number. *)
Definition is_removal {R} (g : group R) (cells layers : list Z) (g' : group R) : Prop :=
  length (npart_cell g') = length (npart_cell g) /\
  length (reals (st g')) = length (reals (st g)) /\
  length (ints (st g')) = length (ints (st g)) /\
  forall c n, nth_error (npart_cell g) c = Some n ->
    let kept := kept_layers cells layers c n in
    nth_error (npart_cell g') c = Some (length kept) /\
    exists ps ps',
      mapM (particle_at (st g) c) kept = Some ps /\
      cell_particles g' c = Some ps' /\ Permutation ps' ps.
