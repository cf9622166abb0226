(** What moving particles between the cells of a rank is supposed to do. *)
From Coq Require Import List Arith ZArith Bool Permutation.
Import ListNotations.
From Verif Require Import Base Group_Model Group_Spec.

(** Every particle holds the number of a cell of this rank. *)
Definition ids_in_range {R} (cid : nat) (g : group R) : Prop :=
  forall c l n, nth_error (npart_cell g) c = Some n -> l < n ->
    exists id, cell_id_of cid g c l = Some (Z.of_nat id) /\ id < length (npart_cell g).

(** Some particle holds a number that is not a cell of this rank. *)
Definition some_id_out_of_range {R} (cid : nat) (g : group R) : Prop :=
  exists c l n z, nth_error (npart_cell g) c = Some n /\ l < n /\
    cell_id_of cid g c l = Some z /\ (z < 0 \/ Z.of_nat (length (npart_cell g)) <= z)%Z.

(** Where the particles with cell id [c] are in [g]. *)
Definition places_with_id {R} (cid : nat) (g : group R) (c : nat) : list (nat * nat) :=
  filter (fun w => match cell_id_of cid g (fst w) (snd w) with
                   | Some z => Z.eqb z (Z.of_nat c)
                   | None => false
                   end) (all_particles (npart_cell g)).

(** [g'] has the same cells and properties as [g]; cell [c] of [g'] holds
    exactly the particles of [g], from whatever cell, whose cell id is [c], each
    once and with all its values, and its count is their number. *)
Definition is_cell_move {R} (cid : nat) (g g' : group R) : Prop :=
  length (npart_cell g') = length (npart_cell g) /\
  length (reals (st g')) = length (reals (st g)) /\
  length (ints (st g')) = length (ints (st g)) /\
  forall c, c < length (npart_cell g) ->
    nth_error (npart_cell g') c = Some (length (places_with_id cid g c)) /\
    exists ps ps',
      mapM (fun w => particle_at (st g) (fst w) (snd w)) (places_with_id cid g c) = Some ps /\
      cell_particles g' c = Some ps' /\ Permutation ps' ps.
