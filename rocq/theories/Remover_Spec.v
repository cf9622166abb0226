(** What removing by condition, sub-group or list is supposed to do. *)
From Coq Require Import List Arith ZArith Bool Permutation.
Import ListNotations.
From Verif Require Import Base Group_Model Group_Spec Remover_Model.

(** The particle has the value asked for. *)
Definition has_key {R} (q : @condition R) (p : particle R) : bool :=
  match q with
  | CReal f eq => match nth_error (fst p) f with Some v => eq v | None => false end
  | CInt f eq => match nth_error (snd p) f with Some v => eq v | None => false end
  end.
(** The property exists in the group. *)
Definition has_property {R} (q : @condition R) (g : group R) : Prop :=
  match q with CReal f _ => f < length (reals (st g)) | CInt f _ => f < length (ints (st g)) end.

(** [g'] has the particles of [g] without those of which [gone cell layer particle] holds: cell by cell
    the others, each once, with all values, in some order. *)
Definition without {R} (gone : nat -> nat -> particle R -> bool) (g g' : group R) : Prop :=
  length (npart_cell g') = length (npart_cell g) /\
  forall c ps, cell_particles g c = Some ps -> exists ps', cell_particles g' c = Some ps' /\
    Permutation ps' (map snd (filter (fun lp => negb (gone c (fst lp) (snd lp))) (combine (seq 0 (length ps)) ps))).

(** The cell id property of every particle is not negative (it is set from the cells by
    the library). *)
Definition ids_valid {R} (cid : nat) (g : group R) : Prop :=
  forall c l n, nth_error (npart_cell g) c = Some n -> l < n -> exists z, cell_id_of cid g c l = Some z /\ (0 <= z)%Z.
