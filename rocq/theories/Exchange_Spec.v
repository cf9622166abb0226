(** What moving particles between ranks means. *)
From Coq Require Import List Arith ZArith Permutation Bool.
Import ListNotations.
From Verif Require Import Base Group_Model Group_Spec.

(** The rank a particle on rank [r] asks to be on: the value of its INT component
    [rid] if that is a rank of the communicator, else it stays. *)
Definition wanted {R} (rid size r : nat) (p : particle R) : nat :=
  match nth_error (snd p) rid with
  | Some z => if ((0 <=? z) && (z <? Z.of_nat size))%Z then Z.to_nat z else r
  | None => r
  end.

(** All particles of a group. *)
Definition particles {R} (g : group R) : list (particle R) :=
  flat_map (fun c => match cell_particles g c with Some ps => ps | None => [] end)
           (seq 0 (length (npart_cell g))).

(** The particles of the other ranks that ask for rank [r]. *)
Definition arrivals {R} (rid : nat) (gs : list (group R)) (r : nat) : list (particle R) :=
  concat (mapi (fun s g => if s =? r then [] else filter (fun p => wanted rid (length gs) s p =? r) (particles g)) gs).

(** The ranks [gs] have become [gs']: on every rank every cell holds the particles
    of that cell that did not ask for another rank, and cell 0 in addition all
    particles of other ranks that asked for this rank, with all their values. *)
Definition exchanged {R} (rid : nat) (gs gs' : list (group R)) : Prop :=
  length gs' = length gs /\
  forall r g, nth_error gs r = Some g -> exists g', nth_error gs' r = Some g' /\
    length (npart_cell g') = length (npart_cell g) /\
    forall c, c < length (npart_cell g) -> exists old new,
      cell_particles g c = Some old /\ cell_particles g' c = Some new /\
      Permutation new (filter (fun p => wanted rid (length gs) r p =? r) old ++
                       if c =? 0 then arrivals rid gs r else []).

(** The groups of all ranks are usable for a move: well formed, with the same
    properties, at least one cell, and every particle that stays has a
    non-negative cell id (the removal of the others relies on it: C01). *)
Definition ranks_ok {R} (spR spZ : list (nat * nat)) (cid rid : nat) (gs : list (group R)) : Prop :=
  forall r g, nth_error gs r = Some g ->
    wf_group g /\ list_sum (map snd spR) = length (reals (st g)) /\ list_sum (map snd spZ) = length (ints (st g)) /\
    cid < length (ints (st g)) /\ rid < length (ints (st g)) /\ 0 < length (npart_cell g) /\
    forall p, In p (particles g) -> wanted rid (length gs) r p = r ->
      exists z, nth_error (snd p) cid = Some z /\ (0 <= z)%Z.
