(** Which cell representations are sent, and what the receiver is to hold. *)
From Coq Require Import List Arith ZArith Bool Sorting.Sorted.
Import ListNotations.
From Verif Require Import Base Serial_Model CellRep_Model.

(** A PetscInt of [ni] bytes; the 64 bits of a coordinate. *)
Definition int_ok (ni : nat) (x : Z) : Prop := (- (256 ^ Z.of_nat ni / 2) <= x < 256 ^ Z.of_nat ni / 2)%Z.
Definition bits_ok (x : Z) : Prop := (0 <= x < 2 ^ 64)%Z.
Definition width (ni : nat) : Prop := ni = 4 \/ ni = 8.

(** A map: its keys ascend. *)
Definition is_map {A} (m : zmap A) : Prop := StronglySorted Z.lt (map fst m).
(** The numbers of a representation; each point has as many orientations as it has points in its cone. *)
Definition rep_wf (r : cell_rep) : Prop :=
  is_map (cones r) /\ is_map (vertices r) /\ map fst (orientations r) = map fst (cones r) /\
  (forall p c o, map_get (cones r) p = Some c -> map_get (orientations r) p = Some o -> length o = length c).
Definition rep_values (ni : nat) (r : cell_rep) : Prop :=
  (forall p c, In (p, c) (cones r) -> int_ok ni p /\ Forall (int_ok ni) c) /\
  (forall p o, In (p, o) (orientations r) -> Forall (int_ok ni) o) /\
  (forall p x, In (p, x) (vertices r) -> int_ok ni p /\ Forall bits_ok x).
(** The numbers that are sent can be counted by an int. *)
Definition rep_numbers (r : cell_rep) : nat :=
  2 + list_sum (map (fun e => 2 + 2 * length (snd e)) (cones r)) + 2 * length (vertices r) + list_sum (map (fun e => length (snd e)) (vertices r)).
Definition rep_fits (r : cell_rep) : Prop := (Z.of_nat (rep_numbers r) < 2 ^ 31)%Z.
Definition rep_ok (ni : nat) (r : cell_rep) : Prop := rep_wf r /\ rep_values ni r /\ rep_fits r.

(** A cell as it is sent. *)
Definition cell_ok (ni : nat) (c : cell_msg) : Prop :=
  int_ok ni (local_id c) /\ int_ok ni (global_id c) /\ int_ok 4 (owning_rank c) /\ int_ok 4 (cell_type c).
