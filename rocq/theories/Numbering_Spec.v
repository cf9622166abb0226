(** What the map from global cells to ranks is supposed to do. *)
From Coq Require Import List Arith ZArith Bool Permutation.
Import ListNotations.
From Verif Require Import Base Halo_Model Numbering_Model.
Local Open Scope nat_scope.

(** The points of the cells a rank owns, and their global numbers. *)
Definition owned_points (p : plex) : list Z :=
  filter (fun c => (0 <=? p_num p c)%Z) (map (fun i => (p_start p + Z.of_nat i)%Z) (seq 0 (Z.to_nat (p_end p - p_start p)))).
Definition owned_ids (p : plex) : list Z := map (p_num p) (owned_points p).
(** The global number of a point: PETSc stores -(g + 1) for a point that another rank owns. *)
Definition global_number (s : Z) : Z := if (s <? 0)%Z then (- s - 1)%Z else s.
(** No two points of a rank have one global number, the cells are points, and the rank owns a cell. *)
Definition plex_ok (p : plex) : Prop :=
  (forall x y, (pstart (p_dm p) <= x < pend (p_dm p))%Z -> (pstart (p_dm p) <= y < pend (p_dm p))%Z ->
     global_number (p_num p x) = global_number (p_num p y) -> x = y) /\
  (pstart (p_dm p) <= p_start p /\ p_end p <= pend (p_dm p))%Z /\ owned_points p <> [].
(** The cells of all ranks have the numbers [base], [base + 1], ..., each once, which fit into int. *)
Definition cells_ok (ps : list plex) (base : Z) : Prop :=
  (0 <= base)%Z /\
  (base + Z.of_nat (length (flat_map owned_ids ps)) - 1 <= int_max)%Z /\
  Permutation (flat_map owned_ids ps) (map (fun k => base + Z.of_nat k)%Z (seq 0 (length (flat_map owned_ids ps)))).
