(** What temporary groups are supposed to be. *)
From Coq Require Import List Arith Bool.
Import ListNotations.
From Verif Require Import Base TempGroup_Model.
Local Open Scope nat_scope.

(** A group with one positions dat, one cell id dat and the dat for the ranks, as the constructor makes it; properties that
    are added later are not flagged as positions. *)
Definition props_ok (g : pg) (p pn c cn : nat) : Prop :=
  NoDup (map fst (real g)) /\ NoDup (map fst (int_ g)) /\ pos g = p /\ cell g = c /\
  (forall s n, In (s, (n, true)) (real g) <-> s = p /\ n = pn) /\
  (forall s n, In (s, (n, true)) (int_ g) <-> s = c /\ n = cn) /\
  In (mpi_rank, (2, false)) (int_ g).
(** A group with the properties of another, and no particles in the same number of cells. *)
Definition empty_copy (t g : pg) : Prop :=
  (forall s n, (exists b, In (s, (n, b)) (real t)) <-> (exists b, In (s, (n, b)) (real g))) /\
  (forall s n, (exists b, In (s, (n, b)) (int_ t)) <-> (exists b, In (s, (n, b)) (int_ g))) /\
  pos t = pos g /\ cell t = cell g /\ npart t = repeat 0 (length (npart g)).
