(** What the union of sets over all ranks is supposed to be. *)
From Coq Require Import List Arith ZArith Bool Sorted.
Import ListNotations.
From Verif Require Import Base Union_Model.

(** A step of the program or of the MPI library. *)
Definition step (a b : sys) : Prop := call a b \/ buffered a b.
(** [execution n a b]: [n] steps lead from [a] to [b]. *)
Inductive execution : nat -> sys -> sys -> Prop :=
| exec_0 : forall a, execution 0 a a
| exec_S : forall n a b c, execution n a b -> step b c -> execution (S n) a c.
(** Every rank has returned. *)
Definition finished (size : nat) (c : sys) : Prop := forall r, r < size -> todo (procs c r) = [] /\ waits (procs c r) = None.

(** Started in [a] the program ends, whatever the order of the steps and whichever sends are buffered: the number of steps is
    bounded, and as long as some rank has not returned a rank can go on without the help of a buffer. *)
Definition always_ends (size : nat) (a : sys) : Prop :=
  (exists N, forall n b, execution n a b -> n <= N) /\
  (forall n b, execution n a b -> finished size b \/ exists c, call b c).

(** A std::set. *)
Definition is_set (l : list Z) : Prop := StronglySorted Z.lt l.
Definition fits_int (x : Z) : Prop := (- 2 ^ 31 <= x < 2 ^ 31)%Z.
(** [u] is the union of the sets of the ranks. *)
Definition is_union (size : nat) (inputs : nat -> list Z) (u : list Z) : Prop :=
  is_set u /\ forall x, In x u <-> exists r, r < size /\ In x (inputs r).
