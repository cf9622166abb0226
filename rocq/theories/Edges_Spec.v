(** What finding the ranks that will send is supposed to do. *)
From Coq Require Import List Arith ZArith Bool.
Import ListNotations.
From Verif Require Import Base Edges_Model.

Definition step (size : nat) (a b : sys) : Prop := call size a b \/ buffered size a b.
Inductive execution (size : nat) : nat -> sys -> sys -> Prop :=
| exec_0 : forall a, execution size 0 a a
| exec_S : forall n a b c, execution size n a b -> step size b c -> execution size (S n) a c.
(** Every rank has returned from all its calls. *)
Definition finished (size : nat) (c : sys) : Prop := forall r, r < size -> at_ (procs c r) = Outside /\ calls (procs c r) = [].
(** The history of calls ends, whatever the order of the steps and whichever sends are buffered. *)
Definition always_ends (size : nat) (a : sys) : Prop :=
  (exists N, forall n b, execution size n a b -> n <= N) /\
  (forall n b, execution size n a b -> finished size b \/ exists c, call size b c).

(** The integers among the pairs (rank, integer) of which the rank is [r], in order. *)
Definition values (r : nat) (l : list (nat * Z)) : list Z := map snd (filter (fun m => fst m =? r) l).
(** [g] is what rank [r] should find when the ranks pass [args]: only ranks that exist, and from each rank [s] the integers that
    [s] passed for [r], in that order. *)
Definition found (size : nat) (args : nat -> list (nat * Z)) (r : nat) (g : list (nat * Z)) : Prop :=
  (forall m, In m g -> fst m < size) /\ forall s, s < size -> values s g = values r (args s).
(** The calls are collective, and all ranks named exist. *)
Definition collective (size K : nat) (args : nat -> list (list (nat * Z))) : Prop :=
  forall r, r < size -> length (args r) = K /\ forall a m, In a (args r) -> In m a -> fst m < size.
