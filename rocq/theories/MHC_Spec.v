(** What collecting objects on cells is supposed to do. *)
From Coq Require Import List Arith ZArith Bool.
Import ListNotations.
From Verif Require Import Base Serial_Model MHC_Model Edges_Spec.

(** The contract of the interface, for the objects of which [ok] holds: the number of bytes is as announced and the object is
    read back. *)
Definition serial_ok {T} (S : serial T) (ok : T -> Prop) : Prop :=
  forall x, ok x -> exists b, ser S x = Some b /\ length b = num_bytes S x /\ deser S b = Some x.

(** get_remote_ranks does what C68 says. *)
Definition finds (size : nat) (find : remote) : Prop :=
  forall args, length args = size -> (forall l e, In l args -> In e l -> fst e < size) ->
    length (find args) = size /\ forall r g, nth_error (find args) r = Some g -> found size (fun s => nth s args []) r g.

(** The objects for [cell], rank by rank; [data]: of each rank, the map from cells to objects. *)
Definition objects {T} (data : list (list (Z * list T))) (cell : Z) : list T :=
  flat_map (fun d => flat_map (fun e => if (fst e =? cell)%Z then snd e else []) d) data.
(** Some rank has an entry, possibly empty, for [cell]. *)
Definition held {T} (data : list (list (Z * list T))) (cell : Z) : Prop := exists d e, In d data /\ In e d /\ fst e = cell.
(** Rank [r] has asked for [cell] in one of the calls of gather. *)
Definition requested (reqs : list (list (list Z))) (r : nat) (cell : Z) : Prop :=
  exists req cells, In req reqs /\ nth_error req r = Some cells /\ In cell cells.
(** The bytes of all objects with their headers. *)
Definition bytes_of {T} (S : serial T) (l : list T) : nat := list_sum (map (fun x => 8 + num_bytes S x) l).
Definition total_bytes {T} (S : serial T) (data : list (list (Z * list T))) : nat :=
  list_sum (map (fun d => list_sum (map (fun e => 24 + bytes_of S (snd e)) d)) data).

(** What the user passes: on each rank a map (no cell twice), cells of the mesh hierarchy with indices that are ints, and not 2 GiB of
    data. *)
Definition cell_ok (owners : Z -> option Z) (cell : Z) : Prop := (0 <= cell < 2 ^ 31)%Z /\ owners cell <> None.
Definition data_ok {T} (S : serial T) (ok : T -> Prop) (size : nat) (owners : Z -> option Z) (data : list (list (Z * list T))) : Prop :=
  length data = size /\
  (forall d, In d data -> NoDup (map fst d) /\ forall e, In e d -> cell_ok owners (fst e) /\ Forall ok (snd e)) /\
  (Z.of_nat (total_bytes S data) < 2 ^ 31)%Z.
Definition request_ok {T} (S : serial T) (data : list (list (Z * list T))) (size : nat) (owners : Z -> option Z) (req : list (list Z)) : Prop :=
  length req = size /\
  forall cells, In cells req -> (forall c, In c cells -> cell_ok owners c) /\ (Z.of_nat (24 * length cells + total_bytes S data) < 2 ^ 31)%Z.
(** [cell] belongs to a rank of the communicator. *)
Definition owned (size : nat) (owners : Z -> option Z) (cell : Z) (r : nat) : Prop := r < size /\ owners cell = Some (Z.of_nat r).
