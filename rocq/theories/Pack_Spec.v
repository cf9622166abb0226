(** What identifying, packing and unpacking departing particles means. *)
From Coq Require Import List Arith ZArith Permutation Bool.
Import ListNotations.
From Verif Require Import Base Group_Model Group_Spec Pack_Model.

(** Every value occupies the bytes sizeof says and is read back unchanged. *)
Definition encoding_ok {R B} (E : encoding R B) : Prop :=
  (forall x, length (enc_real E x) = size_real E) /\ (forall x, dec_real E (enc_real E x) = Some x) /\
  (forall z, length (enc_int E z) = size_int E) /\ (forall z, dec_int E (enc_int E z) = Some z).

(** The particle at place [w] names rank [o].  [ranks] is the rank property,
    [cell][layer]. *)
Definition names (ranks : list (list Z)) (o : nat) (w : nat * nat) : bool :=
  match rd2 ranks (fst w) (snd w) with Some z => (z =? Z.of_nat o)%Z | None => false end.

(** The places of the particles that name rank [o]. *)
Definition going (np : list nat) (ranks : list (list Z)) (o : nat) : list (nat * nat) :=
  filter (names ranks o) (all_particles np).

(** The ranks of a communicator of the given size other than this one. *)
Definition other_ranks (size rank : nat) : list nat := filter (fun o => negb (o =? rank)) (seq 0 size).

(** The places of all particles that name another rank. *)
Definition departures (size rank : nat) (np : list nat) (ranks : list (list Z)) : list (nat * nat) :=
  filter (fun w => existsb (fun o => names ranks o w) (other_ranks size rank)) (all_particles np).

(** The result of the identification pass. *)
Definition is_departing (rc size rank : nat) (np : list nat) (ranks : list (list Z)) (dp : departing) : Prop :=
  let n := dp_num dp in
  (* the list of departing particles: each exactly once *)
  n <= length (dp_cells dp) /\ n <= length (dp_layers_src dp) /\ n <= length (dp_layers_dst dp) /\
  Permutation (combine (firstn n (dp_cells dp)) (firstn n (dp_layers_src dp)))
              (departures size rank np ranks) /\
  (* for every other rank: the number of particles, and packing layers that
     enumerate them *)
  length (dp_counts dp) = size /\
  (forall o, In o (other_ranks size rank) ->
     nth_error (dp_counts dp) o = Some (length (going np ranks o)) /\
     exists order, Permutation order (going np ranks o) /\
       forall i c l k, i < n -> nth_error (dp_cells dp) i = Some c -> nth_error (dp_layers_src dp) i = Some l ->
         nth_error (dp_layers_dst dp) i = Some k -> names ranks o (c, l) = true ->
         nth_error order k = Some (c, l)) /\
  nth_error (dp_counts dp) rank = (if rank <? size then Some 0 else None) /\
  (* the destinations: each rank that gets particles exactly once, and the map
     from ranks to positions in that list *)
  dp_num_ranks dp <= length (dp_send_ranks dp) /\
  (rc = 0 ->
     Permutation (firstn (dp_num_ranks dp) (dp_send_ranks dp))
                 (filter (fun o => negb (length (going np ranks o) =? 0)) (other_ranks size rank)) /\
     forall i o, i < dp_num_ranks dp -> nth_error (dp_send_ranks dp) i = Some o ->
       nth_error (dp_rank_map dp) o = Some i).

(** The bytes of a message that carries the particles [ps]. *)
Definition wire {R B} (E : encoding R B) (ps : list (particle R)) : list B :=
  flat_map (fun p => flat_map (enc_real E) (fst p) ++ flat_map (enc_int E) (snd p)) ps.
