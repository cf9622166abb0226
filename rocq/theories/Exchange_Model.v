(** Moving particles between MPI ranks: GlobalMove, LocalMove. *)
From Coq Require Import List Arith ZArith Bool.
Import ListNotations.
From Verif Require Import Base Group_Model Compress_Model Add_Model Pack_Model.

(** What one rank does not control: the device it uses, whether MPI is device
    aware, what the packing CellDat holds from the last use (packing_unpacking.hpp
    L59: one cell per rank), and the contents of newly allocated memory. *)
Record rank_env (R byte : Type) := mk_env {
  e_dev : device; e_aware : bool; e_buf0 : list (list byte); e_ubuf : nat -> nat -> byte;
  e_hsend : nat -> byte; e_hrecv : nat -> byte;
  e_uR : nat -> nat -> nat -> R; e_uZ : nat -> nat -> nat -> Z }.
Arguments e_dev {R byte}. Arguments e_aware {R byte}. Arguments e_buf0 {R byte}. Arguments e_ubuf {R byte}.
Arguments e_hsend {R byte}. Arguments e_hrecv {R byte}. Arguments e_uR {R byte}. Arguments e_uZ {R byte}.
Arguments mk_env {R byte}.

Section Exchange.
  Context {R byte : Type} (E : encoding R byte) (spR spZ : pspec).

  (** A message: number of particles (sent with tag 42, or 43 in LocalMove) and
      packed particle data (tag 43). *)
  Definition message : Type := (nat * list byte)%type.

  (** ** GlobalMove *)

  (** include/neso_particles/global_move.hpp L117-121: one work item. *)
  Definition send_npart_item (send_ranks counts : list nat) (m : list nat) (idx : nat) : option (list nat) :=
    rank <- rd send_ranks idx ;;
    npart <- rd counts rank ;;
    upd m idx npart.

  (** global_move_exchange.hpp L115-125: the checks on one destination. *)
  Definition send_ok (size : nat) (send_ranks npart : list nat) (rx : nat) : option unit :=
    rank <- rd send_ranks rx ;;
    n <- rd npart rx ;;
    _ <- assert (rank <? size) ;;
    assert (0 <? n).

  (** The sending side of global_move.hpp L87-200 [GlobalMove::move] on one rank:
      identify, count, pack, checks (global_move_exchange.hpp L109-125), the
      messages (L244-251) and the removal of the sent particles.  [rid] is the INT
      component that holds component 0 of NESO_MPI_RANK, [cid] the cell id.
      Result: the group without the sent particles, and (destination, message)
      for every destination. *)
  Definition global_send (e : rank_env R byte) (cid rid size rank : nat) (g : group R)
    : option (group R * list (nat * message)) :=
    ranks <- rd (ints (st g)) rid ;;
    dp <- identify (e_dev e) 0 size rank (npart_cell g) ranks ;;
    let nr := dp_num_ranks dp in
    npart <- (if 0 <? nr then
                foldM (send_npart_item (dp_send_ranks dp) (dp_counts dp)) (fresh (e_dev e) 205 nr)
                  (ord (e_dev e) 205 (seq 0 nr))
              else Some (fresh (e_dev e) 205 nr)) ;;
    buf <- pack (e_dev e) E spR spZ (e_ubuf e) nr npart (dp_rank_map dp) (dp_num dp) (dp_cells dp)
             (dp_layers_src dp) (dp_layers_dst dp) ranks (st g) (e_buf0 e) ;;
    _ <- mapM (send_ok size (dp_send_ranks dp) npart) (seq 0 nr) ;;
    msgs <- packed_messages E spR spZ (e_aware e) (e_hsend e) nr size npart buf ;;
    g1 <- remove_particles (e_dev e) cid g
            (map Z.of_nat (firstn (dp_num dp) (dp_cells dp)))
            (map Z.of_nat (firstn (dp_num dp) (dp_layers_src dp))) ;;
    dsts <- mapM (rd (dp_send_ranks dp)) (seq 0 nr) ;;
    Some (g1, combine dsts (combine npart msgs)).

  (** The receiving side (global_move_exchange.hpp L191-205, L273-281,
      global_move.hpp L170-205): the messages in the order in which their counts
      were received. *)
  Definition global_recv (e : rank_env R byte) (inbox : list (nat * message)) (g : group R) : option (group R) :=
    let npart := map (fun m => fst (snd m)) inbox in
    let msgs := map (fun m => snd (snd m)) inbox in
    _ <- assert (forallb (fun n => 0 <? n) npart) ;;
    r <- unpack_reset E spR spZ npart (length inbox) ;;
    _ <- assert (forallb (fun m => length (snd m) =? fst m * bytes_per_particle E spR spZ) (map snd inbox)) ;;
    recv <- receive_messages E spR spZ (e_hrecv e) (fst r) (snd r) msgs ;;
    unpack (e_dev e) E spR spZ (e_uR e) (e_uZ e) (snd r) recv g.

  (** ** LocalMove *)

  (** include/neso_particles/local_move.hpp L94-117: the sorted set of the given
      neighbour ranks without this rank. *)
  Fixpoint set_insert (a : nat) (l : list nat) : list nat :=
    match l with
    | [] => [a]
    | b :: t => if a <? b then a :: l else if a =? b then l else b :: set_insert a t
    end.
  Definition local_send_ranks (size rank : nat) (ranks : list Z) : option (list nat) :=
    foldM (fun set remote_rank =>
      _ <- assert ((0 <=? remote_rank) && (remote_rank <? Z.of_nat size))%Z ;;
      Some (if (remote_rank =? Z.of_nat rank)%Z then set else set_insert (Z.to_nat remote_rank) set)) [] ranks.

  (** local_move.hpp L178-183: the map from ranks to positions in the list of
      send ranks.  Entries of other ranks are uninitialised. *)
  Definition local_rank_map (d : device) (size : nat) (send_ranks : list nat) : option (list nat) :=
    foldM (fun m rankx => rank <- rd send_ranks rankx ;; upd m rank rankx) (fresh d 206 size)
      (seq 0 (length send_ranks)).

  (** The sending side of local_move.hpp L286-366 [LocalMove::move].  [rid] is the
      INT component that holds component 1 of NESO_MPI_RANK. *)
  Definition local_send (e : rank_env R byte) (cid rid size rank : nat) (send_ranks : list nat) (g : group R)
    : option (group R * list (nat * message)) :=
    ranks <- rd (ints (st g)) rid ;;
    rank_map <- local_rank_map (e_dev e) size send_ranks ;;
    dp <- identify (e_dev e) 1 size rank (npart_cell g) ranks ;;
    let nr := length send_ranks in
    (* L295-299 *)
    npart <- mapM (fun rankx => rank <- rd send_ranks rankx ;; rd (dp_counts dp) rank) (seq 0 nr) ;;
    (* L303-313 *)
    counts <- foldM (fun m rankx => rank <- rd send_ranks rankx ;; upd m rank 0) (dp_counts dp) (seq 0 nr) ;;
    _ <- assert (forallb (fun rank => match rd counts rank with Some n => n =? 0 | None => false end) (seq 0 size)) ;;
    buf <- pack (e_dev e) E spR spZ (e_ubuf e) nr npart rank_map (dp_num dp) (dp_cells dp)
             (dp_layers_src dp) (dp_layers_dst dp) ranks (st g) (e_buf0 e) ;;
    msgs <- packed_messages E spR spZ (e_aware e) (e_hsend e) nr size npart buf ;;
    g1 <- remove_particles (e_dev e) cid g
            (map Z.of_nat (firstn (dp_num dp) (dp_cells dp)))
            (map Z.of_nat (firstn (dp_num dp) (dp_layers_src dp))) ;;
    Some (g1, combine send_ranks (combine npart msgs)).

  (** The receiving side: one count from every rank that may send, data only for
      positive counts (local_move.hpp L244-252).  A message longer than the
      posted receive is an MPI error. *)
  Definition local_recv (e : rank_env R byte) (inbox : list (nat * message)) (g : group R) : option (group R) :=
    let npart := map (fun m => fst (snd m)) inbox in
    let msgs := map (fun m => if 0 <? fst (snd m) then snd (snd m) else []) inbox in
    r <- unpack_reset E spR spZ npart (length inbox) ;;
    _ <- assert (forallb (fun m => length (snd m) <=? fst m * bytes_per_particle E spR spZ) (map snd inbox)) ;;
    recv <- receive_messages E spR spZ (e_hrecv e) (fst r) (snd r) msgs ;;
    unpack (e_dev e) E spR spZ (e_uR e) (e_uZ e) (snd r) recv g.

  (** ** All ranks *)

  (** The messages for rank [r], with their sources. *)
  Definition inbox (r : nat) (sent : list (list (nat * message))) : list (nat * message) :=
    concat (mapi (fun s out => map (fun m => (s, snd m)) (filter (fun m => fst m =? r) out)) sent).

  (** One move on all ranks: every rank sends, then every rank receives the
      messages for it in some order [arr].  That the MPI calls deliver exactly
      these messages is proved of the communication protocol (Protocol_Model.v). *)
  Definition exchange (send : nat -> group R -> option (group R * list (nat * message)))
      (recv : nat -> list (nat * message) -> group R -> option (group R))
      (arr : nat -> list (nat * message) -> list (nat * message)) (gs : list (group R)) : option (list (group R)) :=
    sent <- mapM (fun p => send (fst p) (snd p)) (combine (seq 0 (length gs)) gs) ;;
    let outs := map snd sent in
    mapM (fun p => recv (fst p) (arr (fst p) (inbox (fst p) outs)) (fst (snd p)))
      (combine (seq 0 (length gs)) sent).

  (** src/particle_group.cpp L1085-1089 [global_move] on every rank. *)
  Definition global_move (env : nat -> rank_env R byte) (cid rid : nat)
      (arr : nat -> list (nat * message) -> list (nat * message)) (gs : list (group R)) : option (list (group R)) :=
    exchange (fun r g => global_send (env r) cid rid (length gs) r g) (fun r => global_recv (env r)) arr gs.

  (** L1091-1095 [local_move] on every rank; [nbrs r] is what rank [r] passed to the
      constructor. *)
  Definition local_move (env : nat -> rank_env R byte) (cid rid : nat) (nbrs : nat -> list Z)
      (arr : nat -> list (nat * message) -> list (nat * message)) (gs : list (group R)) : option (list (group R)) :=
    exchange (fun r g => send_ranks <- local_send_ranks (length gs) r (nbrs r) ;;
                         local_send (env r) cid rid (length gs) r send_ranks g)
             (fun r => local_recv (env r)) arr gs.
End Exchange.
