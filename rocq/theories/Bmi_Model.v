(** Model of BoundaryMeshInterface, which sends values attached to geometry objects
    (boundary facets) between the ranks that see them and the rank that owns them:
    include/neso_particles/boundary/boundary_mesh_interface.hpp and
    src/boundary/boundary_mesh_interface.cpp, with reverse_graph_edge_directions and the
    neighbourhood exchanges of src/communication/communication_utility.cpp.  A world is
    the list of the objects of all ranks; a collective call maps worlds to worlds. *)
From Coq Require Import List Arith ZArith Bool.
Import ListNotations.
From Verif Require Import Base.

(* ------------------------------------------------------------------ *)
(** std::map and std::set of the standard library of C++. *)

(** [m.at(k)] / [m.find(k)]. *)
Fixpoint mget {K V} (eqb : K -> K -> bool) (k : K) (m : list (K * V)) : option V :=
  match m with
  | [] => None
  | (k', v) :: m' => if eqb k k' then Some v else mget eqb k m'
  end.

(** [m[k] = v].  The keys are kept in the order of insertion: nothing below depends on
    the order in which a map is traversed. *)
Fixpoint mput {K V} (eqb : K -> K -> bool) (k : K) (v : V) (m : list (K * V)) : list (K * V) :=
  match m with
  | [] => [(k, v)]
  | (k', v') :: m' => if eqb k k' then (k, v) :: m' else (k', v') :: mput eqb k v m'
  end.

(** [m[k]] of a map to sets, which is the empty set for a new key. *)
Definition mset (k : nat) (m : list (nat * list Z)) : list Z :=
  match mget Nat.eqb k m with Some s => s | None => [] end.

(** [std::set<int>::insert]: sets are traversed in ascending order. *)
Fixpoint zinsert (x : Z) (s : list Z) : list Z :=
  match s with
  | [] => [x]
  | y :: s' => if (x <? y)%Z then x :: s else if (x =? y)%Z then s else y :: zinsert x s'
  end.

(* ------------------------------------------------------------------ *)
(** MPI. *)

(** The neighbours of a rank in the distributed graph and in the one with reversed edges,
    boundary_mesh_interface.hpp L106-113, in the orders MPI_Dist_graph_neighbors returns
    them (boundary_mesh_interface.cpp L126-145, L245-250).  They are an input of the
    model: MPI chooses the order.  reverse_graph_edge_directions
    (communication_utility.cpp L21-41) hands the swapped lists to
    MPI_Dist_graph_create_adjacent. *)
Record graph := Graph { g_dests : list nat; g_srcs : list nat; g_rsrcs : list nat; g_rdests : list nat }.

(** The running offsets of boundary_mesh_interface.hpp L130-143 (L172-185 for the reverse
    direction), in elements. *)
Fixpoint displs (offset : nat) (counts : list nat) : list nat :=
  match counts with [] => [] | c :: l => offset :: displs (offset + c) l end.

Fixpoint find_index (r : nat) (l : list nat) : option nat :=
  match l with
  | [] => None
  | x :: l' => if r =? x then Some 0 else i <- find_index r l' ;; Some (S i)
  end.

(** The message rank [s] sends to rank [r].  A count which is not the one the receiver
    expects is an error. *)
Definition message {T} (dests scounts : list (list nat)) (bufs : list (list T)) (r s n : nat) : option (list T) :=
  ds <- rd dests s ;; j <- find_index r ds ;;
  sc <- rd scounts s ;; cnt <- rd sc j ;; off <- rd (displs 0 sc) j ;;
  _ <- assert (cnt =? n) ;;
  buf <- rd bufs s ;; slice buf off (off + cnt).

(** [n] elements written to consecutive addresses. *)
Definition blit {T} (m : list T) (off : nat) (data : list T) : option (list T) :=
  scatter m (combine (seq off (length data)) data).

(** communication_utility.cpp L121-170 [NP_MPI_Neighbor_alltoallw], and
    MPI_Neighbor_alltoallw: each rank receives from each of its sources the part of the
    send buffer of the source that is meant for it.  There is at most one edge between
    two ranks.  All data have one type. *)
Definition neighbor_alltoallw {T} (dests srcs scounts rcounts : list (list nat)) (bufs recvs : list (list T)) : option (list (list T)) :=
  mapM (fun r =>
      sl <- rd srcs r ;; rc <- rd rcounts r ;; rb <- rd recvs r ;;
      foldM (fun rb ix =>
          s <- rd sl ix ;; n <- rd rc ix ;; off <- rd (displs 0 rc) ix ;;
          data <- message dests scounts bufs r s n ;; blit rb off data)
        rb (seq 0 (length sl)))
    (seq 0 (length srcs)).

(** L51-104 [NP_MPI_Neighbor_alltoall] with one element per neighbour. *)
Definition neighbor_alltoall {T} (dests srcs : list (list nat)) (bufs recvs : list (list T)) : option (list (list T)) :=
  neighbor_alltoallw dests srcs (map (map (fun _ => 1)) dests) (map (map (fun _ => 1)) srcs) bufs recvs.

(* ------------------------------------------------------------------ *)
(** boundary_mesh_interface.hpp L18-113: the members.  geom_counter is the length of
    [m_lin].  The trees on the device hold the same pairs as the maps on the host
    (BlockedBinaryTree is a map, C21), and the pointers to buffers that do not exist yet
    are empty lists.  Geometry ids are taken to fit into int; extended_pattern_geom_ids is
    the set of the elements of [m_lin] (L74) and left out. *)
Record bmi := Bmi {
  m_own : list Z;                    (* owned_geom_ids *)
  m_ownmap : list (Z * nat);         (* map_owned_geom_id_to_linear_index *)
  m_recv : list (nat * list Z);      (* map_recv_rank_to_geom_ids *)
  m_send : list (nat * list Z);      (* map_send_rank_to_geom_ids *)
  m_lin : list Z;                    (* map_linear_index_to_geom_id *)
  m_seq : list (Z * nat);            (* map_geom_id_to_linear_index *)
  m_graph : graph;
  m_outc : list nat; m_inc : list nat;        (* outgoing_geom_counts, incoming_geom_counts *)
  m_outids : list Z; m_inids : list Z;        (* outgoing_geom_ids, incoming_geom_ids *)
  m_pack : list nat;                          (* d_outgoing_pack_index *)
  m_routc : list nat; m_rinc : list nat;      (* reverse_outgoing_geom_counts, reverse_incoming_geom_counts *)
  m_rpack : list nat; m_runpack : list nat;   (* d_reverse_outgoing_pack_index, d_reverse_incoming_unpack_index *)
  m_version : nat
}.

(** boundary_mesh_interface.cpp L6-34 *)
Definition bmi_create (owned_face_cells : list Z) : bmi :=
  let ownmap := fst (fold_left (fun '(m, i) gid => (mput Z.eqb gid i m, i + 1)) owned_face_cells ([], 0)) in
  Bmi owned_face_cells ownmap [] [] [] [] (Graph [] [] [] []) [] [] [] [] [] [] [] [] [] 1.

(** L36-38 *)
Definition get_num_intersection_geoms (b : bmi) : nat := length (m_lin b).
(** L311-314 *)
Definition get_geom_id_from_seq_index (b : bmi) (i : nat) : option Z := rd (m_lin b) i.
(** L316-318; the map the kernels use (L320-326) holds the same pairs. *)
Definition get_seq_index_from_geom_id (b : bmi) (g : Z) : option nat := mget Z.eqb g (m_seq b).

(** L65-76 for one pair; the flag is map_is_modified_t. *)
Definition note_pair (st : bmi * bool) (p : nat * Z) : bmi * bool :=
  let '(b, modified) := st in
  let '(rank, geom_id) := p in
  if existsb (Z.eqb geom_id) (mset rank (m_recv b)) then (b, modified)
  else (Bmi (m_own b) (m_ownmap b)
          (mput Nat.eqb rank (zinsert geom_id (mset rank (m_recv b))) (m_recv b)) (m_send b)
          (m_lin b ++ [geom_id]) (mput Z.eqb geom_id (length (m_lin b)) (m_seq b))
          (m_graph b) (m_outc b) (m_inc b) (m_outids b) (m_inids b) (m_pack b)
          (m_routc b) (m_rinc b) (m_rpack b) (m_runpack b) (m_version b), true).

Definition note_pairs (b : bmi) (rank_geom_ids : list (nat * Z)) : bmi * bool :=
  fold_left note_pair rank_geom_ids (b, false).

(** L91-104, L126-163, L185-200: the graph, and what this rank sends.  That the index
    reaches the total (L199) holds by construction here. *)
Definition rebuild_out (b : bmi) (g : graph) : option bmi :=
  _ <- assert (length (g_dests g) =? length (m_recv b)) ;;
  Some (Bmi (m_own b) (m_ownmap b) (m_recv b) (m_send b) (m_lin b) (m_seq b) g
          (map (fun dst_rank => length (mset dst_rank (m_recv b))) (g_dests g)) (m_inc b)
          (flat_map (fun dst_rank => mset dst_rank (m_recv b)) (g_dests g)) (m_inids b) (m_pack b)
          (m_routc b) (m_rinc b) (m_rpack b) (m_runpack b) (m_version b)).

(** L210-222 *)
Definition record_senders (ownmap : list (Z * nat)) (srcs inc : list nat) (inids : list Z) (send : list (nat * list Z)) : option (list (nat * list Z)) :=
  r <- foldM (fun '(send, index) src_rank_index =>
          src_rank <- rd srcs src_rank_index ;;
          cnt <- rd inc src_rank_index ;;
          foldM (fun '(send, index) _ =>
              gid <- rd inids index ;;
              _ <- assert (match mget Z.eqb gid ownmap with Some _ => true | None => false end) ;;
              Some (mput Nat.eqb src_rank (zinsert gid (mset src_rank send)) send, index + 1))
            (send, index) (seq 0 cnt))
        (send, 0) (seq 0 (length srcs)) ;;
  Some (fst r).

(** L226-241: -1 is [None]. *)
Definition outgoing_pack_index (lin : list Z) (sq : list (Z * nat)) (outids : list Z) : option (list nat) :=
  r <- foldM (fun '(h, pack_index) outgoing_geom =>
          seq_linear_index <- mget Z.eqb outgoing_geom sq ;;
          h' <- upd h seq_linear_index (Some pack_index) ;;
          Some (h', pack_index + 1))
        (repeat None (length lin), 0) outids ;;
  mapM (fun x : option nat => x) (fst r).

(** L165-183, L202-305: after the exchanges of the counts and of the ids. *)
Definition rebuild_in (b : bmi) (inc : list nat) (inids : list Z) : option bmi :=
  let g := m_graph b in
  send <- record_senders (m_ownmap b) (g_srcs g) inc inids (m_send b) ;;
  pack <- outgoing_pack_index (m_lin b) (m_seq b) (m_outids b) ;;
  rsets <- mapM (fun dst_rank => mget Nat.eqb dst_rank send) (g_rdests g) ;;
  rpack <- mapM (fun gid => mget Z.eqb gid (m_ownmap b)) (concat rsets) ;;
  usets <- mapM (fun src_rank => mget Nat.eqb src_rank (m_recv b)) (g_rsrcs g) ;;
  runpack <- mapM (fun gid => mget Z.eqb gid (m_seq b)) (concat usets) ;;
  let routc := map (@length Z) rsets in
  let rinc := map (@length Z) usets in
  _ <- assert (length rinc =? length (m_outc b)) ;;
  _ <- assert (length routc =? length inc) ;;
  Some (Bmi (m_own b) (m_ownmap b) (m_recv b) send (m_lin b) (m_seq b) g
          (m_outc b) inc (m_outids b) inids pack routc rinc rpack runpack (m_version b + 1)).

(** boundary_mesh_interface.hpp L234-249 [exchange_surface] on all ranks.  The arguments
    of the exchange (L115-153) are cached by type and number of components; the cache is
    emptied whenever the counts change (boundary_mesh_interface.cpp L88-89), so they are
    computed from the counts here. *)
Definition exchange_surface {T} (w : list bmi) (ncomp : nat) (bufs recvs : list (list T)) : option (list (list T)) :=
  if ncomp <? 1 then Some recvs
  else neighbor_alltoallw (map (fun b => g_dests (m_graph b)) w) (map (fun b => g_srcs (m_graph b)) w)
         (map (fun b => map (fun c => c * ncomp) (m_outc b)) w) (map (fun b => map (fun c => c * ncomp) (m_inc b)) w)
         bufs recvs.

(** L263-278 [reverse_exchange_surface], with L155-194 *)
Definition reverse_exchange_surface {T} (w : list bmi) (ncomp : nat) (bufs recvs : list (list T)) : option (list (list T)) :=
  if ncomp <? 1 then Some recvs
  else neighbor_alltoallw (map (fun b => g_rdests (m_graph b)) w) (map (fun b => g_rsrcs (m_graph b)) w)
         (map (fun b => map (fun c => c * ncomp) (m_routc b)) w) (map (fun b => map (fun c => c * ncomp) (m_rinc b)) w)
         bufs recvs.

(** boundary_mesh_interface.cpp L55-309 [extend_exchange_pattern]: collective, with the
    pairs of each rank and the neighbours MPI reports to each rank. *)
Definition extend_exchange_pattern (w : list bmi) (rank_geom_ids : list (list (nat * Z))) (gs : list graph) : option (list bmi) :=
  w1 <- mapM (fun r => b <- rd w r ;; ids <- rd rank_geom_ids r ;; Some (note_pairs b ids)) (seq 0 (length w)) ;;
  if existsb snd w1 then
    w2 <- mapM (fun r => b <- rd w1 r ;; g <- rd gs r ;; rebuild_out (fst b) g) (seq 0 (length w)) ;;
    let dests := map (fun b => g_dests (m_graph b)) w2 in
    let srcs := map (fun b => g_srcs (m_graph b)) w2 in
    inc <- neighbor_alltoall dests srcs (map m_outc w2) (map (map (fun _ => 0)) srcs) ;;
    inids <- neighbor_alltoallw dests srcs (map m_outc w2) inc (map m_outids w2) (map (fun c => repeat 0%Z (list_sum c)) inc) ;;
    mapM (fun r => b <- rd w2 r ;; ic <- rd inc r ;; ii <- rd inids r ;; rebuild_in b ic ii) (seq 0 (length w))
  else Some (map fst w1).

(* ------------------------------------------------------------------ *)
Section Exchange.
  Context {T : Type} (add : T -> T -> T) (zero : T).

  (** boundary_mesh_interface.hpp L351-372 [exchange_from_device_pack] *)
  Definition exchange_pack (d : device) (k : nat) (b : bmi) (ncomp : nat) (src out : list T) : option (list T) :=
    if 0 <? length (m_lin b) then
      foldM (fun out '(idx_geom, idx_component) =>
          geom_dst <- rd (m_pack b) idx_geom ;;
          v <- rd src (idx_geom * ncomp + idx_component) ;;
          upd out (geom_dst * ncomp + idx_component) v)
        out (ord d k (list_prod (seq 0 (length (m_lin b))) (seq 0 ncomp)))
    else Some out.

  (** L374-402 [exchange_from_device_unpack]: the additions are atomic. *)
  Definition exchange_unpack (d : device) (k : nat) (b : bmi) (ncomp : nat) (packed dst : list T) : option (list T) :=
    if 0 <? length (m_inids b) then
      _ <- assert (0 <? length (m_ownmap b)) ;;
      foldM (fun dst '(incoming_index, cx) =>
          gid <- rd (m_inids b) incoming_index ;;
          linear_index <- mget Z.eqb gid (m_ownmap b) ;;
          v <- rd packed (incoming_index * ncomp + cx) ;;
          old <- rd dst (ncomp * linear_index + cx) ;;
          upd dst (ncomp * linear_index + cx) (add old v))
        dst (ord d k (list_prod (seq 0 (length (m_inids b))) (seq 0 ncomp)))
    else Some dst.

  (** L404-431 [reverse_exchange_from_device_pack] *)
  Definition reverse_pack (d : device) (k : nat) (b : bmi) (ncomp : nat) (src out : list T) : option (list T) :=
    if 0 <? length (m_inids b) then
      foldM (fun out '(idx_linear, idx_component) =>
          idx_map <- rd (m_rpack b) idx_linear ;;
          v <- rd src (idx_map * ncomp + idx_component) ;;
          upd out (idx_linear * ncomp + idx_component) v)
        out (ord d k (list_prod (seq 0 (length (m_rpack b))) (seq 0 ncomp)))
    else Some out.

  (** L433-454 [reverse_exchange_from_device_unpack] *)
  Definition reverse_unpack (d : device) (k : nat) (b : bmi) (ncomp : nat) (packed dst : list T) : option (list T) :=
    if 0 <? length (m_lin b) then
      foldM (fun dst '(idx_linear, idx_component) =>
          idx_map <- rd (m_runpack b) idx_linear ;;
          v <- rd packed (idx_linear * ncomp + idx_component) ;;
          upd dst (idx_map * ncomp + idx_component) v)
        dst (ord d k (list_prod (seq 0 (length (m_runpack b))) (seq 0 ncomp)))
    else Some dst.

  (** What a collective call does on each rank: [f] with the rank and its object. *)
  Definition on_ranks {A} (w : list bmi) (f : nat -> bmi -> option A) : option (list A) :=
    mapM (fun r => b <- rd w r ;; f r b) (seq 0 (length w)).

  (** L467-524 [exchange_from_device].  [aware] is device_aware_mpi_enabled; the pooled
      buffers [outs] and [ins] have arbitrary contents.  [ds] are the devices of the
      ranks. *)
  Definition exchange_from_device (aware : bool) (ds : nat -> device) (w : list bmi) (ncomp : nat)
      (srcs dsts outs ins : list (list T)) : option (list (list T)) :=
    packed_out <- on_ranks w (fun r b => src <- rd srcs r ;; out <- rd outs r ;; exchange_pack (ds r) 0 b ncomp src out) ;;
    m_out <- on_ranks w (fun r b => p <- rd packed_out r ;;
        if aware then Some p else slice p 0 (list_sum (m_outc b) * ncomp)) ;;
    m_in <- on_ranks w (fun r b => p <- rd ins r ;;
        if aware then Some p else Some (repeat zero (list_sum (m_inc b) * ncomp))) ;;
    m_in' <- exchange_surface w ncomp m_out m_in ;;
    packed_in <- on_ranks w (fun r b => p <- rd ins r ;; h <- rd m_in' r ;; if aware then Some h else blit p 0 h) ;;
    on_ranks w (fun r b => p <- rd packed_in r ;; dst <- rd dsts r ;; exchange_unpack (ds r) 1 b ncomp p dst).

  (** L536-599 [reverse_exchange_from_device].  The kernel that unpacks reads
      m_recvd_packed (L592), which without device aware MPI is memory of the host:
      [host_readable] tells whether kernels can read it. *)
  Definition reverse_exchange_from_device (aware host_readable : bool) (ds : nat -> device) (w : list bmi) (ncomp : nat)
      (srcs dsts outs ins : list (list T)) : option (list (list T)) :=
    packed <- on_ranks w (fun r b => src <- rd srcs r ;; out <- rd outs r ;; reverse_pack (ds r) 0 b ncomp src out) ;;
    m_out <- on_ranks w (fun r b => p <- rd packed r ;;
        if aware then Some p else slice p 0 (length (m_rpack b) * ncomp)) ;;
    m_in <- on_ranks w (fun r b => p <- rd ins r ;;
        if aware then Some p else Some (repeat zero (length (m_runpack b) * ncomp))) ;;
    m_in' <- reverse_exchange_surface w ncomp m_out m_in ;;
    on_ranks w (fun r b => p <- rd m_in' r ;; dst <- rd dsts r ;;
        _ <- assert (aware || host_readable || (length (m_lin b) * ncomp =? 0)) ;;
        reverse_unpack (ds r) 1 b ncomp p dst).
End Exchange.
