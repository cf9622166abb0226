(** Points at which an external library samples functions, held as particles by the ranks that own their positions:
    QuadraturePointMapper.  include/neso_particles/external_interfaces/common/quadrature_point_mapper.hpp;
    src/external_interfaces/common/quadrature_point_mapper.cpp.  Integers do not overflow here. *)
From Coq Require Import List Arith ZArith Bool.
Import ListNotations.
From Verif Require Import Base MHC_Model.
Local Open Scope nat_scope.

Section Quad.
  (** Positions and values (REAL). *)
  Context {P T : Type} (zero : T).

  (** A point as a particle, L41-45: its position; the first three components of ADDING_RANK_INDEX (the fourth, a numbering of the points of a cell
      computed in L254-270, is left out); the values of contrib_n for every n, which [get_sym] (L275-283) creates with zeros. *)
  Record qpart := mk_qpart { q_coords : P; q_rank : nat; q_index : nat; q_slot : nat; q_contrib : nat -> list T }.
  Definition with_slot (p : qpart) (w : nat) : qpart := mk_qpart (q_coords p) (q_rank p) (q_index p) w (q_contrib p).
  Definition with_contrib (p : qpart) (ncomp : nat) (v : list T) : qpart :=
    mk_qpart (q_coords p) (q_rank p) (q_index p) (q_slot p) (fun n => if n =? ncomp then v else q_contrib p n).

  (** L31-39 [add_point] for each of [pts], and L49-64: the points leave the stack in reverse order. *)
  Definition added (rank : nat) (pts : list P) : list qpart :=
    rev (map (fun ip => mk_qpart (snd ip) rank (fst ip) 0 (fun n => repeat zero n)) (combine (seq 0 (length pts)) pts)).

  (** The members on a rank, hpp L30-66.  adding_ranks with adding_indices_count, and owning_ranks with owning_indices_count, are lists of pairs. *)
  Record qpm := mk_qpm {
    parts : list qpart; npoint_local : nat; npoint_remote : nat; adding : list (nat * nat); owning : list (nat * nat);
    owning_point_indices : list nat; local_contribs : option (list T); remote_contribs : option (list T); recv_buffer : list T }.

  (** What a rank finds: its device, and what memory that is not initialised holds. *)
  Record qenv := mk_qenv { e_dev : device; e_points : nat -> nat * nat; e_ints : nat -> nat; e_reals : nat -> T }.

  (** L89-108: the kernel that lists the points added by other ranks.  RemotePoint holds also the cell, the layer and the write
      index, which are never used: they and TMP_INDEX are left out. *)
  Definition list_point (k_rank : nat) (ps : list qpart) (s : nat * list (nat * nat)) (i : nat) : option (nat * list (nat * nat)) :=
    p <- rd ps i ;;
    if negb (q_rank p =? k_rank) then remote <- upd (snd s) (fst s) (q_rank p, q_index p) ;; Some (fst s + 1, remote) else Some s.
  (** L161-179: the kernel that gives each point its place in the buffers. *)
  Definition place_point (k_rank : nat) (s : list nat * list qpart) (i : nat) : option (list nat * list qpart) :=
    p <- rd (snd s) i ;;
    if negb (q_rank p =? k_rank) then
      write_index <- rd (fst s) (q_rank p) ;;
      starts <- upd (fst s) (q_rank p) (write_index + 1) ;;
      ps <- upd (snd s) i (with_slot p write_index) ;; Some (starts, ps)
    else ps <- upd (snd s) i (with_slot p (q_index p)) ;; Some (fst s, ps).
  (** L214-226 *)
  Definition write_index_of (k_rank : nat) (ps : list qpart) (buf : list nat) (i : nat) : option (list nat) :=
    p <- rd ps i ;;
    if negb (q_rank p =? k_rank) then upd buf (q_slot p) (q_index p) else Some buf.

  (** std::exclusive_scan (L144), and the offsets of hpp L92-105. *)
  Fixpoint offsets (offset : nat) (counts : list nat) : list nat :=
    match counts with [] => [] | c :: l => offset :: offsets (offset + c) l end.

  (** L68-229 on one rank, up to the exchange: the particles, num_remote_points, the ranks and counts, adding_point_indices.  The std::map of L126
      lists its keys in increasing order; a key that is no rank would fail in L157. *)
  Definition finalise_rank (e : qenv) (size rank : nat) (ps : list qpart) : option (list qpart * nat * list (nat * nat) * list nat) :=
    let all := seq 0 (length ps) in
    c <- foldM (list_point rank ps) (0, map (e_points e) all) (ord (e_dev e) 0 all) ;;
    remote_points <- slice (snd c) 0 (fst c) ;;
    _ <- assert (forallb (fun rp => fst rp <? size) remote_points) ;;
    let adding := flat_map (fun r => match filter (fun rp => fst rp =? r) remote_points with [] => [] | l => [(r, length l)] end) (seq 0 size) in
    let starts := combine adding (offsets 0 (map snd adding)) in
    rank_starts <- foldM (fun m x => upd m (fst (fst x)) (snd x)) (repeat 0 size) starts ;;
    x <- foldM (place_point rank) (rank_starts, ps) (ord (e_dev e) 1 all) ;;
    _ <- mapM (fun y => w <- rd (fst x) (fst (fst y)) ;; assert (snd y + snd (fst y) =? w)) starts ;;
    buf <- foldM (write_index_of rank (snd x)) (map (e_ints e) (seq 0 (fst c))) (ord (e_dev e) 2 all) ;;
    Some (snd x, fst c, adding, buf).

  (** hpp L68-109 [compute_num_bytes], [compute_offsets] for what a rank sends ... *)
  Definition pack_sends {M} (ncomp : nat) (adding : list (nat * nat)) (data : list M) : option (list (nat * list M)) :=
    let counts := map (fun x => snd x * ncomp) adding in
    _ <- assert (list_sum counts <=? length data) ;;
    mapM (fun x => m <- slice data (snd x) (snd x + snd (fst x) * ncomp) ;; Some (fst (fst x), m)) (combine adding (offsets 0 counts)).
  (** ... and for what it receives, with [exchange_send_recv_data] (communication_edges_counter.cpp L74-98; [receive_all] as in MHC_Model) on all
      ranks: the messages go to consecutive places of the buffer.  A message of another size is a failure. *)
  Definition exchange {M} (ncomp : nat) (sends : list (list (nat * list M))) (owning : list (list (nat * nat))) (bufs : list (list M)) : option (list (list M)) :=
    mapM (fun r =>
      o <- rd owning r ;; buf <- rd bufs r ;;
      _ <- assert (list_sum (map (fun x => snd x * ncomp) o) <=? length buf) ;;
      ms <- receive_all sends r (map fst o) ;;
      _ <- assert (forallb (fun x => length (snd x) =? snd (fst x) * ncomp) (combine o ms)) ;;
      Some (concat ms ++ skipn (length (concat ms)) buf)) (seq 0 (length owning)).

  (** L41-272 [add_points_finalise] on all ranks.  [pts]: the points added on each rank.  [moved]: the particles of each rank after hybrid_move and cell_move
      (L66-67) of the particles [added]; [find]: get_remote_ranks (L208). *)
  Definition finalise (env : nat -> qenv) (find : remote) (pts : list (list P)) (moved : list (list qpart)) : option (list qpm) :=
    let size := length pts in
    x <- mapM (fun r => ps <- rd moved r ;; finalise_rank (env r) size r ps) (seq 0 size) ;;
    let found := find (map (fun '(_, _, adding, _) => map (fun y => (fst y, Z.of_nat (snd y))) adding) x) in
    owning <- mapM (mapM (fun y => _ <- assert (0 <=? snd y)%Z ;; Some (fst y, Z.to_nat (snd y)))) found ;;
    sends <- mapM (fun '(_, _, adding, buf) => _ <- assert (list_sum (map snd adding) =? length buf) ;; pack_sends 1 adding buf) x ;;
    indices <- exchange 1 sends owning (map (fun o => repeat 0 (list_sum (map snd o))) owning) ;;
    mapM (fun r => y <- rd x r ;; o <- rd owning r ;; ixs <- rd indices r ;; pt <- rd pts r ;;
            let '(ps, nremote, adding, _) := y in
            Some (mk_qpm ps (length pt) nremote adding o ixs None None [])) (seq 0 size).

  (** L6-21 [make_contribs_buffers] for one of the buffers. *)
  Definition make_contribs (junk : nat -> T) (buf : option (list T)) (n : nat) : list T :=
    let n := Nat.max n 1 in
    match buf with
    | None => map junk (seq 0 n)
    | Some b => if length b <? n then map junk (seq 0 n) else b
    end.
  (** [for (cx = 0; cx < ncomp; cx++) buf[start + cx] = v[cx]] *)
  Definition put (ncomp start : nat) (v : list T) (buf : list T) : option (list T) :=
    foldM (fun b cx => x <- rd v cx ;; upd b (start + cx) x) buf (seq 0 ncomp).
  (** L297-313: the kernel of [get]; the state is k_local and k_remote. *)
  Definition get_item (k_rank ncomp : nat) (ps : list qpart) (s : list T * list T) (i : nat) : option (list T * list T) :=
    p <- rd ps i ;;
    if q_rank p =? k_rank then l <- put ncomp (q_slot p * ncomp) (q_contrib p ncomp) (fst s) ;; Some (l, snd s)
    else r <- put ncomp (q_slot p * ncomp) (q_contrib p ncomp) (snd s) ;; Some (fst s, r).
  (** std::vector::resize *)
  Definition resize (b : list T) (n : nat) : list T := firstn n b ++ repeat zero (n - length b).
  (** L285-330 on one rank: the mapper, the output, the send buffer and the receive buffer.  The receive buffer has as many entries as points. *)
  Definition get_rank (e : qenv) (rank ncomp : nat) (m : qpm) : option (qpm * list T * list T * list T) :=
    let l0 := make_contribs (e_reals e) (local_contribs m) (npoint_local m * ncomp) in
    let r0 := make_contribs (e_reals e) (remote_contribs m) (npoint_remote m * ncomp) in
    lr <- foldM (get_item rank ncomp (parts m)) (l0, r0) (ord (e_dev e) 3 (seq 0 (length (parts m)))) ;;
    output <- slice (fst lr) 0 (npoint_local m * ncomp) ;;
    send <- slice (snd lr) 0 (npoint_remote m * ncomp) ;;
    let recv := resize (recv_buffer m) (list_sum (map snd (owning m))) in
    Some (mk_qpm (parts m) (npoint_local m) (npoint_remote m) (adding m) (owning m) (owning_point_indices m) (Some (fst lr)) (Some (snd lr)) recv, output, send, recv).
  (** L339-346 *)
  Definition fill_output (ncomp : nat) (ixs : list nat) (recv output : list T) : option (list T) :=
    foldM (fun out ix => dst_index <- rd ixs ix ;; v <- slice recv (ix * ncomp) (ix * ncomp + ncomp) ;; put ncomp (dst_index * ncomp) v out) output (seq 0 (length ixs)).
  (** L285-347 [get] on all ranks. *)
  Definition get (env : nat -> qenv) (ncomp : nat) (w : list qpm) : option (list qpm * list (list T)) :=
    _ <- assert ((0 <? ncomp) && (ncomp <? 1000)) ;;
    x <- mapM (fun r => m <- rd w r ;; get_rank (env r) r ncomp m) (seq 0 (length w)) ;;
    sends <- mapM (fun '(m, _, send, _) => pack_sends ncomp (adding m) send) x ;;
    bufs <- exchange ncomp sends (map (fun '(m, _, _, _) => owning m) x) (map (fun '(_, _, _, recv) => recv) x) ;;
    y <- mapM (fun r => a <- rd x r ;; recv <- rd bufs r ;;
           let '(m, output, _, _) := a in
           out <- fill_output ncomp (owning_point_indices m) recv output ;;
           Some (mk_qpm (parts m) (npoint_local m) (npoint_remote m) (adding m) (owning m) (owning_point_indices m) (local_contribs m) (remote_contribs m) recv, out))
         (seq 0 (length w)) ;;
    Some (map fst y, map snd y).

  (** L349-379 [set] on one rank.  Every work item of the loop writes its own particle and reads a buffer nobody writes: the order does not matter. *)
  Definition set_rank (e : qenv) (rank ncomp : nat) (input : list T) (m : qpm) : option qpm :=
    _ <- assert (npoint_local m * ncomp <=? length input) ;;
    let l0 := make_contribs (e_reals e) (local_contribs m) (npoint_local m * ncomp) in
    let r0 := make_contribs (e_reals e) (remote_contribs m) 0 in
    k_local <- foldM (fun b i => v <- rd input i ;; upd b i v) l0 (seq 0 (npoint_local m * ncomp)) ;;
    ps <- mapM (fun p => if q_rank p =? rank then v <- slice k_local (q_slot p * ncomp) (q_slot p * ncomp + ncomp) ;; Some (with_contrib p ncomp v)
                         else Some p) (parts m) ;;
    Some (mk_qpm ps (npoint_local m) (npoint_remote m) (adding m) (owning m) (owning_point_indices m) (Some k_local) (Some r0) (recv_buffer m)).
  Definition set (env : nat -> qenv) (ncomp : nat) (inputs : list (list T)) (w : list qpm) : option (list qpm) :=
    _ <- assert ((0 <? ncomp) && (ncomp <? 1000)) ;;
    mapM (fun r => m <- rd w r ;; input <- rd inputs r ;; set_rank (env r) r ncomp input m) (seq 0 (length w)).

  (** A particle loop over the points that writes all components of contrib_ncomp from the position and the identity of the point: hpp L232-303
      [interpolate] with one function per component, or a kernel of the user. *)
  Definition write (ncomp : nat) (f : P -> nat -> nat -> list T) (w : list qpm) : list qpm :=
    map (fun m => mk_qpm (map (fun p => with_contrib p ncomp (f (q_coords p) (q_rank p) (q_index p))) (parts m)) (npoint_local m) (npoint_remote m)
                    (adding m) (owning m) (owning_point_indices m) (local_contribs m) (remote_contribs m) (recv_buffer m)) w.

  (** The collective calls after the points have been added. *)
  Inductive call := Write (ncomp : nat) (f : P -> nat -> nat -> list T) | Set_ (env : nat -> qenv) (ncomp : nat) (inputs : list (list T)) | Get (env : nat -> qenv) (ncomp : nat).
  Definition step (s : list qpm * list (list (list T))) (c : call) : option (list qpm * list (list (list T))) :=
    match c with
    | Write n f => Some (write n f (fst s), snd s)
    | Set_ env n inputs => w <- set env n inputs (fst s) ;; Some (w, snd s)
    | Get env n => wo <- get env n (fst s) ;; Some (fst wo, snd s ++ [snd wo])
    end.
  (** What the calls of get return. *)
  Definition calls (w : list qpm) (cs : list call) : option (list (list (list T))) := s <- foldM step (w, []) cs ;; Some (snd s).
End Quad.
Arguments qpart : clear implicits. Arguments qpm : clear implicits. Arguments qenv : clear implicits. Arguments call : clear implicits.
