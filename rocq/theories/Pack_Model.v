(** Model of src/departing_particle_identification.cpp, src/packing_unpacking.cpp
    and the index tables of src/particle_group_pointer_map.cpp: finding the
    particles that leave a rank, packing them into byte buffers and unpacking
    received byte buffers. *)
From Coq Require Import List Arith ZArith Bool.
Import ListNotations.
From Verif Require Import Base Group_Model Add_Model.

(** ** Bytes *)
(** How values are laid out in memory: sizeof(REAL), sizeof(INT), the bytes of a
    value, and the value read back from bytes.  The model is for any layout
    (see [encoding_ok] in Pack_Spec.v). *)
Record encoding (R byte : Type) := mk_encoding {
  size_real : nat;
  size_int : nat;
  enc_real : R -> list byte;
  dec_real : list byte -> option R;
  enc_int : Z -> list byte;
  dec_int : list byte -> option Z
}.
Arguments size_real {R byte}. Arguments size_int {R byte}. Arguments enc_real {R byte}.
Arguments dec_real {R byte}. Arguments enc_int {R byte}. Arguments dec_int {R byte}.

(** Storing the bytes [bs] at address [a] of an allocation, and loading [n]
    bytes ([slice]); outside the allocation both fail. *)
Definition store_bytes {B} (m : list B) (a : nat) (bs : list B) : option (list B) :=
  if a + length bs <=? length m then Some (firstn a m ++ bs ++ skipn (a + length bs) m) else None.

(** ** Tables of src/particle_group_pointer_map.cpp *)
(** L54-66 and L92-104: property index and component index of each flattened
    component. *)
Definition flattened_dat_index (sp : pspec) : list nat :=
  flat_map (fun i => repeat i (nth i (map snd sp) 0)) (seq 0 (length sp)).
Definition flattened_comp_index (sp : pspec) : list nat :=
  flat_map (fun i => seq 0 (nth i (map snd sp) 0)) (seq 0 (length sp)).
(** L32-52, L70-90: d_ncomp_exscan, ncomp_total. *)
Definition ncomp_total (sp : pspec) : nat := list_sum (map snd sp).
Definition ncomp_exscan (sp : pspec) : list nat := map (comp_offset sp) (seq 0 (length sp)).

(** L48-49 and L86-87: num_real_bytes_per_particle and num_bytes_per_particle. *)
Definition real_bytes {R B} (E : encoding R B) (spR : pspec) : nat :=
  list_sum (map (fun e => snd e * size_real E) spR).
Definition bytes_per_particle {R B} (E : encoding R B) (spR spZ : pspec) : nat :=
  real_bytes E spR + list_sum (map (fun e => snd e * size_int E) spZ).

Section Depart.
  Context (d : device).

  (** ** DepartingIdentify::identify *)
  Record departing := mk_departing {
    dp_send_ranks : list nat;   (* dh_send_ranks *)
    dp_counts : list nat;       (* dh_send_counts_all_ranks *)
    dp_rank_map : list nat;     (* dh_send_rank_map *)
    dp_num_ranks : nat;         (* dh_num_ranks_send *)
    dp_num : nat;               (* dh_num_particle_send *)
    dp_cells : list nat;        (* d_pack_cells *)
    dp_layers_src : list nat;   (* d_pack_layers_src *)
    dp_layers_dst : list nat    (* d_pack_layers_dst *)
  }.

  (** departing_particle_identification.cpp L71-72: the particle is sent to
      another rank. *)
  Definition leaves (comm_size comm_rank : nat) (owning_rank : Z) : bool :=
    ((0 <=? owning_rank) && (owning_rank <? Z.of_nat comm_size)
     && negb (owning_rank =? Z.of_nat comm_rank))%Z.

  (** A work item performs three atomic fetch-and-adds on three different
      counters.  The orders in which the items reach each counter are
      independent of each other, so the item is split at the atomics and each
      part gets its own schedule.  [regs] holds the item's private variable
      [pack_layer] between the parts, indexed by the particle's linear index. *)

  (** L73-79: [pack_layer = send_counts[owning_rank]++].  State: (counts, regs). *)
  Definition depart_count_item (size rank : nat) (np : list nat) (ranks : list (list Z))
      (s : list nat * list nat) (w : nat * nat) : option (list nat * list nat) :=
    let '(c, l) := w in
    owning_rank <- rd2 ranks c l ;;
    if leaves size rank owning_rank then
      let o := Z.to_nat owning_rank in
      pack_layer <- rd (fst s) o ;;
      counts' <- upd (fst s) o (pack_layer + 1) ;;
      regs' <- upd (snd s) (loop_linear_index np c l) pack_layer ;;
      Some (counts', regs')
    else Some s.

  (** L81-91: [send_index = num_particle_send++] and the record of the particle.
      State: (num, cells, layers_src, layers_dst). *)
  Definition depart_record_item (size rank : nat) (np : list nat) (ranks : list (list Z))
      (regs : list nat) (s : nat * list nat * list nat * list nat) (w : nat * nat)
    : option (nat * list nat * list nat * list nat) :=
    let '(num, cells, lsrc, ldst) := s in
    let '(c, l) := w in
    owning_rank <- rd2 ranks c l ;;
    if leaves size rank owning_rank then
      pack_layer <- rd regs (loop_linear_index np c l) ;;
      cells' <- upd cells num c ;;
      lsrc' <- upd lsrc num l ;;
      ldst' <- upd ldst num pack_layer ;;
      Some (num + 1, cells', lsrc', ldst')
    else Some s.

  (** L93-103: the first particle of a rank registers the rank (only for
      component 0).  State: (num_ranks, send_ranks, rank_map). *)
  Definition depart_rank_item (rc size rank : nat) (np : list nat) (ranks : list (list Z))
      (regs : list nat) (s : nat * list nat * list nat) (w : nat * nat)
    : option (nat * list nat * list nat) :=
    let '(num_ranks, send_ranks, rank_map) := s in
    let '(c, l) := w in
    owning_rank <- rd2 ranks c l ;;
    if leaves size rank owning_rank then
      pack_layer <- rd regs (loop_linear_index np c l) ;;
      if (pack_layer =? 0) && (rc =? 0) then
        send_ranks' <- upd send_ranks num_ranks (Z.to_nat owning_rank) ;;
        rank_map' <- upd rank_map (Z.to_nat owning_rank) num_ranks ;;
        Some (num_ranks + 1, send_ranks', rank_map')
      else Some s
    else Some s.

  (** departing_particle_identification.cpp L18-139.  [rc] is rank_component,
      [ranks] component [rc] of the NESO_MPI_RANK property, [cell][layer].
      [dh_send_rank_map] is not reset between calls: arbitrary content. *)
  Definition identify (rc size rank : nat) (np : list nat) (ranks : list (list Z)) : option departing :=
    let npart_local := list_sum np in
    (* L40 *)
    _ <- assert (0 <? size) ;;
    (* L42-54 *)
    let send_ranks0 := repeat 0 size in
    let counts0 := repeat 0 size in
    (* L63-107 *)
    r1 <- foldM (depart_count_item size rank np ranks) (counts0, fresh d 200 npart_local)
            (ord d 200 (all_particles np)) ;;
    let '(counts, regs) := r1 in
    r2 <- foldM (depart_record_item size rank np ranks regs)
            (0, fresh d 201 npart_local, fresh d 202 npart_local, fresh d 203 npart_local)
            (ord d 201 (all_particles np)) ;;
    let '(num, cells, lsrc, ldst) := r2 in
    r3 <- foldM (depart_rank_item rc size rank np ranks regs) (0, send_ranks0, fresh d 204 size)
            (ord d 202 (all_particles np)) ;;
    let '(num_ranks, send_ranks, rank_map) := r3 in
    Some (mk_departing send_ranks counts rank_map num_ranks num cells lsrc ldst).
End Depart.

Section Pack.
  Context (d : device) {R byte : Type} (E : encoding R byte) (spR spZ : pspec).

  (** A value used as an array index: negative fails. *)
  Definition index_of (z : Z) : option nat := if (0 <=? z)%Z then Some (Z.to_nat z) else None.

  (** packing_unpacking.cpp L103-122 (REAL) and L130-152 (INT): one work item,
      (particle, flattened component).  The two kernels are in flight at the
      same time, so their items are scheduled together: [inl] are the items of
      the REAL kernel, [inr] those of the INT kernel.  [ranks] is component
      rank_component of NESO_MPI_RANK, [buf] the packing CellDat, one column of
      bytes per destination. *)
  Definition pack_item (rank_map cells lsrc ldst : list nat) (ranks : list (list Z)) (s : store R)
      (buf : list (list byte)) (w : nat * nat + nat * nat) : option (list (list byte)) :=
    let '(particle, fx) := match w with inl i => i | inr i => i end in
    let sp := match w with inl _ => spR | inr _ => spZ end in
    dat <- rd (flattened_dat_index sp) fx ;;
    comp <- rd (flattened_comp_index sp) fx ;;
    es <- rd (ncomp_exscan sp) dat ;;
    let index := es + comp in
    cell <- rd cells particle ;;
    layer_src <- rd lsrc particle ;;
    layer_dst <- rd ldst particle ;;
    owning_rank <- rd2 ranks cell layer_src ;;
    rank <- index_of owning_rank ;;
    rank_packing_cell <- rd rank_map rank ;;
    col <- rd buf rank_packing_cell ;;
    let base := layer_dst * bytes_per_particle E spR spZ in
    col' <- match w with
            | inl _ =>
                v <- rd3 (reals s) (comp_offset sp dat + comp) cell layer_src ;;
                store_bytes col (base + index * size_real E) (enc_real E v)
            | inr _ =>
                v <- rd3 (ints s) (comp_offset sp dat + comp) cell layer_src ;;
                store_bytes col (base + real_bytes E spR + index * size_int E) (enc_int E v)
            end ;;
    upd buf rank_packing_cell col'.

  (** packing_unpacking.cpp L61-66: size the column of destination [rankx]. *)
  Definition pack_resize_item (u : nat -> nat -> byte) (npart : list nat) (buf : list (list byte)) (rankx : nat)
    : option (list (list byte)) :=
    n <- rd npart rankx ;;
    col <- rd buf rankx ;;
    upd buf rankx (resize (u rankx) (n * bytes_per_particle E spR spZ) col).

  (** packing_unpacking.cpp L43-153 [ParticlePacker::pack].  [npart] is
      h_send_rank_npart, [buf0] the packing CellDat as the last use left it,
      [u] the content of newly allocated bytes. *)
  Definition pack (u : nat -> nat -> byte) (num_remote_send_ranks : nat) (npart rank_map : list nat)
      (num_leaving : nat) (cells lsrc ldst : list nat) (ranks : list (list Z)) (s : store R)
      (buf0 : list (list byte)) : option (list (list byte)) :=
    buf1 <- foldM (pack_resize_item u npart) buf0 (seq 0 num_remote_send_ranks) ;;
    if num_leaving <=? 0 then Some buf1 else
    foldM (pack_item rank_map cells lsrc ldst ranks s) buf1
      (ord d 210 (map inl (list_prod (seq 0 num_leaving) (seq 0 (ncomp_total spR)))
                  ++ map inr (list_prod (seq 0 num_leaving) (seq 0 (ncomp_total spZ))))).

  (** packing_unpacking.cpp L5-41 [get_packed_pointers] and the byte ranges that
      are sent from the pointers (global_move_exchange.hpp L244-251, local_move.hpp
      L262-271): message [rankx].  [aware]: device aware MPI, which sends from the
      packing CellDat; otherwise the columns are first copied one after the
      other into a host buffer, whose initial content is [h]. *)
  Definition packed_messages (aware : bool) (h : nat -> byte) (num_remote_send_ranks comm_size : nat)
      (npart : list nat) (buf : list (list byte)) : option (list (list byte)) :=
    let nb := bytes_per_particle E spR spZ in
    (* L8-10 *)
    _ <- assert (comm_size <=? length buf) ;;
    if aware then
      mapM (fun rankx => n <- rd npart rankx ;; col <- rd buf rankx ;; slice col 0 (n * nb))
        (seq 0 num_remote_send_ranks)
    else
      (* L61-66 required_send_buffer_length *)
      ns <- mapM (rd npart) (seq 0 num_remote_send_ranks) ;;
      let host0 := map h (seq 0 (list_sum (map (fun n => n * nb) ns))) in
      (* L20-31; state: (host buffer, offset, pointers) *)
      r <- foldM (fun s rankx =>
             let '(host, offset, ptrs) := s in
             n <- rd npart rankx ;;
             let nbytes := n * nb in
             host' <- (if 0 <? nbytes then
                         col <- rd buf rankx ;;
                         bs <- slice col 0 nbytes ;;
                         store_bytes host offset bs
                       else Some host) ;;
             Some (host', offset + nbytes, ptrs ++ [offset]))
             (host0, 0, []) (seq 0 num_remote_send_ranks) ;;
      let '(host, _, ptrs) := r in
      mapM (fun rankx => n <- rd npart rankx ;; p <- rd ptrs rankx ;; slice host p (p + n * nb))
        (seq 0 num_remote_send_ranks).

  (** packing_unpacking.cpp L175-204 [ParticleUnpacker::reset]: the offsets of the
      messages in the receive buffer and the number of particles received. *)
  Definition unpack_reset (npart : list nat) (num_remote_recv_ranks : nat) : option (list nat * nat) :=
    foldM (fun s rankx =>
      n <- rd npart rankx ;;
      Some (fst s ++ [snd s * bytes_per_particle E spR spZ], snd s + n))
      ([], 0) (seq 0 num_remote_recv_ranks).

  (** Completed receives: message [rankx] is stored at its pointer
      ([get_recv_pointers] L155-173).  Both with and without device aware MPI the
      bytes end up in the device buffer (L211-217). *)
  Definition receive_messages (h : nat -> byte) (offsets : list nat) (npart_recv : nat)
      (msgs : list (list byte)) : option (list byte) :=
    foldM (fun b rankx => o <- rd offsets rankx ;; m <- rd msgs rankx ;; store_bytes b o m)
      (map h (seq 0 (npart_recv * bytes_per_particle E spR spZ))) (seq 0 (length msgs)).

  (** packing_unpacking.cpp L282-297 and L300-315: one work item, (particle,
      flattened component), for one value type: [dec] reads a value, [size] is
      its size, [base] the offset of the values of this type in a particle. *)
  Definition unpack_item {V} (sp : pspec) (dec : list byte -> option V) (size base old : nat) (recv : list byte)
      (D : list (list (list V))) (w : nat * nat) : option (list (list (list V))) :=
    let '(particle, fx) := w in
    dat <- rd (flattened_dat_index sp) fx ;;
    comp <- rd (flattened_comp_index sp) fx ;;
    es <- rd (ncomp_exscan sp) dat ;;
    let index := es + comp in
    let layer := old + particle in
    let offset := bytes_per_particle E spR spZ * particle in
    let a := offset + base + index * size in
    bs <- slice recv a (a + size) ;;
    v <- dec bs ;;
    upd3 D (comp_offset sp dat + comp) 0 layer v.

  (** particle_dat.hpp L683-712 [realloc(cell, npart)]: set the number of rows of
      one cell. *)
  Definition realloc_cell {V} (u : nat -> nat -> nat -> V) (c n : nat) (D : list (list (list V)))
    : list (list (list V)) :=
    mapi (fun f comp => mapi (fun c' col => if c' =? c then resize (u f c) n col else col) comp) D.

  (** packing_unpacking.cpp L206-318 [ParticleUnpacker::unpack]: particles are
      appended to cell 0. *)
  Definition unpack (uR : nat -> nat -> nat -> R) (uZ : nat -> nat -> nat -> Z) (npart_recv : nat)
      (recv : list byte) (g : group R) : option (group R) :=
    old <- rd (npart_cell g) 0 ;;
    let new := old + npart_recv in
    np' <- upd (npart_cell g) 0 new ;;
    let reals0 := realloc_cell uR 0 new (reals (st g)) in
    let ints0 := realloc_cell uZ 0 new (ints (st g)) in
    if npart_recv <=? 0 then Some (mk_group (mk_store reals0 ints0) np') else
    reals1 <- foldM (unpack_item spR (dec_real E) (size_real E) 0 old recv) reals0
                (ord d 220 (list_prod (seq 0 npart_recv) (seq 0 (ncomp_total spR)))) ;;
    ints1 <- foldM (unpack_item spZ (dec_int E) (size_int E) (real_bytes E spR) old recv) ints0
               (ord d 221 (list_prod (seq 0 npart_recv) (seq 0 (ncomp_total spZ)))) ;;
    Some (mk_group (mk_store reals1 ints1) np').
End Pack.
