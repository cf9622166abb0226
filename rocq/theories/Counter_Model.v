(** Model of the tables in which a ParticleGroup and its ParticleDats keep the
    number of particles of each cell: include/neso_particles/particle_group.hpp,
    particle_group_impl.hpp, particle_group_pointer_map.hpp, particle_dat.hpp,
    cell_dat_compression.hpp, src/particle_group.cpp, src/cell_dat_move.cpp and
    src/packing_unpacking.cpp.  Only the counts are modelled here, not the
    particle data: an operation carries the cells (and layers) of the particles
    it adds, removes or moves.  The data are in Add_Model, Compress_Model,
    Move_Model and Exchange_Model. *)
From Coq Require Import List Arith ZArith Bool.
Import ListNotations.
From Verif Require Import Base Add_Model.

(** The tables.  A ParticleDat is known by an address; the tables of the dats
    are three memories indexed by it: h_npart_cell and d_npart_cell
    (particle_dat.hpp L255-257) and the number of rows of each cell of the
    CellDat (containers/cell_dat.hpp L142-155).  Addresses are not reused, and the tables of a
    destroyed dat are empty, so that any later access to them is out of bounds.
    [map] is the cache of the ParticleGroupPointerMap: [None] when invalid, the
    addresses of the cached tables otherwise. *)
Record tables := mk_tables {
  ncell : nat;
  h_npart : list nat; d_npart : list nat;       (* particle_group.hpp L144-146 *)
  h_es : list nat; d_es : list nat;             (* L315 dh_npart_cell_es *)
  npart_local : nat;
  dat_h : list (list nat); dat_d : list (list nat); dat_rows : list (list nat);
  dats : list (nat * nat);                      (* particle_dats_real/int: name -> address *)
  ptr_map : option (list nat)
}.

Section Counter.
  (** [hint] is NESO_PARTICLES_NPART_CELL_HINT (particle_group.hpp L444-452);
      [s_rank], [s_pos], [s_cell] name the MPI rank, position and cell id
      properties. *)
  Context (d : device) (hint s_rank s_pos s_cell : nat).

  Definition dat_of (t : tables) (sym : nat) : option nat :=
    option_map snd (find (fun e => sym =? fst e) (dats t)).

  (** A host loop or memcpy that copies the first [n] elements. *)
  Definition copy_table (n : nat) (src dst : list nat) : option (list nat) :=
    foldM (fun t c => v <- rd src c ;; upd t c v) dst (seq 0 n).

  Definition set_group (t : tables) (h dv : list nat) : tables :=
    mk_tables (ncell t) h dv (h_es t) (d_es t) (npart_local t) (dat_h t) (dat_d t) (dat_rows t) (dats t) (ptr_map t).
  Definition set_es (t : tables) (h dv : list nat) (n : nat) : tables :=
    mk_tables (ncell t) (h_npart t) (d_npart t) h dv n (dat_h t) (dat_d t) (dat_rows t) (dats t) (ptr_map t).
  Definition set_dat_counts (t : tables) (h dv : list (list nat)) : tables :=
    mk_tables (ncell t) (h_npart t) (d_npart t) (h_es t) (d_es t) (npart_local t) h dv (dat_rows t) (dats t) (ptr_map t).
  Definition set_dat_rows (t : tables) (r : list (list nat)) : tables :=
    mk_tables (ncell t) (h_npart t) (d_npart t) (h_es t) (d_es t) (npart_local t) (dat_h t) (dat_d t) r (dats t) (ptr_map t).
  Definition set_dats (t : tables) (l : list (nat * nat)) : tables :=
    mk_tables (ncell t) (h_npart t) (d_npart t) (h_es t) (d_es t) (npart_local t) (dat_h t) (dat_d t) (dat_rows t) l (ptr_map t).
  Definition set_map (t : tables) (m : option (list nat)) : tables :=
    mk_tables (ncell t) (h_npart t) (d_npart t) (h_es t) (d_es t) (npart_local t) (dat_h t) (dat_d t) (dat_rows t) (dats t) m.

  (** particle_group.hpp L359-369 [recompute_npart_cell_es]. *)
  Definition recompute_npart_cell_es (t : tables) : option tables :=
    r <- foldM (fun s c => h <- upd (fst s) c (snd s) ;; n <- rd (h_npart t) c ;; Some (h, snd s + n))
           (h_es t, 0) (seq 0 (ncell t)) ;;
    dv <- copy_table (ncell t) (fst r) (d_es t) ;;
    Some (set_es t (fst r) dv (snd r)).

  (** buffer_memcpy(d_npart_cell, h_npart_cell), device_buffers.hpp L586. *)
  Definition group_host_to_device (t : tables) : option tables :=
    dv <- copy_table (ncell t) (h_npart t) (d_npart t) ;; Some (set_group t (h_npart t) dv).

  (** particle_group.hpp L807-814 [set_npart_cell_from_dat] (the version counter
      is in Version_Model). *)
  Definition set_npart_cell_from_dat (t : tables) : option tables :=
    a <- dat_of t s_pos ;;
    src <- rd (dat_h t) a ;;
    h <- copy_table (ncell t) src (h_npart t) ;;
    t1 <- group_host_to_device (set_group t h (d_npart t)) ;;
    recompute_npart_cell_es t1.

  (** ParticleDat::realloc(cell, n), particle_dat.hpp L727: the CellDat gets [n]
      rows (containers/cell_dat.hpp L160-202). *)
  Definition realloc_cell (t : tables) (a c n : nat) : option tables :=
    r <- upd2 (dat_rows t) a c n ;; Some (set_dat_rows t r).
  (** particle_dat.hpp L683-712: all cells. *)
  Definition realloc_cells (t : tables) (a : nat) (np : list nat) : option tables :=
    foldM (fun t c => n <- rd np c ;; realloc_cell t a c n) t (seq 0 (ncell t)).
  (** particle_group.hpp L156-174 [realloc_dat], [realloc_all_dats]. *)
  Definition realloc_all_dats (t : tables) : option tables :=
    foldM (fun t e => realloc_cells t (snd e) (h_npart t)) t (dats t).

  (** src/particle_group_pointer_map.cpp L5-140 [create_const]: fill the cache if
      it is not valid. *)
  Definition create_map (t : tables) : tables * list nat :=
    match ptr_map t with
    | Some l => (t, l)
    | None => let l := map snd (dats t) in (set_map t (Some l), l)
    end.

  (** particle_group_pointer_map.hpp L178-210 [set_npart_cells_host_device]: the
      kernel writes the device tables of the cached dats, the host loop the host
      tables. *)
  Definition set_npart_cells_host_device (hsrc dsrc : list nat) (t : tables) : option tables :=
    let (t0, ptrs) := create_map t in
    dv <- foldM (fun m w => a <- rd ptrs (fst w) ;; v <- rd dsrc (snd w) ;; upd2 m a (snd w) v)
            (dat_d t0) (ord d 400 (list_prod (seq 0 (length ptrs)) (seq 0 (ncell t0)))) ;;
    h <- foldM (fun m w => a <- rd ptrs (fst w) ;; v <- rd hsrc (snd w) ;; upd2 m a (snd w) v)
            (dat_h t0) (list_prod (seq 0 (length ptrs)) (seq 0 (ncell t0))) ;;
    Some (set_dat_counts t0 h dv).
  (** L221-236 [set_npart_cells_host]: the same with a device copy of the host
      array, in a pooled buffer. *)
  Definition set_npart_cells_host (hsrc : list nat) (t : tables) : option tables :=
    let t0 := fst (create_map t) in
    dsrc <- copy_table (ncell t0) hsrc (fresh d 401 (ncell t0)) ;;
    set_npart_cells_host_device hsrc dsrc t0.

  (** particle_group.hpp L176-193 [check_dats_and_group_agree]: the assertion is
      compiled unless NDEBUG is defined. *)
  Definition check_dats_and_group_agree (t : tables) : option unit :=
    foldM (fun _ e => foldM (fun _ c => n <- rd2 (dat_h t) (snd e) c ;; m <- rd (h_npart t) c ;; assert (n =? m))
                        tt (seq 0 (ncell t))) tt (dats t).

  (** particle_group.hpp L286-311 [add_particle_dat_common] for a new
      ParticleDat, with zero counts (particle_dat.hpp L291-298) and no rows
      (containers/cell_dat.hpp L302-335). *)
  Definition add_particle_dat_common (t : tables) (sym : nat) : option tables :=
    let a := length (dat_h t) in
    let t0 := mk_tables (ncell t) (h_npart t) (d_npart t) (h_es t) (d_es t) (npart_local t)
                (dat_h t ++ [repeat 0 (ncell t)]) (dat_d t ++ [repeat 0 (ncell t)])
                (dat_rows t ++ [repeat 0 (ncell t)]) ((sym, a) :: dats t) (ptr_map t) in
    (* L289 *)
    t1 <- realloc_cells t0 a (h_npart t0) ;;
    (* L292, L294 *)
    th <- rd (dat_h t1) a ;;
    th' <- copy_table (ncell t1) (h_npart t1) th ;;
    mh <- upd (dat_h t1) a th' ;;
    td <- rd (dat_d t1) a ;;
    td' <- copy_table (ncell t1) th' td ;;
    md <- upd (dat_d t1) a td' ;;
    let t2 := set_dat_counts t1 mh md in
    (* L304-309 *)
    t3 <- (if 0 <? hint then foldM (fun t c => realloc_cell t a c hint) t2 (seq 0 (ncell t2)) else Some t2) ;;
    (* L310 *)
    Some (set_map t3 None).
  (** src/particle_group.cpp L253-274 [add_particle_dat]: nothing is done when
      the property exists (an existing property with another number of
      components is an error and not modelled; nor is replacing the position or
      the cell id property). *)
  Definition add_particle_dat (t : tables) (sym : nat) : option tables :=
    match dat_of t sym with
    | Some _ => Some t
    | None => add_particle_dat_common t sym
    end.
  (** L1131-1152 [remove_particle_dat] and particle_group.hpp L279-284. *)
  Definition remove_particle_dat (t : tables) (sym : nat) : option tables :=
    a <- dat_of t sym ;;
    _ <- assert (negb (sym =? s_pos) && negb (sym =? s_rank) && negb (sym =? s_cell)) ;;
    mh <- upd (dat_h t) a [] ;;
    md <- upd (dat_d t) a [] ;;
    mr <- upd (dat_rows t) a [] ;;
    Some (set_map (set_dats (set_dat_rows (set_dat_counts t mh md) mr)
                     (filter (fun e => negb (sym =? fst e)) (dats t))) None).

  (** src/particle_group.cpp L75-130 [setup_internal]; [syms] are the properties
      of the ParticleSpec, [u] the content of the newly allocated buffers. *)
  Definition setup_internal (nc : nat) (syms : list nat) : option tables :=
    let t0 := mk_tables nc (fresh d 410 nc) (fresh d 411 nc) (fresh d 412 nc) (fresh d 413 nc) 0
                [] [] [] [] None in
    h <- foldM (fun m c => upd m c 0) (h_npart t0) (seq 0 nc) ;;
    es <- foldM (fun m c => upd m c 0) (h_es t0) (seq 0 nc) ;;
    t1 <- group_host_to_device (set_group t0 h (d_npart t0)) ;;
    es_d <- copy_table nc es (d_es t1) ;;
    t2 <- add_particle_dat (set_es t1 es es_d (npart_local t1)) s_rank ;;
    foldM add_particle_dat t2 syms.

  (** src/particle_group.cpp L239-251 [clear]. *)
  Definition clear (t : tables) : option tables :=
    h <- foldM (fun m c => upd m c 0) (h_npart t) (seq 0 (ncell t)) ;;
    t1 <- group_host_to_device (set_group t h (d_npart t)) ;;
    t2 <- recompute_npart_cell_es t1 ;;
    t3 <- realloc_all_dats t2 ;;
    t4 <- set_npart_cells_host_device (h_npart t3) (d_npart t3) t3 ;;
    _ <- check_dats_and_group_agree t4 ;;
    Some t4.

  (** src/particle_group.cpp L7-32 [get_new_layers] on the group's tables. *)
  Definition group_new_layers (t : tables) (cells : list Z) : option tables :=
    if 0 <? length cells then
      t1 <- group_host_to_device t ;;
      r <- get_new_layers d (d_npart t1) cells (freshZ d 420 (length cells)) ;;
      h <- copy_table (ncell t1) (fst r) (h_npart t1) ;;
      Some (set_group t1 h (fst r))
    else Some t.

  (** The end shared by the additions: src/particle_group.cpp L340-343, L438-443
      (products), L743-745, L794-799 (sub-group), L910-911, L1006-1010 (set). *)
  Definition grow_dats (t : tables) : option tables :=
    t1 <- recompute_npart_cell_es t ;;
    t2 <- realloc_all_dats t1 ;;
    t3 <- set_npart_cells_host_device (h_npart t2) (d_npart t2) t2 ;;
    _ <- check_dats_and_group_agree t3 ;;
    Some t3.

  (** L286-450 [add_particles_local(ProductMatrix)] and L717-804
      [add_particles_local(ParticleSubGroup)]; [cells] are the cells of the new
      particles. *)
  Definition add_by_device (t : tables) (cells : list Z) : option tables :=
    if length cells =? 0 then Some t
    else t1 <- group_new_layers t cells ;; grow_dats t1.

  (** L806-1012 [add_particles_local(ParticleSet)]. *)
  Definition add_set (t : tables) (cells : list Z) : option tables :=
    if length cells =? 0 then Some t
    else
      (* L889-897 *)
      h <- foldM (fun m c => _ <- assert ((0 <=? c) && (c <? Z.of_nat (ncell t)))%Z ;;
                             n <- rd m (Z.to_nat c) ;; upd m (Z.to_nat c) (n + 1)) (h_npart t) cells ;;
      (* L899 *)
      t1 <- group_host_to_device (set_group t h (d_npart t)) ;;
      grow_dats t1.

  (** L464-715 [add_particles_local(ParticleGroup)]; [other], [other_local] are
      the counts and get_npart_local() of the source group. *)
  Definition add_group (t : tables) (other : list nat) (other_local : nat) : option tables :=
    _ <- assert (length other =? ncell t) ;;
    let old := npart_local t in
    (* L500-512 *)
    r <- foldM (fun s c => n <- rd (fst s) c ;; a <- rd other c ;; m <- upd (fst s) c (n + a) ;;
                           Some (m, snd s + a)) (h_npart t, 0) (seq 0 (ncell t)) ;;
    _ <- assert (snd r =? other_local) ;;
    t1 <- group_host_to_device (set_group t (fst r) (d_npart t)) ;;
    t2 <- recompute_npart_cell_es t1 ;;
    (* L515-516 *)
    _ <- assert (old + snd r =? npart_local t2) ;;
    t3 <- realloc_all_dats t2 ;;
    t4 <- set_npart_cells_host_device (h_npart t3) (d_npart t3) t3 ;;
    _ <- check_dats_and_group_agree t4 ;;
    (* L690-703 *)
    _ <- assert (npart_local t4 =? list_sum (h_npart t4)) ;;
    _ <- assert (snd r =? other_local) ;;
    Some t4.

  (** Number of particles of cell [c] with an entry in the removal list: the
      entries of existing cells and non-negative layers, each particle once
      (cell_dat_compression.hpp L166-226 flags the particles, then counts the
      flags; see Compress_Model). *)
  Definition flagged (cells layers : list Z) (c n : nat) : nat :=
    length (filter (fun l => existsb (fun e => (fst e =? Z.of_nat c)%Z && (snd e =? Z.of_nat l)%Z)
                               (combine cells layers)) (seq 0 n)).

  (** L166-182: a listed particle is flagged by a write to its row of the cell id
      property at address [ac], which must exist. *)
  Definition flag_entry (t : tables) (ac : nat) (_ : unit) (e : Z * Z) : option unit :=
    if ((-1 <? fst e) && (fst e <? Z.of_nat (ncell t)) && (-1 <? snd e))%Z
    then n <- rd2 (dat_rows t) ac (Z.to_nat (fst e)) ;; assert (Z.to_nat (snd e) <? n)
    else Some tt.

  (** cell_dat_compression.hpp L635-878: the counts of the MPI rank property are
      the old counts (L109-110, L268-281), the new ones go to every dat
      (L718-724, L786-787), and the rows of every dat are cut down to its own
      count (L843-849, particle_dat.hpp L714-719). *)
  Definition compress (t : tables) (cells layers : list Z) : option tables :=
    if length cells <? 1 then Some t
    else
      ac <- dat_of t s_cell ;;
      _ <- foldM (flag_entry t ac) tt (combine cells layers) ;;
      a <- dat_of t s_rank ;;
      old <- rd (dat_d t) a ;;
      nd <- foldM (fun m c => n <- rd old c ;; n' <- sub_ n (flagged cells layers c n) ;; upd m c n')
              (fresh d 430 (ncell t)) (ord d 430 (seq 0 (ncell t))) ;;
      nh <- copy_table (ncell t) nd (fresh d 431 (ncell t)) ;;
      t1 <- set_npart_cells_host_device nh nd t ;;
      foldM (fun t e => np <- rd (dat_h t) (snd e) ;; realloc_cells t (snd e) np) t1 (dats t1).

  (** particle_group_impl.hpp L29-35 [remove_particles]. *)
  Definition remove_particles (t : tables) (cells layers : list Z) : option tables :=
    t1 <- compress t cells layers ;; set_npart_cell_from_dat t1.

  (** src/cell_dat_move.cpp L6-299 and src/particle_group.cpp L1122-1129
      [cell_move]; [movers] are the particles whose cell id is not their cell:
      (cell, layer, cell id). *)
  Definition cell_move (t : tables) (movers : list (nat * nat * Z)) : option tables :=
    a <- dat_of t s_rank ;;
    old <- rd (dat_d t) a ;;
    let new_cells := map (fun m => snd m) movers in
    (* L88, L105-120 *)
    _ <- assert (forallb (fun z => (0 <=? z) && (z <? Z.of_nat (ncell t)))%Z new_cells) ;;
    (* L91-97: the counters start at zero *)
    cnt <- foldM (fun m i => z <- rd new_cells i ;; n <- rd m (Z.to_nat z) ;; upd m (Z.to_nat z) (n + 1))
             (repeat 0 (ncell t)) (ord d 440 (seq 0 (length movers))) ;;
    (* L130-136 *)
    seqn <- foldM (fun m c => o <- rd cnt c ;; n <- rd old c ;; upd m c (o + n))
              (fresh d 441 (ncell t)) (ord d 441 (seq 0 (ncell t))) ;;
    (* L143 *)
    h <- copy_table (ncell t) seqn (fresh d 442 (ncell t)) ;;
    (* L199-213 *)
    t1 <- foldM (fun t e => realloc_cells t (snd e) h) t (dats t) ;;
    (* L275 *)
    t2 <- set_npart_cells_host h t1 ;;
    (* L286 *)
    t3 <- compress t2 (map (fun m => Z.of_nat (fst (fst m))) movers) (map (fun m => Z.of_nat (snd (fst m))) movers) ;;
    set_npart_cell_from_dat t3.

  (** src/packing_unpacking.cpp L221-237 [unpack]: [n] received particles are
      appended to cell 0. *)
  Definition unpack (t : tables) (n : nat) : option tables :=
    a <- dat_of t s_rank ;;
    old <- rd2 (dat_h t) a 0 ;;
    foldM (fun t e =>
      t1 <- realloc_cell t (snd e) 0 (old + n) ;;
      (* particle_dat.hpp L511-520 [set_npart_cell] *)
      mh <- upd2 (dat_h t1) (snd e) 0 (old + n) ;;
      v <- rd2 mh (snd e) 0 ;;
      md <- upd2 (dat_d t1) (snd e) 0 v ;;
      Some (set_dat_counts t1 mh md)) t (dats t).

  (** One exchange of particles with other ranks: global_move.hpp L198-209,
      local_move.hpp L350-361 (the packed particles are removed, then the received
      ones are unpacked). *)
  Definition exchange (t : tables) (cells layers : list Z) (recv : nat) : option tables :=
    t1 <- compress t cells layers ;; unpack t1 recv.
  (** src/particle_group.cpp L1086-1096 [global_move], [local_move]. *)
  Definition rank_move (t : tables) (cells layers : list Z) (recv : nat) : option tables :=
    t1 <- exchange t cells layers recv ;; set_npart_cell_from_dat t1.
  (** L1098-1118 [hybrid_move]. *)
  Definition hybrid_move (t : tables) (cells layers : list Z) (recv : nat) (cells2 layers2 : list Z) (recv2 : nat)
    : option tables :=
    t1 <- exchange t cells layers recv ;;
    t2 <- set_npart_cell_from_dat t1 ;;
    t3 <- exchange t2 cells2 layers2 recv2 ;;
    set_npart_cell_from_dat t3.

  (** The operations of a history. *)
  Inductive op :=
  | OAddDat (sym : nat)
  | ORemoveDat (sym : nat)
  | OClear
  | OAddSet (cells : list Z)
  | OAddProducts (cells : list Z)
  | OAddSubGroup (cells : list Z)
  | OAddGroup (other : list nat) (other_local : nat)
  | ORemove (cells layers : list Z)
  | OCellMove (movers : list (nat * nat * Z))
  | ORankMove (cells layers : list Z) (recv : nat)
  | OHybridMove (cells layers : list Z) (recv : nat) (cells2 layers2 : list Z) (recv2 : nat).

  Definition step (t : tables) (o : op) : option tables :=
    match o with
    | OAddDat s => add_particle_dat t s
    | ORemoveDat s => remove_particle_dat t s
    | OClear => clear t
    | OAddSet l => add_set t l
    | OAddProducts l => add_by_device t l
    | OAddSubGroup l => add_by_device t l
    | OAddGroup l n => add_group t l n
    | ORemove c l => remove_particles t c l
    | OCellMove m => cell_move t m
    | ORankMove c l n => rank_move t c l n
    | OHybridMove c l n c2 l2 n2 => hybrid_move t c l n c2 l2 n2
    end.

  (** A group is created and used. *)
  Definition run (nc : nat) (syms : list nat) (ops : list op) : option tables :=
    t <- setup_internal nc syms ;; foldM step t ops.

  (** What the user sees: get_npart_local() (particle_group.hpp L615),
      get_npart_cell(c) (L755-756), the table of exclusive sums given to the
      kernels, the counts of one property on the host and on the device, and the
      number of rows that dat[sym]->cell_dat.get_cell(c) returns. *)
  Definition get_npart_local (t : tables) : nat := npart_local t.
  Definition get_npart_cell (t : tables) (c : nat) : option nat := rd (h_npart t) c.
  Definition dat_npart_host (t : tables) (sym c : nat) : option nat := a <- dat_of t sym ;; rd2 (dat_h t) a c.
  Definition dat_npart_device (t : tables) (sym c : nat) : option nat := a <- dat_of t sym ;; rd2 (dat_d t) a c.
  Definition dat_nrow (t : tables) (sym c : nat) : option nat := a <- dat_of t sym ;; rd2 (dat_rows t) a c.
  Definition has_dat (t : tables) (sym : nat) : Prop := dat_of t sym <> None.
End Counter.
