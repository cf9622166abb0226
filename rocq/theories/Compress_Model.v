(** Model of include/neso_particles/cell_dat_compression.hpp: removal of
    particles and compaction of the layers. *)
From Coq Require Import List Arith ZArith Bool.
Import ListNotations.
From Verif Require Import Base Scan_Model Group_Model.

Section Compress.
  Context (d : device).

  (** algorithms/common.hpp L193-224 [joint_exclusive_scan_blocking], with a
      pooled auxiliary buffer; [k] numbers the kernel launches and buffers. *)
  Definition exscan (k N : nat) (src dst : list nat) : option (list nat) :=
    let nb := aux_num_blocks (local_size d) (max_compute_units d) N in
    joint_exclusive_scan2 Nat.add 0 (fun i => Z.to_nat (junk d k i))
      {| sched_blocks := ord d k (seq 0 nb);
         sched_totals := ord d (k + 1) (scan_total_items nb (local_size d));
         sched_shift := ord d (k + 2) (scan_shift_items nb N (local_size d)) |}
      (local_size d) (max_compute_units d) N (fresh d (k + 1) (2 * nb)) src dst.

  (** cell_dat_compression.hpp L169-181: flag entry [i] of the removal list by
      setting the particle's cell id to -1.  [cells], [layers] are the removal
      list, [ids] the cell id component, [cell][layer]. *)
  Definition flag_item (ncell : nat) (cells layers : list Z) (ids : list (list Z)) (i : nat)
    : option (list (list Z)) :=
    cell <- rd cells i ;;
    layer <- rd layers i ;;
    if ((-1 <? cell) && (cell <? Z.of_nat ncell) && (-1 <? layer))%Z
    then upd2 ids (Z.to_nat cell) (Z.to_nat layer) (-1)%Z
    else Some ids.

  (** cell_dat_compression.hpp L219-226: mask of one particle. *)
  Definition mask_item (occ_es : list nat) (ids : list (list Z)) (masks : list nat)
      (w : nat * nat) : option (list nat) :=
    cell_offset <- rd occ_es (fst w) ;;
    id <- rd2 ids (fst w) (snd w) ;;
    upd masks (cell_offset + snd w) (if (-1 <? id)%Z then 0 else 1).

  (** cell_dat_compression.hpp L268-281: new occupancy and number of holes to
      fill of one cell. *)
  Definition cell_item (npart occ occ_es masks_es : list nat)
      (s : list nat * list nat) (cell : nat) : option (list nat * list nat) :=
    cell_offset <- rd occ_es cell ;;
    p1 <- rd occ cell ;;
    last_index <- sub_ p1 1 ;;
    num_removed <- rd masks_es (cell_offset + last_index) ;;
    old <- rd npart cell ;;
    new <- sub_ old num_removed ;;
    fill <- rd masks_es (cell_offset + new) ;;
    npart_new' <- upd (fst s) cell new ;;
    to_fill' <- upd (snd s) cell fill ;;
    Some (npart_new', to_fill').

  (** cell_dat_compression.hpp L291-322: the copy plan, one particle.  The
      state is (cells_old, layers_new, layers_old). *)
  Definition plan_item (occ_es masks masks_es npart_new to_fill to_fill_es : list nat)
      (s : list nat * list nat * list nat) (w : nat * nat)
    : option (list nat * list nat * list nat) :=
    let '(cells_old, layers_new, layers_old) := s in
    let '(cell, layer) := w in
    cell_offset_mask <- rd occ_es cell ;;
    mask <- rd masks (cell_offset_mask + layer) ;;
    new <- rd npart_new cell ;;
    if negb (mask =? 0) && (layer <? new) then
      fill_es <- rd to_fill_es cell ;;
      es <- rd masks_es (cell_offset_mask + layer) ;;
      c' <- upd cells_old (fill_es + es) cell ;;
      l' <- upd layers_new (fill_es + es) layer ;;
      Some (c', l', layers_old)
    else if (mask =? 0) && (new <=? layer) then
      es <- rd masks_es (cell_offset_mask + layer) ;;
      fill <- rd to_fill cell ;;
      num_empty_before_index <- sub_ es fill ;;
      fill_es <- rd to_fill_es cell ;;
      a <- sub_ (fill_es + layer) new ;;
      index_output <- sub_ a num_empty_before_index ;;
      l' <- upd layers_old index_output layer ;;
      Some (cells_old, layers_new, l')
    else Some s.

  Record plan := {
    compress_npart : nat;
    compress_cells_old : list nat;
    compress_layers_old : list nat;
    compress_layers_new : list nat;
    plan_npart_new : list nat;
    plan_ids : list (list Z)      (* the cell id component after flagging *)
  }.

  (** cell_dat_compression.hpp L98-340
      [compute_remove_compress_indicies_dense].  [npart] is the occupancy of
      each cell, the buffers for the plan have the length of the removal list
      (L660-662). *)
  Definition compute_plan (npart : list nat) (cells layers : list Z) (ids : list (list Z))
    : option plan :=
    let ncell := length npart in
    let nrem := length cells in
    (* L120-157 *)
    let occ := map (fun n => n + 1) npart ++ [0] in
    occ_es <- exscan 0 (ncell + 1) occ (repeat 0 (ncell + 1)) ;;
    total_p1 <- rd occ_es ncell ;;
    (* L166-182 *)
    ids' <- foldM (flag_item ncell cells layers) ids (ord d 10 (seq 0 nrem)) ;;
    (* L184-228 *)
    masks <- foldM (mask_item occ_es ids') (fresh d 11 total_p1) (ord d 11 (all_particles npart)) ;;
    (* L236-241 *)
    masks_es <- joint_exclusive_scan_n Nat.add 0 (fun i => Z.to_nat (junk d 12 i))
                  (ord d 12 (seq 0 ncell)) (firstn ncell occ) (firstn ncell occ_es)
                  masks (repeat 0 total_p1) ;;
    (* L250-282; to_fill has ncell + 1 elements, the last one not written *)
    cellres <- foldM (cell_item npart occ occ_es masks_es)
                 (fresh d 13 ncell, fresh d 14 (ncell + 1)) (ord d 13 (seq 0 ncell)) ;;
    let npart_new := fst cellres in
    let to_fill := snd cellres in
    (* L284-289 *)
    to_fill_es <- exscan 20 (ncell + 1) to_fill (repeat 0 (ncell + 1)) ;;
    n_compress <- rd to_fill_es ncell ;;
    (* L291-323 *)
    res <- foldM (plan_item occ_es masks masks_es npart_new to_fill to_fill_es)
             (fresh d 30 nrem, fresh d 31 nrem, fresh d 32 nrem)
             (ord d 30 (all_particles npart)) ;;
    let '(c_old, l_new, l_old) := res in
    Some {| compress_npart := n_compress; compress_cells_old := c_old;
            compress_layers_old := l_old; compress_layers_new := l_new;
            plan_npart_new := npart_new; plan_ids := ids' |}.

  (** cell_dat_compression.hpp L748-763 and L766-782: copy component [fst w] of
      plan entry [snd w] from the old layer to the new layer. *)
  Definition copy_item {V} (p : plan) (data : list (list (list V))) (w : nat * nat)
    : option (list (list (list V))) :=
    cell <- rd (compress_cells_old p) (snd w) ;;
    layer_old <- rd (compress_layers_old p) (snd w) ;;
    layer_new <- rd (compress_layers_new p) (snd w) ;;
    v <- rd3 data (fst w) cell layer_old ;;
    upd3 data (fst w) cell layer_new v.

  (** The work items of the copy kernel, L745-747 and L764-765. *)
  Definition copy_items (ncomp : nat) (p : plan) : list (nat * nat) :=
    list_prod (seq 0 ncomp) (seq 0 (compress_npart p)).

  (** cell_dat_compression.hpp L635-878 [remove_particles_inner], with the test
      mode branch left out.  [cid] is the component index of the cell id
      property.  L714-717 and L786-787 set the counts of every dat. *)
  Definition remove_particles_inner {R} (cid : nat) (g : group R) (cells layers : list Z)
    : option (group R) :=
    if length cells <? 1 then Some g
    else
      ids <- rd (ints (st g)) cid ;;
      p <- compute_plan (npart_cell g) cells layers ids ;;
      ints0 <- upd (ints (st g)) cid (plan_ids p) ;;
      reals1 <- foldM (copy_item p) (reals (st g))
                  (ord d 40 (copy_items (length (reals (st g))) p)) ;;
      ints1 <- foldM (copy_item p) ints0 (ord d 41 (copy_items (length ints0) p)) ;;
      Some (mk_group
        (mk_store (trim_rows (plan_npart_new p) reals1) (trim_rows (plan_npart_new p) ints1))
        (plan_npart_new p)).

  (** include/neso_particles/particle_group_impl.hpp L29-35
      [ParticleGroup::remove_particles(npart, cells, layers)]: the compressor,
      then the group's counts are taken from the dats (same list here). *)
  Definition remove_particles {R} (cid : nat) (g : group R) (cells layers : list Z)
    : option (group R) := remove_particles_inner cid g cells layers.
End Compress.
