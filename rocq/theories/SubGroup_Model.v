(** Model of the sub-group selectors: how the list of selected particles of each
    cell is computed on the device and stored. *)
From Coq Require Import List Arith ZArith Bool.
Import ListNotations.
From Verif Require Import Base Scan_Model Compress_Model Loop_Model Loop_Spec.

(** include/neso_particles/particle_sub_group/sub_group_particle_map.hpp and
    src/particle_sub_group/sub_group_particle_map.cpp L11-25: the storage behind
    the selection of one sub-group.  [m_layers] is the array [d_layer_map];
    [m_hstarts] and [m_starts] are the host and device arrays of pointers into it,
    kept as offsets; the count and exclusive sum arrays exist on the host and on
    the device.  All of it comes from a pool, so the contents are arbitrary. *)
Record pmap := {
  m_layers : list nat;
  m_hstarts : list nat;
  m_starts : list nat;
  m_total : nat;
  m_hn : list nat;
  m_dn : list nat;
  m_hes : list nat;
  m_des : list nat
}.

(** include/neso_particles/particle_sub_group/sub_group_selector_base.hpp,
    [struct Selection]: the pointers of the struct lead to the [pmap] of the same
    selector, which is passed beside it. *)
Record selection := { s_npart : nat; s_ncell : nat }.

(** What a loop over a parent uses: the counts (host and device copies), the
    exclusive sums and the map from the index in the loop to the layer,
    include/neso_particles/particle_sub_group/sub_group_selector_base.hpp
    [MapLoopLayerToLayer].  For a whole group the map is the identity. *)
Record iset := {
  i_whole : bool;
  i_hn : list nat;
  i_dn : list nat;
  i_es : list nat;
  i_layer : nat -> nat -> option nat
}.

(** A ParticleGroup as parent: counts [np], exclusive sums [es]
    (include/neso_particles/loop/particle_loop.hpp: the layer is the loop layer). *)
Definition group_iset (np es : list nat) : iset :=
  {| i_whole := true; i_hn := np; i_dn := np; i_es := es;
     i_layer := fun _ l => Some l |}.

(** A sub-group as parent: include/neso_particles/particle_sub_group/
    particle_loop_sub_group.hpp L27-36, L188-190: the counts and the map of its
    selection. *)
Definition sub_iset (m : pmap) : iset :=
  {| i_whole := false; i_hn := m_hn m; i_dn := m_dn m; i_es := m_des m;
     i_layer := fun c l => s <- rd (m_starts m) c ;; rd (m_layers m) (s + l) |}.

(** [memcpy(dst, src, n * sizeof(T))] and [queue.fill(dst, v, n)]. *)
Definition copy_prefix {A} (src dst : list A) (n : nat) : option (list A) :=
  foldM (fun m i => v <- rd src i ;; upd m i v) dst (seq 0 n).
Definition fill_prefix {A} (v : A) (dst : list A) (n : nat) : option (list A) :=
  foldM (fun m i => upd m i v) dst (seq 0 n).

(** src/particle_sub_group/sub_group_particle_map.cpp L27-55,
    [SubGroupParticleMap::create], always called with the host arrays of the map
    itself.  [realloc_no_copy] replaces the array only when it is too small
    (device_buffers.hpp L72-91). *)
Definition map_create (d : device) (k cc first last : nat) (m : pmap) : option pmap :=
  _ <- assert ((first <=? cc) && (last <=? cc)) ;;
  if first <? last then
    e <- rd (m_hes m) (last - 1) ;;
    n <- rd (m_hn m) (last - 1) ;;
    let total := e + n in
    let lay := if length (m_layers m) <? total then fresh d k total else m_layers m in
    hs <- foldM (fun hs c => e <- rd (m_hes m) c ;; upd hs c e)
            (m_hstarts m) (seq first (last - first)) ;;
    ds <- foldM (fun ds c => v <- rd hs c ;; upd ds c v)
            (m_starts m) (seq first (last - first)) ;;
    Some {| m_layers := lay; m_hstarts := hs; m_starts := ds; m_total := total;
            m_hn := m_hn m; m_dn := m_dn m; m_hes := m_hes m; m_des := m_des m |}
  else Some m.

(** Assignments to single arrays of the map. *)
Definition with_counts (m : pmap) (hn dn hes des : list nat) : pmap :=
  {| m_layers := m_layers m; m_hstarts := m_hstarts m; m_starts := m_starts m;
     m_total := m_total m; m_hn := hn; m_dn := dn; m_hes := hes; m_des := des |}.
Definition with_layers (m : pmap) (lay : list nat) : pmap :=
  {| m_layers := lay; m_hstarts := m_hstarts m; m_starts := m_starts m;
     m_total := m_total m; m_hn := m_hn m; m_dn := m_dn m; m_hes := m_hes m; m_des := m_des m |}.

(** [k_cell_starts[cell][layer] = v] for the pointers of map [m] and its array
    [lay]. *)
Definition put_layer (m : pmap) (lay : list nat) (c j v : nat) : option (list nat) :=
  s <- rd (m_starts m) c ;; upd lay (s + j) v.

(* ------------------------------------------------------------------ *)
(** Selection by a kernel. *)

(** include/neso_particles/particle_sub_group/sub_group_selector.hpp L91-106,
    loop_0 for loop index (c, l): [CL] is NESO_PARTICLES_CACHELINE_NUM_int, [kern]
    is the user's kernel evaluated for the particle at (cell, layer), [ges] are the
    exclusive sums of the whole group.  The atomic add and the store belong to one
    work item; the order of the work items is the schedule. *)
Definition selector_loop_0 (CL cc : nat) (ges : list nat) (kern : nat -> nat -> bool) (P : iset)
    (st : list Z * list nat) (p : nat * nat) : option (list Z * list nat) :=
  let '(ml, dn) := st in
  let '(c, l) := p in
  layer <- i_layer P c l ;;
  idx <- get_local_linear_index ges c layer ;;
  if kern c layer then
    v <- rd dn (cc + c * CL) ;;
    dn' <- upd dn (cc + c * CL) (v + 1) ;;
    ml' <- upd ml idx (Z.of_nat v) ;;
    Some (ml', dn')
  else
    ml' <- upd ml idx (-1)%Z ;;
    Some (ml', dn).

(** src/particle_sub_group/sub_group_selector.cpp L9-23 and L28-42, loop_1. *)
Definition selector_loop_1 (ges : list nat) (P : iset) (ml : list Z) (m : pmap)
    (lay : list nat) (p : nat * nat) : option (list nat) :=
  let '(c, l) := p in
  layer <- i_layer P c l ;;
  idx <- get_local_linear_index ges c layer ;;
  v <- rd ml idx ;;
  if (-1 <? v)%Z then put_layer m lay c (Z.to_nat v) layer else Some lay.

(** src/particle_sub_group/sub_group_selector.cpp L98-103: the running total. *)
Definition host_running_total (cc : nat) (hn hes : list nat) : option (list nat * nat) :=
  foldM (fun st c => let '(hes, t) := st in
           n <- rd hn c ;; hes' <- upd hes c t ;; Some (hes', t + n))
        (hes, 0) (seq 0 cc).

(** src/particle_sub_group/sub_group_selector.cpp L70-130,
    [SubGroupSelector::create] with [pre_process_npart_cell] L45-56 and
    [post_process_npart_cell] L57-68.  [gnp], [ges] are the counts and exclusive
    sums of the whole group.  Both loops first bring the parent up to date
    (particle_loop_sub_group.hpp L94-96), which may rebuild it, so loop_0 and
    loop_1 see two parents [P0] and [P1]. *)
Definition selector_create (CL : nat) (d : device) (k cc : nat) (gnp ges : list nat)
    (kern : nat -> nat -> bool) (P0 P1 : iset) (m : pmap) : option (pmap * selection) :=
  dn0 <- fill_prefix 0 (m_dn m) cc ;;
  let ml0 := freshZ d k (list_sum gnp) in
  dn1 <- foldM (fun dn c => v <- rd dn c ;; upd dn (cc + c * CL) v) dn0
           (ord d (k + 1) (seq 0 cc)) ;;
  st <- foldM (selector_loop_0 CL cc ges kern P0) (ml0, dn1)
          (ord d (k + 2) (particles_of_cells (i_dn P0) 0 cc)) ;;
  let '(ml, dn2) := st in
  dn3 <- foldM (fun dn c => v <- rd dn (cc + c * CL) ;; upd dn c v) dn2
           (ord d (k + 3) (seq 0 cc)) ;;
  hn <- copy_prefix dn3 (m_hn m) cc ;;
  rt <- host_running_total cc hn (m_hes m) ;;
  let '(hes, running_total) := rt in
  m1 <- map_create d (k + 4) cc 0 cc (with_counts m hn dn3 hes (m_des m)) ;;
  lay <- foldM (selector_loop_1 ges P1 ml m1) (m_layers m1)
           (ord d (k + 5) (particles_of_cells (i_dn P1) 0 cc)) ;;
  des <- copy_prefix hes (m_des m) cc ;;
  Some (with_layers (with_counts m1 hn dn3 hes des) lay,
        {| s_npart := running_total; s_ncell := cc |}).

(* ------------------------------------------------------------------ *)
(** Selection by a kernel that keeps the order of the parent. *)

(** include/neso_particles/particle_sub_group/sub_group_selector_exclusive_scan.hpp
    L219-227, loop_0. *)
Definition scan_loop_0 (kern : nat -> nat -> bool) (P : iset) (masks : list nat) (p : nat * nat)
    : option (list nat) :=
  let '(c, l) := p in
  layer <- i_layer P c l ;;
  idx <- get_loop_linear_index (i_es P) 0 c l ;;
  if kern c layer then upd masks idx 1 else Some masks.

(** L160-173, the second loop. *)
Definition scan_loop_1 (P : iset) (masks masks_es : list nat) (m : pmap) (lay : list nat) (p : nat * nat)
    : option (list nat) :=
  let '(c, l) := p in
  layer <- i_layer P c l ;;
  idx <- get_loop_linear_index (i_es P) 0 c l ;;
  required <- rd masks idx ;;
  j <- rd masks_es idx ;;
  if required =? 0 then Some lay else put_layer m lay c j layer.

(** L64-191, the callback that is the body of [create].  [npart] is the number of
    particles of the parent. *)
Definition scan_selector_create (d : device) (k cc npart : nat)
    (kern : nat -> nat -> bool) (P0 P1 : iset) (m : pmap) : option (pmap * selection) :=
  masks0 <- fill_prefix 0 (fresh d k npart) npart ;;
  masks <- foldM (scan_loop_0 kern P0) masks0 (ord d (k + 1) (particles_of_cells (i_dn P0) 0 cc)) ;;
  masks_es0 <- fill_prefix 0 (fresh d (k + 2) npart) npart ;;
  sizes <- slice (i_dn P0) 0 cc ;;
  offsets <- foldM (fun o c => v <- rd (i_es P0) c ;; upd o c v) (fresh d (k + 3) cc)
               (ord d (k + 4) (seq 0 cc)) ;;
  st <- joint_exclusive_scan_n_sum Nat.add 0 (fun i => Z.to_nat (junk d (k + 5) i))
          (ord d (k + 6) (seq 0 cc)) (ord d (k + 7) (seq 0 cc)) sizes offsets masks masks_es0 (m_dn m) ;;
  let '(masks_es, dn) := st in
  hn <- copy_prefix dn (m_hn m) cc ;;
  es0 <- fill_prefix 0 offsets cc ;;
  es <- exscan d (k + 8) cc dn es0 ;;
  des <- foldM (fun o c => v <- rd es c ;; upd o c v) (m_des m) (ord d (k + 9) (seq 0 cc)) ;;
  hes <- copy_prefix des (m_hes m) cc ;;
  m1 <- map_create d (k + 10) cc 0 cc (with_counts m hn dn hes des) ;;
  lay <- foldM (scan_loop_1 P1 masks masks_es m1) (m_layers m1)
           (ord d (k + 11) (particles_of_cells (i_dn P1) 0 cc)) ;;
  Some (with_layers m1 lay, {| s_npart := m_total m1; s_ncell := cc |}).

(* ------------------------------------------------------------------ *)
(** Selection of a range of cells. *)

(** The work items of [nd_range<2>(range<2>(ncell, get_next_multiple(max_occ,
    local_size)), ...)], as (cell, layer). *)
Definition cell_layer_items (d : device) (ncell max_occ : nat) : list (nat * nat) :=
  list_prod (seq 0 ncell) (seq 0 (get_next_multiple max_occ (local_size d))).

(** src/particle_sub_group/cell_sub_group_selector.cpp L34-50 and L114-130: counts
    and exclusive sums on the host, and the largest count. *)
Definition range_counts (cc first last : nat) (src hn hes : list nat) : option (list nat * list nat * nat * nat) :=
  st <- foldM (fun st c => let '(hn, hes) := st in
          hn' <- upd hn c 0 ;; hes' <- upd hes c 0 ;; Some (hn', hes'))
          (hn, hes) (seq 0 first) ;;
  let '(hn1, hes1) := st in
  st <- foldM (fun st c => let '(hn, hes, t, mx) := st in
          n <- rd src c ;;
          hn' <- upd hn c n ;; hes' <- upd hes c t ;; Some (hn', hes', t + n, Nat.max n mx))
          (hn1, hes1, 0, 0) (seq first (last - first)) ;;
  let '(hn2, hes2, t, mx) := st in
  st <- foldM (fun st c => let '(hn, hes) := st in
          hn' <- upd hn c 0 ;; hes' <- upd hes c t ;; Some (hn', hes'))
          (hn2, hes2) (seq last (cc - last)) ;;
  let '(hn3, hes3) := st in
  Some (hn3, hes3, t, mx).

(** src/particle_sub_group/cell_sub_group_selector.cpp L84-86 and L164-167. *)
Definition range_kernel (first : nat) (P : iset) (m : pmap) (lay : list nat) (p : nat * nat) : option (list nat) :=
  let '(i, l) := p in
  let c := i + first in
  n <- rd (m_dn m) c ;;
  if l <? n then v <- i_layer P c l ;; put_layer m lay c l v else Some lay.

(** include/neso_particles/particle_sub_group/cell_sub_group_selector.hpp L33-62:
    the constructor checks the range and zeroes the counts. *)
Definition cell_selector_init (cc : nat) (first last : Z) (m : pmap) : option pmap :=
  _ <- assert ((-1 <? first)%Z && (first <=? Z.of_nat cc)%Z) ;;
  _ <- assert ((-1 <? last)%Z && (last <=? Z.of_nat cc)%Z) ;;
  _ <- assert (first <=? last)%Z ;;
  hes <- fill_prefix 0 (m_hes m) cc ;;
  des <- fill_prefix 0 (m_des m) cc ;;
  hn <- fill_prefix 0 (m_hn m) cc ;;
  dn <- fill_prefix 0 (m_dn m) cc ;;
  Some (with_counts m hn dn hes des).

(** src/particle_sub_group/cell_sub_group_selector.cpp L19-186,
    [CellSubGroupSelector::create]; the two branches differ only in where the
    counts and the layers come from, which [P] says. *)
Definition cell_selector_create (d : device) (k cc first last : nat) (P : iset) (m : pmap)
    : option (pmap * selection) :=
  hn0 <- fill_prefix 0 (m_hn m) cc ;;
  r <- range_counts cc first last (i_hn P) hn0 (m_hes m) ;;
  let '(hn, hes, es_tmp, max_occ) := r in
  ds <- (if 0 <? last - first then
           des <- copy_prefix hes (m_des m) cc ;; dn <- copy_prefix hn (m_dn m) cc ;; Some (des, dn)
         else Some (m_des m, m_dn m)) ;;
  let '(des, dn) := ds in
  m1 <- map_create d k cc first last (with_counts m hn dn hes des) ;;
  lay <- (if (0 <? last - first) && (0 <? max_occ) then
            foldM (range_kernel first P m1) (m_layers m1)
                  (ord d (k + 1) (cell_layer_items d (last - first) max_occ))
          else Some (m_layers m1)) ;;
  Some (with_layers m1 lay, {| s_npart := es_tmp; s_ncell := cc |}).

(* ------------------------------------------------------------------ *)
(** Copy of a sub-group. *)

(** The (cell, layer) pairs visited by the work items of a kernel launched with
    one work group of [local_size] items per cell, each striding over the layers
    of its cell: src/particle_sub_group/copy_selector.cpp L61-71. *)
Definition copy_kernel (d : device) (dn : list nat) (P : iset) (m : pmap) (lay : list nat) (p : nat * nat)
    : option (list nat) :=
  let '(c, local_id) := p in
  n <- rd dn c ;;
  foldM (fun lay l => v <- i_layer P c l ;; put_layer m lay c l v) lay
        (for_loop local_id n (local_size d)).

(** src/particle_sub_group/copy_selector.cpp L21-79, [CopySelector::create] for a
    parent which is not the whole group; [np] is the parent's npart_local.  (For
    the whole group, L16-19, the parent's selection itself is returned.) *)
Definition copy_selector_create (d : device) (k cc np : nat) (P : iset) (m : pmap)
    : option (pmap * selection) :=
  st <- foldM (fun st c => let '(dn, des) := st in
          n <- rd (i_dn P) c ;; e <- rd (i_es P) c ;;
          dn' <- upd dn c n ;; des' <- upd des c e ;; Some (dn', des'))
          (m_dn m, m_des m) (ord d k (seq 0 cc)) ;;
  let '(dn, des) := st in
  hn <- copy_prefix (i_hn P) (m_hn m) cc ;;
  rt <- host_running_total cc hn (m_hes m) ;;
  let '(hes, _) := rt in
  m1 <- map_create d (k + 1) cc 0 cc (with_counts m hn dn hes des) ;;
  lay <- foldM (copy_kernel d dn P m1) (m_layers m1)
           (ord d (k + 2) (list_prod (seq 0 cc) (seq 0 (local_size d)))) ;;
  Some (with_layers m1 lay, {| s_npart := np; s_ncell := cc |}).

(* ------------------------------------------------------------------ *)
(** The first particles of each cell, and the others. *)

(** src/particle_sub_group/truncate_sub_group_selector.cpp L10-139 and
    src/particle_sub_group/discard_sub_group_selector.cpp L10-143,
    [TruncateSubGroupSelector::create] and [DiscardSubGroupSelector::create]: the
    same code but for the new occupancy [occ n] of a cell with [n] particles and
    for the layer [src l] copied to layer [l]. *)
Definition occupancy_selector_create (occ : nat -> nat) (src : nat -> nat)
    (d : device) (k cc : nat) (P : iset) (m : pmap) : option (pmap * selection) :=
  st <- foldM (fun st c => let '(dn, kINT) := st in
          n <- rd (i_dn P) c ;;
          dn' <- upd dn c (occ n) ;; kINT' <- upd kINT c (occ n) ;; Some (dn', kINT'))
          (m_dn m, fresh d k cc) (ord d (k + 1) (seq 0 cc)) ;;
  let '(dn, kINT) := st in
  hn <- copy_prefix dn (m_hn m) cc ;;
  des <- joint_exclusive_scan1 Nat.add 0 (Z.to_nat (junk d (k + 2) 0)) cc kINT (m_des m) ;;
  mx <- foldM (fun mx c => n <- rd hn c ;; Some (Nat.max mx n)) 0 (seq 0 cc) ;;
  hes <- copy_prefix des (m_hes m) cc ;;
  i <- sub_ cc 1 ;;
  e <- rd hes i ;;
  n <- rd hn i ;;
  m1 <- map_create d (k + 3) cc 0 cc (with_counts m hn dn hes des) ;;
  lay <- (if 0 <? mx then
            foldM (fun lay p => let '(c, l) := p in
                     n <- rd dn c ;;
                     if l <? n then v <- i_layer P c (src l) ;; put_layer m1 lay c l v else Some lay)
                  (m_layers m1) (ord d (k + 4) (cell_layer_items d cc mx))
          else Some (m_layers m1)) ;;
  Some (with_layers m1 lay, {| s_npart := e + n; s_ncell := cc |}).

(** truncate_sub_group_selector.cpp L54-57, L103, L117-119; the constructor
    (truncate_sub_group_selector.hpp L34) rejects negative numbers. *)
Definition truncate_create (d : device) (k cc : nat) (num : Z) (P : iset) (m : pmap)
    : option (pmap * selection) :=
  _ <- assert (0 <=? num)%Z ;;
  occupancy_selector_create (fun n => Nat.min (Z.to_nat num) n) (fun l => l) d k cc P m.

(** discard_sub_group_selector.cpp L57-60, L106-107, L121-123; constructor
    discard_sub_group_selector.hpp L34.  [max(0, n - num)] is subtraction on [nat]. *)
Definition discard_create (d : device) (k cc : nat) (num : Z) (P : iset) (m : pmap)
    : option (pmap * selection) :=
  _ <- assert (0 <=? num)%Z ;;
  occupancy_selector_create (fun n => n - Z.to_nat num) (fun l => Z.to_nat num + l) d k cc P m.

(* ------------------------------------------------------------------ *)
(** Union of disjoint sub-groups. *)

(** src/particle_sub_group/disjoint_union_sub_group_selector.cpp L59-70: counts and
    exclusive sums of one cell are the sums over the parents. *)
Definition union_counts (Ps : list iset) (c : nat) : option (nat * nat) :=
  foldM (fun st P => let '(n, e) := st in
           np <- rd (i_dn P) c ;; ep <- rd (i_es P) c ;; Some (n + np, e + ep))
        (0, 0) Ps.

(** L90-106: the work item (cell, index). *)
Definition union_kernel (d : device) (Ps : list iset) (m : pmap) (lay : list nat) (p : nat * nat)
    : option (list nat) :=
  let '(c, index) := p in
  r <- foldM (fun st P => let '(lay, offset) := st in
         n <- rd (i_dn P) c ;;
         lay' <- foldM (fun lay ix => v <- i_layer P c ix ;; put_layer m lay c (offset + ix) v) lay
                   (for_loop index n (local_size d)) ;;
         Some (lay', offset + n)) (lay, 0) Ps ;;
  Some (fst r).

(** L24-127, [DisjointUnionSubGroupSelector::create]; [nps] are the npart_local of
    the parents.  L14-18: a parent that is the whole group is rejected. *)
Definition union_create (d : device) (k cc : nat) (Ps : list iset) (nps : list nat) (m : pmap)
    : option (pmap * selection) :=
  _ <- assert (forallb (fun P => negb (i_whole P)) Ps) ;;
  st <- foldM (fun st c => let '(dn, des) := st in
          r <- union_counts Ps c ;;
          dn' <- upd dn c (fst r) ;; des' <- upd des c (snd r) ;; Some (dn', des'))
          (m_dn m, m_des m) (ord d k (seq 0 cc)) ;;
  let '(dn, des) := st in
  hn <- copy_prefix dn (m_hn m) cc ;;
  hes <- copy_prefix des (m_hes m) cc ;;
  m1 <- map_create d (k + 1) cc 0 cc (with_counts m hn dn hes des) ;;
  lay <- foldM (union_kernel d Ps m1) (m_layers m1)
           (ord d (k + 2) (list_prod (seq 0 cc) (seq 0 (local_size d)))) ;;
  i <- sub_ cc 1 ;;
  e <- rd hes i ;;
  n <- rd hn i ;;
  _ <- assert (e + n =? list_sum nps) ;;
  Some (with_layers m1 lay, {| s_npart := e + n; s_ncell := cc |}).

(* ------------------------------------------------------------------ *)
(** Partition by the value of a property. *)

(** include/neso_particles/particle_sub_group/particle_group_partition.hpp L173-188,
    loop_0: [val c l] is the value held by the particle at (cell, layer), [ex] tells
    which partitions still have a sub-group. *)
Definition partition_loop_0 (cc : nat) (ex : list bool) (val : nat -> nat -> Z) (P : iset)
    (st : list nat * list nat) (p : nat * nat) : option (list nat * list nat) :=
  let '(pl, counts) := st in
  let '(c, l) := p in
  layer <- i_layer P c l ;;
  let part := val c layer in
  if (0 <=? part)%Z && (part <? Z.of_nat (length ex))%Z then
    e <- rd ex (Z.to_nat part) ;;
    if e : bool then
      v <- rd counts (Z.to_nat part * cc + c) ;;
      counts' <- upd counts (Z.to_nat part * cc + c) (v + 1) ;;
      idx <- get_loop_linear_index (i_es P) 0 c l ;;
      pl' <- upd pl idx v ;;
      Some (pl', counts')
    else Some st
  else Some st.

(** L199-215, loop_1; [ms] are the maps of the partitions and [lays] their arrays. *)
Definition partition_loop_1 (ex : list bool) (val : nat -> nat -> Z) (P : iset) (pl : list nat)
    (ms : list pmap) (lays : list (list nat)) (p : nat * nat) : option (list (list nat)) :=
  let '(c, l) := p in
  layer <- i_layer P c l ;;
  idx <- get_loop_linear_index (i_es P) 0 c l ;;
  j <- rd pl idx ;;
  let part := val c layer in
  if (0 <=? part)%Z && (part <? Z.of_nat (length ex))%Z then
    e <- rd ex (Z.to_nat part) ;;
    if e : bool then
      m <- rd ms (Z.to_nat part) ;;
      offset <- rd (m_des m) c ;;
      upd2 lays (Z.to_nat part) (offset + j) layer
    else Some lays
  else Some lays.

(** src/particle_sub_group/particle_group_partition.cpp L90-149 for one partition
    which still exists: counts, exclusive sum, their host copies and the map.  The
    host loops over the partitions work on separate arrays and are run here one
    partition after the other. *)
Definition partition_prepare (d : device) (k cc : nat) (counts : list nat) (px : nat) (m : pmap) : option pmap :=
  st <- foldM (fun st c => let '(dn, kINT, des) := st in
          n <- rd counts (cc * px + c) ;;
          dn' <- upd dn c n ;; kINT' <- upd kINT c n ;; des' <- upd des c 0 ;; Some (dn', kINT', des'))
          (m_dn m, fresh d k cc, m_des m) (ord d (k + 1) (seq 0 cc)) ;;
  let '(dn, kINT, des0) := st in
  des <- joint_exclusive_scan1 Nat.add 0 (Z.to_nat (junk d (k + 2) 0)) cc kINT des0 ;;
  hn <- copy_prefix dn (m_hn m) (length dn) ;;
  hes <- copy_prefix des (m_hes m) (length des) ;;
  map_create d (k + 3) cc 0 cc (with_counts m hn dn hes des).

(** src/particle_sub_group/particle_group_partition.cpp L36-202,
    [ParticleGroupPartitioner::create]; [ms] are the maps of the sub-groups, [ex]
    tells which of them still exist, [gn] is the number of particles of the whole
    group.  The loops see two parents as in [selector_create]. *)
Definition partition_create (d : device) (k cc gn : nat) (ex : list bool) (val : nat -> nat -> Z)
    (P0 P1 : iset) (ms : list pmap) : option (list pmap * list selection) :=
  if length ex =? 0 then Some (ms, [])
  else
    counts0 <- fill_prefix 0 (fresh d k (cc * length ex)) (cc * length ex) ;;
    st <- foldM (partition_loop_0 cc ex val P0) (fresh d (k + 1) gn, counts0)
            (ord d (k + 2) (particles_of_cells (i_dn P0) 0 cc)) ;;
    let '(pl, counts) := st in
    ms1 <- mapM (fun px => e <- rd ex px ;; m <- rd ms px ;;
              if e : bool then partition_prepare d (k + 10 + 10 * px) cc counts px m else Some m)
            (seq 0 (length ex)) ;;
    lays <- foldM (partition_loop_1 ex val P1 pl ms1) (map m_layers ms1)
              (ord d (k + 3) (particles_of_cells (i_dn P1) 0 cc)) ;;
    ms2 <- mapM (fun px => m <- rd ms1 px ;; lay <- rd lays px ;; Some (with_layers m lay))
             (seq 0 (length ex)) ;;
    Some (ms2, map (fun m => {| s_npart := m_total m; s_ncell := cc |}) ms2).

(* ------------------------------------------------------------------ *)
(** Reading a selection. *)

(** src/particle_sub_group/sub_group_selector_base.cpp L7-30,
    [get_host_map_cells_to_particles]. *)
Definition get_host_map (s : selection) (m : pmap) : option (list (list nat)) :=
  mapM (fun c => n <- rd (m_hn m) c ;;
          if 0 <? n then p <- rd (m_starts m) c ;; slice (m_layers m) p (p + n)
          else Some []) (seq 0 (s_ncell s)).

(** src/particle_sub_group/particle_sub_group_base.cpp L7-28,
    [ParticleSubGroup::get_cells_layers]: fills two vectors of npart_local entries. *)
Definition get_cells_layers (d : device) (k : nat) (s : selection) (m : pmap) : option (list nat * list nat) :=
  hm <- get_host_map s m ;;
  r <- foldM (fun st p => let '(cells, layers, index) := st in
         cells' <- upd cells index (fst p) ;;
         layers' <- upd layers index (snd p) ;;
         Some (cells', layers', index + 1))
         (fresh d k (s_npart s), fresh d (k + 1) (s_npart s), 0)
         (flat_map (fun c => map (pair c) (nth c hm [])) (seq 0 (s_ncell s))) ;;
  Some (fst r).

(** include/neso_particles/particle_sub_group/particle_loop_sub_group.hpp L181-203:
    the particle visited by the work item with loop index (c, l). *)
Definition sub_group_visit (m : pmap) (p : nat * nat) : option (nat * nat) :=
  layer <- i_layer (sub_iset m) (fst p) (snd p) ;; Some (fst p, layer).
