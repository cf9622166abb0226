(** Model of the reductions of particle values into the matrices of a CellDatConst:
    include/neso_particles/algorithms/reduce_dat_cellwise.hpp, the loops with a
    reduction argument (loop/particle_loop_reduction.hpp, particle_sub_group/
    particle_loop_sub_group_reduction.hpp, containers/cell_dat_const.hpp) and the
    operations of include/neso_particles/device_functions.hpp they use. *)
From Coq Require Import List Arith ZArith Bool.
Import ListNotations.
From Verif Require Import Base Scan_Model Compress_Model Group_Model Loop_Model Loop_Spec SubGroup_Model CellConst_Model.

Section Reduce.
  (** The binary operation (Kernel::plus, minimum, maximum) and get_identity of it,
      device_functions.hpp L593-605. *)
  Context {T : Type} (op : T -> T -> T) (ident : T).

  (** sycl::reduce_over_group: the values of the work items of a group, combined in an
      order the device chooses. *)
  Definition reduce_over_group (d : device) (k : nat) (vals : list T) : option T :=
    match ord d k vals with [] => None | v :: l => Some (fold_left op l v) end.

  (** One work group reduces [n] values, reduce_dat_cellwise.hpp L115-126 (and
      L238-248): [get i] is the value with index [i]. *)
  Definition group_reduce (d : device) (k : nat) (get : nat -> option T) (n : nat) : option T :=
    vals <- mapM (fun w => foldM (fun value i => v <- get i ;; Some (op value v)) ident (for_loop w n (local_size d)))
              (seq 0 (local_size d)) ;;
    reduce_over_group d k vals.

  (** device_functions.hpp L629-643 [joint_reduce] (not the Intel compiler, where it is
      the SYCL function of that name). *)
  Definition joint_reduce (d : device) (k : nat) (column : list T) (n : nat) : option T :=
    group_reduce d k (rd column) n.

  (** The value a work group computes for a cell, reduce_dat_cellwise.hpp L53-56 for a
      group and L107-126 for a sub-group.  [dat] is the particle property:
      [component][cell][layer]; P the group or sub-group. *)
  Definition cell_reduce (d : device) (k : nat) (P : iset) (dat : list (list (list T))) (comp cellx npart : nat) : option T :=
    col <- rd dat comp ;; column <- rd col cellx ;;
    if i_whole P then joint_reduce d k column npart
    else group_reduce d k (fun index => layer <- i_layer P cellx index ;; rd column layer) npart.

  (** L23-73 and L75-141 [reduce_dat_component_cellwise_async]: one work group per
      cell, in any order. *)
  Definition component_group (d : device) (k : nat) (P : iset) (dat : list (list (list T))) (comp stride offset : nat)
      (ptr : list T) (cellx : nat) : option (list T) :=
    npart_cell <- rd (i_dn P) cellx ;;
    if 0 <? npart_cell then
      value <- cell_reduce d (k + 1 + cellx) P dat comp cellx npart_cell ;;
      let index := cellx * stride + offset in
      current <- rd ptr index ;; upd ptr index (op current value)
    else Some ptr.

  (** L280-306 [reduce_dat_component_cellwise].  That the property exists (L291) is left
      out. *)
  Definition reduce_dat_component_cellwise (d : device) (k cell_count : nat) (P : iset) (dat : list (list (list T)))
      (comp : nat) (x : cell_const T) (row col : nat) : option (cell_const T) :=
    _ <- assert (cell_count =? cc_ncells x) ;;
    _ <- assert (row <? cc_nrow x) ;;
    _ <- assert (col <? cc_ncol x) ;;
    data <- foldM (component_group d k P dat comp (cc_stride x) (cc_nrow x * col + row)) (cc_data x)
              (ord d k (seq 0 cell_count)) ;;
    Some (cc_with x data).

  (** L144-194 and L196-262 [reduce_dat_components_cellwise_async]: one work group per
      cell and component, in any order.  The addition to the output is a read and a
      write, not an atomic operation: two groups with the same output would race. *)
  Definition components_group (d : device) (k : nat) (P : iset) (dat : list (list (list T))) (stride : nat)
      (offsets : list nat) (ptr : list T) (cellx_compx : nat) : option (list T) :=
    let num_components := length dat in
    let cellx := cellx_compx / num_components in
    comp <- sub_ cellx_compx (cellx * num_components) ;;
    npart_cell <- rd (i_dn P) cellx ;;
    if 0 <? npart_cell then
      value <- cell_reduce d (k + 1 + cellx_compx) P dat comp cellx npart_cell ;;
      off <- rd offsets comp ;;
      let index := cellx * stride + off in
      current <- rd ptr index ;; upd ptr index (op current value)
    else Some ptr.

  (** L379-390: the offsets of the outputs of the components.  The vector is
      initialised to 0. *)
  Definition output_offsets (dat_ncomp nrow ncol : nat) : option (list nat) :=
    r <- foldM (fun '(buf, index) p => buf' <- upd buf index (nrow * snd p + fst p) ;; Some (buf', index + 1))
           (repeat 0 dat_ncomp, 0) (list_prod (seq 0 nrow) (seq 0 ncol)) ;;
    Some (fst r).

  (** L343-402 [reduce_dat_components_cellwise]. *)
  Definition reduce_dat_components_cellwise (d : device) (k cell_count : nat) (P : iset) (dat : list (list (list T)))
      (x : cell_const T) : option (cell_const T) :=
    _ <- assert (cell_count =? cc_ncells x) ;;
    _ <- assert (cc_nrow x * cc_ncol x <=? length dat) ;;
    offsets <- output_offsets (length dat) (cc_nrow x) (cc_ncol x) ;;
    data <- foldM (components_group d k P dat (cc_stride x) offsets) (cc_data x)
              (ord d k (seq 0 (cell_count * length dat))) ;;
    Some (cc_with x data).
End Reduce.

(* ------------------------------------------------------------------ *)
(** Loops with a reduction. *)

(** include/neso_particles/typedefs.hpp L477-479. *)
Definition is_power_of_two (n : nat) : bool := if 0 <? n then Nat.land n (n - 1) =? 0 else false.

(** src/compute_target.cpp L382-410 [get_num_local_work_items]; the logarithm in double
    precision is taken to be exact, and log2(0) is a failure. *)
Definition get_num_local_work_items (local_mem_size num_bytes_offset num_bytes default_num : nat) : option nat :=
  if num_bytes <=? 0 then Some default_num
  else
    avail <- sub_ local_mem_size num_bytes_offset ;;
    let max_num_workitems := avail / num_bytes in
    _ <- assert (negb (max_num_workitems =? 0)) ;;
    let deduced := Nat.min default_num (2 ^ Nat.log2 max_num_workitems) in
    _ <- assert (0 <? deduced) ;;
    _ <- assert (deduced * num_bytes + num_bytes_offset <=? local_mem_size) ;;
    Some deduced.

Section Loop.
  Context {T : Type} (op : T -> T -> T) (ident : T).

  (** A call [combine(row, col, value)] of a kernel. *)
  Record contribution := mk_contribution { c_row : nat; c_col : nat; c_value : T }.

  Section Group.
    (** One work group of [range] work items; [nrow], [ncol]: the shape of the matrices;
        [la]: the local memory. *)
    Context (d : device) (nrow ncol range : nat).

    (** cell_dat_const.hpp L373-387 [reduction_initialise], by all work items in any order. *)
    Definition reduction_initialise (k : nat) (la : list T) : option (list T) :=
      foldM (fun la li => foldM (fun la ix => upd la (ix * range + li) ident) la (seq 0 (nrow * ncol))) la
        (ord d k (seq 0 range)).

    (** L129-137 [combine] by the work item with local index [li].  It only touches
        entries of that work item: which steps of other work items run between the read
        and the write does not matter. *)
    Definition combine_call (la : list T) (c : nat * contribution) : option (list T) :=
      let '(li, c) := c in
      let index := (nrow * c_col c + c_row c) * range + li in
      current <- rd la index ;; upd la index (op current (c_value c)).

    (** L406-413: the values of [s] in for (s = half; s > 0; s >>= 1). *)
    Fixpoint halvings (fuel s : nat) : list nat :=
      match fuel with
      | 0 => []
      | S f => if 0 <? s then s :: halvings f (s / 2) else []
      end.

    (** L389-424 [reduction_finalise]: per matrix entry a tree over the work items, between
        barriers in any order; work item 0 then updates the output atomically: the entry
        and the value are returned. *)
    Definition tree_step (k offset : nat) (la : list T) (s : nat) : option (list T) :=
      foldM (fun la li => if li <? s then
                            current <- rd la (li + offset) ;; other <- rd la (li + offset + s) ;;
                            upd la (li + offset) (op current other)
                          else Some la) la (ord d k (seq 0 range)).
    Definition reduction_finalise (k : nat) (la : list T) : option (list T * list (nat * T)) :=
      foldM (fun '(la, out) ex =>
               let offset := ex * range in
               la' <- foldM (tree_step (k + ex) offset) la (halvings range (range / 2)) ;;
               v <- rd la' offset ;; Some (la', out ++ [(ex, v)])) (la, []) (seq 0 (nrow * ncol)).

    (** particle_loop_reduction.hpp L104-133 (particle_loop_sub_group_reduction.hpp L98-130):
        the work group.  [init]: what the local memory holds at the start (allocated in
        cell_dat_const.hpp L350-353); [calls]: the calls of [combine] of its work items
        (local index, arguments), executed in any order. *)
    Definition work_group (k loop_local_size : nat) (init : nat -> T) (calls : list (nat * contribution))
      : option (list (nat * T)) :=
      la <- reduction_initialise k (map init (seq 0 (ncol * nrow * loop_local_size))) ;;
      la <- foldM combine_call la (ord d (k + 1) calls) ;;
      r <- reduction_finalise (k + 2) la ;; Some (snd r).
  End Group.

  (** What the kernel does for the particle in (cell, layer): its calls of [combine].  They
      may depend on everything the loop reads. *)
  Context (kernel : nat -> nat -> list contribution).

  (** particle_loop_reduction.hpp L114-130 (particle_loop_sub_group_reduction.hpp L107-127):
      the calls of [combine] of the work item with local index [li] of group ([g0], [gg]) of
      the launch [b]. *)
  Definition item_calls (P : iset) (stride : nat) (b : block) (g0 gg li : nat) : option (list (nat * contribution)) :=
    vs <- visit_reduction (i_dn P) stride b (g0, gg * range_local b + li) ;;
    cs <- mapM (fun v => layer <- i_layer P (fst v) (snd v) ;; Some (kernel (fst v) layer)) vs ;;
    Some (map (pair li) (concat cs)).

  (** The atomic updates (L415-418: address, value) of one work group. *)
  Definition group_updates (d : device) (k stride loop_local_size : nat) (init : nat -> nat -> T) (P : iset) (x : cell_const T)
      (n : nat) (g : block * (nat * nat)) : option (list (nat * T)) :=
    let '(b, (g0, gg)) := g in
    let kk := k + n * (3 + cc_nrow x * cc_ncol x) in
    calls <- mapM (item_calls P stride b g0 gg) (seq 0 (range_local b)) ;;
    out <- work_group d (cc_nrow x) (cc_ncol x) (range_local b) kk loop_local_size (init n) (concat calls) ;;
    Some (map (fun u => ((g0 + offset_cell b) * (cc_nrow x * cc_ncol x) + fst u, snd u)) out).

  Definition launch_groups (bs : list block) : list (block * (nat * nat)) :=
    flat_map (fun b => map (pair b) (list_prod (seq 0 (range0 b)) (seq 0 (range1 b / range_local b)))) bs.

  (** particle_loop_reduction.hpp L82-137 [submit] with prepare_submit, particle_loop.hpp
      L150-202, and pre_loop, cell_dat_const.hpp L432-438: [loop_local_size] is the local size
      of the global info, [ncell] the number of cells, the first entries of the counts (those
      of a sub-group are followed by other data).  The self test of L454-532 is left out.  The launches are not
      ordered: all the atomic updates happen in any order. *)
  Definition reduction_loop (d : device) (k : nat) (lim : limits) (ncell nbin loop_local_size stride : nat) (init : nat -> nat -> T)
      (P : iset) (cell_start cell_end : option Z) (x : cell_const T) : option (cell_const T) :=
    _ <- assert (is_power_of_two loop_local_size) ;;
    let h := firstn ncell (i_hn P) in
    bs <- prepare_submit lim h true (list_sum h) nbin loop_local_size stride cell_start cell_end ;;
    let gs := launch_groups bs in
    us <- mapM (fun g => group_updates d (k + 1) stride loop_local_size init P x (fst g) (snd g))
            (combine (seq 0 (length gs)) gs) ;;
    data <- foldM (fun data u => current <- rd data (fst u) ;; upd data (fst u) (op current (snd u)))
              (cc_data x) (ord d k (concat us)) ;;
    Some (cc_with x data).
End Loop.
