(** Model of the operations that work cell by cell: the number of particles per cell,
    element wise expressions of CellDatConst objects
    (include/neso_particles/algorithms/cellwise_methods.hpp), the broadcast of a value per
    cell and the copies between EphemeralDats and ParticleDats
    (include/neso_particles/algorithms/particle_data_movement.hpp). *)
From Coq Require Import List Arith Bool.
Import ListNotations.
From Verif Require Import Base CellDat_Model CellConst_Model.

Section Counts.
  Context {T : Type}.
  (** cellwise_methods.hpp L17-57 [get_npart_cell].  [npart_cell] is d_npart_cell of the
      cell id ParticleDat, or of the selection of the sub group.  [conv] is the conversion
      of int to the value type.  [row] and [col] are int in the code; negative values are
      not modelled. *)
  Definition get_npart_cell (d : device) (conv : nat -> T) (cell_count : nat) (npart_cell : list nat) (x : cell_const T) (row col : nat) : option (cell_const T) :=
    _ <- assert (cc_ncells x =? cell_count) ;;
    _ <- assert (row <? cc_nrow x) ;;
    _ <- assert (col <? cc_ncol x) ;;
    let stride := cc_nrow x * cc_ncol x in
    data <- foldM (fun m idx => v <- rd npart_cell idx ;; upd m (idx * stride + cc_nrow x * col + row) (conv v))
                  (cc_data x) (ord d 0 (seq 0 cell_count)) ;;
    Some (cc_with x data).
End Counts.

Section ElementWise.
  Context {T : Type}.
  (** The CellDatConst objects that exist.  The result and the arguments are numbers of
      objects, so that the result may be one of the arguments.  Simplification: all
      objects have one value type; the conversion of the result is part of the kernel. *)
  Definition dats := list (cell_const T).

  Definition one_by_one (x : cell_const T) : bool := (cc_nrow x =? 1) && (cc_ncol x =? 1).

  (** L204-214 [lambda_check_args]: whether the argument is broadcast. *)
  Definition check_arg (result dat : cell_const T) : option bool :=
    _ <- assert (cc_ncells dat =? cc_ncells result) ;;
    if negb (one_by_one result) && one_by_one dat then Some true
    else
      _ <- assert (cc_nrow dat =? cc_nrow result) ;;
      _ <- assert (cc_ncol dat =? cc_ncol result) ;;
      Some false.

  (** L115-126 [get_element_values] and L128-148 [get_element_values_broadcast] with the
      masks of L150-160 [get_broadcast_masks], for one argument. *)
  Definition get_element (broadcasting : bool) (linear_index index_cell : nat) (s : dats) (a : nat) : option T :=
    x <- rd s a ;;
    if broadcasting then
      let mask := if one_by_one x then 1 else 0 in
      rd (cc_data x) (mask * index_cell + (1 - mask) * linear_index)
    else rd (cc_data x) linear_index.

  (** L232-251 and L262-280: one work item. *)
  Definition element_item (broadcasting : bool) (kernel : list T -> T) (nrow ncol result : nat) (args : list nat) (s : dats) (idx : nat * nat * nat) : option dats :=
    let '(index_cell, index_col, index_row) := idx in
    let linear_index := nrow * index_col + index_row + index_cell * nrow * ncol in
    kernel_args <- mapM (get_element broadcasting linear_index index_cell s) args ;;
    out <- rd s result ;;
    data <- upd (cc_data out) linear_index (kernel kernel_args) ;;
    upd s result (cc_with out data).

  (** The index space sycl::range<3>(cell_count, ncol, nrow). *)
  Definition range3 (a b c : nat) : list (nat * nat * nat) :=
    flat_map (fun i => flat_map (fun j => map (fun k => (i, j, k)) (seq 0 c)) (seq 0 b)) (seq 0 a).

  (** L190-289 [cell_dat_const_loop_element_wise]. *)
  Definition element_wise (d : device) (kernel : list T -> T) (result : nat) (args : list nat) (s : dats) : option dats :=
    r <- rd s result ;;
    flags <- mapM (fun a => x <- rd s a ;; check_arg r x) args ;;
    let broadcasting := existsb (fun b => b) flags in
    foldM (element_item broadcasting kernel (cc_nrow r) (cc_ncol r) result args) s
          (ord d 0 (range3 (cc_ncells r) (cc_ncol r) (cc_nrow r))).
End ElementWise.

Section Movement.
  Context {T V : Type}.
  (** The data of a ParticleDat or an EphemeralDat: cell, component, row. *)
  Definition pdat := list (list (list T)).

  (** The iteration set of a particle loop over a sub group: [sel] lists the layers per
      cell.  For the whole group these are all layers.  An item is a cell, the position in
      the selection (loop_layerx) and the layer (layerx). *)
  Definition loop_items (sel : list (list nat)) : list (nat * nat * nat) :=
    flat_map (fun cl => map (fun kl => (fst cl, fst kl, snd kl)) (combine (seq 0 (length (snd cl))) (snd cl))) (combine (seq 0 (length sel)) sel).

  (** particle_data_movement.hpp L117-151 [cellwise_broadcast].  [buffer] is the buffer of
      the resource stack after realloc_no_copy, with arbitrary contents and at least
      [cell_count] entries; [conv] converts VALUE_TYPE to SYM_TYPE. *)
  Definition cellwise_broadcast (d : device) (conv : V -> T) (cell_count : nat) (sel : list (list nat)) (component : nat) (values buffer : list V) (dat : pdat) : option pdat :=
    _ <- assert (length values =? cell_count) ;;
    k_buffer <- memcpy buffer 0 values 0 cell_count ;;
    foldM (fun m it => let '(cell, loop_layer, layer) := it in
             v <- rd k_buffer cell ;; upd3 m cell component layer (conv v))
          dat (ord d 0 (loop_items sel)).

  (** L19-49 [copy_ephemeral_dat_to_particle_dat].  [ncomp_src] and [ncomp_dst] are the
      numbers of components; at_ephemeral uses the position in the selection
      (pli_particle_dat.hpp L27-29, L43-45). *)
  Definition ephemeral_to_particle (d : device) (sel : list (list nat)) (ncomp_src ncomp_dst : nat) (src dst : pdat) : option pdat :=
    _ <- assert (ncomp_src =? ncomp_dst) ;;
    foldM (fun m it => let '(cell, loop_layer, layer) := it in
             foldM (fun m cx => v <- rd3 src cell cx loop_layer ;; upd3 m cell cx layer v) m (seq 0 ncomp_src))
          dst (ord d 0 (loop_items sel)).

  (** L68-98 [copy_particle_dat_to_ephemeral_dat]. *)
  Definition particle_to_ephemeral (d : device) (sel : list (list nat)) (ncomp_src ncomp_dst : nat) (src dst : pdat) : option pdat :=
    _ <- assert (ncomp_src =? ncomp_dst) ;;
    foldM (fun m it => let '(cell, loop_layer, layer) := it in
             foldM (fun m cx => v <- rd3 src cell cx layer ;; upd3 m cell cx loop_layer v) m (seq 0 ncomp_src))
          dst (ord d 0 (loop_items sel)).
End Movement.
