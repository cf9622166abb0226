(** Model of the functions that add particles to a group: src/particle_group.cpp
    L7-32 and L281-1012, include/neso_particles/particle_group.hpp. *)
From Coq Require Import List Arith ZArith Bool.
Import ListNotations.
From Verif Require Import Base Group_Model Move_Model.

(** The properties of a group for one value type, in the order of the map
    particle_dats_real / particle_dats_int: (name, number of components)
    (particle_group.hpp; the pointer tables are indexed in the same order:
    src/particle_group_pointer_map.cpp L60-110). *)
Definition pspec := list (nat * nat).

(** The position of the first component of property [i] among the flattened
    components (d_ncomp_exscan_real, src/particle_group_pointer_map.cpp). *)
Definition comp_offset (sp : pspec) (i : nat) : nat := list_sum (firstn i (map snd sp)).

(** The index of a name in a specification: particle_group.hpp [contains_dat],
    map_sym_to_index_*, and ParticleSetDeviceSpec::get_sym_index
    (src/containers/particle_set_device.cpp L43-59). *)
Fixpoint find_sym (sym : nat) (sp : pspec) : option nat :=
  match sp with
  | [] => None
  | (s, _) :: sp' => if sym =? s then Some 0 else option_map S (find_sym sym sp')
  end.

(** Writing all components of property [i] at (cell, layer), component [cx]
    being [vals cx]: the loops "for cx < ncomp: ptr[cell][cx][layer] = ...". *)
Definition write_dat {V} (sp : pspec) (i cell layer : nat)
    (vals : list (list (list V)) -> nat -> option V) (D : list (list (list V)))
  : option (list (list (list V))) :=
  nc <- rd (map snd sp) i ;;
  foldM (fun D cx => v <- vals D cx ;; upd3 D (comp_offset sp i + cx) cell layer v) D (seq 0 nc).

Section Add.
  Context (d : device).

  (** ** src/particle_group.cpp L7-32 [get_new_layers] *)
  (** L19-30: one work item.  The state is (d_npart_cell, layers).  The atomic
      fetch-and-add is one indivisible step. *)
  Definition new_layer_item (cells : list Z) (s : list nat * list Z) (i : nat)
    : option (list nat * list Z) :=
    cell <- rd cells i ;;
    if valid_cell (length (fst s)) cell then
      layer <- rd (fst s) (Z.to_nat cell) ;;
      np' <- upd (fst s) (Z.to_nat cell) (layer + 1) ;;
      layers' <- upd (snd s) i (Z.of_nat layer) ;;
      Some (np', layers')
    else
      layers' <- upd (snd s) i (-1)%Z ;;
      Some (fst s, layers').
  (** [layers0] is the uninitialised output array.  Returns the new counts and
      the layers. *)
  Definition get_new_layers (np : list nat) (cells layers0 : list Z) : option (list nat * list Z) :=
    let npart := length cells in
    if 0 <? npart then foldM (new_layer_item cells) (np, layers0) (ord d 200 (seq 0 npart))
    else Some (np, layers0).

  (** ** L812-1012 [add_particles_local(ParticleSet &)] *)
  (** A ParticleSet (src/particle_set.cpp): name -> column major data. *)
  Definition pset (V : Type) := list (nat * list V).
  Definition pset_get {V} (s : pset V) (sym : nat) : option (list V) :=
    option_map snd (find (fun e => sym =? fst e) s).

  (** L824-838 [lambda_test_data]. *)
  Definition test_data {V} (sp : pspec) (set : pset V) (n : nat) : option unit :=
    foldM (fun _ e => match pset_get set (fst e) with
                      | Some data => assert (snd e =? length data / n)
                      | None => Some tt
                      end) tt sp.

  (** L850-892: the staging buffer, the (dat index, offset in the buffer) pairs of
      the properties to copy and the dat indices to zero. *)
  Definition stage_item {V} (sp : pspec) (set : pset V) (n : nat)
      (s : list V * list (nat * nat) * list nat) (i : nat) : option (list V * list (nat * nat) * list nat) :=
    let '(buf, copies, zeros) := s in
    e <- rd sp i ;;
    match pset_get set (fst e) with
    | Some data => chunk <- slice data 0 (snd e * n) ;;
                   Some (buf ++ chunk, copies ++ [(i, length buf)], zeros)
    | None => Some (buf, copies, zeros ++ [i])
    end.
  Definition stage {V} (sp : pspec) (set : pset V) (n : nat) : option (list V * list (nat * nat) * list nat) :=
    foldM (stage_item sp set n) ([], [], []) (seq 0 (length sp)).

  (** L898-906: the host loop that counts the new particles; the state is
      (h_npart_cell, layers so far). *)
  Definition host_layer_item (s : list nat * list nat) (id : Z) : option (list nat * list nat) :=
    _ <- assert (valid_cell (length (fst s)) id) ;;
    layer <- rd (fst s) (Z.to_nat id) ;;
    np' <- upd (fst s) (Z.to_nat id) (layer + 1) ;;
    Some (np', snd s ++ [layer]).

  (** L947-962 and L963-978: copy kernel, work item (dx, particle). *)
  Definition set_copy_item {V} (sp : pspec) (n : nat) (buf : list V) (copies : list (nat * nat))
      (cells layers : list nat) (D : list (list (list V))) (w : nat * nat) : option (list (list (list V))) :=
    e <- rd copies (fst w) ;;
    cell <- rd cells (snd w) ;;
    layer <- rd layers (snd w) ;;
    write_dat sp (fst e) cell layer (fun _ cx => rd buf (snd e + (cx * n + snd w))) D.
  (** L979-994 and L995-1009: zero kernel. *)
  Definition set_zero_item {V} (sp : pspec) (zero : V) (zeros cells layers : list nat)
      (D : list (list (list V))) (w : nat * nat) : option (list (list (list V))) :=
    i <- rd zeros (fst w) ;;
    cell <- rd cells (snd w) ;;
    layer <- rd layers (snd w) ;;
    write_dat sp i cell layer (fun _ _ => Some zero) D.
  Definition set_write {V} (sp : pspec) (n : nat) (zero : V) (sg : list V * list (nat * nat) * list nat)
      (cells layers : list nat) (k : nat) (D : list (list (list V))) : option (list (list (list V))) :=
    let '(buf, copies, zeros) := sg in
    D1 <- foldM (set_copy_item sp n buf copies cells layers) D
            (ord d k (list_prod (seq 0 (length copies)) (seq 0 n))) ;;
    foldM (set_zero_item sp zero zeros cells layers) D1
      (ord d (k + 1) (list_prod (seq 0 (length zeros)) (seq 0 n))).

  (** The whole function.  [spR], [spZ]: the group's specification; [cid_sym]: the
      name of the cell id property; [n] particles.  The device copies of the
      counts and the versions are the subject of C12 and C25.  The copy and zero
      kernels write disjoint properties; SYCL may overlap them, which a
      sequence of two kernels covers because no kernel reads what the other
      writes. *)
  Definition add_particle_set {R} (zeroR : R) (uR : nat -> nat -> nat -> R) (uZ : nat -> nat -> nat -> Z)
      (spR spZ : pspec) (cid_sym : nat) (g : group R) (n : nat) (setR : pset R) (setZ : pset Z)
    : option (group R) :=
    if n =? 0 then Some g
    else
      _ <- test_data spR setR n ;;
      _ <- test_data spZ setZ n ;;
      sR <- stage spR setR n ;;
      sZ <- stage spZ setZ n ;;
      ids <- pset_get setZ cid_sym ;;
      cellids <- slice ids 0 n ;;
      s <- foldM host_layer_item (npart_cell g, []) cellids ;;
      let '(np', layers) := s in
      let cells := map Z.to_nat cellids in
      reals1 <- set_write spR n zeroR sR cells layers 210 (realloc_rows uR np' (reals (st g))) ;;
      ints1 <- set_write spZ n 0%Z sZ cells layers 212 (realloc_rows uZ np' (ints (st g))) ;;
      Some (mk_group (mk_store reals1 ints1) np').

  (** ** L462-716 [add_particles_local(std::shared_ptr<ParticleGroup>)] *)
  (** L475-488 [lambda_test_dat]. *)
  Definition test_dat (sp sp' : pspec) : option unit :=
    foldM (fun _ e => match find_sym (fst e) sp' with
                      | Some j => e' <- rd sp' j ;; assert (snd e =? snd e')
                      | None => Some tt
                      end) tt sp.

  (** L549-600: (destination index, source index) of the properties to copy and
      the destination indices to zero. *)
  Definition match_dats (sp sp' : pspec) : list (nat * nat) * list nat :=
    fold_left (fun s i => match nth_error sp i with
                          | Some e => match find_sym (fst e) sp' with
                                      | Some j => (fst s ++ [(i, j)], snd s)
                                      | None => (fst s, snd s ++ [i])
                                      end
                          | None => s
                          end) (seq 0 (length sp)) ([], []).

  (** L641-683: the part of one work item (cell, source layer) for one value
      type. *)
  Definition group_copy_item {V} (sp sp' : pspec) (zero : V) (copies : list (nat * nat)) (zeros : list nat)
      (existing : list nat) (src : list (list (list V))) (D : list (list (list V))) (w : nat * nat)
    : option (list (list (list V))) :=
    n <- rd existing (fst w) ;;
    let dst_layer := n + snd w in
    D1 <- foldM (fun D e => write_dat sp (fst e) (fst w) dst_layer
                   (fun _ cx => rd3 src (comp_offset sp' (snd e) + cx) (fst w) (snd w)) D) D copies ;;
    foldM (fun D i => write_dat sp i (fst w) dst_layer (fun _ _ => Some zero) D) D1 zeros.

  (** [gs], [spR'], [spZ']: the source group and its specification (it must be
      another group, L467).  The iteration set is the one of C15, with the bounds
      check always made. *)
  Definition add_group {R} (zeroR : R) (uR : nat -> nat -> nat -> R) (uZ : nat -> nat -> nat -> Z)
      (spR spZ : pspec) (g : group R) (spR' spZ' : pspec) (gs : group R) : option (group R) :=
    let np := npart_cell g in
    let nps := npart_cell gs in
    _ <- assert (length np =? length nps) ;;
    _ <- test_dat spR spR' ;;
    _ <- test_dat spZ spZ' ;;
    np' <- mapM (fun c => a <- rd np c ;; b <- rd nps c ;; Some (a + b)) (seq 0 (length np)) ;;
    let mR := match_dats spR spR' in
    let mZ := match_dats spZ spZ' in
    (* the kernel acts on the two types separately *)
    reals1 <- foldM (group_copy_item spR spR' zeroR (fst mR) (snd mR) np (reals (st gs)))
                (realloc_rows uR np' (reals (st g))) (ord d 220 (all_particles nps)) ;;
    ints1 <- foldM (group_copy_item spZ spZ' 0%Z (fst mZ) (snd mZ) np (ints (st gs)))
               (realloc_rows uZ np' (ints (st g))) (ord d 220 (all_particles nps)) ;;
    Some (mk_group (mk_store reals1 ints1) np').

  (** ** Kernels over a list of entries with given destinations *)
  (** Where the values of one property come from. *)
  Inductive source (V : Type) :=
  | from_zero                                (* zero_dat_properties *)
  | from_data (data : list V) (off : nat)    (* matrix: data[(off + nx) * n + idx] *)
  | from_other (src : list (list (list V))) (off : nat) (* dat of another group *)
  | from_self.                               (* the dat itself *)
  Arguments from_zero {V}. Arguments from_data {V}. Arguments from_other {V}. Arguments from_self {V}.

  (** particle_group.hpp L212-232 [zero_dat_properties], particle_group.cpp
      L350-377 [lambda_copy], L380-401 [lambda_parent_copy] and L750-777: work item
      [idx].  [scells], [slayers]: the (cell, layer) to copy from. *)
  Definition entry_item {V} (zero : V) (sp : pspec) (i n : nat) (s : source V) (cells layers scells slayers : list Z)
      (D : list (list (list V))) (idx : nat) : option (list (list (list V))) :=
    cell <- rd cells idx ;;
    layer <- rd layers idx ;;
    if (-1 <? layer)%Z then
      write_dat sp i (Z.to_nat cell) (Z.to_nat layer)
        (fun D cx => match s with
                     | from_zero => Some zero
                     | from_data data off => rd data ((off + cx) * n + idx)
                     | from_other src off =>
                         c <- rd scells idx ;; l <- rd slayers idx ;;
                         _ <- assert ((0 <=? c) && (0 <=? l))%Z ;;
                         rd3 src (off + cx) (Z.to_nat c) (Z.to_nat l)
                     | from_self =>
                         c <- rd scells idx ;; l <- rd slayers idx ;;
                         _ <- assert ((0 <=? c) && (0 <=? l))%Z ;;
                         rd3 D (comp_offset sp i + cx) (Z.to_nat c) (Z.to_nat l)
                     end) D
    else Some D.

  (** One kernel per property, all entries. [src i] selects the source of
      property [i]. *)
  Definition entries_write {V} (zero : V) (sp : pspec) (n : nat) (src : nat -> option (source V))
      (cells layers scells slayers : list Z) (k : nat) (D : list (list (list V))) : option (list (list (list V))) :=
    foldM (fun D i => s <- src i ;;
             foldM (entry_item zero sp i n s cells layers scells slayers) D (ord d (k + i) (seq 0 n)))
      D (seq 0 (length sp)).

  (** ** L718-810 [add_particles_local(std::shared_ptr<ParticleSubGroup>)] for a
      sub-group that is not the whole group (a whole group is [add_group]).
      [gs]: the group of the sub-group with its specification, or None if it is
      this group; [cells], [slayers]: get_cells_layers of the sub-group. *)
  Definition sub_source {V} (sp : pspec) (gs : option (pspec * list (list (list V)))) (i : nat) : option (source V) :=
    e <- rd sp i ;;
    match gs with
    | None => Some from_self
    | Some (sp', src) =>
        match find_sym (fst e) sp' with
        | Some j => e' <- rd sp' j ;; _ <- assert (snd e =? snd e') ;; Some (from_other src (comp_offset sp' j))
        | None => Some from_zero
        end
    end.
  Definition add_sub_group {R} (zeroR : R) (uR : nat -> nat -> nat -> R) (uZ : nat -> nat -> nat -> Z)
      (spR spZ : pspec) (g : group R) (gs : option (pspec * pspec * store R)) (cells slayers : list Z)
    : option (group R) :=
    let npart := length cells in
    if 0 <? npart then
      s <- get_new_layers (npart_cell g) cells (freshZ d 201 npart) ;;
      let '(np', layers) := s in
      reals1 <- entries_write zeroR spR npart
                  (sub_source spR (option_map (fun q => (fst (fst q), reals (snd q))) gs))
                  cells layers cells slayers 1000 (realloc_rows uR np' (reals (st g))) ;;
      ints1 <- entries_write 0%Z spZ npart
                  (sub_source spZ (option_map (fun q => (snd (fst q), ints (snd q))) gs))
                  cells layers cells slayers 2000 (realloc_rows uZ np' (ints (st g))) ;;
      Some (mk_group (mk_store reals1 ints1) np')
    else Some g.

  (** ** L286-446 [add_particles_local(ProductMatrix, d_cells, d_layers, source)] *)
  (** A product matrix (containers/product_matrix.hpp, particle_set_device.cpp
      L79-105): specification and column major data of both types. *)
  Record product_matrix (R : Type) := mk_pm {
    pm_num : nat;
    pm_specR : pspec;
    pm_specZ : pspec;
    pm_real : list R;
    pm_int : list Z
  }.
  Arguments mk_pm {R}. Arguments pm_num {R}. Arguments pm_specR {R}. Arguments pm_specZ {R}.
  Arguments pm_real {R}. Arguments pm_int {R}.

  (** Parents (containers/descendant_products.hpp): cells and layers, and the
      parent group if it is another group. *)
  Record parents (R : Type) := mk_parents {
    par_cells : list Z;
    par_layers : list Z;
    par_group : option (pspec * pspec * store R)
  }.
  Arguments mk_parents {R}. Arguments par_cells {R}. Arguments par_layers {R}. Arguments par_group {R}.

  (** L403-432 [lambda_dispatch] for one value type: [off] of the matrix is the
      table d_offsets. *)
  Definition pm_source {V} (sp spm : pspec) (data : list V) (has_parents : bool)
      (other : option (pspec * list (list (list V)))) (i : nat) : option (source V) :=
    e <- rd sp i ;;
    match find_sym (fst e) spm with
    | Some j => e' <- rd spm j ;; _ <- assert (snd e =? snd e') ;; Some (from_data data (comp_offset spm j))
    | None =>
        if has_parents then
          match other with
          | Some (sp', src) => match find_sym (fst e) sp' with
                               | Some j => Some (from_other src (comp_offset sp' j))
                               | None => Some from_zero
                               end
          | None => Some from_self
          end
        else Some from_zero
    end.

  (** ParticleSpec::contains (particle_spec.hpp): every property of the matrix is
      one of the group, with the same number of components. *)
  Definition spec_contains (sp spm : pspec) : bool :=
    forallb (fun e => existsb (fun e' => (fst e =? fst e') && (snd e =? snd e')) sp) spm.

  Definition add_product_matrix {R} (zeroR : R) (uR : nat -> nat -> nat -> R) (uZ : nat -> nat -> nat -> Z)
      (spR spZ : pspec) (cid_sym : nat) (g : group R) (pm : product_matrix R) (par : option (parents R))
    : option (group R) :=
    _ <- assert (spec_contains spR (pm_specR pm) && spec_contains spZ (pm_specZ pm)) ;;
    let n := pm_num pm in
    if n =? 0 then Some g
    else
      (* L318-334 *)
      cells <- (match find_sym cid_sym (pm_specZ pm) with
                | None => match par with
                          | None => Some (repeat 0%Z n)
                          | Some p => slice (par_cells p) 0 n
                          end
                | Some cell_id_index =>
                    slice (pm_int pm) (n * cell_id_index) (n * cell_id_index + n)
                end) ;;
      s <- get_new_layers (npart_cell g) cells (freshZ d 201 n) ;;
      let '(np', layers) := s in
      let has_parents := match par with Some _ => true | None => false end in
      let scells := match par with Some p => par_cells p | None => [] end in
      let slayers := match par with Some p => par_layers p | None => [] end in
      let other := match par with Some p => par_group p | None => None end in
      reals1 <- entries_write zeroR spR n
                  (pm_source spR (pm_specR pm) (pm_real pm) has_parents
                     (option_map (fun q => (fst (fst q), reals (snd q))) other))
                  cells layers scells slayers 1000 (realloc_rows uR np' (reals (st g))) ;;
      ints1 <- entries_write 0%Z spZ n
                  (pm_source spZ (pm_specZ pm) (pm_int pm) has_parents
                     (option_map (fun q => (snd (fst q), ints (snd q))) other))
                  cells layers scells slayers 2000 (realloc_rows uZ np' (ints (st g))) ;;
      Some (mk_group (mk_store reals1 ints1) np').

  (** ** containers/descendant_products.hpp L46-66 [set_parent] and
      descendant_products.cpp L26-43 [reset]: parents are -1 until a kernel sets
      them; child [product] of the particle with loop linear index [ll]. *)
  Definition descendant_row (num_parent ll product : nat) : nat := ll + product * num_parent.
End Add.
Arguments from_zero {V}. Arguments from_data {V}. Arguments from_other {V}. Arguments from_self {V}.
Arguments mk_pm {R}. Arguments pm_num {R}. Arguments pm_specR {R}. Arguments pm_specZ {R}.
Arguments pm_real {R}. Arguments pm_int {R}.
Arguments mk_parents {R}. Arguments par_cells {R}. Arguments par_layers {R}. Arguments par_group {R}.
