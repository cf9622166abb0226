(** Model of the iteration set of a particle loop:
    src/loop/particle_loop_iteration_set.cpp, include/neso_particles/loop/
    particle_loop_iteration_set.hpp, particle_loop.hpp,
    particle_loop_reduction.hpp, particle_loop_index.hpp and
    src/loop/particle_loop_base.cpp. *)
From Coq Require Import List Arith ZArith Bool.
Import ListNotations.
From Verif Require Import Base Scan_Model Group_Model.

(** include/neso_particles/typedefs.hpp L214-219 [get_prev_power_of_two].
    [log2] in double precision, truncated, is taken to be the exact integer
    logarithm (true for the sizes a device can launch); [log2(0)] is a failure. *)
Definition get_prev_power_of_two (n : nat) : option nat :=
  if n =? 0 then None else Some (Nat.max (2 ^ Nat.log2 n) 1).

(** Device limits (include/neso_particles/device_limits.hpp): maximum global
    range in the two dimensions (0 means no limit), maximum work group size,
    bytes of local memory. *)
Record limits := {
  lim_global0 : nat;
  lim_global1 : nat;
  lim_group : nat;
  lim_mem : nat
}.

Section IterationSet.
  Context (lim : limits).

  (** device_limits.hpp L84-98, L107-124, L133-153 [validate_nd_range] for the
      global range (r0, r1) with local range (1, ls). The per-dimension limit of
      the local range is not modelled separately. *)
  Definition validate_nd_range (r0 r1 ls : nat) : option unit :=
    assert (((lim_global0 lim =? 0) || (r0 <=? lim_global0 lim)) &&
            ((lim_global1 lim =? 0) || (r1 <=? lim_global1 lim)) &&
            (ls <=? lim_group lim) && negb (ls =? 0) && (r1 mod ls =? 0)).

  (** particle_loop_iteration_set.cpp L76-84 [get_global_size]. *)
  Definition get_global_size (N ls : nat) : nat :=
    (N / ls + (if N mod ls =? 0 then 0 else 1)) * ls.

  (** particle_loop_iteration_set.cpp L87-106 [get_local_size]. *)
  Definition get_local_size (ls nbytes stride : nat) : option nat :=
    let per_block := stride * nbytes in
    _ <- assert (per_block <=? lim_mem lim) ;;
    let max_blocks := if nbytes =? 0 then ls else lim_mem lim / per_block in
    p <- get_prev_power_of_two max_blocks ;;
    let ls' := Nat.min p ls in
    _ <- assert (ls' * stride * nbytes <=? lim_mem lim) ;;
    Some ls'.

  (** particle_loop_iteration_set.hpp L61-65 [ParticleLoopBlockDevice] and
      L155-175 [ParticleLoopBlockHost]. *)
  Record block := mk_block {
    offset_cell : nat;
    offset_layer : nat;
    bounds_check : bool;
    range0 : nat;      (* global range, first dimension *)
    range1 : nat;      (* global range, second dimension *)
    range_local : nat  (* local range, second dimension *)
  }.

  (** particle_loop_iteration_set.cpp L140-151: first and last + 1 cell of the
      range that hold particles. *)
  Definition nonempty_range (h : list nat) (cell_start cell_end : nat) : option (nat * nat) :=
    foldM (fun s c => occ <- rd h c ;;
             if occ =? 0 then Some s else Some (Nat.min (fst s) c, Nat.max (snd s) (c + 1)))
          (length h, 0) (seq cell_start (cell_end - cell_start)).

  (** L155-162: minimum ([None] is the initial numeric maximum) and maximum
      (initially 1) occupancy. *)
  Definition occupancy_range (h : list nat) (a b : nat) : option (option nat * nat) :=
    foldM (fun s c => occ <- rd h c ;;
             Some (match fst s with None => Some occ | Some m => Some (Nat.min m occ) end,
                   Nat.max (snd s) occ))
          (None, 1) (seq a (b - a)).

  (** L193-216: the peel loop of one bin (at most one block). *)
  Definition peel_block (h : list nat) (nbin range startv min_occ ls stride binx : nat)
    : option (list block) :=
    let start := decomp_start nbin range binx + startv in
    let fin := decomp_end nbin range binx + startv in
    mx <- foldM (fun m c => npart <- rd h c ;; Some (Nat.max m npart)) 0 (seq start (fin - start)) ;;
    cell_max_occ <- sub_ mx min_occ ;;
    if 0 <? cell_max_occ then
      let global_range := get_global_size (get_next_multiple cell_max_occ stride / stride) ls in
      _ <- validate_nd_range (fin - start) global_range ls ;;
      Some [mk_block start (min_occ / stride) true (fin - start) global_range ls]
    else Some [].

  (** particle_loop_iteration_set.cpp L125-219 [get_generic].  [h] are the host
      side cell counts.  [iteration_set_size] (a profiling counter) is left out. *)
  Definition get_generic (h : list nat) (cell_start cell_end nbin local_size0 nbytes stride : nat)
    : option (list block) :=
    ls0 <- get_local_size local_size0 nbytes stride ;;
    _ <- assert (0 <? ls0) ;;
    r <- nonempty_range h cell_start cell_end ;;
    let '(startv, endv) := r in
    o <- occupancy_range h startv endv ;;
    let '(min0, max_occ) := o in
    p <- get_prev_power_of_two max_occ ;;
    let ls := if 2 * p <? ls0 then 2 * p else ls0 in
    if endv <=? startv then Some []
    else
      let range := endv - startv in
      let nbin' := Nat.min nbin range in
      m <- min0 ;;
      let min_occ := m / (ls * stride) * (ls * stride) in
      first <- (if 0 <? min_occ then
                  _ <- validate_nd_range range (min_occ / stride) ls ;;
                  Some [mk_block startv 0 false range (min_occ / stride) ls]
                else Some []) ;;
      peels <- mapM (peel_block h nbin' range startv min_occ ls stride) (seq 0 nbin') ;;
      Some (first ++ concat peels).

  (** src/loop/particle_loop_base.cpp L7-33 [determine_iteration_set]: is it
      all cells, first cell, last cell + 1. *)
  Definition determine_iteration_set (ncell : nat) (cell_start cell_end : option Z)
    : option (bool * Z * Z) :=
    match cell_start, cell_end with
    | None, None => Some (true, 0%Z, Z.of_nat ncell)
    | Some s, None => Some (false, s, (s + 1)%Z)
    | Some s, Some e => Some ((s =? 0)%Z && (e =? Z.of_nat ncell)%Z, s, e)
    | None, Some _ => None
    end.

  (** src/loop/particle_loop_base.cpp L61-84 [iteration_set_is_empty].
      [has_group]: the loop was created from a group (not from a dat), whose
      number of particles is [npart_local]. *)
  Definition iteration_set_is_empty (h : list nat) (has_group : bool) (npart_local : nat)
      (all_cells : bool) (s e : Z) : option bool :=
    if negb all_cells then
      let n := Z.of_nat (length h) in
      _ <- assert ((-1 <? s) && (s <=? n) && (-1 <? e) && (e <=? n))%Z ;;
      mx <- foldM (fun m c => occ <- rd h c ;; Some (Nat.max m occ)) 0
              (seq (Z.to_nat s) (Z.to_nat e - Z.to_nat s)) ;;
      Some (mx =? 0)
    else if has_group then Some (npart_local =? 0)
    else Some false.

  (** particle_loop.hpp L150-202 [prepare_submit] (identical in
      particle_loop_sub_group.hpp L84-143): the blocks a loop launches. *)
  Definition prepare_submit (h : list nat) (has_group : bool) (npart_local nbin local_size0 stride : nat)
      (cell_start cell_end : option Z) : option (list block) :=
    t <- determine_iteration_set (length h) cell_start cell_end ;;
    let '(all_cells, s, e) := t in
    empty <- iteration_set_is_empty h has_group npart_local all_cells s e ;;
    if empty then Some []
    else if all_cells then get_generic h 0 (length h) nbin local_size0 0 stride
    else get_generic h (Z.to_nat s) (Z.to_nat e) nbin local_size0 0 stride.
End IterationSet.

(** ** Which particles the work items of a block visit *)
Section Visits.
  (** [dn]: the device side cell counts. *)
  Context (dn : list nat).

  (** particle_loop_iteration_set.hpp L112-115 [work_item_required]. *)
  Definition work_item_required (cell layer : nat) : option bool :=
    n <- rd dn cell ;; Some (layer <? n).

  Definition items (b : block) : list (nat * nat) :=
    list_prod (seq 0 (range0 b)) (seq 0 (range1 b)).

  (** particle_loop.hpp L216-283 [submit]: the particles for which work item
      [w] of the block calls the kernel.  [single]: compiled with
      NESO_PARTICLES_SINGLE_COMPILED_LOOP.  get_cell_layer is
      particle_loop_iteration_set.hpp L92-97. *)
  Definition visit_plain (single : bool) (b : block) (w : nat * nat) : option (list (nat * nat)) :=
    let cell := fst w + offset_cell b in
    let layer := snd w + offset_layer b in
    if single || bounds_check b then
      r <- work_item_required cell layer ;; Some (if r then [(cell, layer)] else [])
    else Some [(cell, layer)].

  (** particle_loop_reduction.hpp L98-136 [submit] with
      get_interlaced_cell_layer, particle_loop_iteration_set.hpp L75-84. *)
  Definition interlaced_layer (b : block) (stride g1 stride_index : nat) : nat :=
    offset_layer b * stride + g1 / range_local b * stride * range_local b +
    stride_index * range_local b + g1 mod range_local b.
  Definition visit_reduction (stride : nat) (b : block) (w : nat * nat) : option (list (nat * nat)) :=
    let cell := fst w + offset_cell b in
    rs <- mapM (fun s => let layer := interlaced_layer b stride (snd w) s in
                 r <- work_item_required cell layer ;; Some (if r then [(cell, layer)] else []))
            (seq 0 stride) ;;
    Some (concat rs).

  (** particle_loop_iteration_set.hpp L119-147: stride_get_cell_block,
      stride_work_item_required and stride_local_index_bound, with the loop of
      the documentation over the local index. *)
  Definition visit_blocked (stride : nat) (b : block) (w : nat * nat) : option (list (nat * nat)) :=
    let cell := fst w + offset_cell b in
    let blk := snd w + offset_layer b in
    n <- rd dn cell ;;
    if blk * stride <? n then
      bound <- sub_ (Nat.min ((blk + 1) * stride) n) (blk * stride) ;;
      Some (map (fun i => (cell, blk * stride + i)) (seq 0 bound))
    else Some [].

  (** All kernel calls of a loop, launch after launch, in the order of the work
      item ids (the execution order is arbitrary: properties are about the
      multiset). *)
  Definition all_visits (visit : block -> nat * nat -> option (list (nat * nat))) (bs : list block)
    : option (list (nat * nat)) :=
    rs <- mapM (fun b => r <- mapM (visit b) (items b) ;; Some (concat r)) bs ;;
    Some (concat rs).
End Visits.

(** ** Linear indices, particle_loop_index.hpp L47-66 *)
(** [es]: prefix sums of the group's cell counts; [es_lb]: prefix sums of the
    counts of the iteration set (group or sub-group). *)
Definition get_local_linear_index (es : list nat) (cell layer : nat) : option nat :=
  e <- rd es cell ;; Some (e + layer).
Definition get_loop_linear_index (es_lb : list nat) (starting_cell cell loop_layer : nat) : option nat :=
  e <- rd es_lb cell ;; s <- rd es_lb starting_cell ;; sub_ (e + loop_layer) s.
Definition get_sub_linear_index (es_lb : list nat) (cell loop_layer : nat) : option nat :=
  e <- rd es_lb cell ;; Some (e + loop_layer).
