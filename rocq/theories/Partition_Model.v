(** Model of src/algorithms/dsmc/collision_cell_partition.cpp and
    include/neso_particles/algorithms/dsmc/collision_cell_partition.hpp: the map
    from (mesh cell, collision cell, species) to the particles there. *)
From Coq Require Import List Arith ZArith Bool.
Import ListNotations.
From Verif Require Import Base Maps_Model Scan_Model Group_Model Compress_Model.

(** A particle as the two particle loops see it: ParticleLoopIndex::cell and
    ::layer, and the two components that hold the species id and the collision
    cell (collision_cell_partition.cpp L89-98).  The particles of the sub group are
    a list, in the order of ParticleLoopIndex::get_loop_linear_index (that the loop
    visits each of them once is C22). *)
Record particle := mk_particle { p_cell : nat; p_layer : nat; p_species : Z; p_ccell : Z }.

(** collision_cell_partition.hpp L94-133. *)
Record partition := mk_partition {
  h_map_species_id_linear_id : tree nat;
  num_species : nat;
  map_species_id_to_linear : list (Z * nat);
  species_ids : list Z;
  cell_count : nat;
  collision_cell_counts : list nat;
  max_num_collision_cells : nat;
  max_collision_cell_occupancy : nat;
  d_collision_cell_offsets : list nat;
  d_map_entries : list nat
}.

(** std::set<INT>::insert; the elements of a std::set are in increasing order. *)
Fixpoint set_insert (x : Z) (s : list Z) : list Z :=
  match s with
  | [] => [x]
  | y :: s' => if (x <? y)%Z then x :: s else if (x =? y)%Z then s else y :: set_insert x s'
  end.

(** An INT used as an array index: a negative one is a failure. *)
Definition index_of (z : Z) : option nat := if (z <? 0)%Z then None else Some (Z.to_nat z).

Section Partition.
  (** The device, the WIDTH of the species tree and the content of memory
      allocated for its nodes. *)
  Context (d : device) (W : Z) (fresh_node : nat -> node nat).

  (** collision_cell_partition.cpp L6-37, the constructor.  The buffers hold
      nothing yet (they are allocated with 32 and 1 entries that construct
      overwrites or reallocates). *)
  Definition create (cell_count : nat) (ids : list Z) : option partition :=
    _ <- assert (0 <? cell_count) ;;
    let species_id_set := fold_left (fun s x => set_insert x s) ids [] in
    let num_species := length species_id_set in
    let m := combine species_id_set (seq 0 num_species) in
    t <- foldM (fun t kv => add W fresh_node t (fst kv) (snd kv)) new_tree m ;;
    Some (mk_partition t num_species m species_id_set cell_count (repeat 0 cell_count) 0 0 [] []).

  (** L264-271 [get_linear_species_id]: the assertion fails for an unknown id. *)
  Definition get_linear_species_id (s : partition) (species_id : Z) : option nat :=
    option_map snd (find (fun e => (fst e =? species_id)%Z) (map_species_id_to_linear s)).

  (** collision_cell_partition.hpp L30-34 [get_linear_species_index] on the device:
      [Some None] if the species is not in the map.  A map without species has no
      root node. *)
  Definition get_linear_species_index (s : partition) (species_id : Z) : option (option nat) :=
    r <- root (h_map_species_id_linear_id s) ;;
    get W (heap (h_map_species_id_linear_id s)) (Some r) species_id.

  (** collision_cell_partition.hpp L60-71 [get_offset_cell_species], for the
      collision cell as stored with a particle. *)
  Definition get_offset_cell_species (s : partition) (cell_mesh : nat) (cell_collision : Z)
      (linear_species_id : nat) : option nat :=
    let stride_mesh_cells := max_num_collision_cells s * num_species s in
    let offset_cell := cell_mesh * stride_mesh_cells in
    index_of (Z.of_nat offset_cell + cell_collision * Z.of_nat (num_species s) + Z.of_nat linear_species_id).

  (** collision_cell_partition.hpp L43-51 [get_num_particles_cell_species]. *)
  Definition get_num_particles_cell_species (s : partition) (cell_mesh cell_collision linear_species_id : nat)
    : option nat :=
    offset <- get_offset_cell_species s cell_mesh (Z.of_nat cell_collision) linear_species_id ;;
    npart_rhs <- rd (d_collision_cell_offsets s) (offset + 1) ;;
    npart_lhs <- rd (d_collision_cell_offsets s) offset ;;
    sub_ npart_rhs npart_lhs.

  (** collision_cell_partition.hpp L81-88 [get_particle_layer]. *)
  Definition get_particle_layer (s : partition) (cell_mesh cell_collision linear_species_id particle_index : nat)
    : option nat :=
    index <- get_offset_cell_species s cell_mesh (Z.of_nat cell_collision) linear_species_id ;;
    offset <- rd (d_collision_cell_offsets s) index ;;
    rd (d_map_entries s) (offset + particle_index).

  (** L86-113, the body of the first particle loop: the layer of the particle in
      its collision cell by an atomic increment.  The expression of the index is
      that of get_offset_cell_species (mesh_cell * max * num_species +
      collision_cell * num_species + species). *)
  Definition determine_layer (s : partition) (parts : list particle) (st : list nat * list nat) (i : nat)
    : option (list nat * list nat) :=
    let '(cell_counts, layers) := st in
    p <- rd parts i ;;
    found <- get_linear_species_index s (p_species p) ;;
    match found with
    | None => Some st
    | Some lin =>
        ix <- get_offset_cell_species s (p_cell p) (p_ccell p) lin ;;
        n <- rd cell_counts ix ;;
        c' <- upd cell_counts ix (n + 1) ;;
        l' <- upd layers i n ;;
        Some (c', l')
    end.

  (** L134-157, the body of the second particle loop. *)
  Definition populate_map (s : partition) (parts : list particle) (layers : list nat) (entries : list nat) (i : nat)
    : option (list nat) :=
    p <- rd parts i ;;
    found <- get_linear_species_index s (p_species p) ;;
    match found with
    | None => Some entries
    | Some lin =>
        offset_species <- get_offset_cell_species s (p_cell p) (p_ccell p) lin ;;
        o <- rd (d_collision_cell_offsets s) offset_species ;;
        l <- rd layers i ;;
        upd entries (o + l) (p_layer p)
    end.

  (** L39-165 [construct].  Buffers have exactly the size asked for: an access
      beyond it is a failure, though the allocation may be larger.  The reduction
      L117-119 of an empty array (no collision cell in any mesh cell) gives the
      identity of the maximum, the model gives 0. *)
  Definition construct (k : nat) (s : partition) (parts : list particle) (counts : list nat) : option partition :=
    _ <- assert (cell_count s <=? length counts) ;;
    let counts := firstn (cell_count s) counts in
    let max_cc := list_max counts in
    let L := max_cc * cell_count s * num_species s in
    let npart := length parts in
    let s1 := mk_partition (h_map_species_id_linear_id s) (num_species s) (map_species_id_to_linear s) (species_ids s)
                (cell_count s) counts max_cc (max_collision_cell_occupancy s) (d_collision_cell_offsets s) (d_map_entries s) in
    st <- foldM (determine_layer s1 parts) (repeat 0 (L + 1), fresh d k npart) (ord d k (seq 0 npart)) ;;
    let '(cell_counts, layers) := st in
    let occ := list_max (firstn L cell_counts) in
    offsets <- exscan d (k + 1) (L + 1) cell_counts (fresh d (k + 5) (L + 1)) ;;
    let s2 := mk_partition (h_map_species_id_linear_id s) (num_species s) (map_species_id_to_linear s) (species_ids s)
                (cell_count s) counts max_cc occ offsets (d_map_entries s) in
    entries <- foldM (populate_map s2 parts layers) (fresh d (k + 6) npart) (ord d (k + 6) (seq 0 npart)) ;;
    Some (mk_partition (h_map_species_id_linear_id s) (num_species s) (map_species_id_to_linear s) (species_ids s)
                (cell_count s) counts max_cc occ offsets entries).

  (** std::numeric_limits<int>::max() *)
  Definition max_int : Z := 2147483647.

  (** L190-238, the number of pairs of one collision cell. *)
  Definition num_pairs (s : partition) (a b : nat) (a_is_b replacement : bool) (cell_mesh cell_collision : nat) : option Z :=
    if replacement then
      if a_is_b then
        na <- get_num_particles_cell_species s cell_mesh cell_collision a ;;
        Some (if 2 <=? na then max_int else 0%Z)
      else
        na <- get_num_particles_cell_species s cell_mesh cell_collision a ;;
        nb <- get_num_particles_cell_species s cell_mesh cell_collision b ;;
        Some (if (1 <=? na) && (1 <=? nb) then max_int else 0%Z)
    else
      if a_is_b then
        na <- get_num_particles_cell_species s cell_mesh cell_collision a ;;
        Some (Z.of_nat (na / 2))
      else
        na <- get_num_particles_cell_species s cell_mesh cell_collision a ;;
        nb <- get_num_particles_cell_species s cell_mesh cell_collision b ;;
        Some (Z.of_nat (Nat.min na nb)).

  (** L167-262 [get_max_num_pairs]: a kernel over all mesh cells and collision
      cells, and a copy of the first collision_cell_counts[cell] entries of each
      mesh cell. *)
  Definition get_max_num_pairs (k : nat) (s : partition) (species_id_a species_id_b : Z) (replacement : bool)
    : option (list (list Z)) :=
    a <- get_linear_species_id s species_id_a ;;
    b <- get_linear_species_id s species_id_b ;;
    let M := max_num_collision_cells s in
    counts <- foldM (fun m w =>
        n <- num_pairs s a b (species_id_a =? species_id_b)%Z replacement (fst w) (snd w) ;;
        upd m (fst w * M + snd w) n)
      (freshZ d k (M * cell_count s)) (ord d k (list_prod (seq 0 (cell_count s)) (seq 0 M))) ;;
    mapM (fun c => n <- rd (collision_cell_counts s) c ;; slice counts (c * M) (c * M + n)) (seq 0 (cell_count s)).
End Partition.
