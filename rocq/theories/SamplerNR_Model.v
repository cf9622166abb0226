(** Model of src/algorithms/dsmc/pair_sampler_no_replacement.cpp: pairs of
    particles of two species, sampled in each collision cell such that no particle
    is used twice. *)
From Coq Require Import List Arith ZArith QArith Bool.
Import ListNotations.
From Verif Require Import Base Scan_Model Group_Model Compress_Model Mesh_Model PairList_Model Partition_Model.
Local Open Scope nat_scope.

Section Sampler.
  Context (d : device) (cell_count : nat).

  (** L5-38, the constructor.  The members are those of a CellwisePairListDevice, as
      in the simple pair list; the mode of that list does not exist here. *)
  Definition sampler_create (k : nat) : simple :=
    mk_simple (repeat 1 cell_count) (repeat 1 cell_count) (repeat 0 cell_count) (repeat [[]; []] cell_count)
      (fresh d k cell_count) (fresh d (k + 1) cell_count) (repeat 0 cell_count) (repeat 0 cell_count) 0 0 0 0.

  (** L78-90: the requested counts of a mesh cell; the state is
      (k_pair_counts_ccell, h_num_collision_cells).  Counts are not negative. *)
  Definition copy_counts (M : nat) (map_cells_to_counts : list (list nat)) (st : list nat * list nat) (mx : nat)
    : option (list nat * list nat) :=
    let '(buf, ncc) := st in
    row <- rd map_cells_to_counts mx ;;
    _ <- assert (length row <=? M) ;;
    buf' <- foldM (fun m ix => v <- rd row ix ;; upd m (mx * M + ix) v) buf (seq 0 (length row)) ;;
    ncc' <- upd ncc mx (length row) ;;
    Some (buf', ncc').

  (** L114-137: the number of pairs of a mesh cell; the work items of the group take
      every local_size-th collision cell and the group adds up their sums. *)
  Definition mesh_cell_count (M : nat) (ncc counts_ccell : list nat) (m : list nat) (mesh_cell : nat) : option (list nat) :=
    num_collision_cells <- rd ncc mesh_cell ;;
    locals <- mapM (fun local_id =>
        vs <- mapM (fun cx => rd counts_ccell (mesh_cell * M + cx)) (for_loop local_id num_collision_cells (local_size d)) ;;
        Some (list_sum vs)) (seq 0 (local_size d)) ;;
    upd m mesh_cell (list_sum locals).

  (** L281-301, [lambda_sample_index]: the value returned, the number of particles
      left and the available indices.  The sample is a rational number and its
      product with the number of particles fits an int.  A negative index (no
      particle left) is a failure, and so is one outside the array. *)
  Definition sample_index (u : Q) (start_num_particles : Z) (indices : list nat) : option (nat * (Z * list nat)) :=
    let end_num_particles := (start_num_particles - 1)%Z in
    let index0 := Qtrunc (u * inject_Z start_num_particles)%Q in
    let index1 := Z.max 0 index0 in
    let index2 := Z.min (start_num_particles - 1) index1 in
    i2 <- index_of index2 ;;
    il <- index_of (start_num_particles - 1) ;;
    sampled_index <- rd indices i2 ;;
    to_move_index <- rd indices il ;;
    indices' <- upd indices i2 to_move_index ;;
    Some (sampled_index, (end_num_particles, indices')).

  (** L303-337, one pair of a collision cell.  The state is the pair list and the
      available particles of the two species; if the species are the same only the
      first is used. *)
  Definition sample_pair (cp : partition) (a b : nat) (reals : list Q) (num_pairs mesh_cell collision_cell : nat)
      (offset_mesh_cell offset_collision_cell : nat)
      (st : list (list (list nat)) * ((Z * list nat) * (Z * list nat))) (pairx : nat)
    : option (list (list (list nat)) * ((Z * list nat) * (Z * list nat))) :=
    let '(pl, (A, B)) := st in
    let a_is_b := a =? b in
    let rng_index := pairx + offset_collision_cell + offset_mesh_cell in
    ua <- rd reals rng_index ;;
    ub <- rd reals (rng_index + num_pairs) ;;
    ra <- sample_index ua (fst A) (snd A) ;;
    let '(index_a, A1) := ra in
    rb <- (if a_is_b then sample_index ub (fst A1) (snd A1) else sample_index ub (fst B) (snd B)) ;;
    let '(index_b, B1) := rb in
    la <- get_particle_layer cp mesh_cell collision_cell a index_a ;;
    lb <- get_particle_layer cp mesh_cell collision_cell b index_b ;;
    pl1 <- upd3 pl mesh_cell 0 (offset_collision_cell + pairx) la ;;
    pl2 <- upd3 pl1 mesh_cell 1 (offset_collision_cell + pairx) lb ;;
    Some (pl2, if a_is_b then (B1, B) else (A1, B1)).

  (** L250-256: the available indices 0 .. n-1 in local memory of the size of the
      largest occupancy. *)
  Definition all_indices (k occupancy n : nat) : option (list nat) :=
    foldM (fun m ix => upd m ix ix) (fresh d k occupancy) (seq 0 n).

  (** L234-340, the work item of a collision cell. *)
  Definition sample_item (k : nat) (cp : partition) (a b M : nat) (ncc counts_ccell counts_es ccell_es : list nat)
      (reals : list Q) (num_pairs : nat) (pl : list (list (list nat))) (w : nat * nat) : option (list (list (list nat))) :=
    let '(mesh_cell, collision_cell) := w in
    num_collision_cells <- rd ncc mesh_cell ;;
    if collision_cell <? num_collision_cells then
      na <- get_num_particles_cell_species cp mesh_cell collision_cell a ;;
      nb <- get_num_particles_cell_species cp mesh_cell collision_cell b ;;
      ia <- all_indices k (max_collision_cell_occupancy cp) na ;;
      ib <- (if a =? b then Some (fresh d (k + 1) (max_collision_cell_occupancy cp))
             else all_indices (k + 1) (max_collision_cell_occupancy cp) nb) ;;
      n <- rd counts_ccell (mesh_cell * M + collision_cell) ;;
      offset_mesh_cell <- rd counts_es mesh_cell ;;
      offset_collision_cell <- rd ccell_es (mesh_cell * M + collision_cell) ;;
      r <- foldM (sample_pair cp a b reals num_pairs mesh_cell collision_cell offset_mesh_cell offset_collision_cell)
             (pl, ((Z.of_nat na, ia), (Z.of_nat nb, ib))) (seq 0 n) ;;
      Some (fst r)
    else Some pl.

  (** L40-365 [sample].  [rng n] are the [n] numbers that the source of random
      samples draws (L200-202).  The global range of the sampling kernel is rounded
      up to a multiple of the local size; items beyond the collision cells do
      nothing.  The scan of L160-162 includes the entries of collision cells that the
      mesh cell does not have, which hold anything; the model takes their values to
      be non-negative. *)
  Definition sample (k : nat) (s : simple) (cp : partition) (species_id_a species_id_b : Z)
      (map_cells_to_counts : list (list nat)) (rng : nat -> list Q) : option simple :=
    a <- get_linear_species_id cp species_id_a ;;
    b <- get_linear_species_id cp species_id_b ;;
    _ <- assert (cell_count =? Partition_Model.cell_count cp) ;;
    let M := max_num_collision_cells cp in
    r <- foldM (copy_counts M map_cells_to_counts) (fresh d k (M * cell_count), repeat 0 cell_count) (seq 0 cell_count) ;;
    let '(counts_ccell, ncc) := r in
    counts <- foldM (mesh_cell_count M ncc counts_ccell) (fresh d (k + 1) cell_count) (ord d (k + 1) (seq 0 cell_count)) ;;
    pair_counts <- foldM (fun m ix => v <- rd counts ix ;; upd m ix v) (d_pair_counts s) (ord d (k + 2) (seq 0 cell_count)) ;;
    es <- exscan d (k + 3) cell_count counts (d_pair_counts_es s) ;;
    ccell_es <- joint_exclusive_scan_n Nat.add 0 (fun i => Z.to_nat (junk d (k + 7) i)) (ord d (k + 7) (seq 0 cell_count))
      (repeat M cell_count) (map (fun a => M * a) (seq 0 cell_count)) counts_ccell (fresh d (k + 8) (M * cell_count)) ;;
    last_cell <- sub_ cell_count 1 ;;
    last_count <- rd counts last_cell ;;
    last_count_es <- rd es last_cell ;;
    pl <- push_rows d cell_count (k + 9) pair_counts (d_pair_list s) ;;
    let num_pairs := last_count + last_count_es in
    let reals := rng (2 * num_pairs) in
    pl' <- foldM (sample_item (k + 11) cp a b M ncc counts_ccell es ccell_es reals num_pairs) pl
             (ord d (k + 11) (list_prod (seq 0 cell_count) (seq 0 M))) ;;
    Some (mk_simple (h_wave_count s) (d_wave_count s) (d_wave_offsets s) pl' pair_counts es pair_counts es
            (Z.of_nat (list_max counts)) 1 (Z.of_nat num_pairs) 0).
End Sampler.
