(** Model of src/algorithms/dsmc/pair_sampler_ntc.cpp: pairs of particles of two
    sub-groups, sampled with replacement and cut into blocks of pairs, each of which
    is divided into waves. *)
From Coq Require Import List Arith ZArith QArith Bool.
Import ListNotations.
From Verif Require Import Base Scan_Model Mesh_Model Partition_Model.
Local Open Scope nat_scope.

(** include/neso_particles/pair_loop/cellwise_pair_list_block.hpp L15-24,
    CellwisePairListBlockDevice. *)
Record block_list := mk_block_list {
  bl_pair_count : nat; bl_block_size : nat; bl_cell_count : nat; bl_max_wave_count : nat;
  bl_wave_counts : list nat; bl_pair_counts : list nat; bl_pair_counts_es : list nat; bl_pair_list : list nat
}.

(** cellwise_pair_list_block.hpp L26-54, the accessors. *)
Definition bl_num_waves (s : block_list) (cell block : nat) : option nat := rd (bl_wave_counts s) (block * bl_cell_count s + cell).
Definition bl_num_pairs (s : block_list) (cell : nat) : option nat := rd (bl_pair_counts s) cell.
Definition bl_linear_index (s : block_list) (cell pair_index : nat) : option nat :=
  e <- rd (bl_pair_counts_es s) cell ;; Some (e + pair_index).
Definition bl_index_i (s : block_list) (cell pair_index : nat) : option nat :=
  index <- bl_linear_index s cell pair_index ;; rd (bl_pair_list s) index.
Definition bl_index_j (s : block_list) (cell pair_index : nat) : option nat :=
  index <- bl_linear_index s cell pair_index ;; rd (bl_pair_list s) (bl_pair_count s + index).
Definition bl_pair_wave (s : block_list) (cell pair_index : nat) : option nat :=
  index <- bl_linear_index s cell pair_index ;; rd (bl_pair_list s) (bl_pair_count s * 2 + index).

(** A work item of a work group on a GPU (L241-276): its pair, the next of its atomic
    operations, what the two operations on the flags returned, and its wave and
    order (None for -1). *)
Record item := mk_item { it_i : nat; it_j : nat; it_pc : nat; it_fi : nat; it_fj : nat; it_wave : option nat; it_order : option nat }.
Definition new_item (p : nat * nat) : item := mk_item (fst p) (snd p) 0 0 0 None None.

Section NTC.
  Context (d : device) (cell_count block_size : nat).

  (** L166-180 and L246-259: the two particles of a pair from two samples.  [sel_a] and
      [sel_b] are the selections of the sub-groups: for each cell the layers of the
      selected particles (d_npart_cell is their number, map_loop_layer_to_layer reads
      them).  Samples are rational numbers, their products with the number of
      particles fit an int.  % is the remainder of C++; by 0 it is undefined. *)
  Definition pair_layers (a_is_b : bool) (sel_a sel_b : list (list nat)) (cell : nat) (u v : Q) : option (nat * nat) :=
    row_a <- rd sel_a cell ;;
    row_b <- rd sel_b cell ;;
    let npart_cell_a := Z.of_nat (length row_a) in
    let npart_cell_b := Z.of_nat (length row_b) in
    let sample_range_a := npart_cell_a in
    let sample_range_b := if a_is_b then (npart_cell_a - 1)%Z else npart_cell_b in
    let i0 := Qtrunc (inject_Z sample_range_a * u)%Q in
    let j0 := Qtrunc (inject_Z sample_range_b * v)%Q in
    let i1 := Z.min i0 (sample_range_a - 1) in
    let j1 := Z.min j0 (sample_range_b - 1) in
    _ <- assert (negb a_is_b || negb (npart_cell_a =? 0)%Z) ;;
    let j2 := if a_is_b then Z.rem (i1 + 1 + j1) npart_cell_a else j1 in
    ia <- index_of i1 ;;
    jb <- index_of j2 ;;
    i3 <- rd row_a ia ;;
    j3 <- rd row_b jb ;;
    Some (i3, j3).

  (** The same with the samples read (L167-168, L247-248). *)
  Definition read_pair (a_is_b : bool) (sel_a sel_b : list (list nat)) (reals : list Q) (pair_count cell ox : nat)
    : option (nat * nat) :=
    u <- rd reals ox ;;
    v <- rd reals (pair_count + ox) ;;
    pair_layers a_is_b sel_a sel_b cell u v.

  (** L185-188: the entries of a pair in the list. *)
  Definition write_pair (pair_count ox : nat) (pl : list nat) (p : nat * nat) (wave : nat) : option (list nat) :=
    pl1 <- upd pl ox (fst p) ;;
    pl2 <- upd pl1 (pair_count * 1 + ox) (snd p) ;;
    upd pl2 (pair_count * 2 + ox) wave.

  (** Setting the flags of the two particles of a pair. *)
  Definition set_flags (flags : list nat) (p : nat * nat) (v : nat) : option (list nat) :=
    flags1 <- upd flags (fst p) v ;; upd flags1 (snd p) v.

  (** ** The CPU version, L139-214 *)
  (** L163-194, a pair.  The state is (la_flags, k_pair_list, max_wave_count,
      inner_max_wave_count). *)
  Definition cpu_pair (read : nat -> option (nat * nat)) (pair_count offset_cell : nat)
      (st : list nat * list nat * nat * nat) (px : nat) : option (list nat * list nat * nat * nat) :=
    let '(flags, pl, max_wave_count, inner) := st in
    let ox := offset_cell + px in
    p <- read ox ;;
    wave_i <- rd flags (fst p) ;;
    wave_j <- rd flags (snd p) ;;
    let wave := Nat.max wave_i wave_j in
    flags' <- set_flags flags p (wave + 1) ;;
    pl' <- write_pair pair_count ox pl p wave ;;
    Some (flags', pl', Nat.max (wave + 1) max_wave_count, Nat.max (wave + 1) inner).

  (** L199-206: the flags of a pair are reset. *)
  Definition cpu_reset (pair_count offset_cell : nat) (pl flags : list nat) (px : nat) : option (list nat) :=
    let ox := offset_cell + px in
    i3 <- rd pl ox ;;
    j3 <- rd pl (pair_count * 1 + ox) ;;
    set_flags flags (i3, j3) 0.

  (** L158-207, a block.  The state is (la_flags, k_pair_list, k_wave_counts,
      max_wave_count). *)
  Definition cpu_block (read : nat -> option (nat * nat)) (pair_count offset_cell npairs cell : nat)
      (st : list nat * list nat * list nat * nat) (block_index : nat) : option (list nat * list nat * list nat * nat) :=
    let '(flags, pl, wc, max_wave_count) := st in
    let px_start := block_index * block_size in
    let px_end := Nat.min (px_start + block_size) npairs in
    r <- foldM (cpu_pair read pair_count offset_cell) (flags, pl, max_wave_count, 0) (seq px_start (px_end - px_start)) ;;
    let '(flags1, pl1, mx1, inner) := r in
    wc' <- upd wc (block_index * cell_count + cell) inner ;;
    flags2 <- foldM (cpu_reset pair_count offset_cell pl1) flags1 (seq px_start (px_end - px_start)) ;;
    Some (flags2, pl1, wc', mx1).

  (** L140-211, the work item of a cell.  The state is (k_pair_list, k_wave_counts,
      k_max_wave_count).  The local memory holds anything at first. *)
  Definition cpu_cell (k : nat) (read : nat -> nat -> option (nat * nat)) (pair_count max_npart_cell : nat)
      (npart pair_counts pair_counts_es : list nat) (st : list nat * list nat * nat) (cell : nat)
    : option (list nat * list nat * nat) :=
    let '(pl, wc, mw) := st in
    npart_cell <- rd npart cell ;;
    npairs <- rd pair_counts cell ;;
    offset_cell <- rd pair_counts_es cell ;;
    flags <- foldM (fun m ix => upd m ix 0) (fresh d k max_npart_cell) (seq 0 npart_cell) ;;
    r <- foldM (cpu_block (read cell) pair_count offset_cell npairs cell) (flags, pl, wc, 0)
           (seq 0 (div_round_up npairs block_size)) ;;
    let '(_, pl', wc', max_wave_count) := r in
    Some (pl', wc', Nat.max mw max_wave_count).

  (** ** The GPU version, L216-343 *)
  (** L261-286, the next atomic operation of a work item: on the flag of the first
      particle, on that of the second, and, unless both returned 0, on the number of
      pairs left.  The state is (la_flags, la_counts[0], the work items). *)
  Definition atomic_step (st : list nat * nat * list item) (local_id : nat) : option (list nat * nat * list item) :=
    let '(flags, count, items) := st in
    it <- rd items local_id ;;
    match it_pc it with
    | 0 =>
        f <- rd flags (it_i it) ;;
        flags' <- upd flags (it_i it) (f + 1) ;;
        items' <- upd items local_id (mk_item (it_i it) (it_j it) 1 f (it_fj it) (it_wave it) (it_order it)) ;;
        Some (flags', count, items')
    | 1 =>
        f <- rd flags (it_j it) ;;
        flags' <- upd flags (it_j it) (f + 1) ;;
        items' <- upd items local_id (mk_item (it_i it) (it_j it) 2 (it_fi it) f (it_wave it) (it_order it)) ;;
        Some (flags', count, items')
    | 2 =>
        if (it_fi it =? 0) && (it_fj it =? 0) then
          items' <- upd items local_id (mk_item (it_i it) (it_j it) 3 (it_fi it) (it_fj it) (Some 0) (it_order it)) ;;
          Some (flags, count, items')
        else
          items' <- upd items local_id (mk_item (it_i it) (it_j it) 3 (it_fi it) (it_fj it) (it_wave it) (Some (count + 1))) ;;
          Some (flags, count + 1, items')
    | _ => Some st
    end.

  Definition has_order (orderx : nat) (it : item) : bool :=
    match it_order it with Some o => o =? orderx + 1 | None => false end.

  (** L296-304: the flags of the pairs left are reset. *)
  Definition reset_ordered (items : list item) (orderx : nat) (flags : list nat) (local_id : nat) : option (list nat) :=
    it <- rd items local_id ;;
    if has_order orderx it then set_flags flags (it_i it, it_j it) 0 else Some flags.

  (** L307-312 with [v] = 1, and L340-343 with [v] = 0: work items with a wave set the
      flags of their particles. *)
  Definition set_with_wave (v : nat) (items : list item) (flags : list nat) (local_id : nat) : option (list nat) :=
    it <- rd items local_id ;;
    match it_wave it with Some _ => set_flags flags (it_i it, it_j it) v | None => Some flags end.

  (** L315-328: the pairs left get their waves. *)
  Definition assign_wave (orderx : nat) (st : list nat * nat * list item) (local_id : nat) : option (list nat * nat * list item) :=
    let '(flags, count, items) := st in
    it <- rd items local_id ;;
    if has_order orderx it then
      wave_i <- rd flags (it_i it) ;;
      wave_j <- rd flags (it_j it) ;;
      let wave := Nat.max wave_i wave_j in
      flags' <- set_flags flags (it_i it, it_j it) (wave + 1) ;;
      items' <- upd items local_id (mk_item (it_i it) (it_j it) (it_pc it) (it_fi it) (it_fj it) (Some wave) (it_order it)) ;;
      Some (flags', Nat.max wave count, items')
    else Some st.

  (** L289-333 for the [m] work items that have a pair; the others only take part in
      the barriers.  Between two barriers the work items run in any order. *)
  Definition resolve (key : nat -> nat) (m : nat) (st : list nat * nat * list item) : option (list nat * nat * list item) :=
    let '(flags, num_steps_ordering, items) := st in
    if num_steps_ordering =? 0 then Some (flags, 0, items)
    else
      flags1 <- foldM (fun fl orderx => foldM (reset_ordered items orderx) fl (ord d (key 1) (seq 0 m))) flags
                  (seq 0 num_steps_ordering) ;;
      flags2 <- foldM (set_with_wave 1 items) flags1 (ord d (key 2) (seq 0 m)) ;;
      foldM (fun st orderx => foldM (assign_wave orderx) st (ord d (key 3) (seq 0 m))) (flags2, 0, items)
        (seq 0 num_steps_ordering).

  (** L330-335: a work item writes its pair. *)
  Definition gpu_write (pair_count start : nat) (items : list item) (pl : list nat) (local_id : nat) : option (list nat) :=
    it <- rd items local_id ;;
    match it_wave it with
    | Some wave => write_pair pair_count (start + local_id) pl (it_i it, it_j it) wave
    | None => Some pl
    end.

  (** L240-350, a block of pairs.  The state is (la_flags, la_counts[0], k_pair_list,
      k_wave_counts, max_wave_count, block_index).  Reading the samples does not
      interact with anything, so it comes first; then the atomic operations of the
      work items interleave in any way.  max_wave_count stands for the largest of the
      private variables of that name. *)
  Definition gpu_block (key : nat -> nat -> nat) (read : nat -> option (nat * nat)) (pair_count offset_cell npairs cell : nat)
      (st : list nat * nat * list nat * list nat * nat * nat) (num_sampled_pairs : nat)
    : option (list nat * nat * list nat * list nat * nat * nat) :=
    let '(flags, count, pl, wc, max_wave_count, block_index) := st in
    let key := key block_index in
    let m := Nat.min block_size (npairs - num_sampled_pairs) in
    let start := offset_cell + num_sampled_pairs in
    pairs <- mapM (fun local_id => read (start + local_id)) (seq 0 m) ;;
    r1 <- foldM atomic_step (flags, count, map new_item pairs) (ord d (key 0) (flat_map (fun l => [l; l; l]) (seq 0 m))) ;;
    r2 <- resolve key m r1 ;;
    let '(flags2, count2, items) := r2 in
    pl' <- foldM (gpu_write pair_count start items) pl (ord d (key 4) (seq 0 m)) ;;
    let max_wave_count' :=
      fold_left (fun mx it => match it_wave it with Some w => Nat.max mx (w + 1) | None => mx end) items max_wave_count in
    wc' <- upd wc (block_index * cell_count + cell) (count2 + 1) ;;
    flags3 <- foldM (set_with_wave 0 items) flags2 (ord d (key 5) (seq 0 m)) ;;
    Some (flags3, 0, pl', wc', max_wave_count', block_index + 1).

  (** L217-353, the work group of a cell. *)
  Definition gpu_cell (key : nat -> nat -> nat -> nat) (read : nat -> nat -> option (nat * nat)) (pair_count max_npart_cell : nat)
      (npart pair_counts pair_counts_es : list nat) (st : list nat * list nat * nat) (cell : nat)
    : option (list nat * list nat * nat) :=
    let '(pl, wc, mw) := st in
    npart_cell <- rd npart cell ;;
    npairs <- rd pair_counts cell ;;
    offset_cell <- rd pair_counts_es cell ;;
    flags <- foldM (fun m local_id => foldM (fun m ix => upd m ix 0) m (for_loop local_id npart_cell block_size))
               (fresh d (key cell 0 6) max_npart_cell) (ord d (key cell 0 6) (seq 0 block_size)) ;;
    r <- foldM (gpu_block (key cell) (read cell) pair_count offset_cell npairs cell) (flags, 0, pl, wc, 0, 0)
           (for_loop 0 npairs block_size) ;;
    let '(_, _, pl', wc', max_wave_count, _) := r in
    Some (pl', wc', Nat.max mw max_wave_count).

  (** L45-74, a cell of the loop over the numbers of pairs asked for.  The state is
      (h_pair_counts, h_pair_counts_es, exscan, max_num_blocks); the numbers are not
      negative. *)
  Definition request_cell (a_is_b : bool) (sel_a sel_b : list (list nat)) (counts : list nat)
      (st : list nat * list nat * nat * nat) (cx : nat) : option (list nat * list nat * nat * nat) :=
    let '(pc, es, exscan, max_num_blocks) := st in
    required_size <- rd counts cx ;;
    pc' <- upd pc cx required_size ;;
    row_a <- rd sel_a cx ;;
    row_b <- rd sel_b cx ;;
    _ <- (if a_is_b then assert ((2 <=? length row_a) || (required_size =? 0))
          else
            _ <- assert ((1 <=? length row_a) || (required_size =? 0)) ;;
            assert ((1 <=? length row_b) || (required_size =? 0))) ;;
    es' <- upd es cx exscan ;;
    Some (pc', es', exscan + required_size,
          Nat.max max_num_blocks (get_next_multiple required_size block_size / block_size)).

  (** L28-370 [sample].  The sub-groups are given by their selections, [npart] is the
      number of particles of each cell of the group and [rng n] are the [n] random
      numbers drawn.  The host vectors have a value for each cell from the
      constructor on; what they hold is overwritten.  realloc_no_copy keeps no
      contents: here the buffer is new; in the code it may be longer.  That the local
      memory of the device suffices (L118-125) is not modelled. *)
  Definition ntc_sample (k : nat) (is_cpu a_is_b : bool) (sel_a sel_b : list (list nat)) (npart counts : list nat)
      (rng : nat -> list Q) : option block_list :=
    _ <- assert (length counts =? cell_count) ;;
    r <- foldM (request_cell a_is_b sel_a sel_b counts) (fresh d k cell_count, fresh d (k + 1) cell_count, 0, 0) (seq 0 cell_count) ;;
    let '(pair_counts, pair_counts_es, pair_count, max_num_blocks) := r in
    let reals := rng (2 * pair_count) in
    let read := read_pair a_is_b sel_a sel_b reals pair_count in
    max_npart_cell <- foldM (fun m cellx => n <- rd npart cellx ;; Some (Nat.max m n)) 0 (seq 0 cell_count) ;;
    let key cell block phase := k + 5 + (cell * S max_num_blocks + block) * 7 + phase in
    let pl := fresh d (k + 2) (pair_count * 3) in
    let wc := fresh d (k + 3) (max_num_blocks * cell_count) in
    r <- (if is_cpu then
            foldM (fun st cell => cpu_cell (key cell 0 6) read pair_count max_npart_cell npart pair_counts pair_counts_es st cell)
              (pl, wc, 0) (ord d (k + 4) (seq 0 cell_count))
          else
            foldM (gpu_cell key read pair_count max_npart_cell npart pair_counts pair_counts_es)
              (pl, wc, 0) (ord d (k + 4) (seq 0 cell_count))) ;;
    let '(pl', wc', max_wave_count) := r in
    Some (mk_block_list pair_count block_size cell_count max_wave_count wc' pair_counts pair_counts_es pl').
End NTC.
