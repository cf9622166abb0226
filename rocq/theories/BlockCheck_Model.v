(** Model of the checks and statistics of block pair lists:
    src/pair_loop/cellwise_pair_list_block.cpp. *)
From Coq Require Import List Arith ZArith QArith Bool.
Import ListNotations.
From Verif Require Import Base Scan_Model SamplerNTC_Model.
Local Open Scope nat_scope.

(** L6-63, get_host_pair_list: for each cell the two particles and the wave of its
    pairs.  The three parts of the device list are copied and then read with [at],
    which checks the index. *)
Definition host_pair_list (s : block_list) : option (list (list nat * list nat * list nat)) :=
  h_pair_counts <- slice (bl_pair_counts s) 0 (bl_cell_count s) ;;
  pairs_i <- slice (bl_pair_list s) 0 (bl_pair_count s) ;;
  pairs_j <- slice (bl_pair_list s) (bl_pair_count s) (bl_pair_count s * 2) ;;
  waves <- slice (bl_pair_list s) (bl_pair_count s * 2) (bl_pair_count s * 3) ;;
  r <- foldM (fun '(h, offset) cellx =>
           n <- rd h_pair_counts cellx ;;
           i <- mapM (fun ix => rd pairs_i (offset + ix)) (seq 0 n) ;;
           j <- mapM (fun ix => rd pairs_j (offset + ix)) (seq 0 n) ;;
           w <- mapM (fun ix => rd waves (offset + ix)) (seq 0 n) ;;
           Some (h ++ [(i, j, w)], offset + n))
         ([], 0) (seq 0 (bl_cell_count s)) ;;
  Some (fst r).

(** L112-152: the entries of a block: particles and wave of a pair, [None] where the
    block has no pair (there i = -2, j = -3, wave = -4, which pass all checks). *)
Definition check_read (s : block_list) (index_cell num_pairs pair_index : nat) : option (option (nat * nat * nat)) :=
  if pair_index <? num_pairs then
    i <- bl_index_i s index_cell pair_index ;;
    j <- bl_index_j s index_cell pair_index ;;
    wave <- bl_pair_wave s index_cell pair_index ;;
    Some (Some (i, j, wave))
  else Some None.

(** L125-143: the assertions about one entry and the largest wave. *)
Definition check_entry (max_wave_count num_waves : nat) (st : bool * nat) (e : option (nat * nat * nat)) : bool * nat :=
  match e with
  | Some (i, j, wave) => (fst st && negb (i =? j) && (wave <? max_wave_count) && (wave <? num_waves), Nat.max wave (snd st))
  | None => st
  end.

(** L156-174: the assertions about an entry and a later one. *)
Definition check_pair (e e' : option (nat * nat * nat)) : bool :=
  match e, e' with
  | Some (i0, j0, w0), Some (i1, j1, w1) =>
      if w0 =? w1 then negb (i0 =? i1) && negb (j0 =? j1) && negb (i0 =? j1) && negb (j0 =? i1) else true
  | _, _ => true
  end.

(** L154-178: all entries with the later ones, and the number of pairs. *)
Definition check_pairs (la : list (option (nat * nat * nat))) : option (bool * nat) :=
  foldM (fun '(ok, count) ix =>
      e <- rd la ix ;;
      match e with
      | None => Some (ok, count)
      | Some _ =>
          oks <- mapM (fun jx => e' <- rd la jx ;; Some (check_pair e e')) (seq (ix + 1) (length la - (ix + 1))) ;;
          Some (ok && forallb (fun b => b) oks, count + 1)
      end) (true, 0) (seq 0 (length la)).

(** L106-180: one block.  The result is whether all assertions hold, and the number of
    pairs that were counted. *)
Definition check_block (s : block_list) (index_cell num_pairs block : nat) : option (bool * nat) :=
  num_waves <- bl_num_waves s index_cell block ;;
  la <- mapM (fun index_local => check_read s index_cell num_pairs (block * bl_block_size s + index_local)) (seq 0 (bl_block_size s)) ;;
  let '(ok, max_seen_wave) := fold_left (check_entry (bl_max_wave_count s) num_waves) la (true, 0) in
  r <- check_pairs la ;;
  Some (ok && (max_seen_wave + 1 =? num_waves) && fst r, snd r).

(** L88-181: the work item of a cell. *)
Definition check_cell (s : block_list) (index_cell : nat) : option (bool * nat) :=
  num_pairs <- bl_num_pairs s index_cell ;;
  ok0 <- (if index_cell =? 0 then e <- bl_linear_index s 0 0 ;; Some (e =? 0) else Some true) ;;
  ok1 <- (if index_cell <? bl_cell_count s - 1 then
            c0 <- bl_linear_index s index_cell 0 ;;
            c1 <- bl_linear_index s (index_cell + 1) 0 ;;
            n <- rd (bl_pair_counts s) index_cell ;;
            Some (Z.of_nat n =? Z.of_nat c1 - Z.of_nat c0)%Z
          else Some true) ;;
  foldM (fun '(ok, count) block => r <- check_block s index_cell num_pairs block ;; Some (ok && fst r, count + snd r))
    (ok0 && ok1, 0) (seq 0 (div_round_up num_pairs (bl_block_size s))).

(** L66-190, validate_pair_list.  Failed assertions of all work items set one flag, the
    counts are added atomically.  Entries of the list are natural numbers. *)
Definition validate_pair_list (d : device) (k : nat) (s : block_list) : option bool :=
  if bl_block_size s <? bl_max_wave_count s then Some false else
  r <- foldM (fun '(ok, count) index_cell => r <- check_cell s index_cell ;; Some (ok && fst r, count + snd r))
         (true, 0) (ord d k (seq 0 (bl_cell_count s))) ;;
  if negb (snd r =? bl_pair_count s) then Some false else Some (fst r).

(** L241-262: a block: the waves of its pairs (None for -1) are stored in local memory;
    each item with the number of a wave of the block counts the pairs of this wave. *)
Definition occupancy_block (d : device) (k : nat) (s : block_list) (index_cell num_pairs : nat) (la : list nat) (block : nat) : option (list nat) :=
  la_waves <- mapM (fun index_local =>
      let index_pair := index_local + block * bl_block_size s in
      if index_pair <? num_pairs then w <- bl_pair_wave s index_cell index_pair ;; Some (Some w) else Some None)
    (seq 0 (bl_block_size s)) ;;
  num_waves <- bl_num_waves s index_cell block ;;
  foldM (fun la index_local =>
      let wave_count := length (filter (fun w => match w with Some w => w =? index_local | None => false end) la_waves) in
      if index_local <? num_waves then v <- rd la wave_count ;; upd la wave_count (v + 1) else Some la)
    la (ord d (k + block) (seq 0 (bl_block_size s))).

(** L224-271: the work group of a cell: the local counters start with 0 and are added to
    the global ones. *)
Definition occupancy_cell (d : device) (k : nat) (s : block_list) (counts : list nat) (index_cell : nat) : option (list nat) :=
  num_pairs <- bl_num_pairs s index_cell ;;
  la <- foldM (occupancy_block d k s index_cell num_pairs) (repeat 0 (bl_block_size s + 1)) (seq 0 (div_round_up num_pairs (bl_block_size s))) ;;
  foldM (fun counts index_local =>
      v <- rd la index_local ;; o <- rd counts index_local ;; counts <- upd counts index_local (o + v) ;;
      if index_local =? bl_block_size s - 1 then
        v <- rd la (bl_block_size s) ;; o <- rd counts (bl_block_size s) ;; upd counts (bl_block_size s) (o + v)
      else Some counts) counts (ord d k (seq 0 (bl_block_size s))).

(** L192-285, get_wave_occupancy_counts.  [key] gives launch numbers per cell. *)
Definition wave_occupancy_counts (d : device) (k : nat) (key : nat -> nat) (s : block_list) : option (list nat) :=
  foldM (fun counts index_cell => occupancy_cell d (key index_cell) s counts index_cell)
    (repeat 0 (bl_block_size s + 1)) (ord d k (seq 0 (bl_cell_count s))).

(** L287-306, get_mean_wave_occupancy (REAL as rational numbers). *)
Definition mean_wave_occupancy (occupancy_counts : list nat) : option Q :=
  block_size <- sub_ (length occupancy_counts) 1 ;;
  r <- foldM (fun '(unscaled, num_blocks) wave_size =>
           n <- rd occupancy_counts wave_size ;;
           Some ((unscaled + inject_Z (Z.of_nat (wave_size * n)))%Q, num_blocks + n))
         (0%Q, 0) (seq 0 (block_size + 1)) ;;
  if snd r =? 0 then Some 0%Q else Some (fst r / inject_Z (Z.of_nat (block_size * snd r)))%Q.

(** L308-338, get_global_wave_occupancy_counts on all ranks; [locals] are the local
    counts.  The result is the global counts of each rank.  MPI_Reduce adds the entries
    of all ranks on rank 0. *)
Definition global_wave_occupancy_counts (locals : list (list nat)) : option (list (list nat)) :=
  l0 <- rd locals 0 ;;
  let num_values := length l0 in
  _ <- assert (forallb (fun l => length l =? num_values) locals) ;;
  sums <- mapM (fun i => vs <- mapM (fun l => rd l i) locals ;; Some (list_sum vs)) (seq 0 num_values) ;;
  Some (map (fun rank => if rank =? 0 then sums else []) (seq 0 (length locals))).
