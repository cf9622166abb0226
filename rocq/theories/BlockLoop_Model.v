(** Model of the pair loop over block pair lists:
    include/neso_particles/pair_loop/particle_pair_loop_cellwise_pair_list_block.hpp. *)
From Coq Require Import List Arith ZArith Bool.
Import ListNotations.
From Verif Require Import Base Scan_Model PairList_Model SamplerNTC_Model.
Local Open Scope nat_scope.

(** L118-131: block size (of the last list), offsets of the lists and largest wave
    count; L32-41 (get_iteration_set_size): the number of pairs of all lists. *)
Record block_prepared := mk_prepared { bp_block_size : nat; bp_es : list nat; bp_total : nat; bp_max_wave : nat }.
Definition block_prepare (lists : list block_list) : block_prepared :=
  fold_left (fun p s => mk_prepared (bl_block_size s) (bp_es p ++ [bp_total p]) (bp_total p + bl_pair_count s)
                          (Nat.max (bp_max_wave p) (bl_max_wave_count s)))
    lists (mk_prepared 0 [] 0 0).

(** L190-214 and L273-293: what a work item reads for a block: the pair and its wave,
    or nothing if there is no such pair. *)
Definition block_item (s : block_list) (index_list index_cell offset_list num_pairs pair_index : nat) : option (option call) :=
  if pair_index <? num_pairs then
    a <- bl_index_i s index_cell pair_index ;;
    b <- bl_index_j s index_cell pair_index ;;
    wave <- bl_pair_wave s index_cell pair_index ;;
    linear_index <- bl_linear_index s index_cell pair_index ;;
    Some (Some (mk_call index_list index_cell wave a b (Z.of_nat (linear_index + offset_list))))
  else Some None.

(** L216-246 and L295-332: the calls between two barriers: of the items with a pair
    of wave [wavex]. *)
Definition block_phase (items : list (option call)) (wavex : nat) : list call :=
  flat_map (fun o => match o with Some x => if wavex =? c_wave x then [x] else [] | None => [] end) items.

(** L177-251 and L260-336: the work group of a cell and a list.  For each block and
    each wave the calls between two barriers.  On a CPU all blocks have
    [max_wave_count] waves. *)
Definition block_group (cpu : bool) (block_size local_size max_wave_count : nat) (lists : list block_list) (es : list nat)
    (index_cell index_list : nat) : option (list (list call)) :=
  s <- rd lists index_list ;;
  offset_list <- rd es index_list ;;
  num_pairs <- bl_num_pairs s index_cell ;;
  phases <- mapM (fun block =>
      items <- mapM (fun local_id => block_item s index_list index_cell offset_list num_pairs (local_id + block * block_size))
                 (seq 0 local_size) ;;
      waves <- (if cpu then Some max_wave_count else bl_num_waves s index_cell block) ;;
      Some (map (block_phase items) (seq 0 waves)))
    (seq 0 (div_round_up num_pairs local_size)) ;;
  Some (concat phases).

(** L110-340, [submit] and the wait for its kernel, over the cells
    [cell_start .. cell_end).  The result is as for [pair_loop]: the calls of one
    phase are concurrent, work groups proceed independently of each other. *)
Definition block_loop (cpu : bool) (local_size : nat) (lists : list block_list) (cell_start cell_end : nat) : option execution :=
  let p := block_prepare lists in
  _ <- assert ((bp_block_size p =? 0) || (local_size =? bp_block_size p)) ;;
  if (0 <? bp_block_size p) && (0 <? length lists) && (cell_start <? cell_end) && (0 <? bp_total p) then
    g <- mapM (fun '(index_cell, index_list) =>
             block_group cpu (bp_block_size p) local_size (bp_max_wave p) lists (bp_es p) index_cell index_list)
           (list_prod (seq cell_start (cell_end - cell_start)) (seq 0 (length lists))) ;;
    Some (Groups g)
  else Some (Kernels []).
