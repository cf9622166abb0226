(** Model of the all-to-all pair iteration of a work group,
    include/neso_particles/algorithms/dsmc/cellwise_all_to_all.hpp.

    A work item is modelled by the sequence of things it does: calls of the
    kernel on two indices and calls of the synchronisation function.
    Simplification: [int] is [nat] (no overflow), and the work items' own
    interleaving is not fixed: properties that concern it are stated over the
    calls made between two synchronisations. *)
From Coq Require Import List Arith Bool.
Import ListNotations.
From Verif Require Import Base Scan_Model.

(** What a work item does: [kernel_func(i, j)] or [sync_func()]. *)
Inductive event := Call (i j : nat) | Sync.

(** cellwise_all_to_all.hpp L15-43, [apply_inner_block]. *)
Definition apply_inner_block (workgroup_block_item workgroup_block_size
    block_start_row block_start_col n : nat) (mask_required : bool) : list event :=
  snd (fold_left (fun '(index, evs) rowx =>
         let colx := index + block_start_col in
         let call :=
           if mask_required then
             if (rowx <? n) && (colx <? n) then [Call rowx colx] else []
           else [Call rowx colx] in
         (Nat.land (index + 1) (workgroup_block_size - 1), evs ++ call ++ [Sync]))
       (seq block_start_row workgroup_block_size)
       (workgroup_block_item, [])).

(** cellwise_all_to_all.hpp L51-68: the body of the [while (size > 0)] loop of
    [apply_diagonal] and its repetition; the fuel is the initial size. *)
Fixpoint apply_diagonal_loop (fuel workgroup_index n block_offset : nat)
    (mask_required : bool) (size : nat) : list event :=
  match fuel with
  | 0 => []
  | S f =>
      if 0 <? size then
        let workgroup_block := workgroup_index / size in
        let workgroup_block_item := workgroup_index mod size in
        let block_end_row := size + workgroup_block * 2 * size in
        let block_start_row := block_end_row - size in
        let block_start_col := block_end_row in
        apply_inner_block workgroup_block_item size
          (block_start_row + block_offset) (block_start_col + block_offset) n mask_required
        ++ apply_diagonal_loop f workgroup_index n block_offset mask_required (size / 2)
      else []
  end.

(** cellwise_all_to_all.hpp L45-69, [apply_diagonal]. *)
Definition apply_diagonal (workgroup_size workgroup_index n block_offset : nat)
    (mask_required : bool) : list event :=
  apply_diagonal_loop workgroup_size workgroup_index n block_offset mask_required
    workgroup_size.

(** cellwise_all_to_all.hpp L71-101, [apply]. *)
Definition apply (workgroup_size workgroup_index n : nat) : list event :=
  let block_size := workgroup_size * 2 in
  let n_padded := get_next_multiple n block_size in
  let num_blocks := n_padded / block_size in
  flat_map (fun blockx =>
      let block_offset := blockx * block_size in
      let masking_diagonal := blockx =? (num_blocks - 1) in
      apply_diagonal workgroup_size workgroup_index n block_offset masking_diagonal
      ++ flat_map (fun rowx =>
           flat_map (fun colx =>
             apply_inner_block workgroup_index workgroup_size rowx colx n
               ((n <? colx + workgroup_size) || masking_diagonal))
             (for_loop (block_offset + block_size) n_padded workgroup_size))
           (for_loop block_offset (block_offset + block_size) workgroup_size))
    (seq 0 num_blocks).
