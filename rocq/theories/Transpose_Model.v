(** Model of matrix_transpose, include/neso_particles/algorithms/common.hpp
    L450-530. *)
From Coq Require Import List Arith Bool.
Import ListNotations.
From Verif Require Import Base Scan_Model.

(** typedefs.hpp L214-219; the floating point logarithm is taken to be exact.
    The logarithm of zero does not occur here. *)
Definition get_prev_power_of_two (n : nat) : nat := Nat.max (2 ^ Nat.log2 n) 1.

Section Transpose.
Context {T : Type} (zero : T).
Context (num_rows num_cols lsr lsc : nat).     (** [lsr], [lsc]: local_size_row, local_size_col *)

(** A work item of a group: its local ids, and its local linear id. *)
Definition linear (it : nat * nat) : nat := fst it * lsc + snd it.

(** L482-501: the read of work item [it] of group [g] to local memory. *)
Definition read_item (src : list T) (g : nat * nat) (local_memory : list T) (it : nat * nat) : option (list T) :=
  let read_rowx := fst g * lsr + fst it in
  let read_colx := snd g * lsc + snd it in
  value_read <- (if (read_rowx <? num_rows) && (read_colx <? num_cols)
                 then rd src (read_rowx * num_cols + read_colx) else Some zero) ;;
  upd local_memory (fst it * lsc + snd it) value_read.

(** L504-528: the write of work item [it] after the barrier. *)
Definition write_item (g : nat * nat) (local_memory : list T) (dst : list T) (it : nat * nat) : option (list T) :=
  let local_write_rowx := linear it / lsr in
  let local_write_colx := linear it mod lsr in
  value_write <- rd local_memory (local_write_colx * lsc + local_write_rowx) ;;
  let write_rowx := snd g * lsc + local_write_rowx in
  let write_colx := fst g * lsr + local_write_colx in
  if (write_rowx <? num_cols) && (write_colx <? num_rows)
  then upd dst (write_rowx * num_rows + write_colx) value_write
  else Some dst.

(** One work group: the items run in any order before and after the barrier;
    [local0] is the initial content of the local memory. *)
Definition group_run (d : device) (k : nat) (src local0 : list T) (dst : list T) (g : nat * nat) : option (list T) :=
  let items := list_prod (seq 0 lsr) (seq 0 lsc) in
  local_memory <- foldM (read_item src g) local0 (ord d k items) ;;
  foldM (write_item g local_memory) dst (ord d (k + 1) items).
End Transpose.

(** L450-530.  [num_work_items] is the result of get_num_local_work_items (any
    positive number, compute_target.cpp L383-409).  The groups run in any order;
    they only share [src], which is not written, so that interleaving them more
    finely makes no difference.  Every group has its own order of work items and
    content of new local memory ([local0]). *)
Definition matrix_transpose {T} (zero : T) (d : device) (num_work_items num_rows num_cols : nat)
    (local0 : nat * nat -> nat -> T) (src dst : list T) : option (list T) :=
  if (num_rows <=? 1) || (num_cols <=? 1) then Some dst
  else
    let local_size := Nat.sqrt num_work_items in
    let lsr := get_prev_power_of_two (Nat.min num_rows local_size) in
    let lsc := get_prev_power_of_two (Nat.min num_cols local_size) in
    let global_rows := get_next_multiple num_rows lsr in
    let global_cols := get_next_multiple num_cols lsc in
    let groups := list_prod (seq 0 (global_rows / lsr)) (seq 0 (global_cols / lsc)) in
    foldM (fun dst g =>
      group_run zero num_rows num_cols lsr lsc d (401 + 2 * (fst g * num_cols + snd g)) src
        (map (local0 g) (seq 0 (lsr * lsc))) dst g)
      dst (ord d 400 groups).
