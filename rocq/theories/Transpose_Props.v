(** C38: matrix_transpose. *)
From Coq Require Import List Arith Bool Permutation Lia.
Import ListNotations.
From Verif Require Import Base Scan_Model Transpose_Model Transpose_Proofs.

(** For a matrix with at least two rows and two columns (row major): element
    (j, i) of the destination is element (i, j) of the source, for any device,
    number of work items and order of execution.  Missing for the full property:
    a matrix with one row or one column, see below. *)
Theorem C38_transpose_partial {T} (zero : T) d num_work_items rows cols local0 src dst :
  device_ok d -> 2 <= rows -> 2 <= cols -> length src = rows * cols -> length dst = rows * cols ->
  exists dst', matrix_transpose zero d num_work_items rows cols local0 src dst = Some dst' /\
  length dst' = rows * cols /\
  forall i j, i < rows -> j < cols -> nth_error dst' (j * rows + i) = nth_error src (i * cols + j).
Proof. apply transpose_correct. Qed.
Print Assumptions C38_transpose_partial.

(** A matrix with one row (or one column): nothing is written. *)
Theorem C38_single_row_refuted :
  exists d, device_ok d /\ exists src dst : list nat, length src = 1 * 3 /\ length dst = 1 * 3 /\
  exists dst', matrix_transpose 0 d 16 1 3 (fun _ _ => 0) src dst = Some dst' /\
  exists i j, i < 1 /\ j < 3 /\ nth_error dst' (j * 1 + i) <> nth_error src (i * 3 + j).
Proof.
  exists (Build_device (fun A _ l => l) (fun _ _ => BinNums.Z0) 1 1). split; [split; [intros; apply Permutation_refl|auto]|].
  exists [1; 2; 3], [0; 0; 0]. repeat split. eexists. split; [vm_compute; reflexivity|].
  exists 0, 1. repeat split; auto. vm_compute. discriminate.
Qed.
Print Assumptions C38_single_row_refuted.

(** 3 x 5 with groups of 2 x 2 and a scheduler that reverses everything. *)
Example C38_instance :
  let d := Build_device (fun A _ l => rev l) (fun _ _ => BinNums.Z0) 4 1 in
  device_ok d /\
  matrix_transpose 0 d 4 3 5 (fun _ i => 100 + i) (seq 0 15) (repeat 77 15)
  = Some [0; 5; 10;  1; 6; 11;  2; 7; 12;  3; 8; 13;  4; 9; 14].
Proof.
  cbn zeta. split; [split; [intros; apply Permutation_sym, Permutation_rev|cbn; lia]|vm_compute; reflexivity].
Qed.
