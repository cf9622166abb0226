(** Property theorems: C13 (parallel prefix sums), C14 (block decomposition). *)
From Coq Require Import List Arith Lia ZArith Permutation.
Import ListNotations.
From Verif Require Import Base Scan_Model Scan_Spec Scan_Proofs.

(** C14: the [U] intervals tile [0, N) in order, with balanced sizes, and each
    work item lies in exactly one of them. *)
Theorem C14_decomp_is_balanced_partition : forall U N, 0 < U ->
  decomp_start U N 0 = 0 /\
  decomp_end U N (U - 1) = N /\
  (forall i, decomp_start U N i <= decomp_end U N i) /\
  (forall i, S i < U -> decomp_start U N (S i) = decomp_end U N i) /\
  (forall i j, i < U -> j < U ->
     decomp_end U N i - decomp_start U N i <= decomp_end U N j - decomp_start U N j + 1) /\
  (forall w, w < N -> exists! i, i < U /\ decomp_start U N i <= w < decomp_end U N i).
Proof. exact decomp_partition. Qed.
Print Assumptions C14_decomp_is_balanced_partition.

Example C14_instance : map (fun i => (decomp_start 4 10 i, decomp_end 4 10 i)) [0; 1; 2; 3]
  = [(0, 3); (3, 6); (6, 8); (8, 10)].
Proof. reflexivity. Qed.

(** C14: the inverse returns the interval that contains the work item. *)
Theorem C14_decomp_inverse_correct : forall U N w, 0 < U -> w < N ->
  exists i, decomp_inverse U N w = Some i /\ i < U /\
            decomp_start U N i <= w < decomp_end U N i.
Proof. exact decomp_inverse_correct_pos. Qed.
Print Assumptions C14_decomp_inverse_correct.

Example C14_inverse_instance : map (decomp_inverse 4 10) (seq 0 10) =
  map Some [0; 0; 0; 1; 1; 1; 2; 2; 3; 3].
Proof. reflexivity. Qed.

(** C13: the single work-group scan. *)
Theorem C13_joint_exclusive_scan_one_group :
  forall (T : Type) (add : T -> T -> T) (zero : T), commutative_monoid add zero ->
  forall junk N src dst, N <= length src -> N <= length dst ->
  exists out, joint_exclusive_scan1 add zero junk N src dst = Some out /\
    is_exclusive_scan add zero N src dst out.
Proof. exact @scan1_correct. Qed.
Print Assumptions C13_joint_exclusive_scan_one_group.

(** C13: the multi-block scan, for every work-group size, number of compute
    units and length, and for every order of the work items of its three
    kernels. *)
Theorem C13_joint_exclusive_scan_blocked :
  forall (T : Type) (add : T -> T -> T) (zero : T), commutative_monoid add zero ->
  forall junk sc local_size max_compute_units N aux src dst,
    1 <= local_size -> N <= length src -> N <= length dst ->
    2 * aux_num_blocks local_size max_compute_units N <= length aux ->
    let nb := aux_num_blocks local_size max_compute_units N in
    Permutation (sched_blocks sc) (seq 0 nb) ->
    Permutation (sched_totals sc) (scan_total_items nb local_size) ->
    Permutation (sched_shift sc) (scan_shift_items nb N local_size) ->
  exists out,
    joint_exclusive_scan2 add zero junk sc local_size max_compute_units N aux src dst = Some out /\
    is_exclusive_scan add zero N src dst out.
Proof. exact @scan2_correct. Qed.
Print Assumptions C13_joint_exclusive_scan_blocked.

(** 10 elements, work groups of 2, 3 compute units, every kernel run in reverse
    order, the built-in leaving 99 in the first element of each block. *)
Example C13_instance :
  let sc := {| sched_blocks := rev (seq 0 3);
               sched_totals := rev (scan_total_items 3 2);
               sched_shift := rev (scan_shift_items 3 10 2) |} in
  joint_exclusive_scan2 Nat.add 0 (fun _ => 99) sc 2 3 10 (repeat 7 6)
     [3; 1; 4; 1; 5; 9; 2; 6; 5; 3] (repeat 0 10)
  = Some [0; 3; 4; 8; 9; 14; 23; 25; 31; 36].
Proof. vm_compute. reflexivity. Qed.

Example C13_Z_is_a_commutative_monoid : commutative_monoid Z.add 0%Z.
Proof. repeat split; intros; lia. Qed.

(** C13: scan of many arrays packed in one buffer. *)
Theorem C13_joint_exclusive_scan_n :
  forall (T : Type) (add : T -> T -> T) (zero : T), commutative_monoid add zero ->
  forall junk sched sizes offsets src dst,
    segments_ok sizes offsets (length src) -> length dst = length src ->
    Permutation sched (seq 0 (length sizes)) ->
  exists out, joint_exclusive_scan_n add zero junk sched sizes offsets src dst = Some out /\
    is_segmented_scan add zero sizes offsets src dst out.
Proof. exact @scan_n_correct. Qed.
Print Assumptions C13_joint_exclusive_scan_n.

(** C13: the same with the total of each array. *)
Theorem C13_joint_exclusive_scan_n_sum :
  forall (T : Type) (add : T -> T -> T) (zero : T), commutative_monoid add zero ->
  forall junk sched sched_sum sizes offsets src dst tot,
    segments_ok sizes offsets (length src) -> length dst = length src ->
    length sizes <= length tot ->
    Permutation sched (seq 0 (length sizes)) ->
    Permutation sched_sum (seq 0 (length sizes)) ->
  exists out t,
    joint_exclusive_scan_n_sum add zero junk sched sched_sum sizes offsets src dst tot = Some (out, t) /\
    is_segmented_scan add zero sizes offsets src dst out /\
    is_segment_totals add zero sizes offsets src t /\ length t = length tot.
Proof. exact @scan_n_sum_correct. Qed.
Print Assumptions C13_joint_exclusive_scan_n_sum.

Example C13_scan_n_instance :
  joint_exclusive_scan_n_sum Nat.add 0 (fun _ => 99) [2; 0; 1] [1; 0; 2] [2; 0; 3] [0; 2; 2]
     [1; 2; 3; 4; 5] (repeat 0 5) [7; 7; 7]
  = Some ([0; 1; 0; 3; 7], [3; 0; 12]).
Proof. vm_compute. reflexivity. Qed.

Example C13_scan_n_instance_ok : segments_ok [2; 0; 3] [0; 2; 2] 5.
Proof.
  split; [reflexivity|]. split.
  - intros a j (n & o & E1 & E2 & H).
    destruct a as [|[|[|a]]]; cbn in *; try discriminate;
      try (injection E1 as <-; injection E2 as <-; lia). destruct a; discriminate.
  - intros a b j (n & o & E1 & E2 & H) (n' & o' & E1' & E2' & H').
    destruct a as [|[|[|a]]], b as [|[|[|b]]]; cbn in *;
      try (destruct a; discriminate); try (destruct b; discriminate);
      try reflexivity;
      injection E1 as <-; injection E2 as <-; injection E1' as <-; injection E2' as <-; lia.
Qed.
