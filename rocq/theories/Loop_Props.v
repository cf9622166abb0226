(** Property theorems: C15 (a loop visits each particle exactly once) and C16
    (linear loop indices). *)
From Coq Require Import List Arith Lia ZArith Bool Permutation.
Import ListNotations.
From Verif Require Import Base Loop_Model Loop_Spec Loop_Proofs.

(** C15, launches: for every occupancy, local size, number of bins, stride and
    named range of cells the iteration set can be built if the device can launch
    it. *)
Theorem C15_loop_is_launched :
  forall lim np has_group nbin ls stride cs ce a b,
    call_names (length np) cs ce a b -> 1 <= stride -> 1 <= nbin -> ample lim np ls ->
    exists bs, prepare_submit lim np has_group (list_sum np) nbin ls stride cs ce = Some bs.
Proof. exact prepare_submit_some. Qed.
Print Assumptions C15_loop_is_launched.

(** C15: whatever the occupancy, local size, number of bins and device limits, the
    kernel runs exactly once for each particle of the named cells and for nothing
    else (both compilation modes of the loop). *)
Theorem C15_loop_visits_each_particle_once :
  forall lim np has_group nbin ls single cs ce a b bs,
    call_names (length np) cs ce a b -> 1 <= nbin ->
    prepare_submit lim np has_group (list_sum np) nbin ls 1 cs ce = Some bs ->
    exists vs, all_visits (visit_plain np single) bs = Some vs /\
      Permutation vs (particles_of_cells np a b).
Proof.
  intros lim np hg nbin ls single cs ce a b bs Hc Hn E.
  exact (tiles_plain np a b single bs (prepare_submit_tiles lim np hg nbin ls 1 cs ce a b bs Hc (le_n 1) Hn E)).
Qed.
Print Assumptions C15_loop_visits_each_particle_once.

(** C15, strided loops: the reduction loop and the blocked loop visit each
    particle once, for every stride and for every amount of local memory per work
    item. *)
Theorem C15_strided_loops_visit_each_particle_once :
  forall lim np nbin ls nbytes stride a b bs,
    1 <= stride -> 1 <= nbin -> b <= length np ->
    get_generic lim np a b nbin ls nbytes stride = Some bs ->
    (exists vs, all_visits (visit_reduction np stride) bs = Some vs /\
      Permutation vs (particles_of_cells np a b)) /\
    (exists vs, all_visits (visit_blocked np stride) bs = Some vs /\
      Permutation vs (particles_of_cells np a b)).
Proof.
  intros lim np nbin ls nb stride a b bs Hs Hn Hb E.
  pose proof (get_generic_tiles lim np a b nbin ls nb stride bs Hs Hb Hn E) as T.
  exact (conj (tiles_reduction np a b stride bs Hs T) (tiles_blocked np a b stride bs Hs T)).
Qed.
Print Assumptions C15_strided_loops_visit_each_particle_once.

(** C15, bad ranges: a cell outside of the mesh is reported. *)
Theorem C15_bad_cell_range_is_reported :
  forall lim np has_group n nbin ls stride i j,
    (i < 0 \/ j < 0 \/ Z.of_nat (length np) < i \/ Z.of_nat (length np) < j)%Z ->
    prepare_submit lim np has_group n nbin ls stride (Some i) (Some j) = None.
Proof.
  intros lim np hg n nbin ls stride i j H. apply bad_range. exists i, j. split; [|exact H].
  cbn [determine_iteration_set].
  destruct (Z.eqb_spec i 0) as [->|]; [|reflexivity].
  destruct (Z.eqb_spec j (Z.of_nat (length np))) as [->|]; [exfalso; lia|reflexivity].
Qed.
Print Assumptions C15_bad_cell_range_is_reported.

Definition C15_limits : limits := {| lim_global0 := 0; lim_global1 := 64; lim_group := 16; lim_mem := 0 |}.
Definition C15_np : list nat := [0; 5; 9; 4; 0; 6; 0].

(** Six launched particles in the range [1, 4), three bins, local size 4: a
    complete block and two peel blocks. *)
Example C15_instance :
  ample C15_limits C15_np 4 /\ call_names (length C15_np) (Some 1%Z) (Some 4%Z) 1 4 /\
  exists bs, prepare_submit C15_limits C15_np true (list_sum C15_np) 3 4 1 (Some 1%Z) (Some 4%Z) = Some bs /\
    length bs = 3 /\
    option_map (@length _) (all_visits (visit_plain C15_np false) bs) = Some 18.
Proof.
  split; [|split].
  - split; [left; reflexivity|]. split; [right|cbn; lia].
    intros n H. cbn in H |- *. lia.
  - exact (call_range 7 1 4 ltac:(lia) ltac:(lia)).
  - eexists. split; [vm_compute; reflexivity|]. split; vm_compute; reflexivity.
Qed.

Example C15_strided_instance :
  exists bs, get_generic {| lim_global0 := 0; lim_global1 := 0; lim_group := 16; lim_mem := 70 |} C15_np 0 7 2 4 8 3 = Some bs /\
    length bs = 2 /\
    option_map (@length _) (all_visits (visit_reduction C15_np 3) bs) = Some 24 /\
    option_map (@length _) (all_visits (visit_blocked C15_np 3) bs) = Some 24.
Proof. eexists. split; [vm_compute; reflexivity|]. repeat split; vm_compute; reflexivity. Qed.

(** C16: in the order in which the kernel is called, whatever that order is, the
    loop linear indices of the particles of cells a .. b - 1 are 0 .. n - 1, each
    used once.  [np], [es] are the counts of the iterated group or sub-group. *)
Theorem C16_loop_linear_index_is_dense :
  forall np es a b visited,
    prefix_sums np es -> b <= length np -> Permutation visited (particles_of_cells np a b) ->
    numbers_densely (fun p => get_loop_linear_index es a (fst p) (snd p)) visited.
Proof. exact loop_index_dense. Qed.
Print Assumptions C16_loop_linear_index_is_dense.

(** C16: the same for the index local to the rank and a loop over all cells. *)
Theorem C16_local_linear_index_is_dense :
  forall np es visited,
    prefix_sums np es -> Permutation visited (particles_of_cells np 0 (length np)) ->
    numbers_densely (fun p => get_local_linear_index es (fst p) (snd p)) visited.
Proof. exact local_index_dense. Qed.
Print Assumptions C16_local_linear_index_is_dense.

(** C16: loops over part of the cells still give distinct particles distinct
    local indices. *)
Theorem C16_local_linear_index_is_unique :
  forall np es c l c' l' i, prefix_sums np es -> c < length np -> c' < length np ->
    l < nth c np 0 -> l' < nth c' np 0 ->
    get_local_linear_index es c l = Some i -> get_local_linear_index es c' l' = Some i ->
    (c, l) = (c', l').
Proof. exact local_index_distinct. Qed.
Print Assumptions C16_local_linear_index_is_unique.

Example C16_instance :
  prefix_sums C15_np [0; 0; 5; 14; 18; 18; 24] /\
  map (fun p => get_loop_linear_index [0; 0; 5; 14; 18; 18; 24] 3 (fst p) (snd p)) (particles_of_cells C15_np 3 6)
    = map Some (seq 0 10).
Proof.
  split; [|vm_compute; reflexivity].
  intros c Hc. do 7 (destruct c as [|c]; [reflexivity|]). cbn in Hc. lia.
Qed.
