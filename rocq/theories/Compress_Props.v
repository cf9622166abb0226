(** Property theorems: C01 (removal keeps exactly the survivors), C02
    (compaction copies never conflict; result independent of the schedule). *)
From Coq Require Import List Arith Lia ZArith Bool Permutation.
Import ListNotations.
From Verif Require Import Base Group_Model Group_Spec Compress_Model Compress_Spec Compress_Proofs.

(** C01: for every group, every removal list and every device (schedule of
    every kernel, content of uninitialised memory, work group size): the
    operation succeeds and the result is the group without the listed
    particles. *)
Theorem C01_remove_particles_keeps_exactly_survivors :
  forall d R cid (g : group R) cells layers,
    device_ok d -> wf_group g -> cid < length (ints (st g)) ->
    valid_request g cells layers -> kept_ids_valid cid g cells layers ->
    exists g', remove_particles d cid g cells layers = Some g' /\
      wf_group g' /\ is_removal g cells layers g'.
Proof. exact remove_correct. Qed.
Print Assumptions C01_remove_particles_keeps_exactly_survivors.

(** Device that runs every second kernel backwards; all uninitialised memory
    holds 77. *)
Definition C01_device : device :=
  {| ord := fun A k l => if Nat.even k then rev l else l; junk := fun _ _ => 77%Z;
     local_size := 2; max_compute_units := 3 |}.
Definition C01_group : group nat := mk_group
  (mk_store [[[100; 101; 102; 103; 104; 105; 106]; [200; 201]; []; [400; 401; 402; 403]]]
     [[[9; 8; 7; 6; 5; 4; 3]; [2; 1]; []; [0; -1; -2; -3]]%Z;
      [[0; 0; 0; 0; 0; 0; 0]; [1; 1]; []; [3; 3; 3; 3]]%Z]) [7; 2; 0; 4].
Definition C01_cells := [0; 0; 0; 3; 0; -1; 0; 4]%Z.
Definition C01_layers := [1; 5; 2; 0; 1; 2; 3; 0]%Z.

Example C01_instance :
  remove_particles C01_device 1 C01_group C01_cells C01_layers = Some (mk_group
    (mk_store [[[100; 104; 106]; [200; 201]; []; [403; 401; 402]]]
      [[[9; 5; 3]; [2; 1]; []; [-3; -1; -2]]%Z; [[0; 0; 0]; [1; 1]; []; [3; 3; 3]]%Z]) [3; 2; 0; 3]).
Proof. vm_compute. reflexivity. Qed.

Example C01_instance_device : device_ok C01_device.
Proof.
  split; [|cbn; lia]. intros A k l. cbn. destruct (Nat.even k); auto. apply Permutation_sym, Permutation_rev.
Qed.

Example C01_instance_wf : wf_group C01_group.
Proof.
  split; intros col Hc; cbn in Hc; repeat (destruct Hc as [<-|Hc]; [|]); try contradiction;
    (split; [reflexivity|]); intros c n r E1 E2;
    destruct c as [|[|[|[|c]]]]; cbn in *; try (destruct c; discriminate);
    injection E1 as <-; injection E2 as <-; cbn; lia.
Qed.

Example C01_instance_request : valid_request C01_group C01_cells C01_layers.
Proof.
  split; [reflexivity|]. intros i c l n E1 E2 E3.
  destruct c as [|[|[|[|c]]]]; cbn in E3; try (destruct c; discriminate); injection E3 as <-;
  destruct i as [|[|[|[|[|[|[|[|[|i]]]]]]]]]; cbn in E1, E2; try discriminate;
    repeat match goal with H : Some ?a = Some ?b |- _ => assert (a = b) by congruence; clear H end; lia.
Qed.

Example C01_instance_ids : kept_ids_valid 1 C01_group C01_cells C01_layers.
Proof.
  intros c l n E1 Hl _.
  destruct c as [|[|[|[|c]]]]; cbn in E1; try (destruct c; discriminate); injection E1 as <-;
  do 7 (destruct l as [|l]; [first [lia | eexists; split; [reflexivity|lia]] |]); lia.
Qed.

(** C01, limit of the claim: the compressor recognises removed particles by a
    negative cell id, so a particle that is not listed but whose cell id is
    negative is removed as well (here one entry is listed, two particles go),
    and the plan buffers, sized by the list, can be overrun. *)
Theorem C01_negative_cell_id_refuted :
  exists (d : device) (g g' : group nat) cells layers,
    device_ok d /\ wf_group g /\ valid_request g cells layers /\
    remove_particles d 0 g cells layers = Some g' /\ ~ is_removal g cells layers g'.
Proof.
  exists C01_device, (mk_group (mk_store [] [[[0; -1; 0]%Z]]) [3]),
    (mk_group (mk_store [] [[[0]%Z]]) [1]), [0%Z], [0%Z].
  split; [exact C01_instance_device|]. split; [|split; [|split]].
  - split; intros col Hc; cbn in Hc; [contradiction|]. destruct Hc as [<-|[]].
    split; [reflexivity|]. intros [|[|c]] n r E1 E2; cbn in *; try discriminate.
    injection E1 as <-; injection E2 as <-; cbn; lia.
  - split; [reflexivity|]. intros [|[|i]] [|c] l n E1 E2 E3; cbn in *; try discriminate.
    repeat match goal with H : Some ?a = Some ?b |- _ => assert (a = b) by congruence; clear H end; lia.
  - vm_compute. reflexivity.
  - intros (_ & _ & _ & H). specialize (H 0 3 eq_refl). cbn in H. destruct H as [H _]. discriminate.
Qed.
Print Assumptions C01_negative_cell_id_refuted.

(** Two unlisted particles with negative ids and one entry: an index outside
    the plan buffers is written. *)
Theorem C01_negative_cell_id_overrun_refuted :
  exists (d : device) (g : group nat) cells layers,
    device_ok d /\ valid_request g cells layers /\ remove_particles d 0 g cells layers = None.
Proof.
  exists C01_device, (mk_group (mk_store [] [[[0; -1; -1; 0; 0; 0]%Z]]) [6]), [0%Z], [0%Z].
  split; [exact C01_instance_device|]. split.
  - split; [reflexivity|]. intros [|[|i]] [|c] l n E1 E2 E3; cbn in *; try discriminate.
    repeat match goal with H : Some ?a = Some ?b |- _ => assert (a = b) by congruence; clear H end; lia.
  - vm_compute. reflexivity.
Qed.
Print Assumptions C01_negative_cell_id_overrun_refuted.

(** C02: entry [i] of the copy plan copies, within cell [c], layer [lo] to layer
    [ln].  Every entry is a copy from a kept particle to a removed one, inside
    the occupied layers.  No layer is both read by one entry and written by
    another, no layer is written by two entries, and none is read by two. *)
Theorem C02_compaction_copies_do_not_conflict :
  forall d (npart : list nat) cells layers ids,
    device_ok d -> length cells = length layers ->
    (forall i c l n, nth_error cells i = Some (Z.of_nat c) ->
       nth_error layers i = Some (Z.of_nat l) -> nth_error npart c = Some n -> l < n) ->
    (forall c n l, nth_error npart c = Some n -> l < n -> exists z, rd2 ids c l = Some z) ->
    (forall c l n, nth_error npart c = Some n -> l < n ->
       listed cells layers c l = false -> exists z, rd2 ids c l = Some z /\ (0 <= z)%Z) ->
    exists p, compute_plan d npart cells layers ids = Some p /\
    let entry i := (nth_error (compress_cells_old p) i, nth_error (compress_layers_old p) i,
                    nth_error (compress_layers_new p) i) in
    (forall i, i < compress_npart p -> exists c lo ln n,
       entry i = (Some c, Some lo, Some ln) /\ nth_error npart c = Some n /\
       lo < n /\ ln < n /\ listed cells layers c ln = true /\ listed cells layers c lo = false) /\
    (forall i j c lo ln c' lo' ln', i < compress_npart p -> j < compress_npart p ->
       entry i = (Some c, Some lo, Some ln) -> entry j = (Some c', Some lo', Some ln') ->
       (c, ln) <> (c', lo') /\ (i <> j -> (c, ln) <> (c', ln') /\ (c, lo) <> (c', lo'))).
Proof. intros d npart cells layers ids Hd. exact (plan_no_conflict d Hd npart cells layers ids). Qed.
Print Assumptions C02_compaction_copies_do_not_conflict.

Example C02_instance :
  option_map (fun p => (compress_npart p, compress_cells_old p, compress_layers_old p, compress_layers_new p))
    (compute_plan C01_device [7; 2; 0; 4] C01_cells C01_layers
      [[0; 0; 0; 0; 0; 0; 0]; [1; 1]; []; [3; 3; 3; 3]]%Z)
  = Some (3, [0; 0; 3; 77; 77; 77; 77; 77], [4; 6; 3; 77; 77; 77; 77; 77], [1; 2; 0; 77; 77; 77; 77; 77]).
Proof. vm_compute. reflexivity. Qed.

(** C02: the resulting group (including the layer of every particle) is the
    same for all schedules, work group sizes and contents of uninitialised
    memory. *)
Theorem C02_removal_independent_of_schedule :
  forall d1 d2 R cid (g g1 g2 : group R) cells layers,
    device_ok d1 -> device_ok d2 -> wf_group g -> cid < length (ints (st g)) ->
    valid_request g cells layers -> kept_ids_valid cid g cells layers ->
    remove_particles d1 cid g cells layers = Some g1 ->
    remove_particles d2 cid g cells layers = Some g2 -> g1 = g2.
Proof. exact remove_deterministic. Qed.
Print Assumptions C02_removal_independent_of_schedule.
