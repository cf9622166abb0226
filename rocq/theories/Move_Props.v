(** Property theorems: C03 (moving particles between the cells of a rank). *)
From Coq Require Import List Arith Lia ZArith Bool Permutation.
Import ListNotations.
From Verif Require Import Base Group_Model Group_Spec Compress_Props Move_Model Move_Spec Move_Proofs.

(** C03: for every group whose particles hold valid cell ids, and every device,
    cache line size and content of newly allocated memory, the operation
    succeeds and every particle ends in the cell it names, none lost,
    duplicated or altered. *)
Theorem C03_cell_move_puts_every_particle_in_its_cell :
  forall d, device_ok d -> forall pad, 1 <= pad ->
  forall R (uR : nat -> nat -> nat -> R) uZ cid (g : group R),
    wf_group g -> cid < length (ints (st g)) -> ids_in_range cid g ->
    exists g', cell_move d pad uR uZ cid g = Some g' /\ wf_group g' /\ is_cell_move cid g g'.
Proof. intros d Hd pad Hp R uR uZ cid g Wf Hc Hr. exact (cell_move_correct d Hd pad Hp uR uZ cid g Wf Hc Hr). Qed.
Print Assumptions C03_cell_move_puts_every_particle_in_its_cell.

(** C03, second half: if any particle names a cell that does not exist the
    operation stops with an error; it never proceeds with a bad id. *)
Theorem C03_bad_cell_id_is_reported :
  forall d, device_ok d -> forall pad, 1 <= pad ->
  forall R (uR : nat -> nat -> nat -> R) uZ cid (g : group R),
    wf_group g -> cid < length (ints (st g)) -> some_id_out_of_range cid g ->
    cell_move d pad uR uZ cid g = None.
Proof. intros d Hd pad Hp R uR uZ cid g Wf Hc Hr. exact (bad_ids_fail d Hd pad Hp uR uZ cid g Wf Hc Hr). Qed.
Print Assumptions C03_bad_cell_id_is_reported.

Definition C03_group : group nat := mk_group
  (mk_store [[[100; 101; 102]; [200]; []; [400; 401]]; [[1; 2; 3]; [4]; []; [5; 6]]]
     [[[3; 0; 1]; [0]; []; [1; 3]]%Z]) [3; 1; 0; 2].
Definition C03_uR : nat -> nat -> nat -> nat := fun _ _ _ => 999.
Definition C03_uZ : nat -> nat -> nat -> Z := fun _ _ _ => (-7)%Z.

Example C03_instance :
  cell_move C01_device 3 C03_uR C03_uZ 0 C03_group = Some (mk_group
    (mk_store [[[200; 101]; [400; 102]; []; [100; 401]]; [[4; 2]; [5; 3]; []; [1; 6]]]
      [[[0; 0]; [1; 1]; []; [3; 3]]%Z]) [2; 2; 0; 2]).
Proof. vm_compute. reflexivity. Qed.

Example C03_instance_hypotheses : wf_group C03_group /\ ids_in_range 0 C03_group /\ 0 < length (ints (st C03_group)).
Proof.
  split; [|split; [|cbn; lia]].
  - split; cbn [C03_group st reals ints npart_cell]; intros col Hc.
    + destruct Hc as [<-|[<-|[]]]; split; auto; intros [|[|[|[|c]]]] n r H1 H2; cbn in *;
        try (injection H1 as <-; injection H2 as <-; cbn; lia); destruct c; discriminate.
    + destruct Hc as [<-|[]]; split; auto; intros [|[|[|[|c]]]] n r H1 H2; cbn in *;
        try (injection H1 as <-; injection H2 as <-; cbn; lia); destruct c; discriminate.
  - intros [|[|[|[|c]]]] l n H1 Hl; cbn in H1; try (destruct c; discriminate); injection H1 as <-.
    + destruct l as [|[|[|l]]]; [exists 3|exists 0|exists 1|lia]; cbn; split; auto; lia.
    + destruct l as [|l]; [exists 0|lia]; cbn; split; auto; lia.
    + lia.
    + destruct l as [|[|l]]; [exists 1|exists 3|lia]; cbn; split; auto; lia.
Qed.

(** A group with a bad id: the operation fails. *)
Example C03_bad_instance :
  let g := mk_group (mk_store [[[1; 2]; [3]]] [[[0; 2]; [1]]%Z]) [2; 1] in
  cell_move C01_device 2 C03_uR C03_uZ 0 g = None /\ some_id_out_of_range 0 g.
Proof.
  split; [vm_compute; reflexivity|].
  exists 0, 1, 2, 2%Z. cbn. repeat split; auto; lia.
Qed.
