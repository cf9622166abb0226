(** C84: mapping particles to the cells of a mesh that is not two-dimensional. *)
From Coq Require Import List Arith ZArith QArith Bool Lia Permutation.
Import ListNotations.
From Verif Require Import Base Halo_Model HostMap_Model HostMap_Spec HostMap_Proofs.
Local Open Scope nat_scope.

(** Every particle of the cell, or of all cells, gets the cell and the rank of its position; all other particles and all
    positions stay as they are.  For every order of the particles in the loops and all contents of the buffers. *)
Theorem C84_map : forall d junk_ ndim rank locate hl g map_cell,
  device_ok d -> group_ok ndim g -> halo_ok hl -> (map_cell < Z.of_nat (length (g_pos g)))%Z ->
  exists g', map_particles d junk_ ndim rank locate hl g map_cell = Some g' /\ g_pos g' = g_pos g /\ group_ok ndim g' /\
    forall c l x, rd2 (g_pos g) c l = Some x ->
      (selected map_cell c ->
         rd2 (g_cell g') c l = Some (fst (place rank locate hl (firstn ndim x))) /\
         rd2 (g_rank g') c l = Some (snd (place rank locate hl (firstn ndim x)))) /\
      (~ selected map_cell c -> rd2 (g_cell g') c l = rd2 (g_cell g) c l /\ rd2 (g_rank g') c l = rd2 (g_rank g) c l).
Proof. exact map_ok. Qed.
Print Assumptions C84_map.

Definition exh_device : device := {| ord := fun A k l => rev l; junk := fun _ _ => 7%Z; local_size := 1; max_compute_units := 1 |}.
(** Finding: the cell written is the number of the cell among the points of the DMPlex.  With a cell of another rank before
    the own cells it is not the local cell: the rank has two cells, the particle is in the second, and cell 2 is written. *)
Theorem C84_ghost_cells_refuted : exists dm_ num h locate g g', device_ok exh_device /\ group_ok 1 g /\
  make_helper dm_ num 0 3 = Some h /\ length (np_to_petsc h) = 2 /\ length (g_pos g) = 2 /\
  (forall x, get_local_cell_index h (locate x) = Some 1%Z) /\
  map_particles exh_device (fun _ => 0%Q) 1 0 locate None g (-1) = Some g' /\ g_cell g' = [[2]; []]%Z.
Proof.
  exists (mk_dm 0 3 (fun _ => []) (fun _ => 0%Z) 0 (fun _ => [])), (fun p => if (p =? 0)%Z then (-1)%Z else p). eexists.
  exists (fun _ => 2%Z), (Group [[[1%Q]]; []] [[0]; []]%Z [[0]; []]%Z). eexists.
  split; [split; [intros A k l; symmetry; apply Permutation_rev|cbn; lia]|]. split; [|split; [reflexivity|split; [reflexivity|split; [reflexivity|split; [intros x; reflexivity|split; reflexivity]]]]].
  split; [reflexivity|]. split; [reflexivity|]. intros row x [<-|[<-|[]]]; [intros [<-|[]]; cbn; lia|intros []].
Qed.
Print Assumptions C84_ghost_cells_refuted.

(** Two cells with two particles and one: one is in a local cell, one in a cell of the halo, one is nowhere. *)
Definition exh_group : group := Group [[[1; 0; 9]; [2; 0; 9]]; [[3; 0; 9]]]%Q [[5; 5]; [5]]%Z [[6; 6]; [6]]%Z.
Definition exh_locate (x : list Q) : Z := if Qeq_bool (nth 0 x 0%Q) 1 then 1%Z else (-1)%Z.
Definition exh_halo : option halo := Some (Halo (fun x => if Qeq_bool (nth 0 x 0%Q) 2 then 0%Z else (-3)%Z) (fun c => if (c =? 0)%Z then Some (3, 8)%Z else None)).
Example C84_example : option_map (fun g => (g_cell g, g_rank g)) (map_particles exh_device (fun _ => 0%Q) 2 4 exh_locate exh_halo exh_group (-1)) =
  Some ([[1; 8]; [-1]], [[4; 3]; [-1]])%Z /\
  option_map (fun g => (g_cell g, g_rank g)) (map_particles exh_device (fun _ => 0%Q) 2 4 exh_locate exh_halo exh_group 1) =
  Some ([[5; 5]; [-1]], [[6; 6]; [-1]])%Z.
Proof. split; reflexivity. Qed.
Example C84_example_hypotheses : device_ok exh_device /\ group_ok 2 exh_group /\ halo_ok exh_halo /\ (1 < Z.of_nat (length (g_pos exh_group)))%Z.
Proof.
  split; [split; [intros A k l; symmetry; apply Permutation_rev|cbn; lia]|]. split; [|split; [|reflexivity]].
  - split; [reflexivity|]. split; [reflexivity|]. intros row x [<-|[<-|[]]]; [intros [<-|[<-|[]]]|intros [<-|[]]]; cbn; lia.
  - intros h x [= <-]. cbn [h_locate h_remote]. destruct (Qeq_bool _ _); [|lia]. cbn. eauto.
Qed.
