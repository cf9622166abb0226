(** Transfer of piecewise constant functions between two meshes.  Property C82. *)
From Coq Require Import List Arith ZArith QArith Bool Lia Permutation.
Import ListNotations.
From Verif Require Import Base Kernel Bmi_Model Bmi_Spec Bmi_Proofs DG0_Proofs Coupler_Model Coupler_Spec Coupler_Proofs CouplerBuild_Proofs CouplerMove_Proofs.
Local Open Scope nat_scope.

(** The coupler can be made for every coupling map, and a forward transfer gives every cell of B the sum over
    all cells of A on all ranks of weight times coefficient, whatever the orders of the neighbours and the contents of the
    buffers left by earlier transfers. *)
Theorem C82_forward : forall owner number b maps graphs n sends recvs dofs_A dofs_B,
  mesh_ok owner number b maps -> graphs_ok owner maps graphs -> 1 <= n ->
  length sends = length maps -> length recvs = length maps ->
  arrays_ok n (map (@length (list entry)) maps) dofs_A -> arrays_ok n (b_count b) dofs_B ->
  exists ks out,
    construct b graphs maps = Some ks /\ forward_transfer ks n sends recvs dofs_A dofs_B = Some out /\
    length out = length maps /\
    forall r, r < length maps -> length (nth r out []) = length (nth r dofs_B []) /\
      forall cell i, cell < nth r (b_count b) 0 -> i < n ->
        (coef n (nth r out []) cell i == forward_value owner number maps dofs_A n r cell i)%Q.
Proof.
  intros owner number b maps graphs n sends recvs dA dB Hm Hg Hn Ls Lr HA HB. destruct (forward_ok owner number b maps graphs n sends recvs dA dB Hm Hg Hn Ls Lr HA HB) as (out & E & L & V). exists (map (made owner number b maps graphs) (seq 0 (length maps))), out. split; [apply construct_made; assumption|]. auto.
Qed.
Print Assumptions C82_forward.

(** A backward transfer gives every cell of A the sum over its entries of weight times the coefficient of the cell of B. *)
Theorem C82_backward : forall owner number b maps graphs n sends recvs dofs_A dofs_B,
  mesh_ok owner number b maps -> graphs_ok owner maps graphs -> 1 <= n ->
  length sends = length maps -> length recvs = length maps ->
  arrays_ok n (map (@length (list entry)) maps) dofs_A -> arrays_ok n (b_count b) dofs_B ->
  exists ks out,
    construct b graphs maps = Some ks /\ backward_transfer ks n sends recvs dofs_B dofs_A = Some out /\
    length out = length maps /\
    forall r, r < length maps -> length (nth r out []) = length (nth r dofs_A []) /\
      forall cell i, cell < length (nth r maps []) -> i < n ->
        (coef n (nth r out []) cell i == backward_value owner number maps dofs_B n r cell i)%Q.
Proof.
  intros owner number b maps graphs n sends recvs dA dB Hm Hg Hn Ls Lr HA HB. destruct (backward_ok owner number b maps graphs n sends recvs dA dB Hm Hg Hn Ls Lr HA HB) as (out & E & L & V). exists (map (made owner number b maps graphs) (seq 0 (length maps))), out. split; [apply construct_made; assumption|]. auto.
Qed.
Print Assumptions C82_backward.

(** Two ranks; B has the global cells 10 and 12 on rank 0 and 11 on rank 1; A has two cells on each rank, the last of which is coupled to nothing. *)
Definition ex_b : mesh_b := MeshB 10 [0; 1; 0] [2; 1] (fun r g =>
  if (r =? 0) && (g =? 10)%Z then Some 1 else if (r =? 0) && (g =? 12)%Z then Some 0 else if (r =? 1) && (g =? 11)%Z then Some 0 else None).
Definition ex_owner (g : Z) : nat := if (g =? 11)%Z then 1 else 0.
Definition ex_number (g : Z) : nat := if (g =? 10)%Z then 1 else 0.
Definition ex_maps : list cmap :=
  [[[Entry 11 2 3; Entry 10 5 7]; [Entry 12 1 1; Entry 11 (1 # 2) 4]]; [[Entry 10 10 (1 # 3)]; []]]%Q.
Definition ex_graphs : list graph := [Graph [1; 0] [1; 0] [0; 1] [0; 1]; Graph [0] [0] [0] [0]].
Definition ex_A : list (list Q) := [[1; 100; 2; 200]; [3; 300; 9; 9]]%Q.
Definition ex_B : list (list Q) := [[4; 40; 6; 60]; [8; 80]]%Q.
Example C82_example :
  (ks <- construct ex_b ex_graphs ex_maps ;; o <- forward_transfer ks 2 [[7]; []]%Q [[]; [7; 7]]%Q ex_A ex_B ;; Some (map (map Qred) o))
    = Some [[2; 200; 35; 3500]; [3; 300]]%Q /\
  (ks <- construct ex_b ex_graphs ex_maps ;; o <- backward_transfer ks 2 [[7]; []]%Q [[]; [7; 7]]%Q ex_B ex_A ;; Some (map (map Qred) o))
    = Some [[66; 660; 36; 360]; [2; 20; 0; 0]]%Q.
Proof. split; vm_compute; reflexivity. Qed.
Example C82_example_hypotheses :
  mesh_ok ex_owner ex_number ex_b ex_maps /\ graphs_ok ex_owner ex_maps ex_graphs /\
  arrays_ok 2 (map (@length (list entry)) ex_maps) ex_A /\ arrays_ok 2 (b_count ex_b) ex_B.
Proof.
  split; [|split; [|split]].
  - split; [reflexivity|]. intros m es e [<-|[<-|[]]] I J; cbn in I; repeat (destruct I as [<-|I]; [cbn in J; repeat (destruct J as [<-|J]; [cbn; split; [reflexivity|]; split; [reflexivity|]; eexists; split; [reflexivity|]; cbn; lia|]); destruct J|]); destruct I.
  - split; [reflexivity|]. intros [|[|r]] g E; cbn in E; [| |destruct r; discriminate]; injection E as <-; cbn [g_dests g_srcs g_rsrcs g_rdests].
    + split; [repeat constructor; cbn; intuition lia|]. split; [|split; [repeat constructor; cbn; intuition lia|split; [|split; [apply perm_swap|apply perm_swap]]]].
      * intros d. split; [intros [<-|[<-|[]]]; [exists 11%Z|exists 10%Z]; cbn; auto|]. intros (x & I & <-). cbn in I. repeat (destruct I as [<-|I]; [cbn; auto|]). destruct I.
      * intros s. split; [intros [<-|[<-|[]]]; exists 10%Z; cbn; auto|]. intros (x & I & E). destruct s as [|[|s]]; cbn; auto. cbn in I. destruct s; destruct I.
    + split; [repeat constructor; cbn; intuition lia|]. split; [|split; [repeat constructor; cbn; intuition lia|split; [|split; apply Permutation_refl]]].
      * intros d. split; [intros [<-|[]]; exists 10%Z; cbn; auto|]. intros (x & I & <-). cbn in I. repeat (destruct I as [<-|I]; [cbn; auto|]). destruct I.
      * intros s. split; [intros [<-|[]]; exists 11%Z; cbn; auto|]. intros (x & I & E). destruct s as [|[|s]]; cbn; auto; cbn in I; [repeat (destruct I as [<-|I]; [discriminate E|]); destruct I|destruct s; destruct I].
  - repeat constructor.
  - repeat constructor.
Qed.

(** The index of a cell of B is its number among the points of the DMPlex, get_local_point_from_global_point, and not
    its number among the owned cells.  When a cell owned by another rank comes first in the local numbering the
    transfer writes out of bounds: [mesh_ok] cannot do without the bound on the number. *)
Theorem C82_ghost_cells_refuted : ~ forall owner number b maps graphs n sends recvs dofs_A dofs_B ks,
  (forall m es e, In m maps -> In es m -> In e es ->
      owner_of b (e_cell e) = Some (owner (e_cell e)) /\ b_local b (owner (e_cell e)) (e_cell e) = Some (number (e_cell e))) ->
  graphs_ok owner maps graphs -> 1 <= n -> length sends = length maps -> length recvs = length maps ->
  arrays_ok n (map (@length (list entry)) maps) dofs_A -> arrays_ok n (b_count b) dofs_B ->
  construct b graphs maps = Some ks -> exists out, forward_transfer ks n sends recvs dofs_A dofs_B = Some out.
Proof.
  intros H. destruct (H (fun _ => 0) (fun _ => 1) (MeshB 5 [0] [1] (fun _ _ => Some 1)) [[[Entry 5 1 1]]] [Graph [0] [0] [0] [0]] 1 [[]] [[]] [[1%Q]] [[0%Q]] [Coupler (Graph [0] [0] [0] [0]) 1 1 1 [1] [1] [0] [1%Q] [1] [1] [1] [0] [1%Q] [1]]) as (out & E).
  - intros m es e [<-|[]] [<-|[]] [<-|[]]. split; reflexivity.
  - split; [reflexivity|]. intros [|r] g E; [|destruct r; discriminate]. injection E as <-. cbn [g_dests g_srcs g_rsrcs g_rdests]. split; [repeat constructor; cbn; intuition|]. split; [|split; [repeat constructor; cbn; intuition|split; [|split; apply Permutation_refl]]].
    + intros d. split; [intros [<-|[]]; exists 5%Z; cbn; auto|]. intros (x & _ & <-). cbn. auto.
    + intros s. split; [intros [<-|[]]; exists 5%Z; cbn; auto|]. intros (x & I & _). destruct s as [|s]; [cbn; auto|]. cbn in I. destruct s; destruct I.
  - lia.
  - reflexivity.
  - reflexivity.
  - repeat constructor.
  - repeat constructor.
  - reflexivity.
  - vm_compute in E. discriminate E.
Qed.
Print Assumptions C82_ghost_cells_refuted.
