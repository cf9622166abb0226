(** C72: the cells of the mesh hierarchy that mesh elements overlap, and the claims made for them. *)
From Coq Require Import List Arith ZArith QArith Qminmax Bool Lia Lqa.
Import ListNotations.
From Verif Require Import Base Mesh_Model Mesh_Spec MeshPos_Proofs CellRep_Model Overlap_Model Overlap_Spec Overlap_Proofs OverlapMap_Proofs OverlapClaim_Proofs.
Open Scope Z_scope.

(** For a mesh hierarchy of at most three dimensions and any box, bounding_box_map succeeds; it has an entry, and one only, for exactly
    the cells whose interior meets the interior of the box, and the number of the entry is the volume of the common part. *)
Theorem C72_overlap : forall m b, mesh_ok m -> (ndim m <= 3)%nat -> length b = 6%nat ->
  exists cells, bounding_box_map m b = Some cells /\ NoDup (map fst cells) /\
    (forall c, In c (map fst cells) <-> exists t, cell_tuple m t /\ cell_index m t = c /\ meets m b t) /\
    (forall t v, cell_tuple m t -> In (cell_index m t, v) cells -> (v == volume m b t)%Q).
Proof.
  intros m b Hm H3 Hb. eexists. split; [exact (map_ok m b Hm H3 Hb)|]. split; [exact (items_nodup m b Hm H3 Hb)|]. split; [exact (items_cells m b Hm H3 Hb)|].
  intros t v C I. exact (proj2 (items_volume m b Hm H3 Hb t v C I)).
Qed.
Print Assumptions C72_overlap.

(** The parts of a box inside the mesh hierarchy add up to the box. *)
Theorem C72_tiling : forall m b, mesh_ok m -> (ndim m <= 3)%nat -> length b = 6%nat -> inside m b ->
  exists cells, bounding_box_map m b = Some cells /\ (qsum (map snd cells) == box_volume m b)%Q.
Proof. intros m b Hm H3 Hb I. eexists. split; [exact (map_ok m b Hm H3 Hb)|exact (tiling m b Hm H3 Hb I)]. Qed.
Print Assumptions C72_tiling.

(** The claims of a rank for all its elements: one claim for each cell, of a weight MeshHierarchy accepts; the weight is the greatest
    number of whole millionths of the cell that the box of one element covers, and there is no claim where that is zero.  With each cell
    are kept, in ascending order, the numbers of exactly the elements whose boxes overlap it. *)
Theorem C72_claims : forall m boxes, mesh_ok m -> (ndim m <= 3)%nat -> Forall (fun b : box => length b = 6%nat) boxes ->
  exists lc cs, claim_elements m boxes = Some lc /\ claims_made lc = Some cs /\
    NoDup (map fst cs) /\
    (forall c w, In (c, w) cs -> Z.of_nat c < ncells m /\ 0 < w <= 1000000) /\
    (forall t w, cell_tuple m t -> In (Z.to_nat (cell_index m t), w) cs <->
       0 < w /\ (exists b, In b boxes /\ meets m b t /\ weight_of m b t w) /\
       (forall b w', In b boxes -> meets m b t -> weight_of m b t w' -> w' <= w)) /\
    (forall t, cell_tuple m t -> match map_get (geom_map lc) (cell_index m t) with
       | None => forall b, In b boxes -> ~ meets m b t
       | Some l => l <> [] /\ ascending l /\ forall k, In k l <-> exists n b, k = Z.of_nat n /\ nth_error boxes n = Some b /\ meets m b t
       end) /\
    (forall c l, map_get (geom_map lc) c = Some l -> exists t, cell_tuple m t /\ cell_index m t = c).
Proof.
  intros m boxes Hm H3 Hb. exists (found_claims m boxes), (made m boxes). split; [exact (claim_elements_ok m Hm H3 boxes Hb)|]. split; [exact (made_ok m H3 boxes)|].
  split; [exact (made_nodup m Hm H3 boxes Hb)|]. split; [exact (made_valid m Hm H3 boxes Hb)|]. split; [exact (fun t w => made_best m Hm H3 boxes Hb t w)|]. split; [exact (geom_ok m Hm H3 boxes Hb)|exact (geom_cells m Hm H3 boxes Hb)].
Qed.
Print Assumptions C72_claims.

(** A position in the box of an element (upper faces excluded, except where they are the end of the domain): the cell of the mesh
    hierarchy that contains the position has the element in its list. *)
Theorem C72_position : forall m boxes x n b lc, mesh_ok m -> (ndim m <= 3)%nat -> Forall (fun b : box => length b = 6%nat) boxes ->
  (ndim m <= length x)%nat -> nth_error boxes n = Some b -> claim_elements m boxes = Some lc ->
  (forall i, (i < ndim m)%nat -> (0 <= rel_pos m x i)%Q /\
     (box_lo m b i <= rel_pos m x i /\ rel_pos m x i < box_hi m b i /\ rel_pos m x i < domain m i \/
      rel_pos m x i == domain m i /\ box_lo m b i < domain m i /\ domain m i <= box_hi m b i)%Q) ->
  exists t c l, map_to_tuple m x = Some t /\ tuple_to_linear_global m t = Some c /\ map_get (geom_map lc) c = Some l /\ In (Z.of_nat n) l.
Proof.
  intros m boxes x n b lc Hm H3 Hb Lx Nb E H. rewrite (claim_elements_ok m Hm H3 boxes Hb) in E. injection E as <-.
  destruct (map_to_tuple_inside m x Hm Lx) as (t & T1 & T2 & T3); [intros i L; destruct (H i L) as (A & [(B1 & B2 & B3)|(B1 & B2 & B3)]); lra|].
  assert (M : meets m b t) by (apply (position_meets m Hm H3 b x t T2 T3); intros i L; apply H; exact L).
  pose proof (geom_ok m Hm H3 boxes Hb t T2) as G. exists t, (cell_index m t).
  destruct (map_get (geom_map (found_claims m boxes)) (cell_index m t)) as [l|] eqn:El.
  - exists l. split; [exact T1|]. split; [apply Mesh_Proofs.to_linear_correct; assumption|]. split; [reflexivity|]. apply G. exists n, b. auto.
  - exfalso. apply (G b); [apply (nth_error_In _ _ Nb)|exact M].
Qed.
Print Assumptions C72_position.

(** Two dimensions, 2 by 1 coarse cells of size 1 at the origin (1, 0), each halved: 4 by 2 cells of size 1/2. *)
Definition m72 : mesh := mk_mesh 2 [2; 1] 1 [1; 0]%Q 1.
Definition b72 : box := [1; 0; 0; 7 # 4; 1 # 2; 1]%Q.
Definition b72' : box := [7 # 4; 0; 0; 3; 1; 1]%Q.
Example C72_mesh : mesh_ok m72 /\ (ndim m72 <= 3)%nat /\ inside m72 b72 /\ inside m72 b72'.
Proof.
  split; [split; [cbn; lia|split; [cbn; lia|split; [repeat constructor|reflexivity]]]|]. split; [cbn; lia|].
  split; intros [|[|i]] L; try (cbn in L; lia); vm_compute; repeat split; discriminate.
Qed.
Example C72_instance : option_map (map (fun e => (fst e, Qred (snd e)))) (bounding_box_map m72 b72) = Some [(0, (1 # 4)%Q); (1, (1 # 8)%Q)] /\
  option_map (fun lc => (claims_made lc, geom_map lc)) (claim_elements m72 [b72; b72']) =
    Some (Some [(0%nat, 1000000); (1%nat, 500000); (3%nat, 500000); (4%nat, 1000000); (5%nat, 1000000); (6%nat, 1000000); (7%nat, 1000000)],
          [(0, [0]); (1, [0; 1]); (3, [1]); (4, [1]); (5, [1]); (6, [1]); (7, [1])]).
Proof. split; vm_compute; reflexivity. Qed.

(** A position on an upper face of the box that is also an edge between cells: the cell of the position does not list the element, and
    no cell that lists it contains the position. *)
Theorem C72_upper_face_refuted : exists m b x t c, mesh_ok m /\ inside m b /\
  (forall i, (i < ndim m)%nat -> (box_lo m b i <= rel_pos m x i /\ rel_pos m x i <= box_hi m b i)%Q) /\
  map_to_tuple m x = Some t /\ tuple_to_linear_global m t = Some c /\
  option_map (fun lc => map_get (geom_map lc) c) (claim_elements m [b]) = Some None.
Proof.
  exists m72, [1; 0; 0; 3 # 2; 1; 1]%Q, [3 # 2; 1 # 4]%Q, [0; 0; 1; 0], 1. split; [apply C72_mesh|].
  split; [intros [|[|i]] L; try (cbn in L; lia); vm_compute; repeat split; discriminate|].
  split; [intros [|[|i]] L; try (cbn in L; lia); vm_compute; split; discriminate|]. repeat split; vm_compute; reflexivity.
Qed.
Print Assumptions C72_upper_face_refuted.

(** An overlap of less than a millionth of a cell is kept with the cell and is not claimed: if no other element overlaps the cell, the cell
    has no owner although a rank has an element there. *)
Theorem C72_sliver_refuted : exists m b c l, mesh_ok m /\ inside m b /\
  option_map (fun lc => (claims_made lc, map_get (geom_map lc) c)) (claim_elements m [b]) = Some (Some [(0%nat, 1000000)], Some l) /\ c <> 0 /\ l = [0].
Proof.
  exists m72, [1; 0; 0; 15000001 # 10000000; 1 # 2; 1]%Q, 1, [0]. split; [apply C72_mesh|].
  split; [intros [|[|i]] L; try (cbn in L; lia); vm_compute; repeat split; discriminate|]. split; [vm_compute; reflexivity|]. split; [discriminate|reflexivity].
Qed.
Print Assumptions C72_sliver_refuted.
