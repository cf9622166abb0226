(** Ranks that share a mesh, and the halo cells each should have. *)
From Coq Require Import List Arith ZArith QArith Bool.
Import ListNotations.
From Verif Require Import Base Mesh_Model Mesh_Spec Serial_Model MHC_Model CellRep_Model CellRep_Spec Halo_Model Overlap_Model Overlap_Spec Interface_Model.
From Verif Require MHC_Spec Halo_Spec.
Open Scope Z_scope.

(** What a rank has is a part of the mesh [G]; there is a box for each of its cells. *)
Definition rank_ok (ni : nat) (G : Halo_Spec.mesh) (rm : rank_mesh) : Prop :=
  exists d num cell_start cell_end,
    Halo_Spec.part_of ni G d num /\ (pstart d <= cell_start /\ cell_end <= pend d) /\ make_helper d num cell_start cell_end = Some (rk_helper rm) /\
    length (rk_boxes rm) = length (np_to_petsc (rk_helper rm)) /\ Forall (fun b : box => length b = 6%nat) (rk_boxes rm) /\
    Z.of_nat (length (rk_boxes rm)) < 2 ^ 31 /\
    (forall i p, get_dmplex_cell_index (rk_helper rm) i = Some p -> Halo_Spec.small_cell G (num p)) /\
    (forall p, int_ok 4 (rk_types rm p)).
(** No cell is numbered by two ranks. *)
Definition apart (ranks : list rank_mesh) : Prop :=
  forall r s a b i j p q, nth_error ranks r = Some a -> nth_error ranks s = Some b ->
    get_dmplex_cell_index (rk_helper a) i = Some p -> get_dmplex_cell_index (rk_helper b) j = Some q ->
    hnum (rk_helper a) p = hnum (rk_helper b) q -> r = s.
(** Cell [n] of rank [s], with its box and the message sent for it. *)
Definition element (ni : nat) (ranks : list rank_mesh) (s n : nat) (b : box) (msg : cell_msg) : Prop :=
  exists rm, nth_error ranks s = Some rm /\ nth_error (rk_boxes rm) n = Some b /\
    copyable_cell ni (rk_helper rm) (Z.of_nat s) (rk_types rm) (Z.of_nat n) = Some msg.
(** Rank [r] claims the mesh hierarchy cell [t]: one of its elements covers a millionth of it. *)
Definition claims_cell (m : mesh) (ranks : list rank_mesh) (r : nat) (t : list Z) : Prop :=
  exists rm b w, nth_error ranks r = Some rm /\ In b (rk_boxes rm) /\ meets m b t /\ weight_of m b t w /\ 0 < w.
Definition owner (owners : list Z) (m : mesh) (t : list Z) (r : nat) : Prop := get_owner owners (cell_index m t) = Some (Z.of_nat r).
(** The mesh hierarchy cells of which rank [r] gets the elements: those it claims, and the neighbours of those it claims and owns. *)
Definition reached (m : mesh) (ranks : list rank_mesh) (owners : list Z) (r : nat) (t : list Z) : Prop :=
  cell_tuple m t /\
  (claims_cell m ranks r t \/ exists t', cell_tuple m t' /\ claims_cell m ranks r t' /\ owner owners m t' r /\ close m 1 false t' t).
(** The position is in the box: on an upper face only at the end of the domain. *)
Definition in_element (m : mesh) (b : box) (x : list Q) : Prop :=
  forall i, (i < ndim m)%nat -> (0 <= rel_pos m x i)%Q /\
     (box_lo m b i <= rel_pos m x i /\ rel_pos m x i < box_hi m b i /\ rel_pos m x i < domain m i \/
      rel_pos m x i == domain m i /\ box_lo m b i < domain m i /\ domain m i <= box_hi m b i)%Q.
(** All bytes that are sent can be counted by an int. *)
Definition not_too_large (ni : nat) (m : mesh) (ranks : list rank_mesh) : Prop :=
  forall lcs data, mapM (fun rm => claim_elements m (rk_boxes rm)) ranks = Some lcs ->
    mapM (fun x => element_cells ni (fst x) (fst (snd x)) (snd (snd x))) (List.combine (seq 0 (length ranks)) (List.combine ranks lcs)) = Some data ->
    Z.of_nat (24 * Z.to_nat (ncells m) + MHC_Spec.total_bytes (cell_serial ni) data) < 2 ^ 31.
