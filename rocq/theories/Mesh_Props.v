(** Properties C17, C18, C19 and C20: the mesh hierarchy. *)
From Coq Require Import List Arith ZArith QArith Qabs Bool Lia Permutation.
Import ListNotations.
From Verif Require Import Base Scan_Model Mesh_Model Mesh_Spec Mesh_Proofs MeshNb_Proofs MeshPos_Proofs MeshClaim_Proofs.
Open Scope Z_scope.

(** ** C17: cell tuples and linear indices are the same thing. *)

(** The constructor accepts exactly the meshes the theorems below speak of. *)
Theorem C17_constructor_accepts : forall m, construct m = Some m <-> mesh_ok m.
Proof. exact construct_ok. Qed.
Print Assumptions C17_constructor_accepts.

(** Every tuple of a cell has a linear index in range: the one the coarse and
    fine indices define with the first dimension running fastest, and the
    conversion back gives the tuple. *)
Theorem C17_tuple_to_linear : forall m t, mesh_ok m -> cell_tuple m t ->
  tuple_to_linear_global m t = Some (cell_index m t) /\ 0 <= cell_index m t < ncells m /\
  linear_to_tuple_global m (cell_index m t) = Some t.
Proof. exact to_linear_correct. Qed.
Print Assumptions C17_tuple_to_linear.

(** Every index in range is the index of a cell, and the conversion there and
    back gives the index. *)
Theorem C17_linear_to_tuple : forall m x, mesh_ok m -> 0 <= x < ncells m ->
  exists t, linear_to_tuple_global m x = Some t /\ cell_tuple m t /\ cell_index m t = x /\
    tuple_to_linear_global m t = Some x.
Proof. exact to_tuple_correct. Qed.
Print Assumptions C17_linear_to_tuple.

(** The number of cells the hierarchy reports is the number of indices. *)
Theorem C17_number_of_cells : forall m, mesh_ok m -> ncells_global m = Some (ncells m).
Proof. exact ncells_global_correct. Qed.
Print Assumptions C17_number_of_cells.

(** The Cartesian view: the two conversions are mutually inverse on cells. *)
Theorem C17_cartesian_view : forall m t, mesh_ok m -> cell_tuple m t ->
  map_tuple_to_cart_tuple m t = Some (map (coord m t) (seq 0 (ndim m))) /\
  cart_tuple_to_tuple m (map (coord m t) (seq 0 (ndim m))) = Some t /\
  (forall i, (i < ndim m)%nat -> 0 <= coord m t i < extent_cells m i).
Proof.
  intros m t H C. destruct (cell_tuple_coord m t H C) as (R & E). split; [apply cart_tuple_correct; assumption|]. split; [|exact R].
  rewrite cart_to_tuple_correct.
  - f_equal. transitivity (tuple_of m (coord m t)); [|symmetry; exact E]. apply tuple_of_ext. intros i Hi. apply nth_map_seq', Hi.
  - exact H.
  - rewrite map_length, seq_length; lia.
  - intros i Hi. rewrite nth_map_seq' by exact Hi. apply R, Hi.
Qed.
Print Assumptions C17_cartesian_view.

(** A 3x2 mesh with order 1 (24 cells of which each coarse cell has 4); the
    origin is not 0 and dims has a superfluous entry. *)
Definition m32 : mesh := mk_mesh 2 [3; 2; 7] 1 [1 # 2; -1 # 1]%Q (2 # 1)%Q.
Example m32_ok : mesh_ok m32.
Proof. repeat split; cbn; try lia. repeat constructor. Qed.
Example C17_instance :
  ncells m32 = 24 /\ cell_tuple m32 [2; 1; 0; 1] /\ tuple_to_linear_global m32 [2; 1; 0; 1] = Some 22 /\
  linear_to_tuple_global m32 22 = Some [2; 1; 0; 1] /\ map_tuple_to_cart_tuple m32 [2; 1; 0; 1] = Some [4; 3].
Proof.
  split; [reflexivity|]. split; [|repeat split; reflexivity]. exists [2; 1], [0; 1]. split; [reflexivity|].
  split; repeat constructor; cbn; lia.
Qed.

(** ** C18: every rank sees the same owner of every cell. *)
(** All nodes end with the same map, whatever the order in which the claims of
    the ranks take effect and whatever the windows held before: a cell belongs
    to the greatest rank among those that claimed it with the greatest weight,
    and holds the mask if no rank claimed it. *)
Theorem C18_owners : forall n nodes claims sched1 sched2 maps0,
  (forall k l, Permutation (sched1 k l) l) -> (forall k l, Permutation (sched2 k l) l) ->
  nodes <> [] -> Forall (fun ranks => ranks <> []) nodes ->
  length maps0 = length nodes -> Forall (fun mp => length mp = n) maps0 ->
  (forall r, In r (concat nodes) -> forall c w, In (c, w) (claims r) -> (c < n)%nat /\ 0 < w < 2 ^ 31 - 1) ->
  exists map_, claim_epoch n nodes claims sched1 sched2 maps0 = Some (repeat map_ (length nodes)) /\ length map_ = n /\
    forall c, (c < n)%nat ->
      (exists r, owner_of (concat nodes) claims c r /\ get_owner map_ (Z.of_nat c) = Some (Z.of_nat r)) \/
      (unclaimed (concat nodes) claims c /\ get_owner map_ (Z.of_nat c) = Some mask).
Proof.
  intros n nodes claims s1 s2 maps0 S1 S2 N R L F V.
  destruct (epoch_correct n nodes claims s1 s2 maps0 S1 S2 N R L F V) as (mp & E & Lm & G). exists mp. split; [exact E|]. split; [exact Lm|].
  intros c Hc. assert (Q : get_owner mp (Z.of_nat c) = nth_error mp c).
  { unfold get_owner. destruct (Z.ltb_spec (Z.of_nat c) 0); [lia|]. rewrite Nat2Z.id. reflexivity. }
  rewrite Q. apply G, Hc.
Qed.
Print Assumptions C18_owners.

(** A weight outside the permitted range is reported. *)
Theorem C18_invalid_weight_is_reported : forall n nodes claims sched1 sched2 maps0 r c w,
  In r (concat nodes) -> In (c, w) (claims r) -> ~ 0 < w < 2 ^ 31 - 1 ->
  claim_epoch n nodes claims sched1 sched2 maps0 = None.
Proof. exact epoch_invalid. Qed.
Print Assumptions C18_invalid_weight_is_reported.

(** Three ranks on two nodes: cell 0 claimed with equal weights by ranks 0 and
    2, cell 1 by 0 and 1 with different weights, cell 2 by nobody. *)
Definition ex_nodes : list (list nat) := [[0; 1]; [2]]%nat.
Definition ex_claims (r : nat) : list (nat * Z) :=
  match r with
  | 0%nat => [(0%nat, 5); (1%nat, 9)]
  | 1%nat => [(1%nat, 3); (0%nat, 4)]
  | 2%nat => [(0%nat, 5); (3%nat, 1)]
  | _ => []
  end.
Example C18_instance :
  claim_epoch 4 ex_nodes ex_claims (fun _ l => rev l) (fun _ l => l) [[7; 7; 7; 7]; [8; 8; 8; 8]]
  = Some [[2; 0; mask; 2]; [2; 0; mask; 2]] /\
  (forall r, In r (concat ex_nodes) -> forall c w, In (c, w) (ex_claims r) -> (c < 4)%nat /\ 0 < w < 2 ^ 31 - 1) /\
  owner_of (concat ex_nodes) ex_claims 0 2 /\ owner_of (concat ex_nodes) ex_claims 1 0 /\ unclaimed (concat ex_nodes) ex_claims 2.
Proof.
  split; [vm_compute; reflexivity|].
  assert (C : forall c r w, claimed (concat ex_nodes) ex_claims c r w -> In (c, r, w) (map (fun q => (Z.to_nat (fst (fst q)), Z.to_nat (snd (fst q)), snd q)) [(0, 0, 5); (1, 0, 9); (1, 1, 3); (0, 1, 4); (0, 2, 5); (3, 2, 1)])).
  { intros c r w (I & H). cbn in I. repeat (destruct I as [<-|I]; [cbn in H; repeat (destruct H as [[= <- <-]|H]; [cbn; tauto|]); destruct H|]). destruct I. }
  split; [|split; [|split]].
  - intros r I c w H. specialize (C c r w (conj I H)). cbn in C.
    repeat (destruct C as [[= <- <- <-]|C]; [lia|]). destruct C.
  - exists 5. split; [split; cbn; tauto|]. split.
    + intros r w K. apply C in K. cbn in K. repeat (destruct K as [K|K]; [injection K; intros; lia|]). destruct K.
    + intros r K. apply C in K. cbn in K. repeat (destruct K as [K|K]; [injection K; intros; lia|]). destruct K.
  - exists 9. split; [split; cbn; tauto|]. split.
    + intros r w K. apply C in K. cbn in K. repeat (destruct K as [K|K]; [injection K; intros; lia|]). destruct K.
    + intros r K. apply C in K. cbn in K. repeat (destruct K as [K|K]; [injection K; intros; lia|]). destruct K.
  - intros r w K. apply C in K. cbn in K. repeat (destruct K as [K|K]; [discriminate|]). destruct K.
Qed.

(** ** C19: neighbour cells. *)
(** One cell: the cells added are exactly the other cells within [offset] in
    every dimension, across the boundaries if they are periodic; the result is
    sorted without repetition.  For up to three dimensions and an offset not
    greater than the number of cells in any dimension. *)
Theorem C19_neighbours_of_a_cell : forall m c offset pbc output,
  mesh_ok m -> (ndim m <= 3)%nat -> 0 <= c < ncells m ->
  0 <= offset -> (forall i, (i < ndim m)%nat -> offset <= extent_cells m i) ->
  exists out, get_neighbour_mh_cells_one m c offset pbc output = Some out /\
    (forall d, In d out <-> In d output \/ (d <> c /\ close_cells m offset pbc c d)) /\
    (ascending output -> ascending out).
Proof. exact one_correct. Qed.
Print Assumptions C19_neighbours_of_a_cell.

(** Several cells: the given cells, the extra cells and everything within
    [offset] of one of the given cells, in ascending order. *)
Theorem C19_neighbours_of_cells : forall m cells extra offset pbc,
  mesh_ok m -> (ndim m <= 3)%nat -> Forall (fun c => 0 <= c < ncells m) cells ->
  0 <= offset -> (forall i, (i < ndim m)%nat -> offset <= extent_cells m i) ->
  exists out, get_neighbour_mh_cells m cells extra offset pbc = Some out /\
    (forall d, In d out <-> In d cells \/ In d extra \/ exists c, In c cells /\ close_cells m offset pbc c d) /\
    ascending out.
Proof. exact list_correct. Qed.
Print Assumptions C19_neighbours_of_cells.

(** Being within [offset] is symmetric: if a rank sees a cell as a neighbour of
    its own, so does the owner of that cell. *)
Theorem C19_neighbourhood_is_symmetric : forall m offset pbc c d,
  close_cells m offset pbc c d <-> close_cells m offset pbc d c.
Proof.
  assert (G : forall m offset pbc c d, close_cells m offset pbc c d -> close_cells m offset pbc d c).
  { intros m offset pbc c d (t1 & t2 & C1 & C2 & E1 & E2 & K). exists t2, t1. split; [exact C2|]. split; [exact C1|]. split; [exact E2|]. split; [exact E1|].
    intros i Hi. destruct (K i Hi) as (k & K0 & K1). exists (- k). split; [intros Q; rewrite (K0 Q); reflexivity|]. lia. }
  intros; split; apply G.
Qed.
Print Assumptions C19_neighbourhood_is_symmetric.

Example C19_instance :
  get_neighbour_mh_cells_one m32 0 1 false [] = Some [1; 2; 3] /\
  get_neighbour_mh_cells_one m32 0 1 true [] = Some [1; 2; 3; 9; 11; 14; 15; 23] /\
  get_neighbour_mh_cells m32 [0; 22] [5] 1 false = Some [0; 1; 2; 3; 5; 17; 19; 20; 21; 22; 23] /\
  close_cells m32 1 true 0 23 /\ (forall i, (i < ndim m32)%nat -> 1 <= extent_cells m32 i).
Proof.
  split; [reflexivity|]. split; [reflexivity|]. split; [reflexivity|]. split.
  - exists [0; 0; 0; 0], [2; 1; 1; 1].
    split; [exists [0; 0], [0; 0]; split; [reflexivity|]; split; repeat constructor; cbn; lia|].
    split; [exists [2; 1], [1; 1]; split; [reflexivity|]; split; repeat constructor; cbn; lia|].
    split; [reflexivity|]. split; [reflexivity|]. intros i Hi. exists 1. split; [discriminate|]. destruct i as [|[|i]]; cbn in Hi |- *; lia.
  - intros i Hi. destruct i as [|[|i]]; cbn in Hi |- *; lia.
Qed.

(** The bound on the offset is needed: with a greater offset the remainder of a
    negative number is taken, and the call fails although, in periodic
    boundaries, all cells are neighbours. *)
Theorem C19_large_offset_refuted : exists m c offset,
  mesh_ok m /\ (ndim m <= 3)%nat /\ 0 <= c < ncells m /\ 0 <= offset /\
  get_neighbour_mh_cells_one m c offset true [] = None.
Proof.
  exists (mk_mesh 1 [2] 0 [0%Q] 1%Q), 0, 3. split; [|repeat split; cbn; try lia; reflexivity].
  repeat split; cbn; try lia. repeat constructor.
Qed.
Print Assumptions C19_large_offset_refuted.

(** ** C20: positions. *)
(** Every position in the closed domain maps to a cell, and to the cell that
    contains it (the last cell for the upper end of the domain).  Exact
    arithmetic. *)
Theorem C20_position_in_the_domain : forall m p, mesh_ok m -> (ndim m <= length p)%nat ->
  (forall i, (i < ndim m)%nat -> (0 <= rel_pos m p i <= domain m i)%Q) ->
  exists t, map_to_tuple m p = Some t /\ cell_tuple m t /\
    forall i, (i < ndim m)%nat ->
      ((rel_pos m p i < domain m i)%Q -> in_cell m (coord m t i) (rel_pos m p i)) /\
      ((rel_pos m p i == domain m i)%Q -> coord m t i = extent_cells m i - 1).
Proof. exact map_to_tuple_inside. Qed.
Print Assumptions C20_position_in_the_domain.

(** A position is in one cell only. *)
Theorem C20_the_cell_is_unique : forall m c1 c2 x, (0 < extent m)%Q -> in_cell m c1 x -> in_cell m c2 x -> c1 = c2.
Proof. exact in_cell_unique. Qed.
Print Assumptions C20_the_cell_is_unique.

(** A position above the domain is not given a cell: beyond the tolerance the
    coarse index is -2; within the tolerance the cell is the last one or the
    fine index is -2. *)
Theorem C20_position_above_the_domain : forall m p i,
  mesh_ok m -> (ndim m <= length p)%nat -> (i < ndim m)%nat -> (domain m i < rel_pos m p i)%Q ->
  exists t, map_to_tuple m p = Some t /\
    ((rel_pos m p i - domain m i <= (1 # 10000000000) * rel_pos m p i)%Q ->
       nth i t 0 = nth i (dims m) 0 - 1 /\ (nth (ndim m + i) t 0 = 2 ^ Z.of_nat (order m) - 1 \/ nth (ndim m + i) t 0 = -2)) /\
    (~ (rel_pos m p i - domain m i <= (1 # 10000000000) * rel_pos m p i)%Q -> nth i t 0 = -2).
Proof. exact map_to_tuple_above. Qed.
Print Assumptions C20_position_above_the_domain.

(** The mapping without truncation gives the cell that contains the position,
    inside or outside of the domain, except for positions below the origin
    exactly on the boundary between two cells. *)
Theorem C20_cartesian_position : forall m p, mesh_ok m -> (ndim m <= length p)%nat ->
  (forall i, (i < ndim m)%nat -> (0 <= rel_pos m p i)%Q \/ forall z, ~ (- rel_pos m p i == inject_Z z * fine_width m)%Q) ->
  exists y, map_to_cart_tuple_no_trunc m p = Some y /\ length y = ndim m /\
    forall i, (i < ndim m)%nat -> in_cell m (nth i y 0) (rel_pos m p i).
Proof. exact cart_tuple_position. Qed.
Print Assumptions C20_cartesian_position.

Example C20_instance :
  (forall i, (i < ndim m32)%nat -> (0 <= rel_pos m32 [19 # 4; 3 # 1]%Q i <= domain m32 i)%Q) /\
  map_to_tuple m32 [19 # 4; 3 # 1]%Q = Some [2; 1; 0; 1] /\
  in_cell m32 4 (rel_pos m32 [19 # 4; 3 # 1]%Q 0) /\ (rel_pos m32 [19 # 4; 3 # 1]%Q 1 == domain m32 1)%Q /\
  map_to_tuple m32 [7 # 1; 0 # 1]%Q = Some [-2; 0; -2; 1] /\
  map_to_cart_tuple_no_trunc m32 [-3 # 4; 7 # 2]%Q = Some [-2; 4].
Proof.
  split; [|repeat split; vm_compute; try reflexivity; discriminate].
  intros i Hi. destruct i as [|[|i]]; cbn in Hi; try lia; (split; vm_compute; discriminate).
Qed.

(** Positions below the domain are not reported.  A position less than one fine
    cell below the origin is given the first cell; further below the fine index
    is negative, and the linear index computed from the tuple may be that of an
    unrelated cell. *)
Theorem C20_position_below_the_domain_refuted : exists m p t,
  mesh_ok m /\ (ndim m <= length p)%nat /\ (rel_pos m p 0 < 0)%Q /\
  map_to_tuple m p = Some t /\ cell_tuple m t.
Proof.
  exists m32, [1 # 4; 0 # 1]%Q, [0; 0; 0; 1]. split; [exact m32_ok|]. split; [cbn; lia|]. split; [reflexivity|]. split; [reflexivity|].
  exists [0; 0], [0; 1]. split; [reflexivity|]. split; repeat constructor; cbn; lia.
Qed.
Print Assumptions C20_position_below_the_domain_refuted.

Theorem C20_position_below_gives_unrelated_cell_refuted : exists m p t x t',
  mesh_ok m /\ (ndim m <= length p)%nat /\ (rel_pos m p 0 < 0)%Q /\ (0 <= rel_pos m p 1 < domain m 1)%Q /\
  map_to_tuple m p = Some t /\ tuple_to_linear_global m t = Some x /\ 0 <= x < ncells m /\
  linear_to_tuple_global m x = Some t' /\ ~ in_cell m (coord m t' 1) (rel_pos m p 1).
Proof.
  exists m32, [-5 # 2; 5 # 2]%Q, [-1; 1; -1; 1], 9, [2; 0; 1; 0]. split; [exact m32_ok|]. split; [cbn; lia|].
  split; [reflexivity|]. split; [split; vm_compute; [discriminate|reflexivity]|]. split; [reflexivity|]. split; [reflexivity|].
  split; [vm_compute; split; [discriminate|reflexivity]|]. split; [reflexivity|]. intros (_ & K). vm_compute in K. discriminate.
Qed.
Print Assumptions C20_position_below_gives_unrelated_cell_refuted.

(** Exactly on a cell boundary below the origin the cell is one too low. *)
Theorem C20_cartesian_boundary_refuted : exists m p y,
  mesh_ok m /\ (ndim m <= length p)%nat /\ map_to_cart_tuple_no_trunc m p = Some y /\
  in_cell m (-1) (rel_pos m p 0) /\ nth 0 y 0 = -2.
Proof.
  exists m32, [-1 # 2; 0 # 1]%Q, [-2; 1]. split; [exact m32_ok|]. split; [cbn; lia|]. split; [reflexivity|].
  split; [split; vm_compute; [discriminate|reflexivity]|reflexivity].
Qed.
Print Assumptions C20_cartesian_boundary_refuted.
