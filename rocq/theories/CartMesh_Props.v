(** C51: the distribution of a Cartesian mesh over the ranks. *)
From Coq Require Import List Arith ZArith QArith Bool Lia Permutation.
Import ListNotations.
From Verif Require Import Base Kernel Mesh_Model Mesh_Spec CartMesh_Model CartMesh_Spec CartMesh_Proofs CartOwner_Proofs CartDecomp_Proofs.
Local Open Scope nat_scope.

(** The cells a rank lists are distinct cells of the grid, at least one. *)
Theorem C51_owned_cells m rank : cmesh_ok m -> rank < csize (comm m) ->
  exists cells, get_owned_cells m rank = Some cells /\ NoDup cells /\ cells <> [] /\ Forall (grid_cell m) cells /\
    get_cart_cell_count m rank = Some (length cells).
Proof.
  intros H L. destruct (ranks m H rank L) as (x & E & C & _). exists (owned m x). rewrite (owned_eq m H rank x E C).
  split; [reflexivity|]. split; [apply box_nodup|]. split.
  - pose proof (owned_pos m H x C). intros Q. rewrite Q in *. cbn in *. lia.
  - split; [apply Forall_forall; intros c I; eapply owned_grid; eauto|].
    unfold get_cart_cell_count. rewrite (owned_eq m H rank x E C). reflexivity.
Qed.
Print Assumptions C51_owned_cells.

(** Every cell of the grid is listed by exactly one rank, and the query for
    the owner of a cell names that rank. *)
Theorem C51_one_owner m c : cmesh_ok m -> grid_cell m c -> exists r, owns m r c /\ forall q, owns m q c -> q = r.
Proof.
  intros H G. destruct (owner_exists m H c G) as (r & _ & _ & O). exists r. split; [exact O|]. intros q Oq. eapply owns_unique; eauto.
Qed.
Print Assumptions C51_one_owner.
Theorem C51_owner_query m c r : cmesh_ok m -> grid_cell m c -> get_mesh_tuple_owning_rank m c = Some r <-> owns m r c.
Proof. intros H G. apply owner_query; assumption. Qed.
Print Assumptions C51_owner_query.

(** After construction every node's copy of the hierarchy's map of owners names
    the rank that lists the cell, whatever the order of the accumulations and
    the previous contents of the windows. *)
Theorem C51_owner_map m nodes s1 s2 maps0 : cmesh_ok m ->
  (forall k l, Permutation (s1 k l) l) -> (forall k l, Permutation (s2 k l) l) ->
  Permutation (concat nodes) (seq 0 (csize (comm m))) -> nodes <> [] -> Forall (fun l => l <> []) nodes ->
  length maps0 = length nodes -> Forall (fun mp => length mp = Z.to_nat (ncells (hier m))) maps0 ->
  exists owners, build_owners m nodes s1 s2 maps0 = Some (repeat owners (length nodes)) /\ owner_map m owners.
Proof. intros. apply build_ok; assumption. Qed.
Print Assumptions C51_owner_map.

(** The local cell ids 0 .. count-1 of a rank are its cells, one each; other
    ids are rejected. *)
Theorem C51_local_ids m rank : cmesh_ok m -> rank < csize (comm m) ->
  exists cells, get_owned_cells m rank = Some cells /\
    (forall i, i < length cells -> get_global_cell_tuple_index m rank (Z.of_nat i) = nth_error cells i) /\
    (forall i, ~ (0 <= i < Z.of_nat (length cells))%Z -> get_global_cell_tuple_index m rank i = None).
Proof.
  intros H L. destruct (ranks m H rank L) as (x & E & C & _). exists (owned m x). split; [apply owned_eq; assumption|]. split.
  - intros i Hi. apply tuple_index_eq; assumption.
  - intros i Hi. eapply tuple_index_none; eauto.
Qed.
Print Assumptions C51_local_ids.

(** The neighbours of a rank are exactly the ranks owning a cell at most the
    stencil width away, periodically, from one of its own. *)
Theorem C51_neighbours m owners rank : cmesh_ok m -> owner_map m owners -> rank < csize (comm m) ->
  exists nb, get_local_communication_neighbours m owners rank = Some nb /\ ascending nb /\
    forall q, In q nb <-> exists r c c', q = Z.of_nat r /\ owns m rank c /\ owns m r c' /\ within m (Z.of_nat (stencil_width m)) c c'.
Proof. intros. apply neighbours_ok; assumption. Qed.
Print Assumptions C51_neighbours.

(** Being neighbours is symmetric, and a rank is its own neighbour. *)
Theorem C51_neighbours_symmetric m owners rank q nb nb' : cmesh_ok m -> owner_map m owners ->
  rank < csize (comm m) -> q < csize (comm m) ->
  get_local_communication_neighbours m owners rank = Some nb -> get_local_communication_neighbours m owners q = Some nb' ->
  (In (Z.of_nat q) nb <-> In (Z.of_nat rank) nb') /\ In (Z.of_nat rank) nb.
Proof.
  intros H OM L L' E E'. destruct (neighbours_ok m H owners OM rank L) as (n1 & E1 & _ & I1). destruct (neighbours_ok m H owners OM q L') as (n2 & E2 & _ & I2).
  assert (n1 = nb) by congruence. assert (n2 = nb') by congruence. subst n1 n2. rewrite I1, I2.
  assert (S : forall w c c', within m w c c' -> within m w c' c).
  { intros w c c' W i Hi. destruct (W i Hi) as (k & K). exists (- k)%Z. rewrite <- Z.abs_opp. replace (- _)%Z with (nth i c 0 + k * grid m i - nth i c' 0)%Z by ring. exact K. }
  split.
  - split; intros (r & c & c' & Q & O & O' & W).
    + apply Nat2Z.inj in Q. subst r. exists rank, c', c. auto.
    + apply Nat2Z.inj in Q. subst r. exists q, c', c. auto.
  - rewrite I1. destruct (ranks m H rank L) as (x & Ex & C & _). pose proof (owned_pos m H x C) as P. destruct (owned m x) as [|c l] eqn:Q; [cbn in P; lia|].
    assert (O : owns m rank c) by (apply (owns_iff m H rank x c Ex C L); rewrite Q; left; reflexivity).
    exists rank, c, c. split; [reflexivity|]. split; [exact O|]. split; [exact O|]. intros i Hi. exists 0%Z. lia.
Qed.
Print Assumptions C51_neighbours_symmetric.

(** The decomposition: as many ranks as the communicator has, at least one
    cell per rank in every dimension. *)
Theorem C51_decomposition e parent size nd counts d : nd <= length counts -> (forall p, parent = Some p -> length p = nd) ->
  choose_decomp e parent size nd counts = Some d ->
  length d = nd /\ nprod d = size /\ forall i, i < nd -> nth i d 0 <= nth i counts 0.
Proof. apply choose_valid. Qed.
Print Assumptions C51_decomposition.

(** The meshes the constructor makes are those of the theorems above. *)
Theorem C51_constructed e parent size h create sw m :
  (forall p, parent = Some p -> length p = ndim h) -> 0 < size -> origin h = repeat 0%Q (ndim h) ->
  (forall d, length d = ndim h -> nprod d = size -> cart_ok (create d) /\ cdims (create d) = d) ->
  construct_cmesh e parent size h create sw = Some m ->
  cmesh_ok m /\ hier m = h /\ stencil_width m = sw /\ csize (comm m) = size /\ 2 <= ndim h <= 3.
Proof. intros. eapply construct_ok; eauto. Qed.
Print Assumptions C51_constructed.

(** A mesh of two or three dimensions is made whenever some dimension has at
    least as many cells as there are ranks, whatever MPI_Dims_create returns. *)
Theorem C51_decomposition_found e size h create sw :
  chooser_ok e -> 0 < size -> origin h = repeat 0%Q (ndim h) ->
  (forall d, length d = ndim h -> nprod d = size -> cart_ok (create d) /\ cdims (create d) = d) ->
  mesh_ok h -> 2 <= ndim h <= 3 -> (exists i, i < ndim h /\ (Z.of_nat size <= extent_cells h i)%Z) ->
  exists m, construct_cmesh e None size h create sw = Some m.
Proof. intros. apply construct_found; try assumption; [discriminate|reflexivity]. Qed.
Print Assumptions C51_decomposition_found.

(** A mesh of one dimension is rejected, although the first check of the
    constructor admits it. *)
Theorem C51_one_dimension_refuted e parent size h create sw : ndim h = 1 -> construct_cmesh e parent size h create sw = None.
Proof.
  intros N. unfold construct_cmesh. rewrite N. cbn [Nat.ltb Nat.leb andb].
  destruct (assert _); [|reflexivity]. cbn [obind]. destruct (assert _); [|reflexivity]. cbn [obind]. destruct (mapM _ _); [|reflexivity]. cbn [obind].
  destruct (assert _); [|reflexivity]. cbn [obind]. destruct (assert _); [|reflexivity]. cbn [obind]. destruct (fill3 _ _ _); [|reflexivity]. cbn [obind].
  destruct (choose_decomp _ _ _ _ _); [|reflexivity]. cbn [obind]. destruct (mapM _ _); reflexivity.
Qed.
Print Assumptions C51_one_dimension_refuted.

(** ** A communicator and a chooser that meet the hypotheses *)
Fixpoint row_rank (ds x : list nat) : option nat :=
  match ds, x with
  | [], [] => Some 0
  | d :: ds', c :: x' => if c <? d then r <- row_rank ds' x' ;; Some (c * nprod ds' + r) else None
  | _, _ => None
  end.
Fixpoint row_coords (ds : list nat) (r : nat) : option (list nat) :=
  match ds with
  | [] => if r =? 0 then Some [] else None
  | d :: ds' => if r <? d * nprod ds' then x <- row_coords ds' (r mod nprod ds') ;; Some (r / nprod ds' :: x) else None
  end.
Definition row_cart (ds : list nat) : cart := mk_cart (nprod ds) ds (row_rank ds) (row_coords ds).

Lemma row_cart_ok ds : 0 < nprod ds -> cart_ok (row_cart ds) /\ cdims (row_cart ds) = ds.
Proof.
  intros P. split; [|reflexivity]. unfold cart_ok, row_cart. cbn [csize cdims crank ccoords]. split; [reflexivity|]. split.
  - revert P. induction ds as [|d ds IH]; intros P x C; inversion C; subst.
    + exists 0. cbn. auto.
    + assert (P' : 0 < nprod ds) by (unfold nprod in *; cbn [fold_right] in P; destruct (fold_right Nat.mul 1 ds); lia).
      match goal with K : Forall2 _ ds _ |- _ => destruct (IH P' _ K) as (r & E & L & F) end. cbn [row_rank row_coords].
      destruct (Nat.ltb_spec y d); [|lia]. rewrite E. cbn [obind]. exists (y * nprod ds + r). split; [reflexivity|].
      change (nprod (d :: ds)) with (d * nprod ds). split; [nia|].
      destruct (Nat.ltb_spec (y * nprod ds + r) (d * nprod ds)); [|nia].
      rewrite (Nat.add_comm (y * nprod ds) r). rewrite Nat.mod_add, (Nat.mod_small r) by lia. rewrite F. cbn [obind].
      rewrite Nat.div_add, (Nat.div_small r) by lia. reflexivity.
  - revert P. induction ds as [|d ds IH]; intros P r L.
    + exists []. cbn in *. assert (r = 0) by lia. subst r. cbn. repeat split. constructor.
    + assert (P' : 0 < nprod ds) by (unfold nprod in *; cbn [fold_right] in P; destruct (fold_right Nat.mul 1 ds); lia).
      change (nprod (d :: ds)) with (d * nprod ds) in L.
      destruct (IH P' (r mod nprod ds)) as (x & E & C & F); [apply Nat.mod_upper_bound; lia|].
      exists (r / nprod ds :: x). cbn [row_coords row_rank]. destruct (Nat.ltb_spec r (d * nprod ds)); [|lia]. rewrite E. cbn [obind].
      assert (Q : r / nprod ds < d) by (apply Nat.div_lt_upper_bound; lia).
      split; [reflexivity|]. split; [constructor; [exact Q|exact C]|]. destruct (Nat.ltb_spec (r / nprod ds) d); [|lia]. rewrite F. cbn [obind].
      f_equal. rewrite Nat.mul_comm. symmetry. apply Nat.div_mod. lia.
Qed.

(** Sorting positions by insertion. *)
Fixpoint insert_by (l : list nat) (i : nat) (o : list nat) : list nat :=
  match o with
  | [] => [i]
  | j :: o' => if nth j l 0 <=? nth i l 0 then i :: o else j :: insert_by l i o'
  end.
Definition sort_by (l : list nat) : list nat := fold_right (insert_by l) [] (seq 0 (length l)).
Lemma insert_by_perm l i o : Permutation (insert_by l i o) (i :: o).
Proof.
  induction o as [|j o IH]; cbn [insert_by]; [reflexivity|]. destruct (_ <=? _); [reflexivity|]. rewrite IH. apply perm_swap.
Qed.
Lemma insert_by_sorted l i o : (forall a b, a < b < length o -> nth (nth b o 0) l 0 <= nth (nth a o 0) l 0) ->
  forall a b, a < b < length (insert_by l i o) -> nth (nth b (insert_by l i o) 0) l 0 <= nth (nth a (insert_by l i o) 0) l 0.
Proof.
  induction o as [|j o IH]; intros S a b L; cbn [insert_by] in *; [cbn [length] in L; lia|].
  destruct (Nat.leb_spec (nth j l 0) (nth i l 0)) as [Q|Q].
  - cbn [length] in L. destruct b as [|b]; [lia|]. destruct a as [|a].
    + cbn [nth]. destruct b as [|b]; [exact Q|]. pose proof (S 0 (Datatypes.S b) ltac:(cbn [length]; lia)) as K. cbn [nth] in K. lia.
    + cbn [nth]. apply (S a b). cbn [length]. lia.
  - cbn [length] in L. destruct b as [|b]; [lia|]. destruct a as [|a].
    + cbn [nth]. assert (K : In (nth b (insert_by l i o) 0) (i :: o)).
      { eapply Permutation_in; [apply insert_by_perm|]. apply nth_In. lia. }
      destruct K as [K|K]; [rewrite <- K; lia|]. apply (In_nth _ _ 0) in K. destruct K as (k & Lk & Ek). rewrite <- Ek.
      apply (S 0 (Datatypes.S k)). cbn [length]. lia.
    + cbn [nth]. apply IH; [|lia]. intros a' b' L'. apply (S (Datatypes.S a') (Datatypes.S b')). cbn [length]. lia.
Qed.
Definition a_chooser : chooser :=
  mk_chooser (fun size nd => if ((size =? 4) && (nd =? 2)) then [2; 2] else size :: repeat 1 (nd - 1)) sort_by.
Example C51_chooser_exists : chooser_ok a_chooser.
Proof.
  split.
  - intros size nd S N. cbn [a_chooser dims_create]. destruct ((size =? 4) && (nd =? 2)) eqn:Q.
    + apply andb_true_iff in Q. destruct Q as (Q1 & Q2). apply Nat.eqb_eq in Q1, Q2. subst. auto.
    + cbn [length]. rewrite repeat_length. split; [lia|]. unfold nprod. cbn [fold_right].
      assert (E : forall n, fold_right Nat.mul 1 (repeat 1 n) = 1) by (induction n; cbn; lia). rewrite E. lia.
  - intros l. cbn [a_chooser reverse_argsort]. unfold sort_by.
    assert (P : forall s, Permutation (fold_right (insert_by l) [] s) s).
    { induction s as [|i s IH]; [reflexivity|]. cbn [fold_right]. rewrite insert_by_perm. constructor. exact IH. }
    assert (S : forall s a b, a < b < length (fold_right (insert_by l) [] s) ->
      nth (nth b (fold_right (insert_by l) [] s) 0) l 0 <= nth (nth a (fold_right (insert_by l) [] s) 0) l 0).
    { induction s as [|i s IH]; intros a b L; [cbn [fold_right length] in L; lia|]. cbn [fold_right] in *. apply insert_by_sorted; [exact IH|exact L]. }
    assert (Lp : length (fold_right (insert_by l) [] (seq 0 (length l))) = length l) by (rewrite (Permutation_length (P _)), seq_length; reflexivity).
    split; [exact Lp|]. split; [eapply Permutation_NoDup; [symmetry; apply P|apply seq_NoDup]|]. split.
    + intros i I. apply (Permutation_in _ (P _)) in I. apply in_seq in I. lia.
    + intros i j L. apply S. lia.
Qed.

(** ** A mesh of 6 by 4 cells on four ranks, and one in three dimensions on seven *)
Definition h2 : mesh := mk_mesh 2 [3; 2]%Z 1 [0%Q; 0%Q] (1#1)%Q.
Definition m2 : cmesh := mk_cmesh h2 (row_cart [2; 2]) 1.
Definition h3 : mesh := mk_mesh 3 [2; 7; 3]%Z 0 [0%Q; 0%Q; 0%Q] (1#2)%Q.
Example C51_instance_meshes : mesh_ok h2 /\ mesh_ok h3 /\ cmesh_ok m2.
Proof.
  assert (A : mesh_ok h2) by (split; [cbn; lia|split; [cbn; lia|split; [repeat constructor; reflexivity|reflexivity]]]).
  assert (B : mesh_ok h3) by (split; [cbn; lia|split; [cbn; lia|split; [repeat constructor; reflexivity|reflexivity]]]).
  split; [exact A|]. split; [exact B|]. split; [exact A|]. split; [cbn; lia|]. split.
  - intros i L. cbn [m2 hier h2 ndim] in L. destruct i as [|[|i]]; [reflexivity|reflexivity|lia].
  - split; [apply row_cart_ok; cbn; lia|]. split; [reflexivity|]. intros i L. cbn [m2 hier h2 ndim] in L.
    destruct i as [|[|i]]; [cbn; lia|cbn; lia|lia].
Qed.
Example C51_instance :
  construct_cmesh a_chooser None 4 h2 row_cart 1 = Some m2 /\
  get_owned_cells m2 1 = Some [[0; 2; 0]; [1; 2; 0]; [2; 2; 0]; [0; 3; 0]; [1; 3; 0]; [2; 3; 0]]%Z /\
  get_mesh_tuple_owning_rank m2 [4; 1; 0]%Z = Some 2 /\
  get_global_cell_tuple_index m2 1 4 = Some [1; 3; 0]%Z /\
  (exists owners, build_owners m2 [[0; 2]; [1; 3]] (fun _ l => l) (fun _ l => rev l) [repeat 7%Z 24; repeat 9%Z 24] = Some [owners; owners] /\
     get_local_communication_neighbours m2 owners 0 = Some [0; 1; 2; 3]%Z).
Proof. vm_compute. repeat split; try reflexivity. eexists. split; reflexivity. Qed.
Example C51_instance_three :
  exists m, construct_cmesh a_chooser None 7 h3 row_cart 1 = Some m /\ cdims (comm m) = [1; 7; 1].
Proof. vm_compute. eexists. split; reflexivity. Qed.
(** The only dimensions with as many cells as ranks may be taken whole. *)
Example C51_instance_lower :
  choose_decomp (mk_chooser (fun size nd => size :: repeat 1 (nd - 1)) sort_by) None 6 2 [2; 3; 0] = Some [2; 3].
Proof. vm_compute. reflexivity. Qed.
