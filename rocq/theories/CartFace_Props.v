(** Properties of the boundary faces of a Cartesian mesh. *)
From Coq Require Import List Arith ZArith QArith Bool Lia.
Import ListNotations.
From Verif Require Import Base Mesh_Model Mesh_Spec CartMesh_Model CartMesh_Spec CartMesh_Proofs CartMesh_Props CartFace_Model CartFace_Spec CartFace_Proofs.
Local Open Scope Z_scope.

(** The face cells 0 .. boundary_size - 1 are the facets of the boundary, one
    each; other identifiers are rejected. *)
Theorem C53_face_cells_are_the_facets : forall m, cmesh_ok m -> (2 <= ndim (hier m))%nat ->
  ncells_face_global m = Some (boundary_size m) /\
  (forall id, 0 <= id < boundary_size m -> exists f c, face_cell m id f c /\ facet m f c) /\
  (forall id, ~ 0 <= id < boundary_size m -> get_face_id_as_tuple m id = None) /\
  (forall f c, facet m f c -> exists id, 0 <= id < boundary_size m /\ face_cell m id f c) /\
  (forall id id' f c, face_cell m id f c -> face_cell m id' f c -> id = id').
Proof.
  intros m H N. split; [apply total_eq; assumption|]. split; [|split; [|split]].
  - intros id B. destruct (tuple_of_id m H N id B) as (f & l0 & l1 & T & _ & I). exists f, (cellt m f l0 l1). split; [|apply cellt_ok; assumption].
    apply face_cell_tok; try assumption. eauto.
  - intros id B. unfold get_face_id_as_tuple. rewrite (geoms_eq m H N). cbn [obind]. rewrite (nfaces m H N). fold (off (geoms m) (2 * ndim (hier m))). rewrite (proj1 (total_eq m H N)).
    destruct (Z.leb_spec 0 id); [|reflexivity]. destruct (Z.ltb_spec id (boundary_size m)); [exfalso; lia|reflexivity].
  - intros f c F. destruct (facet_tok m H N f c F) as (T & E). exists (idof m f (nth (dA f) c 0) (nth (dB f) c 0)). split; [apply idof_bounds; assumption|].
    apply face_cell_tok; try assumption. exists (nth (dA f) c 0), (nth (dB f) c 0). split; [exact T|]. split; [reflexivity|]. symmetry. exact E.
  - intros id id' f c A B. apply face_cell_tok in A; try assumption. apply face_cell_tok in B; try assumption. destruct A as (a & b & T & -> & ->), B as (a' & b' & T' & -> & E).
    destruct (cellt_inj m H N f a b a' b' T T' E) as (-> & ->). reflexivity.
Qed.
Print Assumptions C53_face_cells_are_the_facets.

(** The two conversions are inverse to each other. *)
Theorem C53_conversions_inverse : forall m id t, cmesh_ok m -> (2 <= ndim (hier m))%nat ->
  get_face_id_as_tuple m id = Some t -> get_face_linear_index_from_tuple m t = Some id.
Proof.
  intros m id t H N E. destruct (Z_lt_dec id 0) as [L|L]; [rewrite (proj1 (proj2 (proj2 (C53_face_cells_are_the_facets m H N)))) in E by lia; discriminate|].
  destruct (Z_lt_dec id (boundary_size m)) as [L2|L2]; [|rewrite (proj1 (proj2 (proj2 (C53_face_cells_are_the_facets m H N)))) in E by lia; discriminate].
  destruct (tuple_of_id m H N id ltac:(lia)) as (f & l0 & l1 & T & E' & I). assert (t = tup f l0 l1) by congruence. subst t. rewrite I. apply linear_ok; assumption.
Qed.
Print Assumptions C53_conversions_inverse.

(** The owner of a face cell is the owner of the cell behind it. *)
Theorem C53_owner_of_a_face_cell : forall m id f c r, cmesh_ok m -> (2 <= ndim (hier m))%nat -> face_cell m id f c ->
  get_face_id_owning_rank m id = Some r <-> owns m r c.
Proof.
  intros m id f c r H N F. apply face_cell_tok in F; try assumption. destruct F as (l0 & l1 & T & -> & ->). rewrite (owner_face m H N f l0 l1 T).
  apply owner_query; [exact H|]. apply cellt_ok; assumption.
Qed.
Print Assumptions C53_owner_of_a_face_cell.

(** A rank lists, in ascending order, exactly the face cells it owns, and for
    each side exactly those on that side. *)
Theorem C53_own_face_cells : forall m rank, cmesh_ok m -> (2 <= ndim (hier m))%nat -> (rank < csize (comm m))%nat ->
  exists l, owned_face_indices m rank = Some l /\ ascending l /\
    (forall id, In id l <-> 0 <= id < boundary_size m /\ get_face_id_owning_rank m id = Some rank) /\
    forall f, (f < 2 * ndim (hier m))%nat -> exists lf, get_all_face_cells_on_face m rank (Z.of_nat f) = Some lf /\ ascending lf /\
      forall id, In id lf <-> In id l /\ exists c, face_cell m id f c.
Proof.
  intros m rank H N R. destruct (owned_faces_ok m H N rank R) as (l & E & A & I). exists l. split; [exact E|]. split; [exact A|]. split.
  - intros id. rewrite I. split.
    + intros (f & l0 & l1 & T & -> & O). split; [apply idof_bounds; assumption|]. rewrite (owner_face m H N f l0 l1 T). apply (owner_query m H); [|exact O]. apply cellt_ok; assumption.
    + intros (B & O). destruct (tuple_of_id m H N id B) as (f & l0 & l1 & T & _ & ->). exists f, l0, l1. split; [exact T|]. split; [reflexivity|].
      rewrite (owner_face m H N f l0 l1 T) in O. apply (owner_query m H); [|exact O]. apply cellt_ok; assumption.
  - intros f F. destruct (by_face_ok m H N rank l E) as (mp & EM & P); [intros id Ii; apply I in Ii; destruct Ii as (f' & l0 & l1 & T & -> & _); eauto|].
    exists (mp f). destruct (P f) as (P1 & P2). split; [|split; [apply P2, A|]].
    + unfold get_all_face_cells_on_face. rewrite (nfaces m H N). destruct (Z.leb_spec 0 (Z.of_nat f)); [|lia]. destruct (Z.ltb_spec (Z.of_nat f) (Z.of_nat (2 * ndim (hier m)))); [|lia].
      cbn [andb assert obind]. rewrite EM. cbn [obind]. rewrite Nat2Z.id. reflexivity.
    + intros id. rewrite P1. split.
      * intros (A1 & l0 & l1 & T & ->). split; [exact A1|]. exists (cellt m f l0 l1). apply face_cell_tok; eauto.
      * intros (A1 & c & C). split; [exact A1|]. apply face_cell_tok in C; try assumption. destruct C as (l0 & l1 & T & -> & _). eauto.
Qed.
Print Assumptions C53_own_face_cells.

(** Every face cell is owned by exactly one rank. *)
Theorem C53_one_owner_each : forall m id, cmesh_ok m -> (2 <= ndim (hier m))%nat -> 0 <= id < boundary_size m ->
  exists! r, (r < csize (comm m))%nat /\ exists l, owned_face_indices m r = Some l /\ In id l.
Proof.
  intros m id H N B. destruct (tuple_of_id m H N id B) as (f & l0 & l1 & T & _ & ->). destruct (owner_face_some m H N f l0 l1 T) as (r & Er & O).
  exists r. split.
  - split; [apply O|]. destruct (C53_own_face_cells m r H N (proj1 O)) as (l & E & _ & I & _). exists l. split; [exact E|]. apply I. auto.
  - intros r' (R' & l & E & I). destruct (C53_own_face_cells m r' H N R') as (l' & E' & _ & I' & _). assert (l' = l) by congruence. subst l'. apply I' in I. destruct I as (_ & I). congruence.
Qed.
Print Assumptions C53_one_owner_each.

(** get_face_cells: the lists of the given sides, in the order given. *)
Theorem C53_face_cells_of_sides : forall m rank faces, cmesh_ok m -> (2 <= ndim (hier m))%nat -> (rank < csize (comm m))%nat ->
  Forall (fun f => (f < 2 * ndim (hier m))%nat) faces ->
  exists ls, mapM (fun f => get_all_face_cells_on_face m rank (Z.of_nat f)) faces = Some ls /\ get_face_cells m rank faces = Some (concat ls).
Proof.
  intros m rank faces H N R F. destruct (owned_faces_ok m H N rank R) as (l & E & A & I).
  destruct (by_face_ok m H N rank l E) as (mp & EM & _); [intros id Ii; apply I in Ii; destruct Ii as (f' & l0 & l1 & T & -> & _); eauto|].
  exists (map mp faces). split.
  - apply mapM_some. intros f If. rewrite Forall_forall in F. specialize (F f If). unfold get_all_face_cells_on_face. rewrite (nfaces m H N).
    destruct (Z.leb_spec 0 (Z.of_nat f)); [|lia]. destruct (Z.ltb_spec (Z.of_nat f) (Z.of_nat (2 * ndim (hier m)))); [|lia]. cbn [andb assert obind]. rewrite EM. cbn [obind]. rewrite Nat2Z.id. reflexivity.
  - unfold get_face_cells. rewrite EM. cbn [obind]. rewrite flat_map_concat_map. reflexivity.
Qed.
Print Assumptions C53_face_cells_of_sides.

(** The corners of a face cell are corners of its cell and lie on its side of
    the domain. *)
Theorem C53_corners_on_the_side : forall m id f c, cmesh_ok m -> (2 <= ndim (hier m))%nat -> face_cell m id f c ->
  exists ps, face_points_of_id m id = Some ps /\ length ps = (2 ^ (ndim (hier m) - 1))%nat /\ distinct_points ps /\ forall x, In x ps -> on_side m f c x.
Proof.
  intros m id f c H N F. apply face_cell_tok in F; try assumption. destruct F as (l0 & l1 & T & -> & ->). destruct (idof_bounds m H N f l0 l1 T) as (_ & B).
  destruct (points_ok m H N f l0 l1 T) as (ps & E & L & DP & P). exists ps. split.
  - unfold face_points_of_id. rewrite (geoms_eq m H N). cbn [obind]. rewrite (scans_eq _ (geoms_len m)). cbn [obind snd].
    assert (Rb : rd (map (fun f => off (geoms m) (S f)) (seq 0 6)) (if (ndim (hier m) =? 2)%nat then 3 else 5)%nat = Some (boundary_size m)).
    { rewrite <- (proj1 (total_eq m H N)). destruct (nd_cases m H N) as [Q|Q]; rewrite Q; reflexivity. }
    rewrite Rb. cbn [obind]. destruct (Z.leb_spec 0 (idof m f l0 l1)); [|lia]. destruct (Z.ltb_spec (idof m f l0 l1) (boundary_size m)); [|lia]. cbn [andb assert obind].
    rewrite (tuple_id m H N f l0 l1 T). cbn [obind]. exact E.
  - split; [exact L|]. split; assumption.
Qed.
Print Assumptions C53_corners_on_the_side.

Example C53_instance :
  boundary_size m2 = 20 /\ ncells_face_global m2 = Some 20 /\
  get_face_id_as_tuple m2 8 = Some [1; 2; 0] /\ get_mesh_tuple_owning_face_tuple m2 [1; 2; 0] [0; 0; 0] = Some [5; 2; 0] /\
  get_face_id_owning_rank m2 8 = Some 3%nat /\ owned_face_indices m2 3 = Some [8; 9; 13; 14; 15] /\
  get_all_face_cells_on_face m2 3 1 = Some [8; 9] /\ get_face_cells m2 3 [2; 1]%nat = Some [13; 14; 15; 8; 9].
Proof. vm_compute. repeat split. Qed.
(** Three dimensions, 2 by 7 by 3 cells of width a half. *)
Definition m3 : cmesh := mk_cmesh h3 (row_cart [1; 7; 1]%nat) 1.
Example C53_instance_three :
  cmesh_ok m3 /\ boundary_size m3 = 82 /\ face_cell m3 20 1 [1; 0; 2] /\ get_face_id_owning_rank m3 20 = Some 0%nat /\
  face_points_of_id m3 20 = Some [[4 # 4; 0 # 4; 4 # 4]; [4 # 4; 2 # 4; 4 # 4]; [4 # 4; 2 # 4; 6 # 4]; [4 # 4; 0 # 4; 6 # 4]]%Q.
Proof.
  split.
  - split; [apply C51_instance_meshes|]. split; [cbn; lia|]. split; [intros i L; cbn in L; destruct i as [|[|[|i]]]; [reflexivity..|lia]|].
    split; [apply row_cart_ok; cbn; lia|]. split; [reflexivity|]. intros i L. cbn in L. destruct i as [|[|[|i]]]; [cbn; lia..|lia].
  - split; [reflexivity|]. split; [exists [1; 0; 2]; vm_compute; auto|]. split; [reflexivity|]. vm_compute. reflexivity.
Qed.
