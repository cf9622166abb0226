(** Proofs about the boundary faces. *)
From Coq Require Import List Arith ZArith QArith Bool Lia Lqa.
Import ListNotations.
From Verif Require Import Base Kernel Mesh_Model Mesh_Spec Mesh_Proofs MeshNb_Proofs MeshPos_Proofs CartMesh_Model CartMesh_Spec CartMesh_Proofs CartOwner_Proofs CartFace_Model CartFace_Spec.
Local Open Scope Z_scope.

(** Running sums of six numbers. *)
Definition off (g : list Z) (f : nat) : Z := fold_left Z.add (firstn f g) 0.
Lemma off_S g f : length g = 6%nat -> (f < 6)%nat -> off g (S f) = off g f + nth f g 0.
Proof.
  intros L F. destruct g as [|a [|b [|c [|d [|e [|h [|]]]]]]]; try discriminate L.
  do 6 (destruct f as [|f]; [unfold off; cbn [firstn fold_left nth]; lia|]). lia.
Qed.
Lemma scans_eq g : length g = 6%nat -> face_scans g = Some (map (off g) (seq 0 6), map (fun f => off g (S f)) (seq 0 6)).
Proof.
  intros L. destruct g as [|a [|b [|c [|d [|e [|h [|]]]]]]]; try discriminate L.
  unfold face_scans. cbn [seq foldM rd nth_error obind upd repeat fst snd map off firstn fold_left]. reflexivity.
Qed.
Lemma find_ok g id : length g = 6%nat -> (forall f, (f < 6)%nat -> 0 <= nth f g 0) -> forall n a, (a + n <= 6)%nat -> off g a <= id < off g (a + n) ->
  exists f, find_face (map (fun f => off g (S f)) (seq 0 6)) id (seq a n) = Some (Some f) /\ (a <= f < a + n)%nat /\ off g f <= id < off g (S f).
Proof.
  intros L P. induction n as [|n IH]; intros a A B; [rewrite Nat.add_0_r in B; lia|]. change (seq a (S n)) with (a :: seq (S a) n). cbn [find_face].
  assert (R : rd (map (fun f => off g (S f)) (seq 0 6)) a = Some (off g (S a))).
  { unfold rd. rewrite nth_error_map, nth_error_seq. destruct (Nat.ltb_spec a 6); [reflexivity|lia]. }
  rewrite R. cbn [obind]. destruct (Z.ltb_spec id (off g (S a))).
  - exists a. split; [reflexivity|]. split; lia.
  - destruct (IH (S a)) as (f & E & F1 & F2); [lia|rewrite Nat.add_succ_comm in *; lia|]. exists f. split; [exact E|]. split; [lia|exact F2].
Qed.
Lemma off_mono g f f' : length g = 6%nat -> (forall f, (f < 6)%nat -> 0 <= nth f g 0) -> (f <= f' <= 6)%nat -> off g f <= off g f'.
Proof.
  intros L P (A & B). induction f' as [|f' IH]; [assert (f = 0)%nat by lia; subst; lia|].
  destruct (Nat.eq_dec f (S f')) as [->|]; [lia|]. rewrite off_S by lia. specialize (P f' ltac:(lia)). specialize (IH ltac:(lia) ltac:(lia)). lia.
Qed.

Section Faces.
  Context (m : cmesh) (H : cmesh_ok m) (N2 : (2 <= ndim (hier m))%nat).
  Notation nd := (ndim (hier m)).
  Notation h := (hier m).
  Definition dA (f : nat) : nat := nth f [0; 1; 0; 1; 0; 0]%nat 0%nat.
  Definition dB (f : nat) : nat := nth f [2; 2; 2; 2; 1; 1]%nat 0%nat.
  Definition geoms : list Z := map (fun f => if (f <? 2 * nd)%nat then grid m (dA f) * grid m (dB f) else 0) (seq 0 6).

  Lemma nd_cases : nd = 2%nat \/ nd = 3%nat.
  Proof. pose proof (nd_le m H). lia. Qed.
  Lemma ext_grid i : (i < nd)%nat -> nth i (dims h) 0 * ncells_dim_fine h = grid m i.
  Proof. intros L. unfold grid. destruct (Nat.ltb_spec i nd); [reflexivity|lia]. Qed.
  Lemma grid2 : nd = 2%nat -> grid m 2 = 1.
  Proof. intros E. unfold grid. rewrite E. reflexivity. Qed.
  Lemma nfaces : num_faces m = (2 * nd)%nat.
  Proof. unfold num_faces. destruct nd_cases as [E|E]; rewrite E; reflexivity. Qed.
  Lemma geoms_len : length geoms = 6%nat.
  Proof. unfold geoms. rewrite map_length, seq_length. reflexivity. Qed.
  Lemma geoms_eq : num_geoms_per_face m = Some geoms.
  Proof.
    unfold num_geoms_per_face, geoms. destruct nd_cases as [E|E].
    - pose proof (grid2 E) as G2. rewrite !(dims_rd m H) by lia. pose proof (ext_grid 0 ltac:(lia)) as E0. pose proof (ext_grid 1 ltac:(lia)) as E1.
      rewrite E. cbn [Nat.eqb obind seq map Nat.ltb Nat.leb Nat.mul Nat.add dA dB nth]. rewrite G2, E0, E1. rewrite !Z.mul_1_r. reflexivity.
    - rewrite !(dims_rd m H) by lia. pose proof (ext_grid 0 ltac:(lia)) as E0. pose proof (ext_grid 1 ltac:(lia)) as E1. pose proof (ext_grid 2 ltac:(lia)) as E2.
      rewrite E. cbn [Nat.eqb obind seq map Nat.ltb Nat.leb Nat.mul Nat.add dA dB nth]. rewrite <- E0, <- E1, <- E2. f_equal. repeat (f_equal; try ring).
  Qed.
  Lemma geoms_nth f : (f < 2 * nd)%nat -> nth f geoms 0 = grid m (dA f) * grid m (dB f).
  Proof.
    intros L. pose proof (nd_le m H). unfold geoms. rewrite nth_map_seq' by lia. destruct (Nat.ltb_spec f (2 * nd)); [reflexivity|lia].
  Qed.
  Lemma geoms_nonneg f : (f < 6)%nat -> 0 <= nth f geoms 0.
  Proof.
    intros L. unfold geoms. rewrite nth_map_seq' by lia. pose proof (grid_pos m H (dA f)). pose proof (grid_pos m H (dB f)).
    destruct (Nat.ltb_spec f (2 * nd)); [nia|lia].
  Qed.
  Lemma strides0_rd f : (f < 2 * nd)%nat -> exists s, face_strides0 m = Some s /\ rd s f = Some (grid m (dA f)).
  Proof.
    intros L. unfold face_strides0. destruct nd_cases as [E|E]; rewrite !(dims_rd m H) by lia; pose proof (ext_grid 0 ltac:(lia)) as E0; pose proof (ext_grid 1 ltac:(lia)) as E1;
      rewrite E in *; cbn [Nat.eqb obind]; eexists; (split; [reflexivity|]); rewrite E0, E1;
      do 6 (destruct f as [|f]; [reflexivity || (exfalso; cbn in L; lia)|]); lia.
  Qed.
  Lemma strides1_rd f : (f < 2 * nd)%nat -> exists s, face_strides1 m = Some s /\ rd s f = Some (grid m (dB f)).
  Proof.
    intros L. unfold face_strides1. destruct nd_cases as [E|E].
    - pose proof (grid2 E) as G2. rewrite E in *. cbn [Nat.eqb]. eexists. split; [reflexivity|].
      do 6 (destruct f as [|f]; [cbn [rd nth_error dB nth]; (rewrite G2; reflexivity) || (exfalso; cbn in L; lia)|]); lia.
    - rewrite !(dims_rd m H) by lia. pose proof (ext_grid 1 ltac:(lia)) as E1. pose proof (ext_grid 2 ltac:(lia)) as E2. rewrite E in *. cbn [Nat.eqb obind].
      eexists. split; [reflexivity|]. rewrite E1, E2. do 6 (destruct f as [|f]; [reflexivity|]). lia.
  Qed.
  Lemma total_eq : off geoms (2 * nd) = boundary_size m /\ ncells_face_global m = Some (boundary_size m).
  Proof.
    unfold ncells_face_global. rewrite geoms_eq. cbn [obind]. unfold boundary_size, off, geoms. destruct nd_cases as [E|E].
    - pose proof (grid2 E) as G2. rewrite !(dims_rd m H) by lia. pose proof (ext_grid 0 ltac:(lia)) as E0. pose proof (ext_grid 1 ltac:(lia)) as E1.
      rewrite E in *. cbn [Nat.eqb obind seq map Nat.ltb Nat.leb Nat.mul Nat.add dA dB nth firstn fold_left]. rewrite G2.
      match goal with |- context [assert (?a =? ?b)] => replace (a =? b) with true end.
      + cbn [assert obind]. split; [ring|]. f_equal. ring.
      + symmetry. apply Z.eqb_eq. rewrite <- E0, <- E1. ring.
    - rewrite !(dims_rd m H) by lia. pose proof (ext_grid 0 ltac:(lia)) as E0. pose proof (ext_grid 1 ltac:(lia)) as E1. pose proof (ext_grid 2 ltac:(lia)) as E2.
      rewrite E in *. cbn [Nat.eqb obind seq map Nat.ltb Nat.leb Nat.mul Nat.add dA dB nth firstn fold_left].
      match goal with |- context [assert (?a =? ?b)] => replace (a =? b) with true end.
      + cbn [assert obind]. split; [ring|]. f_equal. ring.
      + symmetry. apply Z.eqb_eq. rewrite <- E0, <- E1, <- E2. ring.
  Qed.

  (** Identifiers and tuples. *)
  Definition tup (f : nat) (l0 l1 : Z) : list Z := [Z.of_nat f; l0; l1].
  Definition tok (f : nat) (l0 l1 : Z) : Prop := (f < 2 * nd)%nat /\ 0 <= l0 < grid m (dA f) /\ 0 <= l1 < grid m (dB f).
  Definition idof (f : nat) (l0 l1 : Z) : Z := off geoms f + l0 + l1 * grid m (dA f).

  Lemma tuple_of_id id : 0 <= id < boundary_size m -> exists f l0 l1, tok f l0 l1 /\ get_face_id_as_tuple m id = Some (tup f l0 l1) /\ id = idof f l0 l1.
  Proof.
    intros B. pose proof (nd_le m H) as ND. unfold get_face_id_as_tuple. rewrite geoms_eq. cbn [obind]. rewrite nfaces. fold (off geoms (2 * nd)). rewrite (proj1 total_eq).
    destruct (Z.leb_spec 0 id); [|lia]. destruct (Z.ltb_spec id (boundary_size m)); [|lia]. cbn [andb assert obind].
    rewrite (scans_eq _ geoms_len). cbn [obind fst snd].
    destruct (find_ok geoms id geoms_len geoms_nonneg (2 * nd) 0) as (f & E & F & O); [lia|cbn [Nat.add]; rewrite (proj1 total_eq); change (off geoms 0) with 0; lia|].
    rewrite E. cbn [obind]. assert (R : rd (map (off geoms) (seq 0 6)) f = Some (off geoms f)).
    { unfold rd. rewrite nth_error_map, nth_error_seq. destruct (Nat.ltb_spec f 6); [reflexivity|lia]. }
    rewrite R. cbn [obind]. destruct (strides0_rd f ltac:(lia)) as (s0 & -> & R0). destruct (strides1_rd f ltac:(lia)) as (s1 & -> & R1). cbn [obind]. rewrite R0, R1. cbn [obind].
    rewrite off_S, geoms_nth in O by (try apply geoms_len; lia). pose proof (grid_pos m H (dA f)) as GA. set (w := grid m (dA f)) in *. set (v := grid m (dB f)) in *.
    destruct (Z.eqb_spec w 0); [lia|]. cbn [negb assert obind].
    set (q := id - off geoms f). assert (Q : 0 <= q < w * v) by (unfold q; lia). rewrite (Z.rem_mod_nonneg q w), (Z.quot_div_nonneg q w) by lia.
    pose proof (Z.div_mod q w ltac:(lia)) as DM. pose proof (Z.mod_pos_bound q w GA) as MB. assert (D0 : 0 <= q / w) by (apply Z.div_pos; lia).
    assert (D1 : q / w < v) by (apply Z.div_lt_upper_bound; lia).
    destruct (Z.leb_spec 0 (q / w)); [|lia]. destruct (Z.ltb_spec (q / w) v); [|lia]. cbn [andb assert obind].
    destruct (Z.eqb_spec (q mod w + q / w * w) q); [|lia]. cbn [assert obind]. destruct (Z.eqb_spec (off geoms f + q) id); [|unfold q in *; lia]. cbn [assert obind].
    exists f, (q mod w), (q / w). split; [split; [lia|split; [exact MB|split; assumption]]|]. split; [reflexivity|]. unfold idof. fold w. unfold q in *. lia.
  Qed.
  Lemma idof_bounds f l0 l1 : tok f l0 l1 -> off geoms f <= idof f l0 l1 < off geoms (S f) /\ 0 <= idof f l0 l1 < boundary_size m.
  Proof.
    intros (F & A & B). pose proof (nd_le m H) as ND. assert (O : off geoms f <= idof f l0 l1 < off geoms (S f)).
    { rewrite off_S, geoms_nth by (try apply geoms_len; lia). unfold idof. nia. }
    split; [exact O|]. rewrite <- (proj1 total_eq). pose proof (off_mono geoms 0 f geoms_len geoms_nonneg ltac:(lia)). pose proof (off_mono geoms (S f) (2 * nd) geoms_len geoms_nonneg ltac:(lia)).
    change (off geoms 0) with 0 in *. lia.
  Qed.
  Lemma idof_inj f l0 l1 f' l0' l1' : tok f l0 l1 -> tok f' l0' l1' -> idof f l0 l1 = idof f' l0' l1' -> f = f' /\ l0 = l0' /\ l1 = l1'.
  Proof.
    intros T T' E. destruct (idof_bounds f l0 l1 T) as (B & _). destruct (idof_bounds f' l0' l1' T') as (B' & _). pose proof (nd_le m H).
    assert (f = f').
    { destruct T as (F & _), T' as (F' & _). destruct (lt_eq_lt_dec f f') as [[Q|Q]|Q]; [|exact Q|]; exfalso.
      - pose proof (off_mono geoms (S f) f' geoms_len geoms_nonneg ltac:(lia)). lia.
      - pose proof (off_mono geoms (S f') f geoms_len geoms_nonneg ltac:(lia)). lia. }
    subst f'. split; [reflexivity|]. unfold idof in E. destruct T as (_ & A & C), T' as (_ & A' & C').
    assert (l1 = l1') by nia. subst. lia.
  Qed.
  Lemma tuple_id f l0 l1 : tok f l0 l1 -> get_face_id_as_tuple m (idof f l0 l1) = Some (tup f l0 l1).
  Proof.
    intros T. destruct (tuple_of_id (idof f l0 l1) (proj2 (idof_bounds f l0 l1 T))) as (f' & l0' & l1' & T' & E & I).
    destruct (idof_inj _ _ _ _ _ _ T T' I) as (-> & -> & ->). exact E.
  Qed.
  Lemma linear_ok f l0 l1 : tok f l0 l1 -> get_face_linear_index_from_tuple m (tup f l0 l1) = Some (idof f l0 l1).
  Proof.
    intros T. pose proof T as (F & A & B). pose proof (nd_le m H) as ND. unfold get_face_linear_index_from_tuple, tup. cbn [rd nth_error obind].
    destruct (Z.leb_spec 0 (Z.of_nat f)); [|lia]. cbn [assert obind]. rewrite geoms_eq. cbn [obind]. rewrite Nat2Z.id. rewrite geoms_len.
    destruct (Nat.leb_spec f 6); [|lia]. cbn [assert obind]. fold (off geoms f). unfold idof. destruct nd_cases as [E|E].
    - rewrite E. cbn [Nat.eqb]. f_equal. enough (l1 = 0) by (subst; ring). pose proof (grid2 E) as G2. rewrite E in F.
      assert (dB f = 2%nat) as Q by (do 4 (destruct f as [|f]; [reflexivity|]); cbn in F; lia). rewrite Q, G2 in B. lia.
    - rewrite E. cbn [Nat.eqb]. destruct (strides0_rd f F) as (s & -> & R). cbn [obind]. rewrite R. reflexivity.
  Qed.

  (** The cell of a tuple. *)
  Definition lastv (f : nat) : Z := if side_high f then grid m (side_dim f) - 1 else 0.
  Definition cellt (f : nat) (l0 l1 : Z) : list Z := map (fun i => if (i =? side_dim f)%nat then lastv f else if (i =? dA f)%nat then l0 else l1) [0; 1; 2]%nat.
  Lemma cellt_ok f l0 l1 : tok f l0 l1 -> get_mesh_tuple_owning_face_tuple m (tup f l0 l1) [0; 0; 0] = Some (cellt f l0 l1) /\ facet m f (cellt f l0 l1).
  Proof.
    intros (F & A & B). pose proof (nd_le m H) as ND. pose proof (grid_pos m H 0) as P0. pose proof (grid_pos m H 1) as P1. pose proof (grid_pos m H 2) as P2.
    unfold get_mesh_tuple_owning_face_tuple, tup. cbn [rd nth_error obind]. destruct (Z.leb_spec 0 (Z.of_nat f)); [|lia]. cbn [assert obind]. rewrite (counts_eq m H). cbn [obind].
    unfold arr3. cbn [map nth_error obind]. rewrite Nat2Z.id. destruct (Nat.ltb_spec 0 nd); [|lia]. destruct (Nat.ltb_spec 1 nd); [|lia]. cbn [obind].
    assert (GE : forall i, (i < nd)%nat -> extent_cells h i = grid m i) by (intros i L; unfold grid; destruct (Nat.ltb_spec i nd); [reflexivity|lia]).
    rewrite !GE by lia. split.
    - destruct nd_cases as [E|E].
      + pose proof (grid2 E) as G2. rewrite E in F. rewrite E. cbn [Nat.eqb].
        do 4 (destruct f as [|f]; [cbn [dA dB nth] in A, B; cbn [nth_error obind upd]; unfold cellt, lastv; cbn [map Nat.eqb side_dim side_high dA nth]; assert (Z1 : l1 = 0) by lia; rewrite Z1; reflexivity|]). cbn in F; lia.
      + rewrite E in F. rewrite E. cbn [Nat.eqb Nat.ltb Nat.leb obind]. rewrite GE by lia.
        do 6 (destruct f as [|f]; [cbn [nth_error obind upd]; unfold cellt, lastv; cbn [map Nat.eqb side_dim side_high dA nth]; reflexivity|]). lia.
    - split; [exact F|]. split.
      + split; [reflexivity|]. intros i L. unfold cellt. 
        assert (F6 : (f < 6)%nat) by lia. do 6 (destruct f as [|f]; [cbn [dA dB nth] in A, B; unfold lastv; cbn [map Nat.eqb side_dim side_high dA nth]; destruct i as [|[|[|i]]]; [cbn [nth Nat.eqb]; lia..|lia]|]). lia.
      + unfold cellt. assert (F6 : (f < 6)%nat) by lia. do 6 (destruct f as [|f]; [reflexivity|]). lia.
  Qed.
  Lemma facet_tok f c : facet m f c -> tok f (nth (dA f) c 0) (nth (dB f) c 0) /\ cellt f (nth (dA f) c 0) (nth (dB f) c 0) = c.
  Proof.
    intros (F & (L3 & G) & S). pose proof (nd_le m H) as ND. assert (F6 : (f < 6)%nat) by lia.
    assert (D : (dA f < 3)%nat /\ (dB f < 3)%nat) by (do 6 (destruct f as [|f]; [cbn; lia|]); lia). split.
    - split; [exact F|]. split; apply G; apply D.
    - destruct c as [|a [|b [|e [|]]]]; try discriminate L3. unfold cellt, lastv. rewrite <- S.
      do 6 (destruct f as [|f]; [reflexivity|]). lia.
  Qed.
  Lemma cellt_inj f l0 l1 l0' l1' : tok f l0 l1 -> tok f l0' l1' -> cellt f l0 l1 = cellt f l0' l1' -> l0 = l0' /\ l1 = l1'.
  Proof.
    intros (F & _) _ E. pose proof (nd_le m H) as ND. unfold cellt in E. assert (F6 : (f < 6)%nat) by lia.
    do 6 (destruct f as [|f]; [cbn [map Nat.eqb side_dim dA nth] in E; injection E; auto|]). lia.
  Qed.

  Lemma face_cell_tok id f c : face_cell m id f c <-> exists l0 l1, tok f l0 l1 /\ id = idof f l0 l1 /\ c = cellt f l0 l1.
  Proof.
    split.
    - intros (t & E & F & C). assert (B : 0 <= id < boundary_size m).
      { unfold get_face_id_as_tuple in E. rewrite geoms_eq in E. cbn [obind] in E. rewrite nfaces in E. fold (off geoms (2 * nd)) in E. rewrite (proj1 total_eq) in E.
        destruct (Z.leb_spec 0 id); [|discriminate]. destruct (Z.ltb_spec id (boundary_size m)); [|discriminate]. lia. }
      destruct (tuple_of_id id B) as (f' & l0 & l1 & T & E' & I). assert (t = tup f' l0 l1) by congruence. subst t. cbn [tup nth_error] in F. injection F as F. apply Nat2Z.inj in F. subst f'.
      exists l0, l1. split; [exact T|]. split; [exact I|]. destruct (cellt_ok f l0 l1 T) as (C' & _). congruence.
    - intros (l0 & l1 & T & -> & ->). exists (tup f l0 l1). split; [apply tuple_id, T|]. split; [reflexivity|]. apply cellt_ok, T.
  Qed.

  (** Owners. *)
  Lemma owner_face f l0 l1 : tok f l0 l1 -> get_face_id_owning_rank m (idof f l0 l1) = get_mesh_tuple_owning_rank m (cellt f l0 l1).
  Proof.
    intros T. unfold get_face_id_owning_rank. destruct (idof_bounds f l0 l1 T) as (_ & B).
    assert (Q : ((nd =? 2) || (nd =? 3))%nat = true) by (destruct nd_cases as [->| ->]; reflexivity). rewrite Q. cbn [assert obind].
    rewrite (proj2 total_eq). cbn [obind]. destruct (Z.leb_spec 0 (idof f l0 l1)); [|lia]. destruct (Z.ltb_spec (idof f l0 l1) (boundary_size m)); [|lia]. cbn [andb assert obind].
    rewrite (tuple_id _ _ _ T). cbn [obind]. rewrite (proj1 (cellt_ok f l0 l1 T)). reflexivity.
  Qed.
  Lemma owner_face_some f l0 l1 : tok f l0 l1 -> exists r, get_face_id_owning_rank m (idof f l0 l1) = Some r /\ owns m r (cellt f l0 l1).
  Proof.
    intros T. rewrite (owner_face _ _ _ T). destruct (cellt_ok f l0 l1 T) as (_ & _ & G & _). destruct (owner_exists m H _ G) as (r & _ & _ & O). exists r. split; [|exact O].
    apply (owner_query m H); assumption.
  Qed.

  (** The own face cells. *)
  Lemma cands_ok x : coords_in (cdims (comm m)) x -> exists l, face_candidates m [st m x 0; st m x 1; st m x 2] [en m x 0; en m x 1; en m x 2] = Some l /\
    forall t, In t l <-> exists f l0 l1, t = tup f l0 l1 /\ (f < 2 * nd)%nat /\ st m x (dA f) <= l0 < en m x (dA f) /\ st m x (dB f) <= l1 < en m x (dB f).
  Proof.
    intros C. pose proof (nd_le m H) as ND. unfold face_candidates. cbn [rd nth_error obind]. rewrite nfaces.
    set (F := fun fx => flat_map (fun l1 => map (fun l0 => [Z.of_nat fx; l0; l1]) (zrange (st m x (dA fx)) (en m x (dA fx)))) (zrange (st m x (dB fx)) (en m x (dB fx)))).
    rewrite (mapM_some _ F).
    2:{ intros f I. apply in_seq in I. assert (F6 : (f < 6)%nat) by lia. do 6 (destruct f as [|f]; [reflexivity|]). lia. }
    cbn [obind]. eexists. split; [reflexivity|]. intros t. rewrite <- flat_map_concat_map, in_flat_map. split.
    - intros (f & If & It). apply in_seq in If. unfold F in It. apply in_flat_map in It. destruct It as (l1 & I1 & It). apply in_map_iff in It. destruct It as (l0 & <- & I0).
      apply zrange_in in I0, I1. exists f, l0, l1. split; [reflexivity|]. split; [lia|]. auto.
    - intros (f & l0 & l1 & -> & L & A & B). exists f. split; [apply in_seq; lia|]. unfold F. apply in_flat_map. exists l1. split; [apply zrange_in, B|]. apply in_map_iff. exists l0. split; [reflexivity|apply zrange_in, A].
  Qed.
  Lemma owned_faces_ok rank : (rank < csize (comm m))%nat -> exists l, owned_face_indices m rank = Some l /\ ascending l /\
    forall id, In id l <-> exists f l0 l1, tok f l0 l1 /\ id = idof f l0 l1 /\ owns m rank (cellt f l0 l1).
  Proof.
    intros R. pose proof (nd_le m H) as ND. destruct (ranks m H rank R) as (x & Ex & C & _ & _). unfold owned_face_indices.
    assert (Q : ((1 <? nd) && (nd <? 4))%nat = true) by (destruct nd_cases as [->| ->]; reflexivity). rewrite Q. cbn [assert obind]. rewrite Ex. cbn [obind].
    rewrite (starts_eq m H), (ends_eq m H) by exact C. cbn [obind]. destruct (cands_ok x C) as (cands & -> & CI). cbn [obind].
    assert (RG : forall i, 0 <= st m x i < en m x i /\ en m x i <= grid m i) by (intros i; apply (region m H); exact C).
    assert (G : forall ts s, (forall t, In t ts -> exists f l0 l1, t = tup f l0 l1 /\ tok f l0 l1) ->
      exists out, foldM (fun s t => i <- get_face_linear_index_from_tuple m t ;; r <- get_face_id_owning_rank m i ;; Some (if (r =? rank)%nat then set_add i s else s)) s ts = Some out /\
        (forall id, In id out <-> In id s \/ exists f l0 l1, In (tup f l0 l1) ts /\ tok f l0 l1 /\ id = idof f l0 l1 /\ owns m rank (cellt f l0 l1)) /\ (ascending s -> ascending out)).
    { induction ts as [|t ts IH]; intros s P; cbn [foldM].
      - exists s. split; [reflexivity|]. split; [|auto]. intros id. split; [auto|]. intros [?|(? & ? & ? & [] & _)]; assumption.
      - destruct (P t (or_introl eq_refl)) as (f & l0 & l1 & -> & T). rewrite (linear_ok _ _ _ T). cbn [obind]. destruct (owner_face_some _ _ _ T) as (r & Er & O). rewrite Er. cbn [obind].
        destruct (IH (if (r =? rank)%nat then set_add (idof f l0 l1) s else s) (fun t I => P t (or_intror I))) as (out & E & I & A). exists out. split; [exact E|]. split.
        + intros id. rewrite I. destruct (Nat.eqb_spec r rank) as [->|Nr].
          * rewrite in_set_add. split.
            -- intros [[->|?]|(f' & a & b & It & K)]; [right; exists f, l0, l1; cbn [In]; auto|auto|right; exists f', a, b; cbn [In]; tauto].
            -- intros [?|(f' & a & b & [Et|It] & K)]; [auto| |right; exists f', a, b; tauto]. unfold tup in Et. injection Et as E1 E2 E3. apply Nat2Z.inj in E1. subst. left; left. apply K.
          * split; [intros [?|(f' & a & b & It & K)]; [auto|right; exists f', a, b; cbn [In]; tauto]|].
            intros [?|(f' & a & b & [Et|It] & K)]; [auto| |right; exists f', a, b; tauto]. unfold tup in Et. injection Et as E1 E2 E3. apply Nat2Z.inj in E1. subst f' a b. exfalso. apply Nr.
            apply (owns_unique m H r rank (cellt f l0 l1)); [exact O|apply K].
        + intros As. apply A. destruct (r =? rank)%nat; [apply set_add_ascending, As|exact As]. }
    destruct (G cands []) as (out & E & I & A).
    - intros t It. apply CI in It. destruct It as (f & l0 & l1 & -> & L & B1 & B2). exists f, l0, l1. split; [reflexivity|]. pose proof (RG (dA f)). pose proof (RG (dB f)). split; [exact L|]. lia.
    - exists out. split; [exact E|]. split; [apply A; exact Logic.I|]. intros id. rewrite I. split.
      + intros [[]|(f & l0 & l1 & _ & K)]. exists f, l0, l1. exact K.
      + intros (f & l0 & l1 & T & -> & O). right. exists f, l0, l1. split; [|auto]. apply CI. exists f, l0, l1. split; [reflexivity|]. split; [apply T|].
        apply (owns_iff m H rank x _ Ex C R) in O. apply owned_in in O; [|exact C]. destruct O as (_ & O). destruct T as (F & _). assert (F6 : (f < 6)%nat) by lia.
        pose proof (O 0%nat ltac:(lia)) as O0. pose proof (O 1%nat ltac:(lia)) as O1. pose proof (O 2%nat ltac:(lia)) as O2.
        do 6 (destruct f as [|f]; [unfold cellt in O0, O1, O2; cbn [map Nat.eqb side_dim dA dB nth] in *; auto|]). lia.
  Qed.
  Lemma filter_none {A} (l : list A) : filter (fun _ => false) l = [].
  Proof. induction l; cbn; auto. Qed.
  Lemma by_face_ok rank l : owned_face_indices m rank = Some l -> (forall id, In id l -> exists f l0 l1, tok f l0 l1 /\ id = idof f l0 l1) ->
    exists mp, map_faces_to_geoms m rank = Some mp /\ forall f, (forall id, In id (mp f) <-> In id l /\ exists l0 l1, tok f l0 l1 /\ id = idof f l0 l1) /\ (ascending l -> ascending (mp f)).
  Proof.
    intros E P. unfold map_faces_to_geoms. rewrite E. cbn [obind].
    assert (G : forall l mp0, (forall id, In id l -> exists f l0 l1, tok f l0 l1 /\ id = idof f l0 l1) ->
      exists mp, foldM (fun (mp : nat -> list Z) ix => t <- get_face_id_as_tuple m ix ;; f <- rd t 0 ;;
           Some (fun g => if (g =? Z.to_nat f)%nat then mp g ++ [ix] else mp g)) mp0 l = Some mp /\
        forall f, mp f = mp0 f ++ filter (fun id => match get_face_id_as_tuple m id with Some (g :: _) => (f =? Z.to_nat g)%nat | _ => false end) l).
    { clear E P l. induction l as [|id l IH]; intros mp0 P; cbn [foldM filter].
      - exists mp0. split; [reflexivity|]. intros f. rewrite app_nil_r. reflexivity.
      - destruct (P id (or_introl eq_refl)) as (f & l0 & l1 & T & ->). rewrite (tuple_id _ _ _ T). cbn [obind tup rd nth_error]. rewrite Nat2Z.id.
        destruct (IH (fun g => if (g =? f)%nat then mp0 g ++ [idof f l0 l1] else mp0 g) (fun id I => P id (or_intror I))) as (mp & E & F). exists mp. split; [exact E|].
        intros g. rewrite F. destruct (Nat.eqb_spec g f); [rewrite <- app_assoc; reflexivity|reflexivity]. }
    destruct (G l (fun _ => []) P) as (mp & EM & F). exists mp. split; [exact EM|]. intros f. rewrite (F f). cbn [app]. split.
    - intros id. rewrite filter_In. split.
      + intros (I & Q). split; [exact I|]. destruct (P id I) as (f' & l0 & l1 & T & ->). rewrite (tuple_id _ _ _ T) in Q. cbn [tup] in Q. rewrite Nat2Z.id in Q. apply Nat.eqb_eq in Q. subst f'. eauto.
      + intros (I & l0 & l1 & T & ->). split; [exact I|]. rewrite (tuple_id _ _ _ T). cbn [tup]. rewrite Nat2Z.id. apply Nat.eqb_refl.
    - clear. induction l as [|a l IH]; [auto|]. cbn [ascending filter]. intros (A & B). match goal with |- context [if ?b then _ else _] => destruct b end; [|auto].
      cbn [ascending]. split; [|auto]. intros b I. apply filter_In in I. apply A, I.
  Qed.

  (** Corners. *)
  Ltac pts := first [exists 0%nat; cbn [map nth]; intros K; change (inject_Z 0) with 0%Q in K; change (inject_Z 1) with 1%Q in K; lra
                    |exists 1%nat; cbn [map nth]; intros K; change (inject_Z 0) with 0%Q in K; change (inject_Z 1) with 1%Q in K; lra
                    |exists 2%nat; cbn [map nth]; intros K; change (inject_Z 0) with 0%Q in K; change (inject_Z 1) with 1%Q in K; lra].
  Lemma points_ok f l0 l1 : tok f l0 l1 -> exists ps, get_vtk_face_cell_points m (tup f l0 l1) = Some ps /\ length ps = (2 ^ (nd - 1))%nat /\ distinct_points ps /\
    forall x, In x ps -> on_side m f (cellt f l0 l1) x.
  Proof.
    intros T. unfold get_vtk_face_cell_points. rewrite (proj1 (cellt_ok f l0 l1 T)). cbn [obind]. pose proof T as (F & _). pose proof (nd_le m H) as ND.
    set (w := cell_width_fine h). 
    assert (PT : get_vtk_cell_points m (cellt f l0 l1) = Some (map (fun ox => map (fun dx => (inject_Z (nth dx (cellt f l0 l1) 0%Z) * w + inject_Z (nth dx ox 0%Z) * w)%Q) [0; 1; 2]%nat) (vtk_offsets nd))).
    { unfold get_vtk_cell_points. apply mapM_some. intros ox I. apply mapM_some. intros dx Id.
      assert (Lo : length ox = 3%nat) by (unfold vtk_offsets in I; destruct (1 <? nd)%nat, (2 <? nd)%nat; cbn [app In] in I; repeat (destruct I as [<-|I]; [reflexivity|]); destruct I).
      assert (Ld : (dx < 3)%nat) by (cbn [In] in Id; lia). unfold rd. rewrite (nth_error_nth' (cellt f l0 l1) 0) by exact Ld. cbn [obind]. rewrite (nth_error_nth' ox 0) by lia. reflexivity. }
    rewrite PT. cbn [obind]. cbn [tup rd nth_error obind]. destruct (Z.leb_spec 0 (Z.of_nat f)); [|lia]. cbn [assert obind]. rewrite Nat2Z.id.
    assert (V : forall c o dx, (inject_Z (nth dx c 0%Z) * w + inject_Z o * w == inject_Z (nth dx c 0%Z + o) * w)%Q) by (intros; rewrite inject_Z_plus; ring).
    assert (OS : forall ox, (forall i, nth i ox 0 = 0 \/ nth i ox 0 = 1) -> nth (side_dim f) ox 0 = (if side_high f then 1 else 0) ->
      on_side m f (cellt f l0 l1) (map (fun dx => (inject_Z (nth dx (cellt f l0 l1) 0%Z) * w + inject_Z (nth dx ox 0%Z) * w)%Q) [0; 1; 2]%nat)).
    { intros ox O S. destruct (cellt_ok f l0 l1 T) as (_ & _ & _ & K). assert (D3 : forall i, (i < 3)%nat ->
        nth i (map (fun dx => (inject_Z (nth dx (cellt f l0 l1) 0%Z) * w + inject_Z (nth dx ox 0%Z) * w)%Q) [0; 1; 2]%nat) 0%Q = (inject_Z (nth i (cellt f l0 l1) 0%Z) * w + inject_Z (nth i ox 0%Z) * w)%Q).
      { intros i L. destruct i as [|[|[|i]]]; [reflexivity..|lia]. }
      assert (SD : (side_dim f < 3)%nat) by (assert (F6 : (f < 6)%nat) by lia; do 6 (destruct f as [|f]; [cbn; lia|]); lia).
      split; [reflexivity|]. split.
      - rewrite D3 by exact SD. rewrite V, K, S. change (fine_width h) with w. destruct (side_high f).
        + replace (grid m (side_dim f) - 1 + 1)%Z with (grid m (side_dim f)) by lia. reflexivity.
        + cbn [Z.add]. change (inject_Z 0) with 0%Q. ring.
      - intros i L. rewrite D3 by lia. change (fine_width h) with w. destruct (O i) as [-> | ->]; [left|right]; rewrite V; [rewrite Z.add_0_r|]; reflexivity. }
    assert (OO : forall a b c, (a = 0 \/ a = 1) -> (b = 0 \/ b = 1) -> (c = 0 \/ c = 1) -> forall i, nth i [a; b; c] 0 = 0 \/ nth i [a; b; c] 0 = 1).
    { intros a b c A B C i. destruct i as [|[|[|[|i]]]]; cbn [nth]; auto. }
    assert (W : (0 < w)%Q) by (apply w_pos; apply H).
    destruct nd_cases as [E|E]; rewrite E in *; cbn [Nat.eqb].
    - unfold vtk_offsets. cbn [Nat.ltb Nat.leb app].
      do 4 (destruct f as [|f]; [eexists; split; [reflexivity|]; split; [reflexivity|]; split; [repeat constructor; pts|]; intros p I; cbn [In] in I; repeat (destruct I as [<-|I]; [apply (OS [_; _; _]); [apply OO; auto|reflexivity]|]); destruct I|]). cbn in F. lia.
    - unfold vtk_offsets. cbn [Nat.ltb Nat.leb app].
      do 6 (destruct f as [|f]; [eexists; split; [reflexivity|]; split; [reflexivity|]; split; [repeat constructor; pts|]; intros p I; cbn [In] in I; repeat (destruct I as [<-|I]; [apply (OS [_; _; _]); [apply OO; auto|reflexivity]|]); destruct I|]). cbn in F. lia.
  Qed.
End Faces.
