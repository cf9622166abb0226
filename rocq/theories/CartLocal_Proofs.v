(** The mapper to nearby ranks: its tables, its self test, its kernel. *)
From Coq Require Import List Arith ZArith QArith Qabs Qround Lqa Bool Lia Permutation.
Import ListNotations.
From Verif Require Import Base Kernel Scan_Model Group_Model Group_Spec Mesh_Model Mesh_Spec MeshNb_Proofs MeshPos_Proofs
  CartMesh_Model CartMesh_Spec CartMesh_Proofs CartOwner_Proofs CartMap_Model CartMap_Spec CartLoop_Proofs CartMap_Proofs CartBin_Proofs.
Local Open Scope Z_scope.

Lemma coords_in_nth : forall ds y, length y = length ds -> (forall i, (i < length ds)%nat -> (nth i y 0 < nth i ds 0)%nat) -> coords_in ds y.
Proof.
  induction ds as [|d ds IH]; intros [|c y] L B; try discriminate L; constructor.
  - apply (B 0%nat). cbn. lia.
  - apply IH; [cbn in L; lia|]. intros i Li. apply (B (S i)). cbn. lia.
Qed.

Section Local.
  Context (m : cmesh) (H : cmesh_ok m) (owners : list Z) (OM : owner_map m owners).
  Notation nd := (ndim (hier m)).
  Notation h := (hier m).

  (** ** The rank map *)
  Definition D (i : nat) : Z := if (i <? nd)%nat then Z.of_nat (UU m i) else 1.
  Definition lin (y : list nat) : Z := Z.of_nat (nth 0 y 0%nat) + Z.of_nat (nth 1 y 0%nat) * D 0 + Z.of_nat (nth 2 y 0%nat) * D 0 * D 1.
  Lemma D_pos i : 0 < D i.
  Proof. unfold D. destruct (Nat.ltb_spec i nd) as [Q|Q]; [|lia]. destruct (UU_bounds m H i Q). lia. Qed.
  Lemma coord_D y i : coords_in (cdims (comm m)) y -> 0 <= Z.of_nat (nth i y 0%nat) < D i.
  Proof.
    intros C. unfold D. destruct (Nat.ltb_spec i nd) as [Q|Q]; [pose proof (coords_lt m H y i C Q); lia|].
    rewrite nth_overflow; [lia|]. rewrite (coords_len m H y C). exact Q.
  Qed.
  Lemma size_D : Z.of_nat (csize (comm m)) = D 0 * D 1 * D 2.
  Proof.
    destruct H as (_ & N3 & _ & (S & _) & L & _). pose proof (nd_le m H) as ND. rewrite S. unfold D, UU.
    destruct (cdims (comm m)) as [|a [|b [|c [|e t]]]]; cbn [length] in L; rewrite <- L in *; cbn [Nat.ltb Nat.leb nth nprod fold_right]; lia.
  Qed.
  Lemma lin_lt y : coords_in (cdims (comm m)) y -> 0 <= lin y < Z.of_nat (csize (comm m)).
  Proof.
    intros C. rewrite size_D. pose proof (coord_D y 0 C). pose proof (coord_D y 1 C). pose proof (coord_D y 2 C). unfold lin.
    set (a := Z.of_nat (nth 0 y 0%nat)) in *. set (b := Z.of_nat (nth 1 y 0%nat)) in *. set (c := Z.of_nat (nth 2 y 0%nat)) in *.
    assert (0 <= a + D 0 * (b + D 1 * c) < D 0 * (D 1 * D 2)); [|nia]. assert (0 <= b + D 1 * c < D 1 * D 2) by nia. nia.
  Qed.

  Definition triples : list (list Z) :=
    flat_map (fun x0 => flat_map (fun x1 => map (fun x2 => [x0; x1; x2]) (zrange 0 (D 2))) (zrange 0 (D 1))) (zrange 0 (D 0)).
  Lemma triples_in t : In t triples <-> exists a b c, t = [a; b; c] /\ 0 <= a < D 0 /\ 0 <= b < D 1 /\ 0 <= c < D 2.
  Proof.
    unfold triples. rewrite in_flat_map. split.
    - intros (a & Ia & I). apply in_flat_map in I. destruct I as (b & Ib & I). apply in_map_iff in I. destruct I as (c & <- & Ic).
      apply zrange_in in Ia, Ib, Ic. eauto 8.
    - intros (a & b & c & -> & A & B & C). exists a. split; [apply zrange_in, A|]. apply in_flat_map. exists b. split; [apply zrange_in, B|].
      apply in_map_iff. exists c. split; [reflexivity|apply zrange_in, C].
  Qed.
  Definition cof (t : list Z) : list nat := map Z.to_nat (firstn nd t).
  Lemma cof_ok t : In t triples -> coords_in (cdims (comm m)) (cof t) /\ lin (cof t) = nth 0 t 0 + nth 1 t 0 * D 0 + nth 2 t 0 * D 0 * D 1.
  Proof.
    intros I. apply triples_in in I. destruct I as (a & b & c & -> & A & B & C). pose proof (nd_le m H) as ND.
    destruct H as (_ & _ & _ & _ & L & _). unfold D, UU in A, B, C. split.
    - apply coords_in_nth.
      + unfold cof. rewrite map_length, firstn_length, L. cbn [length]. lia.
      + rewrite L. intros i Li. unfold cof. destruct nd as [|[|[|[|n]]]]; try lia; cbn [Nat.ltb Nat.leb firstn map] in *;
          destruct i as [|[|[|i]]]; try lia; cbn [nth]; lia.
    - unfold lin, cof, D. destruct nd as [|[|[|[|n]]]]; try lia; cbn [Nat.ltb Nat.leb firstn map nth] in *; rewrite !Z2Nat.id by lia; try ring.
      + assert (b = 0) by lia. assert (c = 0) by lia. subst. ring.
      + assert (c = 0) by lia. subst. ring.
  Qed.
  Definition tof (y : list nat) : list Z := map (fun i => Z.of_nat (nth i y 0%nat)) [0; 1; 2]%nat.
  Lemma tof_in y : coords_in (cdims (comm m)) y -> In (tof y) triples /\ cof (tof y) = y.
  Proof.
    intros C. pose proof (coord_D y 0 C). pose proof (coord_D y 1 C). pose proof (coord_D y 2 C). split.
    - apply triples_in. unfold tof. cbn [map]. do 3 eexists. split; [reflexivity|]. auto.
    - pose proof (nd_le m H) as ND. pose proof (coords_len m H y C) as L. unfold cof, tof. cbn [map].
      destruct y as [|a [|b [|c [|e t]]]]; cbn [length] in L; rewrite <- L in *; try lia; cbn [firstn map nth]; rewrite !Nat2Z.id; reflexivity.
  Qed.
  Definition rank_of (y : list nat) : Z := match crank (comm m) y with Some r => Z.of_nat r | None => -1 end.
  Lemma rank_of_ok y : coords_in (cdims (comm m)) y -> crank (comm m) y = Some (Z.to_nat (rank_of y)) /\ 0 <= rank_of y < Z.of_nat (csize (comm m)).
  Proof.
    intros C. destruct H as (_ & _ & _ & (_ & K & _) & _). destruct (K y C) as (r & E & L & _). unfold rank_of. rewrite E, Nat2Z.id. split; [reflexivity|lia].
  Qed.
  Lemma lin_t_inj a b c a' b' c' : 0 <= a < D 0 -> 0 <= b < D 1 -> 0 <= a' < D 0 -> 0 <= b' < D 1 ->
    a + b * D 0 + c * D 0 * D 1 = a' + b' * D 0 + c' * D 0 * D 1 -> a = a' /\ b = b' /\ c = c'.
  Proof.
    intros A B A' B' E. pose proof (D_pos 0). pose proof (D_pos 1).
    assert (E1 : a + D 0 * (b + D 1 * c) = a' + D 0 * (b' + D 1 * c')) by nia.
    assert (a = a'). { rewrite <- (Z.mod_small a (D 0)), <- (Z.mod_small a' (D 0)) by lia. rewrite <- (Z_mod_plus_full a (b + D 1 * c) (D 0)), <- (Z_mod_plus_full a' (b' + D 1 * c') (D 0)). f_equal. lia. }
    subst a'. assert (E2 : b + D 1 * c = b' + D 1 * c') by nia.
    assert (b = b'). { rewrite <- (Z.mod_small b (D 1)), <- (Z.mod_small b' (D 1)) by lia. rewrite <- (Z_mod_plus_full b c (D 1)), <- (Z_mod_plus_full b' c' (D 1)). f_equal. lia. }
    subst b'. split; [reflexivity|]. split; [reflexivity|]. nia.
  Qed.

  Definition mapper_dims : list Z := arr3 nd (fun i => Z.of_nat (UU m i)) 1.
  Lemma mapper_dims_rd i : (i < 3)%nat -> rd mapper_dims i = Some (D i).
  Proof. intros L. unfold mapper_dims. rewrite arr3_rd by exact L. reflexivity. Qed.

  Lemma rank_map_ok : exists mp, build_rank_map m mapper_dims = Some mp /\
    forall y, coords_in (cdims (comm m)) y -> rd mp (Z.to_nat (lin y)) = Some (rank_of y).
  Proof.
    unfold build_rank_map. rewrite !mapper_dims_rd by lia. cbn [obind]. fold triples.
    destruct (foldM_upd (fun mp x =>
         rank_impl <- crank (comm m) (map Z.to_nat (firstn nd x)) ;;
         let rank_linear := nth 0 x 0 + nth 1 x 0 * D 0 + nth 2 x 0 * D 0 * D 1 in
         _ <- assert ((0 <=? rank_linear) && (rank_linear <? Z.of_nat (csize (comm m)))) ;;
         _ <- assert (Z.of_nat rank_impl <? Z.of_nat (csize (comm m))) ;;
         upd mp (Z.to_nat rank_linear) (Z.of_nat rank_impl))
       (fun t => Z.to_nat (lin (cof t))) (fun t => rank_of (cof t)) triples (repeat (-1) (csize (comm m)))) as (mp & E & L & A & _).
    - intros mp' t _ I. destruct (cof_ok t I) as (C & Lt). destruct (rank_of_ok _ C) as (Er & Br). pose proof (lin_lt _ C) as Bl. fold (cof t). rewrite Er. cbn [obind]. cbn zeta. rewrite <- Lt.
      destruct (Z.leb_spec 0 (lin (cof t))); [|lia]. destruct (Z.ltb_spec (lin (cof t)) (Z.of_nat (csize (comm m)))); [|lia]. cbn [andb assert obind].
      rewrite Z2Nat.id by lia. destruct (Z.ltb_spec (rank_of (cof t)) (Z.of_nat (csize (comm m)))); [|lia]. reflexivity.
    - intros t I. destruct (cof_ok t I) as (C & _). pose proof (lin_lt _ C). rewrite repeat_length. lia.
    - intros t t' I I' Q. destruct (cof_ok t I) as (C & Lt). destruct (cof_ok t' I') as (C' & Lt'). pose proof (lin_lt _ C). pose proof (lin_lt _ C').
      assert (Q' : lin (cof t) = lin (cof t')) by lia. rewrite Lt, Lt' in Q'. apply triples_in in I, I'.
      destruct I as (a & b & c & -> & A1 & A2 & A3). destruct I' as (a' & b' & c' & -> & A1' & A2' & A3'). cbn [nth] in Q'.
      destruct (lin_t_inj a b c a' b' c') as (-> & -> & ->); auto.
    - cbv zeta in E |- *. rewrite E. cbn [obind]. rewrite repeat_length in L.
      assert (Y : forall y, coords_in (cdims (comm m)) y -> nth_error mp (Z.to_nat (lin y)) = Some (rank_of y)).
      { intros y C. destruct (tof_in y C) as (I & Ey). pose proof (A _ I) as K. rewrite Ey in K. exact K. }
      assert (F : forallb (fun r => 0 <=? r) mp = true).
      { apply forallb_forall. intros r I. apply In_nth_error in I. destruct I as (j & Ej). pose proof (nth_error_some_lt _ _ _ Ej) as Lj. rewrite L in Lj.
        apply Nat2Z.inj_lt in Lj. rewrite size_D in Lj. pose proof (D_pos 0). pose proof (D_pos 1). pose proof (D_pos 2).
        set (z := Z.of_nat j) in *. set (a := z mod D 0). set (b := (z / D 0) mod D 1). set (c := z / D 0 / D 1).
        assert (Ba : 0 <= a < D 0) by (apply Z.mod_pos_bound; lia). assert (Bb : 0 <= b < D 1) by (apply Z.mod_pos_bound; lia).
        assert (Bc : 0 <= c < D 2). { split; [apply Z.div_pos; [apply Z.div_pos|]; lia|]. apply Z.div_lt_upper_bound; [lia|]. apply Z.div_lt_upper_bound; [lia|]. nia. }
        assert (I : In [a; b; c] triples) by (apply triples_in; eauto 8). destruct (cof_ok _ I) as (Cc & Lc). cbn [nth] in Lc.
        assert (Z0 : lin (cof [a; b; c]) = z).
        { rewrite Lc. pose proof (Z.div_mod z (D 0) ltac:(lia)). pose proof (Z.div_mod (z / D 0) (D 1) ltac:(lia)). fold a in H3. fold b c in H4. nia. }
        pose proof (A _ I) as K. rewrite Z0 in K. unfold z in K. rewrite Nat2Z.id in K. assert (r = rank_of (cof [a; b; c])) by congruence. subst r.
        apply Z.leb_le. apply (rank_of_ok _ Cc). }
      rewrite F. cbn [assert obind]. exists mp. split; [reflexivity|]. exact Y.
  Qed.

  (** ** The lookups *)
  Definition iv (i : nat) (z : Z) : nat := match decomp_inverse (UU m i) (NN m i) (Z.to_nat z) with Some k => k | None => 0%nat end.
  Definition in_halo (x : list nat) (i : nat) (z : Z) : bool := existsb (fun k => k mod grid m i =? z) (zrange (lo m x i) (hi m x i)).
  Definition lkv (x : list nat) (i : nat) (z : Z) : Z := if in_halo x i z then Z.of_nat (iv i z) else -1.
  Definition mapper_counts : list Z := arr3 nd (extent_cells h) 1.
  Lemma mapper_counts_rd i : (i < 3)%nat -> rd mapper_counts i = Some (grid m i).
  Proof. intros L. unfold mapper_counts. rewrite arr3_rd by exact L. reflexivity. Qed.
  Lemma owner_at c : grid_cell m c -> exists i r, mesh_index m c = Some i /\ get_owner owners i = Some (Z.of_nat r) /\ owns m r c /\ ccoords (comm m) r = Some (xof m c) /\ rank_of (xof m c) = Z.of_nat r.
  Proof.
    intros G. destruct (OM c G) as (i & r & A & B & C). exists i, r. destruct (owns_coords m H r c C) as (_ & E & F). unfold rank_of. rewrite F. auto 6.
  Qed.

  Lemma lookup_ok x i : coords_in (cdims (comm m)) x -> (i < nd)%nat ->
    exists lk, build_lookup m owners [lo m x 0; lo m x 1; lo m x 2] [hi m x 0; hi m x 1; hi m x 2] mapper_counts i = Some lk /\
      forall z, 0 <= z < grid m i -> rd lk (Z.to_nat z) = Some (lkv x i z).
  Proof.
    intros C L. pose proof (nd_le m H) as ND. pose proof (grid_pos m H i) as GP. pose proof (region m H x i C) as R. unfold build_lookup.
    rewrite mapper_counts_rd by lia. cbn [obind].
    replace (rd [lo m x 0; lo m x 1; lo m x 2] i) with (Some (lo m x i)) by (destruct i as [|[|[|j]]]; [reflexivity..|lia]).
    replace (rd [hi m x 0; hi m x 1; hi m x 2] i) with (Some (hi m x i)) by (destruct i as [|[|[|j]]]; [reflexivity..|lia]). cbn [obind].
    fold (sw m). assert (SW : 0 <= sw m) by (unfold sw; lia).
    assert (LO : lo m x i = CartMesh_Proofs.st m x i - sw m) by (unfold lo; destruct (Nat.ltb_spec i nd); [reflexivity|lia]).
    destruct (foldM_upd (fun lk cx =>
      _ <- assert (negb (grid m i =? 0)) ;;
      let cxs := Z.rem (cx + sw m * grid m i) (grid m i) in
      index_mesh <- upd [0; 0; 0] i cxs ;;
      index_global <- mesh_index m index_mesh ;;
      remote_rank <- get_owner owners index_global ;;
      coords <- (if remote_rank <? 0 then None else ccoords (comm m) (Z.to_nat remote_rank)) ;;
      coord <- rd coords i ;;
      _ <- assert (0 <=? cxs) ;;
      upd lk (Z.to_nat cxs) (Z.of_nat coord))
      (fun k => Z.to_nat (k mod grid m i)) (fun k => Z.of_nat (iv i (k mod grid m i))) (zrange (lo m x i) (hi m x i)) (repeat (-1) (Z.to_nat (grid m i)))) as (lk & E & Ll & A & B).
    - intros lk' k _ I. apply zrange_in in I. destruct (Z.eqb_spec (grid m i) 0); [lia|]. cbn [negb assert obind]. cbn zeta.
      assert (Ek : Z.rem (k + sw m * grid m i) (grid m i) = k mod grid m i) by (rewrite Z.rem_mod_nonneg by nia; apply Z.mod_add; lia). rewrite Ek.
      pose proof (Z.mod_pos_bound k (grid m i) GP) as Bk. set (z := k mod grid m i) in *.
      assert (G : exists c, upd [0; 0; 0] i z = Some c /\ grid_cell m c /\ nth i c 0 = z).
      { destruct (upd_some [0; 0; 0] i z) as (c & Ec); [cbn [length]; lia|]. exists c. split; [exact Ec|].
        assert (N : forall j, nth j c 0 = if (j =? i)%nat then z else nth j [0; 0; 0] 0).
        { intros j. pose proof (upd_nth _ _ _ _ j Ec) as U'. destruct (Nat.eqb_spec j i); [exact (nth_error_nth _ _ 0 U')|].
          destruct (nth_error [0; 0; 0] j) as [v|] eqn:Q; [rewrite (nth_error_nth _ _ 0 U'), (nth_error_nth _ _ 0 Q); reflexivity|].
          apply nth_error_None in U'. apply nth_error_None in Q. rewrite !nth_overflow by assumption. reflexivity. }
        split; [|rewrite N, Nat.eqb_refl; reflexivity]. split; [rewrite (upd_length _ _ _ _ Ec); reflexivity|].
        intros j Lj. rewrite N. destruct (Nat.eqb_spec j i) as [Ej|]; [rewrite Ej; exact Bk|]. pose proof (grid_pos m H j). destruct j as [|[|[|j]]]; cbn [nth]; lia. }
      destruct G as (c & Ec & G & Nc). rewrite Ec. cbn [obind]. destruct (owner_at c G) as (j & r & E1 & E2 & _ & E3 & _). rewrite E1. cbn [obind]. rewrite E2. cbn [obind].
      destruct (Z.ltb_spec (Z.of_nat r) 0); [lia|]. rewrite Nat2Z.id, E3. cbn [obind].
      assert (Ei : rd (xof m c) i = Some (iv i z)).
      { unfold rd, xof. rewrite nth_error_map, nth_error_seq. destruct (Nat.ltb_spec i nd); [|lia]. cbn [option_map Nat.add]. f_equal. unfold inv. rewrite Nc. reflexivity. }
      rewrite Ei. cbn [obind]. destruct (Z.leb_spec 0 z); [|lia]. reflexivity.
    - intros k I. rewrite repeat_length. pose proof (Z.mod_pos_bound k (grid m i) GP). lia.
    - intros k k' _ _ Q. pose proof (Z.mod_pos_bound k (grid m i) GP). pose proof (Z.mod_pos_bound k' (grid m i) GP). assert (Qz : k mod grid m i = k' mod grid m i) by lia. rewrite Qz. reflexivity.
    - cbv zeta in E |- *. rewrite E. exists lk. split; [reflexivity|]. intros z Bz. unfold lkv, in_halo, rd. destruct (existsb _ _) eqn:Q.
      + apply existsb_exists in Q. destruct Q as (k & Ik & Q). apply Z.eqb_eq in Q. rewrite <- Q. apply A, Ik.
      + rewrite B.
        * rewrite (nth_error_nth' _ (-1)) by (rewrite repeat_length; lia). f_equal. apply nth_repeat.
        * intros k Ik Ek. pose proof (Z.mod_pos_bound k (grid m i) GP). assert (Ez : k mod grid m i = z) by lia.
          assert (T : existsb (fun k => k mod grid m i =? z) (zrange (lo m x i) (hi m x i)) = true) by (apply existsb_exists; exists k; split; [exact Ik|apply Z.eqb_eq, Ez]).
          congruence.
  Qed.

  (** ** The halo and the owned cells *)
  Lemma halo_iff rank x c : ccoords (comm m) rank = Some x -> coords_in (cdims (comm m)) x -> (rank < csize (comm m))%nat -> grid_cell m c ->
    (forall i, (i < nd)%nat -> in_halo x i (nth i c 0) = true) <-> exists c0, owns m rank c0 /\ within m (Z.of_nat (stencil_width m)) c0 c.
  Proof.
    intros Ex C R G. pose proof (nd_le m H) as ND.
    assert (S : (exists c0, owns m rank c0 /\ within m (Z.of_nat (stencil_width m)) c0 c) <->
      In c (map (wrap m) (box (lo m x 0) (lo m x 1) (lo m x 2) (hi m x 0) (hi m x 1) (hi m x 2)))).
    { rewrite (stencil_in m H x c C). split.
      - intros (c0 & O & W). split; [exact G|]. exists c0. split; [apply (owns_iff m H rank x c0 Ex C R), O|exact W].
      - intros (_ & c0 & O & W). exists c0. split; [apply (owns_iff m H rank x c0 Ex C R), O|exact W]. }
    rewrite S. clear S. split.
    - intros B. assert (P : forall i, (i < nd)%nat -> exists k, lo m x i <= k < hi m x i /\ k mod grid m i = nth i c 0).
      { intros i L. specialize (B i L). apply existsb_exists in B. destruct B as (k & I & Q). apply zrange_in in I. apply Z.eqb_eq in Q. eauto. }
      destruct (finite_choice nd _ P) as (f & F). set (g := fun i => if (i <? nd)%nat then f i else 0).
      apply in_map_iff. exists [g 0%nat; g 1%nat; g 2%nat]. split.
      + assert (Q : forall i, (i < 3)%nat -> nth i (wrap m [g 0%nat; g 1%nat; g 2%nat]) 0 = nth i c 0).
        { intros i L. unfold wrap. rewrite nth3 by exact L. replace (nth i [g 0%nat; g 1%nat; g 2%nat] 0) with (g i) by (destruct i as [|[|[|i]]]; [reflexivity..|lia]).
          unfold g. destruct (Nat.ltb_spec i nd) as [Q|Q]; [apply F, Q|]. rewrite (grid_zero m c i) by (assumption || lia). reflexivity. }
        destruct G as (L3 & _). destruct c as [|a [|b [|e [|? ?]]]]; try discriminate L3. unfold wrap in *. cbn [map] in *.
        pose proof (Q 0%nat ltac:(lia)). pose proof (Q 1%nat ltac:(lia)). pose proof (Q 2%nat ltac:(lia)). cbn [nth] in *. congruence.
      + apply box_in. do 3 eexists. split; [reflexivity|]. unfold g.
        assert (K : forall i, (i < 3)%nat -> lo m x i <= (if (i <? nd)%nat then f i else 0) < hi m x i).
        { intros i L. destruct (Nat.ltb_spec i nd) as [Q|Q]; [apply F, Q|]. unfold lo, hi. destruct (Nat.ltb_spec i nd); lia. }
        split; [apply (K 0%nat); lia|]. split; [apply (K 1%nat); lia|apply (K 2%nat); lia].
    - intros I i L. apply in_map_iff in I. destruct I as (b & <- & Ib). apply box_in in Ib. destruct Ib as (u & v & t & -> & A1 & A2 & A3).
      apply existsb_exists. exists (nth i [u; v; t] 0). split.
      + apply zrange_in. destruct i as [|[|[|i]]]; cbn [nth]; lia.
      + apply Z.eqb_eq. unfold wrap. rewrite nth3 by lia. destruct (Nat.ltb_spec i nd); [reflexivity|lia].
  Qed.

  (** ** Construction *)
  Definition mapper_spec (x : list nat) (mp : mapper) : Prop :=
    (forall i, (i < nd)%nat -> exists lk, rd (cell_lookups mp) i = Some lk /\ forall z, 0 <= z < grid m i -> rd lk (Z.to_nat z) = Some (lkv x i z)) /\
    (forall y, coords_in (cdims (comm m)) y -> rd (rank_map mp) (Z.to_nat (lin y)) = Some (rank_of y)) /\
    mdims mp = mapper_dims /\ mcounts mp = mapper_counts.

  Lemma iv_inv c i : iv i (nth i c 0) = inv m c i.
  Proof. reflexivity. Qed.
  Lemma lin_xof c : lin (xof m c) = (if (0 <? nd)%nat then Z.of_nat (inv m c 0) else 0) + (if (1 <? nd)%nat then Z.of_nat (inv m c 1) else 0) * D 0 + (if (2 <? nd)%nat then Z.of_nat (inv m c 2) else 0) * D 0 * D 1.
  Proof.
    assert (N : forall i, nth i (xof m c) 0%nat = if (i <? nd)%nat then inv m c i else 0%nat).
    { intros i. unfold xof. destruct (Nat.ltb_spec i nd) as [Q|Q].
      - apply nth_error_nth. rewrite nth_error_map, nth_error_seq. destruct (Nat.ltb_spec i nd); [reflexivity|lia].
      - apply nth_overflow. rewrite map_length, seq_length. exact Q. }
    unfold lin. rewrite !N. repeat match goal with |- context [(?a <? nd)%nat] => destruct (Nat.ltb_spec a nd) end; reflexivity.
  Qed.

  Lemma mapper_ok rank x : ccoords (comm m) rank = Some x -> coords_in (cdims (comm m)) x -> (rank < csize (comm m))%nat ->
    exists mp, construct_mapper m owners rank = Some mp /\ mapper_spec x mp.
  Proof.
    intros Ex C R. pose proof (nd_le m H) as ND. unfold construct_mapper. rewrite Ex. cbn [obind]. rewrite (counts_eq m H). cbn [obind].
    rewrite (starts_eq m H x C). cbn [obind]. rewrite (ends_eq m H x C). cbn [obind]. fold (sw m).
    rewrite (fill3_arr 0 _ (fun i => CartMesh_Proofs.st m x i - sw m)); [|lia|intros i L; rewrite rd3_st by lia; reflexivity]. cbn [obind].
    rewrite (fill3_arr 1 _ (fun i => en m x i + sw m)); [|lia|intros i L; rewrite rd3_en by lia; reflexivity]. cbn [obind].
    change (arr3 nd (fun i => CartMesh_Proofs.st m x i - sw m) 0) with [lo m x 0; lo m x 1; lo m x 2]. change (arr3 nd (fun i => en m x i + sw m) 1) with [hi m x 0; hi m x 1; hi m x 2].
    rewrite (fill3_arr 1 _ (extent_cells h)); [|lia|intros i L; rewrite arr3_rd by lia; destruct (Nat.ltb_spec i nd); [reflexivity|lia]]. cbn [obind]. fold mapper_counts.
    assert (LK : exists lks, mapM (build_lookup m owners [lo m x 0; lo m x 1; lo m x 2] [hi m x 0; hi m x 1; hi m x 2] mapper_counts) (seq 0 nd) = Some lks /\
      forall i, (i < nd)%nat -> exists lk, rd lks i = Some lk /\ forall z, 0 <= z < grid m i -> rd lk (Z.to_nat z) = Some (lkv x i z)).
    { destruct (mapM_total (build_lookup m owners [lo m x 0; lo m x 1; lo m x 2] [hi m x 0; hi m x 1; hi m x 2] mapper_counts) (seq 0 nd)) as (lks & E).
      - intros i I. apply in_seq in I. destruct (lookup_ok x i C ltac:(lia)) as (lk & E & _). eauto.
      - exists lks. split; [exact E|]. intros i L. destruct (lookup_ok x i C L) as (lk & E1 & V). exists lk. split; [|exact V].
        assert (Si : nth_error (seq 0 nd) i = Some i) by (rewrite nth_error_seq; destruct (Nat.ltb_spec i nd); [reflexivity|lia]).
        pose proof (mapM_nth _ _ _ i i E Si) as K. unfold rd. congruence. }
    destruct LK as (lks & -> & LK). cbn [obind].
    rewrite (fill3_arr 1 _ (fun i => Z.of_nat (UU m i))); [|lia|intros i L; rewrite (UU_rd m H i L); reflexivity]. cbn [obind]. fold mapper_dims.
    destruct rank_map_ok as (rm & Erm & RM). rewrite Erm. cbn [obind].
    destruct (neighbours_ok m H owners OM rank R) as (nb & Enb & _ & Inb). rewrite Enb. cbn [obind]. cbn zeta.
    set (mp := mk_mapper lks rm mapper_dims mapper_counts).
    assert (ST : self_test m owners rank mp [lo m x 0; lo m x 1; lo m x 2] [hi m x 0; hi m x 1; hi m x 2] nb = Some tt).
    { unfold self_test. rewrite (box3_eq _ _ (lo m x 0) (lo m x 1) (lo m x 2) (hi m x 0) (hi m x 1) (hi m x 2)); [|reflexivity|reflexivity]. cbn [obind]. fold (sw m).
      rewrite (mapM_some _ (fun _ => tt)); [reflexivity|]. intros sc I.
      assert (Iw : In (wrap m sc) (map (wrap m) (box (lo m x 0) (lo m x 1) (lo m x 2) (hi m x 0) (hi m x 1) (hi m x 2)))) by (apply in_map, I).
      apply (stencil_in m H x _ C) in Iw. destruct Iw as (G & c0 & O0 & W).
      apply box_in in I. destruct I as (u & v & t & -> & A1 & A2 & A3). set (c := wrap m [u; v; t]) in *.
      assert (Bi : forall i, (i < 3)%nat -> lo m x i <= nth i [u; v; t] 0 < hi m x i) by (intros [|[|[|i]]] L; cbn [nth]; lia).
      assert (Ew : mapM (fun dimx => s <- rd [u; v; t] dimx ;; n <- rd (mcounts mp) dimx ;; _ <- assert (negb (n =? 0)) ;; Some (Z.rem (s + sw m * n) n)) [0; 1; 2]%nat = Some c).
      { unfold c, wrap. apply mapM_some. intros i Hi. assert (L : (i < 3)%nat) by (cbn in Hi; lia). specialize (Bi i L).
        unfold rd at 1. rewrite (nth_error_nth' _ 0) by (cbn [length]; lia). cbn [obind]. cbn [mp mcounts]. rewrite mapper_counts_rd by exact L. cbn [obind].
        pose proof (grid_pos m H i). pose proof (region m H x i C). assert (0 <= sw m) by (unfold sw; lia).
        destruct (Z.eqb_spec (grid m i) 0); [lia|]. cbn [negb assert obind]. f_equal. unfold lo, hi in Bi. destruct (Nat.ltb_spec i nd) as [Q|Q].
        - rewrite Z.rem_mod_nonneg by nia. apply Z.mod_add. lia.
        - assert (g1 : grid m i = 1) by (unfold grid; destruct (Nat.ltb_spec i nd); [lia|reflexivity]). rewrite g1. apply Z.rem_1_r. }
      rewrite Ew. cbn [obind]. destruct (owner_at c G) as (j & r & E1 & E2 & Or & E3 & E4). rewrite E1. cbn [obind]. rewrite E2. cbn [obind].
      assert (HA : forall i, (i < nd)%nat -> in_halo x i (nth i c 0) = true).
      { apply (halo_iff rank x c Ex C R G). exists c0. split; [apply (owns_iff m H rank x c0 Ex C R), O0|exact W]. }
      assert (Ec : mapM (fun dimx => if (dimx <? nd)%nat then
                                 lk <- rd (cell_lookups mp) dimx ;; x <- rd c dimx ;; _ <- assert (0 <=? x) ;; rd lk (Z.to_nat x)
                               else Some 0) [0; 1; 2]%nat = Some (map (fun i => if (i <? nd)%nat then Z.of_nat (inv m c i) else 0) [0; 1; 2]%nat)).
      { apply mapM_some. intros i Hi. assert (L : (i < 3)%nat) by (cbn in Hi; lia). destruct (Nat.ltb_spec i nd) as [Q|Q]; [|reflexivity].
        destruct (LK i Q) as (lk & El & V). cbn [mp cell_lookups]. rewrite El. cbn [obind]. pose proof G as (L3 & Gb). specialize (Gb i L).
        unfold rd at 1. rewrite (nth_error_nth' _ 0) by lia. cbn [obind]. destruct (Z.leb_spec 0 (nth i c 0)); [|lia]. cbn [assert obind].
        rewrite V by exact Gb. unfold lkv. rewrite HA by exact Q. reflexivity. }
      rewrite Ec. cbn [obind]. cbn [mp mdims]. rewrite !mapper_dims_rd by lia. cbn [obind]. cbn [map nth].
      rewrite <- lin_xof. destruct (xof_ok m H c G) as (Cx & _). pose proof (lin_lt _ Cx) as Bl. cbn zeta. destruct (Z.leb_spec 0 (lin (xof m c))); [|lia]. cbn [assert obind].
      cbn [mp rank_map]. rewrite (RM _ Cx). cbn [obind]. rewrite E4, Z.eqb_refl. cbn [assert obind].
      destruct (Z.eqb_spec (Z.of_nat r) (Z.of_nat rank)); [reflexivity|]. cbn [negb].
      assert (Enb' : existsb (Z.eqb (Z.of_nat r)) nb = true).
      { apply existsb_exists. exists (Z.of_nat r). split; [|apply Z.eqb_refl]. apply Inb. exists r, c0, c. split; [reflexivity|].
        split; [apply (owns_iff m H rank x c0 Ex C R), O0|]. split; [exact Or|exact W]. }
      rewrite Enb'. reflexivity. }
    rewrite ST. cbn [obind]. exists mp. split; [reflexivity|]. split; [exact LK|]. split; [exact RM|]. split; reflexivity.
  Qed.

  (** ** The kernel *)
  Lemma local_cell_ok i q : int_grid m -> (0 <= q)%Q -> (q <= length_of m i)%Q -> local_cell h (grid m i) q = Some (cidx m i q).
  Proof.
    intros IG A B. unfold local_cell, cidx. specialize (IG i). pose proof (grid_pos m H i).
    destruct (to_int_ok (q * inverse_cell_width_fine h) (2 ^ 31 - 1)) as (-> & _); [lia| |reflexivity].
    apply (scale m H). rewrite Qabs_pos by exact A. unfold length_of in B. pose proof (wpos m H). assert (G1 : grid m i + 1 <= 2 ^ 31 - 1 + 1) by lia.
    rewrite Zle_Qle, inject_succ in G1. nra.
  Qed.

  Lemma local_effect rank x mp pid rid p : ccoords (comm m) rank = Some x -> coords_in (cdims (comm m)) x -> (rank < csize (comm m))%nat ->
    int_grid m -> mapper_spec x mp -> (pid + nd <= length (fst p))%nat -> (rid + 1 < length (snd p))%nat ->
    (nth (rid + 1) (snd p) 0 < 0 -> inside m (position pid p)) ->
    exists p', effect (local_map_kernel m mp pid rid) p = Some p' /\
      mapped_locally m rank pid rid p p'.
  Proof.
    intros Ex C R IG (LK & RM & MD & MC) PL RL I. pose proof (nd_le m H) as ND.
    assert (R1 : rd (snd p) (rid + 1) = Some (nth (rid + 1) (snd p) 0)) by (unfold rd; apply nth_error_nth'; lia).
    destruct (Z.ltb_spec (nth (rid + 1) (snd p) 0) 0) as [Q|Q].
    2:{ exists p. split; [|split; [reflexivity|lia]]. apply effect_none. unfold local_map_kernel. rewrite R1. cbn [obind]. destruct (Z.ltb_spec (nth (rid + 1) (snd p) 0) 0); [lia|reflexivity]. }
    specialize (I Q). set (q := position pid p) in *. pose proof (cellof_contains m H q I) as CO. set (c := cellof m q) in *. pose proof CO as (G & _).
    assert (Nc : forall i, (i < nd)%nat -> nth i c 0 = cidx m i (q i)).
    { intros i L. unfold c, cellof. rewrite nth3 by lia. destruct (Nat.ltb_spec i nd); [reflexivity|lia]. }
    set (L := fun i => lkv x i (nth i c 0)).
    set (found := (0 <=? (if (0 <? nd)%nat then L 0%nat else 0)) && (0 <=? (if (1 <? nd)%nat then L 1%nat else 0)) && (0 <=? (if (2 <? nd)%nat then L 2%nat else 0))).
    assert (Fi : found = true <-> forall i, (i < nd)%nat -> in_halo x i (nth i c 0) = true).
    { assert (Li : forall i, 0 <= L i <-> in_halo x i (nth i c 0) = true) by (intros i; unfold L, lkv; destruct (in_halo x i (nth i c 0)); split; try discriminate; try reflexivity; lia).
      unfold found. rewrite !andb_true_iff, !Z.leb_le. split.
      - intros ((F0 & F1) & F2) i Hi. apply Li. destruct i as [|[|[|i]]]; [..|lia].
        + destruct (Nat.ltb_spec 0 nd); [assumption|lia].
        + destruct (Nat.ltb_spec 1 nd); [assumption|lia].
        + destruct (Nat.ltb_spec 2 nd); [assumption|lia].
      - intros F. assert (Fz : forall i, 0 <= (if (i <? nd)%nat then L i else 0)) by (intros i; destruct (Nat.ltb_spec i nd); [apply Li, F; assumption|lia]).
        split; [split|]; apply Fz. }
    set (v := if found then rank_of (xof m c) else -1). destruct (xof_ok m H c G) as (Cx & _). pose proof (lin_lt _ Cx) as Bl.
    assert (KE : local_map_kernel m mp pid rid p = Some ([], [((rid + 1)%nat, v)])).
    { unfold local_map_kernel. rewrite R1. cbn [obind]. destruct (Z.ltb_spec (nth (rid + 1) (snd p) 0) 0); [|lia].
      rewrite (fill3_arr 0 _ L); [|lia|].
      - cbn [obind]. rewrite !arr3_rd by lia. cbn [obind]. rewrite MD, !mapper_dims_rd by lia. cbn [obind]. cbn zeta. fold found. unfold v.
        destruct found eqn:Ef; [|reflexivity]. pose proof (proj1 Fi eq_refl) as HA.
        assert (El : (if (0 <? nd)%nat then L 0%nat else 0) + (if (1 <? nd)%nat then L 1%nat else 0) * D 0 + (if (2 <? nd)%nat then L 2%nat else 0) * D 0 * D 1 = lin (xof m c)).
        { rewrite lin_xof. unfold L, lkv. assert (Z3 : forall i, (if (i <? nd)%nat then if in_halo x i (nth i c 0) then Z.of_nat (iv i (nth i c 0)) else -1 else 0) = (if (i <? nd)%nat then Z.of_nat (inv m c i) else 0)).
          { intros i. destruct (Nat.ltb_spec i nd); [|reflexivity]. rewrite HA by assumption. reflexivity. }
          rewrite !Z3. reflexivity. }
        rewrite El. destruct (Z.ltb_spec (lin (xof m c)) 0); [lia|]. rewrite (RM _ Cx). reflexivity.
      - intros i Hi. rewrite (pos_rd m) by assumption. cbn [obind]. rewrite MC, mapper_counts_rd by lia. cbn [obind]. destruct (LK i Hi) as (lk & El & V). rewrite El. cbn [obind].
        destruct (I i Hi) as (I1 & I2). fold q. rewrite (local_cell_ok i _ IG I1 I2). cbn [obind]. pose proof (cidx_range m H i (q i)) as Bc. fold q.
        destruct (Z.leb_spec 0 (cidx m i (q i))); [|lia]. cbn [assert obind]. rewrite V by exact Bc. unfold L. rewrite Nc by exact Hi. reflexivity. }
    destruct (effect_int _ p _ _ KE RL) as (p' & Ep & Sp). exists p'. split; [exact Ep|]. split; [lia|]. intros _. exists v. split; [exact Sp|].
    intros c' Cc'. assert (c' = c) by (eapply (contains_unique m H); eauto). subst c'. unfold v. destruct found eqn:Ef.
    - right. destruct (owner_at c G) as (j & r & _ & _ & Or & _ & E4). exists r. split; [exact E4|]. split; [exact Or|]. apply (halo_iff rank x c Ex C R G). apply Fi. reflexivity.
    - left. split; [reflexivity|]. intros K. pose proof (proj2 Fi (proj2 (halo_iff rank x c Ex C R G) K)). congruence.
  Qed.
End Local.
