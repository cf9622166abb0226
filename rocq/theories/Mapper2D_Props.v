(** C73: the Cartesian mesh laid over an unstructured mesh, and the cells found with it for particles in two-dimensional linear meshes. *)
From Coq Require Import List Arith ZArith QArith Qminmax Bool Lia Lqa.
Import ListNotations.
From Verif Require Import Base DeviceFn_Model Mesh_Model Mesh_Spec MeshPos_Proofs CellRep_Model Overlap_Model OverlapMap_Proofs Mapper2D_Model Mapper2D_Spec.
From Verif Require Import Mapper2DPoly_Proofs Mapper2DCell_Proofs Mapper2DOverlay_Proofs Mapper2DCreate_Proofs Mapper2DMap_Proofs.
Open Scope Z_scope.

(** The overlay mesh has the box as its domain, at least as many cells as asked for and fewer than twice as many (or one), and the cells
    of a dimension that is split are at least half as wide as those of any other dimension. *)
Theorem C73_create_overlay nd b n : length b = 6%nat -> (1 <= nd <= 3)%nat -> (forall i, (i < nd)%nat -> (nth i b 0 < nth (3 + i) b 0)%Q) ->
  exists ov, create_overlay_mesh nd b n = Some ov /\ overlay_ok ov /\ o_ndim ov = nd /\
    (forall i, (i < nd)%nat -> nth i (o_origin ov) 0%Q = nth i b 0%Q /\ nth i (o_extents ov) 0%Q = (nth (3 + i) b 0 - nth i b 0)%Q) /\
    n <= zprod (o_counts ov) /\ (zprod (o_counts ov) = 1 \/ zprod (o_counts ov) < 2 * n) /\
    forall i j, (i < nd)%nat -> (j < nd)%nat -> nth i (o_counts ov) 0 = 1 \/ (o_width ov j <= 2 * o_width ov i)%Q.
Proof. apply create_ok. Qed.
Print Assumptions C73_create_overlay.
Example C73_create_instance : option_map o_counts (create_overlay_mesh 2 [0; 0; 0; 4; 1; 0]%Q 5) = Some [8; 1] /\ option_map o_counts (create_overlay_mesh 3 [0; 0; 0; 4; 2; 3]%Q 7) = Some [4; 1; 2].
Proof. split; reflexivity. Qed.

(** Every position of the domain is in the cell found for it, which is one of the cells of the mesh. *)
Theorem C73_position ov i x : overlay_ok ov -> (i < o_ndim ov)%nat -> (nth i (o_origin ov) 0 <= x)%Q -> (x <= nth i (o_origin ov) 0 + nth i (o_extents ov) 0)%Q ->
  exists c, get_cell_in_dimension ov i x = Some c /\ mapper_cell ov i x = Some c /\ 0 <= c < nth i (o_counts ov) 0 /\
    (inject_Z c * o_width ov i <= x - nth i (o_origin ov) 0 <= inject_Z (c + 1) * o_width ov i)%Q.
Proof.
  intros Ho L X0 X1. pose proof (mapper_cell_ok ov Ho i x L) as M. pose proof (ext_ok ov Ho i L) as EX.
  destruct (cell_contains (o_width ov i) (1 / o_width ov i) (cnt ov i) (width_pos ov Ho i L) (inv_ok ov Ho i L) (cnt_pos ov Ho i L) (x - nth i (o_origin ov) 0)%Q) as (D & _); [lra|rewrite EX; lra|].
  exists (clamp (cnt ov i) (Qtrunc ((x - nth i (o_origin ov) 0) * (1 / o_width ov i))%Q)). split; [|split; [exact M|split; [apply clamp_in, (cnt_pos ov Ho i L)|exact D]]].
  unfold get_cell_in_dimension. rewrite (proj2 (Nat.ltb_lt _ _) L). cbn [assert obind]. destruct Ho as (L1 & L2 & _). rewrite (OverlapMap_Proofs.rd_nth (o_origin ov) i 0%Q) by lia. cbn [obind]. rewrite (OverlapMap_Proofs.rd_nth (o_extents ov) i 0%Q) by lia. cbn [obind].
  assert (A1 : Qle_bool (nth i (o_origin ov) 0%Q - (1 # 100000000)) x = true) by (apply Qle_bool_iff; lra). assert (A2 : Qle_bool x (nth i (o_origin ov) 0%Q + nth i (o_extents ov) 0%Q + (1 # 100000000)) = true) by (apply Qle_bool_iff; lra). rewrite A1, A2. exact M.
Qed.
Print Assumptions C73_position.

(** The cells found for a box, each once: all that meet the box, and only such that come within epsilon of it. *)
Theorem C73_intersecting ov b : overlay_ok ov -> o_ndim ov = 1%nat \/ o_ndim ov = 2%nat -> box_inside ov b ->
  exists cells, get_intersecting_cells ov b = Some cells /\ NoDup cells /\
    (forall t, overlay_cell ov t -> near ov 0 b t -> In (overlay_index ov t) cells) /\
    (forall c, In c cells -> exists t, overlay_cell ov t /\ overlay_index ov t = c /\ near ov epsilon b t).
Proof. apply intersecting. Qed.
Print Assumptions C73_intersecting.
Definition ov2 : overlay := mk_overlay 2 [0; 0]%Q [4; 2]%Q [4; 2].
(** A box from (1, 0.5) to (1.5, 0.75): the left side is a side of cells, so the cells to the left of it are found, too. *)
Example C73_intersecting_instance : overlay_ok ov2 /\ box_inside ov2 [1; 1 # 2; 0; 3 # 2; 3 # 4; 0]%Q /\ get_intersecting_cells ov2 [1; 1 # 2; 0; 3 # 2; 3 # 4; 0]%Q = Some [0; 1].
Proof.
  split; [unfold overlay_ok; cbn; repeat split; repeat constructor; lra|]. split; [|reflexivity]. split; [reflexivity|]. intros [|[|i]] L; cbn in L; [| |lia]; unfold b_lo, b_hi; cbn; repeat split; lra.
Qed.
(** Not so in three dimensions: the index has two entries, and its third is written. *)
Theorem C73_three_dimensions_refuted : exists ov b, overlay_ok ov /\ o_ndim ov = 3%nat /\ box_inside ov b /\ get_intersecting_cells ov b = None.
Proof.
  exists (mk_overlay 3 [0; 0; 0]%Q [2; 2; 2]%Q [2; 2; 2]), [0; 0; 0; 1; 1; 1]%Q. split; [unfold overlay_ok; cbn; repeat split; repeat constructor; lra|]. split; [reflexivity|]. split; [|reflexivity]. split; [reflexivity|]. intros [|[|[|i]]] L; cbn in L; [| | |lia]; unfold b_lo, b_hi; cbn; repeat split; lra.
Qed.
Print Assumptions C73_three_dimensions_refuted.

(** The test of one cell, a triangle or a convex quadrilateral with its vertices in either sense: points that pass are in the cell, the
    boundary included; points of the cell pass unless they are at the height of the highest vertex. *)
Theorem C73_cell_test s vs p : convex s vs -> (point_in_cell p vs = true -> within s vs p) /\ (within s vs p -> below_top vs p -> point_in_cell p vs = true) /\ (interior s vs p -> point_in_cell p vs = true).
Proof.
  intros C. destruct (cell_test s vs p C) as (A & B). split; [exact A|]. split; [exact B|]. intros I. apply B; [apply (interior_within s), I|apply (interior_top s); assumption].
Qed.
Print Assumptions C73_cell_test.
(** At the vertices points pass, unless both neighbours of the vertex are to the right of it, or above it with the same first coordinate. *)
Theorem C73_corner_test vs p i : (i < length vs)%nat -> (length vs = 3 \/ length vs = 4)%nat -> same p (vert vs i) ->
  before (vert vs (i + 1)) (vert vs i) \/ before (vert vs (i + length vs - 1)) (vert vs i) -> point_in_cell p vs = true.
Proof. intros L Ln S B. apply (corner_test vs p i); assumption. Qed.
Print Assumptions C73_corner_test.
Definition square : list point := [(0, 0); (1, 0); (1, 1); (0, 1)]%Q.
Definition flag : list point := [(0, 1); (1, 0); (2, 1)]%Q.
Lemma square_convex : convex 1 square.
Proof. split; [left; reflexivity|]. split; [right; reflexivity|]. intros i k Li Lk N1 N2. cbn in Li, Lk. destruct i as [|[|[|[|i]]]]; destruct k as [|[|[|[|k]]]]; try lia; try (cbn in N2; congruence); reflexivity. Qed.
Lemma flag_convex : convex 1 flag.
Proof. split; [left; reflexivity|]. split; [left; reflexivity|]. intros i k Li Lk N1 N2. cbn in Li, Lk. destruct i as [|[|[|i]]]; destruct k as [|[|[|k]]]; try lia; try (cbn in N2; congruence); reflexivity. Qed.
Example C73_cell_test_instance : convex 1 square /\ map (fun p => point_in_cell p square) [(1 # 2, 1 # 3); (1 # 2, 0); (0, 1 # 2); (1, 1 # 2); (0, 0); (1, 1); (2, 1 # 2); (1 # 2, -1)]%Q = [true; true; true; true; true; true; false; false].
Proof. split; [exact square_convex|reflexivity]. Qed.
(** Points inside the highest side of a cell fail if this side is horizontal, and so does its left end if the rest of the cell is to the right. *)
Theorem C73_top_refuted : (exists s vs p, convex s vs /\ within s vs p /\ point_in_cell p vs = false) /\ (exists s vs i, convex s vs /\ (i < length vs)%nat /\ within s vs (vert vs i) /\ point_in_cell (vert vs i) vs = false).
Proof.
  split; [exists 1%Q, square, (1 # 2, 1)%Q; split; [exact square_convex|]|exists 1%Q, flag, 0%nat; split; [exact flag_convex|split; [cbn; lia|]]];
    (split; [|reflexivity]); intros j L; cbn in L; [destruct j as [|[|[|[|j]]]]|destruct j as [|[|[|j]]]]; try lia; unfold Qle; vm_compute; congruence.
Qed.
Print Assumptions C73_top_refuted.

(** The mapper built for any cells of this rank and of the halo.  A particle keeps its entries or gets the id and rank of a cell that
    contains it, and does get one if a cell contains it that has a vertex above it, or has it in its interior.  Of several such cells the
    last is taken. *)
Theorem C73_map cells : cells <> [] -> (forall c, In c cells -> exists s, convex s (c_verts c)) ->
  exists mp, make_mapper cells = Some mp /\ forall p old, exists r, map_particle mp p old = Some r /\
    (r = old \/ exists k c s, nth_error cells k = Some c /\ convex s (c_verts c) /\ within s (c_verts c) p /\ r = (c_id c, c_rank c)) /\
    ((forall c s, In c cells -> convex s (c_verts c) -> ~ within s (c_verts c) p) -> r = old) /\
    (forall k c s, nth_error cells k = Some c -> convex s (c_verts c) -> within s (c_verts c) p /\ below_top (c_verts c) p \/ interior s (c_verts c) p ->
       exists k' c' s', (k <= k')%nat /\ nth_error cells k' = Some c' /\ convex s' (c_verts c') /\ within s' (c_verts c') p /\ r = (c_id c', c_rank c')).
Proof.
  intros NE HC. destruct (mapper_ok cells NE HC) as (mp & E & M). exists mp. split; [exact E|]. intros p old. exists (assign p cells old). split; [apply M|].
  destruct (assign_last p cells old) as [(A & N)|(k & c & Ek & T & A & L)].
  - split; [left; exact A|]. split; [intros _; exact A|]. intros k c s Ek C W. exfalso. pose proof (N c (nth_error_In _ _ Ek)) as F. destruct (C73_cell_test s (c_verts c) p C) as (_ & T1 & T2). destruct W as [(W & B)|W]; [rewrite (T1 W B) in F|rewrite (T2 W) in F]; discriminate.
  - destruct (HC c (nth_error_In _ _ Ek)) as (s & C). pose proof (proj1 (C73_cell_test s (c_verts c) p C) T) as W. split; [right; exists k, c, s; auto|]. split; [intros N; exfalso; apply (N c s (nth_error_In _ _ Ek) C W)|].
    intros k1 c1 s1 E1 C1 W1. exists k, c, s. split; [|auto]. destruct (le_lt_dec k1 k) as [|G]; [assumption|exfalso]. pose proof (L k1 c1 G E1) as F. destruct (C73_cell_test s1 (c_verts c1) p C1) as (_ & T1 & T2). destruct W1 as [(W1 & B)|W1]; [rewrite (T1 W1 B) in F|rewrite (T2 W1) in F]; discriminate.
Qed.
Print Assumptions C73_map.
(** Two cells: a square of rank 0 and a triangle of rank 1. *)
Definition two_cells : list cell2d := [mk_cell2d 0 0 square; mk_cell2d 1 5 [(1, 0); (2, 0); (1, 1)]%Q].
Example C73_map_instance : (forall c, In c two_cells -> exists s, convex s (c_verts c)) /\
  (mp <- make_mapper two_cells ;; mapM (fun p => map_particle mp p (7, -1)) [(1 # 2, 1 # 2); (5 # 4, 1 # 4); (1, 1 # 2); (1 # 2, 1); (3, 3)]%Q) = Some [(0, 0); (5, 1); (5, 1); (7, -1); (7, -1)].
Proof.
  split; [|vm_compute; reflexivity]. intros c [<-|[<-|[]]]; exists 1%Q; [exact square_convex|]. split; [left; reflexivity|]. split; [left; reflexivity|]. intros i k Li Lk N1 N2. cbn in Li, Lk. destruct i as [|[|[|i]]]; destruct k as [|[|[|k]]]; try lia; try (cbn in N2; congruence); reflexivity.
Qed.
