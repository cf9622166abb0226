(** The test of one cell, for polygons of either orientation. *)
From Coq Require Import List Arith ZArith QArith Qminmax Bool Lia Lqa.
Import ListNotations.
From Verif Require Import Base Kernel DeviceFn_Model Mapper2D_Model Mapper2D_Spec Mapper2DPoly_Proofs.
Open Scope Q_scope.

Definition ccw (vs : list point) : Prop :=
  (exists a b c, vs = [a; b; c] /\ 0 < cross a b c) \/
  (exists a b c d, vs = [a; b; c; d] /\ 0 < cross a b c /\ 0 < cross a b d /\ 0 < cross b c d /\ 0 < cross a c d).
Lemma ccw_faces vs : ccw vs -> forall f v, In f (faces vs) -> In v vs -> 0 <= cross (fst f) (snd f) v.
Proof.
  assert (R : forall x y z, cross x y z == cross y z x) by (intros; unfold cross; ring). assert (Z1 : forall x y, cross x y x == 0) by (intros; unfold cross; ring). assert (Z2 : forall x y, cross x y y == 0) by (intros; unfold cross; ring).
  intros [(a & b & c & -> & H)|(a & b & c & d & -> & H1 & H2 & H3 & H4)] f v I J; cbn in I, J.
  - pose proof (R a b c). pose proof (R b c a). pose proof (R c a b). destruct I as [<-|[<-|[<-|[]]]]; destruct J as [<-|[<-|[<-|[]]]]; cbn [fst snd]; rewrite ?Z1, ?Z2; lra.
  - pose proof (R a b c). pose proof (R b c a). pose proof (R c a b). pose proof (R a b d). pose proof (R b d a). pose proof (R b c d). pose proof (R c d b). pose proof (R d b c). pose proof (R a c d). pose proof (R c d a). pose proof (R d a c). pose proof (R d a b). destruct I as [<-|[<-|[<-|[<-|[]]]]]; destruct J as [<-|[<-|[<-|[<-|[]]]]]; cbn [fst snd]; rewrite ?Z1, ?Z2; lra.
Qed.
Lemma ccw_test vs p : ccw vs -> (point_in_cell p vs = true -> inner vs p) /\ (inner vs p -> below_top vs p -> point_in_cell p vs = true).
Proof.
  intros H. pose proof (ccw_faces vs H) as HF. destruct H as [(a & b & c & -> & H)|(a & b & c & d & -> & H1 & H2 & H3 & H4)]; [apply triangle; assumption|apply quad; assumption].
Qed.
Lemma normal s vs : convex s vs -> exists vs', ccw vs' /\ (forall p, point_in_cell p vs = point_in_cell p vs') /\ (forall v, In v vs <-> In v vs') /\
  (forall p, within s vs p <-> inner vs' p) /\ (forall p, interior s vs p <-> forall f, In f (faces vs') -> 0 < cross (fst f) (snd f) p) /\
  (forall a b, In (a, b) (faces vs) \/ In (b, a) (faces vs) <-> In (a, b) (faces vs') \/ In (b, a) (faces vs')).
Proof.
  intros (Hs & Hl & H). assert (N : forall x y z, cross y x z == - cross x y z) by (intros; unfold cross; ring).
  assert (R : forall x y z, cross x y z == cross y z x) by (intros; unfold cross; ring).
  destruct Hl as [Hl|Hl]; destruct vs as [|a [|b [|c [|d [|]]]]]; try discriminate; cbn [length] in H; clear Hl.
  - assert (H0 := H 0%nat 2%nat ltac:(lia) ltac:(lia) ltac:(lia) ltac:(discriminate)). cbn in H0. destruct Hs as [->| ->].
    + exists [a; b; c]. split; [left; exists a, b, c; split; [reflexivity|lra]|]. split; [reflexivity|]. split; [reflexivity|]. split; [|split; [|reflexivity]].
      * intros p. split; [intros W f I; cbn in I|intros W i L; cbn [length] in L].
        -- assert (W0 := W 0%nat ltac:(cbn; lia)). assert (W1 := W 1%nat ltac:(cbn; lia)). assert (W2 := W 2%nat ltac:(cbn; lia)). cbn in W0, W1, W2. destruct I as [<-|[<-|[<-|[]]]]; cbn [fst snd]; lra.
        -- assert (W0 := W (a, b) ltac:(cbn; auto)). assert (W1 := W (b, c) ltac:(cbn; auto)). assert (W2 := W (c, a) ltac:(cbn; auto)). cbn [fst snd] in *. destruct i as [|[|[|i]]]; try lia; cbn; lra.
      * intros p. split; [intros W f I; cbn in I|intros W i L; cbn [length] in L].
        -- assert (W0 := W 0%nat ltac:(cbn; lia)). assert (W1 := W 1%nat ltac:(cbn; lia)). assert (W2 := W 2%nat ltac:(cbn; lia)). cbn in W0, W1, W2. destruct I as [<-|[<-|[<-|[]]]]; cbn [fst snd]; lra.
        -- assert (W0 := W (a, b) ltac:(cbn; auto)). assert (W1 := W (b, c) ltac:(cbn; auto)). assert (W2 := W (c, a) ltac:(cbn; auto)). cbn [fst snd] in *. destruct i as [|[|[|i]]]; try lia; cbn; lra.
    + exists [a; c; b]. pose proof (N a b c). pose proof (R c b a). pose proof (R b a c). split; [left; exists a, c, b; split; [reflexivity|lra]|]. split; [intros; apply rev3|]. split; [intros v; cbn; tauto|]. split; [|split; [|intros x y; cbn; rewrite !pair_equal_spec; tauto]].
      * intros p. pose proof (N a b p). pose proof (N b c p). pose proof (N c a p). split; [intros W f I; cbn in I|intros W i L; cbn [length] in L].
        -- assert (W0 := W 0%nat ltac:(cbn; lia)). assert (W1 := W 1%nat ltac:(cbn; lia)). assert (W2 := W 2%nat ltac:(cbn; lia)). cbn in W0, W1, W2. destruct I as [<-|[<-|[<-|[]]]]; cbn [fst snd]; lra.
        -- assert (W0 := W (b, a) ltac:(cbn; auto)). assert (W1 := W (c, b) ltac:(cbn; auto)). assert (W2 := W (a, c) ltac:(cbn; auto)). cbn [fst snd] in *. destruct i as [|[|[|i]]]; try lia; cbn; lra.
      * intros p. pose proof (N a b p). pose proof (N b c p). pose proof (N c a p). split; [intros W f I; cbn in I|intros W i L; cbn [length] in L].
        -- assert (W0 := W 0%nat ltac:(cbn; lia)). assert (W1 := W 1%nat ltac:(cbn; lia)). assert (W2 := W 2%nat ltac:(cbn; lia)). cbn in W0, W1, W2. destruct I as [<-|[<-|[<-|[]]]]; cbn [fst snd]; lra.
        -- assert (W0 := W (b, a) ltac:(cbn; auto)). assert (W1 := W (c, b) ltac:(cbn; auto)). assert (W2 := W (a, c) ltac:(cbn; auto)). cbn [fst snd] in *. destruct i as [|[|[|i]]]; try lia; cbn; lra.
  - assert (H1 := H 0%nat 2%nat ltac:(lia) ltac:(lia) ltac:(lia) ltac:(discriminate)). assert (H2 := H 0%nat 3%nat ltac:(lia) ltac:(lia) ltac:(lia) ltac:(discriminate)). assert (H3 := H 1%nat 3%nat ltac:(lia) ltac:(lia) ltac:(lia) ltac:(discriminate)). assert (H4 := H 2%nat 0%nat ltac:(lia) ltac:(lia) ltac:(lia) ltac:(discriminate)). cbn in H1, H2, H3, H4. pose proof (R a c d). destruct Hs as [->| ->].
    + exists [a; b; c; d]. split; [right; exists a, b, c, d; split; [reflexivity|lra]|]. split; [reflexivity|]. split; [reflexivity|]. split; [|split; [|reflexivity]].
      * intros p. split; [intros W f I; cbn in I|intros W i L; cbn [length] in L].
        -- assert (W0 := W 0%nat ltac:(cbn; lia)). assert (W1 := W 1%nat ltac:(cbn; lia)). assert (W2 := W 2%nat ltac:(cbn; lia)). assert (W3 := W 3%nat ltac:(cbn; lia)). cbn in W0, W1, W2, W3. destruct I as [<-|[<-|[<-|[<-|[]]]]]; cbn [fst snd]; lra.
        -- assert (W0 := W (a, b) ltac:(cbn; auto)). assert (W1 := W (b, c) ltac:(cbn; auto)). assert (W2 := W (c, d) ltac:(cbn; auto)). assert (W3 := W (d, a) ltac:(cbn; auto 6)). cbn [fst snd] in *. destruct i as [|[|[|[|i]]]]; try lia; cbn; lra.
      * intros p. split; [intros W f I; cbn in I|intros W i L; cbn [length] in L].
        -- assert (W0 := W 0%nat ltac:(cbn; lia)). assert (W1 := W 1%nat ltac:(cbn; lia)). assert (W2 := W 2%nat ltac:(cbn; lia)). assert (W3 := W 3%nat ltac:(cbn; lia)). cbn in W0, W1, W2, W3. destruct I as [<-|[<-|[<-|[<-|[]]]]]; cbn [fst snd]; lra.
        -- assert (W0 := W (a, b) ltac:(cbn; auto)). assert (W1 := W (b, c) ltac:(cbn; auto)). assert (W2 := W (c, d) ltac:(cbn; auto)). assert (W3 := W (d, a) ltac:(cbn; auto 6)). cbn [fst snd] in *. destruct i as [|[|[|[|i]]]]; try lia; cbn; lra.
    + exists [a; d; c; b]. split; [right; exists a, d, c, b; split; [reflexivity|]|]. 
      { assert (Q1 : cross a d c == - cross c d a) by (unfold cross; ring). assert (Q2 : cross a d b == - cross a b d) by (unfold cross; ring). assert (Q3 : cross d c b == - cross b c d) by (unfold cross; ring). assert (Q4 : cross a c b == - cross a b c) by (unfold cross; ring). lra. }
      split; [intros; apply rev4|]. split; [intros v; cbn; tauto|]. split; [|split; [|intros x y; cbn; rewrite !pair_equal_spec; tauto]].
      * intros p. pose proof (N a b p). pose proof (N b c p). pose proof (N c d p). pose proof (N d a p). split; [intros W f I; cbn in I|intros W i L; cbn [length] in L].
        -- assert (W0 := W 0%nat ltac:(cbn; lia)). assert (W1 := W 1%nat ltac:(cbn; lia)). assert (W2 := W 2%nat ltac:(cbn; lia)). assert (W3 := W 3%nat ltac:(cbn; lia)). cbn in W0, W1, W2, W3. destruct I as [<-|[<-|[<-|[<-|[]]]]]; cbn [fst snd]; lra.
        -- assert (W0 := W (b, a) ltac:(cbn; auto 6)). assert (W1 := W (c, b) ltac:(cbn; auto 6)). assert (W2 := W (d, c) ltac:(cbn; auto 6)). assert (W3 := W (a, d) ltac:(cbn; auto 6)). cbn [fst snd] in *. destruct i as [|[|[|[|i]]]]; try lia; cbn; lra.
      * intros p. pose proof (N a b p). pose proof (N b c p). pose proof (N c d p). pose proof (N d a p). split; [intros W f I; cbn in I|intros W i L; cbn [length] in L].
        -- assert (W0 := W 0%nat ltac:(cbn; lia)). assert (W1 := W 1%nat ltac:(cbn; lia)). assert (W2 := W 2%nat ltac:(cbn; lia)). assert (W3 := W 3%nat ltac:(cbn; lia)). cbn in W0, W1, W2, W3. destruct I as [<-|[<-|[<-|[<-|[]]]]]; cbn [fst snd]; lra.
        -- assert (W0 := W (b, a) ltac:(cbn; auto 6)). assert (W1 := W (c, b) ltac:(cbn; auto 6)). assert (W2 := W (d, c) ltac:(cbn; auto 6)). assert (W3 := W (a, d) ltac:(cbn; auto 6)). cbn [fst snd] in *. destruct i as [|[|[|[|i]]]]; try lia; cbn; lra.
Qed.
(** A point of the polygon is not outside the bounds of the vertices, in any direction. *)
Definition lin (k l : Q) (v : point) : Q := k * fst v + l * snd v.
Lemma bary_lin k l a b c p : cross a b p * (lin k l c - lin k l p) + cross b c p * (lin k l a - lin k l p) + cross c a p * (lin k l b - lin k l p) == 0.
Proof. unfold cross, lin. ring. Qed.
Lemma tri_bound k l a b c p : 0 < cross a b c -> 0 <= cross a b p -> 0 <= cross b c p -> 0 <= cross c a p -> lin k l p < lin k l a -> lin k l p < lin k l b -> lin k l p < lin k l c -> False.
Proof.
  intros P A B C La Lb Lc. pose proof (bary_lin k l a b c p). destruct (bary a b c p) as (_ & S). apply (one_side (lin k l c - lin k l p) (lin k l a - lin k l p) (lin k l b - lin k l p) (cross a b p) (cross b c p) (cross c a p)); lra.
Qed.
Lemma ccw_bound vs p k l : ccw vs -> inner vs p -> exists v, In v vs /\ lin k l v <= lin k l p.
Proof.
  intros [(a & b & c & -> & H)|(a & b & c & d & -> & H1 & H2 & H3 & H4)] W.
  - assert (W0 := W (a, b) ltac:(cbn; auto)). assert (W1 := W (b, c) ltac:(cbn; auto)). assert (W2 := W (c, a) ltac:(cbn; auto)). cbn [fst snd] in *.
    destruct (Qlt_le_dec (lin k l p) (lin k l a)) as [La|La]; [|exists a; cbn; auto]. destruct (Qlt_le_dec (lin k l p) (lin k l b)) as [Lb|Lb]; [|exists b; cbn; auto]. destruct (Qlt_le_dec (lin k l p) (lin k l c)) as [Lc|Lc]; [|exists c; cbn; auto].
    exfalso. exact (tri_bound k l a b c p H W0 W1 W2 La Lb Lc).
  - assert (W0 := W (a, b) ltac:(cbn; auto)). assert (W1 := W (b, c) ltac:(cbn; auto)). assert (W2 := W (c, d) ltac:(cbn; auto)). assert (W3 := W (d, a) ltac:(cbn; auto 6)). cbn [fst snd] in *.
    destruct (Qlt_le_dec (lin k l p) (lin k l a)) as [La|La]; [|exists a; cbn; auto]. destruct (Qlt_le_dec (lin k l p) (lin k l b)) as [Lb|Lb]; [|exists b; cbn; auto]. destruct (Qlt_le_dec (lin k l p) (lin k l c)) as [Lc|Lc]; [|exists c; cbn; auto]. destruct (Qlt_le_dec (lin k l p) (lin k l d)) as [Ld|Ld]; [|exists d; cbn; auto 6].
    exfalso. assert (Ec : cross c a p == - cross a c p) by (unfold cross; ring). destruct (Qlt_le_dec (cross a c p) 0) as [N|N].
    + apply (tri_bound k l a b c p); lra.
    + apply (tri_bound k l a c d p); lra.
Qed.
Lemma ccw_interior_top vs p : ccw vs -> (forall f, In f (faces vs) -> 0 < cross (fst f) (snd f) p) -> below_top vs p.
Proof.
  assert (K : forall x1 x2 x3 y1 y2 y3, 0 < x1 -> 0 < x2 -> 0 <= x3 -> y1 <= 0 -> y2 <= 0 -> y3 <= 0 -> x1 * y1 + x2 * y2 + x3 * y3 == 0 -> y1 == 0 /\ y2 == 0).
  { intros x1 x2 x3 y1 y2 y3 X1 X2 X3 Y1 Y2 Y3 E. assert (0 <= x1 * - y1) by (apply Qmult_le_0_compat; lra). assert (0 <= x2 * - y2) by (apply Qmult_le_0_compat; lra). assert (0 <= x3 * - y3) by (apply Qmult_le_0_compat; lra).
    split; [destruct (Qlt_le_dec y1 0) as [L|L]; [|lra]; assert (0 < x1 * - y1) by (apply Qmult_lt_0_compat; lra); lra|destruct (Qlt_le_dec y2 0) as [L|L]; [|lra]; assert (0 < x2 * - y2) by (apply Qmult_lt_0_compat; lra); lra]. }
  intros [(a & b & c & -> & H)|(a & b & c & d & -> & H1 & H2 & H3 & H4)] W.
  - assert (W0 := W (a, b) ltac:(cbn; auto)). assert (W1 := W (b, c) ltac:(cbn; auto)). assert (W2 := W (c, a) ltac:(cbn; auto)). cbn [fst snd] in *.
    destruct (Qlt_le_dec (snd p) (snd a)) as [La|La]; [exists a; cbn; auto|]. destruct (Qlt_le_dec (snd p) (snd b)) as [Lb|Lb]; [exists b; cbn; auto|]. destruct (Qlt_le_dec (snd p) (snd c)) as [Lc|Lc]; [exists c; cbn; auto|]. exfalso.
    destruct (bary a b c p) as (B & _). destruct (K _ _ _ (snd c - snd p) (snd a - snd p) (snd b - snd p) W0 W1 (Qlt_le_weak _ _ W2) ltac:(lra) ltac:(lra) ltac:(lra) B) as (E1 & E2). rewrite E1, E2 in B.
    assert (Eb : snd b - snd p == 0) by (destruct (Qlt_le_dec (snd b - snd p) 0) as [L|L]; [|lra]; assert (0 < cross c a p * - (snd b - snd p)) by (apply Qmult_lt_0_compat; lra); lra).
    assert (Z : cross a b c == 0) by (unfold cross; assert (Q1 : snd c - snd a == 0) by lra; assert (Q2 : snd b - snd a == 0) by lra; rewrite Q1, Q2; ring). lra.
  - assert (W0 := W (a, b) ltac:(cbn; auto)). assert (W1 := W (b, c) ltac:(cbn; auto)). assert (W2 := W (c, d) ltac:(cbn; auto)). assert (W3 := W (d, a) ltac:(cbn; auto 6)). cbn [fst snd] in *.
    destruct (Qlt_le_dec (snd p) (snd a)) as [La|La]; [exists a; cbn; auto|]. destruct (Qlt_le_dec (snd p) (snd b)) as [Lb|Lb]; [exists b; cbn; auto|]. destruct (Qlt_le_dec (snd p) (snd c)) as [Lc|Lc]; [exists c; cbn; auto|]. destruct (Qlt_le_dec (snd p) (snd d)) as [Ld|Ld]; [exists d; cbn; auto 6|]. exfalso.
    assert (Eac : snd a == snd p /\ snd c == snd p).
    { assert (Ec : cross c a p == - cross a c p) by (unfold cross; ring). destruct (Qlt_le_dec (cross a c p) 0) as [N|N].
      - destruct (bary a b c p) as (B & _). destruct (K _ _ (cross c a p) (snd c - snd p) (snd a - snd p) (snd b - snd p) W0 W1 ltac:(lra) ltac:(lra) ltac:(lra) ltac:(lra) B) as (E1 & E2). lra.
      - destruct (bary a c d p) as (B & _). destruct (K (cross c d p) (cross d a p) (cross a c p) (snd a - snd p) (snd c - snd p) (snd d - snd p) W2 W3 N ltac:(lra) ltac:(lra) ltac:(lra) ltac:(lra)) as (E1 & E2). lra. }
    destruct Eac as (Ea & Ec). assert (Q1 : cross a b c == - ((snd b - snd p) * (fst c - fst a))) by (unfold cross; rewrite Ea, Ec; ring). assert (Q2 : cross a c d == (fst c - fst a) * (snd d - snd p)) by (unfold cross; rewrite Ea, Ec; ring).
    destruct (Qlt_le_dec 0 (fst c - fst a)) as [L|L].
    + assert (0 <= (fst c - fst a) * - (snd d - snd p)) by (apply Qmult_le_0_compat; lra). lra.
    + assert (0 <= - (snd b - snd p) * - (fst c - fst a)) by (apply Qmult_le_0_compat; lra). lra.
Qed.

(** ** Either orientation *)
Lemma below_top_ext vs vs' p : (forall v, In v vs <-> In v vs') -> below_top vs p <-> below_top vs' p.
Proof. intros H. split; intros (v & I & L); exists v; (split; [apply H; exact I|exact L]). Qed.
Lemma cell_test s vs p : convex s vs -> (point_in_cell p vs = true -> within s vs p) /\ (within s vs p -> below_top vs p -> point_in_cell p vs = true).
Proof.
  intros C. destruct (normal s vs C) as (vs' & N1 & N2 & N3 & N4 & _). destruct (ccw_test vs' p N1) as (T1 & T2). rewrite N2, N4, (below_top_ext vs vs' p N3). split; assumption.
Qed.
Lemma interior_within s vs p : interior s vs p -> within s vs p.
Proof. intros H i L. apply Qlt_le_weak, H, L. Qed.
Lemma interior_top s vs p : convex s vs -> interior s vs p -> below_top vs p.
Proof.
  intros C H. destruct (normal s vs C) as (vs' & N1 & N2 & N3 & N4 & N5 & _). rewrite (below_top_ext vs vs' p N3). apply ccw_interior_top; [exact N1|]. apply N5. exact H.
Qed.
Lemma within_bound s vs p k l : convex s vs -> within s vs p -> exists v, In v vs /\ lin k l v <= lin k l p.
Proof.
  intros C H. destruct (normal s vs C) as (vs' & N1 & N2 & N3 & N4 & _). destruct (ccw_bound vs' p k l N1 ltac:(apply N4; exact H)) as (v & I & L). exists v. split; [apply N3; exact I|exact L].
Qed.
(** A corner with a neighbour before it. *)
Lemma corner_test vs p i : (i < length vs)%nat -> same p (vert vs i) -> before (vert vs (i + 1)) (vert vs i) \/ before (vert vs (i + length vs - 1)) (vert vs i) -> (length vs = 3 \/ length vs = 4)%nat -> point_in_cell p vs = true.
Proof.
  intros L S B Ln.
  assert (G : exists f, In f (faces vs) /\ later p f).
  { destruct B as [B|B].
    - exists (vert vs i, vert vs (i + 1)). split; [|left; split; assumption]. destruct Ln as [Ln|Ln]; destruct vs as [|a [|b [|c [|d [|]]]]]; try discriminate; cbn [length] in L; destruct i as [|[|[|[|i]]]]; try lia; cbn; auto 6.
    - exists (vert vs (i + length vs - 1), vert vs i). split; [|right; left; split; assumption]. destruct Ln as [Ln|Ln]; destruct vs as [|a [|b [|c [|d [|]]]]]; try discriminate; cbn [length] in L; destruct i as [|[|[|[|i]]]]; try lia; cbn; auto 6. }
  destruct G as (f & I & F). apply (some_none p vs f I). destruct f as (a, b). pose proof (face_spec p a b) as H. destruct (face_test p (a, b)); [exfalso; apply (proj1 H); exact F|reflexivity].
Qed.
