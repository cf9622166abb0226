(** The cells a bounding box overlaps. *)
From Coq Require Import List Arith ZArith QArith Qminmax Qround Bool Lia Lqa.
Import ListNotations.
From Verif Require Import Base Kernel Mesh_Model Mesh_Spec Mesh_Proofs MeshNb_Proofs MeshPos_Proofs CellRep_Model Overlap_Model Overlap_Spec Overlap_Proofs.
Open Scope Z_scope.

Lemma qmult_pos a b : (0 <= a)%Q -> (0 <= b)%Q -> (0 < a * b)%Q <-> (0 < a)%Q /\ (0 < b)%Q.
Proof.
  intros A B. split.
  - intros H. split; apply Qnot_le_lt; intros K; [assert (E : (a == 0)%Q) by lra|assert (E : (b == 0)%Q) by lra]; rewrite E in H; lra.
  - intros (X & Y). apply Qmult_lt_0_compat; assumption.
Qed.
Lemma foldM_append {A B} (f : list B -> A -> option (list B)) (g : A -> list B) l : (forall x acc, In x l -> f acc x = Some (acc ++ g x)) -> forall acc, foldM f acc l = Some (acc ++ flat_map g l).
Proof.
  induction l as [|x l IH]; intros H acc; [cbn; rewrite app_nil_r; reflexivity|]. cbn [foldM flat_map]. rewrite H by (left; reflexivity). cbn [obind]. rewrite IH by (intros; apply H; right; assumption). rewrite app_assoc. reflexivity.
Qed.
Lemma nodup_map_on {A B} (f : A -> B) l : NoDup l -> (forall x y, In x l -> In y l -> f x = f y -> x = y) -> NoDup (map f l).
Proof.
  induction 1 as [|x l N ND IH]; intros H; [constructor|]. cbn [map]. constructor; [|apply IH; intros; apply H; auto; right; assumption]. intros I. apply in_map_iff in I. destruct I as (y & E & I). assert (x = y) by (apply H; [left; reflexivity|right; exact I|auto]). subst y. contradiction.
Qed.
Lemma zrange_nodup a b : NoDup (zrange a b).
Proof. unfold zrange. apply nodup_map_on; [apply seq_NoDup|]. intros; lia. Qed.

Section Box.
  Context (m : mesh) (b : box) (Hm : mesh_ok m) (H3 : (ndim m <= 3)%nat) (Hb : length b = 6%nat).
  Local Notation w := (cell_width_fine m).
  Local Notation iw := (inverse_cell_width_fine m).
  Definition ncd (i : nat) : Z := ncells_dim_fine m * nth i (dims m) 0.
  Definition start_of (i : nat) : Z := if (i <? ndim m)%nat then first_cell iw (box_lo m b i) (ncd i) else 0.
  Definition end_of (i : nat) : Z := if (i <? ndim m)%nat then end_cell iw (box_hi m b i) (ncd i) else 1.
  Definition area_of (i : nat) (c : Z) : Q := if (i <? ndim m)%nat then overlap_1d (box_lo m b i) (box_hi m b i) c w else 1%Q.
  Definition vol_of (idx : list Z) : Q := (area_of 0 (nth 0 idx 0%Z) * area_of 1 (nth 1 idx 0%Z) * area_of 2 (nth 2 idx 0%Z))%Q.
  Definition index_of (idx : list Z) : Z := cell_index m (tuple_of m (fun i => nth i idx 0%Z)).
  Definition keep (idx : list Z) : bool := negb (Qle_bool (vol_of idx) 0).
  Definition item_of (idx : list Z) : list (Z * Q) := if keep idx then [(index_of idx, vol_of idx)] else [].
  Definition triples : list (list Z) :=
    flat_map (fun cz => flat_map (fun cy => map (fun cx => [cx; cy; cz]) (zrange (start_of 0) (end_of 0))) (zrange (start_of 1) (end_of 1))) (zrange (start_of 2) (end_of 2)).

  Lemma w_ok : (0 < w)%Q /\ (iw * w == 1)%Q.
  Proof.
    destruct Hm as (_ & _ & _ & E). pose proof (ncf_pos m) as P. pose proof (inject_pos _ P) as P'. unfold cell_width_fine, inverse_cell_width_fine. split.
    - apply Qlt_shift_div_l; lra.
    - field. split; lra.
  Qed.
  Lemma ncd_extent i : ncd i = extent_cells m i.
  Proof. unfold ncd, extent_cells, ncells_dim_fine. ring. Qed.
  Lemma ncd_pos i : (i < ndim m)%nat -> 0 < ncd i.
  Proof. intros L. rewrite ncd_extent. apply (extent_cells_pos m i Hm L). Qed.
  Lemma nd_pos : (0 < ndim m)%nat.
  Proof. destruct Hm as (P & _). lia. Qed.
  Lemma rd_nth {A} (l : list A) i d : (i < length l)%nat -> rd l i = Some (nth i l d).
  Proof. intros L. unfold rd. apply nth_error_nth'. exact L. Qed.
  Lemma bounds_ok i : (i < ndim m)%nat -> cell_bounds m b i = Some ((start_of i, end_of i), (box_lo m b i, box_hi m b i)).
  Proof.
    intros L. unfold cell_bounds, lower, upper. rewrite (rd_nth b i 0%Q) by lia. cbn [obind]. rewrite (rd_nth b (3 + i) 0%Q) by lia. cbn [obind].
    destruct Hm as (Ld & Lo & _ & _). rewrite (rd_nth (origin m) i 0%Q) by lia. cbn [obind]. rewrite (rd_nth (dims m) i 0) by lia. cbn [obind]. unfold start_of, end_of. destruct (Nat.ltb_spec i (ndim m)); [|lia]. reflexivity.
  Qed.
  Lemma range_ok i c : (i < ndim m)%nat -> start_of i <= c < end_of i -> 0 <= c < extent_cells m i.
  Proof.
    intros L. unfold start_of, end_of. destruct (Nat.ltb_spec i (ndim m)); [|lia]. pose proof (ncd_pos i L) as P. pose proof (first_range iw (box_lo m b i) (ncd i) P). pose proof (end_range iw (box_hi m b i) (ncd i) P). rewrite <- ncd_extent. lia.
  Qed.
  Lemma in_triples idx : In idx triples <-> exists cx cy cz, idx = [cx; cy; cz] /\ start_of 0 <= cx < end_of 0 /\ start_of 1 <= cy < end_of 1 /\ start_of 2 <= cz < end_of 2.
  Proof.
    unfold triples. rewrite in_flat_map. split.
    - intros (cz & Iz & I). apply in_flat_map in I. destruct I as (cy & Iy & I). apply in_map_iff in I. destruct I as (cx & <- & Ix). rewrite in_zrange in Ix, Iy, Iz. exists cx, cy, cz. auto.
    - intros (cx & cy & cz & -> & Ix & Iy & Iz). exists cz. split; [apply in_zrange, Iz|]. apply in_flat_map. exists cy. split; [apply in_zrange, Iy|]. apply in_map_iff. exists cx. split; [reflexivity|apply in_zrange, Ix].
  Qed.
  Lemma triples_nodup : NoDup triples.
  Proof.
    unfold triples. assert (G : forall {A B} (f : A -> list B) (p : B -> A) l, NoDup l -> (forall x, NoDup (f x)) -> (forall x y, In y (f x) -> p y = x) -> NoDup (flat_map f l)).
    { intros A B f p l N Hf Hp. induction N as [|x l N ND IH]; [constructor|]. cbn [flat_map]. induction (f x) as [|y t IHt] eqn:E in Hf |- *.
      - exact IH.
      - assert (K : NoDup (f x ++ flat_map f l)); [|rewrite E in K; exact K]. apply NoDup_app_intro; [apply Hf|exact IH|]. intros z Iz Jz. apply in_flat_map in Jz. destruct Jz as (x' & Ix' & Iz'). apply Hp in Iz, Iz'. subst. contradiction. }
    apply (G _ _ _ (fun t => nth 2 t 0)); [apply zrange_nodup| |].
    - intros cz. apply (G _ _ _ (fun t => nth 1 t 0)); [apply zrange_nodup| |].
      + intros cy. apply nodup_map_on; [apply zrange_nodup|]. intros x y _ _ E. congruence.
      + intros cy t I. apply in_map_iff in I. destruct I as (cx & <- & _). reflexivity.
    - intros cz t I. apply in_flat_map in I. destruct I as (cy & _ & I). apply in_map_iff in I. destruct I as (cx & <- & _). reflexivity.
  Qed.
  Lemma coords_ok idx : In idx triples -> length idx = 3%nat /\ forall i, (i < ndim m)%nat -> 0 <= nth i idx 0%Z < extent_cells m i.
  Proof.
    intros I. apply in_triples in I. destruct I as (cx & cy & cz & -> & Ix & Iy & Iz). split; [reflexivity|]. intros i L. apply range_ok; [exact L|]. destruct i as [|[|[|i]]]; cbn [nth]; [exact Ix|exact Iy|exact Iz|lia].
  Qed.
  Lemma item_ok acc idx : In idx triples -> overlap_item m (map (fun i => (box_lo m b i, box_hi m b i)) (seq 0 (ndim m))) acc idx = Some (acc ++ item_of idx).
  Proof.
    intros I. destruct (coords_ok idx I) as (Li & C). unfold overlap_item.
    assert (A : forall i, (i < 3)%nat -> (if (i <? ndim m)%nat then s <- rd (map (fun i => (box_lo m b i, box_hi m b i)) (seq 0 (ndim m))) i;; c <- rd idx i;; Some (overlap_1d (fst s) (snd s) c w) else Some 1%Q) = Some (area_of i (nth i idx 0%Z))).
    { intros i L. unfold area_of. destruct (Nat.ltb_spec i (ndim m)) as [K|K]; [|reflexivity]. rewrite (rd_nth _ i (0, 0)%Q) by (rewrite map_length, seq_length; lia). cbn [obind]. rewrite (rd_nth idx i 0) by lia. cbn [obind]. rewrite (nth_map_seq' (fun i => (box_lo m b i, box_hi m b i)) (ndim m) i (0, 0)%Q K). reflexivity. }
    cbv zeta. rewrite !A by lia. cbn [obind]. unfold item_of, keep, vol_of. destruct (negb _); [|rewrite app_nil_r; reflexivity].
    assert (T : mesh_tuple_to_mh_tuple m idx = Some (tuple_of m (fun i => nth i idx 0%Z))). { apply cart_to_tuple_correct; [exact Hm|lia|intros; apply C; assumption]. }
    rewrite T. cbn [obind]. destruct (tuple_of_cell m (fun i => nth i idx 0%Z) Hm C) as (Ct & _). rewrite (proj1 (to_linear_correct m _ Hm Ct)). reflexivity.
  Qed.
  Lemma map_ok : bounding_box_map m b = Some (flat_map item_of triples).
  Proof.
    unfold bounding_box_map. destruct (Nat.leb_spec (ndim m) 3); [|lia]. cbn [assert obind]. rewrite (mapM_seq _ (fun i => ((start_of i, end_of i), (box_lo m b i, box_hi m b i)))) by (intros; apply bounds_ok; assumption). cbn [obind].
    rewrite !map_map. cbn [fst snd].
    assert (Es : map (fun i => start_of i) (seq 0 (ndim m)) ++ repeat 0 (3 - ndim m) = [start_of 0; start_of 1; start_of 2]).
    { unfold start_of. pose proof nd_pos. destruct (ndim m) as [|[|[|[|n]]]]; try lia; reflexivity. }
    assert (Ee : map (fun i => end_of i) (seq 0 (ndim m)) ++ repeat 1 (3 - ndim m) = [end_of 0; end_of 1; end_of 2]).
    { unfold end_of. pose proof nd_pos. destruct (ndim m) as [|[|[|[|n]]]]; try lia; reflexivity. }
    rewrite Es, Ee. cbn [rd nth_error obind]. fold triples. rewrite (foldM_append _ item_of) by (intros; apply item_ok; assumption). reflexivity.
  Qed.

  Lemma area_nonneg i c : (0 <= area_of i c)%Q.
  Proof. unfold area_of. destruct (i <? ndim m)%nat; [|lra]. apply overlap_pos; apply w_ok. Qed.
  Lemma keep_ok idx : keep idx = true <-> forall i, (i < ndim m)%nat -> (0 < area_of i (nth i idx 0%Z))%Q.
  Proof.
    unfold keep. pose proof (area_nonneg 0 (nth 0 idx 0%Z)) as A0. pose proof (area_nonneg 1 (nth 1 idx 0%Z)) as A1. pose proof (area_nonneg 2 (nth 2 idx 0%Z)) as A2.
    assert (V : (0 < vol_of idx)%Q <-> (0 < area_of 0 (nth 0 idx 0%Z))%Q /\ (0 < area_of 1 (nth 1 idx 0%Z))%Q /\ (0 < area_of 2 (nth 2 idx 0%Z))%Q).
    { unfold vol_of. rewrite qmult_pos by (auto; apply Qmult_le_0_compat; auto). rewrite qmult_pos by auto. tauto. }
    assert (K : negb (Qle_bool (vol_of idx) 0) = true <-> (0 < vol_of idx)%Q).
    { destruct (Qle_bool (vol_of idx) 0) eqn:E; cbn [negb]; [apply Qle_bool_iff in E; split; [discriminate|intros; lra]|]. split; [intros _|reflexivity]. apply Qnot_le_lt. intros X. apply Qle_bool_iff in X. congruence. }
    rewrite K, V. split.
    - intros (B0 & B1 & B2) i L. destruct i as [|[|[|i]]]; [exact B0|exact B1|exact B2|lia].
    - intros H. assert (G : forall i, (i < 3)%nat -> (0 < area_of i (nth i idx 0%Z))%Q). { intros i L. destruct (Nat.ltb_spec i (ndim m)) as [X|X]; [apply H, X|]. unfold area_of. destruct (Nat.ltb_spec i (ndim m)); [lia|lra]. }
      split; [apply G; lia|split; apply G; lia].
  Qed.
  Lemma area_meets i c : (i < ndim m)%nat -> (0 < area_of i c)%Q <-> exists x, (inject_Z c * w < x /\ x < inject_Z (c + 1) * w /\ box_lo m b i < x /\ x < box_hi m b i)%Q.
  Proof. intros L. unfold area_of. destruct (Nat.ltb_spec i (ndim m)); [|lia]. apply overlap_pos, w_ok. Qed.
  Lemma meets_areas t : meets m b t <-> forall i, (i < ndim m)%nat -> (0 < area_of i (coord m t i))%Q.
  Proof.
    destruct w_ok as (W & _). split.
    - intros (x & H) i L. apply (area_meets i _ L). exists (x i). destruct (H i L) as (X1 & X2 & X3 & X4). auto.
    - intros H. exists (fun i => (Qmin (cell_hi m t i) (box_hi m b i) + Qmax (cell_lo m t i) (box_lo m b i)) * (1 # 2))%Q. intros i L. specialize (H i L). apply (area_meets i _ L) in H. destruct H as (x & X1 & X2 & X3 & X4). change (inject_Z (coord m t i) * w)%Q with (cell_lo m t i) in X1. change (inject_Z (coord m t i + 1) * w)%Q with (cell_hi m t i) in X2.
      destruct (Q.min_spec (cell_hi m t i) (box_hi m b i)) as [(M1 & M2)|(M1 & M2)]; destruct (Q.max_spec (cell_lo m t i) (box_lo m b i)) as [(M3 & M4)|(M3 & M4)]; lra.
  Qed.
  (** The triple of a cell. *)
  Definition triple_of (t : list Z) : list Z := map (fun i => if (i <? ndim m)%nat then coord m t i else 0) (seq 0 3).
  Lemma triple_nth t i : (i < 3)%nat -> nth i (triple_of t) 0%Z = if (i <? ndim m)%nat then coord m t i else 0.
  Proof. intros L. unfold triple_of. rewrite (nth_map_seq' (fun i => if (i <? ndim m)%nat then coord m t i else 0) 3 i 0 L). reflexivity. Qed.
  Lemma triple_index t : cell_tuple m t -> index_of (triple_of t) = cell_index m t.
  Proof.
    intros C. destruct (cell_tuple_coord m t Hm C) as (_ & E). unfold index_of. f_equal. transitivity (tuple_of m (coord m t)); [|symmetry; exact E]. apply tuple_of_ext. intros i L. rewrite triple_nth by lia. destruct (Nat.ltb_spec i (ndim m)); [reflexivity|lia].
  Qed.
  Lemma triple_in t : cell_tuple m t -> meets m b t -> In (triple_of t) triples /\ keep (triple_of t) = true.
  Proof.
    intros C M. rewrite meets_areas in M. destruct (cell_tuple_coord m t Hm C) as (R & _). destruct w_ok as (W & I). split.
    - apply in_triples. exists (nth 0 (triple_of t) 0), (nth 1 (triple_of t) 0), (nth 2 (triple_of t) 0). split; [reflexivity|].
      assert (G : forall i, (i < 3)%nat -> start_of i <= nth i (triple_of t) 0%Z < end_of i).
      { intros i L3. rewrite triple_nth by exact L3. unfold start_of, end_of. destruct (Nat.ltb_spec i (ndim m)) as [L|L]; [|lia]. specialize (M i L). apply (area_meets i _ L) in M.
        destruct M as (x & X1 & X2 & X3 & X4). specialize (R i L). rewrite <- ncd_extent in R. split; [apply (first_below w); auto; try lra; apply ncd_pos, L|apply (end_above w); auto; try lra; apply ncd_pos, L]. }
      split; [apply G; lia|split; apply G; lia].
    - apply keep_ok. intros i L. rewrite triple_nth by lia. destruct (Nat.ltb_spec i (ndim m)); [|lia]. apply M, L.
  Qed.
  Lemma idx_of_triple idx : In idx triples -> idx = triple_of (tuple_of m (fun i => nth i idx 0%Z)).
  Proof.
    intros I. destruct (coords_ok idx I) as (L & C). destruct (tuple_of_cell m (fun i => nth i idx 0%Z) Hm C) as (_ & E). apply (nth_ext _ _ 0 0); [rewrite L; unfold triple_of; rewrite map_length, seq_length; reflexivity|]. intros i Hi. rewrite triple_nth by lia.
    destruct (Nat.ltb_spec i (ndim m)) as [K|K]; [rewrite E by exact K; reflexivity|]. apply in_triples in I. destruct I as (cx & cy & cz & -> & _ & Iy & Iz). pose proof nd_pos. unfold start_of, end_of in Iy, Iz. destruct i as [|[|[|i]]]; cbn [nth]; [lia| |cbn [length] in *|cbn in Hi; lia].
    - destruct (Nat.ltb_spec 1 (ndim m)); lia.
    - destruct (Nat.ltb_spec 2 (ndim m)); lia.
  Qed.
  Lemma item_in c v : In (c, v) (flat_map item_of triples) <-> exists idx, In idx triples /\ keep idx = true /\ c = index_of idx /\ v = vol_of idx.
  Proof.
    rewrite in_flat_map. split.
    - intros (idx & I & J). unfold item_of in J. destruct (keep idx) eqn:K; [|destruct J]. destruct J as [J|[]]. injection J as <- <-. exists idx. auto.
    - intros (idx & I & K & -> & ->). exists idx. split; [exact I|]. unfold item_of. rewrite K. left. reflexivity.
  Qed.
  Lemma items_fst : map fst (flat_map item_of triples) = map index_of (filter keep triples).
  Proof. induction triples as [|idx l IH]; [reflexivity|]. cbn [flat_map filter]. rewrite map_app, IH. unfold item_of. destruct (keep idx); reflexivity. Qed.
  Lemma items_nodup : NoDup (map fst (flat_map item_of triples)).
  Proof.
    rewrite items_fst. apply nodup_map_on; [apply NoDup_filter, triples_nodup|]. intros x y Ix Iy E. apply filter_In in Ix, Iy. destruct Ix as (Ix & _), Iy as (Iy & _). unfold index_of in E.
    destruct (coords_ok x Ix) as (_ & Cx). destruct (coords_ok y Iy) as (_ & Cy). apply index_inj in E; [|exact Hm|apply tuple_of_cell; auto|apply tuple_of_cell; auto]. rewrite (idx_of_triple x Ix), (idx_of_triple y Iy), E. reflexivity.
  Qed.
  Lemma items_cells c : In c (map fst (flat_map item_of triples)) <-> exists t, cell_tuple m t /\ cell_index m t = c /\ meets m b t.
  Proof.
    rewrite in_map_iff. split.
    - intros ((c', v) & <- & I). cbn [fst]. apply item_in in I. destruct I as (idx & I & K & -> & _). destruct (coords_ok idx I) as (_ & C). destruct (tuple_of_cell m (fun i => nth i idx 0%Z) Hm C) as (Ct & Ec). exists (tuple_of m (fun i => nth i idx 0%Z)). split; [exact Ct|]. split; [reflexivity|]. apply meets_areas. intros i L. rewrite Ec by exact L. apply keep_ok; assumption.
    - intros (t & C & <- & M). destruct (triple_in t C M) as (I & K). exists (cell_index m t, vol_of (triple_of t)). split; [reflexivity|]. apply item_in. exists (triple_of t). split; [exact I|]. split; [exact K|]. split; [symmetry; apply triple_index, C|reflexivity].
  Qed.
  Lemma vol_volume t : meets m b t -> (vol_of (triple_of t) == volume m b t)%Q.
  Proof.
    intros M. rewrite meets_areas in M. destruct w_ok as (W & _). assert (A : forall i, (i < ndim m)%nat -> (area_of i (nth i (triple_of t) 0%Z) == common m b t i)%Q).
    { intros i L. rewrite triple_nth by lia. specialize (M i L). unfold area_of in *. destruct (Nat.ltb_spec i (ndim m)); [|lia]. rewrite (proj2 (proj2 (overlap_pos w (box_lo m b i) (box_hi m b i) W (coord m t i))) M). reflexivity. }
    assert (B : forall i c, (ndim m <= i)%nat -> area_of i c = 1%Q) by (intros i c L; unfold area_of; destruct (Nat.ltb_spec i (ndim m)); [lia|reflexivity]).
    unfold vol_of, volume. pose proof nd_pos as P. destruct (ndim m) as [|[|[|[|n]]]] eqn:En; try lia; cbn [seq map qprod fold_right].
    - rewrite A by lia. rewrite !B by lia. ring.
    - rewrite !A by lia. rewrite !B by lia. ring.
    - rewrite !A by lia. ring.
  Qed.
  Lemma items_volume t v : cell_tuple m t -> In (cell_index m t, v) (flat_map item_of triples) -> meets m b t /\ (v == volume m b t)%Q.
  Proof.
    intros C I. apply item_in in I. destruct I as (idx & I & K & E & ->). destruct (coords_ok idx I) as (_ & Cc). destruct (tuple_of_cell m (fun i => nth i idx 0%Z) Hm Cc) as (Ct & Ec). unfold index_of in E. apply index_inj in E; auto. rewrite (idx_of_triple idx I), <- E.
    assert (M : meets m b t). { apply meets_areas. intros i L. rewrite E, Ec by exact L. apply keep_ok; assumption. } split; [exact M|apply vol_volume, M].
  Qed.

  (** ** The volumes add up *)
  Lemma qsum_app a c : (qsum (a ++ c) == qsum a + qsum c)%Q.
  Proof. induction a as [|x a IH]; [cbn [app]; unfold qsum at 2; cbn [fold_right]; ring|]. cbn [app qsum fold_right]. fold (qsum (a ++ c)) (qsum a). rewrite IH. ring. Qed.
  Lemma qsum_items : (qsum (map snd (flat_map item_of triples)) == qsum (map vol_of triples))%Q.
  Proof.
    induction triples as [|idx l IH]; [reflexivity|]. cbn [flat_map map]. rewrite map_app, qsum_app, IH. cbn [qsum fold_right]. fold (qsum (map vol_of l)). unfold item_of, keep. destruct (Qle_bool (vol_of idx) 0) eqn:E; cbn [negb map snd qsum fold_right]; [|ring].
    apply Qle_bool_iff in E. assert (0 <= vol_of idx)%Q by (unfold vol_of; apply Qmult_le_0_compat; [apply Qmult_le_0_compat|]; apply area_nonneg). assert (X : (vol_of idx == 0)%Q) by lra. rewrite X. ring.
  Qed.
  Lemma qsum_scale {A} (f : A -> Q) k l : (qsum (map (fun x => f x * k) l) == qsum (map f l) * k)%Q.
  Proof. induction l as [|x l IH]; [unfold qsum; cbn [map fold_right]; ring|]. cbn [map qsum fold_right]. fold (qsum (map f l)) (qsum (map (fun x => f x * k)%Q l)). rewrite IH. ring. Qed.
  Lemma qsum_flat {A B} (f : B -> Q) (g : A -> list B) l : (qsum (map f (flat_map g l)) == qsum (map (fun x => qsum (map f (g x))) l))%Q.
  Proof. induction l as [|x l IH]; [reflexivity|]. cbn [flat_map map qsum fold_right]. fold (qsum (map (fun x => qsum (map f (g x))) l)). rewrite map_app, qsum_app, IH. reflexivity. Qed.
  Lemma qsum_ext {A} (f g : A -> Q) l : (forall x, (f x == g x)%Q) -> (qsum (map f l) == qsum (map g l))%Q.
  Proof. intros H. induction l as [|x l IH]; [reflexivity|]. cbn [map qsum fold_right]. fold (qsum (map f l)) (qsum (map g l)). rewrite IH, H. reflexivity. Qed.
  Definition line (i : nat) : Q := qsum (map (area_of i) (zrange (start_of i) (end_of i))).
  Lemma qsum_triples : (qsum (map vol_of triples) == line 0 * line 1 * line 2)%Q.
  Proof.
    unfold triples. rewrite qsum_flat. rewrite (qsum_ext _ (fun cz => area_of 2 cz * (line 0 * line 1))%Q).
    - rewrite (qsum_scale (area_of 2)). fold (line 2). ring.
    - intros cz. rewrite qsum_flat. rewrite (qsum_ext _ (fun cy => area_of 1 cy * (line 0 * area_of 2 cz))%Q).
      + rewrite (qsum_scale (area_of 1)). fold (line 1). ring.
      + intros cy. rewrite map_map. unfold vol_of. cbn [nth]. rewrite (qsum_ext _ (fun cx => area_of 0 cx * (area_of 1 cy * area_of 2 cz))%Q) by (intros; ring). rewrite (qsum_scale (area_of 0)). fold (line 0). ring.
  Qed.
  Lemma tiling : inside m b -> (qsum (map snd (flat_map item_of triples)) == box_volume m b)%Q.
  Proof.
    intros H. rewrite qsum_items, qsum_triples. destruct w_ok as (W & I).
    assert (A : forall i, (i < ndim m)%nat -> (line i == box_hi m b i - box_lo m b i)%Q).
    { intros i L. destruct (H i L) as (H0 & H1 & H2). unfold line, area_of, start_of, end_of. destruct (Nat.ltb_spec i (ndim m)); [|lia]. pose proof (ncd_pos i L) as DN. apply overlap_total; auto.
      assert (D : (domain m i == inject_Z (ncd i) * w)%Q). { unfold domain, ncd, cell_width_fine. rewrite inject_Z_mult. pose proof (inject_pos _ (ncf_pos m)). field. lra. } rewrite <- D. exact H2. }
    assert (B : forall i, (ndim m <= i)%nat -> (line i == 1)%Q). { intros i L. unfold line, area_of, start_of, end_of. destruct (Nat.ltb_spec i (ndim m)); [lia|]. reflexivity. }
    unfold box_volume. pose proof nd_pos as P. destruct (ndim m) as [|[|[|[|n]]]] eqn:En; try lia; cbn [seq map qprod fold_right].
    - rewrite A by lia. rewrite !B by lia. ring.
    - rewrite !A by lia. rewrite !B by lia. ring.
    - rewrite !A by lia. ring.
  Qed.
End Box.
