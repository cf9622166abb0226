(** The candidates of the overlay cells, and finding the cells of particles. *)
From Coq Require Import List Arith ZArith QArith Qminmax Bool Lia Lqa.
Import ListNotations.
From Verif Require Import Base Kernel DeviceFn_Model Mesh_Model Mesh_Spec MeshPos_Proofs MeshNb_Proofs CellRep_Model CellRep_Proofs Overlap_Model OverlapMap_Proofs OverlapClaim_Proofs.
From Verif Require Import Mapper2D_Model Mapper2D_Spec Mapper2DPoly_Proofs Mapper2DCell_Proofs Mapper2DOverlay_Proofs Mapper2DCreate_Proofs.
Open Scope Z_scope.

(** ** Bounding boxes *)
Lemma fold_min l x : (fold_left Qmin l x <= x)%Q /\ forall y, In y l -> (fold_left Qmin l x <= y)%Q.
Proof.
  revert x. induction l as [|z l IH]; intros x; cbn [fold_left]; [split; [lra|intros y []]|]. destruct (IH (Qmin x z)) as (A & B). pose proof (Q.le_min_l x z). pose proof (Q.le_min_r x z). split; [lra|]. intros y [<-|I]; [lra|apply B, I].
Qed.
Lemma fold_max l x : (x <= fold_left Qmax l x)%Q /\ forall y, In y l -> (y <= fold_left Qmax l x)%Q.
Proof.
  revert x. induction l as [|z l IH]; intros x; cbn [fold_left]; [split; [lra|intros y []]|]. destruct (IH (Qmax x z)) as (A & B). pose proof (Q.le_max_l x z). pose proof (Q.le_max_r x z). split; [lra|]. intros y [<-|I]; [lra|apply B, I].
Qed.
Definition bbox (vs : list point) : box := match cell_bounding_box vs with Some b => b | None => [] end.
Definition holds (b : box) (v : point) : Prop := (nth 0 b 0 <= fst v /\ fst v <= nth 3 b 0 /\ nth 1 b 0 <= snd v /\ snd v <= nth 4 b 0)%Q.
Lemma bbox_ok vs : vs <> [] -> cell_bounding_box vs = Some (bbox vs) /\ length (bbox vs) = 6%nat /\ forall v, In v vs -> holds (bbox vs) v.
Proof.
  destruct vs as [|v t]; intros N; [congruence|]. unfold bbox, cell_bounding_box. split; [reflexivity|]. split; [reflexivity|]. intros u I. unfold holds. cbn [nth].
  destruct (fold_min (map fst t) (fst v)) as (A1 & A2). destruct (fold_min (map snd t) (snd v)) as (B1 & B2). destruct (fold_max (map fst t) (fst v)) as (C1 & C2). destruct (fold_max (map snd t) (snd v)) as (D1 & D2).
  destruct I as [<-|I]; [repeat split; assumption|]. repeat split; [apply A2|apply C2|apply B2|apply D2]; apply in_map, I.
Qed.
Definition covers (bb b : box) : Prop := forall i, (i < 3)%nat -> (nth i bb 0 <= nth i b 0 /\ nth (3 + i) b 0 <= nth (3 + i) bb 0)%Q.
Lemma expand_ok bb b : length bb = 6%nat -> length b = 6%nat -> exists r, expand bb b = Some r /\ length r = 6%nat /\ covers r bb /\ covers r b.
Proof.
  intros L1 L2. destruct bb as [|x0 [|x1 [|x2 [|x3 [|x4 [|x5 [|]]]]]]]; try discriminate. destruct b as [|y0 [|y1 [|y2 [|y3 [|y4 [|y5 [|]]]]]]]; try discriminate. eexists. split; [reflexivity|]. split; [reflexivity|].
  split; intros i L; (destruct i as [|[|[|i]]]; [| | |lia]); cbn [nth app Nat.add]; split; auto using Q.le_min_l, Q.le_min_r, Q.le_max_l, Q.le_max_r.
Qed.
Lemma covers_trans a b c : covers a b -> covers b c -> covers a c.
Proof. intros H K i L. destruct (H i L). destruct (K i L). split; lra. Qed.
Lemma covers_refl a : covers a a. Proof. intros i L. split; lra. Qed.
Lemma foldM_expand t b : length b = 6%nat -> (forall x, In x t -> length x = 6%nat) -> exists r, foldM expand b t = Some r /\ length r = 6%nat /\ covers r b /\ forall x, In x t -> covers r x.
Proof.
  revert b. induction t as [|x t IH]; intros b Lb H; cbn [foldM]; [exists b; split; [reflexivity|]; split; [exact Lb|]; split; [apply covers_refl|intros y []]|].
  destruct (expand_ok b x Lb (H x (or_introl eq_refl))) as (r & -> & Lr & C1 & C2). cbn [obind]. destruct (IH r Lr (fun y I => H y (or_intror I))) as (r' & E & Lr' & C3 & C4). exists r'. split; [exact E|]. split; [exact Lr'|]. split; [eapply covers_trans; eauto|]. intros y [<-|I]; [eapply covers_trans; eauto|apply C4, I].
Qed.
Lemma expand_all_ok bs : bs <> [] -> (forall x, In x bs -> length x = 6%nat) -> exists r, expand_all bs = Some r /\ length r = 6%nat /\ forall x, In x bs -> covers r x.
Proof.
  destruct bs as [|b t]; intros N H; [congruence|]. destruct (foldM_expand t b (H b (or_introl eq_refl)) (fun x I => H x (or_intror I))) as (r & E & L & C1 & C2). exists r. split; [exact E|]. split; [exact L|]. intros x [<-|I]; [exact C1|apply C2, I].
Qed.
Lemma convex_three s vs : convex s vs -> exists a b c t, vs = a :: b :: c :: t /\ ~ (cross a b c == 0)%Q.
Proof.
  intros (S & L & H). destruct vs as [|a [|b [|c t]]]; cbn in L; try lia. exists a, b, c, t. split; [reflexivity|]. specialize (H 0%nat 2%nat ltac:(cbn; lia) ltac:(cbn; lia) ltac:(lia)).
  assert (NM : 2%nat <> ((0 + 1) mod length (a :: b :: c :: t))%nat) by (rewrite Nat.mod_small; cbn; lia). specialize (H NM). unfold vert in H. rewrite !Nat.mod_small in H by (cbn; lia). cbn [nth Nat.add] in H. intros X. rewrite X in H. lra.
Qed.
Lemma flat_cross a b c x : (fst a == x -> fst b == x -> fst c == x -> cross a b c == 0)%Q.
Proof. intros A B C. unfold cross. rewrite A, B, C. ring. Qed.
Lemma flat_cross' a b c x : (snd a == x -> snd b == x -> snd c == x -> cross a b c == 0)%Q.
Proof. intros A B C. unfold cross. rewrite A, B, C. ring. Qed.
Lemma holds_wide bb s vs : convex s vs -> (forall v, In v vs -> holds bb v) -> (nth 0 bb 0 < nth 3 bb 0 /\ nth 1 bb 0 < nth 4 bb 0)%Q.
Proof.
  intros C H. destruct (convex_three s vs C) as (a & b & c & t & -> & X). destruct (H a ltac:(cbn; auto)) as (A1 & A2 & A3 & A4). destruct (H b ltac:(cbn; auto)) as (B1 & B2 & B3 & B4). destruct (H c ltac:(cbn; auto)) as (C1 & C2 & C3 & C4). split; apply Qnot_le_lt; intros Y; apply X.
  - apply (flat_cross a b c (nth 0 bb 0%Q)); lra.
  - apply (flat_cross' a b c (nth 1 bb 0%Q)); lra.
Qed.
Lemma holds_within b s vs p : convex s vs -> (forall v, In v vs -> holds b v) -> within s vs p -> holds b p.
Proof.
  intros C H W. pose proof (fun k l => within_bound s vs p k l C W) as K. unfold lin in K. destruct (K 1 0)%Q as (v1 & I1 & L1). destruct (K (-1) 0)%Q as (v2 & I2 & L2). destruct (K 0 1)%Q as (v3 & I3 & L3). destruct (K 0 (-1))%Q as (v4 & I4 & L4).
  destruct (H v1 I1) as (X1 & _). destruct (H v2 I2) as (_ & X2 & _). destruct (H v3 I3) as (_ & _ & X3 & _). destruct (H v4 I4) as (_ & _ & _ & X4). unfold holds. repeat split; lra.
Qed.
Lemma holds_covers bb b v : covers bb b -> holds b v -> holds bb v.
Proof. intros C (A & B & D & E). destruct (C 0%nat ltac:(lia)). destruct (C 1%nat ltac:(lia)). cbn [Nat.add] in *. unfold holds. repeat split; lra. Qed.

(** ** Candidates *)
Definition got (m : zmap (list nat)) (o : Z) : list nat := match map_get m o with Some l => l | None => [] end.
Lemma got_push m ox k o : got (push_back m ox k) o = got m o ++ (if (o =? ox)%Z then [k] else []).
Proof. unfold got, push_back. rewrite map_get_set. destruct (Z.eqb_spec o ox) as [->|N]; [reflexivity|]. rewrite app_nil_r. reflexivity. Qed.
Definition mem (o : Z) (l : list Z) : bool := existsb (Z.eqb o) l.
Lemma mem_in o l : mem o l = true <-> In o l.
Proof. unfold mem. rewrite existsb_exists. split; [intros (x & I & E); apply Z.eqb_eq in E; subst; exact I|intros I; exists o; split; [exact I|apply Z.eqb_refl]]. Qed.
Lemma got_pushes ocs k : NoDup ocs -> forall m o, got (fold_left (fun m ox => push_back m ox k) ocs m) o = got m o ++ (if mem o ocs then [k] else []).
Proof.
  induction 1 as [|x l NI N IH]; intros m o; cbn [fold_left]; [cbn; rewrite app_nil_r; reflexivity|]. rewrite IH, got_push, <- app_assoc. f_equal. cbn [mem existsb]. fold (mem o l). destruct (Z.eqb_spec o x) as [->|D]; cbn [orb app]; [|reflexivity]. destruct (mem x l) eqn:M; [apply mem_in in M; contradiction|reflexivity].
Qed.
Lemma candidates_ok (f : box -> option (list Z)) (l : list (nat * box)) : (forall ib, In ib l -> exists ocs, f (snd ib) = Some ocs /\ NoDup ocs) -> forall m0,
  exists m, foldM (fun m ib => ocs <- f (snd ib) ;; Some (fold_left (fun m ox => push_back m ox (fst ib)) ocs m)) m0 l = Some m /\
    forall o, got m o = got m0 o ++ map fst (filter (fun ib => match f (snd ib) with Some ocs => mem o ocs | None => false end) l).
Proof.
  induction l as [|ib l IH]; intros H m0; cbn [foldM]; [exists m0; split; [reflexivity|intros; cbn; rewrite app_nil_r; reflexivity]|].
  destruct (H ib (or_introl eq_refl)) as (ocs & E & N). rewrite E. cbn [obind]. destruct (IH (fun x I => H x (or_intror I)) (fold_left (fun m ox => push_back m ox (fst ib)) ocs m0)) as (m & F & G). exists m. split; [exact F|]. intros o. rewrite G, got_pushes, <- app_assoc by exact N. f_equal. cbn [filter]. rewrite E. destruct (mem o ocs); reflexivity.
Qed.

(** ** The mapper *)
Definition assign (p : point) (cells : list cell2d) (old : Z * Z) : Z * Z :=
  fold_left (fun r c => if point_in_cell p (c_verts c) then (c_id c, c_rank c) else r) cells old.
(** Leaving out cells that fail the test changes nothing. *)
Lemma fold_filtered (cs : list cell2d) (p : point) (keep : nat * box -> bool) : forall pre bs old,
  length bs = length cs ->
  (forall i b, nth_error bs i = Some b -> keep ((length pre + i)%nat, b) = false -> match nth_error cs i with Some c => point_in_cell p (c_verts c) = false | None => True end) ->
  foldM (fun r cx => cell <- rd (pre ++ cs) cx ;; Some (if point_in_cell p (c_verts cell) then (c_id cell, c_rank cell) else r)) old
    (map fst (filter keep (List.combine (seq (length pre) (length cs)) bs))) = Some (assign p cs old).
Proof.
  induction cs as [|c cs IH]; intros pre bs old L H; [reflexivity|]. destruct bs as [|b bs]; [discriminate|]. cbn [length seq List.combine filter].
  assert (App : pre ++ c :: cs = (pre ++ [c]) ++ cs) by (rewrite <- app_assoc; reflexivity).
  assert (Len : S (length pre) = length (pre ++ [c])) by (rewrite app_length; cbn; lia).
  assert (H' : forall i b0, nth_error bs i = Some b0 -> keep ((length (pre ++ [c]) + i)%nat, b0) = false -> match nth_error cs i with Some c => point_in_cell p (c_verts c) = false | None => True end).
  { intros i b0 E K. apply (H (S i) b0 E). rewrite <- Len in K. replace (length pre + S i)%nat with (S (length pre) + i)%nat by lia. exact K. }
  assert (L' : length bs = length cs) by (cbn in L; lia).
  unfold assign. cbn [fold_left]. destruct (keep (length pre, b)) eqn:K.
  - cbn [map fst foldM]. unfold rd at 1. rewrite nth_error_app2 by lia. rewrite Nat.sub_diag. cbn [nth_error obind]. rewrite App, Len. apply (IH (pre ++ [c]) bs _ L' H').
  - pose proof (H 0%nat b eq_refl) as X. rewrite Nat.add_0_r in X. specialize (X K). cbn [nth_error] in X. rewrite X. rewrite App, Len. apply (IH (pre ++ [c]) bs _ L' H').
Qed.
Lemma mapper_ok cells : cells <> [] -> (forall c, In c cells -> exists s, convex s (c_verts c)) ->
  exists mp, make_mapper cells = Some mp /\ forall p old, map_particle mp p old = Some (assign p cells old).
Proof.
  intros NE HC. unfold make_mapper.
  assert (A : forallb (fun c => (length (c_verts c) =? 3)%nat || (length (c_verts c) =? 4)%nat) cells = true).
  { apply forallb_forall. intros c I. destruct (HC c I) as (s & _ & L & _). apply orb_true_iff. rewrite !Nat.eqb_eq. exact L. }
  rewrite A. cbn [assert obind].
  assert (NV : forall c, In c cells -> c_verts c <> []). { intros c I. destruct (HC c I) as (s & C). destruct (convex_three s _ C) as (a & b & d & t & -> & _). discriminate. }
  rewrite (OverlapClaim_Proofs.mapM_map _ (fun c => bbox (c_verts c)) cells) by (intros c I; apply bbox_ok, NV, I). cbn [obind].
  set (bs := map (fun c => bbox (c_verts c)) cells).
  destruct (expand_all_ok bs) as (bb & Eb & Lb & Cv). { unfold bs. destruct cells; [congruence|discriminate]. } { intros x I. apply in_map_iff in I. destruct I as (c & <- & I). apply bbox_ok, NV, I. }
  rewrite Eb. cbn [obind].
  assert (Hh : forall c, In c cells -> forall v, In v (c_verts c) -> holds bb v). { intros c I v J. apply (holds_covers bb (bbox (c_verts c))); [apply Cv, in_map_iff; exists c; auto|apply bbox_ok; [apply NV, I|exact J]]. }
  assert (W : (nth 0 bb 0 < nth 3 bb 0 /\ nth 1 bb 0 < nth 4 bb 0)%Q). { destruct cells as [|c0 cs]; [congruence|]. destruct (HC c0 (or_introl eq_refl)) as (s & C). apply (holds_wide bb s (c_verts c0) C). apply Hh. left. reflexivity. }
  destruct (create_ok 2 bb (Z.of_nat (length cells)) Lb ltac:(lia)) as (ov & Eo & Ho & Nd & OX & _). { intros [|[|i]] L; [apply W|apply W|lia]. }
  rewrite Eo. cbn [obind].
  destruct (OX 0%nat ltac:(lia)) as (O0 & X0). destruct (OX 1%nat ltac:(lia)) as (O1 & X1). cbn [Nat.add] in X0, X1.
  assert (BI : forall c, In c cells -> box_inside ov (bbox (c_verts c))).
  { intros c I. split; [apply bbox_ok, NV, I|]. rewrite Nd. assert (Cc : covers bb (bbox (c_verts c))) by (apply Cv, in_map_iff; exists c; auto). destruct (HC c I) as (s & C). pose proof (holds_wide (bbox (c_verts c)) s _ C ltac:(apply bbox_ok, NV, I)) as (W0 & W1). intros i L. destruct (Cc i ltac:(lia)) as (Y1 & Y2). unfold b_lo, b_hi. destruct i as [|[|i]]; [| |lia]; cbn [Nat.add] in *; rewrite ?O0, ?X0, ?O1, ?X1; repeat split; lra. }
  destruct (candidates_ok (get_intersecting_cells ov) (List.combine (seq 0 (length cells)) bs)) with (m0 := @nil (Z * list nat)) as (m & Ec & G).
  { intros (i, b) I. apply in_combine_r in I. apply in_map_iff in I. destruct I as (c & <- & I). destruct (intersecting ov (bbox (c_verts c)) Ho (or_intror Nd) (BI c I)) as (ocs & E & N & _). exists ocs. split; [exact E|exact N]. }
  rewrite Ec. cbn [obind]. eexists. split; [reflexivity|]. intros p old. unfold map_particle. cbn [mp_overlay mp_candidates mp_cells].
  rewrite !mapper_cell_ok by (assumption || lia). cbn [obind]. set (c0 := clamp (cnt ov 0) _). set (c1 := clamp (cnt ov 1) _). rewrite (linear2 ov Ho c0 c1 Nd). cbn [obind]. fold (got m (c1 * cnt ov 0 + c0)). rewrite G. cbn [got map_get app].
  apply (fold_filtered cells p _ [] bs old); [unfold bs; apply map_length|].
  intros i b E K. destruct (nth_error cells i) as [c|] eqn:Ei; [|trivial]. cbn [snd] in K. unfold bs in E. rewrite nth_error_map, Ei in E. cbn in E. injection E as <-. apply nth_error_In in Ei.
  destruct (point_in_cell p (c_verts c)) eqn:T; [exfalso|reflexivity]. destruct (HC c Ei) as (s & C). apply (cell_test s (c_verts c) p C) in T.
  pose proof (holds_within (bbox (c_verts c)) s _ p C ltac:(apply bbox_ok, NV, Ei) T) as HB. pose proof (holds_covers bb _ p ltac:(apply Cv, in_map_iff; exists c; auto) HB) as (P0 & P1 & P2 & P3). destruct HB as (Q0 & Q1 & Q2 & Q3).
  destruct (intersecting ov (bbox (c_verts c)) Ho (or_intror Nd) (BI c Ei)) as (ocs & Eo' & _ & IN & _). rewrite Eo' in K. enough (mem (c1 * cnt ov 0 + c0) ocs = true) by congruence. apply mem_in.
  assert (D0 := cell_contains (o_width ov 0) (1 / o_width ov 0) (cnt ov 0) (width_pos ov Ho 0 ltac:(lia)) (inv_ok ov Ho 0 ltac:(lia)) (cnt_pos ov Ho 0 ltac:(lia)) (fst p - nth 0 (o_origin ov) 0)%Q).
  assert (D1 := cell_contains (o_width ov 1) (1 / o_width ov 1) (cnt ov 1) (width_pos ov Ho 1 ltac:(lia)) (inv_ok ov Ho 1 ltac:(lia)) (cnt_pos ov Ho 1 ltac:(lia)) (snd p - nth 1 (o_origin ov) 0)%Q).
  fold c0 in D0. fold c1 in D1. rewrite (ext_ok ov Ho 0 ltac:(lia)) in D0. rewrite (ext_ok ov Ho 1 ltac:(lia)) in D1. cbv zeta in D0, D1. destruct D0 as ((D0 & D0') & _); [rewrite O0; lra|rewrite O0, X0; lra|]. destruct D1 as ((D1 & D1') & _); [rewrite O1; lra|rewrite O1, X1; lra|].
  pose proof (clamp_in (cnt ov 0) (Qtrunc ((fst p - nth 0 (o_origin ov) 0) * (1 / o_width ov 0))%Q) (cnt_pos ov Ho 0 ltac:(lia))) as R0. pose proof (clamp_in (cnt ov 1) (Qtrunc ((snd p - nth 1 (o_origin ov) 0) * (1 / o_width ov 1))%Q) (cnt_pos ov Ho 1 ltac:(lia))) as R1. fold c0 in R0. fold c1 in R1.
  replace (c1 * cnt ov 0 + c0) with (overlay_index ov [c0; c1]).
  - apply IN.
    + unfold overlay_cell, in_box. assert (Lc : length (o_counts ov) = 2%nat) by (rewrite <- Nd; apply Ho). unfold cnt in R0, R1. clearbody c0 c1. destruct (o_counts ov) as [|n0 [|n1 [|]]]; try discriminate. cbn [nth] in R0, R1. repeat constructor; lia.
    + intros j L. rewrite Nd in L. unfold o_lo, o_hi, b_lo, b_hi. destruct j as [|[|j]]; [| |lia]; cbn [nth Nat.add]; split; lra.
  - unfold overlay_index, linear_index, cnt. assert (Lc : length (o_counts ov) = 2%nat) by (rewrite <- Nd; apply Ho). clearbody c0 c1. destruct (o_counts ov) as [|n0 [|n1 [|]]]; try discriminate. unfold zprod. cbn [length seq map nth firstn fold_right]. lia.
Qed.
(** What the last matching cell is. *)
Lemma assign_last p cells : forall old,
  (assign p cells old = old /\ (forall c, In c cells -> point_in_cell p (c_verts c) = false)) \/
  exists k c, nth_error cells k = Some c /\ point_in_cell p (c_verts c) = true /\ assign p cells old = (c_id c, c_rank c) /\
    forall k' c', (k < k')%nat -> nth_error cells k' = Some c' -> point_in_cell p (c_verts c') = false.
Proof.
  induction cells as [|c cells IH]; intros old; [left; split; [reflexivity|intros ? []]|]. unfold assign. cbn [fold_left]. fold (assign p cells (if point_in_cell p (c_verts c) then (c_id c, c_rank c) else old)).
  destruct (IH (if point_in_cell p (c_verts c) then (c_id c, c_rank c) else old)) as [(E & N)|(k & d & E & T & A & L)].
  - destruct (point_in_cell p (c_verts c)) eqn:T.
    + right. exists 0%nat, c. split; [reflexivity|]. split; [exact T|]. split; [exact E|]. intros [|k'] c' G X; [lia|]. cbn in X. apply N. eapply nth_error_In, X.
    + left. split; [exact E|]. intros d [<-|I]; [exact T|apply N, I].
  - right. exists (S k), d. split; [exact E|]. split; [exact T|]. split; [exact A|]. intros [|k'] c' G X; [lia|]. apply (L k' c'); [lia|exact X].
Qed.
