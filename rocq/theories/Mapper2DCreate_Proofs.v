(** Creating the overlay mesh. *)
From Coq Require Import List Arith ZArith QArith Qminmax Bool Lia Lqa.
Import ListNotations.
From Verif Require Import Base Kernel DeviceFn_Model Mesh_Model Mesh_Spec MeshPos_Proofs Overlap_Model OverlapMap_Proofs Mapper2D_Model Mapper2D_Spec Mapper2DOverlay_Proofs.
Open Scope Z_scope.

Lemma max_location_ok ws : ws <> [] -> exists i, max_location ws = Some i /\ (i < length ws)%nat /\ forall j, (j < length ws)%nat -> (nth j ws 0 <= nth i ws 0)%Q.
Proof.
  induction ws as [|w t IH]; intros N; [congruence|]. cbn [max_location]. destruct t as [|w2 t].
  - exists 0%nat. cbn. split; [reflexivity|]. split; [lia|]. intros [|j] L; [lra|cbn in L; lia].
  - destruct (IH ltac:(discriminate)) as (i & E & L & M). rewrite E. rewrite (rd_nth (w2 :: t) i 0%Q L). cbn [obind]. unfold rlt. destruct (Qle_bool (nth i (w2 :: t) 0%Q) w) eqn:Q1.
    + apply Qle_bool_iff in Q1. exists 0%nat. split; [reflexivity|]. split; [cbn; lia|]. intros [|j] Lj; [cbn; lra|]. specialize (M j ltac:(cbn in Lj |- *; lia)). cbn [nth] in M |- *. cbn [nth] in Q1. lra.
    + assert (Q2 : (w < nth i (w2 :: t) 0)%Q) by (apply Qnot_le_lt; intros X; apply Qle_bool_iff in X; congruence). exists (S i). split; [reflexivity|]. split; [cbn in L |- *; lia|]. intros [|j] Lj; [cbn [nth] in Q2 |- *; lra|]. apply M. cbn in Lj |- *; lia.
Qed.
Lemma upd_set {A} (l : list A) i v d : (i < length l)%nat -> exists l', upd l i v = Some l' /\ length l' = length l /\ nth i l' d = v /\ forall j, j <> i -> nth j l' d = nth j l d.
Proof.
  revert i. induction l as [|x l IH]; intros [|i] L; cbn in L; try lia.
  - exists (v :: l). cbn. repeat split; auto. intros [|j] N; [congruence|reflexivity].
  - destruct (IH i ltac:(lia)) as (l' & E & L' & N & O). exists (x :: l'). cbn [upd]. rewrite E. cbn. repeat split; auto. intros [|j] NJ; [reflexivity|]. apply O. lia.
Qed.
Lemma prod_upd l i c l' : rd l i = Some c -> upd l i (c * 2) = Some l' -> fold_right Z.mul 1 l' = 2 * fold_right Z.mul 1 l.
Proof.
  revert i l'. induction l as [|x l IH]; intros [|i] l' R U; cbn in R, U; try discriminate.
  - injection R as <-. injection U as <-. cbn [fold_right]. ring.
  - destruct (upd l i (c * 2)) as [l2|] eqn:E; [|discriminate]. cbn in U. injection U as <-. cbn [fold_right]. rewrite (IH i l2 R E). ring.
Qed.
Definition wd (ext : list Q) (counts : list Z) (i : nat) : Q := (nth i ext 0 / inject_Z (nth i counts 0%Z))%Q.
Lemma nth_pos counts i : Forall (fun c => 0 < c) counts -> (i < length counts)%nat -> 0 < nth i counts 0.
Proof. intros F L. rewrite Forall_forall in F. apply F, nth_In, L. Qed.
Lemma wd_pos ext counts i : Forall (fun e => (0 < e)%Q) ext -> Forall (fun c => 0 < c) counts -> length ext = length counts -> (i < length counts)%nat -> (0 < wd ext counts i)%Q.
Proof. intros F G E L. unfold wd. pose proof (nth_pos counts i G L). rewrite Forall_forall in F. pose proof (F (nth i ext 0%Q) ltac:(apply nth_In; lia)). apply Qlt_shift_div_l; [apply inject_pos; assumption|lra]. Qed.
Lemma widths_nth ext counts i : length ext = length counts -> (i < length counts)%nat -> nth i (map (fun ec => fst ec / inject_Z (snd ec))%Q (List.combine ext counts)) 0%Q = wd ext counts i.
Proof.
  intros E L. unfold wd. rewrite (nth_indep _ 0%Q ((fun ec => fst ec / inject_Z (snd ec))%Q (0%Q, 0))) by (rewrite map_length, combine_length; lia). rewrite (map_nth (fun ec : Q * Z => fst ec / inject_Z (snd ec))%Q), combine_nth by assumption. reflexivity.
Qed.
(** Every dimension that has been split has cells at least half as wide as those of any other dimension. *)
Definition even (ext : list Q) (counts : list Z) : Prop := forall i j, (i < length counts)%nat -> (j < length counts)%nat -> nth i counts 0 = 1 \/ (wd ext counts j <= 2 * wd ext counts i)%Q.
Lemma refine_ok fuel ext n counts : counts <> [] -> length ext = length counts -> Forall (fun e => (0 < e)%Q) ext -> Forall (fun c => 0 < c) counts ->
  n <= fold_right Z.mul 1 counts + Z.of_nat fuel -> even ext counts ->
  exists counts', refine fuel ext n counts = Some counts' /\ length counts' = length counts /\ Forall (fun c => 0 < c) counts' /\
    n <= fold_right Z.mul 1 counts' /\ (counts' = counts \/ fold_right Z.mul 1 counts' < 2 * n) /\ even ext counts'.
Proof.
  revert counts. induction fuel as [|f IH]; intros counts NE E FE FC B EV; cbn [refine]; destruct (Z.ltb_spec (fold_right Z.mul 1 counts) n) as [L|L].
  - lia.
  - exists counts. auto 10.
  - set (ws := map (fun ec => fst ec / inject_Z (snd ec))%Q (List.combine ext counts)). assert (Lw : length ws = length counts) by (unfold ws; rewrite map_length, combine_length; lia).
    destruct (max_location_ok ws) as (m & Em & Lm & M); [destruct counts; [congruence|]; destruct ws; [discriminate|discriminate]|]. rewrite Em. cbn [obind]. rewrite Lw in Lm, M. rewrite (rd_nth counts m 0 Lm). cbn [obind].
    destruct (upd_set counts m (nth m counts 0 * 2) 0 Lm) as (c' & U & Lc & Nm & No). rewrite U. cbn [obind].
    pose proof (prod_upd counts m _ c' (rd_nth counts m 0 Lm) U) as P.
    assert (P0 : 0 < fold_right Z.mul 1 counts) by (clear - FC; induction FC; cbn; [lia|nia]).
    assert (FC' : Forall (fun c => 0 < c) c').
    { apply Forall_forall. intros x I. apply (In_nth _ _ 0) in I. destruct I as (j & Lj & <-). destruct (Nat.eq_dec j m) as [->|D]; [rewrite Nm; pose proof (nth_pos counts m FC Lm); lia|rewrite No by assumption; apply nth_pos; [assumption|lia]]. }
    assert (W1 : forall j, (j < length counts)%nat -> (wd ext c' j <= wd ext counts j)%Q).
    { intros j Lj. destruct (Nat.eq_dec j m) as [->|D]; [|unfold wd; rewrite No by assumption; lra]. pose proof (wd_pos ext counts m FE FC E Lm) as PW. unfold wd in *. rewrite Nm. pose proof (inject_pos _ (nth_pos counts m FC Lm)). rewrite inject_Z_mult. setoid_replace (nth m ext 0 / (inject_Z (nth m counts 0%Z) * inject_Z 2))%Q with ((1 # 2) * (nth m ext 0 / inject_Z (nth m counts 0%Z)))%Q by (change (inject_Z 2) with 2%Q; field; lra). lra. }
    assert (W2 : (wd ext counts m == 2 * wd ext c' m)%Q).
    { unfold wd. rewrite Nm. pose proof (inject_pos _ (nth_pos counts m FC Lm)). rewrite inject_Z_mult. change (inject_Z 2) with 2%Q. field. lra. }
    assert (EV' : even ext c').
    { intros i j Li Lj. rewrite Lc in Li, Lj. destruct (Nat.eq_dec i m) as [->|D].
      - right. pose proof (W1 j Lj). pose proof (M j Lj) as Mj. unfold ws in Mj. rewrite !widths_nth in Mj by assumption. lra.
      - rewrite No by assumption. destruct (EV i j Li Lj) as [X|X]; [left; exact X|right]. pose proof (W1 j Lj). assert (wd ext c' i = wd ext counts i) as -> by (unfold wd; rewrite No by assumption; reflexivity). lra. }
    destruct (IH c') as (c2 & R & L2 & F2 & G2 & H2 & E2); [intros ->; destruct counts; [congruence|discriminate]|congruence|assumption|assumption|lia|assumption|]. exists c2. split; [exact R|]. split; [congruence|]. split; [exact F2|]. split; [exact G2|]. split; [|exact E2]. right. destruct H2 as [->|H2]; lia.
  - exists counts. auto 10.
Qed.
Lemma prod_ones nd : fold_right Z.mul 1 (repeat 1 nd) = 1.
Proof. induction nd as [|nd IH]; [reflexivity|]. cbn [repeat fold_right]. rewrite IH. reflexivity. Qed.
Lemma nth_ones nd i : (i < nd)%nat -> nth i (repeat 1 nd) 0 = 1.
Proof. revert i. induction nd as [|nd IH]; intros [|i] L; try lia; [reflexivity|]. apply IH. lia. Qed.

Lemma create_ok nd b n : length b = 6%nat -> (1 <= nd <= 3)%nat -> (forall i, (i < nd)%nat -> (nth i b 0 < nth (3 + i) b 0)%Q) ->
  exists ov, create_overlay_mesh nd b n = Some ov /\ overlay_ok ov /\ o_ndim ov = nd /\
    (forall i, (i < nd)%nat -> nth i (o_origin ov) 0%Q = nth i b 0%Q /\ nth i (o_extents ov) 0%Q = (nth (3 + i) b 0 - nth i b 0)%Q) /\
    n <= zprod (o_counts ov) /\ (zprod (o_counts ov) = 1 \/ zprod (o_counts ov) < 2 * n) /\
    forall i j, (i < nd)%nat -> (j < nd)%nat -> nth i (o_counts ov) 0 = 1 \/ (o_width ov j <= 2 * o_width ov i)%Q.
Proof.
  intros L6 Hnd H. unfold create_overlay_mesh.
  assert (ML : mapM (lower b) (seq 0 nd) = Some (map (fun i => nth i b 0%Q) (seq 0 nd)) /\ mapM (upper b) (seq 0 nd) = Some (map (fun i => nth (3 + i) b 0%Q) (seq 0 nd))).
  { destruct b as [|b0 [|b1 [|b2 [|b3 [|b4 [|b5 [|]]]]]]]; try discriminate. destruct nd as [|[|[|[|]]]]; try lia; split; reflexivity. }
  destruct ML as (-> & ->). cbn [obind]. set (org := map (fun i => nth i b 0%Q) (seq 0 nd)). set (up := map (fun i => nth (3 + i) b 0%Q) (seq 0 nd)). set (ext := map (fun p => snd p - fst p)%Q (List.combine org up)).
  assert (Lo : length org = nd) by (unfold org; rewrite map_length, seq_length; reflexivity). assert (Lu : length up = nd) by (unfold up; rewrite map_length, seq_length; reflexivity). assert (Le : length ext = nd) by (unfold ext; rewrite map_length, combine_length; lia).
  assert (NO : forall i, (i < nd)%nat -> nth i org 0%Q = nth i b 0%Q). { intros i L. unfold org. rewrite (nth_indep _ 0%Q ((fun i => nth i b 0%Q) 0%nat)) by (rewrite map_length, seq_length; exact L). rewrite (map_nth (fun i => nth i b 0%Q)), seq_nth by exact L. reflexivity. }
  assert (NU : forall i, (i < nd)%nat -> nth i up 0%Q = nth (3 + i) b 0%Q). { intros i L. unfold up. rewrite (nth_indep _ 0%Q ((fun i => nth (3 + i) b 0%Q) 0%nat)) by (rewrite map_length, seq_length; exact L). rewrite (map_nth (fun i => nth (3 + i) b 0%Q)), seq_nth by exact L. reflexivity. }
  assert (NX : forall i, (i < nd)%nat -> nth i ext 0%Q = (nth (3 + i) b 0 - nth i b 0)%Q).
  { intros i L. unfold ext. rewrite (nth_indep _ 0%Q ((fun p => snd p - fst p)%Q (0%Q, 0%Q))) by (rewrite map_length, combine_length; lia). rewrite (map_nth (fun p : Q * Q => snd p - fst p)%Q), combine_nth by lia. cbn [fst snd]. rewrite NO, NU by exact L. reflexivity. }
  assert (FE : Forall (fun e => (0 < e)%Q) ext). { apply Forall_forall. intros x I. apply (In_nth _ _ 0%Q) in I. destruct I as (i & L & <-). rewrite NX by lia. pose proof (H i ltac:(lia)). lra. }
  destruct (refine_ok (Z.to_nat n) ext n (repeat 1 nd)) as (cs & R & Lc & FC & G & D & EV).
  { destruct nd; [lia|discriminate]. } { rewrite repeat_length. exact Le. } { exact FE. } { apply Forall_forall. intros x I. apply repeat_spec in I. lia. } { rewrite prod_ones. lia. } { intros i j Li _. left. rewrite repeat_length in Li. apply nth_ones, Li. }
  rewrite repeat_length in Lc. rewrite R. cbn [obind]. unfold make_overlay. rewrite Lo, Le, Lc, Nat.eqb_refl. cbn [andb assert obind].
  assert (A1 : forallb (fun e => rlt 0 e) ext = true). { apply forallb_forall. intros x I. rewrite Forall_forall in FE. specialize (FE x I). unfold rlt. destruct (Qle_bool x 0) eqn:Q1; [apply Qle_bool_iff in Q1; lra|reflexivity]. }
  assert (A2 : forallb (fun c => 0 <? c) cs = true). { apply forallb_forall. intros x I. rewrite Forall_forall in FC. apply Z.ltb_lt, FC, I. }
  rewrite A1, A2. cbn [andb assert obind]. eexists. split; [reflexivity|]. split; [unfold overlay_ok; cbn; auto|]. split; [reflexivity|]. cbn [o_origin o_extents o_counts]. split; [intros i L; split; [apply NO|apply NX]; exact L|]. split; [exact G|]. split; [destruct D as [->|D]; [left; apply prod_ones|right; exact D]|].
  intros i j Li Lj. apply (EV i j); lia.
Qed.
