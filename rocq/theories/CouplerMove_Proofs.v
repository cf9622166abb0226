(** The transfers. *)
From Coq Require Import List Arith ZArith QArith Bool Lia Permutation.
Import ListNotations.
From Verif Require Import Base Kernel Bmi_Model Bmi_Spec Bmi_Proofs DG0_Proofs Coupler_Model Coupler_Spec Coupler_Proofs CouplerBuild_Proofs.
Local Open Scope nat_scope.

Lemma mapM_prop {A} (f : nat -> option A) (P : nat -> A -> Prop) R : (forall r, r < R -> exists y, f r = Some y /\ P r y) -> exists l, mapM f (seq 0 R) = Some l /\ length l = R /\ forall r, r < R -> exists y, nth_error l r = Some y /\ P r y.
Proof.
  intros H. destruct (mapM_total f (seq 0 R)) as (l & E). { intros r I. apply in_seq in I. destruct (H r) as (y & Ey & _); [lia|eauto]. }
  exists l. split; [exact E|]. pose proof (mapM_length _ _ _ E) as L. rewrite seq_length in L. split; [exact L|]. intros r Lr. destruct (H r Lr) as (y & Ey & Py). exists y. split; [|exact Py]. rewrite <- (mapM_nth _ _ _ r r E); [exact Ey|]. rewrite nth_error_seq. destruct (Nat.ltb_spec r R); [reflexivity|lia].
Qed.
Lemma arrays_nth n counts dofs r : arrays_ok n counts dofs -> r < length counts -> rd dofs r = Some (nth r dofs []) /\ nth r counts 0 * n <= length (nth r dofs []).
Proof. intros H. revert r. unfold rd. induction H as [|c a counts dofs Hc _ IH]; intros [|r] L; cbn in *; try lia; [auto|]. apply IH. lia. Qed.
Lemma part_map {A} (P : list A) (g : A -> nat) (row : A -> list Q) (h : A -> Q) c i : (forall p, In p P -> nth i (row p) 0%Q = h p) -> part (map (fun p => (g p, row p)) P) c i = sumq (map h (filter (fun p => g p =? c) P)).
Proof.
  unfold part. induction P as [|p P IH]; intros H; [reflexivity|]. cbn [map filter fst]. destruct (g p =? c); cbn [map snd]; [|apply IH; intros; apply H; right; assumption]. unfold DG0_Spec.qsum, sumq in *. cbn [fold_right]. rewrite H by (left; reflexivity). rewrite IH by (intros; apply H; right; assumption). reflexivity.
Qed.
Lemma nth_map_q (h : nat -> Q) n i : i < n -> nth i (map h (seq 0 n)) 0%Q = h i.
Proof. intros H. apply nth_error_nth. rewrite nth_error_map, nth_error_seq. destruct (Nat.ltb_spec i n); [reflexivity|lia]. Qed.
Lemma nthe_map_q (h : nat -> Q) n i : i < n -> nth_error (map h (seq 0 n)) i = Some (h i).
Proof. intros H. rewrite nth_error_map, nth_error_seq. destruct (Nat.ltb_spec i n); [reflexivity|lia]. Qed.

Section World.
  Variables (owner number : Z -> nat) (b : mesh_b) (maps : list cmap) (graphs : list graph) (n : nat) (sends recvs dofs_A dofs_B : list (list Q)).
  Hypothesis Hm : mesh_ok owner number b maps.
  Hypothesis Hg : graphs_ok owner maps graphs.
  Hypothesis Hn : 1 <= n.
  Hypothesis Ls : length sends = length maps.
  Hypothesis Lr : length recvs = length maps.
  Hypothesis HA : arrays_ok n (map (@length (list entry)) maps) dofs_A.
  Hypothesis HB : arrays_ok n (b_count b) dofs_B.
  Let R := length maps.
  Let bk := blk owner maps.
  Let gh := gr graphs.
  Let ks := map (made owner number b maps graphs) (seq 0 R).
  Let A r := nth r dofs_A [].
  Let B r := nth r dofs_B [].

  Lemma A_ok r : r < R -> rd dofs_A r = Some (A r) /\ length (nth r maps []) * n <= length (A r).
  Proof. intros H. destruct (arrays_nth n _ dofs_A r HA) as (E & L); [rewrite map_length; exact H|]. split; [exact E|]. change 0 with (length (@nil (list entry))) in L. rewrite map_nth in L. exact L. Qed.
  Lemma B_ok r : r < R -> rd dofs_B r = Some (B r) /\ nth r (b_count b) 0 * n <= length (B r).
  Proof. intros H. apply arrays_nth; [exact HB|]. destruct Hm as (E & _). rewrite E. exact H. Qed.
  Lemma rd_ks r : r < R -> rd ks r = Some (made owner number b maps graphs r).
  Proof. apply rd_map. Qed.
  Lemma nth_ks {T} (f : coupler -> T) r : r < R -> nth_error (map f ks) r = Some (f (made owner number b maps graphs r)).
  Proof. intros H. rewrite nth_error_map. change (nth_error ks r) with (rd ks r). rewrite rd_ks by exact H. reflexivity. Qed.
  Lemma len_sum s l : length (flat_map (bk s) l) = list_sum (map (fun d => length (bk s d)) l).
  Proof. apply flat_map_len. Qed.
  Lemma scb_rcf r : r < R -> list_sum (scb owner maps graphs r) = list_sum (rcf owner maps graphs r).
  Proof. intros H. apply list_sum_perm, Permutation_map. apply (graph_ok owner maps graphs Hg r H). Qed.
  Lemma prep_len k s : n * k_base k <= length (prepare k n s).
  Proof. unfold prepare. rewrite app_length, repeat_length. lia. Qed.

  (** The rows that are sent. *)
  Definition fval (r : nat) (p : nat * entry) : list Q := map (fun dx => coef n (A r) (fst p) dx * e_fwd (snd p))%Q (seq 0 n).
  Definition bval (r : nat) (p : nat * entry) : list Q := map (fun dx => coef n (B r) (number (e_cell (snd p))) dx) (seq 0 n).
  Lemma fval_len r p : length (fval r p) = n.
  Proof. unfold fval. rewrite map_length. apply seq_length. Qed.
  Lemma bval_len r p : length (bval r p) = n.
  Proof. unfold bval. rewrite map_length. apply seq_length. Qed.

  Lemma forward_ok : exists out, forward_transfer ks n sends recvs dofs_A dofs_B = Some out /\ length out = R /\
    forall r, r < R -> length (nth r out []) = length (B r) /\ forall cell i, cell < nth r (b_count b) 0 -> i < n -> (coef n (nth r out []) cell i == forward_value owner number maps dofs_A n r cell i)%Q.
  Proof.
    unfold forward_transfer. assert (Lk : length ks = R) by (unfold ks; rewrite map_length; apply seq_length). rewrite Lk. destruct (Nat.ltb_spec 0 n); [|lia]. cbn [assert obind].
    destruct (mapM_prop (fun r => k <- rd ks r ;; s <- rd sends r ;; a <- rd dofs_A r ;; b0 <- rd dofs_B r ;;
      _ <- assert (k_nA k * n <=? length a) ;; _ <- assert (k_nB k * n <=? length b0) ;;
      write_rows n (length (k_cfA k)) (fun ix dx => index_A <- rd (k_cfA k) ix ;; w <- rd (k_wfA k) ix ;; v <- rd a (index_A * n + dx) ;; Some (v * w)%Q) (prepare k n s))
      (fun r y => exists rest, y = flat_map (fun d => flat_map (fval r) (bk r d)) (g_dests (gh r)) ++ rest) R) as (ss & Es & Lss & Vs).
    { intros r Hr. rewrite (rd_ks r Hr). rewrite (rdn sends r []) by (rewrite Ls; exact Hr). destruct (A_ok r Hr) as (EA & LA). destruct (B_ok r Hr) as (EB & LB). rewrite EA, EB. cbn [obind made k_nA k_nB k_cfA k_wfA]. destruct (Nat.leb_spec (length (nth r maps []) * n) (length (A r))); [|lia]. destruct (Nat.leb_spec (nth r (b_count b) 0 * n) (length (B r))); [|lia]. cbn [assert obind]. rewrite map_length.
      destruct (write_ok n (fval r) (fun ix dx => index_A <- rd (map fst (flat_map (bk r) (g_dests (gh r)))) ix ;; w <- rd (map (fun p => e_fwd (snd p)) (flat_map (bk r) (g_dests (gh r)))) ix ;; v <- rd (A r) (index_A * n + dx) ;; Some (v * w)%Q) (prepare (made owner number b maps graphs r) n (nth r sends [])) (flat_map (bk r) (g_dests (gh r)))) as (rest & E).
      - intros p _. apply fval_len.
      - eapply Nat.le_trans; [|apply prep_len]. rewrite Nat.mul_comm. apply Nat.mul_le_mono_l. cbn [made k_base]. rewrite len_sum. apply Nat.le_max_l.
      - intros ix p dx Ep Ld. unfold rd. rewrite !nth_error_map, Ep. cbn [option_map obind]. unfold fval. rewrite nthe_map_q by exact Ld. apply nth_error_In in Ep. apply in_flat_map in Ep. destruct Ep as (d & _ & Ip). apply blk_in in Ip. destruct Ip as (Ip & _). destruct p as (c & e). unfold it in Ip. apply (item_in maps) in Ip. destruct Ip as (Lc & _). cbn [fst snd]. rewrite (nth_error_nth' (A r) 0%Q) by (pose proof (off_lt c dx n _ Lc Ld); lia). reflexivity.
      - exists (flat_map (fval r) (flat_map (bk r) (g_dests (gh r))) ++ rest). split; [exact E|]. exists rest. rewrite flat_flat. reflexivity. }
    rewrite Es. cbn [obind].
    destruct (mapM_prop (fun r => k <- rd ks r ;; s <- rd recvs r ;; Some (prepare k n s)) (fun r y => n * k_base (made owner number b maps graphs r) <= length y) R) as (rs & Er & Lrs & Vr).
    { intros r Hr. rewrite (rd_ks r Hr). rewrite (rdn recvs r []) by (rewrite Lr; exact Hr). cbn [obind]. eexists. split; [reflexivity|]. apply prep_len. }
    rewrite Er. cbn [obind].
    assert (Lbl : forall s d, length (flat_map (fval s) (bk s d)) = length (bk s d) * n) by (intros; apply const_len; intros; apply fval_len).
    destruct (alltoallw_ok R (fun s d => flat_map (fval s) (bk s d)) (fun r => g_dests (gh r)) (fun r => g_srcs (gh r))) with (dests := map (fun k => g_dests (k_graph k)) ks) (srcs := map (fun k => g_srcs (k_graph k)) ks) (scounts := map (fun k => scaled n (k_scf k)) ks) (rcounts := map (fun k => scaled n (k_rcf k)) ks) (bufs := ss) (recvs := rs) as (out & Eo & Lo & Vo).
    { intros s H0. apply (graph_ok owner maps graphs Hg s H0). }
    { intros r s H0 I. exact (edge_fwd owner number b maps graphs Hm Hg r s H0 I). }
    { rewrite map_length. exact Lk. }
    { exact Lrs. }
    { intros r H0. rewrite nth_ks by exact H0. reflexivity. }
    { intros r H0. rewrite nth_ks by exact H0. reflexivity. }
    { intros r H0. rewrite nth_ks by exact H0. cbn [made k_scf]. unfold scaled, scf. rewrite map_map. f_equal. apply map_ext. intros. symmetry. apply Lbl. }
    { intros r H0. rewrite nth_ks by exact H0. cbn [made k_rcf]. unfold scaled, rcf. rewrite map_map. f_equal. apply map_ext. intros. symmetry. apply Lbl. }
    { intros r H0. destruct (Vs r H0) as (y & Ey & rest & ->). exists rest. exact Ey. }
    { intros r rb H0 Eb. destruct (Vr r H0) as (y & Ey & Ly). assert (y = rb) by congruence. subst y. eapply Nat.le_trans; [|exact Ly]. cbn [made k_base]. rewrite (scb_rcf r H0).
      assert (X : length (flat_map (fun s => flat_map (fval s) (bk s r)) (g_srcs (gh r))) = list_sum (rcf owner maps graphs r) * n). { rewrite flat_map_len. unfold rcf. fold bk. fold (gh r). generalize (g_srcs (gh r)). induction l as [|s l IH]; [reflexivity|]. unfold list_sum in *. cbn [map fold_right]. rewrite IH, Lbl. lia. }
      rewrite X, Nat.mul_comm. apply Nat.mul_le_mono_l. apply Nat.le_max_r. }
    rewrite Eo. cbn [obind].
    destruct (mapM_prop (fun r => k <- rd ks r ;; s <- rd out r ;; b0 <- rd dofs_B r ;; add_rows n (k_cfB k) (fun ix dx => rd s (ix * n + dx)) (repeat 0%Q (length b0)))
      (fun r y => length y = length (B r) /\ forall cell i, cell < nth r (b_count b) 0 -> i < n -> (coef n y cell i == forward_value owner number maps dofs_A n r cell i)%Q) R) as (res & E & L & V).
    - intros r Hr. destruct (Vr r Hr) as (y & Ey & _). destruct (Vo r y Hr Ey) as (rest & Eor & _). rewrite (rd_ks r Hr). unfold rd at 1. rewrite Eor. destruct (B_ok r Hr) as (EB & LB). rewrite EB. cbn [obind made k_cfB].
      set (L := flat_map (fun s => map (fun p => (number (e_cell (snd p)), fval s p)) (bk s r)) (g_srcs (gh r))).
      destruct (add_ok n (nth r (b_count b) 0) (fun ix dx => rd (flat_map (fun s => flat_map (fval s) (bk s r)) (g_srcs (gh r)) ++ rest) (ix * n + dx)) (map (lid number) (flat_map (fun s => bk s r) (g_srcs (gh r)))) (length (B r)) L) as (o & Eo' & Lo' & Vo').
      + unfold L. rewrite !map_flat. apply flat_map_in. intros s _. rewrite map_map. reflexivity.
      + intros a Ia. apply in_flat_map in Ia. destruct Ia as (s & _ & Ia). apply in_map_iff in Ia. destruct Ia as (p & <- & Ip). cbn [fst snd]. split; [apply fval_len|]. apply blk_in in Ip. destruct Ip as (Ip & Eo'). destruct (item_ok owner number b maps Hm s p Ip) as (_ & _ & _ & _ & X). rewrite Eo' in X. exact X.
      + exact LB.
      + intros ix a dx Ea Ld. unfold rd. assert (F : flat_map (fun s => flat_map (fval s) (bk s r)) (g_srcs (gh r)) = flat_map snd L). { unfold L. rewrite flat_flat. apply flat_map_in. intros s _. induction (bk s r) as [|p l IH]; [reflexivity|]. cbn [flat_map map snd]. rewrite IH. reflexivity. }
        rewrite F. apply const_nth; [|exact Ea|exact Ld]. intros x Ix. apply in_flat_map in Ix. destruct Ix as (s & _ & Ix). apply in_map_iff in Ix. destruct Ix as (p & <- & _). apply fval_len.
      + exists o. split; [exact Eo'|]. split; [exact Lo'|]. intros cell i Hc Hi. unfold coef at 1. rewrite (Vo' cell i Hc Hi). unfold L. rewrite part_flat. unfold forward_value. rewrite sum_flat.
        assert (P : forall s, (part (map (fun p => (number (e_cell (snd p)), fval s p)) (bk s r)) cell i == sumq (map (fun p => (coef n (nth s dofs_A []) (fst p) i * e_fwd (snd p))%Q) (filter (fun p => (owner (e_cell (snd p)) =? r) && (number (e_cell (snd p)) =? cell)) (items (nth s maps [])))))%Q).
        { intros s. rewrite (part_map _ _ _ (fun p => (coef n (A s) (fst p) i * e_fwd (snd p))%Q)) by (intros; unfold fval; rewrite nth_map_q by exact Hi; reflexivity). unfold bk, blk, it, own. assert (FF : forall l : list (nat * entry), filter (fun p => number (e_cell (snd p)) =? cell) (filter (fun p => owner (e_cell (snd p)) =? r) l) = filter (fun p => (owner (e_cell (snd p)) =? r) && (number (e_cell (snd p)) =? cell)) l) by (induction l as [|p l IH]; [reflexivity|]; cbn [filter]; destruct (owner (e_cell (snd p)) =? r); cbn [filter andb]; rewrite IH; reflexivity). rewrite FF. reflexivity. }
        rewrite (sum_ext _ _ _ (fun s _ => P s)). fold R. destruct (graph_ok owner maps graphs Hg r Hr) as (_ & _ & N & S0 & _). apply sum_sub; [exact N|intros s I; apply (edge_fwd owner number b maps graphs Hm Hg r s Hr I)|].
        intros s _ NI. rewrite <- (P s). assert (Bn : bk s r = []). { destruct (bk s r) as [|p l] eqn:Eb; [reflexivity|]. exfalso. apply NI. apply S0. exists p. fold bk. rewrite Eb. left. reflexivity. } rewrite Bn. reflexivity.
    - exists res. split; [exact E|]. split; [exact L|]. intros r Hr. destruct (V r Hr) as (y & Ey & Py). rewrite (nth_error_nth _ _ [] Ey). exact Py.
  Qed.

  Lemma split_sum (phi : nat -> nat * entry -> Q) l (X : list (nat * entry)) : NoDup l -> (forall p, In p X -> In (own owner p) l) ->
    (sumq (map (fun d => sumq (map (phi d) (filter (fun p => (own owner p =? d)%nat) X))) l) == sumq (map (fun p => phi (own owner p) p) X))%Q.
  Proof.
    intros N. induction X as [|p X IH]; intros H.
    - cbn [filter map]. apply sum_zero. intros; reflexivity.
    - cbn [map]. unfold sumq at 3. cbn [fold_right]. fold (sumq (map (fun p => phi (own owner p) p) X)). rewrite <- IH by (intros; apply H; right; assumption).
      rewrite (sum_ext _ (fun d => ((if (own owner p =? d)%nat then phi (own owner p) p else 0) + sumq (map (phi d) (filter (fun p => (own owner p =? d)%nat) X)))%Q)).
      + rewrite sum_add, sum_one by (try assumption; apply H; left; reflexivity). reflexivity.
      + intros d _. cbn [filter]. destruct (Nat.eqb_spec (own owner p) d) as [->|D]; cbn [map sumq fold_right]; [reflexivity|]. ring.
  Qed.
  Lemma filter_items m cell : cell < length m -> filter (fun p => fst p =? cell) (items m) = map (fun e => (cell, e)) (nth cell m []).
  Proof.
    intros H. unfold items. assert (G : forall k a, filter (fun p : nat * entry => fst p =? cell) (flat_map (fun c => map (fun e => (c, e)) (nth c m [])) (seq a k)) = if (a <=? cell) && (cell <? a + k) then map (fun e => (cell, e)) (nth cell m []) else []).
    { induction k as [|k IH]; intros a; cbn [seq flat_map filter].
      - destruct (Nat.leb_spec a cell); destruct (Nat.ltb_spec cell (a + 0)); cbn [andb]; try reflexivity. lia.
      - rewrite filter_app, IH. assert (F : forall l : list entry, filter (fun p : nat * entry => fst p =? cell) (map (fun e => (a, e)) l) = if a =? cell then map (fun e => (a, e)) l else []) by (induction l as [|e l IHl]; cbn [map filter fst]; [destruct (a =? cell); reflexivity|]; rewrite IHl; destruct (a =? cell); reflexivity). rewrite F. clear F. destruct (Nat.eqb_spec a cell) as [Ea|D]; [subst a|].
        + destruct (Nat.leb_spec (S cell) cell); [lia|]. destruct (Nat.leb_spec cell cell); [|lia]. destruct (Nat.ltb_spec cell (cell + S k)); [|lia]. cbn [andb]. apply app_nil_r.
        + cbn [app]. destruct (Nat.leb_spec (S a) cell); destruct (Nat.leb_spec a cell); destruct (Nat.ltb_spec cell (S a + k)); destruct (Nat.ltb_spec cell (a + S k)); cbn [andb]; try reflexivity; lia. }
    rewrite G. destruct (Nat.leb_spec 0 cell); [|lia]. destruct (Nat.ltb_spec cell (0 + length m)); [reflexivity|lia].
  Qed.

  Lemma backward_ok : exists out, backward_transfer ks n sends recvs dofs_B dofs_A = Some out /\ length out = R /\
    forall r, r < R -> length (nth r out []) = length (A r) /\ forall cell i, cell < length (nth r maps []) -> i < n -> (coef n (nth r out []) cell i == backward_value owner number maps dofs_B n r cell i)%Q.
  Proof.
    unfold backward_transfer. assert (Lk : length ks = R) by (unfold ks; rewrite map_length; apply seq_length). rewrite Lk. destruct (Nat.ltb_spec 0 n); [|lia]. cbn [assert obind].
    destruct (mapM_prop (fun r => k <- rd ks r ;; s <- rd sends r ;; a <- rd dofs_A r ;; b0 <- rd dofs_B r ;;
      _ <- assert (k_nA k * n <=? length a) ;; _ <- assert (k_nB k * n <=? length b0) ;;
      write_rows n (length (k_cbB k)) (fun ix dx => index_B <- rd (k_cbB k) ix ;; rd b0 (index_B * n + dx)) (prepare k n s))
      (fun r y => exists rest, y = flat_map (fun s => flat_map (bval r) (bk s r)) (g_rdests (gh r)) ++ rest) R) as (ss & Es & Lss & Vs).
    { intros r Hr. rewrite (rd_ks r Hr). rewrite (rdn sends r []) by (rewrite Ls; exact Hr). destruct (A_ok r Hr) as (EA & LA). destruct (B_ok r Hr) as (EB & LB). rewrite EA, EB. cbn [obind made k_nA k_nB k_cbB]. destruct (Nat.leb_spec (length (nth r maps []) * n) (length (A r))); [|lia]. destruct (Nat.leb_spec (nth r (b_count b) 0 * n) (length (B r))); [|lia]. cbn [assert obind]. rewrite map_length.
      destruct (write_ok n (bval r) (fun ix dx => index_B <- rd (map (lid number) (flat_map (fun s => bk s r) (g_rdests (gh r)))) ix ;; rd (B r) (index_B * n + dx)) (prepare (made owner number b maps graphs r) n (nth r sends [])) (flat_map (fun s => bk s r) (g_rdests (gh r)))) as (rest & E).
      - intros p _. apply bval_len.
      - eapply Nat.le_trans; [|apply prep_len]. rewrite Nat.mul_comm. apply Nat.mul_le_mono_l. cbn [made k_base]. rewrite flat_map_len. apply Nat.le_max_r.
      - intros ix p dx Ep Ld. unfold rd. rewrite !nth_error_map, Ep. cbn [option_map obind]. unfold bval. rewrite nthe_map_q by exact Ld. apply nth_error_In in Ep. apply in_flat_map in Ep. destruct Ep as (s & _ & Ip). apply blk_in in Ip. destruct Ip as (Ip & Eo'). destruct (item_ok owner number b maps Hm s p Ip) as (_ & _ & _ & _ & X). rewrite Eo' in X. unfold lid. rewrite (nth_error_nth' (B r) 0%Q) by (pose proof (off_lt _ dx n _ X Ld); lia). reflexivity.
      - exists (flat_map (bval r) (flat_map (fun s => bk s r) (g_rdests (gh r))) ++ rest). split; [exact E|]. exists rest. rewrite flat_flat. reflexivity. }
    rewrite Es. cbn [obind].
    destruct (mapM_prop (fun r => k <- rd ks r ;; s <- rd recvs r ;; Some (prepare k n s)) (fun r y => n * k_base (made owner number b maps graphs r) <= length y) R) as (rs & Er & Lrs & Vr).
    { intros r Hr. rewrite (rd_ks r Hr). rewrite (rdn recvs r []) by (rewrite Lr; exact Hr). cbn [obind]. eexists. split; [reflexivity|]. apply prep_len. }
    rewrite Er. cbn [obind].
    assert (Lbl : forall s d, length (flat_map (bval s) (bk d s)) = length (bk d s) * n) by (intros; apply const_len; intros; apply bval_len).
    destruct (alltoallw_ok R (fun s d => flat_map (bval s) (bk d s)) (fun r => g_rdests (gh r)) (fun r => g_rsrcs (gh r))) with (dests := map (fun k => g_rdests (k_graph k)) ks) (srcs := map (fun k => g_rsrcs (k_graph k)) ks) (scounts := map (fun k => scaled n (k_scb k)) ks) (rcounts := map (fun k => scaled n (k_rcb k)) ks) (bufs := ss) (recvs := rs) as (out & Eo & Lo & Vo).
    { intros s H0. apply (nodup_r owner maps graphs Hg s H0). }
    { intros r d H0 I. apply (nodup_r owner maps graphs Hg r H0) in I. destruct (edge_bwd owner number b maps graphs Hm Hg r d H0 I) as (Ld & Id). split; [exact Ld|]. apply (nodup_r owner maps graphs Hg d Ld). exact Id. }
    { rewrite map_length. exact Lk. }
    { exact Lrs. }
    { intros r H0. rewrite nth_ks by exact H0. reflexivity. }
    { intros r H0. rewrite nth_ks by exact H0. reflexivity. }
    { intros r H0. rewrite nth_ks by exact H0. cbn [made k_scb]. unfold scaled, scb. rewrite map_map. f_equal. apply map_ext. intros. symmetry. apply Lbl. }
    { intros r H0. rewrite nth_ks by exact H0. cbn [made k_rcb]. unfold scaled. rewrite map_map. f_equal. apply map_ext. intros. symmetry. apply Lbl. }
    { intros r H0. destruct (Vs r H0) as (y & Ey & rest & ->). exists rest. exact Ey. }
    { intros r rb H0 Eb. destruct (Vr r H0) as (y & Ey & Ly). assert (y = rb) by congruence. subst y. eapply Nat.le_trans; [|exact Ly]. cbn [made k_base].
      assert (X : length (flat_map (fun s => flat_map (bval s) (bk r s)) (g_rsrcs (gh r))) = list_sum (map (fun d => length (bk r d)) (g_rsrcs (gh r))) * n). { rewrite flat_map_len. generalize (g_rsrcs (gh r)). induction l as [|s l IH]; [reflexivity|]. unfold list_sum in *. cbn [map fold_right]. rewrite IH, Lbl. lia. }
      rewrite X, Nat.mul_comm. apply Nat.mul_le_mono_l. rewrite (list_sum_perm _ (scf owner maps graphs r)) by (apply Permutation_map; apply (graph_ok owner maps graphs Hg r H0)). apply Nat.le_max_l. }
    rewrite Eo. cbn [obind].
    destruct (mapM_prop (fun r => k <- rd ks r ;; s <- rd out r ;; a <- rd dofs_A r ;; add_rows n (k_cbA k) (fun ix dx => v <- rd s (ix * n + dx) ;; w <- rd (k_wbA k) ix ;; Some (v * w)%Q) (repeat 0%Q (length a)))
      (fun r y => length y = length (A r) /\ forall cell i, cell < length (nth r maps []) -> i < n -> (coef n y cell i == backward_value owner number maps dofs_B n r cell i)%Q) R) as (res & E & L & V).
    - intros r Hr. destruct (Vr r Hr) as (y & Ey & _). destruct (Vo r y Hr Ey) as (rest & Eor & _). rewrite (rd_ks r Hr). unfold rd at 1. rewrite Eor. destruct (A_ok r Hr) as (EA & LA). rewrite EA. cbn [obind made k_cbA k_wbA].
      set (items' := flat_map (fun d => map (fun p => (d, p)) (bk r d)) (g_rsrcs (gh r))).
      set (rowf := fun q : nat * (nat * entry) => map (fun dx => coef n (B (fst q)) (number (e_cell (snd (snd q)))) dx * e_bwd (snd (snd q)))%Q (seq 0 n)).
      set (L := map (fun q : nat * (nat * entry) => (fst (snd q), rowf q)) items').
      assert (F1 : flat_map (bk r) (g_rsrcs (gh r)) = map snd items') by (unfold items'; rewrite map_flat; apply flat_map_in; intros d _; rewrite map_map; symmetry; apply map_id).
      assert (F2 : flat_map (fun s => flat_map (bval s) (bk r s)) (g_rsrcs (gh r)) = flat_map (fun q => bval (fst q) (snd q)) items'). { unfold items'. rewrite flat_flat. apply flat_map_in. intros d _. induction (bk r d) as [|p l IH]; [reflexivity|]. cbn [flat_map map fst snd]. rewrite IH. reflexivity. }
      destruct (add_ok n (length (nth r maps [])) (fun ix dx => v <- rd (flat_map (fun s => flat_map (bval s) (bk r s)) (g_rsrcs (gh r)) ++ rest) (ix * n + dx) ;; w <- rd (map (fun p => e_bwd (snd p)) (flat_map (bk r) (g_rsrcs (gh r)))) ix ;; Some (v * w)%Q) (map fst (flat_map (bk r) (g_rsrcs (gh r)))) (length (A r)) L) as (o & Eo' & Lo' & Vo').
      + rewrite F1. unfold L. rewrite !map_map. reflexivity.
      + intros a Ia. unfold L in Ia. apply in_map_iff in Ia. destruct Ia as ((d & (c & e)) & <- & Ip). cbn [fst snd]. split; [unfold rowf; rewrite map_length; apply seq_length|]. unfold items' in Ip. apply in_flat_map in Ip. destruct Ip as (d' & _ & Ip). apply in_map_iff in Ip. destruct Ip as (p & Ep & Ip). injection Ep as -> ->. apply blk_in in Ip. destruct Ip as (Ip & _). unfold it in Ip. apply (item_in maps) in Ip. apply Ip.
      + exact LA.
      + intros ix a dx Ea Ld. unfold L in Ea. rewrite nth_error_map in Ea. destruct (nth_error items' ix) as [q|] eqn:Eq; [|discriminate]. cbn [option_map] in Ea. injection Ea as <-. unfold rd. rewrite F2, F1. rewrite (const_nth n (fun q => bval (fst q) (snd q)) items' rest (fun _ _ => bval_len _ _) ix q dx Eq Ld). unfold bval. rewrite nthe_map_q by exact Ld. cbn [obind]. rewrite !nth_error_map, Eq. cbn [option_map obind snd]. unfold rowf. rewrite nthe_map_q by exact Ld. reflexivity.
      + exists o. split; [exact Eo'|]. split; [exact Lo'|]. intros cell i Hc Hi. unfold coef at 1. rewrite (Vo' cell i Hc Hi).
        set (phi := fun d (p : nat * entry) => if (fst p =? cell)%nat then (coef n (B d) (number (e_cell (snd p))) i * e_bwd (snd p))%Q else 0%Q).
        assert (P : (part L cell i == sumq (map (fun d => sumq (map (phi d) (bk r d))) (g_rsrcs (gh r))))%Q).
        { assert (EL : L = flat_map (fun d => map (fun p : nat * entry => (fst p, rowf (d, p))) (bk r d)) (g_rsrcs (gh r))) by (unfold L, items'; rewrite map_flat; apply flat_map_in; intros d _; rewrite map_map; reflexivity). rewrite EL, part_flat. apply sum_ext. intros d _. rewrite (part_map _ (fun p : nat * entry => fst p) _ (fun p => (coef n (B d) (number (e_cell (snd p))) i * e_bwd (snd p))%Q)) by (intros p _; unfold rowf; rewrite nth_map_q by exact Hi; reflexivity).
          unfold phi. induction (bk r d) as [|p l IH]; [reflexivity|]. cbn [filter map]. destruct (fst p =? cell); unfold sumq in *; cbn [map fold_right]; rewrite IH; [reflexivity|ring]. }
        rewrite P. destruct (nodup_r owner maps graphs Hg r Hr) as (N & _ & N3 & _). unfold bk, blk. rewrite split_sum.
        * unfold backward_value. transitivity (sumq (map (fun p : nat * entry => (coef n (B (own owner p)) (number (e_cell (snd p))) i * e_bwd (snd p))%Q) (filter (fun p => fst p =? cell) (it maps r)))).
          -- unfold phi. induction (it maps r) as [|p l IH]; [reflexivity|]. cbn [filter map]. destruct (fst p =? cell); unfold sumq in *; cbn [map fold_right]; rewrite IH; [reflexivity|ring].
          -- unfold it. rewrite filter_items by exact Hc. rewrite map_map. reflexivity.
        * exact N.
        * intros p Ip. apply N3. destruct (graph_ok owner maps graphs Hg r Hr) as (_ & G & _). apply G. exists p. apply blk_in. auto.
    - exists res. split; [exact E|]. split; [exact L|]. intros r Hr. destruct (V r Hr) as (y & Ey & Py). rewrite (nth_error_nth _ _ [] Ey). exact Py.
  Qed.
End World.
