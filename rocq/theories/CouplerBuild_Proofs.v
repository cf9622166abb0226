(** The construction of the coupler. *)
From Coq Require Import List Arith ZArith QArith Bool Lia Permutation.
Import ListNotations.
From Verif Require Import Base Kernel Bmi_Model Bmi_Spec Bmi_Proofs DG0_Proofs Coupler_Model Coupler_Spec Coupler_Proofs.
Local Open Scope nat_scope.

Section World.
  Variables (owner number : Z -> nat) (b : mesh_b) (maps : list cmap) (graphs : list graph).
  Hypothesis Hm : mesh_ok owner number b maps.
  Hypothesis Hg : graphs_ok owner maps graphs.
  Let R := length maps.
  Definition own (p : nat * entry) : nat := owner (e_cell (snd p)).
  Definition it (s : nat) : list (nat * entry) := items (nth s maps []).
  Definition blk (s d : nat) : list (nat * entry) := filter (fun p => own p =? d) (it s).
  Definition gr (s : nat) : graph := nth s graphs (Graph [] [] [] []).

  Lemma item_in m c e : In (c, e) (items m) <-> c < length m /\ In e (nth c m []).
  Proof.
    unfold items. rewrite in_flat_map. split.
    - intros (x & Ix & I). apply in_map_iff in I. destruct I as (e' & E & Ie). injection E as <- <-. apply in_seq in Ix. split; [lia|exact Ie].
    - intros (L & I). exists c. split; [apply in_seq; lia|]. apply in_map. exact I.
  Qed.
  Lemma item_ok s p : In p (it s) -> s < R /\ owner_of b (e_cell (snd p)) = Some (own p) /\ b_local b (own p) (e_cell (snd p)) = Some (number (e_cell (snd p))) /\ own p < R /\ number (e_cell (snd p)) < nth (own p) (b_count b) 0.
  Proof.
    destruct p as (c & e). intros I. unfold it in I. apply item_in in I. destruct I as (Lc & Ie). assert (Ls : s < R) by (destruct (Nat.lt_ge_cases s R) as [X|X]; [exact X|rewrite nth_overflow in Lc by exact X; cbn in Lc; lia]). destruct Hm as (Lb & H).
    destruct (H (nth s maps []) (nth c (nth s maps []) []) e) as (A1 & A2 & n & A3 & A4); [apply nth_In; exact Ls|apply nth_In; exact Lc|exact Ie|]. unfold own. cbn [snd]. split; [exact Ls|]. split; [exact A1|]. split; [exact A2|]. split; [unfold R; rewrite <- Lb; apply nth_error_Some; congruence|]. rewrite (nth_error_nth _ _ 0 A3). exact A4.
  Qed.
  Lemma blk_in s d p : In p (blk s d) <-> In p (it s) /\ own p = d.
  Proof. unfold blk. rewrite filter_In, Nat.eqb_eq. reflexivity. Qed.
  Lemma glen : length graphs = R.
  Proof. destruct Hg as (L & _). rewrite L, map_length. reflexivity. Qed.
  Lemma rd_gr r : r < R -> rd graphs r = Some (gr r).
  Proof. intros H. apply rdn. rewrite glen. exact H. Qed.
  Lemma graph_ok r : r < R -> NoDup (g_dests (gr r)) /\ (forall d, In d (g_dests (gr r)) <-> exists p, In p (blk r d)) /\
    NoDup (g_srcs (gr r)) /\ (forall s, In s (g_srcs (gr r)) <-> exists p, In p (blk s r)) /\ Permutation (g_rsrcs (gr r)) (g_dests (gr r)) /\ Permutation (g_rdests (gr r)) (g_srcs (gr r)).
  Proof.
    intros H. destruct Hg as (_ & G). destruct (G r (gr r) (rd_gr r H)) as (G1 & G2 & G3 & G4 & G5 & G6). 
    assert (X : forall s d, (exists x, In x (nth s (map (fun m => map (fun p => e_cell (snd p)) (items m)) maps) []) /\ owner x = d) <-> exists p, In p (blk s d)).
    { intros s d. assert (E : nth s (map (fun m => map (fun p => e_cell (snd p)) (items m)) maps) [] = map (fun p => e_cell (snd p)) (it s)) by (unfold it; rewrite <- (map_nth (fun m => map (fun p => e_cell (snd p)) (items m))); reflexivity). rewrite E. split.
      - intros (x & Ix & Ex). apply in_map_iff in Ix. destruct Ix as (p & <- & Ip). exists p. apply blk_in. auto.
      - intros (p & Ip). apply blk_in in Ip. destruct Ip as (Ip & Ep). exists (e_cell (snd p)). split; [apply in_map_iff; eauto|exact Ep]. }
    repeat split; auto; intros; try (apply X, G2; assumption); try (apply G2, X; assumption); try (apply X, G4; assumption); apply G4, X; assumption.
  Qed.
  Lemma edge_fwd r s : r < R -> In s (g_srcs (gr r)) -> s < R /\ In r (g_dests (gr s)).
  Proof. intros H I. destruct (graph_ok r H) as (_ & _ & _ & G & _). apply G in I. destruct I as (p & Ip). pose proof Ip as Iq. apply blk_in in Iq. destruct Iq as (Iq & _). destruct (item_ok s p Iq) as (Ls & _). split; [exact Ls|]. destruct (graph_ok s Ls) as (_ & G2 & _). apply G2. eauto. Qed.
  Lemma edge_bwd r d : r < R -> In d (g_dests (gr r)) -> d < R /\ In r (g_srcs (gr d)).
  Proof. intros H I. destruct (graph_ok r H) as (_ & G & _). apply G in I. destruct I as (p & Ip). pose proof Ip as Iq. apply blk_in in Iq. destruct Iq as (Iq & <-). destruct (item_ok r p Iq) as (_ & _ & _ & Lo & _). split; [exact Lo|]. destruct (graph_ok (own p) Lo) as (_ & _ & _ & G2 & _). apply G2. eauto. Qed.
  Lemma nodup_r r : r < R -> NoDup (g_rsrcs (gr r)) /\ NoDup (g_rdests (gr r)) /\ (forall d, In d (g_rsrcs (gr r)) <-> In d (g_dests (gr r))) /\ (forall s, In s (g_rdests (gr r)) <-> In s (g_srcs (gr r))).
  Proof.
    intros H. destruct (graph_ok r H) as (G1 & _ & G3 & _ & G5 & G6). split; [apply (Permutation_NoDup (Permutation_sym G5) G1)|]. split; [apply (Permutation_NoDup (Permutation_sym G6) G3)|]. split; intros x; split; intros I; eauto using Permutation_in, Permutation_sym.
  Qed.

  Definition tagged (r : nat) : list (nat * (nat * entry)) := map (fun p => (own p, p)) (it r).
  Lemma pushes_ok r : r < R -> pushes b (nth r maps []) = Some (tagged r).
  Proof.
    intros H. unfold pushes. rewrite (mapM_map _ (fun c => map (fun e => (own (c, e), (c, e))) (nth c (nth r maps []) []))).
    - cbn [obind]. unfold tagged, it, items. rewrite map_flat, concat_map_flat. f_equal. apply flat_map_in. intros c _. rewrite map_map. reflexivity.
    - intros c Ic. apply in_seq in Ic. rewrite (rdn _ c []) by lia. cbn [obind]. apply mapM_map. intros e Ie. destruct (item_ok r (c, e)) as (_ & E & _); [apply item_in; split; [lia|exact Ie]|]. cbn [snd] in E. rewrite E. reflexivity.
  Qed.
  Lemma at_ok r d : r < R -> In d (g_dests (gr r)) -> at_rank (tagged r) d = Some (blk r d).
  Proof.
    intros H I. assert (E : map snd (filter (fun p => fst p =? d) (tagged r)) = blk r d). { unfold tagged, blk. induction (it r) as [|p l IH]; [reflexivity|]. cbn [map filter fst]. destruct (own p =? d); cbn [map snd]; rewrite IH; reflexivity. }
    unfold at_rank. rewrite E. destruct (graph_ok r H) as (_ & G & _). apply G in I. destruct I as (p & Ip). destruct (blk r d); [destruct Ip|reflexivity].
  Qed.

  Definition scf (r : nat) : list nat := map (fun d => length (blk r d)) (g_dests (gr r)).
  Definition rcf (r : nat) : list nat := map (fun s => length (blk s r)) (g_srcs (gr r)).
  Definition gid (p : nat * entry) : Z := e_cell (snd p).
  Definition lid (p : nat * entry) : nat := number (e_cell (snd p)).
  Definition scb (r : nat) : list nat := map (fun s => length (blk s r)) (g_rdests (gr r)).
  Definition made (r : nat) : coupler :=
    Coupler (gr r) (length (nth r maps [])) (nth r (b_count b) 0) (max (list_sum (scf r)) (list_sum (scb r)))
      (scf r) (rcf r) (map fst (flat_map (blk r) (g_dests (gr r)))) (map (fun p => e_fwd (snd p)) (flat_map (blk r) (g_dests (gr r))))
      (map lid (flat_map (fun s => blk s r) (g_srcs (gr r))))
      (scb r) (map (fun d => length (blk r d)) (g_rsrcs (gr r))) (map fst (flat_map (blk r) (g_rsrcs (gr r)))) (map (fun p => e_bwd (snd p)) (flat_map (blk r) (g_rsrcs (gr r))))
      (map lid (flat_map (fun s => blk s r) (g_rdests (gr r)))).
  Lemma nth_graphs {A} (f : graph -> A) r : r < R -> nth_error (map f graphs) r = Some (f (gr r)).
  Proof. intros H. rewrite nth_error_map. change (nth_error graphs r) with (rd graphs r). rewrite (rd_gr r H). reflexivity. Qed.
  Lemma local_ok r l : (forall s, In s l -> forall p, In p (blk s r) -> True) -> mapM (b_local b r) (map gid (flat_map (fun s => blk s r) l)) = Some (map lid (flat_map (fun s => blk s r) l)).
  Proof.
    intros _. rewrite (mapM_map _ (fun g => number g)).
    - rewrite map_map. reflexivity.
    - intros g I. apply in_map_iff in I. destruct I as (p & <- & Ip). apply in_flat_map in Ip. destruct Ip as (s & _ & Ip). apply blk_in in Ip. destruct Ip as (Ip & <-). apply (item_ok s p Ip).
  Qed.

  Lemma construct_made : construct b graphs maps = Some (map made (seq 0 R)).
  Proof.
    unfold construct. cbn zeta. fold R.
    assert (E1 : mapM (pushes b) maps = Some (map tagged (seq 0 R))).
    { destruct (mapM_total (pushes b) maps) as (l & E). { intros m I. apply (In_nth _ _ []) in I. destruct I as (r & Lr & <-). exists (tagged r). exact (pushes_ok r Lr). }
      rewrite E. f_equal. apply as_map; [apply (mapM_length _ _ _ E)|]. intros r Lr. rewrite <- (mapM_nth _ _ _ r (nth r maps []) E) by (apply nth_error_nth'; exact Lr). apply pushes_ok. exact Lr. }
    rewrite E1. cbn [obind].
    rewrite (mapM_map _ scf) by (intros r I; apply in_seq in I; rewrite rd_gr by lia; rewrite rd_map by lia; cbn [obind]; apply mapM_map; intros d Id; rewrite at_ok by (try assumption; lia); reflexivity). cbn [obind].
    assert (E2 : neighbor_alltoall (map g_dests graphs) (map g_srcs graphs) (map scf (seq 0 R)) (map (fun g => repeat 0 (length (g_srcs g))) graphs) = Some (map rcf (seq 0 R))).
    { unfold neighbor_alltoall. destruct (alltoallw_ok R (fun s d => [length (blk s d)]) (fun r => g_dests (gr r)) (fun r => g_srcs (gr r))) with (dests := map g_dests graphs) (srcs := map g_srcs graphs) (scounts := map (map (fun _ : nat => 1)) (map g_dests graphs)) (rcounts := map (map (fun _ : nat => 1)) (map g_srcs graphs)) (bufs := map scf (seq 0 R)) (recvs := map (fun g => repeat 0 (length (g_srcs g))) graphs) as (out & E & L & V).
      - intros s H. apply graph_ok. exact H.
      - exact edge_fwd.
      - rewrite map_length. apply glen.
      - rewrite map_length. apply glen.
      - intros r H. apply nth_graphs. exact H.
      - intros r H. apply nth_graphs. exact H.
      - intros r H. rewrite nth_error_map, (nth_graphs g_dests r H). reflexivity.
      - intros r H. rewrite nth_error_map, (nth_graphs g_srcs r H). reflexivity.
      - intros r H. exists []. rewrite app_nil_r. pose proof (rd_map scf R r H) as X. unfold rd in X. rewrite X. reflexivity.
      - intros r rb H E. rewrite (nth_graphs (fun g => repeat 0 (length (g_srcs g))) r H) in E. injection E as <-. rewrite repeat_length. rewrite (const_len 1) by reflexivity. lia.
      - rewrite E. f_equal. apply as_map; [exact L|]. intros r H. destruct (V r _ H (nth_graphs (fun g => repeat 0 (length (g_srcs g))) r H)) as (rest & Eo & Lr). rewrite repeat_length, app_length, (const_len 1) in Lr by reflexivity. assert (rest = []) by (destruct rest; [reflexivity|cbn in Lr; lia]). subst rest. rewrite app_nil_r in Eo. rewrite Eo. reflexivity. }
    rewrite E2. cbn [obind].
    rewrite (mapM_map _ (fun r => flat_map (blk r) (g_dests (gr r)))) by (intros r I; apply in_seq in I; rewrite rd_gr by lia; rewrite rd_map by lia; cbn [obind]; rewrite (mapM_map _ (blk r)) by (intros d Id; apply at_ok; [lia|exact Id]); cbn [obind]; rewrite concat_map_flat; reflexivity). cbn [obind].
    assert (E3 : neighbor_alltoallw (map g_dests graphs) (map g_srcs graphs) (map scf (seq 0 R)) (map rcf (seq 0 R)) (map (map (fun p => e_cell (snd p))) (map (fun r => flat_map (blk r) (g_dests (gr r))) (seq 0 R))) (map (fun c => repeat 0%Z (list_sum c)) (map rcf (seq 0 R))) = Some (map (fun r => map gid (flat_map (fun s => blk s r) (g_srcs (gr r)))) (seq 0 R))).
    { assert (Lc : forall r l, length (flat_map (fun s => map gid (blk s r)) l) = list_sum (map (fun s => length (blk s r)) l)) by (intros r l; rewrite flat_map_len; f_equal; apply map_ext; intros; apply map_length).
      destruct (alltoallw_ok R (fun s d => map gid (blk s d)) (fun r => g_dests (gr r)) (fun r => g_srcs (gr r))) with (dests := map g_dests graphs) (srcs := map g_srcs graphs) (scounts := map scf (seq 0 R)) (rcounts := map rcf (seq 0 R)) (bufs := map (map (fun p => e_cell (snd p))) (map (fun r => flat_map (blk r) (g_dests (gr r))) (seq 0 R))) (recvs := map (fun c => repeat 0%Z (list_sum c)) (map rcf (seq 0 R))) as (out & E & L & V).
      - intros s H. apply graph_ok. exact H.
      - exact edge_fwd.
      - rewrite map_length. apply glen.
      - rewrite !map_length. apply seq_length.
      - intros r H. apply nth_graphs. exact H.
      - intros r H. apply nth_graphs. exact H.
      - intros r H. pose proof (rd_map scf R r H) as X. unfold rd in X. rewrite X. f_equal. apply map_ext. intros. symmetry. apply map_length.
      - intros r H. pose proof (rd_map rcf R r H) as X. unfold rd in X. rewrite X. f_equal. apply map_ext. intros. symmetry. apply map_length.
      - intros r H. exists []. rewrite app_nil_r, map_map. pose proof (rd_map (fun r => map (fun p => e_cell (snd p)) (flat_map (blk r) (g_dests (gr r)))) R r H) as X. unfold rd in X. rewrite X, map_flat. reflexivity.
      - intros r rb H E. rewrite map_map in E. pose proof (rd_map (fun r => repeat 0%Z (list_sum (rcf r))) R r H) as X. unfold rd in X. rewrite X in E. injection E as <-. rewrite repeat_length, Lc. unfold rcf. lia.
      - rewrite E. f_equal. apply as_map; [exact L|]. intros r H. pose proof (rd_map (fun r => repeat 0%Z (list_sum (rcf r))) R r H) as X. unfold rd in X. destruct (V r (repeat 0%Z (list_sum (rcf r))) H) as (rest & Eo & Lr); [rewrite map_map; exact X|]. rewrite repeat_length, app_length, Lc in Lr. assert (rest = []) by (destruct rest; [reflexivity|cbn in Lr; unfold rcf in Lr; lia]). subst rest. rewrite app_nil_r in Eo. rewrite Eo, map_flat. reflexivity. }
    rewrite E3. cbn [obind]. apply mapM_map. intros r I. apply in_seq in I. assert (H : r < R) by lia. rewrite (rd_gr r H), !rd_map by exact H. rewrite (rdn maps r []) by exact H. destruct Hm as (Lb & _). rewrite (rdn (b_count b) r 0) by (rewrite Lb; exact H). cbn [obind]. destruct (graph_ok r H) as (G1 & _ & G3 & _). destruct (nodup_r r H) as (N1 & N2 & N3 & N4).
    rewrite (mapM_map _ (fun d => (map fst (blk r d), map (fun p => e_bwd (snd p)) (blk r d)))).
    - cbn [obind]. rewrite (mapM_map _ (fun s => map gid (blk s r))).
      + cbn [obind]. rewrite (local_ok r (g_srcs (gr r))) by auto. cbn [obind]. rewrite concat_map_flat, <- (map_flat gid). rewrite (local_ok r (g_rdests (gr r))) by auto. cbn [obind]. f_equal. unfold made. rewrite !map_map, !concat_map_flat, !map_flat. cbn [fst snd].
        assert (Es : map (fun x => length (map gid (blk x r))) (g_rdests (gr r)) = scb r) by (apply map_ext; intros; apply map_length). rewrite Es. f_equal. apply map_ext. intros. apply map_length.
      + intros s Is. apply N4 in Is. rewrite map_flat. unfold rcf. rewrite <- (part_of_ok (g_srcs (gr r)) (fun s => map gid (blk s r)) s G3 Is). f_equal. apply map_ext. intros. symmetry. apply map_length.
    - intros d Id. apply N3 in Id. assert (P : part_of (g_dests (gr r)) (scf r) (map fst (flat_map (blk r) (g_dests (gr r)))) d = Some (map fst (blk r d))). { rewrite map_flat. unfold scf. rewrite <- (part_of_ok (g_dests (gr r)) (fun d => map fst (blk r d)) d G1 Id). f_equal. apply map_ext. intros. symmetry. apply map_length. }
      rewrite P. cbn [obind]. rewrite (at_ok r d H Id). cbn [obind]. rewrite map_length, Nat.eqb_refl. reflexivity.
  Qed.
End World.
