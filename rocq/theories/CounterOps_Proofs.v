(** Proofs about the count tables: the operations. *)
From Coq Require Import List Arith ZArith Bool Lia Permutation.
Import ListNotations.
From Verif Require Import Base Kernel Compress_Proofs Add_Model Add_Spec Add_Proofs Counter_Model Counter_Spec Counter_Proofs.

Lemma combine_seq_nth {A} (l : list A) a i :
  nth_error (combine (seq a (length l)) l) i = option_map (pair (a + i)) (nth_error l i).
Proof.
  revert a i; induction l as [|x l IH]; intros a [|i]; cbn; auto.
  - rewrite Nat.add_0_r; auto.
  - rewrite IH. replace (S a + i) with (a + S i) by lia. auto.
Qed.

Lemma by_cell_nth f np c : nth_error (by_cell f np) c = option_map (f c) (nth_error np c).
Proof.
  unfold by_cell. rewrite nth_error_map, combine_seq_nth. destruct (nth_error np c); cbn; auto.
Qed.
Lemma by_cell_length f np : length (by_cell f np) = length np.
Proof. unfold by_cell. rewrite map_length, combine_length, seq_length. lia. Qed.
Lemma by_cell_ext f g np : (forall c n, nth_error np c = Some n -> f c n = g c n) -> by_cell f np = by_cell g np.
Proof.
  intros H. apply nth_error_ext. intros i. rewrite !by_cell_nth. destruct (nth_error np i) as [n|] eqn:E; [|reflexivity].
  cbn [option_map]. f_equal. apply H; auto.
Qed.
Lemma by_cell_eq f np l : length l = length np ->
  (forall c n, nth_error np c = Some n -> nth_error l c = Some (f c n)) -> l = by_cell f np.
Proof.
  intros L H. apply nth_error_ext. intros i. rewrite by_cell_nth. destruct (nth_error np i) eqn:E; cbn.
  - apply H; auto.
  - apply nth_error_None in E. apply nth_error_None. lia.
Qed.
Lemma by_cell_id f np : (forall c n, nth_error np c = Some n -> f c n = n) -> by_cell f np = np.
Proof. intros H. symmetry. apply by_cell_eq; auto. intros c n E. rewrite H; auto. Qed.
Lemma by_cell_seq f np : by_cell f np = map (fun c => f c (nth c np 0)) (seq 0 (length np)).
Proof.
  apply nth_error_ext. intros i. rewrite by_cell_nth, nth_error_map_seq.
  destruct (Nat.ltb_spec i (length np)) as [H|H].
  - rewrite (nth_error_nth' np 0) by auto. auto.
  - rewrite (proj2 (nth_error_None np i)); auto.
Qed.

Lemma number_in_app c l z : number_in c (l ++ [z]) = number_in c l + if (z =? Z.of_nat c)%Z then 1 else 0.
Proof. unfold number_in. rewrite filter_app, app_length. cbn. destruct (z =? Z.of_nat c)%Z; cbn; lia. Qed.

Lemma entries_number cells c : length (entries_of cells c) = number_in c cells.
Proof.
  induction cells as [|z l IH] using rev_ind; [reflexivity|].
  rewrite entries_of_app, app_length, number_in_app, IH. destruct (z =? Z.of_nat c)%Z; cbn; lia.
Qed.

Lemma foldM_index {A T} (f : T -> A -> option T) (g : T -> nat -> option T) l :
  (forall s i a, nth_error l i = Some a -> g s i = f s a) ->
  forall s, foldM f s l = foldM g s (seq 0 (length l)).
Proof.
  intros H.
  assert (G : forall post pre s, l = pre ++ post -> foldM f s post = foldM g s (seq (length pre) (length post))).
  { induction post as [|a post IH]; intros pre s Eq; auto. cbn [foldM seq length].
    rewrite (H s (length pre) a) by (rewrite Eq, nth_error_app2, Nat.sub_diag by lia; auto).
    destruct (f s a) as [s'|]; cbn [obind]; auto. rewrite (IH (pre ++ [a])) by (rewrite <- app_assoc; auto).
    rewrite app_length. cbn [length]. rewrite Nat.add_1_r. auto. }
  intros s. apply (G l []). auto.
Qed.

(** A loop of increments, in any order. *)
Lemma incr_loop (cells : list Z) np sched : (forall z, In z cells -> (0 <= z < Z.of_nat (length np))%Z) ->
  Permutation sched (seq 0 (length cells)) ->
  foldM (fun m i => z <- rd cells i ;; n <- rd m (Z.to_nat z) ;; upd m (Z.to_nat z) (n + 1)) np sched
  = Some (by_cell (fun c n => n + number_in c cells) np).
Proof.
  intros Hv P.
  assert (Hin : forall i, In i sched -> i < length cells).
  { intros i I. apply (Permutation_in _ P) in I. apply in_seq in I. lia. }
  destruct (foldM_ind (fun m i => z <- rd cells i ;; n <- rd m (Z.to_nat z) ;; upd m (Z.to_nat z) (n + 1))
    (fun pre m => length m = length np /\ forall c n, nth_error np c = Some n ->
       nth_error m c = Some (n + length (filter (asks cells c) pre))) sched np) as [m [E [L H]]].
  - split; auto. intros c n En. cbn. rewrite Nat.add_0_r; auto.
  - intros pre i post m Eq [L H].
    assert (Hi : i < length cells) by (apply Hin; rewrite Eq; apply in_or_app; right; left; auto).
    destruct (nth_error cells i) as [z|] eqn:Ez; [|apply nth_error_None in Ez; lia].
    unfold rd at 1. rewrite Ez. cbn [obind]. pose proof (Hv z (nth_error_In _ _ Ez)) as Hz.
    destruct (nth_error np (Z.to_nat z)) as [n|] eqn:En; [|apply nth_error_None in En; lia].
    unfold rd. rewrite (H _ _ En). cbn [obind].
    destruct (upd_some m (Z.to_nat z) (n + length (filter (asks cells (Z.to_nat z)) pre) + 1)) as [m' Em]; [lia|].
    rewrite Em. eexists; split; [reflexivity|]. split; [erewrite upd_length; eauto|].
    intros c k Ek. rewrite (upd_nth _ _ _ _ c Em), filter_app, app_length. cbn [filter].
    assert (Ea : asks cells c i = (z =? Z.of_nat c)%Z) by (unfold asks; rewrite Ez; auto). rewrite Ea.
    destruct (Nat.eqb_spec c (Z.to_nat z)) as [->|Ne].
    + rewrite Z2Nat.id, Z.eqb_refl by lia. cbn [length]. f_equal. assert (k = n) by congruence. lia.
    + destruct (Z.eqb_spec z (Z.of_nat c)) as [->|_]; [rewrite Nat2Z.id in Ne; congruence|].
      cbn [length]. rewrite Nat.add_0_r. apply H; auto.
  - rewrite E. f_equal. apply by_cell_eq; auto. intros c n En. rewrite (H c n En). f_equal. f_equal.
    rewrite <- entries_number, entries_of_asks. apply Permutation_length. apply filter_perm; auto.
Qed.

Section Ops.
  Context (d : device) (hint s_rank s_pos s_cell : nat).
  Hypothesis Ok : device_ok d.
  Notation inv := (inv hint s_rank s_pos s_cell).
  Notation dinv := (dinv hint s_rank s_pos s_cell).

  (** ** Additions *)
  Lemma add_device_ok t np names cells : inv t np names ->
    exists t', add_by_device d t cells = Some t' /\ ncell t' = ncell t /\
      inv t' (by_cell (fun c n => n + number_in c cells) np) names.
  Proof.
    intros I. pose proof (di_shape _ _ _ _ _ _ _ (in_d _ _ _ _ _ _ _ I)) as Sh.
    pose proof (di_len _ _ _ _ _ _ _ (in_d _ _ _ _ _ _ _ I)) as L.
    unfold add_by_device. destruct (Nat.eqb_spec (length cells) 0) as [E0|N0].
    - exists t. split; auto. split; auto. replace (by_cell _ np) with np; auto.
      symmetry. apply by_cell_id. intros. destruct cells; [cbn; lia|discriminate].
    - unfold group_new_layers. destruct (Nat.ltb_spec 0 (length cells)); [|lia].
      rewrite group_h2d by auto. cbn [obind].
      destruct (get_new_layers_inv d (d_npart (set_group t (h_npart t) (h_npart t))) cells (freshZ d 420 (length cells)))
        as [np' [ls [E [L1 [L2 [_ H1]]]]]]; auto.
      { unfold freshZ. rewrite map_length, seq_length; auto. }
      rewrite E. cbn [obind fst]. cbn [d_npart set_group] in *. rewrite (in_h _ _ _ _ _ _ _ I) in *.
      assert (Enp : np' = by_cell (fun c n => n + number_in c cells) np).
      { apply by_cell_eq; [auto|]. intros c n En. destruct (H1 c n En) as [H2 _]. rewrite H2. f_equal. f_equal.
        rewrite <- entries_number. apply Permutation_length. apply layer_order_perm; auto. }
      rewrite copy_table_eq; [|cbn [ncell set_group]; lia|cbn [ncell h_npart set_group]; lia].
      cbn [obind].
      destruct (grow_eq d hint s_rank s_pos s_cell Ok (set_group (set_group t np np) np' np') np' names)
        as [t' [E' [I' N']]]; auto.
      + apply shape_set_group; [apply shape_set_group; auto; lia| |]; cbn; lia.
      + apply (names_same s_rank s_pos s_cell t); auto. apply I.
      + exists t'. rewrite <- Enp. auto.
  Qed.

  Lemma add_set_ok t np names cells : inv t np names -> (forall z, In z cells -> (0 <= z < Z.of_nat (length np))%Z) ->
    exists t', add_set d t cells = Some t' /\ ncell t' = ncell t /\
      inv t' (by_cell (fun c n => n + number_in c cells) np) names.
  Proof.
    intros I Hv. pose proof (di_shape _ _ _ _ _ _ _ (in_d _ _ _ _ _ _ _ I)) as Sh.
    pose proof (di_len _ _ _ _ _ _ _ (in_d _ _ _ _ _ _ _ I)) as L.
    unfold add_set. destruct (Nat.eqb_spec (length cells) 0) as [E0|N0].
    - exists t. split; auto. split; auto. replace (by_cell _ np) with np; auto.
      symmetry. apply by_cell_id. intros. destruct cells; [cbn; lia|discriminate].
    - rewrite (in_h _ _ _ _ _ _ _ I).
      match goal with |- context [foldM ?f np cells] => assert (E : foldM f np cells = Some (by_cell (fun c n => n + number_in c cells) np)) end.
      { pose proof (incr_loop cells np (seq 0 (length cells)) Hv (Permutation_refl _)) as E. rewrite <- E.
        apply foldM_index. intros m i z Ez. unfold rd at 1. rewrite Ez. cbn [obind].
        pose proof (Hv z (nth_error_In _ _ Ez)) as Hz.
        assert (Et : (0 <=? z)%Z && (z <? Z.of_nat (ncell t))%Z = true).
        { apply andb_true_intro. rewrite Z.leb_le, Z.ltb_lt. lia. }
        rewrite Et. reflexivity. }
      rewrite E. cbn [obind]. clear E. set (np' := by_cell _ np).
      assert (Lp : length np' = length np) by apply by_cell_length.
      assert (S1 : shape (set_group t np' (d_npart t))) by (apply shape_set_group; auto; [lia|apply Sh]).
      rewrite group_h2d by auto. cbn [obind h_npart set_group].
      destruct (grow_eq d hint s_rank s_pos s_cell Ok (set_group (set_group t np' (d_npart t)) np' np') np' names)
        as [t' [E' [I' N']]]; auto.
      + apply shape_set_group; auto; cbn; lia.
      + apply (names_same s_rank s_pos s_cell t); auto. apply I.
      + exists t'. auto.
  Qed.

  Lemma list_sum_add np other : length other = length np ->
    list_sum (by_cell (fun c n => n + nth c other 0) np) = list_sum np + list_sum other.
  Proof.
    intros L. assert (H : by_cell (fun c n => n + nth c other 0) np = map (fun e => fst e + snd e) (combine np other)).
    { symmetry. apply by_cell_eq; [rewrite map_length, combine_length; lia|].
      intros c n En. rewrite nth_error_map.
      assert (Ec : nth_error (combine np other) c = Some (n, nth c other 0)).
      { revert c En other L. induction np as [|x np IH]; intros [|c] En [|y other] L; cbn in *; try discriminate.
        - congruence.
        - apply IH; auto. }
      rewrite Ec; auto. }
    rewrite H. clear H. revert other L. induction np as [|x np IH]; intros [|y other] L; try discriminate; auto.
    assert (C : forall a l, list_sum (a :: l) = a + list_sum l) by reflexivity.
    cbn [combine map fst snd]. rewrite !C, IH by (injection L; auto). lia.
  Qed.

  Lemma add_group_ok t np names other n : inv t np names -> length other = length np -> n = list_sum other ->
    exists t', add_group d t other n = Some t' /\ ncell t' = ncell t /\
      inv t' (by_cell (fun c k => k + nth c other 0) np) names.
  Proof.
    intros I Lo Hn. pose proof (di_shape _ _ _ _ _ _ _ (in_d _ _ _ _ _ _ _ I)) as Sh.
    pose proof (di_len _ _ _ _ _ _ _ (in_d _ _ _ _ _ _ _ I)) as L.
    unfold add_group. rewrite (in_h _ _ _ _ _ _ _ I).
    destruct (Nat.eqb_spec (length other) (ncell t)); [|lia]. cbn [assert obind].
    set (np' := by_cell (fun c k => k + nth c other 0) np).
    match goal with |- context [foldM ?f (np, 0) ?s] => assert (E : foldM f (np, 0) s = Some (np', list_sum other)) end.
    { match goal with |- foldM ?f _ _ = _ =>
        destruct (foldM_ind f (fun pre s => length (fst s) = length np /\ snd s = list_sum (firstn (length pre) other) /\
          forall c k, nth_error np c = Some k -> nth_error (fst s) c = Some (if c <? length pre then k + nth c other 0 else k))
          (seq 0 (ncell t)) (np, 0)) as [[m s] [E [H1 [H2 H3]]]] end.
      - cbn. auto.
      - intros pre c post [m s] Eq [H1 [H2 H3]]. cbn [fst snd] in *.
        assert (Hc : c = length pre /\ length pre < ncell t).
        { assert (nth_error (seq 0 (ncell t)) (length pre) = Some c) by (rewrite Eq, nth_error_app2, Nat.sub_diag by lia; auto).
          rewrite nth_error_seq in H. destruct (Nat.ltb_spec (length pre) (ncell t)); [|discriminate].
          split; [injection H; intros; lia|auto]. }
        destruct Hc as [-> Hc].
        destruct (nth_error np (length pre)) as [k|] eqn:Ek; [|apply nth_error_None in Ek; lia].
        unfold rd. rewrite (H3 _ _ Ek). cbn [obind]. rewrite Nat.ltb_irrefl.
        assert (Eo : nth_error other (length pre) = Some (nth (length pre) other 0)) by (apply nth_error_nth'; lia).
        rewrite Eo. cbn [obind].
        destruct (upd_some m (length pre) (k + nth (length pre) other 0)) as [m' Em]; [lia|]. rewrite Em. cbn [obind].
        eexists; split; [reflexivity|]. cbn [fst snd]. rewrite app_length. cbn [length]. rewrite Nat.add_1_r.
        split; [erewrite upd_length; eauto|]. split; [rewrite (firstn_S_sum _ _ _ Eo); lia|].
        intros c j Ej. rewrite (upd_nth _ _ _ _ c Em). destruct (Nat.eqb_spec c (length pre)) as [->|Ne].
        + destruct (Nat.ltb_spec (length pre) (S (length pre))); [|lia]. congruence.
        + rewrite (H3 _ _ Ej). destruct (Nat.ltb_spec c (length pre)), (Nat.ltb_spec c (S (length pre))); auto; lia.
      - rewrite E. cbn [fst snd] in *. rewrite seq_length in *. f_equal. f_equal.
        + apply by_cell_eq; auto. intros c k Ek. rewrite (H3 _ _ Ek).
          pose proof (nth_error_some_lt _ _ _ Ek). destruct (Nat.ltb_spec c (ncell t)); [auto|lia].
        + rewrite H2. rewrite firstn_all2 by lia. auto. }
    rewrite E. cbn [obind fst snd]. clear E. rewrite Hn, Nat.eqb_refl. cbn [assert obind].
    assert (Lp : length np' = length np) by apply by_cell_length.
    assert (S1 : shape (set_group t np' (d_npart t))) by (apply shape_set_group; auto; [lia|apply Sh]).
    rewrite group_h2d by auto. cbn [obind h_npart set_group].
    assert (S2 : shape (set_group (set_group t np' (d_npart t)) np' np')) by (apply shape_set_group; auto; cbn; lia).
    rewrite recompute_eq by auto. cbn [obind h_npart set_group npart_local set_es].
    rewrite (in_l _ _ _ _ _ _ _ I). unfold np' at 1 2. rewrite list_sum_add, Nat.eqb_refl by auto. fold np'. cbn [assert obind].
    destruct (grow_eq d hint s_rank s_pos s_cell Ok (set_group (set_group t np' (d_npart t)) np' np') np' names)
        as [t' [E' [I' N']]]; auto.
    { apply (names_same s_rank s_pos s_cell t); auto. apply I. }
    unfold grow_dats in E'. rewrite recompute_eq in E' by auto. cbn [obind h_npart set_group] in E'.
    destruct (realloc_all_dats _) as [t3|]; cbn [obind] in E'; [|discriminate]. cbn [obind].
    destruct (set_npart_cells_host_device d (h_npart t3) (d_npart t3) t3) as [t4|]; cbn [obind] in E'; [|discriminate]. cbn [obind].
    destruct (check_dats_and_group_agree t4); cbn [obind] in E'; [|discriminate]. injection E' as ->. cbn [obind].
    rewrite (in_l _ _ _ _ _ _ _ I'), (in_h _ _ _ _ _ _ _ I'), !Nat.eqb_refl. cbn [assert obind].
    exists t'. auto.
  Qed.

  Lemma clear_ok t np names : inv t np names ->
    exists t', clear d t = Some t' /\ ncell t' = ncell t /\ inv t' (by_cell (fun _ _ => 0) np) names.
  Proof.
    intros I. pose proof (di_shape _ _ _ _ _ _ _ (in_d _ _ _ _ _ _ _ I)) as Sh.
    pose proof (di_len _ _ _ _ _ _ _ (in_d _ _ _ _ _ _ _ I)) as L.
    unfold clear. rewrite zero_table_eq by apply Sh. cbn [obind].
    set (np' := repeat 0 (ncell t)).
    assert (Enp : np' = by_cell (fun _ _ => 0) np).
    { apply by_cell_eq; [unfold np'; rewrite repeat_length; lia|]. intros c n En. apply nth_error_repeat.
      apply nth_error_some_lt in En. lia. }
    assert (Lp : length np' = ncell t) by apply repeat_length.
    assert (S1 : shape (set_group t np' (d_npart t))) by (apply shape_set_group; auto; apply Sh).
    rewrite group_h2d by auto. cbn [obind h_npart set_group].
    destruct (grow_eq d hint s_rank s_pos s_cell Ok (set_group (set_group t np' (d_npart t)) np' np') np' names)
        as [t' [E' [I' N']]]; auto.
    { apply shape_set_group; auto; cbn; lia. }
    { apply (names_same s_rank s_pos s_cell t); auto. apply I. }
    exists t'. split; [exact E'|]. split; auto. rewrite <- Enp; auto.
  Qed.
End Ops.
