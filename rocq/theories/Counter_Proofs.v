(** Proofs about the count tables. *)
From Coq Require Import List Arith ZArith Bool Lia Permutation.
Import ListNotations.
From Verif Require Import Base Kernel Compress_Proofs Add_Model Add_Proofs Counter_Model Counter_Spec.

(** ** Small loops *)
Lemma fill_table {A} (f : list A -> nat -> option (list A)) (val : nat -> A) n dst sched :
  Permutation sched (seq 0 n) -> length dst = n ->
  (forall m c, length m = n -> c < n -> f m c = upd m c (val c)) ->
  foldM f dst sched = Some (map val (seq 0 n)).
Proof.
  intros P L H.
  assert (Hin : forall a, In a sched -> a < n).
  { intros a Ha. apply (Permutation_in _ P) in Ha. apply in_seq in Ha. lia. }
  destruct (foldM_upd f (fun c => c) val sched dst) as [m [E [Lm [H1 H2]]]].
  - intros m' a L' I. apply H; [lia|auto].
  - intros a I. rewrite L; auto.
  - intros; congruence.
  - rewrite E. f_equal. apply nth_error_ext. intros i. rewrite nth_error_map_seq.
    destruct (Nat.ltb_spec i n) as [Hi|Hi].
    + apply H1. apply (Permutation_in _ (Permutation_sym P)). apply in_seq. lia.
    + apply nth_error_None. lia.
Qed.

Lemma map_nth_seq {A} (def : A) l : map (fun c => nth c l def) (seq 0 (length l)) = l.
Proof.
  apply nth_error_ext. intros i. rewrite nth_error_map_seq.
  destruct (Nat.ltb_spec i (length l)) as [H|H]; [|symmetry; apply nth_error_None; auto].
  symmetry. apply nth_error_nth'; auto.
Qed.

Lemma copy_table_eq n src dst : length src = n -> length dst = n -> copy_table n src dst = Some src.
Proof.
  intros Ls Ld. unfold copy_table.
  rewrite (fill_table _ (fun c => nth c src 0) n); auto.
  - subst n. rewrite map_nth_seq; auto.
  - intros m c Lm Hc. unfold rd. rewrite (nth_error_nth' src 0) by lia. cbn [obind]. auto.
Qed.

Lemma zero_table_eq n dst : length dst = n -> foldM (fun m c => upd m c 0) dst (seq 0 n) = Some (repeat 0 n).
Proof.
  intros L. rewrite (fill_table _ (fun _ => 0) n); auto. f_equal.
  apply nth_error_ext. intros i. rewrite nth_error_map_seq.
  destruct (Nat.ltb_spec i n).
  - symmetry. apply nth_error_repeat; auto.
  - symmetry. apply nth_error_None. rewrite repeat_length; auto.
Qed.

Definition es_of (np : list nat) : list nat := map (fun c => list_sum (firstn c np)) (seq 0 (length np)).

Lemma firstn_S_sum np c n : nth_error np c = Some n -> list_sum (firstn (S c) np) = list_sum (firstn c np) + n.
Proof. apply psum_S. Qed.

Lemma es_loop np dst : length dst = length np ->
  foldM (fun s c => h <- upd (fst s) c (snd s) ;; n <- rd np c ;; Some (h, snd s + n)) (dst, 0) (seq 0 (length np))
  = Some (es_of np, list_sum np).
Proof.
  intros L.
  destruct (foldM_ind (fun s c => h <- upd (fst s) c (snd s) ;; n <- rd np c ;; Some (h, snd s + n))
    (fun pre s => length (fst s) = length np /\ snd s = list_sum (firstn (length pre) np) /\
       forall i, i < length pre -> nth_error (fst s) i = Some (list_sum (firstn i np)))
    (seq 0 (length np)) (dst, 0)) as [s [E [I1 [I2 I3]]]].
  - cbn. split; auto. split; auto. intros; lia.
  - intros pre a post s Eq [J1 [J2 J3]].
    assert (Ha : a = length pre).
    { assert (nth_error (seq 0 (length np)) (length pre) = Some a) by (rewrite Eq, nth_error_app2, Nat.sub_diag by lia; auto).
      rewrite nth_error_seq in H. destruct (length pre <? length np); [|discriminate]. injection H; intros; lia. }
    assert (Hl : length pre < length np).
    { assert (length (seq 0 (length np)) = length (pre ++ a :: post)) by congruence.
      rewrite seq_length, app_length in H. cbn in H. lia. }
    subst a. destruct (upd_some (fst s) (length pre) (snd s)) as [h Eh]; [lia|]. rewrite Eh. cbn [obind].
    destruct (nth_error np (length pre)) as [n|] eqn:En; [|apply nth_error_None in En; lia].
    unfold rd. rewrite En. cbn [obind]. eexists; split; [reflexivity|]. cbn [fst snd].
    rewrite app_length. cbn [length]. replace (length pre + 1) with (S (length pre)) by lia.
    split; [erewrite upd_length; eauto|]. split; [rewrite (firstn_S_sum _ _ _ En); lia|].
    intros i Hi. rewrite (upd_nth _ _ _ _ i Eh). destruct (Nat.eqb_spec i (length pre)) as [->|]; [congruence|].
    apply J3. lia.
  - rewrite E. destruct s as [h n]. cbn [fst snd] in *. rewrite seq_length, firstn_all in I2.
    rewrite seq_length in I3. f_equal. f_equal; [|auto]. apply nth_error_ext. intros i. unfold es_of.
    rewrite nth_error_map_seq. destruct (Nat.ltb_spec i (length np)) as [Hi|Hi]; [apply I3; auto|].
    apply nth_error_None. lia.
Qed.

(** ** The invariant *)
Section Inv.
  Context (d : device) (hint s_rank s_pos s_cell : nat).
  Hypothesis Ok : device_ok d.

  (** The tables have the right sizes; [np] are the group's counts. *)
  Record shape (t : tables) : Prop := mk_shape {
    sh_h : length (h_npart t) = ncell t;
    sh_d : length (d_npart t) = ncell t;
    sh_eh : length (h_es t) = ncell t;
    sh_ed : length (d_es t) = ncell t;
    sh_md : length (dat_d t) = length (dat_h t);
    sh_mr : length (dat_rows t) = length (dat_h t);
    sh_names : NoDup (map fst (dats t));
    sh_addr : NoDup (map snd (dats t));
    sh_map : ptr_map t = None \/ ptr_map t = Some (map snd (dats t));
    sh_dh : forall a, In a (map snd (dats t)) -> exists l, nth_error (dat_h t) a = Some l /\ length l = ncell t;
    sh_dd : forall a, In a (map snd (dats t)) -> exists l, nth_error (dat_d t) a = Some l /\ length l = ncell t;
    sh_dr : forall a, In a (map snd (dats t)) -> exists l, nth_error (dat_rows t) a = Some l /\ length l = ncell t
  }.

  Definition dats_hold (t : tables) (np : list nat) : Prop :=
    forall a, In a (map snd (dats t)) -> nth_error (dat_h t) a = Some np /\ nth_error (dat_d t) a = Some np.
  Definition rows_hold (t : tables) (np : list nat) : Prop :=
    forall a, In a (map snd (dats t)) -> nth_error (dat_rows t) a = Some np.

  (** ** The group's tables *)
  Lemma group_h2d t : shape t ->
    group_host_to_device t = Some (set_group t (h_npart t) (h_npart t)).
  Proof. intros S. unfold group_host_to_device. rewrite copy_table_eq by (apply S). reflexivity. Qed.

  Lemma recompute_eq t : shape t ->
    recompute_npart_cell_es t = Some (set_es t (es_of (h_npart t)) (es_of (h_npart t)) (list_sum (h_npart t))).
  Proof.
    intros S. unfold recompute_npart_cell_es. pose proof (sh_h t S) as L. rewrite <- L.
    rewrite es_loop by (rewrite L; apply S). cbn [obind fst snd].
    rewrite copy_table_eq; [reflexivity| |rewrite L; apply S]. unfold es_of. rewrite map_length, seq_length; auto.
  Qed.

  Lemma es_of_length np : length (es_of np) = length np.
  Proof. unfold es_of. rewrite map_length, seq_length; auto. Qed.

  Ltac shp S := destruct S; constructor; cbn; try assumption; try congruence; auto.

  Lemma shape_set_group t h dv : shape t -> length h = ncell t -> length dv = ncell t -> shape (set_group t h dv).
  Proof. intros S Lh Ld. shp S. Qed.
  Lemma shape_set_es t h dv n : shape t -> length h = ncell t -> length dv = ncell t -> shape (set_es t h dv n).
  Proof. intros S Lh Ld. shp S. Qed.

  (** ** Rows *)
  Lemma realloc_cells_eq t a np l : nth_error (dat_rows t) a = Some l -> length l = ncell t -> length np = ncell t ->
    exists r, realloc_cells t a np = Some (set_dat_rows t r) /\ upd (dat_rows t) a np = Some r.
  Proof.
    intros E L Ln. unfold realloc_cells.
    destruct (upd_some (dat_rows t) a np) as [r Er]; [eapply nth_error_some_lt; eauto|].
    exists r. split; auto.
    destruct (foldM_ind (fun t c => n <- rd np c ;; realloc_cell t a c n)
      (fun pre t' => exists r' l', t' = set_dat_rows t r' /\ nth_error r' a = Some l' /\ length l' = ncell t /\
         upd (dat_rows t) a l' = Some r' /\ (forall i, i < length pre -> nth_error l' i = nth_error np i))
      (seq 0 (ncell t)) t) as [t' [E' [r' [l' [H1 [H2 [H3 [H4 H5]]]]]]]].
    - exists (dat_rows t), l. split; [destruct t; reflexivity|]. split; auto. split; auto. split.
      + destruct (upd_some (dat_rows t) a l) as [m Em]; [eapply nth_error_some_lt; eauto|]. rewrite Em. f_equal.
        apply nth_error_ext. intros i. rewrite (upd_nth _ _ _ _ i Em). destruct (Nat.eqb_spec i a); congruence.
      + cbn. intros; lia.
    - intros pre c post t' Eq [r' [l' [H1 [H2 [H3 [H4 H5]]]]]].
      assert (Hc : c = length pre /\ length pre < ncell t).
      { assert (nth_error (seq 0 (ncell t)) (length pre) = Some c) by (rewrite Eq, nth_error_app2, Nat.sub_diag by lia; auto).
        rewrite nth_error_seq in H. destruct (Nat.ltb_spec (length pre) (ncell t)); [|discriminate]. split; [injection H; intros; lia|auto]. }
      destruct Hc as [-> Hc].
      destruct (nth_error np (length pre)) as [n|] eqn:En; [|apply nth_error_None in En; lia].
      unfold rd, realloc_cell at 1. rewrite En. cbn [obind]. rewrite H1. cbn [dat_rows set_dat_rows].
      unfold upd2, rd. rewrite H2. cbn [obind].
      destruct (upd_some l' (length pre) n) as [l2 E2]; [lia|]. rewrite E2. cbn [obind].
      destruct (upd_some r' a l2) as [r2 Er2]; [eapply nth_error_some_lt; eauto|]. rewrite Er2. cbn [obind].
      eexists; split; [reflexivity|]. exists r2, l2. split; [reflexivity|].
      split; [eapply upd_nth_eq; eauto|]. split; [erewrite upd_length; eauto|]. split.
      + destruct (upd_some (dat_rows t) a l2) as [m Em]; [eapply nth_error_some_lt; eauto|]. rewrite Em. f_equal.
        apply nth_error_ext. intros i. rewrite (upd_nth _ _ _ _ i Em), (upd_nth _ _ _ _ i Er2), (upd_nth _ _ _ _ i H4).
        destruct (i =? a); auto.
      + rewrite app_length. cbn [length]. intros i Hi. rewrite (upd_nth _ _ _ _ i E2).
        destruct (Nat.eqb_spec i (length pre)) as [->|]; [auto|]. apply H5. lia.
    - rewrite E'. rewrite H1. f_equal. f_equal.
      assert (l' = np).
      { apply nth_error_ext. intros i. destruct (Nat.lt_ge_cases i (ncell t)) as [Hi|Hi].
        - apply H5. rewrite seq_length; auto.
        - rewrite (proj2 (nth_error_None l' i)) by lia. symmetry. apply nth_error_None. lia. }
      subst l'. congruence.
  Qed.

  (** [realloc_all]-like loops: every dat of the list gets the rows [np]. *)
  Lemma realloc_list_eq (np_of : tables -> nat -> option (list nat)) np t (l : list (nat * nat)) : shape t -> length np = ncell t ->
    (forall a, In a (map snd l) -> In a (map snd (dats t))) ->
    (forall r a, In a (map snd l) -> np_of (set_dat_rows t r) a = Some np) ->
    exists r, foldM (fun t e => n <- np_of t (snd e) ;; realloc_cells t (snd e) n) t l = Some (set_dat_rows t r) /\
      length r = length (dat_rows t) /\
      (forall a, In a (map snd l) -> nth_error r a = Some np) /\
      (forall a, ~ In a (map snd l) -> nth_error r a = nth_error (dat_rows t) a).
  Proof.
    intros S Ln Hsub Hnp.
    destruct (foldM_ind (fun t e => n <- np_of t (snd e) ;; realloc_cells t (snd e) n)
      (fun pre t' => exists r, t' = set_dat_rows t r /\ length r = length (dat_rows t) /\
         (forall a, In a (map snd pre) -> nth_error r a = Some np) /\
         (forall a, ~ In a (map snd pre) -> nth_error r a = nth_error (dat_rows t) a)) l t)
      as [t' [E [r [H1 [H2 [H3 H4]]]]]].
    - exists (dat_rows t). split; [destruct t; reflexivity|]. split; auto. split; [intros a []|auto].
    - intros pre e post t' Eq [r [H1 [H2 [H3 H4]]]]. rewrite H1.
      assert (Ia : In (snd e) (map snd l)) by (rewrite Eq, map_app; apply in_or_app; right; left; auto).
      rewrite Hnp by auto. cbn [obind].
      assert (Hl : exists l', nth_error r (snd e) = Some l' /\ length l' = ncell t).
      { destruct (in_dec Nat.eq_dec (snd e) (map snd pre)) as [Hi|Hi].
        - exists np. split; auto.
        - rewrite H4 by auto. apply (sh_dr t S). apply Hsub; auto. }
      destruct Hl as [l' [El Ll]].
      destruct (realloc_cells_eq (set_dat_rows t r) (snd e) np l') as [r2 [E2 U2]]; auto.
      rewrite E2. eexists; split; [reflexivity|]. exists r2. split; [reflexivity|]. cbn [dat_rows set_dat_rows] in U2.
      split; [erewrite upd_length by eauto; auto|]. split.
      + intros a Ha. rewrite (upd_nth _ _ _ _ a U2). destruct (Nat.eqb_spec a (snd e)) as [->|Ne]; auto.
        apply H3. rewrite map_app in Ha. apply in_app_or in Ha. destruct Ha as [Ha|[Ha|[]]]; auto. congruence.
      + intros a Ha. rewrite map_app in Ha. rewrite (upd_nth _ _ _ _ a U2). destruct (Nat.eqb_spec a (snd e)) as [->|Ne].
        * exfalso. apply Ha. apply in_or_app. right; left; auto.
        * apply H4. intros Hi. apply Ha. apply in_or_app; auto.
    - rewrite E, H1. exists r. auto.
  Qed.

  Lemma shape_set_rows t r np : shape t -> length np = ncell t -> length r = length (dat_rows t) ->
    (forall a, In a (map snd (dats t)) -> nth_error r a = Some np) -> shape (set_dat_rows t r).
  Proof.
    intros S Ln Lr H. destruct S; constructor; cbn; try assumption; try congruence.
    intros a Ha. exists np. auto.
  Qed.

  Lemma realloc_all_eq t : shape t ->
    exists r, realloc_all_dats t = Some (set_dat_rows t r) /\ shape (set_dat_rows t r) /\
      rows_hold (set_dat_rows t r) (h_npart t).
  Proof.
    intros S. unfold realloc_all_dats.
    destruct (realloc_list_eq (fun t _ => Some (h_npart t)) (h_npart t) t (dats t)) as [r [E [L [H1 H2]]]]; auto.
    - apply S.
    - exists r. split; [exact E|]. split; [|exact H1]. eapply shape_set_rows; eauto. apply S.
  Qed.

  (** ** The counts of the dats *)
  Lemma shape2_row {A} (m m' : list (list A)) a l : shape2 m' = shape2 m -> nth_error m a = Some l ->
    exists l', nth_error m' a = Some l' /\ length l' = length l.
  Proof.
    intros Sh E. assert (nth_error (shape2 m') a = Some (length l)).
    { rewrite Sh. unfold shape2. rewrite nth_error_map, E. auto. }
    unfold shape2 in H. rewrite nth_error_map in H. destruct (nth_error m' a) as [l'|]; [|discriminate].
    exists l'. split; auto. cbn in H. congruence.
  Qed.

  Lemma spread_eq (ptrs src : list nat) (n : nat) (m : list (list nat)) sched :
    Permutation sched (list_prod (seq 0 (length ptrs)) (seq 0 n)) -> length src = n ->
    (forall a, In a ptrs -> exists l, nth_error m a = Some l /\ length l = n) ->
    exists m', foldM (fun m w => a <- rd ptrs (fst w) ;; v <- rd src (snd w) ;; upd2 m a (snd w) v) m sched = Some m' /\
      length m' = length m /\ (forall a, In a ptrs -> nth_error m' a = Some src) /\
      (forall a, ~ In a ptrs -> nth_error m' a = nth_error m a).
  Proof.
    intros P Ls Hm.
    assert (Hin : forall w, In w sched <-> fst w < length ptrs /\ snd w < n).
    { intros [x y]. split.
      - intros I. apply (Permutation_in _ P) in I. apply in_prod_iff in I. rewrite !in_seq in I. cbn. lia.
      - intros I. apply (Permutation_in _ (Permutation_sym P)). apply in_prod_iff. rewrite !in_seq. cbn in *. lia. }
    destruct (foldM_upd2 (fun m w => a <- rd ptrs (fst w) ;; v <- rd src (snd w) ;; upd2 m a (snd w) v)
      (fun w => match nth_error ptrs (fst w), nth_error src (snd w) with
                | Some a, Some v => Some (a, snd w, v) | _, _ => None end) sched m) as [m' [E [Sh [H1 H2]]]].
    - intros m' w _ Iw. apply Hin in Iw. destruct Iw as [Ix Iy]. unfold rd.
      destruct (nth_error ptrs (fst w)) eqn:E1; [|apply nth_error_None in E1; lia].
      destruct (nth_error src (snd w)) eqn:E2; [|apply nth_error_None in E2; lia]. reflexivity.
    - intros w i j v Iw Ew. apply Hin in Iw. destruct Iw as [Ix Iy].
      destruct (nth_error ptrs (fst w)) eqn:E1; [|discriminate]. destruct (nth_error src (snd w)) eqn:E2; [|discriminate].
      injection Ew as <- <- <-. destruct (Hm n0) as [l [El Ll]]; [eapply nth_error_In; eauto|].
      unfold rd2, rd. rewrite El. cbn [obind]. apply nth_error_lt_some. lia.
    - intros a b i j v w _ _ Ea Eb.
      destruct (nth_error ptrs (fst a)) eqn:E1; [|discriminate]. destruct (nth_error src (snd a)) eqn:E2; [|discriminate].
      destruct (nth_error ptrs (fst b)) eqn:E3; [|discriminate]. destruct (nth_error src (snd b)) eqn:E4; [|discriminate].
      injection Ea as <- <- <-. injection Eb as _ Ej <-. rewrite Ej in E4. congruence.
    - exists m'. split; [exact E|]. split.
      { assert (length (shape2 m') = length (shape2 m)) by congruence. unfold shape2 in H. rewrite !map_length in H. auto. }
      split.
      + intros a Ia. destruct (Hm a Ia) as [l [El Ll]]. destruct (shape2_row _ _ _ _ Sh El) as [l' [El' Ll']].
        rewrite El'. f_equal. apply nth_error_ext. intros i. destruct (Nat.lt_ge_cases i n) as [Hi|Hi].
        * apply In_nth_error in Ia. destruct Ia as [x Ex].
          destruct (nth_error src i) as [v|] eqn:Ev; [|apply nth_error_None in Ev; lia].
          assert (R : rd2 m' a i = Some v).
          { apply (H1 (x, i)); [apply Hin; cbn; split; [eapply nth_error_some_lt; eauto|auto]|].
            cbn [fst snd]. rewrite Ex, Ev. auto. }
          unfold rd2, rd in R. rewrite El' in R. exact R.
        * rewrite (proj2 (nth_error_None l' i)) by lia. symmetry. apply nth_error_None. lia.
      + intros a Na. destruct (nth_error m a) as [l|] eqn:El.
        * destruct (shape2_row _ _ _ _ Sh El) as [l' [El' Ll']]. rewrite El'. f_equal. apply nth_error_ext. intros i.
          assert (R : rd2 m' a i = rd2 m a i).
          { apply H2. intros w v _ Ew. destruct (nth_error ptrs (fst w)) eqn:E1; [|discriminate].
            destruct (nth_error src (snd w)); [|discriminate]. injection Ew as -> _ _.
            apply Na. eapply nth_error_In; eauto. }
          unfold rd2, rd in R. rewrite El, El' in R. exact R.
        * apply nth_error_None in El. apply nth_error_None.
          assert (length (shape2 m') = length (shape2 m)) by congruence. unfold shape2 in H. rewrite !map_length in H. lia.
  Qed.

  (** The tables other than the counts of the dats and the pointer map. *)
  Definition same_but_counts (t t' : tables) : Prop :=
    ncell t' = ncell t /\ h_npart t' = h_npart t /\ d_npart t' = d_npart t /\ h_es t' = h_es t /\ d_es t' = d_es t /\
    npart_local t' = npart_local t /\ dat_rows t' = dat_rows t /\ dats t' = dats t.

  Lemma set_hd_eq t np : shape t -> length np = ncell t ->
    exists t', set_npart_cells_host_device d np np t = Some t' /\ shape t' /\ dats_hold t' np /\ same_but_counts t t'.
  Proof.
    intros S Ln. unfold set_npart_cells_host_device.
    assert (Hc : exists t0, create_map t = (t0, map snd (dats t)) /\ shape t0 /\ same_but_counts t t0 /\
              dat_h t0 = dat_h t /\ dat_d t0 = dat_d t).
    { unfold create_map. destruct (sh_map t S) as [E|E]; rewrite E.
      - eexists; split; [reflexivity|]. split; [|repeat split]. destruct S; constructor; cbn; auto.
      - exists t. split; auto. split; auto. repeat split. }
    destruct Hc as [t0 [Ec [S0 [Sm [Eh Ed]]]]]. rewrite Ec. destruct Sm as [M1 [M2 [M3 [M4 [M5 [M6 [M7 M8]]]]]]].
    destruct (spread_eq (map snd (dats t)) np (ncell t0) (dat_d t0)
      (ord d 400 (list_prod (seq 0 (length (map snd (dats t)))) (seq 0 (ncell t0))))) as [md [E1 [L1 [G1 N1]]]].
    { apply Ok. } { congruence. } { rewrite <- M8. apply (sh_dd t0 S0). }
    destruct (spread_eq (map snd (dats t)) np (ncell t0) (dat_h t0)
      (list_prod (seq 0 (length (map snd (dats t)))) (seq 0 (ncell t0)))) as [mh [E2 [L2 [G2 N2]]]].
    { reflexivity. } { congruence. } { rewrite <- M8. apply (sh_dh t0 S0). }
    rewrite E1. cbn [obind]. rewrite E2. cbn [obind]. eexists; split; [reflexivity|]. split.
    - destruct S0; constructor; cbn; try assumption; try congruence.
      + intros a Ia. rewrite M8 in Ia. exists np. split; [auto|congruence].
      + intros a Ia. rewrite M8 in Ia. exists np. split; [auto|congruence].
    - split; [|repeat split; auto]. intros a Ia. cbn in Ia. rewrite M8 in Ia. cbn. auto.
  Qed.

  Lemma set_h_eq t np : shape t -> length np = ncell t ->
    exists t', set_npart_cells_host d np t = Some t' /\ shape t' /\ dats_hold t' np /\ same_but_counts t t'.
  Proof.
    intros S Ln. unfold set_npart_cells_host.
    assert (Hc : shape (fst (create_map t)) /\ same_but_counts t (fst (create_map t))).
    { unfold create_map. destruct (sh_map t S) as [E|E]; rewrite E; cbn [fst].
      - split; [|repeat split]. destruct S; constructor; cbn; auto.
      - split; [auto|repeat split]. }
    destruct Hc as [S0 M]. destruct M as [M1 [M2 [M3 [M4 [M5 [M6 [M7 M8]]]]]]].
    rewrite copy_table_eq; [|congruence|unfold fresh; rewrite map_length, seq_length; auto]. cbn [obind].
    destruct (set_hd_eq (fst (create_map t)) np S0) as [t' [E [S' [D' N]]]]; [congruence|].
    exists t'. split; [auto|]. split; [auto|]. split; [auto|].
    destruct N as [N1 [N2 [N3 [N4 [N5 [N6 [N7 N8]]]]]]]. repeat split; congruence.
  Qed.

  Lemma check_eq t : shape t -> dats_hold t (h_npart t) -> check_dats_and_group_agree t = Some tt.
  Proof.
    intros S D. unfold check_dats_and_group_agree.
    assert (G : forall l : list (nat * nat), (forall e, In e l -> In (snd e) (map snd (dats t))) ->
      foldM (fun _ e => foldM (fun _ c => n <- rd2 (dat_h t) (snd e) c ;; m <- rd (h_npart t) c ;; assert (n =? m))
                        tt (seq 0 (ncell t))) tt l = Some tt).
    { induction l as [|e l IH]; intros Hl; cbn [foldM]; auto.
      replace (foldM _ tt (seq 0 (ncell t))) with (Some tt); [cbn [obind]; apply IH; intros; apply Hl; right; auto|].
      symmetry.
      assert (G2 : forall s, (forall c, In c s -> c < ncell t) ->
        foldM (fun _ c => n <- rd2 (dat_h t) (snd e) c ;; m <- rd (h_npart t) c ;; assert (n =? m)) tt s = Some tt).
      { induction s as [|c s IHs]; intros Hs; cbn [foldM]; auto.
        unfold rd2, rd at 1. rewrite (proj1 (D (snd e) (Hl e (or_introl eq_refl)))). cbn [obind]. unfold rd.
        destruct (nth_error (h_npart t) c) as [n|] eqn:En.
        - cbn [obind]. rewrite Nat.eqb_refl. cbn [assert obind]. apply IHs. intros; apply Hs; right; auto.
        - apply nth_error_None in En. rewrite (sh_h t S) in En. specialize (Hs c (or_introl eq_refl)). lia. }
      apply G2. intros c Hc. apply in_seq in Hc. lia. }
    apply G. intros e He. apply in_map; auto.
  Qed.

  (** ** The invariant *)
  Definition rows_ok (t : tables) (np : list nat) : Prop :=
    (hint = 0 -> rows_hold t np) /\
    (forall a, In (s_cell, a) (dats t) -> exists l, nth_error (dat_rows t) a = Some l /\
       forall c, nth c np 0 <= nth c l 0).
  Definition names_ok (t : tables) (names : list nat) : Prop :=
    (forall s, In s (map fst (dats t)) <-> In s names) /\
    In s_rank names /\ In s_pos names /\ In s_cell names.
  Record dinv (t : tables) (np names : list nat) : Prop := mk_dinv {
    di_shape : shape t;
    di_len : length np = ncell t;
    di_dats : dats_hold t np;
    di_rows : rows_ok t np;
    di_names : names_ok t names
  }.
  Record inv (t : tables) (np names : list nat) : Prop := mk_inv {
    in_d : dinv t np names;
    in_h : h_npart t = np;
    in_dv : d_npart t = np;
    in_eh : h_es t = es_of np;
    in_ed : d_es t = es_of np;
    in_l : npart_local t = list_sum np
  }.

  Lemma dat_of_in t s a : shape t -> (dat_of t s = Some a <-> In (s, a) (dats t)).
  Proof.
    intros S. unfold dat_of. pose proof (sh_names t S) as ND. revert ND. generalize (dats t). induction l as [|[x b] l IH]; intros ND.
    - cbn. split; [discriminate|tauto].
    - cbn [find fst]. inversion ND as [|? ? Hn ND']; subst. destruct (Nat.eqb_spec s x) as [->|Ne].
      + cbn. split; [intros [= <-]; auto|]. intros [[= <-]|I]; auto. exfalso. apply Hn. change x with (fst (x, a)).
        apply in_map; auto.
      + rewrite IH by auto. split; [right; auto|]. intros [[= <- <-]|I]; [congruence|auto].
  Qed.

  Lemma dat_of_names t s names : shape t -> names_ok t names -> In s names ->
    exists a, dat_of t s = Some a /\ In a (map snd (dats t)) /\ In (s, a) (dats t).
  Proof.
    intros S [H _] I. apply H in I. apply in_map_iff in I. destruct I as [[x a] [<- I]].
    exists a. split; [apply dat_of_in; auto|]. split; auto. change a with (snd (x, a)). apply in_map; auto.
  Qed.

  Lemma rows_all t np : rows_hold t np -> rows_ok t np.
  Proof.
    intros H. split; auto. intros a Ia. exists np. split; auto. apply H. change a with (snd (s_cell, a)). apply in_map; auto.
  Qed.

  Lemma names_same t t' names : dats t' = dats t -> names_ok t names -> names_ok t' names.
  Proof. unfold names_ok. intros ->; auto. Qed.

  Lemma grow_eq t np names : shape t -> names_ok t names -> h_npart t = np -> d_npart t = np ->
    exists t', grow_dats d t = Some t' /\ inv t' np names /\ ncell t' = ncell t.
  Proof.
    intros S N Hh Hd. unfold grow_dats. rewrite recompute_eq by auto. cbn [obind]. rewrite Hh.
    set (t1 := set_es _ _ _ _).
    assert (S1 : shape t1).
    { apply shape_set_es; auto; rewrite es_of_length, <- Hh; apply S. }
    destruct (realloc_all_eq t1 S1) as [r [E2 [S2 R2]]]. rewrite E2. cbn [obind].
    assert (E3' : h_npart (set_dat_rows t1 r) = np /\ d_npart (set_dat_rows t1 r) = np) by (split; auto).
    destruct E3' as [Eh3 Ed3]. rewrite Eh3, Ed3.
    destruct (set_hd_eq (set_dat_rows t1 r) np S2) as [t4 [E4 [S4 [D4 M4]]]].
    { cbn. rewrite <- Hh. apply S. }
    rewrite E4. cbn [obind]. destruct M4 as [M1 [M2 [M3 [M4 [M5 [M6 [M7 M8]]]]]]].
    rewrite check_eq; auto; [|rewrite M2; cbn; rewrite Hh; auto]. cbn [obind].
    exists t4. split; auto. split; [|rewrite M1; reflexivity].
    constructor; try (rewrite ?M2, ?M3, ?M4, ?M5, ?M6; cbn; auto; fail).
    constructor; auto.
    - rewrite M1. cbn. rewrite <- Hh. apply S.
    - apply rows_all. intros a Ia. rewrite M8 in Ia. rewrite M7. rewrite <- Hh. apply R2; auto.
    - apply (names_same t); auto.
  Qed.

  Lemma from_dat_eq t np names : dinv t np names ->
    exists t', set_npart_cell_from_dat s_pos t = Some t' /\ inv t' np names /\ ncell t' = ncell t.
  Proof.
    intros [S L D R N]. unfold set_npart_cell_from_dat.
    destruct (dat_of_names t s_pos names S N) as [a [Ea [Ia _]]]; [apply N|]. rewrite Ea. cbn [obind].
    unfold rd. rewrite (proj1 (D a Ia)). cbn [obind]. rewrite copy_table_eq by (auto; apply S). cbn [obind].
    assert (S1 : shape (set_group t np (d_npart t))) by (apply shape_set_group; auto; apply S).
    rewrite group_h2d by auto. cbn [obind]. cbn [h_npart set_group].
    assert (S2 : shape (set_group t np np)) by (apply shape_set_group; auto).
    change (set_group (set_group t np (d_npart t)) np np) with (set_group t np np).
    rewrite recompute_eq by auto. eexists; split; [reflexivity|]. split; [|reflexivity].
    constructor; try reflexivity. constructor; auto.
    apply shape_set_es; auto; rewrite es_of_length; auto.
  Qed.
End Inv.
