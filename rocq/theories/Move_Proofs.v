(** Proofs about moving particles between cells. *)
From Coq Require Import List Arith Lia ZArith Permutation Bool.
Import ListNotations.
From Verif Require Import Base Kernel Scan_Spec Group_Model Group_Spec Group_Proofs
  Compress_Model Compress_Spec Compress_Proofs Move_Model Move_Spec.

Section Ident.
  Context (d : device) (Hd : device_ok d) (pad : nat) (Hpad : 1 <= pad).
  Context (np : list nat) (ids : list (list Z)).
  Context (Hids : forall c n l, nth_error np c = Some n -> l < n -> exists z, rd2 ids c l = Some z).
  Let ncell := length np.

  Definition idz (w : nat * nat) : Z := match rd2 ids (fst w) (snd w) with Some z => z | None => 0%Z end.
  Definition mover (w : nat * nat) : bool :=
    negb (Z.of_nat (fst w) =? idz w)%Z && valid_cell (length np) (idz w).
  Definition dest (w : nat * nat) : nat := Z.to_nat (idz w).
  Definition moves_to (i : nat) (w : nat * nat) : bool := mover w && (dest w =? i).
  Definition li (w : nat * nat) : nat := loop_linear_index np (fst w) (snd w).

  Lemma id_rd w : In w (all_particles np) -> rd2 ids (fst w) (snd w) = Some (idz w).
  Proof using Hids.
    destruct w as [c l]. rewrite in_all_particles. intros [n [E H]].
    unfold idz. cbn. destruct (Hids c n l E H) as [z ->]; auto.
  Qed.

  Lemma valid_cell_spec z : valid_cell (length np) z = true <-> (0 <= z < Z.of_nat (length np))%Z.
  Proof using np. unfold valid_cell. rewrite andb_true_iff, Z.leb_le, Z.ltb_lt. tauto. Qed.

  Lemma mover_dest w : mover w = true -> dest w < length np /\ idz w = Z.of_nat (dest w).
  Proof using np ids.
    unfold mover, dest. rewrite andb_true_iff, valid_cell_spec. intros [_ H]. clear -H. split; lia.
  Qed.

  Lemma dest_pad i j : ncell + i * pad = ncell + j * pad -> i = j.
  Proof. intros. nia. Qed.

  (** The padded counters are reset. *)
  Lemma reset_correct buf sched : length buf = ncell + ncell * pad ->
    (forall c, In c sched <-> c < ncell) ->
    exists buf', foldM (reset_item pad ncell) buf sched = Some buf' /\ length buf' = length buf /\
      forall i, i < ncell -> nth_error buf' (ncell + i * pad) = Some 0.
  Proof.
    intros L Hs.
    destruct (foldM_upd (reset_item pad ncell) (fun c => ncell + c * pad) (fun _ => 0) sched buf)
      as [b [E [Lb [W N]]]].
    - intros; reflexivity.
    - intros c Hc. apply Hs in Hc. rewrite L. nia.
    - auto.
    - exists b; repeat split; auto. intros i Hi. apply W, Hs; auto.
  Qed.

  Definition ident_inv (pre : list (nat * nat)) (s : list nat * list Z * bool) : Prop :=
    let '(buf, tmp, flag) := s in
    length buf = ncell + ncell * pad /\ length tmp = list_sum np /\
    (forall i, i < ncell -> nth_error buf (ncell + i * pad) = Some (length (filter (moves_to i) pre))) /\
    (forall i k w, nth_error (filter (moves_to i) pre) k = Some w -> nth_error tmp (li w) = Some (Z.of_nat k)) /\
    (forall w, In w pre -> mover w = false -> nth_error tmp (li w) = Some (-1)%Z) /\
    flag = existsb (fun w => negb (valid_cell (length np) (idz w))) pre.

  Lemma identify_correct buf tmp sched :
    length buf = ncell + ncell * pad -> length tmp = list_sum np ->
    (forall i, i < ncell -> nth_error buf (ncell + i * pad) = Some 0) ->
    NoDup sched -> (forall w, In w sched -> In w (all_particles np)) ->
    exists s, foldM (identify_item pad np ids) (buf, tmp, false) sched = Some s /\ ident_inv sched s.
  Proof.
    intros L1 L2 B0 ND Hin. apply foldM_ind.
    - cbn. repeat split; auto.
      + intros i k w. destruct k; discriminate.
      + tauto.
    - intros pre [c l] post [[b t] fl] Es [I1 [I2 [I3 [I4 [I5 I6]]]]].
      assert (Hw : In (c, l) (all_particles np)) by (apply Hin; rewrite Es; apply in_or_app; right; left; auto).
      assert (Hpre : forall w, In w pre -> In w (all_particles np))
        by (intros w Hw'; apply Hin; rewrite Es; apply in_or_app; left; auto).
      assert (Hni : ~ In (c, l) pre).
      { rewrite Es in ND. apply NoDup_remove_2 in ND. intros C; apply ND, in_or_app; auto. }
      assert (Hli : forall w, In w pre -> li w <> li (c, l)).
      { intros [c' l'] Hp Heq. unfold li in Heq. cbn in Heq.
        pose proof (lli_inj np _ _ _ _ (Hpre _ Hp) Hw Heq) as Q. congruence. }
      pose proof (id_rd _ Hw) as Hid. cbn [fst snd] in Hid.
      unfold identify_item. rewrite Hid. cbn [obind].
      assert (Hm : mover (c, l) = negb (Z.of_nat c =? idz (c, l))%Z && valid_cell (length np) (idz (c, l))) by reflexivity.
      rewrite <- Hm. fold ncell.
      assert (Lt : loop_linear_index np c l < length t) by (rewrite I2; apply lli_lt; auto).
      destruct (mover (c, l)) eqn:Em.
      + destruct (mover_dest _ Em) as [D1 D2]. fold ncell in D1.
        change (Z.to_nat (idz (c, l))) with (dest (c, l)).
        unfold rd. rewrite (I3 _ D1). cbn [obind].
        destruct (upd_some b (ncell + dest (c, l) * pad) (length (filter (moves_to (dest (c, l))) pre) + 1)) as [b' Eb].
        { rewrite I1. nia. }
        rewrite Eb; cbn [obind].
        destruct (upd_some t (loop_linear_index np c l) (Z.of_nat (length (filter (moves_to (dest (c, l))) pre)))) as [t' Et]; auto.
        rewrite Et; cbn [obind]. eexists; split; [reflexivity|].
        assert (Mt : forall i, moves_to i (c, l) = (dest (c, l) =? i)) by (intros; unfold moves_to; rewrite Em; auto).
        cbn [ident_inv]. split; [rewrite (upd_length _ _ _ _ Eb); auto|].
        split; [rewrite (upd_length _ _ _ _ Et); auto|]. split; [|split; [|split]].
        * intros i Hi. rewrite (upd_nth _ _ _ _ _ Eb), filter_app, app_length. cbn [filter]. rewrite Mt.
          destruct (Nat.eqb_spec (ncell + i * pad) (ncell + dest (c, l) * pad)) as [Q|Q].
          -- apply dest_pad in Q. subst i. rewrite Nat.eqb_refl. auto.
          -- destruct (Nat.eqb_spec (dest (c, l)) i) as [Q2|]; [subst i; congruence|].
             rewrite I3 by auto. cbn. f_equal; lia.
        * intros i k w. rewrite filter_app. cbn [filter]. rewrite Mt.
          destruct (Nat.eqb_spec (dest (c, l)) i) as [Q|Q].
          -- subst i. intros Hk. destruct (lt_dec k (length (filter (moves_to (dest (c, l))) pre))) as [K|K].
             ++ rewrite nth_error_app1 in Hk by auto. rewrite (upd_nth_neq _ _ _ _ _ Et).
                ** eapply I4; eauto.
                ** apply Hli. apply nth_error_In in Hk. apply filter_In in Hk. tauto.
             ++ rewrite nth_error_app2 in Hk by lia.
                destruct (k - length (filter (moves_to (dest (c, l))) pre)) as [|k'] eqn:Ek; [|destruct k'; discriminate].
                cbn in Hk. injection Hk as <-. unfold li. cbn [fst snd]. rewrite (upd_nth_eq _ _ _ _ Et). f_equal. lia.
          -- rewrite app_nil_r. intros Hk. rewrite (upd_nth_neq _ _ _ _ _ Et).
             ++ eapply I4; eauto.
             ++ apply Hli. apply nth_error_In in Hk. apply filter_In in Hk. tauto.
        * intros w Hw' Hf. apply in_app_or in Hw'. destruct Hw' as [Hw'|[<-|[]]]; [|congruence].
          rewrite (upd_nth_neq _ _ _ _ _ Et) by (apply Hli; auto). auto.
        * rewrite I6, existsb_app. cbn. rewrite orb_false_r. auto.
      + destruct (upd_some t (loop_linear_index np c l) (-1)%Z) as [t' Et]; auto.
        rewrite Et; cbn [obind]. eexists; split; [reflexivity|].
        assert (Mt : forall i, moves_to i (c, l) = false) by (intros; unfold moves_to; rewrite Em; auto).
        cbn [ident_inv]. split; [auto|].
        split; [rewrite (upd_length _ _ _ _ Et); auto|]. split; [|split; [|split]].
        * intros i Hi. rewrite filter_app. cbn [filter]. rewrite Mt, app_nil_r. auto.
        * intros i k w. rewrite filter_app. cbn [filter]. rewrite Mt, app_nil_r. intros Hk.
          rewrite (upd_nth_neq _ _ _ _ _ Et).
          -- eapply I4; eauto.
          -- apply Hli. apply nth_error_In in Hk. apply filter_In in Hk. tauto.
        * intros w Hw' Hf. apply in_app_or in Hw'. destruct Hw' as [Hw'|[<-|[]]].
          -- rewrite (upd_nth_neq _ _ _ _ _ Et) by (apply Hli; auto). auto.
          -- apply (upd_nth_eq _ _ _ _ Et).
        * rewrite I6, existsb_app. cbn. rewrite orb_false_r. auto.
  Qed.
End Ident.

Section Collect.
  Context (np : list nat) (ids : list (list Z)).
  Context (Hids : forall c n l, nth_error np c = Some n -> l < n -> exists z, rd2 ids c l = Some z).
  Let ncell := length np.
  Notation mover := (mover np ids).
  Notation dest := (dest ids).
  Notation moves_to := (moves_to np ids).
  Notation li := (li np).

  (** The order in which the identify kernel processed the particles. *)
  Context (sched : list (nat * nat)) (Psched : Permutation sched (all_particles np)).
  Definition M (i : nat) : list (nat * nat) := filter (moves_to i) sched.
  Definition mcnt : list nat := map (fun i => length (M i)) (seq 0 (length np)).

  Lemma sched_in w : In w sched <-> In w (all_particles np).
  Proof. split; apply Permutation_in; [|symmetry]; auto. Qed.

  Lemma sched_nodup : NoDup sched.
  Proof. eapply Permutation_NoDup; [symmetry; eauto|apply all_particles_nodup]. Qed.

  Lemma M_in i w : In w (M i) <-> In w (all_particles np) /\ mover w = true /\ dest w = i.
  Proof.
    unfold M. rewrite filter_In, sched_in. unfold Move_Proofs.moves_to. rewrite andb_true_iff, Nat.eqb_eq. tauto.
  Qed.

  Lemma M_nodup i : NoDup (M i).
  Proof. apply NoDup_filter, sched_nodup. Qed.

  Lemma mcnt_nth i : i < ncell -> nth_error mcnt i = Some (length (M i)).
  Proof. intros H. unfold mcnt. rewrite nth_error_map_seq. fold ncell. destruct (Nat.ltb_spec i ncell); [auto|lia]. Qed.

  Lemma mcnt_length : length mcnt = ncell.
  Proof. unfold mcnt. rewrite map_length, seq_length; auto. Qed.

  (** No more particles move than exist. *)
  Lemma mcnt_le : psum mcnt ncell <= list_sum np.
  Proof.
    assert (G : forall n, n <= ncell -> psum mcnt n = length (flat_map M (seq 0 n))).
    { induction n as [|n IH]; intros Hn; [reflexivity|].
      rewrite (psum_S _ _ _ (mcnt_nth n ltac:(lia))), IH by lia.
      rewrite seq_S, flat_map_app, app_length. cbn. rewrite app_nil_r; auto. }
    rewrite (G ncell (le_n _)), <- all_particles_length. apply NoDup_incl_length.
    - apply NoDup_flat_map.
      + apply seq_NoDup.
      + intros; apply M_nodup.
      + intros a1 a2 w _ _ H1 H2. apply M_in in H1, H2. destruct H1 as [_ [_ <-]], H2 as [_ [_ <-]]; auto.
    - intros w Hw. apply in_flat_map in Hw. destruct Hw as [i [_ Hw]]. apply M_in in Hw. tauto.
  Qed.

  Lemma count_correct pad (Hpad : 1 <= pad) buf t sched2 :
    length buf = ncell + ncell * pad -> length t = ncell + 1 ->
    (forall c, In c sched2 <-> c < ncell) ->
    (forall i, i < ncell -> nth_error buf (ncell + i * pad) = Some (length (M i))) ->
    exists buf' t', foldM (count_item pad np) (buf, t) sched2 = Some (buf', t') /\
      firstn ncell buf' = map (fun c => length (M c) + nth c np 0) (seq 0 ncell) /\
      length t' = ncell + 1 /\ firstn ncell t' = mcnt.
  Proof.
    intros L1 L2 Hs HB.
    destruct (@foldM_ind nat (list nat * list nat) (count_item pad np)
      (fun pre s => length (fst s) = ncell + ncell * pad /\ length (snd s) = ncell + 1 /\
        (forall i, i < ncell -> nth_error (fst s) (ncell + i * pad) = Some (length (M i))) /\
        (forall c, In c pre -> nth_error (fst s) c = Some (length (M c) + nth c np 0) /\
                               nth_error (snd s) c = Some (length (M c)))) sched2 (buf, t))
      as [[b' t'] [E [H1 [H2 [H3 H4]]]]].
    - cbn. repeat split; auto; tauto.
    - intros pre c post [b s] Es [I1 [I2 [I3 I4]]]. cbn [fst snd] in *.
      assert (Hc : c < ncell) by (apply Hs; rewrite Es; apply in_or_app; right; left; auto).
      unfold count_item. cbn [fst snd]. fold ncell. unfold rd. rewrite (I3 c Hc). cbn [obind].
      rewrite (nth_error_nth' np 0 Hc). cbn [obind].
      destruct (upd_some b c (length (M c) + nth c np 0)) as [b1 E1]; [rewrite I1; lia|]. rewrite E1; cbn [obind].
      destruct (upd_some s c (length (M c))) as [s1 E2]; [rewrite I2; lia|]. rewrite E2; cbn [obind].
      eexists; split; [reflexivity|]. cbn [fst snd].
      split; [rewrite (upd_length _ _ _ _ E1); auto|]. split; [rewrite (upd_length _ _ _ _ E2); auto|]. split.
      + intros i Hi. rewrite (upd_nth_neq _ _ _ _ _ E1) by lia. auto.
      + intros c' Hc'. apply in_app_or in Hc'. rewrite (upd_nth _ _ _ _ c' E1), (upd_nth _ _ _ _ c' E2).
        destruct (Nat.eqb_spec c' c); [subst; auto|]. destruct Hc' as [Hc'|[<-|[]]]; [auto|congruence].
    - cbn [fst snd] in *. exists b', t'. split; auto. split; [|split; auto].
      + apply nth_error_ext. intros i. rewrite nth_error_firstn, nth_error_map_seq.
        destruct (Nat.ltb_spec i ncell); auto. apply H4, Hs; auto.
      + apply nth_error_ext. intros i. rewrite nth_error_firstn. unfold mcnt. rewrite nth_error_map_seq. fold ncell.
        destruct (Nat.ltb_spec i ncell); auto. apply H4, Hs; auto.
  Qed.

  Definition entry (p : move_plan) (j c i l n : nat) : Prop :=
    nth_error (mv_cells_old p) j = Some c /\ nth_error (mv_cells_new p) j = Some i /\
    nth_error (mv_layers_old p) j = Some l /\ nth_error (mv_layers_new p) j = Some n.

  Definition plan_len (p : move_plan) (n : nat) : Prop :=
    length (mv_cells_old p) = n /\ length (mv_cells_new p) = n /\
    length (mv_layers_old p) = n /\ length (mv_layers_new p) = n.

  Lemma collect_correct tmp es p0 sched2 :
    (forall i k w, nth_error (M i) k = Some w -> nth_error tmp (li w) = Some (Z.of_nat k)) ->
    (forall w, In w (all_particles np) -> mover w = false -> nth_error tmp (li w) = Some (-1)%Z) ->
    (forall i, i < ncell -> nth_error es i = Some (psum mcnt i)) ->
    plan_len p0 (list_sum np) -> (forall w, In w sched2 <-> In w (all_particles np)) ->
    exists p, foldM (collect_item np ids tmp es) p0 sched2 = Some p /\ plan_len p (list_sum np) /\
      forall i k w, nth_error (M i) k = Some w ->
        entry p (psum mcnt i + k) (fst w) i (snd w) (nth i np 0 + k).
  Proof.
    intros HT HN HE HL Hs.
    destruct (@foldM_ind _ _ (collect_item np ids tmp es)
      (fun pre p => plan_len p (list_sum np) /\
        forall i k w, nth_error (M i) k = Some w -> In w pre ->
          entry p (psum mcnt i + k) (fst w) i (snd w) (nth i np 0 + k)) sched2 p0)
      as [p [E [H1 H2]]].
    - split; auto. intros ? ? ? _ [].
    - intros pre [c l] post p Es [I1 I2].
      assert (Hw : In (c, l) (all_particles np)) by (apply Hs; rewrite Es; apply in_or_app; right; left; auto).
      unfold collect_item. change (loop_linear_index np c l) with (li (c, l)). unfold rd.
      destruct (mover (c, l)) eqn:Em.
      + assert (Hm : In (c, l) (M (dest (c, l)))) by (apply M_in; auto).
        destruct (In_nth_error _ _ Hm) as [k Hk].
        destruct (mover_dest np ids _ Em) as [D1 D2].
        rewrite (HT _ _ _ Hk). cbn [obind].
        destruct (Z.ltb_spec (-1) (Z.of_nat k)); [|lia].
        pose proof (id_rd np ids Hids _ Hw) as Hid. cbn [fst snd] in Hid. rewrite Hid. cbn [obind].
        change (Z.to_nat (idz ids (c, l))) with (dest (c, l)). rewrite (HE _ D1). cbn [obind].
        rewrite (nth_error_nth' np 0 D1). cbn [obind]. rewrite Nat2Z.id.
        assert (Hj : k + psum mcnt (dest (c, l)) < list_sum np).
        { pose proof mcnt_le. pose proof (psum_lt _ _ ncell _ (mcnt_nth _ D1) D1).
          pose proof (nth_error_some_lt _ _ _ Hk). lia. }
        destruct I1 as [A1 [A2 [A3 A4]]].
        destruct (upd_some (mv_cells_old p) (k + psum mcnt (dest (c, l))) c) as [x1 X1]; [lia|]. rewrite X1; cbn [obind].
        destruct (upd_some (mv_cells_new p) (k + psum mcnt (dest (c, l))) (dest (c, l))) as [x2 X2]; [lia|]. rewrite X2; cbn [obind].
        destruct (upd_some (mv_layers_old p) (k + psum mcnt (dest (c, l))) l) as [x3 X3]; [lia|]. rewrite X3; cbn [obind].
        destruct (upd_some (mv_layers_new p) (k + psum mcnt (dest (c, l))) (k + nth (dest (c, l)) np 0)) as [x4 X4]; [lia|]. rewrite X4; cbn [obind].
        eexists; split; [reflexivity|]. split.
        * unfold plan_len; cbn. rewrite (upd_length _ _ _ _ X1), (upd_length _ _ _ _ X2), (upd_length _ _ _ _ X3), (upd_length _ _ _ _ X4). auto.
        * intros i k' w Hk' Hin. unfold entry; cbn [mv_cells_old mv_cells_new mv_layers_old mv_layers_new].
          rewrite (upd_nth _ _ _ _ _ X1), (upd_nth _ _ _ _ _ X2), (upd_nth _ _ _ _ _ X3), (upd_nth _ _ _ _ _ X4).
          destruct (Nat.eqb_spec (psum mcnt i + k') (k + psum mcnt (dest (c, l)))) as [Q|Q].
          -- assert (Hi : i < ncell).
             { pose proof (nth_error_In _ _ Hk') as I. apply M_in in I. destruct I as [_ [Mw <-]].
               apply (mover_dest np ids _ Mw). }
             destruct (psum_unique mcnt i (dest (c, l)) k' k _ _ (mcnt_nth i Hi) (mcnt_nth _ D1)) as [-> ->].
             ++ eapply nth_error_some_lt; eauto.
             ++ eapply nth_error_some_lt; eauto.
             ++ lia.
             ++ rewrite Hk in Hk'. injection Hk' as <-. cbn. repeat split; auto. f_equal; lia.
          -- apply in_app_or in Hin. destruct Hin as [Hin|[<-|[]]]; [apply (I2 i k' w); auto|].
             exfalso. pose proof (nth_error_In _ _ Hk') as I. apply M_in in I. destruct I as [_ [_ <-]].
             assert (k' = k); [|lia]. pose proof (M_nodup (dest (c, l))) as ND. rewrite NoDup_nth_error in ND.
             apply ND; [eapply nth_error_some_lt; eauto|congruence].
      + rewrite (HN _ Hw Em). cbn [obind]. cbn [Z.ltb]. change (-1 <? -1)%Z with false. cbn match.
        exists p; split; auto. split; auto. intros i k w Hk Hin.
        apply in_app_or in Hin. destruct Hin as [Hin|[<-|[]]]; [auto|].
        apply nth_error_In in Hk. apply M_in in Hk. destruct Hk as [_ [? _]]; congruence.
    - exists p; split; auto. split; auto. intros i k w Hk. apply H2; auto. apply Hs.
      apply nth_error_In in Hk. apply M_in in Hk. tauto.
  Qed.

  (** Every entry of the plan. *)
  Lemma entry_find p j :
    (forall i k w, nth_error (M i) k = Some w -> entry p (psum mcnt i + k) (fst w) i (snd w) (nth i np 0 + k)) ->
    j < psum mcnt ncell ->
    exists i k w, i < ncell /\ nth_error (M i) k = Some w /\ j = psum mcnt i + k /\
      entry p j (fst w) i (snd w) (nth i np 0 + k).
  Proof.
    intros H Hj. destruct (psum_find mcnt j ncell) as [i [n [k [A [B [C D]]]]]]; [rewrite mcnt_length; auto|auto|].
    rewrite (mcnt_nth i A) in B. injection B as <-. destruct (nth_error_lt_some _ _ C) as [w Hw].
    exists i, k, w. split; auto. split; auto. split; auto. subst j; apply H; auto.
  Qed.

  Definition np1 : list nat := map (fun c => length (M c) + nth c np 0) (seq 0 (length np)).

  Lemma np1_nth c : c < ncell -> nth_error np1 c = Some (length (M c) + nth c np 0).
  Proof. intros H. unfold np1. rewrite nth_error_map_seq. fold ncell. destruct (Nat.ltb_spec c ncell); [auto|lia]. Qed.

  Lemma np1_length : length np1 = ncell.
  Proof. unfold np1. rewrite map_length, seq_length; auto. Qed.

  (** The copies of one store. *)
  Lemma move_copy_correct {V} (u : nat -> nat -> nat -> V) (D : list (list (list V))) p sched2 :
    (forall col, In col D -> wf_comp np col) ->
    (forall i k w, nth_error (M i) k = Some w -> entry p (psum mcnt i + k) (fst w) i (snd w) (nth i np 0 + k)) ->
    (forall w, In w sched2 <-> fst w < length D /\ snd w < psum mcnt ncell) ->
    exists D1, foldM (move_copy_item p) (realloc_rows u np1 D) sched2 = Some D1 /\
      length D1 = length D /\ (forall col, In col D1 -> shape2 col = np1) /\
      (forall f c l, f < length D -> c < ncell -> l < nth c np 0 -> rd3 D1 f c l = rd3 D f c l) /\
      (forall f i k w, f < length D -> nth_error (M i) k = Some w ->
         rd3 D1 f i (nth i np 0 + k) = rd3 D f (fst w) (snd w)).
  Proof.
    intros Wf HE Hs.
    assert (Sh : shape3 (realloc_rows u np1 D) = map (fun _ => np1) D).
    { apply realloc_shape. intros col Hc. rewrite np1_length. apply (Wf col Hc). }
    destruct (shape_const _ _ _ Sh) as [LenD0 ShD0].
    assert (Keep : forall f c l, f < length D -> c < ncell -> l < nth c np 0 ->
      rd3 (realloc_rows u np1 D) f c l = rd3 D f c l /\ exists v, rd3 D f c l = Some v).
    { intros f c l Hf Hc Hl. destruct (wf_rd3' np D Wf f c l _ Hf (nth_error_nth' np 0 Hc) Hl) as [v Ev].
      split; [|eauto]. rewrite Ev. apply realloc_keep; auto.
      rewrite (nth_error_nth np1 c 0 (np1_nth c Hc)). lia. }
    assert (Hplace : forall i k w, nth_error (M i) k = Some w ->
      i < ncell /\ fst w < ncell /\ snd w < nth (fst w) np 0).
    { intros i k [c l] Hk. apply nth_error_In in Hk. apply M_in in Hk. destruct Hk as [Hi [Mw <-]].
      split; [apply (mover_dest np ids _ Mw)|]. apply in_all_particles in Hi. destruct Hi as [n [En Hl]].
      cbn [fst snd]. split; [eapply nth_error_some_lt; eauto|]. rewrite (nth_error_nth np c 0 En). auto. }
    destruct (foldM_copy3 (@move_copy_item V p)
      (fun w => (fst w, nth (snd w) (mv_cells_old p) 0, nth (snd w) (mv_layers_old p) 0))
      (fun w => (fst w, nth (snd w) (mv_cells_new p) 0, nth (snd w) (mv_layers_new p) 0))
      sched2 (realloc_rows u np1 D)) as [D1 [E [S1 [C1 U1]]]].
    - intros m' [f j] Sm Hin. apply Hs in Hin. cbn [fst snd] in Hin.
      destruct (entry_find p j HE (proj2 Hin)) as [i [k [w [A [B [C [E1 [E2 [E3 E4]]]]]]]]].
      unfold move_copy_item. cbn [fst snd]. unfold rd.
      rewrite E1, E2, E3, E4. cbn [obind]. unfold get3. cbn [fst snd].
      rewrite (nth_error_nth _ _ 0 E1), (nth_error_nth _ _ 0 E2), (nth_error_nth _ _ 0 E3), (nth_error_nth _ _ 0 E4). auto.
    - intros [f j] Hin. apply Hs in Hin. cbn [fst snd] in *.
      destruct (entry_find p j HE (proj2 Hin)) as [i [k [w [A [B [C [E1 [E2 [E3 E4]]]]]]]]].
      unfold get3; cbn [fst snd]. rewrite (nth_error_nth _ _ 0 E1), (nth_error_nth _ _ 0 E3).
      destruct (Hplace _ _ _ B) as [P1 [P2 P3]]. destruct (Keep f (fst w) (snd w)) as [K1 [v K2]]; try tauto.
      rewrite K1; eauto.
    - intros [f j] Hin. apply Hs in Hin. cbn [fst snd] in *.
      destruct (entry_find p j HE (proj2 Hin)) as [i [k [w [A [B [C [E1 [E2 [E3 E4]]]]]]]]].
      unfold get3; cbn [fst snd]. rewrite (nth_error_nth _ _ 0 E2), (nth_error_nth _ _ 0 E4).
      eapply shape_rd3; [apply ShD0|rewrite LenD0; tauto|apply np1_nth; auto|].
      pose proof (nth_error_some_lt _ _ _ B). lia.
    - intros [f j] [f' j'] Hin Hin'. apply Hs in Hin, Hin'. cbn [fst snd] in *.
      destruct (entry_find p j HE (proj2 Hin)) as [i [k [w [A [B [C [E1 [E2 [E3 E4]]]]]]]]].
      destruct (entry_find p j' HE (proj2 Hin')) as [i' [k' [w' [A' [B' [C' [E1' [E2' [E3' E4']]]]]]]]].
      rewrite (nth_error_nth _ _ 0 E2), (nth_error_nth _ _ 0 E4), (nth_error_nth _ _ 0 E1'), (nth_error_nth _ _ 0 E3').
      destruct (Hplace _ _ _ B') as [P1 [P2 P3]]. intros [= -> Q2 Q3]. subst i. lia.
    - intros [f j] [f' j'] Hin Hin'. apply Hs in Hin, Hin'. cbn [fst snd] in *.
      destruct (entry_find p j HE (proj2 Hin)) as [i [k [w [A [B [C [E1 [E2 [E3 E4]]]]]]]]].
      destruct (entry_find p j' HE (proj2 Hin')) as [i' [k' [w' [A' [B' [C' [E1' [E2' [E3' E4']]]]]]]]].
      rewrite (nth_error_nth _ _ 0 E2), (nth_error_nth _ _ 0 E4), (nth_error_nth _ _ 0 E2'), (nth_error_nth _ _ 0 E4').
      intros [= -> <- Q3]. assert (k = k') by lia. subst k'. rewrite B in B'. injection B' as <-.
      subst j j'. reflexivity.
    - exists D1. split; auto.
      assert (S1' : shape3 D1 = map (fun _ => np1) D) by congruence.
      destruct (shape_const _ _ _ S1') as [LenD1 ShD1]. split; auto. split; auto. split.
      + intros f c l Hf Hc Hl. destruct (Keep f c l Hf Hc Hl) as [K1 _]. rewrite <- K1.
        apply (U1 (f, c, l)). intros [f' j] Hin. apply Hs in Hin. cbn [fst snd] in *.
        destruct (entry_find p j HE (proj2 Hin)) as [i [k [w [A [B [C [E1 [E2 [E3 E4]]]]]]]]].
        rewrite (nth_error_nth _ _ 0 E2), (nth_error_nth _ _ 0 E4). intros [= -> -> Q]. lia.
      + intros f i k w Hf Hk. destruct (Hplace _ _ _ Hk) as [P1 [P2 P3]].
        destruct (HE _ _ _ Hk) as [E1 [E2 [E3 E4]]].
        assert (Hj : psum mcnt i + k < psum mcnt ncell).
        { pose proof (psum_lt _ _ ncell _ (mcnt_nth _ P1) P1). pose proof (nth_error_some_lt _ _ _ Hk). lia. }
        specialize (C1 (f, psum mcnt i + k)). cbn [fst snd] in C1.
        rewrite (nth_error_nth _ _ 0 E1), (nth_error_nth _ _ 0 E2), (nth_error_nth _ _ 0 E3), (nth_error_nth _ _ 0 E4) in C1.
        unfold get3 in C1; cbn [fst snd] in C1. rewrite C1 by (apply Hs; auto).
        apply Keep; auto.
  Qed.
End Collect.

(** ** The whole operation *)
Lemma listed_iff cells layers c l : listed cells layers c l = true <->
  exists j, nth_error cells j = Some (Z.of_nat c) /\ nth_error layers j = Some (Z.of_nat l).
Proof. apply listed_in. Qed.

Section Whole.
  Context (d : device) (Hd : device_ok d) (pad : nat) (Hpad : 1 <= pad).
  Context {R : Type} (uR : nat -> nat -> nat -> R) (uZ : nat -> nat -> nat -> Z).
  Context (cid : nat) (g : group R) (Wf : wf_group g) (Hcid : cid < length (ints (st g))).
  Let np := npart_cell g.
  Let ncell := length np.

  Lemma bad_ids_fail : some_id_out_of_range cid g -> cell_move d pad uR uZ cid g = None.
  Proof.
    intros [c0 [l0 [n0 [z0 [B1 [B2 [B3 B4]]]]]]].
    destruct (ids_of cid g Wf Hcid) as [ids [Ei [Gi Hids]]].
    unfold cell_move. unfold rd at 1. rewrite Ei. cbn [obind]. fold np. fold ncell.
    destruct (reset_correct pad Hpad np (fresh d 100 (ncell + ncell * pad)) (ord d 100 (seq 0 ncell))) as [buf0 [E0 [L0 Z0]]].
    { rewrite fresh_length; auto. }
    { intros c. rewrite in_ord by auto. rewrite in_seq. fold ncell; lia. }
    fold ncell in E0. rewrite E0. cbn [obind].
    destruct (identify_correct pad Hpad np ids Hids buf0 (freshZ d 101 (list_sum np)) (ord d 101 (all_particles np)))
      as [[[buf1 tmp] flag] [E1 I1]].
    { rewrite L0, fresh_length; auto. }
    { apply freshZ_length. }
    { auto. }
    { eapply Permutation_NoDup; [symmetry; apply Hd|apply all_particles_nodup]. }
    { intros w. apply in_ord; auto. }
    rewrite E1. cbn [obind]. destruct I1 as [_ [_ [_ [_ [_ F]]]]].
    assert (flag = true) as ->.
    { rewrite F. apply existsb_exists. exists (c0, l0). split.
      - apply in_ord; auto. apply in_all_particles. eauto.
      - rewrite Gi in B3. unfold idz. cbn [fst snd]. rewrite B3.
        destruct (valid_cell (length np) z0) eqn:Ev; auto. apply valid_cell_spec in Ev. fold np in B4. lia. }
    reflexivity.
  Qed.

  Lemma cell_move_correct : ids_in_range cid g ->
    exists g', cell_move d pad uR uZ cid g = Some g' /\ wf_group g' /\ is_cell_move cid g g'.
  Proof.
    intros HR.
    destruct (ids_of cid g Wf Hcid) as [ids [Ei [Gi Hids]]]. fold np in Hids.
    unfold cell_move. unfold rd at 1. rewrite Ei. cbn [obind]. fold np. fold ncell.
    destruct (reset_correct pad Hpad np (fresh d 100 (ncell + ncell * pad)) (ord d 100 (seq 0 ncell))) as [buf0 [E0 [L0 Z0]]].
    { rewrite fresh_length; auto. }
    { intros c. rewrite in_ord by auto. rewrite in_seq. fold ncell; lia. }
    fold ncell in E0. rewrite E0. cbn [obind].
    set (sched := ord d 101 (all_particles np)).
    assert (Ps : Permutation sched (all_particles np)) by apply Hd.
    destruct (identify_correct pad Hpad np ids Hids buf0 (freshZ d 101 (list_sum np)) sched)
      as [[[buf1 tmp] flag] [E1 I1]].
    { rewrite L0, fresh_length; auto. }
    { apply freshZ_length. }
    { auto. }
    { eapply Permutation_NoDup; [symmetry; apply Hd|apply all_particles_nodup]. }
    { intros w. apply in_ord; auto. }
    rewrite E1. cbn [obind]. destruct I1 as [J1 [J2 [J3 [J4 [J5 F]]]]].
    assert (Hval : forall w, In w (all_particles np) -> exists i, i < ncell /\ idz ids w = Z.of_nat i).
    { intros [c l] Hw. apply in_all_particles in Hw. destruct Hw as [n [En Hl]].
      destruct (HR c l n En Hl) as [i [Hi1 Hi2]]. rewrite Gi in Hi1. exists i. split; auto.
      unfold idz. cbn. rewrite Hi1; auto. }
    assert (flag = false) as ->.
    { rewrite F. apply not_true_is_false. intros C. apply existsb_exists in C. destruct C as [w [Hw Hv]].
      destruct (Hval w) as [i [Hi1 Hi2]]; [apply (in_ord d 101); auto|]. rewrite Hi2 in Hv.
      assert (valid_cell (length np) (Z.of_nat i) = true) as V by (apply valid_cell_spec; fold ncell; lia).
      rewrite V in Hv. discriminate. }
    cbn [negb assert obind].
    destruct (count_correct np ids sched pad Hpad buf1 (fresh d 102 (ncell + 1)) (ord d 102 (seq 0 ncell)))
      as [buf2 [t2 [E2 [K1 [K2 K3]]]]].
    { auto. } { apply fresh_length. }
    { intros c. rewrite in_ord by auto. rewrite in_seq. fold ncell; lia. }
    { auto. }
    rewrite E2. cbn [obind fst snd]. fold ncell in K1, K2, K3.
    destruct (exscan_correct d 110 (ncell + 1) t2 (repeat 0 (ncell + 1)) Hd) as [es [E3 [Q2 _]]].
    { lia. } { rewrite repeat_length; lia. }
    rewrite E3. cbn [obind].
    assert (HE : forall i, i <= ncell -> nth_error es i = Some (psum (mcnt np ids sched) i)).
    { intros i Hi. rewrite Q2 by lia. f_equal. unfold psum. f_equal. rewrite <- K3. rewrite firstn_firstn.
      rewrite Nat.min_l by lia. auto. }
    unfold rd at 1. rewrite (HE ncell (le_n _)). cbn [obind].
    pose proof (mcnt_le np ids sched Ps) as Hle. fold ncell in Hle.
    destruct (Nat.leb_spec (psum (mcnt np ids sched) ncell) (list_sum np)); [|lia]. cbn [assert obind].
    destruct (collect_correct np ids Hids sched Ps tmp es
      (mk_move_plan (fresh d 103 (list_sum np)) (fresh d 104 (list_sum np)) (fresh d 105 (list_sum np)) (fresh d 106 (list_sum np)))
      (ord d 103 (all_particles np))) as [p [E4 [PL HP]]].
    { exact J4. }
    { intros w Hw Hm. apply J5; auto. apply (Permutation_in _ (Permutation_sym Ps)); auto. }
    { intros i Hi. apply HE. fold ncell in Hi. lia. }
    { unfold plan_len; cbn. rewrite !fresh_length; auto. }
    { intros w. apply in_ord; auto. }
    rewrite E4. cbn [obind].
    change (map (fun c => length (M np ids sched c) + nth c np 0) (seq 0 ncell)) with (np1 np ids sched) in K1.
    rewrite K1. rewrite !realloc_length.
    destruct Wf as [WR WI].
    destruct (move_copy_correct np ids sched Ps uR (reals (st g)) p
      (ord d 120 (list_prod (seq 0 (length (reals (st g)))) (seq 0 (psum (mcnt np ids sched) ncell)))) WR HP)
      as [R1 [E5 [LR1 [SR1 [CR1 CR2]]]]].
    { intros [f j]. rewrite in_ord by auto. rewrite in_prod_iff, !in_seq. cbn [fst snd]. fold ncell. lia. }
    rewrite E5. cbn [obind].
    destruct (move_copy_correct np ids sched Ps uZ (ints (st g)) p
      (ord d 121 (list_prod (seq 0 (length (ints (st g)))) (seq 0 (psum (mcnt np ids sched) ncell)))) WI HP)
      as [I1 [E6 [LI1 [SI1 [CI1 CI2]]]]].
    { intros [f j]. rewrite in_ord by auto. rewrite in_prod_iff, !in_seq. cbn [fst snd]. fold ncell. lia. }
    rewrite E6. cbn [obind].
    set (g1 := mk_group (mk_store R1 I1) (np1 np ids sched)).
    set (mc := psum (mcnt np ids sched) ncell).
    set (cells := map Z.of_nat (firstn mc (mv_cells_old p))).
    set (layers := map Z.of_nat (firstn mc (mv_layers_old p))).
    fold ncell in CR1, CI1.
    assert (Wf1 : wf_group g1).
    { split; cbn; intros col Hc; apply shape_wf; auto. }
    (* where the particles of g1 come from *)
    assert (At1 : forall c l, c < ncell -> l < nth c np 0 -> particle_at (st g1) c l = particle_at (st g) c l).
    { intros c l Hc Hl. apply particle_at_eq; cbn; auto. }
    assert (At2 : forall i k w, nth_error (M np ids sched i) k = Some w ->
      particle_at (st g1) i (nth i np 0 + k) = particle_at (st g) (fst w) (snd w)).
    { intros i k w Hk. apply particle_at_eq; cbn; auto. }
    (* the removal list *)
    assert (Hlist : forall c l, listed cells layers c l = true <->
      In (c, l) (all_particles np) /\ mover np ids (c, l) = true).
    { intros c l. rewrite listed_iff. unfold cells, layers. split.
      - intros [j [H1 H2]]. rewrite nth_error_map, nth_error_firstn in H1, H2.
        destruct (Nat.ltb_spec j mc) as [Hj|]; [|discriminate].
        destruct (entry_find np ids sched p j HP Hj) as [i [k [w [A [B [C [X1 [X2 [X3 X4]]]]]]]]].
        rewrite X1 in H1. rewrite X3 in H2. cbn in H1, H2. injection H1 as H1. injection H2 as H2.
        apply Nat2Z.inj in H1, H2. subst c l. rewrite <- surjective_pairing.
        apply nth_error_In in B. apply (M_in np ids sched Ps) in B. tauto.
      - intros [H1 H2]. assert (Hm : In (c, l) (M np ids sched (dest ids (c, l)))) by (apply (M_in np ids sched Ps); auto).
        destruct (In_nth_error _ _ Hm) as [k Hk]. destruct (mover_dest np ids _ H2) as [D1 D2].
        destruct (HP _ _ _ Hk) as [X1 [X2 [X3 X4]]].
        exists (psum (mcnt np ids sched) (dest ids (c, l)) + k).
        rewrite !nth_error_map, !nth_error_firstn.
        assert (Hj : psum (mcnt np ids sched) (dest ids (c, l)) + k < mc).
        { unfold mc. fold ncell in D1.
          pose proof (psum_lt _ _ ncell _ (mcnt_nth np ids sched _ D1) D1). pose proof (nth_error_some_lt _ _ _ Hk). lia. }
        destruct (Nat.ltb_spec (psum (mcnt np ids sched) (dest ids (c, l)) + k) mc); [|lia].
        rewrite X1, X3. cbn. auto. }
    assert (Hnp : forall c n, nth_error np c = Some n <-> c < ncell /\ n = nth c np 0).
    { intros c n. split.
      - intros En. split; [eapply nth_error_some_lt; eauto|]. symmetry; apply nth_error_nth; auto.
      - intros [Hc ->]. apply nth_error_nth'; auto. }
    assert (Hnp1 : forall c n, nth_error (npart_cell g1) c = Some n -> c < ncell /\ n = length (M np ids sched c) + nth c np 0).
    { intros c n En. cbn in En.
      assert (Hc : c < ncell) by (apply nth_error_some_lt in En; rewrite np1_length in En; auto).
      rewrite (np1_nth np ids sched c Hc) in En. split; auto. congruence. }
    destruct (remove_correct d R cid g1 cells layers Hd Wf1) as [g' [E7 [Wf' Rm]]].
    { cbn. lia. }
    { split; [unfold cells, layers; rewrite !map_length, !firstn_length; destruct PL as [PL1 [_ [PL2 _]]]; lia|].
      intros i c l n H1 H2 En. apply Hnp1 in En. destruct En as [Hc ->].
      assert (listed cells layers c l = true) as Hl by (apply listed_iff; eauto).
      apply Hlist in Hl. destruct Hl as [Hl _]. apply in_all_particles in Hl. destruct Hl as [n [En Hl]].
      apply Hnp in En. lia. }
    { intros c l n En Hl Hf. apply Hnp1 in En. destruct En as [Hc ->]. unfold cell_id_of. cbn.
      destruct (lt_dec l (nth c np 0)) as [L|L].
      - rewrite CI1 by auto. destruct (HR c l (nth c np 0)) as [i [Hi1 Hi2]]; [apply nth_error_nth'; auto|auto|].
        unfold cell_id_of in Hi1. rewrite Hi1. exists (Z.of_nat i). split; auto. lia.
      - destruct (nth_error_lt_some (M np ids sched c) (l - nth c np 0)) as [w Hw]; [lia|].
        replace l with (nth c np 0 + (l - nth c np 0)) by lia. rewrite (CI2 cid _ _ _ Hcid Hw).
        apply nth_error_In in Hw. apply (M_in np ids sched Ps) in Hw. destruct Hw as [Hw _]. destruct w as [c' l'].
        apply in_all_particles in Hw. destruct Hw as [n' [En' Hl']].
        destruct (HR c' l' n' En' Hl') as [i [Hi1 Hi2]]. unfold cell_id_of in Hi1. cbn [fst snd].
        rewrite Hi1. exists (Z.of_nat i). split; auto. lia. }
    exists g'. split; [exact E7|]. split; [exact Wf'|].
    destruct Rm as [Rm1 [Rm2 [Rm3 Rm4]]]. cbn in Rm1, Rm2, Rm3. rewrite np1_length in Rm1.
    split; [exact Rm1|]. split; [congruence|]. split; [congruence|].
    intros c Hc. fold np in Hc. fold ncell in Hc.
    specialize (Rm4 c (length (M np ids sched c) + nth c np 0) (np1_nth np ids sched c Hc)).
    cbn zeta in Rm4.
    set (stay := filter (fun l => negb (mover np ids (c, l))) (seq 0 (nth c np 0))).
    assert (Hin : forall l, l < nth c np 0 -> In (c, l) (all_particles np)).
    { intros l Hl. apply in_all_particles. exists (nth c np 0). split; auto. apply nth_error_nth'; auto. }
    assert (Hkept : kept_layers cells layers c (length (M np ids sched c) + nth c np 0) =
      stay ++ map (fun k => nth c np 0 + k) (seq 0 (length (M np ids sched c)))).
    { unfold kept_layers. rewrite Nat.add_comm, seq_app, filter_app. f_equal.
      - apply filter_ext_in. intros l Hl. apply in_seq in Hl. f_equal.
        destruct (mover np ids (c, l)) eqn:Em.
        + apply Hlist. split; auto. apply Hin. lia.
        + apply not_true_is_false. intros Cn. apply Hlist in Cn. destruct Cn; congruence.
      - rewrite Nat.add_0_l, <- seq_shift_map. apply filter_true.
        intros l Hl. apply in_seq in Hl. apply negb_true_iff, not_true_is_false. intros Cn. apply Hlist in Cn.
          destruct Cn as [Cn _]. apply in_all_particles in Cn. destruct Cn as [n [En Hl']]. apply Hnp in En. lia. }
    assert (Hplaces : Permutation (places_with_id cid g c) (map (pair c) stay ++ M np ids sched c)).
    { apply NoDup_Permutation.
      - apply NoDup_filter, all_particles_nodup.
      - apply NoDup_app_intro.
        + apply NoDup_map_inj; [congruence|]. apply NoDup_filter, seq_NoDup.
        + apply (M_nodup np ids sched Ps).
        + intros w Hw Hw2. apply in_map_iff in Hw. destruct Hw as [l [<- Hl]]. unfold stay in Hl.
          apply filter_In in Hl. apply (M_in np ids sched Ps) in Hw2. destruct Hl as [_ Hl], Hw2 as [_ [Hm _]].
          rewrite Hm in Hl; discriminate.
      - intros [c' l']. unfold places_with_id. rewrite filter_In, in_app_iff, in_map_iff. cbn [fst snd]. rewrite Gi.
        fold np. rewrite (M_in np ids sched Ps). split.
        + intros [Hw Hz]. pose proof (id_rd np ids Hids _ Hw) as Hr. cbn [fst snd] in Hr. rewrite Hr in Hz.
          apply Z.eqb_eq in Hz.
          destruct (mover np ids (c', l')) eqn:Em.
          * right. repeat split; auto. unfold dest. rewrite Hz. apply Nat2Z.id.
          * left. assert (c' = c) as ->.
            { unfold mover in Em. cbn [fst] in Em. apply andb_false_iff in Em. destruct Em as [Em|Em].
              - apply negb_false_iff, Z.eqb_eq in Em. lia.
              - assert (valid_cell (length np) (idz ids (c', l')) = true) as V
                  by (apply valid_cell_spec; fold ncell; lia). congruence. }
            exists l'. split; auto. unfold stay. apply filter_In. rewrite Em. split; auto.
            apply in_all_particles in Hw. destruct Hw as [n [En Hl]]. apply Hnp in En. apply in_seq. lia.
        + intros [[l [Hl1 Hl2]]|[Hw [Hm Hdst]]].
          * injection Hl1 as <- <-. unfold stay in Hl2. apply filter_In in Hl2. destruct Hl2 as [Hl2 Hm].
            apply in_seq in Hl2. assert (Hw : In (c, l) (all_particles np)) by (apply Hin; lia). split; auto.
            pose proof (id_rd np ids Hids _ Hw) as Hr. cbn [fst snd] in Hr. rewrite Hr.
            apply negb_true_iff in Hm. unfold mover in Hm. cbn [fst] in Hm. apply andb_false_iff in Hm.
            destruct Hm as [Em|Em].
            -- apply negb_false_iff, Z.eqb_eq in Em. apply Z.eqb_eq. lia.
            -- destruct (Hval _ Hw) as [i [Hi1 Hi2]].
               assert (valid_cell (length np) (idz ids (c, l)) = true) as V
                  by (apply valid_cell_spec; fold ncell; lia). congruence.
          * split; auto. pose proof (id_rd np ids Hids _ Hw) as Hr. cbn [fst snd] in Hr. rewrite Hr.
            destruct (mover_dest np ids _ Hm) as [D1 D2]. apply Z.eqb_eq. congruence. }
    destruct Rm4 as [Rn [ps [ps' [Rp1 [Rp2 Rp3]]]]].
    rewrite Hkept in Rn, Rp1. split.
    - rewrite Rn, (Permutation_length Hplaces), !app_length, !map_length, seq_length. auto.
    - assert (Hps : mapM (fun w => particle_at (st g) (fst w) (snd w)) (map (pair c) stay ++ M np ids sched c) = Some ps).
      { rewrite <- Rp1. rewrite !mapM_app.
        rewrite mapM_map. rewrite (mapM_ext_in _ (particle_at (st g1) c) stay).
        - rewrite (mapM_nth_seq _ (fun k => particle_at (st g1) c (nth c np 0 + k)) (M np ids sched c)).
          + rewrite <- (mapM_map (fun k => nth c np 0 + k) (particle_at (st g1) c)). reflexivity.
          + intros k w Hk. rewrite (At2 c k w Hk). reflexivity.
        - intros l Hl. unfold stay in Hl. apply filter_In in Hl. destruct Hl as [Hl _]. apply in_seq in Hl.
          cbn [fst snd]. rewrite At1; auto. lia. }
      destruct (mapM_perm _ _ _ (Permutation_sym Hplaces) _ Hps) as [ps0 [Hps0 Pps]].
      exists ps0, ps'. split; [exact Hps0|]. split; [exact Rp2|]. etransitivity; eauto.
  Qed.
End Whole.
