(** Proofs about the count tables: removals, moves and properties. *)
From Coq Require Import List Arith ZArith Bool Lia Permutation.
Import ListNotations.
From Verif Require Import Base Kernel Counter_Model Counter_Spec Counter_Proofs CounterOps_Proofs.

Lemma flagged_kept cells layers c n : flagged cells layers c n + number_kept cells layers c n = n.
Proof.
  unfold flagged, number_kept, named.
  rewrite (filter_negb_length (fun l => existsb (fun e => (fst e =? Z.of_nat c)%Z && (snd e =? Z.of_nat l)%Z) (combine cells layers)) (seq 0 n)).
  apply seq_length.
Qed.

Lemma foldM_unit {A} (f : unit -> A -> option unit) l : (forall a, In a l -> f tt a = Some tt) -> foldM f tt l = Some tt.
Proof.
  induction l as [|a l IH]; intros H; cbn [foldM]; auto. rewrite H by (left; auto). cbn [obind]. apply IH. intros; apply H; right; auto.
Qed.

Section Moves.
  Context (d : device) (hint s_rank s_pos s_cell : nat).
  Hypothesis Ok : device_ok d.
  Notation inv := (inv hint s_rank s_pos s_cell).
  Notation dinv := (dinv hint s_rank s_pos s_cell).

  Lemma flags_ok t np names cells layers ac : dinv t np names -> removable np cells layers ->
    In (s_cell, ac) (dats t) -> foldM (flag_entry t ac) tt (combine cells layers) = Some tt.
  Proof.
    intros [Sh L D R N] [Lc Hr] Ia. apply foldM_unit. intros [z w] Iz. unfold flag_entry. cbn [fst snd].
    destruct (Z.ltb_spec (-1) z) as [H1|]; [|reflexivity].
    destruct (Z.ltb_spec z (Z.of_nat (ncell t))) as [H2|]; [|reflexivity].
    destruct (Z.ltb_spec (-1) w) as [H3|]; [|reflexivity]. cbn [andb].
    destruct (proj2 R ac Ia) as [l [El Hl]].
    assert (Hw : Z.to_nat w < nth (Z.to_nat z) np 0).
    { apply Hr; [rewrite !Z2Nat.id by lia; auto|lia]. }
    specialize (Hl (Z.to_nat z)). unfold rd2, rd. rewrite El. cbn [obind].
    destruct (nth_error l (Z.to_nat z)) as [n|] eqn:En.
    - cbn [obind]. rewrite (nth_error_nth _ _ 0 En) in Hl. unfold assert. destruct (Nat.ltb_spec (Z.to_nat w) n); [auto|lia].
    - apply nth_error_None in En. rewrite (nth_overflow l) in Hl by lia. lia.
  Qed.

  Lemma compress_ok t np names cells layers : dinv t np names -> removable np cells layers ->
    exists t', compress d s_rank s_cell t cells layers = Some t' /\ ncell t' = ncell t /\
      dinv t' (by_cell (number_kept cells layers) np) names.
  Proof.
    intros I Hr. unfold compress. destruct (Nat.ltb_spec (length cells) 1) as [H0|H0].
    - exists t. split; auto. split; auto. rewrite by_cell_id; auto.
      intros c n En. destruct cells; [|cbn in H0; lia]. unfold number_kept, named. cbn.
      rewrite filter_true by auto. apply seq_length.
    - pose proof (di_shape _ _ _ _ _ _ _ I) as Sh. pose proof (di_len _ _ _ _ _ _ _ I) as L.
      pose proof (di_names _ _ _ _ _ _ _ I) as N. pose proof (di_dats _ _ _ _ _ _ _ I) as D.
      destruct (dat_of_names _ _ _ t s_cell names Sh N) as [ac [Ec [_ Ic]]]; [apply N|]. rewrite Ec. cbn [obind].
      rewrite (flags_ok t np names) by auto. cbn [obind].
      destruct (dat_of_names _ _ _ t s_rank names Sh N) as [a [Ea [Ia _]]]; [apply N|]. rewrite Ea. cbn [obind].
      unfold rd at 1. rewrite (proj2 (D a Ia)). cbn [obind].
      set (np' := by_cell (number_kept cells layers) np).
      assert (Lp : length np' = ncell t) by (unfold np'; rewrite by_cell_length; auto).
      rewrite (fill_table _ (fun c => number_kept cells layers c (nth c np 0)) (ncell t)).
      2: apply Ok. 2: unfold fresh; rewrite map_length, seq_length; auto.
      2: { intros m c Lm Hc. unfold rd. rewrite (nth_error_nth' np 0) by lia. cbn [obind]. unfold sub_.
           pose proof (flagged_kept cells layers c (nth c np 0)) as F.
           destruct (Nat.ltb_spec (nth c np 0) (flagged cells layers c (nth c np 0))); [lia|]. cbn [obind]. f_equal. lia. }
      cbn [obind]. rewrite <- L, <- by_cell_seq. fold np'.
      rewrite copy_table_eq; [|lia|unfold fresh; rewrite map_length, seq_length; auto]. cbn [obind].
      destruct (set_hd_eq d Ok t np' Sh) as [t1 [E1 [S1 [D1 M]]]]; auto. rewrite E1. cbn [obind].
      destruct M as [M1 [M2 [M3 [M4 [M5 [M6 [M7 M8]]]]]]].
      destruct (realloc_list_eq (fun t a => rd (dat_h t) a) np' t1 (dats t1)) as [r [E2 [Lr [H1 H2]]]]; auto; [congruence| |].
      { intros r a0 I0. apply D1; auto. }
      rewrite E2. exists (set_dat_rows t1 r). split; auto. split; [cbn; congruence|].
      constructor; cbn.
      + eapply shape_set_rows; eauto. congruence.
      + congruence.
      + exact D1.
      + apply rows_all. exact H1.
      + apply (names_same s_rank s_pos s_cell t); auto.
  Qed.

  Lemma remove_ok t np names cells layers : inv t np names -> removable np cells layers ->
    exists t', remove_particles d s_rank s_pos s_cell t cells layers = Some t' /\ ncell t' = ncell t /\
      inv t' (by_cell (number_kept cells layers) np) names.
  Proof.
    intros I Hr. unfold remove_particles. destruct (compress_ok t np names cells layers) as [t1 [E1 [N1 I1]]]; auto; [apply I|].
    rewrite E1. cbn [obind]. destruct (from_dat_eq hint s_rank s_pos s_cell t1 _ names I1) as [t2 [E2 [I2 N2]]].
    exists t2. split; auto. split; [congruence|auto].
  Qed.

  Lemma upd_same {A} (l : list A) i x y : upd l i x = Some y -> forall v, upd y i v = upd l i v.
  Proof.
    intros E v. pose proof (upd_lt _ _ _ _ E). pose proof (upd_length _ _ _ _ E) as L.
    destruct (upd_some l i v) as [a Ea]; auto. destruct (upd_some y i v) as [b Eb]; [lia|]. rewrite Ea, Eb. f_equal.
    apply nth_error_ext. intros j. rewrite (upd_nth _ _ _ _ j Ea), (upd_nth _ _ _ _ j Eb), (upd_nth _ _ _ _ j E).
    destruct (j =? i); auto.
  Qed.

  Lemma unpack_ok t np names recv : dinv t np names -> 0 < length np ->
    exists t', unpack s_rank t recv = Some t' /\ ncell t' = ncell t /\
      dinv t' (by_cell (fun c n => n + if c =? 0 then recv else 0) np) names.
  Proof.
    intros I H0. pose proof (di_shape _ _ _ _ _ _ _ I) as Sh. pose proof (di_len _ _ _ _ _ _ _ I) as L.
    pose proof (di_names _ _ _ _ _ _ _ I) as N. pose proof (di_dats _ _ _ _ _ _ _ I) as D.
    unfold unpack. destruct (dat_of_names _ _ _ t s_rank names Sh N) as [a [Ea [Ia _]]]; [apply N|]. rewrite Ea. cbn [obind].
    unfold rd2 at 1, rd at 1. rewrite (proj1 (D a Ia)). cbn [obind]. unfold rd at 1.
    rewrite (nth_error_nth' np 0) by auto. cbn [obind]. set (v := nth 0 np 0 + recv).
    destruct (upd_some np 0 v) as [np' Enp]; auto.
    assert (Ebc : np' = by_cell (fun c n => n + if c =? 0 then recv else 0) np).
    { apply by_cell_eq; [eapply upd_length; eauto|]. intros c n En. rewrite (upd_nth _ _ _ _ c Enp).
      destruct (Nat.eqb_spec c 0) as [->|]; [|rewrite Nat.add_0_r; auto].
      unfold v. rewrite (nth_error_nth _ _ 0 En). auto. }
    rewrite <- Ebc.
    match goal with |- context [foldM ?f t (dats t)] =>
      destruct (foldM_ind f (fun pre t' => exists mh md mr, t' = set_dat_rows (set_dat_counts t mh md) mr /\
         length mh = length (dat_h t) /\ length md = length (dat_d t) /\ length mr = length (dat_rows t) /\
         (forall a, In a (map snd pre) -> nth_error mh a = Some np' /\ nth_error md a = Some np' /\
            forall l, nth_error (dat_rows t) a = Some l -> exists l', upd l 0 v = Some l' /\ nth_error mr a = Some l') /\
         (forall a, ~ In a (map snd pre) -> nth_error mh a = nth_error (dat_h t) a /\ nth_error md a = nth_error (dat_d t) a /\
            nth_error mr a = nth_error (dat_rows t) a)) (dats t) t) as [t' [E [mh [md [mr [H1 [Lh [Ld [Lr [H2 H3]]]]]]]]]] end.
    - exists (dat_h t), (dat_d t), (dat_rows t). split; [destruct t; reflexivity|]. do 3 (split; auto).
      split; [intros x []|auto].
    - intros pre e post t' Eq [mh [md [mr [H1 [Lh [Ld [Lr [H2 H3]]]]]]]].
      assert (Ie : In (snd e) (map snd (dats t))) by (rewrite Eq, map_app; apply in_or_app; right; left; auto).
      destruct (D _ Ie) as [Dh Dd]. destruct (sh_dr t Sh _ Ie) as [lr [Elr Llr]].
      assert (Ne : ~ In (snd e) (map snd pre)).
      { pose proof (sh_addr t Sh) as ND. rewrite Eq, map_app in ND. cbn [map] in ND. apply NoDup_remove_2 in ND.
        intros Hi. apply ND. apply in_or_app; auto. }
      destruct (H3 _ Ne) as [G1 [G2 G3]]. rewrite H1. unfold realloc_cell, upd2, rd at 1.
      cbn [dat_rows set_dat_rows set_dat_counts]. rewrite G3, Elr. cbn [obind].
      destruct (upd_some lr 0 v) as [lr' Elr']; [lia|]. rewrite Elr'. cbn [obind].
      destruct (upd_some mr (snd e) lr') as [mr' Emr]; [rewrite Lr; eapply nth_error_some_lt; eauto|]. rewrite Emr. cbn [obind].
      unfold rd at 1. cbn [dat_h set_dat_rows set_dat_counts]. rewrite G1, Dh. cbn [obind]. rewrite Enp. cbn [obind].
      destruct (upd_some mh (snd e) np') as [mh' Emh]; [rewrite Lh; eapply nth_error_some_lt; eauto|]. rewrite Emh. cbn [obind].
      unfold rd2, rd at 1. rewrite (upd_nth_eq _ _ _ _ Emh). cbn [obind]. unfold rd at 1. rewrite (upd_nth_eq _ _ _ _ Enp). cbn [obind].
      unfold rd at 1. cbn [dat_d set_dat_rows set_dat_counts]. rewrite G2, Dd. cbn [obind]. rewrite Enp. cbn [obind].
      destruct (upd_some md (snd e) np') as [md' Emd]; [rewrite Ld; eapply nth_error_some_lt; eauto|]. rewrite Emd. cbn [obind].
      eexists; split; [reflexivity|]. exists mh', md', mr'. split; [reflexivity|].
      split; [erewrite upd_length by eauto; auto|]. split; [erewrite upd_length by eauto; auto|]. split; [erewrite upd_length by eauto; auto|].
      split.
      + intros x Hx. rewrite map_app in Hx. apply in_app_or in Hx.
        rewrite (upd_nth _ _ _ _ x Emh), (upd_nth _ _ _ _ x Emd), (upd_nth _ _ _ _ x Emr).
        destruct (Nat.eqb_spec x (snd e)) as [->|Nx].
        * split; auto. split; auto. intros l El. exists lr'. split; congruence.
        * apply H2. destruct Hx as [Hx|[Hx|[]]]; auto. congruence.
      + intros x Hx. rewrite map_app in Hx.
        rewrite (upd_nth _ _ _ _ x Emh), (upd_nth _ _ _ _ x Emd), (upd_nth _ _ _ _ x Emr).
        destruct (Nat.eqb_spec x (snd e)) as [->|Nx].
        * exfalso. apply Hx. apply in_or_app. right; left; auto.
        * apply H3. intros Hi. apply Hx. apply in_or_app; auto.
    - rewrite E. exists t'. split; auto. subst t'. split; [reflexivity|].
      assert (Lp : length np' = ncell t) by (erewrite upd_length by eauto; auto).
      constructor; cbn.
      + destruct Sh; constructor; cbn; try assumption; try congruence.
        * intros x Hx. exists np'. split; [apply H2; auto|auto].
        * intros x Hx. exists np'. split; [apply H2; auto|auto].
        * intros x Hx. destruct (sh_dr x Hx) as [l [El Ll]]. destruct (H2 x Hx) as [_ [_ G]].
          destruct (G l El) as [l' [U El']]. exists l'. split; auto. erewrite upd_length by eauto; auto.
      + auto.
      + intros x Hx. cbn in *. split; apply (H2 x Hx).
      + destruct (di_rows _ _ _ _ _ _ _ I) as [R1 R2]. split.
        * intros Hh x Hx. cbn in *. destruct (H2 x Hx) as [_ [_ G]]. destruct (G np (R1 Hh x Hx)) as [l' [U El']]. congruence.
        * intros x Hx. cbn in *. destruct (R2 x Hx) as [l [El Hl]].
          assert (Ix : In x (map snd (dats t))) by (change x with (snd (s_cell, x)); apply in_map; auto).
          destruct (H2 x Ix) as [_ [_ G]]. destruct (G l El) as [l' [U El']]. exists l'. split; auto.
          intros c. specialize (Hl c). 
          assert (forall (m m' : list nat), upd m 0 v = Some m' -> nth c m' 0 = if c =? 0 then v else nth c m 0) as Hn.
          { intros m m' Em. pose proof (upd_nth _ _ _ _ c Em) as E2. destruct (Nat.eqb_spec c 0).
            - apply nth_error_nth; auto.
            - destruct (nth_error m c) eqn:E3.
              + rewrite (nth_error_nth _ _ 0 E2), (nth_error_nth _ _ 0 E3); auto.
              + apply nth_error_None in E2. apply nth_error_None in E3. rewrite !nth_overflow by lia; auto. }
          rewrite (Hn _ _ Enp), (Hn _ _ U). destruct (c =? 0); lia.
      + exact N.
  Qed.

  Lemma by_cell_by_cell f g np : by_cell g (by_cell f np) = by_cell (fun c n => g c (f c n)) np.
  Proof. apply nth_error_ext. intros i. rewrite !by_cell_nth. destruct (nth_error np i); auto. Qed.

  Lemma exchange_ok t np names cells layers recv : dinv t np names -> 0 < length np -> removable np cells layers ->
    exists t', exchange d s_rank s_cell t cells layers recv = Some t' /\ ncell t' = ncell t /\
      dinv t' (by_cell (fun c n => number_kept cells layers c n + if c =? 0 then recv else 0) np) names.
  Proof.
    intros I H0 Hr. unfold exchange. destruct (compress_ok t np names cells layers) as [t1 [E1 [N1 I1]]]; auto.
    rewrite E1. cbn [obind]. destruct (unpack_ok t1 _ names recv I1) as [t2 [E2 [N2 I2]]]; [rewrite by_cell_length; auto|].
    exists t2. split; auto. split; [congruence|]. rewrite by_cell_by_cell in I2. exact I2.
  Qed.

  Lemma rank_move_ok t np names cells layers recv : inv t np names -> 0 < length np -> removable np cells layers ->
    exists t', rank_move d s_rank s_pos s_cell t cells layers recv = Some t' /\ ncell t' = ncell t /\
      inv t' (by_cell (fun c n => number_kept cells layers c n + if c =? 0 then recv else 0) np) names.
  Proof.
    intros I H0 Hr. unfold rank_move. destruct (exchange_ok t np names cells layers recv) as [t1 [E1 [N1 I1]]]; auto; [apply I|].
    rewrite E1. cbn [obind]. destruct (from_dat_eq hint s_rank s_pos s_cell t1 _ names I1) as [t2 [E2 [I2 N2]]].
    exists t2. split; auto. split; [congruence|auto].
  Qed.

  Lemma hybrid_move_ok t np names cells layers recv cells2 layers2 recv2 : inv t np names -> 0 < length np ->
    removable np cells layers ->
    removable (by_cell (fun c n => number_kept cells layers c n + if c =? 0 then recv else 0) np) cells2 layers2 ->
    exists t', hybrid_move d s_rank s_pos s_cell t cells layers recv cells2 layers2 recv2 = Some t' /\ ncell t' = ncell t /\
      inv t' (by_cell (fun c n => number_kept cells2 layers2 c n + if c =? 0 then recv2 else 0)
               (by_cell (fun c n => number_kept cells layers c n + if c =? 0 then recv else 0) np)) names.
  Proof.
    intros I H0 Hr Hr2. unfold hybrid_move.
    destruct (rank_move_ok t np names cells layers recv I H0 Hr) as [t1 [E1 [N1 I1]]].
    unfold rank_move in E1. destruct (exchange d s_rank s_cell t cells layers recv) as [t0|]; cbn [obind] in *; [|discriminate].
    rewrite E1. cbn [obind]. destruct (rank_move_ok t1 _ names cells2 layers2 recv2 I1) as [t2 [E2 [N2 I2]]]; auto.
    { rewrite by_cell_length; auto. }
    exists t2. split; [exact E2|]. split; [congruence|auto].
  Qed.

  (** ** cell_move *)
  Lemma movers_kept (ms : list (nat * nat * Z)) c n : NoDup (map fst ms) ->
    (forall l z, In (c, l, z) ms -> l < n) ->
    number_kept (map (fun m => Z.of_nat (fst (fst m))) ms) (map (fun m => Z.of_nat (snd (fst m))) ms) c n
    = n - length (filter (fun m => fst (fst m) =? c) ms).
  Proof.
    intros ND Hl.
    pose proof (flagged_kept (map (fun m => Z.of_nat (fst (fst m))) ms) (map (fun m => Z.of_nat (snd (fst m))) ms) c n) as F.
    enough (flagged (map (fun m => Z.of_nat (fst (fst m))) ms) (map (fun m => Z.of_nat (snd (fst m))) ms) c n
      = length (filter (fun m => fst (fst m) =? c) ms)) by lia.
    clear F. unfold flagged.
    rewrite <- (map_length (fun m => snd (fst m)) (filter _ ms)).
    apply Permutation_length. apply NoDup_Permutation.
    - apply NoDup_filter, seq_NoDup.
    - clear Hl. induction ms as [|[[x l] z] ms IH]; cbn; [constructor|]. inversion ND as [|? ? Hn ND']; subst.
      cbn in *. destruct (Nat.eqb_spec x c) as [->|]; cbn; auto. constructor; auto.
      intros Hi. apply in_map_iff in Hi. destruct Hi as [[[x2 l2] z2] [E Hi]]. cbn in E. subst l2.
      apply filter_In in Hi. destruct Hi as [Hi Hx]. cbn in Hx. apply Nat.eqb_eq in Hx. subst x2.
      apply Hn. change (c, l) with (fst (c, l, z2)). apply in_map; auto.
    - intros l. rewrite filter_In, in_seq, existsb_exists. rewrite in_map_iff.
      assert (Ec : combine (map (fun m => Z.of_nat (fst (fst m))) ms) (map (fun m => Z.of_nat (snd (fst m))) ms)
        = map (fun m : nat * nat * Z => (Z.of_nat (fst (fst m)), Z.of_nat (snd (fst m)))) ms).
      { clear. induction ms as [|m ms IH]; cbn; auto. rewrite IH; auto. }
      rewrite Ec. split.
      + intros [_ [e [He Hq]]]. apply in_map_iff in He. destruct He as [m [<- Hm]]. cbn in Hq.
        apply andb_prop in Hq. destruct Hq as [Q1 Q2]. apply Z.eqb_eq in Q1, Q2. exists m. split; [lia|].
        apply filter_In. split; auto. apply Nat.eqb_eq. lia.
      + intros [m [<- Hm]]. apply filter_In in Hm. destruct Hm as [Hm Hc]. apply Nat.eqb_eq in Hc.
        destruct m as [[x l'] z]. cbn in *. subst x. split; [specialize (Hl l' z Hm); lia|].
        exists (Z.of_nat c, Z.of_nat l'). split; [|cbn; rewrite !Z.eqb_refl; auto].
        apply in_map_iff. exists (c, l', z). auto.
  Qed.

  Lemma filter_map_length {A B} (f : B -> bool) (g : A -> B) l : length (filter f (map g l)) = length (filter (fun a => f (g a)) l).
  Proof. induction l; cbn; auto. destruct (f (g a)); cbn; auto. Qed.

  Lemma cell_move_ok t np names ms : inv t np names ->
    NoDup (map fst ms) ->
    (forall c l z, In (c, l, z) ms -> c < length np /\ l < nth c np 0 /\ (0 <= z < Z.of_nat (length np))%Z /\ z <> Z.of_nat c) ->
    exists t', cell_move d s_rank s_pos s_cell t ms = Some t' /\ ncell t' = ncell t /\
      inv t' (by_cell (fun c n => n + length (filter (fun m => (snd m =? Z.of_nat c)%Z) ms)
                            - length (filter (fun m => fst (fst m) =? c) ms)) np) names.
  Proof.
    intros I ND Hm. pose proof (in_d _ _ _ _ _ _ _ I) as Di.
    pose proof (di_shape _ _ _ _ _ _ _ Di) as Sh. pose proof (di_len _ _ _ _ _ _ _ Di) as L.
    pose proof (di_names _ _ _ _ _ _ _ Di) as N. pose proof (di_dats _ _ _ _ _ _ _ Di) as D.
    unfold cell_move. destruct (dat_of_names _ _ _ t s_rank names Sh N) as [a [Ea [Ia _]]]; [apply N|]. rewrite Ea. cbn [obind].
    unfold rd at 1. rewrite (proj2 (D a Ia)). cbn [obind].
    set (nc := map (fun m => snd m) ms).
    assert (Hz : forall z, In z nc -> (0 <= z < Z.of_nat (ncell t))%Z).
    { intros z Iz. apply in_map_iff in Iz. destruct Iz as [[[c l] z'] [<- Im]]. cbn. rewrite <- L. apply (Hm c l z'); auto. }
    replace (forallb _ nc) with true.
    2: { symmetry. apply forallb_forall. intros z Iz. specialize (Hz z Iz). apply andb_true_intro. rewrite Z.leb_le, Z.ltb_lt. lia. }
    change (assert true) with (Some tt). cbn [obind].
    replace (length ms) with (length nc) by (unfold nc; apply map_length).
    rewrite (incr_loop nc (repeat 0 (ncell t))).
    2: { intros z Iz. rewrite repeat_length; auto. } 2: apply Ok.
    cbn [obind]. set (cnt := by_cell _ (repeat 0 (ncell t))).
    assert (Hcnt : forall c, c < ncell t -> nth_error cnt c = Some (number_in c nc)).
    { intros c Hc. unfold cnt. rewrite by_cell_nth, nth_error_repeat by auto. auto. }
    rewrite (fill_table _ (fun c => number_in c nc + nth c np 0) (ncell t)).
    2: apply Ok. 2: unfold fresh; rewrite map_length, seq_length; auto.
    2: { intros m c Lm Hc. unfold rd. rewrite Hcnt by auto. cbn [obind]. rewrite (nth_error_nth' np 0) by lia. auto. }
    cbn [obind].
    set (h := by_cell (fun c n => n + number_in c nc) np).
    assert (Eh : map (fun c => number_in c nc + nth c np 0) (seq 0 (ncell t)) = h).
    { unfold h. rewrite by_cell_seq, L. apply map_ext. intros; lia. }
    rewrite Eh. assert (Lh : length h = ncell t) by (unfold h; rewrite by_cell_length; auto).
    rewrite copy_table_eq; [|auto|unfold fresh; rewrite map_length, seq_length; auto]. cbn [obind].
    destruct (realloc_list_eq (fun _ _ => Some h) h t (dats t)) as [r [E1 [Lr [H1 H2]]]]; auto.
    cbn [obind] in E1. rewrite E1. cbn [obind].
    assert (S1 : shape (set_dat_rows t r)) by (eapply shape_set_rows; eauto).
    destruct (set_h_eq d Ok (set_dat_rows t r) h S1) as [t2 [E2 [S2 [D2 M]]]]; auto. rewrite E2. cbn [obind].
    destruct M as [M1 [M2 [M3 [M4 [M5 [M6 [M7 M8]]]]]]].
    assert (I2 : dinv t2 h names).
    { constructor; auto.
      - rewrite M1. auto.
      - apply rows_all. intros x Hx. rewrite M8 in Hx. rewrite M7. cbn. apply H1; auto.
      - apply (names_same s_rank s_pos s_cell t); auto. }
    set (cs := map (fun m => Z.of_nat (fst (fst m))) ms). set (ls := map (fun m => Z.of_nat (snd (fst m))) ms).
    destruct (compress_ok t2 h names cs ls I2) as [t3 [E3 [N3 I3]]].
    { split; [unfold cs, ls; rewrite !map_length; auto|]. intros c l Hi Hc.
      assert (Im : exists z, In (c, l, z) ms).
      { unfold cs, ls in Hi. clear - Hi. induction ms as [|[[x y] z] ms IH]; cbn in Hi; [tauto|].
        destruct Hi as [[= H1 H2]|Hi]; [|destruct (IH Hi) as [z' Hz]; exists z'; right; auto].
        apply Nat2Z.inj in H1, H2. subst. exists z. left; auto. }
      destruct Im as [z Im]. destruct (Hm c l z Im) as [Hc' [Hl _]]. unfold h.
      assert (En : nth_error np c = Some (nth c np 0)) by (apply nth_error_nth'; auto).
      assert (E : nth_error (by_cell (fun c n => n + number_in c nc) np) c = Some (nth c np 0 + number_in c nc)).
      { rewrite by_cell_nth, En. auto. }
      rewrite (nth_error_nth _ _ 0 E). lia. }
    rewrite E3. cbn [obind].
    destruct (from_dat_eq hint s_rank s_pos s_cell t3 _ names I3) as [t4 [E4 [I4 N4]]].
    exists t4. split; [exact E4|]. split; [rewrite N4, N3, M1; auto|].
    replace (by_cell _ np) with (by_cell (number_kept cs ls) h); auto.
    unfold h. rewrite by_cell_by_cell. apply by_cell_ext. intros c n En.
    unfold cs, ls. rewrite movers_kept; auto.
    - unfold number_in, nc. rewrite filter_map_length. auto.
    - intros l z Im. destruct (Hm c l z Im) as [_ [Hl _]]. rewrite (nth_error_nth _ _ 0 En) in Hl. lia.
  Qed.
End Moves.
