(** Proofs about the identification of departing particles. *)
From Coq Require Import List Arith Lia ZArith Permutation Bool.
Import ListNotations.
From Verif Require Import Base Kernel Group_Model Group_Spec Group_Proofs Compress_Proofs
  Add_Model Add_Proofs Pack_Model Pack_Spec.

Lemma combine_snoc {A B} (l1 : list A) (l2 : list B) a b : length l1 = length l2 ->
  combine (l1 ++ [a]) (l2 ++ [b]) = combine l1 l2 ++ [(a, b)].
Proof.
  revert l2; induction l1 as [|x l1 IH]; intros [|y l2] L; cbn in *; try lia; auto. rewrite IH by lia. auto.
Qed.

Lemma firstn_upd_snoc {A} (l l' : list A) n v : upd l n v = Some l' -> firstn (n + 1) l' = firstn n l ++ [v].
Proof.
  revert n l'; induction l as [|x l IH]; intros [|n] l'; cbn; try discriminate.
  - intros [= <-]; auto.
  - destruct (upd l n v) eqn:Eu; cbn; [|discriminate]. intros [= <-]. cbn. f_equal; auto.
Qed.

Lemma nth_error_snoc {A} (l : list A) a k x : nth_error (l ++ [a]) k = Some x ->
  (k < length l /\ nth_error l k = Some x) \/ (k = length l /\ x = a).
Proof.
  intros H. destruct (lt_dec k (length l)) as [K|K].
  - left. rewrite nth_error_app1 in H; auto.
  - right. rewrite nth_error_app2 in H by lia. destruct (k - length l) as [|j] eqn:Ek; cbn in H.
    + injection H as ->. split; [lia|auto].
    + destruct j; discriminate.
Qed.

Lemma filter_snoc {A} (p : A -> bool) l a : filter p (l ++ [a]) = filter p l ++ (if p a then [a] else []).
Proof. rewrite filter_app. auto. Qed.

Section Ident.
  Context (d : device) (Hd : device_ok d) (rc size rank : nat).
  Context (np : list nat) (ranks : list (list Z)).
  Context (Hranks : forall c n l, nth_error np c = Some n -> l < n -> exists z, rd2 ranks c l = Some z).

  Definition orank (w : nat * nat) : Z := match rd2 ranks (fst w) (snd w) with Some z => z | None => (-1)%Z end.
  Definition dst (w : nat * nat) : nat := Z.to_nat (orank w).
  Definition lv (w : nat * nat) : bool := leaves size rank (orank w).
  Definition to (o : nat) (w : nat * nat) : bool := lv w && (dst w =? o).
  Definition lin (w : nat * nat) : nat := loop_linear_index np (fst w) (snd w).

  Lemma orank_rd w : In w (all_particles np) -> rd2 ranks (fst w) (snd w) = Some (orank w).
  Proof.
    destruct w as [c l]. rewrite in_all_particles. intros [n [Ec Hl]]. unfold orank. cbn [fst snd].
    destruct (Hranks c n l Ec Hl) as [z ->]. auto.
  Qed.

  Lemma lv_spec w : lv w = true <-> (0 <= orank w < Z.of_nat size)%Z /\ orank w <> Z.of_nat rank.
  Proof.
    unfold lv, leaves. rewrite !andb_true_iff, negb_true_iff, Z.leb_le, Z.ltb_lt, Z.eqb_neq. tauto.
  Qed.

  Lemma lv_dst w : lv w = true -> dst w < size /\ dst w <> rank /\ orank w = Z.of_nat (dst w).
  Proof. rewrite lv_spec. unfold dst. intros [H1 H2]. repeat split; lia. Qed.

  Lemma to_spec o w : to o w = true <-> lv w = true /\ dst w = o.
  Proof. unfold to. rewrite andb_true_iff, Nat.eqb_eq. tauto. Qed.

  Lemma in_other o : In o (other_ranks size rank) <-> o < size /\ o <> rank.
  Proof.
    unfold other_ranks. rewrite filter_In, in_seq, negb_true_iff, Nat.eqb_neq. split; intros [H1 H2]; split; auto; lia.
  Qed.

  Lemma to_names o w : o < size -> o <> rank -> to o w = names ranks o w.
  Proof.
    intros H1 H2. apply eq_true_iff_eq. rewrite to_spec, lv_spec. unfold names, dst, orank.
    destruct (rd2 ranks (fst w) (snd w)) as [z|].
    - rewrite Z.eqb_eq. split; [intros [[A B] C]; lia|intros ->; split; [lia|lia]].
    - split; [lia|discriminate].
  Qed.

  Lemma to_going o : o < size -> o <> rank -> going np ranks o = filter (to o) (all_particles np).
  Proof. intros H1 H2. unfold going. apply filter_ext. intros w. rewrite to_names; auto. Qed.

  Lemma lv_departures : departures size rank np ranks = filter lv (all_particles np).
  Proof.
    unfold departures. apply filter_ext. intros w. apply eq_true_iff_eq. rewrite existsb_exists. split.
    - intros [o [Ho Hn]]. apply in_other in Ho. rewrite <- to_names in Hn by tauto. apply to_spec in Hn. tauto.
    - intros H. exists (dst w). pose proof (lv_dst _ H) as [A [B C]]. split; [apply in_other; auto|].
      rewrite <- to_names by auto. apply to_spec. auto.
  Qed.

  (** ** Packing layers *)
  Definition count_inv (pre : list (nat * nat)) (s : list nat * list nat) : Prop :=
    length (fst s) = size /\ length (snd s) = list_sum np /\
    (forall o, o < size -> nth_error (fst s) o = Some (length (filter (to o) pre))) /\
    (forall o k w, nth_error (filter (to o) pre) k = Some w -> nth_error (snd s) (lin w) = Some k).

  Lemma count_correct regs0 sched : length regs0 = list_sum np -> NoDup sched ->
    (forall w, In w sched -> In w (all_particles np)) ->
    exists s, foldM (depart_count_item size rank np ranks) (repeat 0 size, regs0) sched = Some s /\ count_inv sched s.
  Proof.
    intros L0 ND Hin. apply foldM_ind.
    - unfold count_inv. cbn [fst snd filter length]. rewrite repeat_length. repeat split; auto.
      + intros o Ho. apply nth_error_repeat'; auto.
      + intros o [|k] w; discriminate.
    - intros pre w post [cn rg] Es [I1 [I2 [I3 I4]]]. cbn [fst snd] in *.
      assert (Hw : In w (all_particles np)) by (apply Hin; rewrite Es; apply in_or_app; right; left; auto).
      assert (Hpre : forall w', In w' pre -> In w' (all_particles np))
        by (intros w' Hw'; apply Hin; rewrite Es; apply in_or_app; left; auto).
      assert (Hni : ~ In w pre).
      { rewrite Es in ND. apply NoDup_remove_2 in ND. intros C; apply ND, in_or_app; auto. }
      assert (Hli : forall w', In w' pre -> lin w' <> lin w).
      { intros [c' l'] Hp Heq. destruct w as [c l]. unfold lin in Heq. cbn [fst snd] in Heq.
        pose proof (lli_inj np _ _ _ _ (Hpre _ Hp) Hw Heq) as Q. congruence. }
      pose proof (orank_rd w Hw) as Er. unfold depart_count_item. destruct w as [c l]. cbn [fst snd] in Er.
      rewrite Er. cbn [obind]. change (leaves size rank (orank (c, l))) with (lv (c, l)).
      assert (Lt : lin (c, l) < length rg) by (rewrite I2; apply lli_lt; auto).
      destruct (lv (c, l)) eqn:El.
      + destruct (lv_dst _ El) as [D1 [D2 D3]]. change (Z.to_nat (orank (c, l))) with (dst (c, l)).
        unfold rd. cbn [fst snd]. rewrite (I3 _ D1). cbn [obind].
        destruct (upd_some cn (dst (c, l)) (length (filter (to (dst (c, l))) pre) + 1)) as [cn' Ec]; [lia|].
        rewrite Ec. cbn [obind]. destruct (upd_some rg (lin (c, l)) (length (filter (to (dst (c, l))) pre))) as [rg' Eg]; auto.
        unfold lin in Eg at 1. cbn [fst snd] in Eg. rewrite Eg. cbn [obind]. eexists; split; [reflexivity|].
        unfold count_inv. cbn [fst snd]. rewrite (upd_length _ _ _ _ Ec), (upd_length _ _ _ _ Eg).
        split; [auto|]. split; [auto|].
        assert (T : forall o, to o (c, l) = (dst (c, l) =? o)) by (intros; unfold to; rewrite El; auto).
        split.
        * intros o Ho. rewrite (upd_nth _ _ _ _ _ Ec), filter_snoc, T, app_length.
          destruct (Nat.eqb_spec o (dst (c, l))) as [->|N].
          -- rewrite Nat.eqb_refl. auto.
          -- destruct (Nat.eqb_spec (dst (c, l)) o); [congruence|]. cbn. rewrite Nat.add_0_r. auto.
        * intros o k w. rewrite filter_snoc, T. destruct (Nat.eqb_spec (dst (c, l)) o) as [<-|N].
          -- intros H. apply nth_error_snoc in H. destruct H as [[K H]|[-> ->]].
             ++ rewrite (upd_nth_neq _ _ _ _ _ Eg); [eapply I4; eauto|]. apply Hli.
                apply nth_error_In, filter_In in H. tauto.
             ++ unfold lin. cbn [fst snd]. apply (upd_nth_eq _ _ _ _ Eg).
          -- rewrite app_nil_r. intros H. rewrite (upd_nth_neq _ _ _ _ _ Eg); [eapply I4; eauto|]. apply Hli.
             apply nth_error_In, filter_In in H. tauto.
      + eexists; split; [reflexivity|]. unfold count_inv. cbn [fst snd].
        assert (T : forall o, to o (c, l) = false) by (intros; unfold to; rewrite El; auto).
        split; [auto|]. split; [auto|]. split.
        * intros o Ho. rewrite filter_snoc, T, app_nil_r. auto.
        * intros o k w. rewrite filter_snoc, T, app_nil_r. apply I4.
  Qed.

  Lemma lv_reg sched regs w : (forall o k w, nth_error (filter (to o) sched) k = Some w -> nth_error regs (lin w) = Some k) ->
    In w sched -> lv w = true -> exists k, nth_error regs (lin w) = Some k /\ nth_error (filter (to (dst w)) sched) k = Some w.
  Proof.
    intros Hr Hi Hl. assert (In w (filter (to (dst w)) sched)) as I.
    { apply filter_In. split; auto. apply to_spec; auto. }
    apply In_nth_error in I. destruct I as [k Ek]. exists k. split; auto. eapply Hr; eauto.
  Qed.

  (** ** The list of departing particles *)
  Section Stages.
  Context (s1 : list (nat * nat)) (regs : list nat).
  Context (P1 : Permutation s1 (all_particles np)).
  Context (Hregs : forall o k w, nth_error (filter (to o) s1) k = Some w -> nth_error regs (lin w) = Some k).

  Definition rec_inv (pre : list (nat * nat)) (s : nat * list nat * list nat * list nat) : Prop :=
    let '(num, cells, lsrc, ldst) := s in
    length cells = list_sum np /\ length lsrc = list_sum np /\ length ldst = list_sum np /\
    num = length (filter lv pre) /\
    firstn num cells = map fst (filter lv pre) /\ firstn num lsrc = map snd (filter lv pre) /\
    (forall i w, nth_error (filter lv pre) i = Some w -> nth_error ldst i = nth_error regs (lin w)).

  Lemma record_correct c0 s0 d0 sched : length c0 = list_sum np -> length s0 = list_sum np -> length d0 = list_sum np ->
    Permutation sched (all_particles np) ->
    exists s, foldM (depart_record_item size rank np ranks regs) (0, c0, s0, d0) sched = Some s /\ rec_inv sched s.
  Proof.
    intros Lc Ls Ld Ps. apply foldM_ind.
    - cbn. repeat split; auto. intros [|i] w; discriminate.
    - intros pre w post [[[num cs] ls] ld] Es [I1 [I2 [I3 [I4 [I5 [I6 I7]]]]]].
      assert (Hw : In w (all_particles np)).
      { eapply Permutation_in; [exact Ps|]. rewrite Es; apply in_or_app; right; left; auto. }
      pose proof (orank_rd w Hw) as Er. unfold depart_record_item. destruct w as [c l]. cbn [fst snd] in Er.
      rewrite Er. cbn [obind]. change (leaves size rank (orank (c, l))) with (lv (c, l)).
      destruct (lv (c, l)) eqn:El.
      + destruct (lv_reg s1 regs (c, l) Hregs) as [k [Ek _]]; auto.
        { eapply Permutation_in; [symmetry; exact P1|]. auto. }
        unfold rd. change (loop_linear_index np c l) with (lin (c, l)). rewrite Ek. cbn [obind].
        assert (Hnum : num < list_sum np).
        { rewrite I4, <- all_particles_length.
          rewrite <- (Permutation_length Ps), Es, app_length. cbn [length].
          pose proof (filter_negb_length lv pre). lia. }
        destruct (upd_some cs num c) as [cs' Ec]; [lia|]. rewrite Ec. cbn [obind].
        destruct (upd_some ls num l) as [ls' El']; [lia|]. rewrite El'. cbn [obind].
        destruct (upd_some ld num k) as [ld' Ed]; [lia|]. rewrite Ed. cbn [obind].
        eexists; split; [reflexivity|]. cbn [rec_inv].
        rewrite (upd_length _ _ _ _ Ec), (upd_length _ _ _ _ El'), (upd_length _ _ _ _ Ed).
        rewrite filter_snoc, El, app_length, !map_app. cbn [length map fst snd].
        rewrite (firstn_upd_snoc _ _ _ _ Ec), (firstn_upd_snoc _ _ _ _ El'), I5, I6.
        repeat split; auto; try lia.
        intros i w Hi. apply nth_error_snoc in Hi. destruct Hi as [[K Hi]|[-> ->]].
        * rewrite (upd_nth_neq _ _ _ _ _ Ed) by lia. auto.
        * rewrite <- I4, (upd_nth_eq _ _ _ _ Ed), Ek. auto.
      + eexists; split; [reflexivity|]. cbn [rec_inv]. rewrite filter_snoc, El, app_nil_r. repeat split; auto.
  Qed.

  (** ** The destinations *)
  Definition first_of (w : nat * nat) : bool :=
    lv w && match nth_error regs (lin w) with Some k => k =? 0 | None => false end && (rc =? 0).

  Lemma first_of_spec w : In w s1 -> (first_of w = true <-> lv w = true /\ rc = 0 /\ nth_error (filter (to (dst w)) s1) 0 = Some w).
  Proof.
    intros Hi. unfold first_of. rewrite !andb_true_iff, Nat.eqb_eq. split.
    - intros [[H1 H2] H3]. split; [auto|]. split; auto.
      destruct (lv_reg s1 regs w Hregs Hi H1) as [k [Ek Ew]]. rewrite Ek in H2. apply Nat.eqb_eq in H2. subst; auto.
    - intros [H1 [H2 H3]]. split; [|auto]. split; auto. rewrite (Hregs _ _ _ H3). auto.
  Qed.

  Definition rank_inv (pre : list (nat * nat)) (s : nat * list nat * list nat) : Prop :=
    let '(num, sr, rm) := s in
    length sr = size /\ length rm = size /\
    num = length (filter first_of pre) /\
    firstn num sr = map dst (filter first_of pre) /\
    (forall i w, nth_error (filter first_of pre) i = Some w -> nth_error rm (dst w) = Some i).

  Lemma firsts_nodup pre : NoDup pre -> (forall w, In w pre -> In w s1) -> NoDup (map dst (filter first_of pre)).
  Proof.
    intros ND Hi. apply NoDup_map_inj; [|apply NoDup_filter; auto].
    intros x y Hx Hy Hq. apply filter_In in Hx, Hy. destruct Hx as [Ix Fx], Hy as [Iy Fy].
    apply first_of_spec in Fx, Fy; auto. destruct Fx as [_ [_ Fx]], Fy as [_ [_ Fy]]. rewrite Hq in Fx. congruence.
  Qed.

  Lemma rank_correct sr0 rm0 sched : length sr0 = size -> length rm0 = size ->
    Permutation sched (all_particles np) ->
    exists s, foldM (depart_rank_item rc size rank np ranks regs) (0, sr0, rm0) sched = Some s /\ rank_inv sched s.
  Proof.
    intros Ls Lm Ps. apply foldM_ind.
    - cbn. repeat split; auto. intros [|i] w; discriminate.
    - intros pre w post [[num sr] rm] Es [I1 [I2 [I3 [I4 I5]]]].
      assert (Hin : forall w, In w sched -> In w s1).
      { intros w' H. eapply Permutation_in; [symmetry; exact P1|]. eapply Permutation_in; [|eassumption]; auto. }
      assert (NDs : NoDup sched).
      { eapply Permutation_NoDup; [symmetry; exact Ps|]. apply all_particles_nodup. }
      assert (Hws : In w sched) by (rewrite Es; apply in_or_app; right; left; auto).
      assert (Hw : In w (all_particles np)) by (eapply Permutation_in; [exact Ps|]; auto).
      assert (NDp : NoDup (pre ++ [w])).
      { rewrite Es in NDs. replace (pre ++ w :: post) with ((pre ++ [w]) ++ post) in NDs by (rewrite <- app_assoc; auto).
        clear -NDs. induction (pre ++ [w]) as [|x l IH]; [constructor|]. inversion NDs; subst. constructor; auto.
        intros C; apply H1, in_or_app; auto. }
      assert (Hinp : forall w', In w' (pre ++ [w]) -> In w' s1).
      { intros w' H. apply Hin. rewrite Es. apply in_app_or in H. apply in_or_app. cbn in *. intuition. }
      pose proof (orank_rd w Hw) as Er. unfold depart_rank_item. destruct w as [c l]. cbn [fst snd] in Er.
      rewrite Er. cbn [obind]. change (leaves size rank (orank (c, l))) with (lv (c, l)).
      destruct (lv (c, l)) eqn:El.
      + destruct (lv_reg s1 regs (c, l) Hregs (Hin _ Hws) El) as [k [Ek Ekw]].
        unfold rd. change (loop_linear_index np c l) with (lin (c, l)). rewrite Ek. cbn [obind].
        assert (F : first_of (c, l) = (k =? 0) && (rc =? 0)) by (unfold first_of; rewrite El, Ek; auto).
        rewrite <- F. destruct (first_of (c, l)) eqn:Ef.
        * destruct (lv_dst _ El) as [D1 [D2 D3]]. change (Z.to_nat (orank (c, l))) with (dst (c, l)).
          assert (Hnum : num < size).
          { pose proof (firsts_nodup (pre ++ [(c, l)]) NDp Hinp) as Q.
            assert (Hl : length (map dst (filter first_of (pre ++ [(c, l)]))) <= length (seq 0 size)).
            { apply NoDup_incl_length; auto. intros o Ho. apply in_map_iff in Ho. destruct Ho as [w [<- Hw']].
              apply filter_In in Hw'. destruct Hw' as [Hw1 Hw2]. apply first_of_spec in Hw2; auto.
              destruct (lv_dst w) as [A _]; [tauto|]. apply in_seq. lia. }
            rewrite map_length, seq_length, filter_snoc, Ef, app_length in Hl. cbn [length] in Hl. lia. }
          destruct (upd_some sr num (dst (c, l))) as [sr' Esr]; [lia|]. rewrite Esr. cbn [obind].
          destruct (upd_some rm (dst (c, l)) num) as [rm' Erm]; [lia|]. rewrite Erm. cbn [obind].
          eexists; split; [reflexivity|]. cbn [rank_inv].
          rewrite (upd_length _ _ _ _ Esr), (upd_length _ _ _ _ Erm).
          pose proof (firsts_nodup (pre ++ [(c, l)]) NDp Hinp) as Q.
          rewrite filter_snoc, Ef in *. rewrite app_length, map_app in *. cbn [length map] in *.
          rewrite (firstn_upd_snoc _ _ _ _ Esr), I4. split; [auto|]. split; [auto|]. split; [lia|]. split; [auto|].
          intros i w Hi. apply nth_error_snoc in Hi. destruct Hi as [[K Hi]|[-> ->]].
          -- rewrite (upd_nth_neq _ _ _ _ _ Erm); auto. intros C. apply NoDup_remove_2 in Q. rewrite app_nil_r in Q.
             apply Q. rewrite <- C. apply in_map. eapply nth_error_In; eauto.
          -- rewrite (upd_nth_eq _ _ _ _ Erm). congruence.
        * eexists; split; [reflexivity|]. cbn [rank_inv]. rewrite filter_snoc, Ef, app_nil_r. repeat split; auto.
      + eexists; split; [reflexivity|]. cbn [rank_inv].
        assert (Ef : first_of (c, l) = false) by (unfold first_of; rewrite El; auto).
        rewrite filter_snoc, Ef, app_nil_r. repeat split; auto.
  Qed.
  End Stages.

  Lemma combine_fst_snd {A B} (l : list (A * B)) : combine (map fst l) (map snd l) = l.
  Proof. induction l as [|[a b] l IH]; cbn; auto. f_equal; auto. Qed.

  Lemma ord_perm {A} k (l : list A) : Permutation (ord d k l) l.
  Proof. apply Hd. Qed.

  Lemma ord_all_nodup k : NoDup (ord d k (all_particles np)).
  Proof. eapply Permutation_NoDup; [symmetry; apply ord_perm|apply all_particles_nodup]. Qed.

  Theorem identify_correct (Hsize : 0 < size) : exists dp, identify d rc size rank np ranks = Some dp /\ is_departing rc size rank np ranks dp.
  Proof.
    unfold identify. destruct (Nat.ltb_spec 0 size); [|lia]. cbn [assert obind].
    set (s1 := ord d 200 (all_particles np)).
    assert (P1 : Permutation s1 (all_particles np)) by apply ord_perm.
    destruct (count_correct (fresh d 200 (list_sum np)) s1) as [[cn rg] [E1 [J1 [J2 [J3 J4]]]]].
    { apply fresh_length. } { apply ord_all_nodup. } { intros w Hw. eapply Permutation_in; eauto. }
    rewrite E1. cbn [obind fst snd] in *.
    set (s2 := ord d 201 (all_particles np)).
    assert (P2 : Permutation s2 (all_particles np)) by apply ord_perm.
    destruct (record_correct s1 rg P1 J4 (fresh d 201 (list_sum np)) (fresh d 202 (list_sum np)) (fresh d 203 (list_sum np)) s2)
      as [[[[num cs] ls] ld] [E2 [K1 [K2 [K3 [K4 [K5 [K6 K7]]]]]]]]; auto using fresh_length.
    rewrite E2. cbn [obind].
    set (s3 := ord d 202 (all_particles np)).
    assert (P3 : Permutation s3 (all_particles np)) by apply ord_perm.
    destruct (rank_correct s1 rg P1 J4 (repeat 0 size) (fresh d 204 size) s3) as [[[nr sr] rm] [E3 [M1 [M2 [M3 [M4 M5]]]]]];
      auto using fresh_length, repeat_length.
    rewrite E3. cbn [obind]. eexists; split; [reflexivity|].
    assert (Hnum : num <= list_sum np).
    { rewrite K4, <- all_particles_length, <- (Permutation_length P2). pose proof (filter_negb_length lv s2). lia. }
    unfold is_departing. cbn [dp_num dp_cells dp_layers_src dp_layers_dst dp_counts dp_num_ranks dp_send_ranks dp_rank_map].
    split; [lia|]. split; [lia|]. split; [lia|]. split.
    { rewrite K5, K6, combine_fst_snd, lv_departures. apply filter_perm; auto. }
    split; [auto|]. split.
    { intros o Ho. apply in_other in Ho. destruct Ho as [H1 H2].
      rewrite to_going by auto. split.
      - rewrite J3 by auto. f_equal. apply Permutation_length, filter_perm; auto.
      - exists (filter (to o) s1). split; [apply filter_perm; auto|].
        intros i c l k Hi Hc Hl Hk Hn.
        assert (Ew : nth_error (filter lv s2) i = Some (c, l)).
        { rewrite <- (combine_fst_snd (filter lv s2)). apply nth_error_combine.
          - rewrite <- K5, nth_error_firstn. destruct (Nat.ltb_spec i num); [auto|lia].
          - rewrite <- K6, nth_error_firstn. destruct (Nat.ltb_spec i num); [auto|lia]. }
        pose proof (K7 _ _ Ew) as Q. rewrite Hk in Q.
        apply nth_error_In, filter_In in Ew. destruct Ew as [Ew1 Ew2].
        destruct (lv_reg s1 rg (c, l) J4) as [k' [Ek Ekw]]; auto.
        { eapply Permutation_in; [symmetry; exact P1|]. eapply Permutation_in; [exact P2|]. auto. }
        assert (k' = k) by congruence. subst k'.
        rewrite <- to_names in Hn by auto. apply to_spec in Hn. destruct Hn as [_ <-]. auto. }
    split.
    { destruct (Nat.ltb_spec rank size).
      - rewrite J3 by auto. f_equal.
        replace (filter (to rank) s1) with (@nil (nat * nat)); auto. symmetry.
        destruct (filter (to rank) s1) as [|w t] eqn:Ef; auto.
        assert (In w (filter (to rank) s1)) as Hi by (rewrite Ef; left; auto).
        apply filter_In in Hi. destruct Hi as [_ Hi]. apply to_spec in Hi. destruct Hi as [A B].
        apply lv_dst in A. tauto.
      - apply nth_error_None. lia. }
    split.
    { rewrite M1, M3. rewrite <- (map_length dst). replace size with (length (seq 0 size)) by apply seq_length.
      apply NoDup_incl_length.
      - apply (firsts_nodup s1 rg J4); [apply ord_all_nodup|].
        intros w Hw. eapply Permutation_in; [symmetry; exact P1|]. eapply Permutation_in; [|eassumption]; auto.
      - intros o Ho. apply in_map_iff in Ho. destruct Ho as [w [<- Hw]]. apply filter_In in Hw. destruct Hw as [Hw1 Hw2].
        unfold first_of in Hw2. rewrite !andb_true_iff in Hw2. destruct (lv_dst w) as [A _]; [tauto|]. apply in_seq; lia. }
    intros Hrc. split.
    - rewrite M4. apply NoDup_Permutation.
      + apply (firsts_nodup s1 rg J4); [apply ord_all_nodup|].
        intros w Hw. eapply Permutation_in; [symmetry; exact P1|]. eapply Permutation_in; [|eassumption]; auto.
      + apply NoDup_filter. unfold other_ranks. apply NoDup_filter, seq_NoDup.
      + intros o. rewrite filter_In, in_other, negb_true_iff, Nat.eqb_neq. split.
        * intros Ho. apply in_map_iff in Ho. destruct Ho as [w [<- Hw]]. apply filter_In in Hw. destruct Hw as [Hw1 Hw2].
          unfold first_of in Hw2. rewrite !andb_true_iff in Hw2. destruct Hw2 as [[Hl _] _].
          destruct (lv_dst w Hl) as [A [B _]]. split; [auto|]. rewrite to_going by auto. intros C.
          apply length_zero_iff_nil in C. assert (In w (filter (to (dst w)) (all_particles np))) as Q; [|rewrite C in Q; destruct Q].
          apply filter_In. split; [eapply Permutation_in; eauto|]. apply to_spec; auto.
        * intros [[A B] C]. rewrite to_going in C by auto.
          rewrite <- (Permutation_length (filter_perm (to o) _ _ P1)) in C.
          destruct (filter (to o) s1) as [|w t] eqn:Ef; [cbn in C; congruence|].
          assert (Hi : In w (filter (to o) s1)) by (rewrite Ef; left; auto). apply filter_In in Hi.
          destruct Hi as [Hi1 Hi2]. apply to_spec in Hi2. destruct Hi2 as [Hl <-]. apply in_map, filter_In. split.
          -- eapply Permutation_in; [symmetry; exact P3|]. eapply Permutation_in; [exact P1|]. auto.
          -- apply (first_of_spec s1 rg J4); auto. rewrite Ef. auto.
    - intros i o Hi Ho.
      assert (Ei : nth_error (map dst (filter (first_of rg) s3)) i = Some o).
      { rewrite <- M4, nth_error_firstn. destruct (Nat.ltb_spec i nr); [auto|lia]. }
      rewrite nth_error_map in Ei. destruct (nth_error (filter (first_of rg) s3) i) as [w|] eqn:Ew; [|discriminate].
      cbn in Ei. injection Ei as <-. apply M5; auto.
  Qed.
End Ident.
