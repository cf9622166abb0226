(** Proofs about the partition of a group by the value of a property. *)
From Coq Require Import List Arith ZArith Bool Lia Permutation.
Import ListNotations.
From Verif Require Import Base Kernel Scan_Spec Scan_Model Scan_Proofs Compress_Model Compress_Proofs Transpose_Proofs.
From Verif Require Import Loop_Model Loop_Spec SubGroup_Model SubGroup_Spec SubGroup_Proofs SubGroupKernel_Proofs SubGroupSelect_Proofs.

Definition has_value (val : nat -> nat -> Z) (p : nat) (c y : nat) : bool := (val c y =? Z.of_nat p)%Z.

Section Partition.
  Context (CL : nat) (d : device) (cc : nat) (ex : list bool) (val : nat -> nat -> Z).
  Notation n := (length ex).

  Definition arr (content : list (list nat)) (p c : nat) (pre : list (nat * nat)) : list nat :=
    filter (has_value val p c) (of_cell content c pre).

  Lemma arr_snoc content p c pre c0 l0 : arr content p c (pre ++ [(c0, l0)]) =
    arr content p c pre ++ (if (c0 =? c) && has_value val p c (lay_of content (c0, l0)) then [lay_of content (c0, l0)] else []).
  Proof.
    unfold arr. rewrite of_cell_app, filter_app. f_equal. unfold of_cell. cbn [filter fst].
    destruct (Nat.eqb_spec c0 c) as [->|]; cbn [map filter andb]; auto.
  Qed.

  Definition part_inv (content : list (list nat)) (N : nat) (pre : list (nat * nat)) (st : list nat * list nat) : Prop :=
    length (fst st) = N /\ length (snd st) = cc * n /\
    (forall p c, nth_error ex p = Some true -> c < cc ->
       nth_error (snd st) (p * cc + c) = Some (length (arr content p c pre))) /\
    (forall p c l, nth_error ex p = Some true -> In (c, l) pre -> has_value val p c (lay_of content (c, l)) = true ->
       exists k, nth_error (fst st) (psum (ncnt content) c + l) = Some k /\
                 nth_error (arr content p c pre) k = Some (lay_of content (c, l))) /\
    (forall p c k, nth_error ex p = Some true -> c < cc -> k < length (arr content p c pre) ->
       exists l, In (c, l) pre /\ has_value val p c (lay_of content (c, l)) = true /\
                 nth_error (fst st) (psum (ncnt content) c + l) = Some k).

  Lemma value_index z : (0 <=? z)%Z && (z <? Z.of_nat n)%Z = true -> z = Z.of_nat (Z.to_nat z) /\ Z.to_nat z < n.
  Proof. intros H. apply andb_true_iff in H as [H1 H2]. apply Z.leb_le in H1. apply Z.ltb_lt in H2. lia. Qed.

  Lemma part_loop_0_correct P content sched pl counts N : length content = cc ->
    iterates P content -> Permutation sched (particles_of_cells (i_dn P) 0 cc) ->
    number_of_particles content <= N -> length pl = N -> length counts = cc * n ->
    (forall j, j < cc * n -> nth_error counts j = Some 0) ->
    exists st, foldM (partition_loop_0 cc ex val P) (pl, counts) sched = Some st /\ part_inv content N sched st.
  Proof.
    intros Lc HP Hp HN Lp Lcn H0.
    assert (NDs : NoDup sched) by (eapply Permutation_NoDup; [symmetry; exact Hp|apply particles_nodup]).
    assert (Hv : forall c l, In (c, l) sched -> exists ls y, nth_error content c = Some ls /\ nth_error ls l = Some y).
    { intros c l Hi. apply (Permutation_in _ Hp) in Hi. rewrite <- Lc in Hi. apply visits_in in Hi; auto. }
    apply foldM_ind.
    - split; [auto|]. split; [auto|]. cbn [fst snd]. split; [|split].
      + intros p c Ep Hc. apply H0. apply nth_error_some_lt in Ep. nia.
      + intros p c l _ [].
      + intros p c k _ _ Hk. cbn in Hk. lia.
    - intros pre [c l] post [m cn] Es [I1 [I2 [I3 [I4 I5]]]]. cbn [fst snd] in *.
      destruct (Hv c l) as [ls [y [E Ey]]]; [rewrite Es; apply in_or_app; right; left; auto|].
      pose proof (nth_error_some_lt _ _ _ E) as Hcc. rewrite Lc in Hcc.
      destruct (HP _ _ E) as [_ [_ [_ Hl]]]. unfold partition_loop_0. rewrite (Hl _ _ Ey). cbn [obind].
      assert (Ely : lay_of content (c, l) = y) by (eapply lay_of_eq; eauto).
      assert (Hpre : forall c' l', In (c', l') pre -> exists ls' y', nth_error content c' = Some ls' /\ nth_error ls' l' = Some y').
      { intros c' l' Hi. apply Hv. rewrite Es. apply in_or_app; left; auto. }
      assert (Hnew : ~ In (c, l) pre).
      { rewrite Es in NDs. apply NoDup_remove_2 in NDs. intros Q. apply NDs. apply in_or_app; auto. }
      destruct (loop_index _ _ _ _ _ _ HP E Ey) as [Ei Hb].
      (* nothing is written unless the value names an existing partition *)
      assert (Hskip : (forall p, nth_error ex p = Some true -> has_value val p c y = false) ->
         part_inv content N (pre ++ [(c, l)]) (m, cn)).
      { intros Hno. assert (Ea : forall p c', nth_error ex p = Some true -> arr content p c' (pre ++ [(c, l)]) = arr content p c' pre).
        { intros p c' Ep. rewrite arr_snoc, Ely. destruct (Nat.eqb_spec c c') as [<-|]; cbn [andb]; [rewrite (Hno p Ep)|]; apply app_nil_r. }
        split; [auto|]. split; [auto|]. cbn [fst snd]. split; [|split].
        - intros p c' Ep Hc'. rewrite Ea by auto. auto.
        - intros p c' l' Ep Hi Hh. rewrite Ea by auto. apply in_app_or in Hi as [Hi|[[= <- <-]|[]]]; [auto|].
          rewrite Ely in Hh. rewrite (Hno p Ep) in Hh. discriminate.
        - intros p c' k Ep Hc' Hk. rewrite Ea in Hk by auto. destruct (I5 p c' k Ep Hc' Hk) as [l' [A [B C]]].
          exists l'. split; [apply in_or_app; auto|auto]. }
      destruct ((0 <=? val c y)%Z && (val c y <? Z.of_nat n)%Z) eqn:R.
      + destruct (value_index _ R) as [Ev Hvn]. set (q := Z.to_nat (val c y)) in *.
        destruct (nth_error_lt_some ex q Hvn) as [e Ee]. unfold rd at 1. rewrite Ee. cbn [obind]. destruct e.
        * unfold rd. rewrite (I3 q c Ee Hcc). cbn [obind]. set (v := length (arr content q c pre)).
          destruct (upd_some cn (q * cc + c) (v + 1)) as [cn' En]; [nia|]. rewrite En. cbn [obind]. rewrite Ei. cbn [obind].
          destruct (upd_some m (psum (ncnt content) c + l) v) as [m' Em]; [lia|]. rewrite Em. cbn [obind].
          exists (m', cn'). split; [auto|].
          assert (Hq : forall p, has_value val p c y = (p =? q)).
          { intros p. unfold has_value. rewrite Ev. destruct (Nat.eqb_spec p q) as [->|Nq].
            - apply Z.eqb_refl.
            - apply Z.eqb_neq. lia. }
          assert (Ea : forall p c', arr content p c' (pre ++ [(c, l)]) = arr content p c' pre ++ (if (c =? c') && (p =? q) then [y] else [])).
          { intros p c'. rewrite arr_snoc, Ely. destruct (Nat.eqb_spec c c') as [<-|]; cbn [andb]; [rewrite Hq|]; auto. }
          assert (Hdiff : forall c' l', In (c', l') pre -> psum (ncnt content) c' + l' <> psum (ncnt content) c + l).
          { intros c' l' Hi Q. destruct (Hpre _ _ Hi) as [ls' [y' [E' Ey']]].
            destruct (loop_index_inj content c' l' ls' c l ls E' E) as [-> ->]; eauto using nth_error_some_lt. }
          split; [cbn; rewrite (upd_length _ _ _ _ Em); auto|]. split; [cbn; rewrite (upd_length _ _ _ _ En); auto|]. cbn [fst snd].
          split; [|split].
          -- intros p c' Ep Hc'. rewrite (upd_nth _ _ _ _ _ En), Ea, app_length.
             destruct (Nat.eqb_spec (p * cc + c') (q * cc + c)) as [Q|Q].
             ++ destruct (mul_add_inj cc p c' q c Q Hc' Hcc) as [-> ->]. rewrite !Nat.eqb_refl. cbn. auto.
             ++ destruct (Nat.eqb_spec c c') as [<-|]; cbn [andb length].
                ** destruct (Nat.eqb_spec p q) as [->|]; [congruence|]. rewrite (I3 p c Ep Hc'). cbn. f_equal. lia.
                ** rewrite (I3 p c' Ep Hc'). f_equal. lia.
          -- intros p c' l' Ep Hi Hh. rewrite (upd_nth _ _ _ _ _ Em), Ea. apply in_app_or in Hi as [Hi|[[= <- <-]|[]]].
             ++ destruct (Nat.eqb_spec (psum (ncnt content) c' + l') (psum (ncnt content) c + l)) as [Q|Q]; [exfalso; eapply Hdiff; eauto|].
                destruct (I4 p c' l' Ep Hi Hh) as [k [A B]]. exists k. split; [auto|].
                rewrite nth_error_app1; [auto|]. eapply nth_error_some_lt; eauto.
             ++ rewrite Nat.eqb_refl. rewrite Ely in *. rewrite Hq in Hh. apply Nat.eqb_eq in Hh. subst p. exists v. split; [auto|].
                rewrite !Nat.eqb_refl. cbn [andb]. rewrite nth_error_app2 by (unfold v; lia). unfold v. rewrite Nat.sub_diag. auto.
          -- intros p c' k Ep Hc' Hk. rewrite Ea, app_length in Hk.
             destruct (le_lt_dec (length (arr content p c' pre)) k) as [Hg|Hg].
             ++ destruct (Nat.eqb_spec c c') as [<-|]; cbn [andb length] in Hk; [|lia].
                destruct (Nat.eqb_spec p q) as [->|]; cbn [length] in Hk; [|lia].
                exists l. split; [apply in_or_app; right; left; auto|]. rewrite Ely, Hq, Nat.eqb_refl. split; [auto|].
                rewrite (upd_nth _ _ _ _ _ Em), Nat.eqb_refl. f_equal. unfold v. lia.
             ++ destruct (I5 p c' k Ep Hc' Hg) as [l' [A [B C]]]. exists l'. split; [apply in_or_app; auto|]. split; [auto|].
                rewrite (upd_nth _ _ _ _ _ Em). destruct (Nat.eqb_spec (psum (ncnt content) c' + l') (psum (ncnt content) c + l)) as [Q|Q]; [exfalso; eapply Hdiff; eauto|auto].
        * exists (m, cn). split; [auto|]. apply Hskip. intros p Ep. unfold has_value. apply Z.eqb_neq. intros Q.
          assert (p = q) by lia. subst p. congruence.
      + exists (m, cn). split; [auto|]. apply Hskip. intros p Ep. unfold has_value. apply Z.eqb_neq. intros Q.
        apply nth_error_some_lt in Ep. apply andb_false_iff in R as [R|R]; [apply Z.leb_gt in R|apply Z.ltb_ge in R]; lia.
  Qed.

  (** One partition: counts, exclusive sums and map. *)
  Definition prepared (m : pmap) (ct : list (list nat)) : Prop :=
    map_sizes CL cc m /\ length ct = cc /\
    (forall c ls, nth_error ct c = Some ls -> nth_error (m_hn m) c = Some (length ls)) /\
    (forall c ls, nth_error ct c = Some ls -> nth_error (m_dn m) c = Some (length ls)) /\
    (forall c, c < cc -> nth_error (m_hes m) c = Some (particles_before ct c)) /\
    (forall c, c < cc -> nth_error (m_des m) c = Some (particles_before ct c)) /\
    starts_ok m ct /\ number_of_particles ct <= length (m_layers m) /\ m_total m = number_of_particles ct.

  Lemma prepare_correct k counts px m ct : device_ok d -> 1 <= cc -> map_sizes CL cc m -> length ct = cc ->
    (forall c ls, nth_error ct c = Some ls -> nth_error counts (cc * px + c) = Some (length ls)) ->
    exists m', partition_prepare d k cc counts px m = Some m' /\ prepared m' ct.
  Proof.
    intros D Hcc Sz Lct Hc. pose proof Sz as [S1 [S2 [S3 [S4 [S5 S6]]]]]. unfold partition_prepare.
    destruct (foldM_kernel (fun st c => let '(dn, kINT, des) := st in
          v <- rd counts (cc * px + c) ;;
          dn' <- upd dn c v ;; kINT' <- upd kINT c v ;; des' <- upd des c 0 ;; Some (dn', kINT', des'))
     (fun (st : list nat * list nat * list nat) (q : bool * nat) => if fst q then nth_error (fst (fst st)) (snd q) else nth_error (snd (fst st)) (snd q))
     (fun st => length (fst (fst st)) = length (m_dn m) /\ length (snd (fst st)) = cc /\ length (snd st) = cc)
     (fun c q => if snd q =? c then Some (length (nth c ct [])) else None)
     (ord d (k + 1) (seq 0 cc)) (m_dn m, fresh d k cc, m_des m)) as [[[dn kI] des0] [E1 [[L1 [L2 L3]] [W1 _]]]].
    { cbn [fst snd]. rewrite fresh_length. auto. }
    { intros [[a b] e] c [La [Lb Le]] Hi. apply in_ord in Hi; auto. apply in_seq in Hi. cbn [fst snd] in *.
      destruct (nth_error_lt_some ct c) as [ls E]; [lia|]. unfold rd. rewrite (Hc _ _ E). cbn [obind].
      destruct (upd_some a c (length ls)) as [a' Ea]; [lia|]. destruct (upd_some b c (length ls)) as [b' Eb]; [lia|].
      destruct (upd_some e c 0) as [e' Ee]; [lia|].
      rewrite Ea. cbn [obind]. rewrite Eb. cbn [obind]. rewrite Ee. cbn [obind]. exists (a', b', e'). split; [auto|]. split.
      - cbn. rewrite (upd_length _ _ _ _ Ea), (upd_length _ _ _ _ Eb), (upd_length _ _ _ _ Ee). auto.
      - intros [[|] j]; cbn [fst snd]; rewrite ?(upd_nth _ _ _ _ _ Ea), ?(upd_nth _ _ _ _ _ Eb), ?(nth_error_nth _ _ [] E); destruct (j =? c); auto. }
    { intros a b [q j] v w _ _. cbn [fst snd]. destruct (Nat.eqb_spec j a), (Nat.eqb_spec j b); try discriminate. subst. congruence. }
    cbn [fst snd] in *. rewrite E1. cbn [obind].
    assert (Hdk : forall c ls, nth_error ct c = Some ls -> nth_error dn c = Some (length ls) /\ nth_error kI c = Some (length ls)).
    { intros c ls E. pose proof (nth_error_some_lt _ _ _ E) as H.
      pose proof (W1 c (true, c) (length (nth c ct [])) ltac:(apply in_ord; auto; apply in_seq; lia)) as Q.
      pose proof (W1 c (false, c) (length (nth c ct [])) ltac:(apply in_ord; auto; apply in_seq; lia)) as Q2. cbn [fst snd] in Q, Q2.
      rewrite Nat.eqb_refl in Q, Q2. rewrite (nth_error_nth _ _ [] E) in Q, Q2. auto. }
    destruct (scan1_correct Nat.add 0 nat_monoid (Z.to_nat (junk d (k + 2) 0)) cc kI des0) as [des [E3 [X1 [X2 X3]]]]; [lia|lia|].
    rewrite E3. cbn [obind].
    assert (Hdes : forall c, c < cc -> nth_error des c = Some (particles_before ct c)).
    { intros c H. rewrite X1 by auto. f_equal. rewrite before_psum. apply psum_ext. intros i Hi.
      destruct (nth_error_lt_some ct i) as [ls E]; [lia|]. destruct (Hdk _ _ E) as [_ ->]. rewrite (ncnt_nth _ _ _ E). auto. }
    destruct (copy_prefix_correct dn (m_hn m) (length dn)) as [hn [E4 [L4 F4]]]; [lia|lia|]. rewrite E4. cbn [obind].
    destruct (copy_prefix_correct des (m_hes m) (length des)) as [hes [E5 [L5 F5]]]; [lia|lia|]. rewrite E5. cbn [obind].
    assert (Hhn : forall c ls, nth_error ct c = Some ls -> nth_error hn c = Some (length ls)).
    { intros c ls E. rewrite F4. pose proof (nth_error_some_lt _ _ _ E). destruct (Nat.ltb_spec c (length dn)); [|lia]. apply Hdk; auto. }
    assert (Hhes : forall c, c < cc -> nth_error hes c = Some (particles_before ct c)).
    { intros c H. rewrite F5. destruct (Nat.ltb_spec c (length des)); [|lia]. auto. }
    destruct (map_create_correct d (k + 3) CL cc (with_counts m hn dn hes des) ct) as [m1 [E6 [Sz1 [M1 [M2 [M3 [M4 [M5 [M6 M7]]]]]]]]]; auto.
    { unfold map_sizes, with_counts; cbn. lia. }
    cbn [with_counts m_hn m_dn m_hes m_des] in M1, M2, M3, M4.
    exists m1. split; [auto|]. split; [auto|]. split; [auto|]. split; [rewrite M1; auto|].
    split; [rewrite M2; intros c ls E; apply Hdk; auto|]. split; [rewrite M3; auto|]. split; [rewrite M4; auto|].
    split; [auto|]. split; [auto|]. apply M7; auto.
  Qed.

  Theorem partition_correct k gn P0 P1 content ms :
    device_ok d -> 1 <= cc -> length ms = n -> (forall m, In m ms -> map_sizes CL cc m) ->
    length content = cc -> number_of_particles content <= gn ->
    iterates P0 content -> iterates P1 content ->
    exists ms' ss, partition_create d k cc gn ex val P0 P1 ms = Some (ms', ss) /\
      length ms' = n /\ length ss = n /\
      forall p, nth_error ex p = Some true ->
        exists m s ct, nth_error ms' p = Some m /\ nth_error ss p = Some s /\ map_sizes CL cc m /\
          selects s m ct /\ same_particles ct (chosen (has_value val p) content).
  Proof.
    intros D Hcc Lms HSz Lc HN H0 H1. unfold partition_create.
    destruct (Nat.eqb_spec n 0) as [Hn0|Hn0].
    { exists ms, []. split; [auto|]. split; [lia|]. split; [cbn; lia|]. intros p Ep. apply nth_error_some_lt in Ep. lia. }
    destruct (fill_prefix_correct 0 (fresh d k (cc * n)) (cc * n)) as [counts0 [E0 [L0 F0]]]; [rewrite fresh_length; auto|].
    rewrite fresh_length in L0. rewrite E0. cbn [obind].
    set (sched := ord d (k + 2) (particles_of_cells (i_dn P0) 0 cc)).
    assert (Hp : Permutation sched (particles_of_cells (i_dn P0) 0 cc)) by apply D.
    destruct (part_loop_0_correct P0 content sched (fresh d (k + 1) gn) counts0 gn) as [[pl counts] [E1 [I1 [I2 [I3 [I4 I5]]]]]]; auto.
    { apply fresh_length. }
    { intros j Hj. rewrite F0. apply Nat.ltb_lt in Hj. rewrite Hj. auto. }
    rewrite E1. cbn [obind fst snd] in *.
    set (ct := fun p => map (fun c => arr content p c sched) (seq 0 cc)).
    assert (Lct : forall p, length (ct p) = cc) by (intros; unfold ct; rewrite map_length, seq_length; auto).
    assert (Ect : forall p c, c < cc -> nth_error (ct p) c = Some (arr content p c sched)).
    { intros p c H. unfold ct. rewrite nth_error_map_seq. apply Nat.ltb_lt in H. rewrite H. auto. }
    assert (Ect' : forall p c ls, nth_error (ct p) c = Some ls -> c < cc /\ ls = arr content p c sched).
    { intros p c ls E. pose proof (nth_error_some_lt _ _ _ E) as H. rewrite Lct in H. rewrite Ect in E by auto. split; congruence. }
    assert (Hprep : exists ms1, mapM (fun px => e <- rd ex px ;; m <- rd ms px ;;
              if e : bool then partition_prepare d (k + 10 + 10 * px) cc counts px m else Some m) (seq 0 n) = Some ms1 /\
       length ms1 = n /\ forall p, nth_error ex p = Some true -> exists m1, nth_error ms1 p = Some m1 /\ prepared m1 (ct p)).
    { destruct (mapM_total (fun px => e <- rd ex px ;; m <- rd ms px ;;
              if e : bool then partition_prepare d (k + 10 + 10 * px) cc counts px m else Some m) (seq 0 n)) as [ms1 Em].
      - intros px Hi. apply in_seq in Hi. destruct (nth_error_lt_some ex px) as [e Ee]; [lia|]. destruct (nth_error_lt_some ms px) as [m Emx]; [lia|].
        unfold rd. rewrite Ee, Emx. cbn [obind]. destruct e; [|eauto].
        destruct (prepare_correct (k + 10 + 10 * px) counts px m (ct px)) as [m' [E' _]]; eauto.
        { apply HSz. eapply nth_error_In; eauto. }
        intros c ls E. destruct (Ect' _ _ _ E) as [Hc ->]. rewrite Nat.mul_comm. auto.
      - exists ms1. split; [auto|]. split; [rewrite (mapM_length _ _ _ Em), seq_length; auto|].
        intros p Ep. pose proof (nth_error_some_lt _ _ _ Ep) as Hpn. destruct (nth_error_lt_some ms p) as [m Emx]; [lia|].
        pose proof (mapM_nth _ _ _ p p Em ltac:(rewrite nth_error_seq; apply Nat.ltb_lt in Hpn; rewrite Hpn; auto)) as Q.
        cbn beta in Q. unfold rd in Q. rewrite Ep, Emx in Q. cbn [obind] in Q.
        destruct (prepare_correct (k + 10 + 10 * p) counts p m (ct p)) as [m' [E' HQ]]; eauto.
        { apply HSz. eapply nth_error_In; eauto. }
        { intros c ls E. destruct (Ect' _ _ _ E) as [Hc ->]. rewrite Nat.mul_comm. auto. }
        exists m'. split; [congruence|auto]. }
    destruct Hprep as [ms1 [E2 [Lm1 Hms1]]]. rewrite E2. cbn [obind].
    (* loop 1 *)
    set (lays0 := map m_layers ms1).
    set (ok := fun q : nat * nat * nat => let '(p, c, j) := q in
       match nth_error ex p with Some true => (c <? cc) && (j <? length (arr content p c sched)) | _ => false end).
    assert (Hrd : forall p c j, ok (p, c, j) = true -> exists m1 x, nth_error ms1 p = Some m1 /\ prepared m1 (ct p) /\
       rd2 lays0 p (psum (ncnt (ct p)) c + j) = Some x /\ c < cc /\ j < length (arr content p c sched)).
    { intros p c j. unfold ok. destruct (nth_error ex p) as [[|]|] eqn:Ep; try discriminate. intros B.
      apply andb_true_iff in B as [B1 B2]. apply Nat.ltb_lt in B1, B2. destruct (Hms1 p Ep) as [m1 [Em1 HQ]].
      pose proof HQ as [_ [_ [_ [_ [_ [_ [_ [HL _]]]]]]]].
      pose proof (psum_lt _ _ (length (ct p)) _ (ncnt_nth _ _ _ (Ect p c B1)) ltac:(rewrite Lct; auto)) as B. rewrite <- number_psum in B.
      destruct (nth_error_lt_some (m_layers m1) (psum (ncnt (ct p)) c + j)) as [x Ex]; [lia|].
      exists m1, x. split; [auto|]. split; [auto|]. split; [|auto]. unfold rd2, rd, lays0. rewrite nth_error_map, Em1. cbn. auto. }
    destruct (foldM_kernel (partition_loop_1 ex val P1 pl ms1)
       (fun s q => if ok q then (let '(p, c, j) := q in rd2 s p (psum (ncnt (ct p)) c + j)) else None)
       (fun s => shape2 s = shape2 lays0)
       (fun (a : nat * nat) q => if ok q then (let '(p, c, j) := q in
           if (c =? fst a) && has_value val p c (lay_of content a) && (match nth_error pl (psum (ncnt content) c + snd a) with Some j' => j =? j' | None => false end)
           then Some (lay_of content a) else None) else None)
       (ord d (k + 3) (particles_of_cells (i_dn P1) 0 cc)) lays0) as [lays [E3 [Sh [W3 _]]]].
    { auto. }
    { intros s [c l] Ss Hi. apply in_ord in Hi; auto. rewrite <- Lc in Hi. apply visits_in in Hi; auto.
      destruct Hi as [ls [y [E Ey]]]. destruct (H1 _ _ E) as [_ [_ [_ Hl]]]. cbn [fst snd].
      pose proof (nth_error_some_lt _ _ _ E) as Hc. rewrite Lc in Hc.
      assert (Ely : lay_of content (c, l) = y) by (eapply lay_of_eq; eauto).
      assert (His : In (c, l) sched) by (apply (Permutation_in _ (Permutation_sym Hp)); rewrite <- Lc; apply visits_in; eauto).
      destruct (loop_index _ _ _ _ _ _ H1 E Ey) as [Ei Hb].
      destruct (nth_error_lt_some pl (psum (ncnt content) c + l)) as [k0 Ek0]; [lia|].
      unfold partition_loop_1. rewrite (Hl _ _ Ey). cbn [obind]. rewrite Ei. cbn [obind]. unfold rd at 1. rewrite Ek0. cbn [obind].
      assert (Hskip : (forall p, nth_error ex p = Some true -> has_value val p c y = false) ->
        exists s', Some s = Some s' /\ shape2 s' = shape2 lays0 /\ forall q,
          (if ok q then (let '(p, c0, j) := q in rd2 s' p (psum (ncnt (ct p)) c0 + j)) else None) =
          match (if ok q then (let '(p, c0, j) := q in
             if (c0 =? c) && has_value val p c0 (lay_of content (c, l)) && (match nth_error pl (psum (ncnt content) c0 + l) with Some j' => j =? j' | None => false end)
             then Some (lay_of content (c, l)) else None) else None) with Some v => Some v | None => if ok q then (let '(p, c0, j) := q in rd2 s p (psum (ncnt (ct p)) c0 + j)) else None end).
      { intros Hno. exists s. split; [auto|]. split; [auto|]. intros [[p c0] j]. destruct (ok (p, c0, j)) eqn:Ok; [|auto].
        destruct (Nat.eqb_spec c0 c) as [->|]; [|auto]. cbn [andb]. rewrite Ely.
        unfold ok in Ok. destruct (nth_error ex p) as [[|]|] eqn:Ep; try discriminate. rewrite (Hno p Ep). auto. }
      destruct ((0 <=? val c y)%Z && (val c y <? Z.of_nat n)%Z) eqn:R.
      - destruct (value_index _ R) as [Ev Hvn]. set (q := Z.to_nat (val c y)) in *.
        destruct (nth_error_lt_some ex q Hvn) as [e Ee]. unfold rd at 1. rewrite Ee. cbn [obind]. destruct e.
        + assert (Hq : forall p, has_value val p c y = (p =? q)).
          { intros p. unfold has_value. rewrite Ev. destruct (Nat.eqb_spec p q) as [->|Nq]; [apply Z.eqb_refl|apply Z.eqb_neq; lia]. }
          destruct (I4 q c l Ee His) as [k1 [A B]]; [rewrite Ely, Hq; apply Nat.eqb_refl|]. assert (k1 = k0) by congruence. subst k1.
          pose proof (nth_error_some_lt _ _ _ B) as Hk0.
          assert (Ok : ok (q, c, k0) = true).
          { unfold ok. rewrite Ee. apply andb_true_iff. split; apply Nat.ltb_lt; auto. }
          destruct (Hrd _ _ _ Ok) as [m1 [x [Em1 [HQ [Ex _]]]]]. pose proof HQ as [_ [_ [_ [_ [_ [Hes _]]]]]].
          unfold rd at 1. rewrite Em1. cbn [obind]. unfold rd. rewrite (Hes c Hc). cbn [obind]. rewrite before_psum.
          destruct (shape2_rd2 lays0 s q (psum (ncnt (ct q)) c + k0) x) as [x' Ex']; auto.
          destruct (upd2_some s q (psum (ncnt (ct q)) c + k0) y x' Ex') as [s' Es']. exists s'. split; [auto|].
          split; [rewrite (upd2_shape _ _ _ _ _ Es'); auto|]. intros [[p c0] j]. destruct (ok (p, c0, j)) eqn:Ok'; [|auto].
          rewrite (upd2_rd2 _ _ _ _ _ Es'). rewrite Ely.
          destruct (Nat.eqb_spec p q) as [->|Npq]; cbn [andb].
          * destruct (Nat.eqb_spec (psum (ncnt (ct q)) c0 + j) (psum (ncnt (ct q)) c + k0)) as [Q|Q].
            -- destruct (Hrd _ _ _ Ok') as [_ [_ [_ [_ [_ [Hc0 Hj]]]]]].
               destruct (loop_index_inj (ct q) c0 j _ c k0 _ (Ect q c0 Hc0) (Ect q c Hc) Hj Hk0 Q) as [-> ->].
               rewrite Nat.eqb_refl, Hq, Nat.eqb_refl, Ek0, Nat.eqb_refl. auto.
            -- destruct (Nat.eqb_spec c0 c) as [->|]; cbn [andb]; auto. rewrite Hq, Nat.eqb_refl, Ek0. cbn [andb].
               destruct (Nat.eqb_spec j k0) as [->|]; [congruence|auto].
          * destruct (Nat.eqb_spec c0 c) as [->|]; cbn [andb]; auto. rewrite Hq. destruct (Nat.eqb_spec p q); [congruence|]. auto.
        + apply Hskip. intros p Ep. unfold has_value. apply Z.eqb_neq. intros Q. assert (p = q) by lia. subst p. congruence.
      - apply Hskip. intros p Ep. unfold has_value. apply Z.eqb_neq. intros Q.
        apply nth_error_some_lt in Ep. apply andb_false_iff in R as [R|R]; [apply Z.leb_gt in R|apply Z.ltb_ge in R]; lia. }
    { assert (Hval : forall a p c j v, In a (ord d (k + 3) (particles_of_cells (i_dn P1) 0 cc)) ->
        (if ok (p, c, j) then if (c =? fst a) && has_value val p c (lay_of content a) && (match nth_error pl (psum (ncnt content) c + snd a) with Some j' => j =? j' | None => false end)
           then Some (lay_of content a) else None else None) = Some v -> nth_error (arr content p c sched) j = Some v).
      { intros [c0 l] p c j v Hi. cbn [fst snd]. destruct (ok (p, c, j)) eqn:Ok; [|discriminate].
        destruct (Nat.eqb_spec c c0) as [<-|]; [|discriminate]. cbn [andb]. destruct (has_value _ _ _ _) eqn:Hh; [|discriminate]. cbn [andb].
        unfold ok in Ok. destruct (nth_error ex p) as [[|]|] eqn:Ep; try discriminate.
        assert (His : In (c, l) sched).
        { apply (Permutation_in _ (Permutation_sym Hp)). apply in_ord in Hi; auto. rewrite <- Lc in *. apply visits_in in Hi; auto. apply visits_in; auto. }
        destruct (I4 p c l Ep His Hh) as [k1 [A B]]. rewrite A. destruct (Nat.eqb_spec j k1) as [->|]; [|discriminate]. intros [= <-]. auto. }
      intros a b [[p c] j] v w Ha Hb Wa Wb. pose proof (Hval _ _ _ _ _ Ha Wa). pose proof (Hval _ _ _ _ _ Hb Wb). congruence. }
    rewrite E3. cbn [obind].
    assert (Lly : length lays = n).
    { pose proof (f_equal (@length nat) Sh) as Q. unfold shape2, lays0 in Q. rewrite !map_length in Q. lia. }
    assert (Hms2 : mapM (fun px => m <- rd ms1 px ;; lay <- rd lays px ;; Some (with_layers m lay)) (seq 0 n) =
       Some (map (fun q => with_layers (fst q) (snd q)) (combine ms1 lays))).
    { assert (G : forall l1 l2 pre1 pre2, length l1 = length l2 -> length pre1 = length pre2 ->
        mapM (fun px => m <- rd (pre1 ++ l1) px ;; lay <- rd (pre2 ++ l2) px ;; Some (with_layers m lay)) (seq (length pre1) (length l1)) =
        Some (map (fun q => with_layers (fst q) (snd q)) (combine l1 l2))).
      { clear. induction l1 as [|x l1 IH]; intros [|y l2] pre1 pre2 HL HP; cbn in HL; try lia; cbn [length seq mapM combine map fst snd]; auto.
        unfold rd at 1. rewrite (nth_error_app2 pre1), Nat.sub_diag by lia. cbn [nth_error obind]. unfold rd at 1. rewrite (nth_error_app2 pre2) by lia. replace (length pre1 - length pre2) with 0 by lia. cbn [nth_error obind].
        specialize (IH l2 (pre1 ++ [x]) (pre2 ++ [y]) ltac:(lia) ltac:(rewrite !app_length; cbn; lia)).
        rewrite <- !app_assoc, app_length in IH. cbn [app length] in IH. rewrite Nat.add_1_r in IH. rewrite IH. auto. }
      specialize (G ms1 lays [] [] ltac:(lia) eq_refl). cbn [app length] in G. rewrite Lm1 in G. auto. }
    rewrite Hms2. cbn [obind]. eexists _, _. split; [reflexivity|].
    rewrite !map_length, combine_length. split; [lia|]. split; [lia|].
    intros p Ep. destruct (Hms1 p Ep) as [m1 [Em1 HQ]]. pose proof HQ as [Q1 [Q2 [Q3 [Q4 [Q5 [Q6 [Q7 [Q8 Q9]]]]]]]].
    destruct (nth_error_lt_some lays p) as [lay Elay]; [apply nth_error_some_lt in Ep; lia|].
    assert (Ecb : nth_error (combine ms1 lays) p = Some (m1, lay)).
    { clear - Em1 Elay. revert p lays Em1 Elay. induction ms1 as [|x ms1 IH]; intros [|p] [|z lays] Em1 Elay; cbn in *; try discriminate; [congruence|eauto]. }
    exists (with_layers m1 lay), {| s_npart := m_total m1; s_ncell := cc |}, (ct p).
    split; [rewrite nth_error_map, Ecb; auto|]. split; [rewrite !nth_error_map, Ecb; auto|]. split; [exact Q1|]. split.
    - eapply (selects_intro CL cc); cbn [with_layers m_hn m_dn m_hes m_des m_starts m_layers]; eauto.
      intros c ls j v E Ej. destruct (Ect' _ _ _ E) as [Hc ->]. pose proof (nth_error_some_lt _ _ _ Ej) as Hj.
      destruct (I5 p c j Ep Hc Hj) as [l [A [B C]]].
      assert (Ok : ok (p, c, j) = true) by (unfold ok; rewrite Ep; apply andb_true_iff; split; apply Nat.ltb_lt; auto).
      assert (Hi : In (c, l) (ord d (k + 3) (particles_of_cells (i_dn P1) 0 cc))).
      { apply in_ord; auto. apply (Permutation_in _ Hp) in A. rewrite <- Lc in *. apply visits_in in A; auto. apply visits_in; auto. }
      pose proof (W3 (c, l) (p, c, j) (lay_of content (c, l)) Hi) as Q. cbn beta iota in Q. cbn [fst snd] in Q.
      rewrite Ok, Nat.eqb_refl, B, C, Nat.eqb_refl in Q. specialize (Q eq_refl).
      unfold rd2, rd in Q. rewrite Elay in Q. cbn [obind] in Q. rewrite Q.
      destruct (I4 p c l Ep A B) as [k1 [A1 B1]]. assert (k1 = j) by congruence. subst k1. congruence.
    - unfold same_particles.
      assert (G : forall c a b, nth_error (ct p) c = Some a -> nth_error (chosen (has_value val p) content) c = Some b -> Permutation a b).
      { intros c a b Ea Eb. destruct (Ect' _ _ _ Ea) as [Hc ->]. unfold chosen in Eb. rewrite per_cell_nth in Eb.
        destruct (nth_error content c) as [ls0|] eqn:E; [|discriminate]. injection Eb as <-. unfold arr.
        apply Permutation_filter. rewrite <- (of_cell_all P0 content c ls0) by auto. apply Permutation_map, Permutation_filter. rewrite Lc. auto. }
      assert (LL : length (ct p) = length (chosen (has_value val p) content)) by (unfold chosen; rewrite per_cell_length, Lct; lia).
      clear - G LL. revert LL G. generalize (ct p) as A. generalize (chosen (has_value val p) content) as B.
      intros B A. revert B. induction A as [|a A IH]; intros [|b B] LL G; cbn in *; try lia; constructor.
      + apply (G 0); auto.
      + apply IH; [lia|]. intros c. apply (G (S c)).
  Qed.
End Partition.
