(** Proofs about BoundaryMeshInterface: the invariant of extend_exchange_pattern. *)
From Coq Require Import List Arith Lia ZArith Bool Permutation Sorted.
Import ListNotations.
From Verif Require Import Base Kernel Bmi_Model Bmi_Spec Bmi_Proofs.

Definition SS (w : list bmi) (s d : nat) : list Z :=
  match nth_error w s with Some b => mset d (m_recv b) | None => [] end.

Lemma SS_at w s b d : nth_error w s = Some b -> SS w s d = mset d (m_recv b).
Proof. unfold SS. intros ->. auto. Qed.

(** What note_pairs does not touch. *)
Definition same_rest (b b' : bmi) : Prop :=
  m_send b' = m_send b /\ m_graph b' = m_graph b /\ m_version b' = m_version b.

Section Inv.
  Variables (owner : Z -> nat) (own : list (list Z)).
  Hypothesis own_nodup : forall o, In o own -> NoDup o.

  Record linv (known o : list Z) (b : bmi) : Prop := {
    li_ownmap : forall g i, mget Z.eqb g (m_ownmap b) = Some i <-> nth_error o i = Some g;
    li_nodup : NoDup (m_lin b);
    li_lin : forall g, In g (m_lin b) <-> In g known;
    li_seq : forall g i, mget Z.eqb g (m_seq b) = Some i <-> nth_error (m_lin b) i = Some g;
    li_keys : NoDup (map fst (m_recv b));
    li_keyin : forall d, In d (map fst (m_recv b)) <-> exists g, In g known /\ owner g = d;
    li_sorted : forall d, sorted (mset d (m_recv b));
    li_in : forall d g, In g (mset d (m_recv b)) <-> In g known /\ owner g = d;
    li_owned : forall g, In g known -> exists o, nth_error own (owner g) = Some o /\ In g o
  }.

  Definition news1 (known ids : list Z) : bool := existsb (fun x => negb (existsb (Z.eqb x) known)) ids.

  Lemma existsb_in x l : existsb (Z.eqb x) l = true <-> In x l.
  Proof. rewrite existsb_exists. split; [intros [y [I E]]; apply Z.eqb_eq in E; subst; auto|intros I; exists x; split; auto; apply Z.eqb_refl]. Qed.

  Lemma linv_ext known known' o b : (forall g, In g known <-> In g known') -> linv known o b -> linv known' o b.
  Proof.
    intros E [H1 H2 H3 H4 H5 H6 H7 H8 H9].
    constructor; auto; intros; rewrite ?H3, ?H6, ?H8, ?E; try tauto.
    - split; intros [g [I Eg]]; exists g; split; auto; apply E; auto.
    - apply H9, E; auto.
  Qed.

  Lemma mget_lin_new b known o g : linv known o b -> ~ In g known -> mget Z.eqb g (m_seq b) = None.
  Proof.
    intros L N. destruct (mget Z.eqb g (m_seq b)) as [i|] eqn:E; auto. apply (li_seq _ _ _ L) in E.
    apply nth_error_In in E. apply (li_lin _ _ _ L) in E. tauto.
  Qed.

  Lemma note_pair_ok known o b m d g : linv known o b -> pairs_ok owner own [(d, g)] ->
    let r := note_pair (b, m) (d, g) in
    linv (known ++ [g]) o (fst r) /\ same_rest b (fst r) /\
    (existsb (Z.eqb g) known = true -> r = (b, m)) /\ (existsb (Z.eqb g) known = false -> snd r = true) /\
    exists t, m_lin (fst r) = m_lin b ++ t.
  Proof.
    intros L P. destruct (P d g (or_introl eq_refl)) as [-> Ho].
    assert (Ei : existsb (Z.eqb g) (mset (owner g) (m_recv b)) = existsb (Z.eqb g) known).
    { apply eq_true_iff_eq. rewrite !existsb_in, (li_in _ _ _ L). tauto. }
    cbn. rewrite Ei. destruct (existsb (Z.eqb g) known) eqn:E.
    - apply existsb_in in E. split; [|split; [repeat split|split; [auto|split; [discriminate|exists []; symmetry; apply app_nil_r]]]].
      eapply linv_ext; [|exact L]. intros x. rewrite in_app_iff. cbn. intuition subst; auto.
    - assert (N : ~ In g known) by (intros I; apply existsb_in in I; congruence).
      pose proof (mget_lin_new b known o g L N) as Ns.
      assert (Nl : ~ In g (m_lin b)) by (rewrite (li_lin _ _ _ L); auto).
      destruct L as [H1 H2 H3 H4 H5 H6 H7 H8 H9].
      split; [|split; [repeat split|split; [discriminate|split; [auto|cbn; eauto]]]].
      constructor; cbn [fst m_ownmap m_lin m_seq m_recv]; auto.
      + apply NoDup_app_intro; auto; [constructor; [intros []|constructor]|]. intros x I [->|[]]; auto.
      + intros x. rewrite !in_app_iff, H3. tauto.
      + intros x i. rewrite (mget_mput _ Zeqb_ok). destruct (Z.eqb_spec x g) as [->|Nx].
        * split; [intros [= <-]; rewrite nth_error_app2, Nat.sub_diag by lia; auto|].
          intros E2. destruct (lt_dec i (length (m_lin b))) as [Li|Li].
          -- rewrite nth_error_app1 in E2 by auto. apply nth_error_In in E2. tauto.
          -- rewrite nth_error_app2 in E2 by lia. destruct (i - length (m_lin b)) as [|k] eqn:Ek; [f_equal; lia|destruct k; discriminate].
        * rewrite H4. destruct (lt_dec i (length (m_lin b))) as [Li|Li]; [rewrite nth_error_app1 by auto; tauto|].
          rewrite nth_error_app2 by lia. split; intros E2; [apply nth_error_some_lt in E2; lia|].
          destruct (i - length (m_lin b)) as [|k]; [cbn in E2; congruence|destruct k; discriminate].
      + apply (mput_keys _ Neqb_ok); auto.
      + intros x. rewrite <- (mget_in _ Neqb_ok), (mget_mput _ Neqb_ok). destruct (Nat.eqb_spec x (owner g)) as [->|Nx].
        * split; [intros _; exists g; split; auto; apply in_or_app; right; left; auto|congruence].
        * rewrite (mget_in _ Neqb_ok), H6. split; intros [y [I Ey]]; exists y; (split; [|auto]).
          -- apply in_or_app; auto.
          -- apply in_app_or in I. destruct I as [|[->|[]]]; [auto|congruence].
      + intros x. rewrite mset_mput. destruct (x =? owner g); auto. apply zinsert_sorted; auto.
      + intros x y. rewrite mset_mput. destruct (Nat.eqb_spec x (owner g)) as [->|Nx].
        * rewrite zinsert_in, H8, in_app_iff. cbn. intuition subst; auto.
        * rewrite H8, in_app_iff. cbn. intuition subst; tauto.
      + intros y I. apply in_app_or in I. destruct I as [|[->|[]]]; auto.
  Qed.

  Lemma note_pairs_gen l : forall known o b m, linv known o b -> pairs_ok owner own l ->
    let r := fold_left note_pair l (b, m) in
    linv (known ++ ids_of l) o (fst r) /\ same_rest b (fst r) /\
    snd r = (m || news1 known (ids_of l)) /\ (news1 known (ids_of l) = false -> r = (b, m)) /\
    exists t, m_lin (fst r) = m_lin b ++ t.
  Proof.
    induction l as [|[d g] l IH]; intros known o b m L P.
    - cbn. rewrite app_nil_r. split; [auto|]. split; [repeat split|]. split; [destruct m; auto|]. split; [auto|]. exists []. symmetry; apply app_nil_r.
    - cbn [fold_left ids_of map snd].
      destruct (note_pair_ok known o b m d g L) as [L1 [R1 [F1 [F2 [t1 T1]]]]]; [intros x y I; apply P; cbn in *; intuition auto|].
      cbv zeta in F1, F2, L1, R1, T1. destruct (note_pair (b, m) (d, g)) as [b1 m1] eqn:E1. cbn [fst snd] in *.
      destruct (IH (known ++ [g]) o b1 m1 L1) as [L2 [R2 [F3 [F4 [t2 T2]]]]]; [intros x y I; apply P; right; auto|].
      cbv zeta in *.
      rewrite <- app_assoc in L2. cbn in L2. split; [exact L2|].
      split; [destruct R1 as [? [? ?]], R2 as [? [? ?]]; repeat split; congruence|].
      assert (En : news1 (known ++ [g]) (ids_of l) = true -> news1 known (ids_of l) = true).
      { unfold news1. rewrite !existsb_exists. intros [x [I Nx]]. exists x. split; auto.
        apply negb_true_iff in Nx. apply negb_true_iff. rewrite existsb_app in Nx. apply orb_false_iff in Nx. tauto. }
      unfold news1 at 1 2. cbn [existsb]. fold (news1 known (ids_of l)).
      destruct (existsb (Z.eqb g) known) eqn:Eg; cbn [negb orb].
      + specialize (F1 eq_refl). injection F1 as -> ->.
        assert (En2 : news1 (known ++ [g]) (ids_of l) = news1 known (ids_of l)).
        { apply eq_true_iff_eq. split; auto. unfold news1. rewrite !existsb_exists. intros [x [I Nx]]. exists x. split; auto.
          apply negb_true_iff in Nx. apply negb_true_iff. rewrite existsb_app, Nx. cbn. rewrite orb_false_r.
          destruct (Z.eqb_spec x g); auto. subst; congruence. }
        rewrite En2 in F3, F4. split; [|split]; auto. exists t2. congruence.
      + specialize (F2 eq_refl). subst m1. rewrite F3. cbn. split; [destruct m; reflexivity|]. split; [discriminate|].
        exists (t1 ++ t2). rewrite T2, T1, app_assoc. auto.
  Qed.

  Lemma note_pairs_ok l known o b : linv known o b -> pairs_ok owner own l ->
    let r := note_pairs b l in
    linv (known ++ ids_of l) o (fst r) /\ same_rest b (fst r) /\
    snd r = news1 known (ids_of l) /\ (news1 known (ids_of l) = false -> fst r = b) /\
    exists t, m_lin (fst r) = m_lin b ++ t.
  Proof.
    intros L P. destruct (note_pairs_gen l known o b false L P) as [L2 [R2 [F3 [F4 T]]]].
    cbv zeta in *. unfold note_pairs. split; [auto|]. split; [auto|]. split; [auto|]. split; [|auto]. intros E. rewrite (F4 E). auto.
  Qed.

  (* ---------------------------------------------------------------- *)
  Lemma record_senders_ok (ownmap : list (Z * nat)) (blk : nat -> list Z) srcs send :
    (forall s g, In s srcs -> In g (blk s) -> mget Z.eqb g ownmap <> None) ->
    (forall s, sorted (mset s send)) ->
    exists send', record_senders ownmap srcs (map (fun s => length (blk s)) srcs) (flat_map blk srcs) send = Some send' /\
      (forall s, sorted (mset s send')) /\
      (forall s g, In g (mset s send') <-> In g (mset s send) \/ (In s srcs /\ In g (blk s))) /\
      (forall s, In s srcs -> blk s <> [] -> mget Nat.eqb s send' <> None).
  Proof.
    intros Ho Hs0. unfold record_senders.
    match goal with |- context [foldM ?f (send, 0) _] => set (F := f) end.
    destruct (foldM_ind F (fun pre st => let done := firstn (length pre) srcs in
        snd st = length (flat_map blk done) /\ (forall s, sorted (mset s (fst st))) /\
        (forall s g, In g (mset s (fst st)) <-> In g (mset s send) \/ (In s done /\ In g (blk s))) /\
        (forall s, In s done -> blk s <> [] -> mget Nat.eqb s (fst st) <> None))
      (seq 0 (length srcs)) (send, 0)) as [st [E [E1 [E2 [E3 E4]]]]].
    - cbn. repeat split; auto; intros; tauto.
    - intros pre a post [sd index] Epp [I1 [I2 [I3 I4]]]. cbn [fst snd] in *.
      assert (Ea : a = length pre /\ length pre < length srcs).
      { assert (H : nth_error (seq 0 (length srcs)) (length pre) = Some a) by (rewrite Epp, nth_error_app2, Nat.sub_diag by lia; auto).
        rewrite nth_error_seq in H. destruct (Nat.ltb_spec (length pre) (length srcs)); [|discriminate]. cbn in H. injection H as <-. auto. }
      destruct Ea as [-> La]. destruct (nth_error_lt_some srcs _ La) as [s Es].
      pose proof (nth_error_In _ _ Es) as Is.
      assert (Ef : firstn (S (length pre)) srcs = firstn (length pre) srcs ++ [s]).
      { clear -Es. revert srcs Es. induction (length pre) as [|n IH]; intros [|x l] Es; cbn in *; try discriminate; [congruence|]. f_equal; auto. }
      unfold F at 1. unfold rd at 1 2. rewrite Es, nth_error_map, Es. cbn [obind option_map].
      match goal with |- context [foldM ?f (sd, index) _] => set (G := f) end.
      destruct (foldM_ind G (fun pre2 st => let dn := firstn (length pre2) (blk s) in
          snd st = index + length pre2 /\ (forall x, sorted (mset x (fst st))) /\
          (forall x g, In g (mset x (fst st)) <-> In g (mset x sd) \/ (x = s /\ In g dn)) /\
          (forall x, mget Nat.eqb x sd <> None -> mget Nat.eqb x (fst st) <> None) /\
          (pre2 <> [] -> mget Nat.eqb s (fst st) <> None))
        (seq 0 (length (blk s))) (sd, index)) as [[sd' index'] [Eg [J1 [J2 [J3 [J4 J5]]]]]].
      + cbn. repeat split; auto; intros; try tauto.
      + intros pre2 a2 post2 [sd2 ix2] Epp2 [K1 [K2 [K3 [K4 K5]]]]. cbn [fst snd] in *.
        assert (Lp : length pre2 < length (blk s)).
        { assert (H : length (seq 0 (length (blk s))) = length pre2 + S (length post2)) by (rewrite Epp2, app_length; auto). rewrite seq_length in H. lia. }
        destruct (nth_error_lt_some (blk s) _ Lp) as [gid Eg].
        assert (Ef2 : firstn (S (length pre2)) (blk s) = firstn (length pre2) (blk s) ++ [gid]).
        { clear -Eg. revert Eg. generalize (blk s). induction (length pre2) as [|n IH]; intros [|x l] Eg; cbn in *; try discriminate; [congruence|]. f_equal; auto. }
        assert (Er : nth_error (flat_map blk srcs) ix2 = Some gid).
        { rewrite K1, I1.
          assert (Efs : flat_map blk srcs = flat_map blk (firstn (length pre) srcs) ++ flat_map blk (skipn (length pre) srcs)) by (rewrite <- flat_map_app, firstn_skipn; auto).
          rewrite Efs, nth_error_app2 by lia.
          replace (length (flat_map blk (firstn (length pre) srcs)) + length pre2 - length (flat_map blk (firstn (length pre) srcs))) with (length pre2) by lia.
          destruct (skipn (length pre) srcs) as [|x l] eqn:Sk.
          - assert (H : length (skipn (length pre) srcs) = 0) by (rewrite Sk; auto). rewrite skipn_length in H. lia.
          - assert (H : nth_error (skipn (length pre) srcs) 0 = Some s) by (rewrite nth_error_skipn, Nat.add_0_r; auto).
            rewrite Sk in H. cbn in H. injection H as ->. cbn [flat_map]. rewrite nth_error_app1 by lia. auto. }
        unfold G at 1. unfold rd. rewrite Er. cbn [obind].
        destruct (mget Z.eqb gid ownmap) eqn:Eo; [|exfalso; eapply (Ho s gid); eauto; eapply nth_error_In; eauto].
        cbn [assert obind]. eexists. split; [reflexivity|]. cbn [fst snd]. cbv zeta. rewrite !app_length. cbn [length]. rewrite !Nat.add_1_r.
        rewrite Ef2. split; [lia|]. split; [|split; [|split]].
        * intros x. rewrite mset_mput. destruct (x =? s); auto. apply zinsert_sorted; auto.
        * intros x g. rewrite mset_mput, in_app_iff. cbn [In]. destruct (Nat.eqb_spec x s) as [->|Nx].
          -- rewrite zinsert_in, K3. intuition auto.
          -- rewrite K3. intuition auto.
        * intros x Hx. rewrite (mget_mput _ Neqb_ok). destruct (x =? s); [congruence|]. auto.
        * intros _. rewrite (mget_mput _ Neqb_ok), Nat.eqb_refl. congruence.
      + exists (sd', index'). split; [exact Eg|]. cbn [fst snd] in *. cbv zeta in *. rewrite !app_length. cbn [length]. rewrite !Nat.add_1_r, Ef.
        rewrite seq_length, firstn_all in J3. rewrite seq_length in J1.
        split; [rewrite flat_map_app, app_length; cbn; rewrite app_nil_r; lia|].
        split; [auto|]. split.
        * intros x g. rewrite J3, I3, in_app_iff. cbn [In]. intuition (subst; auto).
        * intros x Hx Hb. apply in_app_or in Hx. destruct Hx as [Hx|[->|[]]]; [apply J4; auto|].
          apply J5. destruct (blk x); [congruence|]. cbn. discriminate.
    - rewrite E. cbn [obind]. exists (fst st). rewrite seq_length, firstn_all in E1, E3, E4. repeat split; auto; apply E3.
  Qed.

  Lemma pack_index_ok known o b outids : linv known o b -> (forall g, In g outids <-> In g known) ->
    exists pack, outgoing_pack_index (m_lin b) (m_seq b) outids = Some pack /\ length pack = length (m_lin b) /\
      forall i g, nth_error (m_lin b) i = Some g -> exists k, nth_error pack i = Some k /\ nth_error outids k = Some g.
  Proof.
    intros L Hin. unfold outgoing_pack_index.
    match goal with |- context [foldM ?f (repeat None _, 0) _] => set (F := f) end.
    destruct (foldM_ind F (fun pre st => length (fst st) = length (m_lin b) /\ snd st = length pre /\
        forall i g, nth_error (m_lin b) i = Some g -> In g pre -> exists k, nth_error (fst st) i = Some (Some k) /\ nth_error outids k = Some g)
      outids (repeat None (length (m_lin b)), 0)) as [[h pi] [E [E1 [E2 E3]]]].
    - cbn. rewrite repeat_length. repeat split; auto. intros ? ? _ [].
    - intros pre g post [h pi] Epp [I1 [I2 I3]]. cbn [fst snd] in *.
      assert (Ig : In g (m_lin b)) by (apply (li_lin _ _ _ L), Hin; rewrite Epp; apply in_or_app; right; left; auto).
      destruct (In_nth_error _ _ Ig) as [i Ei]. unfold F at 1. rewrite (proj2 (li_seq _ _ _ L g i) Ei). cbn [obind].
      destruct (upd_some h i (Some pi)) as [h' Eh]; [rewrite I1; eapply nth_error_some_lt; eauto|].
      rewrite Eh. cbn [obind]. eexists. split; [reflexivity|]. cbn [fst snd]. rewrite (upd_length _ _ _ _ Eh), app_length. cbn [length].
      split; [auto|]. split; [lia|]. intros j x Ej Ix. rewrite (upd_nth _ _ _ _ j Eh). destruct (Nat.eqb_spec j i) as [->|Nj].
      + exists pi. split; auto. rewrite Epp, I2, nth_error_app2, Nat.sub_diag by lia. cbn. congruence.
      + apply in_app_or in Ix. destruct Ix as [Ix|[->|[]]]; [eauto|].
        exfalso. apply Nj. pose proof (proj1 (NoDup_nth_error (m_lin b)) (li_nodup _ _ _ L)) as N. apply N; [eapply nth_error_some_lt; eauto|congruence].
    - rewrite E. cbn [obind fst snd] in *.
      destruct (mapM_total (fun x : option nat => x) h) as [pack Ep].
      { intros x Ix. destruct (In_nth_error _ _ Ix) as [i Ei]. destruct (nth_error_lt_some (m_lin b) i) as [g Eg]; [rewrite <- E1; eapply nth_error_some_lt; eauto|].
        destruct (E3 i g Eg) as [k [Ek _]]; [apply Hin, (li_lin _ _ _ L); eapply nth_error_In; eauto|]. rewrite Ei in Ek. injection Ek as ->. eauto. }
      rewrite Ep. exists pack. split; auto. split; [rewrite (mapM_length _ _ _ Ep); auto|].
      intros i g Eg. destruct (E3 i g Eg) as [k [Ek E4]]; [apply Hin, (li_lin _ _ _ L); eapply nth_error_In; eauto|].
      exists k. split; auto. rewrite <- (mapM_nth _ _ _ i (Some k) Ep); auto.
  Qed.
End Inv.
