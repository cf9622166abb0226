(** Proofs about the selection of particles by a kernel. *)
From Coq Require Import List Arith ZArith Bool Lia Permutation.
Import ListNotations.
From Verif Require Import Base Kernel Scan_Spec Scan_Model Scan_Proofs Compress_Model Compress_Proofs.
From Verif Require Import Loop_Model Loop_Spec SubGroup_Model SubGroup_Spec SubGroup_Proofs.

(** ** What a loop visits *)
Lemma visits_in P content c l : iterates P content ->
  (In (c, l) (particles_of_cells (i_dn P) 0 (length content)) <->
   exists ls y, nth_error content c = Some ls /\ nth_error ls l = Some y).
Proof.
  intros H. rewrite in_particles. split.
  - intros [Hc Hl]. destruct (nth_error_lt_some content c) as [ls E]; [lia|].
    destruct (H _ _ E) as [_ [D _]]. rewrite (nth_error_nth _ _ 0 D) in Hl.
    destruct (nth_error_lt_some ls l Hl) as [y Ey]. eauto.
  - intros [ls [y [E Ey]]]. destruct (H _ _ E) as [_ [D _]]. rewrite (nth_error_nth _ _ 0 D).
    pose proof (nth_error_some_lt _ _ _ E). pose proof (nth_error_some_lt _ _ _ Ey). lia.
Qed.

Definition lay_of (content : list (list nat)) (p : nat * nat) : nat := nth (snd p) (nth (fst p) content []) 0.

Lemma lay_of_eq content c l ls y : nth_error content c = Some ls -> nth_error ls l = Some y -> lay_of content (c, l) = y.
Proof. intros E Ey. unfold lay_of. cbn [fst snd]. rewrite (nth_error_nth _ _ [] E). apply nth_error_nth; auto. Qed.

Definition of_cell (content : list (list nat)) (c : nat) (pre : list (nat * nat)) : list nat :=
  map (lay_of content) (filter (fun p => fst p =? c) pre).

Lemma of_cell_app content c a b : of_cell content c (a ++ b) = of_cell content c a ++ of_cell content c b.
Proof. unfold of_cell. rewrite filter_app, map_app. auto. Qed.

Lemma Permutation_filter {A} (f : A -> bool) l l' : Permutation l l' -> Permutation (filter f l) (filter f l').
Proof.
  induction 1; cbn; auto.
  - destruct (f x); auto.
  - destruct (f x), (f y); auto. apply perm_swap.
  - etransitivity; eauto.
Qed.

Lemma filter_cell np a n c : a <= c < a + n ->
  filter (fun p : nat * nat => fst p =? c) (flat_map (fun c => map (pair c) (seq 0 (nth c np 0))) (seq a n)) =
  map (pair c) (seq 0 (nth c np 0)).
Proof.
  revert a. induction n as [|n IH]; intros a H; [lia|]. cbn [seq flat_map]. rewrite filter_app.
  destruct (Nat.eq_dec a c) as [->|N].
  - rewrite filter_true.
    + assert (Z0 : forall m b, c < b -> filter (fun p : nat * nat => fst p =? c) (flat_map (fun c => map (pair c) (seq 0 (nth c np 0))) (seq b m)) = []).
      { induction m as [|m IHm]; intros b Hb; cbn [seq flat_map]; auto. rewrite filter_app, IHm by lia.
        rewrite app_nil_r. generalize (seq 0 (nth b np 0)) as l. induction l as [|x l IHl]; cbn [map filter fst]; auto.
        destruct (Nat.eqb_spec b c); [lia|]. auto. }
      rewrite Z0 by lia. apply app_nil_r.
    + intros p Hp. apply in_map_iff in Hp as [x [<- _]]. apply Nat.eqb_refl.
  - rewrite IH by lia. assert (Z0 : forall l, filter (fun p : nat * nat => fst p =? c) (map (pair a) l) = []).
    { induction l as [|x l IHl]; cbn [map filter fst]; auto. destruct (Nat.eqb_spec a c); [lia|]. auto. }
    rewrite Z0. auto.
Qed.

Lemma of_cell_all P content c ls : iterates P content -> nth_error content c = Some ls ->
  of_cell content c (particles_of_cells (i_dn P) 0 (length content)) = ls.
Proof.
  intros H E. pose proof (nth_error_some_lt _ _ _ E) as Hc. unfold of_cell, particles_of_cells.
  rewrite filter_cell by lia. destruct (H _ _ E) as [_ [D _]]. rewrite (nth_error_nth _ _ 0 D).
  rewrite map_map. apply nth_error_ext. intros i. rewrite nth_error_map_seq.
  destruct (Nat.ltb_spec i (length ls)) as [Hi|Hi].
  - unfold lay_of. cbn [fst snd]. rewrite (nth_error_nth _ _ [] E). symmetry. apply nth_error_nth'. auto.
  - symmetry. apply nth_error_None. auto.
Qed.

Lemma of_cell_in content c y pre : In y (of_cell content c pre) ->
  exists l, In (c, l) pre /\ lay_of content (c, l) = y.
Proof.
  unfold of_cell. intros H. apply in_map_iff in H as [[c' l] [<- Hp]]. apply filter_In in Hp as [Hp E].
  cbn in E. apply Nat.eqb_eq in E. subst. eauto.
Qed.

Lemma in_of_cell content c l pre : In (c, l) pre -> In (lay_of content (c, l)) (of_cell content c pre).
Proof.
  intros H. unfold of_cell. apply in_map_iff. exists (c, l). split; auto. apply filter_In. split; auto. apply Nat.eqb_refl.
Qed.

Lemma of_cell_nodup P content c sched : iterates P content ->
  Permutation sched (particles_of_cells (i_dn P) 0 (length content)) ->
  (forall c ls, nth_error content c = Some ls -> NoDup ls) -> NoDup (of_cell content c sched).
Proof.
  intros H Hp ND. destruct (nth_error content c) as [ls|] eqn:E.
  - apply (Permutation_NoDup (l := ls)); [|eauto]. symmetry.
    rewrite <- (of_cell_all P content c ls H E). unfold of_cell. apply Permutation_map, Permutation_filter. auto.
  - replace (of_cell content c sched) with (@nil nat); [constructor|]. symmetry.
    destruct (of_cell content c sched) as [|y r] eqn:Eo; auto. exfalso.
    destruct (of_cell_in content c y sched) as [l [Hi _]]; [rewrite Eo; left; auto|].
    apply (Permutation_in _ Hp) in Hi. apply visits_in in Hi; auto. destruct Hi as [ls [? [E' _]]]. congruence.
Qed.

Section Selector.
  Context (CL : nat) (d : device) (gnp ges : list nat) (kern : nat -> nat -> bool).
  Notation cc := (length gnp).

  Lemma ges_psum : prefix_sums gnp ges -> forall c, c < cc -> nth_error ges c = Some (psum gnp c).
  Proof. intros H c Hc. rewrite (H c Hc). reflexivity. Qed.

  Definition loop0_inv (content : list (list nat)) (N L : nat) (pre : list (nat * nat)) (st : list Z * list nat) : Prop :=
    length (fst st) = N /\ length (snd st) = L /\
    (forall c, c < cc -> nth_error (snd st) (cc + c * CL) = Some (length (filter (kern c) (of_cell content c pre)))) /\
    (forall c k y, c < cc -> nth_error (filter (kern c) (of_cell content c pre)) k = Some y ->
       nth_error (fst st) (psum gnp c + y) = Some (Z.of_nat k)) /\
    (forall c y, c < cc -> In y (of_cell content c pre) -> kern c y = false ->
       nth_error (fst st) (psum gnp c + y) = Some (-1)%Z).

  Lemma loop_0_correct P content sched ml dn : prefix_sums gnp ges -> content_of_group gnp content ->
    1 <= CL -> iterates P content -> Permutation sched (particles_of_cells (i_dn P) 0 cc) ->
    length ml = list_sum gnp -> length dn = cc + cc * CL ->
    (forall c, c < cc -> nth_error dn (cc + c * CL) = Some 0) ->
    exists st, foldM (selector_loop_0 CL cc ges kern P) (ml, dn) sched = Some st /\
      loop0_inv content (list_sum gnp) (cc + cc * CL) sched st.
  Proof.
    intros Hes [Lc Hc] HCL HP Hp Lm Ld H0.
    assert (NDc : forall c ls, nth_error content c = Some ls -> NoDup ls).
    { intros c ls E. destruct (nth_error_lt_some gnp c) as [n En]; [pose proof (nth_error_some_lt _ _ _ E); lia|].
      apply (Hc _ _ _ E En). }
    rewrite <- Lc in Hp.
    pose proof (fun c => of_cell_nodup P content c sched HP Hp NDc) as NDo. rewrite Lc in Hp.
    apply foldM_ind.
    - split; [auto|]. split; [auto|]. cbn. split; [auto|]. split; [intros c [|k] y _ [=]|]. intros c y _ [].
    - intros pre [c l] post [m n] Es [L1 [L2 [I1 [I2 I3]]]]. cbn [fst snd] in *.
      assert (Hin : In (c, l) (particles_of_cells (i_dn P) 0 (length content))).
      { rewrite Lc. apply (Permutation_in _ Hp). rewrite Es. apply in_or_app. right. left. auto. }
      apply visits_in in Hin; auto. destruct Hin as [ls [y [E Ey]]].
      pose proof (nth_error_some_lt _ _ _ E) as Hcc. rewrite Lc in Hcc.
      destruct (nth_error_lt_some gnp c Hcc) as [gn Egn].
      destruct (Hc _ _ _ E Egn) as [ND Hb].
      assert (Hy : y < gn) by (apply Hb; eapply nth_error_In; eauto).
      destruct (HP _ _ E) as [_ [_ [_ Hl]]].
      unfold selector_loop_0. rewrite (Hl _ _ Ey). cbn [obind]. unfold get_local_linear_index, rd.
      rewrite (ges_psum Hes c Hcc). cbn [obind].
      assert (Hpos : psum gnp c + y < list_sum gnp).
      { pose proof (psum_lt gnp c cc gn Egn Hcc) as B. unfold psum at 2 in B. rewrite firstn_all in B.
        change (total Nat.add 0 gnp) with (list_sum gnp) in B. lia. }
      assert (Ely : lay_of content (c, l) = y) by (eapply lay_of_eq; eauto).
      (* y has not been seen before *)
      assert (Hnew : ~ In y (of_cell content c pre)).
      { specialize (NDo c). rewrite Es, of_cell_app in NDo. unfold of_cell at 2 in NDo. cbn [filter fst] in NDo.
        rewrite Nat.eqb_refl in NDo. cbn [map] in NDo. rewrite Ely in NDo.
        apply NoDup_remove_2 in NDo. intros Q. apply NDo. apply in_or_app. left. auto. }
      (* the seen layers are layers of the group *)
      assert (Hseen : forall c' y', In y' (of_cell content c' pre) -> exists n', nth_error gnp c' = Some n' /\ y' < n').
      { intros c' y' Hi. apply of_cell_in in Hi as [l' [Hi Q]].
        assert (Hi' : In (c', l') (particles_of_cells (i_dn P) 0 (length content))).
        { rewrite Lc. apply (Permutation_in _ Hp). rewrite Es. apply in_or_app. left. auto. }
        apply visits_in in Hi'; auto. destruct Hi' as [ls' [y2 [E' Ey']]].
        rewrite (lay_of_eq _ _ _ _ _ E' Ey') in Q. subst y2.
        destruct (nth_error_lt_some gnp c') as [n' En']; [pose proof (nth_error_some_lt _ _ _ E'); lia|].
        exists n'. split; auto. eapply Hc; eauto. eapply nth_error_In; eauto. }
      assert (Hdiff : forall c' y', In y' (of_cell content c' pre) -> psum gnp c' + y' <> psum gnp c + y).
      { intros c' y' Hi Q. destruct (Hseen _ _ Hi) as [n' [En' Hy']].
        destruct (psum_unique gnp c' c y' y n' gn En' Egn Hy' Hy Q) as [-> ->]. auto. }
      assert (Eof : forall c', of_cell content c' (pre ++ [(c, l)]) = of_cell content c' pre ++ (if c =? c' then [y] else [])).
      { intros c'. rewrite of_cell_app. f_equal. unfold of_cell. cbn [filter fst]. destruct (c =? c'); cbn [map]; auto.
        rewrite Ely. auto. }
      destruct (kern c y) eqn:K.
      + rewrite (I1 c Hcc). cbn [obind]. set (v := length (filter (kern c) (of_cell content c pre))).
        destruct (upd_some n (cc + c * CL) (v + 1)) as [n' En']; [nia|]. rewrite En'. cbn [obind].
        destruct (upd_some m (psum gnp c + y) (Z.of_nat v)) as [m' Em']; [lia|]. rewrite Em'. cbn [obind].
        eexists. split; [reflexivity|]. cbn [fst snd]. split; [cbn; rewrite (upd_length _ _ _ _ Em'); auto|].
        split; [cbn; rewrite (upd_length _ _ _ _ En'); auto|]. cbn [fst snd].
        split; [|split].
        * intros c' Hc'. rewrite Eof, filter_app, app_length. rewrite (upd_nth _ _ _ _ _ En').
          destruct (Nat.eqb_spec c c') as [<-|N].
          -- rewrite Nat.eqb_refl. cbn [filter]. rewrite K. auto.
          -- destruct (Nat.eqb_spec (cc + c' * CL) (cc + c * CL)) as [Q|Q]; [exfalso; apply N; nia|].
             rewrite (I1 c' Hc'). cbn. f_equal. lia.
        * intros c' k y' Hc' Hk. rewrite Eof, filter_app in Hk. rewrite (upd_nth _ _ _ _ _ Em').
          destruct (le_lt_dec (length (filter (kern c') (of_cell content c' pre))) k) as [Hl'|Hl'].
          -- rewrite nth_error_app2 in Hk by auto. destruct (Nat.eqb_spec c c') as [<-|N].
             ++ cbn [filter] in Hk. rewrite K in Hk. destruct (k - _) as [|q] eqn:Eq.
                ** injection Hk as <-. rewrite Nat.eqb_refl. f_equal. f_equal. unfold v. lia.
                ** destruct q; discriminate.
             ++ destruct (k - _); discriminate.
          -- rewrite nth_error_app1 in Hk by auto.
             destruct (Nat.eqb_spec (psum gnp c' + y') (psum gnp c + y)) as [Q|Q]; [|eauto].
             exfalso. apply (Hdiff c' y'); auto. apply nth_error_In in Hk. apply filter_In in Hk. tauto.
        * intros c' y' Hc' Hi Kf. rewrite Eof in Hi. rewrite (upd_nth _ _ _ _ _ Em').
          apply in_app_or in Hi as [Hi|Hi].
          -- destruct (Nat.eqb_spec (psum gnp c' + y') (psum gnp c + y)) as [Q|Q]; [|eauto].
             exfalso. apply (Hdiff c' y'); auto.
          -- destruct (Nat.eqb_spec c c') as [<-|N]; [|destruct Hi]. destruct Hi as [<-|[]]. congruence.
      + destruct (upd_some m (psum gnp c + y) (-1)%Z) as [m' Em']; [lia|]. rewrite Em'. cbn [obind].
        eexists. split; [reflexivity|]. cbn [fst snd]. split; [cbn; rewrite (upd_length _ _ _ _ Em'); auto|].
        split; [cbn; auto|]. cbn [fst snd].
        assert (Ef : forall c', filter (kern c') (of_cell content c' (pre ++ [(c, l)])) = filter (kern c') (of_cell content c' pre)).
        { intros c'. rewrite Eof, filter_app. destruct (Nat.eqb_spec c c') as [<-|N]; cbn [filter]; [rewrite K|]; apply app_nil_r. }
        split; [|split].
        * intros c' Hc'. rewrite Ef. auto.
        * intros c' k y' Hc' Hk. rewrite Ef in Hk. rewrite (upd_nth _ _ _ _ _ Em').
          destruct (Nat.eqb_spec (psum gnp c' + y') (psum gnp c + y)) as [Q|Q]; [|eauto].
          exfalso. apply (Hdiff c' y'); auto. apply nth_error_In in Hk. apply filter_In in Hk. tauto.
        * intros c' y' Hc' Hi Kf. rewrite Eof in Hi. rewrite (upd_nth _ _ _ _ _ Em').
          apply in_app_or in Hi as [Hi|Hi].
          -- destruct (Nat.eqb_spec (psum gnp c' + y') (psum gnp c + y)) as [Q|Q]; [auto|]. eauto.
          -- destruct (Nat.eqb_spec c c') as [<-|N]; [|destruct Hi]. destruct Hi as [<-|[]].
             rewrite Nat.eqb_refl. auto.
  Qed.

  Theorem selector_correct k P0 P1 content0 content1 m :
    device_ok d -> 1 <= CL -> map_sizes CL cc m -> prefix_sums gnp ges ->
    content_of_group gnp content0 -> iterates P0 content0 -> iterates P1 content1 ->
    same_particles content1 content0 ->
    exists m' s content, selector_create CL d k cc gnp ges kern P0 P1 m = Some (m', s) /\
      map_sizes CL cc m' /\ selects s m' content /\ same_particles content (chosen kern content0).
  Proof.
    intros D HCL Sz Hes HC H0 H1 Hsame. pose proof HC as [Lc Hc].
    destruct Sz as [S1 [S2 [S3 [S4 [S5 S6]]]]]. unfold selector_create.
    destruct (fill_prefix_correct 0 (m_dn m) cc) as [dn0 [E0 [L0 F0]]]; [lia|]. rewrite E0. cbn [obind].
    (* pre_process *)
    destruct (foldM_kernel (fun dn c => v <- rd dn c ;; upd dn (cc + c * CL) v) (fun s j => nth_error s j)
       (fun dn => length dn = length dn0 /\ forall c, c < cc -> nth_error dn c = Some 0)
       (fun c j => if j =? cc + c * CL then Some 0 else None) (ord d (k + 1) (seq 0 cc)) dn0) as [dn1 [E1 [[L1 _] [W1 _]]]].
    { split; auto. intros c H. rewrite F0. apply Nat.ltb_lt in H. rewrite H. auto. }
    { intros dn c [Ld Hd] Hi. apply in_ord in Hi; auto. apply in_seq in Hi. unfold rd. rewrite Hd by lia. cbn [obind].
      destruct (upd_some dn (cc + c * CL) 0) as [dn' Edn]; [nia|]. exists dn'. split; [auto|]. split; [split|].
      - rewrite (upd_length _ _ _ _ Edn); auto.
      - intros c' H'. rewrite (upd_nth _ _ _ _ _ Edn). destruct (c' =? cc + c * CL); auto.
      - intros j. rewrite (upd_nth _ _ _ _ _ Edn). destruct (j =? cc + c * CL); auto. }
    { intros a b j v w _ _. destruct (j =? cc + a * CL), (j =? cc + b * CL); congruence. }
    rewrite E1. cbn [obind].
    (* loop 0 *)
    set (sched := ord d (k + 2) (particles_of_cells (i_dn P0) 0 cc)).
    assert (Hp : Permutation sched (particles_of_cells (i_dn P0) 0 cc)) by apply D.
    destruct (loop_0_correct P0 content0 sched (freshZ d k (list_sum gnp)) dn1) as [[ml dn2] [E2 [Lml [Ldn2 [I1 [I2 I3]]]]]]; auto.
    { apply freshZ_length. }
    { lia. }
    { intros c H. apply (W1 c (cc + c * CL) 0); [apply in_ord; auto; apply in_seq; lia|]. rewrite Nat.eqb_refl. auto. }
    rewrite E2. cbn [obind fst snd] in *.
    set (content := map (fun c => filter (kern c) (of_cell content0 c sched)) (seq 0 cc)).
    assert (Lct : length content = cc) by (unfold content; rewrite map_length, seq_length; auto).
    assert (Ect : forall c, c < cc -> nth_error content c = Some (filter (kern c) (of_cell content0 c sched))).
    { intros c H. unfold content. rewrite nth_error_map_seq. apply Nat.ltb_lt in H. rewrite H. auto. }
    assert (Ect' : forall c ls, nth_error content c = Some ls -> c < cc /\ ls = filter (kern c) (of_cell content0 c sched)).
    { intros c ls E. pose proof (nth_error_some_lt _ _ _ E) as H. rewrite Lct in H. rewrite Ect in E by auto.
      injection E as <-. auto. }
    (* post_process *)
    destruct (foldM_kernel (fun dn c => v <- rd dn (cc + c * CL) ;; upd dn c v) (fun s j => nth_error s j)
       (fun dn => length dn = length dn2 /\ forall c, c < cc -> nth_error dn (cc + c * CL) = nth_error dn2 (cc + c * CL))
       (fun c j => if j =? c then nth_error dn2 (cc + c * CL) else None) (ord d (k + 3) (seq 0 cc)) dn2) as [dn3 [E3 [[L3 _] [W3 _]]]].
    { split; auto. }
    { intros dn c [Ld Hd] Hi. apply in_ord in Hi; auto. apply in_seq in Hi. unfold rd. rewrite Hd by lia.
      rewrite (I1 c) by lia. cbn [obind].
      destruct (upd_some dn c (length (filter (kern c) (of_cell content0 c sched)))) as [dn' Edn]; [nia|]. exists dn'. split; [auto|]. split; [split|].
      - rewrite (upd_length _ _ _ _ Edn); auto.
      - intros c' H'. rewrite (upd_nth _ _ _ _ _ Edn). destruct (Nat.eqb_spec (cc + c' * CL) c); [lia|]. auto.
      - intros j. rewrite (upd_nth _ _ _ _ _ Edn). destruct (j =? c); auto. }
    { intros a b j v w _ _. destruct (Nat.eqb_spec j a), (Nat.eqb_spec j b); congruence. }
    rewrite E3. cbn [obind].
    assert (Hdn3 : forall c ls, nth_error content c = Some ls -> nth_error dn3 c = Some (length ls)).
    { intros c ls E. destruct (Ect' _ _ E) as [H ->]. apply (W3 c c); [apply in_ord; auto; apply in_seq; lia|].
      rewrite Nat.eqb_refl. auto. }
    destruct (copy_prefix_correct dn3 (m_hn m) cc) as [hn [E4 [L4 F4]]]; [lia|lia|]. rewrite E4. cbn [obind].
    assert (Hhn : forall c ls, nth_error content c = Some ls -> nth_error hn c = Some (length ls)).
    { intros c ls E. destruct (Ect' _ _ E) as [H _]. rewrite F4. apply Nat.ltb_lt in H. rewrite H. auto. }
    destruct (running_total_correct CL cc content hn (m_hes m)) as [hes [E5 [L5 F5]]]; auto; [lia|]. rewrite E5. cbn [obind].
    destruct (map_create_correct d (k + 4) CL cc (with_counts m hn dn3 hes (m_des m)) content) as [m1 [E6 [Sz1 [M1 [M2 [M3 [M4 [M5 [M6 M7]]]]]]]]]; auto.
    { unfold map_sizes, with_counts; cbn. lia. }
    rewrite E6. cbn [obind]. cbn [with_counts m_hn m_dn m_hes m_des] in M1, M2, M3, M4.
    (* loop 1 *)
    assert (L1c : length content1 = cc) by (rewrite <- Lc; clear - Hsame; induction Hsame; cbn; auto).
    assert (Hs1 : forall c ls1, nth_error content1 c = Some ls1 -> exists ls0, nth_error content0 c = Some ls0 /\ Permutation ls1 ls0).
    { clear - Hsame. induction Hsame; intros [|c] ls1 E; cbn in *; try discriminate; [|eauto]. injection E as <-; eauto. }
    assert (Hof : forall c ls0, nth_error content0 c = Some ls0 -> Permutation (of_cell content0 c sched) ls0).
    { intros c ls0 E. rewrite <- (of_cell_all P0 content0 c ls0) by auto. apply Permutation_map, Permutation_filter.
      rewrite Lc. auto. }
    assert (HND : forall c, c < cc -> NoDup (of_cell content0 c sched) /\ forall n y, nth_error gnp c = Some n -> In y (of_cell content0 c sched) -> y < n).
    { intros c H. destruct (nth_error_lt_some content0 c) as [ls0 E]; [lia|]. destruct (nth_error_lt_some gnp c H) as [n En].
      destruct (Hc _ _ _ E En) as [ND B]. split; [eapply Permutation_NoDup; [symmetry; apply Hof; eauto|auto]|].
      intros n' y En' Hy. replace n' with n by congruence. apply B. eapply Permutation_in; [apply Hof; eauto|auto]. }
    destruct (fill_map (selector_loop_1 ges P1 ml m1)
       (fun p q => let y := lay_of content1 p in
          if (fst q =? fst p) && kern (fst p) y then
            match nth_error (filter (kern (fst p)) (of_cell content0 (fst p) sched)) (snd q) with
            | Some y' => if y' =? y then Some y else None | None => None end else None)
       (ord d (k + 5) (particles_of_cells (i_dn P1) 0 cc)) (m_layers m1) content) as [lay [E7 [L7 F7]]].
    { intros lay [c l] Ll Hi. apply in_ord in Hi; auto. rewrite <- L1c in Hi. apply visits_in in Hi; auto.
      destruct Hi as [ls1 [y [Els Ey]]].
      pose proof (nth_error_some_lt _ _ _ Els) as Hcc. rewrite L1c in Hcc.
      destruct (H1 _ _ Els) as [_ [_ [_ Hl]]]. unfold selector_loop_1. rewrite (Hl _ _ Ey). cbn [obind].
      unfold get_local_linear_index, rd. rewrite (ges_psum Hes c Hcc). cbn [obind fst snd].
      assert (Hy : In y (of_cell content0 c sched)).
      { destruct (Hs1 _ _ Els) as [ls0 [El0 Hpm]]. eapply Permutation_in; [symmetry; apply Hof; eauto|].
        eapply Permutation_in; [exact Hpm|]. eapply nth_error_In; eauto. }
      cbn zeta. rewrite (lay_of_eq _ _ _ _ _ Els Ey).
      destruct (kern c y) eqn:K.
      - assert (Hk : In y (filter (kern c) (of_cell content0 c sched))) by (apply filter_In; auto).
        apply In_nth_error in Hk as [j Ej]. rewrite (I2 c j y Hcc Ej). cbn [obind].
        destruct (Z.ltb_spec (-1) (Z.of_nat j)); [|lia]. rewrite Nat2Z.id.
        pose proof (nth_error_some_lt _ _ _ Ej) as Hj.
        destruct (put_layer_correct m1 lay content c _ j y M5 ltac:(lia) (Ect c Hcc) Hj) as [lay' [Ep [Lp Fp]]].
        exists lay'. split; [auto|]. split; [lia|]. intros c' ls' j' E' Hj'.
        rewrite (Fp _ _ _ E' Hj'). rewrite andb_true_r. destruct (Nat.eqb_spec c' c) as [->|N]; [|auto]. cbn [andb].
        destruct (Ect' _ _ E') as [_ ->]. destruct (nth_error_lt_some _ _ Hj') as [y' Ey'].
        rewrite Ey'. destruct (Nat.eqb_spec j' j) as [->|N].
        + replace y' with y by congruence. rewrite Nat.eqb_refl. auto.
        + destruct (Nat.eqb_spec y' y) as [->|]; [|auto]. exfalso. apply N.
          assert (NDf : NoDup (filter (kern c) (of_cell content0 c sched))) by (apply NoDup_filter, HND; auto).
          rewrite NoDup_nth_error in NDf. apply NDf; auto. congruence.
      - rewrite (I3 c y Hcc Hy K). cbn [obind]. change (-1 <? -1)%Z with false. cbn iota.
        exists lay. split; [auto|]. split; [auto|]. intros c' ls' j' E' Hj'. rewrite andb_false_r. auto. }
    { intros [c l] c' j ls v _ E. cbn [fst snd]. cbn zeta. destruct (Nat.eqb_spec c' c) as [->|]; [|discriminate].
      cbn [andb]. destruct (kern c (lay_of content1 (c, l))); [|discriminate].
      destruct (Ect' _ _ E) as [_ ->]. destruct (nth_error _ j) as [y'|]; [|discriminate].
      destruct (Nat.eqb_spec y' (lay_of content1 (c, l))); [|discriminate]. congruence. }
    { intros c j ls v E Ej. destruct (Ect' _ _ E) as [Hcc ->]. pose proof Ej as Ej'.
      apply nth_error_In in Ej. apply filter_In in Ej as [Ei K].
      destruct (nth_error_lt_some content1 c) as [ls1 E1']; [lia|]. destruct (Hs1 _ _ E1') as [ls0 [El0 Hpm]].
      assert (Hv : In v ls1) by (eapply Permutation_in; [symmetry; exact Hpm|]; eapply Permutation_in; [apply Hof; eauto|auto]).
      apply In_nth_error in Hv as [l El]. exists (c, l), v. split.
      - apply in_ord; auto. rewrite <- L1c. apply visits_in; eauto.
      - cbn [fst snd]. cbn zeta. rewrite (lay_of_eq _ _ _ _ _ E1' El), Nat.eqb_refl, K, Ej'. cbn [andb].
        rewrite Nat.eqb_refl. auto. }
    rewrite E7. cbn [obind].
    destruct (copy_prefix_correct hes (m_des m) cc) as [des [E8 [L8 F8]]]; [lia|lia|]. rewrite E8. cbn [obind].
    assert (Sz' : map_sizes CL cc (with_layers (with_counts m1 hn dn3 hes des) lay)).
    { destruct Sz1 as [Q1 [Q2 _]]. unfold map_sizes, with_layers, with_counts. cbn. lia. }
    eexists _, _, content. split; [reflexivity|]. split; [exact Sz'|]. split.
    - eapply selects_intro; cbn [with_layers with_counts m_hn m_dn m_hes m_des m_starts m_layers]; eauto.
      intros c H. rewrite F8. pose proof H as H'. apply Nat.ltb_lt in H'. rewrite H'. auto.
    - unfold same_particles. assert (G : forall c a b, nth_error content c = Some a -> nth_error (chosen kern content0) c = Some b -> Permutation a b).
      { intros c a b Ea Eb. destruct (Ect' _ _ Ea) as [Hcc ->]. unfold chosen in Eb. rewrite per_cell_nth in Eb.
        destruct (nth_error content0 c) as [ls0|] eqn:E; [|discriminate]. injection Eb as <-.
        apply Permutation_filter. apply Hof; auto. }
      assert (LL : length content = length (chosen kern content0)) by (unfold chosen; rewrite per_cell_length; lia).
      clear - G LL. revert LL G. generalize (chosen kern content0) as B. induction content as [|a A IH]; intros [|b B] LL G; cbn in *; try lia; constructor.
      + apply (G 0); auto.
      + apply IH; [lia|]. intros c. apply (G (S c)).
  Qed.
End Selector.
