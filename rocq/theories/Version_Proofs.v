(** Proofs about the version counters. *)
From Coq Require Import List Arith Bool Lia.
Import ListNotations.
From Verif Require Import Base Kernel Version_Model Version_Spec.

Section Proofs.
  Context {V G Sel : Type}.
  Notation state := (state V G Sel).
  Notation node := (node V G Sel).
  Notation node_at st i := (nth_error (nodes st) i).

  Definition synced (st : state) (n : node) : Prop :=
    gseen n = gver st /\
    forall p v, In (p, v) (deps n) -> exists d, dat_at st p = Some d /\ ver d = v /\ always d = false.

  Definition same_node (n n' : node) : Prop :=
    map fst (deps n) = map fst (deps n') /\ parents n = parents n' /\ nloops n = nloops n' /\
    run n = run n' /\ view n = view n' /\ static n = static n'.

  Definition world_eq (st st' : state) : Prop :=
    structure st = structure st' /\ gver st = gver st' /\ dats st = dats st' /\
    (forall j n, node_at st j = Some n -> exists n', node_at st' j = Some n' /\ same_node n n') /\
    length (nodes st) = length (nodes st').

  Definition statics_kept (st st' : state) : Prop :=
    forall j n, node_at st j = Some n -> static n = true -> node_at st' j = Some n.

  Definition wf (st : state) : Prop :=
    1 <= gver st /\
    forall i n, node_at st i = Some n ->
      (forall p, In p (parents n) -> p < i) /\
      (forall p m, In p (parents n) -> node_at st p = Some m -> incl (map fst (deps m)) (map fst (deps n))) /\
      1 <= nloops n /\
      (forall q f, view n = Some (q, f) -> parents n = [q] /\ nloops n = 1 /\ run n = partition_run f /\
         (forall m, node_at st q = Some m -> view m = None) /\ static n = false) /\
      (forall p v, In (p, v) (deps n) -> (forall d, dat_at st p = Some d -> v <= ver d) /\ (length (dats st) <= p -> v = 0)) /\
      gseen n <= gver st.

  Definition ready (st : state) (p : nat) (x : Sel) : Prop :=
    exists m, node_at st p = Some m /\ built m = Some x /\ (static m = false -> synced st m).

  Definition Inv (b : nat) (st : state) : Prop :=
    forall i n, i < b -> node_at st i = Some n ->
      (static n = true -> exists x, built n = Some x) /\
      (synced st n -> exists t vals xs y, values st n = Some vals /\ Forall2 (ready st) (parents n) xs /\
         built n = Some y /\ run n t (structure st) vals (repeat xs (nloops n)) = Some y).

  Lemma same_node_refl n : same_node n n.
  Proof. unfold same_node. auto 10. Qed.
  Lemma same_node_trans a b c : same_node a b -> same_node b c -> same_node a c.
  Proof.
    intros [A1 [A2 [A3 [A4 [A5 A6]]]]] [B1 [B2 [B3 [B4 [B5 B6]]]]].
    unfold same_node. rewrite A1, A2, A3, A4, A5, A6. auto 10.
  Qed.
  Lemma same_node_sym a b : same_node a b -> same_node b a.
  Proof. intros [A1 [A2 [A3 [A4 [A5 A6]]]]]. unfold same_node. auto 10. Qed.

  Lemma world_refl (st : state) : world_eq st st.
  Proof. repeat split; auto. intros j n E. exists n. auto using same_node_refl. Qed.
  Lemma world_trans a b c : world_eq a b -> world_eq b c -> world_eq a c.
  Proof.
    intros [A1 [A2 [A3 [A4 A5]]]] [B1 [B2 [B3 [B4 B5]]]]. repeat split; try congruence.
    intros j n E. destruct (A4 _ _ E) as [n1 [E1 S1]]. destruct (B4 _ _ E1) as [n2 [E2 S2]]. exists n2. split; [auto|]. eapply same_node_trans; eauto.
  Qed.
  Lemma world_back (st : state) (st' : state) : world_eq st st' -> forall j n', node_at st' j = Some n' -> exists n, node_at st j = Some n /\ same_node n n'.
  Proof.
    intros [_ [_ [_ [H L]]]] j n' E. destruct (nth_error_lt_some (nodes st) j) as [n En].
    { rewrite L. eapply nth_error_some_lt; eauto. }
    destruct (H _ _ En) as [n'' [E' S']]. exists n. split; [auto|]. congruence.
  Qed.
  Lemma world_sym (st : state) (st' : state) : world_eq st st' -> world_eq st' st.
  Proof.
    intros W. pose proof W as [A1 [A2 [A3 [A4 A5]]]]. repeat split; auto. intros j n E.
    destruct (world_back _ _ W _ _ E) as [n0 [E0 S0]]. exists n0. auto using same_node_sym.
  Qed.

  Lemma dat_at_eq (st st' : state) p : dats st = dats st' -> dat_at st p = dat_at st' p.
  Proof. unfold dat_at. intros ->. auto. Qed.

  Lemma synced_world (st : state) (st' : state) n : world_eq st st' -> synced st n -> synced st' n.
  Proof.
    intros [_ [A2 [A3 _]]] [S1 S2]. split; [congruence|]. intros p v Hi. rewrite <- (dat_at_eq st st') by auto. auto.
  Qed.

  Lemma values_fst (st st' : state) n n' : dats st = dats st' -> map fst (deps n) = map fst (deps n') -> values st n = values st' n'.
  Proof.
    intros D E. unfold values.
    assert (G1 : forall (s : state) (l : list (nat * nat)), mapM (fun pv => d <- dat_at s (fst pv) ;; Some (val d)) l =
      mapM (fun p => d <- dat_at s p ;; Some (val d)) (map fst l)).
    { intros s. induction l as [|a l IH]; cbn [mapM map]; [auto|]. rewrite IH. auto. }
    rewrite !G1, E. generalize (map fst (deps n')) as l. induction l as [|a l IH]; cbn [mapM]; [auto|]. rewrite IH, (dat_at_eq st st') by auto. auto.
  Qed.

  (** [current] depends only on the world and on the static selections. *)
  Lemma visible_plain (st : state) i n : node_at st i = Some n -> view n = None -> visible st i = built n.
  Proof. intros E Ev. unfold visible, rd. rewrite E. cbn [obind]. rewrite Ev. auto. Qed.

  Lemma current_move (st : state) (st' : state) : wf st -> world_eq st st' -> statics_kept st st' -> forall b i x, i < b -> current st i x -> current st' i x.
  Proof.
    intros W WE SK. induction b as [|b IH]; intros i x Hi C; [lia|]. destruct C as [i n x E Hs Ex | i n t vals passes x E Hs Ev Lp Hp Er].
    - pose proof (SK _ _ E Hs) as E'. eapply current_static; eauto.
      assert (Hv : view n = None).
      { destruct (view n) as [[q f]|] eqn:Ev; [|auto]. destruct W as [_ W]. destruct (W _ _ E) as [_ [_ [_ [W4 _]]]].
        destruct (W4 _ _ Ev) as [_ [_ [_ [_ Q]]]]. congruence. }
      rewrite (visible_plain _ _ _ E Hv) in Ex. rewrite (visible_plain _ _ _ E' Hv). auto.
    - pose proof WE as [A1 [A2 [A3 [A4 A5]]]]. destruct (A4 _ _ E) as [n' [E' [B1 [B2 [B3 [B4 [B5 B6]]]]]]].
      eapply (current_computed st' i n' t vals passes x); try congruence.
      + rewrite <- (values_fst st st' n n'); auto.
      + intros xs Hx. rewrite <- B2. destruct W as [_ W]. destruct (W _ _ E) as [W1 _].
        specialize (Hp xs Hx). clear - Hp IH W1 Hi. revert Hp W1. generalize (parents n) as ps. intros ps Hp.
        induction Hp as [|p y ps ys Hc Hp IHp]; intros W1; constructor.
        * apply IH; auto. specialize (W1 p (or_introl eq_refl)). lia.
        * apply IHp. intros q Hq. apply W1; right; auto.
  Qed.

  Lemma current_to (st : state) (st' : state) i x : wf st -> world_eq st st' -> statics_kept st st' -> current st i x -> current st' i x.
  Proof. intros. eapply (current_move st st' H H0 H1 (S i)); eauto. Qed.

  (** A ready or synced sub-group holds a current selection. *)
  Lemma inv_current b (st : state) : wf st -> Inv b st -> forall k i n x, i < k -> i < b -> node_at st i = Some n ->
    built n = Some x -> (static n = false -> synced st n) -> current st i x.
  Proof.
    intros W I. induction k as [|k IH]; intros i n x Hk Hb E Ex Hs; [lia|].
    destruct (static n) eqn:Es.
    - eapply current_static; eauto. rewrite (visible_plain _ _ _ E); [auto|].
      destruct (view n) as [[q f]|] eqn:Ev; [|auto]. destruct W as [_ W]. destruct (W _ _ E) as [_ [_ [_ [W4 _]]]].
      destruct (W4 _ _ Ev) as [_ [_ [_ [_ Q]]]]. congruence.
    - destruct (I i n Hb E) as [_ I2]. destruct (I2 (Hs eq_refl)) as [t [vals [xs [y [Ev [F [Ey Er]]]]]]].
      assert (y = x) by congruence. subst y.
      eapply (current_computed st i n t vals (repeat xs (nloops n)) x); eauto.
      + apply repeat_length.
      + intros xs' Hx. apply repeat_spec in Hx. subst xs'. destruct W as [_ W]. destruct (W _ _ E) as [W1 _].
        clear - F IH W1 Hk Hb. revert W1. generalize dependent (parents n). intros ps F. induction F as [|p z ps zs [m [Em [Ez Hz]]] F IHF]; intros W1; constructor.
        * specialize (W1 p (or_introl eq_refl)). eapply IH; eauto; lia.
        * apply IHF. intros q Hq. apply W1; right; auto.
  Qed.

  (** What a loop sees of a ready sub-group is what it built. *)
  Lemma ready_visible b (st : state) p x : wf st -> Inv b st -> p < b -> ready st p x -> visible st p = Some x.
  Proof.
    intros W I Hp [m [E [Ex Hs]]]. pose proof W as [_ W']. destruct (W' _ _ E) as [_ [_ [_ [W4 _]]]].
    destruct (view m) as [[q f]|] eqn:Ev; [|rewrite (visible_plain _ _ _ E); auto].
    destruct (W4 _ _ eq_refl) as [P1 [P2 [P3 [P4 P5]]]]. destruct (I p m Hp E) as [_ I2].
    destruct (I2 (Hs P5)) as [t [vals [xs [y [Eva [F [Ey Er]]]]]]]. rewrite P1 in F. inversion F as [|q' xq ps zs [mq [Eq [Exq _]]] F2]; subst.
    inversion F2; subst. rewrite P2, P3 in Er. cbn in Er. assert (y = x) by congruence. subst y. injection Er as Er. subst x.
    unfold visible, rd. rewrite E. cbn [obind]. rewrite Ev, Eq. cbn [obind]. rewrite Exq. auto.
  Qed.

  Definition CC (st : state) (j : nat) : Prop := exists n x, node_at st j = Some n /\ built n = Some x /\ current st j x.
  Definition good (st : state) (i : nat) : Prop :=
    CC st i /\ forall n q f, node_at st i = Some n -> view n = Some (q, f) -> CC st q.

  (** A good sub-group is seen as current. *)
  Lemma good_visible (st : state) i : wf st -> good st i -> exists x, visible st i = Some x /\ current st i x.
  Proof.
    intros W [[n [x [E [Ex C]]]] Hq]. destruct (view n) as [[q f]|] eqn:Ev.
    - destruct (Hq n q f E Ev) as [m [y [Em [Ey Cy]]]]. exists (f y). split.
      + unfold visible, rd. rewrite E. cbn [obind]. rewrite Ev, Em. cbn [obind]. rewrite Ey. auto.
      + destruct W as [_ W]. destruct (W _ _ E) as [_ [_ [_ [W4 _]]]]. destruct (W4 _ _ Ev) as [P1 [P2 [P3 [P4 P5]]]].
        inversion C as [i' n' x' E' Es' _|i' n' t vals passes x' E' Es' Eva Lp Hp Er]; subst; [congruence|].
        assert (n' = n) by congruence. subst n'.
        eapply (current_computed st i n t vals [[y]] (f y)); auto.
        * intros xs [<-|[]]. rewrite P1. constructor; auto.
        * rewrite P3. auto.
    - exists x. split; [|auto]. rewrite (visible_plain _ _ _ E); auto.
  Qed.

  Definition noflags (st : state) (n : node) : Prop :=
    forall p d, In p (map fst (deps n)) -> dat_at st p = Some d -> always d = false.
  Definition settled (st : state) (p : nat) : Prop :=
    exists m, node_at st p = Some m /\ (static m = false -> synced st m).

  (** What bringing sub-group [i] up to date guarantees. *)
  Definition use_post (b : nat) (st : state) (i : nat) (st' : state) : Prop :=
    world_eq st st' /\ statics_kept st st' /\ (forall j, i < j -> node_at st' j = node_at st j) /\
    (forall j n, node_at st j = Some n -> synced st n -> node_at st' j = Some n) /\
    wf st' /\ Inv b st' /\ (forall j, CC st j -> CC st' j) /\ good st' i /\
    (forall n, node_at st i = Some n -> noflags st n -> settled st' i).

  Definition prepares (i : nat) (prep : state -> nat -> option state) : Prop :=
    (forall b st p st', p < i -> p < b -> wf st -> Inv b st -> prep st p = Some st' -> use_post b st p st') /\
    (forall st p st', settled st p -> prep st p = Some st' -> st' = st).

  (** Preparing a list of parents. *)
  Lemma prepare_list i prep : prepares i prep -> forall ps st st',
    (forall p, In p ps -> p < i) -> wf st -> Inv i st -> foldM prep st ps = Some st' ->
    world_eq st st' /\ statics_kept st st' /\ (forall j, i <= j -> node_at st' j = node_at st j) /\
    (forall j n, node_at st j = Some n -> synced st n -> node_at st' j = Some n) /\
    wf st' /\ Inv i st' /\ (forall j, CC st j -> CC st' j) /\ (forall p, In p ps -> good st' p) /\
    (forall p, In p ps -> forall n, node_at st p = Some n -> noflags st n -> settled st' p).
  Proof.
    intros [H1 H2]. induction ps as [|p ps IH]; intros st st' Hlt W I E; cbn [foldM] in E.
    - injection E as <-. split; [apply world_refl|]. split; [intros j n E _; auto|]. split; [auto|]. split; [auto|].
      split; [auto|]. split; [auto|]. split; [auto|]. split; intros q [].
    - destruct (prep st p) as [s1|] eqn:E1; [|discriminate]. cbn [obind] in E.
      pose proof (Hlt p (or_introl eq_refl)) as Hp.
      destruct (H1 i st p s1 Hp Hp W I E1) as [A1 [B1 [C1 [D1 [W1 [I1 [F1 [G1 S1]]]]]]]].
      destruct (IH s1 st') as [A2 [B2 [C2 [D2 [W2 [I2 [F2 [G2 S2]]]]]]]]; auto.
      { intros q Hq. apply Hlt; right; auto. }
      split; [eapply world_trans; eauto|]. split; [intros j n Ej Hs; apply B2; auto|]. split; [intros j Hj; rewrite C2, C1 by lia; auto|].
      split; [intros j n Ej Hs; apply D2; auto; eapply synced_world; eauto|]. split; [auto|]. split; [auto|]. split; [auto|]. split.
      + intros q [<-|Hq]; [|auto]. destruct G1 as [Gc Gv]. split; [auto|]. intros n q f En Ev.
        destruct (world_back _ _ A2 _ _ En) as [n0 [E0 [_ [_ [_ [_ [Sv _]]]]]]]. apply F2. apply (Gv n0 q f); auto; congruence.
      + intros q Hq n En Hn. destruct Hq as [<-|Hq].
        * destruct (S1 n En Hn) as [m [Em Hm]]. destruct (static m) eqn:Es.
          -- exists m. split; [apply B2; auto|congruence].
          -- exists m. split; [apply D2; auto|]. intros _. eapply synced_world; eauto.
        * destruct A1 as [X1 [X2 [X3 [X4 X5]]]]. destruct (X4 _ _ En) as [n1 [En1 [Y1 _]]]. apply (S2 q Hq n1 En1).
          intros r d Hr Ed. rewrite <- Y1 in Hr. rewrite <- (dat_at_eq st s1) in Ed by auto. eauto.
  Qed.

  Lemma prepare_settled i prep : prepares i prep -> forall ps st st', (forall p, In p ps -> settled st p) ->
    foldM prep st ps = Some st' -> st' = st.
  Proof.
    intros [_ H2]. induction ps as [|p ps IH]; intros st st' Hs E; cbn [foldM] in E; [congruence|].
    destruct (prep st p) as [s1|] eqn:E1; [|discriminate]. cbn [obind] in E.
    assert (s1 = st) by (eapply H2; eauto; apply Hs; left; auto). subst. apply IH; auto. intros q Hq. apply Hs; right; auto.
  Qed.

  Lemma mapM_Forall2 {A B} (f : A -> option B) (R : A -> B -> Prop) l ys :
    mapM f l = Some ys -> (forall a b, In a l -> f a = Some b -> R a b) -> Forall2 R l ys.
  Proof.
    revert ys. induction l as [|a l IH]; intros ys E H; cbn [mapM] in E.
    - injection E as <-. constructor.
    - destruct (f a) as [b|] eqn:Ea; [|discriminate]. cbn [obind] in E. destruct (mapM f l) as [bs|] eqn:El; [|discriminate]. cbn [obind] in E.
      injection E as <-. constructor; [apply H; auto; left; auto|]. apply IH; auto. intros. apply H; auto. right; auto.
  Qed.

  (** The loops over the parents. *)
  Lemma passes_correct i prep ps (s0 : state) : prepares i prep -> (forall p, In p ps -> p < i) -> wf s0 -> Inv i s0 ->
    forall k st' passes, foldM (fun acc (_ : nat) => one_pass prep ps acc) (s0, []) (seq 0 k) = Some (st', passes) ->
    world_eq s0 st' /\ statics_kept s0 st' /\ (forall j, i <= j -> node_at st' j = node_at s0 j) /\
    (forall j n, node_at s0 j = Some n -> synced s0 n -> node_at st' j = Some n) /\
    wf st' /\ Inv i st' /\ (forall j, CC s0 j -> CC st' j) /\
    length passes = k /\ (forall xs, In xs passes -> Forall2 (current st') ps xs) /\
    (1 <= k -> forall p, In p ps -> good st' p) /\
    (1 <= k -> (forall p, In p ps -> forall n, node_at s0 p = Some n -> noflags s0 n) ->
       (forall p, In p ps -> settled st' p) /\ exists xs, mapM (visible st') ps = Some xs /\ passes = repeat xs k).
  Proof.
    intros HP Hlt W0 I0. induction k as [|k IH]; intros st' passes E.
    - cbn in E. injection E as <- <-. split; [apply world_refl|]. split; [intros j n Ej _; auto|]. split; [auto|]. split; [auto|].
      split; [auto|]. split; [auto|]. split; [auto|]. split; [auto|]. split; [intros xs []|]. split; intros; lia.
    - rewrite seq_S, foldM_app in E. destruct (foldM _ (s0, []) (seq 0 k)) as [[s1 acc]|] eqn:E1; [|discriminate]. cbn [obind foldM Nat.add] in E.
      destruct (IH _ _ eq_refl) as [A1 [B1 [C1 [D1 [W1 [I1 [F1 [L1 [P1 [G1 N1]]]]]]]]]].
      unfold one_pass in E. cbn [fst snd] in E. destruct (foldM prep s1 ps) as [s2|] eqn:E2; [|discriminate]. cbn [obind] in E.
      destruct (mapM (visible s2) ps) as [xs|] eqn:Ex; [|discriminate]. cbn [obind] in E. injection E as <- <-.
      destruct (prepare_list i prep HP ps s1 s2 Hlt W1 I1 E2) as [A2 [B2 [C2 [D2 [W2 [I2 [F2 [G2 S2]]]]]]]].
      split; [eapply world_trans; eauto|]. split; [intros j n Ej Hs; apply B2; auto|]. split; [intros j Hj; rewrite C2, C1 by lia; auto|].
      split; [intros j n Ej Hs; apply D2; auto; eapply synced_world; eauto|]. split; [auto|]. split; [auto|]. split; [auto|].
      split; [rewrite app_length; cbn; lia|]. split; [|split].
      + intros ys Hy. apply in_app_or in Hy as [Hy|[<-|[]]].
        * specialize (P1 ys Hy). clear - P1 W1 A2 B2. induction P1; constructor; auto. eapply (current_to s1 s2); eauto.
        * eapply mapM_Forall2; eauto. intros p x Hp Evis. destruct (good_visible s2 p W2 (G2 p Hp)) as [x' [Ev' Cv']]. congruence.
      + intros _ p Hp. auto.
      + intros _ Hn.
        assert (Hset : forall p, In p ps -> settled s2 p).
        { intros p Hp. destruct (G2 p Hp) as [[m [x [Em _]]] _]. destruct (world_back _ _ A2 _ _ Em) as [m1 [Em1 Sm1]].
          destruct (world_back _ _ A1 _ _ Em1) as [m0 [Em0 Sm0]].
          apply (S2 p Hp m1 Em1). intros r d Hr Ed. destruct Sm0 as [Y1 _]. rewrite <- Y1 in Hr.
          destruct A1 as [_ [_ [X3 _]]]. rewrite <- (dat_at_eq s0 s1) in Ed by auto. eapply Hn; eauto. }
        split; [auto|]. exists xs. split; [auto|]. rewrite Nat.add_comm || idtac.
        destruct k as [|k].
        * destruct acc; [|discriminate]. auto.
        * destruct (N1 ltac:(lia) Hn) as [Hset1 [ys [Ey Ep]]].
          assert (s2 = s1) by (eapply prepare_settled; eauto). subst s2. assert (ys = xs) by congruence. subst ys acc.
          rewrite <- repeat_cons. auto.
  Qed.

  (** Updating one node. *)
  Lemma node_upd (st : state) ns i n' j : upd (nodes st) i n' = Some ns -> nth_error ns j = if j =? i then Some n' else node_at st j.
  Proof. intros E. rewrite (upd_nth _ _ _ _ _ E). auto. Qed.

  Lemma check_dats_spec (st : state) ds b ds' : check_dats st ds = Some (b, ds') ->
    map fst ds' = map fst ds /\
    (forall p v, In (p, v) ds' -> exists d, dat_at st p = Some d /\ v = ver d) /\
    (b = false -> ds' = ds /\ forall p v, In (p, v) ds -> exists d, dat_at st p = Some d /\ ver d = v /\ always d = false).
  Proof.
    unfold check_dats. destruct (mapM (check_dat st) ds) as [rs|] eqn:E; [|discriminate]. cbn [obind]. intros [= <- <-].
    revert rs E. induction ds as [|[p v] ds IH]; intros rs E; cbn [mapM] in E.
    - injection E as <-. cbn. split; [auto|]. split; [intros p v []|]. intros _. split; [auto|]. intros p v [].
    - unfold check_dat at 1 in E. cbn [fst snd] in E. destruct (dat_at st p) as [d|] eqn:Ed; [|discriminate]. cbn [obind] in E.
      destruct (mapM (check_dat st) ds) as [rs'|] eqn:Er; [|discriminate]. cbn [obind] in E. injection E as <-.
      destruct (IH rs' eq_refl) as [H1 [H2 H3]]. cbn [map fst snd existsb]. split; [f_equal; auto|]. split.
      + intros p' v' [[= <- <-]|Hi]; eauto.
      + intros Hb. apply orb_false_iff in Hb as [Hb1 Hb2]. apply orb_false_iff in Hb1 as [Hv Ha].
        apply negb_false_iff, Nat.eqb_eq in Hv. destruct (H3 Hb2) as [H4 H5]. split; [rewrite H4; congruence|].
        intros p' v' [[= <- <-]|Hi]; eauto.
  Qed.

  (** A node that is up to date is left alone. *)
  Lemma inner_synced prep (st : state) i n : node_at st i = Some n -> synced st n -> forall st', create_inner prep st i = Some st' -> st' = st.
  Proof.
    intros E [S1 S2] st' Ec. unfold create_inner, rd in Ec. rewrite E in Ec. cbn [obind] in Ec.
    destruct (check_dats st (deps n)) as [[b ds]|] eqn:Ed; [|discriminate]. cbn [obind fst snd] in Ec.
    assert (b = false).
    { unfold check_dats in Ed. destruct (mapM (check_dat st) (deps n)) as [rs|] eqn:Em; [|discriminate]. cbn [obind] in Ed. injection Ed as <- _.
      clear - Em S2. revert rs Em S2. induction (deps n) as [|[p v] l IH]; intros rs Em S2; cbn [mapM] in Em.
      - injection Em as <-. auto.
      - unfold check_dat at 1 in Em. cbn [fst snd] in Em. destruct (S2 p v (or_introl eq_refl)) as [d [Ed [Ev Ea]]]. rewrite Ed in Em. cbn [obind] in Em.
        destruct (mapM (check_dat st) l) as [rs'|]; [|discriminate]. cbn [obind] in Em. injection Em as <-. cbn [existsb fst].
        rewrite Ev, Nat.eqb_refl, Ea. cbn. apply IH; auto. intros. apply S2; right; auto. }
    subst b. unfold check_group in Ec. rewrite S1, Nat.eqb_refl in Ec. cbn in Ec. congruence.
  Qed.

  Lemma inner_not_synced (st : state) n b ds : check_dats st (deps n) = Some (b, ds) ->
    b || check_group st (gseen n) = false -> synced st n.
  Proof.
    intros Ed Hb. apply orb_false_iff in Hb as [-> Hg]. destruct (check_dats_spec _ _ _ _ Ed) as [_ [_ H]]. destruct (H eq_refl) as [_ H2].
    split; [|auto]. unfold check_group in Hg. apply negb_false_iff, Nat.eqb_eq in Hg. auto.
  Qed.

  Lemma settled_ready b (st : state) p : wf st -> Inv b st -> p < b -> settled st p -> exists x, ready st p x.
  Proof.
    intros W I Hp [m [E Hs]]. destruct (I p m Hp E) as [I1 I2]. destruct (static m) eqn:Es.
    - destruct (I1 eq_refl) as [x Ex]. exists x, m. split; [auto|]. split; [auto|]. congruence.
    - destruct (I2 (Hs eq_refl)) as [t [vals [xs [y [_ [_ [Ey _]]]]]]]. exists y, m. auto.
  Qed.

  Lemma check_synced (st : state) (n : node) b ds : synced st n -> check_dats st (deps n) = Some (b, ds) -> b || check_group st (gseen n) = false.
  Proof.
    intros [S1 S2] Ed. apply orb_false_iff. split.
    - unfold check_dats in Ed. destruct (mapM (check_dat st) (deps n)) as [rs|] eqn:Em; [|discriminate]. cbn [obind] in Ed. injection Ed as <- _.
      clear - Em S2. revert rs Em S2. induction (deps n) as [|[p v] l IH]; intros rs Em S2; cbn [mapM] in Em.
      + injection Em as <-. auto.
      + unfold check_dat at 1 in Em. cbn [fst snd] in Em. destruct (S2 p v (or_introl eq_refl)) as [d [Ed [Ev Ea]]]. rewrite Ed in Em. cbn [obind] in Em.
        destruct (mapM (check_dat st) l) as [rs'|]; [|discriminate]. cbn [obind] in Em. injection Em as <-. cbn [existsb fst].
        rewrite Ev, Nat.eqb_refl, Ea. cbn. apply IH; auto. intros. apply S2; right; auto.
    - unfold check_group. rewrite S1, Nat.eqb_refl. auto.
  Qed.

  (** Replacing node [i] by one of the same constitution. *)
  Lemma world_upd (st : state) i n n' ns c : node_at st i = Some n -> upd (nodes st) i n' = Some ns -> same_node n n' ->
    world_eq st (mk_state (structure st) (gver st) (dats st) ns c).
  Proof.
    intros E U Hs. repeat split; cbn [nodes]; auto.
    - intros j m Ej. rewrite (node_upd _ _ _ _ _ U). destruct (Nat.eqb_spec j i) as [->|]; [|eauto using same_node_refl].
      exists n'. split; [auto|]. congruence.
    - symmetry. eapply upd_length; eauto.
  Qed.

  Lemma wf_upd (st : state) i n n' ns c : wf st -> node_at st i = Some n -> upd (nodes st) i n' = Some ns -> same_node n n' ->
    (forall p v, In (p, v) (deps n') -> (forall d, dat_at st p = Some d -> v <= ver d) /\ (length (dats st) <= p -> v = 0)) ->
    gseen n' <= gver st -> wf (mk_state (structure st) (gver st) (dats st) ns c).
  Proof.
    intros [Wg W] E U Hs Hd Hg. split; [auto|]. cbn [nodes gver]. intros j m Ej.
    assert (Hback : forall k mk, nth_error ns k = Some mk -> exists mk0, node_at st k = Some mk0 /\ same_node mk0 mk).
    { intros k mk Ek. rewrite (node_upd _ _ _ _ _ U) in Ek. destruct (Nat.eqb_spec k i) as [->|]; [exists n; split; congruence|].
      exists mk. auto using same_node_refl. }
    destruct (Hback _ _ Ej) as [m0 [Em0 [B1 [B2 [B3 [B4 [B5 B6]]]]]]]. destruct (W _ _ Em0) as [W1 [W2 [W3 [W4 [W5 W6]]]]].
    rewrite <- B1, <- B2, <- B3, <- B4, <- B5, <- B6.
    split; [auto|]. split.
    { intros p mp Hp Emp. destruct (Hback _ _ Emp) as [mp0 [Emp0 [C1 _]]]. rewrite <- C1. eauto. }
    split; [auto|]. split.
    { intros q f Ev. destruct (W4 q f Ev) as [P1 [P2 [P3 [P4 P5]]]]. repeat split; auto. intros mq Eq.
      destruct (Hback _ _ Eq) as [mq0 [Eq0 [_ [_ [_ [_ [C5 _]]]]]]]. rewrite <- C5. auto. }
    rewrite (node_upd _ _ _ _ _ U) in Ej. destruct (Nat.eqb_spec j i) as [->|].
    - injection Ej as <-. split; auto.
    - assert (m0 = m) by congruence. subst m0. split; auto.
  Qed.

  Lemma CC_move (st st' : state) j : wf st -> world_eq st st' -> statics_kept st st' ->
    (forall n, node_at st j = Some n -> exists n', node_at st' j = Some n' /\ built n' = built n) -> CC st j -> CC st' j.
  Proof.
    intros W WE SK Hb [n [x [E [Ex C]]]]. destruct (Hb _ E) as [n' [E' Eb]]. exists n', x. split; [auto|]. split; [congruence|].
    eapply current_to; eauto.
  Qed.

  Lemma ready_move (st st' : state) p x : world_eq st st' -> (forall m, node_at st p = Some m -> node_at st' p = Some m) -> ready st p x -> ready st' p x.
  Proof. intros WE H [m [E [Ex Hs]]]. exists m. split; [auto|]. split; [auto|]. intros Hm. eapply synced_world; eauto. Qed.

  Lemma Forall2_in_impl {A B} (R R' : A -> B -> Prop) l l' : (forall a b, In a l -> R a b -> R' a b) -> Forall2 R l l' -> Forall2 R' l l'.
  Proof.
    intros H F. induction F; constructor; [apply H; auto; left; auto|]. apply IHF. intros. apply H; auto. right; auto.
  Qed.

  Lemma inner_spec i prep b (st st' : state) n :
    prepares i prep -> i < b -> wf st -> Inv b st -> node_at st i = Some n ->
    (static n = true -> ~ has_children st i) ->
    create_inner prep st i = Some st' ->
    world_eq st st' /\ (forall j m, j <> i -> node_at st j = Some m -> static m = true -> node_at st' j = Some m) /\
    (forall j, i < j -> node_at st' j = node_at st j) /\
    (forall j m, node_at st j = Some m -> synced st m -> node_at st' j = Some m) /\
    wf st' /\ Inv b st' /\
    (static n = false -> (forall j, CC st j -> CC st' j) /\ good st' i) /\
    (noflags st n -> exists m, node_at st' i = Some m /\ synced st' m).
  Proof.
    intros HP Hib W I E Hstat Ec. pose proof W as [Wg W'].
    unfold create_inner, rd in Ec. rewrite E in Ec. cbn [obind] in Ec.
    destruct (check_dats st (deps n)) as [[bb ds]|] eqn:Ed; [|discriminate]. cbn [obind fst snd] in Ec.
    destruct (bb || check_group st (gseen n)) eqn:Eb.
    2:{ injection Ec as <-. pose proof (inner_not_synced _ _ _ _ Ed Eb) as Hsy.
        split; [apply world_refl|]. split; [auto|]. split; [auto|]. split; [auto|]. split; [auto|]. split; [auto|]. split.
        - intros Es. split; [auto|]. destruct (I i n Hib E) as [_ I2]. destruct (I2 Hsy) as [t [vals [xs [y [Ev [F [Ey Er]]]]]]]. split.
          + exists n, y. split; [auto|]. split; [auto|]. eapply (inv_current b st W I (S i)); eauto.
          + intros n' q f E' Evw. assert (n' = n) by congruence. subst n'. destruct (W' _ _ E) as [W1 [_ [_ [W4 _]]]].
            destruct (W4 _ _ Evw) as [P1 _]. rewrite P1 in F. inversion F as [|q' xq ps zs [m [Em [Exm Hm]]] _]; subst.
            exists m, xq. split; [auto|]. split; [auto|]. assert (q < i) by (apply W1; rewrite P1; left; auto).
            eapply (inv_current b st W I (S q)); eauto; lia.
        - intros _. eauto. }
    destruct (upd (nodes st) i (with_seen n ds (gver st))) as [ns1|] eqn:U1; [|discriminate]. cbn [obind] in Ec.
    set (n1 := with_seen n ds (gver st)) in *. unfold with_nodes in Ec.
    set (s1 := mk_state (structure st) (gver st) (dats st) ns1 (clock st)) in *.
    destruct (check_dats_spec _ _ _ _ Ed) as [K1 [K2 K3]].
    assert (Hs1 : same_node n n1). { unfold same_node, n1, with_seen; cbn. auto 10. }
    assert (WE1 : world_eq st s1) by (eapply world_upd; eauto).
    assert (Wf1 : wf s1).
    { eapply wf_upd; eauto. cbn [deps n1 with_seen]. intros p v Hi. destruct (K2 p v Hi) as [d [Edd ->]]. split.
      - intros d' Ed'. assert (d' = d) by congruence. subst. auto.
      - intros L. unfold dat_at, rd in Edd. rewrite (proj2 (nth_error_None _ _) L) in Edd. discriminate. }
    assert (N1 : forall j, node_at s1 j = if j =? i then Some n1 else node_at st j).
    { intros j. cbn [nodes s1]. eapply node_upd; eauto. }
    assert (Inv1 : Inv i s1).
    { intros j m Hj Ej. rewrite N1 in Ej. destruct (Nat.eqb_spec j i); [lia|]. destruct (I j m ltac:(lia) Ej) as [I1 I2]. split; [auto|].
      intros Hsy. destruct (I2 (synced_world _ _ _ (world_sym _ _ WE1) Hsy)) as [t [vals [xs [y [Ev [F [Ey Er]]]]]]].
      exists t, vals, xs, y. split; [auto|]. split; [|auto].
      eapply Forall2_in_impl; [|exact F]. intros p x Hp. apply ready_move; [auto|]. intros mp Emp. rewrite N1.
      destruct (W' _ _ Ej) as [W1 _]. specialize (W1 p Hp). destruct (Nat.eqb_spec p i); [lia|auto]. }
    assert (Hpl : forall p, In p (parents n) -> p < i) by (destruct (W' _ _ E); auto).
    destruct (foldM _ (s1, []) (seq 0 (nloops n))) as [[s2 passes]|] eqn:Ef; [|discriminate]. cbn [obind] in Ec.
    destruct (passes_correct i prep (parents n) s1 HP Hpl Wf1 Inv1 _ _ _ Ef) as [A2 [B2 [C2 [D2 [W2 [I2 [F2 [L2 [P2 [G2 S2]]]]]]]]]].
    destruct (values s2 n1) as [vals|] eqn:Eva; [|discriminate]. cbn [obind] in Ec.
    assert (En2 : node_at s2 i = Some n1). { rewrite C2, N1, Nat.eqb_refl by lia. auto. }
    rewrite En2 in Ec. cbn [obind] in Ec.
    destruct (run n (clock s2) (structure s2) vals passes) as [x|] eqn:Erun; [|discriminate]. cbn [obind] in Ec.
    destruct (upd (nodes s2) i (with_built n1 x)) as [ns3|] eqn:U3; [|discriminate]. cbn [obind] in Ec. injection Ec as <-.
    set (n3 := with_built n1 x) in *.
    set (s3 := mk_state (structure s2) (gver s2) (dats s2) ns3 (S (clock s2))).
    assert (Hs3 : same_node n1 n3). { unfold same_node, n3, with_built; cbn. auto 10. }
    assert (WE3 : world_eq s2 s3) by (eapply world_upd; eauto).
    assert (WE13 : world_eq s1 s3) by (eapply world_trans; eauto).
    assert (WE : world_eq st s3) by (eapply world_trans; eauto).
    assert (N3 : forall j, node_at s3 j = if j =? i then Some n3 else node_at s2 j).
    { intros j. cbn [nodes s3]. eapply node_upd; eauto. }
    assert (Wf3 : wf s3).
    { pose proof W2 as [_ W2']. destruct (W2' _ _ En2) as [_ [_ [_ [_ [X5 X6]]]]]. eapply wf_upd; eauto. }
    assert (Nsy : ~ synced st n). { intros Hsy. rewrite (check_synced _ _ _ _ Hsy Ed) in Eb. discriminate. }
    assert (Keep : forall j m, node_at st j = Some m -> synced st m -> node_at s3 j = Some m).
    { intros j m Ej Hsy. destruct (Nat.eq_dec j i) as [->|Hji]; [exfalso; apply Nsy; congruence|].
      rewrite N3. destruct (Nat.eqb_spec j i); [lia|]. apply D2.
      - rewrite N1. destruct (Nat.eqb_spec j i); [lia|auto].
      - eapply synced_world; eauto. }
    assert (Stat : forall j m, j <> i -> node_at st j = Some m -> static m = true -> node_at s3 j = Some m).
    { intros j m Hji Ej Hm. rewrite N3. destruct (Nat.eqb_spec j i); [lia|]. apply B2; auto.
      rewrite N1. destruct (Nat.eqb_spec j i); [lia|auto]. }
    assert (Hfl : noflags st n -> synced s3 n3).
    { intros Hn. split.
      - cbn [n3 with_built n1 with_seen gseen]. destruct WE as [_ [X _]]. auto.
      - cbn [n3 with_built n1 with_seen deps]. intros p v Hi. destruct (K2 p v Hi) as [d [Edd ->]]. exists d.
        destruct WE as [_ [_ [X _]]]. rewrite <- (dat_at_eq st s3) by auto. split; [auto|]. split; [auto|]. eapply Hn; eauto.
        rewrite <- K1. apply (in_map fst) in Hi. auto. }
    assert (SK13 : static n = false -> statics_kept st s3).
    { intros Es j m Ej Hm. apply Stat; auto. intros ->. congruence. }
    assert (SK23 : static n = false -> statics_kept s2 s3).
    { intros Es j m Ej Hm. rewrite N3. destruct (Nat.eqb_spec j i) as [->|]; [|auto]. exfalso. rewrite En2 in Ej. injection Ej as <-.
      cbn in Hm. congruence. }
    assert (CC23 : static n = false -> forall j, j <> i -> CC s2 j -> CC s3 j).
    { intros Es j Hji. apply CC_move; auto. intros m Em. rewrite N3. destruct (Nat.eqb_spec j i); [lia|]. eauto. }
    split; [auto|]. split; [auto|]. split.
    { intros j Hj. rewrite N3. destruct (Nat.eqb_spec j i); [lia|]. rewrite C2, N1 by lia. destruct (Nat.eqb_spec j i); [lia|auto]. }
    split; [auto|]. split; [auto|]. split; [|split].
    - intros j m Hj Ej. destruct (lt_eq_lt_dec j i) as [[Hlt| ->]|Hgt].
      + rewrite N3 in Ej. destruct (Nat.eqb_spec j i); [lia|]. destruct (I2 j m Hlt Ej) as [J1 J2]. split; [auto|].
        intros Hsy. destruct (J2 (synced_world _ _ _ (world_sym _ _ WE3) Hsy)) as [t [vs [xs [y [Ev [F [Ey Er]]]]]]].
        exists t, vs, xs, y. split; [auto|]. split; [|auto].
        eapply Forall2_in_impl; [|exact F]. intros p z Hp. apply ready_move; [auto|]. intros mp Emp. rewrite N3.
        destruct W2 as [_ W2']. destruct (W2' _ _ Ej) as [X1 _]. specialize (X1 p Hp). destruct (Nat.eqb_spec p i); [lia|auto].
      + rewrite N3, Nat.eqb_refl in Ej. injection Ej as <-. split; [intros _; cbn; eauto|]. intros Hsy.
        destruct (W' _ _ E) as [X1 [X2 [X3 _]]].
        destruct (S2 X3) as [Hset [xs [Exs Hrep]]].
        { intros p Hp m Em r d Hr Edr. destruct Hsy as [_ Hsy]. cbn [n3 with_built n1 with_seen deps] in Hsy.
          rewrite N1 in Em. specialize (Hpl p Hp). destruct (Nat.eqb_spec p i); [lia|].
          pose proof (X2 p m Hp Em r Hr) as Hr'. rewrite <- K1 in Hr'. apply in_map_iff in Hr' as [[r' v] [<- Hi]].
          destruct (Hsy _ _ Hi) as [d' [Ed' [_ Ha]]]. cbn [fst] in Edr.
          destruct WE13 as [_ [_ [Q _]]]. rewrite (dat_at_eq s1 s3) in Edr by auto. congruence. }
        exists (clock s2), vals, xs, x. split.
        { rewrite <- Eva. apply values_fst; auto. }
        split.
        { cbn [n3 with_built n1 with_seen parents]. eapply mapM_Forall2; [exact Exs|]. intros p z Hp Evis.
          destruct (settled_ready i s2 p W2 I2 (Hpl p Hp) (Hset p Hp)) as [z' Hz'].
          pose proof (ready_visible i s2 p z' W2 I2 (Hpl p Hp) Hz') as Evis'. assert (z' = z) by congruence. subst z'.
          eapply ready_move; [exact WE3| |exact Hz']. intros mp Emp. rewrite N3. specialize (Hpl p Hp). destruct (Nat.eqb_spec p i); [lia|auto]. }
        split; [auto|]. cbn [n3 with_built n1 with_seen run nloops structure s3]. rewrite <- Hrep. auto.
      + assert (Ej0 : node_at st j = Some m).
        { rewrite N3 in Ej. destruct (Nat.eqb_spec j i); [lia|]. rewrite C2, N1 in Ej by lia. destruct (Nat.eqb_spec j i); [lia|auto]. }
        destruct (I j m Hj Ej0) as [J1 J2]. split; [auto|].
        intros Hsy. destruct (J2 (synced_world _ _ _ (world_sym _ _ WE) Hsy)) as [t [vs [xs [y [Ev [F [Ey Er]]]]]]].
        exists t, vs, xs, y. pose proof WE as [Q1 [Q2 [Q3 _]]]. split; [rewrite <- Ev; apply values_fst; auto|]. split.
        * eapply Forall2_in_impl; [|exact F]. intros p z Hp Hr. eapply ready_move; [exact WE| |exact Hr]. intros mp Emp.
          destruct Hr as [mp' [Emp' [_ Hmp]]]. assert (mp' = mp) by congruence. subst mp'.
          destruct (static mp) eqn:Esm; [|auto]. apply Stat; auto. intros ->. assert (mp = n) by congruence. subst mp.
          apply (Hstat Esm). exists j, m. auto.
        * split; [auto|]. rewrite <- Q1. auto.
    - intros Es.
      assert (CCi : CC s3 i).
      { exists n3, x. split; [rewrite N3, Nat.eqb_refl; auto|]. split; [auto|].
        eapply (current_computed s3 i n3 (clock s2) vals passes x).
        - rewrite N3, Nat.eqb_refl. auto.
        - auto.
        - rewrite <- Eva. apply values_fst; auto.
        - auto.
        - intros xs Hx. cbn [n3 with_built n1 with_seen parents]. eapply Forall2_in_impl; [|exact (P2 xs Hx)].
          intros p z Hp Hc. eapply (current_to s2 s3); eauto.
        - auto. }
      split.
      + intros j Hc. destruct (Nat.eq_dec j i) as [->|Hji]; [auto|]. apply CC23; auto. apply F2.
        apply (CC_move st s1 j W WE1); [| |auto].
        * intros k m Ek Hm. rewrite N1. destruct (Nat.eqb_spec k i) as [->|]; [congruence|auto].
        * intros m Em. rewrite N1. destruct (Nat.eqb_spec j i); [lia|eauto].
      + split; [auto|]. intros n' q f En' Evw. rewrite N3, Nat.eqb_refl in En'. injection En' as <-. cbn [n3 with_built n1 with_seen view] in Evw.
        destruct (W' _ _ E) as [_ [_ [X3 [X4 _]]]]. destruct (X4 _ _ Evw) as [P1 _].
        assert (Hq : In q (parents n)) by (rewrite P1; left; auto). specialize (Hpl q Hq). apply CC23; [auto|lia|].
        destruct (G2 X3 q Hq). auto.
    - intros Hn. exists n3. split; [rewrite N3, Nat.eqb_refl; auto|]. auto.
  Qed.

  Lemma view_static (st : state) i n : wf st -> node_at st i = Some n -> static n = true -> view n = None.
  Proof.
    intros [_ W] E Hs. destruct (view n) as [[q f]|] eqn:Ev; [|auto]. destruct (W _ _ E) as [_ [_ [_ [W4 _]]]].
    destruct (W4 _ _ Ev) as [_ [_ [_ [_ Q]]]]. congruence.
  Qed.

  Lemma use_spec fuel : forall i, prepares i (create_if_required fuel).
  Proof.
    induction fuel as [|fuel IH]; intros i; split; try discriminate.
    - intros b st p st' _ Hpb W I Ec. cbn [create_if_required] in Ec. unfold rd in Ec. destruct (node_at st p) as [n|] eqn:E; [|discriminate]. cbn [obind] in Ec.
      unfold assert in Ec. destruct (is_valid st n) eqn:Hval; [|discriminate]. cbn [obind] in Ec.
      destruct (static n) eqn:Es.
      + injection Ec as <-. split; [apply world_refl|]. split; [intros j m Ej _; auto|]. split; [auto|]. split; [auto|]. split; [auto|]. split; [auto|]. split; [auto|].
        pose proof (view_static st p n W E Es) as Hv.
        split.
        * destruct (I p n Hpb E) as [I1 _]. destruct (I1 Es) as [x Ex]. split.
          -- exists n, x. split; [auto|]. split; [auto|]. eapply current_static; eauto. rewrite (visible_plain _ _ _ E Hv). auto.
          -- intros n' q f E' Ev. congruence.
        * intros n' E' _. exists n'. split; [auto|]. congruence.
      + destruct (inner_spec p (create_if_required fuel) b st st' n) as [A1 [A2 [A3 [A4 [A5 [A6 [A7 A8]]]]]]]; auto; [congruence|].
        destruct (A7 Es) as [A9 A10]. split; [auto|]. split.
        { intros j m Ej Hm. apply A2; auto. intros ->. congruence. }
        split; [auto|]. split; [auto|]. split; [auto|]. split; [auto|]. split; [auto|]. split; [auto|].
        intros n' E' Hn. assert (n' = n) by congruence. subst n'. destruct (A8 Hn) as [m [Em Hm]]. exists m. auto.
    - intros st p st' [m [Em Hm]] Ec. cbn [create_if_required] in Ec. unfold rd in Ec. rewrite Em in Ec. cbn [obind] in Ec.
      unfold assert in Ec. destruct (is_valid st m); [|discriminate]. cbn [obind] in Ec. destruct (static m) eqn:Es; [congruence|].
      eapply inner_synced; eauto.
  Qed.
End Proofs.
