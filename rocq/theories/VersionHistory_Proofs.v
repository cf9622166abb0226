(** The invariant of the version counters over histories. *)
From Coq Require Import List Arith Bool Lia.
Import ListNotations.
From Verif Require Import Base Kernel Version_Model Version_Spec Version_Proofs.

Section Proofs.
  Context {V G Sel : Type}.
  Notation state := (state V G Sel).
  Notation node := (node V G Sel).
  Notation node_at st i := (nth_error (nodes st) i).

  Definition J (st : state) : Prop := wf st /\ forall b, Inv b st.

  Lemma Inv_le b b' (st : state) : b <= b' -> Inv b' st -> Inv b st.
  Proof. intros L I i n Hi. apply I. lia. Qed.

  Lemma J_initial g vs : J (initial g vs : state).
  Proof.
    split.
    - split; [cbn; lia|]. intros i n E. cbn in E. destruct i; discriminate.
    - intros b i n _ E. cbn in E. destruct i; discriminate.
  Qed.

  (** Bringing a sub-group up to date. *)
  Lemma use_J fuel (st : state) i st' : J st -> create_if_required fuel st i = Some st' ->
    J st' /\ world_eq st st' /\ statics_kept st st' /\ good st' i.
  Proof.
    intros [W I] E. destruct (@use_spec V G Sel fuel (S i)) as [H _].
    destruct (H (S i) st i st') as [A1 [A2 [_ [_ [A5 [_ [_ [A8 _]]]]]]]]; auto; try lia.
    split; [|auto]. split; [auto|]. intros b. apply (Inv_le b (S i + b)); [lia|].
    destruct (H (S i + b) st i st') as [_ [_ [_ [_ [_ [B _]]]]]]; auto; lia.
  Qed.

  (** Changes to the group that leave the sub-groups alone. *)
  Definition dats_grow (st st' : state) : Prop :=
    length (dats st) <= length (dats st') /\
    forall p d', dat_at st' p = Some d' ->
      (exists d, dat_at st p = Some d /\ ver d <= ver d' /\ (gver st = gver st' -> ver d = ver d' -> always d' = false -> d' = d)) \/
      (length (dats st) <= p /\ 1 <= ver d').

  Lemma J_env (st st' : state) : J st -> nodes st' = nodes st -> gver st <= gver st' ->
    (gver st = gver st' -> structure st = structure st') -> dats_grow st st' -> J st'.
  Proof.
    intros [[Wg W] I] En Hg Hst [HL HG].
    assert (Hsync : forall i n, node_at st i = Some n -> synced st' n -> gver st = gver st' /\ synced st n /\ values st' n = values st n).
    { intros i n E [S1 S2]. destruct (W _ _ E) as [_ [_ [_ [_ [W5 W6]]]]]. assert (Eg : gver st = gver st') by lia.
      assert (Hd : forall p v, In (p, v) (deps n) -> exists d, dat_at st p = Some d /\ dat_at st' p = Some d /\ ver d = v /\ always d = false).
      { intros p v Hi. destruct (S2 p v Hi) as [d' [Ed' [Ev Ea]]]. destruct (W5 p v Hi) as [X1 X2].
        destruct (HG p d' Ed') as [[d [Ed [Hle Heq]]]|[Hp Hv]].
        - specialize (X1 d Ed). assert (d' = d) by (apply Heq; auto; lia). subst d'. exists d. auto.
        - specialize (X2 Hp). lia. }
      split; [auto|]. split.
      - split; [congruence|]. intros p v Hi. destruct (Hd p v Hi) as [d [Q1 [_ [Q3 Q4]]]]. eauto.
      - unfold values. apply mapM_ext_in. intros [p v] Hi. destruct (Hd p v Hi) as [d [Q1 [Q2 _]]]. cbn [fst]. rewrite Q1, Q2. auto. }
    split.
    - split; [lia|]. rewrite En. intros i n E. destruct (W _ _ E) as [W1 [W2 [W3 [W4 [W5 W6]]]]].
      split; [auto|]. split; [auto|]. split; [auto|]. split; [auto|]. split; [|lia]. intros p v Hi. destruct (W5 p v Hi) as [X1 X2]. split.
      + intros d' Ed'. destruct (HG p d' Ed') as [[d [Ed [Hle _]]]|[Hp _]]; [specialize (X1 d Ed); lia|rewrite (X2 Hp); lia].
      + intros Hp. apply X2. lia.
    - intros b i n Hi E. rewrite En in E. destruct (I b i n Hi E) as [I1 I2]. split; [auto|]. intros Hs.
      destruct (Hsync i n E Hs) as [Eg [Hs0 Ev]]. destruct (I2 Hs0) as [t [vals [xs [y [Evv [F [Ey Er]]]]]]].
      exists t, vals, xs, y. split; [congruence|]. split; [|rewrite <- Hst; auto].
      eapply Forall2_in_impl; [|exact F]. intros p x Hp [m [Em [Ex Hm]]]. exists m. rewrite En. split; [auto|]. split; [auto|]. intros Hm'.
      specialize (Hm Hm'). destruct Hs as [_ Hs2]. destruct Hm as [M1 M2]. split; [congruence|]. intros r v Hi'.
      destruct (M2 r v Hi') as [d [Ed [Ev' Ea]]].
      destruct (W _ _ E) as [_ [W2 _]]. assert (Hin : In r (map fst (deps n))). { apply (W2 p m Hp Em). apply (in_map fst) in Hi'. auto. }
      apply in_map_iff in Hin as [[r' v2] [<- Hi2]]. cbn [fst] in *. destruct (Hs2 _ _ Hi2) as [d' [Ed' [Ev2 Ea2]]].
      destruct Hs0 as [_ Hs0]. destruct (Hs0 _ _ Hi2) as [d0 [Ed0 [Ev0 _]]]. exists d'. split; [auto|]. split; [|auto]. congruence.
  Qed.

  Lemma dat_at_upd (st : state) ds p e q : upd (dats st) p e = Some ds ->
    dat_at (with_dats st ds) q = if q =? p then e else dat_at st q.
  Proof.
    intros U. unfold dat_at, with_dats, rd. cbn [dats]. rewrite (upd_nth _ _ _ _ _ U).
    destruct (Nat.eqb_spec q p); [|auto]. subst. destruct e; auto.
  Qed.

  Lemma callback_spec ds p m ds' : callback ds p m = Some ds' ->
    exists d : dat V, nth_error ds p = Some (Some d) /\ upd ds p (Some (mk_dat (val d) (S (ver d)) m)) = Some ds'.
  Proof.
    unfold callback, rd. destruct (nth_error ds p) as [[d|]|] eqn:E; try discriminate. cbn. intros U. eauto.
  Qed.
  Lemma set_val_spec ds p v ds' : set_val ds p v = Some ds' ->
    exists d : dat V, nth_error ds p = Some (Some d) /\ upd ds p (Some (mk_dat v (ver d) (always d))) = Some ds'.
  Proof.
    unfold set_val, rd. destruct (nth_error ds p) as [[d|]|] eqn:E; try discriminate. cbn. intros U. eauto.
  Qed.

  Lemma callbacks_spec touched : forall ds ds' : list (option (dat V)), foldM (fun ds p => callback ds p false) ds touched = Some ds' ->
    length ds' = length ds /\ forall p d', nth_error ds' p = Some (Some d') -> exists d, nth_error ds p = Some (Some d) /\ ver d <= ver d'.
  Proof.
    induction touched as [|t touched IH]; intros ds ds' E; cbn [foldM] in E.
    - injection E as <-. split; [auto|]. eauto.
    - destruct (callback ds t false) as [d1|] eqn:E1; [|discriminate]. cbn [obind] in E. destruct (IH _ _ E) as [L H].
      destruct (callback_spec _ _ _ _ E1) as [d [Ed U]]. split; [rewrite L; eapply upd_length; eauto|]. intros p d' Ep.
      destruct (H p d' Ep) as [dm [Em Hle]]. rewrite (upd_nth _ _ _ _ _ U) in Em. destruct (Nat.eqb_spec p t) as [->|]; [|eauto].
      injection Em as <-. cbn in Hle. exists d. split; [auto|lia].
  Qed.

  Lemma nth_combine_seq {A} (l : list A) i : nth_error (combine (seq 0 (length l)) l) i = match nth_error l i with Some a => Some (i, a) | None => None end.
  Proof.
    assert (H : forall k, nth_error (combine (seq k (length l)) l) i = match nth_error l i with Some a => Some (k + i, a) | None => None end).
    { revert i. induction l as [|a l IH]; intros i k; [destruct i; auto|]. cbn [length seq combine]. destruct i as [|i]; cbn [nth_error].
      - rewrite Nat.add_0_r. auto.
      - rewrite IH. rewrite Nat.add_succ_r. auto. }
    apply H.
  Qed.

  (** Adding a sub-group. *)
  Lemma J_append (st : state) n : J st ->
    (forall p, In p (parents n) -> p < length (nodes st)) ->
    (forall p m, In p (parents n) -> node_at st p = Some m -> incl (map fst (deps m)) (map fst (deps n))) ->
    1 <= nloops n ->
    (forall q f, view n = Some (q, f) -> parents n = [q] /\ nloops n = 1 /\ run n = partition_run f /\
      (forall m, node_at st q = Some m -> view m = None)) ->
    (forall p v, In (p, v) (deps n) -> v = 0) -> gseen n = 0 -> static n = false ->
    J (with_nodes st (nodes st ++ [n])).
  Proof.
    intros [[Wg W] I] H1 H2 H3 H4 H5 H6 H7.
    assert (Hcase : forall i m, nth_error (nodes st ++ [n]) i = Some m -> (i < length (nodes st) /\ node_at st i = Some m) \/ (i = length (nodes st) /\ m = n)).
    { intros i m E. destruct (lt_dec i (length (nodes st))) as [L|L].
      - rewrite nth_error_app1 in E by auto. auto.
      - rewrite nth_error_app2 in E by lia. destruct (i - length (nodes st)) as [|k] eqn:Ek; cbn in E; [|destruct k; discriminate].
        injection E as <-. right. split; [lia|auto]. }
    split.
    - split; [auto|]. unfold with_nodes. cbn [nodes gver dats]. intros i m E. destruct (Hcase i m E) as [[L E0]|[-> ->]].
      + destruct (W _ _ E0) as [W1 [W2 [W3 [W4 [W5 W6]]]]]. split; [auto|]. split.
        { intros p mp Hp Emp. rewrite nth_error_app1 in Emp by (specialize (W1 p Hp); lia). eauto. }
        split; [auto|]. split; [|auto]. intros q f Ev. destruct (W4 _ _ Ev) as [P1 [P2 [P3 [P4 P5]]]].
        repeat split; auto. intros mq Eq. rewrite nth_error_app1 in Eq; auto.
        assert (q < i) by (apply W1; rewrite P1; left; auto). lia.
      + split; [auto|]. split.
        { intros p mp Hp Emp. rewrite nth_error_app1 in Emp by auto. eauto. }
        split; [auto|]. split.
        { intros q f Ev. destruct (H4 _ _ Ev) as [P1 [P2 [P3 P4]]]. repeat split; auto. intros mq Eq.
          rewrite nth_error_app1 in Eq; auto. apply H1. rewrite P1. left; auto. }
        split; [|lia]. intros p v Hi. rewrite (H5 p v Hi). split; [intros; lia|auto].
    - intros b i m Hb E. cbn [with_nodes nodes] in E. destruct (Hcase i m E) as [[L E0]|[-> ->]].
      + destruct (I b i m Hb E0) as [I1 I2]. split; [auto|]. intros Hs. destruct (I2 Hs) as [t [vals [xs [y [Ev [F [Ey Er]]]]]]].
        exists t, vals, xs, y. split; [auto|]. split; [|auto]. eapply Forall2_in_impl; [|exact F].
        intros p x Hp [mp [Em [Ex Hm]]]. exists mp. split; [|auto]. cbn [with_nodes nodes]. rewrite nth_error_app1; auto. eapply nth_error_some_lt; eauto.
      + split; [congruence|]. intros [Hs _]. cbn [with_nodes gver] in Hs. lia.
  Qed.

  Lemma initial_deps_spec (st : state) own ps ds : initial_deps st own ps = Some ds ->
    (forall p, In p ps -> p < length (nodes st)) /\
    (forall p m, In p ps -> node_at st p = Some m -> incl (map fst (deps m)) (map fst ds)) /\
    (forall p v, In (p, v) ds -> v = 0).
  Proof.
    unfold initial_deps. destruct (mapM (rd (nodes st)) ps) as [ms|] eqn:E; [|discriminate]. cbn [obind]. intros [= <-].
    assert (F : Forall2 (fun p m => node_at st p = Some m) ps ms). { eapply mapM_Forall2; eauto. }
    split; [|split].
    - clear E. induction F as [|p m ps ms H F IH]; intros q [].
      + subst. eapply nth_error_some_lt; eauto.
      + auto.
    - intros p m Hp Em r Hr. rewrite map_map. cbn [fst]. rewrite map_id. apply in_or_app. right. apply in_flat_map. exists m. split; [|auto].
      clear E. induction F as [|p' m' ps ms H F IH]; [destruct Hp|]. destruct Hp as [->|Hp]; [left; congruence|right; auto].
    - intros p v Hi. apply in_map_iff in Hi as [q [[= _ <-] _]]. auto.
  Qed.

  (** Freezing or releasing a sub-group. *)
  Lemma J_static (st : state) i n ns b : J st -> node_at st i = Some n -> upd (nodes st) i (with_static n b) = Some ns ->
    (b = true -> view n = None /\ exists x, built n = Some x) ->
    (b = false -> ~ has_children st i) -> J (with_nodes st ns).
  Proof.
    intros [[Wg W] I] E U Ht Hf.
    assert (N : forall j, nth_error ns j = if j =? i then Some (with_static n b) else node_at st j).
    { intros j. apply (upd_nth _ _ _ _ _ U). }
    assert (Hback : forall j m, nth_error ns j = Some m -> exists m0, node_at st j = Some m0 /\ deps m = deps m0 /\ parents m = parents m0 /\ nloops m = nloops m0 /\
       run m = run m0 /\ view m = view m0 /\ gseen m = gseen m0 /\ built m = built m0 /\ (m = m0 \/ (j = i /\ static m = b))).
    { intros j m Ej. rewrite N in Ej. destruct (Nat.eqb_spec j i) as [->|]; [|exists m; repeat split; auto].
      injection Ej as <-. exists n. repeat split; auto. }
    split.
    - split; [auto|]. unfold with_nodes. cbn [nodes gver dats]. intros j m Ej.
      destruct (Hback _ _ Ej) as [m0 [Em0 [B1 [B2 [B3 [B4 [B5 [B6 [B7 B8]]]]]]]]]. rewrite B1, B2, B3, B4, B5, B6.
      destruct (W _ _ Em0) as [W1 [W2 [W3 [W4 [W5 W6]]]]]. split; [auto|]. split.
      { intros p mp Hp Emp. destruct (Hback _ _ Emp) as [mp0 [Emp0 [C1 _]]]. rewrite C1. eauto. }
      split; [auto|]. split; [|auto]. intros q f Ev. destruct (W4 _ _ Ev) as [P1 [P2 [P3 [P4 P5]]]]. repeat split; auto.
      + intros mq Eq. destruct (Hback _ _ Eq) as [mq0 [Eq0 [_ [_ [_ [_ [C5 _]]]]]]]. rewrite C5. auto.
      + destruct B8 as [->|[-> Hb]]; [auto|]. destruct b; [|congruence]. destruct (Ht eq_refl). congruence.
    - intros bb j m Hj Ej. cbn [with_nodes nodes] in Ej. destruct (Hback _ _ Ej) as [m0 [Em0 [B1 [B2 [B3 [B4 [B5 [B6 [B7 B8]]]]]]]]].
      destruct (I bb j m0 Hj Em0) as [I1 I2]. split.
      + intros Hm. rewrite B7. destruct B8 as [->|[-> Hb]]; [auto|]. assert (m0 = n) by congruence. subst m0. apply Ht. congruence.
      + intros [S1 S2]. rewrite B1, B6 in *. destruct I2 as [t [vals [xs [y [Ev [F [Ey Er]]]]]]]; [split; auto|].
        exists t, vals, xs, y. split. { rewrite <- Ev. apply values_fst; auto. congruence. }
        rewrite B2, B3, B4, B7. split; [|auto]. eapply Forall2_in_impl; [|exact F]. intros p x Hp [mp [Emp [Ex Hmp]]].
        destruct (Nat.eq_dec p i) as [->|Hpi].
        * exists (with_static n b). cbn [with_nodes nodes]. rewrite N, Nat.eqb_refl. assert (mp = n) by congruence. subst mp.
          split; [auto|]. split; [auto|]. cbn [with_static static]. intros ->. exfalso. apply Hf; auto. exists j, m0. auto.
        * exists mp. cbn [with_nodes nodes]. rewrite N. destruct (Nat.eqb_spec p i); [lia|]. auto.
  Qed.

  Lemma nth_map_opt {A B} (f : A -> B) l i : nth_error (map f l) i = option_map f (nth_error l i).
  Proof. apply nth_error_map. Qed.

  Lemma dat_at_some (st : state) p d : dat_at st p = Some d <-> nth_error (dats st) p = Some (Some d).
  Proof.
    unfold dat_at, rd. destruct (nth_error (dats st) p) as [[e|]|]; cbn; split; congruence.
  Qed.

  Lemma step_J (st : state) o r : J st -> allowed st o -> step st o = Some r -> J (fst r).
  Proof.
    intros HJ Ha Hs. destruct o as [p v|p|p v|p v|k g contents touched|p v|p|own ps loops f|own q f|i|i b|i]; cbn [step] in Hs; cbn [allowed] in Ha.
    - destruct (callback (dats st) p false) as [ds|] eqn:E1; [|discriminate]. cbn [obind] in Hs.
      destruct (set_val ds p v) as [ds'|] eqn:E2; [|discriminate]. cbn [obind] in Hs. injection Hs as <-. cbn [fst].
      destruct (callback_spec _ _ _ _ E1) as [d [Ed U1]]. destruct (set_val_spec _ _ _ _ E2) as [d1 [Ed1 U2]].
      rewrite (upd_nth _ _ _ _ _ U1), Nat.eqb_refl in Ed1. injection Ed1 as <-. cbn [ver always] in U2.
      apply (J_env st); [auto|auto|auto|auto|]. split; [cbn [dats with_dats]; rewrite (upd_length _ _ _ _ U2), (upd_length _ _ _ _ U1); auto|].
      intros q d' Ed'. apply dat_at_some in Ed'. cbn [dats with_dats] in Ed'. rewrite (upd_nth _ _ _ _ _ U2) in Ed'. left.
      destruct (Nat.eqb_spec q p) as [->|].
      + injection Ed' as <-. exists d. split; [apply dat_at_some; auto|]. cbn [ver]. split; [lia|]. intros; lia.
      + rewrite (upd_nth _ _ _ _ _ U1) in Ed'. destruct (Nat.eqb_spec q p); [lia|]. exists d'. split; [apply dat_at_some; auto|]. auto.
    - destruct (callback (dats st) p true) as [ds|] eqn:E1; [|discriminate]. cbn [obind] in Hs. injection Hs as <-. cbn [fst].
      destruct (callback_spec _ _ _ _ E1) as [d [Ed U1]].
      apply (J_env st); [auto|auto|auto|auto|]. split; [cbn [dats with_dats]; rewrite (upd_length _ _ _ _ U1); auto|].
      intros q d' Ed'. apply dat_at_some in Ed'. cbn [dats with_dats] in Ed'. rewrite (upd_nth _ _ _ _ _ U1) in Ed'. left.
      destruct (Nat.eqb_spec q p) as [->|].
      + injection Ed' as <-. exists d. split; [apply dat_at_some; auto|]. cbn [ver]. split; [lia|]. intros; lia.
      + exists d'. split; [apply dat_at_some; auto|]. auto.
    - destruct (set_val (dats st) p v) as [ds|] eqn:E1; [|discriminate]. cbn [obind] in Hs. injection Hs as <-. cbn [fst].
      destruct (set_val_spec _ _ _ _ E1) as [d [Ed U1]]. destruct Ha as [da [Eda Hda]]. apply dat_at_some in Eda. assert (da = d) by congruence. subst da.
      apply (J_env st); [auto|auto|auto|auto|]. split; [cbn [dats with_dats]; rewrite (upd_length _ _ _ _ U1); auto|].
      intros q d' Ed'. apply dat_at_some in Ed'. cbn [dats with_dats] in Ed'. rewrite (upd_nth _ _ _ _ _ U1) in Ed'. left.
      destruct (Nat.eqb_spec q p) as [->|].
      + injection Ed' as <-. exists d. split; [apply dat_at_some; auto|]. cbn [ver always]. split; [lia|]. intros; congruence.
      + exists d'. split; [apply dat_at_some; auto|]. auto.
    - destruct Ha.
    - destruct (foldM _ (dats st) touched) as [ds|] eqn:E1; [|discriminate]. cbn [obind] in Hs. injection Hs as <-. cbn [fst].
      destruct (callbacks_spec _ _ _ E1) as [L H]. assert (Hb : 1 <= bumps k) by (destruct k; cbn; lia).
      apply (J_env st); [auto|auto|cbn [gver]; lia|cbn [gver]; lia|]. split.
      + cbn [dats]. rewrite map_length, combine_length, seq_length, L. lia.
      + intros q d' Ed'. apply dat_at_some in Ed'. cbn [dats] in Ed'. rewrite nth_map_opt, nth_combine_seq in Ed'. left.
        destruct (nth_error ds q) as [[dq|]|] eqn:Eq; cbn in Ed'; try discriminate. injection Ed' as <-.
        destruct (H _ _ Eq) as [d [Ed Hle]]. exists d. split; [apply dat_at_some; auto|]. cbn [ver gver]. split; [auto|]. intros; lia.
    - subst p. destruct (dat_at st (length (dats st))) eqn:E0; [discriminate|]. rewrite Nat.eqb_refl in Hs. cbn [obind] in Hs. injection Hs as <-. cbn [fst].
      apply (J_env st); [auto|auto|auto|auto|]. split; [cbn [dats with_dats]; rewrite app_length; lia|].
      intros q d' Ed'. apply dat_at_some in Ed'. cbn [dats with_dats] in Ed'. destruct (lt_dec q (length (dats st))) as [Lq|Lq].
      + rewrite nth_error_app1 in Ed' by auto. left. exists d'. split; [apply dat_at_some; auto|]. auto.
      + right. split; [lia|]. rewrite nth_error_app2 in Ed' by lia. destruct (q - length (dats st)) as [|k]; cbn in Ed'; [|destruct k; discriminate].
        injection Ed' as <-. cbn. lia.
    - destruct (dat_at st p) eqn:E0; [|discriminate]. cbn [obind] in Hs. destruct (upd (dats st) p None) as [ds|] eqn:U1; [|discriminate]. cbn [obind] in Hs.
      injection Hs as <-. cbn [fst]. apply (J_env st); [auto|auto|auto|auto|]. split; [cbn [dats with_dats]; rewrite (upd_length _ _ _ _ U1); auto|].
      intros q d' Ed'. apply dat_at_some in Ed'. cbn [dats with_dats] in Ed'. rewrite (upd_nth _ _ _ _ _ U1) in Ed'. left.
      destruct (Nat.eqb_spec q p) as [->|]; [discriminate|]. exists d'. split; [apply dat_at_some; auto|]. auto.
    - destruct (initial_deps st own ps) as [ds|] eqn:E1; [|discriminate]. cbn [obind] in Hs. injection Hs as <-. cbn [fst].
      destruct (initial_deps_spec _ _ _ _ E1) as [H1 [H2 H3]]. apply J_append; cbn [parents deps nloops view gseen static]; auto. discriminate.
    - destruct (initial_deps st own [q]) as [ds|] eqn:E1; [|discriminate]. cbn [obind] in Hs. injection Hs as <-. cbn [fst].
      destruct (initial_deps_spec _ _ _ _ E1) as [H1 [H2 H3]]. apply J_append; cbn [parents deps nloops view gseen static run]; auto.
      intros q' f' [= <- <-]. repeat split; auto.
    - destruct (create_if_required _ st i) as [s1|] eqn:E1; [|discriminate]. cbn [obind] in Hs. destruct (visible s1 i) as [x|]; [|discriminate]. cbn [obind] in Hs.
      injection Hs as <-. cbn [fst]. destruct (use_J _ _ _ _ HJ E1). auto.
    - unfold rd in Hs. destruct (node_at st i) as [n|] eqn:En; [|discriminate]. cbn [obind] in Hs.
      destruct (Bool.eqb (static n) b) eqn:Eb; [injection Hs as <-; auto|]. destruct Ha as [Ha1 Ha2]. destruct b.
      + destruct (create_if_required _ st i) as [s1|] eqn:E1; [|discriminate]. cbn [obind] in Hs. destruct (use_J _ _ _ _ HJ E1) as [J1 [WE [_ Gd]]].
        destruct (node_at s1 i) as [n1|] eqn:En1; [|discriminate]. cbn [obind] in Hs.
        destruct (upd (nodes s1) i (with_static n1 true)) as [ns|] eqn:U; [|discriminate]. cbn [obind] in Hs. injection Hs as <-. cbn [fst].
        eapply J_static; eauto; [|discriminate]. intros _. split.
        * destruct (world_back _ _ WE _ _ En1) as [n0 [E0 [_ [_ [_ [_ [Sv _]]]]]]]. rewrite <- Sv. apply Ha1; congruence.
        * destruct Gd as [[n1' [x [En1' [Ex _]]]] _]. exists x. congruence.
      + cbn [obind] in Hs. rewrite En in Hs. cbn [obind] in Hs.
        destruct (upd (nodes st) i (with_static n false)) as [ns|] eqn:U; [|discriminate]. cbn [obind] in Hs. injection Hs as <-. cbn [fst].
        eapply J_static; eauto; [discriminate|]. intros _ Hc. specialize (Ha2 eq_refl Hc n eq_refl). rewrite Ha2 in Eb. discriminate.
    - destruct (create_inner _ st i) as [s1|] eqn:E1; [|discriminate]. cbn [obind] in Hs. injection Hs as <-. cbn [fst].
      destruct (node_at st i) as [n|] eqn:En. 2:{ unfold create_inner, rd in E1. rewrite En in E1. discriminate. }
      assert (Hst : static n = true -> ~ has_children st i). { intros Hn Hc. specialize (Ha Hc n eq_refl). congruence. }
      destruct HJ as [W I]. split.
      + destruct (inner_spec i _ (S i) st s1 n (use_spec (S (length (nodes st))) i)) as [_ [_ [_ [_ [A _]]]]]; eauto.
      + intros b. apply (Inv_le b (S i + b)); [lia|]. destruct (inner_spec i _ (S i + b) st s1 n (use_spec (S (length (nodes st))) i)) as [_ [_ [_ [_ [_ [A _]]]]]]; eauto. lia.
  Qed.

  Lemma history_J os : forall (st st' : state), J st -> allowed_history st os -> history st os = Some st' -> J st'.
  Proof.
    induction os as [|o os IH]; intros st st' HJ Ha Hh; cbn in Hh; [congruence|].
    destruct (step st o) as [r|] eqn:E; [|discriminate]. cbn [obind] in Hh. cbn [allowed_history] in Ha. destruct Ha as [H1 H2].
    apply (IH (fst r)); auto. eapply step_J; eauto.
  Qed.

  Lemma never_stale g vs os (st : state) i st' x :
    allowed_history (initial g vs) os -> history (initial g vs) os = Some st -> step st (Use i) = Some (st', Some x) -> current st i x.
  Proof.
    intros Ha Hh Hs. pose proof (history_J os _ _ (J_initial g vs) Ha Hh) as HJ. cbn [step] in Hs.
    destruct (create_if_required _ st i) as [s1|] eqn:E1; [|discriminate]. cbn [obind] in Hs.
    destruct (visible s1 i) as [y|] eqn:Ev; [|discriminate]. cbn [obind] in Hs. injection Hs as <- <-.
    destruct (use_J _ _ _ _ HJ E1) as [[W1 _] [WE [SK Gd]]]. destruct (good_visible _ _ W1 Gd) as [y' [Ey' C]].
    assert (y' = y) by congruence. subst y'. apply (current_to s1 st); auto; [apply world_sym; auto|].
    intros j m Ej Hm. destruct (world_back _ _ WE _ _ Ej) as [m0 [E0 [_ [_ [_ [_ [_ S6]]]]]]].
    assert (node_at s1 j = Some m0) by (apply SK; congruence). congruence.
  Qed.

  (** Static sub-groups are left alone, and the group version does not change. *)
  Lemma kept_foldM {A X} (Q : X -> X -> Prop) (f : X -> A -> option X) l : (forall a, Q a a) -> (forall a b c, Q a b -> Q b c -> Q a c) ->
    (forall s a s', f s a = Some s' -> Q s s') -> forall s s', foldM f s l = Some s' -> Q s s'.
  Proof.
    intros R T H. induction l as [|a l IH]; intros s s' E; cbn [foldM] in E; [injection E as <-; auto|].
    destruct (f s a) as [s1|] eqn:E1; [|discriminate]. cbn [obind] in E. eauto.
  Qed.

  Definition quiet (i : nat) (st st' : state) : Prop :=
    gver st' = gver st /\ forall n, node_at st i = Some n -> static n = true -> node_at st' i = Some n.
  Lemma quiet_refl i st : quiet i st st. Proof. split; auto. Qed.
  Lemma quiet_trans i a b c : quiet i a b -> quiet i b c -> quiet i a c.
  Proof. intros [A1 A2] [B1 B2]. split; [congruence|auto]. Qed.

  Lemma inner_quiet prep i j : (forall st p st', prep st p = Some st' -> quiet i st st') ->
    forall (st st' : state), (forall n, node_at st j = Some n -> static n = true -> j <> i) -> create_inner prep st j = Some st' -> quiet i st st'.
  Proof.
    intros HP st st' Hj Ec. unfold create_inner, rd in Ec. destruct (node_at st j) as [n|] eqn:E; [|discriminate]. cbn [obind] in Ec.
    destruct (check_dats st (deps n)) as [[bb ds]|]; [|discriminate]. cbn [obind fst snd] in Ec.
    destruct (bb || check_group st (gseen n)); [|injection Ec as <-; apply quiet_refl].
    destruct (upd (nodes st) j (with_seen n ds (gver st))) as [ns1|] eqn:U1; [|discriminate]. cbn [obind] in Ec.
    destruct (foldM _ _ (seq 0 (nloops n))) as [[s2 passes]|] eqn:Ef; [|discriminate]. cbn [obind] in Ec.
    destruct (values s2 _) as [vals|]; [|discriminate]. cbn [obind] in Ec. destruct (node_at s2 j) as [n2|] eqn:E2; [|discriminate]. cbn [obind] in Ec.
    destruct (run n _ _ vals passes) as [x|]; [|discriminate]. cbn [obind] in Ec. destruct (upd (nodes s2) j (with_built n2 x)) as [ns3|] eqn:U3; [|discriminate].
    cbn [obind] in Ec. injection Ec as <-.
    assert (Q1 : quiet i st (with_nodes st ns1)).
    { split; [auto|]. intros m Em Hm. cbn [with_nodes nodes]. rewrite (upd_nth _ _ _ _ _ U1). destruct (Nat.eqb_spec i j) as [->|]; [|auto].
      exfalso. apply (Hj n eq_refl); congruence. }
    assert (Q2 : quiet i (with_nodes st ns1) s2).
    { apply (kept_foldM (fun a b : state * list (list Sel) => quiet i (fst a) (fst b)) _ _ (fun a => quiet_refl i _) (fun a b c => quiet_trans i _ _ _)) in Ef; [exact Ef|].
      intros [sa pa] _ [sb pb] Eo. unfold one_pass in Eo. cbn [fst snd] in Eo. destruct (foldM prep sa (parents n)) as [sc|] eqn:Es; [|discriminate]. cbn [obind] in Eo.
      destruct (mapM (visible sc) (parents n)) as [xs|]; [|discriminate]. cbn [obind] in Eo. injection Eo as <- _. cbn [fst].
      apply (kept_foldM (quiet i) prep (parents n) (quiet_refl i) (quiet_trans i) HP). auto. }
    pose proof (quiet_trans _ _ _ _ Q1 Q2) as Q. split; [apply Q|]. intros m Em Hm. destruct Q as [_ Q]. cbn [nodes]. rewrite (upd_nth _ _ _ _ _ U3).
    destruct (Nat.eqb_spec i j) as [->|]; [|auto]. exfalso. apply (Hj n eq_refl); congruence.
  Qed.

  Lemma create_quiet fuel i : forall (st : state) j st', create_if_required fuel st j = Some st' -> quiet i st st'.
  Proof.
    induction fuel as [|fuel IH]; intros st j st' E; cbn [create_if_required] in E; [discriminate|].
    unfold rd in E. destruct (node_at st j) as [n|] eqn:En; [|discriminate]. cbn [obind] in E. unfold assert in E.
    destruct (is_valid st n); [|discriminate]. cbn [obind] in E. destruct (static n) eqn:Es; [injection E as <-; apply quiet_refl|].
    apply (inner_quiet (create_if_required fuel) i j IH st st'); [|exact E]. intros n' E' Hn'. congruence.
  Qed.

  Lemma step_quiet i (st : state) o r : ~ releases i o -> step st o = Some r ->
    (gver (fst r) = gver st \/ gver st < gver (fst r)) /\
    (gver (fst r) = gver st <-> is_structural o = false) /\
    forall n, node_at st i = Some n -> static n = true -> node_at (fst r) i = Some n.
  Proof.
    intros Hr Hs.
    assert (Hq : is_structural o = false -> quiet i st (fst r) -> (gver (fst r) = gver st \/ gver st < gver (fst r)) /\
      (gver (fst r) = gver st <-> is_structural o = false) /\ forall n, node_at st i = Some n -> static n = true -> node_at (fst r) i = Some n).
    { intros H0 [Q1 Q2]. split; [auto|]. split; [split; auto|]. auto. }
    destruct o as [p v|p|p v|p v|k g contents touched|p v|p|own ps loops f|own q f|j|j b|j]; cbn [step] in Hs.
    - destruct (callback (dats st) p false) as [ds|]; [|discriminate]. cbn [obind] in Hs. destruct (set_val ds p v); [|discriminate].
      injection Hs as <-. apply Hq; [auto|]. split; auto.
    - destruct (callback (dats st) p true) as [ds|]; [|discriminate]. injection Hs as <-. apply Hq; [auto|]. split; auto.
    - destruct (set_val (dats st) p v); [|discriminate]. injection Hs as <-. apply Hq; [auto|]. split; auto.
    - destruct (set_val (dats st) p v); [|discriminate]. injection Hs as <-. apply Hq; [auto|]. split; auto.
    - destruct (foldM _ (dats st) touched) as [ds|]; [|discriminate]. injection Hs as <-. cbn [fst gver nodes is_structural].
      assert (Hb : 1 <= bumps k) by (destruct k; cbn; lia). split; [lia|]. split; [split; [lia|discriminate]|auto].
    - destruct (dat_at st p); [discriminate|]. destruct (if p =? length (dats st) then _ else _); [|discriminate]. injection Hs as <-. apply Hq; [auto|]. split; auto.
    - destruct (dat_at st p); [|discriminate]. cbn [obind] in Hs. destruct (upd (dats st) p None); [|discriminate]. injection Hs as <-. apply Hq; [auto|]. split; auto.
    - destruct (initial_deps st own ps); [|discriminate]. injection Hs as <-. apply Hq; [auto|]. split; [auto|]. intros n En _. cbn [fst with_nodes nodes].
      rewrite nth_error_app1; [auto|]. eapply nth_error_some_lt; eauto.
    - destruct (initial_deps st own [q]); [|discriminate]. injection Hs as <-. apply Hq; [auto|]. split; [auto|]. intros n En _. cbn [fst with_nodes nodes].
      rewrite nth_error_app1; [auto|]. eapply nth_error_some_lt; eauto.
    - destruct (create_if_required _ st j) as [s1|] eqn:E1; [|discriminate]. cbn [obind] in Hs. destruct (visible s1 j); [|discriminate]. injection Hs as <-.
      apply Hq; [auto|]. eapply create_quiet; eauto.
    - unfold rd in Hs. destruct (node_at st j) as [n|] eqn:En; [|discriminate]. cbn [obind] in Hs.
      destruct (Bool.eqb (static n) b) eqn:Eb; [injection Hs as <-; apply Hq; [auto|apply quiet_refl]|].
      destruct b.
      + destruct (create_if_required _ st j) as [s1|] eqn:E1; [|discriminate]. cbn [obind] in Hs. pose proof (create_quiet _ i _ _ _ E1) as Q.
        destruct (node_at s1 j) as [n1|] eqn:En1; [|discriminate]. cbn [obind] in Hs. destruct (upd (nodes s1) j _) as [ns|] eqn:U; [|discriminate].
        injection Hs as <-. apply Hq; [auto|]. destruct Q as [Q1 Q2]. split; [auto|]. intros m Em Hm. cbn [fst with_nodes nodes]. rewrite (upd_nth _ _ _ _ _ U).
        destruct (Nat.eqb_spec i j) as [->|]; [|auto]. exfalso. assert (m = n) by congruence. subst m. rewrite Hm in Eb. discriminate.
      + cbn [obind] in Hs. rewrite En in Hs. cbn [obind] in Hs. destruct (upd (nodes st) j _) as [ns|] eqn:U; [|discriminate]. injection Hs as <-.
        apply Hq; [auto|]. split; [auto|]. intros m Em Hm. cbn [fst with_nodes nodes]. rewrite (upd_nth _ _ _ _ _ U).
        destruct (Nat.eqb_spec i j) as [->|]; [|auto]. exfalso. apply Hr. cbn. auto.
    - destruct (create_inner _ st j) as [s1|] eqn:E1; [|discriminate]. injection Hs as <-. apply Hq; [auto|]. apply (inner_quiet (create_if_required (S (length (nodes st)))) i j); [| |exact E1].
      + intros. eapply create_quiet; eauto.
      + intros n En Hn ->. apply Hr. cbn. auto.
  Qed.

  Lemma history_quiet i os : Forall (fun o => ~ releases i o) os -> forall (st st' : state), history st os = Some st' ->
    gver st <= gver st' /\ (gver st' = gver st <-> existsb is_structural os = false) /\
    forall n, node_at st i = Some n -> static n = true -> node_at st' i = Some n.
  Proof.
    intros F. induction F as [|o os Ho F IH]; intros st st' Hh; cbn in Hh.
    - injection Hh as <-. cbn [existsb]. repeat split; auto.
    - destruct (step st o) as [r|] eqn:E; [|discriminate]. cbn [obind] in Hh. destruct (step_quiet i st o r Ho E) as [A1 [A2 A3]].
      destruct (IH _ _ Hh) as [B1 [B2 B3]]. split; [lia|]. split; [|auto]. cbn [existsb]. rewrite orb_false_iff. split.
      + intros Q. assert (gver (fst r) = gver st) by lia. split; [apply A2; auto|]. apply B2. lia.
      + intros [Q1 Q2]. apply A2 in Q1. apply B2 in Q2. lia.
  Qed.

  Lemma use_static (st : state) i n : node_at st i = Some n -> static n = true ->
    step st (Use i) = if gseen n =? gver st then (x <- visible st i ;; Some (st, Some x)) else None.
  Proof.
    intros E Es. cbn [step create_if_required]. unfold rd. rewrite E. cbn [obind]. unfold is_valid, check_group. rewrite Es, negb_involutive, (Nat.eqb_sym (gver st)).
    unfold assert. destruct (gseen n =? gver st); cbn [obind]; auto.
  Qed.

  Lemma frozen i n x os (st st' s' : state) :
    node_at st i = Some n -> static n = true -> view n = None -> step st (Use i) = Some (s', Some x) ->
    Forall (fun o => ~ releases i o) os -> history st os = Some st' ->
    step st' (Use i) = if existsb is_structural os then None else Some (st', Some x).
  Proof.
    intros E Es Ev Hu F Hh. destruct (history_quiet i os F _ _ Hh) as [A1 [A2 A3]]. pose proof (A3 n E Es) as E'.
    rewrite (use_static _ _ _ E Es) in Hu. rewrite (use_static _ _ _ E' Es). rewrite (visible_plain _ _ _ E Ev) in Hu. rewrite (visible_plain _ _ _ E' Ev).
    destruct (Nat.eqb_spec (gseen n) (gver st)) as [Eg|]; [|discriminate]. destruct (built n) as [y|]; [|discriminate]. cbn [obind] in Hu. injection Hu as _ <-.
    destruct (existsb is_structural os) eqn:Ex.
    - destruct (Nat.eqb_spec (gseen n) (gver st')) as [Eg'|]; [|auto]. assert (true = false) by (apply A2; lia). discriminate.
    - destruct A2 as [_ A2]. rewrite A2, Eg, Nat.eqb_refl by auto. auto.
  Qed.

  (** A sub-group brought up to date has seen the present group version. *)
  Definition seen_at (i g : nat) (s : state) : Prop := gver s = g /\ forall m, node_at s i = Some m -> gseen m = g.

  Lemma foldM_inv {A X} (Q : X -> Prop) (f : X -> A -> option X) l :
    (forall s a s', Q s -> f s a = Some s' -> Q s') -> forall s s', Q s -> foldM f s l = Some s' -> Q s'.
  Proof.
    intros H. induction l as [|a l IH]; intros s s' Hs E; cbn [foldM] in E; [injection E as <-; auto|].
    destruct (f s a) as [s1|] eqn:E1; [|discriminate]. cbn [obind] in E. eauto.
  Qed.

  Lemma inner_seen prep i j g : (forall st p st', seen_at i g st -> prep st p = Some st' -> seen_at i g st') ->
    forall (st st' : state), gver st = g -> (i <> j -> seen_at i g st) -> create_inner prep st j = Some st' -> seen_at i g st'.
  Proof.
    intros HP st st' Hg Hseen Ec. unfold create_inner, rd in Ec. destruct (node_at st j) as [n|] eqn:E; [|discriminate]. cbn [obind] in Ec.
    destruct (check_dats st (deps n)) as [[bb ds]|] eqn:Ed; [|discriminate]. cbn [obind fst snd] in Ec.
    destruct (bb || check_group st (gseen n)) eqn:Eb.
    2:{ injection Ec as <-. destruct (Nat.eq_dec i j) as [->|]; [|auto]. split; [auto|]. intros m Em. assert (m = n) by congruence. subst m.
        destruct (inner_not_synced _ _ _ _ Ed Eb). congruence. }
    destruct (upd (nodes st) j (with_seen n ds (gver st))) as [ns1|] eqn:U1; [|discriminate]. cbn [obind] in Ec.
    destruct (foldM _ _ (seq 0 (nloops n))) as [[s2 passes]|] eqn:Ef; [|discriminate]. cbn [obind] in Ec.
    destruct (values s2 _) as [vals|]; [|discriminate]. cbn [obind] in Ec. destruct (node_at s2 j) as [n2|] eqn:E2; [|discriminate]. cbn [obind] in Ec.
    destruct (run n _ _ vals passes) as [x|]; [|discriminate]. cbn [obind] in Ec. destruct (upd (nodes s2) j (with_built n2 x)) as [ns3|] eqn:U3; [|discriminate].
    cbn [obind] in Ec. injection Ec as <-.
    assert (Q1 : seen_at i g (with_nodes st ns1)).
    { split; [auto|]. intros m Em. cbn [with_nodes nodes] in Em. rewrite (upd_nth _ _ _ _ _ U1) in Em. destruct (Nat.eqb_spec i j) as [->|Hij].
      - injection Em as <-. auto.
      - apply Hseen; auto. }
    assert (Q2 : seen_at i g (fst (s2, passes))).
    { refine (foldM_inv (fun a : state * list (list Sel) => seen_at i g (fst a)) _ _ _ (with_nodes st ns1, []) _ Q1 Ef).
      intros [sa pa] _ [sb pb] Ha Eo. unfold one_pass in Eo. cbn [fst snd] in *. destruct (foldM prep sa (parents n)) as [sc|] eqn:Es; [|discriminate]. cbn [obind] in Eo.
      destruct (mapM (visible sc) (parents n)) as [xs|]; [|discriminate]. cbn [obind] in Eo. injection Eo as <- _. exact (foldM_inv _ _ _ HP _ _ Ha Es). }
    cbn [fst] in Q2. destruct Q2 as [Q2 Q3]. split; [auto|]. intros m Em. cbn [nodes] in Em. rewrite (upd_nth _ _ _ _ _ U3) in Em.
    destruct (Nat.eqb_spec i j) as [->|]; [|auto]. injection Em as <-. cbn. auto.
  Qed.

  Lemma create_seen_at fuel i g : forall (st : state) j st', seen_at i g st -> create_if_required fuel st j = Some st' -> seen_at i g st'.
  Proof.
    induction fuel as [|fuel IH]; intros st j st' Hs E; cbn [create_if_required] in E; [discriminate|].
    unfold rd in E. destruct (node_at st j) as [n|] eqn:En; [|discriminate]. cbn [obind] in E. unfold assert in E.
    destruct (is_valid st n); [|discriminate]. cbn [obind] in E. destruct (static n); [congruence|].
    apply (inner_seen (create_if_required fuel) i j g IH st st'); auto. apply Hs.
  Qed.

  Lemma create_seen fuel i (st st' : state) n n' : create_if_required fuel st i = Some st' -> node_at st i = Some n -> static n = false ->
    node_at st' i = Some n' -> gseen n' = gver st'.
  Proof.
    destruct fuel as [|fuel]; [discriminate|]. intros E En Es En'. cbn [create_if_required] in E. unfold rd in E. rewrite En in E. cbn [obind] in E.
    unfold assert in E. destruct (is_valid st n); [|discriminate]. cbn [obind] in E. rewrite Es in E.
    destruct (inner_seen (create_if_required fuel) i i (gver st) (create_seen_at fuel i (gver st)) st st' eq_refl) as [A1 A2]; auto; [lia|].
    rewrite A1. auto.
  Qed.

  (** Freezing a sub-group keeps what it selects now. *)
  Lemma freeze g vs os (st st1 : state) i n r :
    allowed_history (initial g vs) os -> history (initial g vs) os = Some st ->
    node_at st i = Some n -> static n = false -> view n = None -> (step st (SetStatic i true)) = Some (st1, r) ->
    exists n1 x, node_at st1 i = Some n1 /\ static n1 = true /\ view n1 = None /\
      step st1 (Use i) = Some (st1, Some x) /\ current st i x.
  Proof.
    intros Ha Hh En Es Evw Hs. pose proof (history_J os _ _ (J_initial g vs) Ha Hh) as HJ. cbn [step] in Hs. unfold rd in Hs. rewrite En in Hs. cbn [obind] in Hs.
    rewrite Es in Hs. cbn [Bool.eqb] in Hs. destruct (create_if_required _ st i) as [s1|] eqn:E1; [|discriminate]. cbn [obind] in Hs.
    destruct (node_at s1 i) as [n1|] eqn:En1; [|discriminate]. cbn [obind] in Hs. destruct (upd (nodes s1) i (with_static n1 true)) as [ns|] eqn:U; [|discriminate].
    cbn [obind] in Hs. injection Hs as <- _. destruct (use_J _ _ _ _ HJ E1) as [J1 [WE [SK Gd]]].
    destruct (world_back _ _ WE _ _ En1) as [n0 [E0 [S1 [S2 [S3 [S4 [S5 S6]]]]]]]. assert (n0 = n) by congruence. subst n0.
    destruct Gd as [[n1' [x [En1' [Ex C]]]] _]. assert (n1' = n1) by congruence. subst n1'.
    assert (N : nth_error ns i = Some (with_static n1 true)). { rewrite (upd_nth _ _ _ _ _ U), Nat.eqb_refl. auto. }
    exists (with_static n1 true), x. split; [auto|]. split; [auto|]. split; [cbn; congruence|]. split.
    - rewrite (use_static _ i (with_static n1 true)) by auto. rewrite (visible_plain _ i (with_static n1 true)) by (auto; cbn; congruence).
      cbn [with_static gseen built with_nodes gver]. rewrite Ex. cbn [obind].
      pose proof (create_seen _ _ _ _ _ _ E1 En Es En1) as Eg.
      rewrite Eg, Nat.eqb_refl. auto.
    - apply (current_to s1 st); [apply J1|apply world_sym; auto| |auto]. intros j m Ej Hm.
      destruct (world_back _ _ WE _ _ Ej) as [m0 [Em0 [_ [_ [_ [_ [_ T6]]]]]]]. assert (node_at s1 j = Some m0) by (apply SK; congruence). congruence.
  Qed.

  Lemma usable_world (st st' : state) : world_eq st st' -> usable st -> usable st'.
  Proof.
    intros WE U i n E. destruct (world_back _ _ WE _ _ E) as [n0 [E0 [S1 [S2 [S3 [S4 [S5 S6]]]]]]]. destruct (U _ _ E0) as [U1 [U2 U3]].
    destruct WE as [A1 [A2 [A3 _]]]. split; [congruence|]. split.
    - intros p Hp. rewrite <- S1 in Hp. rewrite <- (dat_at_eq st st') by auto. auto.
    - intros t vals passes H1 H2 H3. rewrite <- A1, <- S4. apply U3; try congruence.
      + rewrite H1. apply (f_equal (@length nat)) in S1. rewrite !map_length in S1. auto.
      + intros xs Hx. rewrite S2. auto.
  Qed.

  Lemma mapM_exists {A B} (f : A -> option B) l : (forall a, In a l -> exists b, f a = Some b) -> exists bs, mapM f l = Some bs.
  Proof.
    induction l as [|a l IH]; intros H; cbn [mapM]; [eauto|]. destruct (H a (or_introl eq_refl)) as [b ->]. cbn [obind].
    destruct IH as [bs ->]; [intros; apply H; right; auto|]. cbn. eauto.
  Qed.

  Lemma prepares_total i prep : prepares i prep ->
    (forall (st : state) p, p < i -> wf st -> Inv i st -> usable st -> p < length (nodes st) -> exists st', prep st p = Some st') ->
    forall ps (st : state), (forall p, In p ps -> p < i) -> (forall p, In p ps -> p < length (nodes st)) -> wf st -> Inv i st -> usable st ->
    exists st', foldM prep st ps = Some st'.
  Proof.
    intros HP Ht. induction ps as [|p ps IH]; intros st H1 H2 W I U; cbn [foldM]; [eauto|].
    destruct (Ht st p) as [s1 E1]; auto; [apply H1; left; auto|apply H2; left; auto|]. rewrite E1. cbn [obind].
    pose proof HP as [HP1 _]. assert (Hp : p < i) by (apply H1; left; auto).
    destruct (HP1 i st p s1 Hp Hp W I E1) as [A1 [_ [_ [_ [A5 [A6 _]]]]]].
    apply IH; auto.
    - intros q Hq. apply H1; right; auto.
    - intros q Hq. pose proof A1 as [_ [_ [_ [_ L]]]]. rewrite <- L. apply H2; right; auto.
    - eapply usable_world; eauto.
  Qed.

  Lemma passes_total i prep ps (s0 : state) : prepares i prep ->
    (forall (st : state) p, p < i -> wf st -> Inv i st -> usable st -> p < length (nodes st) -> exists st', prep st p = Some st') ->
    (forall p, In p ps -> p < i) -> (forall p, In p ps -> p < length (nodes s0)) -> wf s0 -> Inv i s0 -> usable s0 ->
    forall k, exists r, foldM (fun acc (_ : nat) => one_pass prep ps acc) (s0, []) (seq 0 k) = Some r.
  Proof.
    intros HP Ht H1 H2 W I U. induction k as [|k [[s1 acc] E]]; [cbn; eauto|]. rewrite seq_S, foldM_app, E. cbn [obind foldM].
    destruct (passes_correct i prep ps s0 HP H1 W I _ _ _ E) as [A1 [_ [_ [_ [A5 [A6 _]]]]]].
    unfold one_pass. cbn [fst snd].
    destruct (prepares_total i prep HP Ht ps s1) as [s2 E2]; auto.
    { intros q Hq. pose proof A1 as [_ [_ [_ [_ L]]]]. rewrite <- L. auto. }
    { eapply usable_world; eauto. }
    rewrite E2. cbn [obind]. destruct (prepare_list i prep HP ps s1 s2 H1 A5 A6 E2) as [_ [_ [_ [_ [B5 [_ [_ [B8 _]]]]]]]].
    destruct (mapM_exists (visible s2) ps) as [xs ->]; [|cbn; eauto]. intros p Hp. destruct (good_visible s2 p B5 (B8 p Hp)) as [x [Ex _]]. eauto.
  Qed.

  Lemma create_total fuel : forall (st : state) i b, i < fuel -> i < b -> wf st -> Inv b st -> usable st -> i < length (nodes st) ->
    exists st', create_if_required fuel st i = Some st'.
  Proof.
    induction fuel as [|fuel IH]; intros st i b Hf Hb Wf I Hu Hi; [lia|]. cbn [create_if_required]. unfold rd.
    destruct (nth_error_lt_some (nodes st) i Hi) as [n E]. rewrite E. cbn [obind]. destruct (Hu _ _ E) as [U1 [U2 U3]].
    unfold is_valid. rewrite U1. cbn [assert obind]. unfold create_inner, rd. rewrite E. cbn [obind].
    destruct (mapM_exists (check_dat st) (deps n)) as [rs Ers].
    { intros [p v] Hp. destruct (U2 p) as [d Ed]; [apply (in_map fst) in Hp; auto|]. unfold check_dat. cbn [fst]. rewrite Ed. cbn. eauto. }
    unfold check_dats. rewrite Ers. cbn [obind fst snd]. destruct (existsb fst rs || check_group st (gseen n)) eqn:Eb; [|eauto].
    assert (Ed : check_dats st (deps n) = Some (existsb fst rs, map snd rs)). { unfold check_dats. rewrite Ers. auto. }
    destruct (check_dats_spec _ _ _ _ Ed) as [K1 [K2 _]].
    set (n1 := with_seen n (map snd rs) (gver st)) in *. destruct (upd_some (nodes st) i n1 Hi) as [ns1 U]. rewrite U. cbn [obind].
    set (s1 := with_nodes st ns1).
    pose proof Wf as [Wg W]. destruct (W _ _ E) as [W1 [W2 [W3 [W4 [W5 W6]]]]].
    assert (Hs1 : same_node n n1). { unfold same_node, n1, with_seen; cbn. auto 10. }
    assert (WE1 : world_eq st s1) by (eapply world_upd; eauto).
    assert (Wf1 : wf s1).
    { eapply wf_upd; eauto. cbn [deps n1 with_seen]. intros p v Hp. destruct (K2 p v Hp) as [d [Edd ->]]. split.
      - intros d' Ed'. assert (d' = d) by congruence. subst. auto.
      - intros L. unfold dat_at, rd in Edd. rewrite (proj2 (nth_error_None _ _) L) in Edd. discriminate. }
    assert (N1 : forall j, node_at s1 j = if j =? i then Some n1 else node_at st j). { intros j. apply (upd_nth _ _ _ _ _ U). }
    assert (Inv1 : Inv i s1).
    { intros j m Hj Ej. rewrite N1 in Ej. destruct (Nat.eqb_spec j i); [lia|]. destruct (I j m ltac:(lia) Ej) as [I1 I2]. split; [auto|].
      intros Hsy. destruct (I2 (synced_world _ _ _ (world_sym _ _ WE1) Hsy)) as [t [vals [xs [y [Ev [F [Ey Er]]]]]]].
      exists t, vals, xs, y. split; [auto|]. split; [|auto].
      eapply Forall2_in_impl; [|exact F]. intros p x Hp. apply ready_move; [auto|]. intros mp Emp. rewrite N1.
      destruct (W _ _ Ej) as [W1' _]. specialize (W1' p Hp). destruct (Nat.eqb_spec p i); [lia|auto]. }
    assert (Us1 : usable s1) by (eapply usable_world; eauto).
    assert (L1 : length (nodes s1) = length (nodes st)). { destruct WE1 as [_ [_ [_ [_ L]]]]. auto. }
    assert (Hprep : forall (s : state) p, p < i -> wf s -> Inv i s -> usable s -> p < length (nodes s) -> exists s', create_if_required fuel s p = Some s').
    { intros s p Hp Ws Is Uss Ls. apply (IH s p i); auto. lia. }
    destruct (passes_total i (create_if_required fuel) (parents n) s1 (use_spec fuel i) Hprep W1) with (k := nloops n) as [[s2 passes] Ef]; auto.
    { intros p Hp. specialize (W1 p Hp). lia. }
    rewrite Ef. cbn [obind]. destruct (passes_correct i _ (parents n) s1 (use_spec fuel i) W1 Wf1 Inv1 _ _ _ Ef) as [A1 [_ [A3 [_ [A5 [A6 [_ [A8 [A9 _]]]]]]]]].
    assert (En2 : node_at s2 i = Some n1). { rewrite A3, N1, Nat.eqb_refl by lia. auto. }
    pose proof A1 as [Q1 [Q2 [Q3 [_ Q5]]]].
    destruct (mapM_exists (fun pv => d <- dat_at s2 (fst pv) ;; Some (val d)) (deps n1)) as [vals Ev].
    { intros [p v] Hp. cbn [fst]. destruct (U2 p) as [d Edd]. { rewrite <- K1. apply (in_map fst) in Hp. auto. }
      rewrite <- (dat_at_eq s1 s2) by auto. change (dat_at s1 p) with (dat_at st p). rewrite Edd. cbn. eauto. }
    unfold values. rewrite Ev. cbn [obind]. rewrite En2. cbn [obind].
    destruct (U3 (clock s2) vals passes) as [x Ex]; auto.
    { apply mapM_length in Ev. rewrite Ev. cbn [n1 with_seen deps]. apply (f_equal (@length nat)) in K1. rewrite !map_length in *. auto. }
    { intros xs Hx. specialize (A9 xs Hx). clear - A9. induction A9; cbn; auto. }
    rewrite <- Q1. change (structure s1) with (structure st). rewrite Ex. cbn [obind].
    destruct (upd_some (nodes s2) i (with_built n1 x)) as [ns3 U4]; [lia|]. rewrite U4. cbn. eauto.
  Qed.

  Lemma use_total g vs os (st : state) i : allowed_history (initial g vs) os -> history (initial g vs) os = Some st ->
    usable st -> i < length (nodes st) -> exists st' x, step st (Use i) = Some (st', Some x).
  Proof.
    intros Ha Hh Hu Hi. pose proof (history_J os _ _ (J_initial g vs) Ha Hh) as HJ. pose proof HJ as [W I].
    destruct (create_total (S (length (nodes st))) st i (S i)) as [s1 E1]; auto. cbn [step]. rewrite E1. cbn [obind].
    destruct (use_J _ _ _ _ HJ E1) as [[W1 _] [_ [_ Gd]]]. destruct (good_visible _ _ W1 Gd) as [y [Ey _]]. rewrite Ey. cbn. eauto.
  Qed.
End Proofs.
