(** Proofs about the count tables: properties, construction and histories. *)
From Coq Require Import List Arith ZArith Bool Lia Permutation.
Import ListNotations.
From Verif Require Import Base Kernel Counter_Model Counter_Spec Counter_Proofs CounterOps_Proofs CounterMove_Proofs.

Section History.
  Context (d : device) (hint s_rank s_pos s_cell : nat).
  Hypothesis Ok : device_ok d.
  Notation inv := (inv hint s_rank s_pos s_cell).
  Notation dinv := (dinv hint s_rank s_pos s_cell).

  (** [inv] without the three required properties. *)
  Record winv (t : tables) (np names : list nat) : Prop := mk_winv {
    wi_shape : shape t;
    wi_len : length np = ncell t;
    wi_dats : dats_hold t np;
    wi_rows : rows_ok hint s_cell t np;
    wi_names : forall s, In s (map fst (dats t)) <-> In s names;
    wi_h : h_npart t = np;
    wi_dv : d_npart t = np;
    wi_eh : h_es t = es_of np;
    wi_ed : d_es t = es_of np;
    wi_l : npart_local t = list_sum np
  }.
  Lemma inv_winv t np names : inv t np names <-> winv t np names /\ In s_rank names /\ In s_pos names /\ In s_cell names.
  Proof.
    split.
    - intros [[S L D R [N1 N2]] H1 H2 H3 H4 H5]. split; [constructor; auto|exact N2].
    - intros [[S L D R N H1 H2 H3 H4 H5] N2]. constructor; auto. constructor; auto. split; auto.
  Qed.

  Lemma dat_of_none t s : dat_of t s = None <-> ~ In s (map fst (dats t)).
  Proof.
    unfold dat_of. generalize (dats t). induction l as [|[x a] l IH]; cbn [find fst map]; [cbn; tauto|].
    destruct (Nat.eqb_spec s x) as [->|Ne]; cbn [option_map In].
    - split; [discriminate|]. intros H. exfalso. apply H. left; auto.
    - rewrite IH. split; intros H; [intros [E|I]; [congruence|auto]|auto].
  Qed.

  Lemma app_last {A} (l : list A) x : nth_error (l ++ [x]) (length l) = Some x.
  Proof. rewrite nth_error_app2, Nat.sub_diag by lia. auto. Qed.

  Lemma hint_loop t a l : nth_error (dat_rows t) a = Some l -> length l = ncell t ->
    exists r, foldM (fun t c => realloc_cell t a c hint) t (seq 0 (ncell t)) = Some (set_dat_rows t r) /\
      upd (dat_rows t) a (repeat hint (ncell t)) = Some r.
  Proof.
    intros E L. destruct (realloc_cells_eq t a (repeat hint (ncell t)) l E L) as [r [E1 E2]]; [apply repeat_length|].
    exists r. split; auto. rewrite <- E1. unfold realloc_cells.
    assert (G : forall s t0, (forall c, In c s -> c < ncell t) ->
      foldM (fun t c => realloc_cell t a c hint) t0 s =
      foldM (fun t1 c => n <- rd (repeat hint (ncell t)) c ;; realloc_cell t1 a c n) t0 s).
    { induction s as [|c s IH]; intros t0 Hs; cbn [foldM]; auto. unfold rd at 1.
      rewrite nth_error_repeat by (apply Hs; left; auto). cbn [obind]. destruct (realloc_cell t0 a c hint); cbn [obind]; auto.
      apply IH. intros; apply Hs; right; auto. }
    apply G. intros c Hc. apply in_seq in Hc. lia.
  Qed.

  Lemma add_common_ok t np names sym : winv t np names -> ~ In sym (map fst (dats t)) ->
    (sym = s_cell -> forall c, nth c np 0 = 0) ->
    exists t', add_particle_dat_common hint t sym = Some t' /\ ncell t' = ncell t /\ winv t' np (sym :: names).
  Proof.
    intros [Sh L D R N Hh Hd Heh Hed Hl] Hn Hc. unfold add_particle_dat_common.
    set (a := length (dat_h t)).
    match goal with |- context [realloc_cells ?x a _] => set (t0 := x) end.
    assert (Fr : forall x, In x (map snd (dats t)) -> x < a).
    { intros x Hx. destruct (sh_dh t Sh x Hx) as [l [El _]]. unfold a. eapply nth_error_some_lt; eauto. }
    assert (Ra : nth_error (dat_rows t0) a = Some (repeat 0 (ncell t))).
    { cbn. unfold a. rewrite <- (sh_mr t Sh). apply app_last. }
    destruct (realloc_cells_eq t0 a (h_npart t0) (repeat 0 (ncell t)) Ra) as [r [E1 U1]];
      [apply repeat_length|cbn; apply Sh|]. rewrite E1. cbn [obind].
    assert (Za : nth_error (dat_h t ++ [repeat 0 (ncell t)]) a = Some (repeat 0 (ncell t))) by apply app_last.
    assert (Zd : nth_error (dat_d t ++ [repeat 0 (ncell t)]) a = Some (repeat 0 (ncell t))).
    { unfold a. rewrite <- (sh_md t Sh). apply app_last. }
    unfold rd at 1. change (dat_h (set_dat_rows t0 r)) with (dat_h t ++ [repeat 0 (ncell t)]). rewrite Za. cbn [obind].
    change (ncell (set_dat_rows t0 r)) with (ncell t). change (h_npart (set_dat_rows t0 r)) with (h_npart t).
    rewrite copy_table_eq; [|apply Sh|apply repeat_length]. cbn [obind].
    destruct (upd_some (dat_h t ++ [repeat 0 (ncell t)]) a (h_npart t)) as [mh Emh];
      [rewrite app_length; cbn; unfold a; lia|].
    rewrite Emh. cbn [obind].
    unfold rd at 1. change (dat_d (set_dat_rows t0 r)) with (dat_d t ++ [repeat 0 (ncell t)]). rewrite Zd. cbn [obind].
    rewrite copy_table_eq; [|apply Sh|apply repeat_length]. cbn [obind].
    destruct (upd_some (dat_d t ++ [repeat 0 (ncell t)]) a (h_npart t)) as [md Emd];
      [rewrite app_length; cbn; unfold a; rewrite (sh_md t Sh); lia|].
    rewrite Emd. cbn [obind].
    match goal with |- context [if 0 <? hint then foldM _ ?x _ else _] => set (t2 := x) end.
    assert (Lr : length r = S (length (dat_rows t))).
    { rewrite (upd_length _ _ _ _ U1). cbn. rewrite app_length. cbn. lia. }
    assert (Ht3 : exists r3 lr, (if 0 <? hint then foldM (fun t c => realloc_cell t a c hint) t2 (seq 0 (ncell t2)) else Some t2)
       = Some (set_dat_rows t2 r3) /\ length lr = ncell t /\ upd (dat_rows t ++ [repeat 0 (ncell t)]) a lr = Some r3 /\
       (hint = 0 -> lr = np)).
    { destruct (Nat.ltb_spec 0 hint) as [Hp|Hp].
      - destruct (hint_loop t2 a (h_npart t)) as [r3 [E3 U3]].
        { cbn. rewrite (upd_nth _ _ _ _ a U1), Nat.eqb_refl. auto. }
        { cbn. apply Sh. }
        exists r3, (repeat hint (ncell t)). split; [exact E3|]. split; [apply repeat_length|]. split; [|lia].
        cbn in U3. rewrite (upd_same _ _ _ _ U1) in U3. exact U3.
      - exists r, np. split; [reflexivity|]. split; [auto|]. split; [|auto]. rewrite <- Hh. exact U1. }
    destruct Ht3 as [r3 [lr [E3 [Llr [U3 Hr3]]]]]. rewrite E3. cbn [obind].
    eexists; split; [reflexivity|]. split; [reflexivity|].
    assert (Oh : forall x, In x (map snd (dats t)) -> nth_error mh x = nth_error (dat_h t) x).
    { intros x Hx. pose proof (Fr x Hx). rewrite (upd_nth_neq _ _ _ _ x Emh) by lia. apply nth_error_app1. auto. }
    assert (Od : forall x, In x (map snd (dats t)) -> nth_error md x = nth_error (dat_d t) x).
    { intros x Hx. pose proof (Fr x Hx). rewrite (upd_nth_neq _ _ _ _ x Emd) by lia. apply nth_error_app1. rewrite (sh_md t Sh). auto. }
    assert (Or : forall x, In x (map snd (dats t)) -> nth_error r3 x = nth_error (dat_rows t) x).
    { intros x Hx. pose proof (Fr x Hx). rewrite (upd_nth_neq _ _ _ _ x U3) by lia. apply nth_error_app1. rewrite (sh_mr t Sh). auto. }
    pose proof (upd_nth_eq _ _ _ _ Emh) as Ah. pose proof (upd_nth_eq _ _ _ _ Emd) as Ad. pose proof (upd_nth_eq _ _ _ _ U3) as Ar.
    constructor; cbn; auto.
    - constructor; cbn; try (apply Sh).
      + rewrite (upd_length _ _ _ _ Emh), (upd_length _ _ _ _ Emd), !app_length, (sh_md t Sh). auto.
      + rewrite (upd_length _ _ _ _ Emh), (upd_length _ _ _ _ U3), !app_length, (sh_mr t Sh). auto.
      + constructor; [auto|apply Sh].
      + constructor; [|apply Sh]. intros Hi. apply Fr in Hi. lia.
      + auto.
      + intros x [<-|Hx]; [exists (h_npart t); split; [auto|apply Sh]|]. rewrite Oh by auto. apply Sh; auto.
      + intros x [<-|Hx]; [exists (h_npart t); split; [auto|apply Sh]|]. rewrite Od by auto. apply Sh; auto.
      + intros x [<-|Hx]; [exists lr; split; auto|]. rewrite Or by auto. apply Sh; auto.
    - intros x Hx. cbn in Hx |- *. destruct Hx as [<-|Hx]; [split; congruence|]. rewrite Oh, Od by auto. apply D; auto.
    - destruct R as [R1 R2]. split.
      + intros H0 x Hx. cbn in Hx |- *. destruct Hx as [<-|Hx]; [rewrite Ar, Hr3; auto|]. rewrite Or by auto. apply R1; auto.
      + intros x Hx. cbn in Hx |- *. destruct Hx as [[= -> <-]|Hx].
        * exists lr. split; auto. intros c. rewrite Hc by auto. lia.
        * assert (Ix : In x (map snd (dats t))) by (change x with (snd (s_cell, x)); apply in_map; auto).
          rewrite Or by auto. apply R2; auto.
    - intros s. rewrite N. tauto.
  Qed.

  Lemma winv_names t np names names' : winv t np names -> (forall s, In s names <-> In s names') -> winv t np names'.
  Proof. intros [Sh L D R N H1 H2 H3 H4 H5] E. constructor; auto. intros s. rewrite N; auto. Qed.

  Lemma add_dat_ok t np names sym : winv t np names ->
    (sym = s_cell -> In s_cell names \/ forall c, nth c np 0 = 0) ->
    exists t', add_particle_dat hint t sym = Some t' /\ ncell t' = ncell t /\ winv t' np (sym :: names).
  Proof.
    intros W Hc. unfold add_particle_dat. destruct (dat_of t sym) as [a|] eqn:E.
    - exists t. split; auto. split; auto. apply (winv_names _ _ names); auto. intros s. split; [right; auto|].
      intros [<-|I]; auto. apply (wi_names _ _ _ W). apply dat_of_in in E; [|apply W].
      change sym with (fst (sym, a)). apply in_map; auto.
    - apply dat_of_none in E. apply add_common_ok; auto. intros Hs. destruct (Hc Hs) as [H|H]; auto.
      exfalso. apply E. apply (wi_names _ _ _ W). congruence.
  Qed.

  Lemma filter_in_map {A} (f : nat -> bool) (l : list (nat * A)) s :
    In s (map fst (filter (fun e => f (fst e)) l)) <-> In s (map fst l) /\ f s = true.
  Proof.
    rewrite !in_map_iff. split.
    - intros [e [<- I]]. apply filter_In in I. destruct I as [I F]. split; [exists e; auto|auto].
    - intros [[e [<- I]] F]. exists e. split; auto. apply filter_In. auto.
  Qed.

  Lemma remove_dat_ok t np names sym : inv t np names -> In sym names -> ~ In sym [s_rank; s_pos; s_cell] ->
    exists t', remove_particle_dat s_rank s_pos s_cell t sym = Some t' /\ ncell t' = ncell t /\
      inv t' np (filter (fun x => negb (x =? sym)) names).
  Proof.
    intros I Hs Hr. apply inv_winv in I. destruct I as [[Sh L D R N Hh Hd Heh Hed Hl] [I1 [I2 I3]]].
    unfold remove_particle_dat.
    assert (exists a, dat_of t sym = Some a) as [a Ea].
    { destruct (dat_of t sym) eqn:E; eauto. apply dat_of_none in E. exfalso. apply E. apply N; auto. }
    rewrite Ea. cbn [obind]. pose proof (proj1 (dat_of_in t sym a Sh) Ea) as Ia.
    assert (Iad : In a (map snd (dats t))) by (change a with (snd (sym, a)); apply in_map; auto).
    cbn [In] in Hr.
    destruct (Nat.eqb_spec sym s_pos); [exfalso; apply Hr; auto|].
    destruct (Nat.eqb_spec sym s_rank); [exfalso; apply Hr; auto|].
    destruct (Nat.eqb_spec sym s_cell); [exfalso; apply Hr; auto|]. change (assert _) with (Some tt). cbn [obind].
    destruct (sh_dh t Sh a Iad) as [lh [Elh _]]. destruct (sh_dd t Sh a Iad) as [ld [Eld _]]. destruct (sh_dr t Sh a Iad) as [lr [Elr _]].
    destruct (upd_some (dat_h t) a []) as [mh Emh]; [eapply nth_error_some_lt; eauto|]. rewrite Emh. cbn [obind].
    destruct (upd_some (dat_d t) a []) as [md Emd]; [eapply nth_error_some_lt; eauto|]. rewrite Emd. cbn [obind].
    destruct (upd_some (dat_rows t) a []) as [mr Emr]; [eapply nth_error_some_lt; eauto|]. rewrite Emr. cbn [obind].
    eexists; split; [reflexivity|]. split; [reflexivity|].
    set (l' := filter (fun e => negb (sym =? fst e)) (dats t)).
    assert (Sub : forall x, In x (map snd l') -> In x (map snd (dats t)) /\ x <> a).
    { intros x Hx. apply in_map_iff in Hx. destruct Hx as [[s y] [<- Hy]]. apply filter_In in Hy. destruct Hy as [Hy Hne].
      cbn in *. split; [change y with (snd (s, y)); apply in_map; auto|]. intros ->.
      assert ((s, a) = (sym, a)); [|injection H as ->; rewrite Nat.eqb_refl in Hne; discriminate].
      pose proof (sh_addr t Sh) as ND. clear - ND Hy Ia. induction (dats t) as [|e l IH]; [destruct Hy|].
      inversion ND as [|? ? Hn ND']; subst. destruct Hy as [->|Hy], Ia as [E|Ia]; auto.
      - exfalso. apply Hn. cbn. change a with (snd (sym, a)). apply in_map; auto.
      - exfalso. apply Hn. subst e. cbn. change a with (snd (s, a)). apply in_map; auto. }
    assert (ND1 : NoDup (map fst l') /\ NoDup (map snd l')).
    { pose proof (sh_names t Sh) as A1. pose proof (sh_addr t Sh) as A2. unfold l'. clear - A1 A2. induction (dats t) as [|e l IH]; [split; constructor|].
      inversion A1 as [|? ? B1 B2]; subst. inversion A2 as [|? ? B3 B4]; subst. destruct (IH B2 B4) as [C1 C2].
      cbn [filter]. destruct (negb (sym =? fst e)); auto. cbn [map]. split; constructor; auto.
      - intros H. apply B1. apply in_map_iff in H. destruct H as [x [Ex Hx]]. apply filter_In in Hx. rewrite <- Ex. apply in_map; apply Hx.
      - intros H. apply B3. apply in_map_iff in H. destruct H as [x [Ex Hx]]. apply filter_In in Hx. rewrite <- Ex. apply in_map; apply Hx. }
    apply inv_winv. split.
    - constructor; cbn; auto.
      + constructor; cbn; try (apply Sh); try apply ND1; auto.
        * rewrite (upd_length _ _ _ _ Emh), (upd_length _ _ _ _ Emd). apply Sh.
        * rewrite (upd_length _ _ _ _ Emh), (upd_length _ _ _ _ Emr). apply Sh.
        * intros x Hx. destruct (Sub x Hx). rewrite (upd_nth_neq _ _ _ _ x Emh) by auto. apply Sh; auto.
        * intros x Hx. destruct (Sub x Hx). rewrite (upd_nth_neq _ _ _ _ x Emd) by auto. apply Sh; auto.
        * intros x Hx. destruct (Sub x Hx). rewrite (upd_nth_neq _ _ _ _ x Emr) by auto. apply Sh; auto.
      + intros x Hx. cbn in *. destruct (Sub x Hx). rewrite (upd_nth_neq _ _ _ _ x Emh), (upd_nth_neq _ _ _ _ x Emd) by auto. apply D; auto.
      + destruct R as [R1 R2]. split.
        * intros H0 x Hx. cbn in *. destruct (Sub x Hx). rewrite (upd_nth_neq _ _ _ _ x Emr) by auto. apply R1; auto.
        * intros x Hx. cbn in *. assert (Ix : In x (map snd l')) by (change x with (snd (s_cell, x)); apply in_map; auto).
          destruct (Sub x Ix). rewrite (upd_nth_neq _ _ _ _ x Emr) by auto. apply R2. apply filter_In in Hx. apply Hx.
      + intros s. unfold l'. rewrite (filter_in_map (fun x => negb (sym =? x))), filter_In, N, (Nat.eqb_sym sym s). tauto.
    - rewrite !filter_In. destruct (Nat.eqb_spec s_rank sym), (Nat.eqb_spec s_pos sym), (Nat.eqb_spec s_cell sym); try congruence. auto.
  Qed.

  (** ** Histories *)
  Lemma step_ok t np names o : inv t np names -> callable [s_rank; s_pos; s_cell] np names o ->
    exists t', step d hint s_rank s_pos s_cell t o = Some t' /\ inv t' (count_step np o) (names_step names o).
  Proof.
    intros I C. destruct o; cbn [step count_step names_step callable] in *.
    - pose proof I as I0. apply inv_winv in I. destruct I as [W [I1 [I2 I3]]].
      destruct (add_dat_ok t np names sym W) as [t' [E [_ W']]]; [auto|]. exists t'. split; auto. apply inv_winv.
      split; auto. cbn; auto.
    - destruct (remove_dat_ok t np names sym I) as [t' [E [_ I']]]; try apply C. exists t'. auto.
    - destruct (clear_ok d hint s_rank s_pos s_cell Ok t np names I) as [t' [E [_ I']]]. exists t'. auto.
    - destruct (add_set_ok d hint s_rank s_pos s_cell Ok t np names cells I C) as [t' [E [_ I']]]. exists t'. auto.
    - destruct (add_device_ok d hint s_rank s_pos s_cell Ok t np names cells I) as [t' [E [_ I']]]. exists t'. auto.
    - destruct (add_device_ok d hint s_rank s_pos s_cell Ok t np names cells I) as [t' [E [_ I']]]. exists t'. auto.
    - destruct (add_group_ok d hint s_rank s_pos s_cell Ok t np names other other_local I) as [t' [E [_ I']]]; try apply C. exists t'. auto.
    - destruct (remove_ok d hint s_rank s_pos s_cell Ok t np names cells layers I C) as [t' [E [_ I']]]. exists t'. auto.
    - destruct (cell_move_ok d hint s_rank s_pos s_cell Ok t np names movers I) as [t' [E [_ I']]]; try apply C. exists t'. auto.
    - destruct (rank_move_ok d hint s_rank s_pos s_cell Ok t np names cells layers recv I) as [t' [E [_ I']]]; try apply C. exists t'. auto.
    - destruct (hybrid_move_ok d hint s_rank s_pos s_cell Ok t np names cells layers recv cells2 layers2 recv2 I) as [t' [E [_ I']]]; try apply C. exists t'. auto.
  Qed.

  Lemma es_zero n : es_of (repeat 0 n) = repeat 0 n.
  Proof.
    apply nth_error_ext. intros i. unfold es_of. rewrite nth_error_map_seq, repeat_length.
    destruct (Nat.ltb_spec i n) as [H|H].
    - rewrite nth_error_repeat by auto. f_equal.
      assert (G : forall k m, list_sum (firstn k (repeat 0 m)) = 0).
      { induction k; intros [|m]; cbn [repeat firstn]; auto. apply (IHk m). }
      apply G.
    - symmetry. apply nth_error_None. rewrite repeat_length; auto.
  Qed.

  Lemma nth_zero n c : nth c (repeat 0 n) 0 = 0.
  Proof. revert c; induction n; intros [|c]; cbn; auto. Qed.

  Lemma setup_ok nc syms : In s_pos syms -> In s_cell syms ->
    exists t, setup_internal d hint s_rank nc syms = Some t /\ inv t (repeat 0 nc) (rev syms ++ [s_rank]).
  Proof.
    intros Hp Hc. unfold setup_internal.
    assert (Lf : forall k, length (fresh d k nc) = nc) by (intros; unfold fresh; rewrite map_length, seq_length; auto).
    cbn [h_npart h_es]. rewrite !zero_table_eq by auto. cbn [obind].
    unfold group_host_to_device. cbn [ncell h_npart d_npart set_group].
    rewrite copy_table_eq by (auto; apply repeat_length). cbn [obind set_group].
    rewrite copy_table_eq by (cbn; auto; apply repeat_length). cbn [obind].
    match goal with |- context [add_particle_dat hint ?x s_rank] => set (t0 := x) end.
    assert (W0 : winv t0 (repeat 0 nc) []).
    { constructor; cbn; auto; try (rewrite es_zero; auto); try apply repeat_length.
      - constructor; cbn; try apply repeat_length; auto; try constructor; intros a [].
      - intros a [].
      - split; [intros _ a []|intros a []].
      - tauto.
      - clear. induction nc; cbn; auto. }
    destruct (add_dat_ok t0 _ _ s_rank W0) as [t1 [E1 [_ W1]]]; [intros; right; apply nth_zero|]. rewrite E1. cbn [obind].
    assert (G : forall l t names, winv t (repeat 0 nc) names ->
      exists t', foldM (add_particle_dat hint) t l = Some t' /\ winv t' (repeat 0 nc) (rev l ++ names)).
    { induction l as [|s l IH]; intros t names W; [exists t; auto|]. cbn [foldM].
      destruct (add_dat_ok t _ _ s W) as [t' [E [_ W']]]; [intros; right; apply nth_zero|]. rewrite E. cbn [obind].
      destruct (IH t' _ W') as [t2 [E2 W2]]. exists t2. split; auto. cbn [rev]. rewrite <- app_assoc. exact W2. }
    destruct (G syms t1 [s_rank] W1) as [t [E W]]. exists t. split; auto. apply inv_winv. split; auto.
    rewrite !in_app_iff, <- !in_rev. cbn. auto.
  Qed.

  Lemma inv_agree t np names : inv t np names -> tables_agree np names t.
  Proof.
    intros I. apply inv_winv in I. destruct I as [[Sh L D R N Hh Hd Heh Hed Hl] _].
    split; [exact Hl|]. split; [intros c; unfold get_npart_cell, rd; rewrite Hh; auto|].
    split; [rewrite Hd; auto|]. split.
    { intros c Hc. rewrite Heh, Hed. unfold es_of. rewrite nth_error_map_seq.
      destruct (Nat.ltb_spec c (length np)); [auto|lia]. }
    split.
    - intros s. unfold has_dat. rewrite <- N. rewrite dat_of_none.
      destruct (in_dec Nat.eq_dec s (map fst (dats t))); tauto.
    - intros s c Hs. apply N in Hs. apply in_map_iff in Hs. destruct Hs as [[x a] [Ex Ia]]. cbn in Ex. subst x.
      pose proof (proj2 (dat_of_in t s a Sh) Ia) as Ea. assert (Iad : In a (map snd (dats t))) by (change a with (snd (s, a)); apply in_map; auto).
      unfold dat_npart_host, dat_npart_device. rewrite Ea. cbn [obind]. unfold rd2, rd.
      destruct (D a Iad) as [-> ->]. auto.
  Qed.

  Lemma history_ok ops : forall t np names, inv t np names -> callable_all [s_rank; s_pos; s_cell] np names ops ->
    exists t', foldM (step d hint s_rank s_pos s_cell) t ops = Some t' /\
      inv t' (fold_left count_step ops np) (fold_left names_step ops names).
  Proof.
    induction ops as [|o ops IH]; intros t np names I C; [exists t; auto|]. destruct C as [C1 C2].
    destruct (step_ok t np names o I C1) as [t1 [E1 I1]]. cbn [foldM fold_left]. rewrite E1. cbn [obind]. apply IH; auto.
  Qed.

  Lemma run_ok nc syms ops : In s_pos syms -> In s_cell syms ->
    callable_all [s_rank; s_pos; s_cell] (repeat 0 nc) (rev syms ++ [s_rank]) ops ->
    exists t, run d hint s_rank s_pos s_cell nc syms ops = Some t /\
      inv t (fold_left count_step ops (repeat 0 nc)) (fold_left names_step ops (rev syms ++ [s_rank])).
  Proof.
    intros Hp Hc C. unfold run. destruct (setup_ok nc syms Hp Hc) as [t0 [E0 I0]]. rewrite E0. cbn [obind].
    apply history_ok; auto.
  Qed.
End History.
