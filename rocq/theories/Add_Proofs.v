From Coq Require Import List Arith Lia ZArith Permutation Bool.
Import ListNotations.
From Verif Require Import Base Kernel Group_Model Group_Spec Compress_Proofs Group_Proofs Append_Proofs
  Move_Model Add_Model Add_Spec.

(** ** Properties and components *)
Lemma comp_offset_psum sp i : comp_offset sp i = psum (map snd sp) i.
Proof. reflexivity. Qed.

Lemma comp_offset_firstn sp i : comp_offset sp i = list_sum (map snd (firstn i sp)).
Proof. unfold comp_offset. rewrite firstn_map. auto. Qed.

Lemma comp_offset_le sp i nm nc : nth_error sp i = Some (nm, nc) -> comp_offset sp i + nc <= list_sum (map snd sp).
Proof.
  intros E. rewrite comp_offset_psum, <- psum_all, map_length.
  apply psum_lt; [rewrite nth_error_map, E; auto|eapply nth_error_some_lt; eauto].
Qed.

Lemma find_comp sp f : f < list_sum (map snd sp) -> exists i nm nc cx,
  nth_error sp i = Some (nm, nc) /\ cx < nc /\ f = comp_offset sp i + cx.
Proof.
  intros H. rewrite <- psum_all in H. destruct (psum_find _ _ _ (le_n _) H) as [i [nc [cx [H1 [E [H2 H3]]]]]].
  rewrite nth_error_map in E. destruct (nth_error sp i) as [[nm nc']|] eqn:E'; [|discriminate].
  cbn in E. injection E as ->. exists i, nm, nc, cx. auto.
Qed.

(** Position of a component. *)
Fixpoint decode (sp : pspec) (f : nat) : option (nat * nat) :=
  match sp with
  | [] => None
  | (_, nc) :: sp' => if f <? nc then Some (0, f)
                      else option_map (fun q => (S (fst q), snd q)) (decode sp' (f - nc))
  end.
Lemma decode_offset sp : forall i nm nc cx, nth_error sp i = Some (nm, nc) -> cx < nc ->
  decode sp (comp_offset sp i + cx) = Some (i, cx).
Proof.
  induction sp as [|[s m] sp IH]; intros [|i] nm nc cx E H; try discriminate; cbn [nth_error] in E.
  - injection E as -> ->. cbn [comp_offset map firstn list_sum fold_right decode].
    unfold comp_offset. cbn [firstn list_sum fold_right]. destruct (Nat.ltb_spec (0 + cx) nc); [auto|lia].
  - unfold comp_offset. cbn [map firstn snd]. change (list_sum (?a :: ?l)) with (a + list_sum l). cbn [decode].
    destruct (Nat.ltb_spec (m + list_sum (firstn i (map snd sp)) + cx) m); [lia|].
    replace (m + list_sum (firstn i (map snd sp)) + cx - m) with (comp_offset sp i + cx) by (unfold comp_offset; lia).
    rewrite (IH _ _ _ _ E H). auto.
Qed.

Lemma find_sym_some sym sp j : find_sym sym sp = Some j -> exists nc, nth_error sp j = Some (sym, nc).
Proof.
  revert j; induction sp as [|[s m] sp IH]; intros j; cbn [find_sym]; [discriminate|].
  destruct (Nat.eqb_spec sym s) as [->|]; [intros [= <-]; exists m; auto|].
  destruct (find_sym sym sp) as [k|]; [|discriminate]. intros [= <-]. apply IH; auto.
Qed.

Lemma flat_nth {V} (sp : pspec) (g : nat * nat -> list V) i e cx :
  (forall e, length (g e) = snd e) -> nth_error sp i = Some e -> cx < snd e ->
  nth_error (flat_map g sp) (comp_offset sp i + cx) = nth_error (g e) cx.
Proof.
  intros L E H. rewrite <- (nth_error_flat_map g sp i e cx E) by (rewrite L; auto).
  f_equal. f_equal. unfold comp_offset. f_equal. f_equal. apply map_ext. intros; auto.
Qed.

Lemma flat_len {V} (sp : pspec) (g : nat * nat -> list V) :
  (forall e, length (g e) = snd e) -> length (flat_map g sp) = list_sum (map snd sp).
Proof. intros L. rewrite flat_map_len. f_equal. apply map_ext. auto. Qed.

Lemma nth_error_repeat' {V} (x : V) n k : k < n -> nth_error (repeat x n) k = Some x.
Proof. revert k; induction n; intros [|k] H; cbn; try lia; auto. apply IHn; lia. Qed.

(** ** A kernel of (property, entry) work items *)
Section Props.
  Context {A V : Type}.
  Context (u : nat -> nat -> nat -> V) (np np' : list nat) (D : list (list (list V))) (sp : pspec).
  Context (E : nat -> list A) (new : A -> list V) (cellof layof : A -> nat) (active : A -> bool).

  Definition kitem (vals : nat -> A -> list (list (list V)) -> nat -> option V)
      (m : list (list (list V))) (w : nat * A) : option (list (list (list V))) :=
    if active (snd w) then write_dat sp (fst w) (cellof (snd w)) (layof (snd w)) (vals (fst w) (snd w)) m
    else Some m.

  Lemma append_props vals items :
    (forall col, In col D -> wf_comp np col) ->
    (forall c n, nth_error np c = Some n -> nth_error np' c = Some (n + length (E c))) ->
    length np' = length np -> spec_of sp D ->
    (forall a, length (new a) = length D) ->
    (forall c k a, nth_error (E c) k = Some a -> active a = true /\ cellof a = c /\
                  exists n, nth_error np c = Some n /\ layof a = n + k) ->
    (forall m i a nm nc cx, old_rows np D m -> In (i, a) items -> active a = true ->
       nth_error sp i = Some (nm, nc) -> cx < nc ->
       vals i a m cx = nth_error (new a) (comp_offset sp i + cx)) ->
    (forall i a, In (i, a) items -> i < length sp /\
       (active a = true -> exists k, nth_error (E (cellof a)) k = Some a)) ->
    (forall i c a, i < length sp -> c < length np -> In a (E c) -> In (i, a) items) ->
    exists D1, foldM (kitem vals) (realloc_rows u np' D) items = Some D1 /\
      length D1 = length D /\ (forall col, In col D1 -> wf_comp np' col) /\ old_rows np D D1 /\
      (forall f c n k a, f < length D -> nth_error np c = Some n -> nth_error (E c) k = Some a ->
         rd3 D1 f c (n + k) = nth_error (new a) f).
  Proof.
    intros WF Hnp Lnp Hsp Hnew HE Hv Hin Hall.
    set (step := fun m (w : nat * A) =>
      if active (snd w) then
        match decode sp (fst w) with
        | Some (i, cx) => v <- vals i (snd w) m cx ;; upd3 m (fst w) (cellof (snd w)) (layof (snd w)) v
        | None => None
        end
      else Some m).
    set (nc := fun i => match nth_error sp i with Some e => snd e | None => 0 end).
    set (blk := fun w : nat * A => map (fun cx => (comp_offset sp (fst w) + cx, snd w)) (seq 0 (nc (fst w)))).
    assert (Ek : foldM (kitem vals) (realloc_rows u np' D) items =
                 foldM step (realloc_rows u np' D) (flat_map blk items)).
    { rewrite <- foldM_flat. apply foldM_ext_in. intros m [i a] Hw. unfold kitem. cbn [fst snd].
      destruct (Hin _ _ Hw) as [Hi _]. destruct (nth_error_lt_some sp i Hi) as [[nm k] Ei].
      unfold blk. cbn [fst snd]. replace (nc i) with k by (unfold nc; rewrite Ei; auto).
      rewrite foldM_map. destruct (active a) eqn:Ea.
      - unfold write_dat, rd. rewrite nth_error_map, Ei. cbn [option_map snd obind].
        apply foldM_ext_in. intros m' cx Hcx. apply in_seq in Hcx. unfold step. cbn [fst snd].
        rewrite Ea, (decode_offset _ _ _ _ _ Ei) by lia. auto.
      - unfold step. cbn [fst snd]. rewrite Ea. generalize (seq 0 k). induction l; cbn; auto. }
    rewrite Ek.
    assert (Hb : forall f a, In (f, a) (flat_map blk items) -> exists i nm k cx,
              In (i, a) items /\ nth_error sp i = Some (nm, k) /\ cx < k /\ f = comp_offset sp i + cx).
    { intros f a Hf. apply in_flat_map in Hf. destruct Hf as [[i a'] [Hw Hf]].
      unfold blk in Hf. apply in_map_iff in Hf. cbn [fst snd] in Hf. destruct Hf as [cx [[= <- <-] Hcx]].
      destruct (Hin _ _ Hw) as [Hi _]. destruct (nth_error_lt_some sp i Hi) as [[nm k] Ei].
      apply in_seq in Hcx. unfold nc in Hcx. rewrite Ei in Hcx. cbn in Hcx.
      exists i, nm, k, cx. repeat split; auto; lia. }
    apply (append_store u np np' D E new cellof layof active); auto.
    - intros m f a Sm Om Hf. destruct (Hb _ _ Hf) as [i [nm [k [cx [Hw [Ei [Hcx ->]]]]]]].
      destruct (nth_error (new a) (comp_offset sp i + cx)) as [v|] eqn:Ev.
      + exists v. split; [auto|]. unfold step. cbn [fst snd]. destruct (active a) eqn:Ea; auto.
        rewrite (decode_offset _ _ _ _ _ Ei) by lia. rewrite (Hv m i a nm k cx), Ev; auto.
      + exfalso. apply nth_error_None in Ev. rewrite Hnew, <- Hsp in Ev.
        pose proof (comp_offset_le _ _ _ _ Ei). lia.
    - intros f a Hf. destruct (Hb _ _ Hf) as [i [nm [k [cx [Hw [Ei [Hcx ->]]]]]]].
      split; [rewrite <- Hsp; pose proof (comp_offset_le _ _ _ _ Ei); lia|]. apply (Hin _ _ Hw).
    - intros f c a Hf Hc Ha. rewrite <- Hsp in Hf. destruct (find_comp _ _ Hf) as [i [nm [k [cx [Ei [Hcx ->]]]]]].
      apply in_flat_map. exists (i, a). split.
      + apply (Hall i c a); auto. eapply nth_error_some_lt; eauto.
      + unfold blk. apply in_map_iff. exists cx. cbn [fst snd]. split; auto. apply in_seq.
        unfold nc. rewrite Ei. cbn. lia.
  Qed.
End Props.

(** ** get_new_layers *)
Lemma valid_cell_spec n z : valid_cell n z = true <-> (0 <= z < Z.of_nat n)%Z.
Proof. unfold valid_cell. rewrite andb_true_iff, Z.leb_le, Z.ltb_lt. tauto. Qed.

Definition asks (cells : list Z) (c i : nat) : bool :=
  match nth_error cells i with Some z => (z =? Z.of_nat c)%Z | None => false end.

Lemma entries_of_asks cells c : entries_of cells c = filter (asks cells c) (seq 0 (length cells)).
Proof. reflexivity. Qed.

Lemma in_entries cells c i : In i (entries_of cells c) <-> nth_error cells i = Some (Z.of_nat c).
Proof.
  rewrite entries_of_asks, filter_In, in_seq. unfold asks. split.
  - intros [_ H]. destruct (nth_error cells i); [|discriminate]. apply Z.eqb_eq in H. subst; auto.
  - intros H. rewrite H, Z.eqb_refl. pose proof (nth_error_some_lt _ _ _ H). split; [lia|auto].
Qed.

Definition nl_inv (np : list nat) (cells layers0 : list Z) (pre : list nat) (s : list nat * list Z) : Prop :=
  length (fst s) = length np /\ length (snd s) = length layers0 /\
  (forall c n, nth_error np c = Some n -> nth_error (fst s) c = Some (n + length (filter (asks cells c) pre))) /\
  (forall c n k i, nth_error np c = Some n -> nth_error (filter (asks cells c) pre) k = Some i ->
     nth_error (snd s) i = Some (Z.of_nat (n + k))) /\
  (forall i z, In i pre -> nth_error cells i = Some z -> valid_cell (length np) z = false ->
     nth_error (snd s) i = Some (-1)%Z).

Lemma new_layers_fold np cells layers0 sched : NoDup sched -> (forall i, In i sched -> i < length cells) ->
  length layers0 = length cells ->
  exists s, foldM (new_layer_item cells) (np, layers0) sched = Some s /\ nl_inv np cells layers0 sched s.
Proof.
  intros ND Hin L0. apply foldM_ind.
  - unfold nl_inv. cbn [fst snd filter length]. split; [auto|]. split; [auto|]. split; [intros; rewrite Nat.add_0_r; auto|].
    split; [intros c n [|k] i _; discriminate|]. intros i z [].
  - intros pre i post [b t] Es [I1 [I2 [I3 [I4 I5]]]]. cbn [fst snd] in *.
    assert (Hi : In i sched) by (rewrite Es; apply in_or_app; right; left; auto).
    assert (Hni : ~ In i pre).
    { rewrite Es in ND. apply NoDup_remove_2 in ND. intros C; apply ND, in_or_app; auto. }
    assert (Hne : forall c k j, nth_error (filter (asks cells c) pre) k = Some j -> j <> i).
    { intros c k j H ->. apply nth_error_In in H. apply filter_In in H. tauto. }
    destruct (nth_error_lt_some cells i (Hin i Hi)) as [z Ez].
    assert (Lt : i < length t) by (rewrite I2, L0; auto).
    unfold new_layer_item, rd at 1. rewrite Ez. cbn [obind fst snd]. rewrite I1.
    destruct (valid_cell (length np) z) eqn:Ev.
    + apply valid_cell_spec in Ev. set (c := Z.to_nat z).
      assert (Hc : c < length np) by lia. destruct (nth_error_lt_some np c Hc) as [n En].
      assert (As : forall c', asks cells c' i = (c' =? c)).
      { intros c'. unfold asks. rewrite Ez. destruct (Nat.eqb_spec c' c); [apply Z.eqb_eq|apply Z.eqb_neq]; lia. }
      unfold rd. rewrite (I3 _ _ En). cbn [obind].
      destruct (upd_some b c (n + length (filter (asks cells c) pre) + 1)) as [b' Eb]; [lia|].
      rewrite Eb. cbn [obind].
      destruct (upd_some t i (Z.of_nat (n + length (filter (asks cells c) pre)))) as [t' Et]; [auto|].
      rewrite Et. cbn [obind]. eexists; split; [reflexivity|]. unfold nl_inv. cbn [fst snd].
      split; [rewrite (upd_length _ _ _ _ Eb); auto|]. split; [rewrite (upd_length _ _ _ _ Et); auto|].
      split; [|split].
      * intros c' n' En'. rewrite (upd_nth _ _ _ _ _ Eb), filter_app, app_length. cbn [filter]. rewrite As.
        destruct (Nat.eqb_spec c' c) as [->|]; cbn [length].
        -- rewrite En in En'. injection En' as <-. f_equal. lia.
        -- rewrite Nat.add_0_r. auto.
      * intros c' n' k j En'. rewrite filter_app. cbn [filter]. rewrite As.
        destruct (Nat.eqb_spec c' c) as [->|Nc].
        -- rewrite En in En'. injection En' as <-. intros Hk.
           destruct (lt_dec k (length (filter (asks cells c) pre))) as [K|K].
           ++ rewrite nth_error_app1 in Hk by auto. rewrite (upd_nth_neq _ _ _ _ _ Et) by (eapply Hne; eauto).
              eapply I4; eauto.
           ++ rewrite nth_error_app2 in Hk by lia.
              destruct (k - length (filter (asks cells c) pre)) as [|k'] eqn:Ek; [|destruct k'; discriminate].
              cbn in Hk. injection Hk as <-. rewrite (upd_nth_eq _ _ _ _ Et). f_equal. lia.
        -- rewrite app_nil_r. intros Hk. rewrite (upd_nth_neq _ _ _ _ _ Et) by (eapply Hne; eauto). eapply I4; eauto.
      * intros j zj Hj Ej Vj. apply in_app_or in Hj. destruct Hj as [Hj|[<-|[]]].
        -- rewrite (upd_nth_neq _ _ _ _ _ Et) by congruence. eapply I5; eauto.
        -- rewrite Ez in Ej. injection Ej as <-. apply valid_cell_spec in Ev. congruence.
    + destruct (upd_some t i (-1)%Z) as [t' Et]; [auto|].
      assert (As : forall c' n', nth_error np c' = Some n' -> asks cells c' i = false).
      { intros c' n' En'. unfold asks. rewrite Ez. apply Z.eqb_neq. intros ->.
        assert (valid_cell (length np) (Z.of_nat c') = true); [|congruence].
        apply valid_cell_spec. pose proof (nth_error_some_lt _ _ _ En'). lia. }
      rewrite Et. cbn [obind]. eexists; split; [reflexivity|]. unfold nl_inv. cbn [fst snd].
      split; [auto|]. split; [rewrite (upd_length _ _ _ _ Et); auto|]. split; [|split].
      * intros c' n' En'. rewrite filter_app. cbn [filter]. rewrite (As _ _ En'), app_nil_r. auto.
      * intros c' n' k j En'. rewrite filter_app. cbn [filter]. rewrite (As _ _ En'), app_nil_r. intros Hk.
        rewrite (upd_nth_neq _ _ _ _ _ Et) by (eapply Hne; eauto). eapply I4; eauto.
      * intros j zj Hj Ej Vj. apply in_app_or in Hj. destruct Hj as [Hj|[<-|[]]].
        -- rewrite (upd_nth_neq _ _ _ _ _ Et) by congruence. eapply I5; eauto.
        -- apply (upd_nth_eq _ _ _ _ Et).
Qed.

(** The order in which the kernel served the requests of a cell. *)
Definition layer_order (d : device) (cells : list Z) (c : nat) : list nat :=
  filter (asks cells c) (ord d 200 (seq 0 (length cells))).

Lemma filter_perm {A} (p : A -> bool) l l' : Permutation l l' -> Permutation (filter p l) (filter p l').
Proof.
  induction 1; cbn; auto.
  - destruct (p x); auto.
  - destruct (p x), (p y); auto. apply perm_swap.
  - etransitivity; eauto.
Qed.

Lemma layer_order_perm d cells c : device_ok d -> Permutation (layer_order d cells c) (entries_of cells c).
Proof. intros [P _]. apply filter_perm. apply P. Qed.

Lemma get_new_layers_inv d np cells layers0 : device_ok d -> length layers0 = length cells ->
  exists np' layers, get_new_layers d np cells layers0 = Some (np', layers) /\
    length np' = length np /\ length layers = length cells /\
    (forall i z, nth_error cells i = Some z -> valid_cell (length np) z = false -> nth_error layers i = Some (-1)%Z) /\
    (forall c n, nth_error np c = Some n -> nth_error np' c = Some (n + length (layer_order d cells c)) /\
       forall k i, nth_error (layer_order d cells c) k = Some i -> nth_error layers i = Some (Z.of_nat (n + k))).
Proof.
  intros Ok L0. unfold get_new_layers.
  assert (ND : NoDup (ord d 200 (seq 0 (length cells)))).
  { eapply Permutation_NoDup; [symmetry; apply Ok|apply seq_NoDup]. }
  destruct (new_layers_fold np cells layers0 (ord d 200 (seq 0 (length cells)))) as [[np' layers] [E [I1 [I2 [I3 [I4 I5]]]]]]; auto.
  { intros i Hi. apply (proj1 (in_ord d 200 _ _ Ok)) in Hi. apply in_seq in Hi. lia. }
  cbn [fst snd] in *.
  assert (Er : (if 0 <? length cells then foldM (new_layer_item cells) (np, layers0) (ord d 200 (seq 0 (length cells)))
                else Some (np, layers0)) = Some (np', layers)).
  { destruct (Nat.ltb_spec 0 (length cells)); auto.
    assert (length cells = 0) as Z0 by lia. rewrite Z0 in E. cbn [seq] in E.
    assert (ord d 200 (@nil nat) = []) as En. { apply Permutation_nil. symmetry. apply Ok. }
    rewrite En in E. exact E. }
  exists np', layers. split; [exact Er|]. split; [auto|]. split; [congruence|]. split.
  - intros i z Ez Hv. eapply I5; eauto. apply (proj2 (in_ord d 200 _ _ Ok)). apply in_seq.
    pose proof (nth_error_some_lt _ _ _ Ez). lia.
  - intros c n En. split; [apply I3; auto|]. intros k i Hk. eapply I4; eauto.
Qed.

Lemma get_new_layers_correct d np cells layers0 : device_ok d -> length layers0 = length cells ->
  exists np' layers, get_new_layers d np cells layers0 = Some (np', layers) /\
    next_free_layers np cells np' layers.
Proof.
  intros Ok L0. destruct (get_new_layers_inv d np cells layers0 Ok L0) as [np' [layers [E [L1 [L2 [HI HV]]]]]].
  exists np', layers. split; [auto|]. split; [auto|]. split; [auto|]. split.
  - intros i z Ez Hv. eapply HI; eauto. destruct (valid_cell (length np) z) eqn:Ev; auto.
    apply valid_cell_spec in Ev. tauto.
  - intros c n En. destruct (HV c n En) as [H1 H2]. exists (layer_order d cells c).
    split; [apply layer_order_perm; auto|]. split; auto.
Qed.

(** ** add_particles_local(ParticleSet) *)
Lemma entries_of_app cells z c : entries_of (cells ++ [z]) c =
  entries_of cells c ++ (if (z =? Z.of_nat c)%Z then [length cells] else []).
Proof.
  unfold entries_of. rewrite app_length, seq_app, filter_app. f_equal.
  - apply filter_ext_in. intros i Hi. apply in_seq in Hi. rewrite nth_error_app1 by lia. auto.
  - cbn [length seq filter]. rewrite Nat.add_0_l, nth_error_app2, Nat.sub_diag by lia. cbn [nth_error].
    destruct (z =? Z.of_nat c)%Z; auto.
Qed.

Lemma host_layers np cellids : (forall z, In z cellids -> (0 <= z < Z.of_nat (length np))%Z) ->
  exists np' layers, foldM host_layer_item (np, []) cellids = Some (np', layers) /\
    length np' = length np /\ length layers = length cellids /\
    (forall c n, nth_error np c = Some n -> nth_error np' c = Some (n + length (entries_of cellids c))) /\
    (forall c n k i, nth_error np c = Some n -> nth_error (entries_of cellids c) k = Some i ->
       nth_error layers i = Some (n + k)).
Proof.
  intros Hv.
  destruct (foldM_ind host_layer_item (fun (pre : list Z) (s : list nat * list nat) =>
    length (fst s) = length np /\ length (snd s) = length pre /\
    (forall c n, nth_error np c = Some n -> nth_error (fst s) c = Some (n + length (entries_of pre c))) /\
    (forall c n k i, nth_error np c = Some n -> nth_error (entries_of pre c) k = Some i ->
       nth_error (snd s) i = Some (n + k))) cellids (np, [])) as [[np' layers] [E H]].
  - cbn [fst snd]. split; [auto|]. split; [auto|]. split; [intros; cbn; rewrite Nat.add_0_r; auto|].
    intros c n [|k] i _; discriminate.
  - intros pre z post [b t] Es [I1 [I2 [I3 I4]]]. cbn [fst snd] in *.
    assert (Hz : (0 <= z < Z.of_nat (length np))%Z) by (apply Hv; rewrite Es; apply in_or_app; right; left; auto).
    unfold host_layer_item. cbn [fst snd]. rewrite I1.
    rewrite (proj2 (valid_cell_spec _ _) Hz). cbn [assert obind].
    set (c := Z.to_nat z). assert (Hc : c < length np) by lia.
    destruct (nth_error_lt_some np c Hc) as [n En]. unfold rd. rewrite (I3 _ _ En). cbn [obind].
    destruct (upd_some b c (n + length (entries_of pre c) + 1)) as [b' Eb]; [lia|]. rewrite Eb. cbn [obind].
    eexists; split; [reflexivity|]. cbn [fst snd].
    assert (As : forall c', (z =? Z.of_nat c')%Z = (c' =? c)).
    { intros c'. destruct (Nat.eqb_spec c' c); [apply Z.eqb_eq|apply Z.eqb_neq]; lia. }
    split; [rewrite (upd_length _ _ _ _ Eb); auto|]. split; [rewrite !app_length; cbn; lia|]. split.
    + intros c' n' En'. rewrite (upd_nth _ _ _ _ _ Eb), entries_of_app, As, app_length.
      destruct (Nat.eqb_spec c' c) as [->|]; cbn [length].
      * rewrite En in En'. injection En' as <-. f_equal; lia.
      * rewrite Nat.add_0_r. auto.
    + intros c' n' k i En'. rewrite entries_of_app, As. intros Hk.
      destruct (lt_dec k (length (entries_of pre c'))) as [K|K].
      * rewrite nth_error_app1 in Hk by auto. pose proof (I4 _ _ _ _ En' Hk) as Q.
        rewrite nth_error_app1; auto. eapply nth_error_some_lt; eauto.
      * rewrite nth_error_app2 in Hk by lia. destruct (Nat.eqb_spec c' c) as [->|]; [|destruct (k - length (entries_of pre c')); discriminate].
        destruct (k - length (entries_of pre c)) as [|k'] eqn:Ek; [|destruct k'; discriminate].
        cbn in Hk. injection Hk as <-. rewrite <- I2, nth_error_app2, Nat.sub_diag by lia. cbn.
        rewrite En in En'. injection En' as <-. f_equal. lia.
  - cbn [fst snd] in H. exists np', layers. tauto.
Qed.

Lemma host_layers_bad (np : list nat) cellids z : In z cellids -> ~ (0 <= z < Z.of_nat (length np))%Z ->
  forall s : list nat * list nat, length (fst s) = length np -> foldM host_layer_item s cellids = None.
Proof.
  intros Hi Hv. induction cellids as [|y l IH]; [destruct Hi|]. intros s L. cbn [foldM].
  unfold host_layer_item at 1. destruct (valid_cell (length (fst s)) y) eqn:Ev; cbn [assert obind]; auto.
  unfold rd. destruct (nth_error (fst s) (Z.to_nat y)) as [n|]; cbn [obind]; auto.
  destruct (upd (fst s) (Z.to_nat y) (n + 1)) as [b|] eqn:Eb; cbn [obind]; auto.
  apply IH; [|cbn [fst]; rewrite (upd_length _ _ _ _ Eb); auto].
  destruct Hi as [->|]; auto. apply valid_cell_spec in Ev. rewrite L in Ev. tauto.
Qed.

Lemma test_data_ok {V} sp (set : pset V) n : 0 < n -> set_ok sp set n -> test_data sp set n = Some tt.
Proof.
  intros Hn Hs. unfold test_data. assert (forall l s, (forall e, In e l -> In e sp) ->
    foldM (fun _ e => match pset_get set (fst e) with Some data => assert (snd e =? length data / n) | None => Some tt end) s l = Some tt) as G; [|auto].
  induction l as [|[sym nc] l IH]; intros [] Hl; cbn [foldM fst snd]; auto.
  destruct (pset_get set sym) as [data|] eqn:E; cbn [obind].
  - rewrite (Hs sym nc data); auto; [|apply Hl; left; auto]. rewrite Nat.div_mul, Nat.eqb_refl by lia. cbn [assert obind].
    apply IH. intros; apply Hl; right; auto.
  - apply IH. intros; apply Hl; right; auto.
Qed.

Definition stage_inv {V} (sp : pspec) (set : pset V) (n : nat) (pre : list nat)
    (s : list V * list (nat * nat) * list nat) : Prop :=
  let '(buf, copies, zeros) := s in
  (forall i, In i pre -> In i (map fst copies) \/ In i zeros) /\
  (forall i off, In (i, off) copies -> In i pre /\ exists sym nc data, nth_error sp i = Some (sym, nc) /\
     pset_get set sym = Some data /\
     forall q, q < nc * n -> nth_error buf (off + q) = nth_error data q /\ q < length data) /\
  (forall i, In i zeros -> In i pre /\ exists sym nc, nth_error sp i = Some (sym, nc) /\ pset_get set sym = None).

Lemma stage_correct {V} sp (set : pset V) n : set_ok sp set n ->
  exists s, stage sp set n = Some s /\ stage_inv sp set n (seq 0 (length sp)) s.
Proof.
  intros Hs. unfold stage. apply foldM_ind.
  - cbn. repeat split; tauto.
  - intros pre i post [[buf copies] zeros] Es [I1 [I2 I3]].
    assert (Hi : i < length sp).
    { assert (In i (seq 0 (length sp))) as H by (rewrite Es; apply in_or_app; right; left; auto). apply in_seq in H; lia. }
    destruct (nth_error_lt_some sp i Hi) as [[sym nc] Ei].
    unfold stage_item, rd. rewrite Ei. cbn [obind fst snd].
    destruct (pset_get set sym) as [data|] eqn:Ed.
    + pose proof (Hs sym nc data (nth_error_In _ _ Ei) Ed) as Ld.
      assert (Sl : slice data 0 (nc * n) = Some data).
      { rewrite slice_some by lia. cbn [skipn]. rewrite Nat.sub_0_r, <- Ld, firstn_all. auto. }
      rewrite Sl. cbn [obind]. eexists; split; [reflexivity|]. cbn [stage_inv]. split; [|split].
      * intros j Hj. apply in_app_or in Hj. rewrite map_app. destruct Hj as [Hj|[<-|[]]].
        -- destruct (I1 j Hj); [left; apply in_or_app; auto|right; auto].
        -- left. apply in_or_app. right. left. auto.
      * intros j off Hj. apply in_app_or in Hj. destruct Hj as [Hj|[[= <- <-]|[]]].
        -- destruct (I2 j off Hj) as [H1 [sy [m [dt [E1 [E2 H2]]]]]].
           split; [apply in_or_app; auto|]. exists sy, m, dt. split; [auto|]. split; [auto|].
           intros q Hq. destruct (H2 q Hq) as [H3 H4]. split; auto. rewrite nth_error_app1; auto.
           destruct (nth_error_lt_some dt q H4) as [v Ev]. rewrite Ev in H3. eapply nth_error_some_lt; eauto.
        -- split; [apply in_or_app; right; left; auto|]. exists sym, nc, data. split; [auto|]. split; [auto|].
           intros q Hq. split; [|lia]. rewrite nth_error_app2 by lia. f_equal. lia.
      * intros j Hj. destruct (I3 j Hj) as [H1 H2]. split; auto. apply in_or_app; auto.
    + eexists; split; [reflexivity|]. cbn [stage_inv]. split; [|split].
      * intros j Hj. apply in_app_or in Hj. destruct Hj as [Hj|[<-|[]]].
        -- destruct (I1 j Hj); [left; auto|right; apply in_or_app; auto].
        -- right. apply in_or_app. right. left. auto.
      * intros j off Hj. destruct (I2 j off Hj) as [H1 H2]. split; auto. apply in_or_app; auto.
      * intros j Hj. apply in_app_or in Hj. destruct Hj as [Hj|[<-|[]]].
        -- destruct (I3 j Hj) as [H1 H2]. split; auto. apply in_or_app; auto.
        -- split; [apply in_or_app; right; left; auto|]. eauto.
Qed.

Lemma set_values_len {V} (zero : V) sp (set : pset V) n p : length (set_values zero sp set n p) = list_sum (map snd sp).
Proof.
  apply flat_len. intros [sym nc]. cbn [fst snd]. destruct (pset_get set sym).
  - rewrite map_length, seq_length. auto.
  - apply repeat_length.
Qed.

Section SetWrite.
  Context {V : Type} (d : device) (Ok : device_ok d) (zero : V) (sp : pspec) (set : pset V) (n k : nat).
  Context (u : nat -> nat -> nat -> V) (np np' : list nat) (D : list (list (list V))).
  Context (ids : list Z) (cells layers : list nat).

  Lemma set_write_correct s :
    (forall col, In col D -> wf_comp np col) -> spec_of sp D -> set_ok sp set n ->
    stage_inv sp set n (seq 0 (length sp)) s ->
    length ids = n -> cells = map Z.to_nat ids -> length layers = n ->
    (forall z, In z ids -> (0 <= z < Z.of_nat (length np))%Z) ->
    length np' = length np ->
    (forall c n, nth_error np c = Some n -> nth_error np' c = Some (n + length (entries_of ids c))) ->
    (forall c n k i, nth_error np c = Some n -> nth_error (entries_of ids c) k = Some i ->
       nth_error layers i = Some (n + k)) ->
    exists D1, set_write d sp n zero s cells layers k (realloc_rows u np' D) = Some D1 /\
      length D1 = length D /\ (forall col, In col D1 -> wf_comp np' col) /\ old_rows np D D1 /\
      (forall f c n' k a, f < length D -> nth_error np c = Some n' -> nth_error (entries_of ids c) k = Some a ->
         rd3 D1 f c (n' + k) = nth_error (set_values zero sp set n a) f).
  Proof.
    intros WF Hsp Hset Hst Lids Ec Ll Hids Lnp Hnp Hlay.
    destruct s as [[buf copies] zeros]. destruct Hst as [S1 [S2 S3]].
    set (cellof := fun p => nth p cells 0). set (layof := fun p => nth p layers 0).
    assert (Hcell : forall p, p < n -> nth_error cells p = Some (cellof p)).
    { intros p Hp. apply nth_error_nth'. rewrite Ec, map_length. lia. }
    assert (Hl : forall p, p < n -> nth_error layers p = Some (layof p)).
    { intros p Hp. apply nth_error_nth'. lia. }
    assert (HcE : forall p c, nth_error ids p = Some (Z.of_nat c) -> cellof p = c).
    { intros p c H. unfold cellof. rewrite Ec, (nth_error_nth _ p 0 (x := c)); auto.
      rewrite nth_error_map, H. cbn. f_equal; lia. }
    assert (Hask : forall p, p < n -> In p (entries_of ids (cellof p)) /\ cellof p < length np).
    { intros p Hp. destruct (nth_error_lt_some ids p) as [z Ez]; [lia|].
      pose proof (Hids z (nth_error_In _ _ Ez)) as Hz.
      assert (cellof p = Z.to_nat z) as Q. { apply HcE. rewrite Ez. f_equal; lia. }
      rewrite Q. split; [|lia]. apply in_entries. rewrite Ez. f_equal; lia. }
    (* every property is copied or zeroed *)
    set (vals := fun (i p : nat) (_ : list (list (list V))) cx => nth_error (set_values zero sp set n p) (comp_offset sp i + cx)).
    set (items := map (fun w => (fst (nth (fst w) copies (0, 0)), snd w)) (ord d k (list_prod (seq 0 (length copies)) (seq 0 n))) ++
                  map (fun w => (nth (fst w) zeros 0, snd w)) (ord d (k + 1) (list_prod (seq 0 (length zeros)) (seq 0 n)))).
    assert (Vc : forall i off sym nc data p cx, In (i, off) copies -> nth_error sp i = Some (sym, nc) -> pset_get set sym = Some data ->
      p < n -> cx < nc -> nth_error (set_values zero sp set n p) (comp_offset sp i + cx) = nth_error data (cx * n + p)).
    { intros i off sym nc data p cx Hc Ei Ed Hp Hcx. unfold set_values.
      rewrite (flat_nth sp _ i (sym, nc)); auto.
      - cbn [fst snd]. rewrite Ed, nth_error_map_seq. destruct (Nat.ltb_spec cx nc); [|lia].
        symmetry. apply nth_error_nth'. rewrite (Hset sym nc data); [nia|eapply nth_error_In; eauto|auto].
      - intros [sy m]. cbn [fst snd]. destruct (pset_get set sy); [rewrite map_length, seq_length; auto|apply repeat_length]. }
    assert (Vz : forall i sym nc p cx, nth_error sp i = Some (sym, nc) -> pset_get set sym = None ->
      cx < nc -> nth_error (set_values zero sp set n p) (comp_offset sp i + cx) = Some zero).
    { intros i sym nc p cx Ei Ed Hcx. unfold set_values.
      rewrite (flat_nth sp _ i (sym, nc)); auto.
      - cbn [fst snd]. rewrite Ed. apply nth_error_repeat'; auto.
      - intros [sy m]. cbn [fst snd]. destruct (pset_get set sy); [rewrite map_length, seq_length; auto|apply repeat_length]. }
    assert (Ef : set_write d sp n zero (buf, copies, zeros) cells layers k (realloc_rows u np' D) =
                 foldM (kitem sp cellof layof (fun _ => true) vals) (realloc_rows u np' D) items).
    { unfold set_write, items. rewrite foldM_app, foldM_map.
      rewrite (foldM_ext_in (set_copy_item sp n buf copies cells layers)
        (fun s a => kitem sp cellof layof (fun _ => true) vals s (fst (nth (fst a) copies (0, 0)), snd a))).
      - destruct (foldM _ (realloc_rows u np' D) _); cbn [obind]; auto. rewrite foldM_map.
        apply foldM_ext_in. intros m [dx p] Hw. apply (proj1 (in_ord d _ _ _ Ok)) in Hw.
        apply in_prod_iff in Hw. rewrite !in_seq in Hw. cbn [fst snd].
        destruct (nth_error_lt_some zeros dx) as [i Ei]; [lia|].
        rewrite (nth_error_nth _ _ _ Ei). destruct (S3 i (nth_error_In _ _ Ei)) as [_ [sym [nc [E1 E2]]]].
        unfold set_zero_item, kitem, rd. cbn [fst snd]. rewrite Ei, (Hcell p), (Hl p) by lia. cbn [obind].
        unfold write_dat, rd. rewrite nth_error_map, E1. cbn [option_map obind snd].
        apply foldM_ext_in. intros m' cx Hcx. apply in_seq in Hcx. unfold vals.
        rewrite (Vz i sym nc) by (auto; lia). auto.
      - intros m [dx p] Hw. apply (proj1 (in_ord d _ _ _ Ok)) in Hw.
        apply in_prod_iff in Hw. rewrite !in_seq in Hw. cbn [fst snd].
        destruct (nth_error_lt_some copies dx) as [[i off] Ei]; [lia|].
        rewrite (nth_error_nth _ _ _ Ei). destruct (S2 i off (nth_error_In _ _ Ei)) as [_ [sym [nc [data [E1 [E2 H]]]]]].
        unfold set_copy_item, kitem, rd. cbn [fst snd]. rewrite Ei, (Hcell p), (Hl p) by lia. cbn [obind fst snd].
        unfold write_dat, rd. rewrite nth_error_map, E1. cbn [option_map obind snd].
        apply foldM_ext_in. intros m' cx Hcx. apply in_seq in Hcx. unfold vals.
        rewrite (Vc i off sym nc data p cx) by (auto; try lia; eapply nth_error_In; eauto).
        rewrite (proj1 (H (cx * n + p) ltac:(nia))). auto. }
    rewrite Ef. apply (append_props u np np' D sp (entries_of ids) (fun p => set_values zero sp set n p)); auto.
    - intros a. rewrite set_values_len. auto.
    - intros c j p Hj. pose proof (nth_error_In _ _ Hj) as Hp. apply in_entries in Hp.
      split; [auto|]. split; [auto|].
      pose proof (nth_error_some_lt _ _ _ Hp).
      pose proof (Hids _ (nth_error_In _ _ Hp)) as Hz.
      destruct (nth_error_lt_some np c) as [m Em]; [lia|]. exists m; split; auto.
      pose proof (Hlay _ _ _ _ Em Hj) as Q. rewrite (Hl p) in Q by lia. congruence.
    - intros i p Hw. apply in_app_or in Hw.
      assert (i < length sp /\ p < n) as [Hi Hp].
      { destruct Hw as [Hw|Hw]; apply in_map_iff in Hw; destruct Hw as [[dx q] [[= <- <-] Hw]];
        apply (proj1 (in_ord d _ _ _ Ok)) in Hw; apply in_prod_iff in Hw; rewrite !in_seq in Hw; (split; [|lia]).
        - destruct (nth_error_lt_some copies dx) as [[i off] Ei]; [lia|]. rewrite (nth_error_nth _ _ _ Ei).
          destruct (S2 i off (nth_error_In _ _ Ei)) as [Q _]. apply in_seq in Q. cbn. lia.
        - destruct (nth_error_lt_some zeros dx) as [i Ei]; [lia|]. rewrite (nth_error_nth _ _ _ Ei).
          destruct (S3 i (nth_error_In _ _ Ei)) as [Q _]. apply in_seq in Q. lia. }
      split; auto. intros _. apply In_nth_error, Hask; auto.
    - intros i c p Hi Hc Hp. apply in_entries in Hp. pose proof (nth_error_some_lt _ _ _ Hp).
      apply in_or_app. destruct (S1 i) as [Hm|Hz]; [apply in_seq; lia| |].
      + left. apply in_map_iff in Hm. destruct Hm as [[i' off] [Q Hm]]. cbn in Q. subst i'.
        apply In_nth_error in Hm. destruct Hm as [dx Edx]. apply in_map_iff. exists (dx, p). cbn [fst snd].
        rewrite (nth_error_nth _ _ _ Edx). split; auto. apply (proj2 (in_ord d _ _ _ Ok)). apply in_prod_iff.
        rewrite !in_seq. pose proof (nth_error_some_lt _ _ _ Edx). lia.
      + right. apply In_nth_error in Hz. destruct Hz as [dx Edx]. apply in_map_iff. exists (dx, p). cbn [fst snd].
        rewrite (nth_error_nth _ _ _ Edx). split; auto. apply (proj2 (in_ord d _ _ _ Ok)). apply in_prod_iff.
        rewrite !in_seq. pose proof (nth_error_some_lt _ _ _ Edx). lia.
  Qed.
End SetWrite.

Lemma add_particle_set_correct {R} d (zeroR : R) uR uZ spR spZ cid_sym g n setR setZ ids :
  device_ok d -> wf_group g -> spec_of spR (reals (st g)) -> spec_of spZ (ints (st g)) ->
  set_ok spR setR n -> set_ok spZ setZ n ->
  pset_get setZ cid_sym = Some ids -> n <= length ids ->
  (forall p z, p < n -> nth_error ids p = Some z -> (0 <= z < Z.of_nat (length (npart_cell g)))%Z) ->
  exists g', add_particle_set d zeroR uR uZ spR spZ cid_sym g n setR setZ = Some g' /\ wf_group g' /\
    length (npart_cell g') = length (npart_cell g) /\
    forall c, c < length (npart_cell g) -> exists old, cell_particles g c = Some old /\
      cell_particles g' c = Some (old ++ map (fun p => (set_values zeroR spR setR n p, set_values 0%Z spZ setZ n p))
                                             (entries_of (firstn n ids) c)).
Proof.
  intros Ok WF SR SZ OR OZ Eid Ln Hid. unfold add_particle_set.
  destruct (Nat.eqb_spec n 0) as [->|Hn].
  - exists g. split; [auto|]. split; [auto|]. split; [auto|]. intros c Hc. cbn.
    destruct (nth_error_lt_some _ _ Hc) as [m Em]. unfold cell_particles. rewrite Em. cbn [obind].
    destruct (mapM_total (particle_at (st g) c) (seq 0 m)) as [old Eo].
    { intros l Hl. apply in_seq in Hl. eapply wf_particle_at; eauto. lia. }
    exists old. rewrite app_nil_r. auto.
  - rewrite !test_data_ok by (auto; lia). cbn [obind].
    destruct (stage_correct spR setR n OR) as [sR [ER IR]]. destruct (stage_correct spZ setZ n OZ) as [sZ [EZ IZ]].
    rewrite ER, EZ, Eid. cbn [obind].
    assert (Sl : slice ids 0 n = Some (firstn n ids)).
    { rewrite slice_some by lia. cbn [skipn]. rewrite Nat.sub_0_r. auto. }
    rewrite Sl. cbn [obind].
    assert (Li : length (firstn n ids) = n) by (rewrite firstn_length; lia).
    assert (Hids : forall z, In z (firstn n ids) -> (0 <= z < Z.of_nat (length (npart_cell g)))%Z).
    { intros z Hz. apply In_nth_error in Hz. destruct Hz as [p Ep]. pose proof (nth_error_some_lt _ _ _ Ep).
      apply (Hid p z); [lia|]. rewrite <- (firstn_skipn n ids), nth_error_app1; auto. }
    destruct (host_layers (npart_cell g) (firstn n ids) Hids) as [np' [layers [Eh [L1 [L2 [H1 H2]]]]]].
    rewrite Eh. cbn [obind].
    destruct (set_write_correct d Ok zeroR spR setR n 210 uR (npart_cell g) np' (reals (st g)) (firstn n ids)
                (map Z.to_nat (firstn n ids)) layers sR) as [D1 [E1 [A1 [A2 [A3 A4]]]]]; auto; [apply WF|congruence|].
    destruct (set_write_correct d Ok 0%Z spZ setZ n 212 uZ (npart_cell g) np' (ints (st g)) (firstn n ids)
                (map Z.to_nat (firstn n ids)) layers sZ) as [D2 [E2 [B1 [B2 [B3 B4]]]]]; auto; [apply WF|congruence|].
    rewrite E1, E2. cbn [obind]. eexists. split; [reflexivity|]. split; [split; auto|]. split; [auto|].
    apply append_cells; cbn [st npart_cell reals ints]; auto.
    + intros a. rewrite set_values_len. auto.
    + intros a. rewrite set_values_len. auto.
Qed.

Lemma add_particle_set_bad {R} d (zeroR : R) uR uZ spR spZ cid_sym g n setR setZ ids p z :
  pset_get setZ cid_sym = Some ids -> p < n -> nth_error ids p = Some z ->
  ~ (0 <= z < Z.of_nat (length (npart_cell g)))%Z ->
  add_particle_set d zeroR uR uZ spR spZ cid_sym g n setR setZ = None.
Proof.
  intros Eid Hp Ez Hz. unfold add_particle_set. destruct (Nat.eqb_spec n 0); [lia|].
  destruct (test_data spR setR n); cbn [obind]; auto. destruct (test_data spZ setZ n); cbn [obind]; auto.
  destruct (stage spR setR n); cbn [obind]; auto. destruct (stage spZ setZ n); cbn [obind]; auto.
  rewrite Eid. cbn [obind]. destruct (slice ids 0 n) as [l|] eqn:El; cbn [obind]; auto.
  unfold slice in El. destruct (mapM_in _ _ l p El) as [z' [E1 E2]]; [apply in_seq; lia|].
  unfold rd in E1. rewrite Ez in E1. injection E1 as <-.
  rewrite (host_layers_bad (npart_cell g) l z); auto.
Qed.

Lemma foldM_unit_none {A} (f : A -> option unit) l a : In a l -> f a = None ->
  forall s, foldM (fun (_ : unit) a => f a) s l = None.
Proof.
  induction l as [|b l IH]; intros Hi Hn s; [destruct Hi|]. cbn [foldM].
  destruct Hi as [->|Hi]; [rewrite Hn; auto|]. destruct (f b); cbn [obind]; auto.
Qed.

Lemma add_particle_set_mismatch {R} d (zeroR : R) uR uZ spR spZ cid_sym g n setR setZ :
  0 < n ->
  (exists sym nc data, In (sym, nc) spR /\ pset_get setR sym = Some data /\ length data / n <> nc) \/
  (exists sym nc data, In (sym, nc) spZ /\ pset_get setZ sym = Some data /\ length data / n <> nc) ->
  add_particle_set d zeroR uR uZ spR spZ cid_sym g n setR setZ = None.
Proof.
  intros Hn H. unfold add_particle_set. destruct (Nat.eqb_spec n 0); [lia|].
  assert (G : forall V sp (set : pset V) sym nc data, In (sym, nc) sp -> pset_get set sym = Some data ->
    length data / n <> nc -> test_data sp set n = None).
  { intros V sp set sym nc data Hi Eg Hne. unfold test_data.
    apply (foldM_unit_none (fun e => match pset_get set (fst e) with
      | Some data => assert (snd e =? length data / n) | None => Some tt end) sp (sym, nc)); auto.
    cbn [fst snd]. rewrite Eg. destruct (Nat.eqb_spec nc (length data / n)); [congruence|auto]. }
  destruct H as [[sym [nc [data [H1 [H2 H3]]]]]|[sym [nc [data [H1 [H2 H3]]]]]].
  - rewrite (G _ spR setR sym nc data); auto.
  - rewrite (G _ spZ setZ sym nc data); auto. destruct (test_data spR setR n); auto.
Qed.
