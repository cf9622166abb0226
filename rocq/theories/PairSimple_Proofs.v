(** Proofs about CellwisePairListSimple. *)
From Coq Require Import List Arith Lia ZArith Bool Permutation.
Import ListNotations.
From Verif Require Import Base Kernel Scan_Model Scan_Spec Scan_Proofs Compress_Proofs Group_Model Group_Proofs Counter_Proofs
  Transpose_Proofs SubGroupSelect_Proofs PairList_Model PairList_Spec PairHost_Proofs.

Section Simple.
  Context (d : device) (cc : nat).
  Hypothesis Hd : device_ok d.

  (** ** The rows of the pair list *)
  Definition pls (pl : list (list (list nat))) (nr : nat -> nat) : Prop :=
    shape3 pl = map (fun c => [nr c; nr c]) (seq 0 cc).

  Lemma pls_cell pl nr c : pls pl nr -> c < cc ->
    exists a b, nth_error pl c = Some [a; b] /\ length a = nr c /\ length b = nr c.
  Proof.
    unfold pls, shape3. intros H Hc.
    assert (E : nth_error (map shape2 pl) c = Some [nr c; nr c]).
    { rewrite H, nth_error_map_seq. destruct (Nat.ltb_spec c cc); [auto|lia]. }
    rewrite nth_error_map in E. destruct (nth_error pl c) as [cols|]; [|discriminate]. cbn in E. injection E as E.
    destruct cols as [|a [|b [|? ?]]]; try discriminate. cbn in E. injection E as E1 E2. eauto.
  Qed.

  Lemma pls_length pl nr : pls pl nr -> length pl = cc.
  Proof. intros H. unfold pls, shape3 in H. apply (f_equal (@length _)) in H. rewrite !map_length, seq_length in H. auto. Qed.

  Lemma pls_rd3 pl nr c f r : pls pl nr -> c < cc -> f < 2 -> r < nr c -> exists v, rd3 pl c f r = Some v.
  Proof.
    intros H Hc Hf Hr. destruct (pls_cell pl nr c H Hc) as [a [b [E [La Lb]]]]. unfold rd3, rd2, rd. rewrite E. cbn [obind].
    destruct f as [|[|f]]; [| |lia]; cbn [nth_error obind]; apply nth_error_lt_some; lia.
  Qed.

  Lemma pls_nrow pl nr c : pls pl nr -> c < cc -> nrow pl c = Some (nr c).
  Proof.
    intros H Hc. destruct (pls_cell pl nr c H Hc) as [a [b [E [La Lb]]]]. unfold nrow, rd. rewrite E. cbn. congruence.
  Qed.

  Lemma pls_set_nrow pl nr k c n : pls pl nr -> c < cc -> exists pl', set_nrow d k c n pl = Some pl' /\
    pls pl' (fun x => if x =? c then n else nr x) /\
    forall c' f r, (c' <> c \/ (f < 2 /\ r < n /\ r < nr c)) -> rd3 pl' c' f r = rd3 pl c' f r.
  Proof.
    intros H Hc. destruct (pls_cell pl nr c H Hc) as [a [b [E [La Lb]]]]. unfold set_nrow, rd. rewrite E. cbn [obind].
    match goal with |- context [upd pl c ?v] => destruct (upd_some pl c v) as [pl' E']; [rewrite (pls_length _ _ H); auto|] end.
    exists pl'. split; auto. split.
    - unfold pls, shape3. apply nth_error_ext. intros x. rewrite nth_error_map, nth_error_map_seq, (upd_nth _ _ _ _ x E').
      destruct (Nat.eqb_spec x c) as [->|N].
      + destruct (Nat.ltb_spec c cc); [|lia]. cbn. rewrite Nat.eqb_refl, !resize_length. auto.
      + unfold pls, shape3 in H. rewrite <- nth_error_map, H, nth_error_map_seq. cbn [Nat.add]. destruct (Nat.eqb_spec x c); [lia|]. auto.
    - intros c' f r Hr. unfold rd3, rd. rewrite (upd_nth _ _ _ _ c' E'). destruct (Nat.eqb_spec c' c) as [->|N]; [|auto].
      destruct Hr as [Hr|[Hf [H1 H2]]]; [lia|]. rewrite E. cbn [obind]. unfold rd2, rd, mapi. cbn.
      destruct f as [|[|f]]; [| |lia]; cbn [nth_error obind]; rewrite nth_error_resize by auto.
      + rewrite (nth_error_nth' a (Z.to_nat (junk d (k + 0) r))) by lia. auto.
      + rewrite (nth_error_nth' b (Z.to_nat (junk d (k + 1) r))) by lia. auto.
  Qed.

  Lemma pls_upd3 pl nr c f r v : pls pl nr -> c < cc -> f < 2 -> r < nr c ->
    exists pl', upd3 pl c f r v = Some pl' /\ pls pl' nr /\
      forall c' f' r', rd3 pl' c' f' r' = if (c' =? c) && (f' =? f) && (r' =? r) then Some v else rd3 pl c' f' r'.
  Proof.
    intros H Hc Hf Hr. destruct (pls_rd3 _ _ _ _ _ H Hc Hf Hr) as [x Ex]. destruct (upd3_some pl c f r v x Ex) as [pl' E].
    exists pl'. split; auto. split; [unfold pls in *; rewrite (upd3_shape _ _ _ _ _ _ E); auto|]. apply (upd3_rd3 _ _ _ _ _ _ E).
  Qed.

  Lemma copy_column_ok pl nr c f first src : pls pl nr -> c < cc -> f < 2 -> first + length src <= nr c ->
    exists pl', copy_column c f first src pl = Some pl' /\ pls pl' nr /\
      (forall i v, nth_error src i = Some v -> rd3 pl' c f (first + i) = Some v) /\
      (forall c' f' r, (c' <> c \/ f' <> f \/ r < first \/ first + length src <= r) -> rd3 pl' c' f' r = rd3 pl c' f' r).
  Proof.
    intros H Hc Hf Hl. unfold copy_column.
    destruct (foldM_ind (fun l ix => v <- rd src ix ;; upd3 l c f (first + ix) v)
      (fun pre pl' => pls pl' nr /\
         (forall i v, i < length pre -> nth_error src i = Some v -> rd3 pl' c f (first + i) = Some v) /\
         (forall c' f' r, (c' <> c \/ f' <> f \/ r < first \/ first + length src <= r) -> rd3 pl' c' f' r = rd3 pl c' f' r))
      (seq 0 (length src)) pl) as [pl' [E [A [B D]]]].
    - split; auto. split; auto. cbn. intros; lia.
    - intros pre a post s Es [A [B D]].
      assert (Ea : a = length pre /\ length pre < length src).
      { assert (Q : nth_error (seq 0 (length src)) (length pre) = Some a) by (rewrite Es, nth_error_app2, Nat.sub_diag by lia; auto).
        rewrite nth_error_seq in Q. destruct (Nat.ltb_spec (length pre) (length src)); [|discriminate]. injection Q as <-. auto. }
      destruct Ea as [-> La]. destruct (nth_error_lt_some src (length pre) La) as [v Ev]. unfold rd. rewrite Ev. cbn [obind].
      destruct (pls_upd3 s nr c f (first + length pre) v A Hc Hf) as [pl' [E [A' R]]]; [lia|].
      exists pl'. split; auto. split; auto. split.
      + intros i v' Hi Hv. rewrite app_length in Hi. cbn in Hi. rewrite R, !Nat.eqb_refl. cbn [andb].
        destruct (Nat.eqb_spec (first + i) (first + length pre)); [assert (i = length pre) by lia; congruence|]. apply B; auto; lia.
      + intros c' f' r Hr. rewrite R. destruct (Nat.eqb_spec c' c), (Nat.eqb_spec f' f), (Nat.eqb_spec r (first + length pre)); cbn [andb]; auto; try lia.
    - exists pl'. split; auto. split; auto. split; auto. intros i v Hv. apply B; auto. rewrite seq_length. eapply nth_error_some_lt; eauto.
  Qed.

  (** ** What the tables mean *)
  Definition before (W : nat -> list (list (nat * nat))) (c : nat) : nat :=
    list_sum (map (fun x => length (concat (W x))) (seq 0 c)).

  Lemma before_S W c : before W (S c) = before W c + length (concat (W c)).
  Proof. unfold before. rewrite seq_S, map_app, list_sum_app. cbn. lia. Qed.

  Record base (s : simple) : Prop := {
    b_hw : length (h_wave_count s) = cc;
    b_dw : length (d_wave_count s) = cc;
    b_wo : cc <= length (d_wave_offsets s);
    b_dp : cc <= length (d_pair_counts s);
    b_es : cc <= length (d_pair_counts_es s);
    b_pl : exists nr, pls (d_pair_list s) nr;
    b_mode : mode s = 0 \/ mode s = 1
  }.

  Record rep (s : simple) (F : bool) (W : nat -> list (list (nat * nat))) : Prop := {
    r_hw : forall c, c < cc -> nth_error (h_wave_count s) c = Some (length (W c));
    r_dw : forall c, c < cc -> nth_error (d_wave_count s) c = Some (length (W c));
    r_hp : forall c w P, c < cc -> nth_error (W c) w = Some P -> nth_error (h_pair_counts s) (w * cc + c) = Some (length P);
    r_dp : forall c w P, c < cc -> nth_error (W c) w = Some P -> nth_error (d_pair_counts s) (w * cc + c) = Some (length P);
    r_wo : forall c w, c < cc -> w < length (W c) ->
      nth_error (d_wave_offsets s) (w * cc + c) = Some (length (concat (firstn w (W c))));
    r_es : forall c w, c < cc -> w < length (W c) ->
      nth_error (d_pair_counts_es s) (w * cc + c) = Some (before W c + length (concat (firstn w (W c))));
    r_rows : forall c p q, c < cc -> nth_error (concat (W c)) p = Some q ->
      rd3 (d_pair_list s) c 0 p = Some (fst q) /\ rd3 (d_pair_list s) c 1 p = Some (snd q);
    r_mw : forall c, c < cc -> (Z.of_nat (length (W c)) <= max_wave_count s \/ W c = [])%Z;
    r_mp : (exists c, c < cc /\ concat (W c) <> []) -> (0 < max_pair_count s)%Z;
    r_pc : pair_count s = if F then Z.of_nat (before W cc) else (-1)%Z;
    r_F : F = false -> forall c, c < cc -> W c = []
  }.

  (** The tables of a list that was not [set] since it was cleared. *)
  Record pushable (s : simple) (W : nat -> list (list (nat * nat))) : Prop := {
    p_wo : forall c, c < cc -> nth_error (d_wave_offsets s) c = Some 0;
    p_dp : forall c, c < cc -> nth_error (d_pair_counts s) c = Some (length (concat (W c)))
  }.

  (** ** clear *)
  Lemma zero_cells_ok k m : cc <= length m -> exists m', zero_cells d cc k m = Some m' /\ length m' = length m /\
    forall c, c < cc -> nth_error m' c = Some 0.
  Proof.
    intros L. unfold zero_cells.
    assert (P : Permutation (ord d k (seq 0 cc)) (seq 0 cc)) by apply Hd.
    assert (Hin : forall a, In a (ord d k (seq 0 cc)) -> a < cc).
    { intros a Ha. apply (Permutation_in _ P) in Ha. apply in_seq in Ha. lia. }
    destruct (foldM_upd (fun m c => upd m c 0) (fun a => a) (fun _ => 0) (ord d k (seq 0 cc)) m) as [m' [E [Lm [V _]]]]; auto.
    - intros a Ha. apply Hin in Ha. lia.
    - exists m'. split; auto. split; auto. intros c Hc. apply V. apply (Permutation_in _ (Permutation_sym P)), in_seq. lia.
  Qed.

  Lemma nth_error_zero {A} (l : list A) c : c < length l -> nth_error (map (fun _ => 0) l) c = Some 0.
  Proof. intros H. rewrite nth_error_map. destruct (nth_error_lt_some l c H) as [x ->]. auto. Qed.

  Lemma clear_ok k s : base s -> exists s', clear d cc k s = Some s' /\ base s' /\ rep s' false (fun _ => []) /\ pushable s' (fun _ => []) /\
    length (h_pair_counts s') = length (h_pair_counts s) /\ length (d_pair_counts s') = length (d_pair_counts s).
  Proof.
    intros B. destruct B as [B1 B2 B3 B4 B5 B6 B7]. unfold clear. destruct (Nat.ltb_spec 0 cc) as [Hc|Hc].
    - destruct (zero_cells_ok k (d_wave_count s)) as [wc [E1 [L1 V1]]]; [lia|].
      destruct (zero_cells_ok k (d_pair_counts s)) as [pc [E2 [L2 V2]]]; [lia|].
      destruct (zero_cells_ok k (d_wave_offsets s)) as [wo [E3 [L3 V3]]]; [lia|].
      rewrite E1, E2, E3. cbn [obind h_wave_count d_wave_count d_wave_offsets d_pair_list d_pair_counts d_pair_counts_es h_pair_counts h_pair_counts_es].
      eexists. split; [reflexivity|]. split; [|split; [|split; [|split]]]; cbn [h_wave_count d_wave_count d_wave_offsets d_pair_list d_pair_counts d_pair_counts_es h_pair_counts h_pair_counts_es]; auto; try apply map_length.
      + constructor; cbn; rewrite ?map_length; auto; lia.
      + constructor; cbn -[before]; auto; try (intros; lia).
        * intros c H. rewrite nth_error_zero; auto; lia.
        * intros c w P _ H. destruct w; discriminate.
        * intros c w P _ H. destruct w; discriminate.
        * intros c p q _ H. destruct p; discriminate.
        * intros [c [_ H]]. congruence.
      + constructor; cbn; auto.
    - cbn [obind]. eexists. split; [reflexivity|]. split; [|split; [|split; [|split]]]; cbn [h_wave_count d_wave_count d_wave_offsets d_pair_list d_pair_counts d_pair_counts_es h_pair_counts h_pair_counts_es]; auto.
      + constructor; auto.
      + constructor; cbn -[before]; auto; try (intros; lia). intros [c [H _]]. lia.
      + constructor; cbn; intros; lia.
  Qed.

  Lemma create_ok k : exists s, create d cc k = Some s /\ base s /\ rep s false (fun _ => []) /\ pushable s (fun _ => []) /\
    length (h_pair_counts s) = cc /\ length (d_pair_counts s) = cc.
  Proof.
    unfold create.
    match goal with |- context [clear d cc k ?s0] => destruct (clear_ok k s0) as [s [E [B [R [P [L1 L2]]]]]] end.
    - constructor; cbn; rewrite ?repeat_length, ?fresh_length; auto.
      exists (fun _ => 0). unfold pls, shape3. apply nth_error_ext. intros i. rewrite nth_error_map, nth_error_map_seq.
      destruct (Nat.ltb_spec i cc).
      + rewrite nth_error_repeat by auto. auto.
      + replace (nth_error (repeat _ cc) i) with (@None (list (list nat))); auto. symmetry. apply nth_error_None. rewrite repeat_length. auto.
    - exists s. split; auto. split; auto. split; auto. split; auto. cbn in L1, L2. rewrite repeat_length in L1. rewrite fresh_length in L2. auto.
  Qed.

  (** ** push_back *)
  Definition cnt (x : nat) (l : list nat) : nat := length (filter (Nat.eqb x) l).

  Lemma push_layers_ok c : forall counts, (forall x, In x c -> x < cc) -> cc <= length counts ->
    exists layers counts' mx, push_layers cc c counts = Some (layers, counts', mx) /\
      length layers = length c /\ length counts' = length counts /\
      (forall idx x n, nth_error c idx = Some x -> nth_error counts x = Some n ->
         nth_error layers idx = Some (n + cnt x (firstn idx c))) /\
      (forall x n, nth_error counts x = Some n -> nth_error counts' x = Some (n + cnt x c)) /\
      (c <> [] -> (0 < mx)%Z).
  Proof.
    intros counts Hc L. unfold push_layers.
    match goal with |- context [foldM ?f ?s0 c] =>
    destruct (foldM_ind f
      (fun pre (s : list nat * list nat * Z) => length (fst (fst s)) = length pre /\ length (snd (fst s)) = length counts /\
         (forall idx x n, nth_error pre idx = Some x -> nth_error counts x = Some n ->
            nth_error (fst (fst s)) idx = Some (n + cnt x (firstn idx pre))) /\
         (forall x n, nth_error counts x = Some n -> nth_error (snd (fst s)) x = Some (n + cnt x pre)) /\
         (pre <> [] -> (0 < snd s)%Z)) c s0) as [[[layers counts'] mx] [E [A [B [D [F G]]]]]] end.
    - cbn. split; auto. split; auto. split; [intros [|idx]; discriminate|]. split; [intros x n H; rewrite Nat.add_0_r; auto|congruence].
    - intros pre x post [[layers counts'] mx] Ec [A [B [D [F G]]]]. cbn [fst snd] in *.
      assert (Hx : x < cc) by (apply Hc; rewrite Ec; apply in_or_app; cbn; auto).
      apply Nat.ltb_lt in Hx as Hx'. rewrite Hx'. change (assert true) with (Some tt). cbn [obind].
      destruct (nth_error_lt_some counts x) as [n En]; [lia|]. pose proof (F x n En) as Fx. unfold rd. rewrite Fx. cbn [obind].
      destruct (upd_some counts' x (n + cnt x pre + 1)) as [c2 E2]; [lia|]. rewrite E2. cbn [obind].
      eexists. split; [reflexivity|]. cbn [fst snd]. rewrite !app_length. cbn [length]. split; [lia|]. split; [rewrite (upd_length _ _ _ _ E2); auto|]. split; [|split].
      + intros idx y m Hy Hm. destruct (lt_eq_lt_dec idx (length pre)) as [[Q|Q]|Q].
        * rewrite nth_error_app1 in Hy by lia. rewrite nth_error_app1 by lia. rewrite firstn_app. replace (idx - length pre) with 0 by lia.
          cbn [firstn]. rewrite app_nil_r. auto.
        * subst idx. rewrite nth_error_app2, Nat.sub_diag in Hy by lia. cbn in Hy. injection Hy as <-. rewrite nth_error_app2 by lia.
          rewrite A, Nat.sub_diag, firstn_app, Nat.sub_diag, firstn_all. cbn [firstn nth_error]. rewrite app_nil_r. congruence.
        * rewrite nth_error_app2 in Hy by lia. destruct (idx - length pre) as [|[|z]] eqn:Z0; cbn in Hy; try discriminate. lia.
      + intros y m Hm. rewrite (upd_nth _ _ _ _ y E2). unfold cnt. rewrite filter_app, app_length. cbn [filter].
        destruct (Nat.eqb_spec y x) as [->|N]; cbn [length].
        * rewrite En in Hm. injection Hm as <-. f_equal. unfold cnt. lia.
        * rewrite (F y m Hm). f_equal. unfold cnt. lia.
      + intros _. lia.
    - cbn [fst snd] in *. exists layers, counts', mx. auto 10.
  Qed.

  Lemma push_layers_valid c : forall counts r, push_layers cc c counts = Some r -> forall x, In x c -> x < cc.
  Proof.
    unfold push_layers. intros counts. generalize (([] : list nat), counts, (-1)%Z). clear counts.
    induction c as [|y c IH]; intros [[layers counts] mx] r E x; [cbn; tauto|].
    cbn [foldM] in E. destruct (y <? cc) eqn:L; [|discriminate]. change (assert true) with (Some tt) in E. cbn [obind] in E.
    unfold rd in E. destruct (nth_error counts y) as [n|]; [|discriminate]. cbn [obind] in E.
    destruct (upd counts y (n + 1)) as [c2|]; [|discriminate]. cbn [obind] in E.
    intros [<-|H]; [apply Nat.ltb_lt; auto|]. exact (IH _ _ E x H).
  Qed.

  Lemma push_rows_ok k counts pl nr : pls pl nr -> cc <= length counts ->
    exists pl' nr', push_rows d cc k counts pl = Some pl' /\ pls pl' nr' /\
      (forall c n, c < cc -> nth_error counts c = Some n -> n <= nr' c) /\
      (forall c, c < cc -> nr c <= nr' c) /\
      (forall c f r, c < cc -> f < 2 -> r < nr c -> rd3 pl' c f r = rd3 pl c f r).
  Proof.
    intros H L. unfold push_rows.
    match goal with |- context [foldM ?fn ?s0 (seq 0 cc)] =>
    destruct (foldM_ind fn
      (fun pre pl' => exists nr', pls pl' nr' /\
         (forall c n, In c pre -> nth_error counts c = Some n -> n <= nr' c) /\
         (forall c, c < cc -> nr c <= nr' c) /\
         (forall c f r, c < cc -> f < 2 -> r < nr c -> rd3 pl' c f r = rd3 pl c f r)) (seq 0 cc) s0) as [pl' [E [nr' [A [B [D F]]]]]] end.
    - exists nr. repeat split; auto. cbn. tauto.
    - intros pre c post s Ec [nr' [A [B [D F]]]].
      assert (Hc : c < cc). { assert (I : In c (seq 0 cc)) by (rewrite Ec; apply in_or_app; cbn; auto). apply in_seq in I. lia. }
      rewrite (pls_nrow s nr' c A Hc). cbn [obind]. destruct (nth_error_lt_some counts c) as [n En]; [lia|].
      unfold rd. rewrite En. cbn [obind]. destruct (Nat.ltb_spec (nr' c) n) as [Hn|Hn].
      + destruct (pls_set_nrow s nr' k c n A Hc) as [s' [E' [A' R]]]. exists s'. split; auto. eexists. split; [exact A'|].
        split; [|split].
        * intros x m Hx Hm. cbn beta. destruct (Nat.eqb_spec x c) as [->|N]; [rewrite En in Hm; injection Hm as ->; lia|].
          apply in_app_or in Hx as [Hx|[Hx|[]]]; [auto|congruence].
        * intros x Hx. cbn beta. destruct (Nat.eqb_spec x c) as [->|N]; [specialize (D c Hx); lia|auto].
        * intros x f r Hx Hf Hr. specialize (D x Hx). rewrite R; [auto|]. destruct (Nat.eq_dec x c) as [->|N]; auto. right. lia.
      + exists s. split; auto. exists nr'. split; auto. split; auto. intros x m Hx Hm.
        apply in_app_or in Hx as [Hx|[<-|[]]]; [auto|]. rewrite En in Hm. injection Hm as ->. auto.
    - exists pl', nr'. split; auto. split; auto. split; auto. intros c n Hc. apply B. apply in_seq. lia.
  Qed.

  Lemma push_kernel_ok sched c i j layers pl nr :
    Permutation sched (seq 0 (length c)) -> length i = length c -> length j = length c -> length layers = length c ->
    (forall idx x l, nth_error c idx = Some x -> nth_error layers idx = Some l -> x < cc /\ l < nr x) ->
    (forall idx idx' x l, nth_error c idx = Some x -> nth_error c idx' = Some x -> nth_error layers idx = Some l ->
       nth_error layers idx' = Some l -> idx = idx') ->
    pls pl nr ->
    exists pl', foldM (push_item c i j layers) pl sched = Some pl' /\ pls pl' nr /\
      (forall idx x l a b, nth_error c idx = Some x -> nth_error layers idx = Some l -> nth_error i idx = Some a -> nth_error j idx = Some b ->
         rd3 pl' x 0 l = Some a /\ rd3 pl' x 1 l = Some b) /\
      (forall x f r, (forall idx l, nth_error c idx = Some x -> nth_error layers idx = Some l -> l <> r) -> rd3 pl' x f r = rd3 pl x f r).
  Proof.
    intros P Li Lj Ll Hb Hinj Hpl.
    set (wr := fun idx (q : nat * nat * nat) =>
      if (fst (fst q) =? nth idx c 0) && (snd q =? nth idx layers 0) then
        (if snd (fst q) =? 0 then Some (nth idx i 0) else if snd (fst q) =? 1 then Some (nth idx j 0) else None)
      else None).
    assert (Hin : forall a, In a sched -> a < length c).
    { intros a Ha. apply (Permutation_in _ P) in Ha. apply in_seq in Ha. lia. }
    destruct (@foldM_kernel nat _ (nat * nat * nat) nat (push_item c i j layers) (fun m q => rd3 m (fst (fst q)) (snd (fst q)) (snd q))
      (fun m => pls m nr) wr sched pl Hpl) as [pl' [E [I [V N]]]].
    - intros s a Is Ia. apply Hin in Ia. unfold push_item, rd.
      rewrite (nth_error_nth' c 0), (nth_error_nth' i 0), (nth_error_nth' j 0), (nth_error_nth' layers 0) by lia. cbn [obind].
      destruct (Hb a (nth a c 0) (nth a layers 0)) as [Hx Hl]; [apply nth_error_nth'; lia|apply nth_error_nth'; lia|].
      destruct (pls_upd3 s nr (nth a c 0) 0 (nth a layers 0) (nth a i 0) Is Hx) as [s1 [E1 [I1 R1]]]; [lia|auto|]. rewrite E1. cbn [obind].
      destruct (pls_upd3 s1 nr (nth a c 0) 1 (nth a layers 0) (nth a j 0) I1 Hx) as [s2 [E2 [I2 R2]]]; [lia|auto|]. exists s2.
      split; auto. split; auto. intros [[x f] r]. cbn [fst snd]. rewrite R2, R1. unfold wr. cbn [fst snd].
      destruct (x =? nth a c 0), (r =? nth a layers 0); cbn [andb]; destruct (f =? 0) eqn:F0, (f =? 1) eqn:F1; cbn [andb]; auto.
      apply Nat.eqb_eq in F0, F1. lia.
    - intros a b [[x f] r] v w Ia Ib. apply Hin in Ia, Ib. unfold wr. cbn [fst snd].
      destruct (Nat.eqb_spec x (nth a c 0)) as [A1|], (Nat.eqb_spec r (nth a layers 0)) as [A2|],
        (Nat.eqb_spec x (nth b c 0)) as [B1|], (Nat.eqb_spec r (nth b layers 0)) as [B2|]; cbn [andb]; try discriminate.
      assert (a = b); [|subst; congruence]. apply (Hinj a b x r).
      + rewrite A1; apply nth_error_nth'; lia.
      + rewrite B1; apply nth_error_nth'; lia.
      + rewrite A2; apply nth_error_nth'; lia.
      + rewrite B2; apply nth_error_nth'; lia.
    - exists pl'. split; auto. split; auto. split.
      + intros idx x l a b Hx Hl Ha Hbb. pose proof (nth_error_some_lt _ _ _ Hx) as Hi.
        assert (Is : In idx sched) by (apply (Permutation_in _ (Permutation_sym P)), in_seq; lia).
        apply (nth_error_nth c idx 0) in Hx. apply (nth_error_nth layers idx 0) in Hl. apply (nth_error_nth i idx 0) in Ha. apply (nth_error_nth j idx 0) in Hbb.
        split.
        * apply (V idx (x, 0, l)); auto. unfold wr. cbn [fst snd]. rewrite Hx, Hl, !Nat.eqb_refl. cbn. congruence.
        * apply (V idx (x, 1, l)); auto. unfold wr. cbn [fst snd]. rewrite Hx, Hl, !Nat.eqb_refl. cbn. congruence.
      + intros x f r H. apply (N (x, f, r)). intros idx Is. apply Hin in Is. unfold wr. cbn [fst snd].
        destruct (Nat.eqb_spec x (nth idx c 0)), (Nat.eqb_spec r (nth idx layers 0)); cbn [andb]; auto.
        exfalso. apply (H idx r); auto; [subst x|rewrite e0]; apply nth_error_nth'; lia.
  Qed.

  Definition mode1 (s : simple) : simple :=
    mk_simple (h_wave_count s) (d_wave_count s) (d_wave_offsets s) (d_pair_list s) (d_pair_counts s)
      (d_pair_counts_es s) (h_pair_counts s) (h_pair_counts_es s) (max_pair_count s) (max_wave_count s) (pair_count s) 1.

  Lemma push_empty k s i j : base s -> length i = 0 -> length j = 0 -> push_back d cc k s [] i j = Some (mode1 s).
  Proof.
    intros B Li Lj. unfold push_back. cbn [length]. rewrite Li, Lj.
    replace ((mode s =? 0) || (mode s =? 1)) with true; [reflexivity|].
    destruct (b_mode s B) as [-> | ->]; auto.
  Qed.

  Lemma cnt_new c i j x : length i = length c -> length j = length c -> length (new_pairs c i j x) = cnt x c.
  Proof.
    intros Li Lj. unfold new_pairs, cnt. rewrite map_length.
    assert (G : forall (l : list (nat * nat)), length l = length c ->
      length (filter (fun p : nat * (nat * nat) => fst p =? x) (combine c l)) = length (filter (Nat.eqb x) c)).
    { clear. induction c as [|y c IH]; intros [|q l] H; cbn in *; auto; try discriminate.
      rewrite Nat.eqb_sym. destruct (x =? y); cbn; rewrite IH; auto. }
    apply G. rewrite combine_length. lia.
  Qed.

  Lemma nth_new c i j x r q : length i = length c -> length j = length c -> nth_error (new_pairs c i j x) r = Some q ->
    exists idx, nth_error c idx = Some x /\ nth_error i idx = Some (fst q) /\ nth_error j idx = Some (snd q) /\ r = cnt x (firstn idx c).
  Proof.
    intros Li Lj H. unfold new_pairs in H. rewrite nth_error_map in H.
    destruct (nth_error (filter _ _) r) as [[y q']|] eqn:E; [|discriminate]. cbn in H. injection H as <-.
    apply filter_nth_inv in E as [idx [E1 [E2 E3]]]. cbn in E2. apply Nat.eqb_eq in E2. subst y.
    assert (G : forall (a : list nat) (b : list (nat * nat)) n u v, nth_error (combine a b) n = Some (u, v) -> nth_error a n = Some u /\ nth_error b n = Some v).
    { clear. induction a as [|u0 a IH]; intros [|v0 b] [|n] u v H; cbn in *; try discriminate; auto. injection H as <- <-. auto. }
    assert (G' : forall (a b : list nat) n u v, nth_error (combine a b) n = Some (u, v) -> nth_error a n = Some u /\ nth_error b n = Some v).
    { clear. induction a as [|u0 a IH]; intros [|v0 b] [|n] u v H; cbn in *; try discriminate; auto. injection H as <- <-. auto. }
    destruct (G _ _ _ _ _ E1) as [A B]. destruct q' as [a b]. destruct (G' _ _ _ _ _ B) as [B1 B2].
    exists idx. split; auto. split; auto. split; auto. rewrite E3.
    rewrite <- (cnt_new (firstn idx c) (firstn idx i) (firstn idx j) x) by (rewrite !firstn_length; lia).
    unfold new_pairs. rewrite map_length. f_equal. f_equal. clear.
    assert (Q : forall {A B} n (a : list A) (b : list B), firstn n (combine a b) = combine (firstn n a) (firstn n b)).
    { clear. intros A B n. induction n as [|n IH]; intros a b; [reflexivity|]. destruct a, b; cbn [combine firstn]; auto. rewrite IH; auto. }
    rewrite !Q. auto.
  Qed.

  Definition pushed_waves (W : nat -> list (list (nat * nat))) (c i j : list nat) (x : nat) : list (list (nat * nat)) :=
    [concat (W x) ++ new_pairs c i j x].

  Lemma push_ok k s F W c i j : base s -> rep s F W -> pushable s W -> length (h_pair_counts s) = length (d_pair_counts s) ->
    c <> [] -> length i = length c -> length j = length c -> (forall x, In x c -> x < cc) ->
    exists s', push_back d cc k s c i j = Some s' /\ base s' /\ rep s' true (pushed_waves W c i j) /\
      pushable s' (pushed_waves W c i j) /\
      length (h_pair_counts s') = length (h_pair_counts s) /\ length (d_pair_counts s') = length (d_pair_counts s).
  Proof.
    intros B R P Lh Cn Li Lj Hc. unfold push_back.
    replace ((mode s =? 0) || (mode s =? 1)) with true by (destruct (b_mode s B) as [-> | ->]; auto).
    rewrite Li, Lj, Nat.eqb_refl. change (assert true) with (Some tt). cbn [obind].
    assert (Hcc : 0 < cc). { destruct c as [|x c]; [congruence|]. specialize (Hc x (or_introl eq_refl)). lia. }
    destruct (Nat.eqb_spec (length c) 0) as [Z0|Z0]; [destruct c; [congruence|discriminate]|].
    unfold buffer_get. rewrite Lh, Nat.eqb_refl. change (assert true) with (Some tt). cbn [obind].
    destruct (push_layers_ok c (d_pair_counts s) Hc (b_dp s B)) as [layers [hc [mx [E1 [L1 [L2 [V1 [V2 V3]]]]]]]]. rewrite E1. cbn [obind].
    destruct (b_pl s B) as [nr Hpl].
    destruct (push_rows_ok k hc (d_pair_list s) nr Hpl) as [pl1 [nr1 [E2 [Hpl1 [N1 [N2 N3]]]]]]; [rewrite L2; apply (b_dp s B)|].
    rewrite E2. cbn [obind].
    assert (Hlay : forall idx x l, nth_error c idx = Some x -> nth_error layers idx = Some l ->
       l = length (concat (W x)) + cnt x (firstn idx c) /\ x < cc).
    { intros idx x l Hx Hl. assert (Hxc : x < cc) by (apply Hc; eapply nth_error_In; eauto).
      rewrite (V1 idx x _ Hx (p_dp s W P x Hxc)) in Hl. injection Hl as <-. auto. }
    assert (Hcnt : forall idx x, nth_error c idx = Some x -> cnt x (firstn idx c) < cnt x c).
    { intros idx x Hx. unfold cnt. pose proof (filter_nth (Nat.eqb x) c idx x Hx (Nat.eqb_refl x)) as Q. eapply nth_error_some_lt; eauto. }
    assert (Hhc : forall x, x < cc -> nth_error hc x = Some (length (concat (W x)) + cnt x c)).
    { intros x Hx. apply V2. apply (p_dp s W P x Hx). }
    destruct (push_kernel_ok (ord d (k + 2) (seq 0 (length c))) c i j layers pl1 nr1) as [pl2 [E3 [Hpl2 [K1 K2]]]]; auto; try (apply Hd).
    { intros idx x l Hx Hl. destruct (Hlay idx x l Hx Hl) as [-> Hxc]. split; auto.
      specialize (Hcnt idx x Hx). specialize (N1 x _ Hxc (Hhc x Hxc)). lia. }
    { intros idx idx' x l Hx Hx' Hl Hl'. destruct (Hlay idx x l Hx Hl) as [Q _]. destruct (Hlay idx' x l Hx' Hl') as [Q' _].
      apply (filter_rank_inj (Nat.eqb x) c idx idx' x x); auto using Nat.eqb_refl. unfold cnt in *. lia. }
    rewrite E3. cbn [obind]. unfold buffer_set. rewrite L2, Nat.leb_refl. change (assert true) with (Some tt). cbn [obind].
    rewrite skipn_all, app_nil_r.
    assert (Pord : forall x, In x (ord d (k + 3) (seq 0 cc)) <-> x < cc).
    { assert (P0 : Permutation (ord d (k + 3) (seq 0 cc)) (seq 0 cc)) by apply Hd. intros x. split; intros Hx.
      - apply (Permutation_in _ P0), in_seq in Hx. lia.
      - apply (Permutation_in _ (Permutation_sym P0)), in_seq. lia. }
    destruct (foldM_upd (fun m ix => v <- rd hc ix ;; upd m ix v) (fun a => a) (fun a => nth a hc 0)
       (ord d (k + 3) (seq 0 cc)) (fresh d (k + 3) cc)) as [counts [E4 [L4 [V4 _]]]].
    { intros m' a _ Ha. apply Pord in Ha.
      unfold rd. rewrite (nth_error_nth' hc 0); auto. pose proof (b_dp s B). lia. }
    { intros a Ha. apply Pord in Ha. rewrite fresh_length. lia. }
    { intros; congruence. }
    rewrite E4. cbn [obind]. rewrite fresh_length in L4.
    destruct (@scan1_correct nat Nat.add 0 ltac:(repeat split; intros; lia) (Z.to_nat (junk d (k + 4) 0)) cc counts (d_pair_counts_es s))
      as [es [E5 [S1 [_ L5]]]]; [lia|apply (b_es s B)|].
    rewrite E5. cbn [obind]. unfold sub_. destruct (Nat.ltb_spec cc 1) as [|_]; [lia|]. cbn [obind].
    assert (Ecounts : counts = map (fun x => length (concat (pushed_waves W c i j x))) (seq 0 cc)).
    { apply nth_error_ext. intros x. rewrite nth_error_map_seq. destruct (Nat.ltb_spec x cc) as [Hx|Hx].
      - rewrite V4 by (apply Pord; auto).
        rewrite (nth_error_nth hc x 0 (Hhc x Hx)). unfold pushed_waves. cbn [concat app Nat.add]. rewrite app_nil_r, app_length, cnt_new by auto. auto.
      - apply nth_error_None. lia. }
    assert (Hes : forall x, x < cc -> nth_error es x = Some (before (pushed_waves W c i j) x)).
    { intros x Hx. rewrite S1 by auto. f_equal. unfold before, total. rewrite Ecounts, firstn_map.
      replace (firstn x (seq 0 cc)) with (seq 0 x); [reflexivity|].
      replace cc with (x + (cc - x)) by lia. rewrite seq_app, firstn_app, seq_length, Nat.sub_diag. cbn [firstn]. rewrite app_nil_r.
      symmetry. apply firstn_all2. rewrite seq_length; auto. }
    unfold rd. rewrite (Hes (cc - 1)) by lia. cbn [obind]. rewrite (Hhc (cc - 1)) by lia. cbn [obind].
    destruct (foldM_upd (fun m cx => upd m cx 1) (fun a => a) (fun _ => 1) (seq 0 cc) (d_wave_count s)) as [dw [E6 [L6 [V6 _]]]]; auto.
    { intros a Ha. apply in_seq in Ha. rewrite (b_dw s B). lia. }
    rewrite E6. cbn [obind]. eexists. split; [reflexivity|].
    assert (Wl : forall x, length (pushed_waves W c i j x) = 1) by reflexivity.
    assert (Wc : forall x, concat (pushed_waves W c i j x) = concat (W x) ++ new_pairs c i j x) by (intros; unfold pushed_waves; cbn; apply app_nil_r).
    split; [|split; [|split; [|split]]]; cbn [h_wave_count d_wave_count d_wave_offsets d_pair_list d_pair_counts d_pair_counts_es h_pair_counts h_pair_counts_es max_pair_count max_wave_count pair_count mode].
    - constructor; cbn [h_wave_count d_wave_count d_wave_offsets d_pair_list d_pair_counts d_pair_counts_es h_pair_counts h_pair_counts_es max_pair_count max_wave_count pair_count mode].
      + rewrite map_length. apply (b_hw s B).
      + rewrite L6. apply (b_dw s B).
      + apply (b_wo s B).
      + rewrite L2. apply (b_dp s B).
      + rewrite L5. apply (b_es s B).
      + eauto.
      + auto.
    - assert (W0 : forall x w Q, nth_error (pushed_waves W c i j x) w = Some Q -> w = 0 /\ Q = concat (W x) ++ new_pairs c i j x).
      { intros x [|[|w]] Q; unfold pushed_waves; cbn; intros; try discriminate. split; congruence. }
      constructor; cbn [h_wave_count d_wave_count d_wave_offsets d_pair_list d_pair_counts d_pair_counts_es h_pair_counts h_pair_counts_es max_pair_count max_wave_count pair_count mode].
      + intros x Hx. rewrite Wl, nth_error_map. destruct (nth_error_lt_some (h_wave_count s) x) as [y ->]; [rewrite (b_hw s B); auto|]. auto.
      + intros x Hx. rewrite Wl. apply V6. apply in_seq. lia.
      + intros x w Q Hx HQ. apply W0 in HQ as [-> ->]. cbn [Nat.mul Nat.add]. rewrite Hhc by auto. rewrite app_length, cnt_new by auto. auto.
      + intros x w Q Hx HQ. apply W0 in HQ as [-> ->]. cbn [Nat.mul Nat.add]. rewrite Hhc by auto. rewrite app_length, cnt_new by auto. auto.
      + intros x w Hx Hw. rewrite Wl in Hw. assert (w = 0) by lia. subst w. cbn [Nat.mul Nat.add firstn concat length]. apply (p_wo s W P x Hx).
      + intros x w Hx Hw. rewrite Wl in Hw. assert (w = 0) by lia. subst w. cbn [Nat.mul Nat.add firstn concat length]. rewrite Nat.add_0_r. apply Hes; auto.
      + intros x p q Hx Hp. rewrite Wc in Hp. destruct (lt_dec p (length (concat (W x)))) as [Hpl'|Hpl'].
        * rewrite nth_error_app1 in Hp by auto. destruct (r_rows s F W R x p q Hx Hp) as [Q0 Q1].
          assert (Hnr : p < nr x).
          { destruct (pls_cell _ _ x Hpl Hx) as [a [b [Ea [La Lb]]]]. unfold rd3, rd2, rd in Q0. rewrite Ea in Q0. cbn in Q0.
            rewrite <- La. eapply nth_error_some_lt; eauto. }
          assert (Hne : forall idx l, nth_error c idx = Some x -> nth_error layers idx = Some l -> l <> p).
          { intros idx l Hxx Hl. destruct (Hlay idx x l Hxx Hl) as [-> _]. lia. }
          rewrite !K2 by auto. rewrite !N3 by (auto; lia). auto.
        * rewrite nth_error_app2 in Hp by lia. destruct (nth_new c i j x _ q Li Lj Hp) as [idx [I1 [I2 [I3 I4]]]].
          assert (El : nth_error layers idx = Some p).
          { rewrite (V1 idx x _ I1 (p_dp s W P x Hx)). f_equal. lia. }
          apply (K1 idx x p); auto.
      + intros x Hx. rewrite Wl. left. lia.
      + intros _. auto.
      + f_equal. transitivity (before (pushed_waves W c i j) (S (cc - 1))); [|f_equal; lia]. rewrite before_S, Wc, app_length, cnt_new by auto. auto.
      + discriminate.
    - constructor; cbn [d_wave_offsets d_pair_counts].
      + apply (p_wo s W P).
      + intros x Hx. rewrite Wc, app_length, cnt_new by auto. auto.
    - lia.
    - lia.
  Qed.

  Lemma push_valid k s c i j s' : push_back d cc k s c i j = Some s' ->
    length i = length c /\ length j = length c /\ (c <> [] -> length (h_pair_counts s) = length (d_pair_counts s)) /\ (forall x, In x c -> x < cc).
  Proof.
    unfold push_back. destruct ((mode s =? 0) || (mode s =? 1)); [|discriminate]. change (assert true) with (Some tt). cbn [obind].
    destruct (Nat.eqb_spec (length c) (length i)) as [Ei|]; [|discriminate]. change (assert true) with (Some tt). cbn [obind].
    destruct (Nat.eqb_spec (length c) (length j)) as [Ej|]; [|discriminate]. change (assert true) with (Some tt). cbn [obind].
    destruct (Nat.eqb_spec (length c) 0) as [E0|E0].
    - intros _. destruct c; [|discriminate]. repeat split; auto; try congruence. cbn; tauto.
    - unfold buffer_get. destruct (Nat.eqb_spec (length (h_pair_counts s)) (length (d_pair_counts s))) as [El|]; [|discriminate].
      change (assert true) with (Some tt). cbn [obind]. destruct (push_layers cc c (d_pair_counts s)) as [r|] eqn:E; [|discriminate].
      intros _. repeat split; auto. eapply push_layers_valid; eauto.
  Qed.
End Simple.
