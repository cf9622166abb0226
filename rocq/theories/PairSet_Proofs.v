(** Proofs about CellwisePairListSimple::set and whole histories. *)
From Coq Require Import List Arith Lia ZArith Bool Permutation.
Import ListNotations.
From Verif Require Import Base Kernel Group_Model Transpose_Proofs PairList_Model PairList_Spec PairHost_Proofs PairSimple_Proofs.

Lemma seq_pre n pre a post : seq 0 n = pre ++ a :: post -> a = length pre /\ length pre < n /\ pre = seq 0 (length pre).
Proof.
  intros E.
  assert (Q : nth_error (seq 0 n) (length pre) = Some a) by (rewrite E, nth_error_app2, Nat.sub_diag by lia; auto).
  rewrite nth_error_seq in Q. destruct (Nat.ltb_spec (length pre) n) as [H|]; [|discriminate]. injection Q as <-. split; auto. split; auto.
  replace n with (length pre + (n - length pre)) in E by lia. rewrite seq_app in E.
  apply (f_equal (firstn (length pre))) in E. rewrite !firstn_app, !seq_length, !Nat.sub_diag in E. cbn [firstn] in E.
  rewrite !app_nil_r in E. rewrite firstn_all2 in E by (rewrite seq_length; auto). rewrite firstn_all in E. auto.
Qed.

Lemma concat_firstn_S {A} (W : list (list A)) w P : nth_error W w = Some P -> concat (firstn (S w) W) = concat (firstn w W) ++ P.
Proof.
  revert w. induction W as [|Q W IH]; intros [|w] H; try discriminate.
  - cbn in H. injection H as ->. cbn. apply app_nil_r.
  - cbn [nth_error] in H. cbn [firstn concat] in *. rewrite <- app_assoc. f_equal. rewrite <- IH; auto.
Qed.

Section Set_.
  Context (d : device) (cc : nat).
  Hypothesis Hd : device_ok d.

  Definition host_map_ok (m : host_map) (W : nat -> list (list (nat * nat))) : Prop :=
    forall c, length (waves_of m c) = length (W c) /\
      forall w P, nth_error (W c) w = Some P -> map_find Nat.eqb (waves_of m c) w = Some (map fst P, map snd P).

  Lemma host_map_ok_intro h T : host_inv h T -> host_map_ok (map_wave_to_pairs h) (host_waves h).
  Proof.
    intros I c. split; [unfold host_waves; rewrite map_length, seq_length; auto|].
    intros w P HP. pose proof (nth_error_some_lt _ _ _ HP) as B. rewrite (host_waves_sel _ _ c I) in HP, B.
    rewrite map_length, seq_length in B. rewrite nth_error_map_seq in HP. apply Nat.ltb_lt in B as B'. rewrite B' in HP. injection HP as <-. cbn [Nat.add].
    destruct I as [_ [I2 I3]]. specialize (I2 c). specialize (I3 c w). unfold wave_of in I3.
    assert (F : exists v, map_find Nat.eqb (waves_of (map_wave_to_pairs h) c) w = Some v).
    { clear I3. assert (Hin : In w (map fst (waves_of (map_wave_to_pairs h) c))) by (rewrite I2; apply in_seq; lia).
      clear -Hin. unfold map_find. induction (waves_of (map_wave_to_pairs h) c) as [|[k v] l IH]; [destruct Hin|].
      cbn [find fst]. destruct (Nat.eqb_spec w k); [eauto|]. apply IH. destruct Hin as [Hin|Hin]; [cbn in Hin; congruence|auto]. }
    destruct F as [v F]. rewrite F in *. congruence.
  Qed.

  Context (m : host_map) (W : nat -> list (list (nat * nat))).
  Hypothesis Hm : host_map_ok m W.

  Lemma set_wave_counts_ok h : length h = cc -> exists h' mw, set_wave_counts cc m h = Some (h', mw) /\ length h' = cc /\
    (forall c, c < cc -> nth_error h' c = Some (length (W c))) /\ (forall c, c < cc -> length (W c) <= mw).
  Proof.
    intros L. unfold set_wave_counts.
    match goal with |- context [foldM ?fn ?s0 (seq 0 cc)] =>
    destruct (foldM_ind fn
      (fun pre s => length (fst s) = cc /\ (forall c, In c pre -> nth_error (fst s) c = Some (length (W c))) /\
         (forall c, In c pre -> length (W c) <= snd s)) (seq 0 cc) s0) as [[h' mw] [E [A [B D]]]] end.
    - cbn. tauto.
    - intros pre c post [h' mw] Es [A [B D]]. destruct (seq_pre _ _ _ _ Es) as [-> [Hc _]]. cbn [fst snd] in *.
      destruct (upd_some h' (length pre) (length (waves_of m (length pre)))) as [h2 E2]; [lia|]. rewrite E2. cbn [obind].
      eexists. split; [reflexivity|]. cbn [fst snd]. split; [rewrite (upd_length _ _ _ _ E2); auto|].
      rewrite (proj1 (Hm (length pre))) in *. split.
      + intros x Hx. rewrite (upd_nth _ _ _ _ x E2). destruct (Nat.eqb_spec x (length pre)) as [->|N]; auto.
        apply in_app_or in Hx as [Hx|[Hx|[]]]; [auto|congruence].
      + intros x Hx. apply in_app_or in Hx as [Hx|[<-|[]]]; [apply D in Hx|]; lia.
    - exists h', mw. cbn [fst snd] in *. split; auto. split; auto. split; intros c Hc; [apply B|apply D]; apply in_seq; lia.
  Qed.

  Lemma tables_inner size c pc wo es lin : c < cc -> length (W c) * cc <= size ->
    length pc = size -> length wo = size -> length es = size ->
    exists pc' wo' es',
      foldM (fun '(pc, wo, es, linear_offset, num_pairs) wavex =>
           w <- map_find Nat.eqb (waves_of m c) wavex ;;
           let num_pairs_wave := length (fst w) in
           pc' <- upd pc (wavex * cc + c) num_pairs_wave ;;
           wo' <- upd wo (wavex * cc + c) num_pairs ;;
           es' <- upd es (wavex * cc + c) linear_offset ;;
           Some (pc', wo', es', linear_offset + num_pairs_wave, num_pairs + num_pairs_wave))
         (pc, wo, es, lin, 0) (seq 0 (length (waves_of m c))) = Some (pc', wo', es', lin + length (concat (W c)), length (concat (W c))) /\
      length pc' = size /\ length wo' = size /\ length es' = size /\
      (forall w P, nth_error (W c) w = Some P -> nth_error pc' (w * cc + c) = Some (length P) /\
         nth_error wo' (w * cc + c) = Some (length (concat (firstn w (W c)))) /\
         nth_error es' (w * cc + c) = Some (lin + length (concat (firstn w (W c))))) /\
      (forall w x, x < cc -> x <> c -> nth_error pc' (w * cc + x) = nth_error pc (w * cc + x) /\
         nth_error wo' (w * cc + x) = nth_error wo (w * cc + x) /\ nth_error es' (w * cc + x) = nth_error es (w * cc + x)).
  Proof.
    intros Hc Hs L1 L2 L3. rewrite (proj1 (Hm c)).
    match goal with |- context [foldM ?fn ?s0 ?l] =>
    destruct (foldM_ind fn
      (fun pre (s : list nat * list nat * list nat * nat * nat) => let '(pc', wo', es', lin', np) := s in
         length pc' = size /\ length wo' = size /\ length es' = size /\
         np = length (concat (firstn (length pre) (W c))) /\ lin' = lin + np /\
         (forall w P, w < length pre -> nth_error (W c) w = Some P -> nth_error pc' (w * cc + c) = Some (length P) /\
            nth_error wo' (w * cc + c) = Some (length (concat (firstn w (W c)))) /\
            nth_error es' (w * cc + c) = Some (lin + length (concat (firstn w (W c))))) /\
         (forall w x, x < cc -> x <> c -> nth_error pc' (w * cc + x) = nth_error pc (w * cc + x) /\
            nth_error wo' (w * cc + x) = nth_error wo (w * cc + x) /\ nth_error es' (w * cc + x) = nth_error es (w * cc + x)))
      l s0) as [[[[[pc' wo'] es'] lin'] np] [E H]] end.
    - cbn. repeat split; auto; try lia; intros; lia.
    - intros pre a post [[[[pc' wo'] es'] lin'] np] Es [A1 [A2 [A3 [A4 [A5 [A6 A7]]]]]].
      destruct (seq_pre _ _ _ _ Es) as [-> [Ha _]]. set (w := length pre) in *.
      destruct (nth_error_lt_some (W c) w Ha) as [P HP]. rewrite (proj2 (Hm c) w P HP). cbn [obind fst]. rewrite map_length.
      assert (Hi : w * cc + c < size) by nia.
      destruct (upd_some pc' (w * cc + c) (length P)) as [pc2 E1]; [lia|].
      destruct (upd_some wo' (w * cc + c) np) as [wo2 E2]; [lia|].
      destruct (upd_some es' (w * cc + c) lin') as [es2 E3]; [lia|]. rewrite E1; cbn [obind]; rewrite E2; cbn [obind]; rewrite E3; cbn [obind].
      eexists. split; [reflexivity|]. cbn beta iota.
      rewrite (upd_length _ _ _ _ E1), (upd_length _ _ _ _ E2), (upd_length _ _ _ _ E3).
      rewrite app_length. cbn [length]. fold w. replace (w + 1) with (S w) by lia. rewrite (concat_firstn_S _ _ _ HP), app_length.
      split; auto. split; auto. split; auto. split; [lia|]. split; [lia|]. split.
      + intros w' P' Hw' HP'. rewrite (upd_nth _ _ _ _ _ E1), (upd_nth _ _ _ _ _ E2), (upd_nth _ _ _ _ _ E3).
        destruct (Nat.eqb_spec (w' * cc + c) (w * cc + c)) as [Q|Q].
        * assert (w' = w) by nia. subst w'. rewrite HP in HP'. injection HP' as <-. subst np lin'. auto.
        * apply A6; auto. assert (w' <> w) by congruence. lia.
      + intros w' x Hx Hn. rewrite (upd_nth _ _ _ _ _ E1), (upd_nth _ _ _ _ _ E2), (upd_nth _ _ _ _ _ E3).
        destruct (Nat.eqb_spec (w' * cc + x) (w * cc + c)) as [Q|Q]; [|auto].
        apply mul_add_inj in Q; auto. lia.
    - destruct H as [A1 [A2 [A3 [A4 [A5 [A6 A7]]]]]]. rewrite seq_length, firstn_all in A4. subst np lin'. exists pc', wo', es'.
      split; auto. split; auto. split; auto. split; auto. split; auto. intros w P HP. apply A6; auto. rewrite seq_length. eapply nth_error_some_lt; eauto.
  Qed.

  Lemma tables_ok k size pc wo es pl nr : (forall c, c < cc -> length (W c) * cc <= size) ->
    length pc = size -> length wo = size -> length es = size -> pls cc pl nr ->
    exists pc' wo' es' pl' nr', foldM (set_tables_cell d cc k m) (pc, wo, es, 0, pl) (seq 0 cc) = Some (pc', wo', es', before W cc, pl') /\
      length pc' = size /\ length wo' = size /\ length es' = size /\ pls cc pl' nr' /\
      (forall c, c < cc -> length (concat (W c)) <= nr' c) /\
      (forall c w P, c < cc -> nth_error (W c) w = Some P -> nth_error pc' (w * cc + c) = Some (length P) /\
         nth_error wo' (w * cc + c) = Some (length (concat (firstn w (W c)))) /\
         nth_error es' (w * cc + c) = Some (before W c + length (concat (firstn w (W c))))).
  Proof.
    intros Hs L1 L2 L3 Hpl.
    destruct (foldM_ind (set_tables_cell d cc k m)
      (fun pre (s : list nat * list nat * list nat * nat * list (list (list nat))) => let '(pc', wo', es', lin, pl') := s in
         length pc' = size /\ length wo' = size /\ length es' = size /\ lin = before W (length pre) /\
         (exists nr', pls cc pl' nr' /\ forall c, c < length pre -> length (concat (W c)) <= nr' c) /\
         (forall c w P, c < length pre -> nth_error (W c) w = Some P -> nth_error pc' (w * cc + c) = Some (length P) /\
            nth_error wo' (w * cc + c) = Some (length (concat (firstn w (W c)))) /\
            nth_error es' (w * cc + c) = Some (before W c + length (concat (firstn w (W c))))))
      (seq 0 cc) (pc, wo, es, 0, pl)) as [[[[[pc' wo'] es'] lin] pl'] [E H]].
    - split; auto. split; auto. split; auto. split; auto. split.
      + exists nr. split; auto. cbn; intros; lia.
      + cbn; intros; lia.
    - intros pre c post [[[[pc' wo'] es'] lin] pl'] Es [A1 [A2 [A3 [A4 [[nr' [A5 A6]] A7]]]]].
      destruct (seq_pre _ _ _ _ Es) as [Ec [Hc _]]. rewrite <- Ec in *.
      unfold set_tables_cell.
      destruct (tables_inner size c pc' wo' es' lin Hc (Hs c Hc) A1 A2 A3) as [pc2 [wo2 [es2 [E [B1 [B2 [B3 [B4 B5]]]]]]]].
      cbv zeta in E. rewrite E. cbn [obind].
      assert (G : exists pl2 nr2, (if length (concat (W c)) =? 0 then Some pl' else set_nrow d k c (length (concat (W c))) pl') = Some pl2 /\
         pls cc pl2 nr2 /\ length (concat (W c)) <= nr2 c /\ forall x, x < c -> nr2 x = nr' x).
      { destruct (Nat.eqb_spec (length (concat (W c))) 0) as [Z0|Z0].
        - exists pl', nr'. rewrite Z0. repeat split; auto. lia.
        - destruct (pls_set_nrow d cc pl' nr' k c (length (concat (W c))) A5 Hc) as [pl2 [E2 [P2 _]]]. exists pl2. eexists.
          split; auto. split; [exact P2|]. cbn beta. rewrite Nat.eqb_refl. split; auto. intros x Hx. destruct (Nat.eqb_spec x c); [lia|auto]. }
      destruct G as [pl2 [nr2 [E2 [P2 [P3 P4]]]]]. rewrite E2. cbn [obind]. eexists. split; [reflexivity|]. cbn beta iota.
      rewrite app_length. cbn [length]. replace (length pre + 1) with (S c) by lia. rewrite before_S.
      split; auto. split; auto. split; auto. split; [lia|]. split.
      + exists nr2. split; auto. intros x Hx. destruct (Nat.eq_dec x c) as [->|N]; auto. rewrite P4 by lia. apply A6. lia.
      + intros x w P Hx HP. destruct (Nat.eq_dec x c) as [->|N].
        * subst lin. apply B4. auto.
        * destruct (B5 w x) as [Q1 [Q2 Q3]]; [lia|auto|]. rewrite Q1, Q2, Q3. apply A7; auto. lia.
    - rewrite seq_length in H. destruct H as [A1 [A2 [A3 [A4 [[nr' [A5 A6]] A7]]]]]. subst lin. exists pc', wo', es', pl', nr'. auto 10.
  Qed.

  Lemma pairs_inner c pl nr mx total : c < cc -> pls cc pl nr -> length (concat (W c)) <= nr c ->
    exists pl' mx', set_pairs_cell m (pl, mx, total) c = Some (pl', mx', total + length (concat (W c))) /\
      pls cc pl' nr /\ mx <= mx' /\ (concat (W c) <> [] -> 0 < mx') /\
      (forall p q, nth_error (concat (W c)) p = Some q -> rd3 pl' c 0 p = Some (fst q) /\ rd3 pl' c 1 p = Some (snd q)) /\
      (forall x f r, x <> c -> rd3 pl' x f r = rd3 pl x f r).
  Proof.
    intros Hc Hpl Hn. unfold set_pairs_cell. rewrite (proj1 (Hm c)).
    match goal with |- context [foldM ?fn ?s0 ?l] =>
    destruct (foldM_ind fn
      (fun pre (s : list (list (list nat)) * nat * nat * nat) => let '(pl', mx', total', np) := s in
         pls cc pl' nr /\ mx <= mx' /\ np = length (concat (firstn (length pre) (W c))) /\ total' = total + np /\
         (0 < np -> 0 < mx') /\
         (forall p q, p < np -> nth_error (concat (W c)) p = Some q -> rd3 pl' c 0 p = Some (fst q) /\ rd3 pl' c 1 p = Some (snd q)) /\
         (forall x f r, x <> c -> rd3 pl' x f r = rd3 pl x f r)) l s0) as [[[[pl' mx'] total'] np] [E H]] end.
    - cbn. repeat split; auto; intros; lia.
    - intros pre a post [[[pl' mx'] total'] np] Es [A1 [A2 [A3 [A4 [A5 [A6 A7]]]]]].
      destruct (seq_pre _ _ _ _ Es) as [-> [Ha _]]. set (w := length pre) in *.
      destruct (nth_error_lt_some (W c) w Ha) as [P HP]. rewrite (proj2 (Hm c) w P HP). cbn [obind fst snd]. rewrite map_length.
      assert (Hsp : concat (W c) = concat (firstn w (W c)) ++ P ++ concat (skipn (S w) (W c))).
      { rewrite <- (firstn_skipn (S w) (W c)) at 1. rewrite concat_app, (concat_firstn_S _ _ _ HP), <- app_assoc. auto. }
      assert (Hlen : np + length P <= nr c). { rewrite Hsp, !app_length in Hn. lia. }
      rewrite app_length. cbn [length]. fold w. replace (w + 1) with (S w) by lia. rewrite (concat_firstn_S _ _ _ HP), app_length.
      destruct (Nat.eqb_spec (length P) 0) as [Z0|Z0].
      + cbn [obind]. eexists. split; [reflexivity|]. cbn beta iota. rewrite Z0, !Nat.add_0_r. auto 10.
      + destruct (copy_column_ok cc pl' nr c 0 np (map fst P) A1 Hc) as [pl1 [E1 [P1 [V1 N1]]]]; [lia|rewrite map_length; auto|].
        rewrite E1. cbn [obind]. rewrite map_length, Nat.leb_refl. change (assert true) with (Some tt). cbn [obind].
        rewrite firstn_all2 by (rewrite map_length; auto).
        destruct (copy_column_ok cc pl1 nr c 1 np (map snd P) P1 Hc) as [pl2 [E2 [P2 [V2 N2]]]]; [lia|rewrite map_length; auto|].
        rewrite E2. cbn [obind]. eexists. split; [reflexivity|]. cbn beta iota. rewrite map_length in *.
        split; auto. split; [lia|]. split; [lia|]. split; [lia|]. split; [lia|]. split.
        * intros p q Hp Hq. destruct (lt_dec p np) as [Hlt|Hge].
          -- rewrite !N2 by lia. rewrite !N1 by lia. apply A6; auto.
          -- assert (Hq' : nth_error P (p - np) = Some q).
             { rewrite Hsp in Hq. rewrite nth_error_app2 in Hq by lia. rewrite nth_error_app1 in Hq by lia. subst np. auto. }
             replace p with (np + (p - np)) by lia. split.
             ++ rewrite N2 by lia. apply V1. rewrite nth_error_map, Hq'. auto.
             ++ apply V2. rewrite nth_error_map, Hq'. auto.
        * intros x f r Hx. rewrite N2, N1 by auto. auto.
    - destruct H as [A1 [A2 [A3 [A4 [A5 [A6 A7]]]]]]. rewrite seq_length, firstn_all in A3. rewrite E. cbn [obind fst]. subst np total'.
      exists pl', mx'. split; auto. split; auto. split; auto. split.
      + intros Q. apply A5. destruct (concat (W c)); [congruence|cbn; lia].
      + split; auto. intros p q Hq. apply A6; auto. eapply nth_error_some_lt; eauto.
  Qed.

  Lemma pairs_ok pl nr : pls cc pl nr -> (forall c, c < cc -> length (concat (W c)) <= nr c) ->
    exists pl' mx, foldM (set_pairs_cell m) (pl, 0, 0) (seq 0 cc) = Some (pl', mx, before W cc) /\ pls cc pl' nr /\
      ((exists c, c < cc /\ concat (W c) <> []) -> 0 < mx) /\
      (forall c p q, c < cc -> nth_error (concat (W c)) p = Some q -> rd3 pl' c 0 p = Some (fst q) /\ rd3 pl' c 1 p = Some (snd q)).
  Proof.
    intros Hpl Hn.
    destruct (foldM_ind (set_pairs_cell m)
      (fun pre (s : list (list (list nat)) * nat * nat) => let '(pl', mx, total) := s in
         pls cc pl' nr /\ total = before W (length pre) /\ ((exists c, c < length pre /\ concat (W c) <> []) -> 0 < mx) /\
         (forall c p q, c < length pre -> nth_error (concat (W c)) p = Some q -> rd3 pl' c 0 p = Some (fst q) /\ rd3 pl' c 1 p = Some (snd q)))
      (seq 0 cc) (pl, 0, 0)) as [[[pl' mx] total] [E H]].
    - repeat split; auto; cbn in *; try (intros; lia). intros [c [Hc _]]; lia.
    - intros pre c post [[pl' mx] total] Es [A1 [A2 [A3 A4]]]. destruct (seq_pre _ _ _ _ Es) as [Ec [Hc _]]. rewrite <- Ec in *.
      destruct (pairs_inner c pl' nr mx total Hc A1 (Hn c Hc)) as [pl2 [mx2 [E [B1 [B2 [B3 [B4 B5]]]]]]].
      eexists. split; [exact E|]. cbn beta iota. rewrite app_length. cbn [length]. replace (length pre + 1) with (S c) by lia. rewrite before_S.
      split; auto. split; [lia|]. split.
      + intros [x [Hx Q]]. destruct (Nat.eq_dec x c) as [->|N]; auto. assert (0 < mx); [|lia]. apply A3. exists x. split; auto. lia.
      + intros x p q Hx Hq. destruct (Nat.eq_dec x c) as [->|N]; auto. rewrite !B5 by auto. apply A4; auto. lia.
    - rewrite seq_length in H. destruct H as [A1 [A2 [A3 A4]]]. subst total. exists pl', mx. auto.
  Qed.

  Lemma realloc_ok k size buf : (length buf = 0 -> size = 0) -> exists buf', realloc_no_copy d k size buf = Some buf' /\
    length buf <= length buf' /\ size <= length buf'.
  Proof.
    intros H. unfold realloc_no_copy. destruct (Nat.eqb_spec size 0); [exists buf; repeat split; auto; lia|].
    destruct (Nat.ltb_spec (length buf) size); [|exists buf; repeat split; auto; lia].
    destruct (Nat.ltb_spec 0 (length buf)); [|lia]. cbn. exists (fresh d k size). rewrite fresh_length. repeat split; auto; lia.
  Qed.

  Lemma buffer_set_ok buf data : length data <= length buf -> exists buf', buffer_set buf data = Some buf' /\ length buf' = length buf /\
    forall i, i < length data -> nth_error buf' i = nth_error data i.
  Proof.
    intros H. unfold buffer_set. apply Nat.leb_le in H as H'. rewrite H'. cbn. eexists. split; [reflexivity|].
    rewrite app_length, skipn_length. split; [lia|]. intros i Hi. apply nth_error_app1; auto.
  Qed.

  Lemma set_ok k s : base cc s -> exists s', set d cc k s cc m = Some s' /\ base cc s' /\ rep cc s' true W.
  Proof.
    intros B. unfold set. rewrite Nat.eqb_refl. change (assert true) with (Some tt). cbn [obind].
    destruct (set_wave_counts_ok (h_wave_count s) (b_hw cc s B)) as [hw [mw [E1 [L1 [V1 M1]]]]]. rewrite E1. cbn [obind].
    destruct (buffer_set_ok (d_wave_count s) hw) as [dw [E2 [L2 V2]]]; [rewrite L1, (b_dw cc s B); auto|]. rewrite E2. cbn [obind].
    pose proof (b_wo cc s B) as Bo. pose proof (b_dp cc s B) as Bp. pose proof (b_es cc s B) as Be.
    destruct (realloc_ok k (mw * cc) (d_wave_offsets s)) as [dwo [E3 [L3 L3']]]; [intros; assert (cc = 0) by lia; nia|]. rewrite E3. cbn [obind].
    destruct (realloc_ok (k + 1) (mw * cc) (d_pair_counts s)) as [dpc [E4 [L4 L4']]]; [intros; assert (cc = 0) by lia; nia|]. rewrite E4. cbn [obind].
    destruct (realloc_ok (k + 2) (mw * cc) (d_pair_counts_es s)) as [des [E5 [L5 L5']]]; [intros; assert (cc = 0) by lia; nia|]. rewrite E5. cbn [obind].
    destruct (b_pl cc s B) as [nr Hpl].
    destruct (tables_ok (k + 3) (mw * cc) (repeat 0 (mw * cc)) (repeat 0 (mw * cc)) (vector_resize (mw * cc) (h_pair_counts_es s)) (d_pair_list s) nr)
      as [pc [wo [es [pl [nr' [E6 [T1 [T2 [T3 [T4 [T5 T6]]]]]]]]]]]; auto using repeat_length.
    { intros c Hc. specialize (M1 c Hc). nia. }
    { unfold vector_resize. rewrite app_length, firstn_length, repeat_length. lia. }
    rewrite E6. cbn [obind].
    destruct (buffer_set_ok dwo wo) as [dwo' [E7 [L7 V7]]]; [lia|]. rewrite E7. cbn [obind].
    destruct (buffer_set_ok dpc pc) as [dpc' [E8 [L8 V8]]]; [lia|]. rewrite E8. cbn [obind].
    destruct (buffer_set_ok des es) as [des' [E9 [L9 V9]]]; [lia|]. rewrite E9. cbn [obind].
    destruct (pairs_ok pl nr' T4 T5) as [pl' [mx [E10 [P1 [P2 P3]]]]]. rewrite E10. cbn [obind].
    eexists. split; [reflexivity|].
    assert (Hi : forall c w, c < cc -> w < length (W c) -> w * cc + c < mw * cc).
    { intros c w Hc Hw. specialize (M1 c Hc). nia. }
    split; constructor; cbn [h_wave_count d_wave_count d_wave_offsets d_pair_list d_pair_counts d_pair_counts_es h_pair_counts h_pair_counts_es max_pair_count max_wave_count pair_count mode]; auto.
    - rewrite L2. apply (b_dw cc s B).
    - lia.
    - lia.
    - lia.
    - eauto.
    - apply (b_mode cc s B).
    - intros c Hc. rewrite V2 by (rewrite L1; auto). auto.
    - intros c w P Hc HP. apply (T6 c w P Hc HP).
    - intros c w P Hc HP. pose proof (nth_error_some_lt _ _ _ HP) as Hw. rewrite V8 by (rewrite T1; auto). apply (T6 c w P Hc HP).
    - intros c w Hc Hw. destruct (nth_error_lt_some _ _ Hw) as [P HP]. rewrite V7 by (rewrite T2; auto). apply (T6 c w P Hc HP).
    - intros c w Hc Hw. destruct (nth_error_lt_some _ _ Hw) as [P HP]. rewrite V9 by (rewrite T3; auto). apply (T6 c w P Hc HP).
    - intros c Hc. specialize (M1 c Hc). left. lia.
    - intros H. apply P2 in H. lia.
    - discriminate.
  Qed.
End Set_.
