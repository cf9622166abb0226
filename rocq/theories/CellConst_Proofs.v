(** Proofs about CellDatConst. *)
From Coq Require Import List Arith Lia Bool.
Import ListNotations.
From Verif Require Import Base Kernel CellDat_Model CellConst_Model CellConst_Spec.

Lemma memcpy_ok {T} (dst src : list T) doff soff n : doff + n <= length dst -> soff + n <= length src ->
  exists r, memcpy dst doff src soff n = Some r /\ length r = length dst /\
    forall j, nth_error r j = if (doff <=? j) && (j <? doff + n) then nth_error src (soff + (j - doff)) else nth_error dst j.
Proof.
  unfold memcpy. induction n as [|n IH]; intros H1 H2.
  - exists dst. split; [reflexivity|]. split; [reflexivity|]. intros j.
    destruct (Nat.leb_spec doff j), (Nat.ltb_spec j (doff + 0)); try reflexivity. lia.
  - destruct IH as (r & E & L & N); [lia|lia|]. rewrite seq_S, foldM_app, E. cbn [obind foldM]. cbn [plus].
    destruct (nth_error_lt_some src (soff + n)) as [v V]; [lia|]. unfold rd. rewrite V. cbn [obind].
    destruct (upd_some r (doff + n) v) as [r' U]; [lia|]. rewrite U. cbn [obind]. exists r'. split; [reflexivity|].
    split; [rewrite (upd_length _ _ _ _ U); exact L|]. intros j. rewrite (upd_nth _ _ _ _ j U), N.
    destruct (Nat.eqb_spec j (doff + n)) as [->|Hj].
    + destruct (Nat.leb_spec doff (doff + n)), (Nat.ltb_spec (doff + n) (doff + S n)); try lia. cbn [andb].
      rewrite <- V. f_equal. lia.
    + destruct (Nat.leb_spec doff j), (Nat.ltb_spec j (doff + n)), (Nat.ltb_spec j (doff + S n)); try lia; reflexivity.
Qed.

Lemma fill_ok {T} (m : list T) (v : T) n : n <= length m ->
  exists r, foldM (fun m i => upd m i v) m (seq 0 n) = Some r /\ length r = length m /\
    forall j, nth_error r j = if j <? n then Some v else nth_error m j.
Proof.
  induction n as [|n IH]; intros H.
  - exists m. split; [reflexivity|]. split; reflexivity.
  - destruct IH as (r & E & L & N); [lia|]. rewrite seq_S, foldM_app, E. cbn [obind foldM plus].
    destruct (upd_some r n v) as [r' U]; [lia|]. rewrite U. cbn [obind]. exists r'. split; [reflexivity|].
    split; [rewrite (upd_length _ _ _ _ U); exact L|]. intros j. rewrite (upd_nth _ _ _ _ j U), N.
    destruct (Nat.eqb_spec j n), (Nat.ltb_spec j n), (Nat.ltb_spec j (S n)); try lia; reflexivity.
Qed.

(** Addresses. *)
Definition addr (R K c r k : nat) : nat := c * (R * K) + (R * k + r).

Lemma inner_lt R K r k : r < R -> k < K -> R * k + r < R * K.
Proof. intros. assert (R * k + R <= R * K) by nia. lia. Qed.

Lemma addr_lt N R K c r k : c < N -> r < R -> k < K -> addr R K c r k < N * R * K.
Proof. intros H1 H2 H3. pose proof (inner_lt R K r k H2 H3). unfold addr. assert (c * (R * K) + R * K <= N * R * K) by nia. lia. Qed.

Lemma addr_cell R K c r k c' i : r < R -> k < K -> i < R * K ->
  addr R K c r k = c' * (R * K) + i -> c = c' /\ R * k + r = i.
Proof.
  unfold addr. intros H1 H2 H3 E. pose proof (inner_lt R K r k H1 H2).
  assert (c = c') by nia. subst. split; [reflexivity|lia].
Qed.

Lemma addr_inj R K c r k c' r' k' : r < R -> k < K -> r' < R -> k' < K ->
  addr R K c r k = addr R K c' r' k' -> c = c' /\ r = r' /\ k = k'.
Proof.
  intros H1 H2 H3 H4 E. destruct (addr_cell R K c r k c' (R * k' + r')) as [-> F]; auto using inner_lt.
  assert (k = k') by nia. subst. split; [reflexivity|]. split; [lia|reflexivity].
Qed.

Section Histories.
  Context {T : Type} (N R K : nat).

  Record cc_holds (x : cell_const T) (f : matrices T) : Prop := {
    ch_n : cc_ncells x = N; ch_r : cc_nrow x = R; ch_k : cc_ncol x = K;
    ch_len : length (cc_data x) = N * R * K;
    ch_at : forall c r k, c < N -> r < R -> k < K -> nth_error (cc_data x) (addr R K c r k) = Some (f c r k)
  }.

  Lemma holds_upd x f c r k v i : cc_holds x f -> c < N -> r < R -> k < K -> i = addr R K c r k ->
    exists x', (data <- upd (cc_data x) i v ;; Some (cc_with x data)) = Some x' /\ cc_holds x' (replace f c r k v).
  Proof.
    intros H Hc Hr Hk ->. destruct H as [A B C D E].
    destruct (upd_some (cc_data x) (addr R K c r k) v) as [m U]; [rewrite D; auto using addr_lt|].
    rewrite U. cbn [obind]. eexists. split; [reflexivity|].
    constructor; cbn [cc_with cc_ncells cc_nrow cc_ncol cc_data]; auto.
    - rewrite (upd_length _ _ _ _ U). exact D.
    - intros c' r' k' Hc' Hr' Hk'. rewrite (upd_nth _ _ _ _ _ U), E by assumption. unfold replace.
      destruct (Nat.eqb_spec (addr R K c' r' k') (addr R K c r k)) as [Q|Q].
      + apply addr_inj in Q; auto. destruct Q as [-> [-> ->]]. rewrite !Nat.eqb_refl. reflexivity.
      + destruct (Nat.eqb_spec c' c), (Nat.eqb_spec r' r), (Nat.eqb_spec k' k); subst; cbn [andb]; congruence.
  Qed.

  Lemma host_data (d : celldata T) m : host_matrix R K d m -> forall r k, r < R -> k < K -> nth_error (cd_data d) (R * k + r) = Some (m r k).
  Proof. intros (A & B & C & D) r k Hr Hk. rewrite <- (D r k Hr Hk). unfold at_, rd. rewrite A. f_equal. lia. Qed.

  Lemma fill_holds x f v : cc_holds x f -> exists x', cc_fill x v = Some x' /\ cc_holds x' (fun _ _ _ => v).
  Proof.
    intros [A B C D E]. unfold cc_fill. destruct (_ && _) eqn:Q.
    - rewrite A, B, C. destruct (fill_ok (cc_data x) v (N * R * K)) as (m & F & L & G); [lia|].
      rewrite F. cbn [obind]. eexists. split; [reflexivity|]. constructor; cbn [cc_with cc_ncells cc_nrow cc_ncol cc_data]; auto; try congruence.
      intros c r k Hc Hr Hk. rewrite G. pose proof (addr_lt N R K c r k Hc Hr Hk). destruct (Nat.ltb_spec (addr R K c r k) (N * R * K)); [reflexivity|lia].
    - eexists. split; [reflexivity|]. constructor; auto. intros c r k Hc Hr Hk. rewrite B, C in Q. exfalso.
      destruct (Nat.eqb_spec R 0), (Nat.eqb_spec K 0); cbn in Q; try lia; discriminate.
  Qed.

  Lemma create_holds zero init : exists x, cc_create zero init N R K = Some x /\ cc_holds x (fun _ _ _ => zero).
  Proof.
    unfold cc_create. set (x0 := mk_cc N R K _).
    apply (fill_holds x0 (fun c r k => init (addr R K c r k))). constructor; try reflexivity; subst x0; cbn [cc_data].
    - rewrite map_length, seq_length. reflexivity.
    - intros c r k Hc Hr Hk. rewrite nth_error_map_seq. pose proof (addr_lt N R K c r k Hc Hr Hk).
      destruct (Nat.ltb_spec (addr R K c r k) (N * R * K)); [reflexivity|lia].
  Qed.

  Lemma set_cell_holds x f c d m : cc_holds x f -> c < N -> host_matrix R K d m ->
    exists x', cc_set_cell x c d = Some x' /\ cc_holds x' (fun c' r k => if c' =? c then m r k else f c' r k).
  Proof.
    intros H Hc Hm. pose proof (host_data d m Hm) as G. destruct Hm as (M1 & M2 & M3 & _). destruct H as [A B C D E].
    unfold cc_set_cell, assert. rewrite B, C, M1, M2, !Nat.leb_refl. cbn [obind].
    destruct (_ && _) eqn:Q.
    - unfold cc_stride. rewrite B, C.
      destruct (memcpy_ok (cc_data x) (cd_data d) (c * (R * K)) 0 (R * K)) as (m' & F & L & P); [nia|lia|].
      rewrite F. cbn [obind]. eexists. split; [reflexivity|]. constructor; cbn [cc_with cc_ncells cc_nrow cc_ncol cc_data]; auto; try congruence.
      intros c' r k Hc' Hr Hk. rewrite P. pose proof (inner_lt R K r k Hr Hk). unfold addr.
      destruct (Nat.eqb_spec c' c) as [->|Hn].
      + destruct (Nat.leb_spec (c * (R * K)) (c * (R * K) + (R * k + r))), (Nat.ltb_spec (c * (R * K) + (R * k + r)) (c * (R * K) + R * K)); try lia.
        cbn [andb]. rewrite <- (G r k Hr Hk). f_equal. lia.
      + replace (_ && _) with false; [apply E; assumption|]. symmetry. apply andb_false_iff.
        destruct (Nat.leb_spec (c * (R * K)) (c' * (R * K) + (R * k + r))); [right|left; reflexivity].
        apply Nat.ltb_ge. assert (c < c' \/ c' < c) as [Hl|Hl] by lia; nia.
    - eexists. split; [reflexivity|]. constructor; auto. intros c' r k Hc' Hr Hk. exfalso.
      destruct (Nat.ltb_spec 0 R), (Nat.ltb_spec 0 K); cbn in Q; try lia; discriminate.
  Qed.

  Lemma set_all_holds x f tmp ds ms : cc_holds x f -> length ds = N -> R * K * N <= length tmp ->
    (forall c, c < N -> exists d, nth_error ds c = Some d /\ host_matrix R K d (ms c)) ->
    exists x', cc_set_all x tmp ds = Some x' /\ cc_holds x' ms.
  Proof.
    intros H Hl Ht Hd. destruct H as [A B C D E]. unfold cc_set_all, assert. unfold cc_stride.
    rewrite A, B, C, Hl, Nat.eqb_refl. cbn [obind].
    assert (L : forall n, n <= N -> exists ptr, foldM (fun ptr cellx =>
             c <- rd ds cellx ;;
             _ <- (if cd_nrow c =? R then Some tt else None) ;;
             _ <- (if cd_ncol c =? K then Some tt else None) ;;
             memcpy ptr (R * K * cellx) (cd_data c) 0 (R * K)) tmp (seq 0 n) = Some ptr /\ length ptr = length tmp /\
             forall c r k, c < n -> r < R -> k < K -> nth_error ptr (addr R K c r k) = Some (ms c r k)).
    { induction n as [|n IH]; intros Hn.
      - exists tmp. split; [reflexivity|]. split; [reflexivity|]. intros; lia.
      - destruct IH as (ptr & F & Lp & P); [lia|]. rewrite seq_S, foldM_app, F. cbn [obind foldM plus].
        destruct (Hd n) as (d & Q & Hm); [lia|]. unfold rd. rewrite Q. cbn [obind].
        pose proof (host_data d (ms n) Hm) as G. destruct Hm as (M1 & M2 & M3 & _). rewrite M1, M2, !Nat.eqb_refl. cbn [obind].
        destruct (memcpy_ok ptr (cd_data d) (R * K * n) 0 (R * K)) as (m' & F' & L' & P'); [nia|lia|].
        rewrite F'. cbn [obind]. exists m'. split; [reflexivity|]. split; [congruence|].
        intros c r k Hc Hr Hk. rewrite P'. pose proof (inner_lt R K r k Hr Hk). unfold addr.
        destruct (Nat.eq_dec c n) as [->|Hcn].
        + destruct (Nat.leb_spec (R * K * n) (n * (R * K) + (R * k + r))), (Nat.ltb_spec (n * (R * K) + (R * k + r)) (R * K * n + R * K)); try lia.
          cbn [andb]. rewrite <- (G r k Hr Hk). f_equal. lia.
        + replace (_ && _) with false; [apply P; lia|]. symmetry. apply andb_false_iff. left. apply Nat.leb_gt. nia. }
    destruct (L N (le_n N)) as (ptr & F & Lp & P). rewrite F. cbn [obind].
    destruct (memcpy_ok (cc_data x) ptr 0 0 (R * K * N)) as (m' & F' & L' & P'); [lia|lia|].
    rewrite F'. cbn [obind]. eexists. split; [reflexivity|]. constructor; cbn [cc_with cc_ncells cc_nrow cc_ncol cc_data]; auto; try congruence.
    intros c r k Hc Hr Hk. rewrite P'. pose proof (addr_lt N R K c r k Hc Hr Hk).
    destruct (Nat.ltb_spec (addr R K c r k) (0 + R * K * N)); [|lia]. cbn [andb Nat.leb]. rewrite <- (P c r k) by assumption. f_equal. lia.
  Qed.

  Lemma step_holds x f a f' : cc_holds x f -> cc_effect N R K f a f' -> exists x', cc_step x a = Some x' /\ cc_holds x' f'.
  Proof.
    intros H Ef. destruct Ef; cbn [cc_step].
    - eauto using fill_holds.
    - apply (holds_upd x f c r k); auto. unfold cc_stride, addr. rewrite (ch_r _ _ H), (ch_k _ _ H). lia.
    - eauto using set_cell_holds.
    - eauto using set_all_holds.
    - apply (holds_upd x f c r k); auto. unfold cc_stride, addr. rewrite (ch_r _ _ H), (ch_k _ _ H). lia.
    - apply (holds_upd x f c r k); auto. unfold cc_stride, addr. rewrite (ch_r _ _ H), (ch_k _ _ H). lia.
    - unfold cc_fetch, cc_stride. rewrite (ch_r _ _ H), (ch_k _ _ H). unfold rd.
      fold (addr R K c r k). rewrite (ch_at _ _ H) by assumption. cbn [obind].
      destruct (holds_upd x f c r k (op (f c r k) v) (addr R K c r k)) as (x' & E & G); auto.
      destruct (upd (cc_data x) (addr R K c r k) (op (f c r k) v)) as [m|]; [|discriminate]. cbn [obind snd] in *. eauto.
  Qed.

  Lemma history_holds f h f' : cc_history N R K f h f' -> forall x, cc_holds x f -> exists x', foldM cc_step x h = Some x' /\ cc_holds x' f'.
  Proof.
    induction 1 as [f|f f1 f2 a h He Hh IH]; intros x H; cbn [foldM]; [eauto|].
    destruct (step_holds x f a f1 H He) as (x1 & E & H1). rewrite E. cbn [obind]. apply IH; assumption.
  Qed.

  Lemma get_cell_holds x f init c : cc_holds x f -> c < N -> exists d, cc_get_cell x init c = Some d /\ host_matrix R K d (f c).
  Proof.
    intros [A B C D E] Hc. unfold cc_get_cell, cc_stride. rewrite B, C. destruct (_ && _) eqn:Q.
    - destruct (memcpy_ok (map init (seq 0 (R * K))) (cc_data x) 0 (c * (R * K)) (R * K)) as (m & F & L & P).
      { rewrite map_length, seq_length. lia. } { nia. }
      rewrite F. cbn [obind]. eexists. split; [reflexivity|]. rewrite map_length, seq_length in L.
      split; [reflexivity|]. split; [reflexivity|]. split; [exact L|]. intros r k Hr Hk. unfold at_, rd. cbn [cd_data cd_nrow].
      rewrite P. pose proof (inner_lt R K r k Hr Hk). rewrite (Nat.mul_comm k R).
      destruct (Nat.ltb_spec (R * k + r) (0 + R * K)); [|lia]. cbn [andb Nat.leb]. rewrite <- (E c r k) by assumption. unfold addr. f_equal. lia.
    - eexists. split; [reflexivity|]. split; [reflexivity|]. split; [reflexivity|]. cbn [cd_data]. rewrite map_length, seq_length. split; [reflexivity|].
      intros r k Hr Hk. exfalso. destruct (Nat.ltb_spec 0 R), (Nat.ltb_spec 0 K); cbn in Q; try lia; discriminate.
  Qed.

  Lemma get_all_holds x f init tmp : cc_holds x f -> R * K * N <= length tmp ->
    exists ds, cc_get_all x init tmp = Some ds /\ length ds = N /\
      forall c, c < N -> exists d, nth_error ds c = Some d /\ host_matrix R K d (f c).
  Proof.
    intros [A B C D E] Ht. unfold cc_get_all, cc_stride. rewrite A, B, C.
    assert (Z : exists ptr, (if 0 <? R * K then memcpy tmp 0 (cc_data x) 0 (R * K * N) else Some tmp) = Some ptr /\ length ptr = length tmp /\
      forall c r k, c < N -> r < R -> k < K -> nth_error ptr (addr R K c r k) = Some (f c r k)).
    { destruct (Nat.ltb_spec 0 (R * K)) as [Hp|Hp].
      - destruct (memcpy_ok tmp (cc_data x) 0 0 (R * K * N)) as (m & F & L & P); [lia|lia|]. exists m. split; [exact F|]. split; [exact L|].
        intros c r k Hc Hr Hk. rewrite P. pose proof (addr_lt N R K c r k Hc Hr Hk). destruct (Nat.ltb_spec (addr R K c r k) (0 + R * K * N)); [|lia].
        cbn [andb Nat.leb]. rewrite <- (E c r k) by assumption. f_equal. lia.
      - exists tmp. split; [reflexivity|]. split; [reflexivity|]. intros c r k Hc Hr Hk. nia. }
    destruct Z as (ptr & -> & L & P). cbn [obind].
    assert (Y : forall c, c < N -> exists d, (let fresh := map init (seq 0 (R * K)) in
            data <- (if 0 <? R * K then memcpy fresh 0 ptr (R * K * c) (R * K) else Some fresh) ;;
            Some (mk_celldata R K data)) = Some d /\ host_matrix R K d (f c)).
    { intros c Hc. cbn zeta. destruct (Nat.ltb_spec 0 (R * K)) as [Hp|Hp].
      - destruct (memcpy_ok (map init (seq 0 (R * K))) ptr 0 (R * K * c) (R * K)) as (m & F & Lm & G).
        { rewrite map_length, seq_length. lia. } { nia. }
        rewrite F. cbn [obind]. eexists. split; [reflexivity|]. rewrite map_length, seq_length in Lm.
        split; [reflexivity|]. split; [reflexivity|]. split; [exact Lm|]. intros r k Hr Hk. unfold at_, rd. cbn [cd_data cd_nrow].
        rewrite G. pose proof (inner_lt R K r k Hr Hk). rewrite (Nat.mul_comm k R).
        destruct (Nat.ltb_spec (R * k + r) (0 + R * K)); [|lia]. cbn [andb Nat.leb]. rewrite <- (P c r k) by assumption. unfold addr. f_equal. lia.
      - eexists. split; [reflexivity|]. split; [reflexivity|]. split; [reflexivity|]. cbn [cd_data]. rewrite map_length, seq_length. split; [reflexivity|].
        intros r k Hr Hk. nia. }
    match goal with |- exists ds, mapM ?g _ = _ /\ _ => destruct (mapM_total g (seq 0 N)) as [ds F] end.
    { intros c Hc. apply in_seq in Hc. destruct (Y c) as (d & Q & _); [lia|]. exists d. exact Q. }
    exists ds. split; [exact F|]. pose proof (mapM_length _ _ _ F) as Lz. rewrite seq_length in Lz. split; [exact Lz|].
    intros c Hc. destruct (Y c Hc) as (d & Q & Hm). exists d. split; [|exact Hm].
    rewrite <- Q. symmetry. apply (mapM_nth _ _ _ c c F). rewrite nth_error_seq. destruct (Nat.ltb_spec c N); [reflexivity|lia].
  Qed.
End Histories.
