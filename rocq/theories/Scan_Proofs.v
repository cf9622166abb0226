From Coq Require Import List Arith Lia Bool Permutation.
Import ListNotations.
From Verif Require Import Base Scan_Model Scan_Spec.

Arguments decomp_start : simpl never.
Arguments decomp_end : simpl never.
Arguments Scan_Spec.total : simpl never.
Arguments aux_num_blocks : simpl never.

(* ------------------------- decomposition ------------------------- *)

Lemma decomp_start_closed U N i : U <> 0 ->
  decomp_start U N i = i * (N / U) + Nat.min i (N mod U).
Proof.
  intros H; unfold decomp_start.
  set (p := N / U); set (q := N mod U).
  destruct (Nat.ltb_spec i q), (Nat.ltb_spec q i); try nia.
Qed.

Lemma decomp_start_0 U N : U <> 0 -> decomp_start U N 0 = 0.
Proof. intros H; rewrite decomp_start_closed by auto; lia. Qed.

Lemma decomp_end_start U N i : U <> 0 -> decomp_end U N i = decomp_start U N (S i).
Proof.
  intros H; unfold decomp_end. rewrite !decomp_start_closed by auto.
  destruct (Nat.ltb_spec i (N mod U)); lia.
Qed.

Lemma decomp_end_last U N : U <> 0 -> decomp_start U N U = N.
Proof.
  intros H; rewrite decomp_start_closed by auto.
  pose proof (Nat.mod_upper_bound N U H). rewrite Nat.min_r by lia.
  pose proof (Nat.div_mod N U H). lia.
Qed.

Lemma decomp_start_mono U N i j : U <> 0 -> i <= j -> decomp_start U N i <= decomp_start U N j.
Proof.
  intros H L; rewrite !decomp_start_closed by auto. nia.
Qed.

Lemma decomp_nonempty U N i : U <> 0 -> U <= N -> decomp_start U N i < decomp_end U N i.
Proof.
  intros H L; rewrite decomp_end_start by auto. rewrite !decomp_start_closed by auto.
  assert (1 <= N / U) by (apply Nat.div_le_lower_bound; lia). nia.
Qed.

Lemma decomp_cover U N w : U <> 0 -> w < N ->
  exists i, i < U /\ decomp_start U N i <= w < decomp_end U N i.
Proof.
  intros H L.
  assert (forall k, w < decomp_start U N k -> exists i, i < k /\ decomp_start U N i <= w < decomp_end U N i) as G.
  { induction k as [|k IH]; intros Hk.
    - rewrite decomp_start_0 in Hk by auto; lia.
    - destruct (le_lt_dec (decomp_start U N k) w) as [G|G].
      + exists k; split; [lia|]. rewrite decomp_end_start by auto; lia.
      + destruct (IH G) as [i [? ?]]; exists i; split; [lia|auto]. }
  apply G. rewrite decomp_end_last by auto; auto.
Qed.

Lemma decomp_unique U N w i j : U <> 0 ->
  decomp_start U N i <= w < decomp_end U N i ->
  decomp_start U N j <= w < decomp_end U N j -> i = j.
Proof.
  intros H Hi Hj. rewrite !decomp_end_start in * by auto.
  destruct (lt_eq_lt_dec i j) as [[L|E]|L]; auto; exfalso.
  - pose proof (decomp_start_mono U N (S i) j H ltac:(lia)); lia.
  - pose proof (decomp_start_mono U N (S j) i H ltac:(lia)); lia.
Qed.

Lemma decomp_end_le U N i : U <> 0 -> i < U -> decomp_end U N i <= N.
Proof.
  intros H L. rewrite decomp_end_start by auto.
  rewrite <- (decomp_end_last U N H) at 2. apply decomp_start_mono; lia.
Qed.

Lemma decomp_inverse_correct U N w : U <> 0 -> w < N ->
  exists i, decomp_inverse U N w = Some i /\ i < U /\ decomp_start U N i <= w < decomp_end U N i.
Proof.
  intros H L; unfold decomp_inverse.
  assert (Hc : forall i, decomp_end U N i = S i * (N / U) + Nat.min (S i) (N mod U)).
  { intros i; rewrite decomp_end_start, decomp_start_closed by auto; auto. }
  pose proof (Nat.div_mod N U H) as DM. pose proof (Nat.mod_upper_bound N U H) as MB.
  set (p := N / U) in *; set (q := N mod U) in *.
  destruct (Nat.ltb_spec w ((p + 1) * q)) as [C|C].
  - exists (w / (p + 1)). split; auto.
    assert (w / (p + 1) < q) by (apply Nat.div_lt_upper_bound; lia).
    split; [lia|]. rewrite Hc, decomp_start_closed by auto. fold p q.
    pose proof (Nat.div_mod w (p + 1) ltac:(lia)). pose proof (Nat.mod_upper_bound w (p + 1) ltac:(lia)).
    rewrite !Nat.min_l by lia. nia.
  - destruct (Nat.eqb_spec p 0) as [E|E].
    + exfalso. rewrite E in *. lia.
    + exists (q + (w - (p + 1) * q) / p). split; auto.
      set (d := w - (p + 1) * q) in *.
      pose proof (Nat.div_mod d p E). pose proof (Nat.mod_upper_bound d p E).
      assert (d / p < U - q). { apply Nat.div_lt_upper_bound; auto. unfold d. nia. }
      split; [lia|]. rewrite Hc, decomp_start_closed by auto. fold p q.
      rewrite !Nat.min_r by lia. unfold d in *. nia.
Qed.

(* --------------------------- generic folds ------------------------ *)

(** Work items that set position [j] of their region to [val j]. *)
Lemma foldM_regions {A V} (f : list V -> A -> option (list V)) (reg : A -> nat -> bool)
    (val : nat -> V) (n : nat) (dom : A -> Prop) :
  (forall m a, length m = n -> dom a ->
     exists m', f m a = Some m' /\ length m' = n /\
       forall j, nth_error m' j = if reg a j then Some (val j) else nth_error m j) ->
  forall sched m, length m = n -> (forall a, In a sched -> dom a) ->
    exists m', foldM f m sched = Some m' /\ length m' = n /\
      forall j, nth_error m' j = if existsb (fun a => reg a j) sched then Some (val j) else nth_error m j.
Proof.
  intros Hf. induction sched as [|a sched IH]; intros m Lm Hd; cbn.
  - eauto.
  - destruct (Hf m a Lm) as [m1 [E1 [L1 N1]]]; [apply Hd; left; auto|].
    rewrite E1; cbn. destruct (IH m1 L1) as [m' [E' [L' N']]]; [intros; apply Hd; right; auto|].
    exists m'. repeat split; auto. intros j. rewrite N'.
    destruct (existsb _ sched) eqn:Ex; [rewrite orb_true_r; auto|rewrite orb_false_r].
    apply N1.
Qed.

(** Read-modify-write work items, each position touched at most once. *)
Lemma foldM_rmw {A V} (pos : A -> nat) (g : A -> V -> V) :
  forall sched m, NoDup (map pos sched) -> (forall a, In a sched -> pos a < length m) ->
    exists m', foldM (fun m a => v <- rd m (pos a) ;; upd m (pos a) (g a v)) m sched = Some m' /\
      length m' = length m /\
      (forall a v, In a sched -> nth_error m (pos a) = Some v -> nth_error m' (pos a) = Some (g a v)) /\
      (forall j, ~ In j (map pos sched) -> nth_error m' j = nth_error m j).
Proof.
  induction sched as [|a sched IH]; intros m ND R; cbn [foldM map] in *.
  - exists m; repeat split; auto; cbn in *; tauto.
  - inversion ND; subst.
    destruct (nth_error_lt_some m (pos a)) as [v Hv]; [apply R; left; auto|].
    unfold rd at 1; rewrite Hv; cbn [obind].
    destruct (upd_some m (pos a) (g a v)) as [m1 E1]; [apply R; left; auto|].
    rewrite E1; cbn [obind].
    pose proof (upd_length _ _ _ _ E1) as L1.
    destruct (IH m1) as [m' [E' [L' [I' O']]]]; auto.
    { intros b Hb; rewrite L1; apply R; right; auto. }
    exists m'. split; [exact E'|]. split; [lia|]. split.
    + intros b w [<-|Hb] Hw.
      * rewrite O' by auto. rewrite (upd_nth_eq _ _ _ _ E1). congruence.
      * apply I'; auto. rewrite (upd_nth_neq _ _ _ _ (pos b) E1); auto.
        intros C; apply H1. rewrite <- C. apply in_map; auto.
    + intros j Hj. rewrite O' by (cbn in Hj; tauto). eapply upd_nth_neq; eauto.
      intros ->; apply Hj; left; auto.
Qed.

Section Proofs.
  Context {T : Type} (add : T -> T -> T) (zero : T).
  Hypothesis Hmon : commutative_monoid add zero.
  Lemma Hmon_r : forall a, add a zero = a.
  Proof. destruct Hmon as [A [Z1 C]]. intros a; rewrite C, Z1; auto. Qed.
  Notation total := (total add zero).
  Notation sum := (sum add zero).

  Lemma total_cons x l : total (x :: l) = add x (total l).
  Proof. reflexivity. Qed.
  Lemma total_nil : total [] = zero.
  Proof. reflexivity. Qed.

  Lemma fold_left_total l : forall a, fold_left add l a = add a (total l).
  Proof.
    destruct Hmon as [A [Z1 Zc]]; pose proof Hmon_r as Z2.
    induction l as [|x l IH]; intros a; cbn [fold_left]; [rewrite total_nil, Z2; auto|].
    rewrite IH, total_cons, <- A; auto.
  Qed.

  Lemma sum_total l : sum l = total l.
  Proof. destruct Hmon as [A [Z1 Zc]]. unfold Scan_Model.sum. rewrite fold_left_total, Z1; auto. Qed.

  Lemma total_app l1 l2 : total (l1 ++ l2) = add (total l1) (total l2).
  Proof.
    destruct Hmon as [A [Z1 Zc]].
    induction l1 as [|x l1 IH]; cbn [app]; [rewrite total_nil, Z1; auto|].
    rewrite !total_cons, IH, A; auto.
  Qed.

  Lemma firstn_skipn_split {X} a k (l : list X) : firstn (a + k) l = firstn a l ++ firstn k (skipn a l).
  Proof.
    revert l; induction a as [|a IH]; intros l; cbn; auto.
    destruct l as [|x l]; cbn; [destruct k; auto|]. rewrite IH; auto.
  Qed.

  Lemma total_firstn_S i (l : list T) x : nth_error l i = Some x ->
    total (firstn (S i) l) = add (total (firstn i l)) x.
  Proof.
    intros H. destruct Hmon as [A [Z1 Zc]]; pose proof Hmon_r as Z2.
    replace (S i) with (i + 1) by lia. rewrite firstn_skipn_split, total_app. f_equal.
    revert l H; induction i as [|i IH]; intros [|y l] H; cbn in *; try discriminate.
    - injection H as ->. rewrite total_cons, total_nil. apply Hmon_r.
    - apply IH; auto.
  Qed.

  (** The built-in followed by the fix-up of the first element. *)
  Lemma group_exscan_fixed junk src first last dst :
    first < last -> last <= length src -> last <= length dst ->
    exists d d', group_exscan add zero junk src first last dst first = Some d /\
      upd d first zero = Some d' /\ length d' = length dst /\
      forall j, nth_error d' j =
        if (first <=? j) && (j <? last) then Some (total (firstn (j - first) (skipn first src)))
        else nth_error dst j.
  Proof.
    intros L1 L2 L3. unfold group_exscan. rewrite slice_some by lia. cbn [obind].
    set (l := firstn (last - first) (skipn first src)).
    assert (Ll : length l = last - first).
    { unfold l. rewrite firstn_length, skipn_length. lia. }
    set (ws := map _ _).
    assert (Hfst : map fst ws = seq first (last - first)).
    { unfold ws. rewrite map_map; cbn. rewrite Ll. rewrite <- (Nat.add_0_r first) at 2.
      generalize (last - first) as n, 0 as k. induction n as [|n IH]; intros k; cbn; auto.
      f_equal. rewrite IH. f_equal; lia. }
    destruct (scatter_some ws dst) as [d [Ed Ld]].
    { intros w Hw. apply (in_map fst) in Hw. rewrite Hfst, in_seq in Hw. lia. }
    rewrite Ed. destruct (upd_some d first zero) as [d' Ed']; [lia|].
    exists d, d'. repeat split; auto. { rewrite (upd_length _ _ _ _ Ed'); auto. }
    intros j. rewrite (upd_nth _ _ _ _ j Ed').
    destruct (Nat.leb_spec first j), (Nat.ltb_spec j last); cbn [andb].
    - destruct (Nat.eqb_spec j first) as [->|N].
      + rewrite Nat.sub_diag; cbn; auto.
      + erewrite (scatter_in ws dst d j); [reflexivity|exact Ed|rewrite Hfst; apply seq_NoDup|].
        unfold ws. apply in_map_iff. exists (j - first). rewrite Ll. split; [|apply in_seq; lia].
        f_equal; [lia|]. destruct (Nat.eqb_spec (j - first) 0); [lia|].
        rewrite sum_total. unfold l. rewrite firstn_firstn. do 2 f_equal. lia.
    - destruct (Nat.eqb_spec j first) as [->|N]; [lia|].
      apply (scatter_notin ws dst d j Ed). rewrite Hfst, in_seq; lia.
    - destruct (Nat.eqb_spec j first) as [->|N]; [lia|].
      apply (scatter_notin ws dst d j Ed). rewrite Hfst, in_seq; lia.
    - lia.
  Qed.

  Lemma scan1_correct junk N src dst : N <= length src -> N <= length dst ->
    exists out, joint_exclusive_scan1 add zero junk N src dst = Some out /\
      is_exclusive_scan add zero N src dst out.
  Proof.
    intros L1 L2. unfold joint_exclusive_scan1. destruct (Nat.eqb_spec N 0) as [->|N0].
    - exists dst; split; auto. repeat split; auto; lia.
    - destruct (group_exscan_fixed junk src 0 N dst) as [d [d' [E1 [E2 [L H]]]]]; try lia.
      rewrite E1; cbn [obind]. exists d'. split; [exact E2|].
      repeat split; auto; intros i Hi; rewrite H.
      + destruct (Nat.ltb_spec i N); [cbn; rewrite Nat.sub_0_r; auto|lia].
      + destruct (Nat.ltb_spec i N); [lia|]. rewrite andb_false_r; auto.
  Qed.

  Lemma div_round_up_le N M : M <> 0 -> div_round_up N M <= N.
  Proof.
    intros H; unfold div_round_up.
    destruct (Nat.ltb_spec (N / M * M) N).
    - destruct (Nat.eq_dec M 1) as [->|]; [rewrite Nat.div_1_r in *; lia|].
      destruct (Nat.eq_dec N 0) as [->|]; [lia|].
      assert (N / M < N) by (apply Nat.div_lt; lia). lia.
    - apply Nat.div_le_upper_bound; auto. nia.
  Qed.

  Lemma scan_total_items_perm nb ls : 1 <= ls ->
    Permutation (scan_total_items nb ls) (seq 0 nb).
  Proof.
    intros H. apply NoDup_Permutation.
    - unfold scan_total_items. apply NoDup_flat_map; [apply seq_NoDup| |].
      + intros; apply for_loop_nodup; auto.
      + intros a b x Ha Hb Ia Ib. apply in_seq in Ha, Hb.
        apply for_loop_in in Ia as [? Ma]; auto. apply for_loop_in in Ib as [? Mb]; auto.
        apply Nat.mod_divides in Ma as [ka Ka]; [|lia]. apply Nat.mod_divides in Mb as [kb Kb]; [|lia].
        assert (x = a + ls * ka) by lia. assert (x = b + ls * kb) by lia.
        assert (a = x mod ls). { apply Nat.mod_unique with ka; lia. }
        assert (b = x mod ls). { apply Nat.mod_unique with kb; lia. }
        congruence.
    - apply seq_NoDup.
    - intros x. unfold scan_total_items. rewrite in_flat_map, in_seq. split.
      + intros [a [Ha Ix]]. apply for_loop_in in Ix; auto; lia.
      + intros Hx. exists (x mod ls). rewrite in_seq.
        pose proof (Nat.mod_upper_bound x ls ltac:(lia)). split; [lia|].
        apply for_loop_in; auto. pose proof (Nat.mod_le x ls ltac:(lia)). split; [lia|].
        pose proof (Nat.div_mod x ls ltac:(lia)).
        replace (x - x mod ls) with (x / ls * ls) by lia. apply Nat.mod_mul; lia.
  Qed.

  Lemma scan_shift_items_nodup nb N ls : 1 <= ls -> nb <> 0 ->
    NoDup (map snd (scan_shift_items nb N ls)).
  Proof.
    intros H Hnb. unfold scan_shift_items.
    set (f := fun b0 => flat_map (fun li => map (fun ix => (b0 + 1, ix)) (for_loop (li + decomp_start nb N (b0 + 1)) (decomp_end nb N (b0 + 1)) ls)) (seq 0 ls)).
    assert (Hmap : forall l, map snd (flat_map f l) = flat_map (fun b0 => flat_map (fun li => for_loop (li + decomp_start nb N (b0 + 1)) (decomp_end nb N (b0 + 1)) ls) (seq 0 ls)) l).
    { induction l as [|b l IH]; cbn [flat_map map]; auto. rewrite map_app, IH. f_equal.
      unfold f. generalize (seq 0 ls) as s. induction s as [|x s IHs]; cbn [flat_map map]; auto.
      rewrite map_app, IHs, map_map. f_equal. apply map_id. }
    rewrite Hmap. apply NoDup_flat_map; [apply seq_NoDup| |].
    - intros b Hb. apply NoDup_flat_map; [apply seq_NoDup| |].
      + intros; apply for_loop_nodup; auto.
      + intros a c x Ha Hc Ia Ic. apply in_seq in Ha, Hc.
        apply for_loop_in in Ia as [? Ma]; auto. apply for_loop_in in Ic as [? Mc]; auto.
        set (st := decomp_start nb N (b + 1)) in *.
        apply Nat.mod_divides in Ma as [ka Ka]; [|lia]. apply Nat.mod_divides in Mc as [kc Kc]; [|lia].
        assert (a = (x - st) mod ls). { apply Nat.mod_unique with ka; lia. }
        assert (c = (x - st) mod ls). { apply Nat.mod_unique with kc; lia. }
        congruence.
    - intros b1 b2 x _ _ H1 H2.
      apply in_flat_map in H1 as [l1 [I1 H1]]. apply in_flat_map in H2 as [l2 [I2 H2]].
      apply for_loop_in in H1 as [H1 _]; auto. apply for_loop_in in H2 as [H2 _]; auto.
      assert (b1 + 1 = b2 + 1); [|lia].
      apply (decomp_unique nb N x); auto; lia.
  Qed.

  Lemma scan_shift_items_in nb N ls b ix : 1 <= ls -> nb <> 0 ->
    (In (b, ix) (scan_shift_items nb N ls) <->
     1 <= b < nb /\ decomp_start nb N b <= ix < decomp_end nb N b).
  Proof.
    intros H Hnb. unfold scan_shift_items. rewrite in_flat_map. split.
    - intros [b0 [Hb Hx]]. apply in_flat_map in Hx as [li [Hli Hx]].
      apply in_map_iff in Hx as [x [[= <- <-] Hx]]. apply for_loop_in in Hx as [Hx _]; auto.
      apply in_seq in Hb, Hli. lia.
    - intros [Hb Hx]. exists (b - 1). rewrite in_seq. split; [lia|].
      apply in_flat_map. set (st := decomp_start nb N b) in *.
      exists ((ix - st) mod ls). rewrite in_seq.
      pose proof (Nat.mod_upper_bound (ix - st) ls ltac:(lia)). split; [lia|].
      replace (b - 1 + 1) with b by lia. apply in_map_iff. exists ix. split; auto.
      apply for_loop_in; auto. fold st. pose proof (Nat.mod_le (ix - st) ls ltac:(lia)).
      split; [lia|]. pose proof (Nat.div_mod (ix - st) ls ltac:(lia)).
      replace (ix - ((ix - st) mod ls + st)) with ((ix - st) / ls * ls) by lia.
      apply Nat.mod_mul; lia.
  Qed.

  Lemma nth_seq_total_blocks nb N (src : list T) b :
    nb <> 0 -> b <= nb -> N <= length src ->
    total (firstn b (map (fun i => total (firstn (decomp_end nb N i - decomp_start nb N i)
                                                 (skipn (decomp_start nb N i) src))) (seq 0 nb)))
    = total (firstn (decomp_start nb N b) src).
  Proof.
    intros H Hb L. induction b as [|b IH].
    - rewrite decomp_start_0 by auto; auto.
    - erewrite total_firstn_S.
      2:{ rewrite nth_error_map_seq. destruct (Nat.ltb_spec b nb); [reflexivity|lia]. }
      rewrite IH by lia. cbn [Nat.add].
      rewrite <- total_app, <- firstn_skipn_split. f_equal.
      rewrite decomp_end_start by auto. f_equal.
      pose proof (decomp_start_mono nb N b (S b) H ltac:(lia)); lia.
  Qed.

  Lemma scan2_correct junk sc ls mcu N aux src dst :
    1 <= ls -> N <= length src -> N <= length dst ->
    2 * aux_num_blocks ls mcu N <= length aux ->
    let nb := aux_num_blocks ls mcu N in
    Permutation (sched_blocks sc) (seq 0 nb) ->
    Permutation (sched_totals sc) (scan_total_items nb ls) ->
    Permutation (sched_shift sc) (scan_shift_items nb N ls) ->
    exists out, joint_exclusive_scan2 add zero junk sc ls mcu N aux src dst = Some out /\
      is_exclusive_scan add zero N src dst out.
  Proof.
    intros Hls Ls Ld La nb P0 P1 P2. unfold joint_exclusive_scan2. fold nb. fold nb in La.
    destruct (Nat.eqb_spec N 0) as [->|N0].
    { exists dst; split; auto. repeat split; auto; lia. }
    destruct (Nat.ltb_spec nb 2) as [B|B]; [apply scan1_correct; auto|].
    assert (Hnb : nb <> 0) by lia.
    assert (HnbN : nb <= N).
    { unfold nb, aux_num_blocks. pose proof (div_round_up_le N ls ltac:(lia)). lia. }
    set (st := decomp_start nb N). set (en := decomp_end nb N).
    (* e0 *)
    set (blk := fun j b => (st b <=? j) && (j <? en b)).
    set (val0 := fun j => match find (blk j) (seq 0 nb) with
                          | Some b => total (firstn (j - st b) (skipn (st b) src)) | None => zero end).
    assert (Hfind : forall j b, b < nb -> st b <= j < en b -> find (blk j) (seq 0 nb) = Some b).
    { intros j b Hb Hj. destruct (find (blk j) (seq 0 nb)) as [b'|] eqn:F.
      - apply find_some in F as [_ F]. unfold blk in F.
        apply andb_true_iff in F as [F1 F2]. apply Nat.leb_le in F1. apply Nat.ltb_lt in F2.
        f_equal. apply (decomp_unique nb N j); auto; split; auto.
      - exfalso. apply find_none with (x := b) in F; [|apply in_seq; lia].
        unfold blk in F. destruct (Nat.leb_spec (st b) j), (Nat.ltb_spec j (en b)); cbn in F; try lia; discriminate. }
    destruct (foldM_regions (scan_block add zero junk nb N src) (fun b j => blk j b) val0 (length dst) (fun b => b < nb))
      with (sched := sched_blocks sc) (m := dst) as [dst1 [E1 [Ld1 N1]]]; auto.
    { intros m b Lm Hb. unfold scan_block. fold st en.
      pose proof (decomp_nonempty nb N b Hnb HnbN). pose proof (decomp_end_le nb N b Hnb Hb).
      destruct (group_exscan_fixed (junk b) src (st b) (en b) m) as [d [d' [F1 [F2 [F3 F4]]]]]; unfold st, en in *; try lia.
      unfold st, en. rewrite F1; cbn [obind]. exists d'. repeat split; auto; [lia|].
      intros j. rewrite F4. unfold blk. fold st en.
      destruct (Nat.leb_spec (st b) j), (Nat.ltb_spec j (en b)); cbn [andb]; auto.
      unfold val0. rewrite (Hfind j b); auto. }
    { intros b Hb. apply (Permutation_in _ P0) in Hb. apply in_seq in Hb; lia. }
    assert (V1 : forall b j, b < nb -> st b <= j < en b ->
              nth_error dst1 j = Some (total (firstn (j - st b) (skipn (st b) src)))).
    { intros b j Hb Hj. rewrite N1.
      replace (existsb _ _) with true.
      - unfold val0. rewrite (Hfind j b); auto.
      - symmetry. apply existsb_exists. exists b. split.
        + apply (Permutation_in _ (Permutation_sym P0)). apply in_seq; lia.
        + unfold blk. destruct (Nat.leb_spec (st b) j), (Nat.ltb_spec j (en b)); auto; lia. }
    assert (V1' : forall j, N <= j -> nth_error dst1 j = nth_error dst j).
    { intros j Hj. rewrite N1. replace (existsb _ _) with false; auto.
      symmetry. apply not_true_iff_false. intros C. apply existsb_exists in C as [b [Hb C]].
      apply (Permutation_in _ P0) in Hb. apply in_seq in Hb.
      unfold blk in C. apply andb_true_iff in C as [_ C]. apply Nat.ltb_lt in C.
      pose proof (decomp_end_le nb N b Hnb ltac:(lia)). unfold en in C; lia. }
    rewrite E1; cbn [obind].
    (* e1, totals *)
    set (btot := fun i => total (firstn (en i - st i) (skipn (st i) src))).
    destruct (foldM_regions (scan_block_total add nb N src dst1) (fun ix j => j =? ix) btot (length aux) (fun ix => ix < nb))
      with (sched := sched_totals sc) (m := aux) as [aux1 [E2 [La1 NA1]]]; auto.
    { intros m ix Lm Hix. unfold scan_block_total. fold (en ix).
      pose proof (decomp_nonempty nb N ix Hnb HnbN) as NE. fold (st ix) (en ix) in NE.
      pose proof (decomp_end_le nb N ix Hnb Hix) as EL. fold (en ix) in EL.
      unfold rd. rewrite (V1 ix (en ix - 1)) by lia. cbn [obind].
      destruct (nth_error_lt_some src (en ix - 1)) as [x Hx]; [lia|]. rewrite Hx; cbn [obind].
      assert (add (total (firstn (en ix - 1 - st ix) (skipn (st ix) src))) x = btot ix) as ->.
      { unfold btot. replace (en ix - st ix) with (S (en ix - 1 - st ix)) by lia.
        symmetry; apply total_firstn_S. rewrite nth_error_skipn. rewrite <- Hx. f_equal; lia. }
      destruct (upd_some m ix (btot ix)) as [m' E]; [lia|]. exists m'. repeat split; auto.
      - rewrite (upd_length _ _ _ _ E); auto.
      - intros j. rewrite (upd_nth _ _ _ _ j E). destruct (Nat.eqb_spec j ix); subst; auto. }
    { intros ix Hix. apply (Permutation_in _ P1) in Hix.
      apply (Permutation_in _ (scan_total_items_perm nb ls Hls)) in Hix. apply in_seq in Hix; lia. }
    rewrite E2; cbn [obind].
    assert (VA1 : forall i, i < nb -> nth_error aux1 i = Some (btot i)).
    { intros i Hi. rewrite NA1. replace (existsb _ _) with true; auto.
      symmetry; apply existsb_exists. exists i. rewrite Nat.eqb_refl. split; auto.
      apply (Permutation_in _ (Permutation_sym P1)).
      apply (Permutation_in _ (Permutation_sym (scan_total_items_perm nb ls Hls))). apply in_seq; lia. }
    (* e1, scan of the totals *)
    assert (exists aux2 aux3, group_exscan add zero (junk nb) aux1 0 nb aux1 nb = Some aux2 /\
              upd aux2 nb zero = Some aux3 /\
              forall i, i < nb -> nth_error aux3 (nb + i) = Some (total (firstn i aux1))) as [aux2 [aux3 [E3 [E4 VA3]]]].
    { unfold group_exscan. rewrite slice_some by lia. cbn [obind]. rewrite Nat.sub_0_r; cbn [skipn].
      assert (Ll : length (firstn nb aux1) = nb) by (rewrite firstn_length; lia).
      rewrite Ll. set (ws := map _ _).
      assert (Hfst : map fst ws = seq nb nb).
      { unfold ws. rewrite map_map; cbn. clear.
        assert (G : forall n k o, map (fun x => o + x) (seq k n) = seq (o + k) n).
        { induction n as [|n IH]; intros k o; cbn; auto. f_equal. rewrite IH. f_equal; lia. }
        rewrite G. f_equal; lia. }
      destruct (scatter_some ws aux1) as [aux2 [F1 F2]].
      { intros w Hw. apply (in_map fst) in Hw. rewrite Hfst, in_seq in Hw. lia. }
      destruct (upd_some aux2 nb zero) as [aux3 F3]; [lia|].
      exists aux2, aux3. repeat split; auto. intros i Hi.
      rewrite (upd_nth _ _ _ _ (nb + i) F3). destruct (Nat.eqb_spec (nb + i) nb) as [Q|Q].
      - assert (i = 0) by lia; subst; cbn; auto.
      - eapply scatter_in; [exact F1|rewrite Hfst; apply seq_NoDup|].
        unfold ws. apply in_map_iff. exists i. split; [|apply in_seq; lia].
        f_equal. destruct (Nat.eqb_spec i 0); [lia|]. rewrite sum_total, firstn_firstn. do 2 f_equal. lia. }
    rewrite E3; cbn [obind]. rewrite E4; cbn [obind].
    assert (Faux : firstn nb aux1 = map btot (seq 0 nb)).
    { apply nth_error_ext; intros i. rewrite nth_error_map_seq, nth_error_firstn.
      destruct (Nat.ltb_spec i nb) as [Hi|Hi]; [apply (VA1 i Hi)|auto]. }
    assert (VS : forall b, b < nb -> nth_error aux3 (nb + b) = Some (total (firstn (st b) src))).
    { intros b Hb. rewrite VA3 by auto. f_equal.
      transitivity (total (firstn b (map btot (seq 0 nb)))).
      - rewrite <- Faux, firstn_firstn. do 2 f_equal; lia.
      - apply nth_seq_total_blocks; auto; lia. }
    (* e2 *)
    set (shiftv := fun (w : nat * nat) => total (firstn (st (fst w)) src)).
    assert (FE : foldM (scan_shift add nb aux3) dst1 (sched_shift sc) =
                 foldM (fun m w => v <- rd m (snd w) ;; upd m (snd w) (add v (shiftv w))) dst1 (sched_shift sc)).
    { assert (G : forall l m, (forall w, In w l -> fst w < nb) ->
                 foldM (scan_shift add nb aux3) m l = foldM (fun m w => v <- rd m (snd w) ;; upd m (snd w) (add v (shiftv w))) m l).
      { induction l as [|w l IH]; intros m Hw; cbn [foldM]; auto.
        unfold scan_shift at 1, rd at 1. rewrite (VS (fst w)) by (apply Hw; left; auto). cbn [obind].
        fold (shiftv w). destruct (rd m (snd w)); cbn [obind]; auto.
        destruct (upd m (snd w) _); cbn [obind]; auto. apply IH. intros; apply Hw; right; auto. }
      apply G. intros [b ix] Hw. apply (Permutation_in _ P2) in Hw.
      apply scan_shift_items_in in Hw; auto; cbn; lia. }
    rewrite FE.
    destruct (foldM_rmw snd (fun w v => add v (shiftv w)) (sched_shift sc) dst1) as [out [E5 [L5 [I5 O5]]]].
    { eapply Permutation_NoDup; [apply Permutation_map, Permutation_sym, P2|]. apply scan_shift_items_nodup; auto. }
    { intros [b ix] Hw. apply (Permutation_in _ P2) in Hw. apply scan_shift_items_in in Hw; auto. cbn.
      pose proof (decomp_end_le nb N b Hnb ltac:(lia)). lia. }
    exists out. split; auto. repeat split.
    - intros i Hi. destruct (decomp_cover nb N i Hnb Hi) as [b [Hb Hib]]. fold (st b) (en b) in Hib.
      destruct (Nat.eq_dec b 0) as [->|B0].
      + rewrite O5.
        * rewrite (V1 0 i) by auto. f_equal. unfold st. rewrite decomp_start_0 by auto.
          cbn. rewrite Nat.sub_0_r; auto.
        * intros C. apply in_map_iff in C as [[b ix] [C1 C2]]; cbn in C1; subst ix.
          apply (Permutation_in _ P2) in C2. apply scan_shift_items_in in C2 as [C2 C3]; auto.
          pose proof (decomp_unique nb N i 0 b Hnb ltac:(unfold st, en in *; lia) C3). lia.
      + pose proof (I5 (b, i) (total (firstn (i - st b) (skipn (st b) src)))) as I5'. cbn [snd] in I5'. rewrite I5'.
        * unfold shiftv; cbn [fst].
          (* the code adds the shift on the right *)
          destruct Hmon as [_ [_ Zc]]. rewrite Zc, <- total_app, <- firstn_skipn_split.
          do 3 f_equal. lia.
        * apply (Permutation_in _ (Permutation_sym P2)). apply scan_shift_items_in; auto. unfold st, en in *; lia.
        * apply V1; auto.
    - intros i Hi. rewrite O5; [apply V1'; auto|].
      intros C. apply in_map_iff in C as [[b ix] [C1 C2]]; cbn in C1; subst ix.
      apply (Permutation_in _ P2) in C2. apply scan_shift_items_in in C2 as [C2 C3]; auto.
      pose proof (decomp_end_le nb N b Hnb ltac:(lia)). lia.
    - lia.
  Qed.

  Lemma scan_n_correct junk sched sizes offsets src dst :
    segments_ok sizes offsets (length src) -> length dst = length src ->
    Permutation sched (seq 0 (length sizes)) ->
    exists out, joint_exclusive_scan_n add zero junk sched sizes offsets src dst = Some out /\
      is_segmented_scan add zero sizes offsets src dst out.
  Proof.
    intros [Lso [Hr Hd]] Ld P. unfold joint_exclusive_scan_n.
    set (sz := fun a => nth a sizes 0). set (of_ := fun a => nth a offsets 0).
    set (seg := fun a j => (of_ a <=? j) && (j <? of_ a + sz a)).
    assert (Hsz : forall a, a < length sizes -> nth_error sizes a = Some (sz a)) by (intros; apply nth_error_nth'; auto).
    assert (Hof : forall a, a < length sizes -> nth_error offsets a = Some (of_ a)) by (intros; apply nth_error_nth'; lia).
    assert (Hseg : forall a j, a < length sizes -> (seg a j = true <-> in_segment sizes offsets a j)).
    { intros a j Ha. unfold seg. rewrite andb_true_iff, Nat.leb_le, Nat.ltb_lt. split.
      - intros H. exists (sz a), (of_ a). auto.
      - intros (n & o & E1 & E2 & H). rewrite Hsz in E1 by auto. rewrite Hof in E2 by auto.
        injection E1 as <-. injection E2 as <-. auto. }
    set (val := fun j => match find (fun a => seg a j) (seq 0 (length sizes)) with
                          | Some a => total (firstn (j - of_ a) (skipn (of_ a) src)) | None => zero end).
    assert (Hfind : forall j a, a < length sizes -> seg a j = true ->
        find (fun a => seg a j) (seq 0 (length sizes)) = Some a).
    { intros j a Ha Hj. destruct (find _ _) as [a'|] eqn:F.
      - apply find_some in F as [F1 F2]. apply in_seq in F1. f_equal.
        apply (Hd a' a j); apply Hseg; auto; lia.
      - exfalso. apply find_none with (x := a) in F; [|apply in_seq; lia]. congruence. }
    destruct (foldM_regions (scan_n_item add zero junk sizes offsets src) seg val (length src) (fun a => a < length sizes))
      with (sched := sched) (m := dst) as [out [E [L N]]]; auto.
    { intros m a Lm Ha. unfold scan_n_item, rd. rewrite Hsz by auto; cbn [obind].
      destruct (Nat.eqb_spec (sz a) 0) as [Z|Z].
      - exists m. repeat split; auto. intros j. replace (seg a j) with false; auto.
        symmetry. unfold seg. destruct (Nat.leb_spec (of_ a) j), (Nat.ltb_spec j (of_ a + sz a)); auto; lia.
      - rewrite Hof by auto; cbn [obind].
        assert (B : of_ a + sz a <= length src).
        { enough (of_ a + sz a - 1 < length src) by lia. apply (Hr a). exists (sz a), (of_ a). repeat split; auto; lia. }
        destruct (group_exscan_fixed (junk a) src (of_ a) (of_ a + sz a) m) as [d [d' [F1 [F2 [F3 F4]]]]]; try lia.
        rewrite F1; cbn [obind]. exists d'. repeat split; auto; [lia|].
        intros j. rewrite F4. fold (seg a j). destruct (seg a j) eqn:S; auto.
        unfold val. rewrite (Hfind j a); auto. }
    { intros a Ha. apply (Permutation_in _ P) in Ha. apply in_seq in Ha; lia. }
    exists out. split; [exact E|]. split; [|split; [|lia]].
    - intros a n o i E1 E2 Hi.
      assert (Ha : a < length sizes) by (eapply nth_error_some_lt; eauto).
      rewrite Hsz in E1 by auto. rewrite Hof in E2 by auto. injection E1 as <-. injection E2 as <-.
      assert (Sg : seg a (of_ a + i) = true).
      { unfold seg. rewrite andb_true_iff, Nat.leb_le, Nat.ltb_lt; lia. }
      rewrite N. replace (existsb _ _) with true.
      + unfold val. rewrite (Hfind _ a); auto. do 3 f_equal. lia.
      + symmetry; apply existsb_exists. exists a. split; auto.
        apply (Permutation_in _ (Permutation_sym P)). apply in_seq; lia.
    - intros j Hj. rewrite N. replace (existsb _ _) with false; auto.
      symmetry. apply not_true_iff_false. intros C. apply existsb_exists in C as [a [Ha C]].
      apply (Permutation_in _ P) in Ha. apply in_seq in Ha. apply (Hj a). apply Hseg; auto; lia.
  Qed.

  Lemma scan_n_sum_correct junk sched sched2 sizes offsets src dst tot :
    segments_ok sizes offsets (length src) -> length dst = length src ->
    length sizes <= length tot ->
    Permutation sched (seq 0 (length sizes)) ->
    Permutation sched2 (seq 0 (length sizes)) ->
    exists out t, joint_exclusive_scan_n_sum add zero junk sched sched2 sizes offsets src dst tot = Some (out, t) /\
      is_segmented_scan add zero sizes offsets src dst out /\
      is_segment_totals add zero sizes offsets src t /\ length t = length tot.
  Proof.
    intros Hok Ld Lt P P2. unfold joint_exclusive_scan_n_sum.
    destruct (scan_n_correct junk sched sizes offsets src dst Hok Ld P) as [out [E Hs]].
    rewrite E; cbn [obind].
    destruct Hok as [Lso [Hr Hd]]. destruct Hs as [Hs1 Hs2]. pose proof Hmon as [_ [_ Zc]].
    set (sz := fun a => nth a sizes 0). set (of_ := fun a => nth a offsets 0).
    assert (Hsz : forall a, a < length sizes -> nth_error sizes a = Some (sz a)) by (intros; apply nth_error_nth'; auto).
    assert (Hof : forall a, a < length sizes -> nth_error offsets a = Some (of_ a)) by (intros; apply nth_error_nth'; lia).
    destruct (foldM_regions (scan_n_sum_item add zero sizes offsets src out) (fun a j => j =? a)
        (fun a => total (firstn (sz a) (skipn (of_ a) src))) (length tot) (fun a => a < length sizes))
      with (sched := sched2) (m := tot) as [t [E2 [L2 N2]]]; auto.
    { intros m a Lm Ha. unfold scan_n_sum_item, rd. rewrite Hsz by auto; cbn [obind].
      destruct (Nat.eqb_spec (sz a) 0) as [Z|Z].
      - destruct (upd_some m a zero) as [m' E']; [lia|]. exists m'. repeat split; auto.
        + rewrite (upd_length _ _ _ _ E'); auto.
        + intros j. rewrite (upd_nth _ _ _ _ j E'). destruct (Nat.eqb_spec j a) as [->|]; auto.
          rewrite Z; auto.
      - rewrite Hof by auto; cbn [obind].
        assert (B : of_ a + sz a <= length src).
        { enough (of_ a + sz a - 1 < length src) by lia. apply (Hr a). exists (sz a), (of_ a). repeat split; auto; lia. }
        destruct (nth_error_lt_some src (of_ a + sz a - 1)) as [x Hx]; [lia|]. rewrite Hx; cbn [obind].
        replace (of_ a + sz a - 1) with (of_ a + (sz a - 1)) in * by lia.
        rewrite (Hs1 a (sz a) (of_ a)) by (auto; lia). cbn [obind].
        destruct (upd_some m a (add x (total (firstn (sz a - 1) (skipn (of_ a) src))))) as [m' E']; [lia|].
        exists m'. repeat split; auto.
        + rewrite (upd_length _ _ _ _ E'); auto.
        + intros j. rewrite (upd_nth _ _ _ _ j E'). destruct (Nat.eqb_spec j a) as [->|]; auto.
          f_equal. rewrite Zc. replace (sz a) with (S (sz a - 1)) at 2 by lia.
          symmetry; apply total_firstn_S. rewrite nth_error_skipn; auto. }
    { intros a Ha. apply (Permutation_in _ P2) in Ha. apply in_seq in Ha; lia. }
    rewrite E2; cbn [obind]. exists out, t. repeat split; auto; try tauto.
    intros a n o E3 E4. assert (Ha : a < length sizes) by (eapply nth_error_some_lt; eauto).
    rewrite Hsz in E3 by auto. rewrite Hof in E4 by auto. injection E3 as <-. injection E4 as <-.
    rewrite N2. replace (existsb _ _) with true; auto.
    symmetry; apply existsb_exists. exists a. rewrite Nat.eqb_refl. split; auto.
    apply (Permutation_in _ (Permutation_sym P2)). apply in_seq; lia.
  Qed.
End Proofs.

Lemma decomp_partition : forall U N, 0 < U ->
  decomp_start U N 0 = 0 /\
  decomp_end U N (U - 1) = N /\
  (forall i, decomp_start U N i <= decomp_end U N i) /\
  (forall i, S i < U -> decomp_start U N (S i) = decomp_end U N i) /\
  (forall i j, i < U -> j < U ->
     decomp_end U N i - decomp_start U N i <= decomp_end U N j - decomp_start U N j + 1) /\
  (forall w, w < N -> exists! i, i < U /\ decomp_start U N i <= w < decomp_end U N i).
Proof.
  intros U N H. assert (H0 : U <> 0) by lia. repeat split.
  - apply decomp_start_0; auto.
  - rewrite decomp_end_start by auto. replace (S (U - 1)) with U by lia. apply decomp_end_last; auto.
  - intros i. rewrite decomp_end_start by auto. apply decomp_start_mono; auto.
  - intros i _. rewrite decomp_end_start by auto; auto.
  - intros i j _ _. rewrite !decomp_end_start, !decomp_start_closed by auto. lia.
  - intros w Hw. destruct (decomp_cover U N w H0 Hw) as [i [Hi Hw']]. exists i. split; auto.
    intros j [_ Hj]. eapply decomp_unique; eauto.
Qed.

Lemma decomp_inverse_correct_pos : forall U N w, 0 < U -> w < N ->
  exists i, decomp_inverse U N w = Some i /\ i < U /\
            decomp_start U N i <= w < decomp_end U N i.
Proof. intros U N w H. apply decomp_inverse_correct; lia. Qed.
