(** Proofs about the layer compressor. *)
From Coq Require Import List Arith Lia ZArith Permutation Bool.
Import ListNotations.
From Verif Require Import Base Kernel Scan_Model Scan_Spec Scan_Proofs Group_Model Group_Spec
  Compress_Model Compress_Spec.

Lemma nat_monoid : commutative_monoid Nat.add 0.
Proof. repeat split; intros; lia. Qed.

Lemma exscan_correct d k N src dst : device_ok d -> N <= length src -> N <= length dst ->
  exists out, exscan d k N src dst = Some out /\ is_exclusive_scan Nat.add 0 N src dst out.
Proof.
  intros [P Hl] L1 L2. unfold exscan.
  apply (scan2_correct Nat.add 0 nat_monoid); cbn [sched_blocks sched_totals sched_shift]; auto.
  rewrite fresh_length; auto.
Qed.

Lemma in_all_particles np c l : In (c, l) (all_particles np) <-> exists n, nth_error np c = Some n /\ l < n.
Proof.
  unfold all_particles. rewrite in_flat_map. split.
  - intros [c' [Hc Hi]]. apply in_map_iff in Hi. destruct Hi as [l' [[= <- <-] Hl]].
    apply in_seq in Hl, Hc. exists (nth c' np 0). split; [apply nth_error_nth'; lia|lia].
  - intros [n [E Hl]]. exists c. pose proof (nth_error_some_lt _ _ _ E).
    split; [apply in_seq; lia|]. apply in_map_iff. exists l; split; auto.
    apply in_seq. rewrite (nth_error_nth _ _ 0 E). lia.
Qed.

(** ** Prefix sums of natural numbers *)
Definition psum (l : list nat) (c : nat) : nat := total Nat.add 0 (firstn c l).

Lemma psum_S l c n : nth_error l c = Some n -> psum l (S c) = psum l c + n.
Proof.
  revert c; induction l as [|x l IH]; intros [|c] E; cbn in *; try discriminate.
  - injection E as ->. unfold psum, total. destruct l; cbn; lia.
  - unfold psum, total in *. cbn [firstn fold_right] in *. rewrite (IH c E). lia.
Qed.

Lemma psum_mono l c c' : c <= c' -> psum l c <= psum l c'.
Proof.
  induction 1 as [|c' H IH]; auto.
  destruct (nth_error l c') as [n|] eqn:E; [rewrite (psum_S _ _ _ E); lia|].
  apply nth_error_None in E. unfold psum in *.
  replace (firstn (S c') l) with (firstn c' l); auto. rewrite !firstn_all2 by lia; auto.
Qed.

Lemma psum_lt l c c' n : nth_error l c = Some n -> c < c' -> psum l c + n <= psum l c'.
Proof. intros E H. rewrite <- (psum_S _ _ _ E). apply psum_mono; lia. Qed.

(** Positions in the packed array decompose uniquely. *)
Lemma psum_unique l c c' k k' n n' : nth_error l c = Some n -> nth_error l c' = Some n' ->
  k < n -> k' < n' -> psum l c + k = psum l c' + k' -> c = c' /\ k = k'.
Proof.
  intros E E' K K' H.
  destruct (lt_eq_lt_dec c c') as [[L| ->]|L].
  - pose proof (psum_lt _ _ _ _ E L). lia.
  - lia.
  - pose proof (psum_lt _ _ _ _ E' L). lia.
Qed.

Lemma psum_find l i : forall N, N <= length l -> i < psum l N ->
  exists c n k, c < N /\ nth_error l c = Some n /\ k < n /\ i = psum l c + k.
Proof.
  induction N as [|N IH]; intros HN Hi; [unfold psum, total in Hi; cbn in Hi; lia|].
  destruct (nth_error_lt_some l N) as [n E]; [lia|].
  destruct (le_lt_dec (psum l N) i) as [H|H].
  - rewrite (psum_S _ _ _ E) in Hi. exists N, n, (i - psum l N). repeat split; auto; lia.
  - destruct IH as [c [m [k [A [B [C D]]]]]]; [lia|auto|]. exists c, m, k; repeat split; auto.
Qed.

Lemma psum_app l l' c : c <= length l -> psum (l ++ l') c = psum l c.
Proof. intros. unfold psum. rewrite firstn_app. replace (c - length l) with 0 by lia. rewrite app_nil_r; auto. Qed.

Lemma segments_psum sizes len : psum sizes (length sizes) <= len ->
  segments_ok sizes (map (psum sizes) (seq 0 (length sizes))) len.
Proof.
  intros H. split; [rewrite map_length, seq_length; auto|].
  assert (G : forall a n o, nth_error sizes a = Some n ->
    nth_error (map (psum sizes) (seq 0 (length sizes))) a = Some o -> o = psum sizes a).
  { intros a n o E E2. rewrite nth_error_map_seq in E2.
    destruct (Nat.ltb_spec a (length sizes)); [|discriminate]. injection E2 as <-. auto. }
  split.
  - intros a j (n & o & E1 & E2 & Hj). rewrite (G a n o E1 E2) in Hj.
    pose proof (psum_lt _ _ _ _ E1 (nth_error_some_lt _ _ _ E1)). lia.
  - intros a b j (n & o & E1 & E2 & Hj) (n' & o' & E1' & E2' & Hj').
    rewrite (G a n o E1 E2) in Hj. rewrite (G b n' o' E1' E2') in Hj'.
    apply (psum_unique sizes a b (j - psum sizes a) (j - psum sizes b) n n'); auto; lia.
Qed.

(** ** The plan *)
Section Plan.
  Context (d : device) (Hd : device_ok d).
  Context (npart : list nat) (cells layers : list Z) (ids : list (list Z)).
  Let ncell := length npart.
  Let nrem := length cells.
  Hypothesis Hlen : length cells = length layers.
  Hypothesis Hreq : forall i c l n, nth_error cells i = Some (Z.of_nat c) ->
    nth_error layers i = Some (Z.of_nat l) -> nth_error npart c = Some n -> l < n.
  Hypothesis Hids : forall c n l, nth_error npart c = Some n -> l < n -> exists z, rd2 ids c l = Some z.
  Hypothesis Hkept : forall c l n, nth_error npart c = Some n -> l < n ->
    listed cells layers c l = false -> exists z, rd2 ids c l = Some z /\ (0 <= z)%Z.

  Let m (c : nat) := listed cells layers c.
  Let cnt c i := length (filter (m c) (seq 0 i)).
  Let nn c := nth c npart 0.
  Let new c := nn c - cnt c (nn c).
  Let tf c := cnt c (new c).
  Let tfl := map tf (seq 0 ncell).
  Let holes c := filter (m c) (seq 0 (new c)).
  Let fillers c := filter (fun l => negb (m c l)) (seq (new c) (nn c - new c)).

  Lemma npart_nn c : c < ncell -> nth_error npart c = Some (nn c).
  Proof. intros; apply nth_error_nth'; auto. Qed.

  Lemma cnt_le c i : cnt c i <= i.
  Proof. apply filter_seq_le. Qed.
  Lemma new_le c : new c <= nn c.
  Proof. unfold new; lia. Qed.
  Lemma cnt_S c i : cnt c (S i) = cnt c i + (if m c i then 1 else 0).
  Proof.
    unfold cnt. rewrite seq_S, filter_app, app_length. cbn. destruct (m c i); auto.
  Qed.
  Lemma cnt_split c i j : i <= j -> cnt c j = cnt c i + length (filter (m c) (seq i (j - i))).
  Proof. intros. unfold cnt. rewrite (filter_seq_split (m c) 0 i j); auto. Qed.
  Lemma holes_length c : length (holes c) = tf c.
  Proof. reflexivity. Qed.
  Lemma fillers_length c : length (fillers c) = tf c.
  Proof.
    unfold fillers, tf. pose proof (new_le c) as H.
    pose proof (filter_negb_length (m c) (seq (new c) (nn c - new c))) as E.
    rewrite seq_length in E. pose proof (cnt_split c _ _ H) as E2.
    pose proof (cnt_le c (nn c)). unfold new in *. lia.
  Qed.
  (* number of kept layers in [new, l) *)
  Lemma fillers_before c l : new c <= l ->
    length (filter (fun l => negb (m c l)) (seq (new c) (l - new c))) = l - new c - (cnt c l - tf c).
  Proof.
    intros H. pose proof (filter_negb_length (m c) (seq (new c) (l - new c))) as E.
    rewrite seq_length in E. pose proof (cnt_split c _ _ H) as E2. unfold tf. lia.
  Qed.

  (** *** Flags *)
  Lemma listed_in c l : listed cells layers c l = true <->
    exists i, nth_error cells i = Some (Z.of_nat c) /\ nth_error layers i = Some (Z.of_nat l).
  Proof.
    unfold listed. rewrite existsb_exists. split.
    - intros [[x y] [Hi H]]. apply andb_true_iff in H. destruct H as [H1 H2].
      apply Z.eqb_eq in H1, H2. cbn in H1, H2. subst.
      apply In_nth_error in Hi. destruct Hi as [i Hi]. exists i.
      revert Hi. clear. revert i layers. induction cells as [|a cs IH]; intros [|i] [|b ls] H; cbn in *; try discriminate.
      + injection H as -> ->; auto.
      + apply IH; auto.
    - intros [i [H1 H2]]. exists (Z.of_nat c, Z.of_nat l). split.
      + clear -H1 H2. revert i layers H1 H2. induction cells as [|a cs IH]; intros [|i] [|b ls] H1 H2; cbn in *; try discriminate.
        * left; congruence.
        * right; eapply IH; eauto.
      + cbn. rewrite !Z.eqb_refl; auto.
  Qed.

  Lemma listed_lt c l : c < ncell -> listed cells layers c l = true -> l < nn c.
  Proof.
    intros Hc H. apply listed_in in H. destruct H as [i [H1 H2]].
    eapply Hreq; eauto. apply npart_nn; auto.
  Qed.

  Lemma flags_correct : exists ids', foldM (flag_item ncell cells layers) ids (ord d 10 (seq 0 nrem)) = Some ids' /\
    shape2 ids' = shape2 ids /\
    (forall c l, c < ncell -> m c l = true -> rd2 ids' c l = Some (-1)%Z) /\
    (forall c l, (c < ncell -> m c l = false) -> rd2 ids' c l = rd2 ids c l).
  Proof.
    set (wr := fun i => match nth_error cells i, nth_error layers i with
      | Some x, Some y => if ((-1 <? x) && (x <? Z.of_nat ncell) && (-1 <? y))%Z
         then Some (Z.to_nat x, Z.to_nat y, (-1)%Z) else None
      | _, _ => None end).
    assert (Hwr : forall i c l v, wr i = Some (c, l, v) -> c < ncell /\ v = (-1)%Z /\
       nth_error cells i = Some (Z.of_nat c) /\ nth_error layers i = Some (Z.of_nat l)).
    { unfold wr. intros i c l v. destruct (nth_error cells i) as [x|]; [|discriminate].
      destruct (nth_error layers i) as [y|]; [|discriminate].
      destruct (Z.ltb_spec (-1) x), (Z.ltb_spec x (Z.of_nat ncell)), (Z.ltb_spec (-1) y); cbn; try discriminate.
      intros [= <- <- <-]. rewrite !Z2Nat.id by lia. repeat split; auto. lia. }
    destruct (foldM_upd2 (flag_item ncell cells layers) wr (ord d 10 (seq 0 nrem)) ids) as [ids' [E [S [W N]]]].
    - intros m' i _ Hi. apply in_ord in Hi; auto. apply in_seq in Hi.
      unfold flag_item, wr, rd.
      destruct (nth_error_lt_some cells i) as [x Ex]; [unfold nrem in Hi; lia|].
      destruct (nth_error_lt_some layers i) as [y Ey]; [unfold nrem in Hi; lia|].
      rewrite Ex, Ey; cbn [obind].
      destruct ((-1 <? x) && (x <? Z.of_nat ncell) && (-1 <? y))%Z; auto.
    - intros i c l v _ H. apply Hwr in H. destruct H as [Hc [_ [H1 H2]]].
      apply (Hids c (nn c) l); [apply npart_nn; auto|]. apply listed_lt; auto. apply listed_in; eauto.
    - intros a b i j v w _ _ H1 H2. apply Hwr in H1, H2. destruct H1 as [_ [-> _]], H2 as [_ [-> _]]; auto.
    - exists ids'; split; [exact E|]. split; [exact S|]. split.
      + intros c l Hc Hm. apply listed_in in Hm. destruct Hm as [i [H1 H2]].
        apply (W i). { apply in_ord; auto. apply in_seq. pose proof (nth_error_some_lt _ _ _ H1). unfold nrem; lia. }
        unfold wr. rewrite H1, H2.
        destruct (Z.ltb_spec (-1) (Z.of_nat c)), (Z.ltb_spec (Z.of_nat c) (Z.of_nat ncell)), (Z.ltb_spec (-1) (Z.of_nat l)); try lia.
        cbn. rewrite !Nat2Z.id; auto.
      + intros c l Hn. apply N. intros i v Hi H. apply Hwr in H. destruct H as [Hc [-> [H1 H2]]].
        specialize (Hn Hc). assert (m c l = true) by (apply listed_in; eauto). congruence.
  Qed.

  Let occ := map (fun n => n + 1) npart ++ [0].
  Let off := psum occ.

  Lemma occ_nth c : c < ncell -> nth_error occ c = Some (nn c + 1).
  Proof.
    intros Hc. unfold occ. rewrite nth_error_app1 by (rewrite map_length; auto).
    rewrite nth_error_map, (npart_nn c Hc); auto.
  Qed.
  Lemma occ_length : length occ = ncell + 1.
  Proof. unfold occ. rewrite app_length, map_length; auto. Qed.

  Lemma off_bound c l : c < ncell -> l <= nn c -> off c + l < off ncell.
  Proof. intros Hc Hl. pose proof (psum_lt _ _ _ _ (occ_nth c Hc) Hc). unfold off in *; lia. Qed.
  Lemma off_unique c c' l l' : c < ncell -> c' < ncell -> l <= nn c -> l' <= nn c' ->
    off c + l = off c' + l' -> c = c' /\ l = l'.
  Proof. intros Hc Hc' Hl Hl' E. eapply psum_unique; try apply occ_nth; eauto; lia. Qed.

  (** *** Masks *)
  Lemma masks_correct occ_es ids' :
    (forall c, c <= ncell -> nth_error occ_es c = Some (off c)) ->
    shape2 ids' = shape2 ids ->
    (forall c l, c < ncell -> m c l = true -> rd2 ids' c l = Some (-1)%Z) ->
    (forall c l, (c < ncell -> m c l = false) -> rd2 ids' c l = rd2 ids c l) ->
    exists masks, foldM (mask_item occ_es ids') (fresh d 11 (off ncell)) (ord d 11 (all_particles npart)) = Some masks /\
      length masks = off ncell /\
      forall c l, c < ncell -> l < nn c -> nth_error masks (off c + l) = Some (if m c l then 1 else 0).
  Proof.
    intros Hes S F1 F2.
    assert (HI : forall c l, In (c, l) (ord d 11 (all_particles npart)) -> c < ncell /\ l < nn c).
    { intros c l H. apply in_ord in H; auto. apply in_all_particles in H. destruct H as [n [E H]].
      pose proof (nth_error_some_lt _ _ _ E). split; auto. unfold nn. rewrite (nth_error_nth _ _ 0 E); auto. }
    destruct (foldM_upd (mask_item occ_es ids') (fun w => off (fst w) + snd w)
       (fun w => if m (fst w) (snd w) then 1 else 0) (ord d 11 (all_particles npart)) (fresh d 11 (off ncell)))
      as [mk [E [L [W _]]]].
    - intros m' [c l] _ Hi. apply HI in Hi. destruct Hi as [Hc Hl]. unfold mask_item, rd; cbn [fst snd].
      rewrite Hes by lia. cbn [obind]. destruct (m c l) eqn:Em.
      + rewrite F1 by auto. reflexivity.
      + rewrite F2 by auto. destruct (Hkept c l (nn c)) as [z [Ez Hz]]; auto; [apply npart_nn; auto|].
        rewrite Ez. cbn [obind]. destruct (Z.ltb_spec (-1) z); auto; lia.
    - intros [c l] Hi. apply HI in Hi. rewrite fresh_length. cbn [fst snd]. apply off_bound; lia.
    - intros [c l] [c' l'] Hi Hi' Eq. apply HI in Hi, Hi'. cbn [fst snd] in *.
      destruct (off_unique c c' l l') as [-> ->]; try lia; auto.
    - exists mk; split; [exact E|]. rewrite fresh_length in L. split; auto.
      intros c l Hc Hl. apply (W (c, l)). apply in_ord; auto. apply in_all_particles.
      exists (nn c); split; auto. apply npart_nn; auto.
  Qed.

  (** *** Scan of the masks *)
  Lemma masks_total masks c i : c < ncell -> length masks = off ncell ->
    (forall c l, c < ncell -> l < nn c -> nth_error masks (off c + l) = Some (if m c l then 1 else 0)) ->
    i <= nn c -> total Nat.add 0 (firstn i (skipn (off c) masks)) = cnt c i.
  Proof.
    intros Hc L Hm. induction i as [|i IH]; intros Hi; [reflexivity|].
    rewrite cnt_S, <- IH by lia.
    change (psum (skipn (off c) masks) (S i) = psum (skipn (off c) masks) i + (if m c i then 1 else 0)).
    apply psum_S. rewrite nth_error_skipn. apply Hm; auto.
  Qed.

  Lemma firstn_occ : firstn ncell occ = map (fun n => n + 1) npart.
  Proof. unfold occ, ncell. rewrite firstn_app, map_length, Nat.sub_diag, app_nil_r. apply firstn_all2. rewrite map_length; auto. Qed.

  Lemma masks_es_correct occ_es masks :
    (forall c, c <= ncell -> nth_error occ_es c = Some (off c)) -> length occ_es = ncell + 1 ->
    length masks = off ncell ->
    (forall c l, c < ncell -> l < nn c -> nth_error masks (off c + l) = Some (if m c l then 1 else 0)) ->
    exists es, joint_exclusive_scan_n Nat.add 0 (fun i => Z.to_nat (junk d 12 i))
                  (ord d 12 (seq 0 ncell)) (firstn ncell occ) (firstn ncell occ_es)
                  masks (repeat 0 (off ncell)) = Some es /\
      length es = off ncell /\
      forall c i, c < ncell -> i <= nn c -> nth_error es (off c + i) = Some (cnt c i).
  Proof.
    intros Hes Le L Hm.
    assert (E1 : firstn ncell occ_es = map (psum (firstn ncell occ)) (seq 0 (length (firstn ncell occ)))).
    { rewrite firstn_occ, map_length. fold ncell. apply nth_error_ext.
      intros i. rewrite nth_error_firstn, nth_error_map_seq. destruct (Nat.ltb_spec i ncell); auto.
      rewrite Hes by lia. unfold off, occ. rewrite psum_app by (rewrite map_length; fold ncell; lia). auto. }
    rewrite E1.
    destruct (scan_n_correct Nat.add 0 nat_monoid (fun i => Z.to_nat (junk d 12 i)) (ord d 12 (seq 0 ncell))
       (firstn ncell occ) (map (psum (firstn ncell occ)) (seq 0 (length (firstn ncell occ)))) masks (repeat 0 (off ncell)))
      as [es [Ee [H1 [_ H3]]]].
    - apply segments_psum. rewrite firstn_occ, map_length. fold ncell. rewrite L. unfold off, occ.
      rewrite psum_app; auto. rewrite map_length; fold ncell; lia.
    - rewrite repeat_length; auto.
    - rewrite firstn_occ, map_length. apply Hd.
    - exists es. split; [exact Ee|]. split; [rewrite H3, repeat_length; auto|].
      intros c i Hc Hi.
      assert (X : nth_error (map (psum (firstn ncell occ)) (seq 0 (length (firstn ncell occ)))) c = Some (off c)).
      { rewrite <- E1, nth_error_firstn. destruct (Nat.ltb_spec c ncell); [|lia]. apply Hes; lia. }
      rewrite (H1 c (nn c + 1) (off c) i); auto; [|rewrite nth_error_firstn; destruct (Nat.ltb_spec c ncell); [apply occ_nth; auto|lia]|lia].
      f_equal. apply masks_total; auto.
  Qed.

  (** *** New occupancies *)
  Lemma cells_correct occ_es es :
    (forall c, c <= ncell -> nth_error occ_es c = Some (off c)) ->
    (forall c i, c < ncell -> i <= nn c -> nth_error es (off c + i) = Some (cnt c i)) ->
    exists nw fl, foldM (cell_item npart occ occ_es es) (fresh d 13 ncell, fresh d 14 (ncell + 1))
        (ord d 13 (seq 0 ncell)) = Some (nw, fl) /\
      length nw = ncell /\ length fl = ncell + 1 /\
      forall c, c < ncell -> nth_error nw c = Some (new c) /\ nth_error fl c = Some (tf c).
  Proof.
    intros Hes Hm.
    destruct (@foldM_kernel nat (list nat * list nat) (bool * nat) nat
      (cell_item npart occ occ_es es)
      (fun s j => nth_error (if fst j then fst s else snd s) (snd j))
      (fun s => length (fst s) = ncell /\ length (snd s) = ncell + 1)
      (fun c j => if snd j =? c then Some (if fst j then new c else tf c) else None)
      (ord d 13 (seq 0 ncell)) (fresh d 13 ncell, fresh d 14 (ncell + 1)))
      as [[nw fl] [E [[L1 L2] [W _]]]].
    - cbn [fst snd]. rewrite !fresh_length; auto.
    - intros [nw fl] c [L1 L2] Hi. apply in_ord in Hi; auto. apply in_seq in Hi. cbn [fst snd] in *.
      unfold cell_item, rd. rewrite Hes by lia. cbn [obind]. rewrite occ_nth by lia. cbn [obind].
      unfold sub_. destruct (Nat.ltb_spec (nn c + 1) 1); [lia|]. cbn [obind].
      replace (nn c + 1 - 1) with (nn c) by lia. rewrite Hm by lia. cbn [obind].
      rewrite npart_nn by lia. cbn [obind]. pose proof (cnt_le c (nn c)).
      destruct (Nat.ltb_spec (nn c) (cnt c (nn c))); [lia|]. cbn [obind]. fold (new c).
      rewrite Hm by (try lia; apply new_le). cbn [obind fst snd].
      destruct (upd_some nw c (new c)) as [nw' E1]; [lia|]. rewrite E1; cbn [obind].
      destruct (upd_some fl c (tf c)) as [fl' E2]; [lia|].
      change (cnt c (new c)) with (tf c). rewrite E2; cbn [obind].
      eexists; split; [reflexivity|]. cbn [fst snd].
      rewrite (upd_length _ _ _ _ E1), (upd_length _ _ _ _ E2). split; [auto|].
      intros [[] j]; cbn [fst snd]; [rewrite (upd_nth _ _ _ _ j E1)|rewrite (upd_nth _ _ _ _ j E2)];
        destruct (j =? c); auto.
    - intros a b [x j] v w _ _; cbn [fst snd].
      destruct (Nat.eqb_spec j a), (Nat.eqb_spec j b); try discriminate. subst. congruence.
    - exists nw, fl. split; [exact E|]. cbn [fst snd] in *. split; auto. split; auto.
      intros c Hc. assert (Hi : In c (ord d 13 (seq 0 ncell))) by (apply in_ord; auto; apply in_seq; lia).
      split; [apply (W c (true, c) _ Hi)|apply (W c (false, c) _ Hi)]; cbn; rewrite Nat.eqb_refl; auto.
  Qed.

  (** *** The number of distinct listed particles is at most the list length *)
  Lemma psum_tfl_le c : c <= ncell -> psum tfl c <= psum (map (fun c => cnt c (nn c)) (seq 0 ncell)) c.
  Proof.
    induction c as [|c IH]; intros Hc; [reflexivity|].
    assert (E1 : nth_error tfl c = Some (tf c)).
    { unfold tfl. rewrite nth_error_map_seq. destruct (Nat.ltb_spec c ncell); [auto|lia]. }
    assert (E2 : nth_error (map (fun c => cnt c (nn c)) (seq 0 ncell)) c = Some (cnt c (nn c))).
    { rewrite nth_error_map_seq. destruct (Nat.ltb_spec c ncell); [auto|lia]. }
    rewrite (psum_S _ _ _ E1), (psum_S _ _ _ E2). specialize (IH ltac:(lia)).
    enough (tf c <= cnt c (nn c)) by lia.
    unfold tf. pose proof (cnt_split c _ _ (new_le c)). lia.
  Qed.

  Lemma flat_map_psum {A} (f : nat -> list A) n :
    length (flat_map f (seq 0 n)) = psum (map (fun c => length (f c)) (seq 0 n)) n.
  Proof.
    induction n as [|n IH]; [reflexivity|].
    rewrite seq_S, flat_map_app, app_length. cbn [flat_map]. rewrite app_nil_r.
    rewrite (psum_S _ _ (length (f n))).
    - rewrite map_app, psum_app by (rewrite map_length, seq_length; auto). rewrite IH; auto.
    - rewrite map_app, nth_error_app2; rewrite map_length, seq_length; auto.
      rewrite Nat.sub_diag; auto.
  Qed.

  Lemma total_listed_le : psum (map (fun c => cnt c (nn c)) (seq 0 ncell)) ncell <= nrem.
  Proof.
    set (f := fun c => map (fun l => (Z.of_nat c, Z.of_nat l)) (filter (m c) (seq 0 (nn c)))).
    assert (E : map (fun c => cnt c (nn c)) (seq 0 ncell) = map (fun c => length (f c)) (seq 0 ncell)).
    { apply map_ext. intros c. unfold f. rewrite map_length; auto. }
    rewrite E, <- flat_map_psum.
    replace nrem with (length (combine cells layers)) by (rewrite combine_length, <- Hlen, Nat.min_id; auto).
    apply NoDup_incl_length.
    - apply NoDup_flat_map; [apply seq_NoDup| |].
      + intros c _. apply FinFun.Injective_map_NoDup; [intros x y H; injection H; lia|].
        apply NoDup_filter, seq_NoDup.
      + intros c c' [x y] _ _ H H'. unfold f in H, H'. apply in_map_iff in H, H'.
        destruct H as [? [[= <- <-] _]], H' as [? [[= H' _] _]]. lia.
    - intros [x y] H. apply in_flat_map in H. destruct H as [c [_ H]]. unfold f in H.
      apply in_map_iff in H. destruct H as [l [[= <- <-] H]]. apply filter_In in H. destruct H as [_ H].
      unfold m, listed in H. apply existsb_exists in H. destruct H as [[a b] [Hi H]]. cbn [fst snd] in H.
      apply andb_true_iff in H. destruct H as [H1 H2]. apply Z.eqb_eq in H1, H2. congruence.
  Qed.

  Lemma tfl_nth c : c < ncell -> nth_error tfl c = Some (tf c).
  Proof. intros. unfold tfl. rewrite nth_error_map_seq. destruct (Nat.ltb_spec c ncell); [auto|lia]. Qed.

  Lemma tf_index c k : c < ncell -> k < tf c -> psum tfl c + k < nrem.
  Proof.
    intros Hc Hk. pose proof (psum_lt _ _ _ _ (tfl_nth c Hc) Hc).
    pose proof (psum_tfl_le ncell (le_n _)). pose proof total_listed_le. lia.
  Qed.

  (** *** The copy plan *)
  Lemma plan_items_correct occ_es masks es nw fl fes :
    (forall c, c <= ncell -> nth_error occ_es c = Some (off c)) ->
    (forall c l, c < ncell -> l < nn c -> nth_error masks (off c + l) = Some (if m c l then 1 else 0)) ->
    (forall c i, c < ncell -> i <= nn c -> nth_error es (off c + i) = Some (cnt c i)) ->
    (forall c, c < ncell -> nth_error nw c = Some (new c) /\ nth_error fl c = Some (tf c)) ->
    (forall c, c < ncell -> nth_error fes c = Some (psum tfl c)) ->
    exists co ln lo, foldM (plan_item occ_es masks es nw fl fes)
        (fresh d 30 nrem, fresh d 31 nrem, fresh d 32 nrem) (ord d 30 (all_particles npart)) = Some (co, ln, lo) /\
      length co = nrem /\ length ln = nrem /\ length lo = nrem /\
      forall c k, c < ncell -> k < tf c ->
        nth_error co (psum tfl c + k) = Some c /\
        nth_error ln (psum tfl c + k) = nth_error (holes c) k /\
        nth_error lo (psum tfl c + k) = nth_error (fillers c) k.
  Proof.
    intros Hes Hmk Hm Hnf Hfes.
    assert (HI : forall c l, In (c, l) (ord d 30 (all_particles npart)) <-> c < ncell /\ l < nn c).
    { intros c l. split; intros H.
      - apply in_ord in H; auto. apply in_all_particles in H. destruct H as [n [E H]].
        pose proof (nth_error_some_lt _ _ _ E). split; auto. unfold nn. rewrite (nth_error_nth _ _ 0 E); auto.
      - apply in_ord; auto. apply in_all_particles. exists (nn c); split; [apply npart_nn|]; tauto. }
    set (kf := fun c l => l - new c - (cnt c l - tf c)).
    set (wr := fun (w : nat * nat) (j : nat * nat) => let '(c, l) := w in
       if m c l && (l <? new c) then
         if snd j =? psum tfl c + cnt c l then
           match fst j with 0 => Some c | 1 => Some l | _ => None end else None
       else if negb (m c l) && (new c <=? l) then
         if snd j =? psum tfl c + kf c l then
           match fst j with 0 | 1 => None | _ => Some l end else None
       else None).
    (* index facts *)
    assert (Hh : forall c l, m c l = true -> l < new c -> nth_error (holes c) (cnt c l) = Some l /\ cnt c l < tf c).
    { intros c l H1 H2. assert (E : nth_error (holes c) (cnt c l) = Some l).
      { unfold holes, cnt. pose proof (filter_seq_nth (m c) 0 (new c) l) as Q. rewrite Nat.sub_0_r in Q. apply Q; auto; lia. }
      split; auto. apply nth_error_some_lt in E. rewrite holes_length in E. auto. }
    assert (Hf : forall c l, m c l = false -> new c <= l < nn c -> nth_error (fillers c) (kf c l) = Some l /\ kf c l < tf c).
    { intros c l H1 H2. assert (E : nth_error (fillers c) (kf c l) = Some l).
      { unfold fillers, kf. rewrite <- fillers_before by lia.
        apply (filter_seq_nth (fun l => negb (m c l))); [lia|rewrite H1; auto]. }
      split; auto. apply nth_error_some_lt in E. rewrite fillers_length in E. auto. }
    destruct (@foldM_kernel (nat * nat) (list nat * list nat * list nat) (nat * nat) nat
      (plan_item occ_es masks es nw fl fes)
      (fun s j => let '(a, b, c) := s in nth_error (match fst j with 0 => a | 1 => b | _ => c end) (snd j))
      (fun s => let '(a, b, c) := s in length a = nrem /\ length b = nrem /\ length c = nrem)
      wr (ord d 30 (all_particles npart)) (fresh d 30 nrem, fresh d 31 nrem, fresh d 32 nrem))
      as [[[co ln] lo] [E [[L1 [L2 L3]] [W _]]]].
    - rewrite !fresh_length; auto.
    - intros [[a b] cc] [c l] [La [Lb Lc]] Hi. apply HI in Hi. destruct Hi as [Hc Hl].
      unfold plan_item, rd. rewrite Hes by lia. cbn [obind]. rewrite Hmk by auto. cbn [obind].
      destruct (Hnf c Hc) as [En Ef]. rewrite En. cbn [obind]. unfold wr.
      destruct (m c l) eqn:Em; cbn [negb Nat.eqb andb].
      + destruct (Nat.ltb_spec l (new c)) as [Hn|Hn].
        * destruct (Hh c l Em Hn) as [_ Hk]. rewrite Hfes by auto. cbn [obind]. rewrite Hm by lia. cbn [obind].
          pose proof (tf_index c _ Hc Hk).
          destruct (upd_some a (psum tfl c + cnt c l) c) as [a' E1]; [lia|]. rewrite E1. cbn [obind].
          destruct (upd_some b (psum tfl c + cnt c l) l) as [b' E2]; [lia|]. rewrite E2. cbn [obind].
          eexists; split; [reflexivity|]. split.
          { rewrite (upd_length _ _ _ _ E1), (upd_length _ _ _ _ E2); auto. }
          intros [[|[|x]] j]; cbn [fst snd].
          -- rewrite (upd_nth _ _ _ _ j E1). destruct (j =? _); auto.
          -- rewrite (upd_nth _ _ _ _ j E2). destruct (j =? _); auto.
          -- destruct (j =? _); auto.
        * eexists; split; [reflexivity|]. auto.
      + destruct (Nat.leb_spec (new c) l) as [Hn|Hn].
        * destruct (Hf c l Em) as [_ Hk]; [lia|]. rewrite Hm by lia. cbn [obind]. rewrite Ef. cbn [obind].
          pose proof (cnt_split c _ _ Hn) as Q. fold (tf c) in Q.
          pose proof (filter_seq_le (m c) (new c) (l - new c)) as Q2.
          unfold sub_. destruct (Nat.ltb_spec (cnt c l) (tf c)); [lia|]. cbn [obind].
          rewrite Hfes by auto. cbn [obind].
          destruct (Nat.ltb_spec (psum tfl c + l) (new c)); [lia|]. cbn [obind].
          destruct (Nat.ltb_spec (psum tfl c + l - new c) (cnt c l - tf c)); [lia|]. cbn [obind].
          replace (psum tfl c + l - new c - (cnt c l - tf c)) with (psum tfl c + kf c l) by (unfold kf; lia).
          pose proof (tf_index c _ Hc Hk).
          destruct (upd_some cc (psum tfl c + kf c l) l) as [a' E1]; [lia|]. rewrite E1. cbn [obind].
          eexists; split; [reflexivity|]. split.
          { rewrite (upd_length _ _ _ _ E1); auto. }
          intros [[|[|x]] j]; cbn [fst snd].
          -- destruct (j =? _); auto.
          -- destruct (j =? _); auto.
          -- rewrite (upd_nth _ _ _ _ j E1). destruct (j =? _); auto.
        * eexists; split; [reflexivity|]. auto.
    - intros [c l] [c' l'] [x j] v w Hi Hi'. apply HI in Hi, Hi'. unfold wr. cbn [fst snd].
      destruct (m c l) eqn:Em, (m c' l') eqn:Em'; cbn [negb andb];
      repeat match goal with |- context [?a <? ?b] => destruct (Nat.ltb_spec a b)
        | |- context [?a <=? ?b] => destruct (Nat.leb_spec a b)
        | |- context [?a =? ?b] => destruct (Nat.eqb_spec a b) end; try discriminate;
      destruct x as [|[|x]]; try discriminate; intros [= <-] [= <-]; subst j.
      + destruct (Hh c l Em) as [X1 X2]; auto. destruct (Hh c' l' Em') as [Y1 Y2]; auto.
        eapply (psum_unique tfl c c' (cnt c l) (cnt c' l')); try apply tfl_nth; eauto; tauto.
      + destruct (Hh c l Em) as [X1 X2]; auto. destruct (Hh c' l' Em') as [Y1 Y2]; auto.
        destruct (psum_unique tfl c c' (cnt c l) (cnt c' l') (tf c) (tf c')) as [<- Z2]; try apply tfl_nth; eauto; try tauto.
        congruence.
      + destruct (Hf c l Em) as [X1 X2]; [lia|]. destruct (Hf c' l' Em') as [Y1 Y2]; [lia|].
        destruct (psum_unique tfl c c' (kf c l) (kf c' l') (tf c) (tf c')) as [<- Z2]; try apply tfl_nth; eauto; try tauto.
        congruence.
    - exists co, ln, lo. split; [exact E|]. repeat split; auto.
      + destruct (nth_error_lt_some (holes c) k) as [l El]; [rewrite holes_length; auto|].
        apply filter_seq_nth_inv in El. rewrite Nat.sub_0_r in El. destruct El as [X1 [X2 X3]].
        pose proof (new_le c).
        apply (W (c, l) (0, psum tfl c + k)); [apply HI; split; [auto|lia]|].
        unfold wr; cbn [fst snd]. rewrite X2; cbn [andb negb]. destruct (Nat.ltb_spec l (new c)); [|lia]. rewrite X3. fold (cnt c l). rewrite Nat.eqb_refl; auto.
      + destruct (nth_error_lt_some (holes c) k) as [l El]; [rewrite holes_length; auto|]. rewrite El.
        apply filter_seq_nth_inv in El. rewrite Nat.sub_0_r in El. destruct El as [X1 [X2 X3]].
        pose proof (new_le c).
        apply (W (c, l) (1, psum tfl c + k)); [apply HI; split; [auto|lia]|].
        unfold wr; cbn [fst snd]. rewrite X2; cbn [andb negb]. destruct (Nat.ltb_spec l (new c)); [|lia]. rewrite X3. fold (cnt c l). rewrite Nat.eqb_refl; auto.
      + destruct (nth_error_lt_some (fillers c) k) as [l El]; [rewrite fillers_length; auto|]. rewrite El.
        apply filter_seq_nth_inv in El. destruct El as [X1 [X2 X3]].
        pose proof (new_le c). rewrite fillers_before in X3 by lia. fold (kf c l) in X3.
        apply (W (c, l) (2, psum tfl c + k)); [apply HI; split; [auto|lia]|].
        unfold wr; cbn [fst snd]. apply negb_true_iff in X2. rewrite X2; cbn [andb negb]. destruct (Nat.leb_spec (new c) l); [|lia]. rewrite X3, Nat.eqb_refl; auto.
  Qed.

  Lemma plan_correct : exists p, compute_plan d npart cells layers ids = Some p /\
    plan_npart_new p = map new (seq 0 ncell) /\
    compress_npart p = psum tfl ncell /\
    (forall c k, c < ncell -> k < tf c ->
        nth_error (compress_cells_old p) (psum tfl c + k) = Some c /\
        nth_error (compress_layers_new p) (psum tfl c + k) = nth_error (holes c) k /\
        nth_error (compress_layers_old p) (psum tfl c + k) = nth_error (fillers c) k) /\
    shape2 (plan_ids p) = shape2 ids /\
    (forall c l, c < ncell -> m c l = true -> rd2 (plan_ids p) c l = Some (-1)%Z) /\
    (forall c l, (c < ncell -> m c l = false) -> rd2 (plan_ids p) c l = rd2 ids c l).
  Proof.
    unfold compute_plan. fold ncell nrem occ.
    destruct (exscan_correct d 0 (ncell + 1) occ (repeat 0 (ncell + 1)) Hd) as [oes [E1 [H1 [_ L1]]]].
    { rewrite occ_length; auto. } { rewrite repeat_length; auto. }
    rewrite E1; cbn [obind]. rewrite repeat_length in L1.
    assert (Hes : forall c, c <= ncell -> nth_error oes c = Some (off c)) by (intros; apply H1; lia).
    unfold rd at 1. rewrite Hes by auto. cbn [obind].
    destruct flags_correct as [ids' [E2 [S2 [F1 F2]]]]. rewrite E2; cbn [obind].
    destruct (masks_correct oes ids' Hes S2 F1 F2) as [mk [E3 [L3 M3]]]. rewrite E3; cbn [obind].
    destruct (masks_es_correct oes mk Hes L1 L3 M3) as [es [E4 [L4 M4]]]. rewrite E4; cbn [obind].
    destruct (cells_correct oes es Hes M4) as [nw [fl [E5 [L5 [L5' M5]]]]]. rewrite E5; cbn [obind fst snd].
    destruct (exscan_correct d 20 (ncell + 1) fl (repeat 0 (ncell + 1)) Hd) as [fes [E6 [H6 [_ L6]]]].
    { lia. } { rewrite repeat_length; auto. }
    rewrite E6; cbn [obind].
    assert (Hfes : forall c, c <= ncell -> nth_error fes c = Some (psum tfl c)).
    { intros c Hc. rewrite H6 by lia. f_equal. change (psum fl c = psum tfl c).
      unfold psum. f_equal. apply nth_error_ext.
      intros i. rewrite !nth_error_firstn. destruct (Nat.ltb_spec i c); auto.
      rewrite tfl_nth by lia. apply M5; lia. }
    unfold rd. rewrite Hfes by auto. cbn [obind].
    destruct (plan_items_correct oes mk es nw fl fes) as [co [ln [lo [E7 [A [B [C M7]]]]]]]; auto.
    { intros; apply Hfes; lia. }
    rewrite E7; cbn [obind]. eexists; split; [reflexivity|]. cbn.
    repeat split; auto; try (apply M7; auto).
    apply nth_error_ext. intros i. rewrite nth_error_map_seq.
    destruct (Nat.ltb_spec i ncell); [apply M5; auto|]. apply nth_error_None; lia.
  Qed.

  (** *** Where the particle that ends up at layer [l] comes from *)
  Definition from_layer c l := if m c l then nth (cnt c l) (fillers c) 0 else l.

  Lemma from_layer_kept c l : l < new c -> from_layer c l < nn c /\ m c (from_layer c l) = false.
  Proof.
    intros Hl. pose proof (new_le c). unfold from_layer. destruct (m c l) eqn:Em; [|split; auto; lia].
    assert (Hk : cnt c l < tf c).
    { unfold tf. pose proof (cnt_split c (S l) (new c) Hl). rewrite cnt_S, Em in H0. lia. }
    assert (I : In (nth (cnt c l) (fillers c) 0) (fillers c)).
    { apply nth_In. rewrite fillers_length; auto. }
    apply filter_In in I. destruct I as [I1 I2]. apply in_seq in I1. apply negb_true_iff in I2. split; auto; lia.
  Qed.

  Lemma from_layer_ge c l : l < new c -> m c l = true -> new c <= from_layer c l.
  Proof.
    intros Hl Em. unfold from_layer. rewrite Em.
    assert (Hk : cnt c l < tf c).
    { unfold tf. pose proof (cnt_split c (S l) (new c) Hl). rewrite cnt_S, Em in H. lia. }
    assert (I : In (nth (cnt c l) (fillers c) 0) (fillers c)).
    { apply nth_In. rewrite fillers_length; auto. }
    apply filter_In in I. destruct I as [I1 _]. apply in_seq in I1. lia.
  Qed.

  Lemma cnt_inj c l l' : m c l = true -> m c l' = true -> cnt c l = cnt c l' -> l = l'.
  Proof.
    intros M M' E. destruct (lt_eq_lt_dec l l') as [[L|]|L]; auto; exfalso.
    - pose proof (cnt_split c (S l) l' L). rewrite cnt_S, M in H. lia.
    - pose proof (cnt_split c (S l') l L). rewrite cnt_S, M' in H. lia.
  Qed.

  Lemma from_layer_inj c l l' : l < new c -> l' < new c -> from_layer c l = from_layer c l' -> l = l'.
  Proof.
    intros Hl Hl' E. destruct (m c l) eqn:Em, (m c l') eqn:Em'.
    - apply (cnt_inj c); auto. unfold from_layer in E. rewrite Em, Em' in E.
      assert (ND : NoDup (fillers c)) by apply NoDup_filter, seq_NoDup.
      rewrite (NoDup_nth _ 0) in ND. apply ND; auto; rewrite fillers_length; unfold tf;
        [pose proof (cnt_split c (S l) (new c) Hl)|pose proof (cnt_split c (S l') (new c) Hl')];
        rewrite cnt_S, ?Em, ?Em' in H; lia.
    - pose proof (from_layer_ge c l Hl Em). rewrite E in H. unfold from_layer in H. rewrite Em' in H. lia.
    - pose proof (from_layer_ge c l' Hl' Em'). rewrite <- E in H. unfold from_layer in H. rewrite Em in H. lia.
    - unfold from_layer in E. rewrite Em, Em' in E. auto.
  Qed.

  Lemma kept_length c : length (kept_layers cells layers c (nn c)) = new c.
  Proof.
    unfold kept_layers. pose proof (filter_negb_length (m c) (seq 0 (nn c))) as E.
    rewrite seq_length in E. unfold new, cnt. fold (m c). lia.
  Qed.

  Lemma from_layer_perm c :
    Permutation (map (from_layer c) (seq 0 (new c))) (kept_layers cells layers c (nn c)).
  Proof.
    apply NoDup_Permutation_bis.
    - apply NoDup_map_inj; [|apply seq_NoDup].
      intros a b Ha Hb. apply in_seq in Ha, Hb. apply from_layer_inj; lia.
    - rewrite kept_length, map_length, seq_length; auto.
    - intros x Hx. apply in_map_iff in Hx. destruct Hx as [l [<- Hl]]. apply in_seq in Hl.
      destruct (from_layer_kept c l) as [A B]; [lia|]. apply filter_In. split; [apply in_seq; lia|].
      unfold m in B. rewrite B; auto.
  Qed.

  (** *** The copy kernels *)
  Lemma copy_correct {V} k (p : plan) (D : list (list (list V))) :
    compress_npart p = psum tfl ncell ->
    (forall c k, c < ncell -> k < tf c ->
        nth_error (compress_cells_old p) (psum tfl c + k) = Some c /\
        nth_error (compress_layers_new p) (psum tfl c + k) = nth_error (holes c) k /\
        nth_error (compress_layers_old p) (psum tfl c + k) = nth_error (fillers c) k) ->
    (forall f c l, f < length D -> c < ncell -> l < nn c -> exists x, rd3 D f c l = Some x) ->
    exists D', foldM (copy_item p) D (ord d k (copy_items (length D) p)) = Some D' /\
      shape3 D' = shape3 D /\
      forall f c l, f < length D -> c < ncell -> l < new c -> rd3 D' f c l = rd3 D f c (from_layer c l).
  Proof.
    intros Hn Hp Hwf.
    set (co i := nth i (compress_cells_old p) 0).
    set (ln i := nth i (compress_layers_new p) 0).
    set (lo i := nth i (compress_layers_old p) 0).
    assert (HI : forall f i, In (f, i) (ord d k (copy_items (length D) p)) <->
      f < length D /\ i < psum tfl ncell).
    { intros f i. rewrite in_ord by auto. unfold copy_items. rewrite in_prod_iff, !in_seq, Hn. lia. }
    assert (HP : forall i, i < psum tfl ncell -> exists c kk, i = psum tfl c + kk /\ c < ncell /\ kk < tf c /\
       nth_error (compress_cells_old p) i = Some (co i) /\ nth_error (compress_layers_new p) i = Some (ln i) /\
       nth_error (compress_layers_old p) i = Some (lo i) /\
       co i = c /\ ln i < new c /\ m c (ln i) = true /\ cnt c (ln i) = kk /\ lo i = from_layer c (ln i)).
    { intros i Hi. destruct (psum_find tfl i ncell) as [c [n [kk [A [B [C E]]]]]]; auto.
      { unfold tfl. rewrite map_length, seq_length; auto. }
      rewrite tfl_nth in B by auto. injection B as <-. exists c, kk. do 3 (split; auto).
      destruct (Hp c kk A C) as [P1 [P2 P3]]. rewrite <- E in *.
      destruct (nth_error_lt_some (holes c) kk) as [h Eh]; [rewrite holes_length; auto|].
      destruct (nth_error_lt_some (fillers c) kk) as [g Eg]; [rewrite fillers_length; auto|].
      rewrite Eh in P2. rewrite Eg in P3.
      assert (X1 : co i = c) by (unfold co; rewrite (nth_error_nth _ _ 0 P1); auto).
      assert (X2 : ln i = h) by (unfold ln; rewrite (nth_error_nth _ _ 0 P2); auto).
      assert (X3 : lo i = g) by (unfold lo; rewrite (nth_error_nth _ _ 0 P3); auto).
      rewrite X1, X2, X3. apply filter_seq_nth_inv in Eh. rewrite Nat.sub_0_r in Eh. destruct Eh as [Y1 [Y2 Y3]].
      repeat split; auto; try lia. unfold from_layer. rewrite Y2. fold (cnt c h) in Y3. rewrite <- Y3.
      rewrite (nth_error_nth _ _ 0 Eg); auto. }
    destruct (foldM_copy3 (copy_item p) (fun w => (fst w, co (snd w), lo (snd w)))
       (fun w => (fst w, co (snd w), ln (snd w))) (ord d k (copy_items (length D) p)) D) as [D' [E [Sh [C U]]]].
    - intros D' [f i] _ Hi. apply HI in Hi. destruct Hi as [Hf Hi].
      destruct (HP i Hi) as [c [kk [_ [_ [_ [P1 [P2 [P3 _]]]]]]]].
      unfold copy_item, get3, rd; cbn [fst snd]. rewrite P1, P2, P3; cbn [obind]. reflexivity.
    - intros [f i] Hi. apply HI in Hi. destruct Hi as [Hf Hi]. cbn [fst snd].
      destruct (HP i Hi) as [c [kk [_ [Hc [_ [_ [_ [_ [-> [Hln [_ [_ ->]]]]]]]]]]]].
      unfold get3; cbn. apply Hwf; auto. apply from_layer_kept; auto.
    - intros [f i] Hi. apply HI in Hi. destruct Hi as [Hf Hi]. cbn [fst snd].
      destruct (HP i Hi) as [c [kk [_ [Hc [_ [_ [_ [_ [-> [Hln _]]]]]]]]]].
      unfold get3; cbn. apply Hwf; auto. pose proof (new_le c); lia.
    - intros [f i] [f' i'] Hi Hi'. apply HI in Hi, Hi'. cbn [fst snd]. destruct Hi as [Hf Hi], Hi' as [Hf' Hi'].
      destruct (HP i Hi) as [c [kk [_ [Hc [_ [_ [_ [_ [-> [Hln [Hm _]]]]]]]]]]].
      destruct (HP i' Hi') as [c' [kk' [_ [Hc' [_ [_ [_ [_ [-> [Hln' [Hm' [_ ->]]]]]]]]]]]].
      intros [= <- <- Eq]. pose proof (from_layer_ge c _ Hln' Hm'). lia.
    - intros [f i] [f' i'] Hi Hi'. apply HI in Hi, Hi'. cbn [fst snd]. destruct Hi as [Hf Hi], Hi' as [Hf' Hi'].
      destruct (HP i Hi) as [c [kk [Ei [Hc [_ [_ [_ [_ [-> [Hln [Hm [Hk ->]]]]]]]]]]]].
      destruct (HP i' Hi') as [c' [kk' [Ei' [Hc' [_ [_ [_ [_ [-> [Hln' [Hm' [Hk' ->]]]]]]]]]]]].
      intros [= <- <- Eq]. rewrite Eq; auto.
    - exists D'. split; [exact E|]. split; [exact Sh|]. intros f c l Hf Hc Hl.
      destruct (m c l) eqn:Em.
      + assert (Hk : cnt c l < tf c).
        { unfold tf. pose proof (cnt_split c (S l) (new c) Hl). rewrite cnt_S, Em in H. lia. }
        set (i := psum tfl c + cnt c l).
        assert (Hi : i < psum tfl ncell).
        { pose proof (psum_lt _ _ _ _ (tfl_nth c Hc) Hc). unfold i. lia. }
        destruct (HP i Hi) as [c' [kk [Ei [Hc' [Hkk [_ [_ [_ [X1 [X2 [X3 [X4 X5]]]]]]]]]]]].
        destruct (psum_unique tfl c c' (cnt c l) kk (tf c) (tf c')) as [<- Hkc]; try apply tfl_nth; auto.
        assert (ln i = l) by (apply (cnt_inj c); auto; congruence).
        specialize (C (f, i)). cbn [fst snd] in C. rewrite X1, H, X5, H in C. unfold get3 in C; cbn in C.
        apply C. apply HI; auto.
      + unfold from_layer. rewrite Em.
        specialize (U (f, c, l)). unfold get3 in U; cbn in U. apply U.
        intros [f' i] Hi [= -> Eq1 Eq2]. apply HI in Hi. destruct Hi as [_ Hi].
        destruct (HP i Hi) as [c' [kk [_ [_ [_ [_ [_ [_ [X1 [_ [X3 _]]]]]]]]]]].
        rewrite Eq1, Eq2 in *. subst c'. congruence.
  Qed.

  (** *** Trimming *)
  Lemma trim_rd3 {V} (D : list (list (list V))) f c l :
    (forall col, In col D -> length col = ncell) ->
    rd3 (trim_rows (map new (seq 0 ncell)) D) f c l =
    if l <? new c then rd3 D f c l else None.
  Proof.
    intros HL. unfold rd3, trim_rows, rd. rewrite nth_error_map.
    destruct (nth_error D f) as [col|] eqn:Ef; cbn [option_map obind].
    2:{ destruct (l <? new c); auto. }
    pose proof (HL col (nth_error_In _ _ Ef)) as Lc. unfold rd2, rd.
    rewrite nth_error_map.
    assert (E : nth_error (combine (map new (seq 0 ncell)) col) c =
       match nth_error col c with Some r => Some (new c, r) | None => None end).
    { destruct (nth_error col c) as [r|] eqn:Er.
      - pose proof (nth_error_some_lt _ _ _ Er).
        rewrite (nth_error_nth' _ (0, [])), combine_nth.
        + rewrite (nth_error_nth _ _ _ Er), (nth_error_nth _ _ 0 (x := new c)); auto.
          rewrite nth_error_map_seq. destruct (Nat.ltb_spec c ncell); auto; lia.
        + rewrite map_length, seq_length; auto.
        + rewrite combine_length, map_length, seq_length; lia.
      - apply nth_error_None in Er. apply nth_error_None. rewrite combine_length. lia. }
    rewrite E. destruct (nth_error col c) as [r|]; cbn [option_map obind fst snd].
    - rewrite nth_error_firstn; auto.
    - destruct (l <? new c); auto.
  Qed.

  Lemma trim_shape {V} (D : list (list (list V))) :
    (forall col, In col D -> length col = ncell) ->
    (forall f c l, f < length D -> c < ncell -> l < nn c -> exists x, rd3 D f c l = Some x) ->
    shape3 (trim_rows (map new (seq 0 ncell)) D) = map (fun _ => map new (seq 0 ncell)) D.
  Proof.
    intros HL Hwf. unfold shape3, trim_rows. rewrite map_map. apply nth_error_ext. intros f.
    rewrite !nth_error_map. destruct (nth_error D f) as [col|] eqn:Ef; auto. cbn. f_equal.
    pose proof (HL col (nth_error_In _ _ Ef)) as Lc.
    unfold shape2. rewrite map_map. apply nth_error_ext. intros c.
    rewrite nth_error_map, nth_error_map_seq.
    destruct (Nat.ltb_spec c ncell) as [Hc|Hc].
    - destruct (nth_error_lt_some col c) as [r Er]; [lia|].
      rewrite (nth_error_nth' _ (0, [])) by (rewrite combine_length, map_length, seq_length; lia).
      rewrite combine_nth by (rewrite map_length, seq_length; auto). cbn.
      rewrite (nth_error_nth _ _ _ Er), (nth_error_nth _ _ 0 (x := new c)).
      2:{ rewrite nth_error_map_seq. destruct (Nat.ltb_spec c ncell); auto; lia. }
      rewrite firstn_length. f_equal. apply Nat.min_l.
      destruct (Nat.eq_dec (nn c) 0) as [Z|NZ]; [unfold new; lia|].
      destruct (Hwf f c (nn c - 1)) as [x Hx]; [eapply nth_error_some_lt; eauto|auto|lia|].
      unfold rd3, rd2, rd in Hx. rewrite Ef in Hx; cbn in Hx. rewrite Er in Hx; cbn in Hx.
      apply nth_error_some_lt in Hx. pose proof (new_le c). lia.
    - replace (nth_error (combine _ col) c) with (@None (nat * list V)); auto.
      symmetry; apply nth_error_None. rewrite combine_length. lia.
  Qed.

  (** *** The whole operation *)
  Lemma wf_rd3 {V} (D : list (list (list V))) : (forall col, In col D -> wf_comp npart col) ->
    (forall col, In col D -> length col = ncell) /\
    (forall f c l, f < length D -> c < ncell -> l < nn c -> exists x, rd3 D f c l = Some x).
  Proof.
    intros H. split; [intros col Hi; apply (H col Hi)|]. intros f c l Hf Hc Hl.
    destruct (nth_error_lt_some D f Hf) as [col E]. destruct (H col (nth_error_In _ _ E)) as [L W].
    destruct (nth_error_lt_some col c) as [r Er]; [fold ncell in L; lia|].
    specialize (W c (nn c) r (npart_nn c Hc) Er).
    destruct (nth_error_lt_some r l) as [x Ex]; [lia|]. exists x.
    unfold rd3, rd2, rd. rewrite E; cbn [obind]. rewrite Er; cbn [obind]. auto.
  Qed.

  Lemma shape3_length {V} (D D' : list (list (list V))) : shape3 D' = shape3 D -> length D' = length D.
  Proof. intros H. unfold shape3 in H. apply (f_equal (@length _)) in H. rewrite !map_length in H; auto. Qed.

  Lemma shape3_cols {V} (D D' : list (list (list V))) : shape3 D' = shape3 D ->
    (forall col, In col D -> length col = ncell) -> forall col, In col D' -> length col = ncell.
  Proof.
    intros S H col Hi. apply In_nth_error in Hi. destruct Hi as [f Ef].
    assert (E : nth_error (shape3 D') f = nth_error (shape3 D) f) by congruence.
    unfold shape3 in E. rewrite !nth_error_map, Ef in E. cbn in E.
    destruct (nth_error D f) as [col'|] eqn:Ef'; [|discriminate]. injection E as E.
    rewrite <- (H col' (nth_error_In _ _ Ef')). apply (f_equal (@length _)) in E.
    unfold shape2 in E. rewrite !map_length in E; auto.
  Qed.

  Definition data_result {V} (D D' : list (list (list V))) : Prop :=
    shape3 D' = map (fun _ => map new (seq 0 ncell)) D /\
    forall f c l, f < length D -> c < ncell -> l < new c -> rd3 D' f c l = rd3 D f c (from_layer c l).

  Lemma remove_inner_correct {R} cid (g : group R) :
    npart_cell g = npart -> nth_error (ints (st g)) cid = Some ids -> wf_group g -> 1 <= length cells ->
    exists g', remove_particles d cid g cells layers = Some g' /\
      npart_cell g' = map new (seq 0 ncell) /\
      data_result (reals (st g)) (reals (st g')) /\ data_result (ints (st g)) (ints (st g')).
  Proof.
    intros Hnp Hcid [WR WI] Hne. rewrite Hnp in WR, WI.
    destruct (wf_rd3 _ WR) as [LR HR]. destruct (wf_rd3 _ WI) as [LI HI].
    unfold remove_particles, remove_particles_inner.
    destruct (Nat.ltb_spec (length cells) 1); [lia|]. unfold rd. rewrite Hcid, Hnp. cbn [obind].
    destruct plan_correct as [p [Ep [P1 [P2 [P3 [P4 [P5 P6]]]]]]]. rewrite Ep; cbn [obind].
    destruct (upd_some (ints (st g)) cid (plan_ids p)) as [ints0 E0]; [eapply nth_error_some_lt; eauto|].
    rewrite E0; cbn [obind].
    destruct (copy_correct 40 p (reals (st g)) P2 P3 HR) as [R1 [E1 [S1 C1]]]. rewrite E1; cbn [obind].
    assert (S0 : shape3 ints0 = shape3 (ints (st g))).
    { unfold shape3. eapply (upd_shape shape2); eauto. }
    assert (L0 : length ints0 = length (ints (st g))) by (apply shape3_length; auto).
    assert (G0 : forall f c l, c < ncell -> m c l = false -> rd3 ints0 f c l = rd3 (ints (st g)) f c l).
    { intros f c l Hc Hm. unfold rd3, rd. rewrite (upd_nth _ _ _ _ f E0).
      destruct (Nat.eqb_spec f cid) as [->|]; auto. rewrite Hcid; cbn [obind]. apply P6; auto. }
    destruct (copy_correct 41 p ints0 P2 P3) as [I1 [E2 [S2 C2]]].
    { intros f c l Hf Hc Hl. destruct (HI f c l) as [x Hx]; auto; [lia|].
      destruct (shape3_rd3 _ ints0 _ _ _ _ S0 Hx) as [y Hy]; eauto. }
    rewrite E2; cbn [obind]. eexists; split; [reflexivity|]. cbn [st npart_cell reals ints].
    rewrite P1. split; auto.
    assert (LR1 : forall col, In col R1 -> length col = ncell) by (eapply shape3_cols; eauto).
    assert (LI1 : forall col, In col I1 -> length col = ncell).
    { eapply shape3_cols; [rewrite S2, S0; reflexivity|auto]. }
    split; split.
    - rewrite trim_shape; auto.
      + rewrite <- (map_map (fun _ => tt) (fun _ => map new (seq 0 ncell)) R1).
        rewrite <- (map_map (fun _ => tt) (fun _ => map new (seq 0 ncell)) (reals (st g))).
        f_equal. apply nth_error_ext. intros i. rewrite !nth_error_map.
        pose proof (shape3_length _ _ S1). destruct (nth_error R1 i) eqn:A, (nth_error (reals (st g)) i) eqn:B; auto;
          [apply nth_error_some_lt in A; apply nth_error_None in B|apply nth_error_None in A; apply nth_error_some_lt in B]; lia.
      + intros f c l Hf Hc Hl. rewrite (shape3_length _ _ S1) in Hf. destruct (HR f c l) as [x Hx]; auto.
        destruct (shape3_rd3 _ R1 _ _ _ _ S1 Hx) as [y Hy]; eauto.
    - intros f c l Hf Hc Hl. rewrite trim_rd3 by auto. destruct (Nat.ltb_spec l (new c)); [|lia]. apply C1; auto.
    - rewrite trim_shape; auto.
      + rewrite <- (map_map (fun _ => tt) (fun _ => map new (seq 0 ncell)) I1).
        rewrite <- (map_map (fun _ => tt) (fun _ => map new (seq 0 ncell)) (ints (st g))).
        f_equal. apply nth_error_ext. intros i. rewrite !nth_error_map.
        pose proof (shape3_length _ _ S2). destruct (nth_error I1 i) eqn:A, (nth_error (ints (st g)) i) eqn:B; auto;
          [apply nth_error_some_lt in A; apply nth_error_None in B|apply nth_error_None in A; apply nth_error_some_lt in B]; lia.
      + intros f c l Hf Hc Hl. rewrite (shape3_length _ _ S2), L0 in Hf. destruct (HI f c l) as [x Hx]; auto.
        rewrite S0 in S2. destruct (shape3_rd3 _ I1 _ _ _ _ S2 Hx) as [y Hy]; eauto.
    - intros f c l Hf Hc Hl. rewrite trim_rd3 by auto. destruct (Nat.ltb_spec l (new c)); [|lia].
      rewrite C2 by (auto; lia). destruct (from_layer_kept c l) as [A B]; auto.
  Qed.

  Lemma shape3_const_length {V W} (D : list (list (list V))) (D' : list (list (list W))) n :
    shape3 D' = map (fun _ => n) D -> length D' = length D.
  Proof. intros H. unfold shape3 in H. apply (f_equal (@length _)) in H. rewrite !map_length in H; auto. Qed.

  Lemma particle_at_from {R} (g g' : group R) c l :
    data_result (reals (st g)) (reals (st g')) -> data_result (ints (st g)) (ints (st g')) ->
    c < ncell -> l < new c -> particle_at (st g') c l = particle_at (st g) c (from_layer c l).
  Proof.
    intros [S1 D1] [S2 D2] Hc Hl. unfold particle_at. rewrite !mapM_cols.
    rewrite (shape3_const_length _ _ _ S1), (shape3_const_length _ _ _ S2).
    rewrite (mapM_ext_in _ (fun f => rd3 (reals (st g)) f c (from_layer c l)) (seq 0 (length (reals (st g))))).
    2:{ intros f Hf. apply in_seq in Hf. apply D1; auto; lia. }
    rewrite (mapM_ext_in _ (fun f => rd3 (ints (st g)) f c (from_layer c l)) (seq 0 (length (ints (st g))))); auto.
    intros f Hf. apply in_seq in Hf. apply D2; auto; lia.
  Qed.

  Lemma particle_at_wf {R} (g : group R) c l : npart_cell g = npart -> wf_group g -> c < ncell -> l < nn c ->
    exists p, particle_at (st g) c l = Some p.
  Proof.
    intros Hnp [WR WI] Hc Hl. rewrite Hnp in *. destruct (wf_rd3 _ WR) as [_ HR]. destruct (wf_rd3 _ WI) as [_ HI].
    unfold particle_at. rewrite !mapM_cols.
    destruct (mapM_total (fun f => rd3 (reals (st g)) f c l) (seq 0 (length (reals (st g))))) as [x Ex].
    { intros f Hf. apply in_seq in Hf. apply HR; auto; lia. }
    destruct (mapM_total (fun f => rd3 (ints (st g)) f c l) (seq 0 (length (ints (st g))))) as [y Ey].
    { intros f Hf. apply in_seq in Hf. apply HI; auto; lia. }
    rewrite Ex, Ey; eauto.
  Qed.

  Lemma result_is_removal {R} (g g' : group R) : npart_cell g = npart -> wf_group g ->
    npart_cell g' = map new (seq 0 ncell) ->
    data_result (reals (st g)) (reals (st g')) -> data_result (ints (st g)) (ints (st g')) ->
    is_removal g cells layers g'.
  Proof.
    intros Hnp Wf Hnp' D1 D2.
    split; [rewrite Hnp', Hnp, map_length, seq_length; auto|].
    split; [eapply shape3_const_length, D1|]. split; [eapply shape3_const_length, D2|].
    intros c n En kept. rewrite Hnp in En. assert (Hc : c < ncell) by (eapply nth_error_some_lt; eauto).
    rewrite npart_nn in En by auto. injection En as <-.
    assert (En' : nth_error (npart_cell g') c = Some (new c)).
    { rewrite Hnp', nth_error_map_seq. destruct (Nat.ltb_spec c ncell); auto; lia. }
    split; [rewrite En'; unfold kept; rewrite kept_length; auto|].
    assert (E : cell_particles g' c = mapM (particle_at (st g) c) (map (from_layer c) (seq 0 (new c)))).
    { unfold cell_particles. rewrite En'. cbn [obind]. rewrite mapM_map. apply mapM_ext_in.
      intros l Hl. apply in_seq in Hl. apply (particle_at_from g g'); auto. lia. }
    destruct (mapM_total (particle_at (st g) c) (map (from_layer c) (seq 0 (new c)))) as [ps' Eps'].
    { intros l Hl. apply in_map_iff in Hl. destruct Hl as [l' [<- Hl']]. apply in_seq in Hl'.
      apply particle_at_wf; auto. apply from_layer_kept. lia. }
    destruct (mapM_perm _ _ _ (from_layer_perm c) _ Eps') as [ps [Eps P]].
    exists ps, ps'. rewrite E. auto.
  Qed.

  Lemma result_wf {R} (g g' : group R) : 
    npart_cell g' = map new (seq 0 ncell) ->
    data_result (reals (st g)) (reals (st g')) -> data_result (ints (st g)) (ints (st g')) ->
    wf_group g'.
  Proof.
    intros Hnp' [S1 _] [S2 _].
    assert (G : forall V W (D : list (list (list V))) (D' : list (list (list W))),
      shape3 D' = map (fun _ => map new (seq 0 ncell)) D ->
      forall col, In col D' -> wf_comp (map new (seq 0 ncell)) col).
    { intros V W D D' S col Hi. apply In_nth_error in Hi. destruct Hi as [f Ef].
      assert (E : nth_error (shape3 D') f = nth_error (map (fun _ => map new (seq 0 ncell)) D) f) by congruence.
      unfold shape3 in E. rewrite !nth_error_map, Ef in E. cbn in E.
      destruct (nth_error D f); [|discriminate]. injection E as E. split.
      - apply (f_equal (@length _)) in E. unfold shape2 in E. rewrite map_length in E. auto.
      - intros c n r En Er. rewrite <- E in En. unfold shape2 in En. rewrite nth_error_map, Er in En. cbn in En.
        injection En as <-. auto. }
    split; rewrite Hnp'; eapply G; eauto.
  Qed.

  Lemma plan_no_conflict : exists p, compute_plan d npart cells layers ids = Some p /\
    let entry i := (nth_error (compress_cells_old p) i, nth_error (compress_layers_old p) i, nth_error (compress_layers_new p) i) in
    (forall i, i < compress_npart p -> exists c lo ln n,
       entry i = (Some c, Some lo, Some ln) /\ nth_error npart c = Some n /\
       lo < n /\ ln < n /\ m c ln = true /\ m c lo = false) /\
    (forall i j c lo ln c' lo' ln', i < compress_npart p -> j < compress_npart p ->
       entry i = (Some c, Some lo, Some ln) -> entry j = (Some c', Some lo', Some ln') ->
       (c, ln) <> (c', lo') /\ (i <> j -> (c, ln) <> (c', ln') /\ (c, lo) <> (c', lo'))).
  Proof.
    destruct plan_correct as [p [Ep [P1 [P2 [P3 _]]]]]. exists p. split; auto. cbv zeta.
    assert (HP : forall i, i < compress_npart p -> exists c kk lo ln, i = psum tfl c + kk /\ c < ncell /\ kk < tf c /\
       nth_error (compress_cells_old p) i = Some c /\ nth_error (compress_layers_new p) i = Some ln /\
       nth_error (compress_layers_old p) i = Some lo /\
       nth_error (holes c) kk = Some ln /\ nth_error (fillers c) kk = Some lo).
    { intros i Hi. rewrite P2 in Hi. destruct (psum_find tfl i ncell) as [c [n [kk [A [B [C E]]]]]]; auto.
      { unfold tfl. rewrite map_length, seq_length; auto. }
      rewrite tfl_nth in B by auto. injection B as <-.
      destruct (P3 c kk A C) as [Q1 [Q2 Q3]]. rewrite <- E in *.
      destruct (nth_error_lt_some (holes c) kk) as [h Eh]; [rewrite holes_length; auto|].
      destruct (nth_error_lt_some (fillers c) kk) as [g Eg]; [rewrite fillers_length; auto|].
      exists c, kk, g, h. rewrite Q2, Q3. repeat split; auto. }
    split.
    - intros i Hi. destruct (HP i Hi) as [c [kk [lo [ln [Ei [Hc [Hk [E1 [E2 [E3 [E4 E5]]]]]]]]]]].
      exists c, lo, ln, (nn c). rewrite E1, E2, E3. split; auto. split; [apply npart_nn; auto|].
      apply filter_seq_nth_inv in E4, E5. destruct E4 as [A1 [A2 _]], E5 as [B1 [B2 _]].
      pose proof (new_le c). apply negb_true_iff in B2. repeat split; auto; lia.
    - intros i j c lo ln c' lo' ln' Hi Hj Ei Ej.
      destruct (HP i Hi) as [c1 [kk [lo1 [ln1 [Ii [Hc [Hk [E1 [E2 [E3 [E4 E5]]]]]]]]]]].
      destruct (HP j Hj) as [c2 [kk2 [lo2 [ln2 [Ij [Hc2 [Hk2 [F1 [F2 [F3 [F4 F5]]]]]]]]]]].
      rewrite E1, E2, E3 in Ei. rewrite F1, F2, F3 in Ej. injection Ei as -> -> ->. injection Ej as -> -> ->.
      split.
      + intros [= <- <-]. apply filter_seq_nth_inv in E4, F5. destruct E4 as [A1 _], F5 as [B1 _]. lia.
      + intros Hij. split; intros [= <- <-]; apply Hij.
        * assert (kk = kk2); [|congruence].
          assert (ND : NoDup (holes c)) by apply NoDup_filter, seq_NoDup. rewrite NoDup_nth_error in ND.
          apply ND; [eapply nth_error_some_lt; eauto|congruence].
        * assert (kk = kk2); [|congruence].
          assert (ND : NoDup (fillers c)) by apply NoDup_filter, seq_NoDup. rewrite NoDup_nth_error in ND.
          apply ND; [eapply nth_error_some_lt; eauto|congruence].
  Qed.
End Plan.

Lemma remove_noop d {R} cid (g : group R) cells layers : length cells < 1 ->
  remove_particles d cid g cells layers = Some g.
Proof.
  intros H. unfold remove_particles, remove_particles_inner.
  destruct (Nat.ltb_spec (length cells) 1); [auto|lia].
Qed.

Lemma kept_empty cells layers c n : length cells < 1 -> kept_layers cells layers c n = seq 0 n.
Proof.
  intros H. destruct cells; [|cbn in H; lia]. unfold kept_layers, listed. cbn.
  induction (seq 0 n); cbn; auto. f_equal; auto.
Qed.

(** ** Final statements *)
Lemma ids_of {R} cid (g : group R) : wf_group g -> cid < length (ints (st g)) ->
  exists ids, nth_error (ints (st g)) cid = Some ids /\
    (forall c l, cell_id_of cid g c l = rd2 ids c l) /\
    (forall c n l, nth_error (npart_cell g) c = Some n -> l < n -> exists z, rd2 ids c l = Some z).
Proof.
  intros [_ WI] H. destruct (nth_error_lt_some _ _ H) as [ids E]. exists ids. split; auto. split.
  - intros c l. unfold cell_id_of, rd3, rd. rewrite E; auto.
  - intros c n l En Hl. destruct (WI ids (nth_error_In _ _ E)) as [L W].
    destruct (nth_error_lt_some ids c) as [r Er]; [rewrite L; eapply nth_error_some_lt; eauto|].
    specialize (W c n r En Er). destruct (nth_error_lt_some r l) as [z Ez]; [lia|].
    exists z. unfold rd2, rd. rewrite Er; auto.
Qed.

Lemma remove_correct d R cid (g : group R) cells layers :
  device_ok d -> wf_group g -> cid < length (ints (st g)) ->
  valid_request g cells layers -> kept_ids_valid cid g cells layers ->
  exists g', remove_particles d cid g cells layers = Some g' /\ wf_group g' /\ is_removal g cells layers g'.
Proof.
  intros Hd Wf Hcid [Hl Hr] Hk.
  destruct (ids_of cid g Wf Hcid) as [ids [Ei [Gi Hids]]].
  destruct (le_lt_dec 1 (length cells)) as [Hne|He].
  - destruct (remove_inner_correct d Hd (npart_cell g) cells layers ids Hl Hr Hids) with (R := R) (cid := cid) (g := g)
      as [g' [E [H1 [H2 H3]]]]; auto.
    { intros c l n En Hln Hli. destruct (Hk c l n En Hln Hli) as [z Hz]. exists z. rewrite <- Gi; auto. }
    exists g'. split; auto. split; [eapply result_wf; eauto|eapply result_is_removal; eauto].
  - exists g. rewrite remove_noop by auto. split; auto. split; auto.
    repeat split; auto; rewrite kept_empty by auto; [rewrite seq_length; auto|].
    assert (exists ps, mapM (particle_at (st g) c) (seq 0 n) = Some ps) as [ps Eps].
    { apply mapM_total. intros l Hl'. apply in_seq in Hl'.
      eapply (particle_at_wf (npart_cell g)); eauto; [eapply nth_error_some_lt; eauto|].
      rewrite (nth_error_nth _ _ 0 H). lia. }
    exists ps, ps. unfold cell_particles. rewrite H; cbn [obind]. auto.
Qed.

Lemma remove_deterministic d1 d2 R cid (g g1 g2 : group R) cells layers :
  device_ok d1 -> device_ok d2 -> wf_group g -> cid < length (ints (st g)) ->
  valid_request g cells layers -> kept_ids_valid cid g cells layers ->
  remove_particles d1 cid g cells layers = Some g1 ->
  remove_particles d2 cid g cells layers = Some g2 -> g1 = g2.
Proof.
  intros Hd1 Hd2 Wf Hcid [Hl Hr] Hk E1 E2.
  destruct (ids_of cid g Wf Hcid) as [ids [Ei [Gi Hids]]].
  destruct (le_lt_dec 1 (length cells)) as [Hne|He].
  - assert (Hk' : forall c l n, nth_error (npart_cell g) c = Some n -> l < n -> listed cells layers c l = false ->
       exists z, rd2 ids c l = Some z /\ (0 <= z)%Z).
    { intros c l n En Hln Hli. destruct (Hk c l n En Hln Hli) as [z Hz]. exists z. rewrite <- Gi; auto. }
    destruct (remove_inner_correct d1 Hd1 (npart_cell g) cells layers ids Hl Hr Hids Hk' cid g) as [g1' [F1 [A1 [B1 C1]]]]; auto.
    destruct (remove_inner_correct d2 Hd2 (npart_cell g) cells layers ids Hl Hr Hids Hk' cid g) as [g2' [F2 [A2 [B2 C2]]]]; auto.
    assert (g1' = g1) by congruence. assert (g2' = g2) by congruence. subst g1' g2'.
    assert (G : forall V (D D1 D2 : list (list (list V))),
      data_result (npart_cell g) cells layers D D1 -> data_result (npart_cell g) cells layers D D2 -> D1 = D2).
    { intros V D D1 D2 [S1 X1] [S2 X2]. apply rd3_ext; [congruence|]. intros f c l.
      assert (N : forall D' : list (list (list V)), shape3 D' = shape3 D1 -> rd3 D1 f c l = None -> rd3 D' f c l = None).
      { intros D' HS HN. destruct (rd3 D' f c l) as [x|] eqn:E; auto.
        destruct (shape3_rd3 D' D1 f c l x (eq_sym HS) E) as [y Ey]. congruence. }
      destruct (rd3 D1 f c l) as [x|] eqn:E; [|symmetry; apply N; auto; congruence].
      rewrite <- E.
      assert (Hf : f < length D /\ c < length (npart_cell g) /\
         l < nth c (npart_cell g) 0 - length (filter (listed cells layers c) (seq 0 (nth c (npart_cell g) 0)))).
      { unfold rd3, rd2, rd in E. destruct (nth_error D1 f) as [col|] eqn:Ef; [|discriminate]. cbn [obind] in E.
        destruct (nth_error col c) as [r|] eqn:Er; [|discriminate]. cbn [obind] in E.
        assert (Q : nth_error (shape3 D1) f = Some (shape2 col)) by (unfold shape3; rewrite nth_error_map, Ef; auto).
        rewrite S1, nth_error_map in Q. destruct (nth_error D f) eqn:Ef'; [|discriminate]. cbn in Q. injection Q as Q.
        assert (Q2 : nth_error (shape2 col) c = Some (length r)) by (unfold shape2; rewrite nth_error_map, Er; auto).
        rewrite <- Q, nth_error_map_seq in Q2.
        destruct (Nat.ltb_spec c (length (npart_cell g))); [|discriminate]. injection Q2 as Q2.
        apply nth_error_some_lt in E, Ef'. repeat split; auto. cbn in Q2. lia. }
      destruct Hf as [Hf [Hc Hln]]. rewrite X1, X2 by auto. auto. }
    destruct g1 as [[r1 i1] n1], g2 as [[r2 i2] n2]. cbn in *.
    rewrite (G _ _ _ _ B1 B2), (G _ _ _ _ C1 C2). congruence.
  - rewrite remove_noop in E1, E2 by auto. congruence.
Qed.
