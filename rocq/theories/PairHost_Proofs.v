(** Proofs about the host pair list. *)
From Coq Require Import List Arith Lia Bool Permutation.
Import ListNotations.
From Verif Require Import Base World_Proofs PairList_Model PairList_Spec.

Lemma map_find_put {K V} (eqb : K -> K -> bool) (He : forall a b, eqb a b = true <-> a = b) (m : list (K * V)) k v k' :
  map_find eqb (map_put eqb m k v) k' = if eqb k' k then Some v else map_find eqb m k'.
Proof.
  unfold map_find. induction m as [|[k0 v0] m IH]; cbn [map_put find fst snd].
  - destruct (eqb k' k); auto.
  - destruct (eqb k k0) eqn:E.
    + cbn [find fst snd]. apply He in E. subst k0. destruct (eqb k' k); auto.
    + cbn [find fst snd]. destruct (eqb k' k0) eqn:E'.
      * destruct (eqb k' k) eqn:E''; auto. apply He in E', E''. subst. rewrite (proj2 (He k0 k0) eq_refl) in E. discriminate.
      * apply IH.
Qed.

Lemma map_put_keys {V} (m : list (nat * V)) k v n : map fst m = seq 0 n -> k <= n ->
  map fst (map_put Nat.eqb m k v) = seq 0 (Nat.max n (S k)).
Proof.
  intros Hm Hk.
  assert (G : forall (m : list (nat * V)) a n, map fst m = seq a n -> a <= k <= a + n ->
     map fst (map_put Nat.eqb m k v) = seq a (Nat.max n (S (k - a)))).
  { clear. induction m as [|[k0 v0] m IH]; intros a n Hm Hk.
    - destruct n; [|discriminate]. assert (k = a) by lia. subst. cbn [map_put map fst]. rewrite Nat.sub_diag. reflexivity.
    - destruct n as [|n]; [discriminate|]. cbn [map fst seq] in Hm. injection Hm as -> Hm. cbn [map_put fst].
      destruct (Nat.eqb_spec k a) as [->|N].
      + cbn [map fst]. rewrite Hm, Nat.sub_diag. replace (Nat.max (S n) 1) with (S n) by lia. reflexivity.
      + cbn [map fst]. rewrite (IH (S a) n Hm) by lia. replace (Nat.max (S n) (S (k - a))) with (S (Nat.max n (S (k - S a)))) by lia. reflexivity. }
  rewrite (G m 0 n Hm) by lia. rewrite Nat.sub_0_r. auto.
Qed.

Lemma key2_eqb_spec a b : key2_eqb a b = true <-> a = b.
Proof.
  destruct a, b. unfold key2_eqb. cbn. rewrite andb_true_iff, !Nat.eqb_eq. intuition congruence.
Qed.

(** ** Greedy assignment of waves *)
Definition touches (c l : nat) (p : push) : bool := (fst p =? c) && ((fst (snd p) =? l) || (snd (snd p) =? l)).
Definition next (T : list (push * nat)) (c l : nat) : nat :=
  list_max (map (fun t => S (snd t)) (filter (fun t => touches c l (fst t)) T)).
Definition tag (T : list (push * nat)) (p : push) : list (push * nat) :=
  T ++ [(p, Nat.max (next T (fst p) (fst (snd p))) (next T (fst p) (snd (snd p))))].
Definition nwaves (T : list (push * nat)) (c : nat) : nat :=
  list_max (map (fun t => S (snd t)) (filter (fun t => fst (fst t) =? c) T)).
Definition sel (T : list (push * nat)) (c w : nat) : list (nat * nat) :=
  map (fun t => snd (fst t)) (filter (fun t : push * nat => (fst (fst t) =? c) && (snd t =? w)) T).

Lemma list_max_app l l' : list_max (l ++ l') = Nat.max (list_max l) (list_max l').
Proof. induction l; cbn; auto. unfold list_max in *. lia. Qed.

Lemma list_max_in l x : In x l -> x <= list_max l.
Proof. induction l as [|a l IH]; cbn; [tauto|]. intros [->|H]; [|apply IH in H; unfold list_max in H]; lia. Qed.

Lemma list_max_le' l n : (forall x, In x l -> x <= n) -> list_max l <= n.
Proof. intros H. apply list_max_le, Forall_forall, H. Qed.

Lemma list_max_attained l : list_max l = 0 \/ In (list_max l) l.
Proof.
  induction l as [|a l IH]; cbn; auto. fold (list_max l). destruct (Nat.max_spec a (list_max l)) as [[H E]|[H E]]; rewrite E; [|auto].
  destruct IH as [IH|IH]; [lia|auto].
Qed.

Lemma next_le T c l : next T c l <= nwaves T c.
Proof.
  apply list_max_le'. intros x Hx. apply in_map_iff in Hx as [t [<- Ht]]. apply filter_In in Ht as [Ht E].
  apply list_max_in. apply in_map_iff. exists t. split; auto. apply filter_In. split; auto.
  unfold touches in E. apply andb_true_iff in E. tauto.
Qed.

Definition host_inv (s : host_list) (T : list (push * nat)) : Prop :=
  (forall c l, match map_find key2_eqb (map_particles_to_wave s) (c, l) with Some w => w | None => 0 end = next T c l) /\
  (forall c, map fst (waves_of (map_wave_to_pairs s) c) = seq 0 (nwaves T c)) /\
  (forall c w, wave_of (waves_of (map_wave_to_pairs s) c) w =
     (map fst (map ordered_pair (sel T c w)), map snd (map ordered_pair (sel T c w)))).

Lemma host_inv_empty : host_inv host_empty [].
Proof. repeat split; auto. Qed.

Lemma waves_of_put m c cw c' : waves_of (map_put Nat.eqb m c cw) c' = if c' =? c then cw else waves_of m c'.
Proof. unfold waves_of. rewrite (map_find_put Nat.eqb Nat.eqb_eq). destruct (c' =? c); auto. Qed.

Lemma next_tag T p c l : next (tag T p) c l =
  if touches c l p then S (Nat.max (next T (fst p) (fst (snd p))) (next T (fst p) (snd (snd p)))) else next T c l.
Proof.
  unfold next at 1, tag. rewrite filter_app, map_app, list_max_app. fold (next T c l). cbn [filter fst].
  destruct (touches c l p) eqn:E; cbn [map list_max fold_right snd]; [|lia].
  unfold touches in E. apply andb_true_iff in E as [E1 E2]. apply Nat.eqb_eq in E1. subst c.
  apply orb_true_iff in E2. rewrite !Nat.eqb_eq in E2. destruct E2 as [<-|<-]; lia.
Qed.

Lemma nwaves_tag T p c : nwaves (tag T p) c =
  if fst p =? c then Nat.max (nwaves T c) (S (Nat.max (next T (fst p) (fst (snd p))) (next T (fst p) (snd (snd p))))) else nwaves T c.
Proof.
  unfold nwaves, tag. rewrite filter_app, map_app, list_max_app. cbn [filter fst].
  set (x := list_max (map _ (filter _ T))).
  destruct (fst p =? c).
  - f_equal.
  - cbn [map]. apply Nat.max_0_r.
Qed.

Lemma host_push_inv cc s T p : host_inv s T -> fst p < cc ->
  exists s', host_push_back cc s (fst p) (fst (snd p)) (snd (snd p)) = Some s' /\ host_inv s' (tag T p).
Proof.
  intros [I1 [I2 I3]] Hc. destruct p as [c [i j]]. cbn [fst snd] in *.
  unfold host_push_back, get_next_wave, set_next_wave.
  apply Nat.ltb_lt in Hc. rewrite Hc. cbn [assert obind]. rewrite !I1.
  set (w := Nat.max (next T c i) (next T c j)).
  set (q := wave_of (waves_of (map_wave_to_pairs s) c) w).
  set (oi := if i <? j then i else j). set (oj := if i <? j then j else i).
  set (cw' := map_put Nat.eqb (waves_of (map_wave_to_pairs s) c) w (fst q ++ [oi], snd q ++ [oj])).
  cbn [map_wave_to_pairs map_particles_to_wave].
  assert (Hw : w <= nwaves T c). { pose proof (next_le T c i). pose proof (next_le T c j). lia. }
  assert (K : map fst cw' = seq 0 (Nat.max (nwaves T c) (S w))) by (apply map_put_keys; auto).
  assert (L : w + 1 <= length cw').
  { apply (f_equal (@length nat)) in K. rewrite map_length, seq_length in K. lia. }
  rewrite !waves_of_put, !Nat.eqb_refl. apply Nat.leb_le in L. rewrite L. cbn [assert obind map_wave_to_pairs map_particles_to_wave].
  rewrite !waves_of_put, !Nat.eqb_refl, L. cbn [assert obind].
  eexists. split; [reflexivity|].
  assert (EP : (oi, oj) = ordered_pair (i, j)).
  { unfold oi, oj, ordered_pair. cbn [fst snd]. destruct (Nat.ltb_spec i j); f_equal; lia. }
  repeat split; cbn [map_wave_to_pairs map_particles_to_wave].
  - intros c' l. rewrite !(map_find_put key2_eqb key2_eqb_spec), next_tag. cbn [fst snd]. fold w.
    unfold touches, key2_eqb. cbn [fst snd]. rewrite (Nat.eqb_sym c' c), (Nat.eqb_sym l j), (Nat.eqb_sym l i).
    rewrite <- I1. destruct (c =? c'), (i =? l), (j =? l); cbn; auto; lia.
  - intros c'. rewrite waves_of_put. destruct (Nat.eqb_spec c' c) as [->|N].
    + rewrite K, nwaves_tag. cbn [fst snd]. rewrite Nat.eqb_refl. reflexivity.
    + rewrite I2, nwaves_tag. cbn [fst snd]. destruct (Nat.eqb_spec c c'); [congruence|reflexivity].
  - intros c' w'. rewrite waves_of_put. unfold sel, tag. rewrite filter_app, !map_app. cbn [filter fst snd].
    fold w. destruct (Nat.eqb_spec c' c) as [->|N].
    + rewrite Nat.eqb_refl. cbn [andb]. unfold wave_of, cw'. rewrite (map_find_put Nat.eqb Nat.eqb_eq).
      rewrite (Nat.eqb_sym w w'). destruct (Nat.eqb_spec w' w) as [->|N].
      * unfold q. rewrite I3. cbn [fst snd map]. rewrite <- EP. reflexivity.
      * cbn [map]. rewrite !app_nil_r. apply I3.
    + destruct (Nat.eqb_spec c c'); [congruence|]. cbn [andb map]. rewrite !app_nil_r. apply I3.
Qed.

Definition tags (ps : list push) : list (push * nat) := fold_left tag ps [].

Lemma tags_snoc ps p : tags (ps ++ [p]) = tag (tags ps) p.
Proof. unfold tags. rewrite fold_left_app. reflexivity. Qed.

Lemma tags_fst ps : map fst (tags ps) = ps.
Proof. induction ps as [|p ps IH] using rev_ind; auto. rewrite tags_snoc. unfold tag. rewrite map_app, IH. auto. Qed.

Lemma host_pushes_inv cc ps : (forall p, In p ps -> fst p < cc) ->
  exists s, host_pushes cc ps = Some s /\ host_inv s (tags ps).
Proof.
  induction ps as [|p ps IH] using rev_ind; intros H.
  - exists host_empty. split; auto. apply host_inv_empty.
  - destruct IH as [s [E I]]; [intros; apply H, in_or_app; auto|].
    destruct (host_push_inv cc s (tags ps) p I) as [s' [E' I']]; [apply H, in_or_app; cbn; auto|].
    exists s'. split; [|rewrite tags_snoc; auto]. unfold host_pushes in *. rewrite foldM_app, E. cbn [obind foldM]. rewrite E'. reflexivity.
Qed.

(** ** The assignment *)
Definition wave_list (ps : list push) : list nat := map snd (tags ps).

Lemma wave_list_length ps : length (wave_list ps) = length ps.
Proof. unfold wave_list. rewrite map_length, <- (map_length fst), tags_fst. auto. Qed.

Lemma combine_map {A B} (l : list (A * B)) : combine (map fst l) (map snd l) = l.
Proof. induction l as [|[a b] l IH]; cbn; auto. rewrite IH; auto. Qed.

Lemma tags_combine ps : combine ps (wave_list ps) = tags ps.
Proof. rewrite <- (combine_map (tags ps)), tags_fst. auto. Qed.

Lemma in_wave_sel ps c w : in_wave ps (wave_list ps) c w = sel (tags ps) c w.
Proof. unfold in_wave. rewrite tags_combine. auto. Qed.

Lemma host_waves_sel s T c : host_inv s T ->
  host_waves s c = map (fun w => map ordered_pair (sel T c w)) (seq 0 (nwaves T c)).
Proof.
  intros [_ [I2 I3]]. unfold host_waves.
  rewrite <- (map_length fst), I2, seq_length. apply map_ext. intros w. rewrite I3. cbn [fst snd]. apply combine_map.
Qed.

Lemma tags_app ps qs : exists T', tags (ps ++ qs) = tags ps ++ T' /\ map fst T' = qs.
Proof.
  induction qs as [|q qs IH] using rev_ind.
  - exists []. rewrite !app_nil_r. auto.
  - destruct IH as [T' [E M]]. rewrite app_assoc, tags_snoc. unfold tag at 1. rewrite E, <- app_assoc.
    eexists. split; [reflexivity|]. rewrite map_app, M. auto.
Qed.

Lemma wave_list_nth ps k p w : nth_error ps k = Some p -> nth_error (wave_list ps) k = Some w ->
  let T := tags (firstn k ps) in w = Nat.max (next T (fst p) (fst (snd p))) (next T (fst p) (snd (snd p))).
Proof.
  intros Hp Hw T.
  assert (E : ps = firstn (S k) ps ++ skipn (S k) ps) by (symmetry; apply firstn_skipn).
  assert (F : firstn (S k) ps = firstn k ps ++ [p]).
  { clear -Hp. revert k Hp. induction ps as [|x ps IH]; intros [|k] Hp; cbn in *; try discriminate.
    - congruence.
    - f_equal. apply IH; auto. }
  assert (L : length (firstn k ps) = k). { apply firstn_length_le. apply nth_error_some_lt in Hp. lia. }
  rewrite F in E. destruct (tags_app (firstn k ps ++ [p]) (skipn (S k) ps)) as [T' [ET _]].
  rewrite <- E, tags_snoc in ET. unfold tag in ET. fold T in ET.
  unfold wave_list in Hw. rewrite ET, !map_app, <- app_assoc in Hw.
  assert (LT : length (map snd T) = k). { rewrite map_length, <- (map_length fst). unfold T. rewrite tags_fst. auto. }
  rewrite nth_error_app2 in Hw by lia. rewrite LT, Nat.sub_diag in Hw. cbn in Hw. injection Hw as <-. reflexivity.
Qed.

Lemma tags_firstn k ps : tags (firstn k ps) = firstn k (tags ps).
Proof.
  destruct (tags_app (firstn k ps) (skipn k ps)) as [T' [E M]]. rewrite firstn_skipn in E. rewrite E.
  destruct (le_lt_dec k (length ps)) as [H|H].
  - assert (L : length (tags (firstn k ps)) = k). { rewrite <- (map_length fst), tags_fst. apply firstn_length_le; auto. }
    rewrite firstn_app, L, Nat.sub_diag. cbn [firstn]. rewrite app_nil_r. symmetry. apply firstn_all2. lia.
  - assert (T' = []). { rewrite skipn_all2 in M by lia. destruct T'; auto; discriminate. } subst.
    rewrite app_nil_r. symmetry. apply firstn_all2. rewrite <- (map_length fst), tags_fst, firstn_length. lia.
Qed.

Lemma tags_nth ps k p w : nth_error ps k = Some p -> nth_error (wave_list ps) k = Some w -> nth_error (tags ps) k = Some (p, w).
Proof.
  intros Hp Hw. rewrite <- (tags_fst ps) in Hp. unfold wave_list in Hw. rewrite nth_error_map in Hp, Hw.
  destruct (nth_error (tags ps) k) as [[a b]|]; cbn in *; congruence.
Qed.

Lemma touches_conflict (a b : push) : in_conflict a b <->
  touches (fst b) (fst (snd b)) a = true \/ touches (fst b) (snd (snd b)) a = true.
Proof.
  unfold in_conflict, touches. rewrite !andb_true_iff, !orb_true_iff, !Nat.eqb_eq. intuition congruence.
Qed.

Lemma next_gt ps k k' p p' w c l : nth_error ps k = Some p -> nth_error (wave_list ps) k = Some w -> k < k' ->
  touches c l p = true -> nth_error ps k' = Some p' -> w < next (tags (firstn k' ps)) c l.
Proof.
  intros Hp Hw Hk Ht Hp'. rewrite tags_firstn. unfold next. apply list_max_in. apply in_map_iff. exists (p, w). split; auto.
  apply filter_In. split; auto. apply nth_error_In with k. rewrite nth_error_firstn.
  destruct (Nat.ltb_spec k k'); [|lia]. apply tags_nth; auto.
Qed.

Lemma conflict_order ps k k' p p' w w' : nth_error ps k = Some p -> nth_error ps k' = Some p' ->
  nth_error (wave_list ps) k = Some w -> nth_error (wave_list ps) k' = Some w' ->
  k < k' -> in_conflict p p' -> w < w'.
Proof.
  intros Hp Hp' Hw Hw' Hk C. rewrite (wave_list_nth ps k' p' w' Hp' Hw').
  apply touches_conflict in C as [C|C]; pose proof (next_gt _ _ _ _ _ _ _ _ Hp Hw Hk C Hp'); lia.
Qed.

Lemma greedy ps k p w : nth_error ps k = Some p -> nth_error (wave_list ps) k = Some (S w) ->
  exists k' p', k' < k /\ nth_error ps k' = Some p' /\ nth_error (wave_list ps) k' = Some w /\ in_conflict p' p.
Proof.
  intros Hp Hw.
  assert (G : exists l, (l = fst (snd p) \/ l = snd (snd p)) /\ next (tags (firstn k ps)) (fst p) l = S w).
  { pose proof (wave_list_nth ps k p _ Hp Hw) as E. cbn beta zeta in E.
    destruct (Nat.max_spec (next (tags (firstn k ps)) (fst p) (fst (snd p))) (next (tags (firstn k ps)) (fst p) (snd (snd p)))) as [[_ H]|[_ H]];
      rewrite H in E; [exists (snd (snd p))|exists (fst (snd p))]; auto. }
  destruct G as [l [Hl G]]. unfold next in G.
  destruct (list_max_attained (map (fun t => S (snd t)) (filter (fun t => touches (fst p) l (fst t)) (tags (firstn k ps))))) as [Z|I].
  - rewrite G in Z. discriminate.
  - rewrite G in I. apply in_map_iff in I as [[p' w'] [E I]]. cbn [snd] in E. injection E as ->.
    apply filter_In in I as [I Ht]. cbn [fst] in Ht. rewrite tags_firstn in I. apply In_nth_error in I as [k' Hk'].
    rewrite nth_error_firstn in Hk'. destruct (Nat.ltb_spec k' k) as [L|L]; [|discriminate].
    exists k', p'. split; auto. unfold wave_list. split; [|split].
    + rewrite <- (tags_fst ps), nth_error_map, Hk'. auto.
    + rewrite nth_error_map, Hk'. auto.
    + apply touches_conflict. destruct Hl as [->| ->]; auto.
Qed.

Lemma wave_bound ps k p w : nth_error ps k = Some p -> nth_error (wave_list ps) k = Some w -> w < nwaves (tags ps) (fst p).
Proof.
  intros Hp Hw. unfold nwaves. apply list_max_in. apply in_map_iff. exists (p, w). split; auto.
  apply filter_In. split; [eapply nth_error_In, tags_nth; eauto|]. cbn. apply Nat.eqb_refl.
Qed.

Lemma wave_nonempty ps c w : w < nwaves (tags ps) c -> sel (tags ps) c w <> [].
Proof.
  intros H.
  assert (G : exists k p, nth_error ps k = Some p /\ fst p = c /\ nth_error (wave_list ps) k = Some w).
  { remember (nwaves (tags ps) c - 1 - w) as m eqn:Em. revert w H Em. induction m as [|m IH]; intros w H Em.
    - assert (Q : nwaves (tags ps) c = 0 \/ In (nwaves (tags ps) c) (map (fun t : push * nat => S (snd t)) (filter (fun t : push * nat => fst (fst t) =? c) (tags ps))))
        by apply list_max_attained.
      destruct Q as [Z|I]; [lia|].
      apply in_map_iff in I as [[p w'] [E I]]. cbn [snd] in E. apply filter_In in I as [I Ec]. cbn [fst] in Ec. apply Nat.eqb_eq in Ec.
      apply In_nth_error in I as [k Hk]. exists k, p. unfold wave_list. rewrite <- (tags_fst ps) at 1. rewrite !nth_error_map, Hk. cbn.
      repeat split; auto. f_equal. lia.
    - destruct (IH (S w)) as [k [p [A [B D]]]]; try lia.
      destruct (greedy ps k p w A D) as [k' [p' [_ [A' [D' [C _]]]]]]. exists k', p'. repeat split; auto. congruence. }
  destruct G as [k [p [A [B D]]]]. intros Z.
  assert (I : In (snd p) (sel (tags ps) c w)).
  { unfold sel. apply in_map_iff. exists (p, w). split; auto. apply filter_In. split; [eapply nth_error_In, tags_nth; eauto|].
    cbn. subst c. rewrite !Nat.eqb_refl. auto. }
  rewrite Z in I. destruct I.
Qed.

Lemma schedule_ok h ps : host_inv h (tags ps) -> is_schedule ps (wave_list ps) (host_waves h).
Proof.
  intros I.
  assert (L : forall c, length (host_waves h c) = nwaves (tags ps) c).
  { intros c. rewrite (host_waves_sel _ _ c I), map_length, seq_length. auto. }
  constructor.
  - apply wave_list_length.
  - intros k p w Hp Hw. rewrite L. eapply wave_bound; eauto.
  - intros c w W HW. pose proof (nth_error_some_lt _ _ _ HW) as B. rewrite L in B.
    rewrite (host_waves_sel _ _ c I), nth_error_map_seq in HW. apply Nat.ltb_lt in B. rewrite B in HW. injection HW as <-.
    rewrite in_wave_sel. auto.
  - intros k k' p p' w w'. apply conflict_order.
  - intros k p w. apply greedy.
Qed.

(** Pushes in the same wave of a cell share no particle. *)
Lemma wave_disjoint ps c w : (forall p, In p ps -> fst (snd p) <> snd (snd p)) ->
  NoDup (particles_of (map ordered_pair (sel (tags ps) c w))).
Proof.
  intros N.
  assert (G : forall T ps, T = tags ps -> (forall p, In p ps -> fst (snd p) <> snd (snd p)) ->
     NoDup (particles_of (map ordered_pair (sel T c w))) /\
     forall l, In l (particles_of (map ordered_pair (sel T c w))) -> w < next T c l).
  { clear. intros T ps. revert T. induction ps as [|p ps IH] using rev_ind; intros T -> N; [split; [constructor|cbn; tauto]|].
    destruct (IH _ eq_refl) as [D Nx]; [intros; apply N, in_or_app; auto|].
    rewrite tags_snoc. unfold sel. unfold tag at 1 2. rewrite !filter_app, !map_app. change (filter (fun t : push * nat => (fst (fst t) =? c) && (snd t =? w)) (tags ps)) with (filter (fun t : push * nat => (fst (fst t) =? c) && (snd t =? w)) (tags ps)).
    fold (sel (tags ps) c w). cbn [filter fst snd].
    destruct ((fst p =? c) && (Nat.max (next (tags ps) (fst p) (fst (snd p))) (next (tags ps) (fst p) (snd (snd p))) =? w)) eqn:E.
    - apply andb_true_iff in E as [E1 E2]. apply Nat.eqb_eq in E1, E2.
      assert (Np : fst (snd p) <> snd (snd p)) by (apply N, in_or_app; cbn; auto). clear N. cbn [map snd].
      unfold particles_of in *. rewrite flat_map_app. cbn [flat_map ordered_pair fst snd app].
      assert (P : forall l, In l [Nat.min (fst (snd p)) (snd (snd p)); Nat.max (fst (snd p)) (snd (snd p))] -> l = fst (snd p) \/ l = snd (snd p)).
      { cbn. intros l [<-|[<-|[]]]; lia. }
      split.
      + apply NoDup_app_intro; auto.
        * constructor; [cbn; intros [Q|[]]; lia|]. constructor; [cbn; tauto|constructor].
        * intros x Hx Hx'. apply Nx in Hx. apply P in Hx'. subst c. destruct Hx' as [-> | ->]; lia.
      + intros l Hl. rewrite next_tag. destruct (touches c l p) eqn:Et; [lia|]. apply in_app_or in Hl as [Hl|Hl]; [auto|].
        exfalso. apply P in Hl. unfold touches in Et. subst c. rewrite Nat.eqb_refl in Et. cbn in Et.
        apply orb_false_iff in Et as [A B]. apply Nat.eqb_neq in A, B. destruct Hl; congruence.
    - cbn [map app]. rewrite app_nil_r. split; auto. intros l Hl. rewrite next_tag. destruct (touches c l p) eqn:Et; auto.
      specialize (Nx l Hl). unfold touches in Et. apply andb_true_iff in Et as [E1 E2]. apply Nat.eqb_eq in E1. subst c.
      apply orb_true_iff in E2. rewrite !Nat.eqb_eq in E2. destruct E2 as [<-|<-]; lia. }
  apply (G (tags ps) ps); auto.
Qed.

Lemma sel_concat (T : list (push * nat)) c m : (forall t, In t T -> fst (fst t) = c -> snd t < m) ->
  Permutation (flat_map (sel T c) (seq 0 m)) (map (fun t : push * nat => snd (fst t)) (filter (fun t : push * nat => fst (fst t) =? c) T)).
Proof.
  induction T as [|t T IH]; intros H.
  - cbn. rewrite flat_map_nil; auto.
  - specialize (IH (fun t' I => H t' (or_intror I))).
    unfold sel. cbn [filter]. destruct (fst (fst t) =? c) eqn:E; cbn [andb].
    + apply Nat.eqb_eq in E. pose proof (H t (or_introl eq_refl) E) as B.
      transitivity (flat_map (fun w => (if snd t =? w then [snd (fst t)] else []) ++ sel T c w) (seq 0 m)).
      { apply Permutation_flat_map_ext. intros w _. destruct (snd t =? w); auto. }
      rewrite flat_map_app_perm. cbn [map]. rewrite IH. apply (Permutation_app_tail _ (l' := [snd (fst t)])).
      replace m with (snd t + (1 + (m - snd t - 1))) by lia. rewrite !seq_app, !flat_map_app.
      rewrite (flat_map_nil _ (seq 0 (snd t))) by (intros w Hw; apply in_seq in Hw; destruct (Nat.eqb_spec (snd t) w); [lia|auto]).
      rewrite (flat_map_nil _ (seq (0 + snd t + 1) _)) by (intros w Hw; apply in_seq in Hw; destruct (Nat.eqb_spec (snd t) w); [lia|auto]).
      cbn. rewrite Nat.eqb_refl. auto.
    + exact IH.
Qed.

Lemma nothing_lost h ps c : host_inv h (tags ps) ->
  Permutation (concat (host_waves h c)) (map ordered_pair (pushed_to ps c)).
Proof.
  intros I. rewrite (host_waves_sel _ _ c I), <- flat_map_concat_map.
  assert (E : flat_map (fun w => map ordered_pair (sel (tags ps) c w)) (seq 0 (nwaves (tags ps) c)) =
     map ordered_pair (flat_map (sel (tags ps) c) (seq 0 (nwaves (tags ps) c)))).
  { induction (seq 0 (nwaves (tags ps) c)) as [|x l IH]; cbn; auto. rewrite map_app, IH. auto. }
  rewrite E. apply Permutation_map. rewrite sel_concat.
  - unfold pushed_to. rewrite <- (tags_fst ps) at 2. clear.
    induction (tags ps) as [|t T IH]; cbn; auto. destruct (fst (fst t) =? c); cbn; auto.
  - intros t Ht Hc. unfold nwaves. apply list_max_in. apply in_map_iff. exists t. split; auto. apply filter_In. split; auto.
    apply Nat.eqb_eq; auto.
Qed.

Lemma host_pushes_valid cc ps h : host_pushes cc ps = Some h ->
  (forall p, In p ps -> fst p < cc) /\ host_inv h (tags ps).
Proof.
  intros E.
  assert (V : forall p, In p ps -> fst p < cc).
  { revert h E. induction ps as [|p ps IH] using rev_ind; intros h E; [cbn; tauto|].
    unfold host_pushes in E. rewrite foldM_app in E. unfold host_pushes in IH.
    match type of E with obind ?x _ = _ => destruct x as [s|] eqn:F; [|discriminate] end.
    intros q Hq. apply in_app_or in Hq as [Hq|[<-|[]]]; [eapply IH; eauto|].
    cbn [obind foldM] in E. unfold host_push_back in E. destruct (fst p <? cc) eqn:L; [apply Nat.ltb_lt; auto|discriminate]. }
  split; auto. destruct (host_pushes_inv cc ps V) as [s [E' I]]. rewrite E in E'. injection E' as <-. auto.
Qed.
