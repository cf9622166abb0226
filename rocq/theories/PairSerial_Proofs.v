(** Proofs about all calls of a pair loop and about their effect. *)
From Coq Require Import List Arith Lia ZArith Bool Permutation.
Import ListNotations.
From Verif Require Import Base World_Proofs AllToAll_Proofs PairList_Model PairList_Spec PairHost_Proofs PairSimple_Proofs PairSet_Proofs PairHistory_Proofs PairLoop_Proofs PairOrder_Proofs.

(** ** All calls *)
Lemma flat_map_seq_extend {B} (f : nat -> list B) m n : m <= n -> (forall w, m <= w -> f w = []) ->
  flat_map f (seq 0 n) = flat_map f (seq 0 m).
Proof.
  intros H E. replace n with (m + (n - m)) by lia. rewrite seq_app, flat_map_app.
  rewrite (flat_map_nil _ (seq (0 + m) _)) by (intros w Hw; apply in_seq in Hw; apply E; lia). apply app_nil_r.
Qed.

Lemma calls_for_none o l C c w : length (nth c C []) <= w -> calls_for o l C c w = [].
Proof. intros H. unfold calls_for. rewrite (nth_overflow (nth c C []) []) by auto. auto. Qed.

(** All calls for lists with given contents and offsets. *)
Definition gall (n : nat) (CC : nat -> contents) (ofs : nat -> Z) (first last : nat) : list call :=
  flat_map (fun l => flat_map (fun c => flat_map (calls_for (ofs l) l (CC l) c) (seq 0 (length (nth c (CC l) [])))) (seq first (last - first))) (seq 0 n).

Definition widest (n : nat) (CC : nat -> contents) (first last : nat) : nat :=
  list_max (flat_map (fun l => map (fun c => length (nth c (CC l) [])) (seq first (last - first))) (seq 0 n)).

Lemma all_calls_waves n CC ofs first last m : widest n CC first last <= m ->
  Permutation (flat_map (gcalls n CC ofs first last) (seq 0 m)) (gall n CC ofs first last).
Proof.
  intros H. unfold gcalls, gall.
  rewrite (flat_map_swap (fun w l => flat_map (fun c => calls_for (ofs l) l (CC l) c w) (seq first (last - first)))).
  apply Permutation_flat_map_ext. intros l Hl.
  rewrite (flat_map_swap (fun w c => calls_for (ofs l) l (CC l) c w)).
  apply Permutation_flat_map_ext. intros c Hc. cbv beta.
  change (fun w => calls_for (ofs l) l (CC l) c w) with (calls_for (ofs l) l (CC l) c).
  rewrite (flat_map_seq_extend _ (length (nth c (CC l) [])) m); auto.
  - etransitivity; [|exact H]. apply list_max_in. apply in_flat_map. exists l. split; auto.
    apply (in_map (fun c => length (nth c (CC l) []))). auto.
  - intros w Hw. apply calls_for_none; auto.
Qed.

Lemma orders_gen n CC ofs first last ex : (forall w, Permutation (executed ex w) (gcalls n CC ofs first last w)) -> structured ex ->
  forall o, admissible ex o -> Permutation o (gall n CC ofs first last) /\ ForallOrdPairs in_order o.
Proof.
  intros P St o A. split.
  - rewrite (admissible_perm ex o (Nat.max (max_phases ex) (widest n CC first last)) A) by lia.
    rewrite <- (all_calls_waves n CC ofs first last (Nat.max (max_phases ex) (widest n CC first last))) by lia.
    apply Permutation_flat_map_ext. auto.
  - apply (admissible_fop ex); auto. intros w x Hx. apply (Permutation_in _ (P w)) in Hx. unfold gcalls in Hx.
    apply in_flat_map in Hx as [l [_ Hx]]. apply in_flat_map in Hx as [c [_ Hx]]. apply calls_for_in in Hx. tauto.
Qed.

Section Orders.
  Context (d : device) (cc : nat) (lists : list simple) (oss : list (list (nat * op))).
  Hypothesis Hd : device_ok d.
  Hypothesis Hl : Forall2 (list_with d cc) lists oss.
  Context (ls first last k : nat) (cpu : bool) (ex : execution).
  Hypothesis Hls : 1 <= ls.
  Hypothesis Hrange : last <= cc.
  Hypothesis Hex : pair_loop d cc k ls cpu lists first last = Some ex.

  Lemma ex_ok : (forall w, Permutation (executed ex w) (calls_of_wave cc oss first last w)) /\ structured ex.
  Proof.
    destruct (pair_loop_ok d cc Hd lists oss Hl ls first last Hls Hrange k cpu) as [ex' [E R]].
    rewrite Hex in E. injection E as <-. exact R.
  Qed.

  Lemma orders o : admissible ex o -> Permutation o (all_calls cc oss first last) /\ ForallOrdPairs in_order o.
  Proof.
    intros A. destruct ex_ok as [P St].
    exact (orders_gen (length oss) (CC cc oss) (offset_of cc oss) first last ex P St o A).
  Qed.
End Orders.

(** ** Numbers of the calls *)
Lemma flat_map_starts {A} (L : list (list A)) :
  flat_map (fun c => seq (length (concat (firstn c L))) (length (nth c L []))) (seq 0 (length L)) = seq 0 (length (concat L)).
Proof.
  induction L as [|x L IH] using rev_ind; auto.
  rewrite app_length, seq_app, flat_map_app, concat_app, app_length, seq_app. cbn [length seq flat_map Nat.add concat].
  rewrite !app_nil_r. f_equal.
  - rewrite <- IH. apply flat_map_ext_in. intros c Hc. apply in_seq in Hc. rewrite firstn_app, app_nth1 by lia.
    replace (c - length L) with 0 by lia. cbn [firstn]. rewrite app_nil_r. auto.
  - rewrite app_nth2, Nat.sub_diag by lia. cbn [nth]. rewrite firstn_app, Nat.sub_diag, firstn_all. cbn [firstn]. rewrite app_nil_r. auto.
Qed.

Lemma map_flat_map {A B C} (g : B -> C) (f : A -> list B) l : map g (flat_map f l) = flat_map (fun a => map g (f a)) l.
Proof. induction l as [|a l IH]; cbn; auto. rewrite map_app, IH. auto. Qed.

Lemma map_snd_combine {A} (P : list A) : forall a n, n = length P -> map snd (combine (seq a n) P) = P.
Proof. induction P as [|x P IH]; intros a n ->; cbn; auto. f_equal. apply IH. auto. Qed.

Lemma map_fst_combine {A} (P : list A) : forall a n, n = length P -> map fst (combine (seq a n) P) = seq a n.
Proof. induction P as [|x P IH]; intros a n ->; cbn; auto. f_equal. apply IH. auto. Qed.

Lemma seq_shift_add b n : forall a, map (fun i => b + i) (seq a n) = seq (b + a) n.
Proof. induction n as [|n IH]; intros a; cbn; auto. f_equal. rewrite IH. f_equal. lia. Qed.

Lemma calls_for_index o l C c w : map c_index (calls_for o l C c w) =
  map (fun i => (o + Z.of_nat i)%Z) (seq (pairs_before C c w) (length (nth w (nth c C []) []))).
Proof.
  unfold calls_for. rewrite map_map. cbn [c_index].
  rewrite <- (map_map fst (fun i => (o + Z.of_nat (pairs_before C c w + i))%Z)), map_fst_combine by auto.
  rewrite <- (map_map (fun i => pairs_before C c w + i) (fun i => (o + Z.of_nat i)%Z)), seq_shift_add, Nat.add_0_r. auto.
Qed.

Lemma cell_index o l C c : map c_index (flat_map (calls_for o l C c) (seq 0 (length (nth c C [])))) =
  map (fun i => (o + Z.of_nat i)%Z) (seq (length (concat (concat (firstn c C)))) (length (concat (nth c C [])))).
Proof.
  rewrite map_flat_map.
  rewrite (flat_map_ext _ (fun w => map (fun i => (o + Z.of_nat i)%Z) (seq (pairs_before C c w) (length (nth w (nth c C []) []))))) by (intros; apply calls_for_index).
  rewrite <- (map_flat_map (fun i => (o + Z.of_nat i)%Z) (fun w => seq (pairs_before C c w) (length (nth w (nth c C []) [])))). f_equal.
  replace (length (concat (concat (firstn c C)))) with (length (concat (concat (firstn c C))) + 0) at 1 by lia.
  rewrite <- (seq_shift_add (length (concat (concat (firstn c C))))), <- flat_map_starts, map_flat_map.
  apply flat_map_ext. intros w. rewrite seq_shift_add. auto.
Qed.

Lemma concat_map_concat {A} (L : list (list (list A))) : concat (map (@concat A) L) = concat (concat L).
Proof. induction L as [|x L IH]; cbn; auto. rewrite concat_app, IH. auto. Qed.

Lemma list_index o l C : map c_index (flat_map (fun c => flat_map (calls_for o l C c) (seq 0 (length (nth c C [])))) (seq 0 (length C))) =
  map (fun i => (o + Z.of_nat i)%Z) (seq 0 (length (concat (concat C)))).
Proof.
  rewrite map_flat_map. rewrite (flat_map_ext _ _ (cell_index o l C)).
  rewrite <- (map_flat_map (fun i => (o + Z.of_nat i)%Z)). f_equal.
  rewrite <- concat_map_concat, <- (flat_map_starts (map (@concat _) C)), map_length. apply flat_map_ext_in. intros c Hc. apply in_seq in Hc.
  f_equal.
  - rewrite firstn_map, concat_map_concat. auto.
  - rewrite (nth_indep (map _ C) [] (concat [])) by (rewrite map_length; lia). rewrite map_nth. auto.
Qed.

Lemma expected_length cc os : length (expected cc os) = cc.
Proof.
  unfold expected. induction os as [|o os IH] using rev_ind; cbn [fold_left]; [apply repeat_length|].
  rewrite fold_left_app. cbn [fold_left]. destruct o as [k o]. cbn [snd]. destruct o as [c i j|ps|]; cbn [after].
  - destruct c; auto. rewrite map_length, seq_length. auto.
  - destruct (host_pushes cc ps); auto. rewrite map_length, seq_length. auto.
  - apply repeat_length.
Qed.

Lemma offset_filled cc oss l : (forall os, In os oss -> filled os = true) ->
  offset_of cc oss l = Z.of_nat (list_sum (map (pair_total cc) (firstn l oss))).
Proof.
  intros F. unfold offset_of. assert (G : forall os, In os (firstn l oss) -> filled os = true).
  { intros os Hos. apply F. rewrite <- (firstn_skipn l oss). apply in_or_app; auto. }
  induction (firstn l oss) as [|os r IH]; cbn [map fold_right list_sum]; auto.
  rewrite IH by (intros; apply G; cbn; auto). unfold count_of. rewrite (G os) by (cbn; auto). unfold pair_total, list_sum. cbn [fold_right]. lia.
Qed.

Lemma flat_map_sums (ns : list nat) : flat_map (fun l => seq (list_sum (firstn l ns)) (nth l ns 0)) (seq 0 (length ns)) = seq 0 (list_sum ns).
Proof.
  induction ns as [|x ns IH] using rev_ind; auto.
  rewrite app_length, seq_app, flat_map_app, list_sum_app, seq_app. cbn [length seq flat_map Nat.add]. rewrite app_nil_r. f_equal.
  - rewrite <- IH. apply flat_map_ext_in. intros c Hc. apply in_seq in Hc. rewrite firstn_app, app_nth1 by lia.
    replace (c - length ns) with 0 by lia. cbn [firstn]. rewrite app_nil_r. auto.
  - rewrite app_nth2, Nat.sub_diag by lia. cbn [nth]. rewrite firstn_app, Nat.sub_diag, firstn_all. cbn [firstn]. rewrite app_nil_r.
    f_equal. unfold list_sum. cbn. lia.
Qed.

Lemma all_index cc oss : (forall os, In os oss -> filled os = true) ->
  map c_index (all_calls cc oss 0 cc) = map Z.of_nat (seq 0 (list_sum (map (pair_total cc) oss))).
Proof.
  intros F. unfold all_calls. rewrite map_flat_map.
  rewrite (flat_map_ext _ (fun l => map Z.of_nat (seq (list_sum (firstn l (map (pair_total cc) oss))) (length (concat (concat (expected cc (nth l oss []))))))))
  .
  - rewrite <- (map_flat_map Z.of_nat). f_equal. rewrite <- flat_map_sums, map_length. apply flat_map_ext_in. intros l Hl. apply in_seq in Hl.
    f_equal. rewrite (nth_indep (map _ oss) 0 (pair_total cc [])) by (rewrite map_length; lia). rewrite map_nth. auto.
  - intros l. cbv zeta. rewrite Nat.sub_0_r. pose proof (list_index (offset_of cc oss l) l (expected cc (nth l oss []))) as E. rewrite expected_length in E. rewrite E, offset_filled by auto. clear E.
    rewrite firstn_map. set (b := list_sum _). replace (seq b) with (seq (b + 0)) by (rewrite Nat.add_0_r; auto). rewrite <- seq_shift_add, map_map. apply map_ext. intros i. lia.
Qed.

(** ** Lists that were set from a host list *)
Lemma set_lists d cc lists pss : Forall2 (list_set_to d cc) lists pss ->
  exists oss, Forall2 (list_with d cc) lists oss /\ length oss = length pss /\
    forall l ps, nth_error pss l = Some ps -> exists h, host_pushes cc ps = Some h /\ host_inv h (tags ps) /\
      (forall p, In p ps -> fst p < cc) /\ expected cc (nth l oss []) = map (host_waves h) (seq 0 cc).
Proof.
  induction 1 as [|s ps lists pss [os [k H]] F IH].
  - exists []. repeat split; auto. intros [|l] ps; discriminate.
  - destruct IH as [oss [F' [L I]]]. exists ((os ++ [(k, SetHost ps)]) :: oss). split; [constructor; auto|]. split; [cbn; auto|].
    intros [|l] qs Hq; cbn [nth_error nth] in *; auto. injection Hq as <-.
    destruct H as [k0 [R _]]. unfold run in R. destruct (create d cc k0) as [s0|]; [|discriminate]. cbn [obind] in R.
    rewrite foldM_app in R. destruct (foldM (step d cc) s0 os) as [s1|]; [|discriminate]. cbn [obind foldM] in R.
    unfold step at 1 in R. cbn [fst snd] in R. destruct (host_pushes cc ps) as [h|] eqn:E; [|discriminate].
    exists h. destruct (host_pushes_valid _ _ _ E) as [V Hi]. split; auto. split; auto. split; auto.
    unfold expected. rewrite fold_left_app. cbn [fold_left snd after]. rewrite E. auto.
Qed.

Lemma nth_map_seq' {B} (f : nat -> list B) n c : c < n -> nth c (map f (seq 0 n)) [] = f c.
Proof. intros H. rewrite (nth_indep _ [] (f 0)) by (rewrite map_length, seq_length; auto). rewrite map_nth, seq_nth by auto. auto. Qed.

(** The calls of a wave of a list that was set. *)
Lemma calls_for_set cc ps h o l c w : host_inv h (tags ps) -> c < cc -> w < nwaves (tags ps) c ->
  map pair_of (calls_for o l (map (host_waves h) (seq 0 cc)) c w) = map (fun p => (c, ordered_pair p)) (sel (tags ps) c w) .
Proof.
  intros I Hc Hw. unfold calls_for. rewrite nth_map_seq' by auto. rewrite (host_waves_sel _ _ c I), nth_map_seq' by auto.
  rewrite map_map. unfold pair_of. cbn [c_cell c_first c_second].
  rewrite <- (map_map snd (fun p => (c, (fst p, snd p)))), map_snd_combine by auto. rewrite map_map. apply map_ext. intros p.
  destruct (ordered_pair p); auto.
Qed.

Lemma ordered_touch p l : fst (ordered_pair p) = l \/ snd (ordered_pair p) = l <-> fst p = l \/ snd p = l.
Proof. unfold ordered_pair. cbn. destruct (Nat.min_dec (fst p) (snd p)), (Nat.max_dec (fst p) (snd p)); lia. Qed.

Lemma wave_uses cc ps h o l c w : host_inv h (tags ps) -> (forall p, In p ps -> fst (snd p) <> snd (snd p)) -> c < cc ->
  NoDup (flat_map uses (calls_for o l (map (host_waves h) (seq 0 cc)) c w)).
Proof.
  intros I N Hc. destruct (le_lt_dec (nwaves (tags ps) c) w) as [Hw|Hw].
  - rewrite calls_for_none; [constructor|]. rewrite nth_map_seq', (host_waves_sel _ _ c I), map_length, seq_length by auto. auto.
  - assert (E : flat_map uses (calls_for o l (map (host_waves h) (seq 0 cc)) c w) =
      map (fun x => (l, (c, x))) (particles_of (map ordered_pair (sel (tags ps) c w)))).
    { unfold calls_for. rewrite nth_map_seq' by auto. rewrite (host_waves_sel _ _ c I), nth_map_seq' by auto.
      rewrite <- (map_snd_combine (map ordered_pair (sel (tags ps) c w)) 0 _ eq_refl) at 3.
      generalize (combine (seq 0 (length (map ordered_pair (sel (tags ps) c w)))) (map ordered_pair (sel (tags ps) c w))). clear.
      intros r. unfold particles_of. rewrite map_flat_map. generalize (pairs_before (map (host_waves h) (seq 0 cc)) c w). intros b.
      induction r as [|[i [a a']] r IH]; auto. cbn [map flat_map fst snd]. rewrite IH. auto. }
    rewrite E. apply NoDup_map_inj; [intros x y _ _ Q; congruence|]. apply wave_disjoint; auto.
Qed.

Lemma uses_key x u : In u (uses x) -> fst u = c_list x /\ fst (snd u) = c_cell x.
Proof. intros [<-|[<-|[]]]; auto. Qed.

Lemma wave_nodup d cc lists pss ls first last k cpu ex w : device_ok d -> Forall2 (list_set_to d cc) lists pss -> 1 <= ls -> last <= cc ->
  pair_loop d cc k ls cpu lists first last = Some ex -> (forall ps p, In ps pss -> In p ps -> fst (snd p) <> snd (snd p)) ->
  NoDup (flat_map uses (executed ex w)).
Proof.
  intros Hd F Hls Hr E N. destruct (set_lists _ _ _ _ F) as [oss [F' [L I]]].
  destruct (ex_ok d cc lists oss Hd F' ls first last k cpu ex Hls Hr E) as [P _].
  apply (Permutation_NoDup (l := flat_map uses (calls_of_wave cc oss first last w))).
  { apply Permutation_sym, Permutation_flat_map. auto. }
  unfold calls_of_wave. rewrite flat_map_flat_map. apply NoDup_flat_map; [apply seq_NoDup| |].
  - intros l Hl. apply in_seq in Hl. destruct (nth_error_lt_some pss l) as [ps Hps]; [lia|]. destruct (I l ps Hps) as [h [E1 [E2 [E3 E4]]]].
    rewrite flat_map_flat_map. apply NoDup_flat_map; [apply seq_NoDup| |].
    + intros c Hc. apply in_seq in Hc. rewrite E4. apply (wave_uses cc ps); auto; [|lia]. intros p Hp. apply (N ps p); auto. eapply nth_error_In; eauto.
    + intros c1 c2 u _ _ H1 H2. apply in_flat_map in H1 as [x1 [H1 U1]], H2 as [x2 [H2 U2]].
      change (expected cc (nth l oss [])) with (CC cc oss l) in *. apply calls_for_in in H1, H2. apply uses_key in U1, U2. intuition congruence.
  - intros l1 l2 u _ _ H1 H2. apply in_flat_map in H1 as [x1 [H1 U1]], H2 as [x2 [H2 U2]].
    apply in_flat_map in H1 as [c1 [_ H1]], H2 as [c2 [_ H2]].
    change (expected cc (nth l1 oss [])) with (CC cc oss l1) in *. change (expected cc (nth l2 oss [])) with (CC cc oss l2) in *.
    apply calls_for_in in H1, H2. apply uses_key in U1, U2. intuition congruence.
Qed.

(** ** The effect of a loop *)
Definition in_range (first last : nat) (p : push) : bool := (first <=? fst p) && (fst p <? last).
Definition tagged (first last l : nat) (ps : list push) : list (nat * (nat * (push * nat))) :=
  map (fun it => (l, it)) (filter (fun it => in_range first last (fst (snd it))) (combine (seq 0 (length (tags ps))) (tags ps))).
Definition act (x : nat * (nat * (push * nat))) : nat * (nat * nat) :=
  let p := fst (snd (snd x)) in (fst p, ordered_pair (snd p)).
Definition mark (x : nat * (nat * (push * nat))) := ((fst x, snd (snd (snd x))), act x).
Definition mark_call (x : call) := ((c_list x, c_wave x), pair_of x).
Definition prior (x y : nat * (nat * (push * nat))) : Prop := fst x < fst y \/ fst x = fst y /\ fst (snd x) < fst (snd y).
Definition mark_tag (l : nat) (t : push * nat) := ((l, snd t), (fst (fst t), ordered_pair (snd (fst t)))).

Lemma filter_combine_snd {A B} (f : B -> bool) (l' : list B) : forall (l : list A), length l = length l' ->
  map snd (filter (fun it => f (snd it)) (combine l l')) = filter f l'.
Proof.
  induction l' as [|b l' IH]; intros [|a l] H; cbn in *; auto; try discriminate. destruct (f b); cbn; rewrite IH; auto.
Qed.

Lemma mark_tagged first last l ps : map mark (tagged first last l ps) = map (mark_tag l) (filter (fun t => in_range first last (fst t)) (tags ps)).
Proof.
  unfold tagged. rewrite map_map. rewrite <- (filter_combine_snd (fun t => in_range first last (fst t)) (tags ps) (seq 0 (length (tags ps)))) by apply seq_length.
  rewrite map_map. auto.
Qed.

Lemma eq_perm {A} (l l' : list A) : l = l' -> Permutation l l'.
Proof. intros ->. auto. Qed.

Lemma by_cells (T : list (push * nat)) first last :
  Permutation (flat_map (fun c => filter (fun t => fst (fst t) =? c) T) (seq first (last - first))) (filter (fun t => in_range first last (fst t)) T).
Proof.
  rewrite <- (by_key (fun t : push * nat => fst (fst t) - first) (last - first) (filter (fun t => in_range first last (fst t)) T)).
  - replace (seq first (last - first)) with (map (fun i => first + i) (seq 0 (last - first))) by (rewrite seq_shift_add, Nat.add_0_r; auto).
    rewrite flat_map_map. apply Permutation_flat_map_ext. intros c Hc. apply in_seq in Hc.
    apply eq_perm.
    induction T as [|[[cell pr] wv] T IH]; cbn [filter]; auto.
    change (fst (fst (cell, pr, wv))) with cell. cbn [fst snd].
    assert (R : in_range first last (cell, pr) = (first <=? cell) && (cell <? last)) by auto.
    destruct (in_range first last (cell, pr)); cbn [filter fst snd]; symmetry in R.
    + apply andb_true_iff in R as [R1 R2]. apply Nat.leb_le in R1.
      destruct (Nat.eqb_spec (cell) (first + c)), (Nat.eqb_spec (cell - first) c); rewrite <- ?IH; auto; lia.
    + rewrite <- IH. destruct (Nat.eqb_spec (cell) (first + c)) as [Q|Q]; auto. apply andb_false_iff in R as [R|R];
        [apply Nat.leb_gt in R|apply Nat.ltb_ge in R]; lia.
  - intros t Ht. apply filter_In in Ht as [_ Ht]. unfold in_range in Ht. apply andb_true_iff in Ht as [A B].
    apply Nat.leb_le in A. apply Nat.ltb_lt in B. lia.
Qed.

Lemma by_waves (T : list (push * nat)) c :
  Permutation (flat_map (fun w => filter (fun t : push * nat => (fst (fst t) =? c) && (snd t =? w)) T) (seq 0 (nwaves T c)))
    (filter (fun t : push * nat => fst (fst t) =? c) T).
Proof.
  rewrite <- (by_key (fun t : push * nat => snd t) (nwaves T c) (filter (fun t : push * nat => fst (fst t) =? c) T)) at 1.
  - apply Permutation_flat_map_ext. intros w _.
    replace (filter (fun a : push * nat => snd a =? w) (filter (fun t : push * nat => fst (fst t) =? c) T)) with
      (filter (fun t : push * nat => (fst (fst t) =? c) && (snd t =? w)) T); auto. generalize T. intros T'.
    induction T' as [|t T' IH]; cbn [filter]; auto. destruct (fst (fst t) =? c); cbn [andb filter]; rewrite <- ?IH; auto.
  - intros t Ht. apply list_max_in. apply (in_map (fun t : push * nat => S (snd t))). auto.
Qed.

Lemma list_marks cc ps h o l first last : host_inv h (tags ps) -> last <= cc ->
  let C := map (host_waves h) (seq 0 cc) in
  Permutation (map mark_call (flat_map (fun c => flat_map (calls_for o l C c) (seq 0 (length (nth c C [])))) (seq first (last - first))))
    (map mark (tagged first last l ps)).
Proof.
  intros I Hr C. rewrite mark_tagged, <- by_cells, !map_flat_map. apply Permutation_flat_map_ext. intros c Hc. apply in_seq in Hc.
  rewrite <- by_waves, !map_flat_map. unfold C at 2. rewrite nth_map_seq', (host_waves_sel _ _ c I), map_length, seq_length by lia.
  apply Permutation_flat_map_ext. intros w Hw. apply in_seq in Hw.
  replace (map mark_call (calls_for o l C c w)) with (map (fun q => ((l, w), q)) (map pair_of (calls_for o l C c w))).
  2:{ rewrite map_map. apply map_ext_in. intros x Hx. unfold calls_for in Hx. apply in_map_iff in Hx as [i [<- _]]. auto. }
  unfold C. rewrite (calls_for_set cc ps) by (auto; lia). unfold sel. rewrite !map_map.
  match goal with |- Permutation ?a ?b => replace a with b; auto end. apply map_ext_in. intros t Ht. apply filter_In in Ht as [_ Ht].
  apply andb_true_iff in Ht as [A B]. apply Nat.eqb_eq in A, B. unfold mark_tag. rewrite A, B. auto.
Qed.

Lemma tagged_in first last l ps x : In x (tagged first last l ps) -> fst x = l /\
  nth_error ps (fst (snd x)) = Some (fst (snd (snd x))) /\ nth_error (wave_list ps) (fst (snd x)) = Some (snd (snd (snd x))).
Proof.
  unfold tagged. intros H. apply in_map_iff in H as [[i [p w]] [<- H]]. apply filter_In in H as [H _]. cbn [fst snd].
  assert (E2 : nth_error (tags ps) i = Some (p, w)).
  { assert (G : forall (T : list (push * nat)) a, In (i, (p, w)) (combine (seq a (length T)) T) -> a <= i /\ nth_error T (i - a) = Some (p, w)).
    { clear. induction T as [|t T IH]; intros a; cbn [length seq combine]; [intros []|]. intros [Q|Q].
      - injection Q as -> ->. rewrite Nat.sub_diag. auto.
      - apply IH in Q as [Q1 Q2]. split; [lia|]. replace (i - a) with (S (i - S a)) by lia. auto. }
    apply G in H as [_ H]. rewrite Nat.sub_0_r in H. auto. }
  split; auto. unfold wave_list. rewrite <- (tags_fst ps) at 1. rewrite !nth_error_map, E2. auto.
Qed.

Lemma tagged_fop first last l ps : ForallOrdPairs prior (tagged first last l ps).
Proof.
  unfold tagged. apply fop_map. generalize (tags ps). intros T. generalize 0.
  induction T as [|t T IH]; intros a; cbn [length seq combine filter]; [constructor|].
  assert (G : forall it, In it (filter (fun it => in_range first last (fst (snd it))) (combine (seq (S a) (length T)) T)) -> a < fst it).
  { intros it Hit. apply filter_In in Hit as [Hit _]. destruct it as [i u]. apply in_combine_l, in_seq in Hit. cbn. lia. }
  destruct (in_range first last (fst (snd (a, t)))); auto. constructor; auto. apply Forall_forall. intros it Hit. right. cbn [fst snd]. split; auto.
Qed.

Lemma tagged_act first last l ps : map act (tagged first last l ps) = in_cells first last ps.
Proof.
  unfold tagged, in_cells. rewrite map_map. unfold act. cbn [fst snd].
  rewrite <- (map_map (fun it : nat * (push * nat) => snd it) (fun t : push * nat => (fst (fst t), ordered_pair (snd (fst t))))).
  rewrite (filter_combine_snd (fun t : push * nat => in_range first last (fst t))) by apply seq_length.
  rewrite <- (tags_fst ps) at 2. generalize (tags ps). intros T. induction T as [|t T IH]; cbn [map filter]; auto.
  unfold in_range at 1. destruct ((first <=? fst (fst t)) && (fst (fst t) <? last)); cbn [map]; rewrite IH; auto.
Qed.

Lemma act_conflict x y : in_conflict (act x) (act y) <-> in_conflict (fst (snd (snd x))) (fst (snd (snd y))).
Proof.
  unfold in_conflict, act. cbn [fst snd]. unfold ordered_pair. cbn [fst snd].
  destruct (fst (snd (snd x))) as [c [i j]], (fst (snd (snd y))) as [c' [i' j']]. cbn [fst snd].
  destruct (Nat.min_dec i j), (Nat.max_dec i j), (Nat.min_dec i' j'), (Nat.max_dec i' j'); lia.
Qed.

Lemma fop_flat_map {A B} (R : B -> B -> Prop) (f : A -> list B) l : (forall a, In a l -> ForallOrdPairs R (f a)) ->
  ForallOrdPairs (fun a a' => forall x y, In x (f a) -> In y (f a') -> R x y) l -> ForallOrdPairs R (flat_map f l).
Proof.
  intros H F. induction F as [|a l Fa F IH]; cbn; [constructor|]. apply fop_app. split; [apply H; cbn; auto|]. split; [apply IH; intros; apply H; cbn; auto|].
  intros x y Hx Hy. apply in_flat_map in Hy as [a' [Ha' Hy]]. rewrite Forall_forall in Fa. eapply Fa; eauto.
Qed.

Lemma seq_fop n : forall a, ForallOrdPairs lt (seq a n).
Proof.
  induction n as [|n IH]; intros a; cbn; constructor; auto. apply Forall_forall. intros x Hx. apply in_seq in Hx. lia.
Qed.

Lemma flat_map_nth {A B} (f : A -> list B) (L : list A) z : flat_map (fun l => f (nth l L z)) (seq 0 (length L)) = flat_map f L.
Proof.
  induction L as [|x L IH] using rev_ind; auto. rewrite app_length, seq_app, !flat_map_app. cbn [length seq flat_map Nat.add]. f_equal.
  - rewrite <- IH. apply flat_map_ext_in. intros l Hl. apply in_seq in Hl. rewrite app_nth1 by lia. auto.
  - rewrite app_nth2, Nat.sub_diag by lia. auto.
Qed.

Lemma in_conflict_sym a b : in_conflict a b -> in_conflict b a.
Proof. unfold in_conflict. intuition congruence. Qed.

Lemma serial {V} (kernel : nat -> V -> V -> V * V) d cc lists pss ls first last k cpu ex o st : device_ok d -> Forall2 (list_set_to d cc) lists pss ->
  1 <= ls -> last <= cc -> pair_loop d cc k ls cpu lists first last = Some ex ->
  (forall l l' ps ps' p p', l <> l' -> nth_error pss l = Some ps -> nth_error pss l' = Some ps' -> In p ps -> In p' ps' -> ~ in_conflict p p') ->
  admissible ex o ->
  forall c i, apply_pairs kernel (map pair_of o) st c i = apply_pairs kernel (flat_map (in_cells first last) pss) st c i.
Proof.
  intros Hd F Hls Hr E X A. destruct (set_lists _ _ _ _ F) as [oss [F' [L I]]].
  destruct (orders d cc lists oss Hd F' ls first last k cpu ex Hls Hr E o A) as [P O].
  set (L1 := flat_map (fun l => tagged first last l (nth l pss [])) (seq 0 (length pss))).
  assert (Pm : Permutation (map mark_call o) (map mark L1)).
  { rewrite P. unfold all_calls, L1. rewrite !map_flat_map, L. apply Permutation_flat_map_ext. intros l Hl. apply in_seq in Hl.
    destruct (nth_error_lt_some pss l) as [ps Hps]; [lia|]. destruct (I l ps Hps) as [h [E1 [E2 [E3 E4]]]].
    cbv zeta. rewrite E4. rewrite (nth_error_nth _ _ _ Hps). apply list_marks; auto. }
  apply Permutation_map_inv in Pm as [L2 [M P2]].
  assert (Mo : map pair_of o = map act L2).
  { transitivity (map snd (map mark_call o)); [rewrite map_map; auto|]. rewrite M, map_map. auto. }
  assert (Info : forall x, In x L1 -> exists ps, nth_error pss (fst x) = Some ps /\
     nth_error ps (fst (snd x)) = Some (fst (snd (snd x))) /\ nth_error (wave_list ps) (fst (snd x)) = Some (snd (snd (snd x)))).
  { intros x Hx. apply in_flat_map in Hx as [l [Hl Hx]]. apply in_seq in Hl. destruct (nth_error_lt_some pss l) as [ps Hps]; [lia|].
    rewrite (nth_error_nth _ _ _ Hps) in Hx. apply tagged_in in Hx as [-> Hx]. exists ps. auto. }
  rewrite Mo. intros c i. rewrite (trace_equal kernel act prior L1 L2); auto.
  - f_equal. unfold L1. rewrite map_flat_map. rewrite (flat_map_ext _ (fun l => in_cells first last (nth l pss []))) by (intros; apply tagged_act).
    rewrite (flat_map_nth (in_cells first last)). auto.
  - apply fop_flat_map; [intros; apply tagged_fop|]. apply (fop_impl lt); [|apply seq_fop]. intros a b _ _ Hab x y Hx Hy.
    apply tagged_in in Hx as [Hx _], Hy as [Hy _]. left. lia.
  - assert (O2 : ForallOrdPairs (fun x y => fst x = fst y -> fst (fst (snd (snd x))) = fst (fst (snd (snd y))) -> snd (snd (snd x)) <= snd (snd (snd y))) L2).
    { assert (G : ForallOrdPairs (fun a b : (nat * nat) * (nat * (nat * nat)) => fst (fst a) = fst (fst b) -> fst (snd a) = fst (snd b) -> snd (fst a) <= snd (fst b)) (map mark_call o)).
      { apply fop_map. exact O. }
      rewrite M in G. apply fop_map in G. exact G. }
    apply (fop_impl (fun x y => fst x = fst y -> fst (fst (snd (snd x))) = fst (fst (snd (snd y))) -> snd (snd (snd x)) <= snd (snd (snd y)))); auto.
    intros x y Hx Hy W Cf Pr. apply act_conflict in Cf.
    destruct (Info x) as [ps [X1 [X2 X3]]]; [eapply Permutation_in; [apply Permutation_sym|]; eauto|].
    destruct (Info y) as [ps' [Y1 [Y2 Y3]]]; [eapply Permutation_in; [apply Permutation_sym|]; eauto|].
    unfold prior, push in *. destruct (Nat.eq_dec (fst x) (fst y)) as [Q|Q].
    + assert (ps' = ps) as -> by (assert (Z : nth_error pss (fst x) = Some ps') by (rewrite Q; exact Y1); pose proof (eq_trans (eq_sym X1) Z) as Z2; injection Z2 as Z2; auto). destruct Pr as [Pr|[_ Pr]]; [lia|].
      pose proof (conflict_order ps _ _ _ _ _ _ Y2 X2 Y3 X3 Pr (in_conflict_sym _ _ Cf)). specialize (W Q (proj1 Cf)). lia.
    + apply (X _ _ _ _ _ _ Q X1 Y1 (nth_error_In _ _ X2) (nth_error_In _ _ Y2) Cf).
Qed.
