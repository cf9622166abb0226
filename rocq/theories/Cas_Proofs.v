(** Lemmas about the compare-and-swap loops. *)
From Coq Require Import List Arith Bool Permutation Lia.
Import ListNotations.
From Verif Require Import Base DeviceFn_Model DeviceFn_Spec.

Section CAS.
Context {T : Type} (ltb : T -> T -> bool).
Hypothesis ord : total_order ltb.

Lemma eqb_true a b : eqb ltb a b = true <-> a = b.
Proof.
  destruct ord as [Ir [_ Tot]]. unfold eqb. rewrite andb_true_iff, !negb_true_iff. split.
  - intros [? ?]; auto.
  - intros ->; auto.
Qed.

Lemma asym a b : ltb a b = true -> ltb b a = false.
Proof.
  destruct ord as [Ir [Tr _]]. intros H. destruct (ltb b a) eqn:E; auto.
  rewrite <- (Ir a). symmetry. eauto.
Qed.

Definition atomic (o : op) (m v : T) : T := match o with Max => maximum ltb m v | Min => minimum ltb m v end.

Lemma iteration_correct o v m e m' it : iteration ltb o v m e = (m', it) ->
  match it with
  | Returned r => r = m /\ m' = atomic o m v
  | Trying e' => m' = m /\ e' = m /\ e <> m
  end.
Proof.
  destruct ord as [Ir [Tr Tot]]. unfold iteration. destruct (eqb ltb m e) eqn:E.
  - apply eqb_true in E. subst e. intros [= <- <-]. split; auto.
    destruct o; cbn; unfold maximum, minimum.
    + destruct (ltb v m) eqn:A; [rewrite asym; auto|]. destruct (ltb m v) eqn:B; auto.
    + destruct (ltb m v) eqn:A; [rewrite asym; auto|]. destruct (ltb v m) eqn:B; auto.
  - assert (e <> m) by (intros ->; rewrite (proj2 (eqb_true m m) eq_refl) in E; discriminate).
    destruct (retry ltb o v m) eqn:R; intros [= <- <-]; auto. split; auto.
    destruct o; cbn in *; unfold maximum, minimum; rewrite R; auto.
Qed.

Lemma seq_app ops m l1 l2 f : sequentially ltb ops m (l1 ++ l2) f <->
  exists m', sequentially ltb ops m l1 m' /\ sequentially ltb ops m' l2 f.
Proof.
  revert m; induction l1 as [|[i r|x] l1 IH]; intros m; cbn.
  - split; [intros H; exists m; auto|intros [m' [-> H]]; auto].
  - split.
    + intros [E [o [v [Ho H]]]]. apply IH in H. destruct H as [m' [H1 H2]]. exists m'; split; eauto.
    + intros [m' [[E [o [v [Ho H]]]] H2]]. split; auto. exists o, v; split; auto. apply IH; eauto.
  - apply IH.
Qed.

(** The number of remaining iterations is bounded. *)
Definition trying (it : item T) : bool := match it with Trying _ => true | Returned _ => false end.
Definition stale (m : T) (it : item T) : nat :=
  match it with Trying e => if eqb ltb m e then 0 else 1 | Returned _ => 0 end.
Definition active (l : list (item T)) : nat := length (filter trying l).
Definition measure (s : state T) : nat :=
  active (items s) * (1 + active (items s)) + list_sum (map (stale (mem s)) (items s)).

Variable ops : list (op * T).
Variable m0 : T.

Definition good (s : state T) : Prop :=
  length (items s) = length ops /\
  sequentially ltb ops m0 (log s) (mem s) /\
  NoDup (returns_of (log s)) /\
  (forall i r, In (Return i r) (log s) -> nth_error (items s) i = Some (Returned r)) /\
  (forall i r, nth_error (items s) i = Some (Returned r) -> In (Return i r) (log s)).

Lemma returns_app (l1 l2 : list (event T)) : returns_of (l1 ++ l2) = returns_of l1 ++ returns_of l2.
Proof. unfold returns_of. apply flat_map_app. Qed.

Lemma in_returns (l : list (event T)) i : In i (returns_of l) -> exists r, In (Return i r) l.
Proof.
  unfold returns_of. rewrite in_flat_map. intros [[j r|x] [H1 H2]]; cbn in H2; [|tauto].
  destruct H2 as [<-|[]]. eauto.
Qed.

Lemma good_act s a s' : good s -> act ltb ops s a = Some s' -> good s'.
Proof.
  intros (L & Hs & ND & R1 & R2) E. destruct a as [i|x]; cbn [act] in E.
  - unfold rd in E. destruct (nth_error ops i) as [[o v]|] eqn:Eo; [|discriminate]. cbn [obind] in E.
    destruct (nth_error (items s) i) as [[e|r]|] eqn:Ei; try discriminate. cbn [obind fst snd] in E.
    destruct (iteration ltb o v (mem s) e) as [m' it'] eqn:It.
    destruct (upd (items s) i it') as [its'|] eqn:Eu; [|discriminate]. cbn [obind] in E. injection E as <-.
    apply iteration_correct in It. unfold good; cbn [items mem log].
    assert (Gi : forall j, nth_error its' j = if j =? i then Some it' else nth_error (items s) j) by (intros j; apply (upd_nth _ _ _ _ j Eu)).
    split; [rewrite (upd_length _ _ _ _ Eu); auto|].
    destruct it' as [e'|r].
    + destruct It as [-> [-> N]]. rewrite app_nil_r. split; [auto|]. split; [auto|]. split.
      * intros j r H. rewrite Gi. destruct (Nat.eqb_spec j i) as [->|]; auto. apply R1 in H. congruence.
      * intros j r. rewrite Gi. destruct (Nat.eqb_spec j i) as [->|]; [discriminate|auto].
    + destruct It as [-> ->]. split; [|split; [|split]].
      * apply seq_app. exists (mem s); split; auto. cbn. split; auto. exists o, v; split; auto. 
      * rewrite returns_app; cbn. apply (Permutation_NoDup (l := i :: returns_of (log s))); [apply Permutation_cons_append|].
        constructor; auto. intros H. apply in_returns in H. destruct H as [r H]. apply R1 in H. congruence.
      * intros j r. rewrite in_app_iff, Gi. intros [H|[H|[]]].
        -- destruct (Nat.eqb_spec j i) as [->|]; auto. apply R1 in H. congruence.
        -- injection H as -> <-. rewrite Nat.eqb_refl; auto.
      * intros j r. rewrite Gi, in_app_iff. destruct (Nat.eqb_spec j i) as [->|]; [|auto]. intros [= <-]. right; left; auto.
  - injection E as <-. unfold good; cbn [items mem log]. split; auto. split; [apply seq_app; exists (mem s); split; auto; cbn; auto|].
    rewrite returns_app; cbn [returns_of flat_map]. rewrite app_nil_r. split; auto. split.
    + intros j r. rewrite in_app_iff. intros [H|[H|[]]]; [auto|discriminate].
    + intros j r H. rewrite in_app_iff. left; auto.
Qed.

Lemma good_start a b : good (start a b ops m0).
Proof.
  unfold good, start; cbn. rewrite map_length. repeat split; auto.
  - constructor.
  - intros i r []. 
  - intros i r. rewrite nth_error_map. destruct (nth_error ops i); cbn; discriminate.
Qed.

Lemma good_execute a b acts s : execute ltb a b ops m0 acts = Some s -> good s.
Proof.
  unfold execute. pose proof (good_start a b) as G. revert G. generalize (start a b ops m0).
  induction acts as [|x acts IH]; intros s0 G; cbn [foldM].
  - intros [= <-]; auto.
  - destruct (act ltb ops s0 x) as [s1|] eqn:E; [|discriminate]. cbn [obind]. apply IH. eapply good_act; eauto.
Qed.

(** Termination. *)
Lemma filter_upd (l l' : list (item T)) i e it : nth_error l i = Some (Trying e) -> upd l i it = Some l' ->
  active l' + 1 = active l + (if trying it then 1 else 0).
Proof.
  unfold active. revert l' i; induction l as [|x l IH]; intros l' [|i] Hi Hu; try discriminate; cbn in Hu.
  - injection Hu as <-. injection Hi as ->. cbn. destruct (trying it); cbn [length]; lia.
  - destruct (upd l i it) as [r|] eqn:E; [|discriminate]. injection Hu as <-. cbn in Hi. specialize (IH _ _ Hi E).
    cbn [filter]. destruct (trying x); cbn [length]; lia.
Qed.

Lemma stale_le m l : list_sum (map (stale m) l) <= active l.
Proof.
  unfold active, list_sum. induction l as [|[e|r] l IH]; cbn [map filter fold_right trying stale length]; try lia.
  destruct (eqb ltb m e); lia.
Qed.

Lemma stale_upd m (l l' : list (item T)) i x it : nth_error l i = Some x -> upd l i it = Some l' ->
  list_sum (map (stale m) l') + stale m x = list_sum (map (stale m) l) + stale m it.
Proof.
  revert l' i; induction l as [|y l IH]; intros l' [|i] Hi Hu; try discriminate; cbn in Hu.
  - injection Hu as <-. injection Hi as ->. unfold list_sum. cbn [map fold_right]. lia.
  - destruct (upd l i it) as [r|] eqn:E; [|discriminate]. injection Hu as <-. cbn in Hi. specialize (IH _ _ Hi E).
    unfold list_sum in *. cbn [map fold_right]. lia.
Qed.

Lemma measure_step s i s' : act ltb ops s (Step i) = Some s' -> measure s' < measure s.
Proof.
  cbn [act]. unfold rd. destruct (nth_error ops i) as [[o v]|] eqn:Eo; [|discriminate]. cbn [obind].
  destruct (nth_error (items s) i) as [[e|r]|] eqn:Ei; try discriminate. cbn [obind fst snd].
  destruct (iteration ltb o v (mem s) e) as [m' it'] eqn:It.
  destruct (upd (items s) i it') as [its'|] eqn:Eu; [|discriminate]. cbn [obind]. intros [= <-].
  apply iteration_correct in It. unfold measure; cbn [items mem].
  pose proof (filter_upd _ _ _ _ _ Ei Eu) as Hf. pose proof (stale_upd m' _ _ _ _ _ Ei Eu) as Hst.
  destruct it' as [e'|r]; cbn [trying] in Hf.
  - destruct It as [-> [-> N]]. assert (active its' = active (items s)) by lia. rewrite H.
    cbn [stale] in Hst. rewrite (proj2 (eqb_true _ _) eq_refl) in Hst.
    destruct (eqb ltb (mem s) e) eqn:Q; [apply eqb_true in Q; congruence|]. lia.
  - pose proof (stale_le m' its'). pose proof (stale_le (mem s) (items s)). nia.
Qed.

Lemma measure_bound a b : measure (start a b ops m0) <= length ops * (length ops + 2).
Proof.
  unfold measure, start; cbn [items mem].
  pose proof (stale_le m0 (map (fun ov : op * T => Trying (match fst ov with Max => a | Min => b end)) ops)) as H.
  assert (A : active (map (fun ov : op * T => Trying (match fst ov with Max => a | Min => b end)) ops) = length ops).
  { unfold active. clear. induction ops as [|x l IH]; cbn; auto. }
  rewrite A in *. nia.
Qed.

Definition is_step (x : action T) : bool := match x with Step _ => true | Store _ => false end.

Lemma steps_bound acts : forall s s', forallb is_step acts = true -> foldM (act ltb ops) s acts = Some s' ->
  length acts + measure s' <= measure s.
Proof.
  induction acts as [|[i|x] acts IH]; intros s s' Ha E; cbn in Ha; try discriminate; cbn [foldM] in E.
  - injection E as <-. cbn; lia.
  - destruct (act ltb ops s (Step i)) as [s1|] eqn:E1; [|discriminate]. cbn [obind] in E.
    specialize (IH _ _ Ha E). apply measure_step in E1. cbn; lia.
Qed.

Lemma can_step s : good s -> (exists i e, nth_error (items s) i = Some (Trying e)) ->
  exists i s', act ltb ops s (Step i) = Some s'.
Proof.
  intros (L & _) [i [e Hi]]. exists i. cbn [act]. unfold rd. pose proof (nth_error_some_lt _ _ _ Hi) as Li.
  rewrite L in Li. destruct (nth_error_lt_some _ _ Li) as [[o v] Eo]. rewrite Eo, Hi; cbn [obind fst snd].
  destruct (iteration ltb o v (mem s) e) as [m' it']. destruct (upd_some (items s) i it') as [its' E]; [lia|].
  rewrite E; cbn [obind]. eauto.
Qed.

(** The maximum of all contributions. *)
Lemma maximum_ge a b : ltb (maximum ltb a b) a = false /\ ltb (maximum ltb a b) b = false.
Proof.
  destruct ord as [Ir _]. unfold maximum. destruct (ltb a b) eqn:E; split; auto.
  apply asym; auto.
Qed.
Lemma not_lt_trans a b c : ltb a b = false -> ltb b c = false -> ltb a c = false.
Proof.
  destruct ord as [Ir [Tr Tot]]. intros H1 H2. destruct (ltb a c) eqn:E; auto.
  destruct (ltb b a) eqn:E1; [rewrite <- H2; symmetry; eauto|].
  assert (a = b) by auto. subst. congruence.
Qed.

Lemma seq_max l : forall m f, (forall i o v, In i (returns_of l) -> nth_error ops i = Some (o, v) -> o = Max) ->
  (forall x, ~ In (Stored x) l) -> sequentially ltb ops m l f ->
  ltb f m = false /\ (f = m \/ exists i, In i (returns_of l) /\ nth_error ops i = Some (Max, f)) /\
  (forall i v, In i (returns_of l) -> nth_error ops i = Some (Max, v) -> ltb f v = false).
Proof.
  induction l as [|[i r|x] l IH]; intros m f Hm Hs H; cbn in H.
  - subst f. split; [apply ord|]. split; [auto|]. intros i v [].
  - destruct H as [-> [o [v [Ho H]]]]. assert (o = Max) by (apply (Hm i o v); auto; left; auto). subst o.
    destruct (IH _ _ (fun j o' v' Hj => Hm j o' v' (or_intror Hj)) (fun x Hx => Hs x (or_intror Hx)) H) as [H1 [H2 H3]].
    destruct (maximum_ge m v) as [G1 G2]. split; [eapply not_lt_trans; eauto|]. split.
    + destruct H2 as [->|[j [Hj Ej]]]; [|right; exists j; split; auto; right; auto].
      unfold maximum. destruct (ltb m v); [right; exists i; split; [left; auto|auto]|left; auto].
    + intros j w [<-|Hj] Ej; [|eauto]. assert (w = v) by congruence. subst. eapply not_lt_trans; eauto.
  - exfalso; apply (Hs x); left; auto.
Qed.
Lemma minimum_le a b : ltb a (minimum ltb a b) = false /\ ltb b (minimum ltb a b) = false.
Proof.
  destruct ord as [Ir _]. unfold minimum. destruct (ltb b a) eqn:E; split; auto.
  apply asym; auto.
Qed.
Lemma seq_min l : forall m f, (forall i o v, In i (returns_of l) -> nth_error ops i = Some (o, v) -> o = Min) ->
  (forall x, ~ In (Stored x) l) -> sequentially ltb ops m l f ->
  ltb m f = false /\ (f = m \/ exists i, In i (returns_of l) /\ nth_error ops i = Some (Min, f)) /\
  (forall i v, In i (returns_of l) -> nth_error ops i = Some (Min, v) -> ltb v f = false).
Proof.
  induction l as [|[i r|x] l IH]; intros m f Hm Hs H; cbn in H.
  - subst f. split; [apply ord|]. split; [auto|]. intros i v [].
  - destruct H as [-> [o [v [Ho H]]]]. assert (o = Min) by (apply (Hm i o v); auto; left; auto). subst o.
    destruct (IH _ _ (fun j o' v' Hj => Hm j o' v' (or_intror Hj)) (fun x Hx => Hs x (or_intror Hx)) H) as [H1 [H2 H3]].
    destruct (minimum_le m v) as [G1 G2]. split; [eapply not_lt_trans; [exact G1|exact H1]|]. split.
    + destruct H2 as [->|[j [Hj Ej]]]; [|right; exists j; split; auto; right; auto].
      unfold minimum. destruct (ltb v m); [right; exists i; split; [left; auto|auto]|left; auto].
    + intros j w [<-|Hj] Ej; [|eauto]. assert (w = v) by congruence. subst. eapply not_lt_trans; eauto.
  - exfalso; apply (Hs x); left; auto.
Qed.

Lemma log_no_store acts : forall s s', forallb is_step acts = true -> foldM (act ltb ops) s acts = Some s' ->
  (forall x, ~ In (Stored x) (log s)) -> forall x, ~ In (Stored x) (log s').
Proof.
  induction acts as [|[i|y] acts IH]; intros s s' Ha E Hs; cbn in Ha; try discriminate; cbn [foldM] in E.
  - injection E as <-. auto.
  - destruct (act ltb ops s (Step i)) as [s1|] eqn:E1; [|discriminate]. cbn [obind] in E.
    apply (IH _ _ Ha E). cbn [act] in E1. unfold rd in E1. destruct (nth_error ops i) as [[o v]|]; [|discriminate]. cbn [obind] in E1.
    destruct (nth_error (items s) i) as [[e|r]|]; try discriminate. cbn [obind fst snd] in E1.
    destruct (iteration ltb o v (mem s) e) as [m' it']. destruct (upd (items s) i it'); [|discriminate]. cbn [obind] in E1.
    injection E1 as <-. cbn [log]. intros x. rewrite in_app_iff. intros [H|H]; [eapply Hs; eauto|].
    destruct it'; cbn in H; [tauto|]. destruct H as [H|[]]; discriminate.
Qed.
End CAS.
