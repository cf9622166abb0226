(** Proofs about the operations that work cell by cell. *)
From Coq Require Import List Arith Bool Permutation Lia.
Import ListNotations.
From Verif Require Import Base Kernel CellDat_Model CellConst_Model CellConst_Proofs Cellwise_Model Cellwise_Spec.

Lemma lin_inj n m c j i c' j' i' : i < n -> i' < n -> j < m -> j' < m -> n * j + i + c * n * m = n * j' + i' + c' * n * m -> c = c' /\ j = j' /\ i = i'.
Proof.
  intros Hi Hi' Hj Hj' E. assert (E' : (c * m + j) * n + i = (c' * m + j') * n + i') by nia.
  assert (c * m + j = c' * m + j' /\ i = i') as (A & B). { assert (P : c * m + j = c' * m + j') by (apply (f_equal (fun z => z / n)) in E'; rewrite !Nat.div_add_l, !Nat.div_small in E' by lia; lia). split; [exact P|]. rewrite P in E'. lia. }
  assert (c = c') by (apply (f_equal (fun z => z / m)) in A; rewrite !Nat.div_add_l, !Nat.div_small in A by lia; lia). subst. repeat split; lia.
Qed.
Lemma lin_lt n m q c j i : i < n -> j < m -> c < q -> n * j + i + c * n * m < q * n * m.
Proof. intros. assert (n * j + i < n * m) by nia. assert (c * n * m + n * m <= q * n * m) by nia. lia. Qed.

Lemma in_range3 a b c i j k : In (i, j, k) (range3 a b c) <-> i < a /\ j < b /\ k < c.
Proof.
  unfold range3. rewrite in_flat_map. split.
  - intros (x & Hx & H). apply in_flat_map in H. destruct H as (y & Hy & H). apply in_map_iff in H. destruct H as (z & E & Hz). inversion E; subst. apply in_seq in Hx, Hy, Hz. lia.
  - intros (A & B & C). exists i. split; [apply in_seq; lia|]. apply in_flat_map. exists j. split; [apply in_seq; lia|]. apply in_map_iff. exists k. split; [reflexivity|apply in_seq; lia].
Qed.
Lemma range3_nodup a b c : NoDup (range3 a b c).
Proof.
  unfold range3. apply NoDup_flat_map.
  - apply seq_NoDup.
  - intros i _. apply NoDup_flat_map.
    + apply seq_NoDup.
    + intros j _. apply FinFun.Injective_map_NoDup; [|apply seq_NoDup]. intros x y E. congruence.
    + intros j j' z _ _ H H'. apply in_map_iff in H, H'. destruct H as (? & <- & _), H' as (? & E & _). congruence.
  - intros i i' z _ _ H H'. apply in_flat_map in H, H'. destruct H as (? & _ & H), H' as (? & _ & H'). apply in_map_iff in H, H'. destruct H as (? & <- & _), H' as (? & E & _). congruence.
Qed.

Section EW.
  Context {T : Type}.
  Lemma check_fits (r x : cell_const T) : fits r x -> check_arg r x = Some (negb (one_by_one r) && one_by_one x).
  Proof.
    intros (A & B). unfold check_arg. rewrite A, Nat.eqb_refl. cbn [assert obind]. destruct (negb (one_by_one r) && one_by_one x) eqn:E; [reflexivity|].
    assert (cc_nrow x = cc_nrow r /\ cc_ncol x = cc_ncol r) as (-> & ->). { destruct B as [(B1 & B2)|B]; [|exact B]. unfold one_by_one in E. rewrite B1, B2 in E. cbn [Nat.eqb andb] in E. rewrite andb_true_r in E. apply negb_false_iff, andb_true_iff in E. destruct E as (E1 & E2). apply Nat.eqb_eq in E1, E2. lia. }
    rewrite !Nat.eqb_refl. reflexivity.
  Qed.
  Lemma check_misfit (r x : cell_const T) b : check_arg r x = Some b -> fits r x.
  Proof.
    unfold check_arg, assert, fits. destruct (Nat.eqb_spec (cc_ncells x) (cc_ncells r)); cbn [obind]; [|discriminate]. destruct (negb (one_by_one r) && one_by_one x) eqn:E.
    - intros _. apply andb_true_iff in E. destruct E as (_ & E). unfold one_by_one in E. apply andb_true_iff in E. destruct E as (E1 & E2). apply Nat.eqb_eq in E1, E2. auto.
    - destruct (Nat.eqb_spec (cc_nrow x) (cc_nrow r)); cbn [obind]; [|discriminate]. destruct (Nat.eqb_spec (cc_ncol x) (cc_ncol r)); cbn [obind]; [|discriminate]. auto.
  Qed.

  Variables (kernel : list T -> T) (s : list (cell_const T)) (result : nat) (args : list nat) (r : cell_const T) (br : bool).
  Hypothesis Hv : Forall cc_valid s.
  Hypothesis Hr : nth_error s result = Some r.
  Hypothesis Hargs : forall a, In a args -> exists x, nth_error s a = Some x /\ fits r x.
  Hypothesis Hbr : br = existsb (fun a => match nth_error s a with Some x => negb (one_by_one r) && one_by_one x | None => false end) args.

  Let n := cc_nrow r. Let m := cc_ncol r. Let q := cc_ncells r.
  Definition lin (it : nat * nat * nat) : nat := let '(c, j, i) := it in cc_nrow r * j + i + c * cc_nrow r * cc_ncol r.
  Definition good (it : nat * nat * nat) : Prop := let '(c, j, i) := it in c < q /\ j < m /\ i < n.

  Lemma operand_exists a it : In a args -> good it -> exists x v, nth_error s a = Some x /\ operand x (fst (fst it)) (snd it) (snd (fst it)) = Some v.
  Proof.
    intros Ia G. destruct it as ((c, j), i). cbn [fst snd good] in *. destruct G as (Gc & Gj & Gi). destruct (Hargs a Ia) as (x & Ex & Fc & F). exists x. pose proof (proj1 (Forall_forall _ _) Hv x (nth_error_In _ _ Ex)) as V. unfold cc_valid in V. unfold operand, cc_get_value, rd, cc_stride.
    destruct ((cc_nrow x =? 1) && (cc_ncol x =? 1)) eqn:E.
    - apply andb_true_iff in E. destruct E as (E1 & E2). apply Nat.eqb_eq in E1, E2. rewrite E1, E2 in *. destruct (nth_error (cc_data x) (c * (1 * 1) + 0 * 1 + 0)) eqn:N; [eauto|]. apply nth_error_None in N. fold q in Fc. lia.
    - assert (cc_nrow x = n /\ cc_ncol x = m) as (A & B). { destruct F as [(F1 & F2)|F]; [|exact F]. rewrite F1, F2 in E. discriminate. }
      rewrite A, B in *. destruct (nth_error (cc_data x) (c * (n * m) + j * n + i)) eqn:N; [eauto|]. apply nth_error_None in N. pose proof (lin_lt n m q c j i Gi Gj Gc). fold q in Fc. nia.
  Qed.

  (** The values of all arguments for an element. *)
  Definition opv (it : nat * nat * nat) (a : nat) : option T := x <- nth_error s a ;; operand x (fst (fst it)) (snd it) (snd (fst it)).
  Lemma vals_ok it : good it -> exists vs, mapM (opv it) args = Some vs.
  Proof. intros G. apply mapM_total. intros a Ia. destruct (operand_exists a it Ia G) as (x & v & Ex & Ev). exists v. unfold opv. rewrite Ex. exact Ev. Qed.

  (** The objects after the items [pre]. *)
  Definition st (pre : list (nat * nat * nat)) (s' : list (cell_const T)) : Prop :=
    length s' = length s /\ (forall k, k <> result -> nth_error s' k = nth_error s k) /\
    exists r', nth_error s' result = Some r' /\ same_shape r' r /\ length (cc_data r') = length (cc_data r) /\
      (forall it, In it pre -> good it -> exists vs, mapM (opv it) args = Some vs /\ nth_error (cc_data r') (lin it) = Some (kernel vs)) /\
      (forall it, good it -> ~ In it pre -> nth_error (cc_data r') (lin it) = nth_error (cc_data r) (lin it)).

  Lemma lin_good it it' : good it -> good it' -> lin it = lin it' -> it = it'.
  Proof. destruct it as ((c, j), i), it' as ((c', j'), i'). unfold good, lin. intros (A & B & C) (A' & B' & C') E. destruct (lin_inj (cc_nrow r) (cc_ncol r) c j i c' j' i') as (-> & -> & ->); auto. Qed.

  Lemma get_ok pre s' it a : st pre s' -> good it -> ~ In it pre -> In a args -> get_element br (lin it) (fst (fst it)) s' a = opv it a.
  Proof.
    intros (L & Ho & r' & Er' & (S1 & S2 & S3) & Ld & W & K) G NI Ia. destruct (Hargs a Ia) as (x & Ex & Fc & F). unfold get_element, opv, rd. rewrite Ex. cbn [obind].
    assert (OB : one_by_one x = true -> one_by_one r = false -> br = true). { intros O1 O2. rewrite Hbr. apply existsb_exists. exists a. split; [exact Ia|]. rewrite Ex, O1, O2. reflexivity. }
    assert (OR : br = true -> one_by_one r = false). { intros B. rewrite Hbr in B. apply existsb_exists in B. destruct B as (b & _ & B). destruct (nth_error s b); [|discriminate]. apply andb_true_iff in B. apply negb_true_iff. tauto. }
    assert (IDX : cc_get_value x (fst (fst it)) (snd it) (snd (fst it)) = nth_error (cc_data x) (fst (fst it) * (cc_nrow x * cc_ncol x) + snd (fst it) * cc_nrow x + snd it)) by reflexivity.
    assert (LX : one_by_one x = false -> nth_error (cc_data x) (lin it) = operand x (fst (fst it)) (snd it) (snd (fst it))).
    { intros O. unfold operand. unfold one_by_one in O. rewrite O, IDX. f_equal. assert (cc_nrow x = n /\ cc_ncol x = m) as (A & B). { destruct F as [(F1 & F2)|F]; [|exact F]. rewrite F1, F2 in O. discriminate. } rewrite A, B. destruct it as ((c, j), i). cbn [lin fst snd]. unfold n, m. lia. }
    destruct (Nat.eq_dec a result) as [->|NA].
    - rewrite Hr in Ex. inversion Ex; subst x. rewrite Er'. cbn [obind]. assert (OE : one_by_one r' = one_by_one r) by (unfold one_by_one; rewrite S2, S3; reflexivity). rewrite OE.
      assert (V : nth_error (cc_data r') (lin it) = operand r (fst (fst it)) (snd it) (snd (fst it))).
      { rewrite (K it G NI). destruct (one_by_one r) eqn:O; [|apply LX; reflexivity]. unfold operand. unfold one_by_one in O. rewrite O. apply andb_true_iff in O. destruct O as (O1 & O2). apply Nat.eqb_eq in O1, O2. unfold cc_get_value, cc_stride, rd. f_equal. destruct it as ((c, j), i). cbn [lin fst snd good] in *. unfold q, n, m in G. rewrite O1, O2 in *. lia. }
      destruct br; [|exact V]. rewrite (OR eq_refl). cbn [Nat.mul Nat.sub Nat.add]. rewrite Nat.add_0_r. exact V.
    - rewrite (Ho a NA), Ex. cbn [obind]. destruct (one_by_one x) eqn:O.
      + assert (V : nth_error (cc_data x) (fst (fst it)) = operand x (fst (fst it)) (snd it) (snd (fst it))). { unfold operand. unfold one_by_one in O. rewrite O. apply andb_true_iff in O. destruct O as (O1 & O2). apply Nat.eqb_eq in O1, O2. unfold cc_get_value, cc_stride, rd. rewrite O1, O2. f_equal. lia. }
        destruct br eqn:B; [cbn [Nat.mul Nat.sub]; rewrite !Nat.add_0_r; exact V|]. destruct (one_by_one r) eqn:R; [|specialize (OB eq_refl eq_refl); discriminate]. rewrite <- V. f_equal. unfold one_by_one in R. apply andb_true_iff in R. destruct R as (O1 & O2). apply Nat.eqb_eq in O1, O2. destruct it as ((c, j), i). cbn [lin fst snd good] in *. unfold q, n, m in G. rewrite O1, O2 in *. lia.
      + rewrite <- (LX eq_refl). destruct br; [|reflexivity]. cbn [Nat.mul Nat.sub Nat.add]. rewrite Nat.add_0_r. reflexivity.
  Qed.

  Lemma item_ok pre s' it : st pre s' -> good it -> ~ In it pre -> exists s2, element_item br kernel (cc_nrow r) (cc_ncol r) result args s' it = Some s2 /\ st (pre ++ [it]) s2.
  Proof.
    intros St G NI. destruct (vals_ok it G) as (vs & Evs). pose proof St as (L & Ho & r' & Er' & (S1 & S2 & S3) & Ld & W & K).
    assert (M : mapM (get_element br (lin it) (fst (fst it)) s') args = Some vs) by (rewrite <- Evs; apply mapM_ext_in; intros a Ia; apply get_ok with pre; assumption).
    assert (LL : lin it < length (cc_data r')). { rewrite Ld. pose proof (proj1 (Forall_forall _ _) Hv r (nth_error_In _ _ Hr)) as V. unfold cc_valid in V. rewrite V. destruct it as ((c, j), i). destruct G as (A & B & C). apply lin_lt; assumption. }
    destruct (upd_some (cc_data r') (lin it) (kernel vs) LL) as (data & Ed). assert (LR : result < length s') by (apply nth_error_Some; rewrite Er'; discriminate). destruct (upd_some s' result (cc_with r' data) LR) as (s2 & E2).
    exists s2. split.
    - unfold element_item. destruct it as ((c, j), i). cbn [fst] in M. change (cc_nrow r * j + i + c * cc_nrow r * cc_ncol r) with (lin (c, j, i)). rewrite M. cbn [obind]. unfold rd at 1. rewrite Er'. cbn [obind]. rewrite Ed. cbn [obind]. exact E2.
    - split; [rewrite (upd_length _ _ _ _ E2); exact L|]. split.
      + intros k Hk. rewrite (upd_nth _ _ _ _ k E2). destruct (Nat.eqb_spec k result); [contradiction|]. apply Ho. exact Hk.
      + exists (cc_with r' data). split; [rewrite (upd_nth _ _ _ _ result E2), Nat.eqb_refl; reflexivity|]. split; [split; [exact S1|split; [exact S2|exact S3]]|]. cbn [cc_with cc_data]. split; [rewrite (upd_length _ _ _ _ Ed); exact Ld|]. split.
        * intros it' I' G'. apply in_app_or in I'. rewrite (upd_nth _ _ _ _ _ Ed). destruct (Nat.eqb_spec (lin it') (lin it)) as [E|E].
          -- apply lin_good in E; [|assumption|assumption]. subst it'. exists vs. split; [exact Evs|reflexivity].
          -- destruct I' as [I'|[<-|[]]]; [|contradiction]. apply W; assumption.
        * intros it' G' N'. rewrite (upd_nth _ _ _ _ _ Ed). destruct (Nat.eqb_spec (lin it') (lin it)) as [E|E].
          -- exfalso. apply lin_good in E; [|assumption|assumption]. subst. apply N', in_or_app. right. left. reflexivity.
          -- apply K; [exact G'|]. intros X. apply N', in_or_app. left. exact X.
  Qed.

  Lemma items_ok sched : (forall it, In it sched -> good it) -> NoDup sched -> exists s', foldM (element_item br kernel (cc_nrow r) (cc_ncol r) result args) s sched = Some s' /\ st sched s'.
  Proof.
    intros Hg ND. apply foldM_ind.
    - split; [reflexivity|]. split; [reflexivity|]. exists r. split; [exact Hr|]. split; [repeat split|]. split; [reflexivity|]. split; [intros it []|]. reflexivity.
    - intros pre it post s' E St. apply item_ok; [exact St|apply Hg; rewrite E; apply in_or_app; right; left; reflexivity|]. intros X. rewrite E in ND. apply NoDup_remove_2 in ND. apply ND, in_or_app. left. exact X.
  Qed.
End EW.
