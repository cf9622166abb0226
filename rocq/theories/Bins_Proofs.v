(** Sorting items into bins with atomic counters: the layer of an item is the value
    its atomic increment returns, and its place is the offset of the bin plus the
    layer.  No model definitions here. *)
From Coq Require Import List Arith Lia ZArith Bool Permutation.
Import ListNotations.
From Verif Require Import Base Kernel Scan_Spec Add_Proofs Depart_Proofs SubGroupSelect_Proofs.

Section Bins.
  Context (key : nat -> option nat).
  Definition in_bin (ix i : nat) : bool := match key i with Some x => x =? ix | None => false end.

  Definition bin_step (st : list nat * list nat) (i : nat) : option (list nat * list nat) :=
    match key i with
    | None => Some st
    | Some ix =>
        n <- rd (fst st) ix ;;
        c' <- upd (fst st) ix (n + 1) ;;
        l' <- upd (snd st) i n ;;
        Some (c', l')
    end.

  Lemma in_bin_key ix i : in_bin ix i = true <-> key i = Some ix.
  Proof.
    unfold in_bin. destruct (key i) as [x|]; [|split; discriminate].
    rewrite Nat.eqb_eq. split; [intros ->|intros [= ->]]; auto.
  Qed.

  Lemma bins_count K lay0 sched : NoDup sched -> (forall i, In i sched -> i < length lay0) ->
    (forall i ix, In i sched -> key i = Some ix -> ix < K) ->
    exists c l, foldM bin_step (repeat 0 K, lay0) sched = Some (c, l) /\ length c = K /\ length l = length lay0 /\
      (forall ix, ix < K -> nth_error c ix = Some (length (filter (in_bin ix) sched))) /\
      (forall ix j i, nth_error (filter (in_bin ix) sched) j = Some i -> nth_error l i = Some j).
  Proof.
    intros ND Hl HK.
    destruct (foldM_ind bin_step (fun pre st => length (fst st) = K /\ length (snd st) = length lay0 /\
      (forall ix, ix < K -> nth_error (fst st) ix = Some (length (filter (in_bin ix) pre))) /\
      (forall ix j i, nth_error (filter (in_bin ix) pre) j = Some i -> nth_error (snd st) i = Some j))
      sched (repeat 0 K, lay0)) as [[c l] [E [A [B [C D]]]]].
    - cbn [fst snd filter length]. split; [apply repeat_length|]. split; [reflexivity|]. split.
      + intros ix Hix. apply nth_error_repeat; auto.
      + intros ix [|j] i; discriminate.
    - intros pre i post [c l] Es [A [B [C D]]]. cbn [fst snd] in *.
      assert (Hi : In i sched) by (rewrite Es; apply in_or_app; cbn; auto).
      unfold bin_step; cbn [fst snd]. destruct (key i) as [ix|] eqn:Ek.
      + pose proof (HK i ix Hi Ek) as Hix. unfold rd. rewrite (C ix Hix); cbn [obind].
        destruct (upd_some c ix (length (filter (in_bin ix) pre) + 1)) as [c' Ec]; [lia|]. rewrite Ec; cbn [obind].
        destruct (upd_some l i (length (filter (in_bin ix) pre))) as [l' El]; [rewrite B; auto|]. rewrite El; cbn [obind].
        exists (c', l'). cbn [fst snd]. split; [reflexivity|].
        split; [rewrite (upd_length _ _ _ _ Ec); auto|]. split; [rewrite (upd_length _ _ _ _ El); auto|].
        assert (Hb : in_bin ix i = true) by (apply in_bin_key; auto).
        split.
        * intros x Hx. rewrite (upd_nth _ _ _ _ x Ec), filter_snoc, app_length.
          destruct (Nat.eqb_spec x ix) as [->|N].
          -- rewrite Hb. reflexivity.
          -- rewrite C by auto. assert (in_bin x i = false) as ->; [|cbn; f_equal; lia].
             destruct (in_bin x i) eqn:E; auto. apply in_bin_key in E. congruence.
        * intros x j y. rewrite filter_snoc. intros Hy.
          rewrite (upd_nth _ _ _ _ y El).
          destruct (Nat.lt_ge_cases j (length (filter (in_bin x) pre))) as [Hj|Hj].
          -- rewrite nth_error_app1 in Hy by auto.
             destruct (Nat.eqb_spec y i) as [->|N]; [|eauto].
             exfalso. apply nth_error_In, filter_In in Hy. rewrite Es in ND. apply NoDup_remove_2 in ND.
             apply ND, in_or_app. tauto.
          -- rewrite nth_error_app2 in Hy by auto. destruct (in_bin x i) eqn:E; [|destruct (j - _); discriminate].
             apply in_bin_key in E. assert (x = ix) by congruence. subst x.
             destruct (j - length (filter (in_bin ix) pre)) as [|q] eqn:Eq; [|destruct q; discriminate].
             injection Hy as <-. rewrite Nat.eqb_refl. f_equal. lia.
      + exists (c, l). cbn [fst snd]. split; [reflexivity|].
        assert (F : forall x, filter (in_bin x) (pre ++ [i]) = filter (in_bin x) pre).
        { intros x. rewrite filter_snoc. unfold in_bin at 2. rewrite Ek. apply app_nil_r. }
        repeat split; auto; intros x; [rewrite F|intros j y; rewrite F]; eauto.
    - exists c, l. auto.
  Qed.

  (** The offsets of the bins. *)
  Definition before (sched : list nat) (ix : nat) : nat :=
    list_sum (map (fun x => length (filter (in_bin x) sched)) (seq 0 ix)).

  Lemma before_S sched ix : before sched (S ix) = before sched ix + length (filter (in_bin ix) sched).
  Proof. unfold before. rewrite seq_S, map_app, list_sum_app. cbn. lia. Qed.
  Lemma before_mono sched ix ix' : ix < ix' -> before sched ix + length (filter (in_bin ix) sched) <= before sched ix'.
  Proof. intros H. rewrite <- before_S. induction H as [|m H IH]; [lia|]. rewrite (before_S sched m). lia. Qed.
  Lemma before_le sched K : before sched K <= length sched.
  Proof.
    induction sched as [|i l IH].
    - induction K; [reflexivity|]. rewrite before_S. cbn [filter length] in *. lia.
    - assert (before (i :: l) K <= before l K + 1 /\ (forall k, key i = Some k -> K <= k -> before (i :: l) K = before l K)) as [H _]; [|cbn [length]; lia].
      clear IH. induction K as [|K [IH1 IH2]]; [unfold before; cbn; split; intros; lia|].
      rewrite !before_S. cbn [filter].
      destruct (in_bin K i) eqn:E.
      + apply in_bin_key in E. pose proof (IH2 K E (le_n _)). cbn [length]. split; [lia|]. intros k Hk Hle. assert (k = K) by congruence. lia.
      + split; [lia|]. intros k Hk Hle. rewrite (IH2 k) by (auto; lia). reflexivity.
  Qed.

  Lemma before_total c sched K ix : length c = K -> ix <= K ->
    (forall x, x < K -> nth_error c x = Some (length (filter (in_bin x) sched))) ->
    total Nat.add 0 (firstn ix c) = before sched ix.
  Proof.
    intros Lc Hix C. unfold before, total.
    assert (firstn ix c = map (fun x => length (filter (in_bin x) sched)) (seq 0 ix)) as ->; [|reflexivity].
    apply nth_error_ext. intros x. rewrite nth_error_firstn, nth_error_map_seq.
    destruct (Nat.ltb_spec x ix); auto. rewrite C by lia. f_equal.
  Qed.

  Lemma bins_place {V} (val : nat -> V) (lay : nat -> nat) (place : list V -> nat -> option (list V)) sched sched' (e0 : list V) :
    NoDup sched -> Permutation sched' sched -> length sched <= length e0 ->
    (forall ix j i, nth_error (filter (in_bin ix) sched) j = Some i -> lay i = j) ->
    (forall e i, length e = length e0 -> In i sched -> place e i = match key i with
       | None => Some e
       | Some ix => upd e (before sched ix + lay i) (val i)
       end) ->
    exists e, foldM place e0 sched' = Some e /\ length e = length e0 /\
      forall ix j i, nth_error (filter (in_bin ix) sched) j = Some i -> nth_error e (before sched ix + j) = Some (val i).
  Proof.
    intros ND P Le Hlay Hp.
    assert (Hin : forall i, In i sched' -> In i sched) by (intros i; apply Permutation_in; auto).
    assert (Hpos : forall i ix, In i sched -> key i = Some ix ->
              nth_error (filter (in_bin ix) sched) (lay i) = Some i /\ lay i < length (filter (in_bin ix) sched)).
    { intros i ix Hi Ek. assert (In i (filter (in_bin ix) sched)) as H by (apply filter_In; split; auto; apply in_bin_key; auto).
      apply In_nth_error in H as [j Hj]. rewrite (Hlay _ _ _ Hj). split; auto. eapply nth_error_some_lt; eauto. }
    destruct (@foldM_kernel nat (list V) nat V place (fun e j => nth_error e j) (fun e => length e = length e0)
      (fun i j => match key i with Some ix => if j =? before sched ix + lay i then Some (val i) else None | None => None end)
      sched' e0 eq_refl) as [e [E [L [Wr _]]]].
    - intros e i Lx Hi. apply Hin in Hi. rewrite Hp by auto. destruct (key i) as [ix|] eqn:Ek.
      + destruct (Hpos i ix Hi Ek) as [_ Hlt].
        destruct (upd_some e (before sched ix + lay i) (val i)) as [e' Ee].
        { pose proof (before_le sched (S ix)) as H. rewrite before_S in H. lia. }
        exists e'. split; auto. split; [rewrite (upd_length _ _ _ _ Ee); auto|].
        intros j. rewrite (upd_nth _ _ _ _ j Ee). destruct (j =? _); auto.
      + exists e. auto.
    - intros i i' j v w Hi Hi'. apply Hin in Hi, Hi'.
      destruct (key i) as [ix|] eqn:Ek; [|discriminate]. destruct (key i') as [ix'|] eqn:Ek'; [|discriminate].
      destruct (Nat.eqb_spec j (before sched ix + lay i)) as [Ej|]; [|discriminate].
      destruct (Nat.eqb_spec j (before sched ix' + lay i')) as [Ej'|]; [|discriminate].
      intros [= <-] [= <-]. destruct (Hpos i ix Hi Ek) as [A B]. destruct (Hpos i' ix' Hi' Ek') as [A' B'].
      assert (ix = ix').
      { destruct (Nat.lt_trichotomy ix ix') as [H|[H|H]]; auto; apply (before_mono sched) in H; lia. }
      subst ix'. assert (lay i = lay i') as Hl by lia. rewrite Hl in A. congruence.
    - exists e. split; auto. split; auto. intros ix j i Hj.
      pose proof (Hlay _ _ _ Hj) as Hl. pose proof (nth_error_In _ _ Hj) as Hi. apply filter_In in Hi as [Hi Hb].
      apply in_bin_key in Hb. apply (Wr i).
      + eapply Permutation_in; [symmetry; exact P|auto].
      + rewrite Hb, Hl, Nat.eqb_refl. reflexivity.
  Qed.
End Bins.
