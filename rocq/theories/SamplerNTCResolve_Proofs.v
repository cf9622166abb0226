(** Proofs about the sampler with replacement: the waves that a block of pairs gets
    on a GPU. *)
From Coq Require Import List Arith Lia ZArith QArith Bool Permutation.
Import ListNotations.
From Verif Require Import Base Kernel Scan_Model PairList_Spec PairHost_Proofs PairOrder_Proofs SamplerNTC_Model SamplerNTC_Spec SamplerNTC_Proofs SamplerNTCGpu_Proofs.
Local Open Scope nat_scope.

Definition hits (p : nat) (q : nat * nat) : bool := (fst q =? p) || (snd q =? p).

Lemma hits_share q q' : (forall p, hits p q = true -> hits p q' = true -> False) -> ~ share q q'.
Proof.
  unfold hits, share. intros H [E|[E|[E|E]]].
  - apply (H (fst q)); rewrite ?E, Nat.eqb_refl; auto.
  - apply (H (fst q)); rewrite ?E, Nat.eqb_refl, ?orb_true_r; auto.
  - apply (H (snd q)); rewrite ?E, Nat.eqb_refl, ?orb_true_r; auto.
  - apply (H (snd q)); rewrite ?E, Nat.eqb_refl, ?orb_true_r; auto.
Qed.

Lemma share_hits q q' p : ~ share q q' -> hits p q = true -> hits p q' = true -> False.
Proof.
  unfold hits, share. rewrite !orb_true_iff, !Nat.eqb_eq. intros N H H'. apply N. intuition congruence.
Qed.

Lemma disjoint_gw Q : ForallOrdPairs (fun p q => ~ share p q) Q ->
  gw Q = repeat 0 (length Q) /\ forall p, nxt Q p = if existsb (hits p) Q then 1 else 0.
Proof.
  induction Q as [|q Q IH] using rev_ind; intros F; [split; auto|].
  apply fop_app in F as [F1 [_ F2]]. destruct (IH F1) as [G N].
  assert (Z : nxt Q (fst q) = 0 /\ nxt Q (snd q) = 0).
  { rewrite !N. split.
    - destruct (existsb (hits (fst q)) Q) eqn:E; auto. apply existsb_exists in E as [x [Hx E]]. exfalso.
      apply (share_hits x q (fst q)); auto; [apply F2; cbn; auto|]. unfold hits. rewrite Nat.eqb_refl. auto.
    - destruct (existsb (hits (snd q)) Q) eqn:E; auto. apply existsb_exists in E as [x [Hx E]]. exfalso.
      apply (share_hits x q (snd q)); auto; [apply F2; cbn; auto|]. unfold hits. rewrite Nat.eqb_refl, orb_true_r. auto. }
  destruct Z as [Z1 Z2]. split.
  - rewrite gw_snoc, G, Z1, Z2, app_length. cbn [length Nat.max]. rewrite repeat_app. auto.
  - intros p. rewrite nxt_snoc, Z1, Z2, existsb_app. cbn [existsb]. fold (hits p q). rewrite N.
    destruct (hits p q), (existsb (hits p) Q); auto.
Qed.

Lemma fop_map {A B} (R : B -> B -> Prop) (f : A -> B) l : NoDup l -> (forall a b, In a l -> In b l -> a <> b -> R (f a) (f b)) ->
  ForallOrdPairs R (map f l).
Proof.
  induction l as [|a l IH]; intros N H; cbn [map]; constructor.
  - apply Forall_forall. intros y Hy. apply in_map_iff in Hy as [b [<- Hb]]. inversion_clear N. apply H; cbn; auto. intros ->. auto.
  - inversion_clear N. apply IH; auto. intros; apply H; cbn; auto.
Qed.

Section Resolve.
  Context (d : device) (PS : list (nat * nat)) (n : nat) (flags0 : list nat) (key : nat -> nat).
  Hypothesis Hd : device_ok d.
  Hypothesis zero : forall p, p < n -> nth_error flags0 p = Some 0.
  Hypothesis range : forall l p, nth_error PS l = Some p -> fst p < n /\ snd p < n.
  Context (sched O flags : list nat) (count : nat) (items : list item).
  Hypothesis P1 : phase1 PS flags0 sched O flags count items.
  Hypothesis done : forall l, l < length PS -> count_occ Nat.eq_dec sched l = 3.
  Local Notation m := (length PS).
  Definition the (l : nat) : nat * nat := nth l PS (0, 0).

  Definition free (l : nat) : bool := match nth_error items l with Some it => match it_wave it with Some _ => true | None => false end | None => false end.
  Definition Z0 : list nat := filter free (seq 0 m).

  Lemma item_cases l : l < m -> exists it, nth_error items l = Some it /\ (it_i it, it_j it) = the l /\
    ((free l = true /\ it_wave it = Some 0 /\ it_order it = None /\ it_fi it = 0 /\ it_fj it = 0 /\ it_pc it = 3) \/
     (free l = false /\ it_wave it = None /\ exists o, it_order it = Some (S o) /\ nth_error O o = Some l)).
  Proof.
    intros Hl. destruct (nth_error_lt_some items l) as [it Ei]; [rewrite (p1_items _ _ _ _ _ _ _ P1); auto|].
    destruct (p1_item _ _ _ _ _ _ _ P1 l it Ei) as [E C]. rewrite done in C by auto. exists it. split; auto.
    split; [unfold the; symmetry; apply nth_error_nth; auto|]. unfold free. rewrite Ei.
    destruct (p1_state _ _ _ _ _ _ _ P1 l it Ei) as [[A _]|[[A1 [A2 [A3 [A4 A5]]]]|[A1 [A2 A3]]]]; [lia| |].
    - left. rewrite A4. auto 6.
    - right. rewrite A2. auto.
  Qed.

  Lemma O_lt o l : nth_error O o = Some l -> l < m.
  Proof.
    intros H. destruct (p1_O _ _ _ _ _ _ _ P1 o l H) as [it [E _]]. rewrite <- (p1_items _ _ _ _ _ _ _ P1). eapply nth_error_some_lt; eauto.
  Qed.
  Lemma O_free o l : nth_error O o = Some l -> free l = false.
  Proof.
    intros H. destruct (p1_O _ _ _ _ _ _ _ P1 o l H) as [it [E1 E2]]. destruct (item_cases l (O_lt _ _ H)) as [it' [E3 [_ [[_ [_ [E4 _]]]|[A _]]]]]; auto. congruence.
  Qed.
  Lemma free_O l : l < m -> free l = false -> In l O.
  Proof.
    intros Hl Hf. destruct (item_cases l Hl) as [it [_ [_ [[A _]|[_ [_ [o [_ A]]]]]]]]; [congruence|]. eapply nth_error_In; eauto.
  Qed.

  Lemma order_perm : Permutation (Z0 ++ O) (seq 0 m).
  Proof.
    apply NoDup_Permutation.
    - apply NoDup_app_intro; [apply NoDup_filter, seq_NoDup|apply (p1_nodup _ _ _ _ _ _ _ P1)|].
      intros x Hx Hx'. apply filter_In in Hx as [_ Hx]. apply In_nth_error in Hx' as [o Ho]. apply O_free in Ho. congruence.
    - apply seq_NoDup.
    - intros x. rewrite in_app_iff. unfold Z0. rewrite filter_In. split.
      + intros [[H _]|H]; auto. apply In_nth_error in H as [o Ho]. apply O_lt in Ho. apply in_seq. lia.
      + intros H. apply in_seq in H as H'. destruct (free x) eqn:E; [auto|]. right. apply free_O; auto. lia.
  Qed.

  Lemma the_range l : l < m -> fst (the l) < n /\ snd (the l) < n.
  Proof. intros H. apply (range l). unfold the. apply nth_error_nth'. auto. Qed.

  Lemma free_apart : ForallOrdPairs (fun p q => ~ share p q) (map the Z0).
  Proof.
    apply fop_map; [apply NoDup_filter, seq_NoDup|]. intros a b Ha Hb N.
    apply filter_In in Ha as [Ia Fa], Hb as [Ib Fb]. apply in_seq in Ia, Ib.
    destruct (item_cases a) as [x [Ex [Tx [[_ [_ [_ [x1 [x2 x3]]]]]|[x0 _]]]]]; [lia| |congruence].
    destruct (item_cases b) as [y [Ey [Ty [[_ [_ [_ [y1 [y2 y3]]]]]|[y0 _]]]]]; [lia| |congruence].
    assert (K : forall p, got0 x p -> got0 y p -> False) by (intros p; apply (p1_zero _ _ _ _ _ _ _ P1 a b x y p N Ex Ey)).
    rewrite <- Tx, <- Ty. unfold share. cbn [fst snd]. unfold got0 in K. rewrite x1, x2, x3, y1, y2, y3 in K.
    intros [E|[E|[E|E]]]; eapply K; [left|left|left|right|right|left|right|right]; split; try lia; split; eauto.
  Qed.

  Lemma sched_ok k : NoDup (ord d k (seq 0 m)) /\ forall l, l < m -> In l (ord d k (seq 0 m)).
  Proof.
    destruct Hd as [Hp _]. split.
    - eapply Permutation_NoDup; [apply Permutation_sym, Hp|apply seq_NoDup].
    - intros l Hl. apply (Permutation_in _ (Permutation_sym (Hp _ _ _))), in_seq. lia.
  Qed.
  Lemma sched_in k l : In l (ord d k (seq 0 m)) -> l < m.
  Proof. destruct Hd as [Hp _]. intros H. apply (Permutation_in _ (Hp _ _ _)), in_seq in H. lia. Qed.

  Lemma nle : n <= length flags0. Proof. eapply n_le; eauto. Qed.
  Lemma flags_len : length flags = length flags0. Proof. apply (p1_len _ _ _ _ _ _ _ P1). Qed.

  (** The flags of the pairs left are reset. *)
  Lemma reset_ok : exists fl, foldM (fun fl orderx => foldM (reset_ordered items orderx) fl (ord d (key 1) (seq 0 m))) flags (seq 0 count) = Some fl /\
    length fl = length flags0 /\ forall p, nth_error fl p = if existsb (fun l => hits p (the l)) O then Some 0 else nth_error flags p.
  Proof.
    destruct (foldM_ind (fun fl orderx => foldM (reset_ordered items orderx) fl (ord d (key 1) (seq 0 m)))
      (fun pre fl => length fl = length flags0 /\ forall p, nth_error fl p = if existsb (fun l => hits p (the l)) (firstn (length pre) O) then Some 0 else nth_error flags p)
      (seq 0 count) flags) as [fl [E [L H]]].
    - split; [apply flags_len|]. reflexivity.
    - intros pre o post fl Es [L H].
      assert (Hpre : length pre = o /\ o < count).
      { assert (nth_error (seq 0 count) (length pre) = Some o) as Q by (rewrite Es, nth_error_app2, Nat.sub_diag by lia; auto).
        rewrite nth_error_seq in Q. destruct (Nat.ltb_spec (length pre) count); [|discriminate]. injection Q as <-. auto. }
      destruct Hpre as [Lp Lo]. destruct (nth_error_lt_some O o) as [l El]; [rewrite (p1_count _ _ _ _ _ _ _ P1); auto|].
      pose proof (O_lt _ _ El) as Hl. destruct (p1_O _ _ _ _ _ _ _ P1 o l El) as [it [Ei Eo]].
      destruct (item_cases l Hl) as [it' [Ei' [Tl _]]]. rewrite Ei in Ei'. injection Ei' as <-.
      destruct (the_range l Hl) as [R1 R2]. pose proof nle.
      destruct (set_flags_ok fl (the l) 0) as [fl' [Ef [Lf Hf]]]; [lia|lia|].
      destruct (sched_ok (key 1)) as [N I].
      exists fl'. split.
      + apply (foldM_single _ (fun _ => True) _ l); auto.
        * intros t b _ Nb Ib. unfold reset_ordered, rd. destruct (nth_error_lt_some items b) as [ib Eb]; [rewrite (p1_items _ _ _ _ _ _ _ P1); eapply sched_in; eauto|].
          rewrite Eb. cbn [obind]. unfold has_order. destruct (it_order ib) as [ob|] eqn:Eob; auto.
          destruct (Nat.eqb_spec ob (o + 1)) as [Q|]; auto. exfalso. apply Nb.
          destruct (item_cases b) as [ib' [Eb' [_ [[_ [_ [A _]]]|[_ [_ [o' [A B]]]]]]]]; [eapply sched_in; eauto|congruence|].
          rewrite Eb in Eb'. injection Eb' as <-. rewrite Eob in A. injection A as ->. assert (o' = o) by lia. subst. congruence.
        * unfold reset_ordered, rd. rewrite Ei. cbn [obind]. unfold has_order. rewrite Eo.
          assert (S o =? o + 1 = true) as -> by (apply Nat.eqb_eq; lia). rewrite Tl. auto.
      + split; [lia|]. intros p. rewrite Hf, H, app_length. cbn [length]. rewrite Nat.add_1_r, Lp.
        assert (firstn (S o) O = firstn o O ++ [l]) as ->.
        { apply nth_error_ext. intros x. rewrite nth_error_firstn. destruct (lt_dec x o).
          - rewrite nth_error_app1 by (rewrite firstn_length; apply nth_error_some_lt in El; lia). rewrite nth_error_firstn.
            destruct (Nat.ltb_spec x (S o)), (Nat.ltb_spec x o); try lia; auto.
          - rewrite nth_error_app2 by (rewrite firstn_length; lia). rewrite firstn_length, Nat.min_l by (apply nth_error_some_lt in El; lia).
            destruct (Nat.ltb_spec x (S o)).
            + replace x with o by lia. rewrite Nat.sub_diag. auto.
            + destruct (x - o) as [|[|?]] eqn:?; try lia; auto. }
        rewrite existsb_app. cbn [existsb]. change ((fst (the l) =? p) || (snd (the l) =? p)) with (hits p (the l)).
        destruct (hits p (the l)), (existsb (fun l => hits p (the l)) (firstn o O)); auto.
    - exists fl. split; auto. split; auto. intros p. rewrite H, seq_length, <- (p1_count _ _ _ _ _ _ _ P1), firstn_all. auto.
  Qed.

  (** Work items with a wave set the flags. *)
  Lemma set_wave_ok v its fl k : length its = m -> length fl = length flags0 ->
    (forall l it, nth_error its l = Some it -> (it_i it, it_j it) = the l) ->
    exists fl', foldM (set_with_wave v its) fl (ord d k (seq 0 m)) = Some fl' /\ length fl' = length flags0 /\
      forall p, nth_error fl' p =
        if existsb (fun l => match nth_error its l with Some it => match it_wave it with Some _ => hits p (the l) | None => false end | None => false end) (seq 0 m)
        then Some v else nth_error fl p.
  Proof.
    intros Li Lf Ht. set (act := fun p l => match nth_error its l with Some it => match it_wave it with Some _ => hits p (the l) | None => false end | None => false end).
    destruct (foldM_ind (set_with_wave v its) (fun pre s => length s = length flags0 /\ forall p, nth_error s p = if existsb (act p) pre then Some v else nth_error fl p)
      (ord d k (seq 0 m)) fl) as [fl' [E [L H]]].
    - auto.
    - intros pre a post s Es [L H]. assert (Ha : a < m) by (apply (sched_in k); rewrite Es; apply in_or_app; cbn; auto).
      destruct (nth_error_lt_some its a) as [it Ei]; [lia|]. unfold set_with_wave, rd. rewrite Ei. cbn [obind].
      destruct (it_wave it) as [w|] eqn:Ew.
      + destruct (the_range a Ha) as [R1 R2]. pose proof nle. rewrite (Ht a it Ei).
        destruct (set_flags_ok s (the a) v) as [s' [Ef [Lf' Hf]]]; [lia|lia|]. exists s'. split; auto. split; [lia|].
        intros p. rewrite Hf, H, existsb_app. cbn [existsb]. unfold act at 3. rewrite Ei, Ew. change ((fst (the a) =? p) || (snd (the a) =? p)) with (hits p (the a)).
        destruct (hits p (the a)), (existsb (act p) pre); auto.
      + exists s. split; auto. split; auto. intros p. rewrite H, existsb_app. cbn [existsb]. unfold act at 3. rewrite Ei, Ew, !orb_false_r. auto.
    - exists fl'. split; auto. split; auto. intros p. rewrite H. replace (existsb (act p) (ord d k (seq 0 m))) with (existsb (act p) (seq 0 m)); auto.
      destruct Hd as [Hp _]. apply eq_true_iff_eq. rewrite !existsb_exists. split; intros [x [I A]]; exists x; split; auto.
      + apply (Permutation_in _ (Permutation_sym (Hp _ k _))). auto.
      + apply (Permutation_in _ (Hp _ k _)). auto.
  Qed.

  (** The pairs left get their waves. *)
  Definition assigned (o : list nat) (fl : list nat) (c : nat) (its : list item) : Prop :=
    length fl = length flags0 /\ (forall p, p < n -> nth_error fl p = Some (nxt (map the o) p)) /\
    (forall p, ~ used PS p -> nth_error fl p = nth_error flags0 p) /\
    c = list_max (gw (map the o)) /\ length its = m /\
    (forall l it, nth_error its l = Some it -> (it_i it, it_j it) = the l /\
       exists it0, nth_error items l = Some it0 /\ it_order it = it_order it0) /\
    (forall x l, nth_error o x = Some l -> exists it w, nth_error its l = Some it /\ it_wave it = Some w /\ nth_error (gw (map the o)) x = Some w).

  Lemma the_used l p : l < m -> hits p (the l) = true -> used PS p.
  Proof.
    intros Hl H. exists l, (the l). split; [apply nth_error_nth'; auto|]. unfold hits in H. apply orb_true_iff in H. rewrite !Nat.eqb_eq in H. intuition.
  Qed.

  Lemma assign_step o l fl c its : nth_error O o = Some l -> assigned (Z0 ++ firstn o O) fl c its ->
    exists fl' c' its', foldM (assign_wave o) (fl, c, its) (ord d (key 3) (seq 0 m)) = Some (fl', c', its') /\
      assigned (Z0 ++ firstn (S o) O) fl' c' its'.
  Proof.
    intros El [A1 [A2 [A3 [A4 [A5 [A6 A7]]]]]]. pose proof (O_lt _ _ El) as Hl. destruct (the_range l Hl) as [R1 R2]. pose proof nle as NL.
    set (Q := map the (Z0 ++ firstn o O)) in *.
    assert (FS : firstn (S o) O = firstn o O ++ [l]).
    { apply nth_error_ext. intros x. rewrite nth_error_firstn. destruct (lt_dec x o).
          - rewrite nth_error_app1 by (rewrite firstn_length; apply nth_error_some_lt in El; lia). rewrite nth_error_firstn.
            destruct (Nat.ltb_spec x (S o)), (Nat.ltb_spec x o); try lia; auto.
          - rewrite nth_error_app2 by (rewrite firstn_length; lia). rewrite firstn_length, Nat.min_l by (apply nth_error_some_lt in El; lia).
            destruct (Nat.ltb_spec x (S o)).
            + replace x with o by lia. rewrite Nat.sub_diag. auto.
            + destruct (x - o) as [|[|?]] eqn:?; try lia; auto. }
    assert (EQ : map the (Z0 ++ firstn (S o) O) = Q ++ [the l]) by (rewrite FS, app_assoc, map_app; auto).
    destruct (nth_error_lt_some its l) as [it Ei]; [lia|]. destruct (A6 l it Ei) as [Tl [it0 [Ei0 Eo]]].
    destruct (p1_O _ _ _ _ _ _ _ P1 o l El) as [it1 [Ei1 Eo1]]. rewrite Ei0 in Ei1. injection Ei1 as <-. rewrite Eo1 in Eo.
    assert (Ti : it_i it = fst (the l) /\ it_j it = snd (the l)) by (rewrite <- Tl; auto). destruct Ti as [Ti Tj].
    set (wave := Nat.max (nxt Q (fst (the l))) (nxt Q (snd (the l)))).
    destruct (set_flags_ok fl (the l) (wave + 1)) as [fl' [Ef [Lf Hf]]]; [lia|lia|].
    set (it' := mk_item (it_i it) (it_j it) (it_pc it) (it_fi it) (it_fj it) (Some wave) (it_order it)).
    destruct (upd_some its l it') as [its' Ui]; [lia|].
    destruct (sched_ok (key 3)) as [N I].
    exists fl', (Nat.max wave c), its'. split.
    - apply (foldM_single _ (fun st => length (snd st) = m /\ forall b ib, nth_error (snd st) b = Some ib -> exists i0, nth_error items b = Some i0 /\ it_order ib = it_order i0) _ l); auto.
      + cbn [snd]. split; auto. intros b ib Eb. apply A6 in Eb. tauto.
      + intros [[tf tc] ti] b [Lt Ht] Nb Ib. cbn [snd] in *. unfold assign_wave, rd. apply sched_in in Ib.
        destruct (nth_error_lt_some ti b) as [ib Eb]; [lia|]. rewrite Eb. cbn [obind]. unfold has_order. destruct (Ht b ib Eb) as [i0 [E0 ->]].
        destruct (it_order i0) as [ob|] eqn:Eob; auto.
        destruct (Nat.eqb_spec ob (o + 1)) as [E|]; auto. exfalso. apply Nb.
        destruct (item_cases b Ib) as [ib' [Eb' [_ [[_ [_ [A _]]]|[_ [_ [o' [A B]]]]]]]]; [congruence|].
        rewrite E0 in Eb'. injection Eb' as <-. rewrite Eob in A. injection A as ->. assert (o' = o) by lia. subst. congruence.
      + unfold assign_wave, rd. rewrite Ei. cbn [obind]. unfold has_order. rewrite Eo.
        assert (S o =? o + 1 = true) as -> by (apply Nat.eqb_eq; lia). rewrite Tl, Ti, Tj, !A2 by auto. cbn [obind]. fold wave. rewrite Ef. cbn [obind].
        rewrite <- Ti, <- Tj, <- Eo. fold it'. rewrite Ui. auto.
      + cbn [snd]. split; [rewrite (upd_length _ _ _ _ Ui); auto|]. intros b ib Eb. rewrite (upd_nth _ _ _ _ b Ui) in Eb.
        destruct (Nat.eqb_spec b l) as [->|]; [|apply A6 in Eb; tauto]. injection Eb as <-. exists it0. split; auto. unfold it'. cbn. congruence.
    - unfold assigned. rewrite EQ, gw_snoc. fold wave. repeat split.
      + lia.
      + intros p Hp. rewrite Hf, nxt_snoc. fold wave. rewrite Nat.add_1_r. destruct ((fst (the l) =? p) || (snd (the l) =? p)); auto.
      + intros p Hp. rewrite Hf. fold (hits p (the l)). destruct (hits p (the l)) eqn:E; auto. exfalso. apply Hp. eapply the_used; eauto.
      + rewrite list_max_app, <- A4. cbn. lia.
      + rewrite (upd_length _ _ _ _ Ui); auto.
      + rewrite (upd_nth _ _ _ _ l0 Ui) in H. destruct (Nat.eqb_spec l0 l) as [->|]; [|apply A6 in H; tauto]. injection H as <-. auto.
      + rewrite (upd_nth _ _ _ _ l0 Ui) in H. destruct (Nat.eqb_spec l0 l) as [->|]; [|apply A6 in H; tauto]. injection H as <-.
        exists it0. split; auto. unfold it'. cbn. congruence.
      + intros x y Hx. rewrite FS, app_assoc in Hx.
        assert (LQ : length (gw Q) = length (Z0 ++ firstn o O)) by (rewrite gw_length; unfold Q; apply map_length).
        destruct (lt_dec x (length (Z0 ++ firstn o O))) as [Lx|Lx].
        * rewrite nth_error_app1 in Hx by auto. rewrite nth_error_app1 by lia. destruct (A7 x y Hx) as [iy [w [E1 [E2 E3]]]].
          exists iy, w. split; auto. rewrite (upd_nth_neq _ _ _ _ _ Ui); auto. intros ->.
          apply nth_error_In in Hx. apply in_app_iff in Hx as [Hx|Hx].
          -- apply filter_In in Hx as [_ Hx]. pose proof (O_free _ _ El). congruence.
          -- apply In_nth_error in Hx as [z Hz]. rewrite nth_error_firstn in Hz. destruct (Nat.ltb_spec z o); [|discriminate].
             assert (z = o); [|lia]. apply (proj1 (NoDup_nth_error O) (p1_nodup _ _ _ _ _ _ _ P1)); [eapply nth_error_some_lt; eauto|congruence].
        * rewrite nth_error_app2 in Hx by lia. rewrite nth_error_app2 by lia. rewrite LQ. destruct (x - length (Z0 ++ firstn o O)) as [|[|?]]; try discriminate.
          cbn in Hx |- *. injection Hx as <-. exists it', wave. rewrite (upd_nth_eq _ _ _ _ Ui). auto.
  Qed.

  Lemma flags_free (fl : list nat) : length fl = length flags0 ->
    (forall p, nth_error fl p = if existsb (fun l => match nth_error items l with Some it => match it_wave it with Some _ => hits p (the l) | None => false end | None => false end) (seq 0 m)
        then Some 1 else if existsb (fun l => hits p (the l)) O then Some 0 else nth_error flags p) ->
    assigned Z0 fl 0 items.
  Proof.
    intros L H. destruct (disjoint_gw _ free_apart) as [G N].
    assert (EX : forall p, existsb (fun l => match nth_error items l with Some it => match it_wave it with Some _ => hits p (the l) | None => false end | None => false end) (seq 0 m)
      = existsb (hits p) (map the Z0)).
    { intros p. apply eq_true_iff_eq. rewrite !existsb_exists. split.
      - intros [l [Hl A]]. exists (the l). destruct (nth_error items l) as [it|] eqn:E; [|discriminate]. destruct (it_wave it) eqn:Ew; [|discriminate].
        split; auto. apply in_map, filter_In. split; auto. unfold free. rewrite E, Ew. auto.
      - intros [q [Hq A]]. apply in_map_iff in Hq as [l [<- Hl]]. apply filter_In in Hl as [Hl F]. exists l. split; auto. unfold free in F.
        destruct (nth_error items l) as [it|]; [|discriminate]. destruct (it_wave it); [auto|discriminate]. }
    unfold assigned. repeat split; auto.
    - intros p Hp. rewrite H, EX, N. destruct (existsb (hits p) (map the Z0)) eqn:E1; auto.
      destruct (existsb (fun l => hits p (the l)) O) eqn:E2; auto. rewrite (p1_frame _ _ _ _ _ _ _ P1); [apply zero; auto|].
      intros [l [q [Hq Hpq]]]. assert (Hl : l < m) by (eapply nth_error_some_lt; eauto). assert (Q : q = the l) by (symmetry; apply nth_error_nth; auto).
      assert (hits p (the l) = true) as Hh by (rewrite <- Q; unfold hits; apply orb_true_iff; rewrite !Nat.eqb_eq; intuition).
      destruct (free l) eqn:F.
      + assert (existsb (hits p) (map the Z0) = true); [|congruence]. apply existsb_exists. exists (the l). split; auto. apply in_map, filter_In. split; auto. apply in_seq. lia.
      + assert (existsb (fun l => hits p (the l)) O = true); [|congruence]. apply existsb_exists. exists l. split; auto. apply free_O; auto.
    - intros p Hp. rewrite H, EX.
      assert (NU : forall l, l < m -> hits p (the l) = false). { intros l Hl. destruct (hits p (the l)) eqn:E; auto. exfalso. apply Hp. eapply the_used; eauto. }
      assert (existsb (hits p) (map the Z0) = false) as ->.
      { apply not_true_iff_false. intros E. apply existsb_exists in E as [q [Hq A]]. apply in_map_iff in Hq as [l [<- Hl]]. apply filter_In in Hl as [Hl _].
        apply in_seq in Hl. rewrite NU in A by lia. discriminate. }
      assert (existsb (fun l => hits p (the l)) O = false) as ->.
      { apply not_true_iff_false. intros E. apply existsb_exists in E as [l [Hl A]]. apply In_nth_error in Hl as [o Ho]. apply O_lt in Ho. rewrite NU in A by lia. discriminate. }
      apply (p1_frame _ _ _ _ _ _ _ P1). auto.
    - rewrite G. clear. induction (length (map the Z0)); auto.
    - apply (p1_items _ _ _ _ _ _ _ P1).
    - destruct (item_cases l) as [it' [E [T _]]]; [rewrite <- (p1_items _ _ _ _ _ _ _ P1); eapply nth_error_some_lt; eauto|]. congruence.
    - eauto.
    - intros x l Hx. assert (In l Z0) as Hl by (eapply nth_error_In; eauto). apply filter_In in Hl as [Hl F]. apply in_seq in Hl.
      destruct (item_cases l) as [it [E [_ [[_ [W _]]|[F' _]]]]]; [lia| |congruence]. exists it, 0. split; auto. split; auto.
      rewrite G, nth_error_repeat; auto. rewrite map_length. eapply nth_error_some_lt; eauto.
  Qed.

  (** What holds when each pair has its wave. *)
  Definition resolved (fl : list nat) (c : nat) (its : list item) : Prop :=
    length fl = length flags0 /\ (forall p, ~ used PS p -> nth_error fl p = nth_error flags0 p) /\
    length its = m /\
    exists ws, greedy_in (Z0 ++ O) PS ws /\ c = list_max ws /\
      forall l, l < m -> exists it w, nth_error its l = Some it /\ (it_i it, it_j it) = the l /\ nth_error ws l = Some w /\ it_wave it = Some w.

  Lemma waves_resolved fl c its : length fl = length flags0 -> (forall p, ~ used PS p -> nth_error fl p = nth_error flags0 p) ->
    c = list_max (gw (map the (Z0 ++ O))) -> length its = m ->
    (forall l it, nth_error its l = Some it -> (it_i it, it_j it) = the l) ->
    (forall x l, nth_error (Z0 ++ O) x = Some l -> exists it w, nth_error its l = Some it /\ it_wave it = Some w /\ nth_error (gw (map the (Z0 ++ O))) x = Some w) ->
    resolved fl c its.
  Proof.
    intros A1 A2 A3 A4 A5 A6. unfold resolved. split; auto. split; auto. split; auto.
    set (wv := fun l => match nth_error its l with Some it => match it_wave it with Some w => w | None => 0 end | None => 0 end).
    assert (G : greedy_in (Z0 ++ O) PS (map wv (seq 0 m))).
    { split; [apply order_perm|]. split; [rewrite map_length, seq_length; auto|]. intros x l Hx.
      assert (Hl : l < m). { assert (In l (seq 0 m)) as I; [|apply in_seq in I; lia]. eapply Permutation_in; [apply order_perm|]. eapply nth_error_In; eauto. }
      destruct (A6 x l Hx) as [it [w [E1 [E2 E3]]]]. rewrite nth_error_map, nth_error_seq. destruct (Nat.ltb_spec l m); [|lia]. cbn [option_map]. rewrite Nat.add_0_l.
      unfold wv. rewrite E1, E2. auto. }
    exists (map wv (seq 0 m)). split; auto. split.
    - rewrite A3. symmetry. apply list_max_perm. apply (greedy_perm _ _ _ G).
    - intros l Hl. assert (In l (Z0 ++ O)) as Hx. { eapply Permutation_in; [apply Permutation_sym, order_perm|]. apply in_seq. lia. }
      apply In_nth_error in Hx as [x Hx]. destruct (A6 x l Hx) as [it [w [E1 [E2 E3]]]]. exists it, w. split; auto. split; [eapply A5; eauto|]. split; auto.
      rewrite nth_error_map, nth_error_seq. destruct (Nat.ltb_spec l m); [|lia]. cbn [option_map]. rewrite Nat.add_0_l. unfold wv. rewrite E1, E2. auto.
  Qed.

  Lemma resolve_ok : exists fl c its, resolve d key m (flags, count, items) = Some (fl, c, its) /\ resolved fl c its.
  Proof.
    unfold resolve. destruct (Nat.eqb_spec count 0) as [Ec|Ec].
    - exists flags, 0, items. split; auto.
      assert (ON : O = []) by (apply length_zero_iff_nil; rewrite (p1_count _ _ _ _ _ _ _ P1); auto).
      destruct (disjoint_gw _ free_apart) as [G N].
      assert (E0 : Z0 ++ O = Z0) by (rewrite ON, app_nil_r; auto).
      apply waves_resolved.
      + apply flags_len.
      + apply (p1_frame _ _ _ _ _ _ _ P1).
      + rewrite E0, G. clear. induction (length (map the Z0)); auto.
      + apply (p1_items _ _ _ _ _ _ _ P1).
      + intros l it E. destruct (item_cases l) as [it' [E' [T _]]]; [rewrite <- (p1_items _ _ _ _ _ _ _ P1); eapply nth_error_some_lt; eauto|]. congruence.
      + rewrite E0. intros x l Hx. assert (In l Z0) as Hl by (eapply nth_error_In; eauto). apply filter_In in Hl as [Hl F]. apply in_seq in Hl.
        destruct (item_cases l) as [it [E [_ [[_ [W _]]|[F' _]]]]]; [lia| |congruence]. exists it, 0. split; auto. split; auto.
        rewrite G, nth_error_repeat; auto. rewrite map_length. eapply nth_error_some_lt; eauto.
    - destruct reset_ok as [f1 [E1 [L1 H1]]]. rewrite E1. cbn [obind].
      destruct (set_wave_ok 1 items f1 (key 2)) as [f2 [E2 [L2 H2]]]; auto; [apply (p1_items _ _ _ _ _ _ _ P1)| |].
      { intros l it E. destruct (item_cases l) as [it' [E' [T _]]]; [rewrite <- (p1_items _ _ _ _ _ _ _ P1); eapply nth_error_some_lt; eauto|]. congruence. }
      rewrite E2. cbn [obind].
      destruct (foldM_ind (fun st o => foldM (assign_wave o) st (ord d (key 3) (seq 0 m)))
        (fun pre st => assigned (Z0 ++ firstn (length pre) O) (fst (fst st)) (snd (fst st)) (snd st)) (seq 0 count) (f2, 0, items)) as [[[fl c] its] [E A]].
      + cbn [length firstn fst snd]. rewrite app_nil_r. apply flags_free; auto. intros p. rewrite H2, H1. auto.
      + intros pre o post [[fl c] its] Es A. cbn [fst snd] in A.
        assert (Hpre : length pre = o /\ o < count).
        { assert (nth_error (seq 0 count) (length pre) = Some o) as Q by (rewrite Es, nth_error_app2, Nat.sub_diag by lia; auto).
          rewrite nth_error_seq in Q. destruct (Nat.ltb_spec (length pre) count); [|discriminate]. injection Q as <-. auto. }
        destruct Hpre as [Lp Lo]. destruct (nth_error_lt_some O o) as [l El]; [rewrite (p1_count _ _ _ _ _ _ _ P1); auto|].
        rewrite Lp in A. destruct (assign_step o l fl c its El A) as [fl' [c' [its' [E' A']]]]. exists (fl', c', its'). split; auto.
        rewrite app_length, Nat.add_1_r, Lp. auto.
      + rewrite seq_length, <- (p1_count _ _ _ _ _ _ _ P1), firstn_all in A. cbn [fst snd] in A. rewrite <- (p1_count _ _ _ _ _ _ _ P1) in E |- *. rewrite E.
        exists fl, c, its. split; auto. destruct A as [B1 [B2 [B3 [B4 [B5 [B6 B7]]]]]]. apply waves_resolved; auto. intros l it E'. apply B6 in E'. tauto.
  Qed.
End Resolve.
