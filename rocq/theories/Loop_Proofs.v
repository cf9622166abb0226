(** Proofs about the iteration set of a particle loop. *)
From Coq Require Import List Arith Lia ZArith Permutation Bool.
Import ListNotations.
From Verif Require Import Base Kernel Scan_Model Scan_Proofs Scan_Spec Group_Model Group_Spec Group_Proofs
  Compress_Proofs Loop_Model Loop_Spec.

Lemma prev_pow2_pos n p : get_prev_power_of_two n = Some p -> 1 <= p.
Proof. unfold get_prev_power_of_two. destruct (n =? 0); [discriminate|]. intros [= <-]. lia. Qed.

Lemma prev_pow2_some n : 1 <= n -> exists p, get_prev_power_of_two n = Some p /\ 1 <= p /\ p <= n.
Proof.
  intros H. unfold get_prev_power_of_two. destruct (Nat.eqb_spec n 0); [lia|].
  eexists; split; [reflexivity|]. pose proof (Nat.log2_spec n H). lia.
Qed.

Lemma global_size_spec N ls : 1 <= ls -> get_global_size N ls mod ls = 0 /\ N <= get_global_size N ls < N + ls.
Proof.
  intros H. unfold get_global_size. split; [apply Nat.mod_mul; lia|].
  pose proof (Nat.div_mod N ls ltac:(lia)). pose proof (Nat.mod_upper_bound N ls ltac:(lia)).
  destruct (Nat.eqb_spec (N mod ls) 0); nia.
Qed.

Lemma next_multiple_div N M : 1 <= M -> N <= get_next_multiple N M / M * M /\ get_next_multiple N M / M <= N.
Proof.
  intros H. unfold get_next_multiple. rewrite Nat.div_mul by lia.
  pose proof (Nat.div_mod (N + (M - 1)) M ltac:(lia)). pose proof (Nat.mod_upper_bound (N + (M - 1)) M ltac:(lia)).
  split; [nia|]. destruct N as [|N]; [rewrite Nat.div_small; lia|].
  apply Nat.lt_succ_r. apply Nat.div_lt_upper_bound; [lia|]. nia.
Qed.

(** ** Rectangles of layers visited by one block *)
Section Cover.
  Context (np : list nat) (stride : nat).

  Definition in_block (b : block) (w : nat * nat) : Prop :=
    offset_cell b <= fst w < offset_cell b + range0 b /\
    offset_layer b * stride <= snd w < (offset_layer b + range1 b) * stride.

  (** A visit function that, for the blocks of [bs], enumerates the rectangle of
      the block, restricted to existing particles. *)
  Definition good_visit (visit : block -> nat * nat -> option (list (nat * nat))) (b : block) : Prop :=
    exists lay : nat -> nat -> nat,
      (forall g0 g1, g0 < range0 b -> g1 < range1 b ->
         visit b (g0, g1) = Some (filter (fun w => snd w <? nth (fst w) np 0)
            (map (fun s => (g0 + offset_cell b, lay g1 s)) (seq 0 stride)))) /\
      (forall g1 s, g1 < range1 b -> s < stride ->
         offset_layer b * stride <= lay g1 s < (offset_layer b + range1 b) * stride) /\
      (forall g1 s g1' s', g1 < range1 b -> s < stride -> g1' < range1 b -> s' < stride ->
         lay g1 s = lay g1' s' -> g1 = g1' /\ s = s') /\
      (forall x, offset_layer b * stride <= x < (offset_layer b + range1 b) * stride ->
         exists g1 s, g1 < range1 b /\ s < stride /\ lay g1 s = x).

  Lemma block_visits visit b : good_visit visit b ->
    exists vs, (r <- mapM (visit b) (items b) ;; Some (concat r)) = Some vs /\ NoDup vs /\
      forall w, In w vs <-> in_block b w /\ snd w < nth (fst w) np 0.
  Proof.
    intros [lay [Hv [Hr [Hi Hs]]]].
    set (f := fun w : nat * nat => filter (fun w => snd w <? nth (fst w) np 0)
            (map (fun s => (fst w + offset_cell b, lay (snd w) s)) (seq 0 stride))).
    assert (E : mapM (visit b) (items b) = Some (map f (items b))).
    { apply mapM_some. intros [g0 g1] Hin. apply in_prod_iff in Hin. rewrite !in_seq in Hin.
      apply Hv; lia. }
    rewrite E. cbn [obind]. exists (concat (map f (items b))). split; auto.
    rewrite <- flat_map_concat_map. split.
    - apply NoDup_flat_map.
      + assert (G : forall l1 l2 : list nat, NoDup l1 -> NoDup l2 -> NoDup (list_prod l1 l2)).
        { intros l1 l2 N1 N2. induction N1 as [|x l1 Hx N1 IH]; cbn; [constructor|].
          apply NoDup_app_intro; auto.
          - apply NoDup_map_inj; auto. congruence.
          - intros [p q] H1 H2. apply in_map_iff in H1. destruct H1 as [y [[= <- <-] _]].
            apply in_prod_iff in H2. tauto. }
        apply G; apply seq_NoDup.
      + intros [g0 g1] Hin. apply in_prod_iff in Hin. rewrite !in_seq in Hin.
        apply NoDup_filter, NoDup_map_inj; [|apply seq_NoDup]. cbn [fst snd].
        intros s s' H1 H2 [= Q]. apply in_seq in H1, H2. apply (Hi g1 s g1 s'); auto; lia.
      + intros [g0 g1] [g0' g1'] w H1 H2 H3 H4. apply in_prod_iff in H1, H2. rewrite !in_seq in H1, H2.
        unfold f in H3, H4. apply filter_In in H3, H4. destruct H3 as [H3 _], H4 as [H4 _].
        apply in_map_iff in H3, H4. destruct H3 as [s [Q3 S3]], H4 as [s' [Q4 S4]]. cbn [fst snd] in *.
        apply in_seq in S3, S4. subst w. injection Q4 as Qa Qb.
        destruct (Hi g1 s g1' s') as [-> _]; auto; try lia. f_equal. lia.
    - intros [c l]. rewrite in_flat_map. unfold f, in_block. cbn [fst snd]. split.
      + intros [[g0 g1] [H1 H2]]. apply in_prod_iff in H1. rewrite !in_seq in H1.
        apply filter_In in H2. destruct H2 as [H2 H3]. apply in_map_iff in H2. destruct H2 as [s [[= <- <-] H4]].
        apply in_seq in H4. cbn [fst snd] in *. apply Nat.ltb_lt in H3.
        pose proof (Hr g1 s ltac:(lia) ltac:(lia)). lia.
      + intros [[H1 H2] H3]. destruct (Hs l H2) as [g1 [s [G1 [G2 G3]]]].
        exists (c - offset_cell b, g1). split; [apply in_prod_iff; rewrite !in_seq; lia|].
        apply filter_In. split; [|cbn [fst snd]; apply Nat.ltb_lt; auto].
        apply in_map_iff. exists s. cbn [fst snd]. rewrite in_seq. split; [|lia]. f_equal; [lia|auto].
  Qed.

  Lemma all_visits_spec visit bs :
    (forall b, In b bs -> good_visit visit b) ->
    (forall i j b b' w, nth_error bs i = Some b -> nth_error bs j = Some b' -> in_block b w -> in_block b' w -> i = j) ->
    exists vs, all_visits visit bs = Some vs /\ NoDup vs /\
      forall w, In w vs <-> (exists b, In b bs /\ in_block b w) /\ snd w < nth (fst w) np 0.
  Proof.
    unfold all_visits. induction bs as [|b bs IH]; intros Hg Hd.
    - exists []. cbn. split; auto. split; [constructor|]. intros w; split; [tauto|]. intros [[b [[] _]] _].
    - destruct (block_visits visit b (Hg b (or_introl eq_refl))) as [v [Ev [Nv Iv]]].
      destruct IH as [vs [E [N I]]].
      + intros b' Hb. apply Hg; right; auto.
      + intros i j b1 b2 w H1 H2 H3 H4. specialize (Hd (S i) (S j) b1 b2 w H1 H2 H3 H4). lia.
      + cbn [mapM]. rewrite Ev. cbn [obind].
        destruct (mapM (fun b0 => r <- mapM (visit b0) (items b0);; Some (concat r)) bs) as [rs|] eqn:Er; [|discriminate].
        cbn [obind] in *. injection E as <-. exists (v ++ concat rs). split; auto. split.
        * apply NoDup_app_intro; auto. intros w H1 H2. apply Iv in H1. apply I in H2.
          destruct H2 as [[b' [Hb' H2]] _]. destruct (In_nth_error _ _ Hb') as [j Hj].
          specialize (Hd 0 (S j) b b' w eq_refl Hj (proj1 H1) H2). lia.
        * intros w. rewrite in_app_iff, Iv, I. split.
          -- intros [[H1 H2]|[[b' [H1 H2]] H3]]; split; auto.
             ++ exists b; split; auto. left; auto.
             ++ exists b'; split; auto. right; auto.
          -- intros [[b' [[<-|H1] H2]] H3]; [left; auto|right]. split; auto. eauto.
  Qed.
End Cover.

Lemma concat_filter_map {A B} (p : B -> bool) (h : A -> B) l :
  concat (map (fun s => filter p [h s]) l) = filter p (map h l).
Proof. induction l as [|a l IH]; auto. cbn [map concat]. rewrite IH. cbn [filter app]. destruct (p (h a)); auto. Qed.

(** ** The three ways of visiting a block *)
Section Modes.
  Context (np : list nat).

  Lemma required_nth c l : c < length np -> work_item_required np c l = Some (l <? nth c np 0).
  Proof. intros H. unfold work_item_required, rd. rewrite (nth_error_nth' np 0 H). auto. Qed.

  Lemma plain_good single b : offset_cell b + range0 b <= length np ->
    (bounds_check b = false -> forall c, offset_cell b <= c < offset_cell b + range0 b ->
       offset_layer b + range1 b <= nth c np 0) ->
    good_visit np 1 (visit_plain np single) b.
  Proof.
    intros Hc Hb. exists (fun g1 s => g1 + offset_layer b). split; [|split; [|split]].
    - intros g0 g1 H0 H1. unfold visit_plain. cbn [fst snd seq map filter].
      destruct (single || bounds_check b) eqn:Es.
      + rewrite required_nth by lia. cbn [obind]. destruct (Nat.ltb_spec (g1 + offset_layer b) (nth (g0 + offset_cell b) np 0)); auto.
      + apply orb_false_iff in Es. destruct Es as [_ Es]. specialize (Hb Es (g0 + offset_cell b) ltac:(lia)).
        destruct (Nat.ltb_spec (g1 + offset_layer b) (nth (g0 + offset_cell b) np 0)); [auto|lia].
    - intros; lia.
    - intros; lia.
    - intros x Hx. exists (x - offset_layer b), 0. lia.
  Qed.

  Lemma interlaced_good stride b : 1 <= stride -> 1 <= range_local b ->
    range1 b mod range_local b = 0 -> offset_cell b + range0 b <= length np ->
    good_visit np stride (visit_reduction np stride) b.
  Proof.
    intros Hst Hl Hm Hc. set (ls := range_local b) in *.
    assert (HQ : range1 b = range1 b / ls * ls) by (pose proof (Nat.div_mod (range1 b) ls ltac:(lia)); lia).
    set (Q := range1 b / ls) in *.
    exists (fun g1 s => interlaced_layer b stride g1 s). unfold interlaced_layer. fold ls.
    split; [|split; [|split]].
    - intros g0 g1 H0 H1. unfold visit_reduction. cbn [fst snd].
      rewrite (mapM_some _ (fun s => filter (fun w => snd w <? nth (fst w) np 0) [(g0 + offset_cell b, interlaced_layer b stride g1 s)])).
      + cbn [obind]. rewrite concat_filter_map. reflexivity.
      + intros s _. rewrite required_nth by lia. cbn [obind filter fst snd]. destruct (_ <? _); auto.
    - intros g1 s H1 H2. pose proof (Nat.div_mod g1 ls ltac:(lia)). pose proof (Nat.mod_upper_bound g1 ls ltac:(lia)).
      set (q := g1 / ls) in *. set (t := g1 mod ls) in *.
      assert (q < Q) by nia. rewrite HQ. split; [nia|].
      assert (s * ls + t < stride * ls) by nia. nia.
    - intros g1 s g1' s' H1 H2 H1' H2' E.
      pose proof (Nat.div_mod g1 ls ltac:(lia)). pose proof (Nat.mod_upper_bound g1 ls ltac:(lia)).
      pose proof (Nat.div_mod g1' ls ltac:(lia)). pose proof (Nat.mod_upper_bound g1' ls ltac:(lia)).
      set (q := g1 / ls) in *. set (t := g1 mod ls) in *. set (q' := g1' / ls) in *. set (t' := g1' mod ls) in *.
      assert (E2 : (q * stride + s) * ls + t = (q' * stride + s') * ls + t') by lia.
      assert (E3 : q * stride + s = q' * stride + s' /\ t = t').
      { destruct (Nat.div_mod_unique ls (q * stride + s) (q' * stride + s') t t') as [A B]; auto; lia. }
      destruct E3 as [E3 ->].
      destruct (Nat.div_mod_unique stride q q' s s') as [A B]; auto; try lia.
    - intros x Hx. set (y := x - offset_layer b * stride).
      assert (Hy : y < Q * ls * stride) by (subst y; rewrite HQ in Hx; nia).
      pose proof (Nat.div_mod y (stride * ls) ltac:(nia)) as D1. pose proof (Nat.mod_upper_bound y (stride * ls) ltac:(nia)) as D2.
      set (q := y / (stride * ls)) in *. set (r := y mod (stride * ls)) in *.
      pose proof (Nat.div_mod r ls ltac:(lia)) as D3. pose proof (Nat.mod_upper_bound r ls ltac:(lia)) as D4.
      set (s := r / ls) in *. set (t := r mod ls) in *.
      exists (q * ls + t), s.
      assert (s < stride) by nia. assert (q < Q) by nia.
      assert ((q * ls + t) / ls = q) as ->.
      { symmetry. apply (Nat.div_unique _ ls q t); lia. }
      assert ((q * ls + t) mod ls = t) as ->.
      { symmetry. apply (Nat.mod_unique _ ls q t); lia. }
      split; [nia|]. split; auto. subst y. nia.
  Qed.

  Lemma blocked_good stride b : 1 <= stride -> offset_cell b + range0 b <= length np ->
    good_visit np stride (visit_blocked np stride) b.
  Proof.
    intros Hst Hc. exists (fun g1 s => (g1 + offset_layer b) * stride + s). split; [|split; [|split]].
    - intros g0 g1 H0 H1. unfold visit_blocked, rd. cbn [fst snd]. rewrite (nth_error_nth' np 0) by lia. cbn [obind].
      set (n := nth (g0 + offset_cell b) np 0). set (k := (g1 + offset_layer b) * stride).
      assert (G : forall m a, filter (fun w => snd w <? nth (fst w) np 0) (map (fun s => (g0 + offset_cell b, k + s)) (seq a m)) =
                  map (fun i => (g0 + offset_cell b, k + i)) (seq a (Nat.min (a + m) (n - k) - a))).
      { induction m as [|m IH]; intros a.
        - replace (Nat.min (a + 0) (n - k) - a) with 0 by lia. reflexivity.
        - cbn [seq map filter fst snd]. fold n. rewrite IH. destruct (Nat.ltb_spec (k + a) n).
          + replace (Nat.min (a + S m) (n - k) - a) with (S (Nat.min (S a + m) (n - k) - S a)) by lia. reflexivity.
          + replace (Nat.min (S a + m) (n - k) - S a) with 0 by lia.
            replace (Nat.min (a + S m) (n - k) - a) with 0 by lia. reflexivity. }
      rewrite G. destruct (Nat.ltb_spec k n).
      + unfold sub_. replace ((g1 + offset_layer b + 1) * stride) with (k + stride) by (subst k; nia).
        destruct (Nat.ltb_spec (Nat.min (k + stride) n) k); [lia|]. cbn [obind]. do 3 f_equal. lia.
      + replace (Nat.min (0 + stride) (n - k) - 0) with 0 by lia. reflexivity.
    - intros; nia.
    - intros g1 s g1' s' H1 H2 H1' H2' E.
      destruct (Nat.div_mod_unique stride (g1 + offset_layer b) (g1' + offset_layer b) s s'); auto; lia.
    - intros x Hx. pose proof (Nat.div_mod x stride ltac:(lia)). pose proof (Nat.mod_upper_bound x stride ltac:(lia)).
      exists (x / stride - offset_layer b), (x mod stride).
      assert (offset_layer b <= x / stride) by (apply Nat.div_le_lower_bound; lia).
      assert (x / stride < offset_layer b + range1 b) by (apply Nat.div_lt_upper_bound; lia).
      split; [lia|]. split; [auto|]. replace (x / stride - offset_layer b + offset_layer b) with (x / stride) by lia. lia.
  Qed.
End Modes.

(** ** The blocks made by get_generic *)
Lemma foldM_max h l m : (forall c, In c l -> c < length h) ->
  exists r, foldM (fun m c => npart <- rd h c ;; Some (Nat.max m npart)) m l = Some r /\ m <= r /\
    (forall c, In c l -> nth c h 0 <= r) /\ (r = m \/ exists c, In c l /\ nth c h 0 = r).
Proof.
  revert m. induction l as [|c l IH]; intros m Hl.
  - exists m. cbn. split; auto. split; auto. split; [tauto|auto].
  - cbn [foldM]. unfold rd at 1. rewrite (nth_error_nth' h 0) by (apply Hl; left; auto). cbn [obind].
    destruct (IH (Nat.max m (nth c h 0))) as [r [E [H1 [H2 H3]]]]; [intros; apply Hl; right; auto|].
    exists r. split; [exact E|]. split; [lia|]. split.
    + intros c' [<-|Hc]; [lia|auto].
    + destruct H3 as [->|[c' [Hc E']]]; [|right; exists c'; split; auto; right; auto].
      destruct (Nat.max_spec m (nth c h 0)) as [[_ ->]|[_ ->]]; auto. right. exists c. split; auto. left; auto.
Qed.

Lemma nonempty_range_spec h a b : b <= length h ->
  exists sv ev, nonempty_range h a b = Some (sv, ev) /\
    (forall c, a <= c < b -> nth c h 0 <> 0 -> sv <= c < ev) /\
    (sv < ev -> a <= sv /\ ev <= b).
Proof.
  intros Hb. unfold nonempty_range.
  assert (G : forall l s0 e0, (forall c, In c l -> a <= c < b) ->
    (s0 = length h /\ e0 = 0 \/ a <= s0 /\ e0 <= b /\ s0 < e0) ->
    exists sv ev, foldM (fun s c => occ <- rd h c ;;
             if occ =? 0 then Some s else Some (Nat.min (fst s) c, Nat.max (snd s) (c + 1))) (s0, e0) l = Some (sv, ev) /\
      sv <= s0 /\ e0 <= ev /\ (forall c, In c l -> nth c h 0 <> 0 -> sv <= c < ev) /\
      (sv = length h /\ ev = 0 \/ a <= sv /\ ev <= b /\ sv < ev)).
  { induction l as [|c l IH]; intros s0 e0 Hl H0.
    - exists s0, e0. cbn. repeat split; auto; tauto.
    - cbn [foldM]. pose proof (Hl c (or_introl eq_refl)) as Hc.
      unfold rd at 1. rewrite (nth_error_nth' h 0) by lia. cbn [obind fst snd].
      destruct (Nat.eqb_spec (nth c h 0) 0) as [Z|Z].
      + destruct (IH s0 e0) as [sv [ev [E [H1 [H2 [H3 H4]]]]]]; auto; [intros; apply Hl; right; auto|].
        exists sv, ev. split; auto. split; auto. split; auto. split; auto.
        intros c' [<-|Hc']; [tauto|auto].
      + destruct (IH (Nat.min s0 c) (Nat.max e0 (c + 1))) as [sv [ev [E [H1 [H2 [H3 H4]]]]]].
        * intros; apply Hl; right; auto.
        * right. lia.
        * exists sv, ev. split; auto. split; [lia|]. split; [lia|]. split; auto.
          intros c' [<-|Hc']; [lia|auto]. }
  destruct (G (seq a (b - a)) (length h) 0) as [sv [ev [E [_ [_ [H3 H4]]]]]].
  { intros c Hc. apply in_seq in Hc. lia. }
  { auto. }
  exists sv, ev. split; auto. split; [intros c Hc; apply H3; apply in_seq; lia|lia].
Qed.

Lemma occupancy_range_spec h a b : b <= length h ->
  exists mn mx, occupancy_range h a b = Some (mn, mx) /\ 1 <= mx /\
    (forall c, a <= c < b -> nth c h 0 <= mx) /\
    (a < b -> exists m, mn = Some m /\ forall c, a <= c < b -> m <= nth c h 0).
Proof.
  intros Hb. unfold occupancy_range.
  assert (G : forall l mn0 mx0, (forall c, In c l -> c < length h) ->
    exists mn mx, foldM (fun s c => occ <- rd h c ;;
             Some (match fst s with None => Some occ | Some m => Some (Nat.min m occ) end,
                   Nat.max (snd s) occ)) (mn0, mx0) l = Some (mn, mx) /\ mx0 <= mx /\
      (forall c, In c l -> nth c h 0 <= mx) /\
      (forall m0, mn0 = Some m0 -> exists m, mn = Some m /\ m <= m0 /\ forall c, In c l -> m <= nth c h 0) /\
      (l <> [] -> exists m, mn = Some m /\ forall c, In c l -> m <= nth c h 0)).
  { induction l as [|c l IH]; intros mn0 mx0 Hl.
    - exists mn0, mx0. cbn. split; auto. split; auto. split; [tauto|]. split; [|tauto].
      intros m0 ->. exists m0. split; auto. split; auto. tauto.
    - cbn [foldM]. unfold rd at 1. rewrite (nth_error_nth' h 0) by (apply Hl; left; auto). cbn [obind fst snd].
      edestruct IH as [mn [mx [E [H1 [H2 [H3 H4]]]]]]; [|exists mn, mx; split; [exact E|]].
      + intros; apply Hl; right; auto.
      + split; [lia|]. split; [intros c' [<-|Hc']; [lia|auto]|].
        assert (K : exists m, mn = Some m /\ (forall m0, mn0 = Some m0 -> m <= m0) /\ m <= nth c h 0 /\ forall c', In c' l -> m <= nth c' h 0).
        { destruct mn0 as [m0|].
          - destruct (H3 _ eq_refl) as [m [-> [A B]]]. exists m. split; auto. split; [intros m1 [= <-]; lia|]. split; [lia|auto].
          - destruct (H3 _ eq_refl) as [m [-> [A B]]]. exists m. split; auto. split; [discriminate|]. split; [lia|auto]. }
        destruct K as [m [-> [K1 [K2 K3]]]]. split.
        * intros m0 Hm. exists m. split; auto. split; auto. intros c' [<-|Hc']; auto.
        * intros _. exists m. split; auto. intros c' [<-|Hc']; auto. }
  destruct (G (seq a (b - a)) None 1) as [mn [mx [E [H1 [H2 [_ H4]]]]]].
  { intros c Hc. apply in_seq in Hc. lia. }
  exists mn, mx. split; auto. split; auto. split; [intros c Hc; apply H2, in_seq; lia|].
  intros Hab. destruct H4 as [m [-> H]].
  - destruct (b - a) eqn:Q; [lia|discriminate].
  - exists m. split; auto. intros c Hc. apply H, in_seq. lia.
Qed.

(** The launches [bs] exactly tile the particles of cells [a, b). *)
Definition tiles (np : list nat) (a b stride : nat) (bs : list block) : Prop :=
  (forall bk, In bk bs -> 1 <= range_local bk /\ range1 bk mod range_local bk = 0 /\
     offset_cell bk + range0 bk <= length np /\ a <= offset_cell bk /\ offset_cell bk + range0 bk <= b /\
     (bounds_check bk = false -> forall c, offset_cell bk <= c < offset_cell bk + range0 bk ->
        (offset_layer bk + range1 bk) * stride <= nth c np 0)) /\
  (forall c l, a <= c < b -> l < nth c np 0 -> exists bk, In bk bs /\ in_block stride bk (c, l)) /\
  (forall i j bk bk' w, nth_error bs i = Some bk -> nth_error bs j = Some bk' ->
     in_block stride bk w -> in_block stride bk' w -> i = j).

Lemma validate_inv lim r0 r1 ls u : validate_nd_range lim r0 r1 ls = Some u -> 1 <= ls /\ r1 mod ls = 0.
Proof.
  unfold validate_nd_range, assert. destruct (_ && _) eqn:E; [|discriminate]. intros _.
  rewrite !andb_true_iff in E. destruct E as [[_ E] F]. apply negb_true_iff, Nat.eqb_neq in E.
  apply Nat.eqb_eq in F. lia.
Qed.

Lemma peel_block_spec lim np nbin range sv m ls stride i r : 1 <= nbin -> 1 <= ls -> 1 <= stride -> i < nbin ->
  nbin <= range -> sv + range <= length np -> m mod stride = 0 ->
  peel_block lim np nbin range sv m ls stride i = Some r ->
  (exists G, r = [mk_block (decomp_start nbin range i + sv) (m / stride) true (decomp_end nbin range i - decomp_start nbin range i) G ls] /\
     G mod ls = 0 /\ forall c, decomp_start nbin range i + sv <= c < decomp_end nbin range i + sv -> nth c np 0 <= m + G * stride) \/
  (r = [] /\ forall c, decomp_start nbin range i + sv <= c < decomp_end nbin range i + sv -> nth c np 0 <= m).
Proof.
  intros Hn Hl Hs Hi Hr Hlen Hm. unfold peel_block.
  pose proof (decomp_nonempty nbin range i ltac:(lia) ltac:(lia)) as D1.
  pose proof (decomp_end_le nbin range i ltac:(lia) ltac:(lia)) as D2.
  set (s := decomp_start nbin range i) in *. set (e := decomp_end nbin range i) in *.
  destruct (foldM_max np (seq (s + sv) (e + sv - (s + sv))) 0) as [mx [E [_ [M1 M2]]]].
  { intros c Hc. apply in_seq in Hc. lia. }
  rewrite E. cbn [obind]. unfold sub_. destruct (Nat.ltb_spec mx m); [discriminate|]. cbn [obind].
  destruct (Nat.ltb_spec 0 (mx - m)).
  - destruct (validate_nd_range _ _ _ _) eqn:V; [|discriminate]. cbn [obind]. intros [= <-]. left.
    apply validate_inv in V. eexists. split; [f_equal; f_equal; lia|]. split; [tauto|].
    intros c Hc. specialize (M1 c). rewrite in_seq in M1. specialize (M1 ltac:(lia)).
    pose proof (next_multiple_div (mx - m) stride Hs) as [Q _].
    pose proof (global_size_spec (get_next_multiple (mx - m) stride / stride) ls Hl) as [_ [Q2 _]]. nia.
  - intros [= <-]. right. split; auto. intros c Hc. specialize (M1 c). rewrite in_seq in M1. specialize (M1 ltac:(lia)). lia.
Qed.

Lemma get_local_size_pos lim ls0 nb stride ls : get_local_size lim ls0 nb stride = Some ls -> 1 <= ls0 -> 1 <= ls <= ls0.
Proof.
  unfold get_local_size, assert. destruct (_ <=? _); [|discriminate]. cbn [obind].
  destruct (get_prev_power_of_two _) as [p|] eqn:E; [|discriminate]. cbn [obind].
  apply prev_pow2_pos in E. destruct (_ <=? _); [|discriminate]. intros [= <-] H. cbn [obind]. lia.
Qed.

Lemma get_generic_tiles lim np a b nbin ls0 nb stride bs : 1 <= stride -> b <= length np -> 1 <= nbin ->
  get_generic lim np a b nbin ls0 nb stride = Some bs -> tiles np a b stride bs.
Proof.
  intros Hst Hb Hnb. unfold get_generic.
  destruct (get_local_size _ _ _ _) as [l0|] eqn:El0; [|discriminate]. cbn [obind].
  unfold assert. destruct (Nat.ltb_spec 0 l0) as [Hl0|]; [|discriminate]. cbn [obind].
  destruct (nonempty_range_spec np a b Hb) as [sv [ev [E [R1 R2]]]]. rewrite E. cbn [obind]. clear E.
  destruct (Nat.leb_spec ev sv) as [Hev|Hev].
  { destruct (occupancy_range np sv ev) as [[mn mx]|]; [|discriminate]. cbn [obind].
    destruct (get_prev_power_of_two mx); [|discriminate]. cbn [obind]. intros [= <-].
    split; [intros ? []|]. split.
    - intros c l Hc Hl. specialize (R1 c Hc ltac:(lia)). lia.
    - intros [|] j bk bk' w; discriminate. }
  destruct (R2 Hev) as [Ra Rb].
  destruct (occupancy_range_spec np sv ev ltac:(lia)) as [mn [mx [E [O1 [O2 O3]]]]]. rewrite E. cbn [obind]. clear E.
  destruct (O3 Hev) as [m0 [-> O4]]. destruct (get_prev_power_of_two mx) as [p|] eqn:Ep; [|discriminate].
  apply prev_pow2_pos in Ep. cbn [obind].
  set (ls := if 2 * p <? l0 then 2 * p else l0).
  assert (Hls : 1 <= ls) by (subst ls; destruct (_ <? _); lia). clearbody ls.
  set (range := ev - sv) in *. set (nbin' := Nat.min nbin range).
  assert (Hm : exists k, m0 / (ls * stride) * (ls * stride) = k * ls * stride /\ k * ls * stride <= m0).
  { exists (m0 / (ls * stride)). split; [lia|]. pose proof (Nat.mul_div_le m0 (ls * stride) ltac:(nia)). lia. }
  destruct Hm as [k [Ek Hk]]. rewrite Ek. clear Ek.
  assert (Dk : k * ls * stride / stride = k * ls) by (apply Nat.div_mul; lia). rewrite Dk.
  assert (Mk : k * ls * stride mod stride = 0) by (apply Nat.mod_mul; lia).
  destruct (if 0 <? k * ls * stride then _ else _) as [first|] eqn:Ef; [|discriminate]. cbn [obind].
  destruct (mapM _ (seq 0 nbin')) as [peels|] eqn:Epl; [|discriminate]. cbn [obind]. intros [= <-].
  assert (Hrange : 1 <= range) by (subst range; lia).
  assert (Hnb' : 1 <= nbin' <= range) by (subst nbin'; lia). clearbody nbin'.
  assert (Hlen : sv + range <= length np) by (subst range; lia).
  assert (PS : forall i r, nth_error peels i = Some r -> i < nbin' /\
     peel_block lim np nbin' range sv (k * ls * stride) ls stride i = Some r).
  { intros i r Hr. pose proof (mapM_length _ _ _ Epl) as L. rewrite seq_length in L.
    assert (i < nbin') by (apply nth_error_some_lt in Hr; lia). split; auto.
    pose proof (mapM_nth _ _ _ i i Epl) as Q. rewrite nth_error_seq in Q.
    destruct (Nat.ltb_spec i nbin'); [|lia]. specialize (Q eq_refl). cbn in Q. congruence. }
  assert (F : (first = [mk_block sv 0 false range (k * ls) ls] /\ 1 <= k) \/ (first = [] /\ k = 0)).
  { destruct (Nat.ltb_spec 0 (k * ls * stride)).
    - destruct (validate_nd_range _ _ _ _); [|discriminate]. injection Ef as <-. left. split; auto. nia.
    - injection Ef as <-. right. split; auto. nia. }
  assert (PB : forall bk, In bk (concat peels) -> exists i G, i < nbin' /\ nth_error peels i = Some [bk] /\
      bk = mk_block (decomp_start nbin' range i + sv) (k * ls) true (decomp_end nbin' range i - decomp_start nbin' range i) G ls /\
      G mod ls = 0).
  { intros bk Hbk. apply in_concat in Hbk. destruct Hbk as [r [Hr Hbk]]. apply In_nth_error in Hr. destruct Hr as [i Hr].
    destruct (PS i r Hr) as [Hi Q]. apply peel_block_spec in Q; auto; try lia.
    rewrite Dk in Q. destruct Q as [[G [-> [Q1 Q2]]]|[-> _]]; [|destruct Hbk].
    destruct Hbk as [<-|[]]. exists i, G. auto. }
  split; [|split].
  - intros bk Hbk. apply in_app_iff in Hbk. destruct Hbk as [Hbk|Hbk].
    + destruct F as [[-> _]|[-> _]]; [|destruct Hbk]. destruct Hbk as [<-|[]]. cbn [offset_cell offset_layer range0 range1 range_local bounds_check].
      split; auto. split; [apply Nat.mod_mul; lia|]. split; auto. split; [lia|]. split; [lia|].
      intros _ c Hc. specialize (O4 c ltac:(lia)). lia.
    + destruct (PB bk Hbk) as [i [G [Hi [_ [-> HG]]]]]. cbn [offset_cell offset_layer range0 range1 range_local bounds_check].
      pose proof (decomp_nonempty nbin' range i ltac:(lia) ltac:(lia)).
      pose proof (decomp_end_le nbin' range i ltac:(lia) ltac:(lia)).
      split; auto. split; auto. split; [lia|]. split; [lia|]. split; [lia|]. discriminate.
  - intros c l Hc Hl. pose proof (R1 c Hc ltac:(lia)) as Hcv.
    destruct (Nat.lt_ge_cases l (k * ls * stride)) as [Hlk|Hlk].
    + destruct F as [[-> Hk1]|[-> ->]]; [|lia]. eexists. split; [left; reflexivity|].
      unfold in_block. cbn [offset_cell offset_layer range0 range1 fst snd]. lia.
    + destruct (decomp_cover nbin' range (c - sv) ltac:(lia) ltac:(lia)) as [i [Hi Di]].
      destruct (nth_error_lt_some peels i) as [r Hr].
      { pose proof (mapM_length _ _ _ Epl) as L. rewrite seq_length in L. lia. }
      destruct (PS i r Hr) as [_ Q]. apply peel_block_spec in Q; auto; try lia. rewrite Dk in Q.
      destruct Q as [[G [-> [Q1 Q2]]]|[-> Q2]]; specialize (Q2 c ltac:(lia)); [|lia].
      eexists. split.
      * apply in_app_iff. right. apply in_concat. eexists. split; [apply (nth_error_In _ _ Hr)|left; reflexivity].
      * unfold in_block. cbn [offset_cell offset_layer range0 range1 fst snd]. split; [lia|]. nia.
  - (* disjointness: positions determine the bin *)
    assert (ND : forall i j bk bk' w, nth_error (concat peels) i = Some bk -> nth_error (concat peels) j = Some bk' ->
       in_block stride bk w -> in_block stride bk' w -> i = j).
    { assert (U : forall i j bk bk' w, In bk (concat peels) -> nth_error peels i = Some [bk] -> nth_error peels j = Some [bk'] ->
         In bk' (concat peels) -> in_block stride bk w -> in_block stride bk' w -> i = j).
      { intros i j bk bk' [c l] _ Hi Hj _ H1 H2. destruct (PS i _ Hi) as [Li Qi]. destruct (PS j _ Hj) as [Lj Qj].
        apply peel_block_spec in Qi; auto; try lia. apply peel_block_spec in Qj; auto; try lia.
        destruct Qi as [[G [Qi _]]|[Qi _]]; [|discriminate]. destruct Qj as [[G' [Qj _]]|[Qj _]]; [|discriminate].
        injection Qi as ->. injection Qj as ->. unfold in_block in H1, H2.
        cbn [offset_cell offset_layer range0 range1 fst snd] in H1, H2.
        apply (decomp_unique nbin' range (c - sv) i j); lia. }
      assert (SZ : forall r, In r peels -> length r <= 1).
      { intros r Hr. apply In_nth_error in Hr. destruct Hr as [i Hr]. destruct (PS i r Hr) as [Li Qi].
        apply peel_block_spec in Qi; auto; try lia. destruct Qi as [[G [-> _]]|[-> _]]; cbn; lia. }
      clear - U SZ. 
      assert (FI : forall (ps : list (list block)) i bk, (forall r, In r ps -> length r <= 1) -> nth_error (concat ps) i = Some bk ->
        exists q, nth_error ps q = Some [bk] /\ i = length (concat (firstn q ps))).
      { induction ps as [|r ps IH]; intros i bk Hs Hi; [destruct i; discriminate|].
        cbn [concat] in Hi. pose proof (Hs r (or_introl eq_refl)) as Hr.
        destruct r as [|x [|]]; cbn in Hr; [| |lia].
        - destruct (IH i bk) as [q [Q1 Q2]]; auto; [intros; apply Hs; right; auto|]. exists (S q). auto.
        - destruct i as [|i]; cbn in Hi.
          + injection Hi as ->. exists 0. auto.
          + destruct (IH i bk) as [q [Q1 Q2]]; auto; [intros; apply Hs; right; auto|]. exists (S q). cbn. auto. }
      intros i j bk bk' w Hi Hj H1 H2. destruct (FI peels i bk SZ Hi) as [q [Q1 ->]]. destruct (FI peels j bk' SZ Hj) as [q' [Q1' ->]].
      assert (q = q').
      { apply (U q q' bk bk' w); auto; eapply nth_error_In; eauto. }
      congruence. }
    destruct F as [[-> Hk1]|[-> _]]; [|exact ND].
    assert (X : forall j bk w, nth_error (concat peels) j = Some bk -> in_block stride (mk_block sv 0 false range (k * ls) ls) w -> in_block stride bk w -> False).
    { intros j bk [c l] Hj H1 H2. destruct (PB bk (nth_error_In _ _ Hj)) as [i [G [Hi [_ [-> HG]]]]].
      unfold in_block in H1, H2. cbn [offset_cell offset_layer range0 range1 fst snd] in H1, H2. lia. }
    intros [|i] [|j] bk bk' w Hi Hj H1 H2; cbn [nth_error app] in Hi, Hj; auto.
    + injection Hi as <-. exfalso. eauto.
    + injection Hj as <-. exfalso. eauto.
    + f_equal. eauto.
Qed.

Lemma in_particles_of_cells np a b c l : In (c, l) (particles_of_cells np a b) <-> a <= c < b /\ l < nth c np 0.
Proof.
  unfold particles_of_cells. rewrite in_flat_map. split.
  - intros [c' [H1 H2]]. apply in_map_iff in H2. destruct H2 as [l' [[= -> ->] H2]]. apply in_seq in H1, H2. lia.
  - intros [H1 H2]. exists c. split; [apply in_seq; lia|]. apply in_map_iff. exists l. split; auto. apply in_seq. lia.
Qed.

Lemma particles_of_cells_nodup np a b : NoDup (particles_of_cells np a b).
Proof.
  apply NoDup_flat_map; [apply seq_NoDup| |].
  - intros c _. apply NoDup_map_inj; [congruence|apply seq_NoDup].
  - intros c c' w _ _ H1 H2. apply in_map_iff in H1, H2. destruct H1 as [? [<- _]], H2 as [? [[= ->] _]]. auto.
Qed.

Lemma tiles_visits np a b stride visit bs : tiles np a b stride bs ->
  (forall bk, In bk bs -> good_visit np stride visit bk) ->
  exists vs, all_visits visit bs = Some vs /\ Permutation vs (particles_of_cells np a b).
Proof.
  intros [T1 [T2 T3]] Hg. destruct (all_visits_spec np stride visit bs Hg T3) as [vs [E [N I]]].
  exists vs. split; auto. apply NoDup_Permutation; auto using particles_of_cells_nodup.
  intros [c l]. rewrite I, in_particles_of_cells. cbn [fst snd]. split.
  - intros [[bk [Hb [H1 H2]]] H3]. cbn [fst snd] in *. destruct (T1 bk Hb) as (_ & _ & _ & A & B & _). lia.
  - intros [H1 H2]. auto.
Qed.

(** ** Success *)
Lemma validate_ok lim r0 r1 ls : (lim_global0 lim = 0 \/ r0 <= lim_global0 lim) ->
  (lim_global1 lim = 0 \/ r1 <= lim_global1 lim) -> 1 <= ls <= lim_group lim -> r1 mod ls = 0 ->
  validate_nd_range lim r0 r1 ls = Some tt.
Proof.
  intros H0 H1 H2 H3. unfold validate_nd_range, assert.
  replace (_ && _) with true; auto. symmetry.
  rewrite !andb_true_iff, !orb_true_iff, !negb_true_iff, !Nat.eqb_eq, !Nat.leb_le, Nat.eqb_neq.
  repeat split; auto; lia.
Qed.

Lemma get_generic_some lim np a b nbin ls0 stride : ample lim np ls0 -> 1 <= stride -> b <= length np -> 1 <= nbin ->
  exists bs, get_generic lim np a b nbin ls0 0 stride = Some bs.
Proof.
  intros [A0 [A1 A2]] Hst Hb Hnb. unfold get_generic, get_local_size.
  rewrite !Nat.mul_0_r. cbn [Nat.leb Nat.eqb assert obind].
  destruct (prev_pow2_some ls0 ltac:(lia)) as [p0 [-> [P1 P2]]]. cbn [obind].
  rewrite !Nat.mul_0_r. cbn [Nat.leb assert obind]. set (l0 := Nat.min p0 ls0).
  assert (Hl0 : 1 <= l0 <= ls0) by (subst l0; lia). clearbody l0.
  destruct (Nat.ltb_spec 0 l0); [|lia]. cbn [assert obind].
  destruct (nonempty_range_spec np a b Hb) as [sv [ev [E [R1 R2]]]]. rewrite E. cbn [obind]. clear E.
  destruct (Nat.leb_spec ev sv) as [Hev|Hev].
  { assert (occupancy_range np sv ev = Some (None, 1)) as ->.
    { unfold occupancy_range. replace (ev - sv) with 0 by lia. reflexivity. }
    cbn [obind]. destruct (prev_pow2_some 1 ltac:(lia)) as [q [-> _]]. cbn [obind]. eauto. }
  destruct (R2 Hev) as [Ra Rb].
  destruct (occupancy_range_spec np sv ev ltac:(lia)) as [mn [mx [E [O1 [O2 O3]]]]]. rewrite E. cbn [obind]. clear E.
  destruct (O3 Hev) as [m0 [-> O4]]. destruct (prev_pow2_some mx O1) as [p [-> [P3 P4]]]. cbn [obind].
  set (ls := if 2 * p <? l0 then 2 * p else l0).
  assert (Hls : 1 <= ls <= ls0) by (subst ls; destruct (Nat.ltb_spec (2 * p) l0); lia). clearbody ls.
  set (range := ev - sv) in *. set (nbin' := Nat.min nbin range).
  assert (Hm : exists k, m0 / (ls * stride) * (ls * stride) = k * ls * stride /\ k * ls * stride <= m0).
  { exists (m0 / (ls * stride)). split; [lia|]. pose proof (Nat.mul_div_le m0 (ls * stride) ltac:(nia)). lia. }
  destruct Hm as [k [Ek Hk]]. rewrite Ek. clear Ek.
  assert (Dk : k * ls * stride / stride = k * ls) by (apply Nat.div_mul; lia). rewrite Dk.
  assert (Hr : 1 <= range) by (subst range; lia).
  assert (Hnb' : 1 <= nbin' <= range) by (subst nbin'; lia). clearbody nbin'.
  assert (Hlen : sv + range <= length np) by (subst range; lia).
  assert (A1' : forall c, sv <= c < ev -> lim_global1 lim = 0 \/ nth c np 0 + ls0 <= lim_global1 lim).
  { intros c Hc. destruct A1 as [A1|A1]; auto. right. apply A1. apply nth_In. lia. }
  assert (exists first, (if 0 <? k * ls * stride then
      _ <- validate_nd_range lim range (k * ls) ls ;; Some [mk_block sv 0 false range (k * ls) ls] else Some []) = Some first) as [first ->].
  { destruct (0 <? k * ls * stride); [|eauto]. rewrite validate_ok; [cbn [obind]; eauto| | | |].
    - destruct A0; [auto|right; lia].
    - destruct (A1' sv ltac:(lia)); [auto|right]. specialize (O4 sv ltac:(lia)). nia.
    - lia.
    - apply Nat.mod_mul; lia. }
  cbn [obind].
  destruct (mapM_total (peel_block lim np nbin' range sv (k * ls * stride) ls stride) (seq 0 nbin')) as [r ->]; [|cbn [obind]; eauto].
  intros i Hi. apply in_seq in Hi. unfold peel_block.
  pose proof (decomp_nonempty nbin' range i ltac:(lia) ltac:(lia)) as D1.
  pose proof (decomp_end_le nbin' range i ltac:(lia) ltac:(lia)) as D2.
  set (s := decomp_start nbin' range i) in *. set (e := decomp_end nbin' range i) in *.
  destruct (foldM_max np (seq (s + sv) (e + sv - (s + sv))) 0) as [mx' [E [_ [M1 M2]]]].
  { intros c Hc. apply in_seq in Hc. lia. }
  rewrite E. cbn [obind]. unfold sub_.
  assert (Hmm : k * ls * stride <= mx').
  { specialize (M1 (s + sv)). rewrite in_seq in M1. specialize (M1 ltac:(lia)). specialize (O4 (s + sv) ltac:(lia)). lia. }
  destruct (Nat.ltb_spec mx' (k * ls * stride)); [lia|]. cbn [obind].
  destruct (Nat.ltb_spec 0 (mx' - k * ls * stride)); [|eauto].
  destruct (global_size_spec (get_next_multiple (mx' - k * ls * stride) stride / stride) ls ltac:(lia)) as [G1 [G2 G3]].
  destruct (next_multiple_div (mx' - k * ls * stride) stride Hst) as [G4 G5].
  rewrite validate_ok; [cbn [obind]; eauto| | | |auto].
  - destruct A0; [auto|right; lia].
  - destruct M2 as [->|[c [Hc M2]]]; [lia|]. apply in_seq in Hc. destruct (A1' c ltac:(lia)); [auto|right; lia].
  - lia.
Qed.

(** ** The whole loop *)
Lemma call_names_le ncell cs ce a b : call_names ncell cs ce a b -> a <= ncell /\ b <= ncell.
Proof. intros []; lia. Qed.

Lemma no_particles_nil np a b : (forall c, a <= c < b -> nth c np 0 = 0) -> particles_of_cells np a b = [].
Proof.
  intros H. destruct (particles_of_cells np a b) as [|[c l] r] eqn:E; auto.
  assert (K : In (c, l) (particles_of_cells np a b)) by (rewrite E; left; auto).
  apply in_particles_of_cells in K. rewrite H in K; lia.
Qed.

Lemma list_sum_zero np : list_sum np = 0 -> forall c, nth c np 0 = 0.
Proof.
  induction np as [|n np IH]; intros H [|c]; cbn in *; auto; try lia. apply IH. unfold list_sum in *. lia.
Qed.

Lemma tiles_nil np a b stride : (forall c, a <= c < b -> nth c np 0 = 0) -> tiles np a b stride [].
Proof.
  intros H. split; [intros ? []|]. split.
  - intros c l Hc. rewrite H by auto. lia.
  - intros [|] j bk bk' w; discriminate.
Qed.

Lemma prepare_submit_tiles lim np has_group nbin ls0 stride cs ce a b bs : call_names (length np) cs ce a b ->
  1 <= stride -> 1 <= nbin ->
  prepare_submit lim np has_group (list_sum np) nbin ls0 stride cs ce = Some bs -> tiles np a b stride bs.
Proof.
  intros Hc Hst Hnb. unfold prepare_submit.
  assert (Hab := call_names_le _ _ _ _ _ Hc).
  assert (D : exists al, determine_iteration_set (length np) cs ce = Some (al, Z.of_nat a, Z.of_nat b) /\
            (al = true -> a = 0 /\ b = length np)).
  { destruct Hc; cbn [determine_iteration_set].
    - exists true. auto.
    - exists false. split; [|discriminate]. do 3 f_equal. lia.
    - eexists. split; [reflexivity|]. rewrite andb_true_iff, !Z.eqb_eq. lia. }
  destruct D as [al [-> Dal]]. cbn [obind]. unfold iteration_set_is_empty. rewrite !Nat2Z.id.
  destruct al; cbn [negb].
  - destruct (Dal eq_refl) as [-> ->]. destruct has_group; cbn [obind].
    + destruct (Nat.eqb_spec (list_sum np) 0) as [Z|Z].
      * intros [= <-]. apply tiles_nil. intros; apply list_sum_zero; auto.
      * apply get_generic_tiles; auto.
    + apply get_generic_tiles; auto.
  - unfold assert. destruct (_ && _)%bool; [|discriminate]. cbn [obind].
    destruct (foldM_max np (seq a (b - a)) 0) as [r [E [_ [M1 M2]]]].
    { intros c Hc'. apply in_seq in Hc'. lia. }
    rewrite E. cbn [obind]. destruct (Nat.eqb_spec r 0).
    + intros [= <-]. apply tiles_nil. intros c Hc'. specialize (M1 c). rewrite in_seq in M1. specialize (M1 ltac:(lia)). lia.
    + apply get_generic_tiles; auto; lia.
Qed.

Lemma prepare_submit_some lim np has_group nbin ls0 stride cs ce a b : call_names (length np) cs ce a b ->
  1 <= stride -> 1 <= nbin -> ample lim np ls0 ->
  exists bs, prepare_submit lim np has_group (list_sum np) nbin ls0 stride cs ce = Some bs.
Proof.
  intros Hc Hst Hnb Ha. unfold prepare_submit.
  assert (Hab := call_names_le _ _ _ _ _ Hc).
  assert (D : exists al, determine_iteration_set (length np) cs ce = Some (al, Z.of_nat a, Z.of_nat b)).
  { destruct Hc; cbn [determine_iteration_set]; eexists; f_equal; f_equal; lia. }
  destruct D as [al ->]. cbn [obind]. unfold iteration_set_is_empty. rewrite !Nat2Z.id.
  destruct al; cbn [negb].
  - destruct has_group; cbn [obind]; [destruct (_ =? _); [eauto|]|]; apply get_generic_some; auto.
  - unfold assert. replace (_ && _)%bool with true.
    2:{ symmetry. rewrite !andb_true_iff, !Z.ltb_lt, !Z.leb_le. lia. }
    cbn [obind]. destruct (foldM_max np (seq a (b - a)) 0) as [r [E _]].
    { intros c Hc'. apply in_seq in Hc'. lia. }
    rewrite E. cbn [obind]. destruct (_ =? _); [eauto|]. apply get_generic_some; auto; lia.
Qed.

Lemma tiles_plain np a b single bs : tiles np a b 1 bs ->
  exists vs, all_visits (visit_plain np single) bs = Some vs /\ Permutation vs (particles_of_cells np a b).
Proof.
  intros T. apply (tiles_visits np a b 1); auto. intros bk Hb. destruct T as [T _].
  destruct (T bk Hb) as (_ & _ & A & _ & _ & B). apply plain_good; auto.
  intros Q c Hc. specialize (B Q c Hc). lia.
Qed.

Lemma tiles_reduction np a b stride bs : 1 <= stride -> tiles np a b stride bs ->
  exists vs, all_visits (visit_reduction np stride) bs = Some vs /\ Permutation vs (particles_of_cells np a b).
Proof.
  intros Hst T. apply (tiles_visits np a b stride); auto. intros bk Hb. destruct T as [T _].
  destruct (T bk Hb) as (A & B & C & _). apply interlaced_good; auto.
Qed.

Lemma tiles_blocked np a b stride bs : 1 <= stride -> tiles np a b stride bs ->
  exists vs, all_visits (visit_blocked np stride) bs = Some vs /\ Permutation vs (particles_of_cells np a b).
Proof.
  intros Hst T. apply (tiles_visits np a b stride); auto. intros bk Hb. destruct T as [T _].
  destruct (T bk Hb) as (A & B & C & _). apply blocked_good; auto.
Qed.

Lemma bad_range lim np has_group n nbin ls0 stride cs ce :
  (exists s e, determine_iteration_set (length np) cs ce = Some (false, s, e) /\
     (s < 0 \/ e < 0 \/ Z.of_nat (length np) < s \/ Z.of_nat (length np) < e)%Z) ->
  prepare_submit lim np has_group n nbin ls0 stride cs ce = None.
Proof.
  intros [s [e [E H]]]. unfold prepare_submit. rewrite E. cbn [obind]. unfold iteration_set_is_empty. cbn [negb].
  unfold assert. destruct (_ && _)%bool eqn:Q; auto. exfalso.
  rewrite !andb_true_iff, !Z.ltb_lt, !Z.leb_le in Q. lia.
Qed.

(** ** Linear indices *)
Lemma numbers_densely_intro {A} (f : A -> option nat) (g : A -> nat) l : NoDup l ->
  (forall a, In a l -> f a = Some (g a)) ->
  (forall a b, In a l -> In b l -> g a = g b -> a = b) ->
  (forall a, In a l -> g a < length l) -> numbers_densely f l.
Proof.
  intros N F I L. exists (map g l). split.
  - induction l as [|a l IH]; cbn [map]; constructor; [apply F; left; auto|].
    assert (G : forall l', (forall x, In x l' -> In x (a :: l)) -> Forall2 (fun a n => f a = Some n) l' (map g l')).
    { induction l' as [|x l' IH']; intros Hl; constructor; [apply F, Hl; left; auto|]. apply IH'. intros; apply Hl; right; auto. }
    apply G. intros; right; auto.
  - apply NoDup_Permutation_bis.
    + apply NoDup_map_inj; auto.
    + rewrite seq_length, map_length. lia.
    + intros n Hn. apply in_map_iff in Hn. destruct Hn as [a [<- Ha]]. apply in_seq. specialize (L a Ha). lia.
Qed.

Lemma particles_of_cells_length np a b : a <= b -> b <= length np ->
  length (particles_of_cells np a b) = psum np b - psum np a.
Proof.
  intros Hab. induction Hab as [|b Hab IH]; intros Hb.
  - unfold particles_of_cells. rewrite Nat.sub_diag. cbn. lia.
  - unfold particles_of_cells in *. replace (S b - a) with (S (b - a)) by lia.
    rewrite seq_S, flat_map_app, app_length, IH by lia. replace (a + (b - a)) with b by lia.
    cbn [flat_map]. rewrite app_nil_r, map_length, seq_length.
    rewrite (psum_S np b (nth b np 0)) by (apply nth_error_nth'; lia).
    pose proof (psum_mono np a b Hab). lia.
Qed.

Lemma prefix_sums_psum np es c : prefix_sums np es -> c < length np -> rd es c = Some (psum np c).
Proof. intros H Hc. unfold rd. rewrite H by auto. reflexivity. Qed.

Lemma psum_inj np c l c' l' : c < length np -> c' < length np -> l < nth c np 0 -> l' < nth c' np 0 ->
  psum np c + l = psum np c' + l' -> (c, l) = (c', l').
Proof.
  intros Hc Hc' Hl Hl' E.
  destruct (psum_unique np c c' l l' (nth c np 0) (nth c' np 0)) as [-> ->]; auto using nth_error_nth'.
Qed.

Lemma psum_top np c l b : c < b -> b <= length np -> l < nth c np 0 -> psum np c + l < psum np b.
Proof. intros Hc Hb Hl. pose proof (psum_lt np c b (nth c np 0) ltac:(apply nth_error_nth'; lia) Hc). lia. Qed.

Lemma loop_index_dense np es a b vs : prefix_sums np es -> b <= length np ->
  Permutation vs (particles_of_cells np a b) ->
  numbers_densely (fun w => get_loop_linear_index es a (fst w) (snd w)) vs.
Proof.
  intros He Hb P. destruct (Nat.le_gt_cases b a) as [Hba|Hab].
  { assert (vs = []) as ->.
    { apply Permutation_nil. symmetry. replace (particles_of_cells np a b) with (@nil (nat * nat)) in P; auto.
      unfold particles_of_cells. replace (b - a) with 0 by lia. auto. }
    exists []. split; [constructor|apply Permutation_refl]. }
  assert (I : forall c l, In (c, l) vs -> a <= c < b /\ l < nth c np 0).
  { intros c l H. apply in_particles_of_cells. apply (Permutation_in _ P H). }
  apply (numbers_densely_intro _ (fun w => psum np (fst w) + snd w - psum np a)).
  - apply (Permutation_NoDup (Permutation_sym P)), particles_of_cells_nodup.
  - intros [c l] H. apply I in H. cbn [fst snd]. unfold get_loop_linear_index.
    rewrite !(prefix_sums_psum np) by (auto; lia). cbn [obind]. unfold sub_.
    pose proof (psum_mono np a c ltac:(lia)). destruct (Nat.ltb_spec (psum np c + l) (psum np a)); [lia|auto].
  - intros [c l] [c' l'] H H' E. apply I in H, H'. cbn [fst snd] in E.
    pose proof (psum_mono np a c ltac:(lia)). pose proof (psum_mono np a c' ltac:(lia)).
    apply (psum_inj np); lia.
  - intros [c l] H. apply I in H. cbn [fst snd]. rewrite (Permutation_length P), particles_of_cells_length by lia.
    pose proof (psum_top np c l b ltac:(lia) Hb ltac:(lia)). pose proof (psum_mono np a c ltac:(lia)). lia.
Qed.

Lemma loop_index_zero np es w : prefix_sums np es -> fst w < length np ->
  get_loop_linear_index es 0 (fst w) (snd w) = get_local_linear_index es (fst w) (snd w).
Proof.
  intros He Hc. unfold get_loop_linear_index, get_local_linear_index.
  rewrite !(prefix_sums_psum np) by (auto; lia). cbn [obind]. unfold sub_. change (psum np 0) with 0.
  destruct (Nat.ltb_spec (psum np (fst w) + snd w) 0); [lia|]. f_equal. lia.
Qed.

Lemma numbers_densely_ext {A} (f g : A -> option nat) l : (forall a, In a l -> f a = g a) ->
  numbers_densely f l -> numbers_densely g l.
Proof.
  intros H [ns [F P]]. exists ns. split; auto. clear P. induction F; constructor.
  - rewrite <- H; auto. left; auto.
  - apply IHF. intros; apply H; right; auto.
Qed.

Lemma local_index_dense np es vs : prefix_sums np es -> Permutation vs (particles_of_cells np 0 (length np)) ->
  numbers_densely (fun w => get_local_linear_index es (fst w) (snd w)) vs.
Proof.
  intros He P. apply (numbers_densely_ext (fun w => get_loop_linear_index es 0 (fst w) (snd w))).
  - intros [c l] H. apply (loop_index_zero np); auto. cbn [fst]. apply (Permutation_in _ P) in H. apply in_particles_of_cells in H. lia.
  - apply (loop_index_dense np es 0 (length np)); auto.
Qed.

(** The index of a particle does not depend on which cells the loop visits: it is
    the position of the particle when the cells are walked in order. *)
Lemma local_index_distinct np es c l c' l' i : prefix_sums np es -> c < length np -> c' < length np ->
  l < nth c np 0 -> l' < nth c' np 0 ->
  get_local_linear_index es c l = Some i -> get_local_linear_index es c' l' = Some i -> (c, l) = (c', l').
Proof.
  intros He Hc Hc' Hl Hl'. unfold get_local_linear_index. rewrite !(prefix_sums_psum np) by auto. cbn [obind].
  intros [= <-] [= E]. apply (psum_inj np); auto.
Qed.
