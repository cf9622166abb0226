(** Proofs about histories of the sampler without replacement and about pair loops
    over its list. *)
From Coq Require Import List Arith Lia ZArith QArith Bool Permutation.
Import ListNotations.
From Verif Require AllToAll_Proofs World_Proofs.
From Verif Require Import Base Kernel Compress_Model Mesh_Model PairList_Model PairList_Spec PairSimple_Proofs PairSet_Proofs PairHistory_Proofs
  PairLoop_Proofs PairOrder_Proofs PairSerial_Proofs Maps_Model Maps_Props
  Partition_Model Partition_Spec Partition_Proofs SamplerNR_Model SamplerNR_Spec SamplerNR_Proofs SamplerNRKernel_Proofs SamplerNRReach_Proofs.
Local Open Scope nat_scope.

Lemma partition_of_constructed d cells parts ccells a b cp : device_ok d -> 0 < cells -> partition_of d cells parts ccells a b cp ->
  exists W ids qa qb, valid cells ids parts ccells /\ constructed W cells ids parts ccells cp /\ lin ids a = Some qa /\ lin ids b = Some qb.
Proof.
  intros Hd Hc [W [f [ids [history [k [HW [Hf [Hi [Ha [Hb [HV HP]]]]]]]]]]].
  destruct (history_ok d W f cells ids history (mk_construction k parts ccells) Hd HW Hf Hi Hc HV) as [s [E C]].
  rewrite HP in E. injection E as <-. cbn [parts_of counts_of] in C.
  destruct (lin ids a) as [qa|] eqn:Qa; [|apply lin_none in Qa; tauto]. destruct (lin ids b) as [qb|] eqn:Qb; [|apply lin_none in Qb; tauto].
  exists W, ids, qa, qb. split; [|auto]. apply (HV (mk_construction k parts ccells)), in_elt.
Qed.

Lemma create_base d cells k : sampler_base cells (sampler_create d cells k).
Proof.
  constructor; cbn; rewrite ?fresh_length; auto. exists (fun _ => 0). unfold pls, shape3. apply nth_error_ext. intros i.
  rewrite nth_error_map, nth_error_map_seq. destruct (Nat.ltb_spec i cells).
  - rewrite nth_error_repeat by auto. auto.
  - replace (nth_error (repeat _ cells) i) with (@None (list (list nat))); auto. symmetry. apply nth_error_None. rewrite repeat_length. auto.
Qed.

Lemma request_sample d cells parts ccells r s : device_ok d -> 0 < cells -> request_ok d cells parts ccells r -> sampler_base cells s ->
  exists s' P, sample d cells (q_k r) s (q_partition r) (q_a r) (q_b r) (q_counts r) (q_rng r) = Some s' /\ sampler_base cells s' /\
    rep cells s' true (fun c => [concat (P c)]) /\
    forall c, c < cells -> as_requested parts (q_a r) (q_b r) (nth c (q_counts r) []) c (P c).
Proof.
  intros Hd Hc [HP [HN [HR HL]]] HS.
  destruct (partition_of_constructed _ _ _ _ _ _ _ Hd Hc HP) as [W [ids [qa [qb [HV [HC [HA HB]]]]]]].
  destruct (sample_ok d cells W ids parts ccells (q_partition r) (q_a r) (q_b r) qa qb (q_counts r) (q_rng r) Hd Hc HV HC HA HB HR HL (q_k r) s HS)
    as [s' [E [B R]]].
  exists s', (Pof d cells parts (q_partition r) (q_a r) (q_b r) qa qb (q_counts r) (q_rng r) (q_k r + 11)). split; auto. split; auto. split; auto.
  intros c Hx. eapply Pof_requested; eauto.
Qed.

Lemma sampler_earlier d cells k earlier : device_ok d -> 0 < cells ->
  (forall r, In r earlier -> exists parts ccells, request_ok d cells parts ccells r) ->
  exists s1, sampler_after d cells k earlier = Some s1 /\ sampler_base cells s1.
Proof.
  intros Hd Hc He. unfold sampler_after.
  pose proof (create_base d cells k) as B. revert B. generalize (sampler_create d cells k). induction earlier as [|r l IH]; intros s0 B; [exists s0; auto|].
  cbn [foldM]. destruct (He r (or_introl eq_refl)) as [p [cc Hr]]. destruct (request_sample d cells p cc r s0 Hd Hc Hr B) as [s' [P [E [B' _]]]].
  rewrite E. cbn [obind]. apply IH; auto. intros; apply He; right; auto.
Qed.

Lemma sampler_snoc d cells k earlier last s1 : sampler_after d cells k earlier = Some s1 ->
  sampler_after d cells k (earlier ++ [last]) = sample d cells (q_k last) s1 (q_partition last) (q_a last) (q_b last) (q_counts last) (q_rng last).
Proof.
  intros E1. unfold sampler_after in *. rewrite foldM_app, E1. cbn [obind foldM]. destruct (sample _ _ _ _ _ _ _ _ _); auto.
Qed.

Lemma sampler_history d cells k earlier last parts ccells : device_ok d -> 0 < cells ->
  (forall r, In r earlier -> exists parts ccells, request_ok d cells parts ccells r) -> request_ok d cells parts ccells last ->
  exists s P, sampler_after d cells k (earlier ++ [last]) = Some s /\ rep cells s true (fun c => [concat (P c)]) /\
    forall c, c < cells -> as_requested parts (q_a last) (q_b last) (nth c (q_counts last) []) c (P c).
Proof.
  intros Hd Hc He Hl. destruct (sampler_earlier d cells k earlier Hd Hc He) as [s1 [E1 B1]]. rewrite (sampler_snoc _ _ _ _ _ _ E1).
  destruct (request_sample d cells parts ccells last s1 Hd Hc Hl B1) as [s' [P [E [_ [R A]]]]]. eauto.
Qed.

Lemma sampler_reach d cells k earlier last parts ccells P : device_ok d -> 0 < cells ->
  (forall r, In r earlier -> exists parts ccells, request_ok d cells parts ccells r) -> request_ok d cells parts ccells last ->
  (forall c, c < cells -> as_requested parts (q_a last) (q_b last) (nth c (q_counts last) []) c (P c)) ->
  exists rng s, (forall n, length (rng n) = n) /\ (forall n u, In u (rng n) -> (0 <= u)%Q /\ (u < 1)%Q) /\
    sampler_after d cells k (earlier ++ [with_rng last rng]) = Some s /\ rep cells s true (fun c => [concat (P c)]).
Proof.
  intros Hd Hc He [HP [HN [HR HL]]] A. destruct (sampler_earlier d cells k earlier Hd Hc He) as [s1 [E1 B1]].
  destruct (partition_of_constructed _ _ _ _ _ _ _ Hd Hc HP) as [W [ids [qa [qb [HV [HC [HA HB]]]]]]].
  destruct (reach d cells W ids parts ccells (q_partition last) (q_a last) (q_b last) qa qb (q_counts last) Hc HV HC HA HB HR (q_k last + 11) P A)
    as [rng [L [U Q]]].
  destruct (sample_ok d cells W ids parts ccells (q_partition last) (q_a last) (q_b last) qa qb (q_counts last) rng Hd Hc HV HC HA HB HR L (q_k last) s1 B1)
    as [s' [E [B R]]].
  exists rng, s'. split; auto. split; auto. rewrite (sampler_snoc _ _ _ _ _ _ E1). split; [exact E|]. eapply rep_ext; [|exact R].
  intros c Hx. unfold waves. rewrite Q; auto.
Qed.

(** * Loops over a list without shared particles *)
Lemma apart_perm {V} (kernel : nat -> V -> V -> V * V) L1 L2 : Permutation L1 L2 -> NoDup (flat_map users L1) ->
  forall s, eqst (apply_pairs kernel L1 s) (apply_pairs kernel L2 s).
Proof.
  intros H. induction H as [|p L1 L2 H IH|p q L|L1 L2 L3 H1 IH1 H2 IH2]; intros N s.
  - intros c l. auto.
  - cbn [apply_pairs fold_left]. apply IH. cbn [flat_map] in N. apply NoDup_app_r in N. auto.
  - cbn [apply_pairs fold_left]. apply (apply_pairs_ext kernel). apply apply_commute. cbn [flat_map] in N. rewrite app_assoc in N. apply NoDup_app_l in N.
    revert N. destruct p as [c [i j]], q as [c' [i' j']]. unfold users, confl, in_conflict. cbn [fst snd app]. intros N [-> H].
    inversion_clear N as [|? ? N1 N2]. inversion_clear N2 as [|? ? N3 N4]. cbn [In] in *.
    destruct H as [->|[->|[->| ->]]]; tauto.
  - intros c l. rewrite IH1 by auto. apply IH2. eapply Permutation_NoDup; [|exact N]. apply Permutation_flat_map. auto.
Qed.

Lemma users_cells (f : nat -> list (nat * nat)) l : NoDup l -> (forall c, In c l -> NoDup (particles_of (f c))) ->
  NoDup (flat_map users (flat_map (fun c => map (pair c) (f c)) l)).
Proof.
  intros Nl H. rewrite AllToAll_Proofs.flat_map_flat_map.
  assert (E : forall c, flat_map users (map (pair c) (f c)) = map (pair c) (particles_of (f c))).
  { intros c. unfold particles_of. induction (f c) as [|p ps IH]; cbn; auto. f_equal. f_equal. auto. }
  apply NoDup_flat_map; auto.
  - intros c Hc. rewrite E. apply NoDup_map_inj; auto. intros; congruence.
  - intros a b x _ _. rewrite !E, !in_map_iff. intros [u [<- _]] [v [Q _]]. congruence.
Qed.

Lemma loop_rep {V} (kernel : nat -> V -> V -> V * V) d cells s P k ls cpu first last : device_ok d ->
  rep cells s true (fun c => [concat (P c)]) -> (forall c, c < cells -> NoDup (particles_of (concat (P c)))) ->
  1 <= ls -> last <= cells ->
  exists ex, pair_loop d cells k ls cpu [s] first last = Some ex /\
    forall o, admissible ex o ->
      Permutation (map pair_of o) (flat_map (fun c => map (pair c) (concat (P c))) (seq first (last - first))) /\
      NoDup (flat_map users (map pair_of o)) /\
      forall data c i, apply_pairs kernel (map pair_of o) data c i =
        apply_pairs kernel (flat_map (fun c => map (pair c) (concat (P c))) (seq first (last - first))) data c i.
Proof.
  intros Hd R N Hls Hr. set (C := map (fun c => [concat (P c)]) (seq 0 cells)).
  assert (LC : length C = cells) by (unfold C; rewrite map_length, seq_length; auto).
  assert (NC : forall c, c < cells -> nth c C [] = [concat (P c)]).
  { intros c Hc. unfold C. rewrite (nth_indep _ [] [concat (P cells)]) by (rewrite map_length, seq_length; auto).
    rewrite (map_nth (fun c => [concat (P c)])), seq_nth; auto. }
  destruct (pair_loop_gen d cells Hd [s] (fun _ => C) (fun _ => 0%Z)) with (ls := ls) (first := first) (last := last) (k := k) (cpu := cpu) as [ex [E [PE St]]]; auto.
  - intros l s' Hl. destruct l as [|[|l]]; try discriminate. injection Hl as <-. split; auto. exists true. eapply rep_ext; [|exact R].
    intros c Hc. cbn beta. rewrite NC; auto.
  - intros l s' Hl. destruct l as [|[|l]]; try discriminate. reflexivity.
  - exists ex. split; auto. intros o A. destruct (orders_gen _ _ _ _ _ _ PE St o A) as [Po _].
    assert (Q : Permutation (map pair_of o) (flat_map (fun c => map (pair c) (concat (P c))) (seq first (last - first)))).
    { rewrite (Permutation_map pair_of Po). unfold gall. cbn [length seq flat_map]. rewrite app_nil_r, map_flat_map.
      rewrite (World_Proofs.flat_map_ext_in _ (fun c => map (pair c) (concat (P c)))); auto. intros c Hc. apply in_seq in Hc.
      rewrite NC by lia. cbn [length seq flat_map]. rewrite app_nil_r. unfold calls_for. rewrite NC by lia. cbn [nth].
      rewrite map_map. transitivity (map (pair c) (map snd (combine (seq 0 (length (concat (P c)))) (concat (P c))))).
      - rewrite map_map. apply map_ext. intros [x [y z]]. reflexivity.
      - rewrite map_snd_combine; auto. }
    split; auto.
    assert (NU : NoDup (flat_map users (map pair_of o))).
    { eapply Permutation_NoDup; [apply Permutation_flat_map; symmetry; exact Q|]. apply users_cells; [apply seq_NoDup|].
      intros c Hc. apply in_seq in Hc. apply N. lia. }
    split; auto. intros data c i. apply (apart_perm kernel _ _ Q NU data c i).
Qed.
