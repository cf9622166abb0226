(** C50: the checks and statistics of block pair lists. *)
From Coq Require Import List Arith Lia ZArith QArith Bool Permutation.
Import ListNotations.
From Verif Require Import Base Scan_Model Compress_Props PairList_Model PairList_Spec SamplerNTC_Model SamplerNTC_Spec SamplerNTC_Proofs SamplerNTCBlock_Proofs SamplerNTCCell_Proofs SamplerNTCSample_Proofs SamplerNTC_Props BlockLoop_Model BlockLoop_Spec BlockLoop_Proofs BlockSerial_Proofs BlockLoop_Props
  BlockCheck_Model BlockCheck_Spec BlockCheck_Proofs BlockStats_Proofs.
Local Open Scope nat_scope.

(** C50.  The check of a list accepts exactly the lists that the block pair loop can
    run ([holds]: see C49), without pairs of a particle and itself and without
    superfluous waves. *)
Theorem C50_validate d k bl P : device_ok d -> 1 <= bl_block_size bl -> readable bl P ->
  exists b, validate_pair_list d k bl = Some b /\
    (b = true <-> holds (bl_block_size bl) bl P /\ no_self_pairs P /\ waves_needed bl P).
Proof. intros Hd Hb R. apply validate_ok; auto. Qed.
Print Assumptions C50_validate.

(** C50.  The check accepts a sampled list unless it has a pair of a particle and
    itself. *)
Theorem C50_sampled d k cells block_size is_cpu bl P : device_ok d -> 1 <= block_size -> sampled d cells block_size is_cpu bl P ->
  exists b, validate_pair_list d k bl = Some b /\ (b = true <-> no_self_pairs P).
Proof.
  intros Hd Hb SP. pose proof (proj1 (sampled_holds d cells block_size is_cpu bl P Hd Hb SP)) as HH. destruct SP as [r [OK [E [LP RP]]]].
  destruct (ntc_sample_ok d cells block_size r Hd Hb OK is_cpu) as [bl' [E' [NR _]]]. unfold ntc_run in E. unfold ntc_run in E'. rewrite E in E'. injection E' as <-.
  pose proof (nr_block_size _ _ _ _ NR) as EB.
  assert (R : readable bl P).
  { constructor.
    - rewrite (nr_cells _ _ _ _ NR). auto.
    - apply (h_pairs _ _ _ HH).
    - intros c Hc. rewrite (h_index _ _ _ HH c 0 Hc). eauto.
    - intros c b Hlt. rewrite EB in Hlt. destruct (h_waves _ _ _ HH c b Hlt) as [w [? _]]. eauto. }
  destruct (C50_validate d k bl P Hd ltac:(lia) R) as [b [Eb Hbt]]. exists b. split; auto. rewrite Hbt, EB. split; [tauto|]. intros NS. split; auto. split; auto.
  intros c b0 waves Hlt Ew. rewrite EB in *. assert (Hc : c < cells).
  { destruct (lt_dec c cells); auto. unfold pairs_in in Hlt. rewrite nth_overflow in Hlt by lia. cbn in Hlt. lia. }
  destruct (nr_cell _ _ _ _ NR c Hc) as [L [RL [_ W]]]. rewrite (RP c Hc) in RL. injection RL as <-. destruct (W b0 Hlt) as [w' [Ew' [GB _]]]. rewrite Ew in Ew'. injection Ew' as <-.
  destruct waves as [|w].
  - exfalso. assert (Hne : block_of block_size b0 (pairs_in P c) <> []) by (intros Q; apply (f_equal (@length _)) in Q; rewrite block_of_length in Q; cbn in Q; lia).
    destruct (block_of block_size b0 (pairs_in P c)) as [|[p w] B] eqn:EBk; [congruence|]. assert (w < 0); [|lia]. apply (gb_waves _ _ GB). exists p. cbn. auto.
  - assert (Hw : w < S w) by lia. apply (gb_waves _ _ GB) in Hw as [p Hp]. exists p, w. auto.
Qed.
Print Assumptions C50_sampled.

(** C50.  An accepted list can be run by the block pair loop: every pair once. *)
Theorem C50_accepted_runs d k cpu bl P : device_ok d -> 1 <= bl_block_size bl -> readable bl P -> validate_pair_list d k bl = Some true ->
  exists ex, block_loop cpu (bl_block_size bl) [bl] 0 (length P) = Some ex /\ forall o, admissible ex o -> Permutation o (block_calls [P] 0 (length P)).
Proof.
  intros Hd Hb R V. destruct (C50_validate d k bl P Hd Hb R) as [b [E H]]. rewrite V in E. injection E as <-. destruct (proj1 H eq_refl) as [HH _].
  destruct (C49_every_pair_once cpu (bl_block_size bl) [bl] [P] (length P) 0 (length P) Hb) as [ex [Ex HP]].
  - constructor; auto.
  - intros P' [<-|[]]. auto.
  - lia.
  - exists ex. split; auto. intros o A. apply (HP o A).
Qed.
Print Assumptions C50_accepted_runs.

(** C50.  The host form of a list has the particles and the waves of the pairs of each
    cell. *)
Theorem C50_host block_size bl P : 1 <= block_size -> holds block_size bl P -> bl_cell_count bl = length P -> host_pair_list bl = Some (map host_form P).
Proof. intros Hb HH HC. eapply host_ok; eauto. Qed.
Print Assumptions C50_host.

(** C50.  Entry [n] of the occupancy counts is the number of waves with [n] pairs, and
    together the waves have all the pairs. *)
Theorem C50_occupancy d k key block_size bl P waves : device_ok d -> 1 <= block_size -> holds block_size bl P -> bl_cell_count bl = length P -> has_waves bl P waves ->
  wave_occupancy_counts d k key bl = Some (map (fun n => count_occ Nat.eq_dec (wave_sizes block_size waves P) n) (seq 0 (block_size + 1))) /\
  (forall n, In n (wave_sizes block_size waves P) -> n <= block_size) /\
  list_sum (wave_sizes block_size waves P) = list_sum (map (@length _) P).
Proof.
  intros Hd Hb HH HC HW. split; [|split].
  - apply occupancy_ok; auto.
  - intros n. eapply sizes_bound; eauto.
  - eapply sizes_sum; eauto.
Qed.
Print Assumptions C50_occupancy.

(** C50.  The mean occupancy is the number of pairs divided by the number of places in
    all waves. *)
Theorem C50_mean d k key block_size bl P waves : device_ok d -> 1 <= block_size -> holds block_size bl P -> bl_cell_count bl = length P -> has_waves bl P waves ->
  exists counts q, wave_occupancy_counts d k key bl = Some counts /\ mean_wave_occupancy counts = Some q /\
    let n := length (wave_sizes block_size waves P) in
    (q == if n =? 0 then 0 else inject_Z (Z.of_nat (list_sum (map (@length _) P))) / inject_Z (Z.of_nat (block_size * n)))%Q.
Proof.
  intros Hd Hb HH HC HW. destruct (C50_occupancy d k key block_size bl P waves Hd Hb HH HC HW) as [E [Hn Hs]]. eexists.
  destruct (mean_ok block_size (wave_sizes block_size waves P) Hn) as [q [Eq Hq]]. exists q. split; [exact E|]. split; [exact Eq|]. cbv zeta. rewrite Hs in Hq. exact Hq.
Qed.
Print Assumptions C50_mean.

(** C50.  The global counts are the sums over all ranks; they are known on rank 0
    only. *)
Theorem C50_global locals n : locals <> [] -> (forall l, In l locals -> length l = n) ->
  exists sums, global_wave_occupancy_counts locals = Some (sums :: repeat [] (length locals - 1)) /\ length sums = n /\
    forall i, i < n -> nth i sums 0 = list_sum (map (fun l => nth i l 0) locals).
Proof. apply global_ok. Qed.
Print Assumptions C50_global.

(** C50.  Ranks with different block sizes are refused. *)
Theorem C50_global_refused l0 locals l : In l locals -> length l <> length l0 -> global_wave_occupancy_counts (l0 :: locals) = None.
Proof.
  intros Hl N. unfold global_wave_occupancy_counts, rd at 1. cbn [nth_error obind]. replace (forallb _ (l0 :: locals)) with false; auto.
  symmetry. apply Bool.not_true_is_false. intros Q. rewrite forallb_forall in Q. specialize (Q l (or_intror Hl)). apply Nat.eqb_eq in Q. auto.
Qed.
Print Assumptions C50_global_refused.

(** The first list of the instance of C49. *)
Example C50_instance : exists bl, ntc_run C01_device 3 4 true C48_request = Some bl /\ sampled C01_device 3 4 true bl (nth 0 C49_pairs []) /\
  readable bl (nth 0 C49_pairs []) /\ no_self_pairs (nth 0 C49_pairs []) /\
  has_waves bl (nth 0 C49_pairs []) (fun c b => nth b (nth c [[3; 2]; []; [3]] []) 0) /\
  validate_pair_list C01_device 7 bl = Some true /\
  host_pair_list bl = Some [([0; 5; 2; 0; 3; 5], [5; 3; 0; 5; 0; 3], [0; 1; 1; 2; 0; 1]); ([], [], []); ([1; 1; 0], [0; 0; 1], [0; 1; 2])] /\
  wave_occupancy_counts C01_device 7 (fun c => 8 + c) bl = Some [0; 7; 1; 0; 0] /\
  mean_wave_occupancy [0; 7; 1; 0; 0] = Some (9 # 32)%Q /\
  global_wave_occupancy_counts [[0; 7; 1; 0; 0]; [0; 2; 0; 1; 0]] = Some [[0; 9; 1; 1; 0]; []].
Proof.
  eexists. split; [vm_compute; reflexivity|]. split.
  { exists C48_request. split; [apply C48_request_ok|]. split; [vm_compute; reflexivity|]. split; auto. intros [|[|[|c]]] Hc; try lia; reflexivity. }
  split.
  { constructor.
    - reflexivity.
    - intros [|[|[|c]]] Hc; cbn in Hc; try lia; reflexivity.
    - intros [|[|[|c]]] Hc; cbn in Hc; try lia; eexists; reflexivity.
    - intros [|[|[|c]]] b Hc; [| | |exfalso; destruct c; cbn in Hc; lia]; cbn in Hc; try lia; destruct b as [|[|b]]; try lia; eexists; reflexivity. }
  split.
  { intros [|[|[|c]]] i j w Hin; cbn in Hin; try tauto; repeat (destruct Hin as [[= <- <- <-]|Hin]; [lia|]); try tauto. destruct c; destruct Hin. }
  split; [|vm_compute; auto 10].
  intros [|[|[|c]]] b Hc; [| | |exfalso; destruct c; cbn in Hc; lia]; cbn in Hc; try lia; destruct b as [|[|b]]; try lia; reflexivity.
Qed.

(** A list in which one wave has two pairs with the same particle is not accepted. *)
Example C50_instance_conflict : exists bl, ntc_run C01_device 3 4 true C48_request = Some bl /\
  readable (mk_block_list (bl_pair_count bl) (bl_block_size bl) (bl_cell_count bl) (bl_max_wave_count bl) (bl_wave_counts bl) (bl_pair_counts bl) (bl_pair_counts_es bl)
    (firstn 20 (bl_pair_list bl) ++ [0] ++ skipn 21 (bl_pair_list bl))) [[(0, 5, 0); (5, 3, 1); (2, 0, 0); (0, 5, 2); (3, 0, 0); (5, 3, 1)]; []; [(1, 0, 0); (1, 0, 1); (0, 1, 2)]] /\
  validate_pair_list C01_device 7 (mk_block_list (bl_pair_count bl) (bl_block_size bl) (bl_cell_count bl) (bl_max_wave_count bl) (bl_wave_counts bl) (bl_pair_counts bl) (bl_pair_counts_es bl)
    (firstn 20 (bl_pair_list bl) ++ [0] ++ skipn 21 (bl_pair_list bl))) = Some false.
Proof.
  eexists. split; [vm_compute; reflexivity|]. split; [|vm_compute; reflexivity].
  constructor.
  - reflexivity.
  - intros [|[|[|c]]] Hc; cbn in Hc; try lia; reflexivity.
  - intros [|[|[|c]]] Hc; cbn in Hc; try lia; eexists; reflexivity.
  - intros [|[|[|c]]] b Hc; [| | |exfalso; destruct c; cbn in Hc; lia]; cbn in Hc; try lia; destruct b as [|[|b]]; try lia; eexists; reflexivity.
Qed.

(** The sampler can make a pair of a particle and itself from overlapping selections
    (C48_overlap_refuted); the check then does not accept the list. *)
Example C50_instance_self : exists bl, ntc_run C01_device 1 4 false (mk_ntc 10 false [[3; 2]] [[2; 3]] [6] [2] C48_unit) = Some bl /\
  validate_pair_list C01_device 7 bl = Some false.
Proof. eexists. split; [vm_compute; reflexivity|vm_compute; reflexivity]. Qed.
