(** C48: sampling of pairs with replacement. *)
From Coq Require Import List Arith Lia ZArith QArith Bool Permutation.
Import ListNotations.
From Verif Require Import Base Compress_Props Scan_Model SamplerNTC_Model SamplerNTC_Spec SamplerNTCDraw_Proofs SamplerNTCSample_Proofs.
Local Open Scope nat_scope.

(** C48.  On a CPU and on a GPU, for all schedules and interleavings of the work items
    and whatever the memory holds at first: for each cell there are as many pairs as
    asked for, each drawn with two samples of its own from the selections of the cell;
    two different particles if both selections are the same.  In each block, pairs
    that share a particle are in different waves, the waves are 0, 1, ..., none is
    empty and their number is as stored; the largest number is as stored. *)
Theorem C48_pairs d cells block_size is_cpu r : device_ok d -> 1 <= block_size -> ntc_ok cells r ->
  exists bl, ntc_run d cells block_size is_cpu r = Some bl /\ ntc_result cells block_size r bl.
Proof. intros Hd Hb OK. destruct (ntc_sample_ok d cells block_size r Hd Hb OK is_cpu) as [bl [E [H _]]]. eauto. Qed.
Print Assumptions C48_pairs.

(** C48.  On a CPU, pairs of a block that share a particle are in the order of the
    list. *)
Theorem C48_cpu_order d cells block_size r bl c L : device_ok d -> 1 <= block_size -> ntc_ok cells r ->
  ntc_run d cells block_size true r = Some bl -> c < cells -> read_block_pairs bl c = Some L -> in_list_order block_size L.
Proof.
  intros Hd Hb OK E Hc HL. destruct (ntc_sample_ok d cells block_size r Hd Hb OK true) as [bl' [E' [_ H]]].
  rewrite E in E'. injection E' as <-. apply (H eq_refl c L); auto.
Qed.
Print Assumptions C48_cpu_order.

(** C48.  All pairs have the same share of the samples: of the equal rectangles into
    which the numbers of particles divide the unit square, one. *)
Theorem C48_equal_shares same row_a row_b i j : NoDup row_a -> NoDup row_b -> In i row_a -> In j row_b ->
  (same = true -> row_a = row_b /\ i <> j) ->
  let others := if same then length row_a - 1 else length row_b in
  exists k m, k < length row_a /\ m < others /\
    forall u v, (0 <= u)%Q -> (u < 1)%Q -> (0 <= v)%Q -> (v < 1)%Q ->
      (chosen same row_a row_b u v i j <-> part (length row_a) k u /\ part others m v).
Proof. intros Na Nb Hi Hj Hs. apply chosen_equal; auto. Qed.
Print Assumptions C48_equal_shares.

(** C48.  A call that asks for pairs in a cell with too few particles is refused. *)
Theorem C48_too_few d cells block_size is_cpu r c n ra rb : c < cells -> nth_error (s_counts r) c = Some (S n) ->
  nth_error (s_a r) c = Some ra -> nth_error (s_b r) c = Some rb ->
  (if s_same r then length ra <= 1 else ra = [] \/ rb = []) ->
  ntc_run d cells block_size is_cpu r = None.
Proof.
  intros Hc Hn Ha Hb Hs. unfold ntc_run, ntc_sample. destruct (assert (length (s_counts r) =? cells)); auto. cbn [obind].
  match goal with |- obind (foldM ?f ?s ?l) _ = None => assert (foldM f s l = None) as ->; [|auto] end.
  replace cells with (c + (1 + (cells - c - 1))) at 3 by lia. rewrite seq_app, foldM_app.
  destruct (foldM _ _ (seq 0 c)) as [[[[pc es] ex] mb]|]; auto. cbn [Nat.add seq foldM obind].
  unfold request_cell at 1, rd. rewrite Hn. cbn [obind]. destruct (upd pc c (S n)); auto. cbn [obind]. rewrite Ha. cbn [obind]. rewrite Hb. cbn [obind Nat.eqb]. rewrite !orb_false_r.
  destruct (s_same r).
  - destruct (Nat.leb_spec 2 (length ra)); [lia|auto].
  - destruct Hs as [->| ->]; [reflexivity|destruct ra; reflexivity].
Qed.
Print Assumptions C48_too_few.

(** Three cells, pairs of one sub-group with itself, blocks of 4 pairs. *)
Definition C48_unit (n : nat) : list Q := map (fun i => Z.of_nat ((5 * i) mod 7) # 7) (seq 0 n).
Definition C48_request : ntc_request :=
  mk_ntc 10 true [[0; 2; 5; 3]; []; [1; 0]] [[0; 2; 5; 3]; []; [1; 0]] [6; 0; 2] [6; 0; 3] C48_unit.
Definition C48_mixed : ntc_request :=
  mk_ntc 10 false [[0; 2]; [4]; [1]] [[5; 3; 1]; [0; 1]; []] [6; 5; 2] [5; 2; 0] C48_unit.

Lemma C48_unit_ok n : length (C48_unit n) = n /\ forall u, In u (C48_unit n) -> (0 <= u)%Q /\ (u < 1)%Q.
Proof.
  unfold C48_unit. rewrite map_length, seq_length. split; auto. intros u Hu. apply in_map_iff in Hu as [i [<- _]].
  pose proof (Nat.mod_upper_bound (5 * i) 7). unfold Qle, Qlt. cbn [Qnum Qden]. lia.
Qed.

Lemma C48_request_ok : ntc_ok 3 C48_request.
Proof.
  constructor; try reflexivity.
  - intros c row l Hrow Hl. destruct c as [|[|[|[|c]]]]; cbn in Hrow; destruct Hrow as [<-|[<-|[]]]; cbn in Hl |- *; lia.
  - intros c. destruct c as [|[|[|[|c]]]]; cbn; split; repeat (constructor; [cbn; lia|]); constructor.
  - intros c. destruct c as [|[|[|[|c]]]]; cbn; lia.
  - intros n. split; [apply C48_unit_ok|]. intros u Hu. apply C48_unit_ok in Hu. tauto.
Qed.

Lemma C48_mixed_ok : ntc_ok 3 C48_mixed.
Proof.
  constructor; try reflexivity.
  - intros c row l Hrow Hl. destruct c as [|[|[|[|c]]]]; cbn in Hrow; destruct Hrow as [<-|[<-|[]]]; cbn in Hl |- *; lia.
  - intros c. destruct c as [|[|[|[|c]]]]; cbn; split; repeat (constructor; [cbn; lia|]); constructor.
  - discriminate.
  - intros c. destruct c as [|[|[|[|c]]]]; cbn; lia.
  - intros n. split; [apply C48_unit_ok|]. intros u Hu. apply C48_unit_ok in Hu. tauto.
Qed.

Example C48_instance : ntc_ok 3 C48_request /\ device_ok C01_device /\
  exists bg bc, ntc_run C01_device 3 4 false C48_request = Some bg /\ ntc_run C01_device 3 4 true C48_request = Some bc /\
  read_block_pairs bg 0 = Some [(0, 5, 0); (5, 3, 1); (2, 0, 1); (0, 5, 2); (3, 0, 1); (5, 3, 0)] /\
  read_block_pairs bc 0 = Some [(0, 5, 0); (5, 3, 1); (2, 0, 1); (0, 5, 2); (3, 0, 0); (5, 3, 1)] /\
  read_block_pairs bg 1 = Some [] /\ read_block_pairs bg 2 = Some [(1, 0, 0); (1, 0, 1); (0, 1, 2)] /\
  bl_num_waves bg 0 0 = Some 3 /\ bl_num_waves bg 0 1 = Some 2 /\ bl_num_waves bg 2 0 = Some 3 /\ bl_max_wave_count bg = 3.
Proof.
  split; [apply C48_request_ok|]. split; [apply C01_instance_device|]. eexists _, _. split; [vm_compute; reflexivity|]. split; [vm_compute; reflexivity|].
  repeat split; vm_compute; reflexivity.
Qed.

Example C48_instance_mixed : ntc_ok 3 C48_mixed /\ exists bl, ntc_run C01_device 3 4 false C48_mixed = Some bl /\
  read_block_pairs bl 0 = Some [(0, 5, 0); (2, 1, 0); (0, 3, 1); (0, 5, 2); (2, 1, 0)] /\ read_block_pairs bl 1 = Some [(4, 1, 1); (4, 0, 0)].
Proof. split; [apply C48_mixed_ok|]. eexists. split; [vm_compute; reflexivity|]. split; vm_compute; reflexivity. Qed.

Example C48_instance_shares : chosen true [0; 2; 5; 3] [0; 2; 5; 3] (5 # 7) (4 # 7) 5 0.
Proof. exists 2, 1. repeat split; vm_compute; auto; discriminate. Qed.

Example C48_instance_too_few : ntc_run C01_device 3 4 false (mk_ntc 0 true [[0]; []; [1; 0]] [[0]; []; [1; 0]] [1; 0; 2] [0; 1; 3] C48_unit) = None.
Proof. eapply C48_too_few with (c := 1); cbn; eauto. Qed.

(** Finding: two sub-groups that overlap, but are not the same object, may give a pair
    of a particle and itself. *)
Theorem C48_overlap_refuted : exists r bl, ntc_ok 1 r /\ ntc_run C01_device 1 4 false r = Some bl /\ read_block_pairs bl 0 = Some [(3, 2, 0); (2, 2, 1)].
Proof.
  exists (mk_ntc 10 false [[3; 2]] [[2; 3]] [6] [2] C48_unit). eexists. split; [|split; [vm_compute; reflexivity|vm_compute; reflexivity]].
  constructor; try reflexivity.
  - intros c row l Hrow Hl. destruct c as [|[|c]]; cbn in Hrow; destruct Hrow as [<-|[<-|[]]]; cbn in Hl |- *; lia.
  - intros c. destruct c as [|[|c]]; cbn; split; repeat (constructor; [cbn; lia|]); constructor.
  - discriminate.
  - intros c. destruct c as [|[|c]]; cbn; lia.
  - intros n. split; [apply C48_unit_ok|]. intros u Hu. apply C48_unit_ok in Hu. tauto.
Qed.
Print Assumptions C48_overlap_refuted.

(** Finding: a negative sample, which the code does not exclude (the upper bound is),
    is used as a negative index. *)
Theorem C48_negative_refuted :
  ntc_run C01_device 1 4 false (mk_ntc 10 true [[3; 2]] [[3; 2]] [6] [2] (fun n => repeat (-1 # 1) n)) = None.
Proof. vm_compute. reflexivity. Qed.
Print Assumptions C48_negative_refuted.
