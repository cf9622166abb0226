(** C43: a pair list on the device holds exactly the pairs it was given. *)
From Coq Require Import List Arith Lia ZArith Bool Permutation.
Import ListNotations.
From Verif Require Import Base PairList_Model PairList_Spec PairSimple_Proofs PairSet_Proofs PairHistory_Proofs Compress_Props.

(** C43.  After any sequence of push_back, set and clear on a new list in which a
    list that was set is cleared before pairs are pushed to it: what the host reads
    back and what a kernel reads through the accessors is the contents that the
    calls amount to, cell by cell, wave by wave and in order. *)
Theorem C43_contents d cc k os s : device_ok d -> run d cc k os = Some s -> disciplined false os = true ->
  get_host_pair_list cc s = Some (expected cc os) /\
  forall c W, nth_error (expected cc os) c = Some W -> device_waves cc s c = Some W.
Proof.
  intros Hd E D. destruct (run_ok d cc Hd k os s E D) as [b [B L R P]]. split.
  - rewrite (get_host_ok cc s _ _ R). apply (f_equal Some). apply nth_error_ext. intros i. rewrite nth_error_map_seq.
    destruct (Nat.ltb_spec i cc) as [H|H].
    + symmetry. apply nth_error_nth'. lia.
    + symmetry. apply nth_error_None. lia.
  - intros c W HW. rewrite (device_waves_ok cc s _ _ c R).
    + f_equal. apply nth_error_nth. auto.
    + rewrite <- L. eapply nth_error_some_lt; eauto.
Qed.
Print Assumptions C43_contents.

(** C43.  The linear index a kernel obtains for a pair is its position in the list
    of all pairs, cell by cell and wave by wave; so the indices of all pairs are
    0, 1, ..., one less than the number of pairs, each once.  The number of pairs
    that the loop uses is that of the contents once the list is filled, but -1
    before that and after a clear. *)
Theorem C43_pair_numbers d cc k os s : device_ok d -> run d cc k os = Some s -> disciplined false os = true ->
  (forall c W w P i q, nth_error (expected cc os) c = Some W -> nth_error W w = Some P -> nth_error P i = Some q ->
     exists n, get_pair_linear_index cc s w c i = Some n /\
       n = length (concat (concat (firstn c (expected cc os)))) + length (concat (firstn w W)) + i /\
       nth_error (concat (concat (expected cc os))) n = Some q) /\
  pair_count s = (if filled os then Z.of_nat (length (concat (concat (expected cc os)))) else -1)%Z.
Proof. intros Hd E D. apply (pair_numbers d cc Hd k os s E D). Qed.
Print Assumptions C43_pair_numbers.

(** C43.  Every sequence of calls with meaningful arguments succeeds if no pairs
    are pushed after the list was set for the first time. *)
Theorem C43_progress d cc k os : device_ok d -> (forall o, In o os -> valid_op cc (snd o)) -> pushes_first os = true ->
  exists s, run d cc k os = Some s /\ disciplined false os = true.
Proof.
  intros Hd V P. destruct (progress d cc Hd k os V P) as [s E]. exists s. split; auto. apply pushes_first_disciplined; auto.
Qed.
Print Assumptions C43_progress.

(** C43.  push_back reports cells that do not exist and arrays of different
    lengths as errors, in any state. *)
Theorem C43_push_checked d cc k s c i j s' : push_back d cc k s c i j = Some s' -> valid_op cc (Push c i j).
Proof. intros E. destruct (push_valid d cc k s c i j s' E) as [A [B [_ D]]]. cbn. auto. Qed.
Print Assumptions C43_push_checked.

(** Finding: pairs pushed to a list that was set overwrite the later waves: the
    call succeeds and a pair that was in the list is lost. *)
Theorem C43_push_after_set_refuted : exists d cc k os s q, device_ok d /\ run d cc k os = Some s /\
  (forall o, In o os -> valid_op cc (snd o)) /\
  In q (concat (concat (expected cc os))) /\
  exists L, get_host_pair_list cc s = Some L /\ ~ In q (concat (concat L)).
Proof.
  exists C01_device, 1, 0, [(10, SetHost [(0, (0, 1)); (0, (1, 2))]); (20, Push [0] [3] [4])]. eexists. exists (1, 2).
  split; [apply C01_instance_device|]. split; [vm_compute; reflexivity|]. split.
  { intros o [<-|[<-|[]]]; cbn; [|repeat split; auto; intros x [<-|[]]; lia]. intros p [<-|[<-|[]]]; cbn; lia. }
  split; [vm_compute; auto|]. eexists. split; [vm_compute; reflexivity|]. vm_compute. intuition congruence.
Qed.
Print Assumptions C43_push_after_set_refuted.

(** Finding: a list that was set with fewer waves than before, or with an empty
    host list, can be cleared but then push_back fails: the host table of pair
    counts is smaller than the device table. *)
Theorem C43_push_after_clear_refuted : exists d cc k os1 os2, device_ok d /\
  (forall o, In o (os1 ++ os2) -> valid_op cc (snd o)) /\ disciplined false os1 = true /\ disciplined false os2 = true /\
  run d cc k os1 = None /\ run d cc k os2 = None.
Proof.
  exists C01_device, 1, 0,
    [(10, SetHost [(0, (0, 1)); (0, (1, 2))]); (20, SetHost [(0, (0, 1))]); (30, Clear); (40, Push [0] [3] [4])],
    [(10, SetHost []); (30, Clear); (40, Push [0] [3] [4])].
  split; [apply C01_instance_device|]. split.
  { intros o H. cbn in H. repeat destruct H as [<-|H]; try tauto; cbn; auto;
      try (intros p Hp; repeat destruct Hp as [<-|Hp]; cbn; auto; tauto);
      (repeat split; auto; intros x [<-|[]]; lia). }
  vm_compute. auto.
Qed.
Print Assumptions C43_push_after_clear_refuted.

(** Pushes in two steps to three cells, then a host list with two waves. *)
Example C43_instance :
  let os1 := [(10, Push [0; 2; 0] [1; 2; 3] [4; 5; 6]); (20, Push [] [] []); (30, Push [0; 1] [7; 8] [9; 0])] in
  let os2 := os1 ++ [(40, SetHost [(1, (0, 1)); (1, (2, 1)); (0, (3, 4))])] in
  device_ok C01_device /\ disciplined false os1 = true /\ disciplined false os2 = true /\
  expected 3 os1 = [[[(1, 4); (3, 6); (7, 9)]]; [[(8, 0)]]; [[(2, 5)]]] /\
  expected 3 os2 = [[[(3, 4)]]; [[(0, 1)]; [(1, 2)]]; []] /\
  (exists s, run C01_device 3 0 os1 = Some s /\ get_host_pair_list 3 s = Some (expected 3 os1)) /\
  (exists s, run C01_device 3 0 os2 = Some s /\ get_host_pair_list 3 s = Some (expected 3 os2) /\ pair_count s = 3%Z).
Proof.
  cbv zeta. split; [apply C01_instance_device|]. split; [reflexivity|]. split; [reflexivity|].
  split; [vm_compute; reflexivity|]. split; [vm_compute; reflexivity|].
  split; eexists; (split; [vm_compute; reflexivity|]); vm_compute; auto.
Qed.
