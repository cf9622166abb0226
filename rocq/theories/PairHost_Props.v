(** C42: the host pair list sorts the pushed pairs into waves that can be executed
    concurrently, keeping the order of pairs that share a particle. *)
From Coq Require Import List Arith Lia Bool Permutation.
Import ListNotations.
From Verif Require Import Base PairList_Model PairList_Spec PairHost_Proofs.

(** C42.  Any sequence of pushes to existing cells succeeds, and the waves are a
    correct schedule of it: every push is in one wave of its cell, conflicting
    pushes are in increasing waves, and no push is later than necessary. *)
Theorem C42_schedule cell_count ps : (forall p, In p ps -> fst p < cell_count) ->
  exists h wave, host_pushes cell_count ps = Some h /\ is_schedule ps wave (host_waves h).
Proof.
  intros H. destruct (host_pushes_inv cell_count ps H) as [h [E I]].
  exists h, (wave_list ps). split; auto. apply schedule_ok; auto.
Qed.
Print Assumptions C42_schedule.

(** C42.  If no pushed pair joins a particle with itself then no particle occurs
    twice in a wave. *)
Theorem C42_no_particle_twice cell_count ps h c W : host_pushes cell_count ps = Some h ->
  (forall p, In p ps -> fst (snd p) <> snd (snd p)) -> In W (host_waves h c) -> NoDup (particles_of W).
Proof.
  intros E N HW. destruct (host_pushes_valid _ _ _ E) as [_ I]. rewrite (host_waves_sel _ _ c I) in HW.
  apply in_map_iff in HW as [w [<- _]]. apply wave_disjoint; auto.
Qed.
Print Assumptions C42_no_particle_twice.

(** C42.  The waves of a cell hold exactly the pairs pushed to it (each with the
    smaller layer first), with multiplicity, and no wave is empty. *)
Theorem C42_nothing_lost cell_count ps h c : host_pushes cell_count ps = Some h ->
  Permutation (concat (host_waves h c)) (map ordered_pair (pushed_to ps c)) /\ ~ In [] (host_waves h c).
Proof.
  intros E. destruct (host_pushes_valid _ _ _ E) as [_ I]. split; [apply nothing_lost; auto|].
  rewrite (host_waves_sel _ _ c I). intros H. apply in_map_iff in H as [w [Q H]]. apply in_seq in H.
  apply (wave_nonempty ps c w); [lia|]. destruct (sel (tags ps) c w); auto; discriminate.
Qed.
Print Assumptions C42_nothing_lost.

(** C42.  A push to a cell that does not exist is reported as an error. *)
Theorem C42_checked cell_count ps p : In p ps -> cell_count <= fst p -> host_pushes cell_count ps = None.
Proof.
  intros Hp Hc. destruct (host_pushes cell_count ps) as [h|] eqn:E; auto.
  destruct (host_pushes_valid _ _ _ E) as [V _]. specialize (V p Hp). lia.
Qed.
Print Assumptions C42_checked.

(** Finding: the order in which the particles of a pair are given is not kept.
    The loop applies its first kernel arguments to the particle with the smaller
    layer, so for two species the roles of the particles are exchanged. *)
Theorem C42_order_of_particles_refuted : exists cell_count ps h c i j,
  host_pushes cell_count ps = Some h /\ In (c, (i, j)) ps /\ ~ In (i, j) (concat (host_waves h c)) /\
  In (j, i) (concat (host_waves h c)).
Proof.
  exists 2, [(1, (5, 3))]. eexists. exists 1, 5, 3. split; [vm_compute; reflexivity|]. split; [cbn; auto|]. vm_compute.
  split; [intros [H|[]]; discriminate|auto].
Qed.
Print Assumptions C42_order_of_particles_refuted.

(** Finding: a pair that joins a particle with itself is accepted, and then its
    wave holds a particle twice. *)
Theorem C42_self_pair_refuted : exists cell_count ps h c W,
  host_pushes cell_count ps = Some h /\ In W (host_waves h c) /\ ~ NoDup (particles_of W).
Proof.
  exists 1, [(0, (4, 4))]. eexists. exists 0, [(4, 4)]. split; [vm_compute; reflexivity|]. split; [vm_compute; auto|].
  intros N. inversion N as [|? ? H _]; subst. apply H. cbn. auto.
Qed.
Print Assumptions C42_self_pair_refuted.

(** Seven pushes to two cells: three waves in cell 0, one in cell 2. *)
Example C42_instance : exists h,
  host_pushes 3 [(0, (0, 1)); (0, (2, 3)); (2, (0, 1)); (0, (1, 2)); (0, (5, 4)); (0, (0, 1)); (2, (6, 5))] = Some h /\
  host_waves h 0 = [[(0, 1); (2, 3); (4, 5)]; [(1, 2)]; [(0, 1)]] /\
  host_waves h 1 = [] /\ host_waves h 2 = [[(0, 1); (5, 6)]].
Proof. eexists. split; [vm_compute; reflexivity|]. vm_compute. auto. Qed.
