(** C41: the all-to-all iteration of a work group visits every pair of distinct
    particles exactly once, synchronises uniformly, and what it runs between two
    synchronisations never shares a second particle. *)
From Coq Require Import List Arith Lia Permutation.
Import ListNotations.
From Verif Require Import Base AllToAll_Model AllToAll_Spec AllToAll_Proofs.

(** C41.  For a work group of 2^k work items and any number of particles: the
    kernel calls of all work items together are exactly the pairs i < j of
    particles below n, each made once by exactly one work item. *)
Theorem C41_every_pair_once k n :
  Permutation (flat_map (fun w => calls (apply (2 ^ k) w n)) (seq 0 (2 ^ k))) (all_pairs n).
Proof. apply every_pair_once. Qed.
Print Assumptions C41_every_pair_once.

(** The pairs named by [all_pairs] are the pairs i < j < n, once each. *)
Theorem C41_all_pairs_meaning n : NoDup (all_pairs n) /\ forall i j, In (i, j) (all_pairs n) <-> i < j < n.
Proof. split; [apply (nodup_tri 0 n)|]. intros i j. change (all_pairs n) with (tri 0 n). rewrite in_tri. lia. Qed.
Print Assumptions C41_all_pairs_meaning.

(** C41.  Every work item synchronises the same number of times, whatever the
    number of particles: a work-group barrier is reached by all of them. *)
Theorem C41_uniform_synchronisation k n w w' : w < 2 ^ k -> w' < 2 ^ k ->
  syncs (apply (2 ^ k) w n) = syncs (apply (2 ^ k) w' n).
Proof. apply same_syncs. Qed.
Print Assumptions C41_uniform_synchronisation.

(** C41.  Two calls that different work items make between the same two
    synchronisations have different second particles, and neither's first
    particle is the other's second particle. *)
Theorem C41_concurrent_calls k n w w' t p p' : w < 2 ^ k -> w' < 2 ^ k -> w <> w' ->
  In p (calls_after t (apply (2 ^ k) w n)) -> In p' (calls_after t (apply (2 ^ k) w' n)) ->
  snd p <> snd p' /\ fst p <> snd p' /\ fst p' <> snd p.
Proof.
  intros Hw Hw' N H H'. destruct (no_shared_second k n w w' t p p' Hw Hw' N H H') as [A B].
  destruct (no_shared_second k n w' w t p' p Hw' Hw (not_eq_sym N) H' H) as [_ C]. auto.
Qed.
Print Assumptions C41_concurrent_calls.

(** Finding: concurrent calls may share their first particle, so a kernel that
    writes to its first particle races, whatever the synchronisation function. *)
Theorem C41_first_particle_shared_refuted : exists k n w w' t p p', w < 2 ^ k /\ w' < 2 ^ k /\ w <> w' /\
  In p (calls_after t (apply (2 ^ k) w n)) /\ In p' (calls_after t (apply (2 ^ k) w' n)) /\ fst p = fst p'.
Proof. exists 1, 4, 0, 1, 0, (0, 2), (0, 3). vm_compute. repeat split; auto; lia. Qed.
Print Assumptions C41_first_particle_shared_refuted.

(** Finding: the iteration does not check that the work group size is a power of
    two.  With 3 work items and 4 particles the pair (0, 2) is never visited and
    the pair (2, 3) is visited twice. *)
Theorem C41_not_power_of_two_refuted : exists W n, 0 < W /\
  (exists p, In p (all_pairs n) /\ ~ In p (flat_map (fun w => calls (apply W w n)) (seq 0 W))) /\
  ~ NoDup (flat_map (fun w => calls (apply W w n)) (seq 0 W)).
Proof.
  exists 3, 4. split; [lia|]. split.
  - exists (0, 2). split; [vm_compute; auto|]. vm_compute. intuition congruence.
  - vm_compute. intros N. inversion N as [|? ? _ N1]; subst. inversion N1 as [|? ? _ N2]; subst.
    inversion N2 as [|? ? H _]; subst. apply H. cbn. auto.
Qed.
Print Assumptions C41_not_power_of_two_refuted.

(** Non-vacuity: a work group of 4 over 7 particles. *)
Example C41_instance :
  map (fun w => calls (apply 4 w 7)) (seq 0 4) =
    [[(0, 4); (1, 5); (2, 6); (0, 2); (1, 3); (0, 1)];
     [(0, 5); (1, 6); (3, 4); (0, 3); (1, 2); (2, 3)];
     [(0, 6); (2, 4); (3, 5); (4, 6); (4, 5)];
     [(1, 4); (2, 5); (3, 6); (5, 6)]] /\
  syncs (apply 4 3 7) = 7 /\ length (all_pairs 7) = 21 /\
  calls_after 1 (apply 4 0 7) = [(1, 5)] /\ calls_after 1 (apply 4 3 7) = [(1, 4)].
Proof. vm_compute. auto. Qed.
