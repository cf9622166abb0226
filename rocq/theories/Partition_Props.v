(** C46: the partition of particles into collision cells. *)
From Coq Require Import List Arith Lia ZArith Bool Permutation.
Import ListNotations.
From Verif Require Import Base Maps_Model Maps_Props Compress_Props Partition_Model Partition_Spec Partition_Proofs.
Local Open Scope nat_scope.

(** C46.  After any number of calls of construct, whatever the scheduler does: for
    every mesh cell, every collision cell of it and every species of the partition a
    kernel reads exactly the particles of the last call that are there.  For other
    species it is told that the species is not known. *)
Theorem C46_members d W f cells ids history last : device_ok d -> (0 < W)%Z -> allocation W f -> ids <> [] -> 0 < cells ->
  (forall h, In h (history ++ [last]) -> valid cells ids (parts_of h) (counts_of h)) ->
  exists s, partition_after d W f cells ids (history ++ [last]) = Some s /\
    forall c n cc x, c < cells -> nth_error (counts_of last) c = Some n -> cc < n ->
      (In x ids -> exists l, read_members W s c cc x = Some (Some l) /\ Permutation l (members (parts_of last) c cc x)) /\
      (~ In x ids -> read_members W s c cc x = Some None).
Proof.
  intros Hd HW Hf Hi Hc HV. destruct (history_ok d W f cells ids history last Hd HW Hf Hi Hc HV) as [s [E C]].
  exists s. split; auto. intros c n cc x H1 H2 H3.
  assert (cc < mcc cells (counts_of last)) as H4 by (pose proof (count_le cells Hc (counts_of last) c n H1 H2); lia).
  unfold read_members. rewrite (base_dev _ _ _ _ (con_base _ _ _ _ _ _ C)). cbn [obind]. split; intros Hx.
  - destruct (lin ids x) as [q|] eqn:Q; [|apply lin_none in Q; tauto].
    rewrite (con_num _ _ _ _ _ _ C c cc x q H1 H4 Q). cbn [obind].
    destruct (con_layers _ _ _ _ _ _ C c cc x q H1 H4 Q) as [l [El P]]. rewrite El. cbn [obind]. eauto.
  - apply lin_none in Hx. rewrite Hx. reflexivity.
Qed.
Print Assumptions C46_members.

(** C46.  The occupancy that is reported is at least the number of particles of any
    species in any collision cell, and is attained (or is 0). *)
Theorem C46_occupancy d W f cells ids history last : device_ok d -> (0 < W)%Z -> allocation W f -> ids <> [] -> 0 < cells ->
  (forall h, In h (history ++ [last]) -> valid cells ids (parts_of h) (counts_of h)) ->
  exists s, partition_after d W f cells ids (history ++ [last]) = Some s /\
    (forall c n cc x, c < cells -> nth_error (counts_of last) c = Some n -> cc < n -> In x ids ->
       length (members (parts_of last) c cc x) <= max_collision_cell_occupancy s) /\
    (max_collision_cell_occupancy s = 0 \/
     exists c cc x, In x ids /\ length (members (parts_of last) c cc x) = max_collision_cell_occupancy s).
Proof.
  intros Hd HW Hf Hi Hc HV. destruct (history_ok d W f cells ids history last Hd HW Hf Hi Hc HV) as [s [E C]].
  exists s. split; auto. destruct (con_occ _ _ _ _ _ _ C) as [O1 O2]. split.
  - intros c n cc x H1 H2 H3 Hx. apply O1; auto. pose proof (count_le cells Hc (counts_of last) c n H1 H2). lia.
  - destruct O2 as [O2|[c [cc [x [_ [_ [Hx O2]]]]]]]; eauto 6.
Qed.
Print Assumptions C46_occupancy.

(** C46.  get_max_num_pairs reports for every collision cell the number of pairs that
    may be asked for, and fails for a species that is not known. *)
Theorem C46_max_num_pairs d W f cells ids history last k a b replacement : device_ok d -> (0 < W)%Z -> allocation W f ->
  ids <> [] -> 0 < cells -> (forall h, In h (history ++ [last]) -> valid cells ids (parts_of h) (counts_of h)) ->
  exists s, partition_after d W f cells ids (history ++ [last]) = Some s /\
    (In a ids -> In b ids -> get_max_num_pairs d k s a b replacement =
       Some (map (fun c => map (fun cc => most_pairs replacement (a =? b)%Z (length (members (parts_of last) c cc a))
                                            (length (members (parts_of last) c cc b)))
                             (seq 0 (nth c (counts_of last) 0))) (seq 0 cells))) /\
    (~ (In a ids /\ In b ids) -> get_max_num_pairs d k s a b replacement = None).
Proof.
  intros Hd HW Hf Hi Hc HV. destruct (history_ok d W f cells ids history last Hd HW Hf Hi Hc HV) as [s [E C]].
  exists s. split; auto. split.
  - intros Ha Hb. apply (max_pairs_ok d Hd W cells ids); auto. apply HV, in_elt.
  - intros N. unfold get_max_num_pairs. rewrite !(base_host _ _ _ _ (con_base _ _ _ _ _ _ C)).
    destruct (lin ids a) as [qa|] eqn:Qa; [|reflexivity]. destruct (lin ids b) as [qb|] eqn:Qb; [|reflexivity].
    exfalso. apply N. split; [destruct (in_dec Z.eq_dec a ids)|destruct (in_dec Z.eq_dec b ids)]; auto;
      match goal with H : ~ In _ ids |- _ => apply lin_none in H; congruence end.
Qed.
Print Assumptions C46_max_num_pairs.

(** C46.  Without replacement that number is the size of the largest selection of
    pairs in which no particle appears twice. *)
Theorem C46_most_pairs_is_largest same (A B : list nat) : NoDup A -> NoDup B -> (same = true -> A = B) ->
  (exists pairs, Z.of_nat (length pairs) = most_pairs false same (length A) (length B) /\ disjoint_pairs same A B pairs) /\
  forall pairs, disjoint_pairs same A B pairs -> (Z.of_nat (length pairs) <= most_pairs false same (length A) (length B))%Z.
Proof.
  intros NA NB HS. unfold most_pairs. destruct same.
  - rewrite <- (HS eq_refl) in *. destruct (max_pairs_same A NA) as [[ps [L P]] M]. split.
    + exists ps. rewrite L. auto.
    + intros ps' P'. apply M in P'. lia.
  - destruct (max_pairs_different A B NA NB) as [[ps [L P]] M]. split.
    + exists ps. rewrite L. auto.
    + intros ps' P'. apply M in P'. lia.
Qed.
Print Assumptions C46_most_pairs_is_largest.

(** Memory for the nodes of the species tree. *)
Definition C46_node (i : nat) : node nat := mk_node 7%Z (Some i) None (repeat true 64) (repeat i 64).
Lemma C46_allocation : allocation 64 C46_node.
Proof. intros i. split; apply repeat_length. Qed.

(** Finding: the collision cell of a particle is not checked.  One beyond the number
    of collision cells of the mesh cell is counted in the next mesh cell: a kernel
    reads for mesh cell 1 a particle that is not there. *)
Theorem C46_collision_cell_unchecked_refuted : exists d s parts counts,
  device_ok d /\ partition_after d 64 C46_node 2 [5%Z] [mk_construction 0 parts counts] = Some s /\
  nth_error counts 1 = Some 1 /\ members parts 1 0 5 = [] /\ read_members 64 s 1 0 5 = Some (Some [3]).
Proof.
  exists C01_device. eexists. exists [mk_particle 0 3 5 1], [1; 1].
  split; [apply C01_instance_device|]. split; [vm_compute; reflexivity|]. repeat split; vm_compute; reflexivity.
Qed.
Print Assumptions C46_collision_cell_unchecked_refuted.

(** Two species, given in decreasing order and one of them twice, far apart so that
    they are in different nodes of the tree; a third species that the partition does
    not know, with a meaningless collision cell; two constructions with different
    numbers of collision cells. *)
Definition C46_first : construction :=
  mk_construction 0 [mk_particle 1 0 300 2; mk_particle 0 1 (-4) 0] [1; 3].
Definition C46_last : construction :=
  mk_construction 20
    [mk_particle 0 0 300 1; mk_particle 0 2 (-4) 0; mk_particle 0 5 300 1; mk_particle 1 1 17 99; mk_particle 1 0 300 0;
     mk_particle 0 7 300 1; mk_particle 0 4 (-4) 1]
    [2; 1; 40].
Example C46_instance : device_ok C01_device /\ (forall h, In h ([C46_first] ++ [C46_last]) ->
    valid 2 [300; -4; 300]%Z (parts_of h) (counts_of h)) /\
  exists s, partition_after C01_device 64 C46_node 2 [300; -4; 300]%Z [C46_first; C46_last] = Some s /\
    members (parts_of C46_last) 0 1 300 = [0; 5; 7] /\
    (exists l, read_members 64 s 0 1 300 = Some (Some l) /\ length l = 3) /\
    read_members 64 s 1 0 17 = Some None /\ max_collision_cell_occupancy s = 3 /\
    get_max_num_pairs C01_device 50 s 300 300 false = Some [[0; 1]; [0]]%Z /\
    get_max_num_pairs C01_device 50 s (-4) 300 false = Some [[0; 1]; [0]]%Z /\
    get_max_num_pairs C01_device 50 s 300 300 true = Some [[0; max_int]; [0]]%Z.
Proof.
  split; [apply C01_instance_device|]. split.
  { intros h [<-|[<-|[]]]; (split; [cbn; lia|]); intros p Hp Hx; cbn in Hp;
      repeat (destruct Hp as [<-|Hp]; [cbn in Hx; first [exfalso; lia|cbn; split; [lia|eexists; split; [reflexivity|lia]]]|]); destruct Hp. }
  eexists. split; [vm_compute; reflexivity|]. split; [reflexivity|]. split; [eexists; split; vm_compute; reflexivity|].
  repeat split; vm_compute; reflexivity.
Qed.
