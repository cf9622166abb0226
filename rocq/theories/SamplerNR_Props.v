(** C47: sampling of pairs without replacement. *)
From Coq Require Import List Arith Lia ZArith QArith Bool Permutation.
Import ListNotations.
From Verif Require Import Base Maps_Model Maps_Props Compress_Props Mesh_Model PairList_Model PairList_Spec PairHistory_Proofs
  Partition_Model Partition_Spec Partition_Props SamplerNR_Model SamplerNR_Spec SamplerNRLoop_Proofs.
Local Open Scope nat_scope.

(** C47.  After any number of calls of sample, whatever the scheduler does and
    whatever the random numbers are: the list holds for each mesh cell one wave, and
    this wave consists of pairs as the last call asks for.  Kernels and the host read
    the same list. *)
Theorem C47_pairs d cells k earlier last parts ccells : device_ok d -> 0 < cells ->
  (forall r, In r earlier -> exists parts ccells, request_ok d cells parts ccells r) -> request_ok d cells parts ccells last ->
  exists s h, sampler_after d cells k (earlier ++ [last]) = Some s /\ get_host_pair_list cells s = Some h /\
    forall c row, c < cells -> nth_error (q_counts last) c = Some row ->
      exists P, device_waves cells s c = Some [concat P] /\ nth_error h c = Some [concat P] /\
        as_requested parts (q_a last) (q_b last) row c P.
Proof.
  intros Hd Hc He Hl. destruct (sampler_history d cells k earlier last parts ccells Hd Hc He Hl) as [s [P [E [R A]]]].
  exists s, (map (fun c => [concat (P c)]) (seq 0 cells)). split; auto. split; [eapply get_host_ok; eauto|].
  intros c row Hx Hr. exists (P c). split; [apply (device_waves_ok _ _ _ _ _ R Hx)|]. split.
  - rewrite nth_error_map_seq. apply Nat.ltb_lt in Hx. rewrite Hx. auto.
  - specialize (A c Hx). erewrite nth_error_nth in A; eauto.
Qed.
Print Assumptions C47_pairs.

(** C47.  Nothing else is excluded: all pairs that a call may ask for are sampled for
    some random numbers from [0, 1). *)
Theorem C47_every_choice d cells k earlier last parts ccells P : device_ok d -> 0 < cells ->
  (forall r, In r earlier -> exists parts ccells, request_ok d cells parts ccells r) -> request_ok d cells parts ccells last ->
  (forall c row, c < cells -> nth_error (q_counts last) c = Some row -> as_requested parts (q_a last) (q_b last) row c (P c)) ->
  exists rng s, (forall n, length (rng n) = n) /\ (forall n u, In u (rng n) -> (0 <= u)%Q /\ (u < 1)%Q) /\
    sampler_after d cells k (earlier ++ [with_rng last rng]) = Some s /\
    forall c, c < cells -> device_waves cells s c = Some [concat (P c)].
Proof.
  intros Hd Hc He Hl A. destruct (sampler_reach d cells k earlier last parts ccells P Hd Hc He Hl) as [rng [s [L [U [E R]]]]].
  - intros c Hx. destruct Hl as [_ [_ [HR _]]]. destruct (HR c Hx) as [row [Er _]]. erewrite nth_error_nth by exact Er. auto.
  - exists rng, s. repeat split; auto; try (apply (U n u); auto). intros c Hx. apply (device_waves_ok _ _ _ _ _ R Hx).
Qed.
Print Assumptions C47_every_choice.

(** C47.  A loop over the list, in any order in which its calls may take effect, calls
    the kernel once for each pair of the chosen cells; no two calls use the same
    particle; and for every kernel the particle data become those of a sequential
    run over the pairs. *)
Theorem C47_loop {V} (kernel : nat -> V -> V -> V * V) d cells k earlier last parts ccells k' local_size cpu first last_cell :
  device_ok d -> 0 < cells ->
  (forall r, In r earlier -> exists parts ccells, request_ok d cells parts ccells r) -> request_ok d cells parts ccells last ->
  1 <= local_size -> last_cell <= cells ->
  exists s h ex, sampler_after d cells k (earlier ++ [last]) = Some s /\ get_host_pair_list cells s = Some h /\
    pair_loop d cells k' local_size cpu [s] first last_cell = Some ex /\
    forall o, admissible ex o ->
      let pairs := flat_map (fun c => map (pair c) (concat (nth c h []))) (seq first (last_cell - first)) in
      Permutation (map pair_of o) pairs /\ NoDup (flat_map users (map pair_of o)) /\
      forall data c i, apply_pairs kernel (map pair_of o) data c i = apply_pairs kernel pairs data c i.
Proof.
  intros Hd Hc He Hl Hls Hr. destruct (sampler_history d cells k earlier last parts ccells Hd Hc He Hl) as [s [P [E [R A]]]].
  destruct (loop_rep kernel d cells s P k' local_size cpu first last_cell Hd R) as [ex [Ex H]]; auto.
  { intros c Hx. apply (ar_distinct _ _ _ _ _ _ (A c Hx)). }
  exists s, (map (fun c => [concat (P c)]) (seq 0 cells)), ex. split; auto. split; [eapply get_host_ok; eauto|]. split; auto.
  intros o Ao.
  assert (Q : flat_map (fun c => map (pair c) (concat (nth c (map (fun c => [concat (P c)]) (seq 0 cells)) []))) (seq first (last_cell - first)) =
    flat_map (fun c => map (pair c) (concat (P c))) (seq first (last_cell - first))).
  { apply World_Proofs.flat_map_ext_in. intros c Hx. apply in_seq in Hx. f_equal.
    rewrite (nth_indep _ [] [concat (P cells)]) by (rewrite map_length, seq_length; lia).
    rewrite (map_nth (fun c => [concat (P c)])), seq_nth by lia. cbn [concat Nat.add]. apply app_nil_r. }
  cbv zeta. rewrite Q. auto.
Qed.
Print Assumptions C47_loop.

(** Two mesh cells with three and one collision cells.  The first has 5 particles of
    species 7 and 2 of species 4 in its collision cell 1, and 3 of each in collision
    cell 2. *)
Definition C47_particles : list particle :=
  [mk_particle 0 0 7 1; mk_particle 0 9 7 1; mk_particle 0 1 7 1; mk_particle 0 2 4 1; mk_particle 0 3 7 1; mk_particle 0 4 7 1;
   mk_particle 0 5 4 1; mk_particle 0 6 7 2; mk_particle 0 7 4 2; mk_particle 0 8 7 2; mk_particle 1 0 7 0; mk_particle 0 10 7 2;
   mk_particle 0 11 4 2; mk_particle 0 12 4 2].
Definition C47_ccells : list nat := [3; 1].
Definition C47_history : list construction := [mk_construction 0 [mk_particle 1 0 7 2; mk_particle 0 1 4 0] [1; 3]].
Definition C47_partition : option partition :=
  partition_after C01_device 64 C46_node 2 [7; 4]%Z (C47_history ++ [mk_construction 20 C47_particles C47_ccells]).

Lemma C47_partition_of cp a b : C47_partition = Some cp -> In a [7; 4]%Z -> In b [7; 4]%Z ->
  partition_of C01_device 2 C47_particles C47_ccells a b cp.
Proof.
  intros E Ha Hb. exists 64%Z, C46_node, [7; 4]%Z, C47_history, 20.
  split; [lia|]. split; [apply C46_allocation|]. split; [discriminate|]. split; auto. split; auto. split; [|exact E].
  intros h [<-|[<-|[]]]; (split; [cbn; lia|]); intros p Hp Hx; cbn in Hp;
      repeat (destruct Hp as [<-|Hp]; [cbn in Hx; first [exfalso; lia|cbn; split; [lia|eexists; split; [reflexivity|lia]]]|]); destruct Hp.
Qed.

Lemma C47_request_ok cp k a b counts rng : C47_partition = Some cp -> In a [7; 4]%Z -> In b [7; 4]%Z -> (forall n, length (rng n) = n) ->
  (forall c, c < 2 -> exists row, nth_error counts c = Some row /\ length row <= nth c C47_ccells 0 /\
     forall cc n, nth_error row cc = Some n ->
       (Z.of_nat n <= most_pairs false (a =? b)%Z (length (members C47_particles c cc a)) (length (members C47_particles c cc b)))%Z) ->
  request_ok C01_device 2 C47_particles C47_ccells (mk_request k cp a b counts rng).
Proof.
  intros E Ha Hb HL HR. split; [apply C47_partition_of; auto|]. split; [|split; auto].
  apply (NoDup_count_occ' (fun x y : nat * nat => ltac:(decide equality; apply Nat.eq_dec))). intros x Hx. cbn in Hx.
  repeat destruct Hx as [<-|Hx]; try reflexivity; destruct Hx.
Qed.

(** Random numbers: all in [0, 1), or any rational numbers. *)
Definition C47_unit (n : nat) : list Q := map (fun i => Z.of_nat ((5 * i) mod 7) # 7) (seq 0 n).
Definition C47_wild (n : nat) : list Q := map (fun i => (3 - 2 * Z.of_nat i) # 2) (seq 0 n).

Example C47_instance : exists cp, C47_partition = Some cp /\
  let earlier := mk_request 100 cp 7 7 [[0; 2; 1]; [0]] C47_wild in
  let last := mk_request 200 cp 7 4 [[0; 2; 3]; [0]] C47_unit in
  request_ok C01_device 2 C47_particles C47_ccells earlier /\ request_ok C01_device 2 C47_particles C47_ccells last /\
  exists s1 s2 ex o, sampler_after C01_device 2 50 [earlier] = Some s1 /\ device_waves 2 s1 0 = Some [[(0, 4); (3, 9); (10, 6)]] /\
    sampler_after C01_device 2 50 [earlier; last] = Some s2 /\
    device_waves 2 s2 0 = Some [[(4, 2); (1, 5); (8, 12); (10, 11); (6, 7)]] /\ device_waves 2 s2 1 = Some [[]] /\
    pair_loop C01_device 2 300 4 true [s2] 0 2 = Some ex /\ admissible ex o /\ length o = 5.
Proof.
  eexists. split; [vm_compute; reflexivity|]. cbv zeta.
  split; [|split].
  - apply C47_request_ok; [vm_compute; reflexivity|cbn; auto|cbn; auto|intros; unfold C47_wild; rewrite map_length, seq_length; auto|].
    intros c Hc. destruct c as [|[|c]]; [| |lia]; eexists; (split; [reflexivity|]); (split; [cbn; lia|]); intros cc n E;
      repeat (destruct cc as [|cc]; [injection E as <-; vm_compute; discriminate|]); destruct cc; discriminate.
  - apply C47_request_ok; [vm_compute; reflexivity|cbn; auto|cbn; auto|intros; unfold C47_unit; rewrite map_length, seq_length; auto|].
    intros c Hc. destruct c as [|[|c]]; [| |lia]; eexists; (split; [reflexivity|]); (split; [cbn; lia|]); intros cc n E;
      repeat (destruct cc as [|cc]; [injection E as <-; vm_compute; discriminate|]); destruct cc; discriminate.
  - eexists _, _, _, _. split; [vm_compute; reflexivity|]. split; [vm_compute; reflexivity|]. split; [vm_compute; reflexivity|].
    split; [vm_compute; reflexivity|]. split; [vm_compute; reflexivity|]. split; [vm_compute; reflexivity|].
    split; [constructor; match goal with |- phases_order ?p _ => exists p end; split; [|reflexivity]|].
    + repeat (constructor; [apply Permutation_refl|]). constructor.
    + reflexivity.
Qed.

(** Finding: a number of pairs larger than get_max_num_pairs reports is not refused.
    Sampling then reads outside the local memory. *)
Theorem C47_too_many_refuted : exists cp, C47_partition = Some cp /\
  get_max_num_pairs C01_device 90 cp 7 4 false = Some [[0; 2; 3]; [0]]%Z /\
  sampler_after C01_device 2 50 [mk_request 200 cp 7 4 [[0; 3]; []] C47_unit] = None.
Proof. eexists. split; [vm_compute; reflexivity|]. split; vm_compute; reflexivity. Qed.
Print Assumptions C47_too_many_refuted.
