(** C66: removal by condition, by sub-group and by lists on the host. *)
From Coq Require Import List Arith ZArith Bool Lia Permutation.
Import ListNotations.
From Verif Require Import Base Kernel Group_Model Group_Spec Compress_Model Compress_Spec Compress_Props Loop_Spec SubGroup_Model SubGroup_Spec SubGroup_Proofs SubGroup_Props Remover_Model Remover_Spec Remover_Proofs.
Local Open Scope nat_scope.

(** ** C66: ParticleRemover::remove, with whatever earlier calls left in the buffers of the
    remover, removes exactly the particles whose value equals the key. *)
Theorem C66_remover_removes_exactly_the_key : forall (R : Type) d cid (q : @condition R) rm g,
  device_ok d -> wf_group g -> cid < length (ints (st g)) -> ids_valid cid g -> has_property q g ->
  exists rm' g', remover_remove d cid q rm g = Some (rm', g') /\ wf_group g' /\ without (fun _ _ p => has_key q p) g g'.
Proof. intros R d cid q rm g. apply remover_ok. Qed.
Print Assumptions C66_remover_removes_exactly_the_key.
(** In particular no particle with the key is left. *)
Theorem C66_no_particle_with_the_key_left : forall (R : Type) d cid (q : @condition R) rm g rm' g',
  device_ok d -> wf_group g -> cid < length (ints (st g)) -> ids_valid cid g -> has_property q g ->
  remover_remove d cid q rm g = Some (rm', g') ->
  forall c ps p, nth_error (npart_cell g) c <> None -> cell_particles g' c = Some ps -> In p ps -> has_key q p = false.
Proof.
  intros R d cid q rm g rm' g' Hd WF Hc HI HP E c ps p Nc Eps I. destruct (remover_ok d cid q rm g Hd WF Hc HI HP) as (rm2 & g2 & E2 & _ & (_ & W)). rewrite E in E2. injection E2 as <- <-.
  destruct (nth_error (npart_cell g) c) as [n|] eqn:En; [|congruence]. assert (exists ps0, cell_particles g c = Some ps0) as (ps0 & E0).
  { eexists. apply (AddGroup_Proofs.cell_particles_vals g c WF). eapply nth_error_some_lt; eauto. }
  destruct (W c ps0 E0) as (ps' & E' & P). assert (ps' = ps) by congruence. subst ps'. apply (Permutation_in _ P) in I. apply in_map_iff in I. destruct I as ((l, p') & Q & I). cbn in Q. subst p'. apply filter_In in I. destruct I as (_ & I). cbn in I.
  destruct (has_key q p); [discriminate|reflexivity].
Qed.
Print Assumptions C66_no_particle_with_the_key_left.

(** remove_particles with a sub-group: exactly the members of the sub-group are removed. *)
Theorem C66_sub_group_is_removed : forall (R : Type) d cid pooled s m content (g : group R),
  device_ok d -> wf_group g -> cid < length (ints (st g)) -> ids_valid cid g -> selects s m content -> content_of_group (npart_cell g) content ->
  exists g', remove_sub_group d cid pooled (Some (s, m)) g = Some g' /\ wf_group g' /\ without (fun c l _ => existsb (Nat.eqb l) (nth c content [])) g g'.
Proof. intros R. apply sub_group_removed. Qed.
Print Assumptions C66_sub_group_is_removed.
Theorem C66_whole_group_is_removed : forall (R : Type) d cid pooled (g : group R), wf_group g ->
  exists g', remove_sub_group d cid pooled None g = Some g' /\ wf_group g' /\ without (fun _ _ _ => true) g g'.
Proof. intros R d cid pooled g WF. exists (clear_group g). split; [reflexivity|]. apply clear_ok, WF. Qed.
Print Assumptions C66_whole_group_is_removed.

(** remove_particles with lists on the host: the first [npart] entries count; nothing
    happens for npart <= 0; lists that are too short are reported. *)
Theorem C66_listed_particles_are_removed : forall (R : Type) d cid pooled npart cells layers (g : group R),
  device_ok d -> wf_group g -> cid < length (ints (st g)) -> ids_valid cid g ->
  (npart <= Z.of_nat (length cells))%Z -> (npart <= Z.of_nat (length layers))%Z ->
  valid_request g (firstn (Z.to_nat npart) cells) (firstn (Z.to_nat npart) layers) ->
  exists g', remove_listed d cid pooled npart cells layers g = Some g' /\ wf_group g' /\
    without (fun c l _ => Compress_Spec.listed (firstn (Z.to_nat npart) cells) (firstn (Z.to_nat npart) layers) c l) g g'.
Proof. intros R d cid pooled npart cells layers g Hd WF Hc HI L1 L2 V. apply listed_removed; auto; lia. Qed.
Print Assumptions C66_listed_particles_are_removed.
Theorem C66_short_lists_are_reported : forall (R : Type) d cid pooled npart cells layers (g : group R),
  (0 < npart)%Z -> (Z.of_nat (length cells) < npart \/ Z.of_nat (length layers) < npart)%Z -> remove_listed d cid pooled npart cells layers g = None.
Proof.
  intros R d cid pooled npart cells layers g L H. unfold remove_listed. rewrite (proj2 (Z.ltb_lt _ _) L). destruct (Nat.leb_spec (Z.to_nat npart) (length cells)); [|reflexivity]. cbn [assert obind].
  destruct (Nat.leb_spec (Z.to_nat npart) (length layers)); [lia|reflexivity].
Qed.
Print Assumptions C66_short_lists_are_reported.

(** ** Cases *)
Definition cr_group : group nat := mk_group
  (mk_store [[[100; 101; 102; 103]; [200; 101]; []]] [[[9; 8; 8; 6]; [8; 1]; []]%Z; [[0; 0; 0; 0]; [1; 1]; []]%Z]) [4; 2; 0].
Example C66_case_hypotheses : device_ok C01_device /\ wf_group cr_group /\ ids_valid 1 cr_group /\ has_property (CInt 0 (Z.eqb 8)) cr_group /\ has_property (CReal 0 (Nat.eqb 101)) cr_group.
Proof.
  split; [exact C01_instance_device|]. split.
  { split; intros col Hc; cbn in Hc; repeat (destruct Hc as [<-|Hc]; [|]); try contradiction; (split; [reflexivity|]); intros c n r E1 E2;
    destruct c as [|[|[|c]]]; cbn in *; try (destruct c; discriminate); injection E1 as <-; injection E2 as <-; cbn; lia. }
  split; [|cbn; lia]. intros c l n E L. destruct c as [|[|[|c]]]; cbn in E; try (destruct c; discriminate); injection E as <-.
  - destruct l as [|[|[|[|l]]]]; cbn; try lia; eexists; split; try reflexivity; lia.
  - destruct l as [|[|l]]; cbn; try lia; eexists; split; try reflexivity; lia.
  - lia.
Qed.
(** The second call finds the longer buffers of the first. *)
Example C66_case_remover :
  (a <- remover_remove C01_device 1 (CInt 0 (Z.eqb 8)) (create_remover C01_device 0) cr_group ;; b <- remover_remove C01_device 1 (CReal 0 (Nat.eqb 103)) (fst a) (snd a) ;; Some (snd a, b)) =
  Some (mk_group (mk_store [[[100; 103]; [101]; []]] [[[9; 6]; [1]; []]%Z; [[0; 0]; [1]; []]%Z]) [2; 1; 0],
        (mk_remover [0; 0; 1]%Z [1; 2; 0]%Z, mk_group (mk_store [[[100]; [101]; []]] [[[9]; [1]; []]%Z; [[0]; [1]; []]%Z]) [1; 1; 0])).
Proof. vm_compute. reflexivity. Qed.
(** The sub-group [[2; 0]; []; [2; 0]; [1; 0]] of SubGroup_Props and the same request
    as lists, of which the seventh entry does not count. *)
Definition cr_group2 : group nat := mk_group
  (mk_store [[[10; 11; 12]; []; [20; 21; 22; 23]; [30; 31]]] [[[0; 0; 0]; []; [2; 2; 2; 2]; [3; 3]]%Z]) [3; 0; 4; 2].
Definition cr_rest : group nat := mk_group (mk_store [[[11]; []; [21; 23]; []]] [[[0]; []; [2; 2]; []]%Z]) [1; 0; 2; 0].
Definition sorted_rest (g : option (group nat)) := option_map (fun g => (npart_cell g, reals (st g))) g.
Example C66_case_sub_group :
  sorted_rest (r <- C24_sub ;; remove_sub_group C01_device 0 [7; 7; 7]%Z (Some (snd r, fst r)) cr_group2) = Some ([1; 0; 2; 0], [[[11]; []; [23; 21]; []]]) /\
  sorted_rest (remove_listed C01_device 0 [] 6 [0; 2; 3; 0; 2; 3; 0]%Z [2; 0; 0; 0; 2; 1; 1]%Z cr_group2) = Some ([1; 0; 2; 0], [[[11]; []; [23; 21]; []]]) /\
  remove_listed C01_device 0 [] 8 [0; 2; 3; 0; 2; 3; 0]%Z [2; 0; 0; 0; 2; 1; 1]%Z cr_group2 = None.
Proof. repeat split; vm_compute; reflexivity. Qed.
Lemma Forall2_refl_perm (l : list (list nat)) : same_particles l l.
Proof. unfold same_particles. induction l; constructor; auto. Qed.
Example C66_case_sub_group_hypotheses : exists s m content, C24_sub = Some (m, s) /\ selects s m content /\ content_of_group (npart_cell cr_group2) content.
Proof.
  destruct C24_instance_group as (A & B & C & D & E).
  destruct (C24_kernel_sub_group C01_device E 2 ltac:(lia) 0 C24_np C24_es C24_kern C24_group C24_group _ _ C24_map D A B C C) as (m' & s & ct & X & _ & Y & Z & _).
  { apply Forall2_refl_perm. }
  exists s, m', ct. auto.
Qed.
