(** C49: the pair loop over block pair lists. *)
From Coq Require Import List Arith Lia ZArith QArith Bool Permutation.
Import ListNotations.
From Verif Require Import Base Compress_Props Scan_Model PairList_Model PairList_Spec PairOrder_Proofs SamplerNTC_Model SamplerNTC_Spec SamplerNTCSample_Proofs SamplerNTC_Props
  BlockLoop_Model BlockLoop_Spec BlockLoop_Proofs BlockSerial_Proofs.
Local Open Scope nat_scope.

(** C49.  Whatever the order in which the calls take effect: there is exactly one
    call for each pair of the given cells, with the particles of the pair and its
    number; of two calls for the same cell and list, that of the earlier block takes
    effect first and, in a block, that of the lower wave. *)
Theorem C49_every_pair_once cpu block_size lists Ps cells first last : 1 <= block_size -> Forall2 (holds block_size) lists Ps ->
  (forall P, In P Ps -> length P = cells) -> last <= cells ->
  exists ex, block_loop cpu block_size lists first last = Some ex /\ forall o, admissible ex o ->
    Permutation o (block_calls Ps first last) /\
    forall o1 x o2 y o3, o = o1 ++ x :: o2 ++ y :: o3 -> c_list x = c_list y -> c_cell x = c_cell y ->
      block_no block_size Ps x < block_no block_size Ps y \/ block_no block_size Ps x = block_no block_size Ps y /\ c_wave x <= c_wave y.
Proof.
  intros Hb HP Hc Hr. destruct (loop_ok block_size lists Ps cells first last Hb HP Hc Hr cpu) as [ex [E [_ H]]]. exists ex. split; auto.
  intros o A. destruct (H o A) as [P O]. split; auto. intros o1 x o2 y o3 -> Hl Hcx. apply fop_app in O as [_ [O _]]. inversion O as [|? ? O' _]; subst.
  rewrite Forall_forall in O'. apply O'; auto. apply in_or_app. cbn. auto.
Qed.
Print Assumptions C49_every_pair_once.

(** C49.  The pairs of a loop over all cells have the numbers 0, 1, ..., each once. *)
Theorem C49_pair_numbers Ps cells : (forall P, In P Ps -> length P = cells) ->
  map c_index (block_calls Ps 0 cells) = map Z.of_nat (seq 0 (list_sum (map (fun P => list_sum (map (@length _) P)) Ps))).
Proof. apply block_numbers. Qed.
Print Assumptions C49_pair_numbers.

(** C49.  Calls that are concurrent in a work group concern different particles. *)
Theorem C49_no_sharing cpu block_size lists Ps cells first last ex calls x y : 1 <= block_size -> Forall2 (holds block_size) lists Ps ->
  (forall P, In P Ps -> length P = cells) -> last <= cells -> block_loop cpu block_size lists first last = Some ex ->
  concurrent ex calls -> In x calls -> In y calls -> x <> y -> ~ in_conflict (pair_of x) (pair_of y).
Proof.
  intros Hb HP Hc Hr E C Hx Hy N. destruct (loop_ok block_size lists Ps cells first last Hb HP Hc Hr cpu) as [ex' [E' [H _]]]. rewrite E in E'. injection E' as <-.
  destruct (H calls C) as [l [c [b [w [Hl ->]]]]]. destruct (phase_in _ _ Hb _ _ _ _ _ Hx) as [A [B _]], (phase_in _ _ Hb _ _ _ _ _ Hy) as [A' [B' _]].
  unfold phase_of in Hx, Hy. apply filter_In in Hx as [Hx _], Hy as [Hy _]. apply block_of_in in Hx, Hy.
  eapply (same_wave block_size lists Ps cells last) with (l := l) (c := c); eauto; congruence.
Qed.
Print Assumptions C49_no_sharing.

(** C49.  If no two lists have pairs with a common particle, all orders in which the
    calls may take effect leave the same particle data: that of running the kernel
    for one pair after the other, by list, cell, block and wave. *)
Theorem C49_serial {V} (kernel : nat -> V -> V -> V * V) cpu block_size lists Ps cells first last ex o data : 1 <= block_size ->
  Forall2 (holds block_size) lists Ps -> (forall P, In P Ps -> length P = cells) -> last <= cells -> lists_apart Ps ->
  block_loop cpu block_size lists first last = Some ex -> admissible ex o ->
  forall c i, apply_pairs kernel (map pair_of o) data c i = apply_pairs kernel (in_wave_order block_size Ps first last) data c i.
Proof.
  intros Hb HP Hc Hr LA E A. destruct (loop_ok block_size lists Ps cells first last Hb HP Hc Hr cpu) as [ex' [E' [_ H]]]. rewrite E in E'. injection E' as <-.
  destruct (H o A) as [P O]. eapply serial_waves; eauto.
Qed.
Print Assumptions C49_serial.

(** C49.  If moreover the waves respect the order of the lists, this is the data of
    running the kernel for the pairs in the order of the lists. *)
Theorem C49_list_order {V} (kernel : nat -> V -> V -> V * V) cpu block_size lists Ps cells first last ex o data : 1 <= block_size ->
  Forall2 (holds block_size) lists Ps -> (forall P, In P Ps -> length P = cells) -> last <= cells -> lists_apart Ps ->
  (forall P c, In P Ps -> in_list_order block_size (pairs_in P c)) ->
  block_loop cpu block_size lists first last = Some ex -> admissible ex o ->
  forall c i, apply_pairs kernel (map pair_of o) data c i = apply_pairs kernel (in_place_order Ps first last) data c i.
Proof.
  intros Hb HP Hc Hr LA LO E A. destruct (loop_ok block_size lists Ps cells first last Hb HP Hc Hr cpu) as [ex' [E' [_ H]]]. rewrite E in E'. injection E' as <-.
  destruct (H o A) as [P O]. eapply serial_places; eauto.
Qed.
Print Assumptions C49_list_order.

(** C49.  The lists that the sampler makes are of this kind, those made on a CPU also
    respect the order. *)
Theorem C49_sampled d cells block_size is_cpu bl P : device_ok d -> 1 <= block_size -> sampled d cells block_size is_cpu bl P ->
  holds block_size bl P /\ (is_cpu = true -> forall c, in_list_order block_size (pairs_in P c)).
Proof. apply sampled_holds. Qed.
Print Assumptions C49_sampled.

(** C49.  From the samples to the data: collisions sampled on a CPU and run by the
    loop have the effect of colliding one pair after the other. *)
Theorem C49_sample_and_run {V} (kernel : nat -> V -> V -> V * V) d cells block_size lists Ps data : device_ok d -> 1 <= block_size ->
  Forall2 (sampled d cells block_size true) lists Ps -> lists_apart Ps ->
  exists ex, block_loop true block_size lists 0 cells = Some ex /\ forall o, admissible ex o ->
    forall c i, apply_pairs kernel (map pair_of o) data c i = apply_pairs kernel (in_place_order Ps 0 cells) data c i.
Proof.
  intros Hd Hb F LA.
  assert (HP : Forall2 (holds block_size) lists Ps) by (clear LA; induction F; constructor; auto; eapply sampled_holds; eauto).
  assert (Hc : forall P, In P Ps -> length P = cells /\ forall c, in_list_order block_size (pairs_in P c)).
  { clear HP LA. induction F as [|bl P' la lb H F IH]; [intros P []|]. intros P [<-|HI]; auto. split; [destruct H as [r [_ [_ [? _]]]]; auto|].
    intros c. eapply sampled_holds; eauto. }
  destruct (C49_every_pair_once true block_size lists Ps cells 0 cells Hb HP) as [ex [E _]]; [intros; apply Hc; auto|lia|].
  exists ex. split; auto. intros o A. eapply C49_list_order; eauto; intros; apply Hc; auto.
Qed.
Print Assumptions C49_sample_and_run.

(** C49.  A loop with another work-group size than the block size of the (last) list is
    refused. *)
Theorem C49_refused cpu local_size lists bl first last : bl_block_size bl <> 0 -> bl_block_size bl <> local_size ->
  block_loop cpu local_size (lists ++ [bl]) first last = None.
Proof.
  intros N1 N2. unfold block_loop, block_prepare. rewrite fold_left_app. cbn [fold_left bp_block_size].
  apply Nat.eqb_neq in N1. rewrite N1. destruct (Nat.eqb_spec local_size (bl_block_size bl)); [congruence|]. reflexivity.
Qed.
Print Assumptions C49_refused.

(** The lists sampled in the instances of C48, one after the other. *)
Definition C49_lists : option (list block_list) :=
  a <- ntc_run C01_device 3 4 true C48_request ;; b <- ntc_run C01_device 3 4 true C48_mixed ;; Some [a; b].
Definition C49_pairs : list cell_pairs :=
  [[[(0, 5, 0); (5, 3, 1); (2, 0, 1); (0, 5, 2); (3, 0, 0); (5, 3, 1)]; []; [(1, 0, 0); (1, 0, 1); (0, 1, 2)]];
   [[(0, 5, 0); (2, 1, 0); (0, 3, 1); (0, 5, 2); (2, 1, 0)]; [(4, 1, 0); (4, 0, 1)]; []]].

Example C49_instance : exists lists, C49_lists = Some lists /\ Forall2 (sampled C01_device 3 4 true) lists C49_pairs /\
  exists ex, block_loop true 4 lists 0 3 = Some ex /\ map c_index (block_calls C49_pairs 0 3) = map Z.of_nat (seq 0 16) /\
  concurrent ex [mk_call 0 0 1 5 3 1%Z; mk_call 0 0 1 2 0 2%Z] /\ concurrent ex [mk_call 1 0 0 2 1 13%Z].
Proof.
  eexists. split; [vm_compute; reflexivity|]. split.
  { constructor; [|constructor; [|constructor]].
    - exists C48_request. split; [apply C48_request_ok|]. split; [vm_compute; reflexivity|]. split; auto. intros [|[|[|c]]] Hc; try lia; reflexivity.
    - exists C48_mixed. split; [apply C48_mixed_ok|]. split; [vm_compute; reflexivity|]. split; auto. intros [|[|[|c]]] Hc; try lia; reflexivity. }
  eexists. split; [vm_compute; reflexivity|]. split; [vm_compute; reflexivity|]. split.
  - eexists. split; [left; reflexivity|]. cbn. auto.
  - eexists. split; [right; left; reflexivity|]. cbn. auto 10.
Qed.

(** One list: the hypotheses of the theorems about particle data. *)
Example C49_instance_serial : exists bl, ntc_run C01_device 3 4 true C48_request = Some bl /\
  Forall2 (sampled C01_device 3 4 true) [bl] [nth 0 C49_pairs []] /\ lists_apart [nth 0 C49_pairs []] /\
  exists ex o, block_loop true 4 [bl] 0 3 = Some ex /\ admissible ex o /\
    apply_pairs (fun _ a b => (2 * a + b, a)) (map pair_of o) (fun c l => 10 * c + l) 0 0 =
    apply_pairs (fun _ a b => (2 * a + b, a)) (in_place_order [nth 0 C49_pairs []] 0 3) (fun c l => 10 * c + l) 0 0.
Proof.
  assert (exists bl, ntc_run C01_device 3 4 true C48_request = Some bl) as [bl E] by (eexists; vm_compute; reflexivity).
  assert (F : Forall2 (sampled C01_device 3 4 true) [bl] [nth 0 C49_pairs []]).
  { constructor; [|constructor]. exists C48_request. split; [apply C48_request_ok|]. split; auto. split; auto. vm_compute in E. injection E as <-. intros [|[|[|c]]] Hc; try lia; reflexivity. }
  assert (LA : lists_apart [nth 0 C49_pairs []]).
  { intros [|[|l]] [|[|l']] c p q w w' N Hp Hq; try lia; try (cbn in Hp; destruct c; destruct Hp); try (cbn in Hq; destruct c; destruct Hq). }
  exists bl. split; auto. split; auto. split; auto.
  destruct (C49_sample_and_run (fun _ a b => (2 * a + b, a)) C01_device 3 4 [bl] [nth 0 C49_pairs []] (fun c l => 10 * c + l) C01_instance_device ltac:(lia) F LA) as [ex [Ex H]].
  exists ex. assert (exists o, admissible ex o) as [o A].
  { vm_compute in E. injection E as <-. vm_compute in Ex. injection Ex as <-. eexists. eapply adm_groups.
    - repeat (apply Forall2_cons; [eexists; split; [repeat (apply Forall2_cons; [apply Permutation_refl|]); apply Forall2_nil|reflexivity]|]). apply Forall2_nil.
    - cbn [concat app]. repeat (cbn [app]; match goal with |- interleaving ((?x :: ?l) :: ?r) _ => apply (int_step [] x l r) | |- interleaving ([] :: (?x :: ?l) :: ?r) _ => apply (int_step [[]] x l r) |
        |- interleaving ([] :: [] :: (?x :: ?l) :: ?r) _ => apply (int_step [[]; []] x l r) end).
      apply int_done. intros l [<-|[<-|[<-|[]]]]; auto. }
  exists o. split; [exact Ex|]. split; [exact A|]. apply (H o A 0 0).
Qed.

(** Finding: only the block size of the last list is compared with the work-group
    size.  With lists of different block sizes, the blocks of an earlier list are not
    those that its waves were made for: pairs that share a particle are concurrent. *)
Definition C49_small : block_list := mk_block_list 4 2 1 1 [1; 1] [4] [0] [0; 2; 0; 2; 1; 3; 1; 3; 0; 0; 0; 0].
Definition C49_empty : block_list := mk_block_list 0 4 1 0 [] [0] [0] [].
Theorem C49_mixed_block_sizes_refuted : holds 2 C49_small [[(0, 1, 0); (2, 3, 0); (0, 1, 0); (2, 3, 0)]] /\ holds 4 C49_empty [[]] /\
  exists ex calls x y, block_loop false 4 [C49_small; C49_empty] 0 1 = Some ex /\ concurrent ex calls /\ In x calls /\ In y calls /\ x <> y /\
    in_conflict (pair_of x) (pair_of y).
Proof.
  split; [|split].
  - constructor; auto.
    + intros [|c] Hc; [reflexivity|cbn in Hc; lia].
    + intros [|c] x Hc; [reflexivity|cbn in Hc; lia].
    + intros [|c] b Hb; [|destruct c; cbn in Hb; lia]. change (b * 2 < 4) in Hb. exists 1. destruct b as [|[|b]]; try lia.
      all: split; [reflexivity|]; split; [|cbn; lia]; constructor.
      all: try (intros p w [Hp|[Hp|[]]]; injection Hp as _ <-; lia).
      all: intros [|[|x]] [|[|y]] p q w N Hx Hy; try lia; cbn in Hx, Hy; try (destruct x; discriminate); try (destruct y; discriminate);
        injection Hx as <- <-; injection Hy as <-; unfold share; cbn; lia.
  - constructor; auto.
    + intros [|c] Hc; [reflexivity|cbn in Hc; lia].
    + intros [|c] x Hc; [reflexivity|cbn in Hc; lia].
    + intros [|[|c]] b Hb; cbn in Hb; lia.
  - eexists _, _, (mk_call 0 0 0 0 1 0%Z), (mk_call 0 0 0 0 1 2%Z). split; [vm_compute; reflexivity|].
    split; [eexists; split; [left; reflexivity|left; reflexivity]|].
    split; [left; reflexivity|]. split; [right; right; left; reflexivity|]. split; [discriminate|]. split; cbn; auto.
Qed.
Print Assumptions C49_mixed_block_sizes_refuted.
