(** C44: a loop over pair lists runs the kernel once for every pair, wave by wave.
    C45: its effect is that of running the kernel for the pairs in the order in
    which they were pushed to the host list. *)
From Coq Require Import List Arith Lia ZArith Bool Permutation.
Import ListNotations.
From Verif Require Import Base Compress_Props PairList_Model PairList_Spec PairHost_Proofs PairLoop_Proofs PairOrder_Proofs PairSerial_Proofs.

(** C44.  The loop succeeds and calls its kernel in each wave for exactly the pairs
    of that wave of the chosen cells: in every list, with multiplicity, with the
    right cell, list and pair number. *)
Theorem C44_every_pair_once d cc lists oss local_size first last cpu k : device_ok d -> Forall2 (list_with d cc) lists oss ->
  1 <= local_size -> last <= cc ->
  exists ex, pair_loop d cc k local_size cpu lists first last = Some ex /\
    forall w, Permutation (executed ex w) (calls_of_wave cc oss first last w).
Proof.
  intros Hd F Hls Hr. destruct (pair_loop_ok d cc Hd lists oss F local_size first last Hls Hr k cpu) as [ex [E [P _]]].
  exists ex. auto.
Qed.
Print Assumptions C44_every_pair_once.

(** C44.  Whatever the order in which the calls take effect: each call takes effect
    once, and of two calls for the same cell and list the one of the lower wave
    takes effect first. *)
Theorem C44_order d cc lists oss local_size first last cpu k ex o : device_ok d -> Forall2 (list_with d cc) lists oss ->
  1 <= local_size -> last <= cc -> pair_loop d cc k local_size cpu lists first last = Some ex -> admissible ex o ->
  Permutation o (all_calls cc oss first last) /\
  forall o1 x o2 y o3, o = o1 ++ x :: o2 ++ y :: o3 -> c_list x = c_list y -> c_cell x = c_cell y -> c_wave x <= c_wave y.
Proof.
  intros Hd F Hls Hr E A. destruct (orders d cc lists oss Hd F local_size first last k cpu ex Hls Hr E o A) as [P O].
  split; auto. intros o1 x o2 y o3 -> Hl Hc. apply fop_app in O as [_ [O _]]. inversion O as [|? ? O' _]; subst.
  rewrite Forall_forall in O'. apply O'; auto. apply in_or_app. cbn. auto.
Qed.
Print Assumptions C44_order.

(** C44.  If all lists are filled, a loop over all cells gives its calls the pair
    numbers 0, 1, ..., n-1, each once. *)
Theorem C44_pair_numbers d cc lists oss local_size cpu k ex o : device_ok d -> Forall2 (list_with d cc) lists oss ->
  1 <= local_size -> (forall os, In os oss -> filled os = true) ->
  pair_loop d cc k local_size cpu lists 0 cc = Some ex -> admissible ex o ->
  Permutation (map c_index o) (map Z.of_nat (seq 0 (list_sum (map (pair_total cc) oss)))).
Proof.
  intros Hd F Hls G E A. destruct (orders d cc lists oss Hd F local_size 0 cc k cpu ex Hls (le_n _) E o A) as [P _].
  rewrite P, all_index; auto.
Qed.
Print Assumptions C44_pair_numbers.

(** C44.  If the lists were set from host lists without pairs of a particle with
    itself, calls of one wave that belong to the same list share no particle. *)
Theorem C44_no_sharing d cc lists pss local_size first last cpu k ex w : device_ok d -> Forall2 (list_set_to d cc) lists pss ->
  1 <= local_size -> last <= cc -> (forall ps p, In ps pss -> In p ps -> fst (snd p) <> snd (snd p)) ->
  pair_loop d cc k local_size cpu lists first last = Some ex -> NoDup (flat_map uses (executed ex w)).
Proof. intros Hd F Hls Hr N E. eapply wave_nodup; eauto. Qed.
Print Assumptions C44_no_sharing.

(** Finding: a list that was never filled, or was cleared, counts -1 pairs.  The
    pair numbers of the lists after it start one too low, so two calls may get the
    same number, or one the number -1. *)
Theorem C44_empty_list_refuted : exists d cc lists oss ex1 ex2, device_ok d /\ Forall2 (list_with d cc) lists oss /\
  pair_loop d cc 0 1 true lists 0 cc = Some ex1 /\ ~ NoDup (map c_index (executed ex1 0)) /\
  pair_loop d cc 0 1 true (tl lists) 0 cc = Some ex2 /\ In (-1)%Z (map c_index (executed ex2 0)).
Proof.
  exists C01_device, 1.
  assert (exists s1, run C01_device 1 0 [(10, Push [0] [0] [1])] = Some s1) as [s1 E1] by (eexists; vm_compute; reflexivity).
  assert (exists s2, run C01_device 1 0 [] = Some s2) as [s2 E2] by (eexists; vm_compute; reflexivity).
  assert (exists s3, run C01_device 1 0 [(10, Push [0] [2] [3])] = Some s3) as [s3 E3] by (eexists; vm_compute; reflexivity).
  exists [s1; s2; s3], [[(10, Push [0] [0] [1])]; []; [(10, Push [0] [2] [3])]].
  vm_compute in E1, E2, E3. injection E1 as <-. injection E2 as <-. injection E3 as <-.
  eexists. eexists. split; [apply C01_instance_device|]. split.
  { repeat constructor; exists 0; split; reflexivity. }
  split; [vm_compute; reflexivity|]. split; [|split; [vm_compute; reflexivity|vm_compute; auto]].
  vm_compute. intros N. inversion N as [|? ? H _]; subst. apply H. cbn. auto.
Qed.
Print Assumptions C44_empty_list_refuted.

(** Finding: waves order the pairs of one list only.  Two lists that hold the same
    pair run it concurrently. *)
Theorem C44_two_lists_refuted : exists d cc lists pss ex, device_ok d /\ Forall2 (list_set_to d cc) lists pss /\
  (forall ps p, In ps pss -> In p ps -> fst (snd p) <> snd (snd p)) /\
  pair_loop d cc 0 1 true lists 0 cc = Some ex /\ ~ NoDup (map snd (flat_map uses (executed ex 0))).
Proof.
  exists C01_device, 1.
  assert (exists s1, run C01_device 1 0 [(10, SetHost [(0, (0, 1))])] = Some s1) as [s1 E1] by (eexists; vm_compute; reflexivity).
  exists [s1; s1], [[(0, (0, 1))]; [(0, (0, 1))]]. vm_compute in E1. injection E1 as <-.
  eexists. split; [apply C01_instance_device|]. split.
  { repeat constructor; exists [], 10, 0; split; reflexivity. }
  split; [intros ps p [<-|[<-|[]]] [<-|[]]; cbn; lia|].
  split; [vm_compute; reflexivity|]. vm_compute. intros N. inversion N as [|? ? H _]; subst. apply H. cbn. auto.
Qed.
Print Assumptions C44_two_lists_refuted.

(** C45.  Lists set from host lists, where no two lists share a particle: for every
    kernel, every particle data, every device and every order in which the calls
    may take effect, the loop leaves the particle data that running the kernel
    sequentially leaves, list by list and in the order in which the pairs were
    pushed. *)
Theorem C45_serial {V} (kernel : nat -> V -> V -> V * V) d cc lists pss local_size first last cpu k ex o data : device_ok d ->
  Forall2 (list_set_to d cc) lists pss -> 1 <= local_size -> last <= cc ->
  (forall l l' ps ps' p p', l <> l' -> nth_error pss l = Some ps -> nth_error pss l' = Some ps' -> In p ps -> In p' ps' ->
     ~ in_conflict p p') ->
  pair_loop d cc k local_size cpu lists first last = Some ex -> admissible ex o ->
  forall c i, apply_pairs kernel (map pair_of o) data c i = apply_pairs kernel (flat_map (in_cells first last) pss) data c i.
Proof. intros Hd F Hls Hr X E A. eapply serial; eauto. Qed.
Print Assumptions C45_serial.

(** Finding: this holds only for lists that were set.  Pairs given to push_back are
    all put in one wave, so when two of them share a particle the result depends on
    the scheduler. *)
Theorem C45_push_back_refuted : exists d cc s os k ex o1 o2 (kernel : nat -> nat -> nat -> nat * nat) data c i,
  device_ok d /\ list_with d cc s os /\ pair_loop d cc k 1 true [s] 0 cc = Some ex /\ admissible ex o1 /\ admissible ex o2 /\
  apply_pairs kernel (map pair_of o1) data c i <> apply_pairs kernel (map pair_of o2) data c i.
Proof.
  exists C01_device, 1.
  assert (exists s1, run C01_device 1 0 [(10, Push [0; 0] [0; 1] [1; 2])] = Some s1) as [s1 E1] by (eexists; vm_compute; reflexivity).
  exists s1, [(10, Push [0; 0] [0; 1] [1; 2])], 0. vm_compute in E1. injection E1 as <-.
  eexists. exists [mk_call 0 0 0 0 1 0%Z; mk_call 0 0 0 1 2 1%Z], [mk_call 0 0 0 1 2 1%Z; mk_call 0 0 0 0 1 0%Z].
  exists (fun _ a b => (b, a)), (fun _ i => i), 0, 0.
  split; [apply C01_instance_device|]. split; [exists 0; split; reflexivity|]. split; [vm_compute; reflexivity|].
  split; [|split; [|vm_compute; discriminate]].
  - constructor. match goal with |- phases_order _ ?o => exists [o] end. split; [|reflexivity]. constructor; [|constructor]. apply Permutation_refl.
  - constructor. match goal with |- phases_order _ ?o => exists [o] end. split; [|reflexivity]. constructor; [|constructor]. apply perm_swap.
Qed.
Print Assumptions C45_push_back_refuted.

(** Two lists over two cells with several waves, executed by work groups: the
    hypotheses of all theorems above hold, and an admissible order that interleaves
    the groups exists. *)
Definition C44_pushes1 : list push := [(0, (0, 1)); (1, (4, 3)); (0, (1, 2)); (0, (5, 4)); (1, (3, 2))].
Definition C44_pushes2 : list push := [(1, (0, 1)); (0, (6, 7)); (1, (1, 0))].
Definition C44_swap (c a b : nat) : nat * nat := (b + c, a + 2 * b).
Example C44_instance : exists lists ex o,
  device_ok C01_device /\ Forall2 (list_set_to C01_device 2) lists [C44_pushes1; C44_pushes2] /\
  Forall2 (list_with C01_device 2) lists [[(10, SetHost C44_pushes1)]; [(10, SetHost C44_pushes2)]] /\
  filled [(10, SetHost C44_pushes1)] = true /\
  (forall ps p, In ps [C44_pushes1; C44_pushes2] -> In p ps -> fst (snd p) <> snd (snd p)) /\
  (forall l l' ps ps' p p', l <> l' -> nth_error [C44_pushes1; C44_pushes2] l = Some ps ->
     nth_error [C44_pushes1; C44_pushes2] l' = Some ps' -> In p ps -> In p' ps' -> ~ in_conflict p p') /\
  pair_loop C01_device 2 0 2 false lists 0 2 = Some ex /\ admissible ex o /\
  length o = 8 /\ map (length (A := call)) (map (executed ex) [0; 1; 2]) = [5; 3; 0] /\
  map (fun c => map (apply_pairs C44_swap (map pair_of o) (fun c i => 10 * c + i) c) (seq 0 8)) [0; 1] =
  map (fun c => map (apply_pairs C44_swap (flat_map (in_cells 0 2) [C44_pushes1; C44_pushes2]) (fun c i => 10 * c + i) c) (seq 0 8)) [0; 1].
Proof.
  assert (exists s1, run C01_device 2 0 [(10, SetHost C44_pushes1)] = Some s1) as [s1 E1] by (eexists; vm_compute; reflexivity).
  assert (exists s2, run C01_device 2 0 [(10, SetHost C44_pushes2)] = Some s2) as [s2 E2] by (eexists; vm_compute; reflexivity).
  exists [s1; s2].
  assert (P1 : Forall2 (list_set_to C01_device 2) [s1; s2] [C44_pushes1; C44_pushes2]).
  { repeat constructor; exists [], 10, 0; split; auto. }
  assert (P2 : Forall2 (list_with C01_device 2) [s1; s2] [[(10, SetHost C44_pushes1)]; [(10, SetHost C44_pushes2)]]).
  { repeat constructor; exists 0; split; auto. }
  assert (P3 : forall ps p, In ps [C44_pushes1; C44_pushes2] -> In p ps -> fst (snd p) <> snd (snd p)).
  { intros ps p Hps Hp. cbn in Hps. repeat destruct Hps as [<-|Hps]; try tauto; cbn in Hp; repeat destruct Hp as [<-|Hp]; try tauto; cbn; lia. }
  assert (P4 : forall l l' ps ps' p p', l <> l' -> nth_error [C44_pushes1; C44_pushes2] l = Some ps ->
     nth_error [C44_pushes1; C44_pushes2] l' = Some ps' -> In p ps -> In p' ps' -> ~ in_conflict p p').
  { assert (G : forall p p', In p C44_pushes1 -> In p' C44_pushes2 -> ~ in_conflict p p').
    { intros p p' Hp Hp'. cbn in Hp, Hp'. unfold in_conflict. repeat destruct Hp as [<-|Hp]; try tauto;
        repeat destruct Hp' as [<-|Hp']; try tauto; cbn; lia. }
    intros [|[|l]] [|[|l']] ps ps' p p' N H1 H2 Hp Hp'; cbn in H1, H2; try congruence;
      try (destruct l; discriminate); try (destruct l'; discriminate); injection H1 as <-; injection H2 as <-; auto.
    intros C. apply (G p' p); auto. apply in_conflict_sym; auto. }
  assert (exists ex, pair_loop C01_device 2 0 2 false [s1; s2] 0 2 = Some ex) as [ex E].
  { destruct (C44_every_pair_once C01_device 2 _ _ 2 0 2 false 0 C01_instance_device P2) as [ex [E _]]; [lia|lia|]. exists ex. exact E. }
  assert (E' := E). vm_compute in E1, E2. injection E1 as <-. injection E2 as <-. vm_compute in E. injection E as <-.
  eexists. eexists. split; [apply C01_instance_device|]. do 3 (split; [first [exact P1|exact P2|reflexivity]|]).
  split; [exact P3|]. split; [exact P4|]. split; [exact E'|].
  split.
  - eapply adm_groups.
    + repeat (constructor; [eexists; split; [|reflexivity]; repeat (constructor; [apply Permutation_refl|]); constructor|]). constructor.
    + cbn [concat app].
      repeat first [apply int_done; intros l H; cbn in H; repeat destruct H as [<-|H]; reflexivity || tauto
        |apply (int_step [_; _; _]) | apply (int_step [_; _]) | apply (int_step [_]) |apply (int_step [])].
  - split; [reflexivity|]. split; vm_compute; reflexivity.
Qed.
