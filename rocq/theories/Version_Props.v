(** C25, C26: sub-groups are rebuilt when they must be, and only then.

    The state of a program is the group (structure, properties) with its sub-groups
    and their version counters.  [current st i x] (Version_Spec) says that [x] is a
    selection computed from the present contents; it does not mention versions. *)
From Coq Require Import List Arith Bool.
Import ListNotations.
From Verif Require Import Base Version_Model Version_Spec VersionHistory_Proofs.

(** C25: whatever happened before, the selection a use goes over is one computed
    from the present contents. *)
Theorem C25_never_stale : forall (V G Sel : Type) (g : G) (vs : list V) (os : list (op V G Sel)) st i st' x,
  allowed_history (initial g vs) os ->
  history (initial g vs) os = Some st ->
  step st (Use i) = Some (st', Some x) ->
  current st i x.
Proof. intros. eapply never_stale; eauto. Qed.
Print Assumptions C25_never_stale.

(** A use succeeds when nothing stands in its way. *)
Theorem C25_use_succeeds : forall (V G Sel : Type) (g : G) (vs : list V) (os : list (op V G Sel)) st i,
  allowed_history (initial g vs) os ->
  history (initial g vs) os = Some st ->
  usable st -> i < length (nodes st) ->
  exists st' x, step st (Use i) = Some (st', Some x).
Proof. intros. eapply use_total; eauto. Qed.
Print Assumptions C25_use_succeeds.

(** C26: static_status(true) keeps the selection computed from the contents at that
    moment. *)
Theorem C26_freeze : forall (V G Sel : Type) (g : G) (vs : list V) (os : list (op V G Sel)) st st1 i n r,
  allowed_history (initial g vs) os ->
  history (initial g vs) os = Some st ->
  nth_error (nodes st) i = Some n -> static n = false -> view n = None ->
  step st (SetStatic i true) = Some (st1, r) ->
  exists n1 x, nth_error (nodes st1) i = Some n1 /\ static n1 = true /\ view n1 = None /\
    step st1 (Use i) = Some (st1, Some x) /\ current st i x.
Proof. intros. eapply freeze; eauto. Qed.
Print Assumptions C26_freeze.

(** After that, as long as the sub-group is not released or explicitly re-created,
    every use gives the same selection, and fails after a structural change (the
    failed assertion is [None]).  No other restriction on the operations. *)
Theorem C26_frozen : forall (V G Sel : Type) i n x os (st st' s' : state V G Sel),
  nth_error (nodes st) i = Some n -> static n = true -> view n = None ->
  step st (Use i) = Some (s', Some x) ->
  Forall (fun o => ~ releases i o) os -> history st os = Some st' ->
  step st' (Use i) = if existsb is_structural os then None else Some (st', Some x).
Proof. intros. eapply frozen; eauto. Qed.
Print Assumptions C26_frozen.

(** An instance: the structure is the number of particles, a property a list of
    numbers, a selection a list of particles.  Sub-group 0 selects the particles
    with property 0 above 1, sub-group 1 those of sub-group 0 with property 1 equal
    to 1, sub-group 2 is the first particle of sub-group 1. *)
Definition above (t g : nat) (vals : list (list nat)) (passes : list (list (list nat))) : option (list nat) :=
  v <- rd vals 0 ;; Some (filter (fun i => 1 <? nth i v 0) (seq 0 g)).
Definition ones (t g : nat) (vals : list (list nat)) (passes : list (list (list nat))) : option (list nat) :=
  v <- rd vals 0 ;; xs <- rd passes 1 ;; x <- rd xs 0 ;; Some (filter (fun i => nth i v 0 =? 1) x).
Definition start : state (list nat) nat (list nat) := initial 3 [[0; 2; 3]; [1; 1; 0]].
Definition program : list (op (list nat) nat (list nat)) :=
  [NewSubGroup [0] [] 2 above; NewSubGroup [1] [0] 2 ones; NewPartition [] 1 (firstn 1); Use 2; Use 1;
   Write 1 [0; 1; 1]; Use 1; TakePointer 0; RawWrite 0 [2; 2; 0]; Use 0; RawWrite 0 [2; 0; 2]; Use 2;
   Structural AddParticles 4 (fun p => match p with 0 => [2; 0; 2; 2] | _ => [1; 1; 1; 1] end) [0; 1]; Use 1; Write 0 [0; 0; 2; 2];
   SetStatic 0 true; Write 0 [2; 2; 2; 2]; Use 2].

Ltac operation := match goal with |- _ /\ _ => split; [cbn [allowed]|let E := fresh in intros ? E; vm_compute in E; injection E as <-; cbn [fst]] end.
Ltac operations := repeat (operation; [first [exact I | auto; fail | eexists; split; [vm_compute; reflexivity|reflexivity]
    | intros n E; vm_compute in E; injection E as <-; reflexivity
    | split; [intros n E _; vm_compute in E; injection E as <-; reflexivity|intros E; discriminate]]|]); try exact I.

Example C25_instance_allowed : allowed_history start program.
Proof. unfold program, start. cbn [allowed_history]. operations. Qed.

Example C25_instance : exists st st', history start program = Some st /\
  step st (Use 2) = Some (st', Some [2]) /\ current st 2 [2].
Proof.
  destruct (history start program) as [st|] eqn:E; [|vm_compute in E; discriminate].
  destruct (step st (Use 2)) as [[st' o]|] eqn:E2; [|vm_compute in E; injection E as <-; vm_compute in E2; discriminate].
  assert (o = Some [2]). { vm_compute in E. injection E as <-. vm_compute in E2. congruence. }
  subst o. exists st, st'. split; [auto|]. split; [auto|].
  eapply (C25_never_stale _ _ _ _ _ program); eauto. exact C25_instance_allowed.
Qed.

Definition short : list (op (list nat) nat (list nat)) :=
  [NewSubGroup [0] [] 2 above; NewSubGroup [1] [0] 2 ones; NewPartition [] 1 (firstn 1); Use 2; Write 0 [2; 0; 3]].
Example C25_instance_succeeds : exists st, history start short = Some st /\ allowed_history start short /\ usable st /\ length (nodes st) = 3.
Proof.
  destruct (history start short) as [st|] eqn:E; [|vm_compute in E; discriminate]. exists st. split; [auto|]. split.
  - clear E. unfold short, start. cbn [allowed_history]. operations.
  - vm_compute in E. injection E as <-. split; [|reflexivity].
    intros [|[|[|i]]] n E; cbn in E; [| | |destruct i; discriminate]; injection E as <-; cbn [static deps run nloops parents map fst length structure];
      (split; [auto|]; split; [intros p Hp; cbn in Hp; repeat (destruct Hp as [<-|Hp]; [eexists; reflexivity|]); destruct Hp|]).
    + intros t [|v vals] passes L _ _; [discriminate|]. eexists. reflexivity.
    + intros t [|v vals] [|p [|[|x xs] ps]] L1 L2 L3; try discriminate; [|eexists; reflexivity].
      specialize (L3 [] (or_intror (or_introl eq_refl))). discriminate.
    + intros t vals [|[|x [|y xs]] [|q ps]] L1 L2 L3; try discriminate; [| |];
        try (specialize (L3 _ (or_introl eq_refl)); discriminate). eexists. reflexivity.
Qed.

(** C26: freezing sub-group 0, then writes, then a removal. *)
Example C26_instance : exists st st1 st2 s3 s4,
  history start [NewSubGroup [0] [] 2 above; Write 0 [2; 0; 3]] = Some st /\
  step st (SetStatic 0 true) = Some (st1, None) /\ step st1 (Use 0) = Some (st1, Some [0; 2]) /\
  history st1 [Write 0 [2; 2; 2]; NewSubGroup [1] [0] 2 ones; Use 1] = Some st2 /\ step st2 (Use 0) = Some (st2, Some [0; 2]) /\
  history st2 [Structural RemoveParticles 2 (fun _ => [2; 2]) []] = Some s3 /\ step s3 (Use 0) = None /\ step s3 (Use 1) = None /\
  history s3 [SetStatic 0 false] = Some s4 /\ exists s5, step s4 (Use 0) = Some (s5, Some [0; 1]).
Proof. do 5 eexists. repeat (split; [vm_compute; reflexivity|]). eexists. vm_compute. reflexivity. Qed.

(** Stale or changed selections outside the conditions of the theorems. *)

(** A child built while its parent was static is not rebuilt when the parent is
    released: sub-group 1 keeps [1; 2] although its parent now selects [0]. *)
Definition child (t g : nat) (vals : list (list nat)) (passes : list (list (list nat))) : option (list nat) :=
  xs <- rd passes 1 ;; x <- rd xs 0 ;; Some x.
Theorem C25_released_parent_refuted : exists st st',
  history start [NewSubGroup [0] [] 2 above; NewSubGroup [] [0] 2 child; SetStatic 0 true; Write 0 [2; 0; 0]; Use 1; SetStatic 0 false; Use 0] = Some st /\
  step st (Use 0) = Some (st, Some [0]) /\
  step st (Use 1) = Some (st', Some [1; 2]) /\ ~ current st 1 [1; 2].
Proof.
  eexists. eexists. split; [vm_compute; reflexivity|]. split; [vm_compute; reflexivity|]. split; [vm_compute; reflexivity|]. intros C.
  inversion C as [i n x E Es _|i n t vals passes x E Es Ev Lp Hp Er]; subst; cbn in E; injection E as <-; [discriminate|].
  cbn [nloops run parents] in *. destruct passes as [|a [|b ps]]; [discriminate|discriminate|].
  specialize (Hp b (or_intror (or_introl eq_refl))). inversion Hp as [|p y ps' ys Hc Hn]; subst. cbn in Er. injection Er as ->.
  clear C Hp Lp Es Ev. inversion Hc as [i n x E Es _|i n t' vals' passes x E Es Ev' Lp Hp Er]; subst; cbn in E; injection E as <-; [discriminate|].
  cbn in Ev'. injection Ev' as <-. cbn in Er. discriminate.
Qed.

(** A static sub-group of a partition changes when another one is used: they share
    the storage of the partitioner. *)
Theorem C26_partition_refuted : exists st st1 s' s'' n,
  history start [NewSubGroup [0] [] 2 above; NewPartition [] 0 (firstn 1); NewPartition [] 0 (skipn 1)] = Some st /\
  step st (SetStatic 1 true) = Some (st1, None) /\ nth_error (nodes st1) 1 = Some n /\ static n = true /\
  step st1 (Use 1) = Some (st1, Some [1]) /\
  history st1 [Write 0 [2; 0; 3]; Use 2] = Some s' /\
  step s' (Use 1) = Some (s'', Some [0]).
Proof. do 5 eexists. repeat (split; [vm_compute; reflexivity|]). vm_compute. reflexivity. Qed.

Ltac stale := do 2 eexists; split; [vm_compute; reflexivity|]; split; [vm_compute; reflexivity|]; intros C;
  inversion C as [i n x E Es _|i n t vals passes x E Es Ev Lp Hp Er]; subst; cbn in E; injection E as <-; [discriminate|];
  cbn in Ev; injection Ev as <-; cbn in Er; discriminate.

(** CellDat::set_value does not call back: the sub-group keeps [1; 2]. *)
Theorem C25_set_value_refuted : exists st st',
  history start [NewSubGroup [0] [] 2 above; Use 0; SetValue 0 [2; 0; 0]] = Some st /\
  step st (Use 0) = Some (st', Some [1; 2]) /\ ~ current st 0 [1; 2].
Proof. stale. Qed.

(** A write with a descriptor clears the mark set by device_ptr: later writes
    through the pointer are missed. *)
Theorem C25_pointer_refuted : exists st st',
  history start [NewSubGroup [0] [] 2 above; TakePointer 0; Write 0 [0; 2; 2]; Use 0; RawWrite 0 [2; 0; 0]] = Some st /\
  step st (Use 0) = Some (st', Some [1; 2]) /\ ~ current st 0 [1; 2].
Proof. stale. Qed.

(** A property that is removed and added again starts at version 1 again. *)
Theorem C25_readded_refuted : exists st st',
  history start [NewSubGroup [0] [] 2 above; Use 0; RemoveProperty 0; AddProperty 0 [2; 0; 0]] = Some st /\
  step st (Use 0) = Some (st', Some [1; 2]) /\ ~ current st 0 [1; 2].
Proof. stale. Qed.
