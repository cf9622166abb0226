(** Property theorems: C39 (communication of the moves). *)
From Coq Require Import List Arith Lia ZArith Bool Permutation.
Import ListNotations.
From Verif Require Import Base Protocol_Model Protocol_Spec Protocol_Proofs Exchange_Model.

(** ** C39: for every number of ranks, every sequence of global and local moves,
    every interleaving of the ranks and every order in which messages are matched:
    each finished move of each rank received exactly the messages sent to it in
    that move, whatever the windows held before. *)
Theorem C39_every_move_receives_its_messages :
  forall B n (ops : list (op B)) sync, ops_ok n ops -> forall w k st, run n ops sync (init w) k st ->
  forall r, r < n -> forall j x, nth_error (res st r) j = Some x ->
  exists o, nth_error ops j = Some o /\ Permutation x (expected n o r).
Proof.
  intros B n ops sync Ho w k st R r Hr j x Ex. pose proof (inv_run n ops sync Ho w k st R) as I.
  destruct (i_res _ _ st I r Hr) as [L H]. pose proof (pc_le n ops st I r Hr) as Hle.
  assert (Hj : j < length (res st r)) by (apply nth_error_Some; congruence).
  destruct (nth_error ops j) as [o|] eqn:Eo.
  - exists o. split; auto. eapply H; eauto.
  - apply nth_error_None in Eo. lia.
Qed.
Print Assumptions C39_every_move_receives_its_messages.

(** No execution is stuck, also when every send waits for its receive. *)
Theorem C39_no_deadlock :
  forall B n (ops : list (op B)) sync, ops_ok n ops -> forall w k st, run n ops sync (init w) k st ->
  ~ finished n ops st -> exists a st', step n ops sync a st st'.
Proof. intros B n ops sync Ho w k st R NF. eapply progress; eauto. eapply inv_run; eauto. Qed.
Print Assumptions C39_no_deadlock.

(** Every execution ends after a bounded number of steps ... *)
Theorem C39_executions_are_bounded :
  forall B n (ops : list (op B)) sync, ops_ok n ops -> forall w k st, run n ops sync (init w) k st ->
  k <= n * (length ops * (3 * n + 10) + (3 * n + 9)).
Proof.
  intros B n ops sync Ho w k st R. rewrite <- (total_init n ops w). pose proof (total_run n ops sync Ho w k st R). lia.
Qed.
Print Assumptions C39_executions_are_bounded.

(** ... and can only end with all moves done on all ranks and nothing in flight. *)
Theorem C39_all_moves_complete :
  forall B n (ops : list (op B)) sync, ops_ok n ops -> forall w k st, run n ops sync (init w) k st ->
  (forall a st', ~ step n ops sync a st st') ->
  forall r, r < n ->
    length (res st r) = length ops /\
    (forall j o, nth_error ops j = Some o -> exists x, nth_error (res st r) j = Some x /\ Permutation x (expected n o r)) /\
    forall s, s < n -> c42 st s r = [] /\ c43 st s r = [].
Proof.
  intros B n ops sync Ho w k st R Stuck r Hr. pose proof (inv_run n ops sync Ho w k st R) as I.
  destruct (finished_dec n ops st) as [F|F].
  2:{ destruct (progress n ops sync Ho st I F) as [a [st' S]]. destruct (Stuck _ _ S). }
  destruct (i_res _ _ st I r Hr) as [L H]. rewrite (F r Hr) in L. split; [auto|]. split.
  - intros j o Eo. destruct (nth_error (res st r) j) as [x|] eqn:Ex; eauto.
    apply nth_error_None in Ex. assert (j < length ops) by (apply nth_error_Some; congruence). lia.
  - intros s Hs. eapply done_empty; eauto.
Qed.
Print Assumptions C39_all_moves_complete.

Theorem C39_every_execution_can_complete :
  forall B n (ops : list (op B)) sync, ops_ok n ops -> forall w k st, run n ops sync (init w) k st ->
  exists j st', run n ops sync st j st' /\ finished n ops st'.
Proof. intros B n ops sync Ho w k st R. eapply completes; eauto. Qed.
Print Assumptions C39_every_execution_can_complete.

(** The hand shake in the constructor of LocalMove: for every order of the
    accumulate operations on the windows every rank learns exactly the ranks that
    can send to it. *)
Theorem C39_local_move_setup_finds_the_senders :
  forall n sends order r, (forall l, Permutation (order r l) l) ->
  exists srcs, local_setup n sends order r = Some srcs /\ NoDup srcs /\
    forall s, In s srcs <-> s < n /\ In r (sends s).
Proof. exact local_setup_correct. Qed.
Print Assumptions C39_local_move_setup_finds_the_senders.

(** What the moves of Exchange_Model.v assume: the messages a rank receives in a
    global move are those of [inbox], in some order. *)
Theorem C39_messages_are_those_of_the_inbox :
  forall byte (sent : list (list (nat * (@message byte)))) r,
  expected (length sent) (OpGlobal (fun s => nth s sent [])) r =
  map (fun m => (fst m, (fst (snd m), Some (snd (snd m))))) (inbox r sent).
Proof. exact expected_inbox. Qed.
Print Assumptions C39_messages_are_those_of_the_inbox.

(** Three ranks: a global move (rank 0 sends to 1 and 2, rank 2 to 1), a local
    move on the neighbours 0 -> 1, 1 -> 0, 2 -> 1 with one empty message, and a
    second global move. *)
Definition C39_ops : list (op nat) :=
  [OpGlobal (fun s => match s with 0 => [(1, (2, [7; 8])); (2, (1, [9]))] | 2 => [(1, (1, [5]))] | _ => [] end);
   OpLocal (fun s => match s with 0 => [(1, (1, [3]))] | 1 => [(0, (0, []))] | 2 => [(1, (3, [1; 1; 1]))] | _ => [] end)
           (fun r => match r with 0 => [1] | 1 => [2; 0] | _ => [] end);
   OpGlobal (fun s => match s with 1 => [(0, (1, [4]))] | _ => [] end)].
Example C39_instance_hypotheses : ops_ok 3 C39_ops.
Proof.
  intros o [<-|[<-|[<-|[]]]]; (split; [|try exact I]).
  1,2,4: intros s Hs; destruct s as [|[|[|s]]]; [..|lia]; cbn; (split;
    [repeat first [apply NoDup_nil|apply NoDup_cons; [cbn; intuition congruence|]]
    |intros d m H; repeat (destruct H as [H|H]; [injection H as <- <-; lia|]); destruct H]).
  intros r Hr. destruct r as [|[|[|r]]]; [..|lia]; cbn; (split; [repeat first [apply NoDup_nil|apply NoDup_cons; [cbn; intuition congruence|]]|]);
    intros s; destruct s as [|[|[|s]]]; cbn; intuition lia.
Qed.
Example C39_instance : exists k st, run 3 C39_ops true (init (fun r => 17 + r)) k st /\ finished 3 C39_ops st /\
  forall x, nth_error (res st 1) 0 = Some x -> Permutation x [(0, (2, Some [7; 8])); (2, (1, Some [5]))].
Proof.
  destruct (C39_every_execution_can_complete nat 3 C39_ops true C39_instance_hypotheses (fun r => 17 + r) 0 _ (run_nil _ _ _ _))
    as [k [st [R F]]].
  exists k, st. split; auto. split; auto. intros x Ex.
  destruct (C39_every_move_receives_its_messages _ _ _ _ C39_instance_hypotheses _ _ _ R 1 ltac:(lia) 0 x Ex) as [o [Eo P]].
  injection Eo as <-. exact P.
Qed.
Example C39_instance_setup :
  local_setup 4 (fun s => match s with 0 => [1; 2] | 2 => [1; 3] | 3 => [1] | _ => [] end)
    (fun r l => if r =? 1 then rev l else l) 1 = Some [3; 2; 0].
Proof. reflexivity. Qed.
