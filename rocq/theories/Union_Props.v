(** C67: union of sets over all ranks. *)
From Coq Require Import List Arith ZArith Bool Lia Sorted.
Import ListNotations.
From Verif Require Import Base Kernel Union_Model Union_Spec Union_Proofs UnionTree_Proofs.
Local Open Scope nat_scope.

(** ** C67: for every number of ranks, every root and all sets of int, set_reduce_union ends under every order of the
    steps of the ranks, also if no send is ever buffered; the root then returns the union, the other ranks the empty set, and
    no message is left for a later call. *)
Theorem C67_reduce_union : forall size root inputs, 1 <= size -> root < size -> (forall r, r < size -> is_set (inputs r) /\ Forall fits_int (inputs r)) ->
  always_ends size (reduce_start size root inputs) /\
  forall n c, execution n (reduce_start size root inputs) c -> finished size c ->
    (forall s d, net c s d = []) /\ is_union size inputs (reduce_return size root root c) /\ forall r, r < size -> r <> root -> reduce_return size root r c = [].
Proof. exact reduce_ok. Qed.
Print Assumptions C67_reduce_union.

(** set_all_reduce_union returns the union on every rank. *)
Theorem C67_all_reduce_union : forall size inputs, 1 <= size -> (forall r, r < size -> is_set (inputs r) /\ Forall fits_int (inputs r)) ->
  always_ends size (reduce_start size 0 inputs) /\
  forall n c, execution n (reduce_start size 0 inputs) c -> finished size c -> forall r, r < size -> is_union size inputs (all_reduce_return size c r).
Proof.
  intros size inputs L Hi. destruct (reduce_ok size 0 inputs L ltac:(lia) Hi) as (A & B). split; [exact A|]. intros n c K F r Lr. destruct (B n c K F) as (_ & (U1 & U2) & _).
  unfold all_reduce_return, set_bcast. split; [apply insert_all_set, nil_set|]. intros x. rewrite insert_all_in. rewrite <- U2. cbn. intuition.
Qed.
Print Assumptions C67_all_reduce_union.

(** A program that always ends has an execution in which every rank returns. *)
Theorem C67_finishes : forall size a, always_ends size a -> exists n c, execution n a c /\ finished size c.
Proof.
  intros size a ((N & HN) & P). assert (H : forall k n b, execution n a b -> N - n <= k -> exists n' c, execution n' a c /\ finished size c).
  { induction k as [|k IH]; intros n b K L; (destruct (P n b K) as [F|(c & X)]; [eauto|]); assert (K2 : execution (S n) a c) by (econstructor; [exact K|left; exact X]); pose proof (HN _ _ K2); [lia|]. apply (IH _ _ K2). lia. }
  apply (H N 0 a (exec_0 a)). lia.
Qed.
Print Assumptions C67_finishes.

(** ** Cases *)
Definition cu_inputs (r : nat) : list Z := match r with 0 => [3; 7]%Z | 1 => [] | 2 => [5]%Z | 3 => [-1; 7]%Z | 4 => [] | 5 => [2]%Z | _ => [] end.
Example C67_case : exists n c, execution n (reduce_start 6 4 cu_inputs) c /\ finished 6 c /\ reduce_return 6 4 4 c = [-1; 2; 3; 5; 7]%Z /\ reduce_return 6 4 0 c = [].
Proof.
  assert (Hi : forall r, r < 6 -> is_set (cu_inputs r) /\ Forall fits_int (cu_inputs r)).
  { intros r L. unfold is_set. do 6 (destruct r as [|r]; [split; cbn; repeat constructor; cbn; lia|]). lia. }
  destruct (C67_reduce_union 6 4 cu_inputs ltac:(lia) ltac:(lia) Hi) as (A & _). destruct (C67_finishes _ _ A) as (n & c & K & F). exists n, c. split; [exact K|]. split; [exact F|].
  destruct (transfers_end 6 _ _ _ (start_follows 6 4 cu_inputs ltac:(lia) ltac:(lia))) as (_ & B). destruct (B n c K F) as (_ & W). unfold reduce_return. cbn [Nat.eqb]. rewrite W. split; vm_compute; reflexivity.
Qed.
Example C67_case_calls : map (reduce_calls 6 4) (seq 0 6) =
  [[RecvSet 4 Merge; RecvSet 2 Merge; RecvSet 1 Merge; SendSet 4]; [RecvSet 5 Merge; RecvSet 3 Merge; SendSet 0]; [SendSet 0]; [SendSet 1]; [SendSet 0; RecvSet 0 Replace]; [SendSet 1]].
Proof. vm_compute. reflexivity. Qed.
(** Not every program ends: two ranks that send to each other first do not, if nothing is buffered. *)
Definition cu_cross : sys :=
  mk_sys (fun r => match r with 0 => mk_proc [1%Z] [SendSet 1; RecvSet 1 Merge] None | 1 => mk_proc [2%Z] [SendSet 0; RecvSet 0 Merge] None | _ => mk_proc [] [] None end) (fun _ _ => []).
Example C67_case_cross : ~ always_ends 2 cu_cross.
Proof.
  intros (_ & P). pose proof (call_send_count cu_cross 0 1 _ eq_refl eq_refl) as S1. match type of S1 with call _ ?b => set (c1 := b) in * end.
  pose proof (call_send_count c1 1 0 _ eq_refl eq_refl) as S2. match type of S2 with call _ ?b => set (c2 := b) in * end.
  assert (K : execution 2 cu_cross c2) by (econstructor; [econstructor; [constructor|left; exact S1]|left; exact S2]).
  assert (W : forall r, todo (procs c2 r) = [] \/ waits (procs c2 r) <> None). { intros [|[|r]]; [right; discriminate|right; discriminate|left; reflexivity]. }
  destruct (P 2 c2 K) as [F|(c & X)]; [destruct (F 0 ltac:(lia)); discriminate|].
  destruct X as [c r ? ? E Hw|c r ? ? ? E Hw|c r ? ? ? ? ? E Hw|c r ? ? ? ? ? ? E Hw]; destruct (W r) as [X|X]; congruence.
Qed.

(** Finding: set_recv converts the elements to int, also for sets of 64-bit integers (the functions are templates); an element outside
    the range of int is lost. *)
Theorem C67_wide_elements_refuted : exists size root inputs n c, root < size /\ (forall r, r < size -> is_set (inputs r)) /\
  execution n (reduce_start size root inputs) c /\ finished size c /\ ~ is_union size inputs (reduce_return size root root c).
Proof.
  set (inputs := fun r => match r with 1 => [2 ^ 32]%Z | _ => [] end). destruct (transfers_end 2 _ _ _ (start_follows 2 0 inputs ltac:(lia) ltac:(lia))) as (A & B). destruct (C67_finishes _ _ A) as (n & c & K & F).
  exists 2, 0, inputs, n, c. split; [lia|]. split; [intros [|[|r]] L; repeat constructor|]. split; [exact K|]. split; [exact F|]. intros (_ & U). destruct (B n c K F) as (_ & W). unfold reduce_return in U. cbn [Nat.eqb] in U. rewrite W in U.
  assert (In (2 ^ 32)%Z (do_all (transfers 2 0) (fun r => if r <? 2 then insert_all (inputs r) [] else []) 0)) as I. { apply U. exists 1. split; [lia|]. left. reflexivity. }
  vm_compute in I. destruct I as [I|[]]. discriminate.
Qed.
Print Assumptions C67_wide_elements_refuted.
