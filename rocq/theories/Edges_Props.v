(** C68: finding the ranks that will send. *)
From Coq Require Import List Arith ZArith Bool Lia.
Import ListNotations.
From Verif Require Import Base Kernel Edges_Model Edges_Spec Edges_Proofs.
Local Open Scope nat_scope.

(** ** C68: for every number of ranks, every number of calls one after the other and all arguments, the calls end under every order of the steps
    of the ranks and of the arrival of the messages, also if no send is ever buffered; then in every call every rank has found exactly what the ranks
    passed for it in that call, and no message is left. *)
Theorem C68_get_remote_ranks : forall size K args junk, collective size K args ->
  always_ends size (edges_start junk args) /\
  forall n c, execution size n (edges_start junk args) c -> finished size c ->
    (forall s d, net c s d = []) /\
    forall r, r < size -> length (results (procs c r)) = K /\
      forall k g, nth_error (results (procs c r)) k = Some g -> found size (fun s => nth k (args s) []) r g.
Proof. intros size K args junk H. exact (edges_ok size K args H junk). Qed.
Print Assumptions C68_get_remote_ranks.

(** The results of calls that have returned are right also while other ranks are still in a call, and before the history has ended. *)
Theorem C68_results_at_all_times : forall size K args junk n c, collective size K args -> execution size n (edges_start junk args) c ->
  forall r k g, r < size -> nth_error (results (procs c r)) k = Some g -> found size (fun s => nth k (args s) []) r g.
Proof.
  intros size K args junk n c H X r k g L E. assert (I : inv size K args c). { remember (edges_start junk args) as a eqn:Ea. clear E. induction X as [a|n a b c X IH S']; [subst; apply start_inv; auto|]. exact (step_inv size K args H b c (IH Ea) S'). }
  destruct I as (RO & _). destruct (RO r L) as (_ & _ & _ & _ & R5). apply R5. exact E.
Qed.
Print Assumptions C68_results_at_all_times.

(** What has been found, as pairs: rank [r] finds [s] with [x] as often as [s] passed [r] with [x]; if no rank names a rank twice, each
    sender is found once. *)
Lemma in_values : forall r x l, In x (values r l) <-> In (r, x) l.
Proof.
  intros r x l. unfold values. rewrite in_map_iff. split; [intros ((d, y) & <- & I)|intros I]; [apply filter_In in I; destruct I as (I & E); apply Nat.eqb_eq in E; cbn in *; subst; exact I|]. exists (r, x). split; [reflexivity|]. apply filter_In. split; [exact I|apply Nat.eqb_refl].
Qed.
Lemma values_none : forall r l, ~ In r (map fst l) -> values r l = [].
Proof.
  intros r l N. destruct (values r l) as [|x q] eqn:E; [reflexivity|]. exfalso. apply N. apply in_map_iff. exists (r, x). split; [reflexivity|]. apply in_values. rewrite E. left; reflexivity.
Qed.
Lemma nodup_values : forall l, (forall r, length (values r l) <= 1) -> NoDup (map fst l).
Proof.
  induction l as [|(d, y) l IH]; intros H; [constructor|]. cbn [map fst]. constructor.
  - intros I. apply in_map_iff in I. destruct I as ((d', z) & E & I). cbn in E. subst d'. specialize (H d). unfold values in H. cbn [filter fst] in H. rewrite Nat.eqb_refl in H. cbn [map length] in H. fold (values d l) in H.
    destruct (values d l) eqn:Ev; [|cbn in H; lia]. apply (in_values d z) in I. rewrite Ev in I. exact I.
  - apply IH. intros r. specialize (H r). unfold values in *. cbn [filter fst] in H. destruct (d =? r); [cbn [map length] in H; lia|exact H].
Qed.
Lemma values_nodup : forall l r, NoDup (map fst l) -> length (values r l) <= 1.
Proof.
  induction l as [|(d, y) l IH]; intros r N; [cbn; lia|]. inversion N as [|? ? N1 N2]; subst. unfold values. cbn [filter fst]. destruct (Nat.eqb_spec d r) as [->|X]; [|apply IH; auto]. cbn [map length]. fold (values r l). rewrite values_none; auto.
Qed.
Theorem C68_found_pairs : forall size args r g, found size args r g ->
  (forall s x, s < size -> (In (s, x) g <-> In (r, x) (args s))) /\
  ((forall s, s < size -> NoDup (map fst (args s))) -> NoDup (map fst g)).
Proof.
  intros size args r g (F1 & F2). split.
  - intros s x L. rewrite <- !in_values, F2 by exact L. reflexivity.
  - intros N. apply nodup_values. intros s. destruct (lt_dec s size) as [L|L]; [rewrite F2 by exact L; apply values_nodup, N, L|]. rewrite values_none; [cbn; lia|]. intros I. apply in_map_iff in I. destruct I as (m & <- & I). apply L, F1, I.
Qed.
Print Assumptions C68_found_pairs.

Theorem C68_finishes : forall size a, always_ends size a -> exists n c, execution size n a c /\ finished size c.
Proof.
  intros size a ((N & HN) & P). assert (H : forall k n b, execution size n a b -> N - n <= k -> exists n' c, execution size n' a c /\ finished size c).
  { induction k as [|k IH]; intros n b X L; (destruct (P n b X) as [F|(c & Y)]; [eauto|]); assert (X2 : execution size (S n) a c) by (econstructor; [exact X|left; exact Y]); pose proof (HN _ _ X2); [lia|]. apply (IH _ _ X2). lia. }
  apply (H N 0 a (exec_0 size a)). lia.
Qed.
Print Assumptions C68_finishes.

(** ** Cases: three ranks, two calls; in the first call rank 0 names itself, and rank 1 names rank 2 twice; windows with junk. *)
Definition ce_args (r : nat) : list (list (nat * Z)) :=
  match r with 0 => [[(0, 5%Z); (2, 7%Z)]; []] | 1 => [[(2, 1%Z); (2, 4%Z)]; [(0, 9%Z)]] | _ => [[]; [(0, 8%Z); (1, (-3)%Z)]] end.
Lemma ce_collective : collective 3 2 ce_args.
Proof. intros r L. do 3 (destruct r as [|r]; [split; [reflexivity|]; cbn; intros a m H I; repeat (destruct H as [<-|H]); try contradiction; cbn in I; repeat (destruct I as [<-|I]); try contradiction; cbn; lia|]). lia. Qed.
Example C68_case : exists n c, execution 3 n (edges_start (fun r => 40 + r) ce_args) c /\ finished 3 c /\
  nth_error (results (procs c 1)) 0 = Some [] /\ nth_error (results (procs c 1)) 1 = Some [(2, (-3)%Z)] /\ nth_error (results (procs c 0)) 0 = Some [(0, 5%Z)] /\
  exists g, nth_error (results (procs c 2)) 0 = Some g /\ values 0 g = [7]%Z /\ values 1 g = [1; 4]%Z /\ values 2 g = [] /\ length g = 3.
Proof.
  destruct (C68_get_remote_ranks 3 2 ce_args (fun r => 40 + r) ce_collective) as (A & B). destruct (C68_finishes _ _ A) as (n & c & X & F). exists n, c. split; [exact X|]. split; [exact F|]. destruct (B n c X F) as (_ & R).
  assert (G : forall r k, r < 3 -> k < 2 -> exists g, nth_error (results (procs c r)) k = Some g /\ found 3 (fun s => nth k (ce_args s) []) r g /\ length g = length (values 0 g) + length (values 1 g) + length (values 2 g)).
  { intros r k Lr Lk. destruct (R r Lr) as (L & H). destruct (nth_error (results (procs c r)) k) as [g|] eqn:E; [|apply nth_error_None in E; lia]. exists g. split; [reflexivity|]. split; [apply H, E|]. pose proof (values_length 3 g (proj1 (H k g E))) as V. cbn in V. lia. }
  assert (One : forall s x g, values s g = [x] -> length g = 1 -> g = [(s, x)]). { intros s x [|(a, b) [|? ?]] V L; try discriminate. unfold values in V. cbn [filter fst] in V. destruct (Nat.eqb_spec a s) as [->|]; [|discriminate]. cbn in V. congruence. }
  split; [|split; [|split]].
  - destruct (G 1 0 ltac:(lia) ltac:(lia)) as (g & E & (_ & V) & L). rewrite (V 0), (V 1), (V 2) in L by lia. cbn in L. rewrite E. destruct g; [reflexivity|discriminate].
  - destruct (G 1 1 ltac:(lia) ltac:(lia)) as (g & E & (_ & V) & L). rewrite (V 0), (V 1), (V 2) in L by lia. cbn in L. rewrite E. f_equal. apply One; [rewrite V by lia; reflexivity|exact L].
  - destruct (G 0 0 ltac:(lia) ltac:(lia)) as (g & E & (_ & V) & L). rewrite (V 0), (V 1), (V 2) in L by lia. cbn in L. rewrite E. f_equal. apply One; [rewrite V by lia; reflexivity|exact L].
  - destruct (G 2 0 ltac:(lia) ltac:(lia)) as (g & E & (_ & V) & L). exists g. rewrite (V 0), (V 1), (V 2) in * by lia. cbn in L. auto.
Qed.
