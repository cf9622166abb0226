(** The transfers of the reduction and their result. *)
From Coq Require Import List Arith ZArith Bool Lia Sorted.
Import ListNotations.
From Verif Require Import Base Kernel Union_Model Union_Spec Union_Proofs.
Local Open Scope nat_scope.

(** ** Sets *)
Lemma insert_in x s y : In y (insert x s) <-> y = x \/ In y s.
Proof.
  induction s as [|z s IH]; cbn; [intuition|]. destruct (Z.ltb_spec x z); [cbn; intuition|]. destruct (Z.eqb_spec x z) as [->|]; [cbn; intuition|]. cbn. rewrite IH. intuition.
Qed.
Lemma insert_set x s : is_set s -> is_set (insert x s).
Proof.
  unfold is_set. induction s as [|z s IH]; cbn; intros H; [repeat constructor|]. inversion H as [|? ? H1 H2]; subst. destruct (Z.ltb_spec x z).
  - constructor; [exact H|]. constructor; [exact H0|]. eapply Forall_impl; [|exact H2]. cbn. lia.
  - destruct (Z.eqb_spec x z) as [->|N]; [exact H|]. constructor; [auto|]. apply Forall_forall. intros y I. apply insert_in in I. destruct I as [->|I]; [lia|]. rewrite Forall_forall in H2. auto.
Qed.
Lemma insert_all_in v : forall s y, In y (insert_all v s) <-> In y v \/ In y s.
Proof. induction v as [|x v IH]; cbn; intros s y; [intuition|]. fold (insert_all v (insert x s)). rewrite IH, insert_in. intuition. Qed.
Lemma insert_all_set v : forall s, is_set s -> is_set (insert_all v s).
Proof. induction v as [|x v IH]; cbn; intros s H; [exact H|]. apply IH, insert_set, H. Qed.
Lemma nil_set : is_set [].
Proof. constructor. Qed.
Lemma to_int_fits x : fits_int x -> to_int x = x.
Proof. unfold fits_int, to_int. intros H. rewrite Z.mod_small by lia. lia. Qed.
Lemma map_to_int v : Forall fits_int v -> map to_int v = v.
Proof. induction 1 as [|x v H _ IH]; cbn; [reflexivity|]. rewrite to_int_fits, IH; auto. Qed.
Lemma absorb_in m a b y : Forall fits_int b -> In y (absorb m a b) <-> In y b \/ (m = Merge /\ In y a).
Proof.
  intros H. unfold absorb. rewrite map_to_int by exact H. destruct m; rewrite !insert_all_in; cbn; intuition discriminate.
Qed.
Lemma absorb_set m a b : is_set a -> is_set (absorb m a b).
Proof. intros H. unfold absorb. destruct m; apply insert_all_set; [exact H|exact nil_set]. Qed.

(** ** Powers of two *)
Lemma power_spec n : is_power_of_two n = true -> n = 2 ^ Nat.log2 n.
Proof.
  unfold is_power_of_two. destruct (Nat.ltb_spec 0 n) as [L|]; [|discriminate]. intros E. apply Nat.eqb_eq in E. destruct (Nat.log2_spec n L) as (L1 & L2).
  destruct (Nat.eq_dec n (2 ^ Nat.log2 n)) as [|N]; [auto|exfalso]. assert (Nat.log2 (n - 1) = Nat.log2 n) as E2. { apply Nat.log2_unique; lia. }
  assert (Nat.testbit (Nat.land n (n - 1)) (Nat.log2 n) = true) as T; [|rewrite E, Nat.bits_0 in T; discriminate].
  rewrite Nat.land_spec, Nat.bit_log2 by lia. rewrite <- E2. rewrite Nat.bit_log2; [reflexivity|]. intros Z. rewrite Z in E2. cbn in E2. rewrite <- E2 in *. cbn in *. lia.
Qed.
Lemma reduction_spec size : 1 <= size -> exists k, reduction_size size = 2 ^ k /\ 2 ^ k <= size < 2 * 2 ^ k /\ (is_power_of_two size = true -> size = 2 ^ k).
Proof.
  intros L. exists (Nat.log2 size). destruct (Nat.log2_spec size) as (L1 & L2); [lia|]. cbn [Nat.pow] in L2. unfold reduction_size, get_prev_power_of_two. split; [|split; [lia|apply power_spec]].
  destruct (is_power_of_two size) eqn:E; [apply power_spec, E|]. pose proof (Nat.pow_nonzero 2 (Nat.log2 size)). lia.
Qed.
Lemma halvings_le f : forall m s, In s (halvings f m) -> s <= m /\ 0 < s.
Proof.
  induction f as [|f IH]; cbn [halvings]; intros m s I; [destruct I|]. destruct (Nat.eqb_spec m 0); [destruct I|]. destruct I as [<-|I]; [lia|]. destruct (IH _ _ I). split; [|auto]. assert (m / 2 <= m) by (apply Nat.div_le_upper_bound; lia). lia.
Qed.

(** ** The transfers *)
Definition tr (s d : nat) (m : mode) : elem := mk_elem s d m P0.
Definition stage (n s : nat) : list elem := map (fun i => tr (i + s) i Merge) (seq 0 n).
Definition rounds (l : list nat) : list elem := flat_map (fun s => stage s s) l.
Definition transfers (size root : nat) : list elem :=
  if size =? 1 then [] else
    let red := reduction_size size in
    (if is_power_of_two size then [] else stage (size - red) red) ++ rounds (halvings (red / 2) (red / 2)) ++ (if root =? 0 then [] else [tr 0 root Replace]).

Lemma stage_S n s : stage (S n) s = stage n s ++ [tr (n + s) n Merge].
Proof. unfold stage. rewrite seq_S, map_app. reflexivity. Qed.
Lemma stage_proj r s n : n <= s -> flat_map (proj r) (stage n s) =
  if r <? n then [RecvSet (r + s) Merge] else if (s <=? r) && (r <? s + n) then [SendSet (r - s)] else [].
Proof.
  induction n as [|n IH]; intros L.
  - cbn [stage seq map flat_map]. change (r <? 0) with false. cbv iota. destruct (Nat.leb_spec s r); [|reflexivity]. destruct (Nat.ltb_spec r (s + 0)); [lia|reflexivity].
  - rewrite stage_S, flat_map_app, IH by lia. cbn [flat_map]. rewrite app_nil_r. unfold proj, tr, sender_part, receiver_part. cbn [e_src e_dst e_ph e_mode].
    destruct (Nat.ltb_spec r n); destruct (Nat.ltb_spec r (S n)); destruct (Nat.leb_spec s r); destruct (Nat.ltb_spec r (s + n)); destruct (Nat.ltb_spec r (s + S n)); destruct (Nat.eqb_spec r (n + s)); destruct (Nat.eqb_spec r n); cbn; try lia; try reflexivity; subst; repeat f_equal; lia.
Qed.
Lemma stage_wf size n s e : n <= s -> s + n <= size -> In e (stage n s) -> wf_elem size e.
Proof. intros L1 L2 I. apply in_map_iff in I. destruct I as (i & <- & I). apply in_seq in I. unfold wf_elem, tr. cbn. repeat split; lia. Qed.

Lemma transfers_proj size root r : 1 <= size -> r < size -> flat_map (proj r) (transfers size root) = reduce_calls size root r.
Proof.
  intros L Lr. unfold transfers, reduce_calls. destruct (Nat.eqb_spec size 1); [reflexivity|]. destruct (reduction_spec size L) as (k & Er & (L1 & L2) & Ep). rewrite Er. rewrite !flat_map_app. f_equal; [|f_equal].
  - destruct (is_power_of_two size); [reflexivity|]. rewrite stage_proj by lia. destruct (Nat.ltb_spec r (size - 2 ^ k)); [rewrite (Nat.add_comm r); reflexivity|]. destruct (Nat.leb_spec (2 ^ k) r); [|reflexivity]. destruct (Nat.ltb_spec r (2 ^ k + (size - 2 ^ k))); [reflexivity|lia].
  - unfold rounds. induction (halvings (2 ^ k / 2) (2 ^ k / 2)) as [|s l IH]; cbn [flat_map]; [reflexivity|]. rewrite flat_map_app, IH. f_equal. rewrite stage_proj by lia. unfold round. replace (s + s) with (2 * s) by lia. reflexivity.
  - destruct (Nat.eqb_spec root 0); [reflexivity|]. cbn [flat_map]. rewrite app_nil_r. unfold proj, tr, sender_part, receiver_part. cbn. reflexivity.
Qed.
Lemma transfers_fresh size root e : 1 <= size -> root < size -> In e (transfers size root) -> wf_elem size e /\ e_ph e = P0.
Proof.
  intros L Lr I. unfold transfers in I. destruct (Nat.eqb_spec size 1); [destruct I|]. destruct (reduction_spec size L) as (k & Er & (L1 & L2) & Ep). rewrite Er in I.
  assert (Ph : forall n s, In e (stage n s) -> e_ph e = P0). { intros n' s J. apply in_map_iff in J. destruct J as (i & <- & _). reflexivity. }
  apply in_app_or in I. destruct I as [I|I]; [|apply in_app_or in I; destruct I as [I|I]].
  - destruct (is_power_of_two size); [destruct I|]. split; [|eauto]. eapply stage_wf; [| |exact I]; lia.
  - apply in_flat_map in I. destruct I as (s & Is & I). apply halvings_le in Is. split; [|eauto]. eapply stage_wf; [| |exact I]; [lia|]. pose proof (Nat.mul_div_le (2 ^ k) 2). lia.
  - destruct (Nat.eqb_spec root 0); [destruct I|]. destruct I as [<-|[]]. split; [|reflexivity]. unfold wf_elem, tr. cbn. repeat split; lia.
Qed.

Lemma start_follows size root inputs : 1 <= size -> root < size ->
  follows size (do_all (transfers size root) (fun r => if r <? size then insert_all (inputs r) [] else [])) (transfers size root) (reduce_start size root inputs).
Proof.
  intros L Lr. assert (Fr : forall e, In e (transfers size root) -> wf_elem size e /\ e_ph e = P0) by (intros; eapply transfers_fresh; eauto).
  split; [intros e I; apply (Fr e I)|]. split; [|split; [|split; [|split]]]; cbn [reduce_start procs net].
  - intros r. destruct (Nat.ltb_spec r size) as [H|H]; cbn [todo]; [symmetry; apply transfers_proj; auto|]. symmetry. apply flat_map_nil. intros e I. destruct (Fr e I) as ((_ & A & B & _) & _). unfold proj. destruct (Nat.eqb_spec r (e_src e)); [lia|]. destruct (Nat.eqb_spec r (e_dst e)); [lia|reflexivity].
  - intros s d. symmetry. apply flat_map_nil. intros e I. unfold qproj, queue_part. rewrite (proj2 (Fr e I)). apply if_same.
  - induction (transfers size root) as [|e C IH]; cbn; [auto|]. split; [|apply IH; intros; apply Fr; right; auto]. intros b I. unfold later_started, started. rewrite (proj2 (Fr b (or_intror I))). discriminate.
  - intros r d. destruct (r <? size); discriminate.
  - intros r. apply do_all_ext. intros i. destruct (i <? size); reflexivity.
Qed.

(** ** The result *)
Definition all_fit (w : nat -> list Z) : Prop := forall r, Forall fits_int (w r).
Definition all_sets (w : nat -> list Z) : Prop := forall r, is_set (w r).
Definition union_of (n : nat) (w : nat -> list Z) (x : Z) : Prop := exists r, r < n /\ In x (w r).
Lemma do_all_ok C : (forall e, In e C -> e_ph e = P0) -> forall w, all_fit w -> all_sets w -> all_fit (do_all C w) /\ all_sets (do_all C w).
Proof.
  induction C as [|e C IH]; intros P w Hf Hs; [auto|]. cbn [do_all fold_left]. apply IH; [intros; apply P; right; auto| |]; intros r; unfold do_elem, setw; destruct (r =? e_dst e); try apply Hf; try apply Hs.
  - rewrite (P e (or_introl eq_refl)). apply Forall_forall. intros x I. apply absorb_in in I; [|apply Hf]. destruct I as [I|(_ & I)]; eapply Forall_forall; try exact I; apply Hf.
  - apply absorb_set, Hs.
Qed.
Lemma stage_do n s w : n <= s -> forall i, do_all (stage n s) w i = if i <? n then absorb Merge (w i) (w (i + s)) else w i.
Proof.
  induction n as [|n IH]; intros L i; [reflexivity|]. rewrite stage_S, do_all_app. cbn [do_all fold_left]. unfold do_elem at 1, setw, tr. cbn [e_dst e_mode e_ph e_src]. fold (do_all (stage n s) w). rewrite !IH by lia.
  destruct (Nat.ltb_spec n n); [lia|]. destruct (Nat.ltb_spec (n + s) n); [lia|]. destruct (Nat.eqb_spec i n) as [->|].
  - destruct (Nat.ltb_spec n (S n)); [reflexivity|lia].
  - destruct (Nat.ltb_spec i n); destruct (Nat.ltb_spec i (S n)); try lia; reflexivity.
Qed.
Lemma stage_union n s w x : n <= s -> all_fit w -> union_of s (do_all (stage n s) w) x <-> union_of (s + n) w x.
Proof.
  intros L Hf. unfold union_of. split.
  - intros (r & Lr & I). rewrite stage_do in I by exact L. destruct (Nat.ltb_spec r n); [|exists r; split; [lia|exact I]]. apply absorb_in in I; [|apply Hf]. destruct I as [I|(_ & I)]; [exists (r + s)|exists r]; (split; [lia|exact I]).
  - intros (r & Lr & I). destruct (lt_dec r s) as [H|H].
    + exists r. split; [exact H|]. rewrite stage_do by exact L. destruct (Nat.ltb_spec r n); [|exact I]. apply absorb_in; [apply Hf|]. auto.
    + exists (r - s). split; [lia|]. rewrite stage_do by exact L. destruct (Nat.ltb_spec (r - s) n); [|lia]. apply absorb_in; [apply Hf|]. left. replace (r - s + s) with r by lia. exact I.
Qed.
Lemma stage_ph n s e : In e (stage n s) -> e_ph e = P0.
Proof. intros I. apply in_map_iff in I. destruct I as (i & <- & _). reflexivity. Qed.
Lemma rounds_union k : forall f w x, k < f -> all_fit w -> all_sets w -> union_of 1 (do_all (rounds (halvings f (2 ^ k))) w) x <-> union_of (2 * 2 ^ k) w x.
Proof.
  induction k as [|k IH]; intros [|f] w x L Hf Hs; try lia; cbn [halvings].
  - change (2 ^ 0) with 1. cbn [Nat.eqb]. change (1 / 2) with 0. replace (halvings f 0) with (@nil nat) by (destruct f; reflexivity). cbn [rounds flat_map]. rewrite app_nil_r. apply (stage_union 1 1); auto.
  - destruct (Nat.eqb_spec (2 ^ S k) 0) as [E|_]; [pose proof (Nat.pow_nonzero 2 (S k)); lia|]. cbn [rounds flat_map]. rewrite do_all_app. fold (rounds (halvings f (2 ^ S k / 2))).
    replace (2 ^ S k / 2) with (2 ^ k) by (cbn [Nat.pow]; rewrite Nat.mul_comm, Nat.div_mul; lia).
    destruct (do_all_ok (stage (2 ^ S k) (2 ^ S k)) (stage_ph _ _) w Hf Hs) as (A & B). rewrite IH; [|lia|exact A|exact B]. replace (2 * 2 ^ k) with (2 ^ S k) by reflexivity. rewrite stage_union by auto. replace (2 ^ S k + 2 ^ S k) with (2 * 2 ^ S k) by lia. reflexivity.
Qed.

Lemma transfers_result size root w : 1 <= size -> root < size -> all_fit w -> all_sets w ->
  is_set (do_all (transfers size root) w root) /\ forall x, In x (do_all (transfers size root) w root) <-> union_of size w x.
Proof.
  intros L Lr Hf Hs. destruct (do_all_ok (transfers size root) (fun e I => proj2 (transfers_fresh size root e L Lr I)) w Hf Hs) as (_ & A). split; [apply A|]. intros x. unfold transfers. destruct (Nat.eqb_spec size 1) as [->|N].
  - cbn. assert (root = 0) as -> by lia. unfold union_of. split; [eauto|]. intros (r & H & I). assert (r = 0) by lia. subst. exact I.
  - destruct (reduction_spec size L) as (k & Er & (L1 & L2) & Ep). rewrite Er. destruct k as [|k]; [cbn in L1, L2; lia|]. replace (2 ^ S k / 2) with (2 ^ k) by (cbn [Nat.pow]; rewrite Nat.mul_comm, Nat.div_mul; lia).
    rewrite !do_all_app. set (w1 := do_all (if is_power_of_two size then [] else stage (size - 2 ^ S k) (2 ^ S k)) w).
    assert (H1 : all_fit w1 /\ all_sets w1). { apply do_all_ok; auto. intros e I. destruct (is_power_of_two size); [destruct I|]. eapply stage_ph; eauto. }
    assert (U1 : forall x, union_of (2 ^ S k) w1 x <-> union_of size w x).
    { intros y. subst w1. destruct (is_power_of_two size) eqn:E; [rewrite (Ep eq_refl); reflexivity|]. rewrite stage_union by (auto; lia). replace (2 ^ S k + (size - 2 ^ S k)) with size by lia. reflexivity. }
    set (w2 := do_all (rounds (halvings (2 ^ k) (2 ^ k))) w1).
    assert (U2 : forall x, In x (w2 0) <-> union_of size w x).
    { intros y. rewrite <- U1. change (2 ^ S k) with (2 * 2 ^ k). unfold w2. rewrite <- (rounds_union k (2 ^ k) w1 y); [|apply Nat.pow_gt_lin_r; lia|apply H1|apply H1]. unfold union_of. split; [intros I; exists 0; auto|]. intros (r & H & I). assert (r = 0) by lia. subst. exact I. }
    destruct (Nat.eqb_spec root 0) as [->|Nr]; [apply U2|]. cbn [do_all fold_left]. unfold do_elem, setw, tr. cbn [e_dst e_mode e_ph e_src]. rewrite Nat.eqb_refl. rewrite absorb_in.
    + rewrite U2. intuition discriminate.
    + assert (H2 : all_fit w2 /\ all_sets w2); [|apply H2]. apply do_all_ok; try apply H1. intros e I. apply in_flat_map in I. destruct I as (s & _ & I). eapply stage_ph; eauto.
Qed.

Theorem reduce_ok size root inputs : 1 <= size -> root < size -> (forall r, r < size -> is_set (inputs r) /\ Forall fits_int (inputs r)) ->
  always_ends size (reduce_start size root inputs) /\
  forall n c, execution n (reduce_start size root inputs) c -> finished size c ->
    (forall s d, net c s d = []) /\ is_union size inputs (reduce_return size root root c) /\ forall r, r < size -> r <> root -> reduce_return size root r c = [].
Proof.
  intros L Lr Hi. destruct (transfers_end size _ _ _ (start_follows size root inputs L Lr)) as (A & B). split; [exact A|]. intros n c K F. destruct (B n c K F) as (N & W). split; [exact N|].
  set (w := fun r => if r <? size then insert_all (inputs r) [] else []) in *.
  assert (Hf : all_fit w). { intros r. unfold w. destruct (Nat.ltb_spec r size) as [H|]; [|constructor]. apply Forall_forall. intros x I. apply insert_all_in in I. destruct I as [I|[]]. eapply Forall_forall; [apply (Hi r H)|exact I]. }
  assert (Hs : all_sets w). { intros r. unfold w. destruct (r <? size); [|exact nil_set]. apply insert_all_set, nil_set. }
  destruct (transfers_result size root w L Lr Hf Hs) as (R1 & R2).
  assert (U : forall x, union_of size w x <-> exists r, r < size /\ In x (inputs r)).
  { intros x. unfold union_of, w. split; intros (r & H & I); exists r; (split; [exact H|]); rewrite (proj2 (Nat.ltb_lt r size) H) in *; [apply insert_all_in in I; destruct I as [I|[]]; exact I|apply insert_all_in; auto]. }
  split; [|].
  - assert (E : reduce_return size root root c = do_all (transfers size root) w root). { unfold reduce_return. rewrite Nat.eqb_refl, if_same. apply W. }
    rewrite E. split; [exact R1|]. intros x. rewrite R2. apply U.
  - intros r H N'. unfold reduce_return. destruct (Nat.eqb_spec size 1); [lia|]. destruct (Nat.eqb_spec r root); [congruence|reflexivity].
Qed.
