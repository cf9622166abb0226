(** Lemmas about the resource pools. *)
From Coq Require Import List Arith Bool Permutation Lia.
Import ListNotations.
From Verif Require Import Base Kernel Pool_Model Pool_Spec.

Definition stacks (ps : list (nat * pool)) : list nat := flat_map (fun kp => stack (snd kp)) ps.
Definition size_of (ps : list (nat * pool)) k := match find ps k with Some p => length (stack p) | None => 0 end.
Definition managed_of (ps : list (nat * pool)) k := match find ps k with Some p => num_managed_objects p | None => 0 end.

Lemma find_none ps k : find ps k = None <-> ~ In k (map fst ps).
Proof.
  induction ps as [|[k' p] ps IH]; cbn; [tauto|]. destruct (Nat.eqb_spec k' k).
  - split; [discriminate|]. intros H; exfalso; apply H; auto.
  - rewrite IH. tauto.
Qed.

Lemma find_replace ps k p k' : find (replace ps k p) k' = if k =? k' then Some p else find ps k'.
Proof.
  induction ps as [|[k0 q] ps IH]; cbn.
  - destruct (k =? k'); auto.
  - destruct (Nat.eqb_spec k0 k); cbn.
    + subst k0. destruct (k =? k'); auto.
    + rewrite IH. destruct (Nat.eqb_spec k0 k'), (Nat.eqb_spec k k'); auto; congruence.
Qed.

Lemma replace_keys ps k p : NoDup (map fst ps) -> NoDup (map fst (replace ps k p)).
Proof.
  assert (K : forall ps, map fst (replace ps k p) = map fst ps \/ map fst (replace ps k p) = map fst ps ++ [k] /\ ~ In k (map fst ps)).
  { clear ps. induction ps as [|[k0 q] ps IH]; cbn; [auto|]. destruct (Nat.eqb_spec k0 k); cbn; [auto|].
    destruct IH as [->|[-> N]]; [auto|right]. split; auto. intros [?|?]; tauto. }
  intros ND. destruct (K ps) as [->|[-> N]]; auto.
  apply (Permutation_NoDup (Permutation_cons_append _ _)). constructor; auto.
Qed.

Lemma stacks_replace ps k p : NoDup (map fst ps) ->
  exists rest, Permutation (stacks (replace ps k p)) (stack p ++ rest) /\
    Permutation (stacks ps) (match find ps k with Some q => stack q | None => [] end ++ rest).
Proof.
  induction ps as [|[k0 q] ps IH]; cbn; intros ND.
  - exists []. rewrite app_nil_r. cbn. split; auto.
  - inversion ND as [|? ? N1 N2]; subst. destruct (Nat.eqb_spec k0 k); cbn.
    + exists (stacks ps). cbn. split; auto.
    + destruct (IH N2) as [rest [P1 P2]]. exists (stack q ++ rest). cbn. fold (stacks (replace ps k p)) (stacks ps). split.
      * rewrite P1, !app_assoc. apply Permutation_app_tail, Permutation_app_comm.
      * rewrite P2, !app_assoc. apply Permutation_app_tail, Permutation_app_comm.
Qed.

Lemma held_app l e : held (l ++ [e]) = after (held l) e.
Proof. unfold held. rewrite fold_left_app. reflexivity. Qed.
Lemma held_freed l os : held (l ++ map Freed os) = held l.
Proof. unfold held. rewrite fold_left_app. generalize (fold_left after l []) as h. induction os; cbn; auto. Qed.
Lemma freed_app l l' : freed (l ++ l') = freed l ++ freed l'.
Proof. apply flat_map_app. Qed.
Lemma freed_map os : freed (map Freed os) = os.
Proof. induction os; cbn; auto. f_equal; auto. Qed.
Lemma gots_app k l l' : gots k (l ++ l') = gots k l + gots k l'.
Proof. unfold gots. rewrite filter_app, app_length. reflexivity. Qed.
Lemma puts_app k l l' : puts k (l ++ l') = puts k l + puts k l'.
Proof. unfold puts. rewrite filter_app, app_length. reflexivity. Qed.
Lemma gots_freed k os : gots k (map Freed os) = 0.
Proof. induction os; cbn; auto. Qed.
Lemma puts_freed k os : puts k (map Freed os) = 0.
Proof. induction os; cbn; auto. Qed.

Lemma remove_notin o l : ~ In o l -> remove Nat.eq_dec o l = l.
Proof. induction l as [|x l IH]; cbn; auto. intros N. destruct (Nat.eq_dec o x); [subst; tauto|]. f_equal; apply IH; tauto. Qed.
Lemma remove_perm o l : NoDup l -> In o l -> Permutation l (o :: remove Nat.eq_dec o l).
Proof.
  induction l as [|x l IH]; cbn; [tauto|]. intros ND H. inversion ND; subst. destruct (Nat.eq_dec o x).
  - subst. rewrite remove_notin; auto.
  - destruct H as [H|H]; [congruence|]. rewrite (IH H3 H) at 1. apply perm_swap.
Qed.

Lemma NoDup_app_inv {A} (l1 l2 : list A) : NoDup (l1 ++ l2) -> NoDup l1 /\ NoDup l2 /\ forall x, In x l1 -> ~ In x l2.
Proof.
  induction l1 as [|a l1 IH]; cbn; intros H.
  - split; [constructor|]. split; auto.
  - inversion H as [|? ? N H']; subst. destruct (IH H') as (A1 & A2 & A3). rewrite in_app_iff in N. split; [constructor; tauto|].
    split; auto. intros x [<-|Hx]; [tauto|auto].
Qed.

Definition inv (s : state) : Prop :=
  NoDup (map fst (pools s)) /\
  Permutation (seq 0 (next s)) (stacks (pools s) ++ held (log s) ++ freed (log s)) /\
  (forall o, In (Some o) (handles s) -> In o (held (log s))) /\
  (forall k, managed_of (pools s) k + puts k (log s) = size_of (pools s) k + gots k (log s)).

Lemma inv_init : inv init.
Proof. split; [constructor|]. split; [constructor|]. split; [intros o []|reflexivity]. Qed.

Lemma nodup_parts s : inv s -> NoDup (stacks (pools s)) /\ NoDup (held (log s)) /\
  (forall o, In o (stacks (pools s)) -> ~ In o (held (log s))) /\
  (forall o, In o (stacks (pools s)) -> ~ In o (freed (log s))) /\
  (forall o, In o (held (log s)) -> ~ In o (freed (log s))) /\
  (forall o, In o (stacks (pools s)) \/ In o (held (log s)) \/ In o (freed (log s)) <-> o < next s).
Proof.
  intros (_ & P & _). assert (ND : NoDup (stacks (pools s) ++ held (log s) ++ freed (log s))) by (eapply Permutation_NoDup; eauto; apply seq_NoDup).
  apply NoDup_app_inv in ND. destruct ND as (N1 & N23 & D1). apply NoDup_app_inv in N23. destruct N23 as (N2 & N3 & D2).
  split; auto. split; auto. split; [|split; [|split]].
  - intros o A B. apply (D1 o A). apply in_or_app; auto.
  - intros o A B. apply (D1 o A). apply in_or_app; auto.
  - intros o A B. apply (D2 o A B).
  - intros o. rewrite <- !in_app_iff. split; intros H.
    + apply (Permutation_in _ (Permutation_sym P)) in H. apply in_seq in H. lia.
    + apply (Permutation_in _ P). apply in_seq. lia.
Qed.

Lemma get_correct s key : inv s -> inv (get_resource s key) /\
  exists o, handles (get_resource s key) = handles s ++ [Some o] /\
    log (get_resource s key) = log s ++ [Got key o] /\
    ~ In o (held (log s)) /\ ~ In o (freed (log s)) /\ ~ In (Some o) (handles s).
Proof.
  intros I. pose proof I as (K & P & H & M). pose proof (nodup_parts s I) as (_ & _ & D1 & D2 & D3 & R).
  unfold get_resource. remember (match find (pools s) key with Some p => p | None => mk_pool 0 [] end) as p eqn:Ep.
  unfold get. destruct (stack p) as [|o st] eqn:Es.
  - assert (N : ~ In (next s) (held (log s)) /\ ~ In (next s) (freed (log s))).
    { split; intros F; assert (next s < next s) by (apply R; auto); lia. }
    split; [|exists (next s); cbn [handles log]; repeat split; try tauto; intros F; apply H in F; tauto].
    split; [apply replace_keys; auto|]. cbn [pools next handles log].
    rewrite held_app, freed_app. cbn [after freed flat_map]. rewrite app_nil_r.
    destruct (stacks_replace (pools s) key (mk_pool (num_managed_objects p + 1) []) K) as [rest [P1 P2]].
    cbn [stack] in P1.
    assert (E0 : match find (pools s) key with Some q => stack q | None => [] end = []) by (destruct (find (pools s) key); subst p; auto).
    rewrite E0 in P2. cbn [app] in *. split; [|split].
    + rewrite P1, <- P2. rewrite Nat.add_1_r, seq_S. cbn [Nat.add]. rewrite <- Permutation_cons_append.
      rewrite P. apply Permutation_cons_app. reflexivity.
    + intros o F. apply in_app_or in F. destruct F as [F|[[= <-]|[]]]; [right; auto|left; auto].
    + intros k. rewrite gots_app, puts_app. specialize (M k). unfold managed_of, size_of in *. rewrite find_replace.
      cbn [gots puts filter length]. destruct (Nat.eqb_spec key k); cbn [num_managed_objects stack length]; [|lia].
      subst k. destruct (find (pools s) key); subst p; cbn in *; try rewrite Es in M; cbn in M; lia.
  - assert (Fp : find (pools s) key = Some p) by (destruct (find (pools s) key); subst p; [auto|discriminate]).
    destruct (stacks_replace (pools s) key (mk_pool (num_managed_objects p) st) K) as [rest [P1 P2]].
    rewrite Fp, Es in P2. cbn [stack] in P1. cbn [app] in P2.
    assert (Is : In o (stacks (pools s))) by (apply (Permutation_in _ (Permutation_sym P2)); left; auto).
    split; [|exists o; cbn [handles log]; repeat split; auto; intros F; apply H in F; apply (D1 o Is F)].
    split; [apply replace_keys; auto|]. cbn [pools next handles log].
    rewrite held_app, freed_app. cbn [after freed flat_map]. rewrite app_nil_r.
    split; [|split].
    + rewrite P, P1, P2. cbn [app]. apply Permutation_cons_app. reflexivity.
    + intros x F. apply in_app_or in F. destruct F as [F|[[= <-]|[]]]; [right; auto|left; auto].
    + intros k. rewrite gots_app, puts_app. specialize (M k). unfold managed_of, size_of in *. rewrite find_replace.
      cbn [gots puts filter length]. destruct (Nat.eqb_spec key k); cbn [num_managed_objects stack length]; [|lia].
      subst k. rewrite Fp, Es in M. cbn [length] in M. lia.
Qed.

Lemma upd_in {A} (l l' : list A) i v x : upd l i v = Some l' -> In x l' -> x = v \/ In x l.
Proof.
  intros E H. apply In_nth_error in H. destruct H as [j H]. rewrite (upd_nth _ _ _ _ j E) in H.
  destruct (j =? i); [left; congruence|right; eapply nth_error_In; eauto].
Qed.

Lemma filter_none {A} (f : A -> bool) l : length (filter f l) = 0 <-> forall x, In x l -> f x = false.
Proof.
  induction l as [|x l IH]; cbn; [tauto|]. destruct (f x) eqn:E; cbn.
  - split; [lia|]. intros H. specialize (H x). rewrite H in E; auto. discriminate.
  - rewrite IH. split; [intros H y [<-|Hy]; auto|auto].
Qed.

Lemma restore_some s key h s' : inv s -> restore_resource s key h = Some s' ->
  inv s' /\ exists o hs, nth_error (handles s) h = Some (Some o) /\ upd (handles s) h None = Some hs /\ handles s' = hs /\
    log s' = log s ++ [Put key o] /\ ~ In (Some o) hs.
Proof.
  intros I. pose proof I as (K & P & H & M). pose proof (nodup_parts s I) as (_ & ND2 & D1 & D2 & D3 & R).
  unfold restore_resource, rd. destruct (find (pools s) key) as [p|] eqn:Fp; [|discriminate]. cbn [obind].
  destruct (nth_error (handles s) h) as [[o|]|] eqn:Eh; try discriminate. cbn [obind].
  destruct (upd (handles s) h None) as [hs|] eqn:Eu; [|discriminate]. cbn [obind].
  destruct (_ =? 1) eqn:A; [|discriminate]. cbn [assert obind]. intros [= <-].
  apply Nat.eqb_eq in A. unfold uses in A; cbn [handles pools] in A.
  assert (A1 : length (filter (refers o) hs) = 0) by lia. rewrite filter_none in A1.
  assert (NI : ~ In (Some o) hs). { intros F. specialize (A1 _ F). cbn in A1. rewrite Nat.eqb_refl in A1. discriminate. }
  assert (Ho : In o (held (log s))) by (apply H; eapply nth_error_In; eauto).
  split; [|exists o, hs; auto].
  split; [apply replace_keys; auto|]. cbn [pools next handles log].
  rewrite held_app, freed_app. cbn [after freed flat_map]. rewrite app_nil_r.
  destruct (stacks_replace (pools s) key (mk_pool (num_managed_objects p) (o :: stack p)) K) as [rest [P1 P2]].
  rewrite Fp in P2. cbn [stack] in P1. split; [|split].
  - rewrite P, P1, P2, (remove_perm o _ ND2 Ho) at 1. cbn [app]. apply Permutation_sym, Permutation_cons_app. reflexivity.
  - intros x F. destruct (upd_in _ _ _ _ _ Eu F) as [?|F']; [discriminate|]. apply H in F'.
    apply in_in_remove; auto. intros ->; contradiction.
  - intros k. rewrite gots_app, puts_app. specialize (M k). unfold managed_of, size_of in *. rewrite find_replace.
    cbn [gots puts filter length]. destruct (Nat.eqb_spec key k); cbn [num_managed_objects stack length]; [|lia].
    subst k. rewrite Fp in M. lia.
Qed.

Lemma restore_works s key h o : inv s -> find (pools s) key <> None ->
  nth_error (handles s) h = Some (Some o) ->
  (forall h', nth_error (handles s) h' = Some (Some o) -> h' = h) ->
  exists s', restore_resource s key h = Some s'.
Proof.
  intros I Fp Eh U. pose proof I as (K & P & H & M). pose proof (nodup_parts s I) as (_ & ND2 & D1 & D2 & D3 & R).
  unfold restore_resource, rd. destruct (find (pools s) key) as [p|]; [|congruence]. cbn [obind]. rewrite Eh; cbn [obind].
  destruct (upd_some (handles s) h None) as [hs Eu]; [eapply nth_error_some_lt; eauto|]. rewrite Eu; cbn [obind].
  assert (A : uses (mk_state (pools s) (next s) hs (log s)) o = 0).
  { unfold uses; cbn [handles pools]. assert (length (filter (refers o) hs) = 0).
    { apply filter_none. intros [x|] F; auto. cbn. destruct (Nat.eqb_spec x o); auto. subst x.
      apply In_nth_error in F. destruct F as [j F]. rewrite (upd_nth _ _ _ _ j Eu) in F.
      destruct (Nat.eqb_spec j h); [discriminate|]. exfalso; apply n; auto. }
    assert (length (filter (Nat.eqb o) (stacks (pools s))) = 0).
    { apply filter_none. intros x F. destruct (Nat.eqb_spec o x); auto. subst x. exfalso. apply (D1 o F). apply H. eapply nth_error_In; eauto. }
    unfold stacks in *. lia. }
  rewrite A. cbn. eauto.
Qed.

Lemma free_pools ps fs : mapM (fun kp => free_pool (snd kp)) ps = Some fs ->
  flat_map snd fs = stacks ps /\ forall k, managed_of ps k = size_of ps k.
Proof.
  revert fs; induction ps as [|[k p] ps IH]; intros fs E; cbn in E.
  - injection E as <-. auto.
  - unfold free_pool at 1 in E. destruct (Nat.eqb_spec (length (stack p)) (num_managed_objects p)) as [L|L]; [|discriminate].
    cbn [assert obind] in E. destruct (mapM _ ps) as [fs'|] eqn:E'; [|discriminate]. injection E as <-.
    destruct (IH fs' eq_refl) as [F1 F2]. cbn. fold (stacks ps). rewrite F1. split; auto.
    intros k'. unfold managed_of, size_of in *; cbn. destruct (k =? k'); auto.
Qed.

Lemma free_all_some s s' : inv s -> free_all s = Some s' -> inv s' /\ handles s' = handles s /\ pools s' = [] /\ next s' = next s /\
  log s' = log s ++ map Freed (stacks (pools s)) /\ (forall k, gots k (log s) = puts k (log s)).
Proof.
  intros I. pose proof I as (K & P & H & M). unfold free_all.
  destruct (mapM _ _) as [fs|] eqn:E; [|discriminate]. cbn [obind]. intros [= <-]. destruct (free_pools _ _ E) as [F1 F2].
  rewrite F1. split; [|cbn; repeat split; auto; intros k; specialize (M k); rewrite F2 in M; lia].
  split; [constructor|]. cbn [pools next handles log]. rewrite held_freed, freed_app, freed_map. split; [|split; auto].
  - cbn [stacks flat_map app]. rewrite P. rewrite (app_assoc _ (freed (log s))). apply Permutation_app_comm.
  - intros k. rewrite gots_app, puts_app, gots_freed, puts_freed. specialize (M k). rewrite F2 in M. cbn. lia.
Qed.

Lemma free_all_works s : inv s -> (forall k, gots k (log s) = puts k (log s)) -> exists s', free_all s = Some s'.
Proof.
  intros (K & P & H & M) B. unfold free_all. destruct (mapM_total (fun kp => free_pool (snd kp)) (pools s)) as [fs ->]; [|cbn; eauto].
  intros [k p] F. cbn. unfold free_pool. specialize (M k). specialize (B k).
  assert (Fk : find (pools s) k = Some p).
  { clear - K F. induction (pools s) as [|[k0 q] ps IH]; [destruct F|]. cbn in *. inversion K; subst.
    destruct F as [[= -> ->]|F]; [rewrite Nat.eqb_refl; auto|]. destruct (Nat.eqb_spec k0 k); auto.
    subst k0. exfalso. apply H1. apply (in_map fst) in F. auto. }
  unfold managed_of, size_of in M. rewrite Fk in M. assert (E : length (stack p) = num_managed_objects p) by lia.
  rewrite E, Nat.eqb_refl. cbn. eauto.
Qed.

Lemma free_one_some s key s' : inv s -> free_one s key = Some s' -> inv s' /\ handles s' = handles s /\
  exists os, log s' = log s ++ map Freed os /\ gots key (log s) = puts key (log s).
Proof.
  intros I. pose proof I as (K & P & H & M). unfold free_one, free_pool.
  destruct (find (pools s) key) as [p|] eqn:Fp; [|discriminate]. cbn [obind].
  destruct (Nat.eqb_spec (length (stack p)) (num_managed_objects p)) as [L|L]; [|discriminate]. cbn [assert obind fst snd]. intros [= <-].
  assert (B : gots key (log s) = puts key (log s)). { specialize (M key). unfold managed_of, size_of in M. rewrite Fp in M. lia. }
  split; [|cbn; split; eauto].
  destruct (stacks_replace (pools s) key (mk_pool 0 []) K) as [rest [P1 P2]]. rewrite Fp in P2. cbn [stack app] in P1.
  split; [apply replace_keys; auto|]. cbn [pools next handles log]. rewrite held_freed, freed_app, freed_map. split; [|split; auto].
  - rewrite P, P1, P2. rewrite <- app_assoc. rewrite (Permutation_app_comm (stack p)), <- !app_assoc. reflexivity.
  - intros k. rewrite gots_app, puts_app, gots_freed, puts_freed. specialize (M k). unfold managed_of, size_of in *. rewrite find_replace.
    destruct (Nat.eqb_spec key k); [subst; cbn; lia|lia].
Qed.

Lemma inv_step s c s' : inv s -> step s c = Some s' -> inv s'.
Proof.
  intros I E. destruct c as [key|h|h|key h| |key]; cbn [step] in E.
  - injection E as <-. apply get_correct; auto.
  - unfold rd in E. destruct (nth_error (handles s) h) as [p|] eqn:Eh; [|discriminate]. injection E as <-.
    destruct I as (K & P & H & M). split; [|split; [|split]]; auto. cbn. intros o F. apply in_app_or in F.
    destruct F as [F|[->|[]]]; auto. apply H. eapply nth_error_In; eauto.
  - destruct (upd (handles s) h None) as [hs|] eqn:Eu; [|discriminate]. injection E as <-.
    destruct I as (K & P & H & M). split; [|split; [|split]]; auto. cbn. intros o F.
    destruct (upd_in _ _ _ _ _ Eu F) as [?|F']; [discriminate|auto].
  - eapply restore_some; eauto.
  - eapply free_all_some; eauto.
  - eapply free_one_some; eauto.
Qed.

Lemma inv_run cs s : run cs = Some s -> inv s.
Proof.
  unfold run. pose proof inv_init as I. revert I. generalize init. induction cs as [|c cs IH]; intros s0 I; cbn [foldM].
  - intros [= <-]; auto.
  - destruct (step s0 c) as [s1|] eqn:E; [|discriminate]. cbn [obind]. intros H. apply (IH s1); auto. eapply inv_step; eauto.
Qed.

(** ** Balanced logs *)
Definition got_keys (l : list event) := flat_map (fun e => match e with Got k _ => [k] | _ => [] end) l.
Definition put_keys (l : list event) := flat_map (fun e => match e with Put k _ => [k] | _ => [] end) l.
Lemma got_keys_count k l : count_occ Nat.eq_dec (got_keys l) k = gots k l.
Proof.
  unfold got_keys, gots. induction l as [|[k' o|k' o|o] l IH]; cbn; auto.
  destruct (Nat.eq_dec k' k), (Nat.eqb_spec k' k); try congruence; cbn; auto.
Qed.
Lemma put_keys_count k l : count_occ Nat.eq_dec (put_keys l) k = puts k l.
Proof.
  unfold put_keys, puts. induction l as [|[k' o|k' o|o] l IH]; cbn; auto.
  destruct (Nat.eq_dec k' k), (Nat.eqb_spec k' k); try congruence; cbn; auto.
Qed.

Definition balance (l : list event) : Prop := length (held l) + length (put_keys l) = length (got_keys l).

Lemma balance_step s c s' : inv s -> balance (log s) -> step s c = Some s' -> balance (log s').
Proof.
  intros I B E. unfold balance in *. destruct c as [key|h|h|key h| |key]; cbn [step] in E.
  - injection E as <-. destruct (get_correct s key I) as [_ [o (_ & -> & _)]].
    rewrite held_app. unfold put_keys, got_keys in *. rewrite !flat_map_app, !app_length. cbn. lia.
  - unfold rd in E. destruct (nth_error (handles s) h); [|discriminate]. injection E as <-. auto.
  - destruct (upd (handles s) h None); [|discriminate]. injection E as <-. auto.
  - destruct (restore_some s key h s' I E) as [_ (o & hs & A & _ & _ & -> & _)].
    rewrite held_app. unfold put_keys, got_keys in *. rewrite !flat_map_app, !app_length. cbn.
    pose proof I as (_ & _ & H & _). pose proof (nodup_parts s I) as (_ & ND & _).
    assert (Ho : In o (held (log s))) by (apply H; eapply nth_error_In; eauto).
    pose proof (Permutation_length (remove_perm o _ ND Ho)) as L. cbn in L. lia.
  - destruct (free_all_some s s' I E) as (_ & _ & _ & _ & -> & _).
    rewrite held_freed. unfold put_keys, got_keys in *. rewrite !flat_map_app, !app_length.
    assert (Z : forall os, flat_map (fun e => match e with Got k _ => [k] | _ => [] end) (map Freed os) = [] /\
                 flat_map (fun e => match e with Put k _ => [k] | _ => [] end) (map Freed os) = []) by (induction os; cbn; auto).
    destruct (Z (stacks (pools s))) as [-> ->]. cbn; lia.
  - destruct (free_one_some s key s' I E) as (_ & _ & os & -> & _).
    rewrite held_freed. unfold put_keys, got_keys in *. rewrite !flat_map_app, !app_length.
    assert (Z : forall os, flat_map (fun e => match e with Got k _ => [k] | _ => [] end) (map Freed os) = [] /\
                 flat_map (fun e => match e with Put k _ => [k] | _ => [] end) (map Freed os) = []) by (clear; induction os; cbn; auto).
    destruct (Z os) as [-> ->]. cbn; lia.
Qed.

Lemma balance_run cs s : run cs = Some s -> balance (log s).
Proof.
  unfold run. assert (B : balance (log init)) by reflexivity. pose proof inv_init as I. revert I B. generalize init.
  induction cs as [|c cs IH]; intros s0 I B; cbn [foldM].
  - intros [= <-]; auto.
  - destruct (step s0 c) as [s1|] eqn:E; [|discriminate]. cbn [obind]. intros H.
    apply (IH s1); auto; [eapply inv_step|eapply balance_step]; eauto.
Qed.

Lemma balanced_held cs s : run cs = Some s -> (forall k, gots k (log s) = puts k (log s)) -> held (log s) = [].
Proof.
  intros R B. apply balance_run in R. unfold balance in R.
  assert (P : Permutation (got_keys (log s)) (put_keys (log s))).
  { apply (Permutation_count_occ Nat.eq_dec). intros k. rewrite got_keys_count, put_keys_count. apply B. }
  apply Permutation_length in P. destruct (held (log s)); [auto|cbn in R; lia].
Qed.
