(** Proofs about BoundaryMeshInterface: maps, sets, and neighbourhood exchanges. *)
From Coq Require Import List Arith Lia ZArith Bool Permutation Sorted.
Import ListNotations.
From Verif Require Import Base Kernel Bmi_Model Bmi_Spec.

(* ------------------------------------------------------------------ *)
(** Maps. *)
Section Maps.
  Context {K V : Type} (eqb : K -> K -> bool) (eqb_ok : forall a b, reflect (a = b) (eqb a b)).

  Lemma mget_mput k k' v (m : list (K * V)) : mget eqb k (mput eqb k' v m) = if eqb k k' then Some v else mget eqb k m.
  Proof.
    induction m as [|[q u] m IH]; cbn [mput mget]; [reflexivity|].
    destruct (eqb_ok k' q) as [E1|E1]; cbn [mget]; destruct (eqb_ok k q) as [E2|E2], (eqb_ok k k') as [E3|E3]; try congruence; rewrite IH; destruct (eqb_ok k k'); congruence.
  Qed.

  Lemma mget_in k (m : list (K * V)) : mget eqb k m <> None <-> In k (map fst m).
  Proof.
    induction m as [|[q u] m IH]; cbn; [intuition congruence|].
    destruct (eqb_ok k q) as [->|N]; [intuition congruence|]. rewrite IH. intuition congruence.
  Qed.

  Lemma mput_keys k v (m : list (K * V)) : NoDup (map fst m) -> NoDup (map fst (mput eqb k v m)).
  Proof.
    assert (G : forall x m, In x (map fst (mput eqb k v m)) -> x = k \/ In x (map fst m)).
    { intros x m'. induction m' as [|[q u] m' IH]; cbn; [intuition auto|].
      destruct (eqb_ok k q) as [->|N]; cbn; intuition auto. }
    induction m as [|[q u] m IH]; cbn; intros H; [constructor; [intros []|constructor]|].
    inversion H as [|? ? H1 H2]; subst. destruct (eqb_ok k q) as [->|N]; cbn; constructor; auto.
    intros I. destruct (G _ _ I); congruence.
  Qed.
End Maps.

Lemma Neqb_ok a b : reflect (a = b) (Nat.eqb a b). Proof. apply Nat.eqb_spec. Qed.
Lemma Zeqb_ok a b : reflect (a = b) (Z.eqb a b). Proof. apply Z.eqb_spec. Qed.

Lemma mset_mput k k' s m : mset k (mput Nat.eqb k' s m) = if k =? k' then s else mset k m.
Proof. unfold mset. rewrite (mget_mput _ Neqb_ok). destruct (k =? k'); auto. Qed.

(* ------------------------------------------------------------------ *)
(** Sets. *)
Definition sorted (s : list Z) : Prop := StronglySorted Z.lt s.

Lemma zinsert_in x y s : In y (zinsert x s) <-> y = x \/ In y s.
Proof.
  induction s as [|a s IH]; cbn; [intuition auto|].
  destruct (Z.ltb_spec x a); cbn; [intuition auto|].
  destruct (Z.eqb_spec x a); cbn; [subst; intuition auto|]. rewrite IH. intuition auto.
Qed.

Lemma zinsert_sorted x s : sorted s -> sorted (zinsert x s).
Proof.
  induction s as [|a s IH]; intros H; cbn; [repeat constructor|].
  inversion H as [|? ? H1 H2]; subst.
  destruct (Z.ltb_spec x a).
  - constructor; auto. constructor; auto. eapply Forall_impl; [|exact H2]. intros; cbn in *; lia.
  - destruct (Z.eqb_spec x a); auto. constructor; [apply IH; auto|].
    apply Forall_forall. intros y I. apply zinsert_in in I. destruct I as [->|I]; [lia|].
    rewrite Forall_forall in H2; auto.
Qed.

Lemma sorted_ext s t : sorted s -> sorted t -> (forall x, In x s <-> In x t) -> s = t.
Proof.
  revert t. induction s as [|a s IH]; intros [|b t] Hs Ht E; auto.
  - destruct (proj2 (E b)); cbn; auto.
  - destruct (proj1 (E a)); cbn; auto.
  - inversion Hs as [|? ? S1 S2]; inversion Ht as [|? ? T1 T2]; subst. rewrite Forall_forall in S2, T2.
    assert (a = b).
    { destruct (proj1 (E a)) as [|I]; [left; auto|congruence|].
      destruct (proj2 (E b)) as [|J]; [left; auto|congruence|].
      specialize (S2 _ J); specialize (T2 _ I); lia. }
    subst b. f_equal. apply IH; auto. intros x. split; intros I.
    + destruct (proj1 (E x)) as [->|]; [right; auto| |auto]. specialize (S2 _ I); lia.
    + destruct (proj2 (E x)) as [->|]; [right; auto| |auto]. specialize (T2 _ I); lia.
Qed.

Lemma sorted_nodup s : sorted s -> NoDup s.
Proof.
  induction 1 as [|a s H IH F]; constructor; auto. intros I. rewrite Forall_forall in F. specialize (F _ I). lia.
Qed.

(* ------------------------------------------------------------------ *)
(** Neighbourhood exchanges. *)

Lemma displs_nth counts off j : j < length counts -> nth_error (displs off counts) j = Some (off + list_sum (firstn j counts)).
Proof.
  revert off j. induction counts as [|c l IH]; intros off [|j] H; cbn in *; try lia.
  - f_equal; lia.
  - rewrite IH by lia. f_equal; unfold list_sum; lia.
Qed.

Lemma find_index_split r l1 l2 : ~ In r l1 -> find_index r (l1 ++ r :: l2) = Some (length l1).
Proof.
  induction l1 as [|x l1 IH]; intros N; cbn; [rewrite Nat.eqb_refl; auto|].
  destruct (Nat.eqb_spec r x); [subst; exfalso; apply N; left; auto|].
  rewrite IH; [auto|]. intros I; apply N; right; auto.
Qed.

Lemma blit_mid {T} (A B C data : list T) : length B = length data -> blit (A ++ B ++ C) (length A) data = Some (A ++ data ++ C).
Proof.
  revert A B. unfold blit. induction data as [|x data IH]; intros A B L; destruct B as [|y B]; cbn in L; try lia; [reflexivity|].
  cbn [length seq combine]. unfold scatter in *. cbn [foldM fst snd].
  assert (E : upd (A ++ (y :: B) ++ C) (length A) x = Some ((A ++ [x]) ++ B ++ C)).
  { clear. induction A as [|a A IH]; cbn; [reflexivity|]. cbn in IH. rewrite IH. reflexivity. }
  rewrite E. cbn [obind]. specialize (IH (A ++ [x]) B). rewrite app_length in IH. cbn in IH. rewrite Nat.add_1_r in IH.
  rewrite IH by lia. rewrite <- app_assoc. reflexivity.
Qed.

Lemma flat_map_len {A B} (f : A -> list B) l : length (flat_map f l) = list_sum (map (fun x => length (f x)) l).
Proof. induction l as [|a l IH]; cbn; auto. rewrite app_length, IH. auto. Qed.

Lemma slice_mid {T} (A B C : list T) : slice (A ++ B ++ C) (length A) (length A + length B) = Some B.
Proof.
  rewrite slice_some by (rewrite ?app_length; lia). f_equal.
  replace (length A + length B - length A) with (length B) by lia.
  rewrite skipn_app, skipn_all, Nat.sub_diag. cbn. rewrite firstn_app, firstn_all, Nat.sub_diag. cbn. apply app_nil_r.
Qed.

Lemma skipn_S_cons {A} n (l : list A) x l' : skipn n l = x :: l' -> skipn (S n) l = l'.
Proof.
  revert l. induction n as [|n IH]; intros [|y l] H; try discriminate.
  - cbn in H. injection H as -> ->. reflexivity.
  - cbn in H. apply IH in H. exact H.
Qed.

Section Neighbours.
  Context {T : Type} (R : nat) (blk : nat -> nat -> list T) (dl sl : nat -> list nat).
  Hypothesis dl_nodup : forall s, s < R -> NoDup (dl s).
  Hypothesis edges : forall r s, r < R -> In s (sl r) -> s < R /\ In r (dl s).

  Lemma message_ok dests scounts bufs r s n : r < R -> In s (sl r) ->
    nth_error dests s = Some (dl s) -> nth_error scounts s = Some (map (fun d => length (blk s d)) (dl s)) ->
    (exists rest, nth_error bufs s = Some (flat_map (blk s) (dl s) ++ rest)) -> n = length (blk s r) ->
    message dests scounts bufs r s n = Some (blk s r).
  Proof.
    intros Hr Is Hd Hs [rest Hb] ->. destruct (edges r s Hr Is) as [Ls Ir].
    destruct (in_split _ _ Ir) as [l1 [l2 E]].
    assert (N1 : ~ In r l1).
    { pose proof (dl_nodup s Ls) as N. rewrite E in N. apply NoDup_remove_2 in N. intros I; apply N; apply in_or_app; auto. }
    unfold message, rd. rewrite Hd. cbn [obind]. rewrite E, (find_index_split r l1 l2 N1). cbn [obind].
    rewrite Hs. cbn [obind]. rewrite E, map_app. cbn [map].
    rewrite nth_error_app2 by (rewrite map_length; lia). rewrite map_length, Nat.sub_diag. cbn [nth_error obind].
    rewrite displs_nth by (rewrite app_length, map_length; cbn; lia). cbn [obind].
    rewrite Nat.eqb_refl. cbn [assert obind]. rewrite Hb. cbn [obind].
    rewrite firstn_app, map_length, Nat.sub_diag. cbn [firstn]. rewrite app_nil_r.
    rewrite firstn_all2 by (rewrite map_length; lia). rewrite <- flat_map_len. cbn [plus].
    rewrite E, flat_map_app. cbn [flat_map]. rewrite <- !app_assoc. apply slice_mid.
  Qed.

  (** The received buffer: the blocks of the sources, then what was there before. *)
  Lemma recv_ok (f : list T -> nat -> option (list T)) srcs rb r :
    (forall m ix s, ix < length srcs -> nth_error srcs ix = Some s -> f m ix = blit m (list_sum (map (fun s => length (blk s r)) (firstn ix srcs))) (blk s r)) ->
    list_sum (map (fun s => length (blk s r)) srcs) <= length rb ->
    exists rest, foldM f rb (seq 0 (length srcs)) = Some (flat_map (fun s => blk s r) srcs ++ rest) /\
      length rb = length (flat_map (fun s => blk s r) srcs ++ rest).
  Proof.
    intros Hf L.
    destruct (foldM_ind f (fun pre m => exists rest, m = flat_map (fun s => blk s r) (firstn (length pre) srcs) ++ rest /\ length m = length rb)
      (seq 0 (length srcs)) rb) as [m' [E [rest [Em Lm]]]].
    - exists rb. cbn. auto.
    - intros pre a post m Epp [rest [Em Lm]].
      assert (Ea : a = length pre /\ length pre < length srcs).
      { assert (H : nth_error (seq 0 (length srcs)) (length pre) = Some a) by (rewrite Epp, nth_error_app2, Nat.sub_diag by lia; auto).
        rewrite nth_error_seq in H. destruct (Nat.ltb_spec (length pre) (length srcs)); [|discriminate]. cbn in H. injection H as <-. split; auto. }
      destruct Ea as [-> La]. destruct (nth_error_lt_some srcs _ La) as [s Es].
      rewrite (Hf m (length pre) s La Es).
      assert (Lb : length (blk s r) <= length rest).
      { rewrite Em, app_length, flat_map_len in Lm.
        assert (H : list_sum (map (fun s => length (blk s r)) srcs) = list_sum (map (fun s => length (blk s r)) (firstn (length pre) srcs)) + (length (blk s r) + list_sum (map (fun s => length (blk s r)) (skipn (S (length pre)) srcs)))).
        { rewrite <- (firstn_skipn (length pre) srcs) at 1. rewrite map_app, list_sum_app. f_equal.
          destruct (skipn (length pre) srcs) as [|x l] eqn:Sk.
          - assert (length (skipn (length pre) srcs) = 0) by (rewrite Sk; auto). rewrite skipn_length in H. lia.
          - assert (nth_error (skipn (length pre) srcs) 0 = Some s) by (rewrite nth_error_skipn, Nat.add_0_r; auto).
            rewrite Sk in H. cbn in H. injection H as ->. rewrite (skipn_S_cons _ _ _ _ Sk). reflexivity. }
        lia. }
      rewrite <- (firstn_skipn (length (blk s r)) rest) in Em. rewrite Em.
      rewrite <- flat_map_len. rewrite blit_mid by (rewrite firstn_length; lia).
      eexists. split; [reflexivity|]. exists (skipn (length (blk s r)) rest). split.
      + rewrite app_length. cbn [length]. rewrite Nat.add_1_r.
        assert (Ef : firstn (S (length pre)) srcs = firstn (length pre) srcs ++ [s]).
        { clear -Es. revert srcs Es. induction (length pre) as [|n IH]; intros [|x l] Es; cbn in *; try discriminate.
          - congruence.
          - f_equal. apply IH; auto. }
        rewrite Ef, flat_map_app. cbn [flat_map]. rewrite app_nil_r. apply app_assoc.
      + rewrite <- Lm, Em, !app_length, firstn_length. lia.
    - rewrite seq_length, firstn_all in Em. exists rest. rewrite E, Em. split; [auto|]. rewrite <- Em. auto.
  Qed.

  Lemma alltoallw_ok dests srcs scounts rcounts bufs recvs :
    length srcs = R -> length recvs = R ->
    (forall r, r < R -> nth_error dests r = Some (dl r)) ->
    (forall r, r < R -> nth_error srcs r = Some (sl r)) ->
    (forall r, r < R -> nth_error scounts r = Some (map (fun d => length (blk r d)) (dl r))) ->
    (forall r, r < R -> nth_error rcounts r = Some (map (fun s => length (blk s r)) (sl r))) ->
    (forall r, r < R -> exists rest, nth_error bufs r = Some (flat_map (blk r) (dl r) ++ rest)) ->
    (forall r rb, r < R -> nth_error recvs r = Some rb -> length (flat_map (fun s => blk s r) (sl r)) <= length rb) ->
    exists out, neighbor_alltoallw dests srcs scounts rcounts bufs recvs = Some out /\ length out = R /\
      forall r rb, r < R -> nth_error recvs r = Some rb ->
        exists rest, nth_error out r = Some (flat_map (fun s => blk s r) (sl r) ++ rest) /\
          length rb = length (flat_map (fun s => blk s r) (sl r) ++ rest).
  Proof.
    intros L1 L2 Hd Hs Hsc Hrc Hb Hl. unfold neighbor_alltoallw. rewrite L1.
    match goal with |- context [mapM ?f (seq 0 R)] => set (F := f) end.
    assert (Hr : forall r, r < R -> exists rb rest, nth_error recvs r = Some rb /\ F r = Some (flat_map (fun s => blk s r) (sl r) ++ rest) /\
      length rb = length (flat_map (fun s => blk s r) (sl r) ++ rest)).
    { intros r Lr. destruct (nth_error_lt_some recvs r) as [rb Erb]; [lia|]. exists rb. unfold F, rd.
      rewrite (Hs r Lr), (Hrc r Lr), Erb. cbn [obind].
      destruct (recv_ok (fun rb ix => s <- nth_error (sl r) ix ;; n <- nth_error (map (fun s => length (blk s r)) (sl r)) ix ;;
          off <- nth_error (displs 0 (map (fun s => length (blk s r)) (sl r))) ix ;;
          data <- message dests scounts bufs r s n ;; blit rb off data) (sl r) rb r) as [rest [E L]].
      - intros m ix s Lx Es. rewrite Es, nth_error_map, Es. cbn [obind option_map].
        rewrite displs_nth by (rewrite map_length; auto). cbn [obind].
        pose proof (nth_error_In _ _ Es) as Is. destruct (edges r s Lr Is) as [Ls _].
        rewrite (message_ok dests scounts bufs r s _ Lr Is (Hd s Ls) (Hsc s Ls) (Hb s Ls) eq_refl). cbn [obind].
        rewrite firstn_map. reflexivity.
      - rewrite <- flat_map_len. eauto.
      - exists rest. split; auto. }
    destruct (mapM_total F (seq 0 R)) as [out E].
    { intros r I. apply in_seq in I. destruct (Hr r) as [rb [rest [_ [Ef _]]]]; [lia|eauto]. }
    exists out. split; auto. pose proof (mapM_length _ _ _ E) as Lo. rewrite seq_length in Lo. split; auto.
    intros r rb Lr Erb. destruct (Hr r Lr) as [rb' [rest [E1 [E2 E3]]]]. assert (rb' = rb) by congruence. subst rb'.
    exists rest. split; auto. rewrite <- (mapM_nth _ _ _ r r E); [exact E2|]. rewrite nth_error_seq. destruct (Nat.ltb_spec r R); [reflexivity|lia].
  Qed.
End Neighbours.
