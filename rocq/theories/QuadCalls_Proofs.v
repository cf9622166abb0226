(** Sequences of calls on points held by other ranks. *)
From Coq Require Import List Arith ZArith Bool Permutation Lia.
Import ListNotations.
From Verif Require Import Base Kernel MHC_Model MHC_Spec Edges_Spec Edges_Props MHCmsg_Proofs Quad_Model Quad_Spec Pack_Proofs Pool_Proofs QuadRank_Proofs QuadFin_Proofs QuadGet_Proofs.
Local Open Scope nat_scope.

Lemma concat_unique {A B C} (k1 : A -> B) (k2 : A -> C) : forall L, NoDup (map (fun p => (k1 p, k2 p)) (concat L)) ->
  forall s k p s' k' p', nth_error (nth s L []) k = Some p -> nth_error (nth s' L []) k' = Some p' -> k1 p = k1 p' -> k2 p = k2 p' -> s = s' /\ k = k'.
Proof.
  induction L as [|l L IH]; intros N s k p s' k' p' E E' K1 K2; [destruct s, k; discriminate|]. cbn [concat] in N. rewrite map_app in N. apply NoDup_app_inv in N. destruct N as (N1 & N2 & N3).
  assert (X : forall s k p, nth_error (nth s L []) k = Some p -> In p (concat L)). { intros q j x Ex. apply in_concat. exists (nth q L []). split; [|eapply nth_error_In; eauto]. destruct (lt_dec q (length L)); [apply nth_In; assumption|]. rewrite nth_overflow in Ex by lia. destruct j; discriminate. }
  destruct s as [|s], s' as [|s']; cbn [nth] in E, E'.
  - split; [reflexivity|]. rewrite NoDup_nth_error in N1. apply N1; [rewrite map_length; apply nth_error_Some; congruence|]. rewrite !nth_error_map, E, E'. cbn. congruence.
  - exfalso. apply (N3 (k1 p, k2 p)); [apply in_map_iff; exists p; split; [reflexivity|eapply nth_error_In; eauto]|]. apply in_map_iff. exists p'. split; [congruence|]. eapply X; eauto.
  - exfalso. apply (N3 (k1 p, k2 p)); [apply in_map_iff; exists p'; split; [congruence|eapply nth_error_In; eauto]|]. apply in_map_iff. exists p. split; [reflexivity|]. eapply X; eauto.
  - destruct (IH N2 s k p s' k' p' E E' K1 K2). auto.
Qed.

Section Calls.
  Context {P T : Type} (zero : T).
  Lemma added_in r (l : list P) p : In p (added zero r l) <-> exists i x, nth_error l i = Some x /\ p = mk_qpart x r i 0 (fun n => repeat zero n).
  Proof.
    unfold added. rewrite <- in_rev, in_map_iff. split.
    - intros ((i & x) & <- & I). cbn [fst snd]. apply In_nth_error in I. destruct I as (j & E). exists i, x. split; [|reflexivity]. assert (G : forall l a j, nth_error (combine (seq a (length l)) l) j = Some (i, x) -> nth_error l (i - a) = Some x /\ a <= i).
      { clear. induction l as [|y l IH]; intros a [|j] E; cbn in E; try discriminate; [inversion E; subst; rewrite Nat.sub_diag; auto|]. destruct (IH (S a) j E) as (H & L). split; [|lia]. replace (i - a) with (S (i - S a)) by lia. exact H. }
      destruct (G l 0 j E) as (H & _). rewrite Nat.sub_0_r in H. exact H.
    - intros (i & x & E & ->). exists (i, x). split; [reflexivity|]. assert (G : forall l a i, nth_error l i = Some x -> In (a + i, x) (combine (seq a (length l)) l)). { clear. induction l as [|y l IH]; intros a [|i] E; cbn in E; try discriminate; cbn; [left; inversion E; rewrite Nat.add_0_r; reflexivity|right]. replace (a + S i) with (S a + i) by lia. apply IH, E. } apply (G l 0 i E).
  Qed.
  Lemma added_keys r (l : list P) : map (fun p => (q_rank p, q_index p)) (added zero r l) = rev (map (pair r) (seq 0 (length l))).
  Proof.
    unfold added. rewrite map_rev, map_map. f_equal. cbn [q_rank q_index]. rewrite <- (map_map fst (pair r)). f_equal. assert (G : forall a, map fst (combine (seq a (length l)) l) = seq a (length l)). { clear. induction l as [|y l IH]; intros a; [reflexivity|]. cbn. rewrite IH. reflexivity. } apply G.
  Qed.
  Variables (pts : list (list P)) (moved : list (list (qpart P T))).
  Hypothesis Hm : moves zero pts moved.
  Let size := length pts.
  Let here (s : nat) := nth s moved [].
  Let all := concat (map (fun rl => added zero (fst rl) (snd rl)) (combine (seq 0 size) pts)).
  Lemma all_in p : In p all <-> exists r l i x, nth_error pts r = Some l /\ nth_error l i = Some x /\ p = mk_qpart x r i 0 (fun n => repeat zero n).
  Proof.
    unfold all. rewrite in_concat. assert (G : forall r l, In (r, l) (combine (seq 0 size) pts) <-> nth_error pts r = Some l).
    { intros r l. split.
      - intros I. assert (G : forall qs a, In (r, l) (combine (seq a (length qs)) qs) -> nth_error qs (r - a) = Some l /\ a <= r). { clear. induction qs as [|y qs IH]; intros a I; cbn in I; [destruct I|]. destruct I as [I|I]; [inversion I; subst; rewrite Nat.sub_diag; auto|]. destruct (IH (S a) I) as (H & L). split; [|lia]. replace (r - a) with (S (r - S a)) by lia. exact H. }
        destruct (G pts 0 I) as (H & _). rewrite Nat.sub_0_r in H. exact H.
      - assert (G : forall qs a r, nth_error qs r = Some l -> In (a + r, l) (combine (seq a (length qs)) qs)). { clear. induction qs as [|y qs IH]; intros a [|r] E; cbn in E; try discriminate; cbn; [left; inversion E; rewrite Nat.add_0_r; reflexivity|right]. replace (a + S r) with (S a + r) by lia. apply IH, E. } intros E. apply (G pts 0 r E). }
    split.
    - intros (y & Iy & Ip). apply in_map_iff in Iy. destruct Iy as ((r & l) & <- & I). apply G in I. cbn [fst snd] in Ip. apply added_in in Ip. destruct Ip as (i & x & E & ->). exists r, l, i, x. auto.
    - intros (r & l & i & x & E1 & E2 & ->). exists (added zero r l). split; [apply in_map_iff; exists (r, l); split; [reflexivity|apply G, E1]|]. apply added_in. eauto.
  Qed.
  Lemma all_keys : NoDup (map (fun p => (q_rank p, q_index p)) all).
  Proof.
    unfold all. rewrite concat_map, map_map. assert (G : forall qs a, NoDup (concat (map (fun rl : nat * list P => map (fun p => (q_rank p, q_index p)) (added zero (fst rl) (snd rl))) (combine (seq a (length qs)) qs))) /\
      forall k, In k (concat (map (fun rl : nat * list P => map (fun p => (q_rank p, q_index p)) (added zero (fst rl) (snd rl))) (combine (seq a (length qs)) qs))) -> a <= fst k).
    { clear. induction qs as [|l qs IH]; intros a; [split; [constructor|intros k []]|]. cbn [length seq combine map concat fst snd]. destruct (IH (S a)) as (N & G). rewrite added_keys. split.
      - apply NoDup_app_intro; [apply NoDup_rev, NoDup_map_inj; [congruence|apply seq_NoDup]|exact N|]. intros k I1 I2. apply in_rev, in_map_iff in I1. destruct I1 as (i & <- & _). apply G in I2. cbn in I2. lia.
      - intros k I. apply in_app_or in I. destruct I as [I|I]; [apply in_rev, in_map_iff in I; destruct I as (i & <- & _); cbn; lia|]. apply G in I. lia. }
    apply G.
  Qed.
  Lemma Lmoved : length moved = size. Proof. apply Hm. Qed.
  Lemma here_in s k p : nth_error (here s) k = Some p -> s < size /\ In p (concat moved).
  Proof. intros E. unfold here in E. destruct (lt_dec s (length moved)) as [L|L]; [|rewrite nth_overflow in E by lia; destruct k; discriminate]. split; [rewrite <- Lmoved; exact L|]. apply in_concat. exists (nth s moved []). split; [apply nth_In, L|eapply nth_error_In; eauto]. Qed.
  Lemma Uniq : forall s k p s' k' p', s < size -> s' < size -> nth_error (here s) k = Some p -> nth_error (here s') k' = Some p' -> q_rank p = q_rank p' -> q_index p = q_index p' -> s = s' /\ k = k'.
  Proof. intros s k p s' k' p' _ _. apply (concat_unique q_rank q_index). eapply Permutation_NoDup; [apply Permutation_map; symmetry; apply Hm|]. apply all_keys. Qed.
  Lemma Valid0 : forall s k p, nth_error (here s) k = Some p -> q_rank p < size /\ nth_error (nth (q_rank p) pts []) (q_index p) = Some (q_coords p) /\ q_contrib p = fun n => repeat zero n.
  Proof.
    intros s k p E. destruct (here_in s k p E) as (_ & I). apply (Permutation_in p (proj2 Hm)) in I. apply all_in in I. destruct I as (r & l & i & x & E1 & E2 & ->). cbn. split; [unfold size; apply nth_error_Some; congruence|]. rewrite (nth_error_nth _ _ _ E1). auto.
  Qed.
  Lemma Valid : forall s k p, s < size -> nth_error (here s) k = Some p -> q_rank p < size /\ nth_error (nth (q_rank p) pts []) (q_index p) = Some (q_coords p).
  Proof. intros s k p _ E. destruct (Valid0 s k p E) as (A & B & _). auto. Qed.
  Lemma Exist : forall r i, r < size -> i < length (nth r pts []) -> exists s k p, s < size /\ nth_error (here s) k = Some p /\ q_rank p = r /\ q_index p = i.
  Proof.
    intros r i Lr Li. destruct (nth_error_lt_some pts r Lr) as (l & El). rewrite (nth_error_nth _ _ _ El) in Li. destruct (nth_error_lt_some l i Li) as (x & Ex). set (p := mk_qpart x r i 0 (fun n => repeat zero n)).
    assert (I : In p all) by (apply all_in; exists r, l, i, x; auto). apply (Permutation_in p (Permutation_sym (proj2 Hm))) in I. apply in_concat in I. destruct I as (ps & Ips & Ip). apply In_nth_error in Ips. destruct Ips as (s & Es). apply In_nth_error in Ip. destruct Ip as (k & Ek).
    exists s, k, p. split; [rewrite <- Lmoved; apply nth_error_Some; congruence|]. unfold here. rewrite (nth_error_nth _ _ _ Es). auto.
  Qed.
  Lemma home_iff r i : at_home moved r i = true <-> exists k p, nth_error (here r) k = Some p /\ q_rank p = r /\ q_index p = i.
  Proof.
    unfold at_home. rewrite existsb_exists. split.
    - intros (p & I & E). apply andb_true_iff in E. destruct E as (E1 & E2). apply Nat.eqb_eq in E1. apply Nat.eqb_eq in E2. apply In_nth_error in I. destruct I as (k & Ek). exists k, p. auto.
    - intros (k & p & E & E1 & E2). exists p. split; [eapply nth_error_In; eauto|]. rewrite E1, E2, !Nat.eqb_refl. reflexivity.
  Qed.

  (** ** add_points_finalise *)
  Section Fin.
    Variables (env : nat -> qenv T) (find : remote).
    Hypothesis Hd : forall r, device_ok (e_dev (env r)).
    Hypothesis Hf : finds size find.
    Definition fs (s : nat) : nat -> list nat := chunk (e_dev (env s)) (here s) s.
    Definition args : list (list (nat * Z)) := map (fun s => map (fun y => (fst y, Z.of_nat (snd y))) (counted size (fs s))) (seq 0 size).
    Definition src (r : nat) : list nat := map fst (nth r (find args) []).
    Lemma counted_in (f : nat -> list nat) r c : In (r, c) (counted size f) <-> r < size /\ c = length (f r) /\ f r <> [].
    Proof.
      unfold counted. rewrite in_map_iff. split.
      - intros ((q & l) & E & I). cbn in E. inversion E; subst. apply QuadRank_Proofs.row_in in I. destruct I as (L & El & N). subst l. auto.
      - intros (L & -> & N). exists (r, f r). split; [reflexivity|]. apply QuadRank_Proofs.row_in. auto.
    Qed.
    Lemma found_ok : length (find args) = size /\ forall r, r < size -> NoDup (src r) /\ (forall s, In s (src r) <-> s < size /\ fs s r <> []) /\ nth_error (find args) r = Some (map (fun s => (s, Z.of_nat (length (fs s r)))) (src r)).
    Proof.
      assert (La : length args = size) by (unfold args; rewrite map_length; apply seq_length).
      assert (Na : forall s, s < size -> nth s args [] = map (fun y => (fst y, Z.of_nat (snd y))) (counted size (fs s))). { intros s Ls. apply nth_error_nth. unfold args. exact (nth_map_seq (fun s => map (fun y => (fst y, Z.of_nat (snd y))) (counted size (fs s))) size s Ls). }
      destruct (Hf args La) as (Lf & F). { intros l e Il Ie. unfold args in Il. apply in_map_iff in Il. destruct Il as (s & <- & _). apply in_map_iff in Ie. destruct Ie as ((r & c) & <- & I). apply counted_in in I. cbn. apply I. }
      split; [exact Lf|]. intros r Lr. destruct (nth_error_lt_some (find args) r) as (g & Eg); [lia|]. pose proof (F r g Eg) as Fg. destruct (C68_found_pairs _ _ _ _ Fg) as (F1 & F2). unfold src. rewrite (nth_error_nth _ _ _ Eg).
      assert (Hin : forall s x, s < size -> (In (s, x) g <-> x = Z.of_nat (length (fs s r)) /\ fs s r <> [])).
      { intros s x Ls. rewrite (F1 s x Ls), (Na s Ls), in_map_iff. split.
        - intros ((r' & c) & E & I). cbn in E. inversion E; subst. apply counted_in in I. destruct I as (_ & -> & N). auto.
        - intros (-> & N). exists (r, length (fs s r)). split; [reflexivity|]. apply counted_in. auto. }
      split; [apply F2; intros s Ls; rewrite (Na s Ls), map_map; cbn [fst]; unfold counted; rewrite map_map; cbn [fst]; apply QuadRank_Proofs.row_nodup|]. split.
      - intros s. rewrite in_map_iff. split.
        + intros ((s' & x) & <- & I). cbn [fst]. assert (L : s' < size) by (apply (proj1 Fg (s', x) I)). split; [exact L|]. apply (Hin s' x L) in I. apply I.
        + intros (L & N). exists (s, Z.of_nat (length (fs s r))). split; [reflexivity|]. apply Hin; auto.
      - rewrite Eg. f_equal. rewrite map_map. rewrite <- (map_id g) at 1. apply map_ext_in. intros (s & x) I. cbn [fst]. assert (L : s < size) by (apply (proj1 Fg (s, x) I)). apply (Hin s x L) in I. f_equal. apply I.
    Qed.
    Lemma finalise_ok : exists w, finalise env find pts moved = Some w /\ good pts moved fs src (fun _ _ n => repeat zero n) w.
    Proof.
      destruct found_ok as (Lf & F). unfold finalise. fold size.
      assert (H : forall r, r < size -> exists ps', (ps <- rd moved r ;; finalise_rank (env r) size r ps) = Some (ps', length (sent size (fs r)), counted size (fs r), map (idx (here r)) (sent size (fs r))) /\
        slots_ok size r (fs r) ps' /\ length ps' = length (here r) /\ (forall i p, nth_error (here r) i = Some p -> exists w, nth_error ps' i = Some (with_slot p w))).
      { intros r Lr. destruct (nth_error_lt_some moved r) as (ps & Eps); [rewrite Lmoved; exact Lr|]. assert (Eh : here r = ps) by (unfold here; apply nth_error_nth, Eps). unfold rd. rewrite Eps. cbn [obind]. unfold fs. rewrite Eh. apply finalise_rank_ok; [apply Hd|]. intros p I. apply In_nth_error in I. destruct I as (k & Ek). rewrite <- Eh in Ek. apply (Valid0 r k p Ek). }
      destruct (mapM_total (fun r => ps <- rd moved r ;; finalise_rank (env r) size r ps) (seq 0 size)) as (x & Ex). { intros r I. apply in_seq in I. destruct (H r) as (ps' & E & _); [lia|]. eauto. }
      assert (Lx : length x = size) by (rewrite (mapM_length _ _ _ Ex); apply seq_length).
      assert (Hx : forall r a, nth_error x r = Some a -> r < size /\ exists ps', a = (ps', length (sent size (fs r)), counted size (fs r), map (idx (here r)) (sent size (fs r))) /\
        slots_ok size r (fs r) ps' /\ length ps' = length (here r) /\ (forall i p, nth_error (here r) i = Some p -> exists w, nth_error ps' i = Some (with_slot p w))).
      { intros r a Ea. assert (Lr : r < size) by (rewrite <- Lx; apply nth_error_Some; congruence). split; [exact Lr|]. assert (Es : nth_error (seq 0 size) r = Some r) by (rewrite nth_error_seq; destruct (Nat.ltb_spec r size); [reflexivity|lia]). pose proof (mapM_nth _ _ _ _ _ Ex Es) as Q. rewrite Ea in Q. destruct (H r Lr) as (ps' & E & K). rewrite E in Q. inversion Q; subst a. exists ps'. auto. }
      rewrite Ex. cbn [obind]. rewrite (map_each (fun '(_, _, adding, _) => map (fun y => (fst y, Z.of_nat (snd y))) adding) (fun s => map (fun y => (fst y, Z.of_nat (snd y))) (counted size (fs s))) x). 2:{ intros s a Ea. destruct (Hx s a Ea) as (_ & ps' & -> & _). reflexivity. }
      rewrite Lx. fold args. rewrite (mapM_each _ (owned fs src)).
      2:{ intros r g Eg. assert (Lr : r < size) by (rewrite <- Lf; apply nth_error_Some; congruence). destruct (F r Lr) as (_ & _ & E). rewrite E in Eg. inversion Eg; subst g. rewrite mapM_map. unfold owned. apply mapM_eq. intros s _. cbn [fst snd]. destruct (Z.leb_spec 0 (Z.of_nat (length (fs s r)))); [|lia]. cbn [assert obind]. rewrite Nat2Z.id. reflexivity. }
      cbn [obind]. rewrite Lf. rewrite (mapM_each _ (fun s => map (fun e => (fst e, flat_map (fun i => [idx (here s) i]) (snd e))) (row size (fs s)))).
      2:{ intros s a Ea. destruct (Hx s a Ea) as (_ & ps' & -> & _). pose proof (counted_sum size (fs s) 1) as CS. rewrite map_mul1 in CS. rewrite CS, map_length, Nat.mul_1_r. unfold sent at 1. rewrite Nat.eqb_refl. cbn [assert obind]. replace (map (idx (here s)) (sent size (fs s))) with (flat_map (fun i => [idx (here s) i]) (sent size (fs s))) by (clear; induction (sent size (fs s)) as [|i l IH]; cbn; [reflexivity|rewrite IH; reflexivity]). apply pack_ok. reflexivity. }
      cbn [obind]. rewrite Lx. rewrite (exchange_ok size fs src (fun r L => proj1 (F r L)) (fun r s L => proj1 (proj2 (F r L)) s) 1 (fun s i => [idx (here s) i])).
      2:{ reflexivity. } 2:{ rewrite !map_length. apply seq_length. } 2:{ intros r b Eb. assert (Lr : r < size). { assert (X : r < length (map (fun o : list (nat * nat) => repeat 0 (list_sum (map snd o))) (map (owned fs src) (seq 0 size)))) by (apply nth_error_Some; congruence). rewrite !map_length, seq_length in X. exact X. } rewrite map_map, nth_map_seq in Eb by exact Lr. inversion Eb; subst b. rewrite repeat_length. pose proof (owned_sum fs src r 1) as O. rewrite map_mul1 in O. exact O. }
      cbn [obind].
      assert (W : forall r, r < size -> exists m, (y <- rd x r ;; o <- rd (map (owned fs src) (seq 0 size)) r ;; ixs <- rd (map (fun r => flat_map (fun si => [idx (here (fst si)) (snd si)]) (arriving fs src r)) (seq 0 size)) r ;; pt <- rd pts r ;;
            let '(ps, nremote, adding, _) := y in Some (mk_qpm ps (length pt) nremote adding o ixs None None [])) = Some m /\ rank_ok pts moved fs src (fun _ _ n => repeat zero n) r m).
      { intros r Lr. destruct (nth_error_lt_some x r) as (a & Ea); [lia|]. destruct (Hx r a Ea) as (_ & ps' & -> & S & Lp & Hp). destruct (nth_error_lt_some pts r Lr) as (pt & Ept). unfold rd. rewrite Ea, !nth_map_seq, Ept by exact Lr. cbn [obind]. eexists. split; [reflexivity|].
        split; [exact S|]. split; [exact Lp|]. cbn. split. { intros i p E. destruct (nth_error_lt_some (here r) i) as (p0 & E0); [rewrite <- Lp; apply nth_error_Some; congruence|]. destruct (Hp i p0 E0) as (w & Ew). rewrite E in Ew. inversion Ew; subst p. exists p0. cbn. split; [exact E0|]. destruct (Valid0 r i p0 E0) as (_ & _ & V). rewrite V. auto. }
        rewrite (nth_error_nth _ _ _ Ept). split; [reflexivity|]. split; [reflexivity|]. split; [reflexivity|]. split; [reflexivity|]. clear. unfold here. induction (arriving fs src r) as [|y l IH]; [reflexivity|]. cbn [flat_map map app]. rewrite IH. reflexivity. }
      destruct (mapM_total (fun r => y <- rd x r ;; o <- rd (map (owned fs src) (seq 0 size)) r ;; ixs <- rd (map (fun r => flat_map (fun si => [idx (here (fst si)) (snd si)]) (arriving fs src r)) (seq 0 size)) r ;; pt <- rd pts r ;;
            let '(ps, nremote, adding, _) := y in Some (mk_qpm ps (length pt) nremote adding o ixs (@None (list T)) None [])) (seq 0 size)) as (w & Ew). { intros r I. apply in_seq in I. destruct (W r) as (m & E & _); [lia|]. eauto. }
      exists w. split; [exact Ew|]. assert (Lw : length w = size) by (rewrite (mapM_length _ _ _ Ew); apply seq_length). split; [exact Lw|]. intros r m Em. assert (Lr : r < size) by (rewrite <- Lw; apply nth_error_Some; congruence).
      assert (Es : nth_error (seq 0 size) r = Some r) by (rewrite nth_error_seq; destruct (Nat.ltb_spec r size); [reflexivity|lia]). pose proof (mapM_nth _ _ _ _ _ Ew Es) as Q. rewrite Em in Q. destruct (W r Lr) as (m' & E & R). rewrite E in Q. inversion Q; subst m'. exact R.
    Qed.
  End Fin.

  (** ** The calls *)
  Section Steps.
    Variables (f : nat -> nat -> list nat) (srcs : nat -> list nat).
    Hypothesis Nsrcs : forall r, r < size -> NoDup (srcs r).
    Hypothesis Isrcs : forall r s, r < size -> (In s (srcs r) <-> s < size /\ f s r <> []).
    Notation good := (good pts moved f srcs).
    Notation rank_ok := (rank_ok pts moved f srcs).
    Notation tab_ok := (tab_ok (T := T) pts).

    Lemma write_ok t w n g out : good t w -> good (fst (spec_step pts moved (t, out) (Write n g))) (write n g w).
    Proof.
      intros (Lw & G). unfold write. split; [rewrite map_length; exact Lw|]. intros s m' Em. rewrite nth_error_map in Em. destruct (nth_error w s) as [m|] eqn:E; [|discriminate]. cbn in Em. inversion Em; subst m'. clear Em. pose proof (G s m E) as R. eapply rank_upd; [exact R| | |reflexivity..]; [cbn; apply map_length|].
      cbn. intros i p' Ei. rewrite nth_error_map in Ei. destruct (nth_error (parts m) i) as [p|] eqn:Ep; [|discriminate]. cbn in Ei. inversion Ei; subst p'. exists p. cbn. split; [reflexivity|]. split; [reflexivity|]. split; [reflexivity|]. split; [reflexivity|]. split; [reflexivity|]. intros k.
      destruct R as (_ & _ & Hp & _). destruct (Hp i p Ep) as (p0 & E0 & H1 & H2 & H3 & H4). destruct (Valid0 s i p0 E0) as (_ & V & _). rewrite H2, H3, V, H4, H1, H2, H3. reflexivity.
    Qed.
    Lemma set_ok t w env n inputs out : good t w -> components_ok n -> length inputs = length pts -> (forall r l inp, nth_error pts r = Some l -> nth_error inputs r = Some inp -> length l * n <= length inp) ->
      exists w', set env n inputs w = Some w' /\ good (fst (spec_step pts moved (t, out) (Set_ env n inputs))) w'.
    Proof.
      intros (Lw & G) Hn Li Hi. unfold set. destruct (Nat.ltb_spec 0 n); [|unfold components_ok in Hn; lia]. destruct (Nat.ltb_spec n 1000); [|unfold components_ok in Hn; lia]. cbn [andb assert obind].
      set (t' := fst (spec_step pts moved (t, out) (Set_ env n inputs))). assert (H1 : forall r, r < size -> exists m', (m <- rd w r ;; input <- rd inputs r ;; set_rank (env r) r n input m) = Some m' /\ rank_ok t' r m').
      { intros r Lr. destruct (nth_error_lt_some w r) as (m & Em); [lia|]. destruct (nth_error_lt_some inputs r) as (inp & Ei); [rewrite Li; exact Lr|]. unfold rd at 1 2. rewrite Em, Ei. cbn [obind]. pose proof (G r m Em) as R. destruct (nth_error_lt_some pts r Lr) as (pl & Epl). pose proof (Hi r pl inp Epl Ei) as Hin.
        pose proof R as ((S1 & S2 & S3 & S4 & S5) & Lp & Hp & A1 & _). rewrite (nth_error_nth _ _ _ Epl) in A1. unfold set_rank. rewrite A1. destruct (Nat.leb_spec (length pl * n) (length inp)); [|lia]. cbn [assert obind].
        set (l0 := make_contribs (e_reals (env r)) (local_contribs m) (length pl * n)). assert (Ll : length pl * n <= length l0). { clear. unfold l0, make_contribs. destruct (local_contribs m) as [b|]; [|rewrite map_length, seq_length; lia]. destruct (Nat.ltb_spec (length b) (Nat.max (length pl * n) 1)); [rewrite map_length, seq_length; lia|lia]. }
        destruct (foldM_upd (fun b i => v <- rd inp i ;; upd b i v) (fun i => i) (fun i => nth i inp zero) (seq 0 (length pl * n)) l0) as (kl & Ek & Lk & K1 & _).
        { intros b i _ I. apply in_seq in I. unfold rd. rewrite (nth_error_nth' inp zero) by lia. reflexivity. } { intros i I. apply in_seq in I. lia. } { intros a b _ _ ->. reflexivity. }
        rewrite Ek. cbn [obind].
        assert (Hs : forall p, In p (parts m) -> q_rank p = r -> slice kl (q_slot p * n) (q_slot p * n + n) = Some (firstn n (skipn (q_index p * n) inp))).
        { intros p I Er. rewrite (S4 p I Er). apply In_nth_error in I. destruct I as (k & Epk). destruct (Hp k p Epk) as (p0 & E0 & _ & H2 & H3 & _). destruct (Valid0 r k p0 E0) as (_ & V & _). assert (Lx : q_index p < length pl). { rewrite H3. apply nth_error_Some. rewrite <- H2, Er, (nth_error_nth _ _ _ Epl) in V. congruence. }
          rewrite slice_some by nia. f_equal. apply nth_error_ext. intros c. rewrite !nth_error_firstn, !nth_error_skipn. replace (q_index p * n + n - q_index p * n) with n by lia. destruct (Nat.ltb_spec c n) as [Lc|Lc]; [|reflexivity]. assert (L2 : q_index p * n + c < length pl * n) by nia.
          rewrite K1 by (apply in_seq; lia). symmetry. apply nth_error_nth'. lia. }
        assert (Eps : mapM (fun p => if q_rank p =? r then v <- slice kl (q_slot p * n) (q_slot p * n + n) ;; Some (with_contrib p n v) else Some p) (parts m) = Some (map (fun p => if q_rank p =? r then with_contrib p n (firstn n (skipn (q_index p * n) inp)) else p) (parts m))).
        { apply mapM_eq. intros p I. destruct (Nat.eqb_spec (q_rank p) r) as [Er|Er]; [rewrite (Hs p I Er); reflexivity|reflexivity]. }
        rewrite Eps. cbn [obind]. eexists. split; [reflexivity|]. eapply rank_upd; [exact R| | |cbn; auto..]; [cbn; apply map_length|].
        cbn. intros i p' Ei'. rewrite nth_error_map in Ei'. destruct (nth_error (parts m) i) as [p|] eqn:Ep; [|discriminate]. cbn in Ei'. inversion Ei'; subst p'. exists p. split; [reflexivity|]. destruct (Hp i p Ep) as (p0 & E0 & G1 & G2 & G3 & G4).
        unfold t'. cbn [spec_step fst snd]. destruct (Nat.eqb_spec (q_rank p) r) as [Er|Er]; cbn.
        - do 4 (split; [reflexivity|]). intros k. replace (at_home moved (q_rank p) (q_index p)) with true. 2:{ symmetry. apply home_iff. exists i, p0. rewrite Er. split; [exact E0|]. split; congruence. }
          rewrite Er, (nth_error_nth _ _ _ Ei). destruct (k =? n); cbn; [reflexivity|]. rewrite G4, Er. reflexivity.
        - do 4 (split; [reflexivity|]). intros k. replace (at_home moved (q_rank p) (q_index p)) with false; [rewrite andb_false_r; apply G4|]. symmetry. apply not_true_iff_false. intros X. apply home_iff in X. destruct X as (k' & p2 & E2 & X1 & X2). destruct (Valid0 r i p0 E0) as (V & _). destruct (Uniq (q_rank p) k' p2 r i p0); [congruence|exact Lr|exact E2|exact E0|congruence|congruence|]. contradiction. }
      rewrite Lw. destruct (mapM_total (fun r => m <- rd w r ;; input <- rd inputs r ;; set_rank (env r) r n input m) (seq 0 size)) as (w' & Ew). { intros r I. apply in_seq in I. destruct (H1 r) as (m & E & _); [lia|]. eauto. }
      exists w'. split; [exact Ew|]. assert (Lw' : length w' = size) by (rewrite (mapM_length _ _ _ Ew); apply seq_length). split; [exact Lw'|]. intros r m Em. assert (Lr : r < size) by (rewrite <- Lw'; apply nth_error_Some; congruence).
      assert (Es : nth_error (seq 0 size) r = Some r) by (rewrite nth_error_seq; destruct (Nat.ltb_spec r size); [reflexivity|lia]). pose proof (mapM_nth _ _ _ _ _ Ew Es) as Q. rewrite Em in Q. destruct (H1 r Lr) as (m' & E & R). rewrite E in Q. inversion Q; subst m'. exact R.
    Qed.
    Lemma spec_tab t out c : tab_ok t -> call_ok pts moved c -> tab_ok (fst (spec_step pts moved (t, out) c)).
    Proof.
      intros Ht Hc r i k Li. destruct c as [n g|env n inputs|env n]; cbn [spec_step fst snd].
      - destruct (nth_error (nth r pts []) i) as [x|]; [|apply Ht, Li]. destruct (Nat.eqb_spec k n) as [->|]; [apply Hc|apply Ht, Li].
      - destruct (Nat.eqb_spec k n) as [->|]; cbn [andb]; [|apply Ht, Li]. destruct (at_home moved r i) eqn:Eh; [|apply Ht, Li]. destruct Hc as (Hn & Hl & Hi). destruct (lt_dec r (length pts)) as [Lr|Lr]; [|rewrite nth_overflow in Li by lia; cbn in Li; lia]. destruct (nth_error_lt_some pts r Lr) as (l & El). destruct (nth_error_lt_some inputs r) as (inp & Ei); [lia|]. pose proof (Hi r l inp El Ei) as L. rewrite (nth_error_nth _ _ _ El) in Li. rewrite (nth_error_nth _ _ _ Ei), firstn_length, skipn_length. nia.
      - apply Ht, Li.
    Qed.
    Lemma home_arriving w t : good t w -> all_at_home pts moved -> forall r, r < size -> arriving f srcs r = [].
    Proof.
      intros G H r Lr. destruct (arriving f srcs r) as [|(s & i) l] eqn:E; [reflexivity|]. exfalso. destruct (arriving_good pts moved f srcs Isrcs Lmoved Valid t 1 (conj Nat.lt_0_1 (proj1 (Nat.ltb_lt 1 1000) eq_refl)) w r s i G Lr) as (Ls & N & p & Ep & Rp & Lp); [rewrite E; left; reflexivity|]. destruct (nth_error_lt_some pts r Lr) as (pl & Epl). pose proof (H r pl (q_index p) Epl) as X. rewrite (nth_error_nth _ _ _ Epl) in Lp. apply X, home_iff in Lp. destruct Lp as (k & p2 & E2 & X1 & X2). destruct (Uniq r k p2 s i p Lr Ls E2 Ep); [congruence|congruence|]. contradiction.
    Qed.
    Lemma arriving_away w t r i : good t w -> r < size -> i < length (nth r pts []) -> at_home moved r i = false -> arriving f srcs r <> [].
    Proof.
      intros (Lw & G) Lr Li Hh X. destruct (Exist r i Lr Li) as (s & k & p & Ls & Ek & Rp & Ip). assert (N : r <> s). { intros <-. assert (Y : at_home moved r i = true) by (apply home_iff; exists k, p; auto). congruence. }
      assert (I : In (s, k) (arriving f srcs r)). { apply (arriving_in size f srcs Isrcs); [exact Lr|]. split; [exact Ls|]. destruct (nth_error_lt_some w s) as (ms & Em); [lia|]. destruct (G s ms Em) as ((_ & S2 & _) & Lp & Hp & _). apply S2. split; [exact N|]. destruct (nth_error_lt_some (parts ms) k) as (p' & E'); [rewrite Lp; apply nth_error_Some; unfold here in Ek; congruence|]. exists p'. split; [exact E'|]. destruct (Hp k p' E') as (p0 & E0 & _ & H2 & _). unfold here in Ek. congruence. }
      rewrite X in I. destruct I.
    Qed.
    Lemma outputs_eq (t : table (T := T)) n : map (fun rl => flat_map (fun i => t (fst rl) i n) (seq 0 (length (snd rl)))) (combine (seq 0 (length pts)) pts) = map (fun r => flat_map (fun i => t r i n) (seq 0 (length (nth r pts [])))) (seq 0 size).
    Proof.
      unfold size. assert (G : forall (l : list (list P)) a, map (fun rl => flat_map (fun i => t (fst rl) i n) (seq 0 (length (snd rl)))) (combine (seq a (length l)) l) = map (fun r => flat_map (fun i => t r i n) (seq 0 (length (nth (r - a) l [])))) (seq a (length l))).
      { clear. induction l as [|x l IH]; intros a; [reflexivity|]. cbn [length seq combine map fst snd]. rewrite Nat.sub_diag. cbn [nth]. f_equal. rewrite IH. apply map_ext_in. intros r I. apply in_seq in I. replace (r - a) with (S (r - S a)) by lia. reflexivity. }
      rewrite (G pts 0). apply map_ext. intros r. rewrite Nat.sub_0_r. reflexivity.
    Qed.
    Lemma step_ok t w out c : good t w -> tab_ok t -> call_ok pts moved c ->
      exists w', step zero (w, out) c = Some (w', snd (spec_step pts moved (t, out) c)) /\ good (fst (spec_step pts moved (t, out) c)) w'.
    Proof.
      intros G Ht Hc. destruct c as [n g|env n inputs|env n].
      - eexists. split; [reflexivity|]. apply write_ok, G.
      - destruct Hc as (Hn & Hl & Hi). destruct (set_ok t w env n inputs out G Hn Hl Hi) as (w' & E & G'). exists w'. split; [|exact G']. cbn [step fst snd]. rewrite E. reflexivity.
      - destruct Hc as (Hn & Hd & Hh). destruct (get_ok zero pts moved f srcs Nsrcs Isrcs Lmoved Uniq Valid Exist t n Ht Hn env w G Hd) as (w' & E & G'). { destruct Hh as [->|Hh]; [left; reflexivity|right; apply (home_arriving w t G Hh)]. }
        exists w'. split; [|exact G']. cbn [step spec_step fst snd]. rewrite E. cbn [obind fst snd]. rewrite outputs_eq. reflexivity.
    Qed.
    Lemma steps_ok : forall cs t w out, good t w -> tab_ok t -> (forall c, In c cs -> call_ok pts moved c) ->
      exists w', foldM (step zero) (w, out) cs = Some (w', snd (fold_left (spec_step pts moved) cs (t, out))) /\ good (fst (fold_left (spec_step pts moved) cs (t, out))) w' /\ tab_ok (fst (fold_left (spec_step pts moved) cs (t, out))).
    Proof.
      induction cs as [|c cs IH]; intros t w out G Ht H; [exists w; cbn; auto|]. destruct (step_ok t w out c G Ht (H c (or_introl eq_refl))) as (w1 & E1 & G1). pose proof (spec_tab t out c Ht (H c (or_introl eq_refl))) as T1. cbn [foldM fold_left]. rewrite E1. cbn [obind].
      destruct (spec_step pts moved (t, out) c) as (t1 & out1). cbn [fst snd] in *. apply IH; [exact G1|exact T1|]. intros c' I. apply H. right. exact I.
    Qed.
  End Steps.
End Calls.
