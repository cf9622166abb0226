(** The points after add_points_finalise, and the exchanges of their data. *)
From Coq Require Import List Arith ZArith Bool Permutation Lia.
Import ListNotations.
From Verif Require Import Base Kernel MHC_Model MHC_Spec Edges_Spec MHCmsg_Proofs Quad_Model Pack_Proofs QuadRank_Proofs.
Local Open Scope nat_scope.

(** Ranks and counts of the non-empty entries. *)
Definition counted {A} (size : nat) (f : nat -> list A) : list (nat * nat) := map (fun e => (fst e, length (snd e))) (row size f).
Lemma counted_offsets {A} size (f : nat -> list A) c : combine (counted size f) (offsets 0 (map (fun x => snd x * c) (counted size f))) = map (fun e => ((fst e, length (snd e)), start f (fst e) * c)) (row size f).
Proof.
  unfold counted. rewrite map_map. cbn [snd]. pose proof (row_offsets f c size 0) as R. change (start f 0 * c) with 0 in R. fold (row size f) in R. rewrite R. apply combine_map2.
Qed.
Lemma counted_sum {A} size (f : nat -> list A) c : list_sum (map (fun x => snd x * c) (counted size f)) = length (flat_map f (seq 0 size)) * c.
Proof.
  unfold counted. rewrite map_map. cbn [snd]. rewrite <- row_concat. induction (row size f) as [|e l IH]; [reflexivity|]. cbn [map list_sum fold_right concat]. rewrite app_length. unfold list_sum in IH. rewrite IH. lia.
Qed.
Lemma map_mul1 {A} (l : list (A * nat)) : map (fun x => snd x * 1) l = map snd l.
Proof. apply map_ext. intros a. apply Nat.mul_1_r. Qed.
Lemma counted_eq {A B} (f : nat -> list A) (g : nat -> list B) size : (forall r, length (g r) = length (f r)) ->
  flat_map (fun r => match g r with [] => [] | l => [(r, length l)] end) (seq 0 size) = counted size f.
Proof.
  intros H. unfold counted, row. induction (seq 0 size) as [|r l IH]; [reflexivity|]. cbn [flat_map]. rewrite map_app, IH. f_equal. specialize (H r). destruct (g r), (f r); cbn in *; try lia; try reflexivity. rewrite H. reflexivity.
Qed.

(** ** Exchanges *)
Lemma pack_ok {M} (g : nat -> list M) c size (f : nat -> list nat) : (forall i, In i (flat_map f (seq 0 size)) -> length (g i) = c) ->
  pack_sends c (counted size f) (flat_map g (flat_map f (seq 0 size))) = Some (map (fun e => (fst e, flat_map g (snd e))) (row size f)).
Proof.
  intros Hg. unfold pack_sends. rewrite counted_sum, (flat_map_const_len g c) by exact Hg. rewrite Nat.leb_refl. cbn [assert obind]. rewrite counted_offsets, mapM_map. apply mapM_eq. intros (r & l) I. cbn [fst snd].
  apply QuadRank_Proofs.row_in in I. destruct I as (Lr & El & _). assert (Hl : forall i, In i l -> length (g i) = c). { intros i Ii. apply Hg, in_flat_map. exists r. split; [apply in_seq; lia|rewrite El; exact Ii]. }
  assert (E : flat_map g (flat_map f (seq 0 size)) = flat_map g (flat_map f (seq 0 r)) ++ flat_map g l ++ flat_map g (flat_map f (seq (S r) (size - S r)))).
  { replace size with (r + S (size - S r)) at 1 by lia. rewrite seq_app, flat_map_app. cbn [seq flat_map]. change (0 + r) with r. rewrite !flat_map_app, El. reflexivity. }
  assert (L1 : length (flat_map g (flat_map f (seq 0 r))) = start f r * c). { apply flat_map_const_len. intros i Ii. apply Hg. apply in_flat_map in Ii. destruct Ii as (q & Iq & Ii). apply in_seq in Iq. apply in_flat_map. exists q. split; [apply in_seq; lia|exact Ii]. }
  assert (L2 : length (flat_map g l) = length l * c) by (apply flat_map_const_len, Hl).
  rewrite E. rewrite slice_some; [|lia|rewrite !app_length; lia]. replace (start f r * c + length l * c - start f r * c) with (length (flat_map g l)) by lia. rewrite <- L1, skipn_app, skipn_all, Nat.sub_diag. cbn [skipn app]. rewrite firstn_app, firstn_all, Nat.sub_diag. cbn [firstn]. rewrite app_nil_r. reflexivity.
Qed.

Section World.
  Variables (size : nat) (f : nat -> nat -> list nat) (srcs : nat -> list nat).
  Hypothesis Nsrcs : forall r, r < size -> NoDup (srcs r).
  Hypothesis Isrcs : forall r s, r < size -> (In s (srcs r) <-> s < size /\ f s r <> []).
  Definition owned (r : nat) : list (nat * nat) := map (fun s => (s, length (f s r))) (srcs r).
  (** The particles, as pairs of a rank and a number, of which the data arrives on rank [r]. *)
  Definition arriving (r : nat) : list (nat * nat) := flat_map (fun s => map (pair s) (f s r)) (srcs r).
  Lemma arriving_in r s i : r < size -> (In (s, i) (arriving r) <-> s < size /\ In i (f s r)).
  Proof.
    intros Lr. unfold arriving. rewrite in_flat_map. split.
    - intros (q & Iq & I). apply in_map_iff in I. destruct I as (j & E & I). inversion E; subst. apply (Isrcs r s Lr) in Iq. split; [apply Iq|exact I].
    - intros (L & I). exists s. split; [apply (Isrcs r s Lr); split; [exact L|intros X; rewrite X in I; destruct I]|]. apply in_map, I.
  Qed.
  Lemma owned_sum r c : list_sum (map (fun x => snd x * c) (owned r)) = length (arriving r) * c.
  Proof. unfold owned, arriving. rewrite map_map. cbn [snd]. induction (srcs r) as [|s l IH]; [reflexivity|]. cbn [map flat_map]. rewrite app_length, map_length. cbn [list_sum fold_right]. unfold list_sum in IH. rewrite IH. lia. Qed.

  Lemma exchange_ok {M} c (g : nat -> nat -> list M) (bufs : list (list M)) :
    (forall s i, s < size -> In i (flat_map (f s) (seq 0 size)) -> length (g s i) = c) ->
    length bufs = size -> (forall r b, nth_error bufs r = Some b -> length b = length (arriving r) * c) ->
    exchange c (map (fun s => map (fun e => (fst e, flat_map (g s) (snd e))) (row size (f s))) (seq 0 size)) (map owned (seq 0 size)) bufs =
    Some (map (fun r => flat_map (fun si => g (fst si) (snd si)) (arriving r)) (seq 0 size)).
  Proof.
    intros Hg Lb Hb. unfold exchange. rewrite map_length, seq_length. apply mapM_eq. intros r Ir. apply in_seq in Ir. assert (Lr : r < size) by lia. unfold rd. rewrite nth_map_seq by exact Lr. cbn [obind].
    destruct (nth_error_lt_some bufs r) as (b & Eb); [lia|]. rewrite Eb. cbn [obind]. rewrite owned_sum, (Hb r b Eb), Nat.leb_refl. cbn [assert obind].
    assert (Es : map fst (owned r) = srcs r) by (unfold owned; rewrite map_map; apply map_id). rewrite Es.
    rewrite (receive_all_ok _ r _ (fun s => flat_map (g s) (f s r))).
    - cbn [obind]. unfold owned. rewrite combine_map2.
      assert (Hl : forall s, In s (srcs r) -> length (flat_map (g s) (f s r)) = length (f s r) * c).
      { intros s Is. apply (Isrcs r s Lr) in Is. apply flat_map_const_len. intros i Ii. apply Hg; [apply Is|]. apply in_flat_map. exists r. split; [apply in_seq; lia|exact Ii]. }
      replace (forallb _ _) with true. 2:{ symmetry. apply forallb_forall. intros x Ix. apply in_map_iff in Ix. destruct Ix as (s & <- & Is). cbn [fst snd]. apply Nat.eqb_eq, Hl, Is. }
      cbn [assert obind]. assert (Ec : concat (map (fun s => flat_map (g s) (f s r)) (srcs r)) = flat_map (fun si => g (fst si) (snd si)) (arriving r)).
      { unfold arriving. clear. induction (srcs r) as [|s l IH]; [reflexivity|]. cbn [map concat flat_map]. rewrite flat_map_app, IH. f_equal. clear. induction (f s r) as [|i l IH]; [reflexivity|]. cbn [map flat_map fst snd]. rewrite IH. reflexivity. }
      rewrite Ec. f_equal. rewrite skipn_all2; [apply app_nil_r|]. rewrite (Hb r b Eb). rewrite (flat_map_const_len _ c); [lia|]. intros (s & i) I. apply arriving_in in I; [|exact Lr]. cbn [fst snd]. apply Hg; [apply I|]. apply in_flat_map. exists r. split; [apply in_seq; lia|apply I].
    - apply Nsrcs, Lr.
    - intros s Is. rewrite map_length, seq_length. apply (Isrcs r s Lr), Is.
    - intros s l El. assert (Ls : s < size). { assert (s < length (map (fun s => map (fun e => (fst e, flat_map (g s) (snd e))) (row size (f s))) (seq 0 size))) as X by (apply nth_error_Some; congruence). rewrite map_length, seq_length in X. exact X. }
      rewrite nth_map_seq in El by exact Ls. inversion El; subst l. clear El.
      assert (Ef : forall (l : list (nat * list nat)), filter (fun e => fst e =? r) (map (fun e => (fst e, flat_map (g s) (snd e))) l) = map (fun e => (fst e, flat_map (g s) (snd e))) (filter (fun e => fst e =? r) l)).
      { clear. induction l as [|e l IH]; [reflexivity|]. cbn [map filter fst]. destruct (fst e =? r); cbn [map]; rewrite IH; reflexivity. }
      rewrite Ef, row_filter by exact Lr. destruct (in_dec Nat.eq_dec s (srcs r)) as [I|I]; rewrite (Isrcs r s Lr) in I.
      + destruct (f s r); [destruct I; contradiction|]. reflexivity.
      + destruct (f s r) as [|x l] eqn:E; [reflexivity|]. exfalso. apply I. split; [exact Ls|discriminate].
  Qed.
  (** A buffer that is too short. *)
  Lemma exchange_short {M} c (sends : list (list (nat * list M))) (bufs : list (list M)) r b : r < size -> nth_error bufs r = Some b -> length b < length (arriving r) * c ->
    exchange c sends (map owned (seq 0 size)) bufs = None.
  Proof.
    intros Lr Eb Lb. destruct (exchange c sends (map owned (seq 0 size)) bufs) as [x|] eqn:E; [|reflexivity]. exfalso. unfold exchange in E. rewrite map_length, seq_length in E.
    destruct (mapM_in _ _ _ r E) as (y & Ey & _); [apply in_seq; lia|]. unfold rd in Ey. rewrite nth_map_seq in Ey by exact Lr. cbn [obind] in Ey. rewrite Eb in Ey. cbn [obind] in Ey. rewrite owned_sum in Ey. destruct (Nat.leb_spec (length (arriving r) * c) (length b)); [lia|]. discriminate Ey.
  Qed.
End World.

(** ** One rank *)
Section Rank.
  Context {P T : Type}.
  Definition idx (ps : list (qpart P T)) (i : nat) : nat := match nth_error ps i with Some p => q_index p | None => 0 end.
  Definition sent (size : nat) (f : nat -> list nat) : list nat := flat_map f (seq 0 size).
  (** What the construction leaves on a rank. *)
  Definition slots_ok (size rank : nat) (f : nat -> list nat) (ps : list (qpart P T)) : Prop :=
    (forall p, In p ps -> q_rank p < size) /\ (forall r i, In i (f r) <-> r <> rank /\ exists p, nth_error ps i = Some p /\ q_rank p = r) /\ NoDup (sent size f) /\
    (forall p, In p ps -> q_rank p = rank -> q_slot p = q_index p) /\ (forall j i, nth_error (sent size f) j = Some i -> exists p, nth_error ps i = Some p /\ q_slot p = j).

  Lemma finalise_rank_ok (e : qenv T) size rank (ps : list (qpart P T)) : device_ok (e_dev e) -> (forall p, In p ps -> q_rank p < size) ->
    exists ps', finalise_rank e size rank ps = Some (ps', length (sent size (chunk (e_dev e) ps rank)), counted size (chunk (e_dev e) ps rank), map (idx ps) (sent size (chunk (e_dev e) ps rank))) /\
      slots_ok size rank (chunk (e_dev e) ps rank) ps' /\ length ps' = length ps /\ (forall i p, nth_error ps i = Some p -> exists w, nth_error ps' i = Some (with_slot p w)).
  Proof.
    intros Hd Hr. set (d := e_dev e) in *. set (f := chunk d ps rank). set (n := length ps). assert (Cin : forall r i, In i (f r) <-> r <> rank /\ exists p, nth_error ps i = Some p /\ q_rank p = r) by (intros; apply chunk_in; assumption).
    assert (Rl : forall k, length (filter (remote_i rank ps) (ord d k (seq 0 n))) = length (sent size f)) by (intros k; apply remote_length; assumption).
    assert (Ls : length (sent size f) <= n). { rewrite <- (Rl 0). transitivity (length (ord d 0 (seq 0 n))); [clear; induction (ord d 0 (seq 0 n)) as [|a l IH]; cbn; [lia|]; destruct (remote_i rank ps a); cbn; lia|]. rewrite (Permutation_length (proj1 Hd _ 0 (seq 0 n))), seq_length. lia. }
    unfold finalise_rank. fold n d.
    destruct (list_ok rank ps (ord d 0 (seq 0 n)) (map (e_points e) (seq 0 n))) as (b & Eb & Lb & Hb). { intros i I. apply (sched_lt d ps Hd 0), I. } { rewrite Rl, map_length, seq_length. exact Ls. }
    rewrite Eb. cbn [obind fst snd]. rewrite (remote_slice ps b (filter (remote_i rank ps) (ord d 0 (seq 0 n)))); [|rewrite Lb, Rl, map_length, seq_length; exact Ls|exact Hb]. cbn [obind].
    replace (forallb _ _) with true. 2:{ symmetry. apply forallb_forall. intros x Ix. apply in_map_iff in Ix. destruct Ix as (i & <- & Ii). apply filter_In in Ii. destruct Ii as (_ & Ei). unfold remote_i in Ei. unfold key_i. destruct (nth_error ps i) as [p|] eqn:Ep; [|discriminate]. cbn [fst]. apply Nat.ltb_lt, Hr. eapply nth_error_In; eauto. }
    cbn [assert obind]. rewrite (counted_eq f) by (intros r; apply counts_ok; assumption).
    pose proof (counted_offsets size f 1) as CO. rewrite map_mul1 in CO. rewrite CO. clear CO.
    set (W := map (fun x : nat * list nat => (fst x, length (snd x), start f (fst x) * 1)) (row size f)). assert (EW : map (fun x => (fst (fst x), snd x)) W = map (fun x => (fst x, start f (fst x) * 1)) (row size f)) by (unfold W; rewrite map_map; reflexivity).
    assert (Fm : forall A B C (h : B -> C) (k : A -> C -> option A) (l : list B) a, foldM (fun s x => k s (h x)) a l = foldM k a (map h l)). { clear. induction l as [|x l IH]; intros a; [reflexivity|]. cbn [foldM map]. destruct (k a (h x)); cbn [obind]; auto. }
    rewrite (Fm _ _ _ (fun x : nat * nat * nat => (fst (fst x), snd x)) (fun m w => upd m (fst w) (snd w))), EW.
    destruct (scatter_some (map (fun x : nat * list nat => (fst x, start f (fst x) * 1)) (row size f)) (repeat 0 size)) as (m & Em & Lm). { intros w Iw. apply in_map_iff in Iw. destruct Iw as ((r & l) & <- & I). apply QuadRank_Proofs.row_in in I. cbn [fst]. rewrite repeat_length. apply I. }
    unfold scatter in Em. rewrite Em. cbn [obind]. rewrite repeat_length in Lm.
    assert (Hm : forall r, f r <> [] -> nth_error m r = Some (start f r)).
    { intros r Nr. eapply scatter_in; [exact Em|rewrite map_map; apply QuadRank_Proofs.row_nodup|]. apply in_map_iff. exists (r, f r). cbn [fst]. split; [f_equal; lia|]. apply QuadRank_Proofs.row_in. split; [|auto]. destruct (f r) as [|i l] eqn:E; [contradiction|]. destruct (proj1 (Cin r i)) as (_ & p & Ep & <-); [rewrite E; left; reflexivity|]. apply Hr. eapply nth_error_In; eauto. }
    destruct (place_ok d size rank ps Hd Hr m Lm Hm) as (st & ps' & Ep & Lp & A & B & C). unfold n. rewrite Ep. cbn [obind fst snd]. fold n.
    assert (Chk : exists u, mapM (fun y : nat * nat * nat => w <- rd st (fst (fst y)) ;; assert (snd y + snd (fst y) =? w)) W = Some u).
    { apply mapM_total. intros y Iy. unfold W in Iy. apply in_map_iff in Iy. destruct Iy as ((r & l) & <- & I). apply QuadRank_Proofs.row_in in I. destruct I as (Lr & El & Nl). cbn [fst snd]. unfold rd. rewrite (A r) by (fold f; rewrite El; exact Nl). cbn [obind]. fold f. rewrite El, Nat.mul_1_r, Nat.eqb_refl. eexists. reflexivity. }
    destruct Chk as (u & Eu). rewrite Eu. cbn [obind]. clear u Eu.
    assert (Cs : forall j i, nth_error (sent size f) j = Some i -> exists p, nth_error ps i = Some p /\ q_rank p <> rank /\ nth_error ps' i = Some (with_slot p j)).
    { intros j i Ej. destruct (flat_map_where f size j i Ej) as (r & k & Lr & Ek & ->). destruct (C r k i Ek) as (p & E1 & E2). exists p. split; [exact E1|]. split; [|exact E2]. apply nth_error_In in Ek. apply Cin in Ek. destruct Ek as (Nr & p' & E' & <-). congruence. }
    assert (Cj : forall i p, nth_error ps i = Some p -> q_rank p <> rank -> exists j, nth_error (sent size f) j = Some i).
    { intros i p E1 Nr. assert (I : In i (f (q_rank p))) by (apply Cin; split; [exact Nr|exists p; auto]). apply In_nth_error. apply in_flat_map. exists (q_rank p). split; [apply in_seq; split; [lia|]; apply Hr; eapply nth_error_In; eauto|exact I]. }
    assert (Ns : NoDup (sent size f)). { apply NoDup_flat_map; [apply seq_NoDup|intros a _; apply chunk_nodup; exact Hd|]. intros a1 a2 i _ _ I1 I2. apply Cin in I1. apply Cin in I2. destruct I1 as (_ & p1 & E1 & <-). destruct I2 as (_ & p2 & E2 & <-). congruence. }
    (* the indices *)
    destruct (foldM_ind (write_index_of rank ps') (fun pre b => length b = length (sent size f) /\ forall j i, nth_error (sent size f) j = Some i -> In i pre -> nth_error b j = Some (idx ps i)) (ord d 2 (seq 0 n)) (map (e_ints e) (seq 0 (length (filter (remote_i rank ps) (ord d 0 (seq 0 n))))))) as (buf & Ebuf & B1 & B2).
    { split; [rewrite map_length, seq_length, Rl; reflexivity|intros j i _ []]. }
    { intros pre i post s Es (S1 & S2). assert (Li : i < n). { apply (sched_lt d ps Hd 2). fold n. rewrite Es. apply in_or_app. right. left. reflexivity. }
      destruct (nth_error_lt_some ps i Li) as (p & E1). unfold write_index_of. destruct (Nat.eq_dec (q_rank p) rank) as [Er|Er].
      - destruct (B i p E1 Er) as (p' & E2 & E3). assert (p' = p) by congruence. subst p'. unfold rd. rewrite E3. cbn [obind q_rank with_slot]. rewrite Er, Nat.eqb_refl. cbn [negb]. exists s. split; [reflexivity|]. split; [exact S1|]. intros j k Ej Ik. apply in_app_or in Ik. destruct Ik as [Ik|[<-|[]]]; [apply S2; assumption|]. destruct (Cs j i Ej) as (p2 & E4 & N4 & _). exfalso. apply N4. congruence.
      - destruct (Cj i p E1 Er) as (j & Ej). destruct (Cs j i Ej) as (p' & E2 & _ & E3). assert (p' = p) by congruence. subst p'. unfold rd. rewrite E3. cbn [obind q_rank q_slot q_index with_slot]. destruct (Nat.eqb_spec (q_rank p) rank); [contradiction|]. cbn [negb].
        destruct (upd_some s j (q_index p)) as (s' & E4). { rewrite S1. apply nth_error_Some. congruence. } exists s'. split; [exact E4|]. split; [rewrite (upd_length _ _ _ _ E4); exact S1|]. intros j' k Ek Ik. rewrite (upd_nth _ _ _ _ j' E4). destruct (Nat.eqb_spec j' j) as [->|Nj].
        + assert (k = i) by congruence. subst k. unfold idx. rewrite E1. reflexivity.
        + apply S2; [exact Ek|]. apply in_app_or in Ik. destruct Ik as [Ik|[<-|[]]]; [exact Ik|]. exfalso. apply Nj. rewrite NoDup_nth_error in Ns. apply Ns; [apply nth_error_Some; congruence|congruence]. }
    rewrite Ebuf. cbn [obind]. rewrite Rl.
    exists ps'. split.
    { f_equal. f_equal. apply nth_error_ext. intros j. rewrite nth_error_map. destruct (nth_error (sent size f) j) as [i|] eqn:Ej; cbn [option_map].
      - apply B2; [exact Ej|]. apply (sched_lt d ps Hd 2). destruct (Cs j i Ej) as (p & E1 & _). apply nth_error_Some. congruence.
      - apply nth_error_None. rewrite B1. apply nth_error_None, Ej. }
    assert (All : forall i p, nth_error ps i = Some p -> exists w, nth_error ps' i = Some (with_slot p w)).
    { intros i p E1. destruct (Nat.eq_dec (q_rank p) rank) as [Er|Er]; [destruct (B i p E1 Er) as (p' & E2 & E3); assert (p' = p) by congruence; subst; eauto|]. destruct (Cj i p E1 Er) as (j & Ej). destruct (Cs j i Ej) as (p' & E2 & _ & E3). assert (p' = p) by congruence. subst. eauto. }
    assert (Back : forall i p', nth_error ps' i = Some p' -> exists p w, nth_error ps i = Some p /\ p' = with_slot p w). { intros i p' E. destruct (nth_error_lt_some ps i) as (p & E1); [rewrite <- Lp; apply nth_error_Some; congruence|]. destruct (All i p E1) as (w & E2). exists p, w. split; [exact E1|congruence]. }
    split; [|split; [exact Lp|exact All]]. split; [intros p I; apply In_nth_error in I; destruct I as (i & E); destruct (Back i p E) as (q & w & E1 & ->); apply (Hr q); eapply nth_error_In; eauto|]. split.
    { intros r i. rewrite Cin. split; intros (Nr & p & E1 & E2); (split; [exact Nr|]); [destruct (All i p E1) as (w & E3); exists (with_slot p w); auto|]. destruct (Back i p E1) as (q & w & E3 & ->). exists q. auto. }
    split; [exact Ns|]. split; [|intros j i Ej; destruct (Cs j i Ej) as (p & E1 & _ & E3); exists (with_slot p j); auto].
    intros p I Er. apply In_nth_error in I. destruct I as (i & E). destruct (Back i p E) as (q & w & E1 & ->). cbn in Er. destruct (B i q E1 Er) as (q' & E2 & E3). assert (q' = q) by congruence. subst q'. rewrite E in E3. inversion E3. reflexivity.
  Qed.
End Rank.
