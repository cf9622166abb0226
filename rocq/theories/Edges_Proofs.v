(** Barriers separate the calls. *)
From Coq Require Import List Arith ZArith Bool Lia.
Import ListNotations.
From Verif Require Import Base Kernel Edges_Model Edges_Spec.
Local Open Scope nat_scope.

Lemma setf_eq {A} (f : nat -> A) r v : setf f r v r = v.
Proof. unfold setf. rewrite Nat.eqb_refl. reflexivity. Qed.
Lemma setf_neq {A} (f : nat -> A) r v i : i <> r -> setf f r v i = f i.
Proof. intros N. unfold setf. destruct (Nat.eqb_spec i r); [congruence|reflexivity]. Qed.
Lemma setf2_eq {A} (f : nat -> nat -> A) s d v : setf2 f s d v s d = v.
Proof. unfold setf2. rewrite !Nat.eqb_refl. reflexivity. Qed.
Lemma setf2_neq {A} (f : nat -> nat -> A) s d v i j : ~ (i = s /\ j = d) -> setf2 f s d v i j = f i j.
Proof. intros N. unfold setf2. destruct (Nat.eqb_spec i s); destruct (Nat.eqb_spec j d); cbn; try reflexivity. tauto. Qed.

(** ** Sums over the ranks *)
Definition sum_r (size : nat) (f : nat -> nat) : nat := list_sum (map f (seq 0 size)).
Lemma sum_r_S size f : sum_r (S size) f = sum_r size f + f size.
Proof. unfold sum_r. rewrite seq_S, map_app, list_sum_app. cbn. lia. Qed.
Lemma sum_r_ext size f g : (forall i, i < size -> f i = g i) -> sum_r size f = sum_r size g.
Proof. induction size as [|n IH]; intros H; [reflexivity|]. rewrite !sum_r_S, IH, H; auto. Qed.
Lemma sum_r_change size f g r : r < size -> (forall i, i < size -> i <> r -> g i = f i) -> sum_r size g + f r = sum_r size f + g r.
Proof.
  induction size as [|n IH]; intros L H; [lia|]. rewrite !sum_r_S. destruct (Nat.eq_dec r n) as [->|N].
  - rewrite (sum_r_ext n g f); [lia|]. intros i Li. apply H; lia.
  - specialize (IH ltac:(lia) (fun i Li => H i ltac:(lia))). rewrite (H n) by lia. lia.
Qed.
Lemma sum_r_le size f g : (forall i, i < size -> f i <= g i) -> sum_r size f <= sum_r size g.
Proof. induction size as [|n IH]; intros H; [reflexivity|]. rewrite !sum_r_S. pose proof (H n ltac:(lia)). specialize (IH ltac:(auto)). lia. Qed.
Lemma sum_r_eq size f g : (forall i, i < size -> f i <= g i) -> sum_r size f = sum_r size g -> forall i, i < size -> f i = g i.
Proof.
  induction size as [|n IH]; intros H E i L; [lia|]. rewrite !sum_r_S in E. pose proof (H n ltac:(lia)) as Hn. pose proof (sum_r_le n f g ltac:(auto)). destruct (Nat.eq_dec i n) as [->|N]; [lia|]. apply IH; [auto|lia|lia].
Qed.
Lemma sum_r_add size f g : sum_r size (fun i => f i + g i) = sum_r size f + sum_r size g.
Proof. induction size as [|n IH]; [reflexivity|]. rewrite !sum_r_S, IH. lia. Qed.
Lemma sum_r_0 size : sum_r size (fun _ => 0) = 0.
Proof. induction size as [|n IH]; [reflexivity|]. rewrite sum_r_S, IH. lia. Qed.

(** ** Values *)
Lemma values_app r a b : values r (a ++ b) = values r a ++ values r b.
Proof. unfold values. rewrite filter_app, map_app. reflexivity. Qed.
Lemma values_one r s x : values r [(s, x)] = if s =? r then [x] else [].
Proof. unfold values. cbn. destruct (s =? r); reflexivity. Qed.
Lemma values_cons r s x l : values r ((s, x) :: l) = (if s =? r then [x] else []) ++ values r l.
Proof. rewrite <- values_one. exact (values_app r [(s, x)] l). Qed.
Lemma values_length size g : (forall m, In m g -> fst m < size) -> sum_r size (fun s => length (values s g)) = length g.
Proof.
  induction g as [|(s, x) g IH]; intros H; [apply sum_r_0|]. rewrite (sum_r_ext _ _ (fun i => length (values i [(s, x)]) + length (values i g))) by (intros; rewrite <- app_length, <- values_app; reflexivity).
  rewrite sum_r_add, IH by (intros; apply H; right; auto). cbn [length]. change (S (length g)) with (1 + length g). f_equal. pose proof (H (s, x) (or_introl eq_refl)) as L. cbn in L.
  pose proof (sum_r_change size (fun _ => 0) (fun i => length (values i [(s, x)])) s L) as C. rewrite sum_r_0 in C. cbv beta in C. rewrite (values_one s s x), Nat.eqb_refl in C. cbn [length] in C. rewrite Nat.add_0_r in C. apply C.
  intros i _ N. rewrite values_one. destruct (Nat.eqb_spec s i); [congruence|reflexivity].
Qed.
Lemma count_values r (l : list (nat * Z)) : length (filter (Nat.eqb r) (map fst l)) = length (values r l).
Proof. unfold values. rewrite map_length. induction l as [|(s, x) l IH]; [reflexivity|]. cbn. rewrite (Nat.eqb_sym s r). destruct (r =? s); cbn; rewrite IH; reflexivity. Qed.

Section Calls.
  Variables (size K : nat) (args : nat -> list (list (nat * Z))).
  Hypothesis coll : collective size K args.
  Definition call_of (k s : nat) : list (nat * Z) := nth k (args s) [].
  Definition sent (k s r : nat) : list Z := values r (call_of k s).
  Definition tot (k r : nat) : nat := sum_r size (fun s => length (sent k s r)).
  Definition prev (k s r : nat) : list Z := match k with 0 => [] | S j => sent j s r end.

  Definition active (p : proc) : nat := match at_ p with Outside => 0 | _ => 1 end.
  Definition bar_off (p : proc) : nat := match at_ p with Outside => 0 | FirstWait | Counting _ => 1 | SecondWait | Exchange _ _ _ => 2 end.
  Definition idx (p : proc) : nat := length (results p).
  Definition rank_ok (r : nat) (p : proc) : Prop :=
    calls p = skipn (idx p + active p) (args r) /\ (at_ p <> Outside -> now p = call_of (idx p) r /\ idx p < K) /\ idx p <= K /\
    bars p = 2 * idx p + bar_off p /\ forall k g, nth_error (results p) k = Some g -> found size (call_of k) r g.

  (** What the rank has received and has still to send in the last exchange. *)
  Definition got_of (p : proc) : list (nat * Z) := match at_ p with Exchange _ _ g => g | SecondWait => [] | _ => last (results p) [] end.
  Definition ts_of (p : proc) : list (nat * Z) := match at_ p with Exchange _ ts _ => ts | SecondWait => now p | _ => [] end.
  Definition rem_of (p : proc) : list nat := match at_ p with FirstWait => map fst (now p) | Counting rem => rem | _ => [] end.

  (** Between the second barrier of call k - 1 and the first of call k. *)
  Definition win1 (k : nat) (c : sys) : Prop :=
    (forall r, r < size ->
       match at_ (procs c r) with
       | Outside => idx (procs c r) = k
       | FirstWait => idx (procs c r) = k /\ win (procs c r) = 0
       | Counting _ => False
       | SecondWait => S (idx (procs c r)) = k /\ win (procs c r) = tot (k - 1) r
       | Exchange n _ g => S (idx (procs c r)) = k /\ n = tot (k - 1) r /\ length g <= n
       end) /\
    (forall r m, r < size -> In m (got_of (procs c r)) -> fst m < size) /\
    (forall s r, s < size -> r < size -> values s (got_of (procs c r)) ++ net c s r ++ values r (ts_of (procs c s)) = prev k s r).
  (** Between the first and the second barrier of call k. *)
  Definition win2 (k : nat) (c : sys) : Prop :=
    (forall r, r < size -> idx (procs c r) = k /\ match at_ (procs c r) with FirstWait | Counting _ | SecondWait => True | _ => False end) /\
    (forall s r, s < size -> r < size -> net c s r = []) /\
    (forall r, r < size -> win (procs c r) + sum_r size (fun s => length (filter (Nat.eqb r) (rem_of (procs c s)))) = tot k r) /\
    (forall s d, s < size -> In d (rem_of (procs c s)) -> d < size).
  (** Sends only to ranks that exist. *)
  Definition ts_ok (c : sys) : Prop := forall s m, s < size -> In m (ts_of (procs c s)) -> fst m < size.
  Definition inv (c : sys) : Prop :=
    (forall r, r < size -> rank_ok r (procs c r)) /\ (forall s d, ~ (s < size /\ d < size) -> net c s d = []) /\ ts_ok c /\ exists k, win1 k c \/ win2 k c.

  Lemma call_of_lt k s m : s < size -> In m (call_of k s) -> fst m < size.
  Proof. intros L I. destruct (coll s L) as (_ & H). unfold call_of in I. destruct (nth_in_or_default k (args s) []) as [J|J]; [eauto|]. rewrite J in I. destruct I. Qed.

  Lemma start_inv junk : inv (edges_start junk args).
  Proof.
    split; [|split; [|split]]; cbn [edges_start procs net].
    - intros r L. unfold rank_ok, idx, active, bar_off. cbn. split; [reflexivity|]. split; [congruence|]. split; [lia|]. split; [reflexivity|]. intros k g E. destruct k; discriminate.
    - reflexivity.
    - intros s m _ [].
    - exists 0. left. split; [intros; reflexivity|]. split; [intros r m _ []|intros; reflexivity].
  Qed.

  (** A rank outside or at the first barrier has received everything. *)
  Lemma complete k c r : win1 k c -> r < size -> length (got_of (procs c r)) = sum_r size (fun s => length (prev k s r)) ->
    forall s, s < size -> values s (got_of (procs c r)) = prev k s r /\ net c s r = [] /\ values r (ts_of (procs c s)) = [].
  Proof.
    intros (_ & H2 & H3) Lr E s Ls. rewrite <- (values_length size (got_of (procs c r)) (fun m I => H2 r m Lr I)) in E.
    assert (Q : length (values s (got_of (procs c r))) = length (prev k s r)).
    { revert s Ls. apply sum_r_eq; [|exact E]. intros i Li. rewrite <- (H3 i r Li Lr), app_length. lia. }
    pose proof (H3 s r Ls Lr) as X. rewrite <- X in Q. rewrite !app_length in Q. assert (net c s r = []) as E1 by (apply length_zero_iff_nil; lia). assert (values r (ts_of (procs c s)) = []) as E2 by (apply length_zero_iff_nil; lia).
    rewrite E1, E2, !app_nil_r in X. auto.
  Qed.
  Lemma outside_complete k c r : (forall r, r < size -> rank_ok r (procs c r)) -> win1 k c -> r < size -> (at_ (procs c r) = Outside \/ at_ (procs c r) = FirstWait) ->
    forall s, s < size -> values s (got_of (procs c r)) = prev k s r /\ net c s r = [] /\ values r (ts_of (procs c s)) = [].
  Proof.
    intros RO W Lr A. apply complete; auto. destruct W as (H1 & H2 & H3). specialize (H1 r Lr). assert (Ei : idx (procs c r) = k) by (destruct A as [A|A]; rewrite A in H1; tauto).
    assert (G : got_of (procs c r) = last (results (procs c r)) []) by (unfold got_of; destruct A as [A|A]; rewrite A; reflexivity). rewrite G. unfold idx in Ei.
    destruct k as [|k].
    - apply length_zero_iff_nil in Ei. rewrite Ei. cbn. rewrite sum_r_0. reflexivity.
    - destruct (RO r Lr) as (_ & _ & _ & _ & Fo). assert (N : nth_error (results (procs c r)) k = Some (last (results (procs c r)) [])).
      { destruct (exists_last (l := results (procs c r))) as (l & x & El); [intros E; rewrite E in Ei; discriminate|]. rewrite El in *. rewrite last_last. rewrite app_length in Ei. cbn in Ei. rewrite nth_error_app2 by lia. replace (k - length l) with 0 by lia. reflexivity. }
      destruct (Fo k _ N) as (F1 & F2). rewrite <- (values_length size) by exact F1. apply sum_r_ext. intros i Li. rewrite (F2 i Li). reflexivity.
  Qed.

  Lemma barrier1 k c r : (forall r, r < size -> rank_ok r (procs c r)) -> win1 k c -> r < size -> at_ (procs c r) = FirstWait -> barrier_done size c r -> win2 k c.
  Proof.
    intros RO W Lr A B. pose proof W as (H1 & H2 & H3).
    assert (Er : bars (procs c r) = 2 * k + 1). { destruct (RO r Lr) as (_ & _ & _ & X & _). pose proof (H1 r Lr) as Y. rewrite A in Y. unfold bar_off in X. rewrite A in X. lia. }
    assert (All : forall i, i < size -> at_ (procs c i) = FirstWait /\ idx (procs c i) = k /\ win (procs c i) = 0).
    { intros i Li. specialize (B i Li). destruct (RO i Li) as (_ & _ & _ & X & _). pose proof (H1 i Li) as Y. unfold bar_off in X. destruct (at_ (procs c i)); try lia; try contradiction. tauto. }
    split; [|split; [|split]].
    - intros i Li. destruct (All i Li) as (-> & -> & _). auto.
    - intros s i Ls Li. apply (outside_complete k c i RO W Li); auto. right. apply All, Li.
    - intros i Li. destruct (All i Li) as (_ & _ & ->). cbn. apply sum_r_ext. intros s Ls. destruct (All s Ls) as (As & Is & _). unfold rem_of. rewrite As. destruct (RO s Ls) as (_ & N & _). destruct N as (N & _); [rewrite As; discriminate|]. rewrite N, Is. apply count_values.
    - intros s d Ls I. unfold rem_of in I. destruct (All s Ls) as (As & Is & _). rewrite As in I. apply in_map_iff in I. destruct I as (m & <- & I). destruct (RO s Ls) as (_ & N & _). destruct N as (N & _); [rewrite As; discriminate|]. rewrite N in I. eapply call_of_lt; eauto.
  Qed.
  Lemma barrier2 k c r : (forall r, r < size -> rank_ok r (procs c r)) -> win2 k c -> r < size -> at_ (procs c r) = SecondWait -> barrier_done size c r -> win1 (S k) c.
  Proof.
    intros RO (H1 & H2 & H3 & H4) Lr A B. assert (Er : bars (procs c r) = 2 * k + 2). { destruct (RO r Lr) as (_ & _ & _ & X & _). pose proof (H1 r Lr) as (Y & _). unfold bar_off in X. rewrite A in X. lia. }
    assert (All : forall i, i < size -> at_ (procs c i) = SecondWait /\ idx (procs c i) = k).
    { intros i Li. specialize (B i Li). destruct (RO i Li) as (_ & _ & _ & X & _). pose proof (H1 i Li) as (Y1 & Y2). unfold bar_off in X. destruct (at_ (procs c i)); try lia; try contradiction. tauto. }
    split; [|split].
    - intros i Li. destruct (All i Li) as (-> & ->). split; [reflexivity|]. replace (S k - 1) with k by lia. rewrite <- (H3 i Li). rewrite (sum_r_ext _ _ (fun _ => 0)); [rewrite sum_r_0; lia|]. intros s Ls. unfold rem_of. rewrite (proj1 (All s Ls)). reflexivity.
    - intros i m Li I. unfold got_of in I. rewrite (proj1 (All i Li)) in I. destruct I.
    - intros s i Ls Li. unfold got_of, ts_of. rewrite (proj1 (All i Li)), (proj1 (All s Ls)), H2 by auto. cbn. destruct (RO s Ls) as (_ & N & _). destruct N as (N & _); [rewrite (proj1 (All s Ls)); discriminate|]. rewrite N, (proj2 (All s Ls)). reflexivity.
  Qed.

  (** Replacing one rank. *)
  Lemma ranks_set c r p : (forall r, r < size -> rank_ok r (procs c r)) -> rank_ok r p -> forall i, i < size -> rank_ok i (setf (procs c) r p i).
  Proof. intros H Hp i L. destruct (Nat.eq_dec i r) as [->|N]; [rewrite setf_eq; exact Hp|rewrite setf_neq by exact N; auto]. Qed.
  Lemma ts_set c r p nt : ts_ok c -> (forall m, In m (ts_of p) -> fst m < size) -> ts_ok (mk_sys (setf (procs c) r p) nt).
  Proof. intros H Hp s m L I. cbn [procs] in I. destruct (Nat.eq_dec s r) as [->|N]; [rewrite setf_eq in I; auto|rewrite setf_neq in I by exact N; eapply H; eauto]. Qed.
  Definition local1 (k r : nat) (p : proc) : Prop :=
    match at_ p with
    | Outside => idx p = k
    | FirstWait => idx p = k /\ win p = 0
    | Counting _ => False
    | SecondWait => S (idx p) = k /\ win p = tot (k - 1) r
    | Exchange n _ g => S (idx p) = k /\ n = tot (k - 1) r /\ length g <= n
    end.
  Lemma win1_set k c r p : win1 k c -> local1 k r p -> got_of p = got_of (procs c r) -> ts_of p = ts_of (procs c r) -> win1 k (mk_sys (setf (procs c) r p) (net c)).
  Proof.
    intros (H1 & H2 & H3) L G T. assert (Gi : forall i, got_of (setf (procs c) r p i) = got_of (procs c i)). { intros i. destruct (Nat.eq_dec i r) as [->|N]; [rewrite setf_eq; auto|rewrite setf_neq; auto]. }
    assert (Ti : forall i, ts_of (setf (procs c) r p i) = ts_of (procs c i)). { intros i. destruct (Nat.eq_dec i r) as [->|N]; [rewrite setf_eq; auto|rewrite setf_neq; auto]. }
    split; [|split]; cbn [procs net].
    - intros i Li. destruct (Nat.eq_dec i r) as [->|N]; [rewrite setf_eq; exact L|rewrite setf_neq by exact N; apply H1, Li].
    - intros i m Li. rewrite Gi. eauto.
    - intros s i Ls Li. rewrite Gi, Ti. auto.
  Qed.
  Lemma win2_set k c r p : win2 k c -> idx p = idx (procs c r) -> win p = win (procs c r) -> match at_ p with FirstWait | Counting _ | SecondWait => True | _ => False end -> rem_of p = rem_of (procs c r) ->
    win2 k (mk_sys (setf (procs c) r p) (net c)).
  Proof.
    intros (H1 & H2 & H3 & H4) E1 E2 A T. assert (Ti : forall i, rem_of (setf (procs c) r p i) = rem_of (procs c i)). { intros i. destruct (Nat.eq_dec i r) as [->|N]; [rewrite setf_eq; auto|rewrite setf_neq; auto]. }
    split; [|split; [|split]]; cbn [procs net].
    - intros i Li. destruct (Nat.eq_dec i r) as [->|N]; [rewrite setf_eq; split; [rewrite E1; apply H1, Li|exact A]|rewrite setf_neq by exact N; apply H1, Li].
    - exact H2.
    - intros i Li. rewrite (sum_r_ext _ _ (fun s => length (filter (Nat.eqb i) (rem_of (procs c s))))) by (intros; rewrite Ti; reflexivity). rewrite <- (H3 i Li). f_equal. destruct (Nat.eq_dec i r) as [->|N]; [rewrite setf_eq; auto|rewrite setf_neq by exact N; auto].
    - intros s d Ls. rewrite Ti. eauto.
  Qed.
  Lemma skipn_cons_nth {A} (l : list A) i a rest : skipn i l = a :: rest -> nth_error l i = Some a /\ rest = skipn (i + 1) l.
  Proof. revert i. induction l as [|b l IH]; intros [|i] E; try discriminate. - cbn in E. injection E as <- <-. split; reflexivity. - cbn in E. apply IH in E. exact E. Qed.

  Lemma finish_inv c r p n got : inv c -> r < size -> procs c r = p -> at_ p = Exchange n [] got -> length got = n ->
    inv (mk_sys (setf (procs c) r (mk_proc (win p) (bars p) Outside (now p) (calls p) (results p ++ [got]))) (net c)).
  Proof.
    intros (RO & NO & TO & k & HW) Lr Ep A E. destruct HW as [W|W]; [|exfalso; destruct W as (H1 & _); destruct (H1 r Lr) as (_ & X); rewrite Ep, A in X; exact X].
    pose proof W as (H1 & H2 & H3). pose proof (H1 r Lr) as X. rewrite Ep, A in X. destruct X as (Ei & En & _). assert (Eg : got_of (procs c r) = got) by (unfold got_of; rewrite Ep, A; reflexivity).
    assert (Cp : forall s, s < size -> values s got = prev k s r). { intros s Ls. rewrite <- Eg. apply (complete k c r W Lr); auto. rewrite Eg, E, En. unfold tot. apply sum_r_ext. intros i Li. destruct k; [lia|]. cbn. rewrite Nat.sub_0_r. reflexivity. }
    assert (F : found size (call_of (idx p)) r got). { split; [intros m I; rewrite <- Eg in I; eauto|]. intros s Ls. rewrite (Cp s Ls). destruct k; [lia|]. injection Ei as Ei. rewrite Ei. reflexivity. }
    split; [|split; [exact NO|split]]; cbn [procs net].
    - apply ranks_set; auto. destruct (RO r Lr) as (R1 & R2 & R3 & R4 & R5). rewrite Ep in *. unfold rank_ok, idx, active, bar_off in *. rewrite A in *. cbn [results at_ calls now bars]. rewrite app_length. cbn [length]. destruct (R2 ltac:(discriminate)) as (R2a & R2b).
      split; [rewrite R1; f_equal; lia|]. split; [congruence|]. split; [lia|]. split; [lia|]. intros j g Ej. destruct (lt_dec j (length (results p))) as [Lj|Lj]; [rewrite nth_error_app1 in Ej by exact Lj; auto|]. rewrite nth_error_app2 in Ej by lia.
      destruct (j - length (results p)) as [|j'] eqn:Q; [|cbn in Ej; destruct j'; discriminate]. cbn in Ej. injection Ej as <-. replace j with (length (results p)) by lia. exact F.
    - apply ts_set; [exact TO|]. intros m [].
    - exists k. left. apply win1_set; auto.
      + unfold local1, idx in *. cbn [at_ results]. rewrite app_length. cbn. lia.
      + rewrite Eg. unfold got_of. cbn. apply last_last.
      + unfold ts_of. rewrite Ep, A. reflexivity.
  Qed.

  Lemma step_inv c c' : inv c -> step size c c' -> inv c'.
  Proof.
    intros I [St|St]; pose proof I as (RO & NO & TO & k & HW).
    2: { destruct St. eapply finish_inv; eauto. }
    destruct St as [c r p a rest Lr Ep A Ec|c r p Lr Ep A B|c r p d rem Lr Ep A f t|c r p Lr Ep A|c r p Lr Ep A B|c r p n d x ts got Lr Ep A|c r p n ts got s x q Lr Ls Ep A Lg Hn|c r p n got Lr Ep A E Hn].
    - destruct HW as [W|W]; [|exfalso; destruct W as (H1 & _); destruct (H1 r Lr) as (_ & X); rewrite Ep, A in X; exact X]. destruct (RO r Lr) as (R1 & R2 & R3 & R4 & R5). rewrite Ep in *. unfold active in R1. rewrite A in R1. rewrite Nat.add_0_r in R1. rewrite R1 in Ec.
      destruct (skipn_cons_nth _ _ _ _ Ec) as (N & ->).
      split; [|split; [exact NO|split]]; cbn [procs net].
      + apply ranks_set; auto. unfold rank_ok, idx, active, bar_off in *. rewrite A in R4. cbn [results at_ calls now bars]. split; [reflexivity|]. split; [intros _; split; [unfold call_of; symmetry; apply nth_error_nth, N|]|].
        * apply nth_error_some_lt in N. rewrite (proj1 (coll r Lr)) in N. exact N.
        * split; [exact R3|]. split; [lia|exact R5].
      + apply ts_set; [exact TO|]. intros m [].
      + exists k. left. pose proof W as (H1 & _ & _). specialize (H1 r Lr). rewrite Ep, A in H1. apply win1_set; auto; [unfold local1; cbn; auto|unfold got_of; rewrite Ep, A; reflexivity|unfold ts_of; rewrite Ep, A; reflexivity].
    - assert (W2 : win2 k c). { destruct HW as [W|W]; [eapply barrier1; eauto; rewrite Ep; exact A|exact W]. } destruct (RO r Lr) as (R1 & R2 & R3 & R4 & R5).
      split; [|split; [exact NO|split]]; cbn [procs net].
      + apply ranks_set; auto. rewrite Ep in *. unfold rank_ok, idx, active, bar_off in *. rewrite A in *. cbn [results at_ calls now bars]. split; [exact R1|]. split; [intros _; apply R2; discriminate|]. auto.
      + apply ts_set; [exact TO|]. intros m [].
      + exists k. right. apply win2_set; [assumption|rewrite Ep; reflexivity|rewrite Ep; reflexivity|exact Logic.I|unfold rem_of; rewrite Ep, A; reflexivity].
    - destruct HW as [W|W]; [exfalso; destruct W as (H1 & _); specialize (H1 r Lr); rewrite Ep, A in H1; exact H1|]. destruct (RO r Lr) as (R1 & R2 & R3 & R4 & R5). pose proof W as (H1 & H2 & H3 & H4).
      assert (Ld : d < size). { apply (H4 r d Lr). unfold rem_of. rewrite Ep, A. left; auto. }
      assert (RO1 : forall i, i < size -> rank_ok i (f i)). { apply ranks_set; auto. rewrite Ep in *. unfold rank_ok, idx, active, bar_off in *. rewrite A in *. cbn [results at_ calls now bars]. split; [exact R1|]. split; [intros _; apply R2; discriminate|]. auto. }
      assert (TO1 : forall s m, s < size -> In m (ts_of (f s)) -> fst m < size). { apply (ts_set c r _ (net c)); [exact TO|]. intros m []. }
      split; [|split; [exact NO|split]]; cbn [procs net].
      + intros i Li. destruct (Nat.eq_dec i d) as [->|N]; [|rewrite setf_neq by exact N; auto]. rewrite setf_eq. exact (RO1 d Ld).
      + intros s m Ls J. cbn [procs] in J. destruct (Nat.eq_dec s d) as [->|N]; [rewrite setf_eq in J; exact (TO1 d m Ld J)|rewrite setf_neq in J by exact N; eauto].
      + exists k. right. set (f2 := setf f d (mk_proc (win t + 1) (bars t) (at_ t) (now t) (calls t) (results t))).
        assert (F2 : forall i, idx (f2 i) = idx (f i) /\ at_ (f2 i) = at_ (f i) /\ rem_of (f2 i) = rem_of (f i) /\ win (f2 i) = win (f i) + (if i =? d then 1 else 0)).
        { intros i. unfold f2. destruct (Nat.eqb_spec i d) as [->|N]; [rewrite setf_eq; repeat split|rewrite setf_neq by exact N; repeat split; lia]. }
        assert (F1 : forall i, idx (f i) = idx (procs c i) /\ win (f i) = win (procs c i) /\ (i <> r -> f i = procs c i)). { intros i. unfold f. destruct (Nat.eq_dec i r) as [->|N]; [rewrite setf_eq, Ep; repeat split; congruence|rewrite setf_neq by exact N; auto]. }
        assert (Rr : rem_of (procs c r) = d :: rem) by (unfold rem_of; rewrite Ep, A; reflexivity). assert (Rf : rem_of (f r) = rem) by (unfold f; rewrite setf_eq; reflexivity).
        split; [|split; [exact H2|split]]; cbn [procs net].
        * intros i Li. destruct (F2 i) as (-> & -> & _). rewrite (proj1 (F1 i)). split; [apply H1, Li|]. destruct (Nat.eq_dec i r) as [->|N]; [unfold f; rewrite setf_eq; exact Logic.I|]. rewrite (proj2 (proj2 (F1 i)) N). apply H1, Li.
        * intros i Li. destruct (F2 i) as (_ & _ & _ & ->). rewrite (proj1 (proj2 (F1 i))). rewrite <- (H3 i Li).
          pose proof (sum_r_change size (fun s => length (filter (Nat.eqb i) (rem_of (procs c s)))) (fun s => length (filter (Nat.eqb i) (rem_of (f2 s)))) r Lr) as C. cbv beta in C. rewrite (proj1 (proj2 (proj2 (F2 r)))), Rr, Rf in C.
          specialize (C ltac:(intros j _ N; rewrite (proj1 (proj2 (proj2 (F2 j)))), (proj2 (proj2 (F1 j)) N); reflexivity)). cbn [filter] in C. destruct (i =? d); cbn [length] in C; lia.
        * intros s e Ls J. rewrite (proj1 (proj2 (proj2 (F2 s)))) in J. destruct (Nat.eq_dec s r) as [->|N]; [rewrite Rf in J; apply (H4 r e Lr); rewrite Rr; right; auto|]. rewrite (proj2 (proj2 (F1 s)) N) in J. eauto.
    - destruct HW as [W|W]; [exfalso; destruct W as (H1 & _); specialize (H1 r Lr); rewrite Ep, A in H1; exact H1|]. destruct (RO r Lr) as (R1 & R2 & R3 & R4 & R5). assert (Nw : now p = call_of (idx p) r). { rewrite Ep in R2. apply R2. rewrite A. discriminate. }
      split; [|split; [exact NO|split]]; cbn [procs net].
      + apply ranks_set; auto. rewrite Ep in *. unfold rank_ok, idx, active, bar_off in *. rewrite A in *. cbn [results at_ calls now bars]. split; [exact R1|]. split; [intros _; apply R2; discriminate|]. split; [exact R3|]. split; [lia|exact R5].
      + apply ts_set; [exact TO|]. unfold ts_of. cbn. intros m J. rewrite Nw in J. eapply call_of_lt; eauto.
      + exists k. right. apply win2_set; [assumption|rewrite Ep; reflexivity|rewrite Ep; reflexivity|exact Logic.I|unfold rem_of; rewrite Ep, A; reflexivity].
    - assert (W1 : exists k', win1 k' c). { destruct HW as [W|W]; [eauto|]. exists (S k). eapply barrier2; eauto. rewrite Ep. exact A. } clear k HW. destruct W1 as (k & W). destruct (RO r Lr) as (R1 & R2 & R3 & R4 & R5). pose proof W as (H1 & _ & _). specialize (H1 r Lr). rewrite Ep, A in H1.
      assert (Nw : now p = call_of (idx p) r). { rewrite Ep in R2. apply R2. rewrite A. discriminate. }
      split; [|split; [exact NO|split]]; cbn [procs net].
      + apply ranks_set; auto. rewrite Ep in *. unfold rank_ok, idx, active, bar_off in *. rewrite A in *. cbn [results at_ calls now bars]. split; [exact R1|]. split; [intros _; apply R2; discriminate|]. auto.
      + apply ts_set; [exact TO|]. unfold ts_of. cbn. intros m J. rewrite Nw in J. eapply call_of_lt; eauto.
      + exists k. left. apply win1_set; auto; [unfold local1; cbn; unfold idx in *; cbn; repeat split; try tauto; lia|unfold got_of; rewrite Ep, A; reflexivity|unfold ts_of; rewrite Ep, A; reflexivity].
    - destruct HW as [W|W]; [|exfalso; destruct W as (H1 & _); destruct (H1 r Lr) as (_ & X); rewrite Ep, A in X; exact X]. destruct (RO r Lr) as (R1 & R2 & R3 & R4 & R5). pose proof W as (H1 & H2 & H3).
      assert (Ld : d < size). { apply (TO r (d, x) Lr). unfold ts_of. rewrite Ep, A. left; auto. }
      split; [|split; [|split]]; cbn [procs net].
      + apply ranks_set; auto. rewrite Ep in *. unfold rank_ok, idx, active, bar_off in *. rewrite A in *. cbn [results at_ calls now bars]. split; [exact R1|]. split; [intros _; apply R2; discriminate|]. auto.
      + intros i j N. rewrite setf2_neq; [auto|]. intros (-> & ->). auto.
      + apply ts_set; [exact TO|]. intros m J. apply (TO r m Lr). unfold ts_of. rewrite Ep, A. right. exact J.
      + exists k. left. set (p' := mk_proc (win p) (bars p) (Exchange n ts got) (now p) (calls p) (results p)). assert (G : forall i, got_of (setf (procs c) r p' i) = got_of (procs c i)). { intros i. destruct (Nat.eq_dec i r) as [->|N]; [rewrite setf_eq; unfold got_of; rewrite Ep, A; reflexivity|rewrite setf_neq; auto]. }
        split; [|split]; cbn [procs net].
        * intros i Li. destruct (Nat.eq_dec i r) as [->|N]; [|rewrite setf_neq by exact N; apply H1, Li]. rewrite setf_eq. specialize (H1 r Lr). rewrite Ep, A in H1. exact H1.
        * intros i m Li. rewrite G. eauto.
        * intros s i Ls Li. rewrite G. pose proof (H3 s i Ls Li) as Q. destruct (Nat.eq_dec s r) as [->|N]; [|rewrite setf_neq by exact N; rewrite setf2_neq by tauto; exact Q]. rewrite setf_eq. unfold ts_of in *. rewrite Ep, A in Q. cbn [at_ p']. rewrite values_cons in Q.
          destruct (Nat.eqb_spec d i) as [->|Nd]; [rewrite setf2_eq, <- app_assoc; exact Q|rewrite setf2_neq by (intros (_ & ->); congruence); exact Q].
    - destruct HW as [W|W]; [|exfalso; destruct W as (H1 & _); destruct (H1 r Lr) as (_ & X); rewrite Ep, A in X; exact X]. destruct (RO r Lr) as (R1 & R2 & R3 & R4 & R5). pose proof W as (H1 & H2 & H3).
      split; [|split; [|split]]; cbn [procs net].
      + apply ranks_set; auto. rewrite Ep in *. unfold rank_ok, idx, active, bar_off in *. rewrite A in *. cbn [results at_ calls now bars]. split; [exact R1|]. split; [intros _; apply R2; discriminate|]. auto.
      + intros i j N. rewrite setf2_neq; [auto|]. intros (-> & ->). auto.
      + apply ts_set; [exact TO|]. intros m J. apply (TO r m Lr). unfold ts_of. rewrite Ep, A. exact J.
      + exists k. left. set (p' := mk_proc (win p) (bars p) (Exchange n ts (got ++ [(s, x)])) (now p) (calls p) (results p)). assert (G : forall i, ts_of (setf (procs c) r p' i) = ts_of (procs c i)). { intros i. destruct (Nat.eq_dec i r) as [->|N]; [rewrite setf_eq; unfold ts_of; rewrite Ep, A; reflexivity|rewrite setf_neq; auto]. }
        split; [|split]; cbn [procs net].
        * intros i Li. destruct (Nat.eq_dec i r) as [->|N]; [|rewrite setf_neq by exact N; apply H1, Li]. rewrite setf_eq. specialize (H1 r Lr). rewrite Ep, A in H1. cbn [at_ p']. rewrite app_length. cbn. unfold idx in *. cbn. intuition lia.
        * intros i m Li J. destruct (Nat.eq_dec i r) as [->|N]; [|rewrite setf_neq in J by exact N; eauto]. rewrite setf_eq in J. unfold got_of in J. cbn in J. apply in_app_or in J. destruct J as [J|[<-|[]]]; [|exact Ls]. apply (H2 r m Lr). unfold got_of. rewrite Ep, A. exact J.
        * intros i j Li Lj. rewrite G. pose proof (H3 i j Li Lj) as Q. destruct (Nat.eq_dec j r) as [->|N]; [|rewrite setf_neq by exact N; rewrite setf2_neq by tauto; exact Q]. rewrite setf_eq. unfold got_of in *. rewrite Ep, A in Q. cbn [at_ p']. rewrite values_app, values_one.
          destruct (Nat.eqb_spec s i) as [->|Ns]; [rewrite setf2_eq, <- app_assoc; rewrite Hn in Q; exact Q|rewrite setf2_neq by (intros (-> & _); congruence); rewrite app_nil_r; exact Q].
    - eapply finish_inv; eauto.
  Qed.

  (** ** Progress *)
  Lemma bounded (b : nat -> bool) : (exists r, r < size /\ b r = true) \/ (forall r, r < size -> b r = false).
  Proof.
    clear coll. induction size as [|n IH]; [right; intros; lia|]. destruct (b n) eqn:E; [left; exists n; split; [lia|exact E]|]. destruct IH as [(r & L & H)|H]; [left; exists r; split; [lia|exact H]|]. right. intros r L. destruct (Nat.eq_dec r n) as [->|N]; [exact E|apply H; lia].
  Qed.
  Lemma progress c : inv c -> finished size c \/ exists c', call size c c'.
  Proof.
    intros (RO & NO & TO & k & [W|W]).
    - pose proof W as (H1 & H2 & H3).
      destruct (bounded (fun r => match at_ (procs c r) with Outside => match calls (procs c r) with [] => false | _ => true end | SecondWait => true | Exchange _ (_ :: _) _ => true | _ => false end)) as [(r & Lr & E)|Q].
      { right. pose proof (H1 r Lr) as X. destruct (at_ (procs c r)) as [| |rem| |n ts g] eqn:A; try discriminate.
        - destruct (calls (procs c r)) as [|a rest] eqn:Ec; [discriminate|]. eexists. eapply call_reset; eauto.
        - eexists. eapply call_second_wait; eauto. intros i Li. destruct (RO r Lr) as (_ & _ & _ & B1 & _). destruct (RO i Li) as (_ & _ & _ & B2 & _). pose proof (H1 i Li) as Y. unfold bar_off in *. rewrite A in B1. destruct (at_ (procs c i)); lia || contradiction.
        - destruct ts as [|(d, x) ts]; [discriminate|]. eexists. eapply call_send; eauto. }
      assert (Ts : forall s, s < size -> ts_of (procs c s) = []). { intros s Ls. specialize (Q s Ls). unfold ts_of. destruct (at_ (procs c s)) as [| |rem| |n ts g]; try reflexivity; [discriminate|]. destruct ts; [reflexivity|discriminate]. }
      destruct (bounded (fun r => existsb (fun s => match net c s r with [] => false | _ => true end) (seq 0 size))) as [(r & Lr & E)|Qn].
      { apply existsb_exists in E. destruct E as (s & Is & E). apply in_seq in Is. destruct (net c s r) as [|x q] eqn:En; [discriminate|]. right.
        assert (Nc : length (got_of (procs c r)) <> sum_r size (fun s => length (prev k s r))). { intros Y. destruct (complete k c r W Lr Y s ltac:(lia)) as (_ & Z & _). congruence. }
        pose proof (H1 r Lr) as X. destruct (at_ (procs c r)) as [| |rem| |n ts g] eqn:A; try contradiction.
        - destruct (outside_complete k c r RO W Lr (or_introl A) s ltac:(lia)) as (_ & Z & _). congruence.
        - destruct (outside_complete k c r RO W Lr (or_intror A) s ltac:(lia)) as (_ & Z & _). congruence.
        - specialize (Q r Lr). cbv beta in Q. rewrite A in Q. discriminate.
        - eexists. eapply (call_recv size c r _ n ts g s x q); eauto; [lia|]. destruct X as (X1 & X2 & X3). assert (length g <> n); [|lia]. intros Y. apply Nc. unfold got_of. rewrite A, Y, X2. unfold tot. apply sum_r_ext. intros i Li. destruct k; [lia|]. cbn. rewrite Nat.sub_0_r. reflexivity. }
      assert (Nn : forall s d, net c s d = []).
      { intros s d. destruct (lt_dec s size) as [Ls|]; [|apply NO; tauto]. destruct (lt_dec d size) as [Ld|]; [|apply NO; tauto]. specialize (Qn d Ld). cbv beta in Qn. destruct (net c s d) eqn:En; [reflexivity|]. exfalso.
        assert (existsb (fun s => match net c s d with [] => false | _ => true end) (seq 0 size) = true); [|congruence]. apply existsb_exists. exists s. split; [apply in_seq; lia|]. rewrite En. reflexivity. }
      destruct (bounded (fun r => match at_ (procs c r) with Exchange _ _ _ => true | _ => false end)) as [(r & Lr & E)|Qx].
      { right. pose proof (H1 r Lr) as X. specialize (Q r Lr). cbv beta in Q. destruct (at_ (procs c r)) as [| |rem| |n ts g] eqn:A; try discriminate. destruct ts; [|discriminate]. destruct X as (X1 & X2 & X3). eexists. eapply call_finish; eauto.
        assert (Eg : got_of (procs c r) = g) by (unfold got_of; rewrite A; reflexivity). rewrite <- (values_length size g) by (intros m I; apply (H2 r m Lr); rewrite Eg; exact I). rewrite X2. unfold tot. apply sum_r_ext. intros s Ls. pose proof (H3 s r Ls Lr) as Y. rewrite Nn, (Ts s Ls), Eg in Y. cbn [values filter map app] in Y.
        change (values r []) with (@nil Z) in Y. rewrite ?app_nil_r in Y. rewrite Y. destruct k; [lia|]. cbn. rewrite Nat.sub_0_r. reflexivity. }
      destruct (bounded (fun r => match at_ (procs c r) with FirstWait => true | _ => false end)) as [(r & Lr & E)|Qf].
      { right. destruct (at_ (procs c r)) eqn:A; try discriminate. eexists. eapply call_first_wait; eauto. intros i Li. destruct (RO r Lr) as (_ & R2 & _ & B1 & _). destruct (RO i Li) as (C2 & _ & _ & B2 & _). pose proof (H1 i Li) as Y. pose proof (H1 r Lr) as X. rewrite A in X. destruct R2 as (_ & R2); [rewrite A; discriminate|].
        specialize (Q i Li). specialize (Qx i Li). cbv beta in Q, Qx. unfold bar_off in *. rewrite A in B1. destruct (at_ (procs c i)) eqn:Ai; try lia; try discriminate. destruct (calls (procs c i)) eqn:Ec; [|discriminate]. exfalso.
        unfold active in C2. rewrite Ai in C2. assert (length (skipn (idx (procs c i) + 0) (args i)) = 0) as Z by (rewrite <- C2; reflexivity). rewrite skipn_length, (proj1 (coll i Li)) in Z. lia. }
      left. intros r Lr. specialize (Q r Lr). specialize (Qx r Lr). specialize (Qf r Lr). cbv beta in *. pose proof (H1 r Lr) as X. destruct (at_ (procs c r)); try discriminate; try contradiction. destruct (calls (procs c r)); [auto|discriminate].
    - pose proof W as (H1 & H2 & H3 & H4). destruct (bounded (fun r => match at_ (procs c r) with SecondWait => false | _ => true end)) as [(r & Lr & E)|Q].
      + right. destruct (H1 r Lr) as (Ei & X). destruct (at_ (procs c r)) as [| |rem| |n ts g] eqn:A; try contradiction; try discriminate.
        * eexists. eapply call_first_wait; eauto. intros i Li. destruct (RO r Lr) as (_ & _ & _ & B1 & _). destruct (RO i Li) as (_ & _ & _ & B2 & _). destruct (H1 i Li) as (Y1 & Y). unfold bar_off in *. rewrite A in B1. destruct (at_ (procs c i)); lia || contradiction.
        * destruct rem as [|d rem]; [eexists; eapply call_enter; eauto|]. eexists. eapply call_count; eauto.
      + assert (Z : size = 0 \/ 0 < size) by lia. destruct Z as [Z|Z]; [left; intros r L; lia|]. right. pose proof (Q 0 Z) as A. cbv beta in A. destruct (at_ (procs c 0)) eqn:A0; try discriminate. eexists. eapply (call_second_wait size c 0); eauto.
        intros i Li. destruct (RO 0 Z) as (_ & _ & _ & B1 & _). destruct (RO i Li) as (_ & _ & _ & B2 & _). destruct (H1 i Li) as (Y1 & _). destruct (H1 0 Z) as (Y2 & _). specialize (Q i Li). cbv beta in Q. unfold bar_off in *. rewrite A0 in B1. destruct (at_ (procs c i)); try discriminate. lia.
  Qed.

  (** ** Termination *)
  Definition call_weight (a : list (nat * Z)) : nat := 5 + 3 * length a.
  Definition weight (p : proc) : nat :=
    list_sum (map call_weight (calls p)) +
    match at_ p with
    | Outside => 0
    | FirstWait => 4 + 3 * length (now p)
    | Counting rem => 3 + length rem + 2 * length (now p)
    | SecondWait => 2 + 2 * length (now p)
    | Exchange _ ts _ => 1 + 2 * length ts
    end.
  Definition total (c : sys) : nat := sum_r size (fun r => weight (procs c r)) + sum_r size (fun s => sum_r size (fun d => length (net c s d))).
  Lemma weight_set f r p : r < size -> sum_r size (fun i => weight (setf f r p i)) + weight (f r) = sum_r size (fun i => weight (f i)) + weight p.
  Proof.
    intros L. pose proof (sum_r_change size (fun i => weight (f i)) (fun i => weight (setf f r p i)) r L) as H. cbv beta in H. rewrite setf_eq in H. apply H. intros i _ N. rewrite setf_neq by exact N. reflexivity.
  Qed.
  Lemma net_set nt s d (q : list Z) : s < size -> d < size ->
    sum_r size (fun i => sum_r size (fun j => length (setf2 nt s d q i j))) + length (nt s d) = sum_r size (fun i => sum_r size (fun j => length (nt i j))) + length q.
  Proof.
    intros L1 L2. pose proof (sum_r_change size (fun i => sum_r size (fun j => length (nt i j))) (fun i => sum_r size (fun j => length (setf2 nt s d q i j))) s L1) as H. cbv beta in H.
    pose proof (sum_r_change size (fun j => length (nt s j)) (fun j => length (setf2 nt s d q s j)) d L2) as H'. cbv beta in H'. rewrite setf2_eq in H'.
    specialize (H ltac:(intros i _ N; apply sum_r_ext; intros j _; rewrite setf2_neq by tauto; reflexivity)). specialize (H' ltac:(intros j _ N; rewrite setf2_neq by tauto; reflexivity)). lia.
  Qed.
  Lemma step_total c c' : inv c -> step size c c' -> total c' < total c.
  Proof.
    intros I St. pose proof I as (RO & NO & TO & k & HW).
    assert (Fin : forall r p n got, r < size -> procs c r = p -> at_ p = Exchange n [] got -> total (mk_sys (setf (procs c) r (mk_proc (win p) (bars p) Outside (now p) (calls p) (results p ++ [got]))) (net c)) < total c).
    { intros r p n got Lr Ep A. unfold total. cbn [procs net]. pose proof (weight_set (procs c) r (mk_proc (win p) (bars p) Outside (now p) (calls p) (results p ++ [got])) Lr) as X. rewrite Ep in X. unfold weight at 2 4 in X. rewrite A in X. cbn [at_ calls length] in X. lia. }
    destruct St as [St|St]; [|destruct St; eauto].
    destruct St as [c r p a rest Lr Ep A Ec|c r p Lr Ep A B|c r p d rem Lr Ep A f t|c r p Lr Ep A|c r p Lr Ep A B|c r p n d x ts got Lr Ep A|c r p n ts got s x q Lr Ls Ep A Lg Hn|c r p n got Lr Ep A E Hn]; [..|eauto];
      unfold total; cbn [procs net].
    - match goal with |- context [setf (procs c) r ?p'] => pose proof (weight_set (procs c) r p' Lr) as X end. rewrite Ep in X. unfold weight at 2 4 in X. rewrite A, Ec in X. cbn [at_ calls now] in X. change (list_sum (map call_weight (a :: rest))) with (call_weight a + list_sum (map call_weight rest)) in X. unfold call_weight at 1 in X. lia.
    - match goal with |- context [setf (procs c) r ?p'] => pose proof (weight_set (procs c) r p' Lr) as X end. rewrite Ep in X. unfold weight at 2 4 in X. rewrite A in X. cbn [at_ calls now] in X. rewrite map_length in X. lia.
    - assert (Ld : d < size). { destruct HW as [W|W]; [exfalso; destruct W as (H1 & _); specialize (H1 r Lr); rewrite Ep, A in H1; exact H1|]. destruct W as (_ & _ & _ & H4). apply (H4 r d Lr). unfold rem_of. rewrite Ep, A. left; auto. }
      pose proof (weight_set f d (mk_proc (win t + 1) (bars t) (at_ t) (now t) (calls t) (results t)) Ld) as X. change (weight (mk_proc (win t + 1) (bars t) (at_ t) (now t) (calls t) (results t))) with (weight (f d)) in X.
      pose proof (weight_set (procs c) r (mk_proc (win p) (bars p) (Counting rem) (now p) (calls p) (results p)) Lr) as Y. rewrite Ep in Y. unfold weight at 2 4 in Y. rewrite A in Y. cbn [at_ calls now length] in Y. unfold f in *. lia.
    - match goal with |- context [setf (procs c) r ?p'] => pose proof (weight_set (procs c) r p' Lr) as X end. rewrite Ep in X. unfold weight at 2 4 in X. rewrite A in X. cbn [at_ calls now length] in X. lia.
    - match goal with |- context [setf (procs c) r ?p'] => pose proof (weight_set (procs c) r p' Lr) as X end. rewrite Ep in X. unfold weight at 2 4 in X. rewrite A in X. cbn [at_ calls now length] in X. lia.
    - assert (Ld : d < size). { apply (TO r (d, x) Lr). unfold ts_of. rewrite Ep, A. left; auto. }
      match goal with |- context [setf (procs c) r ?p'] => pose proof (weight_set (procs c) r p' Lr) as X end. rewrite Ep in X. unfold weight at 2 4 in X. rewrite A in X. cbn [at_ calls now length] in X.
      pose proof (net_set (net c) r d (net c r d ++ [x]) Lr Ld) as Y. rewrite app_length in Y. cbn [length] in Y. lia.
    - match goal with |- context [setf (procs c) r ?p'] => pose proof (weight_set (procs c) r p' Lr) as X end. rewrite Ep in X. unfold weight at 2 4 in X. rewrite A in X. cbn [at_ calls now length] in X.
      pose proof (net_set (net c) s r q Ls Lr) as Y. rewrite Hn in Y. cbn [length] in Y. lia.
  Qed.

  Theorem edges_ok junk : always_ends size (edges_start junk args) /\
    forall n c, execution size n (edges_start junk args) c -> finished size c ->
      (forall s d, net c s d = []) /\ forall r, r < size -> length (results (procs c r)) = K /\ forall k g, nth_error (results (procs c r)) k = Some g -> found size (fun s => nth k (args s) []) r g.
  Proof.
    assert (I : forall n c, execution size n (edges_start junk args) c -> inv c /\ n + total c <= total (edges_start junk args)).
    { intros n c X. remember (edges_start junk args) as a eqn:Ea. induction X as [a|n a b c X IH S']; [subst; split; [apply start_inv|lia]|]. destruct (IH Ea) as (J & L). split; [eapply step_inv; eauto|]. pose proof (step_total b c J S'). lia. }
    split; [split|].
    - exists (total (edges_start junk args)). intros n b X. destruct (I n b X). lia.
    - intros n b X. apply progress. apply (I n b X).
    - intros n c X F. destruct (I n c X) as ((RO & NO & TO & k & HW) & _).
      assert (W : win1 k c \/ size = 0). { destruct HW as [W|W]; [auto|]. destruct (Nat.eq_dec size 0) as [Z|Z]; [auto|]. exfalso. destruct W as (H1 & _). destruct (H1 0 ltac:(lia)) as (_ & Y). rewrite (proj1 (F 0 ltac:(lia))) in Y. exact Y. }
      split.
      + intros s d. destruct (lt_dec s size) as [Ls|]; [|apply NO; tauto]. destruct (lt_dec d size) as [Ld|]; [|apply NO; tauto]. destruct W as [W|W]; [|lia]. apply (outside_complete k c d RO W Ld); [left; apply F, Ld|exact Ls].
      + intros r Lr. destruct (RO r Lr) as (R1 & R2 & R3 & R4 & R5). split; [|exact R5]. destruct (F r Lr) as (A & C). unfold active in R1. rewrite A, C in R1. assert (Z : length (skipn (idx (procs c r) + 0) (args r)) = 0) by (rewrite <- R1; reflexivity). rewrite skipn_length, (proj1 (coll r Lr)) in Z. unfold idx in *. lia.
  Qed.
End Calls.
