(** C65: LocalArray and GlobalArray. *)
From Coq Require Import List Arith Bool Lia ZArith Permutation.
Import ListNotations.
From Verif Require Import Base Kernel Bmi_Spec Arr_Model Arr_Spec Arr_Proofs.

(** ** C65: any history of fills, sets and loops, on any number of ranks, with any schedule
    of the kernels, any contents of pooled and new memory and any order of summation:
    nothing fails, and each event has the effect of the specification. *)
Theorem C65_arrays_hold_what_was_added : forall (V : Type) (add : V -> V -> V) (zero : V), commutative_monoid add zero ->
  forall (w : list rank_arrays) (es : list (env * event)),
  idle w -> same_sizes (view w) -> Forall (fun ee => env_ok (fst ee) /\ allowed (view w) (snd ee)) es ->
  exists w' logs, exec_all add zero w es = Some (w', logs) /\ idle w' /\ same_sizes (view w') /\ history add zero (view w) (map snd es) logs (view w').
Proof. intros V add zero M w es HI HS HF. exact (histories_ok add zero M es w HF HI HS). Qed.
Print Assumptions C65_arrays_hold_what_was_added.

(** All ranks hold the same values in global array [id]. *)
Definition ranks_agree {V} (id : nat) (s : @values V) : Prop :=
  forall r r' G L G' L' a a', nth_error s r = Some (G, L) -> nth_error s r' = Some (G', L') -> nth_error G id = Some a -> nth_error G' id = Some a' -> a = a'.
Theorem C65_loops_keep_ranks_in_agreement : forall (V : Type) (add : V -> V -> V) (zero : V), commutative_monoid add zero ->
  forall (w : list rank_arrays) (e : env) args ops, idle w -> same_sizes (view w) -> env_ok e -> allowed (view w) (ELoop args ops) ->
  exists w' logs, execute add zero e args ops w = Some (w', logs) /\ forall id, ranks_agree id (view w) -> ranks_agree id (view w').
Proof.
  intros V add zero M w e args ops HI HS HE HA. destruct (execute_ok add zero M e args ops w HE HI HS HA) as (w' & logs & E & _ & ((L & H) & _)). exists w', logs. split; [exact E|].
  intros id AG r r' G L0 G' L0' a a' Er Er' Ea Ea'.
  assert (BACK : forall r G L0 a, nth_error (view w') r = Some (G, L0) -> nth_error G id = Some a -> exists G0 L1 a0, nth_error (view w) r = Some (G0, L1) /\ nth_error G0 id = Some a0 /\ length a = length a0 /\
     forall c v, nth_error a0 c = Some v -> nth_error a c = Some (add v (sum add zero (flat_map (fun q => contributions args (ops q) (TG id) c) (seq 0 (length (view w))))))).
  { clear - H L. intros r G L0 a Er Ea. destruct (nth_error_lt_some (view w) r) as ((G0, L1) & E0); [rewrite <- L; eapply nth_error_some_lt; eauto|].
    destruct (H r G0 L1 E0) as (G' & L' & E' & (LG & GG) & _). rewrite E' in Er; injection Er as -> ->. destruct (nth_error_lt_some G0 id) as (a0 & E1); [rewrite <- LG; eapply nth_error_some_lt; eauto|].
    destruct (GG id a0 E1) as (a' & E2 & La & Ha). assert (a' = a) by congruence. subst a'. exists G0, L1, a0. auto. }
  destruct (BACK r G L0 a Er Ea) as (G1 & L1 & a1 & X1 & X2 & X3 & X4). destruct (BACK r' G' L0' a' Er' Ea') as (G2 & L2 & a2 & Y1 & Y2 & Y3 & Y4).
  assert (a2 = a1) by (exact (eq_sym (AG _ _ _ _ _ _ _ _ X1 Y1 X2 Y2))). subst a2. apply nth_error_ext. intros c. destruct (nth_error a1 c) as [v|] eqn:Ev; [rewrite (X4 c v Ev), (Y4 c v Ev); reflexivity|].
  apply nth_error_None in Ev. rewrite (proj2 (nth_error_None a c)) by lia. rewrite (proj2 (nth_error_None a' c)) by lia. reflexivity.
Qed.
Print Assumptions C65_loops_keep_ranks_in_agreement.

(** Numbering with fetch_add: if the operations of a rank that add to component [c] of local
    array [id] all add one, then the results of these operations are the numbers from the old value on, each
    once. *)
Definition hits (args : list arg) (id c : nat) (o : @op Z) : bool :=
  match o with
  | OAdd j c' _ => match nth_error args j with Some (AAdd t) => target_eqb t (TL id) && (c' =? c) | _ => false end
  | ORead _ _ => false
  end.
Definition hit_number (args : list arg) (ops : list (@op Z)) (id c i : nat) : bool :=
  match nth_error ops i with Some o => hits args id c o | None => false end.

Lemma hits_contributions args id c l : (forall o, In o l -> hits args id c o = true -> exists j, o = OAdd j c 1%Z) ->
  sum Z.add 0%Z (contributions args l (TL id) c) = Z.of_nat (length (filter (hits args id c) l)).
Proof.
  induction l as [|o l IH]; intros H; [reflexivity|]. specialize (IH (fun o I => H o (or_intror I))). pose proof (H o (or_introl eq_refl)) as Ho. cbn [filter].
  unfold contributions in *. cbn [flat_map]. destruct o as [j c' v|j c']; [|exact IH]. cbn [hits] in *. destruct (nth_error args j) as [[t|t]|]; try exact IH.
  destruct (target_eqb t (TL id) && (c' =? c)); [|exact IH]. destruct (Ho eq_refl) as (j' & Q). injection Q as -> -> ->. cbn [app length]. unfold sum in *. cbn [fold_right]. rewrite IH. lia.
Qed.
Theorem C65_fetch_add_numbers : forall (w : list (@rank_arrays Z)) (e : env) args ops, idle w -> same_sizes (view w) -> env_ok e -> allowed (view w) (ELoop args ops) ->
  exists w' logs, execute Z.add 0%Z e args ops w = Some (w', logs) /\
    forall r G L log id a c v, nth_error (view w) r = Some (G, L) -> nth_error logs r = Some log -> nth_error L id = Some a -> nth_error a c = Some v ->
      (forall o, In o (ops r) -> hits args id c o = true -> exists j, o = OAdd j c 1%Z) ->
      Permutation (map snd (filter (fun p => hit_number args (ops r) id c (fst p)) log))
                  (map (fun i => Some (v + Z.of_nat i)%Z) (seq 0 (length (filter (hits args id c) (ops r))))).
Proof.
  intros w e args ops HI HS HE HA. assert (M : commutative_monoid Z.add 0%Z) by (constructor; intros; lia).
  destruct (execute_ok Z.add 0%Z M e args ops w HE HI HS HA) as (w' & logs & E & _ & (_ & _ & HR)). exists w', logs. split; [exact E|].
  intros r G L log id a c v Er El Ea Ev HO. destruct (HR r G L log Er El) as (order & PO & Ll & K).
  assert (NUM : forall i o, In (i, o) order -> nth_error (ops r) i = Some o).
  { intros i o I. apply (Permutation_in _ PO) in I. apply In_nth_error in I. destruct I as (k & Ek). apply in_combine_seq in Ek. destruct Ek as (-> & Ek). exact Ek. }
  assert (PL : length (filter (hits args id c) (ops r)) = length (filter (fun p => hits args id c (snd p)) order)).
  { rewrite <- (combine_seq_snd (ops r) 0) at 1.
    assert (FM : forall l : list (nat * op), length (filter (hits args id c) (map snd l)) = length (filter (fun p => hits args id c (snd p)) l)).
    { induction l as [|p l IH]; [reflexivity|]. cbn. destruct (hits args id c (snd p)); cbn; congruence. }
    rewrite FM. apply Permutation_length. symmetry. clear - PO. induction PO; cbn; try reflexivity.
    - destruct (hits args id c (snd x)); [constructor|]; assumption.
    - destruct (hits args id c (snd x)), (hits args id c (snd y)); try reflexivity. apply perm_swap.
    - etransitivity; eassumption. }
  assert (G0 : forall n, n <= length order -> map snd (filter (fun p => hit_number args (ops r) id c (fst p)) (firstn n log)) =
     map (fun i => Some (v + Z.of_nat i)%Z) (seq 0 (length (filter (fun p => hits args id c (snd p)) (firstn n order))))).
  { induction n as [|n IH]; intros Ln; [reflexivity|]. destruct (nth_error_lt_some order n) as ((i, o) & Eo); [lia|]. destruct (K n i o Eo) as (res & Eres & Hres).
    assert (S1 : forall (A : Type) (l : list A) x, nth_error l n = Some x -> firstn (S n) l = firstn n l ++ [x]).
    { clear. intros A l x. revert n. induction l as [|y l IH]; intros [|n] E; cbn in *; try discriminate; [congruence|]. f_equal. apply IH, E. }
    rewrite (S1 _ _ _ Eo), (S1 _ _ _ Eres), !filter_app, map_app, app_length. rewrite IH by lia. cbn [filter fst snd]. unfold hit_number at 1. rewrite (NUM i o) by (eapply nth_error_In; eauto).
    destruct (hits args id c o) eqn:Hh; cbn [map length snd]; [|rewrite Nat.add_0_r, app_nil_r; reflexivity].
    rewrite Nat.add_1_r, seq_S, map_app. f_equal. cbn [map]. f_equal. rewrite Nat.add_0_l.
    destruct o as [j c' x|]; [|discriminate]. cbn [hits] in Hh. destruct (nth_error args j) as [[t|t]|] eqn:Ej; try discriminate. destruct t as [id'|id']; cbn in Hh; [discriminate|].
    apply andb_prop in Hh. destruct Hh as (H1 & H2). apply Nat.eqb_eq in H1, H2. subst id' c'. destruct Hres as (a' & v' & Ea' & Ev' & ->). assert (a' = a) by congruence. subst a'. assert (v' = v) by congruence. subst v'.
    do 2 f_equal. rewrite hits_contributions.
    - f_equal. clear. generalize (firstn n order). induction l as [|p l IH]; [reflexivity|]. cbn. destruct (hits args id c (snd p)); cbn; congruence.
    - intros o I. apply in_map_iff in I. destruct I as ((i', o') & Q & I). cbn in Q. subst o'. apply HO.
      assert (I' : In (i', o) order) by (rewrite <- (firstn_skipn n order); apply in_or_app; left; exact I). eapply nth_error_In. apply (NUM _ _ I'). }
  specialize (G0 (length order) (Nat.le_refl _)). rewrite firstn_all in G0. rewrite <- Ll, firstn_all in G0. rewrite G0, PL. reflexivity.
Qed.
Print Assumptions C65_fetch_add_numbers.

(** ** A case: two ranks, a global array of two and a local array of one element. *)
Definition ca_w : list (@rank_arrays Z) := [RA [create_global 2 5%Z] [create_local 1 10%Z]; RA [create_global 2 5%Z] [create_local 1 20%Z]].
Definition ca_env : @env Z := Env (fun _ l => rev l) (fun _ _ => 77%Z) (fun _ _ => [9; 9; 9]%Z) (fun _ _ => [8]%Z) (fun r l => if r =? 0 then l else rev l).
Definition ca_args : list arg := [AAdd (TG 0); AAdd (TL 0); ARead (TG 0)].
Definition ca_ops (r : nat) : list (@op Z) := if r =? 0 then [OAdd 0 1 3; OAdd 1 0 1; OAdd 1 0 1; ORead 2 1]%Z else [OAdd 0 1 4; OAdd 0 0 2; OAdd 1 0 1]%Z.
Definition ca_history : list (env * event) := [(ca_env, ELoop ca_args ca_ops); (ca_env, EFillGlobal 1 0 0%Z); (ca_env, ESetLocal 0 0 [100]%Z); (ca_env, ELoop ca_args ca_ops)].
Example C65_case_monoid : commutative_monoid Z.add 0%Z.
Proof. constructor; intros; lia. Qed.
Example C65_case_hypotheses : idle ca_w /\ same_sizes (view ca_w) /\ Forall (fun ee => env_ok (fst ee) /\ allowed (view ca_w) (snd ee)) ca_history.
Proof.
  assert (EO : env_ok ca_env).
  { split; cbn; intros r l; [symmetry; apply Permutation_rev|]. destruct (r =? 0); [reflexivity|symmetry; apply Permutation_rev]. }
  assert (LO : allowed (view ca_w) (ELoop ca_args ca_ops)).
  { split; [|split].
    - intros [|[|r]] G L E; cbn in E; try discriminate; [| |destruct r; discriminate]; injection E as <- <-; (split; [intros id [I|[I|[I|[]]]]; try discriminate; injection I as <-; cbn; lia|]);
        intros o I; cbn in I; repeat (destruct I as [<-|I]; [cbn; eexists _, _; repeat split; cbn; try reflexivity; lia|]); destruct I.
    - intros [|[|[|i]]] [|[|[|j]]] id E1 E2; cbn in *; try discriminate; try reflexivity; try (destruct i; discriminate); destruct j; discriminate.
    - intros id _ [I|[I|[I|[]]]]; discriminate. }
  split; [|split].
  - intros x a [<-|[<-|[]]] [<-|[]]; reflexivity.
  - intros [|[|r]] [|[|r']] G L G' L' E E'; cbn in *; try (destruct r; discriminate); try (destruct r'; discriminate); injection E as <- <-; injection E' as <- <-; reflexivity.
  - constructor; [split; [exact EO|exact LO]|]. constructor; [split; [exact EO|cbn; eauto 8]|]. constructor; [split; [exact EO|]|].
    + cbn. do 3 eexists. split; [reflexivity|]. split; reflexivity.
    + constructor; [split; [exact EO|exact LO]|constructor].
Qed.
Example C65_case_values : option_map (fun r => view (fst r)) (exec_all Z.add 0%Z ca_w ca_history) = Some [([[9; 19]], [[102]]); ([[2; 7]], [[22]])]%Z.
Proof. reflexivity. Qed.

(** ** Findings *)
(** The same GlobalArray for adding in two arguments: the first [impl_post_loop_add] drops the
    stage buffer, the second aborts. *)
Theorem C65_array_added_twice_refuted : exists (e : @env Z) args ops w, env_ok e /\ idle w /\ same_sizes (view w) /\
  (forall r G L, nth_error (view w) r = Some (G, L) -> forall o, In o (ops r) -> op_allowed args G L o) /\ execute Z.add 0%Z e args ops w = None.
Proof.
  exists ca_env, [AAdd (TG 0); AAdd (TG 0)], (fun _ => [OAdd 0 0 1; OAdd 1 1 2]%Z), [RA [create_global 2 5%Z] []]. split; [split; cbn; intros r l; [symmetry; apply Permutation_rev|]; destruct (r =? 0); [reflexivity|symmetry; apply Permutation_rev]|].
  split; [intros x a [<-|[]] [<-|[]]; reflexivity|]. split; [|split].
  - intros [|r] [|r'] G L G' L' E E'; cbn in *; try (destruct r; discriminate); try (destruct r'; discriminate). injection E as <- <-; injection E' as <- <-; reflexivity.
  - intros [|r] G L E o I; cbn in E; [|destruct r; discriminate]. injection E as <- <-. cbn in I. destruct I as [<-|[<-|[]]]; cbn; eexists _, _; repeat split; cbn; try reflexivity; lia.
  - reflexivity.
Qed.
Print Assumptions C65_array_added_twice_refuted.

(** A loop submitted cell by cell before one wait, as the assertion in particle_loop.hpp
    L158-160 allows: each submit starts a new stage buffer, and what the kernels of the
    earlier cells added is lost. *)
Theorem C65_submit_by_cells_refuted : ~ (forall (e : @env Z) args cell0 cell1 w s0 s1 w',
  env_ok e -> idle w -> same_sizes (view w) -> allowed (view w) (ELoop args (fun r => cell0 r ++ cell1 r)) ->
  submit Z.add 0%Z e args cell0 w = Some s0 -> submit Z.add 0%Z e args cell1 (map fst s0) = Some s1 -> wait Z.add 0%Z e args (map fst s1) = Some w' ->
  after_loop Z.add 0%Z args (fun r => cell0 r ++ cell1 r) (view w) (view w')).
Proof.
  intros H. specialize (H ca_env [AAdd (TG 0)] (fun _ => [OAdd 0 0 3%Z]) (fun _ => [OAdd 0 0 4%Z]) [RA [create_global 1 0%Z] []] [(RA [GA [0%Z] (Some [3; 9; 9]%Z)] [], [(0, None)])] [(RA [GA [0%Z] (Some [4; 9; 9]%Z)] [], [(0, None)])] [RA [GA [4%Z] None] []]).
  assert (A : after_loop Z.add 0%Z [AAdd (TG 0)] (fun _ => [OAdd 0 0 3%Z] ++ [OAdd 0 0 4%Z]) (view [RA [create_global 1 0%Z] []]) (view [RA [GA [4%Z] None] []])).
  { apply H; try reflexivity.
    - split; cbn; intros r l; [symmetry; apply Permutation_rev|]; destruct (r =? 0); [reflexivity|symmetry; apply Permutation_rev].
    - intros x a [<-|[]] [<-|[]]; reflexivity.
    - intros [|r] [|r'] G L G' L' E E'; cbn in *; try (destruct r; discriminate); try (destruct r'; discriminate). injection E as <- <-; injection E' as <- <-; reflexivity.
    - split; [|split].
      + intros [|r] G L E; cbn in E; [|destruct r; discriminate]. injection E as <- <-. split; [intros id [I|[]]; injection I as <-; cbn; lia|].
        intros o [<-|[<-|[]]]; cbn; eexists _, _; repeat split; cbn; try reflexivity; lia.
      + intros [|i] [|j] id E1 E2; cbn in *; try reflexivity; try (destruct i; discriminate); destruct j; discriminate.
      + intros id [I|[]]; discriminate. }
  destruct A as (_ & A). destruct (A 0 _ _ eq_refl) as (G' & L' & E & (_ & GG) & _). cbn in E. injection E as <- <-. destruct (GG 0 _ eq_refl) as (a' & Ea & _ & Ha). cbn in Ea. injection Ea as <-. specialize (Ha 0 _ eq_refl). discriminate Ha.
Qed.
Print Assumptions C65_submit_by_cells_refuted.
