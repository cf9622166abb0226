(** C75: points held by other ranks. *)
From Coq Require Import List Arith ZArith Bool Permutation Lia.
Import ListNotations.
From Verif Require Import Base MHC_Model MHC_Spec MHC_Props MHCmsg_Proofs Pack_Proofs Quad_Model Quad_Spec QuadFin_Proofs QuadGet_Proofs QuadCalls_Proofs.
Local Open Scope nat_scope.

(** After the points have been added, every sequence of calls returns what a table of the values of the points says. *)
Theorem C75_points : forall (P T : Type) (zero : T) (env : nat -> qenv T) (find : remote) (pts : list (list P)) (moved : list (list (qpart P T))),
  (forall r, device_ok (e_dev (env r))) -> finds (length pts) find -> moves zero pts moved ->
  exists w, finalise env find pts moved = Some w /\
    forall cs, (forall c, In c cs -> call_ok pts moved c) -> calls zero w cs = Some (spec_calls zero pts moved cs).
Proof.
  intros P T zero env find pts moved Hd Hf Hm. destruct (finalise_ok zero pts moved Hm env find Hd Hf) as (w & E & G). exists w. split; [exact E|]. intros cs Hc.
  destruct (found_ok pts moved env find Hf) as (_ & F). destruct (steps_ok zero pts moved Hm _ _ (fun r L => proj1 (F r L)) (fun r s L => proj1 (proj2 (F r L)) s) cs _ w [] G) as (w' & E' & _); [intros r i n _; apply repeat_length|exact Hc|].
  unfold calls. rewrite E'. reflexivity.
Qed.
Print Assumptions C75_points.

(** get with two components or more fails on all ranks as soon as one point is held by another rank than the one which added it. *)
Theorem C75_get_refuted : forall (P T : Type) (zero : T) (env : nat -> qenv T) (find : remote) (pts : list (list P)) (moved : list (list (qpart P T))),
  (forall r, device_ok (e_dev (env r))) -> finds (length pts) find -> moves zero pts moved ->
  forall w, finalise env find pts moved = Some w ->
  forall cs env' n r l i, (forall c, In c cs -> call_ok pts moved c) -> (forall r, device_ok (e_dev (env' r))) -> components_ok n -> n <> 1 ->
    nth_error pts r = Some l -> i < length l -> at_home moved r i = false -> calls zero w (cs ++ [Get env' n]) = None.
Proof.
  intros P T zero env find pts moved Hd Hf Hm w Ew cs env' n r l i Hc Hd' Hn N1 El Li Hh. destruct (finalise_ok zero pts moved Hm env find Hd Hf) as (w0 & E & G). assert (w0 = w) by congruence. subst w0.
  destruct (found_ok pts moved env find Hf) as (_ & F). destruct (steps_ok zero pts moved Hm _ _ (fun r L => proj1 (F r L)) (fun r s L => proj1 (proj2 (F r L)) s) cs _ w [] G) as (w' & E' & G' & T'); [intros r' i' n' _; apply repeat_length|exact Hc|].
  assert (Lr : r < length pts) by (apply nth_error_Some; congruence). rewrite <- (nth_error_nth _ _ [] El) in Li.
  unfold calls. rewrite foldM_app, E'. cbn [obind foldM step fst snd]. rewrite (get_none zero pts moved _ _ (Lmoved zero pts moved Hm) (Uniq zero pts moved Hm) (Valid zero pts moved Hm) _ n T' Hn env' w' r G' Hd' N1 Lr); [reflexivity|].
  apply (arriving_away zero pts moved Hm _ _ (fun r s L => proj1 (proj2 (F r L)) s) w' _ r i G' Lr Li Hh).
Qed.
Print Assumptions C75_get_refuted.

(** set, then get: the values given to set come back if no point is held by another rank ... *)
Theorem C75_set_get : forall (P T : Type) (zero : T) (env : nat -> qenv T) (find : remote) (pts : list (list P)) (moved : list (list (qpart P T))),
  (forall r, device_ok (e_dev (env r))) -> finds (length pts) find -> moves zero pts moved -> all_at_home pts moved ->
  forall n inputs, components_ok n -> Forall2 (fun l inp => length inp = length l * n) pts inputs ->
  exists w, finalise env find pts moved = Some w /\ calls zero w [Set_ env n inputs; Get env n] = Some [inputs].
Proof.
  intros P T zero env find pts moved Hd Hf Hm Hh n inputs Hn HF. destruct (C75_points P T zero env find pts moved Hd Hf Hm) as (w & E & H). exists w. split; [exact E|]. assert (Li : length inputs = length pts) by (clear -HF; induction HF; cbn; congruence).
  assert (HL : forall r l inp, nth_error pts r = Some l -> nth_error inputs r = Some inp -> length inp = length l * n). { clear -HF. induction HF as [|a b la lb H1 H2 IH]; intros [|r] l inp E1 E2; try discriminate; cbn in E1, E2; [congruence|eauto]. }
  rewrite H. 2:{ intros c [<-|[<-|[]]]; cbn; [split; [exact Hn|]; split; [exact Li|]; intros r l inp E1 E2; rewrite (HL r l inp E1 E2); reflexivity|auto]. }
  f_equal. unfold spec_calls. cbn [fold_left spec_step fst snd app]. f_equal. rewrite Nat.eqb_refl. cbn [andb].
  apply nth_error_ext. intros r. rewrite nth_error_map. assert (EC : nth_error (combine (seq 0 (length pts)) pts) r = match nth_error pts r with Some l => Some (r, l) | None => None end).
  { assert (X : forall (q : list (list P)) a r, nth_error (combine (seq a (length q)) q) r = match nth_error q r with Some l => Some (a + r, l) | None => None end). { clear. induction q as [|x q IH]; intros a [|r]; cbn; try reflexivity; [rewrite Nat.add_0_r; reflexivity|]. rewrite IH. destruct (nth_error q r); [f_equal; f_equal; lia|reflexivity]. } apply (X pts 0 r). }
  rewrite EC. destruct (nth_error pts r) as [l|] eqn:El; cbn [option_map fst snd].
  - destruct (nth_error_lt_some inputs r) as (inp & Ei); [rewrite Li; apply nth_error_Some; congruence|]. rewrite Ei. f_equal. rewrite (nth_error_nth _ _ _ Ei). pose proof (HL r l inp El Ei) as L.
    pose proof (blocks_eq n (fun i => if at_home moved r i then firstn n (skipn (i * n) inp) else repeat zero n) (seq 0 (length l)) inp) as X. rewrite seq_length in X. rewrite <- X; [apply firstn_all2; lia|apply Hn| |lia|].
    + intros i I. apply in_seq in I. rewrite (Hh r l i El) by lia. rewrite firstn_length, skipn_length. nia.
    + intros j i cx Ej Lc. rewrite nth_error_seq in Ej. destruct (Nat.ltb_spec j (length l)) as [Lj|Lj]; [|discriminate]. inversion Ej; subst i. rewrite (Hh r l _ El) by lia. cbn [plus]. rewrite nth_error_firstn, nth_error_skipn. destruct (Nat.ltb_spec cx n); [reflexivity|lia].
  - symmetry. apply nth_error_None. rewrite Li. apply nth_error_None, El.
Qed.
Print Assumptions C75_set_get.
(** ... a point held by another rank does not receive its value. *)
Theorem C75_set_refuted : forall (P T : Type) (zero : T) (env : nat -> qenv T) (find : remote) (pts : list (list P)) (moved : list (list (qpart P T))),
  (forall r, device_ok (e_dev (env r))) -> finds (length pts) find -> moves zero pts moved ->
  forall inputs, Forall2 (fun l inp => length inp = length l) pts inputs ->
  exists w outs, finalise env find pts moved = Some w /\ calls zero w [Set_ env 1 inputs; Get env 1] = Some [outs] /\
    forall r l i, nth_error pts r = Some l -> i < length l -> at_home moved r i = false -> exists out, nth_error outs r = Some out /\ nth_error out i = Some zero.
Proof.
  intros P T zero env find pts moved Hd Hf Hm inputs HF. destruct (C75_points P T zero env find pts moved Hd Hf Hm) as (w & E & H). exists w. assert (Li : length inputs = length pts) by (clear -HF; induction HF; cbn; congruence).
  assert (HL : forall r l inp, nth_error pts r = Some l -> nth_error inputs r = Some inp -> length inp = length l). { clear -HF. induction HF as [|a b la lb H1 H2 IH]; intros [|r] l inp E1 E2; try discriminate; cbn in E1, E2; [congruence|eauto]. }
  eexists. split; [exact E|]. assert (Hn : components_ok 1) by (unfold components_ok; split; [auto|apply Nat.ltb_lt; reflexivity]). split.
  - rewrite H. 2:{ intros c [<-|[<-|[]]]; cbn; [split; [exact Hn|]; split; [exact Li|]; intros r l inp E1 E2; rewrite (HL r l inp E1 E2); lia|auto]. } unfold spec_calls. cbn [fold_left spec_step fst snd app]. reflexivity.
  - intros r l i El Lx Hh. rewrite nth_error_map. assert (EC : nth_error (combine (seq 0 (length pts)) pts) r = Some (r, l)).
    { assert (X : forall (q : list (list P)) a r, nth_error q r = Some l -> nth_error (combine (seq a (length q)) q) r = Some (a + r, l)). { clear. induction q as [|x q IH]; intros a [|r] E; cbn in *; try discriminate; [inversion E; rewrite Nat.add_0_r; reflexivity|]. rewrite (IH (S a) r E). f_equal. f_equal. lia. } apply (X pts 0 r El). }
    rewrite EC. cbn [option_map fst snd]. eexists. split; [reflexivity|]. cbn [Nat.eqb andb].
    destruct (nth_error_lt_some inputs r) as (inp & Ei); [rewrite Li; apply nth_error_Some; congruence|]. rewrite (nth_error_nth _ _ _ Ei). pose proof (HL r l inp El Ei) as L.
    replace i with (i * 1 + 0) by lia. rewrite (flat_map_const_nth _ 1) with (a := i); [rewrite Hh; reflexivity| | |lia].
    + intros j I. apply in_seq in I. destruct (at_home moved r j); [|reflexivity]. rewrite firstn_length, skipn_length. lia.
    + rewrite nth_error_seq. destruct (Nat.ltb_spec i (length l)); [reflexivity|lia].
Qed.
Print Assumptions C75_set_refuted.

(** ** An example: three ranks; rank 0 holds its second point and both points of rank 1, rank 2 the other point of rank 0; rank 2 adds none. *)
Definition dev75 : device := {| ord := fun A k l => if Nat.even k then l else rev l; junk := fun _ _ => 77%Z; local_size := 2; max_compute_units := 3 |}.
Definition env75 (r : nat) : qenv nat := mk_qenv dev75 (fun i => (9, i)) (fun i => 50 + i) (fun i => 90 + i).
Definition pts75 : list (list nat) := [[100; 101]; [110; 111]; []].
Definition part75 (x r i : nat) : qpart nat nat := mk_qpart x r i 0 (fun n => repeat 0 n).
Definition moved75 : list (list (qpart nat nat)) := [[part75 111 1 1; part75 101 0 1; part75 110 1 0]; []; [part75 100 0 0]].
Definition calls75 : list (call nat nat) :=
  [Write 1 (fun x r i => [x + 1000]); Get env75 1; Set_ env75 1 [[5; 6]; [7; 8]; []]; Get env75 1; Set_ env75 2 [[1; 2; 3; 4]; [5; 6; 7; 8]; []]; Write 1 (fun x r i => [x * 10 + i]); Get env75 1].
Lemma dev75_ok : device_ok dev75.
Proof. split; [|cbn; lia]. intros A k l. cbn. destruct (Nat.even k); [apply Permutation_refl|symmetry; apply Permutation_rev]. Qed.
Lemma moves75 : moves 0 pts75 moved75.
Proof.
  split; [reflexivity|]. cbn. change (fun n => repeat 0 n) with (fun n => repeat 0 n). apply Permutation_sym.
  transitivity [part75 101 0 1; part75 111 1 1; part75 110 1 0; part75 100 0 0]; [|apply perm_swap].
  apply perm_skip. change (mk_qpart 100 0 0 0 (fun n => repeat 0 n)) with (part75 100 0 0). change (mk_qpart 111 1 1 0 (fun n => repeat 0 n)) with (part75 111 1 1). change (mk_qpart 110 1 0 0 (fun n => repeat 0 n)) with (part75 110 1 0).
  apply (Permutation_cons_append [part75 111 1 1; part75 110 1 0] (part75 100 0 0)).
Qed.
Lemma calls75_ok : forall c, In c calls75 -> call_ok pts75 moved75 c.
Proof.
  assert (H1 : components_ok 1) by (unfold components_ok; split; [auto|apply Nat.ltb_lt; reflexivity]). assert (H2 : components_ok 2) by (unfold components_ok; split; [auto|apply Nat.ltb_lt; reflexivity]).
  assert (G : call_ok pts75 moved75 (Get env75 1)) by (split; [exact H1|]; split; [intros r; apply dev75_ok|left; reflexivity]).
  intros c [<-|[<-|[<-|[<-|[<-|[<-|[<-|[]]]]]]]]; try exact G; try (split; [assumption|reflexivity]);
    (split; [assumption|]; split; [reflexivity|]; intros [|[|[|[|r]]]] l inp E1 E2; cbn in E1, E2; try discriminate; inversion E1; inversion E2; cbn; lia).
Qed.
Example C75_example_hyps : (forall r, device_ok (e_dev (env75 r))) /\ finds 3 find_down /\ moves 0 pts75 moved75 /\ (forall c, In c calls75 -> call_ok pts75 moved75 c) /\
  at_home moved75 0 1 = true /\ at_home moved75 0 0 = false /\ at_home moved75 1 0 = false.
Proof. split; [intros r; apply dev75_ok|]. split; [apply find_down_finds|]. split; [apply moves75|]. split; [apply calls75_ok|]. repeat split. Qed.
Example C75_example : exists w, finalise env75 find_down pts75 moved75 = Some w /\
  calls 0 w calls75 = Some [[[1100; 1101]; [1110; 1111]; []]; [[1100; 6]; [1110; 1111]; []]; [[1000; 1011]; [1100; 1111]; []]] /\
  calls 0 w [Get env75 2] = None.
Proof. destruct (C75_points nat nat 0 env75 find_down pts75 moved75 (fun r => dev75_ok) (find_down_finds 3) moves75) as (w & E & H). exists w. split; [exact E|]. split; [rewrite (H calls75 calls75_ok); vm_compute; reflexivity|].
  refine (C75_get_refuted nat nat 0 env75 find_down pts75 moved75 (fun r => dev75_ok) (find_down_finds 3) moves75 w E [] env75 2 0 [100; 101] 0 _ (fun r => dev75_ok) _ _ eq_refl _ eq_refl); [intros c []|unfold components_ok; split; [auto|apply Nat.ltb_lt; reflexivity]|discriminate|cbn; lia]. Qed.
(** A case in which every point is at home. *)
Definition home75 : list (list (qpart nat nat)) := [[part75 101 0 1; part75 100 0 0]; [part75 111 1 1; part75 110 1 0]; []].
Example C75_example_home : moves 0 pts75 home75 /\ all_at_home pts75 home75 /\ components_ok 2 /\ Forall2 (fun l inp => length inp = length l * 2) pts75 [[1; 2; 3; 4]; [5; 6; 7; 8]; []] /\
  exists w, finalise env75 find_down pts75 home75 = Some w /\ calls 0 w [Set_ env75 2 [[1; 2; 3; 4]; [5; 6; 7; 8]; []]; Get env75 2] = Some [[[1; 2; 3; 4]; [5; 6; 7; 8]; []]].
Proof.
  assert (M : moves 0 pts75 home75) by (split; [reflexivity|apply Permutation_refl]). assert (A : all_at_home pts75 home75). { intros [|[|[|[|r]]]] l i E L; cbn in E; try discriminate; inversion E; subst l; cbn in L; destruct i as [|[|i]]; try lia; reflexivity. }
  assert (C : components_ok 2) by (unfold components_ok; split; [auto|apply Nat.ltb_lt; reflexivity]). assert (F : Forall2 (fun l inp => length inp = length l * 2) pts75 [[1; 2; 3; 4]; [5; 6; 7; 8]; []]) by (repeat constructor).
  split; [exact M|]. split; [exact A|]. split; [exact C|]. split; [exact F|]. apply (C75_set_get nat nat 0 env75 find_down pts75 home75 (fun r => dev75_ok) (find_down_finds 3) M A 2 _ C F).
Qed.
