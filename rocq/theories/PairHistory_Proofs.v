(** Proofs about histories of a CellwisePairListSimple. *)
From Coq Require Import List Arith Lia ZArith Bool Permutation.
Import ListNotations.
From Verif Require Import Base Kernel Group_Model PairList_Model PairList_Spec PairHost_Proofs PairSimple_Proofs PairSet_Proofs.

Lemma mapM_nth_seq {A} (f : nat -> option A) P n : length P = n ->
  (forall i q, nth_error P i = Some q -> f i = Some q) -> mapM f (seq 0 n) = Some P.
Proof.
  intros L H.
  assert (G : forall l a, (forall i q, nth_error l i = Some q -> f (a + i) = Some q) -> mapM f (seq a (length l)) = Some l).
  { induction l as [|x l IH]; intros a Hl; cbn [length seq mapM]; auto.
    rewrite (eq_trans (f_equal f (eq_sym (Nat.add_0_r a))) (Hl 0 x eq_refl)). cbn [obind]. rewrite IH; auto.
    intros i q Hq. replace (S a + i) with (a + S i) by lia. apply Hl. auto. }
  subst n. apply (G P 0). auto.
Qed.

Lemma firstn_S_snoc {A} (l : list A) n x : nth_error l n = Some x -> firstn (S n) l = firstn n l ++ [x].
Proof.
  revert n. induction l as [|y l IH]; intros [|n] H; try discriminate.
  - injection H as ->. auto.
  - cbn [nth_error] in H. cbn [firstn app] in *. f_equal. apply (IH n H).
Qed.

Section History.
  Context (d : device) (cc : nat).
  Hypothesis Hd : device_ok d.

  Lemma before_ext W W' n : (forall c, c < n -> W c = W' c) -> before W n = before W' n.
  Proof.
    intros H. unfold before. f_equal. apply map_ext_in. intros x Hx. apply in_seq in Hx. rewrite H; auto. lia.
  Qed.

  Lemma rep_ext s F W W' : (forall c, c < cc -> W c = W' c) -> rep cc s F W -> rep cc s F W'.
  Proof.
    intros H R.
    assert (Hb : forall c, c <= cc -> before W' c = before W c).
    { intros c Hc. apply before_ext. intros x Hx. symmetry. apply H. lia. }
    destruct R as [R1 R2 R3 R4 R5 R6 R7 R8 R9 R10 R11]. constructor.
    - intros c Hc. rewrite <- H; auto.
    - intros c Hc. rewrite <- H; auto.
    - intros c w P Hc. rewrite <- H by auto. auto.
    - intros c w P Hc. rewrite <- H by auto. auto.
    - intros c w Hc. rewrite <- H by auto. auto.
    - intros c w Hc. rewrite <- H, Hb by (auto; lia). auto.
    - intros c p q Hc. rewrite <- H by auto. auto.
    - intros c Hc. rewrite <- H by auto. auto.
    - intros [c [Hc Hn]]. apply R9. exists c. rewrite H by auto. auto.
    - rewrite R10, Hb; auto.
    - intros Q c Hc. rewrite <- H by auto. auto.
  Qed.

  Lemma pushable_ext s W W' : (forall c, c < cc -> W c = W' c) -> pushable cc s W -> pushable cc s W'.
  Proof. intros H [P1 P2]. constructor; auto. intros c Hc. rewrite <- H; auto. Qed.

  (** ** Reading a list *)
  Lemma wave_read s F W c w P i q : rep cc s F W -> c < cc -> nth_error (W c) w = Some P -> nth_error P i = Some q ->
    get_particle_index cc 0 s w c i = Some (fst q) /\ get_particle_index cc 1 s w c i = Some (snd q) /\
    get_pair_linear_index cc s w c i = Some (before W c + length (concat (firstn w (W c))) + i).
  Proof.
    intros R Hc HP Hq. pose proof (nth_error_some_lt _ _ _ HP) as Hw. unfold get_particle_index, get_pair_linear_index, rd.
    rewrite (r_wo cc s F W R c w Hc Hw), (r_es cc s F W R c w Hc Hw). cbn [obind].
    assert (Hp : nth_error (concat (W c)) (length (concat (firstn w (W c))) + i) = Some q).
    { rewrite <- (firstn_skipn w (W c)) at 1. rewrite concat_app, nth_error_app2 by lia.
      replace (length (concat (firstn w (W c))) + i - length (concat (firstn w (W c)))) with i by lia.
      assert (E : nth_error (skipn w (W c)) 0 = Some P) by (rewrite nth_error_skipn, Nat.add_0_r; auto).
      destruct (skipn w (W c)) as [|x l]; [discriminate|]. injection E as ->. cbn [concat]. rewrite nth_error_app1; auto.
      eapply nth_error_some_lt; eauto. }
    destruct (r_rows cc s F W R c _ q Hc Hp) as [A B]. auto.
  Qed.

  Lemma device_waves_ok s F W c : rep cc s F W -> c < cc -> device_waves cc s c = Some (W c).
  Proof.
    intros R Hc. unfold device_waves, get_num_waves, rd. rewrite (r_dw cc s F W R c Hc). cbn [obind].
    apply mapM_nth_seq; auto. intros w P HP. unfold get_num_pairs, rd. rewrite (r_dp cc s F W R c w P Hc HP). cbn [obind].
    apply mapM_nth_seq; auto. intros i q Hq. destruct (wave_read s F W c w P i q R Hc HP Hq) as [A [B _]]. rewrite A, B. cbn.
    destruct q; auto.
  Qed.

  Lemma get_host_ok s F W : rep cc s F W -> get_host_pair_list cc s = Some (map W (seq 0 cc)).
  Proof.
    intros R. unfold get_host_pair_list. apply mapM_some. intros c Hc. apply in_seq in Hc. destruct Hc as [_ Hc]. cbn in Hc.
    unfold rd. rewrite (r_hw cc s F W R c Hc). cbn [obind].
    match goal with |- context [foldM ?fn ?s0 ?l] =>
    destruct (foldM_ind fn (fun pre st => fst st = firstn (length pre) (W c) /\ snd st = length (concat (firstn (length pre) (W c)))) l s0)
      as [[out idx] [E [A B]]] end.
    - auto.
    - intros pre w post [out idx] Es [A B]. destruct (seq_pre _ _ _ _ Es) as [-> [Hw _]]. cbn [fst snd] in *.
      destruct (nth_error_lt_some (W c) (length pre) Hw) as [P HP]. rewrite (r_hp cc s F W R c _ P Hc HP). cbn [obind].
      rewrite (mapM_nth_seq _ P); auto.
      + cbn [obind]. eexists. split; [reflexivity|]. cbn [fst snd]. rewrite app_length. cbn [length]. replace (length pre + 1) with (S (length pre)) by lia.
        rewrite (concat_firstn_S _ _ _ HP), app_length, <- B. split; auto. subst out.
        symmetry. apply firstn_S_snoc. auto.
      + intros i q Hq. subst idx.
        assert (Hp : nth_error (concat (W c)) (length (concat (firstn (length pre) (W c))) + i) = Some q).
        { rewrite <- (firstn_skipn (S (length pre)) (W c)) at 1. rewrite concat_app, (concat_firstn_S _ _ _ HP), <- app_assoc.
          rewrite nth_error_app2 by lia. rewrite nth_error_app1; [|apply nth_error_some_lt in Hq; lia].
          rewrite <- Hq. f_equal. lia. }
        destruct (r_rows cc s F W R c _ q Hc Hp) as [Q1 Q2]. fold (rd3 (d_pair_list s) c 0 (length (concat (firstn (length pre) (W c))) + i)).
        rewrite Q1, Q2. cbn. destruct q; auto.
    - cbn [fst snd] in *. rewrite seq_length, firstn_all in A. rewrite E. cbn. congruence.
  Qed.

  (** ** Histories *)
  Record state_ok (s : simple) (was_set : bool) (F : bool) (C : contents) : Prop := {
    so_base : base cc s;
    so_len : length C = cc;
    so_rep : rep cc s F (fun c => nth c C []);
    so_push : was_set = false -> pushable cc s (fun c => nth c C [])
  }.

  Definition fill (b : bool) (o : op) : bool :=
    match o with Push [] _ _ => b | Push _ _ _ | SetHost _ => true | Clear => false end.
  Definition set_after (b : bool) (o : op) : bool :=
    match o with Push _ _ _ => b | SetHost _ => true | Clear => false end.

  Lemma nth_map_seq {A} (f : nat -> A) n c z : c < n -> nth c (map f (seq 0 n)) z = f c.
  Proof. intros H. apply nth_error_nth. rewrite nth_error_map_seq. destruct (Nat.ltb_spec c n); [auto|lia]. Qed.

  Lemma step_ok s b F C k o s' : state_ok s b F C -> step d cc s (k, o) = Some s' ->
    (match o with Push _ _ _ => b = false | _ => True end) ->
    state_ok s' (set_after b o) (fill F o) (after cc C o).
  Proof.
    intros [B L R P] E Hb. destruct o as [c i j|ps|]; cbn [step fst snd] in E.
    - subst b. specialize (P eq_refl). destruct (push_valid d cc k s c i j s' E) as [Li [Lj [Lh Hc]]].
      destruct c as [|x c]; [|set (xc := x :: c) in *].
      + destruct i; [|discriminate]. destruct j; [|discriminate]. rewrite (push_empty d cc k s [] []) in E by auto. injection E as <-.
        cbn [after fill set_after]. destruct B, R, P. split; auto; constructor; auto.
      + destruct (push_ok d cc Hd k s F (fun c => nth c C []) xc i j B R P) as [s2 [E2 [B2 [R2 [P2 _]]]]]; auto; try (apply Lh); try discriminate.
        rewrite E2 in E. injection E as ->. change (fill F (Push xc i j)) with true. cbn [set_after].
        change (after cc C (Push xc i j)) with (map (fun cell => [concat (nth cell C []) ++ new_pairs xc i j cell]) (seq 0 cc)).
        assert (Q : forall c0, c0 < cc -> pushed_waves (fun c => nth c C []) xc i j c0 =
           nth c0 (map (fun cell => [concat (nth cell C []) ++ new_pairs xc i j cell]) (seq 0 cc)) []).
        { intros c0 H0. rewrite nth_map_seq by auto. auto. }
        constructor; auto.
        * rewrite map_length, seq_length. auto.
        * eapply rep_ext; [exact Q|exact R2].
        * intros _. eapply pushable_ext; [exact Q|exact P2].
    - unfold step in E. cbn [fst snd] in E. destruct (host_pushes cc ps) as [h|] eqn:Eh; [|discriminate]. cbn [obind] in E.
      destruct (host_pushes_valid _ _ _ Eh) as [_ I].
      destruct (set_ok d cc (map_wave_to_pairs h) (host_waves h) (host_map_ok_intro h _ I) k s B) as [s2 [E2 [B2 R2]]].
      rewrite E2 in E. injection E as ->. cbn [after fill set_after]. rewrite Eh. constructor; auto.
      + rewrite map_length, seq_length. auto.
      + eapply rep_ext; [|exact R2]. intros c Hc. rewrite nth_map_seq; auto.
      + discriminate.
    - unfold step in E. cbn [fst snd] in E. destruct (clear_ok d cc Hd k s B) as [s2 [E2 [B2 [R2 [P2 _]]]]]. rewrite E2 in E. injection E as ->.
      cbn [after fill set_after].
      assert (Q : forall c, c < cc -> ([] : list (list (nat * nat))) = nth c (repeat [] cc) []).
      { intros c Hc. symmetry. apply nth_error_nth. apply nth_error_repeat; auto. }
      constructor; auto.
      + apply repeat_length.
      + eapply rep_ext; [exact Q|exact R2].
      + intros _. eapply pushable_ext; [exact Q|exact P2].
  Qed.

  Lemma run_from s os : forall b F C s', state_ok s b F C -> foldM (step d cc) s os = Some s' -> disciplined b os = true ->
    exists b', state_ok s' b' (fold_left (fun b o => fill b (snd o)) os F) (fold_left (fun C o => after cc C (snd o)) os C).
  Proof.
    revert s. induction os as [|[k o] os IH]; intros s b F C s' Hs E D; cbn [foldM] in E.
    - injection E as <-. exists b. auto.
    - destruct (step d cc s (k, o)) as [s1|] eqn:E1; [|discriminate]. cbn [obind] in E. cbn [fold_left snd].
      apply (IH s1 (set_after b o) _ _ s'); auto.
      + eapply step_ok; eauto. destruct o; auto. cbn in D. apply andb_true_iff in D as [D _]. destruct b; auto; discriminate.
      + destruct o; cbn in *; auto. apply andb_true_iff in D. tauto.
  Qed.

  Lemma run_ok k os s : run d cc k os = Some s -> disciplined false os = true ->
    exists b, state_ok s b (filled os) (expected cc os).
  Proof.
    unfold run. intros E D. destruct (create_ok d cc Hd k) as [s0 [E0 [B [R [P _]]]]]. rewrite E0 in E. cbn [obind] in E.
    apply (run_from s0 os false false (repeat [] cc) s); auto.
    assert (Q : forall c, c < cc -> ([] : list (list (nat * nat))) = nth c (repeat [] cc) []).
    { intros c Hc. symmetry. apply nth_error_nth. apply nth_error_repeat; auto. }
    constructor; auto.
    - apply repeat_length.
    - eapply rep_ext; [exact Q|exact R].
    - intros _. eapply pushable_ext; [exact Q|exact P].
  Qed.

  (** ** Progress *)
  Lemma progress_from s os : forall b F C, state_ok s b F C ->
    (b = false -> length (h_pair_counts s) = length (d_pair_counts s)) ->
    (forall o, In o os -> valid_op cc (snd o)) ->
    (if b then forallb (fun o => match snd o with Push _ _ _ => false | _ => true end) os else pushes_first os) = true ->
    exists s', foldM (step d cc) s os = Some s'.
  Proof.
    revert s. induction os as [|[k o] os IH]; intros s b F C Hs Hl Hv D; cbn [foldM]; [eauto|].
    pose proof (Hv (k, o) (or_introl eq_refl)) as V. cbn [snd] in V.
    assert (Hv' : forall o, In o os -> valid_op cc (snd o)) by (intros; apply Hv; right; auto).
    destruct o as [c i j|ps|]; cbn [valid_op] in V.
    - destruct b; [discriminate|]. destruct V as [Li [Lj Hc]]. cbn [pushes_first] in D.
      destruct Hs as [B L R P]. specialize (P eq_refl). specialize (Hl eq_refl).
      assert (G : exists s1, step d cc s (k, Push c i j) = Some s1 /\ length (h_pair_counts s1) = length (d_pair_counts s1)).
      { unfold step. cbn [fst snd]. destruct c as [|x c].
        - rewrite push_empty by auto. exists (mode1 s). auto.
        - destruct (push_ok d cc Hd k s F _ (x :: c) i j B R P) as [s1 [E1 [_ [_ [_ [L1 L2]]]]]]; auto; try discriminate.
          exists s1. split; auto. congruence. }
      destruct G as [s1 [E1 L1]]. rewrite E1. cbn [obind].
      assert (So : state_ok s false F C) by (constructor; auto).
      pose proof (step_ok s false F C k _ s1 So E1 eq_refl) as H1. cbn [set_after] in H1. eapply IH; eauto.
    - destruct (host_pushes_inv cc ps V) as [h [Eh I]]. 
      destruct (set_ok d cc (map_wave_to_pairs h) (host_waves h) (host_map_ok_intro h _ I) k s (so_base _ _ _ _ Hs)) as [s1 [E1 _]].
      assert (E : step d cc s (k, SetHost ps) = Some s1). { unfold step. cbn [fst snd]. rewrite Eh. cbn [obind]. auto. }
      rewrite E. cbn [obind].
      pose proof (step_ok s b F C k _ s1 Hs E Logic.I) as H1. cbn [set_after] in H1.
      apply (IH s1 true _ _ H1); auto; [discriminate|]. destruct b; cbn in D; auto.
    - destruct (clear_ok d cc Hd k s (so_base _ _ _ _ Hs)) as [s1 [E1 [B1 [R1 [P1 [L1 L2]]]]]].
      assert (E : step d cc s (k, Clear) = Some s1) by exact E1. rewrite E. cbn [obind].
      pose proof (step_ok s b F C k _ s1 Hs E Logic.I) as H1. cbn [set_after] in H1. destruct b.
      + apply (IH s1 true (fill F Clear) (after cc C Clear)); auto.
        * destruct H1. constructor; auto; discriminate.
        * discriminate.
      + apply (IH s1 false _ _ H1); auto. intros _. rewrite L1, L2. auto.
  Qed.

  Lemma progress k os : (forall o, In o os -> valid_op cc (snd o)) -> pushes_first os = true -> exists s, run d cc k os = Some s.
  Proof.
    intros Hv D. unfold run. destruct (create_ok d cc Hd k) as [s0 [E0 [B [R [P [L1 L2]]]]]]. rewrite E0. cbn [obind].
    assert (Q : forall c, c < cc -> ([] : list (list (nat * nat))) = nth c (repeat [] cc) []).
    { intros c Hc. symmetry. apply nth_error_nth. apply nth_error_repeat; auto. }
    apply (progress_from s0 os false false (repeat [] cc)); auto.
    - constructor; auto.
      + apply repeat_length.
      + eapply rep_ext; [exact Q|exact R].
      + intros _. eapply pushable_ext; [exact Q|exact P].
    - intros _. congruence.
  Qed.

  Lemma pushes_first_disciplined os : pushes_first os = true -> disciplined false os = true.
  Proof.
    assert (G : forall os b, forallb (fun o => match snd o with Push _ _ _ => false | _ => true end) os = true -> disciplined b os = true).
    { induction os0 as [|[k o] l IH]; intros b H; cbn in *; auto. apply andb_true_iff in H as [H1 H2]. destruct o; try discriminate; auto. }
    induction os as [|[k o] os IH]; cbn; auto. destruct o; cbn; auto.
  Qed.

  Lemma before_length C c : length C = cc -> c <= cc -> before (fun c => nth c C []) c = length (concat (concat (firstn c C))).
  Proof.
    intros L Hc. induction c as [|c IH]; auto. rewrite before_S, IH by lia.
    destruct (nth_error_lt_some C c) as [W HW]; [lia|]. rewrite (concat_firstn_S _ _ _ HW), concat_app, app_length.
    rewrite (nth_error_nth C c [] HW). auto.
  Qed.

  Lemma nth_concat2 {A} (C : list (list (list A))) c W w P i q :
    nth_error C c = Some W -> nth_error W w = Some P -> nth_error P i = Some q ->
    nth_error (concat (concat C)) (length (concat (concat (firstn c C))) + length (concat (firstn w W)) + i) = Some q.
  Proof.
    intros HC HW HP.
    assert (E : concat (concat C) = concat (concat (firstn c C)) ++ concat (firstn w W) ++ P ++ concat (skipn (S w) W) ++ concat (concat (skipn (S c) C))).
    { rewrite <- (firstn_skipn (S c) C) at 1. rewrite concat_app, (concat_firstn_S _ _ _ HC), !concat_app, <- app_assoc. f_equal.
      rewrite <- (firstn_skipn (S w) W) at 1. rewrite concat_app, (concat_firstn_S _ _ _ HW), <- !app_assoc. auto. }
    rewrite E. rewrite nth_error_app2 by lia. rewrite nth_error_app2 by lia. rewrite nth_error_app1.
    - rewrite <- HP. f_equal. lia.
    - apply nth_error_some_lt in HP. lia.
  Qed.

  Lemma pair_numbers k os s : run d cc k os = Some s -> disciplined false os = true ->
    (forall c W w P i q, nth_error (expected cc os) c = Some W -> nth_error W w = Some P -> nth_error P i = Some q ->
       exists n, get_pair_linear_index cc s w c i = Some n /\
         n = length (concat (concat (firstn c (expected cc os)))) + length (concat (firstn w W)) + i /\
         nth_error (concat (concat (expected cc os))) n = Some q) /\
    pair_count s = (if filled os then Z.of_nat (length (concat (concat (expected cc os)))) else -1)%Z.
  Proof.
    intros E D. destruct (run_ok k os s E D) as [b [B L R P]]. split.
    - intros c W w Q i q HC HW HP. eexists. split; [|split; [reflexivity|eapply nth_concat2; eauto]].
      assert (Hc : c < cc) by (rewrite <- L; eapply nth_error_some_lt; eauto).
      assert (Ew : nth c (expected cc os) [] = W) by (apply nth_error_nth; auto). 
      destruct (wave_read s _ _ c w Q i q R Hc) as [_ [_ G]]; [rewrite Ew; auto|auto|]. rewrite G, Ew, before_length by (auto; lia). auto.
    - rewrite (r_pc cc s _ _ R). rewrite before_length, firstn_all2 by (auto; lia). auto.
  Qed.
End History.
