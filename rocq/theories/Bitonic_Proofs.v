(** Lemmas about the eight element sort: the 0-1 principle. *)
From Coq Require Import List Arith Bool Permutation Lia.
Import ListNotations.
From Verif Require Import Base Kernel DeviceFn_Model DeviceFn_Spec Cas_Proofs.

(** The network on a block of eight. *)
Definition net {T} (ltb : T -> T -> bool) (l : list T) : option (list T) :=
  foldM (fun l stage => mapM (read_phase ltb stage l l) (seq 0 8)) l indices.

Definition ltB (a b : bool) : bool := negb a && b.

(** ** Booleans: all 256 inputs *)
Definition sorted8 (l : list bool) : bool :=
  forallb (fun i => forallb (fun j => negb (i <? j) || negb (ltB (nth j l false) (nth i l false))) (seq 0 8)) (seq 0 8).
Definition check8 (l : list bool) : bool :=
  match net ltB l with Some o => (length o =? 8) && sorted8 o | None => false end.

Fixpoint words (n : nat) : list (list bool) :=
  match n with 0 => [[]] | S n => map (cons true) (words n) ++ map (cons false) (words n) end.
Lemma words_all : forall n l, length l = n -> In l (words n).
Proof.
  induction n as [|n IH]; intros [|b l] H; try discriminate; cbn; auto.
  apply in_or_app. destruct b; [left|right]; apply in_map, IH; auto.
Qed.

Lemma check_words : forallb check8 (words 8) = true.
Proof. vm_cast_no_check (eq_refl true). Qed.

Lemma list8 {A} (l : list A) : length l = 8 -> exists a b c d e f g h, l = [a; b; c; d; e; f; g; h].
Proof. do 8 (destruct l as [|? l]; [discriminate|]). destruct l; [|discriminate]. intros _. repeat eexists. Qed.

Lemma net_bool l : length l = 8 -> exists o, net ltB l = Some o /\ ascending ltB o.
Proof.
  intros H. pose proof check_words as C. rewrite forallb_forall in C.
  specialize (C l (words_all 8 l H)). unfold check8 in C.
  destruct (net ltB _) as [o|]; [|discriminate]. exists o; split; auto.
  apply andb_true_iff in C. destruct C as [L C]. apply Nat.eqb_eq in L.
  unfold sorted8 in C. rewrite forallb_forall in C. intros i j x y Hij Hx Hy.
  pose proof (nth_error_some_lt _ _ _ Hx). pose proof (nth_error_some_lt _ _ _ Hy).
  specialize (C i). rewrite in_seq in C. specialize (C ltac:(lia)). rewrite forallb_forall in C.
  specialize (C j). rewrite in_seq in C. specialize (C ltac:(lia)).
  rewrite (nth_error_nth _ _ _ Hx), (nth_error_nth _ _ _ Hy) in C.
  apply orb_true_iff in C. destruct C as [C|C].
  - apply negb_true_iff, Nat.ltb_ge in C. lia.
  - apply negb_true_iff in C. exact C.
Qed.

(** ** The network commutes with monotone functions *)
Section Mono.
Context {T : Type} (ltb : T -> T -> bool) (g : T -> bool).
Hypothesis mono : forall a b, ltB (g a) (g b) = true -> ltb a b = true.
Hypothesis mono' : forall a b, ltb a b = true -> ltB (g b) (g a) = false.

Lemma read_map stage (l : list T) j : read_phase ltB stage (map g l) (map g l) j =
  option_map g (read_phase ltb stage l l j).
Proof.
  unfold read_phase, rd. destruct (nth_error stage (j mod 8)) as [i1|]; cbn [obind]; [|reflexivity].
  rewrite !nth_error_map. destruct (nth_error l j) as [v0|]; cbn [option_map obind]; [|reflexivity].
  destruct (nth_error l (8 * (j / 8) + i1)) as [v1|]; cbn [option_map obind]; [|reflexivity].
  f_equal. pose proof (mono v1 v0) as M. pose proof (mono' v1 v0) as M'.
  destruct (j mod 8 <? i1); destruct (ltb v1 v0); destruct (g v1) eqn:E1, (g v0) eqn:E0; cbn in *; auto;
    try (specialize (M eq_refl); discriminate); try (specialize (M' eq_refl); discriminate).
Qed.

Lemma mapM_option_map {A B C} (f : A -> option B) (h : B -> C) l :
  mapM (fun a => option_map h (f a)) l = option_map (map h) (mapM f l).
Proof.
  induction l as [|a l IH]; cbn; [reflexivity|]. destruct (f a); cbn; [|reflexivity].
  rewrite IH. destruct (mapM f l); reflexivity.
Qed.

Lemma net_map l : net ltB (map g l) = option_map (map g) (net ltb l).
Proof.
  unfold net. generalize indices as ss. intros ss; revert l. induction ss as [|s ss IH]; intros l; cbn [foldM]; [reflexivity|].
  rewrite (mapM_ext_in _ (fun j => option_map g (read_phase ltb s l l j))) by (intros; apply read_map).
  rewrite mapM_option_map. destruct (mapM (read_phase ltb s l l) (seq 0 8)); cbn [option_map obind]; auto.
Qed.
End Mono.

Section Sort.
Context {T : Type} (ltb : T -> T -> bool).
Hypothesis ord : total_order ltb.

Lemma net_sorted l : length l = 8 -> exists o, net ltb l = Some o /\ ascending ltb o.
Proof.
  intros L. destruct ord as [Ir [Tr Tot]].
  assert (C : forall p, exists ob, net ltB (map (ltb p) l) = Some ob /\ ascending ltB ob /\
     net ltB (map (ltb p) l) = option_map (map (ltb p)) (net ltb l)).
  { intros p. destruct (net_bool (map (ltb p) l)) as [ob [E A]]; [rewrite map_length; auto|].
    exists ob; split; auto. split; auto. apply net_map.
    - intros a b H. unfold ltB in H. apply andb_true_iff in H. destruct H as [H1 H2]. apply negb_true_iff in H1.
      destruct (ltb a b) eqn:E'; auto. rewrite <- H1.
      destruct (ltb b a) eqn:E2; [exact (Tr _ _ _ H2 E2)|]. assert (a = b) by auto. subst; congruence.
    - intros a b H. unfold ltB. destruct (ltb p b) eqn:E1, (ltb p a) eqn:E2; auto. cbn.
      rewrite <- E1. symmetry. exact (Tr _ _ _ E2 H). }
  destruct l as [|x0 l0] eqn:El; [discriminate|]. rewrite <- El in *.
  destruct (C x0) as [ob [E1 [_ E2]]]. destruct (net ltb l) as [o|] eqn:Eo; [|rewrite E1 in E2; discriminate].
  exists o; split; auto. intros i j x y Hij Hx Hy. destruct (ltb y x) eqn:Lt; auto. exfalso.
  destruct (C y) as [ob' [E1' [A E2']]]. rewrite E1' in E2'. cbn in E2'. injection E2' as ->.
  specialize (A i j true false Hij). rewrite !nth_error_map, Hx, Hy in A. cbn in A. rewrite Lt, Ir in A.
  specialize (A eq_refl eq_refl). discriminate.
Qed.

(** ** The network permutes *)
Lemma pair_cases a b :
  ((if ltb b a then b else a) = a /\ (if ltb a b then b else a) = b) \/
  ((if ltb b a then b else a) = b /\ (if ltb a b then b else a) = a).
Proof.
  destruct ord as [Ir [Tr Tot]]. destruct (ltb b a) eqn:E1.
  - rewrite (asym ltb ord b a E1). auto.
  - destruct (ltb a b) eqn:E2; auto.
Qed.

Ltac perm8 :=
  lazymatch goal with
  | |- Permutation [] [] => constructor
  | |- Permutation (?a :: ?l) ?r =>
      let rec go pre post :=
        lazymatch post with
        | a :: ?p => change r with (pre ++ a :: p); apply Permutation_cons_app; cbn [app]; perm8
        | ?b :: ?p => let pre' := eval cbn [app] in (pre ++ [b]) in go pre' p
        end in
      let t := type of a in go (@nil t) r
  end.

Ltac pairs := repeat match goal with |- context [if ltb ?b ?a then ?b else ?a] =>
    let H := fresh in destruct (pair_cases a b) as [[H H']|[H H']]; rewrite ?H, ?H'; clear H H' end.

Lemma stage_perm stage l l' : In stage indices -> length l = 8 ->
  mapM (read_phase ltb stage l l) (seq 0 8) = Some l' -> Permutation l l'.
Proof.
  intros Hs L. destruct (list8 l L) as (a & b & c & d & e & f & g & h & ->).
  unfold indices in Hs. repeat (destruct Hs as [<-|Hs]); [..|destruct Hs];
  intros E; injection E as <-;
  repeat match goal with |- context [if ltb ?x ?y then ?x else ?y] =>
    let H := fresh in let H' := fresh in destruct (pair_cases y x) as [[H H']|[H H']]; rewrite ?H, ?H'; clear H H' end; perm8.
Qed.

Lemma net_perm l o : length l = 8 -> net ltb l = Some o -> Permutation l o.
Proof.
  unfold net. assert (Hs : forall s, In s indices -> In s indices) by auto. revert Hs.
  generalize indices at 1 3 as ss. intros ss; revert l. induction ss as [|s ss IH]; intros l Hs L; cbn [foldM].
  - intros [= <-]; auto.
  - destruct (mapM _ _) as [l1|] eqn:E; [|discriminate]. cbn [obind]. intros H.
    assert (P : Permutation l l1) by (eapply stage_perm; eauto; apply Hs; left; auto).
    transitivity l1; auto. apply IH; auto. { intros; apply Hs; right; auto. } rewrite <- (Permutation_length P); auto.
Qed.

(** ** Work groups *)
Notation block := (@eight T).

Lemma mapM_slice {A B} (f : A -> option B) l : forall r a b, mapM f l = Some r ->
  mapM f (firstn a (skipn b l)) = Some (firstn a (skipn b r)).
Proof.
  induction l as [|x l IH]; intros r a b E; cbn in E.
  - injection E as <-. rewrite !skipn_nil, !firstn_nil. reflexivity.
  - destruct (f x) as [y|] eqn:Ex; [|discriminate]. cbn [obind] in E.
    destruct (mapM f l) as [ys|] eqn:El; [|discriminate]. injection E as <-.
    destruct b as [|b]; [|cbn [skipn]; apply IH; auto]. destruct a as [|a]; [reflexivity|].
    cbn [skipn firstn mapM]. rewrite Ex; cbn [obind].
    pose proof (IH ys a 0 eq_refl) as H. cbn [skipn] in H. rewrite H; reflexivity.
Qed.

Lemma address j : 8 * (j / 8) + j mod 8 = j.
Proof. symmetry. apply Nat.div_mod. lia. Qed.

Lemma stage_shape stage i : In stage indices -> i < 8 -> exists i1, nth_error stage i = Some i1 /\ i1 < 8.
Proof.
  intros Hs Hi. unfold indices in Hs. repeat (destruct Hs as [<-|Hs]); [..|destruct Hs];
  do 8 (destruct i as [|i]; [eexists; split; [reflexivity|lia]|]); lia.
Qed.

Lemma block_nth m k i : i < 8 -> nth_error (block m k) i = nth_error m (8 * k + i).
Proof. intros H. unfold eight. rewrite nth_error_firstn, nth_error_skipn. destruct (Nat.ltb_spec i 8); [auto|lia]. Qed.

Lemma pass_total stage m B : In stage indices -> length m = 8 * B ->
  exists m', mapM (read_phase ltb stage m m) (seq 0 (8 * B)) = Some m' /\ length m' = 8 * B.
Proof.
  intros Hs L. destruct (mapM_total (read_phase ltb stage m m) (seq 0 (8 * B))) as [m' E].
  - intros j Hj. apply in_seq in Hj. unfold read_phase, rd.
    pose proof (Nat.mod_upper_bound j 8 ltac:(lia)) as Hm.
    destruct (stage_shape stage (j mod 8) Hs Hm) as [i1 [E1 L1]]. rewrite E1; cbn [obind].
    destruct (nth_error_lt_some m j) as [v0 E0]; [lia|]. rewrite E0; cbn [obind].
    pose proof (address j).
    destruct (nth_error_lt_some m (8 * (j / 8) + i1)) as [v1 Ev]; [|rewrite Ev; cbn [obind]; eauto].
    assert (j / 8 < B) by (apply Nat.div_lt_upper_bound; lia). lia.
  - exists m'; split; auto. rewrite (mapM_length _ _ _ E), seq_length. reflexivity.
Qed.

Lemma firstn_skipn_seq a b n : b + a <= n -> firstn a (skipn b (seq 0 n)) = seq b a.
Proof.
  intros H. replace n with (b + (a + (n - a - b))) by lia. rewrite List.seq_app, skipn_app, seq_length.
  rewrite skipn_all2 by (rewrite seq_length; lia). rewrite Nat.sub_diag. cbn [skipn app].
  rewrite List.seq_app, firstn_app, seq_length, Nat.sub_diag. cbn [firstn]. rewrite app_nil_r.
  rewrite firstn_all2 by (rewrite seq_length; lia). reflexivity.
Qed.

Lemma pass_block stage m m' B k : In stage indices -> k < B -> length m = 8 * B ->
  mapM (read_phase ltb stage m m) (seq 0 (8 * B)) = Some m' ->
  mapM (read_phase ltb stage (block m k) (block m k)) (seq 0 8) = Some (block m' k).
Proof.
  intros Hs Hk L E. apply (mapM_slice _ _ _ 8 (8 * k)) in E. rewrite firstn_skipn_seq in E by lia.
  rewrite (seq_shift_map (8 * k)), mapM_map in E. unfold eight at 3. rewrite <- E. apply mapM_ext_in. intros i Hi. apply in_seq in Hi.
  unfold read_phase. cbn zeta.
  assert (Hd : (8 * k + i) / 8 = k) by (rewrite Nat.mul_comm, Nat.div_add_l by lia; rewrite Nat.div_small by lia; lia).
  assert (Hm : (8 * k + i) mod 8 = i) by (rewrite Nat.add_comm, Nat.mul_comm, Nat.mod_add by lia; apply Nat.mod_small; lia).
  rewrite Hd, Hm, Nat.div_small, Nat.mod_small by lia.
  destruct (stage_shape stage i Hs ltac:(lia)) as [i1 [E1 L1]]. unfold rd. rewrite E1; cbn [obind].
  rewrite !block_nth by lia. reflexivity.
Qed.

Lemma stage_pass_correct stage m B sched : In stage indices -> length m = 8 * B ->
  Permutation (seq 0 (8 * B)) sched ->
  exists m', stage_pass ltb (8 * B) sched (m, m) stage = Some (m', m') /\ length m' = 8 * B /\
    mapM (read_phase ltb stage m m) (seq 0 (8 * B)) = Some m'.
Proof.
  intros Hs L P. destruct (pass_total stage m B Hs L) as [m' [E L']]. exists m'.
  unfold stage_pass; cbn [fst snd]. rewrite E; cbn [obind].
  destruct m' as [|d m1] eqn:Em.
  { assert (8 * B = 0) by (cbn in L'; lia). rewrite H in P. cbn in P. apply Permutation_nil in P. subst sched.
    cbn [foldM obind]. destruct m; [auto|cbn in L; lia]. }
  rewrite <- Em in *.
  destruct (foldM_upd (fun m0 j => v <- rd m' j ;; upd m0 (8 * (j / 8) + j mod 8) v) (fun j => j) (fun j => nth j m' d) sched m)
    as [r [Er [Lr [W _]]]].
  - intros m2 j L2 Hj. rewrite address. unfold rd.
    assert (In j (seq 0 (8 * B))) by (eapply Permutation_in; [apply Permutation_sym; eauto|auto]). apply in_seq in H.
    rewrite (nth_error_nth' m' d) by lia. reflexivity.
  - intros j Hj. assert (In j (seq 0 (8 * B))) by (eapply Permutation_in; [apply Permutation_sym; eauto|auto]). apply in_seq in H. lia.
  - intros a b _ _ ->; auto.
  - rewrite Er; cbn [obind]. assert (r = m'); [|subst; auto].
    apply nth_error_ext. intros i. destruct (Nat.lt_ge_cases i (8 * B)) as [Li|Li].
    + rewrite (W i); [|eapply Permutation_in; [eauto|apply in_seq; lia]]. symmetry; apply nth_error_nth'. lia.
    + rewrite !(proj2 (nth_error_None _ _)); auto; lia.
Qed.

Lemma bitonic_correct B scheds m : length m = 8 * B -> length scheds = 6 ->
  Forall (fun s => Permutation (seq 0 (8 * B)) s) scheds ->
  exists m', bitonic8 ltb (8 * B) scheds m = Some m' /\ length m' = 8 * B /\
  forall k, k < B -> ascending ltb (block m' k) /\ Permutation (block m k) (block m' k).
Proof.
  intros L Ls F. unfold bitonic8.
  assert (E0 : mapM (fun j => rd m (8 * (j / 8) + j mod 8)) (seq 0 (8 * B)) = Some m).
  { transitivity (mapM (rd m) (seq 0 (8 * B))); [apply mapM_ext_in; intros; rewrite address; auto|].
    rewrite <- L. clear. induction m as [|x m IH]; cbn; auto.
    rewrite <- seq_shift, mapM_map. cbn in IH. rewrite (mapM_ext_in _ (rd m)) by reflexivity. rewrite IH; reflexivity. }
  rewrite E0; cbn [obind].
  assert (G : forall ss scheds m, (forall s, In s ss -> In s indices) -> length scheds = length ss -> length m = 8 * B ->
     Forall (fun s => Permutation (seq 0 (8 * B)) s) scheds ->
     exists m', foldM (fun st ps => stage_pass ltb (8 * B) (snd ps) st (fst ps)) (m, m) (List.combine ss scheds) = Some (m', m') /\
       length m' = 8 * B /\
       forall k, k < B -> foldM (fun l stage => mapM (read_phase ltb stage l l) (seq 0 8)) (block m k) ss = Some (block m' k)).
  { clear. induction ss as [|s ss IH]; intros scheds m Hs Ls L F.
    - exists m. split; [reflexivity|]. split; auto.
    - destruct scheds as [|sc scheds]; [discriminate|]. inversion F as [|? ? F1 F2]; subst.
      destruct (stage_pass_correct s m B sc) as [m1 [E1 [L1 P1]]]; auto; [apply Hs; left; auto|].
      destruct (IH scheds m1) as [m' [E' [L' P']]]; auto. { intros; apply Hs; right; auto. }
      exists m'. cbn [List.combine foldM fst snd]. rewrite E1; cbn [obind]. split; auto. split; auto.
      intros k Hk. rewrite (pass_block s m m1 B k); auto; [cbn [obind]; auto|apply Hs; left; auto]. }
  destruct (G indices scheds m) as [m' [E' [L' P']]]; auto.
  rewrite E'; cbn [obind fst]. exists m'; split; auto. split; auto. intros k Hk.
  assert (Lb : length (block m k) = 8). { unfold eight. rewrite firstn_length, skipn_length. lia. }
  destruct (net_sorted (block m k) Lb) as [o [Eo So]].
  assert (o = block m' k) by (unfold net in Eo; rewrite P' in Eo by auto; congruence). subst o.
  split; auto. apply net_perm; auto.
Qed.
End Sort.
