(** Proofs about the sampler with replacement: a block of pairs on a CPU and on a GPU. *)
From Coq Require Import List Arith Lia ZArith QArith Bool Permutation.
Import ListNotations.
From Verif Require Import Base Kernel Scan_Model PairList_Spec PairHost_Proofs SamplerNTC_Model SamplerNTC_Spec SamplerNTC_Proofs SamplerNTCGpu_Proofs SamplerNTCResolve_Proofs.
Local Open Scope nat_scope.

(** A pair in the list. *)
Definition view (pc : nat) (pl : list nat) (ox : nat) : option (nat * nat * nat) :=
  i <- rd pl ox ;; j <- rd pl (pc + ox) ;; w <- rd pl (pc * 2 + ox) ;; Some (i, j, w).

Lemma write_ok pc ox pl p w : length pl = pc * 3 -> ox < pc ->
  exists pl', write_pair pc ox pl p w = Some pl' /\ length pl' = length pl /\ view pc pl' ox = Some (p, w) /\
    forall x, x < pc -> x <> ox -> view pc pl' x = view pc pl x.
Proof.
  intros L H. unfold write_pair. rewrite Nat.mul_1_r.
  destruct (upd_some pl ox (fst p)) as [p1 E1]; [lia|]. rewrite E1. cbn [obind]. pose proof (upd_length _ _ _ _ E1).
  destruct (upd_some p1 (pc + ox) (snd p)) as [p2 E2]; [lia|]. rewrite E2. cbn [obind]. pose proof (upd_length _ _ _ _ E2).
  destruct (upd_some p2 (pc * 2 + ox) w) as [p3 E3]; [lia|]. rewrite E3. pose proof (upd_length _ _ _ _ E3).
  assert (N : forall y, nth_error p3 y = if y =? pc * 2 + ox then Some w else if y =? pc + ox then Some (snd p) else if y =? ox then Some (fst p) else nth_error pl y).
  { intros y. rewrite (upd_nth _ _ _ _ y E3), (upd_nth _ _ _ _ y E2), (upd_nth _ _ _ _ y E1). auto. }
  exists p3. split; auto. split; [lia|]. split.
  - unfold view, rd. rewrite !N. rewrite !Nat.eqb_refl.
    destruct (Nat.eqb_spec ox (pc * 2 + ox)); [lia|]. destruct (Nat.eqb_spec ox (pc + ox)); [lia|].
    destruct (Nat.eqb_spec (pc + ox) (pc * 2 + ox)); [lia|]. cbn [obind]. destruct p; auto.
  - intros x Hx Nx. unfold view, rd. rewrite !N.
    repeat (match goal with |- context [?a =? ?b] => destruct (Nat.eqb_spec a b); [lia|] end). auto.
Qed.

(** What a block does to the list. *)
Definition block_eff (pc start : nat) (PS : list (nat * nat)) (ws pl pl' : list nat) : Prop :=
  length pl' = length pl /\
  (forall l p w, nth_error PS l = Some p -> nth_error ws l = Some w -> view pc pl' (start + l) = Some (p, w)) /\
  (forall ox, ox < pc -> ~ (start <= ox < start + length PS) -> view pc pl' ox = view pc pl ox).

Lemma view_some pc pl ox : length pl = pc * 3 -> ox < pc -> exists i j w, view pc pl ox = Some (i, j, w) /\ rd pl ox = Some i /\ rd pl (pc + ox) = Some j.
Proof.
  intros L H. unfold view, rd. destruct (nth_error_lt_some pl ox) as [i ->]; [lia|]. destruct (nth_error_lt_some pl (pc + ox)) as [j ->]; [lia|].
  destruct (nth_error_lt_some pl (pc * 2 + ox)) as [w ->]; [lia|]. cbn. eauto 6.
Qed.

Lemma firstn_snoc_nth {A} (l : list A) k a : nth_error l k = Some a -> firstn (S k) l = firstn k l ++ [a].
Proof.
  revert k. induction l as [|x l IH]; intros [|k]; cbn; try discriminate.
  - intros [= ->]. auto.
  - intros H. f_equal. apply IH. auto.
Qed.

Lemma seq_pos s len pre a post : seq s len = pre ++ a :: post -> a = s + length pre /\ length pre < len.
Proof.
  intros E. assert (nth_error (seq s len) (length pre) = Some a) as Q by (rewrite E, nth_error_app2, Nat.sub_diag by lia; auto).
  rewrite nth_error_seq in Q. destruct (Nat.ltb_spec (length pre) len); [|discriminate]. injection Q as <-. auto.
Qed.

Section Block.
  Context (d : device) (PS : list (nat * nat)) (n : nat) (flags0 : list nat) (pc : nat) (pl0 : list nat).
  Hypothesis Hd : device_ok d.
  Hypothesis zero : forall p, p < n -> nth_error flags0 p = Some 0.
  Hypothesis range : forall l p, nth_error PS l = Some p -> fst p < n /\ snd p < n.
  Hypothesis Lpl : length pl0 = pc * 3.
  Local Notation m := (length PS).

  Lemma n_le : n <= length flags0.
  Proof. destruct n; [lia|]. apply (nth_error_some_lt _ _ 0). apply zero. lia. Qed.

  Lemma range_firstn k l p : nth_error (firstn k PS) l = Some p -> nth_error PS l = Some p.
  Proof. rewrite nth_error_firstn. destruct (l <? k); [auto|discriminate]. Qed.

  (** ** A CPU *)
  Lemma cpu_pairs read offset s mx : offset + s + m <= pc -> (forall l p, nth_error PS l = Some p -> read (offset + (s + l)) = Some p) ->
    exists fl pl, foldM (cpu_pair read pc offset) (flags0, pl0, mx, 0) (seq s m) = Some (fl, pl, Nat.max mx (list_max (map S (gw PS))), list_max (map S (gw PS))) /\
      length fl = length flags0 /\ (forall p, ~ used PS p -> nth_error fl p = nth_error flags0 p) /\ block_eff pc (offset + s) PS (gw PS) pl0 pl.
  Proof.
    intros Hpc Hr. pose proof n_le as NL.
    destruct (foldM_ind (cpu_pair read pc offset) (fun pre st => let k := length pre in let '(fl, pl, mx', inner) := st in
      length fl = length flags0 /\ (forall p, p < n -> nth_error fl p = Some (nxt (firstn k PS) p)) /\ (forall p, ~ used PS p -> nth_error fl p = nth_error flags0 p) /\
      mx' = Nat.max mx (list_max (map S (gw (firstn k PS)))) /\ inner = list_max (map S (gw (firstn k PS))) /\
      block_eff pc (offset + s) (firstn k PS) (gw (firstn k PS)) pl0 pl) (seq s m) (flags0, pl0, mx, 0)) as [[[[fl pl] mx'] inner] [E H]].
    - cbn [length firstn gw]. split; auto. split; [intros; rewrite zero by auto; auto|]. split; auto. split; [cbn; lia|]. split; auto.
      split; auto. split; auto. intros [|?]; discriminate.
    - intros pre a post [[[fl pl] mx'] inner] Es [H1 [H2 [H3 [H4 [H5 [H6 [H7 H8]]]]]]]. destruct (seq_pos _ _ _ _ _ Es) as [-> Lp]. set (k := length pre) in *.
      destruct (nth_error_lt_some PS k Lp) as [p Ep]. destruct (range _ _ Ep) as [R1 R2].
      unfold cpu_pair. rewrite (Hr _ _ Ep). cbn [obind]. unfold rd. rewrite !H2 by auto. cbn [obind].
      set (Q := firstn k PS) in *. set (wave := Nat.max (nxt Q (fst p)) (nxt Q (snd p))).
      destruct (set_flags_ok fl p (wave + 1)) as [fl' [Ef [Lf Hf]]]; [lia|lia|]. rewrite Ef. cbn [obind].
      destruct (write_ok pc (offset + (s + k)) pl p wave) as [pl' [Ew [Lw [V1 V2]]]]; [lia|lia|]. rewrite Ew. cbn [obind].
      eexists. split; [reflexivity|]. cbn beta iota zeta. rewrite app_length. cbn [length]. rewrite Nat.add_1_r. fold k. rewrite (firstn_snoc_nth _ _ _ Ep). fold Q.
      assert (LQ : length Q = k) by (unfold Q; rewrite firstn_length; lia).
      rewrite gw_snoc. fold wave. rewrite map_app, list_max_app. cbn [map list_max fold_right]. rewrite Nat.max_0_r.
      split; [lia|]. split.
      { intros x Hx. rewrite Hf, nxt_snoc. fold wave. rewrite Nat.add_1_r. destruct ((fst p =? x) || (snd p =? x)); auto. }
      split.
      { intros x Hx. rewrite Hf. destruct ((fst p =? x) || (snd p =? x)) eqn:Eb; auto. exfalso. apply Hx. exists k, p. split; auto.
        apply orb_true_iff in Eb. rewrite !Nat.eqb_eq in Eb. intuition. }
      split; [lia|]. split; [lia|]. split; [lia|]. split.
      + intros l q w Hq Hw. destruct (Nat.eq_dec l k) as [->|Nl].
        * rewrite nth_error_app2, LQ, Nat.sub_diag in Hq by lia. rewrite nth_error_app2, gw_length, LQ, Nat.sub_diag in Hw by (rewrite gw_length; lia).
          cbn in Hq, Hw. injection Hq as <-. injection Hw as <-. rewrite <- Nat.add_assoc. auto.
        * assert (l < k). { apply nth_error_some_lt in Hq. rewrite app_length, LQ in Hq. cbn in Hq. lia. }
          rewrite nth_error_app1 in Hq by lia. rewrite nth_error_app1 in Hw by (rewrite gw_length; lia). rewrite V2 by lia. apply H7; auto.
      + intros ox Ho No. rewrite app_length, LQ in No. cbn [length] in No. rewrite V2 by lia. apply H8; auto. rewrite LQ. lia.
    - cbv zeta in H. rewrite seq_length, firstn_all in H. destruct H as [H1 [H2 [H3 [H4 [H5 H6]]]]]. subst. exists fl, pl. auto.
  Qed.

  Lemma zero_after (fl : list nat) : (forall p, ~ used PS p -> nth_error fl p = nth_error flags0 p) ->
    forall fl', (forall p, nth_error fl' p = if existsb (hits p) PS then Some 0 else nth_error fl p) -> forall p, p < n -> nth_error fl' p = Some 0.
  Proof.
    intros Hf fl' H p Hp. rewrite H. destruct (existsb (hits p) PS) eqn:E; auto. rewrite Hf; [apply zero; auto|]. intros [l [q [Hq Hpq]]].
    assert (existsb (hits p) PS = true); [|congruence]. apply existsb_exists. exists q. split; [eapply nth_error_In; eauto|].
    unfold hits. apply orb_true_iff. rewrite !Nat.eqb_eq. intuition.
  Qed.

  Lemma cpu_resets offset s ws pl fl : length ws = m -> length pl = pc * 3 -> length fl = length flags0 ->
    (forall p, ~ used PS p -> nth_error fl p = nth_error flags0 p) ->
    (forall l p w, nth_error PS l = Some p -> nth_error ws l = Some w -> view pc pl (offset + s + l) = Some (p, w)) ->
    offset + s + m <= pc ->
    exists fl', foldM (cpu_reset pc offset pl) fl (seq s m) = Some fl' /\ length fl' = length flags0 /\ forall p, p < n -> nth_error fl' p = Some 0.
  Proof.
    intros Lw Lp Lf Hf V Hpc. pose proof n_le as NL.
    destruct (foldM_ind (cpu_reset pc offset pl) (fun pre f => length f = length flags0 /\
      forall p, nth_error f p = if existsb (hits p) (firstn (length pre) PS) then Some 0 else nth_error fl p) (seq s m) fl) as [fl' [E [L H]]].
    - auto.
    - intros pre a post f Es [L H]. destruct (seq_pos _ _ _ _ _ Es) as [-> Lp']. set (k := length pre) in *. rewrite app_length, Nat.add_1_r. fold k.
      destruct (nth_error_lt_some PS k Lp') as [p Ep]. destruct (range _ _ Ep) as [R1 R2]. rewrite (firstn_snoc_nth _ _ _ Ep).
      destruct (nth_error_lt_some ws k) as [w Ew]; [lia|]. pose proof (V _ _ _ Ep Ew) as Vk. rewrite <- Nat.add_assoc in Vk.
      destruct (view_some pc pl (offset + (s + k))) as [i [j [w' [Vi [Ei Ej]]]]]; [auto|lia|]. rewrite Vk in Vi. injection Vi as Vi Vw. subst p w'.
      unfold cpu_reset. rewrite Nat.mul_1_r, Ei. cbn [obind]. rewrite Ej. cbn [obind fst snd] in *.
      destruct (set_flags_ok f (i, j) 0) as [f' [Ef [Lf' Hf']]]; [cbn; lia|cbn; lia|]. exists f'. split; auto. split; [lia|].
      intros x. rewrite Hf', H, existsb_app. cbn [existsb]. fold (hits x (i, j)). destruct (hits x (i, j)), (existsb (hits x) (firstn k PS)); auto.
    - rewrite seq_length, firstn_all in H. exists fl'. split; auto. split; auto. apply (zero_after fl); auto.
  Qed.

  (** ** A GPU *)
  Lemma gpu_writes start its ws k : start + m <= pc -> length its = m ->
    (forall l, l < m -> exists it w, nth_error its l = Some it /\ (it_i it, it_j it) = the PS l /\ nth_error ws l = Some w /\ it_wave it = Some w) ->
    exists pl, foldM (gpu_write pc start its) pl0 (ord d k (seq 0 m)) = Some pl /\ block_eff pc start PS ws pl0 pl.
  Proof.
    intros Hpc Li Hi. destruct Hd as [Hp _].
    destruct (foldM_ind (gpu_write pc start its) (fun pre pl => length pl = length pl0 /\
      (forall l p w, In l pre -> nth_error PS l = Some p -> nth_error ws l = Some w -> view pc pl (start + l) = Some (p, w)) /\
      (forall ox, ox < pc -> ~ (start <= ox < start + m) -> view pc pl ox = view pc pl0 ox)) (ord d k (seq 0 m)) pl0) as [pl [E [L [H1 H2]]]].
    - split; auto. split; auto. intros l p w [].
    - intros pre a post pl Es [L [H1 H2]].
      assert (Ha : a < m). { assert (In a (ord d k (seq 0 m))) as I by (rewrite Es; apply in_or_app; cbn; auto). apply (Permutation_in _ (Hp _ k _)), in_seq in I. lia. }
      assert (Na : ~ In a pre).
      { assert (NoDup (ord d k (seq 0 m))) as N by (eapply Permutation_NoDup; [apply Permutation_sym, Hp|apply seq_NoDup]).
        rewrite Es in N. apply NoDup_remove_2 in N. intros Hin. apply N, in_or_app. auto. }
      destruct (Hi a Ha) as [it [w [Ei [T [Ew Eit]]]]]. unfold gpu_write, rd. rewrite Ei. cbn [obind]. rewrite Eit, T.
      destruct (write_ok pc (start + a) pl (the PS a) w) as [pl' [Ew' [Lw [V1 V2]]]]; [lia|lia|]. exists pl'. split; auto. split; [lia|]. split.
      + intros l p w' Hl Hp' Hw'. apply in_app_iff in Hl as [Hl|[->|[]]].
        * rewrite V2; [apply H1; auto| |intros Hx; assert (l = a) by lia; subst; auto]. apply nth_error_some_lt in Hp'. lia.
        * rewrite V1. unfold the. rewrite (nth_error_nth _ _ _ Hp'). congruence.
      + intros ox Ho No. rewrite V2 by lia. auto.
    - exists pl. split; auto. split; auto. split; auto. intros l p w Hp' Hw. apply H1; auto. apply (Permutation_in _ (Permutation_sym (Hp _ k _))), in_seq.
      apply nth_error_some_lt in Hp'. lia.
  Qed.

  Lemma fold_max its ws mx : length its = length ws -> (forall l it w, nth_error its l = Some it -> nth_error ws l = Some w -> it_wave it = Some w) ->
    fold_left (fun mx it => match it_wave it with Some w => Nat.max mx (w + 1) | None => mx end) its mx = Nat.max mx (list_max (map S ws)).
  Proof.
    revert ws mx. induction its as [|it its IH]; intros [|w ws] mx L H; try discriminate; [cbn; lia|]. cbn [fold_left].
    rewrite (H 0 it w eq_refl eq_refl). rewrite (IH ws); [|cbn in L; lia|intros l i x Hi Hx; apply (H (S l)); auto]. cbn [map list_max fold_right]. fold (list_max (map S ws)). lia.
  Qed.

  Lemma list_max_S ws : ws <> [] -> list_max (map S ws) = list_max ws + 1.
  Proof.
    induction ws as [|w ws IH]; [congruence|]. intros _. cbn [map list_max fold_right]. fold (list_max ws) (list_max (map S ws)).
    destruct ws as [|w' ws]; [cbn; lia|]. rewrite IH by discriminate. lia.
  Qed.

  Lemma gpu_block_ok block_size cells key read offset npairs cell wc mx b s : 1 <= m -> m = Nat.min block_size (npairs - s) -> offset + s + m <= pc ->
    (forall l p, nth_error PS l = Some p -> read (offset + (s + l)) = Some p) -> b * cells + cell < length wc ->
    exists fl pl wc' ws o, gpu_block d cells block_size key read pc offset npairs cell (flags0, 0, pl0, wc, mx, b) s =
        Some (fl, 0, pl, wc', Nat.max mx (list_max (map S ws)), b + 1) /\
      length fl = length flags0 /\ (forall p, p < n -> nth_error fl p = Some 0) /\ block_eff pc (offset + s) PS ws pl0 pl /\
      greedy_in o PS ws /\ upd wc (b * cells + cell) (list_max (map S ws)) = Some wc'.
  Proof.
    intros Hm1 Hm Hpc Hr Hwc. unfold gpu_block. rewrite <- Hm.
    assert (mapM (fun local_id => read (offset + s + local_id)) (seq 0 m) = Some PS) as ->.
    { replace (Some PS) with (Some (map (the PS) (seq 0 m))).
      - apply mapM_some. intros l Hl. apply in_seq in Hl. rewrite <- Nat.add_assoc. apply Hr. apply nth_error_nth'. lia.
      - f_equal. apply nth_error_ext. intros x. rewrite nth_error_map_seq. destruct (Nat.ltb_spec x m); cbn [Nat.add].
        + symmetry. apply nth_error_nth'. auto.
        + symmetry. apply nth_error_None; auto. }
    cbn [obind]. pose proof Hd as [Hp _].
    destruct (phase1_run PS n flags0 zero range (ord d (key b 0) (flat_map (fun l => [l; l; l]) (seq 0 m)))) as [O [fl1 [c1 [its1 [E1 P1]]]]]; [apply Hp|].
    rewrite E1. cbn [obind].
    destruct (resolve_ok d PS n flags0 (key b) Hd zero range _ _ _ _ _ P1) as [fl2 [c2 [its2 [E2 [L2 [F2 [I2 [ws [G [C2 W2]]]]]]]]]].
    { intros l Hl. rewrite (proj1 (Permutation_count_occ Nat.eq_dec _ _) (Hp _ (key b 0) _)), count_triple.
      rewrite (proj1 (NoDup_count_occ' Nat.eq_dec (seq 0 m)) (seq_NoDup _ _) l); [auto|apply in_seq; lia]. }
    rewrite E2. cbn [obind].
    destruct (gpu_writes (offset + s) its2 ws (key b 4)) as [pl [Ep Hpl]]; auto. rewrite Ep. cbn [obind].
    assert (Lw : length ws = m) by (destruct G as [_ [? _]]; auto).
    assert (c2 + 1 = list_max (map S ws)) as -> by (rewrite C2; symmetry; apply list_max_S; intros ->; cbn in Lw; lia).
    destruct (upd_some wc (b * cells + cell) (list_max (map S ws)) Hwc) as [wc' Ew]. rewrite Ew. cbn [obind].
    assert (T2 : forall l it, nth_error its2 l = Some it -> (it_i it, it_j it) = the PS l /\ exists w, nth_error ws l = Some w /\ it_wave it = Some w).
    { intros l it E. destruct (W2 l) as [it' [w [A [B [C D]]]]]; [rewrite <- I2; eapply nth_error_some_lt; eauto|]. rewrite E in A. injection A as <-. eauto. }
    destruct (set_wave_ok d PS n flags0 Hd zero range 0 its2 fl2 (key b 5)) as [fl3 [E3 [L3 H3]]]; auto; [intros; apply T2; auto|].
    rewrite E3. cbn [obind]. rewrite (fold_max its2 ws); [|lia|].
    - exists fl3, pl, wc', ws. eexists. split; [reflexivity|]. split; auto. split.
      + apply (zero_after fl2); auto. intros p. rewrite H3. replace (existsb (hits p) PS) with
          (existsb (fun l => match nth_error its2 l with Some it => match it_wave it with Some _ => hits p (the PS l) | None => false end | None => false end) (seq 0 m)); auto.
        apply eq_true_iff_eq. rewrite !existsb_exists. split.
        * intros [l [Hl A]]. exists (the PS l). apply in_seq in Hl. split; [apply nth_In; lia|]. destruct (nth_error its2 l) as [it|]; [|discriminate].
          destruct (it_wave it); [auto|discriminate].
        * intros [q [Hq A]]. apply In_nth_error in Hq as [l Hl]. exists l. assert (l < m) by (eapply nth_error_some_lt; eauto). split; [apply in_seq; lia|].
          destruct (W2 l) as [it [w [B1 [B2 [B3 B4]]]]]; auto. rewrite B1, B4. unfold the. rewrite (nth_error_nth _ _ _ Hl). auto.
      + split; auto. split; eauto.
    - intros l it w E Ew'. destruct (T2 l it E) as [_ [w' [A B]]]. congruence.
  Qed.

  (** A block on a CPU. *)
  Lemma gw_greedy : greedy_in (seq 0 m) PS (gw PS).
  Proof.
    split; auto. split; [apply gw_length|]. intros x l Hx. rewrite nth_error_seq in Hx. destruct (Nat.ltb_spec x m); [|discriminate]. injection Hx as <-.
    replace (map (fun l => nth l PS (0, 0)) (seq 0 m)) with PS; auto. apply nth_error_ext. intros y. rewrite nth_error_map_seq. destruct (Nat.ltb_spec y m); cbn [Nat.add].
    - apply nth_error_nth'. auto.
    - apply nth_error_None; auto.
  Qed.

  Lemma cpu_block_ok block_size cells read offset npairs cell wc mx b : m = Nat.min (b * block_size + block_size) npairs - b * block_size ->
    offset + b * block_size + m <= pc ->
    (forall l p, nth_error PS l = Some p -> read (offset + (b * block_size + l)) = Some p) -> b * cells + cell < length wc ->
    exists fl pl wc', cpu_block cells block_size read pc offset npairs cell (flags0, pl0, wc, mx) b =
        Some (fl, pl, wc', Nat.max mx (list_max (map S (gw PS)))) /\
      length fl = length flags0 /\ (forall p, p < n -> nth_error fl p = Some 0) /\ block_eff pc (offset + b * block_size) PS (gw PS) pl0 pl /\
      upd wc (b * cells + cell) (list_max (map S (gw PS))) = Some wc'.
  Proof.
    intros Hm Hpc Hr Hwc. unfold cpu_block. rewrite <- Hm.
    destruct (cpu_pairs read offset (b * block_size) mx) as [fl1 [pl1 [E1 [L1 [F1 B1]]]]]; auto. rewrite E1. cbn [obind].
    destruct (upd_some wc (b * cells + cell) (list_max (map S (gw PS))) Hwc) as [wc' Ew]. rewrite Ew. cbn [obind].
    destruct (cpu_resets offset (b * block_size) (gw PS) pl1 fl1) as [fl2 [E2 [L2 Z2]]]; auto; [apply gw_length|destruct B1; lia|apply B1|].
    rewrite E2. cbn [obind]. exists fl2, pl1, wc'. auto.
  Qed.
End Block.
