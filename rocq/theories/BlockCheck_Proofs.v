(** Proofs about the checks of block pair lists. *)
From Coq Require Import List Arith Lia ZArith Bool Permutation.
Import ListNotations.
From Verif Require Import Base Append_Proofs Scan_Model World_Proofs PairHost_Proofs SamplerNTC_Model SamplerNTC_Spec SamplerNTC_Proofs SamplerNTCBlock_Proofs SamplerNTCCell_Proofs SamplerNTCSample_Proofs BlockLoop_Model BlockLoop_Spec BlockLoop_Proofs
  BlockCheck_Model BlockCheck_Spec.
Local Open Scope nat_scope.

(** A loop that collects a flag and a count. *)
Lemma foldM_check {A} (body : bool * nat -> A -> option (bool * nat)) (Pa : A -> Prop) (G : A -> nat) l :
  (forall a, In a l -> exists f, (forall ok n, body (ok, n) a = Some (ok && f, n + G a)) /\ (f = true <-> Pa a)) ->
  exists b, (forall ok n, foldM body (ok, n) l = Some (ok && b, n + list_sum (map G l))) /\ (b = true <-> forall a, In a l -> Pa a).
Proof.
  induction l as [|a l IH]; intros H.
  - exists true. cbn. split; [intros; rewrite andb_true_r, Nat.add_0_r; auto|]. split; [intros _ a []|auto].
  - destruct (H a (or_introl eq_refl)) as [f [E Hf]]. destruct IH as [b [Eb Hb]]; [intros; apply H; cbn; auto|]. exists (f && b). split.
    + intros ok n. cbn [foldM]. rewrite E. cbn [obind]. rewrite Eb, andb_assoc. cbn [map list_sum fold_right]. rewrite Nat.add_assoc. auto.
    + rewrite andb_true_iff, Hf, Hb. split; [intros [? ?] x [<-|Hx]; auto|]. intros Q. split; [apply Q; cbn; auto|]. intros; apply Q; cbn; auto.
Qed.

Lemma sum_perm l l' : Permutation l l' -> list_sum l = list_sum l'.
Proof. induction 1; cbn [list_sum fold_right] in *; unfold list_sum in *; cbn [fold_right] in *; lia. Qed.

Lemma forallb_map_id {A} (f : A -> bool) l : forallb (fun b : bool => b) (map f l) = forallb f l.
Proof. induction l as [|a l IH]; cbn; auto. rewrite IH. auto. Qed.

Definition is_some {A} (o : option A) : bool := match o with Some _ => true | None => false end.

Lemma filter_somes {A} (l : list A) : filter is_some (map Some l) = map Some l.
Proof. induction l as [|a l IH]; cbn; auto. rewrite IH. auto. Qed.

Lemma filter_nones {A} n : filter is_some (repeat (@None A) n) = [].
Proof. induction n; cbn; auto. Qed.

Lemma pairs_checked la : exists ok, check_pairs la = Some (ok, length (filter is_some la)) /\
  (ok = true <-> forall x y e e', x < y -> nth_error la x = Some e -> nth_error la y = Some e' -> check_pair e e' = true).
Proof.
  unfold check_pairs. match goal with |- context [foldM ?b _ _] => set (body := b) end.
  destruct (foldM_check body (fun x => forall y e e', x < y -> nth_error la x = Some e -> nth_error la y = Some e' -> check_pair e e' = true)
    (fun x => match nth_error la x with Some (Some _) => 1 | _ => 0 end) (seq 0 (length la))) as [b [E H]].
  - intros x Hx. apply in_seq in Hx. destruct (nth_error_lt_some la x) as [e Ee]; [lia|]. rewrite Ee. destruct e as [[[i j] w]|].
    + exists (forallb (fun jx => match nth_error la jx with Some e' => check_pair (Some (i, j, w)) e' | None => true end) (seq (x + 1) (length la - (x + 1)))). split.
      * intros ok n. unfold body, rd. rewrite Ee. cbn [obind].
        rewrite (mapM_some _ (fun jx => match nth_error la jx with Some e' => check_pair (Some (i, j, w)) e' | None => true end)).
        -- cbn [obind]. do 3 f_equal. apply forallb_map_id.
        -- intros y Hy. apply in_seq in Hy. destruct (nth_error_lt_some la y) as [e' Ee']; [lia|]. rewrite Ee'. auto.
      * rewrite forallb_forall. split.
        -- intros F y e e' Hlt [= <-] Hy. specialize (F y). rewrite Hy in F. apply F. apply in_seq. apply nth_error_some_lt in Hy. lia.
        -- intros F y Hy. apply in_seq in Hy. destruct (nth_error la y) as [e'|] eqn:Ey; auto. apply (F y (Some (i, j, w)) e'); auto; lia.
    + exists true. split; [intros ok n; unfold body, rd; rewrite Ee; cbn [obind]; rewrite andb_true_r, Nat.add_0_r; auto|].
      split; auto. intros _ y e e' _ [= <-] _. auto.
  - exists b. split.
    + rewrite E. cbn [andb Nat.add]. do 2 f_equal. clear. induction la as [|e la IH] using rev_ind; auto.
      rewrite app_length, seq_app, map_app, list_sum_app, filter_app, app_length. cbn [length seq map Nat.add]. rewrite nth_error_app2, Nat.sub_diag by lia. cbn [nth_error].
      f_equal.
      * rewrite <- IH. f_equal. apply map_ext_in. intros x Hx. apply in_seq in Hx. rewrite nth_error_app1 by lia. auto.
      * destruct e; auto.
    + rewrite H. split; [intros F x y e e' Hlt Hx Hy; apply (F x) with y; auto; apply in_seq; apply nth_error_some_lt in Hx; lia|]. intros F x _ y e e'. apply F.
Qed.

Lemma entries_checked mw nw (la : list (option (nat * nat * nat))) : exists ok, fold_left (check_entry mw nw) la (true, 0) =
    (ok, list_max (map (fun e => match e with Some (_, w) => w | None => 0 end) la)) /\
  (ok = true <-> forall i j w, In (Some (i, j, w)) la -> i <> j /\ w < mw /\ w < nw).
Proof.
  enough (G : forall la ok0 m0, exists ok, fold_left (check_entry mw nw) la (ok0, m0) =
    (ok, Nat.max (list_max (map (fun e => match e with Some (_, w) => w | None => 0 end) la)) m0) /\
    (ok = true <-> ok0 = true /\ forall i j w, In (Some (i, j, w)) la -> i <> j /\ w < mw /\ w < nw)).
  { destruct (G la true 0) as [ok [E H]]. exists ok. rewrite E, Nat.max_0_r. split; auto. rewrite H. tauto. }
  clear. induction la as [|e la IH]; intros ok0 m0.
  - exists ok0. cbn. split; auto. split; [intros; split; auto; intros ? ? ? []|tauto].
  - cbn [fold_left map]. destruct e as [[[i j] w]|]; cbn [check_entry fst snd].
    + destruct (IH (ok0 && negb (i =? j) && (w <? mw) && (w <? nw)) (Nat.max w m0)) as [ok [E H]]. exists ok. rewrite E. split; [f_equal; unfold list_max; cbn [fold_right]; lia|].
      rewrite H, !andb_true_iff, negb_true_iff, Nat.eqb_neq, !Nat.ltb_lt. split.
      * intros [[[[H1 H2] H3] H4] H5]. split; auto. intros i' j' w' [[= <- <- <-]|Hin]; auto.
      * intros [H1 H2]. split; [|intros; apply H2; cbn; auto]. destruct (H2 i j w (or_introl eq_refl)) as [? [? ?]]. tauto.
    + destruct (IH ok0 m0) as [ok [E H]]. exists ok. rewrite E. split; [f_equal; unfold list_max; cbn [fold_right]; lia|]. rewrite H. split; intros [H1 H2]; split; auto.
      * intros i j w [Q|Hin]; [discriminate|auto].
      * intros; apply H2; cbn; auto.
Qed.

Section Check.
  Context (d : device) (bl : block_list) (P : cell_pairs).
  Hypothesis Hd : device_ok d.
  Let bs := bl_block_size bl.
  Hypothesis Hbs : 1 <= bl_block_size bl.
  Hypothesis R : readable bl P.

  Lemma read_entry c x : c < length P -> check_read bl c (length (pairs_in P c)) x = Some (nth_error (pairs_in P c) x).
  Proof.
    intros Hc. unfold check_read. pose proof (rb_pairs _ _ R c Hc) as E. unfold read_block_pairs in E. destruct (bl_num_pairs bl c) as [n|]; [|discriminate]. cbn [obind] in E.
    assert (Ln : length (pairs_in P c) = n) by (apply mapM_length in E; rewrite seq_length in E; auto). rewrite Ln.
    destruct (Nat.ltb_spec x n) as [Hx|Hx].
    - pose proof (mapM_nth _ _ _ x x E) as G. rewrite nth_error_seq in G. destruct (Nat.ltb_spec x n); [|lia]. specialize (G eq_refl). cbn beta in G.
      destruct (nth_error_lt_some (pairs_in P c) x) as [[[i j] w] Ex]; [lia|]. rewrite Ex in *.
      destruct (bl_index_i bl c x); [|discriminate]. cbn [obind] in *. destruct (bl_index_j bl c x); [|discriminate]. cbn [obind] in *.
      destruct (bl_pair_wave bl c x); [|discriminate]. cbn [obind] in *. congruence.
    - symmetry. f_equal. apply nth_error_None. lia.
  Qed.

  Lemma num_pairs c : c < length P -> bl_num_pairs bl c = Some (length (pairs_in P c)).
  Proof.
    intros Hc. pose proof (rb_pairs _ _ R c Hc) as E. unfold read_block_pairs in E. destruct (bl_num_pairs bl c) as [n|]; [|discriminate]. cbn [obind] in E.
    apply mapM_length in E. rewrite seq_length in E. congruence.
  Qed.

  (** What is checked about a block. *)
  Definition block_fine (c b : nat) : Prop :=
    let L := block_of bs b (pairs_in P c) in
    (forall i j w, In (i, j, w) L -> i <> j /\ w < bl_max_wave_count bl) /\
    exists waves, bl_num_waves bl c b = Some waves /\ wave_block L waves /\ exists p w, waves = S w /\ In (p, w) L.

  Lemma shared_checked i j w i' j' w' : check_pair (Some (i, j, w)) (Some (i', j', w')) = true <-> (w = w' -> ~ share (i, j) (i', j')).
  Proof.
    unfold check_pair, share. cbn [fst snd]. destruct (Nat.eqb_spec w w') as [->|N]; [|tauto]. rewrite !andb_true_iff, !negb_true_iff, !Nat.eqb_neq. split.
    - intros H _. lia.
    - intros H. specialize (H eq_refl). lia.
  Qed.

  Lemma block_checked c b : c < length P -> b * bs < length (pairs_in P c) ->
    exists ok, check_block bl c (length (pairs_in P c)) b = Some (ok, length (block_of bs b (pairs_in P c))) /\ (ok = true <-> block_fine c b).
  Proof.
    intros Hc Hb. unfold check_block. fold bs. destruct (rb_waves _ _ R c b Hb) as [nw En]. rewrite En. cbn [obind].
    rewrite (mapM_some _ (fun x => nth_error (pairs_in P c) (b * bs + x))) by (intros x _; apply read_entry; auto). cbn [obind].
    set (L := pairs_in P c) in *. set (la := map _ _). set (B := block_of bs b L).
    assert (LA : forall x, nth_error la x = if x <? bs then Some (nth_error B x) else None).
    { intros x. unfold la. rewrite nth_error_map_seq. destruct (Nat.ltb_spec x bs); auto. cbn [Nat.add]. unfold B. rewrite block_of_nth. destruct (Nat.ltb_spec x bs); [auto|lia]. }
    assert (LI : forall e, In (Some e) la <-> In e B).
    { intros e. split; intros H; apply In_nth_error in H as [x H].
      - rewrite LA in H. destruct (x <? bs); [|discriminate]. injection H as H. eapply nth_error_In; eauto.
      - apply nth_error_In with x. rewrite LA. assert (x < bs) by (apply nth_error_some_lt in H; unfold B in H; rewrite block_of_length in H; lia). destruct (Nat.ltb_spec x bs); [congruence|lia]. }
    destruct (entries_checked (bl_max_wave_count bl) nw la) as [ok1 [E1 H1]]. rewrite E1. destruct (pairs_checked la) as [ok2 [E2 H2]]. rewrite E2. cbn [obind fst snd].
    eexists. split.
    - do 2 f_equal. assert (F : filter is_some la = map Some B).
      { clear -LA. assert (Lb : length B <= bs) by (unfold B; rewrite block_of_length; lia). assert (la = map Some B ++ repeat None (bs - length B)) as ->.
        { apply nth_error_ext. intros x. rewrite LA. destruct (lt_dec x (length B)) as [Hx|Hx].
          - rewrite nth_error_app1 by (rewrite map_length; auto). rewrite nth_error_map. destruct (Nat.ltb_spec x bs); [|lia]. destruct (nth_error_lt_some B x Hx) as [e ->]. auto.
          - rewrite nth_error_app2 by (rewrite map_length; lia). rewrite map_length. assert (nth_error B x = None) as -> by (apply nth_error_None; lia).
            destruct (Nat.ltb_spec x bs).
            + symmetry. rewrite (nth_error_nth' _ None) by (rewrite repeat_length; lia). f_equal. apply nth_repeat.
            + symmetry. apply nth_error_None. rewrite repeat_length. lia. }
        rewrite filter_app. replace (filter is_some (repeat None (bs - length B))) with (@nil (option (nat * nat * nat))).
        - rewrite app_nil_r. apply filter_somes.
        - symmetry. apply filter_nones. }
      rewrite F, map_length. auto.
    - rewrite !andb_true_iff, H1, H2, Nat.eqb_eq.
      assert (Bne : B <> []) by (intros Q; apply (f_equal (@length _)) in Q; unfold B in Q; rewrite block_of_length in Q; cbn in Q; lia).
      assert (MX : list_max (map (fun e : option (nat * nat * nat) => match e with Some (_, w) => w | None => 0 end) la) = list_max (map snd B)).
      { apply Nat.le_antisymm; apply list_max_le; rewrite Forall_forall; intros w Hw; apply in_map_iff in Hw as [e [<- He]].
        - destruct e as [[[i j] w']|]; [|lia]. apply LI in He. apply list_max_in. apply (in_map snd) in He. auto.
        - destruct e as [[i j] w']. apply list_max_in. apply LI in He. apply (in_map (fun e : option (nat * nat * nat) => match e with Some (_, w) => w | None => 0 end)) in He. auto. }
      rewrite MX. unfold block_fine. fold B. cbv zeta. split.
      + intros [[F1 F2] F3]. split; [intros i j w Hin; apply LI in Hin; destruct (F1 i j w Hin) as [? [? _]]; auto|].
        exists nw. split; auto. split; [constructor|].
        * intros x y [i j] [i' j'] w Nxy Hx Hy.
          assert (Q : forall x y p q, x < y -> nth_error B x = Some (p, w) -> nth_error B y = Some (q, w) -> ~ share p q).
          { intros x0 y0 [i0 j0] [i1 j1] Hlt Hx0 Hy0. apply (proj1 (shared_checked i0 j0 w i1 j1 w)); auto. apply (F3 x0 y0); auto.
            - rewrite LA. assert (x0 < bs) by (apply nth_error_some_lt in Hx0; unfold B in Hx0; rewrite block_of_length in Hx0; lia). destruct (Nat.ltb_spec x0 bs); [congruence|lia].
            - rewrite LA. assert (y0 < bs) by (apply nth_error_some_lt in Hy0; unfold B in Hy0; rewrite block_of_length in Hy0; lia). destruct (Nat.ltb_spec y0 bs); [congruence|lia]. }
          destruct (lt_eq_lt_dec x y) as [[Hlt|]|Hlt]; [|lia|].
          -- apply (Q x y); auto.
          -- intros Sh. apply (Q y x (i', j') (i, j) Hlt Hy Hx). unfold share in *. lia.
        * intros [i j] w Hin. apply LI in Hin. destruct (F1 i j w Hin) as [_ [_ ?]]. auto.
        * assert (In (list_max (map snd B)) (map snd B)) as Hin.
          { destruct (Nat.eq_dec (list_max (map snd B)) 0) as [Z0|Z0]; [|destruct (list_max_attained (map snd B)); [lia|auto]]. rewrite Z0. destruct B as [|[p w] B']; [congruence|].
            cbn [map snd] in *. left. cbn in Z0. lia. }
          apply in_map_iff in Hin as [[p w] [Ew Hin]]. cbn in Ew. exists p, w. split; auto. lia.
      + intros [F1 [waves [Ew [WB [p [w [Es Hin]]]]]]]. rewrite En in Ew. injection Ew as <-. split; [split|].
        * intros i j w' Hin'. apply LI in Hin'. destruct (F1 i j w' Hin') as [? ?]. split; auto. split; auto. apply (wb_waves _ _ WB (i, j)). auto.
        * assert (list_max (map snd B) = w); [|lia]. apply Nat.le_antisymm.
          -- apply list_max_le. rewrite Forall_forall. intros w' Hw'. apply in_map_iff in Hw' as [[p' w''] [<- Hw']]. cbn. apply (wb_waves _ _ WB) in Hw'. lia.
          -- apply list_max_in. apply (in_map snd) in Hin. auto.
        * intros x y e e' Hlt Hx Hy. rewrite LA in Hx, Hy. destruct (x <? bs), (y <? bs); try discriminate. injection Hx as <-. injection Hy as <-.
          destruct (nth_error B x) as [[[i j] w']|] eqn:Ex; [|auto]. destruct (nth_error B y) as [[[i' j'] w'']|] eqn:Ey; [|auto].
          apply shared_checked. intros <-. apply (wb_apart _ _ WB x y _ _ w'); auto. lia.
  Qed.

  Lemma block_lengths c : list_sum (map (fun b => length (block_of bs b (pairs_in P c))) (seq 0 (div_round_up (length (pairs_in P c)) bs))) = length (pairs_in P c).
  Proof.
    set (L := pairs_in P c). pose proof (blocks_concat bs L (div_round_up (length L) bs) Hbs) as E.
    assert (length L <= div_round_up (length L) bs * bs) as Hle.
    { destruct (le_lt_dec (length L) (div_round_up (length L) bs * bs)) as [|Z0]; auto. apply div_round_up_lt in Z0; auto. lia. }
    specialize (E Hle). apply (f_equal (@length _)) in E. rewrite flat_map_len in E. exact E.
  Qed.

  (** What is checked about a cell. *)
  Definition cell_fine (c : nat) : Prop :=
    (c = 0 -> bl_linear_index bl 0 0 = Some 0) /\
    (S c < length P -> exists e, bl_linear_index bl c 0 = Some e /\ bl_linear_index bl (S c) 0 = Some (e + length (pairs_in P c))) /\
    forall b, b * bs < length (pairs_in P c) -> block_fine c b.

  Lemma cell_checked c : c < length P -> exists ok, check_cell bl c = Some (ok, length (pairs_in P c)) /\ (ok = true <-> cell_fine c).
  Proof.
    intros Hc. unfold check_cell. fold bs. rewrite num_pairs by auto. cbn [obind]. rewrite (rb_cells _ _ R).
    assert (exists ok0, (if c =? 0 then e <- bl_linear_index bl 0 0 ;; Some (e =? 0) else Some true) = Some ok0 /\ (ok0 = true <-> (c = 0 -> bl_linear_index bl 0 0 = Some 0))) as [ok0 [E0 H0]].
    { destruct (Nat.eqb_spec c 0) as [->|N]; [|exists true; split; auto; split; auto; intros; lia].
      destruct (rb_start _ _ R 0 Hc) as [e Ee]. rewrite Ee. cbn [obind]. exists (e =? 0). split; auto. rewrite Nat.eqb_eq. split; [intros ->; auto|intros H; specialize (H eq_refl); congruence]. }
    rewrite E0. cbn [obind].
    assert (exists ok1, (if c <? length P - 1 then c0 <- bl_linear_index bl c 0 ;; c1 <- bl_linear_index bl (c + 1) 0 ;; n <- rd (bl_pair_counts bl) c ;; Some (Z.of_nat n =? Z.of_nat c1 - Z.of_nat c0)%Z else Some true) = Some ok1 /\
      (ok1 = true <-> (S c < length P -> exists e, bl_linear_index bl c 0 = Some e /\ bl_linear_index bl (S c) 0 = Some (e + length (pairs_in P c))))) as [ok1 [E1 H1]].
    { destruct (Nat.ltb_spec c (length P - 1)) as [Hl|Hl]; [|exists true; split; auto; split; auto; intros; lia].
      destruct (rb_start _ _ R c Hc) as [e Ee]. rewrite Ee. cbn [obind]. rewrite Nat.add_1_r. destruct (rb_start _ _ R (S c)) as [e' Ee']; [lia|]. rewrite Ee'. cbn [obind].
      pose proof (num_pairs c Hc) as En. unfold bl_num_pairs in En. rewrite En. cbn [obind]. eexists. split; [reflexivity|]. rewrite Z.eqb_eq. split.
      - intros Q _. exists e. split; auto. f_equal. lia.
      - intros Q. destruct Q as [e0 [Q1 Q2]]; [lia|]. injection Q1 as <-. injection Q2 as ->. lia. }
    rewrite E1. cbn [obind].
    match goal with |- context [foldM ?b _ _] => set (body := b) end.
    destruct (foldM_check body (fun b => block_fine c b) (fun b => length (block_of bs b (pairs_in P c))) (seq 0 (div_round_up (length (pairs_in P c)) bs))) as [okb [Eb Hb]].
    { intros b Hb. apply in_seq in Hb. destruct (block_checked c b Hc) as [f [Ef Hf]]; [apply div_round_up_lt; auto; lia|]. exists f. split; auto.
      intros ok n. unfold body. rewrite Ef. auto. }
    exists (ok0 && ok1 && okb). rewrite Eb, block_lengths. split; auto. rewrite !andb_true_iff, H0, H1, Hb. unfold cell_fine. split.
    - intros [[A B] C]. split; auto. split; auto. intros b Hlt. apply C. apply in_seq. split; [lia|]. apply div_round_up_lt; auto.
    - intros [A [B C]]. split; [auto|]. intros b Hin. apply C. apply in_seq in Hin. apply div_round_up_lt; auto. lia.
  Qed.

  Lemma cells_checked k : exists ok, (forall ok0 n, foldM (fun '(ok, count) index_cell => r <- check_cell bl index_cell ;; Some (ok && fst r, count + snd r)) (ok0, n) (ord d k (seq 0 (bl_cell_count bl))) =
    Some (ok0 && ok, n + list_sum (map (@length _) P))) /\ (ok = true <-> forall c, c < length P -> cell_fine c).
  Proof.
    match goal with |- context [foldM ?b] => set (body := b) end.
    assert (PM : Permutation (ord d k (seq 0 (bl_cell_count bl))) (seq 0 (length P))) by (rewrite (rb_cells _ _ R); apply Hd).
    destruct (foldM_check body cell_fine (fun c => length (pairs_in P c)) (ord d k (seq 0 (bl_cell_count bl)))) as [ok [E H]].
    { intros c Hc. apply (Permutation_in _ PM) in Hc. apply in_seq in Hc. destruct (cell_checked c) as [f [Ef Hf]]; [lia|]. exists f. split; auto. intros; unfold body; rewrite Ef; auto. }
    exists ok. split.
    - intros ok0 n. rewrite E. do 3 f_equal. rewrite (sum_perm _ _ (Permutation_map _ PM)). f_equal. unfold pairs_in.
      rewrite <- (map_map (fun c => nth c P []) (@length _)). f_equal. apply nth_error_ext. intros c. rewrite nth_error_map_seq. destruct (Nat.ltb_spec c (length P)).
      + cbn [Nat.add]. symmetry. apply nth_error_nth'. auto.
      + symmetry. apply nth_error_None. auto.
    - rewrite H. split; intros Q c Hc; apply Q.
      + apply (Permutation_in _ (Permutation_sym PM)), in_seq. lia.
      + apply (Permutation_in _ PM), in_seq in Hc. lia.
  Qed.

  Lemma start_sum : (forall c, c < length P -> cell_fine c) -> forall c, c < length P -> bl_linear_index bl c 0 = Some (list_sum (map (@length _) (firstn c P))).
  Proof.
    intros F c. induction c as [|c IH]; intros Hc.
    - destruct (F 0 Hc) as [A _]. auto.
    - specialize (IH ltac:(lia)). destruct (F c ltac:(lia)) as [_ [B _]]. destruct (B Hc) as [e [E1 E2]]. rewrite IH in E1. injection E1 as <-. rewrite E2. f_equal.
      destruct (nth_error_lt_some P c) as [row Er]; [lia|]. rewrite (firstn_snoc_nth P c row Er), map_app, list_sum_app. unfold pairs_in. rewrite (nth_error_nth _ _ [] Er). cbn. lia.
  Qed.

  Theorem validate_ok k : exists b, validate_pair_list d k bl = Some b /\
    (b = true <-> holds bs bl P /\ no_self_pairs P /\ waves_needed bl P).
  Proof.
    unfold validate_pair_list. fold bs. destruct (Nat.ltb_spec bs (bl_max_wave_count bl)) as [Hm|Hm].
    { exists false. split; auto. split; [discriminate|]. intros [H _]. pose proof (h_max _ _ _ H). lia. }
    destruct (cells_checked k) as [ok [E H]]. rewrite E. cbn [obind fst snd andb Nat.add].
    destruct (Nat.eqb_spec (list_sum (map (@length _) P)) (bl_pair_count bl)) as [Ec|Ec]; cbn [negb].
    2: { exists false. split; auto. split; [discriminate|]. intros [Q _]. pose proof (h_count _ _ _ Q). congruence. }
    exists ok. split; auto. rewrite H.
    assert (IN : forall c x e, nth_error (pairs_in P c) x = Some e -> c < length P /\ x / bs * bs < length (pairs_in P c) /\ In e (block_of bs (x / bs) (pairs_in P c))).
    { intros c x e Hx. pose proof (Nat.div_mod x bs ltac:(unfold bs; lia)). pose proof (Nat.mod_upper_bound x bs ltac:(unfold bs; lia)). pose proof (nth_error_some_lt _ _ _ Hx) as Hl.
      split; [destruct (lt_dec c (length P)); auto; unfold pairs_in in Hl; rewrite nth_overflow in Hl by lia; cbn in Hl; lia|]. split; [lia|].
      apply nth_error_In with (x mod bs). rewrite block_of_nth. destruct (Nat.ltb_spec (x mod bs) bs); [|lia]. replace (x / bs * bs + x mod bs) with x by lia. auto. }
    assert (CL : forall c b, b * bs < length (pairs_in P c) -> c < length P).
    { intros c b Hb. destruct (lt_dec c (length P)); auto. unfold pairs_in in Hb. rewrite nth_overflow in Hb by lia. cbn in Hb. lia. }
    split.
    - intros F. pose proof (start_sum F) as SS. split; [constructor|split].
      + reflexivity.
      + auto.
      + apply (rb_pairs _ _ R).
      + intros c x Hc. specialize (SS c Hc). unfold bl_linear_index in *. destruct (rd (bl_pair_counts_es bl) c); [|discriminate]. cbn [obind] in *. injection SS as E0. f_equal. lia.
      + intros c b Hb. destruct (F c (CL c b Hb)) as [_ [_ B]]. destruct (B b Hb) as [F1 [waves [W1 [W2 [p [w [-> Hin]]]]]]]. exists (S w). split; auto. split; auto.
        destruct p as [i j]. destruct (F1 i j w Hin) as [_ ?]. lia.
      + auto.
      + intros c i j w Hin. apply In_nth_error in Hin as [x Hx]. destruct (IN c x _ Hx) as [Hc [Hb Hi]]. destruct (F c Hc) as [_ [_ B]]. destruct (B _ Hb) as [F1 _]. apply (F1 i j w Hi).
      + intros c b waves Hb Ew. fold bs in Hb. destruct (F c (CL c b Hb)) as [_ [_ B]]. destruct (B b Hb) as [_ [waves' [W1 [_ W3]]]]. rewrite W1 in Ew. injection Ew as <-. auto.
    - intros [HH [NS WN]] c Hc. split; [|split].
      + intros _. apply (h_index _ _ _ HH 0 0). lia.
      + intros Hs. exists (list_sum (map (@length _) (firstn c P))). split; [rewrite (h_index _ _ _ HH c 0 Hc), Nat.add_0_r; auto|].
        rewrite (h_index _ _ _ HH (S c) 0 Hs), Nat.add_0_r. f_equal. destruct (nth_error_lt_some P c Hc) as [row Er].
        rewrite (firstn_snoc_nth P c row Er), map_app, list_sum_app. unfold pairs_in. rewrite (nth_error_nth _ _ [] Er). cbn. lia.
      + intros b Hb. destruct (h_waves _ _ _ HH c b Hb) as [waves [W1 [W2 W3]]]. split.
        * intros i j w Hin. split; [apply (NS c i j w); eapply block_of_in; eauto|]. apply (wb_waves _ _ W2) in Hin. lia.
        * exists waves. auto.
  Qed.
End Check.
