(** Proofs about the sampler with replacement: a call of sample. *)
From Coq Require Import List Arith Lia ZArith QArith Bool Permutation.
Import ListNotations.
From Verif Require Import Base Kernel Scan_Model PairList_Spec PairHost_Proofs SamplerNTC_Model SamplerNTC_Spec SamplerNTC_Proofs SamplerNTCBlock_Proofs SamplerNTCCell_Proofs SamplerNTCDraw_Proofs.
Local Open Scope nat_scope.

Lemma next_multiple_blocks n bs : 1 <= bs -> get_next_multiple n bs / bs = div_round_up n bs.
Proof.
  intros Hb. unfold get_next_multiple. rewrite Nat.div_mul by lia. set (q := (n + (bs - 1)) / bs).
  pose proof (Nat.div_mod (n + (bs - 1)) bs) as D. pose proof (Nat.mod_upper_bound (n + (bs - 1)) bs) as M. fold q in D.
  set (r := (n + (bs - 1)) mod bs) in *. pose proof (div_round_up_lt n bs q Hb) as L1. pose proof (div_round_up_lt n bs (q - 1) Hb) as L2.
  destruct q as [|q]; [|cbn [Nat.sub] in L2; rewrite Nat.sub_0_r in L2]; nia.
Qed.

Lemma sum_firstn_S l k v : nth_error l k = Some v -> list_sum (firstn (S k) l) = list_sum (firstn k l) + v.
Proof. intros H. rewrite (firstn_snoc_nth _ _ _ H), list_sum_app. cbn. lia. Qed.

Lemma sum_firstn_le l k : list_sum (firstn k l) <= list_sum l.
Proof. rewrite <- (firstn_skipn k l) at 2. rewrite list_sum_app. lia. Qed.

Lemma sum_firstn_mono l k k' : k <= k' -> list_sum (firstn k l) <= list_sum (firstn k' l).
Proof. intros H. replace (firstn k l) with (firstn k (firstn k' l)); [apply sum_firstn_le|]. rewrite firstn_firstn. f_equal. lia. Qed.

Section Sample.
  Context (d : device) (cells bs : nat) (r : ntc_request).
  Hypothesis Hd : device_ok d.
  Hypothesis Hbs : 1 <= bs.
  Hypothesis OK : ntc_ok cells r.
  Local Notation counts := (s_counts r).
  Local Notation total := (list_sum (s_counts r)).
  Definition cnt (c : nat) : nat := nth c counts 0.
  Definition off (c : nat) : nat := list_sum (firstn c counts).
  Definition nblocks (c : nat) : nat := div_round_up (cnt c) bs.

  Lemma cnt_nth c : c < cells -> nth_error counts c = Some (cnt c).
  Proof. intros H. apply nth_error_nth'. rewrite (no_counts _ _ OK). auto. Qed.

  Lemma off_S c : c < cells -> off (S c) = off c + cnt c.
  Proof. intros H. apply sum_firstn_S, cnt_nth; auto. Qed.

  Lemma off_le c : c < cells -> off c + cnt c <= total.
  Proof. intros H. rewrite <- off_S by auto. apply sum_firstn_le. Qed.

  Lemma off_apart c c' : c < cells -> c' < cells -> c <> c' -> off c + cnt c <= off c' \/ off c' + cnt c' <= off c.
  Proof.
    intros H H' N. rewrite <- !off_S by auto. destruct (lt_dec c c'); [left|right]; apply sum_firstn_mono; lia.
  Qed.

  (** The numbers asked for. *)
  Lemma requests_ok pc0 es0 : length pc0 = cells -> length es0 = cells ->
    exists pc es mb, foldM (request_cell bs (s_same r) (s_a r) (s_b r) counts) (pc0, es0, 0, 0) (seq 0 cells) = Some (pc, es, total, mb) /\
      (forall c, c < cells -> nth_error pc c = Some (cnt c) /\ nth_error es c = Some (off c) /\ nblocks c <= mb) .
  Proof.
    intros Lp Le.
    destruct (foldM_ind (request_cell bs (s_same r) (s_a r) (s_b r) counts) (fun pre st => let '(pc, es, ex, mb) := st in
      length pc = cells /\ length es = cells /\ ex = off (length pre) /\ forall c, c < length pre -> nth_error pc c = Some (cnt c) /\ nth_error es c = Some (off c) /\ nblocks c <= mb)
      (seq 0 cells) (pc0, es0, 0, 0)) as [[[[pc es] ex] mb] [E [H1 [H2 [H3 H4]]]]].
    - repeat split; auto; cbn in *; lia.
    - intros pre c post [[[pc es] ex] mb] Es [H1 [H2 [H3 H4]]]. destruct (seq_pos _ _ _ _ _ Es) as [Ec Lc]. rewrite Nat.add_0_l in Ec. rewrite <- Ec in *.
      unfold request_cell, rd. rewrite cnt_nth by auto. cbn [obind].
      destruct (upd_some pc c (cnt c)) as [pc' U1]; [lia|]. rewrite U1. cbn [obind].
      destruct (nth_error_lt_some (s_a r) c) as [ra Ea]; [rewrite (no_a _ _ OK); auto|]. destruct (nth_error_lt_some (s_b r) c) as [rb Eb]; [rewrite (no_b _ _ OK); auto|].
      rewrite Ea. cbn [obind]. rewrite Eb. cbn [obind].
      assert (A : (if s_same r then assert ((2 <=? length ra) || (cnt c =? 0)) else _ <- assert ((1 <=? length ra) || (cnt c =? 0)) ;; assert ((1 <=? length rb) || (cnt c =? 0))) = Some tt).
      { destruct (Nat.eqb_spec (cnt c) 0) as [Ez|Nz].
        - rewrite !orb_true_r. destruct (s_same r); auto.
        - pose proof (no_enough _ _ OK c Nz) as N. rewrite (nth_error_nth _ _ [] Ea), (nth_error_nth _ _ [] Eb) in N. rewrite !orb_false_r. destruct (s_same r).
          + rewrite (proj2 (Nat.leb_le 2 (length ra))); auto.
          + rewrite (proj2 (Nat.leb_le 1 (length ra))), (proj2 (Nat.leb_le 1 (length rb))) by lia. auto. }
      rewrite A. cbn [obind]. destruct (upd_some es c ex) as [es' U2]; [lia|]. rewrite U2. cbn [obind].
      eexists. split; [reflexivity|]. cbn beta iota. rewrite (upd_length _ _ _ _ U1), (upd_length _ _ _ _ U2). split; auto. split; auto. rewrite app_length. cbn [length].
      rewrite next_multiple_blocks by auto. fold (nblocks c). rewrite <- Ec, Nat.add_1_r. split; [rewrite off_S by auto; lia|].
      intros x Hx. rewrite (upd_nth _ _ _ _ x U1), (upd_nth _ _ _ _ x U2). destruct (Nat.eqb_spec x c) as [->|Nx].
      + split; auto. split; [congruence|lia].
      + destruct (H4 x) as [A1 [A2 A3]]; [lia|]. split; auto. split; auto. lia.
    - rewrite seq_length in *. exists pc, es, mb. split; auto. rewrite E. do 2 f_equal. rewrite H3. unfold off. rewrite firstn_all2; auto. rewrite (no_counts _ _ OK). auto.
  Qed.

  Lemma npart_ok : exists m, foldM (fun m cellx => n <- rd (s_npart r) cellx ;; Some (Nat.max m n)) 0 (seq 0 cells) = Some m /\
    forall c, c < cells -> exists n, nth_error (s_npart r) c = Some n /\ n <= m.
  Proof.
    destruct (foldM_ind (fun m cellx => n <- rd (s_npart r) cellx ;; Some (Nat.max m n))
      (fun pre m => forall c, In c pre -> exists n, nth_error (s_npart r) c = Some n /\ n <= m) (seq 0 cells) 0) as [m [E H]].
    - intros c [].
    - intros pre c post m Es H. destruct (seq_pos _ _ _ _ _ Es) as [Ec Lc]. rewrite Nat.add_0_l in Ec.
      destruct (nth_error_lt_some (s_npart r) c) as [n En]; [pose proof (no_npart _ _ OK); lia|]. unfold rd. rewrite En. cbn [obind]. eexists. split; [reflexivity|].
      intros x Hx. apply in_app_iff in Hx as [Hx|[<-|[]]].
      + destruct (H x Hx) as [nx [Ex Lx]]. exists nx. split; auto. lia.
      + exists n. split; auto. lia.
    - exists m. split; auto. intros c Hc. apply H, in_seq. lia.
  Qed.

  (** The pairs of a cell. *)
  Definition reals : list Q := s_rng r (2 * total).
  Definition rp : nat -> nat -> option (nat * nat) := read_pair (s_same r) (s_a r) (s_b r) reals total.
  Definition PSof (c : nat) : list (nat * nat) := match mapM (fun x => rp c (off c + x)) (seq 0 (cnt c)) with Some l => l | None => [] end.

  Lemma drawn c x : c < cells -> x < cnt c -> exists i j u v, rp c (off c + x) = Some (i, j) /\
    nth_error reals (off c + x) = Some u /\ nth_error reals (total + (off c + x)) = Some v /\
    In i (nth c (s_a r) []) /\ In j (nth c (s_b r) []) /\ (s_same r = true -> i <> j) /\
    ((u < 1)%Q -> (v < 1)%Q -> chosen (s_same r) (nth c (s_a r) []) (nth c (s_b r) []) u v i j).
  Proof.
    intros Hc Hx. pose proof (off_le c Hc) as Ho. destruct (no_rng _ _ OK (2 * total)) as [Lr Hr]. fold reals in Lr, Hr.
    destruct (nth_error_lt_some reals (off c + x)) as [u Eu]; [lia|]. destruct (nth_error_lt_some reals (total + (off c + x))) as [v Ev]; [lia|].
    destruct (nth_error_lt_some (s_a r) c) as [ra Ea]; [rewrite (no_a _ _ OK); auto|]. destruct (nth_error_lt_some (s_b r) c) as [rb Eb]; [rewrite (no_b _ _ OK); auto|].
    pose proof (no_enough _ _ OK c) as N. pose proof (no_sets _ _ OK c) as [S1 S2]. rewrite (nth_error_nth _ _ [] Ea) in *. rewrite (nth_error_nth _ _ [] Eb) in *.
    destruct (pair_facts (s_same r) (s_a r) (s_b r) c ra rb u v Ea Eb) as [i [j [E [I1 [I2 [I3 I4]]]]]]; auto.
    - intros Es. pose proof (no_same _ _ OK Es). congruence.
    - apply N. unfold cnt in Hx. lia.
    - apply Hr. eapply nth_error_In; eauto.
    - apply Hr. eapply nth_error_In; eauto.
    - exists i, j, u, v. unfold rp, read_pair, rd. rewrite Eu. cbn [obind]. rewrite Ev. cbn [obind]. auto 10.
  Qed.

  Lemma PSof_ok c : c < cells -> length (PSof c) = cnt c /\ forall x p, nth_error (PSof c) x = Some p -> rp c (off c + x) = Some p.
  Proof.
    intros Hc. unfold PSof.
    assert (exists l, mapM (fun x => rp c (off c + x)) (seq 0 (cnt c)) = Some l) as [l E].
    { rewrite (mapM_some _ (fun x => match rp c (off c + x) with Some p => p | None => (0, 0) end)); [eauto|]. intros x Hx. apply in_seq in Hx.
      destruct (drawn c x Hc) as [i [j [u [v [E _]]]]]; [lia|]. rewrite E. auto. }
    rewrite E. split; [rewrite (mapM_length _ _ _ E), seq_length; auto|]. intros x p Hp.
    assert (x < cnt c). { apply nth_error_some_lt in Hp. rewrite (mapM_length _ _ _ E), seq_length in Hp. auto. }
    rewrite (mapM_nth _ _ _ x x E); auto. rewrite nth_error_seq. destruct (Nat.ltb_spec x (cnt c)); [auto|lia].
  Qed.

  Lemma PSof_range c : c < cells -> forall l p, nth_error (PSof c) l = Some p -> fst p < nth c (s_npart r) 0 /\ snd p < nth c (s_npart r) 0.
  Proof.
    intros Hc l p Hp. destruct (PSof_ok c Hc) as [L R]. pose proof (R _ _ Hp) as E. destruct (drawn c l Hc) as [i [j [u [v [E' [_ [_ [I1 [I2 _]]]]]]]]].
    { apply nth_error_some_lt in Hp. lia. }
    rewrite E in E'. injection E' as ->. cbn [fst snd]. split; [apply (no_layers _ _ OK c (nth c (s_a r) []))|apply (no_layers _ _ OK c (nth c (s_b r) []))]; cbn; auto.
  Qed.

  (** The work of the cells. *)
  Definition cell_done (cpu : bool) (ws pl wc : list nat) (c : nat) : Prop :=
    length ws = cnt c /\
    (forall x p w, nth_error (PSof c) x = Some p -> nth_error ws x = Some w -> view total pl (off c + x) = Some (p, w)) /\
    (forall b, b < nblocks c -> exists o, greedy_in o (block_of bs b (PSof c)) (block_of bs b ws) /\
       (cpu = true -> o = seq 0 (length (block_of bs b (PSof c)))) /\
       nth_error wc (b * cells + c) = Some (list_max (map S (block_of bs b ws)))).

  Lemma cells_ok cpu (work : list nat * list nat * nat -> nat -> option (list nat * list nat * nat)) k pl0 wc0 :
    length pl0 = total * 3 ->
    (forall c pl wc mw, c < cells -> length pl = length pl0 -> length wc = length wc0 ->
       exists pl' wc' mw', work (pl, wc, mw) c = Some (pl', wc', mw') /\ cell_eff bs cells total (PSof c) c (off c) cpu pl wc mw pl' wc' mw') ->
    exists pl wc mw wsf, foldM work (pl0, wc0, 0) (ord d k (seq 0 cells)) = Some (pl, wc, mw) /\ length pl = length pl0 /\
      (forall c, c < cells -> cell_done cpu (wsf c) pl wc c) /\
      (forall c, c < cells -> list_max (map S (wsf c)) <= mw) /\ (mw = 0 \/ exists c, c < cells /\ list_max (map S (wsf c)) = mw).
  Proof.
    intros Lpl Hw. pose proof Hd as [Hp _].
    destruct (foldM_ind work (fun pre st => let '(pl, wc, mw) := st in length pl = length pl0 /\ length wc = length wc0 /\ exists wsf : nat -> list nat,
      (forall c, In c pre -> cell_done cpu (wsf c) pl wc c) /\ (forall c, In c pre -> list_max (map S (wsf c)) <= mw) /\
      (mw = 0 \/ exists c, In c pre /\ list_max (map S (wsf c)) = mw)) (ord d k (seq 0 cells)) (pl0, wc0, 0)) as [[[pl wc] mw] [E [L1 [L2 [wsf [D [M1 M2]]]]]]].
    - split; auto. split; auto. exists (fun _ => []). split; [intros c []|]. split; [intros c []|auto].
    - intros pre c post [[pl wc] mw] Es [L1 [L2 [wsf [D [M1 M2]]]]].
      assert (N : NoDup (ord d k (seq 0 cells))) by (eapply Permutation_NoDup; [apply Permutation_sym, Hp|apply seq_NoDup]).
      assert (In_lt : forall x, In x (pre ++ c :: post) -> x < cells). { intros x Hx. rewrite <- Es in Hx. apply (Permutation_in _ (Hp _ k _)), in_seq in Hx. lia. }
      assert (Hc : c < cells) by (apply In_lt, in_or_app; cbn; auto).
      assert (Nc : ~ In c pre) by (rewrite Es in N; apply NoDup_remove_2 in N; intros Hin; apply N, in_or_app; auto).
      destruct (Hw c pl wc mw Hc L1 L2) as [pl' [wc' [mw' [E [A1 [A2 [ws [B1 [B2 [B3 [B4 [B5 B6]]]]]]]]]]]]. destruct (PSof_ok c Hc) as [LP _].
      rewrite LP in *. fold (nblocks c) in B5, B6.
      exists (pl', wc', mw'). split; auto. split; [lia|]. split; [lia|]. exists (fun x => if x =? c then ws else wsf x).
      split; [|split].
      + intros x Hx. apply in_app_iff in Hx as [Hx|[<-|[]]].
        * destruct (Nat.eqb_spec x c) as [->|Nx]; [tauto|]. destruct (D x Hx) as [D1 [D2 D3]]. assert (Hxc : x < cells) by (apply In_lt, in_or_app; auto).
          split; auto. split.
          -- intros y p w Hpy Hwy. rewrite B4; [apply D2; auto| |].
             ++ pose proof (off_le x Hxc). apply nth_error_some_lt in Hwy. lia.
             ++ apply nth_error_some_lt in Hwy. destruct (off_apart x c Hxc Hc Nx); lia.
          -- intros b Hb. destruct (D3 b Hb) as [o [G1 [G2 G3]]]. exists o. split; auto. split; auto. rewrite B6; auto. intros b' Hb' Eq. apply Nx. assert (b = b') by nia. subst. lia.
        * rewrite Nat.eqb_refl. split; auto.
      + intros x Hx. apply in_app_iff in Hx as [Hx|[<-|[]]].
        * destruct (Nat.eqb_spec x c) as [->|Nx]; [tauto|]. pose proof (M1 x Hx). lia.
        * rewrite Nat.eqb_refl. lia.
      + destruct (le_dec (list_max (map S ws)) mw) as [Le|Le].
        * rewrite Nat.max_l in B2 by auto. subst mw'. destruct M2 as [->|[x [Hx Ex]]]; auto. right. exists x. split; [apply in_or_app; auto|].
          destruct (Nat.eqb_spec x c) as [->|Nx]; [tauto|auto].
        * right. exists c. split; [apply in_or_app; cbn; auto|]. rewrite Nat.eqb_refl. lia.
    - assert (I : forall c, c < cells <-> In c (ord d k (seq 0 cells))).
      { intros c. split; intros H; [apply (Permutation_in _ (Permutation_sym (Hp _ k _))), in_seq; lia|apply (Permutation_in _ (Hp _ k _)), in_seq in H; lia]. }
      exists pl, wc, mw, wsf. split; auto. split; auto. split; [intros c Hc; apply D, I; auto|]. split; [intros c Hc; apply M1, I; auto|].
      destruct M2 as [|[c [Hc Ec]]]; auto. right. exists c. split; auto. apply I; auto.
  Qed.

  (** From the work of the cells to the result. *)
  Lemma result_ok cpu pc es pl wc mw wsf :
    (forall c, c < cells -> nth_error pc c = Some (cnt c) /\ nth_error es c = Some (off c)) ->
    (forall c, c < cells -> cell_done cpu (wsf c) pl wc c) ->
    (forall c, c < cells -> list_max (map S (wsf c)) <= mw) -> (mw = 0 \/ exists c, c < cells /\ list_max (map S (wsf c)) = mw) ->
    ntc_result cells bs r (mk_block_list total bs cells mw wc pc es pl) /\
    (cpu = true -> forall c L, c < cells -> read_block_pairs (mk_block_list total bs cells mw wc pc es pl) c = Some L -> in_list_order bs L).
  Proof.
    intros Hpc D M1 M2. set (bl := mk_block_list total bs cells mw wc pc es pl).
    assert (RD : forall c, c < cells -> read_block_pairs bl c = Some (combine (PSof c) (wsf c))).
    { intros c Hc. destruct (Hpc c Hc) as [P1 P2]. destruct (D c Hc) as [D1 [D2 _]]. destruct (PSof_ok c Hc) as [LP _].
      unfold read_block_pairs, bl_num_pairs, rd. cbn [bl bl_pair_counts]. rewrite P1. cbn [obind].
      rewrite (mapM_some _ (fun x => nth x (combine (PSof c) (wsf c)) (0, 0, 0))).
      - f_equal. apply nth_error_ext. intros x. rewrite nth_error_map_seq. destruct (Nat.ltb_spec x (cnt c)); cbn [Nat.add].
        + symmetry. apply nth_error_nth'. rewrite combine_length. lia.
        + symmetry. apply nth_error_None. rewrite combine_length. lia.
      - intros x Hx. apply in_seq in Hx. destruct (nth_error_lt_some (PSof c) x) as [p Ep]; [lia|]. destruct (nth_error_lt_some (wsf c) x) as [w Ew]; [lia|].
        pose proof (D2 x p w Ep Ew) as V. rewrite (nth_error_nth _ _ (0, 0, 0) (proj2 (nth_error_combine _ _ _ _ _) (conj Ep Ew))).
        unfold bl_index_i, bl_index_j, bl_pair_wave, bl_linear_index, rd. cbn [bl bl_pair_counts_es bl_pair_list bl_pair_count]. rewrite P2. cbn [obind].
        exact V. }
    assert (IN : forall c x i j w, c < cells -> nth_error (combine (PSof c) (wsf c)) x = Some (i, j, w) -> x < cnt c /\ rp c (off c + x) = Some (i, j)).
    { intros c x i j w Hc E. apply nth_error_combine in E as [E _]. destruct (PSof_ok c Hc) as [LP R]. split; [apply nth_error_some_lt in E; lia|auto]. }
    assert (BL : forall c b, c < cells -> b < nblocks c -> exists o, greedy_in o (block_of bs b (PSof c)) (block_of bs b (wsf c)) /\
       (cpu = true -> o = seq 0 (length (block_of bs b (PSof c)))) /\
       block_of bs b (combine (PSof c) (wsf c)) = combine (block_of bs b (PSof c)) (block_of bs b (wsf c)) /\
       bl_num_waves bl c b = Some (list_max (map S (block_of bs b (wsf c)))) /\ list_max (map S (block_of bs b (wsf c))) <= bs).
    { intros c b Hc Hb. destruct (D c Hc) as [D1 [D2 D3]]. destruct (PSof_ok c Hc) as [LP _]. destruct (D3 b Hb) as [o [G1 [G2 G3]]]. exists o. split; auto. split; auto.
      split; [apply block_of_combine; lia|]. split; [exact G3|]. pose proof (greedy_good _ _ _ G1) as GG. apply good_block_bound in GG; [|destruct G1 as [_ [? _]]; auto].
      rewrite block_of_length in GG. lia. }
    assert (BK : forall c x, x < cnt c -> x / bs < nblocks c /\ x mod bs < bs /\ x = x / bs * bs + x mod bs).
    { intros c x Hx. pose proof (Nat.div_mod x bs). pose proof (Nat.mod_upper_bound x bs). split; [apply div_round_up_lt; [auto|nia]|]. nia. }
    split.
    - constructor.
      + reflexivity.
      + reflexivity.
      + reflexivity.
      + intros c Hc. exists (combine (PSof c) (wsf c)). split; auto. destruct (D c Hc) as [D1 [D2 D3]]. destruct (PSof_ok c Hc) as [LP _].
        assert (LC : length (combine (PSof c) (wsf c)) = cnt c) by (rewrite combine_length; lia). split; [constructor|].
        * auto.
        * intros i j w Hin. apply In_nth_error in Hin as [x Hx]. destruct (IN c x i j w Hc Hx) as [Lx E]. destruct (drawn c x Hc Lx) as [i' [j' [u [v [E' [_ [_ [I1 [I2 _]]]]]]]]].
          rewrite E in E'. injection E' as -> ->. auto.
        * intros Es i j w Hin. apply In_nth_error in Hin as [x Hx]. destruct (IN c x i j w Hc Hx) as [Lx E]. destruct (drawn c x Hc Lx) as [i' [j' [u [v [E' [_ [_ [_ [_ [I3 _]]]]]]]]]].
          rewrite E in E'. injection E' as -> ->. auto.
        * cbv zeta. intros x i j w u v Hx Hu Hv Hu1 Hv1. destruct (IN c x i j w Hc Hx) as [Lx E]. destruct (drawn c x Hc Lx) as [i' [j' [u' [v' [E' [Eu [Ev [_ [_ [_ I4]]]]]]]]]].
          rewrite E in E'. injection E' as -> ->. fold (off c) reals in Hu, Hv. rewrite <- Nat.add_assoc in Hv. rewrite Eu in Hu. rewrite Ev in Hv. injection Hu as ->. injection Hv as ->. auto.
        * intros b Hb. rewrite LC in Hb. assert (Hb' : b < nblocks c) by (apply div_round_up_lt; auto). destruct (BL c b Hc Hb') as [o [G [_ [Ec [W Wl]]]]].
          eexists. split; [exact W|]. rewrite Ec. split; [eapply greedy_good; eauto|]. cbn [bl bl_max_wave_count].
          transitivity (list_max (map S (wsf c))); [|auto]. apply list_max_le. rewrite Forall_forall. intros x Hx. apply list_max_in.
          apply in_map_iff in Hx as [w [<- Hw]]. apply in_map. unfold block_of in Hw. rewrite <- (firstn_skipn (b * bs) (wsf c)). apply in_or_app. right.
          rewrite <- (firstn_skipn bs (skipn (b * bs) (wsf c))). apply in_or_app. auto.
      + intros c x Hc. unfold bl_linear_index, rd. cbn [bl bl_pair_counts_es]. destruct (Hpc c Hc) as [_ ->]. reflexivity.
      + cbn [bl bl_max_wave_count]. destruct M2 as [->|[c [Hc <-]]]; [lia|]. apply list_max_le. rewrite Forall_forall. intros x Hx.
        apply in_map_iff in Hx as [w [<- Hw]]. apply In_nth_error in Hw as [y Hy]. destruct (D c Hc) as [D1 _].
        destruct (BK c y) as [K1 [K2 K3]]; [apply nth_error_some_lt in Hy; lia|]. destruct (BL c (y / bs) Hc K1) as [o [_ [_ [_ [_ Wl]]]]].
        etransitivity; [|exact Wl]. apply list_max_in, in_map. apply nth_error_In with (y mod bs). rewrite block_of_nth. destruct (Nat.ltb_spec (y mod bs) bs); [|lia]. rewrite <- K3. auto.
      + cbn [bl bl_max_wave_count]. intros w Hw. destruct M2 as [->|[c [Hc Ec]]]; [lia|].
        destruct (D c Hc) as [D1 _]. destruct (PSof_ok c Hc) as [LP _].
        assert (exists y wy, nth_error (wsf c) y = Some wy /\ w <= wy) as [y [wy [Ey Lwy]]].
        { destruct (list_max_attained (map S (wsf c))) as [|A]; [lia|]. apply in_map_iff in A as [wy [A1 A2]]. apply In_nth_error in A2 as [y Ey].
          exists y, wy. split; auto. lia. }
        destruct (BK c y) as [K1 [K2 K3]]; [apply nth_error_some_lt in Ey; lia|]. destruct (BL c (y / bs) Hc K1) as [o [G [_ [Eb [W Wl]]]]].
        pose proof (greedy_good _ _ _ G) as GG. rewrite <- Eb in GG. destruct (proj1 (gb_waves _ _ GG w)) as [p Hpw].
        { assert (S wy <= list_max (map S (block_of bs (y / bs) (wsf c)))); [|lia]. apply list_max_in, in_map. apply nth_error_In with (y mod bs). rewrite block_of_nth.
          destruct (Nat.ltb_spec (y mod bs) bs); [|lia]. rewrite <- K3. auto. }
        exists c, (combine (PSof c) (wsf c)), p. split; auto. split; auto. unfold block_of in Hpw. rewrite <- (firstn_skipn (y / bs * bs) (combine (PSof c) (wsf c))). apply in_or_app. right.
        rewrite <- (firstn_skipn bs (skipn (y / bs * bs) (combine (PSof c) (wsf c)))). apply in_or_app. auto.
    - intros Hcpu c L Hc HL. rewrite RD in HL by auto. injection HL as <-. intros b x y p q w w' Lt Hx Hy Sh.
      assert (Hb : b < nblocks c).
      { apply div_round_up_lt; auto. rewrite block_of_nth in Hx. destruct (x <? bs); [|discriminate]. apply nth_error_some_lt in Hx. rewrite combine_length in Hx.
        destruct (PSof_ok c Hc) as [LP _]. lia. }
      destruct (BL c b Hc Hb) as [o [G [Ho [Ec _]]]]. rewrite Ec in Hx, Hy. rewrite (Ho Hcpu) in G. apply nth_error_combine in Hx as [X1 X2], Hy as [Y1 Y2].
      apply (greedy_apart _ _ _ x y p q w w' G X1 Y1 X2 Y2 Sh x y); auto.
      + rewrite nth_error_seq. destruct (Nat.ltb_spec x (length (block_of bs b (PSof c)))); [auto|apply nth_error_some_lt in X1; lia].
      + rewrite nth_error_seq. destruct (Nat.ltb_spec y (length (block_of bs b (PSof c)))); [auto|apply nth_error_some_lt in Y1; lia].
  Qed.

  Lemma cpu_cell_ok k mx pc es (pl0 wc0 : list nat) mb :
    (forall c, c < cells -> nth_error pc c = Some (cnt c) /\ nth_error es c = Some (off c) /\ nblocks c <= mb) ->
    (forall c, c < cells -> exists n, nth_error (s_npart r) c = Some n /\ n <= mx) -> length pl0 = total * 3 -> length wc0 = mb * cells ->
    forall c pl wc mw, c < cells -> length pl = length pl0 -> length wc = length wc0 ->
      exists pl' wc' mw', cpu_cell d cells bs (k c) rp total mx (s_npart r) pc es (pl, wc, mw) c = Some (pl', wc', mw') /\
        cell_eff bs cells total (PSof c) c (off c) true pl wc mw pl' wc' mw'.
  Proof.
    intros Hpc Hn Lp Lw c pl wc mw Hc L1 L2. destruct (Hpc c Hc) as [P1 [P2 P3]]. destruct (Hn c Hc) as [n [En Ln]]. destruct (PSof_ok c Hc) as [LP R].
    unfold cpu_cell, rd. rewrite En. cbn [obind]. rewrite P1. cbn [obind]. rewrite P2. cbn [obind].
    destruct (init_cpu n (fresh d (k c) mx)) as [fl [E [Lf Z]]]; [rewrite fresh_length; auto|]. rewrite E. cbn [obind]. rewrite <- LP.
    destruct (cpu_blocks bs cells total n (PSof c) c (off c) Hbs Hc) with (read := rp c) (fl := fl) (pl := pl) (wc := wc) as [fl' [pl' [wc' [mx' [E' H]]]]]; auto.
    - rewrite <- (nth_error_nth _ _ 0 En). apply PSof_range; auto.
    - rewrite LP. apply off_le; auto.
    - lia.
    - intros b Hb. rewrite LP in Hb. fold (nblocks c) in Hb. rewrite L2, Lw. nia.
    - rewrite E'. cbn [obind]. exists pl', wc', (Nat.max mw mx'). split; auto. eapply cinv_done; eauto. rewrite LP. apply off_le; auto.
  Qed.

  Lemma gpu_cell_ok key mx pc es (pl0 wc0 : list nat) mb :
    (forall c, c < cells -> nth_error pc c = Some (cnt c) /\ nth_error es c = Some (off c) /\ nblocks c <= mb) ->
    (forall c, c < cells -> exists n, nth_error (s_npart r) c = Some n /\ n <= mx) -> length pl0 = total * 3 -> length wc0 = mb * cells ->
    forall c pl wc mw, c < cells -> length pl = length pl0 -> length wc = length wc0 ->
      exists pl' wc' mw', gpu_cell d cells bs key rp total mx (s_npart r) pc es (pl, wc, mw) c = Some (pl', wc', mw') /\
        cell_eff bs cells total (PSof c) c (off c) false pl wc mw pl' wc' mw'.
  Proof.
    intros Hpc Hn Lp Lw c pl wc mw Hc L1 L2. destruct (Hpc c Hc) as [P1 [P2 P3]]. destruct (Hn c Hc) as [n [En Ln]]. destruct (PSof_ok c Hc) as [LP R].
    unfold gpu_cell, rd. rewrite En. cbn [obind]. rewrite P1. cbn [obind]. rewrite P2. cbn [obind].
    destruct (init_gpu d bs n Hd Hbs (fresh d (key c 0 6) mx) (key c 0 6)) as [fl [E [Lf Z]]]; [rewrite fresh_length; auto|]. rewrite E. cbn [obind]. rewrite <- LP.
    destruct (gpu_blocks d bs cells total n (PSof c) c (off c) Hd Hbs Hc) with (read := rp c) (key := key c) (fl := fl) (pl := pl) (wc := wc) as [fl' [pl' [wc' [mx' [E' H]]]]]; auto.
    - rewrite <- (nth_error_nth _ _ 0 En). apply PSof_range; auto.
    - rewrite LP. apply off_le; auto.
    - lia.
    - intros b Hb. rewrite LP in Hb. fold (nblocks c) in Hb. rewrite L2, Lw. nia.
    - rewrite E'. cbn [obind]. exists pl', wc', (Nat.max mw mx'). split; auto. eapply cinv_done; eauto. rewrite LP. apply off_le; auto.
  Qed.

  Theorem ntc_sample_ok cpu : exists bl, ntc_run d cells bs cpu r = Some bl /\ ntc_result cells bs r bl /\
    (cpu = true -> forall c L, c < cells -> read_block_pairs bl c = Some L -> in_list_order bs L).
  Proof.
    unfold ntc_run, ntc_sample. rewrite (no_counts _ _ OK), Nat.eqb_refl. cbn [assert obind].
    destruct (requests_ok (fresh d (s_k r) cells) (fresh d (s_k r + 1) cells)) as [pc [es [mb [E H]]]]; [apply fresh_length|apply fresh_length|]. rewrite E. cbn [obind].
    destruct npart_ok as [mx [En Hn]]. rewrite En. cbn [obind]. fold reals rp.
    assert (H' : forall c, c < cells -> nth_error pc c = Some (cnt c) /\ nth_error es c = Some (off c)) by (intros c Hc; destruct (H c Hc) as [A [B _]]; auto).
    destruct cpu.
    - destruct (cells_ok true (fun st cell => cpu_cell d cells bs (s_k r + 5 + (cell * S mb + 0) * 7 + 6) rp total mx (s_npart r) pc es st cell)
        (s_k r + 4) (fresh d (s_k r + 2) (total * 3)) (fresh d (s_k r + 3) (mb * cells))) as [pl [wc [mw [wsf [E' [L' [D [M1 M2]]]]]]]].
      + apply fresh_length.
      + intros c pl wc mw. apply (cpu_cell_ok (fun cell => s_k r + 5 + (cell * S mb + 0) * 7 + 6) mx pc es _ _ mb H Hn); apply fresh_length.
      + rewrite E'. cbn [obind]. eexists. split; [reflexivity|]. eapply result_ok; eauto.
    - destruct (cells_ok false (gpu_cell d cells bs (fun cell block phase => s_k r + 5 + (cell * S mb + block) * 7 + phase) rp total mx (s_npart r) pc es)
        (s_k r + 4) (fresh d (s_k r + 2) (total * 3)) (fresh d (s_k r + 3) (mb * cells))) as [pl [wc [mw [wsf [E' [L' [D [M1 M2]]]]]]]].
      + apply fresh_length.
      + intros c pl wc mw. apply (gpu_cell_ok _ mx pc es _ _ mb H Hn); apply fresh_length.
      + rewrite E'. cbn [obind]. eexists. split; [reflexivity|]. eapply (result_ok false); eauto.
  Qed.
End Sample.
