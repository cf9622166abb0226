(** Proofs about the sampler with replacement: the work of a cell. *)
From Coq Require Import List Arith Lia ZArith QArith Bool Permutation.
Import ListNotations.
From Verif Require Import Base Kernel Scan_Model PairList_Spec PairHost_Proofs SamplerNTC_Model SamplerNTC_Spec SamplerNTC_Proofs SamplerNTCBlock_Proofs.
Local Open Scope nat_scope.

Lemma div_round_up_lt N M k : 1 <= M -> (k < div_round_up N M <-> k * M < N).
Proof.
  intros HM. unfold div_round_up. cbv zeta. pose proof (Nat.div_mod N M) as D. pose proof (Nat.mod_upper_bound N M).
  set (q := N / M) in *. set (r := N mod M) in *. destruct (Nat.ltb_spec (q * M) N); split; intros; nia.
Qed.

Lemma for_loop_blocks N s : 1 <= s -> for_loop 0 N s = map (fun b => b * s) (seq 0 (div_round_up N s)).
Proof.
  intros Hs. unfold for_loop.
  assert (G : forall fuel j, N <= j * s + fuel -> for_loop_fuel fuel (j * s) N s = map (fun b => b * s) (seq j (div_round_up N s - j))).
  { induction fuel as [|f IH]; intros j Hj; cbn [for_loop_fuel].
    - replace (div_round_up N s - j) with 0; auto. pose proof (div_round_up_lt N s j Hs). lia.
    - pose proof (div_round_up_lt N s j Hs) as D. destruct (Nat.ltb_spec (j * s) N) as [Lt|Ge].
      + replace (div_round_up N s - j) with (S (div_round_up N s - S j)) by lia. cbn [seq map]. f_equal. rewrite <- IH by nia. f_equal. lia.
      + replace (div_round_up N s - j) with 0 by lia. auto. }
  pose proof (G N 0) as G0. rewrite Nat.mul_0_l, Nat.sub_0_r in G0. apply G0. lia.
Qed.

Lemma block_of_nth {A} bs b (l : list A) x : nth_error (block_of bs b l) x = if x <? bs then nth_error l (b * bs + x) else None.
Proof. unfold block_of. rewrite nth_error_firstn, nth_error_skipn. auto. Qed.

Lemma block_of_length {A} bs b (l : list A) : length (block_of bs b l) = Nat.min bs (length l - b * bs).
Proof. unfold block_of. rewrite firstn_length, skipn_length. auto. Qed.

Lemma block_of_combine {A B} bs b (l : list A) (l' : list B) : length l = length l' -> block_of bs b (combine l l') = combine (block_of bs b l) (block_of bs b l').
Proof.
  intros L. apply nth_error_ext. intros x. rewrite block_of_nth. destruct (Nat.ltb_spec x bs) as [H|H].
  - destruct (nth_error (combine (block_of bs b l) (block_of bs b l')) x) as [[u v]|] eqn:E.
    + apply nth_error_combine in E as [E1 E2]. rewrite block_of_nth in E1. rewrite block_of_nth in E2. destruct (Nat.ltb_spec x bs); [|lia]. apply nth_error_combine. auto.
    + apply nth_error_None in E. rewrite combine_length, !block_of_length in E. apply nth_error_None. rewrite combine_length. lia.
  - symmetry. apply nth_error_None. rewrite combine_length, !block_of_length. lia.
Qed.

Section Flags.
  Context (d : device) (bs npart : nat).
  Hypothesis Hd : device_ok d.
  Hypothesis Hbs : 1 <= bs.

  (** The flags at first. *)
  Lemma init_cpu mem : npart <= length mem ->
    exists fl, foldM (fun m ix => upd m ix 0) mem (seq 0 npart) = Some fl /\ length fl = length mem /\ forall p, p < npart -> nth_error fl p = Some 0.
  Proof.
    clear d bs Hd Hbs. intros L. destruct (foldM_ind (fun m ix => upd m ix 0) (fun pre (f : list nat) => length f = length mem /\ forall p, In p pre -> nth_error f p = Some 0) (seq 0 npart) mem) as [fl [E [L' H]]].
    - split; auto. intros p [].
    - intros pre a post f Es [L' H]. destruct (seq_pos _ _ _ _ _ Es) as [-> La]. destruct (upd_some f (0 + length pre) 0) as [f' U]; [lia|]. exists f'. split; auto.
      split; [rewrite (upd_length _ _ _ _ U); auto|]. intros p Hp. rewrite (upd_nth _ _ _ _ p U). destruct (Nat.eqb_spec p (0 + length pre)); auto.
      apply H. apply in_app_iff in Hp as [Hp|[Hp|[]]]; auto. congruence.
    - exists fl. split; auto. split; auto. intros p Hp. apply H, in_seq. lia.
  Qed.

  Lemma init_gpu mem k : npart <= length mem ->
    exists fl, foldM (fun m local_id => foldM (fun m ix => upd m ix 0) m (for_loop local_id npart bs)) mem (ord d k (seq 0 bs)) = Some fl /\
      length fl = length mem /\ forall p, p < npart -> nth_error fl p = Some 0.
  Proof.
    intros L. pose proof Hd as [Hp _].
    assert (G : forall l f, length f = length mem -> (forall x, In x l -> x < npart) ->
      exists f', foldM (fun m ix => upd m ix 0) f l = Some f' /\ length f' = length mem /\ forall p, nth_error f' p = if existsb (Nat.eqb p) l then Some 0 else nth_error f p).
    { induction l as [|x l IH]; intros f Lf Hl; [exists f; auto|]. cbn [foldM]. destruct (upd_some f x 0) as [f1 U]; [specialize (Hl x); cbn in Hl; lia|].
      rewrite U. cbn [obind]. destruct (IH f1) as [f' [E [L' H]]]; [rewrite (upd_length _ _ _ _ U); auto|intros; apply Hl; right; auto|].
      exists f'. split; auto. split; auto. intros p. rewrite H, (upd_nth _ _ _ _ p U). cbn [existsb]. destruct (p =? x), (existsb (Nat.eqb p) l); auto. }
    destruct (foldM_ind (fun m local_id => foldM (fun m ix => upd m ix 0) m (for_loop local_id npart bs))
      (fun pre (f : list nat) => length f = length mem /\ forall i p, In i pre -> In p (for_loop i npart bs) -> nth_error f p = Some 0) (ord d k (seq 0 bs)) mem) as [fl [E [L' H]]].
    - split; auto. intros i p [].
    - intros pre a post f Es [L' H]. destruct (G (for_loop a npart bs) f L') as [f' [E' [L'' H']]].
      { intros x Hx. apply for_loop_in in Hx; lia. }
      exists f'. split; auto. split; auto. intros i p Hi Hpi. rewrite H'. destruct (existsb (Nat.eqb p) (for_loop a npart bs)) eqn:Ex; auto.
      apply in_app_iff in Hi as [Hi|[->|[]]]; [eauto|]. assert (existsb (Nat.eqb p) (for_loop i npart bs) = true); [|congruence].
      apply existsb_exists. exists p. rewrite Nat.eqb_refl. auto.
    - exists fl. split; auto. split; auto. intros p Hpp. apply (H (p mod bs)).
      + apply (Permutation_in _ (Permutation_sym (Hp _ k _))), in_seq. pose proof (Nat.mod_upper_bound p bs). lia.
      + apply for_loop_in; auto. pose proof (Nat.mod_le p bs). split; [lia|]. rewrite (Nat.div_mod p bs) at 1 by lia.
        replace (bs * (p / bs) + p mod bs - p mod bs) with (p / bs * bs) by nia. apply Nat.mod_mul. lia.
  Qed.
End Flags.

Section Cell.
  Context (d : device) (bs cells pc npart : nat) (PS : list (nat * nat)) (cell off : nat).
  Hypothesis Hd : device_ok d.
  Hypothesis Hbs : 1 <= bs.
  Hypothesis Hcell : cell < cells.
  Hypothesis range : forall l p, nth_error PS l = Some p -> fst p < npart /\ snd p < npart.
  Hypothesis Hpc : off + length PS <= pc.
  Local Notation np := (length PS).
  Local Notation nb := (div_round_up np bs).

  (** What the work of a cell does to the list and to the numbers of waves. *)
  Definition cell_eff (cpu : bool) (pl0 wc0 : list nat) (mw0 : nat) (pl wc : list nat) (mw : nat) : Prop :=
    length pl = length pl0 /\ length wc = length wc0 /\
    exists ws, length ws = np /\ mw = Nat.max mw0 (list_max (map S ws)) /\
      (forall x p w, nth_error PS x = Some p -> nth_error ws x = Some w -> view pc pl (off + x) = Some (p, w)) /\
      (forall ox, ox < pc -> ~ (off <= ox < off + np) -> view pc pl ox = view pc pl0 ox) /\
      (forall b, b < nb -> exists o, greedy_in o (block_of bs b PS) (block_of bs b ws) /\
         (cpu = true -> o = seq 0 (length (block_of bs b PS))) /\
         nth_error wc (b * cells + cell) = Some (list_max (map S (block_of bs b ws)))) /\
      (forall x, (forall b, b < nb -> x <> b * cells + cell) -> nth_error wc x = nth_error wc0 x).

  (** After [k] blocks. *)
  Definition cinv (cpu : bool) (F : nat) (pl0 wc0 : list nat) (k : nat) (fl pl wc : list nat) (mx : nat) : Prop :=
    length fl = F /\ (forall p, p < npart -> nth_error fl p = Some 0) /\ length pl = length pl0 /\ length wc = length wc0 /\
    exists ws, length ws = Nat.min (k * bs) np /\ mx = list_max (map S ws) /\
      (forall x p w, nth_error PS x = Some p -> nth_error ws x = Some w -> view pc pl (off + x) = Some (p, w)) /\
      (forall ox, ox < pc -> ~ (off <= ox < off + np) -> view pc pl ox = view pc pl0 ox) /\
      (forall b, b < k -> exists o, greedy_in o (block_of bs b PS) (block_of bs b ws) /\
         (cpu = true -> o = seq 0 (length (block_of bs b PS))) /\
         nth_error wc (b * cells + cell) = Some (list_max (map S (block_of bs b ws)))) /\
      (forall x, (forall b, b < nb -> x <> b * cells + cell) -> nth_error wc x = nth_error wc0 x).

  Lemma cinv_step cpu F pl0 wc0 k fl pl wc mx fl' pl' wc' ws o : k < nb -> cinv cpu F pl0 wc0 k fl pl wc mx ->
    length fl' = length fl -> (forall p, p < npart -> nth_error fl' p = Some 0) ->
    block_eff pc (off + k * bs) (block_of bs k PS) ws pl pl' -> greedy_in o (block_of bs k PS) ws ->
    (cpu = true -> o = seq 0 (length (block_of bs k PS))) ->
    upd wc (k * cells + cell) (list_max (map S ws)) = Some wc' ->
    cinv cpu F pl0 wc0 (S k) fl' pl' wc' (Nat.max mx (list_max (map S ws))).
  Proof.
    intros Hk [A1 [A2 [A3 [A4 [ws0 [B1 [B2 [B3 [B4 [B5 B6]]]]]]]]]] Lf Zf [E1 [E2 E3]] G Hcpu U.
    apply (div_round_up_lt _ _ _ Hbs) in Hk as Hk'. rewrite Nat.min_l in B1 by lia.
    assert (Lw : length ws = Nat.min bs (np - k * bs)) by (destruct G as [_ [L _]]; rewrite L, block_of_length; auto).
    pose proof (upd_length _ _ _ _ U) as LU.
    split; [lia|]. split; auto. split; [lia|]. split; [lia|]. exists (ws0 ++ ws).
    split; [rewrite app_length; lia|]. split; [rewrite map_app, list_max_app; lia|]. split; [|split; [|split]].
    - intros x p w Hp Hw. destruct (lt_dec x (k * bs)) as [Lx|Lx].
      + rewrite nth_error_app1 in Hw by lia. rewrite E3; [apply B3; auto| |lia]. apply nth_error_some_lt in Hp. lia.
      + rewrite nth_error_app2, B1 in Hw by lia. replace (off + x) with (off + k * bs + (x - k * bs)) by lia. apply E2; auto.
        rewrite block_of_nth. destruct (Nat.ltb_spec (x - k * bs) bs); [|apply nth_error_some_lt in Hw; lia]. rewrite <- Hp. f_equal. lia.
    - intros ox Ho No. rewrite E3; auto. rewrite block_of_length. lia.
    - intros b Hb. destruct (Nat.eq_dec b k) as [->|Nb].
      + assert (block_of bs k (ws0 ++ ws) = ws) as ->.
        { apply nth_error_ext. intros x. rewrite block_of_nth. destruct (Nat.ltb_spec x bs).
          - rewrite nth_error_app2 by lia. f_equal. lia.
          - symmetry. apply nth_error_None. lia. }
        exists o. split; auto. split; auto. apply (upd_nth_eq _ _ _ _ U).
      + assert (block_of bs b (ws0 ++ ws) = block_of bs b ws0) as ->.
        { apply nth_error_ext. intros x. rewrite !block_of_nth. destruct (Nat.ltb_spec x bs); auto. apply nth_error_app1. nia. }
        destruct (B5 b) as [o' [G1 [G2 G3]]]; [lia|]. exists o'. split; auto. split; auto. rewrite (upd_nth_neq _ _ _ _ _ U); auto. nia.
    - intros x Hx. rewrite (upd_nth_neq _ _ _ _ _ U); auto.
  Qed.

  Lemma cinv_init cpu fl pl wc : (forall p, p < npart -> nth_error fl p = Some 0) -> cinv cpu (length fl) pl wc 0 fl pl wc 0.
  Proof.
    intros Z. split; auto. split; auto. split; auto. split; auto. exists []. split; auto. split; auto. split; [intros [|?]; discriminate|].
    split; auto. split; [intros; lia|auto].
  Qed.

  Lemma cinv_done cpu F pl0 wc0 mw0 fl pl wc mx : cinv cpu F pl0 wc0 nb fl pl wc mx -> cell_eff cpu pl0 wc0 mw0 pl wc (Nat.max mw0 mx).
  Proof.
    intros [A1 [A2 [A3 [A4 [ws [B1 [B2 [B3 [B4 [B5 B6]]]]]]]]]]. split; auto. split; auto. exists ws.
    rewrite Nat.min_r in B1 by (pose proof (div_round_up_lt np bs nb Hbs); lia). auto 10.
  Qed.

  Lemma block_range b l p : nth_error (block_of bs b PS) l = Some p -> fst p < npart /\ snd p < npart.
  Proof. rewrite block_of_nth. destruct (l <? bs); [|discriminate]. apply range. Qed.

  Context (read : nat -> option (nat * nat)).
  Hypothesis Hread : forall x p, nth_error PS x = Some p -> read (off + x) = Some p.

  Lemma block_read b l p : nth_error (block_of bs b PS) l = Some p -> read (off + (b * bs + l)) = Some p.
  Proof. rewrite block_of_nth. destruct (l <? bs); [|discriminate]. apply Hread. Qed.

  Lemma cpu_blocks fl pl wc : (forall p, p < npart -> nth_error fl p = Some 0) -> length pl = pc * 3 -> (forall b, b < nb -> b * cells + cell < length wc) ->
    exists fl' pl' wc' mx, foldM (cpu_block cells bs read pc off np cell) (fl, pl, wc, 0) (seq 0 nb) = Some (fl', pl', wc', mx) /\
      cinv true (length fl) pl wc nb fl' pl' wc' mx.
  Proof.
    intros Z Lp Lw.
    destruct (foldM_ind (cpu_block cells bs read pc off np cell) (fun pre st => let '(fl', pl', wc', mx) := st in cinv true (length fl) pl wc (length pre) fl' pl' wc' mx)
      (seq 0 nb) (fl, pl, wc, 0)) as [[[[fl' pl'] wc'] mx] [E H]].
    - apply cinv_init; auto.
    - intros pre b post [[[f q] w] mx] Es H. destruct (seq_pos _ _ _ _ _ Es) as [Eb Lb]. rewrite Nat.add_0_l in Eb. pose proof H as [A1 [A2 [A3 [A4 _]]]].
      assert (Hb : b * bs < np) by (apply div_round_up_lt; [auto|lia]).
      destruct (cpu_block_ok (block_of bs b PS) npart f pc q A2 (block_range b)) with (block_size := bs) (cells := cells) (read := read) (offset := off) (npairs := np)
        (cell := cell) (wc := w) (mx := mx) (b := b) as [f' [q' [w' [E' [L' [Z' [B' U']]]]]]].
      + lia.
      + rewrite block_of_length. lia.
      + rewrite block_of_length. lia.
      + apply block_read.
      + rewrite A4. apply Lw. lia.
      + eexists. split; [exact E'|]. rewrite app_length. cbn [length]. rewrite Nat.add_1_r. rewrite <- Eb in H |- *.
        eapply cinv_step with (o := seq 0 (length (block_of bs b PS))); eauto; [lia|apply gw_greedy].
    - rewrite seq_length in H. eauto 8.
  Qed.

  Lemma gpu_blocks key fl pl wc : (forall p, p < npart -> nth_error fl p = Some 0) -> length pl = pc * 3 -> (forall b, b < nb -> b * cells + cell < length wc) ->
    exists fl' pl' wc' mx, foldM (gpu_block d cells bs key read pc off np cell) (fl, 0, pl, wc, 0, 0) (for_loop 0 np bs) = Some (fl', 0, pl', wc', mx, nb) /\
      cinv false (length fl) pl wc nb fl' pl' wc' mx.
  Proof.
    intros Z Lp Lw. rewrite for_loop_blocks by auto.
    destruct (foldM_ind (gpu_block d cells bs key read pc off np cell) (fun pre st => let '(fl', c, pl', wc', mx, b) := st in c = 0 /\ b = length pre /\ cinv false (length fl) pl wc b fl' pl' wc' mx)
      (map (fun b => b * bs) (seq 0 nb)) (fl, 0, pl, wc, 0, 0)) as [[[[[[fl' c] pl'] wc'] mx] b] [E [-> [-> H]]]].
    - split; auto. split; auto. apply cinv_init; auto.
    - intros pre s post [[[[[f c] q] w] mx] b] Es [-> [Eb H]]. pose proof H as [A1 [A2 [A3 [A4 _]]]].
      assert (Hs : s = b * bs /\ b < nb).
      { assert (nth_error (map (fun b => b * bs) (seq 0 nb)) (length pre) = Some s) as Q by (rewrite Es, nth_error_app2, Nat.sub_diag by lia; auto).
        rewrite nth_error_map_seq in Q. destruct (Nat.ltb_spec (length pre) nb); [|discriminate]. injection Q as <-. subst. auto. }
      destruct Hs as [-> Lb]. assert (Hb : b * bs < np) by (apply div_round_up_lt; auto).
      destruct (gpu_block_ok d (block_of bs b PS) npart f pc q Hd A2 (block_range b)) with (block_size := bs) (cells := cells) (read := read) (offset := off) (npairs := np)
        (cell := cell) (wc := w) (mx := mx) (b := b) (key := key) (s := b * bs) as [f' [q' [w' [ws [o [E' [L' [Z' [B' [G' U']]]]]]]]]].
      + lia.
      + rewrite block_of_length. lia.
      + rewrite block_of_length. auto.
      + rewrite block_of_length. lia.
      + apply block_read.
      + rewrite A4. apply Lw. lia.
      + eexists. split; [exact E'|]. split; auto. split; [rewrite app_length; cbn; lia|]. rewrite Nat.add_1_r.
        eapply cinv_step; eauto. discriminate.
    - rewrite map_length, seq_length in *. eauto 8.
  Qed.
End Cell.
