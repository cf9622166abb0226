(** Order and effect of the calls of the loop over block pair lists. *)
From Coq Require Import List Arith Lia ZArith Bool Permutation.
Import ListNotations.
From Verif Require Import Base Scan_Model World_Proofs AllToAll_Proofs PairList_Model PairList_Spec PairHost_Proofs PairOrder_Proofs PairLoop_Proofs PairSerial_Proofs SamplerNTC_Model
  SamplerNTC_Spec SamplerNTC_Proofs SamplerNTCCell_Proofs SamplerNTCSample_Proofs BlockLoop_Model BlockLoop_Spec BlockLoop_Proofs.
Local Open Scope nat_scope.

Lemma mapM_forall2 {A B} (f : A -> option B) (R : A -> B -> Prop) l : (forall a, In a l -> exists b, f a = Some b /\ R a b) ->
  exists r, mapM f l = Some r /\ Forall2 R l r.
Proof.
  induction l as [|a l IH]; intros H; cbn [mapM]; [exists []; auto|].
  destruct (H a (or_introl eq_refl)) as [b [E Hb]]. rewrite E. cbn [obind]. destruct IH as [r [Er Hr]]; [intros; apply H; cbn; auto|].
  rewrite Er. cbn [obind]. eauto.
Qed.

Lemma fop_filter {A} (R : A -> A -> Prop) f l : ForallOrdPairs R l -> ForallOrdPairs R (filter f l).
Proof.
  induction 1 as [|a l Fa F IH]; cbn [filter]; [constructor|]. destruct (f a); auto. constructor; auto.
  rewrite Forall_forall in *. intros x Hx. apply filter_In in Hx as [Hx _]. auto.
Qed.

Lemma fop_block {A} (R : A -> A -> Prop) bs b l : ForallOrdPairs R l -> ForallOrdPairs R (block_of bs b l).
Proof.
  intros F. rewrite <- (firstn_skipn (b * bs) l) in F. apply fop_app in F as [_ [F _]]. rewrite <- (firstn_skipn bs (skipn (b * bs) l)) in F. apply fop_app in F as [F _]. auto.
Qed.

Lemma fop_neq {A} (l : list A) : NoDup l -> ForallOrdPairs (fun x y => x <> y) l.
Proof. induction 1 as [|a l Ha N IH]; constructor; auto. rewrite Forall_forall. intros x Hx ->. auto. Qed.

Lemma fop_and {A} (R R' : A -> A -> Prop) l : ForallOrdPairs R l -> ForallOrdPairs R' l -> ForallOrdPairs (fun x y => R x y /\ R' x y) l.
Proof.
  induction 1 as [|a l Fa F IH]; intros F'; inversion F' as [|? ? Fa' F'']; subst; constructor; auto.
  rewrite Forall_forall in *. auto.
Qed.

Lemma Forall2_block {A B} (R : A -> B -> Prop) bs b l l' : Forall2 R l l' -> Forall2 R (block_of bs b l) (block_of bs b l').
Proof.
  intros F. unfold block_of. assert (Hs : forall n, Forall2 R (skipn n l) (skipn n l')).
  { clear b. intros n. revert n. induction F as [|a b l l' Hab F IH]; intros [|n]; cbn [skipn]; auto. }
  specialize (Hs (b * bs)). clear F. revert Hs. generalize (skipn (b * bs) l') as m', (skipn (b * bs) l) as m. generalize bs as n. clear.
  intros n m' m F. revert n. induction F as [|a b m m' Hab F IH]; intros [|n]; cbn [firstn]; auto.
Qed.

Lemma cell_fop Ps l c : ForallOrdPairs (fun x y => place Ps x < place Ps y) (cell_calls Ps l c).
Proof.
  unfold cell_calls. apply fop_map. set (L := pairs_in _ _). generalize (@fop_map (nat * (nat * nat * nat)) nat lt fst (combine (seq 0 (length L)) L)).
  rewrite map_fst_combine by auto. intros [G _]. specialize (G (seq_fop _ _)). eapply fop_impl; [|exact G].
  intros [x [[i j] w]] [y [[i' j'] w']] _ _ Hlt. rewrite !place_call. auto.
Qed.

Lemma cell_calls_pairs Ps l c : Forall2 (fun x p => pair_of x = (c, fst p) /\ c_wave x = snd p) (cell_calls Ps l c) (pairs_in (nth l Ps []) c).
Proof.
  unfold cell_calls. set (L := pairs_in _ _). generalize (first_number Ps l c). intros f. generalize 0 at 1. induction L as [|[[i j] w] L IH]; intros s; cbn; constructor; auto.
Qed.

Lemma pairs_map (xs : list call) (ps : list (nat * nat * nat)) c : Forall2 (fun x p => pair_of x = (c, fst p) /\ c_wave x = snd p) xs ps ->
  map pair_of xs = map (fun p => (c, fst p)) ps /\
  forall w, map pair_of (filter (fun x => w =? c_wave x) xs) = map (fun p => (c, fst p)) (filter (fun p => snd p =? w) ps).
Proof.
  induction 1 as [|x p xs ps [E1 E2] F [IH1 IH2]]; cbn [map filter]; auto. split; [congruence|]. intros w. rewrite E2, Nat.eqb_sym.
  destruct (snd p =? w); cbn [map]; rewrite IH2; congruence.
Qed.

Section Loop.
  Context (bs : nat) (lists : list block_list) (Ps : list cell_pairs) (cells first last : nat).
  Hypothesis Hbs : 1 <= bs.
  Hypothesis HP : Forall2 (holds bs) lists Ps.
  Hypothesis Hcells : forall P, In P Ps -> length P = cells.
  Hypothesis Hrange : last <= cells.

  Lemma held l P : nth_error Ps l = Some P -> exists s, holds bs s P.
  Proof.
    enough (G : forall la lb, Forall2 (holds bs) la lb -> forall l, nth_error lb l = Some P -> exists s, holds bs s P) by (apply (G lists Ps); auto).
    clear. intros la lb F. induction F as [|s P' la lb Hs F IH]; intros [|l] E; try discriminate; [injection E as <-; eauto|]. apply (IH _ E).
  Qed.

  Lemma same_wave l c x y : l < length Ps -> In x (cell_calls Ps l c) -> In y (cell_calls Ps l c) -> x <> y -> block_no bs Ps x = block_no bs Ps y ->
    c_wave x = c_wave y -> ~ in_conflict (pair_of x) (pair_of y).
  Proof.
    intros Hl Hx Hy N Eb Ew [_ C]. apply cell_calls_in in Hx as [a [i [j [w [Ea ->]]]]], Hy as [b [i' [j' [w' [Eb' ->]]]]]. rewrite !block_no_place, !place_call in Eb.
    cbn [c_wave] in Ew. subst w'. cbn [pair_of c_cell c_first c_second fst snd] in C.
    destruct (nth_error_lt_some Ps l Hl) as [P EP]. rewrite (at_list _ _ _ EP) in Ea, Eb'.
    assert (exists s, holds bs s P) as [s H] by (apply (held l); auto).
    pose proof (Nat.div_mod a bs). pose proof (Nat.div_mod b bs). pose proof (Nat.mod_upper_bound a bs). pose proof (Nat.mod_upper_bound b bs).
    destruct (h_waves _ _ _ H c (a / bs)) as [waves [_ [G _]]]; [apply nth_error_some_lt in Ea; nia|].
    apply (wb_apart _ _ G (a mod bs) (b mod bs) (i, j) (i', j') w).
    - intros Em. apply N. assert (a = b) by nia. subst b. rewrite Ea in Eb'. injection Eb' as -> ->. auto.
    - rewrite block_of_nth. destruct (Nat.ltb_spec (a mod bs) bs); [|lia]. replace (a / bs * bs + a mod bs) with a by nia. auto.
    - rewrite block_of_nth. destruct (Nat.ltb_spec (b mod bs) bs); [|lia]. replace (a / bs * bs + b mod bs) with b by nia. auto.
    - unfold share. cbn [fst snd]. auto.
  Qed.

  Lemma loop_ok cpu : exists ex, block_loop cpu bs lists first last = Some ex /\
    (forall ph, concurrent ex ph -> exists l c b w, l < length Ps /\ ph = phase_of bs Ps l c b w) /\
    forall o, admissible ex o -> Permutation o (block_calls Ps first last) /\ ForallOrdPairs (before_or_same bs Ps) o.
  Proof.
    pose proof (lists_len bs lists Ps HP) as LL. destruct (prepared bs lists Ps Hbs HP) as [p [Ep [Eb [Eb0 [Et Es]]]]]. unfold block_loop. rewrite Ep.
    assert (B : ((bp_block_size p =? 0) || (bs =? bp_block_size p)) = true).
    { destruct lists as [|s ls]; [rewrite Eb0 by auto; auto|]. rewrite Eb by discriminate. rewrite Nat.eqb_refl. apply orb_true_r. }
    rewrite B. cbn [assert obind].
    destruct ((0 <? bp_block_size p) && (0 <? length lists) && (first <? last) && (0 <? bp_total p)) eqn:C.
    - apply andb_true_iff in C as [C C4]. apply andb_true_iff in C as [C C3]. apply andb_true_iff in C as [C1 C2].
      apply Nat.ltb_lt in C1, C2, C3, C4. assert (E : bp_block_size p = bs) by (apply Eb; intros ->; cbn in C2; lia). rewrite E. clear E.
      set (keys := list_prod _ _).
      destruct (mapM_forall2 (fun '(index_cell, index_list) => block_group cpu bs bs (bp_max_wave p) lists (bp_es p) index_cell index_list)
        (fun key g => exists W, g = group_phases bs Ps W (snd key) (fst key) /\ forall b y, In y (block_of bs b (cell_calls Ps (snd key) (fst key))) -> c_wave y < W b) keys)
        as [gs [Eg F]].
      { intros [c l] Hk. apply in_prod_iff in Hk as [Hc Hl]. apply in_seq in Hc, Hl. cbn [fst snd].
        destruct (group_ok bs lists Ps cells Hbs HP Hcells cpu p l c Ep) as [W [G1 G2]]; try lia. exists (group_phases bs Ps W l c). eauto. }
      rewrite Eg. cbn [obind]. eexists. split; [reflexivity|]. split.
      + intros ph [g [Hg Hph]]. apply In_nth_error in Hg as [k Hg]. assert (exists key, In key keys /\ exists W, g = group_phases bs Ps W (snd key) (fst key)) as [[c l] [Hk [W ->]]].
        { clear -F Hg. revert k Hg. induction F as [|key g' ks gs' [W [HW _]] F IH]; intros [|k] E; try discriminate.
          - injection E as <-. exists key. cbn. eauto.
          - destruct (IH k E) as [key' [? ?]]. exists key'. cbn. auto. }
        apply in_prod_iff in Hk as [_ Hl]. apply in_seq in Hl. cbn [fst snd] in Hph.
        unfold group_phases in Hph. apply in_concat in Hph as [q [Hq Hph]]. apply in_map_iff in Hq as [b [<- _]]. apply in_map_iff in Hph as [w [<- _]].
        exists l, c, b, w. split; [lia|auto].
      + intros o A. inversion A as [|? os ? P I]; subst. split.
        * rewrite (interleaving_perm _ _ I).
          assert (Q : Permutation (concat os) (flat_map (fun key => cell_calls Ps (snd key) (fst key)) keys)).
          { clear -P F Hbs. revert os P. induction F as [|key g ks gs [W [-> HW]] F IH]; intros os P; inversion P as [|? o ? os' Po P']; subst; cbn [concat flat_map]; auto.
            apply Permutation_app; auto. rewrite (phases_perm _ _ Po). apply group_perm; auto. }
          rewrite Q. unfold keys, block_calls. rewrite LL, (flat_map_list_prod (fun c l => cell_calls Ps l c)).
          rewrite (flat_map_swap (fun c l => cell_calls Ps l c)). auto.
        * apply (interleaving_fop (before_or_same bs Ps) (fun x => (c_cell x, c_list x)) os o I keys).
          -- apply nodup_prod; apply seq_NoDup.
          -- clear -P F Hbs. revert os P. induction F as [|key g ks gs [W [-> HW]] F IH]; intros os P; inversion P as [|? o ? os' Po P']; subst; constructor; auto.
             intros x Hx. apply (Permutation_in _ (phases_perm _ _ Po)) in Hx. apply (Permutation_in _ (group_perm bs Ps Hbs W _ _ HW)) in Hx.
             apply cell_calls_in in Hx as [a [i [j [w [_ ->]]]]]. destruct key; auto.
          -- clear -P F Hbs. revert os P. induction F as [|key g ks gs [W [-> HW]] F IH]; intros os P; inversion P as [|? o ? os' Po P']; subst; [intros l []|].
             intros l [<-|Hl]; [|eapply IH; eauto]. eapply group_fop; eauto.
          -- intros x y Hk E1 E2. exfalso. apply Hk. congruence.
    - exists (Kernels []). split; auto. split; [intros ph []|]. enough (Zc : block_calls Ps first last = []).
      { intros o A. inversion A as [? ? [ph [F ->]]|]; subst. inversion F; subst. cbn [concat]. rewrite Zc. split; constructor. }
      unfold block_calls. rewrite !andb_false_iff, !Nat.ltb_ge in C.
      destruct (Nat.eq_dec (length lists) 0) as [Z0|Z0]; [rewrite <- LL, Z0; auto|].
      assert (N : lists <> []) by (intros ->; cbn in Z0; lia). specialize (Eb N).
      apply flat_map_nil. intros l Hl. apply in_seq in Hl. apply flat_map_nil. intros c Hc. apply in_seq in Hc.
      assert (T0 : bp_total p = 0) by lia. rewrite Et in T0.
      destruct (nth_error_lt_some Ps l) as [P EP]; [lia|]. assert (counts P = 0).
      { clear -EP T0. apply nth_error_In in EP. induction Ps as [|P' Ps' IH]; [destruct EP|]. change (counts P' + list_sum (map counts Ps') = 0) in T0. destruct EP as [->|EP]; [lia|]. apply IH; auto. lia. }
      assert (pairs_in P c = []).
      { unfold pairs_in. clear -H. unfold counts in H. revert c. induction P as [|r P IH]; intros [|c]; auto; change (length r + list_sum (map (@length _) P) = 0) in H; cbn [nth]; [destruct r; cbn in H; [auto|lia]|]. apply IH. lia. }
      unfold cell_calls. rewrite (at_list _ _ _ EP), H0. auto.
  Qed.

  Lemma calls_in x : In x (block_calls Ps first last) -> c_list x < length Ps /\ first <= c_cell x < last /\ In x (cell_calls Ps (c_list x) (c_cell x)).
  Proof.
    intros H. apply in_flat_map in H as [l [Hl H]]. apply in_flat_map in H as [c [Hc H]]. apply in_seq in Hl, Hc.
    pose proof H as H'. apply cell_calls_in in H' as [a [i [j [w [E ->]]]]]. cbn [c_list c_cell]. split; [lia|]. split; [lia|auto].
  Qed.

  Lemma calls_nodup : NoDup (block_calls Ps first last).
  Proof.
    unfold block_calls. apply NoDup_flat_map; [apply seq_NoDup| |].
    - intros l _. apply NoDup_flat_map; [apply seq_NoDup| |].
      + intros c _. pose proof (cell_fop Ps l c) as F. induction F as [|x L Fx F IH]; constructor; auto. rewrite Forall_forall in Fx. intros Hx. apply Fx in Hx. lia.
      + intros c c' x _ _ H1 H2. apply cell_calls_in in H1 as [? [? [? [? [_ ->]]]]], H2 as [? [? [? [? [_ E]]]]]. congruence.
    - intros l l' x _ _ H1 H2. apply in_flat_map in H1 as [c [_ H1]], H2 as [c' [_ H2]]. apply cell_calls_in in H1 as [? [? [? [? [_ ->]]]]], H2 as [? [? [? [? [_ E]]]]]. congruence.
  Qed.

  Lemma serial_gen {V} (kernel : nat -> V -> V -> V * V) (prior : call -> call -> Prop) L1 o data : lists_apart Ps ->
    Permutation o (block_calls Ps first last) -> ForallOrdPairs (before_or_same bs Ps) o ->
    Permutation L1 (block_calls Ps first last) -> ForallOrdPairs prior L1 ->
    (forall x y, x <> y -> c_list x < length Ps -> In x (cell_calls Ps (c_list x) (c_cell x)) -> In y (cell_calls Ps (c_list x) (c_cell x)) ->
       c_list x = c_list y -> c_cell x = c_cell y -> in_conflict (pair_of x) (pair_of y) -> before_or_same bs Ps x y -> ~ prior y x) ->
    forall c i, apply_pairs kernel (map pair_of o) data c i = apply_pairs kernel (map pair_of L1) data c i.
  Proof.
    intros LA Po Fo P1 F1 H. apply (trace_equal kernel pair_of prior L1 o data); auto; [rewrite P1; symmetry; auto|].
    assert (N : NoDup o) by (eapply Permutation_NoDup; [symmetry; eauto|apply calls_nodup]).
    eapply fop_impl; [|exact (fop_and _ _ _ (fop_neq _ N) Fo)]. intros x y Hx Hy [Nxy Hxy] C. cbn beta in *.
    apply (Permutation_in _ Po), calls_in in Hx as [X1 [X2 X3]], Hy as [Y1 [Y2 Y3]].
    assert (Ec : c_cell x = c_cell y) by (destruct C as [E _]; exact E).
    assert (El : c_list x = c_list y).
    { destruct (Nat.eq_dec (c_list x) (c_list y)) as [|Nl]; auto. exfalso. rewrite <- Ec in Y3.
      apply cell_calls_in in X3 as [a [i [j [w [Ea Ex]]]]], Y3 as [b [i' [j' [w' [Eb Ey]]]]]. apply nth_error_In in Ea, Eb.
      apply (LA _ _ _ _ _ _ _ Nl Ea Eb). destruct C as [_ C]. rewrite Ex, Ey in C. exact C. }
    apply H; auto. rewrite El, Ec. auto.
  Qed.

  Definition wave_calls : list call :=
    flat_map (fun l => flat_map (fun c => flat_map (fun b => flat_map (phase_of bs Ps l c b) (seq 0 bs))
      (seq 0 (length (pairs_in (nth l Ps []) c)))) (seq first (last - first))) (seq 0 (length Ps)).

  Lemma wave_calls_pairs : map pair_of wave_calls = in_wave_order bs Ps first last.
  Proof.
    unfold wave_calls, in_wave_order. rewrite map_flat_map. apply flat_map_ext. intros l. rewrite map_flat_map. apply flat_map_ext. intros c.
    rewrite map_flat_map. apply flat_map_ext. intros b. rewrite map_flat_map. apply flat_map_ext. intros w.
    unfold phase_of. apply pairs_map. apply Forall2_block, cell_calls_pairs.
  Qed.

  Lemma wave_calls_perm : Permutation wave_calls (block_calls Ps first last).
  Proof.
    unfold wave_calls, block_calls. apply Permutation_flat_map_ext. intros l Hl. apply in_seq in Hl. apply Permutation_flat_map_ext. intros c _.
    etransitivity; [|apply eq_perm; apply (blocks_concat bs (cell_calls Ps l c) (length (pairs_in (nth l Ps []) c)) Hbs); rewrite cell_calls_length; nia].
    apply Permutation_flat_map_ext. intros b Hb. etransitivity; [|apply (by_key c_wave bs)].
    - apply Permutation_flat_map_ext. intros w _. unfold phase_of. apply eq_perm, filter_ext. intros x. apply Nat.eqb_sym.
    - intros y Hy. destruct (nth_error_lt_some Ps l) as [P EP]; [lia|].
      assert (exists s, holds bs s P) as [s H] by (apply (held l); auto).
      assert (Hb' : b * bs < length (pairs_in P c)).
      { destruct (le_lt_dec (length (pairs_in P c)) (b * bs)) as [Z0|]; auto. rewrite block_of_nil in Hy; [destruct Hy|]. rewrite cell_calls_length, (at_list _ _ _ EP). auto. }
      destruct (h_waves _ _ _ H c b Hb') as [waves [_ [G Hm]]]. pose proof (h_max _ _ _ H). pose proof (block_waves bs Ps Hbs l P c b y waves EP G Hy).
      lia.
  Qed.

  (** Any order has the effect of the order by list, cell, block and wave. *)
  Lemma serial_waves {V} (kernel : nat -> V -> V -> V * V) o data : lists_apart Ps ->
    Permutation o (block_calls Ps first last) -> ForallOrdPairs (before_or_same bs Ps) o ->
    forall c i, apply_pairs kernel (map pair_of o) data c i = apply_pairs kernel (in_wave_order bs Ps first last) data c i.
  Proof.
    intros LA Po Fo. rewrite <- wave_calls_pairs.
    apply (serial_gen kernel (fun x y => c_list x < c_list y \/ c_list x = c_list y /\ (c_cell x < c_cell y \/ c_cell x = c_cell y /\
       (block_no bs Ps x < block_no bs Ps y \/ block_no bs Ps x = block_no bs Ps y /\ (c_wave x < c_wave y \/ c_wave x = c_wave y /\ place Ps x < place Ps y))))); auto.
    - apply wave_calls_perm.
    - unfold wave_calls. apply fop_flat_map.
      + intros l _. apply fop_flat_map.
        * intros c _. apply fop_flat_map.
          -- intros b _. apply fop_flat_map.
             ++ intros w _. eapply fop_impl; [|apply fop_filter, fop_block, cell_fop]. intros x y Hx Hy Hlt. cbn beta in Hlt.
                apply (phase_in bs Ps Hbs l c b w) in Hx as [A [B [D E]]], Hy as [A' [B' [D' E']]]. lia.
             ++ eapply fop_impl; [|apply seq_fop]. intros w w' _ _ Hlt x y Hx Hy. cbn beta in Hlt. apply (phase_in bs Ps Hbs) in Hx as [A [B [D E]]], Hy as [A' [B' [D' E']]]. lia.
          -- eapply fop_impl; [|apply seq_fop]. intros b b' _ _ Hlt x y Hx Hy. cbn beta in Hlt. apply in_flat_map in Hx as [w [_ Hx]], Hy as [w' [_ Hy]].
             apply (phase_in bs Ps Hbs) in Hx as [A [B [D E]]], Hy as [A' [B' [D' E']]]. lia.
        * eapply fop_impl; [|apply seq_fop]. intros c c' _ _ Hlt x y Hx Hy. cbn beta in Hlt. apply in_flat_map in Hx as [b [_ Hx]], Hy as [b' [_ Hy]].
          apply in_flat_map in Hx as [w [_ Hx]], Hy as [w' [_ Hy]].
          apply (phase_in bs Ps Hbs) in Hx as [A [B [D E]]], Hy as [A' [B' [D' E']]]. lia.
      + eapply fop_impl; [|apply seq_fop]. intros l l' _ _ Hlt x y Hx Hy. cbn beta in Hlt. apply in_flat_map in Hx as [c [_ Hx]], Hy as [c' [_ Hy]].
        apply in_flat_map in Hx as [b [_ Hx]], Hy as [b' [_ Hy]]. apply in_flat_map in Hx as [w [_ Hx]], Hy as [w' [_ Hy]].
        apply (phase_in bs Ps Hbs) in Hx as [A [B [D E]]], Hy as [A' [B' [D' E']]]. lia.
    - intros x y N Hl Hx Hy El Ec C Hxy Pr. destruct (Hxy El Ec) as [?|[? ?]]; [lia|].
      destruct (Nat.eq_dec (c_wave x) (c_wave y)) as [Ew|]; [|lia]. apply (same_wave (c_list x) (c_cell x) x y); auto.
  Qed.

  (** If the waves respect the order of the list, the effect is that of the list. *)
  Lemma serial_places {V} (kernel : nat -> V -> V -> V * V) o data : lists_apart Ps -> (forall P c, In P Ps -> in_list_order bs (pairs_in P c)) ->
    Permutation o (block_calls Ps first last) -> ForallOrdPairs (before_or_same bs Ps) o ->
    forall c i, apply_pairs kernel (map pair_of o) data c i = apply_pairs kernel (in_place_order Ps first last) data c i.
  Proof.
    intros LA LO Po Fo.
    assert (in_place_order Ps first last = map pair_of (block_calls Ps first last)) as ->.
    { unfold in_place_order, block_calls. rewrite map_flat_map. apply flat_map_ext. intros l. rewrite map_flat_map. apply flat_map_ext. intros c.
      symmetry. apply pairs_map, cell_calls_pairs. }
    apply (serial_gen kernel (fun x y => c_list x < c_list y \/ c_list x = c_list y /\ (c_cell x < c_cell y \/ c_cell x = c_cell y /\ place Ps x < place Ps y))); auto.
    - unfold block_calls. apply fop_flat_map.
      + intros l _. apply fop_flat_map.
        * intros c _. eapply fop_impl; [|apply cell_fop]. intros x y Hx Hy Hlt. cbn beta in Hlt.
          apply cell_calls_in in Hx as [? [? [? [? [_ ->]]]]], Hy as [? [? [? [? [_ ->]]]]]. cbn [c_list c_cell]. auto.
        * eapply fop_impl; [|apply seq_fop]. intros c c' _ _ Hlt x y Hx Hy. cbn beta in Hlt.
          apply cell_calls_in in Hx as [? [? [? [? [_ ->]]]]], Hy as [? [? [? [? [_ ->]]]]]. cbn [c_list c_cell]. auto.
      + eapply fop_impl; [|apply seq_fop]. intros l l' _ _ Hlt x y Hx Hy. cbn beta in Hlt. apply in_flat_map in Hx as [c [_ Hx]], Hy as [c' [_ Hy]].
        apply cell_calls_in in Hx as [? [? [? [? [_ ->]]]]], Hy as [? [? [? [? [_ ->]]]]]. cbn [c_list c_cell]. auto.
    - intros x y N Hl Hx Hy El Ec C Hxy Pr. destruct (Hxy El Ec) as [Hb|[Hb Hw]].
      + rewrite !block_no_place in Hb. assert (place Ps x < place Ps y); [|lia]. destruct (le_lt_dec (place Ps y) (place Ps x)) as [Z0|]; auto.
        apply (Nat.div_le_mono _ _ bs) in Z0; lia.
      + destruct (Nat.eq_dec (c_wave x) (c_wave y)) as [Ew|Nw]; [apply (same_wave (c_list x) (c_cell x) x y); auto|].
        assert (Lt : place Ps y < place Ps x) by lia. rewrite !block_no_place in Hb.
        destruct (nth_error_lt_some Ps _ Hl) as [P EP]. pose proof (LO P (c_cell x) (nth_error_In _ _ EP)) as O.
        apply cell_calls_in in Hx as [a [i [j [w [Ea Ex]]]]], Hy as [b [i' [j' [w' [Eb Ey]]]]]. rewrite (at_list _ _ _ EP) in Ea, Eb.
        assert (Pa : place Ps x = a) by (rewrite Ex; apply place_call). assert (Pb : place Ps y = b) by (rewrite Ey; apply place_call).
        rewrite Pa, Pb in *. pose proof (Nat.div_mod a bs). pose proof (Nat.div_mod b bs). pose proof (Nat.mod_upper_bound a bs). pose proof (Nat.mod_upper_bound b bs).
        assert (w' < w).
        { apply (O (a / bs) (b mod bs) (a mod bs) (i', j') (i, j) w' w).
          - nia.
          - rewrite block_of_nth. destruct (Nat.ltb_spec (b mod bs) bs); [|lia]. replace (a / bs * bs + b mod bs) with b by nia. auto.
          - rewrite block_of_nth. destruct (Nat.ltb_spec (a mod bs) bs); [|lia]. replace (a / bs * bs + a mod bs) with a by nia. auto.
          - destruct C as [_ C]. rewrite Ex, Ey in C. cbn [pair_of c_first c_second fst snd] in C. unfold share. cbn [fst snd]. intuition congruence. }
        rewrite Ex, Ey in Hw. cbn [c_wave] in Hw. lia.
  Qed.
End Loop.

(** ** Pair numbers *)
Lemma cell_numbers Ps l c : map c_index (cell_calls Ps l c) = map Z.of_nat (seq (first_number Ps l c) (length (pairs_in (nth l Ps []) c))).
Proof.
  unfold cell_calls. set (L := pairs_in _ _). rewrite map_map. set (f := first_number Ps l c).
  replace (seq f (length L)) with (map (fun i => f + i) (map fst (combine (seq 0 (length L)) L))) by (rewrite map_fst_combine by auto; rewrite seq_shift_add, Nat.add_0_r; auto).
  rewrite !map_map. apply map_ext. intros [x [[i j] w]]. reflexivity.
Qed.

Lemma list_numbers Ps l : map c_index (flat_map (cell_calls Ps l) (seq 0 (length (nth l Ps [])))) =
  map Z.of_nat (seq (list_sum (map (fun P => list_sum (map (@length _) P)) (firstn l Ps))) (list_sum (map (@length _) (nth l Ps [])))).
Proof.
  rewrite map_flat_map. rewrite (flat_map_ext _ (fun c => map Z.of_nat (seq (first_number Ps l c) (nth c (map (@length _) (nth l Ps [])) 0)))).
  2: { intros c. rewrite cell_numbers. unfold pairs_in. pose proof (map_nth (@length (nat * nat * nat)) (nth l Ps []) [] c) as M. cbn [length] in M. rewrite M. auto. }
  rewrite <- map_flat_map. f_equal. unfold first_number. match goal with |- _ = seq ?b _ => set (B := b) end.
  match goal with |- _ = seq B ?n => replace (seq B n) with (map (fun i => B + i) (seq 0 n)) by (rewrite seq_shift_add, Nat.add_0_r; auto) end.
  rewrite <- flat_map_sums, map_flat_map, map_length. apply flat_map_ext. intros c.
  rewrite seq_shift_add, firstn_map. auto.
Qed.

Lemma block_numbers Ps cells : (forall P, In P Ps -> length P = cells) ->
  map c_index (block_calls Ps 0 cells) = map Z.of_nat (seq 0 (list_sum (map (fun P => list_sum (map (@length _) P)) Ps))).
Proof.
  intros H. unfold block_calls. rewrite Nat.sub_0_r, map_flat_map, <- flat_map_sums, map_flat_map, map_length. apply flat_map_ext_in. intros l Hl.
  apply in_seq in Hl. assert (length (nth l Ps []) = cells) by (apply H, nth_In; lia). rewrite <- H0, list_numbers, firstn_map.
  f_equal. f_equal. symmetry. exact (map_nth (fun P => list_sum (map (@length _) P)) Ps [] l).
Qed.

(** ** Lists of the sampler *)
Lemma sampled_holds d cells block_size is_cpu bl P : device_ok d -> 1 <= block_size -> sampled d cells block_size is_cpu bl P ->
  holds block_size bl P /\ (is_cpu = true -> forall c, in_list_order block_size (pairs_in P c)).
Proof.
  intros Hd Hb [r [OK [E [LP R]]]]. destruct (ntc_sample_ok d cells block_size r Hd Hb OK is_cpu) as [bl' [E' [NR LO]]]. rewrite E in E'. injection E' as <-.
  assert (CP : forall c, c < cells -> ntc_pairs r c (pairs_in P c) /\ forall b, b * block_size < length (pairs_in P c) -> exists waves, bl_num_waves bl c b = Some waves /\
      good_block (block_of block_size b (pairs_in P c)) waves /\ waves <= bl_max_wave_count bl).
  { intros c Hc. destruct (nr_cell _ _ _ _ NR c Hc) as [L [EL [H1 H2]]]. rewrite R in EL by auto. injection EL as <-. auto. }
  assert (CT : map (@length _) P = s_counts r).
  { apply nth_error_ext. intros c. rewrite nth_error_map. destruct (lt_dec c cells) as [Hc|Hc].
    - destruct (nth_error_lt_some P c) as [row Er]; [lia|]. destruct (nth_error_lt_some (s_counts r) c) as [n En]; [rewrite (no_counts _ _ OK); auto|].
      rewrite Er, En. cbn. f_equal. destruct (CP c Hc) as [H _]. apply np_count in H. unfold pairs_in in H. rewrite (nth_error_nth _ _ [] Er), (nth_error_nth _ _ 0 En) in H. auto.
    - assert (nth_error P c = None) as -> by (apply nth_error_None; lia). symmetry. apply nth_error_None. rewrite (no_counts _ _ OK). lia. }
  split.
  - constructor.
    + apply (nr_block_size _ _ _ _ NR).
    + rewrite CT. apply (nr_total _ _ _ _ NR).
    + intros c Hc. apply R. lia.
    + intros c x Hc. rewrite <- firstn_map, CT. apply (nr_index _ _ _ _ NR). lia.
    + intros c b Hlt. destruct (lt_dec c cells) as [Hc|Hc]; [destruct (CP c Hc) as [_ G]; destruct (G b Hlt) as [waves [W1 [[G1 G2] W2]]]; exists waves; split; auto; split; auto; split; auto; intros p w Hp; apply G2; eauto|]. unfold pairs_in in Hlt. rewrite nth_overflow in Hlt by lia. cbn in Hlt. lia.
    + apply (nr_max _ _ _ _ NR).
  - intros Ecpu c. destruct (lt_dec c cells) as [Hc|Hc]; [apply (LO Ecpu c); auto|]. unfold pairs_in. rewrite nth_overflow by lia.
    intros b x y p q w w' _ Hx. rewrite block_of_nth in Hx. destruct (x <? block_size); [|discriminate]. destruct (b * block_size + x); discriminate.
Qed.
