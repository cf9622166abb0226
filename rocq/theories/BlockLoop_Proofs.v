(** Proofs about the pair loop over block pair lists. *)
From Coq Require Import List Arith Lia ZArith Bool Permutation.
Import ListNotations.
From Verif Require Import Base Scan_Model World_Proofs AllToAll_Proofs PairList_Model PairList_Spec PairHost_Proofs PairOrder_Proofs PairLoop_Proofs PairSerial_Proofs SamplerNTC_Model
  SamplerNTC_Spec SamplerNTC_Proofs SamplerNTCCell_Proofs BlockLoop_Model BlockLoop_Spec.
Local Open Scope nat_scope.

Lemma Forall2_length {A B} (R : A -> B -> Prop) l l' : Forall2 R l l' -> length l = length l'.
Proof. induction 1; cbn; auto. Qed.

(** ** Lists in blocks *)
Lemma blocks_concat {A} bs (l : list A) n : 1 <= bs -> length l <= n * bs -> flat_map (fun b => block_of bs b l) (seq 0 n) = l.
Proof.
  intros Hb. enough (G : flat_map (fun b => block_of bs b l) (seq 0 n) = firstn (n * bs) l) by (intros; rewrite G; apply firstn_all2; auto).
  induction n as [|n IH]; auto. rewrite seq_S, flat_map_app, IH. cbn [flat_map Nat.add]. rewrite app_nil_r. unfold block_of.
  replace (S n * bs) with (n * bs + bs) by lia. rewrite firstn_add. auto.
Qed.

Lemma block_of_map {A B} (f : A -> B) bs b l : block_of bs b (map f l) = map f (block_of bs b l).
Proof. unfold block_of. rewrite skipn_map, firstn_map. auto. Qed.

Lemma block_of_nil {A} bs b (l : list A) : length l <= b * bs -> block_of bs b l = [].
Proof. intros H. unfold block_of. rewrite skipn_all2 by auto. destruct bs; auto. Qed.

Lemma block_of_in {A} bs b (l : list A) x : In x (block_of bs b l) -> In x l.
Proof. unfold block_of. intros H. rewrite <- (firstn_skipn (b * bs) l). apply in_or_app. right. rewrite <- (firstn_skipn bs (skipn (b * bs) l)). apply in_or_app. auto. Qed.

Lemma opt_filter {A} (f : A -> bool) (l : list A) k n :
  flat_map (fun o => match o with Some x => if f x then [x] else [] | None => [] end) (map (fun i => nth_error l (i + k)) (seq 0 n)) =
  filter f (firstn n (skipn k l)).
Proof.
  induction n as [|n IH]; auto. rewrite seq_S, map_app, flat_map_app, IH. cbn [map flat_map Nat.add]. rewrite app_nil_r.
  replace (S n) with (n + 1) by lia. rewrite firstn_add, filter_app. f_equal.
  rewrite Nat.add_comm. rewrite <- nth_error_skipn. destruct (nth_error (skipn k l) n) as [x|] eqn:E.
  - rewrite <- (Nat.add_0_r n) in E. rewrite <- nth_error_skipn in E. destruct (skipn n (skipn k l)); [discriminate|]. injection E as ->. reflexivity.
  - apply nth_error_None in E. rewrite (skipn_all2 (n := n)) by auto. auto.
Qed.

(** ** Calls *)
Lemma cell_calls_nth Ps l c x : nth_error (cell_calls Ps l c) x =
  option_map (fun e => let '(i, j, w) := e in mk_call l c w i j (Z.of_nat (first_number Ps l c + x))) (nth_error (pairs_in (nth l Ps []) c) x).
Proof.
  unfold cell_calls. rewrite nth_error_map. set (L := pairs_in _ _). destruct (nth_error L x) as [[[i j] w]|] eqn:E.
  - assert (nth_error (combine (seq 0 (length L)) L) x = Some (x, (i, j, w))) as ->; auto.
    apply nth_error_combine. split; auto. rewrite nth_error_seq. apply nth_error_some_lt in E. destruct (Nat.ltb_spec x (length L)); auto; lia.
  - assert (nth_error (combine (seq 0 (length L)) L) x = None) as ->; auto. apply nth_error_None. apply nth_error_None in E. rewrite combine_length, seq_length. lia.
Qed.

Lemma cell_calls_length Ps l c : length (cell_calls Ps l c) = length (pairs_in (nth l Ps []) c).
Proof. unfold cell_calls. rewrite map_length, combine_length, seq_length. lia. Qed.

Lemma cell_calls_in Ps l c y : In y (cell_calls Ps l c) -> exists x i j w, nth_error (pairs_in (nth l Ps []) c) x = Some (i, j, w) /\
  y = mk_call l c w i j (Z.of_nat (first_number Ps l c + x)).
Proof.
  intros H. apply In_nth_error in H as [x H]. rewrite cell_calls_nth in H. destruct (nth_error _ x) as [[[i j] w]|] eqn:E; [|discriminate].
  injection H as <-. exists x, i, j, w. auto.
Qed.

Definition place (Ps : list cell_pairs) (x : call) : nat := Z.to_nat (c_index x) - first_number Ps (c_list x) (c_cell x).

Lemma place_call Ps l c w i j x : place Ps (mk_call l c w i j (Z.of_nat (first_number Ps l c + x))) = x.
Proof. unfold place. cbn [c_index c_list c_cell]. rewrite Nat2Z.id. lia. Qed.

Lemma block_no_place bs Ps x : block_no bs Ps x = place Ps x / bs.
Proof. reflexivity. Qed.

(** Calls in the order of blocks and waves. *)
Definition before_or_same (bs : nat) (Ps : list cell_pairs) (x y : call) : Prop := c_list x = c_list y -> c_cell x = c_cell y ->
  block_no bs Ps x < block_no bs Ps y \/ block_no bs Ps x = block_no bs Ps y /\ c_wave x <= c_wave y.

Lemma block_call bs Ps l c b y : 1 <= bs -> In y (block_of bs b (cell_calls Ps l c)) -> block_no bs Ps y = b /\ c_list y = l /\ c_cell y = c.
Proof.
  intros Hb H. apply In_nth_error in H as [x H]. rewrite block_of_nth in H. destruct (Nat.ltb_spec x bs); [|discriminate]. rewrite cell_calls_nth in H.
  destruct (nth_error _ _) as [[[i j] w]|]; [|discriminate]. injection H as <-. split; auto. rewrite block_no_place, place_call.
  rewrite Nat.add_comm, Nat.div_add by lia. rewrite Nat.div_small; auto.
Qed.

(** ** Phases in order *)
Lemma phases_fop_gen (R : call -> call -> Prop) : forall phases o,
  (forall p x y, In p phases -> In x p -> In y p -> R x y) ->
  ForallOrdPairs (fun p q => forall x y, In x p -> In y q -> R x y) phases -> phases_order phases o -> ForallOrdPairs R o.
Proof.
  induction phases as [|p phases IH]; intros o H1 H2 [ph' [F ->]]; inversion F as [|? q ? ph F1 F2]; subst; [constructor|].
  inversion H2 as [|? ? Hp H2']; subst. cbn [concat]. apply fop_app.
  assert (Q : forall x, In x q -> In x p) by (intros x Hx; eapply Permutation_in; [apply Permutation_sym; eauto|auto]).
  split; [|split].
  - apply fop_true. intros x y Hx Hy. apply (H1 p); cbn; auto.
  - apply IH; auto; [|exists ph; auto]. intros p' x y Hp' Hx Hy. apply (H1 p'); cbn; auto.
  - intros x y Hx Hy. apply in_concat in Hy as [l [Hl Hy]].
    assert (exists l', In l' phases /\ In y l') as [l' [Hl' Hy']].
    { clear -F2 Hl Hy. induction F2 as [|a b la lb Hab F2 IH]; [destruct Hl|]. destruct Hl as [->|Hl].
      - exists a. cbn. split; auto. eapply Permutation_in; [apply Permutation_sym; eauto|auto].
      - destruct (IH Hl) as [l' [? ?]]. exists l'. cbn. auto. }
    rewrite Forall_forall in Hp. apply (Hp l' Hl' x y); auto.
Qed.

Lemma at_list (Ps : list cell_pairs) l P : nth_error Ps l = Some P -> nth l Ps [] = P.
Proof. apply nth_error_nth. Qed.

Section Loop.
  Context (bs : nat) (lists : list block_list) (Ps : list cell_pairs) (cells : nat).
  Hypothesis Hbs : 1 <= bs.
  Hypothesis HP : Forall2 (holds bs) lists Ps.
  Hypothesis Hcells : forall P, In P Ps -> length P = cells.

  Lemma lists_len : length lists = length Ps.
  Proof. eapply Forall2_length; eauto. Qed.

  Lemma list_holds l s : nth_error lists l = Some s -> exists P, nth_error Ps l = Some P /\ holds bs s P.
  Proof.
    enough (G : forall la lb, Forall2 (holds bs) la lb -> forall l, nth_error la l = Some s -> exists P, nth_error lb l = Some P /\ holds bs s P) by (apply G; auto).
    clear. intros la lb F. induction F as [|a b la lb Hab F IH]; intros [|l] E; try discriminate.
    - injection E as <-. exists b. auto.
    - apply IH in E. auto.
  Qed.

  Definition counts (P : cell_pairs) : nat := list_sum (map (@length _) P).

  Lemma prepared : exists p, block_prepare lists = p /\ (lists <> [] -> bp_block_size p = bs) /\ (lists = [] -> bp_block_size p = 0) /\
    bp_total p = list_sum (map counts Ps) /\
    (forall l s, nth_error lists l = Some s -> nth_error (bp_es p) l = Some (list_sum (map counts (firstn l Ps))) /\ bl_max_wave_count s <= bp_max_wave p).
  Proof.
    exists (block_prepare lists). split; auto. unfold block_prepare. set (fn := fun p s => _). clear Hcells.
    enough (G : let p := fold_left fn lists (mk_prepared 0 [] 0 0) in (lists <> [] -> bp_block_size p = bs) /\ (lists = [] -> bp_block_size p = 0) /\
      bp_total p = list_sum (map counts Ps) /\ length (bp_es p) = length lists /\
      (forall l s, nth_error lists l = Some s -> nth_error (bp_es p) l = Some (list_sum (map counts (firstn l Ps))) /\ bl_max_wave_count s <= bp_max_wave p)).
    { cbv zeta in G. tauto. }
    cbv zeta. revert Ps HP. induction lists as [|s ls IH] using rev_ind; intros Ps' HP'.
    { inversion HP'; subst. cbn. repeat split; try congruence; destruct l; discriminate. }
    apply Forall2_app_inv_l in HP' as [Ps1 [Ps2 [F1 [F2 ->]]]]. inversion F2 as [|? P ? ? HsP F3]; subst. inversion F3; subst.
    destruct (IH _ F1) as [_ [_ [T [L E]]]]. pose proof (Forall2_length _ _ _ F1) as LL.
    rewrite fold_left_app. cbn [fold_left]. set (p := fold_left fn ls _) in *. unfold fn at 1 2 3 4 5 6. cbn [bp_block_size bp_total bp_es bp_max_wave].
    split; [intros _; apply (h_block_size _ _ _ HsP)|]. split; [intros E0; destruct ls; discriminate|].
    split; [rewrite map_app, list_sum_app, T; cbn; rewrite (h_count _ _ _ HsP); unfold counts; lia|].
    split; [rewrite !app_length; cbn; lia|]. intros l s' Hl. destruct (lt_dec l (length ls)) as [Hlt|Hge].
    - rewrite nth_error_app1 in Hl by auto. destruct (E l s' Hl) as [A B]. rewrite nth_error_app1 by lia. rewrite firstn_app.
      replace (l - length Ps1) with 0 by lia. cbn [firstn]. rewrite app_nil_r. split; [auto|lia].
    - rewrite nth_error_app2 in Hl by lia. destruct (l - length ls) as [|[|z]] eqn:Z0; try discriminate. injection Hl as <-.
      assert (l = length ls) by lia. subst l. rewrite nth_error_app2, L, Nat.sub_diag by lia. cbn [nth_error].
      rewrite firstn_app. replace (length ls - length Ps1) with 0 by lia. rewrite firstn_all2 by lia. cbn [firstn]. rewrite app_nil_r, T. split; [auto|lia].
  Qed.

  Lemma item_ok l s P off c x n : nth_error Ps l = Some P -> holds bs s P -> c < length P -> off = list_sum (map counts (firstn l Ps)) ->
    bl_num_pairs s c = Some n -> block_item s l c off n x = Some (nth_error (cell_calls Ps l c) x).
  Proof.
    intros EP H Hc -> En. unfold block_item. pose proof (h_pairs _ _ _ H c Hc) as R. unfold read_block_pairs in R. rewrite En in R. cbn [obind] in R.
    assert (Ln : length (pairs_in P c) = n) by (apply mapM_length in R; rewrite seq_length in R; auto).
    rewrite cell_calls_nth, (at_list _ _ _ EP). destruct (Nat.ltb_spec x n) as [Hx|Hx].
    - destruct (nth_error_lt_some (pairs_in P c) x) as [[[i j] w] Ex]; [lia|].
      pose proof (mapM_nth _ _ _ x x R) as G. rewrite nth_error_seq in G. destruct (Nat.ltb_spec x n); [|lia]. specialize (G eq_refl). cbn beta in G. rewrite Ex in G. rewrite Ex.
      destruct (bl_index_i s c x); [|discriminate]. cbn [obind] in *. destruct (bl_index_j s c x); [|discriminate]. cbn [obind] in *.
      destruct (bl_pair_wave s c x); [|discriminate]. cbn [obind] in *. injection G as -> -> ->. rewrite (h_index _ _ _ H c x Hc). cbn [obind option_map].
      unfold first_number, counts. rewrite (at_list _ _ _ EP). do 4 f_equal. set (a := list_sum _). set (b := list_sum _). lia.
    - assert (nth_error (pairs_in P c) x = None) as -> by (apply nth_error_None; lia). auto.
  Qed.

  Definition phase_of (l c b w : nat) : list call := filter (fun x => w =? c_wave x) (block_of bs b (cell_calls Ps l c)).
  Definition group_phases (W : nat -> nat) (l c : nat) : list (list call) :=
    concat (map (fun b => map (phase_of l c b) (seq 0 (W b))) (seq 0 (div_round_up (length (pairs_in (nth l Ps []) c)) bs))).

  Lemma block_waves l P c b y waves : nth_error Ps l = Some P -> wave_block (block_of bs b (pairs_in P c)) waves ->
    In y (block_of bs b (cell_calls Ps l c)) -> c_wave y < waves.
  Proof.
    intros EP G H. apply In_nth_error in H as [x H]. rewrite block_of_nth in H. destruct (Nat.ltb_spec x bs) as [Hx|]; [|discriminate]. rewrite cell_calls_nth, (at_list _ _ _ EP) in H.
    destruct (nth_error (pairs_in P c) _) as [[[i j] w]|] eqn:E; [|discriminate]. injection H as <-. cbn [c_wave]. apply (wb_waves _ _ G (i, j)).
    apply nth_error_In with x. rewrite block_of_nth. destruct (Nat.ltb_spec x bs); [auto|lia].
  Qed.

  (** The phases of a work group. *)
  Lemma group_ok cpu p l c : block_prepare lists = p -> l < length lists -> c < cells -> exists W,
    block_group cpu bs bs (bp_max_wave p) lists (bp_es p) c l = Some (group_phases W l c) /\
    forall b y, In y (block_of bs b (cell_calls Ps l c)) -> c_wave y < W b.
  Proof.
    intros Ep Hl Hc. destruct (nth_error_lt_some lists l Hl) as [s Es]. destruct (list_holds l s Es) as [P [EP H]].
    destruct prepared as [p' [Ep' [_ [_ [_ PE]]]]]. rewrite Ep in Ep'. subst p'. destruct (PE l s Es) as [E1 E2].
    assert (LP : length P = cells) by (apply Hcells; eapply nth_error_In; eauto).
    pose proof (h_pairs _ _ _ H c ltac:(lia)) as R. unfold read_block_pairs in R. destruct (bl_num_pairs s c) as [n|] eqn:En; [|discriminate]. cbn [obind] in R.
    assert (Ln : length (pairs_in P c) = n) by (apply mapM_length in R; rewrite seq_length in R; auto).
    exists (fun b => if cpu then bp_max_wave p else match bl_num_waves s c b with Some w => w | None => 0 end). split.
    - unfold block_group, rd. rewrite Es. cbn [obind]. rewrite E1. cbn [obind]. rewrite En. cbn [obind].
      rewrite (mapM_some _ (fun b => map (phase_of l c b) (seq 0 (if cpu then bp_max_wave p else match bl_num_waves s c b with Some w => w | None => 0 end)))).
      + cbn [obind]. unfold group_phases. rewrite (at_list _ _ _ EP), Ln. auto.
      + intros b Hb. apply in_seq in Hb. assert (Hb' : b * bs < n) by (apply div_round_up_lt; auto; lia).
        rewrite (mapM_some _ (fun i => nth_error (cell_calls Ps l c) (i + b * bs))) by (intros i _; apply (item_ok l s P); auto; lia). cbn [obind].
        destruct (h_waves _ _ _ H c b) as [waves [W1 _]]; [lia|]. rewrite W1.
        assert ((if cpu then Some (bp_max_wave p) else Some waves) = Some (if cpu then bp_max_wave p else waves)) as -> by (destruct cpu; auto). cbn [obind].
        f_equal. apply map_ext. intros w. unfold block_phase, phase_of, block_of. rewrite <- (opt_filter (fun x => w =? c_wave x)). auto.
    - intros b y Hy. assert (Hb : b * bs < length (pairs_in P c)).
      { destruct (le_lt_dec (length (pairs_in P c)) (b * bs)) as [Z0|]; auto. rewrite block_of_nil in Hy; [destruct Hy|]. rewrite cell_calls_length, (at_list _ _ _ EP). auto. }
      destruct (h_waves _ _ _ H c b Hb) as [waves [W1 [G W2]]]. rewrite W1. pose proof (block_waves l P c b y waves EP G Hy). destruct cpu; lia.
  Qed.

  Lemma phase_in l c b w y : In y (phase_of l c b w) -> block_no bs Ps y = b /\ c_wave y = w /\ c_list y = l /\ c_cell y = c.
  Proof.
    intros H. apply filter_In in H as [H E]. apply Nat.eqb_eq in E. apply block_call in H as [A [B D]]; auto.
  Qed.

  Lemma group_perm W l c : (forall b y, In y (block_of bs b (cell_calls Ps l c)) -> c_wave y < W b) ->
    Permutation (concat (group_phases W l c)) (cell_calls Ps l c).
  Proof.
    intros HW. unfold group_phases. rewrite <- flat_map_concat_map.
    assert (concat (flat_map (fun b => map (phase_of l c b) (seq 0 (W b))) (seq 0 (div_round_up (length (pairs_in (nth l Ps []) c)) bs))) =
      flat_map (fun b => flat_map (phase_of l c b) (seq 0 (W b))) (seq 0 (div_round_up (length (pairs_in (nth l Ps []) c)) bs))) as ->.
    { induction (seq 0 (div_round_up _ _)) as [|b l' IH]; cbn [flat_map]; auto. rewrite concat_app, IH, <- flat_map_concat_map. auto. }
    rewrite (Permutation_flat_map_ext _ (fun b => block_of bs b (cell_calls Ps l c))).
    - rewrite blocks_concat; auto. rewrite cell_calls_length. set (n := length _). destruct (le_lt_dec n (div_round_up n bs * bs)) as [|Z0]; auto.
      apply div_round_up_lt in Z0; auto. lia.
    - intros b _. etransitivity; [|apply (by_key c_wave (W b) (block_of bs b (cell_calls Ps l c))); intros; auto].
      apply Permutation_flat_map_ext. intros w _. unfold phase_of. apply eq_perm. apply filter_ext. intros x. apply Nat.eqb_sym.
  Qed.

  Lemma group_in W l c ph y : In ph (group_phases W l c) -> In y ph -> exists b w, ph = phase_of l c b w.
  Proof.
    unfold group_phases. intros H _. apply in_concat in H as [q [Hq H]]. apply in_map_iff in Hq as [b [<- _]]. apply in_map_iff in H as [w [<- _]]. eauto.
  Qed.

  Lemma group_fop W l c o : phases_order (group_phases W l c) o -> ForallOrdPairs (before_or_same bs Ps) o.
  Proof.
    apply phases_fop_gen.
    - intros ph x y Hp Hx Hy. destruct (group_in W l c ph x Hp Hx) as [b [w ->]]. apply phase_in in Hx as [A [B _]], Hy as [A' [B' _]].
      intros _ _. right. lia.
    - unfold group_phases. rewrite <- flat_map_concat_map. apply fop_flat_map.
      + intros b _. apply fop_map. eapply fop_impl; [|apply seq_fop]. intros w w' _ _ Hlt x y Hx Hy _ _. cbn beta in *.
        apply phase_in in Hx as [A [B _]], Hy as [A' [B' _]]. right. lia.
      + eapply fop_impl; [|apply seq_fop]. intros b b' _ _ Hlt p q Hp Hq x y Hx Hy _ _. cbn beta in *.
        apply in_map_iff in Hp as [w [<- _]], Hq as [w' [<- _]]. apply phase_in in Hx as [A _], Hy as [A' _]. left. lia.
  Qed.
End Loop.
