(** Proofs about the loop over pair lists. *)
From Coq Require Import List Arith Lia ZArith Bool Permutation.
Import ListNotations.
From Verif Require Import Base Kernel World_Proofs SubGroupSelect_Proofs PairList_Model PairList_Spec PairHost_Proofs PairSimple_Proofs PairSet_Proofs PairHistory_Proofs.

Lemma strided_perm ls n : 1 <= ls -> Permutation (flat_map (fun i => for_loop i n ls) (seq 0 ls)) (seq 0 n).
Proof.
  intros H. apply NoDup_Permutation; [|apply seq_NoDup|].
  - apply NoDup_flat_map; [apply seq_NoDup|intros; apply for_loop_nodup; auto|].
    intros a b x Ha Hb Xa Xb. apply in_seq in Ha, Hb. apply strided_in in Xa, Xb; auto; lia.
  - intros x. rewrite in_flat_map, in_seq. split.
    + intros [i [Hi Hx]]. apply in_seq in Hi. apply strided_in in Hx; auto; lia.
    + intros Hx. exists (x mod ls). pose proof (Nat.mod_upper_bound x ls ltac:(lia)). split; [apply in_seq; lia|]. apply strided_in; auto. lia.
Qed.

Lemma combine_seq_nth {A B} (g : nat * A -> B) P z : forall a,
  map g (combine (seq a (length P)) P) = map (fun i => g (i, nth (i - a) P z)) (seq a (length P)).
Proof.
  induction P as [|x P IH]; intros a; auto. cbn [length seq combine map]. rewrite Nat.sub_diag. cbn [nth]. f_equal.
  rewrite IH. apply map_ext_in. intros i Hi. apply in_seq in Hi. replace (i - a) with (S (i - S a)) by lia. auto.
Qed.

Lemma flat_map_list_prod {A B C} (f : A -> B -> list C) l l' :
  flat_map (fun p => f (fst p) (snd p)) (list_prod l l') = flat_map (fun a => flat_map (f a) l') l.
Proof.
  induction l as [|a l IH]; cbn [list_prod flat_map]; auto. rewrite flat_map_app, IH. f_equal.
  clear. induction l' as [|b l' IH]; cbn; auto. rewrite IH. auto.
Qed.

(** ** The state of the loop before its kernels *)
Definition psumZ (lists : list simple) : Z := fold_right Z.add 0%Z (map pair_count lists).

Lemma psumZ_app a b : psumZ (a ++ b) = (psumZ a + psumZ b)%Z.
Proof. unfold psumZ. rewrite map_app. induction (map pair_count a) as [|x l IH]; cbn; lia. Qed.

Lemma prepare_ok lists : exists mp es mw, loop_prepare lists = (mp, es, mw) /\ length es = length lists /\
  (0 <= mp)%Z /\ (0 <= mw)%Z /\
  forall l s, nth_error lists l = Some s -> nth_error es l = Some (psumZ (firstn l lists)) /\
    (max_pair_count s <= mp)%Z /\ (max_wave_count s <= mw)%Z.
Proof.
  unfold loop_prepare.
  match goal with |- context [fold_left ?f lists ?a] => set (fn := f); set (a0 := a) end.
  assert (G : exists mp es mw, fold_left fn lists a0 = (mp, es, psumZ lists, mw) /\ length es = length lists /\ (0 <= mp)%Z /\ (0 <= mw)%Z /\
    forall l s, nth_error lists l = Some s -> nth_error es l = Some (psumZ (firstn l lists)) /\
      (max_pair_count s <= mp)%Z /\ (max_wave_count s <= mw)%Z).
  { induction lists as [|s lists IH] using rev_ind.
    - exists 0%Z, [], 0%Z. repeat split; auto; try lia; destruct l; discriminate.
    - destruct IH as [mp [es [mw [E [L [P1 [P2 H]]]]]]]. rewrite fold_left_app, E. cbn [fold_left]. unfold fn at 1.
      eexists _, _, _. split; [rewrite psumZ_app; cbn; rewrite Z.add_0_r; reflexivity|]. rewrite !app_length. cbn [length].
      split; [lia|]. split; [lia|]. split; [lia|]. intros l s' Hl. destruct (lt_dec l (length lists)) as [Hlt|Hge].
      + rewrite nth_error_app1 in Hl by auto. destruct (H l s' Hl) as [A [B D]]. rewrite nth_error_app1 by lia.
        rewrite firstn_app. replace (l - length lists) with 0 by lia. cbn [firstn]. rewrite app_nil_r. split; auto. lia.
      + rewrite nth_error_app2 in Hl by lia. destruct (l - length lists) as [|[|z]] eqn:Z0; try discriminate. injection Hl as <-.
        assert (l = length lists) by lia. subst l. rewrite nth_error_app2, L, Nat.sub_diag by lia. cbn [nth_error].
        rewrite firstn_app, Nat.sub_diag, firstn_all. cbn [firstn]. rewrite app_nil_r. split; auto. lia. }
  destruct G as [mp [es [mw [E [L [P1 [P2 H]]]]]]]. rewrite E. exists mp, es, mw. auto.
Qed.

(** The calls for wave [w] of lists with given contents and offsets. *)
Definition gcalls (n : nat) (CC : nat -> contents) (off : nat -> Z) (first last w : nat) : list call :=
  flat_map (fun l => flat_map (fun c => calls_for (off l) l (CC l) c w) (seq first (last - first))) (seq 0 n).

Section Loop.
  Context (d : device) (cc : nat).
  Hypothesis Hd : device_ok d.
  Context (lists : list simple) (CC : nat -> contents) (ofs : nat -> Z).
  Hypothesis list_state : forall l s, nth_error lists l = Some s ->
    length (CC l) = cc /\ exists F, rep cc s F (fun c => nth c (CC l) []).
  Hypothesis offsets : forall l s, nth_error lists l = Some s -> psumZ (firstn l lists) = ofs l.

  (** ** The calls of one wave *)
  Definition one_call (off : Z) (l c w i : nat) : call :=
    let q := nth i (nth w (nth c (CC l) []) []) (0, 0) in
    mk_call l c w (fst q) (snd q) (off + Z.of_nat (pairs_before (CC l) c w + i)).

  Lemma calls_for_map off l c w :
    calls_for off l (CC l) c w = map (one_call off l c w) (seq 0 (length (nth w (nth c (CC l) []) []))).
  Proof.
    unfold calls_for. rewrite (combine_seq_nth _ _ (0, 0)). apply map_ext. intros i. rewrite Nat.sub_0_r. unfold one_call. auto.
  Qed.

  Lemma before_pairs l c : length (CC l) = cc -> c <= cc -> before (fun c => nth c (CC l) []) c = length (concat (concat (firstn c (CC l)))).
  Proof. apply before_length. Qed.

  Lemma wave_calls_ok l s ls off c w lid : nth_error lists l = Some s -> c < cc -> w < length (nth c (CC l) []) ->
    wave_calls cc ls off s l c w lid = Some (map (one_call off l c w) (for_loop lid (length (nth w (nth c (CC l) []) [])) ls)).
  Proof.
    intros E Hc Hw. destruct (list_state l s E) as [L [F R]]. unfold wave_calls.
    destruct (nth_error_lt_some (nth c (CC l) []) w Hw) as [P HP]. rewrite (nth_error_nth _ _ [] HP).
    unfold get_num_pairs, rd. rewrite (r_dp cc s _ _ R c w P Hc HP). cbn [obind].
    apply mapM_some. intros i Hi.
    assert (Hi' : i < length P).
    { clear -Hi. unfold for_loop in Hi. revert Hi. generalize (length P) at 1. intros fuel. generalize lid. induction fuel as [|f IH]; intros a Hi; [destruct Hi|].
      cbn [for_loop_fuel] in Hi. destruct (Nat.ltb_spec a (length P)); [|destruct Hi]. destruct Hi as [<-|Hi]; auto. eapply IH; eauto. }
    destruct (nth_error_lt_some P i Hi') as [q Hq].
    destruct (wave_read cc s _ _ c w P i q R Hc HP Hq) as [A [B G]]. rewrite G, A, B. cbn [obind]. unfold one_call.
    rewrite (nth_error_nth _ _ [] HP), (nth_error_nth _ _ (0, 0) Hq). rewrite before_pairs by (auto; lia). unfold pairs_before. auto.
  Qed.

  Lemma calls_perm ls off l c w sched : 1 <= ls -> Permutation sched (seq 0 ls) ->
    Permutation (flat_map (fun lid => map (one_call off l c w) (for_loop lid (length (nth w (nth c (CC l) []) [])) ls)) sched)
      (calls_for off l (CC l) c w).
  Proof.
    intros H P. rewrite P, calls_for_map. set (n := length _).
    assert (E : forall l', flat_map (fun lid => map (one_call off l c w) (for_loop lid n ls)) l' = map (one_call off l c w) (flat_map (fun lid => for_loop lid n ls) l')).
    { induction l' as [|x l' IH]; cbn [flat_map]; auto. rewrite map_app, IH. auto. }
    rewrite E. apply Permutation_map, strided_perm. auto.
  Qed.

  Context (ls first last : nat).
  Hypothesis Hls : 1 <= ls.
  Hypothesis Hrange : last <= cc.

  Lemma no_wave l s c w : nth_error lists l = Some s -> c < cc -> (max_wave_count s <= Z.of_nat w)%Z -> nth w (nth c (CC l) []) [] = [].
  Proof.
    intros E Hc Hw. destruct (list_state l s E) as [L [F R]]. destruct (r_mw cc s _ _ R c Hc) as [H|H].
    - apply nth_overflow. lia.
    - rewrite H. destruct w; auto.
  Qed.

  Lemma kernel_phase es k wavex : length es = length lists ->
    (forall l s, nth_error lists l = Some s -> nth_error es l = Some (ofs l)) ->
    exists cs, mapM (fun '(index_cell, (index_list, local_id)) =>
                s <- rd lists index_list ;;
                offset_list <- rd es index_list ;;
                wave_count <- get_num_waves s index_cell ;;
                if wavex <? wave_count then wave_calls cc ls offset_list s index_list index_cell wavex local_id
                else Some [])
              (ord d (k + wavex)
                 (list_prod (seq first (last - first))
                    (list_prod (seq 0 (length lists)) (seq 0 ls)))) = Some cs /\
      Permutation (concat cs) (gcalls (length lists) CC ofs first last wavex).
  Proof.
    intros Les Hes.
    set (g := fun p : nat * (nat * nat) => let '(c, (l, lid)) := p in
       map (one_call (ofs l) l c wavex) (for_loop lid (length (nth wavex (nth c (CC l) []) [])) ls)).
    assert (P0 : Permutation (ord d (k + wavex) (list_prod (seq first (last - first)) (list_prod (seq 0 (length lists)) (seq 0 ls))))
       (list_prod (seq first (last - first)) (list_prod (seq 0 (length lists)) (seq 0 ls)))) by apply Hd.
    exists (map g (ord d (k + wavex) (list_prod (seq first (last - first)) (list_prod (seq 0 (length lists)) (seq 0 ls))))). split.
    - apply mapM_some. intros [c [l lid]] Hin. apply (Permutation_in _ P0) in Hin. apply in_prod_iff in Hin as [Hc Hin].
      apply in_prod_iff in Hin as [Hll Hlid]. apply in_seq in Hc, Hll, Hlid. unfold rd.
      destruct (nth_error_lt_some lists l) as [s Es]; [lia|]. rewrite Es. cbn [obind]. rewrite (Hes l s Es). cbn [obind].
      destruct (list_state l s Es) as [L [F R]]. unfold get_num_waves, rd. rewrite (r_dw cc s _ _ R c) by lia. cbn [obind].
      destruct (Nat.ltb_spec wavex (length (nth c (CC l) []))) as [Hw|Hw].
      + unfold g. apply wave_calls_ok; auto. lia.
      + unfold g. rewrite (nth_overflow (nth c (CC l) []) []) by auto. cbn [length].
        replace (for_loop lid 0 ls) with (@nil nat); auto.
    - rewrite <- flat_map_concat_map, P0.
      unfold gcalls.
      set (h := fun (c : nat) (x : nat * nat) => g (c, (fst x, snd x))).
      transitivity (flat_map (fun p => h (fst p) (snd p)) (list_prod (seq first (last - first)) (list_prod (seq 0 (length lists)) (seq 0 ls)))).
      { apply Permutation_flat_map_ext. intros [c [l lid]] _. auto. }
      rewrite flat_map_list_prod.
      rewrite (flat_map_swap (fun l c => calls_for (ofs l) l (CC l) c wavex) (seq 0 (length lists)) (seq first (last - first))).
      apply Permutation_flat_map_ext. intros c Hc.
      unfold h. rewrite (flat_map_list_prod (fun l lid => g (c, (l, lid)))). apply Permutation_flat_map_ext. intros l Hll.
      unfold g. apply calls_perm; auto.
  Qed.

  Lemma loop_by_kernel_ok es k mw : length es = length lists ->
    (forall l s, nth_error lists l = Some s -> nth_error es l = Some (ofs l)) ->
    (forall l s, nth_error lists l = Some s -> (max_wave_count s <= Z.of_nat mw)%Z) ->
    exists phases, loop_by_kernel d cc k ls lists es mw first last = Some phases /\ length phases = mw /\
      forall w, Permutation (nth w phases []) (gcalls (length lists) CC ofs first last w).
  Proof.
    intros Les Hes Hmw. unfold loop_by_kernel.
    assert (G : forall n, exists phases, mapM (fun wavex =>
        cs <- mapM (fun '(index_cell, (index_list, local_id)) =>
                s <- rd lists index_list ;;
                offset_list <- rd es index_list ;;
                wave_count <- get_num_waves s index_cell ;;
                if wavex <? wave_count then wave_calls cc ls offset_list s index_list index_cell wavex local_id
                else Some [])
              (ord d (k + wavex)
                 (list_prod (seq first (last - first))
                    (list_prod (seq 0 (length lists)) (seq 0 ls)))) ;;
        Some (concat cs)) (seq 0 n) = Some phases /\ length phases = n /\
        forall w, w < n -> Permutation (nth w phases []) (gcalls (length lists) CC ofs first last w)).
    { induction n as [|n IH]; [exists []; repeat split; auto; intros; lia|].
      destruct IH as [ph [E [L H]]]. destruct (kernel_phase es k n Les Hes) as [cs [E2 P2]].
      exists (ph ++ [concat cs]). split; [|split].
      - rewrite seq_S. rewrite mapM_app, E. cbn [obind mapM]. cbn [Nat.add]. rewrite E2. reflexivity.
      - rewrite app_length. cbn. lia.
      - intros w Hw. destruct (Nat.eq_dec w n) as [->|N].
        + rewrite app_nth2 by lia. rewrite L, Nat.sub_diag. auto.
        + rewrite app_nth1 by lia. apply H. lia. }
    destruct (G mw) as [ph [E [L H]]]. exists ph. split; auto. split; auto. intros w. destruct (lt_dec w mw) as [Hw|Hw]; auto.
    rewrite nth_overflow by lia. replace (gcalls (length lists) CC ofs first last w) with (@nil call); auto. symmetry.
    unfold gcalls. apply flat_map_nil. intros l Hll. apply flat_map_nil. intros c Hc. apply in_seq in Hll, Hc. 
    destruct (nth_error_lt_some lists l) as [s Es]; [lia|]. pose proof (Hmw l s Es). rewrite calls_for_map.
    rewrite (no_wave l s c w Es) by lia. auto.
  Qed.

  (** One work group. *)
  Definition group_of (k : nat) (key : nat * nat) : list (list call) :=
    map (fun wavex => flat_map (fun lid => map (one_call (ofs (snd key)) (snd key) (fst key) wavex)
            (for_loop lid (length (nth wavex (nth (fst key) (CC (snd key)) []) [])) ls)) (ord d (k + wavex) (seq 0 ls)))
      (seq 0 (length (nth (fst key) (CC (snd key)) []))).

  Lemma loop_by_barrier_ok es k : length es = length lists ->
    (forall l s, nth_error lists l = Some s -> nth_error es l = Some (ofs l)) ->
    loop_by_barrier d cc k ls lists es first last =
      Some (map (group_of k) (list_prod (seq first (last - first)) (seq 0 (length lists)))).
  Proof.
    intros Les Hes. unfold loop_by_barrier. apply mapM_some. intros [c l] Hin. apply in_prod_iff in Hin as [Hc Hll]. apply in_seq in Hc, Hll.
    unfold rd. destruct (nth_error_lt_some lists l) as [s Es]; [lia|]. rewrite Es. cbn [obind]. rewrite (Hes l s Es). cbn [obind].
    destruct (list_state l s Es) as [L [F R]]. unfold get_num_waves, rd. rewrite (r_dw cc s _ _ R c) by lia. cbn [obind].
    unfold group_of. cbn [fst snd]. apply mapM_some. intros w Hw. apply in_seq in Hw.
    rewrite (mapM_some _ (fun lid => map (one_call (ofs l) l c w) (for_loop lid (length (nth w (nth c (CC l) []) [])) ls))).
    - cbn [obind]. rewrite <- flat_map_concat_map. auto.
    - intros lid _. apply wave_calls_ok; auto; lia.
  Qed.

  Lemma group_wave k key w : Permutation (nth w (group_of k key) []) (calls_for (ofs (snd key)) (snd key) (CC (snd key)) (fst key) w).
  Proof.
    unfold group_of. set (n := length (nth (fst key) (CC (snd key)) [])). destruct (lt_dec w n) as [Hw|Hw].
    - rewrite nth_map_seq by auto. apply calls_perm; auto. apply Hd.
    - rewrite nth_overflow by (rewrite map_length, seq_length; lia). rewrite calls_for_map.
      rewrite (nth_overflow (nth (fst key) (CC (snd key)) [])) by (fold n; lia). auto.
  Qed.

  Lemma groups_wave k w : Permutation (flat_map (fun g => nth w g []) (map (group_of k) (list_prod (seq first (last - first)) (seq 0 (length lists)))))
    (gcalls (length lists) CC ofs first last w).
  Proof.
    assert (E : forall l, flat_map (fun g => nth w g []) (map (group_of k) l) = flat_map (fun key => nth w (group_of k key) []) l).
    { induction l as [|x l IH]; cbn; auto. rewrite IH. auto. }
    rewrite E.
    transitivity (flat_map (fun key : nat * nat => (fun c l => calls_for (ofs l) l (CC l) c w) (fst key) (snd key))
      (list_prod (seq first (last - first)) (seq 0 (length lists)))).
    { apply Permutation_flat_map_ext. intros key _. apply group_wave. }
    rewrite (flat_map_list_prod (fun c l => calls_for (ofs l) l (CC l) c w)).
    unfold gcalls.
    rewrite (flat_map_swap (fun l c => calls_for (ofs l) l (CC l) c w) (seq 0 (length lists)) (seq first (last - first))). auto.
  Qed.

  (** Work groups are independent: each has one cell and one list. *)
  Definition structured (ex : execution) : Prop :=
    match ex with
    | Kernels _ => True
    | Groups groups => exists keys : list (nat * nat), NoDup keys /\
        Forall2 (fun key g => forall w x, In x (nth w g []) -> (c_cell x, c_list x) = key /\ c_wave x = w) keys groups
    end.

  Lemma nodup_prod {A B} (l : list A) (l' : list B) : NoDup l -> NoDup l' -> NoDup (list_prod l l').
  Proof.
    intros N N'. induction N as [|a l Ha N IH]; cbn [list_prod]; [constructor|].
    apply NoDup_app_intro; auto.
    - apply NoDup_map_inj; auto. intros; congruence.
    - intros [x y] H1 H2. apply in_map_iff in H1 as [z [E _]]. injection E as <- <-. apply in_prod_iff in H2. tauto.
  Qed.

  Lemma calls_for_in o l c w x : In x (calls_for o l (CC l) c w) -> c_cell x = c /\ c_list x = l /\ c_wave x = w.
  Proof. rewrite calls_for_map. intros H. apply in_map_iff in H as [i [<- _]]. auto. Qed.

  Lemma pair_loop_gen k cpu : exists ex, pair_loop d cc k ls cpu lists first last = Some ex /\
    (forall w, Permutation (executed ex w) (gcalls (length lists) CC ofs first last w)) /\ structured ex.
  Proof.
    unfold pair_loop. destruct (prepare_ok lists) as [mp [es [mw [E [Les [P1 [P2 H]]]]]]]. rewrite E.
    assert (Hes : forall l s, nth_error lists l = Some s -> nth_error es l = Some (ofs l)).
    { intros l s Es. destruct (H l s Es) as [A _]. rewrite A. f_equal. eapply offsets; eauto. }
    destruct ((0 <? mp)%Z && (0 <? length lists) && (first <? last)) eqn:B.
    - destruct (cpu || (mw =? 1)%Z).
      + destruct (loop_by_kernel_ok es k (Z.to_nat mw) Les Hes) as [ph [E2 [L2 H2]]].
        { intros l s Es. destruct (H l s Es) as [_ [_ A]]. lia. }
        rewrite E2. cbn [obind]. eexists. split; [reflexivity|]. split; [auto|cbn; auto].
      + rewrite loop_by_barrier_ok by auto. cbn [obind]. eexists. split; [reflexivity|]. split; [intros w; apply groups_wave|].
        cbn [structured]. exists (list_prod (seq first (last - first)) (seq 0 (length lists))). split; [apply nodup_prod; apply seq_NoDup|].
        induction (list_prod (seq first (last - first)) (seq 0 (length lists))) as [|key keys IH]; cbn [map]; constructor; auto.
        intros w x Hx. apply (Permutation_in _ (group_wave k key w)) in Hx. apply calls_for_in in Hx as [A [B' D]].
        destruct key. cbn [fst snd] in *. subst. auto.
    - eexists. split; [reflexivity|]. split; [|cbn; auto]. intros w. cbn [executed].
      replace (nth w [] []) with (@nil call) by (destruct w; auto).
      replace (gcalls (length lists) CC ofs first last w) with (@nil call); auto. symmetry. unfold gcalls.
      apply flat_map_nil. intros l Hll. apply flat_map_nil. intros c Hc. apply in_seq in Hll, Hc. 
      destruct (nth_error_lt_some lists l) as [s Es]; [lia|]. destruct (list_state l s Es) as [L [F R]]. destruct (H l s Es) as [_ [A _]].
      rewrite calls_for_map. destruct (nth w (nth c (CC l) []) []) as [|q P] eqn:Q; auto. exfalso.
      assert (Z0 : (0 < max_pair_count s)%Z).
      { apply (r_mp cc s _ _ R). exists c. split; [lia|]. intros Z.
        assert (I : In (q :: P) (nth c (CC l) [])).
        { rewrite <- Q. apply nth_In. destruct (lt_dec w (length (nth c (CC l) []))); auto. rewrite nth_overflow in Q by lia. discriminate. }
        apply in_split in I as [a [b I]]. rewrite I, concat_app in Z. cbn in Z. destruct (concat a); discriminate. }
      apply andb_false_iff in B as [B|B]; [apply andb_false_iff in B as [B|B]|].
      + apply Z.ltb_ge in B. lia.
      + apply Nat.ltb_ge in B. lia.
      + apply Nat.ltb_ge in B. lia.
  Qed.
End Loop.

(** Lists that were filled by histories of calls. *)
Section Histories.
  Context (d : device) (cc : nat).
  Hypothesis Hd : device_ok d.
  Context (lists : list simple) (oss : list (list (nat * op))).
  Hypothesis Hl : Forall2 (list_with d cc) lists oss.

  Definition CC (l : nat) : contents := expected cc (nth l oss []).

  Lemma lists_length : length lists = length oss.
  Proof. induction Hl; cbn; auto. Qed.

  Lemma list_state l s : nth_error lists l = Some s ->
    length (CC l) = cc /\ rep cc s (filled (nth l oss [])) (fun c => nth c (CC l) []).
  Proof.
    intros E. assert (G : exists os, nth_error oss l = Some os /\ list_with d cc s os).
    { clear -Hl E. revert l E. induction Hl as [|a b la lb Hab H IH]; intros l E; [destruct l; discriminate|].
      destruct l as [|l]; [injection E as <-; exists b; auto|]. exact (IH H l E). }
    destruct G as [os [Eo [k [Er D]]]]. unfold CC. rewrite (nth_error_nth oss l [] Eo).
    destruct (run_ok d cc Hd k os s Er D) as [b [B L R P]]. auto.
  Qed.

  Lemma offsets l s : nth_error lists l = Some s -> psumZ (firstn l lists) = offset_of cc oss l.
  Proof.
    intros E. unfold psumZ, offset_of. f_equal. clear E. revert l.
    induction Hl as [|a b la lb [k [Er D]] H IH]; intros l; [rewrite !firstn_nil; auto|]. specialize (IH H). destruct l as [|l]; auto. cbn [firstn map]. f_equal; auto.
    destruct (pair_numbers d cc Hd k b a Er D) as [_ Q]. exact Q.
  Qed.

  Lemma pair_loop_ok ls first last (Hls : 1 <= ls) (Hrange : last <= cc) k cpu :
    exists ex, pair_loop d cc k ls cpu lists first last = Some ex /\
    (forall w, Permutation (executed ex w) (calls_of_wave cc oss first last w)) /\ structured ex.
  Proof.
    destruct (pair_loop_gen d cc Hd lists CC (offset_of cc oss)
      (fun l s E => match list_state l s E with conj A B => conj A (ex_intro _ _ B) end) offsets ls first last Hls Hrange k cpu)
      as [ex [E [P S1]]].
    exists ex. split; auto. split; auto. intros w. unfold calls_of_wave. rewrite <- lists_length. apply P.
  Qed.
End Histories.
