(** Proofs about the sampler with replacement: a block of pairs on a GPU. *)
From Coq Require Import List Arith Lia ZArith QArith Bool Permutation.
Import ListNotations.
From Verif Require Import Base Kernel Scan_Model PairList_Spec PairHost_Proofs SamplerNTC_Model SamplerNTC_Spec SamplerNTC_Proofs.
Local Open Scope nat_scope.

Lemma set_flags_ok flags p v : fst p < length flags -> snd p < length flags ->
  exists flags', set_flags flags p v = Some flags' /\ length flags' = length flags /\
    forall x, nth_error flags' x = if (fst p =? x) || (snd p =? x) then Some v else nth_error flags x.
Proof.
  intros H1 H2. unfold set_flags. destruct (upd_some flags (fst p) v H1) as [f1 E1]. rewrite E1. cbn [obind].
  pose proof (upd_length _ _ _ _ E1) as L1. destruct (upd_some f1 (snd p) v) as [f2 E2]; [lia|]. exists f2. split; auto.
  split; [rewrite (upd_length _ _ _ _ E2); auto|]. intros x. rewrite (upd_nth _ _ _ _ x E2), (upd_nth _ _ _ _ x E1).
  rewrite (Nat.eqb_sym x (snd p)), (Nat.eqb_sym x (fst p)). destruct (snd p =? x), (fst p =? x); auto.
Qed.

(** A fold in which only one item does something. *)
Lemma foldM_single {A S} (f : S -> A -> option S) (I : S -> Prop) sched a s s' : NoDup sched -> In a sched ->
  I s -> (forall t b, I t -> b <> a -> In b sched -> f t b = Some t) -> f s a = Some s' -> I s' -> foldM f s sched = Some s'.
Proof.
  intros N Ha Is Hn Hs Is'. apply in_split in Ha as [l1 [l2 ->]].
  assert (G : forall l t, I t -> (forall b, In b l -> b <> a /\ In b (l1 ++ a :: l2)) -> foldM f t l = Some t).
  { induction l as [|b l IH]; intros t It H; auto. cbn [foldM]. destruct (H b (or_introl eq_refl)). rewrite Hn by auto. cbn [obind]. apply IH; auto.
    intros; apply H; right; auto. }
  rewrite foldM_app, G; auto.
  - cbn [obind foldM]. rewrite Hs. cbn [obind]. apply G; auto. intros b Hb. split; [|apply in_or_app; cbn; auto].
    intros ->. apply NoDup_remove_2 in N. apply N, in_or_app. auto.
  - intros b Hb. split; [|apply in_or_app; cbn; auto]. intros ->. apply NoDup_remove_2 in N. apply N, in_or_app. auto.
Qed.

(** ** The atomic operations *)
Section Phase1.
  Context (PS : list (nat * nat)) (n : nat) (flags0 : list nat).
  Hypothesis zero : forall p, p < n -> nth_error flags0 p = Some 0.
  Hypothesis range : forall l p, nth_error PS l = Some p -> fst p < n /\ snd p < n.
  Local Notation m := (length PS).

  Definition got0 (it : item) (p : nat) : Prop :=
    (1 <= it_pc it /\ it_i it = p /\ it_fi it = 0) \/ (2 <= it_pc it /\ it_j it = p /\ it_fj it = 0).
  Definition used (p : nat) : Prop := exists l q, nth_error PS l = Some q /\ (p = fst q \/ p = snd q).

  Record phase1 (pre O : list nat) (flags : list nat) (count : nat) (items : list item) : Prop := {
    p1_len : length flags = length flags0;
    p1_items : length items = m;
    p1_item : forall l it, nth_error items l = Some it ->
      nth_error PS l = Some (it_i it, it_j it) /\ it_pc it = count_occ Nat.eq_dec pre l;
    p1_posi : forall l it, nth_error items l = Some it -> 1 <= it_pc it -> exists f, nth_error flags (it_i it) = Some (S f);
    p1_posj : forall l it, nth_error items l = Some it -> 2 <= it_pc it -> exists f, nth_error flags (it_j it) = Some (S f);
    p1_zero : forall l l' it it' p, l <> l' -> nth_error items l = Some it -> nth_error items l' = Some it' ->
      got0 it p -> got0 it' p -> False;
    p1_self : forall l it, nth_error items l = Some it -> 2 <= it_pc it -> it_fi it = 0 -> it_fj it = 0 -> it_i it <> it_j it;
    p1_state : forall l it, nth_error items l = Some it ->
      (it_pc it <= 2 /\ it_wave it = None /\ it_order it = None) \/
      (it_pc it = 3 /\ it_fi it = 0 /\ it_fj it = 0 /\ it_wave it = Some 0 /\ it_order it = None) \/
      (it_pc it = 3 /\ it_wave it = None /\ exists o, it_order it = Some (S o) /\ nth_error O o = Some l);
    p1_nodup : NoDup O;
    p1_count : length O = count;
    p1_O : forall o l, nth_error O o = Some l -> exists it, nth_error items l = Some it /\ it_order it = Some (S o);
    p1_frame : forall p, ~ used p -> nth_error flags p = nth_error flags0 p
  }.

  Lemma phase1_init : phase1 [] [] flags0 0 (map new_item PS).
  Proof.
    assert (N : forall l it, nth_error (map new_item PS) l = Some it -> exists p, nth_error PS l = Some p /\ it = new_item p).
    { intros l it. rewrite nth_error_map. destruct (nth_error PS l) as [p|]; [|discriminate]. cbn. intros [= <-]. eauto. }
    constructor; auto.
    - apply map_length.
    - intros l it H. apply N in H as [[i j] [E ->]]. auto.
    - intros l it H. apply N in H as [p [E ->]]. cbn. lia.
    - intros l it H. apply N in H as [p [E ->]]. cbn. lia.
    - intros l l' it it' p _ H _ G. apply N in H as [q [E ->]]. unfold got0 in G. cbn in G. lia.
    - intros l it H. apply N in H as [p [E ->]]. cbn. lia.
    - intros l it H. apply N in H as [p [E ->]]. cbn. left. auto with arith.
    - constructor.
    - intros o l H. destruct o; discriminate.
  Qed.

  Lemma n_le : n <= length flags0.
  Proof.
    destruct n as [|n'] eqn:E; [lia|]. specialize (zero n' ltac:(lia)). apply nth_error_some_lt in zero. lia.
  Qed.

  Lemma items_upd (items : list item) a it it' items' l x : nth_error items a = Some it -> upd items a it' = Some items' ->
    nth_error items' l = Some x -> (l = a /\ x = it') \/ (l <> a /\ nth_error items l = Some x).
  Proof.
    intros E U H. rewrite (upd_nth _ _ _ _ l U) in H. destruct (Nat.eqb_spec l a); [left|right]; split; auto. congruence.
  Qed.

  Lemma count_snoc pre a l : count_occ Nat.eq_dec (pre ++ [a]) l = count_occ Nat.eq_dec pre l + (if l =? a then 1 else 0).
  Proof.
    rewrite count_occ_app. cbn [count_occ]. destruct (Nat.eq_dec a l), (Nat.eqb_spec l a); subst; try congruence; auto.
  Qed.

  Lemma phase1_step pre O flags count items a : phase1 pre O flags count items -> a < m -> count_occ Nat.eq_dec pre a <= 2 ->
    exists O' flags' count' items', atomic_step (flags, count, items) a = Some (flags', count', items') /\
      phase1 (pre ++ [a]) O' flags' count' items'.
  Proof.
    intros P Ha Hc. pose proof n_le as NL. pose proof (p1_len _ _ _ _ _ P) as LF. pose proof (p1_items _ _ _ _ _ P) as LI.
    destruct (nth_error_lt_some items a) as [it Ei]; [lia|]. unfold atomic_step. unfold rd at 1. rewrite Ei. cbn [obind].
    destruct (p1_item _ _ _ _ _ P a it Ei) as [Ep Epc]. destruct (range _ _ Ep) as [Ri Rj]. cbn [fst snd] in Ri, Rj.
    assert (U : used (it_i it) /\ used (it_j it)).
    { split; exists a; eexists; (split; [exact Ep|]); cbn; auto. }
    destruct (it_pc it) as [|[|[|?]]] eqn:Pc; [| | |lia].
    - (* flag of the first particle *)
      destruct (nth_error_lt_some flags (it_i it)) as [f Ef]; [lia|]. unfold rd. rewrite Ef. cbn [obind].
      destruct (upd_some flags (it_i it) (f + 1)) as [flags' Uf]; [lia|]. rewrite Uf. cbn [obind].
      set (it' := mk_item (it_i it) (it_j it) 1 f (it_fj it) (it_wave it) (it_order it)).
      destruct (upd_some items a it') as [items' Ui]; [lia|]. rewrite Ui. cbn [obind].
      exists O, flags', count, items'. split; auto.
      assert (S0 : it_wave it = None /\ it_order it = None). { destruct (p1_state _ _ _ _ _ P a it Ei) as [?|[?|?]]; intuition lia. }
      pose proof (fun l x => items_upd items a it it' items' l x Ei Ui) as IU.
      assert (MONO : forall q v, nth_error flags q = Some (S v) -> exists v', nth_error flags' q = Some (S v')).
      { intros q v Hq. rewrite (upd_nth _ _ _ _ q Uf). destruct (Nat.eqb_spec q (it_i it)); [exists f; f_equal; lia|eauto]. }
      constructor.
      + rewrite (upd_length _ _ _ _ Uf). auto.
      + rewrite (upd_length _ _ _ _ Ui). auto.
      + intros l x H. rewrite count_snoc. apply IU in H as [[-> ->]|[Nl H]].
        * split; auto. rewrite Nat.eqb_refl, <- Epc. auto.
        * destruct (p1_item _ _ _ _ _ P l x H). split; auto. destruct (Nat.eqb_spec l a); [congruence|lia].
      + intros l x H G. apply IU in H as [[-> ->]|[Nl H]].
        * cbn. exists f. rewrite (upd_nth_eq _ _ _ _ Uf). f_equal. lia.
        * destruct (p1_posi _ _ _ _ _ P l x H G) as [v Hv]. eauto.
      + intros l x H G. apply IU in H as [[-> ->]|[Nl H]].
        * cbn in G. lia.
        * destruct (p1_posj _ _ _ _ _ P l x H G) as [v Hv]. eauto.
      + assert (K : forall l x p, l <> a -> nth_error items l = Some x -> got0 x p -> got0 it' p -> False).
        { intros l x p Nl H G [[_ [E1 E2]]|[G2 _]]; [|cbn in G2; lia]. cbn in E1, E2. subst p f.
          destruct G as [[G1 [G2 _]]|[G1 [G2 _]]].
          - destruct (p1_posi _ _ _ _ _ P l x H G1) as [v Hv]. rewrite G2 in Hv. congruence.
          - destruct (p1_posj _ _ _ _ _ P l x H G1) as [v Hv]. rewrite G2 in Hv. congruence. }
        intros l l' x x' p Nl H H' G G'. apply IU in H as [[-> ->]|[Na H]]; apply IU in H' as [[-> ->]|[Na' H']]; try congruence; eauto.
        eapply (p1_zero _ _ _ _ _ P l l'); eauto.
      + intros l x H G. apply IU in H as [[-> ->]|[Nl H]]; [cbn in G; lia|]. eapply p1_self; eauto.
      + intros l x H. apply IU in H as [[-> ->]|[Nl H]]; [left; cbn; intuition lia|]. apply (p1_state _ _ _ _ _ P l x H).
      + apply (p1_nodup _ _ _ _ _ P).
      + apply (p1_count _ _ _ _ _ P).
      + intros o l H. destruct (p1_O _ _ _ _ _ P o l H) as [x [Hx Ho]]. destruct (Nat.eq_dec l a) as [->|Nl].
        * rewrite Ei in Hx. injection Hx as <-. destruct S0. congruence.
        * exists x. split; auto. rewrite (upd_nth_neq _ _ _ _ _ Ui Nl). auto.
      + intros p Hp. rewrite (upd_nth_neq _ _ _ _ _ Uf); [apply (p1_frame _ _ _ _ _ P p Hp)|]. intros ->. tauto.
    - (* flag of the second particle *)
      destruct (nth_error_lt_some flags (it_j it)) as [f Ef]; [lia|]. unfold rd. rewrite Ef. cbn [obind].
      destruct (upd_some flags (it_j it) (f + 1)) as [flags' Uf]; [lia|]. rewrite Uf. cbn [obind].
      set (it' := mk_item (it_i it) (it_j it) 2 (it_fi it) f (it_wave it) (it_order it)).
      destruct (upd_some items a it') as [items' Ui]; [lia|]. rewrite Ui. cbn [obind].
      exists O, flags', count, items'. split; auto.
      assert (S0 : it_wave it = None /\ it_order it = None). { destruct (p1_state _ _ _ _ _ P a it Ei) as [?|[?|?]]; intuition lia. }
      pose proof (fun l x => items_upd items a it it' items' l x Ei Ui) as IU.
      assert (MONO : forall q v, nth_error flags q = Some (S v) -> exists v', nth_error flags' q = Some (S v')).
      { intros q v Hq. rewrite (upd_nth _ _ _ _ q Uf). destruct (Nat.eqb_spec q (it_j it)); [exists f; f_equal; lia|eauto]. }
      constructor.
      + rewrite (upd_length _ _ _ _ Uf). auto.
      + rewrite (upd_length _ _ _ _ Ui). auto.
      + intros l x H. rewrite count_snoc. apply IU in H as [[-> ->]|[Nl H]].
        * split; auto. rewrite Nat.eqb_refl, <- Epc. auto.
        * destruct (p1_item _ _ _ _ _ P l x H). split; auto. destruct (Nat.eqb_spec l a); [congruence|lia].
      + intros l x H G. apply IU in H as [[-> ->]|[Nl H]].
        * cbn. destruct (p1_posi _ _ _ _ _ P a it Ei) as [v Hv]; [lia|]. eauto.
        * destruct (p1_posi _ _ _ _ _ P l x H G) as [v Hv]. eauto.
      + intros l x H G. apply IU in H as [[-> ->]|[Nl H]].
        * cbn. exists f. rewrite (upd_nth_eq _ _ _ _ Uf). f_equal. lia.
        * destruct (p1_posj _ _ _ _ _ P l x H G) as [v Hv]. eauto.
      + assert (K : forall l x p, l <> a -> nth_error items l = Some x -> got0 x p -> got0 it' p -> False).
        { intros l x p Nl H G [[_ [E1 E2]]|[_ [E1 E2]]]; cbn in E1, E2.
          - apply (p1_zero _ _ _ _ _ P l a x it p Nl H Ei G). left. rewrite Pc. auto.
          - subst p f. destruct G as [[G1 [G2 _]]|[G1 [G2 _]]].
            + destruct (p1_posi _ _ _ _ _ P l x H G1) as [v Hv]. rewrite G2 in Hv. congruence.
            + destruct (p1_posj _ _ _ _ _ P l x H G1) as [v Hv]. rewrite G2 in Hv. congruence. }
        intros l l' x x' p Nl H H' G G'. apply IU in H as [[-> ->]|[Na H]]; apply IU in H' as [[-> ->]|[Na' H']]; try congruence; eauto.
        eapply (p1_zero _ _ _ _ _ P l l'); eauto.
      + intros l x H G F1 F2. apply IU in H as [[-> ->]|[Nl H]]; [|eapply p1_self; eauto]. cbn in *. subst f. intros E.
        destruct (p1_posi _ _ _ _ _ P a it Ei) as [v Hv]; [lia|]. rewrite E in Hv. congruence.
      + intros l x H. apply IU in H as [[-> ->]|[Nl H]]; [left; cbn; intuition lia|]. apply (p1_state _ _ _ _ _ P l x H).
      + apply (p1_nodup _ _ _ _ _ P).
      + apply (p1_count _ _ _ _ _ P).
      + intros o l H. destruct (p1_O _ _ _ _ _ P o l H) as [x [Hx Ho]]. destruct (Nat.eq_dec l a) as [->|Nl].
        * rewrite Ei in Hx. injection Hx as <-. destruct S0. congruence.
        * exists x. split; auto. rewrite (upd_nth_neq _ _ _ _ _ Ui Nl). auto.
      + intros p Hp. rewrite (upd_nth_neq _ _ _ _ _ Uf); [apply (p1_frame _ _ _ _ _ P p Hp)|]. intros ->. tauto.
    - (* wave 0 or a place in the order *)
      assert (S0 : it_wave it = None /\ it_order it = None). { destruct (p1_state _ _ _ _ _ P a it Ei) as [?|[?|?]]; intuition lia. }
      assert (NO : forall o, nth_error O o <> Some a).
      { intros o H. destruct (p1_O _ _ _ _ _ P o a H) as [x [Hx Ho]]. rewrite Ei in Hx. injection Hx as <-. destruct S0; congruence. }
      set (b := (it_fi it =? 0) && (it_fj it =? 0)).
      set (it' := if b then mk_item (it_i it) (it_j it) 3 (it_fi it) (it_fj it) (Some 0) (it_order it)
                  else mk_item (it_i it) (it_j it) 3 (it_fi it) (it_fj it) (it_wave it) (Some (count + 1))).
      destruct (upd_some items a it') as [items' Ui]; [lia|].
      exists (if b then O else O ++ [a]), flags, (if b then count else count + 1), items'. split.
      { unfold it' in Ui. destruct b; rewrite Ui; reflexivity. }
      assert (I' : it_i it' = it_i it /\ it_j it' = it_j it /\ it_pc it' = 3 /\ it_fi it' = it_fi it /\ it_fj it' = it_fj it) by (unfold it'; destruct b; cbn; auto).
      destruct I' as [I1 [I2 [I3 [I4 I5]]]].
      assert (GOT : forall p, got0 it' p -> got0 it p). { unfold got0. intros p. rewrite I1, I2, I3, I4, I5, Pc. intuition lia. }
      pose proof (fun l x => items_upd items a it it' items' l x Ei Ui) as IU.
      assert (OL : forall o l, nth_error O o = Some l -> nth_error (if b then O else O ++ [a]) o = Some l).
      { intros o l H. destruct b; auto. rewrite nth_error_app1; auto. eapply nth_error_some_lt; eauto. }
      constructor; auto.
      + rewrite (upd_length _ _ _ _ Ui). auto.
      + intros l x H. rewrite count_snoc. apply IU in H as [[-> ->]|[Nl H]].
        * rewrite I1, I2, I3, Nat.eqb_refl, <- Epc. auto.
        * destruct (p1_item _ _ _ _ _ P l x H). split; auto. destruct (Nat.eqb_spec l a); [congruence|lia].
      + intros l x H G. apply IU in H as [[-> ->]|[Nl H]].
        * rewrite I1. apply (p1_posi _ _ _ _ _ P a it Ei). lia.
        * apply (p1_posi _ _ _ _ _ P l x H G).
      + intros l x H G. apply IU in H as [[-> ->]|[Nl H]].
        * rewrite I2. apply (p1_posj _ _ _ _ _ P a it Ei). lia.
        * apply (p1_posj _ _ _ _ _ P l x H G).
      + intros l l' x x' p Nl H H' G G'. apply IU in H as [[-> ->]|[Na H]]; apply IU in H' as [[-> ->]|[Na' H']]; try congruence.
        * apply (p1_zero _ _ _ _ _ P a l' it x' p Nl Ei H' (GOT p G) G').
        * apply (p1_zero _ _ _ _ _ P l a x it p Nl H Ei G (GOT p G')).
        * apply (p1_zero _ _ _ _ _ P l l' x x' p Nl H H' G G').
      + intros l x H G F1 F2. apply IU in H as [[-> ->]|[Nl H]]; [|eapply p1_self; eauto]. rewrite I4 in F1. rewrite I5 in F2. rewrite I1, I2.
        eapply (p1_self _ _ _ _ _ P); eauto. lia.
      + intros l x H. apply IU in H as [[-> ->]|[Nl H]].
        * unfold it'. destruct b eqn:Eb; cbn.
          -- right. left. apply andb_true_iff in Eb as [B1 B2]. apply Nat.eqb_eq in B1, B2. destruct S0. auto.
          -- right. right. destruct S0. split; auto. split; auto. exists count. split; [f_equal; lia|].
             rewrite nth_error_app2; rewrite (p1_count _ _ _ _ _ P); auto. rewrite Nat.sub_diag. auto.
        * destruct (p1_state _ _ _ _ _ P l x H) as [A|[A|[A1 [A2 [o [A3 A4]]]]]]; auto. right. right. split; auto. split; auto. exists o. auto.
      + destruct b; [apply (p1_nodup _ _ _ _ _ P)|]. apply NoDup_app_intro; [apply (p1_nodup _ _ _ _ _ P)|repeat constructor; auto|].
        intros x Hx [<-|[]]. apply In_nth_error in Hx as [o Ho]. apply (NO o Ho).
      + destruct b; [apply (p1_count _ _ _ _ _ P)|]. rewrite app_length, (p1_count _ _ _ _ _ P). auto.
      + intros o l H. destruct (Nat.eq_dec l a) as [->|Nl].
        * exists it'. split; [apply (upd_nth_eq _ _ _ _ Ui)|]. unfold it'. destruct b; [exfalso; eapply NO; eauto|]. cbn. f_equal.
          destruct (lt_dec o (length O)) as [Lo|Lo]; [rewrite nth_error_app1 in H by auto; exfalso; eapply NO; eauto|].
          rewrite nth_error_app2 in H by lia. rewrite <- (p1_count _ _ _ _ _ P). destruct (o - length O) eqn:E; [lia|]. cbn in H. destruct n0; discriminate.
        * assert (nth_error O o = Some l) as H'.
          { destruct b; auto. destruct (lt_dec o (length O)) as [Lo|Lo]; [rewrite nth_error_app1 in H by auto; auto|].
            rewrite nth_error_app2 in H by lia. destruct (o - length O) as [|[|?]]; cbn in H; congruence. }
          destruct (p1_O _ _ _ _ _ P o l H') as [x [Hx Ho]]. exists x. split; auto. rewrite (upd_nth_neq _ _ _ _ _ Ui Nl). auto.
      + apply (p1_frame _ _ _ _ _ P).
  Qed.

  Lemma count_triple l a : count_occ Nat.eq_dec (flat_map (fun l => [l; l; l]) l) a = 3 * count_occ Nat.eq_dec l a.
  Proof. induction l as [|x l IH]; auto. cbn [flat_map]. rewrite count_occ_app, IH. cbn [count_occ]. destruct (Nat.eq_dec x a); lia. Qed.

  Lemma phase1_run sched : Permutation sched (flat_map (fun l => [l; l; l]) (seq 0 m)) ->
    exists O flags count items, foldM atomic_step (flags0, 0, map new_item PS) sched = Some (flags, count, items) /\
      phase1 sched O flags count items.
  Proof.
    intros HP.
    destruct (foldM_ind atomic_step (fun pre st => exists O, phase1 pre O (fst (fst st)) (snd (fst st)) (snd st)) sched (flags0, 0, map new_item PS))
      as [[[flags count] items] [E [O P]]].
    - exists []. apply phase1_init.
    - intros pre a post [[flags count] items] Es [O P]. cbn [fst snd] in P.
      assert (Ia : In a (seq 0 m)).
      { assert (In a sched) as Ia by (rewrite Es; apply in_or_app; cbn; auto). apply (Permutation_in _ HP) in Ia.
        apply in_flat_map in Ia as [x [Hx [<-|[<-|[<-|[]]]]]]; auto. }
      assert (C : count_occ Nat.eq_dec sched a = 3).
      { rewrite (Permutation_count_occ Nat.eq_dec) in HP. rewrite HP, count_triple.
        rewrite (proj1 (NoDup_count_occ' Nat.eq_dec (seq 0 m)) (seq_NoDup _ _) a Ia). auto. }
      rewrite Es, count_occ_app in C. cbn [count_occ] in C. destruct (Nat.eq_dec a a); [|congruence].
      destruct (phase1_step pre O flags count items a P) as [O' [flags' [count' [items' [E' P']]]]]; [apply in_seq in Ia; lia|lia|].
      exists (flags', count', items'). split; auto. exists O'. auto.
    - exists O, flags, count, items. auto.
  Qed.
End Phase1.
