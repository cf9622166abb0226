(** Proofs about the orders in which a pair loop may take effect. *)
From Coq Require Import List Arith Lia ZArith Bool Permutation.
Import ListNotations.
From Verif Require Import Base World_Proofs PairList_Model PairList_Spec PairHost_Proofs PairSimple_Proofs PairSet_Proofs PairHistory_Proofs PairLoop_Proofs.

(** ** ForallOrdPairs *)
Lemma fop_app {A} (R : A -> A -> Prop) l l' : ForallOrdPairs R (l ++ l') <->
  ForallOrdPairs R l /\ ForallOrdPairs R l' /\ forall x y, In x l -> In y l' -> R x y.
Proof.
  induction l as [|a l IH]; cbn.
  - split; [intros H; repeat split; auto; [constructor|tauto]|tauto].
  - split.
    + intros H. inversion H as [|? ? F G]; subst. apply IH in G as [G1 [G2 G3]]. rewrite Forall_app in F. destruct F as [F1 F2].
      split; [constructor; auto|]. split; auto. intros x y [<-|Hx] Hy; auto. rewrite Forall_forall in F2. auto.
    + intros [H1 [H2 H3]]. inversion H1 as [|? ? F G]; subst. constructor.
      * apply Forall_app. split; auto. apply Forall_forall. auto.
      * apply IH. auto.
Qed.

Lemma fop_map {A B} (R : B -> B -> Prop) (f : A -> B) l : ForallOrdPairs R (map f l) <-> ForallOrdPairs (fun x y => R (f x) (f y)) l.
Proof.
  induction l as [|a l IH]; cbn.
  - split; constructor.
  - split; intros H; inversion H as [|? ? F G]; subst; constructor; try (apply IH; auto).
    + apply Forall_forall. intros x Hx. rewrite Forall_forall in F. apply F, in_map; auto.
    + apply Forall_forall. intros x Hx. apply in_map_iff in Hx as [y [<- Hy]]. rewrite Forall_forall in F. auto.
Qed.

Lemma fop_impl {A} (R R' : A -> A -> Prop) l : (forall x y, In x l -> In y l -> R x y -> R' x y) -> ForallOrdPairs R l -> ForallOrdPairs R' l.
Proof.
  intros H F. induction F as [|a l Fa F IH]; constructor.
  - apply Forall_forall. intros x Hx. rewrite Forall_forall in Fa. apply H; cbn; auto.
  - apply IH. intros; apply H; cbn; auto.
Qed.

Lemma fop_true {A} (R : A -> A -> Prop) l : (forall x y, In x l -> In y l -> R x y) -> ForallOrdPairs R l.
Proof.
  induction l as [|a l IH]; intros H; constructor.
  - apply Forall_forall. intros x Hx. apply H; cbn; auto.
  - apply IH. intros; apply H; cbn; auto.
Qed.

(** ** Interleavings *)
Lemma interleaving_perm {A} (ls : list (list A)) o : interleaving ls o -> Permutation o (concat ls).
Proof.
  induction 1 as [ls H|ls1 x l ls2 o H IH].
  - replace (concat ls) with (@nil A); auto. symmetry. induction ls as [|l ls IH]; auto. cbn. rewrite (H l (or_introl eq_refl)).
    apply IH. intros; apply H; cbn; auto.
  - rewrite IH, !concat_app. cbn [concat app]. apply Permutation_middle.
Qed.

Lemma interleaving_fop {A K} (R : A -> A -> Prop) (key : A -> K) (ls : list (list A)) o : interleaving ls o ->
  forall keys, NoDup keys -> Forall2 (fun k l => forall x, In x l -> key x = k) keys ls ->
  (forall l, In l ls -> ForallOrdPairs R l) -> (forall x y, key x <> key y -> R x y) -> ForallOrdPairs R o.
Proof.
  induction 1 as [ls H|ls1 x l ls2 o H IH]; intros keys N F G D; [constructor|].
  apply Forall2_app_inv_r in F as [k1 [k2' [F1 [F2 ->]]]]. inversion F2 as [|k ? k2 ? Fk F2']; subst.
  assert (F' : Forall2 (fun k l => forall x, In x l -> key x = k) (k1 ++ k :: k2) (ls1 ++ l :: ls2)).
  { apply Forall2_app; auto. constructor; auto. intros y Hy. apply Fk. cbn. auto. }
  constructor.
  - apply Forall_forall. intros y Hy. apply (Permutation_in _ (interleaving_perm _ _ H)) in Hy. rewrite concat_app in Hy. cbn [concat] in Hy.
    assert (Kx : key x = k) by (apply Fk; cbn; auto).
    assert (Other : forall ks lss, Forall2 (fun k l => forall x, In x l -> key x = k) ks lss -> In y (concat lss) -> In (key y) ks).
    { clear. intros ks lss F. induction F as [|a b ks lss Hab F IH]; cbn; auto. intros Hy. apply in_app_or in Hy as [Hy|Hy]; auto. left. symmetry. auto. }
    apply in_app_or in Hy as [Hy|Hy]; [|apply in_app_or in Hy as [Hy|Hy]].
    + apply D. rewrite Kx. intros Q. apply (Other _ _ F1) in Hy. rewrite <- Q in Hy. apply NoDup_remove_2 in N. apply N, in_or_app. auto.
    + assert (Gl : ForallOrdPairs R (x :: l)) by (apply G, in_or_app; cbn; auto). inversion Gl as [|? ? Fa _]; subst.
      rewrite Forall_forall in Fa. auto.
    + apply D. rewrite Kx. intros Q. apply (Other _ _ F2') in Hy. rewrite <- Q in Hy. apply NoDup_remove_2 in N. apply N, in_or_app. auto.
  - apply (IH (k1 ++ k :: k2)); auto. intros l' Hl'. apply in_app_or in Hl' as [Hl'|[<-|Hl']].
    + apply G, in_or_app; auto.
    + assert (Gl : ForallOrdPairs R (x :: l)) by (apply G, in_or_app; cbn; auto). inversion Gl; auto.
    + apply G, in_or_app; cbn; auto.
Qed.

(** ** Admissible orders *)
Definition in_order (x y : call) : Prop := c_list x = c_list y -> c_cell x = c_cell y -> c_wave x <= c_wave y.

Lemma phases_fop : forall phases b o, (forall w x, In x (nth w phases []) -> c_wave x = b + w) -> phases_order phases o ->
  ForallOrdPairs in_order o.
Proof.
  induction phases as [|p phases IH]; intros b o H [ph' [F ->]]; inversion F as [|? q ? ph F1 F2]; subst; [constructor|].
  cbn [concat]. apply fop_app.
  assert (Hq : forall x, In x q -> c_wave x = b).
  { intros x Hx. rewrite <- (Nat.add_0_r b). apply (H 0). cbn. eapply Permutation_in; [apply Permutation_sym; eauto|auto]. }
  assert (Hr : forall x, In x (concat ph) -> b < c_wave x).
  { intros x Hx. apply in_concat in Hx as [l [Hl Hx]].
    assert (G : exists w, In x (nth w phases [])).
    { clear -F2 Hl Hx. induction F2 as [|a b' la lb Hab F2 IH]; [destruct Hl|]. destruct Hl as [->|Hl].
      - exists 0. cbn. eapply Permutation_in; [apply Permutation_sym; eauto|auto].
      - destruct (IH Hl) as [w Hw]. exists (S w). auto. }
    destruct G as [w Hw]. rewrite (H (S w) x); [lia|auto]. }
  split; [|split].
  - apply fop_true. intros x y Hx Hy _ _. rewrite (Hq x Hx), (Hq y Hy). auto.
  - apply (IH (S b)); [|exists ph; auto]. intros w x Hx. rewrite (H (S w) x); [lia|auto].
  - intros x y Hx Hy _ _. rewrite (Hq x Hx). apply Hr in Hy. lia.
Qed.

Lemma phases_perm phases o : phases_order phases o -> Permutation o (concat phases).
Proof.
  intros [ph [F ->]]. induction F as [|a b la lb Hab F IH]; cbn; auto. apply Permutation_app; auto. apply Permutation_sym; auto.
Qed.

Lemma concat_nth {A} (ls : list (list A)) n : length ls <= n -> concat ls = flat_map (fun w => nth w ls []) (seq 0 n).
Proof.
  intros H. replace n with (length ls + (n - length ls)) by lia. rewrite seq_app, flat_map_app.
  rewrite (flat_map_nil _ (seq (0 + length ls) _)) by (intros w Hw; apply in_seq in Hw; apply nth_overflow; lia). rewrite app_nil_r. clear.
  induction ls as [|l ls IH] using rev_ind; auto. rewrite app_length, seq_app, flat_map_app, concat_app. cbn [length seq flat_map Nat.add].
  rewrite app_nth2, Nat.sub_diag by lia. cbn [nth concat]. rewrite IH. f_equal. apply flat_map_ext_in. intros w Hw. apply in_seq in Hw.
  rewrite app_nth1 by lia. auto.
Qed.

Definition max_phases (ex : execution) : nat :=
  match ex with Kernels phases => length phases | Groups groups => list_max (map (@length _) groups) end.

Lemma admissible_perm ex o n : admissible ex o -> max_phases ex <= n -> Permutation o (flat_map (executed ex) (seq 0 n)).
Proof.
  intros A H. destruct A as [phases o P|groups os o P I]; cbn [executed max_phases] in *.
  - change (executed (Kernels phases)) with (fun w => nth w phases []). rewrite <- (concat_nth phases n) by auto. apply phases_perm; auto.
  - rewrite (interleaving_perm _ _ I). change (executed (Groups groups)) with (fun w => flat_map (fun g => nth w g []) groups).
    rewrite (flat_map_swap (fun w (g : list (list call)) => nth w g [])).
    assert (Q : forall g, In g groups -> length g <= n).
    { intros g Hg. etransitivity; [|exact H]. apply list_max_in, in_map; auto. }
    clear H I. induction P as [|g o' groups os Hg P IH]; cbn [concat flat_map]; auto. apply Permutation_app.
    + rewrite <- concat_nth by (apply Q; cbn; auto). apply phases_perm; auto.
    + apply IH. intros; apply Q; cbn; auto.
Qed.

Lemma admissible_fop ex o : structured ex -> (forall w x, In x (executed ex w) -> c_wave x = w) -> admissible ex o -> ForallOrdPairs in_order o.
Proof.
  intros S H A. destruct A as [phases o P|groups os o P I]; cbn [executed structured] in *.
  - apply (phases_fop phases 0); auto.
  - destruct S as [keys [N F]].
    apply (interleaving_fop in_order (fun x => (c_cell x, c_list x)) os o I keys N).
    + clear -P F. revert os P. induction F as [|k g keys groups Hg F IH]; intros os P; inversion P as [|? o ? os' Po P']; subst; constructor; auto.
      intros x Hx. apply (Permutation_in _ (phases_perm _ _ Po)) in Hx. rewrite (concat_nth g (length g)) in Hx by auto.
      apply in_flat_map in Hx as [w [_ Hx]]. apply (Hg w x Hx).
    + clear -P F. revert os P. induction F as [|k g keys groups Hg F IH]; intros os P; inversion P as [|? o ? os' Po P']; subst; [intros l []|].
      intros l [<-|Hl]; [|eapply IH; eauto]. apply (phases_fop g 0); auto. intros w x Hx. apply (Hg w x Hx).
    + intros x y Hk. unfold in_order. intros E1 E2. exfalso. apply Hk. congruence.
Qed.

(** ** Reordering of independent calls *)
Section Trace.
  Context {V A : Type} (kernel : nat -> V -> V -> V * V) (act : A -> nat * (nat * nat)) (prior : A -> A -> Prop).
  Definition eqst (s s' : nat -> nat -> V) : Prop := forall c l, s c l = s' c l.
  Definition confl (a b : nat * (nat * nat)) : Prop := in_conflict a b.

  Lemma apply_pair_ext s s' p : eqst s s' -> eqst (apply_pair kernel s p) (apply_pair kernel s' p).
  Proof. destruct p as [c [i j]]. intros H c' l. cbn. rewrite !H. auto. Qed.

  Lemma apply_pairs_ext ps : forall s s', eqst s s' -> eqst (apply_pairs kernel ps s) (apply_pairs kernel ps s').
  Proof. induction ps as [|p ps IH]; intros s s' H; cbn; auto. apply IH, apply_pair_ext. auto. Qed.

  Lemma apply_commute s p q : ~ confl p q -> eqst (apply_pair kernel (apply_pair kernel s p) q) (apply_pair kernel (apply_pair kernel s q) p).
  Proof.
    destruct p as [c [i j]], q as [c' [i' j']]. unfold confl, in_conflict. cbn [fst snd]. intros N x l. cbn.
    destruct (Nat.eqb_spec c' c) as [->|Nc].
    - assert (i <> i' /\ i <> j' /\ j <> i' /\ j <> j') as [N1 [N2 [N3 N4]]] by (repeat split; intros ->; apply N; auto).
      rewrite !Nat.eqb_refl. cbn [andb].
      repeat match goal with |- context [?a =? ?b] => destruct (Nat.eqb_spec a b); subst end; cbn [andb fst snd]; try lia; auto; congruence.
    - assert (E1 : (c =? c') = false) by (apply Nat.eqb_neq; auto). rewrite E1. cbn [andb].
      destruct (Nat.eqb_spec c c') as [Q|_]; [congruence|].
      destruct (Nat.eqb_spec x c') as [E2|_], (Nat.eqb_spec x c) as [E3|_]; cbn [andb]; auto; try congruence.
      all: rewrite ?E1; auto.
  Qed.

  Lemma move_front p pre : forall s, (forall q, In q pre -> ~ confl q p) ->
    eqst (apply_pairs kernel (pre ++ [p]) s) (apply_pairs kernel (p :: pre) s).
  Proof.
    induction pre as [|q pre IH]; intros s H; [intros c l; auto|].
    cbn [app apply_pairs fold_left]. intros c l.
    change (fold_left (apply_pair kernel) (pre ++ [p]) (apply_pair kernel s q)) with (apply_pairs kernel (pre ++ [p]) (apply_pair kernel s q)).
    rewrite (IH (apply_pair kernel s q)) by (intros; apply H; cbn; auto). cbn [apply_pairs fold_left].
    apply (apply_pairs_ext pre). apply apply_commute. apply H. cbn; auto.
  Qed.

  Lemma apply_app l l' s : apply_pairs kernel (l ++ l') s = apply_pairs kernel l' (apply_pairs kernel l s).
  Proof. unfold apply_pairs. apply fold_left_app. Qed.

  Lemma trace_equal : forall L1 L2 s, Permutation L1 L2 -> ForallOrdPairs prior L1 ->
    ForallOrdPairs (fun x y => confl (act x) (act y) -> ~ prior y x) L2 ->
    eqst (apply_pairs kernel (map act L2) s) (apply_pairs kernel (map act L1) s).
  Proof.
    induction L1 as [|x L1 IH]; intros L2 s P F1 F2.
    - apply Permutation_nil in P. subst. intros c l; auto.
    - assert (I : In x L2) by (eapply Permutation_in; eauto; cbn; auto). apply in_split in I as [pre [post ->]].
      apply Permutation_cons_app_inv in P. inversion F1 as [|? ? Fx F1']; subst.
      apply fop_app in F2 as [G1 [G2 G3]]. inversion G2 as [|? ? Gx G2']; subst.
      assert (N : forall q, In q (map act pre) -> ~ confl q (act x)).
      { intros q Hq C. apply in_map_iff in Hq as [y [<- Hy]]. specialize (G3 y x Hy (or_introl eq_refl) C).
        assert (Iy : In y L1) by (apply (Permutation_in _ (Permutation_sym P)), in_or_app; auto). rewrite Forall_forall in Fx. exact (G3 (Fx y Iy)). }
      assert (F2' : ForallOrdPairs (fun x y => confl (act x) (act y) -> ~ prior y x) (pre ++ post)).
      { apply fop_app. split; auto. split; auto. intros a b Ha Hb. apply G3; cbn; auto. }
      intros c l. rewrite map_app. cbn [map].
      change (map act pre ++ act x :: map act post) with (map act pre ++ [act x] ++ map act post). rewrite app_assoc, apply_app.
      rewrite (apply_pairs_ext (map act post) _ (apply_pairs kernel (act x :: map act pre) s)) by (apply move_front; auto).
      rewrite <- apply_app. cbn [app]. rewrite <- map_app. cbn [apply_pairs fold_left].
      apply (IH (pre ++ post) (apply_pair kernel s (act x))); auto.
  Qed.
End Trace.
