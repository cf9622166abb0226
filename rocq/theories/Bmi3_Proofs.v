(** Proofs about BoundaryMeshInterface: every history of extensions succeeds and keeps
    the invariant. *)
From Coq Require Import List Arith Lia ZArith Bool Permutation Sorted.
Import ListNotations.
From Verif Require Import Base Kernel Bmi_Model Bmi_Spec Bmi_Proofs Bmi2_Proofs.

Record ginv (w : list bmi) (r : nat) (b : bmi) : Prop := {
  gi_dn : NoDup (g_dests (m_graph b));
  gi_d : forall d, In d (g_dests (m_graph b)) <-> In d (map fst (m_recv b));
  gi_sn : NoDup (g_srcs (m_graph b));
  gi_s : forall s, In s (g_srcs (m_graph b)) <-> exists x, In x (SS w s r);
  gi_rs : Permutation (g_rsrcs (m_graph b)) (g_dests (m_graph b));
  gi_rd : Permutation (g_rdests (m_graph b)) (g_srcs (m_graph b));
  gi_outc : m_outc b = map (fun d => length (SS w r d)) (g_dests (m_graph b));
  gi_inc : m_inc b = map (fun s => length (SS w s r)) (g_srcs (m_graph b));
  gi_outids : m_outids b = flat_map (SS w r) (g_dests (m_graph b));
  gi_inids : m_inids b = flat_map (fun s => SS w s r) (g_srcs (m_graph b));
  gi_packl : length (m_pack b) = length (m_lin b);
  gi_pack : forall i g, nth_error (m_lin b) i = Some g -> exists k, nth_error (m_pack b) i = Some k /\ nth_error (m_outids b) k = Some g;
  gi_send : forall s, mset s (m_send b) = SS w s r;
  gi_routc : m_routc b = map (fun d => length (SS w d r)) (g_rdests (m_graph b));
  gi_rinc : m_rinc b = map (fun s => length (SS w r s)) (g_rsrcs (m_graph b));
  gi_rpack : mapM (fun g => mget Z.eqb g (m_ownmap b)) (flat_map (fun d => SS w d r) (g_rdests (m_graph b))) = Some (m_rpack b);
  gi_runpack : mapM (fun g => mget Z.eqb g (m_seq b)) (flat_map (SS w r) (g_rsrcs (m_graph b))) = Some (m_runpack b)
}.

Lemma SS_ext w w' : length w = length w' -> (forall r b b', nth_error w r = Some b -> nth_error w' r = Some b' -> m_recv b = m_recv b') ->
  forall s d, SS w s d = SS w' s d.
Proof.
  intros L H s d. unfold SS. destruct (nth_error w s) eqn:E1, (nth_error w' s) eqn:E2; auto.
  - rewrite (H s b b0); auto.
  - apply nth_error_some_lt in E1. apply nth_error_None in E2. lia.
  - apply nth_error_some_lt in E2. apply nth_error_None in E1. lia.
Qed.

Lemma ginv_ext w w' r b : (forall s d, SS w s d = SS w' s d) -> ginv w r b -> ginv w' r b.
Proof.
  intros E [H1 H2 H3 H4 H5 H6 H7 H8 H9 H10 H11 H12 H13 H14 H15 H16 H17].
  constructor; auto.
  - intros s. rewrite H4. rewrite E. tauto.
  - rewrite H7. apply map_ext. intros; rewrite E; auto.
  - rewrite H8. apply map_ext. intros; rewrite E; auto.
  - rewrite H9. apply flat_map_ext. auto.
  - rewrite H10. apply flat_map_ext. auto.
  - intros s. rewrite H13. auto.
  - rewrite H14. apply map_ext. intros; rewrite E; auto.
  - rewrite H15. apply map_ext. intros; rewrite E; auto.
  - rewrite <- H16. f_equal. apply flat_map_ext. auto.
  - rewrite <- H17. f_equal. apply flat_map_ext. auto.
Qed.

Lemma mapM_seq_nth {B} (f : nat -> option B) n (h : nat -> B -> Prop) : (forall r, r < n -> exists b, f r = Some b /\ h r b) ->
  exists l, mapM f (seq 0 n) = Some l /\ length l = n /\ forall r b, nth_error l r = Some b -> h r b.
Proof.
  intros H. destruct (mapM_total f (seq 0 n)) as [l E]. { intros r I. apply in_seq in I. destruct (H r) as [b [Eb _]]; [lia|eauto]. }
  exists l. split; auto. pose proof (mapM_length _ _ _ E) as L. rewrite seq_length in L. split; auto.
  intros r b Eb. assert (Lr : r < n) by (rewrite <- L; eapply nth_error_some_lt; eauto).
  destruct (H r Lr) as [b' [E1 H1]].
  assert (E2 : f r = nth_error l r) by (apply (mapM_nth _ _ _ r r E); rewrite nth_error_seq; destruct (Nat.ltb_spec r n); [auto|lia]).
  assert (b' = b) by congruence. subst; auto.
Qed.

Lemma nth_error_nth_d {A} (l : list A) i d x : nth_error l i = Some x -> nth i l d = x.
Proof. revert i. induction l; intros [|i]; cbn; try discriminate; [congruence|auto]. Qed.

Lemma nth_extend known ids r i : length known = length ids -> nth_error ids r = Some i ->
  nth r (extend_known known (map ids_of ids)) [] = nth r known [] ++ ids_of i.
Proof.
  unfold extend_known. revert ids r. induction known as [|k known IH]; intros [|j ids] [|r] L E; cbn in *; try discriminate; try lia.
  - congruence.
  - apply IH; auto.
Qed.

Lemma extend_known_length known ids : length known = length ids -> length (extend_known known (map ids_of ids)) = length known.
Proof. intros L. unfold extend_known. rewrite map_length, combine_length, map_length. lia. Qed.

Section Step.
  Variables (owner : Z -> nat) (own : list (list Z)).
  Hypothesis own_nodup : forall o, In o own -> NoDup o.

  Record winv (known : list (list Z)) (v : nat) (w : list bmi) : Prop := {
    wi_len : length w = length own;
    wi_klen : length known = length own;
    wi_loc : forall r b, nth_error w r = Some b -> exists o, nth_error own r = Some o /\ linv owner own (nth r known []) o b /\ m_version b = v;
    wi_g : forall r b, nth_error w r = Some b -> ginv w r b
  }.

  (** bmi_create *)
  Lemma create_ownmap o : NoDup o -> forall g i, mget Z.eqb g (m_ownmap (bmi_create o)) = Some i <-> nth_error o i = Some g.
  Proof.
    intros N. cbn [bmi_create m_ownmap].
    assert (G : forall l m n, NoDup l -> (forall g, In g l -> mget Z.eqb g m = None) ->
      forall g i, mget Z.eqb g (fst (fold_left (fun '(m, i) gid => (mput Z.eqb gid i m, i + 1)) l (m, n))) = Some i <->
        mget Z.eqb g m = Some i \/ (n <= i /\ nth_error l (i - n) = Some g)).
    { induction l as [|x l IH]; intros m n Nd Hm g i; cbn [fold_left fst].
      - split; [auto|]. intros [|[_ H]]; auto. destruct (i - n); discriminate.
      - inversion Nd; subst. rewrite IH; [|auto|].
        + rewrite (mget_mput _ Zeqb_ok). destruct (Z.eqb_spec g x) as [->|Nx].
          * split.
            -- intros [[= <-]|[L E]]; [right; split; [lia|rewrite Nat.sub_diag; auto]|]. apply nth_error_In in E. tauto.
            -- intros [E|[L E]]; [rewrite Hm in E by (left; auto); discriminate|]. left. f_equal.
               destruct (i - n) as [|k] eqn:Ek; [lia|]. cbn in E. apply nth_error_In in E. tauto.
          * split; (intros [E|[L E]]; [auto|right]).
            -- split; [lia|]. replace (i - n) with (S (i - (n + 1))) by lia. auto.
            -- destruct (i - n) as [|k] eqn:Ek; [cbn in E; congruence|]. split; [lia|]. replace (i - (n + 1)) with k by lia. auto.
        + intros y Iy. rewrite (mget_mput _ Zeqb_ok). destruct (Z.eqb_spec y x); [congruence|]. apply Hm; right; auto. }
    intros g i. rewrite (G o [] 0 N); [|auto]. rewrite Nat.sub_0_r. cbn. intuition (try discriminate; auto). right; split; [lia|auto].
  Qed.

  Lemma winv_init : winv (map (fun _ => []) own) 1 (map bmi_create own).
  Proof.
    constructor; rewrite ?map_length; auto.
    - intros r b E. rewrite nth_error_map in E. destruct (nth_error own r) as [o|] eqn:Eo; [|discriminate]. injection E as <-.
      exists o. split; auto. split; [|reflexivity].
      assert (En : nth r (map (fun _ : list Z => @nil Z) own) [] = []).
      { erewrite nth_error_nth_d; [reflexivity|]. rewrite nth_error_map, Eo. reflexivity. }
      rewrite En. constructor; cbn [bmi_create m_lin m_seq m_recv].
      + apply create_ownmap. apply own_nodup. eapply nth_error_In; eauto.
      + constructor.
      + intros; tauto.
      + intros g i. cbn. destruct i; split; discriminate.
      + constructor.
      + cbn. intros d. split; [intros []|intros [g [[] _]]].
      + intros d. constructor.
      + cbn. tauto.
      + intros g [].
    - intros r b E. rewrite nth_error_map in E. destruct (nth_error own r) as [o|] eqn:Eo; [|discriminate]. injection E as <-.
      assert (Hs : forall s d, SS (map bmi_create own) s d = []).
      { intros s d. unfold SS. rewrite nth_error_map. destruct (nth_error own s); reflexivity. }
      constructor; cbn [bmi_create m_graph m_recv m_outc m_inc m_outids m_inids m_pack m_lin m_send m_routc m_rinc m_rpack m_runpack g_dests g_srcs g_rsrcs g_rdests]; auto using NoDup_nil.
      + cbn. tauto.
      + intros s. rewrite Hs. cbn. split; [intros []|intros [x []]].
      + intros i g H. destruct i; discriminate.
  Qed.

  Section OneStep.
    Variables (known : list (list Z)) (v : nat) (w : list bmi) (ids : list (list (nat * Z))) (gs : list graph).
    Hypothesis W : winv known v w.
    Hypothesis Lids : length ids = length own.
    Hypothesis Pok : forall l, In l ids -> pairs_ok owner own l.
    Let known' := extend_known known (map ids_of ids).
    Hypothesis Mpi : mpi_neighbours owner known' gs.

    Definition is_new : bool := existsb (fun p => news1 (fst p) (snd p)) (combine known (map ids_of ids)).

    Lemma nth_known' r i : nth_error ids r = Some i -> nth r known' [] = nth r known [] ++ ids_of i.
    Proof. intros E. apply nth_extend; auto. rewrite (wi_klen _ _ _ W). auto. Qed.

    Lemma noted_ok : exists w1, mapM (fun r => b <- rd w r ;; l <- rd ids r ;; Some (note_pairs b l)) (seq 0 (length w)) = Some w1 /\
      length w1 = length own /\
      forall r p, nth_error w1 r = Some p -> exists b o l, nth_error w r = Some b /\ nth_error own r = Some o /\ nth_error ids r = Some l /\
        p = note_pairs b l /\ linv owner own (nth r known' []) o (fst p) /\ same_rest b (fst p) /\ snd p = news1 (nth r known []) (ids_of l) /\
        (snd p = false -> fst p = b) /\ exists t, m_lin (fst p) = m_lin b ++ t.
    Proof.
      rewrite (wi_len _ _ _ W).
      apply (mapM_seq_nth _ (length own) (fun r p => exists b o l, nth_error w r = Some b /\ nth_error own r = Some o /\ nth_error ids r = Some l /\
        p = note_pairs b l /\ linv owner own (nth r known' []) o (fst p) /\ same_rest b (fst p) /\ snd p = news1 (nth r known []) (ids_of l) /\
        (snd p = false -> fst p = b) /\ exists t, m_lin (fst p) = m_lin b ++ t)).
      intros r Lr. destruct (nth_error_lt_some w r) as [b Eb]; [rewrite (wi_len _ _ _ W); auto|].
      destruct (nth_error_lt_some ids r) as [l El]; [lia|].
      destruct (wi_loc _ _ _ W r b Eb) as [o [Eo [L _]]].
      unfold rd. rewrite Eb, El. cbn [obind]. eexists. split; [reflexivity|]. exists b, o, l.
      destruct (note_pairs_ok owner own l (nth r known []) o b L) as [L1 [R1 [F1 [F2 T]]]]; [apply Pok; eapply nth_error_In; eauto|].
      cbv zeta in *. rewrite (nth_known' r l El). split; [auto|split; [auto|split; [auto|split; [auto|split; [exact L1|split; [exact R1|split; [exact F1|split; [|exact T]]]]]]]]. intros E. apply F2. congruence.
    Qed.

    Lemma is_new_spec (w1 : list (bmi * bool)) : length w1 = length own ->
      (forall r p, nth_error w1 r = Some p -> exists l, nth_error ids r = Some l /\ snd p = news1 (nth r known []) (ids_of l)) ->
      existsb snd w1 = is_new.
    Proof.
      intros L H. unfold is_new. apply eq_true_iff_eq. rewrite !existsb_exists. split.
      - intros [p [I E]]. destruct (In_nth_error _ _ I) as [r Er]. destruct (H r p Er) as [l [El Es]].
        assert (Lr : r < length known) by (rewrite (wi_klen _ _ _ W), <- L; eapply nth_error_some_lt; eauto).
        destruct (nth_error_lt_some known r Lr) as [k Ek].
        exists (k, ids_of l). split; [|cbn; rewrite <- E, Es, (nth_error_nth_d _ _ _ _ Ek); auto].
        apply nth_error_In with (n := r). clear -Ek El. revert known ids Ek El. induction r; intros [|a kn] [|c id] Ek El; cbn in *; try discriminate; [congruence|auto].
      - intros [[k i] [I E]]. destruct (In_nth_error _ _ I) as [r Er]. cbn in E.
        assert (G : nth_error known r = Some k /\ exists l, nth_error ids r = Some l /\ i = ids_of l).
        { clear -Er. revert known ids Er. induction r; intros [|a kn] [|c id] Er; cbn in *; try discriminate; [|auto]. injection Er as <- <-. split; eauto. }
        destruct G as [Ek [l [El ->]]].
        destruct (nth_error_lt_some w1 r) as [p Ep]; [rewrite L, <- (wi_klen _ _ _ W); eapply nth_error_some_lt; eauto|].
        destruct (H r p Ep) as [l' [El' Es]]. exists p. split; [eapply nth_error_In; eauto|].
        rewrite Es. assert (l' = l) by congruence. subst. rewrite (nth_error_nth_d _ _ _ _ Ek). auto.
    Qed.

    Lemma extend_ok : exists w', extend_exchange_pattern w ids gs = Some w' /\
      winv known' (v + if is_new then 1 else 0) w' /\
      forall r b b', nth_error w r = Some b -> nth_error w' r = Some b' -> exists t, m_lin b' = m_lin b ++ t.
    Proof.
      destruct noted_ok as [w1 [E1 [L1 H1]]]. unfold extend_exchange_pattern. rewrite E1. cbn [obind].
      rewrite (is_new_spec w1 L1); [|intros r p Ep; destruct (H1 r p Ep) as [b [o [l H]]]; exists l; tauto].
      pose proof (wi_len _ _ _ W) as Lw.
      destruct is_new eqn:Enew.
      2:{ (* nothing new *)
        assert (Ew : map fst w1 = w).
        { apply nth_error_ext. intros r. rewrite nth_error_map. destruct (nth_error w1 r) as [p|] eqn:Ep.
          - destruct (H1 r p Ep) as [b [o [l [Eb [Eo [El [-> [Li [Sr [Es [Hf _]]]]]]]]]]]. cbn. rewrite Eb. f_equal. apply Hf.
            destruct (snd (note_pairs b l)) eqn:Esn; auto. exfalso.
            assert (is_new = true); [|congruence].
            rewrite <- (is_new_spec w1 L1); [|intros r' p' Ep'; destruct (H1 r' p' Ep') as [b' [o' [l' H']]]; exists l'; tauto].
            apply existsb_exists. eexists. split; [eapply nth_error_In; exact Ep|auto].
          - cbn. symmetry. apply nth_error_None. apply nth_error_None in Ep. lia. }
        rewrite Ew. exists w. split; [auto|]. rewrite Nat.add_0_r. split.
        - constructor; auto.
          + unfold known'. rewrite extend_known_length; rewrite (wi_klen _ _ _ W); auto.
          + intros r b Eb. destruct (nth_error_lt_some w1 r) as [p Ep]; [rewrite L1, <- Lw; eapply nth_error_some_lt; eauto|].
            destruct (H1 r p Ep) as [b' [o [l [Eb' [Eo [El [Epp [Li [Sr [Es [Hf _]]]]]]]]]]].
            assert (fst p = b). { rewrite <- Ew in Eb. rewrite nth_error_map, Ep in Eb. cbn in Eb. congruence. }
            subst b. exists o. split; auto. split; auto. destruct (wi_loc _ _ _ W r b') as [_ [_ [_ V]]]; auto. destruct Sr as [_ [_ S3]]. congruence.
          + apply (wi_g _ _ _ W).
        - intros r b b' Eb Eb'. assert (b' = b) by congruence. subst. exists []. symmetry; apply app_nil_r. }
      (* the pattern changes *)
      set (S0 := SS (map fst w1)).
      assert (HS : forall s d g, In g (S0 s d) <-> s < length own /\ In g (nth s known' []) /\ owner g = d).
      { intros s d g. unfold S0, SS. rewrite nth_error_map. destruct (nth_error w1 s) as [p|] eqn:Ep; cbn.
        - destruct (H1 s p Ep) as [b [o [l [_ [_ [_ [_ [Li _]]]]]]]]. rewrite (li_in _ _ _ _ _ Li).
          apply nth_error_some_lt in Ep. rewrite L1 in Ep. tauto.
        - apply nth_error_None in Ep. split; [intros []|lia]. }
      assert (HSs : forall s d, sorted (S0 s d)).
      { intros s d. unfold S0, SS. rewrite nth_error_map. destruct (nth_error w1 s) as [p|] eqn:Ep; cbn; [|constructor].
        destruct (H1 s p Ep) as [b [o [l [_ [_ [_ [_ [Li _]]]]]]]]. apply (li_sorted _ _ _ _ _ Li). }
      assert (HSo : forall s d, d < length own -> forall o, nth_error own d = Some o -> forall g, In g (S0 s d) -> In g o).
      { intros s d Ld o Eo g Ig. apply HS in Ig. destruct Ig as [Ls [Ig Eg]]. destruct (nth_error_lt_some w1 s) as [p Ep]; [lia|].
        destruct (H1 s p Ep) as [b [o' [l [_ [_ [_ [_ [Li _]]]]]]]]. destruct (li_owned _ _ _ _ _ Li g Ig) as [o2 [Eo2 I2]].
        rewrite Eg, Eo in Eo2. congruence. }
      destruct Mpi as [Lg Hg].
      assert (Lk : length known' = length own) by (unfold known'; rewrite extend_known_length; rewrite (wi_klen _ _ _ W); auto).
      assert (Hkeys : forall s p, nth_error w1 s = Some p -> forall d, In d (map fst (m_recv (fst p))) <-> exists x, In x (nth s known' []) /\ owner x = d).
      { intros s p Ep. destruct (H1 s p Ep) as [b [o [l [_ [_ [_ [_ [Li _]]]]]]]]. apply (li_keyin _ _ _ _ _ Li). }
      (* rebuild_out *)
      destruct (mapM_seq_nth (fun r => b <- rd w1 r ;; g <- rd gs r ;; rebuild_out (fst b) g) (length own)
        (fun r b2 => exists p g, nth_error w1 r = Some p /\ nth_error gs r = Some g /\ m_graph b2 = g /\
           m_own b2 = m_own (fst p) /\ m_ownmap b2 = m_ownmap (fst p) /\ m_recv b2 = m_recv (fst p) /\ m_send b2 = m_send (fst p) /\
           m_lin b2 = m_lin (fst p) /\ m_seq b2 = m_seq (fst p) /\ m_version b2 = m_version (fst p) /\
           m_outc b2 = map (fun d => length (S0 r d)) (g_dests g) /\ m_outids b2 = flat_map (S0 r) (g_dests g))) as [w2 [E2 [L2 H2]]].
      { intros r Lr. destruct (nth_error_lt_some w1 r) as [p Ep]; [lia|]. destruct (nth_error_lt_some gs r) as [g Eg]; [lia|].
        unfold rd. rewrite Ep, Eg. cbn [obind]. unfold rebuild_out.
        assert (El : length (g_dests g) = length (m_recv (fst p))).
        { destruct (Hg r g Eg) as [N1 [D1 _]]. destruct (H1 r p Ep) as [b [o [l [_ [_ [_ [_ [Li _]]]]]]]].
          rewrite <- (map_length fst (m_recv (fst p))). apply Permutation_length, NoDup_Permutation; auto; [apply (li_keys _ _ _ _ _ Li)|].
          intros d. rewrite D1, (Hkeys r p Ep). tauto. }
        rewrite El, Nat.eqb_refl. cbn [assert obind]. eexists. split; [reflexivity|]. exists p, g.
        assert (ES : forall d, S0 r d = mset d (m_recv (fst p))) by (intros d; apply SS_at; rewrite nth_error_map, Ep; auto).
        cbn. repeat split; auto.
        - apply map_ext. intros d. rewrite ES. auto.
        - apply flat_map_ext. intros d. rewrite ES. auto. }
      rewrite Lw, E2. cbn [obind].
      set (dl := fun r => match nth_error gs r with Some g => g_dests g | None => [] end).
      set (sl := fun r => match nth_error gs r with Some g => g_srcs g | None => [] end).
      assert (Hdl : forall r, r < length own -> exists g, nth_error gs r = Some g /\ dl r = g_dests g /\ sl r = g_srcs g).
      { intros r Lr. destruct (nth_error_lt_some gs r) as [g Eg]; [lia|]. exists g. unfold dl, sl. rewrite Eg. auto. }
      assert (Ndl : forall s, s < length own -> NoDup (dl s)).
      { intros s Ls. destruct (Hdl s Ls) as [g [Eg [-> _]]]. apply (Hg s g Eg). }
      assert (Hsl : forall r s, r < length own -> (In s (sl r) <-> exists x, In x (S0 s r))).
      { intros r s Lr. destruct (Hdl r Lr) as [g [Eg [_ ->]]]. destruct (Hg r g Eg) as [_ [_ [_ [D2 _]]]]. rewrite D2.
        split; intros [x I]; exists x.
        - destruct I as [I E]. apply HS. split; [|auto]. destruct (lt_dec s (length own)); auto. rewrite nth_overflow in I by lia. destruct I.
        - apply HS in I. tauto. }
      assert (Edg : forall r s, r < length own -> In s (sl r) -> s < length own /\ In r (dl s)).
      { intros r s Lr I. apply (Hsl r s Lr) in I. destruct I as [x I]. apply HS in I. destruct I as [Ls [I E]]. split; auto.
        destruct (Hdl s Ls) as [g [Eg [-> _]]]. apply (Hg s g Eg). eauto. }
      assert (Ed2 : forall r, r < length own -> nth_error (map (fun b => g_dests (m_graph b)) w2) r = Some (dl r)).
      { intros r Lr. rewrite nth_error_map. destruct (nth_error_lt_some w2 r) as [b2 Eb2]; [lia|]. rewrite Eb2. cbn.
        destruct (H2 r b2 Eb2) as [p [g [_ [Eg [-> _]]]]]. destruct (Hdl r Lr) as [g' [Eg' [-> _]]]. congruence. }
      assert (Es2 : forall r, r < length own -> nth_error (map (fun b => g_srcs (m_graph b)) w2) r = Some (sl r)).
      { intros r Lr. rewrite nth_error_map. destruct (nth_error_lt_some w2 r) as [b2 Eb2]; [lia|]. rewrite Eb2. cbn.
        destruct (H2 r b2 Eb2) as [p [g [_ [Eg [-> _]]]]]. destruct (Hdl r Lr) as [g' [Eg' [_ ->]]]. congruence. }
      assert (Eo2 : forall r, r < length own -> nth_error (map m_outc w2) r = Some (map (fun d => length (S0 r d)) (dl r))).
      { intros r Lr. rewrite nth_error_map. destruct (nth_error_lt_some w2 r) as [b2 Eb2]; [lia|]. rewrite Eb2. cbn.
        destruct (H2 r b2 Eb2) as [p [g [_ [Eg [_ H]]]]]. destruct (Hdl r Lr) as [g' [Eg' [-> _]]]. f_equal. replace g' with g by congruence. tauto. }
      assert (Ei2 : forall r, r < length own -> nth_error (map m_outids w2) r = Some (flat_map (S0 r) (dl r))).
      { intros r Lr. rewrite nth_error_map. destruct (nth_error_lt_some w2 r) as [b2 Eb2]; [lia|]. rewrite Eb2. cbn.
        destruct (H2 r b2 Eb2) as [p [g [_ [Eg [_ H]]]]]. destruct (Hdl r Lr) as [g' [Eg' [-> _]]]. f_equal. replace g' with g by congruence. tauto. }
      (* the counts *)
      destruct (alltoallw_ok (length own) (fun s r => [length (S0 s r)]) dl sl Ndl Edg
        (map (fun b => g_dests (m_graph b)) w2) (map (fun b => g_srcs (m_graph b)) w2)
        (map (map (fun _ => 1)) (map (fun b => g_dests (m_graph b)) w2)) (map (map (fun _ => 1)) (map (fun b => g_srcs (m_graph b)) w2))
        (map m_outc w2) (map (map (fun _ => 0)) (map (fun b => g_srcs (m_graph b)) w2))) as [inc [Einc [Linc Hinc]]]; rewrite ?map_length; auto.
      { intros r Lr. rewrite nth_error_map, (Ed2 r Lr). reflexivity. }
      { intros r Lr. rewrite nth_error_map, (Es2 r Lr). reflexivity. }
      { intros r Lr. exists []. rewrite (Eo2 r Lr), app_nil_r. reflexivity. }
      { intros r rb Lr. rewrite nth_error_map, (Es2 r Lr). cbn. intros [= <-]. rewrite map_length. clear. induction (sl r) as [|a l IH]; cbn in *; lia. }
      unfold neighbor_alltoall. rewrite Einc. cbn [obind].
      assert (Ein : forall r, r < length own -> nth_error inc r = Some (map (fun s => length (S0 s r)) (sl r))).
      { intros r Lr. destruct (Hinc r (map (fun _ => 0) (sl r)) Lr) as [rest [Er Lr2]]; [rewrite nth_error_map, (Es2 r Lr); auto|].
        assert (Ef : flat_map (fun s => [length (S0 s r)]) (sl r) = map (fun s => length (S0 s r)) (sl r)) by (clear; induction (sl r); cbn; congruence).
        rewrite Ef in Er, Lr2. rewrite app_length, !map_length in Lr2. destruct rest; [|cbn in Lr2; lia]. rewrite app_nil_r in Er. auto. }
      (* the ids *)
      destruct (alltoallw_ok (length own) S0 dl sl Ndl Edg
        (map (fun b => g_dests (m_graph b)) w2) (map (fun b => g_srcs (m_graph b)) w2) (map m_outc w2) inc (map m_outids w2)
        (map (fun c => repeat 0%Z (list_sum c)) inc)) as [inids [Eids [Lids2 Hids]]]; rewrite ?map_length; auto.
      { intros r Lr. exists []. rewrite (Ei2 r Lr), app_nil_r. auto. }
      { intros r rb Lr. rewrite nth_error_map, (Ein r Lr). cbn. intros [= <-]. rewrite repeat_length, flat_map_len. lia. }
      rewrite Eids. cbn [obind].
      assert (Ein2 : forall r, r < length own -> nth_error inids r = Some (flat_map (fun s => S0 s r) (sl r))).
      { intros r Lr. destruct (Hids r (repeat 0%Z (list_sum (map (fun s => length (S0 s r)) (sl r)))) Lr) as [rest [Er Lr2]]; [rewrite nth_error_map, (Ein r Lr); auto|].
        rewrite app_length, repeat_length, flat_map_len in Lr2. destruct rest; [|cbn in Lr2; lia]. rewrite app_nil_r in Er. auto. }
      (* rebuild_in *)
      destruct (mapM_seq_nth (fun r => b <- rd w2 r ;; ic <- rd inc r ;; ii <- rd inids r ;; rebuild_in b ic ii) (length own)
        (fun r b3 => exists p g, nth_error w1 r = Some p /\ nth_error gs r = Some g /\ m_graph b3 = g /\
           m_ownmap b3 = m_ownmap (fst p) /\ m_recv b3 = m_recv (fst p) /\
           m_lin b3 = m_lin (fst p) /\ m_seq b3 = m_seq (fst p) /\ m_version b3 = m_version (fst p) + 1 /\
           m_outc b3 = map (fun d => length (S0 r d)) (g_dests g) /\ m_outids b3 = flat_map (S0 r) (g_dests g) /\
           m_inc b3 = map (fun s => length (S0 s r)) (g_srcs g) /\ m_inids b3 = flat_map (fun s => S0 s r) (g_srcs g) /\
           length (m_pack b3) = length (m_lin b3) /\
           (forall i x, nth_error (m_lin b3) i = Some x -> exists k, nth_error (m_pack b3) i = Some k /\ nth_error (m_outids b3) k = Some x) /\
           (forall s, mset s (m_send b3) = S0 s r) /\
           m_routc b3 = map (fun d => length (S0 d r)) (g_rdests g) /\ m_rinc b3 = map (fun s => length (S0 r s)) (g_rsrcs g) /\
           mapM (fun x => mget Z.eqb x (m_ownmap b3)) (flat_map (fun d => S0 d r) (g_rdests g)) = Some (m_rpack b3) /\
           mapM (fun x => mget Z.eqb x (m_seq b3)) (flat_map (S0 r) (g_rsrcs g)) = Some (m_runpack b3))) as [w3 [E3 [L3 H3]]].
      { intros r Lr. destruct (nth_error_lt_some w2 r) as [b2 Eb2]; [lia|].
        destruct (H2 r b2 Eb2) as [p [g [Ep [Eg [G1 [G2 [G3 [G4 [G5 [G6 [G7 [G8 [G9 G10]]]]]]]]]]]]].
        destruct (Hdl r Lr) as [g' [Eg' [Edl Esl]]]. assert (g' = g) by congruence. subst g'.
        destruct (H1 r p Ep) as [b [o [l [Eb [Eo [El [Epp [Li [Sr [Es [Hf Ht]]]]]]]]]]].
        destruct (Hg r g Eg) as [N1 [D1 [N2 [D2 [P1 P2]]]]].
        unfold rd. rewrite Eb2, (Ein r Lr), (Ein2 r Lr). cbn [obind]. unfold rebuild_in. rewrite G1, G3, G4, G5, G6, G7, <- Esl.
        pose proof (wi_g _ _ _ W r b Eb) as Gi.
        assert (Eownm : forall x, In x o -> mget Z.eqb x (m_ownmap (fst p)) <> None).
        { intros x Ix. destruct (In_nth_error _ _ Ix) as [i Ei]. rewrite (proj2 (li_ownmap _ _ _ _ _ Li x i) Ei). discriminate. }
        destruct (record_senders_ok owner (m_ownmap (fst p)) (fun s => S0 s r) (sl r) (m_send (fst p))) as [send [Esd [Ss [Si Sk]]]].
        { intros s x Is Ix. apply Eownm. apply (HSo s r Lr o Eo x Ix). }
        { intros s. destruct Sr as [-> _]. rewrite (gi_send _ _ _ Gi). unfold SS. destruct (nth_error w s) as [bs|] eqn:Ebs; [|constructor].
          destruct (wi_loc _ _ _ W s bs Ebs) as [os [_ [Lis _]]]. apply (li_sorted _ _ _ _ _ Lis). }
        rewrite Esd. cbn [obind].
        assert (Esend : forall s, mset s send = S0 s r).
        { intros s. apply sorted_ext; auto. intros x. rewrite Si. destruct Sr as [-> _]. rewrite (gi_send _ _ _ Gi). split.
          - intros [I|[_ I]]; auto. unfold SS in I. destruct (nth_error w s) as [bs|] eqn:Ebs; [|destruct I].
            destruct (wi_loc _ _ _ W s bs Ebs) as [os [_ [Lis _]]]. apply (li_in _ _ _ _ _ Lis) in I. destruct I as [I Ex].
            assert (Ls : s < length own) by (rewrite <- Lw; eapply nth_error_some_lt; eauto).
            apply HS. split; auto. split; auto. destruct (nth_error_lt_some ids s) as [ls Els]; [lia|]. rewrite (nth_known' s ls Els). apply in_or_app; auto.
          - intros I. right. split; auto. apply (Hsl r s Lr). eauto. }
        assert (Eout : forall x, In x (m_outids b2) <-> In x (nth r known' [])).
        { intros x. rewrite G10, in_flat_map. split.
          - intros [d [_ I]]. apply HS in I. tauto.
          - intros I. exists (owner x). split; [apply D1; eauto|]. apply HS. auto. }
        destruct (pack_index_ok owner own (nth r known' []) o (fst p) (m_outids b2) Li Eout) as [pack [Epk [Lpk Hpk]]].
        rewrite Epk. cbn [obind].
        assert (Ers : mapM (fun d => mget Nat.eqb d send) (g_rdests g) = Some (map (fun d => S0 d r) (g_rdests g))).
        { apply mapM_some. intros d I. assert (Id : In d (sl r)) by (rewrite Esl; eapply Permutation_in; eauto).
          assert (Nb : S0 d r <> []). { apply (Hsl r d Lr) in Id. destruct Id as [x Ix]. intros E0. rewrite E0 in Ix. destruct Ix. }
          specialize (Sk d Id Nb). specialize (Esend d). unfold mset in Esend. destruct (mget Nat.eqb d send); congruence. }
        rewrite Ers. cbn [obind].
        assert (Ecr : concat (map (fun d => S0 d r) (g_rdests g)) = flat_map (fun d => S0 d r) (g_rdests g)) by (symmetry; apply flat_map_concat_map).
        rewrite Ecr.
        destruct (mapM_total (fun x => mget Z.eqb x (m_ownmap (fst p))) (flat_map (fun d => S0 d r) (g_rdests g))) as [rpack Erp].
        { intros x Ix. apply in_flat_map in Ix. destruct Ix as [d [_ Ix]]. specialize (Eownm x (HSo d r Lr o Eo x Ix)).
          destruct (mget Z.eqb x (m_ownmap (fst p))); [eauto|congruence]. }
        rewrite Erp. cbn [obind].
        assert (Eu : mapM (fun s => mget Nat.eqb s (m_recv (fst p))) (g_rsrcs g) = Some (map (fun s => S0 r s) (g_rsrcs g))).
        { apply mapM_some. intros d I. assert (Id : In d (g_dests g)) by (eapply Permutation_in; eauto).
          apply D1 in Id. apply (Hkeys r p Ep) in Id. apply (mget_in _ Neqb_ok) in Id.
          unfold S0. rewrite (SS_at (map fst w1) r (fst p) d) by (rewrite nth_error_map, Ep; auto). unfold mset. destruct (mget Nat.eqb d (m_recv (fst p))); congruence. }
        rewrite Eu. cbn [obind].
        assert (Ecu : concat (map (fun d => S0 r d) (g_rsrcs g)) = flat_map (S0 r) (g_rsrcs g)) by (symmetry; apply flat_map_concat_map).
        rewrite Ecu.
        destruct (mapM_total (fun x => mget Z.eqb x (m_seq (fst p))) (flat_map (S0 r) (g_rsrcs g))) as [runpack Eru].
        { intros x Ix. apply in_flat_map in Ix. destruct Ix as [d [_ Ix]]. apply HS in Ix. destruct Ix as [_ [Ix _]].
          apply (li_lin _ _ _ _ _ Li) in Ix. destruct (In_nth_error _ _ Ix) as [i Ei]. exists i. apply (li_seq _ _ _ _ _ Li). auto. }
        rewrite Eru. cbn [obind]. rewrite G9, !map_length, Esl, (Permutation_length P1), (Permutation_length P2), !Nat.eqb_refl. cbn [assert obind].
        eexists. split; [reflexivity|]. exists p, g. cbn. rewrite !map_map, G8. repeat split; auto. }
      rewrite E3. exists w3. split; [auto|].
      assert (ESS : forall s d, SS w3 s d = S0 s d).
      { unfold S0. apply SS_ext; [rewrite map_length; lia|]. intros r b b' Eb Eb'. rewrite nth_error_map in Eb'.
        destruct (H3 r b Eb) as [p [g [Ep [_ [_ [_ [Er _]]]]]]]. rewrite Ep in Eb'. cbn in Eb'. congruence. }
      split.
      - constructor; auto.
        + intros r b3 Eb3. destruct (H3 r b3 Eb3) as [p [g [Ep [Eg [J1 [J2 [J3 [J4 [J5 [J6 _]]]]]]]]]].
          destruct (H1 r p Ep) as [b [o [l [Eb [Eo [El [_ [Li [Sr _]]]]]]]]]. exists o. split; auto. split.
          * destruct Li as [K1 K2 K3 K4 K5 K6 K7 K8 K9]. constructor; rewrite ?J2, ?J3, ?J4, ?J5; auto.
          * destruct (wi_loc _ _ _ W r b Eb) as [_ [_ [_ V]]]. destruct Sr as [_ [_ S3]]. congruence.
        + intros r b3 Eb3. destruct (H3 r b3 Eb3) as [p [g [Ep [Eg [J1 [J2 [J3 [J4 [J5 [J6 [J7 [J8 [J9 [J10 [J11 [J12 [J13 [J14 [J15 [J16 J17]]]]]]]]]]]]]]]]]]]].
          destruct (Hg r g Eg) as [N1 [D1 [N2 [D2 [P1 P2]]]]].
          assert (Lr : r < length own) by (rewrite <- L3; eapply nth_error_some_lt; eauto).
          apply (ginv_ext (map fst w1)); [intros; rewrite ESS; auto|]. fold S0.
          constructor; rewrite ?J1; auto; fold S0; auto.
          * intros d. rewrite J3, D1, (Hkeys r p Ep). tauto.
          * intros s. destruct (Hdl r Lr) as [g' [Eg' [_ Esl]]]. assert (g' = g) by congruence. subst g'. rewrite <- Esl. apply (Hsl r s Lr).
      - intros r b b' Eb Eb'. destruct (H3 r b' Eb') as [p [g [Ep [Eg [J1 [J2 [J3 [J4 _]]]]]]]].
        destruct (H1 r p Ep) as [b0 [o [l [Eb0 [Eo [El [_ [Li [Sr [_ [_ T]]]]]]]]]]]. assert (b0 = b) by congruence. subst. rewrite J4. exact T.
    Qed.
  End OneStep.
End Step.
