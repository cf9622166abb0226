(** Proofs about functions on the boundary. *)
From Coq Require Import List Arith Lia ZArith Bool Permutation.
Import ListNotations.
From Verif Require Import Base Kernel Bmi_Model Bmi_Spec Bmi_Proofs Bmi2_Proofs Bmi3_Proofs Bmi4_Proofs Add_Proofs Surf_Model Surf_Spec.

Lemma nodup_length_sub (l k : list Z) : NoDup l -> (forall g, In g l <-> In g k) -> length (nodup Z.eq_dec k) = length l.
Proof.
  intros N H. apply Nat.le_antisymm; apply NoDup_incl_length; auto using NoDup_nodup.
  - intros x I. apply nodup_In in I. apply H. auto.
  - intros x I. apply nodup_In. apply H. auto.
Qed.

Section Surface.
  Context {T : Type} (add : T -> T -> T) (zero : T) (scale : T -> T).
  Hypothesis M : commutative_monoid add zero.
  Variables (owner : Z -> nat) (own : list (list Z)).
  Hypothesis own_nodup : forall o, In o own -> NoDup o.
  Hypothesis own_owner : forall r o g, nth_error own r = Some o -> In g o -> owner g = r.

  Definition dep1 (l : list (Z * T)) (g : Z) : T := sum add zero (map (fun p => scale (snd p)) (filter (fun p => (fst p =? g)%Z) l)).

  Record frel (s : surface T) (v vf r : nat) (b : bmi) (o : list Z) (f : hfun T) : Prop := {
    fr_dofs : f_dofs f = map (s_value s) o;
    fr_len : length (f_stage f) <= Nat.max (Nat.max (length o) 1) (length (m_lin b));
    fr_ver : f_version f = vf;
    fr_cache : s_proj s = None -> vf = v ->
      length (m_lin b) <= length (f_stage f) /\ forall i g, nth_error (m_lin b) i = Some g -> nth_error (f_stage f) i = Some (s_value s g);
    fr_proj : forall p, s_proj s = Some p ->
      vf = 0 /\ (p_full p = true -> length (f_stage f) <= length (m_lin b)) /\
      (p_pending p = false -> length (m_lin b) <= length (f_stage f)) /\
      forall i g, nth_error (m_lin b) i = Some g ->
        nth_error (f_stage f) i = Some (dep1 (nth r (p_acc p) []) g) \/
        (length (f_stage f) <= i /\ forall x, In x (nth r (p_acc p) []) -> fst x <> g)
  }.

  Record rel (s : surface T) (w : list bmi) (fs : list (hfun T)) (v vf : nat) : Prop := {
    re_w : winv owner own (s_known s) v w;
    re_v : 1 <= v;
    re_vf : vf <= v;
    re_len : length fs = length own;
    re_acc : forall p, s_proj s = Some p -> length (p_acc p) = length own /\
      forall r l x, nth_error (p_acc p) r = Some l -> In x l -> In (fst x) (nth r (s_known s) []);
    re_f : forall r b o f, nth_error w r = Some b -> nth_error own r = Some o -> nth_error fs r = Some f -> frel s v vf r b o f
  }.

  Lemma dep1_app l l' g : dep1 (l ++ l') g = add (dep1 l g) (dep1 l' g).
  Proof.
    unfold dep1. rewrite filter_app, map_app. induction (map (fun p => scale (snd p)) (filter (fun p => (fst p =? g)%Z) l)) as [|x m IH]; cbn.
    - rewrite (add_comm _ _ M). symmetry. apply (add_zero _ _ M).
    - unfold sum in *. cbn. rewrite IH. apply (add_assoc _ _ M).
  Qed.

  Lemma dep1_none l g : (forall x, In x l -> fst x <> g) -> dep1 l g = zero.
  Proof.
    intros H. unfold dep1. induction l as [|x l IH]; [reflexivity|]. cbn [filter].
    destruct (Z.eqb_spec (fst x) g) as [E|_]; [destruct (H x (or_introl eq_refl) E)|]. apply IH. intros y I. apply H. right. auto.
  Qed.

  Lemma contrib_sum g : forall (w : list bmi) (stages : list (list T)) (acc : list (list (Z * T))), length stages = length w -> length acc = length w ->
    (forall r b st l, nth_error w r = Some b -> nth_error stages r = Some st -> nth_error acc r = Some l ->
      staged b 1 0 st g = Some (dep1 l g) \/ (staged b 1 0 st g = None /\ forall x, In x l -> fst x <> g)) ->
    sum add zero (contributions_of w stages 1 0 g) = dep1 (concat acc) g.
  Proof.
    induction w as [|b w IH]; intros [|st stages] [|l acc] L1 L2 H; try discriminate; [reflexivity|].
    cbn [concat]. rewrite dep1_app. unfold contributions_of in *. cbn [combine flat_map fst snd].
    rewrite <- (IH stages acc); [|auto|auto|intros r b' st' l' E1 E2 E3; apply (H (S r)); auto].
    destruct (H 0 b st l eq_refl eq_refl eq_refl) as [E|[E N]]; rewrite E.
    - reflexivity.
    - rewrite (dep1_none l g N). cbn [app]. rewrite (add_comm _ _ M). symmetry. apply (add_zero _ _ M).
  Qed.

  Lemma realloc_no_copy_len (junk : nat -> T) n m : length (realloc_no_copy junk n m) = Nat.max (length m) n.
  Proof. unfold realloc_no_copy. destruct (Nat.ltb_spec (length m) n); [rewrite map_length, seq_length|]; lia. Qed.

  Lemma pooled_sized (junk : nat -> T) w (size : bmi -> nat) pool : sized w (fun b => size b * 1) (pooled junk w size pool : list (list T)).
  Proof.
    unfold pooled. split; [rewrite map_length, combine_length, seq_length; lia|].
    intros r b m Eb Em. rewrite nth_error_map in Em.
    assert (E : nth_error (combine (seq 0 (length w)) w) r = Some (r, b)).
    { clear -Eb. assert (G : forall s, nth_error (combine (seq s (length w)) w) r = Some (s + r, b)).
      { revert r Eb. induction w as [|a w IH]; intros [|r] E s; cbn in *; try discriminate.
        - injection E as <-. rewrite Nat.add_0_r. auto.
        - rewrite (IH r E (S s)). replace (S s + r) with (s + S r) by lia. auto. }
      apply (G 0). }
    rewrite E in Em. injection Em as <-. rewrite realloc_no_copy_len. cbn. lia.
  Qed.

  Lemma map_ranks_ok w (fs : list (hfun T)) g (P : nat -> bmi -> hfun T -> hfun T -> Prop) : length fs = length w ->
    (forall r b f, nth_error w r = Some b -> nth_error fs r = Some f -> exists f', g r b f = Some f' /\ P r b f f') ->
    exists fs', map_ranks w fs g = Some fs' /\ length fs' = length w /\
      forall r b f', nth_error w r = Some b -> nth_error fs' r = Some f' -> exists f, nth_error fs r = Some f /\ P r b f f'.
  Proof.
    intros L H. unfold map_ranks.
    destruct (on_ranks_ok w (fun r b => f <- rd fs r ;; g r b f) (fun r b f' => exists f, nth_error fs r = Some f /\ P r b f f')) as [l [E [Ll Hl]]].
    - intros r b Eb. destruct (rd_lists w fs r b L Eb) as [f Ef]. unfold rd. rewrite Ef. cbn [obind].
      destruct (H r b f Eb Ef) as [f' [E' Pf]]. eauto.
    - exists l. split; [exact E|]. split; [exact Ll|]. intros r b f' Eb Ef. destruct (Hl r b f' Eb Ef) as [f [E1 E2]]. eauto.
  Qed.

  Definition result (s : surface T) (w' : list bmi) (fs' : list (hfun T)) : Prop := exists v' vf', rel s w' fs' v' vf'.

  Variables (aware host : bool).
  Hypothesis Hah : aware || host = true.

  Section Step.
    Variables (s : surface T) (w : list bmi) (fs : list (hfun T)) (v vf : nat) (e : env T).
    Hypothesis Hrel : rel s w fs v vf.
    Hypothesis Hd : forall r, device_ok (e_ds e r).

    Let Lw : length w = length own := wi_len _ _ _ _ _ (re_w _ _ _ _ _ Hrel).
    Let Lfs : length fs = length w.
    Proof. rewrite Lw. apply (re_len _ _ _ _ _ Hrel). Qed.

    Lemma rank_own r b : nth_error w r = Some b -> exists o, nth_error own r = Some o /\ linv owner own (nth r (s_known s) []) o b /\ m_version b = v.
    Proof. apply (wi_loc _ _ _ _ _ (re_w _ _ _ _ _ Hrel)). Qed.

    (** Changing the functions only. *)
    Lemma step_fs s' fs' vf' : s_known s' = s_known s -> length fs' = length w -> vf' <= v ->
      (forall p, s_proj s' = Some p -> length (p_acc p) = length own /\
        forall r l x, nth_error (p_acc p) r = Some l -> In x l -> In (fst x) (nth r (s_known s) [])) ->
      (forall r b o f', nth_error w r = Some b -> nth_error own r = Some o -> nth_error fs' r = Some f' -> frel s' v vf' r b o f') ->
      result s' w fs'.
    Proof.
      intros Ek L Lv Ha Hf. exists v, vf'. constructor; auto.
      - rewrite Ek. apply (re_w _ _ _ _ _ Hrel).
      - apply (re_v _ _ _ _ _ Hrel).
      - congruence.
      - rewrite Ek. auto.
    Qed.

    Lemma fill_step value : exists fs', exec add zero scale aware host e (w, fs) (EFill value) = Some (w, fs', None) /\
      result (fst (step add zero scale owner own s (EFill value))) w fs'.
    Proof.
      eexists. split; [reflexivity|]. apply (step_fs _ _ 0); [reflexivity|rewrite map_length; auto|lia|apply (re_acc _ _ _ _ _ Hrel)|].
      intros r b o f' Eb Eo Ef. rewrite nth_error_map in Ef. destruct (nth_error fs r) as [f|] eqn:Ef0; [|discriminate]. injection Ef as <-.
      destruct (re_f _ _ _ _ _ Hrel r b o f Eb Eo Ef0) as [F1 F2 F3 F4 F5]. constructor; cbn [fill f_dofs f_stage f_version step fst s_value s_proj]; auto.
      - rewrite F1, map_map. reflexivity.
      - intros _ E. pose proof (re_v _ _ _ _ _ Hrel). lia.
      - intros p Ep. destruct (F5 p Ep) as [_ H]. split; auto.
    Qed.

    Lemma set_step h : allowed owner own s (ESetDofs h) -> exists fs', exec add zero scale aware host e (w, fs) (ESetDofs h) = Some (w, fs', None) /\
      result (fst (step add zero scale owner own s (ESetDofs h))) w fs'.
    Proof.
      intros [L1 L2].
      destruct (map_ranks_ok w fs (fun r _ f => x <- rd h r ;; set_dofs x f)
        (fun r b f f' => exists x, nth_error h r = Some x /\ f' = HFun x (f_stage f) 0) Lfs) as [fs' [E [L H]]].
      { intros r b f Eb Ef. destruct (rank_own r b Eb) as [o [Eo _]]. destruct (rd_lists own h r o L1 Eo) as [x Ex].
        unfold rd. rewrite Ex. cbn [obind]. unfold set_dofs.
        rewrite (fr_dofs _ _ _ _ _ _ _ (re_f _ _ _ _ _ Hrel r b o f Eb Eo Ef)), map_length, (L2 r o x Eo Ex), Nat.eqb_refl. cbn. eauto. }
      exists fs'. cbn [exec]. rewrite E. split; [reflexivity|].
      apply (step_fs _ _ 0); [reflexivity|auto|lia|apply (re_acc _ _ _ _ _ Hrel)|].
      intros r b o f' Eb Eo Ef'. destruct (H r b f' Eb Ef') as [f [Ef [x [Ex ->]]]].
      destruct (re_f _ _ _ _ _ Hrel r b o f Eb Eo Ef) as [F1 F2 F3 F4 F5]. constructor; cbn [f_dofs f_stage f_version step fst s_value s_proj]; auto.
      - apply nth_error_ext. intros k. rewrite nth_error_map. pose proof (L2 r o x Eo Ex) as Lx. destruct (nth_error o k) as [g|] eqn:Eg.
        + cbn. unfold set_values. assert (Ig : In g o) by (eapply nth_error_In; eauto). rewrite (own_owner r o g Eo Ig), Eo, Ex.
          destruct (nth_error_lt_some x k) as [y Ey]; [rewrite Lx; eapply nth_error_some_lt; eauto|]. rewrite Ey. f_equal.
          assert (Nd : NoDup o) by (apply own_nodup; eapply nth_error_In; eauto).
          clear -Eg Ey Nd. revert k x Eg Ey. induction o as [|a o IH]; intros [|k] [|z x] Eg Ey; cbn in *; try discriminate.
          * injection Eg as ->. rewrite Z.eqb_refl. cbn. congruence.
          * inversion Nd; subst. destruct (Z.eqb_spec a g) as [->|]; [apply nth_error_In in Eg; tauto|]. eapply IH; eauto.
        + apply nth_error_None. apply nth_error_None in Eg. lia.
      - intros _ E0. pose proof (re_v _ _ _ _ _ Hrel). lia.
      - intros p Ep. destruct (F5 p Ep) as [_ K]. split; auto.
    Qed.

    Lemma init_one junk b f : exists st, function_project_initialise zero junk b f = Some (HFun (map (fun _ => zero) (f_dofs f)) st 0) /\
      length st = Nat.max (length (f_stage f)) (length (m_lin b)) /\ forall i, i < length (m_lin b) -> nth_error st i = Some zero.
    Proof.
      unfold function_project_initialise. cbv zeta. set (n := length (m_lin b)).
      destruct (Nat.ltb_spec 0 n) as [Ln|Ln].
      - destruct (@blit_front T w (realloc_no_copy junk n (f_stage f)) (repeat zero n)) as [rest [E Lr]]; [rewrite repeat_length, realloc_no_copy_len; lia|].
        rewrite E. cbn [obind]. exists (repeat zero n ++ rest). split; [reflexivity|]. rewrite app_length, Lr, repeat_length, realloc_no_copy_len. split; [lia|].
        intros i Li. rewrite nth_error_app1 by (rewrite repeat_length; auto). apply nth_error_repeat. auto.
      - cbn [obind]. exists (realloc_no_copy junk n (f_stage f)). split; [reflexivity|]. rewrite realloc_no_copy_len. split; [auto|]. intros i Li. lia.
    Qed.

    Lemma init_step : exists fs', exec add zero scale aware host e (w, fs) EInitialise = Some (w, fs', None) /\
      result (fst (step add zero scale owner own s EInitialise)) w fs'.
    Proof.
      destruct (map_ranks_ok w fs (fun r b f => function_project_initialise zero (e_junk e r) b f)
        (fun r b f f' => exists st, f' = HFun (map (fun _ => zero) (f_dofs f)) st 0 /\
          length st = Nat.max (length (f_stage f)) (length (m_lin b)) /\ forall i, i < length (m_lin b) -> nth_error st i = Some zero) Lfs) as [fs' [E [L H]]].
      { intros r b f Eb Ef. destruct (init_one (e_junk e r) b f) as [st [E1 [E2 E3]]]. eexists. split; [exact E1|]. exists st. auto. }
      exists fs'. cbn [exec]. rewrite E. split; [reflexivity|].
      apply (step_fs _ _ 0); [reflexivity|auto|lia| |].
      - cbn [step fst s_proj]. intros p [= <-]. cbn [p_acc]. split; [apply map_length|]. intros r l x El. rewrite nth_error_map in El.
        destruct (nth_error own r); [injection El as <-; intros []|discriminate].
      - intros r b o f' Eb Eo Ef'. destruct (H r b f' Eb Ef') as [f [Ef [st [-> [Ls Hs]]]]].
        destruct (re_f _ _ _ _ _ Hrel r b o f Eb Eo Ef) as [F1 F2 F3 F4 F5]. constructor; cbn [f_dofs f_stage f_version step fst s_value s_proj].
        + rewrite F1, map_map. auto.
        + lia.
        + auto.
        + discriminate.
        + intros p [= <-]. cbn [p_acc p_full p_pending]. split; auto. split; [|split; [lia|]].
          * unfold full. intros Hf. rewrite forallb_forall in Hf. destruct (rank_own r b Eb) as [o' [Eo' [Li _]]]. assert (o' = o) by congruence. subst o'.
            assert (Lk : length (s_known s) = length own) by apply (wi_klen _ _ _ _ _ (re_w _ _ _ _ _ Hrel)).
            destruct (rd_lists own (s_known s) r o Lk Eo) as [k Ek].
            assert (I : In (o, k) (combine own (s_known s))).
            { apply nth_error_In with (n := r). clear -Eo Ek. revert r Eo Ek. generalize (s_known s). clear. induction own as [|a l IH]; intros [|c m] [|r] E1 E2; cbn in *; try discriminate; [congruence|eauto]. }
            specialize (Hf _ I). cbn in Hf. apply Nat.leb_le in Hf. rewrite (nodup_length_sub (m_lin b) k) in Hf.
            -- lia.
            -- apply (li_nodup _ _ _ _ _ Li).
            -- intros g. rewrite (li_lin _ _ _ _ _ Li), (nth_error_nth_d _ _ _ _ Ek). tauto.
          * intros i g Ei. left. rewrite Hs by (eapply nth_error_some_lt; eauto). symmetry. f_equal. apply dep1_none.
            erewrite nth_error_nth_d; [|rewrite nth_error_map, Eo; reflexivity]. intros x [].
    Qed.

    Lemma contribute_one d junk b parts f : device_ok d ->
      (forall g i, mget Z.eqb g (m_seq b) = Some i <-> nth_error (m_lin b) i = Some g) -> NoDup (m_lin b) ->
      (forall p, In p parts -> In (fst p) (m_lin b)) ->
      exists st, function_project_contribute add zero scale d junk b parts f = Some (HFun (f_dofs f) st (f_version f)) /\
        length st = Nat.max (length (f_stage f)) (length (m_lin b)) /\
        forall i g, nth_error (m_lin b) i = Some g ->
          (forall x, nth_error (f_stage f) i = Some x -> nth_error st i = Some (add x (dep1 parts g))) /\
          (length (f_stage f) <= i -> nth_error st i = Some (dep1 parts g)).
    Proof.
      intros Hdv Hseq Nd Hp. unfold function_project_contribute. cbv zeta. set (n := length (m_lin b)). set (c := length (f_stage f)).
      assert (St : exists st0, (if c <? n then foldM (fun m idx => upd m (c + idx) zero) (realloc junk n (f_stage f)) (ord d 0 (seq 0 (n - c))) else Some (f_stage f)) = Some st0 /\
        length st0 = Nat.max c n /\ (forall i x, nth_error (f_stage f) i = Some x -> nth_error st0 i = Some x) /\ (forall i, c <= i -> i < n -> nth_error st0 i = Some zero)).
      { destruct (Nat.ltb_spec c n) as [Lt|Ge].
        - assert (Lr : length (realloc junk n (f_stage f)) = n).
          { unfold realloc. fold c. destruct (Nat.ltb_spec c n); [|lia]. rewrite app_length, map_length, seq_length. fold c. lia. }
          destruct (foldM_upd (fun m idx => upd m (c + idx) zero) (fun idx => c + idx) (fun _ => zero) (ord d 0 (seq 0 (n - c))) (realloc junk n (f_stage f))) as [st0 [E [L [H1 H2]]]]; auto.
          + intros a I. apply (Permutation_in _ (proj1 Hdv _ _ _)), in_seq in I. lia.
          + exists st0. split; auto. split; [lia|]. split.
            * intros i x Ex. assert (i < c) by (eapply nth_error_some_lt; eauto). rewrite H2; [|intros a _; lia].
              unfold realloc. fold c. destruct (Nat.ltb_spec c n); [|lia]. rewrite nth_error_app1; auto.
            * intros i L1 L2. replace i with (c + (i - c)) by lia. apply H1.
              apply (Permutation_in _ (Permutation_sym (proj1 Hdv _ _ _))), in_seq. lia.
        - exists (f_stage f). split; auto. split; [unfold c in *; lia|]. split; auto. intros; lia. }
      destruct St as [st0 [-> [L0 [K1 K2]]]]. cbn [obind].
      assert (An : n <=? length st0 = true) by (apply Nat.leb_le; lia). rewrite An. cbn [assert obind].
      destruct (Nat.ltb_spec 0 n) as [Ln|Ln].
      - destruct (foldM_accum add zero M (fun m '(gid, value) =>
            index <- mget Z.eqb gid (m_seq b) ;;
            _ <- assert (index <? n) ;;
            old <- rd m index ;; upd m index (add old (scale value)))
          (fun p => match mget Z.eqb (fst p) (m_seq b) with Some i => i | None => 0 end) (fun p => scale (snd p)) (ord d 1 parts) st0) as [st [E [L H]]].
        + intros m' [g x] Lm I. apply (Permutation_in _ (proj1 Hdv _ _ _)) in I. destruct (In_nth_error _ _ (Hp _ I)) as [i Ei]. cbn [fst snd] in *.
          apply Hseq in Ei. rewrite Ei. cbn [obind]. apply Hseq in Ei. assert (Li : i < n) by (eapply nth_error_some_lt; eauto).
          apply Nat.ltb_lt in Li. rewrite Li. reflexivity.
        + intros [g x] I. apply (Permutation_in _ (proj1 Hdv _ _ _)) in I. destruct (In_nth_error _ _ (Hp _ I)) as [i Ei]. cbn [fst snd] in *.
          pose proof Ei as Ei'. apply Hseq in Ei. rewrite Ei. assert (Li : i < n) by (eapply nth_error_some_lt; eauto). lia.
        + exists st. rewrite E. cbn [obind]. split; auto. split; [lia|]. intros i g Ei.
          assert (Q : sum add zero (map (fun p => scale (snd p)) (filter (fun a => match mget Z.eqb (fst a) (m_seq b) with Some k => k | None => 0 end =? i) (ord d 1 parts))) = dep1 parts g).
          { unfold dep1. apply sum_perm; auto. apply Permutation_map.
            assert (Q0 : filter (fun a => match mget Z.eqb (fst a) (m_seq b) with Some k => k | None => 0 end =? i) (ord d 1 parts) = filter (fun p => (fst p =? g)%Z) (ord d 1 parts)).
            { apply filter_ext_in. intros [h x] I. apply (Permutation_in _ (proj1 Hdv _ _ _)) in I. destruct (In_nth_error _ _ (Hp _ I)) as [k Ek]. cbn [fst snd] in *.
              rewrite (proj2 (Hseq h k) Ek). destruct (Nat.eqb_spec k i) as [->|N], (Z.eqb_spec h g) as [->|N']; auto; [congruence|].
              exfalso. apply N. rewrite NoDup_nth_error in Nd. apply Nd; [eapply nth_error_some_lt; eauto|congruence]. }
            rewrite Q0. apply filter_perm. apply (proj1 Hdv). }
          split.
          * intros x Ex. rewrite (H i x (K1 i x Ex)), Q. auto.
          * intros Lc. rewrite (H i zero), Q; [|apply K2; auto; eapply nth_error_some_lt; eauto].
            f_equal. rewrite (add_comm _ _ M). apply (add_zero _ _ M).
      - cbn [obind]. exists st0. split; auto. split; [lia|]. intros i g Ei. apply nth_error_some_lt in Ei. unfold n in *. lia.
    Qed.

    Lemma contribute_step parts : allowed owner own s (EContribute parts) -> exists fs', exec add zero scale aware host e (w, fs) (EContribute parts) = Some (w, fs', None) /\
      result (fst (step add zero scale owner own s (EContribute parts))) w fs'.
    Proof.
      intros [Hp [L1 L2]]. destruct (s_proj s) as [p|] eqn:Ep; [clear Hp|congruence].
      destruct (re_acc _ _ _ _ _ Hrel p Ep) as [La Ha].
      destruct (map_ranks_ok w fs (fun r b f => l <- rd parts r ;; function_project_contribute add zero scale (e_ds e r) (e_junk e r) b l f)
        (fun r b f f' => exists l st, nth_error parts r = Some l /\ f' = HFun (f_dofs f) st (f_version f) /\
          length st = Nat.max (length (f_stage f)) (length (m_lin b)) /\
          forall i g, nth_error (m_lin b) i = Some g ->
            (forall x, nth_error (f_stage f) i = Some x -> nth_error st i = Some (add x (dep1 l g))) /\
            (length (f_stage f) <= i -> nth_error st i = Some (dep1 l g))) Lfs) as [fs' [E [L H]]].
      { intros r b f Eb Ef. destruct (rank_own r b Eb) as [o [Eo [Li _]]]. destruct (rd_lists own parts r o L1 Eo) as [l El].
        unfold rd. rewrite El. cbn [obind].
        destruct (contribute_one (e_ds e r) (e_junk e r) b l f (Hd r) (li_seq _ _ _ _ _ Li) (li_nodup _ _ _ _ _ Li)) as [st [E1 [E2 E3]]].
        - intros q I. apply (li_lin _ _ _ _ _ Li). eapply L2; eauto.
        - eexists. split; [exact E1|]. exists l, st. auto. }
      exists fs'. cbn [exec]. rewrite E. split; [reflexivity|].
      set (acc' := map (fun q => fst q ++ snd q) (combine (p_acc p) parts)).
      assert (Eacc : forall r a l, nth_error (p_acc p) r = Some a -> nth_error parts r = Some l -> nth_error acc' r = Some (a ++ l)).
      { unfold acc'. clear. intros r. generalize (p_acc p). revert parts. induction r; intros [|c m] [|d n] a l E1 E2; cbn in *; try discriminate; [congruence|eauto]. }
      assert (Lacc : length acc' = length own) by (unfold acc'; rewrite map_length, combine_length; lia).
      apply (step_fs _ _ vf); [reflexivity|auto|apply (re_vf _ _ _ _ _ Hrel)| |].
      - cbn [step fst s_proj]. rewrite Ep. intros p' [= <-]. cbn [p_acc]. fold acc'. split; auto. intros r l x El Ix.
        destruct (nth_error_lt_some (p_acc p) r) as [a Ea]; [rewrite La, <- Lacc; eapply nth_error_some_lt; eauto|].
        destruct (nth_error_lt_some parts r) as [l1 El1]; [rewrite L1, <- Lacc; eapply nth_error_some_lt; eauto|].
        rewrite (Eacc r a l1 Ea El1) in El. injection El as <-. apply in_app_or in Ix. destruct Ix; eauto.
      - intros r b o f' Eb Eo Ef'. destruct (H r b f' Eb Ef') as [f [Ef [l [st [El [-> [Ls Hs]]]]]]].
        destruct (re_f _ _ _ _ _ Hrel r b o f Eb Eo Ef) as [F1 F2 F3 F4 F5]. destruct (F5 p Ep) as [G1 [G2 [G3 G4]]].
        destruct (rd_lists own (p_acc p) r o La Eo) as [a Ea].
        constructor; cbn [f_dofs f_stage f_version step fst s_value s_proj]; auto.
        + lia.
        + rewrite Ep. discriminate.
        + rewrite Ep. intros p' [= <-]. cbn [p_acc p_full p_pending]. fold acc'. split; auto. split; [intros Hf; specialize (G2 Hf); lia|]. split; [intros _; lia|].
          intros i g Ei. left. rewrite (nth_error_nth_d _ _ _ _ (Eacc r a l Ea El)), dep1_app. destruct (Hs i g Ei) as [Hs1 Hs2].
          specialize (G4 i g Ei). rewrite (nth_error_nth_d _ _ _ _ Ea) in G4. destruct G4 as [G4|[G4 G6]].
          * apply Hs1. auto.
          * rewrite (dep1_none a g G6), (Hs2 G4). f_equal. rewrite (add_comm _ _ M). symmetry. apply (add_zero _ _ M).
    Qed.

    Lemma stages_nth r (st : list T) : nth_error (map f_stage fs) r = Some st -> exists f, nth_error fs r = Some f /\ st = f_stage f.
    Proof. rewrite nth_error_map. destruct (nth_error fs r) as [f|]; [intros [= <-]; eauto|discriminate]. Qed.
    Lemma dofs_nth r (st : list T) : nth_error (map f_dofs fs) r = Some st -> exists f, nth_error fs r = Some f /\ st = f_dofs f.
    Proof. rewrite nth_error_map. destruct (nth_error fs r) as [f|]; [intros [= <-]; eauto|discriminate]. Qed.

    Lemma own_rank r o : nth_error own r = Some o -> exists b, nth_error w r = Some b.
    Proof. intros E. apply (rd_lists own w r o); auto. Qed.

    Lemma finalise_step : allowed owner own s EFinalise -> exists fs', exec add zero scale aware host e (w, fs) EFinalise = Some (w, fs', None) /\
      result (fst (step add zero scale owner own s EFinalise)) w fs'.
    Proof.
      intros [p [Ep Hpend]]. destruct (re_acc _ _ _ _ _ Hrel p Ep) as [La Ha].
      cbn [exec]. unfold function_project_finalise.
      destruct (exchange_ok add zero M owner own own_nodup _ _ w (re_w _ _ _ _ _ Hrel) (e_ds e) Hd 1 aware (map f_stage fs) (map f_dofs fs)
        (pooled (e_junk e 0) w (fun b => list_sum (m_outc b)) (e_pout e)) (pooled (e_junk e 0) w (fun b => list_sum (m_inc b)) (e_pin e)) own_owner) as [res [E [L H]]].
      - split; [rewrite map_length; auto|]. intros r b st Eb Est. destruct (stages_nth r st Est) as [f [Ef ->]].
        destruct (rank_own r b Eb) as [o [Eo _]]. destruct (fr_proj _ _ _ _ _ _ _ (re_f _ _ _ _ _ Hrel r b o f Eb Eo Ef) p Ep) as [_ [_ [G _]]]. specialize (G Hpend). lia.
      - rewrite map_length. auto.
      - intros r o m Eo Em. destruct (dofs_nth r m Em) as [f [Ef ->]]. destruct (own_rank r o Eo) as [b Eb].
        rewrite (fr_dofs _ _ _ _ _ _ _ (re_f _ _ _ _ _ Hrel r b o f Eb Eo Ef)), map_length. lia.
      - apply pooled_sized.
      - apply pooled_sized.
      - rewrite E. cbn [obind].
        destruct (map_ranks_ok w fs (fun r b f => x <- rd res r ;; Some (HFun x (f_stage f) 0))
          (fun r b f f' => exists x, nth_error res r = Some x /\ f' = HFun x (f_stage f) 0) Lfs) as [fs' [E' [L' H']]].
        { intros r b f Eb Ef. destruct (rd_lists w res r b L Eb) as [x Ex]. unfold rd. rewrite Ex. cbn. eauto. }
        exists fs'. rewrite E'. split; [reflexivity|].
        apply (step_fs _ _ 0); [reflexivity|auto|lia|cbn; discriminate|].
        intros r b o f' Eb Eo Ef'. destruct (H' r b f' Eb Ef') as [f [Ef [x [Ex ->]]]].
        destruct (re_f _ _ _ _ _ Hrel r b o f Eb Eo Ef) as [F1 F2 F3 F4 F5].
        constructor; cbn [f_dofs f_stage f_version step fst s_value s_proj]; auto; [| |discriminate].
        + rewrite Ep. destruct (H r o (f_dofs f) x Eo) as [K1 [K2 _]]; [rewrite nth_error_map, Ef; reflexivity|auto|].
          apply nth_error_ext. intros k. rewrite nth_error_map. destruct (nth_error o k) as [g|] eqn:Eg; cbn [option_map].
          * specialize (K2 k g 0 (s_value s g) Eg (le_n 1)). rewrite Nat.mul_1_r, Nat.add_0_r in K2. rewrite K2.
            -- f_equal. f_equal. unfold deposited. apply (contrib_sum g w (map f_stage fs) (p_acc p)); [rewrite map_length; auto|congruence|].
               intros r' b' st l Eb' Est El. destruct (stages_nth r' st Est) as [f1 [Ef1 ->]]. destruct (rank_own r' b' Eb') as [o' [Eo' [Li _]]].
               destruct (fr_proj _ _ _ _ _ _ _ (re_f _ _ _ _ _ Hrel r' b' o' f1 Eb' Eo' Ef1) p Ep) as [_ [_ [G3 G4]]]. specialize (G3 Hpend).
               unfold staged, get_seq_index_from_geom_id. destruct (mget Z.eqb g (m_seq b')) as [i|] eqn:Ei; cbn [obind].
               ++ apply (li_seq _ _ _ _ _ Li) in Ei. left. rewrite Nat.mul_1_r, Nat.add_0_r.
                  destruct (G4 i g Ei) as [G5|[G5 _]]; [rewrite G5, (nth_error_nth_d _ _ _ _ El); auto|]. apply nth_error_some_lt in Ei. lia.
               ++ right. split; auto. intros y Iy Eg'. subst g. pose proof (Ha r' l y El Iy) as Ik. apply (li_lin _ _ _ _ _ Li) in Ik.
                  destruct (In_nth_error _ _ Ik) as [i Ei']. apply (li_seq _ _ _ _ _ Li) in Ei'. congruence.
            -- rewrite F1, nth_error_map, Eg. reflexivity.
          * apply nth_error_None. rewrite K1, F1, map_length. apply nth_error_None. auto.
        + intros _ E0. pose proof (re_v _ _ _ _ _ Hrel). lia.
    Qed.

    Lemma refresh_ok : s_proj s = None -> exists fs', refresh zero aware host (e_ds e) (e_junk e 0) (e_pout e) (e_pin e) w fs = Some fs' /\ rel s w fs' v v.
    Proof.
      intros Hn. unfold refresh.
      assert (Est : on_ranks w (fun r b => f <- rd fs r ;; Some (f_version f <? m_version b)) = Some (map (fun _ => vf <? v) w)).
      { destruct (on_ranks_ok w (fun r b => f <- rd fs r ;; Some (f_version f <? m_version b)) (fun r b x => x = (vf <? v))) as [l [E [L H]]].
        - intros r b Eb. destruct (rd_lists w fs r b Lfs Eb) as [f Ef]. destruct (rank_own r b Eb) as [o [Eo [_ V]]]. unfold rd. rewrite Ef. cbn [obind].
          eexists. split; [reflexivity|]. rewrite V, (fr_ver _ _ _ _ _ _ _ (re_f _ _ _ _ _ Hrel r b o f Eb Eo Ef)). auto.
        - rewrite E. f_equal. apply nth_error_ext. intros r. rewrite nth_error_map. destruct (nth_error w r) as [b|] eqn:Eb; cbn.
          + destruct (rd_lists w l r b L Eb) as [x Ex]. rewrite Ex, (H r b x Eb Ex). auto.
          + apply nth_error_None. apply nth_error_None in Eb. lia. }
      rewrite Est. cbn [obind].
      assert (Hrest : (forall r b o f, nth_error w r = Some b -> nth_error own r = Some o -> nth_error fs r = Some f -> frel s v v r b o f) -> rel s w fs v v).
      { intros K. destruct Hrel as [R1 R2 R3 R4 R5 R6]. constructor; auto. }
      destruct (Nat.ltb_spec vf v) as [Lt|Ge].
      2:{ assert (Ev : vf = v) by (pose proof (re_vf _ _ _ _ _ Hrel); lia).
          assert (En : forallb negb (map (fun _ : bmi => false) w) = true) by (apply forallb_forall; intros x I; apply in_map_iff in I; destruct I as [? [<- _]]; auto).
          rewrite En. exists fs. split; auto. rewrite <- Ev at 2. auto. }
      destruct w as [|b0 w0] eqn:Ew0.
      { cbn. exists fs. split; auto. apply Hrest. intros [|r] b o f E; discriminate. }
      rewrite <- Ew0 in *. assert (En : forallb negb (map (fun _ : bmi => true) w) = false) by (rewrite Ew0; reflexivity).
      rewrite En. assert (Ea : forallb (fun x => x) (map (fun _ : bmi => true) w) = true) by (apply forallb_forall; intros x I; apply in_map_iff in I; destruct I as [? [<- _]]; auto).
      rewrite Ea. cbn [assert obind]. clear En Ea Ew0 b0 w0.
      destruct (on_ranks_ok w (fun r b => f <- rd fs r ;; Some (realloc_no_copy (e_junk e 0) (length (m_lin b)) (f_stage f)))
        (fun r b x => exists f, nth_error fs r = Some f /\ length x = Nat.max (length (f_stage f)) (length (m_lin b)))) as [stages [E1 [L1 H1]]].
      { intros r b Eb. destruct (rd_lists w fs r b Lfs Eb) as [f Ef]. unfold rd. rewrite Ef. cbn [obind]. eexists. split; [reflexivity|]. exists f. split; auto. apply realloc_no_copy_len. }
      rewrite E1. cbn [obind].
      destruct (reverse_exchange_ok zero owner own _ _ w (re_w _ _ _ _ _ Hrel) (e_ds e) Hd 1 aware host (map f_dofs fs) stages
        (pooled (e_junk e 0) w (fun b => length (m_rpack b)) (e_pout e)) (pooled (e_junk e 0) w (fun b => length (m_runpack b)) (e_pin e)) Hah) as [res [E2 [L2 H2]]].
      - split; [rewrite map_length; auto|]. intros r o m Eo Em. destruct (dofs_nth r m Em) as [f [Ef ->]]. destruct (own_rank r o Eo) as [b Eb].
        rewrite (fr_dofs _ _ _ _ _ _ _ (re_f _ _ _ _ _ Hrel r b o f Eb Eo Ef)), map_length. lia.
      - split; auto. intros r b m Eb Em. destruct (H1 r b m Eb Em) as [f [_ Lm]]. lia.
      - apply pooled_sized.
      - apply pooled_sized.
      - rewrite E2. cbn [obind].
        destruct (map_ranks_ok w fs (fun r b f => x <- rd res r ;; Some (HFun (f_dofs f) x (m_version b)))
          (fun r b f f' => exists x, nth_error res r = Some x /\ f' = HFun (f_dofs f) x (m_version b)) Lfs) as [fs' [E' [L' H']]].
        { intros r b f Eb Ef. destruct (rd_lists w res r b L2 Eb) as [x Ex]. unfold rd. rewrite Ex. cbn. eauto. }
        exists fs'. split; [exact E'|]. constructor; auto.
        + apply (re_w _ _ _ _ _ Hrel).
        + apply (re_v _ _ _ _ _ Hrel).
        + congruence.
        + rewrite Hn. discriminate.
        + intros r b o f' Eb Eo Ef'. destruct (H' r b f' Eb Ef') as [f [Ef [x [Ex ->]]]].
          destruct (re_f _ _ _ _ _ Hrel r b o f Eb Eo Ef) as [F1 F2 F3 F4 F5].
          destruct (rd_lists w stages r b L1 Eb) as [st Est']. destruct (H1 r b st Eb Est') as [f1 [Ef1 Lst]]. assert (f1 = f) by congruence. subst f1.
          destruct (H2 r b st x Eb Est' Ex) as [K1 [K2 _]]. destruct (rank_own r b Eb) as [o' [Eo' [Li Vb]]].
          constructor; cbn [f_dofs f_stage f_version]; auto; [lia| |rewrite Hn; discriminate].
          intros _ _. split; [lia|]. intros i g Ei. destruct (li_owned _ _ _ _ _ Li g) as [og [Eog Ig]].
          { apply (li_lin _ _ _ _ _ Li). eapply nth_error_In; eauto. }
          destruct (In_nth_error _ _ Ig) as [k Ek]. destruct (own_rank _ _ Eog) as [bg Ebg]. destruct (rd_lists w fs _ bg Lfs Ebg) as [fg Efg].
          specialize (K2 g i 0 og k (f_dofs fg) (proj2 (li_seq _ _ _ _ _ Li g i) Ei) (le_n 1) Eog Ek).
          rewrite !Nat.mul_1_r, !Nat.add_0_r in K2. rewrite K2; [|rewrite nth_error_map, Efg; reflexivity].
          rewrite (fr_dofs _ _ _ _ _ _ _ (re_f _ _ _ _ _ Hrel _ bg og fg Ebg Eog Efg)), nth_error_map, Ek. reflexivity.
    Qed.
  End Step.

  Lemma nth_error_combine_seq {A} (l : list A) : forall k i, nth_error (combine (seq k (length l)) l) i = match nth_error l i with Some x => Some (k + i, x) | None => None end.
  Proof.
    induction l as [|x l IH]; intros k [|i]; cbn; auto; [rewrite Nat.add_0_r; auto|]. rewrite IH. destruct (nth_error l i); auto. replace (S k + i) with (k + S i) by lia. auto.
  Qed.

  Lemma evaluate_one d b f geoms values (value : Z -> T) : device_ok d ->
    (forall g i, mget Z.eqb g (m_seq b) = Some i <-> nth_error (m_lin b) i = Some g) ->
    (forall i g, nth_error (m_lin b) i = Some g -> nth_error (f_stage f) i = Some (value g)) ->
    (forall g, In g geoms -> In g (m_lin b)) -> length values = length geoms ->
    evaluate_particles d b f geoms values = Some (map value geoms).
  Proof.
    intros Hdv Hseq Hst Hg Lv. unfold evaluate_particles. destruct (Nat.ltb_spec 0 (length (m_lin b))) as [L|L].
    - destruct (foldM_upd (fun out '(layer, gid) => index <- mget Z.eqb gid (m_seq b) ;; v <- rd (f_stage f) index ;; upd out layer v) fst (fun p => value (snd p))
        (ord d 2 (combine (seq 0 (length geoms)) geoms)) values) as [m' [E [Lm [H1 H2]]]].
      + intros m' [i g] _ I. apply (Permutation_in _ (proj1 Hdv _ _ _)), in_combine_r in I. destruct (In_nth_error _ _ (Hg g I)) as [j Ej].
        rewrite (proj2 (Hseq g j) Ej). cbn [obind]. unfold rd. rewrite (Hst j g Ej). reflexivity.
      + intros [i g] I. apply (Permutation_in _ (proj1 Hdv _ _ _)), in_combine_l, in_seq in I. cbn. lia.
      + intros [i g] [j h] I J. apply (Permutation_in _ (proj1 Hdv _ _ _)) in I. apply (Permutation_in _ (proj1 Hdv _ _ _)) in J.
        destruct (In_nth_error _ _ I) as [n En]. destruct (In_nth_error _ _ J) as [m Em]. rewrite nth_error_combine_seq in En, Em.
        destruct (nth_error geoms n) eqn:E1; [|discriminate]. destruct (nth_error geoms m) eqn:E2; [|discriminate]. cbn. intros ->. injection En as <- <-. injection Em as <- <-. congruence.
      + rewrite E. f_equal. apply nth_error_ext. intros j. rewrite nth_error_map. destruct (nth_error geoms j) as [g|] eqn:Eg; cbn.
        * apply (H1 (j, g)). apply (Permutation_in _ (Permutation_sym (proj1 Hdv _ _ _))). apply nth_error_In with (n := j). rewrite nth_error_combine_seq, Eg. reflexivity.
        * apply nth_error_None. apply nth_error_None in Eg. lia.
    - destruct geoms as [|g geoms].
      + destruct values; [reflexivity|discriminate].
      + specialize (Hg g (or_introl eq_refl)). destruct (m_lin b); [destruct Hg|cbn in L; lia].
  Qed.

  Lemma evaluate_step s w fs v vf (e : env T) geoms values : rel s w fs v vf -> (forall r, device_ok (e_ds e r)) -> allowed owner own s (EEvaluate geoms values) ->
    exists fs', exec add zero scale aware host e (w, fs) (EEvaluate geoms values) = Some (w, fs', Some (map (map (s_value s)) geoms)) /\ result s w fs'.
  Proof.
    intros Hrel Hd [Hn [L1 [L2 [H1 H2]]]]. destruct (refresh_ok s w fs v vf e Hrel Hd Hn) as [fs' [E R]]. exists fs'.
    cbn [exec]. rewrite E. cbn [obind].
    assert (Lw : length w = length own) by apply (wi_len _ _ _ _ _ (re_w _ _ _ _ _ Hrel)).
    assert (Eo : on_ranks w (fun r b => f <- rd fs' r ;; g <- rd geoms r ;; x <- rd values r ;; evaluate_particles (e_ds e r) b f g x) = Some (map (map (s_value s)) geoms)).
    { destruct (on_ranks_ok w (fun r b => f <- rd fs' r ;; g <- rd geoms r ;; x <- rd values r ;; evaluate_particles (e_ds e r) b f g x)
        (fun r b x => exists g, nth_error geoms r = Some g /\ x = map (s_value s) g)) as [l [El [Ll Hl]]].
      - intros r b Eb. destruct (rd_lists w fs' r b) as [f Ef]; [rewrite (re_len _ _ _ _ _ R); auto|auto|].
        destruct (rd_lists w geoms r b) as [g Eg]; [congruence|auto|]. destruct (rd_lists w values r b) as [x Ex]; [congruence|auto|].
        unfold rd. rewrite Ef, Eg, Ex. cbn [obind]. destruct (wi_loc _ _ _ _ _ (re_w _ _ _ _ _ R) r b Eb) as [o [Eo [Li _]]].
        destruct (fr_cache _ _ _ _ _ _ _ (re_f _ _ _ _ _ R r b o f Eb Eo Ef) Hn eq_refl) as [_ Hc].
        eexists. split; [|exists g; split; [reflexivity|reflexivity]]. apply evaluate_one; auto.
        + apply (li_seq _ _ _ _ _ Li).
        + intros y Iy. apply (li_lin _ _ _ _ _ Li). eapply H1; eauto.
        + eapply H2; eauto.
      - rewrite El. f_equal. apply nth_error_ext. intros r. rewrite nth_error_map. destruct (nth_error l r) as [x|] eqn:Ex.
        + destruct (nth_error_lt_some w r) as [b Eb]; [rewrite <- Ll; eapply nth_error_some_lt; eauto|].
          destruct (Hl r b x Eb Ex) as [g [-> ->]]. reflexivity.
        + replace (nth_error geoms r) with (@None (list Z)); [reflexivity|]. symmetry. apply nth_error_None. apply nth_error_None in Ex. lia. }
    rewrite Eo. split; [reflexivity|]. exists v, v. auto.
  Qed.

  Lemma extend_step s w fs v vf (e : env T) ids gs : rel s w fs v vf -> allowed owner own s (EExtend ids gs) ->
    exists w', exec add zero scale aware host e (w, fs) (EExtend ids gs) = Some (w', fs, None) /\
      result (fst (step add zero scale owner own s (EExtend ids gs))) w' fs.
  Proof.
    intros Hrel [L1 [L2 [L3 L4]]]. pose proof (re_w _ _ _ _ _ Hrel) as W.
    destruct (extend_ok owner own _ v w ids gs W L1 L2 L3) as [w' [E [W' Tl]]].
    exists w'. cbn [exec]. rewrite E. split; [reflexivity|]. exists (v + if is_new (s_known s) ids then 1 else 0), vf.
    assert (Lk : length (s_known s) = length own) by apply (wi_klen _ _ _ _ _ W).
    assert (Hk : forall r i, nth_error ids r = Some i -> nth r (extend_known (s_known s) (map ids_of ids)) [] = nth r (s_known s) [] ++ ids_of i).
    { intros r i Ei. apply nth_extend; congruence. }
    constructor; cbn [step fst s_known s_value s_proj]; auto.
    - pose proof (re_v _ _ _ _ _ Hrel). lia.
    - pose proof (re_vf _ _ _ _ _ Hrel). lia.
    - apply (re_len _ _ _ _ _ Hrel).
    - destruct (s_proj s) as [p|] eqn:Ep; [|discriminate]. intros p' [= <-]. cbn [p_acc]. destruct (re_acc _ _ _ _ _ Hrel p Ep) as [La Ha]. split; auto.
      intros r l x El Ix. destruct (nth_error_lt_some ids r) as [i Ei]; [rewrite L1, <- La; eapply nth_error_some_lt; eauto|].
      rewrite (Hk r i Ei). apply in_or_app. left. eauto.
    - intros r b' o f Eb' Eo Ef. destruct (nth_error_lt_some w r) as [b Eb].
      { rewrite (wi_len _ _ _ _ _ W), <- (wi_len _ _ _ _ _ W'). eapply nth_error_some_lt; eauto. }
      destruct (Tl r b b' Eb Eb') as [t Ht]. destruct (re_f _ _ _ _ _ Hrel r b o f Eb Eo Ef) as [F1 F2 F3 F4 F5].
      destruct (wi_loc _ _ _ _ _ W r b Eb) as [o1 [Eo1 [Li _]]]. destruct (wi_loc _ _ _ _ _ W' r b' Eb') as [o2 [Eo2 [Li' _]]].
      assert (o1 = o) by congruence. assert (o2 = o) by congruence. subst o1 o2.
      assert (Nd : NoDup (m_lin b ++ t)) by (rewrite <- Ht; apply (li_nodup _ _ _ _ _ Li')).
      constructor; cbn [s_value s_proj]; auto.
      + rewrite Ht, app_length. lia.
      + intros Hn Ev. assert (Hn0 : s_proj s = None) by (destruct (s_proj s); [discriminate|auto]).
        destruct (is_new (s_known s) ids) eqn:En; [pose proof (re_vf _ _ _ _ _ Hrel); lia|].
        assert (Et : t = []).
        { destruct t as [|g t]; auto. exfalso. assert (Ig : In g (m_lin b')) by (rewrite Ht; apply in_or_app; right; left; auto).
          apply (li_lin _ _ _ _ _ Li') in Ig. destruct (nth_error_lt_some ids r) as [i Ei]; [rewrite L1; eapply nth_error_some_lt; eauto|].
          rewrite (Hk r i Ei) in Ig. apply in_app_or in Ig.
          assert (Ik : In g (nth r (s_known s) [])).
          { destruct Ig as [Ig|Ig]; auto. destruct (nth_error_lt_some (s_known s) r) as [k Ek]; [rewrite Lk; eapply nth_error_some_lt; eauto|].
            rewrite (nth_error_nth_d _ _ _ _ Ek). destruct (existsb (Z.eqb g) k) eqn:Ex; [apply existsb_in in Ex; auto|]. exfalso.
            assert (is_new (s_known s) ids = true); [|congruence]. unfold is_new. apply existsb_exists. exists (k, ids_of i). split.
            - apply nth_error_In with (n := r). clear -Ek Ei. revert ids Ei. generalize (s_known s) Ek. clear. induction r; intros [|a m] Ek [|c n] Ei; cbn in *; try discriminate; [congruence|eauto].
            - cbn. unfold news1. apply existsb_exists. exists g. split; auto. rewrite Ex. auto. }
          apply (li_lin _ _ _ _ _ Li) in Ik. apply NoDup_remove_2 in Nd. apply Nd. apply in_or_app. auto. }
        rewrite Et, app_nil_r in Ht. rewrite Ht. apply F4; auto. lia.
      + destruct (s_proj s) as [p|] eqn:Ep; [|discriminate]. intros p' [= <-]. cbn [p_acc p_full p_pending].
        destruct (F5 p eq_refl) as [G1 [G2 [G3 G4]]]. specialize (G2 L4). split; auto. split; [intros _; rewrite Ht, app_length; lia|]. split; [discriminate|].
        intros i g Ei. rewrite Ht in Ei. destruct (lt_dec i (length (m_lin b))) as [Li0|Ge].
        * rewrite nth_error_app1 in Ei by auto. apply G4; auto.
        * right. split; [lia|]. rewrite nth_error_app2 in Ei by lia. intros x Ix Ex.
          destruct (re_acc _ _ _ _ _ Hrel p Ep) as [La Ha].
          destruct (nth_error_lt_some (p_acc p) r) as [l El]; [rewrite La; eapply nth_error_some_lt; eauto|].
          rewrite (nth_error_nth_d _ _ _ _ El) in Ix. pose proof (Ha r l x El Ix) as Ik. apply (li_lin _ _ _ _ _ Li) in Ik.
          apply nth_error_In in Ei. rewrite Ex in Ik. clear -Nd Ei Ik. induction (m_lin b) as [|a m IH]; [destruct Ik|]. cbn in Nd. inversion Nd; subst.
          destruct Ik as [->|Ik]; [apply H1; apply in_or_app; auto|auto].
  Qed.

  Theorem exec_ok s w fs e ev : result s w fs -> (forall r, device_ok (e_ds e r)) -> allowed owner own s ev ->
    exists w' fs', exec add zero scale aware host e (w, fs) ev = Some (w', fs', snd (step add zero scale owner own s ev)) /\
      result (fst (step add zero scale owner own s ev)) w' fs'.
  Proof.
    intros [v [vf R]] Hd A. destruct ev as [ids gs|value|h| |parts| |geoms values].
    - destruct (extend_step s w fs v vf e ids gs R A) as [w' H]. exists w', fs. exact H.
    - destruct (fill_step s w fs v vf e R value) as [fs' H]. exists w, fs'. exact H.
    - destruct (set_step s w fs v vf e R h A) as [fs' H]. exists w, fs'. exact H.
    - destruct (init_step s w fs v vf e R) as [fs' H]. exists w, fs'. exact H.
    - destruct (contribute_step s w fs v vf e R Hd parts A) as [fs' H]. exists w, fs'. exact H.
    - destruct (finalise_step s w fs v vf e R Hd A) as [fs' H]. exists w, fs'. exact H.
    - destruct (evaluate_step s w fs v vf e geoms values R Hd A) as [fs' H]. exists w, fs'. exact H.
  Qed.

  Theorem exec_all_ok evs : forall s w fs outs0, result s w fs -> (forall e ev, In (e, ev) evs -> forall r, device_ok (e_ds e r)) ->
    allowed_all add zero scale owner own s (map snd evs) ->
    exists w' fs', foldM (fun s p => r <- exec add zero scale aware host (fst p) (fst s) (snd p) ;; Some (fst r, snd s ++ match snd r with Some o => [o] | None => [] end)) ((w, fs), outs0) evs
        = Some ((w', fs'), outs0 ++ snd (steps add zero scale owner own s (map snd evs))) /\
      result (fst (steps add zero scale owner own s (map snd evs))) w' fs'.
  Proof.
    induction evs as [|[e ev] evs IH]; intros s w fs outs0 R Hd A.
    - exists w, fs. cbn. rewrite app_nil_r. auto.
    - cbn [map snd allowed_all] in A. destruct A as [A1 A2].
      destruct (exec_ok s w fs e ev R (Hd e ev (or_introl eq_refl)) A1) as [w1 [fs1 [E1 R1]]].
      cbn [foldM fst snd]. rewrite E1. cbn [obind fst snd].
      destruct (IH _ w1 fs1 (outs0 ++ match snd (step add zero scale owner own s ev) with Some o => [o] | None => [] end) R1) as [w' [fs' [E' R']]].
      + intros e' ev' I. apply (Hd e' ev'). right. auto.
      + auto.
      + exists w', fs'. cbn [map snd steps]. destruct (step add zero scale owner own s ev) as [s1 o]. cbn [fst snd] in *.
        destruct (steps add zero scale owner own s1 (map snd evs)) as [s2 outs]. cbn [fst snd] in *. rewrite app_assoc. auto.
  Qed.

  Theorem start_ok junk : result (surface_zero zero own) (fst (surface_start zero junk own)) (snd (surface_start zero junk own)).
  Proof.
    exists 1, 0. unfold surface_start. cbn [fst snd]. constructor; cbn [surface_zero s_known s_value s_proj]; auto.
    - apply (winv_init owner own own_nodup).
    - rewrite map_length, combine_length, seq_length. lia.
    - discriminate.
    - intros r b o f Eb Eo Ef. rewrite nth_error_map, Eo in Eb. injection Eb as <-. rewrite nth_error_map, nth_error_combine_seq, Eo in Ef. injection Ef as <-.
      constructor; cbn [create_function f_dofs f_stage f_version fst snd bmi_create m_lin s_value s_proj]; auto; try discriminate.
      + clear. induction o as [|x o IH]; cbn [repeat map length]; [reflexivity|]. rewrite IH. reflexivity.
      + rewrite map_length, seq_length. lia.
  Qed.
End Surface.
