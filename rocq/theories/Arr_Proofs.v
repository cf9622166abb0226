(** Proofs: LocalArray and GlobalArray. *)
From Coq Require Import List Arith Bool Lia Permutation.
Import ListNotations.
From Verif Require Import Base Kernel World_Proofs Bmi_Spec Bmi4_Proofs Arr_Model Arr_Spec.

Lemma in_combine_seq {A} (l : list A) k j x : nth_error (combine (seq 0 (length l)) l) k = Some (j, x) -> j = k /\ nth_error l k = Some x.
Proof.
  intros E. enough (G : forall l s, nth_error (combine (seq s (length l)) l) k = Some (j, x) -> j = s + k /\ nth_error l k = Some x) by (apply (G l 0); exact E).
  clear. induction k as [|k IH]; intros [|y l] s E; cbn in E; try discriminate.
  - injection E as <- <-. split; [lia|reflexivity].
  - destruct (IH l (S s) E) as (-> & E'). split; [lia|exact E'].
Qed.
Lemma combine_seq_nth {A} (l : list A) k x : nth_error l k = Some x -> nth_error (combine (seq 0 (length l)) l) k = Some (k, x).
Proof.
  intros E. enough (G : forall l s, nth_error l k = Some x -> nth_error (combine (seq s (length l)) l) k = Some (s + k, x)) by (apply (G l 0 E)).
  clear. induction k as [|k IH]; intros [|y l] s E; cbn in *; try discriminate.
  - injection E as ->. rewrite Nat.add_0_r. reflexivity.
  - rewrite (IH l (S s) E). do 2 f_equal. lia.
Qed.
Lemma combine_seq_snd {A} (l : list A) s : map snd (combine (seq s (length l)) l) = l.
Proof. revert s. induction l as [|x l IH]; intros s; cbn; [reflexivity|]. rewrite IH. reflexivity. Qed.
Lemma nth_error_seq' n c : c < n -> nth_error (seq 0 n) c = Some c.
Proof. intros L. rewrite nth_error_seq. destruct (Nat.ltb_spec c n); [f_equal; lia|lia]. Qed.
Lemma upd_map_some {A B} (f : A -> B) l i x l' : upd l i x = Some l' -> upd (map f l) i (f x) = Some (map f l').
Proof.
  intros E. pose proof (upd_lt _ _ _ _ E) as L. destruct (upd_some (map f l) i (f x)) as (m & Em); [rewrite map_length; exact L|]. rewrite Em. f_equal. apply nth_error_ext. intros k.
  rewrite (upd_nth _ _ _ _ k Em), !nth_error_map, (upd_nth _ _ _ _ k E). destruct (k =? i); reflexivity.
Qed.
Lemma nth_app_last {A} (l : list A) x k y : nth_error (l ++ [x]) k = Some y -> nth_error l k = Some y \/ (k = length l /\ y = x).
Proof.
  intros E. destruct (Nat.lt_ge_cases k (length l)) as [L|L]; [left; rewrite nth_error_app1 in E by exact L; exact E|right].
  rewrite nth_error_app2 in E by exact L. destruct (k - length l) as [|m] eqn:Q; cbn in E; [injection E as <-; split; [lia|reflexivity]|destruct m; discriminate].
Qed.

Lemma mapM_index {A B} (f : nat * A -> option B) (R : nat -> A -> B -> Prop) (l : list A) :
  (forall r x, nth_error l r = Some x -> exists y, f (r, x) = Some y /\ R r x y) ->
  exists l', mapM f (combine (seq 0 (length l)) l) = Some l' /\ length l' = length l /\ forall r x, nth_error l r = Some x -> exists y, nth_error l' r = Some y /\ R r x y.
Proof.
  intros H. destruct (mapM_total f (combine (seq 0 (length l)) l)) as (l' & E).
  { intros (r, x) I. apply In_nth_error in I. destruct I as (k & Ek). apply in_combine_seq in Ek. destruct Ek as (-> & Ek). destruct (H k x Ek) as (y & Ey & _). eauto. }
  exists l'. split; [exact E|]. split; [rewrite (mapM_length _ _ _ E), combine_length, seq_length; lia|]. intros r x Ex. destruct (H r x Ex) as (y & Ey & Ry). exists y. split; [|exact Ry].
  rewrite <- (mapM_nth _ _ _ r _ E (combine_seq_nth _ _ _ Ex)). exact Ey.
Qed.

Section A.
  Context {V : Type} (add : V -> V -> V) (zero : V) (M : commutative_monoid add zero).
  Notation contributions := (@contributions V).
  Notation garray := (@garray V). Notation op := (@op V).
  Notation rank_arrays := (@rank_arrays V).
  Notation sum := (sum add zero).

  Lemma sum_app l l' : sum (l ++ l') = add (sum l) (sum l').
  Proof.
    induction l as [|x l IH]; cbn.
    - rewrite (add_comm _ _ M), (add_zero _ _ M). reflexivity.
    - unfold Bmi_Spec.sum in *. rewrite IH. apply (add_assoc _ _ M).
  Qed.
  Lemma sum_one x : sum [x] = x.
  Proof. cbn. apply (add_zero _ _ M). Qed.
  Lemma contributions_app args l l' t c : contributions args (l ++ l') t c = contributions args l t c ++ contributions args l' t c.
  Proof. apply flat_map_app. Qed.
  Lemma contributions_perm args l l' t c : Permutation l l' -> sum (contributions args l t c) = sum (contributions args l' t c).
  Proof. intros P. apply (sum_perm _ _ M). apply Permutation_flat_map, P. Qed.

  (** ** Starting the loop *)
  Definition adds (pre : list (nat * arg)) (id : nat) : Prop := In (AAdd (TG id)) (map snd pre).
  Definition staged (a a' : garray) : Prop :=
    ga_buf a' = ga_buf a /\ exists st, ga_stage a' = Some st /\ length (ga_buf a) <= length st /\ forall c, c < length (ga_buf a) -> nth_error st c = Some zero.
  Lemma fill_front_ok size buf : size <= length buf -> exists st, fill_front zero size buf = Some st /\ size <= length st /\ forall c, c < size -> nth_error st c = Some zero.
  Proof.
    intros L. unfold fill_front. rewrite (proj2 (Nat.leb_le _ _) L). cbn. eexists. split; [reflexivity|]. split; [rewrite app_length, repeat_length; lia|].
    intros c Hc. rewrite nth_error_app1 by (rewrite repeat_length; exact Hc). apply nth_error_repeat, Hc.
  Qed.
  Lemma realloc_len junk size (buf : list V) : size <= length (realloc_no_copy junk size buf).
  Proof. unfold realloc_no_copy. destruct (Nat.ltb_spec (length buf) size); [rewrite map_length, seq_length|]; lia. Qed.
  Lemma pre_ok junk pooled args (w : rank_arrays) : (forall id, In (AAdd (TG id)) args -> id < length (globals w)) -> (forall a, In a (globals w) -> ga_stage a = None) ->
    exists w', apply_pre_loop zero junk pooled args w = Some w' /\ locals w' = locals w /\ length (globals w') = length (globals w) /\
      forall id a, nth_error (globals w) id = Some a -> exists a', nth_error (globals w') id = Some a' /\
        (In (AAdd (TG id)) args /\ staged a a' \/ ~ In (AAdd (TG id)) args /\ a' = a).
  Proof.
    intros HI HN. unfold apply_pre_loop.
    destruct (foldM_ind (fun w ja => match snd ja with
        | AAdd (TG id) => a <- rd (globals w) id ;; a' <- impl_pre_loop_add zero junk (pooled (fst ja)) a ;;
                          gs <- upd (globals w) id a' ;; Some (RA gs (locals w))
        | _ => Some w end)
      (fun pre w' => locals w' = locals w /\ length (globals w') = length (globals w) /\
        forall id a, nth_error (globals w) id = Some a -> exists a', nth_error (globals w') id = Some a' /\
          (adds pre id /\ staged a a' \/ ~ adds pre id /\ a' = a)) (combine (seq 0 (length args)) args) w) as (w' & E & L & G & P).
    - split; [reflexivity|]. split; [reflexivity|]. intros id a Ea. exists a. split; [exact Ea|]. right. split; [intros []|reflexivity].
    - intros pre (j, x) post w1 EQ (L & G & P). cbn [snd fst].
      assert (SAME : forall id, (adds (pre ++ [(j, x)]) id <-> adds pre id \/ x = AAdd (TG id))).
      { intros id. unfold adds. rewrite map_app, in_app_iff. cbn. intuition. }
      assert (DONE : (forall id, x <> AAdd (TG id)) -> exists s', Some w1 = Some s' /\ locals s' = locals w /\ length (globals s') = length (globals w) /\
         forall id a, nth_error (globals w) id = Some a -> exists a', nth_error (globals s') id = Some a' /\ (adds (pre ++ [(j, x)]) id /\ staged a a' \/ ~ adds (pre ++ [(j, x)]) id /\ a' = a)).
      { intros N. exists w1. split; [reflexivity|]. split; [exact L|]. split; [exact G|]. intros id a Ea. destruct (P id a Ea) as (a' & Ea' & H). exists a'. split; [exact Ea'|].
        rewrite SAME. specialize (N id). intuition. }
      destruct x as [[id|id]|t]; [clear DONE|apply DONE; discriminate|apply DONE; discriminate].
      assert (Iid : id < length (globals w)).
      { apply HI. apply (f_equal (map snd)) in EQ. rewrite combine_seq_snd, map_app in EQ. rewrite EQ. apply in_or_app. right; left; reflexivity. }
      destruct (nth_error_lt_some _ _ Iid) as (a & Ea). destruct (P id a Ea) as (a1 & Ea1 & H1). unfold rd. rewrite Ea1. cbn [obind]. unfold impl_pre_loop_add.
      destruct (fill_front_ok (length (ga_buf a1)) (realloc_no_copy junk (length (ga_buf a1)) (pooled j)) (realloc_len _ _ _)) as (st & Est & Lst & Zst). rewrite Est. cbn [obind].
      destruct (upd_some (globals w1) id (GA (ga_buf a1) (Some st))) as (gs & Eg); [lia|]. rewrite Eg. cbn [obind]. eexists. split; [reflexivity|]. cbn [locals globals].
      split; [exact L|]. split; [rewrite (upd_length _ _ _ _ Eg); exact G|]. intros i b Eb. rewrite (upd_nth _ _ _ _ i Eg). pose proof (SAME i) as SI. destruct (Nat.eqb_spec i id) as [->|N].
      + assert (b = a) by congruence. subst b. eexists. split; [reflexivity|]. left. split; [apply SI; right; reflexivity|].
        assert (B : ga_buf a1 = ga_buf a) by (destruct H1 as [(_ & (B & _))|(_ & ->)]; [exact B|reflexivity]). split; [exact B|]. exists st. cbn [ga_stage]. rewrite <- B. auto.
      + destruct (P i b Eb) as (b' & Eb' & H). exists b'. split; [exact Eb'|]. assert (X : AAdd (TG id) <> AAdd (TG i)) by congruence. rewrite SI. intuition.
    - exists w'. split; [exact E|]. split; [exact L|]. split; [exact G|]. intros id a Ea. destruct (P id a Ea) as (a' & Ea' & H). exists a'. split; [exact Ea'|].
      unfold adds in H. rewrite combine_seq_snd in H. exact H.
  Qed.

  (** ** The kernels *)
  Definition garray_grown (f : nat -> list V) (a a' : garray) : Prop :=
    ga_buf a' = ga_buf a /\ match ga_stage a with
      | None => ga_stage a' = None
      | Some st => exists st', ga_stage a' = Some st' /\ length st' = length st /\ forall c v, nth_error st c = Some v -> nth_error st' c = Some (add v (sum (f c)))
      end.
  Definition rank_grown (args : list arg) (ops : list op) (w w' : rank_arrays) : Prop :=
    grown add zero (fun id c => contributions args ops (TL id) c) (locals w) (locals w') /\
    length (globals w') = length (globals w) /\
    forall id a, nth_error (globals w) id = Some a -> exists a', nth_error (globals w') id = Some a' /\ garray_grown (fun c => contributions args ops (TG id) c) a a'.
  Definition result_of (args : list arg) (w : rank_arrays) (before : list op) (o : op) : option V -> Prop := fun res =>
    match o with
    | ORead j c => exists t a v, nth_error args j = Some (ARead t) /\
        (match t with TG id => nth_error (map ga_buf (globals w)) id | TL id => nth_error (locals w) id end) = Some a /\ nth_error a c = Some v /\ res = Some v
    | OAdd j c _ => match nth_error args j with
        | Some (AAdd (TL id)) => exists a v, nth_error (locals w) id = Some a /\ nth_error a c = Some v /\
            res = Some (add v (sum (contributions args before (TL id) c)))
        | _ => res = None end
    end.
  (** A kernel may do this: the operation is allowed, and where it adds to a global array there is a stage buffer. *)
  Definition ready (args : list arg) (w : rank_arrays) (o : op) : Prop :=
    op_allowed args (map ga_buf (globals w)) (locals w) o /\
    forall j c v id a, o = OAdd j c v -> nth_error args j = Some (AAdd (TG id)) -> nth_error (globals w) id = Some a -> exists st, ga_stage a = Some st /\ length (ga_buf a) <= length st.

  Lemma target_eqb_refl t : target_eqb t t = true.
  Proof. destruct t; cbn; apply Nat.eqb_refl. Qed.
  Lemma target_eqb_eq t t' : target_eqb t t' = true -> t = t'.
  Proof. destruct t, t'; cbn; try discriminate; intros E; apply Nat.eqb_eq in E; congruence. Qed.
  Lemma contributions_one args j c v t c' x : nth_error args j = Some (AAdd x) -> contributions args [OAdd j c v] t c' = if target_eqb x t && (c =? c') then [v] else [].
  Proof. intros E. unfold Arr_Spec.contributions. cbn. rewrite E, app_nil_r. reflexivity. Qed.
  Lemma contributions_other args o t c : (forall j c' v, o <> OAdd j c' v) -> contributions args [o] t c = [].
  Proof. destruct o; intros N; [exfalso; eapply N; reflexivity|reflexivity]. Qed.
  Lemma contributions_nil args ops t c : ~ In (AAdd t) args -> contributions args ops t c = [].
  Proof.
    intros N. induction ops as [|o ops IH]; [reflexivity|]. unfold Arr_Spec.contributions in *. cbn [flat_map]. rewrite IH, app_nil_r. destruct o as [j c' v|]; [|reflexivity].
    destruct (nth_error args j) as [[t'|]|] eqn:E; try reflexivity. destruct (target_eqb t' t) eqn:T; [|reflexivity]. apply target_eqb_eq in T. subst t'. destruct N. eapply nth_error_In; eauto.
  Qed.
  Lemma grown_snoc (f g : nat -> nat -> list V) A A1 A2 : (forall id c, f id c ++ g id c = f id c ++ g id c) -> grown add zero f A A1 -> grown add zero g A1 A2 -> grown add zero (fun id c => f id c ++ g id c) A A2.
  Proof.
    intros _ (L & H) (L' & H'). split; [congruence|]. intros id a Ea. destruct (H id a Ea) as (a1 & E1 & La & Ha). destruct (H' id a1 E1) as (a2 & E2 & La2 & Ha2).
    exists a2. split; [exact E2|]. split; [congruence|]. intros c v Ec. rewrite (Ha2 c _ (Ha c v Ec)). f_equal. rewrite sum_app, (add_assoc _ _ M). reflexivity.
  Qed.
  Lemma grown_none (f : nat -> nat -> list V) A : (forall id c, f id c = []) -> grown add zero f A A.
  Proof. intros N. split; [reflexivity|]. intros id a Ea. exists a. split; [exact Ea|]. split; [reflexivity|]. intros c v Ec. rewrite N. cbn. rewrite (add_zero _ _ M). exact Ec. Qed.
  Lemma ggrown_none f a : (forall c, f c = []) -> garray_grown f a a.
  Proof. intros N. split; [reflexivity|]. destruct (ga_stage a) as [st|]; [|reflexivity]. exists st. split; [reflexivity|]. split; [reflexivity|]. intros c v E. rewrite N. cbn. rewrite (add_zero _ _ M). exact E. Qed.
  Lemma ggrown_trans f g a a1 a2 : garray_grown f a a1 -> garray_grown g a1 a2 -> garray_grown (fun c => f c ++ g c) a a2.
  Proof.
    intros (B & H) (B' & H'). split; [congruence|]. destruct (ga_stage a) as [st|].
    - destruct H as (st1 & E1 & L1 & K1). rewrite E1 in H'. destruct H' as (st2 & E2 & L2 & K2). exists st2. split; [exact E2|]. split; [congruence|].
      intros c v Ec. rewrite (K2 c _ (K1 c v Ec)). f_equal. rewrite sum_app, (add_assoc _ _ M). reflexivity.
    - rewrite H in H'. exact H'.
  Qed.
  Lemma rank_grown_trans args ops ops' w w1 w2 : rank_grown args ops w w1 -> rank_grown args ops' w1 w2 -> rank_grown args (ops ++ ops') w w2.
  Proof.
    intros (L & G & H) (L' & G' & H'). split; [|split; [congruence|]].
    - pose proof (grown_snoc _ _ _ _ _ (fun _ _ => eq_refl) L L') as X. destruct X as (X1 & X2). split; [exact X1|]. intros id a Ea. destruct (X2 id a Ea) as (a' & E' & La & K). exists a'. split; [exact E'|]. split; [exact La|].
      intros c v Ec. rewrite contributions_app. apply K, Ec.
    - intros id a Ea. destruct (H id a Ea) as (a1 & E1 & K1). destruct (H' id a1 E1) as (a2 & E2 & K2). exists a2. split; [exact E2|].
      pose proof (ggrown_trans _ _ _ _ _ K1 K2) as (X1 & X2). split; [exact X1|]. destruct (ga_stage a); [|exact X2]. destruct X2 as (st' & Y1 & Y2 & Y3). exists st'. split; [exact Y1|]. split; [exact Y2|].
      intros c v Ec. rewrite contributions_app. apply Y3, Ec.
  Qed.

  (** One operation, on a state with the same sizes. *)
  Lemma do_op_ok args w o : ready args w o ->
    exists w' res, do_op add args w o = Some (w', res) /\ rank_grown args [o] w w' /\ result_of args w [] o res.
  Proof.
    intros (AL & RD). destruct o as [j c v|j c]; cbn [op_allowed] in AL; destruct AL as (t & a & Ej & Ea & Lc); unfold do_op, rd; rewrite Ej; cbn [obind].
    - destruct t as [id|id].
      + rewrite nth_error_map in Ea. destruct (nth_error (globals w) id) as [ga|] eqn:Eg; [|discriminate]. cbn in Ea. injection Ea as <-. cbn [obind].
        destruct (RD j c v id ga eq_refl Ej Eg) as (st & Est & Lst). rewrite Est. cbn [obind].
        destruct (nth_error_lt_some st c) as (old & Eo); [lia|]. rewrite Eo. cbn [obind]. destruct (upd_some st c (add old v)) as (st' & Es); [lia|]. rewrite Es. cbn [obind].
        destruct (upd_some (globals w) id (GA (ga_buf ga) (Some st'))) as (gs & Eu); [eapply nth_error_some_lt; eauto|]. rewrite Eu. cbn [obind]. eexists _, _. split; [reflexivity|]. split.
        * split; [|split].
          -- apply grown_none. intros i c'. rewrite (contributions_one _ _ _ _ _ _ _ Ej). reflexivity.
          -- cbn. apply (upd_length _ _ _ _ Eu).
          -- cbn [globals]. intros i b Eb. rewrite (upd_nth _ _ _ _ i Eu). destruct (Nat.eqb_spec i id) as [->|N].
             ++ assert (b = ga) by congruence. subst b. eexists. split; [reflexivity|]. split; [reflexivity|]. rewrite Est. exists st'. split; [reflexivity|]. split; [apply (upd_length _ _ _ _ Es)|].
                intros c' x Ex. rewrite (upd_nth _ _ _ _ c' Es), (contributions_one _ _ _ _ _ _ _ Ej), target_eqb_refl. cbn [andb]. rewrite (Nat.eqb_sym c c'). destruct (Nat.eqb_spec c' c) as [->|N].
                ** rewrite sum_one. congruence.
                ** cbn. rewrite (add_zero _ _ M). exact Ex.
             ++ exists b. split; [exact Eb|]. apply ggrown_none. intros c'. rewrite (contributions_one _ _ _ _ _ _ _ Ej). cbn. destruct (Nat.eqb_spec id i); [congruence|reflexivity].
        * cbn [result_of]. rewrite Ej. reflexivity.
      + rewrite Ea. cbn [obind]. destruct (nth_error_lt_some a c Lc) as (old & Eo). rewrite Eo. cbn [obind]. destruct (upd_some a c (add old v) Lc) as (a' & Es). rewrite Es. cbn [obind].
        destruct (upd_some (locals w) id a') as (ls & Eu); [eapply nth_error_some_lt; eauto|]. rewrite Eu. cbn [obind]. eexists _, _. split; [reflexivity|]. split.
        * split; [|split; [reflexivity|]].
          -- cbn [locals]. split; [apply (upd_length _ _ _ _ Eu)|]. intros i b Eb. rewrite (upd_nth _ _ _ _ i Eu). destruct (Nat.eqb_spec i id) as [->|N].
             ++ assert (b = a) by congruence. subst b. exists a'. split; [reflexivity|]. split; [apply (upd_length _ _ _ _ Es)|]. intros c' x Ex.
                rewrite (upd_nth _ _ _ _ c' Es), (contributions_one _ _ _ _ _ _ _ Ej), target_eqb_refl. cbn [andb]. rewrite (Nat.eqb_sym c c'). destruct (Nat.eqb_spec c' c) as [->|N].
                ** rewrite sum_one. congruence.
                ** cbn. rewrite (add_zero _ _ M). exact Ex.
             ++ exists b. split; [exact Eb|]. split; [reflexivity|]. intros c' x Ex. rewrite (contributions_one _ _ _ _ _ _ _ Ej). cbn. destruct (Nat.eqb_spec id i); [congruence|]. cbn. rewrite (add_zero _ _ M). exact Ex.
          -- cbn [globals]. intros i b Eb. exists b. split; [exact Eb|]. apply ggrown_none. intros c'. rewrite (contributions_one _ _ _ _ _ _ _ Ej). reflexivity.
        * cbn [result_of]. rewrite Ej. exists a, old. split; [exact Ea|]. split; [exact Eo|]. cbn. rewrite (add_zero _ _ M). reflexivity.
    - assert (RG : rank_grown args [ORead j c] w w).
      { split; [apply grown_none; reflexivity|]. split; [reflexivity|]. intros i b Eb. exists b. split; [exact Eb|]. apply ggrown_none. reflexivity. }
      destruct (nth_error_lt_some a c Lc) as (v & Ev). destruct t as [id|id].
      + pose proof Ea as Ea'. rewrite nth_error_map in Ea. destruct (nth_error (globals w) id) as [ga|] eqn:Eg; [|discriminate]. cbn in Ea. injection Ea as <-. cbn [obind]. rewrite Ev. cbn [obind].
        eexists _, _. split; [reflexivity|]. split; [exact RG|]. exists (TG id), (ga_buf ga), v. auto.
      + rewrite Ea. cbn [obind]. rewrite Ev. cbn [obind]. eexists _, _. split; [reflexivity|]. split; [exact RG|]. exists (TL id), a, v. auto.
  Qed.

  Lemma rank_grown_refl args w : rank_grown args [] w w.
  Proof. split; [apply grown_none; reflexivity|]. split; [reflexivity|]. intros i b Eb. exists b. split; [exact Eb|]. apply ggrown_none. reflexivity. Qed.
  Lemma ggrown_size f a a' : garray_grown f a a' -> ga_buf a' = ga_buf a /\ (forall st, ga_stage a = Some st -> exists st', ga_stage a' = Some st' /\ length st' = length st).
  Proof. intros (B & H). split; [exact B|]. intros st E. rewrite E in H. destruct H as (st' & E' & L & _). eauto. Qed.
  Lemma ready_grown args ops w w' o : rank_grown args ops w w' -> ready args w o -> ready args w' o.
  Proof.
    intros ((LL & L) & GL & G) (AL & RD).
    assert (GB : map ga_buf (globals w') = map ga_buf (globals w)).
    { apply nth_error_ext. intros id. rewrite !nth_error_map. destruct (nth_error (globals w) id) as [a|] eqn:Ea.
      - destruct (G id a Ea) as (a' & Ea' & B & _). rewrite Ea'. cbn. congruence.
      - apply nth_error_None in Ea. rewrite (proj2 (nth_error_None (globals w') id)) by lia. reflexivity. }
    split.
    - assert (X : forall t a c, (match t with TG id => nth_error (map ga_buf (globals w)) id | TL id => nth_error (locals w) id end) = Some a -> c < length a ->
        exists a', (match t with TG id => nth_error (map ga_buf (globals w')) id | TL id => nth_error (locals w') id end) = Some a' /\ c < length a').
      { intros [id|id] a c Ea Lc; [rewrite GB; eauto|]. destruct (L id a Ea) as (a' & Ea' & La & _). exists a'. split; [exact Ea'|lia]. }
      destruct o as [j c v|j c]; cbn [op_allowed] in *; destruct AL as (t & a & Ej & Ea & Lc); destruct (X t a c Ea Lc) as (a' & Ea' & Lc'); exists t, a'; auto.
    - intros j c v id a' Eo Ej Ea'. destruct (nth_error (globals w) id) as [a|] eqn:Ea.
      + destruct (G id a Ea) as (a2 & Ea2 & GG). assert (a2 = a') by congruence. subst a2. destruct (RD j c v id a Eo Ej Ea) as (st & Est & Lst).
        destruct (ggrown_size _ _ _ GG) as (B & S). destruct (S st Est) as (st' & Est' & L'). exists st'. split; [exact Est'|]. rewrite B, L'. exact Lst.
      + apply nth_error_None in Ea. pose proof (nth_error_some_lt _ _ _ Ea'). lia.
  Qed.

  (** All the kernels of a rank. *)
  Lemma run_ok args w sched : (forall i o, In (i, o) sched -> ready args w o) -> (forall id, In (AAdd (TL id)) args -> ~ In (ARead (TL id)) args) ->
    exists w' log, run_kernels add args w sched = Some (w', log) /\ rank_grown args (map snd sched) w w' /\ length log = length sched /\
      forall k i o, nth_error sched k = Some (i, o) -> exists res, nth_error log k = Some (i, res) /\ result_of args w (map snd (firstn k sched)) o res.
  Proof.
    intros RD NR. unfold run_kernels.
    destruct (foldM_ind (fun s io => r <- do_op add args (fst s) (snd io) ;; Some (fst r, snd s ++ [(fst io, snd r)]))
      (fun pre s => rank_grown args (map snd pre) w (fst s) /\ length (snd s) = length pre /\
        forall k i o, nth_error pre k = Some (i, o) -> exists res, nth_error (snd s) k = Some (i, res) /\ result_of args w (map snd (firstn k pre)) o res) sched (w, [])) as ((w', log) & E & G & L & P).
    - cbn. split; [apply rank_grown_refl|]. split; [reflexivity|]. intros k i o E. destruct k; discriminate.
    - intros pre (i, o) post (w1, log) EQ (G & L & P). cbn [fst snd] in *.
      assert (R0 : ready args w o) by (apply (RD i); rewrite EQ; apply in_or_app; right; left; reflexivity).
      destruct (do_op_ok args w1 o (ready_grown _ _ _ _ _ G R0)) as (w2 & res & E2 & G2 & Res). rewrite E2. cbn [obind fst snd]. eexists. split; [reflexivity|]. cbn [fst snd].
      split; [rewrite map_app; eapply rank_grown_trans; eassumption|]. split; [rewrite !app_length; cbn; lia|]. intros k i' o' Ek. apply nth_app_last in Ek. destruct Ek as [Ek|(-> & Ek)].
      + destruct (P k i' o' Ek) as (res' & E' & R'). pose proof (nth_error_some_lt _ _ _ Ek) as Lk. exists res'. split; [rewrite nth_error_app1 by lia; exact E'|]. rewrite firstn_app. replace (k - length pre) with 0 by lia. rewrite firstn_O, app_nil_r. exact R'.
      + injection Ek as -> ->. exists res. split; [rewrite <- L, nth_error_app2, Nat.sub_diag by lia; reflexivity|]. rewrite firstn_app, Nat.sub_diag, firstn_O, app_nil_r, firstn_all.
        destruct G as ((GL & GG) & _ & GB). destruct o as [j c v|j c]; cbn [result_of] in *.
        * destruct (nth_error args j) as [[[id|id]|t]|] eqn:Ej; try exact Res. destruct Res as (a1 & x1 & Ea1 & Ex1 & ->).
          destruct (nth_error (locals w) id) as [a|] eqn:Ea; [|apply nth_error_None in Ea; pose proof (nth_error_some_lt _ _ _ Ea1); lia].
          destruct (GG id a Ea) as (a2 & Ea2 & La & Ha). assert (a2 = a1) by congruence. subst a2. destruct (nth_error_lt_some a c) as (x & Ex); [rewrite <- La; eapply nth_error_some_lt; eauto|].
          exists a, x. split; [reflexivity|]. split; [exact Ex|]. pose proof (Ha c x Ex) as Hx. assert (x1 = add x (sum (contributions args (map snd pre) (TL id) c))) by congruence. subst x1.
          cbn. rewrite (add_zero _ _ M). reflexivity.
        * destruct Res as (t & a1 & x1 & Ej & Ea1 & Ex1 & ->). exists t. destruct t as [id|id].
          -- rewrite nth_error_map in Ea1. destruct (nth_error (globals w1) id) as [g1|] eqn:Eg1; [|discriminate]. cbn in Ea1. injection Ea1 as <-.
             destruct (nth_error (globals w) id) as [g|] eqn:Eg.
             ++ destruct (GB id g Eg) as (g2 & Eg2 & B & _). assert (g2 = g1) by congruence. subst g2. exists (ga_buf g), x1. split; [exact Ej|]. rewrite nth_error_map, Eg. cbn. rewrite <- B. auto.
             ++ destruct R0 as ((t & a & Ej' & Ea & _) & _). rewrite Ej in Ej'. injection Ej' as <-. rewrite nth_error_map, Eg in Ea. discriminate.
          -- destruct R0 as ((t & a & Ej' & Ea & Lc) & _). rewrite Ej in Ej'. injection Ej' as <-. destruct (GG id a Ea) as (a2 & Ea2 & La & Ha). assert (a2 = a1) by congruence. subst a2.
             destruct (nth_error_lt_some a c Lc) as (x & Ex). exists a, x. split; [exact Ej|]. split; [exact Ea|]. split; [exact Ex|].
             rewrite (Ha c x Ex) in Ex1. injection Ex1 as <-. rewrite contributions_nil; [cbn; rewrite (add_zero _ _ M); reflexivity|].
             intros Hadd. apply (NR id Hadd). eapply nth_error_In; eauto.
    - exists w', log. split; [exact E|]. auto.
  Qed.

  (** ** The sum over the ranks *)
  Lemma post_ok (e : env) j id n T w : env_ok e ->
    (forall r x, nth_error w r = Some x -> exists a st, nth_error (globals x) id = Some a /\ length (ga_buf a) = n /\ ga_stage a = Some st /\ forall c, c < n -> nth_error st c = Some (T r c)) ->
    exists w', impl_post_loop_add add zero e j id w = Some w' /\ length w' = length w /\
      forall r x, nth_error w r = Some x -> exists x', nth_error w' r = Some x' /\ locals x' = locals x /\ length (globals x') = length (globals x) /\
        forall i a, nth_error (globals x) i = Some a -> exists a', nth_error (globals x') i = Some a' /\
          if i =? id then ga_stage a' = None /\ length (ga_buf a') = length (ga_buf a) /\
            forall c v, nth_error (ga_buf a) c = Some v -> nth_error (ga_buf a') c = Some (add v (sum (map (fun q => T q c) (seq 0 (length w)))))
          else a' = a.
  Proof.
    intros (_ & HR) H. unfold impl_post_loop_add.
    destruct (mapM_total (fun x => a <- rd (globals x) id ;; ga_stage a) w) as (stages & Es).
    { intros x I. apply In_nth_error in I. destruct I as (r & Er). destruct (H r x Er) as (a & st & Ea & _ & Est & _). unfold rd. rewrite Ea. cbn. eauto. }
    rewrite Es. cbn [obind]. pose proof (mapM_length _ _ _ Es) as Ls.
    assert (ST : forall r st, nth_error stages r = Some st -> forall c, c < n -> nth_error st c = Some (T r c)).
    { intros r st E c Lc. destruct (nth_error_lt_some w r) as (x & Ex); [rewrite <- Ls; eapply nth_error_some_lt; eauto|]. destruct (H r x Ex) as (a & st' & Ea & _ & Est & K).
      pose proof (mapM_nth _ _ _ _ _ Es Ex) as Q. unfold rd in Q. rewrite Ea in Q. cbn in Q. rewrite Est, E in Q. injection Q as ->. apply K, Lc. }
    assert (COL : forall c, c < n -> mapM (fun stage => rd stage c) stages = Some (map (fun q => T q c) (seq 0 (length w)))).
    { intros c Lc. rewrite (mapM_nth_seq _ (fun q => Some (T q c))); [|intros k st E; apply (ST k st E c Lc)]. rewrite Ls. apply mapM_some. reflexivity. }
    apply (mapM_index _ (fun _ x x' => locals x' = locals x /\ length (globals x') = length (globals x) /\
        forall i a, nth_error (globals x) i = Some a -> exists a', nth_error (globals x') i = Some a' /\
          if i =? id then ga_stage a' = None /\ length (ga_buf a') = length (ga_buf a) /\
            forall c v, nth_error (ga_buf a) c = Some v -> nth_error (ga_buf a') c = Some (add v (sum (map (fun q => T q c) (seq 0 (length w)))))
          else a' = a)).
    intros r x Ex. cbn [fst snd]. destruct (H r x Ex) as (a & st & Ea & La & Est & K). unfold rd at 1. rewrite Ea. cbn [obind]. rewrite La.
    destruct (fill_front_ok n (realloc_no_copy (e_junk e r) n (e_acc e r j)) (realloc_len _ _ _)) as (acc & Eacc & Lacc & _). rewrite Eacc. cbn [obind].
    rewrite (mapM_some _ (fun c => sum (map (fun q => T q c) (seq 0 (length w))))).
    2:{ intros c I. apply in_seq in I. rewrite COL by lia. cbn [obind]. f_equal. apply (sum_perm _ _ M), HR. }
    cbn [obind].
    destruct (mapM_total (fun c => d <- rd (ga_buf a) c ;; s <- rd (map (fun c => sum (map (fun q => T q c) (seq 0 (length w)))) (seq 0 n) ++ skipn n acc) c ;; Some (add d s)) (seq 0 n)) as (buf & Eb).
    { intros c I. apply in_seq in I. unfold rd. destruct (nth_error_lt_some (ga_buf a) c) as (d & Ed); [lia|]. rewrite Ed. cbn [obind].
      rewrite nth_error_app1 by (rewrite map_length, seq_length; lia). rewrite nth_error_map, nth_error_seq' by lia. cbn. eauto. }
    rewrite Eb. cbn [obind]. pose proof (mapM_length _ _ _ Eb) as Lb. rewrite seq_length in Lb.
    destruct (upd_some (globals x) id (GA buf None)) as (gs & Eu); [eapply nth_error_some_lt; eauto|]. rewrite Eu. cbn [obind]. eexists. split; [reflexivity|]. cbn [locals globals].
    split; [reflexivity|]. split; [apply (upd_length _ _ _ _ Eu)|]. intros i b Ei. rewrite (upd_nth _ _ _ _ i Eu). destruct (Nat.eqb_spec i id) as [->|N]; [|eauto].
    assert (b = a) by congruence. subst b. eexists. split; [reflexivity|]. cbn [ga_stage ga_buf]. split; [reflexivity|]. split; [lia|]. intros c v Ev.
    pose proof (nth_error_some_lt _ _ _ Ev) as Lc. rewrite La in Lc. rewrite <- (mapM_nth _ _ _ c c Eb) by (apply nth_error_seq'; exact Lc). unfold rd. rewrite Ev. cbn [obind].
    rewrite nth_error_app1 by (rewrite map_length, seq_length; lia). rewrite nth_error_map, nth_error_seq' by lia. reflexivity.
  Qed.

  (** The state between submit and wait, [T r id c]: the sum of the contributions of rank [r]. *)
  Lemma wait_ok (e : env) args T w n : env_ok e ->
    (forall i j id, nth_error args i = Some (AAdd (TG id)) -> nth_error args j = Some (AAdd (TG id)) -> i = j) ->
    (forall r x id, nth_error w r = Some x -> In (AAdd (TG id)) args ->
       exists a st, nth_error (globals x) id = Some a /\ length (ga_buf a) = n id /\ ga_stage a = Some st /\ forall c, c < n id -> nth_error st c = Some (T r id c)) ->
    exists w', wait add zero e args w = Some w' /\ length w' = length w /\
      forall r x, nth_error w r = Some x -> exists x', nth_error w' r = Some x' /\ locals x' = locals x /\ length (globals x') = length (globals x) /\
        forall id a, nth_error (globals x) id = Some a -> exists a', nth_error (globals x') id = Some a' /\
          (In (AAdd (TG id)) args /\ ga_stage a' = None /\ length (ga_buf a') = length (ga_buf a) /\
            (forall c v, nth_error (ga_buf a) c = Some v -> nth_error (ga_buf a') c = Some (add v (sum (map (fun q => T q id c) (seq 0 (length w)))))) \/
           ~ In (AAdd (TG id)) args /\ a' = a).
  Proof.
    intros HE HU H. unfold wait.
    destruct (foldM_ind (fun w ja => match snd ja with AAdd (TG id) => impl_post_loop_add add zero e (fst ja) id w | _ => Some w end)
      (fun pre w' => length w' = length w /\ forall r x, nth_error w r = Some x -> exists x', nth_error w' r = Some x' /\ locals x' = locals x /\ length (globals x') = length (globals x) /\
        forall id a, nth_error (globals x) id = Some a -> exists a', nth_error (globals x') id = Some a' /\
          (adds pre id /\ ga_stage a' = None /\ length (ga_buf a') = length (ga_buf a) /\
            (forall c v, nth_error (ga_buf a) c = Some v -> nth_error (ga_buf a') c = Some (add v (sum (map (fun q => T q id c) (seq 0 (length w)))))) \/
           ~ adds pre id /\ a' = a)) (combine (seq 0 (length args)) args) w) as (w' & E & L & P).
    - split; [reflexivity|]. intros r x Ex. exists x. split; [exact Ex|]. split; [reflexivity|]. split; [reflexivity|]. intros id a Ea. exists a. split; [exact Ea|]. right. split; [intros []|reflexivity].
    - intros pre (j, y) post w1 EQ (L & P). cbn [snd fst].
      assert (SAME : forall id, (adds (pre ++ [(j, y)]) id <-> adds pre id \/ y = AAdd (TG id))).
      { intros id. unfold adds. rewrite map_app, in_app_iff. cbn. intuition. }
      assert (DONE : (forall id, y <> AAdd (TG id)) -> exists s', Some w1 = Some s' /\ length s' = length w /\ forall r x, nth_error w r = Some x -> exists x', nth_error s' r = Some x' /\ locals x' = locals x /\ length (globals x') = length (globals x) /\
         forall id a, nth_error (globals x) id = Some a -> exists a', nth_error (globals x') id = Some a' /\
          (adds (pre ++ [(j, y)]) id /\ ga_stage a' = None /\ length (ga_buf a') = length (ga_buf a) /\
            (forall c v, nth_error (ga_buf a) c = Some v -> nth_error (ga_buf a') c = Some (add v (sum (map (fun q => T q id c) (seq 0 (length w)))))) \/
           ~ adds (pre ++ [(j, y)]) id /\ a' = a)).
      { intros N. exists w1. split; [reflexivity|]. split; [exact L|]. intros r x Ex. destruct (P r x Ex) as (x' & Ex' & P1 & P2 & P3). exists x'. split; [exact Ex'|]. split; [exact P1|]. split; [exact P2|].
        intros id a Ea. destruct (P3 id a Ea) as (a' & Ea' & K). exists a'. split; [exact Ea'|]. rewrite !SAME. specialize (N id). intuition. }
      destruct y as [[id|id]|t]; [clear DONE|apply DONE; discriminate|apply DONE; discriminate].
      assert (Iid : In (AAdd (TG id)) args).
      { apply (f_equal (map snd)) in EQ. rewrite combine_seq_snd, map_app in EQ. rewrite EQ. apply in_or_app. right; left; reflexivity. }
      assert (NEW : ~ adds pre id).
      { intros I. apply in_map_iff in I. destruct I as ((j', y) & Ey & I). cbn in Ey. subst y. apply In_nth_error in I. destruct I as (k & Ek).
        assert (E1 : nth_error (combine (seq 0 (length args)) args) k = Some (j', AAdd (TG id))) by (rewrite EQ, nth_error_app1 by (eapply nth_error_some_lt; eauto); exact Ek).
        assert (E2 : nth_error (combine (seq 0 (length args)) args) (length pre) = Some (j, AAdd (TG id))) by (rewrite EQ, nth_error_app2, Nat.sub_diag by lia; reflexivity).
        apply in_combine_seq in E1, E2. destruct E1 as (_ & E1), E2 as (_ & E2). pose proof (HU _ _ _ E1 E2). pose proof (nth_error_some_lt _ _ _ Ek). lia. }
      destruct (post_ok e j id (n id) (fun r c => T r id c) w1 HE) as (w2 & E2 & L2 & P2).
      { intros r x1 Ex1. destruct (nth_error_lt_some w r) as (x & Ex); [rewrite <- L; eapply nth_error_some_lt; eauto|]. destruct (P r x Ex) as (x1' & Ex1' & _ & _ & P3). assert (x1' = x1) by congruence. subst x1'.
        destruct (H r x id Ex Iid) as (a & st & Ea & K). destruct (P3 id a Ea) as (a' & Ea' & [(B & _)|(_ & ->)]); [destruct (NEW B)|]. exists a, st. auto. }
      rewrite E2. exists w2. split; [reflexivity|]. split; [congruence|]. intros r x Ex. destruct (P r x Ex) as (x1 & Ex1 & Q1 & Q2 & Q3). destruct (P2 r x1 Ex1) as (x2 & Ex2 & R1 & R2 & R3).
      exists x2. split; [exact Ex2|]. split; [congruence|]. split; [congruence|]. intros i a Ea. destruct (Q3 i a Ea) as (a1 & Ea1 & K1). destruct (R3 i a1 Ea1) as (a2 & Ea2 & K2). exists a2. split; [exact Ea2|].
      rewrite L in K2. destruct (Nat.eqb_spec i id) as [->|N].
      + destruct K1 as [(B & _)|(_ & ->)]; [destruct (NEW B)|]. left. destruct K2 as (K2 & K3 & K4). split; [apply SAME; right; reflexivity|]. auto.
      + subst a2. rewrite !SAME. assert (X : AAdd (TG id) <> AAdd (TG i)) by congruence. intuition.
    - exists w'. split; [exact E|]. split; [exact L|]. intros r x Ex. destruct (P r x Ex) as (x' & Ex' & P1 & P2 & P3). exists x'. split; [exact Ex'|]. split; [exact P1|]. split; [exact P2|].
      intros id a Ea. destruct (P3 id a Ea) as (a' & Ea' & K). exists a'. split; [exact Ea'|]. unfold adds in K. rewrite combine_seq_snd in K. exact K.
  Qed.

  (** ** A whole loop *)
  Lemma view_nth (w : list rank_arrays) r x : nth_error w r = Some x -> nth_error (view w) r = Some (map ga_buf (globals x), locals x).
  Proof. intros E. unfold view. rewrite nth_error_map, E. reflexivity. Qed.
  Lemma view_inv (w : list rank_arrays) r G L : nth_error (view w) r = Some (G, L) -> exists x, nth_error w r = Some x /\ G = map ga_buf (globals x) /\ L = locals x.
  Proof. unfold view. rewrite nth_error_map. destruct (nth_error w r) as [x|]; cbn; [|discriminate]. intros E. injection E as <- <-. eauto. Qed.
  Lemma sum_flat {A} (f : A -> list V) l : sum (flat_map f l) = sum (map (fun a => sum (f a)) l).
  Proof. induction l as [|a l IH]; [reflexivity|]. cbn [flat_map map]. rewrite sum_app, IH. reflexivity. Qed.

  Lemma execute_ok (e : env) args ops w : env_ok e -> idle w -> same_sizes (view w) -> allowed (view w) (ELoop args ops) ->
    exists w' logs, execute add zero e args ops w = Some (w', logs) /\ idle w' /\ effect_of add zero (ELoop args ops) (view w) (view w') logs.
  Proof.
    intros HE HI HS (HA & HU & HR). unfold execute.
    assert (SUB : exists s, submit add zero e args ops w = Some s /\ length s = length w /\ forall r x, nth_error w r = Some x -> exists y, nth_error s r = Some y /\
      (locals (fst y) = locals (fst y) /\ grown add zero (fun id c => contributions args (ops r) (TL id) c) (locals x) (locals (fst y)) /\
       length (globals (fst y)) = length (globals x) /\
       (forall id a, nth_error (globals x) id = Some a -> exists a', nth_error (globals (fst y)) id = Some a' /\ ga_buf a' = ga_buf a /\
          (In (AAdd (TG id)) args /\ (exists st, ga_stage a' = Some st /\ forall c, c < length (ga_buf a) -> nth_error st c = Some (sum (contributions args (ops r) (TG id) c))) \/
           ~ In (AAdd (TG id)) args /\ ga_stage a' = None)) /\
       results add zero args (ops r) (map ga_buf (globals x)) (locals x) (snd y))).
    { apply (mapM_index _ (fun r x y => locals (fst y) = locals (fst y) /\ grown add zero (fun id c => contributions args (ops r) (TL id) c) (locals x) (locals (fst y)) /\
       length (globals (fst y)) = length (globals x) /\
       (forall id a, nth_error (globals x) id = Some a -> exists a', nth_error (globals (fst y)) id = Some a' /\ ga_buf a' = ga_buf a /\
          (In (AAdd (TG id)) args /\ (exists st, ga_stage a' = Some st /\ forall c, c < length (ga_buf a) -> nth_error st c = Some (sum (contributions args (ops r) (TG id) c))) \/
           ~ In (AAdd (TG id)) args /\ ga_stage a' = None)) /\
       results add zero args (ops r) (map ga_buf (globals x)) (locals x) (snd y))).
      intros r x Ex. cbn [fst snd]. destruct (HA r _ _ (view_nth _ _ _ Ex)) as (HG & HO). rewrite map_length in HG.
      assert (NX : forall a, In a (globals x) -> ga_stage a = None) by (intros a I; apply (HI x a); [eapply nth_error_In; eauto|exact I]).
      destruct (pre_ok (e_junk e r) (e_pooled e r) args x HG NX) as (x1 & E1 & L1 & G1 & K1). rewrite E1. cbn [obind].
      set (sched := e_order e r (combine (seq 0 (length (ops r))) (ops r))).
      assert (PS : Permutation sched (combine (seq 0 (length (ops r))) (ops r))) by apply HE.
      assert (GB : map ga_buf (globals x1) = map ga_buf (globals x)).
      { apply nth_error_ext. intros id. rewrite !nth_error_map. destruct (nth_error (globals x) id) as [a|] eqn:Ea.
        - destruct (K1 id a Ea) as (a' & Ea' & [(_ & B & _)|(_ & ->)]); rewrite Ea'; cbn; congruence.
        - apply nth_error_None in Ea. rewrite (proj2 (nth_error_None (globals x1) id)) by lia. reflexivity. }
      destruct (run_ok args x1 sched) as (x2 & log & E2 & G2 & Ll & Lg).
      { intros i o I. apply (Permutation_in _ PS) in I. apply in_combine_r in I. split; [rewrite GB, L1; apply HO, I|].
        intros j c v id a1 Eo Ej Ea1. destruct (nth_error (globals x) id) as [a|] eqn:Ea; [|apply nth_error_None in Ea; pose proof (nth_error_some_lt _ _ _ Ea1); lia].
        destruct (K1 id a Ea) as (a' & Ea' & [(_ & B & st & Est & Lst & _)|(N & _)]); [|destruct N; eapply nth_error_In; eauto]. assert (a' = a1) by congruence. subst a'. exists st. rewrite B. auto. }
      { exact HR. }
      rewrite E2. eexists. split; [reflexivity|]. cbn [fst snd]. split; [reflexivity|]. destruct G2 as (GL & GN & GG).
      assert (PO : Permutation (map snd sched) (ops r)) by (rewrite PS, combine_seq_snd; reflexivity).
      split; [|split; [congruence|split]].
      - rewrite <- L1. destruct GL as (X1 & X2). split; [exact X1|]. intros id a Ea. destruct (X2 id a Ea) as (a' & Ea' & La & Ha). exists a'. split; [exact Ea'|]. split; [exact La|].
        intros c v Ev. rewrite (Ha c v Ev), (contributions_perm _ _ _ _ _ PO). reflexivity.
      - intros id a Ea. destruct (K1 id a Ea) as (a1 & Ea1 & K). destruct (GG id a1 Ea1) as (a2 & Ea2 & B2 & S2). exists a2. split; [exact Ea2|]. destruct K as [(I & B & st & Est & Lst & Zst)|(N & ->)].
        + split; [congruence|]. left. split; [exact I|]. rewrite Est in S2. destruct S2 as (st' & Est' & _ & Hst). exists st'. split; [exact Est'|]. intros c Lc.
          rewrite (Hst c zero (Zst c Lc)), (contributions_perm _ _ _ _ _ PO), (add_comm _ _ M), (add_zero _ _ M). reflexivity.
        + split; [exact B2|]. right. split; [exact N|]. rewrite (NX a) in S2 by (eapply nth_error_In; eauto). exact S2.
      - exists sched. split; [exact PS|]. split; [exact Ll|]. intros k i o Ek. destruct (Lg k i o Ek) as (res & Er & Rr). exists res. split; [exact Er|]. unfold result_of in Rr. rewrite GB, L1 in Rr. exact Rr. }
    destruct SUB as (s & Es & Ls & Ps). rewrite Es. cbn [obind].
    assert (SIZE : exists n, forall r x id a, nth_error w r = Some x -> nth_error (globals x) id = Some a -> length (ga_buf a) = n id).
    { destruct w as [|x0 w0]; [exists (fun _ => 0); intros [|r] x id a E; discriminate|]. exists (fun id => nth id (map (@length V) (map ga_buf (globals x0))) 0). intros r x id a Ex Ea.
      pose proof (HS 0 r _ _ _ _ (view_nth (x0 :: w0) 0 x0 eq_refl) (view_nth _ _ _ Ex)) as Q. rewrite <- Q. symmetry. apply nth_error_nth. rewrite !nth_error_map, Ea. reflexivity. }
    destruct SIZE as (n & SIZE).
    assert (FST : forall r x1, nth_error (map fst s) r = Some x1 -> exists x y, nth_error w r = Some x /\ nth_error s r = Some y /\ x1 = fst y).
    { intros r x1 E. rewrite nth_error_map in E. destruct (nth_error s r) as [y|] eqn:Ey; [|discriminate]. cbn in E. injection E as <-. destruct (nth_error_lt_some w r) as (x & Ex); [rewrite <- Ls; eapply nth_error_some_lt; eauto|]. eauto 6. }
    destruct (wait_ok e args (fun r id c => sum (contributions args (ops r) (TG id) c)) (map fst s) n HE HU) as (w' & Ew & Lw & Pw).
    { intros r x1 id E I. destruct (FST r x1 E) as (x & y & Ex & Ey & ->). destruct (Ps r x Ex) as (y' & Ey' & _ & _ & _ & K & _). assert (y' = y) by congruence. subst y'.
      destruct (HA r _ _ (view_nth _ _ _ Ex)) as (HG & _). rewrite map_length in HG. destruct (nth_error_lt_some _ _ (HG id I)) as (a & Ea).
      destruct (K id a Ea) as (a' & Ea' & B & [(_ & st & Est & Hst)|(N & _)]); [|destruct (N I)]. exists a', st. rewrite B. pose proof (SIZE r x id a Ex Ea) as Sn. rewrite <- Sn. auto. }
    rewrite Ew. cbn [obind]. rewrite map_length in Lw, Pw. exists w', (map snd s). split; [reflexivity|].
    assert (ALL : forall r x, nth_error w r = Some x -> exists x', nth_error w' r = Some x' /\
       grown add zero (fun id c => contributions args (ops r) (TL id) c) (locals x) (locals x') /\
       grown add zero (fun id c => flat_map (fun q => contributions args (ops q) (TG id) c) (seq 0 (length w))) (map ga_buf (globals x)) (map ga_buf (globals x')) /\
       forall a, In a (globals x') -> ga_stage a = None).
    { intros r x Ex. destruct (Ps r x Ex) as (y & Ey & _ & GL & GN & K & _). destruct (Pw r (fst y)) as (x' & Ex' & Ll & Lg & KG); [rewrite nth_error_map, Ey; reflexivity|]. exists x'. split; [exact Ex'|].
      split; [rewrite Ll; exact GL|]. split.
      - split; [rewrite !map_length; congruence|]. intros id b Eb. rewrite nth_error_map in Eb. destruct (nth_error (globals x) id) as [a|] eqn:Ea; [|discriminate]. cbn in Eb. injection Eb as <-.
        destruct (K id a Ea) as (a1 & Ea1 & B1 & S1). destruct (KG id a1 Ea1) as (a2 & Ea2 & S2). exists (ga_buf a2). split; [rewrite nth_error_map, Ea2; reflexivity|]. rewrite B1 in S2.
        destruct S2 as [(_ & _ & Lb & Hb)|(N & ->)].
        + split; [exact Lb|]. intros c v Ev. rewrite (Hb c v Ev), sum_flat, Ls. reflexivity.
        + rewrite B1. split; [reflexivity|]. intros c v Ev. replace (flat_map (fun q => contributions args (ops q) (TG id) c) (seq 0 (length w))) with (@nil V).
          * cbn. rewrite (add_zero _ _ M). exact Ev.
          * symmetry. induction (seq 0 (length w)) as [|q l IH]; [reflexivity|]. cbn [flat_map]. rewrite IH, contributions_nil by exact N. reflexivity.
      - intros a2 I. apply In_nth_error in I. destruct I as (id & E2). destruct (nth_error_lt_some (globals x) id) as (a & Ea); [rewrite <- GN, <- Lg; eapply nth_error_some_lt; eauto|].
        destruct (K id a Ea) as (a1 & Ea1 & B1 & S1). destruct (KG id a1 Ea1) as (a2' & E2' & S2). assert (a2' = a2) by congruence. subst a2'. destruct S2 as [(_ & St & _)|(N & ->)]; [exact St|].
        destruct S1 as [(I & _)|(_ & St)]; [destruct (N I)|exact St]. }
    split.
    - intros x' a I Ia. apply In_nth_error in I. destruct I as (r & Er). destruct (nth_error_lt_some w r) as (x & Ex); [rewrite <- Ls, <- Lw; eapply nth_error_some_lt; eauto|].
      destruct (ALL r x Ex) as (x2 & E2 & _ & _ & St). assert (x2 = x') by congruence. subst x2. apply St, Ia.
    - assert (Lv : length (view w) = length w) by apply map_length. split; [|split].
      + split; [unfold view; rewrite !map_length; congruence|]. intros r G L E. apply view_inv in E. destruct E as (x & Ex & -> & ->). destruct (ALL r x Ex) as (x' & Ex' & GL & GG & _).
        exists (map ga_buf (globals x')), (locals x'). split; [apply view_nth, Ex'|]. rewrite Lv. auto.
      + rewrite Lv, map_length. exact Ls.
      + intros r G L log E El. apply view_inv in E. destruct E as (x & Ex & -> & ->). destruct (Ps r x Ex) as (y & Ey & _ & _ & _ & _ & R). rewrite nth_error_map, Ey in El. cbn in El. injection El as <-. exact R.
  Qed.

  (** ** Histories *)
  Definition sizes (s : @values V) := map (fun x => (map (@length V) (fst x), map (@length V) (snd x))) s.
  Lemma grown_sizes f A A' : grown add zero f A A' -> map (@length V) A' = map (@length V) A.
  Proof.
    intros (L & H). apply nth_error_ext. intros id. rewrite !nth_error_map. destruct (nth_error A id) as [a|] eqn:Ea.
    - destruct (H id a Ea) as (a' & Ea' & La & _). rewrite Ea'. cbn. congruence.
    - apply nth_error_None in Ea. rewrite (proj2 (nth_error_None A' id)) by lia. reflexivity.
  Qed.
  Lemma replaced_sizes id f A A' : (forall a, nth_error A id = Some a -> length (f a) = length a) -> replaced id f A A' -> map (@length V) A' = map (@length V) A.
  Proof.
    intros Hf (L & H). apply nth_error_ext. intros i. rewrite !nth_error_map. destruct (nth_error A i) as [a|] eqn:Ea.
    - rewrite (H i a Ea). cbn. destruct (Nat.eqb_spec i id) as [->|]; [rewrite (Hf a Ea)|]; reflexivity.
    - apply nth_error_None in Ea. rewrite (proj2 (nth_error_None A' i)) by lia. reflexivity.
  Qed.
  Lemma sizes_ext s s' : length s' = length s -> (forall r x, nth_error s r = Some x -> exists x', nth_error s' r = Some x' /\ map (@length V) (fst x') = map (@length V) (fst x) /\ map (@length V) (snd x') = map (@length V) (snd x)) -> sizes s' = sizes s.
  Proof.
    intros L H. apply nth_error_ext. intros r. unfold sizes. rewrite !nth_error_map. destruct (nth_error s r) as [x|] eqn:Ex.
    - destruct (H r x Ex) as (x' & Ex' & E1 & E2). rewrite Ex'. cbn. congruence.
    - apply nth_error_None in Ex. rewrite (proj2 (nth_error_None s' r)) by lia. reflexivity.
  Qed.
  Lemma effect_sizes ev s s' logs : allowed s ev -> effect_of add zero ev s s' logs -> sizes s' = sizes s.
  Proof.
    destruct ev as [r id v|r id v|r id data|args ops]; cbn [allowed effect_of].
    - intros _ (L & H). apply sizes_ext; [exact L|]. intros q x Ex. destruct (H q x Ex) as (x' & Ex' & K). exists x'. split; [exact Ex'|]. destruct (q =? r); [|subst; auto]. destruct K as (K1 & ->).
      split; [|reflexivity]. eapply replaced_sizes; [|exact K1]. intros; apply map_length.
    - intros _ (L & H). apply sizes_ext; [exact L|]. intros q x Ex. destruct (H q x Ex) as (x' & Ex' & K). exists x'. split; [exact Ex'|]. destruct (q =? r); [|subst; auto]. destruct K as (-> & K1).
      split; [reflexivity|]. eapply replaced_sizes; [|exact K1]. intros; apply map_length.
    - intros (G & L0 & a & Es & Ea & Ld) (L & H). apply sizes_ext; [exact L|]. intros q x Ex. destruct (H q x Ex) as (x' & Ex' & K). exists x'. split; [exact Ex'|]. destruct (Nat.eqb_spec q r) as [->|]; [|subst; auto]. destruct K as (-> & K1).
      split; [reflexivity|]. eapply replaced_sizes; [|exact K1]. intros b Eb. assert (x = (G, L0)) by congruence. subst x. cbn in Eb. congruence.
    - intros _ ((L & H) & _). apply sizes_ext; [exact L|]. intros q (G, L0) Ex. destruct (H q G L0 Ex) as (G' & L' & Ex' & K1 & K2). exists (G', L'). split; [exact Ex'|]. cbn. split; eapply grown_sizes; eassumption.
  Qed.
  Lemma sizes_nth s s' r G L : sizes s' = sizes s -> nth_error s r = Some (G, L) -> exists G' L', nth_error s' r = Some (G', L') /\ map (@length V) G' = map (@length V) G /\ map (@length V) L' = map (@length V) L.
  Proof.
    intros E Er. apply (f_equal (fun l => nth_error l r)) in E. unfold sizes in E. rewrite !nth_error_map, Er in E. destruct (nth_error s' r) as [(G', L')|]; cbn in E; [|discriminate]. injection E as E1 E2. eauto 6.
  Qed.
  Lemma lengths_nth (A A' : list (list V)) id a : map (@length V) A' = map (@length V) A -> nth_error A id = Some a -> exists a', nth_error A' id = Some a' /\ length a' = length a.
  Proof. intros E Ea. apply (f_equal (fun l => nth_error l id)) in E. rewrite !nth_error_map, Ea in E. destruct (nth_error A' id) as [a'|]; cbn in E; [|discriminate]. injection E as E. eauto. Qed.
  Lemma allowed_sizes s s' ev : sizes s' = sizes s -> allowed s ev -> allowed s' ev.
  Proof.
    intros E. destruct ev as [r id v|r id v|r id data|args ops]; cbn [allowed].
    - intros (G & L & a & Er & Ea). destruct (sizes_nth _ _ _ _ _ E Er) as (G' & L' & Er' & E1 & E2). destruct (lengths_nth _ _ _ _ E1 Ea) as (a' & Ea' & _). eauto 6.
    - intros (G & L & a & Er & Ea). destruct (sizes_nth _ _ _ _ _ E Er) as (G' & L' & Er' & E1 & E2). destruct (lengths_nth _ _ _ _ E2 Ea) as (a' & Ea' & _). eauto 6.
    - intros (G & L & a & Er & Ea & Ld). destruct (sizes_nth _ _ _ _ _ E Er) as (G' & L' & Er' & E1 & E2). destruct (lengths_nth _ _ _ _ E2 Ea) as (a' & Ea' & La). exists G', L', a'. rewrite La. auto.
    - intros (HA & HU & HR). split; [|split; assumption]. intros r G' L' Er'. destruct (sizes_nth s' s r _ _ (eq_sym E) Er') as (G & L & Er & E1 & E2). destruct (HA r G L Er) as (H1 & H2).
      split; [intros id I; specialize (H1 id I); rewrite <- (map_length (@length V)), E1, map_length in H1; exact H1|].
      intros o I. specialize (H2 o I).
      assert (X : forall t a c, (match t with TG id => nth_error G id | TL id => nth_error L id end) = Some a -> c < length a ->
         exists a', (match t with TG id => nth_error G' id | TL id => nth_error L' id end) = Some a' /\ c < length a').
      { intros [id|id] a c Ea Lc; [destruct (lengths_nth _ _ _ _ (eq_sym E1) Ea) as (a' & Ea' & La)|destruct (lengths_nth _ _ _ _ (eq_sym E2) Ea) as (a' & Ea' & La)]; exists a'; split; auto; lia. }
      destruct o as [j c v|j c]; cbn [op_allowed] in *; destruct H2 as (t & a & Ej & Ea & Lc); destruct (X t a c Ea Lc) as (a' & Ea' & Lc'); exists t, a'; auto.
  Qed.
  Lemma same_sizes_sizes s s' : sizes s' = sizes s -> same_sizes s -> same_sizes s'.
  Proof.
    intros E H r r' G L G' L' E1 E2. destruct (sizes_nth s' s r _ _ (eq_sym E) E1) as (H1 & K1 & F1 & X1 & _). destruct (sizes_nth s' s r' _ _ (eq_sym E) E2) as (H2 & K2 & F2 & X2 & _).
    rewrite <- X1, <- X2. eapply H; eassumption.
  Qed.

  Lemma on_rank_ok r f x x' (w : list rank_arrays) : nth_error w r = Some x -> f x = Some x' -> exists w', on_rank r f w = Some w' /\ length w' = length w /\ forall q, nth_error w' q = if q =? r then Some x' else nth_error w q.
  Proof.
    intros E F. unfold on_rank, rd. rewrite E. cbn [obind]. rewrite F. cbn [obind]. destruct (upd_some w r x') as (w' & Eu); [eapply nth_error_some_lt; eauto|]. exists w'. split; [exact Eu|]. split; [apply (upd_length _ _ _ _ Eu)|].
    intros q. apply (upd_nth _ _ _ _ q Eu).
  Qed.
  Lemma replaced_upd id (f : list V -> list V) A a A' : nth_error A id = Some a -> upd A id (f a) = Some A' -> replaced id f A A'.
  Proof.
    intros Ea Eu. split; [apply (upd_length _ _ _ _ Eu)|]. intros i b Eb. rewrite (upd_nth _ _ _ _ i Eu). destruct (Nat.eqb_spec i id) as [->|]; [congruence|exact Eb].
  Qed.
  Lemma one_rank_effect r (P : list (list V) * list (list V) -> list (list V) * list (list V) -> Prop) (w w' : list rank_arrays) x x' : nth_error w r = Some x ->
    P (map ga_buf (globals x), locals x) (map ga_buf (globals x'), locals x') -> (forall a, In a (globals x') -> ga_stage a = None) -> idle w ->
    length w' = length w -> (forall q, nth_error w' q = if q =? r then Some x' else nth_error w q) -> idle w' /\ on_one_rank r P (view w) (view w').
  Proof.
    intros Ex HP HN HI L H. split.
    - intros y a I Ia. apply In_nth_error in I. destruct I as (q & Eq). rewrite H in Eq. destruct (Nat.eqb_spec q r); [injection Eq as <-; apply HN, Ia|]. apply (HI y a); [eapply nth_error_In; eauto|exact Ia].
    - split; [unfold view; rewrite !map_length; exact L|]. intros q (G, L0) E. apply view_inv in E. destruct E as (y & Ey & -> & ->). unfold view. rewrite nth_error_map, H. destruct (Nat.eqb_spec q r) as [->|N].
      + eexists. split; [reflexivity|]. assert (y = x) by congruence. subst y. exact HP.
      + rewrite Ey. eexists. split; reflexivity.
  Qed.

  Lemma exec_ok (e : env) ev w : env_ok e -> idle w -> same_sizes (view w) -> allowed (view w) ev ->
    exists w' logs, exec add zero w (e, ev) = Some (w', logs) /\ idle w' /\ effect_of add zero ev (view w) (view w') logs.
  Proof.
    intros HE HI HS HA. destruct ev as [r id v|r id v|r id data|args ops]; [| | |apply execute_ok; assumption]; unfold exec; cbn [snd allowed effect_of] in *.
    - destruct HA as (G & L & b & Er & Eb). apply view_inv in Er. destruct Er as (x & Ex & -> & ->). rewrite nth_error_map in Eb. destruct (nth_error (globals x) id) as [a|] eqn:Ea; [|discriminate].
      destruct (upd_some (globals x) id (fill_global v a)) as (gs & Eu); [eapply nth_error_some_lt; eauto|].
      edestruct (on_rank_ok r (fun x => a <- rd (globals x) id ;; gs <- upd (globals x) id (fill_global v a) ;; Some (RA gs (locals x))) x (RA gs (locals x)) w Ex) as (w' & Ew & Lw & Pw).
      { unfold rd. rewrite Ea. cbn [obind]. rewrite Eu. reflexivity. }
      rewrite Ew. cbn [obind]. exists w', []. split; [reflexivity|]. apply (one_rank_effect r _ w w' x (RA gs (locals x)) Ex); auto.
      + cbn. split; [|reflexivity]. apply (replaced_upd id _ _ (ga_buf a)); [rewrite nth_error_map, Ea; reflexivity|]. change (map (fun _ => v) (ga_buf a)) with (ga_buf (fill_global v a)). apply upd_map_some, Eu.
      + cbn. intros g Ig. apply In_nth_error in Ig. destruct Ig as (i & Ei). rewrite (upd_nth _ _ _ _ i Eu) in Ei. destruct (i =? id).
        * injection Ei as <-. cbn. apply (HI x a); eapply nth_error_In; eauto.
        * apply (HI x g); eapply nth_error_In; eauto.
    - destruct HA as (G & L & a & Er & Ea). apply view_inv in Er. destruct Er as (x & Ex & -> & ->).
      destruct (upd_some (locals x) id (fill_local v a)) as (ls & Eu); [eapply nth_error_some_lt; eauto|].
      edestruct (on_rank_ok r (fun x => a <- rd (locals x) id ;; ls <- upd (locals x) id (fill_local v a) ;; Some (RA (globals x) ls)) x (RA (globals x) ls) w Ex) as (w' & Ew & Lw & Pw).
      { unfold rd. rewrite Ea. cbn [obind]. rewrite Eu. reflexivity. }
      rewrite Ew. cbn [obind]. exists w', []. split; [reflexivity|]. apply (one_rank_effect r _ w w' x (RA (globals x) ls) Ex); auto.
      + cbn. split; [reflexivity|]. apply (replaced_upd id _ _ a _ Ea Eu).
      + cbn. intros g Ig. apply (HI x g); [eapply nth_error_In; eauto|exact Ig].
    - destruct HA as (G & L & a & Er & Ea & Ld). apply view_inv in Er. destruct Er as (x & Ex & -> & ->).
      destruct (upd_some (locals x) id data) as (ls & Eu); [eapply nth_error_some_lt; eauto|].
      edestruct (on_rank_ok r (fun x => a <- rd (locals x) id ;; a' <- set_local data a ;; ls <- upd (locals x) id a' ;; Some (RA (globals x) ls)) x (RA (globals x) ls) w Ex) as (w' & Ew & Lw & Pw).
      { unfold rd, set_local. rewrite Ea. cbn [obind]. rewrite Ld, Nat.eqb_refl. cbn [assert obind]. rewrite Eu. reflexivity. }
      rewrite Ew. cbn [obind]. exists w', []. split; [reflexivity|]. apply (one_rank_effect r _ w w' x (RA (globals x) ls) Ex); auto.
      + cbn. split; [reflexivity|]. apply (replaced_upd id (fun _ => data) _ a _ Ea Eu).
      + cbn. intros g Ig. apply (HI x g); [eapply nth_error_In; eauto|exact Ig].
  Qed.

  Lemma exec_all_log w es l : exec_all add zero w es = (r <- exec_all add zero w es ;; Some r) /\
    foldM (fun s ee => r <- exec add zero (fst s) ee ;; Some (fst r, snd s ++ [snd r])) (w, l) es = (r <- exec_all add zero w es ;; Some (fst r, l ++ snd r)).
  Proof.
    split; [destruct (exec_all add zero w es); reflexivity|]. unfold exec_all.
    enough (G : forall es w l m, foldM (fun s ee => r <- exec add zero (fst s) ee ;; Some (fst r, snd s ++ [snd r])) (w, l ++ m) es =
      (r <- foldM (fun s ee => r <- exec add zero (fst s) ee ;; Some (fst r, snd s ++ [snd r])) (w, m) es ;; Some (fst r, l ++ snd r))).
    { specialize (G es w l []). rewrite app_nil_r in G. exact G. }
    clear es w l. induction es as [|ee es IH]; intros w l m; cbn [foldM]; [reflexivity|]. cbn [fst snd]. destruct (exec add zero w ee) as [(w1, lg)|]; [|reflexivity]. cbn [obind fst snd].
    rewrite <- app_assoc. apply IH.
  Qed.
  Theorem histories_ok es w : Forall (fun ee => env_ok (fst ee) /\ allowed (view w) (snd ee)) es -> idle w -> same_sizes (view w) ->
    exists w' logs, exec_all add zero w es = Some (w', logs) /\ idle w' /\ same_sizes (view w') /\ history add zero (view w) (map snd es) logs (view w').
  Proof.
    revert w. induction es as [|(e, ev) es IH]; intros w HF HI HS.
    - exists w, []. split; [reflexivity|]. split; [exact HI|]. split; [exact HS|]. constructor.
    - inversion HF as [|? ? (HE & HA) HF']; subst. cbn [fst snd] in *. destruct (exec_ok e ev w HE HI HS HA) as (w1 & lg & E1 & HI1 & EF). pose proof (effect_sizes _ _ _ _ HA EF) as SZ.
      destruct (IH w1) as (w2 & logs & E2 & HI2 & HS2 & HH).
      { eapply Forall_impl; [|exact HF']. intros (e', ev') (A & B). split; [exact A|]. cbn [snd] in *. eapply allowed_sizes; eassumption. }
      { exact HI1. } { eapply same_sizes_sizes; eassumption. }
      exists w2, (lg :: logs). unfold exec_all. cbn [foldM fst snd]. rewrite E1. cbn [obind fst snd]. cbn [app]. rewrite (proj2 (exec_all_log w1 es [lg])), E2. cbn [obind fst snd app]. split; [reflexivity|]. split; [exact HI2|]. split; [exact HS2|].
      cbn [map snd]. econstructor; eassumption.
  Qed.
End A.
