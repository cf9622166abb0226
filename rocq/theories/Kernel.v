(** Reasoning about data-parallel kernels: a kernel is a [foldM] of its work
    items in some order.  No model definitions here. *)
From Coq Require Import List Arith Lia ZArith Permutation Bool.
Import ListNotations.
From Verif Require Import Base.

(** Work item [a] writes [v] to location [j] when [wr a j = Some v]; items that
    write the same location write the same value. *)
Lemma foldM_kernel {A S L T} (f : S -> A -> option S) (get : S -> L -> option T)
    (Inv : S -> Prop) (wr : A -> L -> option T) sched s0 :
  Inv s0 ->
  (forall s a, Inv s -> In a sched -> exists s', f s a = Some s' /\ Inv s' /\
     forall j, get s' j = match wr a j with Some v => Some v | None => get s j end) ->
  (forall a b j v w, In a sched -> In b sched -> wr a j = Some v -> wr b j = Some w -> v = w) ->
  exists s', foldM f s0 sched = Some s' /\ Inv s' /\
    (forall a j v, In a sched -> wr a j = Some v -> get s' j = Some v) /\
    (forall j, (forall a, In a sched -> wr a j = None) -> get s' j = get s0 j).
Proof.
  revert s0. induction sched as [|a l IH]; intros s0 I0 Hf Hag; cbn [foldM].
  - exists s0; repeat split; auto; cbn; tauto.
  - destruct (Hf s0 a I0) as [s1 [E1 [I1 G1]]]; [left; auto|].
    rewrite E1; cbn [obind].
    destruct (IH s1 I1) as [s' [E' [I' [W' N']]]].
    { intros s a0 Is Ia. apply Hf; [auto|right; auto]. }
    { intros b c j v w Ib Ic. apply (Hag b c j v w); right; auto. }
    exists s'; split; [exact E'|]. split; [exact I'|]. split.
    + intros b j v [<-|Hb] Hw; [|eauto].
      assert (Dec : forall x, {wr x j <> None} + {~ wr x j <> None}).
      { intros x. destruct (wr x j); [left; congruence|right; congruence]. }
      destruct (Exists_dec (fun b => wr b j <> None) l Dec) as [Ex|Nex].
      * apply Exists_exists in Ex. destruct Ex as [b [Hb Hn]].
        destruct (wr b j) as [w|] eqn:Ew; [|congruence].
        rewrite (W' b j w Hb Ew). f_equal. eapply (Hag b a); cbn; eauto.
      * rewrite N', G1, Hw; auto. intros b Hb.
        destruct (wr b j) eqn:Ew; auto. exfalso; apply Nex, Exists_exists; exists b; split; auto; congruence.
    + intros j Hn. rewrite N'; [|intros; apply Hn; right; auto].
      rewrite G1, (Hn a); cbn; auto.
Qed.

(** Induction on the processed prefix, for kernels with atomics. *)
Lemma foldM_ind {A S} (f : S -> A -> option S) (P : list A -> S -> Prop) sched s0 :
  P [] s0 ->
  (forall pre a post s, sched = pre ++ a :: post -> P pre s ->
     exists s', f s a = Some s' /\ P (pre ++ [a]) s') ->
  exists s', foldM f s0 sched = Some s' /\ P sched s'.
Proof.
  intros H0 Hs.
  assert (G : forall post pre s, sched = pre ++ post -> P pre s ->
    exists s', foldM f s post = Some s' /\ P sched s').
  { induction post as [|a post IH]; intros pre s E Hp; cbn [foldM].
    - rewrite app_nil_r in E; subst; eauto.
    - destruct (Hs pre a post s E Hp) as [s1 [E1 P1]]. rewrite E1; cbn [obind].
      apply (IH (pre ++ [a])); auto. rewrite <- app_assoc; auto. }
  apply (G sched [] s0); auto.
Qed.

Lemma foldM_upd {A V} (f : list V -> A -> option (list V)) (pos : A -> nat) (val : A -> V) sched m :
  (forall m' a, length m' = length m -> In a sched -> f m' a = upd m' (pos a) (val a)) ->
  (forall a, In a sched -> pos a < length m) ->
  (forall a b, In a sched -> In b sched -> pos a = pos b -> val a = val b) ->
  exists m', foldM f m sched = Some m' /\ length m' = length m /\
    (forall a, In a sched -> nth_error m' (pos a) = Some (val a)) /\
    (forall j, (forall a, In a sched -> pos a <> j) -> nth_error m' j = nth_error m j).
Proof.
  intros Hf Hr Ha.
  destruct (@foldM_kernel A (list V) nat V f (fun m j => nth_error m j)
     (fun m' => length m' = length m)
     (fun a j => if j =? pos a then Some (val a) else None) sched m eq_refl)
    as [m' [E [L [W N]]]].
  - intros s a Ls Ia. rewrite Hf by auto.
    destruct (upd_some s (pos a) (val a)) as [s' E]; [rewrite Ls; auto|].
    exists s'; split; auto. split; [rewrite (upd_length _ _ _ _ E); auto|].
    intros j. rewrite (upd_nth _ _ _ _ j E). destruct (j =? pos a); auto.
  - intros a b j v w Ia Ib. destruct (Nat.eqb_spec j (pos a)), (Nat.eqb_spec j (pos b)); try discriminate.
    intros [= <-] [= <-]. apply Ha; auto; lia.
  - exists m'; repeat split; auto.
    + intros a Ia. apply (W a); auto. rewrite Nat.eqb_refl; auto.
    + intros j Hj. apply N. intros a Ia. destruct (Nat.eqb_spec j (pos a)); auto.
      exfalso; eapply Hj; eauto.
Qed.

Definition pair_eqb (a b : nat * nat) : bool := (fst a =? fst b) && (snd a =? snd b).
Lemma pair_eqb_spec a b : reflect (a = b) (pair_eqb a b).
Proof.
  destruct a, b; unfold pair_eqb; cbn.
  destruct (Nat.eqb_spec n n1), (Nat.eqb_spec n0 n2); constructor; congruence.
Qed.

Lemma foldM_upd2 {A V} (f : list (list V) -> A -> option (list (list V)))
    (wr : A -> option (nat * nat * V)) sched m :
  (forall m' a, shape2 m' = shape2 m -> In a sched ->
     f m' a = match wr a with Some (i, j, v) => upd2 m' i j v | None => Some m' end) ->
  (forall a i j v, In a sched -> wr a = Some (i, j, v) -> exists x, rd2 m i j = Some x) ->
  (forall a b i j v w, In a sched -> In b sched ->
     wr a = Some (i, j, v) -> wr b = Some (i, j, w) -> v = w) ->
  exists m', foldM f m sched = Some m' /\ shape2 m' = shape2 m /\
    (forall a i j v, In a sched -> wr a = Some (i, j, v) -> rd2 m' i j = Some v) /\
    (forall i j, (forall a v, In a sched -> wr a <> Some (i, j, v)) -> rd2 m' i j = rd2 m i j).
Proof.
  intros Hf Hr Ha.
  destruct (@foldM_kernel A (list (list V)) (nat * nat) V f (fun m p => rd2 m (fst p) (snd p))
     (fun m' => shape2 m' = shape2 m)
     (fun a p => match wr a with Some (q, v) => if pair_eqb p q then Some v else None | None => None end)
     sched m eq_refl) as [m' [E [L [W N]]]].
  - intros s a Ls Ia. rewrite Hf by auto. destruct (wr a) as [[[i j] v]|] eqn:Ew.
    + destruct (Hr a i j v Ia Ew) as [x Hx].
      destruct (shape2_rd2 _ s _ _ _ Ls Hx) as [y Hy].
      destruct (upd2_some s i j v y Hy) as [s' E].
      exists s'; split; auto. split; [rewrite (upd2_shape _ _ _ _ _ E); auto|].
      intros [i' j']; cbn [fst snd]. rewrite (upd2_rd2 _ _ _ _ _ E).
      unfold pair_eqb; cbn [fst snd]. destruct ((i' =? i) && (j' =? j)); auto.
    + exists s; repeat split; auto.
  - intros a b [i j] v w Ia Ib.
    destruct (wr a) as [[[ia ja] va]|] eqn:Ea; [|discriminate].
    destruct (wr b) as [[[ib jb] vb]|] eqn:Eb; [|discriminate].
    destruct (pair_eqb_spec (i, j) (ia, ja)) as [[= -> ->]|]; [|discriminate].
    destruct (pair_eqb_spec (ia, ja) (ib, jb)) as [[= -> ->]|]; [|discriminate].
    intros [= <-] [= <-]. eapply (Ha a b); eauto.
  - exists m'; split; [exact E|]. split; [exact L|]. split.
    + intros a i j v Ia Ew. apply (W a (i, j) v Ia). rewrite Ew.
      destruct (pair_eqb_spec (i, j) (i, j)); congruence.
    + intros i j Hj. apply (N (i, j)). intros a Ia.
      destruct (wr a) as [[q v]|] eqn:Ea; auto.
      destruct (pair_eqb_spec (i, j) q); auto. subst q. exfalso; eapply Hj; eauto.
Qed.

(** Copies inside a 3-level store: item [a] copies [src a] to [dst a]; no source
    is also a destination. *)
Definition loc3 := (nat * nat * nat)%type.
Definition get3 {V} (m : list (list (list V))) (p : loc3) : option V :=
  rd3 m (fst (fst p)) (snd (fst p)) (snd p).
Definition loc3_eqb (a b : loc3) : bool :=
  (fst (fst a) =? fst (fst b)) && (snd (fst a) =? snd (fst b)) && (snd a =? snd b).
Lemma loc3_eqb_spec a b : reflect (a = b) (loc3_eqb a b).
Proof.
  destruct a as [[]], b as [[]]; unfold loc3_eqb; cbn.
  destruct (Nat.eqb_spec n n2), (Nat.eqb_spec n0 n3), (Nat.eqb_spec n1 n4); constructor; congruence.
Qed.

Lemma foldM_copy3 {A V} (f : list (list (list V)) -> A -> option (list (list (list V))))
    (src dst : A -> loc3) sched m :
  (forall m' a, shape3 m' = shape3 m -> In a sched ->
     f m' a = (v <- get3 m' (src a) ;; let '(i, j, k) := dst a in upd3 m' i j k v)) ->
  (forall a, In a sched -> exists x, get3 m (src a) = Some x) ->
  (forall a, In a sched -> exists x, get3 m (dst a) = Some x) ->
  (forall a b, In a sched -> In b sched -> dst a <> src b) ->
  (forall a b, In a sched -> In b sched -> dst a = dst b -> src a = src b) ->
  exists m', foldM f m sched = Some m' /\ shape3 m' = shape3 m /\
    (forall a, In a sched -> get3 m' (dst a) = get3 m (src a)) /\
    (forall p, (forall a, In a sched -> dst a <> p) -> get3 m' p = get3 m p).
Proof.
  intros Hf Hs Hd Hds Hdd.
  destruct (@foldM_kernel A (list (list (list V))) loc3 V f get3
     (fun m' => shape3 m' = shape3 m /\ forall a, In a sched -> get3 m' (src a) = get3 m (src a))
     (fun a p => if loc3_eqb p (dst a) then get3 m (src a) else None)
     sched m) as [m' [E [[L I] [W N]]]].
  - split; auto.
  - intros s a [Ls Is] Ia. rewrite Hf by auto.
    destruct (Hs a Ia) as [x Hx]. rewrite (Is a Ia), Hx; cbn [obind].
    destruct (Hd a Ia) as [y Hy]. destruct (dst a) as [[i j] k] eqn:Ed. unfold get3 in Hy; cbn in Hy.
    destruct (shape3_rd3 _ s _ _ _ _ Ls Hy) as [z Hz].
    destruct (upd3_some s i j k x z Hz) as [s' E]. exists s'.
    assert (G : forall p, get3 s' p = if loc3_eqb p (i, j, k) then Some x else get3 s p).
    { intros [[i' j'] k']. unfold get3, loc3_eqb; cbn. apply (upd3_rd3 _ _ _ _ _ _ E). }
    split; auto. split.
    + split; [rewrite (upd3_shape _ _ _ _ _ _ E); auto|].
      intros b Ib. rewrite G. destruct (loc3_eqb_spec (src b) (i, j, k)); [|auto].
      exfalso; apply (Hds a b Ia Ib). congruence.
    + intros p. rewrite G. destruct (loc3_eqb_spec p (i, j, k)); auto.
  - intros a b p v w Ia Ib.
    destruct (loc3_eqb_spec p (dst a)); [|discriminate].
    destruct (loc3_eqb_spec p (dst b)); [|discriminate]. subst p.
    rewrite (Hdd a b) by auto. congruence.
  - exists m'; split; [exact E|]. split; [exact L|]. split.
    + intros a Ia. destruct (Hs a Ia) as [x Hx]. rewrite Hx. apply (W a); auto.
      destruct (loc3_eqb_spec (dst a) (dst a)); congruence.
    + intros p Hp. apply N. intros a Ia. destruct (loc3_eqb_spec p (dst a)); auto.
      exfalso; eapply Hp; eauto.
Qed.

(** ** Selecting from [seq] *)
Lemma filter_seq_nth (p : nat -> bool) a n l : a <= l < a + n -> p l = true ->
  nth_error (filter p (seq a n)) (length (filter p (seq a (l - a)))) = Some l.
Proof.
  intros H Hp. replace n with ((l - a) + (n - (l - a))) by lia.
  rewrite seq_app, filter_app, nth_error_app2, Nat.sub_diag by lia.
  replace (a + (l - a)) with l by lia. destruct (n - (l - a)) eqn:E; [lia|].
  cbn [seq filter]. rewrite Hp; auto.
Qed.

Lemma filter_seq_nth_inv (p : nat -> bool) a n k l : nth_error (filter p (seq a n)) k = Some l ->
  a <= l < a + n /\ p l = true /\ k = length (filter p (seq a (l - a))).
Proof.
  intros H. pose proof (nth_error_In _ _ H) as I. apply filter_In in I. destruct I as [I Hp].
  apply in_seq in I. split; [auto|]. split; auto.
  pose proof (filter_seq_nth p a n l I Hp) as H2.
  assert (ND : NoDup (filter p (seq a n))) by (apply NoDup_filter, seq_NoDup).
  rewrite NoDup_nth_error in ND. apply ND; [eapply nth_error_some_lt; eauto|congruence].
Qed.

Lemma filter_seq_le (p : nat -> bool) a n : length (filter p (seq a n)) <= n.
Proof.
  revert a; induction n; intros a; cbn [seq filter]; auto.
  specialize (IHn (S a)). destruct (p a); cbn; lia.
Qed.

Lemma filter_seq_split (p : nat -> bool) a i n : i <= n ->
  length (filter p (seq a n)) = length (filter p (seq a i)) + length (filter p (seq (a + i) (n - i))).
Proof.
  intros H. replace n with (i + (n - i)) at 1 by lia. rewrite seq_app, filter_app, app_length; auto.
Qed.

Lemma filter_negb_length {A} (p : A -> bool) l :
  length (filter p l) + length (filter (fun x => negb (p x)) l) = length l.
Proof. induction l; cbn; auto. destruct (p a); cbn; lia. Qed.

Lemma in_ord d {A} k (l : list A) a : device_ok d -> (In a (ord d k l) <-> In a l).
Proof.
  intros [H _]. split; apply Permutation_in; [|symmetry]; auto.
Qed.

Lemma mapM_ext_in {A B} (f g : A -> option B) l : (forall a, In a l -> f a = g a) -> mapM f l = mapM g l.
Proof. induction l; intros H; cbn; auto. rewrite H by (left; auto). rewrite IHl; auto. intros; apply H; right; auto. Qed.

Lemma mapM_map {A B C} (h : A -> B) (f : B -> option C) l : mapM f (map h l) = mapM (fun a => f (h a)) l.
Proof. induction l; cbn; auto. rewrite IHl; auto. Qed.

Lemma mapM_perm {A B} (f : A -> option B) l l' : Permutation l l' -> forall r, mapM f l = Some r ->
  exists r', mapM f l' = Some r' /\ Permutation r r'.
Proof.
  induction 1; intros r Hr.
  - cbn in Hr. injection Hr as <-. exists []; auto.
  - cbn in *. destruct (f x); [|discriminate]. cbn in *. destruct (mapM f l) eqn:E; [|discriminate].
    cbn in Hr. injection Hr as <-. destruct (IHPermutation _ eq_refl) as [r' [E' P]]. rewrite E'. cbn. eauto.
  - cbn in *. destruct (f y); [|discriminate]. cbn in *. destruct (f x); [|discriminate]. cbn in *.
    destruct (mapM f l); [|discriminate]. cbn in *. injection Hr as <-. eexists; split; [reflexivity|]. constructor.
  - destruct (IHPermutation1 _ Hr) as [r1 [E1 P1]]. destruct (IHPermutation2 _ E1) as [r2 [E2 P2]].
    exists r2; split; auto. etransitivity; eauto.
Qed.

Lemma mapM_total {A B} (f : A -> option B) l : (forall a, In a l -> exists b, f a = Some b) -> exists r, mapM f l = Some r.
Proof.
  induction l; intros H; cbn; eauto. destruct (H a (or_introl eq_refl)) as [b Eb]. rewrite Eb; cbn.
  destruct IHl as [r Er]; [intros; apply H; right; auto|]. rewrite Er; cbn; eauto.
Qed.

Lemma mapM_cols {V} (D : list (list (list V))) (c l : nat) :
  mapM (fun col => rd2 col c l) D = mapM (fun f => rd3 D f c l) (seq 0 (length D)).
Proof.
  assert (G : forall (D pre : list (list (list V))), mapM (fun col => rd2 col c l) D = mapM (fun f => rd3 (pre ++ D) f c l) (seq (length pre) (length D))).
  { clear D. induction D as [|col D IH]; intros pre; cbn [length seq mapM]; auto.
    unfold rd3 at 1, rd at 1. rewrite nth_error_app2, Nat.sub_diag by lia. cbn [nth_error obind].
    specialize (IH (pre ++ [col])). rewrite app_length, <- app_assoc in IH. cbn in IH.
    replace (length pre + 1) with (S (length pre)) in IH by lia. rewrite IH; auto. }
  apply (G D []).
Qed.


Lemma mapM_app {A B} (f : A -> option B) l1 l2 :
  mapM f (l1 ++ l2) = (a <- mapM f l1 ;; b <- mapM f l2 ;; Some (a ++ b)).
Proof.
  induction l1 as [|x l1 IH]; cbn; [destruct (mapM f l2); auto|].
  destruct (f x); cbn; auto. rewrite IH. destruct (mapM f l1); cbn; auto. destruct (mapM f l2); auto.
Qed.

Lemma mapM_nth_seq {A B} (f : A -> option B) (h : nat -> option B) l :
  (forall k a, nth_error l k = Some a -> f a = h k) -> mapM f l = mapM h (seq 0 (length l)).
Proof.
  intros H.
  assert (G : forall l s, (forall k a, nth_error l k = Some a -> f a = h (s + k)) ->
     mapM f l = mapM h (seq s (length l))).
  { clear l H. induction l as [|x l IH]; intros s H; cbn; auto.
    rewrite (H 0 x eq_refl), Nat.add_0_r. rewrite (IH (S s)); auto.
    intros k a Hk. rewrite (H (S k) a Hk). f_equal; lia. }
  apply G. exact H.
Qed.

Lemma seq_shift_map a n : seq a n = map (fun k => a + k) (seq 0 n).
Proof.
  apply nth_error_ext. intros i. rewrite nth_error_map_seq, nth_error_seq.
  destruct (i <? n); auto.
Qed.

Lemma filter_true {A} (f : A -> bool) l : (forall a, In a l -> f a = true) -> filter f l = l.
Proof.
  induction l; intros H; cbn; auto. rewrite (H a) by (left; auto). f_equal. apply IHl. intros; apply H; right; auto.
Qed.
