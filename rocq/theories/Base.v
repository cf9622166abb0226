(** Common vocabulary of the model: the option monad (failure = an access
    outside an allocation or a failed NESOASSERT), flat device memory, kernels
    as folds over schedules, and C++ for-loops.  Nothing here is specific to
    one file of /repo: it models the C++/SYCL constructs themselves. *)
From Coq Require Import List Arith Lia Bool ZArith Permutation.
Import ListNotations.

Definition obind {A B} (x : option A) (f : A -> option B) : option B :=
  match x with Some a => f a | None => None end.

Notation "x <- e ;; k" := (obind e (fun x => k))
  (at level 61, e at next level, right associativity).

(** A sequence of steps, each of which may fail. *)
Fixpoint foldM {A S} (f : S -> A -> option S) (s : S) (l : list A) : option S :=
  match l with
  | [] => Some s
  | a :: l' => s' <- f s a ;; foldM f s' l'
  end.

(** Map with failure. *)
Fixpoint mapM {A B} (f : A -> option B) (l : list A) : option (list B) :=
  match l with
  | [] => Some []
  | a :: l' => b <- f a ;; bs <- mapM f l' ;; Some (b :: bs)
  end.

(** [p[i]] : a read outside the allocation is a failure. *)
Definition rd {A} (m : list A) (i : nat) : option A := nth_error m i.

(** [p[i] = v] : a write outside the allocation is a failure. *)
Fixpoint upd {A} (m : list A) (i : nat) (v : A) : option (list A) :=
  match m, i with
  | [], _ => None
  | _ :: m', 0 => Some (v :: m')
  | x :: m', S i' => r <- upd m' i' v ;; Some (x :: r)
  end.

(** Writes [(address, value)] performed in the given order. *)
Definition scatter {A} (m : list A) (ws : list (nat * A)) : option (list A) :=
  foldM (fun m w => upd m (fst w) (snd w)) m ws.

(** [for (ix = a; ix < e; ix += s)]: the values taken by [ix].  The fuel [e]
    suffices because [s >= 1]. *)
Fixpoint for_loop_fuel (fuel a e s : nat) : list nat :=
  match fuel with
  | 0 => []
  | S f => if a <? e then a :: for_loop_fuel f (a + s) e s else []
  end.
Definition for_loop (a e s : nat) : list nat := for_loop_fuel e a e s.

(** The slice [p + first .. p + last). *)
Definition slice {A} (m : list A) (first last : nat) : option (list A) :=
  mapM (rd m) (seq first (last - first)).

(** NESOASSERT(b, ...) and other failing guards. *)
Definition assert (b : bool) : option unit := if b then Some tt else None.

(* ------------------------------------------------------------------ *)
(** Facts about the vocabulary. *)

Lemma foldM_app {A S} (f : S -> A -> option S) l1 l2 s :
  foldM f s (l1 ++ l2) = (s' <- foldM f s l1 ;; foldM f s' l2).
Proof.
  revert s; induction l1 as [|a l1 IH]; intros s; cbn; [reflexivity|].
  destruct (f s a); cbn; auto.
Qed.

Lemma upd_length {A} (m m' : list A) i v : upd m i v = Some m' -> length m' = length m.
Proof.
  revert i m'; induction m as [|x m IH]; intros [|i] m'; cbn; try discriminate.
  - intros [= <-]; reflexivity.
  - destruct (upd m i v) eqn:E; cbn; [|discriminate]. intros [= <-]; cbn. erewrite IH; eauto.
Qed.

Lemma upd_some {A} (m : list A) i v : i < length m -> exists m', upd m i v = Some m'.
Proof.
  revert i; induction m as [|x m IH]; intros [|i] H; cbn in *; try lia; eauto.
  destruct (IH i) as [m' E]; [lia|]. rewrite E; cbn; eauto.
Qed.

Lemma upd_none {A} (m : list A) i v : length m <= i -> upd m i v = None.
Proof.
  revert i; induction m as [|x m IH]; intros [|i] H; cbn in *; try lia; auto.
  rewrite IH by lia; reflexivity.
Qed.

Lemma upd_lt {A} (m m' : list A) i v : upd m i v = Some m' -> i < length m.
Proof.
  intros H. destruct (le_lt_dec (length m) i) as [L|L]; [|exact L].
  rewrite upd_none in H by exact L; discriminate.
Qed.

Lemma upd_nth {A} (m m' : list A) i v j : upd m i v = Some m' ->
  nth_error m' j = if j =? i then Some v else nth_error m j.
Proof.
  revert i j m'; induction m as [|x m IH]; intros [|i] [|j] m'; cbn; try discriminate.
  - intros [= <-]; reflexivity.
  - intros [= <-]; reflexivity.
  - destruct (upd m i v); cbn; [|discriminate]. intros [= <-]; reflexivity.
  - destruct (upd m i v) eqn:E; cbn; [|discriminate]. intros [= <-]; cbn. erewrite IH; eauto.
Qed.

Lemma upd_nth_eq {A} (m m' : list A) i v : upd m i v = Some m' -> nth_error m' i = Some v.
Proof. intros H. rewrite (upd_nth _ _ _ _ i H), Nat.eqb_refl; reflexivity. Qed.

Lemma upd_nth_neq {A} (m m' : list A) i v j : upd m i v = Some m' -> j <> i ->
  nth_error m' j = nth_error m j.
Proof. intros H N. rewrite (upd_nth _ _ _ _ j H). destruct (Nat.eqb_spec j i); congruence. Qed.

Lemma nth_error_ext {A} (l1 l2 : list A) :
  (forall i, nth_error l1 i = nth_error l2 i) -> l1 = l2.
Proof.
  revert l2; induction l1 as [|x l1 IH]; intros [|y l2] H; auto.
  - specialize (H 0); discriminate.
  - specialize (H 0); discriminate.
  - f_equal; [specialize (H 0); cbn in H; congruence|].
    apply IH; intros i; apply (H (S i)).
Qed.

Lemma nth_error_some_lt {A} (l : list A) i x : nth_error l i = Some x -> i < length l.
Proof. intros H; apply nth_error_Some; congruence. Qed.

Lemma nth_error_lt_some {A} (l : list A) i : i < length l -> exists x, nth_error l i = Some x.
Proof. intros H; destruct (nth_error l i) eqn:E; eauto. apply nth_error_None in E; lia. Qed.

Lemma nth_error_seq a n i : nth_error (seq a n) i = if i <? n then Some (a + i) else None.
Proof.
  revert a i; induction n as [|n IH]; intros a [|i]; try reflexivity.
  - cbn. rewrite Nat.add_0_r; reflexivity.
  - cbn [seq nth_error]. rewrite IH.
    destruct (Nat.ltb_spec i n), (Nat.ltb_spec (S i) (S n)); try lia; auto. f_equal; lia.
Qed.

Lemma nth_error_map_seq {B} (f : nat -> B) a n i :
  nth_error (map f (seq a n)) i = if i <? n then Some (f (a + i)) else None.
Proof. rewrite nth_error_map, nth_error_seq. destruct (i <? n); reflexivity. Qed.

(** Scatter with distinct in-range addresses: succeeds, and the order is
    irrelevant. *)
Lemma scatter_some {A} (ws : list (nat * A)) : forall m,
  (forall w, In w ws -> fst w < length m) ->
  exists m', scatter m ws = Some m' /\ length m' = length m.
Proof.
  induction ws as [|[i v] ws IH]; intros m H; cbn.
  - eauto.
  - destruct (upd_some m i v) as [m1 E1]; [apply (H (i, v)); left; auto|].
    cbn. rewrite E1; cbn.
    destruct (IH m1) as [m' [E' L']].
    + intros w Hw. rewrite (upd_length _ _ _ _ E1). apply H; right; auto.
    + exists m'. split; auto. rewrite L'; eapply upd_length; eauto.
Qed.

Lemma scatter_length {A} (ws : list (nat * A)) : forall m m',
  scatter m ws = Some m' -> length m' = length m.
Proof.
  induction ws as [|[i v] ws IH]; intros m m'; cbn.
  - intros [= <-]; auto.
  - destruct (upd m i v) as [m1|] eqn:E1; cbn; [|discriminate].
    intros H. rewrite (IH _ _ H). eapply upd_length; eauto.
Qed.

Lemma scatter_in_range {A} (ws : list (nat * A)) : forall m m',
  scatter m ws = Some m' -> forall w, In w ws -> fst w < length m.
Proof.
  induction ws as [|[i v] ws IH]; intros m m'; cbn; [tauto|].
  destruct (upd m i v) as [m1|] eqn:E1; cbn; [|discriminate].
  intros H w [<-|Hw].
  - eapply upd_lt; eauto.
  - rewrite <- (upd_length _ _ _ _ E1). eapply IH; eauto.
Qed.

Lemma scatter_notin {A} (ws : list (nat * A)) : forall m m' j,
  scatter m ws = Some m' -> ~ In j (map fst ws) -> nth_error m' j = nth_error m j.
Proof.
  induction ws as [|[i v] ws IH]; intros m m' j; cbn.
  - intros [= <-]; auto.
  - destruct (upd m i v) as [m1|] eqn:E1; cbn; [|discriminate].
    intros H N. rewrite (IH _ _ j H) by tauto.
    eapply upd_nth_neq; [exact E1|]. intros ->; tauto.
Qed.

Lemma scatter_in {A} (ws : list (nat * A)) : forall m m' i v,
  scatter m ws = Some m' -> NoDup (map fst ws) -> In (i, v) ws -> nth_error m' i = Some v.
Proof.
  induction ws as [|[j w] ws IH]; intros m m' i v; cbn; [tauto|].
  destruct (upd m j w) as [m1|] eqn:E1; cbn; [|discriminate].
  intros H ND [[= -> ->]|Hin]; inversion ND; subst.
  - rewrite (scatter_notin _ _ _ i H) by auto. eapply upd_nth_eq; eauto.
  - eapply IH; eauto.
Qed.

Lemma scatter_perm {A} (ws ws' : list (nat * A)) m :
  Permutation ws ws' -> NoDup (map fst ws) -> scatter m ws = scatter m ws'.
Proof.
  intros P ND.
  destruct (scatter m ws) as [m1|] eqn:E1.
  - destruct (scatter_some ws' m) as [m2 [E2 L2]].
    { intros w Hw. eapply scatter_in_range; eauto. eapply Permutation_in; [symmetry|]; eauto. }
    rewrite E2. f_equal. apply nth_error_ext; intros j.
    assert (ND' : NoDup (map fst ws')).
    { eapply Permutation_NoDup; [apply Permutation_map; eauto|auto]. }
    destruct (in_dec Nat.eq_dec j (map fst ws)) as [I|I].
    + apply in_map_iff in I as [[i v] [<- I]]; cbn.
      rewrite (scatter_in _ _ _ i v E1 ND I).
      symmetry; eapply scatter_in; eauto. eapply Permutation_in; eauto.
    + rewrite (scatter_notin _ _ _ j E1 I).
      symmetry; eapply scatter_notin; eauto.
      intros C; apply I. eapply Permutation_in; [apply Permutation_map; symmetry; eauto|auto].
  - destruct (scatter m ws') as [m2|] eqn:E2; auto.
    destruct (scatter_some ws m) as [m3 [E3 _]]; [|congruence].
    intros w Hw. eapply scatter_in_range; eauto. eapply Permutation_in; eauto.
Qed.

Lemma mapM_some {A B} (f : A -> option B) (g : A -> B) l :
  (forall a, In a l -> f a = Some (g a)) -> mapM f l = Some (map g l).
Proof.
  induction l as [|a l IH]; intros H; cbn; auto.
  rewrite H by (left; auto). cbn. rewrite IH by (intros; apply H; right; auto). reflexivity.
Qed.

Lemma mapM_length {A B} (f : A -> option B) l : forall r, mapM f l = Some r -> length r = length l.
Proof.
  induction l as [|a l IH]; intros r; cbn.
  - intros [= <-]; auto.
  - destruct (f a); cbn; [|discriminate]. destruct (mapM f l); cbn; [|discriminate].
    intros [= <-]; cbn; auto.
Qed.

Lemma mapM_nth {A B} (f : A -> option B) l : forall r i a,
  mapM f l = Some r -> nth_error l i = Some a -> f a = nth_error r i.
Proof.
  induction l as [|x l IH]; intros r i a; cbn.
  - destruct i; discriminate.
  - destruct (f x) eqn:E; cbn; [|discriminate]. destruct (mapM f l) eqn:E2; cbn; [|discriminate].
    intros [= <-]. destruct i; cbn; [intros [= <-]; auto|eauto].
Qed.

Lemma mapM_in {A B} (f : A -> option B) l : forall r a,
  mapM f l = Some r -> In a l -> exists b, f a = Some b /\ In b r.
Proof.
  intros r a E H. apply In_nth_error in H as [i Hi].
  pose proof (mapM_nth f l r i a E Hi) as Hn.
  assert (i < length r) as L.
  { rewrite (mapM_length f l r E). eapply nth_error_some_lt; eauto. }
  destruct (nth_error_lt_some r i L) as [b Hb]. exists b. rewrite Hn. split; auto.
  eapply nth_error_In; eauto.
Qed.

Lemma slice_some {A} (m : list A) a e : a <= e -> e <= length m ->
  slice m a e = Some (firstn (e - a) (skipn a m)).
Proof.
  intros H1 H2. unfold slice.
  remember (e - a) as n eqn:Hn. assert (a + n <= length m) by lia. clear Hn H1 H2 e.
  revert a H; induction n as [|n IH]; intros a H; cbn; auto.
  destruct (nth_error_lt_some m a) as [x Hx]; [lia|].
  unfold rd at 1. rewrite Hx. cbn. rewrite (IH (S a)) by lia. cbn.
  f_equal. clear IH H. revert m Hx; induction a as [|a IHa]; intros [|y m] Hx; cbn in *; try discriminate.
  - injection Hx as ->; auto.
  - apply IHa; auto.
Qed.

Lemma for_loop_fuel_in s : 1 <= s -> forall fuel a e ix, e <= a + fuel ->
  (In ix (for_loop_fuel fuel a e s) <-> a <= ix < e /\ (ix - a) mod s = 0).
Proof.
  intros Hs. induction fuel as [|f IH]; intros a e ix Hf.
  - cbn; split; [tauto|]. intros [? _]; lia.
  - cbn [for_loop_fuel]. destruct (Nat.ltb_spec a e) as [L|L].
    + cbn [In]. rewrite IH by lia. split.
      * intros [<-|[[H1 H2] H3]].
        -- split; [lia|]. rewrite Nat.sub_diag. apply Nat.mod_0_l; lia.
        -- split; [lia|]. replace (ix - a) with ((ix - (a + s)) + 1 * s) by lia.
           rewrite Nat.mod_add by lia; auto.
      * intros [[H1 H2] H3]. destruct (Nat.eq_dec a ix) as [->|N]; [left; auto|right].
        assert (s <= ix - a) as Hge.
        { destruct (le_lt_dec s (ix - a)); auto. rewrite Nat.mod_small in H3 by auto. lia. }
        split; [lia|]. replace (ix - a) with ((ix - (a + s)) + 1 * s) in H3 by lia.
        rewrite Nat.mod_add in H3 by lia; auto.
    + cbn; split; [tauto|]. intros [? _]; lia.
Qed.

Lemma for_loop_in s a e ix : 1 <= s ->
  (In ix (for_loop a e s) <-> a <= ix < e /\ (ix - a) mod s = 0).
Proof. intros Hs; apply for_loop_fuel_in; lia. Qed.

Lemma for_loop_fuel_ge s : forall fuel a e ix, In ix (for_loop_fuel fuel a e s) -> a <= ix.
Proof.
  induction fuel as [|f IH]; intros a e ix; cbn [for_loop_fuel In]; [tauto|].
  destruct (a <? e); cbn [for_loop_fuel In]; [|tauto]. intros [->|H]; [lia|]. apply IH in H; lia.
Qed.

Lemma for_loop_nodup s a e : 1 <= s -> NoDup (for_loop a e s).
Proof.
  intros Hs; unfold for_loop. generalize e at 1 as fuel. intros fuel. revert a.
  induction fuel as [|f IH]; intros a; cbn [for_loop_fuel]; [constructor|].
  destruct (a <? e); [|constructor]. constructor; auto.
  intros H; apply for_loop_fuel_ge in H; lia.
Qed.

Lemma NoDup_map_inj {A B} (f : A -> B) l :
  (forall x y, In x l -> In y l -> f x = f y -> x = y) -> NoDup l -> NoDup (map f l).
Proof.
  induction l as [|a l IH]; intros Hi ND; cbn; [constructor|].
  inversion ND; subst. constructor.
  - intros H; apply in_map_iff in H as [y [E Hy]].
    apply Hi in E; [subst; tauto|right; auto|left; auto].
  - apply IH; auto. intros x y Hx Hy; apply Hi; right; auto.
Qed.

Lemma NoDup_map_fst_inj {A B} (l : list (A * B)) a b1 b2 :
  NoDup (map fst l) -> In (a, b1) l -> In (a, b2) l -> b1 = b2.
Proof.
  induction l as [|[x y] l IH]; cbn; [tauto|]. intros ND H1 H2; inversion ND; subst.
  destruct H1 as [E1|H1], H2 as [E2|H2].
  - congruence.
  - injection E1 as -> ->. exfalso; apply H3. apply in_map_iff; exists (a, b2); auto.
  - injection E2 as -> ->. exfalso; apply H3. apply in_map_iff; exists (a, b1); auto.
  - eauto.
Qed.

Lemma NoDup_app_intro {A} (l1 l2 : list A) :
  NoDup l1 -> NoDup l2 -> (forall x, In x l1 -> ~ In x l2) -> NoDup (l1 ++ l2).
Proof.
  induction l1 as [|a l1 IH]; intros N1 N2 H; cbn; auto.
  inversion N1; subst. constructor.
  - rewrite in_app_iff; intros [C|C]; [tauto|]. eapply H; [left; reflexivity|auto].
  - apply IH; auto. intros x Hx; apply H; right; auto.
Qed.

Lemma NoDup_flat_map {A B} (f : A -> list B) l :
  NoDup l -> (forall a, In a l -> NoDup (f a)) ->
  (forall a1 a2 b, In a1 l -> In a2 l -> In b (f a1) -> In b (f a2) -> a1 = a2) ->
  NoDup (flat_map f l).
Proof.
  induction l as [|a l IH]; intros ND H1 H2; cbn; [constructor|].
  inversion ND; subst. apply NoDup_app_intro.
  - apply H1; left; auto.
  - apply IH; auto.
    + intros; apply H1; right; auto.
    + intros a1 a2 b I1 I2; apply H2; right; auto.
  - intros x Hx C. apply in_flat_map in C as [a2 [I2 C]].
    assert (a = a2) by (eapply H2; eauto; [left; auto|right; auto]). subst; tauto.
Qed.


Lemma nth_error_skipn {A} (l : list A) a i : nth_error (skipn a l) i = nth_error l (a + i).
Proof. revert l; induction a as [|a IH]; intros [|x l]; cbn; auto. destruct i; auto. Qed.

Lemma nth_error_firstn {A} (l : list A) n i :
  nth_error (firstn n l) i = if i <? n then nth_error l i else None.
Proof.
  revert l i; induction n as [|n IH]; intros l i.
  - cbn. destruct i; auto.
  - destruct l as [|x l]; [destruct (i <? S n), i; reflexivity|].
    destruct i as [|i]; [reflexivity|]. cbn [firstn nth_error]. rewrite IH.
    destruct (Nat.ltb_spec i n), (Nat.ltb_spec (S i) (S n)); auto; lia.
Qed.

Lemma firstn_add {A} a k (l : list A) : firstn (a + k) l = firstn a l ++ firstn k (skipn a l).
Proof.
  revert l; induction a as [|a IH]; intros l; cbn; auto.
  destruct l as [|x l]; cbn; [destruct k; auto|]. rewrite IH; auto.
Qed.

(* ------------------------------------------------------------------ *)
(** The execution environment of device code.  It is an arbitrary parameter of
    the model: [ord k l] is the order in which the work items [l] of kernel
    launch [k] take effect, [junk k i] is the content of element [i] of the
    uninitialised buffer number [k], [local_size] and [max_compute_units] are
    the parameters LOOP_LOCAL_SIZE and MAX_COMPUTE_UNITS of
    src/compute_target.cpp. *)
Record device := {
  ord : forall A : Type, nat -> list A -> list A;
  junk : nat -> nat -> Z;
  local_size : nat;
  max_compute_units : nat
}.
Arguments ord d {A} k l.

(** The scheduler runs each work item exactly once; nothing else is assumed. *)
Definition device_ok (d : device) : Prop :=
  (forall (A : Type) k (l : list A), Permutation (ord d k l) l) /\
  1 <= local_size d.

(** [realloc_no_copy(n)] of a pooled buffer (include/neso_particles/
    device_buffers.hpp): [n] elements of arbitrary content. *)
Definition fresh (d : device) (k n : nat) : list nat :=
  map (fun i => Z.to_nat (junk d k i)) (seq 0 n).
Definition freshZ (d : device) (k n : nat) : list Z := map (junk d k) (seq 0 n).

Lemma fresh_length d k n : length (fresh d k n) = n.
Proof. unfold fresh. rewrite map_length, seq_length; auto. Qed.
Lemma freshZ_length d k n : length (freshZ d k n) = n.
Proof. unfold freshZ. rewrite map_length, seq_length; auto. Qed.

(** [p[i][j]] and [p[i][j][k]]. *)
Definition rd2 {A} (m : list (list A)) (i j : nat) : option A := r <- rd m i ;; rd r j.
Definition rd3 {A} (m : list (list (list A))) (i j k : nat) : option A := r <- rd m i ;; rd2 r j k.
Definition upd2 {A} (m : list (list A)) (i j : nat) (v : A) : option (list (list A)) :=
  r <- rd m i ;; r' <- upd r j v ;; upd m i r'.
Definition upd3 {A} (m : list (list (list A))) (i j k : nat) (v : A) : option (list (list (list A))) :=
  r <- rd m i ;; r' <- upd2 r j k v ;; upd m i r'.

(** Integer subtraction whose result the code uses as a size or an index: a
    negative result is a failure. *)
Definition sub_ (a b : nat) : option nat := if a <? b then None else Some (a - b).

Lemma upd2_rd2 {A} (m m' : list (list A)) i j v : upd2 m i j v = Some m' ->
  forall i' j', rd2 m' i' j' = if (i' =? i) && (j' =? j) then Some v else rd2 m i' j'.
Proof.
  unfold upd2, rd2, rd. intros H i' j'.
  destruct (nth_error m i) as [r|] eqn:E; cbn in H; [|discriminate].
  destruct (upd r j v) as [r'|] eqn:E2; cbn in H; [|discriminate].
  rewrite (upd_nth _ _ _ _ i' H). destruct (Nat.eqb_spec i' i) as [->|N]; cbn [andb obind].
  - rewrite E. cbn. apply (upd_nth _ _ _ _ j' E2).
  - reflexivity.
Qed.

(** The shape of a two-level array: the lengths of its rows. *)
Definition shape2 {A} (m : list (list A)) : list nat := map (@length A) m.
Definition shape3 {A} (m : list (list (list A))) : list (list nat) := map shape2 m.

Lemma upd_shape {A B} (g : A -> B) (m m' : list A) i a a' : upd m i a' = Some m' ->
  nth_error m i = Some a -> g a' = g a -> map g m' = map g m.
Proof.
  intros H E G. apply nth_error_ext; intros j. rewrite !nth_error_map, (upd_nth _ _ _ _ j H).
  destruct (Nat.eqb_spec j i) as [->|]; auto. rewrite E; cbn; congruence.
Qed.

Lemma upd2_shape {A} (m m' : list (list A)) i j v : upd2 m i j v = Some m' -> shape2 m' = shape2 m.
Proof.
  unfold upd2, rd. intros H.
  destruct (nth_error m i) as [r|] eqn:E; cbn in H; [|discriminate].
  destruct (upd r j v) as [r'|] eqn:E2; cbn in H; [|discriminate].
  eapply upd_shape; eauto. eapply upd_length; eauto.
Qed.

Lemma upd2_some {A} (m : list (list A)) i j v x : rd2 m i j = Some x -> exists m', upd2 m i j v = Some m'.
Proof.
  unfold rd2, upd2, rd. intros H.
  destruct (nth_error m i) as [r|] eqn:E; cbn in *; [|discriminate].
  destruct (upd_some r j v) as [r' E2]; [eapply nth_error_some_lt; eauto|]. rewrite E2; cbn.
  apply upd_some. eapply nth_error_some_lt; eauto.
Qed.

Lemma upd3_rd3 {A} (m m' : list (list (list A))) i j k v : upd3 m i j k v = Some m' ->
  forall i' j' k', rd3 m' i' j' k' =
    if (i' =? i) && (j' =? j) && (k' =? k) then Some v else rd3 m i' j' k'.
Proof.
  unfold upd3, rd3. intros H i' j' k'. unfold rd in *.
  destruct (nth_error m i) as [r|] eqn:E; cbn in H; [|discriminate].
  destruct (upd2 r j k v) as [r'|] eqn:E2; cbn in H; [|discriminate].
  rewrite (upd_nth _ _ _ _ i' H). destruct (Nat.eqb_spec i' i) as [->|N]; cbn [andb obind].
  - rewrite E. cbn. apply (upd2_rd2 _ _ _ _ _ E2).
  - reflexivity.
Qed.

Lemma upd3_shape {A} (m m' : list (list (list A))) i j k v : upd3 m i j k v = Some m' -> shape3 m' = shape3 m.
Proof.
  unfold upd3, rd. intros H.
  destruct (nth_error m i) as [r|] eqn:E; cbn in H; [|discriminate].
  destruct (upd2 r j k v) as [r'|] eqn:E2; cbn in H; [|discriminate].
  eapply upd_shape; eauto. eapply upd2_shape; eauto.
Qed.

Lemma upd3_some {A} (m : list (list (list A))) i j k v x : rd3 m i j k = Some x -> exists m', upd3 m i j k v = Some m'.
Proof.
  unfold rd3, upd3. unfold rd at 1. intros H.
  destruct (nth_error m i) as [r|] eqn:E; cbn in *; [|discriminate].
  destruct (upd2_some r j k v x H) as [r' E2]. unfold rd at 1; rewrite E; cbn. rewrite E2; cbn.
  apply upd_some. eapply nth_error_some_lt; eauto.
Qed.

Lemma shape2_rd2 {A} (m m' : list (list A)) i j x : shape2 m' = shape2 m -> rd2 m i j = Some x ->
  exists y, rd2 m' i j = Some y.
Proof.
  unfold rd2, rd, shape2. intros S H.
  destruct (nth_error m i) as [r|] eqn:E; cbn in *; [|discriminate].
  assert (nth_error (map (@length A) m') i = Some (length r)) as S'.
  { rewrite S, nth_error_map, E; auto. }
  rewrite nth_error_map in S'. destruct (nth_error m' i) as [r'|]; cbn in *; [|discriminate].
  apply nth_error_lt_some. injection S' as S'. rewrite S'. eapply nth_error_some_lt; eauto.
Qed.

Lemma shape3_rd3 {A} (m m' : list (list (list A))) i j k x : shape3 m' = shape3 m -> rd3 m i j k = Some x ->
  exists y, rd3 m' i j k = Some y.
Proof.
  unfold rd3, shape3. intros S H. unfold rd in *.
  destruct (nth_error m i) as [r|] eqn:E; cbn in *; [|discriminate].
  assert (nth_error (map shape2 m') i = Some (shape2 r)) as S'.
  { rewrite S, nth_error_map, E; auto. }
  rewrite nth_error_map in S'. destruct (nth_error m' i) as [r'|]; cbn in *; [|discriminate].
  injection S' as S'. eapply shape2_rd2; eauto.
Qed.

Lemma rd3_ext {A} (m m' : list (list (list A))) : shape3 m' = shape3 m ->
  (forall i j k, rd3 m' i j k = rd3 m i j k) -> m' = m.
Proof.
  intros S H. apply nth_error_ext; intros i.
  assert (S1 : nth_error (shape3 m') i = nth_error (shape3 m) i) by congruence.
  unfold shape3 in S1. rewrite !nth_error_map in S1.
  destruct (nth_error m' i) as [r'|] eqn:E', (nth_error m i) as [r|] eqn:E; cbn in S1; try discriminate; auto.
  f_equal. injection S1 as S1. apply nth_error_ext; intros j.
  assert (S2 : nth_error (shape2 r') j = nth_error (shape2 r) j) by congruence.
  unfold shape2 in S2. rewrite !nth_error_map in S2.
  destruct (nth_error r' j) as [c'|] eqn:F', (nth_error r j) as [c|] eqn:F; cbn in S2; try discriminate; auto.
  f_equal. apply nth_error_ext; intros k. specialize (H i j k).
  unfold rd3, rd2, rd in H. rewrite E, E' in H; cbn in H. rewrite F, F' in H; auto.
Qed.
