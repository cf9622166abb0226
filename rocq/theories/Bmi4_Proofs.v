(** Proofs about BoundaryMeshInterface: the exchange of values in both directions. *)
From Coq Require Import List Arith Lia ZArith Bool Permutation Sorted.
Import ListNotations.
From Verif Require Import Base Kernel Bmi_Model Bmi_Spec Bmi_Proofs Bmi2_Proofs Bmi3_Proofs.

(* ------------------------------------------------------------------ *)
(** Blocks of one length. *)

Lemma block_len {A T} (V : A -> list T) n l : (forall x, In x l -> length (V x) = n) -> length (flat_map V l) = length l * n.
Proof.
  induction l as [|x l IH]; intros H; cbn; auto. rewrite app_length, IH, H; auto; [left; auto|intros; apply H; right; auto].
Qed.

Lemma block_nth {A T} (V : A -> list T) n l rest : (forall x, In x l -> length (V x) = n) -> forall k x c, nth_error l k = Some x -> c < n ->
  nth_error (flat_map V l ++ rest) (k * n + c) = nth_error (V x) c.
Proof.
  induction l as [|y l IH]; intros H [|k] x c E L; cbn in E; try discriminate.
  - injection E as ->. cbn. rewrite <- app_assoc, nth_error_app1; auto. rewrite H; auto; left; auto.
  - cbn [flat_map]. rewrite <- app_assoc, nth_error_app2 by (rewrite H by (left; auto); nia).
    rewrite H by (left; auto). replace (S k * n + c - n) with (k * n + c) by nia. apply IH; auto. intros; apply H; right; auto.
Qed.

Lemma block_shape {A T} (V : A -> list T) n l (m : list T) : (forall x, In x l -> length (V x) = n) -> length l * n <= length m ->
  (forall k x c, nth_error l k = Some x -> c < n -> nth_error m (k * n + c) = nth_error (V x) c) ->
  exists rest, m = flat_map V l ++ rest /\ length rest = length m - length l * n.
Proof.
  intros H L E. exists (skipn (length l * n) m). split; [|apply skipn_length].
  rewrite <- (firstn_skipn (length l * n) m) at 1. f_equal. apply nth_error_ext. intros i.
  rewrite nth_error_firstn. destruct (Nat.ltb_spec i (length l * n)) as [Li|Li].
  - assert (Hn : n <> 0) by nia. assert (Ei : i = (i / n) * n + i mod n) by (rewrite Nat.mul_comm; apply Nat.div_mod; auto).
    assert (Lm : i mod n < n) by (apply Nat.mod_upper_bound; auto).
    assert (Lk : i / n < length l) by (apply Nat.div_lt_upper_bound; nia).
    remember (i / n) as k. remember (i mod n) as c. clear Heqk Heqc. subst i.
    destruct (nth_error_lt_some l k Lk) as [x Ex]. rewrite (E _ x) by auto.
    rewrite <- (app_nil_r (flat_map V l)). symmetry. apply (block_nth V n l [] H); auto.
  - symmetry. apply nth_error_None. rewrite (block_len V n); auto.
Qed.

Lemma in_prod_seq a b i j : In (i, j) (list_prod (seq 0 a) (seq 0 b)) <-> i < a /\ j < b.
Proof. rewrite in_prod_iff, !in_seq. lia. Qed.

Lemma in_ord_prod d k a b i j : device_ok d -> (In (i, j) (ord d k (list_prod (seq 0 a) (seq 0 b))) <-> i < a /\ j < b).
Proof. intros H. rewrite (in_ord d k _ _ H). apply in_prod_seq. Qed.

Lemma idx_inj n i j c e : c < n -> e < n -> i * n + c = j * n + e -> i = j /\ c = e.
Proof. intros. assert (i = j) by nia. subst. lia. Qed.

(** A kernel that fills blocks. *)
Lemma fill_blocks {A T} (V : A -> list T) d kk n (l : list A) lin (f : list T -> nat * nat -> option (list T)) (tgt : nat -> nat) (obj : nat -> A) (out : list T) :
  device_ok d ->
  (forall x, In x l -> length (V x) = n) -> length l * n <= length out ->
  (forall i, i < lin -> nth_error l (tgt i) = Some (obj i)) ->
  (forall k x, nth_error l k = Some x -> exists i, i < lin /\ tgt i = k) ->
  (forall m i c v, length m = length out -> i < lin -> c < n -> nth_error (V (obj i)) c = Some v -> f m (i, c) = upd m (tgt i * n + c) v) ->
  exists rest, foldM f out (ord d kk (list_prod (seq 0 lin) (seq 0 n))) = Some (flat_map V l ++ rest) /\ length rest = length out - length l * n.
Proof.
  intros Hd HV L Ht Hs Hf.
  destruct (Nat.eq_dec (length out) 0) as [E0|N0].
  { (* nothing to write *)
    assert (Z : forall i c, i < lin -> c < n -> False).
    { intros i c Li Lc. pose proof (nth_error_some_lt _ _ _ (Ht i Li)). nia. }
    assert (En : ord d kk (list_prod (seq 0 lin) (seq 0 n)) = []).
    { destruct (ord d kk (list_prod (seq 0 lin) (seq 0 n))) as [|[i c] r] eqn:Eo; auto. exfalso.
      assert (I : In (i, c) (list_prod (seq 0 lin) (seq 0 n))) by (apply (in_ord d kk _ _ Hd); rewrite Eo; left; auto).
      apply in_prod_seq in I. apply (Z i c); tauto. }
    rewrite En. cbn [foldM]. exists out. destruct out; [|discriminate].
    assert (length (flat_map V l) = 0) by (rewrite (block_len V n); auto; cbn in L; lia).
    destruct (flat_map V l); [|discriminate]. auto. }
  destruct out as [|t0 out0]; [cbn in N0; lia|]. set (out := t0 :: out0) in *.
  destruct (foldM_upd f (fun a => tgt (fst a) * n + snd a) (fun a => nth (snd a) (V (obj (fst a))) t0)
    (ord d kk (list_prod (seq 0 lin) (seq 0 n))) out) as [m [E [Lm [Hm _]]]].
  - intros m [i c] Lm I. apply (in_ord_prod d kk _ _ _ _ Hd) in I. destruct I as [Li Lc]. apply Hf; auto.
    cbn [fst snd]. apply nth_error_nth'. rewrite HV; auto. eapply nth_error_In. apply Ht; auto.
  - intros [i c] I. apply (in_ord_prod d kk _ _ _ _ Hd) in I. destruct I as [Li Lc]. cbn [fst snd].
    pose proof (nth_error_some_lt _ _ _ (Ht i Li)). nia.
  - intros [i c] [j e] I J. apply (in_ord_prod d kk _ _ _ _ Hd) in I. apply (in_ord_prod d kk _ _ _ _ Hd) in J.
    cbn [fst snd]. intros Ep. destruct (idx_inj n (tgt i) (tgt j) c e (proj2 I) (proj2 J) Ep) as [E1 ->].
    assert (obj i = obj j) by (pose proof (Ht i (proj1 I)); pose proof (Ht j (proj1 J)); congruence). congruence.
  - rewrite E. destruct (block_shape V n l m HV) as [rest [-> Lr]]; [lia| |exists rest; split; auto; congruence].
    intros k x c Ek Lc. destruct (Hs k x Ek) as [i [Li <-]].
    specialize (Hm (i, c)). cbn [fst snd] in Hm. rewrite Hm; [|apply (in_ord d kk _ _ Hd); apply in_prod_seq; auto].
    assert (obj i = x) by (pose proof (Ht i Li); congruence). subst x. symmetry. apply nth_error_nth'. rewrite HV; auto. eapply nth_error_In. eauto.
Qed.

(* ------------------------------------------------------------------ *)
(** Sums. *)

Section Sums.
  Context {T : Type} (add : T -> T -> T) (zero : T).
  Hypothesis M : commutative_monoid add zero.

  Lemma sum_perm l l' : Permutation l l' -> sum add zero l = sum add zero l'.
  Proof.
    unfold sum. induction 1; cbn; try congruence.
    rewrite !(add_assoc _ _ M). f_equal. apply (add_comm _ _ M).
  Qed.

  Lemma sum_snoc l x : sum add zero (l ++ [x]) = add (sum add zero l) x.
  Proof. rewrite (sum_perm _ (x :: l)); [apply (add_comm _ _ M)|]. symmetry. apply Permutation_cons_append. Qed.

  Lemma foldM_accum {A} (f : list T -> A -> option (list T)) (pos : A -> nat) (val : A -> T) sched m :
    (forall m' a, length m' = length m -> In a sched -> f m' a = (old <- rd m' (pos a) ;; upd m' (pos a) (add old (val a)))) ->
    (forall a, In a sched -> pos a < length m) ->
    exists m', foldM f m sched = Some m' /\ length m' = length m /\
      forall j x, nth_error m j = Some x -> nth_error m' j = Some (add x (sum add zero (map val (filter (fun a => pos a =? j) sched)))).
  Proof.
    intros Hf Hp.
    destruct (foldM_ind f (fun pre m' => length m' = length m /\
      forall j x, nth_error m j = Some x -> nth_error m' j = Some (add x (sum add zero (map val (filter (fun a => pos a =? j) pre))))) sched m) as [m' H].
    - split; auto. intros j x E. cbn. rewrite (add_zero _ _ M). auto.
    - intros pre a post m' E [L H].
      assert (I : In a sched) by (rewrite E; apply in_or_app; right; left; auto).
      rewrite Hf by auto. unfold rd.
      destruct (nth_error_lt_some m (pos a) (Hp a I)) as [x Ex]. rewrite (H _ _ Ex). cbn [obind].
      match goal with |- context [upd m' (pos a) ?v] => destruct (upd_some m' (pos a) v) as [m2 E2]; [rewrite L; apply Hp; auto|] end.
      exists m2. split; auto. split; [rewrite (upd_length _ _ _ _ E2); auto|].
      intros j y Ey. rewrite (upd_nth _ _ _ _ j E2), filter_app, map_app. cbn [filter].
      destruct (Nat.eqb_spec j (pos a)) as [->|N].
      + rewrite Nat.eqb_refl. assert (y = x) by congruence. subst y. cbn [map]. rewrite sum_snoc, (add_assoc _ _ M). auto.
      + destruct (Nat.eqb_spec (pos a) j); [congruence|]. cbn [map]. rewrite app_nil_r. apply H; auto.
    - exists m'. tauto.
  Qed.
End Sums.

Lemma filter_prod_snd {A} (q : A -> bool) (p : A * nat -> bool) n c : forall (l : list A), c < n ->
  (forall a e, In a l -> e < n -> p (a, e) = q a && (e =? c)) ->
  filter p (list_prod l (seq 0 n)) = map (fun a => (a, c)) (filter q l).
Proof.
  intros l Lc. induction l as [|a l IH]; intros H; cbn; auto.
  rewrite filter_app, IH by (intros; apply H; auto; right; auto).
  assert (G : forall s k, s + k <= n -> filter p (map (fun y => (a, y)) (seq s k)) = if q a && (s <=? c) && (c <? s + k) then [(a, c)] else []).
  { intros s k. revert s. induction k as [|k IHk]; intros s L; cbn [seq map filter].
    - destruct (q a); cbn [andb]; auto. destruct (Nat.leb_spec s c), (Nat.ltb_spec c (s + 0)); cbn [andb]; auto; lia.
    - rewrite (H a s) by (try (left; auto); lia). rewrite IHk by lia. destruct (q a); cbn [andb]; auto.
      destruct (Nat.eqb_spec s c) as [->|N].
      + destruct (Nat.leb_spec c c), (Nat.leb_spec (S c) c), (Nat.ltb_spec c (c + S k)); cbn [andb]; auto; lia.
      + destruct (Nat.leb_spec (S s) c), (Nat.leb_spec s c), (Nat.ltb_spec c (S s + k)), (Nat.ltb_spec c (s + S k)); cbn [andb]; auto; lia. }
  rewrite (G 0 n) by lia. destruct (Nat.ltb_spec c (0 + n)); [|lia]. cbn. destruct (q a); reflexivity.
Qed.

Lemma map_filter_nth {A B} (h : A -> B) (q : A -> bool) (hi : nat -> B) (qi : nat -> bool) : forall (P : list A) s,
  (forall i x, nth_error P i = Some x -> hi (s + i) = h x /\ qi (s + i) = q x) ->
  map hi (filter qi (seq s (length P))) = map h (filter q P).
Proof.
  induction P as [|x P IH]; intros s H; cbn; auto.
  destruct (H 0 x eq_refl) as [E1 E2]. rewrite Nat.add_0_r in E1, E2. rewrite E2.
  assert (IH' : map hi (filter qi (seq (S s) (length P))) = map h (filter q P)).
  { apply IH. intros i y E. replace (S s + i) with (s + S i) by lia. apply H. auto. }
  destruct (q x); cbn; rewrite ?E1, IH'; auto.
Qed.

Lemma perm_flat_sub {A B} (dec : forall a b : A, {a = b} + {a <> b}) (G : A -> list B) sub all : NoDup sub -> NoDup all -> (forall s, In s sub -> In s all) ->
  (forall s, In s all -> ~ In s sub -> G s = []) -> Permutation (flat_map G sub) (flat_map G all).
Proof.
  intros N1 N2 I H.
  set (inn := fun s => if in_dec dec s sub then true else false).
  assert (P : Permutation all (sub ++ filter (fun s => negb (inn s)) all)).
  { apply NoDup_Permutation; auto.
    - apply NoDup_app_intro; auto; [apply NoDup_filter; auto|]. intros x I1 I2. apply filter_In in I2. destruct I2 as [_ I2]. unfold inn in I2. destruct (in_dec dec x sub); [discriminate|tauto].
    - intros x. rewrite in_app_iff, filter_In. unfold inn. destruct (in_dec dec x sub); cbn; split; auto; intuition discriminate. }
  rewrite (Permutation_flat_map G P), flat_map_app.
  assert (E : flat_map G (filter (fun s => negb (inn s)) all) = []).
  { assert (Hx : forall s, In s (filter (fun s => negb (inn s)) all) -> G s = []).
    { intros s Is. apply filter_In in Is. destruct Is as [Is Ns]. unfold inn in Ns. destruct (in_dec dec s sub); [discriminate|auto]. }
    clear P. induction (filter (fun s => negb (inn s)) all) as [|y l IH]; cbn; auto. rewrite Hx by (left; auto). apply IH. intros; apply Hx; right; auto. }
  rewrite E, app_nil_r. auto.
Qed.

Lemma combine_flat_map {A B C} (h : A * B -> list C) : forall (l : list A) (m : list B), length l = length m ->
  flat_map h (combine l m) = flat_map (fun s => match nth_error l s, nth_error m s with Some a, Some b => h (a, b) | _, _ => [] end) (seq 0 (length l)).
Proof.
  induction l as [|a l IH]; intros [|b m] L; cbn in *; try discriminate; auto.
  f_equal. rewrite IH by lia. rewrite <- seq_shift. rewrite !flat_map_concat_map, map_map. auto.
Qed.

Lemma filter_eqb_nodup g l : NoDup l -> filter (fun x => (x =? g)%Z) l = if existsb (Z.eqb g) l then [g] else [].
Proof.
  induction 1 as [|x l N Nd IH]; cbn; auto. rewrite Z.eqb_sym, IH. destruct (Z.eqb_spec g x) as [->|Ne]; cbn; auto.
  destruct (existsb (Z.eqb x) l) eqn:E; auto. apply existsb_exists in E. destruct E as [y [I E]]. apply Z.eqb_eq in E. subst. tauto.
Qed.

Lemma rd_lists {A B} (l : list A) (m : list B) r a : length m = length l -> nth_error l r = Some a -> exists b, nth_error m r = Some b.
Proof. intros L E. apply nth_error_lt_some. rewrite L. eapply nth_error_some_lt; eauto. Qed.

Lemma on_ranks_ok {A} w (f : nat -> bmi -> option A) (P : nat -> bmi -> A -> Prop) :
  (forall r b, nth_error w r = Some b -> exists a, f r b = Some a /\ P r b a) ->
  exists l, on_ranks w f = Some l /\ length l = length w /\ forall r b a, nth_error w r = Some b -> nth_error l r = Some a -> P r b a.
Proof.
  intros H. unfold on_ranks.
  destruct (mapM_seq_nth (fun r => b <- rd w r ;; f r b) (length w) (fun r a => exists b, nth_error w r = Some b /\ P r b a)) as [l [E [L Hl]]].
  { intros r Lr. destruct (nth_error_lt_some w r Lr) as [b Eb]. unfold rd. rewrite Eb. cbn [obind].
    destruct (H r b Eb) as [a [Ea Pa]]. eauto. }
  exists l. split; auto. split; auto. intros r b a Eb Ea. destruct (Hl r a Ea) as [b' [Eb' Pa]]. congruence.
Qed.

Section Ex.
  Context {T : Type} (add : T -> T -> T) (zero : T).
  Hypothesis M : commutative_monoid add zero.
  Variables (owner : Z -> nat) (own : list (list Z)).
  Hypothesis own_nodup : forall o, In o own -> NoDup o.
  Variables (known : list (list Z)) (v : nat) (w : list bmi).
  Hypothesis W : winv owner own known v w.
  Variables (ds : nat -> device).
  Hypothesis Hds : forall r, device_ok (ds r).
  Variable ncomp : nat.

  Let S0 := SS w.
  Let R := length w.

  Lemma S_in s d g : In g (S0 s d) <-> s < R /\ In g (nth s known []) /\ owner g = d.
  Proof.
    unfold S0, SS. destruct (nth_error w s) as [b|] eqn:E.
    - destruct (wi_loc _ _ _ _ _ W s b E) as [o [_ [L _]]]. rewrite (li_in _ _ _ _ _ L). apply nth_error_some_lt in E. unfold R. tauto.
    - apply nth_error_None in E. cbn. unfold R. split; [tauto|lia].
  Qed.

  Lemma S_nodup s d : NoDup (S0 s d).
  Proof.
    unfold S0, SS. destruct (nth_error w s) as [b|] eqn:E; [|constructor].
    destruct (wi_loc _ _ _ _ _ W s b E) as [o [_ [L _]]]. apply sorted_nodup, (li_sorted _ _ _ _ _ L).
  Qed.

  Definition dl r := match nth_error w r with Some b => g_dests (m_graph b) | None => [] end.
  Definition sl r := match nth_error w r with Some b => g_srcs (m_graph b) | None => [] end.
  Definition rsl r := match nth_error w r with Some b => g_rsrcs (m_graph b) | None => [] end.
  Definition rdl r := match nth_error w r with Some b => g_rdests (m_graph b) | None => [] end.

  Lemma at_rank r : r < R -> exists b o, nth_error w r = Some b /\ nth_error own r = Some o /\ linv owner own (nth r known []) o b /\ ginv w r b.
  Proof.
    intros L. destruct (nth_error_lt_some w r L) as [b Eb]. destruct (wi_loc _ _ _ _ _ W r b Eb) as [o [Eo [Li _]]].
    exists b, o. split; [auto|]. split; [auto|]. split; [auto|]. apply (wi_g _ _ _ _ _ W); auto.
  Qed.

  Lemma dl_in r d : r < R -> (In d (dl r) <-> exists x, In x (S0 r d)).
  Proof.
    intros L. destruct (at_rank r L) as [b [o [Eb [Eo [Li G]]]]]. unfold dl. rewrite Eb, (gi_d _ _ _ G), (li_keyin _ _ _ _ _ Li).
    split; intros [x I]; exists x; [apply S_in; tauto|apply S_in in I; tauto].
  Qed.
  Lemma dl_nodup r : r < R -> NoDup (dl r).
  Proof. intros L. destruct (at_rank r L) as [b [o [Eb [Eo [Li G]]]]]. unfold dl. rewrite Eb. apply (gi_dn _ _ _ G). Qed.
  Lemma sl_in r s : r < R -> (In s (sl r) <-> exists x, In x (S0 s r)).
  Proof. intros L. destruct (at_rank r L) as [b [o [Eb [Eo [Li G]]]]]. unfold sl. rewrite Eb. apply (gi_s _ _ _ G). Qed.
  Lemma sl_nodup r : r < R -> NoDup (sl r).
  Proof. intros L. destruct (at_rank r L) as [b [o [Eb [Eo [Li G]]]]]. unfold sl. rewrite Eb. apply (gi_sn _ _ _ G). Qed.
  Lemma rdl_perm r : r < R -> Permutation (rdl r) (sl r).
  Proof. intros L. destruct (at_rank r L) as [b [o [Eb [Eo [Li G]]]]]. unfold rdl, sl. rewrite Eb. apply (gi_rd _ _ _ G). Qed.
  Lemma rsl_perm r : r < R -> Permutation (rsl r) (dl r).
  Proof. intros L. destruct (at_rank r L) as [b [o [Eb [Eo [Li G]]]]]. unfold rsl, dl. rewrite Eb. apply (gi_rs _ _ _ G). Qed.

  Lemma edge r s : r < R -> In s (sl r) -> s < R /\ In r (dl s).
  Proof.
    intros L I. apply (sl_in r s L) in I. destruct I as [x I]. assert (Ls : s < R) by (apply S_in in I; tauto). split; auto. apply (dl_in s r Ls). eauto.
  Qed.
  Lemma redge r s : r < R -> In s (rsl r) -> s < R /\ In r (rdl s).
  Proof.
    intros L I. apply (Permutation_in _ (rsl_perm r L)) in I. apply (dl_in r s L) in I. destruct I as [x I].
    assert (Ls : s < R).
    { destruct (at_rank r L) as [b [o [Eb [Eo [Li G]]]]]. apply S_in in I. destruct I as [_ [I E]].
      destruct (li_owned _ _ _ _ _ Li x I) as [o' [Eo' _]]. rewrite E in Eo'. apply nth_error_some_lt in Eo'. unfold R. rewrite (wi_len _ _ _ _ _ W). auto. }
    split; auto. apply (Permutation_in _ (Permutation_sym (rdl_perm s Ls))). apply (sl_in s r Ls). eauto.
  Qed.

  (* ---------------------------------------------------------------- *)
  (** The values a rank has for a facet. *)
  Definition V (srcs : list (list T)) (s : nat) (g : Z) : list T :=
    match nth_error w s, nth_error srcs s with
    | Some b, Some m => match mget Z.eqb g (m_seq b) with Some i => firstn ncomp (skipn (i * ncomp) m) | None => [] end
    | _, _ => []
    end.

  Definition blk srcs s d := flat_map (V srcs s) (S0 s d).

  Lemma V_spec srcs s b m g i : nth_error w s = Some b -> nth_error srcs s = Some m -> mget Z.eqb g (m_seq b) = Some i -> length (m_lin b) * ncomp <= length m ->
    length (V srcs s g) = ncomp /\ forall c, c < ncomp -> nth_error (V srcs s g) c = nth_error m (i * ncomp + c).
  Proof.
    intros Eb Em Ei L. unfold V. rewrite Eb, Em, Ei.
    destruct (wi_loc _ _ _ _ _ W s b Eb) as [o [_ [Li _]]]. apply (li_seq _ _ _ _ _ Li) in Ei. apply nth_error_some_lt in Ei.
    split.
    - rewrite firstn_length, skipn_length. nia.
    - intros c Lc. rewrite nth_error_firstn, nth_error_skipn. destruct (Nat.ltb_spec c ncomp); [auto|lia].
  Qed.

  Lemma V_len srcs s d g : sized w (fun b => length (m_lin b) * ncomp) srcs -> In g (S0 s d) -> length (V srcs s g) = ncomp.
  Proof.
    intros [L H] I. apply S_in in I. destruct I as [Ls [I _]]. destruct (at_rank s Ls) as [b [o [Eb [Eo [Li G]]]]].
    destruct (rd_lists w srcs s b L Eb) as [m Em]. apply (li_lin _ _ _ _ _ Li) in I. destruct (In_nth_error _ _ I) as [i Ei].
    apply (li_seq _ _ _ _ _ Li) in Ei. eapply (V_spec srcs s b m g i); eauto.
  Qed.

  Lemma outids_nodup r : r < R -> NoDup (flat_map (S0 r) (dl r)).
  Proof.
    intros L. apply NoDup_flat_map; [apply dl_nodup; auto| |].
    - intros d _. apply S_nodup.
    - intros d e x _ _ I J. apply S_in in I. apply S_in in J. destruct I as [_ [_ <-]], J as [_ [_ <-]]. auto.
  Qed.

  Lemma outids_in r x : r < R -> (In x (flat_map (S0 r) (dl r)) <-> In x (nth r known [])).
  Proof.
    intros L. rewrite in_flat_map. split.
    - intros [d [_ I]]. apply S_in in I. tauto.
    - intros I. exists (owner x). assert (J : In x (S0 r (owner x))) by (apply S_in; auto). split; auto. apply (dl_in r _ L). eauto.
  Qed.

  Lemma pack_ok srcs r b m out : sized w (fun b => length (m_lin b) * ncomp) srcs ->
    nth_error w r = Some b -> nth_error srcs r = Some m -> list_sum (m_outc b) * ncomp <= length out ->
    exists rest, exchange_pack (ds r) 0 b ncomp m out = Some (flat_map (blk srcs r) (dl r) ++ rest) /\ length rest = length out - list_sum (m_outc b) * ncomp.
  Proof.
    intros Sz Eb Em Lo. assert (Lr : r < R) by (eapply nth_error_some_lt; eauto).
    destruct (wi_loc _ _ _ _ _ W r b Eb) as [o [_ [Li _]]]. pose proof (wi_g _ _ _ _ _ W r b Eb) as G.
    assert (Edl : g_dests (m_graph b) = dl r) by (unfold dl; rewrite Eb; auto).
    pose proof (gi_outids _ _ _ G) as Eo. rewrite Edl in Eo. fold S0 in Eo.
    assert (Ec : list_sum (m_outc b) = length (m_outids b)) by (rewrite (gi_outc _ _ _ G), Eo, Edl, flat_map_len; auto).
    assert (HV : forall x, In x (m_outids b) -> length (V srcs r x) = ncomp).
    { intros x I. rewrite Eo in I. apply in_flat_map in I. destruct I as [d [_ I]]. eapply V_len; eauto. }
    assert (Ef : flat_map (blk srcs r) (dl r) = flat_map (V srcs r) (m_outids b)).
    { rewrite Eo. unfold blk. clear. induction (dl r); cbn; auto. rewrite flat_map_app, IHl. auto. }
    rewrite Ef, Ec in *. unfold exchange_pack. destruct (Nat.ltb_spec 0 (length (m_lin b))) as [L0|L0].
    - apply (fill_blocks (V srcs r) (ds r) 0 ncomp (m_outids b) (length (m_lin b)) _ (fun i => nth i (m_pack b) 0) (fun i => nth i (m_lin b) 0%Z)); auto.
      + intros i Hi. destruct (nth_error_lt_some (m_lin b) i Hi) as [x Ex]. rewrite (nth_error_nth_d _ _ _ _ Ex).
        destruct (gi_pack _ _ _ G i x Ex) as [k [Ek Ekx]]. rewrite (nth_error_nth_d _ _ _ _ Ek). auto.
      + intros k x Ek. assert (I : In x (m_lin b)).
        { apply (li_lin _ _ _ _ _ Li). apply (outids_in r x Lr). rewrite <- Eo. eapply nth_error_In; eauto. }
        destruct (In_nth_error _ _ I) as [i Ei]. exists i. split; [eapply nth_error_some_lt; eauto|].
        destruct (gi_pack _ _ _ G i x Ei) as [k' [Ek' Ekx]]. rewrite (nth_error_nth_d _ _ _ _ Ek').
        pose proof (outids_nodup r Lr) as Nd. rewrite <- Eo in Nd. rewrite NoDup_nth_error in Nd. apply Nd; [eapply nth_error_some_lt; eauto|congruence].
      + intros m' i c x Lm Hi Hc Ex. destruct (nth_error_lt_some (m_lin b) i Hi) as [g Eg]. rewrite (nth_error_nth_d _ _ _ _ Eg) in Ex.
        destruct (gi_pack _ _ _ G i g Eg) as [k [Ek Ekx]]. unfold rd. rewrite Ek. cbn [obind]. rewrite (nth_error_nth_d _ _ _ _ Ek).
        destruct Sz as [_ Sz]. specialize (Sz r b m Eb Em). pose proof (proj2 (li_seq _ _ _ _ _ Li g i) Eg) as Es.
        destruct (V_spec srcs r b m g i Eb Em Es Sz) as [_ Hv]. rewrite Hv in Ex by auto. rewrite Ex. auto.
    - assert (E0 : m_outids b = []).
      { destruct (m_outids b) as [|x l] eqn:E; auto. exfalso. assert (I : In x (m_lin b)).
        { apply (li_lin _ _ _ _ _ Li). apply (outids_in r x Lr). rewrite <- Eo. left; auto. }
        destruct (m_lin b); [destruct I|cbn in L0; lia]. }
      rewrite E0. cbn. exists out. split; auto. lia.
  Qed.


  (* ---------------------------------------------------------------- *)
  Lemma blit_front (p h : list T) : length h <= length p -> exists rest, blit p 0 h = Some (h ++ rest) /\ length rest = length p - length h.
  Proof.
    intros L. exists (skipn (length h) p). split; [|apply skipn_length].
    rewrite <- (firstn_skipn (length h) p) at 1. apply (blit_mid [] (firstn (length h) p) (skipn (length h) p) h). rewrite firstn_length. lia.
  Qed.

  Lemma slice_front (l rest : list T) n : length l = n -> slice (l ++ rest) 0 n = Some l.
  Proof. intros <-. rewrite slice_some; [|lia|rewrite app_length; lia]. cbn [skipn]. rewrite Nat.sub_0_r, firstn_app, Nat.sub_diag, firstn_all. cbn. rewrite app_nil_r. auto. Qed.

  (** The incoming facets with the ranks they come from. *)
  Definition P r : list (nat * Z) := flat_map (fun s => map (fun x => (s, x)) (S0 s r)) (sl r).

  Lemma P_ids r : map snd (P r) = flat_map (fun s => S0 s r) (sl r).
  Proof. unfold P. induction (sl r); cbn; auto. rewrite map_app, map_map, IHl, map_id. auto. Qed.
  Lemma P_vals srcs r : flat_map (fun p => V srcs (fst p) (snd p)) (P r) = flat_map (fun s => blk srcs s r) (sl r).
  Proof.
    unfold P, blk. induction (sl r) as [|s l IH]; cbn; auto. rewrite flat_map_app, IH. f_equal.
    induction (S0 s r) as [|x t IHt]; cbn; auto. rewrite IHt. auto.
  Qed.
  Lemma P_in r s x : r < R -> (In (s, x) (P r) <-> In x (S0 s r)).
  Proof.
    intros L. unfold P. rewrite in_flat_map. split.
    - intros [s' [I J]]. apply in_map_iff in J. destruct J as [y [[= <- <-] J]]. auto.
    - intros I. exists s. split; [apply (sl_in r s L); eauto|]. apply in_map_iff. eauto.
  Qed.

  Lemma blk_len srcs s d : sized w (fun b => length (m_lin b) * ncomp) srcs -> length (blk srcs s d) = length (S0 s d) * ncomp.
  Proof. intros Sz. apply block_len. intros x I. eapply V_len; eauto. Qed.

  (** The sums of the incoming values. *)
  Lemma sum_incoming srcs r o i g c : r < R -> sized w (fun b => length (m_lin b) * ncomp) srcs ->
    (forall r o g, nth_error own r = Some o -> In g o -> owner g = r) ->
    nth_error own r = Some o -> nth_error o i = Some g -> c < ncomp ->
    sum add zero (map (fun p => nth c (V srcs (fst p) (snd p)) zero) (filter (fun p => (snd p =? g)%Z) (P r))) = sum add zero (contributions_of w srcs ncomp c g).
  Proof.
    intros Lr Sz Hown Eo Ei Lc. apply (sum_perm add zero M).
    assert (Og : owner g = r) by (eapply Hown; eauto; eapply nth_error_In; eauto).
    set (G := fun s => if existsb (Z.eqb g) (S0 s r) then [nth c (V srcs s g) zero] else []).
    assert (E1 : map (fun p => nth c (V srcs (fst p) (snd p)) zero) (filter (fun p => (snd p =? g)%Z) (P r)) = flat_map G (sl r)).
    { unfold P, G. induction (sl r) as [|s l IH]; cbn [flat_map]; auto. rewrite filter_app, map_app, IH. f_equal.
      assert (Ef : filter (fun p : nat * Z => (snd p =? g)%Z) (map (fun x => (s, x)) (S0 s r)) = map (fun x => (s, x)) (filter (fun x => (x =? g)%Z) (S0 s r))).
      { induction (S0 s r) as [|x t IHt]; cbn; auto. destruct (x =? g)%Z; cbn; rewrite IHt; auto. }
      rewrite Ef, filter_eqb_nodup by apply S_nodup. destruct (existsb (Z.eqb g) (S0 s r)); auto. }
    rewrite E1. unfold contributions_of. rewrite combine_flat_map by (symmetry; apply Sz).
    rewrite (perm_flat_sub Nat.eq_dec G (sl r) (seq 0 R)); [| apply sl_nodup; auto | apply seq_NoDup | | ].
    - match goal with |- Permutation ?a ?b => cut (a = b); [intros ->; reflexivity|] end. rewrite !flat_map_concat_map. f_equal. apply map_ext_in. intros s Is. apply in_seq in Is.
      destruct (at_rank s) as [b [ob [Eb [Eob [Li _]]]]]; [lia|]. destruct (rd_lists w srcs s b (proj1 Sz) Eb) as [m Em]. rewrite Eb, Em. cbn [fst snd].
      unfold G, staged, get_seq_index_from_geom_id. destruct (existsb (Z.eqb g) (S0 s r)) eqn:Ex.
      + apply (existsb_in g) in Ex. apply S_in in Ex. destruct Ex as [_ [Ik _]]. apply (li_lin _ _ _ _ _ Li) in Ik.
        destruct (In_nth_error _ _ Ik) as [k Ek]. pose proof (proj2 (li_seq _ _ _ _ _ Li g k) Ek) as Es. rewrite Es. cbn [obind].
        destruct (V_spec srcs s b m g k Eb Em Es) as [Lv Hv]; [apply (proj2 Sz s b m Eb Em)|].
        rewrite <- Hv by auto. rewrite (nth_error_nth' _ zero) by (rewrite Lv; auto). auto.
      + destruct (mget Z.eqb g (m_seq b)) as [k|] eqn:Es; auto. exfalso.
        apply (li_seq _ _ _ _ _ Li) in Es. apply nth_error_In in Es. apply (li_lin _ _ _ _ _ Li) in Es.
        assert (In g (S0 s r)) by (apply S_in; split; [lia|auto]). apply (existsb_in g) in H. congruence.
    - intros s I. apply in_seq. apply (sl_in r s Lr) in I. destruct I as [x I]. apply S_in in I. lia.
    - intros s I N. unfold G. destruct (existsb (Z.eqb g) (S0 s r)) eqn:Ex; auto. exfalso. apply N. apply (sl_in r s Lr). exists g. apply (existsb_in g). auto.
  Qed.

  Lemma unpack_ok srcs r b o dst rest : r < R -> sized w (fun b => length (m_lin b) * ncomp) srcs ->
    (forall r o g, nth_error own r = Some o -> In g o -> owner g = r) ->
    nth_error w r = Some b -> nth_error own r = Some o -> length o * ncomp <= length dst ->
    exists dst', exchange_unpack add (ds r) 1 b ncomp (flat_map (fun s => blk srcs s r) (sl r) ++ rest) dst = Some dst' /\ length dst' = length dst /\
      (forall i g c x, nth_error o i = Some g -> c < ncomp -> nth_error dst (i * ncomp + c) = Some x ->
         nth_error dst' (i * ncomp + c) = Some (add x (sum add zero (contributions_of w srcs ncomp c g)))) /\
      (forall j, length o * ncomp <= j -> nth_error dst' j = nth_error dst j).
  Proof.
    intros Lr Sz Hown Eb Eo Ld. destruct (wi_loc _ _ _ _ _ W r b Eb) as [o' [Eo' [Li _]]]. assert (o' = o) by congruence. subst o'.
    pose proof (wi_g _ _ _ _ _ W r b Eb) as G.
    assert (Eids : m_inids b = map snd (P r)). { rewrite P_ids, (gi_inids _ _ _ G). unfold sl. rewrite Eb. auto. }
    rewrite <- P_vals. set (packed := flat_map (fun p => V srcs (fst p) (snd p)) (P r) ++ rest).
    assert (HV : forall p, In p (P r) -> length (V srcs (fst p) (snd p)) = ncomp).
    { intros [s x] I. apply (P_in r s x Lr) in I. eapply V_len; eauto. }
    assert (Hin : forall s x, In (s, x) (P r) -> exists i, nth_error o i = Some x /\ mget Z.eqb x (m_ownmap b) = Some i).
    { intros s x I. apply (P_in r s x Lr) in I. apply S_in in I. destruct I as [Ls [I E]].
      destruct (at_rank s Ls) as [bs [os [_ [_ [Lis _]]]]]. destruct (li_owned _ _ _ _ _ Lis x I) as [o2 [Eo2 I2]]. rewrite E, Eo in Eo2. injection Eo2 as <-.
      destruct (In_nth_error _ _ I2) as [i Ei]. exists i. split; auto. apply (li_ownmap _ _ _ _ _ Li). auto. }
    unfold exchange_unpack. rewrite Eids, map_length. destruct (Nat.ltb_spec 0 (length (P r))) as [L0|L0].
    - assert (Lom : 0 < length (m_ownmap b)).
      { destruct (P r) as [|[s x] l] eqn:EP; [cbn in L0; lia|]. destruct (Hin s x (or_introl eq_refl)) as [i [_ Hm]].
        destruct (m_ownmap b); [discriminate|cbn; lia]. }
      destruct (Nat.ltb_spec 0 (length (m_ownmap b))); [|lia]. cbn [assert obind].
      set (pos := fun a : nat * nat => ncomp * match nth_error (P r) (fst a) with Some p => match mget Z.eqb (snd p) (m_ownmap b) with Some i => i | None => 0 end | None => 0 end + snd a).
      set (val := fun a : nat * nat => match nth_error (P r) (fst a) with Some p => nth (snd a) (V srcs (fst p) (snd p)) zero | None => zero end).
      match goal with |- context [foldM ?f dst _] => set (F := f) end.
      assert (Hat : forall ii cx, ii < length (P r) -> cx < ncomp -> exists s x i, nth_error (P r) ii = Some (s, x) /\ nth_error o i = Some x /\
        mget Z.eqb x (m_ownmap b) = Some i /\ pos (ii, cx) = ncomp * i + cx /\ val (ii, cx) = nth cx (V srcs s x) zero /\ ncomp * i + cx < length dst).
      { intros ii cx L1 L2. destruct (nth_error_lt_some (P r) ii L1) as [[s x] Ep]. destruct (Hin s x (nth_error_In _ _ Ep)) as [i [Ei Em]].
        exists s, x, i. unfold pos, val. cbn [fst snd]. rewrite Ep. cbn [fst snd]. rewrite Em. apply nth_error_some_lt in Ei as Li2. repeat (split; auto). nia. }
      destruct (foldM_accum add zero M F pos val (ord (ds r) 1 (list_prod (seq 0 (length (P r))) (seq 0 ncomp))) dst) as [dst' [E [L H1]]].
      + intros m [ii cx] Lm I. apply (in_ord_prod _ _ _ _ _ _ (Hds r)) in I. destruct I as [L1 L2].
        destruct (Hat ii cx L1 L2) as [s [x [i [Ep [Ei [Em [Epos [Eval Lp]]]]]]]]. rewrite Epos, Eval. unfold F, rd. rewrite nth_error_map, Ep. cbn [option_map snd obind].
        rewrite Em. cbn [obind]. unfold packed. rewrite (block_nth (fun p => V srcs (fst p) (snd p)) ncomp (P r) rest HV ii (s, x) cx Ep L2). cbn [fst snd].
        rewrite (nth_error_nth' (V srcs s x) zero) by (pose proof (HV (s, x) (nth_error_In _ _ Ep)) as Hl; cbn [fst snd] in Hl; rewrite Hl; auto). auto.
      + intros [ii cx] I. apply (in_ord_prod _ _ _ _ _ _ (Hds r)) in I. destruct I as [L1 L2].
        destruct (Hat ii cx L1 L2) as [s [x [i [Ep [Ei [Em [Epos [Eval Lp]]]]]]]]. lia.
      + exists dst'. split; [auto|]. split; [auto|].
        assert (Hsum : forall j, sum add zero (map val (filter (fun a => pos a =? j) (ord (ds r) 1 (list_prod (seq 0 (length (P r))) (seq 0 ncomp))))) =
           sum add zero (map val (filter (fun a => pos a =? j) (list_prod (seq 0 (length (P r))) (seq 0 ncomp))))).
        { intros j. apply (sum_perm add zero M). apply Permutation_map.
          assert (Pm : forall (q : nat * nat -> bool) l l', Permutation l l' -> Permutation (filter q l) (filter q l')).
          { clear. induction 1 as [|x l l' Hp IH|x y l|l l' l'' _ IH1 _ IH2]; cbn; auto; try (destruct (q x); auto; constructor; auto).
            - destruct (q y), (q x); auto. constructor.
            - eapply perm_trans; eauto. }
          apply Pm. apply (Hds r). }
        split.
        * intros i g c x Ei Lc Ex. rewrite (H1 _ _ Ex), Hsum. f_equal. f_equal.
          rewrite <- (sum_incoming srcs r o i g c Lr Sz Hown Eo Ei Lc). f_equal.
          rewrite (filter_prod_snd (fun ii => match nth_error (P r) ii with Some p => (snd p =? g)%Z | None => false end) _ ncomp c); [| auto |].
          -- rewrite map_map. apply (map_filter_nth _ (fun p : nat * Z => (snd p =? g)%Z) (fun ii => val (ii, c)) _ (P r) 0).
             intros ii p Ep. cbn [plus]. rewrite Ep. split; auto. unfold val. cbn [fst snd]. rewrite Ep. auto.
          -- intros ii cx Ii Lcx. apply in_seq in Ii. destruct (Hat ii cx) as [s [y [k [Ep [Ek [Em [Epos _]]]]]]]; [lia|auto|].
             rewrite Epos, Ep. cbn [snd]. apply eq_true_iff_eq. rewrite andb_true_iff, !Nat.eqb_eq, Z.eqb_eq. split.
             ++ intros Ee. destruct (idx_inj ncomp k i cx c) as [E1 E2]; auto; [lia|]. subst. split; congruence.
             ++ intros [-> ->]. assert (k = i); [|lia]. assert (Nd : NoDup o) by (apply own_nodup; eapply nth_error_In; eauto).
                rewrite NoDup_nth_error in Nd. apply Nd; [eapply nth_error_some_lt; eauto|congruence].
        * intros j Lj. destruct (nth_error dst j) as [x|] eqn:Ex.
          -- rewrite (H1 _ _ Ex), Hsum. f_equal.
             assert (En : filter (fun a => pos a =? j) (list_prod (seq 0 (length (P r))) (seq 0 ncomp)) = []).
             { destruct (filter (fun a => pos a =? j) (list_prod (seq 0 (length (P r))) (seq 0 ncomp))) as [|[ii cx] l] eqn:Ef; auto. exfalso.
               assert (I : In (ii, cx) (filter (fun a => pos a =? j) (list_prod (seq 0 (length (P r))) (seq 0 ncomp)))) by (rewrite Ef; left; auto).
               apply filter_In in I. destruct I as [I Ep]. apply Nat.eqb_eq in Ep. apply in_prod_seq in I. destruct I as [L1 L2].
               destruct (Hat ii cx L1 L2) as [s [y [k [_ [Ek [_ [Epos _]]]]]]]. apply nth_error_some_lt in Ek. nia. }
             rewrite En. cbn. apply (add_zero _ _ M).
          -- apply nth_error_None. rewrite L. apply nth_error_None. auto.
    - exists dst. split; auto. split; auto. split; auto. intros i g c x Ei Lc Ex. rewrite Ex. f_equal.
      rewrite <- (sum_incoming srcs r o i g c Lr Sz Hown Eo Ei Lc).
      destruct (P r); [|cbn in L0; lia]. cbn. symmetry. apply (add_zero _ _ M).
  Qed.

  Theorem exchange_ok aware srcs dsts outs ins :
    (forall r o g, nth_error own r = Some o -> In g o -> owner g = r) ->
    sized w (fun b => length (m_lin b) * ncomp) srcs -> length dsts = length w ->
    (forall r o m, nth_error own r = Some o -> nth_error dsts r = Some m -> length o * ncomp <= length m) ->
    sized w (fun b => list_sum (m_outc b) * ncomp) outs -> sized w (fun b => list_sum (m_inc b) * ncomp) ins ->
    exists res, exchange_from_device add zero aware ds w ncomp srcs dsts outs ins = Some res /\ length res = length w /\
      forall r o dst dst', nth_error own r = Some o -> nth_error dsts r = Some dst -> nth_error res r = Some dst' -> length dst' = length dst /\
        (forall i g c x, nth_error o i = Some g -> c < ncomp -> nth_error dst (i * ncomp + c) = Some x ->
           nth_error dst' (i * ncomp + c) = Some (add x (sum add zero (contributions_of w srcs ncomp c g)))) /\
        (forall j, length o * ncomp <= j -> nth_error dst' j = nth_error dst j).
  Proof.
    intros Hown Sz Ld Hd So Si. unfold exchange_from_device.
    set (OUT := fun r => flat_map (blk srcs r) (dl r)). set (IN := fun r => flat_map (fun s => blk srcs s r) (sl r)).
    assert (Lout : forall r b, nth_error w r = Some b -> length (OUT r) = list_sum (m_outc b) * ncomp).
    { intros r b Eb. pose proof (wi_g _ _ _ _ _ W r b Eb) as G. unfold OUT. rewrite flat_map_len, (gi_outc _ _ _ G). unfold dl. rewrite Eb.
      induction (g_dests (m_graph b)) as [|d l IH]; [auto|]. unfold list_sum in *. cbn [map fold_right]. rewrite IH, blk_len by auto. unfold S0. lia. }
    assert (Lin : forall r b, nth_error w r = Some b -> length (IN r) = list_sum (m_inc b) * ncomp).
    { intros r b Eb. pose proof (wi_g _ _ _ _ _ W r b Eb) as G. unfold IN. rewrite flat_map_len, (gi_inc _ _ _ G). unfold sl. rewrite Eb.
      induction (g_srcs (m_graph b)) as [|d l IH]; [auto|]. unfold list_sum in *. cbn [map fold_right]. rewrite IH, blk_len by auto. unfold S0. lia. }
    destruct (on_ranks_ok w (fun r b => src <- rd srcs r ;; out <- rd outs r ;; exchange_pack (ds r) 0 b ncomp src out)
      (fun r b p => exists rest, p = OUT r ++ rest)) as [po [E1 [L1 H1]]].
    { intros r b Eb. destruct (rd_lists w srcs r b (proj1 Sz) Eb) as [m Em]. destruct (rd_lists w outs r b (proj1 So) Eb) as [out Eo].
      unfold rd. rewrite Em, Eo. cbn [obind]. destruct (pack_ok srcs r b m out Sz Eb Em (proj2 So r b out Eb Eo)) as [rest [Ep _]]. rewrite Ep. eauto. }
    rewrite E1. cbn [obind].
    destruct (on_ranks_ok w (fun r b => p <- rd po r ;; if aware then Some p else slice p 0 (list_sum (m_outc b) * ncomp))
      (fun r b p => exists rest, p = OUT r ++ rest)) as [mo [E2 [L2 H2]]].
    { intros r b Eb. destruct (rd_lists w po r b L1 Eb) as [p Ep]. unfold rd. rewrite Ep. cbn [obind].
      destruct (H1 r b p Eb Ep) as [rest ->]. destruct aware; [eauto|]. rewrite (slice_front _ _ _ (Lout r b Eb)).
      exists (OUT r). split; auto. exists []. rewrite app_nil_r. auto. }
    rewrite E2. cbn [obind].
    destruct (on_ranks_ok w (fun r b => p <- rd ins r ;; if aware then Some p else Some (repeat zero (list_sum (m_inc b) * ncomp)))
      (fun r b p => list_sum (m_inc b) * ncomp <= length p /\ (aware = false -> length p = list_sum (m_inc b) * ncomp))) as [mi [E3 [L3 H3]]].
    { intros r b Eb. destruct (rd_lists w ins r b (proj1 Si) Eb) as [p Ep]. unfold rd. rewrite Ep. cbn [obind].
      pose proof (proj2 Si r b p Eb Ep). destruct aware; eexists; (split; [reflexivity|]); [split; [auto|discriminate]|]. rewrite repeat_length. auto. }
    rewrite E3. cbn [obind].
    assert (Hex : exists mi', exchange_surface w ncomp mo mi = Some mi' /\ length mi' = length w /\
      forall r b p, nth_error w r = Some b -> nth_error mi' r = Some p -> exists rest, p = IN r ++ rest /\ (aware = false -> rest = [])).
    { unfold exchange_surface. destruct (Nat.ltb_spec ncomp 1) as [Ln|Ln].
      - exists mi. split; auto. split; auto. intros r b p Eb Ep. destruct (H3 r b p Eb Ep) as [_ H3'].
        assert (IN r = []). { pose proof (Lin r b Eb) as Ll. destruct (IN r); auto. cbn in Ll. nia. }
        rewrite H. exists p. split; auto. intros Ea. specialize (H3' Ea). destruct p; auto. cbn in H3'. nia.
      - destruct (alltoallw_ok R (blk srcs) dl sl dl_nodup edge
          (map (fun b => g_dests (m_graph b)) w) (map (fun b => g_srcs (m_graph b)) w)
          (map (fun b => map (fun c => c * ncomp) (m_outc b)) w) (map (fun b => map (fun c => c * ncomp) (m_inc b)) w) mo mi) as [mi' [E [L H]]];
          rewrite ?map_length; auto.
        + intros r Lr. destruct (at_rank r Lr) as [b [o [Eb _]]]. rewrite nth_error_map, Eb. unfold dl. rewrite Eb. auto.
        + intros r Lr. destruct (at_rank r Lr) as [b [o [Eb _]]]. rewrite nth_error_map, Eb. unfold sl. rewrite Eb. auto.
        + intros r Lr. destruct (at_rank r Lr) as [b [o [Eb [_ [_ G]]]]]. rewrite nth_error_map, Eb. unfold dl. rewrite Eb. cbn. f_equal.
          rewrite (gi_outc _ _ _ G), map_map. apply map_ext. intros d. rewrite blk_len by auto. auto.
        + intros r Lr. destruct (at_rank r Lr) as [b [o [Eb [_ [_ G]]]]]. rewrite nth_error_map, Eb. unfold sl. rewrite Eb. cbn. f_equal.
          rewrite (gi_inc _ _ _ G), map_map. apply map_ext. intros d. rewrite blk_len by auto. auto.
        + intros r Lr. destruct (at_rank r Lr) as [b [o [Eb _]]]. destruct (rd_lists w mo r b L2 Eb) as [p Ep]. destruct (H2 r b p Eb Ep) as [rest ->]. exists rest. auto.
        + intros r rb Lr Er. destruct (at_rank r Lr) as [b [o [Eb _]]]. fold (IN r). rewrite (Lin r b Eb). apply (H3 r b rb Eb Er).
        + exists mi'. split; auto. split; auto. intros r b p Eb Ep. assert (Lr : r < R) by (eapply nth_error_some_lt; eauto).
          destruct (rd_lists w mi r b L3 Eb) as [rb Er]. destruct (H r rb Lr Er) as [rest [Ep' Lp]]. fold (IN r) in Ep', Lp.
          exists rest. split; [congruence|]. intros Ea. destruct (H3 r b rb Eb Er) as [_ H3']. specialize (H3' Ea). rewrite app_length, (Lin r b Eb) in Lp. destruct rest; auto. cbn in Lp. lia. }
    destruct Hex as [mi' [E4 [L4 H4]]]. rewrite E4. cbn [obind].
    destruct (on_ranks_ok w (fun r b => p <- rd ins r ;; h <- rd mi' r ;; if aware then Some h else blit p 0 h)
      (fun r b p => exists rest, p = IN r ++ rest)) as [pin [E5 [L5 H5]]].
    { intros r b Eb. destruct (rd_lists w ins r b (proj1 Si) Eb) as [p Ep]. destruct (rd_lists w mi' r b L4 Eb) as [h Eh]. unfold rd. rewrite Ep, Eh. cbn [obind].
      destruct (H4 r b h Eb Eh) as [rest [-> Ha]]. destruct aware; [eauto|]. rewrite (Ha eq_refl), app_nil_r.
      destruct (blit_front p (IN r)) as [rest' [Ebl _]]; [rewrite (Lin r b Eb); apply (proj2 Si r b p Eb Ep)|]. rewrite Ebl. eauto. }
    rewrite E5. cbn [obind].
    destruct (on_ranks_ok w (fun r b => p <- rd pin r ;; dst <- rd dsts r ;; exchange_unpack add (ds r) 1 b ncomp p dst)
      (fun r b dst' => forall o dst, nth_error own r = Some o -> nth_error dsts r = Some dst -> length dst' = length dst /\
        (forall i g c x, nth_error o i = Some g -> c < ncomp -> nth_error dst (i * ncomp + c) = Some x ->
           nth_error dst' (i * ncomp + c) = Some (add x (sum add zero (contributions_of w srcs ncomp c g)))) /\
        (forall j, length o * ncomp <= j -> nth_error dst' j = nth_error dst j))) as [res [E6 [L6 H6]]].
    { intros r b Eb. destruct (rd_lists w pin r b L5 Eb) as [p Ep]. destruct (rd_lists w dsts r b Ld Eb) as [dst Edst]. unfold rd. rewrite Ep, Edst. cbn [obind].
      destruct (H5 r b p Eb Ep) as [rest ->]. assert (Lr : r < R) by (eapply nth_error_some_lt; eauto).
      destruct (wi_loc _ _ _ _ _ W r b Eb) as [o [Eo _]].
      destruct (unpack_ok srcs r b o dst rest Lr Sz Hown Eb Eo (Hd r o dst Eo Edst)) as [dst' [Eu [Lu Hu]]]. unfold IN. rewrite Eu.
      exists dst'. split; auto. intros o2 d2 Eo2 Ed2. assert (o2 = o) by congruence. assert (d2 = dst) by congruence. subst. auto. }
    rewrite E6. exists res. split; auto. split; auto. intros r o dst dst' Eo Ed Er.
    destruct (rd_lists res w r dst' (eq_sym L6) Er) as [b Eb]. apply (H6 r b dst' Eb Er o dst); auto.
  Qed.

  (* ---------------------------------------------------------------- *)
  (** The values the owner has for a facet. *)
  Definition U (srcs : list (list T)) (s : nat) (g : Z) : list T :=
    match nth_error w s, nth_error srcs s with
    | Some b, Some m => match mget Z.eqb g (m_ownmap b) with Some i => firstn ncomp (skipn (i * ncomp) m) | None => [] end
    | _, _ => []
    end.

  Definition rblk srcs s d := flat_map (U srcs s) (S0 d s).

  Definition owned_sized (srcs : list (list T)) : Prop := length srcs = length w /\
    forall r o m, nth_error own r = Some o -> nth_error srcs r = Some m -> length o * ncomp <= length m.

  Lemma U_spec srcs s o m g i : owned_sized srcs -> nth_error own s = Some o -> nth_error srcs s = Some m -> nth_error o i = Some g ->
    length (U srcs s g) = ncomp /\ forall c, c < ncomp -> nth_error (U srcs s g) c = nth_error m (i * ncomp + c).
  Proof.
    intros [L Hl] Eo Em Ei. assert (Ls : s < R) by (unfold R; rewrite (wi_len _ _ _ _ _ W); eapply nth_error_some_lt; eauto).
    destruct (at_rank s Ls) as [b [o' [Eb [Eo' [Li _]]]]]. assert (o' = o) by congruence. subst o'.
    unfold U. rewrite Eb, Em, (proj2 (li_ownmap _ _ _ _ _ Li g i) Ei). specialize (Hl s o m Eo Em). apply nth_error_some_lt in Ei. split.
    - rewrite firstn_length, skipn_length. nia.
    - intros c Lc. rewrite nth_error_firstn, nth_error_skipn. destruct (Nat.ltb_spec c ncomp); [auto|lia].
  Qed.

  Lemma S_owned s d g : In g (S0 s d) -> d < R /\ exists o i, nth_error own d = Some o /\ nth_error o i = Some g.
  Proof.
    intros I. apply S_in in I. destruct I as [Ls [I E]]. destruct (at_rank s Ls) as [b [o [_ [_ [Li _]]]]].
    destruct (li_owned _ _ _ _ _ Li g I) as [o2 [Eo2 I2]]. rewrite E in Eo2.
    split; [unfold R; rewrite (wi_len _ _ _ _ _ W); eapply nth_error_some_lt; eauto|].
    destruct (In_nth_error _ _ I2) as [i Ei]. eauto.
  Qed.

  Lemma U_len srcs s d g : owned_sized srcs -> In g (S0 d s) -> length (U srcs s g) = ncomp.
  Proof.
    intros Sz I. destruct (S_owned d s g I) as [Ls [o [i [Eo Ei]]]].
    destruct (nth_error_lt_some srcs s) as [m Em]; [rewrite (proj1 Sz); auto|]. apply (U_spec srcs s o m g i Sz Eo Em Ei).
  Qed.

  Lemma rblk_len srcs s d : owned_sized srcs -> length (rblk srcs s d) = length (S0 d s) * ncomp.
  Proof. intros Sz. apply block_len. intros x I. eapply U_len; eauto. Qed.

  Lemma flat_flat {A B C} (f : A -> list B) (g : B -> list C) l : flat_map (fun x => flat_map g (f x)) l = flat_map g (flat_map f l).
  Proof. induction l; cbn; auto. rewrite flat_map_app, IHl. auto. Qed.

  Lemma rpack_ok srcs r b m out : owned_sized srcs ->
    nth_error w r = Some b -> nth_error srcs r = Some m -> length (m_rpack b) * ncomp <= length out ->
    exists rest, reverse_pack (ds r) 0 b ncomp m out = Some (flat_map (rblk srcs r) (rdl r) ++ rest) /\ length (flat_map (rblk srcs r) (rdl r)) = length (m_rpack b) * ncomp.
  Proof.
    intros Sz Eb Em Lo. assert (Lr : r < R) by (eapply nth_error_some_lt; eauto).
    destruct (wi_loc _ _ _ _ _ W r b Eb) as [o [Eo [Li _]]]. pose proof (wi_g _ _ _ _ _ W r b Eb) as G.
    assert (Erd : g_rdests (m_graph b) = rdl r) by (unfold rdl; rewrite Eb; auto).
    set (l := flat_map (fun d => S0 d r) (rdl r)).
    pose proof (gi_rpack _ _ _ G) as Erp. rewrite Erd in Erp. fold S0 in Erp. fold l in Erp.
    assert (Ef : flat_map (rblk srcs r) (rdl r) = flat_map (U srcs r) l) by (unfold l; rewrite <- flat_flat; auto).
    pose proof (mapM_length _ _ _ Erp) as Ll.
    assert (HU : forall x, In x l -> length (U srcs r x) = ncomp).
    { intros x I. unfold l in I. apply in_flat_map in I. destruct I as [d [_ I]]. eapply U_len; eauto. }
    rewrite Ef, (block_len _ ncomp) by auto. rewrite Ll in *. unfold reverse_pack.
    assert (Lii : length (m_inids b) = length l).
    { rewrite (gi_inids _ _ _ G). fold S0. unfold l. apply Permutation_length, Permutation_flat_map. symmetry. rewrite <- Erd. apply (gi_rd _ _ _ G). }
    rewrite Lii, Ll. destruct (Nat.ltb_spec 0 (length l)) as [L0|L0].
    - destruct (fill_blocks (U srcs r) (ds r) 0 ncomp l (length l) (fun out '(idx_linear, idx_component) =>
          idx_map <- rd (m_rpack b) idx_linear ;; v0 <- rd m (idx_map * ncomp + idx_component) ;; upd out (idx_linear * ncomp + idx_component) v0)
          (fun i => i) (fun i => nth i l 0%Z) out) as [rest [E _]]; auto.
      + intros i Hi. apply nth_error_nth'. auto.
      + intros k x Ek. exists k. split; auto. eapply nth_error_some_lt; eauto.
      + intros m' i c x Lm Hi Hc Ex. destruct (nth_error_lt_some l i Hi) as [g Eg]. rewrite (nth_error_nth_d _ _ _ _ Eg) in Ex.
        pose proof (mapM_nth _ _ _ i g Erp Eg) as En. destruct (nth_error_lt_some (m_rpack b) i) as [k Ek]; [lia|].
        rewrite Ek in En. unfold rd. rewrite Ek. cbn [obind]. apply (li_ownmap _ _ _ _ _ Li) in En.
        destruct (U_spec srcs r o m g k Sz Eo Em En) as [_ Hu]. rewrite Hu in Ex by auto. rewrite Ex. auto.
      + exists rest. auto.
    - exists out. split; auto. destruct l; [|cbn in L0; lia]. auto.
  Qed.

  Lemma runpack_ok srcs r b dst rest : r < R -> owned_sized srcs ->
    nth_error w r = Some b -> length (m_lin b) * ncomp <= length dst ->
    exists dst', reverse_unpack (ds r) 1 b ncomp (flat_map (fun s => rblk srcs s r) (rsl r) ++ rest) dst = Some dst' /\ length dst' = length dst /\
      (forall g i c, mget Z.eqb g (m_seq b) = Some i -> c < ncomp -> nth_error dst' (i * ncomp + c) = nth_error (U srcs (owner g) g) c) /\
      (forall j, length (m_lin b) * ncomp <= j -> nth_error dst' j = nth_error dst j).
  Proof.
    intros Lr Sz Eb Ld. destruct (wi_loc _ _ _ _ _ W r b Eb) as [o [Eo [Li _]]]. pose proof (wi_g _ _ _ _ _ W r b Eb) as G.
    assert (Ers : g_rsrcs (m_graph b) = rsl r) by (unfold rsl; rewrite Eb; auto).
    set (l := flat_map (S0 r) (rsl r)).
    pose proof (gi_runpack _ _ _ G) as Eru. rewrite Ers in Eru. fold S0 in Eru. fold l in Eru.
    pose proof (mapM_length _ _ _ Eru) as Ll.
    assert (Ef : flat_map (fun s => rblk srcs s r) (rsl r) = flat_map (fun g => U srcs (owner g) g) l).
    { unfold l. rewrite <- flat_flat. rewrite !flat_map_concat_map. f_equal. apply map_ext. intros s. unfold rblk. rewrite !flat_map_concat_map. f_equal.
      apply map_ext_in. intros g I. apply S_in in I. destruct I as [_ [_ ->]]. auto. }
    assert (Hl : forall x, In x l <-> In x (nth r known [])).
    { intros x. rewrite <- (outids_in r x Lr). unfold l. rewrite !in_flat_map. split; intros [d [I J]]; exists d; split; auto.
      - eapply Permutation_in; [apply rsl_perm; auto|auto].
      - eapply Permutation_in; [symmetry; apply rsl_perm; auto|auto]. }
    assert (HU : forall x, In x l -> length (U srcs (owner x) x) = ncomp).
    { intros x I. apply Hl in I. apply (U_len srcs (owner x) r); auto. apply S_in. auto. }
    rewrite Ef. set (packed := flat_map (fun g => U srcs (owner g) g) l ++ rest).
    assert (Hp : forall k x c, nth_error l k = Some x -> c < ncomp -> nth_error packed (k * ncomp + c) = nth_error (U srcs (owner x) x) c).
    { intros k x c Ek Lc. apply (block_nth (fun g => U srcs (owner g) g) ncomp l rest HU); auto. }
    unfold reverse_unpack. rewrite Ll. destruct (Nat.ltb_spec 0 (length (m_lin b))) as [L0|L0].
    - match goal with |- context [foldM ?f dst _] => set (F := f) end.
      destruct (Nat.eq_dec (length dst) 0) as [E0|N0].
      { assert (ncomp = 0) by nia. assert (En : ord (ds r) 1 (list_prod (seq 0 (length l)) (seq 0 ncomp)) = []).
        { destruct (ord (ds r) 1 (list_prod (seq 0 (length l)) (seq 0 ncomp))) as [|[i c] t] eqn:Eo2; auto. exfalso.
          assert (I : In (i, c) (ord (ds r) 1 (list_prod (seq 0 (length l)) (seq 0 ncomp)))) by (rewrite Eo2; left; auto).
          apply (in_ord_prod _ _ _ _ _ _ (Hds r)) in I. lia. }
        rewrite En. exists dst. cbn. split; auto. split; auto. split; auto. intros; lia. }
      destruct dst as [|t0 dst0]; [cbn in N0; lia|]. set (dst := t0 :: dst0) in *.
      assert (Hat : forall i c, i < length l -> c < ncomp -> exists g k t, nth_error l i = Some g /\ nth_error (m_runpack b) i = Some k /\ nth_error (m_lin b) k = Some g /\
        nth_error (U srcs (owner g) g) c = Some t /\ nth_error packed (i * ncomp + c) = Some t /\ k * ncomp + c < length dst).
      { intros i c L1 L2. destruct (nth_error_lt_some l i L1) as [g Eg]. destruct (nth_error_lt_some (m_runpack b) i) as [k Ek]; [lia|].
        pose proof (mapM_nth _ _ _ i g Eru Eg) as En. rewrite Ek in En. apply (li_seq _ _ _ _ _ Li) in En.
        destruct (nth_error_lt_some (U srcs (owner g) g) c) as [t Et]; [rewrite HU; [auto|eapply nth_error_In; eauto]|].
        exists g, k, t. rewrite (Hp i g c Eg L2). pose proof (nth_error_some_lt _ _ _ En). repeat (split; auto). nia. }
      destruct (foldM_upd F (fun a => nth (fst a) (m_runpack b) 0 * ncomp + snd a) (fun a => nth (fst a * ncomp + snd a) packed t0)
        (ord (ds r) 1 (list_prod (seq 0 (length l)) (seq 0 ncomp))) dst) as [dst' [E [Ld' [H1 H2]]]].
      + intros m [i c] Lm I. apply (in_ord_prod _ _ _ _ _ _ (Hds r)) in I. destruct I as [L1 L2].
        destruct (Hat i c L1 L2) as [g [k [t [Eg [Ek [Ekg [Et [Ep _]]]]]]]]. unfold F, rd. cbn [fst snd]. rewrite Ek. cbn [obind]. rewrite Ep. cbn [obind].
        rewrite (nth_error_nth_d _ _ _ _ Ek), (nth_error_nth_d _ _ _ _ Ep). auto.
      + intros [i c] I. apply (in_ord_prod _ _ _ _ _ _ (Hds r)) in I. destruct I as [L1 L2].
        destruct (Hat i c L1 L2) as [g [k [t [Eg [Ek [Ekg [Et [Ep Lp]]]]]]]]. cbn [fst snd]. rewrite (nth_error_nth_d _ _ _ _ Ek). auto.
      + intros [i c] [j e] I J. apply (in_ord_prod _ _ _ _ _ _ (Hds r)) in I. apply (in_ord_prod _ _ _ _ _ _ (Hds r)) in J. destruct I as [L1 L2], J as [L3 L4].
        destruct (Hat i c L1 L2) as [g [k [t [Eg [Ek [Ekg [Et [Ep Lp]]]]]]]]. destruct (Hat j e L3 L4) as [g' [k' [t' [Eg' [Ek' [Ekg' [Et' [Ep' Lp']]]]]]]].
        cbn [fst snd]. rewrite (nth_error_nth_d _ _ _ _ Ek), (nth_error_nth_d _ _ _ _ Ek'), (nth_error_nth_d _ _ _ _ Ep), (nth_error_nth_d _ _ _ _ Ep').
        intros Ee. destruct (idx_inj ncomp k k' c e L2 L4 Ee) as [-> ->]. congruence.
      + exists dst'. split; auto. split; auto. split.
        * intros g i c Es Lc. pose proof Es as Es'. apply (li_seq _ _ _ _ _ Li) in Es'.
          assert (Ig : In g l) by (apply Hl, (li_lin _ _ _ _ _ Li); eapply nth_error_In; eauto).
          destruct (In_nth_error _ _ Ig) as [j Ej].
          destruct (Hat j c) as [g' [k [t [Eg [Ek [Ekg [Et [Ep Lp]]]]]]]]; [eapply nth_error_some_lt; eauto|auto|].
          assert (g' = g) by congruence. subst g'. apply (li_seq _ _ _ _ _ Li) in Ekg. assert (k = i) by congruence. subst k.
          specialize (H1 (j, c)). cbn [fst snd] in H1. rewrite (nth_error_nth_d _ _ _ _ Ek), (nth_error_nth_d _ _ _ _ Ep) in H1.
          rewrite H1; auto. apply (in_ord_prod _ _ _ _ _ _ (Hds r)). split; auto. eapply nth_error_some_lt; eauto.
        * intros j Lj. apply H2. intros [i c] I. apply (in_ord_prod _ _ _ _ _ _ (Hds r)) in I. destruct I as [L1 L2]. cbn [fst snd].
          destruct (Hat i c L1 L2) as [g [k [t [Eg [Ek [Ekg [Et [Ep Lp]]]]]]]]. rewrite (nth_error_nth_d _ _ _ _ Ek).
          apply nth_error_some_lt in Ekg. nia.
    - exists dst. split; auto. split; auto. split; auto. intros g i c Es. apply (li_seq _ _ _ _ _ Li) in Es. apply nth_error_some_lt in Es. lia.
  Qed.

  Theorem reverse_exchange_ok aware host srcs dsts outs ins : aware || host = true -> owned_sized srcs ->
    sized w (fun b => length (m_lin b) * ncomp) dsts ->
    sized w (fun b => length (m_rpack b) * ncomp) outs -> sized w (fun b => length (m_runpack b) * ncomp) ins ->
    exists res, reverse_exchange_from_device zero aware host ds w ncomp srcs dsts outs ins = Some res /\ length res = length w /\
      forall r b dst dst', nth_error w r = Some b -> nth_error dsts r = Some dst -> nth_error res r = Some dst' -> length dst' = length dst /\
        (forall g i c o k src, mget Z.eqb g (m_seq b) = Some i -> c < ncomp ->
           nth_error own (owner g) = Some o -> nth_error o k = Some g -> nth_error srcs (owner g) = Some src ->
           nth_error dst' (i * ncomp + c) = nth_error src (k * ncomp + c)) /\
        (forall j, length (m_lin b) * ncomp <= j -> nth_error dst' j = nth_error dst j).
  Proof.
    intros Ha Sz Sd So Si. unfold reverse_exchange_from_device.
    set (OUT := fun r => flat_map (rblk srcs r) (rdl r)). set (IN := fun r => flat_map (fun s => rblk srcs s r) (rsl r)).
    assert (Lin : forall r b, nth_error w r = Some b -> length (IN r) = length (m_runpack b) * ncomp).
    { intros r b Eb. pose proof (wi_g _ _ _ _ _ W r b Eb) as G. rewrite (mapM_length _ _ _ (gi_runpack _ _ _ G)). unfold IN, rsl. rewrite Eb. fold S0.
      rewrite !flat_map_len. induction (g_rsrcs (m_graph b)) as [|d l IH]; [auto|]. unfold list_sum in *. cbn [map fold_right]. rewrite IH, rblk_len by auto. lia. }
    destruct (on_ranks_ok w (fun r b => src <- rd srcs r ;; out <- rd outs r ;; reverse_pack (ds r) 0 b ncomp src out)
      (fun r b p => exists rest, p = OUT r ++ rest /\ length (OUT r) = length (m_rpack b) * ncomp)) as [po [E1 [L1 H1]]].
    { intros r b Eb. destruct (rd_lists w srcs r b (proj1 Sz) Eb) as [m Em]. destruct (rd_lists w outs r b (proj1 So) Eb) as [out Eo].
      unfold rd. rewrite Em, Eo. cbn [obind]. destruct (rpack_ok srcs r b m out Sz Eb Em (proj2 So r b out Eb Eo)) as [rest [Ep Lp]]. rewrite Ep. eauto. }
    rewrite E1. cbn [obind].
    destruct (on_ranks_ok w (fun r b => p <- rd po r ;; if aware then Some p else slice p 0 (length (m_rpack b) * ncomp))
      (fun r b p => exists rest, p = OUT r ++ rest)) as [mo [E2 [L2 H2]]].
    { intros r b Eb. destruct (rd_lists w po r b L1 Eb) as [p Ep]. unfold rd. rewrite Ep. cbn [obind].
      destruct (H1 r b p Eb Ep) as [rest [-> Lp]]. destruct aware; [eauto|]. rewrite (slice_front _ _ _ Lp).
      exists (OUT r). split; auto. exists []. rewrite app_nil_r. auto. }
    rewrite E2. cbn [obind].
    destruct (on_ranks_ok w (fun r b => p <- rd ins r ;; if aware then Some p else Some (repeat zero (length (m_runpack b) * ncomp)))
      (fun r b p => length (m_runpack b) * ncomp <= length p)) as [mi [E3 [L3 H3]]].
    { intros r b Eb. destruct (rd_lists w ins r b (proj1 Si) Eb) as [p Ep]. unfold rd. rewrite Ep. cbn [obind].
      pose proof (proj2 Si r b p Eb Ep). destruct aware; eexists; (split; [reflexivity|]); auto. rewrite repeat_length. auto. }
    rewrite E3. cbn [obind].
    assert (Hex : exists mi', reverse_exchange_surface w ncomp mo mi = Some mi' /\ length mi' = length w /\
      forall r b p, nth_error w r = Some b -> nth_error mi' r = Some p -> exists rest, p = IN r ++ rest).
    { unfold reverse_exchange_surface. destruct (Nat.ltb_spec ncomp 1) as [Ln|Ln].
      - exists mi. split; auto. split; auto. intros r b p Eb Ep.
        assert (IN r = []). { pose proof (Lin r b Eb) as Ll. destruct (IN r); auto. cbn in Ll. nia. }
        rewrite H. exists p. auto.
      - destruct (alltoallw_ok R (rblk srcs) rdl rsl) with (dests := map (fun b => g_rdests (m_graph b)) w) (srcs := map (fun b => g_rsrcs (m_graph b)) w)
          (scounts := map (fun b => map (fun c => c * ncomp) (m_routc b)) w) (rcounts := map (fun b => map (fun c => c * ncomp) (m_rinc b)) w) (bufs := mo) (recvs := mi) as [mi' [E [L H]]];
          rewrite ?map_length; auto.
        + intros r Lr. eapply Permutation_NoDup; [symmetry; apply rdl_perm; auto|apply sl_nodup; auto].
        + intros r s Lr I. apply redge; auto.
        + intros r Lr. destruct (at_rank r Lr) as [b [o [Eb _]]]. rewrite nth_error_map, Eb. unfold rdl. rewrite Eb. auto.
        + intros r Lr. destruct (at_rank r Lr) as [b [o [Eb _]]]. rewrite nth_error_map, Eb. unfold rsl. rewrite Eb. auto.
        + intros r Lr. destruct (at_rank r Lr) as [b [o [Eb [_ [_ G]]]]]. rewrite nth_error_map, Eb. unfold rdl. rewrite Eb. cbn. f_equal.
          rewrite (gi_routc _ _ _ G), map_map. apply map_ext. intros d. rewrite rblk_len by auto. auto.
        + intros r Lr. destruct (at_rank r Lr) as [b [o [Eb [_ [_ G]]]]]. rewrite nth_error_map, Eb. unfold rsl. rewrite Eb. cbn. f_equal.
          rewrite (gi_rinc _ _ _ G), map_map. apply map_ext. intros d. rewrite rblk_len by auto. auto.
        + intros r Lr. destruct (at_rank r Lr) as [b [o [Eb _]]]. destruct (rd_lists w mo r b L2 Eb) as [p Ep]. destruct (H2 r b p Eb Ep) as [rest ->]. exists rest. auto.
        + intros r rb Lr Er. destruct (at_rank r Lr) as [b [o [Eb _]]]. fold (IN r). rewrite (Lin r b Eb). apply (H3 r b rb Eb Er).
        + exists mi'. split; auto. split; auto. intros r b p Eb Ep. assert (Lr : r < R) by (eapply nth_error_some_lt; eauto).
          destruct (rd_lists w mi r b L3 Eb) as [rb Er]. destruct (H r rb Lr Er) as [rest [Ep' Lp]]. exists rest. unfold IN. congruence. }
    destruct Hex as [mi' [E4 [L4 H4]]]. rewrite E4. cbn [obind].
    destruct (on_ranks_ok w (fun r b => p <- rd mi' r ;; dst <- rd dsts r ;;
        _ <- assert (aware || host || (length (m_lin b) * ncomp =? 0)) ;; reverse_unpack (ds r) 1 b ncomp p dst)
      (fun r b dst' => forall dst, nth_error dsts r = Some dst -> length dst' = length dst /\
        (forall g i c, mget Z.eqb g (m_seq b) = Some i -> c < ncomp -> nth_error dst' (i * ncomp + c) = nth_error (U srcs (owner g) g) c) /\
        (forall j, length (m_lin b) * ncomp <= j -> nth_error dst' j = nth_error dst j))) as [res [E6 [L6 H6]]].
    { intros r b Eb. destruct (rd_lists w mi' r b L4 Eb) as [p Ep]. destruct (rd_lists w dsts r b (proj1 Sd) Eb) as [dst Edst]. unfold rd. rewrite Ep, Edst. cbn [obind].
      rewrite Ha. cbn [orb assert obind]. destruct (H4 r b p Eb Ep) as [rest ->]. assert (Lr : r < R) by (eapply nth_error_some_lt; eauto).
      destruct (runpack_ok srcs r b dst rest Lr Sz Eb (proj2 Sd r b dst Eb Edst)) as [dst' [Eu [Lu Hu]]]. unfold IN. rewrite Eu.
      exists dst'. split; auto. intros d2 Ed2. assert (d2 = dst) by congruence. subst. auto. }
    rewrite E6. exists res. split; auto. split; auto. intros r b dst dst' Eb Ed Er.
    destruct (H6 r b dst' Eb Er dst Ed) as [K1 [K2 K3]]. split; auto. split; auto.
    intros g i c o k src Es Lc Eo Ek Esrc. rewrite (K2 g i c Es Lc). apply (U_spec srcs (owner g) o src g k Sz Eo Esrc Ek). auto.
  Qed.
End Ex.
