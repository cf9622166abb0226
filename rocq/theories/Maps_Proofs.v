(** Lemmas about the containers. *)
From Coq Require Import List Arith ZArith Bool Lia Permutation.
Import ListNotations.
From Verif Require Import Base Maps_Model Maps_Spec.

(* ------------------------------------------------------------------ *)
(** * Keys *)
Section Tree.
Context {V : Type}.
Variable W : Z.
Hypothesis HW : (0 < W)%Z.

Lemma node_key_div key : get_node_key W key = (key / W)%Z.
Proof.
  unfold get_node_key. destruct (Z.ltb_spec key 0).
  - rewrite Z.quot_div_nonneg by lia.
    pose proof (Z.div_mod (- key - 1) W). pose proof (Z.mod_pos_bound (- key - 1) W HW).
    apply (Z.div_unique key W _ (W - 1 - (- key - 1) mod W)); [lia|]. nia.
  - apply Z.quot_div_nonneg; lia.
Qed.

Lemma leaf_key_mod key : get_leaf_key W key = (key mod W)%Z.
Proof.
  unfold get_leaf_key. destruct (Z.ltb_spec key 0).
  - rewrite Z.rem_mod_nonneg by lia.
    pose proof (Z.div_mod (- key - 1) W). pose proof (Z.mod_pos_bound (- key - 1) W HW).
    apply (Z.mod_unique key W (- ((- key - 1) / W + 1)) _); [lia|]. nia.
  - apply Z.rem_mod_nonneg; lia.
Qed.

Definition leaf (key : Z) : nat := Z.to_nat (key mod W).

Lemma idx_leaf key : idx (get_leaf_key W key) = Some (leaf key).
Proof.
  rewrite leaf_key_mod. unfold idx, leaf. pose proof (Z.mod_pos_bound key W HW).
  destruct (Z.ltb_spec (key mod W) 0); [lia|reflexivity].
Qed.

Lemma leaf_lt key : leaf key < Z.to_nat W.
Proof. unfold leaf. pose proof (Z.mod_pos_bound key W HW). lia. Qed.

Lemma key_inj a b : get_node_key W a = get_node_key W b -> leaf a = leaf b -> a = b.
Proof.
  rewrite !node_key_div. unfold leaf. intros H1 H2.
  pose proof (Z.mod_pos_bound a W HW). pose proof (Z.mod_pos_bound b W HW).
  assert (a mod W = b mod W)%Z by lia.
  rewrite (Z.div_mod a W), (Z.div_mod b W) by lia. congruence.
Qed.

(* ------------------------------------------------------------------ *)
(** * Searching *)
Notation node := (node V).
Implicit Types h : list node.

(** The path for key [k] from address [i] to address [j]. *)
Inductive walk h (k : Z) : nat -> nat -> Prop :=
| walk_here i n : nth_error h i = Some n -> walk h k i i
| walk_next i n i' j : nth_error h i = Some n -> node_key n <> k -> next n i k = Some i' ->
    walk h k i' j -> walk h k i j.

Definition ok_heap h : Prop := forall i n, nth_error h i = Some n ->
  length (ex n) = Z.to_nat W /\ length (data n) = Z.to_nat W /\
  (forall j, lhs n = Some j \/ rhs n = Some j -> i < j < length h).

Lemma next_neq (n : node) i k j : node_key n <> k -> next n i k = Some j -> lhs n = Some j \/ rhs n = Some j.
Proof.
  unfold next. intros N H. destruct (Z.ltb_spec k (node_key n)); auto.
  destruct (Z.ltb_spec (node_key n) k); auto. exfalso; lia.
Qed.

Lemma search_found h k i j fuel n : ok_heap h -> walk h k i j ->
  nth_error h j = Some n -> node_key n = k -> length h - i <= fuel ->
  search fuel h (Some i) k = Some (Some j).
Proof.
  intros OK Hw. revert fuel. induction Hw as [i m Hi|i m i' j Hi Hn Hnx Hw IH]; intros fuel Hj Hk Hf.
  - assert (i < length h) by (eapply nth_error_some_lt; eauto).
    destruct fuel as [|f]; [lia|]. cbn [search]. unfold rd. rewrite Hi; cbn [obind].
    assert (m = n) by congruence; subst m. unfold is_node. rewrite Hk, Z.eqb_refl. reflexivity.
  - assert (i < length h) by (eapply nth_error_some_lt; eauto).
    destruct (OK _ _ Hi) as [_ [_ Hc]].
    pose proof (Hc i' (next_neq _ _ _ _ Hn Hnx)).
    destruct fuel as [|f]; [lia|]. cbn [search]. unfold rd. rewrite Hi; cbn [obind].
    unfold is_node. destruct (Z.eqb_spec k (node_key m)); [congruence|]. rewrite Hnx.
    apply IH; auto. lia.
Qed.

Lemma search_absent h k : ok_heap h -> (forall i n, nth_error h i = Some n -> node_key n <> k) ->
  forall fuel p, (forall i, p = Some i -> i < length h) ->
  match p with Some i => length h - i < fuel | None => 0 < fuel end ->
  search fuel h p k = Some None.
Proof.
  intros OK Ha. induction fuel as [|f IH]; intros p Hp Hf.
  { destruct p; lia. }
  cbn [search]. destruct p as [i|]; [|reflexivity].
  destruct (nth_error_lt_some h i (Hp i eq_refl)) as [n Hi]. unfold rd; rewrite Hi; cbn [obind].
  unfold is_node. pose proof (Ha _ _ Hi) as Hn. destruct (Z.eqb_spec k (node_key n)); [congruence|].
  destruct (OK _ _ Hi) as [_ [_ Hc]]. pose proof (nth_error_some_lt _ _ _ Hi).
  apply IH.
  - intros j E. apply (Hc j), (next_neq _ _ _ _ Hn E).
  - destruct (next n i k) as [j|] eqn:E; [|lia]. pose proof (Hc j (next_neq _ _ _ _ Hn E)). lia.
Qed.

Lemma last_node_some h k : ok_heap h ->
  forall fuel i, i < length h -> length h - i <= fuel ->
  (forall j n, walk h k i j -> nth_error h j = Some n -> node_key n <> k) ->
  exists c n, last_node fuel h i k = Some c /\ walk h k i c /\ nth_error h c = Some n /\ next n c k = None.
Proof.
  intros OK. induction fuel as [|f IH]; intros i Hi Hf Ha; [lia|].
  destruct (nth_error_lt_some h i Hi) as [n En]. cbn [last_node]. unfold rd; rewrite En; cbn [obind].
  assert (Hn : node_key n <> k) by (apply (Ha i n); [econstructor; eauto|auto]).
  destruct (next n i k) as [j|] eqn:E.
  - destruct (OK _ _ En) as [_ [_ Hc]]. pose proof (Hc j (next_neq _ _ _ _ Hn E)).
    destruct (IH j) as [c [m [E1 [E2 E3]]]]; [lia|lia|..].
    { intros j' n' Hw. apply Ha. eapply walk_next; eauto. }
    exists c, m; split; auto. split; auto. eapply walk_next; eauto.
  - exists i, n. repeat split; auto. econstructor; eauto.
Qed.

(** Paths survive when nodes keep their keys and their non-null branches. *)
Lemma walk_mono h h' k i j : 
  (forall i n, nth_error h i = Some n -> exists n', nth_error h' i = Some n' /\ node_key n' = node_key n /\
     forall i', next n i k = Some i' -> next n' i k = Some i') ->
  walk h k i j -> walk h' k i j.
Proof.
  intros H Hw. induction Hw as [i n Hi|i n i' j Hi Hn Hx Hw IH].
  - destruct (H _ _ Hi) as [n' [E _]]. econstructor; eauto.
  - destruct (H _ _ Hi) as [n' [E [E1 E2]]]. eapply walk_next; eauto. congruence.
Qed.

Lemma walk_snoc h k i c n j m : walk h k i c -> nth_error h c = Some n -> node_key n <> k ->
  next n c k = Some j -> nth_error h j = Some m -> walk h k i j.
Proof.
  intros Hw. revert n. induction Hw as [i m' Hi|i m' i' c Hi Hn Hx Hw IH]; intros n Hc Hk Hx' Hj.
  - eapply walk_next; eauto. econstructor; eauto.
  - eapply walk_next; eauto.
Qed.

Lemma walk_end h k i j : walk h k i j -> exists n, nth_error h j = Some n.
Proof. induction 1; eauto. Qed.

(* ------------------------------------------------------------------ *)
(** * The invariant *)
Definition cell (n : node) (l : nat) : option V :=
  match nth_error (ex n) l with Some true => nth_error (data n) l | _ => None end.

Definition inv (t : tree V) : Prop :=
  ok_heap (heap t) /\
  root t = match heap t with [] => None | _ => Some 0 end /\
  (forall i n, nth_error (heap t) i = Some n -> walk (heap t) (node_key n) 0 i) /\
  (forall i j n m, nth_error (heap t) i = Some n -> nth_error (heap t) j = Some m -> node_key n = node_key m -> i = j) /\
  (forall k, count_node t k = true <-> exists i n, nth_error (heap t) i = Some n /\ node_key n = k).

Lemma get_present t key i n : inv t -> nth_error (heap t) i = Some n -> node_key n = get_node_key W key ->
  tree_host_get W t key = Some (cell n (leaf key)).
Proof.
  intros (OK & Hr & Hw & _) Hi Hk. unfold tree_host_get. rewrite Hr.
  destruct (heap t) as [|n0 h0] eqn:E; [destruct i; discriminate|]. rewrite <- E in *.
  unfold get, get_location.
  rewrite (search_found _ _ _ i _ n OK); auto; [|rewrite <- Hk; eauto|lia]. cbn [obind].
  rewrite idx_leaf; cbn [obind]. unfold rd. rewrite Hi; cbn [obind].
  destruct (OK _ _ Hi) as [L1 [L2 _]]. pose proof (leaf_lt key). unfold cell.
  destruct (nth_error_lt_some (ex n) (leaf key)) as [e Ee]; [lia|]. rewrite Ee; cbn [obind].
  destruct e; [|reflexivity].
  destruct (nth_error_lt_some (data n) (leaf key)) as [v Ev]; [lia|]. rewrite Ev; reflexivity.
Qed.

Lemma get_absent t key : inv t -> (forall i n, nth_error (heap t) i = Some n -> node_key n <> get_node_key W key) ->
  tree_host_get W t key = Some None.
Proof.
  intros (OK & Hr & _) Ha. unfold tree_host_get. rewrite Hr.
  destruct (heap t) as [|n0 h0] eqn:E; [reflexivity|]. rewrite <- E in *.
  unfold get, get_location. rewrite search_absent; auto.
  - intros i [= <-]. rewrite E; cbn; lia.
  - lia.
Qed.

Lemma set_leaf_some n l v : length (ex n) = Z.to_nat W -> length (data n) = Z.to_nat W -> l < Z.to_nat W ->
  exists n', set_leaf n l v = Some n' /\ node_key n' = node_key n /\ lhs n' = lhs n /\ rhs n' = rhs n /\
    length (ex n') = Z.to_nat W /\ length (data n') = Z.to_nat W /\
    forall l', l' < Z.to_nat W -> cell n' l' = if l' =? l then Some v else cell n l'.
Proof.
  intros L1 L2 Hl. unfold set_leaf.
  destruct (upd_some (ex n) l true) as [e' E1]; [lia|].
  destruct (upd_some (data n) l v) as [d' E2]; [lia|].
  rewrite E1; cbn [obind]. rewrite E2; cbn [obind].
  eexists; split; [reflexivity|]. cbn. rewrite (upd_length _ _ _ _ E1), (upd_length _ _ _ _ E2).
  repeat split; auto. intros l' Hl'. unfold cell; cbn [ex data].
  rewrite (upd_nth _ _ _ _ l' E1), (upd_nth _ _ _ _ l' E2). destruct (l' =? l); reflexivity.
Qed.

Variable fresh_node : nat -> node.
Hypothesis fresh_ok : forall i, length (ex (fresh_node i)) = Z.to_nat W /\ length (data (fresh_node i)) = Z.to_nat W.

Lemma inv_new : inv new_tree.
Proof.
  unfold inv; cbn [heap root nodes new_tree]. split; [|split; [|split; [|split]]].
  - intros [|i] n H; discriminate.
  - reflexivity.
  - intros [|i] n H; discriminate.
  - intros [|i] j n m H; discriminate.
  - intros k; cbn. split; [discriminate|]. intros [[|i] [n [H _]]]; discriminate.
Qed.

Lemma dec_node h k : {exists i n, nth_error h i = Some n /\ node_key n = k} + {forall i n, nth_error h i = Some n -> node_key n <> k}.
Proof.
  induction h as [|n h IH].
  - right. intros [|i] n; discriminate.
  - destruct (Z.eq_dec (node_key n) k); [left; exists 0, n; auto|].
    destruct IH as [H|H].
    + left. destruct H as [i [m [H1 H2]]]. exists (S i), m; auto.
    + right. intros [|i] m; cbn; [intros [= <-]; auto|eauto].
Qed.

Lemma nth_snoc {A} (l : list A) x i y : nth_error (l ++ [x]) i = Some y ->
  (nth_error l i = Some y /\ i < length l) \/ (i = length l /\ y = x).
Proof.
  intros H. destruct (Nat.lt_ge_cases i (length l)) as [L|L].
  - rewrite nth_error_app1 in H by auto. auto.
  - rewrite nth_error_app2 in H by auto. right.
    assert (i - length l < 1) by (pose proof (nth_error_some_lt _ _ _ H) as P; cbn in P; lia).
    assert (i = length l) by lia. subst. rewrite Nat.sub_diag in H. cbn in H. split; congruence.
Qed.

Lemma add_correct t key v : inv t -> exists t', add W fresh_node t key v = Some t' /\ inv t' /\
  forall key', exists r, tree_host_get W t key' = Some r /\
     tree_host_get W t' key' = Some (if (key' =? key)%Z then Some v else r).
Proof.
  intros HI. destruct HI as (OK & Hr & Hw & Hu & Hm).
  assert (HI : inv t) by (unfold inv; auto).
  unfold add. rewrite idx_leaf; cbn [obind]. pose proof (leaf_lt key) as Hlf.
  destruct (dec_node (heap t) (get_node_key W key)) as [He|Ha].
  - (* the node exists *)
    rewrite (proj2 (Hm _) He). destruct He as [i [n [Hi Hk]]].
    pose proof (nth_error_some_lt _ _ _ Hi) as Li.
    destruct (OK _ _ Hi) as [L1 [L2 Hc]].
    destruct (set_leaf_some n (leaf key) v L1 L2 Hlf) as [n' [E1 [K1 [Ql [Qr [L1' [L2' Hcell]]]]]]].
    destruct (upd_some (heap t) i n' Li) as [h' Eh].
    assert (E : set W (heap t) (root t) key v = Some (h', true)).
    { unfold set, get_location. rewrite Hr. destruct (heap t) as [|n0 h0] eqn:Eq; [destruct i; discriminate|].
      rewrite <- Eq in *. rewrite (search_found _ _ _ i _ n OK); auto; [|rewrite <- Hk; eauto|lia]. cbn [obind].
      rewrite idx_leaf; cbn [obind]. unfold rd. rewrite Hi; cbn [obind]. rewrite E1; cbn [obind].
      rewrite Eh; reflexivity. }
    rewrite E; cbn [obind fst].
    assert (G : forall j, nth_error h' j = if j =? i then Some n' else nth_error (heap t) j) by (intros j; apply (upd_nth _ _ _ _ j Eh)).
    assert (Lh : length h' = length (heap t)) by apply (upd_length _ _ _ _ Eh).
    assert (B : forall j m', nth_error h' j = Some m' -> exists m, nth_error (heap t) j = Some m /\ node_key m' = node_key m /\
       lhs m' = lhs m /\ rhs m' = rhs m /\ length (ex m') = Z.to_nat W /\ length (data m') = Z.to_nat W).
    { intros j m'. rewrite G. destruct (Nat.eqb_spec j i) as [->|].
      - intros [= <-]. exists n; repeat split; auto.
      - intros Hj. exists m'. destruct (OK _ _ Hj) as [? [? ?]]. repeat split; auto. }
    assert (F : forall j m, nth_error (heap t) j = Some m -> exists m', nth_error h' j = Some m' /\ node_key m' = node_key m /\
       lhs m' = lhs m /\ rhs m' = rhs m).
    { intros j m Hj. rewrite G. destruct (Nat.eqb_spec j i) as [->|].
      - assert (m = n) by congruence; subst. exists n'; auto.
      - exists m; auto. }
    assert (HI' : inv (mk_tree (nodes t) (root t) h')).
    { unfold inv; cbn [heap root nodes]. split; [|split; [|split; [|split]]].
      - intros j m' Hj. destruct (B _ _ Hj) as [m [Hj' [_ [A1 [A2 [A3 A4]]]]]]. repeat split; auto; rewrite A1, A2 in H; 
          destruct (OK _ _ Hj') as [_ [_ Hc']]; specialize (Hc' _ H); lia.
      - rewrite Hr. destruct (heap t), h'; cbn in Lh; try lia; auto.
      - intros j m' Hj. destruct (B _ _ Hj) as [m [Hj' [A0 _]]]. rewrite A0.
        apply (walk_mono (heap t)); [|auto]. intros i0 n0 Hi0. destruct (F _ _ Hi0) as [n0' [F1 [F2 [F3 F4]]]].
        exists n0'; split; auto. split; auto. intros i' Hx. unfold next in *. rewrite F2, F3, F4; auto.
      - intros a b x y Hx Hy Q. destruct (B _ _ Hx) as [x' [? [? _]]], (B _ _ Hy) as [y' [? [? _]]].
        eapply Hu; eauto. congruence.
      - intros k. unfold count_node; cbn [nodes]. change (count_node t k = true <-> exists i0 n0, nth_error h' i0 = Some n0 /\ node_key n0 = k).
        rewrite Hm. split; intros [a [x [Hx Q]]].
        + destruct (F _ _ Hx) as [x' [? [? _]]]. exists a, x'; split; auto; congruence.
        + destruct (B _ _ Hx) as [x' [? [? _]]]. exists a, x'; split; auto; congruence. }
    eexists; split; [reflexivity|]. split; [exact HI'|].
    intros key'. destruct (dec_node (heap t) (get_node_key W key')) as [[j [m [Hj Kj]]]|Ha'].
    + exists (cell m (leaf key')). split; [eapply get_present; eauto|].
      destruct (F _ _ Hj) as [m' [Hj' [Km' _]]].
      rewrite (get_present _ key' j m' HI') by (auto; congruence). f_equal.
      cbn [heap] in *. rewrite G in Hj'. destruct (Nat.eqb_spec j i) as [->|Nj].
      * injection Hj' as <-. assert (m = n) by congruence; subst m.
        rewrite Hcell by apply leaf_lt. destruct (Nat.eqb_spec (leaf key') (leaf key)) as [Ql'|Nl].
        -- assert (key' = key) by (apply key_inj; congruence). subst. rewrite Z.eqb_refl; reflexivity.
        -- destruct (Z.eqb_spec key' key); [subst; congruence|reflexivity].
      * assert (m' = m) by congruence; subst m'. destruct (Z.eqb_spec key' key); [|reflexivity].
        subst key'. exfalso; apply Nj. eapply Hu; eauto. congruence.
    + exists None. split; [apply get_absent; auto|].
      rewrite (get_absent _ key' HI').
      * destruct (Z.eqb_spec key' key); [subst; exfalso; eapply Ha'; eauto|reflexivity].
      * intros j m' Hj. destruct (B _ _ Hj) as [m [? [? _]]]. rewrite H0. eauto.
  - (* a new node *)
    assert (Hcn : count_node t (get_node_key W key) = false).
    { destruct (count_node t (get_node_key W key)) eqn:E; auto. apply Hm in E. destruct E as [i [n [? ?]]]. exfalso; eapply Ha; eauto. }
    rewrite Hcn.
    remember (length (heap t)) as new eqn:Enew. set (n0 := reset (fresh_node new)).
    set (nk := get_node_key W key).
    destruct (fresh_ok new) as [Lf1 Lf2].
    assert (Ln1 : length (ex n0) = Z.to_nat W) by (unfold n0, reset; cbn; rewrite map_length; auto).
    assert (Ln2 : length (data n0) = Z.to_nat W) by (unfold n0, reset; cbn; auto).
    destruct (set_leaf_some (mk_node nk (lhs n0) (rhs n0) (ex n0) (data n0)) (leaf key) v Ln1 Ln2 Hlf)
      as [n1 [E1 [K1 [Ql [Qr [L1' [L2' Hcell]]]]]]].
    cbn [node_key lhs rhs] in K1, Ql, Qr. change (lhs n0) with (@None nat) in Ql. change (rhs n0) with (@None nat) in Qr.
    rewrite E1; cbn [obind].
    assert (Hcell0 : forall l', l' < Z.to_nat W -> cell n1 l' = if l' =? leaf key then Some v else None).
    { intros l' Hl'. rewrite Hcell by auto. destruct (l' =? leaf key); auto. unfold cell; cbn [ex].
      unfold n0, reset; cbn [ex]. rewrite nth_error_map. destruct (nth_error _ _); reflexivity. }
    assert (OK1 : ok_heap (heap t ++ [n1])).
    { intros i n Hi. apply nth_snoc in Hi. rewrite app_length; cbn [length]. destruct Hi as [[Hi Li]|[-> ->]].
      - destruct (OK _ _ Hi) as [A1 [A2 A3]]. repeat split; auto; specialize (A3 _ H); lia.
      - repeat split; auto; rewrite Ql, Qr in H; destruct H; discriminate. }
    assert (W1 : forall k j n, nth_error (heap t) j = Some n -> walk (heap t) k 0 j -> walk (heap t ++ [n1]) k 0 j).
    { intros k j n Hj Hwj. apply (walk_mono (heap t)); auto. intros i n' Hi. exists n'; repeat split; auto.
      rewrite nth_error_app1; auto. eapply nth_error_some_lt; eauto. }
    assert (Hadd : exists h2, (if match root t with None => false | Some _ => true end
        then add_node (heap t ++ [n1]) (match root t with None => new | Some r => r end) new else Some (heap t ++ [n1])) = Some h2 /\
      length h2 = S new /\ nth_error h2 new = Some n1 /\ walk h2 nk 0 new /\ ok_heap h2 /\
      (forall j m, nth_error (heap t) j = Some m -> exists m', nth_error h2 j = Some m' /\ node_key m' = node_key m /\
         ex m' = ex m /\ data m' = data m /\ (forall k i', next m j k = Some i' -> next m' j k = Some i')) /\
      match root t with None => new | Some r => r end = 0).
    { destruct (heap t) as [|x h0] eqn:Eq.
      - rewrite Hr. exists [n1]. cbn in Enew. subst new. cbn. repeat split; auto.
        + econstructor; reflexivity.
        + apply (OK1 i n H).
        + apply (OK1 i n H).
        + apply (proj2 (proj2 (OK1 i n H)) j H0).
        + apply (proj2 (proj2 (OK1 i n H)) j H0).
        + intros [|j] m; discriminate.
      - assert (Hr0 : root t = Some 0) by (rewrite Hr; reflexivity). rewrite <- Eq in *. rewrite Hr0.
        unfold add_node. unfold rd at 1.
        assert (Hn1 : nth_error (heap t ++ [n1]) new = Some n1)
          by (rewrite Enew, nth_error_app2, Nat.sub_diag by lia; reflexivity).
        rewrite Hn1; cbn [obind]. rewrite K1. fold nk.
        assert (L0 : 0 < length (heap t)) by (rewrite Eq; cbn; lia).
        destruct (last_node_some (heap t) nk OK (S (S (length (heap t)))) 0) as [c [n [El [Hwc [Hc Hx]]]]]; [lia|lia| |].
        { intros j m _ Hj. apply (Ha _ _ Hj). }
        (* the walk in the extended heap is the same *)
        assert (El' : last_node (S (length (heap t ++ [n1]))) (heap t ++ [n1]) 0 nk = Some c).
        { replace (S (length (heap t ++ [n1]))) with (S (S (length (heap t)))) by (rewrite app_length; cbn; lia).
          clear - El OK Ha L0. revert El. generalize (S (S (length (heap t)))) as fuel. revert L0.
          generalize 0 as i. intros i Li fuel. revert i Li. induction fuel as [|f IH]; intros i Li El; [discriminate|].
          cbn [last_node] in *. unfold rd in *. destruct (nth_error (heap t) i) as [n|] eqn:En; [|discriminate].
          rewrite nth_error_app1 by auto. rewrite En. cbn [obind] in *.
          destruct (next n i nk) as [j|] eqn:Ej; auto. apply IH; auto.
          destruct (OK _ _ En) as [_ [_ Hc]]. assert (node_key n <> nk) by (eapply Ha; eauto).
          pose proof (Hc j (next_neq _ _ _ _ H Ej)). lia. }
        rewrite El'; cbn [obind].
        pose proof (nth_error_some_lt _ _ _ Hc) as Lc.
        assert (Hc' : nth_error (heap t ++ [n1]) c = Some n) by (rewrite nth_error_app1; auto).
        unfold rd. rewrite Hc'; cbn [obind].
        assert (Nk : node_key n <> nk) by (eapply Ha; eauto).
        set (nl := if (nk <? node_key n)%Z then mk_node (node_key n) (Some new) (rhs n) (ex n) (data n)
                   else mk_node (node_key n) (lhs n) (Some new) (ex n) (data n)).
        assert (Enl : (if (nk <? node_key n)%Z
           then upd (heap t ++ [n1]) c (mk_node (node_key n) (Some new) (rhs n) (ex n) (data n))
           else upd (heap t ++ [n1]) c (mk_node (node_key n) (lhs n) (Some new) (ex n) (data n))) = upd (heap t ++ [n1]) c nl)
          by (unfold nl; destruct (nk <? node_key n)%Z; reflexivity).
        rewrite Enl. destruct (upd_some (heap t ++ [n1]) c nl) as [h2 E2]; [rewrite app_length; cbn; lia|].
        exists h2. split; [exact E2|].
        assert (Lh2 : length h2 = S new) by (rewrite (upd_length _ _ _ _ E2), app_length; cbn; lia).
        assert (G : forall j, nth_error h2 j = if j =? c then Some nl else nth_error (heap t ++ [n1]) j) by (intros j; apply (upd_nth _ _ _ _ j E2)).
        assert (Knl : node_key nl = node_key n) by (unfold nl; destruct (nk <? node_key n)%Z; reflexivity).
        assert (Xnl : forall k i', next n c k = Some i' -> next nl c k = Some i').
        { intros k i'. unfold next in *. rewrite Knl. unfold nl.
          destruct (Z.ltb_spec nk (node_key n)) as [H1|H1]; cbn [lhs rhs node_key].
          - destruct (Z.ltb_spec k (node_key n)); auto. rewrite Hx; discriminate.
          - destruct (Z.ltb_spec (node_key n) nk) as [H2|H2]; [|lia].
            destruct (Z.ltb_spec k (node_key n)); auto.
            destruct (Z.ltb_spec (node_key n) k); auto. rewrite Hx; discriminate. }
        assert (Xnew : next nl c nk = Some new).
        { unfold next in *. rewrite Knl. unfold nl.
          destruct (Z.ltb_spec nk (node_key n)) as [H1|H1]; cbn [lhs rhs node_key]; auto.
          destruct (Z.ltb_spec (node_key n) nk) as [H2|H2]; auto. lia. }
        assert (Gn : nth_error h2 new = Some n1).
        { rewrite G. destruct (Nat.eqb_spec new c); [lia|exact Hn1]. }
        assert (F : forall j m, nth_error (heap t) j = Some m -> exists m', nth_error h2 j = Some m' /\ node_key m' = node_key m /\
           ex m' = ex m /\ data m' = data m /\ (forall k i', next m j k = Some i' -> next m' j k = Some i')).
        { intros j m Hj. rewrite G. destruct (Nat.eqb_spec j c) as [->|].
          - assert (m = n) by congruence; subst m. exists nl. repeat split; auto; unfold nl; destruct (nk <? node_key n)%Z; reflexivity.
          - exists m. rewrite nth_error_app1 by (eapply nth_error_some_lt; eauto). repeat split; auto. }
        split; [exact Lh2|]. split; [exact Gn|]. split.
        { apply (walk_snoc h2 nk 0 c nl new n1); auto.
          - apply (walk_mono (heap t)); auto. intros i m Hi. destruct (F _ _ Hi) as [m' [F1 [F2 [_ [_ F3]]]]]. exists m'; auto.
          - rewrite G, Nat.eqb_refl; auto.
          - rewrite Knl; auto. }
        split; [|split; [exact F|reflexivity]].
        intros i m Hi. rewrite Lh2. rewrite G in Hi. destruct (Nat.eqb_spec i c) as [->|].
        + injection Hi as <-. destruct (OK _ _ Hc) as [A1 [A2 A3]].
          assert (ex nl = ex n /\ data nl = data n) as [-> ->] by (unfold nl; destruct (nk <? node_key n)%Z; auto).
          repeat split; auto; unfold nl in H; destruct (nk <? node_key n)%Z; cbn [lhs rhs] in H; destruct H as [H|H];
            try (injection H as <-; lia); try (assert (c < j < length (heap t)) by (apply A3; auto); lia).
        + destruct (OK1 _ _ Hi) as [A1 [A2 A3]]. rewrite app_length in A3; cbn in A3. repeat split; auto; specialize (A3 _ H); lia. }
    destruct Hadd as (h2 & Eh2 & Lh2 & Gn & Wn & OK2 & F & R0). rewrite Eh2; cbn [obind]. rewrite R0.
    assert (B : forall j m', nth_error h2 j = Some m' -> (j = new /\ m' = n1) \/
       (j < new /\ exists m, nth_error (heap t) j = Some m /\ node_key m' = node_key m /\ ex m' = ex m /\ data m' = data m)).
    { intros j m' Hj. pose proof (nth_error_some_lt _ _ _ Hj). destruct (Nat.eq_dec j new) as [->|].
      - left; split; congruence.
      - right. assert (j < length (heap t)) by lia. split; [lia|].
        destruct (nth_error_lt_some _ _ H0) as [m Hm']. destruct (F _ _ Hm') as [m'' [F1 [F2 [F3 [F4 _]]]]].
        assert (m'' = m') by congruence; subst. exists m; auto. }
    assert (HI' : inv (mk_tree ((nk, new) :: nodes t) (Some 0) h2)).
    { unfold inv; cbn [heap root nodes]. split; [exact OK2|]. split; [destruct h2; [discriminate|reflexivity]|]. split; [|split].
      - intros j m' Hj. destruct (B _ _ Hj) as [[-> ->]|[Lj [m [Hj' [A0 _]]]]].
        + rewrite K1. exact Wn.
        + rewrite A0. apply (walk_mono (heap t)); [|auto]. intros i0 n' Hi0.
          destruct (F _ _ Hi0) as [n0' [F1 [F2 [_ [_ F3]]]]]. exists n0'; auto.
      - intros a b x y Hx Hy Q.
        destruct (B _ _ Hx) as [[Ea Ex]|[La [x' [Hx' [Qx _]]]]], (B _ _ Hy) as [[Eb Ey]|[Lb [y' [Hy' [Qy _]]]]]; try congruence.
        + subst x. exfalso. eapply (Ha b y'); eauto. rewrite K1 in Q. fold nk. congruence.
        + subst y. exfalso. eapply (Ha a x'); eauto. rewrite K1 in Q. fold nk. congruence.
        + eapply Hu; eauto. congruence.
      - intros k. unfold count_node; cbn [nodes existsb fst].
        change (existsb (fun e => (fst e =? k)%Z) (nodes t)) with (count_node t k).
        rewrite orb_true_iff, Z.eqb_eq, Hm. split.
        + intros [<-|[a [x [Hx Q]]]]; [exists new, n1; auto|].
          destruct (F _ _ Hx) as [x' [? [? _]]]. exists a, x'; split; auto; congruence.
        + intros [a [x [Hx Q]]]. destruct (B _ _ Hx) as [[Ea Ex]|[La [x' [Hx' [Qx _]]]]]; [left; subst x; congruence|].
          right; exists a, x'; split; auto; congruence. }
    eexists; split; [reflexivity|]. split; [exact HI'|].
    intros key'. destruct (dec_node (heap t) (get_node_key W key')) as [[j [m [Hj Kj]]]|Ha'].
    + exists (cell m (leaf key')). split; [eapply get_present; eauto|].
      destruct (F _ _ Hj) as [m' [Hj' [Km' [Em' [Dm' _]]]]].
      rewrite (get_present _ key' j m' HI') by (auto; congruence). f_equal.
      destruct (Z.eqb_spec key' key); [subst; exfalso; eapply Ha; eauto|].
      unfold cell. rewrite Em', Dm'; reflexivity.
    + exists None. split; [apply get_absent; auto|].
      destruct (Z.eq_dec (get_node_key W key') nk) as [Q|Q].
      * rewrite (get_present _ key' new n1 HI') by (auto; congruence). f_equal.
        rewrite Hcell0 by apply leaf_lt. destruct (Nat.eqb_spec (leaf key') (leaf key)).
        -- assert (key' = key) by (apply key_inj; auto). subst. rewrite Z.eqb_refl; reflexivity.
        -- destruct (Z.eqb_spec key' key); [congruence|reflexivity].
      * rewrite (get_absent _ key' HI').
        -- destruct (Z.eqb_spec key' key); [subst; exfalso; apply Q; reflexivity|reflexivity].
        -- intros j m' Hj. destruct (B _ _ Hj) as [[-> ->]|[_ [m [? [? _]]]]]; [congruence|]. rewrite H0; eauto.
Qed.

Lemma last_added_app (h1 h2 : list (Z * V)) k : last_added (h1 ++ h2) k =
  match last_added h2 k with Some w => Some w | None => last_added h1 k end.
Proof.
  induction h1 as [|[k' v] h1 IH]; cbn; [destruct (last_added h2 k); auto|].
  rewrite IH. destruct (last_added h2 k); auto.
Qed.

Lemma history_correct hist : exists t,
  foldM (fun t kv => add W fresh_node t (fst kv) (snd kv)) new_tree hist = Some t /\ inv t /\
  forall k, tree_host_get W t k = Some (last_added hist k).
Proof.
  induction hist as [|[k v] hist IH] using rev_ind.
  - exists new_tree. split; [reflexivity|]. split; [apply inv_new|]. intros k; reflexivity.
  - destruct IH as [t [E [HI H]]]. destruct (add_correct t k v HI) as [t' [E' [HI' H']]].
    exists t'. rewrite foldM_app, E; cbn [obind foldM fst snd]. rewrite E'; cbn [obind]. split; [reflexivity|].
    split; [exact HI'|]. intros k'. destruct (H' k') as [r [A B]]. rewrite B, last_added_app; cbn.
    rewrite H in A. injection A as <-. rewrite Z.eqb_sym. destruct (k =? k')%Z; reflexivity.
Qed.

Lemma root_of t : inv t -> forall r, root t = Some r -> r = 0 /\ forall k, get W (heap t) (Some r) k = tree_host_get W t k.
Proof.
  intros HI r Hr. split; [|intros k; unfold tree_host_get; rewrite Hr; reflexivity].
  destruct HI as (_ & E & _). rewrite E in Hr. destruct (heap t); congruence.
Qed.
End Tree.

(* ------------------------------------------------------------------ *)
(** * LookupTable *)
Section Table.
Context {V : Type}.

Definition tinv (n : nat) (t : table V) (hist : list (Z * V)) : Prop :=
  size t = Z.of_nat n /\ length (entry_exists t) = n /\ length (entries t) = n /\
  forall i, i < n -> match last_added hist (Z.of_nat i) with
    | Some v => nth_error (entry_exists t) i = Some 1%Z /\ nth_error (entries t) i = Some v
    | None => nth_error (entry_exists t) i = Some 0%Z end.

Lemma nth_repeat_some {A} (x : A) n i : i < n -> nth_error (repeat x n) i = Some x.
Proof. revert i; induction n as [|n IH]; intros [|i] H; cbn; try lia; auto. apply IH; lia. Qed.

Lemma tinv_new n junk : tinv n (new_table n junk) [].
Proof.
  unfold tinv, new_table; cbn. rewrite repeat_length, map_length, seq_length. repeat split; auto.
  intros i Hi. apply nth_repeat_some; auto.
Qed.

Lemma tinv_add n t hist k v : tinv n t hist -> (0 <= k < Z.of_nat n)%Z ->
  exists t', table_add t k v = Some t' /\ tinv n t' (hist ++ [(k, v)]).
Proof.
  intros (S & L1 & L2 & H) Hk. unfold table_add. rewrite S.
  replace ((-1 <? k)%Z && (k <? Z.of_nat n)%Z) with true by (symmetry; apply andb_true_iff; split; apply Z.ltb_lt; lia).
  cbn [assert obind].
  destruct (upd_some (entry_exists t) (Z.to_nat k) 1%Z) as [e E1]; [lia|].
  destruct (upd_some (entries t) (Z.to_nat k) v) as [d E2]; [lia|].
  rewrite E1; cbn [obind]. rewrite E2; cbn [obind]. eexists; split; [reflexivity|].
  unfold tinv; cbn [size entry_exists entries]. rewrite (upd_length _ _ _ _ E1), (upd_length _ _ _ _ E2).
  repeat split; auto. intros i Hi. rewrite last_added_app; cbn [last_added].
  rewrite (upd_nth _ _ _ _ i E1), (upd_nth _ _ _ _ i E2). specialize (H i Hi).
  destruct (Z.eqb_spec k (Z.of_nat i)) as [Q|Q]; destruct (Nat.eqb_spec i (Z.to_nat k)); try lia; auto.
Qed.

Lemma tinv_history n junk hist : Forall (fun kv => 0 <= fst kv < Z.of_nat n)%Z hist ->
  exists t, foldM (fun t kv => table_add t (fst kv) (snd kv)) (new_table n junk) hist = Some t /\ tinv n t hist.
Proof.
  induction hist as [|[k v] hist IH] using rev_ind; intros HF.
  - eexists; split; [reflexivity|apply tinv_new].
  - apply Forall_app in HF. destruct HF as [HF Hk]. inversion Hk as [|? ? Hk' _]; subst. cbn in Hk'.
    destruct (IH HF) as [t [E HI]]. destruct (tinv_add n t hist k v HI Hk') as [t' [E' HI']].
    exists t'. rewrite foldM_app, E; cbn [obind foldM fst snd]. rewrite E'; auto.
Qed.

Lemma tinv_get n t hist k : tinv n t hist -> 
  Forall (fun kv => 0 <= fst kv < Z.of_nat n)%Z hist ->
  table_get t k = Some (last_added hist k) /\ table_host_get t k = Some (last_added hist k).
Proof.
  intros (S & L1 & L2 & H) HF. unfold table_get, table_host_get. rewrite S.
  assert (Hout : (k < 0 \/ Z.of_nat n <= k)%Z -> last_added hist k = None).
  { intros Ho. clear H. induction hist as [|[k' v] hist IH]; cbn; auto. inversion HF as [|? ? F1 F2]; subst; cbn in F1.
    rewrite IH by auto. destruct (Z.eqb_spec k' k); [lia|reflexivity]. }
  destruct (Z.ltb_spec (-1) k) as [A|A]; destruct (Z.ltb_spec k (Z.of_nat n)) as [B|B]; cbn [andb negb];
    try (rewrite Hout by lia; auto).
  specialize (H (Z.to_nat k)). rewrite Z2Nat.id in H by lia. specialize (H ltac:(lia)).
  unfold rd. destruct (last_added hist k) as [v|].
  - destruct H as [H1 H2]. rewrite H1, H2; cbn. auto.
  - rewrite H; cbn. auto.
Qed.

Lemma table_add_invalid (t : table V) k v : (k < 0 \/ size t <= k)%Z -> table_add t k v = None.
Proof.
  intros H. unfold table_add. replace ((-1 <? k)%Z && (k <? size t)%Z) with false; [reflexivity|].
  symmetry; apply andb_false_iff. rewrite !Z.ltb_ge. lia.
Qed.
End Table.

(* ------------------------------------------------------------------ *)
(** * NDIndex *)
Open Scope Z_scope.

Lemma linearise_row_major shape : forall ix acc, length ix = length shape ->
  linearise_inner acc shape ix = Some (acc * volume shape + row_major shape ix).
Proof.
  induction shape as [|s shape IH]; intros [|i ix] acc L; try discriminate; cbn.
  - f_equal; lia.
  - rewrite IH by (cbn in L; lia). f_equal. fold (volume shape). ring.
Qed.

Lemma linearise_bad shape : forall ix acc, length ix <> length shape -> linearise_inner acc shape ix = None.
Proof.
  induction shape as [|s shape IH]; intros [|i ix] acc L; cbn in *; auto; try lia. 
Qed.

Lemma inside_length shape ix : inside shape ix -> length ix = length shape.
Proof. induction 1; cbn; lia. Qed.

Lemma volume_cons s shape : volume (s :: shape) = s * volume shape.
Proof. reflexivity. Qed.

Lemma inside_volume shape ix : inside shape ix -> 0 < volume shape.
Proof. induction 1; rewrite ?volume_cons; [reflexivity|nia]. Qed.

Lemma row_major_range shape ix : inside shape ix -> 0 <= row_major shape ix < volume shape.
Proof.
  induction 1 as [|s i shape ix H F IH]; [cbn; lia|]. cbn [row_major]. rewrite volume_cons.
  pose proof (inside_volume _ _ F). nia.
Qed.

Lemma row_major_inj shape ix : inside shape ix -> forall iy, inside shape iy ->
  row_major shape ix = row_major shape iy -> ix = iy.
Proof.
  induction 1 as [|s i shape ix H F IH]; intros iy Hy E.
  - inversion Hy; auto.
  - inversion Hy as [|? j ? jy Hj Fj]; subst. cbn [row_major] in E.
    pose proof (row_major_range _ _ F). pose proof (row_major_range _ _ Fj).
    assert (i = j) by nia. subst j. f_equal. apply IH; auto. lia.
Qed.

Lemma row_major_surj shape : Forall (fun s => 0 <= s) shape -> forall x, 0 <= x < volume shape ->
  exists ix, inside shape ix /\ row_major shape ix = x.
Proof.
  induction 1 as [|s shape Hs F IH]; intros x Hx.
  - exists []. split; [constructor|]. cbn in *. lia.
  - rewrite volume_cons in Hx.
    assert (0 < volume shape).
    { assert (0 <= volume shape) by (clear -F; induction F; rewrite ?volume_cons; [cbn; lia|nia]). nia. }
    destruct (IH (x mod volume shape)) as [ix [Hi Ei]]; [apply Z.mod_pos_bound; auto|].
    exists (x / volume shape :: ix). split.
    + constructor; auto. split; [apply Z.div_pos; lia|]. apply Z.div_lt_upper_bound; lia.
    + cbn [row_major]. rewrite Ei. rewrite (Z.div_mod x (volume shape)) at 3 by lia. ring.
Qed.

Lemma fold_left_mul l s : fold_left Z.mul l s = s * volume l.
Proof. revert s; induction l as [|x l IH]; intros s; cbn; [lia|]. rewrite IH. fold (volume l). ring. Qed.

Lemma nd_size_volume shape : shape <> [] -> nd_size shape = Some (volume shape).
Proof. destruct shape as [|s l]; [congruence|]. intros _. cbn [nd_size]. rewrite fold_left_mul. reflexivity. Qed.

(* ------------------------------------------------------------------ *)
(** * NDLocalArray *)
Section Array.
Context {T : Type}.
Definition nd_ok (a : nd_array T) : Prop := length (nd_data a) = Z.to_nat (volume (shape a)).

Lemma address_some (a : nd_array T) ix : inside (shape a) ix ->
  nd_address a ix = Some (Z.to_nat (row_major (shape a) ix)).
Proof.
  intros H. unfold nd_address, get_linear_index. rewrite linearise_row_major by (apply inside_length; auto).
  cbn [obind]. pose proof (row_major_range _ _ H).
  destruct (Z.ltb_spec (0 * volume (shape a) + row_major (shape a) ix) 0); [lia|]. f_equal; f_equal; lia.
Qed.

Lemma address_lt (a : nd_array T) ix : nd_ok a -> inside (shape a) ix ->
  (Z.to_nat (row_major (shape a) ix) < length (nd_data a))%nat.
Proof. intros O H. rewrite O. pose proof (row_major_range _ _ H). lia. Qed.

Lemma address_inj shp ix iy : inside shp ix -> inside shp iy ->
  Z.to_nat (row_major shp ix) = Z.to_nat (row_major shp iy) -> ix = iy.
Proof.
  intros H1 H2 E. apply (row_major_inj shp); auto.
  pose proof (row_major_range _ _ H1). pose proof (row_major_range _ _ H2). lia.
Qed.

Lemma nd_new_correct shp z junk : shp <> [] -> Forall (fun s => 0 <= s) shp ->
  exists a, new_nd shp z junk = Some a /\ shape a = shp /\ nd_ok a /\
    forall ix, inside shp ix -> nd_at a ix = Some z.
Proof.
  intros N F. unfold new_nd. rewrite nd_size_volume by auto; cbn [obind].
  assert (0 <= volume shp) by (clear N; induction F; rewrite ?volume_cons; [cbn; lia|nia]).
  destruct (Z.ltb_spec (volume shp) 0); [lia|]. cbn [obind].
  eexists; split; [reflexivity|]. split; [reflexivity|].
  assert (O : nd_ok (nd_fill (mk_nd shp (map junk (seq 0 (Z.to_nat (volume shp))))) z))
    by (unfold nd_ok; cbn; rewrite !map_length, seq_length; reflexivity).
  split; [exact O|]. intros ix Hi. unfold nd_at. rewrite address_some by auto; cbn [obind].
  pose proof (address_lt _ ix O Hi) as L. unfold rd. cbn [nd_fill shape nd_data] in *.
  rewrite nth_error_map. rewrite map_length in L. destruct (nth_error_lt_some _ _ L) as [y Ey]. rewrite Ey; reflexivity.
Qed.

Lemma nd_write_correct (a : nd_array T) ix v : nd_ok a -> inside (shape a) ix ->
  exists a', nd_write a ix v = Some a' /\ shape a' = shape a /\ nd_ok a' /\
    forall iy, inside (shape a) iy -> nd_at a' iy = if list_eq_dec Z.eq_dec ix iy then Some v else nd_at a iy.
Proof.
  intros O H. unfold nd_write. rewrite address_some by auto; cbn [obind].
  destruct (upd_some (nd_data a) _ v (address_lt a ix O H)) as [d E]. rewrite E; cbn [obind].
  eexists; split; [reflexivity|]. split; [reflexivity|].
  split; [unfold nd_ok in *; cbn; rewrite (upd_length _ _ _ _ E); auto|].
  intros iy Hy. unfold nd_at. rewrite !address_some by auto; cbn [obind shape nd_data].
  unfold rd. rewrite (upd_nth _ _ _ _ _ E).
  destruct (list_eq_dec Z.eq_dec ix iy) as [->|N]; [rewrite Nat.eqb_refl; auto|].
  destruct (Nat.eqb_spec (Z.to_nat (row_major (shape a) iy)) (Z.to_nat (row_major (shape a) ix))) as [Q|Q]; auto.
  exfalso; apply N. symmetry. eapply address_inj; eauto.
Qed.

Lemma nd_at_some (a : nd_array T) ix : nd_ok a -> inside (shape a) ix -> exists x, nd_at a ix = Some x.
Proof.
  intros O H. unfold nd_at. rewrite address_some by auto; cbn [obind].
  apply nth_error_lt_some, address_lt; auto.
Qed.

Variable plus : T -> T -> T.

Lemma nd_fetch_add_correct (a : nd_array T) ix v old : nd_ok a -> inside (shape a) ix -> nd_at a ix = Some old ->
  exists a', nd_fetch_add plus a ix v = Some (a', old) /\ shape a' = shape a /\ nd_ok a' /\
    forall iy, inside (shape a) iy -> nd_at a' iy = if list_eq_dec Z.eq_dec ix iy then Some (plus old v) else nd_at a iy.
Proof.
  intros O H Hold. destruct (nd_write_correct a ix (plus old v) O H) as [a' [E [A [B C]]]].
  exists a'. split; auto. unfold nd_fetch_add, nd_write in *. unfold nd_at in Hold.
  rewrite address_some in * by auto; cbn [obind] in *. rewrite Hold; cbn [obind].
  destruct (upd (nd_data a) _ _) as [d|]; [|discriminate]. cbn [obind] in *. injection E as <-. reflexivity.
Qed.

Lemma nd_add_all_correct cs : forall a : nd_array T, nd_ok a ->
  (forall c, In c cs -> inside (shape a) (fst c)) ->
  exists a', nd_add_all plus a cs = Some a' /\ shape a' = shape a /\ nd_ok a' /\
    forall ix z, inside (shape a) ix -> nd_at a ix = Some z -> nd_at a' ix = Some (contributions plus z ix cs).
Proof.
  unfold nd_add_all. induction cs as [|[ic v] cs IH]; intros a O Hc; cbn [foldM].
  - exists a. repeat split; auto.
  - assert (Hi : inside (shape a) ic) by (apply (Hc (ic, v)); left; auto).
    destruct (nd_at_some a ic O Hi) as [old Hold].
    destruct (nd_fetch_add_correct a ic v old O Hi Hold) as [a1 [E1 [S1 [O1 G1]]]].
    cbn [fst snd]. rewrite E1; cbn [obind fst].
    destruct (IH a1 O1) as [a' [E' [S' [O' G']]]].
    { intros c Hin. rewrite S1. apply Hc; right; auto. }
    exists a'. split; [exact E'|]. split; [congruence|]. split; [exact O'|].
    intros ix z Hx Hz. cbn [contributions]. 
    destruct (list_eq_dec Z.eq_dec ic ix) as [->|N].
    + apply G'; [rewrite S1; auto|]. rewrite G1 by auto. destruct (list_eq_dec Z.eq_dec ix ix); congruence.
    + apply G'; [rewrite S1; auto|]. rewrite G1 by auto. destruct (list_eq_dec Z.eq_dec ic ix); [congruence|auto].
Qed.

Hypothesis plus_comm : forall a b c, plus (plus a b) c = plus (plus a c) b.

Lemma contributions_perm ix cs cs' : Permutation cs cs' -> forall z,
  contributions plus z ix cs = contributions plus z ix cs'.
Proof.
  induction 1 as [|[i v] l l' P IH|[i v] [j w] l|l1 l2 l3 P1 IH1 P2 IH2]; intros z; cbn; auto.
  - destruct (list_eq_dec Z.eq_dec i ix); auto.
  - destruct (list_eq_dec Z.eq_dec i ix), (list_eq_dec Z.eq_dec j ix); auto. rewrite plus_comm; auto.
  - rewrite IH1; auto.
Qed.
End Array.
