(** Proofs about the choice of the decomposition of a Cartesian mesh. *)
From Coq Require Import List Arith ZArith QArith Bool Lia Permutation.
Import ListNotations.
From Verif Require Import Base Kernel Mesh_Model Mesh_Spec Mesh_Proofs MeshNb_Proofs CartMesh_Model CartMesh_Spec.
Local Open Scope nat_scope.

Lemma nprod_app a b : nprod (a ++ b) = nprod a * nprod b.
Proof. induction a as [|x a IH]; unfold nprod in *; cbn [app fold_right]; [lia|rewrite IH; lia]. Qed.

(** ** The check *)
Lemma prod_fold d : forall nd k, nd <= length d ->
  foldM (fun n dimx => x <- rd d dimx ;; Some (n * x)) k (seq 0 nd) = Some (k * nprod (firstn nd d)).
Proof.
  induction nd as [|nd IH]; intros k L; [cbn; f_equal; unfold nprod; cbn; lia|].
  rewrite seq_S, foldM_app, IH by lia. cbn [foldM obind plus]. unfold rd. rewrite (nth_error_nth' d 0) by lia. cbn [obind].
  rewrite (firstn_snoc d nd (nth nd d 0)) by (apply nth_error_nth'; lia). rewrite nprod_app. unfold nprod at 3. cbn [fold_right]. f_equal. lia.
Qed.
Definition fits (size nd : nat) (counts d : list nat) : Prop :=
  nprod (firstn nd d) = size /\ forall i, i < nd -> nth i d 0 <= nth i counts 0.
Lemma valid_ok size nd counts d : nd <= length d -> nd <= length counts ->
  exists b, valid_decomp size nd counts d = Some b /\ (b = true <-> fits size nd counts d).
Proof.
  intros L1 L2. unfold valid_decomp. rewrite prod_fold by exact L1. cbn [obind]. rewrite Nat.mul_1_l. unfold fits.
  destruct (Nat.eqb_spec (nprod (firstn nd d)) size) as [E|E]; cbn [negb].
  - rewrite (mapM_seq _ (fun i => nth i d 0 <=? nth i counts 0)).
    + cbn [obind]. eexists. split; [reflexivity|]. rewrite forallb_forall. split.
      * intros F. split; [exact E|]. intros i L. apply Nat.leb_le. apply F. apply in_map_iff. exists i. split; [reflexivity|]. apply in_seq; lia.
      * intros (_ & F) b I. apply in_map_iff in I. destruct I as (i & <- & I). apply in_seq in I. apply Nat.leb_le, F. lia.
    + intros i L. unfold rd. rewrite (nth_error_nth' d 0), (nth_error_nth' counts 0) by lia. reflexivity.
  - exists false. split; [reflexivity|]. split; [discriminate|]. intros (Q & _). contradiction.
Qed.

(** ** The functions return vectors of the right length *)
Lemma insert_len a l : length (insert_desc a l) = S (length l).
Proof. induction l as [|b l IH]; cbn [insert_desc]; [reflexivity|]. destruct (b <=? a); cbn [length]; [reflexivity|rewrite IH; reflexivity]. Qed.
Lemma sort_len l : length (sort_desc l) = length l.
Proof. induction l as [|a l IH]; [reflexivity|]. cbn [sort_desc fold_right]. unfold sort_desc in IH. rewrite insert_len, IH. reflexivity. Qed.

Lemma foldM_len {A B} (f : list B -> A -> option (list B)) l : (forall a x a', In x l -> f a x = Some a' -> length a' = length a) ->
  forall a a', foldM f a l = Some a' -> length a' = length a.
Proof.
  induction l as [|x l IH]; intros F a a' E; cbn [foldM] in E; [congruence|].
  destruct (f a x) as [b|] eqn:Q; [|discriminate]. cbn [obind] in E. rewrite (IH (fun a0 x0 a1 I => F a0 x0 a1 (or_intror I)) b a' E).
  apply (F a x b (or_introl eq_refl) Q).
Qed.
Lemma reordered_len e nd ds counts d : get_reordered_cart_decomp e nd ds counts = Some d -> length d = nd.
Proof.
  unfold get_reordered_cart_decomp. intros E. apply foldM_len in E; [rewrite repeat_length in E; exact E|].
  intros a x a' _ Q. destruct (rd (reverse_argsort e counts) x); [|discriminate]. cbn [obind] in Q. destruct (rd (sort_desc ds) x); [|discriminate]. cbn [obind] in Q.
  apply upd_length in Q. exact Q.
Qed.

Section Chooser.
  Context (e : chooser) (OK : chooser_ok e).

  Lemma reordered_some nd ds counts : length ds = nd -> nd <= length counts ->
    (forall j, j < nd -> nth j (reverse_argsort e counts) 0 < nd) ->
    exists d, get_reordered_cart_decomp e nd ds counts = Some d.
  Proof.
    intros L1 L2 R. destruct OK as (_ & O). destruct (O counts) as (Lo & _ & _ & _).
    assert (G : forall k, k <= nd -> exists d, foldM (fun a dimx => o <- rd (reverse_argsort e counts) dimx ;; v <- rd (sort_desc ds) dimx ;; upd a o v) (repeat 0 nd) (seq 0 k) = Some d /\ length d = nd).
    { induction k as [|k IH]; intros Hk; [eexists; split; [reflexivity|apply repeat_length]|].
      destruct IH as (d & E & Ld); [lia|]. rewrite seq_S, foldM_app, E. cbn [obind foldM plus]. unfold rd.
      rewrite (nth_error_nth' (reverse_argsort e counts) 0) by lia. rewrite (nth_error_nth' (sort_desc ds) 0) by (rewrite sort_len; lia). cbn [obind].
      destruct (upd_some d (nth k (reverse_argsort e counts) 0) (nth k (sort_desc ds) 0)) as (d' & E'); [rewrite Ld; apply R; lia|]. rewrite E'. cbn [obind].
      exists d'. split; [reflexivity|]. apply upd_length in E'. lia. }
    destruct (G nd (le_n nd)) as (d & E & _). exists d. exact E.
  Qed.

  (** Unused entries (0) come last in the order. *)
  Lemma order_first nd counts : nd <= length counts -> (forall i, i < nd -> 1 <= nth i counts 0) -> (forall i, nd <= i -> nth i counts 0 = 0) ->
    forall j, j < nd -> nth j (reverse_argsort e counts) 0 < nd.
  Proof.
    intros L P Z j Hj. destruct OK as (_ & O). destruct (O counts) as (Lo & ND & B & S). set (o := reverse_argsort e counts) in *.
    destruct (Nat.lt_ge_cases (nth j o 0) nd) as [Q|Q]; [exact Q|exfalso].
    assert (I : incl (skipn j o) (seq nd (length counts - nd))).
    { intros x Hx. apply In_nth_error in Hx. destruct Hx as (k & Hk). rewrite nth_error_skipn in Hk.
      pose proof (nth_error_some_lt _ _ _ Hk) as Lk. apply in_seq.
      assert (X : x < length counts) by (apply B; apply nth_error_In in Hk; exact Hk).
      assert (nd <= x); [|lia]. destruct (Nat.lt_ge_cases x nd) as [Y|Y]; [|exact Y].
      pose proof (P x Y). assert (x = nth (j + k) o 0) by (symmetry; apply nth_error_nth; exact Hk).
      destruct k as [|k]; [rewrite Nat.add_0_r in *; lia|].
      pose proof (S j (j + Datatypes.S k) ltac:(lia)) as C. rewrite (Z _ Q) in C. subst x. lia. }
    apply NoDup_incl_length in I.
    - rewrite skipn_length, seq_length in I. lia.
    - rewrite <- (firstn_skipn j o) in ND. clear -ND. induction (firstn j o) as [|a l IH]; [exact ND|]. inversion ND; subst. apply IH. assumption.
  Qed.

  (** ** The search in fewer dimensions *)
  Definition unknown (k : list (option nat)) : nat := length (filter (fun x => match x with None => true | _ => false end) k).
  Lemma unknown_upd k i v k' : upd k i (Some v) = Some k' -> nth_error k i = Some None -> unknown k = S (unknown k').
  Proof.
    revert i k'. induction k as [|a k IH]; intros [|i] k' E N; cbn [upd nth_error] in E, N; try discriminate.
    - injection N as ->. injection E as <-. reflexivity.
    - destruct (upd k i (Some v)) as [k2|] eqn:Q; [|discriminate]. cbn [obind] in E. injection E as <-.
      pose proof (IH i k2 Q N) as C. unfold unknown in *. cbn [filter]. destruct a; cbn [length]; lia.
  Qed.
  Lemma lower_fold counts size nd : nd <= length counts -> 0 < size -> (forall i, i < nd -> 1 <= nth i counts 0) ->
    forall k, k <= nd -> exists en es kd rs,
      foldM (lower_step counts) (nd, size, repeat None nd, []) (seq 0 k) = Some (en, es, kd, rs) /\
      0 < es /\ length kd = nd /\ en = unknown kd /\ length rs + (nd - k) = en /\
      (forall i, k <= i < nd -> nth_error kd i = Some None) /\ (forall i v, nth_error kd i = Some (Some v) -> 1 <= v).
  Proof.
    intros L P C. induction k as [|k IH]; intros Hk.
    - exists nd, size, (repeat None nd), []. split; [reflexivity|]. split; [exact P|]. split; [apply repeat_length|].
      assert (U : unknown (repeat (@None nat) nd) = nd) by (clear; induction nd as [|n IH]; [reflexivity|]; unfold unknown in *; cbn [repeat filter length]; lia).
      split; [lia|]. split; [cbn [length]; lia|]. split.
      + intros i Hi. rewrite (nth_error_nth' _ None) by (rewrite repeat_length; lia). rewrite nth_repeat. reflexivity.
      + intros i v E. apply nth_error_In, repeat_spec in E. discriminate.
    - destruct IH as (en & es & kd & rs & E & Pe & Lk & U & R & N & V); [lia|]. rewrite seq_S, foldM_app, E. cbn [obind foldM plus]. unfold lower_step.
      unfold rd. rewrite (nth_error_nth' counts 0) by lia. cbn [obind]. pose proof (C k ltac:(lia)) as Ck.
      destruct (Nat.eqb_spec (nth k counts 0) 0); [lia|]. cbn [negb assert obind].
      destruct (Nat.eqb_spec (es mod nth k counts 0) 0) as [M|M].
      + pose proof (N k ltac:(lia)) as Nk. destruct (upd_some kd k (Some (nth k counts 0))) as (kd' & Ek); [lia|].
        pose proof (unknown_upd kd k _ kd' Ek Nk) as Uk. unfold sub_. destruct (Nat.ltb_spec en 1); [lia|]. cbn [obind]. rewrite Ek. cbn [obind].
        exists (en - 1), (es / nth k counts 0), kd', rs. split; [reflexivity|]. split.
        { apply Nat.div_str_pos. apply Nat.mod_divide in M; [|lia]. destruct M as (q & M). destruct q; lia. }
        split; [apply upd_length in Ek; lia|]. split; [lia|]. split; [lia|]. split.
        * intros i Hi. rewrite (upd_nth_neq kd kd' k _ i Ek) by lia. apply N; lia.
        * intros i v Ei. destruct (Nat.eq_dec i k) as [->|Q].
          -- rewrite (upd_nth_eq _ _ _ _ Ek) in Ei. injection Ei as <-. exact Ck.
          -- rewrite (upd_nth_neq kd kd' k _ i Ek) in Ei by exact Q. eauto.
      + exists en, es, kd, (rs ++ [nth k counts 0]). split; [reflexivity|]. split; [exact Pe|]. split; [exact Lk|]. split; [exact U|].
        split; [rewrite app_length; cbn [length]; lia|]. split; [intros i Hi; apply N; lia|exact V].
  Qed.
  Lemma fill_fold tmp known : (forall v, In (Some v) known -> 1 <= v) -> forall a acc, a + unknown known <= length tmp ->
    exists r, foldM (fun st k => match k with
                          | Some v => if v <? 1 then x <- rd tmp (fst st) ;; Some (S (fst st), snd st ++ [x])
                                      else Some (fst st, snd st ++ [v])
                          | None => x <- rd tmp (fst st) ;; Some (S (fst st), snd st ++ [x])
                          end) (a, acc) known = Some (a + unknown known, r) /\ length r = length acc + length known.
  Proof.
    induction known as [|k known IH]; intros V a acc L; cbn [foldM].
    - exists acc. cbn [unknown filter length]. split; [f_equal; f_equal; unfold unknown; cbn; lia|lia].
    - unfold unknown in L |- *. cbn [filter] in L |- *. destruct k as [v|].
      + pose proof (V v (or_introl eq_refl)). destruct (Nat.ltb_spec v 1); [lia|]. cbn [obind fst snd].
        destruct (IH (fun w I => V w (or_intror I)) a (acc ++ [v]) L) as (r & E & Lr). exists r. split; [exact E|]. rewrite Lr, app_length. cbn [length]. lia.
      + cbn [length] in L |- *. cbn [fst snd]. unfold rd at 1. rewrite (nth_error_nth' tmp 0) by lia. cbn [obind fst snd].
        destruct (IH (fun w I => V w (or_intror I)) (S a) (acc ++ [nth a tmp 0])) as (r & E & Lr); [unfold unknown; lia|].
        exists r. split; [|rewrite Lr, app_length; cbn [length]; lia]. rewrite E. f_equal. f_equal. unfold unknown. lia.
  Qed.
  Lemma fill_some tmp known : (forall v, In (Some v) known -> 1 <= v) -> unknown known <= length tmp ->
    exists d, fill_known tmp known = Some d /\ length d = length known.
  Proof.
    intros V L. unfold fill_known. destruct (fill_fold tmp known V 0 [] L) as (r & E & Lr). rewrite E. cbn [obind snd]. exists r. split; [reflexivity|exact Lr].
  Qed.

  Lemma lower_some size nd counts : 0 < size -> 0 < nd -> nd <= length counts ->
    (forall i, i < nd -> 1 <= nth i counts 0) -> (forall i, nd <= i -> nth i counts 0 = 0) ->
    exists d, get_lower_dimension_cart_decomp e size nd counts = Some d /\ length d = nd.
  Proof.
    intros P Pn L C Z. unfold get_lower_dimension_cart_decomp.
    destruct (lower_fold counts size nd L P C nd (le_n nd)) as (en & es & kd & rs & E & Pe & Lk & U & R & _ & V). rewrite E. cbn [obind].
    assert (V' : forall v, In (Some v) kd -> 1 <= v) by (intros v I; apply In_nth_error in I; destruct I as (i & I); eauto).
    destruct (Nat.eqb_spec en 0) as [Q|Q].
    - assert (F : forall k, In k kd -> exists v, k = Some v).
      { intros k I. destruct k as [v|]; [eauto|]. exfalso. assert (K : In None (filter (fun x : option nat => match x with None => true | _ => false end) kd)) by (apply filter_In; auto).
        unfold unknown in U. destruct (filter _ kd); [destruct K|cbn in U; lia]. }
      exists (map (fun k => match k with Some v => v | None => 0 end) kd). split; [|rewrite map_length; exact Lk].
      apply mapM_some. intros k I. destruct (F k I) as (v & ->). reflexivity.
    - destruct (Nat.eqb_spec en nd) as [Q'|Q']; cbn [negb].
      + destruct (reordered_some nd (get_cart_dims e size nd) counts) as (d & Ed).
        * unfold get_cart_dims. destruct (Nat.ltb_spec 0 nd); [|lia]. apply (proj1 OK); lia.
        * exact L.
        * apply order_first; assumption.
        * exists d. split; [exact Ed|]. eapply reordered_len; eauto.
      + assert (Lr : length rs = en) by lia.
        destruct (reordered_some en (get_cart_dims e es en) rs) as (tmp & Et).
        * unfold get_cart_dims. destruct (Nat.ltb_spec 0 en); [|lia]. apply (proj1 OK); lia.
        * lia.
        * intros j Hj. destruct OK as (_ & O). destruct (O rs) as (Lo & _ & B & _). rewrite <- Lr. apply B. apply nth_In. lia.
        * rewrite Et. cbn [obind]. apply reordered_len in Et. destruct (fill_some tmp kd V') as (d & Ed & Ld); [lia|].
          exists d. split; [exact Ed|lia].
  Qed.

  (** ** One dimension *)
  Lemma max_element_ok l : forall pre best i v, length pre = i -> best < i -> nth best pre 0 = v -> (forall k, k < i -> nth k pre 0 <= v) ->
    let r := max_element l best i v in r < i + length l /\ forall k, k < i + length l -> nth k (pre ++ l) 0 <= nth r (pre ++ l) 0.
  Proof.
    induction l as [|a l IH]; intros pre best i v Lp Lb Ev M; cbn [max_element].
    - rewrite app_nil_r. cbn [length]. split; [lia|]. intros k Hk. rewrite Ev. apply M. lia.
    - destruct (Nat.ltb_spec v a) as [Q|Q].
      + destruct (IH (pre ++ [a]) i (S i) a) as (A & B); [rewrite app_length; cbn; lia|lia|rewrite app_nth2, Lp, Nat.sub_diag by lia; reflexivity| |].
        * intros k Hk. destruct (Nat.lt_ge_cases k i) as [K|K]; [rewrite app_nth1 by lia; pose proof (M k K); lia|].
          assert (k = i) by lia. subst k. rewrite app_nth2, Lp, Nat.sub_diag by lia. cbn [nth]. lia.
        * rewrite <- app_assoc in B. cbn [app length] in *. split; [lia|]. intros k Hk. apply B. lia.
      + destruct (IH (pre ++ [a]) best (S i) v) as (A & B); [rewrite app_length; cbn; lia|lia|rewrite app_nth1 by lia; exact Ev| |].
        * intros k Hk. destruct (Nat.lt_ge_cases k i) as [K|K]; [rewrite app_nth1 by lia; auto|].
          assert (k = i) by lia. subst k. rewrite app_nth2, Lp, Nat.sub_diag by lia. cbn [nth]. lia.
        * rewrite <- app_assoc in B. cbn [app length] in *. split; [lia|]. intros k Hk. apply B. lia.
  Qed.
  Lemma argmax_ok l : l <> [] -> argmax l < length l /\ forall k, k < length l -> nth k l 0 <= nth (argmax l) l 0.
  Proof.
    destruct l as [|a l]; [congruence|]. intros _. unfold argmax.
    destruct (max_element_ok l [a] 0 1 a eq_refl ltac:(lia) eq_refl) as (A & B); [intros k Hk; destruct k; cbn; lia|]. split; [exact A|exact B].
  Qed.
  Lemma upd_repeat_prod nd i v d : upd (repeat 1 nd) i v = Some d -> nprod d = v.
  Proof.
    revert i d. induction nd as [|nd IH]; intros [|i] d E; cbn [repeat upd] in E; try discriminate.
    - injection E as <-. unfold nprod. cbn [fold_right].
      assert (fold_right Nat.mul 1 (repeat 1 nd) = 1) by (clear; induction nd; cbn; lia). lia.
    - destruct (upd (repeat 1 nd) i v) as [d'|] eqn:Q; [|discriminate]. cbn [obind] in E. injection E as <-. specialize (IH i d' Q). unfold nprod in *. cbn [fold_right]. lia.
  Qed.
  Lemma single_some size nd counts : 0 < nd -> nd <= length counts ->
    (forall i, i < nd -> 1 <= nth i counts 0) -> (forall i, nd <= i -> nth i counts 0 = 0) ->
    exists d, get_single_dimension_cart_decomp size nd counts = Some d /\ length d = nd /\
      ((exists i, i < nd /\ size <= nth i counts 0) -> fits size nd counts d).
  Proof.
    intros Pn L C Z. destruct (argmax_ok counts) as (A & B); [intros ->; cbn in L; lia|].
    assert (Q : argmax counts < nd).
    { destruct (Nat.lt_ge_cases (argmax counts) nd) as [Q|Q]; [exact Q|]. pose proof (B 0 ltac:(lia)). pose proof (C 0 Pn). rewrite (Z _ Q) in *. lia. }
    unfold get_single_dimension_cart_decomp. destruct (upd_some (repeat 1 nd) (argmax counts) size) as (d & E); [rewrite repeat_length; exact Q|].
    pose proof (upd_length _ _ _ _ E) as Ld. rewrite repeat_length in Ld. exists d. split; [exact E|]. split; [exact Ld|].
    intros (i & Hi & S). split.
    - rewrite <- Ld, firstn_all. eapply upd_repeat_prod; eauto.
    - intros k Hk. destruct (Nat.eq_dec k (argmax counts)) as [->|K].
      + rewrite (nth_error_nth _ _ _ (upd_nth_eq _ _ _ _ E)). pose proof (B i ltac:(lia)). lia.
      + pose proof (upd_nth_neq _ _ _ _ k E K) as N. rewrite (nth_error_nth' (repeat 1 nd) 1) in N by (rewrite repeat_length; lia).
        rewrite nth_repeat in N. rewrite (nth_error_nth _ _ _ N). apply C, Hk.
  Qed.

  (** ** The choice *)
  Lemma choose_found size nd counts : 0 < size -> 0 < nd -> nd <= length counts ->
    (forall i, i < nd -> 1 <= nth i counts 0) -> (forall i, nd <= i -> nth i counts 0 = 0) ->
    (exists i, i < nd /\ size <= nth i counts 0) ->
    exists d, choose_decomp e None size nd counts = Some d.
  Proof.
    intros P Pn L C Z X. unfold choose_decomp.
    destruct (reordered_some nd (get_cart_dims e size nd) counts) as (d0 & E0).
    { unfold get_cart_dims. destruct (Nat.ltb_spec 0 nd); [|lia]. apply (proj1 OK); lia. }
    { exact L. }
    { apply order_first; assumption. }
    pose proof (reordered_len _ _ _ _ _ E0) as L0. rewrite E0. cbn [obind].
    destruct (valid_ok size nd counts d0) as (b0 & V0 & _); [lia|exact L|]. rewrite V0. cbn [obind].
    assert (G1 : exists d1, (if b0 then Some d0 else get_lower_dimension_cart_decomp e size nd counts) = Some d1 /\ length d1 = nd).
    { destruct b0; [exists d0; auto|]. apply lower_some; assumption. }
    destruct G1 as (d1 & E1 & L1). rewrite E1. cbn [obind].
    destruct (valid_ok size nd counts d1) as (b1 & V1 & _); [lia|exact L|]. rewrite V1. cbn [obind].
    destruct b1.
    - cbn [obind]. rewrite V1. cbn [assert obind]. exists d1. reflexivity.
    - cbn [obind]. destruct (single_some size nd counts Pn L C Z) as (d2 & E2 & L2 & F2). rewrite E2. cbn [obind].
      destruct (valid_ok size nd counts d2) as (b2 & V2 & I2); [lia|exact L|]. rewrite V2. cbn [obind].
      rewrite (proj2 I2 (F2 X)). cbn [assert obind]. exists d2. reflexivity.
  Qed.
End Chooser.

Lemma choose_valid e parent size nd counts d : nd <= length counts -> (forall p, parent = Some p -> length p = nd) ->
  choose_decomp e parent size nd counts = Some d -> length d = nd /\ nprod d = size /\ forall i, i < nd -> nth i d 0 <= nth i counts 0.
Proof.
  intros L LP E. unfold choose_decomp in E.
  destruct (match parent with Some p => Some p | None => _ end) as [d'|] eqn:Q; [|discriminate]. cbn [obind] in E.
  assert (Ld : length d' = nd).
  { destruct parent as [p|]; [injection Q as <-; apply LP; reflexivity|].
    destruct (get_reordered_cart_decomp e nd (get_cart_dims e size nd) counts) as [d0|] eqn:E0; [|discriminate]. cbn [obind] in Q.
    destruct (valid_decomp size nd counts d0) as [v0|]; [|discriminate]. cbn [obind] in Q.
    assert (L1 : forall d1, (if v0 then Some d0 else get_lower_dimension_cart_decomp e size nd counts) = Some d1 -> length d1 = nd).
    { intros d1 E1. destruct v0; [injection E1 as <-; eapply reordered_len; eauto|]. unfold get_lower_dimension_cart_decomp in E1.
      destruct (foldM (lower_step counts) _ _) as [[[[en es] kd] rs]|] eqn:F; [|discriminate]. cbn [obind] in E1.
      assert (Lk : length kd = nd).
      { assert (G : forall l s s', foldM (lower_step counts) s l = Some s' -> length (snd (fst s')) = length (snd (fst s))).
        { induction l as [|x l IH]; intros s s' G; cbn [foldM] in G; [congruence|]. destruct (lower_step counts s x) as [s1|] eqn:G1; [|discriminate]. cbn [obind] in G.
          rewrite (IH s1 s' G). destruct s as [[[a b] k] r]. unfold lower_step in G1. destruct (rd counts x); [|discriminate]. cbn [obind] in G1.
          destruct (assert _); [|discriminate]. cbn [obind] in G1. destruct (b mod n =? 0); [|injection G1 as <-; reflexivity].
          destruct (sub_ a 1); [|discriminate]. cbn [obind] in G1. destruct (upd k x (Some n)) eqn:U; [|discriminate]. cbn [obind] in G1. injection G1 as <-. cbn [fst snd]. eapply upd_length; eauto. }
        apply G in F. cbn [fst snd] in F. rewrite repeat_length in F. exact F. }
      destruct (en =? 0); [apply mapM_length in E1; lia|]. destruct (negb (en =? nd)).
      - destruct (get_reordered_cart_decomp e en (get_cart_dims e es en) rs) as [tmp|]; [|discriminate]. cbn [obind] in E1. unfold fill_known in E1.
        destruct (foldM _ (0, []) kd) as [[a r]|] eqn:F2; [|discriminate]. cbn [obind snd] in E1. injection E1 as <-.
        assert (G : forall l s s', foldM (fun st k => match k with
                          | Some v => if v <? 1 then x <- rd tmp (fst st) ;; Some (S (fst st), snd st ++ [x])
                                      else Some (fst st, snd st ++ [v])
                          | None => x <- rd tmp (fst st) ;; Some (S (fst st), snd st ++ [x])
                          end) s l = Some s' -> length (snd s') = length (snd s) + length l).
        { induction l as [|x l IH]; intros s s' G; cbn [foldM] in G; [injection G as <-; cbn [length]; lia|].
          match type of G with obind ?X _ = _ => destruct X as [s1|] eqn:G1; [|discriminate] end. cbn [obind] in G. rewrite (IH s1 s' G).
          assert (length (snd s1) = S (length (snd s))); [|cbn [length]; lia].
          destruct x as [v|]; [destruct (v <? 1)|];
            try (destruct (rd tmp (fst s)); [|discriminate]; cbn [obind] in G1); injection G1 as <-; cbn [snd]; rewrite app_length; cbn [length]; lia. }
        apply G in F2. cbn [snd length] in F2. lia.
      - eapply reordered_len; eauto. }
    destruct (if v0 then Some d0 else get_lower_dimension_cart_decomp e size nd counts) as [d1|] eqn:E1; [|discriminate]. cbn [obind] in Q.
    destruct (valid_decomp size nd counts d1) as [v1|]; [|discriminate]. cbn [obind] in Q.
    destruct v1; [injection Q as <-; auto|]. unfold get_single_dimension_cart_decomp in Q. apply upd_length in Q. rewrite repeat_length in Q. exact Q. }
  destruct (valid_ok size nd counts d') as (b & V & I); [lia|exact L|]. rewrite V in E. cbn [obind] in E.
  destruct b; [|discriminate]. cbn [assert obind] in E. injection E as <-. destruct (proj1 I eq_refl) as (A & B).
  rewrite <- Ld, firstn_all in A. auto.
Qed.

(** ** The constructor *)
From Verif Require Import CartMesh_Proofs.
Lemma nprod_pos d : (0 < nprod d)%nat -> forall i, i < length d -> 1 <= nth i d 0.
Proof.
  induction d as [|a d IH]; intros P [|i] L; cbn [length] in L; try lia; unfold nprod in *; cbn [fold_right nth] in *.
  - destruct a; lia.
  - apply IH; [|lia]. destruct (fold_right Nat.mul 1 d); lia.
Qed.

Section Construct.
  Context (e : chooser) (parent : option (list nat)) (size : nat) (h : mesh) (create : list nat -> cart) (sw : nat).
  Context (PL : forall p, parent = Some p -> length p = ndim h) (SP : 0 < size)
          (OR : origin h = repeat 0%Q (ndim h))
          (CR : forall d, length d = ndim h -> nprod d = size -> cart_ok (create d) /\ cdims (create d) = d).
  Let counts : list nat := map Z.to_nat (arr3 (ndim h) (extent_cells h) 0%Z).

  Lemma h_counts : mesh_ok h -> ndim h <= 3 ->
    fill3 [0; 0; 0]%Z (fun dimx => d <- rd (dims h) dimx ;; Some (d * ncells_dim_fine h)%Z) (ndim h) = Some (arr3 (ndim h) (extent_cells h) 0%Z).
  Proof.
    intros M L. apply fill3_arr; [exact L|]. intros i Hi. destruct M as ((_ & A) & _ & _ & _). unfold rd. rewrite (nth_error_nth' (dims h) 0%Z) by lia. reflexivity.
  Qed.
  Lemma counts_nth i : ndim h <= 3 -> nth i counts 0 = if i <? ndim h then Z.to_nat (extent_cells h i) else 0.
  Proof.
    intros L. unfold counts. destruct (Nat.lt_ge_cases i 3) as [Q|Q].
    - destruct i as [|[|[|i]]]; [..|lia]; cbn [map arr3 nth]; match goal with |- Z.to_nat (if ?b then _ else _) = _ => destruct b end; reflexivity.
    - rewrite nth_overflow by (cbn; lia). destruct (Nat.ltb_spec i (ndim h)); [lia|reflexivity].
  Qed.

  Lemma mesh_of_checks : 0 < ndim h -> ndim h <= length (dims h) ->
    (forall i, i < ndim h -> (0 < nth i (dims h) 0)%Z) -> (0 < extent h)%Q -> mesh_ok h.
  Proof.
    intros A B C D. split; [lia|]. split; [rewrite OR, repeat_length; lia|]. split; [|exact D].
    unfold coarse_widths. apply Forall_forall. intros d I. apply In_nth_error in I. destruct I as (i & I).
    pose proof (nth_error_some_lt _ _ _ I) as L. rewrite firstn_length in L. rewrite nth_error_firstn in I. destruct (Nat.ltb_spec i (ndim h)); [|discriminate].
    rewrite <- (nth_error_nth (dims h) i 0%Z I). apply C. lia.
  Qed.
  Lemma mesh_checks : mesh_ok h -> forall i, i < ndim h -> (0 < nth i (dims h) 0)%Z.
  Proof.
    intros ((_ & A) & _ & F & _) i L. rewrite Forall_forall in F. apply F. unfold coarse_widths.
    apply (nth_error_In _ i). rewrite nth_error_firstn. destruct (Nat.ltb_spec i (ndim h)); [|lia]. apply nth_error_nth'. lia.
  Qed.

  Lemma construct_ok m : construct_cmesh e parent size h create sw = Some m ->
    cmesh_ok m /\ hier m = h /\ stencil_width m = sw /\ csize (comm m) = size /\ 2 <= ndim h <= 3.
  Proof.
    unfold construct_cmesh. intros E.
    destruct (Nat.ltb_spec 0 (ndim h)) as [A|]; [|discriminate]. cbn [assert obind] in E.
    destruct (Nat.leb_spec (ndim h) (length (dims h))) as [B|]; [|discriminate]. cbn [assert obind] in E.
    rewrite (mapM_seq _ (fun i => nth i (dims h) 0%Z)) in E by (intros i L; apply nth_error_nth'; lia). cbn [obind] in E.
    destruct (forallb _ _) eqn:C; [|discriminate]. cbn [assert obind] in E.
    destruct (Qle_bool (extent h) 0) eqn:D; [discriminate|]. cbn [negb assert obind] in E.
    assert (MO : mesh_ok h).
    { apply mesh_of_checks; [exact A|exact B| |].
      - rewrite forallb_forall in C. intros i L. apply Z.ltb_lt. apply C. apply in_map_iff. exists i. split; [reflexivity|]. apply in_seq. lia.
      - apply QArith_base.Qnot_le_lt. intros Q. apply Qle_bool_iff in Q. congruence. }
    destruct (fill3 _ _ _) as [cc|] eqn:F; [|discriminate]. cbn [obind] in E.
    destruct (choose_decomp e parent size (ndim h) (map Z.to_nat cc)) as [d|] eqn:G; [|discriminate]. cbn [obind comm] in E.
    destruct (mapM _ _) as [loc|] eqn:K; [|discriminate]. cbn [obind] in E.
    destruct (Nat.ltb_spec 1 (ndim h)) as [N1|]; [|discriminate]. destruct (Nat.ltb_spec (ndim h) 4) as [N2|]; [|discriminate]. cbn [andb assert obind] in E.
    injection E as <-. cbn [hier comm stencil_width].
    rewrite h_counts in F by (assumption || lia). injection F as <-. fold counts in G.
    destruct (choose_valid e parent size (ndim h) counts d) as (L1 & L2 & L3); [cbn; lia|exact PL|exact G|].
    destruct (CR d L1 L2) as (OKc & Ed).
    split; [|split; [reflexivity|split; [reflexivity|split; [|lia]]]].
    - split; [exact MO|]. split; [cbn [hier]; lia|]. split; [|split; [exact OKc|split; [cbn [comm hier]; congruence|]]].
      + cbn [hier]. intros i L. rewrite OR, nth_repeat. reflexivity.
      + cbn [comm hier]. rewrite Ed. intros i L. pose proof (L3 i L) as B1. rewrite counts_nth in B1 by lia. destruct (Nat.ltb_spec i (ndim h)); [|lia].
        pose proof (nprod_pos d ltac:(lia) i ltac:(lia)). pose proof (extent_cells_pos h i MO L). lia.
    - destruct OKc as (S & _). rewrite S, Ed. exact L2.
  Qed.

  Lemma construct_some d : mesh_ok h -> 2 <= ndim h <= 3 -> choose_decomp e parent size (ndim h) counts = Some d ->
    exists m, construct_cmesh e parent size h create sw = Some m.
  Proof.
    intros MO N G. unfold construct_cmesh. pose proof MO as ((A & B) & _ & _ & X).
    destruct (Nat.ltb_spec 0 (ndim h)); [|lia]. cbn [assert obind].
    destruct (Nat.leb_spec (ndim h) (length (dims h))); [|lia]. cbn [assert obind].
    rewrite (mapM_seq _ (fun i => nth i (dims h) 0%Z)) by (intros i L; apply nth_error_nth'; lia). cbn [obind].
    replace (forallb _ _) with true; [|symmetry; apply forallb_forall; intros z I; apply in_map_iff in I; destruct I as (i & <- & I); apply in_seq in I; apply Z.ltb_lt, mesh_checks; [exact MO|lia]].
    cbn [assert obind]. destruct (Qle_bool (extent h) 0) eqn:D; [apply Qle_bool_iff in D; exfalso; exact (Qlt_not_le _ _ X D)|]. cbn [negb assert obind].
    rewrite h_counts by (assumption || lia). cbn [obind]. fold counts. rewrite G. cbn [obind comm].
    destruct (choose_valid e parent size (ndim h) counts d) as (L1 & L2 & L3); [cbn; lia|exact PL|exact G|].
    destruct (CR d L1 L2) as (OKc & Ed).
    set (m := mk_cmesh h (create d) sw).
    assert (OKm : cmesh_ok m).
    { split; [exact MO|]. split; [cbn [hier m]; lia|]. split; [|split; [exact OKc|split; [cbn [comm hier m]; congruence|]]].
      + cbn [hier m]. intros i L. rewrite OR, nth_repeat. reflexivity.
      + cbn [comm hier m]. rewrite Ed. intros i L. pose proof (L3 i L) as B1. rewrite counts_nth in B1 by lia. destruct (Nat.ltb_spec i (ndim h)); [|lia].
        pose proof (nprod_pos d ltac:(lia) i ltac:(lia)). pose proof (extent_cells_pos h i MO L). lia. }
    rewrite (mapM_seq _ (fun r => match ccoords (create d) r with Some x => arr3 (ndim h) (fun i => en m x i - st m x i)%Z 0%Z | None => [] end)).
    - cbn [obind]. destruct (Nat.ltb_spec 1 (ndim h)); [|lia]. destruct (Nat.ltb_spec (ndim h) 4); [|lia]. cbn [andb assert obind]. eauto.
    - intros r Hr. destruct OKc as (_ & _ & R). destruct (R r Hr) as (x & Ex & Cx & _). cbn [comm m]. rewrite Ex. cbn [obind]. apply (local_eq m OKm x). exact Cx.
  Qed.

  Lemma construct_found : chooser_ok e -> parent = None -> mesh_ok h -> 2 <= ndim h <= 3 ->
    (exists i, i < ndim h /\ (Z.of_nat size <= extent_cells h i)%Z) ->
    exists m, construct_cmesh e parent size h create sw = Some m.
  Proof.
    intros OK PN MO N (i & Hi & Hs).
    assert (F : exists d, choose_decomp e parent size (ndim h) counts = Some d).
    { rewrite PN. apply choose_found; [exact OK|exact SP|lia|cbn; lia| | |].
      - intros j Hj. rewrite counts_nth by lia. destruct (Nat.ltb_spec j (ndim h)); [|lia]. pose proof (extent_cells_pos h j MO Hj). lia.
      - intros j Hj. rewrite counts_nth by lia. destruct (Nat.ltb_spec j (ndim h)); [lia|reflexivity].
      - exists i. split; [exact Hi|]. rewrite counts_nth by lia. destruct (Nat.ltb_spec i (ndim h)); [|lia]. lia. }
    destruct F as (d & G). apply (construct_some d MO N G).
  Qed.
End Construct.
