(** Proofs about the all-to-all iteration. *)
From Coq Require Import List Arith Lia Bool Permutation.
Import ListNotations.
From Verif Require Import Base Scan_Model Transpose_Proofs World_Proofs AllToAll_Model AllToAll_Spec.

(** ** Rectangles and triangles of pairs *)
Definition rect (r nr c nc : nat) : list (nat * nat) := list_prod (seq r nr) (seq c nc).
Definition tri (off m : nat) : list (nat * nat) :=
  flat_map (fun i => map (fun j => (i, j)) (seq (i + 1) (off + m - (i + 1)))) (seq off m).

Lemma in_rect r nr c nc i j : In (i, j) (rect r nr c nc) <-> r <= i < r + nr /\ c <= j < c + nc.
Proof. unfold rect. rewrite in_prod_iff, !in_seq. tauto. Qed.

Lemma list_prod_flat {A B} (l : list A) (l' : list B) : list_prod l l' = flat_map (fun a => map (pair a) l') l.
Proof. induction l; cbn; auto. rewrite IHl. auto. Qed.

Lemma nodup_pair {A B} (a : A) (l : list B) : NoDup l -> NoDup (map (pair a) l).
Proof. intros H. apply FinFun.Injective_map_NoDup; auto. intros x y E; congruence. Qed.

Lemma nodup_rect r nr c nc : NoDup (rect r nr c nc).
Proof.
  unfold rect. rewrite list_prod_flat. apply NoDup_flat_map; [apply seq_NoDup| |].
  - intros. apply nodup_pair, seq_NoDup.
  - intros a1 a2 b _ _ H1 H2. apply in_map_iff in H1 as [? [<- _]]. apply in_map_iff in H2 as [? [E _]]. congruence.
Qed.

Lemma in_tri off m i j : In (i, j) (tri off m) <-> off <= i < j /\ j < off + m.
Proof.
  unfold tri. rewrite in_flat_map. split.
  - intros [x [Hx H]]. apply in_map_iff in H as [y [E H]]. injection E as -> ->. apply in_seq in Hx, H. lia.
  - intros H. exists i. split; [apply in_seq; lia|]. apply in_map_iff. exists j. split; auto. apply in_seq. lia.
Qed.

Lemma nodup_tri off m : NoDup (tri off m).
Proof.
  unfold tri. apply NoDup_flat_map; [apply seq_NoDup| |].
  - intros. apply nodup_pair, seq_NoDup.
  - intros a1 a2 b _ _ H1 H2. apply in_map_iff in H1 as [? [<- _]]. apply in_map_iff in H2 as [? [E _]]. congruence.
Qed.

Lemma tri_split off a b : Permutation (tri off (a + b)) (rect off a (off + a) b ++ tri off a ++ tri (off + a) b).
Proof.
  apply NoDup_Permutation; [apply nodup_tri| |].
  - apply NoDup_app_intro; [apply nodup_rect| |].
    + apply NoDup_app_intro; [apply nodup_tri|apply nodup_tri|]. intros [i j]. rewrite !in_tri. lia.
    + intros [i j]. rewrite in_app_iff, in_rect, !in_tri. lia.
  - intros [i j]. rewrite !in_app_iff, in_rect, !in_tri. lia.
Qed.

(** A rectangle cut into rectangles of a fixed width and height. *)
Lemma rect_rows s r c nc : forall k, Permutation (flat_map (fun b => rect (r + b * s) s c nc) (seq 0 k)) (rect r (k * s) c nc).
Proof.
  induction k as [|k IH]; [cbn; auto|]. rewrite seq_S, flat_map_app, IH. cbn [flat_map plus]. rewrite app_nil_r.
  apply NoDup_Permutation; [|apply nodup_rect|].
  - apply NoDup_app_intro; try apply nodup_rect. intros [i j]. rewrite !in_rect. lia.
  - intros [i j]. rewrite in_app_iff, !in_rect. lia.
Qed.

Lemma rect_cols s r nr c : forall k, Permutation (flat_map (fun b => rect r nr (c + b * s) s) (seq 0 k)) (rect r nr c (k * s)).
Proof.
  induction k as [|k IH].
  - cbn. unfold rect. rewrite list_prod_flat. cbn. rewrite flat_map_nil; auto.
  - rewrite seq_S, flat_map_app, IH. cbn [flat_map plus]. rewrite app_nil_r.
    apply NoDup_Permutation; [|apply nodup_rect|].
    + apply NoDup_app_intro; try apply nodup_rect. intros [i j]. rewrite !in_rect. lia.
    + intros [i j]. rewrite in_app_iff, !in_rect. lia.
Qed.

(** ** Loops *)
Lemma for_loop_mult s : 1 <= s -> forall k fuel a, k <= fuel ->
  for_loop_fuel fuel a (a + k * s) s = map (fun b => a + b * s) (seq 0 k).
Proof.
  intros Hs. induction k as [|k IH]; intros fuel a Hf.
  - destruct fuel; cbn [for_loop_fuel]; auto. destruct (Nat.ltb_spec a (a + 0 * s)); [lia|auto].
  - destruct fuel as [|fuel]; [lia|]. cbn [for_loop_fuel]. destruct (Nat.ltb_spec a (a + S k * s)); [|nia].
    cbn [seq map]. f_equal; [lia|]. rewrite <- seq_shift, map_map.
    replace (a + S k * s) with (a + s + k * s) by lia. rewrite IH by lia. apply map_ext. intros. lia.
Qed.

Lemma for_loop_map s a k : 1 <= s -> for_loop a (a + k * s) s = map (fun b => a + b * s) (seq 0 k).
Proof. intros H. unfold for_loop. apply for_loop_mult; auto. nia. Qed.

Lemma seq_mul s : forall k, seq 0 (k * s) = flat_map (fun b => map (fun i => b * s + i) (seq 0 s)) (seq 0 k).
Proof.
  induction k as [|k IH]; auto. rewrite seq_S, flat_map_app, <- IH. cbn [flat_map plus]. rewrite app_nil_r.
  replace (S k * s) with (k * s + s) by lia. rewrite seq_app. f_equal.
  apply nth_error_ext. intros i. rewrite nth_error_map, !nth_error_seq. destruct (i <? s); cbn; auto.
Qed.

(** Rotating the numbers below s permutes them. *)
Lemma rotate_perm s t : 1 <= s -> Permutation (map (fun i => (i + t) mod s) (seq 0 s)) (seq 0 s).
Proof.
  intros Hs. apply NoDup_Permutation_bis.
  - apply NoDup_map_inj; [|apply seq_NoDup].
    intros x y Hx Hy E. apply in_seq in Hx, Hy.
    pose proof (Nat.div_mod (x + t) s) as Dx. pose proof (Nat.div_mod (y + t) s) as Dy.
    rewrite E in Dx. assert (s <> 0) as Z by lia. specialize (Dx Z). specialize (Dy Z).
    pose proof (Nat.mod_upper_bound (y + t) s Z).
    destruct (Nat.eq_dec ((x + t) / s) ((y + t) / s)) as [Q|Q]; [rewrite Q in Dx; lia|]. nia.
  - rewrite map_length. auto.
  - intros x Hx. apply in_map_iff in Hx as [i [<- _]]. apply in_seq. pose proof (Nat.mod_upper_bound (i + t) s). lia.
Qed.

Lemma land_pred_pow2 k x : Nat.land x (2 ^ k - 1) = x mod 2 ^ k.
Proof. rewrite <- Nat.land_ones. f_equal. rewrite Nat.ones_equiv. lia. Qed.

(** ** The steps of an iteration: block size, first row and column, mask, and
    number of the step. *)
Definition step : Type := nat * nat * nat * bool * nat.
Definition guard (m : bool) (n : nat) (p : nat * nat) : bool := negb m || ((fst p <? n) && (snd p <? n)).
Definition raw (w : nat) (st : step) : nat * nat :=
  let '(s, r, c, m, t) := st in (r + w / s * 2 * s + t, c + w / s * 2 * s + (w mod s + t) mod s).
Definition does (n w : nat) (st : step) : list (nat * nat) :=
  let '(s, r, c, m, t) := st in filter (guard m n) [raw w st].
Definition emit (n w : nat) (st : step) : list event := map (fun p => Call (fst p) (snd p)) (does n w st) ++ [Sync].

Definition group (s r c : nat) (m : bool) : list step := map (fun t => (s, r, c, m, t)) (seq 0 s).

Lemma mod_succ_step a s : 1 <= s -> (a mod s + 1) mod s = (a + 1) mod s.
Proof. intros. rewrite Nat.add_mod_idemp_l by lia. auto. Qed.

Lemma inner_closed k item r c n m : item < 2 ^ k ->
  apply_inner_block item (2 ^ k) r c n m =
  flat_map (fun t => map (fun p => Call (fst p) (snd p)) (filter (guard m n) [(r + t, c + (item + t) mod 2 ^ k)]) ++ [Sync])
    (seq 0 (2 ^ k)).
Proof.
  intros Hi. unfold apply_inner_block. set (s := 2 ^ k) in *.
  assert (Hs : 1 <= s) by lia.
  assert (G : forall j a acc,
    snd (fold_left (fun '(index, evs) rowx =>
         (Nat.land (index + 1) (s - 1),
          evs ++ (if m then if (rowx <? n) && (index + c <? n) then [Call rowx (index + c)] else [] else [Call rowx (index + c)]) ++ [Sync]))
       (seq (r + a) j) ((item + a) mod s, acc)) =
    acc ++ flat_map (fun t => map (fun p => Call (fst p) (snd p)) (filter (guard m n) [(r + t, c + (item + t) mod s)]) ++ [Sync]) (seq a j)).
  { induction j as [|j IH]; intros a acc; [cbn; rewrite app_nil_r; auto|].
    cbn [seq fold_left flat_map]. subst s. rewrite land_pred_pow2, mod_succ_step by auto.
    replace (item + a + 1) with (item + S a) by lia. replace (S (r + a)) with (r + S a) by lia.
    rewrite IH. rewrite <- !app_assoc. f_equal. rewrite !app_assoc. f_equal. f_equal.
    rewrite (Nat.add_comm ((item + a) mod 2 ^ k) c). unfold guard. cbn [filter fst snd].
    destruct m; cbn [negb orb]; auto. destruct ((r + a <? n) && (c + (item + a) mod 2 ^ k <? n)); auto. }
  specialize (G s 0 []). rewrite Nat.add_0_r, Nat.add_0_r, (Nat.mod_small item) in G by lia.
  rewrite G. auto.
Qed.

Lemma flat_map_map {A B C} (f : B -> list C) (g : A -> B) l : flat_map f (map g l) = flat_map (fun a => f (g a)) l.
Proof. induction l; cbn; auto. rewrite IHl. auto. Qed.

Local Ltac same_pair :=
  match goal with |- map _ (filter _ [?a]) ++ _ = map _ (filter _ [?b]) ++ _ =>
    replace a with b; [reflexivity|f_equal; lia] end.

(** The steps of [apply_diagonal]. *)
Fixpoint diag_steps (k off : nat) (m : bool) : list step :=
  group (2 ^ k) off (off + 2 ^ k) m ++ match k with 0 => [] | S k' => diag_steps k' off m end.

Lemma pow2_pos k : 1 <= 2 ^ k.
Proof. pose proof (Nat.pow_nonzero 2 k). lia. Qed.

Lemma pow2_gt k : k < 2 ^ k.
Proof. apply Nat.pow_gt_lin_r. lia. Qed.

Lemma half_pow2 k : 2 ^ S k / 2 = 2 ^ k.
Proof. cbn [Nat.pow]. rewrite Nat.mul_comm, Nat.div_mul; lia. Qed.

Lemma diagonal_closed w n off m : forall k fuel, k < fuel ->
  apply_diagonal_loop fuel w n off m (2 ^ k) = flat_map (emit n w) (diag_steps k off m).
Proof.
  induction k as [|k IH]; intros fuel Hf; destruct fuel as [|fuel]; try lia; cbn [apply_diagonal_loop diag_steps].
  - change (0 <? 2 ^ 0) with true. cbn iota. rewrite flat_map_app. f_equal.
    + rewrite (inner_closed 0) by (apply Nat.mod_upper_bound; cbn; lia). unfold group. rewrite flat_map_map. apply flat_map_ext.
      intros t. unfold emit, does, raw. same_pair.
    + change (2 ^ 0 / 2) with 0. destruct fuel; cbn; auto.
  - pose proof (pow2_pos (S k)). destruct (Nat.ltb_spec 0 (2 ^ S k)); [|lia]. rewrite flat_map_app. f_equal.
    + rewrite inner_closed by (apply Nat.mod_upper_bound; lia). unfold group. rewrite flat_map_map. apply flat_map_ext.
      intros t. unfold emit, does, raw. same_pair.
    + rewrite half_pow2. apply IH. lia.
Qed.

(** The steps of [apply]. *)
Definition block_steps (k n nb : nat) (b : nat) : list step :=
  let W := 2 ^ k in
  diag_steps k (b * (W * 2)) (b =? nb - 1)
  ++ flat_map (fun r => flat_map (fun c => group W (b * (W * 2) + r * W) (b * (W * 2) + W * 2 + c * W)
        ((n <? b * (W * 2) + W * 2 + c * W + W) || (b =? nb - 1)))
       (seq 0 ((nb - 1 - b) * 2))) (seq 0 2).
Definition blocks (k n : nat) : nat := get_next_multiple n (2 ^ k * 2) / (2 ^ k * 2).
Definition all_steps (k n : nat) : list step := flat_map (block_steps k n (blocks k n)) (seq 0 (blocks k n)).

Lemma flat_map_flat_map {A B C} (f : B -> list C) (g : A -> list B) l :
  flat_map f (flat_map g l) = flat_map (fun a => flat_map f (g a)) l.
Proof. induction l; cbn; auto. rewrite flat_map_app, IHl. auto. Qed.

Lemma padded k n : get_next_multiple n (2 ^ k * 2) = blocks k n * (2 ^ k * 2).
Proof. unfold blocks, get_next_multiple. pose proof (pow2_pos k). rewrite Nat.div_mul by lia. auto. Qed.

Lemma padded_bounds k n : n <= blocks k n * (2 ^ k * 2) < n + 2 ^ k * 2.
Proof.
  rewrite <- padded. unfold get_next_multiple. pose proof (pow2_pos k).
  set (M := 2 ^ k * 2) in *. assert (M <> 0) as Z by lia.
  pose proof (Nat.div_mod (n + (M - 1)) M Z). pose proof (Nat.mod_upper_bound (n + (M - 1)) M Z). nia.
Qed.

Lemma apply_closed k w n : w < 2 ^ k ->
  apply (2 ^ k) w n = flat_map (emit n w) (all_steps k n).
Proof.
  intros Hw. unfold apply, all_steps. fold (blocks k n). rewrite padded. set (nb := blocks k n). set (W := 2 ^ k) in *.
  rewrite flat_map_flat_map. apply flat_map_ext_in. intros b Hb. apply in_seq in Hb. unfold block_steps.
  rewrite flat_map_app. f_equal.
  - unfold apply_diagonal. unfold W. apply diagonal_closed. apply pow2_gt.
  - assert (1 <= W) as H1 by lia.
    replace (for_loop (b * (W * 2)) (b * (W * 2) + W * 2) W) with (map (fun r => b * (W * 2) + r * W) (seq 0 2)).
    2:{ rewrite <- for_loop_map by lia. f_equal. lia. }
    replace (nb * (W * 2)) with (b * (W * 2) + W * 2 + ((nb - 1 - b) * 2) * W) by nia.
    rewrite for_loop_map by lia. fold W.
    rewrite flat_map_flat_map, flat_map_map. apply flat_map_ext. intros r.
    rewrite flat_map_flat_map, flat_map_map. apply flat_map_ext. intros c.
    unfold W at 1 2. rewrite inner_closed by lia. fold W. unfold group. rewrite flat_map_map. apply flat_map_ext. intros t.
    unfold emit, does, raw. rewrite (Nat.div_small w W), (Nat.mod_small w W) by lia. same_pair.
Qed.

(** ** What a group of steps does over all work items *)
Lemma calls_emit n w l : calls (flat_map (emit n w) l) = flat_map (does n w) l.
Proof.
  induction l as [|st l IH]; auto. cbn [flat_map]. rewrite <- IH. unfold emit.
  induction (does n w st) as [|p d IHd]; auto. destruct p as [i j]. cbn [map app calls flat_map] in *. f_equal. exact IHd.
Qed.

Lemma group_raw s B r c : 1 <= s ->
  forall m, Permutation (flat_map (fun st => flat_map (fun w => [raw w st]) (seq 0 (B * s))) (group s r c m))
    (flat_map (fun b => rect (r + b * 2 * s) s (c + b * 2 * s) s) (seq 0 B)).
Proof.
  intros Hs m. unfold group. rewrite flat_map_map.
  rewrite (flat_map_ext_in (fun t => flat_map (fun w => [raw w (s, r, c, m, t)]) (seq 0 (B * s)))
     (fun t => flat_map (fun b => map (fun j => (r + b * 2 * s + t, c + b * 2 * s + j)) (map (fun i => (i + t) mod s) (seq 0 s))) (seq 0 B))).
  2:{ intros t _. rewrite seq_mul, flat_map_flat_map. apply flat_map_ext. intros b.
      rewrite flat_map_map, map_map. rewrite flat_map_concat_map. 
      rewrite (map_ext_in _ (fun i => [(r + b * 2 * s + t, c + b * 2 * s + (i + t) mod s)])).
      - induction (seq 0 s) as [|x l IH]; cbn; auto. rewrite IH. auto.
      - intros i Hi. apply in_seq in Hi. unfold raw. destruct (div_mul_add b s i) as [-> ->]; [lia|]. auto. }
  rewrite flat_map_swap. apply Permutation_flat_map_ext. intros b _.
  unfold rect. rewrite list_prod_flat.
  replace (seq (r + b * 2 * s) s) with (map (fun t => r + b * 2 * s + t) (seq 0 s)).
  2:{ apply nth_error_ext. intros i. rewrite nth_error_map, !nth_error_seq. destruct (i <? s); auto. }
  rewrite flat_map_map. apply Permutation_flat_map_ext. intros t _.
  replace (seq (c + b * 2 * s) s) with (map (fun t => c + b * 2 * s + t) (seq 0 s)).
  2:{ apply nth_error_ext. intros i. rewrite nth_error_map, !nth_error_seq. destruct (i <? s); auto. }
  rewrite <- (rotate_perm s t Hs) at 2. rewrite !map_map. auto.
Qed.

Lemma filter_perm2 {A} (q : A -> bool) l l' : Permutation l l' -> Permutation (filter q l) (filter q l').
Proof.
  induction 1; cbn; auto.
  - destruct (q x); auto.
  - destruct (q x), (q y); auto. apply perm_swap.
  - etransitivity; eauto.
Qed.

Lemma group_does n m s B r c : 1 <= s ->
  Permutation (flat_map (fun st => flat_map (fun w => does n w st) (seq 0 (B * s))) (group s r c m))
    (filter (guard m n) (flat_map (fun b => rect (r + b * 2 * s) s (c + b * 2 * s) s) (seq 0 B))).
Proof.
  intros Hs. rewrite <- (filter_perm2 _ _ _ (group_raw s B r c Hs m)). unfold group. rewrite !flat_map_map, filter_flat_map.
  apply Permutation_flat_map_ext. intros t _. rewrite filter_flat_map. auto.
Qed.

Lemma diag_does n m off : forall k B,
  Permutation (flat_map (fun st => flat_map (fun w => does n w st) (seq 0 (B * 2 ^ k))) (diag_steps k off m))
    (filter (guard m n) (flat_map (fun b => tri (off + b * (2 * 2 ^ k)) (2 * 2 ^ k)) (seq 0 B))).
Proof.
  induction k as [|k IH]; intros B; cbn [diag_steps].
  - rewrite app_nil_r, group_does by auto. apply filter_perm2, Permutation_flat_map_ext. intros b _.
    apply NoDup_Permutation; [apply nodup_rect|apply nodup_tri|]. intros [i j]. rewrite in_rect, in_tri. cbn. lia.
  - rewrite flat_map_app, group_does by apply pow2_pos.
    replace (B * 2 ^ S k) with (B * 2 * 2 ^ k) by (cbn [Nat.pow]; lia). rewrite IH, <- filter_app. apply filter_perm2.
    rewrite (seq_mul 2 B), flat_map_flat_map, <- flat_map_app_perm. apply Permutation_flat_map_ext. intros b _.
    cbn [seq map flat_map]. rewrite app_nil_r.
    replace (off + b * (2 * 2 ^ S k)) with (off + (b * 2 + 0) * (2 * 2 ^ k)) by (cbn [Nat.pow]; lia).
    replace (2 * 2 ^ S k) with (2 * 2 ^ k + 2 * 2 ^ k) by (cbn [Nat.pow]; lia).
    rewrite tri_split. cbn [Nat.pow].
    replace (off + b * 2 * (2 * 2 ^ k)) with (off + (b * 2 + 0) * (2 * 2 ^ k)) by lia.
    replace (off + (2 * 2 ^ k) + b * 2 * (2 * 2 ^ k)) with (off + (b * 2 + 0) * (2 * 2 ^ k) + 2 * 2 ^ k) by lia.
    replace (off + (b * 2 + 1) * (2 * 2 ^ k)) with (off + (b * 2 + 0) * (2 * 2 ^ k) + 2 * 2 ^ k) by lia.
    auto.
Qed.

Definition below (n : nat) (p : nat * nat) : bool := (fst p <? n) && (snd p <? n).

Lemma filter_guard m n l : (m = false -> forall p, In p l -> below n p = true) -> filter (guard m n) l = filter (below n) l.
Proof.
  intros H. apply filter_ext_in. intros p Hp. unfold guard. destruct m; cbn; auto. symmetry. apply H; auto.
Qed.

Lemma below_lt n i j : below n (i, j) = true <-> i < n /\ j < n.
Proof. unfold below. rewrite andb_true_iff, !Nat.ltb_lt. tauto. Qed.

Lemma block_does k n b : let W := 2 ^ k in let nb := blocks k n in b < nb ->
  Permutation (flat_map (fun st => flat_map (fun w => does n w st) (seq 0 W)) (block_steps k n nb b))
    (filter (below n) (tri (b * (W * 2)) (W * 2) ++ rect (b * (W * 2)) (W * 2) (b * (W * 2) + W * 2) ((nb - 1 - b) * (W * 2)))).
Proof.
  intros W nb Hb. unfold block_steps. fold W. rewrite flat_map_app, filter_app.
  pose proof (padded_bounds k n) as Pb. fold nb W in Pb. pose proof (pow2_pos k) as HW. fold W in HW.
  apply Permutation_app.
  - pose proof (diag_does n (b =? nb - 1) (b * (W * 2)) k 1) as P. fold W in P. rewrite (Nat.mul_1_l W) in P.
    rewrite P. cbn [seq flat_map]. rewrite app_nil_r. replace (b * (W * 2) + 0 * (2 * W)) with (b * (W * 2)) by lia. replace (2 * W) with (W * 2) by lia.
    rewrite filter_guard; auto. intros E [i j] Hp. apply in_tri in Hp. apply below_lt. apply Nat.eqb_neq in E. nia.
  - transitivity (filter (below n) (flat_map (fun r => flat_map (fun c =>
       rect (b * (W * 2) + r * W) W (b * (W * 2) + W * 2 + c * W) W) (seq 0 ((nb - 1 - b) * 2))) (seq 0 2))).
    + rewrite flat_map_flat_map, filter_flat_map. apply Permutation_flat_map_ext. intros r Hr. apply in_seq in Hr.
      rewrite flat_map_flat_map, filter_flat_map. apply Permutation_flat_map_ext. intros c Hc. apply in_seq in Hc.
      match goal with |- Permutation (flat_map _ (group _ ?r0 ?c0 ?m0)) _ => pose proof (group_does n m0 W 1 r0 c0 HW) as P end.
      rewrite (Nat.mul_1_l W) in P. rewrite P. cbn [seq flat_map]. rewrite app_nil_r.
      rewrite filter_guard.
      * replace (b * (W * 2) + r * W + 0 * 2 * W) with (b * (W * 2) + r * W) by lia.
        replace (b * (W * 2) + W * 2 + c * W + 0 * 2 * W) with (b * (W * 2) + W * 2 + c * W) by lia. auto.
      * intros E [i j] Hp. apply in_rect in Hp. apply below_lt. apply orb_false_iff in E as [E _]. apply Nat.ltb_ge in E. nia.
    + apply filter_perm2.
      transitivity (flat_map (fun r => rect (b * (W * 2) + r * W) W (b * (W * 2) + W * 2) ((nb - 1 - b) * 2 * W)) (seq 0 2)).
      * apply Permutation_flat_map_ext. intros r _. apply rect_cols.
      * rewrite rect_rows. replace ((nb - 1 - b) * 2 * W) with ((nb - 1 - b) * (W * 2)) by lia.
        replace (2 * W) with (W * 2) by lia. auto.
Qed.

Lemma blocks_tri K nb : forall k a, a + k = nb ->
  Permutation (flat_map (fun b => tri (b * K) K ++ rect (b * K) K (b * K + K) ((nb - 1 - b) * K)) (seq a k)) (tri (a * K) (k * K)).
Proof.
  induction k as [|k IH]; intros a E; [cbn; auto|]. cbn [seq flat_map]. rewrite IH by lia.
  replace (S k * K) with (K + k * K) by lia. rewrite tri_split. replace (nb - 1 - a) with k by lia.
  replace (S a * K) with (a * K + K) by lia. rewrite app_assoc. apply Permutation_app_tail, Permutation_app_comm.
Qed.

Theorem every_pair_once k n :
  Permutation (flat_map (fun w => calls (apply (2 ^ k) w n)) (seq 0 (2 ^ k))) (all_pairs n).
Proof.
  rewrite (flat_map_ext_in _ (fun w => flat_map (does n w) (all_steps k n))).
  2:{ intros w Hw. apply in_seq in Hw. rewrite apply_closed, calls_emit by lia. auto. }
  rewrite flat_map_swap. unfold all_steps. set (nb := blocks k n). rewrite flat_map_flat_map.
  transitivity (filter (below n) (tri 0 (nb * (2 ^ k * 2)))).
  - rewrite <- (filter_perm2 _ _ _ (blocks_tri (2 ^ k * 2) nb nb 0 eq_refl)). rewrite filter_flat_map.
    apply Permutation_flat_map_ext. intros b Hb. apply in_seq in Hb. apply block_does. lia.
  - change (all_pairs n) with (tri 0 n). pose proof (padded_bounds k n) as P. fold nb in P.
    apply NoDup_Permutation; [apply NoDup_filter, nodup_tri|apply nodup_tri|].
    intros [i j]. rewrite filter_In, below_lt, !in_tri. lia.
Qed.

(** ** Synchronisation *)
Lemma syncs_emit n w l : syncs (flat_map (emit n w) l) = length l.
Proof.
  induction l as [|st l IH]; auto. cbn [flat_map length]. rewrite <- IH. unfold emit.
  induction (does n w st) as [|p d IHd]; auto.
Qed.

Lemma calls_after_emit n w : forall l t, calls_after t (flat_map (emit n w) l) =
  match nth_error l t with Some st => does n w st | None => [] end.
Proof.
  induction l as [|st l IH]; intros t; [destruct t; auto|]. cbn [flat_map].
  unfold emit. destruct t as [|t].
  - cbn [nth_error]. induction (does n w st) as [|[i j] d IHd]; auto. cbn [map app calls_after fst snd]. rewrite Nat.eqb_refl. f_equal. exact IHd.
  - cbn [nth_error]. rewrite <- IH. induction (does n w st) as [|[i j] d IHd]; auto.
Qed.

Theorem same_syncs k n w w' : w < 2 ^ k -> w' < 2 ^ k -> syncs (apply (2 ^ k) w n) = syncs (apply (2 ^ k) w' n).
Proof. intros H H'. rewrite !apply_closed, !syncs_emit by auto. auto. Qed.

Lemma does_raw n w st p : In p (does n w st) -> p = raw w st.
Proof. destruct st as [[[[s r] c] m] t]. unfold does. intros H. apply filter_In in H as [[H|[]] _]. auto. Qed.

(** A well formed step: columns start after the rows end, and the step number is
    below the block size. *)
Definition good (k : nat) (st : step) : Prop :=
  let '(s, r, c, m, t) := st in exists j, s = 2 ^ j /\ j <= k /\ t < s /\ r + s <= c /\ (c = r + s \/ j = k).

Lemma diag_good k' off m : forall k, k <= k' -> Forall (good k') (diag_steps k off m).
Proof.
  assert (G : forall k, k <= k' -> Forall (good k') (group (2 ^ k) off (off + 2 ^ k) m)).
  { intros k Hk. apply Forall_forall. intros st Hst. apply in_map_iff in Hst as [t [<- Ht]]. apply in_seq in Ht.
    exists k. repeat split; auto; lia. }
  induction k as [|k IH]; intros Hk; cbn [diag_steps]; apply Forall_app; split; auto. apply IH; lia.
Qed.

Lemma all_good k n : Forall (good k) (all_steps k n).
Proof.
  apply Forall_flat_map, Forall_forall. intros b Hb. unfold block_steps. apply Forall_app. split; [apply diag_good; auto|].
  apply Forall_flat_map, Forall_forall. intros r Hr. apply in_seq in Hr.
  apply Forall_flat_map, Forall_forall. intros c Hc. apply Forall_forall. intros st Hst.
  apply in_map_iff in Hst as [t [<- Ht]]. apply in_seq in Ht.
  pose proof (pow2_pos k). exists k. repeat split; auto; nia.
Qed.

Lemma raw_disjoint k st w w' : good k st -> w < 2 ^ k -> w' < 2 ^ k -> w <> w' ->
  snd (raw w st) <> snd (raw w' st) /\ fst (raw w st) <> snd (raw w' st).
Proof.
  destruct st as [[[[s r] c] m] t]. intros [j [Es [Hj [Ht [Hrc Hc]]]]] Hw Hw' N. cbn [raw fst snd].
  assert (s <> 0) as Z by lia.
  pose proof (Nat.div_mod w s Z) as D. pose proof (Nat.div_mod w' s Z) as D'.
  pose proof (Nat.mod_upper_bound w s Z) as U. pose proof (Nat.mod_upper_bound w' s Z) as U'.
  pose proof (Nat.mod_upper_bound (w mod s + t) s Z) as V. pose proof (Nat.mod_upper_bound (w' mod s + t) s Z) as V'.
  pose proof (Nat.div_mod (w mod s + t) s Z) as E. pose proof (Nat.div_mod (w' mod s + t) s Z) as E'.
  set (q := w / s) in *. set (q' := w' / s) in *. set (x := w mod s) in *. set (x' := w' mod s) in *.
  set (y := (x + t) mod s) in *. set (y' := (x' + t) mod s) in *.
  set (z := (x + t) / s) in *. set (z' := (x' + t) / s) in *.
  split.
  - intros C. destruct (Nat.eq_dec q q') as [Q|Q].
    + assert (y = y') by nia. assert (z = z') by nia. nia.
    + nia.
  - destruct Hc as [Hc|Hc].
    + subst c. intros C. destruct (Nat.lt_trichotomy q q') as [Q|[Q|Q]]; nia.
    + assert (q = 0). { apply Nat.div_small. rewrite Es, Hc. auto. }
      assert (q' = 0). { apply Nat.div_small. rewrite Es, Hc. auto. } nia.
Qed.

Theorem no_shared_second k n w w' t p p' : w < 2 ^ k -> w' < 2 ^ k -> w <> w' ->
  In p (calls_after t (apply (2 ^ k) w n)) -> In p' (calls_after t (apply (2 ^ k) w' n)) ->
  snd p <> snd p' /\ fst p <> snd p'.
Proof.
  intros Hw Hw' N. rewrite !apply_closed, !calls_after_emit by auto.
  destruct (nth_error (all_steps k n) t) as [st|] eqn:E; [|intros []].
  intros H H'. apply does_raw in H, H'. subst. apply raw_disjoint with k; auto.
  pose proof (all_good k n) as G. rewrite Forall_forall in G. apply G. eapply nth_error_In; eauto.
Qed.
