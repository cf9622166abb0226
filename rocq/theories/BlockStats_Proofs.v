(** Proofs about the host form and the statistics of block pair lists. *)
From Coq Require Import List Arith Lia ZArith QArith Bool Permutation.
Import ListNotations.
From Verif Require Import Base Append_Proofs Scan_Model World_Proofs PairHost_Proofs SamplerNTC_Model SamplerNTC_Spec SamplerNTC_Proofs SamplerNTCBlock_Proofs SamplerNTCCell_Proofs SamplerNTCSample_Proofs BlockLoop_Model BlockLoop_Spec BlockLoop_Proofs
  BlockCheck_Model BlockCheck_Spec BlockCheck_Proofs.
Local Open Scope nat_scope.

(** * Tables of counters *)

Definition table (n : nat) (h : nat -> nat) : list nat := map h (seq 0 n).

Lemma table_rd n h k : k < n -> rd (table n h) k = Some (h k).
Proof. intros. unfold table, rd. rewrite nth_error_map_seq. destruct (Nat.ltb_spec k n); [auto|lia]. Qed.
Lemma table_upd n h k v : k < n -> upd (table n h) k v = Some (table n (fun x => if x =? k then v else h x)).
Proof.
  intros Hk. unfold table. destruct (upd_some (map h (seq 0 n)) k v) as [l E]; [rewrite map_length, seq_length; auto|]. rewrite E. f_equal.
  apply nth_error_ext. intros x. rewrite nth_error_map_seq. destruct (Nat.eqb_spec x k) as [->|N].
  - rewrite (upd_nth_eq _ _ _ _ E). destruct (Nat.ltb_spec k n); [|lia]. rewrite Nat.eqb_refl. auto.
  - rewrite (upd_nth_neq _ _ _ _ _ E) by auto. rewrite nth_error_map_seq. destruct (x <? n); auto. cbn [Nat.add]. destruct (Nat.eqb_spec x k); [lia|auto].
Qed.
Lemma table_ext n h h' : (forall k, k < n -> h k = h' k) -> table n h = table n h'.
Proof. intros H. apply map_ext_in. intros k Hk. apply in_seq in Hk. apply H. lia. Qed.
Lemma table_zero n : repeat 0 n = table n (fun _ => 0).
Proof.
  apply nth_error_ext. intros x. unfold table. rewrite nth_error_map_seq. destruct (Nat.ltb_spec x n).
  - rewrite (nth_error_nth' _ 0) by (rewrite repeat_length; auto). f_equal. apply nth_repeat.
  - apply nth_error_None. rewrite repeat_length. auto.
Qed.

Notation occ l k := (count_occ Nat.eq_dec l k).

Lemma add_keys {A} (keys : A -> list nat) (val : nat -> nat) n (step : list nat -> A -> option (list nat)) :
  (forall h a, (forall k, In k (keys a) -> k < n) -> step (table n h) a = Some (table n (fun x => h x + occ (keys a) x * val x))) ->
  forall l h, (forall a k, In a l -> In k (keys a) -> k < n) ->
    foldM step (table n h) l = Some (table n (fun x => h x + occ (flat_map keys l) x * val x)).
Proof.
  intros HS l. induction l as [|a l IH]; intros h H.
  - cbn. f_equal. apply table_ext. intros. lia.
  - cbn [foldM flat_map]. rewrite HS by (intros; apply (H a); cbn; auto). cbn [obind]. rewrite IH by (intros a' k H1 H2; apply (H a'); cbn; auto).
    f_equal. apply table_ext. intros k _. rewrite count_occ_app. lia.
Qed.

Lemma occ_one k x : occ [k] x = if x =? k then 1 else 0.
Proof. cbn. destruct (Nat.eq_dec k x), (Nat.eqb_spec x k); auto; lia. Qed.

Lemma occ_perm l l' k : Permutation l l' -> occ l k = occ l' k.
Proof. intros P. apply (Permutation_count_occ Nat.eq_dec); auto. Qed.

(** Entries of a block, where there are any. *)
Lemma block_entries {A} bs b (L : list A) : map (fun x => nth_error L (b * bs + x)) (seq 0 bs) =
  map Some (block_of bs b L) ++ repeat None (bs - length (block_of bs b L)).
Proof.
  set (B := block_of bs b L). assert (Lb : length B <= bs) by (unfold B; rewrite block_of_length; lia).
  apply nth_error_ext. intros x. rewrite nth_error_map_seq. cbn [Nat.add].
  assert (E : x < bs -> nth_error L (b * bs + x) = nth_error B x) by (intros Hx; unfold B; rewrite block_of_nth; destruct (Nat.ltb_spec x bs); [auto|lia]).
  destruct (lt_dec x (length B)) as [Hx|Hx].
  - rewrite nth_error_app1 by (rewrite map_length; auto). rewrite nth_error_map. destruct (Nat.ltb_spec x bs); [|lia]. rewrite E by auto. destruct (nth_error_lt_some B x Hx) as [e ->]. auto.
  - rewrite nth_error_app2 by (rewrite map_length; lia). rewrite map_length. destruct (Nat.ltb_spec x bs).
    + rewrite E by auto. assert (nth_error B x = None) as -> by (apply nth_error_None; lia).
      symmetry. rewrite (nth_error_nth' _ None) by (rewrite repeat_length; lia). f_equal. apply nth_repeat.
    + symmetry. apply nth_error_None. rewrite repeat_length. lia.
Qed.

Lemma filter_length_le {A} (f : A -> bool) l : length (filter f l) <= length l.
Proof. induction l as [|a l IH]; cbn; auto. destruct (f a); cbn; lia. Qed.

Definition in_wave (w : nat) (L : list (nat * nat * nat)) : nat := length (filter (fun p => snd p =? w) L).

Lemma wave_members bs b (L : list (nat * nat * nat)) w :
  length (filter (fun o : option nat => match o with Some v => v =? w | None => false end)
    (map (fun x => option_map snd (nth_error L (b * bs + x))) (seq 0 bs))) = in_wave w (block_of bs b L).
Proof.
  rewrite <- (map_map (fun x => nth_error L (b * bs + x)) (option_map snd)), block_entries, map_app, filter_app, app_length.
  assert (G : forall m, length (filter (fun o : option nat => match o with Some v => v =? w | None => false end) (map (option_map snd) (repeat (@None (nat * nat * nat)) m))) = 0)
    by (induction m; cbn; auto).
  rewrite G, Nat.add_0_r. unfold in_wave. induction (block_of bs b L) as [|[p v] B IH]; auto. cbn [map option_map filter snd]. destruct (v =? w); cbn [length]; auto.
Qed.

Lemma concat_len {A} (l : list (list A)) : length (concat l) = list_sum (map (@length _) l).
Proof. induction l as [|a l IH]; auto. cbn [concat map]. rewrite app_length, IH. auto. Qed.

Section Stats.
  Context (d : device) (bs : nat) (bl : block_list) (P : cell_pairs) (waves : nat -> nat -> nat).
  Hypothesis Hd : device_ok d.
  Hypothesis Hbs : 1 <= bs.
  Hypothesis HH : holds bs bl P.
  Hypothesis HC : bl_cell_count bl = length P.
  Hypothesis HW : has_waves bl P waves.

  Lemma read_pair c x i j w : c < length P -> nth_error (pairs_in P c) x = Some (i, j, w) ->
    bl_index_i bl c x = Some i /\ bl_index_j bl c x = Some j /\ bl_pair_wave bl c x = Some w.
  Proof.
    intros Hc Hx. pose proof (h_pairs _ _ _ HH c Hc) as E. unfold read_block_pairs in E. destruct (bl_num_pairs bl c) as [n|]; [|discriminate]. cbn [obind] in E.
    assert (Ln : length (pairs_in P c) = n) by (apply mapM_length in E; rewrite seq_length in E; auto). pose proof (nth_error_some_lt _ _ _ Hx) as Hl.
    pose proof (mapM_nth _ _ _ x x E) as G. rewrite nth_error_seq in G. destruct (Nat.ltb_spec x n); [|lia]. specialize (G eq_refl). cbn beta in G. rewrite Hx in G.
    destruct (bl_index_i bl c x); [|discriminate]. cbn [obind] in *. destruct (bl_index_j bl c x); [|discriminate]. cbn [obind] in *.
    destruct (bl_pair_wave bl c x); [|discriminate]. cbn [obind] in *. injection G as <- <- <-. auto.
  Qed.

  Lemma cell_pair_count c : c < length P -> rd (bl_pair_counts bl) c = Some (length (pairs_in P c)).
  Proof.
    intros Hc. pose proof (h_pairs _ _ _ HH c Hc) as E. unfold read_block_pairs in E. unfold bl_num_pairs in E. destruct (rd (bl_pair_counts bl) c) as [n|]; [|discriminate]. cbn [obind] in E.
    apply mapM_length in E. rewrite seq_length in E. congruence.
  Qed.

  (** * Occupancy *)

  Definition block_sizes (c b : nat) : list nat := map (fun w => in_wave w (block_of bs b (pairs_in P c))) (seq 0 (waves c b)).

  Lemma in_wave_le w c b : in_wave w (block_of bs b (pairs_in P c)) < bs + 1.
  Proof.
    unfold in_wave. pose proof (filter_length_le (fun p : nat * nat * nat => snd p =? w) (block_of bs b (pairs_in P c))). rewrite block_of_length in H. lia.
  Qed.

  Lemma occupancy_block_ok k c b h : c < length P -> b * bs < length (pairs_in P c) ->
    occupancy_block d k bl c (length (pairs_in P c)) (table (bs + 1) h) b = Some (table (bs + 1) (fun x => h x + occ (block_sizes c b) x)).
  Proof.
    intros Hc Hb. pose proof (h_block_size _ _ _ HH) as EB. unfold occupancy_block. rewrite EB. set (L := pairs_in P c) in *.
    rewrite (mapM_some _ (fun x => option_map snd (nth_error L (b * bs + x)))).
    2: { intros x Hx. apply in_seq in Hx. rewrite (Nat.add_comm x). destruct (Nat.ltb_spec (b * bs + x) (length L)) as [Hl|Hl].
         - destruct (nth_error_lt_some L _ Hl) as [[[i j] w] E]. rewrite E. destruct (read_pair c _ i j w Hc E) as [_ [_ ->]]. auto.
         - assert (nth_error L (b * bs + x) = None) as -> by (apply nth_error_None; lia). auto. }
    cbn [obind]. rewrite HW by (rewrite EB; auto). cbn [obind].
    assert (Hw : waves c b <= bs).
    { destruct (h_waves _ _ _ HH c b Hb) as [w [E [_ Hle]]]. rewrite HW in E by (rewrite EB; auto). injection E as ->. pose proof (h_max _ _ _ HH). lia. }
    rewrite (add_keys (fun x => if x <? waves c b then [in_wave x (block_of bs b L)] else []) (fun _ => 1)).
    - f_equal. apply table_ext. intros x _. rewrite Nat.mul_1_r. f_equal.
      rewrite (occ_perm _ (flat_map (fun x => if x <? waves c b then [in_wave x (block_of bs b L)] else []) (seq 0 bs))) by (apply Permutation_flat_map; apply Hd).
      f_equal. assert (seq 0 bs = seq 0 (waves c b) ++ seq (0 + waves c b) (bs - waves c b)) as -> by (rewrite <- seq_app; f_equal; lia). rewrite flat_map_app.
      rewrite (flat_map_nil _ (seq _ (bs - _))) by (intros y Hy; apply in_seq in Hy; destruct (Nat.ltb_spec y (waves c b)); [lia|auto]).
      rewrite app_nil_r. unfold block_sizes. fold L. rewrite flat_map_concat_map.
      rewrite (map_ext_in _ (fun w => [in_wave w (block_of bs b L)])).
      + clear. induction (seq 0 (waves c b)) as [|y l IH]; cbn; auto. rewrite IH. auto.
      + intros y Hy. apply in_seq in Hy. destruct (Nat.ltb_spec y (waves c b)); [auto|lia].
    - intros h0 x Hx. cbv zeta. rewrite wave_members. destruct (x <? waves c b).
      + rewrite table_rd by apply in_wave_le. cbn [obind]. rewrite table_upd by apply in_wave_le. f_equal. apply table_ext. intros y _. rewrite occ_one.
        destruct (Nat.eqb_spec y (in_wave x (block_of bs b L))) as [->|]; lia.
      + f_equal. apply table_ext. intros y _. cbn. lia.
    - intros x y _ Hy. destruct (x <? waves c b); [|destruct Hy]. destruct Hy as [<-|[]]. apply in_wave_le.
  Qed.

  Definition cell_sizes (c : nat) : list nat := flat_map (block_sizes c) (seq 0 (div_round_up (length (pairs_in P c)) bs)).

  Lemma occupancy_blocks_ok k c : c < length P -> forall l h, (forall b, In b l -> b * bs < length (pairs_in P c)) ->
    foldM (occupancy_block d k bl c (length (pairs_in P c))) (table (bs + 1) h) l = Some (table (bs + 1) (fun x => h x + occ (flat_map (block_sizes c) l) x)).
  Proof.
    intros Hc l. induction l as [|b l IH]; intros h Hl.
    - cbn. f_equal. apply table_ext. intros. lia.
    - cbn [foldM flat_map]. rewrite occupancy_block_ok by (auto; apply Hl; cbn; auto). cbn [obind]. rewrite IH by (intros; apply Hl; cbn; auto).
      f_equal. apply table_ext. intros x _. rewrite count_occ_app. lia.
  Qed.

  Lemma occupancy_cell_ok k c h : c < length P ->
    occupancy_cell d k bl (table (bs + 1) h) c = Some (table (bs + 1) (fun x => h x + occ (cell_sizes c) x)).
  Proof.
    intros Hc. pose proof (h_block_size _ _ _ HH) as EB. unfold occupancy_cell. rewrite EB. unfold bl_num_pairs. rewrite cell_pair_count by auto. cbn [obind].
    rewrite table_zero, (occupancy_blocks_ok k c Hc) by (intros b Hb; apply in_seq in Hb; apply div_round_up_lt; auto; lia). cbn [obind Nat.add]. fold (cell_sizes c).
    set (v := fun x => occ (cell_sizes c) x).
    rewrite (add_keys (fun x => x :: (if x =? bs - 1 then [bs] else [])) v).
    - f_equal. apply table_ext. intros x Hx. unfold v.
      rewrite (occ_perm _ (seq 0 (bs + 1))).
      + f_equal. assert (occ (seq 0 (bs + 1)) x = 1) as ->; [|lia]. apply NoDup_count_occ'; [apply seq_NoDup|]. apply in_seq. lia.
      + apply Permutation_trans with (flat_map (fun x => x :: (if x =? bs - 1 then [bs] else [])) (seq 0 bs)); [apply Permutation_flat_map; apply Hd|].
        assert (seq 0 bs = seq 0 (bs - 1) ++ seq (0 + (bs - 1)) 1) as -> by (rewrite <- seq_app; f_equal; lia). rewrite flat_map_app.
        replace (flat_map _ (seq 0 (bs - 1))) with (seq 0 (bs - 1)).
        * replace (bs + 1) with (bs - 1 + 2) by lia. rewrite seq_app. cbn [seq flat_map Nat.add app]. rewrite Nat.eqb_refl. cbn [app]. replace (S (bs - 1)) with bs by lia. apply Permutation_refl.
        * rewrite flat_map_concat_map, (map_ext_in _ (fun y => [y])); [clear; induction (seq 0 (bs - 1)) as [|y l IH]; cbn; auto; rewrite <- IH; auto|].
          intros y Hy. apply in_seq in Hy. destruct (Nat.eqb_spec y (bs - 1)); [lia|auto].
    - intros h0 x Hx. rewrite table_rd by (apply Hx; cbn; auto). cbn [obind]. rewrite table_rd by (apply Hx; cbn; auto). cbn [obind]. rewrite table_upd by (apply Hx; cbn; auto). cbn [obind].
      assert (Hx0 : x < bs + 1) by (apply Hx; cbn; auto). clear Hx. destruct (Nat.eqb_spec x (bs - 1)) as [Ex|N].
      + rewrite Ex in *. rewrite table_rd by lia. cbn [obind]. rewrite table_rd by lia. cbn [obind]. rewrite table_upd by lia. f_equal. apply table_ext. intros y Hy. fold (v (bs - 1)) (v bs).
        change [bs - 1; bs] with ([bs - 1] ++ [bs]). rewrite count_occ_app, !occ_one.
        destruct (Nat.eqb_spec y bs) as [Ey|]; destruct (Nat.eqb_spec y (bs - 1)) as [Ey'|]; destruct (Nat.eqb_spec bs (bs - 1)); try lia; rewrite ?Ey, ?Ey'; lia.
      + f_equal. apply table_ext. intros y Hy. fold (v x). rewrite occ_one. destruct (Nat.eqb_spec y x) as [->|]; lia.
    - intros x y Hx Hy. apply (Permutation_in _ (proj1 Hd _ _ _)) in Hx. apply in_seq in Hx. destruct Hy as [<-|Hy]; [lia|]. destruct (x =? bs - 1); [|destruct Hy]. destruct Hy as [<-|[]]. lia.
  Qed.

  Lemma sizes_eq : wave_sizes bs waves P = flat_map cell_sizes (seq 0 (length P)).
  Proof. reflexivity. Qed.

  Theorem occupancy_ok k key : wave_occupancy_counts d k key bl = Some (map (fun n => occ (wave_sizes bs waves P) n) (seq 0 (bs + 1))).
  Proof.
    unfold wave_occupancy_counts. rewrite (h_block_size _ _ _ HH), HC, table_zero.
    enough (G : forall l h, (forall c, In c l -> c < length P) -> foldM (fun counts c => occupancy_cell d (key c) bl counts c) (table (bs + 1) h) l =
      Some (table (bs + 1) (fun x => h x + occ (flat_map cell_sizes l) x))).
    { rewrite G.
      - f_equal. apply table_ext. intros x _. cbn [Nat.add]. rewrite sizes_eq. apply occ_perm, Permutation_flat_map, Hd.
      - intros c Hc. apply (Permutation_in _ (proj1 Hd _ _ _)) in Hc. apply in_seq in Hc. lia. }
    induction l as [|c l IH]; intros h Hl.
    - cbn. f_equal. apply table_ext. intros. lia.
    - cbn [foldM flat_map]. rewrite occupancy_cell_ok by (apply Hl; cbn; auto). cbn [obind]. rewrite IH by (intros; apply Hl; cbn; auto).
      f_equal. apply table_ext. intros x _. rewrite count_occ_app. lia.
  Qed.

  (** The sizes of the waves add up to the number of pairs. *)
  Lemma block_sizes_sum c b : b * bs < length (pairs_in P c) -> list_sum (block_sizes c b) = length (block_of bs b (pairs_in P c)).
  Proof.
    intros Hb. destruct (h_waves _ _ _ HH c b Hb) as [w [E [WB _]]]. rewrite HW in E by (rewrite (h_block_size _ _ _ HH); auto). injection E as <-.
    assert (G : forall B : list (nat * nat * nat), (forall p v, In (p, v) B -> v < waves c b) -> list_sum (map (fun w => in_wave w B) (seq 0 (waves c b))) = length B).
    { induction B as [|[p v] B IH]; intros HB.
      - induction (seq 0 (waves c b)); cbn; auto.
      - cbn [length]. rewrite <- IH by (intros p' v' Hi; apply (HB p' v'); cbn; auto). assert (Hv : v < waves c b) by (apply (HB p v); cbn; auto). clear -Hv.
        enough (Q : forall a n, list_sum (map (fun w => in_wave w ((p, v) :: B)) (seq a n)) = (if (a <=? v) && (v <? a + n) then 1 else 0) + list_sum (map (fun w => in_wave w B) (seq a n))).
        { rewrite Q. cbn [Nat.leb Nat.add andb]. apply Nat.ltb_lt in Hv. rewrite Hv. auto. }
        intros a n. revert a. induction n as [|n IH]; intros a.
        + cbn [seq map list_sum fold_right]. destruct (Nat.leb_spec a v), (Nat.ltb_spec v (a + 0)); cbn [andb]; lia.
        + cbn [seq map]. change (list_sum (?x :: ?l)) with (x + list_sum l). rewrite IH. unfold in_wave at 1. cbn [filter snd].
          change (length (filter (fun p0 : nat * nat * nat => snd p0 =? a) B)) with (in_wave a B).
          destruct (Nat.eqb_spec v a) as [->|N]; cbn [length]; change (length (filter (fun p0 : nat * nat * nat => snd p0 =? a) B)) with (in_wave a B);
            repeat match goal with |- context [?x <=? ?y] => destruct (Nat.leb_spec x y) | |- context [?x <? ?y] => destruct (Nat.ltb_spec x y) end; cbn [andb]; lia. }
    apply G. intros p v Hi. apply (wb_waves _ _ WB p). auto.
  Qed.

  Lemma list_sum_flat_map {A} (f : A -> list nat) l : list_sum (flat_map f l) = list_sum (map (fun a => list_sum (f a)) l).
  Proof. induction l as [|a l IH]; cbn [flat_map map]; auto. rewrite list_sum_app, IH. auto. Qed.

  Lemma sizes_sum : list_sum (wave_sizes bs waves P) = list_sum (map (@length _) P).
  Proof.
    rewrite sizes_eq, list_sum_flat_map.
    rewrite (map_ext_in _ (fun c => length (pairs_in P c))).
    - unfold pairs_in. rewrite <- (map_map (fun c => nth c P []) (@length _)). do 2 f_equal. apply nth_error_ext. intros c. rewrite nth_error_map_seq.
      destruct (Nat.ltb_spec c (length P)); [symmetry; apply nth_error_nth'; auto|symmetry; apply nth_error_None; auto].
    - intros c _. unfold cell_sizes. rewrite list_sum_flat_map, (map_ext_in _ (fun b => length (block_of bs b (pairs_in P c)))).
      + set (L := pairs_in P c). pose proof (blocks_concat bs L (div_round_up (length L) bs) Hbs) as E.
        assert (length L <= div_round_up (length L) bs * bs) as Hle.
        { destruct (le_lt_dec (length L) (div_round_up (length L) bs * bs)) as [|Z0]; auto. apply div_round_up_lt in Z0; auto. lia. }
        specialize (E Hle). apply (f_equal (@length _)) in E. rewrite flat_map_len in E. exact E.
      + intros b Hb. apply in_seq in Hb. apply block_sizes_sum. apply div_round_up_lt; auto. lia.
  Qed.

  Lemma sizes_bound n : In n (wave_sizes bs waves P) -> n <= bs.
  Proof.
    rewrite sizes_eq. intros H. apply in_flat_map in H as [c [_ H]]. apply in_flat_map in H as [b [_ H]]. apply in_map_iff in H as [w [<- _]].
    pose proof (in_wave_le w c b). lia.
  Qed.

  (** * The host form *)

  Lemma entry_at {A} (F : nat -> option A) (g : nat * nat * nat -> A) : forall (Q : list (list (nat * nat * nat))) o,
    (forall c x e, nth_error (nth c Q []) x = Some e -> F (o + (list_sum (map (@length _) (firstn c Q)) + x)) = Some (g e)) ->
    forall n e, nth_error (concat Q) n = Some e -> F (o + n) = Some (g e).
  Proof.
    induction Q as [|row Q IH]; intros o H n e Hn; [destruct n; discriminate|]. cbn [concat] in Hn. destruct (lt_dec n (length row)) as [Hl|Hl].
    - rewrite nth_error_app1 in Hn by auto. apply (H 0 n e). auto.
    - rewrite nth_error_app2 in Hn by lia. replace (o + n) with (o + length row + (n - length row)) by lia. apply IH; auto.
      intros c x e' Hx. specialize (H (S c) x e' Hx). cbn [firstn map] in H. change (list_sum (?a :: ?l)) with (a + list_sum l) in H. rewrite <- H. f_equal. lia.
  Qed.

  Lemma mapM_seq {A} (F : nat -> option A) (L : list A) a : (forall x e, nth_error L x = Some e -> F (a + x) = Some e) -> mapM F (seq a (length L)) = Some L.
  Proof.
    revert a. induction L as [|e L IH]; intros a H; [auto|]. cbn [length seq mapM]. rewrite <- (Nat.add_0_r a) at 1. rewrite (H 0 e eq_refl). cbn [obind].
    rewrite IH; auto. intros x e' Hx. rewrite <- (H (S x) e' Hx). f_equal. lia.
  Qed.

  Lemma list_slice o (g : nat * nat * nat -> nat) :
    (forall c x i j w, c < length P -> nth_error (pairs_in P c) x = Some (i, j, w) -> rd (bl_pair_list bl) (o + (list_sum (map (@length _) (firstn c P)) + x)) = Some (g (i, j, w))) ->
    forall e, e = o + bl_pair_count bl -> slice (bl_pair_list bl) o e = Some (map g (concat P)).
  Proof.
    intros H e ->. unfold slice. replace (o + bl_pair_count bl - o) with (length (map g (concat P))).
    - apply mapM_seq. intros x v Hx. rewrite nth_error_map in Hx. destruct (nth_error (concat P) x) as [p|] eqn:Ep; [|discriminate]. injection Hx as <-.
      revert x p Ep. apply (entry_at (rd (bl_pair_list bl)) g). intros c x [[i j] w] Hx. apply H; auto.
      destruct (lt_dec c (length P)); auto. rewrite nth_overflow in Hx by lia. destruct x; discriminate.
    - rewrite map_length, (h_count _ _ _ HH). rewrite concat_len. lia.
  Qed.

  Lemma concat_at (g : nat * nat * nat -> nat) c : c < length P ->
    mapM (fun ix => rd (map g (concat P)) (list_sum (map (@length _) (firstn c P)) + ix)) (seq 0 (length (pairs_in P c))) = Some (map g (pairs_in P c)).
  Proof.
    intros Hc. rewrite <- (map_length g (pairs_in P c)). apply mapM_seq. intros x e Hx. cbn [Nat.add]. unfold rd. rewrite nth_error_map in Hx |- *.
    destruct (nth_error (pairs_in P c) x) as [p|] eqn:Ep; [|discriminate]. injection Hx as <-.
    assert (nth_error (concat P) (list_sum (map (@length _) (firstn c P)) + x) = Some p) as ->; [|auto].
    clear -Hc Ep. unfold pairs_in in Ep. revert P Hc Ep. induction c as [|c IH]; intros [|row P'] Hc Ep; cbn [length] in Hc; try lia.
    - cbn [firstn map concat list_sum fold_right Nat.add nth] in *. rewrite nth_error_app1; [auto|]. eapply nth_error_some_lt; eauto.
    - cbn [firstn map concat nth] in *. change (list_sum (?a :: ?l)) with (a + list_sum l). rewrite nth_error_app2 by lia. rewrite <- (IH P'); auto; [|lia]. f_equal. lia.
  Qed.

  Theorem host_ok : host_pair_list bl = Some (map host_form P).
  Proof.
    assert (RD : forall c x i j w, c < length P -> nth_error (pairs_in P c) x = Some (i, j, w) ->
      let n := list_sum (map (@length _) (firstn c P)) + x in
      rd (bl_pair_list bl) (0 + n) = Some i /\ rd (bl_pair_list bl) (bl_pair_count bl + n) = Some j /\ rd (bl_pair_list bl) (bl_pair_count bl * 2 + n) = Some w).
    { intros c x i j w Hc Hx n. destruct (read_pair c x i j w Hc Hx) as [A [B C]]. unfold bl_index_i, bl_index_j, bl_pair_wave in *. rewrite (h_index _ _ _ HH c x Hc) in *. cbn [obind] in *. auto. }
    unfold host_pair_list. rewrite HC.
    assert (slice (bl_pair_counts bl) 0 (length P) = Some (map (@length _) P)) as ->.
    { unfold slice. rewrite Nat.sub_0_r, <- (map_length (@length _) P). apply mapM_seq. intros c n Hn. rewrite nth_error_map in Hn. destruct (nth_error P c) as [row|] eqn:Er; [|discriminate].
      injection Hn as <-. cbn [Nat.add]. rewrite cell_pair_count by (eapply nth_error_some_lt; eauto). unfold pairs_in. rewrite (nth_error_nth _ _ [] Er). auto. }
    cbn [obind].
    rewrite (list_slice 0 (fun p => fst (fst p))) by (auto; intros c x i j w Hc Hx; apply (RD c x i j w); auto). cbn [obind].
    rewrite (list_slice (bl_pair_count bl) (fun p => snd (fst p))) by (try lia; intros c x i j w Hc Hx; apply (RD c x i j w); auto). cbn [obind].
    rewrite (list_slice (bl_pair_count bl * 2) snd) by (try lia; intros c x i j w Hc Hx; apply (RD c x i j w); auto). cbn [obind].
    match goal with |- context [foldM ?f _ _] => set (step := f) end.
    enough (G : forall n, n <= length P -> foldM step ([], 0) (seq 0 n) = Some (map host_form (firstn n P), list_sum (map (@length _) (firstn n P)))).
    { rewrite G by auto. cbn [obind fst]. rewrite firstn_all. auto. }
    induction n as [|n IH]; intros Hn; [auto|]. rewrite seq_S, foldM_app, IH by lia. cbn [obind foldM Nat.add]. unfold step.
    destruct (nth_error_lt_some P n) as [row Er]; [lia|].
    assert (Ep : pairs_in P n = row) by (unfold pairs_in; rewrite (nth_error_nth _ _ [] Er); auto).
    unfold rd at 1. rewrite nth_error_map, Er. cbn [option_map obind]. rewrite <- Ep, !concat_at by lia. cbn [obind].
    rewrite (firstn_snoc_nth P n row Er), !map_app, list_sum_app, Ep. cbn. rewrite Nat.add_0_r. auto.
  Qed.
End Stats.

(** * The mean *)

Lemma occ_sum n l : (forall x, In x l -> x < n) -> list_sum (map (fun k => occ l k) (seq 0 n)) = length l /\ list_sum (map (fun k => k * occ l k) (seq 0 n)) = list_sum l.
Proof.
  induction l as [|a l IH]; intros H.
  - cbn. split; induction (seq 0 n) as [|k s IHs]; cbn; auto. rewrite Nat.mul_0_r. auto.
  - destruct IH as [I1 I2]; [intros; apply H; cbn; auto|]. assert (Ha : a < n) by (apply H; cbn; auto). cbn [length]. change (list_sum (a :: l)) with (a + list_sum l). rewrite <- I1, <- I2.
    assert (Q : forall m s, list_sum (map (fun k => occ (a :: l) k) (seq s m)) = (if (s <=? a) && (a <? s + m) then 1 else 0) + list_sum (map (fun k => occ l k) (seq s m)) /\
      list_sum (map (fun k => k * occ (a :: l) k) (seq s m)) = (if (s <=? a) && (a <? s + m) then a else 0) + list_sum (map (fun k => k * occ l k) (seq s m))).
    { induction m as [|m IHm]; intros s.
      - cbn [seq map list_sum fold_right]. destruct (Nat.leb_spec s a), (Nat.ltb_spec a (s + 0)); cbn [andb]; lia.
      - cbn [seq map]. change (list_sum (?x :: ?r)) with (x + list_sum r). destruct (IHm (S s)) as [-> ->].
        assert (occ (a :: l) s = (if s =? a then 1 else 0) + occ l s) as -> by (change (a :: l) with ([a] ++ l); rewrite count_occ_app, occ_one; auto).
        destruct (Nat.eqb_spec s a) as [Esa|N]; [try subst s|]; repeat match goal with |- context [?x <=? ?y] => destruct (Nat.leb_spec x y) | |- context [?x <? ?y] => destruct (Nat.ltb_spec x y) end; cbn [andb]; lia. }
    destruct (Q n 0) as [-> ->]. cbn [Nat.leb Nat.add andb]. destruct (Nat.ltb_spec a n); lia.
Qed.

Theorem mean_ok bs sizes : (forall n, In n sizes -> n <= bs) -> exists q, mean_wave_occupancy (map (fun n => occ sizes n) (seq 0 (bs + 1))) = Some q /\
  (q == if length sizes =? 0 then 0 else inject_Z (Z.of_nat (list_sum sizes)) / inject_Z (Z.of_nat (bs * length sizes)))%Q.
Proof.
  intros H. unfold mean_wave_occupancy. rewrite map_length, seq_length. replace (sub_ (bs + 1) 1) with (Some bs) by (unfold sub_; destruct (Nat.ltb_spec (bs + 1) 1); [lia|f_equal; lia]).
  cbn [obind]. match goal with |- context [foldM ?f _ _] => set (step := f) end.
  assert (G : forall n, n <= bs + 1 -> exists u, foldM step (0%Q, 0) (seq 0 n) = Some (u, list_sum (map (fun k => occ sizes k) (seq 0 n))) /\
    (u == inject_Z (Z.of_nat (list_sum (map (fun k => (k * occ sizes k)%nat) (seq 0 n)))))%Q).
  { induction n as [|n IH]; intros Hn; [exists 0%Q; split; reflexivity|]. destruct IH as [u [E U]]; [lia|].
    rewrite seq_S, foldM_app, E. cbn [obind foldM Nat.add]. unfold step. fold (table (bs + 1) (fun k => occ sizes k)). rewrite table_rd by lia. cbn [obind].
    eexists. split; [rewrite map_app, list_sum_app; cbn; rewrite Nat.add_0_r; reflexivity|].
    rewrite map_app, list_sum_app, U. cbn [map list_sum fold_right]. rewrite Nat.add_0_r, <- inject_Z_plus. rewrite <- Nat2Z.inj_add. reflexivity. }
  destruct (G (bs + 1) (le_n _)) as [u [E U]]. rewrite E. cbn [obind fst snd].
  destruct (occ_sum (bs + 1) sizes) as [S1 S2]; [intros n Hn; apply H in Hn; lia|]. rewrite S1, S2 in *.
  destruct (length sizes =? 0); eexists; (split; [reflexivity|]); [reflexivity|]. rewrite U. reflexivity.
Qed.

(** * All ranks *)

Lemma other_ranks {A} (a b : A) m : forall s, map (fun rank => if rank =? 0 then a else b) (seq (S s) m) = repeat b m.
Proof. induction m as [|m IH]; intros s; cbn [seq map repeat Nat.eqb]; auto. rewrite IH. auto. Qed.

Theorem global_ok locals n : locals <> [] -> (forall l, In l locals -> length l = n) ->
  exists sums, global_wave_occupancy_counts locals = Some (sums :: repeat [] (length locals - 1)) /\ length sums = n /\
    forall i, i < n -> nth i sums 0 = list_sum (map (fun l => nth i l 0) locals).
Proof.
  intros N H. exists (map (fun i => list_sum (map (fun l => nth i l 0) locals)) (seq 0 n)). split; [|split].
  - unfold global_wave_occupancy_counts. destruct locals as [|l0 ls] eqn:EL; [congruence|]. cbn [rd nth_error obind]. unfold rd at 1. cbn [nth_error obind]. rewrite <- EL in *.
    rewrite (H l0) by (rewrite EL; cbn; auto). replace (forallb _ locals) with true.
    2: { symmetry. apply forallb_forall. intros l Hl. apply Nat.eqb_eq. auto. }
    cbn [assert obind]. rewrite (mapM_some _ (fun i => list_sum (map (fun l => nth i l 0) locals))).
    + cbn [obind]. assert (length locals = S (length ls)) as -> by (rewrite EL; auto). cbn [seq map Nat.eqb]. rewrite other_ranks. do 3 f_equal. lia.
    + intros i Hi. apply in_seq in Hi. rewrite (mapM_some _ (fun l => nth i l 0)); [auto|]. intros l Hl. unfold rd. apply nth_error_nth'. rewrite (H l Hl). lia.
  - rewrite map_length, seq_length. auto.
  - intros i Hi. erewrite nth_error_nth; [reflexivity|]. rewrite nth_error_map_seq. destruct (Nat.ltb_spec i n); [auto|lia].
Qed.
