(** Proofs about the mesh hierarchy: index conversions and neighbours. *)
From Coq Require Import List Arith ZArith QArith Qabs Bool Lia Permutation.
Import ListNotations.
From Verif Require Import Base Mesh_Model Mesh_Spec.
Open Scope Z_scope.

(** ** Mixed radix numbers *)

Fixpoint enc (ws ts : list Z) : Z :=
  match ws, ts with
  | w :: ws', t :: ts' => t + w * enc ws' ts'
  | _, _ => 0
  end.
Fixpoint dec (ws : list Z) (x : Z) : list Z :=
  match ws with
  | [] => []
  | w :: ws' => x mod w :: dec ws' (x / w)
  end.

Lemma enc_app ws ts ws' ts' : length ws = length ts ->
  enc (ws ++ ws') (ts ++ ts') = enc ws ts + zprod ws * enc ws' ts'.
Proof.
  revert ts; induction ws as [|w ws IH]; intros [|t ts] L; cbn in L; try discriminate.
  - cbn [app enc]. unfold zprod; cbn [fold_right]. ring.
  - cbn [app enc]. rewrite IH by lia. unfold zprod; cbn [fold_right]. ring.
Qed.

Lemma zprod_app l1 l2 : zprod (l1 ++ l2) = zprod l1 * zprod l2.
Proof. induction l1 as [|a l IH]; unfold zprod in *; cbn [app fold_right]; [ring|rewrite IH; ring]. Qed.

Lemma zprod_pos ws : Forall (fun d => 0 < d) ws -> 0 < zprod ws.
Proof. induction 1; unfold zprod in *; cbn [fold_right]; nia. Qed.

Lemma firstn_snoc {A} (l : list A) k x : nth_error l k = Some x -> firstn (S k) l = firstn k l ++ [x].
Proof.
  revert k; induction l as [|a l IH]; intros [|k] H; cbn in H; try discriminate.
  - injection H as <-. reflexivity.
  - cbn [firstn app]. f_equal. apply IH, H.
Qed.

Lemma fold_enc width ws ts k : (forall i, (i < length ws)%nat -> width i = nth_error ws i) ->
  (k <= length ws)%nat -> (k <= length ts)%nat -> forall acc,
  foldM (fun index dimx => w <- width dimx ;; t <- rd ts dimx ;; Some (index * w + t)) acc (rev (seq 0 k))
  = Some (enc (firstn k ws) (firstn k ts) + zprod (firstn k ws) * acc).
Proof.
  intros Hw; induction k as [|k IH]; intros L1 L2 acc.
  - cbn [seq rev foldM firstn enc]. unfold zprod; cbn [fold_right]. f_equal; ring.
  - rewrite seq_S, rev_app_distr. cbn [rev app plus foldM].
    destruct (nth_error_lt_some ws k) as [w Ew]; [lia|]. destruct (nth_error_lt_some ts k) as [t Et]; [lia|].
    rewrite Hw, Ew by lia. unfold rd at 1. rewrite Et. cbn [obind]. rewrite IH by lia.
    rewrite (firstn_snoc _ _ _ Ew), (firstn_snoc _ _ _ Et), enc_app, zprod_app by (rewrite !firstn_length; lia).
    cbn [enc]. f_equal. change (zprod [w]) with (w * 1). ring.
Qed.

Lemma tuple_to_linear_enc width ws ts : ws <> [] -> (forall i, (i < length ws)%nat -> width i = nth_error ws i) ->
  (length ws <= length ts)%nat ->
  tuple_to_linear width (length ws) ts = Some (enc ws (firstn (length ws) ts)).
Proof.
  intros N Hw L. unfold tuple_to_linear. destruct (length ws) as [|k] eqn:E.
  - destruct ws; [congruence|discriminate].
  - destruct (nth_error_lt_some ts k) as [t Et]; [lia|]. destruct (nth_error_lt_some ws k) as [w Ew]; [lia|].
    unfold rd at 1; rewrite Et; cbn [obind]. rewrite (fold_enc width ws ts k) by (try (rewrite E; exact Hw); lia).
    f_equal. rewrite <- (firstn_all ws) at 3. rewrite E, (firstn_snoc _ _ _ Ew), (firstn_snoc _ _ _ Et), enc_app by (rewrite !firstn_length; lia).
    cbn [enc]. ring.
Qed.

Lemma fold_dec width ws : Forall (fun d => 0 < d) ws -> forall a x acc,
  (forall i, (i < length ws)%nat -> width (a + i)%nat = nth_error ws i) -> 0 <= x ->
  foldM (fun st dimx => w <- width dimx ;; _ <- assert (negb (w =? 0)) ;; Some (Z.quot (fst st) w, snd st ++ [Z.rem (fst st) w]))
    (x, acc) (seq a (length ws)) = Some (x / zprod ws, acc ++ dec ws x).
Proof.
  induction 1 as [|w ws Hpos F IH]; intros a x acc Hw Hx.
  - cbn [seq length foldM dec]. unfold zprod; cbn [fold_right]. rewrite Z.div_1_r, app_nil_r. reflexivity.
  - cbn [seq length foldM]. specialize (Hw 0%nat) as H0. rewrite Nat.add_0_r in H0. rewrite H0 by (cbn; lia).
    cbn [nth_error obind]. destruct (Z.eqb_spec w 0); [lia|]. cbn [negb assert obind fst snd].
    rewrite Z.quot_div_nonneg, Z.rem_mod_nonneg by lia.
    rewrite IH.
    + f_equal. f_equal.
      * rewrite Z.div_div by (try (pose proof (zprod_pos ws F)); lia). reflexivity.
      * rewrite <- app_assoc. reflexivity.
    + intros i Hi. replace (S a + i)%nat with (a + S i)%nat by lia. rewrite Hw by (cbn; lia). reflexivity.
    + apply Z.div_pos; lia.
Qed.

Lemma linear_to_tuple_dec width ws x : Forall (fun d => 0 < d) ws ->
  (forall i, (i < length ws)%nat -> width i = nth_error ws i) -> 0 <= x ->
  linear_to_tuple width (length ws) x = Some (dec ws x).
Proof.
  intros F Hw Hx. unfold linear_to_tuple. rewrite (fold_dec width ws F 0 x []) by assumption. reflexivity.
Qed.

Lemma enc_dec ws : Forall (fun d => 0 < d) ws -> forall x, 0 <= x < zprod ws -> enc ws (dec ws x) = x.
Proof.
  induction 1 as [|w ws Hpos F IH]; intros x Hx; cbn [enc dec].
  - unfold zprod in Hx; cbn [fold_right] in Hx. lia.
  - change (zprod (w :: ws)) with (w * zprod ws) in Hx. rewrite IH.
    + rewrite (Z.div_mod x w) at 3 by lia. ring.
    + split; [apply Z.div_pos; lia|]. apply Z.div_lt_upper_bound; lia.
Qed.
Lemma dec_box ws : Forall (fun d => 0 < d) ws -> forall x, in_box ws (dec ws x).
Proof.
  induction 1 as [|w ws Hpos F IH]; intros x; cbn [dec]; [constructor|].
  constructor; [apply Z.mod_pos_bound; lia|apply IH].
Qed.
Lemma enc_bounds ws ts : in_box ws ts -> 0 <= enc ws ts < zprod ws.
Proof.
  induction 1 as [|w t ws ts H F IH]; cbn [enc]; [unfold zprod; cbn [fold_right]; lia|].
  change (zprod (w :: ws)) with (w * zprod ws). nia.
Qed.
Lemma dec_enc ws ts : in_box ws ts -> dec ws (enc ws ts) = ts.
Proof.
  induction 1 as [|w t ws ts H F IH]; cbn [enc dec]; [reflexivity|].
  f_equal.
  - rewrite Z.mul_comm, Z.mod_add by lia. apply Z.mod_small; lia.
  - rewrite Z.mul_comm, Z.div_add by lia. rewrite Z.div_small by lia. cbn [Z.add]. exact IH.
Qed.
Lemma enc_inj ws t1 t2 : in_box ws t1 -> in_box ws t2 -> enc ws t1 = enc ws t2 -> t1 = t2.
Proof. intros A B E. rewrite <- (dec_enc _ _ A), <- (dec_enc _ _ B), E. reflexivity. Qed.

Lemma in_box_length ws ts : in_box ws ts -> length ws = length ts.
Proof. induction 1; cbn; lia. Qed.
Lemma in_box_pos ws ts : in_box ws ts -> Forall (fun d => 0 < d) ws.
Proof. induction 1; constructor; auto; lia. Qed.

Lemma fold_sum_map_mul {A} (f : A -> Z) w l :
  fold_right Z.add 0 (map (fun i => w * f i) l) = w * fold_right Z.add 0 (map f l).
Proof. induction l as [|a l IH]; cbn [map fold_right]; [ring|rewrite IH; ring]. Qed.

Lemma linear_index_enc ws : forall ts, length ws = length ts -> linear_index ws ts = enc ws ts.
Proof.
  unfold linear_index. induction ws as [|w ws IH]; intros [|t ts] L; cbn in L; try discriminate; [reflexivity|].
  cbn [length seq map fold_right enc nth firstn]. rewrite <- seq_shift, map_map.
  rewrite <- IH by lia. rewrite <- fold_sum_map_mul.
  unfold zprod at 1; cbn [fold_right]. f_equal; [ring|].
  f_equal. apply map_ext. intros i. cbn [nth firstn]. unfold zprod; cbn [fold_right]. ring.
Qed.

(** ** The conversions of the hierarchy *)

Lemma mesh_widths m : mesh_ok m ->
  length (coarse_widths m) = ndim m /\ length (fine_widths m) = ndim m /\
  Forall (fun d => 0 < d) (coarse_widths m) /\ Forall (fun d => 0 < d) (fine_widths m) /\
  coarse_widths m <> [] /\ fine_widths m <> [] /\
  (forall i, (i < ndim m)%nat -> rd (dims m) i = nth_error (coarse_widths m) i) /\
  (forall i, (i < ndim m)%nat -> Some (ncells_dim_fine m) = nth_error (fine_widths m) i) /\
  ncells_fine m = zprod (fine_widths m) /\ 0 < ncells_dim_fine m.
Proof.
  intros ((N & L) & _ & F & _).
  assert (L1 : length (coarse_widths m) = ndim m) by (unfold coarse_widths; rewrite firstn_length; lia).
  assert (L2 : length (fine_widths m) = ndim m) by (unfold fine_widths; apply repeat_length).
  assert (P : 0 < ncells_dim_fine m) by (unfold ncells_dim_fine; apply Z.pow_pos_nonneg; lia).
  repeat split; auto.
  - unfold fine_widths. apply Forall_forall. intros x Hx. apply repeat_spec in Hx. subst; exact P.
  - intros E; rewrite E in L1; cbn in L1; lia.
  - intros E; rewrite E in L2; cbn in L2; lia.
  - intros i Hi. unfold rd, coarse_widths. clear -Hi. revert i Hi. generalize (dims m). induction (ndim m) as [|n IH]; intros l i Hi; [lia|].
    destruct l as [|a l]; [destruct i; reflexivity|]. destruct i; [reflexivity|]. cbn [firstn nth_error]. apply IH; lia.
  - intros i Hi. unfold fine_widths. symmetry. apply nth_error_repeat, Hi.
  - unfold ncells_fine, fine_widths. change (2 ^ Z.of_nat (order m)) with (ncells_dim_fine m).
    clear. induction (ndim m) as [|n IH]; [reflexivity|].
    rewrite Nat2Z.inj_succ, Z.pow_succ_r by lia. cbn [repeat]. change (zprod (ncells_dim_fine m :: repeat (ncells_dim_fine m) n)) with (ncells_dim_fine m * zprod (repeat (ncells_dim_fine m) n)).
    rewrite IH; reflexivity.
Qed.

Lemma ncells_coarse_correct m : mesh_ok m -> ncells_coarse m = Some (zprod (coarse_widths m)).
Proof.
  intros H. destruct (mesh_widths m H) as (L1 & _ & _ & _ & _ & _ & W & _).
  unfold ncells_coarse. destruct H as ((_ & L) & _).
  assert (G : forall k, (k <= ndim m)%nat ->
    foldM (fun v ex => d <- rd (dims m) ex ;; Some (v * d)) 1 (seq 0 k) = Some (zprod (firstn k (coarse_widths m)))).
  { induction k as [|k IH]; intros Hk; [reflexivity|].
    rewrite seq_S, foldM_app, IH by lia. cbn [obind foldM plus].
    destruct (nth_error_lt_some (coarse_widths m) k) as [w Ew]; [lia|].
    rewrite W, Ew by lia. cbn [obind]. rewrite (firstn_snoc _ _ _ Ew), zprod_app. f_equal.
    change (zprod [w]) with (w * 1). ring. }
  rewrite G by lia. rewrite <- L1, firstn_all. reflexivity.
Qed.
Lemma ncells_global_correct m : mesh_ok m -> ncells_global m = Some (ncells m).
Proof.
  intros H. unfold ncells_global. rewrite ncells_coarse_correct by exact H. cbn [obind].
  destruct (mesh_widths m H) as (_ & _ & _ & _ & _ & _ & _ & _ & E & _). rewrite E. reflexivity.
Qed.

Lemma construct_ok m : construct m = Some m <-> mesh_ok m.
Proof.
  unfold construct, mesh_ok. split.
  - destruct (Nat.ltb_spec 0 (ndim m)) as [A|A]; [|discriminate]. cbn [assert obind].
    destruct (Nat.leb_spec (ndim m) (length (dims m))) as [B|B]; [|discriminate]. cbn [assert obind].
    destruct (Nat.leb_spec (ndim m) (length (origin m))) as [C|C]; [|discriminate]. cbn [assert obind].
    destruct (mapM (rd (dims m)) (seq 0 (ndim m))) as [ds|] eqn:E; [|discriminate]. cbn [obind].
    destruct (forallb (fun d => 0 <? d) ds) eqn:F; [|discriminate]. cbn [assert obind].
    destruct (Qle_bool (extent m) 0) eqn:Q; [discriminate|]. intros _.
    split; [lia|]. split; [lia|]. split.
    + replace (coarse_widths m) with ds.
      * apply Forall_forall. intros x Hx. rewrite forallb_forall in F. apply Z.ltb_lt, F, Hx.
      * unfold coarse_widths. symmetry.
        assert (G : forall (l : list Z) n, (n <= length l)%nat -> mapM (rd l) (seq 0 n) = Some (firstn n l)).
        { clear. intros l. induction n as [|n IH]; intros L; [reflexivity|].
          rewrite seq_S. destruct (nth_error_lt_some l n) as [x Ex]; [lia|]. rewrite (firstn_snoc _ _ _ Ex).
          assert (H : forall l1 l2 r1 r2, mapM (rd l) l1 = Some r1 -> mapM (rd l) l2 = Some r2 -> mapM (rd l) (l1 ++ l2) = Some (r1 ++ r2)).
          { clear. induction l1 as [|a l1 IH]; intros l2 r1 r2 H1 H2; cbn in H1 |- *; [injection H1 as <-; exact H2|].
            destruct (rd l a); [|discriminate]. cbn [obind] in *. destruct (mapM (rd l) l1) eqn:E; [|discriminate]. cbn [obind] in *.
            injection H1 as <-. rewrite (IH l2 l0 r2 eq_refl H2). reflexivity. }
          apply H; [apply IH; lia|]. cbn [mapM plus]. unfold rd. rewrite Ex. reflexivity. }
        rewrite G in E by lia. injection E as E. congruence.
    + destruct (Qlt_le_dec 0 (extent m)) as [|G]; [assumption|]. apply Qle_bool_iff in G. congruence.
  - intros ((A & B) & C & F & Q).
    destruct (Nat.ltb_spec 0 (ndim m)); [|lia]. cbn [assert obind].
    destruct (Nat.leb_spec (ndim m) (length (dims m))); [|lia]. cbn [assert obind].
    destruct (Nat.leb_spec (ndim m) (length (origin m))); [|lia]. cbn [assert obind].
    assert (E : mapM (rd (dims m)) (seq 0 (ndim m)) = Some (coarse_widths m)).
    { unfold coarse_widths. clear -B. generalize dependent (dims m). induction (ndim m) as [|n IH]; intros l L; [reflexivity|].
      destruct l as [|a l]; [cbn in L; lia|]. cbn [seq mapM rd nth_error obind firstn].
      assert (G : forall k, mapM (rd (a :: l)) (seq 1 k) = mapM (rd l) (seq 0 k)).
      { intros k. rewrite <- seq_shift. generalize (seq 0 k). clear. induction l0 as [|x t IH]; [reflexivity|].
        cbn [map mapM]. rewrite IH. reflexivity. }
      rewrite G, IH by (cbn in L; lia). reflexivity. }
    rewrite E. cbn [obind].
    assert (F' : forallb (fun d => 0 <? d) (coarse_widths m) = true).
    { apply forallb_forall. rewrite Forall_forall in F. intros x Hx. apply Z.ltb_lt, F, Hx. }
    rewrite F'. cbn [assert obind]. destruct (Qle_bool (extent m) 0) eqn:G; [|reflexivity].
    apply Qle_bool_iff in G. exfalso. apply (Qlt_not_le _ _ Q G).
Qed.

Lemma cell_tuple_parts m t : mesh_ok m -> cell_tuple m t ->
  in_box (coarse_widths m) (firstn (ndim m) t) /\ in_box (fine_widths m) (skipn (ndim m) t) /\ length t = (2 * ndim m)%nat.
Proof.
  intros H (tc & tf & -> & Bc & Bf). destruct (mesh_widths m H) as (L1 & L2 & _).
  pose proof (in_box_length _ _ Bc). pose proof (in_box_length _ _ Bf).
  rewrite firstn_app, skipn_app, firstn_all2, skipn_all2 by lia.
  replace (ndim m - length tc)%nat with 0%nat by lia. cbn [firstn skipn app]. rewrite app_nil_r, app_length.
  repeat split; auto; lia.
Qed.

Lemma to_linear_correct m t : mesh_ok m -> cell_tuple m t ->
  tuple_to_linear_global m t = Some (cell_index m t) /\ 0 <= cell_index m t < ncells m /\
  linear_to_tuple_global m (cell_index m t) = Some t.
Proof.
  intros H C. destruct (cell_tuple_parts m t H C) as (Bc & Bf & L).
  destruct (mesh_widths m H) as (L1 & L2 & F1 & F2 & N1 & N2 & W1 & W2 & E & P).
  assert (E1 : cell_index m t = enc (coarse_widths m) (firstn (ndim m) t) * zprod (fine_widths m) + enc (fine_widths m) (skipn (ndim m) t)).
  { unfold cell_index. rewrite !linear_index_enc by (rewrite ?firstn_length, ?skipn_length; lia). reflexivity. }
  pose proof (enc_bounds _ _ Bc) as B1. pose proof (enc_bounds _ _ Bf) as B2.
  split; [|split].
  - unfold tuple_to_linear_global, tuple_to_linear_coarse, tuple_to_linear_fine.
    rewrite <- L1 at 1. rewrite (tuple_to_linear_enc (rd (dims m)) (coarse_widths m) t N1) by (try (rewrite L1; exact W1); lia).
    cbn [obind]. rewrite <- L2 at 1. rewrite (tuple_to_linear_enc (fun _ => Some (ncells_dim_fine m)) (fine_widths m) (skipn (ndim m) t) N2)
      by (try (rewrite L2; exact W2); rewrite ?skipn_length; lia).
    cbn [obind]. rewrite L1, L2, E, E1. f_equal. f_equal. f_equal.
    apply firstn_all2. rewrite skipn_length; lia.
  - rewrite E1. unfold ncells. nia.
  - unfold linear_to_tuple_global, linear_to_tuple_coarse, linear_to_tuple_fine.
    rewrite E, E1. rewrite Z.quot_div_nonneg, Z.rem_mod_nonneg by nia.
    rewrite Z.div_add_l by lia. rewrite Z.div_small by lia. rewrite Z.add_0_r.
    rewrite Z.add_comm, Z.mod_add by lia. rewrite Z.mod_small by lia.
    rewrite <- L1 at 1. rewrite (linear_to_tuple_dec _ (coarse_widths m)) by (try (rewrite L1; exact W1); auto; lia). cbn [obind].
    rewrite <- L2 at 1. rewrite (linear_to_tuple_dec (fun _ => Some (ncells_dim_fine m)) (fine_widths m)) by (try (rewrite L2; exact W2); auto; lia). cbn [obind].
    rewrite !dec_enc by assumption. f_equal. apply firstn_skipn.
Qed.

Lemma to_tuple_correct m x : mesh_ok m -> 0 <= x < ncells m ->
  exists t, linear_to_tuple_global m x = Some t /\ cell_tuple m t /\ cell_index m t = x /\ tuple_to_linear_global m t = Some x.
Proof.
  intros H Hx. destruct (mesh_widths m H) as (L1 & L2 & F1 & F2 & N1 & N2 & W1 & W2 & E & P).
  pose proof (zprod_pos _ F1) as P1. pose proof (zprod_pos _ F2) as P2. unfold ncells in Hx.
  set (F := zprod (fine_widths m)) in *.
  set (t := dec (coarse_widths m) (x / F) ++ dec (fine_widths m) (x mod F)).
  assert (C : cell_tuple m t) by (exists (dec (coarse_widths m) (x / F)), (dec (fine_widths m) (x mod F)); repeat split; apply dec_box; auto).
  assert (B1 : 0 <= x / F < zprod (coarse_widths m)) by (split; [apply Z.div_pos; lia|apply Z.div_lt_upper_bound; lia]).
  assert (B2 : 0 <= x mod F < F) by (apply Z.mod_pos_bound; lia).
  assert (I : cell_index m t = x).
  { unfold cell_index, t. pose proof (in_box_length _ _ (dec_box _ F1 (x / F))) as K1. pose proof (in_box_length _ _ (dec_box _ F2 (x mod F))) as K2.
    rewrite firstn_app, skipn_app, firstn_all2, skipn_all2 by lia.
    replace (ndim m - length (dec (coarse_widths m) (x / F)))%nat with 0%nat by lia. cbn [firstn skipn app]. rewrite app_nil_r.
    rewrite !linear_index_enc, !enc_dec by (auto; lia). fold F. rewrite (Z.div_mod x F) at 3 by lia. ring. }
  destruct (to_linear_correct m t H C) as (A1 & A2 & A3). rewrite I in *. eauto.
Qed.

Lemma index_inj m t1 t2 : mesh_ok m -> cell_tuple m t1 -> cell_tuple m t2 -> cell_index m t1 = cell_index m t2 -> t1 = t2.
Proof.
  intros H C1 C2 E. destruct (to_linear_correct m t1 H C1) as (_ & _ & A). destruct (to_linear_correct m t2 H C2) as (_ & _ & B). congruence.
Qed.
