(** Proofs about loops with a reduction: the work group. *)
From Coq Require Import List Arith Lia ZArith Bool Permutation.
Import ListNotations.
From Verif Require Append_Proofs.
From Verif Require Import Base Kernel Scan_Model Compress_Model Group_Model Loop_Model Loop_Spec SubGroup_Model SubGroup_Spec
  CellConst_Model CellConst_Spec CellConst_Proofs Reduce_Model Reduce_Spec Reduce_Proofs World_Proofs SubGroupKernel_Proofs.

Lemma pow2_is n : is_power_of_two n = true -> exists e, n = 2 ^ e.
Proof.
  unfold is_power_of_two. destruct (Nat.ltb_spec 0 n) as [Hn|]; [|discriminate]. intros H. apply Nat.eqb_eq in H.
  exists (Nat.log2 n). destruct (Nat.log2_spec n Hn) as [L U]. destruct (Nat.eq_dec n (2 ^ Nat.log2 n)) as [E|E]; [exact E|exfalso].
  assert (Hl : Nat.log2 (n - 1) = Nat.log2 n) by (apply Nat.log2_unique; [lia|split; lia]).
  assert (B : Nat.testbit (Nat.land n (n - 1)) (Nat.log2 n) = true).
  { rewrite Nat.land_spec. rewrite Nat.bit_log2 by lia. rewrite <- Hl at 1. rewrite Nat.bit_log2; [reflexivity|]. pose proof (Nat.pow_nonzero 2 (Nat.log2 n)). lia. }
  rewrite H, Nat.bits_0 in B. discriminate.
Qed.

Lemma is_pow2 e : is_power_of_two (2 ^ e) = true.
Proof.
  unfold is_power_of_two. pose proof (Nat.pow_nonzero 2 e ltac:(lia)) as Hp. destruct (Nat.ltb_spec 0 (2 ^ e)); [|lia].
  apply Nat.eqb_eq. apply Nat.bits_inj. intros i. rewrite Nat.land_spec, Nat.bits_0. rewrite Nat.pow2_bits_eqb.
  destruct (Nat.eqb_spec e i) as [<-|]; [|reflexivity]. cbn [andb]. rewrite Nat.testbit_eqb, Nat.div_small by lia. reflexivity.
Qed.

Lemma get_num_local_work_items_ok mem off bytes default r : get_num_local_work_items mem off bytes default = Some r -> 1 <= bytes ->
  1 <= r <= default /\ r * bytes + off <= mem /\ (is_power_of_two default = true -> is_power_of_two r = true).
Proof.
  unfold get_num_local_work_items, assert, sub_. intros H Hb. destruct (Nat.leb_spec bytes 0); [lia|].
  destruct (_ <? _); [discriminate|]. cbn [obind] in H. destruct (negb _); [|discriminate]. cbn [obind] in H.
  destruct (Nat.ltb_spec 0 (Nat.min default (2 ^ Nat.log2 ((mem - off) / bytes)))) as [Hp|]; [|discriminate]. cbn [obind] in H.
  destruct (Nat.leb_spec (Nat.min default (2 ^ Nat.log2 ((mem - off) / bytes)) * bytes + off) mem); [|discriminate]. cbn [obind] in H. injection H as <-.
  split; [lia|]. split; [assumption|]. intros Hd. destruct (Nat.min_spec default (2 ^ Nat.log2 ((mem - off) / bytes))) as [[_ ->]|[_ ->]]; auto using is_pow2.
Qed.

Section Group.
  Context {T : Type} {op : T -> T -> T} {ident : T} {ok : T -> Prop} (M : reducible op ident ok).
  Notation total := (@total T op ident).

  (** Updates by one value each, in any order. *)
  Lemma plain_updates {A} (pos : A -> nat) (val : A -> T) sched : forall m, (forall a, In a sched -> pos a < length m) ->
    exists r, foldM (fun m a => current <- rd m (pos a) ;; upd m (pos a) (op current (val a))) m sched = Some r /\ length r = length m /\
      forall j x, nth_error m j = Some x -> nth_error r j = Some (combined op x (map val (filter (fun a => pos a =? j) sched))).
  Proof.
    induction sched as [|a sched IH]; intros m H; cbn [foldM].
    - exists m. split; [reflexivity|]. split; [reflexivity|]. intros j x Hj. exact Hj.
    - assert (Ha : pos a < length m) by (apply H; left; reflexivity). destruct (nth_error_lt_some m (pos a) Ha) as [cur Hc]. unfold rd at 1. rewrite Hc. cbn [obind].
      destruct (upd_some m (pos a) (op cur (val a)) Ha) as [m1 U]. rewrite U. cbn [obind].
      destruct (IH m1) as (r & E & L & N). { intros b Hb. rewrite (upd_length _ _ _ _ U). apply H. right. exact Hb. }
      exists r. split; [exact E|]. split; [rewrite L; apply (upd_length _ _ _ _ U)|]. intros j x Hj. cbn [filter].
      destruct (Nat.eqb_spec (pos a) j) as [Q|Q].
      + subst j. rewrite Hc in Hj. injection Hj as ->. rewrite (N _ _ (upd_nth_eq _ _ _ _ U)). reflexivity.
      + apply N. rewrite (upd_nth_neq _ _ _ _ j U) by congruence. exact Hj.
  Qed.

  Lemma total_map2 {A} (f g : A -> T) l : (forall a, In a l -> ok (f a) /\ ok (g a)) ->
    total (map (fun a => op (f a) (g a)) l) = op (total (map f l)) (total (map g l)).
  Proof.
    induction l as [|a l IH]; intros H; cbn [map]; [symmetry; apply (red_neutral _ _ _ M); apply (red_ident _ _ _ M)|].
    assert (Hf : Forall ok (map f l)) by (apply Forall_forall; intros v Hv; apply in_map_iff in Hv; destruct Hv as (b & <- & Hb); apply H; right; exact Hb).
    assert (Hg : Forall ok (map g l)) by (apply Forall_forall; intros v Hv; apply in_map_iff in Hv; destruct Hv as (b & <- & Hb); apply H; right; exact Hb).
    destruct (H a) as [Ha Ha']; [left; reflexivity|]. cbn [Reduce_Proofs.total fold_right]. fold (total (map f l)) (total (map g l)) (total (map (fun a => op (f a) (g a)) l)).
    rewrite IH by (intros; apply H; right; assumption). pose proof (total_ok M _ Hf) as Tf. pose proof (total_ok M _ Hg) as Tg.
    pose proof (red_closed _ _ _ M) as C. rewrite <- !(red_assoc _ _ _ M) by auto. f_equal.
    rewrite !(red_assoc _ _ _ M) by auto. f_equal. apply (red_comm _ _ _ M); auto.
  Qed.

  Context (d : device) (Hd : device_ok d) (nrow ncol range : nat).

  Lemma init_ok k la : nrow * ncol * range <= length la ->
    exists r, reduction_initialise ident d nrow ncol range k la = Some r /\ length r = length la /\
      forall j, j < nrow * ncol * range -> nth_error r j = Some ident.
  Proof.
    intros H. unfold reduction_initialise. set (E := nrow * ncol) in *.
    destruct (foldM_ind (fun la li => foldM (fun la ix => upd la (ix * range + li) ident) la (seq 0 E))
      (fun pre r => length r = length la /\ forall ix li, ix < E -> In li pre -> nth_error r (ix * range + li) = Some ident)
      (ord d k (seq 0 range)) la) as (r & F & L & G).
    - split; [reflexivity|]. intros ix li _ [].
    - intros pre li post r Es [L G]. assert (Hli : li < range).
      { assert (In li (ord d k (seq 0 range))) by (rewrite Es; apply in_or_app; right; left; reflexivity). apply (in_ord d) in H0; [|exact Hd]. apply in_seq in H0. lia. }
      destruct (foldM_upd (fun la ix => upd la (ix * range + li) ident) (fun ix => ix * range + li) (fun _ => ident) (seq 0 E) r) as (r' & F & L' & A & B); auto.
      { intros ix Hix. apply in_seq in Hix. rewrite L. nia. }
      exists r'. split; [exact F|]. split; [congruence|]. intros ix li' Hix Hin. apply in_app_or in Hin. destruct Hin as [Hin|[<-|[]]].
      + destruct (in_dec Nat.eq_dec (ix * range + li') (map (fun ix => ix * range + li) (seq 0 E))) as [I|I].
        * apply in_map_iff in I. destruct I as (ix' & Eq & Hix'). rewrite <- Eq. apply A. exact Hix'.
        * rewrite B; [auto|]. intros a Ha Q. apply I. apply in_map_iff. exists a. auto.
      + apply A. apply in_seq. lia.
    - exists r. split; [exact F|]. split; [exact L|]. intros j Hj. assert (range <> 0) by nia.
      pose proof (Nat.div_mod j range ltac:(assumption)). pose proof (Nat.mod_upper_bound j range ltac:(assumption)).
      replace j with (j / range * range + j mod range) by lia. apply G; [apply Nat.div_lt_upper_bound; lia|]. apply (in_ord d); [exact Hd|]. apply in_seq. lia.
  Qed.

  (** One step of the tree. *)
  Lemma tree_step_ok k offset la s (v : nat -> T) : 2 * s <= range -> offset + range <= length la ->
    (forall i, i < 2 * s -> nth_error la (offset + i) = Some (v i)) ->
    exists r, tree_step op d range k offset la s = Some r /\ length r = length la /\
      (forall i, i < s -> nth_error r (offset + i) = Some (op (v i) (v (i + s)))) /\
      (forall j, j < offset \/ offset + s <= j -> nth_error r j = nth_error la j).
  Proof.
    intros Hs Hl Hv. unfold tree_step.
    assert (ND : NoDup (ord d k (seq 0 range))) by (apply (Permutation_NoDup (l := seq 0 range)); [apply Permutation_sym; apply Hd|apply seq_NoDup]).
    destruct (foldM_ind (fun la li => if li <? s then
                            current <- rd la (li + offset) ;; other <- rd la (li + offset + s) ;;
                            upd la (li + offset) (op current other)
                          else Some la)
      (fun pre r => length r = length la /\ (forall i, i < s -> In i pre -> nth_error r (offset + i) = Some (op (v i) (v (i + s)))) /\
         (forall i, i < s -> ~ In i pre -> nth_error r (offset + i) = Some (v i)) /\
         (forall j, j < offset \/ offset + s <= j -> nth_error r j = nth_error la j))
      (ord d k (seq 0 range)) la) as (r & F & L & A & _ & C).
    - split; [reflexivity|]. split; [intros i _ []|]. split; [intros; apply Hv; lia|reflexivity].
    - intros pre li post r Es (L & A & B & C). destruct (Nat.ltb_spec li s) as [Hli|Hli].
      + assert (Hnot : ~ In li pre). { rewrite Es in ND. apply NoDup_remove_2 in ND. intros X. apply ND. apply in_or_app. left. exact X. }
        unfold rd. rewrite (Nat.add_comm li offset), (B li Hli Hnot). cbn [obind]. rewrite C by lia.
        replace (offset + li + s) with (offset + (li + s)) by lia. rewrite Hv by lia. cbn [obind].
        destruct (upd_some r (offset + li) (op (v li) (v (li + s)))) as [r' U]; [lia|]. rewrite U. exists r'. split; [reflexivity|].
        split; [rewrite (upd_length _ _ _ _ U); exact L|]. split; [|split].
        * intros i Hi Hin. destruct (Nat.eq_dec i li) as [->|Hn]; [apply (upd_nth_eq _ _ _ _ U)|]. rewrite (upd_nth_neq _ _ _ _ _ U) by lia.
          apply A; [exact Hi|]. apply in_app_or in Hin. destruct Hin as [Hin|[Q|[]]]; [exact Hin|congruence].
        * intros i Hi Hin. rewrite in_app_iff in Hin. rewrite (upd_nth_neq _ _ _ _ _ U); [apply B; [exact Hi|tauto]|]. intros Q. apply Hin. right. left. lia.
        * intros j Hj. rewrite (upd_nth_neq _ _ _ _ _ U) by lia. apply C. exact Hj.
      + exists r. split; [reflexivity|]. split; [exact L|]. split; [|split; [|exact C]].
        * intros i Hi Hin. apply A; [exact Hi|]. apply in_app_or in Hin. destruct Hin as [Hin|[Q|[]]]; [exact Hin|lia].
        * intros i Hi Hin. apply B; [exact Hi|]. intros X. apply Hin. apply in_or_app. left. exact X.
    - exists r. split; [exact F|]. split; [exact L|]. split; [|exact C]. intros i Hi. apply A; [exact Hi|]. apply (in_ord d); [exact Hd|]. apply in_seq. lia.
  Qed.

  Lemma tree_ok k offset : forall e fuel la (v : nat -> T), 2 ^ e <= range -> offset + range <= length la -> e <= fuel ->
    (forall i, i < 2 ^ e -> nth_error la (offset + i) = Some (v i) /\ ok (v i)) ->
    exists r, foldM (tree_step op d range k offset) la (halvings fuel (2 ^ e / 2)) = Some r /\ length r = length la /\
      nth_error r offset = Some (total (map v (seq 0 (2 ^ e)))) /\
      (forall j, j < offset \/ offset + 2 ^ e <= j -> nth_error r j = nth_error la j).
  Proof.
    induction e as [|e IH]; intros fuel la v He Hl Hf Hv.
    - exists la. split; [destruct fuel; reflexivity|]. split; [reflexivity|]. destruct (Hv 0) as [A B]; [cbn; lia|]. rewrite Nat.add_0_r in A. split; [|reflexivity].
      rewrite A. f_equal. cbn. symmetry. apply (red_neutral _ _ _ M). exact B.
    - destruct fuel as [|fuel]; [lia|]. assert (Hh : 2 ^ S e / 2 = 2 ^ e) by (cbn [Nat.pow]; rewrite Nat.mul_comm; apply Nat.div_mul; lia).
      rewrite Hh. cbn [halvings]. pose proof (Nat.pow_nonzero 2 e ltac:(lia)). destruct (Nat.ltb_spec 0 (2 ^ e)); [|lia]. cbn [foldM].
      cbn [Nat.pow] in He, Hv. destruct (tree_step_ok k offset la (2 ^ e) v) as (la1 & E1 & L1 & A1 & C1); [lia|exact Hl|intros; apply Hv; lia|].
      rewrite E1. cbn [obind]. destruct (IH fuel la1 (fun i => op (v i) (v (i + 2 ^ e)))) as (r & E & L & A & C); [lia|lia|lia| |].
      { intros i Hi. split; [apply A1; exact Hi|]. apply (red_closed _ _ _ M); apply Hv; lia. }
      exists r. split; [exact E|]. split; [congruence|]. split.
      + rewrite A. f_equal. rewrite (total_map2 v (fun i => v (i + 2 ^ e))) by (intros i Hi; apply in_seq in Hi; split; apply Hv; lia).
        replace (2 ^ S e) with (2 ^ e + 2 ^ e) by (cbn [Nat.pow]; lia). rewrite seq_app, map_app. cbn [plus]. rewrite (total_app M).
        * f_equal. f_equal. rewrite (seq_shift_map (2 ^ e) (2 ^ e)), map_map. apply map_ext. intros i. f_equal. lia.
        * apply Forall_forall. intros t Ht. apply in_map_iff in Ht. destruct Ht as (i & <- & Hi). apply in_seq in Hi. apply Hv. lia.
        * apply Forall_forall. intros t Ht. apply in_map_iff in Ht. destruct Ht as (i & <- & Hi). apply in_seq in Hi. apply Hv. lia.
      + cbn [Nat.pow]. intros j Hj. rewrite C by lia. apply C1. lia.
  Qed.

  Lemma finalise_ok k la (v : nat -> nat -> T) : (exists e, range = 2 ^ e) -> nrow * ncol * range <= length la ->
    (forall ex i, ex < nrow * ncol -> i < range -> nth_error la (ex * range + i) = Some (v ex i) /\ ok (v ex i)) ->
    exists r, reduction_finalise op d nrow ncol range k la = Some (r, map (fun ex => (ex, total (map (v ex) (seq 0 range)))) (seq 0 (nrow * ncol))).
  Proof.
    intros [e He] Hl Hv. unfold reduction_finalise. set (E := nrow * ncol) in *.
    assert (G : forall n, n <= E -> exists r, foldM (fun '(la, out) ex =>
               let offset := ex * range in
               la' <- foldM (tree_step op d range (k + ex) offset) la (halvings range (range / 2)) ;;
               v <- rd la' offset ;; Some (la', out ++ [(ex, v)])) (la, []) (seq 0 n) =
               Some (r, map (fun ex => (ex, total (map (v ex) (seq 0 range)))) (seq 0 n)) /\ length r = length la /\
               forall j, n * range <= j -> nth_error r j = nth_error la j).
    { induction n as [|n IH]; intros Hn; [exists la; split; [reflexivity|]; split; reflexivity|].
      destruct IH as (r & F & L & C); [lia|]. rewrite seq_S, foldM_app, F. cbn [obind foldM plus].
      destruct (tree_ok (k + n) (n * range) e range r (v n)) as (r' & F' & L' & A' & C'); [lia|nia| | |].
      { rewrite He. apply Nat.lt_le_incl, Nat.pow_gt_lin_r. lia. }
      { rewrite <- He. intros i Hi. rewrite C by lia. apply Hv; [lia|exact Hi]. }
      rewrite <- He in F', A', C'. rewrite F'. cbn [obind]. unfold rd. rewrite A'. cbn [obind]. exists r'. rewrite map_app.
      split; [reflexivity|]. split; [congruence|]. intros j Hj. rewrite C' by lia. apply C. lia. }
    destruct (G E (le_n E)) as (r & F & _). exists r. exact F.
  Qed.

  (** Matrix entry of a call. *)
  Definition entry (c : @contribution T) : nat := nrow * c_col c + c_row c.
  Definition values_at (ex : nat) (calls : list (nat * contribution)) : list T :=
    map (fun c => c_value (snd c)) (filter (fun c => entry (snd c) =? ex) calls).

  Lemma filter_filter {A} (p q : A -> bool) l : filter p (filter q l) = filter (fun a => q a && p a) l.
  Proof. induction l as [|a l IH]; cbn; [reflexivity|]. destruct (q a); cbn; [destruct (p a); congruence|exact IH]. Qed.

  Lemma work_group_ok k loc init calls : (exists e, range = 2 ^ e) -> range <= loc ->
    (forall li c, In (li, c) calls -> li < range /\ c_row c < nrow /\ c_col c < ncol /\ ok (c_value c)) ->
    work_group op ident d nrow ncol range k loc init calls = Some (map (fun ex => (ex, total (values_at ex calls))) (seq 0 (nrow * ncol))).
  Proof.
    intros He Hr Hc. unfold work_group.
    destruct (init_ok k (map init (seq 0 (ncol * nrow * loc)))) as (la & E1 & L1 & A1). { rewrite map_length, seq_length, (Nat.mul_comm ncol nrow). apply Nat.mul_le_mono_l. exact Hr. }
    rewrite E1. cbn [obind]. rewrite map_length, seq_length, (Nat.mul_comm ncol nrow) in L1.
    assert (Hentry : forall li c, In (li, c) calls -> li < range /\ entry c < nrow * ncol /\ ok (c_value c)).
    { intros li c Hin. destruct (Hc li c Hin) as (A & B & C & D). split; [exact A|]. split; [|exact D]. unfold entry. apply inner_lt; assumption. }
    assert (Lin : forall a, In a (ord d (k + 1) calls) -> In a calls) by (intros a Ha; apply (in_ord d) in Ha; [exact Ha|exact Hd]).
    destruct (plain_updates (fun a : nat * contribution => entry (snd a) * range + fst a) (fun a => c_value (snd a)) (ord d (k + 1) calls) la) as (la2 & E2 & L2 & A2).
    { intros [li c] Ha. cbn [fst snd]. apply Lin in Ha. destruct (Hentry li c Ha) as (B & C & _). rewrite L1. assert (entry c * range + li < nrow * ncol * range) by nia. assert (nrow * ncol * range <= nrow * ncol * loc) by (apply Nat.mul_le_mono_l; exact Hr). lia. }
    assert (Ef : foldM (combine_call op nrow range) la (ord d (k + 1) calls) = Some la2).
    { rewrite <- E2. apply Append_Proofs.foldM_ext_in. intros m [li c] _. reflexivity. }
    rewrite Ef. cbn [obind].
    set (v := fun ex i => combined op ident (map (fun a : nat * contribution => c_value (snd a)) (filter (fun a => entry (snd a) * range + fst a =? ex * range + i) (ord d (k + 1) calls)))).
    assert (Hok : forall l, (forall a, In a l -> In a calls) -> Forall ok (map (fun a : nat * contribution => c_value (snd a)) l)).
    { intros l Hl. apply Forall_forall. intros t Ht. apply in_map_iff in Ht. destruct Ht as ([li c] & <- & Ha). apply (Hentry li c). auto. }
    assert (Hfil : forall p a, In a (filter p (ord d (k + 1) calls)) -> In a calls) by (intros p a Ha; apply filter_In in Ha; apply Lin; apply Ha).
    destruct (finalise_ok (k + 2) la2 v He) as [r F].
    { rewrite L2, L1. apply Nat.mul_le_mono_l. exact Hr. }
    { intros ex i Hex Hi. split; [|apply (combined_ok M); [apply Hok; apply Hfil|apply (red_ident _ _ _ M)]]. apply A2. apply A1. nia. }
    rewrite F. cbn [obind snd]. f_equal. apply map_ext_in. intros ex Hex. apply in_seq in Hex. f_equal.
    (* the values of the work items together are those of all calls *)
    set (sel := fun i => map (fun a : nat * contribution => c_value (snd a)) (filter (fun a => fst a =? i) (filter (fun a => entry (snd a) =? ex) (ord d (k + 1) calls)))).
    transitivity (total (map (fun i => total (sel i)) (seq 0 range))).
    { f_equal. apply map_ext_in. intros i Hi. apply in_seq in Hi. unfold v, sel. rewrite filter_filter.
      replace (filter (fun a => entry (snd a) * range + fst a =? ex * range + i) (ord d (k + 1) calls))
        with (filter (fun a => (entry (snd a) =? ex) && (fst a =? i)) (ord d (k + 1) calls)).
      - rewrite (combined_total M); [apply (neutral_l M); apply (total_ok M); apply Hok; apply Hfil|apply Hok; apply Hfil|apply (red_ident _ _ _ M)].
      - apply filter_ext_in. intros [li c] Ha. cbn [fst snd]. apply Lin in Ha. destruct (Hentry li c Ha) as (B & C & _).
        destruct (Nat.eqb_spec (entry c) ex), (Nat.eqb_spec li i), (Nat.eqb_spec (entry c * range + li) (ex * range + i)); subst; cbn [andb]; try reflexivity; exfalso; try lia; nia. }
    rewrite <- (total_flat_map M) by (intros i Hi; unfold sel; apply Hok; intros a Ha; apply filter_In in Ha; apply (Hfil _ _ (proj1 Ha))).
    apply (total_perm M).
    - unfold sel, values_at. rewrite flat_map_concat_map, <- (map_map (fun i => filter (fun a => fst a =? i) (filter (fun a => entry (snd a) =? ex) (ord d (k + 1) calls))) (map (fun a => c_value (snd a)))), <- concat_map.
      apply Permutation_map. rewrite <- flat_map_concat_map. etransitivity.
      + apply (by_key fst range). intros [li c] Ha. apply filter_In in Ha. apply (Hentry li c). apply Lin. apply Ha.
      + apply Permutation_filter. apply Hd.
    - apply Forall_forall. intros t Ht. apply in_flat_map in Ht. destruct Ht as (i & _ & Ht). unfold sel in Ht.
      assert (Q : Forall ok (map (fun a : nat * contribution => c_value (snd a)) (filter (fun a => fst a =? i) (filter (fun a => entry (snd a) =? ex) (ord d (k + 1) calls))))).
      { apply Hok. intros a Ha. apply filter_In in Ha. apply (Hfil _ _ (proj1 Ha)). } rewrite Forall_forall in Q. apply Q. exact Ht.
  Qed.
End Group.
