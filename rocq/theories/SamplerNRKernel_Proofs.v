(** Proofs about the sampler without replacement: the whole of sample. *)
From Coq Require Import List Arith Lia ZArith QArith Bool Permutation.
Import ListNotations.
From Verif Require Import Base Kernel Scan_Model Scan_Spec Scan_Proofs Compress_Model Compress_Proofs Mesh_Model PairList_Model PairList_Spec
  PairSimple_Proofs PairSet_Proofs PairHistory_Proofs PairLoop_Proofs Transpose_Proofs Maps_Model Maps_Props Partition_Model Partition_Spec
  Partition_Proofs SamplerNR_Model SamplerNR_Spec SamplerNR_Proofs.
Local Open Scope nat_scope.

Lemma list_sum_perm l l' : Permutation l l' -> list_sum l = list_sum l'.
Proof. induction 1; cbn [list_sum fold_right] in *; unfold list_sum in *; cbn [fold_right]; lia. Qed.
Lemma list_sum_flat {A} (f : A -> list nat) l : list_sum (flat_map f l) = list_sum (map (fun x => list_sum (f x)) l).
Proof. induction l as [|x l IH]; [reflexivity|]. cbn [flat_map map]. rewrite list_sum_app, IH. reflexivity. Qed.
Lemma list_sum_firstn_S l i v : nth_error l i = Some v -> list_sum (firstn (S i) l) = list_sum (firstn i l) + v.
Proof. intros H. rewrite (firstn_split_last l i v H), list_sum_app. cbn. lia. Qed.
Lemma list_sum_firstn_mono l i j : i <= j -> list_sum (firstn i l) <= list_sum (firstn j l).
Proof.
  intros H. induction H as [|j H IH]; auto. destruct (nth_error l j) as [v|] eqn:E.
  - rewrite (list_sum_firstn_S l j v E). lia.
  - apply nth_error_None in E. rewrite !(firstn_all2 (n := S j)) by lia. rewrite (firstn_all2 (n := j)) in IH by lia. auto.
Qed.
Lemma list_sum_firstn_le l i : list_sum (firstn i l) <= list_sum l.
Proof.
  destruct (Nat.le_ge_cases i (length l)) as [H|H].
  - pose proof (list_sum_firstn_mono l i (length l) H) as Q. rewrite firstn_all in Q. auto.
  - rewrite firstn_all2; auto.
Qed.

Lemma nth_concat_inv {A} (L : list (list A)) p q : nth_error (concat L) p = Some q ->
  exists k l i, nth_error L k = Some l /\ nth_error l i = Some q /\ p = length (concat (firstn k L)) + i.
Proof.
  revert p. induction L as [|l L IH]; intros p H; [destruct p; discriminate|]. cbn [concat] in H.
  destruct (Nat.lt_ge_cases p (length l)) as [C|C].
  - rewrite nth_error_app1 in H by auto. exists 0, l, p. auto.
  - rewrite nth_error_app2 in H by auto. destruct (IH _ H) as [k [l' [i [E1 [E2 E3]]]]].
    exists (S k), l', i. split; auto. split; auto. cbn [firstn concat]. rewrite app_length. lia.
Qed.

  Lemma firstn_map_seq {A} (f : nat -> A) i n : i <= n -> firstn i (map f (seq 0 n)) = map f (seq 0 i).
  Proof.
    intros H. apply nth_error_ext. intros j. rewrite nth_error_firstn, !nth_error_map_seq.
    destruct (Nat.ltb_spec j i), (Nat.ltb_spec j n); auto; lia.
  Qed.

Section Sample.
  Context (d : device) (cells : nat) (W : Z) (ids : list Z) (parts : list particle) (ccells : list nat) (cp : partition).
  Context (a b : Z) (qa qb : nat) (counts : list (list nat)) (rng : nat -> list Q).
  Hypothesis Hd : device_ok d.
  Hypothesis Hc : 0 < cells.
  Hypothesis HV : valid cells ids parts ccells.
  Hypothesis HC : constructed W cells ids parts ccells cp.
  Hypothesis HA : lin ids a = Some qa.
  Hypothesis HB : lin ids b = Some qb.
  Hypothesis HR : forall c, c < cells -> exists row, nth_error counts c = Some row /\ length row <= nth c ccells 0 /\
     forall cc n, nth_error row cc = Some n ->
       (Z.of_nat n <= most_pairs false (a =? b)%Z (length (members parts c cc a)) (length (members parts c cc b)))%Z.
  Hypothesis HL : forall n, length (rng n) = n.

  Definition M : nat := mcc cells ccells.
  Definition row (c : nat) : list nat := nth c counts [].
  Definition nreq (c cc : nat) : nat := nth cc (row c) 0.
  Definition oc (c cc : nat) : nat := list_sum (firstn cc (row c)).
  Definition om (c : nat) : nat := list_sum (map (fun x => list_sum (row x)) (seq 0 c)).
  Definition NP : nat := om cells.
  Definition na (c cc : nat) : nat := length (members parts c cc a).
  Definition nb (c cc : nat) : nat := length (members parts c cc b).

  Lemma row_some c : c < cells -> nth_error counts c = Some (row c).
  Proof. intros H. destruct (HR c H) as [r [E _]]. unfold row. rewrite (nth_error_nth counts c [] E). auto. Qed.
  Lemma row_len c : c < cells -> length (row c) <= nth c ccells 0 /\ length (row c) <= M.
  Proof.
    intros H. destruct (HR c H) as [r [E [L _]]]. unfold row. rewrite (nth_error_nth counts c [] E). split; auto.
    destruct HV as [HVL _]. destruct (nth_error_lt_some ccells c) as [n En]; [lia|].
    rewrite (nth_error_nth ccells c 0 En) in L. pose proof (count_le cells Hc ccells c n H En). unfold M. lia.
  Qed.
  Lemma same_ids : (qa =? qb) = (a =? b)%Z.
  Proof.
    destruct (Nat.eqb_spec qa qb) as [->|N], (Z.eqb_spec a b) as [E|E]; auto.
    - exfalso. apply E. apply (lin_inj ids a b qb); auto.
    - subst b. congruence.
  Qed.
  Lemma same_num c cc : (qa =? qb) = true -> na c cc = nb c cc.
  Proof. rewrite same_ids, Z.eqb_eq. intros E. unfold na, nb. rewrite E. reflexivity. Qed.
  Lemma nreq_enough c cc : c < cells -> cc < length (row c) -> enough (qa =? qb) (na c cc) (nb c cc) (nreq c cc).
  Proof.
    intros H Hcc. destruct (HR c H) as [r [E [L Q]]]. assert (Er : r = row c) by (unfold row; rewrite (nth_error_nth counts c [] E); auto).
    subst r. destruct (nth_error_lt_some (row c) cc Hcc) as [n En]. specialize (Q cc n En). unfold nreq. rewrite (nth_error_nth (row c) cc 0 En).
    rewrite same_ids. unfold enough, most_pairs in *. fold (na c cc) in Q. fold (nb c cc) in Q. destruct (a =? b)%Z.
    - pose proof (Nat.div_mod (na c cc) 2 ltac:(lia)). lia.
    - lia.
  Qed.
  Lemma om_S c : om (S c) = om c + list_sum (row c).
  Proof. unfold om. rewrite seq_S, map_app, list_sum_app. cbn. lia. Qed.
  Lemma om_mono c c' : c <= c' -> om c <= om c'.
  Proof. induction 1; auto. rewrite om_S. lia. Qed.
  Lemma oc_S c cc : cc < length (row c) -> oc c (S cc) = oc c cc + nreq c cc.
  Proof. intros H. unfold oc, nreq. apply list_sum_firstn_S. apply nth_error_nth'. auto. Qed.
  Lemma item_range c cc : c < cells -> cc < length (row c) -> nreq c cc + (oc c cc + om c) <= NP.
  Proof.
    intros H1 H2. pose proof (oc_S c cc H2). pose proof (list_sum_firstn_le (row c) (S cc)). pose proof (om_S c).
    pose proof (om_mono (S c) cells ltac:(lia)). unfold NP, oc in *. lia.
  Qed.

  Lemma ord_in {k x n} : In x (ord d k (seq 0 n)) <-> x < n.
  Proof.
    assert (P0 : Permutation (ord d k (seq 0 n)) (seq 0 n)) by apply Hd. split; intros Hx.
    - apply (Permutation_in _ P0), in_seq in Hx. lia.
    - apply (Permutation_in _ (Permutation_sym P0)), in_seq. lia.
  Qed.

  (** ** The requested counts *)
  Lemma copy_counts_ok k : exists buf ncc,
    foldM (copy_counts M counts) (fresh d k (M * cells), repeat 0 cells) (seq 0 cells) = Some (buf, ncc) /\
    length buf = M * cells /\
    (forall c, c < cells -> nth_error ncc c = Some (length (row c))) /\
    forall c cc, c < cells -> cc < length (row c) -> nth_error buf (c * M + cc) = Some (nreq c cc).
  Proof.
    destruct (foldM_ind (copy_counts M counts)
      (fun pre (st : list nat * list nat) => length (fst st) = M * cells /\ length (snd st) = cells /\
         (forall c, In c pre -> nth_error (snd st) c = Some (length (row c))) /\
         forall c cc, In c pre -> cc < length (row c) -> nth_error (fst st) (c * M + cc) = Some (nreq c cc))
      (seq 0 cells) (fresh d k (M * cells), repeat 0 cells)) as [[buf ncc] [E [A1 [A2 [A3 A4]]]]].
    - cbn [fst snd]. rewrite fresh_length, repeat_length. repeat split; auto; intros; contradiction.
    - intros pre c post [buf ncc] Es [A1 [A2 [A3 A4]]]. cbn [fst snd] in *.
      assert (Hcc : c < cells) by (assert (In c (seq 0 cells)) as I by (rewrite Es; apply in_elt); apply in_seq in I; lia).
      assert (Hn : ~ In c pre) by (pose proof (seq_NoDup cells 0) as ND; rewrite Es in ND; apply NoDup_remove_2 in ND; rewrite in_app_iff in ND; tauto).
      destruct (row_len c Hcc) as [_ Lr]. unfold copy_counts, rd. rewrite (row_some c Hcc). cbn [obind].
      destruct (Nat.leb_spec (length (row c)) M); [|lia]. cbn [assert obind].
      destruct (foldM_upd (fun m ix => v <- nth_error (row c) ix ;; upd m (c * M + ix) v) (fun ix => c * M + ix) (fun ix => nreq c ix)
        (seq 0 (length (row c))) buf) as [buf' [E [L [V N]]]].
      { intros m ix _ Hix. apply in_seq in Hix. rewrite (nth_error_nth' (row c) 0) by lia. reflexivity. }
      { intros ix Hix. apply in_seq in Hix. rewrite A1. nia. }
      { intros x y _ _ E. f_equal. lia. }
      rewrite E. cbn [obind]. destruct (upd_some ncc c (length (row c))) as [ncc' U]; [lia|]. rewrite U. cbn [obind].
      eexists. split; [reflexivity|]. cbn [fst snd]. split; [congruence|]. split; [rewrite (upd_length _ _ _ _ U); auto|]. split.
      + intros x Hx. rewrite (upd_nth _ _ _ _ x U). destruct (Nat.eqb_spec x c) as [->|Nx]; auto.
        apply A3. apply in_app_iff in Hx as [Hx|[Hx|[]]]; [auto|congruence].
      + intros x cc Hx Hcx. destruct (Nat.eq_dec x c) as [->|Nx].
        * apply (V cc). apply in_seq. lia.
        * apply in_app_iff in Hx as [Hx|[Hx|[]]]; [|congruence]. rewrite N; [apply A4; auto|].
          intros ix Hix EQ. apply in_seq in Hix.
          assert (x < cells) by (assert (In x (seq 0 cells)) as I by (rewrite Es; apply in_or_app; auto); apply in_seq in I; lia).
          destruct (row_len x ltac:(auto)) as [_ Lx]. destruct (mul_add_inj M c ix x cc EQ); lia.
    - cbn [fst snd] in *. exists buf, ncc. split; auto. split; auto. split; intros; [apply A3|apply A4]; auto; apply in_seq; lia.
  Qed.

  Lemma mesh_cell_counts_ok k ncc buf :
    (forall c, c < cells -> nth_error ncc c = Some (length (row c))) ->
    (forall c cc, c < cells -> cc < length (row c) -> nth_error buf (c * M + cc) = Some (nreq c cc)) ->
    foldM (mesh_cell_count d M ncc buf) (fresh d k cells) (ord d k (seq 0 cells)) = Some (map (fun c => list_sum (row c)) (seq 0 cells)).
  Proof.
    intros H1 H2.
    destruct (foldM_upd (mesh_cell_count d M ncc buf) (fun c => c) (fun c => list_sum (row c)) (ord d k (seq 0 cells)) (fresh d k cells))
      as [m [E [L [V _]]]].
    - intros m c _ Hx. apply ord_in in Hx. unfold mesh_cell_count, rd. rewrite (H1 c Hx). cbn [obind].
      rewrite (mapM_some _ (fun i => list_sum (map (nreq c) (for_loop i (length (row c)) (local_size d))))).
      + cbn [obind]. f_equal. rewrite <- list_sum_flat.
        rewrite (list_sum_perm _ (map (nreq c) (seq 0 (length (row c))))).
        * f_equal. apply nth_error_ext. intros i. rewrite nth_error_map_seq. destruct (Nat.ltb_spec i (length (row c))).
          -- unfold nreq. rewrite (nth_error_nth' (row c) 0) by auto. reflexivity.
          -- symmetry. apply nth_error_None. auto.
        * rewrite flat_map_concat_map, <- (map_map (fun i => for_loop i (length (row c)) (local_size d)) (map (nreq c))), <- concat_map.
          apply Permutation_map. rewrite <- flat_map_concat_map. apply strided_perm. apply Hd.
      + intros i Hi. apply in_seq in Hi. rewrite (mapM_some _ (nreq c)); [reflexivity|].
        intros cc Hcc. apply H2; auto. apply for_loop_in in Hcc; [lia|apply Hd].
    - intros c Hx. apply ord_in in Hx. rewrite fresh_length. auto.
    - intros; congruence.
    - rewrite E. f_equal. apply nth_error_ext. intros c. rewrite nth_error_map_seq. rewrite fresh_length in L. destruct (Nat.ltb_spec c cells).
      + apply V. apply ord_in. auto.
      + apply nth_error_None. lia.
  Qed.

  Lemma ccell_scan_ok k buf : length buf = M * cells ->
    (forall c cc, c < cells -> cc < length (row c) -> nth_error buf (c * M + cc) = Some (nreq c cc)) ->
    exists es, joint_exclusive_scan_n Nat.add 0 (fun i => Z.to_nat (junk d k i)) (ord d k (seq 0 cells))
      (repeat M cells) (map (fun a => M * a) (seq 0 cells)) buf (fresh d (k + 1) (M * cells)) = Some es /\
      forall c cc, c < cells -> cc < length (row c) -> nth_error es (c * M + cc) = Some (oc c cc).
  Proof.
    intros Lb H.
    assert (Hof : forall c, c < cells -> nth_error (map (fun a => M * a) (seq 0 cells)) c = Some (M * c)).
    { intros c Hx. rewrite nth_error_map_seq. destruct (Nat.ltb_spec c cells); [auto|lia]. }
    assert (Hseg : forall x j, in_segment (repeat M cells) (map (fun a => M * a) (seq 0 cells)) x j -> x < cells /\ M * x <= j < M * x + M).
    { intros x j [n [o [E1 [E2 E3]]]]. pose proof (nth_error_some_lt _ _ _ E1) as Hx. rewrite repeat_length in Hx.
      rewrite nth_error_repeat in E1 by auto. rewrite (Hof x Hx) in E2. injection E1 as <-. injection E2 as <-. lia. }
    destruct (@scan_n_correct nat Nat.add 0 nat_monoid (fun i => Z.to_nat (junk d k i)) (ord d k (seq 0 cells))
      (repeat M cells) (map (fun a => M * a) (seq 0 cells)) buf (fresh d (k + 1) (M * cells))) as [es [E [S1 _]]].
    - split; [rewrite repeat_length, map_length, seq_length; auto|]. split.
      + intros x j I. apply Hseg in I as [Hx Hj]. rewrite Lb. assert (S x <= cells) by lia. nia.
      + intros x y j I J. apply Hseg in I as [Hx Hj], J as [Hy Hk]. destruct (mul_add_inj M x (j - M * x) y (j - M * y)); lia.
    - rewrite fresh_length. auto.
    - rewrite repeat_length. apply Hd.
    - exists es. split; auto. intros c cc Hx Hcc. destruct (row_len c Hx) as [_ Lr].
      replace (c * M + cc) with (M * c + cc) by lia. rewrite (S1 c M (M * c) cc); [|apply nth_error_repeat; auto|apply Hof; auto|lia].
      f_equal. unfold oc. change (total Nat.add 0) with list_sum. f_equal. apply nth_error_ext. intros i.
      rewrite !nth_error_firstn. destruct (Nat.ltb_spec i cc) as [Hi|]; auto. rewrite nth_error_skipn.
      replace (M * c + i) with (c * M + i) by lia. rewrite H by lia. unfold nreq. rewrite (nth_error_nth' (row c) 0) by lia. auto.
  Qed.

  (** ** The pairs *)
  Definition reals : list Q := rng (2 * NP).
  Definition lay (c cc q i : nat) : nat := match get_particle_layer cp c cc q i with Some v => v | None => 0 end.
  Definition pools (k c cc : nat) : pool * pool :=
    let occ := max_collision_cell_occupancy cp in
    ((Z.of_nat (na c cc), seq 0 (na c cc) ++ skipn (na c cc) (fresh d k occ)),
     (Z.of_nat (nb c cc), if qa =? qb then fresh d (k + 1) occ else seq 0 (nb c cc) ++ skipn (nb c cc) (fresh d (k + 1) occ))).
  Definition drawn (k c cc : nat) : list (nat * nat) :=
    match foldM (draw (qa =? qb) reals NP (oc c cc + om c)) ([], pools k c cc) (seq 0 (nreq c cc)) with
    | Some (out, _) => out
    | None => []
    end.
  Definition chosen (k c cc : nat) : list (nat * nat) := map (fun p => (lay c cc qa (fst p), lay c cc qb (snd p))) (drawn k c cc).
  Definition Pof (k c : nat) : list (list (nat * nat)) := map (chosen k c) (seq 0 (length (row c))).

  Lemma occ_le c cc : c < cells -> cc < M ->
    na c cc <= max_collision_cell_occupancy cp /\ nb c cc <= max_collision_cell_occupancy cp.
  Proof.
    intros H1 H2. destruct (con_occ _ _ _ _ _ _ HC) as [O _].
    assert (In a ids) by (destruct (in_dec Z.eq_dec a ids) as [|N]; auto; apply lin_none in N; congruence).
    assert (In b ids) by (destruct (in_dec Z.eq_dec b ids) as [|N]; auto; apply lin_none in N; congruence).
    split; apply O; auto.
  Qed.
  Lemma layer_ok c cc x q i : c < cells -> cc < M -> lin ids x = Some q -> i < length (members parts c cc x) ->
    get_particle_layer cp c cc q i = Some (lay c cc q i).
  Proof.
    intros H1 H2 H3 H4. destruct (con_layers _ _ _ _ _ _ HC c cc x q H1 H2 H3) as [l [E _]].
    unfold lay. destruct (mapM_in _ _ _ i E) as [v [Ev _]]; [apply in_seq; lia|]. rewrite Ev. auto.
  Qed.
  Lemma lay_perm c cc x q : c < cells -> cc < M -> lin ids x = Some q ->
    Permutation (map (lay c cc q) (seq 0 (length (members parts c cc x)))) (members parts c cc x).
  Proof.
    intros H1 H2 H3. destruct (con_layers _ _ _ _ _ _ HC c cc x q H1 H2 H3) as [l [E P]].
    rewrite (mapM_some _ (lay c cc q)) in E; [injection E as <-; auto|].
    intros i Hi. apply in_seq in Hi. apply (layer_ok c cc x); auto. lia.
  Qed.

  Lemma all_indices_ok k occ n : n <= occ -> all_indices d k occ n = Some (seq 0 n ++ skipn n (fresh d k occ)).
  Proof.
    intros Hn. unfold all_indices.
    destruct (foldM_upd (fun m ix => upd m ix ix) (fun ix => ix) (fun ix => ix) (seq 0 n) (fresh d k occ)) as [m [E [L [V N]]]]; auto.
    { intros x Hx. apply in_seq in Hx. rewrite fresh_length. lia. }
    rewrite E. f_equal. rewrite fresh_length in L. apply nth_error_ext. intros i. destruct (Nat.lt_ge_cases i n) as [H|H].
    - rewrite nth_error_app1 by (rewrite seq_length; auto). rewrite nth_error_seq. destruct (Nat.ltb_spec i n); [|lia]. apply V. apply in_seq. lia.
    - rewrite nth_error_app2; rewrite seq_length; auto. rewrite nth_error_skipn. replace (n + (i - n)) with i by lia. apply N.
      intros x Hx. apply in_seq in Hx. lia.
  Qed.

  Lemma pool_start n (t : list nat) : pool_ok n [] (Z.of_nat n, seq 0 n ++ t).
  Proof.
    unfold pool_ok. cbn [fst snd length app]. rewrite Nat.sub_0_r. split; auto. rewrite app_length, seq_length. split; [lia|].
    rewrite firstn_app, seq_length, Nat.sub_diag. cbn [firstn]. rewrite app_nil_r, firstn_all2; [auto|rewrite seq_length; auto].
  Qed.
  Lemma pools_start k c cc : pools_ok (qa =? qb) (na c cc) (nb c cc) [] (pools k c cc).
  Proof. unfold pools_ok, pools. cbn [fst snd]. destruct (qa =? qb); [|split]; apply pool_start. Qed.

  Lemma drawn_ok k c cc : c < cells -> cc < length (row c) ->
    exists AB', foldM (draw (qa =? qb) reals NP (oc c cc + om c)) ([], pools k c cc) (seq 0 (nreq c cc)) = Some (drawn k c cc, AB') /\
      length (drawn k c cc) = nreq c cc /\ choice_ok (qa =? qb) (na c cc) (nb c cc) (drawn k c cc).
  Proof.
    intros H1 H2. pose proof (item_range c cc H1 H2) as IR.
    destruct (draws_ok (qa =? qb) reals NP (oc c cc + om c) (na c cc) (nb c cc) (pools k c cc) (nreq c cc)) as [out [AB' [E [L P]]]].
    - apply pools_start.
    - apply nreq_enough; auto.
    - left. unfold reals. rewrite HL. lia.
    - unfold drawn. rewrite E. exists AB'. split; auto. split; auto. apply (pools_choice _ _ _ _ _ P). apply same_num.
  Qed.

  Definition wr (k : nat) (w : nat * nat) (q : nat * nat * nat) : option nat :=
    let '(c, cc) := w in let '(c', f, r) := q in
    if (cc <? length (row c)) && ((c' =? c) && (f <? 2) && (oc c cc <=? r) && (r <? oc c cc + nreq c cc))
    then match nth_error (drawn k c cc) (r - oc c cc) with
         | Some p => Some (if f =? 0 then lay c cc qa (fst p) else lay c cc qb (snd p))
         | None => None
         end
    else None.

  Lemma sample_item_ok k ncc buf es ces nr pl c cc :
    (forall c, c < cells -> nth_error ncc c = Some (length (row c))) ->
    (forall c cc, c < cells -> cc < length (row c) -> nth_error buf (c * M + cc) = Some (nreq c cc)) ->
    (forall c, c < cells -> nth_error es c = Some (om c)) ->
    (forall c cc, c < cells -> cc < length (row c) -> nth_error ces (c * M + cc) = Some (oc c cc)) ->
    (forall c, c < cells -> list_sum (row c) <= nr c) -> pls cells pl nr -> c < cells ->
    exists pl', sample_item d k cp qa qb M ncc buf es ces reals NP pl (c, cc) = Some pl' /\ pls cells pl' nr /\
      forall q, rd3 pl' (fst (fst q)) (snd (fst q)) (snd q) =
        match wr k (c, cc) q with Some v => Some v | None => rd3 pl (fst (fst q)) (snd (fst q)) (snd q) end.
  Proof.
    intros H1 H2 H3 H4 H5 Hpl Hx. unfold sample_item, rd. rewrite (H1 c Hx). cbn [obind].
    destruct (Nat.ltb_spec cc (length (row c))) as [Hcc|Hcc].
    - destruct (row_len c Hx) as [_ Lr]. destruct (occ_le c cc Hx ltac:(lia)) as [Oa Ob].
      rewrite (con_num _ _ _ _ _ _ HC c cc a qa Hx ltac:(unfold M in Lr; lia) HA).
      rewrite (con_num _ _ _ _ _ _ HC c cc b qb Hx ltac:(unfold M in Lr; lia) HB). cbn [obind].
      fold (na c cc). fold (nb c cc). rewrite (all_indices_ok k _ (na c cc) Oa). cbn [obind].
      match goal with |- context [if qa =? qb then Some ?x else all_indices d ?k1 ?o ?n] =>
        replace (if qa =? qb then Some x else all_indices d k1 o n) with (Some (snd (snd (pools k c cc))))
          by (cbn [pools snd]; rewrite (all_indices_ok k1 o n Ob); destruct (qa =? qb); reflexivity) end.
      cbn [obind]. rewrite (H2 c cc Hx Hcc), (H3 c Hx), (H4 c cc Hx Hcc). cbn [obind].
      destruct (drawn_ok k c cc Hx Hcc) as [AB' [ED [LD [CB _]]]].
      destruct (item_ok cp qa qb reals NP c cc (om c) (oc c cc) cells (lay c cc qa) (lay c cc qb) (na c cc) (nb c cc)
        ltac:(intros i Hi; apply (layer_ok c cc a); auto; lia) ltac:(intros i Hi; apply (layer_ok c cc b); auto; lia)
        (same_num c cc) Hx pl nr (pools k c cc) (drawn k c cc) AB' (nreq c cc) Hpl) as [pl' [E [Hpl' R]]]; auto.
      { pose proof (oc_S c cc Hcc). pose proof (list_sum_firstn_le (row c) (S cc)). specialize (H5 c Hx). unfold oc in *. lia. }
      exists pl'. split.
      { match type of E with foldM _ ?st _ = _ => match goal with |- context [foldM _ ?st' _] => change st' with st end end.
        rewrite E. reflexivity. }
      split; auto. intros [[c' f] r]. cbn [fst snd]. rewrite R. unfold wr. destruct (Nat.ltb_spec cc (length (row c))); [|lia]. cbn [andb].
      destruct ((c' =? c) && (f <? 2) && (oc c cc <=? r) && (r <? oc c cc + nreq c cc)) eqn:B; auto.
      apply andb_true_iff in B as [B B1]. apply andb_true_iff in B as [B B2]. apply Nat.leb_le in B2. apply Nat.ltb_lt in B1.
      destruct (nth_error (drawn k c cc) (r - oc c cc)) eqn:N; auto. apply nth_error_None in N. lia.
    - exists pl. split; auto. split; auto. intros [[c' f] r]. unfold wr. destruct (Nat.ltb_spec cc (length (row c))); [lia|]. auto.
  Qed.

  (** What every call of sample keeps. *)
  Record sampler_base (s : simple) : Prop := {
    sb_hw : h_wave_count s = repeat 1 cells;
    sb_dw : d_wave_count s = repeat 1 cells;
    sb_wo : d_wave_offsets s = repeat 0 cells;
    sb_dp : length (d_pair_counts s) = cells;
    sb_es : length (d_pair_counts_es s) = cells;
    sb_pl : exists nr, pls cells (d_pair_list s) nr
  }.

  Lemma items_disjoint c cc cc' r : cc < length (row c) -> cc' < length (row c) ->
    oc c cc <= r < oc c cc + nreq c cc -> oc c cc' <= r < oc c cc' + nreq c cc' -> cc = cc'.
  Proof.
    intros H1 H2 H3 H4. pose proof (oc_S c cc H1). pose proof (oc_S c cc' H2).
    destruct (lt_eq_lt_dec cc cc') as [[L|E]|L]; auto.
    - pose proof (list_sum_firstn_mono (row c) (S cc) cc' L). unfold oc in *. lia.
    - pose proof (list_sum_firstn_mono (row c) (S cc') cc L). unfold oc in *. lia.
  Qed.


  Lemma Pof_prefix k c cc : c < cells -> cc <= length (row c) -> length (concat (firstn cc (Pof k c))) = oc c cc.
  Proof.
    intros Hx. induction cc as [|cc IH]; intros H; [reflexivity|]. rewrite (oc_S c cc) by lia.
    assert (N : nth_error (Pof k c) cc = Some (chosen k c cc)).
    { unfold Pof. rewrite nth_error_map_seq. destruct (Nat.ltb_spec cc (length (row c))); [auto|lia]. }
    rewrite (concat_firstn_S _ _ _ N), app_length, IH by lia. f_equal. unfold chosen. rewrite map_length.
    destruct (drawn_ok k c cc Hx ltac:(lia)) as [_ [_ [L _]]]. auto.
  Qed.
  Lemma Pof_length k c : length (Pof k c) = length (row c).
  Proof. unfold Pof. rewrite map_length, seq_length. auto. Qed.
  Lemma Pof_total k c : c < cells -> length (concat (Pof k c)) = list_sum (row c).
  Proof.
    intros Hx. pose proof (Pof_prefix k c (length (row c)) Hx (le_n _)) as E. rewrite firstn_all2 in E by (rewrite Pof_length; auto).
    rewrite E. unfold oc. rewrite firstn_all. auto.
  Qed.
  Definition waves (k c : nat) : list (list (nat * nat)) := [concat (Pof k c)].
  Lemma before_waves k c : c <= cells -> PairSimple_Proofs.before (waves k) c = om c.
  Proof.
    intros H. unfold PairSimple_Proofs.before, om. f_equal. apply map_ext_in. intros x Hx. apply in_seq in Hx.
    unfold waves. cbn [concat]. rewrite app_nil_r. apply Pof_total. lia.
  Qed.

  Lemma sample_ok k s : sampler_base s ->
    exists s', sample d cells k s cp a b counts rng = Some s' /\ sampler_base s' /\ rep cells s' true (waves (k + 11)).
  Proof.
    intros [B1 B2 B3 B4 B5 [nr B6]]. unfold sample. rewrite !(base_host _ _ _ _ (con_base _ _ _ _ _ _ HC)), HA, HB. cbn [obind].
    rewrite (base_cells _ _ _ _ (con_base _ _ _ _ _ _ HC)), Nat.eqb_refl. cbn [assert obind].
    rewrite (con_max _ _ _ _ _ _ HC). fold M.
    destruct (copy_counts_ok k) as [buf [ncc [E1 [L1 [N1 V1]]]]]. rewrite E1. cbn [obind].
    rewrite (mesh_cell_counts_ok (k + 1) ncc buf N1 V1). cbn [obind]. set (cnts := map (fun c => list_sum (row c)) (seq 0 cells)).
    assert (Hcnt : forall c, c < cells -> nth_error cnts c = Some (list_sum (row c))).
    { intros c Hx. unfold cnts. rewrite nth_error_map_seq. destruct (Nat.ltb_spec c cells); [auto|lia]. }
    assert (Lcnt : length cnts = cells) by (unfold cnts; rewrite map_length, seq_length; auto).
    destruct (foldM_upd (fun m ix => v <- rd cnts ix ;; upd m ix v) (fun x => x) (fun x => list_sum (row x))
      (ord d (k + 2) (seq 0 cells)) (d_pair_counts s)) as [pc [E2 [L2 [V2 _]]]].
    { intros m x _ Hx. apply ord_in in Hx. unfold rd. rewrite (Hcnt x Hx). auto. }
    { intros x Hx. apply ord_in in Hx. lia. }
    { intros; congruence. }
    rewrite E2. cbn [obind].
    assert (Epc : pc = cnts).
    { apply nth_error_ext. intros x. destruct (Nat.lt_ge_cases x cells) as [H|H].
      - rewrite (Hcnt x H). apply V2. apply ord_in. auto.
      - rewrite !(proj2 (nth_error_None _ _)); auto; lia. }
    subst pc.
    destruct (exscan_correct d (k + 3) cells cnts (d_pair_counts_es s) Hd) as [es [E3 [S3 [_ L3]]]]; [lia|lia|]. rewrite E3. cbn [obind].
    assert (Hes : forall c, c < cells -> nth_error es c = Some (om c)).
    { intros c Hx. rewrite (S3 c Hx). f_equal. unfold cnts, om. rewrite firstn_map_seq by lia. reflexivity. }
    destruct (ccell_scan_ok (k + 7) buf L1 V1) as [ces [E4 V4]]. replace (k + 7 + 1) with (k + 8) in E4 by lia. rewrite E4. cbn [obind].
    unfold sub_. destruct (Nat.ltb_spec cells 1) as [|_]; [lia|]. cbn [obind]. unfold rd at 1 2.
    rewrite (Hcnt (cells - 1)), (Hes (cells - 1)) by lia. cbn [obind].
    destruct (push_rows_ok d cells (k + 9) cnts (d_pair_list s) nr B6) as [pl [nr' [E5 [P5 [N5 _]]]]]; [lia|]. rewrite E5. cbn [obind].
    replace (list_sum (row (cells - 1)) + om (cells - 1)) with NP.
    2:{ unfold NP. replace cells with (S (cells - 1)) at 1 by lia. rewrite om_S. lia. }
    fold reals.
    destruct (@foldM_kernel (nat * nat) _ (nat * nat * nat) nat (sample_item d (k + 11) cp qa qb M ncc buf es ces reals NP)
      (fun m q => rd3 m (fst (fst q)) (snd (fst q)) (snd q)) (fun m => pls cells m nr') (wr (k + 11))
      (ord d (k + 11) (list_prod (seq 0 cells) (seq 0 M))) pl P5) as [pl' [E6 [P6 [V6 _]]]].
    { intros m [c cc] Hm Hin. apply (sample_item_ok (k + 11) ncc buf es ces nr' m c cc); auto.
      apply (Permutation_in _ (proj1 Hd _ _ _)), in_prod_iff in Hin. destruct Hin as [Hin _]. apply in_seq in Hin. lia. }
    { intros [c cc] [c2 cc2] [[x f] r] v w _ _. unfold wr.
      destruct (Nat.eqb_spec x c) as [->|]; [|rewrite ?andb_false_r; discriminate].
      destruct (Nat.eqb_spec c c2) as [<-|]; [|rewrite ?andb_false_r; discriminate].
      destruct (Nat.ltb_spec cc (length (row c))); [|discriminate]. destruct (Nat.ltb_spec cc2 (length (row c))); [|discriminate].
      cbn [andb]. destruct (f <? 2); cbn [andb]; [|discriminate].
      destruct (Nat.leb_spec (oc c cc) r); cbn [andb]; [|discriminate]. destruct (Nat.ltb_spec r (oc c cc + nreq c cc)); [|discriminate].
      destruct (Nat.leb_spec (oc c cc2) r); cbn [andb]; [|discriminate]. destruct (Nat.ltb_spec r (oc c cc2 + nreq c cc2)); [|discriminate].
      assert (cc = cc2) by (apply (items_disjoint c cc cc2 r); auto; lia). subst cc2. congruence. }
    rewrite E6. cbn [obind]. eexists. split; [reflexivity|]. split.
    - constructor; cbn; auto; try congruence. eauto.
    - assert (Wl : forall c, c < cells -> length (concat (waves (k + 11) c)) = list_sum (row c)).
      { intros c Hx. unfold waves. cbn [concat]. rewrite app_nil_r. apply Pof_total. auto. }
      assert (Wn : forall c w P, c < cells -> nth_error (waves (k + 11) c) w = Some P -> w = 0 /\ length P = list_sum (row c)).
      { intros c w P Hx H. unfold waves in H. destruct w as [|[|w]]; try discriminate. injection H as <-. split; auto. apply Pof_total; auto. }
      constructor; cbn [h_wave_count d_wave_count d_wave_offsets d_pair_list d_pair_counts d_pair_counts_es h_pair_counts h_pair_counts_es max_pair_count max_wave_count pair_count mode].
      + intros c Hx. rewrite B1. apply nth_error_repeat. auto.
      + intros c Hx. rewrite B2. apply nth_error_repeat. auto.
      + intros c w P Hx H. destruct (Wn c w P Hx H) as [-> ->]. apply Hcnt. auto.
      + intros c w P Hx H. destruct (Wn c w P Hx H) as [-> ->]. apply Hcnt. auto.
      + intros c w Hx H. cbn in H. destruct w; [|lia]. rewrite B3. cbn. apply nth_error_repeat. auto.
      + intros c w Hx H. cbn in H. destruct w; [|lia]. rewrite before_waves by lia. cbn [firstn concat length]. rewrite Nat.add_0_r. apply Hes. auto.
      + intros c p q Hx H. unfold waves in H. cbn [concat] in H. rewrite app_nil_r in H.
        destruct (nth_concat_inv _ _ _ H) as [cc [l [i [F1 [F2 ->]]]]].
        assert (Hcc : cc < length (row c)) by (apply nth_error_some_lt in F1; rewrite Pof_length in F1; auto).
        unfold Pof in F1. rewrite nth_error_map_seq in F1. destruct (Nat.ltb_spec cc (length (row c))); [|lia]. injection F1 as <-.
        cbn [plus] in F2. rewrite Pof_prefix by (auto; lia). unfold chosen in F2. rewrite nth_error_map in F2.
        destruct (nth_error (drawn (k + 11) c cc) i) as [p|] eqn:Ep; [|discriminate]. injection F2 as <-. cbn [fst snd].
        destruct (drawn_ok (k + 11) c cc Hx Hcc) as [_ [_ [LD _]]]. pose proof (nth_error_some_lt _ _ _ Ep) as Hi.
        assert (I : In (c, cc) (ord d (k + 11) (list_prod (seq 0 cells) (seq 0 M)))).
        { apply (Permutation_in _ (Permutation_sym (proj1 Hd _ _ _))). destruct (row_len c Hx) as [_ Lr]. apply in_prod; apply in_seq; lia. }
        assert (G : forall f, f < 2 -> wr (k + 11) (c, cc) (c, f, oc c cc + i) = Some (if f =? 0 then lay c cc qa (fst p) else lay c cc qb (snd p))).
        { intros f Hf. unfold wr. rewrite Nat.eqb_refl. destruct (Nat.ltb_spec cc (length (row c))); [|lia].
          destruct (Nat.ltb_spec f 2); [|lia]. destruct (Nat.leb_spec (oc c cc) (oc c cc + i)); [|lia].
          destruct (Nat.ltb_spec (oc c cc + i) (oc c cc + nreq c cc)); [|lia]. cbn [andb].
          replace (oc c cc + i - oc c cc) with i by lia. rewrite Ep. auto. }
        split; [apply (V6 (c, cc) (c, 0, oc c cc + i)); auto; apply G; lia|apply (V6 (c, cc) (c, 1, oc c cc + i)); auto; apply G; lia].
      + intros c Hx. left. cbn. lia.
      + intros [c [Hx H]]. assert (0 < list_sum (row c)) as Hp.
        { rewrite <- (Wl c Hx). destruct (concat (waves (k + 11) c)); [congruence|cbn; lia]. }
        assert (list_sum (row c) <= list_max cnts).
        { assert (Forall (fun x => x <= list_max cnts) cnts) as F by (apply list_max_le; auto).
          rewrite Forall_forall in F. apply F. eapply nth_error_In, Hcnt, Hx. }
        lia.
      + rewrite before_waves by lia. reflexivity.
      + discriminate.
  Qed.

  (** ** The choice is what was asked for *)
  Hypothesis HN : NoDup (map (fun p => (p_cell p, p_layer p)) parts).

  Lemma members_in c cc x y : In y (members parts c cc x) <->
    exists p, In p parts /\ p_cell p = c /\ p_layer p = y /\ p_ccell p = Z.of_nat cc /\ p_species p = x.
  Proof.
    unfold members. rewrite in_map_iff. split.
    - intros [p [E H]]. apply filter_In in H as [H B]. apply andb_true_iff in B as [B B1]. apply andb_true_iff in B as [B B2].
      apply Nat.eqb_eq in B. apply Z.eqb_eq in B1, B2. exists p. auto.
    - intros [p [H [E1 [E2 [E3 E4]]]]]. exists p. split; auto. apply filter_In. split; auto.
      rewrite E1, E3, E4, Nat.eqb_refl, !Z.eqb_refl. auto.
  Qed.
  Lemma NoDup_map_eq {A B} (f : A -> B) l x y : NoDup (map f l) -> In x l -> In y l -> f x = f y -> x = y.
  Proof.
    induction l as [|z l IH]; [intros _ []|]. cbn [map]. intros ND [<-|Hx] [<-|Hy] E; auto; inversion_clear ND as [|? ? N1 N2].
    - exfalso. apply N1. rewrite E. apply in_map. auto.
    - exfalso. apply N1. rewrite <- E. apply in_map. auto.
    - auto.
  Qed.
  Lemma members_disjoint c cc x cc' x' y : In y (members parts c cc x) -> In y (members parts c cc' x') -> cc = cc' /\ x = x'.
  Proof.
    rewrite !members_in. intros [p [Hp [A1 [A2 [A3 A4]]]]] [p' [Hp' [B1 [B2 [B3 B4]]]]].
    assert (p = p') by (apply (NoDup_map_eq _ _ _ _ HN Hp Hp'); congruence). subst p'. split; [lia|congruence].
  Qed.
  Lemma members_nodup c cc x : NoDup (members parts c cc x).
  Proof.
    unfold members. clear - HN. induction parts as [|p l IH]; [constructor|]. cbn [map] in HN. inversion_clear HN as [|? ? N1 N2].
    cbn [filter]. destruct ((p_cell p =? c) && (p_ccell p =? Z.of_nat cc)%Z && (p_species p =? x)%Z) eqn:B; [|auto].
    cbn [map]. constructor; auto. intros I. apply in_map_iff in I as [p' [E I]]. apply filter_In in I as [I B'].
    apply N1. apply in_map_iff. exists p'. split; auto.
    apply andb_true_iff in B as [B _]. apply andb_true_iff in B as [B _]. apply Nat.eqb_eq in B.
    apply andb_true_iff in B' as [B' _]. apply andb_true_iff in B' as [B' _]. apply Nat.eqb_eq in B'. congruence.
  Qed.
  Lemma lay_inj c cc x q i j : c < cells -> cc < M -> lin ids x = Some q ->
    i < length (members parts c cc x) -> j < length (members parts c cc x) -> lay c cc q i = lay c cc q j -> i = j.
  Proof.
    intros H1 H2 H3 Hi Hj E. pose proof (lay_perm c cc x q H1 H2 H3) as P.
    assert (ND : NoDup (map (lay c cc q) (seq 0 (length (members parts c cc x))))).
    { eapply Permutation_NoDup; [symmetry; exact P|apply members_nodup]. }
    apply (NoDup_map_eq (lay c cc q) (seq 0 (length (members parts c cc x)))); auto; apply in_seq; lia.
  Qed.
  Lemma lay_in c cc x q i : c < cells -> cc < M -> lin ids x = Some q -> i < length (members parts c cc x) ->
    In (lay c cc q i) (members parts c cc x).
  Proof.
    intros H1 H2 H3 Hi. apply (Permutation_in _ (lay_perm c cc x q H1 H2 H3)). apply in_map, in_seq. lia.
  Qed.

  Lemma particles_map (f g : nat -> nat) T : (forall i, f i = g i) ->
    particles_of (map (fun p => (f (fst p), g (snd p))) T) = map f (particles_of T).
  Proof. intros E. induction T as [|p T IH]; [reflexivity|]. unfold particles_of in *. cbn [map flat_map app fst snd]. rewrite IH, <- E. auto. Qed.
  Lemma particles_perm T : Permutation (particles_of T) (map fst T ++ map snd T).
  Proof.
    unfold particles_of. induction T as [|p T IH]; [constructor|]. cbn [flat_map map app]. rewrite IH. constructor.
    rewrite Permutation_middle. auto.
  Qed.

  Lemma chosen_members k c cc p : c < cells -> cc < length (row c) -> In p (chosen k c cc) ->
    In (fst p) (members parts c cc a) /\ In (snd p) (members parts c cc b).
  Proof.
    intros H1 H2 Hp. destruct (row_len c H1) as [_ Lr]. destruct (drawn_ok k c cc H1 H2) as [_ [_ [_ [CB _]]]].
    unfold chosen in Hp. apply in_map_iff in Hp as [r [<- Hr]]. destruct (CB r Hr) as [Ca Cb]. cbn [fst snd].
    split; apply lay_in; auto; lia.
  Qed.
  Lemma chosen_distinct k c cc : c < cells -> cc < length (row c) -> NoDup (particles_of (chosen k c cc)).
  Proof.
    intros H1 H2. destruct (row_len c H1) as [_ Lr]. destruct (drawn_ok k c cc H1 H2) as [_ [_ [_ [CB CD]]]].
    assert (IA : forall i j, i < na c cc -> j < na c cc -> lay c cc qa i = lay c cc qa j -> i = j) by (intros; eapply (lay_inj c cc a qa); eauto; lia).
    assert (IB : forall i j, i < nb c cc -> j < nb c cc -> lay c cc qb i = lay c cc qb j -> i = j) by (intros; eapply (lay_inj c cc b qb); eauto; lia).
    unfold chosen. destruct (Nat.eqb_spec qa qb) as [E|N].
    - rewrite (particles_map (lay c cc qa) (lay c cc qb)) by (rewrite E; auto). apply NoDup_map_inj; auto.
      assert (Hb : forall x, In x (particles_of (drawn k c cc)) -> x < na c cc).
      { intros x Hx. unfold particles_of in Hx. apply in_flat_map in Hx as [p [Hp Hx]]. destruct (CB p Hp) as [C1 C2].
        rewrite <- (same_num c cc) in C2 by (rewrite E; apply Nat.eqb_refl). destruct Hx as [<-|[<-|[]]]; auto. }
      intros x y Hx Hy. apply IA; auto.
    - destruct CD as [D1 D2].
      eapply Permutation_NoDup; [symmetry; apply particles_perm|]. rewrite !map_map. cbn [fst snd].
      rewrite <- (map_map fst (lay c cc qa)), <- (map_map snd (lay c cc qb)).
      assert (Ba : forall x, In x (map fst (drawn k c cc)) -> x < na c cc).
      { intros x Hx. apply in_map_iff in Hx as [p [<- Hp]]. apply (CB p Hp). }
      assert (Bb : forall x, In x (map snd (drawn k c cc)) -> x < nb c cc).
      { intros x Hx. apply in_map_iff in Hx as [p [<- Hp]]. apply (CB p Hp). }
      apply NoDup_app_intro.
      + apply NoDup_map_inj; auto.
      + apply NoDup_map_inj; auto.
      + intros y Ha Hb. apply in_map_iff in Ha as [i [<- Hi]], Hb as [j [Ej Hj]].
        assert (In (lay c cc qa i) (members parts c cc a)) as I1 by (apply lay_in; auto; try apply Ba; auto; lia).
        assert (In (lay c cc qa i) (members parts c cc b)) as I2 by (rewrite <- Ej; apply lay_in; auto; try apply Bb; auto; lia).
        destruct (members_disjoint _ _ _ _ _ _ I1 I2) as [_ Eab]. pose proof HA as HA2. rewrite Eab in HA2. congruence.
  Qed.

  Lemma particles_concat (L : list (list (nat * nat))) : particles_of (concat L) = concat (map particles_of L).
  Proof. unfold particles_of. induction L as [|l L IH]; [reflexivity|]. cbn [concat map]. rewrite flat_map_app, IH. auto. Qed.

  Lemma Pof_requested k c : c < cells -> as_requested parts a b (row c) c (Pof k c).
  Proof.
    intros Hx.
    assert (G : forall cc ps, nth_error (Pof k c) cc = Some ps -> cc < length (row c) /\ ps = chosen k c cc).
    { intros cc ps H. unfold Pof in H. rewrite nth_error_map_seq in H. destruct (Nat.ltb_spec cc (length (row c))); [|discriminate].
      injection H as <-. auto. }
    constructor.
    - apply Pof_length.
    - intros cc ps H. destruct (G cc ps H) as [Hcc ->]. unfold chosen. rewrite map_length.
      destruct (drawn_ok k c cc Hx Hcc) as [_ [_ [LD _]]]. rewrite LD. unfold nreq. apply nth_error_nth'. auto.
    - intros cc ps p H Hp. destruct (G cc ps H) as [Hcc ->]. apply (chosen_members k); auto.
    - rewrite particles_concat. unfold Pof. rewrite map_map, <- flat_map_concat_map. apply NoDup_flat_map; [apply seq_NoDup| |].
      + intros cc Hcc. apply in_seq in Hcc. apply chosen_distinct; auto. lia.
      + intros cc cc' y Hcc Hcc' Hy Hy'. apply in_seq in Hcc, Hcc'.
        unfold particles_of in Hy, Hy'. apply in_flat_map in Hy as [p [Hp Hy]], Hy' as [p' [Hp' Hy']].
        apply chosen_members in Hp as [A1 A2]; [|auto|lia]. apply chosen_members in Hp' as [B1 B2]; [|auto|lia].
        destruct Hy as [<-|[<-|[]]], Hy' as [E|[E|[]]]; rewrite E in *;
          match goal with H1 : In ?y (members _ _ cc _), H2 : In ?y (members _ _ cc' _) |- _ => destruct (members_disjoint _ _ _ _ _ _ H1 H2); auto end.
  Qed.
End Sample.
