(** Proofs about the other selectors: ordered kernel selection, ranges of cells,
    copies, the first and the remaining particles of each cell, unions. *)
From Coq Require Import List Arith ZArith Bool Lia Permutation.
Import ListNotations.
From Verif Require Import Base Kernel Scan_Spec Scan_Model Scan_Proofs Compress_Model Compress_Proofs.
From Verif Require Import Loop_Model Loop_Spec SubGroup_Model SubGroup_Spec SubGroup_Proofs SubGroupKernel_Proofs.

Lemma iterates_dn P content c : iterates P content -> c < length content ->
  nth_error (i_dn P) c = nth_error (ncnt content) c.
Proof.
  intros H Hc. destruct (nth_error_lt_some content c Hc) as [ls E]. destruct (H _ _ E) as [_ [D _]].
  rewrite D, (ncnt_nth _ _ _ E). auto.
Qed.

Lemma iterates_es P content c : iterates P content -> c < length content ->
  nth_error (i_es P) c = Some (psum (ncnt content) c).
Proof.
  intros H Hc. destruct (nth_error_lt_some content c Hc) as [ls E]. destruct (H _ _ E) as [_ [_ [D _]]].
  rewrite D, before_psum. auto.
Qed.

Lemma loop_index P content c l ls y : iterates P content -> nth_error content c = Some ls -> nth_error ls l = Some y ->
  get_loop_linear_index (i_es P) 0 c l = Some (psum (ncnt content) c + l) /\
  psum (ncnt content) c + l < number_of_particles content.
Proof.
  intros H E Ey. pose proof (nth_error_some_lt _ _ _ E) as Hc. unfold get_loop_linear_index, rd.
  rewrite (iterates_es _ _ _ H Hc), (iterates_es _ _ 0 H) by lia. cbn [obind].
  change (psum (ncnt content) 0) with 0. unfold sub_. rewrite Nat.sub_0_r. split; [auto|].
  pose proof (psum_lt _ _ (length content) _ (ncnt_nth _ _ _ E) Hc). rewrite <- number_psum in *.
  pose proof (nth_error_some_lt _ _ _ Ey). lia.
Qed.

Lemma loop_index_inj content c l ls c' l' ls' : nth_error content c = Some ls -> nth_error content c' = Some ls' ->
  l < length ls -> l' < length ls' -> psum (ncnt content) c + l = psum (ncnt content) c' + l' -> c = c' /\ l = l'.
Proof. intros E E' H H' Q. eapply psum_unique; try apply ncnt_nth; eauto. Qed.

Definition b2n (b : bool) : nat := if b then 1 else 0.

Lemma total_count {A} (f : A -> bool) l : total Nat.add 0 (map (fun y => b2n (f y)) l) = length (filter f l).
Proof.
  unfold total. induction l as [|x l IH]; cbn [map filter fold_right]; auto. rewrite IH.
  destruct (f x); cbn; auto.
Qed.

Lemma filter_nth {A} (f : A -> bool) l i y : nth_error l i = Some y -> f y = true ->
  nth_error (filter f l) (length (filter f (firstn i l))) = Some y.
Proof.
  intros E F. rewrite <- (firstn_skipn i l) at 1. rewrite filter_app, nth_error_app2, Nat.sub_diag by lia.
  assert (Es : nth_error (skipn i l) 0 = Some y) by (rewrite nth_error_skipn, Nat.add_0_r; auto).
  destruct (skipn i l) as [|x r]; [discriminate|]. injection Es as ->. cbn [filter]. rewrite F. auto.
Qed.

Lemma filter_nth_inv {A} (f : A -> bool) l : forall j y, nth_error (filter f l) j = Some y ->
  exists i, nth_error l i = Some y /\ f y = true /\ j = length (filter f (firstn i l)).
Proof.
  induction l as [|x l IH]; intros j y E; [destruct j; discriminate|].
  cbn [filter] in E. destruct (f x) eqn:F.
  - destruct j as [|j].
    + injection E as <-. exists 0. cbn. auto.
    + destruct (IH j y E) as [i [E1 [E2 E3]]]. exists (S i). split; [auto|]. split; [auto|].
      cbn [firstn filter]. rewrite F. cbn. auto.
  - destruct (IH j y E) as [i [E1 [E2 E3]]]. exists (S i). split; [auto|]. split; [auto|].
    cbn [firstn filter]. rewrite F. auto.
Qed.

(** The index in the result identifies the element. *)
Lemma filter_rank_inj {A} (f : A -> bool) l i i' y y' : nth_error l i = Some y -> nth_error l i' = Some y' ->
  f y = true -> f y' = true -> length (filter f (firstn i l)) = length (filter f (firstn i' l)) -> i = i'.
Proof.
  intros E E' F F' Q.
  assert (G : forall i i' y, i < i' -> nth_error l i = Some y -> f y = true -> length (filter f (firstn i l)) < length (filter f (firstn i' l))).
  { clear. intros i i' y Hi E F. replace i' with (i + (i' - i)) by lia. rewrite firstn_add, filter_app, app_length.
    assert (Es : nth_error (skipn i l) 0 = Some y) by (rewrite nth_error_skipn, Nat.add_0_r; auto).
    destruct (skipn i l) as [|x r]; [discriminate|]. injection Es as ->. destruct (i' - i) eqn:Z0; [lia|].
    cbn [firstn filter]. rewrite F. cbn. lia. }
  destruct (lt_eq_lt_dec i i') as [[H|H]|H]; auto; exfalso.
  - pose proof (G _ _ _ H E F). lia.
  - pose proof (G _ _ _ H E' F'). lia.
Qed.

Theorem scan_selector_correct CL d k cc npart kern P0 P1 content m :
  device_ok d -> 1 <= cc -> map_sizes CL cc m -> length content = cc -> npart = number_of_particles content ->
  iterates P0 content -> iterates P1 content ->
  exists m' s, scan_selector_create d k cc npart kern P0 P1 m = Some (m', s) /\
    map_sizes CL cc m' /\ selects s m' (chosen kern content).
Proof.
  intros D Hcc Sz Lc -> H0 H1. pose proof Sz as [S1 [S2 [S3 [S4 [S5 S6]]]]]. unfold scan_selector_create.
  set (N := number_of_particles content) in *. set (nc := ncnt content).
  assert (Lnc : length nc = cc) by (unfold nc, ncnt; rewrite map_length; auto).
  destruct (fill_prefix_correct 0 (fresh d k N) N) as [masks0 [E0 [L0 F0]]]; [rewrite fresh_length; auto|].
  rewrite fresh_length in L0. rewrite E0. cbn [obind].
  set (kv := fun p : nat * nat => kern (fst p) (lay_of content p)).
  (* loop 0 *)
  destruct (foldM_kernel (scan_loop_0 kern P0) (fun s j => nth_error s j) (fun s => length s = N)
    (fun p j => if kv p && (j =? psum nc (fst p) + snd p) then Some 1 else None)
    (ord d (k + 1) (particles_of_cells (i_dn P0) 0 cc)) masks0) as [masks [E1 [L1 [W1 K1]]]].
  { auto. }
  { intros s [c l] Ls Hi. apply in_ord in Hi; auto. rewrite <- Lc in Hi. apply visits_in in Hi; auto.
    destruct Hi as [ls [y [E Ey]]]. destruct (H0 _ _ E) as [_ [_ [_ Hl]]].
    unfold scan_loop_0. rewrite (Hl _ _ Ey). cbn [obind]. destruct (loop_index _ _ _ _ _ _ H0 E Ey) as [-> B]. cbn [obind].
    unfold kv. cbn [fst snd]. rewrite (lay_of_eq _ _ _ _ _ E Ey). destruct (kern c y); cbn [andb].
    - destruct (upd_some s (psum (ncnt content) c + l) 1) as [s' Es]; [unfold N in Ls; lia|]. exists s'. split; [auto|]. split.
      + rewrite (upd_length _ _ _ _ Es); auto.
      + intros j. rewrite (upd_nth _ _ _ _ _ Es). unfold nc. destruct (j =? _); auto.
    - exists s. auto. }
  { intros a b j v w _ _. destruct (kv a && _), (kv b && _); congruence. }
  rewrite E1. cbn [obind].
  assert (Hm : forall c ls l y, nth_error content c = Some ls -> nth_error ls l = Some y ->
     nth_error masks (psum nc c + l) = Some (b2n (kern c y))).
  { intros c ls l y E Ey. destruct (loop_index _ _ _ _ _ _ H0 E Ey) as [_ B].
    assert (Hin : In (c, l) (ord d (k + 1) (particles_of_cells (i_dn P0) 0 cc))).
    { apply in_ord; auto. rewrite <- Lc. apply visits_in; eauto. }
    destruct (kern c y) eqn:K.
    - apply (W1 (c, l)); auto. unfold kv. cbn [fst snd]. rewrite (lay_of_eq _ _ _ _ _ E Ey), K, Nat.eqb_refl. auto.
    - rewrite K1.
      + rewrite F0. destruct (Nat.ltb_spec (psum nc c + l) N); [auto|]. unfold nc, N in *. lia.
      + intros [c' l'] Hi. destruct (kv (c', l')) eqn:Kv; cbn [andb]; auto.
        destruct (Nat.eqb_spec (psum nc c + l) (psum nc (fst (c', l')) + snd (c', l'))) as [Q|]; auto. cbn [fst snd] in Q.
        apply in_ord in Hi; auto. rewrite <- Lc in Hi. apply visits_in in Hi; auto.
        destruct Hi as [ls' [y' [E' Ey']]].
        destruct (loop_index_inj content c l ls c' l' ls' E E') as [-> ->]; eauto using nth_error_some_lt.
        unfold kv in Kv. cbn [fst] in Kv. rewrite (lay_of_eq _ _ _ _ _ E Ey) in Kv. congruence. }
  destruct (fill_prefix_correct 0 (fresh d (k + 2) N) N) as [mes0 [E2 [L2 F2]]]; [rewrite fresh_length; auto|].
  rewrite fresh_length in L2. rewrite E2. cbn [obind].
  assert (Esz : slice (i_dn P0) 0 cc = Some nc).
  { assert (Hlen : cc <= length (i_dn P0)).
    { pose proof (iterates_dn P0 content (cc - 1) H0 ltac:(lia)) as Q.
      destruct (nth_error_lt_some nc (cc - 1)) as [x Ex]; [lia|]. unfold nc in Ex. rewrite Ex in Q.
      apply nth_error_some_lt in Q. lia. }
    rewrite slice_some by lia.
    f_equal. apply nth_error_ext. intros i. rewrite Nat.sub_0_r. cbn [skipn]. rewrite nth_error_firstn.
    destruct (Nat.ltb_spec i cc).
    - apply iterates_dn; auto. lia.
    - symmetry. apply nth_error_None. lia. }
  rewrite Esz. cbn [obind].
  assert (Les : cc <= length (i_es P0)).
  { pose proof (iterates_es P0 content (cc - 1) H0 ltac:(lia)) as Q. apply nth_error_some_lt in Q. lia. }
  destruct (dev_copy_correct d (k + 4) (i_es P0) (fresh d (k + 3) cc) cc) as [offs [E3 [L3 F3]]]; [auto|auto|rewrite fresh_length; auto|].
  rewrite fresh_length in L3. rewrite E3. cbn [obind].
  assert (Eoff : offs = map (psum nc) (seq 0 (length nc))).
  { apply nth_error_ext. intros i. rewrite F3, nth_error_map_seq, Lnc. destruct (Nat.ltb_spec i cc).
    - rewrite (iterates_es _ _ _ H0) by lia. auto.
    - apply nth_error_None. rewrite fresh_length. auto. }
  destruct (scan_n_sum_correct Nat.add 0 nat_monoid (fun i => Z.to_nat (junk d (k + 5) i))
     (ord d (k + 6) (seq 0 cc)) (ord d (k + 7) (seq 0 cc)) nc offs masks mes0 (m_dn m)) as [mes [dn [E4 [G1 [G2 L4]]]]].
  { rewrite Eoff. apply segments_psum. rewrite L1, Lnc. unfold N. rewrite number_psum, Lc. auto. }
  { lia. }
  { lia. }
  { rewrite Lnc. apply D. }
  { rewrite Lnc. apply D. }
  rewrite E4. cbn [obind].
  assert (Hoff : forall c, c < cc -> nth_error offs c = Some (psum nc c)).
  { intros c H. rewrite Eoff, nth_error_map_seq, Lnc. apply Nat.ltb_lt in H. rewrite H. auto. }
  assert (Hseg : forall c ls, nth_error content c = Some ls -> firstn (length ls) (skipn (psum nc c) masks) = map (fun y => b2n (kern c y)) ls).
  { intros c ls E. apply nth_error_ext. intros i. rewrite nth_error_firstn, nth_error_map.
    destruct (Nat.ltb_spec i (length ls)) as [Hi|Hi].
    - rewrite nth_error_skipn. destruct (nth_error_lt_some ls i Hi) as [y Ey]. rewrite (Hm _ _ _ _ E Ey), Ey. auto.
    - apply nth_error_None in Hi. rewrite Hi. auto. }
  assert (Hmes : forall c ls l y, nth_error content c = Some ls -> nth_error ls l = Some y ->
     nth_error mes (psum nc c + l) = Some (length (filter (kern c) (firstn l ls)))).
  { intros c ls l y E Ey. pose proof (nth_error_some_lt _ _ _ E) as Hc. pose proof (nth_error_some_lt _ _ _ Ey) as Hl.
    destruct G1 as [G1 _]. rewrite (G1 c (length ls) (psum nc c) l) by (first [apply Hoff; lia | apply ncnt_nth; assumption | assumption]).
    f_equal. replace (firstn l (skipn (psum nc c) masks)) with (firstn l (firstn (length ls) (skipn (psum nc c) masks))).
    - rewrite (Hseg _ _ E), firstn_map. apply total_count.
    - rewrite firstn_firstn. f_equal. lia. }
  set (content' := chosen kern content).
  assert (Lc' : length content' = cc) by (unfold content', chosen; rewrite per_cell_length; auto).
  assert (Ect : forall c ls', nth_error content' c = Some ls' -> exists ls, nth_error content c = Some ls /\ ls' = filter (kern c) ls).
  { intros c ls' E. unfold content', chosen in E. rewrite per_cell_nth in E. destruct (nth_error content c); [|discriminate].
    injection E as <-. eauto. }
  assert (Ect' : forall c ls, nth_error content c = Some ls -> nth_error content' c = Some (filter (kern c) ls)).
  { intros c ls E. unfold content', chosen. rewrite per_cell_nth, E. auto. }
  assert (Hdn : forall c ls', nth_error content' c = Some ls' -> nth_error dn c = Some (length ls')).
  { intros c ls' E'. destruct (Ect _ _ E') as [ls [E ->]]. pose proof (nth_error_some_lt _ _ _ E) as Hc.
    rewrite (G2 c (length ls) (psum nc c)) by (first [apply Hoff; lia | apply ncnt_nth; assumption | assumption]).
    rewrite (Hseg _ _ E), total_count. auto. }
  destruct (copy_prefix_correct dn (m_hn m) cc) as [hn [E5 [L5 F5]]]; [lia|lia|]. rewrite E5. cbn [obind].
  destruct (fill_prefix_correct 0 offs cc) as [es0 [E6 [L6 F6]]]; [lia|]. rewrite E6. cbn [obind].
  destruct (exscan_correct d (k + 8) cc dn es0 D) as [es [E7 [X1 [X2 X3]]]]; [lia|lia|]. rewrite E7. cbn [obind].
  destruct (dev_copy_correct d (k + 9) es (m_des m) cc) as [des [E8 [L8 F8]]]; [auto|lia|lia|]. rewrite E8. cbn [obind].
  destruct (copy_prefix_correct des (m_hes m) cc) as [hes [E9 [L9 F9]]]; [lia|lia|]. rewrite E9. cbn [obind].
  assert (Hhn : forall c ls, nth_error content' c = Some ls -> nth_error hn c = Some (length ls)).
  { intros c ls E. rewrite F5. pose proof (nth_error_some_lt _ _ _ E) as H. rewrite Lc' in H. apply Nat.ltb_lt in H. rewrite H. auto. }
  assert (Hdes : forall c, c < cc -> nth_error des c = Some (particles_before content' c)).
  { intros c H. rewrite F8. pose proof H as H'. apply Nat.ltb_lt in H'. rewrite H'. rewrite X1 by auto. f_equal.
    rewrite before_psum. apply psum_ext. intros i Hi. destruct (nth_error_lt_some content' i) as [ls E]; [lia|].
    rewrite (Hdn _ _ E), (ncnt_nth _ _ _ E). auto. }
  assert (Hhes : forall c, c < cc -> nth_error hes c = Some (particles_before content' c)).
  { intros c H. rewrite F9. pose proof H as H'. apply Nat.ltb_lt in H'. rewrite H'. auto. }
  destruct (map_create_correct d (k + 10) CL cc (with_counts m hn dn hes des) content') as [m1 [E10 [Sz1 [M1 [M2 [M3 [M4 [M5 [M6 M7]]]]]]]]]; auto.
  { unfold map_sizes, with_counts; cbn. lia. }
  rewrite E10. cbn [obind]. cbn [with_counts m_hn m_dn m_hes m_des] in M1, M2, M3, M4.
  (* loop 1 *)
  destruct (fill_map (scan_loop_1 P1 masks mes m1)
     (fun p q => if (fst q =? fst p) && kv p && (snd q =? length (filter (kern (fst p)) (firstn (snd p) (nth (fst p) content []))))
                 then Some (lay_of content p) else None)
     (ord d (k + 11) (particles_of_cells (i_dn P1) 0 cc)) (m_layers m1) content') as [lay [E11 [L11 F11]]].
  { intros lay [c l] Ll Hi. apply in_ord in Hi; auto. rewrite <- Lc in Hi. apply visits_in in Hi; auto.
    destruct Hi as [ls [y [E Ey]]]. destruct (H1 _ _ E) as [_ [_ [_ Hl]]].
    unfold scan_loop_1. rewrite (Hl _ _ Ey). cbn [obind]. destruct (loop_index _ _ _ _ _ _ H1 E Ey) as [-> B]. cbn [obind].
    unfold rd. fold nc. rewrite (Hm _ _ _ _ E Ey), (Hmes _ _ _ _ E Ey). cbn [obind]. unfold kv. cbn [fst snd].
    rewrite (lay_of_eq _ _ _ _ _ E Ey), (nth_error_nth _ _ [] E). destruct (kern c y) eqn:K; unfold b2n; cbn [Nat.eqb].
    - pose proof (filter_nth _ _ _ _ Ey K) as Ef. 
      destruct (put_layer_correct m1 lay content' c _ (length (filter (kern c) (firstn l ls))) y M5 ltac:(lia) (Ect' _ _ E)) as [lay' [Ep [Lp Fp]]].
      { eapply nth_error_some_lt; eauto. }
      exists lay'. split; [auto|]. split; [lia|]. intros c' ls' j' E' Hj'. rewrite (Fp _ _ _ E' Hj'), andb_true_r.
      destruct (_ && _); auto.
    - exists lay. split; [auto|]. split; [auto|]. intros. rewrite andb_false_r. cbn [andb]. auto. }
  { intros [c l] c' j ls' v Hi E'. cbn [fst snd]. destruct (Nat.eqb_spec c' c) as [->|]; [|discriminate]. cbn [andb].
    destruct (kv (c, l)) eqn:Kv; [|discriminate]. cbn [andb].
    apply in_ord in Hi; auto. rewrite <- Lc in Hi. apply visits_in in Hi; auto. destruct Hi as [ls [y [E Ey]]].
    rewrite (lay_of_eq _ _ _ _ _ E Ey), (nth_error_nth _ _ [] E). destruct (Nat.eqb_spec j (length (filter (kern c) (firstn l ls)))) as [->|]; [|discriminate].
    intros [= <-]. rewrite (Ect' _ _ E) in E'. injection E' as <-. apply filter_nth; auto.
    unfold kv in Kv. cbn [fst] in Kv. rewrite (lay_of_eq _ _ _ _ _ E Ey) in Kv. auto. }
  { intros c j ls' v E' Ej. destruct (Ect _ _ E') as [ls [E ->]]. destruct (filter_nth_inv _ _ _ _ Ej) as [i [Ei [K ->]]].
    exists (c, i), v. split; [apply in_ord; auto; rewrite <- Lc; apply visits_in; eauto|].
    cbn [fst snd]. unfold kv. cbn [fst snd]. rewrite (lay_of_eq _ _ _ _ _ E Ei), (nth_error_nth _ _ [] E), K, !Nat.eqb_refl. auto. }
  rewrite E11. cbn [obind]. eexists _, _. split; [reflexivity|].
  assert (Sz' : map_sizes CL cc (with_layers m1 lay)) by exact Sz1.
  split; [exact Sz'|]. eapply selects_intro; cbn [with_layers m_hn m_dn m_hes m_des m_starts m_layers]; eauto; try congruence.
  all: try (intros; rewrite ?M1, ?M2, ?M3, ?M4; eauto).
Qed.

(** ** Ranges of cells *)
Lemma foldM_seq_ind {T} (f : T -> nat -> option T) (Q : nat -> T -> Prop) a n s0 : Q a s0 ->
  (forall c s, a <= c < a + n -> Q c s -> exists s', f s c = Some s' /\ Q (c + 1) s') ->
  exists s', foldM f s0 (seq a n) = Some s' /\ Q (a + n) s'.
Proof.
  revert a s0. induction n as [|n IH]; intros a s0 H0 Hs; cbn [seq foldM].
  - exists s0. rewrite Nat.add_0_r. auto.
  - destruct (Hs a s0 ltac:(lia) H0) as [s1 [E1 H1]]. rewrite E1. cbn [obind].
    destruct (IH (S a) s1) as [s2 [E2 H2]].
    + rewrite <- Nat.add_1_r. auto.
    + intros c s Hc Hq. apply Hs; auto. lia.
    + exists s2. split; [auto|]. replace (a + S n) with (S a + n) by lia. auto.
Qed.

Lemma in_cells_nth first last content c : nth_error (in_cells first last content) c =
  option_map (fun ls => if (first <=? c) && (c <? last) then ls else []) (nth_error content c).
Proof. unfold in_cells. apply per_cell_nth. Qed.

Lemma range_counts_correct cc first last content src hn hes : length content = cc -> first <= last -> last <= cc ->
  (forall c ls, nth_error content c = Some ls -> nth_error src c = Some (length ls)) ->
  cc <= length hn -> length hes = cc ->
  exists hn' hes' mx, range_counts cc first last src hn hes = Some (hn', hes', number_of_particles (in_cells first last content), mx) /\
    length hn' = length hn /\ length hes' = cc /\
    (forall c ls, nth_error (in_cells first last content) c = Some ls -> nth_error hn' c = Some (length ls) /\ length ls <= mx) /\
    (forall c, c < cc -> nth_error hes' c = Some (particles_before (in_cells first last content) c)).
Proof.
  intros Lc Hfl Hl Hs Ln Le. set (ct := in_cells first last content).
  assert (Lct : length ct = cc) by (unfold ct, in_cells; rewrite per_cell_length; auto).
  set (nc := ncnt ct). assert (Lnc : length nc = cc) by (unfold nc, ncnt; rewrite map_length; auto).
  assert (Hlen : forall c, c < cc -> nth_error nc c = Some (if (first <=? c) && (c <? last) then length (nth c content []) else 0)).
  { intros c H. destruct (nth_error_lt_some content c) as [ls E]; [lia|].
    unfold nc. rewrite (ncnt_nth ct c (if (first <=? c) && (c <? last) then ls else [])).
    - rewrite (nth_error_nth _ _ [] E). destruct (_ && _); auto.
    - unfold ct. rewrite in_cells_nth, E. auto. }
  unfold range_counts.
  set (Q := fun (c : nat) (hh : list nat * list nat) => length (fst hh) = length hn /\ length (snd hh) = cc /\
    forall i, i < c -> nth_error (fst hh) i = nth_error nc i /\ nth_error (snd hh) i = Some (psum nc i)).
  assert (Qs : forall c h e n, c < cc -> Q c (h, e) -> nth_error nc c = Some n -> exists h' e', upd h c n = Some h' /\ upd e c (psum nc c) = Some e' /\ Q (c + 1) (h', e')).
  { intros c h e n Hc [Q1 [Q2 Q3]] En. cbn [fst snd] in *. destruct (upd_some h c n) as [h' Eh]; [lia|].
    destruct (upd_some e c (psum nc c)) as [e' Ee]; [lia|]. exists h', e'. split; [auto|]. split; [auto|].
    split; [cbn; rewrite (upd_length _ _ _ _ Eh); auto|]. split; [cbn; rewrite (upd_length _ _ _ _ Ee); auto|].
    cbn [fst snd]. intros i Hi. rewrite (upd_nth _ _ _ _ _ Eh), (upd_nth _ _ _ _ _ Ee).
    destruct (Nat.eqb_spec i c) as [->|]; [auto|]. apply Q3. lia. }
  destruct (foldM_seq_ind (fun st c => let '(hn, hes) := st in hn' <- upd hn c 0 ;; hes' <- upd hes c 0 ;; Some (hn', hes'))
    (fun c hh => Q c hh /\ psum nc c = 0) 0 first (hn, hes)) as [[h1 e1] [E1 [Q1 P1]]].
  { split; [split; [auto|split; [auto|intros; lia]]|auto]. }
  { intros c [h e] Hc [Hq Hp]. assert (En : nth_error nc c = Some 0).
    { rewrite Hlen by lia. destruct (Nat.leb_spec first c); [lia|]. auto. }
    destruct (Qs c h e 0 ltac:(lia) Hq En) as [h' [e' [Eh [Ee Hq']]]]. rewrite Hp in Ee. rewrite Eh. cbn [obind]. rewrite Ee. cbn [obind].
    exists (h', e'). split; [auto|]. split; [auto|]. rewrite Nat.add_1_r, (psum_S _ _ _ En). lia. }
  rewrite E1. cbn [obind]. cbn [plus] in Q1, P1.
  destruct (foldM_seq_ind (fun st c => let '(hn, hes, t, mx) := st in
          n <- rd src c ;; hn' <- upd hn c n ;; hes' <- upd hes c t ;; Some (hn', hes', t + n, Nat.max n mx))
    (fun c st => let '(h, e, t, mx) := st in Q c (h, e) /\ t = psum nc c /\ (forall i n, i < c -> nth_error nc i = Some n -> n <= mx))
    first (last - first) (h1, e1, 0, 0)) as [[[[h2 e2] t] mx] [E2 [Q2 [P2 X2]]]].
  { split; [auto|]. split; [auto|]. intros i n Hi En. rewrite Hlen in En by lia.
    destruct (Nat.leb_spec first i); [lia|]. cbn in En. injection En as <-. auto. }
  { intros c [[[h e] t] mx] Hc [Hq [Hp Hx]]. destruct (nth_error_lt_some content c) as [ls E]; [lia|].
    assert (En : nth_error nc c = Some (length ls)).
    { rewrite Hlen by lia. rewrite (nth_error_nth _ _ [] E). destruct (Nat.leb_spec first c); [|lia].
      destruct (Nat.ltb_spec c last); [|lia]. auto. }
    destruct (Qs c h e _ ltac:(lia) Hq En) as [h' [e' [Eh [Ee Hq']]]]. subst t. unfold rd. rewrite (Hs _ _ E). cbn [obind].
    rewrite Eh. cbn [obind]. rewrite Ee. cbn [obind]. eexists. split; [reflexivity|]. cbn zeta.
    split; [auto|]. split; [rewrite Nat.add_1_r, (psum_S _ _ _ En); auto|].
    intros i n Hi Ei. destruct (Nat.eq_dec i c) as [->|]; [|pose proof (Hx i n ltac:(lia) Ei); lia].
    assert (n = length ls) by congruence. lia. }
  replace (first + (last - first)) with last in * by lia.
  rewrite E2. cbn [obind].
  destruct (foldM_seq_ind (fun st c => let '(hn, hes) := st in hn' <- upd hn c 0 ;; hes' <- upd hes c t ;; Some (hn', hes'))
    (fun c hh => Q c hh /\ t = psum nc c) last (cc - last) (h2, e2)) as [[h3 e3] [E3 [Q3 P3]]].
  { auto. }
  { intros c [h e] Hc [Hq Hp]. assert (En : nth_error nc c = Some 0).
    { rewrite Hlen by lia. destruct (Nat.ltb_spec c last); [lia|]. rewrite andb_false_r. auto. }
    destruct (Qs c h e 0 ltac:(lia) Hq En) as [h' [e' [Eh [Ee Hq']]]]. rewrite <- Hp in Ee. rewrite Eh. cbn [obind]. rewrite Ee. cbn [obind].
    exists (h', e'). split; [auto|]. split; [auto|]. rewrite Nat.add_1_r, (psum_S _ _ _ En). lia. }
  replace (last + (cc - last)) with cc in * by lia.
  rewrite E3. cbn [obind]. destruct Q3 as [Z1 [Z2 Z3]]. cbn [fst snd] in *.
  exists h3, e3, mx. split; [rewrite number_psum, Lct; subst t; unfold nc in *; congruence|].
  split; [auto|]. split; [auto|]. split.
  - intros c ls E. pose proof (nth_error_some_lt _ _ _ E) as Hc. rewrite Lct in Hc.
    pose proof (ncnt_nth _ _ _ E) as En. fold nc in En. split; [destruct (Z3 c Hc) as [-> _]; auto|].
    destruct (le_lt_dec last c); [|eapply X2; eauto].
    rewrite Hlen in En by auto. destruct (Nat.ltb_spec c last); [lia|]. rewrite andb_false_r in En. injection En as <-. lia.
  - intros c Hc. destruct (Z3 c Hc) as [_ ->]. rewrite before_psum. auto.
Qed.

Lemma next_multiple_ge n m : 1 <= m -> n <= get_next_multiple n m.
Proof.
  intros H. unfold get_next_multiple.
  pose proof (Nat.div_mod (n + (m - 1)) m ltac:(lia)). pose proof (Nat.mod_upper_bound (n + (m - 1)) m ltac:(lia)). nia.
Qed.

Lemma in_items d n mx c l : In (c, l) (cell_layer_items d n mx) <-> c < n /\ l < get_next_multiple mx (local_size d).
Proof. unfold cell_layer_items. rewrite in_prod_iff, !in_seq. lia. Qed.

(** What the constructor establishes and [create] needs and keeps. *)
Definition range_ready (CL cc first last : nat) (m : pmap) : Prop :=
  map_sizes CL cc m /\ first <= last <= cc /\
  (first = last -> forall c, c < cc -> nth_error (m_dn m) c = Some 0 /\ nth_error (m_des m) c = Some 0).

Lemma cell_selector_init_correct CL cc first last m : map_sizes CL cc m ->
  (0 <= first <= last)%Z -> (last <= Z.of_nat cc)%Z ->
  exists m', cell_selector_init cc first last m = Some m' /\ range_ready CL cc (Z.to_nat first) (Z.to_nat last) m'.
Proof.
  intros [S1 [S2 [S3 [S4 [S5 S6]]]]] H1 H2. unfold cell_selector_init.
  assert (A1 : (((-1 <? first) && (first <=? Z.of_nat cc))%Z = true)) by (apply andb_true_iff; split; [apply Z.ltb_lt|apply Z.leb_le]; lia).
  assert (A2 : (((-1 <? last) && (last <=? Z.of_nat cc))%Z = true)) by (apply andb_true_iff; split; [apply Z.ltb_lt|apply Z.leb_le]; lia).
  assert (A3 : (first <=? last)%Z = true) by (apply Z.leb_le; lia).
  rewrite A1, A2, A3. cbn [assert obind].
  destruct (fill_prefix_correct 0 (m_hes m) cc) as [hes [E1 [L1 F1]]]; [lia|]. rewrite E1; cbn [obind].
  destruct (fill_prefix_correct 0 (m_des m) cc) as [des [E2 [L2 F2]]]; [lia|]. rewrite E2; cbn [obind].
  destruct (fill_prefix_correct 0 (m_hn m) cc) as [hn [E3 [L3 F3]]]; [lia|]. rewrite E3; cbn [obind].
  destruct (fill_prefix_correct 0 (m_dn m) cc) as [dn [E4 [L4 F4]]]; [lia|]. rewrite E4; cbn [obind].
  eexists. split; [reflexivity|]. split; [unfold map_sizes; cbn; lia|]. split; [lia|].
  intros _ c Hc. cbn. rewrite F2, F4. apply Nat.ltb_lt in Hc. rewrite Hc. auto.
Qed.

Lemma cell_selector_init_rejects cc first last m :
  ~ (0 <= first <= last /\ last <= Z.of_nat cc)%Z -> cell_selector_init cc first last m = None.
Proof.
  intros H. unfold cell_selector_init.
  destruct ((-1 <? first) && (first <=? Z.of_nat cc))%Z eqn:A1; [|auto].
  destruct ((-1 <? last) && (last <=? Z.of_nat cc))%Z eqn:A2; [|auto].
  destruct (first <=? last)%Z eqn:A3; [|auto]. exfalso. apply H.
  apply andb_true_iff in A1 as [A1 _]. apply andb_true_iff in A2 as [_ A2].
  apply Z.ltb_lt in A1. apply Z.leb_le in A2, A3. lia.
Qed.

Theorem cell_selector_correct CL d k cc first last P content m :
  device_ok d -> range_ready CL cc first last m -> length content = cc -> iterates P content ->
  exists m' s, cell_selector_create d k cc first last P m = Some (m', s) /\
    range_ready CL cc first last m' /\ selects s m' (in_cells first last content).
Proof.
  intros D [Sz [Hr Hz]] Lc HP. pose proof Sz as [S1 [S2 [S3 [S4 [S5 S6]]]]]. unfold cell_selector_create.
  set (ct := in_cells first last content).
  assert (Lct : length ct = cc) by (unfold ct, in_cells; rewrite per_cell_length; auto).
  destruct (fill_prefix_correct 0 (m_hn m) cc) as [hn0 [E0 [L0 F0]]]; [lia|]. rewrite E0. cbn [obind].
  destruct (range_counts_correct cc first last content (i_hn P) hn0 (m_hes m)) as [hn [hes [mx [E1 [L1 [L1' [F1 G1]]]]]]]; auto; try lia.
  { intros c ls E. apply (HP _ _ E). }
  rewrite E1. cbn [obind]. fold ct in F1, G1, E1 |- *.
  assert (Ect : forall c ls, nth_error ct c = Some ls -> ls <> [] -> nth_error content c = Some ls /\ first <= c < last).
  { intros c ls E N. unfold ct in E. rewrite in_cells_nth in E. destruct (nth_error content c) as [l0|]; [|discriminate].
    cbn [option_map] in E. destruct ((first <=? c) && (c <? last)) eqn:B; [|injection E as <-; congruence].
    apply andb_true_iff in B as [B1 B2]. apply Nat.leb_le in B1. apply Nat.ltb_lt in B2. split; [auto|lia]. }
  assert (Hds : exists des dn, (if 0 <? last - first then
           des <- copy_prefix hes (m_des m) cc ;; dn <- copy_prefix hn (m_dn m) cc ;; Some (des, dn)
         else Some (m_des m, m_dn m)) = Some (des, dn) /\ length des = cc /\ length dn = cc + cc * CL /\
         (forall c ls, nth_error ct c = Some ls -> nth_error dn c = Some (length ls)) /\
         (forall c, c < cc -> nth_error des c = Some (particles_before ct c)) /\
         (first = last -> forall c, c < cc -> nth_error dn c = Some 0 /\ nth_error des c = Some 0)).
  { destruct (Nat.ltb_spec 0 (last - first)) as [H|H].
    - destruct (copy_prefix_correct hes (m_des m) cc) as [des [E2 [L2 F2]]]; [lia|lia|]. rewrite E2. cbn [obind].
      destruct (copy_prefix_correct hn (m_dn m) cc) as [dn [E3 [L3 F3]]]; [lia|lia|]. rewrite E3. cbn [obind].
      exists des, dn. split; [auto|]. split; [lia|]. split; [lia|]. split; [|split; [|lia]].
      + intros c ls E. rewrite F3. pose proof (nth_error_some_lt _ _ _ E) as Hc. rewrite Lct in Hc. apply Nat.ltb_lt in Hc. rewrite Hc. apply F1; auto.
      + intros c Hc. rewrite F2. pose proof Hc as Hc'. apply Nat.ltb_lt in Hc'. rewrite Hc'. auto.
    - assert (first = last) by lia. exists (m_des m), (m_dn m). split; [auto|]. split; [auto|]. split; [auto|].
      assert (Hnil : forall c ls, nth_error ct c = Some ls -> ls = []).
      { intros c ls E. destruct ls as [|x ls]; auto. destruct (Ect _ _ E ltac:(discriminate)) as [_ B]. lia. }
      split; [|split; [|auto]].
      + intros c ls E. pose proof (nth_error_some_lt _ _ _ E) as Hc. rewrite Lct in Hc. rewrite (Hnil _ _ E). apply Hz; auto.
      + intros c Hc. destruct (Hz ltac:(lia) c Hc) as [_ ->]. f_equal. symmetry. rewrite before_psum.
        rewrite (psum_flat _ 0 c); [auto|lia|]. intros i Hi. destruct (nth_error_lt_some ct i) as [ls E]; [lia|].
        rewrite (nth_error_nth _ _ _ (ncnt_nth _ _ _ E)), (Hnil _ _ E). auto. }
  destruct Hds as [des [dn [E2 [L2 [L3 [F2 [F3 F4]]]]]]]. rewrite E2. cbn [obind].
  destruct (map_create_range d k CL cc first last (with_counts m hn dn hes des) ct) as [m1 [E6 [Sz1 [M1 [M2 [M3 [M4 [M5 [M6 M7]]]]]]]]]; auto; try lia.
  { unfold map_sizes, with_counts; cbn. lia. }
  { intros c ls E. cbn. apply F1; auto. }
  { intros c ls E H. destruct ls as [|x ls]; auto. destruct (Ect _ _ E ltac:(discriminate)). lia. }
  rewrite E6. cbn [obind]. cbn [with_counts m_hn m_dn m_hes m_des] in M1, M2, M3, M4.
  assert (Hlay : exists lay, (if (0 <? last - first) && (0 <? mx) then
            foldM (range_kernel first P m1) (m_layers m1) (ord d (k + 1) (cell_layer_items d (last - first) mx))
          else Some (m_layers m1)) = Some lay /\ length lay = length (m_layers m1) /\
     forall c ls j v, nth_error ct c = Some ls -> nth_error ls j = Some v -> nth_error lay (psum (ncnt ct) c + j) = Some v).
  { destruct ((0 <? last - first) && (0 <? mx)) eqn:B.
    - destruct (fill_map (range_kernel first P m1)
         (fun p q => if (fst q =? fst p + first) && (snd q =? snd p) then nth_error (nth (fst q) ct []) (snd q) else None)
         (ord d (k + 1) (cell_layer_items d (last - first) mx)) (m_layers m1) ct) as [lay H]; [| | |exists lay; exact H].
      + intros lay [i l] Ll Hi. apply in_ord in Hi; auto. apply in_items in Hi. unfold range_kernel. cbn [fst snd].
        destruct (nth_error_lt_some ct (i + first)) as [ls E]; [lia|].
        unfold rd. rewrite M2, (F2 _ _ E). cbn [obind]. destruct (Nat.ltb_spec l (length ls)) as [Hl|Hl].
        * destruct (nth_error_lt_some ls l Hl) as [v Ev].
          destruct (Ect _ _ E) as [E' _]; [intros ->; cbn in Hl; lia|]. destruct (HP _ _ E') as [_ [_ [_ Hly]]].
          rewrite (Hly _ _ Ev). cbn [obind].
          destruct (put_layer_correct m1 lay ct (i + first) ls l v M5 ltac:(lia) E Hl) as [lay' [Ep [Lp Fp]]].
          exists lay'. split; [auto|]. split; [lia|]. intros c' ls' j' Ec Hj. rewrite (Fp _ _ _ Ec Hj).
          destruct (Nat.eqb_spec c' (i + first)) as [->|]; [|auto]. destruct (Nat.eqb_spec j' l) as [->|]; [|auto]. cbn [andb].
          rewrite (nth_error_nth _ _ [] Ec). replace ls' with ls by congruence. rewrite Ev. auto.
        * exists lay. split; [auto|]. split; [auto|]. intros c' ls' j' Ec Hj.
          destruct (Nat.eqb_spec c' (i + first)) as [->|]; [|auto]. destruct (Nat.eqb_spec j' l) as [->|]; [|auto]. exfalso.
          replace ls' with ls in Hj by congruence. lia.
      + intros [i l] c j ls v _ E. cbn [fst snd]. destruct ((c =? i + first) && (j =? l)); [|discriminate]. rewrite (nth_error_nth _ _ [] E). auto.
      + intros c j ls v E Ej. pose proof (nth_error_some_lt _ _ _ Ej) as Hj.
        destruct (Ect _ _ E) as [_ Hc]; [intros ->; cbn in Hj; lia|]. exists (c - first, j), v. split.
        * apply in_ord; auto. apply in_items. split; [lia|]. destruct (F1 _ _ E) as [_ Hm].
          pose proof (next_multiple_ge mx (local_size d) ltac:(apply D)). lia.
        * cbn [fst snd]. replace (c - first + first) with c by lia. rewrite !Nat.eqb_refl. cbn [andb].
          rewrite (nth_error_nth _ _ [] E). auto.
    - exists (m_layers m1). split; [auto|]. split; [auto|]. intros c ls j v E Ej. exfalso.
      pose proof (nth_error_some_lt _ _ _ Ej) as Hj. destruct (Ect _ _ E) as [_ Hc]; [intros ->; cbn in Hj; lia|].
      destruct (F1 _ _ E) as [_ Hm]. apply andb_false_iff in B as [B|B]; apply Nat.ltb_ge in B; lia. }
  destruct Hlay as [lay [E7 [L7 F7]]]. rewrite E7. cbn [obind].
  eexists _, _. split; [reflexivity|]. split.
  - split; [exact Sz1|]. split; [auto|]. intros Hq c Hc. cbn. rewrite M2, M4. auto.
  - eapply (selects_intro CL); cbn [with_layers m_hn m_dn m_hes m_des m_starts m_layers]; eauto.
    + rewrite M1. intros c ls E; apply F1; auto.
    + rewrite M2. auto.
    + rewrite M3. auto.
    + rewrite M4. auto.
Qed.

(** ** Copies *)
Lemma strided_in ls a n j : 1 <= ls -> a < ls -> (In j (for_loop a n ls) <-> j < n /\ j mod ls = a).
Proof.
  intros H Ha. rewrite for_loop_in by auto. split.
  - intros [H1 H2]. split; [lia|]. apply Nat.mod_divides in H2 as [q Hq]; [|lia].
    replace j with (a + q * ls) by lia. rewrite Nat.mod_add, Nat.mod_small by lia. auto.
  - intros [H1 H2]. pose proof (Nat.div_mod j ls ltac:(lia)). split; [lia|].
    replace (j - a) with (j / ls * ls) by lia. apply Nat.mod_mul. lia.
Qed.

Theorem copy_selector_correct CL d k cc np P content m :
  device_ok d -> map_sizes CL cc m -> length content = cc -> np = number_of_particles content -> iterates P content ->
  exists m' s, copy_selector_create d k cc np P m = Some (m', s) /\ map_sizes CL cc m' /\ selects s m' content.
Proof.
  intros D Sz Lc -> HP. pose proof Sz as [S1 [S2 [S3 [S4 [S5 S6]]]]]. unfold copy_selector_create.
  destruct (foldM_kernel (fun st c => let '(dn, des) := st in
          n <- rd (i_dn P) c ;; e <- rd (i_es P) c ;; dn' <- upd dn c n ;; des' <- upd des c e ;; Some (dn', des'))
     (fun (st : list nat * list nat) (q : bool * nat) => if fst q then nth_error (fst st) (snd q) else nth_error (snd st) (snd q))
     (fun st => length (fst st) = length (m_dn m) /\ length (snd st) = cc)
     (fun c q => if snd q =? c then Some (if fst q then length (nth c content []) else psum (ncnt content) c) else None)
     (ord d k (seq 0 cc)) (m_dn m, m_des m)) as [[dn des] [E1 [[L1 L2] [W1 _]]]].
  { auto. }
  { intros [a b] c [La Lb] Hi. apply in_ord in Hi; auto. apply in_seq in Hi. cbn [fst snd] in *.
    destruct (nth_error_lt_some content c) as [ls E]; [lia|]. unfold rd.
    rewrite (iterates_dn _ _ _ HP), (ncnt_nth _ _ _ E), (iterates_es _ _ _ HP) by lia. cbn [obind].
    destruct (upd_some a c (length ls)) as [a' Ea]; [lia|]. destruct (upd_some b c (psum (ncnt content) c)) as [b' Eb]; [lia|].
    rewrite Ea. cbn [obind]. rewrite Eb. cbn [obind]. exists (a', b'). split; [auto|]. split.
    - cbn. rewrite (upd_length _ _ _ _ Ea), (upd_length _ _ _ _ Eb). auto.
    - intros [[|] j]; cbn [fst snd]; rewrite ?(upd_nth _ _ _ _ _ Ea), ?(upd_nth _ _ _ _ _ Eb), ?(nth_error_nth _ _ [] E); destruct (j =? c); auto. }
  { intros a b [q j] v w _ _. cbn [fst snd]. destruct (Nat.eqb_spec j a), (Nat.eqb_spec j b); try discriminate. subst. congruence. }
  cbn [fst snd] in *. rewrite E1. cbn [obind].
  assert (Hdn : forall c ls, nth_error content c = Some ls -> nth_error dn c = Some (length ls)).
  { intros c ls E. pose proof (nth_error_some_lt _ _ _ E) as Hc.
    pose proof (W1 c (true, c) (length (nth c content [])) ltac:(apply in_ord; auto; apply in_seq; lia)) as Q. cbn [fst snd] in Q.
    rewrite Nat.eqb_refl in Q. rewrite (nth_error_nth _ _ [] E) in Q. auto. }
  assert (Hdes : forall c, c < cc -> nth_error des c = Some (particles_before content c)).
  { intros c Hc. pose proof (W1 c (false, c) (psum (ncnt content) c) ltac:(apply in_ord; auto; apply in_seq; lia)) as Q. cbn [fst snd] in Q.
    rewrite Nat.eqb_refl in Q. rewrite before_psum. auto. }
  assert (Hlen : cc <= length (i_hn P)).
  { destruct (le_lt_dec cc (length (i_hn P))); auto. exfalso.
    destruct (nth_error_lt_some content (cc - 1)) as [ls E]; [lia|]. destruct (HP _ _ E) as [Q _]. apply nth_error_some_lt in Q. lia. }
  destruct (copy_prefix_correct (i_hn P) (m_hn m) cc) as [hn [E2 [L3 F2]]]; [lia|lia|]. rewrite E2. cbn [obind].
  assert (Hhn : forall c ls, nth_error content c = Some ls -> nth_error hn c = Some (length ls)).
  { intros c ls E. rewrite F2. pose proof (nth_error_some_lt _ _ _ E) as H. rewrite Lc in H. apply Nat.ltb_lt in H. rewrite H. apply HP; auto. }
  destruct (running_total_correct CL cc content hn (m_hes m)) as [hes [E3 [L4 F3]]]; auto; [lia|]. rewrite E3. cbn [obind].
  destruct (map_create_correct d (k + 1) CL cc (with_counts m hn dn hes des) content) as [m1 [E6 [Sz1 [M1 [M2 [M3 [M4 [M5 [M6 M7]]]]]]]]]; auto.
  { unfold map_sizes, with_counts; cbn. lia. }
  rewrite E6. cbn [obind]. cbn [with_counts m_hn m_dn m_hes m_des] in M1, M2, M3, M4.
  destruct D as [DP DL].
  destruct (fill_map (copy_kernel d dn P m1)
     (fun p q => if (fst q =? fst p) && existsb (fun x => x =? snd q) (for_loop (snd p) (nth (fst p) dn 0) (local_size d))
                 then nth_error (nth (fst p) content []) (snd q) else None)
     (ord d (k + 2) (list_prod (seq 0 cc) (seq 0 (local_size d)))) (m_layers m1) content) as [lay [E7 [L7 F7]]].
  { intros lay [c i] Ll Hi. apply in_ord in Hi; [|split; auto]. apply in_prod_iff in Hi. rewrite !in_seq in Hi.
    destruct (nth_error_lt_some content c) as [ls E]; [lia|]. unfold copy_kernel, rd. cbn [fst snd].
    rewrite (nth_error_nth _ _ 0 (Hdn _ _ E)), (Hdn _ _ E), (nth_error_nth _ _ [] E). cbn [obind].
    destruct (puts_correct m1 content (fun lay l => v <- i_layer P c l ;; put_layer m1 lay c l v) c ls (fun l => l) (fun l => nth l ls 0)
       (for_loop i (length ls) (local_size d)) M5 E) with (lay := lay) as [lay' [Ep [Lp Fp]]].
    - intros x Hx. apply for_loop_in in Hx; auto. apply nth_error_nth'. lia.
    - intros ly x Hx. apply for_loop_in in Hx; auto. destruct (HP _ _ E) as [_ [_ [_ Hl]]].
      rewrite (Hl x (nth x ls 0)); [auto|]. apply nth_error_nth'. lia.
    - lia.
    - exists lay'. split; [auto|]. split; [lia|]. intros c' ls' j' E' Hj. rewrite (Fp _ _ _ E' Hj).
      destruct (Nat.eqb_spec c' c) as [->|]; cbn [andb]; auto. replace ls' with ls in Hj by congruence.
      destruct (nth_error_lt_some ls j' Hj) as [v Ev]. rewrite Ev. destruct (existsb _ _); auto. }
  { intros [c i] c' j ls v _ E. cbn [fst snd]. destruct (Nat.eqb_spec c' c) as [->|]; [|discriminate]. cbn [andb].
    destruct (existsb _ _); [|discriminate]. rewrite (nth_error_nth _ _ [] E). auto. }
  { intros c j ls v E Ej. pose proof (nth_error_some_lt _ _ _ E). pose proof (nth_error_some_lt _ _ _ Ej).
    exists (c, j mod local_size d), v. pose proof (Nat.mod_upper_bound j (local_size d) ltac:(lia)). split.
    - apply in_ord; [split; auto|]. apply in_prod; apply in_seq; lia.
    - cbn [fst snd]. rewrite Nat.eqb_refl, (nth_error_nth _ _ 0 (Hdn _ _ E)), (nth_error_nth _ _ [] E).
      replace (existsb _ _) with true; [auto|]. symmetry. apply existsb_exists. exists j. split; [|apply Nat.eqb_refl].
      apply strided_in; auto. }
  rewrite E7. cbn [obind]. eexists _, _. split; [reflexivity|]. split; [exact Sz1|].
  eapply (selects_intro CL); cbn [with_layers m_hn m_dn m_hes m_des m_starts m_layers]; eauto.
  - rewrite M1. auto.
  - rewrite M2. auto.
  - rewrite M3. auto.
  - rewrite M4. auto.
Qed.

(** ** Truncate and discard *)
Lemma occupancy_correct occ src (sel : list nat -> list nat) CL d k cc P content m :
  (forall ls, length (sel ls) = occ (length ls)) ->
  (forall ls j, j < occ (length ls) -> nth_error (sel ls) j = nth_error ls (src j)) ->
  device_ok d -> 1 <= cc -> map_sizes CL cc m -> length content = cc -> iterates P content ->
  exists m' s, occupancy_selector_create occ src d k cc P m = Some (m', s) /\
    map_sizes CL cc m' /\ selects s m' (per_cell (fun _ => sel) content).
Proof.
  intros Hocc Hsrc D Hcc Sz Lc HP. pose proof Sz as [S1 [S2 [S3 [S4 [S5 S6]]]]]. unfold occupancy_selector_create.
  set (ct := per_cell (fun _ => sel) content).
  assert (Lct : length ct = cc) by (unfold ct; rewrite per_cell_length; auto).
  assert (Ect : forall c ls', nth_error ct c = Some ls' -> exists ls, nth_error content c = Some ls /\ ls' = sel ls).
  { intros c ls' E. unfold ct in E. rewrite per_cell_nth in E. destruct (nth_error content c); [|discriminate]. injection E as <-. eauto. }
  assert (Ect' : forall c ls, nth_error content c = Some ls -> nth_error ct c = Some (sel ls)).
  { intros c ls E. unfold ct. rewrite per_cell_nth, E. auto. }
  destruct (foldM_kernel (fun st c => let '(dn, kINT) := st in
          n <- rd (i_dn P) c ;; dn' <- upd dn c (occ n) ;; kINT' <- upd kINT c (occ n) ;; Some (dn', kINT'))
     (fun (st : list nat * list nat) (q : bool * nat) => if fst q then nth_error (fst st) (snd q) else nth_error (snd st) (snd q))
     (fun st => length (fst st) = length (m_dn m) /\ length (snd st) = cc)
     (fun c q => if snd q =? c then Some (length (nth c ct [])) else None)
     (ord d (k + 1) (seq 0 cc)) (m_dn m, fresh d k cc)) as [[dn kI] [E1 [[L1 L2] [W1 _]]]].
  { cbn [fst snd]. rewrite fresh_length. auto. }
  { intros [a b] c [La Lb] Hi. apply in_ord in Hi; auto. apply in_seq in Hi. cbn [fst snd] in *.
    destruct (nth_error_lt_some content c) as [ls E]; [lia|]. unfold rd.
    rewrite (iterates_dn _ _ _ HP), (ncnt_nth _ _ _ E) by lia. cbn [obind]. rewrite <- Hocc.
    destruct (upd_some a c (length (sel ls))) as [a' Ea]; [lia|]. destruct (upd_some b c (length (sel ls))) as [b' Eb]; [lia|].
    rewrite Ea. cbn [obind]. rewrite Eb. cbn [obind]. exists (a', b'). split; [auto|]. split.
    - cbn. rewrite (upd_length _ _ _ _ Ea), (upd_length _ _ _ _ Eb). auto.
    - intros [[|] j]; cbn [fst snd]; rewrite ?(upd_nth _ _ _ _ _ Ea), ?(upd_nth _ _ _ _ _ Eb), ?(nth_error_nth _ _ [] (Ect' _ _ E)); destruct (j =? c); auto. }
  { intros a b [q j] v w _ _. cbn [fst snd]. destruct (Nat.eqb_spec j a), (Nat.eqb_spec j b); try discriminate. subst. congruence. }
  cbn [fst snd] in *. rewrite E1. cbn [obind].
  assert (Hdk : forall c ls, nth_error ct c = Some ls -> nth_error dn c = Some (length ls) /\ nth_error kI c = Some (length ls)).
  { intros c ls E. pose proof (nth_error_some_lt _ _ _ E) as Hc.
    pose proof (W1 c (true, c) (length (nth c ct [])) ltac:(apply in_ord; auto; apply in_seq; lia)) as Q.
    pose proof (W1 c (false, c) (length (nth c ct [])) ltac:(apply in_ord; auto; apply in_seq; lia)) as Q2. cbn [fst snd] in Q, Q2.
    rewrite Nat.eqb_refl in Q, Q2. rewrite (nth_error_nth _ _ [] E) in Q, Q2. auto. }
  destruct (copy_prefix_correct dn (m_hn m) cc) as [hn [E2 [L3 F2]]]; [lia|lia|]. rewrite E2. cbn [obind].
  assert (Hhn : forall c ls, nth_error ct c = Some ls -> nth_error hn c = Some (length ls)).
  { intros c ls E. rewrite F2. pose proof (nth_error_some_lt _ _ _ E) as H. rewrite Lct in H. apply Nat.ltb_lt in H. rewrite H. apply Hdk; auto. }
  destruct (scan1_correct Nat.add 0 nat_monoid (Z.to_nat (junk d (k + 2) 0)) cc kI (m_des m)) as [des [E3 [X1 [X2 X3]]]]; [lia|lia|].
  rewrite E3. cbn [obind].
  assert (Hdes : forall c, c < cc -> nth_error des c = Some (particles_before ct c)).
  { intros c Hc. rewrite X1 by auto. f_equal. rewrite before_psum. apply psum_ext. intros i Hi.
    destruct (nth_error_lt_some ct i) as [ls E]; [lia|]. destruct (Hdk _ _ E) as [_ ->]. rewrite (ncnt_nth _ _ _ E). auto. }
  destruct (foldM_seq_ind (fun mx c => n <- rd hn c ;; Some (Nat.max mx n)) (fun c mx => forall i ls, i < c -> nth_error ct i = Some ls -> length ls <= mx) 0 cc 0) as [mx [E4 Hmx]].
  { intros; lia. }
  { intros c s Hc Hq. destruct (nth_error_lt_some ct c) as [ls E]; [lia|]. unfold rd. rewrite (Hhn _ _ E). cbn [obind].
    eexists. split; [reflexivity|]. intros i ls' Hi E'. destruct (Nat.eq_dec i c) as [->|].
    - replace ls' with ls by congruence. lia.
    - pose proof (Hq i ls' ltac:(lia) E'). lia. }
  rewrite E4. cbn [obind]. cbn [plus] in Hmx.
  destruct (copy_prefix_correct des (m_hes m) cc) as [hes [E5 [L5 F5]]]; [lia|lia|]. rewrite E5. cbn [obind].
  assert (Hhes : forall c, c < cc -> nth_error hes c = Some (particles_before ct c)).
  { intros c H. rewrite F5. pose proof H as H'. apply Nat.ltb_lt in H'. rewrite H'. auto. }
  unfold sub_. destruct (Nat.ltb_spec cc 1); [lia|]. cbn [obind]. unfold rd at 1 2. rewrite (Hhes (cc - 1)) by lia.
  destruct (nth_error_lt_some ct (cc - 1)) as [lsl El]; [lia|]. rewrite (Hhn _ _ El). cbn [obind].
  destruct (map_create_correct d (k + 3) CL cc (with_counts m hn dn hes des) ct) as [m1 [E6 [Sz1 [M1 [M2 [M3 [M4 [M5 [M6 M7]]]]]]]]]; auto.
  { unfold map_sizes, with_counts; cbn. lia. }
  rewrite E6. cbn [obind]. cbn [with_counts m_hn m_dn m_hes m_des] in M1, M2, M3, M4.
  match goal with |- context [if 0 <? mx then foldM ?f _ _ else _] => set (kf := f) end.
  assert (Hlay : exists lay, (if 0 <? mx then foldM kf (m_layers m1) (ord d (k + 4) (cell_layer_items d cc mx)) else Some (m_layers m1)) = Some lay /\
     length lay = length (m_layers m1) /\
     forall c ls j v, nth_error ct c = Some ls -> nth_error ls j = Some v -> nth_error lay (psum (ncnt ct) c + j) = Some v).
  { destruct (Nat.ltb_spec 0 mx) as [B|B].
    - apply (fill_map kf (fun p q => if (fst q =? fst p) && (snd q =? snd p) then nth_error (nth (fst q) ct []) (snd q) else None)).
      + intros lay [c l] Ll Hi. apply in_ord in Hi; auto. apply in_items in Hi. unfold kf. cbn [fst snd].
        destruct (nth_error_lt_some ct c) as [ls' E']; [lia|]. unfold rd. destruct (Hdk _ _ E') as [-> _]. cbn [obind].
        destruct (Nat.ltb_spec l (length ls')) as [Hl|Hl].
        * destruct (Ect _ _ E') as [ls [E ->]]. destruct (nth_error_lt_some (sel ls) l Hl) as [v Ev]. pose proof Ev as Ev'.
          rewrite Hsrc in Ev by (rewrite <- Hocc; auto). destruct (HP _ _ E) as [_ [_ [_ Hly]]].
          rewrite (Hly _ _ Ev). cbn [obind].
          destruct (put_layer_correct m1 lay ct c (sel ls) l v M5 ltac:(lia) E' Hl) as [lay' [Ep [Lp Fp]]].
          exists lay'. split; [auto|]. split; [lia|]. intros c' ls2 j' Ec Hj. rewrite (Fp _ _ _ Ec Hj).
          destruct (Nat.eqb_spec c' c) as [->|]; [|auto]. destruct (Nat.eqb_spec j' l) as [->|]; [|auto]. cbn [andb].
          rewrite (nth_error_nth _ _ [] E'), Ev'. auto.
        * exists lay. split; [auto|]. split; [auto|]. intros c' ls2 j' Ec Hj.
          destruct (Nat.eqb_spec c' c) as [->|]; [|auto]. destruct (Nat.eqb_spec j' l) as [->|]; [|auto]. exfalso.
          replace ls2 with ls' in Hj by congruence. lia.
      + intros [i l] c j ls v _ E. cbn [fst snd]. destruct ((c =? i) && (j =? l)); [|discriminate]. rewrite (nth_error_nth _ _ [] E). auto.
      + intros c j ls v E Ej. pose proof (nth_error_some_lt _ _ _ Ej) as Hj. pose proof (nth_error_some_lt _ _ _ E) as Hc. rewrite Lct in Hc.
        exists (c, j), v. split.
        * apply in_ord; auto. apply in_items. split; [lia|]. pose proof (Hmx _ _ Hc E).
          pose proof (next_multiple_ge mx (local_size d) ltac:(apply D)). lia.
        * cbn [fst snd]. rewrite !Nat.eqb_refl. cbn [andb]. rewrite (nth_error_nth _ _ [] E). auto.
    - exists (m_layers m1). split; [auto|]. split; [auto|]. intros c ls j v E Ej. exfalso.
      pose proof (nth_error_some_lt _ _ _ Ej) as Hj. pose proof (nth_error_some_lt _ _ _ E) as Hc. rewrite Lct in Hc.
      pose proof (Hmx _ _ Hc E). lia. }
  destruct Hlay as [lay [E7 [L7 F7]]]. rewrite E7. cbn [obind].
  eexists _, _. split; [reflexivity|]. split; [exact Sz1|].
  eapply (selects_intro CL); cbn [with_layers m_hn m_dn m_hes m_des m_starts m_layers]; eauto.
  - rewrite M1. auto.
  - rewrite M2. intros c ls E. apply Hdk; auto.
  - rewrite M3. auto.
  - rewrite M4. auto.
  - rewrite before_psum, number_psum, Lct. rewrite <- (psum_S _ _ _ (ncnt_nth _ _ _ El)). f_equal. lia.
Qed.

Theorem truncate_correct CL d k cc num P content m :
  device_ok d -> 1 <= cc -> (0 <= num)%Z -> map_sizes CL cc m -> length content = cc -> iterates P content ->
  exists m' s, truncate_create d k cc num P m = Some (m', s) /\
    map_sizes CL cc m' /\ selects s m' (map (firstn (Z.to_nat num)) content).
Proof.
  intros D Hcc Hn Sz Lc HP. unfold truncate_create. apply Z.leb_le in Hn. rewrite Hn. cbn [assert obind].
  destruct (occupancy_correct (fun n => Nat.min (Z.to_nat num) n) (fun l => l) (firstn (Z.to_nat num)) CL d k cc P content m) as [m' [s [E [Sz' Hs]]]]; auto.
  - intros. apply firstn_length.
  - intros ls j Hj. rewrite nth_error_firstn. destruct (Nat.ltb_spec j (Z.to_nat num)); [auto|lia].
  - exists m', s. split; [auto|]. split; [auto|]. replace (map _ content) with (per_cell (fun _ => firstn (Z.to_nat num)) content); auto.
    apply nth_error_ext. intros i. rewrite per_cell_nth, nth_error_map. auto.
Qed.

Theorem discard_correct CL d k cc num P content m :
  device_ok d -> 1 <= cc -> (0 <= num)%Z -> map_sizes CL cc m -> length content = cc -> iterates P content ->
  exists m' s, discard_create d k cc num P m = Some (m', s) /\
    map_sizes CL cc m' /\ selects s m' (map (skipn (Z.to_nat num)) content).
Proof.
  intros D Hcc Hn Sz Lc HP. unfold discard_create. apply Z.leb_le in Hn. rewrite Hn. cbn [assert obind].
  destruct (occupancy_correct (fun n => n - Z.to_nat num) (fun l => Z.to_nat num + l) (skipn (Z.to_nat num)) CL d k cc P content m) as [m' [s [E [Sz' Hs]]]]; auto.
  - intros. apply skipn_length.
  - intros ls j Hj. apply nth_error_skipn.
  - exists m', s. split; [auto|]. split; [auto|]. replace (map _ content) with (per_cell (fun _ => skipn (Z.to_nat num)) content); auto.
    apply nth_error_ext. intros i. rewrite per_cell_nth, nth_error_map. auto.
Qed.
