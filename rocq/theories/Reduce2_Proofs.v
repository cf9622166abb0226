(** Proofs about reduce_dat_components_cellwise. *)
From Coq Require Import List Arith Lia ZArith Bool Permutation.
Import ListNotations.
From Verif Require Import Base Kernel Scan_Model Compress_Model Group_Model Loop_Model Loop_Spec SubGroup_Model SubGroup_Spec
  CellConst_Model CellConst_Spec CellConst_Proofs Reduce_Model Reduce_Spec Reduce_Proofs.

Lemma list_prod_nth {B} (l : list B) : forall R a r q b, r < R -> nth_error l q = Some b ->
  nth_error (list_prod (seq a R) l) (r * length l + q) = Some (a + r, b).
Proof.
  induction R as [|R IH]; intros a r q b Hr Hq; [lia|]. cbn [seq list_prod]. pose proof (nth_error_some_lt _ _ _ Hq).
  destruct r as [|r].
  - rewrite nth_error_app1 by (rewrite map_length; lia). rewrite Nat.add_0_r. cbn [mult plus]. rewrite nth_error_map, Hq. reflexivity.
  - rewrite nth_error_app2 by (rewrite map_length; lia). rewrite map_length.
    replace (S r * length l + q - length l) with (r * length l + q) by lia. rewrite (IH (S a) r q b); [f_equal; f_equal; lia|lia|exact Hq].
Qed.

Lemma counted_fill {A} (f : A -> nat) l : forall buf i, i + length l <= length buf ->
  exists buf', foldM (fun '(buf, index) p => buf' <- upd buf index (f p) ;; Some (buf', index + 1)) (buf, i) l = Some (buf', i + length l) /\
    length buf' = length buf /\ (forall j p, nth_error l j = Some p -> nth_error buf' (i + j) = Some (f p)) /\
    (forall j, j < i -> nth_error buf' j = nth_error buf j) /\ (forall j, i + length l <= j -> nth_error buf' j = nth_error buf j).
Proof.
  induction l as [|p l IH]; intros buf i H; cbn [foldM].
  - exists buf. rewrite Nat.add_0_r. split; [reflexivity|]. split; [reflexivity|]. split; [intros [|j] p; discriminate|]. split; reflexivity.
  - cbn [length] in H. destruct (upd_some buf i (f p)) as [b1 U]; [lia|]. rewrite U. cbn [obind].
    destruct (IH b1 (i + 1)) as (b' & E & L & N & B & A'); [rewrite (upd_length _ _ _ _ U); lia|]. rewrite E. exists b'.
    split; [cbn [length]; f_equal; f_equal; lia|]. split; [rewrite L; apply (upd_length _ _ _ _ U)|]. split; [|split].
    + intros [|j] q Hj; cbn [nth_error] in Hj.
      * injection Hj as <-. rewrite Nat.add_0_r, B by lia. apply (upd_nth_eq _ _ _ _ U).
      * replace (i + S j) with (i + 1 + j) by lia. auto.
    + intros j Hj. rewrite B by lia. apply (upd_nth_neq _ _ _ _ j U). lia.
    + intros j Hj. cbn [length] in Hj. rewrite A' by lia. apply (upd_nth_neq _ _ _ _ j U). lia.
Qed.

Lemma offsets_ok n R K : R * K <= n -> exists offs, output_offsets n R K = Some offs /\ length offs = n /\
  (forall r q, r < R -> q < K -> nth_error offs (r * K + q) = Some (R * q + r)) /\
  (forall j, R * K <= j < n -> nth_error offs j = Some 0).
Proof.
  intros H. unfold output_offsets.
  assert (Ll : length (list_prod (seq 0 R) (seq 0 K)) = R * K) by (rewrite prod_length, !seq_length; reflexivity).
  destruct (counted_fill (fun p : nat * nat => R * snd p + fst p) (list_prod (seq 0 R) (seq 0 K)) (repeat 0 n) 0) as (b & E & L & N & _ & A).
  { rewrite Ll, repeat_length. lia. } rewrite E. cbn [obind fst]. exists b. rewrite repeat_length in L. split; [reflexivity|]. split; [exact L|]. split.
  - intros r q Hr Hq. rewrite <- (Nat.add_0_l (r * K + q)). pose proof (list_prod_nth (seq 0 K) R 0 r q q Hr) as G. rewrite seq_length in G.
    rewrite (N _ _ (G ltac:(rewrite nth_error_seq; destruct (Nat.ltb_spec q K); [reflexivity|lia]))). reflexivity.
  - intros j Hj. rewrite A by lia. apply nth_error_repeat. lia.
Qed.

Section Components.
  Context {T : Type} {op : T -> T -> T} {ident : T} {ok : T -> Prop} (M : reducible op ident ok).
  Context (d : device) (Hd : device_ok d) (P : iset) (content : list (list nat)) (It : iterates P content)
    (W : i_whole P = true -> content = whole_group (map (@length nat) content)) (dat : list (list (list T))).

  Theorem components_ok k (x : cell_const T) : well_formed ok x -> length content = cc_ncells x ->
    length dat = cc_nrow x * cc_ncol x -> (forall comp, comp < length dat -> has_values ok dat content comp) ->
    exists x', reduce_dat_components_cellwise op ident d k (cc_ncells x) P dat x = Some x' /\
      well_formed ok x' /\ same_dimensions x x' /\
      forall c r q, c < cc_ncells x -> r < cc_nrow x -> q < cc_ncol x ->
        exists old vals, cc_get_value x c r q = Some old /\ values_in_cell dat content (r * cc_ncol x + q) c vals /\
          cc_get_value x' c r q = Some (combined op old vals).
  Proof.
    intros [Lx Ox] Lc Ld Hv. unfold reduce_dat_components_cellwise, assert. rewrite Nat.eqb_refl, Ld, Nat.leb_refl. cbn [obind].
    set (N := cc_ncells x) in *. set (R := cc_nrow x) in *. set (K := cc_ncol x) in *. unfold cc_stride. fold R K.
    destruct (offsets_ok (R * K) R K (le_n _)) as (offs & E0 & Lo & Ho & _). rewrite E0. cbn [obind].
    set (D := R * K) in *.
    assert (Dec : forall j, j < N * D -> exists c r q, c < N /\ r < R /\ q < K /\ j / D = c /\ j - c * D = r * K + q /\ r * K + q < D).
    { intros j Hj. assert (D <> 0) by nia. pose proof (Nat.div_mod j D H). pose proof (Nat.mod_upper_bound j D H).
      assert (K <> 0) by (unfold D in *; nia). exists (j / D), (j mod D / K), (j mod D mod K).
      pose proof (Nat.div_mod (j mod D) K H2). pose proof (Nat.mod_upper_bound (j mod D) K H2).
      split; [apply Nat.div_lt_upper_bound; lia|]. split; [apply Nat.div_lt_upper_bound; [assumption|unfold D in *; lia]|].
      split; [assumption|]. split; [reflexivity|]. split; lia. }
    set (comp := fun j => j - j / D * D). set (cell := fun j => j / D).
    set (pos := fun j => cell j * D + nth (comp j) offs 0).
    assert (Hval : forall j, j < N * D -> exists vals, values_in_cell dat content (comp j) (cell j) vals /\ Forall ok vals).
    { intros j Hj. destruct (Dec j Hj) as (c & r & q & Hc & Hr & Hq & E1 & E2 & E3). apply cell_values; unfold comp, cell; [apply Hv|]; rewrite E1; lia. }
    assert (exists vs : nat -> list T, forall j, j < N * D -> values_in_cell dat content (comp j) (cell j) (vs j) /\ Forall ok (vs j)) as [vs Hvs].
    { revert Hval. generalize (N * D). clear. intros n Hval. induction n as [|n IH]; [exists (fun _ => []); intros; lia|]. destruct IH as [vs Hvs]; [intros; apply Hval; lia|].
      destruct (Hval n) as (v & Hv & Ho); [lia|]. exists (fun c => if c =? n then v else vs c). intros c Hc. destruct (Nat.eqb_spec c n) as [->|]; [auto|apply Hvs; lia]. }
    assert (Hin : forall a, In a (ord d k (seq 0 (N * D))) -> a < N * D) by (intros a Ha; apply (in_ord d) in Ha; [apply in_seq in Ha; lia|exact Hd]).
    destruct (updates_ok M (components_group op ident d k P dat D offs) pos vs (ord d k (seq 0 (N * D))) (cc_data x))
      as (data & F & L & O & G).
    { intros m' j Lm Om Hj. apply Hin in Hj. destruct (Dec j Hj) as (c & r & q & Hc & Hr & Hq & E1 & E2 & E3).
      assert (Hoff : R * q + r < D) by (apply inner_lt; assumption).
      destruct (group_update M d Hd P content It W dat (k + 1 + j) (r * K + q) D (R * q + r) N m' c) as (vals & m'' & V1 & V2 & E & L' & G'); auto; [rewrite Lm; unfold D; lia|apply Hv; lia|].
      exists m''. split.
      - rewrite <- E. unfold components_group. rewrite Ld. rewrite E1. unfold sub_. destruct (Nat.ltb_spec j (c * D)); [exfalso; rewrite <- E1 in *; pose proof (Nat.div_mod j D); nia|]. cbn [obind].
        rewrite E2. unfold rd. destruct (nth_error (i_dn P) c) as [n|]; cbn [obind]; [|reflexivity]. destruct (0 <? n); [|reflexivity].
        destruct (cell_reduce op ident d (k + 1 + j) P dat (r * K + q) c n); cbn [obind]; [|reflexivity]. rewrite (Ho r q Hr Hq). reflexivity.
      - split; [congruence|]. destruct (Hvs j Hj) as [V3 _]. unfold comp, cell in V3. rewrite E1, E2 in V3.
        rewrite (values_unique content dat (r * K + q) c (vs j) vals V3 V1). intros i y Hy. rewrite (G' i y Hy). unfold pos, cell, comp. rewrite E1, E2.
        rewrite (nth_error_nth _ _ 0 (Ho r q Hr Hq)). reflexivity. }
    { intros a Ha. apply Hvs. auto. } { exact Ox. }
    rewrite F. cbn [obind]. eexists. split; [reflexivity|]. split; [split; [cbn; rewrite L; exact Lx|exact O]|]. split; [repeat split|].
    intros c r q Hc Hr Hq. unfold cc_get_value, cc_stride, rd. cbn [cc_with cc_nrow cc_ncol cc_data]. fold R K.
    replace (c * (R * K) + q * R + r) with (addr R K c r q) by (unfold addr; lia).
    destruct (nth_error_lt_some (cc_data x) (addr R K c r q)) as [old Hold]; [rewrite Lx; apply addr_lt; assumption|].
    set (j0 := c * D + (r * K + q)). assert (Hrq : r * K + q < D) by (unfold D; nia).
    assert (J1 : j0 / D = c) by (unfold j0; rewrite Nat.div_add_l by lia; rewrite Nat.div_small by lia; lia).
    assert (J2 : comp j0 = r * K + q) by (unfold comp; rewrite J1; unfold j0; lia).
    assert (J3 : j0 < N * D) by (unfold j0; nia).
    exists old, (vs j0). split; [exact Hold|]. destruct (Hvs j0 J3) as [V _]. unfold cell in V. rewrite J1, J2 in V. split; [exact V|].
    rewrite (G _ _ Hold). f_equal. f_equal.
    apply (flat_map_single vs (fun a => addr R K c r q =? pos a)).
    - apply (Permutation_NoDup (l := seq 0 (N * D))); [apply Permutation_sym; apply Hd|apply seq_NoDup].
    - apply (in_ord d); [exact Hd|]. apply in_seq. lia.
    - intros a Ha. apply Hin in Ha. destruct (Dec a Ha) as (c' & r' & q' & Hc' & Hr' & Hq' & E1 & E2 & E3). rewrite Nat.eqb_eq.
      assert (Pa : pos a = addr R K c' r' q').
      { unfold pos, cell, comp. rewrite E1, E2. rewrite (nth_error_nth _ _ 0 (Ho r' q' Hr' Hq')). reflexivity. }
      rewrite Pa. split.
      + intros E. apply addr_inj in E; auto. destruct E as [-> [-> ->]]. unfold j0. assert (c' * D <= a) by (rewrite <- E1; pose proof (Nat.div_mod a D); nia). lia.
      + intros Ea. rewrite Ea, J1 in E1. rewrite <- E1 in *. rewrite Ea in E2. unfold comp in J2. rewrite J1 in J2. assert (r' * K + q' = r * K + q) by lia.
        assert (r = r') as -> by nia. assert (q = q') as -> by lia. reflexivity.
  Qed.
End Components.
