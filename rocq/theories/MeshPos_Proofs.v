(** Proofs about the mesh hierarchy: positions. *)
From Coq Require Import List Arith ZArith QArith Qround Qabs Qfield Bool Lia Lqa.
Import ListNotations.
From Verif Require Import Base Mesh_Model Mesh_Spec Mesh_Proofs MeshNb_Proofs.
Open Scope Q_scope.

Lemma Qtrunc_floor q : 0 <= q -> Qtrunc q = Qfloor q.
Proof.
  intros H. unfold Qtrunc, Qfloor. destruct q as [n d]. cbn [Qnum Qden].
  apply Z.quot_div_nonneg; [unfold Qle in H; cbn in H; lia|lia].
Qed.
Lemma floor_bounds q : inject_Z (Qfloor q) <= q /\ q < inject_Z (Qfloor q + 1).
Proof. split; [apply Qfloor_le|apply Qlt_floor]. Qed.
Lemma inject_lt a b : inject_Z a < inject_Z b -> (a < b)%Z.
Proof. rewrite <- Zlt_Qlt. auto. Qed.

Lemma trunc_div x w iw : 0 < w -> iw * w == 1 -> 0 <= x ->
  (0 <= Qtrunc (x * iw))%Z /\ inject_Z (Qtrunc (x * iw)) * w <= x /\ x < inject_Z (Qtrunc (x * iw) + 1) * w.
Proof.
  intros W I X. assert (P : 0 < iw).
  { destruct (Qlt_le_dec 0 iw) as [|C]; [assumption|exfalso]. assert (iw * w <= 0) by nra. lra. }
  assert (X' : 0 <= x * iw) by nra.
  rewrite Qtrunc_floor by exact X'. destruct (floor_bounds (x * iw)) as (A & B).
  assert (E : x * iw * w == x) by (rewrite <- Qmult_assoc, I; ring).
  split; [|split].
  - assert (0 < Qfloor (x * iw) + 1)%Z; [|lia]. apply inject_lt. change (inject_Z 0) with 0. lra.
  - setoid_replace x with (x * iw * w) at 2 by (symmetry; exact E). apply Qmult_le_compat_r; lra.
  - setoid_replace x with (x * iw * w) at 1 by (symmetry; exact E). apply Qmult_lt_compat_r; lra.
Qed.

Lemma ncf_pos m : (0 < ncells_dim_fine m)%Z.
Proof. unfold ncells_dim_fine. apply Z.pow_pos_nonneg; lia. Qed.
Lemma inject_pos z : (0 < z)%Z -> 0 < inject_Z z.
Proof. intros H. change 0 with (inject_Z 0). rewrite <- Zlt_Qlt. exact H. Qed.

Section Pos.
  Context (m : mesh) (E : 0 < extent m).
  Let n := inject_Z (ncells_dim_fine m).
  Let w := fine_width m.

  Lemma n_pos : 0 < n. Proof. apply inject_pos, ncf_pos. Qed.
  Lemma w_pos : 0 < w.
  Proof. unfold w, fine_width. apply Qlt_shift_div_l; [exact n_pos|]. change (inject_Z (2 ^ Z.of_nat (order m))) with n. lra. Qed.
  Lemma w_n : n * w == extent m.
  Proof. unfold w, fine_width. change (inject_Z (2 ^ Z.of_nat (order m))) with n. field. pose proof n_pos; lra. Qed.
  Lemma icw : inverse_cell_width_coarse m * extent m == 1.
  Proof. unfold inverse_cell_width_coarse. field. lra. Qed.
  Lemma ifw : inverse_cell_width_fine m * w == 1.
  Proof.
    unfold inverse_cell_width_fine, w, fine_width. fold n. change (inject_Z (2 ^ Z.of_nat (order m))) with n. field.
    pose proof n_pos. split; lra.
  Qed.
  Lemma cwf : cell_width_fine m == w. Proof. reflexivity. Qed.

  Lemma within_tol_spec a b : 0 <= a -> 0 < b -> within_tol a b = true <-> a <= (1 # 10000000000) * b.
  Proof.
    intros A B. unfold within_tol. destruct (Qeq_bool b 0) eqn:Q; [apply Qeq_bool_iff in Q; lra|].
    rewrite Qle_bool_iff. rewrite (Qabs_pos a A), (Qabs_pos b) by lra. split; intros H.
    - setoid_replace a with (a / b * b) by (field; lra). apply Qmult_le_compat_r; lra.
    - apply Qle_shift_div_r; [exact B|exact H].
  Qed.
  Global Instance within_tol_proper : Proper (Qeq ==> Qeq ==> eq) within_tol.
  Proof.
    intros a a' Ha b b' Hb. unfold within_tol. rewrite Hb. destruct (Qeq_bool b' 0); [reflexivity|].
    apply Bool.eq_iff_eq_true. rewrite !Qle_bool_iff. rewrite Ha, Hb. reflexivity.
  Qed.

  Lemma map_dim_inside d pos : (0 < d)%Z -> 0 <= pos -> pos < inject_Z d * extent m ->
    exists c f, map_dim m d pos = (c, f) /\ (0 <= c < d)%Z /\ (0 <= f < ncells_dim_fine m)%Z /\ in_cell m (c * ncells_dim_fine m + f) pos.
  Proof.
    intros Hd P0 P1. unfold map_dim. destruct (trunc_div pos _ _ E icw P0) as (C0 & C1 & C2).
    set (c := Qtrunc (pos * inverse_cell_width_coarse m)) in *.
    assert (Cd : (c < d)%Z) by (apply inject_lt; nra).
    destruct (Z.leb_spec d c); [lia|]. cbn beta zeta. unfold cell_width_coarse.
    rewrite inject_Z_plus in C2. change (inject_Z 1) with 1 in C2.
    destruct (trunc_div (pos - inject_Z c * extent m) _ _ w_pos ifw) as (F0 & F1 & F2); [lra|].
    set (f := Qtrunc ((pos - inject_Z c * extent m) * inverse_cell_width_fine m)) in *.
    assert (Fn : (f < ncells_dim_fine m)%Z).
    { apply inject_lt. fold n. pose proof w_n. pose proof w_pos. destruct (Qlt_le_dec (inject_Z f) n) as [|K]; [assumption|exfalso].
      assert (n * w <= inject_Z f * w) by (apply Qmult_le_compat_r; lra). lra. }
    destruct (Z.leb_spec (ncells_dim_fine m) f); [lia|].
    exists c, f. split; [reflexivity|]. split; [lia|]. split; [lia|]. unfold in_cell. fold w.
    rewrite inject_Z_plus in F2. change (inject_Z 1) with 1 in F2.
    rewrite !inject_Z_plus, !inject_Z_mult. change (inject_Z 1) with 1. fold n. pose proof w_n as Wn.
    split.
    - setoid_replace ((inject_Z c * n + inject_Z f) * w) with (inject_Z c * (n * w) + inject_Z f * w) by ring. rewrite Wn. lra.
    - setoid_replace ((inject_Z c * n + inject_Z f + 1) * w) with (inject_Z c * (n * w) + (inject_Z f + 1) * w) by ring. rewrite Wn. lra.
  Qed.

  (** At and above the upper end. *)
  Lemma map_dim_above d pos : (0 < d)%Z -> inject_Z d * extent m <= pos ->
    (pos - inject_Z d * extent m <= (1 # 10000000000) * pos ->
       fst (map_dim m d pos) = (d - 1)%Z /\
       (snd (map_dim m d pos) = (ncells_dim_fine m - 1)%Z \/ snd (map_dim m d pos) = (-2)%Z) /\
       (pos == inject_Z d * extent m -> snd (map_dim m d pos) = (ncells_dim_fine m - 1)%Z)) /\
    (~ pos - inject_Z d * extent m <= (1 # 10000000000) * pos -> fst (map_dim m d pos) = (-2)%Z).
  Proof.
    intros Hd P1. pose proof (inject_pos d Hd) as Dp. assert (Pp : 0 < pos) by nra.
    unfold map_dim. destruct (trunc_div pos _ _ E icw) as (C0 & C1 & C2); [lra|].
    set (c := Qtrunc (pos * inverse_cell_width_coarse m)) in *.
    assert (Cd : (d <= c)%Z).
    { assert (d < c + 1)%Z; [|lia]. apply inject_lt. destruct (Qlt_le_dec (inject_Z d) (inject_Z (c + 1))) as [|K]; [assumption|exfalso].
      assert (inject_Z (c + 1) * extent m <= inject_Z d * extent m) by (apply Qmult_le_compat_r; lra). lra. }
    destruct (Z.leb_spec d c); [|lia]. unfold cell_width_coarse.
    pose proof (within_tol_spec (pos - inject_Z d * extent m) pos ltac:(lra) Pp) as WT.
    destruct (within_tol (pos - inject_Z d * extent m) pos).
    - split; [|intros N; exfalso; apply N; apply WT; reflexivity]. intros T. cbn beta zeta. cbn [fst snd]. split; [reflexivity|].
      set (pf := pos - inject_Z (d - 1) * extent m).
      assert (Epf : pf == pos - inject_Z d * extent m + extent m).
      { unfold pf. unfold Z.sub. rewrite inject_Z_plus. change (Z.opp 1) with (-1)%Z; change (inject_Z (-1)) with (- (1)); ring. }
      destruct (trunc_div pf _ _ w_pos ifw) as (F0 & F1 & F2); [lra|].
      set (f := Qtrunc (pf * inverse_cell_width_fine m)) in *.
      assert (Fn : (ncells_dim_fine m <= f)%Z).
      { assert (ncells_dim_fine m < f + 1)%Z; [|lia]. apply inject_lt. fold n. pose proof w_n. pose proof w_pos.
        destruct (Qlt_le_dec n (inject_Z (f + 1))) as [|K]; [assumption|exfalso].
        assert (inject_Z (f + 1) * w <= n * w) by (apply Qmult_le_compat_r; lra). lra. }
      destruct (Z.leb_spec (ncells_dim_fine m) f); [|lia].
      split; [destruct (within_tol _ _); auto|]. intros Q.
      assert (WT2 : within_tol (pf - inject_Z (ncells_dim_fine m) * cell_width_fine m) pf = true).
      { fold n. rewrite cwf. pose proof w_n as Wn. apply within_tol_spec; rewrite ?Wn, ?Epf, ?Q; lra. }
      rewrite WT2. reflexivity.
    - split; [intros T; exfalso; apply WT in T; discriminate|]. intros _. reflexivity.
  Qed.

  Lemma cart_dim_inside o p : (o <= p \/ forall z, ~ o - p == inject_Z z * w) -> in_cell m (cart_dim m o p) (p - o).
  Proof.
    intros H. unfold cart_dim. destruct (Qle_bool o p) eqn:Q.
    - apply Qle_bool_iff in Q. destruct (trunc_div (p - o) _ _ w_pos ifw) as (A & B & C); [lra|]. split; assumption.
    - assert (Q' : p < o). { destruct (Qlt_le_dec p o) as [|K]; [assumption|]. apply Qle_bool_iff in K. congruence. }
      destruct H as [H|H]; [exfalso; apply Qle_not_lt in H; auto|].
      destruct (trunc_div (o - p) _ _ w_pos ifw) as (A & B & C); [lra|].
      set (z := Qtrunc ((o - p) * inverse_cell_width_fine m)) in *. unfold in_cell. fold w. split.
      + rewrite inject_Z_opp. lra.
      + replace (- (z + 1) + 1)%Z with (- z)%Z by lia. rewrite inject_Z_opp.
        destruct (Qle_lt_or_eq _ _ B) as [K|K]; [lra|]. exfalso. apply (H z). rewrite K. reflexivity.
  Qed.
End Pos.

Lemma in_cell_unique m c1 c2 x : 0 < extent m -> in_cell m c1 x -> in_cell m c2 x -> c1 = c2.
Proof.
  intros E (A & B) (C & D). pose proof (w_pos m E) as W.
  assert (forall a b, inject_Z a * fine_width m < inject_Z b * fine_width m -> (a < b)%Z).
  { intros a b K. apply inject_lt. apply Qmult_lt_r in K; auto. }
  assert (c1 < c2 + 1)%Z by (apply H; lra). assert (c2 < c1 + 1)%Z by (apply H; lra). lia.
Qed.

Lemma map_to_tuple_eq m p : mesh_ok m -> (ndim m <= length p)%nat ->
  map_to_tuple m p = Some (map (fun i => fst (map_dim m (nth i (dims m) 0%Z) (rel_pos m p i))) (seq 0 (ndim m))
                        ++ map (fun i => snd (map_dim m (nth i (dims m) 0%Z) (rel_pos m p i))) (seq 0 (ndim m))).
Proof.
  intros ((N & L) & O & _) Lp. unfold map_to_tuple.
  rewrite (mapM_seq _ (fun i => map_dim m (nth i (dims m) 0%Z) (rel_pos m p i))).
  - cbn [obind]. rewrite !map_map. reflexivity.
  - intros i Hi. destruct (nth_error_lt_some p i) as [a Ea]; [lia|]. destruct (nth_error_lt_some (origin m) i) as [b Eb]; [lia|].
    destruct (nth_error_lt_some (dims m) i) as [c Ec]; [lia|]. unfold rd. rewrite Ea, Eb, Ec. cbn [obind]. unfold rel_pos.
    rewrite (nth_error_nth _ _ 0 Ea), (nth_error_nth _ _ 0 Eb), (nth_error_nth _ _ 0%Z Ec). reflexivity.
Qed.

Lemma nth_coarse m (f g : nat -> Z) i : (i < ndim m)%nat -> nth i (map f (seq 0 (ndim m)) ++ map g (seq 0 (ndim m))) 0%Z = f i.
Proof. intros H. rewrite app_nth1 by (rewrite map_length, seq_length; lia). apply nth_map_seq', H. Qed.
Lemma nth_fine m (f g : nat -> Z) i : (i < ndim m)%nat -> nth (ndim m + i) (map f (seq 0 (ndim m)) ++ map g (seq 0 (ndim m))) 0%Z = g i.
Proof.
  intros H. rewrite app_nth2 by (rewrite map_length, seq_length; lia). rewrite map_length, seq_length.
  replace (ndim m + i - ndim m)%nat with i by lia. apply nth_map_seq', H.
Qed.

Lemma map_to_tuple_inside m p : mesh_ok m -> (ndim m <= length p)%nat ->
  (forall i, (i < ndim m)%nat -> 0 <= rel_pos m p i <= domain m i) ->
  exists t, map_to_tuple m p = Some t /\ cell_tuple m t /\
    forall i, (i < ndim m)%nat ->
      (rel_pos m p i < domain m i -> in_cell m (coord m t i) (rel_pos m p i)) /\
      (rel_pos m p i == domain m i -> coord m t i = (extent_cells m i - 1)%Z).
Proof.
  intros H L P. rewrite map_to_tuple_eq by auto.
  set (f := fun i => fst (map_dim m (nth i (dims m) 0%Z) (rel_pos m p i))). set (g := fun i => snd (map_dim m (nth i (dims m) 0%Z) (rel_pos m p i))).
  assert (E : 0 < extent m) by (destruct H as (_ & _ & _ & ?); assumption).
  assert (R : forall i, (i < ndim m)%nat -> (0 <= f i < nth i (dims m) 0)%Z /\ (0 <= g i < ncells_dim_fine m)%Z /\
     (rel_pos m p i < domain m i -> in_cell m (f i * ncells_dim_fine m + g i) (rel_pos m p i)) /\
     (rel_pos m p i == domain m i -> (f i * ncells_dim_fine m + g i = extent_cells m i - 1)%Z)).
  { intros i Hi. destruct (extent_cells_pos m i H Hi) as (Hd & _). destruct (P i Hi) as (P0 & P1). pose proof (ncf_pos m) as Np.
    unfold f, g. destruct (Qlt_le_dec (rel_pos m p i) (domain m i)) as [K|K].
    - destruct (map_dim_inside m E _ _ Hd P0 K) as (c & f' & -> & B1 & B2 & B3). cbn [fst snd]. split; [exact B1|]. split; [exact B2|]. split; [auto|]. intros Q. exfalso. lra.
    - assert (Q : rel_pos m p i == domain m i) by (apply Qle_antisym; assumption). destruct (map_dim_above m E _ _ Hd K) as (A & _).
      destruct A as (A1 & A2 & A3). { unfold domain in Q. rewrite Q. fold (domain m i). lra. }
      rewrite A1, (A3 Q). split; [lia|]. split; [lia|]. split; [intros; exfalso; lra|]. intros _. unfold extent_cells. change (2 ^ Z.of_nat (order m))%Z with (ncells_dim_fine m). ring. }
  eexists. split; [reflexivity|].
  assert (T : map f (seq 0 (ndim m)) ++ map g (seq 0 (ndim m)) = tuple_of m (fun i => (f i * ncells_dim_fine m + g i)%Z)).
  { unfold tuple_of. f_equal; apply map_ext_in; intros i Hi; apply in_seq in Hi; destruct (R i ltac:(lia)) as (_ & B & _).
    - rewrite Z.div_add_l, Z.div_small by lia. lia.
    - rewrite Z.add_comm, Z.mod_add, Z.mod_small by lia. reflexivity. }
  rewrite T. destruct (tuple_of_cell m (fun i => (f i * ncells_dim_fine m + g i)%Z) H) as (C & Co).
  { intros i Hi. destruct (R i Hi) as (B1 & B2 & _). unfold extent_cells. change (2 ^ Z.of_nat (order m))%Z with (ncells_dim_fine m). nia. }
  split; [exact C|]. intros i Hi. rewrite Co by exact Hi. apply (R i Hi).
Qed.

Lemma map_to_tuple_above m p i : mesh_ok m -> (ndim m <= length p)%nat -> (i < ndim m)%nat -> domain m i < rel_pos m p i ->
  exists t, map_to_tuple m p = Some t /\
    (rel_pos m p i - domain m i <= (1 # 10000000000) * rel_pos m p i ->
       nth i t 0%Z = (nth i (dims m) 0 - 1)%Z /\ (nth (ndim m + i) t 0%Z = (2 ^ Z.of_nat (order m) - 1)%Z \/ nth (ndim m + i) t 0%Z = (-2)%Z)) /\
    (~ rel_pos m p i - domain m i <= (1 # 10000000000) * rel_pos m p i -> nth i t 0%Z = (-2)%Z).
Proof.
  intros H L Hi K. assert (E : 0 < extent m) by (destruct H as (_ & _ & _ & ?); assumption).
  rewrite map_to_tuple_eq by auto. eexists. split; [reflexivity|]. rewrite nth_coarse, nth_fine by exact Hi.
  destruct (extent_cells_pos m i H Hi) as (Hd & _).
  destruct (map_dim_above m E (nth i (dims m) 0%Z) (rel_pos m p i) Hd (Qlt_le_weak _ _ K)) as (A & B).
  split; [|exact B]. intros T. destruct (A T) as (A1 & A2 & _). auto.
Qed.

Lemma cart_tuple_position m p : mesh_ok m -> (ndim m <= length p)%nat ->
  (forall i, (i < ndim m)%nat -> 0 <= rel_pos m p i \/ forall z, ~ - rel_pos m p i == inject_Z z * fine_width m) ->
  exists y, map_to_cart_tuple_no_trunc m p = Some y /\ length y = ndim m /\ forall i, (i < ndim m)%nat -> in_cell m (nth i y 0%Z) (rel_pos m p i).
Proof.
  intros H L P. destruct H as ((N & Ld) & O & F & E). unfold map_to_cart_tuple_no_trunc.
  rewrite (mapM_seq _ (fun i => cart_dim m (nth i (origin m) 0) (nth i p 0))).
  - eexists. split; [reflexivity|]. split; [rewrite map_length, seq_length; reflexivity|]. intros i Hi. rewrite nth_map_seq' by exact Hi.
    apply (cart_dim_inside m E). destruct (P i Hi) as [K|K]; [left; unfold rel_pos in K; lra|right]. intros z Q. apply (K z). rewrite <- Q. unfold rel_pos. ring.
  - intros i Hi. destruct (nth_error_lt_some p i) as [a Ea]; [lia|]. destruct (nth_error_lt_some (origin m) i) as [b Eb]; [lia|].
    unfold rd. rewrite Ea, Eb. cbn [obind]. rewrite (nth_error_nth _ _ 0 Ea), (nth_error_nth _ _ 0 Eb). reflexivity.
Qed.
