(** Proofs about the Cartesian mesh. *)
From Coq Require Import List Arith ZArith QArith Bool Lia Permutation.
Import ListNotations.
From Verif Require Import Base Kernel Scan_Model Scan_Proofs Mesh_Model Mesh_Spec Mesh_Proofs MeshNb_Proofs MeshClaim_Proofs CartMesh_Model CartMesh_Spec.
Local Open Scope Z_scope.

(** ** Arrays of three entries *)
Definition arr3 {A} (nd : nat) (g : nat -> A) (d : A) : list A :=
  map (fun i => if (i <? nd)%nat then g i else d) [0; 1; 2]%nat.

Lemma fill3_arr {A} (d : A) f g nd : (nd <= 3)%nat -> (forall i, (i < nd)%nat -> f i = Some (g i)) ->
  fill3 [d; d; d] f nd = Some (arr3 nd g d).
Proof.
  intros L F. unfold fill3, arr3. destruct nd as [|[|[|[|nd]]]]; [..|lia]; cbn [seq foldM map]; try reflexivity.
  - rewrite (F 0%nat) by lia. reflexivity.
  - rewrite (F 0%nat), (F 1%nat) by lia. reflexivity.
  - rewrite (F 0%nat), (F 1%nat), (F 2%nat) by lia. reflexivity.
Qed.
Lemma arr3_rd {A} nd (g : nat -> A) d i : (i < 3)%nat -> rd (arr3 nd g d) i = Some (if (i <? nd)%nat then g i else d).
Proof. intros L. destruct i as [|[|[|i]]]; [reflexivity..|lia]. Qed.

(** ** Lists of cells *)
Lemma zrange_in a b x : In x (zrange a b) <-> a <= x < b.
Proof.
  unfold zrange. rewrite in_map_iff. split.
  - intros (i & <- & I). apply in_seq in I. lia.
  - intros H. exists (Z.to_nat (x - a)). split; [lia|]. apply in_seq. lia.
Qed.
Lemma zrange_length a b : length (zrange a b) = Z.to_nat (b - a).
Proof. unfold zrange. rewrite map_length, seq_length. reflexivity. Qed.
Lemma zrange_nodup a b : NoDup (zrange a b).
Proof. unfold zrange. apply NoDup_map_inj; [|apply seq_NoDup]. intros x y _ _ H. lia. Qed.
Lemma zrange_nth a b i : (i < Z.to_nat (b - a))%nat -> nth_error (zrange a b) i = Some (a + Z.of_nat i).
Proof. intros H. unfold zrange. rewrite nth_error_map_seq. destruct (Nat.ltb_spec i (Z.to_nat (b - a))); [|lia]. rewrite ?Nat.add_0_l. reflexivity. Qed.

Definition box (l0 l1 l2 h0 h1 h2 : Z) : list (list Z) :=
  flat_map (fun z => flat_map (fun y => map (fun x => [x; y; z]) (zrange l0 h0)) (zrange l1 h1)) (zrange l2 h2).
Lemma box3_eq lo hi l0 l1 l2 h0 h1 h2 : lo = [l0; l1; l2] -> hi = [h0; h1; h2] -> box3 lo hi = Some (box l0 l1 l2 h0 h1 h2).
Proof. intros -> ->. reflexivity. Qed.
Lemma box_in l0 l1 l2 h0 h1 h2 c : In c (box l0 l1 l2 h0 h1 h2) <->
  exists x y z, c = [x; y; z] /\ l0 <= x < h0 /\ l1 <= y < h1 /\ l2 <= z < h2.
Proof.
  unfold box. rewrite in_flat_map. split.
  - intros (z & Iz & H). apply in_flat_map in H. destruct H as (y & Iy & H). apply in_map_iff in H. destruct H as (x & <- & Ix).
    apply zrange_in in Ix, Iy, Iz. eauto 8.
  - intros (x & y & z & -> & Hx & Hy & Hz). exists z. split; [apply zrange_in; exact Hz|]. apply in_flat_map. exists y.
    split; [apply zrange_in; exact Hy|]. apply in_map_iff. exists x. split; [reflexivity|]. apply zrange_in; exact Hx.
Qed.
Lemma box_nodup l0 l1 l2 h0 h1 h2 : NoDup (box l0 l1 l2 h0 h1 h2).
Proof.
  unfold box. apply NoDup_flat_map; [apply zrange_nodup| |].
  - intros z _. apply NoDup_flat_map; [apply zrange_nodup| |].
    + intros y _. apply NoDup_map_inj; [|apply zrange_nodup]. intros a b _ _ H. congruence.
    + intros y y' b _ _ I I'. apply in_map_iff in I, I'. destruct I as (x & <- & _), I' as (x' & E & _). congruence.
  - intros z z' b _ _ I I'. apply in_flat_map in I, I'. destruct I as (y & _ & I), I' as (y' & _ & I').
    apply in_map_iff in I, I'. destruct I as (x & <- & _), I' as (x' & E & _). congruence.
Qed.

Lemma flat_const_len {A B} (f : A -> list B) n l : (forall a, In a l -> length (f a) = n) -> length (flat_map f l) = (length l * n)%nat.
Proof.
  induction l as [|a l IH]; intros H; cbn [flat_map length]; [reflexivity|]. rewrite app_length, IH, (H a); [lia|left; reflexivity|].
  intros b Hb. apply H. right; exact Hb.
Qed.
Lemma nth_flat_const {A B} (f : A -> list B) n : (0 < n)%nat -> forall l k, (forall a, In a l -> length (f a) = n) ->
  nth_error (flat_map f l) k = match nth_error l (k / n) with Some a => nth_error (f a) (k mod n) | None => None end.
Proof.
  intros P. induction l as [|a l IH]; intros k H; cbn [flat_map].
  - destruct k, (_ / n)%nat; reflexivity.
  - destruct (Nat.lt_ge_cases k n) as [Q|Q].
    + rewrite nth_error_app1 by (rewrite H by (left; reflexivity); exact Q). rewrite Nat.div_small, Nat.mod_small by exact Q. reflexivity.
    + rewrite nth_error_app2 by (rewrite H by (left; reflexivity); exact Q). rewrite H by (left; reflexivity).
      rewrite IH by (intros b Hb; apply H; right; exact Hb).
      assert (E1 : (k / n = S ((k - n) / n))%nat).
      { replace k with ((k - n) + 1 * n)%nat at 1 by lia. rewrite Nat.div_add by lia. lia. }
      assert (E2 : (k mod n = (k - n) mod n)%nat).
      { replace k with ((k - n) + 1 * n)%nat at 1 by lia. rewrite Nat.mod_add by lia. reflexivity. }
      rewrite E1, E2. reflexivity.
Qed.
Lemma box_length l0 l1 l2 h0 h1 h2 :
  length (box l0 l1 l2 h0 h1 h2) = (Z.to_nat (h2 - l2) * (Z.to_nat (h1 - l1) * Z.to_nat (h0 - l0)))%nat.
Proof.
  unfold box. rewrite (flat_const_len _ (Z.to_nat (h1 - l1) * Z.to_nat (h0 - l0))%nat); [rewrite zrange_length; reflexivity|].
  intros z _. rewrite (flat_const_len _ (Z.to_nat (h0 - l0))); [rewrite zrange_length; reflexivity|].
  intros y _. rewrite map_length, zrange_length. reflexivity.
Qed.
(** The position of a cell in the list. *)
Lemma box_nth l0 l1 l2 h0 h1 h2 i : l0 < h0 -> l1 < h1 -> (i < length (box l0 l1 l2 h0 h1 h2))%nat ->
  let w0 := h0 - l0 in let w1 := h1 - l1 in let k := Z.of_nat i in
  nth_error (box l0 l1 l2 h0 h1 h2) i = Some [l0 + k mod w0; l1 + (k / w0) mod w1; l2 + k / w0 / w1].
Proof.
  intros A B L w0 w1 k. rewrite box_length in L. unfold box.
  set (n0 := Z.to_nat (h0 - l0)) in *. set (n1 := Z.to_nat (h1 - l1)) in *. set (n2 := Z.to_nat (h2 - l2)) in *.
  assert (P0 : (0 < n0)%nat) by (unfold n0; lia). assert (P1 : (0 < n1)%nat) by (unfold n1; lia).
  rewrite (nth_flat_const _ (n1 * n0)%nat); [|nia|].
  2:{ intros z _. rewrite (flat_const_len _ n0); [rewrite zrange_length; reflexivity|]. intros y _. rewrite map_length, zrange_length. reflexivity. }
  assert (Q2 : (i / (n1 * n0) < n2)%nat) by (apply Nat.div_lt_upper_bound; nia).
  rewrite zrange_nth by exact Q2.
  rewrite (nth_flat_const _ n0); [|exact P0|intros y _; rewrite map_length, zrange_length; reflexivity].
  assert (Q1 : ((i mod (n1 * n0)) / n0 < n1)%nat).
  { apply Nat.div_lt_upper_bound; [lia|]. pose proof (Nat.mod_upper_bound i (n1 * n0)). nia. }
  rewrite zrange_nth by exact Q1. rewrite nth_error_map, zrange_nth by (apply Nat.mod_upper_bound; lia). cbn [option_map].
  assert (W0 : w0 = Z.of_nat n0) by (unfold w0, n0; lia). assert (W1 : w1 = Z.of_nat n1) by (unfold w1, n1; lia).
  assert (E : (i mod (n1 * n0) = n0 * ((i / n0) mod n1) + i mod n0)%nat).
  { rewrite (Nat.mul_comm n1 n0), Nat.mod_mul_r by lia. lia. }
  rewrite E. f_equal. unfold k. rewrite W0, W1. rewrite <- !Nat2Z.inj_div, <- !Nat2Z.inj_mod.
  replace ((n0 * ((i / n0) mod n1) + i mod n0) mod n0)%nat with (i mod n0)%nat.
  2:{ rewrite Nat.add_comm, Nat.mul_comm, Nat.mod_add, Nat.mod_mod by lia. reflexivity. }
  replace ((n0 * ((i / n0) mod n1) + i mod n0) / n0)%nat with ((i / n0) mod n1)%nat.
  2:{ rewrite Nat.add_comm, Nat.mul_comm, Nat.div_add by lia. rewrite (Nat.div_small (i mod n0) n0) by (apply Nat.mod_upper_bound; lia). lia. }
  rewrite (Nat.mul_comm n1 n0), <- Nat.div_div by lia. reflexivity.
Qed.

(** ** The region of a rank *)
Section Region.
  Context (m : cmesh) (H : cmesh_ok m).
  Notation nd := (ndim (hier m)).
  Definition NN (i : nat) : nat := Z.to_nat (extent_cells (hier m) i).
  Definition UU (i : nat) : nat := nth i (cdims (comm m)) 0%nat.
  Definition st (x : list nat) (i : nat) : Z := if (i <? nd)%nat then Z.of_nat (decomp_start (UU i) (NN i) (nth i x 0%nat)) else 0.
  Definition en (x : list nat) (i : nat) : Z := if (i <? nd)%nat then Z.of_nat (decomp_end (UU i) (NN i) (nth i x 0%nat)) else 1.

  Lemma nd_le : (0 < nd <= 3)%nat.
  Proof. destruct H as (((? & ?) & _) & ? & _). lia. Qed.
  Lemma dims_rd i : (i < nd)%nat -> rd (dims (hier m)) i = Some (nth i (dims (hier m)) 0).
  Proof. intros L. destruct H as (((_ & B) & _) & _). unfold rd. apply nth_error_nth'. lia. Qed.
  Lemma UU_rd i : (i < nd)%nat -> rd (cdims (comm m)) i = Some (UU i).
  Proof. intros L. destruct H as (_ & _ & _ & _ & B & _). unfold rd, UU. apply nth_error_nth'. lia. Qed.
  Lemma UU_bounds i : (i < nd)%nat -> (0 < UU i <= NN i)%nat /\ Z.of_nat (NN i) = extent_cells (hier m) i.
  Proof. intros L. destruct H as (_ & _ & _ & _ & _ & B). specialize (B i L). unfold UU, NN. lia. Qed.

  Lemma counts_eq : cell_counts m = Some (arr3 nd (extent_cells (hier m)) 0).
  Proof. unfold cell_counts. apply fill3_arr; [apply nd_le|]. intros i L. rewrite dims_rd by exact L. reflexivity. Qed.

  Lemma coords_len x : coords_in (cdims (comm m)) x -> length x = nd.
  Proof. intros C. destruct H as (_ & _ & _ & _ & B & _). rewrite <- B. clear B. symmetry. induction C; cbn [length]; congruence. Qed.
  Lemma coords_lt x i : coords_in (cdims (comm m)) x -> (i < nd)%nat -> (nth i x 0 < UU i)%nat.
  Proof. intros C L. destruct H as (_ & _ & _ & _ & B & _). apply (Forall2_nth_elim _ 0%nat 0%nat _ _ C). lia. Qed.

  Lemma bound_eq f x i : coords_in (cdims (comm m)) x -> (i < nd)%nat ->
    bound_of f m (arr3 nd (extent_cells (hier m)) 0) x i = Some (Z.of_nat (f (UU i) (NN i) (nth i x 0%nat))).
  Proof.
    intros C L. pose proof nd_le. unfold bound_of. rewrite UU_rd by exact L. cbn [obind]. rewrite arr3_rd by lia.
    destruct (Nat.ltb_spec i nd); [|lia]. cbn [obind]. unfold rd. rewrite (nth_error_nth' x 0%nat) by (rewrite (coords_len x C); exact L). cbn [obind].
    destruct (UU_bounds i L) as (B & _). destruct (Nat.eqb_spec (UU i) 0); [lia|]. reflexivity.
  Qed.
  Lemma starts_eq x : coords_in (cdims (comm m)) x -> cell_starts m x = Some [st x 0; st x 1; st x 2].
  Proof.
    intros C. unfold cell_starts. rewrite counts_eq. cbn [obind]. rewrite (fill3_arr _ _ (fun i => Z.of_nat (decomp_start (UU i) (NN i) (nth i x 0%nat)))); [reflexivity|apply nd_le|].
    intros i L. apply bound_eq; assumption.
  Qed.
  Lemma ends_eq x : coords_in (cdims (comm m)) x -> cell_ends m x = Some [en x 0; en x 1; en x 2].
  Proof.
    intros C. unfold cell_ends. rewrite counts_eq. cbn [obind]. rewrite (fill3_arr _ _ (fun i => Z.of_nat (decomp_end (UU i) (NN i) (nth i x 0%nat)))); [reflexivity|apply nd_le|].
    intros i L. apply bound_eq; assumption.
  Qed.
  Lemma region x i : coords_in (cdims (comm m)) x -> 0 <= st x i < en x i /\ en x i <= grid m i.
  Proof.
    intros C. unfold st, en, grid. destruct (Nat.ltb_spec i nd) as [L|L]; [|lia].
    destruct (UU_bounds i L) as (B & E). rewrite <- E. pose proof (coords_lt x i C L).
    pose proof (decomp_nonempty (UU i) (NN i) (nth i x 0%nat) ltac:(lia) ltac:(lia)).
    pose proof (decomp_end_le (UU i) (NN i) (nth i x 0%nat) ltac:(lia) ltac:(lia)). lia.
  Qed.
  Lemma grid_pos i : 0 < grid m i.
  Proof. unfold grid. destruct (Nat.ltb_spec i nd) as [L|L]; [|lia]. destruct (UU_bounds i L). lia. Qed.
  Lemma local_eq x : coords_in (cdims (comm m)) x -> cell_counts_local m x = Some (arr3 nd (fun i => en x i - st x i) 0).
  Proof.
    intros C. unfold cell_counts_local. rewrite starts_eq, ends_eq by exact C. cbn [obind]. apply fill3_arr; [apply nd_le|].
    intros i L. pose proof nd_le. pose proof (region x i C).
    replace (rd [st x 0; st x 1; st x 2] i) with (Some (st x i)) by (destruct i as [|[|[|i]]]; [reflexivity..|lia]).
    replace (rd [en x 0; en x 1; en x 2] i) with (Some (en x i)) by (destruct i as [|[|[|i]]]; [reflexivity..|lia]).
    cbn [obind]. destruct (Z.ltb_spec 0 (en x i - st x i)); [|lia]. reflexivity.
  Qed.

  Definition owned (x : list nat) : list (list Z) := box (st x 0) (st x 1) (st x 2) (en x 0) (en x 1) (en x 2).
  Lemma owned_eq r x : ccoords (comm m) r = Some x -> coords_in (cdims (comm m)) x -> get_owned_cells m r = Some (owned x).
  Proof. intros E C. unfold get_owned_cells. rewrite E. cbn [obind]. rewrite starts_eq, ends_eq, local_eq by exact C. reflexivity. Qed.
  Lemma owned_in x c : coords_in (cdims (comm m)) x -> In c (owned x) <-> length c = 3%nat /\ forall i, (i < 3)%nat -> st x i <= nth i c 0 < en x i.
  Proof.
    intros C. unfold owned. rewrite box_in. split.
    - intros (a & b & d & -> & A & B & D). split; [reflexivity|]. intros i L. destruct i as [|[|[|i]]]; [exact A|exact B|exact D|lia].
    - intros (L & B). destruct c as [|a [|b [|d [|? ?]]]]; try discriminate. exists a, b, d. split; [reflexivity|].
      split; [apply (B 0%nat); lia|]. split; [apply (B 1%nat); lia|apply (B 2%nat); lia].
  Qed.

  Lemma ranks r : (r < csize (comm m))%nat -> exists x, ccoords (comm m) r = Some x /\ coords_in (cdims (comm m)) x /\ crank (comm m) x = Some r /\ get_owned_cells m r = Some (owned x).
  Proof. intros L. destruct H as (_ & _ & _ & (_ & _ & R) & _). destruct (R r L) as (x & E & C & K). exists x. auto using owned_eq. Qed.

  (** *** The coordinates of the owner *)
  Definition inv (c : list Z) (i : nat) : nat := match decomp_inverse (UU i) (NN i) (Z.to_nat (nth i c 0)) with Some k => k | None => 0%nat end.
  Definition xof (c : list Z) : list nat := map (inv c) (seq 0 nd).
  Lemma inv_ok c i : (i < nd)%nat -> 0 <= nth i c 0 < extent_cells (hier m) i ->
    decomp_inverse (UU i) (NN i) (Z.to_nat (nth i c 0)) = Some (inv c i) /\ (inv c i < UU i)%nat /\
    Z.of_nat (decomp_start (UU i) (NN i) (inv c i)) <= nth i c 0 < Z.of_nat (decomp_end (UU i) (NN i) (inv c i)).
  Proof.
    intros L G. destruct (UU_bounds i L) as (B & E). unfold inv.
    destruct (decomp_inverse_correct (UU i) (NN i) (Z.to_nat (nth i c 0)) ltac:(lia) ltac:(lia)) as (k & -> & K & D). split; [reflexivity|]. lia.
  Qed.
  Lemma xof_ok c : grid_cell m c -> coords_in (cdims (comm m)) (xof c) /\ In c (owned (xof c)).
  Proof.
    intros (L3 & G). pose proof nd_le as ND.
    assert (I : forall i, (i < nd)%nat -> 0 <= nth i c 0 < extent_cells (hier m) i).
    { intros i L. specialize (G i ltac:(lia)). unfold grid in G. destruct (Nat.ltb_spec i nd); lia. }
    assert (C : coords_in (cdims (comm m)) (xof c)).
    { destruct H as (_ & _ & _ & _ & B & _). apply (Forall2_nth_intro _ 0%nat 0%nat); [unfold xof; rewrite map_length, seq_length; exact B|].
      intros i L. rewrite B in L. unfold xof. rewrite nth_map_seq' by exact L. apply (inv_ok c i L (I i L)). }
    split; [exact C|]. apply owned_in; [exact C|]. split; [exact L3|]. intros i L. unfold st, en. destruct (Nat.ltb_spec i nd) as [Q|Q].
    - unfold xof. rewrite nth_map_seq' by exact Q. apply (inv_ok c i Q (I i Q)).
    - specialize (G i L). unfold grid in G. destruct (Nat.ltb_spec i nd); lia.
  Qed.
  Lemma owned_grid x c : coords_in (cdims (comm m)) x -> In c (owned x) -> grid_cell m c.
  Proof.
    intros C I. apply owned_in in I; [|exact C]. destruct I as (L & B). split; [exact L|]. intros i Li. specialize (B i Li). pose proof (region x i C). lia.
  Qed.
  Lemma owned_unique x y c : coords_in (cdims (comm m)) x -> coords_in (cdims (comm m)) y -> In c (owned x) -> In c (owned y) -> x = y.
  Proof.
    intros Cx Cy Ix Iy. pose proof (coords_len x Cx). pose proof (coords_len y Cy). pose proof nd_le.
    apply owned_in in Ix; [|exact Cx]. apply owned_in in Iy; [|exact Cy]. destruct Ix as (_ & Ix), Iy as (_ & Iy).
    apply (nth_ext _ _ 0%nat 0%nat); [lia|]. intros i L. specialize (Ix i ltac:(lia)). specialize (Iy i ltac:(lia)).
    unfold st, en in Ix, Iy. destruct (Nat.ltb_spec i nd) as [Q|Q]; [|lia]. destruct (UU_bounds i Q).
    apply (decomp_unique (UU i) (NN i) (Z.to_nat (nth i c 0))); lia.
  Qed.

  (** *** Owners *)
  Lemma owns_iff r x c : ccoords (comm m) r = Some x -> coords_in (cdims (comm m)) x -> (r < csize (comm m))%nat ->
    owns m r c <-> In c (owned x).
  Proof.
    intros E C L. unfold owns. split.
    - intros (_ & cells & E' & I). rewrite (owned_eq r x E C) in E'. injection E' as <-. exact I.
    - intros I. split; [exact L|]. exists (owned x). split; [apply owned_eq; assumption|exact I].
  Qed.
  Lemma owner_exists c : grid_cell m c -> exists r, crank (comm m) (xof c) = Some r /\ ccoords (comm m) r = Some (xof c) /\ owns m r c.
  Proof.
    intros G. destruct (xof_ok c G) as (C & I). pose proof H as H'. destruct H' as (_ & _ & _ & (_ & K & _) & _).
    destruct (K _ C) as (r & E & L & F). exists r. split; [exact E|]. split; [exact F|]. apply (owns_iff r (xof c)); assumption.
  Qed.
  Lemma owns_coords r c : owns m r c -> grid_cell m c /\ ccoords (comm m) r = Some (xof c) /\ crank (comm m) (xof c) = Some r.
  Proof.
    intros O. destruct (ranks r (proj1 O)) as (x & E & C & K & _). pose proof (proj1 (owns_iff r x c E C (proj1 O)) O) as I.
    pose proof (owned_grid x c C I) as G. destruct (xof_ok c G) as (C' & I'). rewrite <- (owned_unique x (xof c) c C C' I I'). auto.
  Qed.
  Lemma owns_unique r r' c : owns m r c -> owns m r' c -> r = r'.
  Proof. intros O O'. apply owns_coords in O, O'. destruct O as (_ & _ & A), O' as (_ & _ & B). congruence. Qed.

  Lemma owning_rank_eq c : grid_cell m c -> get_mesh_tuple_owning_rank m c = crank (comm m) (xof c).
  Proof.
    intros (L3 & G). pose proof nd_le as ND. unfold get_mesh_tuple_owning_rank. rewrite counts_eq. cbn [obind].
    rewrite (mapM_seq _ (inv c)); [reflexivity|]. intros i L.
    assert (I : 0 <= nth i c 0 < extent_cells (hier m) i).
    { specialize (G i ltac:(lia)). unfold grid in G. destruct (Nat.ltb_spec i nd); lia. }
    unfold rd at 1. rewrite (nth_error_nth' c 0) by lia. cbn [obind]. rewrite dims_rd by exact L. cbn [obind]. rewrite arr3_rd by lia.
    destruct (Nat.ltb_spec i nd); [|lia]. cbn [obind]. rewrite UU_rd by exact L. cbn [obind].
    assert (EE : extent_cells (hier m) i = nth i (dims (hier m)) 0 * ncells_dim_fine (hier m)) by reflexivity.
    destruct (Z.leb_spec 0 (nth i c 0)); [|lia]. destruct (Z.ltb_spec (nth i c 0) (nth i (dims (hier m)) 0 * ncells_dim_fine (hier m))); [|lia].
    cbn [andb assert obind]. destruct (UU_bounds i L) as (B & _). destruct (Nat.eqb_spec (UU i) 0); [lia|]. cbn [negb assert obind].
    apply (inv_ok c i L I).
  Qed.
  Lemma owner_query c r : grid_cell m c -> get_mesh_tuple_owning_rank m c = Some r <-> owns m r c.
  Proof.
    intros G. rewrite owning_rank_eq by exact G. destruct (owner_exists c G) as (q & E & F & O). split.
    - intros E'. assert (q = r) by congruence. subst q. exact O.
    - intros O'. rewrite (owns_unique r q c O' O). exact E.
  Qed.

  (** *** Local indices *)
  Lemma owned_length x : coords_in (cdims (comm m)) x -> length (owned x) = (Z.to_nat (en x 2 - st x 2) * (Z.to_nat (en x 1 - st x 1) * Z.to_nat (en x 0 - st x 0)))%nat.
  Proof. intros C. apply box_length. Qed.
  Lemma owned_pos x : coords_in (cdims (comm m)) x -> (0 < length (owned x))%nat.
  Proof.
    intros C. rewrite owned_length by exact C. pose proof (region x 0 C). pose proof (region x 1 C). pose proof (region x 2 C).
    apply Nat.mul_pos_pos; [lia|]. apply Nat.mul_pos_pos; lia.
  Qed.
  Lemma rem_mod_ a b : 0 <= a -> 0 < b -> Z.rem a b = a mod b.
  Proof. intros. apply Z.rem_mod_nonneg; lia. Qed.
  Lemma quot_div_ a b : 0 <= a -> 0 < b -> Z.quot (a - a mod b) b = a / b.
  Proof.
    intros A B. pose proof (Z.mod_pos_bound a b B). pose proof (Z.div_mod a b ltac:(lia)). pose proof (Z.div_pos a b A B).
    replace (a - a mod b) with (a / b * b) by lia. apply Z.quot_mul. lia.
  Qed.
  Lemma tuple_index_eq r x i : ccoords (comm m) r = Some x -> coords_in (cdims (comm m)) x -> (i < length (owned x))%nat ->
    get_global_cell_tuple_index m r (Z.of_nat i) = nth_error (owned x) i.
  Proof.
    intros E C L. pose proof (region x 0 C) as R0. pose proof (region x 1 C) as R1. pose proof (region x 2 C) as R2.
    unfold get_global_cell_tuple_index, get_cart_cell_count. rewrite (owned_eq r x E C), E. cbn [obind]. rewrite starts_eq, ends_eq by exact C. cbn [obind].
    destruct (Z.leb_spec 0 (Z.of_nat i)); [|lia]. destruct (Z.ltb_spec (Z.of_nat i) (Z.of_nat (length (owned x)))); [|lia]. cbn [andb assert obind].
    unfold owned at 1. rewrite box_nth; [|lia|lia|exact L].
    assert (D0 : 0 <= Z.of_nat i / (en x 0 - st x 0)) by (apply Z.div_pos; lia).
    assert (D1 : 0 <= Z.of_nat i / (en x 0 - st x 0) / (en x 1 - st x 1)) by (apply Z.div_pos; lia).
    assert (M2 : Z.of_nat i / (en x 0 - st x 0) / (en x 1 - st x 1) < en x 2 - st x 2).
    { rewrite owned_length in L by exact C. apply Z.div_lt_upper_bound; [lia|]. apply Z.div_lt_upper_bound; [lia|]. nia. }
    assert (T : forall j, (nd <= j)%nat -> st x j = 0 /\ en x j = 1).
    { intros j Hj. unfold st, en. destruct (Nat.ltb_spec j nd); [lia|auto]. }
    pose proof nd_le as ND. destruct nd as [|[|[|[|n]]]]; try lia; cbn [seq foldM].
    - destruct (T 1%nat) as (S1 & E1); [lia|]. destruct (T 2%nat) as (S2 & E2); [lia|].
      cbn [rd nth_error obind fst snd upd]. destruct (Z.eqb_spec (en x 0 - st x 0) 0); [lia|]. cbn [negb assert obind fst snd].
      rewrite rem_mod_ by lia. f_equal. rewrite S1, S2, E1 in *. rewrite Z.mod_1_r. rewrite E2 in M2. f_equal. f_equal. f_equal. lia.
    - destruct (T 2%nat) as (S2 & E2); [lia|].
      cbn [rd nth_error obind fst snd upd]. destruct (Z.eqb_spec (en x 0 - st x 0) 0); [lia|]. cbn [negb assert obind fst snd rd nth_error upd].
      destruct (Z.eqb_spec (en x 1 - st x 1) 0); [lia|]. cbn [negb assert obind fst snd rd nth_error upd].
      rewrite !(rem_mod_ (Z.of_nat i)), quot_div_, rem_mod_ by lia. f_equal. f_equal. f_equal. f_equal. lia.
    - cbn [rd nth_error obind fst snd upd]. destruct (Z.eqb_spec (en x 0 - st x 0) 0); [lia|]. cbn [negb assert obind fst snd rd nth_error upd].
      destruct (Z.eqb_spec (en x 1 - st x 1) 0); [lia|]. cbn [negb assert obind fst snd rd nth_error upd].
      destruct (Z.eqb_spec (en x 2 - st x 2) 0); [lia|]. cbn [negb assert obind fst snd rd nth_error upd].
      rewrite !(rem_mod_ (Z.of_nat i)), !quot_div_ by lia. rewrite !(rem_mod_ (Z.of_nat i / (en x 0 - st x 0))), !quot_div_ by lia.
      rewrite rem_mod_ by lia. rewrite (Z.mod_small _ (en x 2 - st x 2)) by lia. reflexivity.
  Qed.
  Lemma tuple_index_none r x i : ccoords (comm m) r = Some x -> coords_in (cdims (comm m)) x -> ~ 0 <= i < Z.of_nat (length (owned x)) ->
    get_global_cell_tuple_index m r i = None.
  Proof.
    intros E C L. unfold get_global_cell_tuple_index, get_cart_cell_count. rewrite (owned_eq r x E C), E. cbn [obind]. rewrite starts_eq, ends_eq by exact C. cbn [obind].
    destruct (Z.leb_spec 0 i); [|reflexivity]. destruct (Z.ltb_spec i (Z.of_nat (length (owned x)))); [lia|]. reflexivity.
  Qed.
End Region.
