(** Lemmas about BoundaryInteraction2D: the mesh hierarchy cells that are collected. *)
From Coq Require Import List Arith ZArith QArith Qminmax Qround Bool Lia Lqa Permutation.
Import ListNotations.
From Verif Require Import Base Kernel Maps_Model Mesh_Model Mesh_Spec Mesh_Proofs MeshNb_Proofs MeshPos_Proofs DeviceFn_Model DeviceFn_Spec Overlap_Model Overlap_Spec OverlapMap_Proofs Facet_Model Facet_Spec.
Local Open Scope nat_scope.

Lemma rd_nth {A} (l : list A) i d : i < length l -> rd l i = Some (nth i l d).
Proof. intros H. unfold rd. apply nth_error_nth'. exact H. Qed.
Lemma upd_at (l : list Z) i v : i < length l -> exists l', upd l i v = Some l' /\ length l' = length l /\ forall j, nth j l' 0%Z = if j =? i then v else nth j l 0%Z.
Proof.
  intros H. destruct (upd_some l i v H) as (l' & E). exists l'. split; [exact E|]. split; [exact (upd_length _ _ _ _ E)|]. intros j. destruct (Nat.eqb_spec j i) as [e|D].
  - rewrite e. apply nth_error_nth. exact (upd_nth_eq _ _ _ _ E).
  - pose proof (upd_nth_neq _ _ _ _ j E D) as N. destruct (nth_error l j) eqn:Ej; [rewrite (nth_error_nth _ _ _ N), (nth_error_nth _ _ _ Ej); reflexivity|]. rewrite !nth_overflow; [reflexivity|apply nth_error_None; exact Ej|apply nth_error_None; exact N].
Qed.

Section Cells.
  Variable m : mesh.
  Hypothesis Hm : mesh_ok m.
  Hypothesis H2 : ndim m = 2.
  Let ext (i : nat) : Z := extent_cells m i.

  Definition cc (pos : list Q) (i : nat) : Z := cart_dim m (nth i (origin m) 0%Q) (nth i pos 0%Q).
  Lemma cart_eq pos : length pos = 2 -> map_to_cart_tuple_no_trunc m pos = Some [cc pos 0; cc pos 1].
  Proof.
    intros L. unfold map_to_cart_tuple_no_trunc. rewrite H2. cbn [seq mapM]. destruct Hm as ((_ & _) & O & _). rewrite H2 in O. rewrite !(rd_nth pos _ 0%Q) by lia. rewrite !(rd_nth (origin m) _ 0%Q) by lia. reflexivity.
  Qed.

  Lemma widths_pos : (0 < fine_width m)%Q /\ (inverse_cell_width_fine m * fine_width m == 1)%Q /\ (0 < inverse_cell_width_fine m)%Q.
  Proof.
    destruct (w_ok m Hm) as (W & I). change (cell_width_fine m) with (fine_width m) in *. split; [exact W|]. split; [exact I|]. destruct (Qlt_le_dec 0 (inverse_cell_width_fine m)) as [|C]; [assumption|exfalso]. assert (inverse_cell_width_fine m * fine_width m <= 0)%Q by nra. lra.
  Qed.
  Lemma trunc_mono a b : (0 <= a)%Q -> (a <= b)%Q -> (Qtrunc (a * inverse_cell_width_fine m) <= Qtrunc (b * inverse_cell_width_fine m))%Z.
  Proof.
    intros A B. destruct widths_pos as (_ & _ & P). assert (0 <= a * inverse_cell_width_fine m)%Q by nra. assert (0 <= b * inverse_cell_width_fine m)%Q by nra. rewrite !Qtrunc_floor by assumption. apply Qfloor_resp_le. nra.
  Qed.
  Lemma trunc_nonneg a : (0 <= a)%Q -> (0 <= Qtrunc (a * inverse_cell_width_fine m))%Z.
  Proof. intros A. destruct widths_pos as (W & I & P). destruct (trunc_div a _ _ W I A) as (X & _). exact X. Qed.
  Lemma cart_mono o a b : (a <= b)%Q -> (cart_dim m o a <= cart_dim m o b)%Z.
  Proof.
    intros H. unfold cart_dim. destruct (Qle_bool o a) eqn:Qa; destruct (Qle_bool o b) eqn:Qb.
    - apply Qle_bool_iff in Qa, Qb. apply trunc_mono; lra.
    - exfalso. apply Qle_bool_iff in Qa. assert (o <= b)%Q as X by lra. apply Qle_bool_iff in X. congruence.
    - apply Qle_bool_iff in Qb. assert (a < o)%Q by (destruct (Qlt_le_dec a o) as [|K]; [assumption|apply Qle_bool_iff in K; congruence]). pose proof (trunc_nonneg (b - o)). pose proof (trunc_nonneg (o - a)). assert (0 <= b - o)%Q by lra. assert (0 <= o - a)%Q by lra. intuition lia.
    - assert (b < o)%Q by (destruct (Qlt_le_dec b o) as [|K]; [assumption|apply Qle_bool_iff in K; congruence]). pose proof (trunc_mono (o - b) (o - a)) as T. assert (0 <= o - b)%Q by lra. assert (o - b <= o - a)%Q by lra. intuition lia.
  Qed.
  Lemma cart_inside o a : (o <= a)%Q -> in_cell m (cart_dim m o a) (a - o).
  Proof.
    intros H. unfold cart_dim. pose proof H as H'. apply Qle_bool_iff in H'. rewrite H'. destruct widths_pos as (W & I & P). destruct (trunc_div (a - o) _ _ W I) as (A & B & C); [lra|]. split; assumption.
  Qed.
  Lemma near_cc pos i : near m pos -> i < 2 -> (-20001 <= cc pos i <= 20000)%Z.
  Proof.
    intros (L & N) Hi. specialize (N i Hi). unfold rel_pos in N. unfold cc. set (o := nth i (origin m) 0%Q) in *. set (x := nth i pos 0%Q) in *. destruct widths_pos as (W & I & P). unfold cart_dim. destruct (Qle_bool o x) eqn:Q1.
    - apply Qle_bool_iff in Q1. destruct (trunc_div (x - o) _ _ W I) as (A & B & C); [lra|]. split; [lia|]. assert (inject_Z (Qtrunc ((x - o) * inverse_cell_width_fine m)) <= inject_Z 20000)%Q by (change (inject_Z 20000) with 20000%Q; nra). rewrite <- Zle_Qle in H. exact H.
    - assert (x < o)%Q by (destruct (Qlt_le_dec x o) as [|K]; [assumption|apply Qle_bool_iff in K; congruence]). destruct (trunc_div (o - x) _ _ W I) as (A & B & C); [lra|]. assert (inject_Z (Qtrunc ((o - x) * inverse_cell_width_fine m)) <= inject_Z 20000)%Q by (change (inject_Z 20000) with 20000%Q; nra). rewrite <- Zle_Qle in H0. lia.
  Qed.

  Lemma ext_pos i : i < 2 -> (0 < ext i)%Z.
  Proof. intros Hi. destruct (extent_cells_pos m i Hm) as (D & E); [lia|]. exact E. Qed.

  (** Cells of the grid have a linear index. *)
  Definition tup (c : list Z) : list Z := tuple_of m (fun i => nth i c 0%Z).
  Lemma linear_ok c : 2 <= length c -> (forall i, i < 2 -> (0 <= nth i c 0 < ext i)%Z) -> linear_cell m c = Some (cell_index m (tup c)) /\ (0 <= cell_index m (tup c))%Z.
  Proof.
    intros L H. unfold linear_cell. rewrite cart_to_tuple_correct; [|exact Hm|lia|intros i Hi; rewrite H2 in Hi; apply H; exact Hi]. cbn [obind]. destruct (tuple_of_cell m (fun i => nth i c 0%Z) Hm) as (C & _); [intros i Hi; rewrite H2 in Hi; apply H; exact Hi|]. destruct (to_linear_correct m _ Hm C) as (E & R & _). split; [exact E|apply R].
  Qed.
  Lemma grid_eq s0 s1 e0 e1 : grid [s0; s1; 0%Z] [e0; e1; 1%Z] = Some (flat_map (fun cy => map (fun cx => [cx; cy; 0%Z]) (zrange s0 e0)) (zrange s1 e1)).
  Proof. unfold grid. cbn [rd nth_error obind]. cbn [zrange Z.to_nat Z.sub Pos.to_nat seq map flat_map]. change (zrange 0 1) with [0%Z]. cbn [flat_map]. rewrite app_nil_r. reflexivity. Qed.
  Lemma grid_in s0 s1 e0 e1 c : In c (flat_map (fun cy => map (fun cx => [cx; cy; 0%Z]) (zrange s0 e0)) (zrange s1 e1)) <-> exists x y, c = [x; y; 0%Z] /\ (s0 <= x < e0)%Z /\ (s1 <= y < e1)%Z.
  Proof.
    rewrite in_flat_map. split.
    - intros (y & Iy & I). apply in_map_iff in I. destruct I as (x & <- & Ix). rewrite in_zrange in Ix, Iy. eauto.
    - intros (x & y & -> & Ix & Iy). exists y. rewrite in_zrange. split; [exact Iy|]. apply in_map_iff. exists x. rewrite in_zrange. auto.
  Qed.
  Lemma grid_length s0 s1 e0 e1 : length (flat_map (fun cy => map (fun cx => [cx; cy; 0%Z]) (zrange s0 e0)) (zrange s1 e1)) = Z.to_nat (e1 - s1) * Z.to_nat (e0 - s0).
  Proof.
    assert (Lz : forall a b, length (zrange a b) = Z.to_nat (b - a)) by (intros; unfold zrange; rewrite map_length, seq_length; reflexivity). rewrite <- (Lz s1 e1), <- (Lz s0 e0). induction (zrange s1 e1) as [|y l IH]; cbn [flat_map length]; [reflexivity|]. rewrite app_length, map_length, IH. lia.
  Qed.

  (** ** The bounds of the cells of the mesh *)
  Variable ncell : nat.
  Definition lowhigh (k : list Z * list Z) (j : nat) : Prop :=
    (nth j (fst k) 0 = INT_MAX /\ nth j (snd k) 0 = INT_MIN \/ -20001 <= nth j (fst k) 0 /\ nth j (fst k) 0 <= nth j (snd k) 0 /\ nth j (snd k) 0 <= 20000)%Z.
  Definition good (k : list Z * list Z) : Prop := length (fst k) = ncell * 2 /\ length (snd k) = ncell * 2 /\ forall j, j < ncell * 2 -> lowhigh k j.
  Definition grows (k k' : list Z * list Z) : Prop := forall j, j < ncell * 2 -> (nth j (fst k') 0 <= nth j (fst k) 0 /\ nth j (snd k) 0 <= nth j (snd k') 0)%Z.
  Definition holds (k : list Z * list Z) (cell : nat) (pos : list Q) : Prop := forall i, i < 2 -> (nth (cell * 2 + i) (fst k) 0 <= cc pos i <= nth (cell * 2 + i) (snd k) 0)%Z.

  Lemma fetch_ok cell k pos : cell < ncell -> good k -> near m pos -> exists k', fetch_cells m cell k pos = Some k' /\ good k' /\ grows k k' /\ holds k' cell pos.
  Proof.
    intros Hc (L1 & L2 & G) N. pose proof (near_cc pos 0 N ltac:(lia)) as N0. pose proof (near_cc pos 1 N ltac:(lia)) as N1. unfold fetch_cells. rewrite cart_eq by apply N. cbn [obind]. rewrite H2. cbn [seq foldM rd nth_error obind].
    destruct (upd_at (snd k) (cell * 2 + 0) (Z.max (nth (cell * 2 + 0) (snd k) 0%Z) (cc pos 0))) as (a & Ea & La & Na); [lia|]. destruct (upd_at (fst k) (cell * 2 + 0) (Z.min (nth (cell * 2 + 0) (fst k) 0%Z) (cc pos 0))) as (b & Eb & Lb & Nb); [lia|].
    change (nth_error (snd k) (cell * 2 + 0)) with (rd (snd k) (cell * 2 + 0)). change (nth_error (fst k) (cell * 2 + 0)) with (rd (fst k) (cell * 2 + 0)). rewrite (rd_nth (snd k) _ 0%Z) by lia. cbn [obind]. rewrite Ea. cbn [obind]. rewrite (rd_nth (fst k) _ 0%Z) by lia. cbn [obind]. rewrite Eb. cbn [obind fst snd].
    destruct (upd_at a (cell * 2 + 1) (Z.max (nth (cell * 2 + 1) a 0%Z) (cc pos 1))) as (a' & Ea' & La' & Na'); [lia|]. destruct (upd_at b (cell * 2 + 1) (Z.min (nth (cell * 2 + 1) b 0%Z) (cc pos 1))) as (b' & Eb' & Lb' & Nb'); [lia|].
    change (nth_error a (cell * 2 + 1)) with (rd a (cell * 2 + 1)). change (nth_error b (cell * 2 + 1)) with (rd b (cell * 2 + 1)). rewrite (rd_nth a _ 0%Z) by lia. cbn [obind]. rewrite Ea'. cbn [obind]. rewrite (rd_nth b _ 0%Z) by lia. cbn [obind]. rewrite Eb'. cbn [obind].
    exists (b', a'). split; [reflexivity|].
    assert (V : forall j, nth j b' 0%Z = (if j =? cell * 2 + 1 then Z.min (nth (cell * 2 + 1) (fst k) 0%Z) (cc pos 1) else if j =? cell * 2 + 0 then Z.min (nth (cell * 2 + 0) (fst k) 0%Z) (cc pos 0) else nth j (fst k) 0%Z) /\ nth j a' 0%Z = (if j =? cell * 2 + 1 then Z.max (nth (cell * 2 + 1) (snd k) 0%Z) (cc pos 1) else if j =? cell * 2 + 0 then Z.max (nth (cell * 2 + 0) (snd k) 0%Z) (cc pos 0) else nth j (snd k) 0%Z)).
    { intros j. rewrite Na', Nb', !Na, !Nb. destruct (Nat.eqb_spec (cell * 2 + 1) (cell * 2 + 0)); [lia|]. split; reflexivity. }
    split; [|split].
    - split; [cbn [fst]; lia|]. split; [cbn [snd]; lia|]. intros j Hj. unfold lowhigh. cbn [fst snd]. destruct (V j) as (-> & ->). pose proof (G j Hj) as Gj. unfold lowhigh, INT_MAX, INT_MIN in *. destruct (Nat.eqb_spec j (cell * 2 + 1)) as [->|]; [right; lia|]. destruct (Nat.eqb_spec j (cell * 2 + 0)) as [->|]; [right; lia|]. exact Gj.
    - intros j Hj. cbn [fst snd]. destruct (V j) as (-> & ->). destruct (Nat.eqb_spec j (cell * 2 + 1)) as [->|]; [lia|]. destruct (Nat.eqb_spec j (cell * 2 + 0)) as [->|]; lia.
    - intros i Hi. cbn [fst snd]. destruct (V (cell * 2 + i)) as (-> & ->). destruct i as [|[|i]]; [| |lia].
      + destruct (Nat.eqb_spec (cell * 2 + 0) (cell * 2 + 1)); [lia|]. rewrite Nat.eqb_refl. lia.
      + rewrite Nat.eqb_refl. lia.
  Qed.

  Lemma minmax_ok d ps : device_ok d -> (forall p, In p ps -> p_cell p < ncell /\ near m (p_prev p) /\ near m (p_cur p)) ->
    exists k, find_minmax d m ncell ps = Some k /\ good k /\ forall p, In p ps -> holds k (p_cell p) (p_prev p) /\ holds k (p_cell p) (p_cur p).
  Proof.
    intros Hd Hp. unfold find_minmax.
    destruct (foldM_ind (fun s p => s' <- fetch_cells m (p_cell p) s (p_cur p) ;; fetch_cells m (p_cell p) s' (p_prev p)) (fun pre k => good k /\ forall p, In p pre -> holds k (p_cell p) (p_prev p) /\ holds k (p_cell p) (p_cur p)) (ord d 0 ps) (repeat INT_MAX (ncell * ndim m), repeat INT_MIN (ncell * ndim m))) as (k & E & G & H).
    - rewrite H2. split; [|intros p []]. split; [apply repeat_length|]. split; [apply repeat_length|]. intros j Hj. left. cbn [fst snd]. split; apply nth_error_nth; apply nth_error_repeat; exact Hj.
    - intros pre p post k Es (G & H). assert (Ip : In p ps). { apply (in_ord d 0 ps p Hd). rewrite Es. apply in_app_iff. right. left. reflexivity. } destruct (Hp p Ip) as (Hc & Np & Nc). destruct (fetch_ok (p_cell p) k (p_cur p) Hc G Nc) as (k1 & E1 & G1 & Gr1 & H1). destruct (fetch_ok (p_cell p) k1 (p_prev p) Hc G1 Np) as (k2 & E2 & G2 & Gr2 & Ho2). rewrite E1. cbn [obind]. exists k2. split; [exact E2|]. split; [exact G2|].
      assert (Mono : forall k k' c pos, c < ncell -> grows k k' -> holds k c pos -> holds k' c pos). { intros u u' c pos Lc Gu Hu i Hi. specialize (Gu (c * 2 + i) ltac:(nia)). specialize (Hu i Hi). lia. }
      intros q Iq. apply in_app_iff in Iq. destruct Iq as [Iq|[<-|[]]].
      + assert (Iq' : In q ps). { apply (in_ord d 0 ps q Hd). rewrite Es. apply in_app_iff. left. exact Iq. } destruct (Hp q Iq') as (Hq & _). destruct (H q Iq) as (A & B). split; apply (Mono k1 k2); try assumption; apply (Mono k k1); assumption.
      + split; [exact Ho2|]. apply (Mono k1 k2); assumption.
    - exists k. split; [exact E|]. split; [exact G|]. intros p I. apply H. apply in_ord; assumption.
  Qed.

  (** ** Truncation *)
  Let bounds : list Z := [ext 0; ext 1; 0%Z].
  Definition tmin (k : list Z * list Z) (idx i : nat) : Z := Z.max 0 (nth (idx * 2 + i) (fst k) 0%Z).
  Definition tmax (k : list Z * list Z) (idx i : nat) : Z := Z.min (ext i - 1) (nth (idx * 2 + i) (snd k) 0%Z).
  Definition vol (k : list Z * list Z) (idx : nat) : Z := wrap (wrap (1 * wrap (tmax k idx 0 - tmin k idx 0 + 1)) * wrap (tmax k idx 1 - tmin k idx 1 + 1)).

  Lemma bound_ok s idx : length (fst (fst s)) = ncell * 2 -> length (snd (fst s)) = ncell * 2 -> idx < ncell ->
    exists k', bound_cell m bounds s idx = Some (k', Z.max (snd s) (vol (fst s) idx)) /\ length (fst k') = ncell * 2 /\ length (snd k') = ncell * 2 /\
      (forall i, i < 2 -> nth (idx * 2 + i) (fst k') 0%Z = tmin (fst s) idx i /\ nth (idx * 2 + i) (snd k') 0%Z = tmax (fst s) idx i) /\
      (forall j, j / 2 <> idx -> nth j (fst k') 0%Z = nth j (fst (fst s)) 0%Z /\ nth j (snd k') 0%Z = nth j (snd (fst s)) 0%Z).
  Proof.
    intros L1 L2 Hi. unfold bound_cell. rewrite H2. cbn [seq foldM fst snd]. destruct s as ((lo & hi) & mx). cbn [fst snd] in *.
    rewrite (rd_nth lo _ 0%Z) by lia. cbn [obind]. rewrite (rd_nth hi _ 0%Z) by lia. cbn [obind bounds rd nth_error].
    destruct (upd_at lo (idx * 2 + 0) (Z.max 0 (nth (idx * 2 + 0) lo 0%Z))) as (a & Ea & La & Na); [lia|]. destruct (upd_at hi (idx * 2 + 0) (Z.min (ext 0 - 1) (nth (idx * 2 + 0) hi 0%Z))) as (b & Eb & Lb & Nb); [lia|].
    rewrite Ea. cbn [obind]. rewrite Eb. cbn [obind fst snd].
    rewrite (rd_nth a _ 0%Z) by lia. cbn [obind]. rewrite (rd_nth b _ 0%Z) by lia. cbn [obind].
    destruct (upd_at a (idx * 2 + 1) (Z.max 0 (nth (idx * 2 + 1) a 0%Z))) as (a' & Ea' & La' & Na'); [lia|]. destruct (upd_at b (idx * 2 + 1) (Z.min (ext 1 - 1) (nth (idx * 2 + 1) b 0%Z))) as (b' & Eb' & Lb' & Nb'); [lia|].
    rewrite Ea'. cbn [obind]. rewrite Eb'. cbn [obind fst snd]. exists (a', b'). cbn [fst snd].
    assert (X : (idx * 2 + 1 =? idx * 2 + 0) = false) by (apply Nat.eqb_neq; lia). assert (Y : (idx * 2 + 0 =? idx * 2 + 1) = false) by (apply Nat.eqb_neq; lia).
    split; [unfold vol, tmin, tmax; cbn [fst snd]; rewrite Na, Nb, X; reflexivity|]. split; [lia|]. split; [lia|]. split.
    - intros [|[|i]] Li; [| |lia]; unfold tmin, tmax; cbn [fst snd]; rewrite Na', Nb'; rewrite ?Y, ?Nat.eqb_refl, ?Na, ?Nb, ?X, ?Nat.eqb_refl; auto.
    - intros j Hj. assert (j <> idx * 2 + 1) by (intros ->; apply Hj; symmetry; apply (Nat.div_unique _ 2 idx 1); lia). assert (j <> idx * 2 + 0) by (intros ->; apply Hj; symmetry; apply (Nat.div_unique _ 2 idx 0); lia). rewrite Na', Nb', (Na j), (Nb j). destruct (Nat.eqb_spec j (idx * 2 + 1)); [contradiction|]. destruct (Nat.eqb_spec j (idx * 2 + 0)); [contradiction|]. auto.
  Qed.

  Lemma truncate_ok d k : device_ok d -> good k ->
    exists k' mx, foldM (bound_cell m bounds) (k, 0%Z) (ord d 1 (seq 0 ncell)) = Some (k', mx) /\ length (fst k') = ncell * 2 /\ length (snd k') = ncell * 2 /\ (0 <= mx)%Z /\
      forall idx, idx < ncell -> (vol k idx <= mx)%Z /\ forall i, i < 2 -> nth (idx * 2 + i) (fst k') 0%Z = tmin k idx i /\ nth (idx * 2 + i) (snd k') 0%Z = tmax k idx i.
  Proof.
    intros Hd (L1 & L2 & _). pose proof (proj1 Hd _ 1 (seq 0 ncell)) as P. assert (ND : NoDup (ord d 1 (seq 0 ncell))) by (eapply Permutation_NoDup; [apply Permutation_sym; exact P|apply seq_NoDup]).
    destruct (foldM_ind (bound_cell m bounds) (fun pre s => length (fst (fst s)) = ncell * 2 /\ length (snd (fst s)) = ncell * 2 /\ (0 <= snd s)%Z /\
      (forall idx, In idx pre -> (vol k idx <= snd s)%Z /\ forall i, i < 2 -> nth (idx * 2 + i) (fst (fst s)) 0%Z = tmin k idx i /\ nth (idx * 2 + i) (snd (fst s)) 0%Z = tmax k idx i) /\
      (forall j, ~ In (j / 2) pre -> nth j (fst (fst s)) 0%Z = nth j (fst k) 0%Z /\ nth j (snd (fst s)) 0%Z = nth j (snd k) 0%Z)) (ord d 1 (seq 0 ncell)) (k, 0%Z)) as ((k' & mx) & E & A1 & A2 & A3 & A4 & A5).
    - cbn [fst snd]. split; [exact L1|]. split; [exact L2|]. split; [lia|]. split; [intros idx []|auto].
    - intros pre idx post s Es (B1 & B2 & B3 & B4 & B5). assert (Li : idx < ncell). { assert (I : In idx (ord d 1 (seq 0 ncell))) by (rewrite Es; apply in_app_iff; right; left; reflexivity). apply in_ord in I; [|exact Hd]. apply in_seq in I. lia. }
      assert (NI : ~ In idx pre). { rewrite Es in ND. apply NoDup_remove_2 in ND. intros X. apply ND. apply in_app_iff. auto. }
      destruct (bound_ok s idx B1 B2 Li) as (k1 & E1 & C1 & C2 & C3 & C4). exists (k1, Z.max (snd s) (vol (fst s) idx)). split; [exact E1|]. cbn [fst snd].
      assert (OLD : forall i, i < 2 -> nth (idx * 2 + i) (fst (fst s)) 0%Z = nth (idx * 2 + i) (fst k) 0%Z /\ nth (idx * 2 + i) (snd (fst s)) 0%Z = nth (idx * 2 + i) (snd k) 0%Z). { intros i Hi. apply B5. replace ((idx * 2 + i) / 2) with idx; [exact NI|]. apply (Nat.div_unique _ 2 idx i); lia. }
      assert (T : forall i, i < 2 -> tmin (fst s) idx i = tmin k idx i /\ tmax (fst s) idx i = tmax k idx i). { intros i Hi. unfold tmin, tmax. destruct (OLD i Hi) as (-> & ->). auto. }
      assert (Vl : vol (fst s) idx = vol k idx). { unfold vol. destruct (T 0 ltac:(lia)) as (-> & ->). destruct (T 1 ltac:(lia)) as (-> & ->). reflexivity. }
      split; [exact C1|]. split; [exact C2|]. split; [lia|]. split.
      + intros idx' I. apply in_app_iff in I. destruct I as [I|[<-|[]]].
        * destruct (B4 idx' I) as (V1 & V2). split; [lia|]. intros i Hi. destruct (C4 (idx' * 2 + i)) as (-> & ->); [|exact (V2 i Hi)]. replace ((idx' * 2 + i) / 2) with idx'; [intros ->; contradiction|]. apply (Nat.div_unique _ 2 idx' i); lia.
        * split; [lia|]. intros i Hi. destruct (C3 i Hi) as (-> & ->). apply T. exact Hi.
      + intros j Hj. destruct (C4 j) as (-> & ->); [intros X; apply Hj; apply in_app_iff; right; left; symmetry; exact X|]. apply B5. intros X. apply Hj. apply in_app_iff. auto.
    - exists k', mx. cbn [fst snd] in *. split; [exact E|]. split; [exact A1|]. split; [exact A2|]. split; [exact A3|]. intros idx Hi. apply A4. apply in_ord; [exact Hd|]. apply in_seq. lia.
  Qed.

  (** The number of cells of the box fits. *)
  Lemma wrap_small z : (-2147483648 <= z < 2147483648)%Z -> wrap z = z.
  Proof. intros H. unfold wrap. rewrite Z.mod_small by lia. lia. Qed.
  Definition box_cells (k : list Z * list Z) (idx : nat) : list (list Z) :=
    flat_map (fun cy => map (fun cx => [cx; cy; 0%Z]) (zrange (tmin k idx 0) (tmax k idx 0 + 1))) (zrange (tmin k idx 1) (tmax k idx 1 + 1)).
  Lemma box_count k idx : good k -> idx < ncell -> (Z.of_nat (length (box_cells k idx)) <= Z.max 0 (vol k idx))%Z.
  Proof.
    intros (_ & _ & G) Hi. unfold box_cells. rewrite grid_length. pose proof (G (idx * 2 + 0) ltac:(lia)) as G0. pose proof (G (idx * 2 + 1) ltac:(lia)) as G1. unfold lowhigh, INT_MAX, INT_MIN in *. unfold vol, tmin, tmax.
    set (l0 := nth (idx * 2 + 0) (fst k) 0%Z) in *. set (h0 := nth (idx * 2 + 0) (snd k) 0%Z) in *. set (l1 := nth (idx * 2 + 1) (fst k) 0%Z) in *. set (h1 := nth (idx * 2 + 1) (snd k) 0%Z) in *.
    pose proof (ext_pos 0 ltac:(lia)) as X0. pose proof (ext_pos 1 ltac:(lia)) as X1.
    destruct G0 as [(A & B)|(A & B & C)]; [replace (Z.to_nat (Z.min (ext 0 - 1) h0 + 1 - Z.max 0 l0)) with 0 by lia; lia|]. destruct G1 as [(A1 & B1)|(A1 & B1 & C1)]; [replace (Z.to_nat (Z.min (ext 1 - 1) h1 + 1 - Z.max 0 l1)) with 0 by lia; lia|].
    set (w0 := (Z.min (ext 0 - 1) h0 - Z.max 0 l0 + 1)%Z). set (w1 := (Z.min (ext 1 - 1) h1 - Z.max 0 l1 + 1)%Z). replace (Z.min (ext 0 - 1) h0 + 1 - Z.max 0 l0)%Z with w0 by lia. replace (Z.min (ext 1 - 1) h1 + 1 - Z.max 0 l1)%Z with w1 by lia.
    destruct (Z.le_gt_cases w0 0) as [W0|W0]; [replace (Z.to_nat w0) with 0 by lia; lia|]. destruct (Z.le_gt_cases w1 0) as [W1|W1]; [replace (Z.to_nat w1) with 0 by lia; lia|].
    assert (w0 <= 20001)%Z by lia. assert (w1 <= 20001)%Z by lia. rewrite Z.mul_1_l, !(wrap_small w0), !(wrap_small w1) by lia. rewrite wrap_small by nia. rewrite Nat2Z.inj_mul, !Z2Nat.id by lia. nia.
  Qed.

  (** ** The buffer of cells *)
  Lemma write_cells cells : forall (buf : list Z) q, 0 < ncell -> (forall c, In c cells -> exists l, linear_cell m c = Some l) -> (forall j, j < length cells -> q + j * ncell < length buf) ->
    exists buf', foldM (fun s c => l <- linear_cell m c ;; buf <- upd (fst s) (snd s) l ;; Some (buf, snd s + ncell)) (buf, q) cells = Some (buf', q + length cells * ncell) /\ length buf' = length buf /\
      (forall j c l, nth_error cells j = Some c -> linear_cell m c = Some l -> nth_error buf' (q + j * ncell) = Some l) /\
      (forall x, (forall j, j < length cells -> x <> q + j * ncell) -> nth_error buf' x = nth_error buf x).
  Proof.
    induction cells as [|c cells IH]; intros buf q Hn Hl Hq; cbn [foldM length fst snd].
    - exists buf. rewrite Nat.mul_0_l, Nat.add_0_r. split; [reflexivity|]. split; [reflexivity|]. split; [intros [|j] c l E; discriminate|auto].
    - destruct (Hl c (or_introl eq_refl)) as (l & El). rewrite El. cbn [obind]. destruct (upd_some buf q l) as (b1 & E1); [specialize (Hq 0); cbn in Hq; lia|]. rewrite E1. cbn [obind]. pose proof (upd_length _ _ _ _ E1) as L1.
      destruct (IH b1 (q + ncell) Hn) as (b2 & E2 & L2 & W & U); [intros c' I; apply Hl; right; exact I|intros j Hj; rewrite L1; specialize (Hq (S j)); cbn [length] in Hq; lia|]. exists b2. split; [rewrite E2; do 2 f_equal; lia|]. split; [lia|]. split.
      + intros [|j] c' l' Ec Ec'; cbn [nth_error] in Ec.
        * inversion Ec; subst c'. rewrite El in Ec'. inversion Ec'; subst l'. rewrite U by (intros j Hj; lia). rewrite Nat.mul_0_l, Nat.add_0_r. exact (upd_nth_eq _ _ _ _ E1).
        * replace (q + S j * ncell) with (q + ncell + j * ncell) by lia. exact (W j c' l' Ec Ec').
      + intros x Hx. rewrite U by (intros j Hj; specialize (Hx (S j)); lia). apply (upd_nth_neq _ _ _ _ _ E1). specialize (Hx 0). lia.
  Qed.

  Lemma list_ok k k0 max_box buf idx : good k0 -> length (fst k) = ncell * 2 -> length (snd k) = ncell * 2 -> idx < ncell ->
    (forall i, i < 2 -> nth (idx * 2 + i) (fst k) 0%Z = tmin k0 idx i /\ nth (idx * 2 + i) (snd k) 0%Z = tmax k0 idx i) ->
    length buf = max_box * ncell -> length (box_cells k0 idx) <= max_box ->
    exists buf', list_cells m ncell max_box k buf idx = Some buf' /\ length buf' = length buf /\
      (forall c l, In c (box_cells k0 idx) -> linear_cell m c = Some l -> In l buf' /\ exists j, j < max_box /\ nth_error buf' (idx + j * ncell) = Some l) /\
      (forall x, x mod ncell <> idx -> nth_error buf' x = nth_error buf x).
  Proof.
    intros G L1 L2 Hi Hk Lb Lc. unfold list_cells. rewrite H2. cbn [seq mapM]. rewrite !(rd_nth (fst k) _ 0%Z) by lia. rewrite !(rd_nth (snd k) _ 0%Z) by lia. cbn [obind]. destruct (Hk 0 ltac:(lia)) as (-> & ->). destruct (Hk 1 ltac:(lia)) as (-> & ->). cbn [Nat.sub repeat app]. rewrite grid_eq. cbn [obind]. change (flat_map (fun cy => map (fun cx => [cx; cy; 0%Z]) (zrange (tmin k0 idx 0) (tmax k0 idx 0 + 1))) (zrange (tmin k0 idx 1) (tmax k0 idx 1 + 1))) with (box_cells k0 idx).
    assert (LIN : forall c, In c (box_cells k0 idx) -> exists l, linear_cell m c = Some l). { intros c I. apply grid_in in I. destruct I as (x & y & -> & Ix & Iy). eexists. apply linear_ok; [cbn; lia|]. intros [|[|i]] Li; [| |lia]; cbn [nth]; unfold tmin, tmax in *; lia. }
    assert (Hn : 0 < ncell) by lia. assert (IB : forall j, j < max_box -> idx + j * ncell < length buf) by (intros j Hj; rewrite Lb; nia).
    destruct (write_cells (box_cells k0 idx) buf idx Hn LIN) as (b1 & E1 & Lb1 & W & U); [intros j Hj; apply IB; lia|]. rewrite E1. cbn [obind fst].
    destruct (foldM_upd (fun (buf : list Z) j => upd buf (idx + j * ncell) (-1)%Z) (fun j => idx + j * ncell) (fun _ => (-1)%Z) (seq (length (box_cells k0 idx)) (max_box - length (box_cells k0 idx))) b1) as (b2 & E2 & Lb2 & W2 & U2); [reflexivity|intros j Ij; apply in_seq in Ij; rewrite Lb1; apply IB; lia|reflexivity|].
    exists b2. split; [exact E2|]. split; [lia|]. split.
    - intros c l I El. apply In_nth_error in I. destruct I as (j & Ej). assert (Lj : j < length (box_cells k0 idx)) by (apply nth_error_Some; rewrite Ej; discriminate). assert (X : nth_error b2 (idx + j * ncell) = Some l). { rewrite U2; [exact (W j c l Ej El)|]. intros j' Ij'. apply in_seq in Ij'. nia. } split; [exact (nth_error_In _ _ X)|]. exists j. split; [lia|exact X].
    - intros x Hx. assert (N : forall j, x <> idx + j * ncell). { intros j ->. apply Hx. rewrite Nat.mod_add by lia. apply Nat.mod_small. exact Hi. } rewrite U2 by (intros j _; apply not_eq_sym, N). apply U. intros j _. apply N.
  Qed.

  Lemma set_add_fold buf : forall s l, In l (fold_left (fun s cell => if (-1 <? cell)%Z then set_add cell s else s) buf s) <-> In l s \/ In l buf /\ (-1 < l)%Z.
  Proof.
    induction buf as [|a buf IH]; intros s l; cbn [fold_left In]; [tauto|]. rewrite IH. destruct (Z.ltb_spec (-1) a) as [A|A].
    - rewrite in_set_add. split; [intros [[->|H]|H]; tauto|]. intros [H|([<-|H] & B)]; tauto.
    - split; [tauto|]. intros [H|([<-|H] & B)]; [tauto|lia|tauto].
  Qed.
  Lemma mem_in a l : mem a l = true <-> In a l.
  Proof. unfold mem. rewrite existsb_exists. split; [intros (x & I & E); apply Z.eqb_eq in E; subst; exact I|]. intros I. exists a. split; [exact I|apply Z.eqb_refl]. Qed.

  (** All cells of all trajectories are collected. *)
  Definition traj (p : particle) : list (list Z) :=
    flat_map (fun cy => map (fun cx => [cx; cy; 0%Z]) (zrange (Z.max (Z.min (cc (p_prev p) 0) (cc (p_cur p) 0)) 0) (Z.min (ext 0 - 1) (Z.max (cc (p_prev p) 0) (cc (p_cur p) 0)) + 1)))
      (zrange (Z.max (Z.min (cc (p_prev p) 1) (cc (p_cur p) 1)) 0) (Z.min (ext 1 - 1) (Z.max (cc (p_prev p) 1) (cc (p_cur p) 1)) + 1)).
  Lemma traj_linear p c : In c (traj p) -> exists l, linear_cell m c = Some l /\ (0 <= l)%Z.
  Proof. intros I. apply grid_in in I. destruct I as (x & y & -> & Ix & Iy). eexists. apply linear_ok; [cbn; lia|]. intros [|[|i]] Li; [| |lia]; cbn [nth]; lia. Qed.

  Lemma find_cells_ok d b junk_ collected ps : device_ok d -> i_mesh b = m -> i_bounds b = bounds ->
    (forall p, In p ps -> p_cell p < ncell /\ near m (p_prev p) /\ near m (p_cur p)) ->
    exists req, find_cells d b ncell junk_ collected ps = Some req /\
      (forall p c l, In p ps -> In c (traj p) -> linear_cell m c = Some l -> In l req \/ In l collected).
  Proof.
    intros Hd Em Eb Hp. unfold find_cells. rewrite Em, Eb. destruct (minmax_ok d ps Hd Hp) as (k & E & G & Ho). rewrite E. cbn [obind].
    destruct (truncate_ok d k Hd G) as (k' & mx & E' & L1 & L2 & P0 & T). rewrite E'. cbn [obind fst snd].
    pose proof (proj1 Hd _ 2 (seq 0 ncell)) as P. assert (ND : NoDup (ord d 2 (seq 0 ncell))) by (eapply Permutation_NoDup; [apply Permutation_sym; exact P|apply seq_NoDup]).
    set (mb := Z.to_nat mx). set (buf0 := map junk_ (seq 0 (mb * ncell))).
    destruct (foldM_ind (list_cells m ncell mb k') (fun pre buf => length buf = mb * ncell /\ forall idx, In idx pre -> forall c l, In c (box_cells k idx) -> linear_cell m c = Some l -> exists j, j < mb /\ nth_error buf (idx + j * ncell) = Some l) (ord d 2 (seq 0 ncell)) buf0) as (buf & Ebuf & Lbuf & W).
    - split; [unfold buf0; rewrite map_length, seq_length; reflexivity|intros idx []].
    - intros pre idx post buf Es (Lb & W). assert (Li : idx < ncell). { assert (I : In idx (ord d 2 (seq 0 ncell))) by (rewrite Es; apply in_app_iff; right; left; reflexivity). apply in_ord in I; [|exact Hd]. apply in_seq in I. lia. }
      assert (NI : ~ In idx pre). { rewrite Es in ND. apply NoDup_remove_2 in ND. intros X. apply ND. apply in_app_iff. auto. }
      destruct (T idx Li) as (V & Tk). destruct (list_ok k' k mb buf idx G L1 L2 Li Tk Lb) as (buf' & E1 & Lb' & W1 & U1); [pose proof (box_count k idx G Li); unfold mb; lia|]. exists buf'. split; [exact E1|]. split; [lia|]. intros idx' I c l Ic El. apply in_app_iff in I. destruct I as [I|[<-|[]]]; [|exact (proj2 (W1 c l Ic El))].
      destruct (W idx' I c l Ic El) as (j & Lj & Ej). exists j. split; [exact Lj|]. rewrite U1; [exact Ej|]. assert (Li' : idx' < ncell). { assert (I' : In idx' (ord d 2 (seq 0 ncell))) by (rewrite Es; apply in_app_iff; auto). apply in_ord in I'; [|exact Hd]. apply in_seq in I'. lia. } rewrite Nat.mod_add by lia. rewrite Nat.mod_small by lia. intros ->. contradiction.
    - fold buf0. rewrite Ebuf. cbn [obind]. eexists. split; [reflexivity|]. intros p c l Ip Ic El.
      destruct (Hp p Ip) as (Lc & _). destruct (Ho p Ip) as (Hpr & Hcu).
      assert (Ib : In c (box_cells k (p_cell p))). { apply grid_in in Ic. destruct Ic as (x & y & -> & Ix & Iy). apply grid_in. exists x, y. split; [reflexivity|]. pose proof (Hpr 0 ltac:(lia)). pose proof (Hpr 1 ltac:(lia)). pose proof (Hcu 0 ltac:(lia)). pose proof (Hcu 1 ltac:(lia)). unfold tmin, tmax. split; lia. }
      assert (Il : In l buf). { destruct (W (p_cell p)) with (c := c) (l := l) as (j & _ & Ej); [apply in_ord; [exact Hd|apply in_seq; lia]|exact Ib|exact El|]. exact (nth_error_In _ _ Ej). }
      destruct (traj_linear p c Ic) as (l' & El' & Pl). assert (l' = l) by congruence. subst l'.
      destruct (mem l collected) eqn:M; [right; apply mem_in; exact M|]. left. apply filter_In. rewrite M. split; [|reflexivity]. apply set_add_fold. right. split; [exact Il|lia].
  Qed.
End Cells.
