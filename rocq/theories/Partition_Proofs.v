(** Proofs about the partition into collision cells. *)
From Coq Require Import List Arith Lia ZArith Bool Permutation.
Import ListNotations.
From Verif Require Import Base Kernel Maps_Model Maps_Spec Maps_Proofs Maps_Props Scan_Model Scan_Spec Group_Model
  Compress_Model Compress_Proofs Transpose_Proofs Append_Proofs Add_Proofs Bins_Proofs Partition_Model Partition_Spec.

Local Open Scope nat_scope.
(** * The species *)
Lemma set_insert_in x s y : In y (set_insert x s) <-> y = x \/ In y s.
Proof.
  induction s as [|z s IH]; cbn; [intuition|].
  destruct (x <? z)%Z; [cbn; intuition|]. destruct (Z.eqb_spec x z) as [->|]; cbn; [intuition|]. rewrite IH. intuition.
Qed.
Inductive increasing : list Z -> Prop :=
  | inc_nil : increasing []
  | inc_cons x s : (forall y, In y s -> x < y)%Z -> increasing s -> increasing (x :: s).
Lemma set_insert_inc x s : increasing s -> increasing (set_insert x s).
Proof.
  induction 1 as [|z s Hz Hs IH]; cbn.
  - constructor; [intros y []|constructor].
  - destruct (Z.ltb_spec x z).
    + constructor; [|constructor; auto]. intros y [<-|Hy]; auto. specialize (Hz y Hy). lia.
    + destruct (Z.eqb_spec x z); [constructor; auto|]. constructor; auto.
      intros y Hy. apply set_insert_in in Hy as [->|Hy]; [lia|auto].
Qed.
Definition species_set (ids : list Z) : list Z := fold_left (fun s x => set_insert x s) ids [].
Lemma species_set_ok ids : increasing (species_set ids) /\ forall y, In y (species_set ids) <-> In y ids.
Proof.
  unfold species_set.
  assert (G : forall l s, increasing s -> increasing (fold_left (fun s x => set_insert x s) l s) /\
            forall y, In y (fold_left (fun s x => set_insert x s) l s) <-> In y l \/ In y s).
  { induction l as [|x l IH]; intros s Hs; cbn [fold_left].
    - split; auto. intros y. cbn. tauto.
    - destruct (IH (set_insert x s) (set_insert_inc x s Hs)) as [A B]. split; auto.
      intros y. rewrite B, set_insert_in. cbn. intuition. }
  destruct (G ids [] inc_nil) as [A B]. split; auto. intros y. rewrite B. cbn. tauto.
Qed.
Lemma increasing_nodup s : increasing s -> NoDup s.
Proof.
  induction 1 as [|x s H _ IH]; constructor; auto. intros Hx. specialize (H x Hx). lia.
Qed.

(** The linear index of a species. *)
Definition lin (ids : list Z) (x : Z) : option nat :=
  last_added (combine (species_set ids) (seq 0 (length (species_set ids)))) x.

Lemma last_added_combine s a x : NoDup s ->
  last_added (combine s (seq a (length s))) x = option_map snd (find (fun e => (fst e =? x)%Z) (combine s (seq a (length s)))) /\
  (forall q, last_added (combine s (seq a (length s))) x = Some q -> exists i, q = a + i /\ nth_error s i = Some x) /\
  (last_added (combine s (seq a (length s))) x = None <-> ~ In x s).
Proof.
  intros ND. revert a. induction ND as [|y s Hy ND IH]; intros a; cbn [length seq combine last_added find fst].
  - split; [auto|]. split; [discriminate|]. split; [intros _ []|auto].
  - destruct (IH (S a)) as [A [B C]]. destruct (Z.eqb_spec y x) as [->|Ne].
    + assert (last_added (combine s (seq (S a) (length s))) x = None) as E by (apply C; auto).
      rewrite E. split; [reflexivity|]. split; [intros q [= <-]; exists 0; split; [lia|reflexivity]|].
      split; [discriminate|]. cbn. tauto.
    + rewrite <- A. destruct (last_added (combine s (seq (S a) (length s))) x) as [w|] eqn:E.
      * split; [auto|]. split; [intros q [= <-]; destruct (B w eq_refl) as [i [-> Hi]]; exists (S i); split; [lia|auto]|].
        split; [discriminate|]. intros H. exfalso. assert (~ In x s) as H' by (cbn in H; tauto). apply C in H'. discriminate.
      * split; [auto|]. split; [discriminate|]. split; auto. intros _ [H|H]; [auto|]. apply (proj1 C); auto.
Qed.

Lemma lin_some ids x q : lin ids x = Some q -> nth_error (species_set ids) q = Some x.
Proof.
  intros H. destruct (species_set_ok ids) as [I _]. apply increasing_nodup in I.
  destruct (last_added_combine _ 0 x I) as [_ [B _]]. destruct (B q H) as [i [-> Hi]]. auto.
Qed.
Lemma lin_none ids x : lin ids x = None <-> ~ In x ids.
Proof.
  destruct (species_set_ok ids) as [I J]. apply increasing_nodup in I.
  destruct (last_added_combine _ 0 x I) as [_ [_ C]]. unfold lin. rewrite C, J. tauto.
Qed.
Lemma lin_inj ids x y q : lin ids x = Some q -> lin ids y = Some q -> x = y.
Proof. intros A B. apply lin_some in A, B. congruence. Qed.

Lemma seq_shift_plus b n : map (plus b) (seq 0 n) = seq b n.
Proof.
  assert (G : forall a, map (plus b) (seq a n) = seq (b + a) n).
  { induction n as [|n IH]; intros a; [reflexivity|]. cbn [seq map]. rewrite IH. f_equal. f_equal. lia. }
  rewrite G. f_equal. lia.
Qed.

Section Run.
  Context (d : device) (Hd : device_ok d) (W : Z) (HW : (0 < W)%Z) (f : nat -> node nat) (Hf : allocation W f).
  Context (cells : nat) (ids : list Z) (Hids : ids <> []) (Hcells : 0 < cells).

  Definition ns : nat := length (species_set ids).

  (** What no call of construct changes. *)
  Record base (s : partition) : Prop := {
    base_cells : cell_count s = cells;
    base_ns : num_species s = ns;
    base_host : forall x, get_linear_species_id s x = lin ids x;
    base_dev : forall x, get_linear_species_index W s x = Some (lin ids x)
  }.

  Lemma create_ok : exists s, create W f cells ids = Some s /\ base s.
  Proof.
    unfold create. destruct (Nat.ltb_spec 0 cells) as [_|]; [|lia]. cbn [assert obind].
    change (fold_left (fun s x => set_insert x s) ids []) with (species_set ids).
    set (m := combine (species_set ids) (seq 0 (length (species_set ids)))).
    destruct (history_correct W HW f Hf m) as [t [E [HI H]]]. rewrite E. cbn [obind]. eexists. split; [reflexivity|].
    destruct (species_set_ok ids) as [I J]. apply increasing_nodup in I.
    assert (HR : exists r, root t = Some r).
    { destruct (root t) as [r|] eqn:R; [eauto|]. exfalso. destruct ids as [|x l] eqn:Ei; [congruence|].
      specialize (H x). unfold tree_host_get in H. rewrite R in H. injection H as H. symmetry in H.
      apply (last_added_combine _ 0 x I) in H. apply H, J. cbn. auto. }
    constructor; cbn [cell_count num_species]; auto.
    - intros x. unfold get_linear_species_id, lin. cbn [map_species_id_to_linear].
      destruct (last_added_combine _ 0 x I) as [A _]. rewrite A. reflexivity.
    - intros x. unfold get_linear_species_index. cbn [h_map_species_id_linear_id].
      destruct HR as [r R]. rewrite R. cbn [obind]. destruct (root_of W t HI r R) as [_ G]. rewrite G, H. reflexivity.
  Qed.

  (** The offset of a (mesh cell, collision cell, species). *)
  Definition off (max_cc c cc q : nat) : nat := c * (max_cc * ns) + cc * ns + q.
  Lemma off_inj max_cc c cc q c' cc' q' : cc < max_cc -> cc' < max_cc -> q < ns -> q' < ns ->
    off max_cc c cc q = off max_cc c' cc' q' -> c = c' /\ cc = cc' /\ q = q'.
  Proof.
    unfold off. intros A B C D E.
    destruct (mul_add_inj (max_cc * ns) c (cc * ns + q) c' (cc' * ns + q')) as [-> E2]; [lia|nia|nia|].
    destruct (mul_add_inj ns cc q cc' q' E2 C D) as [-> ->]. auto.
  Qed.
  Lemma off_lt max_cc c cc q : c < cells -> cc < max_cc -> q < ns -> off max_cc c cc q < max_cc * cells * ns.
  Proof. unfold off. intros A B C. assert (cc * ns + q < max_cc * ns) by nia. assert (S c <= cells) by lia. nia. Qed.

  Lemma offset_ok s max_cc c z q : base s -> max_num_collision_cells s = max_cc -> (0 <= z)%Z ->
    get_offset_cell_species s c z q = Some (off max_cc c (Z.to_nat z) q).
  Proof.
    intros B M Hz. unfold get_offset_cell_species, off, index_of. rewrite (base_ns s B), M.
    destruct (Z.ltb_spec (Z.of_nat (c * (max_cc * ns)) + z * Z.of_nat ns + Z.of_nat q) 0); [lia|].
    f_equal. rewrite !Z2Nat.inj_add by lia. rewrite Z2Nat.inj_mul by lia. rewrite !Nat2Z.id. reflexivity.
  Qed.

  Context (parts : list particle) (counts : list nat) (HV : valid cells ids parts counts).
  Definition mcc : nat := list_max (firstn cells counts).
  Definition LL : nat := mcc * cells * ns.

  Definition pkey (p : particle) : option nat :=
    match lin ids (p_species p) with
    | Some q => Some (off mcc (p_cell p) (Z.to_nat (p_ccell p)) q)
    | None => None
    end.
  Definition key (i : nat) : option nat := match nth_error parts i with Some p => pkey p | None => None end.

  Lemma count_le c n : c < cells -> nth_error counts c = Some n -> n <= mcc.
  Proof.
    intros Hc Hn. unfold mcc. assert (Forall (fun k => k <= list_max (firstn cells counts)) (firstn cells counts)) as F.
    { apply list_max_le. lia. }
    rewrite Forall_forall in F. apply F. apply nth_error_In with c. rewrite nth_error_firstn.
    destruct (Nat.ltb_spec c cells); [auto|lia].
  Qed.

  Lemma part_ok p q : In p parts -> lin ids (p_species p) = Some q ->
    p_cell p < cells /\ (0 <= p_ccell p)%Z /\ Z.to_nat (p_ccell p) < mcc /\ q < ns.
  Proof.
    intros Hp Hq. destruct HV as [_ H]. destruct (H p Hp) as [A [n [B C]]].
    { destruct (in_dec Z.eq_dec (p_species p) ids) as [I|I]; auto. apply lin_none in I. congruence. }
    pose proof (count_le _ _ A B). split; auto. split; [lia|]. split; [lia|].
    apply lin_some, nth_error_some_lt in Hq. exact Hq.
  Qed.

  Lemma key_lt i ix : key i = Some ix -> ix < LL.
  Proof.
    unfold key, pkey. destruct (nth_error parts i) as [p|] eqn:E; [|discriminate].
    destruct (lin ids (p_species p)) as [q|] eqn:Q; [|discriminate]. intros [= <-].
    apply nth_error_In in E. destruct (part_ok p q E Q) as [A [B [C D]]]. apply off_lt; auto.
  Qed.

  Definition npart : nat := length parts.

  (** The particles of a bin, as layers. *)
  Definition bin_of (sched : list nat) (ix : nat) : list nat := filter (in_bin key ix) sched.
  Lemma bin_members sched c cc x q : Permutation sched (seq 0 npart) -> lin ids x = Some q -> cc < mcc ->
    Permutation (map (fun i => match nth_error parts i with Some p => p_layer p | None => 0 end) (bin_of sched (off mcc c cc q)))
      (members parts c cc x).
  Proof.
    intros P Q Hcc. unfold bin_of. rewrite (filter_perm _ _ _ P). clear P sched.
    unfold members.
    assert (map (fun i => match nth_error parts i with Some p => p_layer p | None => 0 end)
              (filter (in_bin key (off mcc c cc q)) (seq 0 npart)) =
            map p_layer (filter (fun p => match pkey p with Some ix => ix =? off mcc c cc q | None => false end) parts)) as ->.
    { unfold in_bin, key, npart. generalize parts as l. induction l as [|p l IH] using rev_ind; [reflexivity|].
      rewrite app_length, seq_app, !filter_app, !map_app. cbn [length seq]. f_equal.
      - rewrite <- IH. assert (forall i, In i (seq 0 (length l)) -> nth_error (l ++ [p]) i = nth_error l i) as H.
        { intros i Hi. apply in_seq in Hi. apply nth_error_app1. lia. }
        transitivity (map (fun i => match nth_error (l ++ [p]) i with Some p => p_layer p | None => 0 end)
          (filter (fun i => match match nth_error l i with Some p => pkey p | None => None end with Some x => x =? off mcc c cc q | None => false end) (seq 0 (length l)))).
        { f_equal. apply filter_ext_in. intros i Hi. rewrite H; auto. }
        apply map_ext_in. intros i Hi. apply filter_In in Hi as [Hi _]. rewrite H; auto.
      - cbn [filter plus]. rewrite nth_error_app2, Nat.sub_diag by lia. cbn [nth_error].
        destruct (pkey p) as [ix|]; [|reflexivity]. destruct (ix =? off mcc c cc q); [|reflexivity].
        cbn [map]. rewrite nth_error_app2, Nat.sub_diag by lia. reflexivity. }
    match goal with |- Permutation ?a ?b => assert (a = b) as ->; [|apply Permutation_refl] end. f_equal. apply filter_ext_in. intros p Hp. unfold pkey.
    destruct (lin ids (p_species p)) as [q'|] eqn:Q'.
    - destruct (part_ok p q' Hp Q') as [A [B [C D]]].
      assert (q < ns) as Hq by (apply lin_some, nth_error_some_lt in Q; exact Q).
      destruct (Nat.eqb_spec (off mcc (p_cell p) (Z.to_nat (p_ccell p)) q') (off mcc c cc q)) as [E|E].
      + apply off_inj in E as [-> [<- ->]]; auto. rewrite Nat.eqb_refl, Z2Nat.id, Z.eqb_refl by lia.
        rewrite (lin_inj ids (p_species p) x q) by auto. rewrite Z.eqb_refl. reflexivity.
      + symmetry. apply not_true_iff_false. intros H. apply andb_prop in H as [H H3]. apply andb_prop in H as [H1 H2].
        apply Nat.eqb_eq in H1. apply Z.eqb_eq in H2, H3. apply E. subst. rewrite H2, Nat2Z.id in *. congruence.
    - symmetry. apply not_true_iff_false. intros H. apply andb_prop in H as [_ H3]. apply Z.eqb_eq in H3. congruence.
  Qed.

  (** The result of a construction. *)
  Record constructed (s : partition) : Prop := {
    con_base : base s;
    con_counts : collision_cell_counts s = firstn cells counts;
    con_max : max_num_collision_cells s = mcc;
    con_num : forall c cc x q, c < cells -> cc < mcc -> lin ids x = Some q ->
      get_num_particles_cell_species s c cc q = Some (length (members parts c cc x));
    con_layers : forall c cc x q, c < cells -> cc < mcc -> lin ids x = Some q ->
      exists l, mapM (get_particle_layer s c cc q) (seq 0 (length (members parts c cc x))) = Some l /\
        Permutation l (members parts c cc x);
    con_occ : (forall c cc x, c < cells -> cc < mcc -> In x ids -> length (members parts c cc x) <= max_collision_cell_occupancy s) /\
      (max_collision_cell_occupancy s = 0 \/
       exists c cc x, c < cells /\ cc < mcc /\ In x ids /\ length (members parts c cc x) = max_collision_cell_occupancy s)
  }.

  Lemma list_max_in (l : list nat) : l <> [] -> In (list_max l) l.
  Proof.
    induction l as [|x [|y l] IH]; intros H; [congruence|cbn [list_max fold_right]; left; lia|].
    change (list_max (x :: y :: l)) with (Nat.max x (list_max (y :: l))).
    destruct (Nat.max_spec x (list_max (y :: l))) as [[_ ->]|[_ ->]]; [right; apply IH; discriminate|left; auto].
  Qed.

  Lemma off_surj ix : ix < LL -> exists c cc q, ix = off mcc c cc q /\ c < cells /\ cc < mcc /\ q < ns.
  Proof.
    unfold LL. intros H. assert (0 < mcc * ns /\ 0 < ns /\ 0 < mcc) as [A [B C]] by nia.
    exists (ix / (mcc * ns)), ((ix mod (mcc * ns)) / ns), ((ix mod (mcc * ns)) mod ns).
    pose proof (Nat.div_mod ix (mcc * ns) ltac:(lia)) as D1. pose proof (Nat.mod_upper_bound ix (mcc * ns) ltac:(lia)) as M1.
    set (r := ix mod (mcc * ns)) in *. pose proof (Nat.div_mod r ns ltac:(lia)) as D2.
    pose proof (Nat.mod_upper_bound r ns ltac:(lia)) as M2.
    split; [unfold off; nia|]. split; [apply Nat.div_lt_upper_bound; nia|]. split; [apply Nat.div_lt_upper_bound; nia|auto].
  Qed.

  Lemma construct_ok k s : base s -> exists s', construct d W k s parts counts = Some s' /\ constructed s'.
  Proof.
    intros HB. pose proof (base_cells s HB) as Ec. pose proof (base_ns s HB) as En.
    unfold construct. rewrite Ec, En. destruct HV as [HL HP].
    destruct (Nat.leb_spec cells (length counts)); [|lia]. cbn [assert obind].
    change (list_max (firstn cells counts)) with mcc. change (mcc * cells * ns) with LL. change (length parts) with npart.
    set (s1 := mk_partition _ _ _ _ _ _ _ (max_collision_cell_occupancy s) _ _).
    assert (B1 : base s1) by (destruct HB; constructor; auto).
    destruct Hd as [Hord Hls].
    set (sched := ord d k (seq 0 npart)). assert (Ps : Permutation sched (seq 0 npart)) by apply Hord.
    assert (NDs : NoDup sched) by (eapply Permutation_NoDup; [symmetry; exact Ps|apply seq_NoDup]).
    assert (Hin : forall i, In i sched -> i < npart).
    { intros i Hi. apply (Permutation_in i Ps), in_seq in Hi. lia. }
    destruct (bins_count key (LL + 1) (fresh d k npart) sched NDs) as [c [l [E1 [Lc [Ll [C Lay]]]]]].
    { intros i Hi. rewrite fresh_length. auto. }
    { intros i ix _ Hk. apply key_lt in Hk. lia. }
    rewrite (foldM_ext_in _ (bin_step key)).
    2:{ intros [c0 l0] i Hi. apply Hin in Hi. unfold determine_layer, bin_step, key, rd.
        destruct (nth_error parts i) as [p|] eqn:Ep; [|apply nth_error_None in Ep; unfold npart in Hi; lia]. cbn [obind fst snd].
        rewrite (base_dev s1 B1). cbn [obind]. unfold pkey. destruct (lin ids (p_species p)) as [q|] eqn:Q; [|reflexivity].
        apply nth_error_In in Ep. destruct (part_ok p q Ep Q) as [_ [Hz _]]. rewrite (offset_ok s1 mcc _ _ _ B1 eq_refl Hz). reflexivity. }
    rewrite E1. cbn [obind].
    destruct (exscan_correct d (k + 1) (LL + 1) c (fresh d (k + 5) (LL + 1)) (conj Hord Hls)) as [es [E2 [X1 [X2 X3]]]];
      [lia|rewrite fresh_length; lia|].
    rewrite E2. cbn [obind].
    set (s2 := mk_partition _ _ _ _ _ _ _ _ es _).
    assert (B2 : base s2) by (destruct HB; constructor; auto).
    assert (Hes : forall ix, ix <= LL -> nth_error es ix = Some (before key sched ix)).
    { intros ix Hix. rewrite X1 by lia. f_equal. eapply before_total; eauto. lia. }
    destruct (bins_place key (fun i => match nth_error parts i with Some p => p_layer p | None => 0 end)
      (fun i => match nth_error l i with Some j => j | None => 0 end) (populate_map W s2 parts l) sched
      (ord d (k + 6) (seq 0 npart)) (fresh d (k + 6) npart) NDs) as [e [E3 [Le Hent]]].
    { rewrite Ps. apply Hord. }
    { rewrite fresh_length, (Permutation_length Ps), seq_length. lia. }
    { intros ix j i Hj. rewrite (Lay _ _ _ Hj). reflexivity. }
    { intros e i Lx Hi. pose proof (Hin i Hi) as Hi'. unfold populate_map, rd, key.
      destruct (nth_error parts i) as [p|] eqn:Ep; [|apply nth_error_None in Ep; unfold npart in Hi'; lia]. cbn [obind].
      rewrite (base_dev s2 B2). cbn [obind]. unfold pkey. destruct (lin ids (p_species p)) as [q|] eqn:Q; [|reflexivity].
      pose proof (nth_error_In _ _ Ep) as Ip. destruct (part_ok p q Ip Q) as [A1 [Hz [A2 A3]]].
      rewrite (offset_ok s2 mcc _ _ _ B2 eq_refl Hz). cbn [obind d_collision_cell_offsets].
      assert (off mcc (p_cell p) (Z.to_nat (p_ccell p)) q < LL) as Hlt by (apply off_lt; auto).
      change (d_collision_cell_offsets s2) with es. rewrite Hes by lia. cbn [obind].
      destruct (nth_error l i) as [j|] eqn:El; [reflexivity|]. apply nth_error_None in El. rewrite Ll, fresh_length in El. lia. }
    rewrite E3. cbn [obind].
    set (s3 := mk_partition _ _ _ _ _ _ _ _ es e).
    assert (B3 : base s3) by (destruct HB; constructor; auto).
    exists s3. split; [reflexivity|].
    assert (Hoff : forall c cc q, get_offset_cell_species s3 c (Z.of_nat cc) q = Some (off mcc c cc q)).
    { intros c0 cc q. rewrite (offset_ok s3 mcc _ _ _ B3 eq_refl) by lia. rewrite Nat2Z.id. reflexivity. }
    assert (Hbin : forall c cc x q, cc < mcc -> lin ids x = Some q ->
              length (filter (in_bin key (off mcc c cc q)) sched) = length (members parts c cc x)).
    { intros c0 cc x q Hcc Q. pose proof (Permutation_length (bin_members sched c0 cc x q Ps Q Hcc)) as H1.
      rewrite map_length in H1. exact H1. }
    assert (Hlin : forall x q, lin ids x = Some q -> q < ns).
    { intros x q Q. apply lin_some, nth_error_some_lt in Q. exact Q. }
    constructor; auto.
    - intros c0 cc x q Hc Hcc Q. unfold get_num_particles_cell_species. rewrite Hoff. cbn [obind].
      assert (off mcc c0 cc q < LL) as Hlt by (apply off_lt; eauto).
      change (d_collision_cell_offsets s3) with es. unfold rd. rewrite !Hes by lia. cbn [obind].
      rewrite Nat.add_1_r, before_S. unfold sub_. destruct (Nat.ltb_spec (before key sched (off mcc c0 cc q) + length (filter (in_bin key (off mcc c0 cc q)) sched)) (before key sched (off mcc c0 cc q))); [lia|].
      f_equal. rewrite <- (Hbin c0 cc x q Hcc Q). lia.
    - intros c0 cc x q Hc Hcc Q.
      exists (map (fun i => match nth_error parts i with Some p => p_layer p | None => 0 end) (bin_of sched (off mcc c0 cc q))).
      split; [|apply bin_members; auto].
      rewrite <- (Hbin c0 cc x q Hcc Q). unfold bin_of. set (F := filter _ _).
      set (g := fun i => match nth_error parts i with Some p => p_layer p | None => 0 end).
      rewrite <- (mapM_nth_seq (fun i => Some (g i))); [apply mapM_some; auto|].
      intros j i EF. symmetry.
      unfold get_particle_layer. rewrite Hoff. cbn [obind].
      assert (off mcc c0 cc q < LL) as Hlt by (apply off_lt; eauto).
      change (d_collision_cell_offsets s3) with es. unfold rd at 1. rewrite Hes by lia. cbn [obind].
      unfold rd. change (d_map_entries s3) with e. apply (Hent _ _ _ EF).
    - change (max_collision_cell_occupancy s3) with (list_max (firstn LL c)). split.
      + intros c0 cc x Hc Hcc Hx. destruct (lin ids x) as [q|] eqn:Q; [|apply lin_none in Q; tauto].
        assert (off mcc c0 cc q < LL) as Hlt by (apply off_lt; eauto).
        rewrite <- (Hbin c0 cc x q Hcc Q).
        assert (Forall (fun k => k <= list_max (firstn LL c)) (firstn LL c)) as F by (apply list_max_le; lia).
        rewrite Forall_forall in F. apply F. apply nth_error_In with (off mcc c0 cc q). rewrite nth_error_firstn.
        destruct (Nat.ltb_spec (off mcc c0 cc q) LL); [|lia]. apply C. lia.
      + destruct (Nat.eq_dec LL 0) as [Z0|Z0]; [left; rewrite Z0; reflexivity|]. right.
        assert (In (list_max (firstn LL c)) (firstn LL c)) as I.
        { apply list_max_in. intros E. apply (f_equal (@length nat)) in E. rewrite firstn_length in E. cbn in E. lia. }
        apply In_nth_error in I as [ix Hix]. rewrite nth_error_firstn in Hix. destruct (Nat.ltb_spec ix LL); [|discriminate].
        destruct (off_surj ix) as [c0 [cc [q [-> [H1 [H2 H3]]]]]]; auto.
        destruct (nth_error (species_set ids) q) as [x|] eqn:Ex; [|apply nth_error_None in Ex; unfold ns in H3; lia].
        assert (In x ids) as Ix by (apply (proj2 (species_set_ok ids)); eapply nth_error_In; eauto).
        destruct (lin ids x) as [q'|] eqn:Q; [|apply lin_none in Q; tauto].
        assert (q' = q).
        { apply lin_some in Q as Q2. pose proof (increasing_nodup _ (proj1 (species_set_ok ids))) as ND.
          rewrite NoDup_nth_error in ND. apply ND; [eapply nth_error_some_lt; eauto|congruence]. }
        subst q'. exists c0, cc, x. repeat split; auto. rewrite <- (Hbin c0 cc x q H2 Q).
        rewrite C in Hix by lia. congruence.
  Qed.

  (** The kernel of get_max_num_pairs. *)
  Lemma max_pairs_ok k s a b replacement : constructed s -> In a ids -> In b ids ->
    get_max_num_pairs d k s a b replacement =
    Some (map (fun c => map (fun cc => most_pairs replacement (a =? b)%Z (length (members parts c cc a)) (length (members parts c cc b)))
      (seq 0 (nth c counts 0))) (seq 0 cells)).
  Proof.
    intros Hs Ha Hb. pose proof (con_base s Hs) as HB. unfold get_max_num_pairs. rewrite !(base_host s HB).
    destruct (lin ids a) as [qa|] eqn:Qa; [|apply lin_none in Qa; tauto].
    destruct (lin ids b) as [qb|] eqn:Qb; [|apply lin_none in Qb; tauto]. cbn [obind].
    rewrite (con_max s Hs), (base_cells s HB). destruct Hd as [Hord _].
    set (val := fun w : nat * nat => most_pairs replacement (a =? b)%Z (length (members parts (fst w) (snd w) a)) (length (members parts (fst w) (snd w) b))).
    set (ws := ord d k (list_prod (seq 0 cells) (seq 0 mcc))).
    assert (Hw : forall w, In w ws <-> fst w < cells /\ snd w < mcc).
    { intros [c cc]. unfold ws. split; intros H.
      - apply (Permutation_in _ (Hord _ k _)), in_prod_iff in H. rewrite !in_seq in H. cbn. lia.
      - apply (Permutation_in _ (Permutation_sym (Hord _ k _))), in_prod_iff. rewrite !in_seq. cbn in H. lia. }
    destruct (foldM_upd (fun m w => n <- num_pairs s qa qb (a =? b)%Z replacement (fst w) (snd w) ;; upd m (fst w * mcc + snd w) n)
      (fun w => fst w * mcc + snd w) val ws (freshZ d k (mcc * cells))) as [m [E [Lm [Hm _]]]].
    - intros m w _ Hiw. apply Hw in Hiw as [Hc Hcc].
      assert (num_pairs s qa qb (a =? b)%Z replacement (fst w) (snd w) = Some (val w)) as ->; [|reflexivity].
      unfold num_pairs, val, most_pairs. rewrite (con_num s Hs _ _ a qa Hc Hcc Qa), (con_num s Hs _ _ b qb Hc Hcc Qb).
      destruct replacement, (a =? b)%Z; reflexivity.
    - intros w Hiw. apply Hw in Hiw as [Hc Hcc]. rewrite freshZ_length. nia.
    - intros [c cc] [c' cc'] H1 H2 Ei. apply Hw in H1, H2. cbn [fst snd] in *.
      destruct (mul_add_inj mcc c cc c' cc' Ei) as [-> ->]; tauto.
    - rewrite E. cbn [obind]. apply mapM_some. intros c Hc. apply in_seq in Hc. unfold rd at 1.
      rewrite (con_counts s Hs), nth_error_firstn. destruct (Nat.ltb_spec c cells); [|lia].
      destruct HV as [HL _].
      destruct (nth_error counts c) as [n|] eqn:En; [|apply nth_error_None in En; lia]. cbn [obind].
      rewrite (nth_error_nth counts c 0 En).
      pose proof (count_le c n ltac:(lia) En) as Hn. unfold slice. replace (c * mcc + n - c * mcc) with n by lia.
      rewrite <- seq_shift_plus, mapM_map. apply mapM_some. intros cc Hcc. apply in_seq in Hcc. unfold rd.
      apply (Hm (c, cc)). apply Hw. cbn. lia.
  Qed.
End Run.

Lemma history_ok d W f cells ids history last : device_ok d -> (0 < W)%Z -> allocation W f -> ids <> [] -> 0 < cells ->
  (forall h, In h (history ++ [last]) -> valid cells ids (parts_of h) (counts_of h)) ->
  exists s, partition_after d W f cells ids (history ++ [last]) = Some s /\
    constructed W cells ids (parts_of last) (counts_of last) s.
Proof.
  intros Hd HW Hf Hi Hc HV. unfold partition_after. destruct (create_ok W HW f Hf cells ids Hi Hc) as [s0 [E0 B0]].
  rewrite E0. cbn [obind]. rewrite foldM_app.
  assert (exists s1, foldM (fun s h => construct d W (k_of h) s (parts_of h) (counts_of h)) s0 history = Some s1 /\ base W cells ids s1)
    as [s1 [E1 B1]].
  { assert (HV' : forall h, In h history -> valid cells ids (parts_of h) (counts_of h)) by (intros h Hh; apply HV, in_or_app; auto).
    clear HV E0. revert s0 B0. induction history as [|h l IH]; intros s0 B0; [exists s0; auto|]. cbn [foldM].
    destruct (construct_ok d Hd W cells ids Hc (parts_of h) (counts_of h) (HV' h (or_introl eq_refl)) (k_of h) s0 B0) as [s1 [E C]].
    rewrite E. cbn [obind]. apply IH; [intros; apply HV'; right; auto|]. apply (con_base _ _ _ _ _ _ C). }
  rewrite E1. cbn [obind foldM].
  destruct (construct_ok d Hd W cells ids Hc (parts_of last) (counts_of last) (HV last (in_elt last history [])) (k_of last) s1 B1) as [s2 [E2 C2]].
  rewrite E2. cbn [obind]. exists s2. auto.
Qed.

(** * The largest number of disjoint pairs *)
Lemma max_pairs_same (A : list nat) : NoDup A ->
  (exists pairs, length pairs = length A / 2 /\ disjoint_pairs true A A pairs) /\
  forall pairs, disjoint_pairs true A A pairs -> length pairs <= length A / 2.
Proof.
  intros ND. split.
  - assert (G : forall n (A : list nat), NoDup A -> length A <= n -> exists pairs, length pairs = length A / 2 /\ disjoint_pairs true A A pairs).
    { clear. induction n as [|n IH]; intros A ND Hn.
      - destruct A; [|cbn in Hn; lia]. exists []. split; [reflexivity|]. split; [intros p []|constructor].
      - destruct A as [|x [|y A]]; [exists []; split; [reflexivity|]; split; [intros p []|constructor]..|].
        inversion ND as [|? ? Nx ND1]; subst. inversion ND1 as [|? ? Ny ND2]; subst.
        destruct (IH A ND2) as [ps [L [S1 S2]]]; [cbn in Hn; lia|].
        exists ((x, y) :: ps). split.
        { cbn [length]. rewrite L. replace (S (S (length A))) with (length A + 1 * 2) by lia. rewrite Nat.div_add by lia. lia. }
        split; [intros p [<-|Hp]; [cbn; auto|]; destruct (S1 p Hp); cbn; auto|].
        assert (Hin : forall z, In z (flat_map (fun p => [fst p; snd p]) ps) -> In z A).
        { intros z Hz. apply in_flat_map in Hz as [p [Hp Hz]]. destruct (S1 p Hp). destruct Hz as [<-|[<-|[]]]; auto. }
        cbn [flat_map app fst snd]. constructor; [|constructor; auto].
        intros [->|H]; [apply Nx; cbn; auto|]. apply Nx. cbn. auto. }
    apply (G (length A) A ND (le_n _)).
  - intros pairs [S1 S2].
    assert (length (flat_map (fun p : nat * nat => [fst p; snd p]) pairs) = 2 * length pairs) as L.
    { clear. induction pairs as [|p l IH]; [reflexivity|]. cbn [flat_map app length]. lia. }
    assert (length (flat_map (fun p : nat * nat => [fst p; snd p]) pairs) <= length A) as Hle.
    { apply NoDup_incl_length; auto. intros z Hz. apply in_flat_map in Hz as [p [Hp Hz]]. destruct (S1 p Hp). destruct Hz as [<-|[<-|[]]]; auto. }
    apply Nat.div_le_lower_bound; lia.
Qed.

Lemma max_pairs_different (A B : list nat) : NoDup A -> NoDup B ->
  (exists pairs, length pairs = Nat.min (length A) (length B) /\ disjoint_pairs false A B pairs) /\
  forall pairs, disjoint_pairs false A B pairs -> length pairs <= Nat.min (length A) (length B).
Proof.
  intros NA NB. split.
  - exists (combine A B). split; [apply combine_length|]. split.
    + intros [x y] H. cbn. split; [eapply in_combine_l; eauto|eapply in_combine_r; eauto].
    + revert B NB. induction NA as [|x A Hx NA IH]; intros B NB; [split; constructor|].
      destruct NB as [|y B Hy NB]; [split; constructor|]. destruct (IH B NB) as [I1 I2]. cbn. split; constructor; auto.
      * intros H. apply in_map_iff in H as [[u v] [<- H]]. apply in_combine_l in H. auto.
      * intros H. apply in_map_iff in H as [[u v] [<- H]]. apply in_combine_r in H. auto.
  - intros pairs [S1 [S2 S3]].
    assert (length (map fst pairs) <= length A).
    { apply NoDup_incl_length; auto. intros z Hz. apply in_map_iff in Hz as [p [<- Hp]]. apply S1; auto. }
    assert (length (map snd pairs) <= length B).
    { apply NoDup_incl_length; auto. intros z Hz. apply in_map_iff in Hz as [p [<- Hp]]. apply S1; auto. }
    rewrite map_length in *. lia.
Qed.
