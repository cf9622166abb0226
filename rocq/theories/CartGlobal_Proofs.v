(** The global map: ranks from the map of owners. *)
From Coq Require Import List Arith ZArith QArith Qabs Qround Lqa Bool Lia Permutation.
Import ListNotations.
From Verif Require Import Base Kernel Scan_Model Group_Model Group_Spec Group_Proofs Mesh_Model Mesh_Spec Mesh_Proofs MeshNb_Proofs MeshPos_Proofs
  CartMesh_Model CartMesh_Spec CartMesh_Proofs CartOwner_Proofs CartMap_Model CartMap_Spec CartLoop_Proofs CartMap_Proofs CartBin_Proofs CartLocal_Proofs.
Local Open Scope Z_scope.

(** ** The error flag *)
Section Err.
  Context (m : mesh) (E : (0 < extent m)%Q).
  Lemma err_inside d pos : 0 < d -> (0 <= pos)%Q -> (pos <= inject_Z d * extent m)%Q -> map_dim_err m d pos = false.
  Proof.
    intros Hd P0 P1. unfold map_dim_err. cbn zeta. destruct (trunc_div pos _ _ E (icw m E) P0) as (C0 & C1 & C2).
    set (c := Qtrunc (pos * inverse_cell_width_coarse m)) in *. unfold cell_width_coarse. pose proof (w_pos m E) as W. pose proof (w_n m) as Wn.
    rewrite inject_Z_plus in C2. change (inject_Z 1) with 1%Q in C2. change (cell_width_fine m) with (fine_width m).
    destruct (Z.leb_spec d c) as [Q|Q].
    - rewrite Zle_Qle in Q. assert (Ep : (pos == inject_Z d * extent m)%Q) by nra.
      assert (Pp : (0 < pos)%Q) by (pose proof (inject_pos d Hd); nra).
      assert (T1 : within_tol (pos - inject_Z d * extent m) pos = true) by (apply within_tol_spec; lra).
      rewrite T1. cbn [andb negb orb]. set (pf := (pos - inject_Z (d - 1) * extent m)%Q).
      assert (Epf : (pf == extent m)%Q). { unfold pf, Z.sub. rewrite inject_Z_plus. change (inject_Z (- (1))) with (- (1))%Q. lra. }
      assert (T2 : within_tol (pf - inject_Z (ncells_dim_fine m) * fine_width m) pf = true).
      { apply within_tol_spec; rewrite Epf; lra. }
      rewrite T2. apply andb_false_r.
    - cbn [andb orb]. assert (F : (ncells_dim_fine m <=? Qtrunc ((pos - inject_Z c * extent m) * inverse_cell_width_fine m)) = false); [|rewrite F; reflexivity].
      apply Z.leb_gt. destruct (trunc_div (pos - inject_Z c * extent m) _ _ W (ifw m E)) as (F0 & F1 & F2); [lra|].
      set (f := Qtrunc ((pos - inject_Z c * extent m) * inverse_cell_width_fine m)) in *.
      apply inject_lt. destruct (Qlt_le_dec (inject_Z f) (inject_Z (ncells_dim_fine m))) as [|K]; [assumption|exfalso].
      assert (inject_Z (ncells_dim_fine m) * fine_width m <= inject_Z f * fine_width m)%Q by (apply Qmult_le_compat_r; lra). lra.
  Qed.
  Lemma err_above d pos : 0 < d -> (inject_Z d * extent m < pos)%Q -> ~ (pos - inject_Z d * extent m <= (1 # 10000000000) * pos)%Q -> map_dim_err m d pos = true.
  Proof.
    intros Hd P1 N. pose proof (inject_pos d Hd) as Dp. assert (Pp : (0 < pos)%Q) by nra. unfold map_dim_err. cbn zeta.
    destruct (trunc_div pos _ _ E (icw m E)) as (C0 & C1 & C2); [lra|]. set (c := Qtrunc (pos * inverse_cell_width_coarse m)) in *.
    assert (Cd : d <= c).
    { enough (d < c + 1) by lia. apply inject_lt. destruct (Qlt_le_dec (inject_Z d) (inject_Z (c + 1))) as [|K]; [assumption|exfalso].
      assert (inject_Z (c + 1) * extent m <= inject_Z d * extent m)%Q by (apply Qmult_le_compat_r; lra). lra. }
    destruct (Z.leb_spec d c); [|lia]. unfold cell_width_coarse. pose proof (within_tol_spec (pos - inject_Z d * extent m) pos ltac:(lra) Pp) as WT.
    destruct (within_tol (pos - inject_Z d * extent m) pos); [exfalso; apply N, WT; reflexivity|]. reflexivity.
  Qed.
End Err.

(** ** Stage 0: the particles without a rank, in any order *)
Definition no_rank (rid : nat) (s : store Q) (w : nat * nat) : bool :=
  match rd3 (ints s) (rid + 1) (fst w) (snd w) with Some v => v <? 0 | None => false end.
Lemma filter_len_le {A} (f : A -> bool) l : (length (filter f l) <= length l)%nat.
Proof. induction l; cbn; [lia|]. destruct (f a); cbn; lia. Qed.
Lemma lookup_fold rid (s : store Q) n : forall sched, (length sched <= n)%nat ->
  (forall w, In w sched -> exists v, rd3 (ints s) (rid + 1) (fst w) (snd w) = Some v) ->
  forall done cells layers, (length done + length sched <= n)%nat -> length cells = n -> length layers = n ->
    firstn (length done) cells = map fst done -> firstn (length done) layers = map snd done ->
  exists cells' layers', foldM (lookup_item n rid s) (length done, cells, layers, false) sched
      = Some (length (done ++ filter (no_rank rid s) sched), cells', layers', false) /\
    firstn (length (done ++ filter (no_rank rid s) sched)) cells' = map fst (done ++ filter (no_rank rid s) sched) /\
    firstn (length (done ++ filter (no_rank rid s) sched)) layers' = map snd (done ++ filter (no_rank rid s) sched).
Proof.
  induction sched as [|w sched IH]; intros Ls R done cells layers Ld Lc Ll Fc Fl; cbn [foldM filter length] in *.
  - exists cells, layers. rewrite app_nil_r. auto.
  - destruct (R w (or_introl eq_refl)) as (v & Ev). unfold lookup_item at 1. assert (Nw : no_rank rid s w = (v <? 0)) by (unfold no_rank; rewrite Ev; reflexivity). rewrite Nw, Ev. cbn [obind].
    destruct (Z.ltb_spec v 0) as [Q|Q].
    + destruct (Nat.ltb_spec (length done) n); [|lia]. cbn [negb orb].
      destruct (upd_some cells (length done) (fst w)) as (c1 & E1); [lia|]. destruct (upd_some layers (length done) (snd w)) as (l1 & E2); [lia|].
      rewrite E1. cbn [obind]. rewrite E2. cbn [obind].
      assert (FS : forall (A : Type) (xs ys : list A) x, firstn (length done) xs = ys -> forall xs', upd xs (length done) x = Some xs' -> firstn (length (done ++ [w])) xs' = ys ++ [x]).
      { intros A xs ys x F xs' U. rewrite app_length. cbn [length]. apply nth_error_ext'. intros i. pose proof (upd_lt _ _ _ _ U) as Lu. pose proof (upd_length _ _ _ _ U) as Lu'.
        rewrite nth_error_firstn. assert (Ly : length ys = length done) by (rewrite <- F, firstn_length; lia).
        destruct (Nat.ltb_spec i (length done + 1)) as [Qi|Qi].
        - rewrite (upd_nth _ _ _ _ i U). destruct (Nat.eqb_spec i (length done)) as [->|Ni].
          + rewrite nth_error_app2 by lia. rewrite Ly, Nat.sub_diag. reflexivity.
          + rewrite nth_error_app1 by lia. rewrite <- F, nth_error_firstn. destruct (Nat.ltb_spec i (length done)); [reflexivity|lia].
        - symmetry. apply nth_error_None. rewrite app_length. cbn [length]. lia. }
      destruct (IH ltac:(lia) (fun w' I => R w' (or_intror I)) (done ++ [w]) c1 l1) as (c2 & l2 & F & G1 & G2).
      * rewrite app_length. cbn [length]. lia.
      * rewrite (upd_length _ _ _ _ E1). exact Lc.
      * rewrite (upd_length _ _ _ _ E2). exact Ll.
      * rewrite map_app. exact (FS _ _ _ _ Fc _ E1).
      * rewrite map_app. exact (FS _ _ _ _ Fl _ E2).
      * rewrite <- app_assoc in F, G1, G2. cbn [app] in F, G1, G2. exists c2, l2.
        replace (S (length done)) with (length (done ++ [w])) by (rewrite app_length; cbn [length]; lia). auto.
    + apply (IH ltac:(lia) (fun w' I => R w' (or_intror I)) done cells layers); auto. lia.
Qed.
Lemma lookup_ok0 rid (s : store Q) n sched cells layers : length sched = n -> length cells = n -> length layers = n ->
  (forall w, In w sched -> exists v, rd3 (ints s) (rid + 1) (fst w) (snd w) = Some v) ->
  exists cells' layers', foldM (lookup_item n rid s) (0%nat, cells, layers, false) sched = Some (length (filter (no_rank rid s) sched), cells', layers', false) /\
    (forall i w, nth_error (filter (no_rank rid s) sched) i = Some w -> rd cells' i = Some (fst w) /\ rd layers' i = Some (snd w)).
Proof.
  intros Ls Lc Ll R. destruct (lookup_fold rid s n sched ltac:(lia) R [] cells layers) as (c & l & E & F1 & F2); try (cbn; lia); try assumption; try reflexivity.
  cbn [app length] in *. exists c, l. split; [exact E|]. intros i w Ei. pose proof (nth_error_some_lt _ _ _ Ei) as Li.
  pose proof (f_equal (fun x => nth_error x i) F1) as G1. pose proof (f_equal (fun x => nth_error x i) F2) as G2. cbn beta in G1, G2.
  rewrite nth_error_firstn, nth_error_map, Ei in G1, G2. destruct (Nat.ltb_spec i (length (filter (no_rank rid s) sched))); [|lia]. auto.
Qed.

(** A step that keeps the shape and changes single components. *)
Lemma cells_rel (g g' : group Q) (R : particle Q -> particle Q -> Prop) c : npart_cell g' = npart_cell g ->
  (forall l p, In (c, l) (all_particles (npart_cell g)) -> particle_at (Group_Model.st g) c l = Some p -> exists p', particle_at (Group_Model.st g') c l = Some p' /\ R p p') ->
  forall ps, cell_particles g c = Some ps -> exists ps', cell_particles g' c = Some ps' /\ Forall2 R ps ps'.
Proof.
  intros N P ps E. unfold cell_particles in *. rewrite N. destruct (nth_error (npart_cell g) c) as [n|] eqn:Q; [|discriminate]. cbn [obind] in *.
  assert (T : forall l, (l < n)%nat -> In (c, l) (all_particles (npart_cell g))).
  { intros l L. unfold all_particles. apply in_flat_map. exists c. split; [apply in_seq; pose proof (nth_error_some_lt _ _ _ Q); lia|].
    apply in_map. rewrite (nth_error_nth _ _ _ Q). apply in_seq. lia. }
  assert (G : forall l ps, (forall k, In k l -> (k < n)%nat) -> mapM (particle_at (Group_Model.st g) c) l = Some ps ->
    exists ps', mapM (particle_at (Group_Model.st g') c) l = Some ps' /\ Forall2 R ps ps').
  { induction l as [|a l IH]; intros qs B M; cbn [mapM] in *; [injection M as <-; exists []; split; [reflexivity|constructor]|].
    destruct (particle_at (Group_Model.st g) c a) as [p|] eqn:Ea; [|discriminate]. cbn [obind] in M.
    destruct (mapM (particle_at (Group_Model.st g) c) l) as [rs|] eqn:El; [|discriminate]. cbn [obind] in M. injection M as <-.
    destruct (P a p (T a (B a (or_introl eq_refl))) Ea) as (p' & E1 & R1). rewrite E1. cbn [obind].
    destruct (IH rs (fun k I => B k (or_intror I)) eq_refl) as (rs' & E2 & R2). rewrite E2. cbn [obind]. exists (p' :: rs'). split; [reflexivity|constructor; assumption]. }
  apply G; [|exact E]. intros k I. apply in_seq in I. lia.
Qed.

(** ** Stage 1 *)
Lemma tuple_fold m pid s cells layers (T : nat -> list Z) (e : nat -> bool) : forall sched ts b,
  (forall idx, In idx sched -> exists c l position es, rd cells idx = Some c /\ rd layers idx = Some l /\
     mapM (fun dimx => rd3 (reals s) (pid + dimx) c l) (seq 0 (ndim m)) = Some position /\ map_to_tuple m position = Some (T idx) /\
     mapM (fun dimx => p <- rd position dimx ;; o <- rd (origin m) dimx ;; dm <- rd (dims m) dimx ;; Some (map_dim_err m dm (p - o)%Q)) (seq 0 (ndim m)) = Some es /\ e idx = existsb (fun b => b) es) ->
  foldM (tuple_item m pid s cells layers) (ts, b) sched =
  (ts' <- foldM (fun ts idx => upd ts idx (T idx)) ts sched ;; Some (ts', b || existsb e sched)).
Proof.
  induction sched as [|idx sched IH]; intros ts b P; cbn [foldM existsb]; [cbn [obind]; rewrite orb_false_r; reflexivity|].
  destruct (P idx (or_introl eq_refl)) as (c & l & position & es & E1 & E2 & E3 & E4 & E5 & E6). unfold tuple_item at 1.
  rewrite E1. cbn [obind]. rewrite E2. cbn [obind]. rewrite E3. cbn [obind]. rewrite E4. cbn [obind]. rewrite E5. cbn [obind fst snd].
  destruct (upd ts idx (T idx)) as [ts1|]; cbn [obind]; [|reflexivity]. rewrite IH by (intros i I; apply P; right; exact I). rewrite <- E6, orb_assoc. reflexivity.
Qed.

Lemma err_list m position : mesh_ok m -> (ndim m <= length position)%nat ->
  mapM (fun dimx => p <- rd position dimx ;; o <- rd (origin m) dimx ;; dm <- rd (dims m) dimx ;; Some (map_dim_err m dm (p - o)%Q)) (seq 0 (ndim m))
  = Some (map (fun i => map_dim_err m (nth i (dims m) 0) (rel_pos m position i)) (seq 0 (ndim m))).
Proof.
  intros ((_ & Ld) & Lo & _) L. apply mapM_some. intros i I. apply in_seq in I. unfold rd.
  rewrite (nth_error_nth' position 0%Q) by lia. cbn [obind]. rewrite (nth_error_nth' (origin m) 0%Q) by lia. cbn [obind].
  rewrite (nth_error_nth' (dims m) 0) by lia. reflexivity.
Qed.

Section Global.
  Context (m : cmesh) (H : cmesh_ok m) (owners : list Z) (OM : owner_map m owners).
  Notation nd := (ndim (hier m)).
  Notation h := (hier m).

  Lemma dim_pos i : (i < nd)%nat -> 0 < nth i (dims h) 0.
  Proof.
    intros L. pose proof (grid_pos m H i) as G. unfold grid in G. destruct (Nat.ltb_spec i nd); [|lia]. unfold extent_cells in G.
    assert (0 < 2 ^ Z.of_nat (order h)) by (apply Z.pow_pos_nonneg; lia). nia.
  Qed.
  Lemma domain_len i : (i < nd)%nat -> (domain h i == length_of m i)%Q.
  Proof. intros L. rewrite (len_eq m i L). unfold domain. ring. Qed.
  Lemma pos_list pid s c l p : particle_at s c l = Some p -> (pid + nd <= length (fst p))%nat ->
    mapM (fun dimx => rd3 (reals s) (pid + dimx) c l) (seq 0 nd) = Some (map (position pid p) (seq 0 nd)).
  Proof.
    intros E L. apply particle_row in E. destruct E as (E & _). apply mapM_some. intros i I. apply in_seq in I.
    rewrite (row_rd3 _ _ _ _ E). unfold position. apply nth_error_nth'. lia.
  Qed.
  Lemma rel_list pid p i : (i < nd)%nat -> (rel_pos h (map (position pid p) (seq 0 nd)) i == position pid p i)%Q.
  Proof.
    intros L. unfold rel_pos. rewrite nth_map_seq' by exact L. destruct H as (_ & _ & O & _). rewrite (O i L). ring.
  Qed.
  Lemma err_inside_list pid p : inside m (position pid p) ->
    existsb (fun b => b) (map (fun i => map_dim_err h (nth i (dims h) 0) (rel_pos h (map (position pid p) (seq 0 nd)) i)) (seq 0 nd)) = false.
  Proof.
    intros I. destruct (existsb _ _) eqn:Q; [|reflexivity]. exfalso. apply existsb_exists in Q. destruct Q as (b & Ib & Eb). subst b. apply in_map_iff in Ib.
    destruct Ib as (i & Ei & Ii). apply in_seq in Ii. assert (L : (i < nd)%nat) by lia. destruct (I i L) as (A & B).
    rewrite (err_inside h (ext_pos m H)) in Ei; [discriminate|apply dim_pos, L| |].
    - rewrite rel_list by exact L. exact A.
    - rewrite rel_list by exact L. pose proof (domain_len i L) as DL. unfold domain in DL. lra.
  Qed.
  Lemma tuple_inside pid p c : contains m c (position pid p) ->
    map_to_tuple h (map (position pid p) (seq 0 nd)) = Some (tuple_of h (fun i => nth i c 0)).
  Proof.
    intros C. destruct (contains_cellof m H c _ C) as (I & _). pose proof (nd_le m H) as ND.
    destruct (map_to_tuple_inside h (map (position pid p) (seq 0 nd)) (h_ok m H)) as (t & E & T & P).
    - rewrite map_length, seq_length. lia.
    - intros i L. destruct (I i L) as (A & B). pose proof (domain_len i L). rewrite rel_list by exact L. split; lra.
    - rewrite E. f_equal. destruct (cell_tuple_coord h t (h_ok m H) T) as (_ & Et). rewrite Et. apply tuple_of_ext. intros i L.
      destruct (P i L) as (P1 & P2). destruct C as ((L3 & G) & C). destruct (I i L) as (A & B). pose proof (domain_len i L) as DL. pose proof (rel_list pid p i L) as RL.
      destruct (Qlt_le_dec (position pid p i) (length_of m i)) as [Q|Q].
      + destruct (C i L) as [K|(K & _)]; [|exfalso; lra]. eapply in_cell_unique; [apply (ext_pos m H)|apply P1; lra|].
        unfold in_cell in *. rewrite RL. exact K.
      + rewrite P2 by lra. destruct (C i L) as [(_ & K)|(_ & K)]; [|rewrite K, grid_lt by exact L; reflexivity].
        exfalso. specialize (G i ltac:(lia)). assert (K1 : nth i c 0 + 1 <= grid m i) by lia. rewrite Zle_Qle in K1. pose proof (wpos m H). unfold length_of in Q. nra.
  Qed.

  Context (d : device) (Hd : device_ok d) (k : nat) (uninit : list Z) (pid rid : nat) (g : group Q) (W : wf_group g).
  Hypothesis CP : forall c ps p, cell_particles g c = Some ps -> In p ps -> (pid + nd <= length (fst p))%nat /\ (rid + 1 < length (snd p))%nat.
  Notation s := (Group_Model.st g).
  Notation sched := (ord d k (all_particles (npart_cell g))).
  Notation qs := (filter (no_rank rid (Group_Model.st g)) (ord d k (all_particles (npart_cell g)))).

  Lemma at_all w : In w (all_particles (npart_cell g)) -> exists p, particle_at s (fst w) (snd w) = Some p /\ (pid + nd <= length (fst p))%nat /\ (rid + 1 < length (snd p))%nat /\
    exists ps, cell_particles g (fst w) = Some ps /\ In p ps.
  Proof.
    destruct w as [c l]. intros I. unfold all_particles in I. apply in_flat_map in I. destruct I as (c' & Ic & I). apply in_map_iff in I. destruct I as (l' & E & I).
    injection E as -> ->. apply in_seq in Ic, I. destruct (nth_error_lt_some (npart_cell g) c) as (n & En); [lia|]. rewrite (nth_error_nth _ _ _ En) in I.
    destruct (wf_particle_at g c l n W En) as (p & Ep); [lia|]. exists p. cbn [fst snd]. split; [exact Ep|].
    assert (M : exists ps, cell_particles g c = Some ps).
    { unfold cell_particles. rewrite En. cbn [obind]. apply mapM_total. intros a Ia. apply in_seq in Ia. apply (wf_particle_at g c a n W En). lia. }
    destruct M as (ps & M). assert (Ip : In p ps).
    { pose proof M as M'. unfold cell_particles in M'. rewrite En in M'. cbn [obind] in M'.
      assert (Sl : nth_error (seq 0 n) l = Some l) by (rewrite nth_error_seq; destruct (Nat.ltb_spec l n); [reflexivity|lia]).
      pose proof (mapM_nth _ _ _ l l M' Sl) as B1. rewrite Ep in B1. eapply nth_error_In; eauto. }
    destruct (CP c ps p M Ip). eauto 8.
  Qed.
  Lemma sched_in w : In w sched <-> In w (all_particles (npart_cell g)).
  Proof. destruct Hd as (HP & _). split; apply Permutation_in; [apply HP|symmetry; apply HP]. Qed.
  Lemma sched_nodup : NoDup sched.
  Proof. destruct Hd as (HP & _). eapply Permutation_NoDup; [symmetry; apply HP|apply all_particles_nodup]. Qed.
  Lemma rank1_rd w p : particle_at s (fst w) (snd w) = Some p -> (rid + 1 < length (snd p))%nat -> rd3 (ints s) (rid + 1) (fst w) (snd w) = Some (nth (rid + 1) (snd p) 0).
  Proof. intros E L. apply particle_row in E. destruct E as (_ & E). rewrite (row_rd3 _ _ _ _ E). apply nth_error_nth'. exact L. Qed.
  Lemma qs_in w p : particle_at s (fst w) (snd w) = Some p -> In w (all_particles (npart_cell g)) -> In w qs <-> nth (rid + 1) (snd p) 0 < 0.
  Proof.
    intros E I. destruct (at_all w I) as (p' & E' & _ & L & _). assert (p' = p) by congruence. subst p'. rewrite filter_In, sched_in. unfold no_rank. rewrite (rank1_rd w p E L).
    rewrite Z.ltb_lt. tauto.
  Qed.

  Lemma stage0 : exists cells layers,
    foldM (lookup_item (list_sum (npart_cell g)) rid s) (0%nat, fresh d k (list_sum (npart_cell g)), fresh d (S k) (list_sum (npart_cell g)), false) sched
      = Some (length qs, cells, layers, false) /\
    forall i w, nth_error qs i = Some w -> rd cells i = Some (fst w) /\ rd layers i = Some (snd w).
  Proof.
    apply lookup_ok0.
    - destruct Hd as (HP & _). rewrite (Permutation_length (HP _ _ _)). apply all_particles_length.
    - apply fresh_length.
    - apply fresh_length.
    - intros w I. apply sched_in in I. destruct (at_all w I) as (p & E & _ & L & _). rewrite (rank1_rd w p E L). eauto.
  Qed.

  Definition pat (w : nat * nat) : particle Q := match particle_at s (fst w) (snd w) with Some p => p | None => ([], []) end.
  Definition wq (idx : nat) : nat * nat := nth idx qs (0%nat, 0%nat).
  Lemma wq_ok idx : (idx < length qs)%nat -> nth_error qs idx = Some (wq idx) /\ particle_at s (fst (wq idx)) (snd (wq idx)) = Some (pat (wq idx)) /\
    In (wq idx) (all_particles (npart_cell g)) /\ (pid + nd <= length (fst (pat (wq idx))))%nat /\ (rid + 1 < length (snd (pat (wq idx))))%nat /\ nth (rid + 1) (snd (pat (wq idx))) 0 < 0.
  Proof.
    intros L. pose proof (nth_error_nth' qs (0%nat, 0%nat) L) as E. fold (wq idx) in E. split; [exact E|].
    assert (I : In (wq idx) qs) by (eapply nth_error_In; eauto). assert (I2 : In (wq idx) (all_particles (npart_cell g))) by (apply filter_In in I; apply sched_in, I).
    destruct (at_all _ I2) as (p & Ep & L1 & L2 & _). unfold pat. rewrite Ep. split; [reflexivity|]. split; [exact I2|]. split; [exact L1|]. split; [exact L2|].
    apply (qs_in _ p Ep I2), I.
  Qed.
  Definition plist (idx : nat) : list Q := map (position pid (pat (wq idx))) (seq 0 nd).
  Definition tq (idx : nat) : list Z := match map_to_tuple h (plist idx) with Some t => t | None => [] end.
  Definition eq_ (idx : nat) : bool := existsb (fun b => b) (map (fun i => map_dim_err h (nth i (dims h) 0) (rel_pos h (plist idx) i)) (seq 0 nd)).

  Lemma stage1 cells layers : (forall i w, nth_error qs i = Some w -> rd cells i = Some (fst w) /\ rd layers i = Some (snd w)) ->
    exists ts, foldM (tuple_item h pid s cells layers) (repeat uninit (length qs), false) (ord d (k + 2) (seq 0 (length qs)))
       = Some (ts, existsb eq_ (ord d (k + 2) (seq 0 (length qs)))) /\
      ts = map tq (seq 0 (length qs)).
  Proof.
    intros RD. pose proof (proj1 Hd nat (k + 2)%nat (seq 0 (length qs))) as HP.
    rewrite (tuple_fold _ _ _ _ _ tq eq_).
    - destruct (foldM_upd (fun ts idx => upd ts idx (tq idx)) (fun idx => idx) tq (ord d (k + 2) (seq 0 (length qs))) (repeat uninit (length qs))) as (ts & E & L & A & _).
      + reflexivity.
      + intros a I. apply (Permutation_in _ HP) in I. apply in_seq in I. rewrite repeat_length. lia.
      + congruence.
      + rewrite E. cbn [obind orb]. exists ts. split; [reflexivity|]. rewrite repeat_length in L. apply nth_error_ext'. intros i.
        rewrite nth_error_map, nth_error_seq. destruct (Nat.ltb_spec i (length qs)) as [Q|Q].
        * cbn [option_map Nat.add]. apply A. apply (Permutation_in _ (Permutation_sym HP)). apply in_seq. lia.
        * apply nth_error_None. lia.
    - intros idx I. apply (Permutation_in _ HP) in I. apply in_seq in I. destruct (wq_ok idx ltac:(lia)) as (E & Ep & _ & L1 & _).
      destruct (RD idx _ E) as (R1 & R2). exists (fst (wq idx)), (snd (wq idx)), (plist idx). eexists. split; [exact R1|]. split; [exact R2|].
      split; [apply pos_list; assumption|]. assert (Lp : (nd <= length (plist idx))%nat) by (unfold plist; rewrite map_length, seq_length; lia).
      split; [unfold tq; rewrite (map_to_tuple_eq h (plist idx) (h_ok m H) Lp); reflexivity|].
      split; [apply err_list; [apply (h_ok m H)|exact Lp]|]. reflexivity.
  Qed.

  (** ** Positions in the domain *)
  Lemma global_ok : (forall c ps p, cell_particles g c = Some ps -> In p ps -> nth (rid + 1) (snd p) 0 < 0 -> inside m (position pid p)) ->
    exists g', global_map d k uninit h owners pid rid g = Some g' /\ npart_cell g' = npart_cell g /\ wf_group g' /\ same_shape s (Group_Model.st g') /\
      forall c ps, cell_particles g c = Some ps -> exists ps', cell_particles g' c = Some ps' /\ Forall2 (mapped m pid rid) ps ps'.
  Proof.
    intros IN. unfold global_map. destruct stage0 as (cells & layers & E0 & RD). rewrite E0. cbn [obind negb assert].
    destruct (stage1 cells layers RD) as (ts & E1 & Ets). rewrite E1. cbn [obind fst snd].
    assert (PI : forall idx, (idx < length qs)%nat -> inside m (position pid (pat (wq idx)))).
    { intros idx L. destruct (wq_ok idx L) as (_ & Ep & I2 & _ & _ & N). destruct (at_all _ I2) as (p & Ep' & _ & _ & ps & Ec & Ip).
      assert (p = pat (wq idx)) by congruence. subst p. apply (IN (fst (wq idx)) ps); assumption. }
    assert (NE : existsb eq_ (ord d (k + 2) (seq 0 (length qs))) = false).
    { destruct (existsb eq_ _) eqn:Q; [|reflexivity]. exfalso. apply existsb_exists in Q. destruct Q as (idx & I & Q).
      apply (Permutation_in _ (proj1 Hd _ _ _)) in I. apply in_seq in I. unfold eq_, plist in Q. rewrite err_inside_list in Q by (apply PI; lia). discriminate. }
    rewrite NE. cbn [negb assert obind].
    set (cq := fun idx => cellof m (position pid (pat (wq idx)))).
    assert (OWN : forall idx, (idx < length qs)%nat -> exists i r, tuple_to_linear_global h (tq idx) = Some i /\ get_owner owners i = Some (Z.of_nat r) /\ owns m r (cq idx)).
    { intros idx L. pose proof (cellof_contains m H _ (PI idx L)) as C. fold (cq idx) in C. unfold tq, plist. rewrite (tuple_inside pid _ _ C).
      destruct C as (G & _). destruct (OM _ G) as (i & r & A1 & A2 & A3). exists i, r. split; [|auto]. destruct (mesh_index_ok m H _ G) as (M1 & _).
      assert (i = midx m (cq idx)) by congruence. subst i. destruct (tuple_of_cell h (fun i => nth i (cq idx) 0) (h_ok m H)) as (T & _); [intros i Li; apply (grid_coord m H); assumption|].
      destruct (to_linear_correct h _ (h_ok m H) T) as (E & _). exact E. }
    assert (RK : exists ranks, mapM (fun t => i <- tuple_to_linear_global h t ;; get_owner owners i) ts = Some ranks /\
      forall idx, (idx < length qs)%nat -> exists r, rd ranks idx = Some (Z.of_nat r) /\ owns m r (cq idx)).
    { destruct (mapM_total (fun t => i <- tuple_to_linear_global h t ;; get_owner owners i) ts) as (ranks & E).
      - intros t I. rewrite Ets in I. apply in_map_iff in I. destruct I as (idx & <- & I). apply in_seq in I. destruct (OWN idx ltac:(lia)) as (i & r & A1 & A2 & _). rewrite A1. cbn [obind]. eauto.
      - exists ranks. split; [exact E|]. intros idx L. destruct (OWN idx L) as (i & r & A1 & A2 & A3). exists r. split; [|exact A3].
        assert (Et : nth_error ts idx = Some (tq idx)) by (rewrite Ets, nth_error_map, nth_error_seq; destruct (Nat.ltb_spec idx (length qs)); [reflexivity|lia]).
        pose proof (mapM_nth _ _ _ idx _ E Et) as K. cbn beta in K. rewrite A1 in K. cbn [obind] in K. unfold rd. congruence. }
    destruct RK as (ranks & E2 & RK). rewrite E2. cbn [obind].
    set (vr := fun idx => nth idx ranks 0).
    assert (QN : NoDup qs) by (apply NoDup_filter, sched_nodup).
    destruct (@foldM_kernel nat (list (list (list Z))) (nat * nat * nat) Z
      (fun z idx => c <- rd cells idx ;; l <- rd layers idx ;; v <- rd ranks idx ;; upd3 z rid c l v)
      (fun z j => rd3 z (fst (fst j)) (snd (fst j)) (snd j)) (fun z => shape3 z = shape3 (ints s))
      (fun idx j => if ((fst (fst j) =? rid) && (snd (fst j) =? fst (wq idx)) && (snd j =? snd (wq idx)))%nat then Some (vr idx) else None)
      (ord d (k + 3) (seq 0 (length qs))) (ints s) eq_refl) as (z & E3 & SH & WR & KP).
    - intros z idx SZ I. apply (Permutation_in _ (proj1 Hd _ _ _)) in I. apply in_seq in I. destruct (wq_ok idx ltac:(lia)) as (E & Ep & I2 & L1 & L2 & _).
      destruct (RD idx _ E) as (R1 & R2). destruct (RK idx ltac:(lia)) as (r & R3 & _). rewrite R1. cbn [obind]. rewrite R2. cbn [obind]. rewrite R3. cbn [obind].
      assert (X : exists x, rd3 z rid (fst (wq idx)) (snd (wq idx)) = Some x).
      { apply particle_row in Ep. destruct Ep as (_ & Ep). assert (Rx : exists y, rd3 (ints s) rid (fst (wq idx)) (snd (wq idx)) = Some y).
        { rewrite (row_rd3 _ _ _ _ Ep). apply nth_error_lt_some. lia. }
        destruct Rx as (y & Ry). eapply shape3_rd3; eauto. }
      destruct X as (x & X). destruct (upd3_some _ _ _ _ (Z.of_nat r) x X) as (z' & Ez). exists z'. split; [exact Ez|].
      split; [rewrite (upd3_shape _ _ _ _ _ _ Ez); exact SZ|]. intros j. rewrite (upd3_rd3 _ _ _ _ _ _ Ez).
      assert (V : vr idx = Z.of_nat r) by (unfold vr; apply nth_error_nth; exact R3). rewrite V.
      destruct ((fst (fst j) =? rid) && (snd (fst j) =? fst (wq idx)) && (snd j =? snd (wq idx)))%nat; reflexivity.
    - intros a b j v v' Ia Ib Ea Eb. apply (Permutation_in _ (proj1 Hd _ _ _)) in Ia, Ib. apply in_seq in Ia, Ib.
      destruct ((fst (fst j) =? rid) && (snd (fst j) =? fst (wq a)) && (snd j =? snd (wq a)))%nat eqn:Qa; [|discriminate].
      destruct ((fst (fst j) =? rid) && (snd (fst j) =? fst (wq b)) && (snd j =? snd (wq b)))%nat eqn:Qb; [|discriminate].
      rewrite !andb_true_iff, !Nat.eqb_eq in Qa, Qb. assert (Q : wq a = wq b) by (destruct (wq a), (wq b); cbn [fst snd] in *; f_equal; lia).
      assert (a = b); [|congruence]. apply (proj1 (NoDup_nth_error qs) QN a b); [lia|].
      rewrite (proj1 (wq_ok a ltac:(lia))), (proj1 (wq_ok b ltac:(lia))), Q. reflexivity.
    - rewrite E3. cbn [obind]. set (g' := mk_group (mk_store (reals s) z) (npart_cell g)). exists g'. split; [reflexivity|]. split; [reflexivity|].
      assert (SS : same_shape s (Group_Model.st g')) by (split; [reflexivity|exact SH]).
      split; [apply (same_shape_wf s); [exact SS|destruct g; exact W]|]. split; [exact SS|].
      intros c ps Ec. apply (cells_rel g g' (mapped m pid rid) c); [reflexivity| |exact Ec]. intros l p I Ep.
      destruct (at_all (c, l) I) as (p0 & Ep0 & L1 & L2 & _). cbn [fst snd] in Ep0. assert (p0 = p) by congruence. subst p0.
      pose proof Ep as Epr. apply particle_row in Epr. destruct Epr as (Er & Ez). pose proof (mapM_length _ _ _ Ez) as Lz. pose proof (shape3_length _ _ SH) as LZ.
      destruct (Z.ltb_spec (nth (rid + 1) (snd p) 0) 0) as [Q|Q].
      + assert (Iq : In (c, l) qs) by (apply (qs_in (c, l) p Ep I), Q). apply In_nth_error in Iq. destruct Iq as (idx & Eidx). pose proof (nth_error_some_lt _ _ _ Eidx) as Lidx.
        assert (Wi : wq idx = (c, l)) by (unfold wq; apply nth_error_nth; exact Eidx). destruct (RK idx Lidx) as (r & R3 & OW).
        assert (V : vr idx = Z.of_nat r) by (unfold vr; apply nth_error_nth; exact R3).
        destruct (upd_some (snd p) rid (Z.of_nat r)) as (zs & Eu); [lia|]. exists (fst p, zs). split.
        * apply particle_row. cbn [g' Group_Model.st reals ints fst snd]. split; [exact Er|]. apply row_of; [rewrite (upd_length _ _ _ _ Eu); lia|].
          intros f Lf. rewrite (upd_nth _ _ _ _ f Eu). destruct (Nat.eqb_spec f rid) as [->|Nf].
          -- rewrite <- V. apply (WR idx (rid, c, l)); [apply (Permutation_in _ (Permutation_sym (proj1 Hd _ _ _))); apply in_seq; lia|].
             rewrite Wi. cbn [fst snd]. rewrite !Nat.eqb_refl. reflexivity.
          -- rewrite <- (row_rd3 _ _ _ _ Ez). apply (KP (f, c, l)). intros a _. cbn [fst snd]. destruct (Nat.eqb_spec f rid); [contradiction|]. reflexivity.
        * split; [lia|]. intros _ c' Cc'. destruct (contains_cellof m H c' _ Cc') as (_ & Ec'). exists r. split.
          -- unfold cq, pat in OW. rewrite Wi in OW. cbn [fst snd] in OW. rewrite Ep in OW. rewrite Ec'. exact OW.
          -- split; [reflexivity|]. split; [eapply upd_length; eauto|]. intros i _. cbn [snd]. apply upd_nth, Eu.
      + exists p. split; [|split; [reflexivity|lia]]. apply particle_row. cbn [g' Group_Model.st reals ints]. split; [exact Er|]. apply row_of; [lia|].
        intros f Lf. rewrite <- (row_rd3 _ _ _ _ Ez). apply (KP (f, c, l)). intros a Ia. cbn [fst snd].
        apply (Permutation_in _ (proj1 Hd _ _ _)) in Ia. apply in_seq in Ia. destruct (wq_ok a ltac:(lia)) as (_ & Epa & _ & _ & _ & Na).
        destruct (Nat.eqb_spec f rid), (Nat.eqb_spec c (fst (wq a))), (Nat.eqb_spec l (snd (wq a))); cbn [andb]; try reflexivity. subst c l.
        exfalso. assert (Epp : pat (wq a) = p) by congruence. rewrite Epp in Na. lia.
  Qed.

  (** ** Positions above the domain *)
  Lemma global_above c ps p i : cell_particles g c = Some ps -> In p ps -> nth (rid + 1) (snd p) 0 < 0 -> (i < nd)%nat ->
    (length_of m i < position pid p i)%Q -> ~ (position pid p i - length_of m i <= (1 # 10000000000) * position pid p i)%Q ->
    global_map d k uninit h owners pid rid g = None.
  Proof.
    intros Ec Ip N L A B. unfold global_map. destruct stage0 as (cells & layers & E0 & RD). rewrite E0. cbn [obind negb assert].
    destruct (stage1 cells layers RD) as (ts & E1 & Ets). rewrite E1. cbn [obind fst snd].
    assert (ER : existsb eq_ (ord d (k + 2) (seq 0 (length qs))) = true).
    { unfold cell_particles in Ec. destruct (nth_error (npart_cell g) c) as [n|] eqn:En; [|discriminate]. cbn [obind] in Ec.
      apply In_nth_error in Ip. destruct Ip as (l & El). pose proof (nth_error_some_lt _ _ _ El) as Ll. rewrite (mapM_length _ _ _ Ec), seq_length in Ll.
      assert (Sl : nth_error (seq 0 n) l = Some l) by (rewrite nth_error_seq; destruct (Nat.ltb_spec l n); [reflexivity|lia]).
      pose proof (mapM_nth _ _ _ l l Ec Sl) as Ep. rewrite El in Ep.
      assert (Ia : In (c, l) (all_particles (npart_cell g))).
      { unfold all_particles. apply in_flat_map. exists c. split; [apply in_seq; pose proof (nth_error_some_lt _ _ _ En); lia|]. apply in_map. rewrite (nth_error_nth _ _ _ En). apply in_seq. lia. }
      assert (Iq : In (c, l) qs) by (apply (qs_in (c, l) p Ep Ia), N). apply In_nth_error in Iq. destruct Iq as (idx & Eidx). pose proof (nth_error_some_lt _ _ _ Eidx) as Lidx.
      assert (Wi : wq idx = (c, l)) by (unfold wq; apply nth_error_nth; exact Eidx).
      apply existsb_exists. exists idx. split; [apply (Permutation_in _ (Permutation_sym (proj1 Hd _ _ _))); apply in_seq; lia|].
      unfold eq_, plist, pat. rewrite Wi. cbn [fst snd]. rewrite Ep. apply existsb_exists. exists true. split; [|reflexivity]. apply in_map_iff. exists i. split; [|apply in_seq; lia].
      pose proof (rel_list pid p i L) as RL. pose proof (domain_len i L) as DL. unfold domain in DL. apply err_above; [apply (ext_pos m H)|apply dim_pos, L| |].
      - rewrite RL, DL. exact A.
      - intros K. apply B. rewrite RL, DL in K. exact K. }
    rewrite ER. reflexivity.
  Qed.
End Global.
