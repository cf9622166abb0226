(** Particle loops whose kernel touches only its own particle. *)
From Coq Require Import List Arith ZArith QArith Bool Lia Permutation.
Import ListNotations.
From Verif Require Import Base Kernel Group_Model Group_Spec Group_Proofs CartMap_Model.
Local Open Scope nat_scope.

Definition row {V} (D : list (list (list V))) (c l : nat) : option (list V) := mapM (fun col => rd2 col c l) D.
Definition apply_writes {V} (xs : list V) (ws : list (nat * V)) : option (list V) :=
  foldM (fun xs w => upd xs (fst w) (snd w)) xs ws.

Lemma row_rd3 {V} (D : list (list (list V))) c l xs : row D c l = Some xs -> forall f, rd3 D f c l = nth_error xs f.
Proof.
  unfold row. intros E f. pose proof (mapM_length _ _ _ E) as L. unfold rd3. unfold rd at 1. destruct (nth_error D f) as [col|] eqn:Q.
  - cbn [obind]. exact (mapM_nth _ _ _ f col E Q).
  - cbn [obind]. symmetry. apply nth_error_None. apply nth_error_None in Q. lia.
Qed.
Lemma nth_error_ext' {V} : forall (a b : list V), (forall i, nth_error a i = nth_error b i) -> a = b.
Proof.
  induction a as [|x a IH]; intros [|y b] E; [reflexivity|specialize (E 0); discriminate E|specialize (E 0); discriminate E|].
  f_equal; [pose proof (E 0) as E0; cbn in E0; congruence|]. apply IH. intros i. apply (E (Datatypes.S i)).
Qed.
Lemma row_of {V} (D : list (list (list V))) c l xs : length xs = length D -> (forall f, f < length D -> rd3 D f c l = nth_error xs f) -> row D c l = Some xs.
Proof.
  intros L F. unfold row. rewrite mapM_cols.
  assert (T : exists r, mapM (fun f => rd3 D f c l) (seq 0 (length D)) = Some r).
  { apply mapM_total. intros f I. apply in_seq in I. rewrite F by lia. destruct (nth_error_lt_some xs f) as (x & Ex); [lia|]. eauto. }
  destruct T as (r & T). rewrite T. f_equal. apply nth_error_ext'. intros f. pose proof (mapM_length _ _ _ T) as L'. rewrite seq_length in L'.
  destruct (Nat.lt_ge_cases f (length D)) as [Q|Q].
  - assert (Sf : nth_error (seq 0 (length D)) f = Some f) by (rewrite nth_error_seq; destruct (Nat.ltb_spec f (length D)); [reflexivity|lia]).
    pose proof (mapM_nth _ _ _ f f T Sf) as B1. cbn beta in B1. rewrite F in B1 by exact Q. congruence.
  - rewrite !(proj2 (nth_error_None _ _)) by lia. reflexivity.
Qed.

Lemma write_ok {V} (D : list (list (list V))) c l ws : forall xs xs', row D c l = Some xs -> apply_writes xs ws = Some xs' ->
  exists D', write_all D c l ws = Some D' /\ shape3 D' = shape3 D /\ row D' c l = Some xs' /\
    forall f c' l', (c', l') <> (c, l) -> rd3 D' f c' l' = rd3 D f c' l'.
Proof.
  unfold write_all, apply_writes. revert D. induction ws as [|[f v] ws IH]; intros D xs xs' R A; cbn [foldM] in *.
  - injection A as <-. exists D. auto.
  - cbn [fst snd] in *. destruct (upd xs f v) as [ys|] eqn:U; [|discriminate]. cbn [obind] in A.
    pose proof (upd_lt _ _ _ _ U) as Lf. destruct (nth_error_lt_some xs f Lf) as (x & Ex).
    assert (Rx : rd3 D f c l = Some x) by (rewrite (row_rd3 _ _ _ _ R); exact Ex).
    destruct (upd3_some D f c l v x Rx) as (D1 & E1). rewrite E1. cbn [obind].
    pose proof (upd3_shape _ _ _ _ _ _ E1) as S1. pose proof (upd3_rd3 _ _ _ _ _ _ E1) as G1.
    assert (LD : length D1 = length D) by (apply (f_equal (@length _)) in S1; unfold shape3 in S1; rewrite !map_length in S1; exact S1).
    pose proof (mapM_length _ _ _ R) as LR.
    assert (R1 : row D1 c l = Some ys).
    { apply row_of; [rewrite (upd_length _ _ _ _ U); lia|]. intros g Hg. rewrite G1, !Nat.eqb_refl, !andb_true_r.
      rewrite (upd_nth _ _ _ _ g U). destruct (g =? f); [reflexivity|]. apply row_rd3. exact R. }
    destruct (IH D1 ys xs' R1 A) as (D' & E' & S' & R' & O'). exists D'. split; [exact E'|]. split; [congruence|]. split; [exact R'|].
    intros g c' l' N. rewrite (O' g c' l' N), G1. destruct (Nat.eqb_spec c' c), (Nat.eqb_spec l' l); rewrite ?andb_false_r; try reflexivity. congruence.
Qed.

Definition effect (K : kernel) (p : particle Q) : option (particle Q) :=
  ws <- K p ;; r <- apply_writes (fst p) (fst ws) ;; z <- apply_writes (snd p) (snd ws) ;; Some (r, z).

Lemma particle_row (s : store Q) c l p : particle_at s c l = Some p <-> row (reals s) c l = Some (fst p) /\ row (ints s) c l = Some (snd p).
Proof.
  unfold particle_at, row. destruct (mapM (fun col => rd2 col c l) (reals s)) as [x|], (mapM (fun col => rd2 col c l) (ints s)) as [y|], p as [a b]; cbn [fst snd]; split;
    try (intros E; discriminate E); try (intros (E1 & E2); discriminate).
  - intros E. inversion E; subst. auto.
  - intros (E1 & E2). inversion E1; inversion E2; subst. reflexivity.
Qed.
Lemma row_ext {V} (D D' : list (list (list V))) c l : length D' = length D -> (forall f, rd3 D' f c l = rd3 D f c l) -> row D' c l = row D c l.
Proof. intros L F. unfold row. rewrite !mapM_cols, L. apply mapM_ext_in. intros f _. apply F. Qed.
Lemma shape3_length {V} (D D' : list (list (list V))) : shape3 D' = shape3 D -> length D' = length D.
Proof. intros S. apply (f_equal (@length _)) in S. unfold shape3 in S. rewrite !map_length in S. exact S. Qed.

Definition same_shape (s s' : store Q) : Prop := shape3 (reals s') = shape3 (reals s) /\ shape3 (ints s') = shape3 (ints s).

Lemma loop_fold K : forall sched s, NoDup sched ->
  (forall w, In w sched -> exists p p', particle_at s (fst w) (snd w) = Some p /\ effect K p = Some p') ->
  exists s', foldM (loop_item K) s sched = Some s' /\ same_shape s s' /\
    (forall w p, In w sched -> particle_at s (fst w) (snd w) = Some p -> particle_at s' (fst w) (snd w) = effect K p) /\
    (forall w, ~ In w sched -> particle_at s' (fst w) (snd w) = particle_at s (fst w) (snd w)).
Proof.
  induction sched as [|w sched IH]; intros s ND P; cbn [foldM].
  - exists s. split; [reflexivity|]. split; [split; reflexivity|]. split; [intros w p []|auto].
  - inversion ND as [|? ? Nw ND']; subst. destruct (P w (or_introl eq_refl)) as (p & p' & Ep & Ef).
    unfold loop_item at 1. rewrite Ep. cbn [obind]. pose proof Ef as Ef'. unfold effect in Ef'.
    destruct (K p) as [ws|]; [|discriminate]. cbn [obind] in Ef' |- *.
    destruct (apply_writes (fst p) (fst ws)) as [r|] eqn:Ar; [|discriminate]. cbn [obind] in Ef'.
    destruct (apply_writes (snd p) (snd ws)) as [z|] eqn:Az; [|discriminate]. cbn [obind] in Ef'. injection Ef' as <-.
    apply particle_row in Ep. destruct Ep as (Er & Ez).
    destruct (write_ok _ _ _ _ _ _ Er Ar) as (Dr & E1 & S1 & R1 & O1). destruct (write_ok _ _ _ _ _ _ Ez Az) as (Dz & E2 & S2 & R2 & O2).
    rewrite E1. cbn [obind]. rewrite E2. cbn [obind]. set (s1 := mk_store Dr Dz).
    assert (Keep : forall w', w' <> w -> particle_at s1 (fst w') (snd w') = particle_at s (fst w') (snd w')).
    { intros w' N. unfold particle_at. change (mapM (fun col => rd2 col (fst w') (snd w')) (reals s1)) with (row (reals s1) (fst w') (snd w')).
      change (mapM (fun col => rd2 col (fst w') (snd w')) (ints s1)) with (row (ints s1) (fst w') (snd w')). cbn [s1 reals ints].
      rewrite (row_ext (reals s) Dr), (row_ext (ints s) Dz); [reflexivity|..]; try (apply shape3_length; assumption);
        intros f; [apply O2|apply O1]; destruct w, w'; cbn [fst snd]; congruence. }
    destruct (IH s1 ND') as (s' & E & SS & A & B).
    { intros w' I. assert (w' <> w) by (intros ->; contradiction). rewrite Keep by assumption. apply P. right; exact I. }
    exists s'. split; [exact E|]. split; [destruct SS; split; cbn [s1 reals ints] in *; congruence|]. split.
    + intros w' q [<-|I] Eq.
      * rewrite B by exact Nw. assert (Q : particle_at s (fst w) (snd w) = Some p) by (apply particle_row; auto).
        rewrite Q in Eq. injection Eq as <-. rewrite Ef. apply particle_row. cbn [s1 reals ints fst snd]. auto.
      * apply A; [exact I|]. rewrite Keep; [exact Eq|]. intros ->. contradiction.
    + intros w' N. rewrite B by (intros I; apply N; right; exact I). apply Keep. intros ->. apply N. left; reflexivity.
Qed.

Lemma same_shape_wf (s s' : store Q) np : same_shape s s' -> wf_group (mk_group s np) -> wf_group (mk_group s' np).
Proof.
  assert (G : forall V (D D' : list (list (list V))), shape3 D' = shape3 D -> (forall col, In col D -> wf_comp np col) -> forall col, In col D' -> wf_comp np col).
  { intros V D D' S W col I. apply In_nth_error in I. destruct I as (f & I).
    pose proof (f_equal (fun x => nth_error x f) S) as Q. unfold shape3 in Q. rewrite !nth_error_map, I in Q. cbn [option_map] in Q.
    destruct (nth_error D f) as [col0|] eqn:Q0; [|discriminate]. cbn [option_map] in Q. injection Q as Q. destruct (W col0 (nth_error_In _ _ Q0)) as (L & B).
    split; [apply (f_equal (@length _)) in Q; unfold shape2 in Q; rewrite !map_length in Q; lia|].
    intros c n r N R. pose proof (f_equal (fun x => nth_error x c) Q) as Q1. unfold shape2 in Q1. rewrite !nth_error_map, R in Q1. cbn [option_map] in Q1.
    destruct (nth_error col0 c) as [r0|] eqn:Q2; [|discriminate]. cbn [option_map] in Q1. injection Q1 as Q1. rewrite Q1. eapply B; eauto. }
  intros (S1 & S2) (W1 & W2). split; cbn [st npart_cell] in *; [apply (G _ _ _ S1 W1)|apply (G _ _ _ S2 W2)].
Qed.

(** ** The loop over a group *)
Lemma cell_particles_map (g g' : group Q) (F : particle Q -> particle Q) c : npart_cell g' = npart_cell g ->
  (forall l p, In (c, l) (all_particles (npart_cell g)) -> particle_at (st g) c l = Some p -> particle_at (st g') c l = Some (F p)) ->
  forall ps, cell_particles g c = Some ps -> cell_particles g' c = Some (map F ps).
Proof.
  intros N P ps E. unfold cell_particles in *. rewrite N. destruct (nth_error (npart_cell g) c) as [n|] eqn:Q; [|discriminate]. cbn [obind] in *.
  assert (T : forall l, l < n -> In (c, l) (all_particles (npart_cell g))).
  { intros l L. unfold all_particles. apply in_flat_map. exists c. split; [apply in_seq; pose proof (nth_error_some_lt _ _ _ Q); lia|].
    apply in_map. rewrite (nth_error_nth _ _ _ Q). apply in_seq. lia. }
  assert (G : forall l ps, (forall k, In k l -> k < n) -> mapM (particle_at (st g) c) l = Some ps -> mapM (particle_at (st g') c) l = Some (map F ps)).
  { induction l as [|a l IH]; intros qs B M; cbn [mapM] in *; [injection M as <-; reflexivity|].
    destruct (particle_at (st g) c a) as [p|] eqn:Ea; [|discriminate]. cbn [obind] in M.
    destruct (mapM (particle_at (st g) c) l) as [rs|] eqn:El; [|discriminate]. cbn [obind] in M. injection M as <-.
    rewrite (P a p (T a (B a (or_introl eq_refl))) Ea). cbn [obind]. rewrite (IH rs (fun k I => B k (or_intror I)) eq_refl). reflexivity. }
  apply G; [|exact E]. intros k I. apply in_seq in I. lia.
Qed.

Section Group.
  Context (d : device) (Hd : device_ok d) (k : nat) (K : kernel) (F : particle Q -> particle Q).

  Lemma loop_all_ok (g : group Q) : wf_group g ->
    (forall c ps p, cell_particles g c = Some ps -> In p ps -> effect K p = Some (F p)) ->
    exists g', loop_all d k K g = Some g' /\ npart_cell g' = npart_cell g /\ wf_group g' /\ same_shape (st g) (st g') /\
      forall c ps, cell_particles g c = Some ps -> cell_particles g' c = Some (map F ps).
  Proof.
    intros W P. unfold loop_all.
    assert (Q : forall w, In w (all_particles (npart_cell g)) -> exists p, particle_at (st g) (fst w) (snd w) = Some p /\ effect K p = Some (F p)).
    { intros [c l] I. unfold all_particles in I. apply in_flat_map in I. destruct I as (c' & Ic & I). apply in_map_iff in I. destruct I as (l' & E & I).
      injection E as -> ->. apply in_seq in Ic, I. destruct (nth_error_lt_some (npart_cell g) c) as (n & En); [lia|]. rewrite (nth_error_nth _ _ _ En) in I.
      destruct (wf_particle_at g c l n W En) as (p & Ep); [lia|]. exists p. split; [exact Ep|].
      assert (M : exists ps, cell_particles g c = Some ps).
      { unfold cell_particles. rewrite En. cbn [obind]. apply mapM_total. intros a Ia. apply in_seq in Ia. apply (wf_particle_at g c a n W En). lia. }
      destruct M as (ps & M). apply (P c ps p M). unfold cell_particles in M. rewrite En in M. cbn [obind] in M.
      assert (Sl : nth_error (seq 0 n) l = Some l) by (rewrite nth_error_seq; destruct (Nat.ltb_spec l n); [reflexivity|lia]).
      pose proof (mapM_nth _ _ _ l l M Sl) as B1. cbn [fst snd] in *. rewrite Ep in B1. eapply nth_error_In; eauto. }
    destruct Hd as (HP & _).
    destruct (loop_fold K (ord d k (all_particles (npart_cell g))) (st g)) as (s' & E & SS & A & B).
    - eapply Permutation_NoDup; [symmetry; apply HP|apply all_particles_nodup].
    - intros w I. apply (Permutation_in _ (HP _ _ _)) in I. destruct (Q w I) as (p & A1 & A2). eauto.
    - rewrite E. cbn [obind]. exists (mk_group s' (npart_cell g)). split; [reflexivity|]. split; [reflexivity|]. split.
      + apply (same_shape_wf (st g)); [exact SS|]. destruct g; exact W.
      + split; [exact SS|]. intros c ps Ec. apply (cell_particles_map g _ F c); [reflexivity| |exact Ec].
        intros l p I Ep. cbn [st]. pose proof (Q (c, l) I) as (q & Q1 & Q2). cbn [fst snd] in Q1. assert (q = p) by congruence. subst q.
        rewrite <- Q2. apply (A (c, l) p); [|exact Ep]. apply (Permutation_in _ (Permutation_sym (HP _ _ _))). exact I.
  Qed.

  Lemma loop_cell_ok (g : group Q) cell : wf_group g -> cell < length (npart_cell g) ->
    (forall ps p, cell_particles g cell = Some ps -> In p ps -> effect K p = Some (F p)) ->
    exists g', loop_cell d k K cell g = Some g' /\ npart_cell g' = npart_cell g /\ wf_group g' /\ same_shape (st g) (st g') /\
      forall c ps, cell_particles g c = Some ps -> cell_particles g' c = Some (if c =? cell then map F ps else ps).
  Proof.
    intros W L P. unfold loop_cell. unfold rd. destruct (nth_error_lt_some (npart_cell g) cell L) as (n & En). rewrite En. cbn [obind].
    assert (M : exists ps, cell_particles g cell = Some ps).
    { unfold cell_particles. rewrite En. cbn [obind]. apply mapM_total. intros a Ia. apply in_seq in Ia. apply (wf_particle_at g cell a n W En). lia. }
    destruct M as (ps0 & M).
    assert (Q : forall l, l < n -> exists p, particle_at (st g) cell l = Some p /\ effect K p = Some (F p)).
    { intros l Ll. destruct (wf_particle_at g cell l n W En) as (p & Ep); [lia|]. exists p. split; [exact Ep|].
      apply (P ps0 p M). unfold cell_particles in M. rewrite En in M. cbn [obind] in M.
      assert (Sl : nth_error (seq 0 n) l = Some l) by (rewrite nth_error_seq; destruct (Nat.ltb_spec l n); [reflexivity|lia]).
      pose proof (mapM_nth _ _ _ l l M Sl) as B1. rewrite Ep in B1. eapply nth_error_In; eauto. }
    destruct Hd as (HP & _).
    destruct (loop_fold K (ord d k (map (pair cell) (seq 0 n))) (st g)) as (s' & E & SS & A & B).
    - eapply Permutation_NoDup; [symmetry; apply HP|]. apply NoDup_map_inj; [|apply seq_NoDup]. intros a b _ _ X. congruence.
    - intros w I. apply (Permutation_in _ (HP _ _ _)) in I. apply in_map_iff in I. destruct I as (l & <- & I). apply in_seq in I.
      destruct (Q l ltac:(lia)) as (p & A1 & A2). exists p, (F p). auto.
    - rewrite E. cbn [obind]. exists (mk_group s' (npart_cell g)). split; [reflexivity|]. split; [reflexivity|]. split.
      + apply (same_shape_wf (st g)); [exact SS|]. destruct g; exact W.
      + split; [exact SS|]. intros c ps Ec. destruct (Nat.eqb_spec c cell) as [->|N].
        * apply (cell_particles_map g _ F cell); [reflexivity| |exact Ec]. intros l p I Ep. cbn [st].
          assert (Ll : l < n).
          { unfold all_particles in I. apply in_flat_map in I. destruct I as (c' & Ic & I). apply in_map_iff in I. destruct I as (l' & X & I).
            injection X as -> ->. apply in_seq in I. rewrite (nth_error_nth _ _ _ En) in I. lia. }
          destruct (Q l Ll) as (q & Q1 & Q2). assert (q = p) by congruence. subst q. rewrite <- Q2. apply (A (cell, l) p); [|exact Ep].
          apply (Permutation_in _ (Permutation_sym (HP _ _ _))). apply in_map. apply in_seq. lia.
        * rewrite <- (map_id ps). apply (cell_particles_map g _ (fun p => p) c); [reflexivity| |exact Ec]. intros l p I Ep. cbn [st].
          rewrite <- Ep. apply (B (c, l)). intros I2. apply (Permutation_in _ (HP _ _ _)) in I2. apply in_map_iff in I2. destruct I2 as (x & X & _). congruence.
  Qed.
End Group.
