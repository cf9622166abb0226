(** Facts about the storage of a group. *)
From Coq Require Import List Arith Lia ZArith Permutation Bool.
Import ListNotations.
From Verif Require Import Base Kernel Scan_Spec Group_Model Group_Spec Compress_Proofs.

Lemma mapi_length {A B} (f : nat -> A -> B) l : length (mapi f l) = length l.
Proof. unfold mapi. rewrite map_length, combine_length, seq_length. lia. Qed.

Lemma nth_error_combine {A B} (l1 : list A) (l2 : list B) i a b :
  nth_error l1 i = Some a -> nth_error l2 i = Some b -> nth_error (combine l1 l2) i = Some (a, b).
Proof.
  revert l2 i; induction l1 as [|x l1 IH]; intros [|y l2] [|i]; cbn; try discriminate; auto. congruence.
Qed.

Lemma nth_error_mapi {A B} (f : nat -> A -> B) l i :
  nth_error (mapi f l) i = option_map (f i) (nth_error l i).
Proof.
  unfold mapi. rewrite nth_error_map. destruct (nth_error l i) as [a|] eqn:E; cbn.
  - rewrite (nth_error_combine _ _ i i a); auto.
    rewrite nth_error_seq. pose proof (nth_error_some_lt _ _ _ E).
    destruct (Nat.ltb_spec i (length l)); [auto|lia].
  - destruct (nth_error (combine (seq 0 (length l)) l) i) eqn:E2; auto.
    apply nth_error_some_lt in E2. rewrite combine_length in E2. apply nth_error_None in E. lia.
Qed.

Lemma resize_length {V} (u : nat -> V) n col : length (resize u n col) = n.
Proof. unfold resize. rewrite map_length, seq_length; auto. Qed.

Lemma nth_error_resize {V} (u : nat -> V) n col i : i < n ->
  nth_error (resize u n col) i = Some (nth i col (u i)).
Proof. intros H. unfold resize. rewrite nth_error_map_seq. destruct (Nat.ltb_spec i n); [auto|lia]. Qed.

Lemma realloc_length {V} u np (D : list (list (list V))) : length (realloc_rows u np D) = length D.
Proof. apply mapi_length. Qed.

Lemma realloc_rd3 {V} (u : nat -> nat -> nat -> V) np D f c l comp col :
  nth_error D f = Some comp -> nth_error comp c = Some col -> l < nth c np 0 ->
  rd3 (realloc_rows u np D) f c l = Some (nth l col (u f c l)).
Proof.
  intros E1 E2 H. unfold rd3, rd2, rd, realloc_rows. rewrite nth_error_mapi, E1. cbn [option_map obind].
  rewrite nth_error_mapi, E2. cbn [option_map obind]. apply nth_error_resize; auto.
Qed.

Lemma realloc_keep {V} (u : nat -> nat -> nat -> V) np D f c l v :
  rd3 D f c l = Some v -> l < nth c np 0 -> rd3 (realloc_rows u np D) f c l = Some v.
Proof.
  intros E H. unfold rd3, rd2, rd in E. destruct (nth_error D f) as [comp|] eqn:E1; [|discriminate].
  cbn in E. destruct (nth_error comp c) as [col|] eqn:E2; [|discriminate]. cbn in E.
  rewrite (realloc_rd3 u np D f c l comp col); auto. f_equal. apply nth_error_nth; auto.
Qed.

Lemma realloc_shape {V} (u : nat -> nat -> nat -> V) np D :
  (forall col, In col D -> length col = length np) ->
  shape3 (realloc_rows u np D) = map (fun _ => np) D.
Proof.
  intros HL. unfold shape3. apply nth_error_ext. intros f. rewrite !nth_error_map.
  unfold realloc_rows. rewrite nth_error_mapi. destruct (nth_error D f) as [comp|] eqn:E; auto. cbn.
  f_equal. unfold shape2. apply nth_error_ext. intros c. rewrite nth_error_map, nth_error_mapi.
  pose proof (HL comp (nth_error_In _ _ E)) as L.
  destruct (nth_error comp c) as [col|] eqn:E2; cbn.
  - rewrite resize_length. symmetry. apply nth_error_nth'. rewrite <- L. eapply nth_error_some_lt; eauto.
  - symmetry. apply nth_error_None. apply nth_error_None in E2. lia.
Qed.

(** A store all of whose components have exactly [np] rows. *)
Lemma shape_const {V W} (D : list (list (list V))) (X : list W) np : shape3 D = map (fun _ => np) X ->
  length D = length X /\ forall col, In col D -> shape2 col = np.
Proof.
  intros H. split.
  - pose proof (f_equal (@length _) H) as H2. unfold shape3 in H2. rewrite !map_length in H2; auto.
  - intros col Hi. assert (In (shape2 col) (shape3 D)) as I2 by (unfold shape3; apply in_map; auto).
    rewrite H in I2. apply in_map_iff in I2. destruct I2 as [? [? _]]; auto.
Qed.

Lemma shape_wf {V} np (col : list (list V)) : shape2 col = np -> wf_comp np col.
Proof.
  intros <-. split; [unfold shape2; rewrite map_length; auto|].
  intros c n r E1 E2. unfold shape2 in E1. rewrite nth_error_map, E2 in E1. cbn in E1. injection E1 as <-. auto.
Qed.

Lemma shape_rd3 {V} np (D : list (list (list V))) f c l n : (forall col, In col D -> shape2 col = np) ->
  f < length D -> nth_error np c = Some n -> l < n -> exists v, rd3 D f c l = Some v.
Proof.
  intros H Hf E Hl. destruct (nth_error_lt_some D f Hf) as [comp E1].
  pose proof (H comp (nth_error_In _ _ E1)) as Sh. unfold rd3, rd2, rd. rewrite E1. cbn [obind].
  assert (nth_error (shape2 comp) c = Some n) as E2 by congruence. unfold shape2 in E2. rewrite nth_error_map in E2.
  destruct (nth_error comp c) as [col|] eqn:E3; [|discriminate]. cbn in *. injection E2 as <-.
  apply nth_error_lt_some; auto.
Qed.

Lemma wf_rd3' {V} np (D : list (list (list V))) : (forall col, In col D -> wf_comp np col) ->
  forall f c l n, f < length D -> nth_error np c = Some n -> l < n -> exists x, rd3 D f c l = Some x.
Proof.
  intros H f c l n Hf Hc Hl.
  destruct (nth_error_lt_some D f Hf) as [col E]. destruct (H col (nth_error_In _ _ E)) as [L W].
  destruct (nth_error_lt_some col c) as [r Er]; [rewrite L; eapply nth_error_some_lt; eauto|].
  pose proof (W _ _ _ Hc Er). unfold rd3, rd2, rd. rewrite E; cbn. rewrite Er; cbn.
  apply nth_error_lt_some. lia.
Qed.

Lemma particle_at_eq {R} (s s' : store R) c l c' l' :
  length (reals s') = length (reals s) -> length (ints s') = length (ints s) ->
  (forall f, f < length (reals s) -> rd3 (reals s') f c' l' = rd3 (reals s) f c l) ->
  (forall f, f < length (ints s) -> rd3 (ints s') f c' l' = rd3 (ints s) f c l) ->
  particle_at s' c' l' = particle_at s c l.
Proof.
  intros L1 L2 H1 H2. unfold particle_at. rewrite !mapM_cols, L1, L2.
  rewrite (mapM_ext_in _ (fun f => rd3 (reals s) f c l) (seq 0 (length (reals s)))).
  rewrite (mapM_ext_in _ (fun f => rd3 (ints s) f c l) (seq 0 (length (ints s)))); auto.
  - intros f Hf. apply in_seq in Hf. apply H2; lia.
  - intros f Hf. apply in_seq in Hf. apply H1; lia.
Qed.

Lemma particle_at_some {R} (s : store R) c l :
  (forall f, f < length (reals s) -> exists v, rd3 (reals s) f c l = Some v) ->
  (forall f, f < length (ints s) -> exists v, rd3 (ints s) f c l = Some v) ->
  exists p, particle_at s c l = Some p.
Proof.
  intros HR HI. unfold particle_at. rewrite !mapM_cols.
  destruct (mapM_total (fun f => rd3 (reals s) f c l) (seq 0 (length (reals s)))) as [x Ex].
  { intros f Hf. apply in_seq in Hf. apply HR; lia. }
  destruct (mapM_total (fun f => rd3 (ints s) f c l) (seq 0 (length (ints s)))) as [y Ey].
  { intros f Hf. apply in_seq in Hf. apply HI; lia. }
  rewrite Ex, Ey; eauto.
Qed.

Lemma wf_particle_at {R} (g : group R) c l n : wf_group g -> nth_error (npart_cell g) c = Some n -> l < n ->
  exists p, particle_at (st g) c l = Some p.
Proof.
  intros [WR WI] E H. apply particle_at_some; intros f Hf.
  - eapply (wf_rd3' _ _ WR); eauto.
  - eapply (wf_rd3' _ _ WI); eauto.
Qed.

(** ** The iteration set and the linear index *)
Lemma all_particles_nodup np : NoDup (all_particles np).
Proof.
  unfold all_particles. apply NoDup_flat_map.
  - apply seq_NoDup.
  - intros c _. apply NoDup_map_inj; [congruence|apply seq_NoDup].
  - intros a1 a2 [b1 b2] _ _ H1 H2. apply in_map_iff in H1, H2.
    destruct H1 as [? [[= -> ->] _]], H2 as [? [[= -> ->] _]]; auto.
Qed.

Lemma es_psum np c : npart_cell_es np c = psum np c.
Proof. reflexivity. Qed.

Lemma lli_psum np c l : loop_linear_index np c l = psum np c + l.
Proof. unfold loop_linear_index. change (npart_cell_es np 0) with 0. rewrite es_psum. lia. Qed.

Lemma psum_all np : psum np (length np) = list_sum np.
Proof. unfold psum. rewrite firstn_all. reflexivity. Qed.

Lemma lli_lt np c l : In (c, l) (all_particles np) -> loop_linear_index np c l < list_sum np.
Proof.
  rewrite in_all_particles. intros [n [E H]]. rewrite lli_psum, <- psum_all.
  pose proof (psum_lt _ _ (length np) _ E (nth_error_some_lt _ _ _ E)). lia.
Qed.

Lemma lli_inj np c l c' l' : In (c, l) (all_particles np) -> In (c', l') (all_particles np) ->
  loop_linear_index np c l = loop_linear_index np c' l' -> (c, l) = (c', l').
Proof.
  rewrite !in_all_particles, !lli_psum. intros [n [E H]] [n' [E' H']] Hq.
  destruct (psum_unique np c c' l l' n n') as [-> ->]; auto.
Qed.

Lemma all_particles_length np : length (all_particles np) = list_sum np.
Proof.
  unfold all_particles.
  assert (G : forall np pre, length (flat_map (fun c => map (pair c) (seq 0 (nth c (pre ++ np) 0))) (seq (length pre) (length np))) = list_sum np).
  { clear np. induction np as [|n np IH]; intros pre; cbn [length seq flat_map]; auto.
    rewrite app_length, map_length, seq_length, app_nth2, Nat.sub_diag by lia. cbn [nth].
    specialize (IH (pre ++ [n])). rewrite app_length, <- app_assoc in IH. cbn [length app] in IH.
    rewrite Nat.add_comm in IH. cbn in IH. rewrite IH. reflexivity. }
  apply (G np []).
Qed.

(** A check of [wf_group] by computation, for concrete groups. *)
Definition wf_compb {V} (np : list nat) (col : list (list V)) : bool :=
  (length col =? length np) && forallb (fun p => fst p <=? length (snd p)) (combine np col).
Definition wf_groupb {R} (g : group R) : bool :=
  forallb (wf_compb (npart_cell g)) (reals (st g)) && forallb (wf_compb (npart_cell g)) (ints (st g)).
Lemma wf_compb_sound {V} np (col : list (list V)) : wf_compb np col = true -> wf_comp np col.
Proof.
  unfold wf_compb. rewrite andb_true_iff, Nat.eqb_eq, forallb_forall. intros [L H]. split; auto.
  intros c n r En Er. specialize (H (n, r)). rewrite Nat.leb_le in H. apply H.
  eapply nth_error_In. apply nth_error_combine; eauto.
Qed.
Lemma wf_groupb_sound {R} (g : group R) : wf_groupb g = true -> wf_group g.
Proof.
  unfold wf_groupb. rewrite andb_true_iff, !forallb_forall. intros [H1 H2].
  split; intros col Hc; apply wf_compb_sound; auto.
Qed.
