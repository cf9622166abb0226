(** Appending entries to the cells of a group: proof library for the functions
    that add particles.  No model definitions here. *)
From Coq Require Import List Arith Lia ZArith Permutation Bool.
Import ListNotations.
From Verif Require Import Base Kernel Group_Model Group_Spec Compress_Proofs Group_Proofs.

(** ** Folds *)
Lemma foldM_app {A S} (f : S -> A -> option S) s l1 l2 :
  foldM f s (l1 ++ l2) = (s' <- foldM f s l1 ;; foldM f s' l2).
Proof. revert s; induction l1 as [|a l1 IH]; intros s; cbn [app foldM]; auto. destruct (f s a); cbn [obind]; auto. Qed.

Lemma foldM_ext_in {A S} (f g : S -> A -> option S) l : (forall s a, In a l -> f s a = g s a) ->
  forall s, foldM f s l = foldM g s l.
Proof.
  induction l as [|a l IH]; intros H s; cbn [foldM]; auto.
  rewrite H by (left; auto). destruct (g s a); cbn [obind]; auto. apply IH. intros; apply H; right; auto.
Qed.

Lemma foldM_map {A B S} (h : A -> B) (f : S -> B -> option S) l : forall s,
  foldM f s (map h l) = foldM (fun s a => f s (h a)) s l.
Proof. induction l as [|a l IH]; intros s; cbn [map foldM]; auto. destruct (f s (h a)); cbn [obind]; auto. Qed.

Lemma foldM_flat {A B S} (g : S -> B -> option S) (inner : A -> list B) l : forall s,
  foldM (fun s a => foldM g s (inner a)) s l = foldM g s (flat_map inner l).
Proof.
  induction l as [|a l IH]; intros s; cbn [flat_map foldM]; auto.
  rewrite foldM_app. destruct (foldM g s (inner a)); cbn [obind]; auto.
Qed.

(** ** Writes of a kernel into a 3-level store; the written value may depend on
    locations that no item writes. *)
Lemma foldM_write3 {A V} (f : list (list (list V)) -> A -> option (list (list (list V))))
    (wr : A -> option (loc3 * V)) sched m :
  (forall m' a, shape3 m' = shape3 m ->
     (forall p, (forall b v, In b sched -> wr b <> Some (p, v)) -> get3 m' p = get3 m p) ->
     In a sched ->
     f m' a = match wr a with Some ((i, j, k), v) => upd3 m' i j k v | None => Some m' end) ->
  (forall a p v, In a sched -> wr a = Some (p, v) -> exists x, get3 m p = Some x) ->
  (forall a b p v w, In a sched -> In b sched -> wr a = Some (p, v) -> wr b = Some (p, w) -> v = w) ->
  exists m', foldM f m sched = Some m' /\ shape3 m' = shape3 m /\
    (forall a p v, In a sched -> wr a = Some (p, v) -> get3 m' p = Some v) /\
    (forall p, (forall a v, In a sched -> wr a <> Some (p, v)) -> get3 m' p = get3 m p).
Proof.
  intros Hf Hr Ha.
  destruct (@foldM_kernel A (list (list (list V))) loc3 V f (fun m p => get3 m p)
     (fun m' => shape3 m' = shape3 m /\
        (forall p, (forall b v, In b sched -> wr b <> Some (p, v)) -> get3 m' p = get3 m p))
     (fun a p => match wr a with Some (q, v) => if loc3_eqb p q then Some v else None | None => None end)
     sched m) as [m' [E [[L K] [W N]]]].
  - split; auto.
  - intros s a [Ls Ks] Ia. rewrite Hf by auto. destruct (wr a) as [[[[i j] k] v]|] eqn:Ew.
    + destruct (Hr a _ v Ia Ew) as [x Hx]. unfold get3 in Hx. cbn [fst snd] in Hx.
      destruct (shape3_rd3 _ s _ _ _ _ Ls Hx) as [y Hy].
      destruct (upd3_some s i j k v y Hy) as [s' E].
      assert (G : forall p, get3 s' p = if loc3_eqb p (i, j, k) then Some v else get3 s p).
      { intros [[i' j'] k']. unfold get3. cbn [fst snd]. rewrite (upd3_rd3 _ _ _ _ _ _ E).
        unfold loc3_eqb. cbn [fst snd]. reflexivity. }
      exists s'; split; auto. split; [split|].
      * rewrite (upd3_shape _ _ _ _ _ _ E); auto.
      * intros p Hp. rewrite G. destruct (loc3_eqb_spec p (i, j, k)) as [->|]; [|auto].
        exfalso. eapply Hp; eauto.
      * intros p. rewrite G. destruct (loc3_eqb p (i, j, k)); auto.
    + exists s; repeat split; auto.
  - intros a b p v w Ia Ib.
    destruct (wr a) as [[pa va]|] eqn:Ea; [|discriminate].
    destruct (wr b) as [[pb vb]|] eqn:Eb; [|discriminate].
    destruct (loc3_eqb_spec p pa) as [->|]; [|discriminate].
    destruct (loc3_eqb_spec pa pb) as [->|]; [|discriminate].
    intros [= <-] [= <-]. eapply (Ha a b); eauto.
  - exists m'; split; [exact E|]. split; [exact L|]. split.
    + intros a p v Ia Ew. apply (W a p v Ia). rewrite Ew.
      destruct (loc3_eqb_spec p p); congruence.
    + intros p Hp. apply (N p). intros a Ia.
      destruct (wr a) as [[q v]|] eqn:Ea; auto.
      destruct (loc3_eqb_spec p q); auto. subst q. exfalso; eapply Hp; eauto.
Qed.

(** ** Components of properties *)
Lemma nth_error_flat_map {A B} (g : A -> list B) l : forall i a k,
  nth_error l i = Some a -> k < length (g a) ->
  nth_error (flat_map g l) (list_sum (firstn i (map (fun a => length (g a)) l)) + k) = nth_error (g a) k.
Proof.
  induction l as [|x l IH]; intros [|i] a k E H; try discriminate.
  - cbn in E. injection E as ->. cbn [flat_map map firstn list_sum fold_right]. rewrite Nat.add_0_l.
    apply nth_error_app1; auto.
  - cbn [nth_error] in E. cbn [flat_map map firstn]. change (list_sum (?a :: ?l)) with (a + list_sum l).
    rewrite nth_error_app2 by lia.
    replace (length (g x) + list_sum (firstn i (map (fun a => length (g a)) l)) + k - length (g x))
      with (list_sum (firstn i (map (fun a => length (g a)) l)) + k) by lia.
    apply IH; auto.
Qed.

Lemma flat_map_len {A B} (g : A -> list B) l : length (flat_map g l) = list_sum (map (fun a => length (g a)) l).
Proof. induction l as [|a l IH]; cbn; auto. rewrite app_length, IH. auto. Qed.

(** ** Appended entries *)
Lemma shape3_wf {V} np (D D' : list (list (list V))) : shape3 D' = shape3 D ->
  (forall col, In col D -> wf_comp np col) -> length D' = length D /\ forall col, In col D' -> wf_comp np col.
Proof.
  intros H W. split.
  - pose proof (f_equal (@length _) H) as H2. unfold shape3 in H2. rewrite !map_length in H2; auto.
  - intros col Hc. apply In_nth_error in Hc. destruct Hc as [f Ef].
    pose proof (f_equal (fun l => nth_error l f) H) as H2. unfold shape3 in H2. cbv beta in H2.
    rewrite !nth_error_map, Ef in H2. cbn [option_map] in H2.
    destruct (nth_error D f) as [col0|] eqn:E0; [|discriminate]. cbn [option_map] in H2. injection H2 as H2.
    destruct (W col0 (nth_error_In _ _ E0)) as [L Q]. unfold shape2 in H2. split.
    + pose proof (f_equal (@length _) H2) as H3. rewrite !map_length in H3. lia.
    + intros c n r En Er. pose proof (f_equal (fun l => nth_error l c) H2) as H3. cbv beta in H3.
      rewrite !nth_error_map, Er in H3. cbn [option_map] in H3.
      destruct (nth_error col0 c) as [r0|] eqn:E1; [|discriminate]. cbn in H3. injection H3 as H3.
      rewrite H3. eapply Q; eauto.
Qed.

Section Append.
  Context {A V : Type}.
  Context (u : nat -> nat -> nat -> V) (np np' : list nat) (D : list (list (list V))).
  (* the entries appended to each cell, in layer order, and their values *)
  Context (E : nat -> list A) (new : A -> list V) (cellof layof : A -> nat) (active : A -> bool).
  Context (WF : forall col, In col D -> wf_comp np col).
  Context (Hnp : forall c n, nth_error np c = Some n -> nth_error np' c = Some (n + length (E c))).
  Context (Lnp : length np' = length np).
  Context (Hnew : forall a, length (new a) = length D).
  Context (HE : forall c k a, nth_error (E c) k = Some a -> active a = true /\ cellof a = c /\
                  exists n, nth_error np c = Some n /\ layof a = n + k).

  Definition old_rows (m : list (list (list V))) : Prop :=
    forall f c l n, nth_error np c = Some n -> l < n -> rd3 m f c l = rd3 D f c l.

  Lemma append_old_rows : old_rows (realloc_rows u np' D).
  Proof.
    intros f c l n Hc Hl.
    destruct (rd3 D f c l) as [v|] eqn:Ev.
    - apply realloc_keep; auto. rewrite (nth_error_nth _ _ 0 (Hnp _ _ Hc)). lia.
    - destruct (lt_dec f (length D)) as [Hf|Hf].
      + destruct (wf_rd3' np D WF f c l n) as [x Ex]; auto. congruence.
      + unfold rd3, rd. replace (nth_error (realloc_rows u np' D) f) with (@None (list (list V))); auto.
        symmetry. apply nth_error_None. rewrite realloc_length. lia.
  Qed.

  (** A kernel of (component, entry) work items. *)
  Lemma append_store_gen D0 (step : list (list (list V)) -> nat * A -> option (list (list (list V)))) sched :
    length D0 = length D -> (forall col, In col D0 -> wf_comp np' col) -> old_rows D0 ->
    (forall m f a, shape3 m = shape3 D0 -> old_rows m -> In (f, a) sched ->
       exists v, (active a = true -> nth_error (new a) f = Some v) /\
       step m (f, a) = if active a then upd3 m f (cellof a) (layof a) v else Some m) ->
    (forall f a, In (f, a) sched -> f < length D /\
       (active a = true -> exists k, nth_error (E (cellof a)) k = Some a)) ->
    (forall f c a, f < length D -> c < length np -> In a (E c) -> In (f, a) sched) ->
    exists D1, foldM step D0 sched = Some D1 /\
      length D1 = length D /\ (forall col, In col D1 -> wf_comp np' col) /\ old_rows D1 /\
      (forall f c n k a, f < length D -> nth_error np c = Some n -> nth_error (E c) k = Some a ->
         rd3 D1 f c (n + k) = nth_error (new a) f).
  Proof.
    intros L0 WF0 Old0 Hstep Hin Hall.
    assert (Hn : forall w : nat * A, nth_error (new (snd w)) (fst w) <> None <-> fst w < length D).
    { intros w. rewrite nth_error_Some, Hnew. reflexivity. }
    destruct (@foldM_write3 (nat * A) V step
       (fun w => if active (snd w) then
                   match nth_error (new (snd w)) (fst w) with
                   | Some v => Some ((fst w, cellof (snd w), layof (snd w)), v)
                   | None => None
                   end else None) sched D0) as [D1 [Ef [S1 [W1 N1]]]].
    - intros m [f a] Sm Km Hw. cbn [fst snd].
      destruct (Hstep m f a Sm) as [v [Hv Es]]; [|auto|].
      { intros f' c l n Hc Hl. rewrite <- (Old0 f' c l n) by auto.
        apply (Km (f', c, l)). intros [f2 a2] v Hb. cbn [fst snd].
        destruct (active a2) eqn:Ea; [|discriminate].
        destruct (Hin _ _ Hb) as [_ Hk]. destruct (Hk Ea) as [k Ek].
        destruct (HE _ _ _ Ek) as [_ [_ [n2 [En El]]]].
        destruct (nth_error (new a2) f2); [|discriminate]. intros [= E1 E2 E3 E4].
        subst. rewrite Hc in En. injection En as <-. lia. }
      rewrite Es. destruct (active a); auto. rewrite Hv; auto.
    - intros [f a] p v Hw. cbn [fst snd]. destruct (active a) eqn:Ea; [|discriminate].
      destruct (nth_error (new a) f) eqn:Ev; [|discriminate]. intros [= <- <-].
      destruct (Hin _ _ Hw) as [Hf Hk]. destruct (Hk Ea) as [k Ek].
      destruct (HE _ _ _ Ek) as [_ [_ [n [En El]]]].
      unfold get3. cbn [fst snd]. eapply (wf_rd3' np' D0); eauto; [lia|].
      rewrite El. pose proof (nth_error_some_lt _ _ _ Ek). lia.
    - intros [f a] [f2 a2] p v w Hw Hw2. cbn [fst snd].
      destruct (active a) eqn:Ea; [|discriminate]. destruct (active a2) eqn:Ea2; [|discriminate].
      destruct (nth_error (new a) f) eqn:Ev; [|discriminate]. destruct (nth_error (new a2) f2) eqn:Ev2; [|discriminate].
      intros [= <- <-] [= E1 E2 E3 E4].
      destruct (Hin _ _ Hw) as [_ Hk]. destruct (Hk Ea) as [k Ek].
      destruct (Hin _ _ Hw2) as [_ Hk2]. destruct (Hk2 Ea2) as [k2 Ek2].
      destruct (HE _ _ _ Ek) as [_ [_ [n [En El]]]]. destruct (HE _ _ _ Ek2) as [_ [_ [n2 [En2 El2]]]].
      subst f2. rewrite E2 in *. rewrite En in En2. injection En2 as <-. assert (k = k2) by lia. subst k2.
      rewrite Ek in Ek2. injection Ek2 as <-. congruence.
    - exists D1. destruct (shape3_wf np' D0 D1 S1 WF0) as [L1 C1].
      split; [exact Ef|]. split; [lia|]. split; [auto|]. split.
      + intros f c l n Hc Hl. rewrite <- (Old0 f c l n) by auto.
        apply (N1 (f, c, l)). intros [f2 a2] v Hb. cbn [fst snd].
        destruct (active a2) eqn:Ea; [|discriminate].
        destruct (Hin _ _ Hb) as [_ Hk]. destruct (Hk Ea) as [k Ek].
        destruct (HE _ _ _ Ek) as [_ [_ [n2 [En El]]]].
        destruct (nth_error (new a2) f2); [|discriminate]. intros [= E1 E2 E3 E4].
        subst. rewrite Hc in En. injection En as <-. lia.
      + intros f c n k a Hf Hc Hk.
        destruct (HE _ _ _ Hk) as [Ha [Hca [n2 [En El]]]]. rewrite Hc in En. injection En as <-.
        assert (Hs : In (f, a) sched).
        { apply (Hall f c a); auto; [eapply nth_error_some_lt; eauto|eapply nth_error_In; eauto]. }
        destruct (nth_error (new a) f) as [v|] eqn:Ev; [|exfalso; apply (proj2 (Hn (f, a))); auto].
        apply (W1 (f, a) (f, c, n + k) v Hs). cbn [fst snd]. rewrite Ha, Ev, Hca, El. auto.
  Qed.

  (** A kernel of (component, entry) work items. *)
  Lemma append_store (step : list (list (list V)) -> nat * A -> option (list (list (list V)))) sched :
    (forall m f a, shape3 m = shape3 (realloc_rows u np' D) -> old_rows m -> In (f, a) sched ->
       exists v, (active a = true -> nth_error (new a) f = Some v) /\
       step m (f, a) = if active a then upd3 m f (cellof a) (layof a) v else Some m) ->
    (forall f a, In (f, a) sched -> f < length D /\
       (active a = true -> exists k, nth_error (E (cellof a)) k = Some a)) ->
    (forall f c a, f < length D -> c < length np -> In a (E c) -> In (f, a) sched) ->
    exists D1, foldM step (realloc_rows u np' D) sched = Some D1 /\
      length D1 = length D /\ (forall col, In col D1 -> wf_comp np' col) /\ old_rows D1 /\
      (forall f c n k a, f < length D -> nth_error np c = Some n -> nth_error (E c) k = Some a ->
         rd3 D1 f c (n + k) = nth_error (new a) f).
  Proof.
    intros Hstep Hin Hall. apply append_store_gen; auto using append_old_rows, realloc_length.
    intros col Hc. apply shape_wf.
    assert (Sh : shape3 (realloc_rows u np' D) = map (fun _ => np') D).
    { apply realloc_shape. intros col' Hc'. rewrite (proj1 (WF col' Hc')). auto. }
    apply (shape_const _ _ _ Sh); auto.
  Qed.
End Append.

(** The particles of the cells after appending to both parts of the store. *)
Lemma append_cells {A R} (g g' : group R) (E : nat -> list A) (newR : A -> list R) (newZ : A -> list Z) :
  wf_group g ->
  (forall a, length (newR a) = length (reals (st g))) -> (forall a, length (newZ a) = length (ints (st g))) ->
  length (npart_cell g') = length (npart_cell g) ->
  (forall c n, nth_error (npart_cell g) c = Some n -> nth_error (npart_cell g') c = Some (n + length (E c))) ->
  length (reals (st g')) = length (reals (st g)) -> length (ints (st g')) = length (ints (st g)) ->
  old_rows (npart_cell g) (reals (st g)) (reals (st g')) -> old_rows (npart_cell g) (ints (st g)) (ints (st g')) ->
  (forall f c n k a, f < length (reals (st g)) -> nth_error (npart_cell g) c = Some n -> nth_error (E c) k = Some a ->
     rd3 (reals (st g')) f c (n + k) = nth_error (newR a) f) ->
  (forall f c n k a, f < length (ints (st g)) -> nth_error (npart_cell g) c = Some n -> nth_error (E c) k = Some a ->
     rd3 (ints (st g')) f c (n + k) = nth_error (newZ a) f) ->
  forall c, c < length (npart_cell g) -> exists old,
    cell_particles g c = Some old /\
    cell_particles g' c = Some (old ++ map (fun a => (newR a, newZ a)) (E c)).
Proof.
  intros WF LR LZ Lnp Hnp L1 L2 O1 O2 N1 N2 c Hc.
  destruct (nth_error_lt_some _ _ Hc) as [n En].
  unfold cell_particles. rewrite En. cbn [obind].
  destruct (mapM_total (particle_at (st g) c) (seq 0 n)) as [old Eo].
  { intros l Hl. apply in_seq in Hl. eapply wf_particle_at; eauto. lia. }
  exists old. split; [auto|]. rewrite (Hnp _ _ En). cbn [obind].
  rewrite seq_app, mapM_app.
  rewrite (mapM_ext_in (particle_at (st g') c) (particle_at (st g) c) (seq 0 n)).
  - rewrite Eo. cbn [obind]. rewrite Nat.add_0_l.
    replace (mapM (particle_at (st g') c) (seq n (length (E c)))) with
      (Some (map (fun a => (newR a, newZ a)) (E c))); [reflexivity|].
    symmetry. rewrite (seq_shift_map n), mapM_map.
    rewrite <- (mapM_nth_seq (fun a => Some (newR a, newZ a))).
    { clear. induction (E c) as [|a l IH]; cbn; auto. rewrite IH. auto. }
    intros k a Hk. unfold particle_at. rewrite !mapM_cols, L1, L2.
    assert (G : forall V (D : list (list (list V))) (nw : list V) m, length nw = m ->
      (forall f, f < m -> rd3 D f c (n + k) = nth_error nw f) ->
      mapM (fun f => rd3 D f c (n + k)) (seq 0 m) = Some nw).
    { clear. intros V D nw m <- H.
      rewrite (mapM_ext_in _ (fun f => nth_error nw f)) by (intros f Hf; apply in_seq in Hf; apply H; lia).
      rewrite <- (mapM_nth_seq (fun x => Some x) (fun f => nth_error nw f)) by (intros; symmetry; auto).
      clear. induction nw; cbn; auto. rewrite IHnw. auto. }
    rewrite (G _ _ (newR a)), (G _ _ (newZ a)); auto.
  - intros l Hl. apply in_seq in Hl. apply particle_at_eq; auto.
    + intros f _. eapply O1; eauto; lia.
    + intros f _. eapply O2; eauto; lia.
Qed.
