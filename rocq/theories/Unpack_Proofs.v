(** Proofs about unpacking: the particles of the messages are appended to cell 0. *)
From Coq Require Import List Arith Lia ZArith Permutation Bool.
Import ListNotations.
From Verif Require Import Base Kernel Group_Model Group_Spec Group_Proofs Compress_Proofs
  Add_Model Add_Spec Append_Proofs Add_Proofs AddGroup_Proofs Pack_Model Pack_Spec Pack_Proofs.

Lemma firstn_snoc {A} (l : list A) m a : nth_error l m = Some a -> firstn (S m) l = firstn m l ++ [a].
Proof.
  revert m. induction l as [|x l IH]; intros [|m] H; try discriminate; cbn [nth_error firstn app] in *.
  - injection H as ->. auto.
  - rewrite (IH m H). auto.
Qed.

Lemma slice_eq' {A} (m bs : list A) a n : length bs = n -> a + n <= length m ->
  (forall k, k < n -> nth_error m (a + k) = nth_error bs k) -> slice m a (a + n) = Some bs.
Proof. intros <-. apply slice_eq. Qed.

Lemma skipn_add {A} (l : list A) a : forall b, skipn a (skipn b l) = skipn (a + b) l.
Proof.
  intros b. apply nth_error_ext. intros i. rewrite !nth_error_skipn. f_equal. lia.
Qed.

(** ** realloc of one cell *)
Section Realloc.
  Context {V : Type} (u : nat -> nat -> nat -> V) (np np' : list nat) (D : list (list (list V))) (old n : nat).
  Context (WF : forall col, In col D -> wf_comp np col).
  Context (H0 : nth_error np 0 = Some old) (Hnp : upd np 0 (old + n) = Some np').

  Lemma realloc_cell_length : length (realloc_cell u 0 (old + n) D) = length D.
  Proof. apply mapi_length. Qed.

  Lemma realloc_cell_wf : forall col, In col (realloc_cell u 0 (old + n) D) -> wf_comp np' col.
  Proof.
    intros col Hc. apply In_nth_error in Hc. destruct Hc as [f Ef]. unfold realloc_cell in Ef.
    rewrite nth_error_mapi in Ef. destruct (nth_error D f) as [comp|] eqn:ED; [|discriminate].
    cbn [option_map] in Ef. injection Ef as <-. destruct (WF comp (nth_error_In _ _ ED)) as [L W].
    split; [rewrite mapi_length, (upd_length _ _ _ _ Hnp); auto|].
    intros c m r Em Er. rewrite (upd_nth _ _ _ _ _ Hnp) in Em. rewrite nth_error_mapi in Er.
    destruct (nth_error comp c) as [r0|] eqn:E0; [|discriminate]. cbn [option_map] in Er.
    destruct (Nat.eqb_spec c 0) as [->|].
    - injection Em as <-. injection Er as <-. rewrite resize_length. auto.
    - injection Er as <-. eapply W; eauto.
  Qed.

  Lemma realloc_cell_old : old_rows np D (realloc_cell u 0 (old + n) D).
  Proof.
    intros f c l m Hc Hl. unfold realloc_cell, rd3, rd2, rd. rewrite nth_error_mapi.
    destruct (nth_error D f) as [comp|] eqn:ED; [|auto]. cbn [option_map obind]. rewrite nth_error_mapi.
    destruct (WF comp (nth_error_In _ _ ED)) as [L W].
    destruct (nth_error comp c) as [r|] eqn:Er; [|auto]. cbn [option_map obind].
    destruct (Nat.eqb_spec c 0) as [->|]; [|auto].
    pose proof (W 0 m r Hc Er). rewrite nth_error_resize by (rewrite H0 in Hc; injection Hc as <-; lia).
    destruct (nth_error_lt_some r l) as [v Ev]; [lia|]. rewrite Ev. f_equal. apply nth_error_nth. auto.
  Qed.
End Realloc.

Section Unpack.
  Context (d : device) (Hd : device_ok d).
  Context {R byte : Type} (E : encoding R byte) (EOk : encoding_ok E) (spR spZ : pspec).
  Let nb := bytes_per_particle E spR spZ.

  (** ** One kernel *)
  Lemma unpack_kernel {V} (u : nat -> nat -> nat -> V) np np' (D : list (list (list V))) sp dec size base old recv
      (vals : list (list V)) k :
    (forall col, In col D -> wf_comp np col) -> nth_error np 0 = Some old ->
    upd np 0 (old + length vals) = Some np' -> spec_of sp D -> vals <> [] ->
    (forall vs, In vs vals -> length vs = length D) ->
    (forall p vs f, nth_error vals p = Some vs -> f < length D -> exists bs v,
       slice recv (nb * p + base + f * size) (nb * p + base + f * size + size) = Some bs /\
       dec bs = Some v /\ nth_error vs f = Some v) ->
    exists D1, foldM (unpack_item E spR spZ sp dec size base old recv) (realloc_cell u 0 (old + length vals) D)
        (ord d k (list_prod (seq 0 (length vals)) (seq 0 (ncomp_total sp)))) = Some D1 /\
      length D1 = length D /\ (forall col, In col D1 -> wf_comp np' col) /\ old_rows np D D1 /\
      (forall f c n k a, f < length D -> nth_error np c = Some n ->
         nth_error (if c =? 0 then seq 0 (length vals) else []) k = Some a ->
         rd3 D1 f c (n + k) = nth_error (nth a vals (hd [] vals)) f).
  Proof.
    intros WF H0 Hnp SP Nv Lv Hb.
    destruct vals as [|v0 vt] eqn:Ev0; [congruence|]. rewrite <- Ev0 in *. cbn [hd].
    assert (Hv0 : hd [] vals = v0) by (rewrite Ev0; auto). rewrite Hv0.
    set (n := length vals) in *.
    set (sched := ord d k (list_prod (seq 0 n) (seq 0 (ncomp_total sp)))).
    set (step := fun m (w : nat * nat) => unpack_item E spR spZ sp dec size base old recv m (snd w, fst w)).
    assert (Ef : foldM (unpack_item E spR spZ sp dec size base old recv) (realloc_cell u 0 (old + n) D) sched =
                 foldM step (realloc_cell u 0 (old + n) D) (map (fun w => (snd w, fst w)) sched)).
    { rewrite foldM_map. apply foldM_ext_in. intros m [p f] _. reflexivity. }
    rewrite Ef.
    assert (In_s : forall f p, In (f, p) (map (fun w : nat * nat => (snd w, fst w)) sched) <-> p < n /\ f < length D).
    { intros f p. rewrite in_map_iff. split.
      - intros [[p' f'] [[= <- <-] H]]. apply (proj1 (in_ord d _ _ _ Hd)) in H. apply in_prod_iff in H.
        rewrite !in_seq in H. unfold spec_of in SP. unfold ncomp_total in H. lia.
      - intros H. exists (p, f). split; auto. apply (proj2 (in_ord d _ _ _ Hd)). apply in_prod_iff.
        rewrite !in_seq. unfold spec_of in SP. unfold ncomp_total. lia. }
    apply (append_store_gen np np' D (fun c => if c =? 0 then seq 0 n else [])
             (fun a => nth a vals v0) (fun _ => 0) (fun p => old + p) (fun p => p <? n)).
    - intros c m Hc. rewrite (upd_nth _ _ _ _ _ Hnp). destruct (Nat.eqb_spec c 0) as [->|].
      + rewrite seq_length. rewrite H0 in Hc. injection Hc as <-. auto.
      + cbn. rewrite Nat.add_0_r. auto.
    - apply (upd_length _ _ _ _ Hnp).
    - intros a. destruct (lt_dec a n).
      + apply Lv. apply nth_In. auto.
      + rewrite nth_overflow by (unfold n in *; lia). apply Lv. rewrite Ev0. left. auto.
    - intros c j a Hj. destruct (Nat.eqb_spec c 0) as [->|].
      + rewrite nth_error_seq in Hj. destruct (Nat.ltb_spec j n); [|discriminate]. injection Hj as <-.
        cbn. split; [apply Nat.ltb_lt; auto|]. split; auto. exists old. auto.
      + destruct j; discriminate.
    - apply realloc_cell_length.
    - eapply realloc_cell_wf; eauto.
    - eapply realloc_cell_old; eauto.
    - intros m f p _ _ Hi. apply In_s in Hi. destruct Hi as [Hp Hf].
      destruct (nth_error_lt_some vals p Hp) as [vs Evs].
      destruct (Hb p vs f Evs Hf) as [bs [v [B1 [B2 B3]]]].
      exists v. split; [intros _; rewrite (nth_error_nth _ _ _ Evs); auto|].
      destruct (Nat.ltb_spec p n); [|lia]. unfold step. cbn [fst snd]. unfold unpack_item, rd.
      destruct (tables sp f) as [dat [comp [T1 [T2 [T3 T4]]]]].
      { unfold ncomp_total. unfold spec_of in SP. lia. }
      rewrite T1. cbn [obind]. rewrite T2. cbn [obind]. rewrite T3. cbn [obind]. rewrite T4. fold nb.
      rewrite B1. cbn [obind]. rewrite B2. cbn [obind]. auto.
    - intros f p Hi. apply In_s in Hi. destruct Hi as [Hp Hf]. split; auto. intros _. exists p. cbn [Nat.eqb].
      rewrite nth_error_seq. destruct (Nat.ltb_spec p n); [auto|lia].
    - intros f c a Hf Hc Ha. apply In_s. split; auto. destruct (c =? 0); [|destruct Ha].
      apply in_seq in Ha. lia.
  Qed.

  (** ** Unpacking a buffer that holds the particles [ps] *)
  Lemma unpack_correct uR uZ g ps :
    wf_group g -> spec_of spR (reals (st g)) -> spec_of spZ (ints (st g)) ->
    0 < length (npart_cell g) -> (forall p, In p ps -> full spR spZ p) ->
    exists g', unpack d E spR spZ uR uZ (length ps) (wire E ps) g = Some g' /\ wf_group g' /\
      length (npart_cell g') = length (npart_cell g) /\
      length (reals (st g')) = length (reals (st g)) /\ length (ints (st g')) = length (ints (st g)) /\
      forall c, c < length (npart_cell g) -> exists old, cell_particles g c = Some old /\
        cell_particles g' c = Some (old ++ if c =? 0 then ps else []).
  Proof.
    intros WF SR SZ Hc Fu. unfold unpack. destruct WF as [WR WZ].
    destruct (nth_error_lt_some _ _ Hc) as [old Eo]. unfold rd. rewrite Eo. cbn [obind].
    destruct (upd_some (npart_cell g) 0 (old + length ps)) as [np' Enp]; auto. rewrite Enp. cbn [obind].
    assert (Hnp : forall c n, nth_error (npart_cell g) c = Some n ->
       nth_error np' c = Some (n + length (if c =? 0 then seq 0 (length ps) else []))).
    { intros c n Hn. rewrite (upd_nth _ _ _ _ _ Enp). destruct (Nat.eqb_spec c 0) as [->|].
      - rewrite seq_length. rewrite Eo in Hn. injection Hn as <-. auto.
      - cbn. rewrite Nat.add_0_r. auto. }
    destruct (Nat.leb_spec (length ps) 0) as [Lz|Lz].
    - assert (ps = []) by (destruct ps; auto; cbn in Lz; lia). subst ps. cbn [length] in *.
      eexists; split; [reflexivity|]. split; [split; cbn [st reals ints npart_cell]; eapply realloc_cell_wf; eauto|].
      cbn [st reals ints npart_cell]. split; [apply (upd_length _ _ _ _ Enp)|].
      split; [apply realloc_cell_length|]. split; [apply realloc_cell_length|].
      intros c Hc'.
      destruct (append_cells g (mk_group (mk_store (realloc_cell uR 0 (old + 0) (reals (st g)))
                 (realloc_cell uZ 0 (old + 0) (ints (st g)))) np') (fun _ : nat => @nil Empty_set)
                 (fun p => match p with end) (fun p => match p with end)) with (c := c) as [o [A B]];
        cbn [st reals ints npart_cell]; auto using realloc_cell_length.
      + split; auto.
      + intros [].
      + intros [].
      + apply (upd_length _ _ _ _ Enp).
      + intros c' n Hn. rewrite (Hnp _ _ Hn). destruct (c' =? 0); auto.
      + eapply realloc_cell_old; eauto.
      + eapply realloc_cell_old; eauto.
      + intros f c' n k [].
      + intros f c' n k [].
      + exists o. split; auto. rewrite B. destruct (c =? 0); auto.
    - destruct ps as [|p0 pt] eqn:Ep; [cbn in Lz; lia|]. rewrite <- Ep in *.
      assert (Lw : length (wire E ps) = length ps * nb) by (apply wire_len; auto).
      assert (Hnb := nb_eq E spR spZ). fold nb in Hnb. assert (Hrb := real_bytes_eq E spR).
      destruct EOk as [E1 [E2 [E3 E4]]].
      destruct (unpack_kernel uR (npart_cell g) np' (reals (st g)) spR (dec_real E) (size_real E) 0 old (wire E ps)
                  (map fst ps) 220) as [DR [FR [LR [WR' [OR NR]]]]]; auto.
      { rewrite map_length. auto. }
      { rewrite Ep. discriminate. }
      { intros vs Hv. apply in_map_iff in Hv. destruct Hv as [p [<- Hp]]. destruct (Fu p Hp) as [F1 _].
        unfold spec_of in SR. unfold ncomp_total in F1. lia. }
      { intros p vs f Ev Hf. rewrite nth_error_map in Ev. destruct (@nth_error (list R * list Z) ps p) as [q|] eqn:Eq; [|discriminate].
        cbn in Ev. injection Ev as <-. destruct (Fu q (nth_error_In _ _ Eq)) as [F1 F2].
        assert (Hf' : f < length (fst q)) by (unfold spec_of in SR; unfold ncomp_total in F1; lia).
        destruct (nth_error_lt_some _ _ Hf') as [v Ev]. exists (enc_real E v), v.
        assert (Hp : p < length ps) by (exact (nth_error_some_lt _ _ _ Eq)). split; [|auto].
        assert (S f * size_real E <= ncomp_total spR * size_real E) by (apply Nat.mul_le_mono_r; rewrite <- F1; exact Hf').
        assert (S p * nb <= length ps * nb) by (apply Nat.mul_le_mono_r; lia).
        apply slice_eq'; [apply E1| |].
        - rewrite Lw. lia.
        - intros x Hx. replace (nb * p + 0 + f * size_real E + x) with (p * nb + (f * size_real E + x)) by lia.
          unfold nb. rewrite (wire_nth E EOk spR spZ ps p q); auto; [|fold nb; lia].
          apply (wire1_real E EOk spR spZ); auto. split; auto. }
      destruct (unpack_kernel uZ (npart_cell g) np' (ints (st g)) spZ (dec_int E) (size_int E) (real_bytes E spR) old (wire E ps)
                  (map snd ps) 221) as [DZ [FZ [LZ [WZ' [OZ NZ]]]]]; auto.
      { rewrite map_length. auto. }
      { rewrite Ep. discriminate. }
      { intros vs Hv. apply in_map_iff in Hv. destruct Hv as [p [<- Hp]]. destruct (Fu p Hp) as [_ F1].
        unfold spec_of in SZ. unfold ncomp_total in F1. lia. }
      { intros p vs f Ev Hf. rewrite nth_error_map in Ev. destruct (@nth_error (list R * list Z) ps p) as [q|] eqn:Eq; [|discriminate].
        cbn in Ev. injection Ev as <-. destruct (Fu q (nth_error_In _ _ Eq)) as [F1 F2].
        assert (Hf' : f < length (snd q)) by (unfold spec_of in SZ; unfold ncomp_total in F2; lia).
        destruct (nth_error_lt_some _ _ Hf') as [v Ev]. exists (enc_int E v), v.
        assert (Hp : p < length ps) by (exact (nth_error_some_lt _ _ _ Eq)). split; [|auto].
        assert (S f * size_int E <= ncomp_total spZ * size_int E) by (apply Nat.mul_le_mono_r; rewrite <- F2; exact Hf').
        assert (S p * nb <= length ps * nb) by (apply Nat.mul_le_mono_r; lia).
        apply slice_eq'; [apply E3| |].
        - rewrite Lw. lia.
        - intros x Hx.
          replace (nb * p + real_bytes E spR + f * size_int E + x) with (p * nb + (real_bytes E spR + f * size_int E + x)) by lia.
          unfold nb. rewrite (wire_nth E EOk spR spZ ps p q); auto; [|fold nb; lia].
          apply (wire1_int E EOk spR spZ); auto. split; auto. }
      rewrite map_length in FR, FZ, NR, NZ.
      change (@length (list R * list Z) ps) with (@length (particle R) ps) in FR, FZ, NR, NZ. rewrite FR. cbn [obind]. rewrite FZ. cbn [obind].
      eexists; split; [reflexivity|]. split; [split; auto|].
      cbn [st reals ints npart_cell]. split; [apply (upd_length _ _ _ _ Enp)|]. split; [auto|]. split; [auto|].
      intros c Hc'.
      assert (Fn : forall a, full spR spZ (nth a ps p0)).
      { intros a. apply Fu. destruct (nth_in_or_default a ps p0) as [|Q]; [auto|]. rewrite Q, Ep. left. auto. }
      destruct (append_cells g (mk_group (mk_store DR DZ) np') (fun c => if c =? 0 then seq 0 (length ps) else [])
                 (fun a => fst (nth a ps p0)) (fun a => snd (nth a ps p0))) with (c := c) as [o [A B]];
        cbn [st reals ints npart_cell]; auto.
      + split; auto.
      + intros a. destruct (Fn a) as [F1 _]. unfold spec_of in SR. unfold ncomp_total in F1. lia.
      + intros a. destruct (Fn a) as [_ F1]. unfold spec_of in SZ. unfold ncomp_total in F1. lia.
      + apply (upd_length _ _ _ _ Enp).
      + intros f c' n k a Hf Hn Hk. rewrite (NR f c' n k a Hf Hn Hk). f_equal.
        rewrite Ep. exact (map_nth (@fst (list R) (list Z)) (p0 :: pt) p0 a).
      + intros f c' n k a Hf Hn Hk. rewrite (NZ f c' n k a Hf Hn Hk). f_equal.
        rewrite Ep. exact (map_nth (@snd (list R) (list Z)) (p0 :: pt) p0 a).
      + exists o. split; auto. rewrite B. do 2 f_equal. destruct (c =? 0); auto.
        apply (@nth_error_ext (particle R)). intros k. rewrite (@nth_error_map_seq (particle R)). destruct (Nat.ltb_spec k (length ps)) as [Lk|Lk].
        * destruct (nth_error_lt_some ps k Lk) as [q Eq]. rewrite Nat.add_0_l, (nth_error_nth _ _ _ Eq).
          etransitivity; [|symmetry; exact Eq]. destruct q; auto.
        * symmetry. apply nth_error_None. auto.
  Qed.

  (** ** The receive buffer *)
  Definition offs (pss : list (list (particle R))) (j : nat) : nat := length (concat (firstn j pss)) * nb.

  Lemma unpack_reset_correct npart pss : npart = map (@length _) pss ->
    unpack_reset E spR spZ npart (length pss) =
      Some (map (offs pss) (seq 0 (length pss)), length (concat pss)).
  Proof.
    intros ->. unfold unpack_reset.
    match goal with |- foldM ?f _ _ = _ => set (F := f) end.
    assert (G : forall m, m <= length pss -> foldM F ([], 0) (seq 0 m) =
        Some (map (offs pss) (seq 0 m), length (concat (firstn m pss)))).
    { induction m as [|m IH]; intros Hm; [reflexivity|].
      rewrite seq_S, Base.foldM_app, IH by lia. cbn [obind foldM]. unfold F at 1, rd. rewrite Nat.add_0_l.
      destruct (nth_error_lt_some pss m Hm) as [ps Em]. rewrite nth_error_map, Em. cbn [option_map obind fst snd].
      rewrite map_app. cbn [map]. rewrite (firstn_snoc pss m ps Em), concat_app, app_length. cbn [concat]. rewrite app_nil_r.
      auto. }
    rewrite G by auto. rewrite firstn_all. auto.
  Qed.

  Lemma wire_app (a b : list (particle R)) : wire E (a ++ b) = wire E a ++ wire E b.
  Proof. apply flat_map_app. Qed.

  Lemma receive_correct h pss : (forall ps p, In ps pss -> In p ps -> full spR spZ p) ->
    receive_messages E spR spZ h (map (offs pss) (seq 0 (length pss))) (length (concat pss)) (map (wire E) pss) =
      Some (wire E (concat pss)).
  Proof.
    intros Fu. unfold receive_messages. rewrite map_length. fold nb.
    assert (Fc : forall p, In p (concat pss) -> full spR spZ p).
    { intros p Hp. apply in_concat in Hp. destruct Hp as [ps [A B]]. eapply Fu; eauto. }
    match goal with |- foldM ?f ?b0 _ = _ => set (F := f); set (b0' := b0) end.
    assert (L0 : length b0' = length (concat pss) * nb) by (unfold b0'; rewrite map_length, seq_length; auto).
    assert (G : forall m, m <= length pss -> foldM F b0' (seq 0 m) =
        Some (wire E (concat (firstn m pss)) ++ skipn (offs pss m) b0')).
    { induction m as [|m IH]; intros Hm; [reflexivity|].
      rewrite seq_S, Base.foldM_app, IH by lia. cbn [obind foldM]. unfold F, rd. rewrite Nat.add_0_l.
      rewrite nth_error_map_seq. destruct (Nat.ltb_spec m (length pss)); [|lia]. cbn [obind]. rewrite Nat.add_0_l.
      destruct (nth_error_lt_some pss m Hm) as [ps Em]. rewrite nth_error_map, Em. cbn [option_map obind].
      assert (Sp : pss = firstn (S m) pss ++ skipn (S m) pss) by (rewrite firstn_skipn; auto).
      pose proof (firstn_snoc pss m ps Em) as Sf.
      assert (Lc : length (concat pss) = length (concat (firstn (S m) pss)) + length (concat (skipn (S m) pss))).
      { rewrite Sp at 1. rewrite concat_app, app_length. auto. }
      assert (Lf : length (concat (firstn (S m) pss)) = length (concat (firstn m pss)) + length ps).
      { rewrite Sf, concat_app, app_length. cbn [concat]. rewrite app_nil_r. auto. }
      assert (Lw1 : length (wire E (concat (firstn m pss))) = offs pss m).
      { unfold offs. apply wire_len; auto. intros p Hp. apply in_concat in Hp. destruct Hp as [q [A B]].
        apply (Fu q p); auto. rewrite <- (firstn_skipn m pss). apply in_or_app. auto. }
      assert (Lw2 : length (wire E ps) = length ps * nb).
      { apply wire_len; auto. intros p Hp. apply (Fu ps p); auto. eapply nth_error_In; eauto. }
      assert (Lo : offs pss (S m) = offs pss m + length ps * nb) by (unfold offs; rewrite Lf; lia).
      assert (Lo2 : offs pss (S m) <= length b0') by (unfold offs; rewrite L0; nia).
      unfold store_bytes. rewrite app_length, skipn_length, Lw1, Lw2.
      destruct (Nat.leb_spec (offs pss m + length ps * nb) (offs pss m + (length b0' - offs pss m))); [|lia].
      cbn [obind]. f_equal. rewrite <- Lw1 at 1. rewrite firstn_app, firstn_all, Nat.sub_diag. cbn [firstn].
      rewrite app_nil_r, skipn_app. rewrite (skipn_all2 (wire E (concat (firstn m pss)))) by lia. cbn [app].
      rewrite Lw1, skipn_add. replace (offs pss m + length ps * nb - offs pss m + offs pss m) with (offs pss (S m)) by lia.
      change (match pss with [] => [] | a :: l => a :: firstn m l end) with (firstn (S m) pss).
      rewrite Sf, concat_app, wire_app. cbn [concat]. rewrite app_nil_r, app_assoc. auto. }
    rewrite G by auto. rewrite firstn_all. f_equal. rewrite skipn_all2; [apply app_nil_r|].
    unfold offs. rewrite firstn_all. lia.
  Qed.
End Unpack.
