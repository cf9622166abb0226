(** Proofs about packing: the messages carry the particles. *)
From Coq Require Import List Arith Lia ZArith Permutation Bool.
Import ListNotations.
From Verif Require Import Base Kernel Group_Model Group_Spec Group_Proofs Compress_Proofs
  Add_Model Add_Spec Append_Proofs Add_Proofs AddGroup_Proofs Pack_Model Pack_Spec.

(** ** Lists of fixed size blocks *)
Lemma flat_map_const_len {A B} (g : A -> list B) n l : (forall a, In a l -> length (g a) = n) ->
  length (flat_map g l) = length l * n.
Proof.
  induction l as [|a l IH]; intros H; cbn [flat_map length]; auto.
  rewrite app_length, H, IH by (intros; try apply H; cbn; auto). lia.
Qed.

Lemma flat_map_const_nth {A B} (g : A -> list B) n l : (forall a, In a l -> length (g a) = n) ->
  forall i a k, nth_error l i = Some a -> k < n -> nth_error (flat_map g l) (i * n + k) = nth_error (g a) k.
Proof.
  induction l as [|x l IH]; intros H [|i] a k E Hk; try discriminate; cbn [nth_error flat_map] in *.
  - injection E as ->. rewrite nth_error_app1; auto. rewrite H by (left; auto). lia.
  - rewrite nth_error_app2; rewrite H by (left; auto); [|lia].
    replace (S i * n + k - n) with (i * n + k) by lia. apply IH; auto. intros; apply H; right; auto.
Qed.

(** ** Loads and stores *)
Lemma slice_nth {A} (m : list A) a n bs : slice m a (a + n) = Some bs ->
  length bs = n /\ forall k, k < n -> nth_error bs k = nth_error m (a + k).
Proof.
  unfold slice. replace (a + n - a) with n by lia. intros H. split.
  - rewrite (mapM_length _ _ _ H), seq_length. auto.
  - intros k Hk. symmetry. apply (mapM_nth _ _ _ k (a + k) H). rewrite nth_error_seq.
    destruct (Nat.ltb_spec k n); [auto|lia].
Qed.

Lemma slice_eq {A} (m bs : list A) a : a + length bs <= length m ->
  (forall k, k < length bs -> nth_error m (a + k) = nth_error bs k) ->
  slice m a (a + length bs) = Some bs.
Proof.
  intros L H. rewrite slice_some by lia. f_equal. apply nth_error_ext. intros k.
  rewrite nth_error_firstn, nth_error_skipn. replace (a + length bs - a) with (length bs) by lia.
  destruct (Nat.ltb_spec k (length bs)); [auto|]. symmetry. apply nth_error_None. auto.
Qed.

Lemma store_bytes_some {B} (m : list B) a bs : a + length bs <= length m -> exists m',
  store_bytes m a bs = Some m' /\ length m' = length m /\
  forall k, nth_error m' k = if (a <=? k) && (k <? a + length bs) then nth_error bs (k - a) else nth_error m k.
Proof.
  intros H. unfold store_bytes. destruct (Nat.leb_spec (a + length bs) (length m)); [|lia].
  eexists; split; [reflexivity|]. split.
  - rewrite !app_length, firstn_length, skipn_length. lia.
  - intros k. destruct (Nat.leb_spec a k), (Nat.ltb_spec k (a + length bs)); cbn [andb].
    + rewrite nth_error_app2; rewrite firstn_length; [|lia]. rewrite nth_error_app1 by lia. f_equal; lia.
    + rewrite nth_error_app2; rewrite firstn_length; [|lia]. rewrite nth_error_app2 by lia.
      rewrite nth_error_skipn. f_equal; lia.
    + rewrite nth_error_app1 by (rewrite firstn_length; lia). rewrite nth_error_firstn.
      destruct (Nat.ltb_spec k a); [auto|lia].
    + lia.
Qed.

(** ** The component tables *)
Lemma tables_len (sp : pspec) (g : nat -> nat -> list nat) i : (forall i n, length (g i n) = n) ->
  i <= length sp ->
  list_sum (firstn i (map (fun a => length (g a (nth a (map snd sp) 0))) (seq 0 (length sp)))) = comp_offset sp i.
Proof.
  intros Hg Hi. unfold comp_offset. f_equal. f_equal. apply nth_error_ext. intros j.
  rewrite nth_error_map_seq, nth_error_map, Nat.add_0_l. destruct (Nat.ltb_spec j (length sp)) as [L|L].
  - rewrite Hg. destruct (nth_error_lt_some sp j L) as [e Ee]. rewrite Ee. cbn. f_equal.
    apply nth_error_nth. rewrite nth_error_map, Ee. auto.
  - apply nth_error_None in L. rewrite L. auto.
Qed.

Lemma tables (sp : pspec) fx : fx < ncomp_total sp -> exists dat comp,
  nth_error (flattened_dat_index sp) fx = Some dat /\ nth_error (flattened_comp_index sp) fx = Some comp /\
  nth_error (ncomp_exscan sp) dat = Some (comp_offset sp dat) /\ comp_offset sp dat + comp = fx.
Proof.
  intros H. unfold ncomp_total in H. destruct (find_comp sp fx H) as [i [nm [nc [cx [Ei [Hc ->]]]]]].
  pose proof (nth_error_some_lt _ _ _ Ei) as Hi.
  assert (Hn : nth i (map snd sp) 0 = nc) by (apply nth_error_nth; rewrite nth_error_map, Ei; auto).
  assert (Es : nth_error (seq 0 (length sp)) i = Some i).
  { rewrite nth_error_seq. destruct (Nat.ltb_spec i (length sp)); [auto|lia]. }
  exists i, cx. split; [|split; [|split; auto]].
  - unfold flattened_dat_index. rewrite <- (tables_len sp (fun i n => repeat i n) i) by (auto using repeat_length; lia).
    rewrite (nth_error_flat_map (fun i => repeat i (nth i (map snd sp) 0)) _ i i cx Es) by (rewrite repeat_length; lia).
    apply nth_error_repeat'. lia.
  - unfold flattened_comp_index. rewrite <- (tables_len sp (fun i n => seq 0 n) i) by (try (intros; apply seq_length); lia).
    rewrite (nth_error_flat_map (fun i => seq 0 (nth i (map snd sp) 0)) _ i i cx Es) by (rewrite seq_length; lia).
    rewrite nth_error_seq. destruct (Nat.ltb_spec cx (nth i (map snd sp) 0)); [auto|lia].
  - unfold ncomp_exscan. rewrite nth_error_map_seq. destruct (Nat.ltb_spec i (length sp)); [auto|lia].
Qed.

Lemma list_sum_mul (sp : pspec) n : list_sum (map (fun e => snd e * n) sp) = ncomp_total sp * n.
Proof.
  unfold ncomp_total. induction sp as [|e sp IH]; cbn [map]; auto.
  change (list_sum (?a :: ?l)) with (a + list_sum l). rewrite IH. lia.
Qed.

Section Wire.
  Context {R byte : Type} (E : encoding R byte) (EOk : encoding_ok E) (spR spZ : pspec).
  Let nR := ncomp_total spR.
  Let nZ := ncomp_total spZ.
  Let nb := bytes_per_particle E spR spZ.

  Lemma real_bytes_eq : real_bytes E spR = nR * size_real E.
  Proof. apply list_sum_mul. Qed.
  Lemma nb_eq : nb = nR * size_real E + nZ * size_int E.
  Proof. unfold nb, bytes_per_particle. rewrite real_bytes_eq, list_sum_mul. auto. Qed.

  Definition wire1 (p : particle R) : list byte := flat_map (enc_real E) (fst p) ++ flat_map (enc_int E) (snd p).
  Definition full (p : particle R) : Prop := length (fst p) = nR /\ length (snd p) = nZ.

  Lemma wire1_len p : full p -> length (wire1 p) = nb.
  Proof.
    intros [A B]. destruct EOk as [E1 [_ [E2 _]]]. unfold wire1.
    rewrite app_length, (flat_map_const_len _ (size_real E)), (flat_map_const_len _ (size_int E)) by auto.
    rewrite nb_eq. lia.
  Qed.

  Lemma wire_len ps : (forall p, In p ps -> full p) -> length (wire E ps) = length ps * nb.
  Proof. intros H. apply (flat_map_const_len wire1). intros; apply wire1_len; auto. Qed.

  Lemma wire_nth ps k p b : (forall p, In p ps -> full p) -> nth_error ps k = Some p -> b < nb ->
    nth_error (wire E ps) (k * nb + b) = nth_error (wire1 p) b.
  Proof. intros H Ek Hb. apply (flat_map_const_nth wire1); auto. intros; apply wire1_len; auto. Qed.

  Lemma wire1_real p f v b : full p -> nth_error (fst p) f = Some v -> b < size_real E ->
    nth_error (wire1 p) (f * size_real E + b) = nth_error (enc_real E v) b.
  Proof.
    intros [A B] Ef Hb. destruct EOk as [E1 _]. unfold wire1. pose proof (nth_error_some_lt _ _ _ Ef).
    rewrite nth_error_app1.
    - apply flat_map_const_nth; auto.
    - rewrite (flat_map_const_len _ (size_real E)) by auto. nia.
  Qed.

  Lemma wire1_int p f v b : full p -> nth_error (snd p) f = Some v -> b < size_int E ->
    nth_error (wire1 p) (real_bytes E spR + f * size_int E + b) = nth_error (enc_int E v) b.
  Proof.
    intros [A B] Ef Hb. destruct EOk as [E1 [_ [E2 _]]]. unfold wire1. pose proof (nth_error_some_lt _ _ _ Ef).
    assert (L : length (flat_map (enc_real E) (fst p)) = real_bytes E spR).
    { rewrite (flat_map_const_len _ (size_real E)) by auto. rewrite real_bytes_eq. lia. }
    rewrite nth_error_app2; rewrite L; [|lia].
    replace (real_bytes E spR + f * size_int E + b - real_bytes E spR) with (f * size_int E + b) by lia.
    apply flat_map_const_nth; auto.
  Qed.

  (** Every byte of a particle belongs to exactly one component. *)
  Lemma byte_component b : b < nb ->
    (exists f c, f < nR /\ c < size_real E /\ b = f * size_real E + c) \/
    (exists f c, f < nZ /\ c < size_int E /\ b = real_bytes E spR + f * size_int E + c).
  Proof.
    intros H. rewrite nb_eq in H. rewrite real_bytes_eq.
    destruct (lt_dec b (nR * size_real E)) as [L|L].
    - left. destruct (Nat.eq_dec (size_real E) 0) as [Z|Z]; [rewrite Z in *; lia|].
      exists (b / size_real E), (b mod size_real E). split; [apply Nat.div_lt_upper_bound; lia|].
      split; [apply Nat.mod_upper_bound; auto|]. rewrite (Nat.div_mod b (size_real E)) at 1 by auto. lia.
    - right. set (b' := b - nR * size_real E). destruct (Nat.eq_dec (size_int E) 0) as [Z|Z]; [rewrite Z in *; lia|].
      exists (b' / size_int E), (b' mod size_int E). split; [apply Nat.div_lt_upper_bound; lia|].
      split; [apply Nat.mod_upper_bound; auto|]. pose proof (Nat.div_mod b' (size_int E) Z). lia.
  Qed.
End Wire.

(** ** Packing *)
Section Pack.
  Context (d : device) (Hd : device_ok d).
  Context {R byte : Type} (E : encoding R byte) (EOk : encoding_ok E) (spR spZ : pspec).
  Context (g : group R) (WF : wf_group g) (SR : spec_of spR (reals (st g))) (SZ : spec_of spZ (ints (st g))).
  Context (ranks : list (list Z)).
  Let np := npart_cell g.
  Let nb := bytes_per_particle E spR spZ.

  (** The values of the particle at a place. *)
  Definition pv (w : nat * nat) : particle R :=
    (vals_at (reals (st g)) (fst w) (snd w), vals_at (ints (st g)) (fst w) (snd w)).

  Lemma pv_full w : In w (all_particles np) -> full spR spZ (pv w).
  Proof.
    intros H. destruct w as [c l]. destruct WF as [W1 W2]. unfold full, pv, ncomp_total. cbn [fst snd].
    rewrite (vals_at_len np), (vals_at_len np) by auto. auto.
  Qed.

  Context (nr num : nat) (npart rank_map cells lsrc ldst : list nat).
  Context (P : nat -> list (nat * nat)).
  Context (HP : forall j w, In w (P j) -> In w (all_particles np)).
  Context (Hn : forall j, j < nr -> nth_error npart j = Some (length (P j))).
  (* every entry has a destination column and a place there *)
  Context (Hent : forall i, i < num -> exists c l k z o j,
     nth_error cells i = Some c /\ nth_error lsrc i = Some l /\ nth_error ldst i = Some k /\
     rd2 ranks c l = Some z /\ z = Z.of_nat o /\ nth_error rank_map o = Some j /\ j < nr /\
     nth_error (P j) k = Some (c, l)).
  (* every place in a column has an entry *)
  Context (Hcov : forall j k c l, j < nr -> nth_error (P j) k = Some (c, l) -> exists i o,
     i < num /\ nth_error cells i = Some c /\ nth_error lsrc i = Some l /\ nth_error ldst i = Some k /\
     rd2 ranks c l = Some (Z.of_nat o) /\ nth_error rank_map o = Some j).

  Definition target (j : nat) : list byte := wire E (map pv (P j)).

  Lemma target_len j : length (target j) = length (P j) * nb.
  Proof.
    unfold target. rewrite (wire_len E EOk spR spZ), map_length; auto.
    intros p Hp. apply in_map_iff in Hp. destruct Hp as [w [<- Hw]]. apply pv_full. eapply HP; eauto.
  Qed.

  (** Writing a piece of the target. *)
  Definition wr (w : nat * nat + nat * nat) (loc : nat * nat) : option byte :=
    let '(i, fx) := match w with inl i => i | inr i => i end in
    match nth_error cells i, nth_error lsrc i, nth_error ldst i with
    | Some c, Some l, Some k =>
        match rd2 ranks c l with
        | Some z =>
            match nth_error rank_map (Z.to_nat z) with
            | Some j =>
                let a := match w with inl _ => k * nb + fx * size_real E
                                    | inr _ => k * nb + real_bytes E spR + fx * size_int E end in
                let n := match w with inl _ => size_real E | inr _ => size_int E end in
                if (fst loc =? j) && ((a <=? snd loc) && (snd loc <? a + n)) then nth_error (target j) (snd loc)
                else None
            | None => None end
        | None => None end
    | _, _, _ => None
    end.

  Definition inv (buf : list (list byte)) : Prop :=
    nr <= length buf /\ forall j, j < nr -> exists col, nth_error buf j = Some col /\ length col = length (P j) * nb.

  Lemma wr_target w j a v : wr w (j, a) = Some v -> nth_error (target j) a = Some v.
  Proof.
    unfold wr. destruct (match w with inl i => i | inr i => i end) as [i fx].
    destruct (nth_error cells i) as [c|]; [|discriminate]. destruct (nth_error lsrc i) as [l|]; [|discriminate].
    destruct (nth_error ldst i) as [k|]; [|discriminate]. destruct (rd2 ranks c l) as [z|]; [|discriminate].
    destruct (nth_error rank_map (Z.to_nat z)) as [j'|]; [|discriminate]. cbn [fst snd].
    destruct (Nat.eqb_spec j j') as [->|]; [|discriminate]. cbn [andb].
    destruct (_ && _); [auto|discriminate].
  Qed.

  Lemma pack_items_correct buf0 sched : inv buf0 ->
    (forall w, In w sched <->
       match w with
       | inl (i, fx) => i < num /\ fx < ncomp_total spR
       | inr (i, fx) => i < num /\ fx < ncomp_total spZ
       end) ->
    exists buf, foldM (pack_item E spR spZ rank_map cells lsrc ldst ranks (st g)) buf0 sched = Some buf /\
      length buf = length buf0 /\ forall j, j < nr -> nth_error buf j = Some (target j).
  Proof.
    intros I0 Hs.
    destruct (foldM_kernel (pack_item E spR spZ rank_map cells lsrc ldst ranks (st g))
                (fun b (loc : nat * nat) => rd2 b (fst loc) (snd loc))
                (fun b => inv b /\ length b = length buf0) wr sched buf0) as [buf [Ef [[I1 L1] [W N]]]].
    - auto.
    - intros b w [Ib Lb] Hw. apply Hs in Hw.
      (* the work item's own data *)
      assert (Hw' : exists i fx, (match w with inl i => i | inr i => i end) = (i, fx) /\ i < num /\
                 fx < ncomp_total (match w with inl _ => spR | inr _ => spZ end)).
      { destruct w as [[i fx]|[i fx]]; exists i, fx; auto. }
      destruct Hw' as [i [fx [Ew [Hi Hf]]]].
      destruct (tables _ _ Hf) as [dat [comp [T1 [T2 [T3 T4]]]]].
      destruct (Hent i Hi) as [c [l [k [z [o [j [A1 [A2 [A3 [A4 [A5 [A6 [A7 A8]]]]]]]]]]]]].
      destruct (proj2 Ib j A7) as [col [Ec Lc]].
      assert (Hin : In (c, l) (all_particles np)) by (eapply HP, nth_error_In; eauto).
      assert (Hk : k < length (P j)) by (eapply nth_error_some_lt; eauto).
      assert (Ez : index_of z = Some o).
      { unfold index_of. subst z. destruct (Z.leb_spec 0 (Z.of_nat o)); [|lia]. rewrite Nat2Z.id. auto. }
      assert (Ep : nth_error (map pv (P j)) k = Some (pv (c, l))) by (rewrite nth_error_map, A8; auto).
      assert (Fu : forall p, In p (map pv (P j)) -> full spR spZ p).
      { intros p Hp. apply in_map_iff in Hp. destruct Hp as [w' [<- Hw']]. apply pv_full. eapply HP; eauto. }
      assert (Ff : full spR spZ (pv (c, l))) by (apply pv_full; auto).
      pose proof (nb_eq E spR spZ) as Hnb. fold nb in Hnb. pose proof (real_bytes_eq E spR) as Hrb.
      destruct WF as [W1 W2].
      (* the stored bytes are the bytes of the target *)
      assert (Q : exists col', match w with
            | inl _ => v <- rd3 (reals (st g)) (comp_offset spR dat + comp) c l ;;
                       store_bytes col (k * nb + fx * size_real E) (enc_real E v)
            | inr _ => v <- rd3 (ints (st g)) (comp_offset spZ dat + comp) c l ;;
                       store_bytes col (k * nb + real_bytes E spR + fx * size_int E) (enc_int E v)
            end = Some col' /\ length col' = length col /\
            forall a, nth_error col' a = match wr w (j, a) with Some v => Some v | None => nth_error col a end).
      { assert (Ewr : forall a, wr w (j, a) =
              let s := match w with inl _ => k * nb + fx * size_real E
                                  | inr _ => k * nb + real_bytes E spR + fx * size_int E end in
              let n := match w with inl _ => size_real E | inr _ => size_int E end in
              if (s <=? a) && (a <? s + n) then nth_error (target j) a else None).
        { intros a. unfold wr. rewrite Ew, A1, A2, A3, A4. subst z. rewrite Nat2Z.id, A6. cbn [fst snd].
          rewrite Nat.eqb_refl. auto. }
        destruct w as [w|w]; subst w; cbn zeta in Ewr; rewrite T4.
        - destruct EOk as [E1 [_ [_ _]]].
          assert (Ev : rd3 (reals (st g)) fx c l = nth_error (fst (pv (c, l))) fx).
          { apply (vals_at_rd3 np); auto. rewrite <- SR. auto. }
          destruct (nth_error (fst (pv (c, l))) fx) as [v|] eqn:Ev2.
          2:{ apply nth_error_None in Ev2. destruct Ff as [F1 _]. lia. }
          rewrite Ev. cbn [obind].
          destruct (store_bytes_some col (k * nb + fx * size_real E) (enc_real E v)) as [col' [Es [Ls Hb]]].
          { rewrite E1, Lc. nia. }
          exists col'. split; [auto|]. split; [auto|]. intros a. rewrite Hb, Ewr, E1.
          destruct (Nat.leb_spec (k * nb + fx * size_real E) a), (Nat.ltb_spec a (k * nb + fx * size_real E + size_real E));
            cbn [andb]; auto.
          set (bb := a - (k * nb + fx * size_real E)). assert (bb < size_real E) by (unfold bb; lia).
          replace a with (k * nb + (fx * size_real E + bb)) by (unfold bb; lia).
          unfold target. unfold nb. rewrite (wire_nth E EOk spR spZ (map pv (P j)) k (pv (c, l))); auto; [|fold nb; nia].
          rewrite (wire1_real E EOk spR spZ _ fx v) by auto.
          destruct (nth_error (enc_real E v) bb) eqn:Eb; auto. exfalso.
          apply nth_error_None in Eb. rewrite E1 in Eb. lia.
        - destruct EOk as [_ [_ [E1 _]]].
          assert (Ev : rd3 (ints (st g)) fx c l = nth_error (snd (pv (c, l))) fx).
          { apply (vals_at_rd3 np); auto. rewrite <- SZ. auto. }
          destruct (nth_error (snd (pv (c, l))) fx) as [v|] eqn:Ev2.
          2:{ apply nth_error_None in Ev2. destruct Ff as [_ F1]. lia. }
          rewrite Ev. cbn [obind].
          destruct (store_bytes_some col (k * nb + real_bytes E spR + fx * size_int E) (enc_int E v)) as [col' [Es [Ls Hb]]].
          { rewrite E1, Lc. nia. }
          exists col'. split; [auto|]. split; [auto|]. intros a. rewrite Hb, Ewr, E1.
          destruct (Nat.leb_spec (k * nb + real_bytes E spR + fx * size_int E) a),
            (Nat.ltb_spec a (k * nb + real_bytes E spR + fx * size_int E + size_int E)); cbn [andb]; auto.
          set (bb := a - (k * nb + real_bytes E spR + fx * size_int E)). assert (bb < size_int E) by (unfold bb; lia).
          replace a with (k * nb + (real_bytes E spR + fx * size_int E + bb)) by (unfold bb; lia).
          unfold target. unfold nb. rewrite (wire_nth E EOk spR spZ (map pv (P j)) k (pv (c, l))); auto; [|fold nb; nia].
          rewrite (wire1_int E EOk spR spZ _ fx v) by auto.
          destruct (nth_error (enc_int E v) bb) eqn:Eb; auto. exfalso.
          apply nth_error_None in Eb. rewrite E1 in Eb. lia. }
      destruct Q as [col' [Eq [Lq Hq]]].
      destruct (upd_some b j col') as [b' Eb]; [eapply nth_error_some_lt; eauto|].
      exists b'. split.
      { unfold pack_item. rewrite Ew. unfold rd. rewrite T1. cbn [obind]. rewrite T2. cbn [obind]. rewrite T3. cbn [obind].
        rewrite A1. cbn [obind]. rewrite A2. cbn [obind]. rewrite A3. cbn [obind]. rewrite A4. cbn [obind].
        rewrite Ez. cbn [obind]. rewrite A6. cbn [obind]. rewrite Ec. cbn [obind]. fold nb.
        destruct w as [w|w]; rewrite T4 in *; cbv beta iota in *; rewrite Eq; cbn [obind]; auto. }
      split.
      + split; [|rewrite (upd_length _ _ _ _ Eb); auto]. destruct Ib as [Ib1 Ib2]. split; [rewrite (upd_length _ _ _ _ Eb); auto|].
        intros j' Hj'. rewrite (upd_nth _ _ _ _ _ Eb). destruct (Nat.eqb_spec j' j) as [->|]; [|auto].
        exists col'. split; auto. lia.
      + intros [j' a]. cbn [fst snd]. unfold rd2, rd. rewrite (upd_nth _ _ _ _ _ Eb).
        destruct (Nat.eqb_spec j' j) as [->|Nj].
        * cbn [obind]. rewrite Ec. cbn [obind]. apply Hq.
        * assert (Ew0 : wr w (j', a) = None); [|rewrite Ew0; auto].
          unfold wr. rewrite Ew, A1, A2, A3, A4. subst z. rewrite Nat2Z.id, A6. cbn [fst snd].
          destruct (Nat.eqb_spec j' j); [congruence|]. auto.
    - intros w1 w2 [j a] v1 v2 _ _ H1 H2. apply wr_target in H1, H2. congruence.
    - exists buf. split; [auto|]. split; [auto|]. intros j Hj. destruct (proj2 I1 j Hj) as [col [Ec Lc]].
      rewrite Ec. f_equal. apply nth_error_ext. intros a.
      destruct (lt_dec a (length col)) as [La|La].
      2:{ rewrite (proj2 (nth_error_None col a)) by lia. symmetry. apply nth_error_None. rewrite target_len. lia. }
      assert (Hnb : 0 < nb) by nia.
      set (k := a / nb). set (b := a mod nb).
      assert (Hb : b < nb) by (apply Nat.mod_upper_bound; lia).
      assert (Ea : a = k * nb + b) by (unfold k, b; rewrite (Nat.div_mod a nb) at 1 by lia; lia).
      assert (Hk : k < length (P j)) by nia.
      destruct (nth_error_lt_some (P j) k Hk) as [[c l] Ek].
      destruct (Hcov j k c l Hj Ek) as [i [o [B1 [B2 [B3 [B4 [B5 B6]]]]]]].
      assert (G : exists w, In w sched /\ wr w (j, a) = nth_error (target j) a).
      { destruct (byte_component E spR spZ b Hb) as [[f [x [F1 [F2 F3]]]]|[f [x [F1 [F2 F3]]]]].
        - exists (inl (i, f)). split; [apply Hs; auto|].
          unfold wr. rewrite B2, B3, B4, B5, Nat2Z.id, B6. cbn [fst snd]. rewrite Nat.eqb_refl.
          destruct (Nat.leb_spec (k * nb + f * size_real E) a), (Nat.ltb_spec a (k * nb + f * size_real E + size_real E)); auto; lia.
        - exists (inr (i, f)). split; [apply Hs; auto|].
          unfold wr. rewrite B2, B3, B4, B5, Nat2Z.id, B6. cbn [fst snd]. rewrite Nat.eqb_refl.
          destruct (Nat.leb_spec (k * nb + real_bytes E spR + f * size_int E) a),
            (Nat.ltb_spec a (k * nb + real_bytes E spR + f * size_int E + size_int E)); auto; lia. }
      destruct G as [w [Hw Ewr]].
      assert (Lt : a < length (target j)) by (rewrite target_len; lia).
      destruct (nth_error_lt_some _ _ Lt) as [v Ev]. rewrite Ev in *.
      pose proof (W w (j, a) v Hw Ewr) as Q. cbn [fst snd] in Q. unfold rd2, rd in Q. rewrite Ec in Q. auto.
  Qed.

  (** The columns have the right size before packing. *)
  Lemma pack_resize_correct u buf0 m : nr <= length buf0 -> m <= nr ->
    exists b, foldM (pack_resize_item E spR spZ u npart) buf0 (seq 0 m) = Some b /\ length b = length buf0 /\
      forall j, j < m -> exists col, nth_error b j = Some col /\ length col = length (P j) * nb.
  Proof.
    intros L. induction m as [|m IH]; intros Hm.
    - exists buf0. split; [reflexivity|]. split; auto. intros; lia.
    - destruct IH as [b [Eb [Lb Hb]]]; [lia|]. rewrite seq_S, Base.foldM_app, Eb. cbn [obind foldM].
      unfold pack_resize_item, rd. rewrite Nat.add_0_l, Hn by lia. cbn [obind].
      destruct (nth_error_lt_some b m) as [col Ec]; [lia|]. rewrite Ec. cbn [obind]. fold nb.
      destruct (upd_some b m (resize (u m) (length (P m) * nb) col)) as [b' Eb']; [lia|]. rewrite Eb'. cbn [obind].
      exists b'. split; auto. split; [rewrite (upd_length _ _ _ _ Eb'); auto|].
      intros j Hj. rewrite (upd_nth _ _ _ _ _ Eb'). destruct (Nat.eqb_spec j m) as [->|].
      + eexists; split; [reflexivity|]. apply resize_length.
      + apply Hb. lia.
  Qed.

  Lemma pack_correct u buf0 : nr <= length buf0 ->
    exists buf, pack d E spR spZ u nr npart rank_map num cells lsrc ldst ranks (st g) buf0 = Some buf /\
      length buf = length buf0 /\ forall j, j < nr -> nth_error buf j = Some (target j).
  Proof.
    intros L. unfold pack. destruct (pack_resize_correct u buf0 nr L (le_n _)) as [b [Eb [Lb Hb]]].
    rewrite Eb. cbn [obind]. destruct (Nat.leb_spec num 0) as [N0|N0].
    - exists b. split; auto. split; auto. intros j Hj. destruct (Hb j Hj) as [col [Ec Lc]].
      rewrite Ec. f_equal.
      assert (EP : P j = []).
      { destruct (P j) as [|[c l] t] eqn:Ep; auto. destruct (Hcov j 0 c l Hj) as [i [o [Hi _]]]; [rewrite Ep; auto|lia]. }
      unfold target. rewrite EP in Lc |- *. cbn. apply length_zero_iff_nil. exact Lc.
    - destruct (pack_items_correct b (ord d 210 (map inl (list_prod (seq 0 num) (seq 0 (ncomp_total spR)))
                  ++ map inr (list_prod (seq 0 num) (seq 0 (ncomp_total spZ)))))) as [buf [Ef [Lf Hf]]].
      + split; [lia|auto].
      + intros w. rewrite (in_ord d _ _ w Hd), in_app_iff, !in_map_iff. split.
        * intros [[[i f] [<- H]]|[[i f] [<- H]]]; apply in_prod_iff in H; rewrite !in_seq in H; split; lia.
        * destruct w as [[i f]|[i f]]; intros H; [left|right]; exists (i, f); (split; [auto|]); apply in_prod_iff;
            rewrite !in_seq; lia.
      + exists buf. split; auto. split; [lia|auto].
  Qed.

  (** ** The messages *)
  Lemma messages_correct aware h size buf :
    size <= length buf -> (forall j, j < nr -> nth_error buf j = Some (target j)) ->
    packed_messages E spR spZ aware h nr size npart buf = Some (map target (seq 0 nr)).
  Proof.
    intros Ls Hb. unfold packed_messages. destruct (Nat.leb_spec size (length buf)); [|lia]. cbn [assert obind]. fold nb.
    destruct aware.
    - apply mapM_some. intros j Hj. apply in_seq in Hj. unfold rd. rewrite Hn, Hb by lia. cbn [obind].
      rewrite slice_some; [|lia|rewrite target_len; lia]. rewrite Nat.sub_0_r. cbn [skipn]. f_equal.
      apply firstn_all2. rewrite target_len. lia.
    - rewrite (mapM_some _ (fun j => length (P j)) (seq 0 nr)).
      2:{ intros j Hj. apply in_seq in Hj. apply Hn. lia. }
      cbn [obind]. rewrite map_map.
      set (offs := fun m => list_sum (map (fun j => length (P j) * nb) (seq 0 m))).
      set (host0 := map h (seq 0 (list_sum (map (fun j => length (P j) * nb) (seq 0 nr))))).
      assert (Lh : length host0 = offs nr) by (unfold host0; rewrite map_length, seq_length; auto).
      assert (HS : forall m, offs (S m) = offs m + length (P m) * nb).
      { intros m. unfold offs. rewrite seq_S, map_app. cbn [map].
        clear. induction (map (fun j => length (P j) * nb) (seq 0 m)) as [|x l IH]; cbn [app];
          change (list_sum (?a :: ?l)) with (a + list_sum l); [cbn; lia|rewrite IH; lia]. }
      assert (Mono : forall a b, a <= b -> offs a <= offs b).
      { intros a b Hab. induction Hab; [auto|rewrite HS; lia]. }
      match goal with |- (r <- foldM ?f _ _ ;; _) = _ => set (F := f) end.
      assert (G : forall m, m <= nr -> exists host, foldM F (host0, 0, []) (seq 0 m) = Some (host, offs m, map offs (seq 0 m)) /\
                length host = offs nr /\
                forall j a, j < m -> a < length (P j) * nb -> nth_error host (offs j + a) = nth_error (target j) a).
      { induction m as [|m IH]; intros Hm.
        - exists host0. split; [reflexivity|]. split; auto. intros; lia.
        - destruct IH as [host [Ef [Lf Hf]]]; [lia|]. rewrite seq_S, Base.foldM_app, Ef. cbn [obind foldM].
          unfold F at 1, rd. rewrite Nat.add_0_l, Hn by lia. cbn [obind].
          pose proof (Mono (S m) nr Hm) as Hle. rewrite HS in Hle.
          destruct (Nat.ltb_spec 0 (length (P m) * nb)) as [Pz|Pz].
          + rewrite Hb by lia. cbn [obind].
            rewrite slice_some; [|lia|rewrite target_len; lia]. rewrite Nat.sub_0_r. cbn [skipn].
            rewrite firstn_all2 by (rewrite target_len; lia). cbn [obind].
            destruct (store_bytes_some host (offs m) (target m)) as [host' [Es [Lh' Hs]]]; [rewrite target_len; lia|].
            rewrite Es. cbn [obind]. exists host'. split; [|split; [lia|]].
            * rewrite HS, map_app. auto.
            * intros j a Hj Ha. rewrite Hs, target_len. destruct (Nat.eq_dec j m) as [->|Nj].
              -- destruct (Nat.leb_spec (offs m) (offs m + a)); [|lia].
                 destruct (Nat.ltb_spec (offs m + a) (offs m + length (P m) * nb)); [|lia]. cbn [andb]. f_equal; lia.
              -- pose proof (Mono (S j) m ltac:(lia)) as Q. rewrite HS in Q.
                 destruct (Nat.leb_spec (offs m) (offs j + a)); [lia|]. cbn [andb]. apply Hf; lia.
          + exists host. split; [cbn [obind]; rewrite HS, map_app; auto|]. split; [lia|].
            intros j a Hj Ha. destruct (Nat.eq_dec j m) as [->|]; [lia|]. apply Hf; lia. }
      destruct (G nr (le_n _)) as [host [Ef [Lf Hf]]]. rewrite Ef. cbn [obind].
      apply mapM_some. intros j Hj. apply in_seq in Hj. unfold rd. rewrite Hn by lia. cbn [obind].
      rewrite nth_error_map_seq. destruct (Nat.ltb_spec j nr); [|lia]. cbn [obind]. rewrite Nat.add_0_l.
      rewrite <- target_len. apply slice_eq.
      + rewrite target_len, Lf, <- HS. apply Mono. lia.
      + intros a Ha. rewrite target_len in Ha. apply Hf; [lia|auto].
  Qed.
End Pack.
