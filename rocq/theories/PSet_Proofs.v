From Coq Require Import List Arith Lia ZArith Permutation Bool.
Import ListNotations.
From Verif Require Import Base Kernel Group_Model Add_Model Add_Proofs Transpose_Proofs PSet_Model PSet_Spec.

(** ** Maps *)
Lemma look_put {X} k (x : X) m k' : look (put k x m) k' = if k' =? k then Some x else look m k'.
Proof.
  induction m as [|[k0 y] m IH]; cbn.
  - unfold look; cbn. destruct (k' =? k); auto.
  - destruct (Nat.eqb_spec k k0) as [->|N].
    + unfold look; cbn. destruct (k' =? k0); auto.
    + unfold look in *; cbn. destruct (Nat.eqb_spec k' k0) as [->|N'].
      * destruct (Nat.eqb_spec k0 k); [congruence|]. auto.
      * auto.
Qed.

Lemma look_put_fst {X} k (x : X) m : In k (map fst m) -> map fst (put k x m) = map fst m.
Proof.
  induction m as [|[k0 y] m IH]; cbn; [tauto|]. intros [->|H].
  - rewrite Nat.eqb_refl. auto.
  - destruct (Nat.eqb_spec k k0) as [->|]; cbn; auto. f_equal; auto.
Qed.

Lemma look_in {X} (m : list (nat * X)) k : In k (map fst m) <-> look m k <> None.
Proof.
  unfold look. induction m as [|[k0 y] m IH]; cbn; [split; [tauto|congruence]|].
  destruct (Nat.eqb_spec k k0) as [->|N]; cbn; [split; [congruence|auto]|].
  rewrite <- IH. split; [intros [|]; [congruence|auto]|auto].
Qed.

(** ** memcpy *)
Lemma blit_correct {V} (dst src : list V) off : off + length src <= length dst ->
  exists dst', blit dst off src = Some dst' /\ length dst' = length dst /\
    (forall i, i < length src -> nth_error dst' (off + i) = nth_error src i) /\
    (forall j, j < off \/ off + length src <= j -> nth_error dst' j = nth_error dst j).
Proof.
  intros H. unfold blit. destruct src as [|x0 src0] eqn:Es.
  { exists dst. cbn. repeat split; auto. intros; lia. }
  rewrite <- Es in *. clear Es.
  destruct (foldM_upd (fun m i => v <- rd src i ;; upd m (off + i) v) (fun i => off + i) (fun i => nth i src x0)
    (seq 0 (length src)) dst) as (m' & E & L & W & N).
  - intros m' a _ Ha. apply in_seq in Ha. unfold rd. rewrite (nth_error_nth' src x0) by lia. reflexivity.
  - intros a Ha. apply in_seq in Ha. lia.
  - intros a b _ _ Eab. f_equal. lia.
  - exists m'. split; [exact E|]. split; [exact L|]. split.
    + intros i Hi. rewrite (W i) by (apply in_seq; lia). symmetry. apply nth_error_nth'; lia.
    + intros j Hj. apply N. intros a Ha. apply in_seq in Ha. lia.
Qed.

Lemma slice_some {A} (m : list A) a b : a <= b <= length m ->
  exists c, slice m a b = Some c /\ length c = b - a /\ forall i, i < b - a -> nth_error c i = nth_error m (a + i).
Proof.
  intros H. unfold slice. destruct (mapM_total (rd m) (seq a (b - a))) as [c E].
  { intros x Hx. apply in_seq in Hx. unfold rd. destruct (nth_error m x) eqn:F; eauto.
    apply nth_error_None in F. lia. }
  exists c. split; auto. assert (L : length c = b - a).
  { rewrite (mapM_length _ _ _ E), seq_length. auto. }
  split; auto. intros i Hi.
  assert (F : nth_error (seq a (b - a)) i = Some (a + i)) by (rewrite nth_error_seq; destruct (Nat.ltb_spec i (b - a)); [auto|lia]).
  pose proof (mapM_nth _ _ _ i _ E F) as G. unfold rd in G. auto.
Qed.

(** ** Layout *)
Lemma exclusive_scan_nth l : forall a i, i < length l -> nth_error (exclusive_scan a l) i = Some (a + list_sum (firstn i l)).
Proof.
  induction l as [|x l IH]; intros a [|i] H; cbn [length] in H; try lia; cbn [exclusive_scan nth_error firstn].
  - cbn. f_equal; lia.
  - rewrite IH by lia. change (list_sum (x :: firstn i l)) with (x + list_sum (firstn i l)). f_equal; lia.
Qed.

Lemma offsets_nth sp i : i < length sp -> rd (offsets sp) i = Some (comp_offset sp i).
Proof. intros H. unfold rd, offsets. rewrite exclusive_scan_nth by (rewrite map_length; auto). reflexivity. Qed.

Lemma valid_address sp n row prop comp : valid sp n row prop comp ->
  address sp n row prop comp = Some ((comp_offset sp prop + comp) * n + row) /\
  (comp_offset sp prop + comp) * n + row < n * list_sum (map snd sp).
Proof.
  intros (sym & nc & E & C & R). pose proof (nth_error_some_lt _ _ _ E) as L. split.
  - unfold address. rewrite offsets_nth by auto. reflexivity.
  - pose proof (comp_offset_le sp prop sym nc E).
    assert ((comp_offset sp prop + comp + 1) * n <= list_sum (map snd sp) * n) by (apply Nat.mul_le_mono_r; lia). lia.
Qed.

Lemma column_inj sp p c p' c' sym nc sym' nc' : nth_error sp p = Some (sym, nc) -> nth_error sp p' = Some (sym', nc') ->
  c < nc -> c' < nc' -> comp_offset sp p + c = comp_offset sp p' + c' -> p = p' /\ c = c'.
Proof.
  intros E E' H H' Q. pose proof (decode_offset sp _ _ _ _ E H) as D. pose proof (decode_offset sp _ _ _ _ E' H') as D'.
  rewrite Q in D. rewrite D in D'. injection D'; auto.
Qed.

Lemma address_inj sp n row prop comp row' prop' comp' : valid sp n row prop comp -> valid sp n row' prop' comp' ->
  (comp_offset sp prop + comp) * n + row = (comp_offset sp prop' + comp') * n + row' ->
  row = row' /\ prop = prop' /\ comp = comp'.
Proof.
  intros (s & nc & E & C & R) (s' & nc' & E' & C' & R') Q.
  destruct (mul_add_inj n _ _ _ _ Q R R') as [A ->].
  destruct (column_inj sp _ _ _ _ _ _ _ _ E E' C C' A) as [-> ->]. auto.
Qed.

(** ** ParticleSet *)
Lemma hs_create_look {V} (zero : V) n sp : forall s0, hset_ok n s0 ->
  let s := fold_left (fun s e => mk_hset (put (fst e) (repeat zero (n * snd e)) (hs_vals s))
                                (put (fst e) (snd e) (hs_ncomp s))) sp s0 in
  hset_ok n s /\
  (forall sym, ~ In sym (map fst sp) -> look (hs_vals s) sym = look (hs_vals s0) sym /\ look (hs_ncomp s) sym = look (hs_ncomp s0) sym) /\
  (NoDup (map fst sp) -> forall sym nc, In (sym, nc) sp -> look (hs_vals s) sym = Some (repeat zero (n * nc)) /\ look (hs_ncomp s) sym = Some nc).
Proof.
  induction sp as [|[k nc0] sp IH]; intros s0 H0; cbn [fold_left].
  { cbn. repeat split; auto; contradiction. }
  set (s1 := mk_hset _ _). assert (H1 : hset_ok n s1).
  { intros sym. unfold s1; cbn [hs_vals hs_ncomp fst snd]. rewrite !look_put. specialize (H0 sym).
    destruct (sym =? k); auto. apply repeat_length. }
  destruct (IH s1 H1) as (A & B & C). split; [exact A|]. split.
  - intros sym N. cbn in N. destruct (B sym) as [B1 B2]; [tauto|]. rewrite B1, B2. unfold s1; cbn [hs_vals hs_ncomp fst snd].
    rewrite !look_put. destruct (Nat.eqb_spec sym k); [exfalso; apply N; auto|auto].
  - intros ND sym nc I. cbn in ND. inversion ND as [|? ? N1 N2]; subst. destruct I as [[= -> ->]|I].
    + destruct (B sym N1) as [B1 B2]. rewrite B1, B2. unfold s1; cbn [hs_vals hs_ncomp fst snd]. rewrite !look_put, Nat.eqb_refl. auto.
    + apply C; auto.
Qed.

Lemma hset_ok_nil {V} n : @hset_ok V n (mk_hset [] []).
Proof. intros sym. cbn. auto. Qed.

Lemma hs_create_ok {V} (zero : V) n sp : hset_ok n (hs_create zero n sp).
Proof. apply (hs_create_look zero n sp _ (hset_ok_nil n)). Qed.

Lemma hs_create_in {V} (zero : V) n sp sym nc : NoDup (map fst sp) -> In (sym, nc) sp ->
  look (hs_vals (hs_create zero n sp)) sym = Some (repeat zero (n * nc)) /\ look (hs_ncomp (hs_create zero n sp)) sym = Some nc.
Proof. intros ND I. apply (hs_create_look zero n sp _ (hset_ok_nil n)); auto. Qed.

Lemma hs_create_notin {V} (zero : V) n sp sym : ~ In sym (map fst sp) ->
  look (hs_vals (hs_create zero n sp)) sym = None /\ look (hs_ncomp (hs_create zero n sp)) sym = None.
Proof. intros N. destruct (hs_create_look zero n sp _ (hset_ok_nil n)) as (_ & B & _). apply B in N. exact N. Qed.

Lemma has_data {V} n (s : hset V) sym comp : hset_ok n s -> has s sym comp ->
  exists v nc, look (hs_vals s) sym = Some v /\ look (hs_ncomp s) sym = Some nc /\ length v = n * nc /\ comp < nc.
Proof.
  intros H (nc & E & L). specialize (H sym). rewrite E in H. destruct (look (hs_vals s) sym) as [v|]; [|tauto].
  exists v, nc. auto.
Qed.

Lemma elt_bound n nc p c : p < n -> c < nc -> c * n + p < n * nc.
Proof. intros H1 H2. assert ((c + 1) * n <= nc * n) by (apply Nat.mul_le_mono_r; lia). lia. Qed.

Lemma hs_at_some {V} n (s : hset V) sym p c : hset_ok n s -> has s sym c -> p < n -> exists v, hs_at n s sym p c = Some v.
Proof.
  intros H1 H2 H3. destruct (has_data n s sym c H1 H2) as (v & nc & E & _ & L & C).
  unfold hs_at. rewrite E. cbn [obind]. apply nth_error_lt_some. rewrite L. apply elt_bound; auto.
Qed.

(** Replacing the values of one name. *)
Lemma put_ok {V} n (s : hset V) sym v v' : hset_ok n s -> look (hs_vals s) sym = Some v -> length v' = length v ->
  hset_ok n (mk_hset (put sym v' (hs_vals s)) (hs_ncomp s)).
Proof.
  intros H E L k. cbn. rewrite look_put. specialize (H k). destruct (Nat.eqb_spec k sym) as [->|]; auto.
  rewrite E in H. destruct (look (hs_ncomp s) sym); auto. congruence.
Qed.

Lemma hs_at_put {V} n (s : hset V) sym v' k p c :
  hs_at n (mk_hset (put sym v' (hs_vals s)) (hs_ncomp s)) k p c = if k =? sym then nth_error v' (c * n + p) else hs_at n s k p c.
Proof. unfold hs_at. cbn. rewrite look_put. destruct (k =? sym); auto. Qed.

Lemma hs_write_correct {V} n (s : hset V) sym p c x : hset_ok n s -> has s sym c -> p < n ->
  exists s', hs_write n s sym p c x = Some s' /\ hset_ok n s' /\ hs_ncomp s' = hs_ncomp s /\
    forall k p' c', p' < n -> hs_at n s' k p' c' = if (k =? sym) && (p' =? p) && (c' =? c) then Some x else hs_at n s k p' c'.
Proof.
  intros H1 H2 H3. destruct (has_data n s sym c H1 H2) as (v & nc & E & E2 & L & C).
  unfold hs_write. rewrite E; cbn [obind].
  destruct (upd_some v (c * n + p) x) as [v' U]; [rewrite L; apply elt_bound; auto|]. rewrite U; cbn [obind].
  eexists; split; [reflexivity|]. split; [eapply put_ok; eauto; eapply upd_length; eauto|]. split; [reflexivity|].
  intros k p' c' H'. rewrite hs_at_put. destruct (Nat.eqb_spec k sym) as [->|]; cbn [andb]; auto.
  rewrite (upd_nth _ _ _ _ (c' * n + p') U). unfold hs_at. rewrite E. cbn [obind]. unfold rd.
  destruct (Nat.eqb_spec (c' * n + p') (c * n + p)) as [Q|Q].
  - destruct (mul_add_inj n _ _ _ _ Q H' H3) as [-> ->]. rewrite !Nat.eqb_refl. auto.
  - destruct (Nat.eqb_spec p' p), (Nat.eqb_spec c' c); subst; cbn [andb]; auto. congruence.
Qed.

Lemma hs_column_correct {V} n (s : hset V) sym c values : hset_ok n s -> has s sym c -> length values = n ->
  exists s', hs_set_column n s sym (Z.of_nat c) values = Some s' /\ hset_ok n s' /\ hs_ncomp s' = hs_ncomp s /\
    forall k p' c', p' < n -> hs_at n s' k p' c' = if (k =? sym) && (c' =? c) then nth_error values p' else hs_at n s k p' c'.
Proof.
  intros H1 H2 H3. destruct (has_data n s sym c H1 H2) as (v & nc & E & E2 & L & C).
  unfold hs_set_column. rewrite E, E2; cbn [obind]. rewrite H3, Nat.eqb_refl; cbn [assert obind].
  assert (A : ((0 <=? Z.of_nat c) && (Z.of_nat c <? Z.of_nat nc))%Z = true).
  { apply andb_true_intro; split; [apply Z.leb_le|apply Z.ltb_lt]; lia. }
  rewrite A; cbn [assert obind]. rewrite Nat2Z.id.
  assert (B : (c + 1) * n <= nc * n) by (apply Nat.mul_le_mono_r; lia).
  destruct (blit_correct v values (c * n)) as (v' & U & L' & W & N); [lia|]. rewrite U; cbn [obind].
  eexists; split; [reflexivity|]. split; [eapply put_ok; eauto|]. split; [reflexivity|].
  intros k p' c' H'. rewrite hs_at_put. destruct (Nat.eqb_spec k sym) as [->|]; cbn [andb]; auto.
  destruct (Nat.eqb_spec c' c) as [->|D].
  - apply W; lia.
  - unfold hs_at. rewrite E; cbn [obind]. apply N. rewrite H3.
    destruct (Nat.lt_ge_cases c' c) as [Q|Q].
    + left. assert ((c' + 1) * n <= c * n) by (apply Nat.mul_le_mono_r; lia). lia.
    + right. assert ((c + 1) * n <= c' * n) by (apply Nat.mul_le_mono_r; lia). lia.
Qed.

(** Copying all values of one name. *)
Lemma blit_all {V} n (s : hset V) sym nc (chunk : list V) : hset_ok n s -> look (hs_ncomp s) sym = Some nc -> length chunk = n * nc ->
  exists v v', look (hs_vals s) sym = Some v /\ blit v 0 chunk = Some v' /\ length v' = length v /\ length v = n * nc /\
    forall p c, p < n -> c < nc -> nth_error v' (c * n + p) = nth_error chunk (c * n + p).
Proof.
  intros H E L. pose proof (H sym) as Hs. rewrite E in Hs. destruct (look (hs_vals s) sym) as [v|]; [|tauto].
  destruct (blit_correct v chunk 0) as (v' & U & L' & W & N); [lia|]. exists v, v'. repeat split; auto.
  intros p c Hp Hc. apply (W (c * n + p)). rewrite L. apply elt_bound; auto.
Qed.

Lemma hs_set_fold {V} n (other : hset V) (l : list (nat * list V)) : hset_ok n other -> forall s, hset_ok n s ->
  (forall sym nc nc', look (hs_ncomp s) sym = Some nc -> look (hs_ncomp other) sym = Some nc' -> nc = nc') ->
  (forall e, In e l -> look (hs_ncomp s) (fst e) <> None) ->
  exists s', foldM (fun s e =>
    let sym := fst e in
    match look (hs_vals other) sym with
    | None => Some s
    | Some src =>
        ncomp <- look (hs_ncomp other) sym ;;
        nc <- look (hs_ncomp s) sym ;;
        _ <- assert (ncomp =? nc) ;;
        chunk <- slice src 0 (n * ncomp) ;;
        v <- look (hs_vals s) sym ;;
        v' <- blit v 0 chunk ;;
        Some (mk_hset (put sym v' (hs_vals s)) (hs_ncomp s))
    end) s l = Some s' /\ hset_ok n s' /\ hs_ncomp s' = hs_ncomp s /\
    forall k p c, p < n -> has s k c ->
      hs_at n s' k p c = if existsb (fun e => k =? fst e) l && hs_contains other k then hs_at n other k p c else hs_at n s k p c.
Proof.
  intros Ho. induction l as [|[sym x] l IH]; intros s Hs Ag Hin.
  { exists s. cbn. auto. }
  cbn [foldM fst]. pose proof (Ho sym) as Hsym. destruct (look (hs_vals other) sym) as [src|] eqn:E1.
  - destruct (look (hs_ncomp other) sym) as [nc|] eqn:E2; [|tauto]. cbn [obind].
    destruct (look (hs_ncomp s) sym) as [nc'|] eqn:E3; [|exfalso; apply (Hin (sym, x)); cbn; auto].
    pose proof (Ag sym nc' nc E3 E2) as ->. cbn [obind]. rewrite Nat.eqb_refl. cbn [assert obind].
    destruct (slice_some src 0 (n * nc)) as (chunk & Sl & Lc & Wc); [lia|]. rewrite Sl; cbn [obind].
    destruct (blit_all n s sym nc chunk Hs E3) as (v & v' & F1 & F2 & F3 & F4 & F5); [lia|].
    rewrite F1; cbn [obind]. rewrite F2; cbn [obind].
    set (s1 := mk_hset _ _). destruct (IH s1) as (s' & G1 & G2 & G3 & G4).
    { eapply put_ok; eauto. }
    { exact Ag. }
    { intros e He. apply (Hin e); right; auto. }
    exists s'. split; [exact G1|]. split; [exact G2|]. split; [exact G3|].
    intros k p c Hp Hk. rewrite G4 by auto. cbn [existsb fst]. unfold s1. rewrite hs_at_put.
    destruct (Nat.eqb_spec k sym) as [->|N]; cbn [orb]; auto.
    assert (HC : hs_contains other sym = true) by (unfold hs_contains; rewrite E1; auto). rewrite HC, !andb_true_r.
    destruct (existsb (fun e => sym =? fst e) l); auto.
    destruct Hk as (nk & K1 & K2). rewrite E3 in K1. injection K1 as <-.
    rewrite F5 by auto. unfold hs_at. rewrite E1. cbn [obind]. unfold rd. rewrite Wc; [auto|].
    pose proof (elt_bound n nc p c Hp K2). lia.
  - cbn [obind]. destruct (IH s Hs Ag) as (s' & G1 & G2 & G3 & G4).
    { intros e He. apply (Hin e); right; auto. }
    exists s'. split; [exact G1|]. split; [exact G2|]. split; [exact G3|].
    intros k p c Hp Hk. rewrite G4 by auto. cbn [existsb fst]. destruct (Nat.eqb_spec k sym) as [->|N]; cbn [orb]; auto.
    assert (HC : hs_contains other sym = false) by (unfold hs_contains; rewrite E1; auto). rewrite HC, !andb_false_r. auto.
Qed.

Lemma hs_set_correct {V} n (s other : hset V) : hset_ok n s -> hset_ok n other ->
  (forall sym nc nc', look (hs_ncomp s) sym = Some nc -> look (hs_ncomp other) sym = Some nc' -> nc = nc') ->
  exists s', hs_set n s other = Some s' /\ hset_ok n s' /\ hs_ncomp s' = hs_ncomp s /\
    forall k p c, p < n -> has s k c ->
      hs_at n s' k p c = if hs_contains other k then hs_at n other k p c else hs_at n s k p c.
Proof.
  intros Hs Ho Ag. destruct (hs_set_fold n other (hs_vals s) Ho s Hs Ag) as (s' & E & A & B & C).
  { intros e He. pose proof (Hs (fst e)) as H. assert (look (hs_vals s) (fst e) <> None).
    { apply look_in. apply in_map. auto. }
    destruct (look (hs_vals s) (fst e)); [|congruence]. destruct (look (hs_ncomp s) (fst e)); [congruence|tauto]. }
  exists s'. split; [exact E|]. split; [exact A|]. split; [exact B|]. intros k p c Hp Hk. rewrite C by auto.
  assert (X : existsb (fun e => k =? fst e) (hs_vals s) = true); [|rewrite X; auto].
  destruct (has_data n s k c Hs Hk) as (v & nc & E1 & _).
  assert (I : In k (map fst (hs_vals s))) by (apply look_in; congruence).
  apply in_map_iff in I. destruct I as ([k' y] & <- & I). apply existsb_exists. exists (k', y). split; auto. apply Nat.eqb_refl.
Qed.

(** ** The device matrix *)
Section M.
Context {V : Type} (zero : V) (sp : pspec).
Notation total := (list_sum (map snd sp)).

(** The matrix [m] of [n] rows holds the table [t]. *)
Definition holds (n : nat) (m : matrix V) (t : table V) : Prop :=
  n * total <= length (data m) /\
  (forall r p c, valid sp n r p c -> nth_error (data m) ((comp_offset sp p + c) * n + r) = Some (value t p c r)) /\
  (forall s c, default_of zero m s c = default t s c).

Lemma holds_read n m t r p c : holds n m t -> valid sp n r p c -> at_read sp m n r p c = Some (value t p c r).
Proof.
  intros (_ & H & _) Hv. destruct (valid_address sp n r p c Hv) as [A _]. unfold at_read. rewrite A. cbn [obind]. apply H; auto.
Qed.

Lemma holds_upd n m t r p c x buf : holds n m t -> valid sp n r p c ->
  upd (data m) ((comp_offset sp p + c) * n + r) x = Some buf ->
  holds n (mk_matrix buf (defaults m)) (mk_table (set_value (value t) p c r x) (default t)).
Proof.
  intros (H1 & H2 & H3) Hv U. split; [|split].
  - cbn. rewrite (upd_length _ _ _ _ U). auto.
  - intros r' p' c' Hv'. cbn. rewrite (upd_nth _ _ _ _ _ U). unfold set_value.
    destruct (Nat.eqb_spec ((comp_offset sp p' + c') * n + r') ((comp_offset sp p + c) * n + r)) as [Q|Q].
    + destruct (address_inj _ _ _ _ _ _ _ _ Hv' Hv Q) as (-> & -> & ->). rewrite !Nat.eqb_refl. auto.
    + rewrite H2 by auto. destruct (Nat.eqb_spec p' p), (Nat.eqb_spec c' c), (Nat.eqb_spec r' r); subst; cbn [andb]; auto. congruence.
  - exact H3.
Qed.

Lemma hstep_correct (plus : V -> V -> V) n m t c : holds n m t -> table_allowed sp n c ->
  exists m', hstep plus sp n m c = Some m' /\ holds n m' (table_after plus t c).
Proof.
  intros H A. destruct c as [sym comp v|r p c v|r p c v]; cbn [hstep table_after].
  - eexists; split; [reflexivity|]. destruct H as (H1 & H2 & H3). split; [exact H1|]. split; [exact H2|].
    intros s' c'. unfold default_of, set_default_value. cbn. cbn [default].
    rewrite (Nat.eqb_sym s' sym), (Nat.eqb_sym c' comp). destruct ((sym =? s') && (comp =? c')); auto. apply H3.
  - destruct (valid_address sp n r p c A) as [E L]. unfold at_write. rewrite E. cbn [obind].
    destruct (upd_some (data m) ((comp_offset sp p + c) * n + r) v) as [buf U]; [destruct H; lia|].
    rewrite U. cbn [obind]. eexists; split; [reflexivity|]. apply holds_upd; auto.
  - destruct (valid_address sp n r p c A) as [E L]. unfold fetch_add. rewrite E. cbn [obind].
    unfold rd. rewrite (proj1 (proj2 H) r p c A). cbn [obind].
    destruct (upd_some (data m) ((comp_offset sp p + c) * n + r) (plus (value t p c r) v)) as [buf U]; [destruct H; lia|].
    rewrite U. cbn [obind snd]. eexists; split; [reflexivity|]. apply holds_upd; auto.
Qed.

(** *** reset *)
Lemma realloc_nc_length (junkV : nat -> V) buf size : size <= length (realloc_no_copy junkV buf size).
Proof.
  unfold realloc_no_copy. destruct (Nat.eqb_spec size 0); [lia|]. destruct (Nat.ltb_spec (length buf) size); [|lia].
  rewrite map_length, seq_length. auto.
Qed.

Lemma reset_writes_some (m : matrix V) n : exists ws, reset_writes zero sp m n = Some ws /\
  forall a v, In (a, v) ws <-> exists p sym nc c r, nth_error sp p = Some (sym, nc) /\ c < nc /\ r < n /\
     a = (comp_offset sp p + c) * n + r /\ v = default_of zero m sym c.
Proof.
  unfold reset_writes. match goal with |- context [mapM ?f ?l] => set (F := f) end.
  assert (HF : forall p sym nc, nth_error sp p = Some (sym, nc) -> F p =
     Some (flat_map (fun cx => map (fun i => ((comp_offset sp p + cx) * n + i, default_of zero m sym cx)) (seq 0 n)) (seq 0 nc))).
  { intros p sym nc E. unfold F. change (rd sp p) with (nth_error sp p). rewrite E; cbn [obind].
    rewrite offsets_nth by (eapply nth_error_some_lt; eauto). reflexivity. }
  destruct (mapM_total F (seq 0 (length sp))) as [ws E].
  { intros p Hp. apply in_seq in Hp. destruct (nth_error sp p) as [[sym nc]|] eqn:Ep; [eauto|]. apply nth_error_None in Ep. lia. }
  rewrite E; cbn [obind]. exists (concat ws). split; auto. intros a v. rewrite in_concat. split.
  - intros (l & Hl & Ha). apply In_nth_error in Hl. destruct Hl as [p Hp].
    assert (Lp : p < length sp) by (rewrite <- (seq_length (length sp) 0), <- (mapM_length _ _ _ E); eapply nth_error_some_lt; eauto).
    assert (Sp : nth_error (seq 0 (length sp)) p = Some p) by (rewrite nth_error_seq; destruct (Nat.ltb_spec p (length sp)); [auto|lia]).
    pose proof (mapM_nth _ _ _ _ _ E Sp) as Fp.
    destruct (nth_error sp p) as [[sym nc]|] eqn:Ep; [|apply nth_error_None in Ep; lia].
    rewrite (HF p sym nc Ep), Hp in Fp. injection Fp as <-. apply in_flat_map in Ha. destruct Ha as (c & Hc & Ha).
    apply in_map_iff in Ha. destruct Ha as (r & [= <- <-] & Hr). apply in_seq in Hc. apply in_seq in Hr.
    exists p, sym, nc, c, r. repeat split; auto; lia.
  - intros (p & sym & nc & c & r & Ep & Hc & Hr & -> & ->).
    assert (Lp : p < length sp) by (eapply nth_error_some_lt; eauto).
    assert (Sp : nth_error (seq 0 (length sp)) p = Some p) by (rewrite nth_error_seq; destruct (Nat.ltb_spec p (length sp)); [auto|lia]).
    pose proof (mapM_nth _ _ _ _ _ E Sp) as Fp. rewrite (HF p sym nc Ep) in Fp.
    eexists; split; [eapply nth_error_In; symmetry; exact Fp|]. apply in_flat_map. exists c. split; [apply in_seq; lia|].
    apply in_map_iff. exists r. split; auto. apply in_seq; lia.
Qed.

Lemma matrix_reset_correct d (junkV : nat -> V) k (m : matrix V) t n n0 : device_ok d -> holds n0 m t ->
  exists m', matrix_reset d junkV zero sp k m n = Some m' /\ holds n m' (table_reset sp t).
Proof.
  intros D (H1 & H2 & H3). unfold matrix_reset. destruct (Nat.ltb_spec 0 n) as [Hn|Hn].
  2: { exists m. split; auto. split; [lia|]. split; [|exact H3]. intros r p c (s & nc & _ & _ & Hr). lia. }
  destruct (reset_writes_some m n) as (ws & E & In_ws). rewrite E; cbn [obind].
  set (buf := realloc_no_copy junkV (data m) (n * total)).
  assert (Lb : n * total <= length buf) by apply realloc_nc_length.
  destruct (foldM_upd (fun m w => upd m (fst w) (snd w)) (fst : nat * V -> nat) snd (ord d k ws) buf) as (b' & S & L' & W & N).
  - auto.
  - intros [a v] I. apply (in_ord d k ws _ D) in I. apply In_ws in I. destruct I as (p & sym & nc & c & r & Ep & Hc & Hr & -> & ->).
    cbn. destruct (valid_address sp n r p c) as [_ B]; [exists sym, nc; auto|]. lia.
  - intros [a v] [a' v'] I I'. apply (in_ord d k ws _ D) in I. apply (in_ord d k ws _ D) in I'. apply In_ws in I. apply In_ws in I'.
    destruct I as (p & sym & nc & c & r & Ep & Hc & Hr & -> & ->). destruct I' as (p' & sym' & nc' & c' & r' & Ep' & Hc' & Hr' & -> & ->).
    cbn. intros Q. destruct (address_inj sp n r p c r' p' c') as (-> & -> & ->); [exists sym, nc; auto|exists sym', nc'; auto|exact Q|].
    rewrite Ep in Ep'. injection Ep' as -> ->. auto.
  - unfold scatter. rewrite S; cbn [obind]. eexists; split; [reflexivity|]. split; [cbn; lia|]. split; [|exact H3].
    intros r p c (sym & nc & Ep & Hc & Hr). cbn. rewrite Ep.
    assert (I : In ((comp_offset sp p + c) * n + r, default_of zero m sym c) (ord d k ws)).
    { apply (in_ord d k ws _ D), In_ws. exists p, sym, nc, c, r. auto. }
    apply W in I. cbn [fst snd] in I. rewrite I. f_equal. apply H3.
Qed.

(** *** get *)
Lemma block_range n p sym nc (m : matrix V) : nth_error sp p = Some (sym, nc) -> n * total <= length (data m) ->
  comp_offset sp p * n <= comp_offset sp p * n + n * nc <= length (data m).
Proof.
  intros E H. pose proof (comp_offset_le sp p sym nc E). split; [lia|].
  assert ((comp_offset sp p + nc) * n <= total * n) by (apply Nat.mul_le_mono_r; lia). lia.
Qed.

Lemma matrix_get_correct n m t : NoDup (map fst sp) -> holds n m t ->
  exists s, matrix_get zero sp m n = Some s /\ hset_ok n s /\
    (forall sym, hs_contains s sym = true <-> In sym (map fst sp)) /\
    (forall sym nc, In (sym, nc) sp -> look (hs_ncomp s) sym = Some nc) /\
    forall r p c sym nc, nth_error sp p = Some (sym, nc) -> c < nc -> r < n -> hs_at n s sym r c = Some (value t p c r).
Proof.
  intros ND (H1 & H2 & H3). unfold matrix_get. set (s0 := hs_create zero n sp).
  assert (C0 : forall s : hset V, hset_ok n s -> hs_ncomp s = hs_ncomp s0 ->
      (forall sym, hs_contains s sym = true <-> In sym (map fst sp)) /\ (forall sym nc, In (sym, nc) sp -> look (hs_ncomp s) sym = Some nc)).
  { intros s Ok Nc. split.
    - intros sym. specialize (Ok sym). unfold hs_contains. rewrite Nc in Ok.
      destruct (in_dec Nat.eq_dec sym (map fst sp)) as [I|I].
      + split; auto. intros _. apply in_map_iff in I. destruct I as ([k nc] & <- & I). cbn [fst] in *.
        unfold s0 in Ok. rewrite (proj2 (hs_create_in zero n sp k nc ND I)) in Ok. destruct (look (hs_vals s) k); tauto.
      + unfold s0 in Ok. rewrite (proj2 (hs_create_notin zero n sp sym I)) in Ok. destruct (look (hs_vals s) sym); [tauto|].
        split; [discriminate|tauto].
    - intros sym nc I. rewrite Nc. apply (hs_create_in zero n sp sym nc ND I). }
  pose proof (hs_create_ok zero n sp) as Ok0. fold s0 in Ok0. destruct (Nat.ltb_spec 0 n) as [Hn|Hn].
  2: { exists s0. split; auto. split; auto. destruct (C0 s0 Ok0 eq_refl) as [A B]. split; auto. split; auto. intros; lia. }
  match goal with |- context [foldM ?f _ _] => set (F := f) end.
  assert (HF : forall k, k <= length sp -> exists s, foldM F s0 (seq 0 k) = Some s /\ hset_ok n s /\ hs_ncomp s = hs_ncomp s0 /\
     forall r p c sym nc, p < k -> nth_error sp p = Some (sym, nc) -> c < nc -> r < n -> hs_at n s sym r c = Some (value t p c r)).
  { induction k as [|k IH]; intros Hk; [exists s0; cbn; repeat split; auto; intros; lia|].
    destruct IH as (s & E & Ok & Nc & Hv); [lia|].
    replace (seq 0 (S k)) with (seq 0 k ++ [k]) by (rewrite seq_S; auto). rewrite foldM_app, E; cbn [obind foldM].
    destruct (nth_error sp k) as [[sym nc]|] eqn:Ek; [|apply nth_error_None in Ek; lia].
    pose proof (nth_error_In _ _ Ek) as Ik.
    unfold F at 1. change (rd sp k) with (nth_error sp k). rewrite Ek; cbn [obind fst snd]. rewrite offsets_nth by lia. cbn [obind].
    destruct (slice_some (data m) (comp_offset sp k * n) (comp_offset sp k * n + n * nc)) as (chunk & Sl & Lc & Wc).
    { eapply block_range; eauto. }
    rewrite Sl; cbn [obind].
    assert (Nk : look (hs_ncomp s) sym = Some nc) by (rewrite Nc; apply (hs_create_in zero n sp sym nc ND Ik)).
    destruct (blit_all n s sym nc chunk Ok Nk) as (v & v' & F1 & F2 & F3 & F4 & F5); [lia|].
    rewrite F1; cbn [obind]. rewrite F2; cbn [obind]. eexists; split; [reflexivity|].
    split; [eapply put_ok; eauto|]. split; [exact Nc|]. intros r p c sym' nc' Hp Ep Hc Hr. rewrite hs_at_put.
    destruct (Nat.eqb_spec sym' sym) as [->|N].
    - assert (p = k).
      { apply (proj1 (NoDup_nth_error (map fst sp)) ND p k). { rewrite map_length. eapply nth_error_some_lt; eauto. }
        rewrite !nth_error_map, Ep, Ek. auto. }
      subst p. rewrite Ek in Ep. injection Ep as <-. rewrite F5 by auto. pose proof (elt_bound n nc r c Hr Hc).
      rewrite Wc by lia. rewrite <- (H2 r k c) by (exists sym, nc; auto). f_equal. lia.
    - apply (Hv r p c sym' nc'); auto. assert (p <> k); [|lia]. intros ->. rewrite Ek in Ep. congruence. }
  destruct (HF (length sp) (le_n _)) as (s & E & Ok & Nc & Hv). exists s. split; [exact E|]. split; [exact Ok|].
  destruct (C0 s Ok Nc) as [A B]. split; auto. split; auto. intros r p c sym nc Ep. apply Hv; auto. eapply nth_error_some_lt; eauto.
Qed.

(** *** set *)
Lemma matrix_set_correct n m t s : holds n m t -> set_allowed sp n s ->
  exists m', matrix_set sp m n s = Some m' /\ holds n m' (table_set sp n t s).
Proof.
  intros (H1 & H2 & H3) (Ok & Nc). unfold matrix_set. destruct (Nat.ltb_spec 0 n) as [Hn|Hn].
  2: { exists m. split; auto. split; [lia|]. split; [|exact H3]. intros r p c (x & nc & _ & _ & Hr). lia. }
  match goal with |- context [foldM ?f _ _] => set (F := f) end.
  assert (HF : forall k, k <= length sp -> exists buf, foldM F (data m) (seq 0 k) = Some buf /\ length buf = length (data m) /\
     forall r p c, valid sp n r p c -> nth_error buf ((comp_offset sp p + c) * n + r) =
       Some (if p <? k then value (table_set sp n t s) p c r else value t p c r)).
  { induction k as [|k IH]; intros Hk; [exists (data m); cbn; repeat split; auto|].
    destruct IH as (buf & E & L & Hv); [lia|].
    replace (seq 0 (S k)) with (seq 0 k ++ [k]) by (rewrite seq_S; auto). rewrite foldM_app, E; cbn [obind foldM].
    destruct (nth_error sp k) as [[sym nc]|] eqn:Ek; [|apply nth_error_None in Ek; lia].
    pose proof (nth_error_In _ _ Ek) as Ik.
    unfold F at 1. change (rd sp k) with (nth_error sp k). rewrite Ek; cbn [obind fst snd].
    pose proof (Ok sym) as Os. destruct (look (hs_vals s) sym) as [src|] eqn:E1.
    - destruct (look (hs_ncomp s) sym) as [nc'|] eqn:E2; [|tauto]. cbn [obind]. pose proof (Nc sym nc nc' Ik E2) as ->.
      rewrite Nat.eqb_refl; cbn [assert obind]. rewrite offsets_nth by lia. cbn [obind].
      destruct (slice_some src 0 (n * nc)) as (chunk & Sl & Lc & Wc); [lia|]. rewrite Sl; cbn [obind].
      pose proof (block_range n k sym nc m Ek H1) as BR.
      destruct (blit_correct buf chunk (comp_offset sp k * n)) as (b' & U & L' & W & N); [lia|].
      rewrite U; cbn [obind]. eexists; split; [reflexivity|]. split; [congruence|]. intros r p c Hpc.
      destruct Hpc as (sym' & nc' & Ep & Hc & Hr). destruct (Nat.eq_dec p k) as [->|Np].
      + rewrite Ek in Ep. injection Ep as <- <-. destruct (Nat.ltb_spec k (S k)); [|lia].
        pose proof (elt_bound n nc r c Hr Hc).
        replace ((comp_offset sp k + c) * n + r) with (comp_offset sp k * n + (c * n + r)) by lia. rewrite W by lia.
        rewrite Wc by lia. cbn [table_set value]. rewrite Ek. unfold hs_at. rewrite E1; cbn [obind Nat.add]. unfold rd.
        destruct (nth_error src (c * n + r)) eqn:Q; auto. apply nth_error_None in Q. lia.
      + rewrite N.
        * rewrite Hv by (exists sym', nc'; auto). destruct (Nat.ltb_spec p k), (Nat.ltb_spec p (S k)); auto; lia.
        * rewrite Lc, Nat.sub_0_r.
          destruct (Nat.lt_ge_cases ((comp_offset sp p + c) * n + r) (comp_offset sp k * n)) as [|G]; [auto|right].
          destruct (Nat.le_gt_cases (comp_offset sp k * n + n * nc) ((comp_offset sp p + c) * n + r)) as [|G2]; [auto|exfalso].
          assert (Q : exists c', c' < nc /\ comp_offset sp p + c = comp_offset sp k + c').
          { exists (comp_offset sp p + c - comp_offset sp k).
            assert (comp_offset sp k <= comp_offset sp p + c).
            { destruct (Nat.le_gt_cases (comp_offset sp k) (comp_offset sp p + c)) as [|G3]; auto.
              assert ((comp_offset sp p + c + 1) * n <= comp_offset sp k * n) by (apply Nat.mul_le_mono_r; lia). lia. }
            assert (comp_offset sp p + c < comp_offset sp k + nc).
            { destruct (Nat.le_gt_cases (comp_offset sp k + nc) (comp_offset sp p + c)) as [G3|]; auto.
              assert ((comp_offset sp k + nc) * n <= (comp_offset sp p + c) * n) by (apply Nat.mul_le_mono_r; lia). lia. }
            lia. }
          destruct Q as (c' & Hc' & Q). destruct (column_inj sp _ _ _ _ _ _ _ _ Ep Ek Hc Hc' Q). auto.
    - exists buf. split; [reflexivity|]. split; [exact L|]. intros r p c Hpc. rewrite Hv by auto.
      destruct (Nat.eq_dec p k) as [->|Np].
      + destruct (Nat.ltb_spec k k), (Nat.ltb_spec k (S k)); try lia. cbn [table_set value]. rewrite Ek. unfold hs_at. rewrite E1. auto.
      + destruct (Nat.ltb_spec p k), (Nat.ltb_spec p (S k)); auto; lia. }
  destruct (HF (length sp) (le_n _)) as (buf & E & L & Hv). rewrite E; cbn [obind].
  eexists; split; [reflexivity|]. split; [cbn; lia|]. split; [|exact H3].
  intros r p c Hpc. cbn [data]. rewrite (Hv r p c Hpc). destruct Hpc as (sym & nc & Ep & _). apply nth_error_some_lt in Ep.
  destruct (Nat.ltb_spec p (length sp)); [auto|lia].
Qed.
End M.

(** ** The device containers *)
Section DS.
Context {R : Type} (d : device) (junkR : nat -> nat -> R) (junkZ : nat -> nat -> Z)
  (zeroR : R) (plusR : R -> R -> R) (spR spZ : pspec).

Definition ds_holds (s : device_set R) (t : contents R) : Prop :=
  ds_num s = number t /\ holds zeroR spR (number t) (ds_real s) (real t) /\ holds 0%Z spZ (number t) (ds_int s) (int t).

Lemma ds_create_holds : ds_holds (ds_create junkR junkZ) (nothing zeroR).
Proof.
  split; [reflexivity|]. split; (split; [cbn; lia|split; [|reflexivity]]); intros r p c (s & nc & _ & _ & H); cbn in H; lia.
Qed.

Lemma ds_step_correct s t c : device_ok d -> ds_holds s t -> allowed spR spZ t c ->
  exists s', ds_step d junkR junkZ zeroR plusR spR spZ s c = Some s' /\ ds_holds s' (after plusR spR spZ t c).
Proof.
  intros D (N & HR & HZ) A. destruct c as [c|c|n|ps]; cbn [ds_step after allowed] in *.
  - rewrite N. destruct (hstep_correct zeroR spR plusR _ _ _ _ HR A) as (m' & E & H). rewrite E; cbn [obind].
    eexists; split; [reflexivity|]. split; [reflexivity|]. auto.
  - rewrite N. destruct (hstep_correct 0%Z spZ Z.add _ _ _ _ HZ A) as (m' & E & H). rewrite E; cbn [obind].
    eexists; split; [reflexivity|]. split; [reflexivity|]. auto.
  - unfold ds_reset. destruct (Z.leb_spec 0 n); [|lia]. cbn [assert obind].
    destruct (matrix_reset_correct zeroR spR d (junkR (Z.to_nat n)) 500 _ _ (Z.to_nat n) _ D HR) as (r & E & H1). rewrite E; cbn [obind].
    destruct (matrix_reset_correct 0%Z spZ d (junkZ (Z.to_nat n)) 501 _ _ (Z.to_nat n) _ D HZ) as (i & E2 & H2). rewrite E2; cbn [obind].
    eexists; split; [reflexivity|]. split; [reflexivity|]. auto.
  - destruct A as (A1 & A2 & A3). unfold ds_set. rewrite N, A1, Nat.eqb_refl; cbn [assert obind].
    destruct (matrix_set_correct zeroR spR _ _ _ _ HR A2) as (r & E & H1). rewrite E; cbn [obind].
    destruct (matrix_set_correct 0%Z spZ _ _ _ _ HZ A3) as (i & E2 & H2). rewrite E2; cbn [obind].
    eexists; split; [reflexivity|]. split; [reflexivity|]. auto.
Qed.

Lemma ds_run_correct cs : device_ok d -> all_allowed plusR spR spZ (nothing zeroR) cs ->
  exists s, ds_run d junkR junkZ zeroR plusR spR spZ cs = Some s /\ ds_holds s (history zeroR plusR spR spZ cs).
Proof.
  intros D. unfold ds_run, history. generalize (ds_create junkR junkZ) (nothing zeroR) ds_create_holds.
  induction cs as [|c cs IH]; intros s t H A; cbn [foldM fold_left].
  - eauto.
  - destruct A as [A1 A2]. destruct (ds_step_correct s t c D H A1) as (s1 & E & H1). rewrite E; cbn [obind]. apply IH; auto.
Qed.
End DS.

(** ** DescendantProducts *)
Lemma row_inj m np a x b y : a < m -> b < m -> x < np -> y < np -> a + x * m = b + y * m -> a = b /\ x = y.
Proof. intros A B X Y E. destruct (mul_add_inj m x a y b); auto; lia. Qed.

Lemma desc_reset_correct {R} d (junkR : nat -> nat -> R) junkZ (zeroR : R) spR spZ per_parent s t n :
  device_ok d -> ds_holds zeroR spR spZ (de_set s) t -> (0 <= n)%Z ->
  exists s', desc_reset d junkR junkZ zeroR spR spZ per_parent s n = Some s' /\
    ds_holds zeroR spR spZ (de_set s') (after (fun x _ => x) spR spZ t (Reset (Z.of_nat (Z.to_nat n * per_parent)))) /\
    de_parents s' = Z.to_nat n /\
    (forall i, i < Z.to_nat n * per_parent -> nth_error (de_cells s') i = Some (-1)%Z /\ nth_error (de_layers s') i = Some (-1)%Z).
Proof.
  intros D H Hn. unfold desc_reset. destruct (Z.leb_spec 0 n); [|lia]. cbn [assert obind].
  destruct (ds_step_correct d junkR junkZ zeroR (fun x _ => x) spR spZ (de_set s) t (Reset (Z.of_nat (Z.to_nat n * per_parent))) D H)
    as (s1 & E & H1); [cbn; lia|]. cbn [ds_step] in E. rewrite E; cbn [obind].
  destruct (Nat.ltb_spec 0 (Z.to_nat n * per_parent)) as [Hp|Hp].
  2: { eexists; split; [reflexivity|]. split; [exact H1|]. split; [reflexivity|]. intros; lia. }
  set (np := Z.to_nat n * per_parent) in *.
  assert (F : forall buf, np <= length buf -> exists b', scatter buf (ord d 502 (map (fun i => (i, (-1)%Z)) (seq 0 np))) = Some b' /\
     forall i, i < np -> nth_error b' i = Some (-1)%Z).
  { intros buf L. destruct (foldM_upd (fun m w => upd m (fst w) (snd w)) (fst : nat * Z -> nat) snd
       (ord d 502 (map (fun i => (i, (-1)%Z)) (seq 0 np))) buf) as (b' & Sc & L' & W & N).
    - auto.
    - intros w I. apply (in_ord d _ _ _ D), in_map_iff in I. destruct I as (i & <- & I). apply in_seq in I. cbn; lia.
    - intros w w' I I' _. apply (in_ord d _ _ _ D), in_map_iff in I. apply (in_ord d _ _ _ D), in_map_iff in I'.
      destruct I as (i & <- & _), I' as (i' & <- & _). auto.
    - exists b'. split; [exact Sc|]. intros i Hi. apply (W (i, (-1)%Z)). apply (in_ord d _ _ _ D), in_map_iff.
      exists i. split; auto. apply in_seq; lia. }
  destruct (F _ (realloc_nc_length (junkZ np) (de_cells s) np)) as (c & Ec & Wc).
  destruct (F _ (realloc_nc_length (junkZ np) (de_layers s) np)) as (l & El & Wl).
  rewrite Ec; cbn [obind]. rewrite El; cbn [obind]. eexists; split; [reflexivity|]. split; [exact H1|]. split; [reflexivity|].
  intros i Hi. cbn. auto.
Qed.

Lemma set_parent_correct {R} (s : descendants R) per_parent ll cell layer product :
  (forall i, i < de_parents s * per_parent -> exists a b, nth_error (de_cells s) i = Some a /\ nth_error (de_layers s) i = Some b) ->
  ll < de_parents s -> product < per_parent ->
  exists s', set_parent s ll cell layer product = Some s' /\ de_set s' = de_set s /\ de_parents s' = de_parents s /\
    forall ll' product', ll' < de_parents s -> product' < per_parent ->
      let row := ll' + product' * de_parents s in
      nth_error (de_cells s') row = (if (ll' =? ll) && (product' =? product) then Some (Z.of_nat cell) else nth_error (de_cells s) row) /\
      nth_error (de_layers s') row = (if (ll' =? ll) && (product' =? product) then Some (Z.of_nat layer) else nth_error (de_layers s) row).
Proof.
  intros H Hl Hp. unfold set_parent.
  assert (B : ll + product * de_parents s < de_parents s * per_parent).
  { assert ((product + 1) * de_parents s <= per_parent * de_parents s) by (apply Nat.mul_le_mono_r; lia). lia. }
  destruct (H _ B) as (a & b & E1 & E2).
  destruct (upd_some (de_cells s) (ll + product * de_parents s) (Z.of_nat cell)) as [c U]; [eapply nth_error_some_lt; eauto|].
  destruct (upd_some (de_layers s) (ll + product * de_parents s) (Z.of_nat layer)) as [l U2]; [eapply nth_error_some_lt; eauto|].
  rewrite U; cbn [obind]. rewrite U2; cbn [obind]. eexists; split; [reflexivity|]. split; [reflexivity|]. split; [reflexivity|].
  intros ll' product' Hl' Hp'. cbn. rewrite (upd_nth _ _ _ _ _ U), (upd_nth _ _ _ _ _ U2).
  destruct (Nat.eqb_spec (ll' + product' * de_parents s) (ll + product * de_parents s)) as [Q|Q].
  - destruct (row_inj _ _ _ _ _ _ Hl' Hl Hp' Hp Q) as [-> ->]. rewrite !Nat.eqb_refl. auto.
  - destruct (Nat.eqb_spec ll' ll), (Nat.eqb_spec product' product); subst; cbn [andb]; auto. congruence.
Qed.

(** ** get_particles *)
From Verif Require Import Group_Spec Group_Proofs Add_Spec.

Lemma foldM_flat_map {A B S} (f : S -> B -> option S) (g : A -> list B) l : forall s,
  foldM f s (flat_map g l) = foldM (fun s a => foldM f s (g a)) s l.
Proof.
  induction l as [|a l IH]; intros s; cbn [flat_map foldM]; auto.
  rewrite foldM_app. destruct (foldM f s (g a)); cbn [obind]; auto.
Qed.

Lemma foldM_ext_in {A S} (f g : S -> A -> option S) l : (forall a s, In a l -> f s a = g s a) -> forall s, foldM f s l = foldM g s l.
Proof.
  induction l as [|a l IH]; intros H s; cbn [foldM]; auto.
  rewrite (H a s) by (left; auto). destruct (g s a); cbn [obind]; auto. apply IH. intros; apply H; right; auto.
Qed.

Section Gather.
Context {V : Type} (sp q : pspec) (D : list (list (list V))) (np : list nat) (cells layers : list Z) (n : nat).
Hypotheses (Sp : spec_of sp D) (Wf : forall col, In col D -> wf_comp np col)
  (Req : forall i, i < n -> exists c l m, nth_error cells i = Some (Z.of_nat c) /\ nth_error layers i = Some (Z.of_nat l) /\
     nth_error np c = Some m /\ l < m).

Lemma gather_correct d k (zero : V) pool junkV : device_ok d -> Permutation q sp -> NoDup (map fst sp) ->
  exists s, gather d k zero pool junkV sp q D n cells layers = Some s /\ hset_ok n s /\
    (forall sym nc, In (sym, nc) sp -> look (hs_ncomp s) sym = Some nc) /\
    (forall sym, ~ In sym (map fst sp) -> hs_contains s sym = false) /\
    forall i c l p sym nc cx, i < n -> nth_error cells i = Some (Z.of_nat c) -> nth_error layers i = Some (Z.of_nat l) ->
      nth_error sp p = Some (sym, nc) -> cx < nc -> hs_at n s sym i cx = rd3 D (comp_offset sp p + cx) c l.
Proof.
  intros Dok Perm ND. unfold gather.
  set (buf := realloc_no_copy junkV pool (n * list_sum (map snd sp))).
  assert (Lb : n * list_sum (map snd sp) <= length buf) by apply realloc_nc_length.
  set (val := fun a : nat * nat * nat => let '(p, i, cx) := a in
     match nth_error cells i, nth_error layers i with
     | Some c, Some l => match rd3 D (comp_offset sp p + cx) (Z.to_nat c) (Z.to_nat l) with Some v => v | None => zero end
     | _, _ => zero
     end).
  set (pos := fun a : nat * nat * nat => let '(p, i, cx) := a in (comp_offset sp p + cx) * n + i).
  set (g := fun w : nat * nat => map (fun cx => (w, cx)) (seq 0 (nth (fst w) (map snd sp) 0))).
  set (ws := ord d k (list_prod (seq 0 (length sp)) (seq 0 n))).
  assert (Hws : forall p i, In (p, i) ws <-> p < length sp /\ i < n).
  { intros p i. unfold ws. rewrite (in_ord d k _ _ Dok), in_prod_iff, !in_seq. intuition lia. }
  assert (Eq : foldM (gather_item sp D n cells layers) buf ws = foldM (fun m a => upd m (pos a) (val a)) buf (flat_map g ws)).
  { rewrite foldM_flat_map. apply foldM_ext_in. intros [p i] m I. apply Hws in I. destruct I as [Hp Hi].
    destruct (Req i Hi) as (c & l & m0 & E1 & E2 & E3 & E4).
    unfold gather_item. cbn [fst snd]. unfold rd. rewrite E1; cbn [obind]. rewrite E2; cbn [obind].
    assert (A : ((0 <=? Z.of_nat c) && (0 <=? Z.of_nat l))%Z = true) by (apply andb_true_intro; split; apply Z.leb_le; lia).
    rewrite A; cbn [assert obind].
    destruct (nth_error sp p) as [[sym nc]|] eqn:Ep; [|apply nth_error_None in Ep; lia].
    assert (En : nth_error (map snd sp) p = Some nc) by (rewrite nth_error_map, Ep; auto). rewrite En; cbn [obind].
    unfold g. cbn [fst]. rewrite (nth_error_nth _ _ 0 En).
    rewrite !Nat2Z.id. generalize (seq 0 nc) (fun cx H => proj2 (proj1 (in_seq nc 0 cx) H)). intros L HL. revert m.
    induction L as [|cx L IH]; intros m; cbn [foldM map]; auto.
    destruct (wf_rd3' np D Wf (comp_offset sp p + cx) c l m0) as [v Ev]; auto.
    { rewrite <- Sp. pose proof (comp_offset_le sp p sym nc Ep). pose proof (HL cx (or_introl eq_refl)). lia. }
    rewrite Ev; cbn [obind]. unfold pos at 1, val at 1. rewrite E1, E2, !Nat2Z.id, Ev.
    replace (comp_offset sp p * n + (cx * n + i)) with ((comp_offset sp p + cx) * n + i) by lia.
    destruct (upd m ((comp_offset sp p + cx) * n + i) v); cbn [obind]; auto. apply IH. intros cx' H'. apply HL. right; auto. }
  assert (Hg : forall p i cx, In (p, i, cx) (flat_map g ws) <-> exists sym nc, nth_error sp p = Some (sym, nc) /\ cx < nc /\ i < n).
  { intros p i cx. rewrite in_flat_map. split.
    - intros ([p' i'] & I & G). unfold g in G. apply in_map_iff in G. destruct G as (cx' & [= -> -> ->] & G). apply in_seq in G.
      apply Hws in I. destruct (nth_error sp p) as [[sym nc]|] eqn:Ep; [|apply nth_error_None in Ep; lia].
      cbn [fst] in G. rewrite (nth_error_nth (map snd sp) p 0 (x := nc)) in G by (rewrite nth_error_map, Ep; auto).
      exists sym, nc. split; auto. split; [lia|tauto].
    - intros (sym & nc & Ep & Hc & Hi). exists (p, i). split; [apply Hws; split; auto; eapply nth_error_some_lt; eauto|].
      unfold g. apply in_map_iff. exists cx. split; auto. apply in_seq. cbn [fst].
      rewrite (nth_error_nth (map snd sp) p 0 (x := nc)) by (rewrite nth_error_map, Ep; auto). lia. }
  destruct (foldM_upd (fun m a => upd m (pos a) (val a)) pos val (flat_map g ws) buf) as (b' & E & L' & W & N).
  - auto.
  - intros [[p i] cx] I. apply Hg in I. destruct I as (sym & nc & Ep & Hc & Hi). cbn.
    destruct (valid_address sp n i p cx) as [_ B]; [exists sym, nc; auto|]. lia.
  - intros [[p i] cx] [[p' i'] cx'] I I' Q. apply Hg in I. apply Hg in I'.
    destruct I as (sym & nc & Ep & Hc & Hi), I' as (sym' & nc' & Ep' & Hc' & Hi'). cbn in Q.
    destruct (address_inj sp n i p cx i' p' cx') as (-> & -> & ->); [exists sym, nc; auto|exists sym', nc'; auto|exact Q|]. auto.
  - rewrite Eq, E; cbn [obind]. clear Eq E.
    assert (Hv : forall p i cx sym nc, nth_error sp p = Some (sym, nc) -> cx < nc -> i < n ->
              nth_error b' ((comp_offset sp p + cx) * n + i) = Some (val (p, i, cx))).
    { intros p i cx sym nc Ep Hc Hi. apply (W (p, i, cx)). apply Hg. exists sym, nc; auto. }
    assert (NDq : NoDup (map fst q)).
    { eapply Permutation_NoDup; [|exact ND]. apply Permutation_map. symmetry; auto. }
    unfold unpack_set. set (s0 := hs_create zero n q). match goal with |- context [foldM ?f _ _] => set (F := f) end.
    assert (HF : forall j, j <= length sp -> exists s, foldM F s0 (seq 0 j) = Some s /\ hset_ok n s /\ hs_ncomp s = hs_ncomp s0 /\
       forall p i cx sym nc, p < j -> nth_error sp p = Some (sym, nc) -> cx < nc -> i < n -> hs_at n s sym i cx = Some (val (p, i, cx))).
    { induction j as [|j IH]; intros Hj; [exists s0; cbn; repeat split; auto; [apply hs_create_ok|intros; lia]|].
      destruct IH as (s & E & Ok & Nc & Hs); [lia|].
      replace (seq 0 (S j)) with (seq 0 j ++ [j]) by (rewrite seq_S; auto). rewrite foldM_app, E; cbn [obind foldM].
      destruct (nth_error sp j) as [[sym nc]|] eqn:Ej; [|apply nth_error_None in Ej; lia].
      pose proof (nth_error_In _ _ Ej) as Ij.
      unfold F at 1. change (rd sp j) with (nth_error sp j). rewrite Ej; cbn [obind fst snd].
      pose proof (comp_offset_le sp j sym nc Ej) as CL.
      assert (CM : (comp_offset sp j + nc) * n <= list_sum (map snd sp) * n) by (apply Nat.mul_le_mono_r; lia).
      destruct (slice_some b' (comp_offset sp j * n) (comp_offset sp j * n + n * nc)) as (chunk & Sl & Lc & Wc); [lia|].
      rewrite Sl; cbn [obind].
      assert (Nk : look (hs_ncomp s) sym = Some nc).
      { rewrite Nc. apply (hs_create_in zero n q sym nc NDq). eapply Permutation_in; [symmetry; exact Perm|auto]. }
      destruct (blit_all n s sym nc chunk Ok Nk) as (v & v' & F1 & F2 & F3 & F4 & F5); [lia|].
      rewrite F1; cbn [obind]. rewrite F2; cbn [obind]. eexists; split; [reflexivity|].
      split; [eapply put_ok; eauto|]. split; [exact Nc|]. intros p i cx sym' nc' Hp Ep Hc Hi. rewrite hs_at_put.
      destruct (Nat.eqb_spec sym' sym) as [->|Ns].
      - assert (p = j).
        { apply (proj1 (NoDup_nth_error (map fst sp)) ND p j). { rewrite map_length. eapply nth_error_some_lt; eauto. }
          rewrite !nth_error_map, Ep, Ej. auto. }
        subst p. rewrite Ej in Ep. injection Ep as <-. rewrite F5 by auto. pose proof (elt_bound n nc i cx Hi Hc).
        rewrite Wc by lia. rewrite <- (Hv j i cx sym nc) by auto. f_equal. lia.
      - apply (Hs p i cx sym' nc'); auto. assert (p <> j); [|lia]. intros ->. rewrite Ej in Ep. congruence. }
    destruct (HF (length sp) (le_n _)) as (s & E & Ok & Nc & Hs). exists s. split; [exact E|]. split; [exact Ok|].
    split; [|split].
    + intros sym nc I. rewrite Nc. apply (hs_create_in zero n q sym nc NDq). eapply Permutation_in; [symmetry; exact Perm|auto].
    + intros sym I. specialize (Ok sym). rewrite Nc in Ok. unfold hs_contains.
      unfold s0 in Ok. assert (J : ~ In sym (map fst q)) by (intros J; apply I; eapply Permutation_in; [|exact J]; apply Permutation_map; auto).
      rewrite (proj2 (hs_create_notin zero n q sym J)) in Ok. destruct (look (hs_vals s) sym); tauto.
    + intros i c l p sym nc cx Hi E1 E2 Ep Hc. rewrite (Hs p i cx sym nc); auto; [|eapply nth_error_some_lt; eauto].
      unfold val. rewrite E1, E2, !Nat2Z.id. destruct (Req i Hi) as (c' & l' & m & E1' & E2' & E3 & E4).
      rewrite E1 in E1'. rewrite E2 in E2'. injection E1' as Q1. injection E2' as Q2. apply Nat2Z.inj in Q1, Q2. subst c' l'.
      destruct (wf_rd3' np D Wf (comp_offset sp p + cx) c l m) as [v Ev]; auto; [|rewrite Ev; auto].
      rewrite <- Sp. pose proof (comp_offset_le sp p sym nc Ep). lia.
Qed.
End Gather.

Lemma rd3_particle {V} (D : list (list (list V))) vs c l f : mapM (fun col => rd2 col c l) D = Some vs -> nth_error vs f = rd3 D f c l.
Proof.
  intros E. destruct (nth_error D f) as [col|] eqn:F.
  - rewrite <- (mapM_nth _ _ _ _ _ E F). unfold rd3, rd. rewrite F. auto.
  - unfold rd3, rd. rewrite F; cbn. apply nth_error_None. apply nth_error_None in F. rewrite (mapM_length _ _ _ E). auto.
Qed.

Lemma contains_iff {V} n (s : hset V) (sp : pspec) : hset_ok n s ->
  (forall sym nc, In (sym, nc) sp -> look (hs_ncomp s) sym = Some nc) ->
  (forall sym, ~ In sym (map fst sp) -> hs_contains s sym = false) ->
  forall sym, hs_contains s sym = true <-> In sym (map fst sp).
Proof.
  intros Ok A B sym. split.
  - intros H. destruct (in_dec Nat.eq_dec sym (map fst sp)) as [|N]; auto. rewrite (B sym N) in H. discriminate.
  - intros I. apply in_map_iff in I. destruct I as ([k nc] & <- & I). specialize (Ok k). rewrite (A k nc I) in Ok.
    unfold hs_contains. cbn [fst]. destruct (look (hs_vals s) k); tauto.
Qed.

Lemma get_device_correct {R} d (zeroR : R) poolR poolZ junkR junkZ spR spZ qR qZ (g : group R) cells layers : device_ok d ->
  wf_group g -> spec_of spR (reals (st g)) -> spec_of spZ (ints (st g)) ->
  Permutation qR spR -> Permutation qZ spZ -> NoDup (map fst spR) -> NoDup (map fst spZ) ->
  requests_ok (npart_cell g) cells layers ->
  exists ps, get_particles_device d zeroR poolR poolZ junkR junkZ spR spZ qR qZ g (length cells) cells layers = Some ps /\
    returns g spR spZ ps cells layers.
Proof.
  intros Dok [WR WZ] SR SZ PR PZ NR NZ [Ll Req]. unfold get_particles_device. destruct (Nat.ltb_spec 0 (length cells)) as [Hn|Hn].
  - destruct (gather_correct spR qR (reals (st g)) (npart_cell g) cells layers (length cells) SR WR Req d 510 zeroR poolR junkR Dok PR NR)
      as (r & E1 & O1 & N1 & C1 & H1). rewrite E1; cbn [obind].
    destruct (gather_correct spZ qZ (ints (st g)) (npart_cell g) cells layers (length cells) SZ WZ Req d 511 0%Z poolZ junkZ Dok PZ NZ)
      as (z & E2 & O2 & N2 & C2 & H2). rewrite E2; cbn [obind].
    eexists; split; [reflexivity|]. split; [reflexivity|]. cbn [ps_n ps_real ps_int]. split; [exact O1|]. split; [exact O2|].
    split; [split; [eapply contains_iff; eauto|auto]|]. split; [split; [eapply contains_iff; eauto|auto]|].
    intros i c l Ei Ej. assert (Hi : i < length cells) by (eapply nth_error_some_lt; eauto).
    destruct (Req i Hi) as (c' & l' & m & E1' & E2' & E3 & E4).
    rewrite Ei in E1'. rewrite Ej in E2'. injection E1' as Q1. injection E2' as Q2. apply Nat2Z.inj in Q1, Q2. subst c' l'.
    destruct (wf_particle_at g c l m (conj WR WZ) E3 E4) as [[vs zs] Ep]. exists vs, zs. split; auto.
    unfold particle_at in Ep. destruct (mapM _ (reals (st g))) as [vs'|] eqn:M1; [|discriminate].
    destruct (mapM _ (ints (st g))) as [zs'|] eqn:M2; [|discriminate]. injection Ep as -> ->. split.
    + intros p sym nc cx Ep Hc. rewrite (H1 i c l p sym nc cx Hi Ei Ej Ep Hc). rewrite (rd3_particle _ _ _ _ _ M1), <- comp_offset_firstn. auto.
    + intros p sym nc cx Ep Hc. rewrite (H2 i c l p sym nc cx Hi Ei Ej Ep Hc). rewrite (rd3_particle _ _ _ _ _ M2), <- comp_offset_firstn. auto.
  - assert (L0 : length cells = 0) by lia.
    assert (NDq : forall q sp : pspec, Permutation q sp -> NoDup (map fst sp) -> NoDup (map fst q)).
    { intros q sp P N. eapply Permutation_NoDup; [|exact N]. apply Permutation_map. symmetry; auto. }
    eexists; split; [reflexivity|]. split; [cbn; auto|]. cbn [ps_create ps_n ps_real ps_int].
    split; [apply hs_create_ok|]. split; [apply hs_create_ok|].
    assert (Q : forall (X : Type) (zero : X) q sp, Permutation q sp -> NoDup (map fst sp) -> has_properties sp (hs_create zero 0 q)).
    { intros X zero q sp P N. assert (B : forall sym nc, In (sym, nc) sp -> look (hs_ncomp (hs_create zero 0 q)) sym = Some nc).
      { intros sym nc I. apply (hs_create_in zero 0 q sym nc (NDq q sp P N)). eapply Permutation_in; [symmetry; exact P|auto]. }
      split; [|exact B]. apply (contains_iff 0); [apply hs_create_ok|exact B|].
      - intros sym I. assert (J : ~ In sym (map fst q)) by (intros J; apply I; eapply Permutation_in; [|exact J]; apply Permutation_map; auto).
        unfold hs_contains. rewrite (proj1 (hs_create_notin zero 0 q sym J)). auto. }
    split; [apply Q; auto|]. split; [apply Q; auto|]. intros i c l Ei. apply nth_error_some_lt in Ei. lia.
Qed.

Lemma check_request_ok np c l : check_request np c l = Some tt <-> (exists c' l' m, c = Z.of_nat c' /\ l = Z.of_nat l' /\ nth_error np c' = Some m /\ l' < m).
Proof.
  unfold check_request. split.
  - destruct (((-1 <? c) && (c <? Z.of_nat (length np)))%Z) eqn:A; cbn [assert obind]; [|discriminate].
    apply andb_prop in A. destruct A as [A1 A2]. apply Z.ltb_lt in A1, A2. unfold rd.
    destruct (nth_error np (Z.to_nat c)) as [m|] eqn:E; cbn [obind]; [|discriminate].
    destruct (((-1 <? l) && (l <? Z.of_nat m))%Z) eqn:B; cbn [assert]; [|discriminate]. intros _.
    apply andb_prop in B. destruct B as [B1 B2]. apply Z.ltb_lt in B1, B2. exists (Z.to_nat c), (Z.to_nat l), m. repeat split; auto; lia.
  - intros (c' & l' & m & -> & -> & E & H). pose proof (nth_error_some_lt _ _ _ E).
    assert (A : ((-1 <? Z.of_nat c') && (Z.of_nat c' <? Z.of_nat (length np)))%Z = true) by (apply andb_true_intro; split; apply Z.ltb_lt; lia).
    rewrite A; cbn [assert obind]. rewrite Nat2Z.id. unfold rd. rewrite E; cbn [obind].
    assert (B : ((-1 <? Z.of_nat l') && (Z.of_nat l' <? Z.of_nat m))%Z = true) by (apply andb_true_intro; split; apply Z.ltb_lt; lia).
    rewrite B. reflexivity.
Qed.

Lemma foldM_checks {A} (f : A -> option unit) l : foldM (fun _ a => f a) tt l = Some tt <-> forall a, In a l -> f a = Some tt.
Proof.
  induction l as [|a l IH]; cbn [foldM]; [split; auto; intros _ a []|].
  destruct (f a) as [[]|] eqn:E; cbn [obind].
  - rewrite IH. split; [intros H b [<-|I]; auto|intros H b I; apply H; right; auto].
  - split; [discriminate|]. intros H. rewrite <- E. apply H. left; auto.
Qed.

Lemma checks_iff np cells layers : length layers = length cells ->
  foldM (fun _ p => check_request np (fst p) (snd p)) tt (combine cells layers) = Some tt <-> requests_ok np cells layers.
Proof.
  intros L. rewrite foldM_checks. split.
  - intros H. split; auto. intros i Hi. destruct (nth_error_lt_some cells i Hi) as [c Ec].
    destruct (nth_error_lt_some layers i) as [l El]; [lia|].
    assert (I : In (c, l) (combine cells layers)).
    { apply (nth_error_In _ i). revert layers L H El. revert i Hi Ec. induction cells as [|c0 cs IH]; intros [|i] Hi Ec [|l0 ls] L H El; cbn in *; try discriminate; try lia.
      - congruence.
      - apply (IH i); auto; try lia; try (intros a Ha; apply H; right; exact Ha). }
    apply H in I. cbn [fst snd] in I. apply check_request_ok in I. destruct I as (c' & l' & m & -> & -> & E & Hl). exists c', l', m. auto.
  - intros [_ H] [c l] I. cbn [fst snd]. apply check_request_ok. apply In_nth_error in I. destruct I as [i I].
    assert (E : nth_error cells i = Some c /\ nth_error layers i = Some l).
    { revert cells layers L H I. induction i as [|i IH]; intros [|c0 cs] [|l0 ls] L H I; cbn in *; try discriminate; try lia.
      - injection I as -> ->. auto.
      - apply (IH cs ls); auto. intros j Hj. apply (H (S j)); lia. }
    destruct E as [E1 E2]. destruct (H i) as (c' & l' & m & Q1 & Q2 & Q3 & Q4); [eapply nth_error_some_lt; eauto|].
    rewrite E1 in Q1. rewrite E2 in Q2. injection Q1 as ->. injection Q2 as ->. exists c', l', m. auto.
Qed.

Lemma get_particles_ok {R} d (zeroR : R) poolR poolZ junkR junkZ spR spZ qR qZ (g : group R) cells layers : device_ok d ->
  wf_group g -> spec_of spR (reals (st g)) -> spec_of spZ (ints (st g)) ->
  Permutation qR spR -> Permutation qZ spZ -> NoDup (map fst spR) -> NoDup (map fst spZ) ->
  (requests_ok (npart_cell g) cells layers ->
   exists ps, get_particles d zeroR poolR poolZ junkR junkZ spR spZ qR qZ g cells layers = Some ps /\
     returns g spR spZ ps cells layers) /\
  (~ requests_ok (npart_cell g) cells layers -> get_particles d zeroR poolR poolZ junkR junkZ spR spZ qR qZ g cells layers = None).
Proof.
  intros Dok W SR SZ PR PZ NR NZ. unfold get_particles. split.
  - intros Q. pose proof (proj1 Q) as L. rewrite L, Nat.eqb_refl; cbn [assert obind].
    rewrite (proj2 (checks_iff _ _ _ L) Q); cbn [obind]. apply get_device_correct; auto.
  - intros N. destruct (Nat.eqb_spec (length cells) (length layers)) as [L|L]; cbn [assert obind]; auto.
    symmetry in L. destruct (foldM _ tt (combine cells layers)) as [[]|] eqn:E; cbn [obind]; auto.
    apply (checks_iff _ _ _ L) in E. tauto.
Qed.

(** ** Sub-groups: [sel] lists the layers selected in each cell. *)
Lemma sub_get_ok {R} d (zeroR : R) poolR poolZ junkR junkZ spR spZ qR qZ (g : group R) sel cells layers : device_ok d ->
  wf_group g -> spec_of spR (reals (st g)) -> spec_of spZ (ints (st g)) ->
  Permutation qR spR -> Permutation qZ spZ -> NoDup (map fst spR) -> NoDup (map fst spZ) ->
  (forall c ls n, nth_error sel c = Some ls -> nth_error (npart_cell g) c = Some n -> forall l, In l ls -> l < n) ->
  length sel = length (npart_cell g) ->
  (requests_ok (map (@length nat) sel) cells layers ->
   exists ps inner, sub_get_particles d zeroR poolR poolZ junkR junkZ spR spZ qR qZ g sel cells layers = Some ps /\
     length inner = length cells /\
     (forall i c l, nth_error cells i = Some (Z.of_nat c) -> nth_error layers i = Some (Z.of_nat l) ->
        exists x, rd2 sel c l = Some x /\ nth_error inner i = Some (Z.of_nat x)) /\
     returns g spR spZ ps cells inner) /\
  (~ requests_ok (map (@length nat) sel) cells layers -> sub_get_particles d zeroR poolR poolZ junkR junkZ spR spZ qR qZ g sel cells layers = None).
Proof.
  intros Dok W SR SZ PR PZ NR NZ Sel Lsel. unfold sub_get_particles. split.
  - intros Q. pose proof (proj1 Q) as L. rewrite L, Nat.eqb_refl; cbn [assert obind].
    destruct (Nat.ltb_spec 0 (length cells)) as [Hn|Hn].
    + rewrite (proj2 (checks_iff _ _ _ L) Q); cbn [obind]. destruct Q as [_ Q].
      assert (A : forall i, i < length cells -> exists c l x n, nth_error cells i = Some (Z.of_nat c) /\ nth_error layers i = Some (Z.of_nat l) /\
         rd2 sel c l = Some x /\ nth_error (npart_cell g) c = Some n /\ x < n).
      { intros i Hi. destruct (Q i Hi) as (c & l & m & E1 & E2 & E3 & E4). rewrite nth_error_map in E3.
        destruct (nth_error sel c) as [ls|] eqn:E5; [|discriminate]. cbn in E3. injection E3 as <-.
        destruct (nth_error_lt_some ls l E4) as [x Ex]. destruct (nth_error_lt_some (npart_cell g) c) as [n En].
        { rewrite <- Lsel. eapply nth_error_some_lt; eauto. }
        exists c, l, x, n. repeat split; auto.
        - unfold rd2, rd. rewrite E5; cbn. auto.
        - eapply Sel; eauto. eapply nth_error_In; eauto. }
      set (x := fun i => match nth_error cells i, nth_error layers i with
          | Some c, Some l => match rd2 sel (Z.to_nat c) (Z.to_nat l) with Some x => Z.of_nat x | None => 0%Z end | _, _ => 0%Z end).
      destruct (foldM_upd (fun m i => upd m i (x i)) (fun i => i) x (ord d 513 (seq 0 (length cells))) (freshZ d 512 (length cells)))
        as (inner & E & Li & Wi & _); auto.
      { intros i I. apply (in_ord d _ _ _ Dok), in_seq in I. unfold freshZ. rewrite map_length, seq_length. lia. }
      assert (E' : foldM (fun buf i => cell <- rd cells i ;; layer <- rd layers i ;; l <- rd2 sel (Z.to_nat cell) (Z.to_nat layer) ;;
               upd buf i (Z.of_nat l)) (freshZ d 512 (length cells)) (ord d 513 (seq 0 (length cells))) = Some inner).
      { rewrite <- E. apply foldM_ext_in. intros i m I. apply (in_ord d _ _ _ Dok), in_seq in I.
        destruct (A i) as (c & l & y & n & E1 & E2 & E3 & _); [lia|]. unfold x, rd. rewrite E1, E2; cbn [obind]. rewrite !Nat2Z.id, E3. auto. }
      rewrite E'; cbn [obind].
      assert (Li' : length inner = length cells) by (rewrite Li; unfold freshZ; rewrite map_length, seq_length; auto).
      assert (B : forall i c l, nth_error cells i = Some (Z.of_nat c) -> nth_error layers i = Some (Z.of_nat l) ->
        exists x, rd2 sel c l = Some x /\ nth_error inner i = Some (Z.of_nat x)).
      { intros i c l E1 E2. assert (Hi : i < length cells) by (eapply nth_error_some_lt; eauto).
        destruct (A i Hi) as (c' & l' & y & n & E1' & E2' & E3 & _). rewrite E1 in E1'. rewrite E2 in E2'.
        injection E1' as Q1. injection E2' as Q2. apply Nat2Z.inj in Q1, Q2. subst c' l'. exists y. split; auto.
        rewrite (Wi i) by (apply (in_ord d _ _ _ Dok), in_seq; lia). unfold x. rewrite E1, E2, !Nat2Z.id, E3. auto. }
      destruct (get_device_correct d zeroR poolR poolZ junkR junkZ spR spZ qR qZ g cells inner Dok W SR SZ PR PZ NR NZ) as (ps & Eps & Rt).
      { split; auto. intros i Hi. destruct (A i Hi) as (c & l & y & n & E1 & E2 & E3 & E4 & E5).
        destruct (B i c l E1 E2) as (y' & E3' & E6). rewrite E3 in E3'. injection E3' as <-. exists c, y, n. auto. }
      exists ps, inner. split; auto.
    + assert (L0 : length cells = 0) by lia.
      destruct (get_device_correct d zeroR poolR poolZ junkR junkZ spR spZ qR qZ g cells [] Dok W SR SZ PR PZ NR NZ) as (ps & Eps & Rt).
      { split; [cbn; lia|]. intros i Hi. lia. }
      unfold get_particles_device in Eps. rewrite L0 in Eps. cbn [Nat.ltb Nat.leb] in Eps.
      exists ps, []. split; [exact Eps|]. split; [cbn; lia|]. split; [|exact Rt].
      intros i c l E1. apply nth_error_some_lt in E1. lia.
  - intros N. destruct (Nat.eqb_spec (length cells) (length layers)) as [L|L]; cbn [assert obind]; auto.
    symmetry in L. destruct (Nat.ltb_spec 0 (length cells)) as [Hn|Hn].
    + destruct (foldM _ tt (combine cells layers)) as [[]|] eqn:E; cbn [obind]; auto.
      apply (checks_iff _ _ _ L) in E. tauto.
    + exfalso. apply N. split; auto. intros i Hi. lia.
Qed.

(** ** get_particles then add_particles_local *)
Lemma flat_map_nth_values {V} (zero : V) (sp : pspec) (h : nat * nat -> list V) : (forall e, In e sp -> length (h e) = snd e) ->
  forall vs, length vs = list_sum (map snd sp) ->
  (forall p e cx, nth_error sp p = Some e -> cx < snd e -> nth_error (h e) cx = nth_error vs (comp_offset sp p + cx)) ->
  flat_map h sp = vs.
Proof.
  induction sp as [|e sp IH]; intros H vs L A.
  - cbn in *. destruct vs; auto; discriminate.
  - cbn [flat_map map list_sum fold_right] in *. change (fold_right Nat.add 0 (map snd sp)) with (list_sum (map snd sp)) in L.
    rewrite <- (firstn_skipn (snd e) vs). f_equal.
    + apply nth_error_ext. intros i. rewrite nth_error_firstn. destruct (Nat.ltb_spec i (snd e)).
      * rewrite (A 0 e i eq_refl) by auto. f_equal.
      * apply nth_error_None. rewrite H; [auto|left; auto].
    + apply IH; [intros; apply H; right; auto|rewrite skipn_length; lia|].
      intros p e' cx E C. rewrite nth_error_skipn. rewrite (A (S p) e' cx E C). f_equal.
      rewrite !comp_offset_firstn. cbn [firstn map list_sum fold_right]. change (fold_right Nat.add 0 (map snd (firstn p sp))) with (list_sum (map snd (firstn p sp))). lia.
Qed.

Lemma set_values_of {V} (zero : V) (sp : pspec) n (s : hset V) i vs : NoDup (map fst sp) -> hset_ok n s -> i < n ->
  (forall sym nc, In (sym, nc) sp -> look (hs_ncomp s) sym = Some nc) ->
  length vs = list_sum (map snd sp) ->
  (forall p sym nc cx, nth_error sp p = Some (sym, nc) -> cx < nc -> hs_at n s sym i cx = nth_error vs (comp_offset sp p + cx)) ->
  set_ok sp (hs_vals s) n /\ set_values zero sp (hs_vals s) n i = vs.
Proof.
  intros ND Ok Hi Nc L A. split.
  - intros sym nc data I E. specialize (Ok sym). change (look (hs_vals s) sym = Some data) in E. rewrite E, (Nc sym nc I) in Ok. lia.
  - unfold set_values. apply flat_map_nth_values; auto.
    + intros [sym nc] I. cbn [fst snd]. destruct (pset_get (hs_vals s) sym); rewrite ?map_length, ?seq_length, ?repeat_length; auto.
    + intros p [sym nc] cx E C. cbn [fst snd] in *. pose proof (nth_error_In _ _ E) as I. pose proof (Ok sym) as O.
      rewrite (Nc sym nc I) in O. change (pset_get (hs_vals s) sym) with (look (hs_vals s) sym).
      rewrite <- (A p sym nc cx E C). unfold hs_at. destruct (look (hs_vals s) sym) as [data|]; [|tauto].
      cbn [obind]. rewrite nth_error_map, nth_error_seq. destruct (Nat.ltb_spec cx nc); [|lia]. cbn [option_map].
      assert (B : cx * n + i < length data) by (rewrite O; apply elt_bound; auto).
      unfold rd. destruct (nth_error_lt_some data _ B) as [v Ev]. rewrite Ev. f_equal. apply nth_error_nth. auto.
Qed.

Lemma particle_lengths {R} (g : group R) c l vs zs : particle_at (st g) c l = Some (vs, zs) ->
  length vs = length (reals (st g)) /\ length zs = length (ints (st g)).
Proof.
  unfold particle_at. destruct (mapM _ (reals (st g))) as [a|] eqn:E; [|discriminate].
  destruct (mapM _ (ints (st g))) as [b|] eqn:F; [|discriminate]. intros [= <- <-].
  rewrite (mapM_length _ _ _ E), (mapM_length _ _ _ F). auto.
Qed.

Lemma returned_values {R} (zeroR : R) (g : group R) spR spZ ps cells layers :
  spec_of spR (reals (st g)) -> spec_of spZ (ints (st g)) -> NoDup (map fst spR) -> NoDup (map fst spZ) ->
  returns g spR spZ ps cells layers ->
  set_ok spR (hs_vals (ps_real ps)) (ps_n ps) /\ set_ok spZ (hs_vals (ps_int ps)) (ps_n ps) /\
  forall i c l, nth_error cells i = Some (Z.of_nat c) -> nth_error layers i = Some (Z.of_nat l) ->
    particle_at (st g) c l =
      Some (set_values zeroR spR (hs_vals (ps_real ps)) (ps_n ps) i, set_values 0%Z spZ (hs_vals (ps_int ps)) (ps_n ps) i).
Proof.
  intros SR SZ NR NZ (N & OR & OZ & [_ HR] & [_ HZ] & P).
  assert (K : forall (V : Type) (s : hset V) sp, hset_ok (ps_n ps) s -> (forall sym nc, In (sym, nc) sp -> look (hs_ncomp s) sym = Some nc) ->
     set_ok sp (hs_vals s) (ps_n ps)).
  { intros V s sp Ok Nc sym nc data I E. specialize (Ok sym). change (look (hs_vals s) sym = Some data) in E. rewrite E, (Nc sym nc I) in Ok. lia. }
  split; [auto|]. split; [auto|]. intros i c l E1 E2. destruct (P i c l E1 E2) as (vs & zs & E & A & B).
  assert (Hi : i < ps_n ps) by (rewrite N; eapply nth_error_some_lt; eauto).
  destruct (particle_lengths g c l vs zs E) as [L1 L2]. rewrite E. f_equal. f_equal; symmetry.
  - apply (set_values_of zeroR spR (ps_n ps) (ps_real ps) i vs); auto; [rewrite L1; auto|].
    intros p sym nc cx Ep C. rewrite comp_offset_firstn. eapply A; eauto.
  - apply (set_values_of 0%Z spZ (ps_n ps) (ps_int ps) i zs); auto; [rewrite L2; auto|].
    intros p sym nc cx Ep C. rewrite comp_offset_firstn. eapply B; eauto.
Qed.

Lemma hs_column_data {V} n (s : hset V) sym (l : list V) : hset_ok n s -> look (hs_ncomp s) sym = Some 1 -> length l = n ->
  (forall i, i < n -> hs_at n s sym i 0 = nth_error l i) -> look (hs_vals s) sym = Some l.
Proof.
  intros Ok Nc L H. specialize (Ok sym). rewrite Nc in Ok. unfold hs_at in H. destruct (look (hs_vals s) sym) as [v|]; [|tauto].
  f_equal. apply nth_error_ext. intros i. destruct (Nat.ltb_spec i n) as [A|A].
  - rewrite <- (H i A). cbn [obind]. unfold rd. f_equal.
  - rewrite !(proj2 (nth_error_None _ _)); auto; lia.
Qed.

Lemma mapM_some_map {A B} (f : A -> option B) h l : (forall a, In a l -> f a = Some (h a)) -> mapM f l = Some (map h l).
Proof.
  induction l as [|a l IH]; intros H; cbn [mapM map]; auto. rewrite (H a) by (left; auto). cbn [obind].
  rewrite IH by (intros; apply H; right; auto). auto.
Qed.
