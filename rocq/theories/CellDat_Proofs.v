(** Proofs about CellDat. *)
From Coq Require Import List Arith Lia Bool ZArith Permutation.
Import ListNotations.
From Verif Require Import Base Kernel Transpose_Proofs CellDat_Model CellDat_Spec.

(* ------------------------------------------------------------------ *)
(** Memory. *)
Section Mem.
Context {T : Type}.
Implicit Types h : heap T.

Definition lookup h (b o : nat) : option T := blk <- rd h b ;; l <- blk ;; rd l o.
Definition size h (b : nat) : option nat := blk <- rd h b ;; l <- blk ;; Some (length l).
Definition put h (b o : nat) (v : T) : option (heap T) :=
  blk <- rd h b ;; l <- blk ;; l' <- upd l o v ;; upd h b (Some l').

Lemma load_lookup h b o i : load h (Some (b, o)) i = lookup h b (o + i).
Proof. reflexivity. Qed.
Lemma store_put h b o i v : store h (Some (b, o)) i v = put h b (o + i) v.
Proof. reflexivity. Qed.

Lemma lookup_some h b o n : size h b = Some n -> o < n -> exists v, lookup h b o = Some v.
Proof.
  unfold size, lookup. destruct (rd h b) as [[l|]|]; cbn; try discriminate.
  intros [= <-] H. apply nth_error_lt_some. auto.
Qed.
Lemma lookup_size h b o v : lookup h b o = Some v -> exists n, size h b = Some n /\ o < n.
Proof.
  unfold size, lookup. destruct (rd h b) as [[l|]|]; cbn; try discriminate.
  intros H. eexists; split; eauto. eapply nth_error_some_lt; eauto.
Qed.
Lemma size_lt h b n : size h b = Some n -> b < length h.
Proof. unfold size, rd. destruct (nth_error h b) eqn:E; cbn; [|discriminate]. intros _. eapply nth_error_some_lt; eauto. Qed.
Lemma lookup_lt h b o v : lookup h b o = Some v -> b < length h.
Proof. intros H. destruct (lookup_size _ _ _ _ H) as [n [E _]]. eapply size_lt; eauto. Qed.

Lemma put_some h b o v n : size h b = Some n -> o < n -> exists h', put h b o v = Some h'.
Proof.
  unfold size, put, rd. destruct (nth_error h b) as [[l|]|] eqn:E; cbn; try discriminate.
  intros [= <-] H. destruct (upd_some l o v H) as [l' El]. rewrite El; cbn.
  apply upd_some. eapply nth_error_some_lt; eauto.
Qed.

Lemma put_facts h b o v h' : put h b o v = Some h' ->
  length h' = length h /\ (forall b', size h' b' = size h b') /\
  (forall b' o', lookup h' b' o' = if (b' =? b) && (o' =? o) then Some v else lookup h b' o').
Proof.
  unfold put, rd. destruct (nth_error h b) as [[l|]|] eqn:E; cbn; try discriminate.
  destruct (upd l o v) as [l'|] eqn:El; cbn; [|discriminate]. intros Eh. split; [|split].
  - eapply upd_length; eauto.
  - intros b'. unfold size, rd. rewrite (upd_nth _ _ _ _ b' Eh). destruct (Nat.eqb_spec b' b) as [->|]; auto.
    rewrite E. cbn. f_equal. eapply upd_length; eauto.
  - intros b' o'. unfold lookup, rd. rewrite (upd_nth _ _ _ _ b' Eh). destruct (Nat.eqb_spec b' b) as [->|]; cbn [andb obind]; auto.
    rewrite (upd_nth _ _ _ _ o' El), E. cbn. reflexivity.
Qed.

(** Writing [val i] to [(b, o + i)] for all [i < n]. *)
Definition filled h b o n (val : nat -> option T) h' :=
  length h' = length h /\ (forall b', size h' b' = size h b') /\
  (forall b' o', lookup h' b' o' = if (b' =? b) && (o <=? o') && (o' <? o + n) then val (o' - o) else lookup h b' o').

Lemma foldM_put (f : heap T -> nat -> option (heap T)) h b o n (val : nat -> option T) s :
  size h b = Some s -> o + n <= s ->
  (forall i, i < n -> exists v, val i = Some v) ->
  (forall h' i v, i < n -> val i = Some v -> filled h b o i val h' -> f h' i = put h' b (o + i) v) ->
  exists h', foldM f h (seq 0 n) = Some h' /\ filled h b o n val h'.
Proof.
  intros Sz L V F. induction n as [|n IH].
  - exists h. split; [reflexivity|]. split; [|split]; auto. intros b' o'.
    destruct (Nat.eqb_spec b' b), (Nat.leb_spec o o'), (Nat.ltb_spec o' (o + 0)); cbn; auto; lia.
  - destruct IH as [h1 [E1 Fl]]; [lia| | |].
    { intros i Hi. apply V. lia. } { intros h' i v Hi. apply F. lia. }
    rewrite (seq_app n 1 0), foldM_app || rewrite seq_S, foldM_app. rewrite E1. cbn [obind seq foldM Nat.add].
    destruct (V n) as [v Ev]; [lia|].
    rewrite (F h1 n v) by (auto; lia).
    destruct Fl as [L1 [S1 K1]].
    destruct (put_some h1 b (o + n) v s) as [h2 E2]; [rewrite S1; auto|lia|].
    rewrite E2. cbn [obind]. exists h2. split; [reflexivity|].
    destruct (put_facts _ _ _ _ _ E2) as [L2 [S2 K2]]. split; [congruence|]. split; [intros; rewrite S2; auto|].
    intros b' o'. rewrite K2, K1.
    destruct (Nat.eqb_spec b' b), (Nat.eqb_spec o' (o + n)), (Nat.leb_spec o o'), (Nat.ltb_spec o' (o + n)), (Nat.ltb_spec o' (o + S n));
      cbn; auto; try lia.
    subst. rewrite <- Ev. f_equal. lia.
Qed.

Lemma memcpy_correct h bd od bs os n nd ns :
  bs <> bd -> size h bd = Some nd -> od + n <= nd -> size h bs = Some ns -> os + n <= ns ->
  exists h', memcpy h (Some (bd, od)) (Some (bs, os)) n = Some h' /\
    filled h bd od n (fun i => lookup h bs (os + i)) h'.
Proof.
  intros N Sd Ld Ss Ls. unfold memcpy.
  apply (foldM_put _ h bd od n _ nd Sd Ld).
  - intros i Hi. eapply lookup_some; eauto. lia.
  - intros h' i v Hi Ev [_ [_ K]]. rewrite load_lookup, K.
    destruct (Nat.eqb_spec bs bd); [contradiction|]. cbn [andb]. rewrite Ev. reflexivity.
Qed.

Lemma release_correct h b n : size h b = Some n ->
  exists h', release h (Some (b, 0)) = Some h' /\ length h' = length h /\ size h' b = None /\
    (forall b', b' <> b -> size h' b' = size h b') /\ (forall b' o, b' <> b -> lookup h' b' o = lookup h b' o).
Proof.
  unfold release, size, rd. cbn. destruct (nth_error h b) as [[l|]|] eqn:E; cbn; try discriminate. intros _.
  destruct (upd_some h b None) as [h' Eh]; [eapply nth_error_some_lt; eauto|]. exists h'. split; auto.
  split; [eapply upd_length; eauto|]. split; [rewrite (upd_nth_eq _ _ _ _ Eh); auto|]. split.
  - intros b' N. rewrite (upd_nth_neq _ _ _ _ b' Eh N). auto.
  - intros b' o N. unfold lookup, rd. rewrite (upd_nth_neq _ _ _ _ b' Eh N). auto.
Qed.

Lemma malloc_facts (junk : nat -> nat -> T) h n p h' : malloc junk h n = (p, h') ->
  p = Some (length h, 0) /\ length h' = S (length h) /\ size h' (length h) = Some n /\
  (forall b, b < length h -> size h' b = size h b) /\ (forall b o, b < length h -> lookup h' b o = lookup h b o).
Proof.
  unfold malloc. intros [= <- <-]. split; auto. split; [rewrite app_length; cbn; lia|].
  unfold size, lookup, rd. split; [|split].
  - rewrite nth_error_app2, Nat.sub_diag by lia. cbn. rewrite map_length, seq_length; auto.
  - intros b Hb. rewrite nth_error_app1; auto.
  - intros b o Hb. rewrite nth_error_app1; auto.
Qed.

(** Releasing distinct live blocks. *)
Definition blocks (ps : list ptr) : list nat := flat_map (fun p => match p with Some (b, _) => [b] | None => [] end) ps.

Lemma release_all (ps : list ptr) : forall h,
  (forall b o, In (Some (b, o)) ps -> o = 0 /\ exists n, size h b = Some n) -> NoDup (blocks ps) ->
  exists h', foldM (fun m p => match p with None => Some m | Some _ => release m p end) h ps = Some h' /\
    (forall b, ~ In b (blocks ps) -> size h' b = size h b) /\
    (forall b o, ~ In b (blocks ps) -> lookup h' b o = lookup h b o).
Proof.
  induction ps as [|[[b o]|] ps IH]; intros h L N; cbn [foldM].
  - exists h. repeat split; auto.
  - cbn in N. apply NoDup_cons_iff in N. destruct N as [Nb N].
    destruct (L b o) as [-> [n Sz]]; [left; auto|].
    destruct (release_correct h b n Sz) as [h1 [E1 [_ [_ [S1 K1]]]]]. rewrite E1. cbn [obind].
    destruct (IH h1) as [h' [E' [S' K']]]; auto.
    { intros b' o' I. destruct (L b' o') as [-> [n' Sz']]; [right; auto|]. split; auto. exists n'. rewrite S1; auto.
      intros ->. apply Nb. unfold blocks. apply in_flat_map. exists (Some (b, 0)). split; auto. left; auto. }
    exists h'. split; auto. cbn. split; intros.
    + rewrite S', S1; auto.
    + rewrite K', K1; auto.
  - cbn [obind]. apply IH; auto. intros b o I. apply L. right; auto.
Qed.
End Mem.

(* ------------------------------------------------------------------ *)
(** The invariant. *)
Section Inv.
Context {T : Type}.
Implicit Types s : celldat T.

Definition dsts (es : list event) : list ptr :=
  flat_map (fun e => match e with CopyCol d _ _ => [d] | CopyPtrs _ => [] end) es.

Definition hcol s c j : option ptr := nth_error (h_cols s) (c * ncol s + j).
Definition owns s c b : Prop := c < ncells s /\ hcol s c 0 = Some (Some (b, 0)).

Definition allocated s c b a :=
  nth_error (nrow_alloc s) c = Some a /\ 0 < a /\ size (mem s) b = Some (a * ncol s) /\
  forall j, j < ncol s -> hcol s c j = Some (Some (b, j * a)).

Definition unallocated s c :=
  nth_error (nrow_alloc s) c = Some 0 /\ forall j, j < ncol s -> hcol s c j = Some None.

Definition event_ok s (dirty : list nat) (e : event) : Prop :=
  match e with
  | CopyCol dst src n => exists c j b a bs os ns, c < ncells s /\ j < ncol s /\ In c dirty /\
      allocated s c b a /\ dst = Some (b, j * a) /\ n <= a /\ src = Some (bs, os) /\
      size (mem s) bs = Some ns /\ os + n <= ns /\ forall c', ~ owns s c' bs
  | CopyPtrs c => c < ncells s /\ In c dirty
  end.

Definition holds s (known : nat -> nat -> nat -> option T) : Prop :=
  forall c r j v, known c r j = Some v -> c < ncells s /\ j < ncol s /\
    exists b a, allocated s c b a /\
    ((exists src n, In (CopyCol (Some (b, j * a)) src n) (stack_events s) /\ r < n /\ load (mem s) src r = Some v) \/
     (~ In (Some (b, j * a)) (dsts (stack_events s)) /\ lookup (mem s) b (j * a + r) = Some v)).

Definition is_min (m : Z) (l : list nat) := exists n, m = Z.of_nat n /\ In n l /\ forall x, In x l -> n <= x.

Record inv s (t : table T) : Prop := {
  i_ncol : 1 <= ncol s;
  i_hcells : h_cells s = map (fun c => c * ncol s) (seq 0 (ncells s));
  i_dcells : d_cells s = map (fun c => c * ncol s) (seq 0 (ncells s));
  i_hcols : length (h_cols s) = ncells s * ncol s;
  i_dcols : length (d_cols s) = ncells s * ncol s;
  i_nrow : nrow s = map (rows t) (seq 0 (ncells s));
  i_alloc : length (nrow_alloc s) = ncells s;
  i_rows : forall c a, nth_error (nrow_alloc s) c = Some a -> rows t c <= a;
  i_cells : forall c, c < ncells s -> unallocated s c \/ exists b a, allocated s c b a;
  i_inj : forall c c' b, owns s c b -> owns s c' b -> c = c';
  i_events : forall e, In e (stack_events s) -> event_ok s (dirty t) e;
  i_dsts : NoDup (dsts (stack_events s));
  i_ptrs : forall c, c < ncells s -> unallocated s c \/ In (CopyPtrs c) (stack_events s) \/
             forall j, j < ncol s -> nth_error (d_cols s) (c * ncol s + j) = hcol s c j;
  i_known : holds s (known t);
  i_below : forall c r j v, known t c r j = Some v -> r < rows t c;
  i_stack : forall b o, In (Some (b, o)) (stack_ptrs s) ->
              o = 0 /\ (exists n, size (mem s) b = Some n) /\ forall c, ~ owns s c b;
  i_stack_nodup : NoDup (blocks (stack_ptrs s));
  i_max : nrow_max s = (-1)%Z \/ (nrow_max s = Z.of_nat (list_max (nrow s)) /\
            (is_min (nrow_min s) (nrow s) \/ (nrow_min s = (-1)%Z /\ forall x, In x (nrow s) -> x = 0))) }.

Lemma idx_lt c n k j : c < n -> j < k -> c * k + j < n * k.
Proof. intros. assert (c * k + k <= n * k) by (replace (c * k + k) with (S c * k) by lia; apply Nat.mul_le_mono_r; lia). lia. Qed.

Lemma allocated_owns s c b a : 1 <= ncol s -> c < ncells s -> allocated s c b a -> owns s c b.
Proof. intros N C (_ & _ & _ & H). split; auto. rewrite H by lia. reflexivity. Qed.

Lemma allocated_inj s c b a b' a' : 1 <= ncol s -> allocated s c b a -> allocated s c b' a' -> b = b' /\ a = a'.
Proof.
  intros N (A & _ & _ & H) (A' & _ & _ & H'). split; [|congruence].
  specialize (H 0). specialize (H' 0). rewrite H in H' by lia. specialize (H' ltac:(lia)). congruence.
Qed.

Lemma create_inv (junk_ptr : nat -> ptr) ncells ncol : 1 <= ncol -> inv (create junk_ptr ncells ncol) (@empty T).
Proof.
  intros N. unfold create, empty. constructor; cbn; auto; try (intros; contradiction); try apply NoDup_nil.
  - apply repeat_length.
  - rewrite map_length, seq_length; auto.
  - apply nth_error_ext. intros i. rewrite nth_error_map_seq. destruct (Nat.ltb_spec i ncells).
    + apply nth_error_repeat; auto.
    + apply nth_error_None. rewrite repeat_length; auto.
  - apply repeat_length.
  - intros. lia.
  - intros c Hc. left. split; cbn.
    + apply nth_error_repeat; auto.
    + intros j Hj. unfold hcol; cbn. apply nth_error_repeat. apply idx_lt; auto.
  - intros c c' b [Hc E]. unfold hcol in E; cbn in E, Hc. rewrite nth_error_repeat in E; [discriminate|].
    rewrite Nat.add_0_r. pose proof (idx_lt c ncells ncol 0 Hc). lia.
  - intros c Hc. left. split; cbn.
    + apply nth_error_repeat; auto.
    + intros j Hj. unfold hcol; cbn. apply nth_error_repeat. apply idx_lt; auto.
  - intros c r j v H. discriminate.
  - intros. discriminate.
  - right. split; [f_equal; clear; induction ncells; cbn; auto|]. right. split; auto. apply repeat_spec.
Qed.

Lemma inv_dirty s t d : inv s t -> incl (dirty t) d -> inv s (mk_table (rows t) (known t) d).
Proof.
  intros I H. destruct I. constructor; cbn; auto.
  intros e He. specialize (i_events0 e He). destruct e as [dst src n|c]; cbn in *.
  - destruct i_events0 as (c & j & b & a & bs & os & ns & ? & ? & D & R). exists c, j, b, a, bs, os, ns. split; auto.
  - destruct i_events0; auto.
Qed.

Lemma set_rows_inv s t rs : inv s t ->
  (forall c a, nth_error (nrow_alloc s) c = Some a -> rs c <= a) ->
  inv (set_rows s (map rs (seq 0 (ncells s)))) (mk_table rs (keep rs (known t)) (dirty t)).
Proof.
  intros I H. destruct I. constructor; cbn; auto.
  - intros c r j v. unfold keep. destruct (r <? rs c); [|discriminate]. apply i_known0.
  - intros c r j v. unfold keep. destruct (Nat.ltb_spec r (rs c)); [auto|discriminate].
Qed.

(** The loop over the columns, L183-192. *)
Lemma realloc_cols (hc : list ptr) (es : list event) k n nb cell alloced na p existing :
  (forall j, j < k -> cell * n + j < length hc) ->
  exists hc',
  foldM (fun ce colx =>
      let col_ptr_old := padd p (colx * alloced) in
      let col_ptr_new := padd (Some (nb, 0)) (colx * na) in
      let es := if 0 <? alloced then snd ce ++ [CopyCol col_ptr_new col_ptr_old existing] else snd ce in
      hc <- upd (fst ce) (cell * n + colx) col_ptr_new ;;
      Some (hc, es)) (hc, es) (seq 0 k) =
  Some (hc', es ++ (if 0 <? alloced then map (fun j => CopyCol (Some (nb, j * na)) (padd p (j * alloced)) existing) (seq 0 k) else [])) /\
  length hc' = length hc /\
  forall i, nth_error hc' i = if (cell * n <=? i) && (i <? cell * n + k) then Some (Some (nb, (i - cell * n) * na)) else nth_error hc i.
Proof.
  induction k as [|k IH]; intros H.
  - exists hc. cbn [seq foldM map]. split; [destruct (0 <? alloced); rewrite app_nil_r; auto|]. split; auto.
    intros i. destruct (Nat.leb_spec (cell * n) i), (Nat.ltb_spec i (cell * n + 0)); cbn; auto; lia.
  - destruct IH as [h1 [E1 [L1 N1]]]; [intros; apply H; lia|].
    rewrite seq_S, foldM_app, E1. cbn [obind foldM Nat.add fst snd].
    destruct (upd_some h1 (cell * n + k) (padd (Some (nb, 0)) (k * na))) as [h2 E2]; [rewrite L1; apply H; lia|].
    rewrite E2. cbn [obind]. exists h2. split; [|split].
    + f_equal. f_equal. destruct (0 <? alloced); [rewrite map_app, app_assoc|]; auto.
    + rewrite (upd_length _ _ _ _ E2); auto.
    + intros i. rewrite (upd_nth _ _ _ _ i E2), N1.
      destruct (Nat.eqb_spec i (cell * n + k)), (Nat.leb_spec (cell * n) i), (Nat.ltb_spec i (cell * n + k)), (Nat.ltb_spec i (cell * n + S k)); cbn; auto; try lia.
      subst. do 3 f_equal. lia.
Qed.

Lemma cell_cases s t c : inv s t -> c < ncells s ->
  exists a, nth_error (nrow_alloc s) c = Some a /\
   ((a = 0 /\ unallocated s c) \/ (0 < a /\ exists b, allocated s c b a)).
Proof.
  intros I C. destruct (i_cells _ _ I c C) as [U|[b [a A]]].
  - exists 0. destruct U as [U1 U2]. split; auto. left. split; auto. split; auto.
  - exists a. pose proof A as (A1 & A2 & _). split; auto. right. split; auto. exists b; auto.
Qed.

Lemma dsts_app e1 e2 : dsts (e1 ++ e2) = dsts e1 ++ dsts e2.
Proof. apply flat_map_app. Qed.

Lemma dsts_in d es : In d (dsts es) <-> exists src n, In (CopyCol d src n) es.
Proof.
  unfold dsts. rewrite in_flat_map. split.
  - intros [[d' src n|c] [I H]]; cbn in H; [|tauto]. destruct H as [<-|[]]. eauto.
  - intros (src & n & I). eexists; split; [exact I|]. left; auto.
Qed.

Lemma realloc_inv (junk : nat -> nat -> T) (grow : nat -> nat -> nat) s t cell required : inv s t -> cell < ncells s -> ~ In cell (dirty t) ->
  nth cell (nrow_alloc s) 0 < required ->
  exists s1, realloc junk grow s cell required = Some s1 /\
    inv s1 (mk_table (rows t) (known t) (cell :: dirty t)) /\
    nrow s1 = nrow s /\ ncells s1 = ncells s /\ ncol s1 = ncol s /\
    (exists a, nth_error (nrow_alloc s1) cell = Some a /\ required <= a) /\
    (forall c, c <> cell -> nth_error (nrow_alloc s1) c = nth_error (nrow_alloc s) c).
Proof.
  intros I C ND HR. destruct (cell_cases s t cell I C) as [a [Ea CA]].
  erewrite nth_error_nth in HR by eauto.
  unfold realloc, rd. rewrite Ea. cbn [obind].
  assert (Er : nth_error (nrow s) cell = Some (rows t cell)).
  { rewrite (i_nrow _ _ I), nth_error_map_seq. destruct (Nat.ltb_spec cell (ncells s)) as [_|]; [reflexivity|lia]. }
  rewrite Er. cbn [obind].
  pose proof (i_ncol _ _ I) as N1.
  set (na := Nat.max required (grow cell required)).
  assert (HP : exists p, nth_error (h_cols s) (cell * ncol s) = Some p /\
    ((p = None /\ a = 0) \/ exists b, p = Some (b, 0) /\ 0 < a /\ allocated s cell b a)).
  { destruct CA as [[-> U]|[Pa [b A]]].
    - exists None. destruct U as [_ U]. specialize (U 0). unfold hcol in U. rewrite Nat.add_0_r in U. split; auto.
    - exists (Some (b, 0)). pose proof A as (_ & _ & _ & U). specialize (U 0). unfold hcol in U. rewrite Nat.add_0_r in U.
      rewrite U by lia. split; auto. right. exists b. auto. }
  destruct HP as [p [Ep HP]]. rewrite Ep. cbn [obind].
  destruct (malloc junk (mem s) (na * ncol s)) as [pn m] eqn:EM.
  destruct (malloc_facts _ _ _ _ _ EM) as (-> & Lm & Sn & Sm & Km). set (nb := length (mem s)) in *.
  destruct (realloc_cols (h_cols s) (stack_events s) (ncol s) (ncol s) nb cell a na p (rows t cell)) as [hc [EF [Lh Nh]]].
  { intros j Hj. rewrite (i_hcols _ _ I). apply idx_lt; auto. }
  match type of EF with _ = ?r =>
  match goal with |- context [foldM ?f ?x ?y] => replace (foldM f x y) with r by (symmetry; exact EF) end end.
  cbn [obind fst snd].
  destruct (upd_some (nrow_alloc s) cell na) as [al EA]; [rewrite (i_alloc _ _ I); auto|]. rewrite EA. cbn [obind].
  eexists. split; [reflexivity|]. cbn [nrow ncells ncol nrow_alloc].
  set (newev := if 0 <? a then map (fun j => CopyCol (Some (nb, j * na)) (padd p (j * a)) (rows t cell)) (seq 0 (ncol s)) else []).
  set (s1 := mk_cd _ _ _ _ hc _ _ al _ _ m _ _).
  assert (Hna : required <= na) by (unfold na; lia).
  assert (Hna1 : a < na) by lia.
  assert (HC : forall c j, c < ncells s -> j < ncol s -> hcol s1 c j = if c =? cell then Some (Some (nb, j * na)) else hcol s c j).
  { intros c j Hc Hj. unfold hcol; cbn. rewrite Nh. destruct (Nat.eqb_spec c cell) as [->|N].
    - destruct (Nat.leb_spec (cell * ncol s) (cell * ncol s + j)), (Nat.ltb_spec (cell * ncol s + j) (cell * ncol s + ncol s)); cbn; try lia.
      do 3 f_equal. lia.
    - destruct (Nat.leb_spec (cell * ncol s) (c * ncol s + j)), (Nat.ltb_spec (c * ncol s + j) (cell * ncol s + ncol s)); cbn; auto.
      exfalso. apply N. destruct (Nat.lt_trichotomy c cell) as [L|[L|L]]; auto; exfalso.
      + pose proof (idx_lt c cell (ncol s) j L Hj). lia.
      + assert (S cell * ncol s <= c * ncol s) by (apply Nat.mul_le_mono_r; lia). cbn in H1. lia. }
  assert (AO : forall c b a', c < ncells s -> c <> cell -> allocated s c b a' -> allocated s1 c b a').
  { intros c b a' Hc N (A1 & A2 & A3 & A4). split; [cbn; rewrite (upd_nth_neq _ _ _ _ c EA N); auto|]. split; auto.
    split; [cbn; rewrite Sm; auto; eapply size_lt; eauto|].
    intros j Hj. cbn in Hj. rewrite HC by auto. destruct (Nat.eqb_spec c cell); [contradiction|]. auto. }
  assert (UO : forall c, c < ncells s -> c <> cell -> unallocated s c -> unallocated s1 c).
  { intros c Hc N (A1 & A2). split; [cbn; rewrite (upd_nth_neq _ _ _ _ c EA N); auto|].
    intros j Hj. cbn in Hj. rewrite HC by auto. destruct (Nat.eqb_spec c cell); [contradiction|]. auto. }
  assert (AN : allocated s1 cell nb na).
  { split; [cbn; apply (upd_nth_eq _ _ _ _ EA)|]. split; [lia|]. split; [exact Sn|].
    intros j Hj. cbn in Hj. rewrite HC, Nat.eqb_refl; auto. }
  assert (OW : forall c b, owns s1 c b -> (c = cell /\ b = nb) \/ (c <> cell /\ owns s c b)).
  { intros c b [Hc E]. cbn in Hc. rewrite HC in E by (auto; lia). destruct (Nat.eqb_spec c cell) as [->|N].
    - left. split; auto. congruence.
    - right. split; auto. split; auto. }
  assert (LiveOwn : forall c b, owns s c b -> b < nb).
  { intros c b [Hc E]. destruct (i_cells _ _ I c Hc) as [[_ U]|[b' [a' A]]].
    - rewrite U in E by lia. discriminate.
    - pose proof A as (_ & _ & Sz & U). rewrite U in E by lia. assert (b' = b) by congruence. subst. eapply size_lt; eauto. }
  assert (OldNotOwned : forall b, p = Some (b, 0) -> 0 < a -> allocated s cell b a -> forall c, ~ owns s1 c b).
  { intros b -> Pa A c O. apply allocated_owns in A; auto. destruct (OW _ _ O) as [[-> ->]|[N O']].
    - apply LiveOwn in A. lia.
    - apply N. eapply (i_inj _ _ I); eauto. }
  assert (EVold : forall dst src n, In (CopyCol dst src n) (stack_events s) ->
     exists c j b a', c < ncells s /\ c <> cell /\ j < ncol s /\ allocated s c b a' /\ dst = Some (b, j * a') /\ b < nb).
  { intros dst src n He. apply (i_events _ _ I) in He. cbn in He.
    destruct He as (c & j & b & a' & bs & os & ns & X1 & X2 & X3 & X4 & X5 & _). exists c, j, b, a'.
    split; auto. split; [intros ->; contradiction|]. split; auto. split; auto. split; auto.
    destruct X4 as (_ & _ & Sz & _). eapply size_lt; eauto. }
  split; [|split; [auto|split; [auto|split; [auto|split]]]].
  2: { exists na. split; [apply (upd_nth_eq _ _ _ _ EA)|auto]. }
  2: { intros c N. apply (upd_nth_neq _ _ _ _ c EA N). }
  constructor; cbn; try (destruct I; assumption).
  - rewrite Lh. apply (i_hcols _ _ I).
  - rewrite (upd_length _ _ _ _ EA). apply (i_alloc _ _ I).
  - intros c a'. rewrite (upd_nth _ _ _ _ c EA). destruct (Nat.eqb_spec c cell) as [->|].
    + intros [= <-]. pose proof (i_rows _ _ I cell a Ea). lia.
    + apply (i_rows _ _ I).
  - intros c Hc. destruct (Nat.eq_dec c cell) as [->|N]; [right; eauto|].
    destruct (i_cells _ _ I c Hc) as [U|[b [a' A]]]; [left; auto|right; eauto].
  - intros c c' b O O'. destruct (OW _ _ O) as [[-> ->]|[N O1]], (OW _ _ O') as [[-> E]|[N' O1']]; auto.
    + apply LiveOwn in O1'. lia.
    + subst. apply LiveOwn in O1. lia.
    + eapply (i_inj _ _ I); eauto.
  - (* events *)
    intros e He. rewrite !in_app_iff in He. destruct He as [[He|He]|[<-|[]]].
    + pose proof (i_events _ _ I e He) as Ok. destruct e as [dst src n|c]; cbn in Ok |- *.
      * destruct Ok as (c & j & b & a' & bs & os & ns & X1 & X2 & X3 & X4 & X5 & X6 & X7 & X8 & X9 & X10).
        exists c, j, b, a', bs, os, ns. split; auto. split; auto. split; auto. split.
        { apply AO; auto. intros ->. contradiction. }
        repeat split; auto.
        -- rewrite Sm; auto. eapply size_lt; eauto.
        -- intros c' O. destruct (OW _ _ O) as [[-> ->]|[_ O1]].
           ++ apply size_lt in X8. fold nb in X8. lia.
           ++ eapply X10; eauto.
      * destruct Ok; auto.
    + unfold newev in He. destruct (Nat.ltb_spec 0 a) as [Pa|]; [|destruct He].
      apply in_map_iff in He. destruct He as [j [<- Hj]]. apply in_seq in Hj. cbn.
      destruct HP as [[_ ->]|[b [-> [_ A]]]]; [lia|]. cbn [padd]. 
      exists cell, j, nb, na, b, (0 + j * a), (a * ncol s).
      pose proof A as (_ & _ & Sz & _).
      split; auto. split; [lia|]. split; [left; auto|]. split; [exact AN|]. split; auto.
      pose proof (i_rows _ _ I cell a Ea). split; [lia|]. split; auto. split; [rewrite Sm; auto; eapply size_lt; eauto|]. split.
      * assert (S j * a <= ncol s * a) by (apply Nat.mul_le_mono_r; lia). cbn in H0. lia.
      * apply OldNotOwned; auto.
    + cbn. auto.
  - (* dsts *)
    rewrite !dsts_app. cbn [dsts flat_map]. rewrite app_nil_r. apply NoDup_app_intro.
    + apply (i_dsts _ _ I).
    + unfold newev. destruct (Nat.ltb_spec 0 a) as [Pa|]; [|constructor].
      replace (dsts (map _ _)) with (map (fun j => (Some (nb, j * na) : ptr)) (seq 0 (ncol s))).
      * apply NoDup_map_inj; [|apply seq_NoDup]. intros x y _ _ E. injection E. intros. apply (Nat.mul_cancel_r x y na); lia.
      * unfold dsts. rewrite flat_map_concat_map, map_map. clear. induction (seq 0 (ncol s)); cbn; auto. f_equal; auto.
    + intros d H1 H2. apply dsts_in in H1. destruct H1 as (src & n & H1). apply EVold in H1.
      destruct H1 as (c & j & b & a' & _ & _ & _ & _ & -> & Lb).
      apply dsts_in in H2. destruct H2 as (src' & n' & H2). unfold newev in H2. destruct (0 <? a); [|destruct H2].
      apply in_map_iff in H2. destruct H2 as [j' [E _]]. injection E. intros. lia.
  - intros c Hc. destruct (Nat.eq_dec c cell) as [->|N].
    + right. left. rewrite !in_app_iff. right. left. auto.
    + destruct (i_ptrs _ _ I c Hc) as [U|[P|P]].
      * left. auto.
      * right; left. rewrite !in_app_iff. auto.
      * right; right. intros j Hj. rewrite HC by auto. destruct (Nat.eqb_spec c cell); [contradiction|]. auto.
  - (* known *)
    intros c r j v K. destruct (i_known _ _ I c r j v K) as (Hc & Hj & b & a' & A & Src).
    pose proof (i_below _ _ I c r j v K) as Hr.
    split; auto. split; auto. destruct (Nat.eq_dec c cell) as [->|N].
    + exists nb, na. split; auto. left.
      assert (a' = a) by (destruct A as (A1 & _); congruence). subst a'.
      assert (Pa : 0 < a) by (destruct A as (_ & A2 & _); auto).
      destruct HP as [[_ ->]|[b' [-> [_ A']]]]; [lia|].
      destruct (allocated_inj s cell b a b' a N1 A A') as [<- _].
      exists (Some (b, j * a)), (rows t cell). split; [|split; auto].
      * cbn. rewrite !in_app_iff. left. right. unfold newev. destruct (Nat.ltb_spec 0 a); [|lia].
        apply in_map_iff. exists j. split; [reflexivity|]. apply in_seq. lia.
      * rewrite load_lookup. destruct Src as [(src & n & He & _)|[_ Lk]].
        -- exfalso. apply EVold in He. destruct He as (c & j' & b' & a' & Hc' & Nc & Hj' & A1 & E & _). injection E. intros _ <-.
           apply Nc. eapply (i_inj _ _ I); eapply allocated_owns; eauto.
        -- cbn. rewrite Km; auto. eapply lookup_lt; eauto.
    + exists b, a'. split; [auto|]. destruct Src as [(src & n & He & Hn & Ld)|[Nd Lk]].
      * left. exists src, n. split; [cbn; rewrite !in_app_iff; auto|]. split; auto.
        pose proof (i_events _ _ I _ He) as Ok. cbn in Ok.
        destruct Ok as (c' & j' & b' & a'' & bs & os & ns & _ & _ & _ & _ & _ & _ & -> & Sz & _).
        rewrite load_lookup in Ld |- *. cbn. rewrite Km; auto. eapply size_lt; eauto.
      * right. split.
        -- cbn. rewrite !dsts_app. cbn [dsts flat_map]. rewrite app_nil_r. intros H. apply in_app_iff in H. destruct H as [H|H]; [auto|].
           apply dsts_in in H. destruct H as (src' & n' & H2). unfold newev in H2. destruct (0 <? a); [|destruct H2].
           apply in_map_iff in H2. destruct H2 as [j' [E _]]. injection E. intros _ Eb.
           apply lookup_lt in Lk. fold nb in Lk. lia.
        -- cbn. rewrite Km; auto. eapply lookup_lt; eauto.
  - (* stack *)
    intros b o [E|Hin].
    + destruct HP as [[-> _]|[b' [-> [Pa A]]]]; [discriminate|]. injection E. intros <- <-. split; auto. split.
      * destruct A as (_ & _ & Sz & _). exists (a * ncol s). rewrite Sm; auto. eapply size_lt; eauto.
      * apply OldNotOwned; auto.
    + destruct (i_stack _ _ I b o Hin) as [-> [[n Sz] NO]]. split; auto. split.
      * exists n. rewrite Sm; auto. eapply size_lt; eauto.
      * intros c O. destruct (OW _ _ O) as [[-> ->]|[_ O1]]; [apply size_lt in Sz; fold nb in Sz; lia|]. eapply NO; eauto.
  - destruct HP as [[-> _]|[b' [-> [Pa A]]]]; cbn; [apply (i_stack_nodup _ _ I)|].
    constructor; [|apply (i_stack_nodup _ _ I)]. intros H. unfold blocks in H. apply in_flat_map in H.
    destruct H as [[[b o]|] [H1 H2]]; [|destruct H2]. destruct H2 as [<-|[]].
    apply (i_stack _ _ I) in H1. destruct H1 as [_ [_ NO]]. apply (NO cell). eapply allocated_owns; eauto.
Qed.

Lemma nrow_nth s t c : inv s t -> c < ncells s -> nth_error (nrow s) c = Some (rows t c).
Proof. intros I C. rewrite (i_nrow _ _ I), nth_error_map_seq. destruct (Nat.ltb_spec c (ncells s)); [reflexivity|lia]. Qed.

Lemma upd_rows (rs : nat -> nat) n cell v : cell < n ->
  upd (map rs (seq 0 n)) cell v = Some (map (fun c => if c =? cell then v else rs c) (seq 0 n)).
Proof.
  intros H. destruct (upd_some (map rs (seq 0 n)) cell v) as [l E]; [rewrite map_length, seq_length; auto|].
  rewrite E. f_equal. apply nth_error_ext. intros i. rewrite (upd_nth _ _ _ _ i E), !nth_error_map_seq.
  destruct (Nat.eqb_spec i cell) as [->|N].
  - destruct (Nat.ltb_spec cell n); [|lia]. cbn. rewrite Nat.eqb_refl; auto.
  - destruct (i <? n); auto. cbn. destruct (Nat.eqb_spec i cell); [contradiction|]; auto.
Qed.

Lemma table_ext s (rs : nat -> nat) k k' d : (forall c r j, k c r j = k' c r j) ->
  inv s (mk_table rs k d) -> inv s (mk_table rs k' d).
Proof.
  intros H I. destruct I. constructor; cbn in *; auto.
  - intros c r j v. rewrite <- H. apply i_known0.
  - intros c r j v. rewrite <- H. apply i_below0.
Qed.

Lemma set_nrow_inv (junk : nat -> nat -> T) (grow : nat -> nat -> nat) s t cell n : inv s t -> cell < ncells s -> ~ In cell (dirty t) ->
  exists s', set_nrow junk grow s cell n = Some s' /\ inv s' (after (ncol s) t (SetNrow cell n)) /\
    ncells s' = ncells s /\ ncol s' = ncol s.
Proof.
  intros I C ND. unfold set_nrow, rd. destruct (cell_cases s t cell I C) as [a [Ea _]]. rewrite Ea. cbn [obind].
  rewrite (nrow_nth s t cell I C). cbn [obind].
  assert (ID : inv s (mk_table (rows t) (known t) (cell :: dirty t))) by (apply inv_dirty; auto; intros x; right; auto).
  pose proof (i_rows _ _ I cell a Ea) as Ra.
  destruct (Nat.eqb_spec n (rows t cell)) as [->|Ne].
  - exists s. split; auto. split; auto. cbn.
    pose proof (set_rows_inv s _ (fun c => if c =? cell then rows t cell else rows t c) ID) as X. cbn in X.
    assert (R : forall c, (if c =? cell then rows t cell else rows t c) = rows t c).
    { intros c. destruct (Nat.eqb_spec c cell); subst; auto. }
    destruct ID. constructor; cbn in *; auto.
    + rewrite i_nrow0. apply map_ext. auto.
    + intros c a' Ha. rewrite R; eauto.
    + intros c r j v. unfold keep. destruct (r <? _); [apply i_known0|discriminate].
    + intros c r j v. unfold keep. destruct (Nat.ltb_spec r (if c =? cell then rows t cell else rows t c)); [auto|discriminate].
  - destruct (Nat.ltb_spec n (rows t cell)) as [Lt|Ge].
    + rewrite (i_nrow _ _ I), upd_rows by auto. cbn [obind]. eexists. split; [reflexivity|]. split; auto.
      apply (set_rows_inv s (mk_table (rows t) (known t) (cell :: dirty t))); auto. intros c a' Ha.
      destruct (Nat.eqb_spec c cell) as [->|]; [|apply (i_rows _ _ I); auto]. assert (a' = a) by congruence. lia.
    + destruct (Nat.ltb_spec a n) as [La|La].
      * destruct (realloc_inv junk grow s t cell n I C ND) as (s1 & E1 & I1 & R1 & N1 & M1 & [a1 [Ea1 Ha1]] & Oth).
        { erewrite nth_error_nth by eauto. auto. }
        rewrite E1. cbn [obind]. rewrite (i_nrow _ _ I1), upd_rows by lia. cbn [obind]. eexists. split; [reflexivity|]. split; auto.
        apply (set_rows_inv s1 (mk_table (rows t) (known t) (cell :: dirty t))); auto. intros c a' Ha.
        destruct (Nat.eqb_spec c cell) as [->|Nc]; [assert (a' = a1) by congruence; lia|]. rewrite Oth in Ha by auto. apply (i_rows _ _ I); auto.
      * cbn [obind]. rewrite (i_nrow _ _ I), upd_rows by auto. cbn [obind]. eexists. split; [reflexivity|]. split; auto.
        apply (set_rows_inv s (mk_table (rows t) (known t) (cell :: dirty t))); auto. intros c a' Ha.
        destruct (Nat.eqb_spec c cell) as [->|]; [|apply (i_rows _ _ I); auto]. assert (a' = a) by congruence. lia.
Qed.

Lemma reduce_nrow_inv s t l : inv s t -> length l = ncells s -> (forall c, c < ncells s -> nth c l 0 <= rows t c) ->
  exists s', reduce_nrow s l = Some s' /\ inv s' (after (ncol s) t (ReduceNrow l)) /\ ncells s' = ncells s /\ ncol s' = ncol s.
Proof.
  intros I L H. unfold reduce_nrow.
  assert (E : foldM (fun nr cx => v <- rd l cx;; upd nr cx v) (nrow s) (seq 0 (ncells s)) =
              Some (map (fun c => nth c l 0) (seq 0 (ncells s)))).
  { destruct (foldM_upd (fun nr cx => v <- rd l cx;; upd nr cx v) (fun c => c) (fun c => nth c l 0) (seq 0 (ncells s)) (nrow s))
      as [m' [E [Lm [W _]]]].
    - intros m' c _ Hc. apply in_seq in Hc. unfold rd. rewrite (nth_error_nth' l 0) by lia. reflexivity.
    - intros c Hc. apply in_seq in Hc. rewrite (i_nrow _ _ I), map_length, seq_length. lia.
    - intros; subst; auto.
    - rewrite E. f_equal. apply nth_error_ext. intros i. rewrite nth_error_map_seq. destruct (Nat.ltb_spec i (ncells s)).
      + apply (W i). apply in_seq; lia.
      + apply nth_error_None. rewrite Lm, (i_nrow _ _ I), map_length, seq_length. auto. }
  rewrite E. cbn [obind]. eexists. split; [reflexivity|]. split; auto.
  apply (set_rows_inv s t); auto. intros c a Ha. assert (c < ncells s) by (rewrite <- (i_alloc _ _ I); eapply nth_error_some_lt; eauto).
  specialize (H c H0). pose proof (i_rows _ _ I c a Ha). lia.
Qed.

(* ------------------------------------------------------------------ *)
(** Execution of the outstanding events. *)

Lemma alloc_distinct s t c j b a c' j' b' a' : inv s t -> c < ncells s -> c' < ncells s -> j < ncol s -> j' < ncol s ->
  allocated s c b a -> allocated s c' b' a' -> (c, j) <> (c', j') ->
  forall x y, x < a -> y < a' -> (b, j * a + x) <> (b', j' * a' + y).
Proof.
  intros I C C' J J' A A' N x y X Y E. injection E. intros E2 <-. pose proof (i_ncol _ _ I) as N1.
  assert (c = c') by (eapply (i_inj _ _ I); eapply allocated_owns; eauto). subst c'.
  destruct (allocated_inj s c b a b a' N1 A A') as [_ <-].
  destruct (mul_add_inj a j x j' y E2 X Y) as [-> _]. auto.
Qed.

(** Changing the memory without changing the sizes keeps everything but the
    values. *)
Lemma allocated_sizes s s' c b a :
  nrow_alloc s' = nrow_alloc s -> ncol s' = ncol s -> h_cols s' = h_cols s ->
  (forall b, size (mem s') b = size (mem s) b) -> allocated s c b a -> allocated s' c b a.
Proof.
  intros E1 E2 E3 E4 (A1 & A2 & A3 & A4). unfold allocated, hcol. rewrite E1, E2, E3, E4. auto.
Qed.

Lemma remove_nth {A} (l : list A) i e : nth_error l i = Some e ->
  l = firstn i l ++ e :: skipn (S i) l.
Proof.
  revert i; induction l as [|x l IH]; intros [|i] H; try discriminate.
  - cbn in H. injection H; intros ->. reflexivity.
  - cbn [firstn app]. f_equal. apply IH. exact H.
Qed.

Lemma progress_inv s t i : inv s t ->
  exists s', progress s i = Some s' /\ inv s' t /\ ncells s' = ncells s /\ ncol s' = ncol s /\
    length (stack_events s') = length (stack_events s) - 1.
Proof.
  intros I. unfold progress. destruct (Nat.eqb_spec (length (stack_events s)) 0) as [Z|NZ].
  { exists s. split; auto. split; auto. split; auto. split; auto. lia. }
  set (k := i mod length (stack_events s)). assert (Hk : k < length (stack_events s)) by (apply Nat.mod_upper_bound; auto).
  destruct (nth_error_lt_some _ _ Hk) as [e Ee]. unfold rd. rewrite Ee. cbn [obind].
  pose proof (remove_nth _ _ _ Ee) as Sp. set (e1 := firstn k (stack_events s)) in *. set (e2 := skipn (S k) (stack_events s)) in *.
  assert (Len : length (e1 ++ e2) = length (stack_events s) - 1) by (rewrite Sp, !app_length; cbn; lia).
  pose proof (i_ncol _ _ I) as N1.
  destruct e as [dst src n|c]; cbn [exec].
  - assert (He : In (CopyCol dst src n) (stack_events s)) by (rewrite Sp; apply in_app_iff; right; left; auto).
    pose proof (i_events _ _ I _ He) as Ok. cbn in Ok.
    destruct Ok as (c & j & b & a & bs & os & ns & Hc & Hj & Dc & A & -> & Hn & -> & Sz & Ls & NO).
    pose proof A as (_ & Pa & Sb & _).
    assert (Nb : bs <> b) by (intros ->; eapply NO; eapply allocated_owns; eauto).
    assert (Lb : j * a + n <= a * ncol s).
    { assert (S j * a <= ncol s * a) by (apply Nat.mul_le_mono_r; lia). cbn in H. lia. }
    destruct (memcpy_correct (mem s) b (j * a) bs os n (a * ncol s) ns Nb Sb Lb Sz Ls) as [m [Em [Lm [Sm Km]]]].
    cbn [mem set_events]. rewrite Em. cbn [obind]. eexists. split; [reflexivity|].
    split; [|split; [auto|split; [auto|exact Len]]]. cbn.
    match goal with |- inv ?x _ => set (s' := x) end.
    assert (AS : forall c b a, allocated s c b a -> allocated s' c b a) by (intros; apply (allocated_sizes s s'); auto).
    assert (Inc : forall e, In e (e1 ++ e2) -> In e (stack_events s)).
    { intros e H. rewrite Sp. apply in_app_iff in H. apply in_app_iff. cbn. tauto. }
    assert (ND : ~ In (Some (b, j * a)) (dsts (e1 ++ e2)) /\ NoDup (dsts (e1 ++ e2))).
    { pose proof (i_dsts _ _ I) as D. rewrite Sp, dsts_app in D. cbn [dsts flat_map app] in D. fold dsts in D.
      change (flat_map _ e2) with (dsts e2) in D. apply NoDup_remove in D. rewrite dsts_app. tauto. }
    destruct ND as [ND1 ND2].
    constructor; cbn; try (destruct I; assumption).
    + intros c' Hc'. destruct (i_cells _ _ I c' Hc') as [U|[b' [a' A']]]; [left; exact U|right; eauto].
    + intros e H. apply Inc in H. pose proof (i_events _ _ I e H) as Ok. destruct e as [d1 s1 n1|c1]; cbn in Ok |- *; auto.
      destruct Ok as (c' & j' & b' & a' & bs' & os' & ns' & X1 & X2 & X3 & X4 & X5 & X6 & X7 & X8 & X9 & X10).
      exists c', j', b', a', bs', os', ns'. repeat (split; auto). rewrite Sm; auto.
    + intros c' Hc'. destruct (i_ptrs _ _ I c' Hc') as [U|[P|P]]; [left; exact U| |right; right; exact P].
      right; left. rewrite Sp in P. apply in_app_iff in P. apply in_app_iff. cbn in P. destruct P as [P|[P|P]]; auto. discriminate.
    + intros c' r j' v K. destruct (i_known _ _ I c' r j' v K) as (Hc' & Hj' & b' & a' & A' & Src).
      pose proof (i_below _ _ I c' r j' v K) as Hr. pose proof (i_rows _ _ I c' a') as Ra. destruct A' as (A1' & A2' & A3' & A4').
      specialize (Ra A1'). assert (A' : allocated s c' b' a') by (unfold allocated; auto).
      split; auto. split; auto. exists b', a'. split; [auto|].
      destruct Src as [(src' & n' & He' & Hn' & Ld)|[Nd Lk]].
      * rewrite Sp in He'. apply in_app_iff in He'. cbn in He'.
        assert (Cs : CopyCol (Some (b, j * a)) (Some (bs, os)) n = CopyCol (Some (b', j' * a')) src' n' \/ In (CopyCol (Some (b', j' * a')) src' n') (e1 ++ e2)).
        { rewrite in_app_iff. tauto. }
        destruct Cs as [Q|Q].
        -- injection Q. intros <- <- E1 E2. right. rewrite <- E1, <- E2. split; auto. cbn.
           rewrite Km, Nat.eqb_refl. destruct (Nat.leb_spec (j * a) (j * a + r)), (Nat.ltb_spec (j * a + r) (j * a + n)); cbn; try lia.
           rewrite load_lookup in Ld. rewrite <- Ld. f_equal. lia.
        -- left. exists src', n'. split; [exact Q|]. split; auto.
           pose proof (i_events _ _ I _ (Inc _ Q)) as Ok. cbn in Ok.
           destruct Ok as (c2 & j2 & b2 & a2 & bs2 & os2 & ns2 & X1 & X2 & X3 & X4 & X5 & X6 & -> & X8 & X9 & X10).
           rewrite load_lookup in Ld |- *. cbn. rewrite Km. destruct (Nat.eqb_spec bs2 b) as [->|]; [|auto].
           exfalso. apply (X10 c), (allocated_owns s c b a); auto.
      * right. split.
        -- intros H. apply Nd. apply dsts_in in H. destruct H as (x & y & H). apply dsts_in. exists x, y. apply Inc. exact H.
        -- cbn. rewrite Km. destruct ((b' =? b) && (j * a <=? j' * a' + r) && (j' * a' + r <? j * a + n)) eqn:Q; [|auto].
           exfalso. apply andb_prop in Q. destruct Q as [Q Q3]. apply andb_prop in Q. destruct Q as [Q1 Q2].
           apply Nat.eqb_eq in Q1. apply Nat.leb_le in Q2. apply Nat.ltb_lt in Q3. subst b'.
           assert (c' = c) by (eapply (i_inj _ _ I); eapply allocated_owns; eauto). subst c'.
           destruct (allocated_inj s c b a b a' N1 A A') as [_ <-].
           destruct (Nat.eq_dec j' j) as [->|Nj].
           ++ apply Nd. apply dsts_in. eauto.
           ++ apply (alloc_distinct s t c j' b a c j b a I Hc Hc Hj' Hj A A) with (x := r) (y := j' * a + r - j * a); try lia; [congruence|].
              f_equal. lia.
    + intros b' o' H. destruct (i_stack _ _ I b' o' H) as [-> [[n' Sz'] NO']]. split; auto. split; auto. exists n'. rewrite Sm; auto.
  - assert (He : In (CopyPtrs c) (stack_events s)) by (rewrite Sp; apply in_app_iff; right; left; auto).
    pose proof (i_events _ _ I _ He) as Ok. cbn in Ok. destruct Ok as [Hc Dc].
    cbn [set_events h_cells]. unfold rd. rewrite (i_hcells _ _ I), nth_error_map_seq.
    destruct (Nat.ltb_spec c (ncells s)); [|lia]. cbn [obind Nat.add h_cols d_cols ncol].
    destruct (foldM_kernel (fun (dc : list ptr) colx => p <- nth_error (h_cols s) (c * ncol s + colx);; upd dc (c * ncol s + colx) p)
       (fun (dc : list ptr) k => nth_error dc k) (fun dc => length dc = length (d_cols s))
       (fun colx k => if k =? c * ncol s + colx then hcol s c colx else None)
       (seq 0 (ncol s)) (d_cols s)) as [dc [E [L [W Nn]]]].
    { reflexivity. }
    { intros dc j L Hj. apply in_seq in Hj.
      destruct (nth_error_lt_some (h_cols s) (c * ncol s + j)) as [p Ep]; [rewrite (i_hcols _ _ I); apply idx_lt; lia|].
      rewrite Ep. cbn [obind]. destruct (upd_some dc (c * ncol s + j) p) as [dc' E']; [rewrite L, (i_dcols _ _ I); apply idx_lt; lia|].
      exists dc'. split; auto. split; [rewrite (upd_length _ _ _ _ E'); auto|].
      intros k'. rewrite (upd_nth _ _ _ _ k' E'). destruct (k' =? c * ncol s + j); auto. unfold hcol. rewrite Ep. auto. }
    { intros j j' k' v w Hj Hj' E1 E2. destruct (Nat.eqb_spec k' (c * ncol s + j)), (Nat.eqb_spec k' (c * ncol s + j')); try discriminate.
      assert (j = j') by lia. subst. congruence. }
    match goal with |- context [foldM ?f ?x ?y] => replace (foldM f x y) with (Some dc) by (symmetry; exact E) end. cbn [obind]. eexists. split; [reflexivity|].
    split; [|split; [auto|split; [auto|exact Len]]]. cbn.
    match goal with |- inv ?x _ => set (s' := x) end.
    assert (Inc : forall e, In e (e1 ++ e2) -> In e (stack_events s)).
    { intros e H'. rewrite Sp. apply in_app_iff in H'. apply in_app_iff. cbn. tauto. }
    assert (DD : dsts (e1 ++ e2) = dsts (stack_events s)) by (rewrite Sp, !dsts_app; reflexivity).
    constructor; cbn; try (destruct I; assumption).
    + reflexivity.
    + change (length dc = ncells s * ncol s). rewrite L. apply (i_dcols _ _ I).
    + intros e H'. apply Inc in H'. exact (i_events _ _ I e H').
    + change (NoDup (dsts (e1 ++ e2))). rewrite DD. apply (i_dsts _ _ I).
    + intros c' Hc'. destruct (Nat.eq_dec c' c) as [->|Nc].
      * right; right. intros j Hj.
        destruct (nth_error_lt_some (h_cols s) (c * ncol s + j)) as [p Ep]; [rewrite (i_hcols _ _ I); apply idx_lt; lia|].
        unfold hcol; cbn. rewrite Ep. apply (W j); [apply in_seq; lia|]. rewrite Nat.eqb_refl. exact Ep.
      * destruct (i_ptrs _ _ I c' Hc') as [U|[P|P]]; [left; exact U| |].
        -- right; left. rewrite Sp in P. apply in_app_iff in P. apply in_app_iff. cbn in P. destruct P as [P|[P|P]]; auto. congruence.
        -- right; right. intros j Hj. rewrite Nn; [apply P; auto|]. intros j' Hj'. apply in_seq in Hj'.
           destruct (Nat.eqb_spec (c' * ncol s + j) (c * ncol s + j')) as [Q|]; auto. exfalso. apply Nc.
           destruct (mul_add_inj (ncol s) c' j c j') as [? _]; auto; lia.
    + intros c' r j v K. destruct (i_known _ _ I c' r j v K) as (Hc' & Hj' & b' & a' & A' & Src).
      split; auto. split; auto. exists b', a'. split; [exact A'|]. change (stack_events s') with (e1 ++ e2). rewrite DD. change (mem s') with (mem s).
      destruct Src as [(src' & n' & He' & Hn' & Ld)|Src]; [left|right; exact Src].
      exists src', n'. split; auto. rewrite Sp in He'. apply in_app_iff in He'. apply in_app_iff. cbn in He'.
      destruct He' as [P|[P|P]]; auto. discriminate.
Qed.

Lemma drain_inv order : forall k0 n s t, inv s t -> length (stack_events s) = n ->
  exists s', foldM (fun s k => progress s (order k)) s (seq k0 n) = Some s' /\ inv s' t /\ ncells s' = ncells s /\ ncol s' = ncol s /\ stack_events s' = [].
Proof.
  intros k0 n. revert k0. induction n as [|n IH]; intros k0 s t I L; cbn [seq foldM].
  - exists s. repeat (split; auto). destruct (stack_events s); auto. discriminate.
  - destruct (progress_inv s t (order k0) I) as (s1 & E1 & I1 & N1 & M1 & L1). rewrite E1. cbn [obind].
    destruct (IH (S k0) s1 t I1) as (s' & E' & I' & N' & M' & L'); [lia|].
    exists s'. repeat (split; auto); congruence.
Qed.

Lemma wait_inv s t order : inv s t ->
  exists s', wait_set_nrow order s = Some s' /\ inv s' (after (ncol s) t (Wait order)) /\ ncells s' = ncells s /\ ncol s' = ncol s.
Proof.
  intros I. unfold wait_set_nrow, drain.
  destruct (drain_inv order 0 _ s t I eq_refl) as (s1 & E1 & I1 & N1 & M1 & Z1). rewrite E1. cbn [obind].
  destruct (release_all (stack_ptrs s1) (mem s1)) as [m [Em [Sm Km]]].
  { intros b o H. destruct (i_stack _ _ I1 b o H) as (? & ? & _). auto. }
  { apply (i_stack_nodup _ _ I1). }
  rewrite Em. cbn [obind]. eexists. split; [reflexivity|]. split; [|split; auto]. cbn.
  pose proof (i_ncol _ _ I1) as NC.
  assert (NB : forall c b, owns s1 c b -> ~ In b (blocks (stack_ptrs s1))).
  { intros c b O H. unfold blocks in H. apply in_flat_map in H. destruct H as [[[b' o]|] [H1 H2]]; [|destruct H2].
    destruct H2 as [->|[]]. apply (i_stack _ _ I1) in H1. destruct H1 as (_ & _ & NO). eapply NO; eauto. }
  match goal with |- inv ?x _ => set (s' := x) end.
  assert (AS : forall c b a, c < ncells s1 -> allocated s1 c b a -> allocated s' c b a).
  { intros c b a Hc A. pose proof (allocated_owns s1 c b a NC Hc A) as O. destruct A as (A1 & A2 & A3 & A4).
    split; auto. split; auto. split; auto. cbn. rewrite Sm; eauto. }
  constructor; cbn; try (destruct I1; assumption); try (intros; contradiction); try apply NoDup_nil.
  - intros c Hc. destruct (i_cells _ _ I1 c Hc) as [U|[b [a A]]]; [left; exact U|right; eauto].
  - rewrite Z1. intros e [].
  - intros c r j v K. destruct (i_known _ _ I1 c r j v K) as (Hc & Hj & b & a & A & Src).
    split; auto. split; auto. exists b, a. split; [auto|]. cbn. rewrite Z1 in *.
    destruct Src as [(src' & n' & [] & _)|[Nd Lk]]. right. split; auto. rewrite Km; auto.
    eapply NB. eapply allocated_owns; eauto.
Qed.

(* ------------------------------------------------------------------ *)
(** Access to the data. *)

Lemma quiet s t : inv s t -> dirty t = [] -> stack_events s = [].
Proof.
  intros I D. destruct (stack_events s) as [|e es] eqn:E; auto. exfalso.
  assert (H : In e (stack_events s)) by (rewrite E; left; auto). apply (i_events _ _ I) in H. rewrite D in H.
  destruct e; cbn in H; [|tauto]. destruct H as (c & j & b & a & bs & os & ns & _ & _ & [] & _).
Qed.

(** Where a row of a column is. *)
Lemma place s t c r j : inv s t -> dirty t = [] -> c < ncells s -> r < rows t c -> j < ncol s ->
  exists b a, allocated s c b a /\ r < a /\ j * a + r < a * ncol s /\ nth_error (h_cols s) (c * ncol s + j) = Some (Some (b, j * a)) /\ device_ptr s c j = Some (Some (b, j * a)).
Proof.
  intros I D C R J. destruct (cell_cases s t c I C) as [a [Ea [[-> _]|[Pa [b A]]]]].
  { pose proof (i_rows _ _ I c 0 Ea). lia. }
  exists b, a. pose proof (i_rows _ _ I c a Ea) as Ra. pose proof A as (_ & _ & _ & A4). split; auto. split; [lia|].
  split. { assert (S j * a <= ncol s * a) by (apply Nat.mul_le_mono_r; lia). cbn in H. lia. }
  split; [apply A4; auto|].
  unfold device_ptr, rd. rewrite (i_dcells _ _ I), nth_error_map_seq. destruct (Nat.ltb_spec c (ncells s)); [|lia]. cbn [obind Nat.add].
  destruct (i_ptrs _ _ I c C) as [[U _]|[P|P]].
  - rewrite Ea in U. injection U. lia.
  - rewrite (quiet s t I D) in P. destruct P.
  - rewrite P by auto. apply A4; auto.
Qed.

Lemma read_correct s t c r j : inv s t -> dirty t = [] -> c < ncells s -> r < rows t c -> j < ncol s ->
  exists v, device_read s c r j = Some v /\ get_value s c r j = Some v /\ forall w, known t c r j = Some w -> v = w.
Proof.
  intros I D C R J. destruct (place s t c r j I D C R J) as (b & a & A & Ra & Lr & H1 & H2).
  unfold device_read, get_value, rd. rewrite H1, H2. cbn [obind]. rewrite load_lookup.
  pose proof A as (_ & _ & Sz & _).
  destruct (lookup_some (mem s) b (j * a + r) _ Sz Lr) as [v Ev]. exists v. split; auto. split; auto.
  intros w K. destruct (i_known _ _ I c r j w K) as (_ & _ & b' & a' & A' & Src).
  destruct (allocated_inj s c b a b' a' (i_ncol _ _ I) A A') as [<- <-].
  destruct Src as [(x & y & He & _)|[_ Lk]]; [|congruence]. rewrite (quiet s t I D) in He. destruct He.
Qed.

(** Reading is what the table may know. *)
Definition contents s (t : table T) : table T :=
  mk_table (rows t) (fun c r j => if (c <? ncells s) && (r <? rows t c) && (j <? ncol s) then device_read s c r j else None) (dirty t).

Lemma contents_inv s t : inv s t -> dirty t = [] -> inv s (contents s t).
Proof.
  intros I D. pose proof I as I0. destruct I. constructor; cbn [contents rows known dirty]; auto.
  - intros c r j v. destruct (Nat.ltb_spec c (ncells s)), (Nat.ltb_spec r (rows t c)), (Nat.ltb_spec j (ncol s)); cbn [andb]; try discriminate.
    intros E. split; auto. split; auto.
    destruct (place s t c r j I0 D) as (b & a & A & Ra & Lr & H1' & H2'); auto.
    exists b, a. split; auto. right. rewrite (quiet s t I0 D). split; [intros []|].
    unfold device_read in E. rewrite H2' in E. cbn [obind] in E. rewrite load_lookup in E. exact E.
  - intros c r j v. destruct (c <? ncells s), (Nat.ltb_spec r (rows t c)), (j <? ncol s); cbn; auto; discriminate.
Qed.

(** Writing through a pointer to row [row] of column [col] of cell [cell]. *)
Lemma write_inv s t cell row col v : inv s t -> dirty t = [] -> cell < ncells s -> row < rows t cell -> col < ncol s ->
  exists m, (forall p, nth_error (h_cols s) (cell * ncol s + col) = Some p -> store (mem s) p row v = Some m) /\ inv (set_mem s m) (mk_table (rows t) (write (known t) cell row col v) (dirty t)).
Proof.
  intros I D C R J. destruct (place s t cell row col I D C R J) as (b & a & A & Ra & Lr & H1 & H2).
  pose proof A as (_ & _ & Sz & _).
  destruct (put_some (mem s) b (col * a + row) v _ Sz Lr) as [m Em]. exists m. split.
  { intros p Hp. rewrite H1 in Hp. injection Hp. intros <-. rewrite store_put. auto. }
  destruct (put_facts _ _ _ _ _ Em) as (Lm & Sm & Km).
  pose proof (quiet s t I D) as Q.
  assert (AS : forall c b a, allocated s c b a -> allocated (set_mem s m) c b a) by (intros; apply (allocated_sizes s (set_mem s m)); auto).
  constructor; cbn; try (destruct I; assumption).
  - intros c Hc. destruct (i_cells _ _ I c Hc) as [U|[b' [a' A']]]; [left; exact U|right; eauto].
  - rewrite Q. intros e [].
  - intros c r j w. unfold write. destruct ((c =? cell) && (r =? row) && (j =? col)) eqn:E.
    + apply andb_prop in E. destruct E as [E E3]. apply andb_prop in E. destruct E as [E1 E2].
      apply Nat.eqb_eq in E1, E2, E3. subst. intros [= <-]. split; auto. split; auto. exists b, a. split; auto.
      right. cbn. rewrite Q. split; [intros []|]. rewrite Km, !Nat.eqb_refl. reflexivity.
    + intros K. destruct (i_known _ _ I c r j w K) as (Hc & Hj & b' & a' & A' & Src). split; auto. split; auto.
      exists b', a'. split; auto. right. cbn. rewrite Q in *. destruct Src as [(x & y & [] & _)|[_ Lk]]. split; [intros []|].
      rewrite Km. destruct ((b' =? b) && (j * a' + r =? col * a + row)) eqn:E'; auto. exfalso.
      apply andb_prop in E'. destruct E' as [E1 E2]. apply Nat.eqb_eq in E1, E2. subst b'.
      assert (Hr : r < rows t c) by (eapply (i_below _ _ I); eauto).
      assert (Ra' : rows t c <= a') by (apply (i_rows _ _ I); destruct A'; auto).
      destruct (Nat.eq_dec c cell) as [->|Nc].
      * destruct (allocated_inj s cell b a b a' (i_ncol _ _ I) A A') as [_ <-].
        destruct (mul_add_inj a j r col row) as [-> ->]; auto; [lia|]. rewrite !Nat.eqb_refl in E. discriminate.
      * apply Nc. eapply (i_inj _ _ I); eapply allocated_owns; eauto using (i_ncol _ _ I).
  - intros c r j w. unfold write. destruct ((c =? cell) && (r =? row) && (j =? col)) eqn:E; [|apply (i_below _ _ I)].
    apply andb_prop in E. destruct E as [E E3]. apply andb_prop in E. destruct E as [E1 E2].
    apply Nat.eqb_eq in E1, E2, E3. subst. auto.
  - intros b' o H. destruct (i_stack _ _ I b' o H) as (-> & [n Sn] & NO). split; auto. split; [exists n; rewrite Sm; auto|]. exact NO.
Qed.

Lemma device_write_inv s t cell row col v : inv s t -> dirty t = [] -> cell < ncells s -> row < rows t cell -> col < ncol s ->
  exists s', device_write s cell row col v = Some s' /\ set_value s cell row col v = Some s' /\
    inv s' (mk_table (rows t) (write (known t) cell row col v) (dirty t)) /\ ncells s' = ncells s /\ ncol s' = ncol s.
Proof.
  intros I D C R J. destruct (write_inv s t cell row col v I D C R J) as [m [H I']].
  destruct (place s t cell row col I D C R J) as (b & a & A & Ra & Lr & H1 & H2).
  exists (set_mem s m). unfold device_write, set_value, rd. rewrite H2, H1. cbn [obind].
  rewrite (H _ H1). cbn [obind]. repeat (split; auto).
Qed.

(** Part of set_cell: the columns below [j0] and the rows below [i0] of column
    [j0] have been written. *)
Definition part (d : celldata T) (k : nat -> nat -> nat -> option T) cell n j0 i0 : nat -> nat -> nat -> option T :=
  fun c r j => if (c =? cell) && (((j <? j0) && (r <? n)) || ((j =? j0) && (r <? i0))) then at_ d r j else k c r j.

Lemma set_col_inv s t cell (d : celldata T) j0 m0 : inv s t -> dirty t = [] -> cell < ncells s -> j0 < ncol s ->
  rows t cell <= cd_nrow d -> ncol s <= cd_ncol d -> length (cd_data d) = cd_nrow d * cd_ncol d ->
  inv (set_mem s m0) (mk_table (rows t) (part d (known t) cell (rows t cell) j0 0) []) ->
  forall n, n <= rows t cell ->
  exists m, (p <- rd (h_cols s) (cell * ncol s + j0) ;;
    foldM (fun m i => v <- rd (cd_data d) (j0 * cd_nrow d + i) ;; store m p i v) m0 (seq 0 n)) = Some m /\
    inv (set_mem s m) (mk_table (rows t) (part d (known t) cell (rows t cell) j0 n) []).
Proof.
  intros I D C J HR HC HL I0.
  destruct (nth_error_lt_some (h_cols s) (cell * ncol s + j0)) as [p Ep]; [rewrite (i_hcols _ _ I); apply idx_lt; lia|].
  unfold rd at 1. setoid_rewrite Ep. cbn [obind].
  induction n as [|n IH]; intros Hn.
  - exists m0. split; auto.
  - destruct IH as [m [Em Im]]; [lia|]. setoid_rewrite seq_S. setoid_rewrite foldM_app. rewrite Em. cbn [obind foldM Nat.add].
    destruct (nth_error_lt_some (cd_data d) (j0 * cd_nrow d + n)) as [v Ev].
    { rewrite HL, Nat.mul_comm. assert (S j0 * cd_nrow d <= cd_ncol d * cd_nrow d) by (apply Nat.mul_le_mono_r; lia). cbn in H. lia. }
    unfold rd. rewrite Ev. cbn [obind].
    destruct (write_inv (set_mem s m) _ cell n j0 v Im eq_refl) as [m' [Hm' Im']]; auto.
    cbn [set_mem h_cols ncol mem] in Hm'. rewrite (Hm' p Ep). cbn [obind]. exists m'. split; auto.
    eapply table_ext; [|exact Im']. intros c r j. cbn [known]. unfold write, part.
    destruct (Nat.eqb_spec c cell) as [->|]; cbn [andb]; auto.
    destruct (Nat.eqb_spec r n) as [->|Nr], (Nat.eqb_spec j j0) as [->|Nj]; cbn [andb orb]; auto.
    + rewrite Nat.ltb_irrefl. cbn [andb orb]. destruct (Nat.ltb_spec n (S n)); [|lia]. symmetry. exact Ev.
    + destruct (Nat.ltb_spec r n), (Nat.ltb_spec r (S n)); auto; lia.
Qed.

Lemma set_cell_inv s t cell (d : celldata T) : inv s t -> dirty t = [] -> cell < ncells s ->
  rows t cell <= cd_nrow d -> ncol s <= cd_ncol d -> length (cd_data d) = cd_nrow d * cd_ncol d ->
  exists s', set_cell s cell d = Some s' /\ inv s' (after (ncol s) t (SetCell cell d)) /\ ncells s' = ncells s /\ ncol s' = ncol s.
Proof.
  intros I D C HR HC HL. unfold set_cell, rd at 1. rewrite (nrow_nth s t cell I C). cbn [obind].
  destruct (Nat.leb_spec (rows t cell) (cd_nrow d)); [|lia]. destruct (Nat.leb_spec (ncol s) (cd_ncol d)); [|lia].
  cbn [assert obind].
  assert (G : forall k, k <= ncol s -> exists m,
    foldM (fun m colx => p <- rd (h_cols s) (cell * ncol s + colx) ;;
      foldM (fun m i => v <- rd (cd_data d) (colx * cd_nrow d + i) ;; store m p i v) m (seq 0 (rows t cell)))
      (mem s) (seq 0 k) = Some m /\
    inv (set_mem s m) (mk_table (rows t) (part d (known t) cell (rows t cell) k 0) [])).
  { induction k as [|k IH]; intros Hk.
    - exists (mem s). split; auto. replace (set_mem s (mem s)) with s by (destruct s; reflexivity).
      apply (table_ext s (rows t) (known t)).
      + intros c r j. unfold part. destruct (c =? cell), (j =? 0); cbn; auto.
      + rewrite <- D. destruct t; exact I.
    - destruct IH as [m [Em Im]]; [lia|]. rewrite seq_S, foldM_app, Em. cbn [obind foldM Nat.add].
      destruct (set_col_inv s t cell d k m I D C) with (n := rows t cell) as [m' [Em' Im']]; auto.
      rewrite Em'. cbn [obind]. exists m'. split; auto. eapply table_ext; [|exact Im'].
      intros c r j. unfold part. destruct (c =? cell); cbn [andb]; auto.
      destruct (Nat.ltb_spec j k), (Nat.eqb_spec j k), (Nat.ltb_spec j (S k)), (Nat.eqb_spec j (S k)); try lia; cbn [andb orb]; auto;
      destruct (Nat.ltb_spec r (rows t cell)); cbn; auto. }
  assert (E : inv s (after (ncol s) t (SetCell cell d)) \/ 0 < rows t cell).
  { destruct (Nat.eq_dec (rows t cell) 0) as [Z0|]; [left|right; lia].
    cbn [after]. apply (table_ext s (rows t) (known t)); [|destruct t; exact I].
    intros c r j. destruct (Nat.eqb_spec c cell) as [->|]; cbn [andb]; auto. rewrite Z0. reflexivity. }
  destruct (Nat.ltb_spec 0 (rows t cell)) as [P|P].
  - destruct (G (ncol s)) as [m [Em Im]]; [lia|].
    match goal with |- context [foldM ?f ?x ?y] => replace (foldM f x y) with (Some m) by (symmetry; exact Em) end.
    cbn [obind]. eexists. split; [reflexivity|]. split; [|split; auto]. cbn [after]. rewrite D.
    eapply table_ext; [|exact Im]. intros c r j. unfold part.
    destruct (Nat.eqb_spec c cell) as [->|]; cbn [andb]; auto.
    destruct (Nat.ltb_spec j (ncol s)), (Nat.eqb_spec j (ncol s)), (Nat.ltb_spec r (rows t cell)); cbn; auto; lia.
  - cbn [foldM obind]. eexists. split; [reflexivity|]. split; [|split; auto]. destruct E as [E|]; [|lia].
    replace (set_mem s (mem s)) with s by (destruct s; reflexivity). exact E.
Qed.

Lemma get_cell_correct s t init cell : inv s t -> dirty t = [] -> cell < ncells s ->
  exists d, get_cell s init cell = Some d /\ cd_nrow d = rows t cell /\ cd_ncol d = ncol s /\
    length (cd_data d) = cd_nrow d * cd_ncol d /\
    forall r j, r < rows t cell -> j < ncol s -> at_ d r j = device_read s cell r j.
Proof.
  intros I D C. unfold get_cell, rd at 1. rewrite (nrow_nth s t cell I C). cbn [obind].
  set (n := rows t cell). set (d0 := map init (seq 0 (n * ncol s))).
  assert (L0 : length d0 = n * ncol s) by (unfold d0; rewrite map_length, seq_length; auto).
  destruct (Nat.ltb_spec 0 n) as [P|P].
  2: { cbn [obind]. eexists. split; [reflexivity|]. cbn. split; auto. split; auto. split; auto. intros. lia. }
  destruct (foldM_kernel (fun data colx =>
      p <- rd (h_cols s) (cell * ncol s + colx) ;;
      foldM (fun data i => v <- load (mem s) p i ;; upd data (colx * n + i) v) data (seq 0 n))
     (fun data k => nth_error data k) (fun data => length data = n * ncol s)
     (fun colx k => if (colx * n <=? k) && (k <? colx * n + n) then get_value s cell (k - colx * n) colx else None)
     (seq 0 (ncol s)) d0 L0) as [d1 [E [L [W _]]]].
  - intros data colx Ld Hc. apply in_seq in Hc.
    destruct (place s t cell 0 colx I D C) as (b & a & A & Ra & Lr & H1 & H2); [fold n; lia|lia|].
    unfold rd. rewrite H1. cbn [obind].
    assert (Hv : forall i, i < n -> exists v, load (mem s) (Some (b, colx * a)) i = Some v /\ get_value s cell i colx = Some v).
    { intros i Hi. destruct (read_correct s t cell i colx I D C) as (v & _ & Gv & _); [exact Hi|lia|]. exists v. split; auto.
      unfold get_value, rd in Gv. rewrite H1 in Gv. exact Gv. }
    assert (Idx : forall i, i < n -> colx * n + i < n * ncol s).
    { intros i Hi. assert (S colx * n <= ncol s * n) by (apply Nat.mul_le_mono_r; lia). cbn in H. lia. }
    destruct (foldM_kernel (fun data i => v <- load (mem s) (Some (b, colx * a)) i ;; upd data (colx * n + i) v)
       (fun data k => nth_error data k) (fun data => length data = n * ncol s)
       (fun i k => if k =? colx * n + i then get_value s cell i colx else None) (seq 0 n) data Ld) as [d2 [E2 [L2 [W2 N2]]]].
    + intros dd i Ldd Hi. apply in_seq in Hi. destruct (Hv i) as [v [E1 Gv]]; [lia|]. rewrite E1. cbn [obind].
      destruct (upd_some dd (colx * n + i) v) as [dd' E']; [rewrite Ldd; apply Idx; lia|].
      exists dd'. split; auto. split; [rewrite (upd_length _ _ _ _ E'); auto|]. intros k. rewrite (upd_nth _ _ _ _ k E').
      destruct (k =? colx * n + i); auto. rewrite Gv. auto.
    + intros i i' k v w Hi Hi' E1 E2. destruct (Nat.eqb_spec k (colx * n + i)), (Nat.eqb_spec k (colx * n + i')); try discriminate.
      assert (i = i') by lia. subst. congruence.
    + exists d2. split; auto. split; auto. intros k.
      destruct (Nat.leb_spec (colx * n) k), (Nat.ltb_spec k (colx * n + n)); cbn [andb].
      * destruct (Hv (k - colx * n)) as [v [_ Gv]]; [lia|]. rewrite Gv. apply (W2 (k - colx * n)); [apply in_seq; lia|].
        replace (colx * n + (k - colx * n)) with k by lia. rewrite Nat.eqb_refl. auto.
      * apply N2. intros i Hi. apply in_seq in Hi. destruct (Nat.eqb_spec k (colx * n + i)); auto; lia.
      * apply N2. intros i Hi. apply in_seq in Hi. destruct (Nat.eqb_spec k (colx * n + i)); auto; lia.
      * apply N2. intros i Hi. apply in_seq in Hi. destruct (Nat.eqb_spec k (colx * n + i)); auto; lia.
  - intros j j' k v w Hj Hj' E1 E2.
    destruct (Nat.leb_spec (j * n) k), (Nat.ltb_spec k (j * n + n)); cbn [andb] in E1; try discriminate.
    destruct (Nat.leb_spec (j' * n) k), (Nat.ltb_spec k (j' * n + n)); cbn [andb] in E2; try discriminate.
    destruct (mul_add_inj n j (k - j * n) j' (k - j' * n)) as [-> _]; try lia. congruence.
  - match goal with |- context [foldM ?f ?x ?y] => replace (foldM f x y) with (Some d1) by (symmetry; exact E) end.
    cbn [obind]. eexists. split; [reflexivity|]. cbn [cd_nrow cd_ncol cd_data]. split; auto. split; auto. split; auto.
    intros r j Hr Hj. unfold at_, rd. cbn [cd_data cd_nrow].
    destruct (read_correct s t cell r j I D C Hr Hj) as (v & Dv & Gv & _). rewrite Dv. apply (W j); [apply in_seq; lia|].
    destruct (Nat.leb_spec (j * n) (j * n + r)), (Nat.ltb_spec (j * n + r) (j * n + n)); cbn [andb]; try (fold n in Hr; lia).
    replace (j * n + r - j * n) with r by lia. exact Gv.
Qed.

Lemma fold_max (l : list nat) : forall x, fold_left Nat.max l x = Nat.max x (list_max l).

Proof. induction l as [|y l IH]; intros x; cbn [fold_left]; [cbn; lia|]. change (list_max (y :: l)) with (Nat.max y (list_max l)). rewrite IH. lia. Qed.

Lemma fold_min_head (l : list nat) : forall x, In (fold_left Nat.min l x) (x :: l) /\ forall y, In y (x :: l) -> fold_left Nat.min l x <= y.
Proof.
  induction l as [|y l IH]; intros x; cbn [fold_left].
  - split; [left; auto|]. intros y [<-|[]]. auto.
  - destruct (IH (Nat.min x y)) as [A B]. split.
    + destruct A as [A|A]; [|right; right; auto]. destruct (Nat.min_dec x y) as [E|E]; rewrite E in *; [left; auto|right; left; auto].
    + intros z [<-|[<-|Hz]].
      * etransitivity; [apply B; left; reflexivity|]. apply Nat.le_min_l.
      * etransitivity; [apply B; left; reflexivity|]. apply Nat.le_min_r.
      * apply B. right; auto.
Qed.

Lemma get_nrow_max_inv s t : inv s t -> 1 <= ncells s ->
  exists s', get_nrow_max s = Some (s', Z.of_nat (list_max (nrow s))) /\ inv s' t /\ ncells s' = ncells s /\ ncol s' = ncol s.
Proof.
  intros I N. unfold get_nrow_max. destruct (Z.ltb_spec (nrow_max s) 0) as [L|L].
  - unfold compute_nrow_max, rd. rewrite (nrow_nth s t 0 I) by lia. cbn [obind].
    assert (M : Z.of_nat (fold_left Nat.max (nrow s) (rows t 0)) = Z.of_nat (list_max (nrow s))).
    { rewrite fold_max. f_equal. assert (rows t 0 <= list_max (nrow s)); [|lia].
      pose proof (proj1 (list_max_le (nrow s) (list_max (nrow s))) (le_n _)) as F. rewrite Forall_forall in F. apply F.
      eapply nth_error_In. apply (nrow_nth s t 0 I). lia. }
    eexists. split; [|split].
    + cbn [nrow_max]. rewrite M. reflexivity.
    + destruct I. constructor; cbn; auto. right. split; [reflexivity|]. left. eexists. split; [reflexivity|].
      destruct (fold_min_head (nrow s) (rows t 0)) as [A B].
      assert (H0 : In (rows t 0) (nrow s)) by (rewrite i_nrow0; apply in_map, in_seq; lia). split.
      * destruct A as [A|A]; [rewrite <- A; auto|auto].
      * intros x Hx. apply B. right; auto.
    + split; auto.
  - destruct (i_max _ _ I) as [E|[E _]]; [lia|]. cbn [obind]. exists s. rewrite E. auto.
Qed.

Lemma get_nrow_min_correct s t : inv s t -> 1 <= ncells s ->
  exists s' m, get_nrow_min s = Some (s', m) /\ (is_min m (nrow s) \/ (m = (-1)%Z /\ forall x, In x (nrow s) -> x = 0)).
Proof.
  intros I N. unfold get_nrow_min. destruct (Z.ltb_spec (nrow_max s) 0) as [L|L].
  - unfold compute_nrow_max, rd. rewrite (nrow_nth s t 0 I) by lia. cbn [obind]. eexists. eexists. split; [reflexivity|].
    left. cbn. eexists. split; [reflexivity|].
    destruct (fold_min_head (nrow s) (rows t 0)) as [A B].
    assert (H0 : In (rows t 0) (nrow s)) by (rewrite (i_nrow _ _ I); apply in_map, in_seq; lia). split.
    + destruct A as [A|A]; [rewrite <- A; auto|auto].
    + intros x Hx. apply B. right; auto.
  - destruct (i_max _ _ I) as [E|[_ E]]; [lia|]. cbn [obind]. exists s, (nrow_min s). auto.
Qed.

Lemma step_inv (junk : nat -> nat -> T) (grow : nat -> nat -> nat) s t c : inv s t -> 1 <= ncells s -> allowed (ncells s) (ncol s) t c ->
  exists s', step junk grow s c = Some s' /\ inv s' (after (ncol s) t c) /\ ncells s' = ncells s /\ ncol s' = ncol s.
Proof.
  intros I N. destruct c as [cell n|l|i|order|cell row col v|cell row col v|cell d|]; cbn [allowed step].
  - intros [H1 H2]. apply set_nrow_inv; auto.
  - intros [H1 H2]. apply reduce_nrow_inv; auto.
  - intros _. destruct (progress_inv s t i I) as (s' & E & I' & ? & ? & _). exists s'. auto.
  - intros _. apply wait_inv; auto.
  - intros (D & C & R & J). destruct (device_write_inv s t cell row col v I D C R J) as (s' & E & _ & I' & ? & ?). exists s'; auto.
  - intros (D & C & R & J). destruct (device_write_inv s t cell row col v I D C R J) as (s' & _ & E & I' & ? & ?). exists s'; auto.
  - intros (D & C & R & J & L). apply set_cell_inv; auto.
  - intros _. destruct (get_nrow_max_inv s t I N) as (s' & E & I' & ? & ?). rewrite E. cbn [obind fst]. exists s'. auto.
Qed.

Lemma run_inv (junk : nat -> nat -> T) (grow : nat -> nat -> nat) nc k cs : forall s t, inv s t -> ncells s = nc -> ncol s = k -> 1 <= nc -> all_allowed nc k t cs ->
  exists s', foldM (step junk grow) s cs = Some s' /\ inv s' (fold_left (after k) cs t) /\ ncells s' = nc /\ ncol s' = k.
Proof.
  induction cs as [|c cs IH]; intros s t I E1 E2 N A; cbn [foldM fold_left].
  - exists s. auto.
  - destruct A as [A1 A2]. subst. destruct (step_inv junk grow s t c I N A1) as (s1 & Es & I1 & N1 & M1). rewrite Es. cbn [obind].
    destruct (IH s1 _ I1 N1 M1 N A2) as (s' & E' & I' & N' & M'). exists s'. auto.
Qed.
End Inv.

(* ------------------------------------------------------------------ *)
(** The fixed size layout. *)
Section Fixed.
Variables (junk_ptr : nat -> ptr) (np : list nat) (nc k : nat).
Hypothesis Hnc : length np = nc.
Let es c := list_sum (firstn c np).
Let cnt c := nth c np 0.

Lemma es_S c : c < nc -> es (S c) = es c + cnt c.
Proof.
  intros H. unfold es, cnt. rewrite <- Hnc in H. clear Hnc. revert c H. induction np as [|x l IH]; intros [|c] H; cbn [length] in H; try lia.
  - cbn. lia.
  - change (firstn (S (S c)) (x :: l)) with (x :: firstn (S c) l). change (firstn (S c) (x :: l)) with (x :: firstn c l).
    change (list_sum (?a :: ?b)) with (a + list_sum b). cbn [nth].
    specialize (IH c). unfold list_sum in *. cbn [fold_right]. rewrite IH by lia. lia.
Qed.

Lemma es_mono c c' : c <= c' -> c' <= nc -> es c <= es c'.
Proof. intros H. induction H as [|c' H IH]; intros Hc'; auto. rewrite es_S by lia. specialize (IH ltac:(lia)). lia. Qed.

Lemma es_total : es nc = list_sum np.
Proof. unfold es. rewrite <- Hnc, firstn_all. auto. Qed.

(** Address of (cell, column, row) in the allocation. *)
Definition address c j r := es c * k + j * cnt c + r.

Lemma address_range c j r : c < nc -> j < k -> r < cnt c -> es c * k <= address c j r < es (S c) * k.
Proof.
  intros C J R. unfold address. rewrite es_S by auto.
  assert (S j * cnt c <= k * cnt c) by (apply Nat.mul_le_mono_r; lia). cbn in H. rewrite Nat.mul_add_distr_r. lia.
Qed.

Lemma address_inj c j r c' j' r' : c < nc -> c' < nc -> j < k -> j' < k -> r < cnt c -> r' < cnt c' ->
  address c j r = address c' j' r' -> c = c' /\ j = j' /\ r = r'.
Proof.
  intros C C' J J' R R' E. pose proof (address_range c j r C J R) as A. pose proof (address_range c' j' r' C' J' R') as A'.
  destruct (Nat.lt_trichotomy c c') as [L|[->|L]].
  - assert (es (S c) * k <= es c' * k) by (apply Nat.mul_le_mono_r, es_mono; lia). lia.
  - split; auto. unfold address in E. destruct (mul_add_inj (cnt c') j r j' r') as [-> ->]; auto; lia.
  - assert (es (S c') * k <= es c * k) by (apply Nat.mul_le_mono_r, es_mono; lia). lia.
Qed.

Lemma address_bound c j r : c < nc -> j < k -> r < cnt c -> address c j r < list_sum np * k.
Proof.
  intros C J R. pose proof (address_range c j r C J R). rewrite <- es_total.
  assert (es (S c) * k <= es nc * k) by (apply Nat.mul_le_mono_r, es_mono; lia). lia.
Qed.

(** The kernel. *)
Lemma fixed_device sched (d_es : list nat) : Permutation sched (seq 0 nc) ->
  d_es = map es (seq 0 nc) ->
  exists d, foldM (fun d cellx =>
      npart_cell <- rd np cellx ;;
      e <- rd d_es cellx ;;
      let base_ptr := padd (Some (0, 0)) (e * k) in
      foldM (fun d cx => upd d (cellx * k + cx) (padd base_ptr (cx * npart_cell))) d (seq 0 k))
      (map junk_ptr (seq 0 (nc * k))) sched = Some d /\ length d = nc * k /\
    forall c j, c < nc -> j < k -> nth_error d (c * k + j) = Some (Some (0, address c j 0)).
Proof.
  intros P ->.
  destruct (foldM_kernel (fun d cellx =>
      npart_cell <- rd np cellx ;;
      e <- rd (map es (seq 0 nc)) cellx ;;
      let base_ptr := padd (Some (0, 0)) (e * k) in
      foldM (fun d cx => upd d (cellx * k + cx) (padd base_ptr (cx * npart_cell))) d (seq 0 k))
    (fun (d : list ptr) i => nth_error d i) (fun d => length d = nc * k)
    (fun c i => if (c * k <=? i) && (i <? c * k + k) then Some (Some (0, address c (i - c * k) 0)) else None)
    sched (map junk_ptr (seq 0 (nc * k)))) as [d [E [L [W _]]]].
  - rewrite map_length, seq_length. auto.
  - intros d c L Hc. apply (Permutation_in _ P) in Hc. apply in_seq in Hc.
    unfold rd. rewrite (nth_error_nth' np 0) by lia. cbn [obind]. rewrite nth_error_map_seq. destruct (Nat.ltb_spec c nc); [|lia].
    cbn [obind Nat.add].
    destruct (foldM_upd (fun d cx => upd d (c * k + cx) (padd (padd (Some (0, 0)) (es c * k)) (cx * nth c np 0)))
       (fun cx => c * k + cx) (fun cx => (Some (0, address c cx 0) : ptr)) (seq 0 k) d) as [d' [E [L' [W N]]]].
    + intros m' cx _ _. cbn [padd]. unfold address, cnt. do 3 f_equal. lia.
    + intros cx Hx. apply in_seq in Hx. rewrite L. apply idx_lt; lia.
    + intros a b Ha Hb E. assert (a = b) by lia. subst; auto.
    + exists d'. split; [exact E|]. split; [congruence|]. intros i.
      destruct (Nat.leb_spec (c * k) i), (Nat.ltb_spec i (c * k + k)); cbn [andb].
      * replace i with (c * k + (i - c * k)) at 1 by lia. apply (W (i - c * k)). apply in_seq; lia.
      * apply N. intros a Ha. apply in_seq in Ha. lia.
      * apply N. intros a Ha. apply in_seq in Ha. lia.
      * apply N. intros a Ha. apply in_seq in Ha. lia.
  - intros c c' i v w _ _ E1 E2.
    destruct (Nat.leb_spec (c * k) i), (Nat.ltb_spec i (c * k + k)); cbn [andb] in E1; try discriminate.
    destruct (Nat.leb_spec (c' * k) i), (Nat.ltb_spec i (c' * k + k)); cbn [andb] in E2; try discriminate.
    destruct (mul_add_inj k c (i - c * k) c' (i - c' * k)) as [-> _]; try lia. congruence.
  - exists d. split; [exact E|]. split; auto. intros c j C J. apply (W c).
    + apply (Permutation_in _ (Permutation_sym P)). apply in_seq; lia.
    + destruct (Nat.leb_spec (c * k) (c * k + j)), (Nat.ltb_spec (c * k + j) (c * k + k)); cbn [andb]; try lia.
      do 4 f_equal. lia.
Qed.

(** The loop on the host. *)
Lemma fixed_host : 
  exists h p, foldM (fun hd cellx =>
      npart_cell <- rd np cellx ;;
      foldM (fun hd cx =>
          h <- upd (fst hd) (cellx * k + cx) (snd hd) ;; Some (h, padd (snd hd) npart_cell)) hd (seq 0 k))
      (repeat None (nc * k), Some (0, 0)) (seq 0 nc) = Some (h, p) /\ length h = nc * k /\
    forall c j, c < nc -> j < k -> nth_error h (c * k + j) = Some (Some (0, address c j 0)).
Proof.
  assert (Inner : forall c h, c < nc -> length h = nc * k -> forall n, n <= k ->
    exists h', foldM (fun hd cx => h <- upd (fst hd) (c * k + cx) (snd hd) ;; Some (h, padd (snd hd) (nth c np 0)))
       (h, Some (0, es c * k)) (seq 0 n) = Some (h', Some (0, es c * k + n * cnt c)) /\ length h' = nc * k /\
      (forall j, j < n -> nth_error h' (c * k + j) = Some (Some (0, address c j 0))) /\
      (forall i, i < c * k -> nth_error h' i = nth_error h i)).
  { intros c h C L. induction n as [|n IH]; intros Hn.
    - exists h. cbn. rewrite Nat.add_0_r. repeat split; auto. intros; lia.
    - destruct IH as (h1 & E1 & L1 & W1 & N1); [lia|]. rewrite seq_S, foldM_app, E1. cbn [obind foldM Nat.add fst snd].
      destruct (upd_some h1 (c * k + n) (Some (0, es c * k + n * cnt c))) as [h2 E2]; [rewrite L1; apply idx_lt; lia|].
      rewrite E2. cbn [obind padd]. exists h2. split; [|split; [|split]].
      + do 4 f_equal. unfold cnt. lia.
      + rewrite (upd_length _ _ _ _ E2); auto.
      + intros j Hj. rewrite (upd_nth _ _ _ _ _ E2). destruct (Nat.eqb_spec (c * k + j) (c * k + n)) as [E|].
        * assert (j = n) by lia. subst. unfold address. do 3 f_equal; lia.
        * apply W1. lia.
      + intros i Hi. rewrite (upd_nth_neq _ _ _ _ i E2) by lia. auto. }
  assert (Outer : forall n, n <= nc -> exists h, foldM (fun hd cellx =>
      npart_cell <- rd np cellx ;;
      foldM (fun hd cx =>
          h <- upd (fst hd) (cellx * k + cx) (snd hd) ;; Some (h, padd (snd hd) npart_cell)) hd (seq 0 k))
      (repeat None (nc * k), Some (0, 0)) (seq 0 n) = Some (h, Some (0, es n * k)) /\ length h = nc * k /\
    forall c j, c < n -> j < k -> nth_error h (c * k + j) = Some (Some (0, address c j 0))).
  { induction n as [|n IH]; intros Hn.
    - exists (repeat None (nc * k)). cbn. split; auto. split; [apply repeat_length|]. intros; lia.
    - destruct IH as (h1 & E1 & L1 & W1); [lia|]. rewrite seq_S, foldM_app, E1. cbn [obind foldM Nat.add].
      unfold rd. rewrite (nth_error_nth' np 0) by lia. cbn [obind].
      destruct (Inner n h1 ltac:(lia) L1 k (le_n _)) as (h2 & E2 & L2 & W2 & N2). rewrite E2. cbn [obind].
      exists h2. split; [do 4 f_equal; rewrite es_S by lia; lia|]. split; auto.
      intros c j Hc Hj. destruct (Nat.eq_dec c n) as [->|]; [auto|]. rewrite N2; [apply W1; lia|]. apply idx_lt; lia. }
  destruct (Outer nc (le_n _)) as (h & E & L & W). exists h, (Some (0, es nc * k)). auto.
Qed.
End Fixed.
