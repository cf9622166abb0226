(** C77: the operations that work cell by cell. *)
From Coq Require Import List Arith Bool Permutation Lia.
Import ListNotations.
From Verif Require Import Base Kernel CellDat_Model CellConst_Model CellConst_Proofs Cellwise_Model Cellwise_Spec Cellwise_Proofs.

(** The counts are written to the given row and column of every cell, and nothing else changes. *)
Theorem C77_counts : forall (T : Type) d (conv : nat -> T) cell_count npart (x : cell_const T) row col, device_ok d -> cc_valid x -> length npart = cell_count ->
  (cc_ncells x = cell_count -> row < cc_nrow x -> col < cc_ncol x ->
     exists x', get_npart_cell d conv cell_count npart x row col = Some x' /\ same_shape x' x /\ cc_valid x' /\
       forall cell i j, inside x cell i j -> cc_get_value x' cell i j = if (i =? row) && (j =? col) then option_map conv (nth_error npart cell) else cc_get_value x cell i j) /\
  (cc_ncells x <> cell_count \/ cc_nrow x <= row \/ cc_ncol x <= col -> get_npart_cell d conv cell_count npart x row col = None).
Proof.
  intros T d conv q npart x row col Hd V Ln. split.
  - intros Hq Hi Hj. unfold get_npart_cell. rewrite Hq, Nat.eqb_refl. cbn [assert obind]. destruct (Nat.ltb_spec row (cc_nrow x)); [|lia]. cbn [assert obind]. destruct (Nat.ltb_spec col (cc_ncol x)); [|lia]. cbn [assert obind].
    unfold cc_valid in V. rewrite Hq in V. set (n := cc_nrow x) in *. set (m := cc_ncol x) in *.
    destruct (foldM_upd (fun mm idx => v <- rd npart idx ;; upd mm (idx * (n * m) + n * col + row) (conv v)) (fun idx => idx * (n * m) + n * col + row) (fun idx => conv (nth idx npart 0)) (ord d 0 (seq 0 q)) (cc_data x)) as (data & E & L & W & N).
    + intros m' idx Lm I. rewrite in_ord in I by exact Hd. apply in_seq in I. unfold rd. rewrite (nth_error_nth' npart 0) by lia. reflexivity.
    + intros idx I. rewrite in_ord in I by exact Hd. apply in_seq in I. rewrite V. pose proof (lin_lt n m q idx col row). nia.
    + intros a b Ia Ib Eab. destruct (lin_inj n m a col row b col row) as (-> & _); auto. nia.
    + rewrite E. cbn [obind]. eexists. split; [reflexivity|]. split; [repeat split|]. split; [unfold cc_valid; cbn [cc_with cc_data cc_ncells cc_nrow cc_ncol]; rewrite Hq; lia|].
      intros cell i j (Ic & Ii & Ij). rewrite Hq in Ic. fold n in Ii. fold m in Ij. unfold cc_get_value, rd, cc_stride. cbn [cc_with cc_data cc_nrow cc_ncol]. fold n m. destruct ((i =? row) && (j =? col)) eqn:B.
      * apply andb_true_iff in B. destruct B as (B1 & B2). apply Nat.eqb_eq in B1, B2. subst i j. replace (cell * (n * m) + col * n + row) with (cell * (n * m) + n * col + row) by lia. rewrite W by (apply in_ord; [exact Hd|apply in_seq; lia]). rewrite (nth_error_nth' npart 0) by lia. reflexivity.
      * apply N. intros a Ia X. rewrite in_ord in Ia by exact Hd. apply in_seq in Ia. destruct (lin_inj n m a col row cell j i) as (_ & -> & ->); auto; [nia|]. rewrite !Nat.eqb_refl in B. discriminate.
  - intros H. unfold get_npart_cell, assert. destruct (Nat.eqb_spec (cc_ncells x) q); cbn [obind]; [|reflexivity]. destruct (Nat.ltb_spec row (cc_nrow x)); cbn [obind]; [|reflexivity]. destruct (Nat.ltb_spec col (cc_ncol x)); cbn [obind]; [|reflexivity]. lia.
Qed.
Print Assumptions C77_counts.

(** An element wise expression: every element of the result is the kernel applied to the values which the arguments had before, also if the result is one of the arguments. *)
Theorem C77_element_wise : forall (T : Type) d (kernel : list T -> T) (s : list (cell_const T)) result args r, device_ok d -> Forall cc_valid s -> nth_error s result = Some r ->
  (forall a, In a args -> exists x, nth_error s a = Some x /\ fits r x) ->
  exists s' r', element_wise d kernel result args s = Some s' /\ length s' = length s /\ (forall k, k <> result -> nth_error s' k = nth_error s k) /\
    nth_error s' result = Some r' /\ same_shape r' r /\ cc_valid r' /\
    forall cell row col, inside r cell row col -> exists vs, operands s args cell row col vs /\ cc_get_value r' cell row col = Some (kernel vs).
Proof.
  intros T d kernel s result args r Hd Hv Hr Hargs. set (flag := fun a => match nth_error s a with Some x => negb (one_by_one r) && one_by_one x | None => false end).
  assert (M : mapM (fun a => x <- rd s a ;; check_arg r x) args = Some (map flag args)).
  { clear - Hargs. induction args as [|a args IH]; [reflexivity|]. cbn [mapM map]. destruct (Hargs a (or_introl eq_refl)) as (x & Ex & F). unfold rd at 1. rewrite Ex. cbn [obind]. rewrite (check_fits r x F). cbn [obind]. rewrite IH by (intros b Ib; apply Hargs; right; exact Ib). cbn [obind]. unfold flag at 2. rewrite Ex. reflexivity. }
  unfold element_wise. unfold rd at 1. rewrite Hr. cbn [obind]. rewrite M. cbn [obind].
  assert (B : existsb (fun b : bool => b) (map flag args) = existsb flag args) by (clear; induction args as [|a l IH]; [reflexivity|]; cbn [map existsb]; rewrite IH; reflexivity). rewrite B.
  destruct (items_ok kernel s result args r (existsb flag args) Hv Hr Hargs eq_refl (ord d 0 (range3 (cc_ncells r) (cc_ncol r) (cc_nrow r)))) as (s' & E & L & Ho & r' & Er & Sh & Ld & W & K).
  - intros ((c, j), i) I. rewrite in_ord in I by exact Hd. apply in_range3 in I. exact I.
  - apply (Permutation_NoDup (l := range3 (cc_ncells r) (cc_ncol r) (cc_nrow r))); [apply Permutation_sym, Hd|apply range3_nodup].
  - exists s', r'. split; [exact E|]. split; [exact L|]. split; [exact Ho|]. split; [exact Er|]. split; [exact Sh|]. destruct Sh as (S1 & S2 & S3). split.
    + unfold cc_valid. rewrite Ld, S1, S2, S3. apply (proj1 (Forall_forall _ _) Hv r (nth_error_In _ _ Hr)).
    + intros cell row col (Ic & Ir & Icl). destruct (W (cell, col, row)) as (vs & Evs & Ek); [apply in_ord; [exact Hd|apply in_range3; auto]|exact (conj Ic (conj Icl Ir))|]. exists vs. split.
      * clear - Evs. revert vs Evs. unfold operands. induction args as [|a l IH]; intros vs Evs; cbn [mapM] in Evs; [inversion Evs; constructor|]. destruct (opv s (cell, col, row) a) as [v|] eqn:Ea; cbn [obind] in Evs; [|discriminate]. destruct (mapM (opv s (cell, col, row)) l) as [vs'|] eqn:El; cbn [obind] in Evs; [|discriminate]. inversion Evs; subst. constructor; [|apply IH; reflexivity]. unfold opv in Ea. destruct (nth_error s a) as [x|]; cbn [obind] in Ea; [|discriminate]. exists x. split; [reflexivity|exact Ea].
      * rewrite <- Ek. unfold cc_get_value, rd, cc_stride. rewrite S2, S3. f_equal. cbn [lin]. lia.
Qed.
Print Assumptions C77_element_wise.

(** An argument that does not fit is refused. *)
Theorem C77_misfit : forall (T : Type) d (kernel : list T -> T) (s : list (cell_const T)) result args r a x, nth_error s result = Some r ->
  In a args -> nth_error s a = Some x -> ~ fits r x -> element_wise d kernel result args s = None.
Proof.
  intros T d kernel s result args r a x Hr Ia Ex NF. unfold element_wise. unfold rd at 1. rewrite Hr. cbn [obind]. replace (mapM (fun b => y <- rd s b ;; check_arg r y) args) with (@None (list bool)); [reflexivity|]. symmetry.
  induction args as [|b l IH]; [destruct Ia|]. cbn [mapM]. destruct Ia as [->|Ia].
  - unfold rd at 1. rewrite Ex. cbn [obind]. destruct (check_arg r x) eqn:C; [exfalso; exact (NF (check_misfit r x _ C))|reflexivity].
  - rewrite (IH Ia). destruct (y <- rd s b ;; check_arg r y); reflexivity.
Qed.
Print Assumptions C77_misfit.

Lemma foldM_ext {A S} (f g : S -> A -> option S) l : (forall s a, f s a = g s a) -> forall s, foldM f s l = foldM g s l.
Proof. intros H. induction l as [|a l IH]; intros s; cbn [foldM]; [reflexivity|]. rewrite H. destruct (g s a); cbn [obind]; [apply IH|reflexivity]. Qed.
Lemma in_items sel cell k layer : In (cell, k, layer) (loop_items sel) <-> selected sel cell k layer.
Proof.
  assert (P : forall A (l : list A) b i x, In (i, x) (combine (seq b (length l)) l) <-> b <= i /\ nth_error l (i - b) = Some x).
  { intros A. induction l as [|y l IH]; intros b i x; cbn [length seq combine].
    - split; [intros []|]. intros (_ & X). destruct (i - b); discriminate.
    - cbn [In]. rewrite IH. split.
      + intros [E|(A1 & A2)]; [inversion E; subst; rewrite Nat.sub_diag; split; [lia|reflexivity]|]. split; [lia|]. replace (i - b) with (S (i - S b)) by lia. exact A2.
      + intros (A1 & A2). destruct (Nat.eq_dec i b) as [->|NE]; [left; rewrite Nat.sub_diag in A2; cbn [nth_error] in A2; congruence|]. right. split; [lia|]. replace (i - b) with (S (i - S b)) in A2 by lia. exact A2. }
  unfold loop_items, selected. rewrite in_flat_map. split.
  - intros ((c & ls) & I & H). apply in_map_iff in H. destruct H as ((k' & l') & E & I'). cbn [fst snd] in *. inversion E; subst. apply P in I, I'. rewrite Nat.sub_0_r in I, I'. exists ls. tauto.
  - intros (ls & E1 & E2). exists (cell, ls). split; [apply P; rewrite Nat.sub_0_r; split; [lia|exact E1]|]. apply in_map_iff. exists (k, layer). cbn [fst snd]. split; [reflexivity|]. apply P. rewrite Nat.sub_0_r. split; [lia|exact E2].
Qed.

(** The broadcast sets the component of exactly the selected particles to the value of their cell. *)
Theorem C77_broadcast : forall (T V : Type) d (conv : V -> T) cell_count sel component (values buffer : list V) (dat : list (list (list T))), device_ok d ->
  length sel = cell_count -> cell_count <= length buffer ->
  (forall cell k layer, selected sel cell k layer -> exists x, rd3 dat cell component layer = Some x) ->
  (length values = cell_count -> exists dat', cellwise_broadcast d conv cell_count sel component values buffer dat = Some dat' /\ shape3 dat' = shape3 dat /\
     (forall cell k layer, selected sel cell k layer -> rd3 dat' cell component layer = option_map conv (nth_error values cell)) /\
     (forall cell comp layer, comp <> component \/ (forall k, ~ selected sel cell k layer) -> rd3 dat' cell comp layer = rd3 dat cell comp layer)) /\
  (length values <> cell_count -> cellwise_broadcast d conv cell_count sel component values buffer dat = None).
Proof.
  intros T V d conv q sel comp values buffer dat Hd Ls Lb Hin. split.
  - intros Lv. unfold cellwise_broadcast. rewrite Lv, Nat.eqb_refl. cbn [assert obind]. destruct (memcpy_ok buffer values 0 0 q) as (kb & Ek & Lk & Nk); [lia|lia|]. rewrite Ek. cbn [obind].
    assert (KB : forall cell, cell < q -> nth_error kb cell = nth_error values cell). { intros cell Hc. rewrite Nk. cbn [Nat.leb andb plus]. destruct (Nat.ltb_spec cell q); [|lia]. f_equal. lia. }
    destruct (@foldM_kernel (nat * nat * nat) (list (list (list T))) loc3 T (fun m it => let '(cell, loop_layer, layer) := it in v <- rd kb cell ;; upd3 m cell comp layer (conv v)) get3 (fun m' => shape3 m' = shape3 dat)
       (fun it p => let '(cell, k, layer) := it in if loc3_eqb p (cell, comp, layer) then option_map conv (nth_error values cell) else None) (ord d 0 (loop_items sel)) dat) as (dat' & E & Sh & W & N).
    + reflexivity.
    + intros s ((cell & k) & layer) Ss I. rewrite in_ord in I by exact Hd. apply in_items in I. destruct (Hin _ _ _ I) as (x & Ex). destruct (shape3_rd3 _ s _ _ _ _ Ss Ex) as (z & Ez). assert (Hc : cell < q) by (destruct I as (ls & I & _); rewrite <- Ls; apply nth_error_Some; rewrite I; discriminate).
      destruct (nth_error values cell) as [v|] eqn:Ev; [|apply nth_error_None in Ev; lia]. unfold rd. rewrite (KB cell Hc), Ev. cbn [obind]. destruct (upd3_some s cell comp layer (conv v) z Ez) as (s' & Es). exists s'. split; [exact Es|]. split; [rewrite (upd3_shape _ _ _ _ _ _ Es); exact Ss|]. intros ((i & j) & l). unfold get3, loc3_eqb. cbn [fst snd]. rewrite (upd3_rd3 _ _ _ _ _ _ Es). cbn [option_map]. destruct ((i =? cell) && (j =? comp) && (l =? layer)); reflexivity.
    + intros ((c & k) & l) ((c' & k') & l') p v w _ _. destruct (loc3_eqb_spec p (c, comp, l)); [|discriminate]. destruct (loc3_eqb_spec p (c', comp, l')); [|discriminate]. subst p. intros E1 E2. assert (c = c') by congruence. subst. congruence.
    + exists dat'. split; [exact E|]. split; [exact Sh|]. split.
      * intros cell k layer S1. assert (Hc : cell < q) by (destruct S1 as (ls & I & _); rewrite <- Ls; apply nth_error_Some; rewrite I; discriminate). destruct (nth_error values cell) as [v|] eqn:Ev; [|apply nth_error_None in Ev; lia]. apply (W (cell, k, layer) (cell, comp, layer)); [apply in_ord; [exact Hd|apply in_items; exact S1]|]. destruct (loc3_eqb_spec (cell, comp, layer) (cell, comp, layer)); [|congruence]. rewrite Ev. reflexivity.
      * intros cell cm layer H. apply (N (cell, cm, layer)). intros ((c & k) & l) I. rewrite in_ord in I by exact Hd. apply in_items in I. destruct (loc3_eqb_spec (cell, cm, layer) (c, comp, l)) as [X|X]; [|reflexivity]. exfalso. inversion X; subst. destruct H as [H|H]; [apply H; reflexivity|exact (H k I)].
  - intros H. unfold cellwise_broadcast, assert. destruct (Nat.eqb_spec (length values) q); [contradiction|reflexivity].
Qed.
Print Assumptions C77_broadcast.

(** One item of a copy: all components of one particle. *)
Lemma comps_ok {T} (src m : list (list (list T))) ncomp cell l l' : (forall cx, cx < ncomp -> exists v, rd3 src cell cx l = Some v) -> (forall cx, cx < ncomp -> exists v, rd3 m cell cx l' = Some v) ->
  exists m', foldM (fun m cx => v <- rd3 src cell cx l ;; upd3 m cell cx l' v) m (seq 0 ncomp) = Some m' /\ shape3 m' = shape3 m /\
    forall p, get3 m' p = if (fst (fst p) =? cell) && (snd (fst p) <? ncomp) && (snd p =? l') then rd3 src cell (snd (fst p)) l else get3 m p.
Proof.
  induction ncomp as [|n IH]; intros Hs Hm.
  - exists m. split; [reflexivity|]. split; [reflexivity|]. intros p. cbn [Nat.ltb Nat.leb]. rewrite andb_false_r. reflexivity.
  - destruct IH as (m1 & E & Sh & G); [intros cx H; apply Hs; lia|intros cx H; apply Hm; lia|]. rewrite seq_S, foldM_app. rewrite E. cbn [obind foldM plus]. destruct (Hs n) as (v & Ev); [lia|]. rewrite Ev. cbn [obind]. destruct (Hm n) as (z & Ez); [lia|]. destruct (shape3_rd3 _ m1 _ _ _ _ Sh Ez) as (z' & Ez'). destruct (upd3_some m1 cell n l' v z' Ez') as (m2 & E2). rewrite E2. cbn [obind]. exists m2. split; [reflexivity|]. split; [rewrite (upd3_shape _ _ _ _ _ _ E2); exact Sh|].
    intros ((i & j) & k). specialize (G (i, j, k)). unfold get3 in *. cbn [fst snd] in *. rewrite (upd3_rd3 _ _ _ _ _ _ E2), G. clear G. destruct (i =? cell); cbn [andb]; [|reflexivity]. destruct (k =? l'); rewrite ?andb_false_r, ?andb_true_r; [|reflexivity]. destruct (Nat.eqb_spec j n) as [->|]; [destruct (Nat.ltb_spec n (S n)); [symmetry; exact Ev|lia]|]. destruct (Nat.ltb_spec j n), (Nat.ltb_spec j (S n)); try lia; reflexivity.
Qed.

(** A loop of such items, from row [f it] of the source to row [g it] of the destination. *)
Lemma copy_loop {T} (src dst : list (list (list T))) ncomp (f g : nat * nat * nat -> nat) sched :
  (forall it cx, In it sched -> cx < ncomp -> exists v, rd3 src (fst (fst it)) cx (f it) = Some v) -> (forall it cx, In it sched -> cx < ncomp -> exists v, rd3 dst (fst (fst it)) cx (g it) = Some v) ->
  (forall a b, In a sched -> In b sched -> fst (fst a) = fst (fst b) -> g a = g b -> f a = f b) ->
  exists dst', foldM (fun m it => foldM (fun m cx => v <- rd3 src (fst (fst it)) cx (f it) ;; upd3 m (fst (fst it)) cx (g it) v) m (seq 0 ncomp)) dst sched = Some dst' /\ shape3 dst' = shape3 dst /\
    (forall it cx, In it sched -> cx < ncomp -> rd3 dst' (fst (fst it)) cx (g it) = rd3 src (fst (fst it)) cx (f it)) /\
    (forall cell cx l, ncomp <= cx \/ (forall it, In it sched -> fst (fst it) = cell -> g it <> l) -> rd3 dst' cell cx l = rd3 dst cell cx l).
Proof.
  intros Hs Hd Hfg. destruct (@foldM_kernel (nat * nat * nat) (list (list (list T))) loc3 T (fun m it => foldM (fun m cx => v <- rd3 src (fst (fst it)) cx (f it) ;; upd3 m (fst (fst it)) cx (g it) v) m (seq 0 ncomp)) get3 (fun m' => shape3 m' = shape3 dst)
     (fun it p => if (fst (fst p) =? fst (fst it)) && (snd (fst p) <? ncomp) && (snd p =? g it) then rd3 src (fst (fst it)) (snd (fst p)) (f it) else None) sched dst) as (dst' & E & Sh & W & N).
  - reflexivity.
  - intros s it Ss I. destruct (comps_ok src s ncomp (fst (fst it)) (f it) (g it)) as (s' & Es & Sh & G); [intros cx H; apply Hs; assumption|intros cx H; destruct (Hd it cx I H) as (x & Ex); exact (shape3_rd3 _ s _ _ _ _ Ss Ex)|].
    exists s'. split; [exact Es|]. split; [rewrite Sh; exact Ss|]. intros p. rewrite G. destruct ((fst (fst p) =? fst (fst it)) && (snd (fst p) <? ncomp) && (snd p =? g it)) eqn:B; [|reflexivity]. apply andb_true_iff in B. destruct B as (B & _). apply andb_true_iff in B. destruct B as (_ & B). apply Nat.ltb_lt in B. destruct (Hs it (snd (fst p)) I B) as (v & Ev). rewrite Ev. reflexivity.
  - intros a b p v w Ia Ib. destruct ((fst (fst p) =? fst (fst a)) && (snd (fst p) <? ncomp) && (snd p =? g a)) eqn:B; [|discriminate]. destruct ((fst (fst p) =? fst (fst b)) && (snd (fst p) <? ncomp) && (snd p =? g b)) eqn:B'; [|discriminate]. apply andb_true_iff in B, B'. destruct B as (B & C), B' as (B' & C'). apply andb_true_iff in B, B'. destruct B as (B & _), B' as (B' & _). apply Nat.eqb_eq in B, B', C, C'. rewrite <- B, <- B'. rewrite (Hfg a b Ia Ib) by congruence. congruence.
  - exists dst'. split; [exact E|]. split; [exact Sh|]. split.
    + intros it cx I H. destruct (Hs it cx I H) as (v & Ev). rewrite Ev. apply (W it (fst (fst it), cx, g it) v I). cbn [fst snd]. rewrite !Nat.eqb_refl. destruct (Nat.ltb_spec cx ncomp); [exact Ev|lia].
    + intros cell cx l H. apply (N (cell, cx, l)). intros it I. cbn [fst snd]. destruct (Nat.eqb_spec cell (fst (fst it))) as [Ec|]; cbn [andb]; [|reflexivity]. destruct (Nat.ltb_spec cx ncomp); cbn [andb]; [|reflexivity]. destruct (Nat.eqb_spec l (g it)) as [El|]; [|reflexivity]. exfalso. destruct H as [H|H]; [lia|]. apply (H it I); congruence.
Qed.

(** A dat has the components for the selected particles. *)
Definition has_rows {T} (dat : list (list (list T))) (ncomp : nat) (row : nat -> nat -> Prop) : Prop := forall cell l cx, row cell l -> cx < ncomp -> exists v, rd3 dat cell cx l = Some v.

(** Copies between the two kinds of dats move all components of exactly the selected particles. *)
Theorem C77_to_particle_dat : forall (T : Type) d sel ncomp ncomp' (eph dat : list (list (list T))), device_ok d -> Forall (@NoDup nat) sel ->
  has_rows eph ncomp (fun cell k => exists layer, selected sel cell k layer) -> has_rows dat ncomp' (fun cell layer => exists k, selected sel cell k layer) ->
  (ncomp = ncomp' -> exists dat', ephemeral_to_particle d sel ncomp ncomp' eph dat = Some dat' /\ shape3 dat' = shape3 dat /\
     (forall cell k layer cx, selected sel cell k layer -> cx < ncomp -> rd3 dat' cell cx layer = rd3 eph cell cx k) /\
     (forall cell layer cx, ncomp <= cx \/ (forall k, ~ selected sel cell k layer) -> rd3 dat' cell cx layer = rd3 dat cell cx layer)) /\
  (ncomp <> ncomp' -> ephemeral_to_particle d sel ncomp ncomp' eph dat = None).
Proof.
  intros T d sel n n' eph dat Hd ND He Hp. split.
  - intros <-. unfold ephemeral_to_particle. rewrite Nat.eqb_refl. cbn [assert obind].
    destruct (copy_loop eph dat n (fun it => snd (fst it)) snd (ord d 0 (loop_items sel))) as (dat' & E & Sh & W & N).
    + intros ((c & k) & l) cx I H. rewrite in_ord in I by exact Hd. apply in_items in I. cbn [fst snd]. apply He; [|exact H]. exists l. exact I.
    + intros ((c & k) & l) cx I H. rewrite in_ord in I by exact Hd. apply in_items in I. cbn [fst snd]. apply Hp; [|exact H]. exists k. exact I.
    + intros ((c & k) & l) ((c' & k') & l') I I'. rewrite in_ord in I, I' by exact Hd. apply in_items in I, I'. cbn [fst snd]. intros <- <-. destruct I as (ls & I1 & I2), I' as (ls' & I1' & I2'). assert (ls' = ls) by congruence. subst ls'. pose proof (proj1 (Forall_forall _ _) ND ls (nth_error_In _ _ I1)) as NL. rewrite NoDup_nth_error in NL. apply NL; [apply nth_error_Some; rewrite I2; discriminate|congruence].
    + exists dat'. split; [etransitivity; [|exact E]; apply foldM_ext; intros m ((c & k) & l); reflexivity|]. split; [exact Sh|]. split.
      * intros cell k layer cx S1 H. apply (W (cell, k, layer)); [apply in_ord; [exact Hd|apply in_items; exact S1]|exact H].
      * intros cell layer cx H. apply N. destruct H as [H|H]; [left; exact H|]. right. intros ((c & k) & l) I Ec. rewrite in_ord in I by exact Hd. apply in_items in I. cbn [fst snd] in *. subst c. intros ->. exact (H k I).
  - intros H. unfold ephemeral_to_particle, assert. destruct (Nat.eqb_spec n n'); [contradiction|reflexivity].
Qed.
Print Assumptions C77_to_particle_dat.

Theorem C77_to_ephemeral_dat : forall (T : Type) d sel ncomp ncomp' (dat eph : list (list (list T))), device_ok d ->
  has_rows dat ncomp (fun cell layer => exists k, selected sel cell k layer) -> has_rows eph ncomp' (fun cell k => exists layer, selected sel cell k layer) ->
  (ncomp = ncomp' -> exists eph', particle_to_ephemeral d sel ncomp ncomp' dat eph = Some eph' /\ shape3 eph' = shape3 eph /\
     (forall cell k layer cx, selected sel cell k layer -> cx < ncomp -> rd3 eph' cell cx k = rd3 dat cell cx layer) /\
     (forall cell k cx, ncomp <= cx \/ (forall layer, ~ selected sel cell k layer) -> rd3 eph' cell cx k = rd3 eph cell cx k)) /\
  (ncomp <> ncomp' -> particle_to_ephemeral d sel ncomp ncomp' dat eph = None).
Proof.
  intros T d sel n n' dat eph Hd Hp He. split.
  - intros <-. unfold particle_to_ephemeral. rewrite Nat.eqb_refl. cbn [assert obind].
    destruct (copy_loop dat eph n snd (fun it => snd (fst it)) (ord d 0 (loop_items sel))) as (eph' & E & Sh & W & N).
    + intros ((c & k) & l) cx I H. rewrite in_ord in I by exact Hd. apply in_items in I. cbn [fst snd]. apply Hp; [|exact H]. exists k. exact I.
    + intros ((c & k) & l) cx I H. rewrite in_ord in I by exact Hd. apply in_items in I. cbn [fst snd]. apply He; [|exact H]. exists l. exact I.
    + intros ((c & k) & l) ((c' & k') & l') I I'. rewrite in_ord in I, I' by exact Hd. apply in_items in I, I'. cbn [fst snd]. intros <- <-. destruct I as (ls & I1 & I2), I' as (ls' & I1' & I2'). congruence.
    + exists eph'. split; [etransitivity; [|exact E]; apply foldM_ext; intros m ((c & k) & l); reflexivity|]. split; [exact Sh|]. split.
      * intros cell k layer cx S1 H. apply (W (cell, k, layer)); [apply in_ord; [exact Hd|apply in_items; exact S1]|exact H].
      * intros cell k cx H. apply N. destruct H as [H|H]; [left; exact H|]. right. intros ((c & k') & l) I Ec. rewrite in_ord in I by exact Hd. apply in_items in I. cbn [fst snd] in *. subst c. intros ->. exact (H l I).
  - intros H. unfold particle_to_ephemeral, assert. destruct (Nat.eqb_spec n n'); [contradiction|reflexivity].
Qed.
Print Assumptions C77_to_ephemeral_dat.

(** ** An example: two cells, matrices of two rows and three columns, the result is an argument. *)
Definition dev77 : device := {| ord := fun A k l => rev l; junk := fun _ _ => BinInt.Z0; local_size := 2; max_compute_units := 3 |}.
Lemma dev77_ok : device_ok dev77.
Proof. split; [|cbn; lia]. intros A k l. symmetry. apply Permutation_rev. Qed.
Definition store77 : list (cell_const nat) := [mk_cc 2 2 3 [1; 2; 3; 4; 5; 6; 7; 8; 9; 10; 11; 12]; mk_cc 2 1 1 [100; 200]; mk_cc 2 3 2 [0; 0; 0; 0; 0; 0; 0; 0; 0; 0; 0; 0]].
Example C77_example : Forall cc_valid store77 /\ (forall a, In a [0; 1; 0] -> exists x, nth_error store77 a = Some x /\ fits (mk_cc 2 2 3 [1; 2; 3; 4; 5; 6; 7; 8; 9; 10; 11; 12]) x) /\
  element_wise dev77 (fun vs => fold_left plus vs 0) 0 [0; 1; 0] store77 = Some [mk_cc 2 2 3 [102; 104; 106; 108; 110; 112; 214; 216; 218; 220; 222; 224]; mk_cc 2 1 1 [100; 200]; mk_cc 2 3 2 [0; 0; 0; 0; 0; 0; 0; 0; 0; 0; 0; 0]] /\
  element_wise dev77 (fun vs => fold_left plus vs 0) 0 [0; 2] store77 = None /\
  get_npart_cell dev77 (fun k => k) 2 [7; 8] (mk_cc 2 1 2 [1; 2; 3; 4]) 0 1 = Some (mk_cc 2 1 2 [1; 7; 3; 8]) /\
  cellwise_broadcast dev77 (fun k => k) 2 [[0; 2]; [1]] 1 [5; 6] [0; 0; 0] [[[1; 1; 1]; [2; 2; 2]]; [[3; 3]; [4; 4]]] = Some [[[1; 1; 1]; [5; 2; 5]]; [[3; 3]; [4; 6]]] /\
  ephemeral_to_particle dev77 [[2; 0]; [1]] 1 1 [[[8; 9]]; [[7]]] [[[1; 1; 1]]; [[3; 3]]] = Some [[[9; 1; 8]]; [[3; 7]]] /\
  particle_to_ephemeral dev77 [[2; 0]; [1]] 1 1 [[[9; 1; 8]]; [[3; 7]]] [[[0; 0]]; [[0]]] = Some [[[8; 9]]; [[7]]].
Proof.
  split; [repeat constructor|]. split; [|repeat split]. intros a [<-|[<-|[<-|[]]]]; eexists; (split; [reflexivity|]); (split; [reflexivity|]); cbn; auto.
Qed.
