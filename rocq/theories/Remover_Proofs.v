(** Proofs: removal by condition, by sub-group and by lists on the host. *)
From Coq Require Import List Arith ZArith Bool Lia Permutation.
Import ListNotations.
From Verif Require Import Base Kernel Group_Model Group_Spec Group_Proofs Compress_Model Compress_Spec Compress_Proofs Add_Proofs AddGroup_Proofs Loop_Model Loop_Spec SubGroup_Model SubGroup_Spec SubGroup_Proofs Arr_Proofs Remover_Model Remover_Spec.
Local Open Scope nat_scope.
Notation asked := Compress_Spec.listed.

Lemma realloc_lenZ d k n buf : n <= length (realloc_no_copyZ d k n buf).
Proof. unfold realloc_no_copyZ. destruct (Nat.ltb_spec (length buf) n); [rewrite freshZ_length|]; lia. Qed.

(** ** From the removal lists to the particles *)
Lemma kept_select {R} (g : group R) c (sel : nat -> bool) (gone : nat -> particle R -> bool) : forall n a ps, mapM (particle_at (st g) c) (seq a n) = Some ps ->
  (forall l p, a <= l < a + n -> particle_at (st g) c l = Some p -> sel l = negb (gone l p)) ->
  mapM (particle_at (st g) c) (filter sel (seq a n)) = Some (map snd (filter (fun lp => negb (gone (fst lp) (snd lp))) (combine (seq a n) ps))).
Proof.
  induction n as [|n IH]; intros a ps E H; cbn in E.
  - injection E as <-. reflexivity.
  - destruct (particle_at (st g) c a) as [p|] eqn:Ep; [|discriminate]. cbn in E. destruct (mapM (particle_at (st g) c) (seq (S a) n)) as [ps1|] eqn:E1; [|discriminate]. cbn in E. injection E as <-.
    cbn [seq filter combine fst snd]. rewrite (H a p) by (auto; lia). specialize (IH (S a) ps1 E1). destruct (gone a p) eqn:G; cbn [negb].
    + apply IH. intros l q L. apply H. lia.
    + cbn [mapM map snd]. rewrite Ep. cbn [obind]. rewrite IH by (intros l q L; apply H; lia). reflexivity.
Qed.
Lemma removal_without {R} (g g' : group R) cells layers gone : is_removal g cells layers g' ->
  (forall c l n p, nth_error (npart_cell g) c = Some n -> l < n -> particle_at (st g) c l = Some p -> asked cells layers c l = gone c l p) -> without gone g g'.
Proof.
  intros (L & _ & _ & H) A. split; [exact L|]. intros c ps E. unfold cell_particles in E. destruct (nth_error (npart_cell g) c) as [n|] eqn:En; [|discriminate]. cbn in E.
  destruct (H c n En) as (_ & ps1 & ps' & E1 & E' & P). exists ps'. split; [exact E'|]. rewrite P. pose proof (mapM_length _ _ _ E) as Lp. rewrite seq_length in Lp. rewrite Lp.
  unfold kept_layers in E1. rewrite (kept_select g c _ (gone c) n 0 ps E) in E1.
  - injection E1 as <-. reflexivity.
  - intros l p Hl Ep. cbn. f_equal. apply (A c l n p En); [lia|exact Ep].
Qed.
Lemma combine_nth_inv {A B} : forall (l : list A) (l' : list B) i a b, nth_error (combine l l') i = Some (a, b) -> nth_error l i = Some a /\ nth_error l' i = Some b.
Proof. induction l as [|x l IH]; intros [|y l'] [|i] a b E; cbn in *; try discriminate; [injection E as <- <-; auto|apply IH, E]. Qed.
Lemma asked_spec cells layers c l : asked cells layers c l = true <-> exists i, nth_error cells i = Some (Z.of_nat c) /\ nth_error layers i = Some (Z.of_nat l).
Proof.
  unfold asked. rewrite existsb_exists. split.
  - intros ((x, y) & I & E). cbn in E. apply andb_prop in E. destruct E as (E1 & E2). apply Z.eqb_eq in E1, E2. subst. apply In_nth_error in I. destruct I as (i & Ei). exists i. apply combine_nth_inv in Ei. exact Ei.
  - intros (i & E1 & E2). exists (Z.of_nat c, Z.of_nat l). cbn. rewrite !Z.eqb_refl. split; [|reflexivity]. apply (nth_error_In _ i). apply nth_error_combine; assumption.
Qed.
(** The general fact: lists that name particles of the group are removed. *)
Lemma remove_named d {R} cid (g : group R) cells layers gone : device_ok d -> wf_group g -> cid < length (ints (st g)) -> ids_valid cid g -> length cells = length layers ->
  (forall i x y, nth_error cells i = Some x -> nth_error layers i = Some y -> exists c l n, x = Z.of_nat c /\ y = Z.of_nat l /\ nth_error (npart_cell g) c = Some n /\ l < n) ->
  (forall c l n p, nth_error (npart_cell g) c = Some n -> l < n -> particle_at (st g) c l = Some p -> asked cells layers c l = gone c l p) ->
  exists g', remove_particles d cid g cells layers = Some g' /\ wf_group g' /\ without gone g g'.
Proof.
  intros Hd WF Hc HI LL HV HA. destruct (remove_correct d R cid g cells layers Hd WF Hc) as (g' & E & WF' & IR).
  - split; [exact LL|]. intros i c l n E1 E2 En. destruct (HV i _ _ E1 E2) as (c' & l' & n' & X1 & X2 & X3 & X4). apply Nat2Z.inj in X1, X2. subst. assert (n' = n) by congruence. lia.
  - intros c l n En Hl _. apply (HI c l n En Hl).
  - exists g'. split; [exact E|]. split; [exact WF'|]. eapply removal_without; eassumption.
Qed.

(** ** The remover *)
Lemma compare_ok {R} (q : @condition R) (g : group R) c l p : particle_at (st g) c l = Some p -> has_property q g -> compare_at q (st g) c l = Some (has_key q p).
Proof.
  intros E HP. unfold particle_at in E. destruct (mapM (fun col => rd2 col c l) (reals (st g))) as [x|] eqn:Ex; [|discriminate]. destruct (mapM (fun col => rd2 col c l) (ints (st g))) as [y|] eqn:Ey; [|discriminate]. injection E as <-.
  assert (X : forall V (D : list (list (list V))) vs f, mapM (fun col => rd2 col c l) D = Some vs -> f < length D -> exists v, rd3 D f c l = Some v /\ nth_error vs f = Some v).
  { intros V D vs f Em Lf. destruct (nth_error_lt_some D f Lf) as (col & Ec). pose proof (mapM_nth _ _ _ _ _ Em Ec) as Q. cbn in Q. destruct (nth_error_lt_some vs f) as (v & Ev); [rewrite (mapM_length _ _ _ Em); exact Lf|].
    exists v. split; [|exact Ev]. unfold rd3, rd. rewrite Ec. cbn [obind]. fold (@rd (list V)). rewrite Q. exact Ev. }
  destruct q as [f eq|f eq]; cbn in HP |- *; [destruct (X _ _ _ f Ex HP) as (v & E1 & E2)|destruct (X _ _ _ f Ey HP) as (v & E1 & E2)]; rewrite E1; cbn; rewrite E2; reflexivity.
Qed.

Section Remover.
  Context {R : Type} (g : group R) (q : @condition R) (WF : wf_group g) (HP : has_property q g).
  Definition hit (w : nat * nat) : bool := match particle_at (st g) (fst w) (snd w) with Some p => has_key q p | None => false end.
  Lemma compare_hit w : In w (all_particles (npart_cell g)) -> compare_at q (st g) (fst w) (snd w) = Some (hit w).
  Proof.
    destruct w as (c, l). intros I. unfold hit. cbn [fst snd]. rewrite (particle_at_vals g c l WF I). apply compare_ok; [apply (particle_at_vals g c l WF I)|exact HP].
  Qed.
  Lemma count_ok sched : (forall w, In w sched -> In w (all_particles (npart_cell g))) -> foldM (count_item q (st g)) 0 sched = Some (length (filter hit sched)).
  Proof.
    intros H. destruct (foldM_ind (count_item q (st g)) (fun pre n => n = length (filter hit pre)) sched 0 eq_refl) as (n & E & ->); [|exact E].
    intros pre w post n EQ ->. unfold count_item. rewrite compare_hit by (apply H; rewrite EQ; apply in_or_app; right; left; reflexivity). cbn [obind]. eexists. split; [reflexivity|].
    rewrite filter_app, app_length. cbn [filter]. destruct (hit w); cbn; lia.
  Qed.
  Lemma list_ok sched cells layers : (forall w, In w sched -> In w (all_particles (npart_cell g))) -> length (filter hit sched) <= length cells -> length (filter hit sched) <= length layers ->
    exists cells' layers', foldM (list_item q (st g)) (0, cells, layers) sched = Some (length (filter hit sched), cells', layers') /\
      length cells' = length cells /\ length layers' = length layers /\
      forall i w, nth_error (filter hit sched) i = Some w -> nth_error cells' i = Some (Z.of_nat (fst w)) /\ nth_error layers' i = Some (Z.of_nat (snd w)).
  Proof.
    intros H Lc Ll.
    destruct (foldM_ind (list_item q (st g)) (fun pre a => fst (fst a) = length (filter hit pre) /\ length (snd (fst a)) = length cells /\ length (snd a) = length layers /\
      forall i w, nth_error (filter hit pre) i = Some w -> nth_error (snd (fst a)) i = Some (Z.of_nat (fst w)) /\ nth_error (snd a) i = Some (Z.of_nat (snd w))) sched (0, cells, layers)) as (((n, cs), ls) & E & P1 & P2 & P3 & P4).
    - cbn. repeat split; auto; destruct i; discriminate.
    - intros pre w post ((n, cs), ls) EQ (P1 & P2 & P3 & P4). cbn [fst snd] in *. unfold list_item. rewrite compare_hit by (apply H; rewrite EQ; apply in_or_app; right; left; reflexivity). cbn [obind].
      assert (FS : filter hit (pre ++ [w]) = filter hit pre ++ (if hit w then [w] else [])) by (rewrite filter_app; cbn; destruct (hit w); reflexivity). rewrite FS.
      assert (FL : length (filter hit sched) = length (filter hit pre) + (if hit w then 1 else 0) + length (filter hit post)).
      { rewrite EQ, filter_app, app_length. cbn. destruct (hit w); cbn; lia. }
      destruct (hit w).
      + destruct (upd_some cs n (Z.of_nat (fst w))) as (cs' & E1); [lia|]. destruct (upd_some ls n (Z.of_nat (snd w))) as (ls' & E2); [lia|]. rewrite E1. cbn [obind]. rewrite E2. cbn [obind]. eexists. split; [reflexivity|]. cbn [fst snd].
        rewrite app_length, (upd_length _ _ _ _ E1), (upd_length _ _ _ _ E2). cbn [length]. split; [lia|]. split; [exact P2|]. split; [exact P3|]. intros i x Ei. rewrite (upd_nth _ _ _ _ i E1), (upd_nth _ _ _ _ i E2).
        apply nth_app_last in Ei. destruct Ei as [Ei|(-> & ->)].
        * pose proof (nth_error_some_lt _ _ _ Ei). destruct (Nat.eqb_spec i n); [lia|]. apply P4, Ei.
        * rewrite P1, Nat.eqb_refl. auto.
      + eexists. split; [reflexivity|]. rewrite app_nil_r. cbn [fst snd]. auto.
    - cbn [fst snd] in *. subst n. exists cs, ls. auto.
  Qed.
End Remover.

Lemma slice_prefix {A} (m : list A) n : n <= length m -> slice m 0 n = Some (firstn n m).
Proof.
  intros L. unfold slice. rewrite Nat.sub_0_r. destruct (mapM_total (rd m) (seq 0 n)) as (r & E). { intros i I. apply in_seq in I. apply nth_error_lt_some. lia. }
  rewrite E. f_equal. pose proof (mapM_length _ _ _ E) as Lr. rewrite seq_length in Lr. apply nth_error_ext. intros i. rewrite nth_error_firstn. destruct (Nat.ltb_spec i n) as [Li|Li].
  - rewrite <- (mapM_nth _ _ _ i i E) by (apply nth_error_seq'; exact Li). reflexivity.
  - apply nth_error_None. lia.
Qed.
Lemma slice_second {A} (m : list A) n : 2 * n <= length m -> exists r, slice m n (2 * n) = Some r /\ length r = n /\ forall i, i < n -> nth_error r i = nth_error m (n + i).
Proof.
  intros L. unfold slice. replace (2 * n - n) with n by lia. destruct (mapM_total (rd m) (seq n n)) as (r & E). { intros i I. apply in_seq in I. apply nth_error_lt_some. lia. }
  exists r. split; [exact E|]. pose proof (mapM_length _ _ _ E) as Lr. rewrite seq_length in Lr. split; [exact Lr|]. intros i Li. rewrite <- (mapM_nth _ _ _ i (n + i) E); [reflexivity|].
  rewrite nth_error_seq. destruct (Nat.ltb_spec i n); [reflexivity|lia].
Qed.

Theorem remover_ok {R} d cid (q : @condition R) rm (g : group R) : device_ok d -> wf_group g -> cid < length (ints (st g)) -> ids_valid cid g -> has_property q g ->
  exists rm' g', remover_remove d cid q rm g = Some (rm', g') /\ wf_group g' /\ without (fun _ _ p => has_key q p) g g'.
Proof.
  intros Hd WF Hc HI HP. set (h := hit g q). set (all := all_particles (npart_cell g)).
  assert (IN : forall k w, In w (ord d k all) -> In w all) by (intros k w; apply in_ord, Hd).
  assert (HIT : forall c l n p, nth_error (npart_cell g) c = Some n -> l < n -> particle_at (st g) c l = Some p -> h (c, l) = has_key q p).
  { intros c l n p _ _ E. unfold h, hit. cbn [fst snd]. rewrite E. reflexivity. }
  assert (LEN : forall k, length (filter h (ord d k all)) = length (filter h all)) by (intros k; apply Permutation_length, filter_perm, (proj1 Hd _ _ _)).
  unfold remover_remove. fold all. rewrite (count_ok g q WF HP (ord d 400 all)) by (apply IN). fold h. rewrite LEN. cbn [obind].
  destruct (Nat.ltb_spec 0 (length (filter h all))) as [L|L].
  - destruct (list_ok g q WF HP (ord d 403 all) (realloc_no_copyZ d 401 (length (filter h all)) (d_remove_cells rm)) (realloc_no_copyZ d 402 (length (filter h all)) (d_remove_layers rm))) as (cells & layers & E & L1 & L2 & K).
    { apply IN. } { fold h. rewrite LEN. apply realloc_lenZ. } { fold h. rewrite LEN. apply realloc_lenZ. }
    fold h in E, K. rewrite E. cbn [obind]. pose proof (realloc_lenZ d 401 (length (filter h all)) (d_remove_cells rm)). pose proof (realloc_lenZ d 402 (length (filter h all)) (d_remove_layers rm)).
    rewrite !slice_prefix by lia. cbn [obind].
    assert (NTH : forall i x y, nth_error (firstn (length (filter h all)) cells) i = Some x -> nth_error (firstn (length (filter h all)) layers) i = Some y ->
      exists w, In w all /\ h w = true /\ x = Z.of_nat (fst w) /\ y = Z.of_nat (snd w)).
    { intros i x y E1 E2. rewrite nth_error_firstn in E1, E2. destruct (Nat.ltb_spec i (length (filter h all))) as [Li|]; [|discriminate]. destruct (nth_error_lt_some (filter h (ord d 403 all)) i) as (w & Ew); [rewrite LEN; exact Li|].
      destruct (K i w Ew) as (K1 & K2). pose proof (nth_error_In _ _ Ew) as I. apply filter_In in I. destruct I as (I & Hw). exists w. split; [apply (IN 403), I|]. split; [exact Hw|]. split; congruence. }
    destruct (remove_named d cid g (firstn (length (filter h all)) cells) (firstn (length (filter h all)) layers) (fun _ _ p => has_key q p) Hd WF Hc HI) as (g' & Eg & WF' & W).
    + rewrite !firstn_length. lia.
    + intros i x y E1 E2. destruct (NTH i x y E1 E2) as ((c, l) & I & _ & -> & ->). apply in_all_particles in I. destruct I as (n & En & Hl). exists c, l, n. auto.
    + intros c l n p En Hl Ep. rewrite <- (HIT c l n p En Hl Ep). apply eq_true_iff_eq. rewrite asked_spec. split.
      * intros (i & E1 & E2). destruct (NTH i _ _ E1 E2) as ((c', l') & _ & Hw & X1 & X2). cbn in X1, X2. apply Nat2Z.inj in X1, X2. subst. exact Hw.
      * intros Hh. assert (I : In (c, l) (filter h (ord d 403 all))). { apply filter_In. split; [|exact Hh]. apply in_ord; [exact Hd|]. apply in_all_particles. eauto. }
        apply In_nth_error in I. destruct I as (i & Ei). destruct (K i _ Ei) as (K1 & K2). pose proof (nth_error_some_lt _ _ _ Ei) as Li. rewrite LEN in Li. exists i. rewrite !nth_error_firstn. destruct (Nat.ltb_spec i (length (filter h all))); [auto|lia].
    + rewrite Eg. cbn [obind]. eexists _, _. split; [reflexivity|]. auto.
  - exists rm, g. split; [reflexivity|]. split; [exact WF|]. split; [reflexivity|]. intros c ps E. exists ps. split; [exact E|].
    pose proof E as E0. unfold cell_particles in E. destruct (nth_error (npart_cell g) c) as [n|] eqn:En; [|discriminate]. cbn in E.
    assert (N : forall l p, 0 <= l < 0 + n -> particle_at (st g) c l = Some p -> true = negb (has_key q p)).
    { intros l p Hl Ep. rewrite <- (HIT c l n p En) by (auto; lia). destruct (h (c, l)) eqn:Hh; [|reflexivity]. exfalso.
      assert (I : In (c, l) (filter h all)) by (apply filter_In; split; [apply in_all_particles; exists n; split; [exact En|lia]|exact Hh]). destruct (filter h all); [destruct I|cbn in L; lia]. }
    pose proof (kept_select g c (fun _ => true) (fun _ p => has_key q p) n 0 ps E N) as Q. rewrite filter_true in Q by reflexivity. pose proof (mapM_length _ _ _ E) as Lp. rewrite seq_length in Lp. rewrite Lp.
    rewrite E in Q. injection Q as Q. rewrite <- Q. reflexivity.
Qed.

(** ** Sub-groups *)
Lemma dev_cells_layers_ok d k s m content buf : device_ok d -> selects s m content -> 2 * s_npart s <= length buf ->
  exists buf', dev_cells_layers d k s m (s_npart s) buf = Some buf' /\ length buf' = length buf /\
    forall c ls j l, nth_error content c = Some ls -> nth_error ls j = Some l ->
      particles_before content c + j < s_npart s /\
      nth_error buf' (particles_before content c + j) = Some (Z.of_nat c) /\ nth_error buf' (s_npart s + (particles_before content c + j)) = Some (Z.of_nat l).
Proof.
  intros Hd (S1 & S2 & S3 & _) LB. unfold dev_cells_layers.
  set (sched := ord d k (particles_of_cells (m_dn m) 0 (s_ncell s))).
  assert (CH : forall w, In w sched -> exists ls l, nth_error content (fst w) = Some ls /\ nth_error ls (snd w) = Some l).
  { intros (c, j) I. apply in_ord in I; [|exact Hd]. apply in_particles in I. destruct I as (I1 & I2). destruct (nth_error_lt_some content c) as (ls & Els); [lia|]. destruct (S3 c ls Els) as (_ & D & _).
    cbn [sub_iset i_dn] in D. rewrite (nth_error_nth _ _ 0 D) in I2. destruct (nth_error_lt_some ls j I2) as (l & El). exists ls, l. auto. }
  assert (HC : forall c ls j l, nth_error content c = Some ls -> nth_error ls j = Some l -> In (c, j) sched).
  { intros c ls j l E1 E2. apply in_ord; [exact Hd|]. apply in_particles. destruct (S3 c ls E1) as (_ & D & _). cbn [sub_iset i_dn] in D. rewrite (nth_error_nth _ _ 0 D).
    pose proof (nth_error_some_lt _ _ _ E1). pose proof (nth_error_some_lt _ _ _ E2). lia. }
  set (px := fun w : nat * nat => particles_before content (fst w) + snd w).
  set (lay := fun w : nat * nat => nth (snd w) (nth (fst w) content []) 0).
  assert (PX : forall w, In w sched -> px w < s_npart s /\ get_loop_linear_index (m_des m) 0 (fst w) (snd w) = Some (px w) /\ i_layer (sub_iset m) (fst w) (snd w) = Some (lay w)).
  { intros w I. destruct (CH w I) as (ls & l & E1 & E2). destruct (S3 _ _ E1) as (_ & _ & ES & LY). split; [|split].
    - unfold px. rewrite S2, number_psum, before_psum. pose proof (nth_error_some_lt _ _ _ E1) as Lc. pose proof (psum_lt (ncnt content) (fst w) (length content) _ (ncnt_nth _ _ _ E1) Lc). pose proof (nth_error_some_lt _ _ _ E2). lia.
    - unfold get_loop_linear_index, rd. cbn [sub_iset i_es] in ES. rewrite ES. cbn [obind]. destruct content as [|ls0 content0]; [destruct (fst w); discriminate|]. destruct (S3 0 ls0 eq_refl) as (_ & _ & ES0 & _). cbn [sub_iset i_es] in ES0. rewrite ES0. cbn [obind].
      unfold sub_. change (particles_before (ls0 :: content0) 0) with 0. cbn. rewrite Nat.sub_0_r. reflexivity.
    - unfold lay. rewrite (nth_error_nth _ _ [] E1), (nth_error_nth _ _ 0 E2). apply LY, E2. }
  assert (INJ : forall w w', In w sched -> In w' sched -> px w = px w' -> w = w').
  { intros (c, j) (c', j') I I' E. destruct (CH _ I) as (ls & l & E1 & E2). destruct (CH _ I') as (ls' & l' & E1' & E2'). unfold px in E. cbn [fst snd] in *. rewrite !before_psum in E.
    pose proof (nth_error_some_lt _ _ _ E2). pose proof (nth_error_some_lt _ _ _ E2'). destruct (psum_unique (ncnt content) c c' j j' (length ls) (length ls')) as (-> & ->); auto using ncnt_nth. }
  destruct (foldM_kernel (cells_layers_item m (s_npart s)) (@nth_error Z) (fun b => length b = length buf)
     (fun w j => if j =? px w then Some (Z.of_nat (fst w)) else if j =? s_npart s + px w then Some (Z.of_nat (lay w)) else None) sched buf eq_refl) as (buf' & E & L & W & _).
  - intros b w Lb I. destruct (PX w I) as (P1 & P2 & P3). unfold cells_layers_item. rewrite P3. cbn [obind]. rewrite P2. cbn [obind].
    destruct (upd_some b (px w) (Z.of_nat (fst w))) as (b1 & E1); [lia|]. rewrite E1. cbn [obind]. destruct (upd_some b1 (s_npart s + px w) (Z.of_nat (lay w))) as (b2 & E2); [rewrite (upd_length _ _ _ _ E1); lia|].
    exists b2. split; [exact E2|]. split; [rewrite (upd_length _ _ _ _ E2), (upd_length _ _ _ _ E1); exact Lb|]. intros j. rewrite (upd_nth _ _ _ _ j E2), (upd_nth _ _ _ _ j E1).
    destruct (Nat.eqb_spec j (px w)), (Nat.eqb_spec j (s_npart s + px w)); try reflexivity. lia.
  - intros w w' j v v' I I' E1 E2. pose proof (PX w I) as (P1 & _). pose proof (PX w' I') as (P1' & _).
    assert (w = w'). { apply INJ; auto. destruct (Nat.eqb_spec j (px w)), (Nat.eqb_spec j (s_npart s + px w)), (Nat.eqb_spec j (px w')), (Nat.eqb_spec j (s_npart s + px w')); try discriminate; lia. }
    subst w'. congruence.
  - exists buf'. split; [exact E|]. split; [exact L|]. intros c ls j l E1 E2. pose proof (HC c ls j l E1 E2) as I. destruct (PX _ I) as (P1 & _). change (particles_before content c + j) with (px (c, j)). split; [exact P1|]. split.
    + apply (W (c, j)); [exact I|]. rewrite Nat.eqb_refl. reflexivity.
    + apply (W (c, j)); [exact I|]. destruct (Nat.eqb_spec (s_npart s + px (c, j)) (px (c, j))); [lia|]. rewrite Nat.eqb_refl. unfold lay. cbn [fst snd]. rewrite (nth_error_nth _ _ [] E1), (nth_error_nth _ _ 0 E2). reflexivity.
Qed.

Theorem sub_group_removed {R} d cid pooled s m content (g : group R) : device_ok d -> wf_group g -> cid < length (ints (st g)) -> ids_valid cid g -> selects s m content -> content_of_group (npart_cell g) content ->
  exists g', remove_sub_group d cid pooled (Some (s, m)) g = Some g' /\ wf_group g' /\ without (fun c l _ => existsb (Nat.eqb l) (nth c content [])) g g'.
Proof.
  intros Hd WF Hc HI HS (CL & CG). unfold remove_sub_group.
  destruct (dev_cells_layers_ok d 410 s m content (realloc_no_copyZ d 411 (2 * s_npart s) pooled) Hd HS (realloc_lenZ _ _ _ _)) as (buf & E & LB & K). rewrite E. cbn [obind].
  pose proof (realloc_lenZ d 411 (2 * s_npart s) pooled) as LR. rewrite slice_prefix by lia. cbn [obind]. destruct (slice_second buf (s_npart s)) as (ly & El & Ll & Kl); [lia|]. rewrite El. cbn [obind].
  pose proof HS as (S1 & S2 & _).
  assert (NTH : forall i x y, nth_error (firstn (s_npart s) buf) i = Some x -> nth_error ly i = Some y -> exists c ls j l, nth_error content c = Some ls /\ nth_error ls j = Some l /\ x = Z.of_nat c /\ y = Z.of_nat l).
  { intros i x y E1 E2. rewrite nth_error_firstn in E1. destruct (Nat.ltb_spec i (s_npart s)) as [Li|]; [|discriminate]. rewrite Kl in E2 by exact Li.
    destruct (psum_find (ncnt content) i (length content)) as (c & n & j & A & B & C & D). { unfold ncnt. rewrite map_length. lia. } { rewrite <- number_psum, <- S2. exact Li. }
    destruct (nth_error_lt_some content c A) as (ls & Els). rewrite (ncnt_nth _ _ _ Els) in B. injection B as <-. destruct (nth_error_lt_some ls j C) as (l & Ej). rewrite <- before_psum in D.
    destruct (K c ls j l Els Ej) as (_ & K1 & K2). subst i. exists c, ls, j, l. split; [exact Els|]. split; [exact Ej|]. split; congruence. }
  apply remove_named; auto.
  - rewrite firstn_length. lia.
  - intros i x y E1 E2. destruct (NTH i x y E1 E2) as (c & ls & j & l & A & B & -> & ->). destruct (nth_error_lt_some (npart_cell g) c) as (n & En); [rewrite <- CL; eapply nth_error_some_lt; eauto|].
    exists c, l, n. split; [reflexivity|]. split; [reflexivity|]. split; [exact En|]. destruct (CG c ls n A En) as (_ & H). apply H. eapply nth_error_In; eauto.
  - intros c l n p En Hl _. apply eq_true_iff_eq. rewrite asked_spec, existsb_exists. split.
    + intros (i & E1 & E2). destruct (NTH i _ _ E1 E2) as (c' & ls & j & l' & A & B & X1 & X2). apply Nat2Z.inj in X1, X2. subst. exists l'. rewrite (nth_error_nth _ _ [] A). split; [eapply nth_error_In; eauto|apply Nat.eqb_refl].
    + intros (l' & I & El'). apply Nat.eqb_eq in El'. subst l'. destruct (nth_error_lt_some content c) as (ls & A); [rewrite CL; eapply nth_error_some_lt; eauto|]. rewrite (nth_error_nth _ _ [] A) in I. apply In_nth_error in I. destruct I as (j & B).
      destruct (K c ls j l A B) as (K0 & K1 & K2). exists (particles_before content c + j). rewrite nth_error_firstn, Kl by exact K0. destruct (Nat.ltb_spec (particles_before content c + j) (s_npart s)); [auto|lia].
Qed.

Lemma clear_ok {R} (g : group R) : wf_group g -> wf_group (clear_group g) /\ without (fun _ _ _ => true) g (clear_group g).
Proof.
  intros WF. split.
  - assert (X : forall V (D : list (list (list V))), (forall col, In col D -> wf_comp (npart_cell g) col) -> forall col, In col (trim_rows (map (fun _ => 0) (npart_cell g)) D) -> wf_comp (map (fun _ => 0) (npart_cell g)) col).
    { intros V D H col I. apply in_map_iff in I. destruct I as (c0 & <- & I). destruct (H c0 I) as (L & _). split; [rewrite map_length, combine_length, !map_length; lia|].
      intros c n r En Er. rewrite nth_error_map in En. destruct (nth_error (npart_cell g) c); [|discriminate]. cbn in En. injection En as <-. lia. }
    destruct WF as (W1 & W2). split; cbn [clear_group st reals ints npart_cell]; apply X; assumption.
  - split; [cbn; apply map_length|]. intros c ps E. exists []. split.
    + unfold cell_particles in *. cbn [clear_group npart_cell]. rewrite nth_error_map. destruct (nth_error (npart_cell g) c); [reflexivity|discriminate].
    + replace (filter _ _) with (@nil (nat * particle R)); [constructor|]. induction (combine (seq 0 (length ps)) ps); [reflexivity|exact IHl].
Qed.

(** ** Lists on the host *)
Theorem listed_removed {R} d cid pooled npart cells layers (g : group R) : device_ok d -> wf_group g -> cid < length (ints (st g)) -> ids_valid cid g ->
  (Z.of_nat (Z.to_nat npart) <= Z.of_nat (length cells))%Z -> (Z.of_nat (Z.to_nat npart) <= Z.of_nat (length layers))%Z ->
  valid_request g (firstn (Z.to_nat npart) cells) (firstn (Z.to_nat npart) layers) ->
  exists g', remove_listed d cid pooled npart cells layers g = Some g' /\ wf_group g' /\
    without (fun c l _ => asked (firstn (Z.to_nat npart) cells) (firstn (Z.to_nat npart) layers) c l) g g'.
Proof.
  intros Hd WF Hc HI L1 L2 VR. set (n := Z.to_nat npart) in *.
  assert (KV : kept_ids_valid cid g (firstn n cells) (firstn n layers)) by (intros c l m En Hl _; apply (HI c l m En Hl)).
  destruct (remove_correct d R cid g (firstn n cells) (firstn n layers) Hd WF Hc VR KV) as (g' & E & WF' & IR).
  assert (W : without (fun c l _ => asked (firstn n cells) (firstn n layers) c l) g g') by (eapply removal_without; [exact IR|reflexivity]).
  unfold remove_listed. fold n. destruct (Z.ltb_spec 0 npart) as [LN|LN].
  - rewrite !(proj2 (Nat.leb_le _ _)) by lia. cbn [assert obind]. set (buf := realloc_no_copyZ d 412 (2 * n) pooled). assert (LB : 2 * n <= length buf) by apply realloc_lenZ.
    destruct (copy_prefix_correct cells buf n) as (b1 & E1 & A1 & A2); [lia|lia|]. rewrite E1. cbn [obind].
    destruct (foldM_upd (fun m i => v <- rd layers i ;; upd m (n + i) v) (fun i => n + i) (fun i => nth i layers 0%Z) (seq 0 n) b1) as (b2 & E2 & B1 & B2 & B3).
    { intros m' i _ I. apply in_seq in I. unfold rd. rewrite (nth_error_nth' _ 0%Z) by lia. reflexivity. } { intros i I. apply in_seq in I. lia. } { intros i j _ _ Q. replace i with j by lia. reflexivity. }
    rewrite E2. cbn [obind]. rewrite slice_prefix by lia. cbn [obind]. destruct (slice_second b2 n) as (ly & El & Ll & Kl); [lia|]. rewrite El. cbn [obind].
    replace (firstn n b2) with (firstn n cells); [replace ly with (firstn n layers); [eauto|]|].
    + apply nth_error_ext. intros i. rewrite nth_error_firstn. destruct (Nat.ltb_spec i n) as [Li|Li].
      * rewrite Kl by exact Li. rewrite (B2 i) by (apply in_seq; lia). apply nth_error_nth'. lia.
      * symmetry. apply nth_error_None. lia.
    + apply nth_error_ext. intros i. rewrite !nth_error_firstn. destruct (Nat.ltb_spec i n) as [Li|Li]; [|reflexivity]. rewrite B3 by (intros j I Q; apply in_seq in I; lia).
      rewrite A2. destruct (Nat.ltb_spec i n); [reflexivity|lia].
  - exists g. split; [reflexivity|]. split; [exact WF|]. assert (N0 : n = 0) by (unfold n; lia). rewrite N0 in E. cbn in E. injection E as <-. exact W.
Qed.
