(** Proofs about the mapper. *)
From Coq Require Import List Arith ZArith QArith Bool Lia Permutation.
Import ListNotations.
From Verif Require Import Base Kernel HostMap_Model HostMap_Spec.
Local Open Scope nat_scope.

Lemma hm_mapM {A B} (f : A -> option B) g l : (forall a, In a l -> f a = Some (g a)) -> mapM f l = Some (map g l).
Proof. induction l as [|a l IH]; intros H; cbn [mapM map]; [reflexivity|]. rewrite H by (left; reflexivity). cbn [obind]. rewrite IH by (intros; apply H; right; assumption). reflexivity. Qed.
Lemma hm_rd2 {A B} (m : list (list A)) (m' : list (list B)) i j x : map (@length _) m = map (@length _) m' -> rd2 m i j = Some x -> exists y, rd2 m' i j = Some y.
Proof.
  intros S E. unfold rd2, rd in *. destruct (nth_error m i) as [r|] eqn:Er; [|discriminate]. cbn [obind] in E.
  pose proof (f_equal (fun l => nth_error l i) S) as K. cbn beta in K. rewrite !nth_error_map, Er in K. destruct (nth_error m' i) as [r'|]; [|discriminate]. cbn [option_map] in K. injection K as K. cbn [obind].
  assert (L : j < length r') by (rewrite <- K; apply nth_error_Some; congruence). apply nth_error_Some in L. destruct (nth_error r' j) as [y|]; [eauto|congruence].
Qed.
Lemma hm_idx n i j c e : c < n -> e < n -> i * n + c = j * n + e -> i = j /\ c = e.
Proof. intros. assert (i = j) by nia. subst. lia. Qed.

(** The loop linear index numbers the particles of the loop. *)
Definition upto (g : group) n := concat (map (fun c => map (pair c) (seq 0 (length (nth c (g_pos g) [])))) (seq 0 n)).
Lemma upto_S g n : upto g (S n) = upto g n ++ map (pair n) (seq 0 (length (nth n (g_pos g) []))).
Proof. unfold upto. rewrite seq_S, map_app, concat_app. cbn [map concat Nat.add]. rewrite app_nil_r. reflexivity. Qed.
Lemma es_S g n : n < length (g_pos g) -> es g (S n) = es g n + length (nth n (g_pos g) []).
Proof.
  unfold es. generalize (g_pos g). intros l. revert n. induction l as [|r l IH]; intros n L; cbn in L; [lia|]. destruct n as [|n]; [cbn; lia|].
  cbn [firstn map list_sum fold_right nth]. pose proof (IH n ltac:(lia)) as X. cbn [firstn] in X. unfold list_sum in X. cbn [firstn] in *. rewrite X. lia.
Qed.
Lemma row_item g c l : c < length (g_pos g) -> l < length (nth c (g_pos g) []) -> exists p, rd2 (g_pos g) c l = Some p.
Proof.
  intros L Ll. unfold rd2, rd. rewrite (nth_error_nth' _ [] L). cbn [obind]. apply nth_error_Some in Ll. destruct (nth_error _ l); [eauto|congruence].
Qed.
Lemma upto_ok g n : n <= length (g_pos g) -> length (upto g n) = es g n /\
  forall k i, nth_error (upto g n) k = Some i -> es g (fst i) + snd i = k /\ exists p, rd2 (g_pos g) (fst i) (snd i) = Some p.
Proof.
  induction n as [|n IH]; intros L.
  - split; [reflexivity|]. intros [|k] i; discriminate.
  - destruct (IH ltac:(lia)) as (A & B). rewrite upto_S, es_S by lia. split; [rewrite app_length, map_length, seq_length; lia|].
    intros k i E. destruct (lt_dec k (length (upto g n))) as [X|X].
    + rewrite nth_error_app1 in E by exact X. auto.
    + rewrite nth_error_app2, nth_error_map, nth_error_seq in E by lia. destruct (Nat.ltb_spec (k - length (upto g n)) (length (nth n (g_pos g) []))) as [Y|Y]; [|discriminate]. cbn [option_map] in E. injection E as <-. cbn [fst snd]. split; [lia|]. apply row_item; lia.
Qed.
Lemma upto_in g n c l p : c < n -> rd2 (g_pos g) c l = Some p -> In (c, l) (upto g n).
Proof.
  intros L E. unfold upto. apply in_concat. exists (map (pair c) (seq 0 (length (nth c (g_pos g) [])))). split; [apply in_map_iff; exists c; split; [reflexivity|apply in_seq; lia]|].
  apply in_map, in_seq. unfold rd2, rd in E. destruct (nth_error (g_pos g) c) as [r|] eqn:Er; [|discriminate]. rewrite (nth_error_nth _ _ [] Er). cbn [obind] in E. assert (l < length r) by (apply nth_error_Some; congruence). lia.
Qed.
Lemma chosen_ok g map_cell : (map_cell < Z.of_nat (length (g_pos g)))%Z -> exists start npart items, chosen g map_cell = Some (start, npart, items) /\
  length items = npart /\
  (forall k i, nth_error items k = Some i -> linear_index g start i = k /\ selected map_cell (fst i) /\ exists p, rd2 (g_pos g) (fst i) (snd i) = Some p) /\
  (forall c l p, selected map_cell c -> rd2 (g_pos g) c l = Some p -> In (c, l) items).
Proof.
  intros L. unfold chosen. destruct (Z.ltb_spec (-1) map_cell) as [X|X].
  - assert (Lc : Z.to_nat map_cell < length (g_pos g)) by lia. unfold rd. rewrite (nth_error_nth' _ [] Lc). cbn [obind]. eexists _, _, _. split; [reflexivity|].
    split; [rewrite map_length, seq_length; reflexivity|]. split.
    + intros k i E. rewrite nth_error_map, nth_error_seq in E. destruct (Nat.ltb_spec k (length (nth (Z.to_nat map_cell) (g_pos g) []))) as [Y|Y]; [|discriminate]. cbn [option_map Nat.add] in E. injection E as <-. unfold linear_index, selected. cbn [fst snd]. split; [lia|]. split; [lia|]. apply row_item; lia.
    + intros c l p [S|S] E; [lia|]. subst map_cell. rewrite Nat2Z.id in *. apply in_map, in_seq. unfold rd2, rd in E. rewrite (nth_error_nth' _ [] Lc) in E. cbn [obind] in E. assert (l < length (nth c (g_pos g) [])) by (apply nth_error_Some; congruence). lia.
  - eexists _, _, _. split; [reflexivity|]. fold (upto g (length (g_pos g))). destruct (upto_ok g (length (g_pos g)) (Nat.le_refl _)) as (A & B).
    split; [rewrite A; unfold es; rewrite firstn_all; reflexivity|]. split.
    + intros k i E. destruct (B k i E) as (B1 & B2). unfold linear_index. split; [unfold es at 2; cbn; lia|]. split; [left; lia|exact B2].
    + intros c l p _ E. apply (upto_in g _ c l p); [|exact E]. unfold rd2, rd in E. apply nth_error_Some. destruct (nth_error (g_pos g) c); [discriminate|discriminate].
Qed.

Section Fixed.
  Variables (g : group) (ndim start npart : nat) (items : list (nat * nat)).
  Hypothesis dims : forall row x, In row (g_pos g) -> In x row -> ndim <= length x.
  Hypothesis cnt : length items = npart.
  Hypothesis numbered : forall k i, nth_error items k = Some i -> linear_index g start i = k /\ exists p, rd2 (g_pos g) (fst i) (snd i) = Some p.
  Definition hm_at (i : nat * nat) : list Q := match rd2 (g_pos g) (fst i) (snd i) with Some p => p | None => [] end.
  Lemma item_fact i : In i items -> nth_error items (linear_index g start i) = Some i /\ linear_index g start i < npart /\ rd2 (g_pos g) (fst i) (snd i) = Some (hm_at i) /\ ndim <= length (hm_at i).
  Proof.
    intros I. apply In_nth_error in I. destruct I as (k & E). destruct (numbered k i E) as (<- & p & Ep). split; [exact E|]. split; [rewrite <- cnt; apply nth_error_Some; congruence|]. unfold hm_at. rewrite Ep. split; [reflexivity|].
    unfold rd2, rd in Ep. destruct (nth_error (g_pos g) (fst i)) as [r|] eqn:Er; [|discriminate]. cbn [obind] in Ep. apply (dims r p); eapply nth_error_In; eauto.
  Qed.
  Lemma lin_inj i j : In i items -> In j items -> linear_index g start i = linear_index g start j -> i = j.
  Proof. intros I J E. destruct (item_fact i I) as (A & _). destruct (item_fact j J) as (B & _). congruence. Qed.
  Lemma gather_ok d buf0 : device_ok d -> length buf0 = npart * ndim -> exists pos,
    foldM (fun buf i => p <- rd2 (g_pos g) (fst i) (snd i) ;; foldM (fun buf dx => x <- rd p dx ;; upd buf (linear_index g start i * ndim + dx) x) buf (seq 0 ndim)) buf0 (ord d 0 items) = Some pos /\
    length pos = npart * ndim /\ forall i dx, In i items -> dx < ndim -> nth_error pos (linear_index g start i * ndim + dx) = nth_error (hm_at i) dx.
  Proof.
    intros Hd L0. assert (IO : forall i, In i (ord d 0 items) <-> In i items) by (intros i; apply in_ord; exact Hd).
    match goal with |- context [foldM ?f buf0 _] => destruct (foldM_ind f (fun pre b => length b = npart * ndim /\ forall i dx, In i items -> In i pre -> dx < ndim -> nth_error b (linear_index g start i * ndim + dx) = nth_error (hm_at i) dx) (ord d 0 items) buf0) as (pos & E & P & V) end.
    - split; [exact L0|]. intros i dx _ [].
    - intros pre i post b Es (Lb & V). assert (Ii : In i items) by (apply IO; rewrite Es; apply in_elt). destruct (item_fact i Ii) as (_ & Ll & Er & Lp). rewrite Er. cbn [obind].
      destruct (foldM_upd (fun buf dx => x <- rd (hm_at i) dx ;; upd buf (linear_index g start i * ndim + dx) x) (fun dx => linear_index g start i * ndim + dx) (fun dx => nth dx (hm_at i) 0%Q) (seq 0 ndim) b) as (b' & Eb & Lb' & Vb & Ub).
      + intros m a _ I. apply in_seq in I. unfold rd. rewrite (nth_error_nth' _ 0%Q) by lia. reflexivity.
      + intros a I. apply in_seq in I. rewrite Lb. nia.
      + intros a c I J E. f_equal. lia.
      + exists b'. split; [exact Eb|]. split; [congruence|]. intros j dx Ij Ip Ld.
        destruct (Nat.eq_dec (linear_index g start j) (linear_index g start i)) as [El|Nl].
        * apply lin_inj in El; [|exact Ij|exact Ii]. subst j. rewrite Vb by (apply in_seq; lia). symmetry. apply nth_error_nth'. lia.
        * rewrite Ub; [apply V; [exact Ij| |exact Ld]|].
          -- apply in_app_or in Ip. destruct Ip as [Ip|[->|[]]]; [exact Ip|congruence].
          -- intros a I E. apply in_seq in I. apply hm_idx in E; [|lia|lia]. destruct E; congruence.
    - exists pos. split; [exact E|]. split; [exact P|]. intros i dx I Ld. apply V; [exact I|apply IO; exact I|exact Ld].
  Qed.
  Lemma block_ok pos : length pos = npart * ndim -> (forall i dx, In i items -> dx < ndim -> nth_error pos (linear_index g start i * ndim + dx) = nth_error (hm_at i) dx) ->
    forall i, In i items -> slice pos (linear_index g start i * ndim) (linear_index g start i * ndim + ndim) = Some (firstn ndim (hm_at i)).
  Proof.
    intros Lp V i I. destruct (item_fact i I) as (_ & Ll & _ & Lh). rewrite slice_some; [|lia|rewrite Lp; nia]. f_equal. replace (_ + ndim - _) with ndim by lia.
    apply nth_error_ext. intros k. destruct (lt_dec k ndim) as [X|X].
    - specialize (V i k I X). rewrite <- (firstn_skipn (linear_index g start i * ndim) pos) in V at 1. rewrite nth_error_app2 in V by (rewrite firstn_length; lia).
      rewrite firstn_length, Nat.min_l in V by (rewrite Lp; nia). replace (linear_index g start i * ndim + k - linear_index g start i * ndim) with k in V by lia.
      assert (F : forall (l : list Q), nth_error (firstn ndim l) k = nth_error l k). { clear -X. intros l. revert k ndim X. induction l as [|a l IH]; intros k n X; destruct n, k; cbn; try lia; try reflexivity. apply IH. lia. }
      rewrite !F. exact V.
    - rewrite !(proj2 (nth_error_None _ _)) by (rewrite firstn_length; lia). reflexivity.
  Qed.
End Fixed.

Lemma foldM_pair {A S T} (fa : S -> A -> option S) (fb : T -> A -> option T) l : forall s t s' t', foldM fa s l = Some s' -> foldM fb t l = Some t' ->
  foldM (fun st x => a <- fa (fst st) x ;; b <- fb (snd st) x ;; Some (a, b)) (s, t) l = Some (s', t').
Proof.
  induction l as [|x l IH]; intros s t s' t' A1 A2; cbn [foldM fst snd] in *; [congruence|]. destruct (fa s x); [|discriminate]. destruct (fb t x); [|discriminate]. cbn [obind] in *. apply IH; assumption.
Qed.
Lemma foldM_ext_in {A S} (f h : S -> A -> option S) l : (forall s a, In a l -> f s a = h s a) -> forall s, foldM f s l = foldM h s l.
Proof.
  induction l as [|a l IH]; intros H s; cbn [foldM]; [reflexivity|]. rewrite H by (left; reflexivity). destruct (h s a); [|reflexivity]. apply IH. intros; apply H; right; assumption.
Qed.

Lemma scatter_ok d items (v : nat * nat -> Z) (m : list (list Z)) : device_ok d -> (forall i, In i items -> exists y, rd2 m (fst i) (snd i) = Some y) ->
  exists m', foldM (fun m i => upd2 m (fst i) (snd i) (v i)) m (ord d 1 items) = Some m' /\ shape2 m' = shape2 m /\ (forall i, In i items -> rd2 m' (fst i) (snd i) = Some (v i)) /\ (forall c l, ~ In (c, l) items -> rd2 m' c l = rd2 m c l).
Proof.
  intros Hd H. assert (IO : forall i, In i (ord d 1 items) <-> In i items) by (intros i; apply in_ord; exact Hd).
  destruct (foldM_upd2 (fun m i => upd2 m (fst i) (snd i) (v i)) (fun i => Some (fst i, snd i, v i)) (ord d 1 items) m) as (m' & E & S & V & U).
  - reflexivity.
  - intros a i j w I [= <- <- _]. apply H, IO. exact I.
  - intros [a1 a2] [b1 b2] i j w z _ _ Ea Eb. cbn [fst snd] in *. injection Ea as -> -> <-. injection Eb as -> -> <-. reflexivity.
  - exists m'. split; [exact E|]. split; [exact S|]. split.
    + intros i I. apply (V i); [apply IO; exact I|reflexivity].
    + intros c l N. apply U. intros [a1 a2] w I [= -> -> _]. apply N, IO. exact I.
Qed.
Lemma search_ok rank locate hl ndim pos npart (X : nat -> list Q) nf cells0 ranks0 : halo_ok hl ->
  (forall k, k < npart -> slice pos (k * ndim) (k * ndim + ndim) = Some (X k)) -> (forall k, In k nf <-> k < npart /\ (locate (X k) < 0)%Z) ->
  length cells0 = npart -> length ranks0 = npart ->
  (forall k, k < npart -> nth_error cells0 k = Some (if (0 <=? locate (X k))%Z then locate (X k) else (-1)%Z) /\ nth_error ranks0 k = Some (if (0 <=? locate (X k))%Z then rank else (-1)%Z)) ->
  exists cells ranks, search_halo ndim hl pos nf cells0 ranks0 = Some (cells, ranks) /\
    forall k, k < npart -> nth_error cells k = Some (fst (place rank locate hl (X k))) /\ nth_error ranks k = Some (snd (place rank locate hl (X k))).
Proof.
  intros Hh SL NF LC LR C0. unfold search_halo. destruct hl as [h|].
  2:{ exists cells0, ranks0. split; [reflexivity|]. intros k Lk. destruct (C0 k Lk) as (A & B). rewrite A, B. unfold place. destruct (0 <=? locate (X k))%Z; auto. }
  rewrite (hm_mapM _ (fun px => h_locate h (X px))) by (intros px I; apply NF in I; rewrite SL by tauto; reflexivity). cbn [obind].
  match goal with |- context [foldM ?f _ _] => destruct (foldM_ind f (fun pre cr => length (fst cr) = npart /\ length (snd cr) = npart /\ forall k, k < npart ->
     ((exists q, In q pre /\ nth_error nf q = Some k) \/ (0 <= locate (X k))%Z -> nth_error (fst cr) k = Some (fst (place rank locate (Some h) (X k))) /\ nth_error (snd cr) k = Some (snd (place rank locate (Some h) (X k))))) (seq 0 (length nf)) (cells0, ranks0)) as ((cells & ranks) & E & _ & _ & V) end.
  - split; [exact LC|]. split; [exact LR|]. intros k Lk [(q & [] & _)|N]. cbn [fst snd]. destruct (C0 k Lk) as (A & B). rewrite A, B. unfold place. destruct (Z.leb_spec 0 (locate (X k))); [auto|lia].
  - intros pre q post (cs & rs) Eq (L1 & L2 & V). cbn [fst snd] in *. assert (Lq : q < length nf). { assert (I : In q (seq 0 (length nf))) by (rewrite Eq; apply in_elt). apply in_seq in I. lia. }
    apply nth_error_Some in Lq. unfold rd. destruct (nth_error nf q) as [px|] eqn:Epx; [|congruence]. cbn [obind]. rewrite nth_error_map, Epx. cbn [option_map obind].
    assert (Ipx : px < npart /\ (locate (X px) < 0)%Z) by (apply NF; eapply nth_error_In; eauto). destruct Ipx as (Lpx & Npx).
    assert (RC : exists rc, (if (-1 <? h_locate h (X px))%Z then h_remote h (h_locate h (X px)) else Some (-1, -1)%Z) = Some rc /\ place rank locate (Some h) (X px) = (snd rc, fst rc)).
    { unfold place. destruct (Z.leb_spec 0 (locate (X px))); [lia|]. destruct (Z.ltb_spec (-1) (h_locate h (X px))) as [Y|Y], (Z.leb_spec 0 (h_locate h (X px))) as [W|W]; try lia.
      - destruct (Hh h (X px) eq_refl W) as ((r & c) & Erc). rewrite Erc. exists (r, c). auto.
      - exists (-1, -1)%Z. auto. }
    destruct RC as (rc & Erc & Prc). rewrite Erc. cbn [obind].
    destruct (upd_some cs px (snd rc)) as (cs' & Ecs); [lia|]. destruct (upd_some rs px (fst rc)) as (rs' & Ers); [lia|]. rewrite Ecs, Ers. cbn [obind]. exists (cs', rs'). split; [reflexivity|]. cbn [fst snd].
    split; [rewrite (upd_length _ _ _ _ Ecs); exact L1|]. split; [rewrite (upd_length _ _ _ _ Ers); exact L2|].
    intros k Lk D. rewrite (upd_nth _ _ _ _ k Ecs), (upd_nth _ _ _ _ k Ers). destruct (Nat.eqb_spec k px) as [->|Nk]; [rewrite Prc; auto|].
    apply V; [exact Lk|]. destruct D as [(q' & Iq & Eq')|D]; [|auto]. left. exists q'. split; [|exact Eq']. apply in_app_or in Iq. destruct Iq as [Iq|[->|[]]]; [exact Iq|congruence].
  - exists cells, ranks. split; [exact E|]. intros k Lk. apply V; [exact Lk|]. destruct (Z_lt_le_dec (locate (X k)) 0) as [N|N]; [left|right; exact N].
    assert (I : In k nf) by (apply NF; auto). apply In_nth_error in I. destruct I as (q & Eq). exists q. split; [|exact Eq]. apply in_seq. assert (q < length nf) by (apply nth_error_Some; congruence). lia.
Qed.
Theorem map_ok : forall d junk_ ndim rank locate hl g map_cell, device_ok d -> group_ok ndim g -> halo_ok hl -> (map_cell < Z.of_nat (length (g_pos g)))%Z ->
  exists g', map_particles d junk_ ndim rank locate hl g map_cell = Some g' /\ g_pos g' = g_pos g /\ group_ok ndim g' /\
    forall c l x, rd2 (g_pos g) c l = Some x ->
      (selected map_cell c -> rd2 (g_cell g') c l = Some (fst (place rank locate hl (firstn ndim x))) /\ rd2 (g_rank g') c l = Some (snd (place rank locate hl (firstn ndim x)))) /\
      (~ selected map_cell c -> rd2 (g_cell g') c l = rd2 (g_cell g) c l /\ rd2 (g_rank g') c l = rd2 (g_rank g) c l).
Proof.
  intros d junk_ ndim rank locate hl g map_cell Hd (S1 & S2 & dims) Hh L.
  destruct (chosen_ok g map_cell L) as (start & npart & items & Ec & cnt & NB & SEL).
  assert (numbered : forall k i, nth_error items k = Some i -> linear_index g start i = k /\ exists p, rd2 (g_pos g) (fst i) (snd i) = Some p) by (intros k i E; destruct (NB k i E) as (A & _ & B); auto).
  pose proof (item_fact g ndim start npart items dims cnt numbered) as IF. pose proof (lin_inj g ndim start npart items dims cnt numbered) as LI.
  unfold map_particles. rewrite Ec. cbn [obind].
  destruct (gather_ok g ndim start npart items dims cnt numbered d (map junk_ (seq 0 (npart * ndim))) Hd) as (pos & Ep & Lp & Vp); [rewrite map_length, seq_length; reflexivity|].
  rewrite Ep. cbn [obind]. pose proof (block_ok g ndim start npart items dims cnt numbered pos Lp Vp) as BL.
  set (X := fun k => firstn ndim (hm_at g (nth k items (0, 0)))).
  assert (AT : forall k, k < npart -> exists i, nth_error items k = Some i /\ nth k items (0, 0) = i /\ In i items /\ linear_index g start i = k).
  { intros k Lk. rewrite <- cnt in Lk. pose proof (nth_error_nth' items (0, 0) Lk) as E. exists (nth k items (0, 0)). split; [exact E|]. split; [reflexivity|]. split; [eapply nth_error_In; eauto|]. apply numbered; exact E. }
  assert (SL : forall k, k < npart -> slice pos (k * ndim) (k * ndim + ndim) = Some (X k)).
  { intros k Lk. destruct (AT k Lk) as (i & _ & Ei & Ii & El). unfold X. rewrite Ei, <- El. apply BL. exact Ii. }
  rewrite (hm_mapM _ (fun px => locate (X px))) by (intros px I; apply in_seq in I; rewrite SL by lia; reflexivity). cbn [obind].
  set (found := map (fun px => locate (X px)) (seq 0 npart)).
  assert (FN : forall k, k < npart -> nth_error found k = Some (locate (X k))). { intros k Lk. unfold found. rewrite nth_error_map, nth_error_seq. destruct (Nat.ltb_spec k npart); [reflexivity|lia]. }
  set (cells0 := map (fun c => if (-1 <? c)%Z then c else (-1)%Z) found). set (ranks0 := map (fun c => if (-1 <? c)%Z then rank else (-1)%Z) found).
  set (nf := filter (fun px => negb (-1 <? nth px found 0)%Z) (seq 0 npart)).
  assert (NF : forall k, In k nf <-> k < npart /\ (locate (X k) < 0)%Z).
  { intros k. unfold nf. rewrite filter_In, in_seq, negb_true_iff, Z.ltb_ge. split; intros (A & B); (split; [lia|]); [rewrite (nth_error_nth _ _ 0%Z (FN k ltac:(lia))) in B; lia|rewrite (nth_error_nth _ _ 0%Z (FN k A)); lia]. }
  assert (LF : length found = npart) by (unfold found; rewrite map_length, seq_length; reflexivity).
  assert (C0 : forall k, k < npart -> nth_error cells0 k = Some (if (0 <=? locate (X k))%Z then locate (X k) else (-1)%Z) /\ nth_error ranks0 k = Some (if (0 <=? locate (X k))%Z then rank else (-1)%Z)).
  { intros k Lk. unfold cells0, ranks0. rewrite !nth_error_map, (FN k Lk). cbn [option_map]. destruct (Z.ltb_spec (-1) (locate (X k))), (Z.leb_spec 0 (locate (X k))); try lia; auto. }
  destruct (search_ok rank locate hl ndim pos npart X nf cells0 ranks0 Hh SL NF) as (cells & ranks & Es & V); [unfold cells0; rewrite map_length; exact LF|unfold ranks0; rewrite map_length; exact LF|exact C0|].
  rewrite Es. cbn [obind fst snd].
  set (P := fun i : nat * nat => place rank locate hl (X (linear_index g start i))).
  assert (IO : forall i, In i (ord d 1 items) <-> In i items) by (intros i; apply in_ord; exact Hd).
  assert (SC : exists cs, foldM (fun m i => upd2 m (fst i) (snd i) (fst (P i))) (g_cell g) (ord d 1 items) = Some cs /\ shape2 cs = shape2 (g_cell g) /\ (forall i, In i items -> rd2 cs (fst i) (snd i) = Some (fst (P i))) /\ (forall c l, ~ In (c, l) items -> rd2 cs c l = rd2 (g_cell g) c l)).
  { apply (scatter_ok d items (fun i => fst (P i)) (g_cell g) Hd). intros i I. destruct (IF i I) as (_ & _ & E & _). apply (hm_rd2 (g_pos g) (g_cell g) _ _ _ (eq_sym S1) E). }
  assert (SR : exists rs, foldM (fun m i => upd2 m (fst i) (snd i) (snd (P i))) (g_rank g) (ord d 1 items) = Some rs /\ shape2 rs = shape2 (g_rank g) /\ (forall i, In i items -> rd2 rs (fst i) (snd i) = Some (snd (P i))) /\ (forall c l, ~ In (c, l) items -> rd2 rs c l = rd2 (g_rank g) c l)).
  { apply (scatter_ok d items (fun i => snd (P i)) (g_rank g) Hd). intros i I. destruct (IF i I) as (_ & _ & E & _). apply (hm_rd2 (g_pos g) (g_rank g) _ _ _ (eq_sym S2) E). }
  destruct SC as (cs & Ecs & Scs & Vcs & Ucs). destruct SR as (rs & Ers & Srs & Vrs & Urs).
  rewrite (foldM_ext_in _ (fun st i => a <- upd2 (fst st) (fst i) (snd i) (fst (P i)) ;; b <- upd2 (snd st) (fst i) (snd i) (snd (P i)) ;; Some (a, b))).
  2:{ intros s i I. apply IO in I. destruct (IF i I) as (_ & Ll & _ & _). destruct (V _ Ll) as (V1 & V2). unfold rd. rewrite V1, V2. reflexivity. }
  rewrite (foldM_pair _ _ _ _ _ _ _ Ecs Ers). cbn [obind fst snd].
  eexists. split; [reflexivity|]. cbn [g_pos g_cell g_rank]. split; [reflexivity|]. split.
  { unfold group_ok. cbn [g_pos g_cell g_rank]. unfold shape2 in *. rewrite Scs, Srs. auto. }
  intros c l x Ex. split.
  - intros S. pose proof (SEL c l x S Ex) as I. pose proof (Vcs _ I) as W1. pose proof (Vrs _ I) as W2. cbn [fst snd] in W1, W2. rewrite W1, W2.
    assert (EP : P (c, l) = place rank locate hl (firstn ndim x)).
    { unfold P, X. destruct (IF _ I) as (En & _). rewrite (nth_error_nth _ _ _ En). unfold hm_at. cbn [fst snd]. rewrite Ex. reflexivity. }
    rewrite EP. auto.
  - intros S. assert (I : ~ In (c, l) items). { intros I. apply In_nth_error in I. destruct I as (k & E). destruct (NB k _ E) as (_ & S' & _). auto. }
    auto.
Qed.
