(** Proofs about the sub-group selectors. *)
From Coq Require Import List Arith ZArith Bool Lia Permutation.
Import ListNotations.
From Verif Require Import Base Kernel Scan_Spec Scan_Model Scan_Proofs Compress_Model Compress_Proofs.
From Verif Require Import Loop_Model Loop_Spec SubGroup_Model SubGroup_Spec.

(** ** Arrays *)
Lemma copy_prefix_correct {A} (src dst : list A) n : n <= length src -> n <= length dst ->
  exists out, copy_prefix src dst n = Some out /\ length out = length dst /\
    forall j, nth_error out j = if j <? n then nth_error src j else nth_error dst j.
Proof.
  intros L1 L2. unfold copy_prefix.
  destruct n as [|n0]. { exists dst. cbn. auto. }
  destruct src as [|x src]; [cbn in L1; lia|].
  destruct (foldM_upd (fun m i => v <- rd (x :: src) i ;; upd m i v) (fun i => i) (fun i => nth i (x :: src) x) (seq 0 (S n0)) dst) as [out [E [L [H1 H2]]]].
  - intros m' a _ Ha. apply in_seq in Ha. unfold rd. rewrite (nth_error_nth' _ x) by lia. reflexivity.
  - intros a Ha. apply in_seq in Ha. lia.
  - intros; subst; auto.
  - exists out. split; [exact E|]. split; [exact L|]. intros j. destruct (Nat.ltb_spec j (S n0)).
    + rewrite H1 by (apply in_seq; lia). symmetry. apply nth_error_nth'. lia.
    + apply H2. intros a Ha. apply in_seq in Ha. lia.
Qed.

Lemma fill_prefix_correct {A} (v : A) (dst : list A) n : n <= length dst ->
  exists out, fill_prefix v dst n = Some out /\ length out = length dst /\
    forall j, nth_error out j = if j <? n then Some v else nth_error dst j.
Proof.
  intros L2. unfold fill_prefix.
  destruct (foldM_upd (fun m i => upd m i v) (fun i => i) (fun i => v) (seq 0 n) dst) as [out [E [L [H1 H2]]]]; auto.
  - intros a Ha. apply in_seq in Ha. lia.
  - exists out. split; [exact E|]. split; [exact L|]. intros j. destruct (Nat.ltb_spec j n).
    + rewrite H1 by (apply in_seq; lia). auto.
    + apply H2. intros a Ha. apply in_seq in Ha. lia.
Qed.

(** ** Contents *)
Definition ncnt (content : list (list nat)) : list nat := map (@length nat) content.

Lemma ncnt_nth content c ls : nth_error content c = Some ls -> nth_error (ncnt content) c = Some (length ls).
Proof. intros E. unfold ncnt. rewrite nth_error_map, E. reflexivity. Qed.

Lemma before_psum content c : particles_before content c = psum (ncnt content) c.
Proof. unfold particles_before, psum, ncnt. rewrite <- firstn_map. reflexivity. Qed.

Lemma number_psum content : number_of_particles content = psum (ncnt content) (length content).
Proof.
  unfold number_of_particles, psum, ncnt. rewrite <- (map_length (@length nat)), firstn_all. reflexivity.
Qed.

Lemma per_cell_length f content : length (per_cell f content) = length content.
Proof. unfold per_cell. rewrite map_length, combine_length, seq_length. lia. Qed.

Lemma per_cell_nth f content c : nth_error (per_cell f content) c = option_map (f c) (nth_error content c).
Proof.
  unfold per_cell. rewrite nth_error_map.
  assert (G : forall (l : list (list nat)) s, nth_error (combine (seq s (length l)) l) c = option_map (fun x => (s + c, x)) (nth_error l c)).
  { clear. revert c. induction c as [|c IH]; intros [|x l] s; cbn; auto.
    - rewrite Nat.add_0_r; auto.
    - rewrite IH. destruct (nth_error l c); cbn; auto. rewrite Nat.add_succ_r. auto. }
  rewrite G. destruct (nth_error content c); cbn; auto.
Qed.

Lemma psum_ext a b c : (forall i, i < c -> nth_error a i = nth_error b i) -> psum a c = psum b c.
Proof.
  intros H. unfold psum. f_equal. apply nth_error_ext. intros i.
  rewrite !nth_error_firstn. destruct (Nat.ltb_spec i c); auto.
Qed.

Lemma in_particles np a b c l : In (c, l) (particles_of_cells np a b) <-> a <= c < b /\ l < nth c np 0.
Proof.
  unfold particles_of_cells. rewrite in_flat_map. split.
  - intros [x [Hx Hi]]. apply in_seq in Hx. apply in_map_iff in Hi as [y [[= <- <-] Hy]]. apply in_seq in Hy. lia.
  - intros [H1 H2]. exists c. split; [apply in_seq; lia|]. apply in_map_iff. exists l. split; auto. apply in_seq; lia.
Qed.

Lemma particles_nodup np a b : NoDup (particles_of_cells np a b).
Proof.
  unfold particles_of_cells. apply NoDup_flat_map.
  - apply seq_NoDup.
  - intros c _. apply NoDup_map_inj; [congruence|apply seq_NoDup].
  - intros x y [c l] _ _ Hx Hy. apply in_map_iff in Hx as [? [[= <- _] _]]. apply in_map_iff in Hy as [? [[= <- _] _]]. auto.
Qed.

(** ** The storage of the map *)
Definition starts_ok (m : pmap) (content : list (list nat)) : Prop :=
  forall c ls, nth_error content c = Some ls -> ls <> [] -> nth_error (m_starts m) c = Some (psum (ncnt content) c).

Lemma psum_flat l a b : a <= b -> (forall c, a <= c < b -> nth c l 0 = 0) -> psum l b = psum l a.
Proof.
  induction 1 as [|b H IH]; intros Hz; auto. rewrite <- IH by (intros; apply Hz; lia).
  destruct (nth_error l b) as [n|] eqn:E.
  - rewrite (psum_S _ _ _ E). pose proof (Hz b ltac:(lia)) as Q. rewrite (nth_error_nth _ _ _ E) in Q. lia.
  - apply nth_error_None in E. unfold psum. rewrite !firstn_all2 by lia. auto.
Qed.

Lemma map_create_range d k CL cc first last m content : map_sizes CL cc m -> length content = cc ->
  first <= last -> last <= cc ->
  (forall c ls, nth_error content c = Some ls -> nth_error (m_hn m) c = Some (length ls)) ->
  (forall c, c < cc -> nth_error (m_hes m) c = Some (particles_before content c)) ->
  (forall c ls, nth_error content c = Some ls -> c < first \/ last <= c -> ls = []) ->
  exists m', map_create d k cc first last m = Some m' /\ map_sizes CL cc m' /\
    m_hn m' = m_hn m /\ m_dn m' = m_dn m /\ m_hes m' = m_hes m /\ m_des m' = m_des m /\
    starts_ok m' content /\
    number_of_particles content <= length (m_layers m') /\
    (first < last -> m_total m' = number_of_particles content).
Proof.
  intros [S1 [S2 [S3 [S4 [S5 S6]]]]] Lc Hfl Hlc Hn He Hz. unfold map_create.
  replace ((first <=? cc) && (last <=? cc)) with true by (symmetry; apply andb_true_iff; split; apply Nat.leb_le; lia).
  cbn [assert obind].
  assert (Hz' : forall c, c < first \/ last <= c -> nth c (ncnt content) 0 = 0).
  { intros c H. destruct (nth_error content c) as [ls|] eqn:E.
    - rewrite (nth_error_nth _ _ _ (ncnt_nth _ _ _ E)). rewrite (Hz _ _ E H). auto.
    - apply nth_overflow. unfold ncnt. rewrite map_length. apply nth_error_None. auto. }
  assert (En : number_of_particles content = psum (ncnt content) last).
  { rewrite number_psum, Lc. apply psum_flat; auto. intros; apply Hz'; lia. }
  destruct (Nat.ltb_spec first last) as [Hc|Hc].
  - destruct (nth_error_lt_some content (last - 1)) as [ls El]; [lia|].
    unfold rd at 1 2. rewrite He by lia. rewrite (Hn _ _ El). cbn [obind].
    assert (Et : particles_before content (last - 1) + length ls = number_of_particles content).
    { rewrite before_psum, En. rewrite <- (psum_S _ _ _ (ncnt_nth _ _ _ El)). f_equal. lia. }
    rewrite Et.
    destruct (foldM_upd (fun hs c => e <- rd (m_hes m) c ;; upd hs c e) (fun c => c) (psum (ncnt content)) (seq first (last - first)) (m_hstarts m)) as [hs [E1 [L1 [H1 _]]]].
    { intros m' c _ H. apply in_seq in H. unfold rd. rewrite He by lia. rewrite before_psum. auto. }
    { intros c H. apply in_seq in H. lia. }
    { intros; subst; auto. }
    rewrite E1. cbn [obind].
    destruct (foldM_upd (fun ds c => v <- rd hs c ;; upd ds c v) (fun c => c) (psum (ncnt content)) (seq first (last - first)) (m_starts m)) as [ds [E2 [L2 [H2 _]]]].
    { intros m' c _ H. unfold rd. rewrite H1 by auto. auto. }
    { intros c H. apply in_seq in H. lia. }
    { intros; subst; auto. }
    rewrite E2. cbn [obind].
    eexists. split; [reflexivity|]. unfold map_sizes. cbn [m_layers m_hstarts m_starts m_total m_hn m_dn m_hes m_des].
    split; [lia|]. do 4 (split; [reflexivity|]). split; [|split; [|auto]].
    + intros c ls' E N. cbn. apply H2. apply in_seq.
      destruct (le_lt_dec first c); [destruct (le_lt_dec last c)|]; try lia; exfalso; apply N; eapply Hz; eauto.
    + destruct (Nat.ltb_spec (length (m_layers m)) (number_of_particles content)); [rewrite fresh_length|]; lia.
  - assert (first = last) by lia. subst last. exists m. split; [auto|]. split; [unfold map_sizes; lia|]. do 4 (split; [reflexivity|]).
    split; [|split; [|lia]].
    + intros c ls E N. exfalso. apply N. eapply Hz; eauto. lia.
    + rewrite En. rewrite (psum_flat _ 0 first); [change (psum (ncnt content) 0) with 0; lia|lia|]. intros c H; apply Hz'; lia.
Qed.

Lemma map_create_correct d k CL cc m content : map_sizes CL cc m -> length content = cc ->
  (forall c ls, nth_error content c = Some ls -> nth_error (m_hn m) c = Some (length ls)) ->
  (forall c, c < cc -> nth_error (m_hes m) c = Some (particles_before content c)) ->
  exists m', map_create d k cc 0 cc m = Some m' /\ map_sizes CL cc m' /\
    m_hn m' = m_hn m /\ m_dn m' = m_dn m /\ m_hes m' = m_hes m /\ m_des m' = m_des m /\
    starts_ok m' content /\
    number_of_particles content <= length (m_layers m') /\
    (1 <= cc -> m_total m' = number_of_particles content).
Proof.
  intros Sz Lc Hn He. apply (map_create_range d k CL cc 0 cc m content); auto; try lia.
  intros c ls E [H|H]; [lia|]. pose proof (nth_error_some_lt _ _ _ E). lia.
Qed.

Lemma put_layer_correct m lay content c ls j v : starts_ok m content ->
  number_of_particles content <= length lay ->
  nth_error content c = Some ls -> j < length ls ->
  exists lay', put_layer m lay c j v = Some lay' /\ length lay' = length lay /\
    forall c' ls' j', nth_error content c' = Some ls' -> j' < length ls' ->
      nth_error lay' (psum (ncnt content) c' + j') =
        if (c' =? c) && (j' =? j) then Some v else nth_error lay (psum (ncnt content) c' + j').
Proof.
  intros Hs Hl E Hj. unfold put_layer, rd.
  pose proof (nth_error_some_lt _ _ _ E) as Hc. rewrite (Hs _ _ E) by (intros ->; cbn in Hj; lia). cbn [obind].
  pose proof (psum_lt _ _ (length content) _ (ncnt_nth _ _ _ E) Hc) as B. rewrite <- number_psum in B.
  destruct (upd_some lay (psum (ncnt content) c + j) v) as [lay' E']; [lia|].
  exists lay'. split; [auto|]. split; [eapply upd_length; eauto|].
  intros c' ls' j' E1 H1. rewrite (upd_nth _ _ _ _ _ E').
  destruct (Nat.eqb_spec (psum (ncnt content) c' + j') (psum (ncnt content) c + j)) as [Q|Q].
  - destruct (psum_unique _ _ _ _ _ _ _ (ncnt_nth _ _ _ E1) (ncnt_nth _ _ _ E) H1 Hj Q) as [-> ->].
    rewrite !Nat.eqb_refl. auto.
  - destruct (Nat.eqb_spec c' c); [|auto]. destruct (Nat.eqb_spec j' j); [|auto]. subst. congruence.
Qed.

(** Several such writes to one cell, all taken from [content]. *)
Lemma puts_correct {X} m content (f : list nat -> X -> option (list nat)) c ls (jj vv : X -> nat) xs :
  starts_ok m content -> nth_error content c = Some ls ->
  (forall x, In x xs -> nth_error ls (jj x) = Some (vv x)) ->
  (forall lay x, In x xs -> f lay x = put_layer m lay c (jj x) (vv x)) ->
  forall lay, number_of_particles content <= length lay ->
  exists lay', foldM f lay xs = Some lay' /\ length lay' = length lay /\
    forall c' ls' j', nth_error content c' = Some ls' -> j' < length ls' ->
      nth_error lay' (psum (ncnt content) c' + j') =
        if (c' =? c) && existsb (fun x => jj x =? j') xs then nth_error ls j' else nth_error lay (psum (ncnt content) c' + j').
Proof.
  intros Hs E. induction xs as [|x xs IH]; intros Hj Hf lay Hl.
  - exists lay. split; [auto|]. split; [auto|]. intros. cbn [existsb]. rewrite andb_false_r. auto.
  - cbn [foldM]. rewrite Hf by (left; auto).
    destruct (put_layer_correct m lay content c ls (jj x) (vv x) Hs Hl E) as [l1 [E1 [L1 F1]]].
    { eapply nth_error_some_lt. apply Hj. left; auto. }
    rewrite E1. cbn [obind]. destruct (IH ltac:(intros; apply Hj; right; auto) ltac:(intros; apply Hf; right; auto) l1) as [l2 [E2 [L2 F2]]]; [lia|].
    exists l2. split; [auto|]. split; [lia|]. intros c' ls' j' Ec Hj'. rewrite (F2 _ _ _ Ec Hj'), (F1 _ _ _ Ec Hj').
    cbn [existsb]. destruct (Nat.eqb_spec c' c) as [->|]; cbn [andb]; auto.
    destruct (existsb (fun x0 => jj x0 =? j') xs); [rewrite orb_true_r; auto|]. rewrite orb_false_r, (Nat.eqb_sym (jj x) j').
    destruct (Nat.eqb_spec j' (jj x)) as [->|]; auto. symmetry. apply Hj. left; auto.
Qed.

(** A kernel whose work items write entries of [content] to their places, and
    reach every entry, leaves the array of the map describing [content]. *)
Lemma fill_map {A} (f : list nat -> A -> option (list nat)) (wr : A -> nat * nat -> option nat)
    (sched : list A) lay0 content :
  (forall lay a, length lay = length lay0 -> In a sched ->
     exists lay', f lay a = Some lay' /\ length lay' = length lay0 /\
       forall c ls j, nth_error content c = Some ls -> j < length ls ->
         nth_error lay' (psum (ncnt content) c + j) =
           match wr a (c, j) with Some v => Some v | None => nth_error lay (psum (ncnt content) c + j) end) ->
  (forall a c j ls v, In a sched -> nth_error content c = Some ls -> wr a (c, j) = Some v -> nth_error ls j = Some v) ->
  (forall c j ls v, nth_error content c = Some ls -> nth_error ls j = Some v ->
     exists a w, In a sched /\ wr a (c, j) = Some w) ->
  exists lay, foldM f lay0 sched = Some lay /\ length lay = length lay0 /\
    forall c ls j v, nth_error content c = Some ls -> nth_error ls j = Some v ->
      nth_error lay (psum (ncnt content) c + j) = Some v.
Proof.
  intros Hf Hv Hc.
  set (ok := fun p : nat * nat => match nth_error content (fst p) with Some ls => snd p <? length ls | None => false end).
  destruct (foldM_kernel f (fun s p => if ok p then nth_error s (psum (ncnt content) (fst p) + snd p) else None)
     (fun s => length s = length lay0) (fun a p => if ok p then wr a p else None) sched lay0) as [lay [E [L [H1 _]]]].
  - auto.
  - intros s a Ls Ha. destruct (Hf s a Ls Ha) as [s' [E [L' H]]]. exists s'. split; [auto|]. split; [auto|].
    intros [c j]. unfold ok. cbn [fst snd]. destruct (nth_error content c) as [ls|] eqn:Ec; [|auto].
    destruct (Nat.ltb_spec j (length ls)); [|auto]. rewrite (H _ _ _ Ec) by auto. auto.
  - intros a b [c j] v w Ha Hb. unfold ok. cbn [fst snd]. destruct (nth_error content c) as [ls|] eqn:Ec; [|discriminate].
    destruct (Nat.ltb_spec j (length ls)); [|discriminate].
    intros Wa Wb. pose proof (Hv _ _ _ _ _ Ha Ec Wa). pose proof (Hv _ _ _ _ _ Hb Ec Wb). congruence.
  - exists lay. split; [auto|]. split; [auto|]. intros c ls j v Ec Ej.
    destruct (Hc _ _ _ _ Ec Ej) as [a [w [Ia Wa]]].
    specialize (H1 a (c, j) w Ia). unfold ok in H1. cbn [fst snd] in H1. rewrite Ec in H1.
    pose proof (nth_error_some_lt _ _ _ Ej) as Hj. apply Nat.ltb_lt in Hj. rewrite Hj in H1.
    rewrite (H1 Wa). rewrite <- (Hv _ _ _ _ _ Ia Ec Wa). auto.
Qed.

(** Final assembly: everything needed for [selects]. *)
Lemma selects_intro CL cc m content np : map_sizes CL cc m -> length content = cc ->
  (forall c ls, nth_error content c = Some ls -> nth_error (m_hn m) c = Some (length ls)) ->
  (forall c ls, nth_error content c = Some ls -> nth_error (m_dn m) c = Some (length ls)) ->
  (forall c, c < cc -> nth_error (m_hes m) c = Some (particles_before content c)) ->
  (forall c, c < cc -> nth_error (m_des m) c = Some (particles_before content c)) ->
  starts_ok m content ->
  (forall c ls j v, nth_error content c = Some ls -> nth_error ls j = Some v ->
      nth_error (m_layers m) (psum (ncnt content) c + j) = Some v) ->
  np = number_of_particles content ->
  selects {| s_npart := np; s_ncell := cc |} m content.
Proof.
  intros Sz L H1 H2 H3 H4 H5 H6 ->. split; [cbn; auto|]. split; [auto|]. split.
  - intros c ls E. pose proof (nth_error_some_lt _ _ _ E). cbn. split; [auto|]. split; [auto|]. split; [apply H4; lia|].
    intros j l Ej. unfold rd. rewrite (H5 _ _ E) by (intros ->; destruct j; discriminate). cbn [obind]. eapply H6; eauto.
  - intros c Hc. apply H3. lia.
Qed.

Lemma running_total_correct CL cc content hn hes : length content = cc -> length hes = cc ->
  length hn = cc + cc * CL ->
  (forall c ls, nth_error content c = Some ls -> nth_error hn c = Some (length ls)) ->
  exists hes', host_running_total cc hn hes = Some (hes', number_of_particles content) /\ length hes' = cc /\
    forall c, c < cc -> nth_error hes' c = Some (particles_before content c).
Proof.
  intros Lc Lh Ln Hn. unfold host_running_total.
  destruct (foldM_ind (fun st c => let '(hes, t) := st in
           n <- rd hn c ;; hes' <- upd hes c t ;; Some (hes', t + n))
     (fun pre st => length (fst st) = cc /\ snd st = particles_before content (length pre) /\
        forall c, c < length pre -> nth_error (fst st) c = Some (particles_before content c)) (seq 0 cc) (hes, 0))
     as [[hes' t] [E [L [T H]]]].
  - cbn. split; [auto|]. split; [auto|]. intros; lia.
  - intros pre a post [h t] Es [L [T H]]. cbn [fst snd] in *.
    assert (Ea : a = length pre /\ a < cc).
    { pose proof (f_equal (fun l => nth_error l (length pre)) Es) as Q. cbn in Q.
      rewrite nth_error_app2, Nat.sub_diag in Q by lia. cbn in Q. rewrite nth_error_seq in Q.
      destruct (Nat.ltb_spec (length pre) cc); [|discriminate]. injection Q as <-. auto. }
    destruct Ea as [-> Ha]. destruct (nth_error_lt_some content (length pre)) as [ls El]; [lia|].
    unfold rd. rewrite (Hn _ _ El). cbn [obind]. destruct (upd_some h (length pre) t) as [h' Eh]; [lia|].
    rewrite Eh. cbn [obind]. eexists. split; [reflexivity|]. cbn [fst snd]. rewrite app_length. cbn [length].
    split; [rewrite (upd_length _ _ _ _ Eh); auto|]. split.
    + rewrite T, !before_psum. rewrite Nat.add_1_r, (psum_S _ _ _ (ncnt_nth _ _ _ El)). auto.
    + intros c Hc. rewrite (upd_nth _ _ _ _ _ Eh). destruct (Nat.eqb_spec c (length pre)); [subst; auto|].
      apply H. lia.
  - rewrite seq_length in T, H. cbn [fst snd] in *. exists hes'. split; [|auto].
    rewrite E. repeat f_equal. rewrite T, number_psum, before_psum, Lc. auto.
Qed.

Lemma dev_copy_correct d k (src dst : list nat) n : device_ok d -> n <= length src -> n <= length dst ->
  exists out, foldM (fun o c => v <- rd src c ;; upd o c v) dst (ord d k (seq 0 n)) = Some out /\
    length out = length dst /\
    forall j, nth_error out j = if j <? n then nth_error src j else nth_error dst j.
Proof.
  intros D L1 L2.
  destruct (foldM_upd (fun o c => v <- rd src c ;; upd o c v) (fun i => i) (fun i => nth i src 0) (ord d k (seq 0 n)) dst) as [out [E [L [H1 H2]]]].
  - intros m' a _ Ha. apply in_ord in Ha; auto. apply in_seq in Ha. unfold rd. rewrite (nth_error_nth' _ 0) by lia. reflexivity.
  - intros a Ha. apply in_ord in Ha; auto. apply in_seq in Ha. lia.
  - intros; subst; auto.
  - exists out. split; [exact E|]. split; [exact L|]. intros j. destruct (Nat.ltb_spec j n).
    + rewrite H1 by (apply in_ord; auto; apply in_seq; lia). symmetry. apply nth_error_nth'. lia.
    + apply H2. intros a Ha. apply in_ord in Ha; auto. apply in_seq in Ha. lia.
Qed.
