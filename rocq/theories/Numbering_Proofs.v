(** Proofs about the numbering of cells. *)
From Coq Require Import List Arith ZArith Bool Lia Permutation.
Import ListNotations.
From Verif Require Import Base Kernel CellRep_Model Halo_Model Halo_Proofs Numbering_Model Numbering_Spec.
Local Open Scope nat_scope.

Lemma to_global s : abs_id s = global_number s.
Proof. unfold abs_id, global_number. destruct (Z.ltb_spec (-1) s), (Z.ltb_spec s 0); lia. Qed.
Lemma rd_nth {A} (l : list A) i d : i < length l -> rd l i = Some (nth i l d).
Proof. intros H. unfold rd. apply nth_error_nth'. exact H. Qed.
Lemma mapM_by {A B} (f : A -> option B) g l : (forall a, In a l -> f a = Some (g a)) -> mapM f l = Some (map g l).
Proof. induction l as [|a l IH]; intros H; cbn [mapM map]; [reflexivity|]. rewrite H by (left; reflexivity). cbn [obind]. rewrite IH by (intros; apply H; right; assumption). reflexivity. Qed.

Definition helper_of (p : plex) : helper := match make p with Some h => h | None => mk_helper (p_dm p) (p_num p) [] [] [] end.
Lemma own_points p : filter (own (p_num p)) (range (p_start p) (p_end p)) = owned_points p.
Proof. unfold owned_points, range. apply filter_ext. intros c. unfold own. destruct (Z.ltb_spec (-1) (p_num p c)), (Z.leb_spec 0 (p_num p c)); lia. Qed.
Lemma make_ok p : owned_points p <> [] -> make p = Some (helper_of p) /\ hdm (helper_of p) = p_dm p /\ hnum (helper_of p) = p_num p /\ np_to_petsc (helper_of p) = owned_points p.
Proof.
  intros NE. destruct (helper_cells (p_dm p) (p_num p) (p_start p) (p_end p)) as (_ & H). rewrite own_points in H. destruct (H NE) as (h & E & A & B & C & _). unfold helper_of. fold (make p) in E. rewrite E. auto.
Qed.
Lemma global_pos s : (0 <= global_number s)%Z.
Proof. unfold global_number. destruct (Z.ltb_spec s 0); lia. Qed.
Lemma global_id g : (0 <= g)%Z -> global_number g = g.
Proof. intros H. unfold global_number. destruct (Z.ltb_spec g 0); lia. Qed.
Lemma chart_iff d x : in_chart d x = true <-> (pstart d <= x < pend d)%Z.
Proof. unfold in_chart. rewrite andb_true_iff, Z.leb_le, Z.ltb_lt. reflexivity. Qed.
Lemma owned_in p c : plex_ok p -> In c (owned_points p) -> (p_start p <= c < p_end p)%Z /\ in_chart (p_dm p) c = true /\ (0 <= p_num p c)%Z.
Proof.
  intros (_ & B & _) I. apply filter_In in I. destruct I as (I & P). apply in_map_iff in I. destruct I as (i & <- & I). apply in_seq in I. apply Z.leb_le in P. rewrite chart_iff. lia.
Qed.
Lemma local_ok p c : plex_ok p -> In c (owned_points p) -> get_local_point (helper_of p) (p_num p c) = Some c.
Proof.
  intros H I. destruct H as (U & B & NE). destruct (make_ok p NE) as (E & _ & _ & _). destruct (helper_cells (p_dm p) (p_num p) (p_start p) (p_end p)) as (_ & Hh). rewrite own_points in Hh. destruct (Hh NE) as (h & Eh & _ & _ & _ & _ & G). fold (make p) in Eh. assert (h = helper_of p) by congruence. subst h.
  destruct (owned_in p c (conj U (conj B NE)) I) as (_ & Ch & P).
  assert (K : map_get (global_to_local (helper_of p)) (p_num p c) = Some c).
  { rewrite G. apply global_to_local_ok.
    - intros x y Cx Cy Exy. apply U; [apply chart_iff; exact Cx|apply chart_iff; exact Cy|]. rewrite !to_global in Exy. exact Exy.
    - split; [exact Ch|]. rewrite to_global. apply global_id. exact P. }
  unfold get_local_point. rewrite to_global, global_id by exact P. rewrite K. reflexivity.
Qed.
Lemma ids_ok p : plex_ok p -> cell_ids (helper_of p) = Some (owned_ids p).
Proof.
  intros H. destruct (make_ok p) as (_ & D & M & C); [apply H|]. unfold cell_ids, get_cell_count, get_dmplex_cell_index, get_point_global_index, owned_ids. rewrite D, M, C.
  rewrite (mapM_by _ (fun i => p_num p (nth i (owned_points p) 0%Z))).
  - f_equal. apply nth_error_ext. intros i. rewrite !nth_error_map, nth_error_seq. destruct (Nat.ltb_spec i (length (owned_points p))) as [X|X]; cbn [option_map].
    + rewrite (nth_error_nth' _ 0%Z) by exact X. reflexivity.
    + rewrite (proj2 (nth_error_None _ _)) by lia. reflexivity.
  - intros i I. apply in_seq in I. unfold znth. destruct (Z.leb_spec 0 (Z.of_nat i)); [|lia]. rewrite Nat2Z.id, (nth_error_nth' _ 0%Z) by lia. cbn [obind].
    destruct (owned_in p (nth i (owned_points p) 0%Z) H) as (_ & L & P); [apply nth_In; lia|].
    rewrite L. cbn [assert obind]. rewrite to_global, global_id by exact P. reflexivity.
Qed.
Lemma fold_min_spec l : forall a, (fold_left Z.min l a <= a)%Z /\ (forall x, In x l -> fold_left Z.min l a <= x)%Z /\ (fold_left Z.min l a = a \/ In (fold_left Z.min l a) l).
Proof.
  induction l as [|y l IH]; intros a; cbn [fold_left].
  - split; [lia|]. split; [intros x []|auto].
  - destruct (IH (Z.min a y)) as (A & B & C). split; [lia|]. split.
    + intros x [->|I]; [lia|auto].
    + destruct C as [C|C]; [|right; right; exact C]. destruct (Z.min_spec a y) as [(_ & M)|(_ & M)]; rewrite M in *; [left; exact C|right; left; congruence].
Qed.
Lemma fold_max_spec l : forall a, (a <= fold_left Z.max l a)%Z /\ (forall x, In x l -> x <= fold_left Z.max l a)%Z /\ (fold_left Z.max l a = a \/ In (fold_left Z.max l a) l).
Proof.
  induction l as [|y l IH]; intros a; cbn [fold_left].
  - split; [lia|]. split; [intros x []|auto].
  - destruct (IH (Z.max a y)) as (A & B & C). split; [lia|]. split.
    + intros x [->|I]; [lia|auto].
    + destruct C as [C|C]; [|right; right; exact C]. destruct (Z.max_spec a y) as [(_ & M)|(_ & M)]; rewrite M in *; [right; left; congruence|left; exact C].
Qed.
Definition gmin (ids : list (list Z)) := fold_left Z.min (map (fun l => fold_left Z.min l int_max) ids) int_max.
Definition gmax (ids : list (list Z)) := fold_left Z.max (map (fun l => fold_left Z.max l int_min) ids) int_min.
Lemma gmin_spec ids : (forall x, In x (concat ids) -> gmin ids <= x)%Z /\ (gmin ids = int_max \/ In (gmin ids) (concat ids)).
Proof.
  unfold gmin. destruct (fold_min_spec (map (fun l => fold_left Z.min l int_max) ids) int_max) as (_ & B & C). split.
  - intros x I. apply in_concat in I. destruct I as (l & Il & Ix). transitivity (fold_left Z.min l int_max); [apply B, in_map_iff; eauto|apply fold_min_spec; exact Ix].
  - destruct C as [C|C]; [auto|]. apply in_map_iff in C. destruct C as (l & E & Il). rewrite <- E. destruct (fold_min_spec l int_max) as (_ & _ & [D|D]); [auto|right; apply in_concat; eauto].
Qed.
Lemma gmax_spec ids : (forall x, In x (concat ids) -> x <= gmax ids)%Z /\ (gmax ids = int_min \/ In (gmax ids) (concat ids)).
Proof.
  unfold gmax. destruct (fold_max_spec (map (fun l => fold_left Z.max l int_min) ids) int_min) as (_ & B & C). split.
  - intros x I. apply in_concat in I. destruct I as (l & Il & Ix). transitivity (fold_left Z.max l int_min); [apply fold_max_spec; exact Ix|apply B, in_map_iff; eauto].
  - destruct C as [C|C]; [auto|]. apply in_map_iff in C. destruct C as (l & E & Il). rewrite <- E. destruct (fold_max_spec l int_min) as (_ & _ & [D|D]); [auto|right; apply in_concat; eauto].
Qed.
Lemma put_ok N base rank l : (forall g, In g l -> base <= g < base + Z.of_nat N)%Z ->
  exists o, foldM (fun o g => at_put o (g - base) rank) (repeat (-1)%Z N) l = Some o /\ length o = N /\
    forall k, k < N -> exists v, nth_error o k = Some v /\ (In (base + Z.of_nat k)%Z l /\ v = rank \/ ~ In (base + Z.of_nat k)%Z l /\ v = (-1)%Z).
Proof.
  intros H. destruct (foldM_ind (fun o g => at_put o (g - base) rank) (fun pre o => length o = N /\ forall k, k < N -> exists v, nth_error o k = Some v /\ (In (base + Z.of_nat k)%Z pre /\ v = rank \/ ~ In (base + Z.of_nat k)%Z pre /\ v = (-1)%Z)) l (repeat (-1)%Z N)) as (o & E & P).
  - split; [apply repeat_length|]. intros k L. exists (-1)%Z. split; [apply nth_error_repeat; exact L|]. right. auto.
  - intros pre g post o E (L & P). assert (G : (base <= g < base + Z.of_nat N)%Z) by (apply H; rewrite E; apply in_elt).
    unfold at_put. destruct (Z.ltb_spec (g - base) 0); [lia|]. destruct (upd_some o (Z.to_nat (g - base)) rank) as (o' & Eo); [lia|]. exists o'. split; [exact Eo|]. split; [rewrite (upd_length _ _ _ _ Eo); exact L|].
    intros k Lk. rewrite (upd_nth _ _ _ _ k Eo). destruct (Nat.eqb_spec k (Z.to_nat (g - base))) as [->|N'].
    + exists rank. split; [reflexivity|]. left. split; [|reflexivity]. apply in_or_app. right. left. lia.
    + destruct (P k Lk) as (v & Ev & D). exists v. split; [exact Ev|]. destruct D as [(I & V)|(I & V)]; [left|right]; split; try exact V.
      * apply in_or_app. auto.
      * intros J. apply in_app_or in J. destruct J as [J|[J|[]]]; [auto|]. lia.
  - exists o. tauto.
Qed.
Lemma max_ok N ls : ls <> [] -> (forall l, In l ls -> length l = N) ->
  exists a, max_all N ls = Some a /\ length a = N /\
    forall k, k < N -> exists v, nth_error a k = Some v /\ (forall l, In l ls -> nth k l 0 <= v)%Z /\ exists l, In l ls /\ nth_error l k = Some v.
Proof.
  destruct ls as [|l0 rest]; [congruence|]. intros _ H. unfold max_all.
  destruct (foldM_ind (fun a l => mapM (fun i => x <- rd a i ;; y <- rd l i ;; Some (Z.max x y)) (seq 0 N)) (fun pre a => length a = N /\ forall k, k < N -> exists v, nth_error a k = Some v /\ (forall l, In l (l0 :: pre) -> nth k l 0 <= v)%Z /\ exists l, In l (l0 :: pre) /\ nth_error l k = Some v) rest l0) as (a & E & P).
  - split; [apply H; left; reflexivity|]. intros k L. exists (nth k l0 0%Z). rewrite <- (H l0) in L by (left; reflexivity). pose proof (nth_error_nth' l0 0%Z L) as E. split; [exact E|]. split; [intros l [->|[]]; lia|]. exists l0. split; [left; reflexivity|exact E].
  - intros pre l post a E (L & P). assert (Ll : length l = N) by (apply H; right; rewrite E; apply in_elt).
    exists (map (fun i => Z.max (nth i a 0%Z) (nth i l 0%Z)) (seq 0 N)). split.
    { apply mapM_by. intros i I. apply in_seq in I. rewrite (rd_nth a _ 0%Z), (rd_nth l _ 0%Z) by lia. reflexivity. }
    split; [rewrite map_length, seq_length; reflexivity|]. intros k Lk. destruct (P k Lk) as (v & Ev & U & (m & Im & Em)). exists (Z.max (nth k a 0%Z) (nth k l 0%Z)). split.
    { rewrite nth_error_map, nth_error_seq. destruct (Nat.ltb_spec k N); [reflexivity|lia]. }
    rewrite (nth_error_nth a k 0%Z Ev). split.
    + intros x [<-|I]; [pose proof (U l0 (or_introl eq_refl)); lia|]. apply in_app_or in I. destruct I as [I|[->|[]]]; [pose proof (U x (or_intror I)); lia|lia].
    + destruct (Z.max_spec v (nth k l 0%Z)) as [(_ & M)|(_ & M)]; rewrite M.
      * exists l. split; [right; apply in_or_app; right; left; reflexivity|]. apply nth_error_nth'. lia.
      * exists m. split; [|exact Em]. destruct Im as [<-|Im]; [left; reflexivity|right; apply in_or_app; auto].
  - exists a. rewrite E. tauto.
Qed.
Lemma nodup_flat {A B} (f : A -> list B) l x : NoDup (flat_map f l) -> forall i j a b, nth_error l i = Some a -> nth_error l j = Some b -> In x (f a) -> In x (f b) -> i = j.
Proof.
  induction l as [|y l IH]; intros ND i j a b Ei Ej Ia Ib; [destruct i; discriminate|]. cbn [flat_map] in ND.
  assert (D : forall z, In z (f y) -> ~ In z (flat_map f l)).
  { clear -ND. induction (f y) as [|w r IHr]; intros z I; [destruct I|]. cbn in ND. apply NoDup_cons_iff in ND. destruct ND as (NI & ND). destruct I as [->|I]; [|apply IHr; assumption]. rewrite in_app_iff in NI. tauto. }
  assert (ND' : NoDup (flat_map f l)). { clear -ND. induction (f y); [exact ND|]. inversion ND. auto. }
  destruct i as [|i], j as [|j]; cbn in Ei, Ej.
  - reflexivity.
  - injection Ei as ->. destruct (D x Ia). apply in_flat_map. exists b. split; [eapply nth_error_In; eauto|exact Ib].
  - injection Ej as ->. destruct (D x Ib). apply in_flat_map. exists a. split; [eapply nth_error_In; eauto|exact Ia].
  - f_equal. eapply IH; eauto.
Qed.
Lemma len_flat ps : Forall plex_ok ps -> list_sum (map get_cell_count (map helper_of ps)) = length (flat_map owned_ids ps).
Proof.
  intros H. induction H as [|p ps Hp _ IH]; [reflexivity|]. cbn [map flat_map list_sum fold_right]. rewrite app_length. unfold list_sum in IH. rewrite IH. unfold get_cell_count, owned_ids.
  destruct (make_ok p) as (_ & _ & _ & C); [apply Hp|]. rewrite C, map_length. reflexivity.
Qed.
Lemma helpers_ok ps : Forall plex_ok ps -> mapM make ps = Some (map helper_of ps) /\ mapM cell_ids (map helper_of ps) = Some (map owned_ids ps).
Proof.
  intros H. rewrite Forall_forall in H. split.
  - apply mapM_by. intros p I. apply make_ok. apply (H p I).
  - rewrite mapM_map. apply mapM_by. intros p I. apply ids_ok; auto.
Qed.
Lemma ids_nonempty ps : ps <> [] -> Forall plex_ok ps -> flat_map owned_ids ps <> [].
Proof. destruct ps as [|p ps]; [congruence|]. intros _ H. inversion H as [|? ? (_ & _ & NE) _]. cbn [flat_map]. unfold owned_ids at 1. destruct (owned_points p); [congruence|discriminate]. Qed.
Lemma owners_ok ps base : ps <> [] -> Forall plex_ok ps -> cells_ok ps base ->
  exists owners, get_map (map helper_of ps) = Some (base, owners) /\ length owners = length (flat_map owned_ids ps) /\
    forall r p g, nth_error ps r = Some p -> In g (owned_ids p) -> nth_error owners (Z.to_nat (g - base)) = Some (Z.of_nat r).
Proof.
  intros NE H (B0 & B1 & PM). set (N := length (flat_map owned_ids ps)) in *.
  assert (RG : forall g, In g (flat_map owned_ids ps) <-> (base <= g < base + Z.of_nat N)%Z).
  { intros g. split; intros I.
    - apply (Permutation_in _ PM) in I. apply in_map_iff in I. destruct I as (k & <- & I). apply in_seq in I. lia.
    - apply (Permutation_in _ (Permutation_sym PM)). apply in_map_iff. exists (Z.to_nat (g - base)). split; [lia|]. apply in_seq. lia. }
  assert (ND : NoDup (flat_map owned_ids ps)).
  { apply (Permutation_NoDup (Permutation_sym PM)). apply FinFun.Injective_map_NoDup; [intros x y E; lia|apply seq_NoDup]. }
  assert (NP : 0 < N). { unfold N. pose proof (ids_nonempty ps NE H). destruct (flat_map owned_ids ps); [congruence|cbn; lia]. }
  unfold get_map. rewrite len_flat by exact H. fold N. rewrite (proj2 (helpers_ok ps H)). cbn [obind].
  fold (gmin (map owned_ids ps)). fold (gmax (map owned_ids ps)).
  assert (Emin : gmin (map owned_ids ps) = base).
  { destruct (gmin_spec (map owned_ids ps)) as (A & C). rewrite <- flat_map_concat_map in *. pose proof (A base (proj2 (RG base) ltac:(lia))). destruct C as [C|C]; [lia|]. apply RG in C. lia. }
  assert (Emax : gmax (map owned_ids ps) = (base + Z.of_nat N - 1)%Z).
  { destruct (gmax_spec (map owned_ids ps)) as (A & C). rewrite <- flat_map_concat_map in *. pose proof (A _ (proj2 (RG (base + Z.of_nat N - 1)%Z) ltac:(lia))). destruct C as [C|C]; [unfold int_min in C; lia|]. apply RG in C. lia. }
  rewrite Emin, Emax. assert (EQ : (base + Z.of_nat N - 1 - base + 1 =? Z.of_nat N)%Z = true) by (apply Z.eqb_eq; lia). rewrite EQ. cbn [assert obind]. rewrite map_length.
  set (F := fun rank : nat => l <- rd (map owned_ids ps) rank ;; foldM (fun o g => at_put o (g - base) (Z.of_nat rank)) (repeat (-1)%Z N) l).
  assert (HF : forall r, r < length ps -> exists o, F r = Some o /\ length o = N /\ forall k, k < N -> exists v, nth_error o k = Some v /\ (v = (-1)%Z \/ v = Z.of_nat r) /\ forall p, nth_error ps r = Some p -> (In (base + Z.of_nat k)%Z (owned_ids p) <-> v = Z.of_nat r)).
  { intros r L. apply nth_error_Some in L. destruct (nth_error ps r) as [p|] eqn:Ep; [|congruence]. clear L. unfold F, rd. rewrite nth_error_map, Ep. cbn [option_map obind].
    destruct (put_ok N base (Z.of_nat r) (owned_ids p)) as (o & Eo & Lo & Po). { intros g I. apply RG, in_flat_map. exists p. split; [eapply nth_error_In; eauto|exact I]. }
    exists o. split; [exact Eo|]. split; [exact Lo|]. intros k Lk. destruct (Po k Lk) as (v & Ev & D). exists v. split; [exact Ev|]. split; [tauto|]. intros q [= <-]. destruct D as [(I & ->)|(I & ->)]; [tauto|]. split; [tauto|lia]. }
  destruct (mapM_total F (seq 0 (length ps))) as (locals & EL). { intros r I. apply in_seq in I. destruct (HF r) as (o & E & _); [lia|eauto]. }
  rewrite EL. cbn [obind].
  assert (LN : forall r, r < length ps -> F r = nth_error locals r). { intros r L. apply (mapM_nth _ _ _ r r EL). rewrite nth_error_seq. destruct (Nat.ltb_spec r (length ps)); [reflexivity|lia]. }
  pose proof (mapM_length _ _ _ EL) as LL. rewrite seq_length in LL.
  destruct (max_ok N locals) as (a & Ea & La & Pa).
  { destruct locals; [|congruence]. destruct ps; [congruence|discriminate]. }
  { intros l I. apply In_nth_error in I. destruct I as (r & Er). assert (Lr : r < length ps) by (rewrite <- LL; apply nth_error_Some; congruence). destruct (HF r Lr) as (o & Eo & Lo & _). rewrite LN in Eo by exact Lr. congruence. }
  rewrite Ea. cbn [obind]. exists a. split; [reflexivity|]. split; [exact La|]. intros r p g Ep Ig.
  assert (G : (base <= g < base + Z.of_nat N)%Z) by (apply RG, in_flat_map; exists p; split; [eapply nth_error_In; eauto|exact Ig]).
  assert (Lr : r < length ps) by (apply nth_error_Some; congruence).
  set (k := Z.to_nat (g - base)). assert (Lk : k < N) by lia. assert (Ek : (base + Z.of_nat k)%Z = g) by lia.
  destruct (Pa k Lk) as (v & Ev & U & (l & Il & El)). rewrite Ev. f_equal.
  destruct (HF r Lr) as (o & Eo & Lo & Po). destruct (Po k Lk) as (w & Ew & _ & Cw). rewrite LN in Eo by exact Lr. apply Cw in Ep as Cw'. rewrite Ek in Cw'. apply Cw' in Ig as ->.
  pose proof (U o ltac:(eapply nth_error_In; eauto)) as Uo. rewrite (nth_error_nth o k 0%Z Ew) in Uo.
  apply In_nth_error in Il. destruct Il as (r' & Er'). assert (Lr' : r' < length ps) by (rewrite <- LL; apply nth_error_Some; congruence).
  destruct (HF r' Lr') as (o' & Eo' & Lo' & Po'). rewrite LN in Eo' by exact Lr'. rewrite Er' in Eo'. injection Eo' as <-. destruct (Po' k Lk) as (w' & Ew' & Dw' & Cp'). rewrite El in Ew'. injection Ew' as <-.
  destruct Dw' as [Dw'|Dw']; [lia|]. apply nth_error_Some in Lr' as Xp. destruct (nth_error ps r') as [p'|] eqn:Ep'; [|congruence]. pose proof (proj2 (Cp' p' eq_refl) Dw') as I'. rewrite Ek in I'.
  assert (Ig : In g (owned_ids p)) by (apply Cw'; reflexivity). rewrite (nodup_flat owned_ids ps g ND r r' p p' Ep Ep' Ig I'). exact Dw'.
Qed.
Lemma owned_pos p g : plex_ok p -> In g (owned_ids p) -> (0 <= g)%Z.
Proof. intros H I. apply in_map_iff in I. destruct I as (c & <- & I). apply (owned_in p c H I). Qed.
Lemma contiguous_ok ps base owners : ps <> [] -> Forall plex_ok ps -> NoDup (flat_map owned_ids ps) -> (forall g, In g (flat_map owned_ids ps) -> g <= int_max)%Z ->
  get_map (map helper_of ps) = Some (base, owners) -> cells_ok ps base.
Proof.
  intros NE H ND IM E. set (N := length (flat_map owned_ids ps)). unfold get_map in E. rewrite len_flat in E by exact H. fold N in E. rewrite (proj2 (helpers_ok ps H)) in E. cbn [obind] in E.
  fold (gmin (map owned_ids ps)) in E. fold (gmax (map owned_ids ps)) in E.
  destruct (Z.eqb_spec (gmax (map owned_ids ps) - gmin (map owned_ids ps) + 1) (Z.of_nat N)) as [EQ|]; [|discriminate]. cbn [assert obind] in E.
  destruct (mapM _ _) as [locals|]; [|discriminate]. cbn [obind] in E. destruct (max_all _ _); [|discriminate]. cbn [obind] in E. injection E as <- _.
  pose proof (ids_nonempty ps NE H) as NN.
  assert (PO : forall g, In g (flat_map owned_ids ps) -> (0 <= g)%Z). { intros g I. apply in_flat_map in I. destruct I as (p & Ip & Ig). rewrite Forall_forall in H. eapply owned_pos; eauto. }
  destruct (gmin_spec (map owned_ids ps)) as (A & C). destruct (gmax_spec (map owned_ids ps)) as (A' & C'). rewrite <- flat_map_concat_map in *.
  assert (X : exists g0, In g0 (flat_map owned_ids ps)) by (clear -NN; destruct (flat_map owned_ids ps) as [|g0 gs]; [congruence|exists g0; left; reflexivity]). destruct X as (g0 & I0).
  assert (Cmin : (0 <= gmin (map owned_ids ps))%Z) by (destruct C as [C|C]; [rewrite C; unfold int_max; lia|auto]).
  pose proof (A' g0 I0) as Q. pose proof (PO g0 I0).
  assert (Cmax : (gmax (map owned_ids ps) <= int_max)%Z) by (destruct C' as [C'|C']; [unfold int_min in C'; lia|auto]).
  unfold cells_ok. fold N. split; [exact Cmin|]. split; [lia|].
  apply NoDup_Permutation_bis; [exact ND|rewrite map_length, seq_length; apply Nat.le_refl|].
  intros g I. apply in_map_iff. exists (Z.to_nat (g - gmin (map owned_ids ps))). pose proof (A g I). pose proof (A' g I). split; [lia|]. apply in_seq. lia.
Qed.
