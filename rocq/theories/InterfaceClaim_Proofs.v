(** What each rank sends, what it claims and what it gathers. *)
From Coq Require Import List Arith ZArith QArith Bool Lia Permutation Sorting.Sorted.
Import ListNotations.
From Verif Require Import Base Kernel Mesh_Model Mesh_Spec Mesh_Proofs MeshNb_Proofs Serial_Model MHC_Model CellRep_Model CellRep_Spec CellRep_Proofs Halo_Model Overlap_Model Overlap_Spec.
From Verif Require Import Overlap_Proofs OverlapMap_Proofs OverlapClaim_Proofs Interface_Model Interface_Spec.
From Verif Require MHC_Spec Halo_Spec Halo_Proofs Mesh_Props.
Open Scope Z_scope.

Lemma mapM_nth {A B} (f : A -> option B) l r : mapM f l = Some r <-> length r = length l /\ forall i x, nth_error l i = Some x -> exists y, nth_error r i = Some y /\ f x = Some y.
Proof.
  revert r. induction l as [|a l IH]; intros r; cbn [mapM].
  - split; [intros [= <-]; split; [reflexivity|intros [|i] x; discriminate]|]. intros (L & _). destruct r; [reflexivity|discriminate].
  - split.
    + intros E. destruct (f a) as [b|] eqn:Ea; [|discriminate]. cbn [obind] in E. destruct (mapM f l) as [r0|] eqn:El; [|discriminate]. cbn [obind] in E. injection E as <-. destruct (proj1 (IH r0) eq_refl) as (L & H). split; [cbn; lia|]. intros [|i] x X; cbn in X |- *; [injection X as <-; exists b; auto|apply H; exact X].
    + intros (L & H). destruct r as [|b r]; [discriminate|]. destruct (H 0%nat a eq_refl) as (y & Y & E). injection Y as <-. rewrite E. cbn [obind]. rewrite (proj2 (IH r)); [reflexivity|]. split; [cbn in L; lia|]. intros i x X. apply (H (S i) x X).
Qed.
Lemma nth_combine {A B} (a : list A) (b : list B) i : nth_error (List.combine a b) i = match nth_error a i, nth_error b i with Some x, Some y => Some (x, y) | _, _ => None end.
Proof.
  revert b i. induction a as [|x a IH]; intros b i; [destruct i; reflexivity|]. destruct b as [|y b]; destruct i as [|i]; cbn [List.combine nth_error]; try reflexivity; [destruct (nth_error a i); reflexivity|apply IH].
Qed.
Lemma nth_seq n i : nth_error (seq 0 n) i = if (i <? n)%nat then Some i else None.
Proof. destruct (Nat.ltb_spec i n) as [L|L]; [rewrite (nth_error_nth' _ 0%nat) by (rewrite seq_length; exact L); rewrite seq_nth by exact L; reflexivity|apply nth_error_None; rewrite seq_length; exact L]. Qed.
Lemma nth_ids {A} (l : list A) i x : nth_error l i = Some x -> nth_error (seq 0 (length l)) i = Some i.
Proof. intros E. rewrite nth_seq. destruct (Nat.ltb_spec i (length l)) as [|L]; [reflexivity|]. apply nth_error_None in L. congruence. Qed.
Lemma in_foldM_app {A B} (f : A -> option (list B)) l : forall acc r, foldM (fun acc c => x <- f c ;; Some (acc ++ x)) acc l = Some r -> forall y, In y r <-> In y acc \/ exists c x, In c l /\ f c = Some x /\ In y x.
Proof.
  induction l as [|a l IH]; intros acc r E y; cbn [foldM] in E; [injection E as <-; split; [auto|intros [H|(c & x & [] & _)]; exact H]|].
  destruct (f a) as [x|] eqn:Ea; [|discriminate]. cbn [obind] in E. rewrite (IH _ _ E y), in_app_iff. split.
  - intros [[H|H]|(c & z & I & F & J)]; [auto|right; exists a, x; cbn; auto|right; exists c, z; cbn; auto].
  - intros [H|(c & z & [<-|I] & F & J)]; [auto|rewrite Ea in F; injection F as <-; auto|right; exists c, z; auto].
Qed.
Lemma foldM_app_total {A B} (f : A -> option (list B)) l : (forall c, In c l -> exists x, f c = Some x) -> forall acc, exists r, foldM (fun acc c => x <- f c ;; Some (acc ++ x)) acc l = Some r.
Proof.
  induction l as [|a l IH]; intros H acc; [exists acc; reflexivity|]. cbn [foldM]. destruct (H a (or_introl eq_refl)) as (x & ->). cbn [obind]. apply IH. intros c I. apply H. right. exact I.
Qed.

Section Set_up.
  Context (ni : nat) (G : Halo_Spec.mesh) (m : mesh) (ranks : list rank_mesh).
  Context (W : width ni) (Hm : mesh_ok m) (H3 : (ndim m <= 3)%nat) (HG : Halo_Spec.mesh_ok (ndim m) G).
  Context (Hr : Forall (rank_ok ni G) ranks) (Hs : Z.of_nat (length ranks) < 2 ^ 31).
  Definition lc_of (rm : rank_mesh) : claims := found_claims m (rk_boxes rm).
  Lemma rank_in r rm : nth_error ranks r = Some rm -> rank_ok ni G rm.
  Proof. intros E. rewrite Forall_forall in Hr. apply Hr, (nth_error_In _ _ E). Qed.
  Lemma boxes_ok r rm : nth_error ranks r = Some rm -> Forall (fun b : box => length b = 6%nat) (rk_boxes rm).
  Proof. intros E. destruct (rank_in r rm E) as (d & num & a & b & _ & _ & _ & _ & F & _). exact F. Qed.
  Lemma lcs_ok : mapM (fun rm => claim_elements m (rk_boxes rm)) ranks = Some (map lc_of ranks).
  Proof. apply OverlapClaim_Proofs.mapM_map. intros rm I. apply claim_elements_ok; [exact Hm|exact H3|]. apply In_nth_error in I. destruct I as (r & E). apply (boxes_ok r rm E). Qed.
  Lemma made_all : mapM claims_made (map lc_of ranks) = Some (map (fun rm => made m (rk_boxes rm)) ranks).
  Proof. rewrite Kernel.mapM_map. apply OverlapClaim_Proofs.mapM_map. intros rm _. apply made_ok. exact H3. Qed.

  (** ** Claims *)
  Lemma claimed_cell r rm t : nth_error ranks r = Some rm -> cell_tuple m t -> In (cell_index m t) (claim_cells (lc_of rm)) <-> claims_cell m ranks r t.
  Proof.
    intros E C. pose proof (boxes_ok r rm E) as Hb. destruct (inv_all m H3 (events m (numbered (rk_boxes rm)))) as (_ & _ & I3 & I4 & I5). fold (found_claims m (rk_boxes rm)) in *. fold (lc_of rm) in *. rewrite I3. split.
    - intros (w & f & X). destruct (I4 _ _ _ X) as (P & (e & J & Ec & Ew) & _). destruct (all_event m Hm H3 (rk_boxes rm) Hb e J) as (n & b & t' & N & _ & C' & X' & M & We). rewrite Ec in X'. assert (t' = t) by (apply (index_inj m); auto). subst t'. rewrite Ew in We. exists rm, b, w. split; [exact E|]. split; [apply (nth_error_In _ _ N)|]. auto.
    - intros (rm' & b & w & E' & Ib & M & We & P). assert (rm' = rm) by congruence. subst rm'. apply In_nth_error in Ib. destruct Ib as (n & N). destruct (some_event m Hm H3 (rk_boxes rm) Hb n b t N C M) as (e & J & Ec & _ & We'). pose proof (weight_unique m Hm H3 _ _ _ We We') as Q. destruct (map_get (claim_weights (lc_of rm)) (cell_index m t)) as [(w', f)|] eqn:X; [exists w', f; reflexivity|]. pose proof (I5 _ X e J Ec). lia.
  Qed.
  Lemma claim_tuple r rm c : nth_error ranks r = Some rm -> In c (claim_cells (lc_of rm)) -> exists t, cell_tuple m t /\ cell_index m t = c.
  Proof. intros E I. apply (made_cells m Hm H3 (rk_boxes rm) (boxes_ok r rm E) c I). Qed.

  (** ** Owners *)
  Context (nodes : list (list nat)) (sched1 sched2 : nat -> list (nat * Z) -> list (nat * Z)) (maps0 : list (list Z)).
  Context (S1 : forall k l, Permutation (sched1 k l) l) (S2 : forall k l, Permutation (sched2 k l) l).
  Context (N0 : nodes <> []) (N1 : Forall (fun ranks => ranks <> []) nodes) (N2 : forall r, In r (concat nodes) <-> (r < length ranks)%nat).
  Context (M0 : length maps0 = length nodes) (M1 : Forall (fun mp => length mp = Z.to_nat (ncells m)) maps0).
  Definition made_by (r : nat) : list (nat * Z) := nth r (map (fun rm => made m (rk_boxes rm)) ranks) [].
  Lemma made_by_in r c w : In (c, w) (made_by r) -> exists rm, nth_error ranks r = Some rm /\ In (c, w) (made m (rk_boxes rm)).
  Proof.
    intros I. unfold made_by in I. destruct (nth_error ranks r) as [rm|] eqn:E.
    - exists rm. split; [reflexivity|]. rewrite (nth_error_nth (map (fun rm => made m (rk_boxes rm)) ranks) r [] (x := made m (rk_boxes rm))) in I; [exact I|]. rewrite nth_error_map, E. reflexivity.
    - rewrite nth_overflow in I; [destruct I|]. rewrite map_length. apply nth_error_None. exact E.
  Qed.
  Lemma made_by_of r rm : nth_error ranks r = Some rm -> made_by r = made m (rk_boxes rm).
  Proof. intros E. unfold made_by. apply nth_error_nth. rewrite nth_error_map, E. reflexivity. Qed.
  Lemma made_claims r rm t : nth_error ranks r = Some rm -> cell_tuple m t -> (exists w, In (Z.to_nat (cell_index m t), w) (made_by r)) <-> claims_cell m ranks r t.
  Proof.
    intros E C. rewrite <- (claimed_cell r rm t E C). rewrite (made_by_of r rm E). destruct (inv_all m H3 (events m (numbered (rk_boxes rm)))) as (_ & _ & I3 & _). fold (found_claims m (rk_boxes rm)) in *. unfold lc_of. pose proof (index_bounds m Hm t C) as B. split.
    - intros (w & I). apply (made_in m H3) in I. destruct I as (z & f & Ez & I). assert (Iz : In z (claim_cells (found_claims m (rk_boxes rm)))) by (apply I3; exists w, f; exact I). destruct (made_cells m Hm H3 (rk_boxes rm) (boxes_ok r rm E) z Iz) as (t' & C' & <-). pose proof (index_bounds m Hm t' C'). replace (cell_index m t) with (cell_index m t') by lia. exact Iz.
    - intros I. apply I3 in I. destruct I as (w & f & I). exists w. apply (made_in m H3). exists (cell_index m t), f. auto.
  Qed.
  Lemma owners_ok : exists owners maps, claim_epoch (Z.to_nat (ncells m)) nodes made_by sched1 sched2 maps0 = Some maps /\ rd maps 0 = Some owners /\ length owners = Z.to_nat (ncells m) /\
    (forall t r, cell_tuple m t -> owner owners m t r -> (r < length ranks)%nat /\ claims_cell m ranks r t) /\
    (forall t r, cell_tuple m t -> claims_cell m ranks r t -> exists o, (o < length ranks)%nat /\ owner owners m t o).
  Proof.
    destruct (Mesh_Props.C18_owners (Z.to_nat (ncells m)) nodes made_by sched1 sched2 maps0 S1 S2 N0 N1 M0 M1) as (mp & E & Lm & O).
    { intros r _ c w I. destruct (made_by_in r c w I) as (rm & Er & J). destruct (made_valid m Hm H3 (rk_boxes rm) (boxes_ok r rm Er) c w J) as (A & B). split; [lia|]. assert (1000000 < 2 ^ 31 - 1) by reflexivity. lia. }
    exists mp, (repeat mp (length nodes)). split; [exact E|]. split; [destruct nodes; [congruence|reflexivity]|]. split; [exact Lm|].
    assert (CT : forall t, cell_tuple m t -> (exists r, owner_of (concat nodes) made_by (Z.to_nat (cell_index m t)) r /\ owner mp m t r) \/ unclaimed (concat nodes) made_by (Z.to_nat (cell_index m t)) /\ get_owner mp (cell_index m t) = Some mask).
    { intros t C. pose proof (index_bounds m Hm t C) as B. specialize (O (Z.to_nat (cell_index m t)) ltac:(lia)). unfold owner. rewrite Z2Nat.id in O by lia. exact O. }
    split.
    - intros t r C Ow. destruct (CT t C) as [(r' & (w & (I1 & I2) & _) & Ow')|(_ & Ow')].
      + unfold owner in *. assert (r' = r) by (apply Nat2Z.inj; congruence). subst r'. apply N2 in I1. split; [exact I1|]. destruct (nth_error ranks r) as [rm|] eqn:Er; [|apply nth_error_None in Er; lia]. apply (made_claims r rm t Er C). exists w. exact I2.
      + unfold owner in Ow. assert (X : Z.of_nat r = mask) by congruence. unfold mask in X. assert (- 2 ^ 31 < 0) by reflexivity. lia.
    - intros t r C Cl. destruct (CT t C) as [(r' & (w & (I1 & I2) & _) & Ow')|(U & _)]; [exists r'; split; [apply N2, I1|exact Ow']|]. exfalso. pose proof Cl as (rm & b & w0 & Er & _). apply (made_claims r rm t Er C) in Cl. destruct Cl as (w & Cl). apply (U r w). split; [apply N2; apply nth_error_Some; congruence|exact Cl].
  Qed.

  (** ** Elements *)
  Lemma element_ok r rm n b : nth_error ranks r = Some rm -> nth_error (rk_boxes rm) n = Some b ->
    exists msg, copyable_cell ni (rk_helper rm) (Z.of_nat r) (rk_types rm) (Z.of_nat n) = Some msg /\ owning_rank msg = Z.of_nat r /\ local_id msg = Z.of_nat n /\ cell_ok ni msg /\ Halo_Spec.sent ni G msg /\
      exists p, get_dmplex_cell_index (rk_helper rm) (Z.of_nat n) = Some p /\ global_id msg = hnum (rk_helper rm) p.
  Proof.
    intros E Nb. destruct (rank_in r rm E) as (d & num & a & e & Hp & Ch & Eh & Ln & Fb & Lb & Sm & Ty).
    assert (Ln' : (n < length (np_to_petsc (rk_helper rm)))%nat) by (rewrite <- Ln; apply nth_error_Some; congruence).
    destruct (nth_error (np_to_petsc (rk_helper rm)) n) as [p|] eqn:Ep; [|apply nth_error_None in Ep; lia].
    assert (Ei : get_dmplex_cell_index (rk_helper rm) (Z.of_nat n) = Some p) by (unfold get_dmplex_cell_index, znth; destruct (Z.leb_spec 0 (Z.of_nat n)); [rewrite Nat2Z.id; exact Ep|lia]).
    destruct (Halo_Proofs.helper_cells d num a e) as (H0 & H1). destruct (filter (Halo_Proofs.own num) (range a e)) as [|x l] eqn:Ef; [rewrite H0 in Eh by reflexivity; discriminate|]. destruct H1 as (h' & Eh' & _ & Hn & En & _); [discriminate|]. assert (h' = rk_helper rm) by congruence. subst h'.
    assert (I : In p (filter (Halo_Proofs.own num) (range a e))) by (rewrite Ef, <- En; apply (nth_error_In _ _ Ep)). apply filter_In in I. destruct I as (I & Ow). apply Halo_Proofs.range_in in I. unfold Halo_Proofs.own in Ow. apply Z.ltb_lt in Ow.
    assert (Ea : abs_id (num p) = num p) by (unfold abs_id; destruct (Z.ltb_spec (-1) (num p)); [reflexivity|lia]).
    assert (Cp : in_chart d p = true) by (unfold in_chart; rewrite andb_true_iff, Z.leb_le, Z.ltb_lt; lia).
    destruct (Halo_Proofs.copyable_ok ni (ndim m) G d num a e (rk_helper rm) (Z.of_nat r) (rk_types rm) (Z.of_nat n) p W HG Hp Eh Ei Cp) as (msg & rp & Em & A1 & A2 & A3 & A4 & _). { rewrite Ea. apply (Sm (Z.of_nat n) p Ei). }
    exists msg. rewrite Ea in A4. split; [exact Em|]. split; [exact A2|]. split; [exact A1|]. split.
    - unfold cell_ok. rewrite A1, A2, A3, A4. split; [apply int_ok_nat; [exact W|]; lia|]. split; [destruct Hp as (_ & Hp); destruct (Hp p Cp) as (Io & _); rewrite Ea in Io; exact Io|]. split; [|apply Ty]. apply int_ok_nat; [left; reflexivity|]. assert ((r < length ranks)%nat) by (apply nth_error_Some; congruence). lia.
    - split; [exists d, num, a, e, (rk_helper rm), (Z.of_nat r), (rk_types rm), (Z.of_nat n); rewrite A4; repeat (split; [assumption|]); apply (Sm (Z.of_nat n) p Ei)|]. exists p. split; [exact Ei|]. rewrite Hn. exact A4.
  Qed.
  Lemma geom_is_map rm : is_map (geom_map (lc_of rm)).
  Proof.
    unfold lc_of, found_claims. assert (K : forall E lc, is_map (geom_map lc) -> is_map (geom_map (fold_left (step m) E lc))).
    { induction E as [|e E IH]; intros lc I; [exact I|]. cbn [fold_left]. apply IH. unfold step. cbv zeta. cbn [geom_map]. apply map_set_sorted. unfold claim. destruct (0 <? ev_weight m e); exact I. }
    apply K. constructor.
  Qed.
  Lemma geom_in r rm c l : nth_error ranks r = Some rm -> In (c, l) (geom_map (lc_of rm)) -> exists t, cell_tuple m t /\ cell_index m t = c /\ forall k, In k l <-> exists n b, k = Z.of_nat n /\ nth_error (rk_boxes rm) n = Some b /\ meets m b t.
  Proof.
    intros E I. apply (in_map_get _ _ _ (sorted_nodup _ (geom_is_map rm))) in I. destruct (geom_cells m Hm H3 (rk_boxes rm) (boxes_ok r rm E) c l I) as (t & C & <-). exists t. split; [exact C|]. split; [reflexivity|]. pose proof (geom_ok m Hm H3 (rk_boxes rm) (boxes_ok r rm E) t C) as X. unfold lc_of in I. rewrite I in X. apply X.
  Qed.
  Lemma in_geom r rm n b t : nth_error ranks r = Some rm -> nth_error (rk_boxes rm) n = Some b -> cell_tuple m t -> meets m b t -> exists l, In (cell_index m t, l) (geom_map (lc_of rm)) /\ In (Z.of_nat n) l.
  Proof.
    intros E Nb C M. pose proof (geom_ok m Hm H3 (rk_boxes rm) (boxes_ok r rm E) t C) as X. unfold lc_of. destruct (map_get (geom_map (found_claims m (rk_boxes rm))) (cell_index m t)) as [l|] eqn:Q; [|exfalso; apply (X b); [apply (nth_error_In _ _ Nb)|exact M]]. exists l. split; [apply map_get_in, Q|]. apply X. exists n, b. auto.
  Qed.
  Lemma element_cells_ok r rm : nth_error ranks r = Some rm -> exists d, element_cells ni r rm (lc_of rm) = Some d /\ map fst d = map fst (geom_map (lc_of rm)) /\
    forall c msgs, In (c, msgs) d -> exists t, cell_tuple m t /\ cell_index m t = c /\ forall msg, In msg msgs <-> exists n b, element ni ranks r n b msg /\ meets m b t.
  Proof.
    intros E. unfold element_cells.
    assert (T : forall item, In item (geom_map (lc_of rm)) -> exists y, (cs <- mapM (copyable_cell ni (rk_helper rm) (Z.of_nat r) (rk_types rm)) (snd item) ;; Some (fst item, cs)) = Some y).
    { intros (c, l) I. destruct (geom_in r rm c l E I) as (t & C & Ec & K). cbn [fst snd]. destruct (mapM_total (copyable_cell ni (rk_helper rm) (Z.of_nat r) (rk_types rm)) l) as (cs & ->); [|eexists; reflexivity]. intros k Ik. apply K in Ik. destruct Ik as (n & b & -> & Nb & _). destruct (element_ok r rm n b E Nb) as (msg & Em & _). exists msg. exact Em. }
    destruct (mapM_total _ _ T) as (d & Ed). exists d. split; [exact Ed|]. clear T. apply mapM_nth in Ed. destruct Ed as (Ld & Hd).
    assert (F : forall i item, nth_error (geom_map (lc_of rm)) i = Some item -> exists msgs, nth_error d i = Some (fst item, msgs) /\ mapM (copyable_cell ni (rk_helper rm) (Z.of_nat r) (rk_types rm)) (snd item) = Some msgs).
    { intros i item X. destruct (Hd i item X) as (y & Y & Q). destruct (mapM (copyable_cell ni (rk_helper rm) (Z.of_nat r) (rk_types rm)) (snd item)) as [msgs|]; [|discriminate]. cbn [obind] in Q. injection Q as <-. exists msgs. auto. }
    split.
    - clear Hd. revert d Ld F. induction (geom_map (lc_of rm)) as [|it l IH]; intros d Ld F; [destruct d; [reflexivity|discriminate]|]. destruct d as [|y d]; [discriminate|]. destruct (F 0%nat it eq_refl) as (msgs & Y & _). cbn in Y. injection Y as ->. cbn [map fst]. f_equal. apply IH; [cbn in Ld; lia|]. intros i item X. apply (F (S i) item X).
    - intros c msgs I. apply In_nth_error in I. destruct I as (i & I). assert (Li : (i < length (geom_map (lc_of rm)))%nat) by (rewrite <- Ld; apply nth_error_Some; congruence). destruct (nth_error (geom_map (lc_of rm)) i) as [(c', l)|] eqn:X; [|apply nth_error_None in X; lia]. destruct (F i (c', l) X) as (msgs' & Y & Q). cbn [fst snd] in Y, Q. assert (c' = c /\ msgs' = msgs) as (-> & ->) by (split; congruence).
      destruct (geom_in r rm c l E (nth_error_In _ _ X)) as (t & C & Ec & K). exists t. split; [exact C|]. split; [exact Ec|]. intros msg. apply mapM_nth in Q. destruct Q as (Lq & Q). split.
      + intros J. apply In_nth_error in J. destruct J as (j & J). assert (Lj : (j < length l)%nat) by (rewrite <- Lq; apply nth_error_Some; congruence). destruct (nth_error l j) as [k|] eqn:Xk; [|apply nth_error_None in Xk; lia]. destruct (Q j k Xk) as (y & Y1 & Y2). assert (y = msg) by congruence. subst y. destruct (proj1 (K k) (nth_error_In _ _ Xk)) as (n & b & -> & Nb & M). exists n, b. split; [exists rm; auto|exact M].
      + intros (n & b & (rm' & E' & Nb & Em) & M). assert (rm' = rm) by congruence. subst rm'. assert (Ik : In (Z.of_nat n) l) by (apply K; exists n, b; auto). apply In_nth_error in Ik. destruct Ik as (j & Ik). destruct (Q j _ Ik) as (y & Y1 & Y2). assert (y = msg) by congruence. subst y. apply (nth_error_In _ _ Y1).
  Qed.

  (** ** The cells to gather *)
  Lemma split_ok (owners : list Z) rank cells : (forall c, In c cells -> exists o, get_owner owners c = Some o) -> exists own unown, get_unowned_cells owners rank cells = Some (own, unown) /\
    (forall c, In c own <-> In c cells /\ get_owner owners c = Some rank) /\ (forall c, In c unown <-> In c cells /\ exists o, get_owner owners c = Some o /\ o <> rank).
  Proof.
    unfold get_unowned_cells. intros H. enough (K : forall l a b, (forall c, In c l -> exists o, get_owner owners c = Some o) -> exists own unown,
      foldM (fun acc c => o <- get_owner owners c ;; Some (if o =? rank then (c :: fst acc, snd acc) else (fst acc, c :: snd acc))) (a, b) l = Some (own, unown) /\
      (forall c, In c own <-> In c a \/ In c l /\ get_owner owners c = Some rank) /\ (forall c, In c unown <-> In c b \/ In c l /\ exists o, get_owner owners c = Some o /\ o <> rank)).
    { destruct (K cells [] [] H) as (own & unown & E & A & B). exists own, unown. split; [exact E|]. split; intros c; [rewrite A|rewrite B]; cbn; tauto. }
    induction l as [|x l IH]; intros a b Hl; [exists a, b; split; [reflexivity|]; split; intros c; cbn; tauto|]. cbn [foldM]. destruct (Hl x (or_introl eq_refl)) as (o & Eo). rewrite Eo. cbn [obind fst snd].
    assert (Hl' : forall c, In c l -> exists o, get_owner owners c = Some o) by (intros c I; apply Hl; right; exact I). destruct (Z.eqb_spec o rank) as [->|D].
    - destruct (IH (x :: a) b Hl') as (own & unown & E & A & B). exists own, unown. split; [exact E|]. split; intros c; [rewrite A|rewrite B]; cbn [In]; split.
      + intros [[<-|I]|(I & J)]; auto.
      + intros [I|([<-|I] & J)]; auto.
      + intros [I|(I & J)]; auto.
      + intros [I|([<-|I] & (o & J & N))]; [auto|congruence|right; split; [exact I|exists o; auto]].
    - destruct (IH a (x :: b) Hl') as (own & unown & E & A & B). exists own, unown. split; [exact E|]. split; intros c; [rewrite A|rewrite B]; cbn [In]; split.
      + intros [I|(I & J)]; auto.
      + intros [I|([<-|I] & J)]; [auto|congruence|auto].
      + intros [[<-|I]|(I & J)]; [right; split; [left; reflexivity|exists o; auto]|auto|auto].
      + intros [I|([<-|I] & J)]; auto.
  Qed.
  Lemma extent_one i : (i < ndim m)%nat -> 1 <= extent_cells m i.
  Proof.
    intros L. unfold extent_cells. destruct Hm as ((_ & Ld) & _ & F & _). rewrite Forall_forall in F. assert (0 < nth i (dims m) 0) by (apply F; unfold coarse_widths; rewrite <- (firstn_skipn (ndim m) (dims m)) at 1; rewrite app_nth1 by (rewrite firstn_length; lia); apply nth_In; rewrite firstn_length; lia). assert (0 < 2 ^ Z.of_nat (order m)) by (apply Z.pow_pos_nonneg; lia). nia.
  Qed.
  Lemma gather_cells owners r rm : length owners = Z.to_nat (ncells m) -> nth_error ranks r = Some rm -> exists out, cells_to_gather m owners r (lc_of rm) = Some out /\ ascending out /\
    (forall c, In c out -> exists t, cell_tuple m t /\ cell_index m t = c) /\ forall t, cell_tuple m t -> In (cell_index m t) out <-> reached m ranks owners r t.
  Proof.
    intros Lo E. unfold cells_to_gather.
    assert (GO : forall t, cell_tuple m t -> exists o, get_owner owners (cell_index m t) = Some o). { intros t C. pose proof (index_bounds m Hm t C) as B. unfold get_owner. destruct (Z.ltb_spec (cell_index m t) 0); [lia|]. unfold rd. destruct (nth_error owners (Z.to_nat (cell_index m t))) as [o|] eqn:X; [exists o; reflexivity|]. apply nth_error_None in X. lia. }
    destruct (split_ok owners (Z.of_nat r) (claim_cells (lc_of rm))) as (own & unown & Es & A & B). { intros c I. destruct (claim_tuple r rm c E I) as (t & C & <-). apply GO, C. }
    rewrite Es. cbn [obind fst snd].
    destruct (Mesh_Props.C19_neighbours_of_cells m own unown 1 false Hm H3) as (out & Eo & IN & As).
    { apply Forall_forall. intros c I. apply A in I. destruct I as (I & _). destruct (claim_tuple r rm c E I) as (t & C & <-). apply (index_bounds m Hm t C). } { lia. } { intros i L. apply extent_one, L. }
    exists out. split; [exact Eo|]. split; [exact As|]. split.
    - intros c I. apply IN in I. destruct I as [I|[I|(c' & I & t1 & t2 & C1 & C2 & E1 & E2 & _)]]; [apply A in I; apply (claim_tuple r rm c E (proj1 I))|apply B in I; apply (claim_tuple r rm c E (proj1 I))|exists t2; auto].
    - intros t C. rewrite IN. unfold reached. split.
      + intros I. split; [exact C|]. destruct I as [I|[I|(c' & I & t1 & t2 & C1 & C2 & E1 & E2 & Cl)]].
        * left. apply A in I. apply (claimed_cell r rm t E C). apply I.
        * left. apply B in I. apply (claimed_cell r rm t E C). apply I.
        * right. assert (t2 = t) by (apply (index_inj m); auto). subst t2 c'. apply A in I. destruct I as (I & O). exists t1. split; [exact C1|]. split; [apply (claimed_cell r rm t1 E C1), I|]. split; [exact O|exact Cl].
      + intros (_ & [Cl|(t' & C' & Cl & Ow & Cs)]).
        * apply (claimed_cell r rm t E C) in Cl. destruct (GO t C) as (o & O). destruct (Z.eq_dec o (Z.of_nat r)) as [->|N]; [left; apply A; auto|right; left; apply B; split; [exact Cl|exists o; auto]].
        * right. right. exists (cell_index m t'). split; [apply A; split; [apply (claimed_cell r rm t' E C'), Cl|exact Ow]|]. exists t', t. auto 10.
  Qed.
End Set_up.
