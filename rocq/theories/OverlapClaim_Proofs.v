(** The claims of a rank. *)
From Coq Require Import List Arith ZArith QArith Qminmax Qround Bool Lia Lqa.
Import ListNotations.
From Verif Require Import Base Kernel Mesh_Model Mesh_Spec Mesh_Proofs MeshNb_Proofs MeshPos_Proofs CellRep_Model CellRep_Proofs Overlap_Model Overlap_Spec Overlap_Proofs OverlapMap_Proofs Halo_Proofs.
Open Scope Z_scope.

Section Claims.
  Context (m : mesh) (Hm : mesh_ok m) (H3 : (ndim m <= 3)%nat).
  Definition inv_volume : Q := (1 / Qpower (cell_width_fine m) (Z.of_nat (ndim m)))%Q.
  (** An event: an element and a cell with the volume of the overlap. *)
  Definition event : Type := Z * (Z * Q).
  Definition ev_cell (e : event) : Z := fst (snd e).
  Definition ev_weight (e : event) : Z := Qtrunc (1000000 * (snd (snd e) * inv_volume))%Q.
  Definition step (lc : claims) (e : event) : claims :=
    let lc := claim lc (ev_cell e) (ev_weight e) (snd (snd e) * inv_volume)%Q in
    mk_claims (claim_weights lc) (claim_cells lc)
      (map_set (geom_map lc) (ev_cell e) (match map_get (geom_map lc) (ev_cell e) with Some l => l | None => [] end ++ [fst e])).
  Definition events_of (el : Z * box) : list event := map (fun e => (fst el, e)) (flat_map (item_of m (snd el)) (triples m (snd el))).
  Definition events (els : list (Z * box)) : list event := flat_map events_of els.
  Lemma fold_left_map {A B S} (f : S -> B -> S) (g : A -> B) l : forall s, fold_left f (map g l) s = fold_left (fun s x => f s (g x)) l s.
  Proof. induction l as [|x l IH]; intros s; [reflexivity|]. cbn [map fold_left]. apply IH. Qed.
  Lemma elements_fold els : Forall (fun el : Z * box => length (snd el) = 6%nat) els -> forall lc, foldM (bounding_box_claim m) lc els = Some (fold_left step (events els) lc).
  Proof.
    induction 1 as [|el els L F IH]; intros lc; [reflexivity|]. cbn [foldM].
    assert (E : bounding_box_claim m lc el = Some (fold_left step (events_of el) lc)) by (unfold bounding_box_claim; rewrite (map_ok m (snd el) Hm H3 L); cbn [obind]; unfold events_of; rewrite fold_left_map; reflexivity).
    rewrite E. unfold events. cbn [flat_map]. rewrite fold_left_app. fold (events els). apply IH.
  Qed.

  Definition best (E : list event) (c w : Z) : Prop :=
    0 < w /\ (exists e, In e E /\ ev_cell e = c /\ ev_weight e = w) /\ forall e, In e E -> ev_cell e = c -> ev_weight e <= w.
  Definition ids (E : list event) (c : Z) : list Z := map fst (filter (fun e => ev_cell e =? c) E).
  Definition claims_inv (E : list event) (lc : claims) : Prop :=
    (forall c, map_get (geom_map lc) c = match ids E c with [] => None | l => Some l end) /\
    ascending (claim_cells lc) /\
    (forall c, In c (claim_cells lc) <-> exists w f, map_get (claim_weights lc) c = Some (w, f)) /\
    (forall c w f, map_get (claim_weights lc) c = Some (w, f) -> best E c w) /\
    (forall c, map_get (claim_weights lc) c = None -> forall e, In e E -> ev_cell e = c -> ev_weight e <= 0).
  Lemma filter_snoc {A} (f : A -> bool) l x : filter f (l ++ [x]) = filter f l ++ if f x then [x] else [].
  Proof. rewrite filter_app. cbn [filter]. destruct (f x); reflexivity. Qed.
  Lemma ids_snoc E e c : ids (E ++ [e]) c = ids E c ++ if ev_cell e =? c then [fst e] else [].
  Proof. unfold ids. rewrite filter_snoc, map_app. destruct (ev_cell e =? c); reflexivity. Qed.
  Lemma step_inv E lc e : claims_inv E lc -> claims_inv (E ++ [e]) (step lc e).
  Proof.
    intros (I1 & I2 & I3 & I4 & I5). set (c0 := ev_cell e) in *. set (w0 := ev_weight e) in *.
    assert (G : forall lc', geom_map lc' = geom_map lc -> forall c, map_get (map_set (geom_map lc') c0 (match map_get (geom_map lc') c0 with Some l => l | None => [] end ++ [fst e])) c = match ids (E ++ [e]) c with [] => None | l => Some l end).
    { intros lc' El c. rewrite El, map_get_set. rewrite ids_snoc. fold c0. destruct (Z.eqb_spec c c0) as [->|N].
      - rewrite Z.eqb_refl. rewrite I1. destruct (ids E c0); reflexivity.
      - destruct (Z.eqb_spec c0 c); [congruence|]. rewrite app_nil_r. apply I1. }
    unfold step. fold c0. fold w0. cbv zeta. unfold claim. unfold claims_inv. destruct (Z.ltb_spec 0 w0) as [P|P]; cbn [geom_map claim_weights claim_cells].
    - split; [intros c; apply (G lc eq_refl)|]. split; [apply set_add_ascending, I2|].
      set (cur := match map_get (claim_weights lc) c0 with Some w => w | None => (0, 0%Q) end). split; [|split].
      + intros c. rewrite in_set_add, map_get_set. destruct (Z.eqb_spec c c0) as [->|N]; [|rewrite I3; split; [intros [X|X]; [contradiction|exact X]|auto]]. split; [|auto]. intros _. destruct (if fst cur <? w0 then (w0, (snd (snd e) * inv_volume)%Q) else cur) as (w, f). exists w, f. reflexivity.
      + intros c w f. rewrite map_get_set. destruct (Z.eqb_spec c c0) as [->|N].
        * intros Eq. injection Eq as Eq. unfold cur in Eq. destruct (map_get (claim_weights lc) c0) as [(w1, f1)|] eqn:E1; cbn [fst] in Eq.
          -- destruct (I4 _ _ _ E1) as (B0 & (e1 & J1 & J2 & J3) & B2). destruct (Z.ltb_spec w1 w0) as [L|L]; injection Eq as <- <-.
             ++ split; [lia|]. split; [exists e; split; [apply in_or_app; right; left; reflexivity|split; reflexivity]|]. intros e' I Ec. apply in_app_or in I. destruct I as [I|[<-|[]]]; [specialize (B2 e' I Ec); lia|unfold w0; lia].
             ++ split; [lia|]. split; [exists e1; split; [apply in_or_app; left; exact J1|auto]|]. intros e' I Ec. apply in_app_or in I. destruct I as [I|[<-|[]]]; [apply B2; auto|exact L].
          -- destruct (Z.ltb_spec 0 w0) as [_|]; [|lia]. injection Eq as <- <-. split; [lia|]. split; [exists e; split; [apply in_or_app; right; left; reflexivity|split; reflexivity]|].
             intros e' I Ec. apply in_app_or in I. destruct I as [I|[<-|[]]]; [pose proof (I5 _ E1 e' I Ec); lia|unfold w0; lia].
        * intros Eq. destruct (I4 _ _ _ Eq) as (B0 & (e1 & J1 & J2 & J3) & B2). split; [exact B0|]. split; [exists e1; split; [apply in_or_app; left; exact J1|auto]|]. intros e' I Ec. apply in_app_or in I. destruct I as [I|[<-|[]]]; [apply B2; auto|]. exfalso. apply N. symmetry. exact Ec.
      + intros c. rewrite map_get_set. destruct (Z.eqb_spec c c0) as [->|N]; [discriminate|]. intros Eq e' I Ec. apply in_app_or in I. destruct I as [I|[<-|[]]]; [apply (I5 c Eq e' I Ec)|]. exfalso. apply N. symmetry. exact Ec.
    - split; [intros c; apply (G lc eq_refl)|]. split; [exact I2|]. split; [exact I3|]. split.
      + intros c w f Eq. destruct (I4 _ _ _ Eq) as (B0 & (e1 & J1 & J2 & J3) & B2). split; [exact B0|]. split; [exists e1; split; [apply in_or_app; left; exact J1|auto]|]. intros e' I Ec. apply in_app_or in I. destruct I as [I|[<-|[]]]; [apply B2; auto|]. fold w0. lia.
      + intros c Eq e' I Ec. apply in_app_or in I. destruct I as [I|[<-|[]]]; [apply (I5 c Eq e' I Ec)|exact P].
  Qed.
  Lemma inv_all E : claims_inv E (fold_left step E no_claims).
  Proof.
    apply (fold_left_inv step claims_inv).
    - split; [reflexivity|]. split; [exact I|]. split; [intros c; split; [intros []|intros (w & f & X); discriminate]|]. split; [intros c w f X; discriminate|intros c _ e []].
    - intros pre x post s _ H. apply step_inv, H.
  Qed.

  (** ** Weights *)
  Lemma cell_volume_power : (cell_volume m == Qpower (cell_width_fine m) (Z.of_nat (ndim m)))%Q /\ (0 < cell_volume m)%Q.
  Proof.
    destruct (w_ok m Hm) as (W & _). unfold cell_volume. change (fine_width m) with (cell_width_fine m). pose proof (nd_pos m (repeat 0%Q 6) Hm H3 eq_refl) as P. set (w := cell_width_fine m) in *. clearbody w. destruct (ndim m) as [|[|[|[|n]]]]; try lia; cbn [seq map qprod fold_right].
    - split; [change (Qpower w (Z.of_nat 1)) with w; ring|lra].
    - split; [change (Qpower w (Z.of_nat 2)) with (w * w)%Q; ring|]. assert (0 < w * w)%Q by (apply Qmult_lt_0_compat; lra). lra.
    - split; [change (Qpower w (Z.of_nat 3)) with (w * (w * w))%Q; ring|]. assert (0 < w * w)%Q by (apply Qmult_lt_0_compat; lra). assert (0 < w * (w * w))%Q by (apply Qmult_lt_0_compat; lra). lra.
  Qed.
  Lemma weight_trunc v : (0 <= v)%Q -> let x := Qtrunc (1000000 * (v * inv_volume))%Q in (inject_Z x * cell_volume m <= 1000000 * v /\ 1000000 * v < inject_Z (x + 1) * cell_volume m)%Q.
  Proof.
    intros V x. destruct cell_volume_power as (E & P). assert (Ei : (inv_volume * cell_volume m == 1)%Q). { unfold inv_volume. rewrite <- E. field. lra. }
    pose proof (trunc_div (1000000 * v) (cell_volume m) inv_volume P Ei ltac:(lra)) as (_ & T1 & T2).
    assert (Ex : Qtrunc (1000000 * v * inv_volume) = x). { unfold x. assert (Pi : (0 < inv_volume)%Q) by (apply (iw_pos (cell_volume m)); auto). assert (0 <= v * inv_volume)%Q by (apply Qmult_le_0_compat; lra). rewrite !Qtrunc_floor; [|lra|apply Qmult_le_0_compat; lra]. apply Qfloor_comp. ring. }
    rewrite Ex in T1, T2. split; assumption.
  Qed.
  Lemma weight_unique v w1 w2 : (inject_Z w1 * cell_volume m <= v /\ v < inject_Z (w1 + 1) * cell_volume m)%Q -> (inject_Z w2 * cell_volume m <= v /\ v < inject_Z (w2 + 1) * cell_volume m)%Q -> w1 = w2.
  Proof.
    intros (A1 & A2) (B1 & B2). destruct cell_volume_power as (_ & P). assert (K : forall a b, (inject_Z a * cell_volume m < inject_Z b * cell_volume m)%Q -> a < b) by (intros a b X; destruct (Z_lt_le_dec a b) as [|Y]; [assumption|]; pose proof (mono _ P _ _ Y); lra).
    assert (w1 < w2 + 1) by (apply K; lra). assert (w2 < w1 + 1) by (apply K; lra). lia.
  Qed.
  Lemma volume_pos b t : meets m b t -> (0 < volume m b t)%Q /\ (volume m b t <= cell_volume m)%Q.
  Proof.
    intros M. assert (A : forall i, (i < ndim m)%nat -> (0 < common m b t i)%Q /\ (common m b t i <= fine_width m)%Q).
    { intros i L. destruct M as (x & X). destruct (X i L) as (X1 & X2 & X3 & X4). assert (Ew : (cell_hi m t i == cell_lo m t i + fine_width m)%Q) by (unfold cell_hi, cell_lo; rewrite inj1; ring). unfold common. destruct (Q.min_spec (cell_hi m t i) (box_hi m b i)) as [(M1 & M2)|(M1 & M2)]; destruct (Q.max_spec (cell_lo m t i) (box_lo m b i)) as [(M3 & M4)|(M3 & M4)]; lra. }
    unfold volume, cell_volume. assert (G : forall l, (forall i, In i l -> (i < ndim m)%nat) -> (0 < qprod (map (common m b t) l))%Q /\ (qprod (map (common m b t) l) <= qprod (map (fun _ => fine_width m) l))%Q).
    { induction l as [|i l IH]; intros Hl; [cbn; split; [reflexivity|apply Qle_refl]|]. destruct IH as (P1 & P2); [intros; apply Hl; right; assumption|]. destruct (A i (Hl i (or_introl eq_refl))) as (A1 & A2). cbn [map qprod fold_right]. fold (qprod (map (common m b t) l)) (qprod (map (fun _ : nat => fine_width m) l)). set (a := qprod (map (common m b t) l)) in *. set (d := qprod (map (fun _ : nat => fine_width m) l)) in *. set (cc := common m b t i) in *. set (fw := fine_width m) in *. clearbody a d cc fw. split; [apply Qmult_lt_0_compat; assumption|]. nra. }
    apply G. intros i I. apply in_seq in I. lia.
  Qed.
  Lemma event_weight (el : Z * box) e : length (snd el) = 6%nat -> In e (events_of el) -> exists t, cell_tuple m t /\ cell_index m t = ev_cell e /\ meets m (snd el) t /\ weight_of m (snd el) t (ev_weight e) /\ fst e = fst el.
  Proof.
    intros L I. unfold events_of in I. apply in_map_iff in I. destruct I as ((c, v) & <- & I). unfold ev_cell, ev_weight. cbn [fst snd]. assert (Ic : In c (map fst (flat_map (item_of m (snd el)) (triples m (snd el))))) by (apply in_map_iff; exists (c, v); auto).
    apply (items_cells m (snd el) Hm H3 L) in Ic. destruct Ic as (t & C & <- & _). destruct (items_volume m (snd el) Hm H3 L t v C I) as (M & V). exists t. split; [exact C|]. split; [reflexivity|]. split; [exact M|]. split; [|reflexivity].
    destruct (volume_pos _ _ M) as (P & _). pose proof (weight_trunc v ltac:(lra)) as (T1 & T2). unfold weight_of. split; [rewrite <- V; exact T1|rewrite <- V; exact T2].
  Qed.
  Lemma event_exists (el : Z * box) t : length (snd el) = 6%nat -> cell_tuple m t -> meets m (snd el) t -> exists e, In e (events_of el) /\ ev_cell e = cell_index m t /\ fst e = fst el.
  Proof.
    intros L C M. assert (Ic : In (cell_index m t) (map fst (flat_map (item_of m (snd el)) (triples m (snd el))))) by (apply (items_cells m (snd el) Hm H3 L); exists t; auto). apply in_map_iff in Ic. destruct Ic as ((c, v) & E & I). cbn [fst] in E. subst c.
    exists (fst el, (cell_index m t, v)). split; [apply in_map_iff; exists (cell_index m t, v); auto|]. split; reflexivity.
  Qed.
  Lemma filter_none {A} (f : A -> bool) l : (forall x, In x l -> f x = false) -> filter f l = [].
  Proof. induction l as [|x l IH]; intros H; [reflexivity|]. cbn [filter]. rewrite H by (left; reflexivity). apply IH. intros; apply H; right; assumption. Qed.
  Lemma events_nodup (el : Z * box) c : length (snd el) = 6%nat -> ids (events_of el) c = [] \/ ids (events_of el) c = [fst el].
  Proof.
    intros L. unfold ids, events_of. pose proof (items_nodup m (snd el) Hm H3 L) as N. induction (flat_map (item_of m (snd el)) (triples m (snd el))) as [|(c', v) l IH]; [left; reflexivity|]. cbn [map fst] in N. inversion N as [|? ? N1 N2]; subst. cbn [map filter]. change (ev_cell (fst el, (c', v))) with c'. destruct (Z.eqb_spec c' c) as [->|X]; [|exact (IH N2)].
    right. assert (Z0 : filter (fun e => ev_cell e =? c) (map (fun e => (fst el, e)) l) = []). { apply filter_none. intros e I. apply in_map_iff in I. destruct I as ((c1, v1) & <- & I). unfold ev_cell. cbn [fst snd]. apply Z.eqb_neq. intros ->. apply N1. apply in_map_iff. exists (c, v1). auto. }
    rewrite Z0. reflexivity.
  Qed.

  (** ** All elements *)
  Lemma ids_app a c k : ids (a ++ c) k = ids a k ++ ids c k.
  Proof. unfold ids. rewrite filter_app, map_app. reflexivity. Qed.
  Lemma in_ids E k c : In k (ids E c) <-> exists e, In e E /\ ev_cell e = c /\ fst e = k.
  Proof.
    unfold ids. rewrite in_map_iff. split.
    - intros (e & X & I). apply filter_In in I. destruct I as (I & Y). apply Z.eqb_eq in Y. exists e. auto.
    - intros (e & I & X & Y). exists e. split; [exact Y|]. apply filter_In. split; [exact I|apply Z.eqb_eq; exact X].
  Qed.
  Lemma ids_ascending els c : Forall (fun el : Z * box => length (snd el) = 6%nat) els -> ascending (map fst els) -> ascending (ids (events els) c).
  Proof.
    induction 1 as [|el els L F IH]; intros A; [exact I|]. unfold events. cbn [flat_map]. fold (events els). rewrite ids_app. cbn [map ascending] in A. destruct A as (A1 & A2). specialize (IH A2). destruct (events_nodup el c L) as [E|E]; rewrite E; [exact IH|]. cbn [app ascending]. split; [|exact IH].
    intros k I. apply in_ids in I. destruct I as (e & I & _ & <-). unfold events in I. apply in_flat_map in I. destruct I as (el' & I1 & I2). apply A1. unfold events_of in I2. apply in_map_iff in I2. destruct I2 as (p & <- & _). cbn [fst]. apply in_map. exact I1.
  Qed.
  Definition numbered (boxes : list box) : list (Z * box) := combine (map Z.of_nat (seq 0 (length boxes))) boxes.
  Lemma combine_in {A} (boxes : list A) : forall s k b, In (k, b) (combine (map Z.of_nat (seq s (length boxes))) boxes) <-> exists n, k = Z.of_nat (s + n) /\ nth_error boxes n = Some b.
  Proof.
    induction boxes as [|x l IH]; intros s k b; cbn [length seq map combine In].
    - split; [intros []|]. intros (n & _ & X). destruct n; discriminate.
    - rewrite IH. split.
      + intros [X|(n & -> & X)]; [injection X as <- <-; exists 0%nat; split; [f_equal; lia|reflexivity]|exists (S n); split; [f_equal; lia|exact X]].
      + intros ([|n] & -> & X); [left; cbn in X; injection X as <-; f_equal; f_equal; lia|right; exists n; split; [f_equal; lia|exact X]].
  Qed.
  Lemma numbered_in boxes k b : In (k, b) (numbered boxes) <-> exists n, k = Z.of_nat n /\ nth_error boxes n = Some b.
  Proof. unfold numbered. rewrite (combine_in boxes 0). reflexivity. Qed.
  Lemma numbered_ascending boxes : ascending (map fst (numbered boxes)).
  Proof.
    unfold numbered. assert (G : forall s, ascending (map fst (combine (map Z.of_nat (seq s (length boxes))) boxes))).
    { induction boxes as [|x l IH]; intros s; [exact I|]. cbn [length seq map combine ascending fst]. split; [|apply IH]. intros k I. apply in_map_iff in I. destruct I as ((k', b) & <- & I). apply combine_in in I. destruct I as (n & -> & _). cbn [fst]. lia. }
    apply G.
  Qed.
  Lemma numbered_length boxes : Forall (fun b : box => length b = 6%nat) boxes -> Forall (fun el : Z * box => length (snd el) = 6%nat) (numbered boxes).
  Proof. rewrite !Forall_forall. intros H (k, b) I. apply numbered_in in I. destruct I as (n & _ & I). apply H. apply (nth_error_In _ _ I). Qed.
  Lemma mapM_map {A B} (f : A -> option B) (g : A -> B) l : (forall x, In x l -> f x = Some (g x)) -> mapM f l = Some (map g l).
  Proof. induction l as [|x l IH]; intros H; [reflexivity|]. cbn [mapM map]. rewrite H by (left; reflexivity). cbn [obind]. rewrite IH by (intros; apply H; right; assumption). reflexivity. Qed.
  Lemma index_bounds t : cell_tuple m t -> 0 <= cell_index m t < ncells m.
  Proof. intros C. destruct (to_linear_correct m t Hm C) as (_ & B & _). exact B. Qed.

  Context (boxes : list box) (Hb : Forall (fun b : box => length b = 6%nat) boxes).
  Definition found_claims : claims := fold_left step (events (numbered boxes)) no_claims.
  Lemma claim_elements_ok : claim_elements m boxes = Some found_claims.
  Proof. apply elements_fold, numbered_length, Hb. Qed.
  Lemma all_event e : In e (events (numbered boxes)) -> exists n b t, nth_error boxes n = Some b /\ fst e = Z.of_nat n /\ cell_tuple m t /\ cell_index m t = ev_cell e /\ meets m b t /\ weight_of m b t (ev_weight e).
  Proof.
    intros I. unfold events in I. apply in_flat_map in I. destruct I as ((k, b) & I1 & I2). pose proof (numbered_length boxes Hb) as N. rewrite Forall_forall in N. destruct (event_weight (k, b) e (N _ I1) I2) as (t & T1 & T2 & T3 & T4 & T5). apply numbered_in in I1. destruct I1 as (n & -> & I1). cbn [fst snd] in *. exists n, b, t. auto 10.
  Qed.
  Lemma some_event n b t : nth_error boxes n = Some b -> cell_tuple m t -> meets m b t -> exists e, In e (events (numbered boxes)) /\ ev_cell e = cell_index m t /\ fst e = Z.of_nat n /\ weight_of m b t (ev_weight e).
  Proof.
    intros I C M. assert (I1 : In (Z.of_nat n, b) (numbered boxes)) by (apply numbered_in; exists n; auto). pose proof (numbered_length boxes Hb) as N. rewrite Forall_forall in N. specialize (N _ I1). cbn [snd] in N. destruct (event_exists (Z.of_nat n, b) t N C M) as (e & E1 & E2 & E3). exists e. split; [unfold events; apply in_flat_map; exists (Z.of_nat n, b); auto|]. split; [exact E2|]. split; [exact E3|].
    destruct (event_weight (Z.of_nat n, b) e N E1) as (t' & T1 & T2 & T3 & T4 & T5). rewrite E2 in T2. assert (t' = t) by (apply (index_inj m); auto). subst t'. exact T4.
  Qed.
  Lemma geom_ok t : cell_tuple m t ->
    match map_get (geom_map found_claims) (cell_index m t) with
    | None => forall b, In b boxes -> ~ meets m b t
    | Some l => l <> [] /\ ascending l /\ forall k, In k l <-> exists n b, k = Z.of_nat n /\ nth_error boxes n = Some b /\ meets m b t
    end.
  Proof.
    intros C. destruct (inv_all (events (numbered boxes))) as (I1 & _). unfold found_claims. rewrite I1.
    assert (A : forall k, In k (ids (events (numbered boxes)) (cell_index m t)) <-> exists n b, k = Z.of_nat n /\ nth_error boxes n = Some b /\ meets m b t).
    { intros k. rewrite in_ids. split.
      - intros (e & I & E & <-). destruct (all_event e I) as (n & b & t' & N & F & T1 & T2 & T3 & _). rewrite E in T2. assert (t' = t) by (apply (index_inj m); auto). subst t'. exists n, b. auto.
      - intros (n & b & -> & N & M). destruct (some_event n b t N C M) as (e & X1 & X2 & X3 & _). exists e. auto. }
    pose proof (ids_ascending (numbered boxes) (cell_index m t) (numbered_length boxes Hb) (numbered_ascending boxes)) as As.
    destruct (ids (events (numbered boxes)) (cell_index m t)) as [|k l]; [|split; [discriminate|split; assumption]].
    intros b I M. apply In_nth_error in I. destruct I as (n & I). apply (proj2 (A (Z.of_nat n))). exists n, b. auto.
  Qed.
  Lemma geom_cells c l : map_get (geom_map found_claims) c = Some l -> exists t, cell_tuple m t /\ cell_index m t = c.
  Proof.
    destruct (inv_all (events (numbered boxes))) as (I1 & _). unfold found_claims. rewrite I1. destruct (ids (events (numbered boxes)) c) as [|k l'] eqn:E; [discriminate|]. intros _.
    assert (I : In k (ids (events (numbered boxes)) c)) by (rewrite E; left; reflexivity). apply in_ids in I. destruct I as (e & I & <- & _). destruct (all_event e I) as (n & b & t & _ & _ & C & X & _). exists t. auto.
  Qed.
  (** The claims passed on. *)
  Definition made : list (nat * Z) := map (fun c => (Z.to_nat c, match map_get (claim_weights found_claims) c with Some w => fst w | None => 0 end)) (claim_cells found_claims).
  Lemma made_ok : claims_made found_claims = Some made.
  Proof.
    apply mapM_map. intros c I. destruct (inv_all (events (numbered boxes))) as (_ & _ & I3 & _). apply I3 in I. destruct I as (w & f & I). unfold found_claims. rewrite I. reflexivity.
  Qed.
  Lemma made_cells c : In c (claim_cells found_claims) -> exists t, cell_tuple m t /\ cell_index m t = c.
  Proof.
    intros I. destruct (inv_all (events (numbered boxes))) as (_ & _ & I3 & I4 & _). apply I3 in I. destruct I as (w & f & I). destruct (I4 _ _ _ I) as (_ & (e & J & <- & _) & _). destruct (all_event e J) as (n & b & t & _ & _ & C & X & _). exists t. auto.
  Qed.
  Lemma made_in c w : In (c, w) made <-> exists z f, Z.to_nat z = c /\ map_get (claim_weights found_claims) z = Some (w, f).
  Proof.
    destruct (inv_all (events (numbered boxes))) as (_ & _ & I3 & _). unfold made. rewrite in_map_iff. split.
    - intros (z & E & I). apply I3 in I. destruct I as (w' & f & I). fold found_claims in I. rewrite I in E. injection E as <- <-. exists z, f. auto.
    - intros (z & f & <- & I). exists z. rewrite I. split; [reflexivity|]. apply I3. exists w, f. exact I.
  Qed.
  Lemma ascending_nodup l : ascending l -> NoDup l.
  Proof. induction l as [|a l IH]; intros A; constructor; destruct A as (A1 & A2); [intros I; specialize (A1 a I); lia|auto]. Qed.
  Lemma made_nodup : NoDup (map fst made).
  Proof.
    unfold made. rewrite map_map. cbn [fst]. apply nodup_map_on.
    - apply ascending_nodup. destruct (inv_all (events (numbered boxes))) as (_ & I2 & _). exact I2.
    - intros x y Ix Iy E. destruct (made_cells x Ix) as (t & C & <-). destruct (made_cells y Iy) as (t' & C' & <-). pose proof (index_bounds t C). pose proof (index_bounds t' C'). lia.
  Qed.
  Lemma made_valid c w : In (c, w) made -> Z.of_nat c < ncells m /\ 0 < w <= 1000000.
  Proof.
    intros I. apply made_in in I. destruct I as (z & f & <- & I). destruct (inv_all (events (numbered boxes))) as (_ & _ & I3 & I4 & _). destruct (I4 _ _ _ I) as (P & (e & J & E & W) & _). destruct (all_event e J) as (n & b & t & _ & _ & C & X & M & (W1 & W2)). rewrite E in X. subst z. rewrite W in W1, W2. pose proof (index_bounds t C). split; [lia|]. split; [exact P|].
    destruct (volume_pos b t M) as (_ & V). destruct cell_volume_power as (_ & CV). destruct (Z_le_gt_dec w 1000000) as [|G]; [assumption|exfalso]. pose proof (mono _ CV 1000001 w ltac:(lia)) as Q1. change (inject_Z 1000001) with (1000001 # 1)%Q in Q1. lra.
  Qed.
  Lemma made_best t w : cell_tuple m t -> In (Z.to_nat (cell_index m t), w) made <->
    0 < w /\ (exists b, In b boxes /\ meets m b t /\ weight_of m b t w) /\ (forall b w', In b boxes -> meets m b t -> weight_of m b t w' -> w' <= w).
  Proof.
    intros C. destruct (inv_all (events (numbered boxes))) as (_ & _ & I3 & I4 & I5). fold found_claims in *. rewrite made_in.
    assert (U : forall n b e t', nth_error boxes n = Some b -> In e (events (numbered boxes)) -> cell_tuple m t' -> cell_index m t' = cell_index m t -> t' = t) by (intros n b e t' _ _ C' X; apply (index_inj m); auto).
    assert (W : forall b w1 w2, weight_of m b t w1 -> weight_of m b t w2 -> w1 = w2) by (intros b w1 w2 A B; apply (weight_unique _ _ _ A B)).
    assert (K : forall w f, map_get (claim_weights found_claims) (cell_index m t) = Some (w, f) -> 0 < w /\ (exists b, In b boxes /\ meets m b t /\ weight_of m b t w) /\ (forall b w', In b boxes -> meets m b t -> weight_of m b t w' -> w' <= w)).
    { intros w1 f I. destruct (I4 _ _ _ I) as (P & (e & J & E & Ww) & B). split; [exact P|]. split.
      - destruct (all_event e J) as (n & b & t' & N & F & T1 & T2 & T3 & T4). rewrite E in T2. assert (t' = t) by (apply (index_inj m); auto). subst t'. rewrite Ww in T4. exists b. split; [apply (nth_error_In _ _ N)|auto].
      - intros b w' Ib M Wb. apply In_nth_error in Ib. destruct Ib as (n & Ib). destruct (some_event n b t Ib C M) as (e' & X1 & X2 & X3 & X4). rewrite (W _ _ _ Wb X4). apply B; auto. }
    split.
    - intros (z & f & E & I). assert (Iz : In z (claim_cells found_claims)) by (apply I3; exists w, f; exact I). destruct (made_cells z Iz) as (t' & C' & <-). pose proof (index_bounds t C). pose proof (index_bounds t' C'). assert (cell_index m t' = cell_index m t) as X by lia. rewrite X in I. apply (K w f I).
    - intros (P & (b & Ib & M & Wb) & B). exists (cell_index m t). destruct (map_get (claim_weights found_claims) (cell_index m t)) as [(w1, f)|] eqn:E.
      + destruct (K w1 f eq_refl) as (P1 & (b1 & J1 & J2 & J3) & B1). exists f. split; [reflexivity|]. f_equal. f_equal. pose proof (B1 b w Ib M Wb). pose proof (B b1 w1 J1 J2 J3). lia.
      + exfalso. apply In_nth_error in Ib. destruct Ib as (n & Ib). destruct (some_event n b t Ib C M) as (e' & X1 & X2 & X3 & X4). pose proof (I5 _ E e' X1 X2). rewrite (W _ _ _ Wb X4) in P. lia.
  Qed.

  (** ** Positions *)
  Lemma position_meets b x t : cell_tuple m t ->
    (forall i, (i < ndim m)%nat -> ((rel_pos m x i < domain m i)%Q -> in_cell m (coord m t i) (rel_pos m x i)) /\ ((rel_pos m x i == domain m i)%Q -> coord m t i = extent_cells m i - 1)) ->
    (forall i, (i < ndim m)%nat -> (box_lo m b i <= rel_pos m x i /\ rel_pos m x i < box_hi m b i /\ rel_pos m x i < domain m i \/ rel_pos m x i == domain m i /\ box_lo m b i < domain m i /\ domain m i <= box_hi m b i)%Q) -> meets m b t.
  Proof.
    intros C H1 H2. destruct (w_ok m Hm) as (W & _). change (cell_width_fine m) with (fine_width m) in W.
    exists (fun i => (Qmax (cell_lo m t i) (box_lo m b i) + Qmin (cell_hi m t i) (box_hi m b i)) / 2)%Q. intros i L. destruct (H1 i L) as (A1 & A2). pose proof (H2 i L) as B2.
    assert (G : (cell_lo m t i < cell_hi m t i /\ cell_lo m t i < box_hi m b i /\ box_lo m b i < cell_hi m t i /\ box_lo m b i < box_hi m b i)%Q).
    { assert (Ew : (cell_hi m t i == cell_lo m t i + fine_width m)%Q) by (unfold cell_hi, cell_lo; rewrite inj1; ring).
      destruct (Qlt_le_dec (rel_pos m x i) (domain m i)) as [D|D].
      - destruct (A1 D) as (D1 & D2). fold (cell_lo m t i) in D1. fold (cell_hi m t i) in D2. destruct B2 as [(B1 & B2 & _)|(B2 & _)]; [|lra]. repeat split; lra.
      - assert (Ed : (rel_pos m x i == domain m i)%Q) by (destruct B2 as [(_ & _ & B2)|(B2 & _)]; lra). assert (Eh : (cell_hi m t i == domain m i)%Q). { unfold cell_hi. rewrite (A2 Ed). replace (extent_cells m i - 1 + 1) with (extent_cells m i) by lia. unfold extent_cells, domain, fine_width. rewrite inject_Z_mult. field. pose proof (inject_pos (2 ^ Z.of_nat (order m)) ltac:(apply Z.pow_pos_nonneg; lia)). lra. }
        destruct B2 as [(_ & _ & B2)|(_ & B3 & B4)]; [lra|]. repeat split; lra. }
    destruct G as (G1 & G2 & G3 & G4).
    set (a := cell_lo m t i) in *. set (c := cell_hi m t i) in *. set (d := box_lo m b i) in *. set (e := box_hi m b i) in *. clearbody a c d e.
    assert (D2 : forall q, (q / 2 == q * (1 # 2))%Q) by (intros; field). rewrite D2. destruct (Q.min_spec c e) as [(M1 & M2)|(M1 & M2)]; destruct (Q.max_spec a d) as [(M3 & M4)|(M3 & M4)]; rewrite M2, M4; repeat split; lra.
  Qed.
End Claims.
