(** Proofs: hybrid_move and cell_move on a Cartesian mesh. *)
From Coq Require Import List Arith ZArith QArith Bool Lia Lqa Permutation.
Import ListNotations.
From Verif Require Import Base Kernel Group_Model Group_Spec Group_Proofs Compress_Proofs AddGroup_Proofs Add_Model Pack_Model Pack_Spec Pack_Proofs
  Exchange_Model Exchange_Spec Exchange_Proofs World_Proofs Move_Model Move_Spec Move_Proofs Move_Props
  Mesh_Model Mesh_Spec CartMesh_Model CartMesh_Spec CartMesh_Proofs CartOwner_Proofs CartMesh_Props
  CartMap_Model CartMap_Spec CartLoop_Proofs CartMap_Proofs CartMap_Props CartMove_Model CartMove_Spec CartMove_Proofs.
Local Open Scope nat_scope.
Local Notation gst := Group_Model.st.

Section M.
  Context (m : cmesh) (H : cmesh_ok m) (owners : list Z) (OM : owner_map m owners) (IG : int_grid m).
  Context (cid pid rid : nat).
  (** Rank [r] has a cell within the stencil of [t]. *)
  Definition near (r : nat) (t : list Z) : Prop := exists c0, owns m r c0 /\ within m (Z.of_nat (stencil_width m)) c0 t.
  Lemma near_self r t : owns m r t -> near r t.
  Proof. intros O. exists t. split; [exact O|]. intros i _. exists 0%Z. replace (_ + _ - _)%Z with 0%Z by ring. cbn. lia. Qed.

  Definition before_global (r : nat) (p : particle Q) : Prop := exists t o, contains m t (position pid p) /\ owns m o t /\
    ((near r t /\ nth_error (snd p) (rid + 1) = Some (Z.of_nat o) /\ nth_error (snd p) rid = Some (-1)%Z) \/
     (~ near r t /\ nth_error (snd p) (rid + 1) = Some (-1)%Z /\ nth_error (snd p) rid = Some (Z.of_nat o))).
  Definition after_global (r c : nat) (p : particle Q) : Prop := exists t o, contains m t (position pid p) /\ owns m o t /\
    ((near r t /\ nth_error (snd p) (rid + 1) = Some (Z.of_nat o)) \/
     (c = 0 /\ o = r /\ nth_error (snd p) (rid + 1) = Some (-1)%Z)).
  Definition before_local (r : nat) (p : particle Q) : Prop := exists t o, contains m t (position pid p) /\ owns m o t /\
    near r t /\ nth_error (snd p) (rid + 1) = Some (Z.of_nat o).

  Lemma position_eq (p p' : particle Q) : fst p' = fst p -> position pid p' = position pid p.
  Proof. intros E. unfold position. rewrite E. reflexivity. Qed.
  Lemma set_int_except (p p' : particle Q) f v free : set_int p p' f v -> In f free -> same_except free p p'.
  Proof.
    intros (A & B & C) I. split; [exact A|]. split; [exact B|]. intros i N. destruct (Nat.ltb_spec i (length (snd p))) as [L|L].
    - rewrite C by exact L. destruct (Nat.eqb_spec i f) as [->|]; [contradiction|reflexivity].
    - rewrite (proj2 (nth_error_None _ _)), (proj2 (nth_error_None _ _)) by lia. reflexivity.
  Qed.
  Lemma nth_of (l : list Z) i v : nth_error l i = Some v -> nth i l 0%Z = v.
  Proof. apply nth_error_nth. Qed.

  Lemma assign_particle r (p p1 p2 p3 : particle Q) : inside m (position pid p) -> rid + 1 < length (snd p) ->
    ranks_reset rid p p1 -> mapped_locally m r pid rid p1 p2 -> mapped m pid rid p2 p3 ->
    same_except [rid; rid + 1] p p3 /\ before_global r p3.
  Proof.
    intros IN L (A & B & C) (_ & ML) (M1 & M2).
    assert (S1 : same_except [rid; rid + 1] p p1).
    { split; [exact A|]. split; [exact B|]. intros i N. destruct (Nat.ltb_spec i (length (snd p))) as [Li|Li].
      - rewrite C by exact Li. destruct (Nat.eqb_spec i rid) as [->|]; [exfalso; apply N; left; reflexivity|].
        destruct (Nat.eqb_spec i (rid + 1)) as [->|]; [exfalso; apply N; right; left; reflexivity|reflexivity].
      - rewrite (proj2 (nth_error_None _ _)), (proj2 (nth_error_None _ _)) by lia. reflexivity. }
    assert (C0 : nth_error (snd p1) rid = Some (-1)%Z) by (rewrite C by lia; rewrite Nat.eqb_refl; reflexivity).
    assert (C1 : nth_error (snd p1) (rid + 1) = Some (-1)%Z) by (rewrite C by lia; rewrite Nat.eqb_refl, orb_true_r; reflexivity).
    rewrite (nth_of _ _ _ C1) in ML. destruct ML as (v & SI & ML); [lia|]. pose proof SI as (A2 & B2 & C2).
    pose proof (set_int_except _ _ _ _ [rid; rid + 1] SI (or_intror (or_introl eq_refl))) as S2.
    assert (D1 : nth_error (snd p2) (rid + 1) = Some v) by (rewrite C2 by lia; rewrite Nat.eqb_refl; reflexivity).
    assert (D0 : nth_error (snd p2) rid = Some (-1)%Z).
    { rewrite C2 by lia. destruct (Nat.eqb_spec rid (rid + 1)); [lia|exact C0]. }
    set (t := cellof m (position pid p)). pose proof (cellof_contains m H _ IN) as CO. fold t in CO.
    assert (P1 : position pid p1 = position pid p) by (apply position_eq; exact A).
    assert (P2 : position pid p2 = position pid p) by (rewrite <- P1; apply position_eq; exact A2).
    rewrite P1 in ML. specialize (ML t CO). rewrite (nth_of _ _ _ D1), P2 in *. destruct ML as [(-> & NN)|(o & -> & O & N)].
    - destruct M2 with (c := t) as (o & O & SI3); [lia|exact CO|]. pose proof SI3 as (A3 & B3 & C3).
      pose proof (set_int_except _ _ _ _ [rid; rid + 1] SI3 (or_introl eq_refl)) as S3.
      split; [eapply same_except_trans; [exact S1|]; eapply same_except_trans; eauto|]. exists t, o. rewrite (position_eq p2 p3) by exact A3. rewrite P2.
      split; [exact CO|]. split; [exact O|]. right. split; [exact NN|]. rewrite !C3 by lia. rewrite Nat.eqb_refl. destruct (Nat.eqb_spec (rid + 1) rid); [lia|]. auto.
    - rewrite M1 by lia. split; [eapply same_except_trans; eauto|]. exists t, o. rewrite P2. split; [exact CO|]. split; [exact O|]. left. auto.
  Qed.

  Lemma assign_ok d (Hd : device_ok d) uninit r g : r < csize (comm m) -> wf_group g -> pid + ndim (hier m) <= length (reals (gst g)) -> rid + 1 < length (ints (gst g)) ->
    (forall p, In p (particles g) -> inside m (position pid p)) ->
    exists g', assign_ranks m owners d uninit pid rid r g = Some g' /\ each (fun p p' => same_except [rid; rid + 1] p p' /\ before_global r p') g g'.
  Proof.
    intros R W LP LR IN. unfold assign_ranks. destruct (C52_ranks_reset d 300 rid g Hd W) as (g1 & E1 & X1).
    { intros p P. apply in_particles in P. destruct (particle_full g p W P) as (_ & L). lia. }
    rewrite E1. cbn [obind]. destruct (C52_local_mapper_constructed m owners r H OM R) as (mp & Em). rewrite Em. cbn [obind].
    assert (W1 : wf_group g1) by apply X1.
    assert (B1 : forall p1, In p1 (particles g1) -> exists p, In p (particles g) /\ ranks_reset rid p p1).
    { intros p1 I. apply in_particles in I. destruct I as (c & ps1 & E & I). destruct (each_back _ _ _ _ _ _ W X1 E I) as (ps & p & Ep & Ip & Rp). exists p. split; [apply in_particles; eauto|exact Rp]. }
    destruct X1 as (N1 & _ & LR1 & LZ1 & C1').
    destruct (C52_local_rank_of_the_particle d 301 m owners r mp pid rid g1 H OM Hd W1 R IG Em) as (g2 & E2 & X2).
    { intros p1 P. apply in_particles in P. destruct (particle_full g1 p1 W1 P) as (L1 & L2). split; [lia|]. split; [lia|]. intros _.
      destruct (B1 p1 P) as (p & Ip & (A & _)). rewrite (position_eq p p1 A). apply IN, Ip. }
    rewrite E2. cbn [obind]. assert (W2 : wf_group g2) by apply X2. pose proof X2 as (N2 & _ & LR2 & LZ2 & _).
    destruct (C52_global_rank_of_the_particle d 302 uninit m owners pid rid g2 H OM Hd W2) as (g3 & E3 & X3).
    { intros p2 P. apply in_particles in P. destruct (particle_full g2 p2 W2 P) as (L1 & L2). split; [lia|]. split; [lia|]. intros _.
      apply in_particles in P. destruct P as (c & ps2 & E & I). destruct (each_back _ _ _ _ _ _ W1 X2 E I) as (ps & p1 & Ep & Ip & Rp).
      assert (Ip' : In p1 (particles g1)) by (apply in_particles; eauto). destruct (B1 p1 Ip') as (p & Ip0 & RR). destruct (particle_full g1 p1 W1 Ip') as (_ & Lp1).
      pose proof RR as (A & B & C). assert (F2 : fst p2 = fst p1).
      { destruct Rp as (_ & Rp). rewrite (nth_of (snd p1) (rid + 1) (-1)%Z) in Rp by (rewrite C by lia; rewrite Nat.eqb_refl, orb_true_r; reflexivity). destruct Rp as (v & (F & _) & _); [lia|exact F]. }
      rewrite (position_eq p1 p2 F2), (position_eq p p1 A). apply IN, Ip0. }
    exists g3. split; [exact E3|]. assert (X1 : each (ranks_reset rid) g g1) by (split; [exact N1|]; auto).
    pose proof (each_trans _ _ _ _ _ (each_trans _ _ _ _ _ X1 X2) X3) as X. eapply each_impl; [exact X|]. intros p p3 Ip (p2 & (p1 & R1 & R2) & R3).
    destruct (particle_full g p W Ip) as (_ & L). apply (assign_particle r p p1 p2 p3); auto. lia.
  Qed.

  Lemma arrivals_ok d (Hd : device_ok d) r g : r < csize (comm m) -> wf_group g -> pid + ndim (hier m) <= length (reals (gst g)) -> rid + 1 < length (ints (gst g)) ->
    0 < length (npart_cell g) -> (forall c ps p, cell_particles g c = Some ps -> In p ps -> after_global r c p) ->
    exists g', assign_arrivals m owners d pid rid r g = Some g' /\ each (fun p p' => same_except [rid; rid + 1] p p' /\ before_local r p') g g'.
  Proof.
    intros R W LP LR LC AG. unfold assign_arrivals. destruct (C52_local_mapper_constructed m owners r H OM R) as (mp & Em). rewrite Em. cbn [obind].
    destruct (C52_local_rank_in_a_cell d 306 m owners r mp pid rid 0 g H OM Hd W R IG Em LC) as (g' & E & N & W' & L1 & L2 & C).
    { intros ps p Ec I. assert (Ip : In p (particles g)) by (apply in_particles; eauto). destruct (particle_full g p W Ip) as (A & B). split; [lia|]. split; [lia|]. intros _.
      destruct (AG 0 ps p Ec I) as (t & o & CO & _). apply (contains_cellof m H t _ CO). }
    exists g'. split; [exact E|]. do 4 (split; [assumption|]). intros c ps Ec. destruct (C c ps Ec) as (ps' & Ec' & F). exists ps'. split; [exact Ec'|].
    destruct (Nat.eqb_spec c 0) as [->|Nc].
    - eapply Forall2_impl_in; [|exact F]. intros p p' I (M1 & M2). destruct (AG 0 ps p Ec I) as (t & o & CO & O & [(NE & Q)|(_ & -> & Q)]).
      + rewrite M1 by (rewrite (nth_of _ _ _ Q); lia). split; [apply same_except_refl|]. exists t, o. auto.
      + rewrite (nth_of _ _ _ Q) in M2. destruct M2 as (v & SI & M2); [lia|]. specialize (M2 t CO).
        assert (V : v = Z.of_nat r).
        { destruct M2 as [(_ & NN)|(o' & -> & O' & _)]; [exfalso; apply NN, near_self, O|]. f_equal. eapply owns_unique; eauto. }
        split; [eapply set_int_except; [exact SI|right; left; reflexivity]|]. destruct SI as (A & B & D). exists t, r. rewrite (position_eq p p' A). split; [exact CO|]. split; [exact O|].
        split; [apply near_self, O|]. rewrite D by (eapply nth_error_some_lt; eauto). rewrite Nat.eqb_refl, V. reflexivity.
    - subst ps'. pose proof (fun p => AG c ps p Ec) as AG'. clear -Nc AG'. induction ps as [|p ps IH]; constructor.
      + split; [apply same_except_refl|]. destruct (AG' p (or_introl eq_refl)) as (t & o & CO & O & [(NE & Q)|(K & _)]); [|lia]. exists t, o. auto.
      + apply IH. intros q I. apply AG'. right; exact I.
  Qed.

  Context {byte : Type} (E : encoding Q byte) (EOk : encoding_ok E) (spR spZ : pspec).
  Context (genv lenv : nat -> rank_env Q byte) (uninit : nat -> list Z).
  Context (garr larr : nat -> list (nat * message (byte:=byte)) -> list (nat * message (byte:=byte))).
  Context (Hg : forall r, r < csize (comm m) -> device_ok (e_dev (genv r)) /\ csize (comm m) <= length (e_buf0 (genv r))).
  Context (Hl : forall r, r < csize (comm m) -> device_ok (e_dev (lenv r)) /\ csize (comm m) <= length (e_buf0 (lenv r))).
  Context (Ga : forall r l, Permutation (garr r l) l) (La : forall r l, Permutation (larr r l) l).

  Lemma groups_ranks_ok gs f : groups_ok m spR spZ cid pid rid gs -> f = rid \/ f = rid + 1 -> ranks_ok spR spZ cid f gs.
  Proof.
    intros (L & N1 & N2 & K) F r g Eg. destruct (K r g Eg) as (K0 & K1 & K2 & K3 & K4 & K5 & K6 & K7). split; [exact K0|]. split; [exact K1|]. split; [exact K2|]. split; [exact K4|].
    split; [lia|]. split; [|intros p I _; apply K7, I]. assert (R : r < csize (comm m)) by (rewrite <- L; eapply nth_error_some_lt; eauto).
    destruct (C51_owned_cells m r H R) as (cells & _ & _ & NE & _ & C). rewrite C in K6. injection K6 as <-. destruct cells; [contradiction|cbn; lia].
  Qed.
  Lemma pw_same_group R gs gs' : pointwise (fun r g g' => each (R r) g g') gs gs' -> pointwise (fun _ => same_group) gs gs'.
  Proof. intros P. eapply pw_weaken; [exact P|]. intros r g g' _ _ (N & W & A & B & _). split; [exact W|]. split; [exact A|]. split; [exact B|congruence]. Qed.
  Lemma pw_conserved (R : nat -> particle Q -> particle Q -> Prop) f gs gs' : (forall r g, nth_error gs r = Some g -> wf_group g) -> pointwise (fun r g g' => each (R r) g g') gs gs' ->
    (forall r p p', R r p p' -> same_except f p p') -> conserved f gs gs'.
  Proof.
    intros W P I. apply conserved_each, ranks_particles. eapply pw_weaken; [exact P|]. intros r g g' Eg _ X. apply each_particles; [eauto|]. eapply each_impl; [exact X|]. intros p p' _. apply I.
  Qed.
  Lemma wanted_eq size r f (p : particle Q) o : o < size -> nth_error (snd p) f = Some (Z.of_nat o) -> wanted f size r p = o.
  Proof. intros L Q. unfold wanted. rewrite Q. destruct (Z.leb_spec 0 (Z.of_nat o)), (Z.ltb_spec (Z.of_nat o) (Z.of_nat size)); cbn [andb]; lia. Qed.
  Lemma wanted_stay size r f (p : particle Q) : nth_error (snd p) f = Some (-1)%Z -> wanted f size r p = r.
  Proof. intros Q. unfold wanted. rewrite Q. reflexivity. Qed.
  Lemma owns_lt r t : owns m r t -> r < csize (comm m).
  Proof. intros (L & _). exact L. Qed.

  Theorem hybrid_ok gs : groups_ok m spR spZ cid pid rid gs -> all_inside m pid gs ->
    exists gs', hybrid_move E spR spZ m owners genv lenv uninit cid pid rid garr larr gs = Some gs' /\
      groups_ok m spR spZ cid pid rid gs' /\ conserved [rid; rid + 1] gs gs' /\ on_its_rank m pid gs'.
  Proof.
    intros G IN. pose proof G as (L & N1 & N2 & K). unfold hybrid_move. set (size := csize (comm m)) in *.
    assert (NC : ~ In cid [rid; rid + 1]) by (intros [J|[J|[]]]; congruence).
    (* L1099-1101 *)
    destruct (on_ranks_ok (fun r => assign_ranks m owners (e_dev (genv r)) (uninit r) pid rid r)
      (fun r g g' => each (fun p p' => same_except [rid; rid + 1] p p' /\ before_global r p') g g') gs) as (gs1 & E1 & P1).
    { intros r g Eg. destruct (K r g Eg) as (K0 & K1 & K2 & K3 & K4 & K5 & K6 & K7). assert (R : r < size) by (rewrite <- L; eapply nth_error_some_lt; eauto).
      apply assign_ok; auto; [apply Hg, R|]. intros p. apply (IN r g p Eg). }
    rewrite E1. cbn [obind]. assert (W0 : forall r g, nth_error gs r = Some g -> wf_group g) by (intros r g Eg; apply (K r g Eg)).
    pose proof (pw_conserved (fun r p p' => same_except [rid; rid + 1] p p' /\ before_global r p') [rid; rid + 1] gs gs1 W0 P1 (fun r p p' X => proj1 X)) as C1.
    pose proof (groups_kept _ _ _ _ _ _ _ _ _ G (pw_same_group _ _ _ P1) C1 NC) as G1. pose proof G1 as (L1 & _ & _ & K1). fold size in L1.
    (* global move *)
    destruct (global_move_correct E EOk spR spZ genv cid rid gs1 (groups_ranks_ok gs1 rid G1 (or_introl eq_refl))) with (arr := garr) as (gs2 & E2 & X2 & S2).
    { intros r R. rewrite L1 in R |- *. apply Hg, R. }
    { exact Ga. }
    rewrite E2. cbn [obind].
    assert (Cn : forall f gs, ranks_ok spR spZ cid f gs -> forall r (g : group Q), nth_error gs r = Some g -> 0 < length (npart_cell g)) by (intros f gs0 Q r g Eg; apply (Q r g Eg)).
    assert (C2 : conserved [rid; rid + 1] gs1 gs2) by (apply conserved_perm; eapply exchanged_conserves; [exact X2|eapply Cn, (groups_ranks_ok gs1 rid G1 (or_introl eq_refl))]).
    assert (P2 : pointwise (fun _ => same_group) gs1 gs2).
    { split; [apply X2|]. intros r g g' Eg Eg'. destruct (S2 r g g' Eg Eg') as (A & B & C). split; [exact A|]. split; [exact B|]. split; [exact C|]. eapply exchanged_same; eauto. }
    pose proof (groups_kept _ _ _ _ _ _ _ _ _ G1 P2 C2 NC) as G2. pose proof G2 as (L2 & _ & _ & K2). fold size in L2.
    assert (BG : forall r g p, nth_error gs1 r = Some g -> In p (particles g) -> before_global r p).
    { intros r g p Eg I. destruct (pw_right _ _ _ _ _ P1 Eg) as (g0 & Eg0 & X). apply in_particles in I. destruct I as (c & ps & Ec & I).
      destruct (each_back _ _ _ _ _ _ (W0 _ _ Eg0) X Ec I) as (ps0 & p0 & _ & _ & _ & B). exact B. }
    assert (AG : forall r g c ps p, nth_error gs2 r = Some g -> cell_particles g c = Some ps -> In p ps -> after_global r c p).
    { intros r g c ps p Eg Ec I. destruct (exchanged_in _ _ _ _ _ _ _ _ X2 Eg Ec I) as [(g1 & ps1 & Eg1 & Ec1 & I1 & Wt)|(-> & s & g1 & Ns & Eg1 & I1 & Wt)].
      - assert (Ip : In p (particles g1)) by (apply in_particles; eauto). destruct (BG r g1 p Eg1 Ip) as (t & o & CO & O & [(NE & Q1 & Q0)|(NN & Q1 & Q0)]).
        + exists t, o. auto.
        + exfalso. apply NN. rewrite L1 in Wt. rewrite (wanted_eq size r rid p o) in Wt by (try exact Q0; apply (owns_lt o t O)). subst o. apply near_self, O.
      - destruct (BG s g1 p Eg1 I1) as (t & o & CO & O & [(NE & Q1 & Q0)|(NN & Q1 & Q0)]).
        + rewrite wanted_stay in Wt by exact Q0. contradiction.
        + rewrite L1 in Wt. rewrite (wanted_eq size s rid p o) in Wt by (try exact Q0; apply (owns_lt o t O)). exists t, o. split; [exact CO|]. split; [exact O|]. right. auto. }
    (* L1109 *)
    destruct (on_ranks_ok (fun r => assign_arrivals m owners (e_dev (lenv r)) pid rid r)
      (fun r g g' => each (fun p p' => same_except [rid; rid + 1] p p' /\ before_local r p') g g') gs2) as (gs3 & E3 & P3).
    { intros r g Eg. destruct (K2 r g Eg) as (Q0 & Q1 & Q2 & Q3 & Q4 & Q5 & Q6 & Q7). assert (R : r < size) by (rewrite <- L2; eapply nth_error_some_lt; eauto).
      apply arrivals_ok; auto; [apply Hl, R| |].
      - eapply Cn; [apply (groups_ranks_ok gs2 rid G2 (or_introl eq_refl))|exact Eg].
      - intros c ps p. apply (AG r g c ps p Eg). }
    rewrite E3. cbn [obind]. assert (W2 : forall r g, nth_error gs2 r = Some g -> wf_group g) by (intros r g Eg; apply (K2 r g Eg)).
    pose proof (pw_conserved (fun r p p' => same_except [rid; rid + 1] p p' /\ before_local r p') [rid; rid + 1] gs2 gs3 W2 P3 (fun r p p' X => proj1 X)) as C3.
    pose proof (groups_kept _ _ _ _ _ _ _ _ _ G2 (pw_same_group _ _ _ P3) C3 NC) as G3. pose proof G3 as (L3 & _ & _ & K3). fold size in L3.
    assert (BL : forall r g p, nth_error gs3 r = Some g -> In p (particles g) -> before_local r p).
    { intros r g p Eg I. destruct (pw_right _ _ _ _ _ P3 Eg) as (g0 & Eg0 & X). apply in_particles in I. destruct I as (c & ps & Ec & I).
      destruct (each_back _ _ _ _ _ _ (W2 _ _ Eg0) X Ec I) as (ps0 & p0 & _ & _ & _ & B). exact B. }
    (* the neighbours *)
    destruct (mapM_total (get_local_communication_neighbours m owners) (seq 0 (length gs))) as (nbrs & En).
    { intros r I. apply in_seq in I. destruct (C51_neighbours m owners r H OM) as (nb & Q & _); [fold size; lia|]. eauto. }
    rewrite En. cbn [obind].
    assert (NB : forall r, r < size -> forall q, In q (nth r nbrs []) <-> exists o c c', q = Z.of_nat o /\ owns m r c /\ owns m o c' /\ within m (Z.of_nat (stencil_width m)) c c').
    { intros r R. destruct (C51_neighbours m owners r H OM R) as (nb & Q & _ & I). assert (Eq : nth_error (seq 0 (length gs)) r = Some r) by (rewrite nth_error_seq; destruct (Nat.ltb_spec r (length gs)); [reflexivity|lia]).
      pose proof (mapM_nth _ _ _ r r En Eq) as Q'. rewrite Q in Q'. rewrite (nth_error_nth nbrs r [] (eq_sym Q')). exact I. }
    (* local move *)
    destruct (local_move_correct E EOk spR spZ lenv cid (rid + 1) gs3 (groups_ranks_ok gs3 (rid + 1) G3 (or_intror eq_refl))) with (arr := larr) (nbrs := fun r => nth r nbrs []) as (gs4 & E4 & X4 & S4).
    { intros r R. rewrite L3 in R |- *. apply Hl, R. }
    { exact La. }
    { intros r q R I. rewrite L3 in R |- *. apply (NB r R) in I. destruct I as (o & c & c' & -> & _ & O & _). pose proof (owns_lt o c' O) as OL. fold size in OL. lia. }
    { intros r g p Eg I _. assert (R : r < size) by (rewrite <- L3; eapply nth_error_some_lt; eauto). destruct (BL r g p Eg I) as (t & o & CO & O & (c0 & O0 & Wi) & Q).
      rewrite L3. rewrite (wanted_eq size r (rid + 1) p o) by (try exact Q; apply (owns_lt o t O)). apply (NB r R). exists o, c0, t. auto. }
    rewrite E4. exists gs4. split; [reflexivity|].
    assert (C4 : conserved [rid; rid + 1] gs3 gs4) by (apply conserved_perm; eapply exchanged_conserves; [exact X4|eapply Cn, (groups_ranks_ok gs3 (rid + 1) G3 (or_intror eq_refl))]).
    assert (P4 : pointwise (fun _ => same_group) gs3 gs4).
    { split; [apply X4|]. intros r g g' Eg Eg'. destruct (S4 r g g' Eg Eg') as (A & B & C). split; [exact A|]. split; [exact B|]. split; [exact C|]. eapply exchanged_same; eauto. }
    split; [exact (groups_kept _ _ _ _ _ _ _ _ _ G3 P4 C4 NC)|]. split.
    - eapply conserved_trans; [exact C1|]. eapply conserved_trans; [exact C2|]. eapply conserved_trans; [exact C3|exact C4].
    - intros r g p Eg I. apply in_particles in I. destruct I as (c & ps & Ec & I).
      assert (X : exists s g3, nth_error gs3 s = Some g3 /\ In p (particles g3) /\ wanted (rid + 1) (length gs3) s p = r).
      { destruct (exchanged_in _ _ _ _ _ _ _ _ X4 Eg Ec I) as [(g3 & ps3 & Eg3 & Ec3 & I3 & Wt)|(-> & s & g3 & Ns & Eg3 & I3 & Wt)]; [|eauto]. exists r, g3. split; [exact Eg3|]. split; [apply in_particles; eauto|exact Wt]. }
      destruct X as (s & g3 & Eg3 & I3 & Wt). destruct (BL s g3 p Eg3 I3) as (t & o & CO & O & NE & Q). rewrite L3 in Wt. rewrite (wanted_eq size s (rid + 1) p o) in Wt by (try exact Q; apply (owns_lt o t O)).
      subst o. exists t. auto.
  Qed.
End M.
