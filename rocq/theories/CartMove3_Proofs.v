(** Proofs: cell_move and the moves of a time step on a Cartesian mesh. *)
From Coq Require Import List Arith ZArith QArith Bool Lia Lqa Permutation.
Import ListNotations.
From Verif Require Import Base Kernel Group_Model Group_Spec Group_Proofs Compress_Proofs AddGroup_Proofs Add_Model Pack_Model Pack_Spec Pack_Proofs
  Exchange_Model Exchange_Spec Exchange_Proofs World_Proofs Move_Model Move_Spec Move_Proofs Move_Props
  Mesh_Model Mesh_Spec CartMesh_Model CartMesh_Spec CartMesh_Proofs CartOwner_Proofs CartMesh_Props
  CartMap_Model CartMap_Spec CartLoop_Proofs CartMap_Proofs CartMap_Props CartMove_Model CartMove_Spec CartMove_Proofs CartMove2_Proofs.
Local Open Scope nat_scope.
Local Notation gst := Group_Model.st.

Lemma wf_place {R} (g : group R) c l n : wf_group g -> nth_error (npart_cell g) c = Some n -> l < n -> particle_at (gst g) c l = Some (pv g (c, l)) /\ In (pv g (c, l)) (particles g).
Proof.
  intros W E L. assert (I : In (c, l) (all_particles (npart_cell g))) by (apply in_all_particles; eauto). split; [apply particle_at_vals; assumption|].
  rewrite particles_pv by exact W. apply in_map, I.
Qed.
Lemma place_id {R} (g : group R) cid w : wf_group g -> In w (all_particles (npart_cell g)) -> cid < length (ints (gst g)) -> cell_id_of cid g (fst w) (snd w) = nth_error (snd (pv g w)) cid.
Proof. destruct w as (c, l). intros (_ & W) I L. unfold cell_id_of, pv. cbn [fst snd]. eapply vals_at_rd3; eauto. Qed.

(** A cell move keeps the particles. *)
Lemma cell_move_conserves {R} cid (g g' : group R) : wf_group g -> cid < length (ints (gst g)) -> ids_in_range cid g -> is_cell_move cid g g' ->
  Permutation (particles g') (particles g).
Proof.
  intros W LC IR (L & _ & _ & C). rewrite (particles_pv g W). unfold particles. rewrite L.
  set (key := fun w : nat * nat => match cell_id_of cid g (fst w) (snd w) with Some z => Z.to_nat z | None => 0 end).
  assert (KE : forall w, In w (all_particles (npart_cell g)) -> exists i, cell_id_of cid g (fst w) (snd w) = Some (Z.of_nat i) /\ i < length (npart_cell g) /\ key w = i).
  { intros (c, l) I. apply in_all_particles in I. destruct I as (n & En & Ln). destruct (IR c l n En Ln) as (i & E & Li). exists i. unfold key. cbn [fst snd]. rewrite E. split; [reflexivity|]. split; [exact Li|lia]. }
  rewrite (Permutation_flat_map_ext _ (fun c => map (pv g) (filter (fun w => key w =? c) (all_particles (npart_cell g))))).
  - etransitivity; [|apply Permutation_map, (by_key key (length (npart_cell g)) (all_particles (npart_cell g)))].
    + rewrite !flat_map_concat_map, concat_map, map_map. reflexivity.
    + intros w I; destruct (KE w I) as (i & _ & Li & ->); exact Li.
  - intros c I. apply in_seq in I. destruct (C c) as (_ & ps & ps' & E & E' & P); [lia|]. rewrite E', P.
    assert (Q : places_with_id cid g c = filter (fun w => key w =? c) (all_particles (npart_cell g))).
    { unfold places_with_id. apply filter_ext_in. intros w Iw. destruct (KE w Iw) as (i & Ei & _ & ->). rewrite Ei. destruct (Z.eqb_spec (Z.of_nat i) (Z.of_nat c)), (Nat.eqb_spec i c); try reflexivity; lia. }
    rewrite <- Q. rewrite (mapM_some _ (pv g)) in E.
    + injection E as <-. reflexivity.
    + intros w Iw. rewrite Q in Iw. apply filter_In in Iw. destruct Iw as (Iw & _). destruct w as (c', l). apply in_all_particles in Iw. destruct Iw as (n & En & Ln). apply (wf_place g c' l n W En Ln).
Qed.
Lemma cell_move_in {R} cid (g g' : group R) c ps' p : wf_group g -> cid < length (ints (gst g)) -> is_cell_move cid g g' -> cell_particles g' c = Some ps' -> In p ps' ->
  In p (particles g) /\ nth_error (snd p) cid = Some (Z.of_nat c).
Proof.
  intros W LC (L & _ & _ & C) E I. pose proof (cell_particles_lt _ _ _ E) as Lc. rewrite L in Lc. destruct (C c Lc) as (_ & ps & ps1 & Em & E1 & P). assert (ps1 = ps') by congruence. subst ps1.
  apply (Permutation_in _ P) in I. apply In_nth_error in I. destruct I as (i & Ei).
  destruct (nth_error (places_with_id cid g c) i) as [w|] eqn:Q.
  2:{ apply nth_error_None in Q. pose proof (mapM_length _ _ _ Em). pose proof (nth_error_some_lt _ _ _ Ei). lia. }
  pose proof (mapM_nth _ _ _ i w Em Q) as E2. rewrite Ei in E2. apply nth_error_In in Q. unfold places_with_id in Q. apply filter_In in Q. destruct Q as (Iw & Q).
  pose proof (place_id g cid w W Iw LC) as PI. destruct w as (c', l). pose proof Iw as Iw'. apply in_all_particles in Iw'. destruct Iw' as (n & En & Ln). destruct (wf_place g c' l n W En Ln) as (Ep & Ip).
  cbn [fst snd] in *. rewrite E2 in Ep. injection Ep as ->. split; [exact Ip|]. rewrite <- PI. destruct (cell_id_of cid g c' l) as [z|]; [|discriminate]. apply Z.eqb_eq in Q. congruence.
Qed.

Lemma ranks_conserved f : forall gs gs' : list (group Q), pointwise (fun _ g g' => exists ps, Permutation ps (particles g) /\ Forall2 (same_except f) ps (particles g')) gs gs' -> conserved f gs gs'.
Proof.
  induction gs as [|g gs IH]; intros [|g' gs'] (L & K); try discriminate.
  - exists []. split; constructor.
  - destruct (K 0 g g' eq_refl eq_refl) as (ps & P & F). destruct (IH gs') as (ps' & P' & F').
    { split; [cbn in L; lia|]. intros r a b. apply (K (S r)). }
    exists (ps ++ ps'). cbn [flat_map]. split; [apply Permutation_app; assumption|apply Forall2_app; assumption].
Qed.

Section M.
  Context (m : cmesh) (H : cmesh_ok m) (owners : list Z) (OM : owner_map m owners) (IG : int_grid m).
  Context (IC : forall r, r < csize (comm m) -> int_cells m r).
  Context (cid pid rid : nat).
  Context {byte : Type} (E : encoding Q byte) (EOk : encoding_ok E) (spR spZ : pspec).

  Lemma cell_rank_ok d (Hd : device_ok d) pad (HP : 1 <= pad) uR uZ r g : r < csize (comm m) -> wf_group g -> pid + ndim (hier m) <= length (reals (gst g)) -> cid < length (ints (gst g)) ->
    get_cart_cell_count m r = Some (length (npart_cell g)) -> (forall p, In p (particles g) -> exists t, owns m r t /\ contains m t (position pid p)) ->
    exists g', cell_move_rank m d pad uR uZ pid cid r g = Some g' /\ same_group g g' /\
      (exists ps, Permutation ps (particles g) /\ Forall2 (same_except [cid]) ps (particles g')) /\
      forall c ps p, cell_particles g' c = Some ps -> In p ps -> nth_error (snd p) cid = Some (Z.of_nat c) /\
        exists t, get_global_cell_tuple_index m r (Z.of_nat c) = Some t /\ contains m t (position pid p).
  Proof.
    intros R W LP LC NC ON. unfold cell_move_rank. destruct (C52_cell_of_the_particle d 310 m r pid cid g H Hd W R IG (IC r R)) as (g1 & E1 & X1).
    { intros p P. apply in_particles in P. destruct (particle_full g p W P) as (A & B). split; [lia|]. split; [lia|]. right. destruct (ON p P) as (t & T). exists t. exact T. }
    rewrite E1. cbn [obind]. pose proof X1 as (N1 & W1 & A1 & B1 & _).
    assert (BK : forall p1, In p1 (particles g1) -> exists p, In p (particles g) /\ binned m r pid cid p p1).
    { intros p1 I. apply in_particles in I. destruct I as (c & ps1 & Ec & I). destruct (each_back _ _ _ _ _ _ W X1 Ec I) as (ps & p & Ep & Ip & B). exists p. split; [apply in_particles; eauto|exact B]. }
    assert (LC1 : cid < length (ints (gst g1))) by lia.
    assert (VAL : forall p p1, In p (particles g) -> binned m r pid cid p p1 -> exists i, nth_error (snd p1) cid = Some (Z.of_nat i) /\ i < length (npart_cell g) /\ fst p1 = fst p /\
        forall t, owns m r t -> contains m t (position pid p) -> get_global_cell_tuple_index m r (Z.of_nat i) = Some t).
    { intros p p1 Ip (l & (F & LL & S) & (n & En & Rg) & T). rewrite NC in En. injection En as <-. destruct (particle_full g p W Ip) as (_ & Lp). exists (Z.to_nat l). rewrite Z2Nat.id by lia.
      split; [rewrite S by lia; rewrite Nat.eqb_refl; reflexivity|]. split; [lia|]. split; [exact F|exact T]. }
    assert (IR : ids_in_range cid g1).
    { intros c l n En Ln. destruct (wf_place g1 c l n W1 En Ln) as (Ep & Ip). destruct (BK _ Ip) as (p & Ip0 & B). destruct (VAL _ _ Ip0 B) as (i & Ei & Li & _). exists i. rewrite N1. split; [|exact Li].
      rewrite <- Ei. apply (place_id g1 cid (c, l) W1); [|exact LC1]. apply in_all_particles. eauto. }
    destruct (C03_cell_move_puts_every_particle_in_its_cell d Hd pad HP Q uR uZ cid g1 W1 LC1 IR) as (g' & E' & W' & IM). rewrite E'. exists g'. split; [reflexivity|].
    pose proof IM as (Ln & La & Lb & _). split; [split; [exact W'|]; split; [congruence|]; split; congruence|]. split.
    - pose proof (cell_move_conserves cid g1 g' W1 LC1 IR IM) as P. pose proof (each_particles _ _ _ W X1) as F.
      assert (F' : Forall2 (same_except [cid]) (particles g) (particles g1)).
      { eapply Forall2_impl_in; [|exact F]. intros p p1 _ (l & SI & _). eapply set_int_except; [exact SI|left; reflexivity]. }
      apply Forall2_flip' in F'. destruct (Permutation_Forall2 (Permutation_sym P) F') as (ps & P' & F2). apply Forall2_flip' in F2. exists ps. split; [symmetry; exact P'|exact F2].
    - intros c ps p Ec I. destruct (cell_move_in cid g1 g' c ps p W1 LC1 IM Ec I) as (Ip & V). split; [exact V|]. destruct (BK _ Ip) as (p0 & Ip0 & B). destruct (VAL _ _ Ip0 B) as (i & Ei & Li & F & T).
      assert (i = c) by (apply Nat2Z.inj; congruence). subst i. destruct (ON p0 Ip0) as (t & O & CO). exists t. split; [apply T; assumption|]. rewrite (position_eq pid p0 p F). exact CO.
  Qed.

  Theorem cell_move_ok (env : nat -> rank_env Q byte) pad gs : (forall r, r < csize (comm m) -> device_ok (e_dev (env r))) -> 1 <= pad ->
    groups_ok m spR spZ cid pid rid gs -> on_its_rank m pid gs ->
    exists gs', cell_move_all m env pad pid cid gs = Some gs' /\ groups_ok m spR spZ cid pid rid gs' /\ conserved [cid] gs gs' /\ in_its_cell m pid gs'.
  Proof.
    intros Hd HP (L & N1 & N2 & K) ON. unfold cell_move_all.
    destruct (on_ranks_ok (fun r => cell_move_rank m (e_dev (env r)) pad (e_uR (env r)) (e_uZ (env r)) pid cid r)
      (fun r g g' => same_group g g' /\ (exists ps, Permutation ps (particles g) /\ Forall2 (same_except [cid]) ps (particles g')) /\
        forall c ps p, cell_particles g' c = Some ps -> In p ps -> nth_error (snd p) cid = Some (Z.of_nat c) /\
          exists t, get_global_cell_tuple_index m r (Z.of_nat c) = Some t /\ contains m t (position pid p)) gs) as (gs' & E' & P).
    { intros r g Eg. destruct (K r g Eg) as (K0 & K1 & K2 & K3 & K4 & K5 & K6 & K7). assert (R : r < csize (comm m)) by (rewrite <- L; eapply nth_error_some_lt; eauto).
      apply cell_rank_ok; auto. intros p I. apply (ON r g p Eg I). }
    exists gs'. split; [exact E'|]. split; [|split].
    - split; [rewrite <- L; apply P|]. split; [exact N1|]. split; [exact N2|]. intros r g' Eg'. destruct (pw_right _ _ _ _ _ P Eg') as (g & Eg & (W & A & B & C) & _ & I).
      destruct (K r g Eg) as (_ & H1 & H2 & H3 & H4 & H5 & H6 & _). rewrite A, B, C. do 7 (split; [assumption|]). intros p Ip. apply in_particles in Ip. destruct Ip as (c & ps & Ec & Ip).
      destruct (I c ps p Ec Ip) as (V & _). exists (Z.of_nat c). split; [exact V|lia].
    - apply ranks_conserved. eapply pw_weaken; [exact P|]. intros r g g' _ _ (_ & X & _). exact X.
    - intros r g' c ps p Eg' Ec Ip. destruct (pw_right _ _ _ _ _ P Eg') as (g & Eg & _ & _ & I). apply (I c ps p Ec Ip).
  Qed.

  Context (genv lenv cenv : nat -> rank_env Q byte) (uninit : nat -> list Z).
  Context (garr larr : nat -> list (nat * message (byte:=byte)) -> list (nat * message (byte:=byte))).
  Context (Hg : forall r, r < csize (comm m) -> device_ok (e_dev (genv r)) /\ csize (comm m) <= length (e_buf0 (genv r))).
  Context (Hl : forall r, r < csize (comm m) -> device_ok (e_dev (lenv r)) /\ csize (comm m) <= length (e_buf0 (lenv r))).
  Context (Hc : forall r, r < csize (comm m) -> device_ok (e_dev (cenv r))).
  Context (Ga : forall r l, Permutation (garr r l) l) (La : forall r l, Permutation (larr r l) l).

  Theorem time_step_ok pad gs : 1 <= pad -> groups_ok m spR spZ cid pid rid gs ->
    (forall r g p, nth_error gs r = Some g -> In p (particles g) -> few_domains m (position pid p)) ->
    exists gs', time_step_move E spR spZ m owners genv lenv cenv uninit pad cid pid rid garr larr gs = Some gs' /\
      groups_ok m spR spZ cid pid rid gs' /\ in_its_cell m pid gs' /\
      exists ps, Permutation ps (flat_map particles gs) /\
        Forall2 (fun p p' => exists q, wrapped m pid None p q /\ same_except [rid; rid + 1; cid] q p') ps (flat_map particles gs').
  Proof.
    intros HP G FD. pose proof G as (L & N1 & N2 & K). unfold time_step_move.
    destruct (on_ranks_ok (fun r => cartesian_periodic (e_dev (genv r)) 299 m pid None) (fun _ => each (wrapped m pid None)) gs) as (gs0 & E0 & P0).
    { intros r g Eg. destruct (K r g Eg) as (K0 & K1 & K2 & K3 & K4 & K5 & K6 & K7). assert (R : r < csize (comm m)) by (rewrite <- L; eapply nth_error_some_lt; eauto).
      apply C52_periodic_positions_wrapped; auto; [apply Hg, R|]. intros p I. apply in_particles in I. destruct (particle_full g p K0 I) as (A & _). split; [lia|]. apply (FD r g p Eg I). }
    rewrite E0. cbn [obind]. assert (W0 : forall r g, nth_error gs r = Some g -> wf_group g) by (intros r g Eg; apply (K r g Eg)).
    assert (B0 : forall r g p, nth_error gs0 r = Some g -> In p (particles g) -> exists g0 p0, nth_error gs r = Some g0 /\ In p0 (particles g0) /\ wrapped m pid None p0 p).
    { intros r g p Eg I. destruct (pw_right _ _ _ _ _ P0 Eg) as (g0 & Eg0 & X). apply in_particles in I. destruct I as (c & ps & Ec & I).
      destruct (each_back _ _ _ _ _ _ (W0 _ _ Eg0) X Ec I) as (ps0 & p0 & Ep & Ip & B). exists g0, p0. split; [exact Eg0|]. split; [apply in_particles; eauto|exact B]. }
    assert (G0 : groups_ok m spR spZ cid pid rid gs0).
    { split; [rewrite <- L; apply P0|]. split; [exact N1|]. split; [exact N2|]. intros r g' Eg'. destruct (pw_right _ _ _ _ _ P0 Eg') as (g & Eg & (N & W & A & B & _)).
      destruct (K r g Eg) as (_ & H1 & H2 & H3 & H4 & H5 & H6 & H7). rewrite A, B, N. do 7 (split; [assumption|]). intros p Ip. destruct (B0 r g' p Eg' Ip) as (g0 & p0 & Eg0 & Ip0 & (S & _)).
      assert (g0 = g) by congruence. subst g0. rewrite S. apply H7, Ip0. }
    assert (IN : all_inside m pid gs0).
    { intros r g p Eg I i Li. destruct (B0 r g p Eg I) as (g0 & p0 & Eg0 & Ip0 & (_ & _ & Wr & _)). destruct (Wr i Li Logic.I) as (A & B & _). split; [exact A|]. apply Qlt_le_weak, B. }
    destruct (hybrid_ok m H owners OM IG cid pid rid E EOk spR spZ genv lenv uninit garr larr Hg Hl Ga La gs0 G0 IN) as (gs1 & E1 & G1 & C1 & ON). rewrite E1. cbn [obind].
    destruct (cell_move_ok cenv pad gs1 Hc HP G1 ON) as (gs2 & E2 & G2 & C2 & IN2). rewrite E2. exists gs2. split; [reflexivity|]. split; [exact G2|]. split; [exact IN2|].
    assert (C : conserved [rid; rid + 1; cid] gs0 gs2).
    { eapply conserved_trans; [eapply conserved_mono; [|exact C1]|eapply conserved_mono; [|exact C2]].
      - intros x [<-|[<-|[]]]; [left|right; left]; reflexivity.
      - intros x [<-|[]]. right; right; left; reflexivity. }
    destruct C as (ps & P & F).
    assert (F0 : Forall2 (wrapped m pid None) (flat_map particles gs) (flat_map particles gs0)).
    { apply ranks_particles. eapply pw_weaken; [exact P0|]. intros r g g' Eg _ X. apply each_particles; eauto. }
    apply Forall2_flip' in F0. destruct (Permutation_Forall2 (Permutation_sym P) F0) as (qs & Pq & Fq). apply Forall2_flip' in Fq.
    exists qs. split; [symmetry; exact Pq|]. clear -F Fq. revert F Fq. generalize (flat_map particles gs2) as l2. intros l2 F. revert qs.
    induction F as [|p p2 l l2 S F IH]; intros qs Fq; inversion Fq; subst; constructor; eauto.
  Qed.
End M.
