(** Properties of the maps of particles to cells and ranks on a Cartesian mesh. *)
From Coq Require Import List Arith ZArith QArith Bool Lia Lqa Permutation.
Import ListNotations.
From Verif Require Import Base Kernel Group_Model Group_Spec Group_Proofs Mesh_Model Mesh_Spec MeshPos_Proofs CartMesh_Model CartMesh_Spec CartMesh_Proofs CartOwner_Proofs CartMesh_Props
  CartMap_Model CartMap_Spec CartLoop_Proofs CartMap_Proofs CartBin_Proofs CartLocal_Proofs CartGlobal_Proofs.
Local Open Scope Z_scope.

(** Every cell keeps its particles, each changed as [R] says. *)
Definition each (R : particle Q -> particle Q -> Prop) (g g' : group Q) : Prop :=
  npart_cell g' = npart_cell g /\ wf_group g' /\
  length (reals (Group_Model.st g')) = length (reals (Group_Model.st g)) /\ length (ints (Group_Model.st g')) = length (ints (Group_Model.st g)) /\
  forall c ps, cell_particles g c = Some ps -> exists ps', cell_particles g' c = Some ps' /\ Forall2 R ps ps'.
(** The particles of a group. *)
Definition particle_of (g : group Q) (p : particle Q) : Prop := exists c ps, cell_particles g c = Some ps /\ In p ps.
Lemma each_intro R g g' : npart_cell g' = npart_cell g -> wf_group g' -> same_shape (Group_Model.st g) (Group_Model.st g') ->
  (forall c ps, cell_particles g c = Some ps -> exists ps', cell_particles g' c = Some ps' /\ Forall2 R ps ps') -> each R g g'.
Proof. intros N W (S1 & S2) C. split; [exact N|]. split; [exact W|]. split; [apply shape3_length, S1|]. split; [apply shape3_length, S2|exact C]. Qed.

(** ** Periodic boundary conditions *)
(** In the dimensions with a non-zero mask every position is moved into the
    half open domain by a whole number of domain lengths.  Nothing else of any
    particle changes, whatever the schedule. *)
Theorem C52_periodic_positions_wrapped : forall d k m pid masks g, cmesh_ok m -> device_ok d -> wf_group g ->
  match masks with Some l => (ndim (hier m) <= length l)%nat | None => True end ->
  (forall p, particle_of g p -> (pid + ndim (hier m) <= length (fst p))%nat /\ few_domains m (position pid p)) ->
  exists g', cartesian_periodic d k m pid masks g = Some g' /\ each (wrapped m pid masks) g g'.
Proof.
  intros d k m pid masks g H Hd W M P. unfold cartesian_periodic.
  assert (A : match masks with Some l => assert (ndim (hier m) <=? length l)%nat | None => Some tt end = Some tt).
  { destruct masks as [l|]; [|reflexivity]. destruct (Nat.leb_spec (ndim (hier m)) (length l)); [reflexivity|lia]. }
  rewrite A. cbn [obind]. destruct (loop_all_rel d Hd k (periodic_kernel m pid masks) (wrapped m pid masks) g W) as (g' & E & N & W' & SS & C).
  - intros c ps p Ec I. destruct (P p (ex_intro _ c (ex_intro _ ps (conj Ec I)))) as (P1 & P2). apply (periodic_effect m H pid masks p M P1). intros i L _. apply P2, L.
  - exists g'. split; [exact E|]. apply each_intro; assumption.
Qed.
Print Assumptions C52_periodic_positions_wrapped.

(** ** Cells *)
(** The id written is a cell of this rank, and it is the cell that contains the
    particle when that cell is one of this rank's. *)
Theorem C52_cell_of_the_particle : forall d k m rank pid cid g, cmesh_ok m -> device_ok d -> wf_group g ->
  (rank < csize (comm m))%nat -> int_grid m -> int_cells m rank ->
  (forall p, particle_of g p -> (pid + ndim (hier m) <= length (fst p))%nat /\ (cid < length (snd p))%nat /\
     (few_cells m (position pid p) \/ exists c, owns m rank c /\ contains m c (position pid p))) ->
  exists g', map_cells d k m rank pid cid g = Some g' /\ each (binned m rank pid cid) g g'.
Proof.
  intros d k m rank pid cid g H Hd W R IG IC P. unfold map_cells. pose proof (nd_le m H) as ND. pose proof (proj1 (proj1 (proj1 H))) as NP.
  destruct (Nat.ltb_spec 0 (ndim (hier m))); [|lia]. destruct (Nat.ltb_spec (ndim (hier m)) 4); [|lia]. cbn [andb assert obind].
  destruct (loop_all_rel d Hd k (bin_kernel m rank pid cid) (binned m rank pid cid) g W) as (g' & E & N & W' & SS & C).
  - intros c ps p Ec I. destruct (P p (ex_intro _ c (ex_intro _ ps (conj Ec I)))) as (P1 & P2 & P3). apply (bin_effect m H); assumption.
  - exists g'. split; [exact E|]. apply each_intro; assumption.
Qed.
Print Assumptions C52_cell_of_the_particle.

(** ** Ranks *)
Theorem C52_ranks_reset : forall d k rid (g : group Q), device_ok d -> wf_group g ->
  (forall p, particle_of g p -> (rid + 1 < length (snd p))%nat) ->
  exists g', reset_mpi_ranks d k rid g = Some g' /\ each (ranks_reset rid) g g'.
Proof.
  intros d k rid g Hd W P. unfold reset_mpi_ranks. destruct (loop_all_rel d Hd k (reset_kernel rid) (ranks_reset rid) g W) as (g' & E & N & W' & SS & C).
  - intros c ps p Ec I. specialize (P p (ex_intro _ c (ex_intro _ ps (conj Ec I)))). unfold effect, reset_kernel. cbn [obind fst snd apply_writes foldM].
    destruct (upd_some (snd p) rid (-1)) as (z1 & E1); [lia|]. rewrite E1. cbn [obind]. destruct (upd_some z1 (rid + 1) (-1)) as (z2 & E2); [rewrite (upd_length _ _ _ _ E1); lia|].
    rewrite E2. cbn [obind]. exists (fst p, z2). split; [reflexivity|]. split; [reflexivity|]. cbn [fst snd]. split; [rewrite (upd_length _ _ _ _ E2); eapply upd_length; eauto|].
    intros i L. rewrite (upd_nth _ _ _ _ i E2), (upd_nth _ _ _ _ i E1). destruct (Nat.eqb_spec i (rid + 1)), (Nat.eqb_spec i rid); reflexivity.
  - exists g'. split; [exact E|]. apply each_intro; assumption.
Qed.
Print Assumptions C52_ranks_reset.

(** The constructor of the local mapper never fails its own test. *)
Theorem C52_local_mapper_constructed : forall m owners rank, cmesh_ok m -> owner_map m owners -> (rank < csize (comm m))%nat ->
  exists mp, construct_mapper m owners rank = Some mp.
Proof.
  intros m owners rank H OM R. destruct (ranks m H rank R) as (x & Ex & C & _ & _). destruct (mapper_ok m H owners OM rank x Ex C R) as (mp & E & _). eauto.
Qed.
Print Assumptions C52_local_mapper_constructed.

Theorem C52_local_rank_of_the_particle : forall d k m owners rank mp pid rid g, cmesh_ok m -> owner_map m owners -> device_ok d -> wf_group g ->
  (rank < csize (comm m))%nat -> int_grid m -> construct_mapper m owners rank = Some mp ->
  (forall p, particle_of g p -> (pid + ndim (hier m) <= length (fst p))%nat /\ (rid + 1 < length (snd p))%nat /\
     (nth (rid + 1) (snd p) 0 < 0 -> inside m (position pid p))) ->
  exists g', local_map d k m mp pid rid None g = Some g' /\ each (mapped_locally m rank pid rid) g g'.
Proof.
  intros d k m owners rank mp pid rid g H OM Hd W R IG CM P. destruct (ranks m H rank R) as (x & Ex & C & _ & _).
  destruct (mapper_ok m H owners OM rank x Ex C R) as (mp' & E' & SP). assert (mp' = mp) by congruence. subst mp'. unfold local_map.
  destruct (loop_all_rel d Hd k (local_map_kernel m mp pid rid) (mapped_locally m rank pid rid) g W) as (g' & E & N & W' & SS & Cc).
  - intros c ps p Ec I. destruct (P p (ex_intro _ c (ex_intro _ ps (conj Ec I)))) as (P1 & P2 & P3). apply (local_effect m H owners OM rank x); assumption.
  - exists g'. split; [exact E|]. apply each_intro; assumption.
Qed.
Print Assumptions C52_local_rank_of_the_particle.

(** The same for one cell: the particles of the other cells are untouched. *)
Theorem C52_local_rank_in_a_cell : forall d k m owners rank mp pid rid cell g, cmesh_ok m -> owner_map m owners -> device_ok d -> wf_group g ->
  (rank < csize (comm m))%nat -> int_grid m -> construct_mapper m owners rank = Some mp -> (cell < length (npart_cell g))%nat ->
  (forall ps p, cell_particles g cell = Some ps -> In p ps -> (pid + ndim (hier m) <= length (fst p))%nat /\ (rid + 1 < length (snd p))%nat /\
     (nth (rid + 1) (snd p) 0 < 0 -> inside m (position pid p))) ->
  exists g', local_map d k m mp pid rid (Some cell) g = Some g' /\ npart_cell g' = npart_cell g /\ wf_group g' /\
    length (reals (Group_Model.st g')) = length (reals (Group_Model.st g)) /\ length (ints (Group_Model.st g')) = length (ints (Group_Model.st g)) /\
    forall c ps, cell_particles g c = Some ps -> exists ps', cell_particles g' c = Some ps' /\
      if (c =? cell)%nat then Forall2 (mapped_locally m rank pid rid) ps ps' else ps' = ps.
Proof.
  intros d k m owners rank mp pid rid cell g H OM Hd W R IG CM L P. destruct (ranks m H rank R) as (x & Ex & C & _ & _).
  destruct (mapper_ok m H owners OM rank x Ex C R) as (mp' & E' & SP). assert (mp' = mp) by congruence. subst mp'. unfold local_map.
  destruct (loop_cell_rel d Hd k (local_map_kernel m mp pid rid) (mapped_locally m rank pid rid) g cell W L) as (g' & E & N & W' & SS & Cc).
  - intros ps p Ec I. destruct (P ps p Ec I) as (P1 & P2 & P3). apply (local_effect m H owners OM rank x); assumption.
  - exists g'. destruct SS as (S1 & S2). apply shape3_length in S1. apply shape3_length in S2. auto 10.
Qed.
Print Assumptions C52_local_rank_in_a_cell.

Theorem C52_global_rank_of_the_particle : forall d k uninit m owners pid rid g, cmesh_ok m -> owner_map m owners -> device_ok d -> wf_group g ->
  (forall p, particle_of g p -> (pid + ndim (hier m) <= length (fst p))%nat /\ (rid + 1 < length (snd p))%nat /\
     (nth (rid + 1) (snd p) 0 < 0 -> inside m (position pid p))) ->
  exists g', global_map d k uninit (hier m) owners pid rid g = Some g' /\ each (mapped m pid rid) g g'.
Proof.
  intros d k uninit m owners pid rid g H OM Hd W P. destruct (global_ok m H owners OM d Hd k uninit pid rid g W) as (g' & E & N & W' & SS & C).
  - intros c ps p Ec I. destruct (P p (ex_intro _ c (ex_intro _ ps (conj Ec I)))) as (P1 & P2 & _). auto.
  - intros c ps p Ec I. apply (P p (ex_intro _ c (ex_intro _ ps (conj Ec I)))).
  - exists g'. split; [exact E|]. apply each_intro; assumption.
Qed.
Print Assumptions C52_global_rank_of_the_particle.

(** A particle without a local rank that is above the domain, by more than the
    tolerance, stops the program. *)
Theorem C52_above_the_domain_reported : forall d k uninit m owners pid rid g p i, cmesh_ok m -> device_ok d -> wf_group g ->
  (forall p, particle_of g p -> (pid + ndim (hier m) <= length (fst p))%nat /\ (rid + 1 < length (snd p))%nat) ->
  particle_of g p -> nth (rid + 1) (snd p) 0 < 0 -> (i < ndim (hier m))%nat ->
  (length_of m i + (1 # 10000000000) * position pid p i < position pid p i)%Q ->
  global_map d k uninit (hier m) owners pid rid g = None.
Proof.
  intros d k uninit m owners pid rid g p i H Hd W P (c & ps & Ec & I) N L A.
  assert (B : (length_of m i < position pid p i)%Q) by (pose proof (len_pos m H i); lra).
  apply (global_above m H owners d Hd k uninit pid rid g W) with (c := c) (ps := ps) (p := p) (i := i); try assumption.
  - intros c' ps' p' Ec' I'. apply (P p'). exists c', ps'. auto.
  - lra.
Qed.
Print Assumptions C52_above_the_domain_reported.

(** ** A point of the rank *)
Theorem C52_point_in_the_subdomain : forall m rank, cmesh_ok m -> (rank < csize (comm m))%nat ->
  exists x, get_point_in_subdomain m rank = Some x /\ length x = ndim (hier m) /\
    exists c, owns m rank c /\ contains m c (fun i => nth i x 0%Q).
Proof.
  intros m rank H R. destruct (ranks m H rank R) as (x & Ex & C & _ & _). pose proof (nd_le m H) as ND. unfold get_point_in_subdomain.
  rewrite Ex. cbn [obind]. rewrite (starts_eq m H), (ends_eq m H) by exact C. cbn [obind]. set (w := fine_width (hier m)).
  set (pt := map (fun i => ((1 # 2) * (inject_Z (CartMesh_Proofs.st m x i) * w + inject_Z (en m x i) * w))%Q) (seq 0 (ndim (hier m)))).
  rewrite (mapM_some _ (fun i => ((1 # 2) * (inject_Z (CartMesh_Proofs.st m x i) * w + inject_Z (en m x i) * w))%Q)).
  2:{ intros i I. apply in_seq in I. rewrite (rd3_st m) by lia. cbn [obind]. rewrite (rd3_en m) by lia. reflexivity. }
  fold pt. exists pt. split; [reflexivity|]. split; [unfold pt; rewrite map_length, seq_length; reflexivity|].
  assert (P : forall i, (i < ndim (hier m))%nat -> (nth i pt 0 == (1 # 2) * (inject_Z (CartMesh_Proofs.st m x i) * w + inject_Z (en m x i) * w))%Q).
  { intros i L. unfold pt. rewrite MeshNb_Proofs.nth_map_seq' by exact L. reflexivity. }
  pose proof (wpos m H) as W. fold w in W.
  assert (SE : forall i, 0 <= CartMesh_Proofs.st m x i < en m x i /\ en m x i <= grid m i) by (intros i; apply (region m H); exact C).
  assert (I : inside m (fun i => nth i pt 0%Q)).
  { intros i L. rewrite (P i L). unfold length_of. fold w. destruct (SE i) as ((S0 & S1) & S2). rewrite Zle_Qle in S0, S2. rewrite Zlt_Qlt in S1. change (inject_Z 0) with 0%Q in S0. split; nra. }
  exists (cellof m (fun i => nth i pt 0%Q)). pose proof (cellof_contains m H _ I) as CO. split; [|exact CO].
  apply (owns_iff m H rank x _ Ex C R). apply owned_in; [exact C|]. destruct CO as ((L3 & G) & CC). split; [exact L3|]. intros i L.
  destruct (Nat.ltb_spec i (ndim (hier m))) as [Q|Q].
  - destruct (SE i) as ((S0 & S1) & S2). pose proof (P i Q) as Pi. destruct (CC i Q) as [(A & B)|(A & _)].
    + fold w in A, B. rewrite Pi in A, B. set (c := nth i (cellof m (fun i => nth i pt 0%Q)) 0) in *.
      assert (S1' : CartMesh_Proofs.st m x i + 1 <= en m x i) by lia. rewrite Zle_Qle, inject_succ in S1'. rewrite inject_succ in B.
      split; [enough (CartMesh_Proofs.st m x i < c + 1) by lia; rewrite Zlt_Qlt, inject_succ|rewrite Zlt_Qlt];
        (match goal with |- (?a < ?b)%Q => destruct (Qlt_le_dec a b) as [|K]; [assumption|exfalso; nra] end).
    + exfalso. cbn beta in A. rewrite Pi in A. unfold length_of in A. fold w in A. rewrite Zle_Qle in S2. rewrite Zlt_Qlt in S1. nra.
  - specialize (G i L). pose proof (SE i) as Si. assert (grid m i = 1) by (unfold grid; destruct (Nat.ltb_spec i (ndim (hier m))); [lia|reflexivity]). lia.
Qed.
Print Assumptions C52_point_in_the_subdomain.

(** ** Six by four cells of width a half on four ranks; rank 1 *)
Definition owners2 : list Z :=
  match build_owners m2 [[0; 1; 2; 3]%nat] (fun _ l => l) (fun _ l => l) [repeat 7 24] with Some [o] => o | _ => [] end.
Definition dev52 : device := {| ord := fun A k l => if Nat.even k then rev l else l; junk := fun _ _ => 77; local_size := 2; max_compute_units := 3 |}.
(** Two particles in cell 0 and one in cell 3; REAL: x, y; INT: cell, rank, local rank. *)
Definition g52 : group Q := mk_group
  (mk_store [ [[22#10; 21#10]; []; []; [-3#10]; []; []]; [[12#10; 7#10]; []; []; [51#10]; []; []] ]
            [ [[0; 0]; []; []; [3]; []; []]; [[8; 8]; []; []; [8]; []; []]; [[9; -4]; []; []; [-4]; []; []] ])
  [2; 0; 0; 1; 0; 0]%nat.
Example C52_instance :
  (g1 <- cartesian_periodic dev52 0 m2 0 (Some [1; 1]) g52 ;; cell_particles g1 3) = Some [([27 # 10; 11 # 10]%Q, [3; 8; -4])] /\
  (g1 <- cartesian_periodic dev52 0 m2 0 None g52 ;; g2 <- reset_mpi_ranks dev52 1 1 g1 ;; mp <- construct_mapper m2 owners2 1 ;;
   g3 <- local_map dev52 2 m2 mp 0 1 None g2 ;; g4 <- global_map dev52 3 [] (hier m2) owners2 0 1 g3 ;; g5 <- map_cells dev52 4 m2 1 0 0 g4 ;;
   Some (ints (Group_Model.st g3), ints (Group_Model.st g4), ints (Group_Model.st g5)))
  = Some ([ [[0; 0]; []; []; [3]; []; []]; [[-1; -1]; []; []; [-1]; []; []]; [[-1; -1]; []; []; [3]; []; []] ],
          [ [[0; 0]; []; []; [3]; []; []]; [[3; 2]; []; []; [-1]; []; []]; [[-1; -1]; []; []; [3]; []; []] ],
          [ [[2; 2]; []; []; [2]; []; []]; [[3; 2]; []; []; [-1]; []; []]; [[-1; -1]; []; []; [3]; []; []] ]).
Proof. vm_compute. split; reflexivity. Qed.
Definition g52a : group Q := mk_group
  (mk_store [ [[22#10; 21#10]; []; []; [27#10]; []; []]; [[12#10; 2#1]; []; []; [11#10]; []; []] ]
            [ [[0; 0]; []; []; [3]; []; []]; [[-1; -1]; []; []; [-1]; []; []]; [[-1; -1]; []; []; [-1]; []; []] ])
  [2; 0; 0; 1; 0; 0]%nat.
Lemma particle_of_in g p : particle_of g p -> exists c ps, (c < length (npart_cell g))%nat /\ cell_particles g c = Some ps /\ In p ps.
Proof.
  intros (c & ps & E & I). exists c, ps. split; [|auto]. unfold cell_particles in E. destruct (nth_error (npart_cell g) c) eqn:Q; [|discriminate]. eapply nth_error_some_lt; eauto.
Qed.
(** The hypotheses of the theorems hold of these groups. *)
Example C52_instance_hypotheses :
  cmesh_ok m2 /\ owner_map m2 owners2 /\ device_ok dev52 /\ wf_group g52 /\ wf_group g52a /\ int_grid m2 /\ int_cells m2 1 /\
  (forall p, particle_of g52 p -> (0 + ndim (hier m2) <= length (fst p))%nat /\ few_domains m2 (position 0 p)) /\
  (forall p, particle_of g52a p -> (0 + ndim (hier m2) <= length (fst p))%nat /\ (1 + 1 < length (snd p))%nat /\ (0 < length (snd p))%nat /\
     few_cells m2 (position 0 p) /\ inside m2 (position 0 p)).
Proof.
  assert (M : cmesh_ok m2) by apply C51_instance_meshes. split; [exact M|]. split.
  { destruct (C51_owner_map m2 [[0; 1; 2; 3]%nat] (fun _ l => l) (fun _ l => l) [repeat 7 24] M) as (o & E & O).
    - reflexivity.
    - reflexivity.
    - reflexivity.
    - discriminate.
    - repeat constructor; discriminate.
    - reflexivity.
    - repeat constructor.
    - unfold owners2. rewrite E. exact O. }
  split; [split; [intros A k l; cbn; destruct (Nat.even k); [symmetry; apply Permutation_rev|reflexivity]|cbn; lia]|].
  split; [apply wf_groupb_sound; reflexivity|]. split; [apply wf_groupb_sound; reflexivity|].
  assert (IG : int_grid m2) by (intros i; unfold grid; destruct (Nat.ltb_spec i (ndim (hier m2))) as [L|]; [|lia]; destruct i as [|[|i]]; [vm_compute; reflexivity..|cbn in L; lia]).
  split; [exact IG|]. split; [intros n E; vm_compute in E; injection E as <-; vm_compute; reflexivity|]. split.
  - intros p I. apply particle_of_in in I. destruct I as (c & ps & L & E & I). cbn [g52 npart_cell length] in L.
    do 6 (destruct c as [|c]; [vm_compute in E; injection E as <-; cbn [In] in I; repeat (destruct I as [<-|I]; [split; [cbn; lia|]; intros i Li; destruct i as [|[|i]]; [vm_compute; split; reflexivity..|cbn in Li; lia]|]); destruct I|]). lia.
  - intros p I. apply particle_of_in in I. destruct I as (c & ps & L & E & I). cbn [g52a npart_cell length] in L.
    do 6 (destruct c as [|c]; [vm_compute in E; injection E as <-; cbn [In] in I; repeat (destruct I as [<-|I]; [split; [cbn; lia|]; split; [cbn; lia|]; split; [cbn; lia|]; split; intros i Li; (destruct i as [|[|i]]; [vm_compute; split; (reflexivity || discriminate)..|cbn in Li; lia])|]); destruct I|]). lia.
Qed.
Example C52_instance_subdomain : get_point_in_subdomain m2 1 = Some [6 # 8; 12 # 8]%Q.
Proof. reflexivity. Qed.

(** Finding: only positions above the domain are reported.  A particle below
    the origin is given a rank without an error, by the truncation towards
    zero that of cell 0. *)
Theorem C52_below_the_origin_refuted : exists (g : group Q) p, wf_group g /\ particle_of g p /\ nth 2 (snd p) 0 < 0 /\ (position 0 p 0 < 0)%Q /\
  exists g', global_map dev52 0 [] (hier m2) owners2 0 1 g = Some g' /\ particle_of g' (fst p, [0; 0; -1]).
Proof.
  set (g := mk_group (mk_store [ [[-1#10]; []; []; []; []; []]; [[7#10]; []; []; []; []; []] ]
              [ [[0]; []; []; []; []; []]; [[-1]; []; []; []; []; []]; [[-1]; []; []; []; []; []] ]) [1; 0; 0; 0; 0; 0]%nat).
  exists g, ([-1#10; 7#10]%Q, [0; -1; -1]). split; [apply wf_groupb_sound; reflexivity|].
  split; [exists 0%nat; eexists; split; [reflexivity|left; reflexivity]|]. split; [reflexivity|]. split; [reflexivity|].
  eexists. split; [vm_compute; reflexivity|]. exists 0%nat. eexists. split; [reflexivity|left; reflexivity].
Qed.
Print Assumptions C52_below_the_origin_refuted.
