(** C60: particles that leave a Cartesian mesh are reported with the point, the
    inward normal, the face cell and the group of the side they leave through. *)
From Coq Require Import List Arith ZArith QArith Qabs Bool Lia Lqa Permutation.
Import ListNotations.
From Verif Require Import Base Kernel Mesh_Model Mesh_Spec CartMesh_Model CartMesh_Spec CartMesh_Proofs CartMesh_Props CartFace_Model CartFace_Spec CartFace_Proofs CartFace_Props
  CartMap_Spec CartMap_Proofs Traj_Model Traj_Spec Traj_Proofs Traj2_Proofs Traj3_Proofs.
Local Open Scope Q_scope.

(** Whatever the order of the work items and whatever the buffers held: no
    departing particle is lost or reported twice, each is in the sub-group of
    its side, with the data of the point where it leaves. *)
Theorem C60_departing_particles : forall m tol groups parts npart b0 fq fz sched,
  cmesh_ok m -> (2 <= ndim (hier m))%nat -> 0 <= tol -> tol < fine_width (hier m) ->
  groups_ok m groups -> parts_ok m parts npart -> (forall l, Permutation (sched l) l) -> (forall p, In p parts -> moves m p) ->
  exists res (side : tpart -> nat) (point : tpart -> list Q),
    post_integration m tol groups parts npart b0 fq fz sched = Some res /\
    map fst res = map fst groups /\
    (forall p, In p parts -> ~ inside m (at_ (pos p)) -> leaves_through m tol p (side p) (point p)) /\
    forall g hits, In (g, hits) res ->
      NoDup (map h_part hits) /\
      (forall p, In p (map h_part hits) <-> In p parts /\ ~ inside m (at_ (pos p)) /\ group_of groups (side p) g) /\
      forall hx, In hx hits ->
        h_point hx = point (h_part hx) /\ inward_normal m (side (h_part hx)) (h_normal hx) /\
        exists c id, h_metadata hx = [g; id] /\ face_cell m id (side (h_part hx)) c /\ facet_of_point m (side (h_part hx)) c (h_point hx).
Proof.
  intros m tol groups parts npart b0 fq fz sched H N2 T0 T1 GO PO SP M.
  destruct (post_ok m H N2 tol T0 T1 groups parts npart b0 fq fz sched GO PO SP M) as (mp & Lmp & Rmp & E). cbv zeta in E.
  assert (LT : forall p, In p parts -> ~ inside m (at_ (pos p)) -> leaves_through m tol p (side m tol p) (point m tol p)).
  { intros p I D. destruct PO as (_ & PB). destruct (PB p I) as (_ & L1 & L2). apply (W_ok m H N2 tol T0 T1 p L1 L2 (M p I) D). }
  eexists; exists (side m tol), (point m tol). split; [exact E|]. split; [rewrite map_map; reflexivity|]. split; [exact LT|].
  intros g hits I. apply in_map_iff in I. destruct I as ([g' fs] & [= -> <-] & I). cbn [fst].
  set (dep := filter (depb m) parts). rewrite map_map. cbn [h_part]. rewrite map_id.
  assert (ID : forall p, In p dep <-> In p parts /\ ~ inside m (at_ (pos p))) by (intros p; unfold dep; rewrite filter_In, (depb_iff m H N2); reflexivity).
  assert (S6 : forall p, In p dep -> (side m tol p < 2 * ndim (hier m))%nat /\ (side m tol p < 6)%nat).
  { intros p Ip. apply ID in Ip. destruct (LT p (proj1 Ip) (proj2 Ip)) as (L & _). pose proof (nd_le m H). lia. }
  assert (GI : forall p, In p dep -> Z.eqb (nth (side m tol p) mp 0%Z) g = true <-> group_of groups (side m tol p) g).
  { intros p Ip. destruct (S6 p Ip) as (_ & S). rewrite Z.eqb_eq. destruct (Rmp _ S) as [(g1 & E1 & G1)|(E1 & G1)]; rewrite (nth_error_nth _ _ 0%Z E1).
    - split; [intros <-; exact G1|]. intros G. destruct G1 as ((f1 & A1 & B1) & M1). destruct G as ((f2 & A2 & B2) & M2). specialize (M1 _ _ A2 B2). specialize (M2 _ _ A1 B1). lia.
    - split; [intros X; destruct GO as (_ & GB); destruct (GB g fs I) as (Nm & _); congruence|]. intros ((f2 & A2 & B2) & _). exfalso. eapply G1; eassumption. }
  split; [|split].
  - apply NoDup_filter. unfold dep. apply NoDup_filter. destruct PO as (ND & _). eapply NoDup_map_inv. exact ND.
  - intros p. rewrite filter_In, <- and_assoc, <- ID. split; intros (A & B); (split; [exact A|apply (GI p A); exact B]).
  - intros hx Ih. apply in_map_iff in Ih. destruct Ih as (p & <- & Ip). cbn [h_part h_point h_normal h_metadata]. apply filter_In in Ip. destruct Ip as (Ip & G).
    destruct (S6 p Ip) as (S1 & S2). split; [reflexivity|]. split; [apply (nrm_ok m H N2); exact S1|].
    assert (D : in_domain m tol (at_ (point m tol p))). { apply ID in Ip. destruct (LT p (proj1 Ip) (proj2 Ip)) as (_ & _ & t & _ & _ & _ & D). exact D. }
    exists (cellt m (side m tol p) (l0 m (side m tol p) (point m tol p)) (l1 m (side m tol p) (point m tol p))), (idof m (side m tol p) (l0 m (side m tol p) (point m tol p)) (l1 m (side m tol p) (point m tol p))).
    split; [apply Z.eqb_eq in G; rewrite G; reflexivity|]. split.
    + apply (face_cell_tok m H N2). exists (l0 m (side m tol p) (point m tol p)), (l1 m (side m tol p) (point m tol p)). split; [apply (l_tok m H N2 tol T0 T1); assumption|]. split; reflexivity.
    + apply (l_facet m H N2 tol T0 T1); assumption.
Qed.
Print Assumptions C60_departing_particles.

(** Before the point where it leaves the particle was inside, when it started
    inside and the point is on the boundary of the domain itself: with a
    tolerance of zero the reported point is the first boundary point of the
    trajectory.  The normal points to where the particle comes from. *)
Theorem C60_first_boundary_point : forall m p f x n, cmesh_ok m -> (2 <= ndim (hier m))%nat -> leaves_through m 0 p f x -> inside m (at_ (prev p)) -> inward_normal m f n ->
  (exists t, 0 < t <= 1 /\ (forall i, (i < ndim (hier m))%nat -> at_ x i == on_way p t i) /\
     (forall s, 0 <= s -> s < t -> inside m (on_way p s)) /\ ~ inside m (on_way p t)) /\
  0 < (at_ (prev p) (side_dim f) - at_ x (side_dim f)) * at_ n (side_dim f).
Proof.
  intros m p f x n H N2 (Lf & Lx & t & T & Tp & Pl & D) I (Ln & Nn). assert (Ls : (side_dim f < ndim (hier m))%nat).
  { unfold side_dim. pose proof (nd_le m H). destruct f as [|[|[|[|[|[|f]]]]]]; cbn [nth]; lia. }
  split.
  - exists t. assert (Tpos : 0 < t).
    { destruct (Qlt_le_dec 0 t) as [?|X]; [assumption|]. assert (t == 0) by lra. specialize (I _ Ls). specialize (Tp _ Ls). unfold on_way in Tp. rewrite H0 in Tp. destruct (side_high f); lra. }
    split; [lra|]. split; [exact Tp|]. split.
    + intros s S0 S1 i Li. specialize (Tp i Li). specialize (D i Li). specialize (I i Li). unfold on_way in *. rewrite Tp in D.
      set (a := at_ (prev p) i) in *. set (d := at_ (pos p) i - a) in *. clearbody a d.
      assert (E : t * (a + s * d) == (t - s) * a + s * (a + t * d)) by ring. set (y := a + t * d) in *. set (z := a + s * d) in *. clearbody y z. split; nra.
    + intros X. specialize (X _ Ls). rewrite <- (Tp _ Ls) in X. destruct (side_high f); lra.
  - specialize (I _ Ls). rewrite (Nn _ Ls), Nat.eqb_refl. destruct (side_high f); lra.
Qed.
Print Assumptions C60_first_boundary_point.

(** pre_integration stores the position. *)
Theorem C60_pre_integration : forall nd p, (nd <= length (pos p))%nat -> (nd <= length (prev p))%nat ->
  exists p', pre_integration nd p = Some p' /\ lin p' = lin p /\ pos p' = pos p /\ length (prev p') = length (prev p) /\ forall i, (i < nd)%nat -> at_ (prev p') i = at_ (pos p) i.
Proof.
  intros nd p L1 L2. unfold pre_integration.
  destruct (foldM_ind (fun (a : list Q) dimx => v <- rd (pos p) dimx ;; upd a dimx v) (fun pre a => length a = length (prev p) /\ forall i, In i pre -> nth_error a i = nth_error (pos p) i) (seq 0 nd) (prev p)) as (a & E & La & I).
  - split; [reflexivity|]. intros i [].
  - intros pre d post a Es (La & I). assert (Ld : (d < nd)%nat). { assert (X : In d (seq 0 nd)) by (rewrite Es; apply in_or_app; right; left; reflexivity). apply in_seq in X. lia. }
    destruct (nth_error (pos p) d) as [v|] eqn:Ev; [|apply nth_error_None in Ev; lia]. unfold rd. rewrite Ev. cbn [obind]. destruct (upd_some a d v) as [a' Ea]; [lia|].
    exists a'. split; [exact Ea|]. split; [rewrite (upd_length _ _ _ _ Ea); exact La|]. intros i Ii. rewrite (upd_nth _ _ _ _ _ Ea). destruct (Nat.eqb_spec i d) as [->|N]; [symmetry; exact Ev|].
    apply in_app_or in Ii. destruct Ii as [Ii|[->|[]]]; [apply I; exact Ii|congruence].
  - rewrite E. cbn [obind]. eexists. split; [reflexivity|]. cbn [lin pos prev]. repeat (split; [reflexivity||exact La|]). intros i Li.
    specialize (I i ltac:(apply in_seq; lia)). unfold at_. rewrite (nth_error_nth' a 0) in I by lia. rewrite (nth_error_nth' (pos p) 0) in I by lia. congruence.
Qed.
Print Assumptions C60_pre_integration.

(** Two dimensions, 6 by 4 cells of width a half; the low x side is in no group. *)
Definition ex_groups : list (Z * list Z) := [(5, [0; 1]); (9, [2])]%Z.
Definition ex_parts : list tpart :=
  [mk_tpart 3 [4; 3 # 2] [1; 3 # 4]; mk_tpart 0 [2; 1] [1; 1]; mk_tpart 4 [2; 5 # 2] [1; 1]; mk_tpart 1 [- 1; 1] [1; 1]].
Definition ex_bufs : bufs := mk_bufs [7] [8; 8; 8; 8]%Z [].
Lemma inside2 x : inside m2 x <-> (0 < x 0%nat < 3 /\ 0 < x 1%nat < 2).
Proof.
  unfold inside. change (ndim (hier m2)) with 2%nat. assert (E0 : length_of m2 0 == 3) by reflexivity. assert (E1 : length_of m2 1 == 2) by reflexivity. split.
  - intros X. split; [rewrite <- E0|rewrite <- E1]; apply X; lia.
  - intros (A & B) [|[|i]] L; [rewrite E0; exact A|rewrite E1; exact B|lia].
Qed.
Example C60_instance_hypotheses :
  cmesh_ok m2 /\ (1 # 1000) < fine_width (hier m2) /\ groups_ok m2 ex_groups /\ parts_ok m2 ex_parts 5 /\ (forall l : list nat, Permutation (rev l) l) /\
  forall p, In p ex_parts -> moves m2 p.
Proof.
  split; [apply C51_instance_meshes|]. split; [reflexivity|]. split; [|split; [|split]].
  - split; [cbn; repeat split; intros b Hb; repeat destruct Hb as [<-|Hb]; try lia; destruct Hb|].
    intros g fs [[= <- <-]|[[= <- <-]|[]]]; (split; [discriminate|]); intros f Hf; cbn [ndim hier m2 h2]; repeat destruct Hf as [<-|Hf]; try lia; destruct Hf.
  - split; [repeat constructor; cbn; intuition lia|]. intros p [<-|[<-|[<-|[<-|[]]]]]; cbn; lia.
  - intros l. symmetry. apply Permutation_rev.
  - assert (E0 : length_of m2 0 == 3) by reflexivity. assert (E1 : length_of m2 1 == 2) by reflexivity.
    intros p [<-|[<-|[<-|[<-|[]]]]]; (split; [intros [|[|i]] L; unfold at_; cbn [prev nth ndim hier m2 h2] in *; [rewrite E0; lra|rewrite E1; lra|lia]|]).
    + right. exists 0%nat. split; [cbn; lia|]. rewrite E0. unfold at_. cbn [pos prev nth]. split; [intros [? ?]; lra|intros ?; lra].
    + left. apply inside2. unfold at_. cbn [pos nth]. lra.
    + right. exists 1%nat. split; [cbn; lia|]. rewrite E1. unfold at_. cbn [pos prev nth]. split; [intros [? ?]; lra|intros ?; lra].
    + right. exists 0%nat. split; [cbn; lia|]. rewrite E0. unfold at_. cbn [pos prev nth]. split; [intros [? ?]; lra|intros ?; lra].
Qed.
(** The first particle leaves at (3, 5/4): side 1, the third facet of that side, number 6 + 2. *)
Example C60_instance : exists x y,
  post_integration m2 (1 # 1000) ex_groups ex_parts 5 ex_bufs (fun _ => 1) (fun _ => 2%Z) (@rev nat) =
  Some [(5%Z, [mk_hit (mk_tpart 3 [4; 3 # 2] [1; 3 # 4]) x [- 1; 0] [5; 8]%Z]); (9%Z, [mk_hit (mk_tpart 4 [2; 5 # 2] [1; 1]) y [0; - 1] [9; 13]%Z])] /\
  at_ x 0 == 3 /\ at_ x 1 == 5 # 4 /\ at_ y 0 == 5 # 3 /\ at_ y 1 == 2.
Proof. vm_compute. eexists _, _. repeat split. Qed.
(** Three dimensions, 2 by 7 by 3 cells of width a half; through the top near the corner. *)
Example C60_instance_three : exists x,
  post_integration m3 0 [(1, [0; 1; 2; 3; 4; 5])]%Z [mk_tpart 0 [3 # 4; 3; 2] [1 # 2; 3; 1]] 1 (mk_bufs [] [] []) (fun _ => 1) (fun _ => 2%Z) (fun l => l) =
  Some [(1%Z, [mk_hit (mk_tpart 0 [3 # 4; 3; 2] [1 # 2; 3; 1]) x [0; 0; - 1] [1; 81]%Z])] /\ at_ x 0 == 5 # 8 /\ at_ x 1 == 3 /\ at_ x 2 == 3 # 2 /\
  face_cell m3 81 5 [1; 6; 2]%Z.
Proof. vm_compute. eexists. repeat split. exists [5; 1; 6]%Z. auto. Qed.

(** A particle which moves within the plane of a side (it started on the
    boundary) is found departing, but no side is found for it: the call throws. *)
Theorem C60_along_the_boundary_refuted : exists p, in_domain m2 0 (at_ (prev p)) /\ in_domain m2 0 (at_ (pos p)) /\ ~ inside m2 (at_ (pos p)) /\
  post_integration m2 (1 # 1000) ex_groups [p] 1 ex_bufs (fun _ => 1) (fun _ => 2%Z) (fun l => l) = None.
Proof.
  exists (mk_tpart 0 [2; 0] [1; 0]). assert (E0 : length_of m2 0 == 3) by reflexivity. assert (E1 : length_of m2 1 == 2) by reflexivity.
  split; [intros [|[|i]] L; unfold at_; cbn [prev nth ndim hier m2 h2] in *; [rewrite E0; lra|rewrite E1; lra|lia]|].
  split; [intros [|[|i]] L; unfold at_; cbn [pos nth ndim hier m2 h2] in *; [rewrite E0; lra|rewrite E1; lra|lia]|].
  split; [|vm_compute; reflexivity]. intros X. apply inside2 in X. unfold at_ in X. cbn [pos nth] in X. lra.
Qed.
Print Assumptions C60_along_the_boundary_refuted.
(** A side named by two groups belongs to the last of them only. *)
Theorem C60_side_in_two_groups_refuted : exists p, ~ inside m2 (at_ (pos p)) /\
  post_integration m2 0 [(1, [1]); (2, [1])]%Z [p] 1 ex_bufs (fun _ => 1) (fun _ => 2%Z) (fun l => l) = Some [(1%Z, []); (2%Z, [mk_hit p [3; 3 # 3] [- 1; 0] [2; 8]%Z])].
Proof. exists (mk_tpart 0 [4; 1] [1; 1]). split; [intros X; apply inside2 in X; unfold at_ in X; cbn [pos nth] in X; lra|]. vm_compute. reflexivity. Qed.
Print Assumptions C60_side_in_two_groups_refuted.
