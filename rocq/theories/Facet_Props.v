(** C80: BoundaryInteraction2D finds for each particle the first facet of the boundary its trajectory crosses. *)
From Coq Require Import List Arith ZArith QArith Qminmax Bool Lia Lqa Permutation.
Import ListNotations.
From Verif Require Import Base Kernel Maps_Model Maps_Spec Maps_Props Mesh_Model Mesh_Spec DeviceFn_Model DeviceFn_Spec Overlap_Model Overlap_Spec Overlap_Props Facet_Model Facet_Spec Facet_Proofs FacetHit_Proofs.
Local Open Scope nat_scope.

Lemma labels_total groups : ForallOrdPairs (fun a b => forall l, In l (snd a) -> ~ In l (snd b : list Z)) groups -> exists labels, get_labels groups = Some labels.
Proof.
  unfold get_labels.
  assert (I1 : forall xs acc, NoDup xs -> (forall l, In l xs -> ~ In l acc) -> exists r, foldM (fun labels ix => _ <- assert (negb (mem ix labels)) ;; Some (labels ++ [ix])) acc xs = Some r /\ forall l, In l r <-> In l acc \/ In l xs).
  { induction xs as [|x xs IH]; intros acc N D; cbn [foldM]; [exists acc; split; [reflexivity|cbn [In]; tauto]|]. inversion N as [|? ? N1 N2]; subst. destruct (mem x acc) eqn:M; [apply mem_in in M; exfalso; exact (D x (or_introl eq_refl) M)|]. cbn [negb assert obind].
    destruct (IH (acc ++ [x]) N2) as (r & E & H). { intros l I J. apply in_app_iff in J. destruct J as [J|[<-|[]]]; [exact (D l (or_intror I) J)|contradiction]. }
    exists r. split; [exact E|]. intros l. rewrite H, in_app_iff. cbn [In]. tauto. }
  enough (G : forall gs (acc : list Z), ForallOrdPairs (fun a b => forall l, In l (snd a) -> ~ In l (snd b : list Z)) gs -> (forall item l, In item gs -> In l (snd item) -> ~ In l acc) ->
    exists r, foldM (fun labels (item : Z * list Z) => foldM (fun labels ix => _ <- assert (negb (mem ix labels)) ;; Some (labels ++ [ix])) labels (nodup Z.eq_dec (snd item))) acc gs = Some r).
  { intros F. apply G; [exact F|intros item l _ _ []]. }
  induction gs as [|g gs IH]; intros acc F D; cbn [foldM]; [eauto|]. inversion F as [|? ? F1 F2]; subst.
  destruct (I1 (nodup Z.eq_dec (snd g)) acc) as (r & E & H); [apply NoDup_nodup|intros l I; apply nodup_In in I; apply (D g l (or_introl eq_refl) I)|]. rewrite E. cbn [obind]. apply IH; [exact F2|]. intros item l I J K. apply H in K. destruct K as [K|K]; [exact (D item l (or_intror I) J K)|]. apply nodup_In in K. rewrite Forall_forall in F1. exact (F1 item I l K J).
Qed.
Lemma constructed m groups tol max_real ranks : mesh_ok m -> ndim m = 2 -> groups_ok groups -> exists b, construct m groups tol max_real ranks = Some b.
Proof.
  intros Hm H2 (G1 & G2). unfold construct. assert (F : forallb (fun item => (0 <=? fst item)%Z) groups = true) by (apply forallb_forall; intros i I; rewrite Forall_forall in G1; apply Z.leb_le; apply G1; exact I). rewrite F. cbn [assert obind]. rewrite H2. pose proof Hm as ((_ & D) & _). rewrite H2 in D. cbn [seq mapM]. rewrite !(rd_nth (dims m) _ 0%Z) by lia. cbn [obind]. destruct (labels_total groups G2) as (labels & E). rewrite E. cbn [obind].
  match goal with |- exists b, (cells <- mapM ?f ?l ;; _) = Some b => destruct (mapM_total f l) as (cells & Ec) end; [|rewrite Ec; cbn [obind]; eauto].
  intros f _. destruct (C72_overlap m (the_box f) Hm ltac:(lia) eq_refl) as (cells & Ec & _). exists (map fst cells). change (get_bounding_box f) with (Some (the_box f)). cbn [obind]. rewrite Ec. reflexivity.
Qed.

Lemma pick_nodup g l : NoDup (map fst l) -> NoDup (map fst (pick (in_group g) l)).
Proof.
  assert (S : forall l j, In j (map fst (pick (in_group g) l)) -> In j (map fst l)).
  { intros l' j I. apply in_map_iff in I. destruct I as ((j' & v) & E & I). apply in_pick in I. destruct I as ((j2 & h) & I & E2). unfold in_group in E2. cbn [fst snd] in *. subst j'. destruct h as [h|]; [|discriminate]. destruct (_ =? g)%Z; [|discriminate]. inversion E2; subst. apply in_map_iff. exists (j, Some h). auto. }
  induction l as [|(j & h) l IH]; cbn [pick map]; [constructor|]. intros N. inversion N as [|? ? N1 N2]; subst. unfold in_group at 1. cbn [fst snd] in *. destruct h as [h|]; [|auto]. destruct (_ =? g)%Z; [|auto]. cbn [map fst]. constructor; [intros X; exact (N1 (S l j X))|auto].
Qed.
Lemma filter_nodup {A B} (f : A * B -> bool) l : NoDup (map fst l) -> NoDup (map fst (filter f l)).
Proof.
  induction l as [|a l IH]; cbn [filter map]; [auto|]. intros N. inversion N as [|? ? N1 N2]; subst. destruct (f a); [|auto]. cbn [map]. constructor; [|auto]. intros X. apply N1. apply in_map_iff in X. destruct X as (y & E & I). apply filter_In in I. apply in_map_iff. exists y. tauto.
Qed.
Lemma indexed_in {A} (l : list A) : forall k j a, In (j, a) (List.combine (seq k (length l)) l) <-> k <= j /\ nth_error l (j - k) = Some a.
Proof.
  induction l as [|x l IH]; intros k j a; cbn [length seq List.combine In].
  - split; [tauto|]. intros (_ & E). destruct (j - k); discriminate.
  - rewrite IH. split.
    + intros [[= <- <-]|(L & E)]; [rewrite Nat.sub_diag; split; [lia|reflexivity]|]. split; [lia|]. replace (j - k) with (S (j - S k)) by lia. exact E.
    + intros (L & E). destruct (Nat.eq_dec j k) as [->|N]; [left; rewrite Nat.sub_diag in E; cbn in E; congruence|]. right. split; [lia|]. replace (j - k) with (S (j - S k)) in E by lia. exact E.
Qed.
Lemma sub_groups_ok b hits : right_output (i_groups b) (map result hits) (sub_groups b hits).
Proof.
  unfold sub_groups. set (idx := List.combine (seq 0 (length hits)) hits). set (it := if length (i_groups b) =? 1 then idx else _).
  assert (N : NoDup (map fst idx)). { unfold idx. replace (map fst (List.combine (seq 0 (length hits)) hits)) with (seq 0 (length hits)); [apply seq_NoDup|]. generalize 0. induction hits as [|h hs IH]; intros k; cbn; [reflexivity|]. f_equal. apply IH. }
  assert (Nit : NoDup (map fst it)) by (unfold it; destruct (length (i_groups b) =? 1); [exact N|apply filter_nodup; exact N]).
  assert (Iit : forall j h, In (j, Some h) it <-> nth_error hits j = Some (Some h)).
  { intros j h. assert (X : In (j, Some h) idx <-> nth_error hits j = Some (Some h)) by (unfold idx; rewrite indexed_in, Nat.sub_0_r; split; [tauto|intros; split; [lia|assumption]]). unfold it. destruct (length (i_groups b) =? 1); [exact X|]. rewrite filter_In. cbn [snd]. rewrite X. tauto. }
  split; [rewrite map_map; reflexivity|]. intros g l I. apply in_map_iff in I. destruct I as (item & E & _). inversion E; subst g l. clear E. split; [apply pick_nodup; exact Nit|]. intros j v. rewrite in_pick. rewrite nth_error_map. split.
  - intros ((j' & h) & I & E). unfold in_group in E. cbn [fst snd] in E. destruct h as [h|]; [|discriminate]. destruct (Z.eqb_spec (snd (fst (h_c h))) (fst item)) as [G|]; [|discriminate]. inversion E; subst j' v. apply Iit in I. rewrite I. cbn [option_map result]. rewrite G. auto.
  - intros (E & G). destruct (nth_error hits j) as [[h|]|] eqn:Eh; cbn [option_map result] in E; try discriminate. inversion E; subst v. cbn [fst snd] in G. exists (j, Some h). split; [apply Iit; exact Eh|]. unfold in_group. cbn [fst snd]. rewrite G, Z.eqb_refl. reflexivity.
Qed.

(** Take any 2D mesh hierarchy, boundary groups without a common label, and boundary facets on any ranks, all in the domain, where facets
    with the same global index have the same normal.  Then the set up succeeds, and so does any sequence of calls with any particles.
    Each call gives each particle the right result: none only if the trajectory crosses no facet of the boundary; otherwise
    the point, normal, group and index of a facet that is crossed (up to the tolerance), with no crossing nearer to the start.  The output
    has for each group the particles whose result is in that group, once each. *)
Theorem C80_boundary_crossings : forall m groups tol max_real ranks ncell fresh_e fresh_n cs,
  mesh_ok m -> ndim m = 2 -> groups_ok groups -> (0 <= tol)%Q ->
  (forall f, boundary_facet groups ranks f -> facet_inside m f) ->
  (forall f g, boundary_facet groups ranks f -> boundary_facet groups ranks g -> f_id f = f_id g -> f_n f = f_n g) ->
  allocation width8 fresh_e -> allocation width8 fresh_n -> Forall (call_ok m ncell max_real) cs ->
  exists b s outs, construct m groups tol max_real ranks = Some b /\ run_calls fresh_e fresh_n b ncell cs = Some (s, outs) /\
    Forall2 (fun c out => exists results, Forall2 (nearest groups ranks tol) (c_particles c) results /\ right_output groups results out) cs outs.
Proof.
  intros m groups tol max_real ranks ncell fresh_e fresh_n cs Hm H2 Hg Ht Hin Hnorm He Hn Hcs. destruct (constructed m groups tol max_real ranks Hm H2 Hg) as (b & Hb).
  destruct (built m groups tol max_real ranks b Hm H2 Hb) as (Em & Eg & _ & _ & Eb & _).
  exists b. unfold run_calls.
  destruct (foldM_ind (fun s c => r <- post_integration fresh_e fresh_n b ncell (fst s) c ;; Some (fst r, snd s ++ [snd r])) (fun pre s => store_ok groups b fresh_e fresh_n (fst s) /\
    Forall2 (fun c out => exists results, Forall2 (nearest groups ranks tol) (c_particles c) results /\ right_output groups results out) pre (snd s)) cs (new_store, [])) as ((s & outs) & E & _ & H).
  - split; [|constructor]. exists [], []. split; [reflexivity|]. split; [reflexivity|]. split; [intros cell; left; reflexivity|]. split; [intros cell []|]. split; [|intros cell f []]. split; [intros f _ []|intros id X; exfalso; apply X; reflexivity].
  - intros pre c post (s & outs) Ec (Hs & Ho). cbn [fst snd] in *. assert (Ic : In c cs) by (rewrite Ec; apply in_app_iff; right; left; reflexivity). rewrite Forall_forall in Hcs. destruct (Hcs c Ic) as (Hd & Enc & Hp). rewrite Forall_forall in Hp.
    unfold post_integration. destruct (find_cells_ok m Hm H2 ncell (c_dev c) b (c_junk c) (s_collected s) (c_particles c) Hd Em Eb) as (req & Er & Hr); [intros p Ip; destruct (Hp p Ip) as (A & B & C & _); auto|]. rewrite Er. cbn [obind].
    destruct (collect_all m groups tol max_real ranks b Hm H2 Hb Hnorm fresh_e fresh_n He Hn req s Hs) as (s' & Es & Hs' & Cs). rewrite Es. cbn [obind]. rewrite Enc.
    assert (Each : forall p, In p (c_particles c) -> exists h, find_intersection b s' 2 p = Some h /\ nearest groups ranks tol p (result h)).
    { intros p Ip. destruct (Hp p Ip) as (A & B & C & D & F). apply (intersection_ok m groups tol max_real ranks b Hm H2 Ht Hb Hin fresh_e fresh_n He Hn s' p Hs'); [apply B|apply C|exact D|exact F|]. intros cc l I1 I2. apply Cs. destruct (Hr p cc l Ip I1 I2); auto. }
    destruct (mapM_total (find_intersection b s' 2) (c_particles c)) as (hits & Eh); [intros p Ip; destruct (Each p Ip) as (h & E & _); eauto|]. rewrite Eh. cbn [obind fst snd]. eexists. split; [reflexivity|]. cbn [fst snd]. split; [exact Hs'|]. apply Forall2_app; [exact Ho|]. constructor; [|constructor]. exists (map result hits). split; [|rewrite <- Eg; apply sub_groups_ok].
    clear - Eh Each. revert hits Eh. induction (c_particles c) as [|p ps IH]; intros hits; cbn [mapM]; [intros [= <-]; constructor|]. destruct (Each p (or_introl eq_refl)) as (h & E & N). rewrite E. cbn [obind]. destruct (mapM (find_intersection b s' 2) ps) as [hs|] eqn:Em; cbn [obind]; [|discriminate]. intros [= <-]. cbn [map]. constructor; [exact N|]. apply IH; [intros q I; apply Each; right; exact I|reflexivity].
  - exists s, outs. auto.
Qed.
Print Assumptions C80_boundary_crossings.

(** A mesh hierarchy of 4 x 4 cells on [0, 2] x [0, 2] whose sides are the boundary.  The first two sides are on rank 0, the others on
    rank 1; the face set 300 is in no group.  In the first call one particle leaves at the top, one through a corner region on the right,
    one does not leave; the second call uses cells that were collected and new ones. *)
Definition m80 : mesh := mk_mesh 2 [2; 2]%Z 1 [0; 0]%Q 1.
Definition fc80 (x0 y0 x1 y1 nx ny : Q) (id : Z) : facet := mk_facet x0 y0 x1 y1 (nx, ny) 0 id.
Definition ranks80 : list (list (Z * list facet)) :=
  [[(100, [fc80 0 0 2 0 0 1 10]); (101, [fc80 2 0 2 2 (-1) 0 11]); (300, [fc80 1 0 1 2 1 0 20])];
   [(101, [fc80 2 2 0 2 0 (-1) 12]); (102, [fc80 0 2 0 0 1 0 13])]]%Z.
Definition groups80 : list (Z * list Z) := [(1, [100; 102]); (2, [101])]%Z.
Definition dev80 : device := {| ord := fun A k l => rev l; junk := fun _ _ => 0%Z; local_size := 1; max_compute_units := 1 |}.
Definition calls80 : list call :=
  [mk_call dev80 (fun i => Z.of_nat i) 2 [mk_particle 0 [1 # 2; 3 # 2]%Q [1; 5 # 2]%Q; mk_particle 1 [3 # 2; 3 # 2]%Q [5 # 2; 9 # 4]%Q; mk_particle 0 [1 # 2; 1 # 2]%Q [1; 1]%Q];
   mk_call dev80 (fun i => 3%Z) 2 [mk_particle 1 [1 # 4; 1]%Q [-1; 1 # 2]%Q; mk_particle 1 [1; 1]%Q [1 # 2; -1]%Q]].
Definition fe80 (i : nat) : node (list edge) := mk_node 5 None None (repeat true 8) (repeat [] 8).
Definition fn80 (i : nat) : node (Q * Q) := mk_node 5 (Some 3) None (repeat true 8) (repeat (0, 0)%Q 8).
Definition run80 (calls : list call) : option (list (list (Z * list (nat * ((Q * Q) * (Q * Q) * (Z * Z)))))) :=
  b <- construct m80 groups80 (1 # 1000000) 1000000 ranks80 ;;
  r <- run_calls fe80 fn80 b 2 calls ;;
  Some (map (map (fun e => (fst e, map (fun v => (fst v, ((Qred (fst (fst (fst (snd v)))), Qred (snd (fst (fst (snd v))))), snd (fst (snd v)), snd (snd v)))) (snd e)))) (snd r)).
Example C80_example : run80 calls80 = Some
  [[(1%Z, []); (2%Z, [(0, ((3 # 4, 2)%Q, (0, -1)%Q, (2, 12)%Z)); (1, ((2, 15 # 8)%Q, (-1, 0)%Q, (2, 11)%Z))])];
   [(1%Z, [(0, ((0, 9 # 10)%Q, (1, 0)%Q, (1, 13)%Z)); (1, ((3 # 4, 0)%Q, (0, 1)%Q, (1, 10)%Z))]); (2%Z, [])]].
Proof. vm_compute. reflexivity. Qed.

Definition facets80 : list facet :=
  [mk_facet 0 0 2 0 (0, 1)%Q 100 10; mk_facet 2 0 2 2 (-1, 0)%Q 101 11; mk_facet 2 2 0 2 (0, -1)%Q 101 12; mk_facet 0 2 0 0 (1, 0)%Q 102 13]%Q.
Lemma boundary80 f : boundary_facet groups80 ranks80 f -> In f facets80.
Proof.
  intros (sets & item & f0 & g & ls & I1 & I2 & I3 & I4 & I5 & ->). cbn in I1, I4.
  destruct I4 as [[= <- <-]|[[= <- <-]|[]]]; destruct I1 as [<-|[<-|[]]]; cbn in I2; repeat (destruct I2 as [<-|I2]); try destruct I2; cbn in I3, I5; destruct I3 as [<-|[]]; cbn; try tauto; lia.
Qed.
Example C80_example_hypotheses : mesh_ok m80 /\ ndim m80 = 2 /\ groups_ok groups80 /\ (0 <= 1 # 1000000)%Q /\
  (forall f, boundary_facet groups80 ranks80 f -> facet_inside m80 f) /\
  (forall f g, boundary_facet groups80 ranks80 f -> boundary_facet groups80 ranks80 g -> f_id f = f_id g -> f_n f = f_n g) /\
  allocation width8 fe80 /\ allocation width8 fn80 /\ Forall (call_ok m80 2 1000000) calls80.
Proof.
  assert (D : device_ok dev80) by (split; [intros A k l; cbn; symmetry; apply Permutation_rev|cbn; lia]).
  split; [split; [cbn; lia|]; split; [cbn; lia|]; split; [repeat constructor|reflexivity]|]. split; [reflexivity|].
  split; [split; [repeat constructor; cbn; lia|repeat constructor; cbn; lia]|]. split; [discriminate|].
  split; [intros f I; apply boundary80 in I; cbn in I; repeat (destruct I as [<-|I]); try destruct I; vm_compute; repeat split; discriminate|].
  split; [intros f g I J; apply boundary80 in I; apply boundary80 in J; cbn in I, J; repeat (destruct I as [<-|I]); try destruct I; repeat (destruct J as [<-|J]); try destruct J; cbn; congruence|].
  split; [split; reflexivity|]. split; [split; reflexivity|].
  apply Forall_forall. intros c Ic. cbn in Ic. assert (Nr : forall p, In p (flat_map c_particles calls80) -> particle_ok m80 2 1000000 p).
  { intros p Ip. cbn in Ip. repeat (destruct Ip as [<-|Ip]); try destruct Ip; (split; [cbn; lia|]); (split; [split; [reflexivity|]|]; [|split; [split; [reflexivity|]|]; [|split; [reflexivity|]]]); intros i Hi; destruct i as [|[|i]]; try lia; vm_compute; try reflexivity; split; discriminate. }
  assert (Ic' : In c calls80) by exact Ic. split; [|split].
  - destruct Ic as [<-|[<-|[]]]; exact D.
  - destruct Ic as [<-|[<-|[]]]; reflexivity.
  - apply Forall_forall. intros p Ip. apply Nr. apply in_flat_map. exists c. auto.
Qed.

(** The conditions on the particles are needed.  A trajectory that starts on the upper boundary of the mesh hierarchy and leaves: the code
    looks in no cell, although the trajectory meets a facet. *)
Theorem C80_upper_boundary_refuted : exists p f x,
  boundary_facet groups80 ranks80 f /\ crosses f p x /\ run80 [mk_call dev80 (fun _ => 0%Z) 2 [p]] = Some [[(1%Z, []); (2%Z, [])]].
Proof.
  exists (mk_particle 0 [2; 1]%Q [3; 1]%Q), (mk_facet 2 0 2 2 (-1, 0)%Q 101 11), (2, 1)%Q. split; [|split].
  - exists (nth 0 ranks80 []), (101%Z, [fc80 2 0 2 2 (-1) 0 11]), (fc80 2 0 2 2 (-1) 0 11), 2%Z, [101%Z]. cbn. auto 10.
  - split; [vm_compute; discriminate|]. split; [exists (1 # 2)%Q|exists 0%Q]; vm_compute; repeat split; discriminate.
  - vm_compute. reflexivity.
Qed.
Print Assumptions C80_upper_boundary_refuted.

(** With positions of three components, which the checks let pass for a 2D mesh, no crossing is ever found: whatever the particle,
    the groups and the facets. *)
Theorem C80_extra_component_refuted : forall m groups tol max_real ranks b s p,
  mesh_ok m -> ndim m = 2 -> construct m groups tol max_real ranks = Some b -> length (p_prev p) = 3 -> length (p_cur p) = 3 ->
  find_intersection b s 3 p = Some None.
Proof.
  intros m groups tol max_real ranks b s p Hm H2 Hb L1 L2. destruct (built m groups tol max_real ranks b Hm H2 Hb) as (Em & _ & _ & _ & Eb & _).
  unfold find_intersection. destruct (root (s_edges s)) as [r|]; [|reflexivity].
  assert (E : trajectory_cells b 3 (p_prev p) (p_cur p) = Some []); [|rewrite E; reflexivity].
  unfold trajectory_cells. rewrite Em, Eb. cbn [seq mapM]. rewrite !(rd_nth (p_prev p) _ 0%Q), !(rd_nth (p_cur p) _ 0%Q) by lia. cbn [obind].
  assert (C : forall pos, length pos = 3 -> exists a c, map_to_cart_tuple_no_trunc m pos = Some [a; c]).
  { intros pos L. unfold map_to_cart_tuple_no_trunc. rewrite H2. cbn [seq mapM]. pose proof Hm as (_ & O & _). rewrite H2 in O. rewrite !(rd_nth pos _ 0%Q), !(rd_nth (origin m) _ 0%Q) by lia. cbn [obind]. eauto. }
  destruct (C _ L1) as (a1 & c1 & ->). destruct (C _ L2) as (a2 & c2 & ->). cbn [obind]. rewrite H2. cbn [Nat.sub repeat app rd nth_error obind mapM map fst snd]. reflexivity.
Qed.
Print Assumptions C80_extra_component_refuted.
Example C80_extra_component_instance : run80 [mk_call dev80 (fun _ => 0%Z) 3 [mk_particle 0 [1 # 2; 3 # 2; 0]%Q [1; 5 # 2; 0]%Q]] = Some [[(1%Z, []); (2%Z, [])]].
Proof. vm_compute. reflexivity. Qed.
