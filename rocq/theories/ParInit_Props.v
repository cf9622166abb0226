(** Properties of parallel initialisation. *)
From Coq Require Import List Arith ZArith QArith Qabs Bool Lia Permutation.
Import ListNotations.
From Verif Require Import Base Kernel Group_Model Group_Spec Group_Proofs Add_Model Pack_Model Pack_Spec Exchange_Model Exchange_Spec Exchange_Props
  Mesh_Model Mesh_Spec CartMesh_Model CartMesh_Spec CartMesh_Props CartMap_Model CartMap_Spec CartMap_Props
  CartMove_Model CartMove_Spec CartMove_Props ParInit_Model ParInit_Proofs.
Local Open Scope nat_scope.

(** For every mesh, number of ranks, distribution of the particles over the
    ranks, number of steps from one on, schedule of every loop on every rank and
    arrival order of the messages of every move: if all positions are in the
    domain then parallel_advection_initialisation succeeds and leaves every
    particle on the rank that owns the cell that contains it.  No particle is lost or
    duplicated, and each has all its values, its position included, except for the two
    components of its rank.  The groups have the properties they had ([groups_ok] for the
    same [spR]), and can be moved again. *)
Theorem C64_initialisation_brings_particles_to_their_rank :
  forall m owners, cmesh_ok m -> owner_map m owners -> int_grid m ->
  forall byte (E : encoding Q byte), encoding_ok E -> forall dev, (forall r, r < csize (comm m) -> device_ok (dev r)) ->
  forall genv lenv, (forall i, envs_ok m (genv i)) -> (forall i, envs_ok m (lenv i)) ->
  forall garr larr, (forall (i r : nat) l, Permutation (garr i r l) l) -> (forall (i r : nat) l, Permutation (larr i r l) l) ->
  forall u uninit spR spZ orig cid pid ncomp rid num_steps gs,
  ndim (hier m) <= ncomp -> ncomp <= 3 -> pid + ncomp <= list_sum (map snd spR) -> 1 <= num_steps ->
  groups_ok m spR spZ cid pid rid gs -> all_inside m pid gs ->
  exists gs', parallel_advection_initialisation E spR spZ m owners dev u genv lenv uninit garr larr orig (list_sum (map snd spR)) cid pid ncomp rid num_steps gs = Some gs' /\
    on_its_rank m pid gs' /\ conserved [rid; rid + 1] gs gs' /\ groups_ok m spR spZ cid pid rid gs'.
Proof.
  intros m owners H OM IG byte E EO dev Hd genv lenv Hg Hl garr larr Ga La u uninit spR spZ orig cid pid ncomp rid n gs ND N3 NP NS G IN.
  eapply (initialisation_ok m H owners OM IG E EO); eauto.
Qed.
Print Assumptions C64_initialisation_brings_particles_to_their_rank.

(** ** Six by four cells of width a half on four ranks, three steps *)
Definition init64 (num_steps : nat) (gs : list (group Q)) :=
  parallel_advection_initialisation enc54 spR54 spZ54 m2 owners2 (fun _ => dev52) (fun _ _ _ _ => 99#1)%Q (fun _ => env54) (fun _ => env54) (fun _ _ => [])
    (fun _ r => arr54 r) (fun _ r => arr54 r) 2 3 0 0 2 1 num_steps gs.
Example C64_instance :
  option_map show54 (init64 2 gs54_in) =
  Some [ [ [([1#5; 3#10; 1#1]%Q, [0; -1; 0]%Z); ([3#10; 2#5; 4#1]%Q, [0; -1; 0]%Z)]; []; []; []; []; [] ];
         [ []; []; []; []; []; [] ];
         [ [([29#10; 7#10; 2#1]%Q, [1; -1; 2]%Z)]; []; []; []; []; [] ];
         [ [([11#5; 6#5; 5#1]%Q, [4; -1; 3]%Z); ([17#10; 11#10; 3#1]%Q, [1; -1; 3]%Z)]; []; []; []; []; [] ] ].
Proof. vm_compute. reflexivity. Qed.
Example C64_instance_hypotheses :
  cmesh_ok m2 /\ owner_map m2 owners2 /\ int_grid m2 /\ encoding_ok enc54 /\ envs_ok m2 env54 /\ device_ok dev52 /\
  (forall r (l : list (nat * message (byte:=Q))), Permutation (arr54 r l) l) /\
  ndim (hier m2) <= 2 /\ 0 + 2 <= list_sum (map snd spR54) /\ list_sum (map snd spR54) = 3 /\
  groups_ok m2 spR54 spZ54 0 0 1 gs54_in /\ all_inside m2 0 gs54_in.
Proof.
  destruct C54_instance_hypotheses as (A & B & IG & _ & EO & EN & AR & G & IN & _). repeat (split; [assumption|]). split; [apply (EN 0); cbn; lia|].
  split; [exact AR|]. split; [cbn; lia|]. split; [cbn; lia|]. split; [reflexivity|]. split; [apply G|exact IN].
Qed.

(** With no steps the call throws, although all positions are in the domain: the
    particles are still at the point they would have started from. *)
Theorem C64_no_steps_refuted : ~ (forall num_steps gs, groups_ok m2 spR54 spZ54 0 0 1 gs -> all_inside m2 0 gs -> init64 num_steps gs <> None).
Proof.
  intros F. destruct C64_instance_hypotheses as (_ & _ & _ & _ & _ & _ & _ & _ & _ & _ & G & I). apply (F 0 gs54_in G I). vm_compute. reflexivity.
Qed.
Print Assumptions C64_no_steps_refuted.

(** The test for a particle that is far from where it should be does not notice
    any distance in a coordinate whose intended value is zero. *)
Theorem C64_distance_from_zero_unnoticed_refuted :
  ~ (forall d pid oid ncomp g g', parallel_advection_restore d pid oid ncomp g = Some g' ->
      forall p i, In p (particles g) -> i < ncomp -> (Qabs (nth (oid + i) (fst p) 0 - nth (pid + i) (fst p) 0) <= 1)%Q).
Proof.
  intros F. specialize (F dev52 0 1 1 (mk_group (mk_store [[[1000#1]]; [[0]]]%Q [[[7%Z]]]) [1]) (mk_group (mk_store [[[0]]]%Q [[[7%Z]]]) [1]) eq_refl ([1000#1; 0]%Q, [7%Z]) 0 (or_introl eq_refl) (le_n 1)).
  apply Qle_bool_iff in F. discriminate F.
Qed.
Print Assumptions C64_distance_from_zero_unnoticed_refuted.

(** A position property with four components: the vector with the starting point has
    three, the kernel reads behind it. *)
Theorem C64_four_position_components_refuted : forall m d u pid rank g, cmesh_ok m -> rank < csize (comm m) -> device_ok d -> wf_group g -> particles g <> [] ->
  parallel_advection_store m d u pid 4 rank g = None.
Proof.
  intros m d u pid rank g H R Hd W NE. unfold parallel_advection_store. destruct (C52_point_in_the_subdomain m rank H R) as (pt & Ept & Lpt & _). rewrite Ept. cbn [obind].
  pose proof (CartMesh_Proofs.nd_le m H) as N3. unfold loop_all. cbn [add_dat npart_cell Group_Model.st].
  assert (P : Permutation (ord d 320 (all_particles (npart_cell g))) (all_particles (npart_cell g))) by apply (proj1 Hd).
  destruct (ord d 320 (all_particles (npart_cell g))) as [|w ws].
  { exfalso. apply NE. rewrite Exchange_Proofs.particles_pv by exact W. apply Permutation_nil in P. rewrite P. reflexivity. }
  cbn [foldM]. unfold loop_item. destruct (particle_at _ _ _) as [p|]; [|reflexivity]. cbn [obind]. unfold store_kernel.
  assert (L3 : rd (pt ++ repeat 0%Q (3 - length pt)) 3 = None) by (unfold rd; apply nth_error_None; rewrite app_length, repeat_length; lia).
  cbn [seq mapM]. repeat (match goal with |- context [rd (fst p) ?i] => destruct (rd (fst p) i); [|reflexivity] end; cbn [obind];
    try (rewrite L3; cbn [obind]; reflexivity); match goal with |- context [rd ?l ?i] => destruct (rd l i); [|reflexivity] end; cbn [obind]).
Qed.
Print Assumptions C64_four_position_components_refuted.
Example C64_four_position_components_instance : cmesh_ok m2 /\ 0 < csize (comm m2) /\ device_ok dev52 /\ wf_group (nth 0 gs54_in (mk_group (mk_store [] []) [])) /\
  particles (nth 0 gs54_in (mk_group (mk_store [] []) [])) <> [].
Proof.
  destruct C64_instance_hypotheses as (A & _ & _ & _ & _ & D & _). split; [exact A|]. split; [cbn; lia|]. split; [exact D|]. split; [apply wf_groupb_sound; reflexivity|discriminate].
Qed.
