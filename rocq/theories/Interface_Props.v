(** C74: after the set up of an unstructured mesh each rank has the elements it needs to find the cell of every particle it is sent. *)
From Coq Require Import List Arith ZArith QArith Bool Lia Lqa Permutation.
Import ListNotations.
From Verif Require Import Base Kernel Mesh_Model Mesh_Spec Mesh_Proofs MeshNb_Proofs MeshPos_Proofs Serial_Model MHC_Model CellRep_Model CellRep_Spec CellRep_Proofs Halo_Model Overlap_Model Overlap_Spec.
From Verif Require Import OverlapClaim_Proofs Interface_Model Interface_Spec InterfaceClaim_Proofs Interface_Proofs.
From Verif Require MHC_Spec MHC_Props Halo_Spec Halo_Props.
Open Scope Z_scope.

(** What all ranks need for the set up. *)
Definition set_up_ok (ni : nat) (G : Halo_Spec.mesh) (m : mesh) (nodes : list (list nat)) (sched1 sched2 : nat -> list (nat * Z) -> list (nat * Z))
    (maps0 : list (list Z)) (find0 find1 : remote) (ranks : list rank_mesh) : Prop :=
  width ni /\ mesh_ok m /\ (ndim m <= 3)%nat /\ Halo_Spec.mesh_ok (ndim m) G /\
  Forall (rank_ok ni G) ranks /\ apart ranks /\ Z.of_nat (length ranks) < 2 ^ 31 /\ not_too_large ni m ranks /\
  (* each rank is on a node; the windows can be updated in any order; what was in the maps does not matter *)
  nodes <> [] /\ Forall (fun l => l <> []) nodes /\ (forall r, In r (concat nodes) <-> (r < length ranks)%nat) /\
  (forall k l, Permutation (sched1 k l) l) /\ (forall k l, Permutation (sched2 k l) l) /\
  length maps0 = length nodes /\ Forall (fun mp => length mp = Z.to_nat (ncells m)) maps0 /\
  (* the ranks that send are discovered in any order *)
  MHC_Spec.finds (length ranks) find0 /\ MHC_Spec.finds (length ranks) find1.

Theorem C74_set_up : forall ni G m nodes sched1 sched2 maps0 find0 find1 ranks, set_up_ok ni G m nodes sched1 sched2 maps0 find0 find1 ranks ->
  exists owners out, set_up ni m nodes sched1 sched2 maps0 find0 find1 ranks = Some (owners, out) /\ length out = length ranks /\
    (* an owner has claimed its cell, and what is claimed has an owner *)
    (forall t r, cell_tuple m t -> owner owners m t r -> claims_cell m ranks r t) /\
    (forall t r, cell_tuple m t -> claims_cell m ranks r t -> exists o, (o < length ranks)%nat /\ owner owners m t o) /\
    forall r cells h nb, nth_error out r = Some (cells, h, nb) ->
      (* the cells that the rank gets: those of the others that meet a mesh hierarchy cell it reaches and that somebody owns *)
      (forall msg, In msg cells <-> exists s n b t, s <> r /\ element ni ranks s n b msg /\ meets m b t /\ reached m ranks owners r t /\ exists o, (o < length ranks)%nat /\ owner owners m t o) /\
      (* the mesh made of them is that part of the mesh, and says of each cell which rank has it under which number *)
      (exists new, Halo_Spec.halo_ok G (ndim m) cells h new /\
         forall msg, In msg cells -> map_get (h_remote h) (new (global_id msg)) = Some (owning_rank msg, local_id msg, global_id msg)) /\
      (* the ranks to talk to *)
      ascending nb /\ (forall s, In s nb <-> exists msg, In msg cells /\ owning_rank msg = s).
Proof.
  intros ni G m nodes sched1 sched2 maps0 find0 find1 ranks (W & Hm & H3 & HG & Hr & Ha & Hs & Hl & N0 & N1 & N2 & S1 & S2 & M0 & M1 & F0 & F1).
  destruct (owners_ok ni G m ranks Hm H3 Hr nodes sched1 sched2 maps0 S1 S2 N0 N1 N2 M0 M1) as (owners & maps & E1 & E2 & Lo & O1 & O2).
  destruct (create_ok ni G m ranks W Hm H3 HG Hr Hs nodes maps0 M0 owners Lo find0 find1 F0 F1 Hl) as (out & E3 & Lt & Ho).
  exists owners, out. split.
  - unfold set_up. rewrite (lcs_ok ni G m ranks Hm H3 Hr). cbn [obind]. rewrite (made_all m ranks H3). cbn [obind]. rewrite (ncells_global_correct m Hm). cbn [obind]. change (fun r => nth r (map (fun rm => made m (rk_boxes rm)) ranks) []) with (made_by m ranks). rewrite E1. cbn [obind]. rewrite E2. cbn [obind]. rewrite E3. reflexivity.
  - split; [exact Lt|]. split; [intros t r C O; apply (O1 t r C O)|]. split; [exact O2|]. intros r cells h nb E. destruct (Ho r cells h nb E) as (A & B & C). split; [exact A|]. apply (halo_facts ni G m ranks W H3 HG Hr Hs Ha nodes maps0 M0 owners Lo r cells h nb A B C).
Qed.
Print Assumptions C74_set_up.

(** The owner of the mesh hierarchy cell of a position has every element the position can be in: its own or in its halo. *)
Theorem C74_position : forall ni G m nodes sched1 sched2 maps0 find0 find1 ranks owners out x t r cells h nb s n b msg,
  set_up_ok ni G m nodes sched1 sched2 maps0 find0 find1 ranks -> set_up ni m nodes sched1 sched2 maps0 find0 find1 ranks = Some (owners, out) ->
  (ndim m <= length x)%nat -> map_to_tuple m x = Some t -> owner owners m t r -> nth_error out r = Some (cells, h, nb) ->
  element ni ranks s n b msg -> in_element m b x -> s = r \/ In msg cells.
Proof.
  intros ni G m nodes sched1 sched2 maps0 find0 find1 ranks owners out x t r cells h nb s n b msg H E Lx Et Ow Eo El I. destruct (Nat.eq_dec s r) as [->|N]; [left; reflexivity|right].
  destruct (C74_set_up _ _ _ _ _ _ _ _ _ _ H) as (owners' & out' & E' & _ & O1 & O2 & Ho). assert (owners' = owners /\ out' = out) as (-> & ->) by (split; congruence).
  destruct H as (W & Hm & H3 & _). destruct (map_to_tuple_inside m x Hm Lx) as (t' & T1 & T2 & T3); [intros i L; destruct (I i L) as (A & [(B1 & B2 & B3)|(B1 & B2 & B3)]); lra|]. assert (t' = t) by congruence. subst t'.
  destruct (Ho r cells h nb Eo) as (A & _). apply A. exists s, n, b, t. split; [exact N|]. split; [exact El|]. split; [apply (position_meets m Hm H3 b x t T2 T3); intros i L; apply I; exact L|].
  pose proof (O1 t r T2 Ow) as Cl. split; [split; [exact T2|left; exact Cl]|]. apply (O2 t r T2 Cl).
Qed.
Print Assumptions C74_position.

(** ** The two triangles of C70 on two ranks; six by one mesh hierarchy cells. *)
Definition m74 : mesh := mk_mesh 2 [6; 1] 0 [0; 0]%Q 1.
Definition near74 : list box := [[1 # 4; 0; 0; 5 # 2; 1; 0]; [5 # 2; 0; 0; 11 # 2; 1; 0]]%Q.
Definition far74 : list box := [[1 # 4; 0; 0; 3 # 2; 1; 0]; [7 # 2; 0; 0; 11 # 2; 1; 0]]%Q.
Definition ranks74 (boxes : list box) : option (list rank_mesh) :=
  h0 <- make_helper Halo_Props.hx_dm0 Halo_Props.hx_num0 0 1 ;; h1 <- make_helper Halo_Props.hx_dm1 Halo_Props.hx_num1 0 1 ;;
  match boxes with [b0; b1] => Some [mk_rank h0 (fun _ => 4) [b0]; mk_rank h1 (fun _ => 4) [b1]] | _ => None end.
Definition set_up74 (boxes : list box) : option (list Z * list (list (Z * Z) * list Z * list Z)) :=
  ranks <- ranks74 boxes ;;
  x <- set_up 8 m74 [[0; 1]]%nat (fun _ l => l) (fun _ l => rev l) [repeat 7 6] MHC_Props.find_down MHC_Props.find_down ranks ;;
  Some (fst x, map (fun y => (map (fun c => (owning_rank c, global_id c)) (fst (fst y)), map fst (h_remote (snd (fst y))), snd y)) (snd x)).
(** Near: the third cell is half rank 0's and half rank 1's, the larger rank owns it; both ranks get the triangle of the other once per mesh
    hierarchy cell that it meets and they reach. *)
Example C74_near : set_up74 near74 = Some ([0; 0; 1; 1; 1; 1], [([(1, 1)], [0; 1; 2; 3; 4; 5; 6], [1]); ([(0, 0); (0, 0)], [0; 1; 2; 3; 4; 5; 6], [0])]).
Proof. vm_compute. reflexivity. Qed.
(** Far: nobody owns the third cell, and the ranks get nothing of each other. *)
Example C74_far : set_up74 far74 = Some ([0; 0; - 2 ^ 31; 1; 1; 1], [([], [], []); ([], [], [])]).
Proof. vm_compute. reflexivity. Qed.
Example C74_hypotheses : exists ranks, ranks74 near74 = Some ranks /\
  set_up_ok 8 Halo_Props.hx m74 [[0; 1]]%nat (fun _ l => l) (fun _ l => rev l) [repeat 7 6] MHC_Props.find_down MHC_Props.find_down ranks.
Proof.
  unfold ranks74. destruct (make_helper Halo_Props.hx_dm0 Halo_Props.hx_num0 0 1) as [h0|] eqn:E0; [|discriminate]. cbn [obind]. destruct (make_helper Halo_Props.hx_dm1 Halo_Props.hx_num1 0 1) as [h1|] eqn:E1; [|discriminate]. cbn [obind near74]. eexists. split; [reflexivity|].
  assert (K0 : forall i p, get_dmplex_cell_index h0 i = Some p -> p = 0). { intros i p. injection E0 as <-. unfold get_dmplex_cell_index, znth. cbn [np_to_petsc]. destruct (0 <=? i); [|discriminate]. destruct (Z.to_nat i) as [|[|k]]; vm_compute; congruence. }
  assert (K1 : forall i p, get_dmplex_cell_index h1 i = Some p -> p = 0). { intros i p. injection E1 as <-. unfold get_dmplex_cell_index, znth. cbn [np_to_petsc]. destruct (0 <=? i); [|discriminate]. destruct (Z.to_nat i) as [|[|k]]; vm_compute; congruence. }
  split; [right; reflexivity|]. split; [split; [cbn; lia|split; [cbn; lia|split; [repeat constructor|reflexivity]]]|]. split; [cbn; lia|]. split; [exact Halo_Props.hx_mesh_ok|]. split; [|split; [|split; [reflexivity|split; [|split; [discriminate|split; [repeat constructor; discriminate|]]]]]].
  - repeat constructor.
    + exists Halo_Props.hx_dm0, Halo_Props.hx_num0, 0, 1. split; [exact Halo_Props.hx_part0|]. split; [cbn; lia|]. split; [exact E0|]. split; [injection E0 as <-; reflexivity|]. split; [repeat constructor|]. split; [reflexivity|]. split; [intros i p X; rewrite (K0 i p X); apply Halo_Props.hx_small; cbn; lia|]. intros p. split; [discriminate|reflexivity].
    + exists Halo_Props.hx_dm1, Halo_Props.hx_num1, 0, 1. split; [exact Halo_Props.hx_part1|]. split; [cbn; lia|]. split; [exact E1|]. split; [injection E1 as <-; reflexivity|]. split; [repeat constructor|]. split; [reflexivity|]. split; [intros i p X; rewrite (K1 i p X); apply Halo_Props.hx_small; cbn; lia|]. intros p. split; [discriminate|reflexivity].
  - intros r s a b i j p q Ea Eb X Y Z. destruct r as [|[|r]]; cbn in Ea; [| |destruct r; discriminate]; destruct s as [|[|s]]; cbn in Eb; try (destruct s; discriminate); try reflexivity; exfalso; injection Ea as <-; injection Eb as <-; cbn [rk_helper] in *.
    + rewrite (K0 i p X), (K1 j q Y) in Z. injection E0 as <-. injection E1 as <-. discriminate.
    + rewrite (K1 i p X), (K0 j q Y) in Z. injection E0 as <-. injection E1 as <-. discriminate.
  - intros lcs data A B. injection E0 as <-. injection E1 as <-. vm_compute in A. injection A as <-. vm_compute in B. injection B as <-. vm_compute. reflexivity.
  - split; [intros r; cbn; lia|]. split; [reflexivity|]. split; [intros k l; symmetry; apply Permutation_rev|]. split; [reflexivity|]. split; [repeat constructor|]. split; apply MHC_Props.find_down_finds.
Qed.
