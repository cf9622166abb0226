(** C83, continued: the second mesh of a coupler, set up with the map of owners and the lookup of points of C83, is one of
    the meshes that C82 assumes, if on each rank the owned cells are the first points. *)
From Coq Require Import List Arith ZArith QArith Bool Lia Permutation.
Import ListNotations.
From Verif Require Import Base Halo_Model Numbering_Model Numbering_Spec Numbering_Proofs Numbering_Props Coupler_Model Coupler_Spec.
Local Open Scope nat_scope.

(** src/external_interfaces/petsc/dmplex_mesh_coupler_dg0.cpp L25-26 and L286: what the coupler takes from the helpers. *)
Definition mesh_of (hs : list helper) (base : Z) (owners : list Z) : mesh_b :=
  MeshB base (map Z.to_nat owners) (map get_cell_count hs)
    (fun r g => h <- rd hs r ;; px <- get_local_point h g ;; if (px <? 0)%Z then None else Some (Z.to_nat px)).

Theorem C83_coupler : forall ps base hs owners owner number maps, ps <> [] -> Forall plex_ok ps -> cells_ok ps base ->
  (forall p, In p ps -> owned_points p = map Z.of_nat (seq 0 (length (owned_points p)))) ->
  mapM make ps = Some hs -> get_map hs = Some (base, owners) ->
  length maps = length ps ->
  (forall m es e, In m maps -> In es m -> In e es ->
     exists p, nth_error ps (owner (e_cell e)) = Some p /\ nth_error (owned_ids p) (number (e_cell e)) = Some (e_cell e)) ->
  mesh_ok owner number (mesh_of hs base owners) maps.
Proof.
  intros ps base hs owners owner number maps NE H C FI Eh Em LM HC.
  destruct (C83_owners ps base NE H C) as (hs' & owners' & Eh' & Em' & _ & OW). rewrite Eh in Eh'. injection Eh' as <-. rewrite Em in Em'. injection Em' as <-.
  rewrite (proj1 (helpers_ok ps H)) in Eh. injection Eh as <-.
  split; [cbn [mesh_of b_count]; rewrite !map_length; symmetry; exact LM|]. intros m es e Im Ie Ic. destruct (HC m es e Im Ie Ic) as (p & Ep & Eg).
  set (g := e_cell e) in *. pose proof (nth_error_In _ _ Eg) as Ig. pose proof (nth_error_In _ _ Ep) as Ip.
  assert (Hp : plex_ok p) by (rewrite Forall_forall in H; auto).
  assert (B : (base <= g)%Z). { destruct C as (_ & _ & PM). assert (I : In g (flat_map owned_ids ps)) by (apply in_flat_map; eauto). apply (Permutation_in _ PM) in I. apply in_map_iff in I. destruct I as (k & <- & _). lia. }
  assert (LN : number g < length (owned_points p)). { assert (X : number g < length (owned_ids p)) by (apply nth_error_Some; congruence). unfold owned_ids in X. rewrite map_length in X. exact X. }
  assert (EG : p_num p (Z.of_nat (number g)) = g).
  { unfold owned_ids in Eg. rewrite nth_error_map, (FI p Ip), nth_error_map, nth_error_seq in Eg. destruct (Nat.ltb_spec (number g) (length (owned_points p))); [|lia]. cbn [option_map Nat.add] in Eg. congruence. }
  assert (L : In (Z.of_nat (number g)) (owned_points p)). { rewrite (FI p Ip). apply in_map, in_seq. lia. }
  split; [|split].
  - unfold owner_of. cbn [mesh_of b_min b_owners]. destruct (Z.ltb_spec g base); [lia|]. unfold rd. rewrite nth_error_map, (OW _ p g Ep Ig). cbn [option_map]. rewrite Nat2Z.id. reflexivity.
  - cbn [mesh_of b_local]. unfold rd. rewrite nth_error_map, Ep. cbn [option_map obind].
    pose proof (local_ok p _ Hp L) as X. rewrite EG in X. rewrite X. cbn [obind]. destruct (Z.ltb_spec (Z.of_nat (number g)) 0); [lia|]. rewrite Nat2Z.id. reflexivity.
  - exists (length (owned_points p)). split; [|exact LN]. cbn [mesh_of b_count]. rewrite !nth_error_map, Ep. cbn [option_map]. unfold get_cell_count. destruct (make_ok p) as (_ & _ & _ & X); [apply Hp|]. rewrite X. reflexivity.
Qed.
Print Assumptions C83_coupler.

(** Three cells on two ranks, with cells of the other rank behind the own cells, and one map entry for each of the three. *)
Definition exc_ps : list plex := [ex_plex [5; 3; -5; 6]%Z 3; ex_plex [4; -4; 7]%Z 2].
Definition exc_owner (g : Z) : nat := if (g =? 4)%Z then 1 else 0.
Definition exc_number (g : Z) : nat := if (g =? 3)%Z then 1 else 0.
Definition exc_maps : list cmap := [[[Entry 4 1%Q 1%Q; Entry 5 1%Q 1%Q]]; [[Entry 3 1%Q 1%Q]]].
Example C83_coupler_example : exists hs, mapM make exc_ps = Some hs /\ get_map hs = Some (3, [0; 1; 0])%Z /\
  mesh_ok exc_owner exc_number (mesh_of hs 3 [0; 1; 0]%Z) exc_maps.
Proof.
  eexists. split; [reflexivity|]. split; [reflexivity|]. eapply (C83_coupler exc_ps 3); try reflexivity; try discriminate.
  - repeat apply Forall_cons; [| |apply Forall_nil]; (apply ex_ok; [repeat constructor; cbn; intuition lia|cbn; lia|discriminate]).
  - split; [lia|]. split; [vm_compute; discriminate|]. vm_compute. apply Permutation_trans with [3; 5; 4]%Z; [apply perm_swap|apply perm_skip, perm_swap].
  - intros p [<-|[<-|[]]]; reflexivity.
  - intros m es e [<-|[<-|[]]] [<-|[]]; [intros [<-|[<-|[]]]|intros [<-|[]]]; eexists; split; reflexivity.
Qed.
